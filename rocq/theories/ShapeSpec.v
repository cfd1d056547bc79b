(** What a tree says, without where and how it was written: no positions, no comments, no layout choices; blocks that
    hold only comments are left out of the bodies. *)
From Verif Require Import Base Ast ParseSpec.

Definition bare_id (i : ident) : ident := Ident no_com no_pos (i_name i).
Definition bare_str (s : strlit) : strlit := Str no_com no_pos (s_value s) (s_triple s) no_pos (s_token s).
Definition no_end : endp := End no_com no_pos.
Fixpoint shape (e : expr) : expr :=
  let body := flat_map (fun s => if is_code s then [shape s] else []) in
  match e with
  | EFile _ m l => EFile no_com m (map (option_map shape) l)
  | ECommentBlock _ _ => ECommentBlock no_com no_pos
  | EIdent i => EIdent (bare_id i)
  | EBranch _ tok _ => EBranch no_com tok no_pos
  | ELit _ _ tok => ELit no_com no_pos tok
  | EStr s => EStr (bare_str s)
  | ECall _ x _ l _ _ _ => ECall no_com (shape x) no_pos (map shape l) no_end false false
  | ELoad _ _ m fr to _ _ => ELoad no_com no_pos (bare_str m) (map bare_id fr) (map bare_id to) no_end false
  | ETyped _ i t => ETyped no_com (bare_id i) (shape t)
  | EDot _ x _ _ n => EDot no_com (shape x) no_pos no_pos n
  | EList _ _ l _ _ => EList no_com no_pos (map shape l) no_end false
  | ESet _ _ l _ _ => ESet no_com no_pos (map shape l) no_end false
  | EDict _ _ l _ _ => EDict no_com no_pos (map shape l) no_end false
  | EComp _ curly _ x l _ _ => EComp no_com curly no_pos (shape x) (map shape l) false no_end
  | EForC _ _ v _ x => EForC no_com no_pos (shape v) no_pos (shape x)
  | EIfC _ _ x => EIfC no_com no_pos (shape x)
  | EKV _ x _ y => EKV no_com (shape x) no_pos (shape y)
  | ETuple _ nobr _ l _ _ _ => ETuple no_com nobr no_pos (map shape l) no_end false false
  | EUnary _ _ op x => EUnary no_com no_pos op (option_map shape x)
  | EBinary _ x _ op _ y => EBinary no_com (shape x) no_pos op false (shape y)
  | EAssign _ x _ op _ y => EAssign no_com (shape x) no_pos op false (shape y)
  | ECond _ x _ y _ z => ECond no_com (shape x) no_pos (shape y) no_pos (shape z)
  | EParen _ _ x _ _ => EParen no_com no_pos (shape x) no_end false
  | ESlice _ x _ u _ v _ w _ => ESlice no_com (shape x) no_pos (option_map shape u) no_pos (option_map shape v) no_pos (option_map shape w) no_pos
  | EIndex _ x _ y _ => EIndex no_com (shape x) no_pos (shape y) no_pos
  | ELambda _ _ ps b => ELambda no_com no_pos (map shape ps) (map shape b)
  | EReturn _ _ x => EReturn no_com no_pos (option_map shape x)
  | EDef _ _ ps b n _ _ _ ty => EDef no_com no_pos (map shape ps) (body b) n no_pos false false (option_map shape ty)
  | EFor _ _ v x b => EFor no_com no_pos (shape v) (shape x) (body b)
  | EIf _ _ x t _ f => EIf no_com no_pos (shape x) (body t) no_end (body f)
  end.
(** The same for a sequence of statements. *)
Definition shapes (l : list expr) : list expr := map shape (code l).
