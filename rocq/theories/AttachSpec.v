(** What comment assignment has to achieve (C31). *)
From Verif Require Import Base Ast.
From Verif Require Import Attach.   (* for the tree of nodes with their spans *)

(** Every comment anywhere in a tree. *)
Definition coms_of (c : comments) : list comment := c_before c ++ c_suffix c ++ c_after c.
Definition end_coms (d : endp) : list comment := coms_of (e_com d).
Definition id_coms (i : ident) : list comment := coms_of (i_com i).
Definition str_coms (s : strlit) : list comment := coms_of (s_com s).
Definition opt_coms {A} (f : A -> list comment) (o : option A) : list comment := match o with Some x => f x | None => [] end.
Fixpoint every (e : expr) : list comment :=
  coms_of (com e) ++
  match e with
  | EFile _ _ l => flat_map (opt_coms every) l
  | ECommentBlock _ _ | EIdent _ | EBranch _ _ _ | ELit _ _ _ | EStr _ => []
  | ECall _ x _ l d _ _ => every x ++ flat_map every l ++ end_coms d
  | ELoad _ _ m fr to r _ => str_coms m ++ flat_map id_coms fr ++ flat_map id_coms to ++ end_coms r
  | ETyped _ i t => id_coms i ++ every t
  | EDot _ x _ _ _ => every x
  | EList _ _ l d _ | ESet _ _ l d _ | EDict _ _ l d _ | ETuple _ _ _ l d _ _ => flat_map every l ++ end_coms d
  | EComp _ _ _ b l _ d => every b ++ flat_map every l ++ end_coms d
  | EForC _ _ v _ x => every v ++ every x
  | EIfC _ _ x => every x
  | EKV _ k _ v => every k ++ every v
  | EUnary _ _ _ x => opt_coms every x
  | EBinary _ x _ _ _ y | EAssign _ x _ _ _ y => every x ++ every y
  | ECond _ a _ b _ d => every a ++ every b ++ every d
  | EParen _ _ x d _ => every x ++ end_coms d
  | ESlice _ x _ a _ b _ d _ => every x ++ opt_coms every a ++ opt_coms every b ++ opt_coms every d
  | EIndex _ x _ y _ => every x ++ every y
  | ELambda _ _ ps b => flat_map every ps ++ flat_map every b
  | EReturn _ _ x => opt_coms every x
  | EDef _ _ ps b _ _ _ _ ty => flat_map every ps ++ flat_map every b ++ opt_coms every ty
  | EFor _ _ v x b => every v ++ every x ++ flat_map every b
  | EIf _ _ x t d f => every x ++ flat_map every t ++ end_coms d ++ flat_map every f
  end.
(** The tree without any comments. *)
Definition strip_end (d : endp) : endp := End no_com (e_pos d).
Definition strip_id (i : ident) : ident := Ident no_com (i_pos i) (i_name i).
Definition strip_str (s : strlit) : strlit := Str no_com (s_start s) (s_value s) (s_triple s) (s_end s) (s_token s).
Fixpoint strip (e : expr) : expr :=
  match e with
  | EFile _ m l => EFile no_com m (map (option_map strip) l)
  | ECommentBlock _ a => ECommentBlock no_com a
  | EIdent i => EIdent (strip_id i)
  | EBranch _ a b => EBranch no_com a b
  | ELit _ a b => ELit no_com a b
  | EStr s => EStr (strip_str s)
  | ECall _ x a l d g h => ECall no_com (strip x) a (map strip l) (strip_end d) g h
  | ELoad _ a m fr to d g => ELoad no_com a (strip_str m) (map strip_id fr) (map strip_id to) (strip_end d) g
  | ETyped _ i t => ETyped no_com (strip_id i) (strip t)
  | EDot _ x a b d => EDot no_com (strip x) a b d
  | EList _ a l d g => EList no_com a (map strip l) (strip_end d) g
  | ESet _ a l d g => ESet no_com a (map strip l) (strip_end d) g
  | EDict _ a l d g => EDict no_com a (map strip l) (strip_end d) g
  | EComp _ a b x l g d => EComp no_com a b (strip x) (map strip l) g (strip_end d)
  | EForC _ a v b x => EForC no_com a (strip v) b (strip x)
  | EIfC _ a x => EIfC no_com a (strip x)
  | EKV _ x a y => EKV no_com (strip x) a (strip y)
  | ETuple _ nobr a l d g h => ETuple no_com nobr a (map strip l) (strip_end d) g h
  | EUnary _ a b x => EUnary no_com a b (option_map strip x)
  | EBinary _ x a b d y => EBinary no_com (strip x) a b d (strip y)
  | EAssign _ x a b d y => EAssign no_com (strip x) a b d (strip y)
  | ECond _ x a y b z => ECond no_com (strip x) a (strip y) b (strip z)
  | EParen _ a x d g => EParen no_com a (strip x) (strip_end d) g
  | ESlice _ x a u b v d w g => ESlice no_com (strip x) a (option_map strip u) b (option_map strip v) d (option_map strip w) g
  | EIndex _ x a y b => EIndex no_com (strip x) a (strip y) b
  | ELambda _ a ps b => ELambda no_com a (map strip ps) (map strip b)
  | EReturn _ a x => EReturn no_com a (option_map strip x)
  | EDef _ a ps b d g h i j => EDef no_com a (map strip ps) (map strip b) d g h i (option_map strip j)
  | EFor _ a v x b => EFor no_com a (strip v) (strip x) (map strip b)
  | EIf _ a x t d f => EIf no_com a (strip x) (map strip t) (strip_end d) (map strip f)
  end.

(** The nodes of a tree in the order of their first tokens, outer nodes first; and their indices in the
    order of their last tokens, inner nodes first. *)
Definition nodes (e : expr) : list rose := preorder (skel e).
Definition by_end (e : expr) : list nat := postorder 0 (skel e).
(** A line comment belongs to the first node that starts after it. *)
Definition line_owner (e : expr) (c : comment) : option nat :=
  find (fun i => match nth_error (nodes e) i with Some x => (c_byte c <=? r_start x)%Z | None => false end)
       (seq 0 (List.length (nodes e))).
(** A suffix comment belongs to the last node that ends before it and is not a block. *)
Definition suffix_owner (e : expr) (c : comment) : option nat :=
  find (fun i => match nth_error (nodes e) i with Some x => negb (r_block x) && (r_stop x <=? c_byte c)%Z | None => false end)
       (rev (by_end e)).
Definition owned (owner : comment -> option nat) (o : option nat) (l : list comment) : list comment :=
  filter (fun c => match owner c, o with Some i, Some j => Nat.eqb i j | None, None => true | _, _ => false end) l.
Definition in_order (l : list comment) : Prop := StronglySorted (fun a b => (c_byte a <= c_byte b)%Z) l.
