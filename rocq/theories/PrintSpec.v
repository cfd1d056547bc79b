(** What printing has to keep (C30), independent of the printer. *)
From Verif Require Import Base Ast Utf8 Quote Lex ParseSpec ShapeSpec.
From Verif Require Import Print.   (* trimSpace: strings.TrimSpace; isDifferentLines *)

(** The meaning of a tree: its shape without parentheses and without the spelling of strings. *)
Fixpoint plain (e : expr) : expr :=
  match e with
  | EParen _ _ x _ _ => plain x
  | EStr s => EStr (Str (s_com s) (s_start s) (s_value s) (s_triple s) (s_end s) [])
  | EFile c m l => EFile c m (map (option_map plain) l)
  | ECommentBlock _ _ | EIdent _ | EBranch _ _ _ | ELit _ _ _ => e
  | ECall c x a l d f g => ECall c (plain x) a (map plain l) d f g
  | ELoad c p m fr to r g => ELoad c p (Str (s_com m) (s_start m) (s_value m) (s_triple m) (s_end m) []) fr to r g
  | ETyped c i t => ETyped c i (plain t)
  | EDot c x a b n => EDot c (plain x) a b n
  | EList c a l b d => EList c a (map plain l) b d
  | ESet c a l b d => ESet c a (map plain l) b d
  | EDict c a l b d => EDict c a (map plain l) b d
  | EComp c curly a x l b d => EComp c curly a (plain x) (map plain l) b d
  | EForC c a x b y => EForC c a (plain x) b (plain y)
  | EIfC c a x => EIfC c a (plain x)
  | EKV c x a y => EKV c (plain x) a (plain y)
  | ETuple c nobr a l b d f => ETuple c nobr a (map plain l) b d f
  | EUnary c a op x => EUnary c a op (option_map plain x)
  | EBinary c x a op b y => EBinary c (plain x) a op b (plain y)
  | EAssign c x a op b y => EAssign c (plain x) a op b (plain y)
  | ECond c x a y b z => ECond c (plain x) a (plain y) b (plain z)
  | ESlice c x a u b v d w f => ESlice c (plain x) a (option_map plain u) b (option_map plain v) d (option_map plain w) f
  | EIndex c x a y b => EIndex c (plain x) a (plain y) b
  | ELambda c a ps b => ELambda c a (map plain ps) (map plain b)
  | EReturn c a x => EReturn c a (option_map plain x)
  | EDef c a ps b n d f g ty => EDef c a (map plain ps) (map plain b) n d f g (option_map plain ty)
  | EFor c a x y b => EFor c a (plain x) (plain y) (map plain b)
  | EIf c a x t d f => EIf c a (plain x) (map plain t) d (map plain f)
  end.
Definition meaning (e : expr) : expr := plain (shape e).
Definition meanings (l : list expr) : list expr := map meaning (code l).

(** Trees that can be printed safely.  A comment is a line that starts with # (or an empty one). *)
Definition fine (c : comment) : Prop :=
  ~ In c_nl (trimSpace (c_tok c)) /\ (trimSpace (c_tok c) = [] \/ exists s, trimSpace (c_tok c) = c_hash :: s).
Definition fine_coms (c : comments) : Prop := Forall fine (c_before c) /\ Forall fine (c_suffix c) /\ Forall fine (c_after c).
Definition fine_id (i : ident) : Prop := fine_coms (i_com i).
Definition fine_str (s : strlit) : Prop := fine_coms (s_com s) /\ print_string (s_value s) (s_triple s) (s_token s) <> Panic.
(** Where an expression stands: outside brackets, in a tuple without parentheses that is outside brackets, inside brackets. *)
Inductive place := Outside | InTuple | Inside.
Definition all_of {A} (P : A -> Prop) : list A -> Prop := fix go l := match l with [] => True | x :: l' => P x /\ go l' end.
Definition if_any {A} (P : A -> Prop) (o : option A) : Prop := match o with Some x => P x | None => True end.
(** No line breaks in a tuple without parentheses outside brackets; no comments before an expression outside brackets;
    no comments on the elements of a tuple without parentheses.  A slice has its second colon if it has a third part. *)
Fixpoint tidy (w : place) (e : expr) : Prop :=
  let sub w x := (w <> Inside -> c_before (com x) = []) /\ tidy w x in
  let inner := all_of (sub Inside) in
  let block := all_of (tidy Outside) in
  fine_coms (com e) /\
  match e with
  | EFile _ _ _ => False
  | ECommentBlock c _ => c_after c <> []
  | EIdent _ | EBranch _ _ _ | ELit _ _ _ => True
  | EStr s => fine_str s
  | ECall _ x _ l en _ _ => sub w x /\ inner l /\ fine_coms (e_com en)
  | ELoad _ _ m fr to r _ => fine_str m /\ Forall fine_id fr /\ Forall fine_id to /\ fine_coms (e_com r)
  | ETyped _ i t => fine_id i /\ (w <> Inside -> c_before (i_com i) = []) /\ sub w t
  | EDot _ x _ np _ => sub w x /\ (w = InTuple -> isDifferentLines np (end_pos x) = false)
  | EList _ _ l en _ | ESet _ _ l en _ | EDict _ _ l en _ => inner l /\ fine_coms (e_com en)
  | EComp _ _ _ x l _ en => sub Inside x /\ inner l /\ fine_coms (e_com en)
  | EForC _ _ x _ y => sub w x /\ sub w y
  | EIfC _ _ x => sub w x
  | EKV _ x _ y => sub w x /\ sub w y
  | ETuple _ nobr _ l en _ _ =>
      if nobr then
        all_of (fun x => c_before (com x) = [] /\ c_suffix (com x) = [] /\ tidy (match w with Inside => Inside | _ => InTuple end) x) l
        /\ c_before (e_com en) = []
      else inner l /\ fine_coms (e_com en)
  | EUnary _ _ _ x => if_any (sub w) x
  | EBinary _ x _ _ br y | EAssign _ x _ _ br y => sub w x /\ sub w y /\ (w = InTuple -> br = false)
  | ECond _ x _ y _ z => sub w x /\ sub w y /\ sub w z
  | EParen _ _ x en _ => sub Inside x /\ fine_coms (e_com en)
  | ESlice _ x _ u _ v c2 s _ => sub w x /\ if_any (sub Inside) u /\ if_any (sub Inside) v /\ if_any (sub Inside) s /\ (s <> None -> p_byte c2 <> 0%Z)
  | EIndex _ x _ y _ => sub w x /\ sub Inside y
  | ELambda _ _ ps b => all_of (sub w) ps /\ all_of (sub w) b
  | EReturn _ _ x => if_any (sub w) x
  | EDef _ _ ps b _ _ _ _ ty => inner ps /\ if_any (sub Outside) ty /\ block b
  | EFor _ _ x y b => sub Outside x /\ sub Outside y /\ block b
  | EIf _ _ x t ep f => sub Outside x /\ block t /\ block f /\ fine_coms (e_com ep)
  end.
Definition tidy_file (f : expr) : Prop :=
  match f with
  | EFile c _ l => fine_coms c /\ Forall (fun o => match o with Some x => tidy Outside x | None => True end) l
  | _ => False
  end.

(** The same without what is said of comments. *)
Definition printable (s : strlit) : Prop := print_string (s_value s) (s_triple s) (s_token s) <> Panic.
Fixpoint layout (w : place) (e : expr) : Prop :=
  let sub w x := (w <> Inside -> c_before (com x) = []) /\ layout w x in
  let inner := all_of (sub Inside) in
  let block := all_of (layout Outside) in
  match e with
  | EFile _ _ _ => False
  | ECommentBlock c _ => c_after c <> []
  | EIdent _ | EBranch _ _ _ | ELit _ _ _ => True
  | EStr s => printable s
  | ECall _ x _ l _ _ _ => sub w x /\ inner l
  | ELoad _ _ m _ _ _ _ => printable m
  | ETyped _ i t => (w <> Inside -> c_before (i_com i) = []) /\ sub w t
  | EDot _ x _ np _ => sub w x /\ (w = InTuple -> isDifferentLines np (end_pos x) = false)
  | EList _ _ l _ _ | ESet _ _ l _ _ | EDict _ _ l _ _ => inner l
  | EComp _ _ _ x l _ _ => sub Inside x /\ inner l
  | EForC _ _ x _ y => sub w x /\ sub w y
  | EIfC _ _ x => sub w x
  | EKV _ x _ y => sub w x /\ sub w y
  | ETuple _ nobr _ l en _ _ =>
      if nobr then
        all_of (fun x => c_before (com x) = [] /\ c_suffix (com x) = [] /\ layout (match w with Inside => Inside | _ => InTuple end) x) l
        /\ c_before (e_com en) = []
      else inner l
  | EUnary _ _ _ x => if_any (sub w) x
  | EBinary _ x _ _ br y | EAssign _ x _ _ br y => sub w x /\ sub w y /\ (w = InTuple -> br = false)
  | ECond _ x _ y _ z => sub w x /\ sub w y /\ sub w z
  | EParen _ _ x _ _ => sub Inside x
  | ESlice _ x _ u _ v c2 s _ => sub w x /\ if_any (sub Inside) u /\ if_any (sub Inside) v /\ if_any (sub Inside) s /\ (s <> None -> p_byte c2 <> 0%Z)
  | EIndex _ x _ y _ => sub w x /\ sub Inside y
  | ELambda _ _ ps b => all_of (sub w) ps /\ all_of (sub w) b
  | EReturn _ _ x => if_any (sub w) x
  | EDef _ _ ps b _ _ _ _ ty => inner ps /\ if_any (sub Outside) ty /\ block b
  | EFor _ _ x y b => sub Outside x /\ sub Outside y /\ block b
  | EIf _ _ x t _ f => sub Outside x /\ block t /\ block f
  end.
Definition layout_file (f : expr) : Prop :=
  match f with
  | EFile _ _ l => all_of (if_any (layout Outside)) l
  | _ => False
  end.
Definition stmts_of (f : expr) : list expr :=
  match f with EFile _ _ l => flat_map (fun o => match o with Some x => [x] | None => [] end) l | _ => [] end.
