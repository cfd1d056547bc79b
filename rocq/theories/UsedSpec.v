(** Which names a file uses (C71, C72); nothing here refers to the tools. *)
From Verif Require Import Base Ast WalkSpec.

(** [code_part e x]: [x] is a part of [e] that is evaluated (not a type annotation, not a name in a load, not a name that is
    assigned). *)
Definition code_part (e x : expr) : Prop :=
  match e with
  | ETyped _ _ _ | ELoad _ _ _ _ _ _ _ => False
  | EAssign _ l _ _ _ r => x = r \/ (x = l /\ forall i, l <> EIdent i)
  | EDef _ _ ps b _ _ _ _ _ => In x ps \/ In x b
  | _ => sub e x
  end.
(** The name [n] is used in the code of [e].  (Parameters and loop variables are counted too: their names stand for something
    else, but a claim about all names that are used is only stronger then.) *)
Inductive uses : expr -> bytes -> Prop :=
  | u_name i : uses (EIdent i) (i_name i)
  | u_part e x n : code_part e x -> uses x n -> uses e n.
(** [t] is a type annotation somewhere in [e]: of a parameter or the result of a function. *)
Definition any_part (e x : expr) : Prop :=
  match e with
  | ETyped _ _ _ | ELoad _ _ _ _ _ _ _ => False
  | EDef _ _ ps b _ _ _ _ _ => In x ps \/ In x b
  | _ => sub e x
  end.
Inductive annotated : expr -> expr -> Prop :=
  | a_name c i t : annotated (ETyped c i t) t
  | a_result c p ps b n q k m t : annotated (EDef c p ps b n q k m (Some t)) t
  | a_part e x t : any_part e x -> annotated x t -> annotated e t.
(** Annotations made of names, x[y], and x.type. *)
Fixpoint plain_type (t : expr) : Prop :=
  match t with
  | EIdent _ => True
  | EIndex _ x _ y _ => plain_type x /\ plain_type y
  | EDot _ x _ _ n => n = %"type" /\ plain_type x
  | _ => False
  end.
(** The file refers to the name, in its code or in an annotation of which [P] holds. *)
Definition refers (P : expr -> Prop) (f : expr) (n : bytes) : Prop :=
  uses f n \/ exists t, annotated f t /\ P t /\ uses t n.
(** The name is used somewhere: in the code or in any annotation. *)
Inductive mentions : expr -> bytes -> Prop :=
  | m_name i : mentions (EIdent i) (i_name i)
  | m_code e x n : code_part e x -> mentions x n -> mentions e n
  | m_typed c i t n : mentions t n -> mentions (ETyped c i t) n
  | m_result c p ps b f q k m t n : mentions t n -> mentions (EDef c p ps b f q k m (Some t)) n.
(** Protected by a comment. *)
Definition marked_unused (c : comments) : Prop :=
  exists k a b, In k (c_before c ++ c_suffix c ++ c_after c) /\ to_lower (c_tok k) = a ++ %"@unused" ++ b.
