(** Specification of parenthesis removal (C25). *)
From Verif Require Import Base Ast WalkSpec.

(** Expressions that never need parentheses around them: atoms, and calls whose callee begins
    and ends on one line. *)
Definition self_contained (x : expr) : Prop :=
  match x with
  | EIdent _ | ELit _ _ _ | EStr _ | EList _ _ _ _ _ | EDict _ _ _ _ _ | ESet _ _ _ _ _
  | EComp _ _ _ _ _ _ _ | EParen _ _ _ _ _ => True
  | ECall _ callee _ _ _ _ _ => p_line (start_pos callee) = p_line (end_pos callee)
  | _ => False
  end.
(** [deparen e e']: [e'] is [e] with some parentheses deleted: they carry no comment, are not
    marked multi-line and enclose a self-contained expression. *)
Inductive deparen : expr -> expr -> Prop :=
  | dp_node e e' : shell e = shell e' -> Forall2 deparen (children e) (children e') -> deparen e e'
  | dp_drop p x en : self_contained x -> deparen (EParen no_com p x en false) x
  | dp_trans a b c : deparen a b -> deparen b c -> deparen a c.
(** [erased e t]: [t] is [e] without any parenthesis node. *)
Inductive erased : expr -> expr -> Prop :=
  | er_paren c p x en m t : erased x t -> erased (EParen c p x en m) t
  | er_node e t : (forall c p x en m, e <> EParen c p x en m) ->
      shell e = shell t -> Forall2 erased (children e) (children t) -> erased e t.
