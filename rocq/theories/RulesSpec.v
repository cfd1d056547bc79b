(** Specification of the rules of a file (C62). *)
From Verif Require Import Base Ast RuleSpec LoadsSpec.

(** A call, as callee and arguments. *)
Definition call_of (e callee : expr) (args : list expr) : Prop := calls (Some e) callee args.
Definition a_call (e : expr) : Prop := exists x args, call_of e x args.

(** [outermost e l]: [l] are the calls in [e] that are not inside another call of [e], in the
    order in which they are written. *)
Inductive outermost : expr -> list expr -> Prop :=
  | om_call e : a_call e -> outermost e [e]
  | om_other e ls : ~ a_call e -> Forall2 outermost (children e) ls -> outermost e (List.concat ls).
(** The rules of a file: those of its statements, from the first to the last. *)
Inductive rules_in : list (option expr) -> list expr -> Prop :=
  | ri_nil : rules_in [] []
  | ri_none stmts l : rules_in stmts l -> rules_in (None :: stmts) l
  | ri_stmt e stmts l l' : outermost e l -> rules_in stmts l' -> rules_in (Some e :: stmts) (l ++ l').
(** Exactly one element has the property, and it is [r]. *)
Definition the_only {A} (P : A -> Prop) (l : list A) (r : A) : Prop :=
  exists a b, l = a ++ r :: b /\ P r /\ forall x, In x (a ++ b) -> ~ P x.
