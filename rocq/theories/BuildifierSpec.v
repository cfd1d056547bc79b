(** Specification of the buildifier command (C47, C48). *)
From Verif Require Import Base Buildifier.

(** Finite executions of a transition system, with their length. *)
Inductive steps {S} (step : S -> S -> Prop) : nat -> S -> S -> Prop :=
  | steps_refl s : steps step 0 s s
  | steps_more n s t u : steps step n s t -> step t u -> steps step (Datatypes.S n) s u.

Definition writes (l : list effect) : list effect := filter (fun e => match e with EWrite _ _ => true | _ => false end) l.
Definition no_write (l : list effect) : Prop := writes l = [].
