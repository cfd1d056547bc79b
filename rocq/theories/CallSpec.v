(** Specification of call argument order (C14, C15). *)
From Verif Require Import Base Ast StrListSpec.

(** The name of a named argument [name = value]. *)
Definition name_of_arg (x : expr) : option bytes :=
  match x with
  | EAssign _ (EIdent i) _ _ _ _ => match i_name i with [] => None | n => Some n end
  | _ => None
  end.
Definition named (x : expr) : Prop := name_of_arg x <> None.

(** Priority of an argument name for a rule: the entry "rule.name" of the table, else the entry
    "name", else 0. *)
Definition prio_of (table : list (bytes * Z)) (rule name : bytes) (p : Z) : Prop :=
  lookup (rule ++ %"." ++ name) table = Some p \/
  (lookup (rule ++ %"." ++ name) table = None /\
   (lookup name table = Some p \/ (lookup name table = None /\ p = 0%Z))).

(** Argument [i] of [tail] goes before argument [j]: by priority, then name, then position. *)
Definition arg_before (table : list (bytes * Z)) (rule : bytes) (tail : list expr) (i j : nat) : Prop :=
  exists x y n m p q,
    nth_error tail i = Some x /\ nth_error tail j = Some y /\
    name_of_arg x = Some n /\ name_of_arg y = Some m /\
    prio_of table rule n p /\ prio_of table rule m q /\
    ((p < q)%Z \/ (p = q /\ (bytes_before n m \/ (n = m /\ i < j)))).

(** [out] is the arrangement [idx] of [l]. *)
Definition arranged {A} (l : list A) (idx : list nat) (out : list A) : Prop :=
  Permutation idx (seq 0 (List.length l)) /\
  Forall2 (fun i x => nth_error l i = Some x) idx out.

(** Argument classes of a call. *)
Inductive arg_class := Positional | Named | Star | DoubleStar.
Definition class_of (e : expr) : arg_class :=
  match e with
  | EAssign _ _ _ _ _ _ => Named
  | EUnary _ _ op _ => if beq op %"**" then DoubleStar else if beq op %"*" then Star else Positional
  | _ => Positional
  end.
Definition class_eqb (a b : arg_class) : bool :=
  match a, b with
  | Positional, Positional | Named, Named | Star, Star | DoubleStar, DoubleStar => true
  | _, _ => false
  end.

(** [e] carries a comment containing [text], upper/lower case ignored. *)
Definition marked (text : bytes) (e : expr) : Prop :=
  exists c pre post,
    In c (c_before (com e) ++ c_suffix (com e) ++ c_after (com e)) /\
    to_lower (c_tok c) = pre ++ text ++ post.
(** The node or one of its ancestors is marked 'buildifier: leave-alone'. *)
Definition left_alone (stk : list expr) (e : expr) : Prop :=
  exists x, In x (stk ++ [e]) /\ marked %"buildifier: leave-alone" x.
(** The dotted name of a callee. *)
Inductive callee_name : expr -> bytes -> Prop :=
  | cn_ident i : callee_name (EIdent i) (i_name i)
  | cn_dot c x p q n m : callee_name x m -> callee_name (EDot c x p q n) (m ++ %"." ++ n).
Definition rule_of (callee : expr) (r : bytes) : Prop :=
  (callee_name callee r /\ r <> []) \/
  ((forall n, callee_name callee n -> n = []) /\ r = %"<complex rule kind>").

(** Arguments [args] become [args']: a head ending in an unnamed argument stays, the tail of
    named arguments is arranged by [arg_before]. *)
Definition args_sorted (table : list (bytes * Z)) (rule : bytes) (args args' : list expr) : Prop :=
  exists head tail tail' idx,
    args = head ++ tail /\ args' = head ++ tail' /\
    Forall named tail /\ (forall h x, head = h ++ [x] -> ~ named x) /\
    arranged tail idx tail' /\ StronglySorted (arg_before table rule tail) idx.
Definition call_sorted (table : list (bytes * Z)) (stk : list expr) (e e1 : expr) : Prop :=
  match e with
  | ECall c x p args en k m =>
      (left_alone stk e -> e1 = e) /\
      (~ left_alone stk e -> exists rule args', rule_of x rule /\
         e1 = ECall c x p args' en k m /\ args_sorted table rule args args')
  | _ => e1 = e
  end.

(** Arguments in the order positional, named, star, double star; each class in its order. *)
Definition call_partitioned (e e1 : expr) : Prop :=
  match e with
  | ECall c x p args en k m =>
      let cls a := filter (fun x => class_eqb (class_of x) a) args in
      e1 = ECall c x p (cls Positional ++ cls Named ++ cls Star ++ cls DoubleStar) en k m
  | _ => e1 = e
  end.
