(** Specification of list sorting in files (C10, C27). *)
From Verif Require Import Base Ast CallSpec StrListSpec.

(** The list [l'] is [l] with chunks sorted, or with duplicates removed. *)
Definition deduplicated (l l' : list expr) : Prop :=
  exists idx,
    StronglySorted lt idx /\ (forall i, In i idx <-> first_occurrence l i) /\
    Forall2 (fun i e => exists e0, nth_error l i = Some e0 /\ bare_expr e0 = bare_expr e) idx l'.
Definition tidied (strip : bool) (l l' : list expr) : Prop := chunkwise strip l l' \/ deduplicated l l'.
(** The lists that make up a value: the value itself, operands of [+], values of a select. *)
Inductive lists_tidied (strip : bool) : expr -> expr -> Prop :=
  | lt_same e : lists_tidied strip e e
  | lt_list c s l l' e m : tidied strip l l' -> lists_tidied strip (EList c s l e m) (EList c s l' e m)
  | lt_plus c x x' p br y y' : lists_tidied strip x x' -> lists_tidied strip y y' ->
      lists_tidied strip (EBinary c x p %"+" br y) (EBinary c x' p %"+" br y')
  | lt_select c i p dc ds dl dl' de dm args en k m :
      i_name i = %"select" ->
      Forall2 (fun a b => a = b \/ exists c key p v v', a = EKV c key p v /\ b = EKV c key p v' /\ lists_tidied strip v v') dl dl' ->
      lists_tidied strip (ECall c (EIdent i) p (EDict dc ds dl de dm :: args) en k m)
                  (ECall c (EIdent i) p (EDict dc ds dl' de dm :: args) en k m).
(** Which nodes change: values marked 'keep sorted', lists whose first element is so marked and,
    in BUILD-like files, sortable attributes of calls that are not marked 'leave-alone'. *)
Definition lists_sorted (strip : bool) (sortable denied : bytes -> bytes -> Prop) (build_like : Prop)
    (stk : list expr) (e e1 : expr) : Prop :=
  e1 = e \/
  match e with
  | ECall c x p args en k m =>
      build_like /\ ~ left_alone stk e /\
      exists args', e1 = ECall c x p args' en k m /\
        Forall2 (fun a a' => a' = a \/
          exists ca key pa op b rhs rhs' n,
            a = EAssign ca (EIdent key) pa op b rhs /\ a' = EAssign ca (EIdent key) pa op b rhs' /\
            (callee_name x n \/ ((forall n, ~ callee_name x n) /\ n = [])) /\
            sortable n (i_name key) /\ ~ denied n (i_name key) /\
            ~ marked %"buildifier: leave-alone" a /\ lists_tidied strip rhs rhs') args args'
  | EAssign c lhs p op b rhs =>
      marked %"keep sorted" e /\ exists rhs', e1 = EAssign c lhs p op b rhs' /\ lists_tidied strip rhs rhs'
  | EKV c k p v => marked %"keep sorted" e /\ exists v', e1 = EKV c k p v' /\ lists_tidied strip v v'
  | EList c s l en m =>
      (marked %"keep sorted" e \/ exists x l0, l = x :: l0 /\ marked %"keep sorted" x) /\ lists_tidied strip e e1
  | _ => False
  end.

(** [x] is [e] or occurs in it. *)
Inductive within (e : expr) : expr -> Prop :=
  | within_self : within e e
  | within_child x c : within e x -> In c (children x) -> within e c.
