(** Specification of the comments that control sorting (C63): exactly which lists are sorted, which
    are only rid of duplicates, and which are left as they are. *)
From Verif Require Import Base Ast CallSpec StrListSpec ListRwSpec.

(** A comment stands on a line of its own inside the list: before the list, after it, before its
    closing bracket or before an element. *)
Definition line_comment (c : comments) (e : endp) (l : list expr) : Prop :=
  c_before c <> [] \/ c_after c <> [] \/ c_before (e_com e) <> [] \/ exists x, In x l /\ c_before (com x) <> [].
(** Every chunk sorted; if a chunk has equal strings, only those chunks that a cursor not moved back for
    the removed duplicates still finds (C10). *)
Definition sorted_chunks (strip : bool) (l l' : list expr) : Prop :=
  chunkwise strip l l' /\ (no_dup_in_chunks l -> all_chunks_sorted strip l l').
(** What happens to one list. *)
Inductive list_result (strip : bool) (c : comments) (s : pos) (e : endp) (m : bool) : list expr -> list expr -> Prop :=
  | lr_short l : List.length l < 2 -> list_result strip c s e m l l
  | lr_do_not_sort x l l' : l <> [] -> marked %"do not sort" x -> deduplicated (x :: l) l' ->
      list_result strip c s e m (x :: l) l'
  | lr_commented x l l' : l <> [] -> ~ marked %"do not sort" x -> ~ marked %"keep sorted" x ->
      ~ marked %"keep sorted" (EList c s (x :: l) e m) -> line_comment c e (x :: l) -> deduplicated (x :: l) l' ->
      list_result strip c s e m (x :: l) l'
  | lr_sort x l l' : l <> [] -> ~ marked %"do not sort" x ->
      (marked %"keep sorted" x \/ marked %"keep sorted" (EList c s (x :: l) e m) \/ ~ line_comment c e (x :: l)) ->
      sorted_chunks strip (x :: l) l' -> list_result strip c s e m (x :: l) l'.
(** Values looked into: lists, sums, selects. *)
Inductive looked_into : expr -> Prop :=
  | li_list c s l e m : looked_into (EList c s l e m)
  | li_plus c x p br y : looked_into (EBinary c x p %"+" br y)
  | li_select c i p dc ds dl de dm args en k m : i_name i = %"select" ->
      looked_into (ECall c (EIdent i) p (EDict dc ds dl de dm :: args) en k m).
Inductive lists_done (strip : bool) : expr -> expr -> Prop :=
  | ld_other e : ~ looked_into e -> lists_done strip e e
  | ld_list c s l l' e m : list_result strip c s e m l l' -> lists_done strip (EList c s l e m) (EList c s l' e m)
  | ld_plus c x x' p br y y' : lists_done strip x x' -> lists_done strip y y' ->
      lists_done strip (EBinary c x p %"+" br y) (EBinary c x' p %"+" br y')
  | ld_select c i p dc ds dl dl' de dm args en k m :
      i_name i = %"select" ->
      Forall2 (fun a b => ((forall c key p v, a <> EKV c key p v) /\ b = a) \/
        exists c key p v v', a = EKV c key p v /\ b = EKV c key p v' /\ lists_done strip v v') dl dl' ->
      lists_done strip (ECall c (EIdent i) p (EDict dc ds dl de dm :: args) en k m)
                       (ECall c (EIdent i) p (EDict dc ds dl' de dm :: args) en k m).
(** The name the callee is looked up by in the tables. *)
Definition called (x : expr) (n : bytes) : Prop := callee_name x n \/ ((forall n, ~ callee_name x n) /\ n = []).
(** One argument of a call of a BUILD-like file. *)
Definition arg_done (strip : bool) (sortable denied : bytes -> bytes -> Prop) (x a a' : expr) : Prop :=
  match a with
  | EAssign ca (EIdent key) pa op b rhs =>
      forall n, called x n ->
        let wanted := sortable n (i_name key) /\ ~ denied n (i_name key) /\ ~ marked %"buildifier: leave-alone" a in
        (~ wanted -> a' = a) /\
        (wanted -> ~ marked %"do not sort" a ->
           exists rhs', a' = EAssign ca (EIdent key) pa op b rhs' /\ lists_done strip rhs rhs') /\
        (wanted -> marked %"do not sort" a ->
           match rhs with
           | EList c s l e m => exists l', a' = EAssign ca (EIdent key) pa op b (EList c s l' e m) /\ deduplicated l l'
           | _ => a' = a
           end)
  | _ => a' = a
  end.
(** One node; [unsafe]: the rewrite 'unsafesort' is enabled. *)
Definition sort_node (strip : bool) (sortable denied : bytes -> bytes -> Prop) (build_like unsafe : Prop)
    (stk : list expr) (e e1 : expr) : Prop :=
  match e with
  | ECall c x p args en k m =>
      (build_like /\ ~ left_alone stk e ->
         exists args', e1 = ECall c x p args' en k m /\ Forall2 (arg_done strip sortable denied x) args args') /\
      (~ build_like \/ left_alone stk e -> e1 = e)
  | EAssign c lhs p op b rhs =>
      (unsafe /\ marked %"keep sorted" e -> exists rhs', e1 = EAssign c lhs p op b rhs' /\ lists_done strip rhs rhs') /\
      (~ (unsafe /\ marked %"keep sorted" e) -> e1 = e)
  | EKV c key p v =>
      (unsafe /\ marked %"keep sorted" e -> exists v', e1 = EKV c key p v' /\ lists_done strip v v') /\
      (~ (unsafe /\ marked %"keep sorted" e) -> e1 = e)
  | EList c s l en m =>
      let asked := unsafe /\ exists x l0, l = x :: l0 /\ (marked %"keep sorted" e \/ marked %"keep sorted" x) in
      (asked -> lists_done strip e e1) /\ (~ asked -> e1 = e)
  | _ => e1 = e
  end.
(** [use_repo(proxy, repo, ...)]: the arguments are sorted like a list, unless the call, the proxy or the
    first repository is marked. *)
Definition use_repo_done (strip : bool) (stk : list expr) (e e1 : expr) : Prop :=
  (forall c i p a0 a1 a2 args en k m, e = ECall c (EIdent i) p (a0 :: a1 :: a2 :: args) en k m -> i_name i = %"use_repo" ->
     let all := a0 :: a1 :: a2 :: args in
     let kept := marked %"do not sort" e \/ marked %"do not sort" a0 \/ marked %"do not sort" a1 in
     exists args', e1 = ECall c (EIdent i) p args' en k m /\
       (kept -> deduplicated all args') /\ (~ kept -> sorted_chunks strip all args')) /\
  ((forall c i p a0 a1 a2 args en k m, e = ECall c (EIdent i) p (a0 :: a1 :: a2 :: args) en k m -> i_name i <> %"use_repo") ->
     e1 = e).
