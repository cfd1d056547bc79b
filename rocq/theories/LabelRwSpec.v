(** Specification of the label rewrite (C26). *)
From Verif Require Import Base Ast CallSpec.

(** A repository prefix: empty, or '@' and a nonempty word. *)
Definition word_char (c : ascii) : bool :=
  let n := nat_of_ascii c in
  ((48 <=? n) && (n <=? 57)) || ((65 <=? n) && (n <=? 90)) || ((97 <=? n) && (n <=? 122)) || (n =? 95).
Definition repo_prefix (r : bytes) : Prop :=
  r = [] \/ exists w, r = c_at :: w /\ w <> [] /\ forallb word_char w = true.
(** The two allowed changes of a label text. *)
Inductive label_change : bytes -> bytes -> Prop :=
  | lc_same v : label_change v v
  | lc_target r d z : (* r//d:z with z the last element of the package *)
      repo_prefix r -> z <> [] -> ~ In c_colon z -> (d = [] \/ exists u, d = u ++ %"/") ->
      label_change (r ++ %"//" ++ d ++ z ++ %":" ++ z) (r ++ %"//" ++ d ++ z)
  | lc_repo w d :     (* @w//:w *)
      w <> [] -> forallb word_char w = true -> (d = [] \/ exists u, d = u ++ %"/") ->
      label_change (%"@" ++ w ++ %"//" ++ d ++ %":" ++ w) (%"@" ++ w).

(** How an attribute value may change: label strings in it change according to [R], a sum of two
    strings may be joined first; nothing else. *)
Definition with_value (s : strlit) (v : bytes) : strlit :=
  Str (s_com s) (s_start s) v (s_triple s) (s_end s) (s_token s).
Inductive relabeled (R : bytes -> bytes -> Prop) : expr -> expr -> Prop :=
  | rl_same e : relabeled R e e
  | rl_str s v : R (s_value s) v -> relabeled R (EStr s) (EStr (with_value s v))
  | rl_join c a p br b v :
      has_prefix %"//" (s_value a) = true -> ~ In c_sp (s_value a ++ s_value b) ->
      R (s_value a ++ s_value b) v ->
      relabeled R (EBinary c (EStr a) p %"+" br (EStr b))
        (EStr (Str (Comments (c_before c ++ c_before (s_com a) ++ c_before (s_com b))
                             (c_suffix c ++ c_suffix (s_com a) ++ c_suffix (s_com b)) (c_after c))
                   (s_start a) v (s_triple a) (s_end a) (s_token a)))
  | rl_list c s l l' e m : Forall2 (relabeled R) l l' -> relabeled R (EList c s l e m) (EList c s l' e m)
  | rl_set c s l l' e m : Forall2 (relabeled R) l l' -> relabeled R (ESet c s l e m) (ESet c s l' e m)
  | rl_plus c x x' p br y y' : relabeled R x x' -> relabeled R y y' ->
      relabeled R (EBinary c x p %"+" br y) (EBinary c x' p %"+" br y')
  | rl_select c i p dc ds dl dl' de dm args en k m :
      i_name i = %"select" -> Forall2 (relabeled R) dl dl' ->
      relabeled R (ECall c (EIdent i) p (EDict dc ds dl de dm :: args) en k m)
                  (ECall c (EIdent i) p (EDict dc ds dl' de dm :: args) en k m)
  | rl_entry c key p v v' : relabeled R v v' -> relabeled R (EKV c key p v) (EKV c key p v')
  | rl_trans a b c : relabeled R a b -> relabeled R b c -> relabeled R a c.
(** What happens to a call: the named arguments that hold labels change as above. *)
Definition labels_fixed (label_args denied : list bytes) (R : bytes -> bytes -> Prop)
    (stk : list expr) (e e1 : expr) : Prop :=
  match e with
  | ECall c x p args en k m =>
      (left_alone stk e -> e1 = e) /\
      exists args', e1 = ECall c x p args' en k m /\
        Forall2 (fun a a' => a' = a \/
          exists ca key pa op b rhs rhs',
            a = EAssign ca (EIdent key) pa op b rhs /\ a' = EAssign ca (EIdent key) pa op b rhs' /\
            In (i_name key) label_args /\
            (forall n, callee_name x n -> ~ In (n ++ %"." ++ i_name key) denied) /\
            ~ marked %"buildifier: leave-alone" a /\ ~ marked %"buildifier: leave-alone" rhs /\
            relabeled R rhs rhs') args args'
  | _ => e1 = e
  end.
