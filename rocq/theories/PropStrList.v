(** Properties C09 - C13: string lists. *)
From Verif Require Import Base BaseProofs Order Ast StrList StrListSpec StrListProofs StrListSort.

(** C09: the comparison of two entries is the documented order of their values (phase,
    components, value), with the original position as tie-break... *)
Theorem C09_less_is_documented_order :
  forall strip i a j b,
    key_less (make_key strip i a) (make_key strip j b) = true <->
    str_before strip (s_value a) (s_value b) \/ (s_value a = s_value b /\ i < j).
Proof.
  intros. rewrite key_less_eq. destruct (beq_spec (s_value a) (s_value b)) as [E|n].
  - rewrite Nat.ltb_lt, E. split; auto. intros [H|[_ H]]; auto. destruct (str_before_irrefl _ _ H).
  - rewrite val_less_before. intuition.
Qed.
Print Assumptions C09_less_is_documented_order.
(** ... it is a strict total order on the entries of one list... *)
Theorem C09_strict_total_order :
  (forall p, key_less p p = false) /\
  (forall p q r, key_less p q = true -> key_less q r = true -> key_less p r = true) /\
  (forall p q, k_orig p <> k_orig q -> key_less p q = true \/ key_less q p = true).
Proof.
  split; [apply swo_irrefl, swo_key_less|]. split; [apply swo_trans, swo_key_less|].
  intros p q n. destruct (key_less p q) eqn:E; auto. destruct (key_less q p) eqn:F; auto.
  destruct (key_less_incomparable p q E F) as (_ & _ & _ & H). contradiction.
Qed.
Print Assumptions C09_strict_total_order.
(** ... so whatever sorting algorithm is used, there is only one sorted arrangement of a chunk,
    the one computed by the model. *)
Theorem C09_sorted_unique :
  forall strip run l,
    Permutation l (make_keys strip run) ->
    StronglySorted (fun x y => key_less y x = false) l ->
    l = isort key_less (make_keys strip run).
Proof.
  intros strip run l Hp Hs.
  assert (Hu : forall l', Permutation l' (make_keys strip run) ->
     forall x y, In x l' -> In y l' -> k_orig x = k_orig y -> x = y).
  { intros l' Hl x y Hx Hy E. apply (Permutation_in _ Hl) in Hx, Hy. clear -Hx Hy E.
    pose proof (make_keys_orig strip run) as Ho. pose proof (seq_NoDup (List.length run) 0) as Hn.
    rewrite <- Ho in Hn. clear Ho. induction (make_keys strip run) as [|k ks IH]; [destruct Hx|].
    simpl in Hn. inversion_clear Hn as [|? ? Hk Hn']. destruct Hx as [->|Hx], Hy as [->|Hy]; auto.
    - destruct Hk. rewrite E. apply in_map; auto.
    - destruct Hk. rewrite <- E. apply in_map; auto. }
  set (R := fun x y => key_less y x = false).
  pose proof (isort_swo_sorted key_less (make_keys strip run) swo_key_less) as Hs'. 
  assert (G : forall l1 l2, (forall x y, In x l1 -> In y l1 -> k_orig x = k_orig y -> x = y) ->
     StronglySorted R l1 -> StronglySorted R l2 -> Permutation l1 l2 -> l1 = l2).
  { clear. induction l1 as [|x l1 IH]; intros l2 Hu S1 S2 P.
    - apply Permutation_nil in P; auto.
    - destruct l2 as [|y l2]; [apply Permutation_sym, Permutation_nil in P; discriminate|].
      inversion_clear S1 as [|? ? S1' F1]. inversion_clear S2 as [|? ? S2' F2].
      assert (x = y) as ->.
      { assert (Hy : In y (x :: l1)) by (eapply Permutation_in; [symmetry; eauto|left; auto]).
        assert (Hx : In x (y :: l2)) by (eapply Permutation_in; [eauto|left; auto]).
        destruct Hy as [|Hy]; auto. destruct Hx as [|Hx]; auto.
        rewrite Forall_forall in F1, F2. specialize (F1 _ Hy). specialize (F2 _ Hx). unfold R in *.
        apply Hu; [left; auto|right; auto|].
        destruct (key_less_incomparable x y) as (_ & _ & _ & H); auto. }
      f_equal. apply IH; auto.
      + intros a b Ha Hb. apply Hu; right; auto.
      + apply Permutation_cons_inv in P; auto. }
  apply G; auto. - apply Hu; auto. - rewrite Hp. symmetry. apply isort_perm.
Qed.
Print Assumptions C09_sorted_unique.
Definition lit (v : bytes) : strlit := Str no_com no_pos v false no_pos [].
Example C09_nontrivial :
  str_before false %"z" %":a" /\ str_before false %":z" %"//a" /\ str_before false %"//a.b" %"//a:c" /\
  ~ str_before false %"a.b" %"a".
Proof.
  rewrite <- !val_less_before. repeat split; try reflexivity. vm_compute. discriminate.
Qed.

(** C10: nothing is lost or invented, and strings move only inside chunks. *)
Theorem C10_values_and_others_kept :
  forall strip l,
    (forall v, In v (str_values (sort_string_exprs strip l)) <-> In v (str_values l)) /\
    filter (fun e => negb (is_str e)) (sort_string_exprs strip l) = filter (fun e => negb (is_str e)) l.
Proof.
  intros. pose proof (sort_string_exprs_chunkwise strip l) as H.
  split; [eapply chunkwise_values|eapply chunkwise_nonstr]; eauto.
Qed.
Print Assumptions C10_values_and_others_kept.
Theorem C10_chunkwise : forall strip l, chunkwise strip l (sort_string_exprs strip l).
Proof. exact sort_string_exprs_chunkwise. Qed.
Print Assumptions C10_chunkwise.
(** Every chunk comes out sorted and duplicate-free, provided that no chunk had duplicates. *)
Theorem C10_chunks_sorted_partial :
  forall strip l, no_dup_in_chunks l -> all_chunks_sorted strip l (sort_string_exprs strip l).
Proof. intros. apply sort_idem_nodup; auto. Qed.
Print Assumptions C10_chunks_sorted_partial.
(** The proviso cannot be dropped: after a chunk with duplicates the next one is not sorted. *)
Definition commented (t v : bytes) : strlit := Str (Comments [Comment no_pos t] [] []) no_pos v false no_pos [].
Definition skip_witness : list expr :=
  [EStr (lit %"b"); EStr (lit %"b"); EStr (commented %"# c" %"d"); EStr (lit %"c")].
Theorem C10_chunks_sorted_refuted :
  exists l, ~ all_chunks_sorted false l (sort_string_exprs false l).
Proof.
  exists skip_witness. intros H. apply all_sorted_ok in H.
  apply (sort_loop_id false 3 0) in H. vm_compute in H. discriminate H.
Qed.
Print Assumptions C10_chunks_sorted_refuted.
Example C10_nontrivial :
  sort_string_exprs false (map (fun v => EStr (lit v)) [%"//b"; %"a"; %":c"; %"a"]) =
  map (fun v => EStr (lit v)) [%"a"; %":c"; %"//b"] /\
  no_dup_in_chunks (map (fun v => EStr (lit v)) [%"//b"; %"a"; %":c"]).
Proof.
  split; [vm_compute; reflexivity|].
  intros a run b H _. assert (Hn : NoDup (str_values (map (fun v => EStr (lit v)) [%"//b"; %"a"; %":c"]))).
  { vm_compute. repeat constructor; simpl; intuition discriminate. }
  rewrite H, !str_values_app, str_values_run in Hn. apply NoDup_app_r, NoDup_app_l in Hn. auto.
Qed.

(** C11: idempotence. *)
Theorem C11_sort_idempotent_partial :
  forall strip l, no_dup_in_chunks l ->
    sort_string_exprs strip (sort_string_exprs strip l) = sort_string_exprs strip l.
Proof. intros. apply sort_idem_nodup; auto. Qed.
Print Assumptions C11_sort_idempotent_partial.
Theorem C11_sort_idempotent_refuted :
  exists l, sort_string_exprs false (sort_string_exprs false l) <> sort_string_exprs false l.
Proof. exists skip_witness. vm_compute. discriminate. Qed.
Print Assumptions C11_sort_idempotent_refuted.

(** C12: deduplication keeps exactly the non-strings and the first string of each value, in
    order and unchanged apart from whole-line comments. *)
Theorem C12_first_occurrences :
  forall l, exists idx,
    StronglySorted lt idx /\ (forall i, In i idx <-> first_occurrence l i) /\
    Forall2 (fun i e => exists e0, nth_error l i = Some e0 /\ bare_expr e0 = bare_expr e) idx (deduplicate l).
Proof. exact dedup_firsts. Qed.
Print Assumptions C12_first_occurrences.
Example C12_nontrivial :
  deduplicate (map (fun v => EStr (lit v)) [%"b"; %"a"; %"b"; %"c"; %"a"]) =
  map (fun v => EStr (lit v)) [%"b"; %"a"; %"c"].
Proof. reflexivity. Qed.

(** C13: all whole-line comments survive, in order, if the last string of the list is not itself
    a removed duplicate ... *)
Theorem C13_line_comments_partial :
  forall a s b,
    ~ In (s_value s) (str_values a) -> (forall e, In e b -> is_str e = false) ->
    before_comments (deduplicate (a ++ EStr s :: b)) = line_comments [] (a ++ EStr s :: b).
Proof. exact dedup_comments_kept. Qed.
Print Assumptions C13_line_comments_partial.
(** ... but comments of trailing duplicates are lost. *)
Theorem C13_line_comments_refuted :
  exists l c, In c (before_comments l) /\ ~ In c (before_comments (deduplicate l)).
Proof.
  exists [EStr (lit %"a"); EStr (commented %"# why" %"a")], (Comment no_pos %"# why").
  vm_compute. intuition.
Qed.
Print Assumptions C13_line_comments_refuted.
Example C13_nontrivial :
  let l := [EStr (lit %"a"); EStr (commented %"# why" %"a"); EStr (commented %"# b" %"b")] in
  line_comments [] l = [Comment no_pos %"# why"; Comment no_pos %"# b"] /\
  before_comments (deduplicate l) = line_comments [] l.
Proof. vm_compute. auto. Qed.
