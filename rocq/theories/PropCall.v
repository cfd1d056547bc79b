(** Properties C14, C15: arguments of calls. *)
From Verif Require Import Base BaseProofs Order Ast Walk WalkSpec WalkProofs WalkGen StrList StrListSpec StrListProofs Rewrite CallSpec CallProofs.

(** C14: sorting call arguments changes exactly the calls that are not left alone, and there
    only arranges the tail of named arguments by (priority, name, position). *)
Theorem C14_call_arguments_sorted :
  forall w f, walked (call_sorted (w_priority w)) [] f (sortCallArgs w f).
Proof.
  intros w f. apply Edit_walked; [apply callsort_height|apply callsort_kind|].
  intros stk e. destruct e; try reflexivity.
  cbn [call_sorted callsort_node]. destruct (leave_alone stk (ECall c e lstart args e0 compact multi)) eqn:L.
  - apply leave_alone_spec in L. split; auto. intros H; contradiction.
  - split; [intros H; apply leave_alone_spec in H; congruence|]. intros _.
    set (rule := match kind_of e with [] => %"<complex rule kind>" | r => r end).
    exists rule. eexists. split; [apply rule_of_spec|]. split; [reflexivity|].
    rewrite sort_named_spec. cbv zeta. pose proof (named_tail_spec args) as H. destruct (named_tail args) as [h t].
    destruct H as (H1 & H2 & H3). cbn [fst snd].
    destruct (nargs_arranged (w_priority w) rule t) as [A1 A2].
    exists h, t. eexists. eexists. split; [exact H1|]. split; [reflexivity|]. split; [exact H2|].
    split; [|split; [exact A1|apply A2; exact H2]].
    intros h' x ->. rewrite rev_app_distr in H3. exact H3.
Qed.
Print Assumptions C14_call_arguments_sorted.
(** The arrangement is unique, hence independent of the sorting algorithm. *)
Theorem C14_arrangement_unique :
  forall table rule tail idx idx',
    Permutation idx idx' ->
    StronglySorted (arg_before table rule tail) idx ->
    StronglySorted (arg_before table rule tail) idx' -> idx = idx'.
Proof.
  intros table rule tail.
  assert (Pf : forall n p q, prio_of table rule n p -> prio_of table rule n q -> p = q).
  { unfold prio_of. intros n p q H1 H2.
    destruct H1 as [H1|[H1 [H1'|[H1' ->]]]], H2 as [H2|[H2 [H2'|[H2' ->]]]]; congruence. }
  assert (As : forall i j, arg_before table rule tail i j -> arg_before table rule tail j i -> False).
  { intros i j (x & y & n & m & p & q & X1 & X2 & X3 & X4 & X5 & X6 & X7) (x' & y' & n' & m' & p' & q' & Y1 & Y2 & Y3 & Y4 & Y5 & Y6 & Y7).
    rewrite X1 in Y2; injection Y2 as <-. rewrite X2 in Y1; injection Y1 as <-.
    rewrite X3 in Y4; injection Y4 as <-. rewrite X4 in Y3; injection Y3 as <-.
    rewrite (Pf _ _ _ Y5 X6), (Pf _ _ _ Y6 X5) in Y7. clear - X7 Y7.
    destruct X7 as [|[-> [H|[-> H]]]], Y7 as [|[E [H'|[E' H']]]]; try lia.
    - apply blt_before in H, H'. rewrite (swo_asym swo_blt _ _ H) in H'. discriminate.
    - subst. apply blt_before in H. rewrite blt_irrefl in H. discriminate.
    - apply blt_before in H'. rewrite blt_irrefl in H'. discriminate. }
  induction idx as [|i idx IH]; intros idx' Hp S1 S2.
  - apply Permutation_nil in Hp; auto.
  - destruct idx' as [|j idx']; [apply Permutation_sym, Permutation_nil in Hp; discriminate|].
    inversion_clear S1 as [|? ? S1' F1]. inversion_clear S2 as [|? ? S2' F2].
    assert (i = j) as ->.
    { assert (Hj : In j (i :: idx)) by (eapply Permutation_in; [symmetry; eauto|left; auto]).
      assert (Hi : In i (j :: idx')) by (eapply Permutation_in; [eauto|left; auto]).
      destruct Hj as [|Hj]; auto. destruct Hi as [|Hi]; auto.
      rewrite Forall_forall in F1, F2. destruct (As i j); auto. }
    f_equal. apply IH; auto. eapply Permutation_cons_inv; eauto.
Qed.
Print Assumptions C14_arrangement_unique.
Theorem C14_idempotent :
  forall w f, sortCallArgs w (sortCallArgs w f) = sortCallArgs w f.
Proof. intros w f. apply callsort_idem. Qed.
Print Assumptions C14_idempotent.

(** Two calls, the inner one marked: name (priority -1) goes first, b and a are exchanged, the
    inner call keeps its arguments. *)
Example C14_nontrivial :
  let id n := EIdent (Ident no_com no_pos n) in
  let arg n v := EAssign no_com (id n) no_pos %"=" false v in
  let leave := Comments [Comment no_pos %"# Buildifier: leave-alone"] [] [] in
  let one := ELit no_com no_pos %"1" in
  let e0 := End no_com no_pos in
  let w := Rewriter None [] [] [] [] [] [(%"name", (-1)%Z)] false false in
  let inner := ECall leave (id %"g") no_pos [arg %"z" one; arg %"y" one] e0 false false in
  sortCallArgs w (ECall no_com (id %"f") no_pos [arg %"c" one; one; arg %"b" inner; arg %"a" one; arg %"name" one] e0 false false)
  = ECall no_com (id %"f") no_pos [arg %"c" one; one; arg %"name" one; arg %"a" one; arg %"b" inner] e0 false false.
Proof. vm_compute. reflexivity. Qed.

(** C15: in every call the arguments become positional, named, star, double star; order within
    each class is kept; nothing else changes. *)
Theorem C15_arguments_partitioned :
  forall f, walked (fun _ => call_partitioned) [] f (reorderArguments f).
Proof.
  intros f. apply Edit_walked; [apply reorder_height|apply reorder_kind|].
  intros stk e. destruct e; try reflexivity.
  cbn [call_partitioned reorder_node]. rewrite reorder_classes. reflexivity.
Qed.
Print Assumptions C15_arguments_partitioned.
Theorem C15_nothing_lost :
  forall args, Permutation (reorder_args args) args.
Proof. intros. rewrite reorder_isort. apply isort_perm. Qed.
Print Assumptions C15_nothing_lost.
Theorem C15_idempotent : forall f, reorderArguments (reorderArguments f) = reorderArguments f.
Proof. intros f. apply reorder_idem. Qed.
Print Assumptions C15_idempotent.
Example C15_nontrivial :
  let id n := EIdent (Ident no_com no_pos n) in
  let arg n := EAssign no_com (id n) no_pos %"=" false (id %"v") in
  let st o n := EUnary no_com no_pos o (Some (id n)) in
  let call l := ECall no_com (id %"f") no_pos l (End no_com no_pos) false false in
  reorderArguments (call [st %"**" %"kw"; arg %"b"; id %"x"; st %"*" %"a"; st %"-" %"y"; arg %"a"])
  = call [id %"x"; st %"-" %"y"; arg %"b"; arg %"a"; st %"*" %"a"; st %"**" %"kw"].
Proof. vm_compute. reflexivity. Qed.
