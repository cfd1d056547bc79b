(** C63: exactly which lists a file's rewrite sorts. *)
From Verif Require Import Base BaseProofs Ast Walk WalkSpec WalkProofs WalkGen StrList StrListSpec StrListProofs StrListSort Rewrite
  CallSpec CallProofs LabelRwSpec LabelRwProofs ListRwSpec ListRwProofs PropStrList SortMarksSpec.

Lemma marked_dec text e : marked text e \/ ~ marked text e.
Proof. destruct (has_comment text e) eqn:E; [left|right; intros H]; rewrite <- has_comment_spec in *; congruence. Qed.
Lemma line_comment_spec c e l : has_line_comments c e l = true <-> line_comment c e l.
Proof.
  unfold has_line_comments, line_comment.
  destruct (c_before c); [|split; auto; left; discriminate].
  destruct (c_after c); [|split; auto; right; left; discriminate].
  destruct (c_before (e_com e)); [|split; auto; right; right; left; discriminate].
  rewrite existsb_exists. split.
  - intros (x & Hx & H). right; right; right. exists x. split; auto. destruct (c_before (com x)); [discriminate H|discriminate].
  - intros [H|[H|[H|(x & Hx & H)]]]; try contradiction. exists x. split; auto. destruct (c_before (com x)); [contradiction|auto].
Qed.
Lemma sort_string_exprs_sorted strip l : sorted_chunks strip l (sort_string_exprs strip l).
Proof. split; [apply sort_string_exprs_chunkwise|]. apply C10_chunks_sorted_partial. Qed.
Lemma unmarked text e : has_comment text e = false -> ~ marked text e.
Proof. intros H M. apply has_comment_spec in M. congruence. Qed.
Lemma list_done strip c s l e m : lists_done strip (EList c s l e m) (SortStringList strip (EList c s l e m)).
Proof.
  cbn [SortStringList]. destruct l as [|x [|y l]]; try (apply ld_list, lr_short; cbn; lia).
  destruct (do_not_sort x) eqn:D.
  - apply ld_list, lr_do_not_sort; [discriminate|apply has_comment_spec; auto|apply deduplicate_tidied].
  - apply unmarked in D. cbv zeta. destruct (negb _ && _) eqn:F.
    + apply andb_true_iff in F as [F1 F2]. apply negb_true_iff, orb_false_iff in F1 as [F3 F4].
      apply ld_list, lr_commented; auto; try discriminate; try (apply unmarked; auto); [apply line_comment_spec; auto|apply deduplicate_tidied].
    + apply ld_list, lr_sort; auto; [discriminate| |apply sort_string_exprs_sorted].
      apply andb_false_iff in F as [F|F].
      * apply negb_false_iff, orb_true_iff in F as [F|F]; apply has_comment_spec in F; auto.
      * right; right. rewrite <- line_comment_spec. congruence.
Qed.
Lemma not_list strip e : (forall c s l en m, e <> EList c s l en m) -> SortStringList strip e = e.
Proof. destruct e; intros H; try reflexivity. exfalso. eapply H; eauto. Qed.
Lemma find_done strip n : forall e, height e <= n -> lists_done strip e (find_modify n (SortStringList strip) e).
Proof.
  induction n as [|n IH]; intros e Hn; [pose proof (height_pos e); lia|]. cbn [find_modify].
  destruct (sort_list_shape strip e) as [E|(c & s & l & en & m & E)].
  - rewrite E. destruct e; try (apply ld_other; intros X; inversion X; fail).
    + destruct e; try (apply ld_other; intros X; inversion X; fail).
      destruct args as [|a args]; try (apply ld_other; intros X; inversion X; fail).
      destruct a; try (apply ld_other; intros X; inversion X; fail).
      destruct (beq_spec (i_name i) %"select") as [Ei|]; [|apply ld_other; intros X; inversion X; contradiction].
      apply ld_select; auto.
      assert (HL : forall kv, In kv l -> height kv <= n).
      { intros kv Hk. match type of Hn with height (ECall _ _ _ (?d :: _) _ _ _) <= _ =>
          assert (H1 : height kv < height d) by (apply height_child; cbn; rewrite ?map_id; auto);
          match type of Hn with height ?w <= _ => assert (H2 : height d < height w) by (apply height_child; right; left; auto) end end. lia. }
      clear E Hn. induction l as [|kv l IHl]; cbn [map]; constructor; [|apply IHl; intros; apply HL; right; auto].
      assert (Hkv : height kv <= n) by (apply HL; left; auto).
      destruct kv; try (left; split; [intros; discriminate|reflexivity]). right. eexists _, _, _, _, _. split; [reflexivity|]. split; [reflexivity|]. apply IH.
      match type of Hkv with height (EKV ?c ?k ?p ?v) <= _ => assert (height v < height (EKV c k p v)) by (apply height_child; right; left; auto) end. lia.
    + pose proof (list_done strip c start l e multi) as H. rewrite E in H. exact H.
    + destruct (beq_spec op %"+") as [->|NE]; [|apply ld_other; intros X; inversion X; subst; apply NE; reflexivity]. apply ld_plus; apply IH.
      * assert (height e1 < height (EBinary c e1 p %"+" lbreak e2)) by (apply height_child; left; auto). lia.
      * assert (height e2 < height (EBinary c e1 p %"+" lbreak e2)) by (apply height_child; right; left; auto). lia.
  - destruct e; try (rewrite not_list in E by discriminate; discriminate).
    pose proof (list_done strip c0 start l0 e multi) as H. rewrite E in *. exact H.
Qed.
Lemma and_done strip e : lists_done strip e (find_and_modify (SortStringList strip) e).
Proof. apply find_done. auto. Qed.

Section S.
  Context (w : rewriter) (uoff : bool) (allow : list bytes) (strip : bool) (ty : ftype).
  Lemma callee_fun x n n' : callee_name x n -> callee_name x n' -> n = n'.
  Proof.
    intros H. revert n'. induction H; intros n' H'; inversion H'; subst; auto. f_equal. auto.
  Qed.
  Lemma called_kind x n : called x n -> n = kind_of x.
  Proof.
    intros [H|[H ->]]; destruct (kind_of_name x) as [K|[K1 K2]]; auto; try congruence.
    - eapply callee_fun; eauto.
    - exfalso. eapply K1; eauto.
    - exfalso. eapply H; eauto.
  Qed.
  Lemma sort_arg_done x a : arg_done strip (w_sortable w uoff allow) (w_denied w) x a (sort_list_arg w uoff allow strip (kind_of x) a).
  Proof.
    unfold sort_list_arg. destruct a; try (destruct (leave_alone1 _); reflexivity). destruct a1; try (destruct (leave_alone1 _); reflexivity).
    cbn [arg_done]. intros n Hn. apply called_kind in Hn. subst n. cbv zeta.
    set (wanted := w_sortable w uoff allow (kind_of x) (i_name i) /\ _ /\ ~ marked _ _).
    set (cond := negb (leave_alone1 (EAssign c (EIdent i) p op lbreak a2)) &&
       negb (mem_bytes (kind_of x ++ [c_dot] ++ i_name i) (w_sortable_deny w)) &&
       (mem_bytes (i_name i) (w_sortable_arg w) || mem_bytes (kind_of x ++ [c_dot] ++ i_name i) (w_sortable_allow w)
                   || (negb uoff && mem_bytes (kind_of x ++ [c_dot] ++ i_name i) allow))).
    assert (W : cond = true <-> wanted).
    { unfold cond, wanted, w_sortable, w_denied. change %"." with [c_dot]. rewrite !andb_true_iff, !orb_true_iff, andb_true_iff, !negb_true_iff.
      unfold leave_alone1. rewrite <- !not_true_iff_false, !mem_bytes_In, has_comment_spec. tauto. }
    destruct (leave_alone1 _) eqn:L; [cbn [negb andb] in cond|destruct (mem_bytes _ (w_sortable_deny w)) eqn:D; [cbn [negb andb] in cond|]].
    1,2: assert (NW : ~ wanted) by (rewrite <- W; discriminate); split; [auto|split; intros; contradiction].
    cbn [negb andb] in cond. change (mem_bytes (i_name i) (w_sortable_arg w) || mem_bytes (kind_of x ++ [c_dot] ++ i_name i) (w_sortable_allow w)
                   || (negb uoff && mem_bytes (kind_of x ++ [c_dot] ++ i_name i) allow)) with cond.
    destruct cond eqn:C; (split; [|split]).
    - intros NW. exfalso. apply NW, W; reflexivity.
    - intros _ ND. destruct (do_not_sort _) eqn:DS; [exfalso; apply ND, has_comment_spec; auto|]. eexists. split; [reflexivity|apply and_done].
    - intros _ ND. apply has_comment_spec in ND. unfold do_not_sort. rewrite ND. destruct a2; try reflexivity.
      eexists. split; [reflexivity|apply deduplicate_tidied].
    - reflexivity.
    - intros H. apply W in H. congruence.
    - intros H. apply W in H. congruence.
  Qed.
  Lemma node_exact stk e : sort_node strip (w_sortable w uoff allow) (w_denied w) (like_build ty) (uoff = false) stk e (listsort_node w uoff allow strip ty stk e).
  Proof.
    unfold sort_node. destruct e; try reflexivity; cbn [listsort_node].
    - assert (BL : like_build ty \/ ~ like_build ty) by (unfold like_build; destruct ty; ((left; split; discriminate) || (right; tauto))).
      assert (M : (match ty with TypeDefault | TypeBzl => ECall c e lstart args e0 compact multi
        | _ => if leave_alone stk (ECall c e lstart args e0 compact multi) then ECall c e lstart args e0 compact multi
               else ECall c e lstart (map (sort_list_arg w uoff allow strip (kind_of e)) args) e0 compact multi end) =
        if match ty with TypeDefault | TypeBzl => true | _ => false end || leave_alone stk (ECall c e lstart args e0 compact multi)
        then ECall c e lstart args e0 compact multi else ECall c e lstart (map (sort_list_arg w uoff allow strip (kind_of e)) args) e0 compact multi)
        by (destruct ty; reflexivity).
      rewrite M. clear M.
      assert (TB : match ty with TypeDefault | TypeBzl => true | _ => false end = true <-> ~ like_build ty).
      { unfold like_build; destruct ty; split; auto; try discriminate; try tauto; intros H; exfalso; apply H; split; discriminate. }
      split.
      + intros [B L]. destruct (_ || _) eqn:E.
        * apply orb_true_iff in E as [E|E]; [apply TB in E; contradiction|apply leave_alone_spec in E; contradiction].
        * eexists. split; [reflexivity|]. clear. induction args; constructor; auto. apply sort_arg_done.
      + intros H. assert (E : match ty with TypeDefault | TypeBzl => true | _ => false end || leave_alone stk (ECall c e lstart args e0 compact multi) = true).
        { rewrite orb_true_iff, TB, leave_alone_spec. auto. }
        rewrite E. reflexivity.
    - split.
      + intros [-> M]. apply has_comment_spec in M. unfold keep_sorted. rewrite M. eexists. split; [reflexivity|apply and_done].
      + intros NM. destruct (negb uoff && _) eqn:K; auto. exfalso. apply NM. apply andb_true_iff in K as [K1 K2]. apply negb_true_iff in K1.
        split; auto. apply has_comment_spec; auto.
    - destruct l as [|x l].
      + split; auto. intros [_ (x & l0 & X & _)]. discriminate.
      + assert (A : negb uoff && (keep_sorted (EList c start (x :: l) e multi) || keep_sorted x) = true <->
          uoff = false /\ exists y l0, x :: l = y :: l0 /\ (marked %"keep sorted" (EList c start (x :: l) e multi) \/ marked %"keep sorted" y)).
        { rewrite andb_true_iff, negb_true_iff, orb_true_iff. unfold keep_sorted. rewrite !has_comment_spec. split.
          - intros [H1 H2]. split; auto. exists x, l. auto.
          - intros (H1 & y & l0 & X & H2). injection X as <- <-. auto. }
        destruct (negb uoff && _).
        * split; [intros _; apply and_done|]. intros N. exfalso. apply N, A. auto.
        * split; auto. intros H. apply A in H. discriminate.
    - split.
      + intros [-> M]. apply has_comment_spec in M. unfold keep_sorted. rewrite M. eexists. split; [reflexivity|apply and_done].
      + intros NM. destruct (negb uoff && _) eqn:K; auto. exfalso. apply NM. apply andb_true_iff in K as [K1 K2]. apply negb_true_iff in K1.
        split; auto. apply has_comment_spec; auto.
  Qed.
End S.

(** Exactly the lists asked for are sorted, those marked 'do not sort' (or commented) lose duplicates only. *)
Theorem C63_lists :
  forall w uoff allow strip f,
    walked (sort_node strip (w_sortable w uoff allow) (w_denied w) (like_build (file_type f)) (uoff = false)) [] f
      (sortStringLists w uoff allow strip f).
Proof. intros. apply Edit_walked; [apply listsort_height|apply listsort_kind|]. apply node_exact. Qed.
Print Assumptions C63_lists.
(** The same for one list, as called from other tools. *)
Theorem C63_one_list :
  forall strip c s l e m, exists l', SortStringList strip (EList c s l e m) = EList c s l' e m /\ list_result strip c s e m l l'.
Proof.
  intros. pose proof (list_done strip c s l e m) as H. inversion H; subst; [exfalso; match goal with N : ~ looked_into _ |- _ => apply N end; constructor|]. eauto.
Qed.
Print Assumptions C63_one_list.
Section U.
  Context (strip : bool).
  Lemma use_repo_exact stk e : use_repo_done strip stk e (use_repo_node strip stk e).
  Proof.
    split.
    - intros c i p a0 a1 a2 args en k m -> Hi. cbv zeta. cbn [use_repo_node]. rewrite Hi, beq_refl. unfold do_not_sort.
      destruct (_ || _ || _) eqn:E; eexists; (split; [reflexivity|]).
      + rewrite !orb_true_iff, !has_comment_spec in E. split; [intros _; apply deduplicate_tidied|intros N; exfalso; apply N; tauto].
      + split; [|intros _; apply sort_string_exprs_sorted].
        intros H. exfalso. rewrite <- !has_comment_spec in H. rewrite !orb_false_iff in E. destruct E as [[E1 E2] E3].
        rewrite E1, E2, E3 in H. destruct H as [|[|]]; discriminate.
    - intros H. destruct e; auto. destruct e; auto. destruct args as [|a0 [|a1 [|a2 args]]]; auto. cbn [use_repo_node].
      destruct (beq_spec (i_name i) %"use_repo"); auto. exfalso. eapply H; eauto.
  Qed.
  Lemma use_repo_height stk e : height (use_repo_node strip stk e) <= height e.
  Proof.
    destruct e; auto. destruct e; auto. destruct args as [|a0 [|a1 [|a2 args]]]; auto. cbn [use_repo_node].
    destruct (beq _ _); auto.
    assert (T : forall l l', tidied strip l l' -> height (ECall c (EIdent i) lstart l' e0 compact multi) <= height (ECall c (EIdent i) lstart l e0 compact multi)).
    { intros l l' T. apply tidied_heights in T. rewrite !height_unfold. unfold children, fold_children. simpl. rewrite !map_id. destruct (list_max (map height l)), (list_max (map height l')); lia. }
    destruct (_ || _ || _); apply T; [right; apply deduplicate_tidied|left; apply sort_string_exprs_chunkwise].
  Qed.
  Lemma use_repo_kind : cb_kind (use_repo_node strip).
  Proof. split; intros; eexists; reflexivity. Qed.
End U.
(** The arguments of use_repo calls. *)
Theorem C63_use_repo :
  forall strip f, walked (use_repo_done strip) [] f (sortUseRepoPositionals strip f).
Proof. intros. apply Edit_walked; [apply use_repo_height|apply use_repo_kind|]. apply use_repo_exact. Qed.
Print Assumptions C63_use_repo.
(** The four outcomes for the list [b, a, b]: sorted; sorted in spite of a comment line; duplicates removed
    (twice); left alone. *)
Example C63_nontrivial :
  let cm t := Comments [Comment no_pos t] [] [] in
  let el c v := EStr (Str c no_pos v false no_pos []) in
  let f c0 c1 := EFile no_com (FMeta [] [] [] TypeBuild)
     [Some (ECall no_com (EIdent (Ident no_com no_pos %"r")) no_pos
       [EAssign no_com (EIdent (Ident no_com no_pos %"deps")) no_pos %"=" false
          (EList no_com no_pos [el c0 %"b"; el c1 %"a"; el no_com %"b"] (End no_com no_pos) false)] (End no_com no_pos) false false)] in
  let vals f := match f with EFile _ _ [Some (ECall _ _ _ [EAssign _ _ _ _ _ (EList _ _ l _ _)] _ _ _)] => str_values l | _ => [] end in
  let run := sortStringLists (Rewriter None [] [] [%"deps"] [] [] [] false false) false [] false in
  vals (run (f no_com no_com)) = [%"a"; %"b"] /\
  vals (run (f (cm %"# keep sorted") no_com)) = [%"a"; %"b"] /\
  vals (run (f (cm %"# Do not sort: order matters") no_com)) = [%"b"; %"a"] /\
  vals (run (f no_com (cm %"# see b/1"))) = [%"b"; %"a"] /\
  vals (sortStringLists (Rewriter None [] [] [%"srcs"] [] [] [] false false) false [] false (f no_com no_com)) = [%"b"; %"a"; %"b"].
Proof. vm_compute. repeat split; reflexivity. Qed.
