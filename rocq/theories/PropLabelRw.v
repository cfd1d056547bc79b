(** Properties C26 (label rewriting) and C27 (leave-alone comments). *)
From Verif Require Import Base BaseProofs Labels LabelsProofs Ast Walk WalkSpec WalkProofs WalkGen StrList StrListProofs Rewrite CallSpec CallProofs LabelRwSpec LabelRwProofs.

Lemma Forall2_impl {A B} (P Q : A -> B -> Prop) l l' : (forall a b, P a b -> Q a b) -> Forall2 P l l' -> Forall2 Q l l'.
Proof. intros H. induction 1; constructor; auto. Qed.

(** C26: in the default configuration the label rewrite changes only label attributes, and in
    them only joins a sum of two strings and applies the two documented abbreviations. *)
Theorem C26_only_documented_changes :
  forall w f, w_strip w = false -> w_shorten w = false ->
    walked (labels_fixed (w_label_arg w) (w_label_deny w) label_change) [] f (fixLabels w f).
Proof.
  intros w f H1 H2. apply Edit_walked; [apply label_height|apply label_kind|].
  intros stk e. pose proof (label_fixed w (file_path f) stk e) as H. rewrite H1, H2 in H.
  destruct e; auto. cbn [labels_fixed] in *. destruct H as (L & args' & E & F). split; auto.
  exists args'. split; auto. eapply Forall2_impl; [|exact F]. cbv beta.
  intros a a' [|(ca & key & pa & op & b & rhs & rhs' & G1 & G2 & G3 & G4 & G5 & G6 & G7)]; auto. right.
  exists ca, key, pa, op, b, rhs, rhs'. repeat (split; auto).
  eapply relabeled_mono; [|exact G7]. cbv beta. intros v v' ->. apply shorten_forms.
Qed.
Print Assumptions C26_only_documented_changes.
(** The abbreviated text of a well-formed label is the same label, in every package. *)
Theorem C26_same_label :
  forall path pkg repo p t,
    repo_prefix repo -> ~ In c_colon p -> ~ In c_nl p ->
    has_prefix %"/" p = false -> has_suffix %"/" p = false -> ~ In c_colon t ->
    let v := repo ++ %"//" ++ p ++ %":" ++ t in
    parse_relative (shorten_value false false path v) pkg = parse_relative v pkg.
Proof. intros. apply shorten_same_label; auto. Qed.
Print Assumptions C26_same_label.
(** With the option to shorten absolute labels the text is the same label in the package of the
    file. *)
Theorem C26_shorten_absolute :
  forall path repo p t,
    repo_prefix repo -> ~ In c_colon p -> ~ In c_nl p ->
    has_prefix %"/" p = false -> has_suffix %"/" p = false -> ~ In c_colon t -> t <> [] ->
    ~ In c_colon (path_dir path) ->
    let v := repo ++ %"//" ++ p ++ %":" ++ t in
    parse_relative (shorten_value false true path v) (path_dir path) = parse_relative v (path_dir path).
Proof.
  intros path repo p t Hr H1 H2 H3 H4 H5 Ht Hd v.
  assert (Hc : In c_colon v) by (unfold v; rewrite !in_app_iff; right; right; right; left; left; reflexivity).
  set (dir := path_dir path) in *.
  assert (N : v <> %"//" ++ dir).
  { intros E. rewrite E in Hc. apply in_app_iff in Hc as [Hc|Hc]; auto. simpl in Hc. intuition discriminate. }
  destruct (has_prefix ((%"//" ++ dir) ++ [c_colon]) v) eqn:P.
  - apply has_prefix_spec in P as [x P].
    assert (Er : repo = []). { destruct Hr as [->|(w & Ew & _)]; auto. unfold v in P. rewrite Ew in P. discriminate P. }
    subst repo.
    assert (E : p = dir /\ t = x).
    { unfold v in P. rewrite <- !app_assoc in P. cbn [app] in P. change (%"//") with [c_slash; c_slash] in P. cbn [app] in P.
      injection P as P. change (p ++ %":" ++ t) with (p ++ c_colon :: t) in P. apply app_colon_unique in P; auto. }
    destruct E as [Ep Ex]. clear P.
    assert (E : shorten_value false true path v = c_colon :: t).
    { unfold shorten_value. fold dir. cbn [andb]. destruct (beq_spec v (%"//" ++ dir)); [contradiction|].
      assert (has_prefix ((%"//" ++ dir) ++ [c_colon]) v = true) as ->.
      { apply has_prefix_spec. exists t. unfold v. rewrite Ep. rewrite <- !app_assoc. reflexivity. }
      replace (skipn (List.length (%"//" ++ dir)) v) with (c_colon :: t); [reflexivity|].
      unfold v. rewrite Ep. cbn [app]. change (%"//" ++ dir ++ %":" ++ t) with ((%"//" ++ dir) ++ c_colon :: t). rewrite skipn_app_exact. auto. }
    rewrite E. unfold v. change ([] ++ %"//" ++ p ++ %":" ++ t) with (%"//" ++ p ++ c_colon :: t). rewrite parse_relative_slashes by auto. rewrite Ep.
    unfold parse_relative. cbn [has_prefix]. change (Ascii.eqb c_at c_colon) with false. change (Ascii.eqb "/" c_colon) with false. cbn.
    f_equal. apply (trim_left_id (Ascii.eqb c_colon)). destruct t as [|y t]; auto. apply Ascii.eqb_neq. intros <-. apply H5; left; auto.
  - replace (shorten_value false true path v) with (shorten_value false false path v).
    + apply shorten_same_label; auto.
    + unfold shorten_value. fold dir. cbn [andb]. destruct (beq_spec v (%"//" ++ dir)); [contradiction|]. rewrite P. reflexivity.
Qed.
Print Assumptions C26_shorten_absolute.
(** Malformed labels (two colons; a package ending in a slash) may change their meaning. *)
Theorem C26_malformed_label_refuted :
  exists v pkg, parse_relative (shorten_value false false [] v) pkg <> parse_relative v pkg.
Proof. exists %"@foo//x/:foo", []. vm_compute. discriminate. Qed.
Print Assumptions C26_malformed_label_refuted.
Example C26_nontrivial :
  shorten_value false false [] %"//foo/bar:bar" = %"//foo/bar" /\
  shorten_value false false [] %"@r//foo/bar:bar" = %"@r//foo/bar" /\
  shorten_value false false [] %"@r//:r" = %"@r" /\
  shorten_value false false [] %"//foo/bar:baz" = %"//foo/bar:baz" /\
  shorten_value false true %"foo/bar/BUILD" %"//foo/bar:baz" = %":baz" /\
  shorten_value false true %"foo/bar/BUILD" %"//foo/bar" = %":bar" /\
  repo_prefix %"@r" /\ has_suffix %"/" %"foo/bar" = false.
Proof. repeat split; try reflexivity. right. exists %"r". repeat split; discriminate. Qed.

(** C27: a subtree below a node marked 'buildifier: leave-alone' is kept by the argument sorter
    and by the label rewriter. *)
Theorem C27_call_arguments_kept :
  forall w stk e, left_alone stk e -> Edit_from (callsort_node w) stk e = e.
Proof.
  intros w stk e H. apply (Edit_id (callsort_node w) (callsort_height w) left_alone); auto. clear. intros stk e H.
  split; [|intros; apply left_alone_child; auto].
  destruct e; auto. cbn [callsort_node]. rewrite (proj2 (leave_alone_spec _ _)); auto.
Qed.
Print Assumptions C27_call_arguments_kept.
Theorem C27_labels_kept :
  forall w path stk e, left_alone stk e -> Edit_from (label_node w path) stk e = e.
Proof.
  intros w path stk e H. apply (Edit_id (label_node w path) (label_height w path) left_alone); auto. clear. intros stk e H.
  split; [|intros; apply left_alone_child; auto].
  destruct e; auto. cbn [label_node]. rewrite (proj2 (leave_alone_spec _ _)); auto.
Qed.
Print Assumptions C27_labels_kept.
