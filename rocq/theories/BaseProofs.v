From Verif Require Import Base.

Lemma beq_eq a b : beq a b = true <-> a = b.
Proof.
  revert b; induction a as [|x a IH]; intros [|y b]; simpl; split; try discriminate; auto.
  - rewrite andb_true_iff, Ascii.eqb_eq, IH. intros [-> ->]; auto.
  - intros [= -> ->]. rewrite andb_true_iff, Ascii.eqb_eq, IH. auto.
Qed.
Lemma beq_refl a : beq a a = true. Proof. apply beq_eq; auto. Qed.
Lemma beq_neq a b : beq a b = false <-> a <> b.
Proof. rewrite <- beq_eq. destruct (beq a b); split; congruence. Qed.
Lemma beq_spec a b : reflect (a = b) (beq a b).
Proof. destruct (beq a b) eqn:E; constructor; [apply beq_eq|apply beq_neq]; auto. Qed.
Lemma beq_sym a b : beq a b = beq b a.
Proof. destruct (beq_spec a b), (beq_spec b a); congruence. Qed.

Lemma bytes_eq_dec (a b : bytes) : {a = b} + {a <> b}.
Proof. apply list_eq_dec, ascii_dec. Qed.

Lemma ascii_eqb_refl (c : ascii) : Ascii.eqb c c = true.
Proof. apply Ascii.eqb_refl. Qed.

Lemma bN_inj a b : bN a = bN b -> a = b.
Proof. intros H. rewrite <- (ascii_N_embedding a), <- (ascii_N_embedding b). unfold bN in H. congruence. Qed.

Lemma bcmp_eq a b : bcmp a b = Eq <-> a = b.
Proof.
  revert b; induction a as [|x a IH]; intros [|y b]; simpl; split; try discriminate; auto.
  - destruct (N.compare_spec (bN x) (bN y)) as [E|E|E]; try discriminate.
    intros H. apply IH in H. apply bN_inj in E. congruence.
  - intros [= -> ->]. rewrite N.compare_refl. apply IH; auto.
Qed.
Lemma bcmp_refl a : bcmp a a = Eq. Proof. apply bcmp_eq; auto. Qed.
Lemma bcmp_antisym a b : bcmp b a = CompOpp (bcmp a b).
Proof.
  revert b; induction a as [|x a IH]; intros [|y b]; simpl; auto.
  rewrite N.compare_antisym. destruct (N.compare (bN x) (bN y)); simpl; auto.
Qed.
Lemma bcmp_trans a b c : bcmp a b = Lt -> bcmp b c = Lt -> bcmp a c = Lt.
Proof.
  revert b c; induction a as [|x a IH]; intros [|y b] [|z c]; simpl; auto; try discriminate.
  destruct (N.compare_spec (bN x) (bN y)) as [E|E|E];
  destruct (N.compare_spec (bN y) (bN z)) as [F|F|F]; intros H1 H2; try discriminate.
  - apply bN_inj in E, F; subst. rewrite N.compare_refl. eauto.
  - apply bN_inj in E; subst. destruct (N.compare_spec (bN y) (bN z)); auto; lia.
  - apply bN_inj in F; subst. destruct (N.compare_spec (bN x) (bN z)); auto; lia.
  - destruct (N.compare_spec (bN x) (bN z)); auto; lia.
Qed.
Lemma blt_irrefl a : blt a a = false.
Proof. unfold blt. rewrite bcmp_refl; auto. Qed.
Lemma blt_trans a b c : blt a b = true -> blt b c = true -> blt a c = true.
Proof.
  unfold blt. intros H1 H2.
  rewrite (bcmp_trans a b c); auto; [destruct (bcmp a b)|destruct (bcmp b c)]; congruence.
Qed.
Lemma blt_asym a b : blt a b = true -> blt b a = false.
Proof. unfold blt. rewrite (bcmp_antisym a b). destruct (bcmp a b); simpl; congruence. Qed.
Lemma blt_total a b : a <> b -> blt a b = true \/ blt b a = true.
Proof.
  unfold blt. rewrite (bcmp_antisym a b). intros H.
  destruct (bcmp a b) eqn:E; simpl; auto. apply bcmp_eq in E; contradiction.
Qed.
Lemma blt_neq a b : blt a b = true -> a <> b.
Proof. intros H ->. rewrite blt_irrefl in H. discriminate. Qed.

(** Prefix / suffix. *)
Lemma has_prefix_spec p s : has_prefix p s = true <-> exists t, s = p ++ t.
Proof.
  revert s; induction p as [|x p IH]; intros s; simpl.
  - split; eauto.
  - destruct s as [|y s]; [split; [discriminate|intros [t [=]]]|].
    rewrite andb_true_iff, Ascii.eqb_eq, IH. split.
    + intros [-> [t ->]]; eauto.
    + intros [t [= -> ->]]; eauto.
Qed.
Lemma has_prefix_app p t : has_prefix p (p ++ t) = true.
Proof. apply has_prefix_spec; eauto. Qed.
Lemma has_suffix_spec p s : has_suffix p s = true <-> exists t, s = t ++ p.
Proof.
  unfold has_suffix. rewrite has_prefix_spec. split; intros [t H].
  - exists (rev t). rewrite <- (rev_involutive s), H, rev_app_distr, rev_involutive; auto.
  - exists (rev t). rewrite H, rev_app_distr; auto.
Qed.
Lemma has_suffix_app t p : has_suffix p (t ++ p) = true.
Proof. apply has_suffix_spec; eauto. Qed.
Lemma skipn_app_exact {A} (p t : list A) : skipn (List.length p) (p ++ t) = t.
Proof. induction p; simpl; auto. Qed.
Lemma firstn_app_exact {A} (p t : list A) : firstn (List.length p) (p ++ t) = p.
Proof. induction p; simpl; auto; congruence. Qed.
Lemma trim_prefix_app p t : trim_prefix p (p ++ t) = t.
Proof. unfold trim_prefix. rewrite has_prefix_app. apply skipn_app_exact. Qed.
Lemma trim_suffix_app t p : trim_suffix p (t ++ p) = t.
Proof.
  unfold trim_suffix. rewrite has_suffix_app, app_length.
  replace (_ + _ - _) with (List.length t) by lia. apply firstn_app_exact.
Qed.

(** Split. *)
Lemma split2_none c s : ~ In c s -> split2 c s = (s, None).
Proof.
  induction s as [|x s IH]; simpl; auto. intros H.
  destruct (Ascii.eqb_spec x c); [subst; exfalso; auto|]. rewrite IH; auto.
Qed.
Lemma split2_app c a b : ~ In c a -> split2 c (a ++ c :: b) = (a, Some b).
Proof.
  induction a as [|x a IH]; simpl; intros H.
  - rewrite ascii_eqb_refl; auto.
  - destruct (Ascii.eqb_spec x c); [subst; exfalso; auto|]. rewrite IH; auto.
Qed.
Lemma split2_inv c s :
  match split2 c s with
  | (a, None) => a = s /\ ~ In c s
  | (a, Some b) => s = a ++ c :: b /\ ~ In c a
  end.
Proof.
  induction s as [|x s IH]; simpl; auto.
  destruct (Ascii.eqb_spec x c) as [->|Hx]; [simpl; auto|].
  destruct (split2 c s) as [a [b|]]; destruct IH as [-> IH]; simpl; split; auto; intros [?|?]; auto.
Qed.
Lemma split_nonempty c s : split c s <> [].
Proof. destruct s as [|x s]; simpl; [discriminate|]. destruct (Ascii.eqb x c); [discriminate|]. destruct (split c s); discriminate. Qed.
Lemma join_split c s : join [c] (split c s) = s.
Proof.
  induction s as [|x s IH]; auto. cbn [split].
  pose proof (split_nonempty c s) as Hn.
  destruct (Ascii.eqb_spec x c) as [->|Hx].
  - destruct (split c s) as [|h t]; [congruence|]. cbn [join] in *. simpl. rewrite <- IH; auto.
  - destruct (split c s) as [|h t]; [congruence|]. cbn [join] in *.
    destruct t; rewrite <- IH; auto.
Qed.
Lemma split_no_sep c s : Forall (fun p => ~ In c p) (split c s).
Proof.
  induction s as [|x s IH]; simpl; [repeat constructor; auto|].
  destruct (Ascii.eqb_spec x c) as [->|Hx]; [constructor; auto|].
  destruct (split c s) as [|h t].
  - repeat constructor. simpl; intuition.
  - inversion_clear IH as [|? ? H1 H2]. constructor; auto. simpl; intuition.
Qed.
Lemma split_app c a b : ~ In c a -> split c (a ++ c :: b) = a :: split c b.
Proof.
  induction a as [|x a IH]; simpl; intros H.
  - rewrite ascii_eqb_refl; auto.
  - destruct (Ascii.eqb_spec x c); [subst; exfalso; auto|]. rewrite IH by auto. auto.
Qed.
Lemma split_none c a : ~ In c a -> split c a = [a].
Proof.
  induction a as [|x a IH]; simpl; intros H; auto.
  destruct (Ascii.eqb_spec x c); [subst; exfalso; auto|]. rewrite IH by auto. auto.
Qed.
Lemma split_join c l : l <> [] -> Forall (fun p => ~ In c p) l -> split c (join [c] l) = l.
Proof.
  induction l as [|x l IH]; intros Hn H; [congruence|].
  inversion_clear H as [|? ? H1 H2]. destruct l as [|y l].
  - simpl. apply split_none; auto.
  - cbn [join app]. rewrite split_app by auto. f_equal. apply IH; auto; discriminate.
Qed.
Lemma split_inj c a b : split c a = split c b -> a = b.
Proof. intros H. rewrite <- (join_split c a), <- (join_split c b), H; auto. Qed.

Lemma contains_byte_In c s : contains_byte c s = true <-> In c s.
Proof.
  unfold contains_byte. rewrite existsb_exists. split.
  - intros [x [H1 H2]]. apply Ascii.eqb_eq in H2; subst; auto.
  - intros H. exists c. rewrite ascii_eqb_refl; auto.
Qed.

(** path.Base. *)
Lemma after_last_slash_none s : ~ In c_slash s -> after_last_slash s = s.
Proof.
  unfold after_last_slash.
  assert (G : forall acc, ~ In c_slash s -> fold_left (fun acc c => if Ascii.eqb c c_slash then [] else acc ++ [c]) s acc = acc ++ s).
  { induction s as [|x s IH]; intros acc H; simpl; [rewrite app_nil_r; auto|].
    simpl in H. destruct (Ascii.eqb_spec x c_slash); [exfalso; auto|].
    rewrite IH by auto. rewrite <- app_assoc; auto. }
  intros H. rewrite G; auto.
Qed.
Lemma after_last_slash_no s : ~ In c_slash (after_last_slash s).
Proof.
  unfold after_last_slash.
  assert (G : forall acc, ~ In c_slash acc -> ~ In c_slash (fold_left (fun acc c => if Ascii.eqb c c_slash then [] else acc ++ [c]) s acc)).
  { induction s as [|x s IH]; intros acc H; simpl; auto. apply IH.
    destruct (Ascii.eqb_spec x c_slash); auto. rewrite in_app_iff; simpl; intuition. }
  apply G; auto.
Qed.

Lemma trim_left_suffix p s : exists t, s = t ++ trim_left p s /\ forallb p t = true.
Proof.
  induction s as [|x s IH]; simpl; [exists []; auto|].
  destruct (p x) eqn:E; [|exists []; auto].
  destruct IH as [t [H1 H2]]. exists (x :: t). simpl. rewrite E. split; auto. congruence.
Qed.
Lemma trim_left_head p s : match trim_left p s with [] => True | c :: _ => p c = false end.
Proof. induction s as [|x s IH]; simpl; auto. destruct (p x) eqn:E; auto. Qed.
Lemma trim_left_id p s : match s with [] => True | c :: _ => p c = false end -> trim_left p s = s.
Proof. destruct s; simpl; auto. intros ->; auto. Qed.
Lemma trim_left_idem p s : trim_left p (trim_left p s) = trim_left p s.
Proof. apply trim_left_id, trim_left_head. Qed.
Lemma trim_left_app p t s : forallb p t = true -> trim_left p (t ++ s) = trim_left p s.
Proof. induction t as [|x t IH]; simpl; auto. intros H; apply andb_true_iff in H as [-> H]; auto. Qed.
Lemma trim_left_all p t : forallb p t = true -> trim_left p t = [].
Proof. intros H. rewrite <- (app_nil_r t), trim_left_app; auto. Qed.
Lemma forallb_rev {A} (p : A -> bool) l : forallb p (rev l) = forallb p l.
Proof. induction l; simpl; auto. rewrite forallb_app; simpl. rewrite IHl, andb_true_r, andb_comm; auto. Qed.
Lemma trim_right_prefix p s : exists t, s = trim_right p s ++ t /\ forallb p t = true.
Proof.
  unfold trim_right. destruct (trim_left_suffix p (rev s)) as [t [H1 H2]].
  exists (rev t). split.
  - rewrite <- rev_app_distr, <- H1, rev_involutive; auto.
  - rewrite forallb_rev; auto.
Qed.

(** Sorting. *)
Section Sorting.
  Context {A : Type} (lt : A -> A -> bool).
  Lemma insert_perm x l : Permutation (insert lt x l) (x :: l).
  Proof.
    induction l as [|y l IH]; simpl; auto.
    destruct (lt y x); auto. rewrite IH. apply perm_swap.
  Qed.
  Lemma isort_perm l : Permutation (isort lt l) l.
  Proof. induction l as [|x l IH]; simpl; auto. rewrite insert_perm. auto. Qed.
  Lemma isort_length l : List.length (isort lt l) = List.length l.
  Proof. apply Permutation_length, isort_perm. Qed.

  (** [le x y]: [y] is not strictly before [x]. *)
  Definition nlt (x y : A) : Prop := lt y x = false.

  Hypothesis asym : forall x y, lt x y = true -> lt y x = false.
  Lemma insert_locally_sorted x l : LocallySorted nlt l -> LocallySorted nlt (insert lt x l).
  Proof.
    unfold nlt. induction l as [|y l IH]; simpl; intros H; [constructor|].
    destruct (lt y x) eqn:E.
    - destruct l as [|z l]; simpl in *; [repeat constructor; apply asym; auto|].
      inversion H as [| |? ? ? H1 H2]; subst. specialize (IH H1).
      destruct (lt z x) eqn:F; constructor; auto.
    - constructor; auto.
  Qed.
  Lemma isort_locally_sorted l : LocallySorted nlt (isort lt l).
  Proof. induction l; simpl; [constructor|]. apply insert_locally_sorted; auto. Qed.

  Lemma isort_sorted_id l : LocallySorted nlt l -> isort lt l = l.
  Proof.
    induction l as [|x l IH]; simpl; auto. intros H.
    assert (Hl : LocallySorted nlt l) by (inversion H; auto; constructor).
    rewrite IH by auto. destruct l as [|y l]; simpl; auto.
    inversion H as [| |? ? ? H1 H2]; subst. unfold nlt in H2. rewrite H2; auto.
  Qed.
  Lemma isort_idem l : isort lt (isort lt l) = isort lt l.
  Proof. apply isort_sorted_id, isort_locally_sorted. Qed.

  Hypothesis ntrans : forall x y z, nlt x y -> nlt y z -> nlt x z.
  Lemma isort_strongly_sorted l : StronglySorted nlt (isort lt l).
  Proof.
    apply Sorted_StronglySorted; [intros x y z; apply ntrans|].
    apply Sorted_LocallySorted_iff, isort_locally_sorted.
  Qed.
End Sorting.

Lemma strict_trans_ntrans {A} (lt : A -> A -> bool) :
  (forall x y, lt x y = true -> lt y x = false) ->
  (forall x y z, lt x y = true -> lt y z = true -> lt x z = true) ->
  (forall x y, x = y \/ lt x y = true \/ lt y x = true) ->
  forall x y z, nlt lt x y -> nlt lt y z -> nlt lt x z.
Proof.
  unfold nlt. intros asym trans total x y z H1 H2.
  destruct (lt z x) eqn:E; auto.
  destruct (total x y) as [->|[H|H]]; try congruence.
  assert (lt z y = true) by eauto. congruence.
Qed.

(** A sorted permutation for a strict total order is unique. *)
Lemma sorted_perm_unique {A} (R : A -> A -> Prop) :
  (forall x y, R x y -> R y x -> x = y) ->
  forall l1 l2, StronglySorted R l1 -> StronglySorted R l2 -> Permutation l1 l2 -> l1 = l2.
Proof.
  intros antisym. induction l1 as [|x l1 IH]; intros l2 S1 S2 P.
  - apply Permutation_nil in P; auto.
  - destruct l2 as [|y l2]; [apply Permutation_sym, Permutation_nil in P; discriminate|].
    inversion_clear S1 as [|? ? S1' F1]. inversion_clear S2 as [|? ? S2' F2].
    rewrite Forall_forall in F1, F2.
    assert (x = y).
    { assert (Hx : In x (y :: l2)) by (eapply Permutation_in; [exact P|left; auto]).
      assert (Hy : In y (x :: l1)) by (eapply Permutation_in; [apply Permutation_sym; exact P|left; auto]).
      destruct Hx as [->|Hx]; auto. destruct Hy as [->|Hy]; auto. }
    subst y. f_equal. apply IH; auto. eapply Permutation_cons_inv; eauto.
Qed.

(** Deciding a property of all 256 bytes. *)
Definition all_bytes : list ascii := map ascii_of_nat (seq 0 256).
Lemma all_bytes_complete c : In c all_bytes.
Proof.
  unfold all_bytes. apply in_map_iff. exists (nat_of_ascii c). split; [apply ascii_nat_embedding|].
  apply in_seq. pose proof (nat_ascii_bounded c). lia.
Qed.
Lemma forall_byte (P : ascii -> bool) : forallb P all_bytes = true -> forall c, P c = true.
Proof. intros H c. rewrite forallb_forall in H. apply H, all_bytes_complete. Qed.

Lemma mem_bytes_In x l : mem_bytes x l = true <-> In x l.
Proof.
  induction l as [|y l IH]; simpl; [split; [discriminate|tauto]|].
  rewrite orb_true_iff, IH, beq_eq. intuition.
Qed.

Lemma NoDup_app_l {A} (a b : list A) : NoDup (a ++ b) -> NoDup a.
Proof.
  induction a as [|x a IH]; intros H; [constructor|]. inversion_clear H as [|? ? H1 H2].
  constructor; auto. intros Hi. apply H1, in_or_app. auto.
Qed.
Lemma NoDup_app_r {A} (a b : list A) : NoDup (a ++ b) -> NoDup b.
Proof. induction a as [|x a IH]; auto. intros H. inversion_clear H; auto. Qed.
