(** Proofs about the driver and the layout rewrites. *)
From Verif Require Import Base BaseProofs Order Ast Walk WalkSpec WalkProofs WalkGen StrList Rewrite CallSpec CallProofs Loads LoadsSpec LoadsProofs LoadsOrder Pipeline LayoutSpec.

Lemma sbl_refl e : same_but_layout e e.
Proof.
  induction e as [e IH] using expr_children_ind. constructor; auto.
  induction (children e) as [|x l IHl]; constructor; [apply IH; left; auto|apply IHl; intros; apply IH; right; auto].
Qed.
Lemma sbl_trans a b c : same_but_layout a b -> same_but_layout b c -> same_but_layout a c.
Proof.
  revert b c. induction a as [a IH] using expr_children_ind. intros b c H1 H2. inversion_clear H1 as [? ? S1 F1]. inversion_clear H2 as [? ? S2 F2].
  constructor; [congruence|]. revert IH F1 F2. generalize (children a), (children b), (children c). clear.
  intros la lb lc IH F1. revert lc. induction F1 as [|x y la lb H F1 IHF]; intros lc F2; inversion F2; subst; constructor.
  - eapply IH; eauto. left; auto.
  - apply IHF; auto. intros; eapply IH; eauto. right; auto.
Qed.
Lemma sbl_height e e' : same_but_layout e e' -> height e' = height e.
Proof.
  revert e'. induction e as [e IH] using expr_children_ind. intros e' H. inversion_clear H as [? ? _ F].
  rewrite !height_unfold. do 2 f_equal. revert IH F. generalize (children e), (children e'). clear.
  intros l l' IH F. induction F as [|x y l l' H F IHF]; auto. cbn [map]. f_equal; [apply IH; auto; left; auto|].
  apply IHF. intros; apply IH; auto. right; auto.
Qed.
Lemma sbl_map f e : kind_ok f -> (forall c, In c (children e) -> same_but_layout c (f c)) -> same_but_layout e (map_children f e).
Proof.
  intros Hk H. constructor; [rewrite shell_map_children; auto|]. rewrite children_map_children by auto.
  induction (children e) as [|x l IH]; cbn [map]; constructor; [apply H; left; auto|]. apply IH. intros; apply H; right; auto.
Qed.
Lemma sbl_binary c x x' p op br br' y y' : same_but_layout x x' -> same_but_layout y y' ->
  same_but_layout (EBinary c x p op br y) (EBinary c x' p op br' y').
Proof. intros. constructor; [reflexivity|]. unfold children, fold_children; simpl. auto. Qed.
Lemma sbl_list1 c s x x' en m m' : same_but_layout x x' -> same_but_layout (EList c s [x] en m) (EList c s [x'] en m').
Proof. intros. constructor; [reflexivity|]. unfold children, fold_children; simpl. auto. Qed.
Lemma sbl_list c s l en m m' : same_but_layout (EList c s l en m) (EList c s l en m').
Proof.
  constructor; [reflexivity|]. unfold children, fold_children; simpl. rewrite !map_id.
  induction l; constructor; auto using sbl_refl.
Qed.
Lemma force_sbl e : same_but_layout e (snd (force_multi_line e)).
Proof.
  induction e as [e IH] using expr_children_ind. destruct e; try apply sbl_refl.
  - cbn [force_multi_line]. destruct args as [|x [|y l]]; try apply sbl_refl.
    pose proof (IH x (or_intror (or_introl eq_refl))) as Hx. destruct (force_multi_line x) as [ok x']. cbn [snd] in *.
    constructor; [reflexivity|]. unfold children, fold_children; simpl. auto using sbl_refl.
  - cbn [force_multi_line]. destruct multi; [apply sbl_refl|]. destruct l as [|x [|y l]]; try apply sbl_list.
    pose proof (IH x (or_introl eq_refl)) as Hx. destruct (force_multi_line x) as [ok x']. cbn [snd] in *.
    destruct ok; apply sbl_list1; auto.
Qed.
Lemma unflatten_app w a b : unflatten w (a ++ b) = unflatten (unflatten w a) b.
Proof. apply fold_left_app. Qed.
Lemma flatten_unflatten e : unflatten (fst (flatten e)) (snd (flatten e)) = e.
Proof.
  induction e; try reflexivity. cbn [flatten]. destruct (beq_spec op %"+") as [->|]; [|reflexivity].
  destruct (flatten e1) as [w l]. cbn [fst snd] in *. rewrite unflatten_app, IHe1. reflexivity.
Qed.
Lemma unflatten_sbl l : forall w w' prev, same_but_layout w w' -> same_but_layout (unflatten w l) (unflatten w' (fix_breaks prev l)).
Proof.
  induction l as [|q l IH]; intros w w' prev H; auto. cbn [fix_breaks].
  pose proof (force_sbl (pl_right q)) as F. destruct (force_multi_line (pl_right q)) as [ok y']. cbn [snd] in F.
  destruct (pl_break q) eqn:B; cbn [unflatten fold_left]; apply IH; apply sbl_binary; auto using sbl_refl.
Qed.
Lemma fix_sum_sbl e : same_but_layout e (fix_sum e).
Proof.
  unfold fix_sum. pose proof (flatten_unflatten e) as H. destruct (flatten e) as [w l]. cbn [fst snd] in H.
  destruct (existsb _ _); [|apply sbl_refl]. rewrite <- H at 1. apply unflatten_sbl, sbl_refl.
Qed.
Lemma multiplus_kind n skip : kind_ok (multiplus n skip).
Proof. split; intros; destruct n; eexists; reflexivity. Qed.
Lemma multiplus_sbl n : forall skip e, same_but_layout e (multiplus n skip e).
Proof.
  induction n as [|n IH]; intros skip e; [apply sbl_refl|]. cbn [multiplus].
  set (e1 := if is_plus e && negb skip then fix_sum e else e).
  assert (H : same_but_layout e e1) by (unfold e1; destruct (_ && _); auto using fix_sum_sbl, sbl_refl).
  eapply sbl_trans; [exact H|]. clearbody e1. clear H e skip.
  assert (G : same_but_layout e1 (map_children (multiplus n false) e1)) by (apply sbl_map; auto using multiplus_kind).
  destruct e1; auto. apply sbl_binary; auto.
Qed.
Lemma multiplus_fuel n : forall m skip e, height e <= n -> height e <= m -> multiplus n skip e = multiplus m skip e.
Proof.
  induction n as [|n IH]; intros m skip e H1 H2; [rewrite height_unfold in H1; lia|].
  destruct m as [|m]; [rewrite height_unfold in H2; lia|]. cbn [multiplus].
  set (e1 := if is_plus e && negb skip then fix_sum e else e).
  assert (H : height e1 = height e) by (unfold e1; destruct (_ && _); auto; apply sbl_height, fix_sum_sbl).
  assert (K : forall c, In c (children e1) -> height c <= n /\ height c <= m) by (intros c Hc; apply height_child in Hc; lia).
  assert (G : map_children (multiplus n false) e1 = map_children (multiplus m false) e1).
  { apply map_children_ext. intros c Hc. destruct (K c Hc). apply IH; auto. }
  destruct e1; auto. destruct (K e1_1) as [K1 K2]; [left; auto|]. destruct (K e1_2) as [K3 K4]; [right; left; auto|].
  f_equal; apply IH; auto.
Qed.

(** ** File types are kept *)
Lemma map_children_file g c m l : exists l', map_children g (EFile c m l) = EFile c m l'.
Proof. eexists. reflexivity. Qed.
Lemma Edit_file cb c m l : (forall stk, cb stk (EFile c m l) = EFile c m l) -> exists l', Edit cb (EFile c m l) = EFile c m l'.
Proof. intros H. unfold Edit, Edit_from. rewrite height_unfold. cbn [walk_edit]. rewrite H. apply map_children_file. Qed.
Definition is_file (f : expr) : Prop := match f with EFile _ _ _ => True | _ => False end.
Definition same_file (f f' : expr) : Prop :=
  match f, f' with EFile c m _, EFile c' m' _ => c = c' /\ m = m' | _, _ => False end.
Lemma same_file_trans a b c : same_file a b -> same_file b c -> same_file a c.
Proof. destruct a, b, c; simpl; intuition congruence. Qed.
Lemma same_file_refl a : is_file a -> same_file a a.
Proof. destruct a; simpl; auto. Qed.
Lemma same_file_type a b : same_file a b -> file_type b = file_type a.
Proof. destruct a, b; simpl; intuition congruence. Qed.
Lemma same_file_is a b : same_file a b -> is_file b.
Proof. destruct a, b; simpl; intuition. Qed.
Lemma ex_same c m l f' : (exists l', f' = EFile c m l') -> same_file (EFile c m l) f'.
Proof. intros [l' ->]. simpl; auto. Qed.
Lemma rewrites_same_file srt_loads srt_args r g w f f' :
  In r (rewrites srt_loads srt_args) -> is_file f -> rw_fn r g w f = Some f' -> same_file f f'.
Proof.
  intros Hr Hf H. destruct f as [c m l| | | | | | | | | | | | | | | | | | | | | | | | | | | | |]; try contradiction.
  unfold rewrites in Hr. repeat (destruct Hr as [<-|Hr]; [cbn [rw_fn] in H|]); [..|contradiction];
    try (injection H as <-; apply ex_same; (apply Edit_file; reflexivity || eexists; reflexivity)).
  - injection H as <-. apply ex_same. unfold removeParens. rewrite height_unfold. cbn [remove_parens]. apply map_children_file.
  - injection H as <-. apply ex_same. unfold fixMultilinePlus. rewrite height_unfold. cbn [multiplus is_plus andb]. apply map_children_file.
  - apply ex_same. unfold moveLoadOnTop in H. destruct (f_type m); try (injection H as <-; eauto; fail);
      (destruct (is_comment_anywhere _ _); [injection H as <-; eauto|]); destruct (move_loads l); try discriminate; injection H as <-; eauto.
  - apply ex_same. injection H as <-. cbn [compressSameOriginLoads]. eauto.
  - apply ex_same. unfold sortLoadStatements in H. destruct (is_comment_anywhere _ _); [injection H as <-; eauto|].
    destruct (sort_loads srt_loads l); try discriminate; injection H as <-; eauto.
Qed.

Lemma type_eqb_spec a b : reflect (a = b) (type_eqb a b).
Proof. destruct a, b; constructor; congruence. Qed.
Lemma in_scope_spec t s : in_scope t s = true <-> In t s.
Proof.
  unfold in_scope. rewrite existsb_exists. split; [intros (x & H & E)|intros H; exists t; split; auto].
  - destruct (type_eqb_spec t x); subst; auto; discriminate.
  - destruct (type_eqb_spec t t); congruence.
Qed.
Lemma table_names a b : map rw_name (rewrites a b) = documented_order.
Proof. reflexivity. Qed.
Ltac not_in H := exfalso; unfold only_build_like, only_module in H; repeat (destruct H as [H|H]; [discriminate H|]); contradiction.
Lemma runs_spec a b g w ty r : In r (rewrites a b) ->
  (runs g w ty r = true <-> should_run (g_disabled g) (w_set w) ty (rw_name r)).
Proof.
  intros Hr. unfold runs, should_run. destruct (w_set w) as [s|].
  - rewrite andb_false_r. cbn [orb]. apply mem_bytes_In.
  - rewrite orb_false_r, andb_true_r, andb_true_iff, negb_true_iff, in_scope_spec. unfold disabled.
    rewrite <- not_true_iff_false, mem_bytes_In.
    assert (S : In ty (rw_scope r) <-> (In (rw_name r) only_build_like -> ty = TypeBuild \/ ty = TypeWorkspace \/ ty = TypeModule) /\ (In (rw_name r) only_module -> ty = TypeModule)).
    { unfold rewrites in Hr. repeat (destruct Hr as [<-|Hr]; [cbn [rw_name rw_scope]|]); [..|contradiction];
        (split; [intros Hs; split; intros Hn; try not_in Hn; unfold scope_both, scope_build, scope_default in Hs; cbn [In app] in Hs; intuition congruence
          |intros [H1 H2]; unfold scope_both, scope_build, scope_default; cbn [In app]]);
        try (destruct ty; tauto);
        try (destruct H1 as [H1|[H1|H1]]; [unfold only_build_like; cbn [In]; tauto|..]; subst; tauto);
        try (rewrite H2 by (unfold only_module; cbn [In]; tauto); tauto). }
    rewrite S. tauto.
Qed.

Lemma loop_trace a b g w table : forall f tr f', (forall r, In r table -> In r (rewrites a b)) -> is_file f ->
  rewrite_loop g w table f = Some (tr, f') ->
  same_file f f' /\ tr = map rw_name (filter (runs g w (file_type f)) table).
Proof.
  induction table as [|r table IH]; intros f tr f' Ht Hf H; cbn [rewrite_loop filter] in *.
  - injection H as <- <-. auto using same_file_refl.
  - destruct (runs g w (file_type f) r).
    + destruct (rw_fn r g w f) as [f1|] eqn:E; [|discriminate].
      apply rewrites_same_file with (srt_loads := a) (srt_args := b) in E; auto; [|apply Ht; left; auto].
      destruct (rewrite_loop g w table f1) as [[tr1 f2]|] eqn:L; [|discriminate]. injection H as <- <-.
      apply IH in L as [L1 L2]; [|intros; apply Ht; right; auto|eapply same_file_is; eauto].
      split; [eapply same_file_trans; eauto|]. cbn [map fst]. rewrite L2. rewrite (same_file_type _ _ E). reflexivity.
    + apply IH in H; auto. intros; apply Ht; right; auto.
Qed.
Lemma subseq_filter {A B} (p : A -> bool) (h : A -> B) l : subseq (map h (filter p l)) (map h l).
Proof. induction l as [|x l IH]; cbn [filter map]; [constructor|]. destruct (p x); cbn [map]; [apply ss_keep|apply ss_drop]; auto. Qed.
