From Verif Require Import Base BaseProofs Labels.

Lemma label_eqb_eq a b : label_eqb a b = true <-> a = b.
Proof.
  unfold label_eqb. destruct a as [r p t], b as [r' p' t']; simpl.
  rewrite !andb_true_iff, !beq_eq. split; [intros [[-> ->] ->]; auto|intros [= -> -> ->]; auto].
Qed.
Lemma is_empty_spec s : is_empty s = true <-> s = [].
Proof. destruct s; simpl; split; congruence. Qed.

Lemma path_base_nonempty s : path_base s <> [].
Proof.
  unfold path_base. destruct s; [discriminate|]. destruct (after_last_slash _); discriminate.
Qed.

(** A label that can be written: repository without '/' and not starting with '@', package
    without ':', and a target (or nothing at all). *)
Definition wf_label (l : label) : Prop :=
  ~ In c_slash (repository l) /\ has_prefix [c_at] (repository l) = false /\
  ~ In c_colon (package l) /\
  (target l <> [] \/ (repository l = [] /\ package l = [])).

Lemma has_prefix_one c s : has_prefix [c] s = match s with [] => false | x :: _ => Ascii.eqb c x end.
Proof. destruct s; simpl; auto. rewrite andb_true_r; auto. Qed.

Lemma parse_rest_slashes repo pkg tg :
  ~ In c_colon pkg -> tg <> [] ->
  parse_rest repo (%"//" ++ pkg ++ c_colon :: tg) = Label repo pkg tg.
Proof.
  intros Hp Ht. unfold parse_rest.
  change (%"//" ++ pkg ++ c_colon :: tg) with ((%"//" ++ pkg) ++ c_colon :: tg).
  rewrite split2_app.
  2:{ cbn. intros [H|[H|H]]; try discriminate; auto. }
  rewrite trim_prefix_app. destruct tg; [congruence|]. reflexivity.
Qed.
Lemma parse_rest_base repo pkg :
  ~ In c_colon pkg -> parse_rest repo (%"//" ++ pkg) = Label repo pkg (path_base pkg).
Proof.
  intros Hp. unfold parse_rest.
  rewrite split2_none. 2:{ cbn. intros [H|[H|H]]; try discriminate; auto. }
  rewrite trim_prefix_app, has_prefix_app. reflexivity.
Qed.

Lemma trim_left_at r s : r <> [] -> has_prefix [c_at] r = false ->
  trim_left (Ascii.eqb c_at) (c_at :: r ++ s) = r ++ s.
Proof.
  intros Hr Hn. cbn [trim_left]. rewrite ascii_eqb_refl. apply trim_left_id.
  destruct r as [|x r]; [congruence|]. rewrite has_prefix_one in Hn. exact Hn.
Qed.

Theorem parse_format l : wf_label l -> parse (format l) = l.
Proof.
  intros (Hr1 & Hr2 & Hp & Ht). destruct l as [r p t]; cbn [repository package target] in *.
  unfold format; cbn [repository package target].
  destruct (beq r t && is_empty p) eqn:E.
  - apply andb_true_iff in E as [E1 E2]. apply beq_eq in E1. apply is_empty_spec in E2. subst.
    destruct t as [|x t]; [reflexivity|]. cbn [is_empty].
    unfold parse. rewrite has_prefix_one, ascii_eqb_refl.
    pose proof (trim_left_at (x :: t) [] ltac:(discriminate) Hr2) as Htl. rewrite app_nil_r in Htl.
    cbv iota zeta. rewrite Htl, split2_none by auto. reflexivity.
  - assert (Ht' : t <> []).
    { destruct Ht as [Ht|[-> ->]]; auto. cbn in E. destruct t; [discriminate|discriminate]. }
    assert (G : forall repo, parse_rest repo (%"//" ++ p ++ (if beq t (path_base p) then [] else c_colon :: t)) = Label repo p t).
    { intros repo. destruct (beq_spec t (path_base p)) as [->|Hne].
      - rewrite app_nil_r. apply parse_rest_base; auto.
      - apply parse_rest_slashes; auto. }
    destruct r as [|x r]; cbn [is_empty].
    + cbn [app]. unfold parse. rewrite has_prefix_one.
      change (%"//" ++ p ++ (if beq t (path_base p) then [] else c_colon :: t)) with
        (c_slash :: c_slash :: p ++ (if beq t (path_base p) then [] else c_colon :: t)).
      change (Ascii.eqb c_at c_slash) with false. cbv iota.
      exact (G []).
    + unfold parse. rewrite has_prefix_one. cbn [app]. rewrite ascii_eqb_refl. cbv iota zeta.
      change (x :: r ++ ?s) with ((x :: r) ++ s). rewrite trim_left_at by (auto; discriminate).
      change (%"//" ++ ?s) with (c_slash :: (c_slash :: s)).
      rewrite split2_app by auto. exact (G (x :: r)).
Qed.

(** Everything [Parse] returns is well formed. *)
Lemma parse_rest_wf repo t : ~ In c_slash repo -> has_prefix [c_at] repo = false ->
  (t <> [] \/ repo = []) -> wf_label (parse_rest repo t).
Proof.
  intros H1 H2 H3. unfold parse_rest.
  pose proof (split2_inv c_colon t) as Hs. destruct (split2 c_colon t) as [p0 p1].
  assert (Hp0 : ~ In c_colon p0) by (destruct p1; intuition congruence).
  assert (Hpkg : ~ In c_colon (trim_prefix %"//" p0)).
  { unfold trim_prefix. destruct (has_prefix %"//" p0) eqn:E; auto.
    apply has_prefix_spec in E as (u & ->). rewrite skipn_app_exact. intros H; apply Hp0, in_or_app; auto. }
  assert (Hother : wf_label (if negb (has_prefix %"//" t) then Label repo [] t
           else Label repo (trim_prefix %"//" p0) (path_base (trim_prefix %"//" p0)))).
  { destruct (has_prefix %"//" t); cbn [negb]; repeat split; auto; cbn [repository package target].
    - left. apply path_base_nonempty.
    - destruct H3; auto. }
  destruct p1 as [[|x tg]|]; cbn [is_empty]; auto.
  repeat split; auto. left. discriminate.
Qed.
Lemma parse_wf s : wf_label (parse s).
Proof.
  unfold parse. destruct (has_prefix [c_at] s) eqn:E.
  - pose proof (split2_inv c_slash (trim_left (Ascii.eqb c_at) s)) as Hs.
    pose proof (trim_left_head (Ascii.eqb c_at) s) as Hh.
    destruct (split2 c_slash (trim_left (Ascii.eqb c_at) s)) as [a [b|]].
    + destruct Hs as [Hs Ha]. rewrite Hs in Hh. apply parse_rest_wf; auto.
      * destruct a; auto. simpl in Hh. rewrite has_prefix_one. auto.
      * left; discriminate.
    + destruct Hs as [-> Ha]. repeat split; auto; cbn [repository package target].
      * rewrite has_prefix_one. destruct (trim_left (Ascii.eqb c_at) s); auto.
      * destruct (trim_left (Ascii.eqb c_at) s); auto. left; discriminate.
  - apply parse_rest_wf; auto.
Qed.
Theorem parse_format_parse s : parse (format (parse s)) = parse s.
Proof. apply parse_format, parse_wf. Qed.
Theorem format_inj l1 l2 : wf_label l1 -> wf_label l2 -> format l1 = format l2 -> l1 = l2.
Proof. intros H1 H2 H. rewrite <- (parse_format l1), <- (parse_format l2), H; auto. Qed.

(** ** Shorten *)
Definition absolute (s : bytes) : bool := has_prefix %"//" s || has_prefix [c_at] s.

Lemma format_absolute l : format l = [] \/ absolute (format l) = true.
Proof.
  unfold format, absolute. destruct l as [r p t]; cbn [repository package target].
  destruct r as [|x r]; cbn [is_empty].
  - destruct (beq [] t && is_empty p); auto.
  - right. rewrite orb_true_iff. right. destruct (beq (x :: r) t && is_empty p); reflexivity.
Qed.
Lemma format_nil l : format l = [] -> repository l = [] /\ target l = [] /\ package l = [].
Proof.
  unfold format. destruct l as [r p t]; cbn [repository package target].
  destruct r as [|x r]; cbn [is_empty].
  - destruct (beq [] t && is_empty p) eqn:E.
    + apply andb_true_iff in E as [E1 E2]. apply beq_eq in E1. apply is_empty_spec in E2. auto.
    + discriminate.
  - destruct (beq (x :: r) t && is_empty p); discriminate.
Qed.
Lemma shorten_eq input pkg : shorten input pkg =
  if absolute input then format_relative (parse input) pkg else input.
Proof. unfold shorten, absolute. destruct (has_prefix %"//" input), (has_prefix [c_at] input); reflexivity. Qed.
Lemma parse_relative_eq input pkg : parse_relative input pkg =
  if absolute input then parse input else Label [] pkg (trim_left (Ascii.eqb c_colon) input).
Proof. unfold parse_relative, absolute. destruct (has_prefix %"//" input), (has_prefix [c_at] input); reflexivity. Qed.

Theorem shorten_same input pkg :
  has_prefix [c_colon] (target (parse input)) = false -> target (parse input) <> [] ->
  parse_relative (shorten input pkg) pkg = parse_relative input pkg.
Proof.
  intros H1 H2. rewrite shorten_eq. destruct (absolute input) eqn:E; auto.
  rewrite (parse_relative_eq input), E. unfold format_relative.
  destruct (negb (is_empty (repository (parse input))) || negb (beq pkg (package (parse input)))) eqn:F.
  - destruct (format_absolute (parse input)) as [N|A].
    + apply format_nil in N as (_ & N & _). contradiction.
    + rewrite parse_relative_eq, A. apply parse_format_parse.
  - apply orb_false_iff in F as [F1 F2]. apply negb_false_iff in F1, F2.
    apply is_empty_spec in F1. apply beq_eq in F2.
    rewrite parse_relative_eq. change (absolute (c_colon :: target (parse input))) with false.
    cbv iota. cbn [trim_left]. rewrite ascii_eqb_refl. rewrite trim_left_id.
    + destruct (parse input) as [r p t]; cbn [repository package target] in *. congruence.
    + rewrite has_prefix_one in H1. destruct (target (parse input)); auto.
Qed.
Theorem shorten_idem input pkg : shorten (shorten input pkg) pkg = shorten input pkg.
Proof.
  rewrite (shorten_eq (shorten input pkg)). destruct (absolute (shorten input pkg)) eqn:A; auto.
  revert A. rewrite (shorten_eq input). destruct (absolute input) eqn:E.
  2:{ intros A. congruence. }
  unfold format_relative at 1 3.
  destruct (negb (is_empty (repository (parse input))) || negb (beq pkg (package (parse input)))) eqn:F.
  - intros _. unfold format_relative at 2. rewrite F. rewrite parse_format_parse. unfold format_relative. rewrite F. auto.
  - discriminate.
Qed.

(** ** Equal *)
Lemma labels_equal_eq a b pkg : labels_equal a b pkg = true <-> parse_relative a pkg = parse_relative b pkg.
Proof. apply label_eqb_eq. Qed.

(** A target name as written in a BUILD file (relative form without the colon). *)
Definition plain_target (t : bytes) : Prop :=
  t <> [] /\ has_prefix [c_colon] t = false /\ absolute t = false.

Lemma parse_relative_plain t pkg : plain_target t -> parse_relative t pkg = Label [] pkg t.
Proof.
  intros (H1 & H2 & H3). rewrite parse_relative_eq, H3. f_equal. apply trim_left_id.
  rewrite has_prefix_one in H2. destruct t; auto.
Qed.
Lemma parse_relative_colon t pkg : plain_target t -> parse_relative (c_colon :: t) pkg = Label [] pkg t.
Proof.
  intros (H1 & H2 & H3). rewrite parse_relative_eq. change (absolute (c_colon :: t)) with false. cbv iota.
  f_equal. cbn [trim_left]. rewrite ascii_eqb_refl. apply trim_left_id. rewrite has_prefix_one in H2. destruct t; auto.
Qed.
Lemma parse_relative_slashes t p pkg : t <> [] -> ~ In c_colon p ->
  parse_relative (%"//" ++ p ++ c_colon :: t) pkg = Label [] p t.
Proof.
  intros H1 H2. rewrite parse_relative_eq. unfold absolute. rewrite has_prefix_app. cbn [orb].
  unfold parse. change (has_prefix [c_at] (%"//" ++ p ++ c_colon :: t)) with false. cbv iota.
  apply parse_rest_slashes; auto.
Qed.
Lemma parse_relative_pkg p pkg : ~ In c_colon p ->
  parse_relative (%"//" ++ p) pkg = Label [] p (path_base p).
Proof.
  intros H2. rewrite parse_relative_eq. unfold absolute. rewrite has_prefix_app. cbn [orb].
  unfold parse. change (has_prefix [c_at] (%"//" ++ p)) with false. cbv iota.
  apply parse_rest_base; auto.
Qed.
Lemma equal_formats l1 l2 pkg : wf_label l1 -> wf_label l2 -> target l1 <> [] -> target l2 <> [] ->
  (labels_equal (format l1) (format l2) pkg = true <-> l1 = l2).
Proof.
  intros W1 W2 T1 T2. rewrite labels_equal_eq, !parse_relative_eq.
  destruct (format_absolute l1) as [N|A1]; [apply format_nil in N; tauto|].
  destruct (format_absolute l2) as [N|A2]; [apply format_nil in N; tauto|].
  rewrite A1, A2, !parse_format by auto. tauto.
Qed.
