(** Properties C52 (user tables), C54 (extension labels), C56 (file types). *)
From Verif Require Import Base BaseProofs Ast Labels Cli CliSpec.

(** ** C52 *)
Lemma merge_entries_some {V} (l : list (bytes * V)) : forall f, exists g, merge_entries l (Some f) = Some (Some g).
Proof. induction l as [|[k v] l IH]; intros f; cbn [merge_entries mset]; [eauto|]. apply IH. Qed.
Lemma merge_entries_spec {V} (l : list (bytes * V)) : NoDup (map fst l) -> forall f g,
  merge_entries l (Some f) = Some (Some g) ->
  forall k, (forall v, In (k, v) l -> g k = Some v) /\ (~ In k (map fst l) -> g k = f k).
Proof.
  induction l as [|[k0 v0] l IH]; intros ND f g H k; cbn [merge_entries mset] in H.
  - injection H as <-. split; [intros v []|auto].
  - cbn [map fst] in ND. inversion ND as [|? ? N1 N2]; subst.
    destruct (IH N2 _ _ H k) as [I1 I2]. split.
    + intros v [E|I0]; [|auto]. injection E as -> ->. rewrite I2 by auto. rewrite beq_refl. reflexivity.
    + intros N. cbn [map fst In] in N. rewrite I2 by tauto. destruct (beq_spec k k0); [subst; tauto|reflexivity].
Qed.
Lemma merge_map_overlay {V} (u : umap V) (m : gomap V) : a_map u -> not_nil m ->
  exists m', merge_map u m = Some m' /\ not_nil m' /\ overlay u m m'.
Proof.
  intros A N. destruct m as [f|]; [|exfalso; apply N; auto]. unfold merge_map.
  destruct (merge_entries_some (uentries u) f) as [g G]. exists (Some g). split; auto. split; [discriminate|].
  intros k. apply (merge_entries_spec _ A _ _ G k).
Qed.
Lemma of_user_exactly {V} (u : umap V) : a_map u -> exactly u (of_user u).
Proof.
  intros A k. destruct u as [l|]; unfold gives, silent, a_map, of_user, uentries, mget in *.
  - split.
    + induction l as [|[k0 v0] l IH]; intros v H; [destruct H|]. cbn [map fst] in A. inversion A as [|? ? A1 A2]; subst.
      cbn [lookup]. destruct H as [E|H].
      * injection E as -> ->. rewrite beq_refl. reflexivity.
      * destruct (beq_spec k k0) as [->|]; [|apply IH; auto].
        exfalso. apply A1. apply in_map_iff. exists (k0, v). auto.
    + intros H. clear A. induction l as [|[k0 v0] l IH]; [reflexivity|]. cbn [lookup map fst In] in *.
      destruct (beq_spec k k0) as [->|]; [tauto|]. apply IH. tauto.
  - split; [intros v []|reflexivity].
Qed.
Definition user_maps (u : user_tables) : Prop :=
  a_map (u_label u) /\ a_map (u_deny u) /\ a_map (u_list u) /\ a_map (u_sortable u) /\ a_map (u_sdeny u) /\
  a_map (u_sallow u) /\ a_map (u_prio u).
Definition no_nil_table (t : tables) : Prop :=
  not_nil (t_label t) /\ not_nil (t_deny t) /\ not_nil (t_list t) /\ not_nil (t_sortable t) /\ not_nil (t_sdeny t) /\
  not_nil (t_sallow t) /\ not_nil (t_prio t).
(** C52: merging into the built-in tables (none of which is nil), in whatever order the maps are
    visited, overrides exactly the given keys of the corresponding table; the two switches can only
    be turned on. *)
Theorem C52_merge_overrides_given_keys :
  forall u t, user_maps u -> no_nil_table t ->
    exists t', MergeTables u t = Some t' /\ no_nil_table t' /\
      overlay (u_label u) (t_label t) (t_label t') /\ overlay (u_deny u) (t_deny t) (t_deny t') /\
      overlay (u_list u) (t_list t) (t_list t') /\ overlay (u_sortable u) (t_sortable t) (t_sortable t') /\
      overlay (u_sdeny u) (t_sdeny t) (t_sdeny t') /\ overlay (u_sallow u) (t_sallow t) (t_sallow t') /\
      overlay (u_prio u) (t_prio t) (t_prio t') /\
      (t_strip t' = true <-> u_strip u = true \/ t_strip t = true) /\
      (t_shorten t' = true <-> u_shorten u = true \/ t_shorten t = true).
Proof.
  intros u t (A1 & A2 & A3 & A4 & A5 & A6 & A7) (N1 & N2 & N3 & N4 & N5 & N6 & N7). unfold MergeTables.
  destruct (merge_map_overlay _ _ A1 N1) as (m1 & -> & M1 & O1).
  destruct (merge_map_overlay _ _ A2 N2) as (m2 & -> & M2 & O2).
  destruct (merge_map_overlay _ _ A3 N3) as (m3 & -> & M3 & O3).
  destruct (merge_map_overlay _ _ A4 N4) as (m4 & -> & M4 & O4).
  destruct (merge_map_overlay _ _ A5 N5) as (m5 & -> & M5 & O5).
  destruct (merge_map_overlay _ _ A6 N6) as (m6 & -> & M6 & O6).
  destruct (merge_map_overlay _ _ A7 N7) as (m7 & -> & M7 & O7).
  eexists. split; [reflexivity|]. cbn [t_label t_deny t_list t_sortable t_sdeny t_sallow t_prio t_strip t_shorten].
  split; [unfold no_nil_table; tauto|]. rewrite !orb_true_iff. tauto.
Qed.
Print Assumptions C52_merge_overrides_given_keys.
(** C52: overriding leaves exactly the given tables. *)
Theorem C52_override_replaces_all :
  forall u t, user_maps u -> let t' := OverrideTables u t in
    exactly (u_label u) (t_label t') /\ exactly (u_deny u) (t_deny t') /\ exactly (u_list u) (t_list t') /\
    exactly (u_sortable u) (t_sortable t') /\ exactly (u_sdeny u) (t_sdeny t') /\ exactly (u_sallow u) (t_sallow t') /\
    exactly (u_prio u) (t_prio t') /\ t_strip t' = u_strip u /\ t_shorten t' = u_shorten u.
Proof.
  intros u t (A1 & A2 & A3 & A4 & A5 & A6 & A7). cbv zeta.
  cbn [OverrideTables t_label t_deny t_list t_sortable t_sdeny t_sallow t_prio t_strip t_shorten].
  repeat apply conj; try reflexivity; apply of_user_exactly; assumption.
Qed.
Print Assumptions C52_override_replaces_all.
(** C52: merging after overriding with definitions that leave a table out panics, as soon as the
    merged definitions have an entry for that table (buildifier -tables=a.json -add_tables=b.json). *)
Theorem C52_merge_after_override_refuted :
  exists over add t, user_maps over /\ user_maps add /\ no_nil_table t /\
    MergeTables add (OverrideTables over t) = None.
Proof.
  set (e := Some (fun _ : bytes => @None bool)).
  exists (UTables None None None None None None None false false),
    (UTables (Some [(%"deps", true)]) None None None None None None false false),
    (Tables e e e e e e (Some (fun _ => None)) false false).
  split; [|split; [|split; [|reflexivity]]].
  - unfold user_maps, a_map; cbn. repeat apply conj; constructor.
  - unfold user_maps, a_map; cbn. repeat apply conj; repeat constructor; intros [].
  - unfold no_nil_table, not_nil, e; cbn. repeat apply conj; discriminate.
Qed.
Print Assumptions C52_merge_after_override_refuted.
Example C52_nontrivial :
  let e := Some (fun k => if beq k %"deps" then Some true else None) in
  let t := Tables e e e e e e (Some (fun k => if beq k %"name" then Some (-99)%Z else None)) false true in
  let u := UTables (Some [(%"deps", false); (%"xdeps", true)]) None None None None None (Some [(%"name", 1%Z)]) true false in
  option_map (fun t' => (mget (t_label t') %"deps", mget (t_label t') %"xdeps", mget (t_deny t') %"deps",
                         mget (t_prio t') %"name", t_strip t', t_shorten t')) (MergeTables u t)
  = Some (Some false, Some true, Some true, Some 1%Z, true, true).
Proof. reflexivity. Qed.

(** ** C54 *)
(** C54, as far as it holds: labels that name a repository are recognised, and so nothing that can
    be the name of a proxy (an identifier) is taken for a label. *)
Theorem C54_repository_labels_partial :
  forall repo rest, isExtensionLabel (c_at :: repo ++ %"//" ++ rest) = true.
Proof. intros. reflexivity. Qed.
Print Assumptions C54_repository_labels_partial.
Theorem C54_identifiers_are_no_labels :
  forall s, ~ In c_at s -> ~ In c_slash s -> isExtensionLabel s = false.
Proof.
  intros s H1 H2. unfold isExtensionLabel. apply orb_false_iff. split.
  - destruct (has_prefix %"@" s) eqn:E; auto. apply has_prefix_spec in E as [t ->]. exfalso. apply H1. left. reflexivity.
  - destruct (has_suffix %"//" s) eqn:E; auto. apply has_suffix_spec in E as [t ->]. exfalso. apply H2.
    apply in_app_iff. right. left. reflexivity.
Qed.
Print Assumptions C54_identifiers_are_no_labels.
(** C54: labels of the main repository are not recognised (the code tests the end of the
    argument instead of its beginning): no label '//pkg:file' whose target name is not empty is. *)
Theorem C54_main_repository_labels_refuted :
  forall pkg file, file <> [] -> (forall t, file <> t ++ [c_slash]) ->
    isExtensionLabel (%"//" ++ pkg ++ %":" ++ file) = false.
Proof.
  intros pkg file N1 N2. unfold isExtensionLabel. apply orb_false_iff. split; [reflexivity|].
  destruct (has_suffix %"//" (%"//" ++ pkg ++ %":" ++ file)) eqn:E; auto.
  apply has_suffix_spec in E as [t E]. exfalso.
  destruct (exists_last N1) as (f' & c & ->).
  assert (E' : ((%"//" ++ pkg ++ %":" ++ f') ++ [c]) = ((t ++ %"/") ++ %"/")%list).
  { rewrite <- !app_assoc. rewrite E. reflexivity. }
  change (%"/") with [c_slash] in E' at 2. apply app_inj_tail in E' as [_ ->]. apply (N2 f'). reflexivity.
Qed.
Print Assumptions C54_main_repository_labels_refuted.
Example C54_nontrivial :
  isExtensionLabel %"@rules_go//go:extensions.bzl" = true /\ isExtensionLabel %"//:extensions.bzl" = false /\
  isExtensionLabel %"go_deps" = false.
Proof. repeat split. Qed.

(** ** C56 *)
Lemma ext_from_none s : ext_from s = None <-> ~ In c_dot s.
Proof.
  induction s as [|c s IH]; cbn [ext_from In]; [tauto|].
  destruct (ext_from s) as [e|] eqn:E.
  - split; [discriminate|]. intros H. exfalso. apply H. right.
    destruct (in_dec ascii_dec c_dot s) as [I1|N]; auto. apply IH in N. discriminate.
  - assert (Hs : ~ In c_dot s) by (apply IH; reflexivity).
    destruct (Ascii.eqb_spec c c_dot) as [E1|N].
    + split; [discriminate|]. intros H. exfalso. apply H. left; auto.
    + split; auto. intros _ [H|H]; auto.
Qed.
Lemma ext_from_app p t : ~ In c_dot t -> ext_from (p ++ c_dot :: t) = Some (c_dot :: t).
Proof.
  intros H. induction p as [|c p IH]; cbn [app ext_from].
  - assert (ext_from t = None) as -> by (apply ext_from_none; auto). rewrite Ascii.eqb_refl. reflexivity.
  - rewrite IH. reflexivity.
Qed.
Lemma file_ext_cases s : (file_ext s = [] /\ ~ In c_dot s) \/
  (exists p t, s = p ++ c_dot :: t /\ ~ In c_dot t /\ file_ext s = c_dot :: t).
Proof.
  unfold file_ext. destruct (in_dec ascii_dec c_dot s) as [I1|N].
  - right. induction s as [|c s IH]; [destruct I1|].
    destruct (in_dec ascii_dec c_dot s) as [I2|N2].
    + destruct (IH I2) as (p & t & E & H & _). exists (c :: p), t. rewrite E. split; [reflexivity|]. split; auto.
      change (c :: p ++ c_dot :: t) with ((c :: p) ++ c_dot :: t). rewrite ext_from_app; auto.
    + destruct I1 as [->|I1]; [|contradiction]. exists [], s. split; auto. split; auto.
      change (c_dot :: s) with ([] ++ c_dot :: s). rewrite ext_from_app; auto.
  - left. assert (ext_from s = None) as -> by (apply ext_from_none; auto). auto.
Qed.
Lemma ext_is s t : ~ In c_dot t -> (beq (file_ext s) (c_dot :: t) = true <-> ends_in (c_dot :: t) s).
Proof.
  intros H. rewrite beq_eq. unfold ends_in. split.
  - intros E. destruct (file_ext_cases s) as [[E2 _]|(p & t' & -> & _ & E2)]; [congruence|].
    exists p. rewrite E2 in E. injection E as ->. reflexivity.
  - intros [p ->]. unfold file_ext. rewrite ext_from_app; auto.
Qed.
Lemma no_dot_lit w : forallb (fun c => negb (Ascii.eqb c c_dot)) w = true -> ~ In c_dot w.
Proof.
  intros H I1. rewrite forallb_forall in H. apply H in I1. rewrite Ascii.eqb_refl in I1. discriminate.
Qed.
Lemma base_spec s w : ~ In c_dot w -> w <> [] ->
  let base := firstn (List.length s - List.length (file_ext s)) s in
  (beq base w || has_prefix (w ++ [c_dot]) base = true) <-> (s = w \/ starts_with (w ++ [c_dot]) s).
Proof.
  intros Hw Nw base. rewrite orb_true_iff, beq_eq, has_prefix_spec. unfold starts_with.
  destruct (file_ext_cases s) as [[E N]|(p & t & E & N & E2)].
  - subst base. rewrite E. cbn [List.length]. rewrite Nat.sub_0_r, firstn_all.
    split; intros [H|[q H]]; auto; exfalso; apply N; rewrite H, <- app_assoc; apply in_app_iff; right; left; auto.
  - assert (B : base = p).
    { subst base. rewrite E2, E, app_length. replace (List.length p + List.length (c_dot :: t) - List.length (c_dot :: t)) with (List.length p) by lia.
      apply firstn_app_exact. }
    rewrite B. split.
    + intros [->|[q ->]]; right.
      * exists t. rewrite E, <- app_assoc. reflexivity.
      * exists (q ++ c_dot :: t). rewrite E, <- !app_assoc. reflexivity.
    + intros [->|[q H]].
      * exfalso. apply Hw. rewrite E. apply in_app_iff. right; left; auto.
      * rewrite E in H. rewrite <- app_assoc in H. cbn [app] in H.
        apply app_eq_app in H as (l & [[H1 H2]|[H1 H2]]).
        -- destruct l as [|x l].
           { left. rewrite app_nil_r in H1. auto. }
           right. cbn [app] in H2. injection H2 as H0 H2. subst x. exists l. rewrite H1, <- app_assoc. reflexivity.
        -- destruct l as [|x l].
           { left. rewrite app_nil_r in H1. auto. }
           exfalso. apply Hw. cbn [app] in H2. injection H2 as H0 _. subst x. rewrite H1. apply in_app_iff. right; left; auto.
Qed.
Lemma ends_dec suf n : has_suffix suf n = true <-> ends_in suf n.
Proof. apply has_suffix_spec. Qed.
Lemma decide_name path n : path <> [] -> deciding_name path n ->
  let b := to_lower (path_base path) in (if has_suffix %".oss" b then firstn (List.length b - 4) b else b) = n.
Proof.
  intros _ H b. destruct H as [n H|n H N]; fold b in H.
  - rewrite H, has_suffix_app, app_length. change (List.length %".oss") with 4. replace (List.length n + 4 - 4) with (List.length n) by lia.
    apply firstn_app_exact.
  - rewrite <- H in N. destruct (has_suffix %".oss" b) eqn:E; auto. apply has_suffix_spec in E as [p E]. exfalso. apply (N p); auto.
Qed.
Lemma decide_exists path : exists n, deciding_name path n.
Proof.
  destruct (has_suffix %".oss" (to_lower (path_base path))) eqn:E.
  - apply has_suffix_spec in E as [p E]. exists p. apply dn_oss; auto.
  - exists (to_lower (path_base path)). apply dn_plain; auto. intros p H. rewrite H, has_suffix_app in E. discriminate.
Qed.
(** C56: the type is the documented one for the deciding name. *)
Theorem C56_documented_type :
  forall path n, path <> [] -> deciding_name path n -> documented_type n (getFileType path).
Proof.
  intros path n NE D. pose proof (decide_name path n NE D) as E. cbv zeta in E. unfold getFileType.
  destruct path as [|c0 path0]; [congruence|]. cbv zeta. rewrite E.
  destruct (beq n %"module.bazel" || has_suffix %".module.bazel" n) eqn:M.
  { apply dt_module. apply orb_true_iff in M. rewrite beq_eq, ends_dec in M. exact M. }
  assert (NM : ~ module_name n).
  { intros [H|H]; apply orb_false_iff in M as [M1 M2].
    - apply beq_neq in M1. auto.
    - apply ends_dec in H. congruence. }
  pose proof (ext_is n %"bzl" (no_dot_lit %"bzl" eq_refl)) as Xb. change (c_dot :: %"bzl") with %".bzl" in Xb.
  pose proof (ext_is n %"sky" (no_dot_lit %"sky" eq_refl)) as Xs. change (c_dot :: %"sky") with %".sky" in Xs.
  pose proof (ext_is n %"build" (no_dot_lit %"build" eq_refl)) as Xd. change (c_dot :: %"build") with %".build" in Xd.
  pose proof (ext_is n %"workspace" (no_dot_lit %"workspace" eq_refl)) as Xw. change (c_dot :: %"workspace") with %".workspace" in Xw.
  destruct (beq (file_ext n) %".bzl"); [apply dt_bzl; tauto|].
  destruct (beq (file_ext n) %".sky"); [apply dt_sky; tauto|].
  assert (Nb : ~ ends_in %".bzl" n) by (rewrite <- Xb; discriminate).
  assert (Ns : ~ ends_in %".sky" n) by (rewrite <- Xs; discriminate).
  pose proof (base_spec n %"build" (no_dot_lit %"build" eq_refl)) as Bd. change (%"build" ++ [c_dot]) with %"build." in Bd.
  pose proof (base_spec n %"workspace" (no_dot_lit %"workspace" eq_refl)) as Bw. change (%"workspace" ++ [c_dot]) with %"workspace." in Bw.
  specialize (Bd ltac:(discriminate)). specialize (Bw ltac:(discriminate)). cbv zeta in Bd, Bw.
  set (base := firstn _ n) in *. rewrite <- !orb_assoc.
  destruct (beq (file_ext n) %".build" || (beq base %"build" || has_prefix %"build." base)) eqn:TB.
  { apply dt_build; auto. unfold build_name. apply orb_true_iff in TB as [TB|TB]; [apply Xd in TB; auto|]. apply Bd in TB. tauto. }
  assert (NB : ~ build_name n).
  { apply orb_false_iff in TB as [T1 T2]. unfold build_name. intros [H|[H|H]].
    - assert (X : n = %"build" \/ starts_with %"build." n) by auto. apply Bd in X. congruence.
    - assert (X : n = %"build" \/ starts_with %"build." n) by auto. apply Bd in X. congruence.
    - apply Xd in H. congruence. }
  destruct (beq (file_ext n) %".workspace" || (beq base %"workspace" || has_prefix %"workspace." base)) eqn:TW.
  { apply dt_workspace; auto. unfold workspace_name. apply orb_true_iff in TW as [TW|TW]; [apply Xw in TW; auto|]. apply Bw in TW. tauto. }
  apply dt_other; auto.
  apply orb_false_iff in TW as [T1 T2]. unfold workspace_name. intros [H|[H|H]].
  - assert (X : n = %"workspace" \/ starts_with %"workspace." n) by auto. apply Bw in X. congruence.
  - assert (X : n = %"workspace" \/ starts_with %"workspace." n) by auto. apply Bw in X. congruence.
  - apply Xw in H. congruence.
Qed.
Print Assumptions C56_documented_type.
(** ... and every path has such a name. *)
Theorem C56_every_path_has_a_deciding_name : forall path, exists n, deciding_name path n.
Proof. exact decide_exists. Qed.
Print Assumptions C56_every_path_has_a_deciding_name.
(** C56: upper and lower case make no difference. *)
Lemma lower_idem c : lower_byte (lower_byte c) = lower_byte c.
Proof.
  assert (H : forallb (fun c => Ascii.eqb (lower_byte (lower_byte c)) (lower_byte c)) all_bytes = true) by reflexivity.
  apply Ascii.eqb_eq. exact (forall_byte (fun c => Ascii.eqb (lower_byte (lower_byte c)) (lower_byte c)) H c).
Qed.
Lemma lower_slash c : Ascii.eqb (lower_byte c) c_slash = Ascii.eqb c c_slash.
Proof.
  assert (H : forallb (fun c => Bool.eqb (Ascii.eqb (lower_byte c) c_slash) (Ascii.eqb c c_slash)) all_bytes = true) by reflexivity.
  apply Bool.eqb_prop. exact (forall_byte (fun c => Bool.eqb (Ascii.eqb (lower_byte c) c_slash) (Ascii.eqb c c_slash)) H c).
Qed.
Lemma lower_trim_left s : to_lower (trim_left (Ascii.eqb c_slash) s) = trim_left (Ascii.eqb c_slash) (to_lower s).
Proof.
  induction s as [|c s IH]; [reflexivity|]. cbn [trim_left to_lower map].
  rewrite (Ascii.eqb_sym c_slash c), (Ascii.eqb_sym c_slash (lower_byte c)), lower_slash.
  destruct (Ascii.eqb c c_slash); [exact IH|reflexivity].
Qed.
Lemma lower_trim s : to_lower (trim_right (Ascii.eqb c_slash) s) = trim_right (Ascii.eqb c_slash) (to_lower s).
Proof. unfold trim_right, to_lower. rewrite map_rev. f_equal. fold (to_lower (trim_left (Ascii.eqb c_slash) (rev s))). rewrite lower_trim_left. unfold to_lower. rewrite map_rev. reflexivity. Qed.
Lemma lower_after_acc s : forall acc : bytes,
  to_lower (fold_left (fun acc c => if Ascii.eqb c c_slash then [] else acc ++ [c]) s acc) =
  fold_left (fun acc c => if Ascii.eqb c c_slash then [] else acc ++ [c]) (to_lower s) (to_lower acc).
Proof.
  induction s as [|c s IH]; intros acc; [reflexivity|]. cbn [fold_left to_lower map]. rewrite IH. f_equal.
  rewrite lower_slash. destruct (Ascii.eqb c c_slash); [reflexivity|].
  unfold to_lower. rewrite map_app. reflexivity.
Qed.
Lemma lower_after s : to_lower (after_last_slash s) = after_last_slash (to_lower s).
Proof. exact (lower_after_acc s []). Qed.
Theorem C56_case_insensitive : forall path, getFileType (to_lower path) = getFileType path.
Proof.
  intros [|c path]; [reflexivity|]. unfold getFileType. cbn [to_lower map].
  change (lower_byte c :: map lower_byte path) with (to_lower (c :: path)).
  assert (E : to_lower (path_base (to_lower (c :: path))) = to_lower (path_base (c :: path))).
  { unfold path_base. change (to_lower (c :: path)) with (lower_byte c :: to_lower path). cbv zeta iota beta.
    change (lower_byte c :: to_lower path) with (to_lower (c :: path)). rewrite <- lower_trim, <- lower_after.
    set (b := after_last_slash _). destruct b as [|x b]; [reflexivity|].
    cbn [to_lower map]. rewrite lower_idem. f_equal. rewrite map_map. apply map_ext. intros a. apply lower_idem. }
  rewrite E. reflexivity.
Qed.
Print Assumptions C56_case_insensitive.
(** C56: the directory makes no difference. *)
Theorem C56_directory_is_ignored :
  forall dir name, name <> [] -> ~ In c_slash name -> getFileType (dir ++ c_slash :: name) = getFileType name.
Proof.
  intros dir name N1 N2.
  assert (T : forall p, trim_right (Ascii.eqb c_slash) (p ++ name) = p ++ name).
  { intros p. unfold trim_right. destruct (exists_last N1) as (q & c & ->). rewrite app_assoc, rev_app_distr. cbn [rev app trim_left].
    destruct (Ascii.eqb_spec c_slash c) as [<-|_].
    - exfalso. apply N2. apply in_app_iff. right; left; auto.
    - cbn [rev]. rewrite rev_involutive. reflexivity. }
  assert (E : path_base (dir ++ c_slash :: name) = path_base name).
  { unfold path_base. destruct (dir ++ c_slash :: name) as [|x l] eqn:D; [destruct dir; discriminate|]. rewrite <- D.
    replace (dir ++ c_slash :: name) with ((dir ++ [c_slash]) ++ name) by (rewrite <- app_assoc; reflexivity).
    rewrite T. destruct name as [|y name]; [congruence|]. 
    rewrite (T [] : trim_right _ (y :: name) = y :: name).
    rewrite (after_last_slash_none (y :: name)) by auto.
    assert (A : after_last_slash ((dir ++ [c_slash]) ++ y :: name) = y :: name).
    { unfold after_last_slash. rewrite !fold_left_app. cbn [fold_left]. rewrite Ascii.eqb_refl.
      fold (fold_left (fun acc c => if Ascii.eqb c c_slash then [] else acc ++ [c]) (y :: name) []).
      exact (after_last_slash_none (y :: name) N2). }
    rewrite A. reflexivity. }
  unfold getFileType. rewrite E. destruct (dir ++ c_slash :: name) eqn:D; [destruct dir; discriminate|].
  destruct name; [congruence|reflexivity].
Qed.
Print Assumptions C56_directory_is_ignored.
Example C56_nontrivial :
  map getFileType [%"a/b/BUILD"; %"BUILD.bazel.oss"; %"x.MODULE.bazel"; %"foo.BZL"; %"WORKSPACE.bzlmod"; %"x.sky"; %"build/x"; %""]
  = [TypeBuild; TypeBuild; TypeModule; TypeBzl; TypeWorkspace; TypeDefault; TypeDefault; TypeDefault].
Proof. reflexivity. Qed.
