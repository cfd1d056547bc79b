(** Proofs about the load rewrites. *)
From Verif Require Import Base BaseProofs Order Ast Walk WalkSpec WalkProofs Labels StrList StrListSpec StrListProofs Rewrite CallSpec CallProofs Loads LoadsSpec.

Lemma set_nth_app {A} (a : list A) x y b : set_nth (List.length a) x (a ++ y :: b) = Some (a ++ x :: b).
Proof. induction a as [|z a IH]; simpl; auto. rewrite IH. reflexivity. Qed.
Lemma set_nth_at {A} i (a : list A) x y b : i = List.length a -> set_nth i x (a ++ y :: b) = Some (a ++ x :: b).
Proof. intros ->. apply set_nth_app. Qed.
Lemma is_load_spec s : is_load_stmt s = true <-> is_load s.
Proof.
  split.
  - destruct s as [e|]; [|discriminate]. destruct e; try discriminate. intros _. repeat eexists.
  - intros (c & p & m & fr & to & r & k & ->). reflexivity.
Qed.
Lemma skipped_spec s : is_skipped s = true <-> neutral s.
Proof.
  split.
  - destruct s as [e|]; [|constructor]. destruct e; try discriminate; try constructor.
    destruct e; try discriminate. cbn. intros H. constructor. apply beq_eq; auto.
  - destruct 1; auto. cbn. rewrite H. reflexivity.
Qed.
Lemma load_not_skipped s : is_load_stmt s = true -> is_skipped s = false.
Proof. destruct s as [e|]; [|discriminate]. destruct e; try discriminate. reflexivity. Qed.

(** ** Moving loads to the top *)
Fixpoint load_idx (i : nat) (l : list (option expr)) : list nat :=
  match l with [] => [] | s :: l' => (if is_load_stmt s then [i] else []) ++ load_idx (S i) l' end.
Lemma find_lead lead rest : Forall (fun s => is_load_stmt s || is_skipped s = true) lead -> forall i mis,
  find_misplaced i None mis (lead ++ rest) = find_misplaced (i + List.length lead) None mis rest.
Proof.
  induction 1 as [|s lead H F IH]; intros i mis; simpl; [rewrite Nat.add_0_r; auto|].
  rewrite IH. rewrite Nat.add_succ_r. simpl. destruct (is_skipped s) eqn:E; auto.
  rewrite orb_false_r in H. rewrite H. reflexivity.
Qed.
Lemma find_rest l : forall i k mis, find_misplaced i (Some k) mis l = (Some k, rev (load_idx i l) ++ mis).
Proof.
  induction l as [|s l IH]; intros i k mis; simpl; auto. rewrite !IH.
  destruct (is_skipped s) eqn:E.
  - destruct (is_load_stmt s) eqn:F; auto. apply load_not_skipped in F. congruence.
  - destruct (is_load_stmt s); auto. rewrite rev_app_distr. simpl. rewrite <- app_assoc. reflexivity.
Qed.
Lemma load_idx_length i l : List.length (load_idx i l) = List.length (filter is_load_stmt l).
Proof. revert i; induction l as [|s l IH]; intros i; simpl; auto. rewrite app_length, IH. destruct (is_load_stmt s); auto. Qed.
Lemma load_idx_in l : forall i t, In (i + t) (load_idx i l) <-> exists s, nth_error l t = Some s /\ is_load_stmt s = true.
Proof.
  assert (B : forall l i j, In j (load_idx i l) -> i <= j).
  { clear. induction l as [|s l IH]; intros i j; simpl; [tauto|]. rewrite in_app_iff. intros [H|H].
    - destruct (is_load_stmt s); [|destruct H]. destruct H as [->|[]]; auto.
    - apply IH in H. lia. }
  induction l as [|s l IH]; intros i t; simpl.
  - split; [tauto|]. intros (s & H & _). destruct t; discriminate.
  - rewrite in_app_iff. destruct t as [|t].
    + rewrite Nat.add_0_r. simpl. split.
      * intros [H|H]; [|apply B in H; lia]. exists s. split; auto. destruct (is_load_stmt s); auto; destruct H.
      * intros (s' & [= <-] & ->). left; left; auto.
    + simpl. replace (i + S t) with (S i + t) by lia. rewrite IH. split; auto.
      intros [H|H]; auto. destruct (is_load_stmt s); [|destruct H]. destruct H as [H|[]]. lia.
Qed.
Lemma move_loop_lead lead : forall i first off mis rest st, i + List.length lead <= first ->
  move_loop i first off mis (lead ++ rest) st = move_loop (i + List.length lead) first off mis rest st.
Proof.
  induction lead as [|s lead IH]; intros i first off mis rest st H; simpl in *; [rewrite Nat.add_0_r; auto|].
  destruct (Nat.ltb_spec i first); [|lia]. rewrite IH by lia. f_equal. lia.
Qed.
Lemma skipn_S_tl {A} n (l : list A) : skipn (S n) l = tl (skipn n l).
Proof. revert l; induction n as [|n IH]; intros [|x l]; auto. apply (IH l). Qed.
Lemma filter_len {A} (f : A -> bool) l : List.length (filter f l) <= List.length l.
Proof. induction l as [|x l IH]; simpl; auto. destruct (f x); simpl; lia. Qed.
Lemma filter_none {A} (f : A -> bool) l : List.length (filter f l) = 0 -> filter (fun x => negb (f x)) l = l.
Proof. induction l as [|x l IH]; simpl; auto. destruct (f x); simpl; intros H; [discriminate|]. rewrite IH; auto. Qed.

Lemma move_loop_inv b : forall lead L J N mis,
  List.length J = List.length (filter is_load_stmt b) -> 1 <= List.length J ->
  (forall t s, nth_error b t = Some s ->
     existsb (Nat.eqb (List.length lead + List.length L + List.length N + t)) mis = is_load_stmt s) ->
  move_loop (List.length lead + List.length L + List.length N) (List.length lead + List.length L) (List.length J) mis b
    (lead ++ L ++ J ++ N ++ skipn (List.length J) b)
  = Some (lead ++ L ++ filter is_load_stmt b ++ N ++ filter (fun s => negb (is_load_stmt s)) b).
Proof.
  induction b as [|x b IH]; intros lead L J N mis HJ H1 Hm; [simpl in HJ; lia|].
  cbn [move_loop]. destruct (Nat.ltb_spec (List.length lead + List.length L + List.length N) (List.length lead + List.length L)); [lia|]. clear H.
  pose proof (Hm 0 x eq_refl) as H0. rewrite Nat.add_0_r in H0. rewrite H0.
  assert (Hm' : forall t s, nth_error b t = Some s -> existsb (Nat.eqb (List.length lead + List.length L + S (List.length N) + t)) mis = is_load_stmt s).
  { intros t s H. rewrite <- (Hm (S t) s H). f_equal. f_equal. lia. }
  cbn [filter] in HJ |- *. destruct (is_load_stmt x) eqn:Ex; cbn [negb].
  - destruct J as [|y J]; [simpl in H1; lia|]. cbn [List.length] in *.
    replace (lead ++ L ++ (y :: J) ++ N ++ skipn (S (List.length J)) (x :: b)) with ((lead ++ L) ++ y :: (J ++ N ++ skipn (List.length J) b)).
    2:{ rewrite <- !app_assoc. reflexivity. }
    rewrite set_nth_at by (rewrite app_length; auto). replace (S (List.length J) - 1) with (List.length J) by lia.
    destruct (Nat.eqb_spec (List.length J) 0) as [E|E].
    + destruct J; [|discriminate]. simpl. rewrite <- !app_assoc. simpl.
      assert (F : List.length (filter is_load_stmt b) = 0) by (simpl in HJ; lia).
      rewrite (filter_none is_load_stmt b F). destruct (filter is_load_stmt b); [reflexivity|discriminate].
    + specialize (IH lead (L ++ [x]) J N mis). rewrite app_length in IH. cbn [List.length] in IH.
      replace (S (List.length lead + List.length L + List.length N)) with (List.length lead + (List.length L + 1) + List.length N) by lia.
      replace (S (List.length lead + List.length L)) with (List.length lead + (List.length L + 1)) by lia.
      replace ((lead ++ L) ++ x :: J ++ N ++ skipn (List.length J) b) with (lead ++ (L ++ [x]) ++ J ++ N ++ skipn (List.length J) b) by (rewrite <- !app_assoc; reflexivity).
      rewrite IH; [rewrite <- !app_assoc; reflexivity|lia|lia|]. intros t s H. rewrite <- (Hm' t s H). f_equal. f_equal. lia.
  - pose proof (filter_len is_load_stmt b) as Hl.
    assert (HT : exists y T, skipn (List.length J) (x :: b) = y :: T /\ T = skipn (List.length J) b).
    { destruct (skipn (List.length J) (x :: b)) as [|y T] eqn:E.
      - apply (f_equal (@List.length _)) in E. rewrite skipn_length in E. cbn [List.length] in E. lia.
      - exists y, T. split; auto. change (skipn (List.length J) b) with (skipn (S (List.length J)) (x :: b)). rewrite skipn_S_tl, E. reflexivity. }
    destruct HT as (y & T & -> & ->).
    replace (lead ++ L ++ J ++ N ++ y :: skipn (List.length J) b) with ((lead ++ L ++ J ++ N) ++ y :: skipn (List.length J) b) by (rewrite <- !app_assoc; reflexivity).
    rewrite set_nth_at by (rewrite !app_length; lia).
    specialize (IH lead L J (N ++ [x]) mis HJ H1). rewrite app_length in IH. cbn [List.length] in IH.
    replace (S (List.length lead + List.length L + List.length N)) with (List.length lead + List.length L + (List.length N + 1)) by lia.
    replace ((lead ++ L ++ J ++ N) ++ x :: skipn (List.length J) b) with (lead ++ L ++ J ++ (N ++ [x]) ++ skipn (List.length J) b) by (rewrite <- !app_assoc; reflexivity).
    rewrite IH; [rewrite <- !app_assoc; reflexivity|]. intros t s H. rewrite <- (Hm' t s H). f_equal. f_equal. lia.
Qed.
Lemma split_lead (P : option expr -> bool) l : exists lead rest, l = lead ++ rest /\ Forall (fun s => P s = true) lead /\
  (rest = [] \/ exists s r, rest = s :: r /\ P s = false).
Proof.
  induction l as [|s l IH]; [exists [], []; auto|]. destruct (P s) eqn:E.
  - destruct IH as (lead & rest & -> & H1 & H2). exists (s :: lead), rest. auto.
  - exists [], (s :: l). repeat split; auto. right. eauto.
Qed.
Lemma move_loads_eq l : exists lead rest, l = lead ++ rest /\
  Forall (fun s => is_load_stmt s || is_skipped s = true) lead /\
  (rest = [] \/ exists s r, rest = s :: r /\ is_load_stmt s || is_skipped s = false) /\
  move_loads l = Some (lead ++ filter is_load_stmt rest ++ filter (fun s => negb (is_load_stmt s)) rest).
Proof.
  destruct (split_lead (fun s => is_load_stmt s || is_skipped s) l) as (lead & rest & -> & H1 & H2).
  exists lead, rest. repeat split; auto. unfold move_loads. rewrite find_lead by auto.
  destruct H2 as [->|(s & r & -> & H2)]; [simpl; rewrite app_nil_r; auto|].
  apply orb_false_iff in H2 as [E1 E2]. cbn [find_misplaced]. rewrite E2, E1, find_rest, app_nil_r.
  rewrite rev_length, load_idx_length. cbn [filter]. rewrite E1. cbn [negb].
  destruct (Nat.eqb_spec (List.length (filter is_load_stmt r)) 0) as [Z|Z].
  - rewrite (filter_none _ _ Z). destruct (filter is_load_stmt r); [reflexivity|discriminate].
  - rewrite move_loop_lead by (simpl; lia). rewrite Nat.add_0_l.
    pose proof (move_loop_inv (s :: r) lead [] (firstn (List.length (filter is_load_stmt r)) (s :: r)) []
      (rev (load_idx (S (List.length lead)) r))) as G.
    pose proof (filter_len is_load_stmt r) as FL.
    assert (LJ : List.length (firstn (List.length (filter is_load_stmt r)) (s :: r)) = List.length (filter is_load_stmt r))
      by (rewrite firstn_length; simpl; lia).
    rewrite LJ in G. cbn [List.length app filter] in G. rewrite E1 in G. cbn [negb] in G.
    rewrite firstn_skipn in G. rewrite !Nat.add_0_r in G. apply G; auto; [lia|].
    intros t x Hx. destruct (is_load_stmt x) eqn:Ex.
    + apply existsb_exists. exists (List.length lead + t). split; [|apply Nat.eqb_refl]. apply -> in_rev.
      destruct t as [|t]; [injection Hx as <-; congruence|]. rewrite Nat.add_succ_r. apply (load_idx_in r (S (List.length lead)) t).
      exists x. auto.
    + apply not_true_iff_false. intros H. apply existsb_exists in H as (y & Hy & E). apply Nat.eqb_eq in E. subst y.
      apply in_rev in Hy. destruct t as [|t].
      * rewrite Nat.add_0_r in Hy. assert (B : forall l i j, In j (load_idx i l) -> i <= j).
        { clear. induction l as [|s l IH]; intros i j; simpl; [tauto|]. rewrite in_app_iff. intros [H|H].
          - destruct (is_load_stmt s); [|destruct H]. destruct H as [->|[]]; auto. - apply IH in H. lia. }
        apply B in Hy. lia.
      * rewrite Nat.add_succ_r in Hy. apply (load_idx_in r (S (List.length lead)) t) in Hy as (s' & H' & H''). cbn in Hx. congruence.
Qed.
Lemma pick_filter (f : option expr -> bool) (P : option expr -> Prop) l : (forall x, f x = true <-> P x) ->
  pick P l (filter f l) (filter (fun x => negb (f x)) l).
Proof.
  intros H. induction l as [|x l IH]; simpl; [constructor|]. destruct (f x) eqn:E; simpl; constructor; auto.
  - apply H; auto. - rewrite <- H. congruence.
Qed.
Lemma move_loads_first l : exists l', move_loads l = Some l' /\ loads_first l l'.
Proof.
  destruct (move_loads_eq l) as (lead & rest & E & H1 & H2 & ->). eexists. split; [reflexivity|].
  exists lead, rest. eexists. eexists. split; [exact E|]. split; [reflexivity|]. split; [|split].
  - eapply Forall_impl; [|exact H1]. cbv beta. intros s H. apply orb_true_iff in H as [H|H]; [left; apply is_load_spec|right; apply skipped_spec]; auto.
  - destruct H2 as [|(s & r & -> & H2)]; auto. right. exists s, r. apply orb_false_iff in H2 as [F1 F2]. split; auto. split.
    + rewrite <- is_load_spec. congruence. + rewrite <- skipped_spec. congruence.
  - apply pick_filter, is_load_spec.
Qed.

(** ** Merging loads *)
Lemma unbound_com s s' : unbound s = unbound s' ->
  match s, s' with Some e, Some e' => com e = com e' | None, None => True | _, _ => False end.
Proof.
  destruct s as [e|], s' as [e'|]; auto.
  - destruct e, e'; cbn [unbound]; intros H; inversion H; subst; reflexivity.
  - destruct e; discriminate.
  - destruct e'; discriminate.
Qed.
Lemma marked_com t e e' : com e = com e' -> marked t e -> marked t e'.
Proof. unfold marked. intros ->. auto. Qed.
Lemma exempt_unbound s s' : unbound s = unbound s' -> exempt s -> exempt s'.
Proof.
  intros H (e & -> & M). apply unbound_com in H. destruct s' as [e'|]; [|destruct H].
  exists e'. split; auto. eapply marked_com; eauto.
Qed.
Lemma loads_module_unbound s s' m : unbound s = unbound s' -> loads_module s m -> loads_module s' m.
Proof.
  intros H (c & p & ms & fr & to & r & k & -> & E). destruct s' as [e'|]; [|discriminate].
  destruct e'; try discriminate. cbn in H. inversion H; subst. repeat eexists.
Qed.
Lemma loads_module_fun s m m' : loads_module s m -> loads_module s m' -> m = m'.
Proof. intros (c & p & ms & fr & to & r & k & -> & E) (c' & p' & ms' & fr' & to' & r' & k' & E2 & E'). inversion E2; subst. reflexivity. Qed.
Lemma exempt_spec e : has_comment %"disable=same-origin-load" e = true <-> exempt (Some e).
Proof.
  rewrite has_comment_spec. split; [intros H; exists e; auto|]. intros (e' & [= <-] & H). auto.
Qed.

Lemma set_nth_spec {A} i x (l : list A) : i < List.length l ->
  exists a y b, l = a ++ y :: b /\ List.length a = i /\ set_nth i x l = Some (a ++ x :: b).
Proof.
  revert i; induction l as [|y l IH]; intros i H; [simpl in H; lia|]. destruct i as [|i].
  - exists [], y, l. auto.
  - simpl in H. destruct (IH i) as (a & z & b & -> & <- & E); [lia|]. exists (y :: a), z, b. repeat split; auto.
    simpl. rewrite E. reflexivity.
Qed.
Lemma combine_app {A B} (a a' : list A) (b b' : list B) : List.length a = List.length b ->
  combine (a ++ a') (b ++ b') = combine a b ++ combine a' b'.
Proof. revert b; induction a as [|x a IH]; intros [|y b]; simpl; try discriminate; auto. intros H. rewrite IH; auto. Qed.

Section Compress.
  Context (orig : list (option expr)).
  Definition cinv (A : list (option expr)) (loads : list (bytes * nat)) : Prop :=
    (forall k a, nth_error A k = Some a -> exists o, nth_error orig k = Some o /\ merged_stmt orig k o a) /\
    (forall m j, lookup m loads = Some j ->
       first_load orig m j /\ exists a o, nth_error A j = Some a /\ nth_error orig j = Some o /\ unbound a = unbound o) /\
    (forall m, lookup m loads = None -> forall k o, k < List.length A -> nth_error orig k = Some o -> ~ loads_module o m) /\
    (forall k a m, nth_error A k = Some a -> loads_module a m ->
       exists j o, lookup m loads = Some j /\ nth_error orig j = Some o /\ (k = j \/ exempt o \/ exempt a)) /\
    Forall loads_balanced A /\
    Permutation (full_bindings A) (full_bindings (firstn (List.length A) orig)).

  Lemma nth_app_cases {A} (l : list A) x k a : nth_error (l ++ [x]) k = Some a ->
    (k < List.length l /\ nth_error l k = Some a) \/ (k = List.length l /\ a = x).
  Proof.
    intros H. destruct (Nat.lt_ge_cases k (List.length l)) as [L|L].
    - left. rewrite nth_error_app1 in H by auto. auto.
    - right. rewrite nth_error_app2 in H by auto. destruct (k - List.length l) as [|n] eqn:E; [|destruct n; discriminate].
      injection H as <-. split; auto. lia.
  Qed.
  Lemma firstn_snoc {A} (l : list A) i x : nth_error l i = Some x -> firstn (S i) l = firstn i l ++ [x].
  Proof. revert l; induction i as [|i IH]; intros [|y l]; try discriminate; simpl; intros H; [injection H as ->; auto|]. f_equal. apply IH; auto. Qed.
  Lemma full_app a b : full_bindings (a ++ b) = full_bindings a ++ full_bindings b.
  Proof. apply flat_map_app. Qed.
  Lemma cinv_keep A loads x : cinv A loads -> nth_error orig (List.length A) = Some x ->
    loads_balanced x ->
    (forall m, loads_module x m -> exists j o, lookup m loads = Some j /\ nth_error orig j = Some o /\ (exempt o \/ exempt x)) ->
    cinv (A ++ [x]) loads.
  Proof.
    intros (I1 & I2 & I3 & I4 & I5 & I6) Hx Hb Hm.
    assert (L : forall m, lookup m loads <> None -> exists j, lookup m loads = Some j) by (intros m H; destruct (lookup m loads); eauto; congruence).
    repeat split.
    - intros k a Hk. apply nth_app_cases in Hk as [[L1 H]|[-> ->]]; auto. exists x. split; auto. left. split; auto.
    - apply I2; auto.
    - apply I2; auto.
    - destruct (I2 _ _ H) as (_ & a & o & H1 & H2 & H3). exists a, o. repeat split; auto.
      rewrite nth_error_app1; auto. apply nth_error_Some. congruence.
    - intros m Hn k o Hk Ho. rewrite app_length in Hk. simpl in Hk.
      destruct (Nat.eq_dec k (List.length A)) as [->|]; [|eapply I3; eauto; lia].
      rewrite Hx in Ho. injection Ho as <-. intros M. destruct (Hm m M) as (j & o & E & _). congruence.
    - intros k a m Hk M. apply nth_app_cases in Hk as [[L1 H]|[-> ->]]; [eapply I4; eauto|].
      destruct (Hm m M) as (j & o & E1 & E2 & E3). exists j, o. repeat split; auto.
    - apply Forall_app; auto.
    - rewrite app_length, Nat.add_1_r, (firstn_snoc _ _ _ Hx), !full_app. apply Permutation_app; auto.
  Qed.
  Lemma cinv_first A loads x m : cinv A loads -> nth_error orig (List.length A) = Some x ->
    loads_balanced x -> loads_module x m -> lookup m loads = None ->
    cinv (A ++ [x]) ((m, List.length A) :: loads).
  Proof.
    intros (I1 & I2 & I3 & I4 & I5 & I6) Hx Hb Hm Hn. 
    assert (F : first_load orig m (List.length A)).
    { split; [exists x; auto|]. intros j s Hj Hs. eapply I3; eauto. }
    assert (G : forall m' j, lookup m' loads = Some j -> lookup m' ((m, List.length A) :: loads) = Some j).
    { intros m' j H. simpl. destruct (beq_spec m' m); [subst; congruence|auto]. }
    split; [|split; [|split; [|split; [|split]]]].
    - intros k a Hk. apply nth_app_cases in Hk as [[L1 H]|[-> ->]]; auto. exists x. split; auto. left. auto.
    - intros m' j H. simpl in H. destruct (beq_spec m' m) as [->|].
      + injection H as <-. split; auto. exists x, x. repeat split; auto. rewrite nth_error_app2, Nat.sub_diag by auto. reflexivity.
      + destruct (I2 _ _ H) as (H0 & a & o & H1 & H2 & H3). split; auto. exists a, o. repeat split; auto.
        rewrite nth_error_app1; auto. apply nth_error_Some. congruence.
    - intros m' H k o Hk Ho. simpl in H. destruct (beq_spec m' m) as [E|n]; [discriminate|].
      rewrite app_length in Hk. simpl in Hk.
      destruct (Nat.eq_dec k (List.length A)) as [->|]; [|eapply I3; eauto; lia].
      rewrite Hx in Ho. injection Ho as <-. intros M. apply n. eapply loads_module_fun; eauto.
    - intros k a m' Hk M. apply nth_app_cases in Hk as [[L1 H]|[-> ->]].
      + destruct (I4 _ _ _ H M) as (j & o & E1 & E2 & E3). exists j, o. repeat split; auto.
      + assert (m' = m) as -> by (eapply loads_module_fun; eauto). exists (List.length A), x. simpl. rewrite beq_refl. auto.
    - apply Forall_app; auto.
    - rewrite app_length, Nat.add_1_r, (firstn_snoc _ _ _ Hx), !full_app. apply Permutation_app; auto.
  Qed.
  Lemma cinv_merge A loads c p m fr to r k j c0 p0 m0 fr0 to0 r0 k0 :
    cinv A loads -> nth_error orig (List.length A) = Some (Some (ELoad c p m fr to r k)) ->
    List.length fr = List.length to ->
    lookup (s_value m) loads = Some j -> nth_error A j = Some (Some (ELoad c0 p0 m0 fr0 to0 r0 k0)) ->
    ~ exempt (Some (ELoad c0 p0 m0 fr0 to0 r0 k0)) -> ~ exempt (Some (ELoad c p m fr to r k)) ->
    forall A1, set_nth j (Some (ELoad c0 p0 m0 (fr0 ++ fr) (to0 ++ to) r0 k0)) A = Some A1 ->
    cinv (A1 ++ [None]) loads.
  Proof.
    intros (I1 & I2 & I3 & I4 & I5 & I6) Hx Hb Hl Hj N0 N1 A1 HA.
    destruct (I2 _ _ Hl) as (F & a & o & Ha & Ho & Hu). rewrite Hj in Ha. injection Ha as <-.
    assert (Hjl : j < List.length A) by (apply nth_error_Some; congruence).
    destruct (set_nth_spec j (Some (ELoad c0 p0 m0 (fr0 ++ fr) (to0 ++ to) r0 k0)) A Hjl) as (l1 & y & l2 & EA & EL & ES).
    rewrite ES in HA. injection HA as <-.
    assert (Ey : y = Some (ELoad c0 p0 m0 fr0 to0 r0 k0)).
    { rewrite EA, nth_error_app2, EL, Nat.sub_diag in Hj by lia. injection Hj as ->. auto. }
    set (y' := Some (ELoad c0 p0 m0 (fr0 ++ fr) (to0 ++ to) r0 k0)) in *.
    assert (Eu : unbound y' = unbound y) by (rewrite Ey; reflexivity).
    assert (EN : forall i, i <> j -> nth_error (l1 ++ y' :: l2) i = nth_error A i).
    { intros i Hi. rewrite EA. destruct (Nat.lt_ge_cases i j).
      - rewrite !nth_error_app1 by lia. auto.
      - rewrite !nth_error_app2 by lia. destruct (i - List.length l1) as [|n] eqn:En; [lia|]. reflexivity. }
    assert (EJ : nth_error (l1 ++ y' :: l2) j = Some y') by (rewrite nth_error_app2, EL, Nat.sub_diag by lia; reflexivity).
    assert (Em : s_value m0 = s_value m).
    { destruct F as [(s & Hs & M) _]. rewrite Ho in Hs. injection Hs as <-.
      apply (loads_module_unbound o y) in M; [|rewrite Ey; auto]. rewrite Ey in M. destruct M as (? & ? & ? & ? & ? & ? & ? & EE & <-). inversion EE; subst; auto. }
    assert (LN : List.length (l1 ++ y' :: l2) = List.length A) by (rewrite EA, !app_length; reflexivity).
    split; [|split; [|split; [|split; [|split]]]].
    - intros i s Hi. apply nth_app_cases in Hi as [[L1 H]|[-> ->]].
      + destruct (Nat.eq_dec i j) as [->|ne]; [|rewrite EN in H by auto; auto].
        rewrite EJ in H. injection H as <-. exists o. split; auto. left. split; [congruence|].
        left. destruct F as [(s & Hs & M) _]. rewrite Ho in Hs. injection Hs as <-. destruct M as (? & ? & ? & ? & ? & ? & ? & -> & _). repeat eexists.
      + rewrite LN. eexists. split; [exact Hx|]. right. split; auto. exists (s_value m), j, o.
        split; [repeat eexists|]. split; auto. split; auto. split; auto. split; auto.
        intros E. apply N0. rewrite <- Ey in *. eapply exempt_unbound; [|exact E]. auto.
    - intros m' i Hi. destruct (I2 _ _ Hi) as (F' & a' & o' & Ha' & Ho' & Hu'). split; auto.
      assert (Hil : i < List.length A) by (apply nth_error_Some; congruence).
      destruct (Nat.eq_dec i j) as [->|ne].
      + exists y', o. rewrite nth_error_app1 by lia. repeat split; auto; try congruence.
      + exists a', o'. rewrite nth_error_app1 by lia. rewrite EN by auto. auto.
    - intros m' Hm' i o' Hi Ho' M. rewrite app_length, LN in Hi. simpl in Hi.
      destruct (Nat.eq_dec i (List.length A)) as [->|]; [|apply (I3 m' Hm' i o') in M; auto; lia].
      rewrite Hx in Ho'. injection Ho' as <-. destruct M as (? & ? & ? & ? & ? & ? & ? & EE & E2). inversion EE; subst. congruence.
    - intros i s m' Hi M. apply nth_app_cases in Hi as [[L1 H]|[-> ->]].
      + destruct (Nat.eq_dec i j) as [->|ne].
        * rewrite EJ in H. injection H as <-. exists j, o.
          assert (m' = s_value m) as ->. { destruct M as (? & ? & ? & ? & ? & ? & ? & EE & E2). inversion EE; subst. congruence. }
          auto.
        * rewrite EN in H by auto. apply (I4 _ _ _ H M).
      + destruct M as (? & ? & ? & ? & ? & ? & ? & EE & E2). discriminate.
    - rewrite EA in I5. apply Forall_app in I5 as [B1 B2]. inversion_clear B2 as [|? ? B3 B4].
      apply Forall_app. split; [|constructor; simpl; auto]. apply Forall_app. split; auto. constructor; auto.
      rewrite Ey in B3. simpl in B3 |- *. rewrite !app_length. lia.
    - rewrite app_length, LN, Nat.add_1_r, (firstn_snoc _ _ _ Hx), !full_app.
      rewrite <- I6, EA, Ey. unfold full_bindings. rewrite !flat_map_app. cbn [flat_map]. rewrite !app_nil_r, <- !app_assoc.
      apply Permutation_app_head. unfold y'. cbn [full_bindings_of].
      assert (B : List.length fr0 = List.length to0). { rewrite Forall_forall in I5. apply (I5 (Some (ELoad c0 p0 m0 fr0 to0 r0 k0))). eapply nth_error_In; eauto. }
      rewrite combine_app, map_app by auto. rewrite <- !app_assoc. apply Permutation_app_head.
      rewrite Em. apply Permutation_app_comm.
  Qed.
  Lemma compress_inv todo : forall A loads, orig = firstn (List.length A) orig ++ todo ->
    List.length A <= List.length orig -> Forall loads_balanced todo -> cinv A loads ->
    exists l loads', compress_loop (List.length A) loads todo (A ++ todo) = l /\ cinv l loads' /\ List.length l = List.length orig.
  Proof.
    induction todo as [|x todo IH]; intros A loads E LA Fb I.
    - exists A, loads. simpl. rewrite app_nil_r. split; auto. split; auto.
      apply (f_equal (@List.length _)) in E. rewrite app_nil_r, firstn_length in E. lia.
    - inversion_clear Fb as [|? ? B0 Fb'].
      assert (Hx : nth_error orig (List.length A) = Some x).
      { rewrite E, nth_error_app2; rewrite firstn_length, Nat.min_l; auto. rewrite Nat.sub_diag. reflexivity. }
      assert (LB : S (List.length A) <= List.length orig) by (apply nth_error_Some; congruence).
      assert (E' : orig = firstn (S (List.length A)) orig ++ todo).
      { rewrite (firstn_snoc _ _ _ Hx), <- app_assoc. exact E. }
      assert (keep : forall loads', cinv (A ++ [x]) loads' -> exists l loads'', compress_loop (S (List.length A)) loads' todo (A ++ x :: todo) = l /\ cinv l loads'' /\ List.length l = List.length orig).
      { intros loads' I'. specialize (IH (A ++ [x]) loads'). rewrite app_length, Nat.add_1_r, <- app_assoc in IH. apply IH; auto. }
      assert (other : ~ is_load x -> exists l loads'', compress_loop (S (List.length A)) loads todo (A ++ x :: todo) = l /\ cinv l loads'' /\ List.length l = List.length orig).
      { intros Nl. apply keep. apply cinv_keep; auto. intros m (? & ? & ? & ? & ? & ? & ? & -> & _). exfalso. apply Nl. repeat eexists. }
      cbn [compress_loop]. destruct x as [e|]; [|apply other; intros H; apply is_load_spec in H; discriminate].
      destruct e; try (apply other; intros H; apply is_load_spec in H; discriminate). clear other.
      destruct (lookup (s_value m) loads) as [j|] eqn:Lk.
      2:{ apply keep, cinv_first; auto. repeat eexists. }
      destruct I as (I1 & I2 & I3 & I4 & I5 & I6). destruct (I2 _ _ Lk) as (F & a & o & Ha & Ho & Hu).
      assert (Hj : j < List.length A) by (apply nth_error_Some; congruence).
      rewrite nth_error_app1, Ha by auto.
      assert (exists c0 p0 m0 fr0 to0 r0 k0, a = Some (ELoad c0 p0 m0 fr0 to0 r0 k0)) as (c0 & p0 & m0 & fr0 & to0 & r0 & k0 & ->).
      { destruct F as [(s & Hs & M) _]. rewrite Ho in Hs. injection Hs as <-. symmetry in Hu.
        apply (loads_module_unbound _ _ _ Hu) in M. destruct M as (c1 & p1 & m1 & fr1 & to1 & r1 & k1 & E1 & _). exists c1, p1, m1, fr1, to1, r1, k1. exact E1. }
      assert (I : cinv A loads) by (split; auto; split; auto; split; auto).
      destruct (_ || _) eqn:X.
      + apply keep, cinv_keep; auto. intros m' M. exists j, o.
        assert (m' = s_value m) as ->. { destruct M as (? & ? & ? & ? & ? & ? & ? & EE & E2). inversion EE; subst. congruence. }
        split; auto. split; auto. apply orb_true_iff in X as [X|X]; apply exempt_spec in X; auto.
        left. eapply exempt_unbound; eauto.
      + apply orb_false_iff in X as [X1 X2].
        assert (N1 := X1). assert (N2 := X2). apply not_true_iff_false in N1, N2. rewrite exempt_spec in N1, N2.
        destruct (set_nth_spec j (Some (ELoad c0 p0 m0 (fr0 ++ from) (to0 ++ to) r0 k0)) A Hj) as (l1 & y & l2 & EA & EL & ES).
        pose proof (cinv_merge A loads c p m from to r compact j c0 p0 m0 fr0 to0 r0 k0 I Hx B0 Lk Ha N1 N2 _ ES) as I'.
        rewrite EA, <- app_assoc. cbn [app].
        match goal with |- context [set_nth j ?v (l1 ++ y :: ?rest)] => rewrite (set_nth_at j l1 v y rest) by auto end.
        match goal with |- context [set_nth ?i None (l1 ++ ?v :: l2 ++ ?z :: todo)] =>
          replace (l1 ++ v :: l2 ++ z :: todo) with ((l1 ++ v :: l2) ++ z :: todo) by (rewrite <- app_assoc; reflexivity);
          rewrite (set_nth_at i (l1 ++ v :: l2) None z todo) by (rewrite !app_length; reflexivity) end.
        set (q := l1 ++ Some (ELoad c0 p0 m0 (fr0 ++ from) (to0 ++ to) r0 k0) :: l2) in *.
        assert (LE : List.length q = List.length A) by (unfold q; rewrite EA, !app_length; reflexivity).
        specialize (IH (q ++ [None]) loads). rewrite <- app_assoc, app_length, LE in IH. cbn [List.length app] in IH. rewrite Nat.add_1_r in IH.
        rewrite <- EA. apply IH; auto.
  Qed.
  Lemma cinv_nil : cinv [] [].
  Proof.
    split; [intros [] ?; discriminate|]. split; [discriminate|]. split; [simpl; intros; lia|].
    split; [intros [] ? ?; discriminate|]. split; [constructor|]. constructor.
  Qed.
End Compress.
Lemma compress_spec l : Forall loads_balanced l ->
  exists loads, cinv l (compress_loads l) loads /\ List.length (compress_loads l) = List.length l.
Proof.
  intros H. destruct (compress_inv l l [] []) as (l' & loads & E & I & L); auto; [simpl; lia|apply cinv_nil|].
  exists loads. simpl in E. unfold compress_loads. rewrite E. auto.
Qed.
