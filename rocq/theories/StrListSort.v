(** Sorting of chunks, the chunk loop, deduplication. *)
From Verif Require Import Base BaseProofs Order Ast StrList StrListSpec StrListProofs.

Definition key_ok (strip : bool) (k : skey) : Prop := k = make_key strip (k_orig k) (k_x k).

Lemma make_keys_ok strip run : Forall (key_ok strip) (make_keys strip run).
Proof. unfold make_keys. apply Forall_map, Forall_forall. intros [i s] _. reflexivity. Qed.
Lemma make_keys_x strip run : map k_x (make_keys strip run) = run.
Proof.
  unfold make_keys. rewrite map_map. cbn [make_key k_x].
  generalize 0. induction run as [|s r IH]; intros n; simpl; auto. rewrite IH; auto.
Qed.
Lemma make_keys_orig strip run : map k_orig (make_keys strip run) = seq 0 (List.length run).
Proof.
  unfold make_keys. rewrite map_map. cbn [make_key k_orig].
  generalize 0. induction run as [|s r IH]; intros n; simpl; auto. rewrite IH; auto.
Qed.

(** uniq as a recursive function *)
Fixpoint uniq_from (y : skey) (l : list skey) : list skey :=
  match l with
  | [] => []
  | z :: l' => if beq (k_value z) (k_value y) then uniq_from y l' else z :: uniq_from z l'
  end.
Lemma uniq_fold l : forall out y,
  fold_left (fun out sk => match rev out with [] => out ++ [sk] | y :: _ => if beq (k_value sk) (k_value y) then out else out ++ [sk] end)
    l (out ++ [y]) = out ++ y :: uniq_from y l.
Proof.
  induction l as [|z l IH]; intros out y; cbn [fold_left uniq_from]; auto.
  rewrite rev_app_distr; cbn [rev app]. destruct (beq (k_value z) (k_value y)).
  - apply IH.
  - rewrite IH, <- app_assoc. auto.
Qed.
Lemma uniq_cons x l : uniq (x :: l) = x :: uniq_from x l.
Proof. unfold uniq. cbn [fold_left rev app]. apply (uniq_fold l [] x). Qed.
Lemma uniq_from_incl y l : incl (uniq_from y l) l.
Proof.
  revert y; induction l as [|z l IH]; intros y k; simpl; auto.
  destruct (beq _ _); simpl; intros H; [right; eapply IH; eauto|].
  destruct H as [->|H]; auto. right; eapply IH; eauto.
Qed.
Lemma uniq_from_values y l v : In v (map k_value (y :: l)) <-> In v (map k_value (y :: uniq_from y l)).
Proof.
  revert y; induction l as [|z l IH]; intros y; [tauto|].
  cbn [uniq_from]. destruct (beq_spec (k_value z) (k_value y)) as [E|n].
  - rewrite <- IH. simpl. rewrite E. tauto.
  - specialize (IH z). simpl in *. tauto.
Qed.
Lemma uniq_incl l : incl (uniq l) l.
Proof.
  destruct l as [|x l]; [intros k []|]. rewrite uniq_cons. intros k [->|H]; [left; auto|right].
  eapply uniq_from_incl; eauto.
Qed.
Lemma uniq_values l v : In v (map k_value (uniq l)) <-> In v (map k_value l).
Proof. destruct l as [|x l]; [reflexivity|]. rewrite uniq_cons. symmetry. apply uniq_from_values. Qed.

(** sorted keys *)
Definition vlt (strip : bool) (v w : bytes) : Prop := val_less strip v w = true.
Lemma key_not_less strip p q : key_ok strip p -> key_ok strip q ->
  key_less q p = false -> k_value p <> k_value q -> vlt strip (k_value p) (k_value q).
Proof.
  intros Hp Hq H n. rewrite Hp, Hq in H |- *. rewrite key_less_eq in H.
  cbn [make_key k_value] in *. rewrite Hp, Hq in n. cbn [make_key k_value] in n.
  rewrite beq_sym in H. destruct (beq_spec (s_value (k_x p)) (s_value (k_x q))); [congruence|].
  unfold vlt. destruct (val_less strip (s_value (k_x p)) (s_value (k_x q))) eqn:E; auto.
  destruct n. apply (val_less_incomparable strip); auto.
Qed.
Lemma uniq_from_sorted strip y l :
  Forall (key_ok strip) (y :: l) ->
  StronglySorted (fun a b => key_less b a = false) (y :: l) ->
  Sorted (vlt strip) (map k_value (y :: uniq_from y l)).
Proof.
  revert y; induction l as [|z l IH]; intros y Hok Hs; [repeat constructor|].
  inversion_clear Hok as [|? ? Hy Hok']. inversion_clear Hok' as [|? ? Hz Hl].
  inversion_clear Hs as [|? ? Hs' Hf]. inversion_clear Hs' as [|? ? Hs1 Hf1].
  inversion_clear Hf as [|? ? Hyz Hyl].
  cbn [uniq_from]. destruct (beq_spec (k_value z) (k_value y)) as [E|n].
  - apply IH; constructor; auto.
  - cbn [map]. constructor.
    + apply (IH z); constructor; auto.
    + constructor. apply key_not_less; auto.
Qed.
Lemma vlt_trans strip : forall x y z, vlt strip x y -> vlt strip y z -> vlt strip x z.
Proof. intros x y z. apply (swo_trans _ (swo_val_less strip)). Qed.
Lemma uniq_isort_sorted strip l : Forall (key_ok strip) l ->
  StronglySorted (vlt strip) (map k_value (uniq (isort key_less l))).
Proof.
  intros Hok. apply Sorted_StronglySorted; [intros x y z; apply vlt_trans|].
  pose proof (isort_swo_sorted key_less l swo_key_less) as Hs.
  assert (Hok' : Forall (key_ok strip) (isort key_less l)).
  { eapply Permutation_Forall; [symmetry; apply isort_perm|auto]. }
  destruct (isort key_less l) as [|y t]; [constructor|].
  rewrite uniq_cons. apply uniq_from_sorted; auto.
Qed.
Lemma is_sorted_uniq_sorted strip l : Forall (key_ok strip) l ->
  is_sorted key_less l = true -> is_uniq l = true -> Sorted (vlt strip) (map k_value l).
Proof.
  induction l as [|x l IH]; intros Hok H1 H2; [constructor|].
  inversion_clear Hok as [|? ? Hx Hl]. destruct l as [|y l]; [repeat constructor|].
  cbn [is_sorted is_uniq] in *. apply andb_true_iff in H1 as [H1 H1'], H2 as [H2 H2'].
  cbn [map]. constructor; [apply IH; auto|]. constructor.
  inversion_clear Hl. apply negb_true_iff in H1, H2. apply beq_neq in H2.
  apply key_not_less; auto.
Qed.
Lemma sorted_map_value strip l : StronglySorted (vlt strip) l -> StronglySorted (str_before strip) l.
Proof.
  induction 1 as [|x l H IH Hf]; constructor; auto.
  eapply Forall_impl; [|exact Hf]. intros y. apply val_less_before.
Qed.
Lemma ok_values strip ks : Forall (key_ok strip) ks -> map k_value ks = map s_value (map k_x ks).
Proof.
  induction 1 as [|k ks H _ IH]; simpl; auto. rewrite IH. f_equal.
  rewrite H. reflexivity.
Qed.

Lemma bare_set_before b s : bare (set_before b s) = bare s.
Proof. destruct s; reflexivity. Qed.
Lemma value_set_before b s : s_value (set_before b s) = s_value s.
Proof. reflexivity. Qed.
Lemma set_before_id s : before_of s = [] -> set_before [] s = s.
Proof. destruct s as [c ? ? ? ? ?]; destruct c; simpl. unfold before_of; simpl. intros ->; reflexivity. Qed.
Lemma set_before_self s : set_before (before_of s) s = s.
Proof. destruct s as [c ? ? ? ? ?]; destruct c; reflexivity. Qed.

Lemma sort_chunk_result strip run : is_chunk run -> chunk_result strip run (sort_chunk strip run).
Proof.
  intros Hc. unfold sort_chunk. destruct (negb _ || negb _) eqn:E.
  - destruct run as [|f r]; [destruct Hc|]. cbn [is_chunk] in Hc.
    set (keys := make_keys strip (set_before [] f :: r)).
    pose proof (make_keys_ok strip (set_before [] f :: r)) as Hok. fold keys in Hok.
    pose proof (uniq_isort_sorted strip keys Hok) as Hs.
    pose proof (uniq_incl (isort key_less keys)) as Hin.
    assert (Hok' : Forall (key_ok strip) (isort key_less keys))
      by (eapply Permutation_Forall; [symmetry; apply isort_perm|auto]).
    assert (Hoku : Forall (key_ok strip) (uniq (isort key_less keys))).
    { apply Forall_forall. intros k Hk. rewrite Forall_forall in Hok'. auto. }
    pose proof (fun v => uniq_values (isort key_less keys) v) as Hv.
    assert (Hvp : forall v, In v (map k_value (isort key_less keys)) <-> In v (map k_value keys)).
    { intros v. split; apply Permutation_in; [|symmetry]; apply Permutation_map, isort_perm. }
    assert (Hkv : map k_value keys = map s_value (f :: r)).
    { rewrite (ok_values strip) by auto. unfold keys. rewrite make_keys_x. reflexivity. }
    rewrite (ok_values strip _ Hoku) in Hs, Hv.
    assert (Hinx : forall x, In x (map k_x (uniq (isort key_less keys))) -> In x (set_before [] f :: r)).
    { intros x Hx. apply in_map_iff in Hx as (k & <- & Hk). apply Hin in Hk.
      assert (In k keys) by (apply (Permutation_in _ (isort_perm key_less keys)); auto).
      rewrite <- (make_keys_x strip (set_before [] f :: r)). apply in_map; auto. }
    assert (Hb : forall x, In x (set_before [] f :: r) -> before_of x = []).
    { intros x [<-|H]; auto. rewrite Forall_forall in Hc. auto. }
    destruct (map k_x (uniq (isort key_less keys))) as [|x xs] eqn:Ex.
    { exfalso. assert (H : In (s_value f) (map s_value [])); [|destruct H].
      apply Hv, Hvp. rewrite Hkv. left; auto. }
    constructor.
    + cbn [map]. rewrite value_set_before. apply sorted_map_value, Hs.
    + intros v. rewrite <- Hkv, <- Hvp, <- Hv. cbn [map]. reflexivity.
    + assert (G : forall y, In y (x :: xs) -> exists x0, In x0 (f :: r) /\ bare x0 = bare y).
      { intros y Hy. destruct (Hinx y Hy) as [<-|H].
        - exists f. split; [left; auto|]. rewrite bare_set_before; auto.
        - exists y. split; [right; auto|auto]. }
      constructor.
      * rewrite bare_set_before. apply G. left; auto.
      * apply Forall_forall. intros y Hy. apply G. right; auto.
    + reflexivity.
    + cbn [is_chunk]. apply Forall_forall. intros y Hy. apply Hb, Hinx. right; auto.
  - apply orb_false_iff in E as [E1 E2]. apply negb_false_iff in E1, E2.
    pose proof (make_keys_ok strip run) as Hok.
    constructor; auto.
    + apply sorted_map_value, Sorted_StronglySorted; [intros x y z; apply vlt_trans|].
      pose proof (is_sorted_uniq_sorted strip _ Hok E1 E2) as H.
      rewrite (ok_values strip) in H by auto. rewrite make_keys_x in H. auto.
    + reflexivity.
    + apply Forall_forall. eauto.
    + destruct run; auto.
Qed.

Lemma take_run_spec l : exists rest, l = map EStr (take_run l) ++ rest /\ ends_chunk rest /\
  Forall (fun s => before_of s = []) (take_run l).
Proof.
  induction l as [|e l IH]; [exists []; simpl; auto|].
  destruct (is_str e) eqn:Hs.
  2: { exists (e :: l). destruct e; try discriminate Hs; simpl; repeat split; auto. }
  destruct e as [| | | | | |s| | | | | | | | | | | | | | | | | | | | | | |]; try discriminate Hs.
  simpl. destruct (c_before (s_com s)) eqn:E.
  - destruct IH as (rest & H1 & H2 & H3). exists rest. simpl. split; [congruence|]. split; auto.
  - exists (EStr s :: l). simpl. split; auto. split; auto. unfold before_of. rewrite E. discriminate.
Qed.
Lemma take_run_app run rest : Forall (fun s => before_of s = []) run -> ends_chunk rest ->
  take_run (map EStr run ++ rest) = run.
Proof.
  intros H He. induction H as [|s run Hs H IH]; simpl.
  - destruct rest as [|e rest]; auto. destruct e; auto. simpl in He. simpl.
    unfold before_of in He. destruct (c_before (s_com s)); [congruence|auto].
  - unfold before_of in Hs. rewrite Hs, IH; auto.
Qed.

Lemma chunkwise_refl strip l : chunkwise strip l l.
Proof. induction l; constructor; auto. Qed.
Lemma chunkwise_keep_app strip a l l' : chunkwise strip l l' -> chunkwise strip (a ++ l) (a ++ l').
Proof. induction a; simpl; auto. intros; constructor; auto. Qed.

Lemma skipn_cons_split {A} i (l : list A) e rest : skipn i l = e :: rest ->
  l = firstn i l ++ e :: rest /\ List.length (firstn i l) = i /\ skipn (S i) l = rest /\
  firstn (S i) l = firstn i l ++ [e] /\ i < List.length l.
Proof.
  intros E.
  assert (Hi' : i < List.length l).
  { destruct (le_lt_dec (List.length l) i); auto. rewrite skipn_all2 in E by lia. discriminate. }
  assert (Hi : List.length (firstn i l) = i) by (apply firstn_length_le; lia).
  assert (Hl0 : l = firstn i l ++ e :: rest) by (rewrite <- E; symmetry; apply firstn_skipn).
  assert (skipn (S i) l = rest) as Hs.
  { rewrite Hl0, skipn_app, Hi. rewrite skipn_all2 by lia. replace (S i - i) with 1 by lia. reflexivity. }
  repeat split; auto.
  apply (app_inv_tail (skipn (S i) l)). rewrite firstn_skipn, Hs, <- app_assoc. simpl. auto.
Qed.

Lemma sort_loop_chunkwise strip fuel : forall i l,
  exists g, sort_exprs_loop strip fuel i l = firstn i l ++ g /\ chunkwise strip (skipn i l) g.
Proof.
  induction fuel as [|fuel IH]; intros i l; cbn [sort_exprs_loop].
  - exists (skipn i l). split; [symmetry; apply firstn_skipn|apply chunkwise_refl].
  - destruct (skipn i l) as [|e rest] eqn:E.
    { exists []. split; [|constructor]. rewrite app_nil_r, <- (firstn_skipn i l) at 1. rewrite E, app_nil_r; auto. }
    destruct (skipn_cons_split i l e rest E) as (Hl0 & Hi & Hs & Hf & Hi').
    assert (Hkeep : exists g, sort_exprs_loop strip fuel (S i) l = firstn i l ++ g /\ chunkwise strip (e :: rest) g).
    { destruct (IH (S i) l) as (g & H1 & H2).
      exists (e :: g). rewrite H1, Hf, <- app_assoc. split; auto.
      constructor. rewrite <- Hs. auto. }
    destruct e; auto. clear Hkeep.
    destruct (take_run_spec rest) as (rest2 & Hr & Hends & Hnb).
    set (run := s :: take_run rest) in *. set (run' := sort_chunk strip run).
    assert (Hchunk : is_chunk run) by (simpl; auto).
    pose proof (sort_chunk_result strip run Hchunk) as Hres. fold run' in Hres.
    assert (Hl : l = firstn i l ++ map EStr run ++ rest2).
    { rewrite Hl0 at 1. unfold run. cbn [map app]. congruence. }
    assert (Hj : skipn (i + List.length run) l = rest2).
    { rewrite Hl at 1. rewrite app_assoc, skipn_app.
      rewrite skipn_all2 by (rewrite app_length, map_length; lia).
      rewrite app_length, map_length, Hi. replace (_ - _) with 0 by lia. reflexivity. }
    rewrite Hj.
    set (l' := firstn i l ++ map EStr run' ++ rest2).
    destruct (IH (i + List.length run) l') as (g & H1 & H2).
    (* run' is no longer than run *)
    assert (Hlen : List.length run' <= List.length run).
    { unfold run', sort_chunk. destruct (negb _ || negb _); auto.
      unfold run at 1. cbv zeta.
      set (keys := make_keys strip (set_before [] s :: take_run rest)).
      assert (HL : List.length (map k_x (uniq (isort key_less keys))) <= List.length run).
      { rewrite map_length.
        assert (forall y l, List.length (uniq_from y l) <= List.length l) as HU.
        { clear. intros y l; revert y; induction l as [|z l IH]; intros y; simpl; auto.
          destruct (beq _ _); simpl; [specialize (IH y)|specialize (IH z)]; lia. }
        assert (List.length (isort key_less keys) = List.length run) as <-.
        { rewrite isort_length. unfold keys, run.
          rewrite <- (map_length k_x), make_keys_x. reflexivity. }
        destruct (isort key_less keys) as [|y t]; simpl; auto. rewrite uniq_cons. simpl.
        specialize (HU y t). lia. }
      destruct (map k_x (uniq (isort key_less keys))); simpl in *; lia. }
    rewrite H1.
    set (d := List.length run - List.length run').
    assert (F : firstn (i + List.length run) l' = firstn i l ++ map EStr run' ++ firstn d rest2).
    { unfold l'. rewrite !firstn_app, map_length, Hi.
      rewrite firstn_all2 by lia. f_equal.
      replace (i + List.length run - i) with (List.length run) by lia.
      rewrite firstn_all2 by (rewrite map_length; lia). reflexivity. }
    assert (S' : skipn (i + List.length run) l' = skipn d rest2).
    { unfold l'. rewrite !skipn_app, map_length, Hi.
      rewrite skipn_all2 by lia.
      replace (i + List.length run - i) with (List.length run) by lia.
      rewrite (skipn_all2 (map EStr run')) by (rewrite map_length; lia). reflexivity. }
    rewrite F. exists (map EStr run' ++ firstn d rest2 ++ g).
    split; [rewrite <- !app_assoc; auto|].
    rewrite Hr. change (EStr s :: map EStr (take_run rest) ++ rest2) with (map EStr run ++ rest2).
    apply cw_chunk; auto. rewrite <- (firstn_skipn d rest2) at 1. apply chunkwise_keep_app.
    rewrite <- S'. auto.
Qed.

Lemma sort_string_exprs_chunkwise strip l : chunkwise strip l (sort_string_exprs strip l).
Proof.
  unfold sort_string_exprs. destruct (Nat.ltb _ _); [apply chunkwise_refl|].
  destruct (sort_loop_chunkwise strip (List.length l) 0 l) as (g & -> & H). exact H.
Qed.

(** ** Without duplicates: every chunk is sorted, and sorting is idempotent. *)
Lemma str_before_irrefl strip v : ~ str_before strip v v.
Proof. rewrite <- val_less_before, (swo_irrefl _ (swo_val_less strip)). discriminate. Qed.
Lemma str_before_asym strip v w : str_before strip v w -> ~ str_before strip w v.
Proof. rewrite <- !val_less_before. intros H. rewrite (swo_asym (swo_val_less strip) _ _ H). discriminate. Qed.
Lemma strongly_sorted_nodup strip l : StronglySorted (str_before strip) l -> NoDup l.
Proof.
  induction 1 as [|x l H IH Hf]; constructor; auto.
  intros Hin. rewrite Forall_forall in Hf. apply (str_before_irrefl strip x). auto.
Qed.
Lemma chunk_result_length strip run run' : NoDup (map s_value run) ->
  chunk_result strip run run' -> List.length run' = List.length run.
Proof.
  intros Hn [Hs Hv _ _ _]. apply strongly_sorted_nodup in Hs.
  rewrite <- (map_length s_value run'), <- (map_length s_value run).
  apply Nat.le_antisymm; apply NoDup_incl_length; auto; intros v; apply Hv.
Qed.

Lemma sort_loop_nodup strip fuel : forall i l, List.length l - i <= fuel ->
  no_dup_in_chunks (skipn i l) ->
  exists g, sort_exprs_loop strip fuel i l = firstn i l ++ g /\ all_chunks_sorted strip (skipn i l) g.
Proof.
  induction fuel as [|fuel IH]; intros i l Hfuel Hnd; cbn [sort_exprs_loop].
  - exists []. rewrite firstn_all2, app_nil_r by lia. split; auto. rewrite skipn_all2 by lia. constructor.
  - destruct (skipn i l) as [|e rest] eqn:E.
    { exists []. split; [|constructor]. rewrite app_nil_r, <- (firstn_skipn i l) at 1. rewrite E, app_nil_r; auto. }
    destruct (skipn_cons_split i l e rest E) as (Hl0 & Hi & Hs & Hf & Hi').
    assert (Hkeep : is_str e = false -> exists g, sort_exprs_loop strip fuel (S i) l = firstn i l ++ g /\ all_chunks_sorted strip (e :: rest) g).
    { intros He.
      destruct (IH (S i) l) as (g & H1 & H2); [lia| |].
      { rewrite Hs. intros a r b Ha. apply (Hnd (e :: a) r b). simpl; congruence. }
      exists (e :: g). rewrite H1, Hf, <- app_assoc. split; auto.
      constructor; auto. rewrite <- Hs. auto. }
    destruct e; auto. clear Hkeep.
    destruct (take_run_spec rest) as (rest2 & Hr & Hends & Hnb).
    set (run := s :: take_run rest) in *. set (run' := sort_chunk strip run).
    assert (Hchunk : is_chunk run) by (simpl; auto).
    pose proof (sort_chunk_result strip run Hchunk) as Hres. fold run' in Hres.
    assert (Hl : l = firstn i l ++ map EStr run ++ rest2).
    { rewrite Hl0 at 1. unfold run. cbn [map app]. congruence. }
    assert (Hndr : NoDup (map s_value run)) by (apply (Hnd [] run rest2); auto; unfold run; cbn [map app]; congruence).
    pose proof (chunk_result_length strip run run' Hndr Hres) as Hlen.
    assert (Hj : skipn (i + List.length run) l = rest2).
    { rewrite Hl at 1. rewrite app_assoc, skipn_app.
      rewrite skipn_all2 by (rewrite app_length, map_length; lia).
      rewrite app_length, map_length, Hi. replace (_ - _) with 0 by lia. reflexivity. }
    rewrite Hj.
    set (l' := firstn i l ++ map EStr run' ++ rest2).
    assert (F : firstn (i + List.length run) l' = firstn i l ++ map EStr run').
    { unfold l'. rewrite app_assoc, firstn_app. rewrite firstn_all2 by (rewrite app_length, map_length; lia).
      rewrite app_length, map_length, Hi. replace (_ - _) with 0 by lia. simpl. apply app_nil_r. }
    assert (S' : skipn (i + List.length run) l' = rest2).
    { unfold l'. rewrite app_assoc, skipn_app, skipn_all2 by (rewrite app_length, map_length; lia).
      rewrite app_length, map_length, Hi. replace (_ - _) with 0 by lia. reflexivity. }
    destruct (IH (i + List.length run) l') as (g & H1 & H2).
    + unfold l'. apply (f_equal (@List.length expr)) in Hl. rewrite !app_length, !map_length in *. unfold run in *; simpl in *; lia.
    + rewrite S'. intros a r b Ha. apply (Hnd (map EStr run ++ a) r b).
      rewrite <- app_assoc, <- Ha. unfold run. cbn [map app]. congruence.
    + rewrite H1, F. exists (map EStr run' ++ g). split; [rewrite <- app_assoc; auto|].
      rewrite Hr. change (EStr s :: map EStr (take_run rest) ++ rest2) with (map EStr run ++ rest2).
      apply ac_chunk; auto. rewrite <- S'. auto.
Qed.

Inductive chunks_ok (strip : bool) : list expr -> Prop :=
  | co_nil : chunks_ok strip []
  | co_other e l : is_str e = false -> chunks_ok strip l -> chunks_ok strip (e :: l)
  | co_chunk run l :
      is_chunk run -> ends_chunk l -> StronglySorted (str_before strip) (map s_value run) ->
      chunks_ok strip l -> chunks_ok strip (map EStr run ++ l).

Lemma all_sorted_ends strip l l' : all_chunks_sorted strip l l' -> ends_chunk l -> ends_chunk l'.
Proof.
  destruct 1 as [|e l l' He H|run run' l l' H1 H2 H3 H4]; auto.
  destruct H3 as [_ _ _ Htop _]. destruct run as [|f r]; [destruct H1|]. destruct run' as [|f' r']; [destruct Htop|].
  simpl. rewrite Htop. auto.
Qed.
Lemma all_sorted_ok strip l l' : all_chunks_sorted strip l l' -> chunks_ok strip l'.
Proof.
  induction 1 as [|e l l' He H IH|run run' l l' H1 H2 H3 H4 IH]; constructor; auto.
  - apply H3.
  - eapply all_sorted_ends; eauto.
  - apply H3.
Qed.

Lemma sorted_is_sorted strip run : StronglySorted (str_before strip) (map s_value run) ->
  is_sorted key_less (make_keys strip run) = true /\ is_uniq (make_keys strip run) = true.
Proof.
  unfold make_keys. generalize 0.
  induction run as [|s run IH]; intros n H; [auto|].
  inversion_clear H as [|? ? H1 H2]. destruct run as [|t run]; [auto|].
  specialize (IH (S n) H1). destruct IH as [IH1 IH2].
  cbn [enum_from map fst snd] in *. cbn [is_sorted is_uniq] in *.
  inversion_clear H2 as [|? ? Hst _]. apply val_less_before in Hst.
  assert (Hne : s_value s <> s_value t).
  { intros E. rewrite E, (swo_irrefl _ (swo_val_less strip)) in Hst. discriminate. }
  split; apply andb_true_iff; split; auto; apply negb_true_iff.
  - rewrite key_less_eq. destruct (beq_spec (s_value t) (s_value s)); [congruence|].
    apply (swo_asym (swo_val_less strip)); auto.
  - cbn [make_key k_value]. apply beq_neq; auto.
Qed.
Lemma sort_chunk_id strip run : StronglySorted (str_before strip) (map s_value run) -> sort_chunk strip run = run.
Proof. intros H. apply sorted_is_sorted in H as [H1 H2]. unfold sort_chunk. rewrite H1, H2. reflexivity. Qed.

Lemma skipn_app2 {A} n (p a b : list A) : n = List.length p + List.length a -> skipn n (p ++ a ++ b) = b.
Proof. intros ->. rewrite app_assoc, <- app_length. apply skipn_app_exact. Qed.

Lemma sort_loop_id strip fuel : forall i l, chunks_ok strip (skipn i l) -> sort_exprs_loop strip fuel i l = l.
Proof.
  induction fuel as [|fuel IH]; intros i l H; cbn [sort_exprs_loop]; auto.
  destruct (skipn i l) as [|e rest] eqn:E; auto.
  destruct (skipn_cons_split i l e rest E) as (Hl0 & Hi & Hs & Hf & Hi').
  assert (Hs' : chunks_ok strip rest -> chunks_ok strip (skipn (S i) l)) by (rewrite Hs; auto). clear Hs Hf.
  inversion H as [|e' l' He Hok|run l' Hc Hends Hsort Hok]; subst.
  - assert (G : sort_exprs_loop strip fuel (S i) l = l) by (apply IH; auto). destruct e; auto; discriminate.
  - destruct run as [|s r]; [destruct Hc|]. cbn [map app] in *. injection H0 as <- Hrest.
    cbn [is_chunk] in Hc. rewrite <- Hrest, (take_run_app r l') by auto.
    rewrite sort_chunk_id by auto.
    assert (Hsk : skipn (i + List.length (s :: r)) l = l').
    { rewrite Hl0, <- Hrest. change (EStr s :: map EStr r ++ l') with (map EStr (s :: r) ++ l').
      apply skipn_app2. rewrite map_length; lia. }
    assert (Hl : firstn i l ++ map EStr (s :: r) ++ skipn (i + List.length (s :: r)) l = l).
    { rewrite Hsk. cbn [map app]. rewrite Hrest. auto. }
    rewrite Hl. apply IH. rewrite Hsk. auto.
Qed.

Lemma sort_idem_nodup strip l : no_dup_in_chunks l ->
  all_chunks_sorted strip l (sort_string_exprs strip l) /\
  sort_string_exprs strip (sort_string_exprs strip l) = sort_string_exprs strip l.
Proof.
  intros Hn.
  assert (H : exists g, g = sort_string_exprs strip l /\ all_chunks_sorted strip l g).
  { unfold sort_string_exprs. destruct (Nat.ltb_spec (List.length l) 2) as [Hlt|Hge].
    - exists l. split; auto. destruct l as [|e [|]]; [constructor| |simpl in Hlt; lia].
      destruct (is_str e) eqn:He; [|repeat constructor; auto].
      destruct e as [| | | | | |s| | | | | | | | | | | | | | | | | | | | | | |]; try discriminate He.
      apply (ac_chunk strip [s] [s] [] []); try constructor; simpl; auto; try (repeat constructor); try tauto.
      exists s. auto.
    - destruct (sort_loop_nodup strip (List.length l) 0 l) as (g & H1 & H2); [lia|exact Hn|].
      exists g. rewrite H1. auto. }
  destruct H as (g & Hg & H). rewrite <- Hg. split; auto.
  unfold sort_string_exprs. destruct (Nat.ltb _ _); auto.
  apply sort_loop_id. exact (all_sorted_ok _ _ _ H).
Qed.

(** Consequences of [chunkwise]. *)
Lemma str_values_app a b : str_values (a ++ b) = str_values a ++ str_values b.
Proof. apply flat_map_app. Qed.
Lemma str_values_run run : str_values (map EStr run) = map s_value run.
Proof. induction run; simpl; auto. unfold str_values in *. rewrite IHrun; auto. Qed.
Lemma chunkwise_values strip l l' : chunkwise strip l l' -> forall v, In v (str_values l') <-> In v (str_values l).
Proof.
  induction 1 as [|e l l' H IH|run run' l l' H1 H2 H3 IH]; intros v; [tauto| |].
  - change (e :: l') with ([e] ++ l'). change (e :: l) with ([e] ++ l).
    rewrite !str_values_app, !in_app_iff, IH. tauto.
  - rewrite !str_values_app, !in_app_iff, !str_values_run, IH, (cr_values _ _ _ H2). tauto.
Qed.
Lemma filter_nonstr_run run : filter (fun e => negb (is_str e)) (map EStr run) = [].
Proof. induction run; simpl; auto. Qed.
Lemma chunkwise_nonstr strip l l' : chunkwise strip l l' ->
  filter (fun e => negb (is_str e)) l' = filter (fun e => negb (is_str e)) l.
Proof.
  induction 1 as [|e l l' H IH|run run' l l' H1 H2 H3 IH]; auto.
  - simpl. rewrite IH; auto.
  - rewrite !filter_app, !filter_nonstr_run, IH. auto.
Qed.

(** ** Deduplication *)
Lemma first_occurrence_cons e l i :
  first_occurrence (e :: l) (S i) <->
  (first_occurrence l i /\
   match e, nth_error l i with
   | EStr a, Some (EStr b) => s_value a <> s_value b
   | _, _ => True
   end).
Proof.
  unfold first_occurrence. cbn [nth_error].
  destruct (nth_error l i) as [x|]; [|tauto].
  destruct (is_str x) eqn:Hx.
  2: { destruct x; try discriminate Hx; destruct e; tauto. }
  destruct x as [| | | | | |s| | | | | | | | | | | | | | | | | | | | | | |]; try discriminate Hx.
  split.
  - intros H. split.
    + intros j s' Hj Hn. apply (H (S j)); auto. lia.
    + destruct e; auto. apply (H 0 s0); auto. lia.
  - intros [H1 H2] [|j] s' Hj Hn.
    + injection Hn as ->. auto.
    + apply (H1 j); auto. lia.
Qed.

(** [fresh seen l i]: like first_occurrence with earlier values [seen]. *)
Definition fresh (seen : list bytes) (l : list expr) (i : nat) : Prop :=
  first_occurrence l i /\
  match nth_error l i with Some (EStr s) => ~ In (s_value s) seen | _ => True end.

Lemma dedup_gen l : forall cs seen out,
  exists idx res cs' seen',
    fold_left dedup_step l (cs, seen, out) = (cs', seen', out ++ res) /\
    StronglySorted lt idx /\ (forall i, In i idx <-> fresh seen l i) /\
    Forall2 (fun i e => exists e0, nth_error l i = Some e0 /\ bare_expr e0 = bare_expr e) idx res.
Proof.
  induction l as [|x l IH]; intros cs seen out.
  - exists [], [], cs, seen. rewrite app_nil_r. split; [auto|]. split; [constructor|]. split; [|constructor].
    intros i. split; [intros []|]. intros [H _]. destruct i; exact H.
  - cbn [fold_left].
    assert (Hlift : forall idx res, Forall2 (fun i e => exists e0, nth_error l i = Some e0 /\ bare_expr e0 = bare_expr e) idx res ->
      Forall2 (fun i e => exists e0, nth_error (x :: l) i = Some e0 /\ bare_expr e0 = bare_expr e) (map S idx) res).
    { intros idx res H. induction H; constructor; auto. }
    assert (HliftS : forall idx, StronglySorted lt idx -> StronglySorted lt (map S idx)).
    { intros idx H. induction H; constructor; auto. rewrite Forall_forall in *. intros y Hy.
      apply in_map_iff in Hy as (z & <- & Hz). apply H0 in Hz. lia. }
    assert (HliftZ : forall idx, StronglySorted lt idx -> StronglySorted lt (0 :: map S idx)).
    { intros idx H. constructor; auto. rewrite Forall_forall. intros y Hy.
      apply in_map_iff in Hy as (z & <- & _). lia. }
    destruct (is_str x) eqn:Hx.
    + destruct x as [| | | | | |s| | | | | | | | | | | | | | | | | | | | | | |]; try discriminate Hx.
      cbn [dedup_step]. destruct (mem_bytes (s_value s) seen) eqn:Hm.
      * apply mem_bytes_In in Hm.
        destruct (IH (cs ++ c_before (s_com s) ++ c_after (s_com s)) seen out) as (idx & res & cs' & seen' & H1 & H2 & H3 & H4).
        exists (map S idx), res, cs', seen'. (split; [|split; [|split; [intros i; split; [intros H; split|]|]]]); auto.
        -- apply in_map_iff in H as (j & <- & Hj). apply H3 in Hj as [Hj1 Hj2].
           apply first_occurrence_cons. split; auto.
           destruct (nth_error l j) as [e|]; auto. destruct e; auto. intros E. rewrite E in Hm. auto.
        -- apply in_map_iff in H as (j & <- & Hj). apply H3 in Hj as [Hj1 Hj2]. auto.
        -- intros [Ha Hb]. destruct i as [|i]; [simpl in Hb; contradiction|].
           apply first_occurrence_cons in Ha as [Ha Ha']. cbn [nth_error] in Hb.
           apply in_map, H3. split; auto.
      * assert (Hnin : ~ In (s_value s) seen) by (rewrite <- mem_bytes_In, Hm; discriminate).
        set (v := match cs with [] => s | _ => set_before (cs ++ c_before (s_com s)) s end).
        destruct (IH [] (s_value s :: seen) (out ++ [EStr v])) as (idx & res & cs' & seen' & H1 & H2 & H3 & H4).
        exists (0 :: map S idx), (EStr v :: res), cs', seen'. (split; [|split; [|split; [intros i; split; [intros H; split|]|]]]); auto.
        -- rewrite H1, <- app_assoc. reflexivity.
        -- destruct H as [<-|H]; [intros j s' Hj; lia|].
           apply in_map_iff in H as (j & <- & Hj). apply H3 in Hj as [Hj1 Hj2].
           apply first_occurrence_cons. split; auto.
           destruct (nth_error l j) as [e|]; auto. destruct e; auto. simpl in Hj2. tauto.
        -- destruct H as [<-|H]; [auto|].
           apply in_map_iff in H as (j & <- & Hj). apply H3 in Hj as [Hj1 Hj2]. cbn [nth_error].
           destruct (nth_error l j) as [e|]; auto. destruct e; auto. simpl in Hj2. tauto.
        -- intros [Ha Hb]. destruct i as [|i]; [left; auto|right].
           apply first_occurrence_cons in Ha as [Ha Ha']. cbn [nth_error] in Hb.
           apply in_map, H3. split; auto.
           destruct (nth_error l i) as [e|]; auto. destruct e; auto. simpl; tauto.
        -- constructor; auto. exists (EStr s). split; auto. unfold v. destruct cs; auto.
    + assert (dedup_step (cs, seen, out) x = (cs, seen, out ++ [x])) as ->
        by (destruct x; try discriminate Hx; reflexivity).
      destruct (IH cs seen (out ++ [x])) as (idx & res & cs' & seen' & H1 & H2 & H3 & H4).
      exists (0 :: map S idx), (x :: res), cs', seen'. (split; [|split; [|split; [intros i; split; [intros H; split|]|]]]); auto.
      * rewrite H1, <- app_assoc. reflexivity.
      * destruct H as [<-|H]; [destruct x; try discriminate Hx; exact I|].
        apply in_map_iff in H as (j & <- & Hj). apply H3 in Hj as [Hj1 Hj2].
        apply first_occurrence_cons. split; auto. destruct x; auto; discriminate Hx.
      * destruct H as [<-|H]; [destruct x; try discriminate Hx; exact I|].
        apply in_map_iff in H as (j & <- & Hj). apply H3 in Hj as [Hj1 Hj2]. auto.
      * intros [Ha Hb]. destruct i as [|i]; [left; auto|right].
        apply first_occurrence_cons in Ha as [Ha Ha']. cbn [nth_error] in Hb.
        apply in_map, H3. split; auto.
      * constructor; auto. exists x. auto.
Qed.
Lemma dedup_firsts l : exists idx,
  StronglySorted lt idx /\ (forall i, In i idx <-> first_occurrence l i) /\
  Forall2 (fun i e => exists e0, nth_error l i = Some e0 /\ bare_expr e0 = bare_expr e) idx (deduplicate l).
Proof.
  destruct (dedup_gen l [] [] []) as (idx & res & cs' & seen' & H1 & H2 & H3 & H4).
  exists idx. unfold deduplicate, dedup_state. rewrite H1. cbn [snd app]. repeat split; auto.
  - intros H. apply H3 in H. apply H.
  - intros H. apply H3. split; auto. destruct (nth_error l i) as [e|]; auto. destruct e; auto.
Qed.

Lemma before_comments_app a b : before_comments (a ++ b) = before_comments a ++ before_comments b.
Proof. apply flat_map_app. Qed.
Lemma dedup_comments l : forall cs seen seen0 out, (forall v, In v seen <-> In v seen0) ->
  let '(cs', _, out') := fold_left dedup_step l (cs, seen, out) in
  before_comments out' ++ cs' = before_comments out ++ cs ++ line_comments seen0 l.
Proof.
  induction l as [|x l IH]; intros cs seen seen0 out Heq.
  - cbn. rewrite app_nil_r. auto.
  - cbn [fold_left]. destruct (is_str x) eqn:Hx.
    + destruct x as [| | | | | |s| | | | | | | | | | | | | | | | | | | | | | |]; try discriminate Hx.
      cbn [dedup_step line_comments].
      destruct (mem_bytes (s_value s) seen) eqn:Hm.
      * apply mem_bytes_In in Hm. destruct (in_dec _ _ _) as [Hi|Hi]; [|exfalso; apply Hi, Heq; auto].
        specialize (IH (cs ++ c_before (s_com s) ++ c_after (s_com s)) seen (s_value s :: seen0) out).
        destruct (fold_left _ _ _) as [[cs' ?] out']. rewrite IH; [rewrite <- !app_assoc; auto|].
        intros v. simpl. rewrite Heq. split; auto. intros [<-|]; auto.
      * assert (Hnin : ~ In (s_value s) seen) by (rewrite <- mem_bytes_In, Hm; discriminate).
        destruct (in_dec _ _ _) as [Hi|Hi]; [exfalso; apply Hnin, Heq; auto|].
        set (v := match cs with [] => s | _ => set_before (cs ++ c_before (s_com s)) s end).
        specialize (IH [] (s_value s :: seen) (s_value s :: seen0) (out ++ [EStr v])).
        destruct (fold_left _ _ _) as [[cs' ?] out']. rewrite IH.
        -- rewrite before_comments_app, <- app_assoc. f_equal. cbn [before_comments flat_map app].
           rewrite app_nil_r. unfold v. destruct cs; cbn [app]; auto. unfold before_of; simpl. rewrite <- app_assoc. reflexivity.
        -- intros w. simpl. rewrite Heq. tauto.
    + assert (dedup_step (cs, seen, out) x = (cs, seen, out ++ [x])) as ->
        by (destruct x; try discriminate Hx; reflexivity).
      assert (line_comments seen0 (x :: l) = line_comments seen0 l) as -> by (destruct x; try discriminate Hx; reflexivity).
      specialize (IH cs seen seen0 (out ++ [x]) Heq).
      destruct (fold_left _ _ _) as [[cs' ?] out']. rewrite IH, before_comments_app.
      replace (before_comments [x]) with (@nil comment); [rewrite app_nil_r; auto|].
      destruct x; try discriminate Hx; reflexivity.
Qed.
Lemma dedup_pending_nonstr l : forall cs seen out, (forall e, In e l -> is_str e = false) ->
  fold_left dedup_step l (cs, seen, out) = (cs, seen, out ++ l).
Proof.
  induction l as [|x l IH]; intros cs seen out H; [rewrite app_nil_r; auto|].
  cbn [fold_left]. specialize (H x) as Hx.
  assert (dedup_step (cs, seen, out) x = (cs, seen, out ++ [x])) as ->
    by (destruct x; try (discriminate Hx; left; auto); reflexivity).
  rewrite IH; [rewrite <- app_assoc; auto|]. intros e He. apply H. right; auto.
Qed.
Lemma dedup_seen l : forall cs seen out v,
  In v (snd (fst (fold_left dedup_step l (cs, seen, out)))) <-> In v seen \/ In v (str_values l).
Proof.
  induction l as [|x l IH]; intros cs seen out v; [simpl; tauto|]. cbn [fold_left].
  destruct (is_str x) eqn:Hx.
  - destruct x as [| | | | | |s| | | | | | | | | | | | | | | | | | | | | | |]; try discriminate Hx.
    cbn [dedup_step]. change (str_values (EStr s :: l)) with (s_value s :: str_values l).
    destruct (mem_bytes (s_value s) seen) eqn:Hm; rewrite IH; simpl; [|tauto].
    apply mem_bytes_In in Hm. split; [tauto|]. intros [?|[<-|?]]; auto.
  - assert (dedup_step (cs, seen, out) x = (cs, seen, out ++ [x])) as -> by (destruct x; try discriminate Hx; reflexivity).
    assert (str_values (x :: l) = str_values l) as -> by (destruct x; try discriminate Hx; reflexivity).
    apply IH.
Qed.
Lemma dedup_comments_kept a s b :
  ~ In (s_value s) (str_values a) -> (forall e, In e b -> is_str e = false) ->
  before_comments (deduplicate (a ++ EStr s :: b)) = line_comments [] (a ++ EStr s :: b).
Proof.
  intros Hs Hb.
  pose proof (dedup_comments (a ++ EStr s :: b) [] [] [] [] (fun v => iff_refl _)) as H.
  unfold deduplicate, dedup_state.
  pose proof (dedup_seen a [] [] [] (s_value s)) as Hseen.
  rewrite fold_left_app in *. cbn [fold_left] in *.
  destruct (fold_left dedup_step a ([], [], [])) as [[cs seen] out]. cbn [fst snd] in Hseen.
  cbn [dedup_step] in *. destruct (mem_bytes (s_value s) seen) eqn:Hm.
  - apply mem_bytes_In in Hm. apply Hseen in Hm as [[]|Hm]. contradiction.
  - rewrite dedup_pending_nonstr in * by auto. cbn [snd]. rewrite app_nil_r in H. exact H.
Qed.
