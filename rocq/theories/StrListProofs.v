From Verif Require Import Base BaseProofs Order Ast StrList StrListSpec.

(** ** The order *)
Definition val_less (strip : bool) (v w : bytes) : bool :=
  lex (fun x y => Nat.ltb (k_phase (make_key strip 0 (Str no_com no_pos x false no_pos []))) (k_phase (make_key strip 0 (Str no_com no_pos y false no_pos []))))
    (lex (fun x y => list_lt blt (split c_dot (dot_colons x)) (split c_dot (dot_colons y))) blt) v w.

Lemma swo_val_less strip : swo (val_less strip).
Proof.
  unfold val_less. apply swo_lex; [|apply swo_lex].
  - apply (swo_pull (fun x => k_phase (make_key strip 0 (Str no_com no_pos x false no_pos [])))), swo_nat.
  - apply (swo_pull (fun x => split c_dot (dot_colons x))), swo_list, swo_blt.
  - apply swo_blt.
Qed.
Lemma val_less_incomparable strip v w : val_less strip v w = false -> val_less strip w v = false -> v = w.
Proof.
  unfold val_less. intros H1 H2. apply lex_incomparable in H1 as (_ & _ & H1 & H2'); auto.
  apply lex_incomparable in H1 as (_ & _ & H1 & H3); auto. apply blt_incomparable; auto.
Qed.

Lemma split_first_list_lt a b :
  list_lt blt a b = match split_first a b with
                    | Some r => r
                    | None => Nat.ltb (List.length a) (List.length b) end.
Proof.
  revert b; induction a as [|x a IH]; intros [|y b]; simpl; auto.
  destruct (beq_spec x y) as [->|n].
  - rewrite blt_irrefl, IH. destruct (split_first a b); auto.
  - destruct (blt x y) eqn:E; auto. destruct (blt y x) eqn:F; auto.
    destruct n. apply blt_incomparable; auto.
Qed.
Lemma split_first_sym a b : split_first a b = None -> List.length a = List.length b -> a = b.
Proof.
  revert b; induction a as [|x a IH]; intros [|y b]; simpl; auto; try discriminate.
  destruct (beq_spec x y) as [->|n]; [|discriminate]. intros H1 H2. rewrite (IH b); auto.
Qed.
Lemma split_first_some a b r : split_first a b = Some r -> list_lt blt b a = negb r /\ list_lt blt a b = r.
Proof.
  revert b; induction a as [|x a IH]; intros [|y b]; simpl; try discriminate.
  destruct (beq_spec x y) as [->|n].
  - rewrite blt_irrefl. apply IH.
  - intros [= <-]. destruct (blt x y) eqn:E; simpl.
    + rewrite (blt_asym _ _ E). auto.
    + destruct (blt y x) eqn:F; auto. destruct n. apply blt_incomparable; auto.
Qed.
Lemma split_first_none a b : split_first a b = None ->
  list_lt blt b a = Nat.ltb (List.length b) (List.length a).
Proof.
  revert b; induction a as [|x a IH]; intros [|y b]; simpl; try discriminate; auto.
  destruct (beq_spec x y) as [->|n]; [|discriminate]. rewrite blt_irrefl. apply IH.
Qed.
Lemma nat_ltb_sym_neq a b : Nat.eqb a b = false -> Nat.ltb a b = negb (Nat.ltb b a).
Proof. intros H. apply Nat.eqb_neq in H. destruct (Nat.ltb_spec a b), (Nat.ltb_spec b a); simpl; auto; lia. Qed.

Lemma key_less_eq strip i a j b :
  key_less (make_key strip i a) (make_key strip j b) =
  if beq (s_value a) (s_value b) then Nat.ltb i j else val_less strip (s_value a) (s_value b).
Proof.
  unfold key_less, val_less, lex. unfold make_key; cbn [k_phase k_split k_value k_orig s_value].
  set (pa := if has_prefix %":" (s_value a) then _ else _).
  set (pb := if has_prefix %":" (s_value b) then _ else _).
  set (ca := split c_dot (dot_colons (s_value a))). set (cb := split c_dot (dot_colons (s_value b))).
  destruct (beq_spec (s_value a) (s_value b)) as [E|n].
  - assert (pa = pb) as -> by (unfold pa, pb; rewrite E; auto).
    assert (ca = cb) as -> by (unfold ca, cb; rewrite E; auto).
    rewrite Nat.eqb_refl; cbn [negb].
    assert (split_first cb cb = None) as ->.
    { clear. induction cb; simpl; auto. rewrite beq_refl. auto. }
    rewrite Nat.eqb_refl. cbn [negb]. reflexivity.
  - destruct (Nat.eqb pa pb) eqn:E; cbn [negb].
    + apply Nat.eqb_eq in E. rewrite E, Nat.ltb_irrefl.
      destruct (split_first ca cb) as [r|] eqn:F.
      * apply split_first_some in F as [F1 F2]. rewrite F1, F2. destruct r; auto.
      * rewrite (split_first_list_lt ca cb), F, (split_first_none _ _ F).
        destruct (Nat.eqb (List.length ca) (List.length cb)) eqn:G; cbn [negb].
        -- apply Nat.eqb_eq in G. rewrite G, Nat.ltb_irrefl. reflexivity.
        -- rewrite (nat_ltb_sym_neq _ _ G). destruct (Nat.ltb _ _); auto.
    + rewrite (nat_ltb_sym_neq _ _ E). destruct (Nat.ltb pb pa); auto.
Qed.

(** key_less is a strict weak order on all keys, total up to (phase, split, value, orig). *)
Definition key_lex : skey -> skey -> bool :=
  lex (fun x y => Nat.ltb (k_phase x) (k_phase y))
    (lex (fun x y => list_lt blt (k_split x) (k_split y))
      (lex (fun x y => blt (k_value x) (k_value y)) (fun x y => Nat.ltb (k_orig x) (k_orig y)))).
Lemma key_less_lex p q : key_less p q = key_lex p q.
Proof.
  unfold key_less, key_lex, lex.
  destruct (Nat.eqb (k_phase p) (k_phase q)) eqn:E; cbn [negb].
  - apply Nat.eqb_eq in E. rewrite E, Nat.ltb_irrefl.
    destruct (split_first (k_split p) (k_split q)) as [r|] eqn:F.
    + apply split_first_some in F as [F1 F2]. rewrite F1, F2. destruct r; auto.
    + rewrite split_first_list_lt, F, (split_first_none _ _ F).
      destruct (Nat.eqb (List.length (k_split p)) (List.length (k_split q))) eqn:G; cbn [negb].
      * apply Nat.eqb_eq in G. rewrite G, Nat.ltb_irrefl.
        destruct (beq_spec (k_value p) (k_value q)) as [->|n]; cbn [negb].
        -- rewrite blt_irrefl. auto.
        -- destruct (blt (k_value p) (k_value q)) eqn:H1; auto.
           destruct (blt (k_value q) (k_value p)) eqn:H2; auto.
           destruct n. apply blt_incomparable; auto.
      * rewrite (nat_ltb_sym_neq _ _ G). destruct (Nat.ltb _ _); auto.
  - rewrite (nat_ltb_sym_neq _ _ E). destruct (Nat.ltb (k_phase q) (k_phase p)); auto.
Qed.
Lemma swo_key_lex : swo key_lex.
Proof.
  unfold key_lex. repeat apply swo_lex.
  - apply (swo_pull k_phase), swo_nat.
  - apply (swo_pull k_split), swo_list, swo_blt.
  - apply (swo_pull k_value), swo_blt.
  - apply (swo_pull k_orig), swo_nat.
Qed.
Lemma swo_key_less : swo key_less.
Proof.
  pose proof swo_key_lex as H. split; intros *; rewrite !key_less_lex; [apply (swo_asym H)|apply (swo_ntrans H)].
Qed.
Lemma key_less_incomparable p q : key_less p q = false -> key_less q p = false ->
  k_phase p = k_phase q /\ k_split p = k_split q /\ k_value p = k_value q /\ k_orig p = k_orig q.
Proof.
  rewrite !key_less_lex. intros H1 H2. unfold key_lex in *.
  apply lex_incomparable in H1 as (A1 & A2 & H1 & H3); auto.
  apply lex_incomparable in H1 as (B1 & B2 & H1 & H4); auto.
  apply lex_incomparable in H1 as (C1 & C2 & H1 & H5); auto.
  repeat split.
  - apply nat_incomparable; auto.
  - apply (list_lt_incomparable blt blt_incomparable); auto.
  - apply blt_incomparable; auto.
  - apply nat_incomparable; auto.
Qed.

(** Prop-level reading of the order. *)
Lemma list_lt_lex_before {A} (lt : A -> A -> bool) (ltP : A -> A -> Prop) :
  (forall x y, lt x y = true <-> ltP x y) ->
  (forall x y, lt x y = false -> lt y x = false -> x = y) ->
  (forall x y, lt x y = true -> lt y x = false) ->
  forall a b, list_lt lt a b = true <-> lex_before ltP a b.
Proof.
  intros HP Hinc Hasym. assert (Hirr : forall x, lt x x = false).
  { intros x. destruct (lt x x) eqn:E; auto. rewrite (Hasym _ _ E) in E; discriminate. }
  induction a as [|x a IH]; intros [|y b]; simpl.
  - split; [discriminate|]. intros [(y & t & H)|(p & x & s & y & t & H1 & H2 & _)]; [discriminate|destruct p; discriminate].
  - split; auto. intros _. left. exists y, b. auto.
  - split; [discriminate|]. intros [(y & t & H)|(p & x' & s & y & t & H1 & H2 & _)]; [discriminate|destruct p; discriminate].
  - destruct (lt x y) eqn:E.
    + split; auto. intros _. right. exists [], x, a, y, b. rewrite <- HP. auto.
    + destruct (lt y x) eqn:F.
      * split; [discriminate|]. intros [(z & t & H)|(p & x' & s & z & t & H1 & H2 & H3)].
        -- injection H as -> _. rewrite Hirr in F. discriminate.
        -- destruct p; simpl in *; injection H1 as -> _; injection H2 as -> _.
           ++ apply HP in H3. congruence.
           ++ rewrite Hirr in F. discriminate.
      * pose proof (Hinc _ _ E F) as ->. rewrite IH. split.
        -- intros [(z & t & ->)|(p & x' & s & z & t & -> & -> & H3)].
           ++ left. exists z, t. auto.
           ++ right. exists (y :: p), x', s, z, t. auto.
        -- intros [(z & t & H)|(p & x' & s & z & t & H1 & H2 & H3)].
           ++ injection H as ->. left. eauto.
           ++ destruct p; simpl in *; injection H1; injection H2; intros; subst.
              ** apply HP in H3. congruence.
              ** right. exists p, x', s, z, t. auto.
Qed.
Lemma blt_list_lt a b : blt a b = list_lt (fun x y => (bN x <? bN y)%N) a b.
Proof.
  revert b; induction a as [|x a IH]; intros [|y b]; unfold blt in *; simpl; auto.
  destruct (N.compare_spec (bN x) (bN y)) as [E|E|E].
  - rewrite E, N.ltb_irrefl. apply IH.
  - apply N.ltb_lt in E. rewrite E. auto.
  - assert (bN x <? bN y = false)%N as -> by (apply N.ltb_ge; lia).
    apply N.ltb_lt in E. rewrite E. auto.
Qed.
Lemma blt_before a b : blt a b = true <-> bytes_before a b.
Proof.
  rewrite blt_list_lt. apply list_lt_lex_before.
  - intros; apply N.ltb_lt.
  - intros x y. rewrite !N.ltb_ge. intros. apply bN_inj. lia.
  - intros x y. rewrite N.ltb_lt, N.ltb_ge. lia.
Qed.
Lemma list_blt_before a b : list_lt blt a b = true <-> lex_before bytes_before a b.
Proof. apply list_lt_lex_before; [apply blt_before|apply blt_incomparable|apply blt_asym]. Qed.

Lemma dot_colons_id v : ~ In c_colon v -> dot_colons v = v.
Proof.
  induction v as [|x v IH]; simpl; auto. intros H. rewrite IH by tauto.
  destruct (Ascii.eqb_spec x c_colon); subst; auto. exfalso; auto.
Qed.
Lemma dot_colons_app a b : dot_colons (a ++ b) = dot_colons a ++ dot_colons b.
Proof. apply map_app. Qed.
Lemma components_fun v cs : components v cs -> cs = split c_dot (dot_colons v).
Proof.
  induction 1 as [v H1 H2|v sep rest cs H1 H2 H3 H4 IH].
  - rewrite dot_colons_id by auto. rewrite split_none; auto.
  - rewrite dot_colons_app, dot_colons_id by auto. simpl.
    assert ((if Ascii.eqb sep c_colon then c_dot else sep) = c_dot) as ->
      by (destruct H3; subst; reflexivity).
    rewrite split_app by auto. congruence.
Qed.
Lemma components_split v : components v (split c_dot (dot_colons v)).
Proof.
  remember (List.length v) as n eqn:E. revert v E.
  induction n as [n IH] using lt_wf_ind. intros v ->.
  assert (D : (~ In c_dot v /\ ~ In c_colon v) \/
    exists a sep r, v = a ++ sep :: r /\ ~ In c_dot a /\ ~ In c_colon a /\ (sep = c_dot \/ sep = c_colon)).
  { clear. induction v as [|x v IH]; [left; simpl; tauto|].
    destruct (Ascii.eqb_spec x c_dot) as [->|n1]; [right; exists [], c_dot, v; simpl; auto|].
    destruct (Ascii.eqb_spec x c_colon) as [->|n2]; [right; exists [], c_colon, v; simpl; auto|].
    destruct IH as [[H1 H2]|(a & sep & r & -> & H1 & H2 & H3)].
    - left. simpl. intuition congruence.
    - right. exists (x :: a), sep, r. simpl. intuition congruence. }
  destruct D as [[H1 H2]|(a & sep & r & -> & H1 & H2 & H3)].
  - rewrite dot_colons_id by auto. rewrite split_none by auto. constructor; auto.
  - rewrite dot_colons_app, dot_colons_id by auto. simpl.
    assert ((if Ascii.eqb sep c_colon then c_dot else sep) = c_dot) as E
      by (destruct H3; subst; reflexivity). rewrite E.
    rewrite split_app by auto. constructor; auto. eapply IH; eauto. rewrite app_length; simpl; lia.
Qed.
Lemma phase_of_key strip i s : k_phase (make_key strip i s) = phase_of strip (s_value s).
Proof.
  unfold make_key; cbn [k_phase]. destruct (s_value s) as [|c r]; cbn [phase_of].
  - destruct strip; reflexivity.
  - cbn [has_prefix B list_ascii_of_string]. rewrite !andb_true_r.
    rewrite (Ascii.eqb_sym c c_colon), (Ascii.eqb_sym c c_at), (Ascii.eqb_sym c c_slash).
    change ":"%char with c_colon; change "/"%char with c_slash; change "@"%char with c_at.
    destruct (Ascii.eqb_spec c_colon c) as [<-|n1]; auto.
    destruct (Ascii.eqb_spec c_at c) as [<-|n2]; cbn [negb andb].
    + cbn. rewrite !andb_false_r. reflexivity.
    + rewrite andb_true_r. destruct strip; [rewrite orb_true_r; reflexivity|].
      rewrite orb_false_r. destruct r as [|d r]; [rewrite andb_false_r; reflexivity|].
      rewrite andb_true_r, (Ascii.eqb_sym d c_slash). destruct (_ && _); reflexivity.
Qed.
Lemma val_less_before strip v w : val_less strip v w = true <-> str_before strip v w.
Proof.
  unfold val_less, lex. rewrite !phase_of_key; cbn [s_value].
  unfold str_before. set (pv := phase_of strip v). set (pw := phase_of strip w).
  set (cv := split c_dot (dot_colons v)). set (cw := split c_dot (dot_colons w)).
  assert (EX : forall P : list bytes -> list bytes -> Prop,
    (exists a b, components v a /\ components w b /\ P a b) <-> P cv cw).
  { intros P. split.
    - intros (a & b & H1 & H2 & H3). apply components_fun in H1, H2. subst; auto.
    - intros H. exists cv, cw. split; [apply components_split|]. split; [apply components_split|auto]. }
  rewrite (EX (fun a b => lex_before bytes_before a b \/ a = b /\ bytes_before v w)). clear EX.
  rewrite <- list_blt_before, <- blt_before.
  destruct (Nat.ltb_spec pv pw); [split; auto|].
  destruct (Nat.ltb_spec pw pv); [split; [discriminate|lia]|].
  destruct (list_lt blt cv cw) eqn:E1; [split; auto; intros _; right; split; [lia|auto]|].
  destruct (list_lt blt cw cv) eqn:E2.
  - split; [discriminate|]. intros [?|[_ [?|[H' _]]]]; [lia|discriminate|].
    rewrite H' in E2. rewrite (swo_irrefl _ (swo_list _ swo_blt)) in E2. discriminate.
  - pose proof (list_lt_incomparable blt blt_incomparable _ _ E1 E2) as ->.
    split.
    + intros. right. split; [lia|auto].
    + intros [?|[_ [?|[_ ?]]]]; [lia|discriminate|auto].
Qed.
