From Verif Require Import Base BaseProofs Utf8 Quote QuoteProofs.

(** Body of a single-quoted literal as the scanner accepts it. *)
Fixpoint single_ok (q : ascii) (s : bytes) : bool :=
  match s with
  | [] => true
  | c :: s1 =>
      if ceq c c_nl then false else if ceq c q then false
      else if ceq c c_bs then match s1 with [] => false | _ :: s2 => single_ok q s2 end
      else single_ok q s1
  end.
(** Every backslash has a following byte, reading from the left. *)
Fixpoint balanced (s : bytes) : bool :=
  match s with
  | [] => true
  | c :: s1 =>
      if ceq c c_bs then match s1 with [] => false | _ :: s2 => balanced s2 end
      else balanced s1
  end.

Ltac len_ind s IH :=
  induction s as [s IH] using (well_founded_induction (Wf_nat.well_founded_ltof _ (@List.length ascii)));
  unfold Wf_nat.ltof in IH.

Lemma bscan_single_shape q s rest :
  bscan_single q s = Some rest -> exists body, s = body ++ q :: rest /\ single_ok q body = true.
Proof.
  len_ind s IH. destruct s as [|c s]; [discriminate|]. cbn [bscan_single].
  destruct (ceq c c_nl) eqn:E1; [discriminate|].
  destruct (ceq c q) eqn:E2.
  { intros [= ->]. unfold ceq in E2. apply Ascii.eqb_eq in E2; subst. exists []. auto. }
  destruct (ceq c c_bs) eqn:E3.
  { destruct s as [|d s]; [discriminate|]. intros H.
    destruct (IH s) as (b & -> & Hb); [simpl; lia|auto|].
    exists (c :: d :: b). split; auto. cbn [single_ok]. rewrite E1, E2, E3. auto. }
  intros H. destruct (IH s) as (b & -> & Hb); [simpl; lia|auto|].
  exists (c :: b). split; auto. cbn [single_ok]. rewrite E1, E2, E3. auto.
Qed.
Lemma bscan_single_ok q body rest : ceq q c_nl = false ->
  single_ok q body = true -> bscan_single q (body ++ q :: rest) = Some rest.
Proof.
  intros Hq. len_ind body IH. destruct body as [|c s]; intros H.
  { cbn [app bscan_single]. rewrite Hq. unfold ceq. rewrite ascii_eqb_refl. auto. }
  cbn [app bscan_single]. cbn [single_ok] in H.
  destruct (ceq c c_nl); [discriminate|]. destruct (ceq c q); [discriminate|].
  destruct (ceq c c_bs).
  - destruct s as [|d s]; [discriminate|]. cbn [app]. apply IH; auto. simpl; lia.
  - apply IH; auto.
Qed.

Lemma single_ok_swap q q' body :
  single_ok q body = true -> ~ In q' body -> single_ok q' body = true.
Proof.
  len_ind body IH. destruct body as [|c s]; auto. cbn [single_ok]. intros H Hn.
  destruct (ceq c c_nl); [discriminate|]. destruct (ceq c q); [discriminate|].
  unfold ceq at 1. destruct (Ascii.eqb_spec c q') as [->|]; [exfalso; apply Hn; left; auto|].
  destruct (ceq c c_bs).
  - destruct s as [|d s]; [discriminate|]. apply IH; [simpl; lia|auto|]. intros HI; apply Hn; simpl; auto.
  - apply IH; [simpl; lia|auto|]. intros HI; apply Hn; simpl; auto.
Qed.

Lemma single_ok_not_qq q b : ceq q c_bs = false -> single_ok q (b ++ [q; q]) = false.
Proof.
  intros Hq. len_ind b IH. destruct b as [|c s].
  { cbn. rewrite ascii_eqb_refl. destruct (ceq q c_nl); auto. }
  cbn [app single_ok]. destruct (ceq c c_nl); auto. destruct (ceq c q); auto.
  destruct (ceq c c_bs).
  - destruct s as [|d s]; cbn [app].
    + cbn. rewrite ascii_eqb_refl. destruct (ceq q c_nl); auto.
    + apply IH; simpl; lia.
  - apply IH; simpl; lia.
Qed.

Lemma bscan_triple_shape q s rest : ceq c_bs q = false -> forall b2 b3,
  bscan_triple q b2 b3 s = Some rest ->
  (s = q :: rest /\ b2 = true /\ b3 = true) \/
  (s = q :: q :: rest /\ b3 = true) \/
  (exists body, s = body ++ q :: q :: q :: rest /\ balanced body = true).
Proof.
  intros Hq. len_ind s IH. intros b2 b3.
  destruct s as [|c s]; [discriminate|]. cbn [bscan_triple].
  destruct (b2 && b3 && ceq c q) eqn:E2.
  { intros [= ->]. apply andb_true_iff in E2 as [E2 E2']. unfold ceq in E2'. apply Ascii.eqb_eq in E2'; subst.
    apply andb_true_iff in E2 as [-> ->]. auto. }
  destruct (ceq c c_bs) eqn:E3.
  { destruct s as [|d s]; [discriminate|]. intros H.
    destruct (IH s) with (b2 := b3) (b3 := false) as [(_ & _ & ?)|[(_ & ?)|(b & -> & Hb)]]; [simpl; lia|auto|discriminate..|].
    right; right. exists (c :: d :: b). split; auto. cbn [balanced]. rewrite E3. auto. }
  intros H. destruct (IH s) with (b2 := b3) (b3 := ceq c q) as [(-> & -> & Hc)|[(-> & Hc)|(b & -> & Hb)]]; [simpl; lia|auto|..].
  - unfold ceq in Hc. apply Ascii.eqb_eq in Hc; subst. auto.
  - unfold ceq in Hc. apply Ascii.eqb_eq in Hc; subst. right; right. exists []. auto.
  - right; right. exists (c :: b). split; auto. cbn [balanced]. rewrite E3. auto.
Qed.

Lemma bscan_triple_fresh q body rest : ceq q c_bs = false ->
  balanced body = true -> ~ In q body -> forall b2,
  bscan_triple q b2 false (body ++ q :: q :: q :: rest) = Some rest.
Proof.
  intros Hq. len_ind body IH. destruct body as [|c s]; intros Hb Hn b2.
  { cbn. unfold ceq in *. rewrite ascii_eqb_refl, Hq. destruct b2; cbn; auto. }
  cbn [app bscan_triple]. cbn [balanced] in Hb. rewrite andb_false_r. cbn [andb].
  destruct (ceq c c_bs).
  - destruct s as [|d s]; [discriminate|]. cbn [app]. apply IH; auto; [simpl; lia|].
    intros HI; apply Hn; simpl; auto.
  - unfold ceq. destruct (Ascii.eqb_spec c q) as [->|]; [exfalso; apply Hn; left; auto|].
    apply IH; auto. intros HI; apply Hn; simpl; auto.
Qed.

(** ** The shape of scanned literals *)
Definition qs (t : bool) (q : ascii) : bytes := if t then [q; q; q] else [q].
Definition rawp (raw : bool) : bytes := if raw then %"r" else [].
Definition body_ok (t : bool) (q : ascii) (body : bytes) : bool :=
  if t then balanced body else single_ok q body.

Lemma is_q_facts q : is_q q = true ->
  ceq c_bs q = false /\ ceq q c_bs = false /\ ceq q c_nl = false /\ ceq q "r" = false.
Proof.
  unfold is_q, ceq. intros H. apply orb_true_iff in H as [H|H]; apply Ascii.eqb_eq in H; subst; repeat split.
Qed.

Lemma bscan_quoted_shape s rest : bscan_quoted s = Some rest ->
  exists q t body, is_q q = true /\ s = qs t q ++ body ++ qs t q ++ rest /\ body_ok t q body = true.
Proof.
  destruct s as [|q s1]; [discriminate|]. cbn [bscan_quoted].
  destruct (is_q q) eqn:Eq; [|discriminate]. cbn [negb].
  destruct (is_q_facts q Eq) as (F1 & F2 & F3 & F4).
  assert (G : bscan_single q s1 = Some rest -> exists q0 t body, is_q q0 = true /\
     q :: s1 = qs t q0 ++ body ++ qs t q0 ++ rest /\ body_ok t q0 body = true).
  { intros H. apply bscan_single_shape in H as (b & -> & Hb). exists q, false, b. auto. }
  destruct s1 as [|a [|b s3]]; auto.
  destruct (ceq a q && ceq b q) eqn:E; auto.
  intros H. apply andb_true_iff in E as [Ea Eb]. unfold ceq in Ea, Eb. apply Ascii.eqb_eq in Ea, Eb; subst.
  apply bscan_triple_shape in H as [(_ & ? & _)|[(_ & ?)|(b & -> & Hb)]]; try discriminate; auto.
  exists q, true, b. auto.
Qed.

Lemma scan_shape s rest : scan_string s = Some rest ->
  exists raw q t body, is_q q = true /\ s = (rawp raw ++ qs t q ++ body ++ qs t q) ++ rest /\ body_ok t q body = true.
Proof.
  rewrite scan_string_bytes.
  assert (G : forall s, bscan_quoted s = Some rest ->
    exists raw q t body, is_q q = true /\ s = (rawp raw ++ qs t q ++ body ++ qs t q) ++ rest /\ body_ok t q body = true).
  { intros s0 H. apply bscan_quoted_shape in H as (q & t & b & H1 & -> & H3). exists false, q, t, b.
    rewrite <- !app_assoc. auto. }
  destruct s as [|c [|c' s]]; try apply G.
  destruct (ceq c "r" && is_q c') eqn:E; [|apply G].
  apply andb_true_iff in E as [E _]. unfold ceq in E. apply Ascii.eqb_eq in E; subst.
  cbn [skipn]. intros H. apply bscan_quoted_shape in H as (q & t & b & H1 & -> & H3).
  exists true, q, t, b. rewrite <- !app_assoc. auto.
Qed.

(** Conversely, well-shaped literals are scanned entirely. *)
Lemma bscan_quoted_local q t body rest :
  is_q q = true -> body_ok t q body = true -> (t = true -> ~ In q body) -> head_is q rest = false ->
  bscan_quoted (qs t q ++ body ++ qs t q ++ rest) = Some rest.
Proof.
  intros Hq Hb Hn Hr. destruct (is_q_facts q Hq) as (F1 & F2 & F3 & F4).
  destruct t; cbn [qs app body_ok] in *.
  - unfold bscan_quoted. rewrite Hq. cbn [negb]. unfold ceq. rewrite !ascii_eqb_refl. cbn [andb].
    specialize (Hn eq_refl). apply bscan_triple_fresh; auto.
  - unfold bscan_quoted. rewrite Hq. cbn [negb]. rewrite bscan_single_ok by auto.
    destruct body as [|h body].
    + cbn [app]. destruct rest as [|r0 rest]; auto. simpl in Hr. rewrite Hr, andb_false_r. auto.
    + cbn [single_ok] in Hb. destruct (ceq h c_nl); [discriminate|]. destruct (ceq h q) eqn:E; [discriminate|].
      cbn [app]. destruct (body ++ q :: rest); auto. rewrite E. auto.
Qed.

Lemma scan_raw_prefix raw s rest : (forall c s', s = c :: s' -> is_q c = true) ->
  bscan_quoted s = Some rest -> scan_string (rawp raw ++ s) = Some rest.
Proof.
  intros Hs H. rewrite scan_string_bytes. destruct s as [|c s]; [discriminate|].
  specialize (Hs _ _ eq_refl). destruct raw; cbn [rawp app].
  - cbn [B list_ascii_of_string app skipn]. rewrite Hs.
    change (ceq "r" "r") with true. exact H.
  - destruct s as [|c' s]; auto. destruct (is_q_facts c Hs) as (_ & _ & _ & ->). auto.
Qed.

Lemma firstn_sub_app {A} (a b : list A) : firstn (List.length (a ++ b) - List.length b) (a ++ b) = a.
Proof. rewrite app_length. replace (_ + _ - _) with (List.length a) by lia. apply firstn_app_exact. Qed.

(** Unquoting well-shaped literals. *)
Lemma unquote_raw q t body :
  is_q q = true -> body_ok t q body = true ->
  unquote (%"r" ++ qs t q ++ body ++ qs t q) = (body, t, None).
Proof.
  intros Hq Hb. destruct (is_q_facts q Hq) as (F1 & F2 & F3 & F4).
  unfold unquote. change (has_prefix %"r" (%"r" ++ qs t q ++ body ++ qs t q)) with true.
  cbv iota. cbn [B list_ascii_of_string app skipn].
  assert (Herr : forall lc, lc = q -> (if negb (ceq q c_quote) && negb (ceq q c_sq) || negb (ceq q lc) then Some ErrBadQuotes else None) = None).
  { intros lc ->. unfold ceq at 3. rewrite ascii_eqb_refl. cbn [negb]. rewrite orb_false_r.
    unfold is_q in Hq. apply orb_true_iff in Hq as [-> | ->]; auto. rewrite andb_false_r; auto. }
  destruct t; cbn [qs app].
  - rewrite Herr.
    2:{ change (body ++ [q;q;q]) with (body ++ [q;q] ++ [q]). rewrite app_assoc.
        apply (last_app_one (q :: q :: q :: body ++ [q;q])). }
    assert (Hlen : List.length (q :: q :: q :: body ++ [q; q; q]) = 6 + List.length body).
    { cbn [List.length]. rewrite app_length. cbn [List.length]. lia. }
    assert (Hs : skipn (List.length (q :: q :: q :: body ++ [q; q; q]) - 3) (q :: q :: q :: body ++ [q; q; q]) = [q;q;q]).
    { rewrite Hlen. replace (6 + List.length body - 3) with (List.length (q::q::q::body)) by (simpl; lia).
      apply (skipn_app_exact (q::q::q::body)). }
    rewrite Hs, Hlen. cbn [nth firstn]. unfold ceq. rewrite !ascii_eqb_refl, beq_refl.
    replace (6 <=? 6 + List.length body) with true by (symmetry; apply Nat.leb_le; lia).
    cbn [andb orb skipn].
    replace (6 + List.length body - 6) with (List.length body) by lia.
    rewrite firstn_app_exact. reflexivity.
  - destruct (body ++ [q]) as [|b0 b] eqn:E; [destruct body; discriminate|]. rewrite <- E. clear E.
    rewrite Herr by (apply (last_app_one (q :: body))).
    assert (Ht : (6 <=? List.length (q :: body ++ [q])) && ceq (nth 1 (q :: body ++ [q]) "000"%char) q &&
        ceq (nth 2 (q :: body ++ [q]) "000"%char) q &&
        beq (firstn 3 (q :: body ++ [q])) (skipn (List.length (q :: body ++ [q]) - 3) (q :: body ++ [q])) = false).
    { destruct body as [|h t]; [destruct (ceq (nth 1 (q :: [] ++ [q]) "000"%char) q); reflexivity|].
      cbn [app nth]. cbn [body_ok single_ok] in Hb.
      destruct (ceq h c_nl); [discriminate|]. destruct (ceq h q); [discriminate|].
      rewrite andb_false_r. reflexivity. }
    rewrite Ht. cbn [orb skipn].
    replace (List.length (q :: body ++ [q]) - 2) with (List.length body)
      by (cbn [List.length]; rewrite app_length; cbn [List.length]; lia).
    rewrite firstn_app_exact. reflexivity.
Qed.

Lemma unquote_nonraw q t body v t' :
  is_q q = true -> body_ok t q body = true ->
  unquote (qs t q ++ body ++ qs t q) = (v, t', None) -> t' = t.
Proof.
  intros Hq Hb.
  assert (Hq' : q = c_quote \/ q = c_sq).
  { unfold is_q, ceq in Hq. apply orb_true_iff in Hq as [Hq|Hq]; apply Ascii.eqb_eq in Hq; auto. }
  destruct t; cbn [qs app].
  - rewrite unquote_triple_body by auto. destruct (contains_byte c_bs body); cbn [negb].
    + destruct (unescape body); congruence.
    + congruence.
  - rewrite unquote_single_body; auto.
    + destruct (contains_byte c_bs body); cbn [negb]; [destruct (unescape body)|]; congruence.
    + destruct body as [|h body]; auto. cbn [body_ok single_ok] in Hb.
      destruct (ceq h c_nl); [discriminate|]. unfold ceq in Hb. destruct (Ascii.eqb_spec h q); [discriminate|auto].
Qed.

(** ** Literals that can come out of the lexer *)
Definition lexed (tok v : bytes) (t : bool) : Prop :=
  exists rest, lex_string (tok ++ rest) = Some (tok, v, t, rest).

Lemma lexed_shape tok v t : lexed tok v t ->
  unquote tok = (v, t, None) /\
  exists raw q body, is_q q = true /\ tok = rawp raw ++ qs t q ++ body ++ qs t q /\ body_ok t q body = true /\
    (raw = true -> v = body).
Proof.
  intros (rest & H). unfold lex_string in H.
  destruct (scan_string (tok ++ rest)) as [rest'|] eqn:E; [|discriminate].
  destruct (unquote (firstn _ (tok ++ rest))) as [[v' t'] e] eqn:Eu.
  destruct e; [discriminate|]. injection H as H1 H2 H3 H4. subst v' t' rest'.
  rewrite firstn_sub_app in Eu. split; auto.
  apply scan_shape in E as (raw & q & t0 & body & Hq & Es & Hb).
  apply app_inv_tail in Es. subst tok.
  destruct raw; cbn [rawp app] in *.
  - pose proof (unquote_raw q t0 body Hq Hb) as Hu. cbn in Hu. cbn in Eu. rewrite Hu in Eu.
    injection Eu as <- <-. exists true, q, body. auto.
  - pose proof (unquote_nonraw q t0 body v t Hq Hb Eu) as ->.
    exists false, q, body. repeat split; auto. discriminate.
Qed.

Lemma no_quote_start_head q rest : is_q q = true ->
  (head_is c_quote rest = false /\ head_is c_sq rest = false) -> head_is q rest = false.
Proof.
  intros Hq [H1 H2]. unfold is_q, ceq in Hq. apply orb_true_iff in Hq as [Hq|Hq]; apply Ascii.eqb_eq in Hq; subst; auto.
Qed.

(** Locality for whole tokens. *)
Lemma bscan_triple_relocate q s rest rest' : ceq c_bs q = false -> forall b2 b3 p,
  s = p ++ rest -> bscan_triple q b2 b3 s = Some rest -> bscan_triple q b2 b3 (p ++ rest') = Some rest'.
Proof.
  intros Hq b2 b3 p -> H. apply bscan_triple_local in H as (tok & E & Ht); auto.
  change (q :: rest) with ([q] ++ rest) in E. rewrite app_assoc in E. apply app_inv_tail in E. subst p.
  rewrite <- app_assoc. apply Ht.
Qed.

Lemma lexed_relocate tok v t rest' : lexed tok v t ->
  head_is c_quote rest' = false -> head_is c_sq rest' = false ->
  lex_string (tok ++ rest') = Some (tok, v, t, rest').
Proof.
  intros Hl Hr1 Hr2. pose proof (lexed_shape _ _ _ Hl) as (Hu & raw & q & body & Hq & -> & Hb & _).
  destruct Hl as (rest & Hl).
  assert (Hs : scan_string ((rawp raw ++ qs t q ++ body ++ qs t q) ++ rest) = Some rest).
  { unfold lex_string in Hl. destruct (scan_string _) as [r|]; [|discriminate].
    destruct (unquote (firstn _ _)) as [[v' t'] e]. destruct e; [discriminate|]. injection Hl as H1 H2 H3 H4. rewrite H4; reflexivity. }
  assert (G : scan_string ((rawp raw ++ qs t q ++ body ++ qs t q) ++ rest') = Some rest').
  { destruct (is_q_facts q Hq) as (F1 & F2 & F3 & F4).
    rewrite <- app_assoc. apply scan_raw_prefix.
    { intros c s' E. destruct t; cbn in E; injection E as <- _; auto. }
    destruct t.
    - assert (Hs' : bscan_triple q false false (body ++ qs true q ++ rest) = Some rest).
      { rewrite scan_string_bytes in Hs. destruct raw; cbn [rawp app] in Hs.
        - cbn in Hs. rewrite Hq in Hs. cbn in Hs. unfold ceq in Hs. rewrite !ascii_eqb_refl in Hs. cbn in Hs.
          rewrite <- app_assoc in Hs. exact Hs.
        - cbn [qs app] in Hs. rewrite F4 in Hs. cbn [andb] in Hs. unfold bscan_quoted in Hs.
          rewrite Hq in Hs. cbn [negb] in Hs. unfold ceq in Hs. rewrite !ascii_eqb_refl in Hs. cbn [andb] in Hs.
          rewrite <- app_assoc in Hs. exact Hs. }
      cbn [qs app]. unfold bscan_quoted. rewrite Hq. cbn [negb]. unfold ceq. rewrite !ascii_eqb_refl. cbn [andb].
      apply (bscan_triple_relocate q (body ++ qs true q ++ rest) rest rest' F1 false false (body ++ qs true q)).
      + rewrite <- app_assoc. auto.
      + exact Hs'.
    - rewrite <- !app_assoc. apply bscan_quoted_local; auto; [discriminate|].
      apply no_quote_start_head; auto. }
  unfold lex_string. rewrite G, firstn_sub_app, Hu. auto.
Qed.

(** ** Printing *)
Lemma has_suffix_qs c t q pre body : has_suffix [c] (pre ++ qs t q ++ body ++ qs t q) = ceq c q.
Proof.
  assert (E : exists l, pre ++ qs t q ++ body ++ qs t q = l ++ [q]).
  { exists (pre ++ qs t q ++ body ++ (if t then [q; q] else [])). rewrite <- !app_assoc. do 3 f_equal.
    destruct t; auto. }
  destruct E as (l & ->). unfold has_suffix. rewrite rev_app_distr. cbn. rewrite andb_true_r. auto.
Qed.

Theorem print_lexed value triple tok :
  lexed tok value triple ->
  (print_string value triple tok = Panic /\ is_correct_escaping tok = None) \/
  exists p, print_string value triple tok = Ok p /\
    forall rest, head_is c_quote rest = false -> head_is c_sq rest = false ->
      lex_string (p ++ rest) = Some (p, value, triple, rest).
Proof.
  intros Hl. pose proof (lexed_shape _ _ _ Hl) as (Hu & raw & q & body & Hq & E & Hb & Hraw).
  unfold print_string. rewrite Hu. cbn [uerr_none andb]. rewrite beq_refl, eqb_reflx. cbn [andb].
  assert (Hfresh : exists p, Ok (quote value triple) = Ok p /\
    forall rest, head_is c_quote rest = false -> head_is c_sq rest = false ->
      lex_string (p ++ rest) = Some (p, value, triple, rest)).
  { eexists; split; [reflexivity|]. intros rest H1 H2. apply lex_quote; auto. }
  assert (Htok : exists p, Ok tok = Ok p /\
    forall rest, head_is c_quote rest = false -> head_is c_sq rest = false ->
      lex_string (p ++ rest) = Some (p, value, triple, rest)).
  { eexists; split; [reflexivity|]. intros rest H1 H2. apply lexed_relocate; auto. }
  destruct (has_prefix %"r" tok) eqn:Er.
  - assert (raw = true) as ->.
    { destruct raw; auto. subst tok. destruct (is_q_facts q Hq) as (_ & _ & _ & F).
      destruct triple; cbn [rawp qs app B list_ascii_of_string has_prefix] in Er; unfold ceq in F; rewrite Ascii.eqb_sym, F in Er; discriminate. }
    specialize (Hraw eq_refl). subst body.
    destruct (has_suffix [c_sq] tok && negb (contains_byte c_quote value)) eqn:Es; [|right; auto].
    apply andb_true_iff in Es as [Es Ec]. apply negb_true_iff in Ec.
    assert (Hn : ~ In c_quote value) by (rewrite <- contains_byte_In; congruence).
    rewrite E, has_suffix_qs in Es. unfold ceq in Es. apply Ascii.eqb_eq in Es. subst q.
    assert (Hswap : body_ok triple c_quote value = true).
    { destruct triple; cbn [body_ok] in *; auto. eapply single_ok_swap; eauto. }
    right.
    assert (Hnew : forall rest, head_is c_quote rest = false -> head_is c_sq rest = false ->
      lex_string ((%"r" ++ qs triple c_quote ++ value ++ qs triple c_quote) ++ rest) =
      Some (%"r" ++ qs triple c_quote ++ value ++ qs triple c_quote, value, triple, rest)).
    { intros rest H1 H2. unfold lex_string.
      assert (scan_string ((%"r" ++ qs triple c_quote ++ value ++ qs triple c_quote) ++ rest) = Some rest) as ->.
      { rewrite <- app_assoc. apply (scan_raw_prefix true).
        - intros c s' Ec'. destruct triple; cbn in Ec'; injection Ec' as <- _; auto.
        - rewrite <- !app_assoc. apply bscan_quoted_local; auto. }
      rewrite firstn_sub_app, unquote_raw by auto. auto. }
    destruct triple.
    + assert (Hs3 : has_suffix [c_sq; c_sq; c_sq] tok = true).
      { apply has_suffix_spec. exists (%"r" ++ qs true c_sq ++ value). rewrite E.
        cbn [rawp]. rewrite <- !app_assoc. reflexivity. }
      rewrite Hs3.
      assert (Hlen : List.length tok = 7 + List.length value).
      { rewrite E. cbn. rewrite app_length. cbn. lia. }
      destruct (Nat.ltb_spec (List.length tok) 3); [lia|].
      unfold slice. rewrite Hlen.
      replace (4 <=? 7 + List.length value - 3) with true by (symmetry; apply Nat.leb_le; lia).
      replace (7 + List.length value - 3 <=? 7 + List.length value) with true by (symmetry; apply Nat.leb_le; lia).
      cbn [andb].
      replace (firstn (7 + List.length value - 3 - 4) (skipn 4 tok)) with value.
      2:{ rewrite E. cbn [rawp qs B list_ascii_of_string app skipn].
          rewrite <- (firstn_app_exact value [c_sq;c_sq;c_sq]) at 1. f_equal; lia. }
      eexists; split; [reflexivity|]. exact Hnew.
    + assert (Hs3 : has_suffix [c_sq; c_sq; c_sq] tok = false).
      { destruct (has_suffix [c_sq; c_sq; c_sq] tok) eqn:Es3; auto.
        apply has_suffix_spec in Es3 as (l & El). rewrite E in El.
        change [c_sq; c_sq; c_sq] with ([c_sq; c_sq] ++ [c_sq]) in El.
        cbn [rawp qs] in El. rewrite !app_assoc in El. apply app_inj_tail in El as [El _].
        cbn in El. destruct l as [|x l]; [discriminate|]. cbn in El. injection El as _ El.
        destruct l as [|y l]; cbn in El.
        - injection El as El. rewrite El in Hb. discriminate.
        - injection El as _ El. rewrite El in Hb. cbn [body_ok] in Hb.
          rewrite single_ok_not_qq in Hb by reflexivity. discriminate. }
      rewrite Hs3.
      assert (Hlen : List.length tok = 3 + List.length value).
      { rewrite E. cbn. rewrite app_length. cbn. lia. }
      unfold slice. rewrite Hlen.
      replace (2 <=? 3 + List.length value - 1) with true by (symmetry; apply Nat.leb_le; lia).
      replace (3 + List.length value - 1 <=? 3 + List.length value) with true by (symmetry; apply Nat.leb_le; lia).
      cbn [andb].
      replace (firstn (3 + List.length value - 1 - 2) (skipn 2 tok)) with value.
      2:{ rewrite E. cbn [rawp qs B list_ascii_of_string app skipn].
          rewrite <- (firstn_app_exact value [c_sq]) at 1. f_equal; lia. }
      eexists; split; [reflexivity|]. exact Hnew.
  - destruct (has_prefix [c_quote] tok || contains_byte c_quote value); [|right; auto].
    destruct (is_correct_escaping tok) as [[]|] eqn:Ee; [right; auto..|left; auto].
Qed.

Lemma print_other value triple tok :
  unquote tok <> (value, triple, None) -> print_string value triple tok = Ok (quote value triple).
Proof.
  intros H. unfold print_string. destruct (unquote tok) as [[s t] e].
  destruct e; auto. cbn [uerr_none andb].
  destruct (beq_spec s value); auto. destruct (Bool.eqb t triple) eqn:E; auto.
  apply eqb_prop in E. congruence.
Qed.
