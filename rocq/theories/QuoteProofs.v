From Verif Require Import Base BaseProofs Utf8 Quote.

Definition emit (l : bytes) (r : uerr + bytes) : uerr + bytes :=
  match r with inl e => inl e | inr t => inr (l ++ t) end.

Ltac all_bytes c := destruct c as [[] [] [] [] [] [] [] []].

Lemma unescape_quote_byte t c r :
  unescape (quote_byte t c ++ r) = emit [c] (unescape r).
Proof. destruct t; all_bytes c; reflexivity. Qed.

Lemma unescape_plain c r : c <> c_bs -> unescape (c :: r) = emit [c] (unescape r).
Proof.
  intros H. simpl. unfold ceq. destruct (Ascii.eqb_spec c c_bs); [contradiction|]. reflexivity.
Qed.

(** quote_loop, seen one input byte at a time. *)
Lemma quote_loop_cases t c u :
  (quote_loop t (c :: u) = quote_byte t c ++ quote_loop t u) \/
  (t = true /\ c = c_quote /\ quote_loop t (c :: u) = c :: quote_loop t u /\
     exists d u', u = d :: u' /\ d <> c_quote) \/
  (t = true /\ c = c_quote /\ exists d u', u = c_quote :: d :: u' /\ d <> c_quote /\
     quote_loop t (c :: u) = c :: c :: quote_loop t (d :: u')).
Proof.
  cbn [quote_loop]. unfold ceq.
  destruct (Ascii.eqb_spec c c_quote) as [->|]; [|auto].
  destruct t; [|auto]. cbn [andb].
  destruct u as [|d u2]; [auto|].
  destruct (Ascii.eqb_spec d c_quote) as [->|Hd]; cbn [negb].
  - destruct u2 as [|e u3]; [auto|].
    destruct (Ascii.eqb_spec e c_quote) as [->|He]; cbn [negb]; [auto|].
    right; right. do 2 (split; auto). exists e, u3. auto.
  - right; left. do 3 (split; auto). eauto.
Qed.

Lemma unescape_quote_loop t u : unescape (quote_loop t u) = inr u.
Proof.
  induction u as [u IH] using (well_founded_induction (Wf_nat.well_founded_ltof _ (@List.length ascii))).
  unfold Wf_nat.ltof in IH.
  destruct u as [|c u]; [reflexivity|].
  destruct (quote_loop_cases t c u) as [->|[(-> & -> & -> & _)|(-> & -> & d & u' & -> & Hd & ->)]].
  - rewrite unescape_quote_byte, IH by (simpl; lia). reflexivity.
  - rewrite unescape_plain by discriminate. rewrite IH by (simpl; lia). reflexivity.
  - rewrite !unescape_plain by discriminate. rewrite IH by (simpl; lia). reflexivity.
Qed.

Lemma unescape_no_bs s : ~ In c_bs s -> unescape s = inr s.
Proof.
  induction s as [|c s IH]; intros H; [reflexivity|].
  rewrite unescape_plain by (intros ->; apply H; left; auto).
  rewrite IH by (intros ?; apply H; right; auto). reflexivity.
Qed.

Lemma quote_byte_false_head c : exists h l, quote_byte false c = h :: l /\ h <> c_quote.
Proof. all_bytes c; vm_compute; do 2 eexists; (split; [reflexivity|discriminate]). Qed.
Lemma quote_byte_nonempty t c : exists h l, quote_byte t c = h :: l.
Proof. destruct t; all_bytes c; vm_compute; do 2 eexists; reflexivity. Qed.
Lemma quote_byte_head t c : c <> c_quote -> exists h l, quote_byte t c = h :: l /\ h <> c_quote.
Proof.
  destruct t; all_bytes c; vm_compute; intros H;
  try (exfalso; apply H; reflexivity); do 2 eexists; (split; [reflexivity|discriminate]).
Qed.

Lemma quote_loop_false_head u : match quote_loop false u with [] => True | h :: _ => h <> c_quote end.
Proof.
  destruct u as [|c u]; [exact I|].
  destruct (quote_loop_cases false c u) as [->|[(H & _)|(H & _)]]; try discriminate.
  destruct (quote_byte_false_head c) as (h & l & -> & Hh). exact Hh.
Qed.

Lemma last_app_one {A} (l : list A) x d : last (l ++ [x]) d = x.
Proof. induction l as [|y l IH]; auto. simpl. destruct (l ++ [x]) eqn:E; auto. destruct l; discriminate. Qed.

Lemma middle_firstn {A} (p l s : list A) n :
  n = List.length l -> firstn n (skipn (List.length p) (p ++ l ++ s)) = l.
Proof. intros ->. rewrite skipn_app_exact, firstn_app_exact. auto. Qed.

Lemma unquote_single_body q body :
  (q = c_quote \/ q = c_sq) ->
  (match body with [] => True | h :: _ => h <> q end) ->
  unquote (q :: body ++ [q]) =
  if negb (contains_byte c_bs body) then (body, false, None)
  else match unescape body with inl e => ([], false, Some e) | inr s => (s, false, None) end.
Proof.
  intros Hq Hh. unfold unquote.
  assert (Hr : has_prefix %"r" (q :: body ++ [q]) = false) by (destruct Hq as [-> | ->]; reflexivity).
  rewrite Hr. cbv iota.
  destruct (body ++ [q]) as [|b0 b] eqn:E; [destruct body; discriminate|].
  rewrite <- E. clear E.
  assert (Hl : last (q :: body ++ [q]) "000"%char = q) by (apply (last_app_one (q :: body))).
  rewrite Hl.
  assert (He : (if negb (ceq q c_quote) && negb (ceq q c_sq) || negb (ceq q q) then Some ErrBadQuotes else None) = None).
  { destruct Hq as [-> | ->]; reflexivity. }
  rewrite He. cbv zeta.
  assert (Ht : (6 <=? List.length (q :: body ++ [q])) && ceq (nth 1 (q :: body ++ [q]) "000"%char) q &&
        ceq (nth 2 (q :: body ++ [q]) "000"%char) q &&
        beq (firstn 3 (q :: body ++ [q])) (skipn (List.length (q :: body ++ [q]) - 3) (q :: body ++ [q])) = false).
  { destruct body as [|h t]; [reflexivity|].
    cbn [app nth]. unfold ceq at 1. destruct (Ascii.eqb_spec h q); [contradiction|].
    rewrite andb_false_r. reflexivity. }
  rewrite Ht. cbn [orb].
  replace (firstn (List.length (q :: body ++ [q]) - 2) (skipn 1 (q :: body ++ [q]))) with body.
  2:{ cbn [skipn]. rewrite <- (firstn_app_exact body [q]) at 1.
      f_equal. cbn [List.length]. rewrite app_length. cbn [List.length]. lia. }
  reflexivity.
Qed.

Lemma unquote_triple_body q body :
  (q = c_quote \/ q = c_sq) ->
  unquote (q :: q :: q :: body ++ [q; q; q]) =
  if negb (contains_byte c_bs body) then (body, true, None)
  else match unescape body with inl e => ([], true, Some e) | inr s => (s, true, None) end.
Proof.
  intros Hq. unfold unquote.
  assert (Hr : has_prefix %"r" (q :: q :: q :: body ++ [q; q; q]) = false) by (destruct Hq as [-> | ->]; reflexivity).
  rewrite Hr. cbv iota.
  assert (Hl : last (q :: q :: q :: body ++ [q; q; q]) "000"%char = q).
  { change (body ++ [q;q;q]) with (body ++ [q;q] ++ [q]). rewrite app_assoc.
    apply (last_app_one (q :: q :: q :: body ++ [q;q])). }
  rewrite Hl.
  assert (He : (if negb (ceq q c_quote) && negb (ceq q c_sq) || negb (ceq q q) then Some ErrBadQuotes else None) = None).
  { destruct Hq as [-> | ->]; reflexivity. }
  rewrite He. cbv zeta.
  assert (Hlen : List.length (q :: q :: q :: body ++ [q; q; q]) = 6 + List.length body).
  { cbn [List.length]. rewrite app_length. cbn [List.length]. lia. }
  assert (Hs : skipn (List.length (q :: q :: q :: body ++ [q; q; q]) - 3) (q :: q :: q :: body ++ [q; q; q]) = [q;q;q]).
  { rewrite Hlen. replace (6 + List.length body - 3) with (List.length (q::q::q::body)) by (simpl; lia).
    apply (skipn_app_exact (q::q::q::body)). }
  rewrite Hs, Hlen. cbn [nth firstn]. unfold ceq. rewrite !ascii_eqb_refl, beq_refl.
  replace (6 <=? 6 + List.length body) with true by (symmetry; apply Nat.leb_le; lia).
  cbn [andb orb].
  replace (firstn (6 + List.length body - 6) (skipn 3 (q :: q :: q :: body ++ [q; q; q]))) with body.
  2:{ cbn [skipn]. rewrite <- (firstn_app_exact body [q;q;q]) at 1. f_equal. lia. }
  reflexivity.
Qed.

Lemma body_case body (t : bool) v :
  unescape body = inr v ->
  (if negb (contains_byte c_bs body) then (body, t, None)
   else match unescape body with inl e => ([], t, Some e) | inr s => (s, t, None) end) = (v, t, @None uerr).
Proof.
  intros H. rewrite H. destruct (contains_byte c_bs body) eqn:E; auto. cbn [negb].
  assert (~ In c_bs body) by (intros HI; apply contains_byte_In in HI; congruence).
  rewrite (unescape_no_bs body) in H by auto. congruence.
Qed.

Lemma unquote_quote u t : unquote (quote u t) = (u, t, None).
Proof.
  unfold quote, quotes. destruct t; cbn [app].
  - rewrite unquote_triple_body by auto. apply body_case, unescape_quote_loop.
  - rewrite unquote_single_body; [|auto|apply quote_loop_false_head].
    apply body_case, unescape_quote_loop.
Qed.

(** ** The scanner, byte by byte *)
Fixpoint bscan_single (q : ascii) (s : bytes) : option bytes :=
  match s with
  | [] => None
  | c :: s1 =>
      if ceq c c_nl then None
      else if ceq c q then Some s1
      else if ceq c c_bs then match s1 with [] => None | _ :: s2 => bscan_single q s2 end
      else bscan_single q s1
  end.
Fixpoint bscan_triple (q : ascii) (b2 b3 : bool) (s : bytes) : option bytes :=
  match s with
  | [] => None
  | c :: s1 =>
      if b2 && b3 && ceq c q then Some s1
      else if ceq c c_bs then match s1 with [] => None | _ :: s2 => bscan_triple q b3 false s2 end
      else bscan_triple q b3 (ceq c q) s1
  end.

Definition high (c : ascii) : bool := (128 <=? bN c)%N.

Lemma decode_rune_spec c s :
  exists r n, decode_rune (c :: s) = (r, S n) /\ n <= List.length s /\
   ((high c = false /\ n = 0 /\ r = bN c) \/
    ((128 <= r)%N /\ high c = true /\ forallb high (firstn n s) = true)).
Proof.
  cbn [decode_rune]. unfold high.
  destruct (N.ltb_spec (bN c) 128).
  { do 2 eexists; split; [reflexivity|]. split; [lia|left]. destruct (N.leb_spec 128 (bN c)); [lia|auto]. }
  destruct (N.leb_spec 128 (bN c)); [|lia].
  assert (Herr : forall r n, (rune_error, 1) = (r, S n) -> n = 0 /\ r = rune_error) by (intros ? ? [=]; auto).
  assert (Hfail : exists r n, (rune_error, 1) = (r, S n) /\ n <= List.length s /\
   ((false = true /\ n = 0 /\ r = bN c) \/
    ((128 <= r)%N /\ true = true /\ forallb (fun c0 => (128 <=? bN c0)%N) (firstn n s) = true))).
  { exists rune_error, 0. split; auto. split; [lia|]. right. repeat split; auto. unfold rune_error; lia. }
  assert (Hc : forall lo hi b, in_range lo hi b = true -> (lo <= bN b <= hi)%N).
  { unfold in_range. intros lo hi b Hb. apply andb_true_iff in Hb as [Hb1 Hb2].
    apply N.leb_le in Hb1, Hb2. lia. }
  destruct (N.ltb_spec (bN c) 194).
  { destruct Hfail as (r & n & E & Hn & [(F & _)|HH]); [discriminate|]. exists r, n; auto. }
  assert (Hfail' : exists r n, (rune_error, 1) = (r, S n) /\ n <= List.length s /\
   (true = false /\ n = 0 /\ r = bN c \/
    (128 <= r)%N /\ true = true /\ forallb (fun c0 => (128 <=? bN c0)%N) (firstn n s) = true)).
  { destruct Hfail as (r & n & E & Hn & [(F & _)|HH]); [discriminate|]. exists r, n; auto. }
  clear Hfail.
  destruct (N.ltb_spec (bN c) 224).
  { destruct s as [|b1 s]; [exact Hfail'|].
    destruct (is_cont b1) eqn:E1; [|exact Hfail'].
    apply Hc in E1. unfold cont_bits. do 2 eexists; split; [reflexivity|]. split; [simpl; lia|].
    right. split; [lia|]. split; auto. cbn [firstn forallb]. destruct (N.leb_spec 128 (bN b1)); auto; lia. }
  destruct (N.ltb_spec (bN c) 240).
  { destruct s as [|b1 [|b2 s]]; [exact Hfail'..|]. cbv zeta.
    destruct (in_range _ _ b1 && is_cont b2) eqn:E1; [|exact Hfail'].
    apply andb_true_iff in E1 as [E1 E2]. apply Hc in E1. apply Hc in E2.
    assert (128 <= bN b1)%N by (destruct (bN c =? 224)%N; lia).
    unfold cont_bits. do 2 eexists; split; [reflexivity|]. split; [simpl; lia|].
    right. split; [|split; auto].
    - destruct (N.eqb_spec (bN c) 224); lia.
    - cbn [firstn forallb]. destruct (N.leb_spec 128 (bN b1)), (N.leb_spec 128 (bN b2)); auto; lia. }
  destruct (N.ltb_spec (bN c) 245).
  { destruct s as [|b1 [|b2 [|b3 s]]]; [exact Hfail'..|]. cbv zeta.
    destruct (in_range _ _ b1 && is_cont b2 && is_cont b3) eqn:E1; [|exact Hfail'].
    apply andb_true_iff in E1 as [E1 E3]. apply andb_true_iff in E1 as [E1 E2].
    apply Hc in E1. apply Hc in E2. apply Hc in E3.
    assert (128 <= bN b1)%N by (destruct (bN c =? 240)%N; lia).
    unfold cont_bits. do 2 eexists; split; [reflexivity|]. split; [simpl; lia|].
    right. split; [|split; auto].
    - destruct (N.eqb_spec (bN c) 240); lia.
    - cbn [firstn forallb].
      destruct (N.leb_spec 128 (bN b1)), (N.leb_spec 128 (bN b2)), (N.leb_spec 128 (bN b3)); auto; lia. }
  exact Hfail'.
Qed.

Lemma read_rune_spec c s :
  (high c = false /\ read_rune (c :: s) = Some (bN c, s)) \/
  (exists r h t, high c = true /\ (128 <= r)%N /\ s = h ++ t /\ forallb high h = true /\
     read_rune (c :: s) = Some (r, t)).
Proof.
  destruct (decode_rune_spec c s) as (r & n & E & Hn & [(H1 & -> & ->)|(H1 & H2 & H3)]).
  - left. unfold read_rune. rewrite E. auto.
  - right. exists r, (firstn n s), (skipn n s). repeat split; auto.
    + rewrite firstn_skipn; auto.
    + unfold read_rune. rewrite E. reflexivity.
Qed.

Lemma high_ne c d : high c = true -> high d = false -> ceq c d = false.
Proof. intros H1 H2. unfold ceq. destruct (Ascii.eqb_spec c d); auto. subst; congruence. Qed.

Lemma bscan_single_high q h t :
  high q = false -> forallb high h = true -> bscan_single q (h ++ t) = bscan_single q t.
Proof.
  intros Hq. induction h as [|c h IH]; simpl; auto.
  intros H; apply andb_true_iff in H as [H1 H2].
  rewrite !high_ne by auto. auto.
Qed.

Lemma bN_eqb c d : N.eqb (bN c) (bN d) = ceq c d.
Proof.
  unfold ceq. destruct (Ascii.eqb_spec c d) as [->|H]; [apply N.eqb_refl|].
  apply N.eqb_neq. intros E. apply bN_inj in E; auto.
Qed.
Lemma bN_low q : high q = false -> (bN q < 128)%N.
Proof. unfold high. intros H. apply N.leb_gt in H. lia. Qed.
Lemma rune_high_neqb r q : (128 <= r)%N -> (q < 128)%N -> N.eqb r q = false.
Proof. intros. apply N.eqb_neq. lia. Qed.

Lemma scan_single_bytes q : high q = false -> forall f s, List.length s < f ->
  scan_single f (bN q) s = bscan_single q s.
Proof.
  intros Hq. induction f as [|f IH]; intros s Hf; [lia|].
  cbn [scan_single]. destruct s as [|c s]; [reflexivity|].
  simpl in Hf.
  destruct (read_rune_spec c s) as [(Hc & ->)|(r & h & t & Hc & Hr & -> & Hh & ->)].
  - cbn [bscan_single].
    change 10%N with (bN c_nl). change 92%N with (bN c_bs).
    rewrite !bN_eqb. destruct (ceq c c_nl); auto. destruct (ceq c q); auto.
    destruct (ceq c c_bs) eqn:Eb.
    + destruct s as [|d s]; [reflexivity|]. simpl in Hf.
      destruct (read_rune_spec d s) as [(Hd & ->)|(r & h & t & Hd & Hr & -> & Hh & ->)].
      * apply IH; lia.
      * rewrite bscan_single_high by auto. apply IH. rewrite app_length in Hf; lia.
    + apply IH; lia.
  - rewrite !rune_high_neqb by (auto; try lia; apply bN_low; auto).
    change (c :: h ++ t) with ((c :: h) ++ t). rewrite bscan_single_high by (simpl; rewrite ?Hc; auto).
    apply IH. rewrite app_length in Hf; lia.
Qed.

Lemma bscan_triple_high q b2 b3 h c t :
  high q = false -> forallb high (c :: h) = true ->
  exists b2', bscan_triple q b2 b3 ((c :: h) ++ t) = bscan_triple q b2' false t /\ (h = [] -> b2' = b3).
Proof.
  intros Hq. revert c b2 b3. induction h as [|d h IH]; intros c b2 b3 H;
  cbn [forallb] in H; apply andb_true_iff in H as [H1 H2].
  - exists b3. split; auto. simpl. rewrite !high_ne by auto. rewrite andb_false_r. auto.
  - cbn [app bscan_triple]. rewrite !high_ne by auto. rewrite andb_false_r.
    destruct (IH d b3 false H2) as (b2' & E & _). exists b2'. split; [exact E|discriminate].
Qed.

(* once the previous byte is not a quote, the byte before it is irrelevant *)
Lemma bscan_triple_b2 q b2 b2' s : bscan_triple q b2 false s = bscan_triple q b2' false s.
Proof. destruct s as [|c s]; auto. simpl. rewrite !andb_false_r. auto. Qed.

Lemma bscan_triple_high' q b2 b3 h t :
  high q = false -> forallb high h = true ->
  bscan_triple q b2 false (h ++ t) = bscan_triple q b3 false t.
Proof.
  intros Hq Hh. destruct h as [|c h]; [apply bscan_triple_b2|].
  destruct (bscan_triple_high q b2 false h c t Hq Hh) as (b & E & _).
  rewrite E. apply bscan_triple_b2.
Qed.

Lemma scan_triple_bytes q : high q = false -> ceq c_bs q = false -> forall f s c2 c3, List.length s < f ->
  scan_triple f (bN q) c2 c3 s = bscan_triple q (N.eqb c2 (bN q)) (N.eqb c3 (bN q)) s.
Proof.
  intros Hq Hqb. induction f as [|f IH]; intros s c2 c3 Hf; [lia|].
  cbn [scan_triple]. destruct s as [|c s]; [reflexivity|].
  simpl in Hf.
  destruct (read_rune_spec c s) as [(Hc & ->)|(r & h & t & Hc & Hr & -> & Hh & ->)].
  - cbn [bscan_triple].
    change 92%N with (bN c_bs).
    rewrite !bN_eqb. destruct (N.eqb c2 (bN q) && N.eqb c3 (bN q) && ceq c q); auto.
    destruct (ceq c c_bs) eqn:Eb.
    + destruct s as [|d s]; [reflexivity|]. simpl in Hf.
      unfold ceq in Eb. apply Ascii.eqb_eq in Eb. subst c.
      destruct (read_rune_spec d s) as [(Hd & ->)|(r & h & t & Hd & Hr & -> & Hh & ->)].
      * rewrite IH by lia. rewrite bN_eqb, Hqb. auto.
      * rewrite IH by (rewrite app_length in Hf; lia). rewrite bN_eqb, Hqb.
        symmetry. apply bscan_triple_high'; auto.
    + rewrite IH by lia. rewrite bN_eqb. auto.
  - rewrite !(rune_high_neqb r) by (auto; try lia; apply bN_low; auto).
    rewrite andb_false_r, IH by (rewrite app_length in Hf; lia).
    rewrite (rune_high_neqb r) by (auto; apply bN_low; auto).
    destruct (bscan_triple_high q (N.eqb c2 (bN q)) (N.eqb c3 (bN q)) h c t Hq) as (b & E & _).
    { simpl. rewrite Hc, Hh; auto. }
    change (c :: h ++ t) with ((c :: h) ++ t). rewrite E. apply bscan_triple_b2.
Qed.

(** ** Scanning freshly quoted strings *)
Definition is_q (c : ascii) : bool := ceq c c_quote || ceq c c_sq.

Lemma is_q_low q : is_q q = true -> high q = false /\ ceq c_bs q = false /\ ceq q c_nl = false /\ q <> "r"%char.
Proof.
  unfold is_q, ceq. intros H. apply orb_true_iff in H as [H|H]; apply Ascii.eqb_eq in H; subst; repeat split; discriminate.
Qed.

(** [scan_string] after the optional raw prefix, in terms of byte scanners. *)
Definition bscan_quoted (s : bytes) : option bytes :=
  match s with
  | [] => None
  | q :: s1 =>
      if negb (is_q q) then None else
      match s1 with
      | a :: b :: s3 => if ceq a q && ceq b q then bscan_triple q false false s3 else bscan_single q s1
      | _ => bscan_single q s1
      end
  end.

Lemma scan_string_bytes s :
  scan_string s =
  match s with
  | c :: c' :: _ => if ceq c "r" && is_q c' then bscan_quoted (skipn 1 s) else bscan_quoted s
  | _ => bscan_quoted s
  end.
Proof.
  assert (G : forall s0, match s0 with
  | [] => None
  | q :: s1 =>
      if negb (ceq q c_quote || ceq q c_sq) then None else
      match s1 with
      | a :: b :: s3 =>
          if ceq a q && ceq b q then scan_triple (S (List.length s3)) (bN q) 0 0 s3
          else scan_single (S (List.length s1)) (bN q) s1
      | _ => scan_single (S (List.length s1)) (bN q) s1
      end
  end = bscan_quoted s0).
  { intros [|q s1]; auto. unfold bscan_quoted. fold (is_q q).
    destruct (is_q q) eqn:Eq; auto. cbn [negb].
    destruct (is_q_low q Eq) as (H1 & H2 & H3 & H4).
    assert (Hz : N.eqb 0 (bN q) = false).
    { unfold is_q, ceq in Eq. apply orb_true_iff in Eq as [Eq|Eq]; apply Ascii.eqb_eq in Eq; subst; reflexivity. }
    destruct s1 as [|a [|b s3]]; try (apply scan_single_bytes; auto; lia).
    destruct (ceq a q && ceq b q).
    - rewrite scan_triple_bytes by (auto; lia). rewrite Hz. auto.
    - apply scan_single_bytes; auto; lia. }
  unfold scan_string. cbv zeta.
  destruct s as [|c [|c' s]]; [exact (G [])|exact (G [c])|].
  fold (is_q c'). destruct (ceq c "r" && is_q c'); [exact (G (c' :: s))|exact (G (c :: c' :: s))].
Qed.

Lemma bscan_single_quote_byte c s :
  bscan_single c_quote (quote_byte false c ++ s) = bscan_single c_quote s.
Proof. all_bytes c; reflexivity. Qed.

Lemma bscan_single_quote_loop u s :
  bscan_single c_quote (quote_loop false u ++ c_quote :: s) = Some s.
Proof.
  induction u as [|c u IH]; [reflexivity|].
  destruct (quote_loop_cases false c u) as [->|[(H & _)|(H & _)]]; try discriminate.
  rewrite <- app_assoc, bscan_single_quote_byte. apply IH.
Qed.

(* after an encoded byte, the previous byte is not an unescaped quote *)
Lemma bscan_triple_quote_byte c b2 b3 s :
  (b3 = false \/ c <> c_quote) ->
  exists b, bscan_triple c_quote b2 b3 (quote_byte true c ++ s) = bscan_triple c_quote b false s.
Proof.
  intros H. destruct b2, b3; all_bytes c; vm_compute quote_byte;
  first [ destruct H as [H|H]; [discriminate H|exfalso; apply H; reflexivity]
        | eexists; reflexivity ].
Qed.

Lemma bscan_triple_quote_loop u s : forall b2 b3,
  (b3 = false \/ exists d u', u = d :: u' /\ d <> c_quote) ->
  bscan_triple c_quote b2 b3 (quote_loop true u ++ c_quote :: c_quote :: c_quote :: s) = Some s.
Proof.
  induction u as [u IH] using (well_founded_induction (Wf_nat.well_founded_ltof _ (@List.length ascii))).
  unfold Wf_nat.ltof in IH. intros b2 b3 H.
  destruct u as [|c u].
  { destruct H as [->|(d & u' & E & _)]; [|discriminate]. destruct b2; reflexivity. }
  destruct (quote_loop_cases true c u) as [->|[(_ & -> & -> & d & u' & -> & Hd)|(_ & -> & d & u' & -> & Hd & ->)]].
  - rewrite <- app_assoc.
    destruct (bscan_triple_quote_byte c b2 b3 (quote_loop true u ++ c_quote :: c_quote :: c_quote :: s)) as (b & ->).
    { destruct H as [H|(d & u' & [= -> ->] & Hd)]; auto. }
    apply IH; [simpl; lia|]. auto.
  - destruct H as [->|(d' & u'' & [= <- <-] & Hd')]; [|congruence].
    cbn [app bscan_triple]. rewrite andb_false_r. change (ceq c_quote c_bs) with false.
    cbn [andb]. apply IH; [simpl; lia|]. right; eauto.
  - destruct H as [->|(d' & u'' & [= <- <-] & Hd')]; [|congruence].
    cbn [app bscan_triple]. rewrite !andb_false_r. change (ceq c_quote c_bs) with false.
    cbn [andb]. apply IH; [simpl; lia|]. right; eauto.
Qed.

Definition head_is (c : ascii) (s : bytes) : bool :=
  match s with x :: _ => ceq x c | [] => false end.

Lemma scan_quote u t rest :
  (t = true \/ u <> [] \/ head_is c_quote rest = false) ->
  scan_string (quote u t ++ rest) = Some rest.
Proof.
  intros H. rewrite scan_string_bytes. unfold quote, quotes. destruct t.
  - cbn [app]. change (ceq c_quote "r") with false. cbn [andb].
    rewrite <- !app_assoc. cbn [app]. unfold bscan_quoted.
    change (is_q c_quote) with true. change (ceq c_quote c_quote) with true. cbn [negb andb].
    apply bscan_triple_quote_loop. auto.
  - cbn [app]. rewrite <- app_assoc. cbn [app].
    assert (G : bscan_quoted (c_quote :: quote_loop false u ++ c_quote :: rest) = Some rest).
    { unfold bscan_quoted. change (is_q c_quote) with true. cbn [negb].
      rewrite bscan_single_quote_loop.
      destruct u as [|c u].
      - destruct H as [H|[H|H]]; try congruence.
        cbn [quote_loop app]. destruct rest as [|r0 rest]; auto.
        simpl in H. rewrite H. rewrite andb_false_r. auto.
      - pose proof (quote_loop_false_head (c :: u)) as Hh.
        destruct (quote_loop false (c :: u)) as [|h l] eqn:E.
        + destruct (quote_loop_cases false c u) as [E'|[(E' & _)|(E' & _)]]; try discriminate.
          rewrite E in E'. destruct (quote_byte_nonempty false c) as (h & l & Eb). rewrite Eb in E'. discriminate.
        + cbn [app]. destruct (l ++ c_quote :: rest) as [|b s3]; auto.
          unfold ceq. destruct (Ascii.eqb_spec h c_quote); [contradiction|]. auto. }
    destruct (quote_loop false u ++ c_quote :: rest) eqn:E.
    + destruct (quote_loop false u); discriminate.
    + change (ceq c_quote "r") with false. cbn [andb]. exact G.
Qed.

Lemma lex_quote u t rest :
  (t = true \/ u <> [] \/ head_is c_quote rest = false) ->
  lex_string (quote u t ++ rest) = Some (quote u t, u, t, rest).
Proof.
  intros H. unfold lex_string. rewrite scan_quote by auto.
  rewrite app_length.
  replace (List.length (quote u t) + List.length rest - List.length rest) with (List.length (quote u t)) by lia.
  rewrite firstn_app_exact, unquote_quote. auto.
Qed.

(** ** Locality of the scanner: a token scanned in one context is scanned the same way
    in every context (apart from the two-quote ambiguity). *)
Lemma bscan_single_local q s rest :
  bscan_single q s = Some rest ->
  exists tok, s = tok ++ q :: rest /\ (forall rest', bscan_single q (tok ++ q :: rest') = Some rest').
Proof.
  induction s as [s IH] using (well_founded_induction (Wf_nat.well_founded_ltof _ (@List.length ascii))).
  unfold Wf_nat.ltof in IH.
  destruct s as [|c s]; [discriminate|]. cbn [bscan_single].
  destruct (ceq c c_nl) eqn:E1; [discriminate|].
  destruct (ceq c q) eqn:E2.
  { intros [= ->]. unfold ceq in E2. apply Ascii.eqb_eq in E2; subst. exists []. split; auto.
    intros rest'. cbn [app bscan_single]. rewrite E1. unfold ceq. rewrite ascii_eqb_refl. auto. }
  destruct (ceq c c_bs) eqn:E3.
  { destruct s as [|d s]; [discriminate|]. intros H.
    destruct (IH s) as (tok & -> & Ht); [simpl; lia|auto|].
    exists (c :: d :: tok). split; auto. intros rest'. cbn [app bscan_single]. rewrite E1, E2, E3. auto. }
  intros H. destruct (IH s) as (tok & -> & Ht); [simpl; lia|auto|].
  exists (c :: tok). split; auto. intros rest'. cbn [app bscan_single]. rewrite E1, E2, E3. auto.
Qed.

Lemma bscan_triple_local q s rest : ceq c_bs q = false -> forall b2 b3,
  bscan_triple q b2 b3 s = Some rest ->
  exists tok, s = tok ++ q :: rest /\ (forall rest', bscan_triple q b2 b3 (tok ++ q :: rest') = Some rest').
Proof.
  intros Hq.
  induction s as [s IH] using (well_founded_induction (Wf_nat.well_founded_ltof _ (@List.length ascii))).
  unfold Wf_nat.ltof in IH. intros b2 b3.
  destruct s as [|c s]; [discriminate|]. cbn [bscan_triple].
  destruct (b2 && b3 && ceq c q) eqn:E2.
  { intros [= ->]. apply andb_true_iff in E2 as [E2 E2']. unfold ceq in E2'. apply Ascii.eqb_eq in E2'; subst.
    exists []. split; auto.
    intros rest'. cbn [app bscan_triple]. rewrite E2. unfold ceq. rewrite ascii_eqb_refl. auto. }
  destruct (ceq c c_bs) eqn:E3.
  { destruct s as [|d s]; [discriminate|]. intros H.
    destruct (IH s) with (b2 := b3) (b3 := false) as (tok & -> & Ht); [simpl; lia|auto|].
    exists (c :: d :: tok). split; auto. intros rest'. cbn [app bscan_triple]. rewrite E2, E3. auto. }
  intros H. destruct (IH s) with (b2 := b3) (b3 := ceq c q) as (tok & -> & Ht); [simpl; lia|auto|].
  exists (c :: tok). split; auto. intros rest'. cbn [app bscan_triple]. rewrite E2, E3. auto.
Qed.

(** A successful triple scan from the start has consumed a body and three quotes. *)
Lemma bscan_triple_end q s rest : ceq c_bs q = false -> forall b2 b3,
  bscan_triple q b2 b3 s = Some rest ->
  exists tok, s = tok ++ q :: rest /\
    ((tok = [] /\ b2 = true /\ b3 = true) \/ (tok = [q] /\ b3 = true) \/ exists t', tok = t' ++ [q; q]).
Proof.
  intros Hq.
  induction s as [s IH] using (well_founded_induction (Wf_nat.well_founded_ltof _ (@List.length ascii))).
  unfold Wf_nat.ltof in IH. intros b2 b3.
  destruct s as [|c s]; [discriminate|]. cbn [bscan_triple].
  destruct (b2 && b3 && ceq c q) eqn:E2.
  { intros [= ->]. apply andb_true_iff in E2 as [E2 E2']. unfold ceq in E2'. apply Ascii.eqb_eq in E2'; subst.
    apply andb_true_iff in E2 as [-> ->]. exists []. auto. }
  destruct (ceq c c_bs) eqn:E3.
  { destruct s as [|d s]; [discriminate|]. intros H.
    destruct (IH s) with (b2 := b3) (b3 := false) as (tok & -> & Ht); [simpl; lia|auto|].
    exists (c :: d :: tok). split; auto.
    destruct Ht as [(_ & _ & ?)|[(_ & ?)|(t' & ->)]]; try discriminate.
    right; right. exists (c :: d :: t'). auto. }
  intros H. destruct (IH s) with (b2 := b3) (b3 := ceq c q) as (tok & -> & Ht); [simpl; lia|auto|].
  exists (c :: tok). split; auto.
  destruct Ht as [(-> & -> & Hc)|[(-> & Hc)|(t' & ->)]].
  - unfold ceq in Hc. apply Ascii.eqb_eq in Hc; subst. auto.
  - unfold ceq in Hc. apply Ascii.eqb_eq in Hc; subst. right; right. exists []. auto.
  - right; right. exists (c :: t'). auto.
Qed.
