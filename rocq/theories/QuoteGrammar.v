From Verif Require Import Base BaseProofs Utf8 Quote QuoteProofs QuoteSpec QuotePrint.

Lemma table_spec {V} (f : ascii -> option V) (veqb : V -> V -> bool) (tbl : list (ascii * V)) :
  (forall a b, veqb a b = true -> a = b) ->
  forallb (fun c => match f c with None => true | Some v => existsb (fun p => ceq (fst p) c && veqb (snd p) v) tbl end) all_bytes = true ->
  forallb (fun p => match f (fst p) with Some v => veqb v (snd p) | None => false end) tbl = true ->
  forall c v, f c = Some v <-> In (c, v) tbl.
Proof.
  intros Hv H1 H2 c v. split.
  - intros E. pose proof (forall_byte _ H1 c) as H. cbv beta in H. rewrite E in H.
    apply existsb_exists in H as ([c' v'] & Hin & H). apply andb_true_iff in H as [Hc Hv'].
    simpl in Hc, Hv'. unfold ceq in Hc. apply Ascii.eqb_eq in Hc. apply Hv in Hv'. subst; auto.
  - intros Hin. rewrite forallb_forall in H2. apply H2 in Hin. simpl in Hin.
    destruct (f c) as [w|]; [|discriminate]. apply Hv in Hin. congruence.
Qed.
Lemma hexval_spec c v : hexval c = Some v <-> In (c, v) hex_digits.
Proof. apply (table_spec hexval Z.eqb); [intros a b; apply Z.eqb_eq|vm_compute; reflexivity..]. Qed.
Lemma hexdigits_snoc acc ds c : hexdigits acc (ds ++ [c]) =
  match hexdigits acc ds with None => None | Some v => match hexval c with None => None | Some d => Some (v * 16 + d)%Z end end.
Proof.
  revert acc; induction ds as [|x ds IH]; intros acc; cbn [app hexdigits].
  - destruct (hexval c); auto.
  - destruct (hexval x); auto.
Qed.
Lemma hexdigits_spec ds v : hexdigits 0 ds = Some v <-> hex_value ds v.
Proof.
  split.
  - revert v. induction ds as [|c ds IH] using rev_ind; intros v.
    + intros [= <-]. constructor.
    + rewrite hexdigits_snoc. destruct (hexdigits 0 ds) as [w|]; [|discriminate].
      destruct (hexval c) as [d|] eqn:E; [|discriminate]. intros [= <-].
      rewrite Z.mul_comm. constructor; auto. apply hexval_spec; auto.
  - induction 1 as [|ds c d v H IH Hd]; auto.
    rewrite hexdigits_snoc, IH. apply hexval_spec in Hd. rewrite Hd. f_equal. lia.
Qed.
Lemma parse_int16_spec ds n : ds <> [] -> (parse_int16 ds = Some n <-> signed_num ds n).
Proof.
  intros Hne. destruct ds as [|c ds]; [congruence|]. cbn [parse_int16]. unfold signed_num, ceq.
  assert (Hsign : forall c n ds, hexdigits 0 (c :: ds) = Some n -> c <> "-"%char /\ c <> "+"%char).
  { intros c0 n0 ds0 H. cbn in H. split; intros ->; discriminate. }
  destruct (Ascii.eqb_spec c "-") as [->|H1]; [|destruct (Ascii.eqb_spec c "+") as [->|H2]].
  - split.
    + destruct ds as [|d ds]; [discriminate|]. destruct (hexdigits 0 (d :: ds)) as [m|] eqn:E; [|discriminate].
      intros [= <-]. right; right. exists (d :: ds), m. repeat split; auto; [discriminate|]. apply hexdigits_spec; auto.
    + intros [H|[(ds' & [=] & _)|(ds' & m & [= <-] & Hd & Hm & ->)]].
      * apply hexdigits_spec in H. discriminate.
      * apply hexdigits_spec in Hm. destruct ds; [congruence|]. rewrite Hm. auto.
  - split.
    + destruct ds as [|d ds]; [discriminate|]. intros E. right; left. exists (d :: ds).
      repeat split; auto; [discriminate|]. apply hexdigits_spec; auto.
    + intros [H|[(ds' & [= <-] & Hd & Hm)|(ds' & m & [=] & _)]].
      * apply hexdigits_spec in H. discriminate.
      * apply hexdigits_spec in Hm. destruct ds; [congruence|]. auto.
  - rewrite hexdigits_spec. split; auto.
    intros [H|[(ds' & [=] & _)|(ds' & m & [=] & _)]]; auto; congruence.
Qed.

Lemma strict_signed ds n : strict_num ds n -> signed_num ds n.
Proof. left; auto. Qed.
Lemma denotes_mono (n1 n2 : bytes -> Z -> Prop) q s :
  (forall d v, n1 d v -> n2 d v) -> denotes n1 q s -> denotes n2 q s.
Proof.
  intros Hm. induction 1.
  - apply D_end.
  - apply D_plain; auto.
  - apply D_newline; auto.
  - apply D_simple; auto.
  - eapply D_octal; eauto.
  - eapply D_hex; eauto.
  - eapply D_u; eauto.
  - eapply D_U; eauto.
  - apply D_other; auto.
Qed.

Lemma octval_spec c d : In (c, d) octal_digits <-> is_octal c = true /\ octval c = d.
Proof.
  rewrite <- (table_spec (fun c => if is_octal c then Some (octval c) else None) N.eqb);
    [|intros a b; apply N.eqb_eq|vm_compute; reflexivity..].
  destruct (is_octal c); split; intros; intuition congruence.
Qed.
Lemma is_octal_spec c : is_octal c = true <-> In c (map fst octal_digits).
Proof.
  rewrite in_map_iff. split.
  - intros H. exists (c, octval c). split; auto. apply octval_spec; auto.
  - intros ([c' d] & <- & H). apply octval_spec in H as [H _]; auto.
Qed.
Lemma octal_value_inv ds n : octal_value ds n ->
  (ds = [] /\ n = 0%N) \/ exists ds' c v, ds = ds' ++ [c] /\ octal_value ds' v /\ is_octal c = true /\ n = (8 * v + octval c)%N.
Proof.
  destruct 1 as [|ds c d v H Hd]; auto. right. apply octval_spec in Hd as [H1 <-]. exists ds, c, v. auto.
Qed.
Lemma octal_one c n : octal_value [c] n <-> is_octal c = true /\ n = octval c.
Proof.
  split.
  - intros H. apply octal_value_inv in H as [(E & _)|(ds & d & v & E & H & Hd & ->)]; [discriminate|].
    change [c] with ([] ++ [c]) in E. apply app_inj_tail in E as [<- <-].
    apply octal_value_inv in H as [(_ & ->)|(ds' & ? & ? & E & _)]; [|destruct ds'; discriminate].
    split; auto. 
  - intros [H ->]. change [c] with ([] ++ [c]). replace (octval c) with (8 * 0 + octval c)%N by lia.
    constructor; [constructor|]. apply octval_spec; auto.
Qed.
Lemma octal_snoc ds c n : octal_value (ds ++ [c]) n <-> exists v, octal_value ds v /\ is_octal c = true /\ n = (8 * v + octval c)%N.
Proof.
  split.
  - intros H. apply octal_value_inv in H as [(E & _)|(ds' & d & v & E & H & Hd & ->)]; [destruct ds; discriminate|].
    apply app_inj_tail in E as [<- <-]. eauto.
  - intros (v & H & Hc & ->). constructor; auto. apply octval_spec; auto.
Qed.

Lemma unesc_spec c v : unesc c = Some v <-> In (c, v) simple_escapes.
Proof. apply (table_spec unesc Ascii.eqb); [intros a b; apply Ascii.eqb_eq|vm_compute; reflexivity..]. Qed.

Lemma byte_of_small n : (n < 256)%N -> byte_of n = ascii_of_N n.
Proof. intros H. unfold byte_of. rewrite N.mod_small; auto. Qed.

Lemma emit_inr l r s : emit l r = inr s <-> exists t, r = inr t /\ s = l ++ t.
Proof. destruct r; simpl; split; [discriminate|intros (t & [=] & _)|intros [= <-]; eauto|intros (t' & [= <-] & ->); auto]. Qed.

(** One-step unfolding of the escape loop as used in proofs. *)
Lemma unescape_bs c r :
  unescape (c_bs :: c :: r) =
          if ceq c c_nl then unescape r
          else if ceq c "u" then
            match r with
            | a1 :: a2 :: a3 :: a4 :: r' =>
                match parse_int16 [a1; a2; a3; a4] with
                | None => inl ErrInvalidEscape
                | Some n =>
                    if (55296 <=? n)%Z && (n <=? 57343)%Z then inl ErrSurrogate
                    else emit (encode_rune n) (unescape r')
                end
            | _ => inl ErrTruncated
            end
          else if ceq c "U" then
            match r with
            | a1 :: a2 :: a3 :: a4 :: a5 :: a6 :: a7 :: a8 :: r' =>
                match parse_int16 [a1; a2; a3; a4; a5; a6; a7; a8] with
                | None => inl ErrInvalidEscape
                | Some n =>
                    if (55296 <=? n)%Z && (n <=? 57343)%Z then inl ErrSurrogate
                    else if (1114111 <? n)%Z then inl ErrOutOfRange
                    else emit (encode_rune n) (unescape r')
                end
            | _ => inl ErrTruncated
            end
          else if ceq c "x" then
            match r with
            | a1 :: a2 :: r' =>
                match parse_int16 [a1; a2] with
                | None => inl ErrInvalidEscape
                | Some n => emit [byte_of (Z.to_N (n mod 256))] (unescape r')
                end
            | _ => inl ErrTruncated
            end
          else if is_octal c then
            match r with
            | d1 :: r1 =>
                if is_octal d1 then
                  match r1 with
                  | d2 :: r2 =>
                      if is_octal d2 then
                        let n := ((octval c * 8 + octval d1) * 8 + octval d2)%N in
                        if (256 <=? n)%N then inl ErrInvalidEscape else emit [byte_of n] (unescape r2)
                      else emit [byte_of (octval c * 8 + octval d1)] (unescape r1)
                  | [] => emit [byte_of (octval c * 8 + octval d1)] (unescape r1)
                  end
                else emit [byte_of (octval c)] (unescape r)
            | [] => emit [byte_of (octval c)] (unescape r)
            end
          else match unesc c with
               | Some v => emit [v] (unescape r)
               | None => emit [c_bs; c] (unescape r)
               end.
Proof. reflexivity. Qed.

Lemma octval_lt c : is_octal c = true -> (octval c < 8)%N.
Proof. all_bytes c; vm_compute; intros H; try discriminate; reflexivity. Qed.

Lemma known_bool c : known_escape c <->
  (ceq c c_nl || ceq c "u" || ceq c "U" || ceq c "x" || is_octal c || (if unesc c then true else false)) = true.
Proof.
  unfold known_escape. rewrite <- is_octal_spec. split.
  - intros [H|[H|H]].
    + apply in_map_iff in H as ([c' v] & E & H). simpl in E; subst. apply unesc_spec in H. rewrite H.
      rewrite !orb_true_r. auto.
    + rewrite H. rewrite orb_true_r. auto.
    + simpl in H. destruct H as [<-|[<-|[<-|[<-|[]]]]]; reflexivity.
  - intros H. apply orb_true_iff in H as [H|H].
    + apply orb_true_iff in H as [H|H]; auto. right; right. simpl.
      repeat (apply orb_true_iff in H as [H|H]); unfold ceq in H; apply Ascii.eqb_eq in H; subst; auto.
    + left. destruct (unesc c) as [v|] eqn:E; [|discriminate]. apply unesc_spec in E.
      apply in_map_iff. exists (c, v); auto.
Qed.

Lemma surrogate_bool n : ((55296 <=? n)%Z && (n <=? 57343)%Z) = false <-> ~ surrogate n.
Proof.
  unfold surrogate. destruct (Z.leb_spec 55296 n), (Z.leb_spec n 57343); simpl; split; intros; try lia; try discriminate; auto.
Qed.

Lemma unescape_sound q s : unescape q = inr s -> denotes signed_num q s.
Proof.
  revert s. len_ind q IH. intros s.
  destruct q as [|c0 q]; [intros [= <-]; constructor|].
  destruct (ascii_dec c0 c_bs) as [->|Hc0].
  2:{ rewrite unescape_plain by auto. intros H. apply emit_inr in H as (t & H & ->).
      cbn [app]. constructor; auto. }
  destruct q as [|c r]; [discriminate|]. rewrite unescape_bs.
  assert (Hoct1 : is_octal c = true -> (forall d r', r = d :: r' -> is_octal d = false) ->
            emit [byte_of (octval c)] (unescape r) = inr s -> denotes signed_num (c_bs :: c :: r) s).
  { intros Hc Hr H. apply emit_inr in H as (t & H & ->).
    pose proof (octval_lt c Hc). rewrite byte_of_small by lia.
    apply (D_octal signed_num [c] (octval c) r t); simpl; auto; try lia.
    - apply octal_one; auto.
    - right. intros d r' -> Hin. apply is_octal_spec in Hin. rewrite (Hr d r') in Hin; auto. discriminate.
    - apply IH; auto. simpl; lia. }
  destruct (ceq c c_nl) eqn:E1.
  { unfold ceq in E1; apply Ascii.eqb_eq in E1; subst. intros H. constructor. apply IH; auto. simpl; lia. }
  destruct (ceq c "u") eqn:E2.
  { unfold ceq in E2; apply Ascii.eqb_eq in E2; subst.
    destruct r as [|a1 [|a2 [|a3 [|a4 r]]]]; try discriminate.
    destruct (parse_int16 _) as [n|] eqn:En; [|discriminate].
    destruct (_ && _)%bool eqn:Es; [discriminate|]. intros H. apply emit_inr in H as (t & H & ->).
    apply (D_u signed_num [a1;a2;a3;a4] n r t); auto.
    - apply parse_int16_spec; auto; discriminate.
    - apply surrogate_bool; auto.
    - apply IH; auto. simpl; lia. }
  destruct (ceq c "U") eqn:E3.
  { unfold ceq in E3; apply Ascii.eqb_eq in E3; subst.
    destruct r as [|a1 [|a2 [|a3 [|a4 [|a5 [|a6 [|a7 [|a8 r]]]]]]]]; try discriminate.
    destruct (parse_int16 _) as [n|] eqn:En; [|discriminate].
    destruct (_ && _)%bool eqn:Es; [discriminate|].
    destruct (Z.ltb_spec 1114111 n) as [?|Hn]; [discriminate|]. intros H. apply emit_inr in H as (t & H & ->).
    apply (D_U signed_num [a1;a2;a3;a4;a5;a6;a7;a8] n r t); auto.
    - apply parse_int16_spec; auto; discriminate.
    - apply surrogate_bool; auto.
    - apply IH; auto. simpl; lia. }
  destruct (ceq c "x") eqn:E4.
  { unfold ceq in E4; apply Ascii.eqb_eq in E4; subst.
    destruct r as [|a1 [|a2 r]]; try discriminate.
    destruct (parse_int16 _) as [n|] eqn:En; [|discriminate].
    intros H. apply emit_inr in H as (t & H & ->).
    pose proof (Z.mod_pos_bound n 256 ltac:(lia)).
    rewrite byte_of_small by lia.
    apply (D_hex signed_num [a1;a2] n r t); auto.
    - apply parse_int16_spec; auto; discriminate.
    - apply IH; auto. simpl; lia. }
  destruct (is_octal c) eqn:E5.
  { pose proof (octval_lt c E5).
    destruct r as [|d1 r1]; [apply Hoct1; auto; discriminate|].
    destruct (is_octal d1) eqn:Ed1.
    2:{ apply Hoct1; auto. intros d r' [= -> ->]; auto. }
    pose proof (octval_lt d1 Ed1).
    assert (Hoct2 : (forall d r', r1 = d :: r' -> is_octal d = false) ->
       emit [byte_of (octval c * 8 + octval d1)] (unescape r1) = inr s -> denotes signed_num (c_bs :: c :: d1 :: r1) s).
    { intros Hr H'. apply emit_inr in H' as (t & H' & ->). rewrite byte_of_small by lia.
      apply (D_octal signed_num [c; d1] (octval c * 8 + octval d1) r1 t); simpl; auto; try lia.
      - apply (octal_snoc [c]). exists (octval c). repeat split; auto; [|lia]. apply octal_one; auto.
      - right. intros d r' -> Hin. apply is_octal_spec in Hin. rewrite (Hr d r') in Hin; auto. discriminate.
      - apply IH; auto. simpl; lia. }
    destruct r1 as [|d2 r2]; [apply Hoct2; discriminate|].
    destruct (is_octal d2) eqn:Ed2.
    2:{ apply Hoct2. intros d r' [= -> ->]; auto. }
    cbv zeta. destruct (N.leb_spec 256 ((octval c * 8 + octval d1) * 8 + octval d2)) as [?|Hlt]; [discriminate|].
    intros H'. apply emit_inr in H' as (t & H' & ->). rewrite byte_of_small by lia.
    apply (D_octal signed_num [c; d1; d2] ((octval c * 8 + octval d1) * 8 + octval d2) r2 t); simpl; auto; try lia.
    - apply (octal_snoc [c; d1]). exists (octval c * 8 + octval d1)%N. repeat split; auto; [|lia].
      apply (octal_snoc [c]). exists (octval c). repeat split; auto; [|lia]. apply octal_one; auto.
    - apply IH; auto. simpl; lia. }
  destruct (unesc c) as [v|] eqn:E6.
  - intros H. apply emit_inr in H as (t & H & ->). cbn [app]. constructor.
    + apply unesc_spec; auto.
    + apply IH; auto. simpl; lia.
  - intros H. apply emit_inr in H as (t & H & ->). cbn [app]. apply D_other.
    + rewrite known_bool, E1, E2, E3, E4, E5, E6. discriminate.
    + apply IH; auto. simpl; lia.
Qed.

Lemma simple_not_special c v : In (c, v) simple_escapes ->
  ceq c c_nl = false /\ ceq c "u" = false /\ ceq c "U" = false /\ ceq c "x" = false /\ is_octal c = false.
Proof. vm_compute; intros H; repeat (destruct H as [H|H]; [injection H as <- <-; repeat split|]); contradiction. Qed.
Lemma octal_not_special c : is_octal c = true ->
  ceq c c_nl = false /\ ceq c "u" = false /\ ceq c "U" = false /\ ceq c "x" = false.
Proof. all_bytes c; vm_compute; intros H; try discriminate; repeat split. Qed.

Lemma no_octal_head q : (forall c q', q = c :: q' -> ~ In c (map fst octal_digits)) ->
  match q with [] => True | c :: _ => is_octal c = false end.
Proof.
  intros H. destruct q as [|c q]; auto. destruct (is_octal c) eqn:E; auto.
  exfalso. apply (H c q eq_refl), is_octal_spec; auto.
Qed.

Lemma unescape_complete q s : denotes signed_num q s -> unescape q = inr s.
Proof.
  induction 1 as [|c q s Hc H IH|q s H IH|c v q s Hv H IH|ds n q s Hlen Hds Hn Hmax H IH
    |ds n q s Hlen Hds H IH|ds n q s Hlen Hds Hs H IH|ds n q s Hlen Hds Hs Hn H IH|c q s Hk H IH].
  - reflexivity.
  - rewrite unescape_plain, IH by auto. reflexivity.
  - rewrite unescape_bs. auto.
  - rewrite unescape_bs. destruct (simple_not_special c v Hv) as (-> & -> & -> & -> & ->).
    apply unesc_spec in Hv. rewrite Hv, IH. reflexivity.
  - destruct ds as [|c [|d1 [|d2 [|d3 ds]]]]; simpl in Hlen; try lia.
    + apply octal_one in Hds as [Hc ->]. cbn [app]. rewrite unescape_bs.
      destruct (octal_not_special c Hc) as (-> & -> & -> & ->). rewrite Hc, IH.
      destruct Hmax as [?|Hmax]; [discriminate|]. apply no_octal_head in Hmax.
      rewrite byte_of_small by auto. destruct q as [|d q]; [|rewrite Hmax]; reflexivity.
    + apply (octal_snoc [c]) in Hds as (v & Hv & Hd1 & ->). apply octal_one in Hv as [Hc ->]. cbn [app].
      rewrite unescape_bs. destruct (octal_not_special c Hc) as (-> & -> & -> & ->). rewrite Hc, Hd1, IH.
      destruct Hmax as [?|Hmax]; [discriminate|]. apply no_octal_head in Hmax.
      rewrite (N.mul_comm (octval c)), byte_of_small by auto. destruct q as [|d q]; [|rewrite Hmax]; reflexivity.
    + apply (octal_snoc [c; d1]) in Hds as (w & Hw & Hd2 & ->).
      apply (octal_snoc [c]) in Hw as (v & Hv & Hd1 & ->). apply octal_one in Hv as [Hc ->]. cbn [app].
      rewrite unescape_bs. destruct (octal_not_special c Hc) as (-> & -> & -> & ->). rewrite Hc, Hd1, Hd2, IH.
      cbv zeta. replace ((octval c * 8 + octval d1) * 8 + octval d2)%N with (8 * (8 * octval c + octval d1) + octval d2)%N by lia.
      destruct (N.leb_spec 256 (8 * (8 * octval c + octval d1) + octval d2)); [lia|].
      rewrite byte_of_small by auto. reflexivity.
  - destruct ds as [|a1 [|a2 [|]]]; try discriminate. cbn [app]. rewrite unescape_bs.
    change (ceq "x" c_nl) with false. change (ceq "x" "u") with false. change (ceq "x" "U") with false.
    change (ceq "x" "x") with true. cbv iota.
    apply parse_int16_spec in Hds; [|discriminate]. rewrite Hds, IH. cbn [emit app].
    pose proof (Z.mod_pos_bound n 256 ltac:(lia)). rewrite byte_of_small by lia. reflexivity.
  - destruct ds as [|a1 [|a2 [|a3 [|a4 [|]]]]]; try discriminate. cbn [app]. rewrite unescape_bs.
    change (ceq "u" c_nl) with false. change (ceq "u" "u") with true. cbv iota.
    apply parse_int16_spec in Hds; [|discriminate]. rewrite Hds, IH.
    apply surrogate_bool in Hs. rewrite Hs. reflexivity.
  - destruct ds as [|a1 [|a2 [|a3 [|a4 [|a5 [|a6 [|a7 [|a8 [|]]]]]]]]]; try discriminate. cbn [app]. rewrite unescape_bs.
    change (ceq "U" c_nl) with false. change (ceq "U" "u") with false. change (ceq "U" "U") with true. cbv iota.
    apply parse_int16_spec in Hds; [|discriminate]. rewrite Hds, IH.
    apply surrogate_bool in Hs. rewrite Hs. destruct (Z.ltb_spec 1114111 n); [lia|]. reflexivity.
  - rewrite unescape_bs. rewrite known_bool in Hk.
    destruct (ceq c c_nl); [exfalso; apply Hk; reflexivity|].
    destruct (ceq c "u"); [exfalso; apply Hk; reflexivity|].
    destruct (ceq c "U"); [exfalso; apply Hk; reflexivity|].
    destruct (ceq c "x"); [exfalso; apply Hk; reflexivity|].
    destruct (is_octal c); [exfalso; apply Hk; reflexivity|].
    destruct (unesc c); [exfalso; apply Hk; reflexivity|].
    rewrite IH. reflexivity.
Qed.

Theorem unescape_iff q s : unescape q = inr s <-> denotes signed_num q s.
Proof. split; [apply unescape_sound|apply unescape_complete]. Qed.

Lemma body_case_iff body (t : bool) v e :
  (if negb (contains_byte c_bs body) then (body, t, None)
   else match unescape body with inl e => ([], t, Some e) | inr s => (s, t, None) end) = (v, e, @None uerr)
  <-> e = t /\ unescape body = inr v.
Proof.
  destruct (contains_byte c_bs body) eqn:E; cbn [negb].
  - destruct (unescape body) as [x|x]; split.
    + intros H; discriminate H.
    + intros [_ H]; discriminate H.
    + intros H; injection H as <- <-; auto.
    + intros [-> H]; injection H as ->; auto.
  - assert (~ In c_bs body) by (intros HI; apply contains_byte_In in HI; congruence).
    rewrite (unescape_no_bs body) by auto. split.
    + intros H'; injection H' as <- <-; auto.
    + intros [-> H']; injection H' as ->; auto.
Qed.

Lemma unquote_single_iff q body s t :
  is_q q = true -> (match body with [] => True | h :: _ => h <> q end) ->
  (unquote (q :: body ++ [q]) = (s, t, None) <-> t = false /\ denotes signed_num body s).
Proof.
  intros Hq Hh. rewrite unquote_single_body; auto.
  2:{ unfold is_q, ceq in Hq. apply orb_true_iff in Hq as [Hq|Hq]; apply Ascii.eqb_eq in Hq; auto. }
  rewrite body_case_iff, unescape_iff. tauto.
Qed.
Lemma unquote_triple_iff q body s t :
  is_q q = true ->
  (unquote (q :: q :: q :: body ++ [q; q; q]) = (s, t, None) <-> t = true /\ denotes signed_num body s).
Proof.
  intros Hq. rewrite unquote_triple_body; auto.
  2:{ unfold is_q, ceq in Hq. apply orb_true_iff in Hq as [Hq|Hq]; apply Ascii.eqb_eq in Hq; auto. }
  rewrite body_case_iff, unescape_iff. tauto.
Qed.

(** The documented grammar does not allow signs: [\x+1] is accepted. *)
Lemma hex_value_all ds v : hex_value ds v -> Forall (fun c => In c (map fst hex_digits)) ds.
Proof.
  induction 1 as [|ds c d v H IH Hd]; [constructor|]. apply Forall_app. split; auto. constructor; auto.
  apply in_map_iff. exists (c, d); auto.
Qed.
Lemma sign_not_documented : forall s', ~ denotes strict_num (c_bs :: %"x+1") s'.
Proof.
  intros s' H. inversion H as [|c q s Hc H'| |c v q s Hv H'|ds n q s Hlen Hds Hn Hmax H' E1|ds n q s Hlen Hds H' E1| | |c q s Hk H']; subst.
  - apply Hc; reflexivity.
  - vm_compute in Hv. intuition discriminate.
  - destruct ds as [|c ds]; [simpl in Hlen; lia|]. injection E1 as -> _.
    destruct (octal_value_inv _ _ Hds) as [(? & _)|_]; [discriminate|].
    assert (Hall : forall ds n, octal_value ds n -> Forall (fun c => is_octal c = true) ds).
    { induction 1 as [|? ? ? ? ? ? Hin]; [constructor|]. apply Forall_app; split; auto. constructor; auto.
      apply octval_spec in Hin as [? _]; auto. }
    apply Hall in Hds. inversion Hds. discriminate.
  - destruct ds as [|a [|b [|]]]; try discriminate. cbn in E1. injection E1 as -> -> _.
    apply hex_value_all in Hds. inversion Hds as [|? ? Hin _]. vm_compute in Hin. intuition discriminate.
  - apply Hk. right; right. simpl; auto.
Qed.

(** ** IsCorrectEscaping *)
Lemma correct_escaping_total rs b : Forall (fun r => (r < 256)%N) rs -> correct_escaping b rs <> None.
Proof.
  intros H. revert b; induction H as [|r rs Hr H IH]; intros b; cbn [correct_escaping]; [discriminate|].
  destruct b; cbn [negb]; [|apply IH].
  destruct (N.leb_spec 256 r); [lia|]. destruct (escapable r); [apply IH|discriminate].
Qed.
Lemma runes_ascii s : Forall (fun c => high c = false) s -> runes s = map bN s.
Proof.
  unfold runes. induction s as [|c s IH]; intros H; auto.
  inversion_clear H as [|? ? H1 H2]. cbn [List.length runes_fuel].
  destruct (decode_rune_spec c s) as (r & n & -> & _ & [(_ & -> & ->)|(_ & Hc & _)]); [|congruence].
  cbn [skipn map]. rewrite IH; auto.
Qed.
Lemma is_correct_escaping_ascii s : Forall (fun c => high c = false) s -> is_correct_escaping s <> None.
Proof.
  intros H. unfold is_correct_escaping. rewrite runes_ascii by auto. apply correct_escaping_total.
  clear H. induction s; constructor; auto. pose proof (N_ascii_bounded a). auto.
Qed.

(** No byte >= 0x80 directly after a backslash: then no panic. *)
Definition no_bs_high (s : bytes) : Prop := forall a c b, s = a ++ c_bs :: c :: b -> high c = false.
Lemma no_bs_high_tail c s : no_bs_high (c :: s) -> no_bs_high s.
Proof. intros H a d b ->. apply (H (c :: a) d b). reflexivity. Qed.
Lemma no_bs_high_skip n s : no_bs_high s -> no_bs_high (skipn n s).
Proof. revert s; induction n as [|n IH]; intros [|c s] H; auto. apply IH. eapply no_bs_high_tail; eauto. Qed.

Lemma correct_escaping_no_panic f : forall s b, no_bs_high s ->
  (b = true -> match s with [] => True | c :: _ => high c = false end) ->
  correct_escaping b (runes_fuel f s) <> None.
Proof.
  induction f as [|f IH]; intros s b Hs Hb; [discriminate|].
  destruct s as [|c s]; [discriminate|]. cbn [runes_fuel].
  destruct (decode_rune_spec c s) as (r & n & E & Hn & Hr). rewrite E. cbn [correct_escaping].
  destruct b; cbn [negb].
  - specialize (Hb eq_refl). cbv beta iota in Hb.
    destruct Hr as [(_ & -> & ->)|(_ & Hc & _)]; [|congruence].
    apply bN_low in Hb. destruct (N.leb_spec 256 (bN c)); [lia|].
    destruct (escapable (bN c)); [|discriminate]. apply IH; [|discriminate].
    cbn [skipn]. eapply no_bs_high_tail; eauto.
  - apply IH; [apply (no_bs_high_skip (S n)); auto|].
    intros H. apply N.eqb_eq in H.
    destruct Hr as [(_ & -> & Er)|(Hr & _)]; [|lia].
    rewrite H in Er. change 92%N with (bN c_bs) in Er. apply bN_inj in Er. subst c.
    cbn [skipn]. destruct s as [|d s]; auto. apply (Hs [] d s). reflexivity.
Qed.
Lemma is_correct_escaping_no_panic s : no_bs_high s -> is_correct_escaping s <> None.
Proof. intros H. apply correct_escaping_no_panic; auto. discriminate. Qed.

Lemma print_no_panic tok v t : lexed tok v t -> no_bs_high tok -> print_string v t tok <> Panic.
Proof.
  intros Hl Hn. destruct (print_lexed v t tok Hl) as [(_ & H)|(p & -> & _)]; [|discriminate].
  exfalso. eapply is_correct_escaping_no_panic; eauto.
Qed.
