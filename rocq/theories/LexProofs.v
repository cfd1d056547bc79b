From Verif Require Import Base BaseProofs Ast Utf8 Quote QuoteProofs QuotePrint Lex LexSpec.

(** ** Characters *)
Lemma In_mem (c : ascii) l : In c l <-> existsb (ceq c) l = true.
Proof.
  rewrite existsb_exists. split.
  - intros H. exists c. split; auto. apply ascii_eqb_refl.
  - intros (d & H & E). unfold ceq in E. apply Ascii.eqb_eq in E. subst. auto.
Qed.
Lemma ceq_eq c d : ceq c d = true <-> c = d.
Proof. apply Ascii.eqb_eq. Qed.
Lemma ceq_neq c d : ceq c d = false <-> c <> d.
Proof. apply Ascii.eqb_neq. Qed.
Lemma ceq_refl c : ceq c c = true.
Proof. apply ceq_eq. auto. Qed.
Lemma isIdent_spec c : isIdent c = true <-> name_char c.
Proof.
  unfold name_char. rewrite In_mem.
  assert (H : Bool.eqb (isIdent c) (existsb (ceq c) %"abcdefghijklmnopqrstuvwxyzABCDEFGHIJKLMNOPQRSTUVWXYZ0123456789_" || (128 <=? bN c)%N) = true)
    by (revert c; apply forall_byte; vm_compute; auto).
  apply eqb_prop in H. rewrite H, orb_true_iff, N.leb_le. tauto.
Qed.
Lemma is_digit_spec c : is_digit c = true <-> digit c.
Proof.
  unfold digit. rewrite In_mem.
  assert (H : Bool.eqb (is_digit c) (existsb (ceq c) %"0123456789") = true) by (revert c; apply forall_byte; vm_compute; auto).
  apply eqb_prop in H. rewrite H. tauto.
Qed.
Lemma digit_ident c : is_digit c = true -> isIdent c = true.
Proof. assert (H : implb (is_digit c) (isIdent c) = true) by (revert c; apply forall_byte; vm_compute; auto). destruct (is_digit c); auto. discriminate. Qed.

(** ** Moving over text *)
Definition nls (s : bytes) : Z := Z.of_nat (List.length (filter (ceq c_nl) s)).
Lemma nls_app a b : nls (a ++ b) = (nls a + nls b)%Z.
Proof. unfold nls. rewrite filter_app, app_length. lia. Qed.
Lemma advance_pos f : forall p s, List.length s <= f ->
  p_byte (advance f p s) = (p_byte p + Z.of_nat (List.length s))%Z /\ p_line (advance f p s) = (p_line p + nls s)%Z.
Proof.
  induction f as [|f IH]; intros p s L; [destruct s; [cbn; unfold nls; cbn; lia|cbn in L; lia]|].
  destruct s as [|c s]; [cbn; unfold nls; cbn; lia|]. cbn [advance].
  destruct (decode_rune_spec c s) as (r & n & E & Hn & D). rewrite E.
  cbn [skipn]. cbn [List.length] in L.
  destruct (IH (rune_pos p r (S n)) (skipn n s)) as [I1 I2]; [rewrite skipn_length; lia|]. rewrite I1, I2.
  assert (B1 : p_byte (rune_pos p r (S n)) = (p_byte p + Z.of_nat (S n))%Z) by (unfold rune_pos; destruct (N.eqb r 10); reflexivity).
  rewrite B1. rewrite skipn_length. split; [cbn [List.length]; lia|].
  assert (S1 : c :: s = (c :: firstn n s) ++ skipn n s) by (cbn [app]; rewrite firstn_skipn; auto).
  rewrite S1, nls_app. destruct D as [(H1 & -> & ->)|(H1 & H2 & H3)].
  - cbn [firstn skipn]. unfold rune_pos. change 10%N with (bN c_nl). rewrite bN_eqb. unfold nls at 2. cbn [filter].
    unfold ceq at 1 2. rewrite Ascii.eqb_sym. destruct (Ascii.eqb c_nl c); cbn [p_line List.length]; lia.
  - unfold rune_pos. rewrite (rune_high_neqb r 10) by (auto; lia). cbn [p_line].
    assert (Z0 : nls (c :: firstn n s) = 0%Z).
    { unfold nls. replace (filter _ _) with (@nil ascii); auto. symmetry.
      assert (G : forall l, forallb high l = true -> filter (ceq c_nl) l = []).
      { induction l as [|x l IHl]; auto. cbn [forallb filter]. intros X. apply andb_true_iff in X as [X1 X2].
        destruct (ceq c_nl x) eqn:Ex; auto. apply ceq_eq in Ex. subst. discriminate. }
      apply G. cbn [forallb]. rewrite H2, H3. auto. }
    lia.
Qed.
(** [moved s st st']: the text [s] has been consumed. *)
Record moved (s : bytes) (st st' : lexst) : Prop := Moved {
  mv_rest : l_rest st = s ++ l_rest st';
  mv_byte : p_byte (l_pos st') = (p_byte (l_pos st) + Z.of_nat (List.length s))%Z;
  mv_line : p_line (l_pos st') = (p_line (l_pos st) + nls s)%Z }.
Lemma moved_nil st st' : l_rest st = l_rest st' -> l_pos st = l_pos st' -> moved [] st st'.
Proof. intros H1 H2. constructor; [rewrite H1; auto|rewrite H2; cbn; lia|rewrite H2; unfold nls; cbn; lia]. Qed.
Lemma moved_app a b st st1 st2 : moved a st st1 -> moved b st1 st2 -> moved (a ++ b) st st2.
Proof.
  intros [R1 B1 L1] [R2 B2 L2]. constructor.
  - rewrite R1, R2, app_assoc. auto.
  - rewrite B2, B1, app_length. lia.
  - rewrite L2, L1, nls_app. lia.
Qed.
Lemma read_moved s r st : l_rest st = s ++ r -> moved s st (read (List.length s) st) /\ l_rest (read (List.length s) st) = r.
Proof.
  intros H. unfold read. cbn [l_rest].
  assert (E : firstn (List.length s) (l_rest st) = s) by (rewrite H, firstn_app, Nat.sub_diag, firstn_all; cbn; apply app_nil_r).
  assert (E' : skipn (List.length s) (l_rest st) = r) by (rewrite H, skipn_app, Nat.sub_diag, skipn_all; auto).
  split; auto. rewrite E. destruct (advance_pos (List.length s) (l_pos st) s (le_n _)) as [A1 A2].
  constructor; cbn [l_rest l_pos]; auto. rewrite E'. auto.
Qed.
(** The part of the state that skipping blanks does not change. *)
Definition same_stack (st st' : lexst) : Prop := l_depth st' = l_depth st /\ l_indents st' = l_indents st.
Definition handed (cs : list (Z * bytes)) (st st' : lexst) : Prop :=
  exists ls ss, l_lines st' = l_lines st ++ ls /\ l_suffixes st' = l_suffixes st ++ ss /\ handed_on cs ls ss.
Lemma handed_nil st st' : l_lines st' = l_lines st -> l_suffixes st' = l_suffixes st -> handed [] st st'.
Proof. intros. exists [], []. rewrite !app_nil_r. repeat split; auto. constructor. Qed.
Lemma handed_on_app cs ls ss : handed_on cs ls ss -> forall cs' ls' ss', handed_on cs' ls' ss' -> handed_on (cs ++ cs') (ls ++ ls') (ss ++ ss').
Proof. intros H. induction H; intros; cbn [app] in *; auto; [apply h_blank|apply h_line|apply h_suffix]; auto. Qed.
Lemma handed_app cs cs' st st1 st2 : handed cs st st1 -> handed cs' st1 st2 -> handed (cs ++ cs') st st2.
Proof.
  intros (ls & ss & A & B & C) (ls' & ss' & A' & B' & C'). exists (ls ++ ls'), (ss ++ ss').
  rewrite A', A, B', B, !app_assoc. repeat split; auto. apply handed_on_app; auto.
Qed.
Lemma span_not_spec stop s : exists r, s = span_not stop s ++ r /\ (forall c, In c (span_not stop s) -> stop c = false) /\
  (forall c r', r = c :: r' -> stop c = true).
Proof.
  induction s as [|c s (r & E & A & Bd)]; [exists []; repeat split; auto; [intros ? []|discriminate]|].
  cbn [span_not]. destruct (stop c) eqn:S1.
  - exists (c :: s). split; auto. split; [intros ? []|]. intros d r' X. injection X as -> ->. auto.
  - exists r. cbn [app]. rewrite <- E. split; auto. split; auto. intros d [<-|H]; auto.
Qed.

(** ** Blanks *)
(** What can follow the blanks. *)
Definition not_blank (s : bytes) : Prop :=
  forall c s', s = c :: s' -> ~ In c [c_sp; c_tab; c_cr; c_nl] /\ c <> c_hash /\ ~ (c = c_bs /\ exists s'', s' = c_nl :: s'').
Definition skipped (st : lexst) (r : (token * lexst) + lexst) : Prop :=
  exists g cs, gap (p_byte (l_pos st)) g cs /\
  match r with
  | inl (t, st') => exists st1,
      moved g st st1 /\ handed cs st st1 /\ same_stack st st1 /\ t_pos t = l_pos st1 /\
      moved (t_tok t) st1 st' /\ same_stack st1 st' /\ handed [] st1 st' /\ spelled t /\ maximal t (l_rest st') /\
      l_depth st = 0%Z /\ In (t_kind t) [KChar c_nl; KComment] /\ t_tok t <> []
  | inr st' => moved g st st' /\ handed cs st st' /\ same_stack st st' /\ not_blank (l_rest st')
               /\ (g = [] -> l_clean st' = l_clean st)
  end.
Lemma skipped_cons c st st1 r :
  In c [c_sp; c_tab; c_cr; c_nl] -> moved [c] st st1 -> handed [] st st1 -> same_stack st st1 ->
  skipped st1 r -> skipped st r.
Proof.
  intros Hc M H S (g & cs & G & K). exists (c :: g), cs. split.
  { constructor; auto. rewrite (mv_byte _ _ _ M) in G. exact G. }
  destruct r as [(t & st')|st'].
  - destruct K as (st2 & M2 & H2 & S2 & K). exists st2. split; [apply (moved_app [c] g) with st1; auto|].
    split; [apply (handed_app [] cs) with st1; auto|]. destruct S, S2. split; [split; congruence|].
    destruct K as (K1 & K2 & K3 & K4 & K5 & K6 & K7 & K8 & K9). repeat (split; auto). congruence.
  - destruct K as (M2 & H2 & S2 & NB & _). split; [apply (moved_app [c] g) with st1; auto|].
    split; [apply (handed_app [] cs) with st1; auto|]. destruct S, S2. split; [split; congruence|]. split; auto. discriminate.
Qed.
Lemma set_line_moved a b st : moved [] st (set_line a b st).
Proof. apply moved_nil; auto. Qed.
Lemma skip_spec fuel : forall st n, List.length (l_rest st) < fuel -> skipped st (skip_blanks fuel st n).
Proof.
  induction fuel as [|fuel IH]; intros st n L; [lia|]. cbn [skip_blanks].
  assert (STOP : not_blank (l_rest st) -> skipped st (inr st)).
  { intros NB. exists [], []. split; [constructor|]. split; [apply moved_nil; auto|]. split; [apply handed_nil; auto|]. split; [split; auto|]. auto. }
  destruct (l_rest st) as [|c s] eqn:R; [apply STOP; intros ? ? X; discriminate|].
  assert (Rd : forall st0, l_rest st0 = c :: s -> moved [c] st0 (read 1 st0) /\ l_rest (read 1 st0) = s).
  { intros st0 E. apply (read_moved [c] s st0). auto. }
  destruct (ceq c c_sp || ceq c c_tab || ceq c c_cr || ceq c c_nl) eqn:Bl.
  { assert (Hc : In c [c_sp; c_tab; c_cr; c_nl]).
    { rewrite !orb_true_iff, !ceq_eq in Bl. cbn. intuition. }
    destruct (ceq c c_nl) eqn:Nl.
    - apply ceq_eq in Nl. subst c. destruct (Rd (set_line true 0 st) R) as [M Rr].
      destruct (Z.eqb_spec (l_depth (set_line true 0 st)) 0) as [D|D].
      + exists [], []. split; [constructor|]. exists (set_line true 0 st). cbn [here t_pos t_tok t_kind].
        split; [apply set_line_moved|]. split; [apply handed_nil; auto|]. split; [split; auto|]. split; auto. split; auto.
        split; [split; auto|]. split; [apply handed_nil; auto|]. split.
        { red. cbn [t_kind t_tok]. split; auto. left; auto. }
        split; [|repeat split; auto; [left; auto|discriminate]]. intros d s' _. cbn [t_kind t_tok]. split.
        { intros k. assert (F : forallb (fun x => negb (beq (fst x) ([c_nl] ++ [d]))) operators = true) by (revert d; apply forall_byte; vm_compute; auto).
          rewrite forallb_forall in F. intros X. apply F in X. cbn [fst] in X. rewrite beq_refl in X. discriminate. }
        intros (k & X). exfalso. cbn [keywords In] in X. repeat (destruct X as [X|X]; [discriminate|]). exact X.
      + eapply skipped_cons; [exact Hc| | | |apply IH].
        * apply (moved_app [] [c_nl]) with (set_line true 0 st); [apply set_line_moved|exact M].
        * apply handed_nil; auto.
        * split; auto.
        * rewrite Rr. cbn [List.length] in L. lia.
    - destruct (ceq c c_sp && l_clean st) eqn:Ic.
      + destruct (Rd (set_line (l_clean st) (S (l_indent st)) st) R) as [M Rr].
        eapply skipped_cons; [exact Hc| | | |apply IH].
        * apply (moved_app [] [c]) with (set_line (l_clean st) (S (l_indent st)) st); [apply set_line_moved|exact M].
        * apply handed_nil; auto.
        * split; auto.
        * rewrite Rr. cbn [List.length] in L. lia.
      + destruct (Rd st R) as [M Rr]. eapply skipped_cons; [exact Hc|exact M| | |apply IH].
        * apply handed_nil; auto.
        * split; auto.
        * rewrite Rr. cbn [List.length] in L. lia. }
  destruct (ceq c c_hash) eqn:Hh.
  { apply ceq_eq in Hh. subst c. cbv zeta. set (st0 := set_line true 0 st). change (l_rest st0) with (l_rest st). rewrite R.
    cbn [span_not]. change (is_nl c_hash) with false. cbv iota.
    destruct (span_not_spec is_nl s) as (r & Es & A & Bd). set (txt := span_not is_nl s) in *.
    assert (NN : ~ In c_nl txt) by (intros X; apply A in X; discriminate).
    destruct (read_moved (c_hash :: txt) r st0) as [M Rr]; [change (l_rest st0) with (l_rest st); rewrite R; cbn [app]; rewrite <- Es; auto|].
    destruct (Z.eqb (l_depth st0) 0 && l_clean st) eqn:Top.
    - exists [], []. split; [constructor|]. exists st0. cbn [here t_pos t_tok t_kind]. apply andb_true_iff in Top as [D _]. apply Z.eqb_eq in D.
      split; [apply set_line_moved|]. split; [apply handed_nil; auto|]. split; [split; auto|]. split; auto. split; auto.
      split; [split; auto|]. split; [apply handed_nil; auto|]. split; [exists txt; auto|]. split; [|repeat split; auto; [right; left; auto|discriminate]].
      intros d s' X. cbn [t_kind]. rewrite Rr in X. apply Bd in X. unfold is_nl in X. apply ceq_eq in X. auto.
    - match goal with |- skipped st (skip_blanks fuel ?x 0) => set (st2 := x) end.
      assert (K : l_rest st2 = r /\ l_pos st2 = l_pos (read (List.length (c_hash :: txt)) st0) /\ same_stack st st2 /\
                  handed [(p_byte (l_pos st), c_hash :: txt)] st st2).
      { unfold st2. destruct (1 <? n); destruct (is_suffix (l_seen st0)); (split; [exact Rr|split; [reflexivity|split; [split; reflexivity|]]]); unfold handed;
          cbn [add_comments read l_lines l_suffixes set_line st0]; do 2 eexists; rewrite <- ?app_assoc; (split; [reflexivity|split; [reflexivity|]]); cbn [app];
          try (apply (h_blank (l_pos st))); (apply (h_line (l_pos st)) || apply (h_suffix (l_pos st))); constructor. }
      destruct K as (K1 & K2 & K3 & K4).
      assert (M2 : moved (c_hash :: txt) st st2).
      { destruct M as [M1 M2 M3]. constructor; [rewrite K1; change (l_rest st) with (l_rest st0); rewrite M1, Rr; auto|rewrite K2; auto|rewrite K2; auto]. }
      destruct (IH st2 0) as (g & cs & G & K).
      { rewrite K1. cbn [List.length] in L. rewrite Es, app_length in L. lia. }
      exists (c_hash :: txt ++ g), ((p_byte (l_pos st), c_hash :: txt) :: cs). split.
      { apply g_comment; auto.
        - intros x g' ->. assert (X : exists y, r = x :: y).
          { destruct (skip_blanks fuel st2 0) as [(t & st')|st'].
            - destruct K as (st3 & M3 & _). pose proof (mv_rest _ _ _ M3) as E. rewrite K1 in E. cbn [app] in E. eauto.
            - destruct K as (M3 & _). pose proof (mv_rest _ _ _ M3) as E. rewrite K1 in E. cbn [app] in E. eauto. }
          destruct X as (y & X). apply Bd in X. apply ceq_eq in X. auto.
        - rewrite (mv_byte _ _ _ M2) in G. cbn [List.length] in G. replace (p_byte (l_pos st) + 1 + Z.of_nat (List.length txt))%Z with (p_byte (l_pos st) + Z.of_nat (S (List.length txt)))%Z by lia. exact G. }
      destruct (skip_blanks fuel st2 0) as [(t & st')|st'].
      + destruct K as (st3 & M3 & H3 & S3 & K). exists st3. split; [apply (moved_app (c_hash :: txt) g) with st2; auto|].
        split; [apply (handed_app [_] cs) with st2; auto|]. destruct K3, S3. split; [split; congruence|].
        destruct K as (Q1 & Q2 & Q3 & Q4 & Q5 & Q6 & Q7 & Q8 & Q9). repeat (split; auto). congruence.
      + destruct K as (M3 & H3 & S3 & NB & _). split; [apply (moved_app (c_hash :: txt) g) with st2; auto|].
        split; [apply (handed_app [_] cs) with st2; auto|]. destruct K3, S3. split; [split; congruence|]. split; auto. discriminate. }
  destruct (ceq c c_bs && match s with d :: _ => ceq d c_nl | [] => false end) eqn:Cn.
  { apply andb_true_iff in Cn as [E1 E2]. apply ceq_eq in E1. subst c. destruct s as [|d s]; [discriminate|]. apply ceq_eq in E2. subst d.
    destruct (read_moved [c_bs; c_nl] s st) as [M Rr]; [rewrite R; auto|]. cbn [List.length] in M, Rr.
    destruct (IH (read 2 st) n) as (g & cs & G & K); [rewrite Rr; cbn [List.length] in L; lia|].
    exists (c_bs :: c_nl :: g), cs. split; [constructor; rewrite (mv_byte _ _ _ M) in G; exact G|].
    assert (H0 : handed [] st (read 2 st)) by (apply handed_nil; auto).
    destruct (skip_blanks fuel (read 2 st) n) as [(t & st')|st'].
    - destruct K as (st3 & M3 & H3 & S3 & K). exists st3. split; [apply (moved_app [c_bs; c_nl] g) with (read 2 st); auto|].
      split; [apply (handed_app [] cs) with (read 2 st); auto|]. split; auto.
    - destruct K as (M3 & H3 & S3 & NB & _). split; [apply (moved_app [c_bs; c_nl] g) with (read 2 st); auto|].
      split; [apply (handed_app [] cs) with (read 2 st); auto|]. split; auto. split; auto. discriminate. }
  apply STOP. intros d s' X. injection X as <- <-. split; [|split].
  - intros X. apply In_mem in X. cbn [existsb] in X. rewrite orb_false_r in X. rewrite <- !orb_assoc in Bl. congruence.
  - intros ->. discriminate.
  - intros (-> & s'' & ->). discriminate.
Qed.

(** ** Operators *)
Definition ops : bytes := %"<>=!+-*/%|&~^".
Lemma op_token_norm c d e e' s s' : ceq e "=" = ceq e' "=" -> op_token c (d :: e :: s) = op_token c (d :: e' :: s').
Proof.
  intros H. unfold op_token. cbn [nth_error].
  destruct (ceq c "~"); auto. destruct (ceq c "*" && ceq d "*"); auto. destruct (ceq c "-" && ceq d ">"); auto.
  destruct (ceq c d); cbn [Nat.sub nth_error]; auto.
  destruct (ceq c "/"); cbn [Nat.sub nth_error]; [rewrite H; auto|]. destruct (ceq c "<"); cbn [Nat.sub nth_error]; [rewrite H; auto|].
  destruct (ceq c ">"); cbn [Nat.sub nth_error]; [rewrite H; auto|]. auto.
Qed.
Definition in_ops (s : bytes) : bool := existsb (fun x => beq (fst x) s) operators.
Definition in_ops_k (s : bytes) (k : kind) : bool :=
  existsb (fun x => beq (fst x) s && match k, snd x with
     | KEq, KEq | KNe, KNe | KLe, KLe | KGe, KGe | KStarStar, KStarStar | KIntDiv, KIntDiv | KLsh, KLsh | KRsh, KRsh | KArrow, KArrow | KAugm, KAugm => true
     | _, _ => false end) operators.
Lemma in_ops_k_spec s k : in_ops_k s k = true -> In (s, k) operators.
Proof.
  intros A. apply existsb_exists in A as ((x, k') & Hi & E). cbn [fst snd] in E. apply andb_true_iff in E as [E1 E2].
  apply beq_eq in E1. subst x. destruct k, k'; try discriminate; exact Hi.
Qed.
Lemma in_ops_spec s k : In (s, k) operators -> in_ops s = true.
Proof. intros H. apply existsb_exists. exists (s, k). split; auto. apply beq_refl. Qed.
(** [s] is the input after [c], at most two characters of which matter. *)
Definition op_ok (c : ascii) (s : bytes) : bool :=
  let (k, n) := op_token c s in
  let tok := firstn n (c :: s) in
  (in_ops_k tok k || match k with KChar d => ceq d c && Nat.eqb n 1 | _ => false end) &&
  Nat.ltb 0 n && Nat.leb n (S (List.length s)) && Nat.leb n 3 && (negb (Nat.eqb n 3) || match s with [_; e] => ceq e "=" | _ => false end) &&
  match skipn n (c :: s) with d :: _ => negb (in_ops (tok ++ [d])) | [] => true end.
Lemma op_brute : forallb (fun c => op_ok c [] && forallb (fun d => op_ok c [d] && op_ok c [d; "="%char] && op_ok c [d; "a"%char]) all_bytes) ops = true.
Proof. vm_compute. reflexivity. Qed.
Lemma long_ops : forallb (fun x => Nat.ltb (List.length (fst x)) 3 || match fst x with [_; _; e] => ceq e "=" | _ => false end) operators = true.
Proof. reflexivity. Qed.
Lemma op_good c s : In c ops -> exists k n, op_token c s = (k, n) /\
  0 < n /\ n <= S (List.length s) /\
  (In (firstn n (c :: s), k) operators \/ (k = KChar c /\ n = 1)) /\
  (forall d r, skipn n (c :: s) = d :: r -> forall k', ~ In (firstn n (c :: s) ++ [d], k') operators).
Proof.
  intros H. pose proof op_brute as Br. rewrite forallb_forall in Br. apply Br in H. clear Br. apply andb_true_iff in H as [H0 H1].
  rewrite forallb_forall in H1.
  assert (FIN : forall s, op_ok c s = true -> exists k n, op_token c s = (k, n) /\ 0 < n /\ n <= S (List.length s) /\ n <= 3 /\
    (n = 3 -> exists d, s = [d; "="%char]) /\ (In (firstn n (c :: s), k) operators \/ (k = KChar c /\ n = 1)) /\
    (forall d r, skipn n (c :: s) = d :: r -> in_ops (firstn n (c :: s) ++ [d]) = false)).
  { clear. intros s H. unfold op_ok in H. destruct (op_token c s) as [k n]. exists k, n. split; auto.
    rewrite !andb_true_iff in H. destruct H as [[[[[K A] Bq] C3] D] E].
    apply Nat.ltb_lt in A. apply Nat.leb_le in Bq, C3. split; auto. split; auto. split; auto. split; [|split].
    - intros ->. cbn [Nat.eqb negb orb] in D. destruct s as [|x [|y [|]]]; try discriminate. apply ceq_eq in D. subst. eauto.
    - apply orb_true_iff in K as [K|K]; [left; apply in_ops_k_spec; auto|right]. destruct k; try discriminate. apply andb_true_iff in K as [K1 K2].
      apply ceq_eq in K1. apply Nat.eqb_eq in K2. subst. auto.
    - intros d r X. rewrite X in E. apply negb_true_iff. auto. }
  assert (W : forall n d k', in_ops (firstn n (c :: s) ++ [d]) = false -> ~ In (firstn n (c :: s) ++ [d], k') operators).
  { intros n d k' X Y. apply in_ops_spec in Y. congruence. }
  destruct s as [|d [|e s]].
  - apply FIN in H0 as (k & n & E & A1 & A2 & A3 & A4 & A5 & A6). exists k, n. repeat split; auto. intros. eapply W, A6; eauto.
  - pose proof (H1 d (all_bytes_complete d)) as X. rewrite !andb_true_iff in X. destruct X as [[X _] _].
    apply FIN in X as (k & n & E & A1 & A2 & A3 & A4 & A5 & A6). exists k, n. repeat split; auto. intros. eapply W, A6; eauto.
  - pose proof (H1 d (all_bytes_complete d)) as X. rewrite !andb_true_iff in X. destruct X as [[_ X1] X2].
    set (e' := if ceq e "=" then "="%char else "a"%char).
    assert (X : op_ok c [d; e'] = true) by (unfold e'; destruct (ceq e "="); auto).
    rewrite (op_token_norm c d e e' s []) by (unfold e'; destruct (ceq e "=") eqn:Q; auto).
    apply FIN in X as (k & n & E & A1 & A2 & A3 & A4 & A5 & A6). exists k, n. split; auto. split; auto. split; [cbn [List.length]; lia|].
    assert (Q : n = 1 \/ n = 2 \/ n = 3) by lia. destruct Q as [-> | [-> | ->]].
    + split; [exact A5|]. intros d0 r Y. cbn [skipn] in Y. injection Y as <- <-. intros k'. apply (W 1). apply (A6 d [e']). reflexivity.
    + split; [exact A5|]. intros d0 r Y. cbn [skipn] in Y. injection Y as <- <-. intros k' Z.
      destruct (ceq e "=") eqn:Qe.
      * assert (e' = e) by (unfold e'; apply ceq_eq in Qe; subst; auto). subst e'. pose proof (A6 e []) as A7. rewrite H in A7. specialize (A7 eq_refl).
        apply in_ops_spec in Z. cbn [firstn app] in *. congruence.
      * pose proof long_ops as LO. rewrite forallb_forall in LO. apply LO in Z. cbn in Z. unfold ceq in *. congruence.
    + destruct (A4 eq_refl) as (d' & Y). injection Y as <- Y. assert (e = "="%char).
      { unfold e' in Y. destruct (ceq e "=") eqn:Qe; [apply ceq_eq; auto|discriminate]. } subst e.
      assert (E2 : e' = "="%char) by reflexivity. rewrite E2 in *. split; [exact A5|].
      intros d0 r Z k' I. pose proof long_ops as LO. rewrite forallb_forall in LO. apply LO in I. cbn in I. discriminate.
Qed.

(** ** Names and numbers *)
Definition ends_e (pre : bytes) : Prop := exists b d, pre = b ++ [d] /\ In d %"eE".
Lemma ends_e_snoc pre c : ends_e (pre ++ [c]) <-> (ceq c "e" || ceq c "E")%char = true.
Proof.
  rewrite orb_true_iff, !ceq_eq. split.
  - intros (b & d & E & H). apply app_inj_tail in E as [_ ->]. cbn in H. destruct H as [<-|[<-|[]]]; auto.
  - intros H. exists pre, c. split; auto. cbn. destruct H; auto.
Qed.
Lemma scan_name s : forall e, exists r, s = scan_ident false e s ++ r /\ Forall name_char (scan_ident false e s) /\
  (forall c r', r = c :: r' -> ~ name_char c).
Proof.
  induction s as [|c s IH]; intros e; cbn [scan_ident]; [exists []; repeat split; auto; discriminate|].
  rewrite andb_false_r, orb_false_r. destruct (isIdent c) eqn:I.
  - destruct (IH (ceq c "e" || ceq c "E")%char) as (r & E & F & M). exists r. cbn [app]. rewrite <- E. repeat split; auto.
    constructor; auto. apply isIdent_spec; auto.
  - exists (c :: s). repeat split; auto. intros c0 r' X. injection X as <- <-. rewrite <- isIdent_spec. congruence.
Qed.
Lemma scan_number s : forall pre e, (e = true <-> ends_e pre) ->
  exists r, s = scan_ident true e s ++ r /\
  (forall b c s', scan_ident true e s = b ++ c :: s' -> number_char (pre ++ b) c) /\
  (forall c r', r = c :: r' -> ~ number_char (pre ++ scan_ident true e s) c).
Proof.
  induction s as [|c s IH]; intros pre e He; cbn [scan_ident].
  { exists []. repeat split; auto; [intros b c s' X; destruct b; discriminate|discriminate]. }
  rewrite andb_true_r.
  assert (NC : (isIdent c || (ceq c "+" || ceq c "-") && e)%char = true <-> number_char pre c).
  { unfold number_char. rewrite orb_true_iff, andb_true_iff, isIdent_spec, He. unfold ends_e.
    rewrite orb_true_iff, !ceq_eq. change (In c %"+-") with ("+" = c \/ "-" = c \/ False)%char.
    assert (Sy : (c = "+" \/ c = "-")%char <-> ("+" = c \/ "-" = c \/ False)%char) by (split; [intros [-> | ->]; auto|intros [<-|[<-|[]]]; auto]).
    rewrite Sy. tauto. }
  destruct (isIdent c || (ceq c "+" || ceq c "-") && e)%char.
  - destruct (IH (pre ++ [c]) (ceq c "e" || ceq c "E")%char) as (r & E & F & M); [rewrite ends_e_snoc; tauto|].
    exists r. cbn [app]. rewrite <- E. split; auto. split.
    + intros b d s' X. destruct b as [|x b].
      * injection X as <- _. rewrite app_nil_r. tauto.
      * injection X as <- X. replace (pre ++ c :: b) with ((pre ++ [c]) ++ b) by (rewrite <- app_assoc; auto). eapply F; eauto.
    + intros d r' X. replace (pre ++ c :: scan_ident true (ceq c "e" || ceq c "E") s)%char with ((pre ++ [c]) ++ scan_ident true (ceq c "e" || ceq c "E") s)%char by (rewrite <- app_assoc; auto).
      eapply M; eauto.
  - exists (c :: s). split; auto. split; [intros b d s' X; destruct b; discriminate|].
    intros d r' X. injection X as <- <-. rewrite app_nil_r. intros Y. apply NC in Y. discriminate.
Qed.
Lemma ident_kind_spec tok : (In (tok, ident_kind tok) keywords) \/
  ((forall k, ~ In (tok, k) keywords) /\ ident_kind tok = match tok with c :: _ => if is_digit c then KInt else KIdent | [] => KIdent end).
Proof.
  unfold ident_kind.
  repeat match goal with |- context [beq tok ?x] => destruct (beq_spec tok x) as [->|?]; [left; cbn; tauto|] end.
  right. split; auto. intros k X. cbn [keywords In] in X.
  repeat (destruct X as [X|X]; [injection X; intros; subst; congruence|]). exact X.
Qed.
Lemma keyword_no_op tok k c k' : In (tok, k) keywords -> ~ In (tok ++ [c], k') operators.
Proof.
  intros K O. assert (X : forallb (fun x => match fst x with a :: _ => isIdent a | [] => false end) keywords = true) by reflexivity.
  assert (Y : forallb (fun x => match fst x with a :: _ => negb (isIdent a) | [] => false end) operators = true) by reflexivity.
  rewrite forallb_forall in X, Y. apply X in K. apply Y in O. cbn [fst] in *. destruct tok as [|a tok]; [discriminate|].
  cbn [app] in O. rewrite K in O. discriminate.
Qed.
Lemma keyword_first tok k : In (tok, k) keywords -> exists c s, tok = c :: s /\ is_digit c = false.
Proof.
  intros K. assert (X : forallb (fun x => match fst x with a :: _ => negb (is_digit a) | [] => false end) keywords = true) by reflexivity.
  rewrite forallb_forall in X. apply X in K. cbn [fst] in K. destruct tok as [|c s]; [discriminate|]. exists c, s. split; auto. apply negb_true_iff. auto.
Qed.
Lemma keyword_kind tok k : In (tok, k) keywords -> match k with KChar _ | KIdent | KInt | KString | KComment | KEof | KIndent | KUnindent => False | _ => True end.
Proof. intros K. cbn [keywords In] in K. repeat (destruct K as [K|K]; [injection K as _ <-; exact I|]). contradiction. Qed.
Lemma operator_kind tok k : In (tok, k) operators -> match k with KChar _ | KIdent | KInt | KString | KComment | KEof | KIndent | KUnindent => False | _ => True end.
Proof. intros K. cbn [operators In] in K. repeat (destruct K as [K|K]; [injection K as _ <-; exact I|]). contradiction. Qed.
Lemma char_no_op c d k : ~ In c ops -> ~ In ([c] ++ [d], k) operators.
Proof.
  intros H X. apply H. assert (Y : forallb (fun x => match fst x with a :: _ => existsb (ceq a) ops | [] => false end) operators = true) by reflexivity.
  rewrite forallb_forall in Y. apply Y in X. cbn [fst app] in X. apply In_mem. exact X.
Qed.
Lemma char_no_keyword c k : ~ In ([c], k) keywords.
Proof. cbn [keywords In]. intros X. repeat (destruct X as [X|X]; [discriminate|]). exact X. Qed.

(** ** One token *)
Definition depth_after (t : token) (d : Z) : Z :=
  match t_kind t with
  | KChar c => if existsb (ceq c) %"[({" then d + 1 else if existsb (ceq c) %"])}" then d - 1 else d
  | _ => d
  end%Z.
Definition plain (k : kind) : Prop := ~ In k [KChar c_nl; KComment; KEof; KIndent; KUnindent].
Record tokstep (st : lexst) (t : token) (st' : lexst) : Prop := TS {
  ts_pos : t_pos t = l_pos st;
  ts_moved : moved (t_tok t) st st';
  ts_spelled : spelled t;
  ts_max : maximal t (l_rest st');
  ts_depth : l_depth st' = depth_after t (l_depth st);
  ts_indents : l_indents st' = l_indents st;
  ts_lines : l_lines st' = l_lines st;
  ts_suf : l_suffixes st' = l_suffixes st;
  ts_clean : l_clean st' = l_clean st;
  ts_ind : l_indent st' = l_indent st;
  ts_kind : plain (t_kind t) /\ t_tok t <> [] }.
Lemma kind_plain k : match k with KChar c => c <> c_nl | KComment | KEof | KIndent | KUnindent => False | _ => True end -> plain k.
Proof.
  intros H X. cbn [In] in X. destruct X as [X|[X|[X|[X|[X|[]]]]]]; rewrite <- X in H; auto.
Qed.
Ltac emit_step Rd :=
  match type of Rd with moved _ ?s (read _ ?s) /\ _ => destruct Rd as [?M ?Rr] end;
  constructor; cbn [here t_pos t_tok t_kind read set_depth l_depth l_indents l_lines l_suffixes l_clean l_indent]; auto.
Lemma lex_string_split w tok v t rest : lex_string w = Some (tok, v, t, rest) -> w = tok ++ rest /\ unquote tok = (v, t, None).
Proof.
  intros Ls. unfold lex_string in Ls. destruct (scan_string w) as [rest'|] eqn:Sc; [|discriminate].
  destruct (unquote (firstn _ w)) as [[v' t'] e] eqn:Eu. destruct e; [discriminate|]. injection Ls as H1 H2 H3 H4. subst v' t' rest'.
  rewrite H1 in Eu. split; auto. apply scan_shape in Sc as (raw & q & t0 & body & Hq & Es & Hb).
  revert Es H1. generalize (rawp raw ++ qs t0 q ++ body ++ qs t0 q). intros x -> H1.
  rewrite app_length, Nat.add_sub, firstn_app, Nat.sub_diag, firstn_all, firstn_O, app_nil_r in H1. rewrite H1. auto.
Qed.
Lemma lex_token_spec st c s : l_rest st = c :: s -> not_blank (l_rest st) ->
  match lex_token st with LexToken t st' => tokstep st t st' | LexError => True end.
Proof.
  intros R NB. unfold lex_token. rewrite R.
  assert (Hnl : c <> c_nl).
  { destruct (NB c s R) as (H & _). intros ->. apply H. right; right; right; left; auto. }
  assert (CH : forall d, ~ In c ops -> In c %"[]{}().:;," -> d = depth_after (here (KChar c) [c] st) (l_depth st) ->
     tokstep st (here (KChar c) [c] st) (read 1 (set_depth d st))).
  { intros d Ho Hc ->. pose proof (read_moved [c] s (set_depth (depth_after (here (KChar c) [c] st) (l_depth st)) st) R) as Rd.
    emit_step Rd.
    - destruct M as [M1 M2 M3]. constructor; auto.
    - split; auto. right. change %"[]{}().:;,<>=!+-*/%|&~^" with (%"[]{}().:;," ++ ops). apply in_or_app. auto.
    - intros e r _. cbn [here t_kind t_tok]. split; [intros; apply char_no_op; auto|]. intros (k & X). exfalso. eapply char_no_keyword, X.
    - split; [apply kind_plain; auto|discriminate]. }
  assert (NOPS : forall l, forallb (fun x => negb (existsb (ceq x) ops)) l = true -> In c l -> ~ In c ops).
  { intros l F Hi X. rewrite forallb_forall in F. apply F in Hi. apply In_mem in X. rewrite X in Hi. discriminate. }
  assert (INCL : forall l, forallb (fun x => existsb (ceq x) %"[]{}().:;,") l = true -> In c l -> In c %"[]{}().:;,").
  { intros l F Hi. rewrite forallb_forall in F. apply F in Hi. apply In_mem in Hi. auto. }
  unfold mem_char.
  destruct (existsb (ceq c) %"[({") eqn:B1.
  { apply In_mem in B1 as B1'. apply CH; [apply (NOPS %"[({"); auto|apply (INCL %"[({"); auto|].
    unfold depth_after. cbn [here t_kind]. rewrite B1. auto. }
  destruct (existsb (ceq c) %"])}") eqn:B2.
  { apply In_mem in B2 as B2'. apply CH; [apply (NOPS %"])}"); auto|apply (INCL %"])}"); auto|].
    unfold depth_after. cbn [here t_kind]. rewrite B1, B2. auto. }
  destruct (existsb (ceq c) %".:;,") eqn:B3.
  { apply In_mem in B3 as B3'. pose proof (CH (l_depth st)) as X. cbn [firstn].
    assert (Ed : depth_after (here (KChar c) [c] st) (l_depth st) = l_depth st) by (unfold depth_after; cbn [here t_kind]; rewrite B1, B2; auto).
    specialize (X (NOPS %".:;," eq_refl B3') (INCL %".:;," eq_refl B3') (eq_sym Ed)). destruct X. constructor; auto. }
  destruct (existsb (ceq c) %"<>=!+-*/%|&~^") eqn:B4.
  { apply In_mem in B4. destruct (op_good c s B4) as (k & n & E & P0 & P1 & K & Mx). rewrite E.
    assert (Q : c :: s = firstn n (c :: s) ++ skipn n (c :: s)) by (rewrite firstn_skipn; auto).
    assert (Ln : List.length (firstn n (c :: s)) = n) by (rewrite firstn_length; cbn [List.length]; lia).
    pose proof (read_moved (firstn n (c :: s)) (skipn n (c :: s)) st) as Rd. rewrite <- Q, Ln in Rd. specialize (Rd R).
    emit_step Rd.
    - destruct K as [K|[-> ->]].
      + unfold spelled. cbn [here t_kind t_tok]. pose proof (operator_kind _ _ K). destruct k; try contradiction; left; exact K.
      + cbn [firstn]. split; auto. right. change %"[]{}().:;,<>=!+-*/%|&~^" with (%"[]{}().:;," ++ ops). apply in_or_app. auto.
    - intros d r X. rewrite Rr in X. cbn [here t_kind t_tok]. pose proof (Mx d r X) as Y.
      assert (NK : (exists k0, In (firstn n (c :: s), k0) keywords) -> ~ name_char d).
      { intros (k0 & Z). exfalso. apply keyword_first in Z as KF.
        assert (F : forallb (fun x => match fst x with a :: _ => isIdent a | [] => false end) keywords = true) by reflexivity.
        rewrite forallb_forall in F. apply F in Z. cbn [fst] in Z. destruct n; [lia|]. cbn [firstn] in Z.
        assert (G : forallb (fun x => negb (isIdent x)) ops = true) by reflexivity. rewrite forallb_forall in G. apply G in B4. rewrite Z in B4. discriminate. }
      destruct K as [K|[-> ->]]; [pose proof (operator_kind _ _ K); destruct k; try contradiction; exact (conj Y NK)|exact (conj Y NK)].
    - destruct K as [K|[-> ->]]; [pose proof (operator_kind _ _ K); unfold depth_after; cbn [here t_kind]; destruct k; try contradiction; auto|].
      unfold depth_after. cbn [here t_kind]. rewrite B1, B2. auto.
    - split; [|destruct n; [lia|discriminate]]. destruct K as [K|[-> ->]]; apply kind_plain; auto.
      pose proof (operator_kind _ _ K). destruct k; try contradiction; auto. }
  destruct (starts_string (c :: s)) eqn:Ss.
  { destruct (lex_string (c :: s)) as [[[[tok v] t] rest]|] eqn:Ls; auto.
    pose proof (lex_string_split _ _ _ _ _ Ls) as E.
    destruct E as [E U]. pose proof (read_moved tok rest st) as Rd. rewrite <- E in Rd. specialize (Rd R).
    assert (Lx : QuotePrint.lexed tok v t) by (exists rest; rewrite <- E; auto).
    emit_step Rd.
    - split; auto. cbn [here t_tok]. pose proof (lexed_relocate tok v t [] Lx eq_refl eq_refl) as X. rewrite app_nil_r in X.
      unfold lex_string in X. destruct (scan_string tok) as [r|]; [|discriminate]. destruct (unquote (firstn (List.length tok - List.length r) tok)) as [[? ?] [?|]]; [discriminate|]. injection X as _ _ _ ->. auto.
    - intros d r _. exact I.
    - split; [apply kind_plain; exact I|]. intros ->. apply lexed_shape in Lx as (_ & raw & q & body & Hq & X & _). destruct raw; destruct t; discriminate. }
  destruct (isIdent c) eqn:Ic; cbn [negb]; auto. cbv zeta.
  set (tok := scan_ident (is_digit c) false (c :: s)).
  assert (T1 : exists tl, tok = c :: tl) by (unfold tok; cbn [scan_ident]; rewrite Ic; cbn [orb]; eauto). destruct T1 as (tl & T1).
  assert (X : exists r, c :: s = tok ++ r /\ (is_digit c = false -> Forall name_char tok /\ forall d r', r = d :: r' -> ~ name_char d) /\
     (is_digit c = true -> (forall b d s', tok = b ++ d :: s' -> number_char b d) /\ forall d r', r = d :: r' -> ~ number_char tok d)).
  { unfold tok. destruct (is_digit c).
    - destruct (scan_number (c :: s) [] false) as (r & E & A & Bd); [split; [discriminate|intros (b & d & X & _); destruct b; discriminate]|].
      exists r. split; auto. split; [discriminate|]. intros _. split; auto.
    - destruct (scan_name (c :: s) false) as (r & E & A & Bd). exists r. split; auto. split; [auto|discriminate]. }
  destruct X as (r & E & XF & XT).
  pose proof (read_moved tok r st) as Rd. rewrite <- E in Rd. specialize (Rd R).
  assert (F1 : firstn (List.length tok) (c :: s) = tok) by (rewrite E, firstn_app, Nat.sub_diag, firstn_all, firstn_O; apply app_nil_r).
  rewrite F1. destruct (ident_kind_spec tok) as [K|[NK Ek]].
  - assert (Dg : is_digit c = false) by (apply keyword_first in K as (c0 & s0 & Y & Z); rewrite T1 in Y; injection Y as -> _; auto).
    destruct (XF Dg) as [FN FM]. pose proof (keyword_kind _ _ K) as KK.
    emit_step Rd.
    + unfold spelled. cbn [here t_kind t_tok]. destruct (ident_kind tok); try contradiction; right; exact K.
    + intros d r' X. rewrite Rr in X. cbn [here t_kind t_tok].
      assert (Y : (forall k, ~ In (tok ++ [d], k) operators) /\ ((exists k, In (tok, k) keywords) -> ~ name_char d))
        by (split; [intros; eapply keyword_no_op; eauto|intros _; eapply FM; eauto]).
      destruct (ident_kind tok); try contradiction; exact Y.
    + unfold depth_after. cbn [here t_kind]. destruct (ident_kind tok); try contradiction; auto.
    + split; [|rewrite T1; discriminate]. apply kind_plain. destruct (ident_kind tok); try contradiction; auto.
  - rewrite T1 in Ek at 2. rewrite Ek. emit_step Rd.
    + unfold spelled. destruct (is_digit c) eqn:Dg; cbn [here t_kind t_tok].
      * split; [exists c, tl; split; auto; apply is_digit_spec; auto|]. apply XT; auto.
      * split; [exists c, tl; split; auto; rewrite <- is_digit_spec; congruence|]. split; auto. apply XF; auto.
    + intros d r' X. rewrite Rr in X. destruct (is_digit c) eqn:Dg; cbn [here t_kind t_tok]; [eapply XT|eapply XF]; eauto.
    + unfold depth_after. destruct (is_digit c); auto.
    + split; [|rewrite T1; discriminate]. apply kind_plain. destruct (is_digit c); auto.
Qed.

(** ** One call of [Lex] *)
Definition stack (st : lexst) (n : nat) : Prop := exists l, l_indents st = l ++ [0] /\ Forall (fun k => 0 < k) l /\ List.length l = n.
Definition measure (st : lexst) : nat :=
  3 * List.length (l_rest st) + List.length (l_indents st) + (if l_clean st then 2 else 0).
Record lexstep (st : lexst) (t : token) (st' : lexst) : Prop := LS {
  ls_gap : exists g cs st1, gap (p_byte (l_pos st)) g cs /\ moved g st st1 /\ handed cs st st' /\
           t_pos t = l_pos st1 /\ moved (t_tok t) st1 st';
  ls_spelled : spelled t;
  ls_max : maximal t (l_rest st');
  ls_depth : l_depth st' = depth_after t (l_depth st);
  ls_stack : forall n, stack st n -> match t_kind t, n with KIndent, _ => stack st' (S n) | KUnindent, S m => stack st' m | KUnindent, O => False | KEof, _ => n = 0 | _, _ => stack st' n end;
  ls_lines : match t_kind t with KChar c => c = c_nl -> l_depth st = 0%Z | KComment | KIndent => l_depth st = 0%Z | KUnindent => l_depth st = 0%Z \/ l_rest st' = [] | _ => True end;
  ls_eof : t_kind t = KEof -> l_rest st' = [];
  ls_empty : l_rest st = [] -> l_depth st <> 0%Z -> In (t_kind t) [KUnindent; KEof];
  ls_measure : t_kind t <> KEof -> measure st' < measure st }.
Lemma gap_nil o g cs : gap o g cs -> g = [] -> cs = [].
Proof. intros H. inversion H; auto; discriminate. Qed.
Lemma handed_trans_nil cs st st1 st2 : handed cs st st1 -> handed [] st1 st2 -> handed cs st st2.
Proof. intros H1 H2. rewrite <- (app_nil_r cs). eapply handed_app; eauto. Qed.
Lemma moved_len s st st' : moved s st st' -> List.length (l_rest st) = List.length s + List.length (l_rest st').
Proof. intros [R _ _]. rewrite R, app_length. auto. Qed.
Lemma stack_pop st n : stack st n -> 0 < hd 0 (l_indents st) -> exists m, n = S m /\
  forall st', l_indents st' = tl (l_indents st) -> stack st' m.
Proof.
  intros (l & E & F & L) H. destruct l as [|x l]; [rewrite E in H; cbn in H; lia|].
  exists (List.length l). split; [auto|]. intros st' E'. exists l. rewrite E', E. inversion F; subst. auto.
Qed.
Lemma stack_zero st n : stack st n -> hd 0 (l_indents st) = 0 -> n = 0.
Proof. intros (l & E & F & L) H. destruct l as [|x l]; auto. rewrite E in H. inversion F; subst. cbn in H. lia. Qed.
Lemma Lex_spec st n0 : stack st n0 -> match Lex st with LexToken t st' => lexstep st t st' | LexError => True end.
Proof.
  intros Stk. unfold Lex.
  destruct (skip_spec (S (List.length (l_rest st))) st 0 (Nat.lt_succ_diag_r _)) as (g & cs & G & K).
  destruct (skip_blanks (S (List.length (l_rest st))) st 0) as [(t & st')|st1].
  { destruct K as (st1 & M1 & H1 & (S1 & S1') & P & M2 & (S2 & S2') & H2 & Sp & Mx & D & Kd & Ne).
    assert (Len : 0 < List.length (t_tok t)) by (destruct (t_tok t); [contradiction|cbn; lia]).
    constructor; auto.
    - exists g, cs, st1. repeat split; auto; try apply M1; try apply M2. eapply handed_trans_nil; eauto.
    - rewrite S2, S1. unfold depth_after. destruct Kd as [<-|[<-|[]]]; reflexivity.
    - intros n Hn. assert (X : stack st' n) by (destruct Hn as (l & E & F & L); exists l; rewrite S2', S1'; auto).
      destruct Kd as [<-|[<-|[]]]; exact X.
    - destruct Kd as [<-|[<-|[]]]; auto.
    - destruct Kd as [<-|[<-|[]]]; discriminate.
    - intros _ X. contradiction.
    - intros _. unfold measure. apply moved_len in M1, M2. rewrite S2', S1'. destruct (l_clean st'), (l_clean st); lia. }
  destruct K as (M1 & H1 & (S1 & S1') & NB & Cl).
  assert (Stk1 : stack st1 n0) by (destruct Stk as (l & E & F & L); exists l; rewrite S1'; auto).
  assert (MS : measure st1 <= measure st /\ (l_clean st1 = true -> l_clean st = false -> measure st1 < measure st)).
  { unfold measure. apply moved_len in M1. rewrite S1'. destruct g as [|x g].
    - rewrite (Cl eq_refl). cbn [List.length] in M1. split; [lia|congruence].
    - cbn [List.length] in M1. destruct (l_clean st1), (l_clean st); split; intros; try lia. }
  destruct (Z.eqb (l_depth st1) 0 && l_clean st1 && (hd 0 (l_indents st1) <? l_indent st1)) eqn:C1.
  { rewrite !andb_true_iff in C1. destruct C1 as [[D C] I]. apply Z.eqb_eq in D. apply Nat.ltb_lt in I.
    constructor; cbn [here t_kind t_tok t_pos set_line set_indents l_rest l_depth]; auto.
    - exists g, cs, st1. split; [exact G|split; [exact M1|split; [eapply handed_trans_nil; [exact H1|apply handed_nil; auto]|split; [reflexivity|apply moved_nil; reflexivity]]]].
    - red. reflexivity.
    - intros c s _. exact Logic.I.
    - intros n (l & E & F & L). exists (l_indent st1 :: l). cbn [set_line set_indents l_indents app List.length]. rewrite S1', E. repeat split; auto.
      constructor; auto. lia.
    - congruence.
    - discriminate.
    - intros _ X. congruence.
    - intros _. destruct MS as [MS1 MS2]. unfold measure in *. cbn [set_line set_indents l_rest l_clean l_indents List.length]. rewrite C in *. lia. }
  destruct (Z.eqb (l_depth st1) 0 && l_clean st1 && (l_indent st1 <? hd 0 (l_indents st1))) eqn:C2.
  { rewrite !andb_true_iff in C2. destruct C2 as [[D C] I]. apply Z.eqb_eq in D. apply Nat.ltb_lt in I. cbv zeta.
    destruct (hd 0 (l_indents (set_indents (tl (l_indents st1)) st1)) <? l_indent (set_indents (tl (l_indents st1)) st1)); auto.
    assert (P : 0 < hd 0 (l_indents st1)) by lia.
    constructor; cbn [here t_kind t_tok t_pos set_line set_indents l_rest l_depth]; auto.
    - exists g, cs, st1. split; [exact G|split; [exact M1|split; [eapply handed_trans_nil; [exact H1|apply handed_nil; auto]|split; [reflexivity|apply moved_nil; reflexivity]]]].
    - red. reflexivity.
    - intros c s _. exact Logic.I.
    - intros n Hn. assert (Hn1 : stack st1 n) by (destruct Hn as (l & E & F & L); exists l; rewrite S1'; auto).
      destruct (stack_pop _ _ Hn1 P) as (m & -> & Q). apply Q. reflexivity.
    - left. congruence.
    - discriminate.
    - intros _. left. auto.
    - intros _. destruct MS as [MS1 MS2]. unfold measure in *. cbn [set_line set_indents l_rest l_clean l_indents List.length].
      destruct (l_indents st1) as [|x ll]; [cbn in P; lia|]. cbn [tl List.length] in *. lia. }
  cbv zeta. set (st2 := set_line false (l_indent st1) st1). change (l_rest st2) with (l_rest st1).
  assert (MS2 : measure st2 <= measure st).
  { destruct MS as [MS1 _]. unfold measure in *. cbn [st2 set_line l_rest l_clean l_indents]. lia. }
  destruct (l_rest st1) as [|c s] eqn:R.
  - destruct (0 <? hd 0 (l_indents st1)) eqn:I.
    + apply Nat.ltb_lt in I. constructor; cbn [here t_kind t_tok t_pos set_line set_indents l_rest l_depth]; auto.
      * exists g, cs, st1. split; [exact G|split; [exact M1|split; [eapply handed_trans_nil; [exact H1|apply handed_nil; auto]|split; [reflexivity|apply moved_nil; reflexivity]]]].
      * red. reflexivity.
      * intros c s _. exact Logic.I.
      * intros n Hn. assert (Hn1 : stack st1 n) by (destruct Hn as (l & E & F & L); exists l; rewrite S1'; auto).
        destruct (stack_pop _ _ Hn1 I) as (m & -> & Q). apply Q. reflexivity.
      * intros _ _. left. auto.
      * intros _. unfold measure in *. cbn [set_line set_indents l_rest l_clean l_indents List.length st2] in *.
        destruct (l_indents st1) as [|x ll]; [cbn in I; lia|]. cbn [tl List.length] in *. lia.
    + apply Nat.ltb_ge in I. assert (I0 : hd 0 (l_indents st1) = 0) by lia. unfold lex_token. change (l_rest st2) with (l_rest st1). rewrite R.
      constructor; cbn [here t_kind t_tok t_pos set_line set_indents l_rest l_depth st2]; auto.
      * exists g, cs, st1. split; [exact G|split; [exact M1|split; [eapply handed_trans_nil; [exact H1|apply handed_nil; auto]|split; [reflexivity|apply moved_nil; reflexivity]]]].
      * red. reflexivity.
      * intros c s _. exact Logic.I.
      * intros n Hn. assert (Hn1 : stack st1 n) by (destruct Hn as (l & E & F & L); exists l; rewrite S1'; auto). eapply stack_zero; eauto.
      * intros _ _. right. left. auto.
      * congruence.
  - assert (R2 : l_rest st2 = c :: s) by exact R. pose proof (lex_token_spec st2 c s R2) as T. rewrite R2 in T. specialize (T NB).
    destruct (lex_token st2) as [t st'|]; auto. destruct T as [P M Sp Mx Dp In Li Su Cn Id [Kd Ne]].
    assert (Len : 0 < List.length (t_tok t)) by (destruct (t_tok t); [contradiction|cbn; lia]).
    constructor; auto.
    + exists g, cs, st1. repeat split; auto; try apply M1; try apply M. eapply handed_trans_nil; [exact H1|apply handed_nil; auto].
    + rewrite Dp. cbn [st2 set_line l_depth]. congruence.
    + intros n Hn. assert (Hn1 : stack st' n) by (destruct Hn as (l & E & F & L); exists l; rewrite In; cbn [st2 set_line l_indents]; rewrite S1'; auto).
      unfold plain in Kd. destruct (t_kind t); auto; exfalso; apply Kd; cbn; tauto.
    + unfold plain in Kd. destruct (t_kind t); auto; try (exfalso; apply Kd; cbn; tauto). intros ->. exfalso. apply Kd. cbn; tauto.
    + intros E. rewrite E in Kd. exfalso. apply Kd. cbn; tauto.
    + intros E. pose proof (mv_rest _ _ _ M1) as X. rewrite E, R in X. destruct g; discriminate.
    + intros _. unfold measure in *. apply moved_len in M. rewrite Cn, In. cbn [st2 set_line l_rest l_clean l_indents] in *. rewrite R in *. lia.
Qed.

(** ** All tokens *)
Lemma stack_len st n : stack st n -> 1 <= List.length (l_indents st).
Proof. intros (l & E & _). rewrite E, app_length. cbn. lia. Qed.
Lemma step_stack st t st' n : lexstep st t st' -> stack st n -> t_kind t <> KEof -> exists m, stack st' m.
Proof.
  intros H S K. pose proof (ls_stack _ _ _ H n S) as X. destruct (t_kind t), n; eauto; contradiction || congruence.
Qed.
Lemma lex_all_term f : forall st n, stack st n -> measure st <= f -> lex_all f st <> LexLoop.
Proof.
  induction f as [|f IH]; intros st n S L.
  { apply stack_len in S. unfold measure in L. lia. }
  cbn [lex_all]. pose proof (Lex_spec st n S) as X. destruct (Lex st) as [t st'|]; [|discriminate].
  assert (D : t_kind t = KEof \/ t_kind t <> KEof) by (destruct (t_kind t); auto; right; discriminate).
  destruct D as [D|D]; [rewrite D; discriminate|].
  destruct (step_stack _ _ _ _ X S D) as (m & S'). pose proof (ls_measure _ _ _ X D) as M.
  assert (N : lex_all f st' <> LexLoop) by (eapply IH; eauto; lia).
  destruct (lex_all f st') as [l s|l|]; [| |congruence]; destruct (t_kind t); congruence.
Qed.
(** Induction over a successful run. *)
Lemma lex_all_ind (P : lexst -> list token -> lexst -> Prop) :
  (forall st t st' n, stack st n -> lexstep st t st' -> t_kind t = KEof -> P st [t] st') ->
  (forall st t st' n l st'', stack st n -> lexstep st t st' -> t_kind t <> KEof -> P st' l st'' -> P st (t :: l) st'') ->
  forall f st n l st', stack st n -> lex_all f st = Lexed l st' -> P st l st'.
Proof.
  intros Base Step. induction f as [|f IH]; intros st n l st' S E; [discriminate|]. cbn [lex_all] in E.
  pose proof (Lex_spec st n S) as X. destruct (Lex st) as [t st1|]; [|discriminate].
  assert (D : t_kind t = KEof \/ t_kind t <> KEof) by (destruct (t_kind t); auto; right; discriminate).
  destruct D as [D|D]; [rewrite D in E; injection E as <- <-; eauto|].
  destruct (step_stack _ _ _ _ X S D) as (m & S').
  destruct (lex_all f st1) as [l1 s1|l1|] eqn:E1; [|destruct (t_kind t); congruence|destruct (t_kind t); congruence].
  assert (Q : l = t :: l1 /\ st' = s1) by (destruct (t_kind t); try congruence; injection E as <- <-; auto). destruct Q as [-> ->].
  eapply Step; eauto.
Qed.
Lemma toks_gap_tok o g cs t s l cs' :
  gap o g cs -> p_byte (t_pos t) = (o + Z.of_nat (List.length g))%Z -> spelled t -> maximal t s ->
  toks_of (o + Z.of_nat (List.length (g ++ t_tok t))) s l cs' -> toks_of o (g ++ t_tok t ++ s) (t :: l) (cs ++ cs').
Proof.
  intros. apply to_gap; auto. apply to_tok; auto. rewrite app_length in H3.
  replace (o + Z.of_nat (List.length g) + Z.of_nat (List.length (t_tok t)))%Z with (o + Z.of_nat (List.length g + List.length (t_tok t)))%Z by lia. auto.
Qed.
Lemma lex_partition f st n l st' : stack st n -> lex_all f st = Lexed l st' ->
  exists cs, toks_of (p_byte (l_pos st)) (l_rest st) l cs /\ handed cs st st'.
Proof.
  apply (lex_all_ind (fun st l st' => exists cs, toks_of (p_byte (l_pos st)) (l_rest st) l cs /\ handed cs st st')).
  - clear. intros st t st' _ _ H K. destruct (ls_gap _ _ _ H) as (g & cs & st1 & G & M1 & Hd & P & M2).
    exists cs. split; auto. rewrite (mv_rest _ _ _ M1), (mv_rest _ _ _ M2). rewrite <- (app_nil_r cs).
    apply toks_gap_tok; auto; [rewrite P; apply M1|apply H|apply (ls_max _ _ _ H)|]. rewrite (ls_eof _ _ _ H K). constructor.
  - clear. intros st t st' _ l st'' _ H K (cs' & T & Hd'). destruct (ls_gap _ _ _ H) as (g & cs & st1 & G & M1 & Hd & P & M2).
    exists (cs ++ cs'). split; [|eapply handed_app; eauto]. rewrite (mv_rest _ _ _ M1), (mv_rest _ _ _ M2).
    apply toks_gap_tok; auto; [rewrite P; apply M1|apply H|apply (ls_max _ _ _ H)|].
    rewrite (mv_byte _ _ _ M2), (mv_byte _ _ _ M1) in T. rewrite app_length.
    replace (p_byte (l_pos st) + Z.of_nat (List.length g + List.length (t_tok t)))%Z with (p_byte (l_pos st) + Z.of_nat (List.length g) + Z.of_nat (List.length (t_tok t)))%Z by lia. auto.
Qed.
Lemma lex_eof f st n l st' : stack st n -> lex_all f st = Lexed l st' ->
  exists l' e, l = l' ++ [e] /\ t_kind e = KEof /\ Forall (fun t => t_kind t <> KEof) l'.
Proof.
  apply (lex_all_ind (fun st l st' => exists l' e, l = l' ++ [e] /\ t_kind e = KEof /\ Forall (fun t => t_kind t <> KEof) l')).
  - intros st0 t st1 _ _ H K. exists [], t. auto.
  - intros st0 t st1 _ l0 st2 _ H K (l' & e & -> & E & F). exists (t :: l'), e. auto.
Qed.
Lemma lex_nested f st n l st' : stack st n -> lex_all f st = Lexed l st' -> nested n l.
Proof.
  intros S E. assert (X : forall m, stack st m -> nested m l); [|auto]. revert S E.
  apply (lex_all_ind (fun st l st' => forall m, stack st m -> nested m l)).
  - clear. intros st t st' _ _ H K m S. pose proof (ls_stack _ _ _ H m S) as X. cbn [nested]. rewrite K in *. subst. cbn. auto.
  - clear. intros st t st' _ l st'' _ H K IH m S. pose proof (ls_stack _ _ _ H m S) as X. cbn [nested].
    destruct (t_kind t), m; auto; contradiction || congruence.
Qed.
Definition located (text : bytes) (st : lexst) : Prop :=
  exists s, text = s ++ l_rest st /\ p_byte (l_pos st) = Z.of_nat (List.length s) /\ p_line (l_pos st) = (1 + nls s)%Z.
Lemma located_moved text s st st' : located text st -> moved s st st' -> located text st'.
Proof.
  intros (a & E & P & L) [R Bt Ln]. exists (a ++ s). rewrite E, R, app_assoc, app_length, nls_app. split; auto. split; lia.
Qed.
Lemma located_line text st : located text st -> p_line (l_pos st) = line_of text (p_byte (l_pos st)).
Proof.
  intros (a & E & P & L). unfold line_of. rewrite P, Nat2Z.id, E, firstn_app, Nat.sub_diag, firstn_all, firstn_O, app_nil_r. exact L.
Qed.
Lemma lex_lines text f st n l st' : stack st n -> lex_all f st = Lexed l st' -> located text st ->
  Forall (fun t => p_line (t_pos t) = line_of text (p_byte (t_pos t))) l.
Proof.
  apply (lex_all_ind (fun st l st' => located text st -> Forall (fun t => p_line (t_pos t) = line_of text (p_byte (t_pos t))) l)).
  - clear. intros st t st' _ _ H K Lo. destruct (ls_gap _ _ _ H) as (g & cs & st1 & G & M1 & Hd & P & M2).
    constructor; auto. rewrite P. apply located_line. eapply located_moved; eauto.
  - clear. intros st t st' _ l st'' _ H K IH Lo. destruct (ls_gap _ _ _ H) as (g & cs & st1 & G & M1 & Hd & P & M2).
    pose proof (located_moved _ _ _ _ Lo M1) as L1. constructor; [rewrite P; apply located_line; auto|].
    apply IH. eapply located_moved; eauto.
Qed.
Lemma step_empty st t st' : lexstep st t st' -> l_rest st = [] -> l_rest st' = [].
Proof.
  intros H E. destruct (ls_gap _ _ _ H) as (g & cs & st1 & G & M1 & Hd & P & M2).
  apply moved_len in M1, M2. rewrite E in M1. cbn in M1. destruct (l_rest st'); auto. cbn in M2. lia.
Qed.
Lemma lex_empty f st n l st' : stack st n -> lex_all f st = Lexed l st' -> l_rest st = [] -> l_depth st <> 0%Z ->
  Forall (fun u => In (t_kind u) [KUnindent; KEof]) l.
Proof.
  apply (lex_all_ind (fun st l st' => l_rest st = [] -> l_depth st <> 0%Z -> Forall (fun u => In (t_kind u) [KUnindent; KEof]) l)).
  - clear. intros st t st' _ _ H K E D. constructor; auto. apply (ls_empty _ _ _ H); auto.
  - clear. intros st t st' _ l st'' _ H K IH E D. pose proof (ls_empty _ _ _ H E D) as X. constructor; auto.
    apply IH; [eapply step_empty; eauto|]. rewrite (ls_depth _ _ _ H). unfold depth_after. destruct X as [<-|[<-|[]]]; auto.
Qed.
Lemma lex_outside f st n l st' : stack st n -> lex_all f st = Lexed l st' ->
  lines_outside (l_depth st) l /\ (l_rest st = [] -> l_depth st <> 0%Z -> Forall (fun u => In (t_kind u) [KUnindent; KEof]) l).
Proof.
  apply (lex_all_ind (fun st l st' => lines_outside (l_depth st) l /\ (l_rest st = [] -> l_depth st <> 0%Z -> Forall (fun u => In (t_kind u) [KUnindent; KEof]) l))).
  - clear. intros st t st' _ _ H K. split.
    + cbn [lines_outside]. rewrite K. split; auto. intros X. cbn [In] in X. exfalso. repeat destruct X as [X|X]; try discriminate; auto.
    + intros E D. constructor; auto. apply (ls_empty _ _ _ H); auto.
  - clear. intros st t st' _ l st'' _ H K [IH1 IH2]. rewrite (ls_depth _ _ _ H) in IH1. split.
    + cbn [lines_outside]. split; [|exact IH1]. pose proof (ls_lines _ _ _ H) as X. intros Y. cbn [In] in Y.
      destruct Y as [Y|[Y|[Y|[Y|[]]]]]; rewrite <- Y in *; auto.
      destruct X as [X|X]; auto. destruct (Z.eq_dec (l_depth st) 0) as [D|D]; auto.
      right. split; auto. apply IH2; auto. rewrite (ls_depth _ _ _ H). unfold depth_after. rewrite <- Y. auto.
    + intros E D. pose proof (ls_empty _ _ _ H E D) as X. constructor; auto.
      apply IH2; [eapply step_empty; eauto|]. rewrite (ls_depth _ _ _ H). unfold depth_after. destruct X as [<-|[<-|[]]]; auto.
Qed.
Lemma new_stack data : stack (newInput data) 0.
Proof. exists []. repeat split; auto. Qed.
Lemma new_measure data : measure (newInput data) <= 3 * List.length data + 6.
Proof. unfold measure, newInput. cbn [l_rest l_indents l_clean List.length]. rewrite app_length. cbn [List.length]. lia. Qed.
