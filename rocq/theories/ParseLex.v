(** What the lexer hands to the parser: well-formed tokens, and code after every indent. *)
From Verif Require Import Base BaseProofs Ast Quote Lex LexSpec LexProofs ParseSpec.
Local Open Scope list_scope.

Definition wf_tok (t : token) : Prop := spelled t /\ (0 < p_line (t_pos t))%Z.
Definition starts_code (k : kind) : Prop := ~ In k [KChar c_nl; KComment; KIndent; KUnindent; KEof].
Definition legit (ts : list token) : Prop :=
  Forall wf_tok ts /\ (forall x i y z, ts = x ++ i :: y :: z -> is KIndent i -> starts_code (t_kind y)).

(** The rest of a text that ends with a newline, but not with a continuation. *)
Definition tidy (r : bytes) : Prop := (r = [] \/ exists p, r = p ++ [c_nl]) /\ (forall p, r <> p ++ [c_bs; c_nl]).
Lemma tidy_suffix a b : tidy (a ++ b) -> tidy b.
Proof.
  intros [[H|[p H]] N]; split.
  - left. now apply app_eq_nil in H.
  - intros q ->. apply (N (a ++ q)). now rewrite app_assoc.
  - destruct b as [|x b] using rev_ind; [now left|]. right. exists b. rewrite app_assoc in H. apply app_inj_tail in H. now destruct H as [_ ->].
  - intros q ->. apply (N (a ++ q)). now rewrite app_assoc.
Qed.
Lemma tidy_cons c s : tidy (c :: s) -> c <> c_nl -> s <> [].
Proof. intros [[H|[p H]] _] N E; [discriminate|]. subst s. destruct p as [|x p]; [injection H as ->; contradiction|]. destruct p; discriminate. Qed.
Lemma tidy_bs s : tidy (c_bs :: c_nl :: s) -> s <> [].
Proof. intros [_ N] ->. now apply (N []). Qed.
Definition level_ok (st : lexst) : Prop := l_rest st = [] -> l_clean st = false \/ l_indent st = 0.
Lemma read_rest n st : l_rest (read n st) = skipn n (l_rest st).
Proof. reflexivity. Qed.
Lemma skip_level fuel : forall st n, List.length (l_rest st) < fuel -> tidy (l_rest st) -> level_ok st ->
  match skip_blanks fuel st n with inl (t, st') => level_ok st' | inr st' => level_ok st' end.
Proof.
  induction fuel as [|fuel IH]; intros st n L T K; [lia|]. cbn [skip_blanks]. destruct (l_rest st) as [|c s] eqn:R; [exact K|].
  assert (STEP : forall st1 n, l_rest st1 = s -> level_ok st1 -> match skip_blanks fuel st1 n with inl (t, st') => level_ok st' | inr st' => level_ok st' end).
  { intros st1 n1 R1 K1. apply IH; rewrite ?R1; auto; [cbn in L; lia|]. now apply (tidy_suffix [c]). }
  assert (NE : c <> c_nl -> forall st1, l_rest st1 = s -> level_ok st1).
  { intros N st1 R1 E. exfalso. rewrite R1 in E. now apply (tidy_cons c s). }
  assert (R1 : forall st1, l_rest st1 = c :: s -> l_rest (read 1 st1) = s) by (intros st1 E; rewrite read_rest, E; reflexivity).
  destruct (ceq c c_sp || ceq c c_tab || ceq c c_cr || ceq c c_nl) eqn:B.
  - destruct (ceq c c_nl) eqn:NL.
    + destruct (l_depth (set_line true 0 st) =? 0)%Z.
      * intros _. right. reflexivity.
      * apply STEP; [apply R1; exact R|]. intros _. right. reflexivity.
    + apply ceq_neq in NL. destruct (ceq c c_sp && l_clean st); apply STEP; try (apply R1; exact R); apply NE; auto; apply R1; exact R.
  - destruct (ceq c c_hash) eqn:H.
    + set (tok := span_not is_nl _). set (st1 := set_line true 0 st).
      assert (K1 : forall st2, l_indent st2 = 0 -> level_ok st2) by (intros st2 E _; now right).
      destruct (_ && _); [now apply K1|].
      assert (R2 : exists m, l_rest (read (List.length tok) st1) = skipn m s).
      { apply ceq_eq in H. subst c. subst tok. rewrite read_rest. cbn [l_rest set_line st1]. rewrite R. exists (List.length (span_not is_nl s)). reflexivity. }
      destruct R2 as [m R2].
      assert (G : forall st2, l_rest st2 = skipn m s -> l_indent st2 = 0 -> match skip_blanks fuel st2 0 with inl (t, st') => level_ok st' | inr st' => level_ok st' end).
      { intros st2 E I. apply IH; [rewrite E, skipn_length; cbn in L; lia| |now apply K1]. rewrite E. apply (tidy_suffix (c :: firstn m s)). cbn. now rewrite firstn_skipn. }
      destruct (1 <? n), (is_suffix (l_seen st1)); apply G; try exact R2; reflexivity.
    + destruct (ceq c c_bs && match s with d :: _ => ceq d c_nl | [] => false end) eqn:Q; [|exact K].
      apply andb_prop in Q. destruct Q as [Q1 Q2]. apply ceq_eq in Q1. subst c. destruct s as [|d s]; [discriminate|]. apply ceq_eq in Q2. subst d.
      assert (E : l_rest (read 2 st) = s) by (rewrite read_rest, R; reflexivity).
      apply IH; rewrite ?E; [cbn in L; lia|now apply (tidy_suffix [c_bs; c_nl])|]. intro X. exfalso. rewrite E in X. now apply (tidy_bs s).
Qed.
Lemma lex_level st t st' : tidy (l_rest st) -> level_ok st -> Lex st = LexToken t st' ->
  level_ok st' /\ (t_kind t = KIndent -> l_rest st' <> [] /\ not_blank (l_rest st') /\ l_clean st' = false).
Proof.
  intros T K. unfold Lex. pose proof (skip_level (S (List.length (l_rest st))) st 0 (Nat.lt_succ_diag_r _) T K) as SL.
  destruct (skip_spec (S (List.length (l_rest st))) st 0 (Nat.lt_succ_diag_r _)) as (g & cs & G & KS).
  destruct (skip_blanks (S (List.length (l_rest st))) st 0) as [(t1 & st1)|st1].
  { intro E. injection E as <- <-. split; [exact SL|]. intro E. destruct KS as (st2 & KS). decompose [and] KS.
    match goal with H : In (t_kind t1) _ |- _ => rewrite E in H; cbn in H; exfalso; repeat destruct H as [H|H]; try discriminate; exact H end. }
  destruct KS as (M1 & H1 & (S1 & S1') & NB & _).
  destruct (Z.eqb (l_depth st1) 0 && l_clean st1 && (hd 0 (l_indents st1) <? l_indent st1)) eqn:C1.
  { intro E. injection E as <- <-. apply andb_prop in C1. destruct C1 as [C1 C3]. apply andb_prop in C1. destruct C1 as [C1 C2]. apply Nat.ltb_lt in C3.
    split; [intros _; now left|]. intros _. cbn [set_line set_indents l_rest l_clean]. split; [|auto]. intro E. destruct (SL E); [congruence|lia]. }
  destruct (Z.eqb (l_depth st1) 0 && l_clean st1 && (l_indent st1 <? hd 0 (l_indents st1))) eqn:C2.
  { cbv zeta. intro E. destruct (hd 0 (l_indents (set_indents (tl (l_indents st1)) st1)) <? l_indent (set_indents (tl (l_indents st1)) st1)); [discriminate|].
    injection E as <- <-. split; [|discriminate]. intro E. destruct (SL E); [now left|now right]. }
  cbv zeta. set (st2 := set_line false (l_indent st1) st1). destruct (l_rest st2) as [|c s] eqn:R.
  - destruct (0 <? hd 0 (l_indents st1)); [intro E; injection E as <- <-; split; [intros _; now left|discriminate]|].
    unfold lex_token. rewrite R. intro E. injection E as <- <-. split; [intros _; now left|discriminate].
  - pose proof (lex_token_spec st2 c s R) as TS. rewrite R in TS. specialize (TS ltac:(rewrite <- R; exact NB)). intro E. rewrite E in TS.
    destruct TS as [P M Sp Mx Dp In Li Su Cn Id [Kd Ne]]. split; [intros _; left; rewrite Cn; reflexivity|].
    intro E2. exfalso. apply Kd. rewrite E2. cbn. tauto.
Qed.
Lemma lex_code st t st' : l_rest st <> [] -> not_blank (l_rest st) -> l_clean st = false -> Lex st = LexToken t st' -> starts_code (t_kind t).
Proof.
  intros NE NB C. unfold Lex. destruct (l_rest st) as [|c s] eqn:R; [contradiction|]. clear NE.
  assert (SK : skip_blanks (S (List.length (c :: s))) st 0 = inr st).
  { cbn [skip_blanks]. rewrite R. destruct (NB c s eq_refl) as (B & H & Q).
    assert (ceq c c_sp || ceq c c_tab || ceq c c_cr || ceq c c_nl = false) as ->.
    { destruct (_ || _) eqn:E; [|reflexivity]. exfalso. apply B. rewrite !orb_true_iff in E. cbn [In]. rewrite !ceq_eq in E. intuition. }
    rewrite (proj2 (ceq_neq _ _) H). destruct (ceq c c_bs) eqn:E; [|reflexivity]. apply ceq_eq in E. cbn. destruct s as [|d s]; [reflexivity|].
    destruct (ceq d c_nl) eqn:E2; [|reflexivity]. exfalso. apply ceq_eq in E2. subst. apply Q. eauto. }
  rewrite SK, C, !andb_false_r. cbn [andb]. cbv zeta. set (st2 := set_line false (l_indent st) st). assert (R2 : l_rest st2 = c :: s) by exact R. rewrite R2.
  pose proof (lex_token_spec st2 c s R2) as TS. rewrite R2 in TS. specialize (TS NB). intro E. rewrite E in TS.
  destruct TS as [_ _ _ _ _ _ _ _ _ _ [Kd _]]. unfold plain, starts_code in *. cbn [In] in *. tauto.
Qed.
Lemma lex_tidy st n t st' : stack st n -> Lex st = LexToken t st' -> tidy (l_rest st) -> tidy (l_rest st').
Proof.
  intros S E T. pose proof (Lex_spec st n S) as X. rewrite E in X. destruct (ls_gap _ _ _ X) as (g & cs & st1 & _ & M1 & _ & _ & M2).
  apply (tidy_suffix (t_tok t)). rewrite <- (mv_rest _ _ _ M2). apply (tidy_suffix g). now rewrite <- (mv_rest _ _ _ M1).
Qed.
(** The tokens before the end or the first error. *)
Definition toks (r : lexed) : list token := match r with Lexed l _ | LexFail l => l | LexLoop => [] end.
Lemma toks_step f st t st' : Lex st = LexToken t st' -> toks (lex_all (S f) st) = [t] \/ toks (lex_all (S f) st) = [] \/
  (t_kind t <> KEof /\ toks (lex_all (S f) st) = t :: toks (lex_all f st')).
Proof.
  intro E. cbn [lex_all]. rewrite E. assert (D : t_kind t = KEof \/ t_kind t <> KEof) by (destruct (t_kind t); auto; right; discriminate).
  destruct D as [-> |D]; [now left|]. right. destruct (lex_all f st') as [l s|l|]; [right; split; [assumption|] ..|left]; destruct (t_kind t); congruence || reflexivity.
Qed.
Lemma lex_indents f : forall st n, stack st n -> tidy (l_rest st) -> level_ok st ->
  (forall x i y z, toks (lex_all f st) = x ++ i :: y :: z -> is KIndent i -> starts_code (t_kind y)) /\
  (l_rest st <> [] -> not_blank (l_rest st) -> l_clean st = false -> forall y z, toks (lex_all f st) = y :: z -> starts_code (t_kind y)).
Proof.
  induction f as [|f IH]; intros st n S T K; [split; cbn; intros; try destruct x; discriminate|].
  destruct (Lex st) as [t st1|] eqn:EL; [|split; cbn; rewrite EL; cbn; intros; try destruct x; discriminate]. pose proof (Lex_spec st n S) as X. rewrite EL in X.
  destruct (lex_level _ _ _ T K EL) as [K1 I1]. pose proof (lex_tidy _ _ _ _ S EL T) as T1.
  assert (HD : l_rest st <> [] -> not_blank (l_rest st) -> l_clean st = false -> starts_code (t_kind t)) by (intros; eapply lex_code; eauto).
  destruct (toks_step f st t st1 EL) as [-> | [-> | [D ->]]].
  - split; [intros [|x0 [|x1 x]] i y z Q; discriminate|]. intros A B C y z Q. injection Q as <- _. auto.
  - split; [intros [|x0 x] i y z Q; discriminate|]. discriminate.
  - destruct (step_stack _ _ _ _ X S D) as (m & S'). destruct (IH _ _ S' T1 K1) as [IH1 IH2]. split.
    + intros [|x0 x] i y z Q KI; injection Q as -> Q; [|eapply IH1; eauto]. destruct (I1 KI) as (A & B & C). eapply IH2; eauto.
    + intros A B C y z Q. injection Q as <- _. auto.
Qed.
Lemma line_of_pos text o : (0 < line_of text o)%Z.
Proof. unfold line_of. lia. Qed.
Lemma lex_wf text f : forall st n, stack st n -> located text st -> Forall wf_tok (toks (lex_all f st)).
Proof.
  induction f as [|f IH]; intros st n S L; [constructor|].
  destruct (Lex st) as [t st1|] eqn:EL; [|cbn; rewrite EL; constructor]. pose proof (Lex_spec st n S) as X. rewrite EL in X.
  destruct (ls_gap _ _ _ X) as (g & cs & st2 & G & M1 & Hd & P & M2). pose proof (located_moved _ _ _ _ L M1) as L1.
  assert (W : wf_tok t) by (split; [apply (ls_spelled _ _ _ X)|]; rewrite P, (located_line _ _ L1); apply line_of_pos).
  destruct (toks_step f st t st1 EL) as [-> | [-> | [D ->]]]; auto.
  destruct (step_stack _ _ _ _ X S D) as (m & S'). constructor; [assumption|]. eapply IH; eauto. eapply located_moved; eauto.
Qed.
Theorem tokens_legit data : (forall p, data <> p ++ [c_bs]) -> legit (toks (tokenize data)).
Proof.
  intros N. split.
  - apply (lex_wf (data ++ [c_nl]) _ _ 0); [apply new_stack|]. exists []. repeat split; auto.
  - eapply (lex_indents _ _ _ (new_stack data)).
    + split; [right; exists data; reflexivity|]. cbn. intros p Q. change (p ++ [c_bs; c_nl]) with (p ++ [c_bs] ++ [c_nl]) in Q. rewrite app_assoc in Q.
      apply app_inj_tail in Q. now apply (N p).
    + intro Q. cbn in Q. destruct data; discriminate.
Qed.
Lemma lex_fail_eof f : forall st l, lex_all f st = LexFail l -> forall e, t_kind e = KEof -> ~ In e l.
Proof.
  induction f as [|f IH]; intros st l E e K; [discriminate|]. cbn [lex_all] in E. destruct (Lex st) as [t st1|]; [|injection E as <-; tauto].
  assert (D : t_kind t = KEof \/ t_kind t <> KEof) by (destruct (t_kind t); auto; right; discriminate).
  destruct D as [D|D]; [rewrite D in E; discriminate|]. destruct (lex_all f st1) as [l1 s|l1|] eqn:E1; [destruct (t_kind t); congruence| |destruct (t_kind t); congruence].
  assert (l = t :: l1) as -> by (destruct (t_kind t); congruence). intros [-> | H]; [contradiction|]. eapply IH; eauto.
Qed.
