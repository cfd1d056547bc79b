(** Reading text piece by piece: how the lexer proceeds on the pieces that the printer writes. *)
From Verif Require Import Base BaseProofs Ast Utf8 Quote QuoteProofs QuotePrint Lex LexSpec LexProofs.

(** ** The lexer does not depend on positions, on the text before, or on the comments collected so far *)
Definition bare (t : token) : token := Tok (t_kind t) no_pos (match t_kind t with KComment => [] | _ => t_tok t end) (t_str t) (t_triple t).
Definition sim (a b : lexst) : Prop :=
  l_rest a = l_rest b /\ l_depth a = l_depth b /\ l_clean a = l_clean b /\ (l_clean a = true -> l_indent a = l_indent b) /\ l_indents a = l_indents b.
Lemma sim_refl a : sim a a. Proof. repeat split. Qed.
Lemma sim_sym a b : sim a b -> sim b a. Proof. unfold sim. intros (A & B & C & D & E). repeat split; auto. intro H. symmetry. apply D. congruence. Qed.
Lemma sim_trans a b c : sim a b -> sim b c -> sim a c.
Proof. unfold sim. intros (A & B & C & D & E) (A' & B' & C' & D' & E'). repeat split; try congruence. intro H. rewrite D by assumption. apply D'. congruence. Qed.
Definition rsim (a b : lexres) : Prop :=
  match a, b with LexToken t st, LexToken t' st' => bare t = bare t' /\ sim st st' | LexError, LexError => True | _, _ => False end.
Lemma rsim_refl a : rsim a a. Proof. destruct a; cbn; auto using sim_refl. Qed.
Lemma rsim_sym a b : rsim a b -> rsim b a. Proof. destruct a, b; cbn; intuition auto using sim_sym. Qed.
Lemma rsim_trans a b c : rsim a b -> rsim b c -> rsim a c.
Proof. destruct a, b, c; cbn; try tauto. intros [A B] [C D]. split; [congruence|eauto using sim_trans]. Qed.
Lemma read_sim n a b : sim a b -> sim (read n a) (read n b).
Proof. intros (H & D & C & I & S0). unfold sim, read. cbn. rewrite H. auto. Qed.
Lemma line_sim c n m a b : sim a b -> (c = true -> n = m) -> sim (set_line c n a) (set_line c m b).
Proof. intros (H & D & C & I & S0) K. unfold sim, set_line. cbn. auto. Qed.
Lemma depth_sim d a b : sim a b -> sim (set_depth d a) (set_depth d b).
Proof. intros (H & D & C & I & S0). unfold sim, set_depth. cbn. auto. Qed.
Lemma indents_sim l a b : sim a b -> sim (set_indents l a) (set_indents l b).
Proof. intros (H & D & C & I & S0). unfold sim, set_indents. cbn. auto. Qed.
Lemma add_sim ls ss a : sim (add_comments ls ss a) a.
Proof. unfold sim, add_comments. cbn. auto. Qed.
Lemma adds_sim ls ss ls' ss' a b : sim a b -> sim (add_comments ls ss a) (add_comments ls' ss' b).
Proof. intros H. eapply sim_trans; [apply add_sim|]. eapply sim_trans; [exact H|apply sim_sym, add_sim]. Qed.
Definition ssim (a b : (token * lexst) + lexst) : Prop :=
  match a, b with inl (t, st), inl (t', st') => bare t = bare t' /\ sim st st' | inr st, inr st' => sim st st' | _, _ => False end.
Lemma skip_sim f : forall a b n m, sim a b -> ssim (skip_blanks f a n) (skip_blanks f b m).
Proof.
  induction f as [|f IH]; intros a b n m H; [exact H|]. cbn [skip_blanks]. pose proof H as (R & D & C & I & S0). rewrite <- R.
  destruct (l_rest a) as [|c s] eqn:RA; [exact H|].
  destruct (ceq c c_sp || ceq c c_tab || ceq c c_cr || ceq c c_nl).
  { destruct (ceq c c_nl).
    - cbn [set_line l_depth]. rewrite <- D. destruct (Z.eqb (l_depth a) 0); [cbn; split; [reflexivity|now apply read_sim, line_sim]|]. now apply IH, read_sim, line_sim.
    - rewrite <- C. destruct (ceq c c_sp && l_clean a) eqn:CL; apply IH; [|now apply read_sim].
      apply andb_true_iff in CL as [_ CL]. rewrite (I CL). now apply read_sim, line_sim. }
  destruct (ceq c c_hash).
  { cbn [set_line l_depth l_rest l_seen l_pos]. rewrite <- D, <- C, RA, <- R.
    assert (X : forall k, sim (read k (set_line true 0 a)) (read k (set_line true 0 b))) by (intro; now apply read_sim, line_sim).
    destruct (Z.eqb (l_depth a) 0 && l_clean a); [cbn; split; [reflexivity|apply X]|].
    apply IH. destruct (1 <? n), (1 <? m), (is_suffix (l_seen a)), (is_suffix (l_seen b)); repeat (apply adds_sim || apply X);
      repeat match goal with |- sim (add_comments _ _ _) _ => eapply sim_trans; [apply add_sim|] | |- sim _ (add_comments _ _ _) => eapply sim_trans; [|apply sim_sym, add_sim] end; apply X. }
  destruct (ceq c c_bs && _); [now apply IH, read_sim|exact H].
Qed.
Lemma lex_token_sim a b : sim a b -> rsim (lex_token a) (lex_token b).
Proof.
  intros H. pose proof H as (R & D & C & I & S0). unfold lex_token. rewrite <- R. destruct (l_rest a) as [|c s] eqn:RA; [split; [reflexivity|exact H]|].
  rewrite <- D. destruct (mem_char c %"[({"); [split; [reflexivity|now apply read_sim, depth_sim]|].
  destruct (mem_char c %"])}"); [split; [reflexivity|now apply read_sim, depth_sim]|].
  destruct (mem_char c %".:;,"); [split; [reflexivity|now apply read_sim]|].
  destruct (mem_char c %"<>=!+-*/%|&~^").
  { destruct (op_token c s) as [k n]. split; [reflexivity|now apply read_sim]. }
  destruct (starts_string (c :: s)).
  { destruct (lex_string (c :: s)) as [[[[tok v] t] r]|]; [|exact Logic.I]. split; [reflexivity|now apply read_sim]. }
  destruct (negb (isIdent c)); [exact Logic.I|]. split; [reflexivity|now apply read_sim].
Qed.
Definition after_blanks (st : lexst) : lexres :=
  let cur := hd 0 (l_indents st) in
  if Z.eqb (l_depth st) 0 && l_clean st && (cur <? l_indent st) then
    LexToken (here KIndent [] st) (set_line false (l_indent st) (set_indents (l_indent st :: l_indents st) st))
  else if Z.eqb (l_depth st) 0 && l_clean st && (l_indent st <? cur) then
    let st := set_indents (tl (l_indents st)) st in
    if hd 0 (l_indents st) <? l_indent st then LexError
    else LexToken (here KUnindent [] st) st
  else
    let st := set_line false (l_indent st) st in
    match l_rest st with
    | [] => if 0 <? cur then LexToken (here KUnindent [] st) (set_indents (tl (l_indents st)) st)
            else lex_token st
    | _ => lex_token st
    end.
Lemma after_sim a b : sim a b -> rsim (after_blanks a) (after_blanks b).
Proof.
  intros H. pose proof H as (R & D & C & I & S0). unfold after_blanks. rewrite <- D, <- C, <- S0.
  assert (F : sim (set_line false (l_indent a) a) (set_line false (l_indent b) b)) by (now apply line_sim).
  assert (T : rsim (match l_rest (set_line false (l_indent a) a) with
    | [] => if 0 <? hd 0 (l_indents a) then LexToken (here KUnindent [] (set_line false (l_indent a) a)) (set_indents (tl (l_indents (set_line false (l_indent a) a))) (set_line false (l_indent a) a))
            else lex_token (set_line false (l_indent a) a)
    | _ => lex_token (set_line false (l_indent a) a) end)
    (match l_rest (set_line false (l_indent b) b) with
    | [] => if 0 <? hd 0 (l_indents a) then LexToken (here KUnindent [] (set_line false (l_indent b) b)) (set_indents (tl (l_indents (set_line false (l_indent b) b))) (set_line false (l_indent b) b))
            else lex_token (set_line false (l_indent b) b)
    | _ => lex_token (set_line false (l_indent b) b) end)).
  { cbn [set_line l_rest l_indents]. rewrite <- R, <- S0. destruct (l_rest a); [|now apply lex_token_sim].
    destruct (0 <? hd 0 (l_indents a)); [|now apply lex_token_sim]. split; [reflexivity|now apply indents_sim]. }
  destruct (Z.eqb (l_depth a) 0); [|exact T]. destruct (l_clean a) eqn:CA; [|exact T]. rewrite <- (I eq_refl) in *. cbn [andb].
  destruct (hd 0 (l_indents a) <? l_indent a); [split; [reflexivity|apply line_sim; [now apply indents_sim|discriminate]]|].
  destruct (l_indent a <? hd 0 (l_indents a)); [|exact T].
  cbn [set_indents l_indents l_indent]. rewrite <- (I eq_refl). destruct (hd 0 (tl (l_indents a)) <? l_indent a); [exact Logic.I|]. split; [reflexivity|now apply indents_sim].
Qed.
Lemma Lex_after st : Lex st = match skip_blanks (S (List.length (l_rest st))) st 0 with inl (t, st) => LexToken t st | inr st => after_blanks st end.
Proof. reflexivity. Qed.
Lemma Lex_sim a b : sim a b -> rsim (Lex a) (Lex b).
Proof.
  intros H. rewrite !Lex_after. assert (RR : l_rest a = l_rest b) by apply H. rewrite <- RR.
  pose proof (skip_sim (S (List.length (l_rest a))) a b 0 0 H) as X. revert X.
  destruct (skip_blanks _ a 0) as [[t st]|st], (skip_blanks _ b 0) as [[t' st']|st']; cbn [ssim]; try contradiction; [auto|apply after_sim].
Qed.
Lemma skip_fuel f : forall st n g, List.length (l_rest st) < f -> List.length (l_rest st) < g -> skip_blanks f st n = skip_blanks g st n.
Proof.
  induction f as [|f IH]; intros st n g L L'; [lia|]. destruct g as [|g]; [lia|]. cbn [skip_blanks].
  destruct (l_rest st) as [|c s] eqn:R; [reflexivity|]. cbn [List.length] in *.
  assert (LR : forall k st', l_rest st' = c :: s -> 0 < k -> List.length (l_rest (read k st')) < f /\ List.length (l_rest (read k st')) < g).
  { intros k st' E K. unfold read. cbn [l_rest]. rewrite E, skipn_length. cbn [List.length]. lia. }
  destruct (ceq c c_sp || ceq c c_tab || ceq c c_cr || ceq c c_nl).
  { destruct (ceq c c_nl).
    - cbn [set_line l_depth]. destruct (Z.eqb (l_depth st) 0); [reflexivity|]. apply IH; eapply LR; cbn; auto.
    - destruct (ceq c c_sp && l_clean st); apply IH; eapply LR; cbn; auto. }
  destruct (ceq c c_hash) eqn:Hc.
  { cbn [set_line l_depth l_rest]. rewrite R. cbn [l_rest]. destruct (Z.eqb (l_depth st) 0 && l_clean st); [reflexivity|].
    assert (P : 0 < List.length (span_not is_nl (c :: s))).
    { apply ceq_eq in Hc. subst c. cbn. lia. }
    assert (Q : List.length (l_rest (read (List.length (span_not is_nl (c :: s))) (set_line true 0 st))) < f /\ List.length (l_rest (read (List.length (span_not is_nl (c :: s))) (set_line true 0 st))) < g) by (apply LR; auto).
    apply IH; destruct (1 <? n), (is_suffix _); cbn [l_rest add_comments]; apply Q. }
  destruct (ceq c c_bs && _); [|reflexivity]. apply IH; apply LR; auto.
Qed.

(** ** Reading *)
Definition mk (rest : bytes) (d : nat) (clean : bool) (n : nat) (stk : list nat) : lexst := LX [] rest no_pos [] [] (Z.of_nat d) clean n stk.
Inductive reads : lexst -> list token -> lexst -> Prop :=
  | rd_nil a b : rsim (Lex a) (Lex b) -> reads a [] b
  | rd_cons a t a' ts b : Lex a = LexToken t a' -> t_kind t <> KEof -> reads a' ts b -> reads a (bare t :: ts) b.
Lemma reads_sim a b : sim a b -> reads a [] b.
Proof. intros. now apply rd_nil, Lex_sim. Qed.
Lemma reads_pre a b ts c : rsim (Lex a) (Lex b) -> reads b ts c -> reads a ts c.
Proof.
  intros H X. revert a H. induction X as [b c K|b t b' ts c E N X IH]; intros a H.
  - apply rd_nil. eapply rsim_trans; eauto.
  - rewrite E in H. destruct (Lex a) as [t' a'|] eqn:EA; [|contradiction]. destruct H as [Bt S0]. rewrite <- Bt.
    eapply rd_cons; [exact EA| |apply IH, Lex_sim, S0]. intro Q. apply N. apply (f_equal t_kind) in Bt. cbn in Bt. congruence.
Qed.
Lemma reads_trans a ts b ts' c : reads a ts b -> reads b ts' c -> reads a (ts ++ ts') c.
Proof.
  intros X Y. induction X as [a b K|a t a' ts b E N X IH]; [eapply reads_pre; eauto|]. cbn [app]. eapply rd_cons; eauto.
Qed.
Lemma reads_step a t a' b : Lex a = LexToken t a' -> t_kind t <> KEof -> sim a' b -> reads a [bare t] b.
Proof. intros. eapply rd_cons; eauto. now apply reads_sim. Qed.

(** Blanks. *)
(** One blank-skipping turn. *)
Lemma skip_turn a a' n m k : skip_blanks (S (List.length (l_rest a))) a 0 = skip_blanks k a' n ->
  List.length (l_rest a') < k -> sim a' m -> rsim (Lex a) (Lex m).
Proof.
  intros E L S0. assert (X : ssim (skip_blanks (S (List.length (l_rest a))) a 0) (skip_blanks (S (List.length (l_rest m))) m 0)).
  { rewrite E, (skip_fuel k a' n (S (List.length (l_rest a')))) by (auto; lia). assert (l_rest a' = l_rest m) as -> by apply S0. now apply skip_sim. }
  rewrite !Lex_after. destruct (skip_blanks _ a 0) as [[t st]|st], (skip_blanks _ m 0) as [[t' st']|st']; cbn [ssim] in X; try contradiction; [exact X|]. now apply after_sim.
Qed.
Lemma read_len k st : List.length (l_rest (read k st)) = List.length (l_rest st) - k.
Proof. unfold read. cbn. apply skipn_length. Qed.
Lemma rd_space d n stk r : reads (mk (c_sp :: r) d false n stk) [] (mk r d false n stk).
Proof.
  apply rd_nil. eapply (skip_turn _ (read 1 (mk (c_sp :: r) d false n stk)) 0 _ (List.length (c_sp :: r))); [reflexivity| |repeat split]. rewrite read_len. cbn. lia.
Qed.
Lemma rd_space_clean d n stk r : reads (mk (c_sp :: r) d true n stk) [] (mk r d true (S n) stk).
Proof.
  apply rd_nil. eapply (skip_turn _ (read 1 (set_line true (S n) (mk (c_sp :: r) d true n stk))) 0 _ (List.length (c_sp :: r))); [reflexivity| |repeat split]. rewrite read_len. cbn. lia.
Qed.
Lemma rd_nl_in d b n stk r : reads (mk (c_nl :: r) (S d) b n stk) [] (mk r (S d) true 0 stk).
Proof.
  apply rd_nil. eapply (skip_turn _ (read 1 (set_line true 0 (mk (c_nl :: r) (S d) b n stk))) 1 _ (List.length (c_nl :: r))); [reflexivity| |repeat split]. rewrite read_len. cbn. lia.
Qed.
Definition NL : token := Tok (KChar c_nl) no_pos [c_nl] [] false.
Definition COM : token := Tok KComment no_pos [] [] false.
Definition IND : token := Tok KIndent no_pos [] [] false.
Definition UN : token := Tok KUnindent no_pos [] [] false.
Lemma rd_nl_out b n stk r : reads (mk (c_nl :: r) 0 b n stk) [NL] (mk r 0 true 0 stk).
Proof. eapply (reads_step _ (here (KChar c_nl) [c_nl] (mk (c_nl :: r) 0 b n stk))); [reflexivity|discriminate|repeat split]. Qed.
Lemma rd_cont d b n stk r : reads (mk (c_bs :: c_nl :: r) d b n stk) [] (mk r d b n stk).
Proof.
  apply rd_nil. eapply (skip_turn _ (read 2 (mk (c_bs :: c_nl :: r) d b n stk)) 0 _ (List.length (c_bs :: c_nl :: r))); [reflexivity| |repeat split]. rewrite read_len. cbn. lia.
Qed.
Lemma span_line s r : ~ In c_nl s -> span_not is_nl (s ++ c_nl :: r) = s.
Proof.
  induction s as [|c s IH]; intros H; [reflexivity|]. cbn [app span_not]. assert (is_nl c = false) as -> by (apply ceq_neq; intros ->; apply H; now left).
  rewrite IH; [reflexivity|]. intro Q. apply H. now right.
Qed.
Lemma read_all s r st : l_rest st = s ++ r -> l_rest (read (List.length s) st) = r.
Proof. intros H. now apply (read_moved s r st). Qed.
Lemma rd_com_in d b n stk s r : ~ In c_nl s -> (0 < d \/ b = false) ->
  reads (mk (c_hash :: s ++ c_nl :: r) d b n stk) [] (mk (c_nl :: r) d true 0 stk).
Proof.
  intros H C. apply rd_nil. set (a := mk (c_hash :: s ++ c_nl :: r) d b n stk).
  assert (E : span_not is_nl (c_hash :: s ++ c_nl :: r) = c_hash :: s) by (apply (span_line (c_hash :: s)); intros [Q|Q]; [discriminate|auto]).
  pose (a1 := read (List.length (c_hash :: s)) (set_line true 0 a)).
  assert (R1 : l_rest a1 = c_nl :: r) by (apply (read_all (c_hash :: s)); reflexivity).
  pose (a2 := if is_suffix [] then add_comments [] [Comment no_pos (c_hash :: s)] a1 else add_comments [Comment no_pos (c_hash :: s)] [] a1).
  eapply (skip_turn a a2 0 _ (List.length (l_rest a))).
  - cbn [skip_blanks]. unfold a at 1. cbn [mk l_rest]. change (ceq c_hash c_sp || ceq c_hash c_tab || ceq c_hash c_cr || ceq c_hash c_nl) with false. cbn iota.
    change (ceq c_hash c_hash) with true. cbn iota. change (l_rest (set_line true 0 a)) with (c_hash :: s ++ c_nl :: r). rewrite E.
    assert (Z.eqb (l_depth (set_line true 0 a)) 0 && l_clean a = false) as ->.
    { destruct C as [C| ->]; [|apply andb_false_r]. apply andb_false_iff. left. apply Z.eqb_neq. cbn. lia. }
    reflexivity.
  - assert (l_rest a2 = c_nl :: r) as -> by (unfold a2; destruct (is_suffix []); exact R1). unfold a. cbn. rewrite app_length. cbn. lia.
  - eapply sim_trans; [unfold a2; destruct (is_suffix []); apply add_sim|]. repeat split. exact R1.
Qed.
Lemma rd_com_out n stk s r : ~ In c_nl s -> reads (mk (c_hash :: s ++ c_nl :: r) 0 true n stk) [COM] (mk (c_nl :: r) 0 true 0 stk).
Proof.
  intros H. set (a := mk (c_hash :: s ++ c_nl :: r) 0 true n stk).
  assert (E : span_not is_nl (c_hash :: s ++ c_nl :: r) = c_hash :: s) by (apply (span_line (c_hash :: s)); intros [Q|Q]; [discriminate|auto]).
  pose (a1 := read (List.length (c_hash :: s)) (set_line true 0 a)).
  assert (R1 : l_rest a1 = c_nl :: r) by (apply (read_all (c_hash :: s)); reflexivity).
  change COM with (bare (here KComment (c_hash :: s) (set_line true 0 a))). eapply (reads_step a _ a1); [|discriminate|repeat split; exact R1].
  unfold Lex. cbn [skip_blanks]. unfold a at 1. cbn [mk l_rest]. change (ceq c_hash c_sp || ceq c_hash c_tab || ceq c_hash c_cr || ceq c_hash c_nl) with false. cbn iota.
  change (ceq c_hash c_hash) with true. cbn iota. change (l_rest (set_line true 0 a)) with (c_hash :: s ++ c_nl :: r). rewrite E. reflexivity.
Qed.

(** The start of a token. *)
Definition solid (c : ascii) : bool := negb (ceq c c_sp || ceq c c_tab || ceq c c_cr || ceq c c_nl || ceq c c_hash || ceq c c_bs).
Lemma skip_solid f c r d b n stk : solid c = true -> skip_blanks (S f) (mk (c :: r) d b n stk) 0 = inr (mk (c :: r) d b n stk).
Proof.
  unfold solid. intros H. apply negb_true_iff in H. repeat (apply orb_false_iff in H as [H ?]). cbn [skip_blanks mk l_rest].
  rewrite H. repeat match goal with E : ceq c _ = false |- _ => rewrite E; clear E end. reflexivity.
Qed.
Lemma Lex_solid c r d b n stk : solid c = true -> Lex (mk (c :: r) d b n stk) = after_blanks (mk (c :: r) d b n stk).
Proof. intros H. rewrite Lex_after. change (l_rest (mk (c :: r) d b n stk)) with (c :: r). cbn [List.length]. now rewrite skip_solid. Qed.
Lemma rd_align d n stk c r : solid c = true -> (0 < d \/ n = hd 0 stk) -> reads (mk (c :: r) d true n stk) [] (mk (c :: r) d false 0 stk).
Proof.
  intros H C. apply rd_nil. rewrite !Lex_solid by assumption. eapply rsim_trans; [|apply (after_sim (mk (c :: r) d false n stk)); repeat split; discriminate].
  unfold after_blanks. cbn [mk l_depth l_clean l_indent l_indents]. rewrite !andb_false_r, andb_true_r. cbn iota.
  destruct C as [C| ->].
  - assert (Z.eqb (Z.of_nat d) 0 = false) as -> by (apply Z.eqb_neq; lia). apply rsim_refl.
  - rewrite Nat.ltb_irrefl, !andb_false_r. apply rsim_refl.
Qed.
Lemma rd_indent n stk c r : solid c = true -> hd 0 stk < n -> reads (mk (c :: r) 0 true n stk) [IND] (mk (c :: r) 0 false 0 (n :: stk)).
Proof.
  intros H C. eapply (reads_step _ (here KIndent [] (mk (c :: r) 0 true n stk))); [|discriminate|].
  - rewrite Lex_solid by assumption. unfold after_blanks.
    cbn [mk l_depth l_clean l_indent l_indents]. apply Nat.ltb_lt in C. rewrite C. reflexivity.
  - repeat split. discriminate.
Qed.
Lemma rd_unindent n x stk c r : solid c = true -> n < x -> n <= hd 0 stk -> reads (mk (c :: r) 0 true n (x :: stk)) [UN] (mk (c :: r) 0 true n stk).
Proof.
  intros H C C'. eapply (reads_step _ (here KUnindent [] (mk (c :: r) 0 true n stk))); [|discriminate|].
  - rewrite Lex_solid by assumption. unfold after_blanks. cbn [mk l_depth l_clean l_indent l_indents hd].
    assert (x <? n = false) as -> by (apply Nat.ltb_ge; lia). assert (n <? x = true) as -> by now apply Nat.ltb_lt.
    cbn [set_indents l_indents l_indent tl mk Z.eqb Z.of_nat andb]. assert (hd 0 stk <? n = false) as -> by (apply Nat.ltb_ge; lia). reflexivity.
  - repeat split.
Qed.
Lemma rd_un_end b x stk : 0 < x -> reads (mk [] 0 b 0 (x :: stk)) [UN] (mk [] 0 b 0 stk).
Proof.
  intros H. assert (X : 0 <? x = true) by now apply Nat.ltb_lt. destruct b.
  - eapply (reads_step _ (here KUnindent [] (mk [] 0 true 0 stk))); [|discriminate|].
    + rewrite Lex_after. cbn [mk l_rest List.length skip_blanks]. unfold after_blanks. cbn [mk l_depth l_clean l_indent l_indents hd Z.eqb Z.of_nat andb].
      assert (x <? 0 = false) as -> by reflexivity. rewrite X. cbn [set_indents l_indents l_indent tl mk].
      assert (hd 0 stk <? 0 = false) as -> by reflexivity. reflexivity.
    + repeat split.
  - eapply (reads_step _ (here KUnindent [] (mk [] 0 false 0 stk))); [|discriminate|].
    + rewrite Lex_after. cbn [mk l_rest List.length skip_blanks]. unfold after_blanks. cbn [mk l_depth l_clean l_indent l_indents hd].
      rewrite andb_false_r, !andb_false_l. cbn iota. cbn [set_line l_rest mk]. rewrite X. reflexivity.
    + repeat split.
Qed.
(** A token, once the start of the line is past. *)
Lemma rd_token c w t r d stk st' d' : solid c = true -> lex_token (mk (c :: w) d false 0 stk) = LexToken t st' -> t_kind t <> KEof -> sim st' (mk r d' false 0 stk) ->
  reads (mk (c :: w) d false 0 stk) [bare t] (mk r d' false 0 stk).
Proof.
  intros H E K S0. eapply (reads_step _ t st'); [|exact K|exact S0].
  rewrite Lex_solid by assumption. unfold after_blanks. cbn [mk l_depth l_clean l_indent l_indents]. rewrite !andb_false_r. cbn [andb set_line l_rest]. exact E.
Qed.

(** ** The end of the file *)
Lemma lex_all_reads a ts b : reads a ts b -> forall e b', Lex b = LexToken e b' -> t_kind e = KEof -> forall f, List.length ts < f ->
  exists ts' e' st, lex_all f a = Lexed (ts' ++ [e']) st /\ t_kind e' = KEof /\ map bare ts' = ts.
Proof.
  induction 1 as [a b K|a t a' ts b E N X IH]; intros e b' Eb Ke f L; (destruct f as [|f]; [cbn in L; lia|]).
  - rewrite Eb in K. destruct (Lex a) as [t a'|] eqn:EA; [|contradiction]. destruct K as [Bt _]. apply (f_equal t_kind) in Bt. cbn in Bt.
    exists [], t, a'. cbn [lex_all]. rewrite EA. assert (KT : t_kind t = KEof) by congruence. rewrite KT. auto.
  - cbn in L. destruct (IH e b' Eb Ke f ltac:(lia)) as (ts' & e' & st & EL & KE & M). exists (t :: ts'), e', st. cbn [lex_all]. rewrite E, EL.
    split; [|split; [assumption|cbn; now rewrite M]]. destruct (t_kind t); auto; contradiction.
Qed.
Lemma lex_more f : forall g st l st', lex_all f st = Lexed l st' -> f <= g -> lex_all g st = Lexed l st'.
Proof.
  induction f as [|f IH]; intros g st l st' E L; [discriminate|]. destruct g as [|g]; [lia|]. cbn [lex_all] in *.
  destruct (Lex st) as [t s1|]; [|discriminate]. destruct (t_kind t); try exact E;
    (destruct (lex_all f s1) as [l1 s2|l1|] eqn:E1; try discriminate; rewrite (IH g _ _ _ E1) by lia; exact E).
Qed.
Lemma lex_more_fail f : forall g st l, lex_all f st = LexFail l -> f <= g -> lex_all g st = LexFail l.
Proof.
  induction f as [|f IH]; intros g st l E L; [discriminate|]. destruct g as [|g]; [lia|]. cbn [lex_all] in *.
  destruct (Lex st) as [t s1|]; [|exact E]. destruct (t_kind t); try exact E;
    (destruct (lex_all f s1) as [l1 s2|l1|] eqn:E1; try discriminate; rewrite (IH g _ _ E1) by lia; exact E).
Qed.
(** If the text of a file is read as [ts], its tokens are these. *)
Theorem reads_tokens data ts b : reads (mk (data ++ [c_nl]) 0 true 0 [0]) ts (mk [] 0 b 0 [0]) ->
  exists ts' eof st, tokenize data = Lexed (ts' ++ [eof]) st /\ t_kind eof = KEof /\ map bare ts' = ts.
Proof.
  intros R. assert (E : reads (newInput data) ts (mk [] 0 b 0 [0])) by (eapply reads_pre; [|exact R]; apply Lex_sim; repeat split).
  assert (EB : exists e b', Lex (mk [] 0 b 0 [0]) = LexToken e b' /\ t_kind e = KEof) by (destruct b; eexists _, _; split; reflexivity).
  destruct EB as (e & b' & EB & KE).
  pose (f := Nat.max (S (List.length ts)) (3 * List.length data + 6)).
  destruct (lex_all_reads _ _ _ E e b' EB KE f ltac:(unfold f; lia)) as (ts' & e' & st & L & K & M).
  exists ts', e', st. split; [|auto]. unfold tokenize.
  destruct (lex_all (3 * List.length data + 6) (newInput data)) as [l st'|l|] eqn:T.
  - rewrite (lex_more _ f _ _ _ T) in L by (unfold f; lia). exact L.
  - rewrite (lex_more_fail _ f _ _ T) in L by (unfold f; lia). discriminate.
  - exfalso. eapply (lex_all_term _ _ 0 (new_stack data) (new_measure data)). exact T.
Qed.
