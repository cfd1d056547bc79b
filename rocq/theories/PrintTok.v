(** The tokens that the printer writes are read back, given what can follow them. *)
From Verif Require Import Base BaseProofs Ast Utf8 Quote QuoteProofs QuotePrint Lex LexSpec LexProofs ParseSpec PrintLex.
Local Open Scope list_scope.

(** What can follow a word, and what can start one. *)
Definition closer (c : ascii) : bool := mem_char c (c_sp :: c_nl :: c_hash :: %")]},:.([").
Definition starter (c : ascii) : bool := isIdent c || ceq c c_quote || ceq c c_sq || mem_char c %"([{-+~.".
Definition loose (c : ascii) : bool := closer c || starter c.
Definition any (c : ascii) : bool := true.
(** [scans w K d ts d']: the text [w], at depth [d], is read as [ts] if the next character is in [K]. *)
Definition scans (w : bytes) (K : ascii -> bool) (d : nat) (ts : list token) (d' : nat) : Prop :=
  forall c r stk, K c = true -> reads (mk (w ++ c :: r) d false 0 stk) ts (mk (c :: r) d' false 0 stk).
Lemma scans_app w1 c2 w2 K1 K2 d ts1 d1 ts2 d2 : scans w1 K1 d ts1 d1 -> K1 c2 = true -> scans (c2 :: w2) K2 d1 ts2 d2 ->
  scans (w1 ++ c2 :: w2) K2 d (ts1 ++ ts2) d2.
Proof.
  intros A B C c r stk H. rewrite <- app_assoc. cbn [app]. eapply reads_trans; [apply A, B|]. apply (C c r stk H).
Qed.
Lemma scans_weaken w (K K' : ascii -> bool) d ts d' : scans w K d ts d' -> (forall c, K' c = true -> K c = true) -> scans w K' d ts d'.
Proof. intros A B c r stk H. apply A, B, H. Qed.

Lemma forall_byte_imp (p q : ascii -> bool) : forallb (fun c => negb (p c) || q c) all_bytes = true -> forall c, p c = true -> q c = true.
Proof.
  intros H c P. pose proof (forall_byte _ H c) as X. cbv beta in X. rewrite P in X. exact X.
Qed.
Lemma closer_loose c : closer c = true -> loose c = true. Proof. unfold loose. now intros ->. Qed.
Lemma starter_loose c : starter c = true -> loose c = true. Proof. unfold loose. intros ->. apply orb_true_r. Qed.
Lemma starter_solid c : starter c = true -> solid c = true.
Proof. apply forall_byte_imp. vm_compute. reflexivity. Qed.
Lemma ident_starter c : isIdent c = true -> starter c = true. Proof. unfold starter. now intros ->. Qed.
Lemma ident_solid c : isIdent c = true -> solid c = true. Proof. intro. now apply starter_solid, ident_starter. Qed.
Lemma closer_ident c : closer c = true -> isIdent c = false.
Proof. intro H. apply negb_true_iff. revert c H. apply (forall_byte_imp _ (fun c => negb (isIdent c))). vm_compute. reflexivity. Qed.

(** A word read by [lex_token]. *)
Lemma scan_word c w K d k str t d' :
  solid c = true -> k <> KEof -> k <> KComment ->
  (forall x r stk, K x = true -> exists st', lex_token (mk ((c :: w) ++ x :: r) d false 0 stk) = LexToken (Tok k no_pos (c :: w) str t) st' /\ sim st' (mk (x :: r) d' false 0 stk)) ->
  scans (c :: w) K d [Tok k no_pos (c :: w) str t] d'.
Proof.
  intros S0 N N' H x r stk Kx. destruct (H x r stk Kx) as (st' & E & Si).
  replace (Tok k no_pos (c :: w) str t) with (bare (Tok k no_pos (c :: w) str t)) by (unfold bare; cbn; destruct k; try reflexivity; contradiction).
  change ((c :: w) ++ x :: r) with (c :: (w ++ x :: r)) in *. eapply rd_token; eauto.
Qed.
Lemma read_here w x d b n stk r : sim (read (List.length w) (mk (w ++ x :: r) d b n stk)) (mk (x :: r) d b n stk).
Proof. repeat split. apply (read_all w (x :: r)). reflexivity. Qed.
Lemma firstn_here (w : bytes) s : firstn (List.length w) (w ++ s) = w.
Proof. rewrite firstn_app, Nat.sub_diag, firstn_all. cbn. apply app_nil_r. Qed.

Lemma scan_all e : forall w x r, Forall name_char w -> isIdent x = false -> scan_ident false e (w ++ x :: r) = w.
Proof.
  intros w. revert e. induction w as [|c w IH]; intros e x r F X; cbn [app scan_ident].
  - rewrite X, andb_false_r. reflexivity.
  - inversion F as [|? ? A B]; subst. apply isIdent_spec in A. rewrite A. cbn [orb]. f_equal. apply IH; auto.
Qed.
Lemma scan_num w : forall pre e x r, (e = true <-> ends_e pre) -> (forall b c s, w = b ++ c :: s -> number_char (pre ++ b) c) -> isIdent x = false -> ceq x "+" || ceq x "-" = false ->
  scan_ident true e (w ++ x :: r) = w.
Proof.
  induction w as [|c w IH]; intros pre e x r E F X Y; cbn [app scan_ident].
  - rewrite X, Y. reflexivity.
  - assert (isIdent c || (ceq c "+" || ceq c "-") && true && e = true) as ->.
    { destruct (F [] c w eq_refl) as [A|[A B]]; [apply isIdent_spec in A; now rewrite A|]. rewrite app_nil_r in B.
      assert (e = true) as -> by (apply E; exact B). cbn in A. destruct A as [<-|[<-|[]]]; reflexivity. }
    f_equal. apply (IH (pre ++ [c])); auto; [rewrite ends_e_snoc; tauto|]. intros b c' s Q. rewrite <- app_assoc. apply (F (c :: b) c' s). cbn. now rewrite Q.
Qed.
Lemma not_special c : isIdent c = true -> mem_char c %"[({" = false /\ mem_char c %"])}" = false /\ mem_char c %".:;," = false /\ mem_char c %"<>=!+-*/%|&~^" = false /\ ceq c c_quote = false /\ ceq c c_sq = false.
Proof.
  intro H. assert (X : negb (mem_char c %"[({") && (negb (mem_char c %"])}") && (negb (mem_char c %".:;,") && (negb (mem_char c %"<>=!+-*/%|&~^") && (negb (ceq c c_quote) && negb (ceq c c_sq))))) = true).
  { revert c H. apply forall_byte_imp. vm_compute. reflexivity. }
  repeat match goal with H : _ && _ = true |- _ => apply andb_true_iff in H as [? H] end. repeat split; now apply negb_true_iff.
Qed.
Lemma closer_quote c : closer c = true -> ceq c c_quote || ceq c c_sq = false.
Proof. intro H. apply negb_true_iff. revert c H. apply (forall_byte_imp _ (fun c => negb (ceq c c_quote || ceq c c_sq))). vm_compute. reflexivity. Qed.
Lemma closer_sign c : closer c = true -> ceq c "+" || ceq c "-" = false.
Proof. intro H. apply negb_true_iff. revert c H. apply (forall_byte_imp _ (fun c => negb (ceq c "+" || ceq c "-")%char)). vm_compute. reflexivity. Qed.
Lemma ident_lex c w x r d stk : isIdent c = true -> Forall name_char w \/ is_digit c = true -> closer x = true -> scan_ident (is_digit c) false ((c :: w) ++ x :: r) = c :: w ->
  exists st', lex_token (mk ((c :: w) ++ x :: r) d false 0 stk) = LexToken (Tok (ident_kind (c :: w)) no_pos (c :: w) [] false) st' /\ sim st' (mk (x :: r) d false 0 stk).
Proof.
  intros H1 H2 H3 H4. exists (read (List.length (c :: w)) (mk ((c :: w) ++ x :: r) d false 0 stk)). split; [|apply read_here].
  destruct (not_special c H1) as (N1 & N2 & N3 & N4 & N5 & N6).
  unfold lex_token. change (l_rest (mk ((c :: w) ++ x :: r) d false 0 stk)) with (c :: w ++ x :: r). cbn iota. rewrite N1, N2, N3, N4. cbn iota.
  assert (starts_string (c :: w ++ x :: r) = false) as ->.
  { unfold starts_string. rewrite N5, N6. cbn [orb]. destruct (ceq c "r") eqn:R; [|reflexivity]. cbn [andb].
    destruct w as [|y w]; cbn [app]; [now apply closer_quote|]. destruct H2 as [H2|H2].
    - inversion H2 as [|? ? A B]; subst. apply isIdent_spec in A. destruct (not_special y A) as (_ & _ & _ & _ & -> & ->). reflexivity.
    - apply ceq_eq in R. subst c. discriminate H2. }
  cbn iota. rewrite H1. cbn [negb]. change (c :: w ++ x :: r) with ((c :: w) ++ x :: r). rewrite H4, firstn_here. reflexivity.
Qed.
Definition tok0 (k : kind) (w : bytes) : token := Tok k no_pos w [] false.
Lemma scan_ident_tok t d : spelled t -> t_kind t = KIdent -> scans (t_tok t) closer d [tok0 KIdent (t_tok t)] d.
Proof.
  unfold spelled. intros H K. rewrite K in H. destruct H as ((c & w & E & D) & F & N). rewrite E in *. inversion F as [|? ? A B]; subst.
  apply isIdent_spec in A. apply scan_word; [now apply ident_solid|discriminate|discriminate|]. intros x r stk C.
  assert (is_digit c = false) as DF by (destruct (is_digit c) eqn:Q; [apply is_digit_spec in Q; contradiction|reflexivity]).
  assert (ident_kind (c :: w) = KIdent) as <-.
  { destruct (ident_kind_spec (c :: w)) as [Q|[_ ->]]; [exfalso; eapply N, Q|]. now rewrite DF. }
  apply ident_lex; auto. rewrite DF. apply scan_all; auto. now apply closer_ident.
Qed.
Lemma keyword_unique w k k' : In (w, k) keywords -> In (w, k') keywords -> k = k'.
Proof.
  intros A B. cbn [keywords In] in A, B.
  repeat (destruct A as [A|A]; [injection A as <- <-; repeat (destruct B as [B|B]; [first [discriminate B|injection B as <-; reflexivity]|]); contradiction|]). contradiction.
Qed.
Lemma scan_keyword w k d : In (w, k) keywords -> scans w closer d [tok0 k w] d.
Proof.
  intros H. pose proof (keyword_kind _ _ H) as KK. destruct (keyword_first _ _ H) as (c & s & -> & D).
  assert (F : forallb (fun x => forallb isIdent (fst x)) keywords = true) by reflexivity. rewrite forallb_forall in F. specialize (F _ H). cbn [fst forallb] in F.
  apply andb_true_iff in F as [F1 F2]. assert (F3 : Forall name_char s) by (apply Forall_forall; intros y Y; apply isIdent_spec; rewrite forallb_forall in F2; auto).
  apply scan_word; [now apply ident_solid|intros ->; contradiction|intros ->; contradiction|]. intros x r stk C.
  assert (ident_kind (c :: s) = k) as <-.
  { destruct (ident_kind_spec (c :: s)) as [Q|[Q _]]; [eapply keyword_unique; eauto|exfalso; eapply Q, H]. }
  apply ident_lex; auto. rewrite D. apply scan_all; [|now apply closer_ident]. constructor; auto. now apply isIdent_spec.
Qed.
Lemma scan_int t d : spelled t -> t_kind t = KInt -> scans (t_tok t) closer d [tok0 KInt (t_tok t)] d.
Proof.
  unfold spelled. intros H K. rewrite K in H. destruct H as ((c & w & E & D) & F). rewrite E in *. apply is_digit_spec in D.
  pose proof (digit_ident c D) as A. apply scan_word; [now apply ident_solid|discriminate|discriminate|]. intros x r stk C.
  assert (ident_kind (c :: w) = KInt) as <-.
  { destruct (ident_kind_spec (c :: w)) as [Q|[_ ->]]; [|now rewrite D]. destruct (keyword_first _ _ Q) as (c' & s' & Q1 & Q2). injection Q1 as -> ->. congruence. }
  apply ident_lex; auto. rewrite D. apply (scan_num (c :: w) []); auto using closer_ident, closer_sign.
  split; [discriminate|]. intros (b & e & Q & _). destruct b; discriminate.
Qed.
Definition good_text (p v : bytes) (t : bool) : Prop :=
  forall rest, head_is c_quote rest = false -> head_is c_sq rest = false -> lex_string (p ++ rest) = Some (p, v, t, rest).
Lemma good_shape p v t : good_text p v t -> exists raw q tr body, is_q q = true /\ p = rawp raw ++ qs tr q ++ body ++ qs tr q.
Proof.
  intros H. specialize (H [] eq_refl eq_refl). rewrite app_nil_r in H. unfold lex_string in H.
  destruct (scan_string p) as [rest|] eqn:E; [|discriminate]. apply scan_shape in E as (raw & q & tr & body & Q & E & _).
  assert (rest = []) as -> by (destruct (unquote _) as [[? ?] [?|]]; [discriminate|]; now injection H). rewrite app_nil_r in E. exists raw, q, tr, body. auto.
Qed.
Lemma q_cases q : is_q q = true -> q = c_quote \/ q = c_sq.
Proof. unfold is_q. intro H. apply orb_true_iff in H as [H|H]; apply ceq_eq in H; auto. Qed.
Lemma good_last p v t : good_text p v t -> exists b q, p = b ++ [q] /\ q <> c_sp /\ q <> c_nl.
Proof.
  intros H. destruct (good_shape _ _ _ H) as (raw & q & tr & body & Q & E).
  exists (rawp raw ++ qs tr q ++ body ++ (if tr then [q; q] else [])), q. split; [|destruct (q_cases q Q) as [-> | ->]; split; discriminate].
  rewrite E, <- !app_assoc. do 3 f_equal. destruct tr; reflexivity.
Qed.
Lemma good_first p v t : good_text p v t -> exists c w, p = c :: w /\ starter c = true /\ forall s, starts_string (p ++ s) = true.
Proof.
  intros H. destruct (good_shape _ _ _ H) as (raw & q & tr & body & Q & E). destruct (q_cases q Q) as [-> | ->];
  (destruct raw, tr; cbn in E; eexists _, _; (split; [exact E|]; split; [reflexivity|]); intro s; rewrite E; reflexivity).
Qed.
Lemma scan_text p v t d : good_text p v t -> scans p closer d [Tok KString no_pos p v t] d.
Proof.
  intros H. destruct (good_first _ _ _ H) as (c & w & E & S0 & SS). subst p. apply scan_word; [now apply starter_solid|discriminate|discriminate|].
  intros x r stk C. exists (read (List.length (c :: w)) (mk ((c :: w) ++ x :: r) d false 0 stk)). split; [|apply read_here].
  unfold lex_token. change (l_rest (mk ((c :: w) ++ x :: r) d false 0 stk)) with ((c :: w) ++ x :: r). rewrite SS.
  pose proof (closer_quote x C) as CQ. apply orb_false_iff in CQ as [C1 C2].
  assert (HS : lex_string ((c :: w) ++ x :: r) = Some (c :: w, v, t, x :: r)).
  { apply H; cbn; [destruct (Ascii.eqb_spec x c_quote)|destruct (Ascii.eqb_spec x c_sq)]; auto; subst; discriminate. }
  assert (Q : ceq c c_quote || ceq c c_sq || ceq c "r" = true).
  { specialize (SS []). unfold starts_string in SS. rewrite app_nil_r in SS. destruct (ceq c c_quote), (ceq c c_sq), (ceq c "r"); auto. }
  assert (NS : mem_char c %"[({" = false /\ mem_char c %"])}" = false /\ mem_char c %".:;," = false /\ mem_char c %"<>=!+-*/%|&~^" = false).
  { apply orb_true_iff in Q as [Q|Q]; [apply orb_true_iff in Q as [Q|Q]|]; apply ceq_eq in Q; subst c; repeat split; reflexivity. }
  destruct NS as (N1 & N2 & N3 & N4). cbn [app]. rewrite N1, N2, N3, N4. change (c :: w ++ x :: r) with ((c :: w) ++ x :: r). rewrite HS. reflexivity.
Qed.
Lemma good_token s t : spelled t -> t_kind t = KString -> print_string (t_str t) (t_triple t) (t_tok t) = Ok s -> good_text s (t_str t) (t_triple t).
Proof.
  unfold spelled. intros H K P. rewrite K in H. destruct H as [H1 H2].
  assert (L : QuotePrint.lexed (t_tok t) (t_str t) (t_triple t)).
  { exists []. rewrite app_nil_r. unfold lex_string. rewrite H2. cbn [List.length]. rewrite Nat.sub_0_r, firstn_all, H1. reflexivity. }
  destruct (print_lexed _ _ _ L) as [[E _]|(p & E & G)]; [congruence|]. rewrite E in P. injection P as <-. exact G.
Qed.
Lemma good_quote v : good_text (quote v false) v false.
Proof. intros rest A B. apply lex_quote; auto. Qed.

(** Punctuation, brackets and operators. *)
Lemma scan_punct c d : In c %".:;," -> scans [c] any d [tok0 (KChar c) [c]] d.
Proof.
  intros H. apply scan_word; try discriminate.
  - cbn in H. destruct H as [<-|[<-|[<-|[<-|[]]]]]; reflexivity.
  - intros x r stk _. eexists. split; [|apply (read_here [c])]. cbn in H. destruct H as [<-|[<-|[<-|[<-|[]]]]]; reflexivity.
Qed.
Lemma scan_open c d : In c %"[({" -> scans [c] any d [tok0 (KChar c) [c]] (S d).
Proof.
  intros H. apply scan_word; try discriminate.
  - cbn in H. destruct H as [<-|[<-|[<-|[]]]]; reflexivity.
  - intros x r stk _. exists (read 1 (set_depth (Z.of_nat d + 1) (mk ([c] ++ x :: r) d false 0 stk))). split.
    + cbn in H. destruct H as [<-|[<-|[<-|[]]]]; reflexivity.
    + repeat split. cbn [read set_depth l_depth mk]. lia.
Qed.
Lemma scan_close c d : In c %"])}" -> scans [c] any (S d) [tok0 (KChar c) [c]] d.
Proof.
  intros H. apply scan_word; try discriminate.
  - cbn in H. destruct H as [<-|[<-|[<-|[]]]]; reflexivity.
  - intros x r stk _. exists (read 1 (set_depth (Z.of_nat (S d) - 1) (mk ([c] ++ x :: r) (S d) false 0 stk))). split.
    + cbn in H. destruct H as [<-|[<-|[<-|[]]]]; reflexivity.
    + repeat split. cbn [read set_depth l_depth mk]. lia.
Qed.
Definition symbols : list (bytes * kind) :=
  map (fun c => ([c], KChar c)) %"<>=+-*/%|&~^" ++ operators.
Lemma loose_op c : loose c = true -> ceq c "=" = false /\ ceq c ">" = false /\ ceq c "<" = false /\ ceq c "*" = false /\ ceq c "/" = false.
Proof.
  intro H. assert (X : negb (ceq c "=") && (negb (ceq c ">") && (negb (ceq c "<") && (negb (ceq c "*") && negb (ceq c "/"))))%char = true).
  { revert c H. apply forall_byte_imp. vm_compute. reflexivity. }
  repeat match goal with H : _ && _ = true |- _ => apply andb_true_iff in H as [? H] end. repeat split; now apply negb_true_iff.
Qed.
Lemma ceq_sym a b : ceq a b = ceq b a.
Proof. unfold ceq. apply Ascii.eqb_sym. Qed.
Lemma scan_symbol w k d : In (w, k) symbols -> scans w loose d [tok0 k w] d.
Proof.
  intros H.
  assert (F : forallb (fun x => match fst x with c :: _ => mem_char c %"<>=!+-*/%|&~^" && solid c && negb (mem_char c %"[({])}.:;,") | [] => false end) symbols = true) by (vm_compute; reflexivity).
  rewrite forallb_forall in F. specialize (F _ H). cbn [fst] in F. destruct w as [|c w]; [discriminate|]. apply andb_true_iff in F as [F F0]. apply andb_true_iff in F as [F1 F2].
  apply scan_word; [exact F2| | |].
  - intros ->. unfold symbols in H. cbn in H. repeat (destruct H as [H|H]; [discriminate|]). contradiction.
  - intros ->. unfold symbols in H. cbn in H. repeat (destruct H as [H|H]; [discriminate|]). contradiction.
  - intros x r stk L. exists (read (List.length (c :: w)) (mk ((c :: w) ++ x :: r) d false 0 stk)). split; [|apply read_here].
    assert (OP : op_token c (w ++ x :: r) = (k, List.length (c :: w))).
    { destruct (loose_op x L) as (L1 & L2 & L3 & L4 & L5). unfold symbols in H. cbn in H.
      repeat (destruct H as [H|H]; [injection H as <- <- <-; unfold op_token; cbn [app nth_error List.length Nat.sub];
        repeat match goal with |- context [ceq ?y x] => rewrite (ceq_sym y x) end; rewrite ?L1, ?L2, ?L3, ?L4, ?L5;
        repeat match goal with |- context [ceq x ?y] => first [rewrite L1|destruct (ceq x y)]; cbn [app nth_error List.length Nat.sub] end; cbn; rewrite ?L1; reflexivity|]). contradiction. }
    unfold lex_token. change (l_rest (mk ((c :: w) ++ x :: r) d false 0 stk)) with ((c :: w) ++ x :: r). cbn [app].
    assert (NS : mem_char c %"[({" = false /\ mem_char c %"])}" = false /\ mem_char c %".:;," = false).
    { apply negb_true_iff in F0. unfold mem_char in *. change %"[({])}.:;," with (%"[({" ++ %"])}" ++ %".:;,") in F0. rewrite !existsb_app in F0. apply orb_false_iff in F0 as [A F0]. apply orb_false_iff in F0 as [B F0]. auto. }
    destruct NS as (-> & -> & ->). rewrite F1, OP. change (c :: w ++ x :: r) with ((c :: w) ++ x :: r). rewrite firstn_here. reflexivity.
Qed.
