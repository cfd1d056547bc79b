(** Trees that tools build, with the printer's parentheses, are spelled by some tokens (C70). *)
From Verif Require Import Base BaseProofs Ast AttachSpec AttachTree Utf8 Quote Lex LexSpec ParseSpec ParseProofs ParseLex ShapeSpec Print PrintSpec PrintLex PrintMove GroupSpec Group GroupTidy.
Local Open Scope list_scope.

Definition here : pos := Pos 1 1 0.
Definition tk (k : kind) (w : bytes) : token := Tok k here w [] false.
Definition cc (c : ascii) : token := tk (KChar c) [c].
Definition stk (v : bytes) (t : bool) (w : bytes) : token := Tok KString here w v t.
Lemma wf_tk k w : is_word k w -> wf_tok (tk k w).
Proof. intro H. split; [exact H|reflexivity]. Qed.
Lemma wf_cc c : In c (c_nl :: %"[]{}().:;,<>=!+-*/%|&~^") -> wf_tok (cc c).
Proof. intro H. split; [split; [reflexivity|exact H]|reflexivity]. Qed.
Lemma wf_kw k w : In (w, k) operators \/ In (w, k) keywords -> (match k with KChar _ | KIdent | KInt | KString | KComment | KEof | KIndent | KUnindent => False | _ => True end) -> wf_tok (tk k w).
Proof. intros H N. split; [|reflexivity]. destruct k; try contradiction; exact H. Qed.
Lemma wf_str v t w : unquote w = (v, t, None) -> scan_string w = Some [] -> wf_tok (stk v t w).
Proof. intros H1 H2. split; [split; assumption|reflexivity]. Qed.
Ltac wf := repeat match goal with
  | |- Forall wf_tok [] => constructor
  | |- Forall wf_tok (_ :: _) => constructor
  | |- Forall wf_tok (_ ++ _) => apply Forall_app; split
  | |- wf_tok (cc _) => apply wf_cc; cbn; tauto
  | |- wf_tok (tk _ _) => first [apply wf_tk; assumption | apply wf_kw; [cbn; tauto|exact Logic.I]]
  end; auto.
(** The words of some tree. *)
Definition said (P : list token -> Prop) : Prop := exists ts, Forall wf_tok ts /\ P ts.
Lemma said_mono (P Q : list token -> Prop) : (forall ts, P ts -> Q ts) -> said P -> said Q.
Proof. intros H (ts & W & S0). exists ts. auto. Qed.
Lemma strip_set c e : strip (set_com c e) = strip e.
Proof. now destruct e. Qed.
Lemma one_set c k e ts : one c e ts -> one c (set_com k e) ts.
Proof. intro H. apply (proj1 move) with (e := e) (ts := ts); [exact H|apply strip_set|now apply eqt_bare]. Qed.

Definition kls (e : expr) : class :=
  match e with
  | EUnary _ _ _ _ | EBinary _ _ _ _ _ _ => COp
  | ELambda _ _ _ _ => CLambda
  | ECond _ _ _ _ _ _ => CCond
  | ETuple _ true _ _ _ _ _ => CBare
  | _ => CPrim
  end.
Definition core (e : expr) (ts : list token) : Prop :=
  match kls e with
  | CPrim => one Prim (group e) ts /\ prec e = precSuffix
  | COp => one (Level (pred (prec e)) false) (group e) ts /\ precOr <= prec e
  | CLambda => (forall n, one (Level n true) (group e) ts) /\ prec e = precColon
  | CCond => one (Level 1 false) (group e) ts /\ prec e = precSuffix
  | CBare => False /\ True
  end.
Ltac precs := unfold precSuffix, precUnary, precOr, precColon, precIfElse, precAssign in *.
Lemma core_test e ts : core e ts -> one Test (group e) ts.
Proof.
  unfold core. destruct (kls e); intros [H P]; [|now apply level_test in H| |now apply level_test in H|destruct H].
  - eapply t_any, t_prim, H.
  - eapply level_test, (H 0).
Qed.
Lemma core_prec e ts : core e ts -> precColon <= prec e.
Proof. unfold core. destruct (kls e); intros [H P]; precs; lia. Qed.
Lemma core_low e ts n : core e ts -> n <= 2 -> grp n e = group e.
Proof. intros C L. pose proof (core_prec _ _ C). unfold wrap. replace (prec e <? n) with false; [reflexivity|]. symmetry. apply Nat.ltb_ge. precs. lia. Qed.
Lemma parens e : said (core e) -> said (one Prim (EParen (com e) (start_pos e) (set_com no_com (group e)) (End no_com (end_pos e)) false)).
Proof.
  intros (ts & W & C). exists (cc "(" :: ts ++ [cc ")"]). split; [wf|]. apply p_paren; [reflexivity| |reflexivity]. apply one_set. now apply core_test.
Qed.
Lemma core_level n e : said (core e) -> kls e <> CCond -> 4 <= n -> n <= 13 -> said (one (Level (pred n) false) (grp n e)).
Proof.
  intros C NC L1 L2. unfold wrap. destruct (prec e <? n) eqn:P.
  - eapply said_mono; [|apply parens, C]. intros ts H. now apply t_prim.
  - apply Nat.ltb_ge in P. eapply said_mono; [|exact C]. intros ts H. unfold core in H. destruct (kls e); destruct H as [H Q]; precs; try lia; try congruence.
    + now apply t_prim.
    + eapply level_weaken; [|exact H]. lia.
Qed.
Lemma core_prim e : said (core e) -> kls e <> CCond -> said (one Prim (grp precSuffix e)).
Proof.
  intros C NC. unfold wrap. destruct (prec e <? precSuffix) eqn:P; [now apply parens|].
  apply Nat.ltb_ge in P. eapply said_mono; [|exact C]. intros ts H. unfold core in H. destruct e; cbn [kls prec] in *; try (destruct H as [H Q]; precs; try exact H; lia); try congruence.
  - destruct nobr; [destruct H as [[] _]|exact (proj1 H)].
  - pose proof (opPrec_max op). precs. unfold precMultiply in *. lia.
Qed.
(** Parts of a conditional expression. *)
Lemma core_else e : said (core e) -> kls e <> CCond -> said (one (Level 2 false) (grp precIfElse e)).
Proof.
  intros C NC. unfold wrap. destruct (prec e <? precIfElse) eqn:P.
  - eapply said_mono; [|apply parens, C]. intros ts H. now apply t_prim.
  - apply Nat.ltb_ge in P. eapply said_mono; [|exact C]. intros ts H. unfold core in H. destruct (kls e); destruct H as [H Q]; precs; try lia; try congruence.
    + now apply t_prim.
    + eapply level_weaken; [|exact H]. lia.
Qed.
Lemma core_then e : said (core e) -> said (one (Level 1 false) (grp precIfElse e)).
Proof.
  intros C. destruct (kls e) eqn:K; try (eapply said_mono; [|apply core_else; [exact C|congruence]]; intros ts H; eapply level_weaken; [|exact H]; lia).
  eapply said_mono; [|exact C]. intros ts H. unfold core in H. rewrite K in H. destruct H as [H Q]. unfold wrap. rewrite Q. exact H.
Qed.

Definition clause (e : expr) (ts : list token) : Prop :=
  (exists c p v q x f tv i tx, e = EForC c p v q x /\ ts = f :: tv ++ i :: tx /\ is KFor f /\ one Vars v tv /\ is KIn i /\ one (Level 2 false) x tx) \/
  (exists c p x i tx, e = EIfC c p x /\ ts = i :: tx /\ is KIf i /\ one (Level 2 false) x tx).
Definition spells (r : role) (e : expr) (ts : list token) : Prop :=
  match r with
  | Atom => one Prim (group e) ts
  | Plain => one (Level 2 false) (group e) ts
  | Operand => core e ts /\ kls e <> CCond
  | Value => core e ts
  | Many => one Expr (group e) ts /\ forall n, n <= 2 -> grp n e = group e
  | Target => one Vars (group e) ts
  | Argument => one Arg (group e) ts
  | Formal => one Param (group e) ts
  | TFormal => one TParam (group e) ts
  | Entry => one Pair (group e) ts
  | Clause => clause (group e) ts
  | Statement => is_code e = true -> one Small (group e) ts \/ exists k, one (Block k) (group e) ts
  end.
Lemma from_core r e : said (core e) -> fits r (kls e) -> said (spells r e).
Proof.
  intros C F. eapply said_mono; [|exact C]. intros ts H. destruct r; cbn [spells]; cbn [fits In] in F; try contradiction.
  - destruct F as [F|[]]. unfold core in H. rewrite <- F in H. apply H.
  - destruct F as [F|[F|[]]]; unfold core in H; rewrite <- F in H; destruct H as [H P]; [now apply t_prim|]. eapply level_weaken; [|exact H]. precs. lia.
  - split; [exact H|]. intro X. rewrite X in F. intuition discriminate.
  - exact H.
  - split; [now apply e_test, core_test|]. intros n L. eapply core_low; eauto.
  - destruct F as [F|[F|[]]]; unfold core in H; rewrite <- F in H; destruct H as [H P]; [now apply v_one|contradiction].
  - apply a_test, core_test, H.
  - intros _. left. now apply s_expr, e_test, core_test.
Qed.
(** Sequences. *)
Lemma rows_said c l : l <> [] -> (forall x, In x l -> said (one c x)) -> said (row c l).
Proof.
  induction l as [|x l IH] using rev_ind; [congruence|]. intros _ H. destruct (H x) as (ts & W & O); [apply in_or_app; right; now left|].
  destruct l as [|y l]; [exists ts; split; [exact W|now apply r_one]|].
  destruct IH as (tl & W2 & R); [discriminate|intros; apply H, in_or_app; auto|]. exists (tl ++ [cc ","] ++ ts). split; [wf|]. apply r_more; auto; [|discriminate]. constructor; [reflexivity|constructor].
Qed.
Lemma row1_said c c' x l : said (one c x) -> (forall y, In y l -> said (one c' y)) -> said (row1 c c' (x :: l)).
Proof.
  intros (ts & W & O). induction l as [|y l IH] using rev_ind; intro H; [exists ts; split; [exact W|now apply r1_one]|].
  destruct IH as (tl & W2 & R); [intros; apply H, in_or_app; auto|]. destruct (H y) as (ty & W3 & O3); [apply in_or_app; right; now left|].
  exists (tl ++ cc "," :: ty). split; [wf|]. rewrite app_comm_cons. apply r1_more; auto. reflexivity.
Qed.
Lemma items_said c l : (forall x, In x l -> said (one c x)) -> said (items c l).
Proof.
  intro H. destruct l as [|x l]; [exists []; split; constructor|]. eapply said_mono; [|apply (rows_said c (x :: l)); [discriminate|exact H]].
  intros ts R. rewrite <- (app_nil_r ts). apply it_some; [exact R|constructor].
Qed.
Lemma params_said c l : (forall x, In x l -> said (one c x)) -> said (params c l).
Proof.
  intro H. destruct l as [|x l]; [exists []; split; constructor|]. eapply said_mono; [|apply (row1_said c c x l); intros; apply H; cbn; auto].
  intros ts R. rewrite <- (app_nil_r ts). apply ps_some; [exact R|constructor|apply Nat.le_0_l].
Qed.
Lemma maybe_said c o : if_any (fun x => said (one c x)) o -> said (maybe c o).
Proof. destruct o as [x|]; cbn [if_any]; intro H; [eapply said_mono; [|exact H]; intros; now apply m_some|]. exists []. split; constructor. Qed.
Lemma all_in {A} (P : A -> Prop) l : all_of P l <-> forall x, In x l -> P x.
Proof. induction l as [|x l IH]; cbn; [tauto|]. rewrite IH. split; [intros [H1 H2] y [<-|Y]; auto|auto]. Qed.
Lemma clauses_said l : match l with EForC _ _ _ _ _ :: _ => True | _ => False end -> (forall x, In x l -> said (clause x)) -> said (clauses false l).
Proof.
  induction l as [|x l IH] using rev_ind; [contradiction|]. intros F H. destruct (H x) as (ts & W & O); [apply in_or_app; right; now left|].
  destruct l as [|y l].
  - destruct O as [(c & p & v & q & z & f & tv & i & tx & -> & -> & K1 & O1 & K2 & O2)|(c & p & z & i & tx & -> & -> & _)]; [|destruct F].
    exists (f :: tv ++ i :: tx). split; [exact W|]. now apply c_for.
  - destruct IH as (tl & W2 & R); [exact F|intros; apply H, in_or_app; auto|].
    destruct O as [(c & p & v & q & z & f & tv & i & tx & -> & -> & K1 & O1 & K2 & O2)|(c & p & z & i & tx & -> & -> & K1 & O1)].
    + exists (tl ++ f :: tv ++ i :: tx). split; [apply Forall_app; auto|]. eapply c_more_for; eauto.
    + exists (tl ++ i :: tx). split; [apply Forall_app; auto|]. eapply c_more_if; eauto.
Qed.
(** Blocks. *)
Lemma stmts_said l : (forall x, In x l -> said (spells Statement x)) -> said (fun ts => exists k, stmts k (code (map group l)) ts).
Proof.
  induction l as [|x l IH] using rev_ind; intro H; [exists []; split; [constructor|]; exists false; constructor|].
  destruct IH as (tl & W2 & k & R); [intros; apply H, in_or_app; auto|]. destruct (H x) as (ts & W & O); [apply in_or_app; right; now left|].
  rewrite map_app. unfold code in *. rewrite filter_app. cbn [map filter]. replace (is_code (group x)) with (is_code x) by now destruct x.
  destruct (is_code x) eqn:E; [|exists tl; split; [exact W2|]; exists k; now rewrite app_nil_r].
  destruct (O E) as [S0|(k' & B)].
  - exists (tl ++ (ts ++ [] ++ [cc c_nl])). split; [cbn [app]; wf|]. exists false. eapply st_line; [exact R|]. apply ln; [now apply sm_one|auto|reflexivity].
  - exists (tl ++ ts). split; [wf|]. exists k'. eapply st_block; eauto.
Qed.
Lemma suite_said l : code l <> [] -> (forall x, In x l -> said (spells Statement x)) -> said (suite false (code (map group l))).
Proof.
  intros N H. destruct (stmts_said l H) as (tb & W & k & R). exists (cc c_nl :: [] ++ tk KIndent [] :: tb ++ [tk KUnindent []]). split.
  - cbn [app]. wf; (split; [reflexivity|reflexivity]).
  - apply su_block with (k0 := false) (k := k); try reflexivity; [constructor|exact R|]. unfold code in *. intro E. apply N.
    clear - E. induction l as [|x l IH]; [reflexivity|]. cbn [map filter] in *. replace (is_code (group x)) with (is_code x) in E by now destruct x. destruct (is_code x); [discriminate|auto].
Qed.
(** Words. *)
Lemma op_said op : In op binary_ops -> 4 <= opPrec op /\ opPrec op <= 12 /\ said (operator op (pred (opPrec op))).
Proof.
  intro H. destruct H as [<-|H].
  - repeat split; [cbn; unfold precCmp; lia..|]. exists [tk KNot %"not"; tk KIn %"in"]. split; [wf|]. now apply op_not_in.
  - apply in_map_iff in H as ([[s k] n] & <- & H). cbn [fst].
    assert (Q : opPrec s = S n) by (cbn [binops In] in H; repeat (destruct H as [H|H]; [injection H as <- <- <-; reflexivity|]); contradiction).
    assert (N : 3 <= n /\ n <= 11) by (cbn [binops In] in H; repeat (destruct H as [H|H]; [injection H as <- <- <-; lia|]); contradiction).
    assert (W : wf_tok (tk k s)) by (cbn [binops In] in H; repeat (destruct H as [H|H]; [injection H as <- <- <-; first [apply (wf_cc "<")|apply (wf_cc ">")|apply (wf_cc "|")|apply (wf_cc "^")|apply (wf_cc "&")|apply (wf_cc "+")|apply (wf_cc "-")|apply (wf_cc "*")|apply (wf_cc "/")|apply (wf_cc "%")|apply wf_kw; [cbn; tauto|exact Logic.I]]; cbn; tauto|]); contradiction).
    rewrite Q. split; [lia|]. split; [lia|]. exists [tk k s]. split; [wf|]. eapply op_one; eauto; reflexivity.
Qed.
Lemma unop_said op : In op (map fst unops) -> exists k, In (op, k) unops /\ wf_tok (tk k op).
Proof.
  intro H. apply in_map_iff in H as ([s k] & <- & H). exists k. split; [exact H|]. cbn [unops In] in H. cbn [fst].
  destruct H as [H|[H|[H|[H|[]]]]]; injection H as <- <-; [apply wf_kw; [cbn; tauto|exact Logic.I]|apply (wf_cc "-"); cbn; tauto|apply (wf_cc "+"); cbn; tauto|apply (wf_cc "~"); cbn; tauto].
Qed.
Lemma ident_said i : ident_ok i -> wf_tok (tk KIdent (i_name i)) /\ spelled_ident i (tk KIdent (i_name i)).
Proof. intro H. split; [now apply wf_tk|split; reflexivity]. Qed.
Lemma string_said s : is_string s -> exists t, wf_tok t /\ spelled_string (respell s) t.
Proof.
  intro H. exists (stk (s_value s) (s_triple s) (s_token (respell s))). split; [|repeat split]. unfold respell, is_string in *. cbn [s_token].
  destruct (unquote (s_token s)) as [[v t] e] eqn:U. destruct (uerr_none e && beq v (s_value s) && Bool.eqb t (s_triple s)) eqn:E.
  - apply andb_true_iff in E as [E E3]. apply andb_true_iff in E as [E1 E2]. apply beq_eq in E2 as ->. apply eqb_prop in E3 as ->. destruct e; [discriminate|]. apply wf_str; auto.
  - destruct (quote_lexes (s_value s) (s_triple s)). now apply wf_str.
Qed.
Lemma number_said c p w : is_number w -> said (one Prim (ELit c p w)).
Proof.
  intros [H|[(a & b & -> & H1 & H2)|[(a & -> & H)|(b & -> & H)]]].
  - exists [tk KInt w]. split; [wf|]. apply (p_int c p (tk KInt w)). reflexivity.
  - exists [tk KInt a; cc "."; tk KInt b]. split; [wf|]. apply (p_int_frac c p (tk KInt a) (cc ".") (tk KInt b)); reflexivity.
  - exists [tk KInt a; cc "."]. split; [wf|]. apply (p_int_dot c p (tk KInt a) (cc ".")); reflexivity.
  - exists [cc "."; tk KInt b]. split; [wf|]. apply (p_frac c p (cc ".") (tk KInt b)); reflexivity.
Qed.
Lemma load_said fr to : Forall2 load_ok fr to -> fr <> [] -> said (load_args fr to).
Proof.
  assert (A : forall f t, load_ok f t -> said (load_arg f t)).
  { intros f t H. destruct (quote_lexes (i_name f) false) as [Q1 Q2]. pose proof (wf_str _ _ _ Q1 Q2) as WS.
    destruct (beq_spec (i_name f) (i_name t)) as [E|E].
    - exists [stk (i_name f) false (quote (i_name f) false)]. split; [wf|]. apply la_same; [reflexivity|reflexivity|now rewrite <- E].
    - destruct H as [H|H]; [contradiction|]. exists [tk KIdent (i_name t); cc "="; stk (i_name f) false (quote (i_name f) false)]. split; [wf|]. apply la_as; try reflexivity. split; reflexivity. }
  revert to. induction fr as [|f fr IH] using rev_ind; intros to F N; [congruence|].
  apply Forall2_app_inv_l in F as (to1 & to2 & F1 & F2 & ->). inversion F2 as [|? t ? ? L F3]; subst. inversion F3; subst. destruct (A _ _ L) as (ta & W & L1).
  destruct fr as [|g fr]; [inversion F1; subst; exists ta; split; [exact W|now apply las_one]|].
  destruct (IH to1 F1) as (tl & W2 & L2); [discriminate|]. exists (tl ++ cc "," :: ta). split; [wf|]. apply las_more; auto. reflexivity.
Qed.
Lemma prim_int e a : one Prim e [a] -> is KInt a -> exists c p w, e = ELit c p w.
Proof.
  intros H K. inversion H; subst; eauto; exfalso; unfold spelled_ident, spelled_string, is, ch in *;
    repeat match goal with H : _ /\ _ |- _ => destruct H end; try congruence;
    match goal with E : ?x = [a] |- _ => apply (f_equal (@List.length token)) in E; rewrite ?app_length in E; cbn in E; rewrite ?app_length in E; cbn in E; rewrite ?app_length in E; cbn in E; try lia end.
Qed.
Lemma grp_lit n e : n <= precSuffix -> not_lit e -> forall c p w, grp n e <> ELit c p w.
Proof. intros L N c p w. unfold wrap. destruct (prec e <? n); [discriminate|]. destruct e; try discriminate. destruct N. Qed.

Lemma typed_said c i t : said (one TParam (ETyped c i t)) -> exists a k tt, Forall wf_tok (a :: k :: tt) /\ spelled_ident i a /\ ch ":" k /\ one Test t tt.
Proof.
  intros (ts & W & H). inversion H; subst.
  - match goal with P : one Param _ _ |- _ => inversion P end.
  - eauto 8.
Qed.
Theorem built_said e : forall r, built r e -> said (spells r e).
Proof.
  induction e as [e IH] using expr_ind_subs.
  assert (OP : forall x, In x (subs (fun y => y) e) -> built Operand x -> said (core x) /\ kls x <> CCond).
  { intros x I B. destruct (IH x I Operand B) as (ts & W & C & K). split; [exists ts; auto|exact K]. }
  assert (PR : forall x, In x (subs (fun y => y) e) -> built Operand x -> said (one Prim (grp precSuffix x))) by (intros x I B; destruct (OP x I B); now apply core_prim).
  assert (VA : forall x, In x (subs (fun y => y) e) -> built Value x -> said (one Test (group x))).
  { intros x I B. eapply said_mono; [|apply (IH x I Value B)]. apply core_test. }
  assert (VL : forall l, (forall x, In x l -> In x (subs (fun y => y) e)) -> all_of (built Value) l -> forall x, In x (map group l) -> said (one Test x)).
  { intros l I B x X. apply in_map_iff in X as (y & <- & X). apply VA; auto. rewrite all_in in B. auto. }
  assert (PC : forall r, fits r CPrim -> kls e = CPrim -> prec e = precSuffix -> said (one Prim (group e)) -> said (spells r e)).
  { intros r F K P S0. apply from_core; [|now rewrite K]. eapply said_mono; [|exact S0]. intros ts O. unfold core. rewrite K. auto. }
  intros r B. destruct e; cbn [built] in B; try contradiction; cbn [subs] in IH, OP, PR, VA, VL; rewrite ?map_id in IH; rewrite ?map_id in OP; rewrite ?map_id in PR; rewrite ?map_id in VA; rewrite ?map_id in VL.
  - (* comment block *) subst r. exists []. split; [constructor|]. discriminate.
  - (* name *) destruct B as [B1 B2]. destruct (ident_said _ B1) as [W1 S1]. destruct B2 as [F|F].
    + apply PC; auto. exists [tk KIdent (i_name i)]. split; [wf|]. now apply p_ident.
    + exists [tk KIdent (i_name i)]. split; [wf|]. destruct F as [<-|[<-|[]]]; cbn [spells group]; [|apply g_param]; now apply f_ident.
  - (* typed name *) destruct B as (-> & B1 & B2). destruct (ident_said _ B1) as [W1 S1]. destruct (VA e (or_introl eq_refl) B2) as (ts & W & O).
    exists (tk KIdent (i_name i) :: cc ":" :: ts). split; [wf|]. cbn [spells group]. now apply g_typed.
  - (* pass, break, continue *) destruct B as [-> B]. destruct B as [<-|[<-|[<-|[]]]].
    + exists [tk KPass %"pass"]. split; [wf|]. intros _. left. apply (s_branch c p (tk KPass %"pass") KPass); [cbn; auto|reflexivity].
    + exists [tk KBreak %"break"]. split; [wf|]. intros _. left. apply (s_branch c p (tk KBreak %"break") KBreak); [cbn; auto|reflexivity].
    + exists [tk KContinue %"continue"]. split; [wf|]. intros _. left. apply (s_branch c p (tk KContinue %"continue") KContinue); [cbn; auto|reflexivity].
  - (* number *) destruct B as [B F]. apply PC; auto. now apply number_said.
  - (* string *) destruct B as [B F]. apply PC; auto. destruct (string_said s B) as (t & W & S1). exists [t]. split; [wf|]. now apply p_str.
  - (* call *) destruct B as (F & B1 & B2). apply PC; auto. destruct (PR e (or_introl eq_refl) B1) as (tx & W & O). cbn [group]. destruct args as [|a args].
    + exists (tx ++ [cc "("; cc ")"]). split; [wf|]. now apply p_call0.
    + destruct (rows_said Arg (map group (a :: args))) as (tl & W2 & R); [discriminate| |].
      { intros x X. apply in_map_iff in X as (y & <- & X). rewrite all_in in B2. apply (IH y (or_intror X) Argument), B2, X. }
      exists (tx ++ cc "(" :: [] ++ tl ++ [] ++ [cc ")"]). split; [cbn [app]; wf|]. apply p_call; auto; try reflexivity; constructor.
  - (* dot *) destruct B as (F & B1 & B2 & B3). apply PC; auto. destruct (PR e (or_introl eq_refl) B1) as (tx & W & O). cbn [group].
    exists (tx ++ [cc "."; tk KIdent name]). split; [wf|]. apply p_dot; try reflexivity; [exact O|]. intros a K ->. destruct (prim_int _ _ O K) as (c' & p' & w' & E).
    exact (grp_lit precSuffix e (le_n _) B2 _ _ _ E).
  - (* comprehension *) destruct B as (F & B1 & B2 & B3). apply PC; auto.
    destruct (clauses_said (map group clauses)) as (tl & W2 & R).
    { destruct clauses as [|[]]; try contradiction. exact Logic.I. }
    { intros x X. apply in_map_iff in X as (y & <- & X). rewrite all_in in B2. apply (IH y (or_intror X) Clause), B2, X. }
    cbn [group]. destruct curly.
    + destruct (IH e (or_introl eq_refl) Entry B1) as (tx & W & O). exists (cc "{" :: tx ++ tl ++ [cc "}"]). split; [wf|]. eapply p_dict_comp; eauto; reflexivity.
    + destruct (VA e (or_introl eq_refl) B1) as (tx & W & O). exists (cc "[" :: tx ++ tl ++ [cc "]"]). split; [wf|]. eapply p_comp; eauto; reflexivity.
  - (* for clause *) destruct B as (-> & B1 & B2). destruct (IH e1 (or_introl eq_refl) Target B1) as (tv & W1 & O1). destruct (IH e2 (or_intror (or_introl eq_refl)) Plain B2) as (tx & W2 & O2).
    exists (tk KFor %"for" :: tv ++ tk KIn %"in" :: tx). split; [wf|]. left. exists c, p, (group e1), pin, (group e2), (tk KFor %"for"), tv, (tk KIn %"in"), tx.
    repeat match goal with |- _ /\ _ => split end; auto; reflexivity.
  - (* if clause *) destruct B as (-> & B1). destruct (IH e (or_introl eq_refl) Plain B1) as (tx & W2 & O2).
    exists (tk KIf %"if" :: tx). split; [wf|]. right. exists c, p, (group e), (tk KIf %"if"), tx. repeat match goal with |- _ /\ _ => split end; auto; reflexivity.
  - (* key: value *) destruct B as (-> & B1 & B2). destruct (VA e1 (or_introl eq_refl) B1) as (t1 & W1 & O1). destruct (VA e2 (or_intror (or_introl eq_refl)) B2) as (t2 & W2 & O2).
    exists (t1 ++ cc ":" :: t2). split; [wf|]. cbn [spells group]. apply k_pair; auto. reflexivity.
  - (* dict *) destruct B as (F & B). apply PC; auto. destruct (items_said Pair (map group l)) as (tl & W & R).
    { intros x X. apply in_map_iff in X as (y & <- & X). rewrite all_in in B. apply (IH y X Entry), B, X. }
    exists (cc "{" :: tl ++ [cc "}"]). split; [wf|]. apply p_dict; auto; reflexivity.
  - (* list *) destruct B as (F & B). apply PC; auto. destruct (items_said Test (map group l)) as (tl & W & R); [now apply VL|].
    exists (cc "[" :: tl ++ [cc "]"]). split; [wf|]. apply p_list; auto; reflexivity.
  - (* set *) destruct B as (F & N & B). apply PC; auto. destruct (rows_said Test (map group l)) as (tl & W & R); [now destruct l|now apply VL|].
    exists (cc "{" :: tl ++ [] ++ [cc "}"]). split; [cbn [app]; wf|]. apply p_set; auto; try reflexivity. constructor.
  - (* tuple *) destruct nobr.
    + destruct B as (F & N & B). destruct r; cbn [fits In] in F; try (intuition discriminate).
      * destruct l as [|x l]; [contradiction|]. destruct B as [B1 B2]. destruct (row1_said Test ParseSpec.Item (group x) (map group l)) as (ts & W & R).
        { apply VA; [now left|exact B1]. }
        { intros y Y. apply in_map_iff in Y as (z & <- & Z0). rewrite all_in in B2. destruct (IH z (or_intror Z0) Operand (B2 z Z0)) as (ts & W & C & K). exists ts. split; [exact W|].
          unfold core in C. destruct (kls z); destruct C as [C P]; try contradiction; try congruence.
          - eapply t_item, t_prim, C.
          - eapply t_item, level_weaken; [|exact C]. precs. lia.
          - eapply t_item, C. }
        exists ts. split; [exact W|]. split; [|intros n L; unfold wrap; cbn [prec]; replace (precSuffix <? n) with false by (symmetry; apply Nat.ltb_ge; precs; lia); reflexivity].
        cbn [group]. apply e_tuple; [exact R|]. now rewrite map_length.
      * destruct l as [|x l]; [cbn in N; lia|]. rewrite all_in in B. destruct (row1_said Prim Prim (group x) (map group l)) as (ts & W & R).
        { apply (IH x (or_introl eq_refl) Atom). apply B. now left. }
        { intros y Y. apply in_map_iff in Y as (z & <- & Z0). apply (IH z (or_intror Z0) Atom). apply B. now right. }
        exists ts. split; [exact W|]. cbn [spells group]. apply v_tuple; [exact R|]. now rewrite map_length.
      * destruct l as [|x l]; [contradiction|]. destruct B as [B1 B2]. destruct (row1_said Test ParseSpec.Item (group x) (map group l)) as (ts & W & R).
        { apply VA; [now left|exact B1]. }
        { intros y Y. apply in_map_iff in Y as (z & <- & Z0). rewrite all_in in B2. destruct (IH z (or_intror Z0) Operand (B2 z Z0)) as (ts & W & C & K). exists ts. split; [exact W|].
          unfold core in C. destruct (kls z); destruct C as [C P]; try contradiction; try congruence.
          - eapply t_item, t_prim, C.
          - eapply t_item, level_weaken; [|exact C]. precs. lia.
          - eapply t_item, C. }
        exists ts. split; [exact W|]. intros _. left. apply s_expr. cbn [group]. apply e_tuple; [exact R|]. now rewrite map_length.
    + destruct B as (F & B). apply PC; auto. cbn [group]. destruct l as [|x l].
      * exists [cc "("; cc ")"]. split; [wf|]. now apply p_tuple0.
      * destruct (rows_said Test (map group (x :: l))) as (tl & W & R); [discriminate|now apply VL|].
        exists (cc "(" :: tl ++ [cc ","] ++ [cc ")"]). split; [cbn [app]; wf|]. apply p_tuple; auto; try reflexivity; [|discriminate]. constructor; [reflexivity|constructor].
  - (* unary *) destruct x as [x|].
    + destruct B as [(F & B1 & B2)|(B1 & B2)].
      * apply from_core; [|exact F]. destruct (unop_said op B1) as (k & I0 & W0). destruct (PR x (or_introl eq_refl) B2) as (tx & W & O).
        exists (tk k op :: tx). split; [wf|]. unfold core. cbn [kls prec group option_map]. split; [|precs; lia]. apply t_unary with (k := k); [exact I0|reflexivity|reflexivity|now apply t_prim|cbn; lia].
      * destruct B2 as [[-> B2]|B2].
        { destruct (PR x (or_introl eq_refl) B2) as (tx & W & O). assert (T : one Test (grp precSuffix x) tx) by (eapply t_any, t_prim, O).
          destruct B1 as [<-|[<-|[]]]; [exists (cc "*" :: tx)|exists (tk KStarStar %"**" :: tx)]; (split; [wf|]); cbn [spells group option_map]; first [apply a_star|apply a_star2]; auto; reflexivity. }
        { destruct x; try contradiction.
          - destruct B2 as [B2 B3]. destruct B3 as [B3 _]. destruct (ident_said _ B3) as [W1 S1].
            assert (P : said (one Param (group (EUnary c p op (Some (EIdent i)))))).
            { destruct B1 as [<-|[<-|[]]]; [exists [cc "*"; tk KIdent (i_name i)]|exists [tk KStarStar %"**"; tk KIdent (i_name i)]]; (split; [wf|]); cbn [group option_map]; first [apply f_star|apply f_star2]; auto; reflexivity. }
            destruct B2 as [<-|[<-|[]]]; [exact P|]. eapply said_mono; [|exact P]. intros ts. apply g_param.
          - destruct B2 as (-> & _ & B3 & B4). destruct (ident_said _ B3) as [W1 S1].
            destruct (typed_said c0 i (group x) (IH (ETyped c0 i x) (or_introl eq_refl) TFormal (conj eq_refl (conj B3 B4)))) as (a & k & tt & W & O1 & O2 & O3).
            destruct B1 as [<-|[<-|[]]]; [exists (cc "*" :: a :: k :: tt)|exists (tk KStarStar %"**" :: a :: k :: tt)]; (split; [constructor; [wf|exact W]|]); cbn [spells group option_map]; first [apply g_star|apply g_star2]; auto; reflexivity. }
    + destruct B as [-> B]. assert (P : said (one Param (group (EUnary c p %"*" None)))) by (exists [cc "*"]; split; [wf|]; now apply f_bare).
      destruct B as [<-|[<-|[]]]; [exact P|]. eapply said_mono; [|exact P]. intros ts. apply g_param.
  - (* binary *) destruct B as [(F & B1 & B2 & B3)|(-> & B1 & B2 & B3)].
    + apply from_core; [|exact F]. destruct (op_said op B1) as (L1 & L2 & top & WT & OT). destruct (OP e1 (or_introl eq_refl) B2) as [C1 K1]. destruct (OP e2 (or_intror (or_introl eq_refl)) B3) as [C2 K2].
      destruct (core_level (opPrec op) e1 C1 K1) as (t1 & W1 & O1); [lia|lia|]. destruct (core_level (S (opPrec op)) e2 C2 K2) as (t2 & W2 & O2); [lia|lia|].
      exists (t1 ++ top ++ t2). split; [wf|]. unfold core. cbn [kls prec group]. split; [|precs; lia]. eapply t_binary; [exact OT|exact O1| |lia]. replace (S (pred (opPrec op))) with (pred (S (opPrec op))) by lia. exact O2.
    + destruct (IH e1 (or_introl eq_refl) Many B2) as (t1 & W1 & O1 & G1). destruct (IH e2 (or_intror (or_introl eq_refl)) Many B3) as (t2 & W2 & O2 & G2).
      assert (Z0 : opPrec op = 0) by (destruct B1 as [<-|[<-|[<-|[<-|[]]]]]; reflexivity). exists (t1 ++ tk KAugm op :: t2).
      split; [assert (wf_tok (tk KAugm op)) by (apply wf_kw; [left; destruct B1 as [<-|[<-|[<-|[<-|[]]]]]; cbn; tauto|exact Logic.I]); wf|].
      intros _. left. cbn [group]. rewrite Z0, G1, G2 by lia. apply s_augmented; auto; reflexivity.
  - (* assignment *) destruct B as [(-> & B1 & B2 & B3)|(-> & B1 & B2)].
    + destruct (IH e1 (or_introl eq_refl) Many B2) as (t1 & W1 & O1 & G1). destruct (IH e2 (or_intror (or_introl eq_refl)) Many B3) as (t2 & W2 & O2 & G2).
      assert (T : exists t, wf_tok t /\ t_tok t = op /\ (is KAugm t \/ ch "=" t)).
      { destruct B1 as [<-|B1]; [exists (cc "="); repeat split; [cbn; tauto|now right]|]. exists (tk KAugm op). repeat split; [|now left].
        cbn [In] in B1. left. repeat (destruct B1 as [<-|B1]; [cbn; tauto|]). contradiction. }
      destruct T as (t & WT & T1 & T2). exists (t1 ++ t :: t2). split; [wf|]. intros _. left. cbn [group]. unfold precAssign. rewrite G1, G2 by lia. apply s_assign; auto.
    + destruct (IH e2 (or_intror (or_introl eq_refl)) Value B1) as (t2 & W2 & C2). pose proof (core_test _ _ C2) as O2. cbn [group spells]. 
      assert (G2 : grp (S precAssign) e2 = group e2) by (eapply core_low; eauto). destruct e1; try contradiction.
      * destruct B2 as [B2 B3]. destruct (ident_said _ B2) as [WI S1]. exists (tk KIdent (i_name i) :: cc "=" :: t2). split; [wf|].
        destruct B3 as [<-|[<-|[<-|[]]]]; cbn [spells group]; rewrite G2; change (grp precAssign (EIdent i)) with (EIdent i); [apply a_named|apply f_default|apply g_param, f_default]; auto; reflexivity.
      * destruct B2 as (-> & B2). destruct (typed_said _ _ _ (IH (ETyped c0 i e1) (or_introl eq_refl) TFormal B2)) as (a & k & tt & W & O1 & O3 & O4).
        exists (a :: k :: tt ++ cc "=" :: t2). split; [inversion W as [|? ? W3 W4]; inversion W4; subst; wf|]. cbn [spells group]. rewrite G2. change (grp precAssign (ETyped c0 i e1)) with (ETyped c0 i (group e1)). apply g_default; auto. reflexivity.
  - (* parentheses *) destruct B as (F & B). apply PC; auto. destruct (VA e (or_introl eq_refl) B) as (ts & W & O). exists (cc "(" :: ts ++ [cc ")"]). split; [wf|]. apply p_paren; auto; reflexivity.
  - (* slice *) destruct B as (F & B1 & B2 & B3 & B4). apply PC; auto. destruct (PR e (or_introl eq_refl) B1) as (tx & W & O).
    destruct (maybe_said Expr (option_map group from)) as (ta & W2 & O2).
    { destruct from as [a|]; [|exact Logic.I]. cbn in *. eapply said_mono; [|apply (IH a (or_intror (or_introl eq_refl)) Many B2)]. intros ts [H _]. exact H. }
    destruct (maybe_said Test (option_map group to)) as (tb & W3 & O3).
    { destruct to as [a|]; [|exact Logic.I]. cbn in *. apply VA; [|exact B3]. right. apply in_or_app. right. now left. }
    assert (S0 : said (stride (option_map group step))).
    { destruct step as [a|]; [|exists []; split; constructor]. cbn in *. destruct (VA a) as (ts & W4 & O4); [|exact B4|].
      - right. apply in_or_app. right. apply in_or_app. right. now left.
      - exists (cc ":" :: ts). split; [wf|]. apply sp_some; [reflexivity|now apply m_some]. }
    destruct S0 as (tr & W4 & O4). cbn [group]. exists (tx ++ cc "[" :: ta ++ cc ":" :: tb ++ tr ++ [cc "]"]). split; [wf|]. apply p_slice; auto; reflexivity.
  - (* subscript *) destruct B as (F & B1 & B2). apply PC; auto. destruct (PR e1 (or_introl eq_refl) B1) as (tx & W & O). destruct (IH e2 (or_intror (or_introl eq_refl)) Many B2) as (t2 & W2 & O2 & _).
    cbn [group]. exists (tx ++ cc "[" :: t2 ++ [cc "]"]). split; [wf|]. apply p_index; auto; reflexivity.
  - (* lambda *) destruct body as [|b [|b2 body]]; try contradiction. destruct B as (F & B1 & B2). apply from_core; [|exact F].
    destruct (params_said Param (map group params)) as (tp & W & R).
    { intros x X. apply in_map_iff in X as (y & <- & X). rewrite all_in in B1. apply (IH y (in_or_app _ _ _ (or_introl X)) Formal), B1, X. }
    destruct (VA b) as (tb & W2 & O2); [apply in_or_app; right; now left|exact B2|]. exists (tk KLambda %"lambda" :: tp ++ cc ":" :: tb). split; [wf|].
    unfold core. cbn [kls prec group map]. split; [|reflexivity]. intro n. apply t_lambda; auto; reflexivity.
  - (* conditional *) destruct B as (F & B1 & B2 & B3). apply from_core; [|exact F].
    destruct (core_then e1 (IH e1 (or_introl eq_refl) Value B1)) as (t1 & W1 & O1). destruct (core_then e2 (IH e2 (or_intror (or_introl eq_refl)) Value B2)) as (t2 & W2 & O2).
    destruct (OP e3) as [C3 K3]; [right; right; now left|exact B3|]. destruct (core_else e3 C3 K3) as (t3 & W3 & O3).
    exists (t1 ++ tk KIf %"if" :: t2 ++ tk KElse %"else" :: t3). split; [wf|]. unfold core. cbn [kls prec group]. split; [|reflexivity]. apply t_cond; auto; try reflexivity. eapply level_test; eauto.
  - (* load *) destruct B as (-> & B1 & N & B2). destruct (string_said m B1) as (t & W & S1). destruct (load_said _ _ B2 N) as (tl & W2 & L).
    exists (tk KLoad %"load" :: cc "(" :: [] ++ t :: [cc ","] ++ tl ++ [] ++ [cc ")"]). split; [cbn [app]; wf|]. intros _. left. apply s_expr, e_test. eapply t_any, t_prim. cbn [group].
    apply p_load; auto; try reflexivity; try discriminate; try constructor; try reflexivity. constructor.
  - (* def *) destruct B as (-> & B1 & B2 & B3 & B4 & B5). destruct (params_said TParam (map group params)) as (tp & W & R).
    { intros x X. apply in_map_iff in X as (y & <- & X). rewrite all_in in B2. apply (IH y (in_or_app _ _ _ (or_introl X)) TFormal), B2, X. }
    assert (A : said (annotation (option_map group ty))).
    { destruct ty as [t|]; [|exists []; split; constructor]. cbn in *. destruct (VA t) as (ts & W4 & O4); [|exact B3|].
      - apply in_or_app. right. apply in_or_app. right. now left.
      - exists (tk KArrow %"->" :: ts). split; [wf|]. apply an_some; [reflexivity|exact O4]. }
    destruct A as (ta & W2 & A). destruct (suite_said body B4) as (tb & W3 & S3).
    { intros x X. rewrite all_in in B5. apply (IH x); [|auto]. apply in_or_app. right. apply in_or_app. now left. }
    exists (tk KDef %"def" :: tk KIdent name :: cc "(" :: tp ++ cc ")" :: ta ++ cc ":" :: tb). split; [wf|]. intros _. right. exists false. cbn [group]. apply b_def; auto; reflexivity.
  - (* return *) destruct B as (-> & B). destruct x as [x|].
    + destruct (IH x (or_introl eq_refl) Many B) as (ts & W & O & _). exists (tk KReturn %"return" :: ts). split; [wf|]. intros _. left. cbn [group option_map]. apply s_return_value; auto; reflexivity.
    + exists [tk KReturn %"return"]. split; [wf|]. intros _. left. now apply s_return.
  - (* for *) destruct B as (-> & B1 & B2 & B3 & B4). destruct (IH e1 (or_introl eq_refl) Target B1) as (tv & W1 & O1). destruct (IH e2 (or_intror (or_introl eq_refl)) Many B2) as (tx & W2 & O2 & _).
    destruct (suite_said body B3) as (tb & W3 & S3). { intros x X. rewrite all_in in B4. apply (IH x); [|auto]. right. now right. }
    exists (tk KFor %"for" :: tv ++ tk KIn %"in" :: tx ++ cc ":" :: tb). split; [wf|]. intros _. right. exists false. cbn [group]. apply b_for; auto; reflexivity.
  - (* if *) destruct B as (-> & B1 & (B2 & B3) & B4). destruct (IH e (or_introl eq_refl) Many B1) as (tx & W1 & O1 & _).
    destruct (suite_said tru B2) as (tb & W2 & S2). { intros x X. rewrite all_in in B3. apply (IH x); [|auto]. right. apply in_or_app. now left. }
    destruct B4 as [->|[B4 B5]].
    + exists (tk KIf %"if" :: tx ++ cc ":" :: tb). split; [wf|]. intros _. right. exists false. cbn [group map]. apply b_if; [reflexivity|]. apply i_end; auto. reflexivity.
    + destruct (suite_said fls B4) as (tf & W3 & S3). { intros x X. rewrite all_in in B5. apply (IH x); [|auto]. right. apply in_or_app. now right. }
      exists (tk KIf %"if" :: tx ++ cc ":" :: tb ++ tk KElse %"else" :: cc ":" :: tf). split; [wf|]. intros _. right. exists false. cbn [group]. apply b_if; [reflexivity|]. eapply i_else; eauto; reflexivity.
Qed.
Lemma program_said l : all_of (built Statement) l -> exists ts, Forall wf_tok ts /\ program (map group l) ts.
Proof. intro B. rewrite all_in in B. destruct (stmts_said l) as (ts & W & k & S0); [intros; apply built_said; auto|]. exists ts. split; [exact W|]. now exists k. Qed.
