(** Soundness of the parser: what it accepts is spelled as ParseSpec.v says, and no action panics. *)
From Verif Require Import Base BaseProofs Ast Lex LexSpec LRTables LRCert Parse LRProofs ParseSpec ParseLex.
Local Open Scope list_scope.

(** ** Tokens *)
Definition kind_dec (x y : kind) : {x = y} + {x <> y}.
Proof. decide equality. apply ascii_dec. Defined.
Definition tkinds : list (Z * kind) :=
  [(t_percent, KChar "%"); (t_lparen, KChar "("); (t_rparen, KChar ")"); (t_star, KChar "*"); (t_plus, KChar "+"); (t_comma, KChar ",");
   (t_minus, KChar "-"); (t_dot, KChar "."); (t_slash, KChar "/"); (t_colon, KChar ":"); (t_lt, KChar "<"); (t_assign, KChar "=");
   (t_gt, KChar ">"); (t_lbrack, KChar "["); (t_rbrack, KChar "]"); (t_lbrace, KChar "{"); (t_rbrace, KChar "}"); (t_bar, KChar "|");
   (t_amp, KChar "&"); (t_caret, KChar "^"); (t_tilde, KChar "~"); (T_AUGM, KAugm); (T_AND, KAnd); (T_COMMENT, KComment); (T_EOF, KEof);
   (T_EQ, KEq); (T_FOR, KFor); (T_GE, KGe); (T_IDENT, KIdent); (T_INT, KInt); (T_IF, KIf); (T_ELSE, KElse); (T_ELIF, KElif); (T_IN, KIn);
   (T_IS, KIs); (T_LAMBDA, KLambda); (T_LOAD, KLoad); (T_LE, KLe); (T_NE, KNe); (T_STAR_STAR, KStarStar); (T_INT_DIV, KIntDiv);
   (T_BIT_LSH, KLsh); (T_BIT_RSH, KRsh); (T_ARROW, KArrow); (T_NOT, KNot); (T_OR, KOr); (T_STRING, KString); (T_DEF, KDef);
   (T_RETURN, KReturn); (T_PASS, KPass); (T_BREAK, KBreak); (T_CONTINUE, KContinue); (T_INDENT, KIndent); (T_UNINDENT, KUnindent);
   (t_newline, KChar c_nl); (t_semi, KChar ";")]%char.
Definition kind_ok (k : kind) : bool :=
  forallb (fun p => negb (yylex1 (Parse.code k) =? fst p)%Z || if kind_dec k (snd p) then true else false) tkinds.
Lemma kinds_ok k : kind_ok k = true.
Proof.
  destruct k; [apply (forall_byte (fun c => kind_ok (KChar c)))|..]; vm_compute; reflexivity.
Qed.
Lemma tkind t X k : terminal t = X -> In (X, k) tkinds -> t_kind t = k.
Proof.
  intros E H. pose proof (kinds_ok (t_kind t)) as K. unfold kind_ok in K. rewrite forallb_forall in K.
  specialize (K _ H). cbn [fst snd] in K. unfold terminal in E. rewrite E, Z.eqb_refl in K. cbn in K.
  destruct (kind_dec (t_kind t) k); [assumption|discriminate].
Qed.

(** What is needed of the tokens ([legit]): texts go with kinds, lines count from 1, and an indent is followed
    by a statement. *)
Lemma legit_infix x y z : legit (x ++ y ++ z) -> legit y.
Proof.
  intros [A B]. apply Forall_app in A. destruct A as [_ A]. apply Forall_app in A. split; [tauto|].
  intros u i v w E H. subst. apply (B (x ++ u) i v (w ++ z)); [|assumption]. now rewrite <- !app_assoc.
Qed.
Definition texts : list (kind * list bytes) :=
  [(KAugm, [%"+="; %"-="; %"*="; %"/="; %"//="; %"%="; %"|="; %"&="; %"^="; %"<<="; %">>="]); (KAnd, [%"and"]); (KEq, [%"=="]);
   (KFor, [%"for"]); (KGe, [%">="]); (KIf, [%"if"]); (KElse, [%"else"]); (KElif, [%"elif"]); (KIn, [%"in"]); (KIs, [%"is"]);
   (KLambda, [%"lambda"]); (KLoad, [%"load"]); (KLe, [%"<="]); (KNe, [%"!="]); (KStarStar, [%"**"]); (KIntDiv, [%"//"]);
   (KLsh, [%"<<"]); (KRsh, [%">>"]); (KArrow, [%"->"]); (KNot, [%"not"]); (KOr, [%"or"]); (KDef, [%"def"]); (KReturn, [%"return"]);
   (KPass, [%"pass"]); (KBreak, [%"break"]); (KContinue, [%"continue"])].
Definition texts_check : bool :=
  forallb (fun p => forallb (fun q => negb (if kind_dec (snd q) (fst p) then true else false) || mem_bytes (fst q) (snd p)) (operators ++ keywords)) texts.
Lemma text_of t k l : wf_tok t -> t_kind t = k -> In (k, l) texts -> In (t_tok t) l.
Proof.
  intros [W _] E H.
  assert (Q : In (t_tok t, k) (operators ++ keywords)).
  { unfold spelled in W. rewrite E in W. apply in_or_app.
    repeat (destruct H as [H|H]; [injection H as <- <-; exact W|]). destruct H. }
  assert (C : texts_check = true) by (vm_compute; reflexivity).
  unfold texts_check in C. rewrite forallb_forall in C. specialize (C _ H). rewrite forallb_forall in C. specialize (C _ Q).
  cbn [fst snd] in C. destruct (kind_dec k k); [|contradiction]. cbn in C. now apply mem_bytes_In.
Qed.
Lemma text1 t k s : wf_tok t -> t_kind t = k -> In (k, [s]) texts -> t_tok t = s.
Proof. intros W E H. destruct (text_of t k [s] W E H) as [->|[]]. reflexivity. Qed.
Lemma text_char t c : wf_tok t -> ch c t -> t_tok t = [c].
Proof. intros [W _] E. unfold spelled in W. rewrite E in W. tauto. Qed.

(** ** The spelling of a tree does not depend on its comments *)
Ltac again := econstructor; eauto.
Lemma prim_set c e ts : one Prim e ts -> one Prim (set_com c e) ts.
Proof. intro H. inversion H; subst; cbn [set_com]; try (again; fail). Qed.
Lemma level_set c n o e ts : one (Level n o) e ts -> one (Level n o) (set_com c e) ts.
Proof. intro H. inversion H; subst; cbn [set_com]; try (again; fail). now apply t_prim, prim_set. Qed.
Lemma test_set c e ts : one Test e ts -> one Test (set_com c e) ts.
Proof. intro H. inversion H; subst. eapply t_any, level_set; eauto. Qed.
Lemma expr_set c e ts : one Expr e ts -> one Expr (set_com c e) ts.
Proof. intro H. inversion H; subst; [now apply e_test, test_set|]. now apply e_tuple. Qed.
Lemma small_set c e ts : one Small e ts -> one Small (set_com c e) ts.
Proof. intro H. inversion H; subst; cbn [set_com]; try (again; fail). now apply s_expr, expr_set. Qed.
Lemma iftail_set c k e ts : one (IfTail k) e ts -> one (IfTail k) (set_com c e) ts.
Proof. intro H. inversion H; subst; cbn [set_com]; again. Qed.
Lemma block_set c k e ts : one (Block k) e ts -> one (Block k) (set_com c e) ts.
Proof. intro H. inversion H; subst; cbn [set_com]; try (again; fail). apply b_if; [assumption|]. now apply iftail_set. Qed.
(** The same node with other comments. *)
Definition eqc (e e' : expr) : Prop := exists c, e' = set_com c e.
Lemma set_com_com e : set_com (com e) e = e.
Proof. destruct e; try reflexivity. - now destruct i. - now destruct s. Qed.
Lemma eqc_refl e : eqc e e.
Proof. exists (com e). symmetry. apply set_com_com. Qed.
Lemma eqc_code e e' : eqc e e' -> is_code e' = is_code e.
Proof. intros [c ->]. now destruct e. Qed.
Lemma eqc_list_refl l : Forall2 eqc l l.
Proof. induction l; constructor; auto using eqc_refl. Qed.
(** [x'] can stand wherever [x] can as a statement. *)
Definition like (x x' : expr) : Prop :=
  (forall k t, one (Block k) x t -> one (Block k) x' t) /\ (forall t, one Small x t -> one Small x' t).
Lemma eqc_like x x' : eqc x x' -> like x x'.
Proof. intros [c ->]. split; intros; auto using block_set, small_set. Qed.
Lemma like_refl x : like x x.
Proof. split; auto. Qed.
Lemma like_list_refl l : Forall2 like l l.
Proof. induction l; constructor; auto using like_refl. Qed.
Lemma smalls_like l ts : smalls l ts -> forall l', Forall2 like l l' -> smalls l' ts.
Proof.
  induction 1 as [e ts H|l tl s e ts H IH C E]; intros l' F.
  - inversion F as [|? ? ? ? [_ G] F']; subst. inversion F'; subst. apply sm_one. auto.
  - apply Forall2_app_inv_l in F. destruct F as (l1 & l2 & F1 & F2 & ->).
    inversion F2 as [|? ? ? ? [_ G] F']; subst. inversion F'; subst. apply sm_more; auto.
Qed.
Lemma line_like l ts l' : line l ts -> Forall2 like l l' -> line l' ts.
Proof. intros H F. inversion H; subst. apply ln; auto. eapply smalls_like; eauto. Qed.
Lemma stmts_like k l ts : stmts k l ts -> forall l', Forall2 like l l' -> stmts k l' ts.
Proof.
  induction 1 as [|l ts nl H IH C|k l ts c nl H IH C D|k l ts l2 tl H IH C|k l ts k2 e te H IH C]; intros l' F.
  - inversion F; subst. constructor.
  - constructor; auto.
  - econstructor; eauto.
  - apply Forall2_app_inv_l in F. destruct F as (l3 & l4 & F1 & F2 & ->). econstructor; [now apply IH|]. eapply line_like; eauto.
  - apply Forall2_app_inv_l in F. destruct F as (l3 & l4 & F1 & F2 & ->).
    inversion F2 as [|? ? ? ? [G _] F']; subst. inversion F'; subst. econstructor; [now apply IH|]. auto.
Qed.
Lemma suite_like k l ts l' : suite k l ts -> Forall2 like l l' -> suite k l' ts.
Proof.
  intros H F. inversion H; subst; [|apply su_line; auto; eapply line_like; eauto].
  eapply su_block; eauto; [eapply stmts_like; eauto|]. intros ->. inversion F; subst. now destruct H3.
Qed.
Lemma code_app a b : code (a ++ b) = code a ++ code b.
Proof. apply filter_app. Qed.
Definition coded (l l' : list expr) : Prop := Forall2 like (code l) (code l').
Lemma coded_refl l : coded l l.
Proof. apply like_list_refl. Qed.
Lemma coded_app a a' b b' : coded a a' -> coded b b' -> coded (a ++ b) (a' ++ b').
Proof. unfold coded. rewrite !code_app. apply Forall2_app. Qed.
Lemma coded_one e e' : eqc e e' -> coded [e] [e'].
Proof. intro H. unfold coded, code. cbn. rewrite (eqc_code _ _ H). destruct (is_code e); auto using eqc_like. Qed.
Lemma coded_cons e e' l l' : eqc e e' -> coded l l' -> coded (e :: l) (e' :: l').
Proof. intros A B. apply (coded_app [e] [e'] l l'); [now apply coded_one|assumption]. Qed.

(** ** Structure of trees *)
Lemma level_weaken n m o e ts : m <= n -> one (Level n o) e ts -> one (Level m o) e ts.
Proof. intros L H. inversion H; subst; try (again; lia). Qed.
Lemma level_test n o e ts : one (Level n o) e ts -> one Test e ts.
Proof. intro H. eapply t_any, level_weaken; [|exact H]. lia. Qed.
Lemma prim_no_tuple c p l d fc fm ts : ~ one Prim (ETuple c true p l d fc fm) ts.
Proof. intro H. inversion H. Qed.
Lemma test_no_tuple c p l d fc fm ts : ~ one Test (ETuple c true p l d fc fm) ts.
Proof. intro H. inversion H; subst. match goal with L : one (Level _ _) _ _ |- _ => inversion L; subst end. eapply prim_no_tuple; eauto. Qed.
Lemma expr_row e ts : one Expr e ts -> exists l, row1 Test Item l ts /\
  match e with ETuple c true p l' d fc fm => l' = l /\ 2 <= List.length l | _ => l = [e] end.
Proof.
  intro H. inversion H; subst.
  - exists [e]. split; [now constructor|]. destruct e; auto. destruct nobr; auto. exfalso. eapply test_no_tuple; eauto.
  - exists l. auto.
Qed.
Lemma vars_row e ts : one Vars e ts -> exists l, row1 Prim Prim l ts /\
  match e with ETuple c true p l' d fc fm => l' = l /\ 2 <= List.length l | _ => l = [e] end.
Proof.
  intro H. inversion H; subst.
  - exists [e]. split; [now constructor|]. destruct e; auto. destruct nobr; auto. exfalso. eapply prim_no_tuple; eauto.
  - exists l. auto.
Qed.

(** ** What the tables say about precedence *)
Definition oplevel : list (Z * nat) :=
  [(T_IF, 1); (T_IS, 2); (T_OR, 3); (T_AND, 4); (t_lt, 5); (t_gt, 5); (T_EQ, 5); (T_NE, 5); (T_LE, 5); (T_GE, 5); (T_IN, 5); (T_NOT, 5);
   (t_bar, 6); (t_caret, 7); (t_amp, 8); (T_BIT_LSH, 9); (T_BIT_RSH, 9); (t_plus, 10); (t_minus, 10);
   (t_star, 11); (t_slash, 11); (t_percent, 11); (T_INT_DIV, 11)].
(** The level of the operator of a rule for binary operators. *)
Definition rule_level (r : Z) : option nat :=
  match rule r with
  | Some (A, X :: op :: _) => if (A =? N_test)%Z && (X =? N_test)%Z then option_map snd (find (fun p => (fst p =? op)%Z) oplevel) else None
  | _ => None
  end.
(** The level that the last operand of a rule must have. *)
Definition need (r : Z) : nat :=
  match rule_level r with
  | Some m => S m
  | None => if memZ r [91; 92; 93; 94]%Z then 12 else if memZ r [86; 144; 146]%Z then 2 else 0
  end.
Definition lvl (s : Z) : nat := fold_right (fun r n => Nat.max (need r) n) 0 (reductions s).
Definition lambda_body (s : Z) : bool := memZ 90 (reductions s).
Definition levels : list nat := Eval vm_compute in map lvl states.
Definition lam : list Z := Eval vm_compute in filter lambda_body states.
Definition precedence_check : bool :=
  forallb (fun s => Nat.eqb (lvl s) (nth (Z.to_nat s) levels 0) && Bool.eqb (lambda_body s) (memZ s lam)) states &&
  forallb (fun s => Nat.leb (nth (Z.to_nat s) levels 0) 12) states &&
  forallb (fun s =>
    (negb (chk s =? N_test)%Z || forallb (fun p => match action s (fst p) with Shift _ => Nat.leb (nth (Z.to_nat s) levels 0) (snd p) | _ => true end) oplevel) &&
    (negb (chk s =? N_expr)%Z || negb (memZ s lam) || match action s t_comma with Shift _ => false | _ => true end) &&
    forallb (fun p => match action s (fst p) with
                      | Reduce r => match rule_level r with Some m => Nat.leb (snd p) m | None => negb (memZ r [85]%Z) end
                      | _ => true end) oplevel &&
    match action s t_newline with Reduce r => negb (r =? 3)%Z | _ => true end &&
    match action s t_dot with Reduce r => negb (r =? 143)%Z | _ => true end) (filter live states).
Lemma precedence_checked : precedence_check = true.
Proof. vm_compute. reflexivity. Qed.
Lemma precedence_split :
  forallb (fun s => Nat.eqb (lvl s) (nth (Z.to_nat s) levels 0) && Bool.eqb (lambda_body s) (memZ s lam)) states = true /\
  forallb (fun s => Nat.leb (nth (Z.to_nat s) levels 0) 12) states = true.
Proof.
  generalize precedence_checked. unfold precedence_check. intro T. apply andb_prop in T. destruct T as [T _]. now apply andb_prop in T.
Qed.
Lemma lvl_eq s : (0 <= s < 267)%Z -> lvl s = nth (Z.to_nat s) levels 0 /\ lambda_body s = memZ s lam.
Proof.
  intro R. destruct precedence_split as [T _]. rewrite forallb_forall in T. specialize (T s (proj2 (in_states s) R)).
  cbv beta in T. apply andb_prop in T. destruct T as [A B]. apply Nat.eqb_eq in A. apply eqb_prop in B. auto.
Qed.
Lemma lvl_max s : (0 <= s < 267)%Z -> lvl s <= 12.
Proof.
  intro R. rewrite (proj1 (lvl_eq s R)). destruct precedence_split as [_ T]. rewrite forallb_forall in T.
  specialize (T s (proj2 (in_states s) R)). cbv beta in T. now apply Nat.leb_le.
Qed.
Lemma precedence s : live s = true -> (0 <= s < 267)%Z ->
  (chk s = N_test -> forall X m s', In (X, m) oplevel -> action s X = Shift s' -> lvl s <= m) /\
  (chk s = N_expr -> lambda_body s = true -> forall s', action s t_comma <> Shift s') /\
  (forall X m r, In (X, m) oplevel -> action s X = Reduce r -> match rule_level r with Some m' => m <= m' | None => ~ In r [85]%Z end) /\
  (action s t_newline <> Reduce 3) /\ (action s t_dot <> Reduce 143).
Proof.
  intros L R. generalize precedence_checked. unfold precedence_check. intro T. apply andb_prop in T. destruct T as [_ T].
  rewrite forallb_forall in T. specialize (T s). rewrite filter_In in T. specialize (T (conj (proj2 (in_states s) R) L)). cbv beta in T.
  destruct (lvl_eq s R) as [E1 E2].
  apply andb_prop in T. destruct T as [T T5]. apply andb_prop in T. destruct T as [T T4]. apply andb_prop in T. destruct T as [T T3]. apply andb_prop in T. destruct T as [T1 T2].
  split; [|split; [|split; [|split]]].
  - intros C X m s' I A. rewrite C in T1. change (negb (N_test =? N_test)%Z) with false in T1. rewrite orb_false_l in T1.
    rewrite forallb_forall in T1. specialize (T1 _ I). cbn [fst snd] in T1. rewrite A in T1. rewrite E1. now apply Nat.leb_le.
  - intros C B s' A. rewrite C in T2. change (negb (N_expr =? N_expr)%Z) with false in T2. rewrite <- E2, B, A in T2. discriminate.
  - intros X m r I A. rewrite forallb_forall in T3. specialize (T3 _ I). cbn [fst snd] in T3. rewrite A in T3.
    destruct (rule_level r); [now apply Nat.leb_le|]. intro Q. apply memZ_In in Q. now rewrite Q in T3.
  - intro A. rewrite A in T4. discriminate.
  - intro A. rewrite A in T5. discriminate.
Qed.
Lemma need_lvl s a r : (0 <= a < 63)%Z -> action s a = Reduce r -> need r <= lvl s.
Proof.
  intros R A. unfold lvl. assert (I : In r (reductions s)).
  { unfold reductions. apply nodup_In, in_flat_map. exists a. split; [now apply in_lookaheads|]. rewrite A. now left. }
  induction (reductions s) as [|x l IH]; [destruct I|]. cbn [fold_right]. destruct I as [->|I]; [lia|]. specialize (IH I). lia.
Qed.
Lemma lambda_reduces s a : (0 <= a < 63)%Z -> action s a = Reduce 90 -> lambda_body s = true.
Proof.
  intros R A. unfold lambda_body. apply memZ_In. unfold reductions. apply nodup_In, in_flat_map. exists a.
  split; [now apply in_lookaheads|]. rewrite A. now left.
Qed.

(** ** What is known of the entries of the stack *)
Definition g_one (c : cat) (s : Z) (v : value) (t : list token) (a : Z) : Prop := exists e, v = VExpr e /\ one c e t.
Definition g_list (P : list expr -> list token -> Prop) (s : Z) (v : value) (t : list token) (a : Z) : Prop := exists l, v = VList l /\ P l t.
Definition g_maybe (c : cat) (s : Z) (v : value) (t : list token) (a : Z) : Prop := exists o, v = VOpt o /\ maybe c o t.
Definition g_test (s : Z) (v : value) (t : list token) (a : Z) : Prop :=
  exists e r o, v = VExpr e /\ one (Level r o) e t /\ lvl s <= r /\ (forall m, In (a, m) oplevel -> m <= r /\ o = false).
Definition g_expr (s : Z) (v : value) (t : list token) (a : Z) : Prop :=
  exists e, v = VExpr e /\ one Expr e t /\ (lambda_body s = true -> one Test e t /\ forall m, ~ In (a, m) oplevel).
Definition g_prim (s : Z) (v : value) (t : list token) (a : Z) : Prop :=
  exists e, v = VExpr e /\ one Prim e t /\ (a = t_dot -> forall i, is KInt i -> t <> [i]).
Definition g_ident (s : Z) (v : value) (t : list token) (a : Z) : Prop :=
  exists i tk, v = VExpr (EIdent i) /\ t = [tk] /\ spelled_ident i tk.
Definition g_string (s : Z) (v : value) (t : list token) (a : Z) : Prop :=
  exists x tk, v = VExpr (EStr x) /\ t = [tk] /\ spelled_string x tk.
Definition g_commas (s : Z) (v : value) (t : list token) (a : Z) : Prop :=
  exists p, v = VPos p /\ commas t /\ t <> [] /\ p_line p <> 0%Z.
Definition g_commas_opt (s : Z) (v : value) (t : list token) (a : Z) : Prop :=
  exists p, v = VPos p /\ commas t /\ (p_line p = 0%Z <-> t = []).
Definition g_comma_opt (s : Z) (v : value) (t : list token) (a : Z) : Prop :=
  exists p, v = VPos p /\ commas t /\ (List.length t <= 1).
Definition g_tests_opt (s : Z) (v : value) (t : list token) (a : Z) : Prop :=
  exists l p, v = VTests l p /\ (l = [] /\ t = [] \/ exists tl cs, t = tl ++ cs /\ row Test l tl /\ commas cs /\ (p_line p = 0%Z <-> cs = [])).
Definition g_arguments_opt (s : Z) (v : value) (t : list token) (a : Z) : Prop :=
  exists l, v = VList l /\ (l = [] /\ t = [] \/ exists cs0 tl cs1, t = cs0 ++ tl ++ cs1 /\ commas cs0 /\ row Arg l tl /\ commas cs1).
Definition g_arguments (s : Z) (v : value) (t : list token) (a : Z) : Prop :=
  exists l, v = VList l /\ exists cs0 tl, t = cs0 ++ tl /\ commas cs0 /\ row Arg l tl.
Definition g_load (s : Z) (v : value) (t : list token) (a : Z) : Prop := exists f to, v = VLoads [(f, to)] /\ load_arg f to t.
Definition g_loads (s : Z) (v : value) (t : list token) (a : Z) : Prop := exists l, v = VLoads l /\ load_args (map fst l) (map snd l) t.
Definition g_clauses (s : Z) (v : value) (t : list token) (a : Z) : Prop :=
  exists l o, v = VList l /\ clauses o l t /\ (a = T_IF -> o = false).
Definition g_clause (s : Z) (v : value) (t : list token) (a : Z) : Prop :=
  exists e o, v = VExpr e /\ clauses o [e] t /\ (a = T_IF -> o = false).
Definition g_more_smalls (s : Z) (v : value) (t : list token) (a : Z) : Prop :=
  exists l, v = VList l /\ forall l0 t0, smalls l0 t0 -> smalls (l0 ++ l) (t0 ++ t).
Definition g_semi (s : Z) (v : value) (t : list token) (a : Z) : Prop := v = VNone /\ (t = [] \/ exists x, t = [x] /\ ch ";" x).
Definition g_linebreaks (s : Z) (v : value) (t : list token) (a : Z) : Prop := v = VNone /\ newlines t.
Definition g_simple (s : Z) (v : value) (t : list token) (a : Z) : Prop :=
  exists l f, v = VStmts l f /\ line l t /\ l <> [] /\ code l = l.
Definition g_suite (s : Z) (v : value) (t : list token) (a : Z) : Prop :=
  exists l f k, v = VStmts l f /\ suite k (code l) t /\ (k = true -> a <> t_newline).
Definition g_comments (s : Z) (v : value) (t : list token) (a : Z) : Prop :=
  exists l f, v = VStmts l f /\ stmts false [] t /\ Forall (fun e => exists c p, e = ECommentBlock c p /\ c_after c <> []) l.
Definition g_stmts (s : Z) (v : value) (t : list token) (a : Z) : Prop :=
  exists l f k, v = VStmts l f /\ stmts k (code l) t /\ (k = true -> a <> t_newline) /\
    (t = [] \/ code l <> [] \/ exists x t', t = x :: t' /\ In (t_kind x) [KChar c_nl; KComment]).
Definition g_stmt (s : Z) (v : value) (t : list token) (a : Z) : Prop :=
  exists x l f k, v = VStmts (x :: l) f /\ is_code x = true /\ (k = true -> a <> t_newline) /\
    (k = false /\ line (code (x :: l)) t \/ code l = [] /\ one (Block k) x t).
Definition g_header (s : Z) (v : value) (t : list token) (a : Z) : Prop :=
  exists c p ps n col fc fm d nm lp tp rp, v = VExpr (EDef c p ps [] n col fc fm None) /\ t = d :: nm :: lp :: tp ++ [rp] /\
    is KDef d /\ is KIdent nm /\ t_tok nm = n /\ ch "(" lp /\ params TParam ps tp /\ ch ")" rp.
Definition g_header_type (s : Z) (v : value) (t : list token) (a : Z) : Prop :=
  exists c p ps n col fc fm ty d nm lp tp rp ta, v = VExpr (EDef c p ps [] n col fc fm ty) /\ t = d :: nm :: lp :: tp ++ rp :: ta /\
    is KDef d /\ is KIdent nm /\ t_tok nm = n /\ ch "(" lp /\ params TParam ps tp /\ ch ")" rp /\
    annotation ty ta.
Definition g_block (s : Z) (v : value) (t : list token) (a : Z) : Prop :=
  exists e f k, v = VBlock e f /\ one (Block k) e t /\ (k = true -> a <> t_newline).
(** An if statement to which branches can be added. *)
Definition elif_tokens (el : list token) : Prop :=
  (exists a, el = [a] /\ is KElif a) \/ (exists a b, el = [a; b] /\ is KElse a /\ is KIf b).
Inductive chain : bool -> expr -> list token -> Prop :=
  | ch_one k c p x t ep tx cl tb : one Expr x tx -> ch ":" cl -> suite k (code t) tb -> chain k (EIf c p x t ep []) (tx ++ cl :: tb)
  | ch_more k k' c p x t ep e tx cl tb el te : one Expr x tx -> ch ":" cl -> suite k' (code t) tb -> elif_tokens el -> chain k e te ->
      chain k (EIf c p x t ep [e]) (tx ++ cl :: tb ++ el ++ te).
Definition g_chain (s : Z) (v : value) (t : list token) (a : Z) : Prop :=
  exists e f k i t', v = VBlock e f /\ t = i :: t' /\ is KIf i /\ chain k e t' /\ (k = true -> a <> t_newline).
Definition g_elif (s : Z) (v : value) (t : list token) (a : Z) : Prop := (exists p, v = VPos p) /\ elif_tokens t.
Definition g_tok (s : Z) (v : value) (t : list token) (a : Z) : Prop := exists tk, v = VTok tk /\ t = [tk] /\ terminal tk = chk s.

Definition preds_table : list (Z * (Z -> value -> list token -> Z -> Prop)) :=
  [(N_comma_opt, g_comma_opt); (N_commas, g_commas); (N_commas_opt, g_commas_opt); (N_argument, g_one Arg); (N_arguments, g_arguments);
   (N_arguments_opt, g_arguments_opt); (N_parameter, g_one Param); (N_parameters, g_list (row1 Param Param)); (N_parameters_opt, g_list (params Param));
   (N_parameter_type, g_one TParam); (N_parameters_type, g_list (row1 TParam TParam)); (N_parameters_type_opt, g_list (params TParam));
   (N_test, g_test); (N_test_opt, g_maybe Test); (N_tests_opt, g_tests_opt); (N_primary_expr, g_prim); (N_expr, g_expr); (N_expr_opt, g_maybe Expr);
   (N_tests, g_list (row Test)); (N_loop_vars, g_one Vars); (N_for_clause, g_clause); (N_for_clause_with_if_clauses_opt, g_clauses);
   (N_for_clauses_with_if_clauses_opt, g_clauses); (N_ident, g_ident); (N_number, g_prim); (N_stmts, g_stmts); (N_stmt, g_stmt);
   (N_block_stmt, g_block); (N_if_else_block, g_block); (N_if_chain, g_chain); (N_elif, g_elif); (N_simple_stmt, g_simple);
   (N_small_stmt, g_one Small); (N_small_stmts_continuation, g_more_smalls); (N_keyvalue, g_one Pair); (N_keyvalues, g_list (items Pair));
   (N_keyvalues_no_comma, g_list (row Pair)); (N_string, g_string); (N_suite, g_suite); (N_comments, g_comments); (N_load_argument, g_load);
   (N_load_arguments, g_loads); (N_def_header, g_header); (N_def_header_type_opt, g_header_type); (N_linebreaks_opt, g_linebreaks);
   (N_semi_opt, g_semi)].
Definition pred_of (X : Z) : Z -> value -> list token -> Z -> Prop :=
  match find (fun p => (fst p =? X)%Z) preds_table with Some (_, P) => P | None => g_tok end.
Definition good (s : Z) (v : value) (t : list token) (a : Z) : Prop := pred_of (chk s) s v t a.
Lemma good_shift s t a : chk s = terminal t -> good s (VTok t) [t] a.
Proof.
  intro E. unfold good, pred_of. destruct (find _ preds_table) as [[X P]|] eqn:F.
  - exfalso. apply find_some in F. destruct F as [F1 F2]. cbn [fst] in F2. apply Z.eqb_eq in F2.
    assert (N : forallb (fun p => (fst p <? 0)%Z) preds_table = true) by reflexivity.
    rewrite forallb_forall in N. specialize (N _ F1). cbn [fst] in N. pose proof (terminal_range t). lia.
  - exists t. auto.
Qed.
Lemma args_inv q X rhs vs ts a p : args_ok good q (X :: rhs) vs ts a p ->
  exists s v vs' t ts', vs = v :: vs' /\ ts = t ++ ts' /\ In q (preds_of s) /\ chk s = X /\ pred_of X s v t (look ts' a) /\ args_ok good s rhs vs' ts' a p.
Proof. intro H. inversion H; subst. repeat eexists; eauto. Qed.
Lemma args_end q vs ts a p : args_ok good q [] vs ts a p -> vs = [] /\ ts = [] /\ p = q.
Proof. intro H. inversion H; subst. auto. Qed.
