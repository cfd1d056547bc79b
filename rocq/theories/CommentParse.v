(** The comment tokens are in the parsed statements, in order: the rules of the grammar. *)
From Verif Require Import Base BaseProofs Ast AttachSpec Lex LexSpec LRTables LRCert Parse LRProofs ParseSpec ParseLex ParseProofs ParseRules ParseStmts ParseSound CommentSpec CommentProofs CommentStmts.
Local Open Scope list_scope.

Lemma ct_app a b : comment_tokens (a ++ b) = comment_tokens a ++ comment_tokens b.
Proof. unfold comment_tokens. now rewrite filter_app, map_app. Qed.

(** ** If chains *)
Inductive open_chain : expr -> Prop :=
  | oc_one c p x t d : bare (EIf c p x t d []) -> end_in d = [] -> Forall st_ok t -> open_chain (EIf c p x t d [])
  | oc_more c p x t d n : bare (EIf c p x t d [n]) -> end_in d = [] -> Forall st_ok t -> open_chain n -> open_chain (EIf c p x t d [n]).
Lemma open_shape e : open_chain e -> exists c p x b ep f, e = EIf c p x b ep f.
Proof. destruct 1; repeat eexists. Qed.
Lemma open_pre e : open_chain e -> pre_ok e.
Proof. induction 1; [apply pre_if|apply pre_elif]; auto. now apply open_shape. Qed.
Lemma around_bare c p x t d f : bare (EIf c p x t d f) -> in_order_of (EIf c p x t d f) = in_order_of x ++ flat t ++ end_in d ++ flat f.
Proof. intros (A & B & C). cbn [com] in *. cbn [in_order_of com]. unfold around. rewrite A, B, C. now rewrite !app_nil_r. Qed.
Lemma open_else e : open_chain e -> forall p f e', set_else e p f = Some e' ->
  in_order_of e' = in_order_of e ++ flat f /\ (Forall st_ok f -> pre_ok e') /\
  (forall n, f = [n] -> open_chain n -> open_chain e') /\ (forall n, f = [n] -> open_chain n -> pre_ok e') /\ (exists c p x b ep f, e' = EIf c p x b ep f).
Proof.
  induction 1 as [c p0 x t d B D F|c p0 x t d n B D F O IH]; intros p f e' E; cbn [set_else] in E.
  - injection E as <-. assert (B' : bare (EIf c p0 x t (End no_com p) f)) by exact B. split; [|split; [|split; [|split]]].
    + rewrite !around_bare by assumption. rewrite D. cbn [flat flat_map]. now rewrite !app_nil_r, <- app_assoc.
    + intro G. apply pre_if; auto.
    + intros n -> G. apply oc_more; auto.
    + intros n -> G. apply open_pre, oc_more; auto.
    + repeat eexists.
  - destruct (set_else n p f) as [i|] eqn:Q; [|discriminate]. injection E as <-. destruct (IH _ _ _ Q) as (I1 & I2 & I3 & I4 & I5).
    assert (B' : bare (EIf c p0 x t d [i])) by exact B. split; [|split; [|split; [|split]]].
    + rewrite !around_bare by assumption. cbn [flat flat_map]. rewrite I1, !app_nil_r, <- !app_assoc. reflexivity.
    + intro G. apply pre_elif; auto.
    + intros m -> G. apply oc_more; eauto.
    + intros m -> G. apply pre_elif; eauto.
    + repeat eexists.
Qed.

(** ** What is known of the comments of the entries of the stack *)
Definition starts_blank (t : list token) : Prop := exists x t', t = x :: t' /\ In (t_kind x) [KChar c_nl; KComment].
Definition fresh_first (l : list expr) : Prop := match l with [] => False | x :: _ => is_code x = true /\ c_before (com x) = [] end.
Definition t_list (l : list expr) (t : list token) : Prop := flat l = comment_tokens t /\ Forall st_ok l.
Definition t_comments (v : value) (t : list token) : Prop := exists l f, v = VStmts l f /\ t_list l t /\ Forall is_cb l.
Definition t_stmts (v : value) (t : list token) : Prop :=
  exists l f, v = VStmts l f /\ t_list l t /\ (t = [] /\ l = [] \/ starts_blank t \/ fresh_first l).
Definition t_stmt (v : value) (t : list token) : Prop := exists l f, v = VStmts l f /\ t_list l t /\ fresh_first l.
Definition t_suite (v : value) (t : list token) : Prop := exists l f, v = VStmts l f /\ t_list l t.
Definition t_block (v : value) (t : list token) : Prop := exists e f, v = VBlock e f /\ in_order_of e = comment_tokens t /\ pre_ok e.
Definition t_chain (v : value) (t : list token) : Prop := exists e f, v = VBlock e f /\ in_order_of e = comment_tokens t /\ open_chain e.
Definition t_quiet (v : value) (t : list token) : Prop := quietv v /\ comment_tokens t = [].
Definition t_tok (X : Z) (v : value) (t : list token) : Prop := exists tk, v = VTok tk /\ t = [tk] /\ terminal tk = X.
Definition told_table : list (Z * (value -> list token -> Prop)) :=
  [(N_comments, t_comments); (N_stmts, t_stmts); (N_stmt, t_stmt); (N_suite, t_suite); (N_block_stmt, t_block); (N_if_else_block, t_block); (N_if_chain, t_chain)].
Definition told (X : Z) (v : value) (t : list token) : Prop :=
  match find (fun p => (fst p =? X)%Z) told_table with
  | Some (_, P) => P v t
  | None => if (X <? 0)%Z then t_quiet v t else t_tok X v t
  end.
Definition good2 (s : Z) (v : value) (t : list token) (a : Z) : Prop := good s v t a /\ told (chk s) v t.
Inductive args_told : list Z -> list value -> list token -> Prop :=
  | at_nil : args_told [] [] []
  | at_cons X rhs v vs t ts : told X v t -> args_told rhs vs ts -> args_told (X :: rhs) (v :: vs) (t ++ ts).
Lemma args_split q rhs vs ts a p : args_ok good2 q rhs vs ts a p -> args_ok good q rhs vs ts a p /\ args_told rhs vs ts.
Proof.
  induction 1 as [q a|q X rhs s v vs t ts a p P C [G T] _ [I1 I2]]; [split; constructor|]. split; [econstructor; eauto|]. subst X. now constructor.
Qed.
Lemma good2_shift s t a : chk s = terminal t -> good2 s (VTok t) [t] a.
Proof.
  intro E. split; [now apply good_shift|]. rewrite E. unfold told. pose proof (terminal_range t) as R.
  destruct (find _ told_table) as [[X P]|] eqn:F.
  - exfalso. apply find_some in F. destruct F as [F1 F2]. cbn [fst] in F2. apply Z.eqb_eq in F2.
    assert (N : forallb (fun p => (fst p <? 0)%Z) told_table = true) by reflexivity.
    rewrite forallb_forall in N. specialize (N _ F1). cbn [fst] in N. lia.
  - replace (terminal t <? 0)%Z with false by lia. exists t. auto.
Qed.
Definition case2 (r : Z) : Prop := forall A rhs f vs v ts, rule r = Some (A, rhs) -> nth_error actions (Z.to_nat r - 1) = Some f ->
  legit ts -> forall q a p, args_ok good2 q rhs vs ts a p -> f vs = Some v -> told A v ts.
(** *** Rules for expressions *)
Definition plain_symbol (X : Z) : bool :=
  negb (existsb (fun p => (fst p =? X)%Z) told_table) && negb (X =? T_COMMENT)%Z.
Definition plain_rule (r : nat) : bool :=
  match rule (Z.of_nat r) with Some (A, rhs) => plain_symbol A && (A <? 0)%Z && forallb plain_symbol rhs | None => true end.
Lemma plain_rules : forallb plain_rule quiet_rules = true.
Proof. vm_compute. reflexivity. Qed.
Lemma plain_told X v t : plain_symbol X = true -> told X v t -> t_quiet v t.
Proof.
  unfold plain_symbol, told. intros H T. apply andb_prop in H. destruct H as [H1 H2].
  destruct (find _ told_table) as [[Y P]|] eqn:F.
  - exfalso. apply find_some in F. destruct F as [F1 F2]. apply negb_true_iff in H1. assert (W : existsb (fun p => (fst p =? X)%Z) told_table = true) by (apply existsb_exists; eauto). congruence.
  - destruct (X <? 0)%Z; [exact T|]. destruct T as (tk & -> & -> & E). split; [exact Logic.I|]. unfold comment_tokens. cbn [filter].
    replace (is_comment tk) with false; [reflexivity|]. symmetry. unfold is_comment. destruct (t_kind tk) eqn:K; try reflexivity. exfalso.
    unfold terminal in E. rewrite K in E. subst X. discriminate H2.
Qed.
Lemma plain_result A v t : plain_symbol A = true -> (A <? 0)%Z = true -> t_quiet v t -> told A v t.
Proof.
  unfold plain_symbol, told. intros H N Q. apply andb_prop in H. destruct H as [H1 _]. destruct (find _ told_table) as [[Y P]|] eqn:F; [|now rewrite N].
  exfalso. apply find_some in F. destruct F as [F1 F2]. apply negb_true_iff in H1. assert (W : existsb (fun p => (fst p =? A)%Z) told_table = true) by (apply existsb_exists; eauto). congruence.
Qed.
Lemma args_quiet rhs vs ts : args_told rhs vs ts -> forallb plain_symbol rhs = true -> Forall quietv vs /\ comment_tokens ts = [].
Proof.
  induction 1 as [|X rhs v vs t ts T _ IH]; [split; constructor|]. cbn [forallb]. intro H. apply andb_prop in H. destruct H as [H1 H2].
  destruct (plain_told _ _ _ H1 T) as [Q1 Q2]. destruct (IH H2) as [I1 I2]. split; [now constructor|]. now rewrite ct_app, Q2, I2.
Qed.
Lemma quiet_case2 r : In r quiet_rules -> case2 (Z.of_nat r).
Proof.
  intros I A rhs f vs v ts R F _ q a p T V. apply args_split in T. destruct T as [_ T]. pose proof plain_rules as P. rewrite forallb_forall in P. specialize (P r I). unfold plain_rule in P. rewrite R in P.
  apply andb_prop in P. destruct P as [P P3]. apply andb_prop in P. destruct P as [P1 P2]. destruct (args_quiet _ _ _ T P3) as [Q1 Q2].
  apply plain_result; auto. split; [|assumption]. pose proof quiet_ok as QO. rewrite Forall_forall in QO. rewrite Nat2Z.id in F. exact (QO r I f F vs v Q1 V).
Qed.
(** *** Rules for statements *)
Lemma told_inv q X rhs vs ts a p : args_ok good2 q (X :: rhs) vs ts a p ->
  exists s v vs' t ts', vs = v :: vs' /\ ts = t ++ ts' /\ told X v t /\ pred_of X s v t (look ts' a) /\ args_ok good2 s rhs vs' ts' a p.
Proof. intro H. inversion H as [|? ? ? s ? ? ? ? ? ? P C [G T] R]; subst. exists s. repeat eexists; eauto. Qed.
Lemma told_end q vs ts a p : args_ok good2 q [] vs ts a p -> vs = [] /\ ts = [].
Proof. intro H. now inversion H. Qed.
Ltac evt H := match type of H with told ?X ?v ?t => let P := eval hnf in (told X v t) in change P in H end.
Tactic Notation "start2" ident(LG) ident(AO) ident(V) :=
  let A := fresh "A" in let rhs := fresh "rhs" in let f := fresh "f" in let E1 := fresh in let E2 := fresh in let vs := fresh "vs" in let v := fresh "v" in let ts := fresh "ts" in
  intros A rhs f vs v ts E1 E2 LG q0 a0 p0 AO V; lazy in E1; injection E1 as <- <-; injection E2 as <-;
  match goal with |- told ?X ?v ?t => let P := eval hnf in (told X v t) in change P end.
Tactic Notation "take3" ident(AO) ident(P) simple_intropattern(pat) :=
  let s := fresh "s" in let v := fresh "v" in let vs := fresh "vs" in let t := fresh "t" in let ts := fresh "ts" in let G := fresh "G" in let AO' := fresh "AOO" in
  destruct (told_inv _ _ _ _ _ _ _ AO) as (s & v & vs & t & ts & -> & -> & G & P & AO'); clear AO; rename AO' into AO; evp P; evt G; destruct G as pat.
Tactic Notation "take2" ident(AO) simple_intropattern(pat) := let P := fresh "PP" in take3 AO P pat; clear P.
Tactic Notation "tok2" ident(AO) ident(tk) :=
  let T := fresh "T" in take2 AO (tk & -> & -> & T);
  match type of T with _ = ?X => let k := eval vm_compute in (kind_at X) in match k with Some ?k' =>
    let H := fresh "K" in assert (H : t_kind tk = k') by (eapply tkind_at; [exact T|vm_compute; reflexivity]) end end.
Ltac done2 AO := apply told_end in AO; destruct AO as [-> ->]; rewrite ?app_nil_r.
Lemma ct_one t k : t_kind t = k -> k <> KComment -> comment_tokens [t] = [].
Proof. intros <- N. unfold comment_tokens. cbn [filter]. unfold is_comment. now destruct (t_kind t). Qed.
Lemma ct_skip t k l : t_kind t = k -> k <> KComment -> comment_tokens (t :: l) = comment_tokens l.
Proof. intros E N. change (t :: l) with ([t] ++ l). rewrite ct_app. now rewrite (ct_one _ _ E N). Qed.
Lemma ct_comment t l : t_kind t = KComment -> comment_tokens (t :: l) = comment_of t :: comment_tokens l.
Proof. intro E. unfold comment_tokens. cbn [filter]. unfold is_comment at 1. now rewrite E. Qed.
Ltac skip := repeat match goal with K : t_kind ?t = ?k |- context [comment_tokens (?t :: _)] => rewrite (ct_skip t k _ K) by discriminate end.
Lemma quiet_list l : flat_map in_order_of l = [] -> Forall quiet l.
Proof. induction l as [|x l IH]; [constructor|]. cbn [flat_map]. intro H. apply app_eq_nil in H. destruct H. constructor; auto. Qed.
(** Simple statements are plain. *)
Definition simple (e : expr) : Prop := match e with EDef _ _ _ _ _ _ _ _ _ | EFor _ _ _ _ _ | EIf _ _ _ _ _ _ => False | _ => True end.
Lemma quiet_com e : quiet e -> bare e.
Proof. unfold quiet. rewrite around_inner. unfold around. intro H. apply app_eq_nil in H. destruct H as [A H]. apply app_eq_nil in H. destruct H as [_ H]. apply app_eq_nil in H. destruct H. repeat split; auto. Qed.
Lemma simple_ok e : simple e -> quiet e -> st_ok e.
Proof. intros S0 Q. apply quiet_com in Q. destruct Q as (A & B & C). apply st_ok_def. repeat split; auto; destruct e; try reflexivity; destruct S0. Qed.

Lemma small_simple e t : one Small e t -> simple e.
Proof.
  intro H. destruct e; try exact Logic.I; exfalso; inversion H; subst;
  repeat match goal with L : one Expr _ _ |- _ => inversion L; subst; clear L | L : one Test _ _ |- _ => inversion L; subst; clear L
                       | L : one (Level _ _) _ _ |- _ => inversion L; subst; clear L | L : one Prim _ _ |- _ => inversion L end.
Qed.
Lemma smalls_simple l t : smalls l t -> Forall simple l.
Proof. induction 1; [constructor; [eapply small_simple; eauto|constructor]|]. apply Forall_app. split; [assumption|]. constructor; [eapply small_simple; eauto|constructor]. Qed.
Lemma line_ok l t : line l t -> flat_map in_order_of l = [] -> Forall st_ok l.
Proof.
  intros L Q. apply quiet_list in Q. destruct L as [l tl sm nl S0 _ _]. apply smalls_simple in S0. induction S0 as [|x l H F IH]; [constructor|].
  inversion Q; subst. constructor; auto. now apply simple_ok.
Qed.
Lemma bare_no e : bare e -> com e = no_com.
Proof. intros (A & B & C). destruct (com e). cbn in *. now subst. Qed.
Lemma case_6 : case2 6. Proof. start2 LG AO V. done2 AO. injection V as <-. repeat eexists; constructor. Qed.
Lemma add_comment_order l f c : Forall st_ok l -> flat (add_comment l f c) = flat l ++ [comment_of c] /\ Forall st_ok (add_comment l f c).
Proof.
  intro OK. unfold add_comment. fold (comment_of c). pose proof (last_stmt_spec l f) as L. destruct (last_stmt l f) as [x|].
  - destruct L as [l0 ->]. destruct (set_last_spec (fun s => set_after (c_after (com s) ++ [comment_of c]) s) (l0 ++ [x])) as (l1 & x1 & E & ->); [now destruct l0|].
    apply app_inj_tail in E. destruct E as [<- <-]. apply Forall_app in OK. destruct OK as [O1 O2]. inversion O2; subst.
    assert (SX : c_suffix (com x) = []) by (now apply (proj1 (st_ok_def x))). split.
    + rewrite !flat_app, !flat_cons. cbn [flat flat_map]. rewrite !app_nil_r, in_order_set_after, (in_order_after x SX) by assumption. now rewrite <- !app_assoc.
    + apply Forall_app. split; [assumption|]. constructor; [now apply set_after_ok|constructor].
  - split; [now rewrite flat_app|]. apply Forall_app. split; [assumption|]. constructor; [apply block_ok|constructor].
Qed.
Lemma add_comment_cb l f c : Forall is_cb l -> Forall is_cb (add_comment l f c).
Proof. intro F. apply cb_code. pose proof (add_comment_coded l f c) as K. unfold coded in K. rewrite (code_cb _ F) in K. now inversion K. Qed.
Lemma case_7 : case2 7.
Proof.
  start2 LG AO V. take2 AO (l & f0 & -> & (A & B) & C). tok2 AO c. tok2 AO n. done2 AO. injection V as <-. destruct (add_comment_order l f0 c B) as [O1 O2].
  eexists _, _. split; [reflexivity|]. split; [split; [|assumption]|now apply add_comment_cb]. rewrite O1, A, ct_app. cbn [app]. now rewrite (ct_comment c) by assumption; skip.
Qed.
Lemma case_8 : case2 8.
Proof. start2 LG AO V. take2 AO (l & f0 & -> & (A & B) & C). tok2 AO n. done2 AO. injection V as <-. eexists _, _. split; [reflexivity|]. split; [split; [|assumption]|assumption]. rewrite ct_app. skip. now rewrite A, app_nil_r. Qed.
Lemma case_9 : case2 9. Proof. start2 LG AO V. done2 AO. injection V as <-. eexists _, _. split; [reflexivity|]. split; [split; constructor|]. now left. Qed.
Lemma blank_app t t' : starts_blank t -> starts_blank (t ++ t').
Proof. intros (x & t0 & -> & H). now exists x, (t0 ++ t'). Qed.
Lemma fresh_app l l' : fresh_first l -> fresh_first (l ++ l').
Proof. now destruct l. Qed.
Lemma fresh_add l f c : fresh_first l -> fresh_first (add_comment l f c).
Proof.
  intro F. unfold add_comment. fold (comment_of c). pose proof (last_stmt_spec l f) as L. destruct (last_stmt l f) as [x|]; [|now apply fresh_app].
  destruct L as [l0 ->]. destruct (set_last_spec (fun s => set_after (c_after (com s) ++ [comment_of c]) s) (l0 ++ [x])) as (l1 & x1 & E & ->); [now destruct l0|].
  apply app_inj_tail in E. destruct E as [<- <-]. destruct l0 as [|y l0]; [|assumption]. cbn [app fresh_first] in *. unfold set_after. rewrite com_set. destruct x; assumption.
Qed.
Lemma case_11 : case2 11.
Proof.
  start2 LG AO V. take2 AO (l & f0 & -> & (A & B) & C). tok2 AO n. done2 AO. injection V as <-. eexists _, _. split; [reflexivity|]. split; [split; [|assumption]|].
  - rewrite ct_app. skip. now rewrite A, app_nil_r.
  - right. destruct C as [[-> ->]|[C|C]]; [left; exists n, []; split; [reflexivity|]; rewrite K; cbn; tauto|left; now apply blank_app|now right].
Qed.
Lemma case_12 : case2 12.
Proof.
  start2 LG AO V. take2 AO (l & f0 & -> & (A & B) & C). tok2 AO c. tok2 AO n. done2 AO. injection V as <-. destruct (add_comment_order l f0 c B) as [O1 O2].
  eexists _, _. split; [reflexivity|]. split; [split; [|assumption]|].
  - rewrite O1, A, ct_app. cbn [app]. now rewrite (ct_comment c) by assumption; skip.
  - right. destruct C as [[-> ->]|[C|C]]; [left; eexists c, _; split; [reflexivity|]; rewrite K; cbn; tauto|left; now apply blank_app|right; now apply fresh_add].
Qed.
Lemma case_13 : case2 13.
Proof.
  start2 LG AO V. take3 AO PG (Q1 & Q2). done2 AO. destruct PG as (l & f0 & -> & L & N & C). destruct l as [|x l]; [discriminate|]. injection V as <-. cbn [quietv] in Q1.
  pose proof (line_ok _ _ L Q1) as OK. eexists _, _. split; [reflexivity|]. split; [split; [now rewrite Q2|assumption]|]. split.
  - assert (I : In x (code (x :: l))) by (rewrite C; now left). unfold code in I. now apply filter_In in I.
  - apply quiet_list in Q1. inversion Q1 as [|? ? Q _]; subst. destruct (quiet_com _ Q); assumption.
Qed.
Lemma pre_code e : pre_ok e -> is_code e = true.
Proof. now destruct 1. Qed.
Lemma case_14 : case2 14.
Proof.
  start2 LG AO V. take2 AO (e & f0 & -> & A & P). done2 AO. destruct (pre_ext e P) as (O1 & O2 & O3). pose proof (com_extracted e) as CE. destruct (extract_ok e) as (_ & CO & _). unfold extracted in *.
  destruct (extractTrailingComments e) as [e' cbs]. cbn [fst snd] in *. injection V as <-. eexists _, _. split; [reflexivity|]. split; [split|].
  - now rewrite flat_cons, O1.
  - now constructor.
  - split; [rewrite CO; now apply pre_code|]. rewrite CE. destruct (pre_bare _ P); assumption.
Qed.
Lemma case_10 : case2 10.
Proof.
  start2 LG AO V. take2 AO (l & f0 & -> & (A & B) & C). take2 AO (l2 & f2 & -> & (A2 & B2) & F). done2 AO. destruct l2 as [|y l2]; [destruct F|]. destruct F as [F1 F2].
  inversion B2 as [|? ? BY BL]; subst.
  assert (R : exists l1, v = VStmts l1 f2 /\ flat l1 = flat l ++ flat (y :: l2) /\ Forall st_ok l1 /\
     (l = [] /\ fresh_first l1 \/ l <> [] /\ (fresh_first l -> fresh_first l1))).
  { unfold add_stmt in V. pose proof (last_stmt_spec l f0) as L. destruct (last_stmt l f0) as [x|].
    - destruct L as [l0 ->]. apply Forall_app in B. destruct B as [B0 BX]. inversion BX as [|? ? BX' _]; subst. assert (SX : c_suffix (com x) = []) by (now apply (proj1 (st_ok_def x))).
      destruct (is_comment_block x) eqn:CB.
      + injection V as <-. rewrite removelast_last. eexists. split; [reflexivity|]. split; [|split].
        * rewrite !flat_app, !flat_cons. cbn [flat flat_map]. rewrite app_nil_r, in_order_set_before by assumption. rewrite (cb_in_order x BX'), <- !app_assoc by now destruct x. reflexivity.
        * apply Forall_app. split; [assumption|]. constructor; [now apply set_before_ok|assumption].
        * right. split; [now destruct l0|]. destruct l0 as [|z l0]; [|auto]. cbn [app fresh_first]. intros [W _]. now destruct x.
      + destruct (set_last_spec (set_after []) (l0 ++ [x])) as (l1 & x1 & E & E'); [now destruct l0|]. rewrite E' in V. apply app_inj_tail in E. destruct E as [<- <-].
        injection V as <-. eexists. split; [reflexivity|]. split; [|split].
        * rewrite !flat_app, !flat_cons. cbn [flat flat_map]. rewrite !app_nil_r, in_order_set_before, in_order_set_after, (in_order_after x SX) by assumption. rewrite <- !app_assoc. reflexivity.
        * apply Forall_app. split; [apply Forall_app; split; [assumption|constructor; [now apply set_after_ok|constructor]]|]. constructor; [now apply set_before_ok|assumption].
        * right. split; [now destruct l0|]. destruct l0 as [|z l0]; [|auto]. cbn [app fresh_first]. unfold set_after. rewrite com_set. destruct x; auto.
    - injection V as <-. eexists. split; [reflexivity|]. split; [apply flat_app|]. split; [now apply Forall_app|]. destruct l as [|z l]; [left; split; [reflexivity|now split]|right; split; [discriminate|auto]]. }
  destruct R as (l1 & -> & R1 & R2 & R3). eexists _, _. split; [reflexivity|]. split; [split; [|assumption]|].
  - now rewrite R1, A, A2, ct_app.
  - right. destruct C as [[-> ->]|[C|C]]; [right; destruct R3 as [[_ R3]|[R3 _]]; [assumption|congruence]|left; now apply blank_app|].
    right. destruct R3 as [[-> R3]|[_ R3]]; auto.
Qed.
Lemma case_3 : case2 3.
Proof.
  start2 LG AO V. take3 AO PG (Q1 & Q2). take2 AO (Q3 & Q4). done2 AO. destruct PG as (l & f0 & -> & L & N & C). injection V as <-. eexists _, _. split; [reflexivity|]. cbn [quietv] in Q1. split.
  - rewrite ct_app, Q2, Q4. exact Q1.
  - eapply line_ok; eauto.
Qed.
Lemma case_2 : case2 2.
Proof.
  start2 LG AO V. tok2 AO n. take3 AO PC (cs & f0 & -> & (A & B) & C). tok2 AO ind. take2 AO (ss & f & -> & (D & E) & F). tok2 AO un. done2 AO.
  assert (SC : starts_code (t_kind (hd un t0))).
  { destruct LG as [_ LG]. destruct t0 as [|y t0]; cbn [hd app] in *; eapply (LG (n :: t) ind); try (rewrite <- app_assoc); try reflexivity; assumption. }
  assert (FF : fresh_first ss).
  { destruct F as [[-> _]|[(x & t' & -> & Q)|F]]; [| |assumption]; exfalso; apply SC; cbn [hd]; cbn [In] in *; rewrite ?K1; tauto. }
  destruct PC as (cs' & f' & EQ & _ & NE). injection EQ as <- <-.
  assert (CT : comment_tokens (([n] ++ t ++ [ind] ++ t0 ++ [un])) = comment_tokens t ++ comment_tokens t0).
  { rewrite !ct_app. rewrite !(ct_one n _ K), !(ct_one ind _ K0), !(ct_one un _ K1) by discriminate. cbn [app]. now rewrite app_nil_r. }
  assert (R : exists l, v = VStmts l f /\ flat l = flat cs ++ flat ss /\ Forall st_ok l).
  { unfold add_suite in V. destruct (rev cs) as [|cb r] eqn:EC.
    - injection V as <-. assert (cs = []) as -> by (rewrite <- (rev_involutive cs), EC; reflexivity). exists ss. auto.
    - assert (cs = rev r ++ [cb]) as -> by (rewrite <- (rev_involutive cs), EC; reflexivity).
      destruct ss as [|s9 ss]; [discriminate|]. destruct FF as [F1 F2]. destruct (rev (c_after (com cb))) as [|c r1]; [discriminate|].
      apply Forall_app in B. destruct B as [B1 B2]. apply Forall_app in C. destruct C as [C1 C2]. inversion B2; inversion C2; inversion E; subst.
      destruct (_ =? 1)%Z; injection V as <-.
      + rewrite removelast_last. eexists. split; [reflexivity|]. split.
        * rewrite !flat_app, !flat_cons. cbn [flat flat_map]. rewrite app_nil_r, in_order_set_before, <- (cb_in_order cb) by assumption. now rewrite <- !app_assoc.
        * apply Forall_app. split; [assumption|]. constructor; [now apply set_before_ok|assumption].
      + eexists. split; [reflexivity|]. split; [apply flat_app|]. apply Forall_app. split; [apply Forall_app; auto|assumption]. }
  destruct R as (l & -> & R1 & R2). eexists _, _. split; [reflexivity|]. split; [|assumption]. rewrite CT, R1, A, D. reflexivity.
Qed.

Lemma quiet_def c p ps n col fc fm ty : quiet (EDef c p ps [] n col fc fm ty) ->
  forall b p', bare (EDef c p ps b n p' fc fm ty) /\ in_order_of (EDef c p ps b n p' fc fm ty) = flat b.
Proof.
  intros Q b p'. pose proof (quiet_com _ Q) as (A & B & C). cbn [com] in *. unfold quiet in Q. cbn [in_order_of com flat_map] in *. unfold around in *. rewrite A, B, C in *. cbn [app] in *.
  rewrite !app_nil_r in *. apply app_eq_nil in Q. destruct Q as [-> ->]. split; [split; auto|reflexivity].
Qed.
Lemma case_18 : case2 18.
Proof.
  start2 LG AO V. take3 AO PG (Q1 & Q2). tok2 AO cl. take2 AO (b & f0 & -> & (A & B)). done2 AO.
  destruct PG as (c & p & ps & n & col & fc & fm & ty & d & nm & lp & tp & rp & ta & -> & _). injection V as <-. cbn [quietv] in Q1.
  destruct (quiet_def _ _ _ _ _ _ _ _ Q1 b (t_pos cl)) as [W1 W2]. eexists _, _. split; [reflexivity|]. split; [|now apply pre_def].
  rewrite W2, ct_app, Q2, A. cbn [app]. now skip.
Qed.
Lemma case_19 : case2 19.
Proof.
  start2 LG AO V. tok2 AO f. take3 AO PG (Q1 & Q2). tok2 AO i. take3 AO PH (Q3 & Q4). tok2 AO cl. take2 AO (b & f0 & -> & (A & B)). done2 AO.
  destruct PG as (vv1 & -> & _). destruct PH as (x & -> & _). cbn [quietv] in *. injection V as <-. eexists _, _. split; [reflexivity|]. split; [|apply pre_for; [repeat split|assumption]].
  cbn [in_order_of com]. unfold around. cbn [no_com c_before c_suffix c_after app]. rewrite Q1, Q3. cbn [app]. rewrite !app_nil_r. skip. rewrite ct_app, Q2. cbn [app]. skip. rewrite ct_app, Q4. cbn [app]. skip. exact A.
Qed.
Lemma case_20 : case2 20. Proof. start2 LG AO V. take2 AO (e & f0 & -> & A & P). done2 AO. injection V as <-. now exists e, f0. Qed.
Lemma case_21 : case2 21.
Proof.
  start2 LG AO V. tok2 AO i. take3 AO PG (Q1 & Q2). tok2 AO cl. take2 AO (b & f0 & -> & (A & B)). done2 AO.
  destruct PG as (x & -> & _). cbn [quietv] in *. injection V as <-. eexists _, _. split; [reflexivity|]. split; [|apply oc_one; [repeat split|reflexivity|assumption]].
  rewrite around_bare by (repeat split). rewrite Q1. cbn [flat flat_map app]. rewrite ?app_nil_r. skip. rewrite ct_app, Q2. cbn [app]. skip. exact A.
Qed.
Lemma case_22 : case2 22.
Proof.
  start2 LG AO V. take2 AO (e & f0 & -> & A & P). take3 AO PE (Q1 & Q2). take3 AO PG (Q3 & Q4). tok2 AO cl. take2 AO (b & f1 & -> & (C & D)). done2 AO.
  destruct PE as [[p ->] _]. destruct PG as (x & -> & _). cbn [quietv] in *. destruct (set_else e p _) as [e'|] eqn:SE; [|discriminate]. injection V as <-.
  destruct (open_else e P _ _ _ SE) as (O1 & _ & O3 & _). eexists _, _. split; [reflexivity|].
  assert (BR : bare (EIf no_com p x b (End no_com no_pos) [])) by (repeat split). split.
  - rewrite O1, A, flat_cons, around_bare by assumption. rewrite Q3. cbn [flat flat_map app]. rewrite !app_nil_r, ct_app. f_equal. rewrite ct_app, Q2. cbn [app]. rewrite ct_app, Q4. cbn [app]. skip. rewrite <- C. reflexivity.
  - eapply O3; [reflexivity|]. now apply oc_one.
Qed.
Lemma case_23 : case2 23. Proof. start2 LG AO V. take2 AO (e & f0 & -> & A & P). done2 AO. injection V as <-. exists e, f0. split; [reflexivity|]. split; [assumption|now apply open_pre]. Qed.
Lemma case_24 : case2 24.
Proof.
  start2 LG AO V. take2 AO (e & f0 & -> & A & P). tok2 AO el. tok2 AO cl. take2 AO (b & f1 & -> & (C & D)). done2 AO.
  cbn [quietv] in *. destruct (set_else e (t_pos el) b) as [e'|] eqn:SE; [|discriminate]. injection V as <-.
  destruct (open_else e P _ _ _ SE) as (O1 & O2 & _). eexists _, _. split; [reflexivity|]. split; [|auto].
  rewrite O1, A, C, ct_app. cbn [app]. now skip.
Qed.
Lemma all_cases2 r : In r numbers -> case2 r.
Proof.
  intro I. change numbers with (map Z.of_nat (seq 2 147)) in I. apply in_map_iff in I. destruct I as (n & <- & I). apply in_seq in I.
  assert (D : In n quiet_rules \/ In n [2;3;6;7;8;9;10;11;12;13;14;18;19;20;21;22;23;24]).
  { unfold quiet_rules. rewrite !in_app_iff, !in_seq. cbn [In]. lia. }
  destruct D as [D|D]; [now apply quiet_case2|]. cbn [In] in D.
  repeat match type of D with _ \/ _ => destruct D as [D|D] end; [subst n..|destruct D].
  - exact case_2. - exact case_3. - exact case_6. - exact case_7. - exact case_8. - exact case_9. - exact case_10. - exact case_11. - exact case_12. - exact case_13. - exact case_14.
  - exact case_18. - exact case_19. - exact case_20. - exact case_21. - exact case_22. - exact case_23. - exact case_24.
Qed.
Lemma good2_reduce q p r A rhs f vs ts a : r <> 1%Z -> rule r = Some (A, rhs) ->
  nth_error actions (Z.to_nat r - 1) = Some f -> action p a = Reduce r -> (0 <= a < 63)%Z -> legit ts -> args_ok good2 q rhs vs ts a p ->
  In q (preds_of (goto_ q (- A))) -> chk (goto_ q (- A)) = A ->
  exists v, f vs = Some v /\ good2 (goto_ q (- A)) v ts a.
Proof.
  intros N ER EF EA LA LG AO GI GK. destruct (args_split _ _ _ _ _ _ AO) as [AO1 _].
  destruct (good_reduce q p r A rhs f vs ts a N ER EF EA LA LG AO1 GI GK) as (v & EV & G). exists v. split; [assumption|]. split; [assumption|].
  rewrite GK. exact (all_cases2 r (rule_number _ _ _ N ER) A rhs f vs v ts ER EF LG q a p AO EV).
Qed.
Theorem run_comments fuel l stmts : legit l -> run fuel (initial l) = Some (Accepted stmts) ->
  exists ts eof rest, l = ts ++ eof :: rest /\ is KEof eof /\ program stmts ts /\ flat stmts = comment_tokens ts.
Proof.
  intros LG H. pose proof (run_good good2 legit legit_infix good2_shift good2_reduce fuel l _ LG H) as R. cbv beta iota in R.
  destruct R as (ts & rest & f & v & p & -> & AO).
  assert (D : forall vs, args_ok good2 0 [N_stmts; T_EOF] vs ts (look rest 0) p -> exists stmts f v t eof, vs = VStmts stmts f :: v /\ ts = t ++ [eof] /\ is KEof eof /\ program stmts t /\ flat stmts = comment_tokens t).
  { clear. intros vs AO. take3 AO PG (l0 & f0 & -> & (A & _) & _). tok2 AO e. done2 AO. destruct PG as (l1 & f1 & k & E & P & _). injection E as <- <-.
    eexists _, _, _, t, e. split; [reflexivity|]. split; [reflexivity|]. split; [assumption|]. split; [now exists k|assumption]. }
  destruct (D _ AO) as (s1 & f1 & v1 & t & eof & E & -> & K & P & F). injection E as -> _ _. exists t, eof, rest. rewrite <- app_assoc. auto.
Qed.
