(** Soundness of the parser, continued: comprehensions, statements and blocks. *)
From Verif Require Import Base BaseProofs Ast Lex LexSpec LRTables LRCert Parse LRProofs ParseSpec ParseLex ParseProofs ParseRules.
Local Open Scope list_scope.
Lemma rule_117 : case 117.
Proof.
  start RED LA LG GI GK AO. take AO s1 P1 K1 (x & r1 & o1 & -> & A & L1 & O1). take AO s2 P2 K2 (op & -> & -> & T). rewrite K2 in T.
  assert (KO : t_kind op = KIf) by (eapply tkind_at; [exact T|vm_compute; reflexivity]).
  take AO (y & r & o & -> & Y & _). tok AO el.
  take AO s9 P9 K9 (z & r2 & o2 & -> & B & L2 & O2). done_args AO. destruct (edge_live _ _ P9) as [LL RR].
  destruct (bin_level _ _ T_IF 1 _ _ _ _ P1 K1 P2 K2 ltac:(vm_compute; discriminate) ltac:(cbn [oplevel In]; tauto) LL RR RED eq_refl LA) as (G & G1 & G2 & G3).
  destruct (O1 1) as [LO ->]; [cbn [app look]; rewrite T; cbn [oplevel In]; tauto|].
  answer. eexists _, 1, o2. split; [reflexivity|]. split; [|split].
  - cbn [app]. apply t_cond; auto; [|now apply level_test in Y|].
    + eapply level_weaken; [|exact A]. lia.
    + eapply level_weaken; [|exact B]. lia.
  - change (- (-13))%Z with 13%Z. rewrite G. assumption.
  - intros m' M. split; [now apply G3|now destruct (O2 _ M)].
Qed.
(** ** Comprehensions and loop variables *)
Lemma tuple_vars x tx y ty c : one Vars x tx -> ch "," c -> one Prim y ty -> one Vars (add_tuple x y) (tx ++ c :: ty).
Proof.
  intros X C Y. destruct (vars_row x tx X) as (l & R & M).
  assert (W : row1 Prim Prim (l ++ [y]) (tx ++ c :: ty)) by (apply r1_more; auto).
  assert (D : add_tuple x y = ETuple no_com true no_pos [x; y] (End no_com no_pos) true false /\ l = [x] \/
              exists c0 p0 l0 d0 b0 b1, x = ETuple c0 true p0 l d0 b0 b1 /\ add_tuple x y = ETuple c0 true p0 l0 d0 true false /\ l0 = l ++ [y] /\ 2 <= List.length l).
  { destruct x; auto. destruct nobr; auto. right. destruct M as [-> M]. repeat eexists; auto. }
  destruct D as [[-> ->]|(c0 & p0 & l0 & d0 & b0 & b1 & _ & -> & -> & L)]; apply v_tuple; auto.
  rewrite app_length. lia.
Qed.
Lemma rule_136 : case 136. Proof. start RED LA LG GI GK AO. take AO (e & -> & A & _). done_args AO. answer. eexists. split; [reflexivity|]. now apply v_one. Qed.
Lemma rule_137 : case 137.
Proof. start RED LA LG GI GK AO. take AO (e & -> & A). tok AO c. take AO (y & -> & B & _). done_args AO. answer. eexists. split; [reflexivity|]. cbn [app]. now apply tuple_vars. Qed.
Lemma rule_144 : case 144.
Proof.
  start RED LA LG GI GK AO. tok AO f. take AO (v1 & -> & A). tok AO i. take AO (x & r & o & -> & B & L & O). done_args AO.
  pose proof (need_lvl _ _ _ LA RED) as N. change (need 144) with 2 in N.
  answer. exists (EForC no_com (t_pos f) v1 (t_pos i) x), o. split; [reflexivity|]. split.
  - cbn [app]. apply c_for; auto. eapply level_weaken; [|exact B]. lia.
  - intros ->. destruct (O 1) as [_ ->]; [cbn [oplevel In]; tauto|reflexivity].
Qed.
Lemma rule_145 : case 145.
Proof. start RED LA LG GI GK AO. take AO (e & o & -> & A & O). done_args AO. answer. eexists _, o. split; [reflexivity|]. auto. Qed.
Lemma rule_146 : case 146.
Proof.
  start RED LA LG GI GK AO. take AO (l & o & -> & A & O). take AO s2 P2 K2 (i & -> & -> & T). rewrite K2 in T.
  assert (KO : t_kind i = KIf) by (eapply tkind_at; [exact T|vm_compute; reflexivity]).
  take AO (x & r & o' & -> & B & L & O'). done_args AO.
  pose proof (need_lvl _ _ _ LA RED) as N. change (need 146) with 2 in N. cbn [app look] in O. specialize (O T). subst o.
  answer. eexists _, o'. split; [reflexivity|]. split.
  - cbn [app]. apply c_more_if; auto. eapply level_weaken; [|exact B]. lia.
  - intros ->. destruct (O' 1) as [_ ->]; [cbn [oplevel In]; tauto|reflexivity].
Qed.
Lemma clauses_app o l t : clauses o l t -> forall o' l' t', clauses o' l' t' -> clauses o (l' ++ l) (t' ++ t).
Proof.
  induction 1; intros o1 l1 t1 C1.
  - eapply c_more_for; eauto.
  - rewrite !app_assoc. eapply c_more_for; eauto.
  - rewrite !app_assoc. eapply c_more_if; eauto.
Qed.
Lemma rule_147 : case 147.
Proof. start RED LA LG GI GK AO. take AO (l & o & -> & A & O). done_args AO. answer. eexists _, o. split; [reflexivity|]. auto. Qed.
Lemma rule_148 : case 148.
Proof.
  start RED LA LG GI GK AO. take AO (l & o & -> & A & O). take AO (l' & o' & -> & A' & O'). done_args AO. answer. eexists _, o'. split; [reflexivity|]. split; [|assumption].
  eapply clauses_app; eauto.
Qed.
(** ** Simple statements *)
Lemma rule_30 : case 30. Proof. start RED LA LG GI GK AO. take AO (e & -> & A & _). done_args AO. answer. eexists. split; [reflexivity|]. now apply s_expr. Qed.
Lemma rule_31 : case 31.
Proof. start RED LA LG GI GK AO. tok AO r. take AO (e & -> & A & _). done_args AO. answer. eexists. split; [reflexivity|]. cbn [app]. now apply s_return_value. Qed.
Lemma rule_32 : case 32. Proof. start RED LA LG GI GK AO. tok AO r. done_args AO. answer. eexists. split; [reflexivity|]. now apply s_return. Qed.
Lemma rule_33 : case 33.
Proof.
  start RED LA LG GI GK AO. take AO (x & -> & A & _). tok AO q. take AO (y & -> & B & _). done_args AO. wf LG q. answer. eexists. split; [reflexivity|].
  rewrite (text_char q "=") by assumption. cbn [app]. apply s_assign; auto; try (now apply (text_char q "=")); cbn; tauto.
Qed.
Lemma rule_34 : case 34.
Proof.
  start RED LA LG GI GK AO. take AO (x & -> & A & _). tok AO q. take AO (y & -> & B & _). done_args AO. wf LG q. answer. eexists. split; [reflexivity|].
  assert (TX : In (t_tok q) (assign_ops ++ other_augmented)).
  { pose proof (text_of q KAugm _ H ltac:(assumption) ltac:(cbn [texts In]; left; reflexivity)) as TX.
    apply in_or_app. cbn [assign_ops other_augmented In] in *. tauto. }
  apply in_app_or in TX. unfold binary. destruct TX as [TX|TX].
  - replace (mem_bytes (t_tok q) _) with true by (symmetry; now apply mem_bytes_In). cbn [app]. apply s_assign; auto.
  - assert (N : mem_bytes (t_tok q) [%"="; %"+="; %"-="; %"*="; %"/="; %"//="; %"%="; %"|="] = false).
    { cbn [other_augmented In] in TX. destruct TX as [<-|[<-|[<-|[<-|[]]]]]; reflexivity. }
    rewrite N. cbn [app]. apply s_augmented; auto.
Qed.
Lemma rule_35 : case 35. Proof. start RED LA LG GI GK AO. tok AO q. done_args AO. answer. eexists. split; [reflexivity|]. eapply s_branch; [|eassumption]. cbn; tauto. Qed.
Lemma rule_36 : case 36. Proof. start RED LA LG GI GK AO. tok AO q. done_args AO. answer. eexists. split; [reflexivity|]. eapply s_branch; [|eassumption]. cbn; tauto. Qed.
Lemma rule_37 : case 37. Proof. start RED LA LG GI GK AO. tok AO q. done_args AO. answer. eexists. split; [reflexivity|]. eapply s_branch; [|eassumption]. cbn; tauto. Qed.
Lemma rule_28 : case 28. Proof. start RED LA LG GI GK AO. done_args AO. answer. eexists. split; [reflexivity|]. intros. now rewrite !app_nil_r. Qed.
Lemma rule_29 : case 29.
Proof.
  start RED LA LG GI GK AO. take AO (l & -> & A). tok AO c. take AO (e & -> & B). done_args AO. answer. eexists. split; [reflexivity|].
  intros l0 t2 S0. cbn [app]. rewrite !app_assoc. apply sm_more; auto.
Qed.
Lemma small_code e t : one Small e t -> is_code e = true.
Proof.
  intro H. destruct e; try reflexivity. exfalso. inversion H; subst.
  repeat match goal with L : one Expr _ _ |- _ => inversion L; subst; clear L | L : one Test _ _ |- _ => inversion L; subst; clear L
                       | L : one (Level _ _) _ _ |- _ => inversion L; subst; clear L | L : one Prim _ _ |- _ => inversion L end.
Qed.
Lemma smalls_code l t : smalls l t -> code l = l /\ l <> [].
Proof.
  induction 1 as [e ts H|l tl s e ts H [IH _] C E].
  - unfold code. cbn. now rewrite (small_code _ _ H).
  - rewrite code_app, IH. unfold code. cbn. rewrite (small_code _ _ E). split; [reflexivity|now destruct l].
Qed.
Lemma rule_27 : case 27.
Proof.
  start RED LA LG GI GK AO. take AO (e & -> & A). take AO (l & -> & B). take AO (-> & C). tok AO n. done_args AO. answer.
  assert (S0 : smalls (e :: l) (t ++ t0)) by (apply (B [e]), sm_one, A).
  eexists _, _. split; [reflexivity|]. destruct (smalls_code _ _ S0) as [Q1 Q2]. split; [|auto].
  rewrite app_assoc. apply ln; auto.
Qed.
(** ** Blocks *)
Lemma rule_15 : case 15.
Proof.
  start RED LA LG GI GK AO. tok AO d. tok AO n. tok AO lp. take AO (ps & -> & A). tok AO rp. done_args AO. answer.
  repeat eexists; auto.
Qed.
Lemma rule_16 : case 16.
Proof.
  start RED LA LG GI GK AO. take AO (c & p & ps & n & col & fc & fm & d & nm & lp & tp & rp & -> & -> & A). done_args AO. answer.
  exists c, p, ps, n, col, fc, fm, None, d, nm, lp, tp, rp, []. intuition. constructor.
Qed.
Lemma rule_17 : case 17.
Proof.
  start RED LA LG GI GK AO. take AO (c & p & ps & n & col & fc & fm & d & nm & lp & tp & rp & -> & -> & A). tok AO ar. take AO (e & r & o & -> & B & _). done_args AO. answer.
  exists c, p, ps, n, col, fc, fm, (Some e), d, nm, lp, tp, rp, (ar :: t). split; [reflexivity|]. split; [now cbn [app]; rewrite <- !app_assoc|].
  apply level_test in B. intuition. now constructor.
Qed.
Lemma rule_18 : case 18.
Proof.
  start RED LA LG GI GK AO. take AO (c & p & ps & n & col & fc & fm & ty & d & nm & lp & tp & rp & ta & -> & -> & A). tok AO cl. take AO (b & f & k & -> & B & C). done_args AO. answer.
  eexists _, _, k. split; [reflexivity|]. split; [|assumption]. cbn [app]. rewrite <- !app_assoc. cbn [app]. rewrite <- ?app_assoc. cbn [app]. apply b_def; intuition.
Qed.
Lemma rule_19 : case 19.
Proof.
  start RED LA LG GI GK AO. tok AO f. take AO (v1 & -> & A). tok AO i. take AO (x & -> & B & _). tok AO cl. take AO (b & f' & k & -> & C & D). done_args AO. answer.
  eexists _, _, k. split; [reflexivity|]. split; [|assumption]. cbn [app]. apply b_for; auto.
Qed.
Lemma chain_tail k e t : chain k e t -> one (IfTail k) e t.
Proof. induction 1; [apply i_end|eapply i_elif]; eauto. Qed.
Lemma rule_20 : case 20.
Proof. start RED LA LG GI GK AO. take AO (e & f & k & -> & A & B). done_args AO. answer. eexists _, _, k. auto. Qed.
Lemma rule_21 : case 21.
Proof.
  start RED LA LG GI GK AO. tok AO i. take AO (x & -> & A & _). tok AO cl. take AO (b & f & k & -> & B & C). done_args AO. answer.
  eexists _, _, k, i, _. split; [reflexivity|]. split; [reflexivity|]. split; [assumption|]. split; [|assumption]. cbn [app]. now apply ch_one.
Qed.
Lemma chain_elif k e t : chain k e t -> forall p el x tx cl b tb k', elif_tokens el -> one Expr x tx -> ch ":" cl -> suite k' (code b) tb ->
  exists e', set_else e p [EIf no_com p x b (End no_com no_pos) []] = Some e' /\ chain k' e' (t ++ el ++ tx ++ cl :: tb).
Proof.
  induction 1; intros; cbn [set_else].
  - eexists. split; [reflexivity|]. rewrite <- app_assoc. cbn [app]. eapply ch_more; eauto. now apply ch_one.
  - edestruct IHchain as (e' & -> & C); eauto. eexists. split; [reflexivity|].
    rewrite <- app_assoc. cbn [app]. rewrite <- !app_assoc. eapply ch_more; eauto.
Qed.
Lemma chain_else k e t : chain k e t -> forall p el cl f tf k', is KElse el -> ch ":" cl -> suite k' (code f) tf ->
  exists e', set_else e p f = Some e' /\ one (IfTail k') e' (t ++ el :: cl :: tf).
Proof.
  induction 1; intros; cbn [set_else].
  - eexists. split; [reflexivity|]. rewrite <- app_assoc. cbn [app]. eapply i_else; eauto.
  - edestruct IHchain as (e' & -> & C); eauto. eexists. split; [reflexivity|].
    rewrite <- app_assoc. cbn [app]. rewrite <- !app_assoc. eapply i_elif; eauto.
Qed.
Lemma rule_22 : case 22.
Proof.
  start RED LA LG GI GK AO. take AO (e & f & k & i & t' & -> & -> & A & B & C). take AO ((p & ->) & D). take AO (x & -> & F & _). tok AO cl. take AO (b & f' & k' & -> & G & H). done_args AO.
  destruct (chain_elif _ _ _ B p _ _ _ _ _ _ _ D F ltac:(eassumption) G) as (e' & E & CH).
  eexists. cbn [option_map]. rewrite E. split; [reflexivity|]. goalp. eexists _, _, k', i, _. split; [reflexivity|]. split; [reflexivity|]. auto.
Qed.
Lemma rule_23 : case 23.
Proof. start RED LA LG GI GK AO. take AO (e & f & k & i & t' & -> & -> & A & B & C). done_args AO. answer. eexists _, _, k. split; [reflexivity|]. split; [|assumption]. apply b_if; auto. now apply chain_tail. Qed.
Lemma rule_24 : case 24.
Proof.
  start RED LA LG GI GK AO. take AO (e & f & k & i & t' & -> & -> & A & B & C). tok AO el. tok AO cl. take AO (b & f' & k' & -> & G & H). done_args AO.
  destruct (chain_else _ _ _ B (t_pos el) _ _ _ _ _ ltac:(eassumption) ltac:(eassumption) G) as (e' & E & CH).
  eexists. cbn [option_map]. rewrite E. split; [reflexivity|]. goalp. eexists _, _, k'. split; [reflexivity|]. split; [|assumption]. now apply b_if.
Qed.
Lemma rule_25 : case 25.
Proof. start RED LA LG GI GK AO. tok AO a. tok AO b. done_args AO. answer. split; [eauto|]. right. exists a, b. auto. Qed.
Lemma rule_26 : case 26.
Proof. start RED LA LG GI GK AO. tok AO a. done_args AO. answer. split; [eauto|]. left. exists a. auto. Qed.
(** ** Dedented comments *)
Definition is_cb (e : expr) : Prop := is_code e = false.
Lemma code_cb l : Forall is_cb l -> code l = [].
Proof. induction 1 as [|x l H G IH]; [reflexivity|]. unfold code. cbn. now rewrite H. Qed.
Lemma cb_code l : code l = [] -> Forall is_cb l.
Proof.
  induction l as [|x l IH]; [constructor|]. unfold code. cbn. destruct (is_code x) eqn:E; [discriminate|]. intro H. constructor; auto.
Qed.
Lemma set_after_eqc l e : eqc e (set_after l e).
Proof. eexists. reflexivity. Qed.
Lemma set_before_eqc l e : eqc e (set_before l e).
Proof. eexists. reflexivity. Qed.
Lemma extract_comments ind l : Forall is_cb l -> forall a b, extract_from ind false l = (a, b) -> Forall is_cb a /\ Forall is_cb b.
Proof.
  induction 1 as [|x l H G IH]; intros a b E; cbn [extract_from] in E; [injection E as <- <-; auto|].
  assert (D : forall a b, (let (a0, b0) := extract_from ind false l in (x :: a0, b0)) = (a, b) -> Forall is_cb a /\ Forall is_cb b).
  { intros a' b' E'. destruct (extract_from ind false l) as [a0 b0]. injection E' as <- <-. destruct (IH _ _ eq_refl). auto. }
  destruct (dedented ind (c_after (com x))) as [[stay [|c leave]]|]; auto.
  injection E as <- <-. split; [|constructor; [reflexivity|assumption]]. cbn [negb andb].
  destruct stay; constructor; auto. unfold is_cb. now rewrite (eqc_code _ _ (set_after_eqc _ _)).
Qed.
Lemma extract_first ind x l a b : Forall is_cb l -> extract_from ind true (x :: l) = (a, b) -> coded (x :: l) a /\ Forall is_cb b.
Proof.
  intros G E. cbn [extract_from] in E.
  assert (D : forall a b, (let (a0, b0) := extract_from ind false l in (x :: a0, b0)) = (a, b) -> coded (x :: l) a /\ Forall is_cb b).
  { intros a' b' E'. destruct (extract_from ind false l) as [a0 b0] eqn:Q. injection E' as <- <-. destruct (extract_comments _ _ G _ _ Q) as [Q1 Q2].
    split; [|assumption]. apply coded_cons; [apply eqc_refl|]. unfold coded. rewrite (code_cb _ G), (code_cb _ Q1). constructor. }
  destruct (dedented ind (c_after (com x))) as [[stay [|c leave]]|]; auto.
  injection E as <- <-. split; [|constructor; [reflexivity|assumption]]. cbn [negb andb].
  apply coded_cons; [apply set_after_eqc|]. unfold coded. rewrite (code_cb _ G). constructor.
Qed.
Lemma last_non_comment_spec l : forall i found, 
  match last_non_comment i l found with
  | Some n => (found = Some n /\ Forall is_cb l) \/ (i <= n /\ exists x r, skipn (n - i) l = x :: r /\ Forall is_cb r)
  | None => found = None /\ Forall is_cb l
  end.
Proof.
  induction l as [|x l IH]; intros i found; cbn [last_non_comment].
  - destruct found; auto.
  - specialize (IH (S i) (if is_comment_block x then found else Some i)).
    assert (B : is_comment_block x = negb (is_code x)) by now destruct x. rewrite B in *.
    destruct (last_non_comment (S i) l _) as [n|].
    + destruct IH as [[E F]|(L & y & r & E & F)].
      * destruct (is_code x) eqn:C; cbn in E.
        -- injection E as <-. right. split; [lia|]. exists x, l. rewrite Nat.sub_diag. auto.
        -- left. split; [assumption|]. constructor; auto.
      * right. split; [lia|]. exists y, r. replace (n - i) with (S (n - S i)) by lia. auto.
    + destruct IH as [E F]. destruct (is_code x) eqn:C; cbn in E; [discriminate|]. split; [assumption|]. constructor; auto.
Qed.
Lemma extract_body_spec body b cbs : extract_body body = (b, cbs) -> coded body b /\ Forall is_cb cbs.
Proof.
  unfold extract_body. destruct body as [|y body]; [intro E; injection E as <- <-; split; [apply coded_refl|constructor]|].
  pose proof (last_non_comment_spec (y :: body) 0 None) as L. destruct (last_non_comment 0 (y :: body) None) as [n|].
  - destruct L as [[L _]|(_ & x & r & E & F)]; [discriminate|]. rewrite Nat.sub_0_r in E.
    destruct (extract_from _ true (skipn n (y :: body))) as [a0 b0] eqn:Q. rewrite E in Q. destruct (extract_first _ _ _ _ _ F Q) as [Q1 Q2].
    intro H. injection H as <- <-. split; [|assumption]. rewrite <- (firstn_skipn n (y :: body)) at 1. apply coded_app; [apply coded_refl|]. now rewrite E.
  - intro E. injection E as <- <-. split; [apply coded_refl|constructor].
Qed.
Definition extracted (e : expr) : expr := fst (extractTrailingComments e).
Lemma suite_extract k b t b' cbs : extract_body b = (b', cbs) -> suite k (code b) t -> suite k (code b') t.
Proof. intros E H. eapply suite_like; eauto. now apply (extract_body_spec b b' cbs). Qed.
Lemma iftail_shape k e t : one (IfTail k) e t -> exists c p x b ep f, e = EIf c p x b ep f.
Proof. intro H. inversion H; subst; eauto 10. Qed.
Lemma small_no_if c p x b ep f t : ~ one Small (EIf c p x b ep f) t.
Proof.
  intro H. inversion H; subst.
  repeat match goal with L : one Expr _ _ |- _ => inversion L; subst; clear L | L : one Test _ _ |- _ => inversion L; subst; clear L
                       | L : one (Level _ _) _ _ |- _ => inversion L; subst; clear L | L : one Prim _ _ |- _ => inversion L end.
Qed.
Lemma suite_nonempty k l t : suite k l t -> l <> [].
Proof.
  intros H E. inversion H as [? ? ? ? ? ? ? ? ? ? ? ? N|l' tl nls H0 N]; subst; [now apply N|].
  inversion H0 as [? ? ? ? Q]; subst. now apply smalls_code in Q.
Qed.
Lemma not_small_if e : (exists c p x b ep f, e = EIf c p x b ep f) -> forall t, ~ one Small e t.
Proof. intros (c & p & x & b & ep & f & ->) t. apply small_no_if. Qed.
(** How the extraction goes through an if statement. *)
Lemma extract_if c p x t ep f :
  (f = [] /\ exists t' cbs, extract_body t = (t', cbs) /\ extractTrailingComments (EIf c p x t ep f) = (EIf c p x t' ep [], cbs)) \/
  (exists n, f = [n] /\ (exists c p x b ep f, n = EIf c p x b ep f) /\
     extractTrailingComments (EIf c p x t ep f) = (EIf c p x t ep [extracted n], snd (extractTrailingComments n))) \/
  (exists f' cbs, extract_body f = (f', cbs) /\ extractTrailingComments (EIf c p x t ep f) = (EIf c p x t ep f', cbs) /\
     forall n, f = [n] -> ~ exists c p x b ep f, n = EIf c p x b ep f).
Proof.
  cbn [extractTrailingComments]. destruct f as [|n [|n' f]].
  - left. destruct (extract_body t) as [t' cbs]. split; [reflexivity|]. exists t', cbs. auto.
  - assert (D : (exists c p x b ep f, n = EIf c p x b ep f) \/ ~ exists c p x b ep f, n = EIf c p x b ep f).
    { destruct n; try (right; intros (? & ? & ? & ? & ? & ? & ?); discriminate). left. repeat eexists. }
    destruct D as [D|D].
    + right. left. exists n. split; [reflexivity|]. split; [assumption|].
      destruct D as (c1 & p1 & x1 & b1 & ep1 & f1 & ->). unfold extracted.
      destruct (extractTrailingComments (EIf c1 p1 x1 b1 ep1 f1)) as [n' cbs]. reflexivity.
    + right. right. exists (fst (extract_body [n])), (snd (extract_body [n])). split; [now destruct (extract_body [n])|]. split.
      * destruct (extract_body [n]) as [f' cbs] eqn:E. cbn [fst snd]. destruct n; try reflexivity. exfalso. apply D. repeat eexists.
      * intros n1 E. injection E as <-. exact D.
  - right. right. exists (fst (extract_body (n :: n' :: f))), (snd (extract_body (n :: n' :: f))). split; [now destruct (extract_body (n :: n' :: f))|]. split.
    + destruct (extract_body (n :: n' :: f)) as [f' cbs] eqn:E. cbn [fst snd]. now destruct n.
    + intros n1 E. discriminate.
Qed.
Definition ext_ok (e : expr) : Prop :=
  Forall is_cb (snd (extractTrailingComments e)) /\ is_code (extracted e) = is_code e /\
  (forall k t, one (IfTail k) e t -> one (IfTail k) (extracted e) t) /\ (forall k t, one (Block k) e t -> one (Block k) (extracted e) t).
Lemma if_ext_ok c p x t ep f : (forall n, f = [n] -> ext_ok n) -> ext_ok (EIf c p x t ep f).
Proof.
  intro IH. unfold ext_ok.
  assert (T : Forall is_cb (snd (extractTrailingComments (EIf c p x t ep f))) /\ is_code (extracted (EIf c p x t ep f)) = true /\
     (forall k ts, one (IfTail k) (EIf c p x t ep f) ts -> one (IfTail k) (extracted (EIf c p x t ep f)) ts)).
  { unfold extracted. destruct (extract_if c p x t ep f) as [(-> & t' & cbs & E1 & ->)|[(n & -> & N & ->)|(f' & cbs & E1 & -> & NI)]]; cbn [fst snd].
    - destruct (extract_body_spec _ _ _ E1) as [_ C]. split; [assumption|]. split; [reflexivity|]. intros k ts H. inversion H; subst.
      + apply i_end; auto. eapply suite_extract; eauto.
      + exfalso. match goal with Q : suite _ (code []) _ |- _ => apply suite_nonempty in Q; now apply Q end.
    - destruct (IH n eq_refl) as (C & D & F & G). split; [assumption|]. split; [reflexivity|]. intros k ts H. inversion H; subst.
      + eapply i_elif; eauto.
      + eapply i_else; eauto. eapply suite_like; eauto.
        destruct N as (c1 & p1 & x1 & b1 & ep1 & f1 & ->). unfold code. cbn [filter]. rewrite D. cbn [is_code filter]. constructor; [|constructor].
        split; [assumption|]. intros t0 S0. now apply small_no_if in S0.
    - destruct (extract_body_spec _ _ _ E1) as [K C]. split; [assumption|]. split; [reflexivity|]. intros k ts H. inversion H; subst.
      + injection E1 as <- <-. assumption.
      + exfalso. eapply NI; eauto. eapply iftail_shape; eauto.
      + eapply i_else; eauto. eapply suite_like; eauto. }
  destruct T as (A & B & C). split; [assumption|]. split; [now rewrite B|]. split; [assumption|].
  intros k ts H. inversion H; subst. apply b_if; auto.
Qed.
Fixpoint extract_ok (e : expr) : ext_ok e.
Proof.
  destruct e; try (split; [constructor|]; split; [reflexivity|]; split; auto; fail).
  - unfold ext_ok, extracted. cbn [extractTrailingComments]. destruct (extract_body body) as [b' cbs] eqn:E. destruct (extract_body_spec _ _ _ E) as [K C].
    cbn [fst snd is_code]. split; [assumption|]. split; [reflexivity|]. split; [intros k t H; inversion H|]. intros k t H. inversion H; subst; [|match goal with Q : one (IfTail _) _ _ |- _ => inversion Q end].
    apply b_def; auto. eapply suite_like; eauto.
  - unfold ext_ok, extracted. cbn [extractTrailingComments]. destruct (extract_body body) as [b' cbs] eqn:E. destruct (extract_body_spec _ _ _ E) as [K C].
    cbn [fst snd is_code]. split; [assumption|]. split; [reflexivity|]. split; [intros k t H; inversion H|]. intros k t H. inversion H; subst; [|match goal with Q : one (IfTail _) _ _ |- _ => inversion Q end].
    apply b_for; auto. eapply suite_like; eauto.
  - apply if_ext_ok. destruct fls as [|n fls]; [discriminate|]. pose proof (extract_ok n) as IH. intros n' E. injection E as <- _. exact IH.
Qed.
(** ** Statements *)
Lemma set_last_spec f l : l <> [] -> exists l0 x, l = l0 ++ [x] /\ set_last f l = l0 ++ [f x].
Proof.
  intro N. destruct (exists_last N) as (l0 & x & ->). exists l0, x. split; [reflexivity|]. unfold set_last. rewrite rev_unit. cbn. now rewrite rev_involutive.
Qed.
Lemma last_stmt_spec l f : match last_stmt l f with Some x => exists l0, l = l0 ++ [x] | None => True end.
Proof.
  unfold last_stmt. destruct f; [|exact Logic.I]. destruct (rev l) as [|x r] eqn:E; [exact Logic.I|]. exists (rev r). rewrite <- (rev_involutive l), E. reflexivity.
Qed.
Lemma set_last_coded f l : (forall x, eqc x (f x)) -> coded l (set_last f l).
Proof.
  intro H. destruct l as [|y l]; [apply coded_refl|]. destruct (set_last_spec f (y :: l)) as (l0 & x & E & ->); [discriminate|].
  rewrite E. apply coded_app; [apply coded_refl|]. now apply coded_one.
Qed.
Lemma add_comment_coded l f t : coded l (add_comment l f t).
Proof.
  unfold add_comment. destruct (last_stmt l f).
  - apply set_last_coded. intro x. apply set_after_eqc.
  - rewrite <- (app_nil_r l) at 1. apply coded_app; [apply coded_refl|]. constructor.
Qed.
Lemma coded_nonempty l l' : coded l l' -> code l <> [] -> code l' <> [].
Proof. intros H N E. unfold coded in H. rewrite E in H. inversion H. congruence. Qed.
Lemma rule_6 : case 6. Proof. start RED LA LG GI GK AO. done_args AO. answer. eexists _, _. split; [reflexivity|]. split; constructor. Qed.
Lemma rule_7 : case 7.
Proof.
  start RED LA LG GI GK AO. take AO (l & f & -> & A & B). tok AO c. tok AO n. done_args AO. answer. eexists _, _. split; [reflexivity|].
  split; [cbn [app]; eapply st_comment; eauto|]. unfold add_comment. pose proof (last_stmt_spec l f) as L. destruct (last_stmt l f) as [x|].
  - destruct L as [l0 ->]. destruct (set_last_spec (fun s => set_after (c_after (com s) ++ [Comment (t_pos c) (t_tok c)]) s) (l0 ++ [x])) as (l1 & x1 & E1 & ->); [now destruct l0|].
    rewrite E1 in B. apply Forall_app in B. destruct B as [B1 B2]. apply Forall_app. split; [assumption|]. constructor; [|constructor].
    inversion B2 as [|? ? (c0 & p & -> & N) _]; subst. cbn. repeat eexists. cbn. now destruct (c_after c0).
  - apply Forall_app. split; [assumption|]. constructor; [|constructor]. repeat eexists. discriminate.
Qed.
Lemma rule_8 : case 8.
Proof. start RED LA LG GI GK AO. take AO (l & f & -> & A & B). tok AO n. done_args AO. answer. eexists _, _. split; [reflexivity|]. split; [|assumption]. cbn [app]. now apply st_blank. Qed.
Lemma rule_9 : case 9.
Proof. start RED LA LG GI GK AO. done_args AO. answer. eexists _, _, false. split; [reflexivity|]. split; [constructor|]. split; [discriminate|]. now left. Qed.
Lemma started (x : token) t (l : list expr) : In (t_kind x) [KChar c_nl; KComment] -> t = [] \/ code l <> [] \/ (exists y t', t = y :: t' /\ In (t_kind y) [KChar c_nl; KComment]) ->
  forall r l', (code l <> [] -> code l' <> []) ->
  t ++ x :: r = [] \/ code l' <> [] \/ (exists y t', t ++ x :: r = y :: t' /\ In (t_kind y) [KChar c_nl; KComment]).
Proof.
  intros H [-> | [N | (y & t' & -> & Y)]] r l' D; right.
  - right. exists x, r. auto.
  - left. auto.
  - right. exists y, (t' ++ x :: r). auto.
Qed.
Lemma rule_11 : case 11.
Proof.
  start RED LA LG GI GK AO. take AO (l & f & k & -> & A & B & C). take AO s2 P2 K2 (n & -> & -> & T). rewrite K2 in T.
  assert (KN : t_kind n = KChar c_nl) by (eapply tkind_at; [exact T|vm_compute; reflexivity]). done_args AO.
  assert (k = false) as -> by (destruct k; [|reflexivity]; exfalso; now apply B). answer.
  eexists _, _, false. split; [reflexivity|]. split; [now apply st_blank|]. split; [discriminate|].
  apply (started n t l); auto. rewrite KN. cbn; tauto.
Qed.
Lemma rule_12 : case 12.
Proof.
  start RED LA LG GI GK AO. take AO (l & f & k & -> & A & B & C). tok AO c. tok AO n. done_args AO. answer.
  pose proof (add_comment_coded l f c) as D.
  eexists _, _, false. split; [reflexivity|]. split; [cbn [app]; eapply st_comment; eauto; eapply stmts_like; eauto|]. split; [discriminate|].
  cbn [app]. apply (started c t l); auto; [match goal with Q : t_kind c = _ |- _ => rewrite Q end; cbn; tauto|]. now apply coded_nonempty.
Qed.
Lemma code_length l : List.length (code l) <= List.length l.
Proof. induction l as [|x l IH]; [reflexivity|]. unfold code in *. cbn. destruct (is_code x); cbn; lia. Qed.
Lemma rule_13 : case 13.
Proof.
  start RED LA LG GI GK AO. take AO (l & f & -> & A & B & C). done_args AO. destruct l as [|x l]; [congruence|]. answer. exists x, l, true, false. split; [reflexivity|].
  split; [|split; [discriminate|]].
  - unfold code in C. cbn in C. destruct (is_code x) eqn:E; [reflexivity|]. exfalso. pose proof (code_length l) as L. unfold code in L. rewrite C in L. cbn in L. lia.
  - left. split; [reflexivity|]. now rewrite C.
Qed.
Lemma block_code k e t : one (Block k) e t -> is_code e = true.
Proof. intro H. destruct e; try reflexivity. inversion H; subst. match goal with Q : one (IfTail _) _ _ |- _ => inversion Q end. Qed.
Lemma rule_14 : case 14.
Proof.
  start RED LA LG GI GK AO. take AO (e & f & k & -> & A & B). done_args AO. destruct (extract_ok e) as (C & D & _ & E). unfold extracted in *.
  destruct (extractTrailingComments e) as [e' cbs] eqn:EX. cbn [fst snd] in *. eexists. split; [reflexivity|]. goalp.
  eexists e', cbs, _, k. split; [reflexivity|]. split; [now rewrite D, (block_code _ _ _ A)|]. split; [assumption|]. right. split; [now apply code_cb|]. auto.
Qed.
(** [x'] is [x] with other comments. *)
Lemma stmt_set k x x' l t : is_code x = true -> eqc x x' -> (k = false /\ line (code (x :: l)) t \/ code l = [] /\ one (Block k) x t) ->
  is_code x' = true /\ (k = false /\ line (code (x' :: l)) t \/ code l = [] /\ one (Block k) x' t).
Proof.
  intros N Q H. split; [now rewrite (eqc_code _ _ Q)|]. destruct H as [[-> H]|[-> H]]; [left|right]; (split; [reflexivity|]).
  - eapply line_like; [exact H|]. apply coded_cons; [assumption|apply coded_refl].
  - now apply (eqc_like x x' Q).
Qed.
Lemma stmts_add k l t k' x l' t' : stmts k l t -> is_code x = true -> (k' = false /\ line (code (x :: l')) t' \/ code l' = [] /\ one (Block k') x t') ->
  stmts k' (l ++ code (x :: l')) (t ++ t').
Proof.
  intros A N [[-> H]|[E H]].
  - eapply st_line; eauto.
  - unfold code. cbn [filter]. rewrite N. fold (code l'). rewrite E. eapply st_block; eauto.
Qed.
Lemma rule_10 : case 10.
Proof.
  start RED LA LG GI GK AO. take AO (l & f & k & -> & A & B & C). take AO (y & l2 & f2 & k' & -> & N & D & E). done_args AO.
  unfold add_stmt. pose proof (last_stmt_spec l f) as L.
  assert (R : exists l1 y', coded l l1 /\ eqc y y' /\ add_stmt l f (y :: l2) f2 = Some (VStmts (l1 ++ y' :: l2) f2)).
  { unfold add_stmt. destruct (last_stmt l f) as [x|].
    - destruct L as [l0 ->]. destruct (is_comment_block x) eqn:Q.
      + exists l0, (set_before (c_after (com x)) y). split; [|split; [apply set_before_eqc|now rewrite removelast_last]].
        rewrite <- (app_nil_r l0) at 2. apply coded_app; [apply coded_refl|]. unfold coded, code. cbn. assert (is_code x = false) as -> by now destruct x. constructor.
      + eexists _, _. split; [|split; [apply set_before_eqc|reflexivity]]. apply set_last_coded. intro z. apply set_after_eqc.
    - exists l, y. split; [apply coded_refl|]. split; [apply eqc_refl|reflexivity]. }
  destruct R as (l1 & y' & R1 & R2 & R3). eexists. split; [exact R3|]. goalp. destruct (stmt_set _ _ _ _ _ N R2 E) as [N' E'].
  eexists _, _, k'. split; [reflexivity|]. split; [|split; [assumption|]].
  - rewrite code_app. eapply stmts_add; eauto. eapply stmts_like; eauto.
  - right. left. rewrite code_app. unfold code at 2. cbn [filter]. rewrite N'. now destruct (code l1).
Qed.
Lemma rule_3 : case 3.
Proof.
  start RED LA LG GI GK AO. take AO (l & f & -> & A & B & C). take AO s2 P2 K2 (-> & N). done_args AO. answer.
  eexists _, _, true. split; [reflexivity|]. split; [rewrite C; now apply su_line|]. intros _ ->. destruct (edge_live _ _ P2) as [L R]. destruct (precedence s2 L R) as (_ & _ & _ & Q & _). apply Q. exact RED.
Qed.
Lemma rule_2 : case 2.
Proof.
  start RED LA LG GI GK AO. tok AO n. take AO (cs & f0 & -> & A & B). tok AO ind. take AO (ss & f & k & -> & C & D & E). tok AO un. done_args AO.
  assert (SC : starts_code (t_kind (hd un t0))).
  { destruct LG as [_ LG]. destruct t0 as [|y t0]; cbn [hd app] in *; eapply (LG (n :: t) ind); try (rewrite <- app_assoc); try reflexivity; assumption. }
  assert (NE : code ss <> []).
  { destruct E as [-> |[E|(x & t' & -> & E)]]; [|assumption|]; exfalso; apply SC; cbn [hd]; cbn [In] in *; try (match goal with Q : t_kind un = _ |- _ => rewrite Q end); tauto. }
  assert (CB : Forall is_cb cs) by (eapply Forall_impl; [|exact B]; intros e (c & p & -> & _); reflexivity).
  assert (R : exists l, add_suite cs ss f = Some (VStmts l f) /\ coded ss l).
  { unfold add_suite. destruct (rev cs) as [|cb r] eqn:EC; [exists ss; split; [reflexivity|apply coded_refl]|].
    assert (cs = rev r ++ [cb]) as -> by (rewrite <- (rev_involutive cs), EC; reflexivity). apply Forall_app in B. destruct B as [_ B].
    assert (CS : coded ss ((rev r ++ [cb]) ++ ss)) by (unfold coded; rewrite code_app, (code_cb _ CB); apply like_list_refl).
    inversion B as [|? ? (c & p & -> & NA) _]; subst. destruct ss as [|st1 ss]; [now destruct NE|]. cbn [com].
    destruct (rev (c_after c)) as [|c1 r1] eqn:ER; [apply (f_equal (@rev _)) in ER; rewrite rev_involutive in ER; cbn in ER; now destruct NA|].
    destruct (_ =? 1)%Z; [|eexists; split; [reflexivity|exact CS]]. eexists. split; [reflexivity|]. rewrite removelast_last.
    apply Forall_app in CB. destruct CB as [CB _]. unfold coded. rewrite code_app, (code_cb _ CB). cbn [app]. apply coded_cons; [apply set_before_eqc|apply coded_refl]. }
  destruct R as (l & R1 & R2). eexists. split; [exact R1|]. goalp. eexists _, _, false. split; [reflexivity|]. split; [|discriminate].
  eapply suite_like; [|exact R2]. cbn [app]. eapply su_block; eauto.
Qed.
