(** Arguments, parameters, simple statements; every expression. *)
From Verif Require Import Base BaseProofs Ast Utf8 Quote Lex LexSpec LexProofs ParseSpec ShapeSpec ParseLex ParseProofs ParseComplete Print PrintSpec PrintLex PrintTok PrintState PrintSeq PrintExpr PrintPrim PrintTest.
Local Open Scope list_scope.

Lemma ident_node P i t ft outer w : spelled t -> spelled_ident i t -> within starter P -> within P solid -> sub w (EIdent i) ->
  iprints P (fun ts1 => ts1 = [tok0 KIdent (i_name i)]) (print_expr ft None (EIdent i) outer) w.
Proof.
  intros S0 I0 W1 W2 [B [T _]]. eapply iprints_ext; [intro st; cbn [print_expr print_body com]; reflexivity|]. apply node_prints; auto. eapply ident_prints; eauto.
Qed.
Definition bare (i : ident) : ident := Ident no_com no_pos (i_name i).
Lemma bare_spelled i : spelled_ident (bare i) (tok0 KIdent (i_name i)). Proof. split; reflexivity. Qed.
Ltac mean ::= unfold meaning in *; cbn [shape plain option_map] in *; unfold bare_id, bare in *; cbn [i_name] in *; congruence.
#[local] Hint Resolve bare_spelled : core.
Definition typed_toks (i : ident) (ty : expr) (ts1 : list token) : Prop := exists ty1 t1, one Test ty1 t1 /\ meaning ty1 = meaning ty /\ ts1 = tok0 KIdent (i_name i) :: COLON :: t1.
Lemma typed_prints P c i ty t tt ft outer w : spelled t -> spelled_ident i t -> goodb Test ty tt -> within starter P -> within P solid -> sub w (ETyped c i ty) ->
  iprints P (typed_toks i ty) (print_expr ft None (ETyped c i ty) outer) w.
Proof.
  intros S0 I0 G W1 W2 [B [T (T1 & T2 & T3)]]. eapply iprints_ext; [intro st; cbn [print_expr print_body com]; reflexivity|]. apply node_prints; auto.
  intros st ts d stk C E.
  destruct (node_prints P _ (i_com i) _ w (ident_prints P i t w S0 I0 W1) T1 W2 T2 st ts d stk C E) as (ts1 & -> & S1 & P1). fold (print_ident i) in *.
  apply colon_sp in P1. destruct (good_prints Test ty tt ft w precLow G T3 Logic.I (printf %": " (print_ident i st)) ((ts ++ [tok0 KIdent (i_name i)]) ++ [COLON]) d stk) as (t2 & (b1 & c2 & -> & O2 & M2 & _) & S2 & P3); [eapply ctx_same; [|exact C]; exact S1|eapply entry_mid; [exact P1|left; lia]|].
  eexists. split; [exists b1, t2; eauto|]. flat. split; [eapply same_trans; [exact S1|exact S2]|exact P3].
Qed.
(** Arguments and parameters with a value. *)
Lemma gb_assign cc c x p lb y ty X ts0 : flex cc 0 = (0 = 0) -> pcat cc = solid -> goodb Test y ty -> (forall ft w, sub w x -> iprints solid X (print_expr ft None x precAssign) w) ->
  (forall t1 e2 t2, X t1 -> one Test e2 t2 -> meaning e2 = meaning y -> exists x1, one cc (EAssign no_com x1 no_pos %"=" false e2) (t1 ++ EQ :: t2) /\ meaning x1 = meaning x) -> simple cc ->
  extra cc = (fun _ _ _ _ => True) -> (forall outer, flex cc outer -> outer = 0) -> goodb cc (EAssign c x p %"=" lb y) ts0.
Proof.
  intros _ PC G HX HZ SC EX FL ft w outer T F. rewrite (FL _ F). open_body. destruct T as [_ (T1 & T2 & T3)].
  eapply iprints_ext; [intro st; unfold addParen; cbn [Nat.ltb Nat.leb precAssign]; reflexivity|]. rewrite PC.
  eapply (infix_prints solid X (Xof Test y ty) _ lb (fun st => indent st + listIndentation) %"=" [EQ]).
  - now apply HX.
  - apply (good_prints Test); [exact G|exact T2|exact Logic.I].
  - apply scan_eq.
  - eexists _, _; reflexivity.
  - cbn. discriminate.
  - exact T3.
  - intros t1 t2 X1 (e2 & c2 & -> & O2 & M2 & _). destruct (HZ t1 e2 t2 X1 O2 M2) as (x1 & O1 & M1).
    exists (EAssign no_com x1 no_pos %"=" false e2), cc. split; [destruct cc; try exact eq_refl; contradiction|]. split; [exact O1|]. split; [mean|]. rewrite EX. exact Logic.I.
Qed.
Lemma gb_named cc c i p lb y t ty ts0 : cc = Arg \/ cc = Param -> spelled t -> spelled_ident i t -> goodb Test y ty -> goodb cc (EAssign c (EIdent i) p %"=" lb y) ts0.
Proof.
  intros HC S0 I0 G. eapply (gb_assign cc) with (X := fun ts1 => ts1 = [tok0 KIdent (i_name i)]).
  - destruct HC as [-> | ->]; reflexivity.
  - destruct HC as [-> | ->]; reflexivity.
  - exact G.
  - intros ft w T. eapply ident_node; eauto.
  - intros t1 e2 t2 -> O M. exists (EIdent (bare i)). split; [|reflexivity]. destruct HC as [-> | ->]; [apply a_named|apply f_default]; auto; reflexivity.
  - destruct HC as [-> | ->]; exact Logic.I.
  - destruct HC as [-> | ->]; reflexivity.
  - destruct HC as [-> | ->]; auto.
Qed.
Lemma gb_typed_default c c' i ty p lb y t tt ty' ts0 : spelled t -> spelled_ident i t -> goodb Test ty tt -> goodb Test y ty' -> goodb TParam (EAssign c (ETyped c' i ty) p %"=" lb y) ts0.
Proof.
  intros S0 I0 G1 G. eapply (gb_assign TParam) with (X := typed_toks i ty); eauto; try exact Logic.I; try reflexivity.
  - intros ft w T. eapply typed_prints; eauto.
  - intros t1 e2 t2 (ty1 & t3 & O1 & M1 & ->) O M. exists (ETyped no_com (bare i) ty1). split; [|mean]. cbn [app]. apply g_default; auto; reflexivity.
Qed.
Lemma gb_typed c i ty t tt ts0 : spelled t -> spelled_ident i t -> goodb Test ty tt -> goodb TParam (ETyped c i ty) ts0.
Proof.
  intros S0 I0 G ft w outer T F. eexists. split; [intro st; cbn [print_expr print_body com]; reflexivity|]. destruct T as [_ (T1 & T2 & T3)].
  intros st ts d stk C E.
  destruct (node_prints solid _ (i_com i) _ w (ident_prints solid i t w S0 I0 within_starter) T1 (within_refl _) T2 st ts d stk C E) as (ts1 & -> & S1 & P1). fold (print_ident i) in *.
  apply colon_sp in P1. destruct (good_prints Test ty tt ft w precLow G T3 Logic.I (printf %": " (print_ident i st)) ((ts ++ [tok0 KIdent (i_name i)]) ++ [COLON]) d stk) as (t2 & (b1 & c2 & -> & O2 & M2 & _) & S2 & P3); [eapply ctx_same; [|exact C]; exact S1|eapply entry_mid; [exact P1|left; lia]|].
  exists (tok0 KIdent (i_name i) :: COLON :: t2). split.
  - exists (ETyped no_com (bare i) b1). apply stands_same; [left; exact Logic.I| |mean|exact Logic.I]. apply g_typed; auto; reflexivity.
  - flat. split; [eapply same_trans; [exact S1|exact S2]|exact P3].
Qed.
(** Stars. *)
Definition stars : list (bytes * kind) := [(%"*", KChar "*"); (%"**", KStarStar)]%char.
Lemma put_star op k st ts d stk : In (op, k) stars -> entry solid st ts d stk -> sits (Mid loose 0) (printf op st) (ts ++ [tok0 k op]) d stk.
Proof.
  intros H E. cbn in H. destruct H as [H|[H|[]]]; injection H as <- <-; (eapply (word solid "*"%char); [exact E|reflexivity|apply scan_symbol; cbn; tauto|auto|cbn; discriminate]).
Qed.
Lemma gb_star cc c p op k x X ts0 : In (op, k) stars -> pcat cc = solid -> simple cc -> extra cc = (fun _ _ _ _ => True) -> (forall outer, flex cc outer -> outer = 0) ->
  (forall ft w, sub w x -> iprints starter X (print_expr ft None x precSuffix) w) ->
  (forall t1, X t1 -> exists x1, one cc (EUnary no_com no_pos op (Some x1)) (tok0 k op :: t1) /\ meaning x1 = meaning x) -> goodb cc (EUnary c p op (Some x)) ts0.
Proof.
  intros I0 PC SC EX FL HX HZ ft w outer T F. rewrite (FL _ F). open_body. destruct T as [_ T1].
  assert (NN : beq op %"not" = false) by (cbn in I0; destruct I0 as [H|[H|[]]]; injection H as <- <-; reflexivity).
  eapply iprints_ext; [intro st; unfold addParen; cbn [Nat.ltb Nat.leb precUnary]; rewrite NN; reflexivity|]. rewrite PC.
  intros st ts d stk C E. pose proof (put_star op k st ts d stk I0 E) as P1.
  destruct (HX ft w T1 (printf op st) (ts ++ [tok0 k op]) d stk C) as (t1 & X1 & S1 & P2); [eapply entry_mid; [exact P1|auto]|].
  destruct (HZ _ X1) as (x1 & O & M). exists (tok0 k op :: t1). split.
  - exists (EUnary no_com no_pos op (Some x1)), cc. split; [destruct cc; try exact eq_refl; contradiction|]. split; [exact O|]. split; [mean|]. rewrite EX. exact Logic.I.
  - flat. split; [exact S1|exact P2].
Qed.
Lemma gb_star_arg c p op k x tx ts0 : In (op, k) stars -> goodb Test x tx -> goodb Arg (EUnary c p op (Some x)) ts0.
Proof.
  intros I0 G. eapply (gb_star Arg) with (X := Xof Test x tx) (k := k); auto; try exact Logic.I; try reflexivity.
  - intros ft w T. apply (good_prints Test); auto. exact Logic.I.
  - intros t1 (x1 & c1 & -> & O & M & _). exists x1. split; [|exact M]. cbn in I0. destruct I0 as [H|[H|[]]]; injection H as <- <-; [apply a_star|apply a_star2]; auto; reflexivity.
Qed.
Lemma gb_star_param c p op k i t ts0 : In (op, k) stars -> spelled t -> spelled_ident i t -> goodb Param (EUnary c p op (Some (EIdent i))) ts0.
Proof.
  intros I0 S0 SI. eapply (gb_star Param) with (X := fun ts1 => ts1 = [tok0 KIdent (i_name i)]) (k := k); auto; try exact Logic.I; try reflexivity.
  - intros ft w T. eapply ident_node; eauto.
  - intros t1 ->. exists (EIdent (bare i)). split; [|reflexivity]. cbn in I0. destruct I0 as [H|[H|[]]]; injection H as <- <-; [apply f_star|apply f_star2]; auto; reflexivity.
Qed.
Lemma gb_star_typed c p c' op k i ty t tt ts0 : In (op, k) stars -> spelled t -> spelled_ident i t -> goodb Test ty tt -> goodb TParam (EUnary c p op (Some (ETyped c' i ty))) ts0.
Proof.
  intros I0 S0 SI G. eapply (gb_star TParam) with (X := typed_toks i ty) (k := k); auto; try exact Logic.I; try reflexivity.
  - intros ft w T. eapply typed_prints; eauto.
  - intros t1 (ty1 & t3 & O1 & M1 & ->). exists (ETyped no_com (bare i) ty1). split; [|mean]. cbn in I0. destruct I0 as [H|[H|[]]]; injection H as <- <-; [apply g_star|apply g_star2]; auto; reflexivity.
Qed.
Lemma gb_bare_star c p s ts0 : s = tt -> goodb Param (EUnary c p %"*" None) ts0.
Proof.
  intros _ ft w outer T F. assert (outer = 0) as -> by exact F. open_body. eapply iprints_ext; [intro st; unfold addParen; cbn [Nat.ltb Nat.leb precUnary beq]; reflexivity|].
  intros st ts d stk C E. pose proof (put_star %"*" _ st ts d stk (or_introl eq_refl) E) as P1. exists [tok0 (KChar "*") %"*"]. split.
  - exists (EUnary no_com no_pos %"*" None). apply stands_same; [left; exact Logic.I| |reflexivity|exact Logic.I]. now apply f_bare.
  - split; [apply printf_same|]. eapply sits_weaken; [exact P1|auto|auto].
Qed.
Lemma gb_pair c x p y tx ty ts0 : goodb Test x tx -> goodb Test y ty -> goodb Pair (EKV c x p y) ts0.
Proof.
  intros GX GY ft w outer T F. open_body. destruct T as [_ (T1 & T2)]. intros st ts d stk C E.
  destruct (good_prints Test x tx ft w precLow GX T1 Logic.I st ts d stk C E) as (t1 & (e1 & c1 & -> & O & M & X) & S1 & P1). apply colon_sp in P1.
  destruct (good_prints Test y ty ft w precLow GY T2 Logic.I (printf %": " (print_expr ft None x precLow st)) ((ts ++ t1) ++ [COLON]) d stk) as (t2 & (b1 & c2 & -> & O2 & M2 & _) & S2 & P3); [eapply ctx_same; [|exact C]; exact S1|eapply entry_mid; [exact P1|left; lia]|].
  exists (t1 ++ COLON :: t2). split.
  - exists (EKV no_com e1 no_pos b1). apply stands_same; [left; exact Logic.I| |mean|exact Logic.I]. now apply k_pair.
  - flat. split; [eapply same_trans; [exact S1|exact S2]|exact P3].
Qed.
(** Simple statements. *)
Lemma gb_return c p ts0 : goodb Small (EReturn c p None) ts0.
Proof.
  intros ft w outer T F. open_body. intros st ts d stk C E. exists [tok0 KReturn %"return"]. split.
  - exists (EReturn no_com no_pos None). apply stands_same; [left; exact Logic.I| |reflexivity|exact Logic.I]. now apply s_return.
  - split; [apply printf_same|]. eapply put_kw; eauto. kw.
Qed.
Lemma gb_return_value c p x tx ts0 : goodb Expr x tx -> goodb Small (EReturn c p (Some x)) ts0.
Proof.
  intros G ft w outer T F. open_body. destruct T as [_ T1]. intros st ts d stk C E. cbv zeta.
  pose proof (kw_sp starter %"return" KReturn st ts d stk ltac:(kw) E (within_refl _)) as P1.
  destruct (good_prints Expr x tx ft w precLow G T1 Logic.I (printf %" " (printf %"return" st)) (ts ++ [tok0 KReturn %"return"]) d stk C) as (t1 & (x1 & c1 & -> & O & M & _) & S1 & P2); [eapply entry_mid; [exact P1|left; lia]|].
  exists (tok0 KReturn %"return" :: t1). split.
  - exists (EReturn no_com no_pos (Some x1)). apply stands_same; [left; exact Logic.I| |mean|exact Logic.I]. now apply s_return_value.
  - flat. split; [exact S1|exact P2].
Qed.
Lemma gb_branch c p t k ts0 : In k [KPass; KBreak; KContinue] -> is k t -> spelled t -> goodb Small (EBranch c (t_tok t) p) ts0.
Proof.
  intros K IK SP ft w outer T F. open_body. intros st ts d stk C E. exists [tok0 k (t_tok t)]. split.
  - exists (EBranch no_com (t_tok t) no_pos). apply stands_same; [left; exact Logic.I| |reflexivity|exact Logic.I]. apply (s_branch no_com no_pos (tok0 k (t_tok t)) k); auto. reflexivity.
  - split; [apply printf_same|]. eapply put_kw; eauto. unfold spelled in SP. rewrite IK in SP. cbn in K. destruct K as [<-|[<-|[<-|[]]]]; (destruct SP as [SP|SP]; [|exact SP]); cbn in SP; repeat (destruct SP as [SP|SP]; [discriminate SP|]); contradiction.
Qed.
Definition op_kind (op : bytes) : kind := if beq op %"=" then KChar "=" else KAugm.
Lemma augm_scans op : In op (assign_ops ++ other_augmented) -> (forall d, scans op closer d [tok0 (op_kind op) op] d) /\ (exists c w, op = c :: w) /\ nosp (rev op).
Proof.
  intro H. cbn in H. repeat (destruct H as [H|H]; [subst op; split; [intro d; apply scan_sym_closer; cbn; tauto|split; [eexists _, _; reflexivity|cbn; discriminate]]|]). contradiction.
Qed.
Lemma gb_assign_stmt c x p op lb y tx ty ts0 : In op assign_ops -> goodb Expr x tx -> goodb Expr y ty -> goodb Small (EAssign c x p op lb y) ts0.
Proof.
  intros IO GX GY ft w outer T F. assert (outer = 0) as -> by exact F. open_body. destruct T as [_ (T1 & T2 & T3)]. eapply iprints_ext; [intro st; unfold addParen; cbn [Nat.ltb Nat.leb precAssign]; reflexivity|].
  destruct (augm_scans op (in_or_app _ _ _ (or_introl IO))) as (SC & NE & NS).
  eapply (infix_prints starter (Xof Expr x tx) (Xof Expr y ty) _ lb (fun st => indent st + listIndentation) op [tok0 (op_kind op) op]).
  - apply (good_prints Expr); [exact GX|exact T1|exact Logic.I].
  - apply (good_prints Expr); [exact GY|exact T2|exact Logic.I].
  - exact SC.
  - exact NE.
  - exact NS.
  - exact T3.
  - intros t1 t2 (e1 & c1 & -> & O1 & M1 & _) (e2 & c2 & -> & O2 & M2 & _). exists (EAssign no_com e1 no_pos op false e2). apply stands_same; [left; exact Logic.I| |mean|exact Logic.I].
    apply (s_assign no_com e1 no_pos op false e2 t1 (tok0 (op_kind op) op) t2); [exact O1|reflexivity| |exact IO|exact O2]. unfold is, ch, op_kind. cbn [t_kind tok0]. destruct (beq op %"="); auto.
Qed.
Lemma gb_augm_stmt c x p op lb y tx ty ts0 : In op other_augmented -> goodb Expr x tx -> goodb Expr y ty -> goodb Small (EBinary c x p op lb y) ts0.
Proof.
  intros IO GX GY ft w outer T F. assert (outer = 0) as -> by exact F. open_body. destruct T as [_ (T1 & T2 & T3)].
  eapply iprints_ext; [intro st; unfold addParen; assert (opPrec op <? 0 = false) as -> by (destruct (opPrec op); reflexivity); reflexivity|].
  destruct (augm_scans op (in_or_app _ _ _ (or_intror IO))) as (SC & NE & NS).
  eapply (infix_prints starter (Xof Expr x tx) (Xof Expr y ty) _ lb indent op [tok0 (op_kind op) op]).
  - apply (good_prints Expr); [exact GX|exact T1|exact Logic.I].
  - apply (good_prints Expr); [exact GY|exact T2|exact Logic.I].
  - exact SC.
  - exact NE.
  - exact NS.
  - exact T3.
  - intros t1 t2 (e1 & c1 & -> & O1 & M1 & _) (e2 & c2 & -> & O2 & M2 & _). exists (EBinary no_com e1 no_pos op false e2). apply stands_same; [left; exact Logic.I| |mean|exact Logic.I].
    apply (s_augmented no_com e1 no_pos op false e2 t1 (tok0 (op_kind op) op) t2); [exact O1|reflexivity| |exact IO|exact O2]. cbn in IO. destruct IO as [<-|[<-|[<-|[<-|[]]]]]; reflexivity.
Qed.

(** ** Every expression *)
Definition ptrue {A} (_ : A) (_ : list token) : Prop := True.
Definition pannot (o : option expr) (ts : list token) : Prop := Forall wf_tok ts -> match o with Some e => exists t, goodb Test e t | None => True end.
Definition psmalls (l : list expr) (ts : list token) : Prop := Forall wf_tok ts -> Forall (fun e => exists t, one Small e t /\ goodb Small e t) l.
Ltac use H := first [exact H|apply H; assumption|exact (simple_pone _ _ _ Logic.I H ltac:(assumption))].
Theorem expr_good :
  (forall c e ts, one c e ts -> pone c e ts) /\ (forall c o ts, maybe c o ts -> pmaybe c o ts) /\ (forall o ts, stride o ts -> pstride o ts) /\
  (forall o ts, annotation o ts -> pannot o ts) /\ (forall c l ts, row c l ts -> prow c l ts) /\ (forall c l ts, items c l ts -> pitems c l ts) /\
  (forall c c' l ts, row1 c c' l ts -> prow1 c c' l ts) /\ (forall c l ts, params c l ts -> pparams c l ts) /\ (forall o l ts, clauses o l ts -> pclauses o l ts) /\
  (forall l ts, smalls l ts -> psmalls l ts) /\ (forall l ts, line l ts -> True) /\ (forall k l ts, stmts k l ts -> True) /\ (forall k l ts, suite k l ts -> True).
Proof.
  apply spec_ind; intros; try exact Logic.I; cbn [pone] in *; try intro W; unfold pclauses in *; wfs.
  - apply gb_ident; auto.
  - now apply gb_int.
  - now apply gb_int_frac.
  - now apply gb_int_dot.
  - now apply gb_frac.
  - now apply gb_str.
  - eapply gb_dot; eauto.
  - eapply (gb_load _ _ _ _ _ _ _ s); eauto.
  - eapply gb_call; eauto.
  - eapply gb_call; eauto. right. now apply H4.
  - eapply gb_index; eauto.
  - eapply gb_slice; eauto.
  - eapply gb_list; eauto.
  - eapply (gb_comp _ false); eauto.
  - eapply (gb_comp _ true); eauto.
  - eapply gb_dict; eauto.
  - eapply gb_set; eauto.
  - eapply gb_paren; eauto.
  - apply gb_tuple; auto.
  - apply gb_tuple; right. now apply H1.
  - apply good_level; auto.
  - eapply gb_lambda; eauto.
  - eapply gb_unary; eauto.
  - eapply gb_binary; eauto.
  - eapply gb_is; eauto.
  - eapply gb_is_not; eauto.
  - eapply gb_cond; eauto.
  - eapply good_up; eauto.
  - eapply good_up; eauto.
  - apply good_expr; auto.
  - eapply (gb_bare Expr); eauto.
  - apply good_vars; auto.
  - eapply (gb_bare Vars); eauto.
  - apply good_arg; auto.
  - eapply (gb_named Arg _ _ _ _ _ t); eauto.
  - eapply (gb_star_arg _ _ %"*"); eauto. now left.
  - eapply (gb_star_arg _ _ %"**"); eauto. right. now left.
  - apply gb_ident; auto.
  - eapply (gb_named Param _ _ _ _ _ t); eauto.
  - eapply (gb_star_param _ _ %"*" _ _ t); eauto. now left.
  - now apply (gb_bare_star _ _ tt).
  - eapply (gb_star_param _ _ %"**" _ _ t); eauto. right. now left.
  - apply good_tparam; auto.
  - eapply (gb_typed _ _ _ t); eauto.
  - eapply (gb_typed_default _ _ _ _ _ _ _ t); eauto.
  - eapply (gb_star_typed _ _ _ %"*" _ _ _ t); eauto. now left.
  - eapply (gb_star_typed _ _ _ %"**" _ _ _ t); eauto. right. now left.
  - eapply gb_pair; eauto.
  - apply good_small; auto.
  - apply gb_return.
  - eapply gb_return_value; eauto.
  - eapply gb_assign_stmt; eauto.
  - eapply gb_augm_stmt; eauto.
  - eapply gb_branch; eauto.
  (* optional parts *)
  - intros _. exact Logic.I.
  - intro W1. apply simple_pone; auto.
  - exact Logic.I.
  - destruct s; [|exact Logic.I]. eexists. now apply H1.
  - exact Logic.I.
  - eexists; eauto.
  (* lists *)
  - intro W1. split; [discriminate|]. eapply (rows_one _ _ c); eauto using simple_pone. intros. now constructor.
  - intro W1. wfs. destruct (H0 W) as [N R]; [assumption|]. split; [destruct l; discriminate|].
    eapply (rows_more _ _ c); eauto using simple_pone. intros l1 tl1 e1 t1 Q O. change (CM :: t1) with ([CM] ++ t1). apply r_more; auto using commas_cm. discriminate.
  - intros _. now left.
  - intro W1. wfs. right. now apply H0.
  - intros S1 W1 PC. split; [discriminate|]. eapply (rows_one _ _ c); eauto using simple_pone. intros. now constructor.
  - intros S1 W1 PC. wfs. destruct (H0 W S1) as [N R]; [assumption|exact PC|]. split; [destruct l; discriminate|].
    eapply (rows_more _ _ c'); eauto using simple_pone; [rewrite PC; auto|]. intros l1 tl1 e1 t1 Q O. apply r1_more; auto using ch_cm.
  - intros _. now left.
  - intro W1. wfs. right. apply H0; auto.
  (* clauses *)
  - eapply cr_one; eauto.
  - eapply cr_for; eauto.
  - eapply cr_if; eauto.
  (* statements *)
  - constructor; [|constructor]. exists ts. auto.
  - apply Forall_app. split; [apply H0; assumption|]. constructor; [|constructor]. exists ts. auto.
Qed.
Lemma good_one c e ts : one c e ts -> simple c -> Forall wf_tok ts -> goodb c e ts.
Proof. intros O S0 W. exact (simple_pone c e ts S0 (proj1 expr_good c e ts O) W). Qed.
