(** Printed expressions, arguments, parameters and simple statements. *)
From Verif Require Import Base BaseProofs Ast Utf8 Quote Lex LexSpec LexProofs ParseSpec ShapeSpec ParseLex ParseProofs ParseComplete Print PrintSpec PrintLex PrintTok PrintState PrintSeq PrintExpr PrintPrim.
Local Open Scope list_scope.

Ltac kw := cbn; tauto.
Ltac open_body := eexists; split; [intro st; cbn [print_expr print_body com]; reflexivity|].
(** ** Comprehensions *)
Lemma for_prints c p v q x tv tx o ft : goodb Vars v tv -> goodb (Level 2 o) x tx -> sub Inside (EForC c p v q x) ->
  iprints starter (fun t => exists v1 t1 x1 t2 o', (o' = true -> o = true) /\ one Vars v1 t1 /\ one (Level 2 o') x1 t2 /\ meaning v1 = meaning v /\ meaning x1 = meaning x /\
    t = tok0 KFor %"for" :: t1 ++ tok0 KIn %"in" :: t2) (print_expr ft None (EForC c p v q x) precLow) Inside.
Proof.
  intros GV GX [B T]. eapply iprints_ext; [intro st; cbn [print_expr print_body com]; reflexivity|]. destruct T as [FC (T1 & T2)]. apply node_prints; auto.
  intros st ts d stk C E. pose proof (kw_sp starter %"for" KFor st ts d stk ltac:(kw) E (within_refl _)) as P1.
  destruct (good_prints Vars v tv ft Inside precLow GV T1 Logic.I (printf %"for " st) (ts ++ [tok0 KFor %"for"]) d stk C) as (t1 & (v1 & c1 & -> & O1 & M1 & _) & S1 & P2); [eapply entry_mid; [exact P1|left; lia]|].
  pose proof (kw_mid %"in" KIn _ _ _ _ ltac:(kw) P2) as P3. set (st1 := printf _ (print_expr ft None v precLow _)) in *.
  destruct (good_prints (Level 2 o) x tx ft Inside precLow GX T2 Logic.I st1 (((ts ++ [tok0 KFor %"for"]) ++ t1) ++ [tok0 KIn %"in"]) d stk C) as (t2 & (x1 & c1 & (o' & -> & OO) & O2 & M2 & _) & S2 & P4); [eapply entry_mid; [exact P3|left; lia]|].
  eexists. split; [exists v1, t1, x1, t2, o'; repeat split; eauto|]. flat. split; [|exact P4].
  apply (same_trans _ (print_expr ft None v precLow (printf %"for " st))); [exact S1|]. exact S2.
Qed.
Lemma if_prints c p x tx o ft : goodb (Level 2 o) x tx -> sub Inside (EIfC c p x) ->
  iprints starter (fun t => exists x1 t2 o', (o' = true -> o = true) /\ one (Level 2 o') x1 t2 /\ meaning x1 = meaning x /\ t = tok0 KIf %"if" :: t2) (print_expr ft None (EIfC c p x) precLow) Inside.
Proof.
  intros GX [B T]. eapply iprints_ext; [intro st; cbn [print_expr print_body com]; reflexivity|]. destruct T as [FC T1]. apply node_prints; auto.
  intros st ts d stk C E. pose proof (kw_sp starter %"if" KIf st ts d stk ltac:(kw) E (within_refl _)) as P1.
  destruct (good_prints (Level 2 o) x tx ft Inside precLow GX T1 Logic.I (printf %"if " st) (ts ++ [tok0 KIf %"if"]) d stk C) as (t2 & (x1 & c1 & (o' & -> & OO) & O2 & M2 & _) & S2 & P4); [eapply entry_mid; [exact P1|left; lia]|].
  eexists. split; [exists x1, t2, o'; repeat split; eauto|]. flat. split; [exact S2|exact P4].
Qed.
Lemma concat_snoc {A} (l : list (list A)) x : List.concat (l ++ [x]) = List.concat l ++ x.
Proof. rewrite concat_app. cbn. now rewrite app_nil_r. Qed.
Lemma cr_one o c p v q x tv tx : goodb Vars v tv -> goodb (Level 2 o) x tx -> clause_rows o [EForC c p v q x].
Proof.
  intros GV GX ft [T _]. eexists [_]. split; [constructor; [apply (for_prints c p v q x tv tx o ft GV GX T)|constructor]|].
  intros tss F. inversion F as [|? t ? ? F1 F2]; subst. inversion F2; subst. destruct F1 as (v1 & t1 & x1 & t2 & o' & OO & O1 & O2 & M1 & M2 & ->).
  exists o', [EForC no_com no_pos v1 no_pos x1]. split; [exact OO|]. split; [cbn; rewrite app_nil_r; now apply c_for|]. cbn [map]. f_equal. mean.
Qed.
Lemma cr_for o' l o c p v q x tv tx : clause_rows o' l -> goodb Vars v tv -> goodb (Level 2 o) x tx -> clause_rows o (l ++ [EForC c p v q x]).
Proof.
  intros R GV GX ft T. apply all_snoc in T as [T1 T2]. destruct (R ft T1) as (Xs & A & B). eexists (Xs ++ [_]). split.
  - rewrite map_app. apply Forall2_app; [exact A|]. constructor; [apply (for_prints c p v q x tv tx o ft GV GX T2)|constructor].
  - intros tss F. apply two_snoc in F as (tss' & t & -> & F1 & (v1 & t1 & x1 & t2 & o1 & OO & O1 & O2 & M1 & M2 & ->)). destruct (B _ F1) as (o2 & l1 & OO1 & C1 & M3).
    exists o1, (l1 ++ [EForC no_com no_pos v1 no_pos x1]). split; [exact OO|]. rewrite concat_snoc. split; [eapply c_more_for; eauto; reflexivity|]. rewrite !map_app, M3. f_equal. cbn [map]. f_equal. mean.
Qed.
Lemma cr_if l o c p x tx : clause_rows false l -> goodb (Level 2 o) x tx -> clause_rows o (l ++ [EIfC c p x]).
Proof.
  intros R GX ft T. apply all_snoc in T as [T1 T2]. destruct (R ft T1) as (Xs & A & B). eexists (Xs ++ [_]). split.
  - rewrite map_app. apply Forall2_app; [exact A|]. constructor; [apply (if_prints c p x tx o ft GX T2)|constructor].
  - intros tss F. apply two_snoc in F as (tss' & t & -> & F1 & (x1 & t2 & o1 & OO & O2 & M2 & ->)). destruct (B _ F1) as (o2 & l1 & OO1 & C1 & M3).
    exists o1, (l1 ++ [EIfC no_com no_pos x1]). split; [exact OO|]. rewrite concat_snoc. split.
    + destruct o2; [discriminate (OO1 eq_refl)|]. eapply c_more_if; eauto. reflexivity.
    + rewrite !map_app, M3. f_equal. cbn [map]. f_equal. mean.
Qed.
Lemma gb_comp c (curly : bool) p b l fm e cb tb o ts0 : cb = (if curly then Pair else Test) -> goodb cb b tb -> clause_rows o l -> goodb Prim (EComp c curly p b l fm e) ts0.
Proof.
  intros HC G R ft w outer T F. open_body. destruct T as [_ (T1 & T2 & T3)]. intros st ts d stk C E.
  destruct (R ft T2) as (Xs & A & B).
  assert (PC : pcat cb = starter) by (subst cb; destruct curly; reflexivity).
  pose proof (good_prints cb b tb ft Inside precLow G T1 (flex0 cb)) as GB. rewrite PC in GB.
  destruct (listFor_spec starter curly (print_expr ft None b precLow) (map (fun x => print_expr ft None x precLow) l) fm e st ts d stk (Xof cb b tb) Xs E) as (tb1 & tss & (b1 & c1 & L & O & M & _) & Q & S2 & P2); auto; [destruct curly; reflexivity|].
  destruct (B _ Q) as (o' & l1 & _ & C1 & M1). apply meaning_map in M1.
  eexists. split; [|split; [exact S2|exact P2]].
  exists (EComp no_com curly no_pos b1 l1 false no_end). subst cb. apply stands_same; [auto| |mean|].
  - destruct curly; cbn in L; subst c1; [eapply p_dict_comp|eapply p_comp]; eauto; reflexivity.
  - intros a _ Y. destruct tb1; destruct (List.concat tss); discriminate.
Qed.
(** ** Operators *)
Lemma is_not_unary e : is_not e <-> exists c p x, e = EUnary c p %"not" x. Proof. reflexivity. Qed.
Lemma op_binop s k n : In (s, k, n) binops -> (forall d, scans s closer d [tok0 k s] d) /\ (exists c w, s = c :: w) /\ nosp (rev s).
Proof.
  intro H. cbn [binops In] in H.
  repeat (destruct H as [H|H]; [injection H as <- <- <-; split; [intro d; first [apply scan_keyword; kw|apply scan_sym_closer; cbn; tauto]|split; [eexists _, _; reflexivity|cbn; discriminate]]|]). contradiction.
Qed.
Lemma op_scans s n top : operator s n top -> exists top', operator s n top' /\ (forall d, scans s closer d top' d) /\ (exists c w, s = c :: w) /\ nosp (rev s) /\ top' <> [].
Proof.
  intro H. inversion H as [s' k n' t I0 K E|t u K1 K2]; subst.
  - destruct (op_binop _ _ _ I0) as (A & B & C). exists [tok0 k (t_tok t)]. split; [eapply op_one with (k := k); [exact I0|reflexivity|reflexivity]|]. repeat split; auto. discriminate.
  - exists [tok0 KNot %"not"; tok0 KIn %"in"]. split; [now apply op_not_in|]. split; [|split; [eexists _, _; reflexivity|split; [cbn; discriminate|discriminate]]].
    intro d. apply (scans_app %"not" c_sp %"in" closer closer d [tok0 KNot %"not"] d [tok0 KIn %"in"] d); [apply scan_keyword; kw|reflexivity|].
    intros x r stk K'. eapply (reads_trans _ [] _ [_]); [apply rd_space|]. apply scan_keyword; [kw|exact K'].
Qed.
Lemma gb_binary n o c x p op m lb y tx top ty : operator op m top -> goodb (Level m false) x tx -> goodb (Level (S m) o) y ty -> n <= m -> goodb (Level n o) (EBinary c x p op lb y) (tx ++ top ++ ty).
Proof.
  intros OP GX GY L ft w outer T F. open_body. destruct T as [_ (T1 & T2 & T3)]. destruct (op_scans _ _ _ OP) as (top' & OP' & SC & NE & NS & _).
  apply paren_prints; [eauto|]. eapply (infix_prints starter (Xof (Level m false) x tx) (Xof (Level (S m) o) y ty) _ lb indent op top').
  - apply (good_prints (Level m false)); [exact GX|exact T1|exact Logic.I].
  - apply (good_prints (Level (S m) o)); [exact GY|exact T2|exact Logic.I].
  - exact SC.
  - exact NE.
  - exact NS.
  - exact T3.
  - intros t1 t2 (e1 & c1 & (o1 & -> & OO1) & O1 & M1 & _) (e2 & c2 & (o2 & -> & OO2) & O2 & M2 & _). exists (EBinary no_com e1 no_pos op false e2), (Level n o2).
    assert (o1 = false) as -> by (destruct o1; auto; discriminate (OO1 eq_refl)). split; [exists o2; auto|]. split; [eapply t_binary; eauto|]. split; [mean|]. intros (? & ? & ? & Q). discriminate.
Qed.
Lemma gb_is n o c x p lb y tx t ty : goodb (Level 2 false) x tx -> goodb (Level 3 o) y ty -> ~ is_not y -> n <= 2 -> goodb (Level n o) (EBinary c x p %"is" lb y) (tx ++ t :: ty).
Proof.
  intros GX GY NN L ft w outer T F. open_body. destruct T as [_ (T1 & T2 & T3)].
  apply paren_prints; [eauto|]. eapply (infix_prints starter (Xof (Level 2 false) x tx) (Xof (Level 3 o) y ty) _ lb indent %"is" [tok0 KIs %"is"]).
  - apply (good_prints (Level 2 false)); [exact GX|exact T1|exact Logic.I].
  - apply (good_prints (Level 3 o)); [exact GY|exact T2|exact Logic.I].
  - intro d. apply scan_keyword. kw.
  - eexists _, _; reflexivity.
  - cbn. discriminate.
  - exact T3.
  - intros t1 t2 (e1 & c1 & (o1 & -> & OO1) & O1 & M1 & _) (e2 & c2 & (o2 & -> & OO2) & O2 & M2 & X2). exists (EBinary no_com e1 no_pos %"is" false e2), (Level n o2).
    assert (o1 = false) as -> by (destruct o1; auto; discriminate (OO1 eq_refl)). split; [exists o2; auto|]. split; [eapply (t_is n o2 _ _ _ _ _ t1 (tok0 KIs %"is") t2); eauto; reflexivity|]. split; [mean|]. intros (? & ? & ? & Q). discriminate.
Qed.
Lemma gb_is_not n o c x p lb y tx t u ty : goodb (Level 2 false) x tx -> goodb (Level 12 o) y ty -> n <= 2 -> goodb (Level n o) (EBinary c x p %"is not" lb y) (tx ++ t :: u :: ty).
Proof.
  intros GX GY L ft w outer T F. open_body. destruct T as [_ (T1 & T2 & T3)].
  apply paren_prints; [eauto|]. eapply (infix_prints starter (Xof (Level 2 false) x tx) (Xof (Level 12 o) y ty) _ lb indent %"is not" [tok0 KIs %"is"; tok0 KNot %"not"]).
  - apply (good_prints (Level 2 false)); [exact GX|exact T1|exact Logic.I].
  - apply (good_prints (Level 12 o)); [exact GY|exact T2|exact Logic.I].
  - intro d. apply (scans_app %"is" c_sp %"not" closer closer d [tok0 KIs %"is"] d [tok0 KNot %"not"] d); [apply scan_keyword; kw|reflexivity|].
    intros z r stk K'. eapply (reads_trans _ [] _ [_]); [apply rd_space|]. apply scan_keyword; [kw|exact K'].
  - eexists _, _; reflexivity.
  - cbn. discriminate.
  - exact T3.
  - intros t1 t2 (e1 & c1 & (o1 & -> & OO1) & O1 & M1 & _) (e2 & c2 & (o2 & -> & OO2) & O2 & M2 & X2). exists (EBinary no_com e1 no_pos %"is not" false e2), (Level n o2).
    assert (o1 = false) as -> by (destruct o1; auto; discriminate (OO1 eq_refl)). split; [exists o2; auto|]. split; [eapply (t_is_not n o2 _ _ _ _ _ t1 (tok0 KIs %"is") (tok0 KNot %"not") t2); eauto; reflexivity|]. split; [mean|]. intros (? & ? & ? & Q). discriminate.
Qed.
Lemma gb_cond n o c x p1 y p2 z tx i ty e tz : goodb (Level 1 false) x tx -> goodb Test y ty -> goodb (Level 2 o) z tz -> n <= 1 -> goodb (Level n o) (ECond c x p1 y p2 z) (tx ++ i :: ty ++ e :: tz).
Proof.
  intros GX GY GZ L ft w outer T F. open_body. destruct T as [_ (T1 & T2 & T3)]. apply paren_prints; [eauto|]. intros st ts d stk C E.
  destruct (good_prints (Level 1 false) x tx ft w precIfElse GX T1 Logic.I st ts d stk C E) as (t1 & (x1 & c1 & (o1 & -> & OO1) & O1 & M1 & _) & S1 & P1).
  assert (o1 = false) as -> by (destruct o1; auto; discriminate (OO1 eq_refl)).
  pose proof (kw_mid %"if" KIf _ _ _ _ ltac:(kw) P1) as P2. set (st1 := print_expr ft None x precIfElse st) in *.
  destruct (good_prints Test y ty ft w precIfElse GY T2 Logic.I (printf %" if " st1) ((ts ++ t1) ++ [tok0 KIf %"if"]) d stk) as (t2 & (y1 & c2 & -> & O2 & M2 & _) & S2 & P3); [eapply ctx_same; [|exact C]; exact S1|eapply entry_mid; [exact P2|left; lia]|].
  pose proof (kw_mid %"else" KElse _ _ _ _ ltac:(kw) P3) as P4. set (st2 := print_expr ft None y precIfElse _) in *.
  assert (SS : same st st2) by (eapply same_trans; [exact S1|exact S2]).
  destruct (good_prints (Level 2 o) z tz ft w precIfElse GZ T3 Logic.I (printf %" else " st2) ((((ts ++ t1) ++ [tok0 KIf %"if"]) ++ t2) ++ [tok0 KElse %"else"]) d stk) as (t3 & (z1 & c3 & (o3 & -> & OO3) & O3 & M3 & _) & S3 & P5); [eapply ctx_same; [|exact C]; exact SS|eapply entry_mid; [exact P4|left; lia]|].
  exists (t1 ++ tok0 KIf %"if" :: t2 ++ tok0 KElse %"else" :: t3). split.
  - exists (ECond no_com x1 no_pos y1 no_pos z1), (Level n o3). split; [exists o3; auto|]. split; [eapply t_cond; eauto; reflexivity|]. split; [mean|]. intros (? & ? & ? & Q). discriminate.
  - flat. split; [|exact P5]. apply (same_trans _ st2); [exact SS|exact S3].
Qed.
(** Unary operators. *)
Lemma unop_sits P op k st ts d stk : In (op, k) unops -> entry P st ts d stk -> within starter P ->
  exists K j, (0 < j \/ within starter K) /\ sits (Mid K j) (if beq op %"not" then printf %"not " st else printf op st) (ts ++ [tok0 k op]) d stk.
Proof.
  intros H E W. cbn [unops In] in H.
  assert (SY : forall c, In ([c], KChar c) symbols -> starter c = true -> c <> c_sp -> sits (Mid loose 0) (printf [c] st) (ts ++ [tok0 (KChar c) [c]]) d stk).
  { intros ch0 I0 ST NS. eapply (word P ch0 []); [exact E|now apply W|now apply scan_symbol|auto|exact NS]. }
  destruct H as [H|[H|[H|[H|[]]]]]; injection H as <- <-; cbn [beq].
  - exists closer, 1. split; [left; lia|]. apply (kw_sp P %"not" KNot); auto. kw.
  - exists loose, 0. split; [auto|]. apply (SY "-"%char); [cbn; tauto|reflexivity|discriminate].
  - exists loose, 0. split; [auto|]. apply (SY "+"%char); [cbn; tauto|reflexivity|discriminate].
  - exists loose, 0. split; [auto|]. apply (SY "~"%char); [cbn; tauto|reflexivity|discriminate].
Qed.
Lemma gb_unary n o c p op k x t tx : In (op, k) unops -> goodb (Level 12 o) x tx -> n <= 12 -> goodb (Level n o) (EUnary c p op (Some x)) (t :: tx).
Proof.
  intros I0 GX L ft w outer T F. open_body. destruct T as [_ T1]. apply paren_prints; [eauto|]. intros st ts d stk C E.
  destruct (unop_sits starter op k st ts d stk I0 E (within_refl _)) as (K & j & KJ & P1). cbv zeta.
  set (st1 := if beq op %"not" then _ else _) in *.
  assert (SS : same st st1) by (unfold st1; destruct (beq op %"not"); apply printf_same).
  destruct (good_prints (Level 12 o) x tx ft w precSuffix GX T1 Logic.I st1 (ts ++ [tok0 k op]) d stk) as (t1 & (x1 & c1 & (o1 & -> & OO) & O1 & M1 & _) & S1 & P2); [eapply ctx_same; eauto|eapply entry_mid; [exact P1|exact KJ]|].
  exists (tok0 k op :: t1). split.
  - exists (EUnary no_com no_pos op (Some x1)), (Level n o1). split; [exists o1; auto|]. split; [eapply t_unary; eauto; reflexivity|]. split; [mean|].
    intros (? & ? & ? & Q). injection Q as _ _ Q _. unfold is_not. subst op. eauto.
  - flat. split; [eapply same_trans; eauto|exact P2].
Qed.
(** Lambdas. *)
Lemma params_fold (w : place) : forall fs Xs b st ts d stk, Forall2 (fun f X => iprints solid X f w) fs Xs -> ctx w d (o_depth st) -> sits (Mid closer 0) st ts d stk ->
  exists tss, Forall2 (fun (X : list token -> Prop) t => X t) Xs tss /\
    post st (snd (fold_left (fun (acc : bool * pst) pr => (true, pr (printf %" " (if fst acc then printf %"," (snd acc) else snd acc)))) fs (b, st)))
      (ts ++ (if b then match tss with [] => [] | _ => CM :: sep tss end else sep tss)) d stk.
Proof.
  induction fs as [|f fs IH]; intros Xs b st ts d stk F C H; inversion F as [|? X ? Xs' F1 F2]; subst.
  - exists []. split; [constructor|]. cbn [fold_left snd sep]. destruct b; rewrite app_nil_r; (split; [apply same_refl|exact H]).
  - cbn [fold_left fst snd]. set (st1 := printf %" " (if b then printf %"," st else st)).
    assert (A : exists K, sits (Mid K 1) st1 (ts ++ if b then [CM] else []) d stk).
    { unfold st1. destruct b; [exists any; apply space, (put_comma 0), H|exists closer; rewrite app_nil_r; apply space, H]. }
    destruct A as (K & A). assert (SS : same st st1) by (unfold st1; destruct b; repeat split).
    destruct (F1 st1 (ts ++ if b then [CM] else []) d stk) as (t1 & X1 & S1 & P1); [eapply ctx_same; eauto|eapply entry_mid; [exact A|left; lia]|].
    destruct (IH Xs' true (f st1) ((ts ++ if b then [CM] else []) ++ t1) d stk F2) as (tss & G & S2 & P2); [eapply ctx_same; [|exact C]; eapply same_trans; eauto|exact P1|].
    exists (t1 :: tss). split; [constructor; auto|]. split; [eapply same_trans; [exact SS|]; eapply same_trans; eauto|].
    replace (ts ++ (if b then CM :: sep (t1 :: tss) else sep (t1 :: tss))) with (((ts ++ (if b then [CM] else [])) ++ t1) ++ match tss with [] => [] | _ :: _ => CM :: sep tss end); [exact P2|].
    destruct tss; cbn [sep]; rewrite ?app_nil_r, <- !app_assoc; destruct b; cbn [app]; reflexivity.
Qed.
Lemma gb_lambda n c p ps b l tp k tb : pparams Param ps tp -> Forall wf_tok tp -> goodb Test b tb -> goodb (Level n true) (ELambda c p ps [b]) (l :: tp ++ k :: tb).
Proof.
  intros HP W GB ft w outer T F. open_body. destruct T as [_ (T1 & T2 & _)]. apply paren_prints; [eauto|]. intros st ts d stk C E. cbv zeta.
  pose proof (put_kw starter %"lambda" KLambda st ts d stk ltac:(kw) E (within_refl _)) as P1.
  assert (A : exists Xs, Forall2 (fun f X => iprints solid X f w) (map (fun x => print_expr ft None x precLow) ps) Xs /\
    forall tss, Forall2 (fun (X : list token -> Prop) t => X t) Xs tss -> exists l1, params Param l1 (sep tss) /\ map meaning l1 = map meaning ps).
  { destruct (HP Logic.I W) as [->|[N R]].
    - exists []. split; [constructor|]. intros tss Q. inversion Q; subst. exists []. split; [constructor|reflexivity].
    - destruct (R ft w T1) as (Xs & A & B). exists Xs. split.
      + clear -A. remember (map (item_of ft) ps) as li eqn:EL. revert ps EL. induction A as [|i X li Xs H A IH]; intros [|x ps] EL; try discriminate; [constructor|]. cbn [map] in *. injection EL as -> ->. constructor; [exact H|]. now apply IH.
      + intros tss Q. destruct (B tss Q) as (l1 & B1 & B2). exists l1. split; [|exact B2]. rewrite <- (app_nil_r (sep tss)). constructor; [exact B1|constructor|cbn; lia]. }
  destruct A as (Xs & A & B).
  destruct (params_fold w _ _ false (printf %"lambda" st) (ts ++ [tok0 KLambda %"lambda"]) d stk A C P1) as (tss & Q & S1 & P2).
  destruct (B _ Q) as (l1 & B1 & M1). set (st1 := snd (fold_left _ _ _)) in *. apply colon_sp in P2.
  destruct (good_prints Test b tb ft w precLow GB T2 Logic.I (printf %": " st1) (((ts ++ [tok0 KLambda %"lambda"]) ++ sep tss) ++ [COLON]) d stk) as (t2 & (b1 & c2 & -> & O2 & M2 & _) & S2 & P3); [eapply ctx_same; [|exact C]; exact S1|eapply entry_mid; [exact P2|left; lia]|].
  exists (tok0 KLambda %"lambda" :: sep tss ++ COLON :: t2). apply meaning_map in M1. split.
  - exists (ELambda no_com no_pos l1 [b1]), (Level n true). split; [exists true; auto|]. split; [eapply t_lambda; eauto; reflexivity|]. split; [unfold meaning in *; cbn [shape plain map]; congruence|]. intros (? & ? & ? & Y). discriminate.
  - flat. split; [|exact P3]. apply (same_trans _ st1); [exact S1|exact S2].
Qed.
