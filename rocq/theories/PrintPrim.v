(** Printed primary expressions. *)
From Verif Require Import Base BaseProofs Ast Utf8 Quote Lex LexSpec LexProofs QuotePrint ParseSpec ShapeSpec ParseLex ParseProofs ParseComplete Print PrintSpec PrintLex PrintTok PrintState PrintSeq PrintExpr.
Local Open Scope list_scope.

Ltac flat := rewrite <- ?app_assoc in *; cbn [app] in *.
Ltac mean := unfold meaning in *; cbn [shape plain option_map] in *; congruence.
Ltac child G T S0 :=
  match goal with C : ctx _ _ (o_depth ?st) |- _ => idtac end.
Lemma meaning_map l l1 : map meaning l1 = map meaning l -> map plain (map shape l1) = map plain (map shape l).
Proof. intro H. rewrite !map_map. exact H. Qed.

Lemma gb_dot c x p q n tx d0 t : goodb Prim x tx -> (forall a, is KInt a -> tx <> [a]) -> spelled t -> is KIdent t -> t_tok t = n -> goodb Prim (EDot c x p q n) (tx ++ [d0; t]).
Proof.
  intros G NI SP K EN ft w outer T F. eexists. split; [intro st; cbn [print_expr print_body com]; reflexivity|]. destruct T as [_ [T1 T2]].
  apply paren_prints; [auto|]. intros st ts d stk C E.
  destruct (good_prints Prim x tx ft w precSuffix G T1 Logic.I st ts d stk C E) as (t1 & (e1 & c1 & -> & O & M & X) & S1 & P1).
  set (st1 := print_expr ft None x precSuffix st) in *. set (multi := isDifferentLines q (end_pos x)) in *.
  set (st2 := if multi then breakline (set_margin (o_margin st1 + listIndentation) st1) else st1).
  assert (A : exists P, P "."%char = true /\ entry P st2 (ts ++ t1) d stk /\ o_depth st2 = o_depth st1 /\ o_level st2 = o_level st1 /\ o_ok st2 = o_ok st1 /\ o_margin st2 = (if multi then o_margin st1 + listIndentation else o_margin st1)).
  { unfold st2. destruct multi.
    - destruct (breakline_spec closer 0 (set_margin (o_margin st1 + listIndentation) st1) (ts ++ t1) d stk P1) as [B1 B2].
      { cbn [o_depth set_margin]. destruct S1 as (_ & -> & _). destruct w; cbn in C; [exact C|discriminate (T2 eq_refl)|auto]. }
      exists solid. split; [reflexivity|]. split; [exact B2|]. destruct B1 as (B3 & B4 & B5 & B6). auto.
    - exists closer. split; [reflexivity|]. split; [eapply entry_mid; [exact P1|auto]|auto]. }
  destruct A as (P & A1 & A2 & A3 & A4 & A5 & A6).
  pose proof (put_dot P _ _ _ _ A2 A1) as B1. assert (B2 : sits (Mid closer 0) (printf (t_tok t) (printf %"." st2)) ((ts ++ t1 ++ [DOT]) ++ [tok0 KIdent (t_tok t)]) d stk).
  { eapply (put_name any); auto. rewrite app_assoc. eapply entry_mid; [exact B1|auto]. }
  exists (t1 ++ [DOT; tok0 KIdent (t_tok t)]). split.
  - exists (EDot no_com e1 no_pos no_pos n). apply stands_same; [auto| |mean|].
    + apply p_dot; auto; [|reflexivity|reflexivity]. intros a A ->. destruct (X a A eq_refl) as (a' & B & ->). eapply NI; eauto.
    + intros a _ Q. destruct t1 as [|? [|? ?]]; discriminate.
  - flat. rewrite <- EN. rewrite printf_app. destruct S1 as (S11 & S12 & S13 & S14). split; [|destruct multi; exact B2].
    destruct multi; repeat split; cbn; rewrite ?A3, ?A4, ?A5, ?A6, ?S11, ?S12, ?S13, ?S14; auto; lia.
Qed.
(** Brackets after a primary expression. *)
Definition LB : token := tok0 (KChar "[") %"[".
Definition RB : token := tok0 (KChar "]") %"]".
Lemma open_after o st ts d stk : opener o -> closer o = true -> sits (Mid closer 0) st ts d stk -> sits (Mid any 0) (printf [o] st) (ts ++ [tok0 (KChar o) [o]]) (S d) stk.
Proof. intros O C H. eapply (open_spec closer); [eapply entry_mid; [exact H|auto]|exact C|exact O]. Qed.
Lemma close_after c K st ts d stk : closing c -> within closer K -> sits (Mid K 0) st ts (S d) stk -> sits (Mid closer 0) (printf [c] st) (ts ++ [tok0 (KChar c) [c]]) d stk.
Proof. intros O C H. eapply (close_spec closer); [eapply entry_mid; [exact H|auto]|now apply closing_closer|exact O]. Qed.
Lemma gb_index c x p y e tx lb ty rb : goodb Prim x tx -> goodb Expr y ty -> goodb Prim (EIndex c x p y e) (tx ++ lb :: ty ++ [rb]).
Proof.
  intros G H ft w outer T F. eexists. split; [intro st; cbn [print_expr print_body com]; reflexivity|]. destruct T as [_ [T1 T2]].
  apply paren_prints; [auto|]. intros st ts d stk C E.
  destruct (good_prints Prim x tx ft w precSuffix G T1 Logic.I st ts d stk C E) as (t1 & (e1 & c1 & -> & O & M & X) & S1 & P1).
  set (st1 := print_expr ft None x precSuffix st) in *.
  pose proof (open_after "["%char _ _ _ _ ltac:(cbn; auto) eq_refl P1) as P2.
  destruct (good_prints Expr y ty ft Inside precLow H T2 Logic.I (printf %"[" st1) ((ts ++ t1) ++ [LB]) (S d) stk) as (t2 & (e2 & c2 & -> & O2 & M2 & _) & S2 & P3); [cbn; lia|eapply entry_mid; [exact P2|auto]|].
  pose proof (close_after "]"%char _ _ _ _ _ ltac:(cbn; auto) (within_refl _) P3) as P4.
  exists (t1 ++ LB :: t2 ++ [RB]). split.
  - exists (EIndex no_com e1 no_pos e2 no_pos). apply stands_same; [auto| |mean|].
    + now apply p_index.
    + intros a _ Q. destruct t1 as [|? [|? ?]]; destruct t2; discriminate.
  - flat. split; [sames|exact P4].
Qed.
Lemma gb_maybe c o ft : simple c -> match o with Some e => exists t, goodb c e t | None => True end -> if_any (sub Inside) o ->
  forall st ts d stk, 0 < d -> entry (pcat c) st ts d stk -> sits (Mid any 0) st ts d stk ->
  exists o1 t1, maybe c o1 t1 /\ option_map meaning o1 = option_map meaning o /\ same st (match o with Some y => print_expr ft None y precLow st | None => st end) /\
    exists K, within closer K /\ sits (Mid K 0) (match o with Some y => print_expr ft None y precLow st | None => st end) (ts ++ t1) d stk.
Proof.
  intros S0 G T st ts d stk D E H. destruct o as [e|].
  - destruct G as (t & G). destruct (good_prints c e t ft Inside precLow G T (flex0 c) st ts d stk D E) as (t1 & (e1 & c1 & L & O & M & _) & S1 & P1).
    rewrite (simple_ple _ _ S0 L) in O. exists (Some e1), t1. split; [now constructor|]. split; [cbn; now rewrite M|]. split; [exact S1|]. exists closer. auto.
  - exists None, []. split; [constructor|]. split; [reflexivity|]. split; [apply same_refl|]. exists any. split; [auto|]. now rewrite app_nil_r.
Qed.
Definition COLON : token := tok0 (KChar ":") %":".
Lemma opt_mean (a b : option expr) : option_map meaning a = option_map meaning b -> option_map plain (option_map shape a) = option_map plain (option_map shape b).
Proof. destruct a, b; cbn; auto. Qed.
Lemma put_colon K st ts d stk : within closer K -> sits (Mid K 0) st ts d stk -> sits (Mid any 0) (printf %":" st) (ts ++ [COLON]) d stk.
Proof. intros W H. eapply (word closer ":"%char []); [eapply entry_mid; [exact H|auto]|reflexivity|apply scan_punct; cbn; auto|auto|cbn; discriminate]. Qed.
Lemma gb_slice c x p f c1 t c2 s e tx lb tf k1 tt tr rb : goodb Prim x tx -> pmaybe Expr f tf -> pmaybe Test t tt -> pstride s tr -> Forall wf_tok tf -> Forall wf_tok tt -> Forall wf_tok tr ->
  goodb Prim (ESlice c x p f c1 t c2 s e) (tx ++ lb :: tf ++ k1 :: tt ++ tr ++ [rb]).
Proof.
  intros G H1 H2 H3 W1 W2 W3 ft w outer T F. eexists. split; [intro st; cbn [print_expr print_body com]; reflexivity|]. destruct T as [_ (T1 & T2 & T3 & T4 & T5)].
  apply paren_prints; [auto|]. intros st ts d stk C E.
  destruct (good_prints Prim x tx ft w precSuffix G T1 Logic.I st ts d stk C E) as (t1 & (e1 & c3 & -> & O & M & X) & S1 & P1).
  set (st1 := print_expr ft None x precSuffix st) in *.
  pose proof (open_after "["%char _ _ _ _ ltac:(cbn; auto) eq_refl P1) as P2. set (st2 := printf _ st1) in *.
  destruct (gb_maybe Expr f ft Logic.I ltac:(destruct f; [exists tf; now apply H1|exact Logic.I]) T2 st2 ((ts ++ t1) ++ [LB]) (S d) stk) as (f1 & tf1 & O1 & M1 & S2 & K1 & W4 & P3); [lia|eapply entry_mid; [exact P2|auto]|exact P2|].
  set (st3 := match f with Some _ => _ | None => _ end) in *. pose proof (put_colon _ _ _ _ _ W4 P3) as P4. set (st4 := printf %":" st3) in *.
  destruct (gb_maybe Test t ft Logic.I ltac:(destruct t; [exists tt; now apply H2|exact Logic.I]) T3 st4 ((((ts ++ t1) ++ [LB]) ++ tf1) ++ [COLON]) (S d) stk) as (t2 & tt1 & O2 & M2 & S3 & K2 & W5 & P5); [lia|eapply entry_mid; [exact P4|auto]|exact P4|].
  set (st5 := match t with Some _ => _ | None => _ end) in *.
  set (st6 := if (p_byte c2 =? 0)%Z then st5 else let st := printf %":" st5 in match s with Some y => print_expr ft None y precLow st | None => st end).
  assert (A : exists s1 ts1, stride s1 ts1 /\ option_map meaning s1 = option_map meaning s /\ same st5 st6 /\ exists K, within closer K /\ sits (Mid K 0) st6 ((((((ts ++ t1) ++ [LB]) ++ tf1) ++ [COLON]) ++ tt1) ++ ts1) (S d) stk).
  { unfold st6. destruct (Z.eqb_spec (p_byte c2) 0) as [Z0|Z0].
    - exists None, []. split; [constructor|]. split; [destruct s; [exfalso; apply T5; [discriminate|exact Z0]|reflexivity]|]. split; [apply same_refl|]. exists K2. rewrite app_nil_r. auto.
    - pose proof (put_colon _ _ _ _ _ W5 P5) as P6. cbv zeta. set (st7 := printf %":" st5) in *.
      destruct (gb_maybe Test s ft Logic.I (H3 W3) T4 st7 (((((ts ++ t1) ++ [LB]) ++ tf1) ++ [COLON]) ++ tt1 ++ [COLON]) (S d) stk) as (s1 & ts1 & O3 & M3 & S4 & K3 & W6 & P7); [lia|eapply entry_mid; [flat; exact P6|auto]|flat; exact P6|].
      exists s1, (COLON :: ts1). split; [now apply sp_some|]. split; [exact M3|]. split; [exact S4|]. exists K3. flat. auto. }
  destruct A as (s1 & ts1 & O3 & M3 & S4 & K3 & W6 & P7). pose proof (close_after "]"%char _ _ _ _ _ ltac:(cbn; auto) W6 P7) as P8.
  exists (t1 ++ LB :: tf1 ++ COLON :: tt1 ++ ts1 ++ [RB]). split.
  - exists (ESlice no_com e1 no_pos f1 no_pos t2 no_pos s1 no_pos). apply stands_same; [auto| | |].
    + now apply p_slice.
    + apply opt_mean in M1, M2, M3. unfold meaning in *. cbn [shape plain]. congruence.
    + intros a _ Q. destruct t1 as [|? [|? ?]]; destruct tf1; discriminate.
  - flat. split; [|exact P8]. apply (same_trans _ st1); [exact S1|]. apply (same_trans _ st3); [exact S2|]. apply (same_trans _ st5); [exact S3|]. exact S4.
Qed.
(** Sequences in brackets. *)
Lemma rows_solid P Q l : rows P Q l -> within P solid -> forall ft, all_of (sub Inside) l -> exists Xs, Forall2 (fun i X => iprints solid X (it_print i) Inside) (map (item_of ft) l) Xs /\
    forall tss, Forall2 (fun (X : list token -> Prop) t => X t) Xs tss -> exists l1, Q l1 (sep tss) /\ map meaning l1 = map meaning l.
Proof.
  intros H W ft T. destruct (H ft Inside T) as (Xs & A & B). exists Xs. split; [|exact B]. clear -A W. induction A; constructor; auto. eapply iprints_weaken; eauto.
Qed.
(** [seq] on a list, possibly empty. *)
Lemma seq_list P c (Q : list expr -> list token -> Prop) ft o k p l en md compact multi st ts d stk :
  (l = [] \/ (l <> [] /\ rows (pcat c) Q l)) -> all_of (sub Inside) l -> fine_coms (e_com en) -> entry P st ts d stk -> P o = true -> opener o -> closing k -> md <> modeSeq -> md <> modeDef ->
  exists l1 tl cs, ((l = [] /\ l1 = [] /\ tl = []) \/ (l <> [] /\ Q l1 tl)) /\ map meaning l1 = map meaning l /\ cs_ok md (List.length l) cs /\
    post st (seq ft (o, k) p (map (item_of ft) l) (Some en) md compact multi st) (ts ++ tok0 (KChar o) [o] :: tl ++ cs ++ [tok0 (KChar k) [k]]) d stk.
Proof.
  intros H T FE E PO O K NS ND.
  assert (A : exists Xs, Forall2 (fun i X => iprints solid X (it_print i) Inside) (map (item_of ft) l) Xs /\
    forall tss, Forall2 (fun (X : list token -> Prop) t => X t) Xs tss -> exists l1, ((l = [] /\ l1 = [] /\ sep tss = []) \/ (l <> [] /\ Q l1 (sep tss))) /\ map meaning l1 = map meaning l).
  { destruct H as [->|[N R]].
    - exists []. split; [constructor|]. intros tss F. inversion F; subst. exists []. auto.
    - destruct (rows_solid _ _ _ R (pcat_solid c) ft T) as (Xs & A & B). exists Xs. split; [exact A|]. intros tss F. destruct (B tss F) as (l1 & B1 & B2). exists l1. auto. }
  destruct A as (Xs & A & B).
  destruct (seq_spec P ft o k p (map (item_of ft) l) (Some en) md compact multi st ts d stk Xs E PO O K NS A) as (tss & cs & F & CS & PP); [intro; contradiction|exact FE|].
  destruct (B _ F) as (l1 & B1 & B2). exists l1, (sep tss), cs. rewrite map_length in CS. auto.
Qed.
Lemma gb_call c x p l e fc fm tx ts0 : goodb Prim x tx -> (l = [] \/ (l <> [] /\ rows (pcat Arg) (row Arg) l)) -> goodb Prim (ECall c x p l e fc fm) ts0.
Proof.
  intros G H ft w outer T F. eexists. split; [intro st; cbn [print_expr print_body com]; reflexivity|]. destruct T as [_ (T1 & T2 & T3)].
  apply paren_prints; [auto|]. intros st ts d stk C E.
  destruct (good_prints Prim x tx ft w precSuffix G T1 Logic.I st ts d stk C E) as (t1 & (e1 & c3 & -> & O & M & X) & S1 & P1).
  set (st1 := print_expr ft None x precSuffix st) in *. cbv zeta.
  destruct (seq_list closer Arg (row Arg) ft "("%char ")"%char p l e modeCall (if is_module ft && (isBazelDep (ECall c x p l e fc fm) || isUseRepoOrUseExtension (ECall c x p l e fc fm))
        then (p_line (start_pos (ECall c x p l e fc fm)) =? p_line (end_pos (ECall c x p l e fc fm)))%Z else fc) fm st1 (ts ++ t1) d stk H T2 T3) as (l1 & tl & cs & Q & M1 & CS & S2 & P2);
    [eapply entry_mid; [exact P1|auto]|reflexivity|cbn; auto|cbn; auto|discriminate|discriminate|].
  exists (t1 ++ LP :: tl ++ cs ++ [RP]). split.
  - exists (ECall no_com e1 no_pos l1 no_end false false). apply meaning_map in M1. apply stands_same; [auto| |mean|].
    + destruct Q as [(-> & -> & ->)|[N R]].
      * destruct CS as [[->|(_ & Q & _)] _]; [|contradiction]. now apply p_call0.
      * apply (p_call no_com e1 no_pos l1 no_end false false t1 LP [] tl cs RP); auto; try reflexivity; [constructor|]. now apply cs_commas in CS.
    + intros a _ Y. destruct t1 as [|? [|? ?]]; destruct tl; destruct cs; discriminate.
  - flat. split; [eapply same_trans; eauto|exact P2].
Qed.
(** Load statements. *)
Lemma op_sp op top st ts d stk : scans op closer d top d -> (exists c s, op = c :: s) -> nosp (rev op) -> sits (Mid closer 0) st ts d stk ->
  sits (Mid closer 1) (printf %" " (printf (%" " ++ op) st)) (ts ++ top) d stk.
Proof. intros SC (c & s & ->) N H. apply space. rewrite printf_app. eapply (word any); [eapply entry_space, H|reflexivity|exact SC|auto|exact N]. Qed.
Lemma scan_sym_closer w k d : In (w, k) symbols -> scans w closer d [tok0 k w] d.
Proof. intro H. eapply scans_weaken; [now apply scan_symbol|]. apply closer_loose. Qed.
Definition EQ : token := tok0 (KChar "=") %"=".
Lemma scan_eq d : scans %"=" closer d [EQ] d.
Proof. apply scan_sym_closer. unfold symbols. apply in_or_app. left. cbn. tauto. Qed.
Lemma asString_prints P i w : within starter P -> exists p, iprints P (fun ts1 => ts1 = [str_tok p (i_name i) false]) (print_strlit (asString i)) w.
Proof.
  intro W. exists (quote (i_name i) false). intros st ts d stk C E. eexists. split; [reflexivity|]. unfold print_strlit, asString. cbn [s_value s_triple s_token].
  rewrite print_other by discriminate. split; [apply printf_same|]. eapply put_text; eauto. apply good_quote.
Qed.
Lemma load_item_prints f t tl : load_arg f t tl -> Forall wf_tok tl -> fine_id f -> fine_id t ->
  exists X, iprints solid X (it_print (load_item f t)) Inside /\ forall ts1, X ts1 -> exists f1 t1, load_arg f1 t1 ts1 /\ i_name f1 = i_name f /\ i_name t1 = i_name t.
Proof.
  intros H W (F1 & F2 & F3) (T1 & T2 & T3). unfold load_item. destruct (beq (i_name f) (i_name t)) eqn:B.
  - apply beq_eq in B. destruct (asString_prints solid f Inside within_starter) as (p & A). eexists. split.
    + cbn [it_print]. apply node_prints; [exact A|repeat split; auto|auto|congruence].
    + intros ts1 ->. exists (Ident no_com no_pos (i_name f)), (Ident no_com no_pos (i_name t)). split; [|auto]. apply la_same; auto; reflexivity.
  - assert (exists i, spelled i /\ spelled_ident t i) as (i & SI & ST).
    { inversion H; subst; [apply BaseProofs.beq_neq in B; congruence|]. wfs. eauto. }
    destruct (asString_prints solid f Inside within_starter) as (p & A).
    exists (fun ts1 => ts1 = [tok0 KIdent (i_name t); EQ; str_tok p (i_name f) false]). split.
    + cbn [it_print]. apply node_prints; [|repeat split; constructor|auto|congruence]. intros st ts d stk C E.
      pose proof (node_prints solid _ (i_com t) _ Inside (ident_prints solid t i Inside SI ST within_starter) (conj T1 (conj T2 T3)) (within_refl _) ltac:(congruence)) as NP.
      destruct (NP st ts d stk C E) as (ts1 & -> & S1 & P1).
      fold (print_ident t) in *. set (st1 := print_ident t st) in *.
      assert (P2 : sits (Mid closer 1) (printf %" " (printf %" =" st1)) ((ts ++ [tok0 KIdent (i_name t)]) ++ [EQ]) d stk) by (apply (op_sp %"="); [apply scan_eq|eexists _, _; reflexivity|cbn; discriminate|exact P1]).
      set (st2 := printf %" " (printf %" =" st1)) in *.
      pose proof (node_prints solid _ (s_com (asString f)) _ Inside A (conj F1 (conj F2 F3)) (within_refl _) ltac:(congruence)) as NP2.
      destruct (NP2 st2 ((ts ++ [tok0 KIdent (i_name t)]) ++ [EQ]) d stk) as (ts2 & -> & S2 & P3); [exact C|eapply entry_mid; [exact P2|left; lia]|].
      eexists. split; [reflexivity|]. flat. split; [eapply same_trans; [exact S1|exact S2]|exact P3].
    + intros ts1 ->. exists (Ident no_com no_pos (i_name f)), (Ident no_com no_pos (i_name t)). split; [|auto]. apply la_as; try reflexivity. split; reflexivity.
Qed.
Lemma load_len fr to tl : load_args fr to tl -> List.length fr = List.length to /\ fr <> [].
Proof. induction 1 as [|? ? ? ? ? ? ? ? [IH _]]; [split; [reflexivity|discriminate]|]. rewrite !app_length. cbn. split; [lia|destruct fs; discriminate]. Qed.
Lemma load_items_snoc fr : forall to f t, List.length fr = List.length to -> load_items (fr ++ [f]) (to ++ [t]) = load_items fr to ++ [load_item f t].
Proof. induction fr as [|x fr IH]; intros [|y to] f t L; try discriminate; [reflexivity|]. cbn [app load_items]. rewrite IH by (cbn in L; lia). reflexivity. Qed.
Lemma load_rows fr to tl : load_args fr to tl -> Forall wf_tok tl -> Forall fine_id fr -> Forall fine_id to ->
  exists Xs, Forall2 (fun i X => iprints solid X (it_print i) Inside) (load_items fr to) Xs /\
    forall tss, Forall2 (fun (X : list token -> Prop) t => X t) Xs tss -> exists fr1 to1, load_args fr1 to1 (sep tss) /\ map bare_id fr1 = map bare_id fr /\ map bare_id to1 = map bare_id to.
Proof.
  induction 1 as [f t ts H|fs ts tl c f t ta H IH CH H1]; intros W F T.
  - inversion F as [|? ? F1 _]; subst. inversion T as [|? ? T1 _]; subst. destruct (load_item_prints f t ts H W F1 T1) as (X & A & B). exists [X]. split; [constructor; [exact A|constructor]|].
    intros tss Q. inversion Q as [|? t1 ? ? Q1 Q2]; subst. inversion Q2; subst. destruct (B _ Q1) as (f1 & t2 & L & N1 & N2). exists [f1], [t2]. split; [now constructor|]. cbn. unfold bare_id. now rewrite N1, N2.
  - wfs. apply Forall_app in F as [F F1]. apply Forall_app in T as [T T1]. apply Forall_inv in F1, T1.
    destruct (IH ltac:(assumption) F T) as (Xs & A & B). destruct (load_item_prints f t ta H1 ltac:(assumption) F1 T1) as (X & A1 & B1). destruct (load_len _ _ _ H) as [L N].
    exists (Xs ++ [X]). split; [rewrite load_items_snoc by exact L; apply Forall2_app; [exact A|constructor; [exact A1|constructor]]|].
    intros tss Q. apply two_snoc in Q as (tss' & t1 & -> & Q1 & Q2). destruct (B _ Q1) as (fr1 & to1 & L1 & M1 & M2). destruct (B1 _ Q2) as (f1 & t2 & L2 & N1 & N2).
    exists (fr1 ++ [f1]), (to1 ++ [t2]). rewrite sep_snoc. { split; [apply las_more; auto; reflexivity|]. rewrite !map_app, M1, M2. cbn. unfold bare_id. now rewrite N1, N2. }
    intros ->. inversion Q1; subst. inversion A as [E|]; subst. destruct fs; [contradiction|]. destruct ts; discriminate.
Qed.
Lemma kw_load : In (%"load", KLoad) keywords. Proof. cbn. tauto. Qed.
Lemma gb_load c p m fr to r fc s tl ts0 : spelled s -> spelled_string m s -> load_args fr to tl -> Forall wf_tok tl -> goodb Prim (ELoad c p m fr to r fc) ts0.
Proof.
  intros SP SM L W ft w outer T F. eexists. split; [intro st; cbn [print_expr print_body com]; reflexivity|]. destruct T as [_ (T1 & T2 & T3 & T4)].
  apply paren_prints; [auto|]. intros st ts d stk C E. cbv zeta.
  pose proof (put_kw starter %"load" KLoad st ts d stk kw_load E (within_refl _)) as P1.
  destruct (strlit_prints solid m s Inside SP SM T1 within_starter) as (pm & A0). destruct (load_rows fr to tl L W T2 T3) as (Xs & A & B).
  destruct (seq_spec closer ft "("%char ")"%char p (Print.Item (s_com m) (s_start m) (s_end m) false (node (s_com m) (print_strlit m)) :: load_items fr to) (Some r) modeLoad fc false (printf %"load" st) (ts ++ [tok0 KLoad %"load"]) d stk
     ((fun ts1 => ts1 = [str_tok pm (s_value m) (s_triple m)]) :: Xs)) as (tss & cs & Q & CS & S2 & P2);
    [eapply entry_mid; [exact P1|auto]|reflexivity|cbn; auto|cbn; auto|discriminate|constructor; [|exact A]|discriminate|exact T4|].
  { cbn [it_print]. apply node_prints; [exact A0|apply T1|auto|congruence]. }
  inversion Q as [|? t1 ? tss' Q1 Q2]; subst. destruct (B _ Q2) as (fr1 & to1 & L1 & M1 & M2).
  assert (NT : tss' <> []). { intros ->. inversion Q2; subst. inversion A as [E1|]; subst. destruct (load_len _ _ _ L) as [LL N]. destruct fr; [contradiction|]. destruct to; discriminate. }
  exists (tok0 KLoad %"load" :: LP :: str_tok pm (s_value m) (s_triple m) :: [CM] ++ sep tss' ++ cs ++ [RP]). split.
  - exists (ELoad no_com no_pos (Str no_com no_pos (s_value m) (s_triple m) no_pos pm) fr1 to1 no_end false). apply stands_same; [auto| | |].
    + apply (p_load no_com no_pos _ fr1 to1 no_end false _ LP [] (str_tok pm (s_value m) (s_triple m)) [CM] (sep tss') cs RP); auto; try reflexivity; try (constructor; fail); try discriminate; [repeat split|apply commas_cm|now apply cs_commas in CS].
    + unfold meaning. cbn [shape plain]. rewrite M1, M2. reflexivity.
    + intros a _ Y. discriminate.
  - destruct tss' as [|t2 tss']; [contradiction|]. cbn [sep] in P2. flat. split; [exact S2|exact P2].
Qed.
(** Lists, sets, dicts, tuples, parentheses. *)
Lemma starter_open o : opener o -> starter o = true. Proof. cbn. intros [<-|[<-|[<-|[]]]]; reflexivity. Qed.
Lemma gb_list c p l e fm tl ts0 : pitems Test l tl -> Forall wf_tok tl -> goodb Prim (EList c p l e fm) ts0.
Proof.
  intros H W ft w outer T F. eexists. split; [intro st; cbn [print_expr print_body com]; reflexivity|]. destruct T as [_ (T1 & T2)]. intros st ts d stk C E.
  destruct (seq_list starter Test (row Test) ft "["%char "]"%char p l e modeList false fm st ts d stk (H Logic.I W) T1 T2 E) as (l1 & tl1 & cs & Q & M1 & CS & S2 & P2); [reflexivity|cbn; auto|cbn; auto|discriminate|discriminate|].
  exists (LB :: (tl1 ++ cs) ++ [RB]). split.
  - exists (EList no_com no_pos l1 no_end false). apply meaning_map in M1. apply stands_same; [auto| |mean|].
    + apply p_list; [reflexivity| |reflexivity]. destruct Q as [(-> & -> & ->)|[N R]].
      * destruct CS as [[->|(_ & Q & _)] _]; [|contradiction]. constructor.
      * constructor; auto. now apply cs_commas in CS.
    + intros a _ Y. destruct tl1, cs; discriminate.
  - flat. split; [exact S2|exact P2].
Qed.
Definition LC : token := tok0 (KChar "{") %"{".
Definition RC : token := tok0 (KChar "}") %"}".
Lemma gb_dict c p l e fm tl ts0 : pitems Pair l tl -> Forall wf_tok tl -> goodb Prim (EDict c p l e fm) ts0.
Proof.
  intros H W ft w outer T F. eexists. split; [intro st; cbn [print_expr print_body com]; reflexivity|]. destruct T as [_ (T1 & T2)]. intros st ts d stk C E.
  destruct (seq_list starter Pair (row Pair) ft "{"%char "}"%char p l e modeDict false fm st ts d stk (H Logic.I W) T1 T2 E) as (l1 & tl1 & cs & Q & M1 & CS & S2 & P2); [reflexivity|cbn; auto|cbn; auto|discriminate|discriminate|].
  exists (LC :: (tl1 ++ cs) ++ [RC]). split.
  - exists (EDict no_com no_pos l1 no_end false). apply meaning_map in M1. apply stands_same; [auto| |mean|].
    + apply p_dict; [reflexivity| |reflexivity]. destruct Q as [(-> & -> & ->)|[N R]].
      * destruct CS as [[->|(_ & Q & _)] _]; [|contradiction]. constructor.
      * constructor; auto. now apply cs_commas in CS.
    + intros a _ Y. destruct tl1, cs; discriminate.
  - flat. split; [exact S2|exact P2].
Qed.
Lemma gb_set c p l e fm tl ts0 : prow Test l tl -> Forall wf_tok tl -> goodb Prim (ESet c p l e fm) ts0.
Proof.
  intros H W ft w outer T F. eexists. split; [intro st; cbn [print_expr print_body com]; reflexivity|]. destruct T as [_ (T1 & T2)]. intros st ts d stk C E.
  destruct (seq_list starter Test (row Test) ft "{"%char "}"%char p l e modeList false fm st ts d stk (or_intror (H Logic.I W)) T1 T2 E) as (l1 & tl1 & cs & Q & M1 & CS & S2 & P2); [reflexivity|cbn; auto|cbn; auto|discriminate|discriminate|].
  exists (LC :: tl1 ++ cs ++ [RC]). split.
  - exists (ESet no_com no_pos l1 no_end false). apply meaning_map in M1. apply stands_same; [auto| |mean|].
    + destruct Q as [(-> & _)|[N R]]; [exfalso; apply (proj1 (H Logic.I W)); reflexivity|]. apply cs_commas in CS as [? ?]. apply p_set; auto; reflexivity.
    + intros a _ Y. destruct tl1, cs; discriminate.
  - flat. split; [exact S2|exact P2].
Qed.
Lemma gb_paren c p x e fm tx ts0 : goodb Test x tx -> goodb Prim (EParen c p x e fm) ts0.
Proof.
  intros H ft w outer T F. eexists. split; [intro st; cbn [print_expr print_body com]; reflexivity|]. destruct T as [_ (T1 & T2)]. intros st ts d stk C E.
  assert (R : [x] <> [] /\ rows (pcat Test) (fun l t => exists y, l = [y] /\ one Test y t) [x]).
  { split; [discriminate|]. eapply (rows_one _ _ Test); eauto. }
  destruct (seq_list starter Test _ ft "("%char ")"%char p [x] e modeParen false fm st ts d stk (or_intror R) (conj T1 Logic.I) T2 E) as (l1 & tl1 & cs & Q & M1 & CS & S2 & P2); [reflexivity|cbn; auto|cbn; auto|discriminate|discriminate|].
  destruct Q as [(? & _)|(_ & y & -> & O)]; [discriminate|]. destruct CS as [[->|(_ & _ & Q & _)] _]; [|contradiction]. cbn [app] in *.
  exists (LP :: tl1 ++ [RP]). split.
  - exists (EParen no_com no_pos y no_end false). cbn [map] in M1. assert (M2 : meaning y = meaning x) by congruence. apply stands_same; [auto| |mean|].
    + now apply p_paren.
    + intros a _ Y. destruct tl1; discriminate.
  - split; [exact S2|exact P2].
Qed.
Lemma gb_tuple c p l e fc fm ts0 : (l = [] \/ (l <> [] /\ rows (pcat Test) (row Test) l)) -> goodb Prim (ETuple c false p l e fc fm) ts0.
Proof.
  intros H ft w outer T F. eexists. split; [intro st; cbn [print_expr print_body com]; reflexivity|]. destruct T as [_ (T1 & T2)]. intros st ts d stk C E.
  destruct (seq_list starter Test (row Test) ft "("%char ")"%char p l e modeTuple fc fm st ts d stk H T1 T2 E) as (l1 & tl1 & cs & Q & M1 & CS & S2 & P2); [reflexivity|cbn; auto|cbn; auto|discriminate|discriminate|].
  exists (LP :: tl1 ++ cs ++ [RP]). split.
  - exists (ETuple no_com false no_pos l1 no_end false false). pose proof (f_equal (@List.length expr) M1) as LL. rewrite !map_length in LL. apply meaning_map in M1. apply stands_same; [auto| |mean|].
    + destruct Q as [(-> & -> & ->)|[N R]].
      * destruct CS as [[->|(_ & Q & _)] _]; [|contradiction]. now apply p_tuple0.
      * pose proof CS as CS0. apply cs_commas in CS as [? _]. apply p_tuple; auto; try reflexivity. intros L ->. destruct CS0 as [_ CS0]. rewrite LL in L. specialize (CS0 eq_refl L). discriminate.
    + intros a _ Y. destruct tl1, cs; discriminate.
  - flat. split; [exact S2|exact P2].
Qed.
(** Tuples without parentheses. *)
Lemma gb_bare (cc : cat) c0 c1 c p l d fc fm tl ts0 : (cc = Expr /\ c0 = Test /\ c1 = ParseSpec.Item) \/ (cc = Vars /\ c0 = Prim /\ c1 = Prim) -> prow1 c0 c1 l tl -> Forall wf_tok tl -> 2 <= List.length l ->
  goodb cc (ETuple c true p l d fc fm) ts0.
Proof.
  intros HC H W L ft w outer T F. eexists. split; [intro st; cbn [print_expr print_body com]; reflexivity|]. destruct T as [_ (T1 & T2)]. intros st ts dp stk C E.
  assert (PC : pcat cc = starter /\ pcat c0 = starter /\ pcat c1 = starter /\ simple c0 /\ simple c1 /\ simple cc) by (destruct HC as [(-> & -> & ->)|(-> & -> & ->)]; repeat split).
  destruct PC as (PC1 & PC2 & PC3 & SC1 & SC2 & SC3). destruct (H SC1 SC2 W) as [N R]; [congruence|]. rewrite PC1, PC2 in *.
  set (w' := match w with Inside => Inside | _ => InTuple end) in *.
  destruct (R ft w') as (Xs & A & B). { eapply all_imp; [|exact T1]. cbn beta. intros x (X1 & X2 & X3). split; auto. }
  destruct (seq_bare_spec starter ft ("(", ")")%char p (map (item_of ft) l) d fc fm w' st ts dp stk Xs E within_starter) as (tss & Q & S2 & P2).
  { intro Q. apply N. destruct l; [reflexivity|discriminate]. }
  { unfold w'. destruct w; try discriminate. intros _. exact C. }
  { unfold w'. destruct w; discriminate. }
  { exact A. }
  { clear -T1. induction l as [|x l IH]; constructor; [|apply IH, T1]. cbn. destruct T1 as [(X1 & X2 & _) _]. auto. }
  { exact T2. }
  destruct (B _ Q) as (l1 & B1 & M1). pose proof (f_equal (@List.length expr) M1) as LL. rewrite !map_length in LL. apply meaning_map in M1.
  exists (sep tss). split; [|split; [exact S2|exact P2]].
  exists (ETuple no_com true no_pos l1 no_end false false). apply stands_same; [auto| |mean|].
  - destruct HC as [(-> & -> & ->)|(-> & -> & ->)]; constructor; auto; lia.
  - destruct HC as [(-> & _)|(-> & _)]; exact Logic.I.
Qed.
