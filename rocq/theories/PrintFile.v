(** Printed files are read back as the same files. *)
From Verif Require Import LRTables LRCert Parse PropComplete.
From Verif Require Import Base BaseProofs Ast Utf8 Quote Lex LexSpec LexProofs ParseSpec ShapeSpec ParseLex ParseProofs ParseComplete Print PrintSpec PrintLex PrintTok PrintState PrintSeq PrintExpr PrintPrim PrintTest PrintGood PrintStmt PrintBlock PrintMove.
Local Open Scope list_scope.

Definition begun0 := begun [] [0] [] [0].
Definition com_line_step (st : pst) (c : comment) : pst := newline (put_comment c st).
(** A comment written right after what is there. *)
Lemma com_unfin c m ns st ts stk : fine c -> at_ m (o_out st) (ts ++ ns) 0 stk -> unfin ns m -> exists m' ns', at_ m' (o_out (put_comment c st)) (ts ++ ns') 0 stk /\ unfin ns' m'.
Proof.
  intros F A U. destruct (put_comment_at c _ _ _ _ _ F A) as [Q|Q]; [|exists m, ns; rewrite Q; auto].
  exists (InCom 0), (ns ++ com_tok m 0). split; [now rewrite app_assoc|]. intros ns2 [N2 C2]. rewrite <- app_assoc. apply U. unfold com_tok. destruct (C2 eq_refl) as (ns3 & -> & N3).
  destruct (is_fresh m) eqn:FR; cbn [app]; (split; [|rewrite FR; intro; try discriminate; eauto]); [now apply nz_com|exact N2].
Qed.
Lemma com_part c m ns st ts stk : fine c -> at_ m (o_out st) (ts ++ ns) 0 stk -> part ns m -> exists m' ns', at_ m' (o_out (put_comment c st)) (ts ++ ns') 0 stk /\ part ns' m'.
Proof.
  intros F A U. destruct (put_comment_at c _ _ _ _ _ F A) as [Q|Q]; [|exists m, ns; rewrite Q; auto].
  exists (InCom 0), (ns ++ com_tok m 0). split; [now rewrite app_assoc|]. intros ns2 [N2 C2]. rewrite <- app_assoc. apply U. unfold com_tok. destruct (C2 eq_refl) as (ns3 & -> & N3).
  destruct (is_fresh m) eqn:FR; cbn [app]; (split; [|rewrite FR; intro; try discriminate; eauto]); [now apply nz_com|exact N2].
Qed.
(** [ended] without the flag. *)
Definition wherever (ms : list expr) (st : pst) : Prop :=
  Forall fine (o_com st) /\
  ((ms = [] /\ exists m ns, at_ m (o_out st) ([] ++ ns) 0 [0] /\ part ns m) \/
   (exists nz l1 tb j xs m ns, noise nz /\ opens l1 tb j /\ map meaning l1 = ms /\ List.length xs = j /\ Forall (fun x => o_margin st < x) xs /\ unfin ns m /\
     at_ m (o_out st) ((nz ++ tb) ++ ns) 0 (xs ++ [0]))).
Lemma begun_wherever ms st : begun0 ms st -> wherever ms st.
Proof.
  intros [(-> & nz & N & (A & _ & F))|(nz & l1 & tb & j & xs & ns & N & O & M & LX & FX & NN & (A & _ & F))]; (split; [exact F|]).
  - left. split; [reflexivity|]. exists (Fresh (o_margin st)), nz. split; [exact A|now apply part_fresh].
  - right. exists nz, l1, tb, j, xs, (Fresh (o_margin st)), (NL :: ns). repeat (split; [assumption|]). split; [now apply unfin_fresh|]. cbn [app] in A. rewrite <- app_assoc. exact A.
Qed.
Lemma ended_wherever ms st : ended [] [0] [] [0] ms st -> wherever ms st.
Proof.
  intros (_ & F & H). split; [exact F|]. destruct H as [H|(nz & l1 & tb & j & xs & m & ns & N & O & M & LX & FX & U & A)]; [left; exact H|right].
  exists nz, l1, tb, j, xs, m, ns. repeat (split; [assumption|]). cbn [app] in A. rewrite <- app_assoc. exact A.
Qed.
Lemma wherever_newline ms st : wherever ms st -> begun0 ms (newline st) /\ same st (newline st).
Proof.
  intros (F & [(-> & m & ns & H & P)|(nz & l1 & tb & j & xs & m & ns & N & O & M & LX & FX & U & H)]).
  - destruct (newline_part m ns st [] [0] H P F) as (ns' & N & S1 & S2 & _). split; [|exact S2]. left. split; [reflexivity|]. exists ns'. split; [exact N|]. rewrite (proj1 S2). exact S1.
  - destruct (newline_unfin m ns st _ _ H U F) as (ns' & N' & S1 & S2 & _). split; [|exact S2]. right. exists nz, l1, tb, j, xs, ns'. rewrite (proj1 S2).
    repeat (split; [assumption|]). rewrite <- app_assoc in S1. exact S1.
Qed.
Lemma wherever_com c ms st : fine c -> wherever ms st -> wherever ms (put_comment c st).
Proof.
  intros FC (F & [(-> & m & ns & H & P)|(nz & l1 & tb & j & xs & m & ns & N & O & M & LX & FX & U & H)]); (split; [exact F|]).
  - left. split; [reflexivity|]. eapply com_part; eauto.
  - right. destruct (com_unfin c m ns st _ _ FC H U) as (m' & ns' & A & B). exists nz, l1, tb, j, xs, m', ns'. auto 10.
Qed.
Lemma coms_steps l : forall ms st, Forall fine l -> wherever ms st -> (l = [] \/ begun0 ms (fold_left com_line_step l st)) /\ same st (fold_left com_line_step l st).
Proof.
  induction l as [|c l IH]; intros ms st F W; [split; [auto|apply same_refl]|]. inversion F; subst. cbn [fold_left].
  destruct (wherever_newline ms (put_comment c st)) as [B S1]; [now apply wherever_com|]. fold (com_line_step st c) in B, S1.
  destruct (IH ms (com_line_step st c)) as [R S2]; [assumption|now apply begun_wherever|].
  split; [|eapply same_trans; eauto]. right. destruct R as [-> |R]; [exact B|exact R].
Qed.
Lemma stmts_prefix nz k l ts : noise nz -> stmts k l ts -> stmts k l (nz ++ ts).
Proof.
  intros N. assert (Z : stmts false [] nz) by (apply (stmts_noise nz N [] []); constructor).
  induction 1 as [|l ts nl H IH C|k l ts c nl H IH C1 C2|k l ts l' tl H IH L|k l ts k' e te H IH B].
  - now rewrite app_nil_r.
  - rewrite app_assoc. now apply st_blank.
  - rewrite app_assoc. eapply st_comment; eauto.
  - rewrite app_assoc. eapply st_line; eauto.
  - rewrite app_assoc. eapply st_block; eauto.
Qed.
Lemma rd_uns xs b : Forall (fun x => 0 < x) xs -> reads (mk [] 0 b 0 (xs ++ [0])) (uns (List.length xs)) (mk [] 0 b 0 [0]).
Proof.
  induction 1 as [|x xs L F IH]; [apply reads_sim, sim_refl|]. cbn [app List.length]. change (uns (S (List.length xs))) with ([UN] ++ uns (List.length xs)). eapply reads_trans; [apply rd_un_end, L|exact IH].
Qed.
Definition listed (stmts : list (option expr)) : list expr := flat_map (opt_list (fun x => x)) stmts.
Lemma file_elems ft stmts : Forall stmt_ok (code (listed stmts)) -> Forall (fun o => match o with Some x => PrintSpec.tidy Outside x | None => True end) stmts ->
  Forall (elem ft) (map (stm ft) (listed stmts)).
Proof.
  intros F T. apply bodies; [exact F|]. unfold listed in *. clear F. induction T as [|o l T _ IH]; [exact Logic.I|]. destruct o as [x|]; cbn [flat_map opt_list app]; [split; [exact T|exact IH]|exact IH].
Qed.
(** What the printer writes for a file. *)
Lemma file_begun ft c stmts : Forall stmt_ok (code (listed stmts)) -> fine_coms c -> Forall (fun o => match o with Some x => PrintSpec.tidy Outside x | None => True end) stmts ->
  begun0 (meanings (listed stmts)) (print_file ft c stmts new_printer) /\ same new_printer (print_file ft c stmts new_printer).
Proof.
  intros FO (F1 & F2 & F3) T. unfold print_file. fold (listed stmts). change (map (fun x => (x, print_expr ft None x precLow)) (listed stmts)) with (map (stm ft) (listed stmts)).
  change (fun (st : pst) (c0 : comment) => newline (put_comment c0 st)) with com_line_step.
  assert (B0 : begun0 [] new_printer).
  { left. split; [reflexivity|]. exists []. split; [constructor|]. split; [|split; [reflexivity|constructor]]. exists []. split; [reflexivity|]. split; [auto|]. intro w. apply reads_sim, sim_refl. }
  destruct (coms_steps (c_before c) [] new_printer F1 (begun_wherever _ _ B0)) as [B1 S1]. set (st1 := fold_left com_line_step (c_before c) new_printer) in *.
  assert (B1' : begun0 [] st1) by (destruct B1 as [E|B1]; [unfold st1; rewrite E; exact B0|exact B1]). clear B1.
  assert (H1 : here st1 [0]) by (split; apply S1).
  assert (X : exists st2, statements ft (map (stm ft) (listed stmts)) st1 = st2 /\ same new_printer st2 /\ wherever (meanings (listed stmts)) st2 /\ (begun0 (meanings (listed stmts)) st2 \/ o_nl st2 = true)).
  { destruct (listed stmts) as [|e l] eqn:EL; [exists st1; cbn; auto using begun_wherever|]. rewrite <- EL in *.
    destruct (statements_spec ft [] [0] [] [0] (map (stm ft) (listed stmts)) [] st1 (file_elems ft stmts FO T)) as [E2 S2]; [rewrite EL; discriminate|rewrite (proj1 H1); apply turn_same; reflexivity|exact H1|exact B1'|].
    eexists. split; [reflexivity|]. cbn [app] in E2. rewrite map_fst_stm in E2. split; [eapply same_trans; eauto|]. split; [now apply ended_wherever|]. right. apply E2. }
  destruct X as (st2 & -> & S2 & W2 & D2). destruct (coms_steps (c_after c) _ st2 F3 W2) as [B3 S3]. set (st3 := fold_left com_line_step (c_after c) st2) in *.
  assert (S4 : same new_printer st3) by (eapply same_trans; eauto).
  assert (Q : begun0 (meanings (listed stmts)) st3 \/ (st3 = st2 /\ o_nl st2 = true)).
  { destruct B3 as [E|B3]; [|left; exact B3]. unfold st3. rewrite E. cbn. destruct D2; auto. }
  unfold newlineIfNeeded. destruct Q as [Q|[-> Q]].
  - assert (o_nl st3 = false) as ->; [|auto]. destruct Q as [(_ & nz & _ & A)|(nz & l1 & tb & j & xs & ns & _ & _ & _ & _ & _ & _ & A)]; apply A.
  - rewrite Q. destruct (wherever_newline _ _ W2) as [B4 S5]. split; [exact B4|]. eapply same_trans; [exact S2|exact S5].
Qed.
Theorem file_reads m c stmts0 : Forall stmt_ok (code (listed stmts0)) -> fine_coms c -> Forall (fun o => match o with Some x => PrintSpec.tidy Outside x | None => True end) stmts0 ->
  exists out l1 ts eof st, FormatWithoutRewriting (EFile c m stmts0) = Some out /\ tokenize out = Lexed (ts ++ [eof]) st /\ is KEof eof /\ program l1 ts /\ meanings l1 = meanings (listed stmts0).
Proof.
  intros FO FC T. destruct (file_begun (f_type m) c stmts0 FO FC T) as [B S1]. unfold FormatWithoutRewriting. cbn zeta. set (st := print_file (f_type m) c stmts0 new_printer) in *.
  assert (o_ok st = true) as -> by apply S1. exists (rev (o_out st)).
  assert (R : exists l1 ts, (exists k, stmts k l1 ts) /\ Forall (fun e => is_code e = true) l1 /\ map meaning l1 = meanings (listed stmts0) /\ reads (mk (rev (o_out st) ++ [c_nl]) 0 true 0 [0]) ts (mk [] 0 true 0 [0])).
  { destruct B as [(EM & nz & N & (A & _))|(nz & l1 & tb & j & xs & ns & N & (O1 & O2 & O3) & M & LX & FX & NN & (A & _))].
    - exists [], (nz ++ [NL]). split; [exists false; apply (stmts_noise _ (noise_app _ _ N (no_nl _ no_nil)) [] []); constructor|]. split; [constructor|]. split; [now rewrite EM|].
      eapply reads_trans; [eapply at_fresh; exact A|]. apply rd_nl_out.
    - exists l1, (nz ++ tb ++ NL :: (ns ++ [NL]) ++ uns j). split; [exists false; apply stmts_prefix; [exact N|]; apply O3, noise_app; [exact NN|apply no_nl, no_nil]|]. split; [exact O1|]. split; [exact M|].
      replace (nz ++ tb ++ NL :: (ns ++ [NL]) ++ uns j) with ((nz ++ tb ++ NL :: ns) ++ [NL] ++ uns j) by (repeat (rewrite <- !app_assoc; cbn [app]); reflexivity).
      eapply reads_trans; [eapply at_fresh; exact A|]. eapply reads_trans; [apply rd_nl_out|]. rewrite <- LX. apply rd_uns. eapply Forall_impl; [|exact FX]. cbn. intros x X. lia. }
  destruct R as (l1 & ts & (k & P) & C & M & R). destruct (reads_tokens _ _ _ R) as (ts' & eof & lx & TK & KE & BT).
  destruct (meanings_code _ C) as [Q1 Q2]. exists l1, ts', eof, lx. split; [reflexivity|]. split; [exact TK|]. split; [exact KE|]. split; [|congruence].
  apply (move_program l1 l1 ts ts'); [reflexivity| |exists k; rewrite Q2; exact P]. rewrite <- BT, map_map. apply map_ext. intro t. unfold PrintLex.bare. cbn [t_kind t_tok t_str t_triple t_pos]. destruct (t_kind t); reflexivity.
Qed.
