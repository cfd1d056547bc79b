(** Printed blocks: functions, loops, conditionals. *)
From Verif Require Import Base BaseProofs Ast Utf8 Quote Lex LexSpec LexProofs ParseSpec ShapeSpec ParseLex ParseProofs ParseComplete Print PrintSpec PrintLex PrintTok PrintState PrintSeq PrintExpr PrintPrim PrintTest PrintGood PrintStmt.
Local Open Scope list_scope.

Definition stm (ft : ftype) (x : expr) : expr * (pst -> pst) := (x, print_expr ft None x precLow).
Lemma map_fst_stm ft l : map fst (map (stm ft) l) = l.
Proof. rewrite map_map. apply map_id. Qed.
(** The meaning of a body. *)
Lemma plain_body b : map plain (flat_map (fun s => if is_code s then [shape s] else []) b) = meanings b.
Proof.
  unfold meanings, code. induction b as [|e b IH]; [reflexivity|]. cbn [flat_map filter]. destruct (is_code e); cbn [app map]; [|exact IH]. now rewrite IH.
Qed.
Lemma meanings_code l : Forall (fun e => is_code e = true) l -> meanings l = map meaning l /\ code l = l.
Proof.
  unfold meanings. intro H. assert (code l = l) as ->; [|auto]. induction H as [|e l E _ IH]; [reflexivity|]. unfold code in *. cbn [filter]. now rewrite E, IH.
Qed.
(** A suite after a colon. *)
Definition body_done (b : list expr) (st st' : pst) (ts : list token) (stk : list nat) : Prop :=
  same st st' /\ o_nl st' = true /\ Forall fine (o_com st') /\
  exists l1 pre j xs m ns, meanings l1 = meanings b /\ code l1 = l1 /\ (forall ns, noise ns -> suite false l1 (pre ++ NL :: ns ++ uns j)) /\
    List.length xs = j /\ Forall (fun x => o_margin st < x) xs /\ unfin ns m /\ at_ m (o_out st') (ts ++ pre ++ ns) 0 (xs ++ stk).
Lemma uns_snoc j : uns (S j) = uns j ++ [UN].
Proof. unfold uns. cbn [repeat]. now rewrite repeat_cons. Qed.
Lemma nested_spec ft l K k st ts stk : Forall (elem ft) l -> code (map fst l) <> [] -> sits (Mid K k) st ts 0 stk -> here st stk ->
  body_done (map fst l) st (nestedStatements ft l st) ts stk.
Proof.
  intros F NE (A & B & C) [H1 H2]. unfold nestedStatements. set (st0 := set_level (S (o_level st)) (set_margin (o_margin st + nestedIndentation) st)).
  destruct (newline_spec (Mid K k) st0 ts 0 stk A C) as (ns & (_ & _ & EN) & S1 & S2 & _). destruct (EN eq_refl eq_refl) as (ns' & -> & N').
  set (st1 := newline st0) in *. assert (M1 : o_margin st1 = o_margin st + 4) by apply S2. change (o_margin st0) with (o_margin st + 4) in S1.
  assert (TU : turns (o_margin st1) stk [IND] ((o_margin st + 4) :: stk)) by (rewrite M1; apply turn_in; rewrite <- H1; lia).
  assert (LN : l <> []) by (intros ->; now apply NE).
  destruct (statements_spec ft (ts ++ [NL]) stk [IND] ((o_margin st + 4) :: stk) l [] st1 F LN TU) as [(E1 & E2 & E3) S3].
  { split; [exact M1|]. destruct S2 as (_ & -> & _). exact H2. }
  { left. split; [reflexivity|]. exists ns'. split; [exact N'|]. rewrite M1, <- app_assoc. exact S1. }
  assert (S4 : same st0 (statements ft l st1)) by (eapply same_trans; eauto).
  set (st2 := statements ft l st1) in *. destruct S4 as (S41 & S42 & S43 & S44). change (o_margin st0) with (o_margin st + 4) in S41. change (o_level st0) with (S (o_level st)) in S43.
  split. { repeat split; cbn [o_margin o_depth o_level o_ok set_level set_margin]; [rewrite S41; unfold nestedIndentation; lia|exact S42|rewrite S43; reflexivity|exact S44]. }
  split; [exact E1|]. split; [exact E2|]. cbn [app] in E3.
  destruct E3 as [[E3 _]|(nz & l1 & tb & j & xs & m & ns & N & (O1 & O2 & O3) & M & LX & FX & U & AT)].
  { unfold meanings in E3. destruct (code (map fst l)); [contradiction|discriminate]. }
  destruct (meanings_code _ O1) as [Q1 Q2].
  exists l1, (NL :: nz ++ IND :: tb), (S j), (xs ++ [o_margin st + 4]), m, ns. split; [congruence|]. split; [exact Q2|]. split.
  { intros ns0 N0. rewrite uns_snoc. cbn [app]. rewrite <- !app_assoc. cbn [app].
    replace (tb ++ NL :: ns0 ++ uns j ++ [UN]) with ((tb ++ NL :: ns0 ++ uns j) ++ [UN]) by (rewrite <- app_assoc; cbn [app]; now rewrite <- app_assoc).
    eapply su_block; [reflexivity| |reflexivity|apply O3, N0|exact O2|reflexivity]. apply (stmts_noise nz N [] []). constructor. }
  split; [rewrite app_length, LX; cbn; lia|]. split; [apply Forall_app; split; [eapply Forall_impl; [|exact FX]; cbn; intros; lia|constructor; [lia|constructor]]|]. split; [exact U|].
  repeat (rewrite <- !app_assoc in *; cbn [app] in * ). exact AT.
Qed.

(** ** Conditionals *)
Definition if_tail (ft : ftype) (x : expr) (t : list expr) (ep : endp) (f : list expr) (st : pst) : pst :=
  let st := printf %":" (print_expr ft None x precLow (printf %"if " st)) in
  let st := nestedStatements ft (map (stm ft) t) st in
  let st := match t with [] => panic st | _ => st end in
  let needsEmptyLine := (1 <? p_line (e_pos ep) - p_line (last (map end_pos t) no_pos))%Z in
  let else_part st :=
    if nonempty f then
      let st := newlineIfNeeded st in
      let st := if needsEmptyLine then newline st else st in
      let st := printf %"else:" st in
      nestedStatements ft (map (stm ft) f) (set_coms (o_com st ++ c_suffix (e_com ep)) st)
    else st in
  match f with
  | [EIf cn _ _ _ _ _ as next] =>
      if nonempty (c_suffix (e_com ep)) || nonempty (c_before cn) then else_part st
      else print_expr ft (Some needsEmptyLine) next precLow st
  | _ => else_part st
  end.
Lemma print_if ft c p x t ep f outer st : print_expr ft None (EIf c p x t ep f) outer st = node c (fun st => if_tail ft x t ep f (newlineIfNeeded st)) st.
Proof. reflexivity. Qed.
Lemma print_elif ft b c p x t ep f outer st : print_expr ft (Some b) (EIf c p x t ep f) outer st =
  if_tail ft x t ep f (printf %"el" (if b then newline (newlineIfNeeded st) else newlineIfNeeded st)).
Proof. reflexivity. Qed.

Definition tail_done (ft : ftype) (e : expr) (x : expr) (t : list expr) (ep : endp) (f : list expr) : Prop :=
  forall st ts stk, sits (Mid closer 1) (printf %"if " st) ts 0 stk -> here st stk ->
    exists pre j e1, meaning e1 = meaning e /\ is_code e1 = true /\ (forall ns, noise ns -> one (IfTail false) e1 (pre ++ NL :: ns ++ uns j)) /\
      fin st (if_tail ft x t ep f st) (ts ++ pre) j stk.
Definition stmt_good (e : expr) : Prop := forall ft, PrintSpec.tidy Outside e -> fresh_stmt e (print_expr ft None e precLow).
Definition tail_good (e : expr) : Prop := match e with EIf c p x t ep f => forall ft, PrintSpec.tidy Outside e -> tail_done ft e x t ep f | _ => True end.
Definition stmt_ok (e : expr) : Prop := stmt_good e /\ tail_good e.
Lemma bodies ft l : Forall stmt_ok (code l) -> all_of (PrintSpec.tidy Outside) l -> Forall (elem ft) (map (stm ft) l).
Proof.
  induction l as [|e l IH]; intros F T; [constructor|]. destruct T as [T1 T2]. unfold code in *. cbn [filter] in F. cbn [map]. constructor.
  - split; [exact T1|]. cbn [stm fst snd]. destruct (is_code e); [|reflexivity]. inversion F as [|? ? [G _] _]; subst. now apply G.
  - apply IH; [|exact T2]. destruct (is_code e); [inversion F|]; auto.
Qed.
Lemma newline_needed st : o_nl st = true -> newlineIfNeeded st = newline st.
Proof. unfold newlineIfNeeded. now intros ->. Qed.
(** The word after a suite. *)
Lemma after_body b st st' ts stk (ne : bool) : body_done b st st' ts stk -> here st stk ->
  exists l1 pre, meanings l1 = meanings b /\ code l1 = l1 /\ suite false l1 pre /\
    entry starter (if ne then newline (newlineIfNeeded st') else newlineIfNeeded st') (ts ++ pre) 0 stk /\ same st (if ne then newline (newlineIfNeeded st') else newlineIfNeeded st').
Proof.
  intros (S1 & NLT & FC & l1 & pre & j & xs & m & ns & M & C & SU & LX & FX & U & AT) HE. rewrite newline_needed by exact NLT.
  assert (AT' : at_ m (o_out st') ((ts ++ pre) ++ ns) 0 (xs ++ stk)) by now rewrite <- app_assoc.
  destruct (newline_unfin m ns st' (ts ++ pre) (xs ++ stk) AT' U FC) as (ns' & N' & S2 & S3 & _).
  assert (X : exists ns2, noise ns2 /\ sits (Fresh (o_margin st')) (if ne then newline (newline st') else newline st') ((ts ++ pre) ++ NL :: ns2) 0 (xs ++ stk) /\ same st' (if ne then newline (newline st') else newline st')).
  { destruct ne; [|exists ns'; auto]. destruct (newline_fresh _ _ _ _ S2) as (n2 & N2 & S4 & S5 & _). exists (ns' ++ n2). split; [now apply noise_app|]. split; [|eapply same_trans; eauto].
    rewrite (proj1 S3) in S4. rewrite <- app_assoc in S4. exact S4. }
  destruct X as (ns2 & N2 & S4 & S5). exists l1, (pre ++ NL :: ns2 ++ uns j). split; [exact M|]. split; [exact C|]. split; [apply SU, N2|]. split; [|eapply same_trans; eauto].
  rewrite (proj1 S1) in S4. pose proof (turn_out (o_margin st) xs stk (eq_sym (proj1 HE)) FX) as TO. pose proof (entry_turn _ _ _ _ _ _ S4 TO) as EN.
  rewrite LX in EN. fold (uns j) in EN. repeat (rewrite <- !app_assoc in *; cbn [app] in * ). exact EN.
Qed.
(** The last suite. *)
Lemma last_body b st st' ts stk : body_done b st st' ts stk ->
  exists l1 pre j, meanings l1 = meanings b /\ code l1 = l1 /\ (forall ns, noise ns -> suite false l1 (pre ++ NL :: ns ++ uns j)) /\ fin st st' (ts ++ pre) j stk.
Proof.
  intros (S1 & NLT & FC & l1 & pre & j & xs & m & ns & M & C & SU & LX & FX & U & AT). exists l1, pre, j. split; [exact M|]. split; [exact C|]. split; [exact SU|].
  split; [exact S1|]. exists m, ns, xs. rewrite <- app_assoc. auto 6.
Qed.
Lemma meaning_if c p x t ep f c' p' x' t' ep' f' : meaning x' = meaning x -> meanings t' = meanings t -> meanings f' = meanings f ->
  meaning (EIf c' p' x' t' ep' f') = meaning (EIf c p x t ep f).
Proof. intros A B C. unfold meaning in *. cbn [shape plain]. rewrite !plain_body. congruence. Qed.
Lemma code_map_stm ft l : code l <> [] -> code (map fst (map (stm ft) l)) <> []. Proof. now rewrite map_fst_stm. Qed.
Lemma if_core c p x t ep f tx ft : goodb Expr x tx -> code t <> [] -> (f = [] \/ code f <> []) -> Forall stmt_ok (code t) -> Forall stmt_ok (code f) ->
  PrintSpec.tidy Outside (EIf c p x t ep f) -> tail_done ft (EIf c p x t ep f) x t ep f.
Proof.
  intros GX NT NF FT FF (TC & TX & TT & TF & TE) st ts stk S0 HE. unfold if_tail.
  destruct (good_prints Expr x tx ft Outside precLow GX TX Logic.I (printf %"if " st) ts 0 stk) as (t1 & (x1 & c1 & -> & O & M & _) & S1 & P1); [left; apply HE|eapply entry_mid; [exact S0|left; lia]|].
  set (st1 := print_expr ft None x precLow (printf %"if " st)) in *. pose proof (put_colon closer _ _ _ _ (within_refl _) P1) as P2.
  assert (HE1 : here (printf %":" st1) stk) by (eapply here_same; [|exact HE]; exact S1).
  pose proof (nested_spec ft (map (stm ft) t) any 0 _ _ _ (bodies ft t FT TT) (code_map_stm ft t NT) P2 HE1) as B. rewrite map_fst_stm in B.
  set (st2 := nestedStatements ft (map (stm ft) t) (printf %":" st1)) in *. cbv zeta.
  assert (E0 : match t with [] => panic st2 | _ => st2 end = st2) by (destruct t; [now elim NT|reflexivity]). rewrite E0. clear E0.
  assert (SF : same st (printf %":" st1)) by exact S1.
  set (ne := (1 <? p_line (e_pos ep) - p_line (last (map end_pos t) no_pos))%Z).
  assert (ELSE : code f <> [] -> exists pre j e1, meaning e1 = meaning (EIf c p x t ep f) /\ is_code e1 = true /\ (forall ns, noise ns -> one (IfTail false) e1 (pre ++ NL :: ns ++ uns j)) /\
      fin st (nestedStatements ft (map (stm ft) f) (set_coms (o_com (printf %"else:" (if ne then newline (newlineIfNeeded st2) else newlineIfNeeded st2)) ++ c_suffix (e_com ep)) (printf %"else:" (if ne then newline (newlineIfNeeded st2) else newlineIfNeeded st2)))) (ts ++ pre) j stk).
  { intro NF'. destruct (after_body t _ _ _ _ ne B HE1) as (l1 & pre1 & M1 & C1 & SU1 & EN & S2). set (st3 := if ne then newline (newlineIfNeeded st2) else newlineIfNeeded st2) in *.
    pose proof (put_kw starter %"else" KElse st3 _ _ _ ltac:(kw) EN (within_refl _)) as P3. apply (put_colon closer _ _ _ _ (within_refl _)) in P3. rewrite <- printf_app in P3. cbn [app] in P3. change %"else:" with (%"else" ++ %":").
    set (st4 := printf (%"else" ++ %":") st3) in *.
    assert (P4 : sits (Mid any 0) (set_coms (o_com st4 ++ c_suffix (e_com ep)) st4) ((((((ts ++ t1) ++ [COLON]) ++ pre1) ++ [tok0 KElse %"else"])) ++ [COLON]) 0 stk).
    { destruct P3 as (A1 & A2 & A3). split; [exact A1|]. split; [exact A2|]. cbn [o_com set_coms]. apply Forall_app. split; [exact A3|apply TE]. }
    assert (S3 : same st (set_coms (o_com st4 ++ c_suffix (e_com ep)) st4)) by (eapply same_trans; [exact SF|]; exact S2).
    pose proof (nested_spec ft (map (stm ft) f) any 0 _ _ _ (bodies ft f FF TF) (code_map_stm ft f NF') P4 (here_same _ _ _ S3 HE)) as B2. rewrite map_fst_stm in B2.
    destruct (last_body _ _ _ _ _ B2) as (l2 & pre2 & j & M2 & C2 & SU2 & FI). apply (fin_same st) in FI; [|exact S3].
    exists (t1 ++ COLON :: pre1 ++ tok0 KElse %"else" :: COLON :: pre2), j, (EIf no_com no_pos x1 l1 no_end l2). split; [now apply meaning_if|]. split; [reflexivity|]. split.
    - intros ns N. repeat (rewrite <- !app_assoc; cbn [app]). eapply i_else; eauto; try reflexivity; [rewrite C1; exact SU1|]. rewrite C2. apply SU2, N.
    - repeat (rewrite <- !app_assoc in *; cbn [app] in * ). exact FI. }
  assert (END : f = [] -> exists pre j e1, meaning e1 = meaning (EIf c p x t ep f) /\ is_code e1 = true /\ (forall ns, noise ns -> one (IfTail false) e1 (pre ++ NL :: ns ++ uns j)) /\ fin st st2 (ts ++ pre) j stk).
  { intros ->. destruct (last_body _ _ _ _ _ B) as (l1 & pre1 & j & M1 & C1 & SU1 & FI). apply (fin_same st) in FI; [|exact SF].
    exists (t1 ++ COLON :: pre1), j, (EIf no_com no_pos x1 l1 no_end []). split; [now apply meaning_if|]. split; [reflexivity|]. split.
    - intros ns N. repeat (rewrite <- !app_assoc; cbn [app]). apply i_end; auto; [reflexivity|]. rewrite C1. apply SU1, N.
    - repeat (rewrite <- !app_assoc in *; cbn [app] in * ). exact FI. }
  destruct f as [|y f]; [apply END; reflexivity|]. destruct NF as [NF|NF]; [discriminate|]. specialize (ELSE NF). clear END. cbn [nonempty].
  destruct y; try exact ELSE. destruct f as [|z f]; [|exact ELSE].
  destruct (nonempty (c_suffix (e_com ep)) || nonempty (c_before c0)); [exact ELSE|]. clear ELSE.
  rewrite print_elif. destruct (after_body t _ _ _ _ ne B HE1) as (l1 & pre1 & M1 & C1 & SU1 & EN & S2). set (st3 := if ne then newline (newlineIfNeeded st2) else newlineIfNeeded st2) in *.
  pose proof (kw_sp starter %"elif" KElif st3 _ _ _ ltac:(kw) EN (within_refl _)) as P3. change (%"elif" ++ %" ") with (%"el" ++ %"if ") in P3. rewrite printf_app in P3.
  inversion FF as [|? ? [_ GT] _]; subst. cbn [tail_good] in GT. assert (S3 : same st (printf %"el" st3)) by (eapply same_trans; [exact SF|]; exact S2).
  destruct TF as [TF _]. destruct (GT ft TF (printf %"el" st3) _ stk P3 (here_same _ _ _ S3 HE)) as (pre2 & j & e2 & M2 & C2 & O2 & FI). apply (fin_same st) in FI; [|exact S3].
  exists (t1 ++ COLON :: pre1 ++ tok0 KElif %"elif" :: pre2), j, (EIf no_com no_pos x1 l1 no_end [e2]). split; [apply meaning_if; auto|]. 
  { unfold meanings, code. cbn [filter is_code map]. rewrite C2. cbn [map]. now rewrite M2. }
  split; [reflexivity|]. split.
  - intros ns N. repeat (rewrite <- !app_assoc; cbn [app]). change (tok0 KElif %"elif" :: pre2 ++ NL :: ns ++ uns j) with ([tok0 KElif %"elif"] ++ pre2 ++ NL :: ns ++ uns j). 
    eapply i_elif; eauto; [reflexivity|rewrite C1; exact SU1|]. left. eexists. split; reflexivity.
  - repeat (rewrite <- !app_assoc in *; cbn [app] in * ). exact FI.
Qed.
Lemma entry_nl st ts d stk P : entry P st ts d stk -> newlineIfNeeded st = st.
Proof. intros (_ & _ & A & _). unfold newlineIfNeeded. now rewrite A. Qed.
Lemma tail_to_stmt e : is_if e = true -> tail_good e -> stmt_ok e.
Proof.
  intros IE G. split; [|exact G]. destruct e; try discriminate. intros ft T. eapply node_fresh; [intro st; apply print_if|apply (tidy_coms _ _ T)|].
  intros st ts stk EN HE. cbv beta. rewrite (entry_nl _ _ _ _ _ EN). pose proof (kw_sp starter %"if" KIf st _ _ _ ltac:(kw) EN (within_refl _)) as P3.
  destruct (G ft T st _ stk P3 HE) as (pre & j & e1 & M & C & O & FI). exists (tok0 KIf %"if" :: pre), j. split.
  - exists e1. split; [exact M|]. split; [exact C|]. intros k l tl ns S0 N. eapply st_block; [exact S0|]. cbn [app]. apply b_if; [reflexivity|]. apply O, N.
  - repeat (rewrite <- !app_assoc in *; cbn [app] in * ). exact FI.
Qed.

(** ** Functions and loops *)
Definition ARROW : token := tok0 KArrow %"->".
Lemma params_seq ft ps tp p compact multi st ts stk : pparams TParam ps tp -> Forall wf_tok tp -> all_of (sub Inside) ps -> entry closer st ts 0 stk ->
  exists l1 tl, params TParam l1 tl /\ map meaning l1 = map meaning ps /\
    post st (seq ft ("(", ")")%char p (map (item_of ft) ps) None modeDef compact multi st) (ts ++ LP :: tl ++ [RP]) 0 stk.
Proof.
  intros H W T E.
  assert (A : exists Xs, Forall2 (fun i X => iprints solid X (it_print i) Inside) (map (item_of ft) ps) Xs /\
    forall tss, Forall2 (fun (X : list token -> Prop) t => X t) Xs tss -> exists l1, params TParam l1 (sep tss) /\ map meaning l1 = map meaning ps).
  { destruct (H Logic.I W) as [->|[N R]].
    - exists []. split; [constructor|]. intros tss F. inversion F; subst. exists []. split; [constructor|reflexivity].
    - destruct (rows_solid _ _ _ R (pcat_solid TParam) ft T) as (Xs & A & B). exists Xs. split; [exact A|]. intros tss F. destruct (B tss F) as (l1 & B1 & B2). exists l1. split; [|exact B2].
      rewrite <- (app_nil_r (sep tss)). apply ps_some; [exact B1|constructor|cbn; lia]. }
  destruct A as (Xs & A & B).
  destruct (seq_spec closer ft "("%char ")"%char p (map (item_of ft) ps) None modeDef compact multi st ts 0 stk Xs E eq_refl ltac:(cbn; auto) ltac:(cbn; auto) ltac:(discriminate) A) as (tss & cs & F & CS & PP); [auto|exact Logic.I|].
  destruct (B _ F) as (l1 & B1 & B2). exists l1, (sep tss). destruct CS as [[->|(_ & _ & _ & X)] _]; [|contradiction]. auto.
Qed.
Lemma meaning_def c p ps b n q fc fm ty ps' b' ty' : map meaning ps' = map meaning ps -> meanings b' = meanings b -> option_map meaning ty' = option_map meaning ty ->
  meaning (EDef no_com no_pos ps' b' n no_pos false false ty') = meaning (EDef c p ps b n q fc fm ty).
Proof. intros A B C. apply meaning_map in A. apply opt_mean in C. unfold meaning in *. cbn [shape plain]. rewrite !plain_body. congruence. Qed.
Lemma def_ok c p ps b n q fc fm ty nm tp ta : is KIdent nm -> t_tok nm = n -> spelled nm -> pparams TParam ps tp -> Forall wf_tok tp -> pannot ty ta -> Forall wf_tok ta ->
  code b <> [] -> Forall stmt_ok (code b) -> stmt_ok (EDef c p ps b n q fc fm ty).
Proof.
  intros IN EN SN PP WP PA WA NB FB. split; [|exact Logic.I]. intros ft T. eapply node_fresh; [intro st; cbn [print_expr print_body com]; reflexivity|apply (tidy_coms _ _ T)|].
  destruct T as [TC (TP & TY & TB)]. intros st ts stk E HE. cbv beta.
  pose proof (kw_sp starter %"def" KDef st _ _ _ ltac:(kw) E (within_refl _)) as P1.
  destruct (ident_prints starter (Ident no_com no_pos n) nm Outside SN ltac:(split; [exact IN|symmetry; exact EN]) (within_refl _) (printf %"def " st) (ts ++ [tok0 KDef %"def"]) 0 stk) as (t1 & -> & S1 & P2); [left; apply HE|eapply entry_mid; [exact P1|left; lia]|].
  cbn [i_name] in *. set (st1 := printf n (printf %"def " st)) in *.
  destruct (params_seq ft ps tp p fc fm st1 _ stk PP WP TP (entry_mid closer closer 0 _ _ _ _ P2 ltac:(auto))) as (l1 & tl & Q & M1 & S2 & P3).
  change (map (fun x => Print.Item (com x) (start_pos x) (end_pos x) (is_star x) (print_expr ft None x precLow)) ps) with (map (item_of ft) ps).
  set (st2 := seq ft ("(", ")")%char p (map (item_of ft) ps) None modeDef fc fm st1) in *. cbv zeta.
  assert (S12 : same st st2) by (eapply same_trans; [exact S1|exact S2]).
  set (st3 := match ty with Some t => print_expr ft None t precLow (printf %" -> " st2) | None => st2 end).
  assert (X : exists ty1 ta1, annotation ty1 ta1 /\ option_map meaning ty1 = option_map meaning ty /\ same st st3 /\ sits (Mid closer 0) st3 (((((ts ++ [tok0 KDef %"def"]) ++ [tok0 KIdent n])) ++ LP :: tl ++ [RP]) ++ ta1) 0 stk).
  { unfold st3. destruct ty as [y|]; [|exists None, []; split; [constructor|]; split; [reflexivity|]; split; [exact S12|]; now rewrite app_nil_r].
    destruct (PA WA) as (tt & G). assert (SC : scans %"->" closer 0 [ARROW] 0) by (apply scan_sym_closer; cbn; tauto).
    pose proof (op_sp %"->" [ARROW] st2 _ 0 stk SC ltac:(eexists; eexists; reflexivity) ltac:(cbn; discriminate) P3) as P4. rewrite <- printf_app in P4.
    pose proof (entry_mid starter closer 1 _ _ _ _ P4 ltac:(left; lia)) as E4. assert (D4 : ctx Outside 0 (o_depth st2)) by (left; rewrite (proj1 (proj2 S12)); apply HE).
    destruct (good_prints Test y tt ft Outside precLow G TY Logic.I (printf %" -> " st2) _ 0 stk D4 E4) as (t4 & (y1 & c1 & -> & O4 & M4 & _) & S4 & P5).
    exists (Some y1), (ARROW :: t4). split; [now constructor|]. split; [cbn; now rewrite M4|]. split; [eapply same_trans; [exact S12|exact S4]|].
    repeat (rewrite <- !app_assoc in *; cbn [app] in * ). exact P5. }
  destruct X as (ty1 & ta1 & AN & MA & S3 & P4). apply (put_colon closer _ _ _ _ (within_refl _)) in P4.
  assert (HE1 : here (printf %":" st3) stk) by (eapply here_same; [|exact HE]; exact S3).
  pose proof (nested_spec ft (map (stm ft) b) any 0 _ _ _ (bodies ft b FB TB) (code_map_stm ft b NB) P4 HE1) as B. rewrite map_fst_stm in B.
  destruct (last_body _ _ _ _ _ B) as (l2 & pre2 & j & M2 & C2 & SU2 & FI). apply (fin_same st) in FI; [|exact S3].
  exists (tok0 KDef %"def" :: tok0 KIdent n :: LP :: tl ++ RP :: ta1 ++ COLON :: pre2), j. split.
  - exists (EDef no_com no_pos l1 l2 n no_pos false false ty1). split; [now apply meaning_def|]. split; [reflexivity|]. intros k l tl0 ns S0 N. eapply st_block; [exact S0|].
    cbn [app]; repeat (rewrite <- !app_assoc; cbn [app]). apply b_def; auto; try reflexivity. rewrite C2. apply SU2, N.
  - repeat (rewrite <- !app_assoc in *; cbn [app] in * ). exact FI.
Qed.
Lemma for_ok c p v x b tv tx : goodb Vars v tv -> goodb Expr x tx -> code b <> [] -> Forall stmt_ok (code b) -> stmt_ok (EFor c p v x b).
Proof.
  intros GV GX NB FB. split; [|exact Logic.I]. intros ft T. eapply node_fresh; [intro st; cbn [print_expr print_body com]; reflexivity|apply (tidy_coms _ _ T)|].
  destruct T as [TC (TV & TX & TB)]. intros st ts stk E HE. cbv beta zeta.
  pose proof (kw_sp starter %"for" KFor st _ _ _ ltac:(kw) E (within_refl _)) as P1.
  pose proof (entry_mid starter closer 1 _ _ _ _ P1 ltac:(left; lia)) as E1. assert (D1 : ctx Outside 0 (o_depth st)) by (left; apply HE).
  destruct (good_prints Vars v tv ft Outside precLow GV TV Logic.I (printf %"for " st) _ 0 stk D1 E1) as (t1 & (v1 & c1 & -> & O1 & M1 & _) & S1 & P2).
  pose proof (kw_mid %"in" KIn _ _ _ _ ltac:(kw) P2) as P3. change (%" " ++ %"in" ++ %" ") with %" in " in P3.
  set (st1 := print_expr ft None v precLow _) in *. assert (S1' : same st (printf %" in " st1)) by exact S1.
  pose proof (entry_mid starter closer 1 _ _ _ _ P3 ltac:(left; lia)) as E3. assert (D3 : ctx Outside 0 (o_depth (printf %" in " st1))) by (left; rewrite (proj1 (proj2 S1')); apply HE).
  destruct (good_prints Expr x tx ft Outside precLow GX TX Logic.I (printf %" in " st1) _ 0 stk D3 E3) as (t2 & (x1 & c1 & -> & O2 & M2 & _) & S2 & P4).
  set (st2 := print_expr ft None x precLow _) in *. assert (S12 : same st st2) by (eapply same_trans; [exact S1'|exact S2]). apply (put_colon closer _ _ _ _ (within_refl _)) in P4.
  assert (HE1 : here (printf %":" st2) stk) by (eapply here_same; [|exact HE]; exact S12).
  pose proof (nested_spec ft (map (stm ft) b) any 0 _ _ _ (bodies ft b FB TB) (code_map_stm ft b NB) P4 HE1) as B. rewrite map_fst_stm in B.
  destruct (last_body _ _ _ _ _ B) as (l2 & pre2 & j & M3 & C2 & SU2 & FI). apply (fin_same st) in FI; [|exact S12].
  exists (tok0 KFor %"for" :: t1 ++ tok0 KIn %"in" :: t2 ++ COLON :: pre2), j. split.
  - exists (EFor no_com no_pos v1 x1 l2). split; [unfold meaning in *; cbn [shape plain]; rewrite !plain_body; congruence|]. split; [reflexivity|]. intros k l tl0 ns S0 N. eapply st_block; [exact S0|].
    cbn [app]; repeat (rewrite <- !app_assoc; cbn [app]). eapply b_for; eauto; try reflexivity. rewrite C2. apply SU2, N.
  - repeat (rewrite <- !app_assoc in *; cbn [app] in * ). exact FI.
Qed.

(** ** All statements *)
Definition sone (c : cat) (e : expr) (ts : list token) : Prop :=
  match c with IfTail _ => Forall wf_tok ts -> is_if e = true /\ tail_good e | Block _ => Forall wf_tok ts -> stmt_ok e | _ => True end.
Definition slist (l : list expr) (ts : list token) : Prop := Forall wf_tok ts -> Forall stmt_ok l.
Definition slist1 (l : list expr) (ts : list token) : Prop := Forall wf_tok ts -> Forall stmt_ok l /\ l <> [].
Lemma small_ok e ts : one Small e ts -> goodb Small e ts -> stmt_ok e.
Proof.
  intros O G. destruct (simple_shape _ _ _ O) as [A _]. split; [|destruct e; try exact Logic.I; discriminate]. intros ft T. eapply small_fresh; eauto.
Qed.
Theorem stmt_good_all :
  (forall c e ts, one c e ts -> sone c e ts) /\ (forall c o ts, maybe c o ts -> True) /\ (forall o ts, stride o ts -> True) /\
  (forall o ts, annotation o ts -> True) /\ (forall c l ts, row c l ts -> True) /\ (forall c l ts, items c l ts -> True) /\
  (forall c c' l ts, row1 c c' l ts -> True) /\ (forall c l ts, params c l ts -> True) /\ (forall o l ts, clauses o l ts -> True) /\
  (forall l ts, smalls l ts -> slist1 l ts) /\ (forall l ts, line l ts -> slist1 l ts) /\ (forall k l ts, stmts k l ts -> slist l ts) /\ (forall k l ts, suite k l ts -> slist1 l ts).
Proof.
  destruct expr_good as (_ & _ & _ & EA & _ & _ & _ & EP & _).
  apply spec_ind; intros; try exact Logic.I; cbn [sone] in *; try intro W; wfs.
  - destruct H10 as [F N]; [assumption|]. eapply def_ok; eauto.
  - destruct H7 as [F N]; [assumption|]. eapply for_ok; eauto using good_one.
  - destruct H1 as [A B]; [assumption|]. now apply tail_to_stmt.
  - destruct H3 as [F N]; [assumption|]. split; [reflexivity|]. intros ft T. eapply if_core; eauto; [eapply good_one; [eassumption|exact Logic.I|assumption]|constructor].
  - destruct H3 as [F N]; [assumption|]. destruct H6 as [A B]; [assumption|]. split; [reflexivity|]. intros ft T.
    eapply if_core; eauto; [eapply good_one; [eassumption|exact Logic.I|assumption]| |]; unfold code; cbn [filter]; destruct (is_code e) eqn:IC; try (destruct e; discriminate).
    + right; discriminate.
    + constructor; [|constructor]. now apply tail_to_stmt.
  - destruct H3 as [F N]; [assumption|]. destruct H7 as [F2 N2]; [assumption|]. split; [reflexivity|]. intros ft T. eapply if_core; eauto. eapply good_one; [eassumption|exact Logic.I|assumption].
  - split; [|discriminate]. constructor; [|constructor]. eapply small_ok; eauto. eapply good_one; [eassumption|exact Logic.I|assumption].
  - destruct H0 as [F N]; [assumption|]. split; [|destruct l; discriminate]. apply Forall_app. split; [exact F|]. constructor; [|constructor]. eapply small_ok; eauto. eapply good_one; [eassumption|exact Logic.I|assumption].
  - apply H0. assumption.
  - constructor.
  - apply H0. assumption.
  - apply H0. assumption.
  - apply Forall_app. split; [apply H0; assumption|apply H2; assumption].
  - apply Forall_app. split; [apply H0; assumption|]. constructor; [apply H2; assumption|constructor].
  - split; [apply H4; assumption|assumption].
  - apply H0. assumption.
Qed.
Lemma stmts_ok k l ts : stmts k l ts -> Forall wf_tok ts -> Forall stmt_ok l.
Proof. apply stmt_good_all. Qed.
