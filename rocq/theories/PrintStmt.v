(** Printed statements are read back as the same statements. *)
From Verif Require Import Base BaseProofs Ast Utf8 Quote Lex LexSpec LexProofs ParseSpec ShapeSpec ParseLex ParseProofs ParseComplete Print PrintSpec PrintLex PrintTok PrintState PrintSeq PrintExpr PrintPrim PrintTest PrintGood.
Local Open Scope list_scope.

Lemma stmts_noise ns : noise ns -> forall l ts, stmts false l ts -> stmts false l (ts ++ ns).
Proof.
  induction 1 as [|ns H IH|ns H IH]; intros l ts S0.
  - now rewrite app_nil_r.
  - change (NL :: ns) with ([NL] ++ ns). rewrite app_assoc. apply IH. apply st_blank; [exact S0|reflexivity].
  - change (COM :: NL :: ns) with ([COM; NL] ++ ns). rewrite app_assoc. apply IH. eapply st_comment; [exact S0|reflexivity|reflexivity].
Qed.
(** Lines that are not finished: what remains is the end of a line. *)
Definition closes (m : mode) (ns : list token) : Prop := noise ns /\ (is_fresh m = false -> exists ns', ns = NL :: ns' /\ noise ns').
Lemma ends_closes m ns : ends_line 0 m ns -> closes m ns.
Proof. intros (A & _ & B). split; auto. Qed.
(** [part]: so far only empty lines and comments; [unfin]: the rest of a line of code, and such lines. *)
Definition part (ns : list token) (m : mode) : Prop := forall ns2, closes m ns2 -> noise (ns ++ ns2).
Definition unfin (ns : list token) (m : mode) : Prop := forall ns2, closes m ns2 -> exists ns4, ns ++ ns2 = NL :: ns4 /\ noise ns4.
Lemma unfin_mid m : is_fresh m = false -> unfin [] m.
Proof. intros F ns2 [_ H]. destruct (H F) as (ns' & -> & N). exists ns'. auto. Qed.
Lemma part_fresh ns n : noise ns -> part ns (Fresh n).
Proof. intros H ns2 [N _]. now apply noise_app. Qed.
Lemma unfin_fresh ns n : noise ns -> unfin (NL :: ns) (Fresh n).
Proof. intros H ns2 [N _]. exists (ns ++ ns2). split; [reflexivity|now apply noise_app]. Qed.
Lemma part_com ns n : noise ns -> part (ns ++ [COM]) (InCom n).
Proof. intros H ns2 [_ N]. destruct (N eq_refl) as (ns' & -> & N'). rewrite <- app_assoc. apply noise_app; [exact H|]. now apply nz_com. Qed.
Lemma unfin_part ns m ns' : noise ns -> part ns' m -> unfin (NL :: ns ++ ns') m.
Proof. intros H P ns2 C. exists (ns ++ ns' ++ ns2). split; [cbn; now rewrite <- app_assoc|]. apply noise_app; auto. Qed.
(** A line end. *)
Lemma newline_unfin m ns st ts stk : at_ m (o_out st) (ts ++ ns) 0 stk -> unfin ns m -> Forall fine (o_com st) ->
  exists ns', noise ns' /\ sits (Fresh (o_margin st)) (newline st) (ts ++ NL :: ns') 0 stk /\ same st (newline st) /\ o_com (newline st) = [].
Proof.
  intros H U F. destruct (newline_spec m st (ts ++ ns) 0 stk H F) as (ns2 & E & S1 & S2 & S3). destruct (U ns2 (ends_closes _ _ E)) as (ns4 & Q & N).
  exists ns4. rewrite <- app_assoc, Q in S1. auto.
Qed.
Lemma newline_part m ns st ts stk : at_ m (o_out st) (ts ++ ns) 0 stk -> part ns m -> Forall fine (o_com st) ->
  exists ns', noise ns' /\ sits (Fresh (o_margin st)) (newline st) (ts ++ ns') 0 stk /\ same st (newline st) /\ o_com (newline st) = [].
Proof.
  intros H U F. destruct (newline_spec m st (ts ++ ns) 0 stk H F) as (ns2 & E & S1 & S2 & S3). pose proof (U ns2 (ends_closes _ _ E)) as N.
  exists (ns ++ ns2). rewrite <- app_assoc in S1. auto.
Qed.
Lemma newline_fresh n st ts stk : sits (Fresh n) st ts 0 stk -> exists ns, noise ns /\ sits (Fresh (o_margin st)) (newline st) (ts ++ ns) 0 stk /\ same st (newline st) /\ o_com (newline st) = [].
Proof. intros (H & _ & F). apply (newline_part (Fresh n) [] st ts stk); auto; [now rewrite app_nil_r|]. apply part_fresh. constructor. Qed.
(** Comments at the start of a line. *)
Lemma com_fresh c n st ts stk : fine c -> sits (Fresh n) st ts 0 stk -> exists m ns, at_ m (o_out (put_comment c st)) (ts ++ ns) 0 stk /\ part ns m.
Proof.
  intros F (H & _). destruct (put_comment_at c _ _ _ _ _ F H) as [A|A].
  - exists (InCom 0), [COM]. split; [exact A|]. apply (part_com [] 0). constructor.
  - exists (Fresh n), []. rewrite A, app_nil_r. split; [exact H|]. apply part_fresh. constructor.
Qed.
Lemma fold_coms l : forall st ts stk, Forall fine l -> sits (Fresh (o_margin st)) st ts 0 stk ->
  exists ns, noise ns /\ sits (Fresh (o_margin st)) (fold_left (fun st c => newline (put_comment c st)) l st) (ts ++ ns) 0 stk /\ same st (fold_left (fun st c => newline (put_comment c st)) l st).
Proof.
  induction l as [|c l IH]; intros st ts stk F H; [exists []; rewrite app_nil_r; repeat split; auto; [constructor|apply H|apply H|apply H]|]. inversion F as [|? ? F1 F2]; subst. cbn [fold_left].
  destruct (com_fresh c _ st ts stk F1 H) as (m & ns & A & P). destruct H as (_ & H1 & H2).
  destruct (newline_part m ns (put_comment c st) ts stk A P H2) as (ns1 & N1 & S1 & S2 & _). set (st1 := newline (put_comment c st)) in *.
  assert (E : o_margin st1 = o_margin st) by apply S2. change (o_margin (put_comment c st)) with (o_margin st) in S1. rewrite <- E in S1. destruct (IH st1 _ _ F2 S1) as (ns2 & N2 & S3 & S4).
  exists (ns1 ++ ns2). split; [now apply noise_app|]. rewrite app_assoc. rewrite E in S3. split; [exact S3|]. eapply same_trans; [exact S2|exact S4].
Qed.
Lemma before_out l st ts stk : Forall fine l -> sits (Fresh (o_margin st)) st ts 0 stk ->
  exists ns, noise ns /\ sits (Fresh (o_margin st)) (print_before l st) (ts ++ ns) 0 stk /\ same st (print_before l st).
Proof.
  intros F H. destruct l as [|c l]; [exists []; rewrite app_nil_r; repeat split; auto; [constructor|apply H|apply H|apply H]|]. unfold print_before.
  destruct H as (H & H1 & H2). assert (Z : indent (trim st) = 0).
  { destruct H as (base & E & B & _). unfold indent, trim. cbn [o_out set_out]. rewrite E, drop_pad by now apply nl_nosp. destruct B as [->|(b & ->)]; reflexivity. }
  rewrite Z. cbn [Nat.ltb Nat.leb]. apply (fold_coms (c :: l) (printf (pad (o_margin (trim st))) (trim st)) ts stk F).
  split; [|auto]. unfold printf. cbn [o_out set_out o_margin trim]. rewrite rev_pad. apply at_trim in H. cbn [none] in H. apply (at_pad (o_margin st)) in H. cbn [more] in H. now rewrite Nat.add_0_r in H.
Qed.
(** The indentation of the next statement. *)
Definition turns (n : nat) (stk0 : list nat) (turn : list token) (stk : list nat) : Prop :=
  forall c r, solid c = true -> reads (mk (c :: r) 0 true n stk0) turn (mk (c :: r) 0 false 0 stk).
Lemma entry_turn n st ts stk0 turn stk : sits (Fresh n) st ts 0 stk0 -> turns n stk0 turn stk -> entry starter st (ts ++ turn) 0 stk.
Proof.
  intros (H & A & B) T. split; [|split; [lia|auto]]. intros c w C. eapply reads_trans; [eapply at_fresh; exact H|]. apply T. now apply starter_solid.
Qed.
Lemma turn_same n stk : hd 0 stk = n -> turns n stk [] stk.
Proof. intros H c r S0. apply rd_align; auto. Qed.
Lemma turn_in n stk : hd 0 stk < n -> turns n stk [IND] (n :: stk).
Proof. intros H c r S0. now apply rd_indent. Qed.
Lemma turn_out n xs stk : hd 0 stk = n -> Forall (fun x => n < x) xs -> turns n (xs ++ stk) (repeat UN (List.length xs)) stk.
Proof.
  intros H F c r S0. induction F as [|x xs L F IH]; [now apply rd_align; auto|]. cbn [app List.length repeat]. change (UN :: repeat UN (List.length xs)) with ([UN] ++ repeat UN (List.length xs)).
  eapply reads_trans; [|exact IH]. apply rd_unindent; auto. destruct F as [|y ys L' F]; cbn; [lia|]. lia.
Qed.

(** ** Statements *)
Definition uns (j : nat) : list token := repeat UN j.
(** [pre] is a statement, except for its last line end, further lines without code, and [j] unindents. *)
Definition stm_done (e : expr) (pre : list token) (j : nat) : Prop :=
  exists e1, meaning e1 = meaning e /\ is_code e1 = true /\ forall k l tl ns, stmts k l tl -> noise ns -> stmts false (l ++ [e1]) (tl ++ pre ++ NL :: ns ++ uns j).
Definition fin (st st' : pst) (ts : list token) (j : nat) (stk : list nat) : Prop :=
  same st st' /\ exists m ns xs, at_ m (o_out st') (ts ++ ns) 0 (xs ++ stk) /\ unfin ns m /\ List.length xs = j /\ Forall (fun x => o_margin st < x) xs /\ Forall fine (o_com st').
Definition here (st : pst) (stk : list nat) : Prop := o_margin st = hd 0 stk /\ o_depth st = 0.
(** Printing a statement at the start of a line. *)
Definition fresh_stmt (e : expr) (pr : pst -> pst) : Prop :=
  forall st ts0 stk0 turn stk, sits (Fresh (o_margin st)) st ts0 0 stk0 -> turns (o_margin st) stk0 turn stk -> here st stk ->
    exists nz pre j, noise nz /\ stm_done e pre j /\ fin st (pr st) (ts0 ++ nz ++ turn ++ pre) j stk.
Lemma fin_same st0 st st' ts j stk : same st0 st -> fin st st' ts j stk -> fin st0 st' ts j stk.
Proof. intros S0 (S1 & m & ns & xs & A). split; [eapply same_trans; eauto|]. exists m, ns, xs. destruct S0 as (<- & _). exact A. Qed.
Lemma here_same st st' stk : same st st' -> here st stk -> here st' stk.
Proof. intros (A & B & _) (C & D). split; congruence. Qed.
Lemma node_fresh e c body pr : (forall st, pr st = node c body st) -> fine_coms c ->
  (forall st ts stk, entry starter st ts 0 stk -> here st stk -> exists pre j, stm_done e pre j /\ fin st (body st) (ts ++ pre) j stk) -> fresh_stmt e pr.
Proof.
  intros E (F1 & F2 & F3) H st ts0 stk0 turn stk S0 T HH. rewrite E. unfold node, newlineIfNeeded. assert (o_nl st = false) as -> by apply S0.
  destruct (before_out (c_before c) st ts0 stk0 F1 S0) as (nz & N & S1 & S2). set (st1 := print_before (c_before c) st) in *.
  pose proof (entry_turn _ _ _ _ _ _ S1 T) as EN. destruct (H st1 _ _ EN (here_same _ _ _ S2 HH)) as (pre & j & D & FI).
  exists nz, pre, j. split; [exact N|]. split; [exact D|]. apply (fin_same _ _ _ _ _ _ S2) in FI. destruct FI as (A & m & ns & xs & B1 & B2 & B3 & B4 & B5).
  rewrite <- !app_assoc in *. split; [exact A|]. exists m, ns, xs. rewrite <- !app_assoc. repeat split; auto. cbn [set_coms o_com]. apply Forall_app. auto.
Qed.
Definition is_if (e : expr) : bool := match e with EIf _ _ _ _ _ _ => true | _ => false end.
Lemma simple_shape c e ts : one c e ts -> match c with IfTail _ | Block _ => True | _ => is_if e = false /\ is_code e = true end.
Proof. induction 1; auto. Qed.
Lemma small_fresh e ts0 ft : one Small e ts0 -> goodb Small e ts0 -> PrintSpec.tidy Outside e -> fresh_stmt e (print_expr ft None e precLow).
Proof.
  intros O G T. destruct (G ft Outside 0 T eq_refl) as (body & E & W). eapply node_fresh; [exact E|eapply tidy_coms; eauto|].
  intros st ts stk EN [H1 H2]. destruct (W st ts 0 stk) as (t1 & (e1 & c1 & -> & O1 & M & _) & S1 & P1 & P2 & P3); [left; exact H2|exact EN|].
  exists t1, 0. split.
  - exists e1. split; [exact M|]. split; [apply (simple_shape _ _ _ O1)|]. intros k l tl ns S0 N. cbn [uns repeat]. rewrite app_nil_r.
    change (NL :: ns) with ([NL] ++ ns). rewrite !app_assoc, <- (app_assoc tl). apply stmts_noise; [exact N|]. eapply st_line; [exact S0|]. apply (ln [e1] t1 [] NL); [now constructor|now left|reflexivity].
  - split; [exact S1|]. exists (Mid closer 0), [], []. rewrite app_nil_r. repeat split; auto. now apply unfin_mid.
Qed.
(** Blocks of comments. *)
Definition cb_done (c : comments) (st st' : pst) (stk : list nat) : Prop := forall ts, sits (Fresh (o_margin st)) st ts 0 stk ->
  same st st' /\ o_nl st' = true /\ Forall fine (o_com st') /\ exists m ns, at_ m (o_out st') (ts ++ ns) 0 stk /\ part ns m.
Definition after_step (st : pst) (c : comment) : pst := softNewline (put_comment c (newlineIfNeeded st)).
Lemma after_part l : forall st ts stk m ns, Forall fine l -> at_ m (o_out st) (ts ++ ns) 0 stk -> part ns m -> Forall fine (o_com st) -> o_nl st = true ->
  same st (fold_left after_step l st) /\ o_nl (fold_left after_step l st) = true /\ Forall fine (o_com (fold_left after_step l st)) /\ exists m ns, at_ m (o_out (fold_left after_step l st)) (ts ++ ns) 0 stk /\ part ns m.
Proof.
  induction l as [|c l IH]; intros st ts stk m ns F A P FC NLT; [cbn; split; [apply same_refl|]; eauto 6|]. inversion F as [|? ? F1 F2]; subst. cbn [fold_left].
  assert (ES : after_step st c = softNewline (put_comment c (newline st))) by (unfold after_step, newlineIfNeeded; now rewrite NLT). rewrite ES.
  destruct (newline_part m ns st ts stk A P FC) as (ns1 & N1 & S1 & S2 & S3). destruct (com_fresh c _ _ _ _ F1 S1) as (m2 & ns2 & A2 & P2).
  destruct (IH (softNewline (put_comment c (newline st))) ts stk m2 (ns1 ++ ns2) F2) as (I1 & I2); auto.
  - now rewrite app_assoc.
  - intros ns3 C3. rewrite <- app_assoc. apply noise_app; auto.
  - change (o_com _) with (o_com (newline st)). rewrite S3. constructor.
  - split; [|exact I2]. eapply same_trans; [|exact I1]. exact S2.
Qed.
Lemma after_unfin l : forall st ts stk m ns, Forall fine l -> at_ m (o_out st) (ts ++ ns) 0 stk -> unfin ns m -> Forall fine (o_com st) -> o_nl st = true ->
  same st (fold_left after_step l st) /\ o_nl (fold_left after_step l st) = true /\ Forall fine (o_com (fold_left after_step l st)) /\ exists m ns, at_ m (o_out (fold_left after_step l st)) (ts ++ ns) 0 stk /\ unfin ns m.
Proof.
  induction l as [|c l IH]; intros st ts stk m ns F A P FC NLT; [cbn; split; [apply same_refl|]; eauto 6|]. inversion F as [|? ? F1 F2]; subst. cbn [fold_left].
  assert (ES : after_step st c = softNewline (put_comment c (newline st))) by (unfold after_step, newlineIfNeeded; now rewrite NLT). rewrite ES.
  destruct (newline_unfin m ns st ts stk A P FC) as (ns1 & N1 & S1 & S2 & S3). destruct (com_fresh c _ _ _ _ F1 S1) as (m2 & ns2 & A2 & P2).
  destruct (IH (softNewline (put_comment c (newline st))) ts stk m2 (NL :: ns1 ++ ns2) F2) as (I1 & I2); auto.
  - now rewrite <- app_assoc in A2.
  - now apply unfin_part.
  - change (o_com _) with (o_com (newline st)). rewrite S3. constructor.
  - split; [|exact I2]. eapply same_trans; [|exact I1]. exact S2.
Qed.
Lemma cb_spec c p ft st ts stk : PrintSpec.tidy Outside (ECommentBlock c p) -> sits (Fresh (o_margin st)) st ts 0 stk ->
  let st' := fold_left after_step (c_after c) (print_expr ft None (ECommentBlock c p) precLow st) in
  same st st' /\ o_nl st' = true /\ Forall fine (o_com st') /\ exists m ns, at_ m (o_out st') (ts ++ ns) 0 stk /\ part ns m.
Proof.
  intros [(F1 & F2 & F3) NE] S0. cbn zeta. cbn [print_expr print_body com]. unfold node, newlineIfNeeded. assert (o_nl st = false) as -> by apply S0.
  destruct (before_out (c_before c) st ts stk F1 S0) as (nz & N & S1 & S2). set (st1 := print_before (c_before c) st) in *. cbn [com] in F1, F2, F3.
  destruct (c_after c) as [|a l] eqn:CA; [contradiction|]. inversion F3 as [|? ? F4 F5]; subst. cbn [fold_left].
  set (st2 := set_coms (o_com st1 ++ c_suffix c) st1).
  assert (ES : after_step st2 a = softNewline (put_comment a st2)) by (unfold after_step, newlineIfNeeded, st2; cbn [set_coms o_nl]; now rewrite (proj1 (proj2 S1))). rewrite ES.
  assert (S3 : sits (Fresh (o_margin st)) st2 (ts ++ nz) 0 stk).
  { destruct S1 as (A & B & C). split; [exact A|]. split; [exact B|]. cbn. apply Forall_app. auto. }
  destruct (com_fresh a _ _ _ _ F4 S3) as (m2 & ns2 & A2 & P2).
  destruct (after_part l (softNewline (put_comment a st2)) ts stk m2 (nz ++ ns2) F5) as (I1 & I2); auto.
  - now rewrite app_assoc.
  - intros ns3 C3. rewrite <- app_assoc. apply noise_app; auto.
  - apply S3.
  - split; [|exact I2]. eapply same_trans; [|exact I1]. exact S2.
Qed.

(** ** Lists of statements *)
Definition opens (l1 : list expr) (tb : list token) (j : nat) : Prop :=
  Forall (fun e => is_code e = true) l1 /\ l1 <> [] /\ forall ns, noise ns -> stmts false l1 (tb ++ NL :: ns ++ uns j).
(** At the start of a line: no statements yet, or some. *)
Definition begun (ts0 : list token) (stk0 : list nat) (turn : list token) (stk : list nat) (ms : list expr) (st : pst) : Prop :=
  (ms = [] /\ exists nz, noise nz /\ sits (Fresh (o_margin st)) st (ts0 ++ nz) 0 stk0) \/
  (exists nz l1 tb j xs ns, noise nz /\ opens l1 tb j /\ map meaning l1 = ms /\ List.length xs = j /\ Forall (fun x => o_margin st < x) xs /\ noise ns /\
     sits (Fresh (o_margin st)) st (ts0 ++ nz ++ turn ++ tb ++ NL :: ns) 0 (xs ++ stk)).
(** At the end of a line. *)
Definition ended (ts0 : list token) (stk0 : list nat) (turn : list token) (stk : list nat) (ms : list expr) (st : pst) : Prop :=
  o_nl st = true /\ Forall fine (o_com st) /\
  ((ms = [] /\ exists m ns, at_ m (o_out st) (ts0 ++ ns) 0 stk0 /\ part ns m) \/
   (exists nz l1 tb j xs m ns, noise nz /\ opens l1 tb j /\ map meaning l1 = ms /\ List.length xs = j /\ Forall (fun x => o_margin st < x) xs /\ unfin ns m /\
     at_ m (o_out st) (ts0 ++ nz ++ turn ++ tb ++ ns) 0 (xs ++ stk))).
Definition elem (ft : ftype) (x : expr * (pst -> pst)) : Prop :=
  PrintSpec.tidy Outside (fst x) /\ if is_code (fst x) then fresh_stmt (fst x) (snd x) else snd x = print_expr ft None (fst x) precLow.
Definition one_stmt (x : expr * (pst -> pst)) (st : pst) : pst :=
  fold_left after_step (c_after (com (fst x))) (if isCommentBlock (fst x) then snd x st else softNewline (snd x st)).
Lemma soft_at m st ts stk : at_ m (o_out st) ts 0 stk -> at_ m (o_out (softNewline st)) ts 0 stk. Proof. auto. Qed.
Lemma map_snoc {A B} (f : A -> B) l x : map f (l ++ [x]) = map f l ++ [f x]. Proof. now rewrite map_app. Qed.
Lemma stmt_step ft x ts0 stk0 turn stk ms st : elem ft x -> turns (o_margin st) stk0 turn stk -> here st stk -> begun ts0 stk0 turn stk ms st ->
  ended ts0 stk0 turn stk (ms ++ meanings [fst x]) (one_stmt x st) /\ same st (one_stmt x st).
Proof.
  intros [T EL] TU HE B. destruct x as [e pr]. cbn [fst snd] in *. unfold one_stmt. cbn [fst snd]. unfold meanings, code. cbn [filter].
  destruct (is_code e) eqn:IC; cbn [map].
  - assert (isCommentBlock e = false) as -> by (destruct e; auto; discriminate). pose proof (tidy_coms _ _ T) as (_ & _ & FA).
    destruct B as [(-> & nz & N & S0)|(nz & l1 & tb & j & xs & ns & N & O & M & LX & FX & NN & S0)].
    + destruct (EL st (ts0 ++ nz) stk0 turn stk S0 TU HE) as (nz' & pre & j & N' & (e1 & M1 & C1 & D) & SA & m & ns & xs & A1 & A2 & A3 & A4 & A5).
      destruct (after_unfin (c_after (com e)) (softNewline (pr st)) _ (xs ++ stk) m ns FA (soft_at _ _ _ _ A1) A2 A5 eq_refl) as (I1 & I2 & I3 & m' & ns' & I4 & I5).
      assert (SS : same st (fold_left after_step (c_after (com e)) (softNewline (pr st)))) by (eapply same_trans; [exact SA|exact I1]).
      split; [|exact SS]. split; [exact I2|]. split; [exact I3|]. right. exists (nz ++ nz'), [e1], pre, j, xs, m', ns'. split; [now apply noise_app|]. split.
      { split; [auto|]. split; [discriminate|]. intros ns0 N0. apply (D false [] [] ns0); [constructor|exact N0]. }
      split; [cbn; now rewrite M1|]. split; [exact A3|]. split; [rewrite (proj1 SS); exact A4|]. split; [exact I5|]. now rewrite <- !app_assoc in *.
    + pose proof (turn_out (o_margin st) xs stk (eq_sym (proj1 HE)) FX) as TO.
      destruct (EL st _ (xs ++ stk) _ stk S0 TO HE) as (nz' & pre & j' & N' & (e1 & M1 & C1 & D) & SA & m & ns' & xs' & A1 & A2 & A3 & A4 & A5).
      destruct (after_unfin (c_after (com e)) (softNewline (pr st)) _ (xs' ++ stk) m ns' FA (soft_at _ _ _ _ A1) A2 A5 eq_refl) as (I1 & I2 & I3 & m' & ns2 & I4 & I5).
      assert (SS : same st (fold_left after_step (c_after (com e)) (softNewline (pr st)))) by (eapply same_trans; [exact SA|exact I1]).
      split; [|exact SS]. split; [exact I2|]. split; [exact I3|]. right. exists nz, (l1 ++ [e1]), (tb ++ NL :: (ns ++ nz') ++ uns j ++ pre), j', xs', m', ns2. split; [exact N|]. destruct O as (O1 & O2 & O3). split.
      { split; [apply Forall_app; auto|]. split; [destruct l1; discriminate|]. intros ns0 N0. specialize (O3 (ns ++ nz') (noise_app _ _ NN N')). pose proof (D _ _ _ ns0 O3 N0) as X.
        rewrite <- !app_assoc in X. cbn [app] in X. rewrite <- !app_assoc in X. cbn [app]. rewrite <- !app_assoc. cbn [app]. rewrite <- !app_assoc. exact X. }
      split; [rewrite map_snoc, M, M1; reflexivity|]. split; [exact A3|]. split; [rewrite (proj1 SS); exact A4|]. split; [exact I5|].
      unfold uns. rewrite LX in *. repeat (rewrite <- !app_assoc in *; cbn [app] in * ). exact I4.
  - rewrite app_nil_r. destruct e; try discriminate. cbn [isCommentBlock com]. rewrite EL. destruct B as [(-> & nz & N & S0)|(nz & l1 & tb & j & xs & ns & N & O & M & LX & FX & NN & S0)].
    + destruct (cb_spec _ _ ft st _ _ T S0) as (I1 & I2 & I3 & m & ns & I4 & I5). split; [|exact I1]. split; [exact I2|]. split; [exact I3|]. left. split; [reflexivity|].
      exists m, (nz ++ ns). split; [now rewrite app_assoc|]. intros n2 C2. rewrite <- app_assoc. apply noise_app; auto.
    + destruct (cb_spec _ _ ft st _ _ T S0) as (I1 & I2 & I3 & m & ns' & I4 & I5). split; [|exact I1]. split; [exact I2|]. split; [exact I3|]. right.
      exists nz, l1, tb, j, xs, m, (NL :: ns ++ ns'). repeat (split; [solve [assumption|rewrite (proj1 I1); assumption]|]). split; [now apply unfin_part|].
      repeat (rewrite <- !app_assoc in *; cbn [app] in * ). exact I4.
Qed.
Lemma ended_newline ts0 stk0 turn stk ms st : ended ts0 stk0 turn stk ms st -> begun ts0 stk0 turn stk ms (newline st) /\ same st (newline st).
Proof.
  intros (A & F & [(-> & m & ns & H & P)|(nz & l1 & tb & j & xs & m & ns & N & O & M & LX & FX & U & H)]).
  - destruct (newline_part m ns st ts0 stk0 H P F) as (ns' & N & S1 & S2 & _). split; [|exact S2]. left. split; [reflexivity|]. exists ns'. split; [exact N|]. rewrite (proj1 S2). exact S1.
  - rewrite !app_assoc in H. destruct (newline_unfin m ns st _ _ H U F) as (ns' & N' & S1 & S2 & _). split; [|exact S2]. right. exists nz, l1, tb, j, xs, ns'. rewrite (proj1 S2).
    repeat (split; [assumption|]). rewrite <- !app_assoc in S1. exact S1.
Qed.
Lemma begun_newline ts0 stk0 turn stk ms st : begun ts0 stk0 turn stk ms st -> begun ts0 stk0 turn stk ms (newline st) /\ same st (newline st).
Proof.
  intros [(-> & nz & N & S0)|(nz & l1 & tb & j & xs & ns & N & O & M & LX & FX & NN & S0)].
  - destruct (newline_fresh _ _ _ _ S0) as (ns' & N' & S1 & S2 & _). split; [|exact S2]. left. split; [reflexivity|]. exists (nz ++ ns'). split; [now apply noise_app|]. rewrite (proj1 S2), app_assoc. exact S1.
  - destruct (newline_fresh _ _ _ _ S0) as (ns' & N' & S1 & S2 & _). split; [|exact S2]. right. exists nz, l1, tb, j, xs, (ns ++ ns'). rewrite (proj1 S2).
    repeat (split; [solve [assumption|now apply noise_app]|]). repeat (rewrite <- !app_assoc in *; cbn [app] in * ). exact S1.
Qed.
Lemma statements_cons ft x l st : statements ft (x :: l) st =
  match l with [] => one_stmt x st | y :: _ => let st1 := newline (one_stmt x st) in statements ft l (if compactStmt ft (o_level st1) (fst x) (fst y) then st1 else newline st1) end.
Proof. destruct x as [e pr]. destruct l as [|[e2 pr2] l]; reflexivity. Qed.
Lemma meanings_cons e l : meanings (e :: l) = meanings [e] ++ meanings l.
Proof. unfold meanings, code. cbn [filter]. destruct (is_code e); reflexivity. Qed.
Lemma statements_spec ft ts0 stk0 turn stk : forall l ms st, Forall (elem ft) l -> l <> [] -> turns (o_margin st) stk0 turn stk -> here st stk -> begun ts0 stk0 turn stk ms st ->
  ended ts0 stk0 turn stk (ms ++ meanings (map fst l)) (statements ft l st) /\ same st (statements ft l st).
Proof.
  induction l as [|x l IH]; intros ms st F NE TU HE B; [contradiction|]. inversion F as [|? ? F1 F2]; subst. rewrite statements_cons. cbn [map]. rewrite meanings_cons, app_assoc.
  destruct (stmt_step ft x _ _ _ _ _ _ F1 TU HE B) as [E S1]. destruct l as [|y l].
  - cbn [map]. unfold meanings at 2. cbn. rewrite app_nil_r. auto.
  - cbv zeta. destruct (ended_newline _ _ _ _ _ _ E) as [B2 S2]. set (st1 := newline (one_stmt x st)) in *.
    assert (S3 : same st st1) by (eapply same_trans; eauto).
    set (st2 := if compactStmt ft (o_level st1) (fst x) (fst y) then st1 else newline st1).
    assert (begun ts0 stk0 turn stk (ms ++ meanings [fst x]) st2 /\ same st st2) as [B3 S4].
    { unfold st2. destruct (compactStmt _ _ _ _); [auto|]. destruct (begun_newline _ _ _ _ _ _ B2) as [B3 S4]. split; [exact B3|]. eapply same_trans; eauto. }
    destruct (IH (ms ++ meanings [fst x]) st2 F2) as [X1 X2]; [discriminate|now rewrite (proj1 S4)|now apply (here_same st)|exact B3|]. split; [exact X1|]. eapply same_trans; eauto.
Qed.
