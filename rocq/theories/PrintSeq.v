(** What the pieces of the printer write, as the lexer reads it. *)
From Verif Require Import Base BaseProofs Ast Utf8 Quote Lex LexSpec LexProofs ParseSpec Print PrintSpec PrintLex PrintTok PrintState.
Local Open Scope list_scope.

Definition ready (P : ascii -> bool) (out : bytes) (ts : list token) (d : nat) (stk : list nat) : Prop :=
  forall c w, P c = true -> reads (from (rev out ++ c :: w)) ts (mk (c :: w) d false 0 stk).
(** Something can be written that starts with a character in [P]. *)
Definition entry (P : ascii -> bool) (st : pst) (ts : list token) (d : nat) (stk : list nat) : Prop :=
  ready P (o_out st) ts d stk /\ (0 < d -> exists m, at_ m (o_out st) ts d stk) /\ o_nl st = false /\ Forall fine (o_com st).
(** Something has been written that ends with a word. *)
Definition post (st st' : pst) (ts : list token) (d : nat) (stk : list nat) : Prop := same st st' /\ sits (Mid closer 0) st' ts d stk.
Definition within (P Q : ascii -> bool) : Prop := forall c, P c = true -> Q c = true.
Lemma within_refl P : within P P. Proof. intros c. auto. Qed.
Lemma within_any P : within P any. Proof. intros c. auto. Qed.
Lemma within_starter : within starter solid. Proof. intros c. apply starter_solid. Qed.
Lemma within_loose : within starter loose. Proof. intros c. apply starter_loose. Qed.
Lemma within_closer : within closer loose. Proof. intros c. apply closer_loose. Qed.
#[export] Hint Resolve within_refl within_any within_starter within_loose within_closer : core.

Lemma sits_weaken K K' k st ts d stk : sits (Mid K k) st ts d stk -> within K' K -> okK K' -> sits (Mid K' k) st ts d stk.
Proof. intros ((b & E & N & O & H) & A) W O'. split; [|exact A]. exists b. auto 6. Qed.
Lemma entry_weaken P Q st ts d stk : entry P st ts d stk -> within Q P -> entry Q st ts d stk.
Proof. intros (H & A) W. split; [|exact A]. intros c w C. apply H, W, C. Qed.
Lemma entry_mid P K k st ts d stk : sits (Mid K k) st ts d stk -> (0 < k \/ within P K) -> entry P st ts d stk.
Proof.
  intros (H & A & B) C. split; [|split; [eauto|auto]]. intros c w Q. eapply at_mid; [exact H|]. destruct C as [C|C]; auto.
Qed.
Lemma entry_fresh P n st ts d stk : sits (Fresh n) st ts d stk -> (0 < d \/ n = hd 0 stk) -> within P solid -> entry P st ts d stk.
Proof.
  intros (H & A & B) C W. split; [|split; [eauto|auto]]. intros c w Q. rewrite <- (app_nil_r ts). eapply reads_trans; [eapply at_fresh; exact H|]. apply rd_align; auto.
Qed.
Lemma sits_pad j m st ts d stk : sits m st ts d stk -> sits (more j m) (printf (pad j) st) ts d stk.
Proof. intros (H & A & B). split; [|auto]. unfold printf. cbn [o_out set_out]. rewrite rev_pad. now apply at_pad. Qed.
Lemma space K k st ts d stk : sits (Mid K k) st ts d stk -> sits (Mid K (S k)) (printf %" " st) ts d stk.
Proof. intros H. apply (sits_pad 1) in H. exact H. Qed.
Lemma entry_space P K k st ts d stk : sits (Mid K k) st ts d stk -> entry P (printf %" " st) ts d stk.
Proof. intros H. eapply entry_mid; [apply space, H|]. left. lia. Qed.
Lemma word P c w K st ts d stk tw d' : entry P st ts d stk -> P c = true -> scans (c :: w) K d tw d' -> okK K -> nosp (rev (c :: w)) ->
  sits (Mid K 0) (printf (c :: w) st) (ts ++ tw) d' stk.
Proof.
  intros (H & _ & A & B) C S0 O N. split; [|auto]. exists (rev (c :: w) ++ o_out st). split; [reflexivity|]. split.
  { destruct (rev (c :: w)) eqn:E; [|exact N]. apply (f_equal (@List.length ascii)) in E. rewrite rev_length in E. discriminate. }
  split; [exact O|]. intros c' w' C'. rewrite rev_app_distr, rev_involutive, <- app_assoc. eapply reads_trans; [apply (H c (w ++ c' :: w') C)|]. apply S0, C'.
Qed.
Lemma post_trans st st1 st2 ts d stk ts' d' : post st st1 ts d stk -> post st1 st2 ts' d' stk -> post st st2 ts' d' stk.
Proof. intros [A _] [B C]. split; [eapply same_trans; eauto|exact C]. Qed.

(** Comments before an expression, inside brackets. *)
Lemma at_coms l : forall m st ts d stk, 0 < d -> at_ m (o_out st) ts d stk -> o_nl st = false -> Forall fine (o_com st) -> Forall fine l -> l <> [] ->
  sits (Fresh (o_margin st)) (fold_left (fun st c => newline (put_comment c st)) l st) ts d stk /\ same st (fold_left (fun st c => newline (put_comment c st)) l st).
Proof.
  induction l as [|c l IH]; intros m st ts d stk D H A B F N; [contradiction|]. cbn [fold_left]. inversion F as [|? ? F1 F2]; subst.
  assert (X : exists m', at_ m' (o_out (put_comment c st)) ts d stk).
  { destruct (put_comment_at c m st ts d stk F1 H) as [Q|Q]; [|exists m; now rewrite Q]. unfold com_tok in Q. destruct d; [lia|]. destruct (is_fresh m); rewrite app_nil_r in Q; eauto. }
  destruct X as (m' & X). destruct (newline_spec m' (put_comment c st) ts d stk X B) as (ns & (_ & E & _) & S1 & S2 & S3). rewrite (E D), app_nil_r in S1.
  destruct l as [|c' l]; [split; [exact S1|exact S2]|]. destruct S1 as (S11 & S12 & S13).
  destruct (IH _ _ _ _ _ D S11 S12 S13 F2 ltac:(discriminate)) as [I1 I2]. destruct S2 as (S21 & S2'). rewrite S21 in I1. split; [exact I1|].
  eapply same_trans; [|exact I2]. repeat split; try apply S2'. exact S21.
Qed.
Lemma before_in P l st ts d stk : 0 < d -> entry P st ts d stk -> Forall fine l -> within P solid -> entry P (print_before l st) ts d stk /\ same st (print_before l st).
Proof.
  intros D E F W. destruct l as [|c l]; [split; [exact E|apply same_refl]|]. unfold print_before.
  destruct E as (_ & H & A & B). destruct (H D) as (m & H').
  set (st1 := if 0 <? indent (trim st) then printf [c_nl] (trim st) else trim st).
  assert (X : exists m', at_ m' (o_out st1) ts d stk).
  { unfold st1. apply at_trim in H'. destruct (0 <? indent (trim st)); [|eauto]. apply at_nl in H'. destruct d; [lia|]. rewrite app_nil_r in H'. eauto. }
  destruct X as (m' & X).
  assert (S1 : o_nl st1 = false /\ Forall fine (o_com st1) /\ same st st1) by (unfold st1; destruct (0 <? indent (trim st)); repeat split; auto).
  destruct S1 as (A1 & B1 & S1). apply (at_pad (o_margin st1)) in X.
  destruct (at_coms (c :: l) (more (o_margin st1) m') (printf (pad (o_margin st1)) st1) ts d stk D) as [I1 I2]; auto; [unfold printf; cbn [o_out set_out]; now rewrite rev_pad|discriminate|].
  split; [eapply entry_fresh; eauto|]. eapply same_trans; [exact S1|]. exact I2.
Qed.
Lemma node_spec P c body st ts d stk ts1 : entry P st ts d stk -> fine_coms c -> within P solid -> (0 < d \/ c_before c = []) ->
  (forall st1, same st st1 -> entry P st1 ts d stk -> post st1 (body st1) (ts ++ ts1) d stk) -> post st (node c body st) (ts ++ ts1) d stk.
Proof.
  intros E (F1 & F2 & F3) W C H. unfold node, newlineIfNeeded. assert (o_nl st = false) as -> by apply E.
  assert (X : entry P (print_before (c_before c) st) ts d stk /\ same st (print_before (c_before c) st)).
  { destruct C as [C| ->]; [now apply before_in|]. split; [exact E|apply same_refl]. }
  destruct X as [X1 X2]. destruct (H _ X2 X1) as (S0 & A & B & D). split; [eapply same_trans; [exact X2|exact S0]|].
  split; [exact A|]. split; [exact B|]. cbn. apply Forall_app. auto.
Qed.
(** The same, with the tokens chosen by the body. *)
Lemma node_ex {A} P c body st ts d stk (Q : A -> list token -> Prop) : entry P st ts d stk -> fine_coms c -> within P solid -> (0 < d \/ c_before c = []) ->
  (forall st1, same st st1 -> entry P st1 ts d stk -> exists x ts1, Q x ts1 /\ post st1 (body st1) (ts ++ ts1) d stk) -> exists x ts1, Q x ts1 /\ post st (node c body st) (ts ++ ts1) d stk.
Proof.
  intros E (F1 & F2 & F3) W C H. unfold node, newlineIfNeeded. assert (o_nl st = false) as -> by apply E.
  assert (X : entry P (print_before (c_before c) st) ts d stk /\ same st (print_before (c_before c) st)).
  { destruct C as [C| ->]; [now apply before_in|]. split; [exact E|apply same_refl]. }
  destruct X as [X1 X2]. destruct (H _ X2 X1) as (x & ts1 & Qx & S0 & A' & B & D). exists x, ts1. split; [exact Qx|]. split; [eapply same_trans; [exact X2|exact S0]|].
  split; [exact A'|]. split; [exact B|]. cbn. apply Forall_app. auto.
Qed.

(** Line breaks in expressions. *)
Lemma breakline_spec K k st ts d stk : sits (Mid K k) st ts d stk -> (o_depth st = 0 \/ 0 < d) ->
  same st (breakline st) /\ entry solid (breakline st) ts d stk.
Proof.
  intros S0 C. unfold breakline. destruct (Nat.eqb_spec (o_depth st) 0) as [E|E].
  - split; [apply printf_same|]. change (%" \" ++ c_nl :: pad (o_margin st)) with ([c_sp; c_bs; c_nl] ++ pad (o_margin st)). rewrite printf_app.
    assert (X : sits (Mid any 0) (printf [c_sp; c_bs; c_nl] st) ts d stk).
    { destruct S0 as (H & A & B). split; [|auto]. exists (o_out (printf [c_sp; c_bs; c_nl] st)). split; [reflexivity|]. split; [cbn; discriminate|]. split; [auto|].
      intros c w _. unfold printf. cbn [o_out set_out rev app]. rewrite <- !app_assoc. cbn [app]. rewrite <- (app_nil_r ts).
      eapply reads_trans; [eapply at_mid; [exact H|]|]. { right. destruct H as (? & _ & _ & (K1 & _) & _). exact K1. }
      eapply (reads_trans _ [] _ []); [apply rd_space|]. apply rd_cont. }
    apply (sits_pad (o_margin st)) in X. cbn [more] in X. eapply entry_mid; [exact X|]. right. auto.
  - destruct C as [C|C]; [contradiction|]. destruct S0 as (H & A & B). destruct (newline_spec _ _ _ _ _ H B) as (ns & (_ & Z & _) & S1 & S2 & _).
    rewrite (Z C), app_nil_r in S1. split; [exact S2|]. eapply entry_fresh; eauto.
Qed.

(** Where an expression stands. *)
Definition ctx (w : place) (d pd : nat) : Prop :=
  match w with Inside => 0 < d | InTuple => True | Outside => pd = 0 \/ 0 < d end.
Definition CM : token := tok0 (KChar ",") %",".
Fixpoint sep (tss : list (list token)) : list token := match tss with [] => [] | [t] => t | t :: r => t ++ CM :: sep r end.
(** [f] writes tokens that satisfy [X]. *)
Definition iprints (P : ascii -> bool) (X : list token -> Prop) (f : pst -> pst) (w : place) : Prop :=
  forall st ts d stk, ctx w d (o_depth st) -> entry P st ts d stk -> exists ts1, X ts1 /\ post st (f st) (ts ++ ts1) d stk.
Lemma iprints_weaken P Q X f w : iprints P X f w -> within P Q -> iprints Q X f w.
Proof. intros H W st ts d stk C E. eapply H; eauto. eapply entry_weaken; eauto. Qed.
Lemma ctx_same w d st st' : same st st' -> ctx w d (o_depth st) -> ctx w d (o_depth st').
Proof. intros (_ & -> & _). auto. Qed.

Lemma put_comma k st ts d stk : sits (Mid closer 0) st ts d stk -> sits (Mid any k) (printf ("," :: pad k)%char st) (ts ++ [CM]) d stk.
Proof.
  intros H. change (","%char :: pad k) with ([","%char] ++ pad k). rewrite printf_app.
  assert (X : sits (Mid any 0) (printf [","%char] st) (ts ++ [CM]) d stk).
  { eapply (word closer ","%char []); [eapply entry_mid; eauto|reflexivity|apply scan_punct; cbn; auto|auto|cbn; discriminate]. }
  apply (sits_pad k) in X. cbn [more] in X. rewrite Nat.add_0_r in X. exact X.
Qed.
Lemma compact_spec P w Xs : within P solid -> forall l st ts d stk, Forall2 (fun i X => iprints P X (it_print i) w) l Xs -> l <> [] -> ctx w d (o_depth st) -> entry P st ts d stk ->
  exists tss, Forall2 (fun X t => X t) Xs tss /\ post st (seq_compact l st) (ts ++ sep tss) d stk.
Proof.
  intros W. induction Xs as [|X Xs IH]; intros l st ts d stk F N C E; inversion F as [|i ? l' ? F1 F2]; subst; [contradiction|].
  destruct (F1 st ts d stk C E) as (t1 & X1 & P1). destruct l' as [|i' l'].
  - inversion F2; subst. exists [t1]. split; [repeat constructor; auto|exact P1].
  - destruct P1 as [S1 P1]. pose proof (put_comma 1 _ _ _ _ P1) as Q.
    destruct (IH (i' :: l') (printf %", " (it_print i st)) (ts ++ t1 ++ [CM]) d stk F2 ltac:(discriminate)) as (tss & G & H).
    + eapply ctx_same; [|exact C]. eapply same_trans; [exact S1|apply printf_same].
    + rewrite app_assoc. eapply entry_mid; [exact Q|]. left. lia.
    + exists (t1 :: tss). split; [constructor; auto|]. inversion G as [|? ? ? ? ? ?]; subst; [inversion F2|].
      cbn [seq_compact]. cbn [sep]. destruct H as [HH1 HH2]. split; [eapply same_trans; [exact S1|]; eapply same_trans; [apply printf_same|exact HH1]|].
      rewrite <- !app_assoc in HH2. exact HH2.
Qed.
Lemma multi_spec md Xs : forall first l st ts d stk K, Forall2 (fun i X => iprints solid X (it_print i) Inside) l Xs -> 0 < d -> 0 < o_depth st -> sits (Mid K 0) st ts d stk -> within closer K ->
  exists tss cs, Forall2 (fun X t => X t) Xs tss /\ (cs = [] \/ (cs = [CM] /\ l <> [] /\ md <> modeParen /\ md <> modeDef)) /\ (md = modeTuple -> l <> [] -> cs = [CM]) /\
    same st (seq_multi md first l st) /\ exists K', within closer K' /\ sits (Mid K' 0) (seq_multi md first l st) (ts ++ sep tss ++ cs) d stk.
Proof.
  induction Xs as [|X Xs IH]; intros first l st ts d stk K F D PD S0 WK; inversion F as [|i ? l' ? F1 F2]; subst.
  - exists [], []. repeat split; auto; try contradiction. exists K. split; [auto|]. cbn [sep app]. rewrite app_nil_r. exact S0.
  - cbn [seq_multi]. set (st0 := if first && nonempty (o_com st) then printf (c_nl :: pad (o_margin st - 2)) st else st).
    assert (A : same st st0 /\ exists m, at_ m (o_out st0) ts d stk /\ Forall fine (o_com st0)).
    { unfold st0. destruct (first && nonempty (o_com st)); [|split; [apply same_refl|eexists; split; apply S0]]. split; [apply printf_same|].
      destruct S0 as (H & _ & B). apply at_nl, (at_pad (o_margin st - 2)) in H. destruct d; [lia|]. rewrite app_nil_r in H. eexists. split; [|exact B].
      unfold printf. cbn [o_out set_out rev]. rewrite <- app_assoc, rev_pad. exact H. }
    destruct A as (A1 & m & A2 & A3). destruct (newline_spec _ _ _ _ _ A2 A3) as (ns & (_ & Z & _) & S1 & S2 & _). rewrite (Z D), app_nil_r in S1.
    assert (SN : same st (newline st0)) by (eapply same_trans; eauto).
    destruct (F1 (newline st0) ts d stk) as (t1 & X1 & P1 & P2).
    { exact D. }
    { eapply entry_fresh; eauto. }
    assert (SI : same st (it_print i (newline st0))) by (eapply same_trans; eauto).
    set (b := nonempty l' || needsTrailingComma md i). set (st1 := if b then printf %"," (it_print i (newline st0)) else it_print i (newline st0)).
    assert (Q : sits (Mid (if b then any else closer) 0) st1 (ts ++ t1 ++ if b then [CM] else []) d stk).
    { unfold st1. destruct b; [|now rewrite app_nil_r]. rewrite app_assoc. apply (put_comma 0), P2. }
    assert (SS : same st st1) by (unfold st1; destruct b; [eapply same_trans; [exact SI|apply printf_same]|exact SI]).
    destruct (IH false l' st1 (ts ++ t1 ++ if b then [CM] else []) d stk (if b then any else closer) F2 D) as (tss & cs & G1 & G2 & G3 & G4 & K' & G5 & G6); [destruct SS as (_ & -> & _); exact PD|exact Q|destruct b; auto|].
    destruct l' as [|i' l'].
    + inversion F2; subst. inversion G1; subst. exists [t1], (if b then [CM] else []). split; [repeat constructor; auto|].
      cbn [sep app] in G6. rewrite app_nil_r in G6 || idtac.
      split; [|split; [|split; [eapply same_trans; eauto|]]].
      * destruct b eqn:B; [right|auto]. split; [auto|]. split; [discriminate|]. unfold b in B. cbn [nonempty orb] in B. split; intros ->; discriminate B.
      * intros -> _. reflexivity.
      * exists (if b then any else closer). split; [destruct b; auto|]. cbn [seq_multi]. exact Q.
    + assert (b = true) as Hb by reflexivity. rewrite Hb in *. exists (t1 :: tss), cs. split; [constructor; auto|].
      split; [|split; [|split; [eapply same_trans; eauto|]]].
      * destruct G2 as [->|(-> & _ & G2)]; [auto|right]. split; [auto|]. split; [discriminate|exact G2].
      * intros E _. apply G3; [exact E|discriminate].
      * exists K'. split; [exact G5|]. inversion G1 as [|? ? ? ? ? ?]; subst; [inversion F2|]. cbn [sep]. rewrite <- !app_assoc in G6. cbn [app] in G6. rewrite <- !app_assoc. exact G6.
Qed.

(** Sequences in brackets. *)
Definition opener (o : ascii) : Prop := In o %"[({".
Definition closing (c : ascii) : Prop := In c %"])}".
Lemma open_spec P o st ts d stk : entry P st ts d stk -> P o = true -> opener o -> sits (Mid any 0) (printf [o] st) (ts ++ [tok0 (KChar o) [o]]) (S d) stk.
Proof.
  intros E H O. eapply (word P o []); eauto; [now apply scan_open|]. cbn in O |- *. destruct O as [<-|[<-|[<-|[]]]]; discriminate.
Qed.
Lemma close_spec P c st ts d stk : entry P st ts (S d) stk -> P c = true -> closing c -> sits (Mid closer 0) (printf [c] st) (ts ++ [tok0 (KChar c) [c]]) d stk.
Proof.
  intros E H O. apply (sits_weaken any); auto. eapply (word P c []); eauto; [now apply scan_close|]. cbn in O |- *. destruct O as [<-|[<-|[<-|[]]]]; discriminate.
Qed.
Lemma closing_solid c : closing c -> solid c = true. Proof. cbn. intros [<-|[<-|[<-|[]]]]; reflexivity. Qed.
Lemma closing_closer c : closing c -> closer c = true. Proof. cbn. intros [<-|[<-|[<-|[]]]]; reflexivity. Qed.
Definition cs_ok (md : seqMode) (n : nat) (cs : list token) : Prop :=
  (cs = [] \/ (cs = [CM] /\ n <> 0 /\ md <> modeParen /\ md <> modeDef)) /\ (md = modeTuple -> n = 1 -> cs = [CM]).
Lemma end_coms l : forall m st ts d stk, 0 < d -> at_ m (o_out st) ts d stk -> o_nl st = false -> Forall fine (o_com st) -> Forall fine l ->
  exists m', at_ m' (o_out (fold_left (fun st c => put_comment c (newline st)) l st)) ts d stk /\ same st (fold_left (fun st c => put_comment c (newline st)) l st) /\
    o_nl (fold_left (fun st c => put_comment c (newline st)) l st) = false /\ Forall fine (o_com (fold_left (fun st c => put_comment c (newline st)) l st)).
Proof.
  induction l as [|c l IH]; intros m st ts d stk D H A B F; [exists m; auto using same_refl|]. cbn [fold_left]. inversion F as [|? ? F1 F2]; subst.
  destruct (newline_spec m st ts d stk H B) as (ns & (_ & E & _) & (S1 & S11 & S12) & S2 & S3). rewrite (E D), app_nil_r in S1.
  assert (X : exists m', at_ m' (o_out (put_comment c (newline st))) ts d stk).
  { destruct (put_comment_at c _ _ ts d stk F1 S1) as [Q|Q]; [|eexists; rewrite Q; exact S1]. unfold com_tok in Q. destruct d; [lia|]. cbn [is_fresh] in Q. rewrite app_nil_r in Q. eauto. }
  destruct X as (m' & X). destruct (IH m' (put_comment c (newline st)) ts d stk D X S11 S12 F2) as (m'' & I1 & I2 & I3 & I4).
  exists m''. split; [exact I1|]. split; [|auto]. eapply same_trans; [exact S2|]. exact I2.
Qed.
Lemma seq_spec P ft o c p l en md compact multi st ts d stk Xs : entry P st ts d stk -> P o = true -> opener o -> closing c -> md <> modeSeq ->
  Forall2 (fun i X => iprints solid X (it_print i) Inside) l Xs -> (md = modeDef -> en = None) -> match en with Some e => fine_coms (e_com e) | None => True end ->
  exists tss cs, Forall2 (fun X t => X t) Xs tss /\ cs_ok md (List.length l) cs /\
    post st (seq ft (o, c) p l en md compact multi st) (ts ++ tok0 (KChar o) [o] :: sep tss ++ cs ++ [tok0 (KChar c) [c]]) d stk.
Proof.
  intros E PO O C NS F ND FE. unfold seq. assert (mode_eqb md modeSeq = false) as -> by (destruct md; try reflexivity; contradiction). cbn [fst snd].
  pose proof (open_spec P o st ts d stk E PO O) as S1. set (st1 := set_nest (S (o_depth (printf [o] st))) (printf [o] st)).
  assert (S2 : sits (Mid any 0) st1 (ts ++ [tok0 (KChar o) [o]]) (S d) stk) by exact S1.
  assert (D1 : o_depth st1 = S (o_depth st)) by reflexivity.
  (* what remains to be written after the elements *)
  assert (FIN : forall P' st2 tss cs, entry P' st2 (ts ++ tok0 (KChar o) [o] :: sep tss ++ cs) (S d) stk -> P' c = true -> o_margin st2 = o_margin st -> o_depth st2 = S (o_depth st) -> o_level st2 = o_level st -> o_ok st2 = o_ok st ->
     post st (printf [c] (set_nest (pred (o_depth st2)) st2)) (ts ++ tok0 (KChar o) [o] :: sep tss ++ cs ++ [tok0 (KChar c) [c]]) d stk).
  { intros P' st2 tss cs E2 PC M2 D2 L2 K2. split; [repeat split; cbn; auto; now rewrite D2|].
    pose proof (close_spec P' c (set_nest (pred (o_depth st2)) st2) _ d stk E2 PC C) as X. rewrite <- !app_assoc in X. cbn [app] in X. rewrite <- !app_assoc in X. exact X. }
  destruct (useCompactMode ft (o_level st1) p l en md compact multi).
  - destruct l as [|i l].
    + inversion F; subst. exists [], []. split; [constructor|]. split; [split; [auto|intros; discriminate]|]. cbn [seq_compact List.length Nat.eqb andb].
      apply (FIN any st1 [] []); auto. eapply entry_mid; [exact S2|]. auto.
    + destruct (compact_spec solid Inside Xs (within_refl _) (i :: l) st1 (ts ++ [tok0 (KChar o) [o]]) (S d) stk F) as (tss & G & (H1 & H2 & H3 & H4) & HS); [discriminate|cbn; lia|eapply entry_mid; [exact S2|]; auto|].
      set (b := Nat.eqb (List.length (i :: l)) 1 && mode_eqb md modeTuple).
      exists tss, (if b then [CM] else []). split; [exact G|]. split.
      { unfold b. split.
        - destruct (Nat.eqb _ _); [|auto]. destruct md; cbn; auto. right. repeat split; discriminate.
        - intros -> L. rewrite L. reflexivity. }
      rewrite <- app_assoc in HS. cbn [app] in HS. rewrite D1 in H2.
      destruct b.
      * apply (FIN any (printf %"," (seq_compact (i :: l) st1)) tss [CM]); auto. eapply (entry_mid _ any 0); [|auto]. pose proof (put_comma 0 _ _ _ _ HS) as X. rewrite <- app_assoc in X. exact X.
      * apply (FIN closer (seq_compact (i :: l) st1) tss []); auto; [|now apply closing_closer]. rewrite app_nil_r. eapply entry_mid; [exact HS|]. auto.
  - set (ind := if mode_eqb md modeDef then defIndentation else listIndentation). set (st2 := set_margin (o_margin st1 + ind) st1).
    destruct (multi_spec md Xs true l st2 (ts ++ [tok0 (KChar o) [o]]) (S d) stk any F) as (tss & cs & G & G1 & G2 & (H1 & H2 & H3 & H4) & K' & WK & HS); [lia|cbn; lia|exact S2|auto|].
    set (st3 := seq_multi md true l st2) in *.
    exists tss, cs. split; [exact G|]. split.
    { split; [destruct G1 as [->|(-> & G1 & G3)]; [auto|right; split; auto; split; [destruct l; [contradiction|discriminate]|exact G3]]|].
      intros E1 E2. apply G2; auto. intros ->. discriminate. }
    rewrite <- app_assoc in HS. cbn [app] in HS.
    set (st4 := match en with Some e => fold_left (fun st c => put_comment c (newline st)) (c_before (e_com e)) st3 | None => st3 end).
    assert (X : exists m', at_ m' (o_out st4) (ts ++ tok0 (KChar o) [o] :: sep tss ++ cs) (S d) stk /\ same st3 st4 /\ o_nl st4 = false /\ Forall fine (o_com st4)).
    { unfold st4. destruct HS as (HS1 & HS2 & HS3). destruct en as [e|]; [|eexists; split; [exact HS1|auto using same_refl]]. eapply end_coms; eauto; [lia|]. apply FE. }
    destruct X as (m' & X1 & (Y1 & Y2 & Y3 & Y4) & X3 & X4).
    set (st5 := set_margin (o_margin st4 - ind) st4).
    assert (M5 : o_margin st5 = o_margin st) by (cbn; rewrite Y1, H1; cbn; lia).
    destruct (mode_eqb md modeDef) eqn:MD.
    + assert (md = modeDef) as MD' by (destruct md; try discriminate; reflexivity). specialize (ND MD'). subst en. subst st4.
      eapply (FIN closer st5); [eapply (entry_mid _ K' 0); [exact HS|auto]|now apply closing_closer|exact M5|..]; cbn; rewrite ?H2, ?H3, ?H4; reflexivity.
    + destruct (newline_spec m' st5 _ _ _ X1 X4) as (ns & (_ & Z & _) & Q1 & (Q21 & Q22 & Q23 & Q24) & _). rewrite (Z ltac:(lia)), app_nil_r in Q1.
      eapply (FIN solid (newline st5)); [eapply entry_fresh; eauto; left; lia|now apply closing_solid|rewrite Q21; exact M5|rewrite Q22|rewrite Q23|rewrite Q24]; unfold st5; cbn [set_margin o_depth o_level o_ok]; rewrite ?Y2, ?Y3, ?Y4, ?H2, ?H3, ?H4; reflexivity.
Qed.
(** Tuples without parentheses: on one line. *)
Lemma seq_bare_spec P ft b p l en compact multi w st ts d stk Xs : entry P st ts d stk -> within P solid -> l <> [] ->
  (w = Inside -> 0 < d) -> w <> Outside ->
  Forall2 (fun i X => iprints P X (it_print i) w) l Xs -> Forall (fun i => c_before (it_com i) = [] /\ c_suffix (it_com i) = []) l -> c_before (e_com en) = [] ->
  exists tss, Forall2 (fun X t => X t) Xs tss /\ post st (seq ft b p l (Some en) modeSeq compact multi st) (ts ++ sep tss) d stk.
Proof.
  intros E W N WI WO F FC FE. unfold seq. cbn [mode_eqb]. set (st1 := set_nest (S (o_depth st)) st).
  assert (useCompactMode ft (o_level st1) p l (Some en) modeSeq compact multi = true) as ->.
  { unfold useCompactMode. assert (existsb (fun x => nonempty (c_before (it_com x)) || nonempty (c_suffix (it_com x)) && negb (mode_eqb modeSeq modeDef)) l = false) as ->.
    { clear -FC. induction FC as [|x l [A B] FC IH]; [reflexivity|]. cbn [existsb]. rewrite A, B, IH. reflexivity. }
    rewrite FE. reflexivity. }
  destruct (compact_spec P w Xs W l st1 ts d stk F N) as (tss & G & (H1 & H2 & H3 & H4) & HS).
  - destruct w; [contradiction|exact Logic.I|cbn; auto].
  - exact E.
  - exists tss. split; [exact G|]. rewrite andb_false_r. split; [|exact HS]. repeat split; cbn; auto. now rewrite H2.
Qed.
(** Comprehensions. *)
Lemma clauses_spec mult : forall cls Xs st ts d stk, Forall2 (fun f X => iprints starter X f Inside) cls Xs -> 0 < d -> 0 < o_depth st -> sits (Mid closer 0) st ts d stk ->
  exists tss, Forall2 (fun X t => X t) Xs tss /\ post st (fold_left (fun (st : pst) (cl : pst -> pst) => cl (if mult : bool then breakline st else printf %" " st)) cls st) (ts ++ List.concat tss) d stk.
Proof.
  induction cls as [|f cls IH]; intros Xs st ts d stk F D PD S0; inversion F as [|? X ? Xs' F1 F2]; subst.
  - exists []. split; [constructor|]. cbn. rewrite app_nil_r. split; [apply same_refl|exact S0].
  - cbn [fold_left]. set (st1 := if mult then breakline st else printf %" " st).
    assert (A : same st st1 /\ entry starter st1 ts d stk).
    { unfold st1. destruct mult.
      - destruct (breakline_spec _ _ _ _ _ _ S0 (or_intror D)) as [A1 A2]. split; [exact A1|]. eapply entry_weaken; eauto.
      - split; [apply printf_same|]. eapply entry_space, S0. }
    destruct A as [A1 A2]. destruct (F1 st1 ts d stk) as (t1 & X1 & P1 & P2); [exact D|exact A2|].
    destruct (IH Xs' (f st1) (ts ++ t1) d stk F2 D) as (tss & G & H); [|exact P2|].
    { destruct P1 as (_ & -> & _). destruct A1 as (_ & -> & _). exact PD. }
    exists (t1 :: tss). split; [constructor; auto|]. cbn [List.concat]. rewrite app_assoc. destruct H as [H1 H2]. split; [|exact H2].
    eapply same_trans; [exact A1|]. eapply same_trans; eauto.
Qed.
Lemma listFor_spec P (curly : bool) body cls multi en st ts d stk Xb Xs : entry P st ts d stk -> P (if curly then "{" else "[")%char = true -> within starter P ->
  iprints starter Xb body Inside -> Forall2 (fun f X => iprints starter X f Inside) cls Xs -> fine_coms (e_com en) ->
  exists tb tss, Xb tb /\ Forall2 (fun X t => X t) Xs tss /\
    post st (listFor curly body cls multi en st)
      (ts ++ tok0 (KChar (if curly then "{" else "[")) [(if curly then "{" else "[")%char] :: tb ++ List.concat tss ++ [tok0 (KChar (if curly then "}" else "]")) [(if curly then "}" else "]")%char]]) d stk.
Proof.
  intros E PO WP FB F FE. unfold listFor. set (mult := multi || nonempty (c_before (e_com en))). set (o := (if curly then "{" else "[")%char) in *. set (c := (if curly then "}" else "]")%char).
  assert (O : opener o) by (unfold o; destruct curly; cbn; auto). assert (C : closing c) by (unfold c; destruct curly; cbn; auto).
  replace (if curly then %"{" else %"[") with [o] by (unfold o; destruct curly; reflexivity). replace (if curly then %"}" else %"]") with [c] by (unfold c; destruct curly; reflexivity).
  set (st0 := set_nest (S (o_depth st)) st). pose proof (open_spec P o st0 ts d stk E PO O) as S1.
  set (st1 := if mult then newline (set_margin (o_margin (printf [o] st0) + listIndentation) (printf [o] st0)) else printf [o] st0).
  set (mg := if mult then o_margin st + listIndentation else o_margin st).
  assert (A : entry starter st1 (ts ++ [tok0 (KChar o) [o]]) (S d) stk /\ o_margin st1 = mg /\ o_depth st1 = S (o_depth st) /\ o_level st1 = o_level st /\ o_ok st1 = o_ok st).
  { unfold st1, mg. destruct mult.
    - destruct S1 as (S11 & S12 & S13). destruct (newline_spec _ (set_margin (o_margin (printf [o] st0) + listIndentation) (printf [o] st0)) _ _ _ S11 S13) as (ns & (_ & Z & _) & Q1 & (Q21 & Q22 & Q23 & Q24) & _).
      rewrite (Z ltac:(lia)), app_nil_r in Q1. split; [eapply entry_fresh; eauto; left; lia|]. rewrite Q21, Q22, Q23, Q24. repeat split.
    - split; [eapply entry_mid; [exact S1|]; auto|]. repeat split. }
  destruct A as (A1 & A2 & A3 & A4 & A5).
  assert (CT : ctx Inside (S d) (o_depth st1)) by (cbn; lia).
  destruct (FB st1 _ _ _ CT A1) as (tb & XB & (B1 & B2 & B3 & B4) & BS).
  destruct (clauses_spec mult cls Xs (body st1) ((ts ++ [tok0 (KChar o) [o]]) ++ tb) (S d) stk F) as (tss & G & (C1 & C2 & C3 & C4) & CS); [lia|rewrite B2, A3; lia|exact BS|].
  exists tb, tss. split; [exact XB|]. split; [exact G|].
  set (st2 := fold_left _ cls (body st1)) in *.
  set (st3 := if mult then _ else st2).
  assert (X : exists P', entry P' st3 (ts ++ tok0 (KChar o) [o] :: tb ++ List.concat tss) (S d) stk /\ P' c = true /\ o_margin st3 = o_margin st /\ o_depth st3 = S (o_depth st) /\ o_level st3 = o_level st /\ o_ok st3 = o_ok st).
  { rewrite <- !app_assoc in CS. cbn [app] in CS. unfold st3. destruct mult.
    - destruct CS as (CS1 & CS2 & CS3). destruct (end_coms (c_before (e_com en)) _ st2 _ _ _ (Nat.lt_0_succ d) CS1 CS2 CS3 (proj1 FE)) as (m' & I1 & (I21 & I22 & I23 & I24) & I3 & I4).
      set (st4 := fold_left _ (c_before (e_com en)) st2) in *.
      destruct (newline_spec _ (set_margin (o_margin st4 - listIndentation) st4) _ _ _ I1 I4) as (ns & (_ & Z & _) & Q1 & (Q21 & Q22 & Q23 & Q24) & _).
      rewrite (Z ltac:(lia)), app_nil_r in Q1. exists solid. split; [eapply entry_fresh; eauto; left; lia|]. split; [now apply closing_solid|].
      rewrite Q21, Q22, Q23, Q24. cbn [set_margin o_margin o_depth o_level o_ok]. rewrite I21, I22, I23, I24, C1, C2, C3, C4, B1, B2, B3, B4, A2, A3, A4, A5. unfold mg. repeat split; lia.
    - exists closer. split; [eapply entry_mid; [exact CS|]; auto|]. split; [now apply closing_closer|]. rewrite C1, C2, C3, C4, B1, B2, B3, B4. auto. }
  destruct X as (P' & X1 & X2 & X3 & X4 & X5 & X6). pose proof (close_spec P' c st3 _ d stk X1 X2 C) as Y. split.
  - repeat split; cbn; auto. now rewrite X4.
  - rewrite <- !app_assoc in Y. cbn [app] in Y. rewrite <- !app_assoc in Y. exact Y.
Qed.
