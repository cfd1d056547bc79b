(** The printer's buffer as the lexer sees it. *)
From Verif Require Import Base BaseProofs Ast Utf8 Quote Lex LexSpec LexProofs ParseSpec Print PrintSpec PrintLex PrintTok.
Local Open Scope list_scope.

Definition from (w : bytes) : lexst := mk w 0 true 0 [0].
(** Where the end of the buffer is: after a word, at the start of a line, in a comment; with the spaces written since. *)
Inductive mode := Mid (K : ascii -> bool) (k : nat) | Fresh (n : nat) | InCom (k : nat).
Definition nosp (l : bytes) : Prop := match l with c :: _ => c <> c_sp | [] => True end.
Definition okK (K : ascii -> bool) : Prop := K c_sp = true /\ K c_nl = true /\ K c_hash = true.
Definition at_ (m : mode) (out : bytes) (ts : list token) (d : nat) (stk : list nat) : Prop :=
  match m with
  | Mid K k => exists base, out = pad k ++ base /\ nosp base /\ okK K /\
      forall c w, K c = true -> reads (from (rev base ++ c :: w)) ts (mk (c :: w) d false 0 stk)
  | Fresh n => exists base, out = pad n ++ base /\ (base = [] \/ exists b, base = c_nl :: b) /\
      forall w, reads (from (rev base ++ w)) ts (mk w d true 0 stk)
  | InCom k => exists base, out = pad k ++ base /\ nosp base /\
      forall s w, ~ In c_nl s -> reads (from (rev base ++ s ++ c_nl :: w)) ts (mk (c_nl :: w) d true 0 stk)
  end.
Definition more (j : nat) (m : mode) : mode := match m with Mid K k => Mid K (j + k) | Fresh n => Fresh (j + n) | InCom k => InCom (j + k) end.
Definition none (m : mode) : mode := match m with Mid K _ => Mid K 0 | Fresh _ => Fresh 0 | InCom _ => InCom 0 end.
Lemma okK_closer : okK closer. Proof. repeat split. Qed.
Lemma okK_loose : okK loose. Proof. repeat split. Qed.
Lemma okK_any : okK any. Proof. repeat split. Qed.
#[export] Hint Resolve okK_closer okK_loose okK_any : core.

Lemma pad_app a b : pad (a + b) = pad a ++ pad b.
Proof. apply repeat_app. Qed.
Lemma rev_pad k : rev (pad k) = pad k.
Proof.
  induction k as [|k IH]; [reflexivity|]. cbn. fold (pad k). rewrite IH. clear IH. induction k as [|k IH]; [reflexivity|]. cbn. fold (pad k). now rewrite IH.
Qed.
Lemma drop_pad k base : nosp base -> drop_spaces (pad k ++ base) = base.
Proof.
  intro H. induction k as [|k IH]; cbn; [|exact IH]. destruct base as [|c b]; [reflexivity|]. cbn in *. now rewrite (proj2 (ceq_neq c c_sp) H).
Qed.
Lemma nl_nosp base : (base = [] \/ exists b, base = c_nl :: b) -> nosp base.
Proof. intros [->|(b & ->)]; cbn; [exact Logic.I|discriminate]. Qed.
Lemma at_pad j m out ts d stk : at_ m out ts d stk -> at_ (more j m) (pad j ++ out) ts d stk.
Proof.
  destruct m; cbn [at_ more]; intros (base & -> & H); exists base; (split; [|exact H]); now rewrite pad_app, app_assoc.
Qed.
Lemma at_trim m out ts d stk : at_ m out ts d stk -> at_ (none m) (drop_spaces out) ts d stk.
Proof.
  destruct m; cbn [at_ none]; intros (base & -> & N & H); exists base; (rewrite drop_pad; [|eauto using nl_nosp]); auto.
Qed.
Lemma rd_pad k : forall d stk r, reads (mk (pad k ++ r) d false 0 stk) [] (mk r d false 0 stk).
Proof.
  induction k as [|k IH]; intros d stk r; [apply reads_sim, sim_refl|]. cbn [pad repeat app]. apply (reads_trans _ [] _ [] _ (rd_space d 0 stk (pad k ++ r))), IH.
Qed.
Lemma rd_pad_clean k : forall n d stk r, reads (mk (pad k ++ r) d true n stk) [] (mk r d true (k + n) stk).
Proof.
  induction k as [|k IH]; intros n d stk r; [apply reads_sim, sim_refl|]. cbn [pad repeat app Nat.add]. apply (reads_trans _ [] _ [] _ (rd_space_clean d n stk (pad k ++ r))).
  replace (S (k + n)) with (k + S n) by lia. apply IH.
Qed.
(** The next character: for the three kinds of position. *)
Lemma at_mid K k out ts d stk c w : at_ (Mid K k) out ts d stk -> (0 < k \/ K c = true) -> reads (from (rev out ++ c :: w)) ts (mk (c :: w) d false 0 stk).
Proof.
  intros (base & -> & N & (K1 & _) & H) C. rewrite rev_app_distr, rev_pad, <- app_assoc. destruct k as [|k].
  - destruct C as [C|C]; [lia|]. cbn [pad repeat app]. now apply H.
  - rewrite <- (app_nil_r ts). eapply reads_trans; [apply (H c_sp (pad k ++ c :: w)), K1|]. apply (rd_pad (S k) d stk (c :: w)).
Qed.
Lemma at_fresh n out ts d stk w : at_ (Fresh n) out ts d stk -> reads (from (rev out ++ w)) ts (mk w d true n stk).
Proof.
  intros (base & -> & N & H). rewrite rev_app_distr, rev_pad, <- app_assoc, <- (app_nil_r ts). eapply reads_trans; [apply H|].
  pose proof (rd_pad_clean n 0 d stk w) as X. now rewrite Nat.add_0_r in X.
Qed.
Lemma at_com k out ts d stk s w : at_ (InCom k) out ts d stk -> ~ In c_nl s -> reads (from (rev out ++ s ++ c_nl :: w)) ts (mk (c_nl :: w) d true 0 stk).
Proof.
  intros (base & -> & N & H) C. rewrite rev_app_distr, rev_pad, <- !app_assoc, (app_assoc (pad k)). apply H.
  intro X. apply in_app_iff in X as [X|X]; [|auto]. apply repeat_spec in X. discriminate.
Qed.
Definition eol (d : nat) : list token := match d with O => [NL] | _ => [] end.
Lemma rd_eol d b n stk r : reads (mk (c_nl :: r) d b n stk) (eol d) (mk r d true 0 stk).
Proof. destruct d; [apply rd_nl_out|apply rd_nl_in]. Qed.
Lemma at_nl m out ts d stk : at_ m out ts d stk -> at_ (Fresh 0) (c_nl :: out) (ts ++ eol d) d stk.
Proof.
  intros H. exists (c_nl :: out). split; [reflexivity|]. split; [eauto|]. intro w. cbn [rev]. rewrite <- app_assoc. cbn [app].
  destruct m as [K k|n|k].
  - eapply reads_trans; [eapply at_mid; [exact H|right]|apply rd_eol]. destruct H as (_ & _ & _ & (_ & K2 & _) & _). exact K2.
  - eapply reads_trans; [eapply at_fresh; exact H|apply rd_eol].
  - eapply reads_trans; [apply (at_com _ _ _ _ _ [] w H); intros []|apply rd_eol].
Qed.
Definition is_fresh (m : mode) : bool := match m with Fresh _ => true | _ => false end.
Definition com_tok (m : mode) (d : nat) : list token := if is_fresh m then match d with O => [COM] | _ => [] end else [].
Lemma at_hash m out ts d stk s : at_ m out ts d stk -> ~ In c_nl s -> nosp (rev (c_hash :: s)) -> at_ (InCom 0) (rev (c_hash :: s) ++ out) (ts ++ com_tok m d) d stk.
Proof.
  intros H N L. exists (rev (c_hash :: s) ++ out). split; [reflexivity|]. split.
  { destruct (rev (c_hash :: s)) eqn:E; [|exact L]. apply (f_equal (@List.length ascii)) in E. rewrite rev_length in E. discriminate. }
  intros s' w N'. rewrite rev_app_distr, rev_involutive, <- app_assoc. cbn [app].
  assert (NN : ~ In c_nl (s ++ s')) by (rewrite in_app_iff; tauto).
  destruct m as [K k|n|k]; unfold com_tok; cbn [is_fresh].
  - eapply reads_trans; [eapply at_mid; [exact H|right]|]. { destruct H as (_ & _ & _ & (_ & _ & K3) & _). exact K3. }
    rewrite app_assoc. apply rd_com_in; auto.
  - eapply reads_trans; [eapply at_fresh; exact H|]. rewrite app_assoc. destruct d; [now apply rd_com_out|apply rd_com_in; auto; left; lia].
  - rewrite app_nil_r. change (c_hash :: s ++ s' ++ c_nl :: w) with ((c_hash :: s) ++ s' ++ c_nl :: w). rewrite (app_assoc (c_hash :: s) s'). eapply at_com; [exact H|].
    cbn. intros [Q|Q]; [discriminate|auto].
Qed.

(** [strings.TrimSpace] leaves no space at the end. *)
Lemma trim_end f fuel : (forall s, f s <= List.length s) -> forall s, List.length s <= fuel -> f (trim_with f fuel s) = 0 \/ trim_with f fuel s = [].
Proof.
  intro F. induction fuel as [|n IH]; intros s L; cbn [trim_with].
  - destruct s; [auto|cbn in L; lia].
  - destruct (f s) as [|k] eqn:E; [auto|]. apply IH. rewrite skipn_length. lia.
Qed.
Lemma trail_len s : trail_space s <= List.length s.
Proof.
  destruct s as [|a [|b [|c s]]]; cbn [trail_space List.length]; repeat match goal with |- context [if ?b then _ else _] => destruct b end; lia.
Qed.
Lemma trimmed_nosp s : nosp (rev (trimSpace s)).
Proof.
  unfold trimSpace. rewrite rev_involutive. set (t := trim_with lead_space _ s).
  destruct (trim_end trail_space (List.length t) trail_len (rev t)) as [E|E]; [rewrite rev_length; lia| |rewrite E; exact Logic.I].
  destruct (trim_with trail_space (List.length t) (rev t)) as [|c r]; [exact Logic.I|]. cbn [nosp]. intros ->. discriminate E.
Qed.

(** Lines without statements. *)
Inductive noise : list token -> Prop :=
  | no_nil : noise []
  | no_nl ns : noise ns -> noise (NL :: ns)
  | nz_com ns : noise ns -> noise (COM :: NL :: ns).
Lemma noise_app a b : noise a -> noise b -> noise (a ++ b).
Proof. intros H K. induction H; cbn [app]; [exact K|now apply no_nl|now apply nz_com]. Qed.
Lemma noise_eol d : noise (eol d).
Proof. destruct d; [apply no_nl|]; apply no_nil. Qed.
(** The rest of the line, and comment lines. *)
Definition ends_line (d : nat) (m : mode) (ns : list token) : Prop :=
  noise ns /\ (0 < d -> ns = []) /\ (d = 0 -> is_fresh m = false -> exists ns', ns = NL :: ns' /\ noise ns').
Lemma noise_out d ns : 0 < d \/ noise ns -> d = 0 -> noise ns.
Proof. intros [H|H] E; [lia|exact H]. Qed.

Definition same (st st' : pst) : Prop := o_margin st' = o_margin st /\ o_depth st' = o_depth st /\ o_level st' = o_level st /\ o_ok st' = o_ok st.
Lemma same_refl st : same st st. Proof. repeat split. Qed.
Lemma same_trans a b c : same a b -> same b c -> same a c.
Proof. unfold same. intuition congruence. Qed.
(** The state of the printer. *)
Definition sits (m : mode) (st : pst) (ts : list token) (d : nat) (stk : list nat) : Prop :=
  at_ m (o_out st) ts d stk /\ o_nl st = false /\ Forall fine (o_com st).

Lemma printf_app a b st : printf (a ++ b) st = printf b (printf a st).
Proof. unfold printf, set_out. cbn. now rewrite rev_app_distr, app_assoc. Qed.
Lemma printf_same w st : same st (printf w st). Proof. repeat split. Qed.
Lemma put_comment_at c m st ts d stk : fine c -> at_ m (o_out st) ts d stk ->
  (at_ (InCom 0) (o_out (put_comment c st)) (ts ++ com_tok m d) d stk) \/ o_out (put_comment c st) = o_out st.
Proof.
  intros [N F] H. unfold put_comment, printf. cbn [o_out set_out]. pose proof (trimmed_nosp (c_tok c)) as T.
  destruct F as [E|(s & E)]; rewrite E in *; [now right|left]. apply at_hash; auto. intro Q. apply N. now right.
Qed.
Lemma at_break m st ts d stk : at_ m (o_out st) ts d stk -> at_ (Fresh (o_margin st)) (o_out (break (trim st))) (ts ++ eol d) d stk.
Proof.
  intros H. unfold break, printf, trim. cbn [o_out set_out o_margin rev]. rewrite <- app_assoc, rev_pad. cbn [app].
  apply at_trim, at_nl, (at_pad (o_margin st)) in H. cbn [more] in H. now rewrite Nat.add_0_r in H.
Qed.
(** After a comment and the end of its line. *)
Lemma com_line c m st ts d stk : fine c -> at_ m (o_out st) ts d stk ->
  exists ns, at_ (Fresh (o_margin st)) (o_out (break (trim (put_comment c st)))) (ts ++ ns) d stk /\ ends_line d m ns.
Proof.
  intros F H. destruct (put_comment_at c m st ts d stk F H) as [A|A].
  - exists (com_tok m d ++ eol d). split; [rewrite app_assoc; apply (at_break (InCom 0)) in A; exact A|].
    unfold com_tok. destruct (is_fresh m) eqn:E, d; (split; [|split]); cbn; auto using noise; try lia; try congruence; intros; try congruence; exists []; auto using noise.
  - exists (eol d). split; [apply (at_break m (put_comment c st)); now rewrite A|]. split; [apply noise_eol|]. split; [destruct d; [lia|reflexivity]|]. intros -> _. exists []. auto using noise.
Qed.
Lemma ends_app d m ns n ns' : ends_line d m ns -> ends_line d (Fresh n) ns' -> ends_line d m (ns ++ ns').
Proof.
  intros (A & B & C) (A' & B' & C'). split; [now apply noise_app|]. split; [intro L; now rewrite B, B'|]. intros D E. destruct (C D E) as (x & -> & X).
  exists (x ++ ns'). split; [reflexivity|now apply noise_app].
Qed.
Lemma newline_spec m st ts d stk : at_ m (o_out st) ts d stk -> Forall fine (o_com st) ->
  exists ns, ends_line d m ns /\ sits (Fresh (o_margin st)) (newline st) (ts ++ ns) d stk /\ same st (newline st) /\ o_com (newline st) = [].
Proof.
  intros H F. unfold newline. cbn [o_com set_nl]. destruct (o_com st) as [|c cs] eqn:E.
  - exists (eol d). split; [split; [apply noise_eol|split; [destruct d; [lia|reflexivity]|intros -> _; exists []; auto using noise]]|].
    split; [|split; [repeat split|exact E]]. split; [apply (at_break m (set_nl false st)), H|]. split; [reflexivity|]. cbn. rewrite E. constructor.
  - inversion F as [|? ? F1 F2]; subst.
    assert (G : forall cs st0 ts0 m0, Forall fine cs -> (exists st1, st0 = put_comment c st1 /\ at_ m0 (o_out st1) ts0 d stk /\ same st st1 /\ fine c) \/ (exists c1 st1, st0 = put_comment c1 st1 /\ at_ m0 (o_out st1) ts0 d stk /\ same st st1 /\ fine c1) ->
      o_nl st0 = false ->
      exists ns, ends_line d m0 ns /\ at_ (Fresh (o_margin st)) (o_out (break (trim (fold_left (fun st c => put_comment c (break (trim st))) cs st0)))) (ts0 ++ ns) d stk /\
        same st (fold_left (fun st c => put_comment c (break (trim st))) cs st0) /\ o_nl (fold_left (fun st c => put_comment c (break (trim st))) cs st0) = false).
    { clear. induction cs as [|c1 cs IH]; intros st0 ts0 m0 F HH NLF.
      - assert (exists c1 st1, st0 = put_comment c1 st1 /\ at_ m0 (o_out st1) ts0 d stk /\ same st st1 /\ fine c1) as (c1 & st1 & -> & A & S0 & Fc) by (destruct HH as [(st1 & HH)|HH]; eauto).
        destruct (com_line c1 m0 st1 ts0 d stk Fc A) as (ns & B & C). exists ns. split; [exact C|]. destruct S0 as (S1 & S2 & S3 & S4). rewrite S1 in B. split; [exact B|]. repeat split; auto.
      - assert (exists c1 st1, st0 = put_comment c1 st1 /\ at_ m0 (o_out st1) ts0 d stk /\ same st st1 /\ fine c1) as (c2 & st1 & -> & A & S0 & Fc) by (destruct HH as [(st1 & HH)|HH]; eauto).
        inversion F as [|? ? G1 G2]; subst. destruct (com_line c2 m0 st1 ts0 d stk Fc A) as (ns & B & C).
        destruct S0 as (S1 & S2 & S3 & S4).
        destruct (IH (put_comment c1 (break (trim (put_comment c2 st1)))) (ts0 ++ ns) (Fresh (o_margin st1)) G2) as (ns' & D1 & D2 & D3 & D4).
        + right. exists c1, (break (trim (put_comment c2 st1))). split; [reflexivity|]. split; [exact B|]. split; [repeat split; auto|exact G1].
        + exact NLF.
        + exists (ns ++ ns'). split; [eapply ends_app; eauto|]. rewrite app_assoc. cbn [fold_left]. auto. }
    destruct (G cs (put_comment c (printf %"  " (set_nl false st))) ts (more 2 m) F2) as (ns & A & B & C & D).
    + left. exists (printf %"  " (set_nl false st)). split; [reflexivity|]. split; [apply (at_pad 2 m), H|]. split; [repeat split|exact F1].
    + reflexivity.
    + exists ns. destruct C as (C1 & C2 & C3 & C4). split; [|split; [|split]].
      * destruct A as (A1 & A2 & A3). split; [auto|]. split; [auto|]. intros D0 E0. apply A3; auto. destruct m; auto.
      * split; [|split].
        -- replace (o_out (break (trim (set_coms [] (fold_left (fun st c => put_comment c (break (trim st))) cs (put_comment c (printf %"  " (set_nl false st))))))))
             with (o_out (break (trim (fold_left (fun st c => put_comment c (break (trim st))) cs (put_comment c (printf %"  " (set_nl false st))))))) by reflexivity. exact B.
        -- exact D.
        -- constructor.
      * repeat split; auto.
      * reflexivity.
Qed.
