(** Files that come from the parser: their comments, and what does not depend on comments. *)
From Verif Require Import Base BaseProofs Ast Attach AttachSpec AttachProofs AttachTree Lex LexSpec LexProofs LRTables LRCert Parse ParseSpec ParseLex ParseFile CommentSpec PropLex PropAttach PropParse PropComments.
From Verif Require Import ShapeSpec Utf8 Quote Print PrintSpec PrintMove.
Local Open Scope list_scope.

(** ** From the layout to everything that printing needs *)
Lemma fine_split c : Forall fine (coms_of c) <-> fine_coms c.
Proof. unfold coms_of, fine_coms. rewrite !Forall_app. reflexivity. Qed.
Lemma all_impl {A} (P Q : A -> Prop) l : (forall x, In x l -> P x -> Q x) -> all_of P l -> all_of Q l.
Proof. induction l as [|x l IH]; [auto|]. cbn. intros H [H1 H2]. split; [apply H; auto|apply IH; auto]. Qed.
Lemma any_impl {A} (P Q : A -> Prop) o : (forall x, o = Some x -> P x -> Q x) -> if_any P o -> if_any Q o.
Proof. destruct o; cbn; auto. Qed.
Lemma flat_fine {A} (g : A -> list comment) l x : Forall fine (flat_map g l) -> In x l -> Forall fine (g x).
Proof. intros F I. rewrite Forall_forall in *. intros y Y. apply F, in_flat_map. eauto. Qed.
Lemma layout_tidy e : forall w, layout w e -> Forall fine (every e) -> PrintSpec.tidy w e.
Proof.
  induction e as [e IH] using expr_ind_subs. intros w L F.
  assert (S1 : forall w x, In x (subs (fun y => y) e) -> Forall fine (every x) -> (w <> Inside -> c_before (com x) = []) /\ layout w x -> (w <> Inside -> c_before (com x) = []) /\ PrintSpec.tidy w x) by (intros w' x I1 I2 [I3 I4]; split; auto).
  assert (SL : forall w l, (forall x, In x l -> In x (subs (fun y => y) e)) -> Forall fine (flat_map every l) -> all_of (fun x => (w <> Inside -> c_before (com x) = []) /\ layout w x) l -> all_of (fun x => (w <> Inside -> c_before (com x) = []) /\ PrintSpec.tidy w x) l).
  { intros w' l I1 I2. apply all_impl. intros x X. apply S1; [auto|now apply (flat_fine every l)]. }
  assert (SB : forall l, (forall x, In x l -> In x (subs (fun y => y) e)) -> Forall fine (flat_map every l) -> all_of (layout Outside) l -> all_of (PrintSpec.tidy Outside) l).
  { intros l I1 I2. apply all_impl. intros x X. intro Y. apply IH; [auto|exact Y|now apply (flat_fine every l)]. }
  assert (SO : forall w o, (forall x, o = Some x -> In x (subs (fun y => y) e)) -> Forall fine (opt_coms every o) -> if_any (fun x => (w <> Inside -> c_before (com x) = []) /\ layout w x) o -> if_any (fun x => (w <> Inside -> c_before (com x) = []) /\ PrintSpec.tidy w x) o).
  { intros w' o I1 I2. apply any_impl. intros x ->. apply S1; [now apply I1|exact I2]. }
  assert (ID : forall l, Forall fine (flat_map id_coms l) -> Forall fine_id l).
  { intros l G. apply Forall_forall. intros x X. apply fine_split. now apply (flat_fine id_coms l). }
  destruct e; cbn [layout PrintSpec.tidy every com] in *; cbn [subs] in S1, SL, SB, SO, IH; rewrite ?map_id in S1; rewrite ?map_id in SL; rewrite ?map_id in SB; rewrite ?map_id in SO; rewrite ?map_id in IH;
    try (exfalso; exact L); rewrite ?Forall_app in F; unfold end_coms, id_coms, str_coms in F; rewrite ?fine_split in F;
    repeat match goal with H : _ /\ _ |- _ => destruct H end; repeat match goal with |- _ /\ _ => split end; auto.
  all: try (eapply S1; eauto; cbn; tauto); try (eapply SL; eauto; intros; cbn; rewrite ?in_app_iff; tauto); try (eapply SO; eauto; intros; subst; cbn; rewrite ?in_app_iff; cbn; tauto); try (eapply SB; eauto; intros; cbn; rewrite ?in_app_iff; tauto).
  - split; assumption.
  - destruct nobr; [|split; [eapply SL; eauto|assumption]]. destruct L as [L1 L2]. split; [|exact L2]. revert L1. apply all_impl. intros x X (X1 & X2 & X3). repeat split; auto. apply IH; [auto|exact X3|now apply (flat_fine every l)].
  - split; assumption.
Qed.
Lemma layout_tidy_file f : layout_file f -> Forall fine (every f) -> tidy_file f.
Proof.
  destruct f; try (intros []; fail). cbn [layout_file every com tidy_file]. intros L F. rewrite Forall_app, fine_split in F. destruct F as [F1 F2]. split; [exact F1|].
  assert (L' : forall o, In o stmts -> if_any (layout Outside) o) by (clear - L; induction stmts as [|o l IH]; intros o' X; [destruct X|]; cbn in L; destruct L as [L1 L2], X as [<-|X]; auto).
  rewrite Forall_forall in *. intros [x|] X; [|exact Logic.I]. specialize (L' _ X). cbn [if_any] in L'. apply layout_tidy; [exact L'|]. rewrite Forall_forall. intros y Y. apply F2, in_flat_map. exists (Some x). auto.
Qed.

(** ** The comments of a parsed file *)
Lemma gap_real o g cs : gap o g cs -> Forall (fun a => exists s, snd a = c_hash :: s /\ ~ In c_nl s) cs.
Proof. induction 1; auto. constructor; [|assumption]. cbn [snd]. eexists. split; [reflexivity|assumption]. Qed.
Lemma toks_real o s l cs : toks_of o s l cs -> Forall (fun a => exists s, snd a = c_hash :: s /\ ~ In c_nl s) cs /\ Forall spelled l.
Proof. induction 1 as [|o g s l cs cs' G _ [I1 I2]|o t s l cs _ S0 _ _ [I1 I2]]; [auto| |auto]. split; [apply Forall_app; split; [eapply gap_real; eauto|assumption]|assumption]. Qed.

Lemma trim_skips f fuel : forall s, exists k, trim_with f fuel s = skipn k s.
Proof.
  induction fuel as [|fuel IH]; intro s; cbn [trim_with]; [now exists 0|]. destruct (f s) as [|n] eqn:E; [now exists 0|].
  destruct (IH (skipn (S n) s)) as [k ->]. exists (S n + k). apply skipn_add.
Qed.
Lemma real_fine c : (exists s, c_tok c = c_hash :: s /\ ~ In c_nl s) -> fine c.
Proof.
  intros (s & E & N). unfold fine. rewrite E.
  assert (L : trim_with lead_space (List.length (c_hash :: s)) (c_hash :: s) = c_hash :: s).
  { cbn [List.length trim_with]. replace (lead_space (c_hash :: s)) with 0; [reflexivity|]. destruct s as [|d [|e s]]; reflexivity. }
  unfold trimSpace. rewrite L. destruct (trim_skips trail_space (List.length (c_hash :: s)) (rev (c_hash :: s))) as [k ->].
  pose proof (firstn_skipn k (rev (c_hash :: s))) as Q. apply (f_equal (@rev ascii)) in Q. rewrite rev_app_distr, rev_involutive in Q.
  set (t := rev (skipn k (rev (c_hash :: s)))) in *. clearbody t. split.
  - intro X. assert (Y : In c_nl (c_hash :: s)) by (rewrite <- Q; apply in_or_app; auto). destruct Y as [Y|Y]; [discriminate|contradiction].
  - destruct t as [|x t]; [now left|right]. cbn [app] in Q. injection Q as -> _. now exists t.
Qed.
Lemma blank_fine c : c_tok c = [] -> fine c.
Proof. intro E. unfold fine. rewrite E. cbn. auto. Qed.
Lemma parsed_comments m data f : (forall p, data <> p ++ [c_bs]) -> parse_file m data = Some f -> Forall fine (every f).
Proof.
  intros N E. destruct (C68_every_comment_once_partial m data f N E) as (ts & gaps & T & P). destruct (toks_real _ _ _ _ T) as [G1 G2].
  apply Forall_forall. intros c C. destruct (real c) eqn:R; [|apply blank_fine; unfold real in R; now destruct (c_tok c)].
  apply real_fine. assert (I : In (CommentSpec.place c) (comments_of ts gaps)).
  { eapply Permutation_in; [exact P|]. apply in_map. apply filter_In. auto. }
  unfold comments_of in I. apply in_app_or in I. destruct I as [I|I].
  - apply in_map_iff in I. destruct I as (c' & E1 & I). unfold comment_tokens in I. apply in_map_iff in I. destruct I as (t & <- & I). apply filter_In in I. destruct I as [I K].
    rewrite Forall_forall in G2. specialize (G2 t I). unfold is_comment in K. unfold spelled in G2. destruct (t_kind t); try discriminate.
    unfold CommentSpec.place in E1. injection E1 as _ E1. unfold comment_of in E1. cbn [c_tok] in E1. rewrite <- E1. exact G2.
  - rewrite Forall_forall in G1. apply (G1 _ I).
Qed.

(** ** Comments do not matter for the meaning *)
Lemma code_by_strip l : map strip (code l) = code (map strip l).
Proof. unfold code. induction l as [|x l IH]; [reflexivity|]. cbn [filter map]. replace (is_code (strip x)) with (is_code x) by now destruct x. destruct (is_code x); cbn [map]; now rewrite IH. Qed.
Lemma shape_strip e : shape (strip e) = shape e.
Proof.
  induction e as [e IH] using expr_ind_subs.
  assert (L : forall l, (forall x, In x l -> In x (subs (fun y => y) e)) -> map shape (map strip l) = map shape l) by (intros l H; rewrite map_map; apply map_ext_in; auto).
  assert (B : forall l, (forall x, In x l -> In x (subs (fun y => y) e)) -> flat_map (fun s => if is_code s then [shape s] else []) (map strip l) = flat_map (fun s => if is_code s then [shape s] else []) l).
  { induction l as [|x l IHl]; intro H; [reflexivity|]. cbn [map flat_map]. rewrite IHl by (intros; apply H; now right). replace (is_code (strip x)) with (is_code x) by now destruct x. rewrite IH by (apply H; now left). reflexivity. }
  assert (O : forall o, (forall x, o = Some x -> In x (subs (fun y => y) e)) -> option_map shape (option_map strip o) = option_map shape o) by (intros [x|] H; [cbn; f_equal; auto|reflexivity]).
  assert (ID : forall l, map bare_id (map strip_id l) = map bare_id l) by (intro l; rewrite map_map; reflexivity).
  destruct e; cbn [strip shape]; cbn [subs] in L, B, O, IH; rewrite ?map_id in L; rewrite ?map_id in B; rewrite ?map_id in O; rewrite ?map_id in IH; try reflexivity.
  all: try (rewrite ?ID; reflexivity).
  { f_equal. rewrite map_map. apply map_ext_in. intros [x|] X; [|reflexivity]. cbn. f_equal. apply IH. apply in_flat_map. exists (Some x). split; [exact X|now left]. }
  all: f_equal; try (apply IH; cbn; tauto); try (apply L; intros; cbn; rewrite ?in_app_iff; tauto); try (apply B; intros; cbn; rewrite ?in_app_iff; tauto); try (apply O; intros; subst; cbn; rewrite ?in_app_iff; cbn; tauto).
Qed.
Lemma meanings_strip l l' : map strip l' = map strip l -> meanings l' = meanings l.
Proof.
  intro E. assert (Q : forall l, meanings l = map plain (map shape (map strip (code l)))).
  { intro k. unfold meanings. rewrite !map_map. apply map_ext. intro x. unfold meaning. now rewrite shape_strip. }
  rewrite !Q, !code_by_strip. now rewrite E.
Qed.
(** A parsed file: its statements are those that the parser made, with more comments. *)
Lemma parsed_shape m data f : parse_file m data = Some f ->
  exists ts st stmts c l, tokenize data = Lexed ts st /\ parse data = Accepted stmts /\ f = EFile c m l /\ map strip (stmts_of f) = map strip stmts.
Proof.
  unfold parse_file. destruct (tokenize data) as [ts st| |] eqn:T; try discriminate. destruct (parse data) as [stmts| |] eqn:P; try discriminate. intros [= <-].
  pose proof (C31_code_unchanged (EFile no_com m (map Some stmts)) (l_lines st) (l_suffixes st)) as E. set (f := assignComments _ _ _) in *. clearbody f.
  destruct f; try discriminate E. cbn [strip] in E. injection E as -> E. rename stmts0 into l. exists ts, st, stmts, c, l. repeat split; auto.
  cbn [stmts_of]. rewrite map_map in E. clear - E. revert l E. induction stmts as [|x k IH]; intros [|y l] E; try discriminate; [reflexivity|].
  cbn [map flat_map] in *. apply cons_inj in E as [E1 E2]. destruct y as [y|]; [|discriminate]. cbn in E1. cbn [app map]. rewrite (IH l E2). f_equal. now injection E1.
Qed.
