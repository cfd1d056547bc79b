(** C68: parsing keeps every comment. *)
From Verif Require Import Base BaseProofs Ast Attach AttachSpec AttachProofs AttachTree Lex LexSpec LexProofs LRTables LRCert Parse LRProofs ParseSpec ParseLex ParseSound ParseFile CommentSpec CommentParse PropLex PropAttach PropParse.
Local Open Scope list_scope.

Lemma parse_comments data stmts : (forall p, data <> p ++ [c_bs]) -> parse data = Accepted stmts ->
  exists ts eof st, tokenize data = Lexed (ts ++ [eof]) st /\ is KEof eof /\ flat_map in_order_of stmts = comment_tokens ts.
Proof.
  intros N E. destruct (C66_sound_partial data stmts N E) as (ts & eof & st & T & K & _). pose proof (tokens_legit data N) as LG.
  unfold parse in E. rewrite T in E, LG. destruct (run _ _) as [o|] eqn:R; [|discriminate]. subst o. cbn [toks] in LG.
  destruct (run_comments _ _ _ LG R) as (ts' & eof' & rest & Q & K' & _ & F).
  destruct (lex_eof _ _ _ _ _ (new_stack data) T) as (l' & e & E1 & E2 & E3). apply app_inj_tail in E1. destruct E1 as [<- <-].
  exists ts, eof, st. split; [assumption|]. split; [assumption|].
  assert (ts' = ts) as <-; [|exact F].
  destruct (rev rest) as [|x r] eqn:ER.
  - assert (rest = []) as -> by now rewrite <- (rev_involutive rest), ER. apply app_inj_tail in Q. now destruct Q.
  - exfalso. assert (W : rest = rev r ++ [x]) by now rewrite <- (rev_involutive rest), ER. rewrite W in Q.
    change (ts' ++ eof' :: rev r ++ [x]) with (ts' ++ (eof' :: rev r) ++ [x]) in Q. rewrite app_assoc in Q. apply app_inj_tail in Q. destruct Q as [Q _].
    rewrite Q, Forall_app in E3. destruct E3 as [_ E3]. inversion E3; subst. contradiction.
Qed.
(** The comments on lines of their own outside brackets are in the statements in the order of the text: before, inside and after
    the statements they stand before, in and after. *)
Theorem C68_in_order_partial data stmts : (forall p, data <> p ++ [c_bs]) -> parse data = Accepted stmts ->
  exists ts eof st, tokenize data = Lexed (ts ++ [eof]) st /\ is KEof eof /\ flat_map in_order_of stmts = comment_tokens ts.
Proof. exact (parse_comments data stmts). Qed.


Lemma cnt_around c l x : cnt (around c l) x = cnt (coms_of c) x + cnt l x.
Proof. unfold around, coms_of. rewrite !cnt_app. lia. Qed.
Lemma cnt_flat {A} (f g : A -> list comment) x l : (forall y, In y l -> cnt (f y) x = cnt (g y) x) -> cnt (flat_map f l) x = cnt (flat_map g l) x.
Proof. induction l as [|y l IH]; intro H; [reflexivity|]. cbn [flat_map]. rewrite !cnt_app, H, IH; [lia|intros; apply H; now right|now left]. Qed.
Lemma cnt_opt (f g : expr -> list comment) x o : (forall y, o = Some y -> cnt (f y) x = cnt (g y) x) -> cnt (opt_coms f o) x = cnt (opt_coms g o) x.
Proof. destruct o; [intro H; now apply H|reflexivity]. Qed.
Lemma cnt_id i x : cnt (id_in i) x = cnt (id_coms i) x.
Proof. unfold id_in, id_coms. rewrite cnt_around. cbn. lia. Qed.
Lemma cnt_str i x : cnt (str_in i) x = cnt (str_coms i) x.
Proof. unfold str_in, str_coms. rewrite cnt_around. cbn. lia. Qed.
Lemma cnt_end i x : cnt (end_in i) x = cnt (end_coms i) x.
Proof. unfold end_in, end_coms. rewrite cnt_around. cbn. lia. Qed.
Lemma every_in_order x e : cnt (in_order_of e) x = cnt (every e) x.
Proof.
  induction e as [e IH] using expr_ind_subs.
  assert (L : forall l, (forall y, In y l -> In y (subs (fun y => y) e)) -> cnt (flat_map in_order_of l) x = cnt (flat_map every l) x) by (intros l H; apply cnt_flat; auto).
  assert (O : forall o, (forall y, o = Some y -> In y (subs (fun y => y) e)) -> cnt (opt_coms in_order_of o) x = cnt (opt_coms every o) x) by (intros o H; apply cnt_opt; auto).
  assert (I : forall l, cnt (flat_map id_in l) x = cnt (flat_map id_coms l) x) by (intro l; apply cnt_flat; intros; apply cnt_id).
  destruct e; cbn [in_order_of every]; cbn [subs] in IH, L, O; rewrite ?map_id in L; rewrite ?map_id in O; rewrite ?map_id in IH; rewrite cnt_around, ?cnt_app; try lia;
    rewrite ?cnt_end, ?cnt_id, ?cnt_str, ?I, ?(fun l H => L l H), ?(fun o H => O o H); rewrite ?IH; try lia;
    try (cbn [In]; rewrite ?in_app_iff; auto; fail); try (intros ? ->; cbn [In opt_list]; rewrite ?in_app_iff; cbn [In opt_list]; tauto); try (intros; cbn [In]; rewrite ?in_app_iff; tauto).
  - f_equal. apply cnt_flat. intros o Ho. apply O. intros y ->. apply in_flat_map. exists (Some y). split; [assumption|]. now left.
Qed.
Lemma every_stmts x m l : cnt (every (EFile no_com m (map Some l))) x = cnt (flat_map in_order_of l) x.
Proof.
  rewrite <- every_in_order. cbn [in_order_of com]. rewrite cnt_around. cbn. induction l as [|y l IH]; [reflexivity|]. cbn [map flat_map opt_coms]. rewrite !cnt_app. now rewrite IH.
Qed.
Lemma filter_perm {A} (p : A -> bool) l l' : Permutation l l' -> Permutation (filter p l) (filter p l').
Proof. induction 1; cbn [filter]; [constructor|destruct (p x); auto|destruct (p x), (p y); auto using perm_swap|eauto using Permutation_trans]. Qed.
Lemma gap_hash o g cs : gap o g cs -> Forall (fun a => snd a <> []) cs.
Proof. induction 1; auto. constructor; [discriminate|assumption]. Qed.
Lemma toks_hash o s l cs : toks_of o s l cs -> Forall (fun a => snd a <> []) cs /\ Forall spelled l.
Proof. induction 1 as [|o g s l cs cs' G _ [I1 I2]|o t s l cs _ S0 _ _ [I1 I2]]; [auto| |auto]. split; [apply Forall_app; split; [eapply gap_hash; eauto|assumption]|assumption]. Qed.
Lemma handed_real cs ls ss : handed_on cs ls ss -> Forall (fun a => snd a <> []) cs -> Permutation (map place (filter real (ls ++ ss))) cs.
Proof.
  induction 1 as [|p tok cs ls ss H IH|p tok cs ls ss H IH|p tok cs ls ss H IH]; intro F.
  - constructor.
  - cbn [app filter real c_tok]. auto.
  - inversion F as [|? ? F1 F2]; subst. cbn [snd] in F1. cbn [app filter]. unfold real at 1. cbn [c_tok]. destruct tok; [contradiction|]. cbn [map place c_start c_tok]. constructor. auto.
  - inversion F as [|? ? F1 F2]; subst. cbn [snd] in F1.
    assert (P : Permutation (ls ++ Comment p tok :: ss) (Comment p tok :: ls ++ ss)) by (symmetry; apply Permutation_middle).
    rewrite (Permutation_map _ (filter_perm real _ _ P)). cbn [filter]. unfold real at 1. cbn [c_tok]. destruct tok; [contradiction|]. cbn [map place c_start c_tok]. constructor. auto.
Qed.
Lemma tokens_real ts : Forall spelled ts -> filter real (comment_tokens ts) = comment_tokens ts.
Proof.
  induction 1 as [|t ts H F IH]; [reflexivity|]. unfold comment_tokens in *. cbn [filter]. destruct (is_comment t) eqn:E; [|assumption]. cbn [map filter]. rewrite IH.
  unfold is_comment in E. unfold spelled in H. destruct (t_kind t); try discriminate. destruct H as (s & H & _). unfold real, comment_of. cbn [c_tok]. now rewrite H.
Qed.
(** The comments of a parsed file are exactly those of its text, each once, with its text and offset. *)
Theorem C68_every_comment_once_partial m data file : (forall p, data <> p ++ [c_bs]) -> parse_file m data = Some file ->
  exists tokens gaps, toks_of 0 (data ++ [c_nl]) tokens gaps /\
    Permutation (map place (filter real (every file))) (comments_of tokens gaps).
Proof.
  intros N E. unfold parse_file in E. destruct (tokenize data) as [l st| |] eqn:T; try discriminate. destruct (parse data) as [stmts| |] eqn:P; try discriminate.
  injection E as <-. destruct (parse_comments data stmts N P) as (ts & eof & st' & T' & K & F). rewrite T in T'. injection T' as -> <-.
  destruct (C32_partition _ _ _ T) as (cs & PT & H). exists (ts ++ [eof]), cs. split; [assumption|]. destruct (toks_hash _ _ _ _ PT) as [H1 H2].
  assert (Q : Permutation (every (assignComments (EFile no_com m (map Some stmts)) (l_lines st) (l_suffixes st))) (comment_tokens ts ++ l_lines st ++ l_suffixes st)).
  { rewrite C31_each_comment_once. apply Permutation_app_tail. apply perm_cnt. intro x. rewrite every_stmts. now rewrite F. }
  rewrite (Permutation_map _ (filter_perm real _ _ Q)). rewrite filter_app, map_app. unfold comments_of. apply Permutation_app.
  - apply Forall_app in H2. destruct H2 as [H2 _]. rewrite (tokens_real _ H2). rewrite ct_app. unfold comment_tokens at 3. cbn [filter]. unfold is_comment. rewrite K. cbn [map]. now rewrite app_nil_r.
  - now apply handed_real.
Qed.
(** The condition is needed for the parser to get that far (C66); parsing without it: *)
Example sample_parsed : exists file, parse_file (FMeta [] [] [] TypeDefault)
    (%"# a" ++ [c_nl] ++ %"if x: # b" ++ [c_nl] ++ %"  # c" ++ [c_nl] ++ %"  y = [1," ++ [c_nl] ++ %"  # d" ++ [c_nl] ++ %"  2] # e" ++ [c_nl] ++ %"  # f" ++ [c_nl] ++ %"# g" ++ [c_nl]) = Some file /\
  map c_tok (in_order_of file) = [%"# a"; %"# b"; %"# c"; %"# d"; %"# e"; %"# f"; %"# g"].
Proof. eexists. split; [vm_compute; reflexivity|]. vm_compute. reflexivity. Qed.
(** A comment beside the header of a loop belongs to the header, not to the loop. *)
Example for_suffix : exists c p v x b, parse_file (FMeta [] [] [] TypeDefault) (%"for a in b: # s" ++ [c_nl] ++ %"  c" ++ [c_nl]) =
    Some (EFile no_com (FMeta [] [] [] TypeDefault) [Some (EFor c p v (EIdent (Ident (Comments [] [Comment x %"# s"] []) (Pos 1 10 9) %"b")) b)]).
Proof. eexists _, _, _, _, _. vm_compute. reflexivity. Qed.
Print Assumptions C68_in_order_partial. Print Assumptions C68_every_comment_once_partial.
