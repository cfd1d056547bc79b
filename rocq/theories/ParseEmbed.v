(** Completeness of the parser, the induction over the spelling of trees. *)
From Verif Require Import Base BaseProofs Ast Lex LexSpec LRTables LRCert Parse LRProofs LRItems LRComplete LRSim ParseSpec ParseLex ParseProofs ParseStmts ShapeSpec ParseComplete.
Local Open Scope list_scope.

Ltac wfs := repeat match goal with
  | H : Forall wf_tok (_ ++ _) |- _ => apply Forall_app in H; destruct H
  | H : Forall wf_tok (_ :: _) |- _ => apply Forall_cons_iff in H; destruct H
  | H : Forall wf_tok [] |- _ => clear H
  end.
Ltac spec := repeat match goal with
  | H : Forall wf_tok ?t -> _, K : Forall wf_tok ?t |- _ => specialize (H K)
  | H : (_ <= 12)%nat -> _ |- _ => specialize (H ltac:(lia))
  | H : as_expr _ _ _ |- _ => destruct H as (? & ? & ?)
  | H : as_list _ _ _ |- _ => destruct H as (? & ? & ?)
  | H : as_opt _ _ _ |- _ => destruct H as (? & ? & ?)
  | H : exists e, der G_Prim (VExpr e) _ /\ _ |- _ => destruct H as (? & ? & ? & ?)
  | H : exists l f, der (G_Suite _) (VStmts l f) _ /\ _ |- _ => destruct H as (? & ? & ? & ?)
  end.
Ltac begin := intros; unfold emb, emb_maybe, emb_stride, emb_annotation, emb_row, emb_items, emb_row1, emb_params, emb_suite, emb_smalls, emb_line, emb_stmts in *;
  let W := fresh "W" in intro W; wfs; spec.
Ltac fin := unfold unary; first [cbn [shape option_map]; congruence | cbn; congruence].
Lemma prim_intro e e' ts : der G_PrimN (VExpr e') ts -> shape e' = shape e ->
  exists e', der G_Prim (VExpr e') ts /\ ((forall a, is KInt a -> ts <> [a]) -> der G_PrimN (VExpr e') ts) /\ shape e' = shape e.
Proof. intros D S0. exists e'. split; [|auto]. eapply by_silent; [|exact D]. vm_compute. reflexivity. Qed.
Lemma ident_der i t : spelled_ident i t -> der G_Id (VExpr (EIdent (Ident no_com (t_pos t) (t_tok t)))) [t] /\ bare_id (Ident no_com (t_pos t) (t_tok t)) = bare_id i.
Proof. intros [K N]. split; [mk 139%Z [[t]]|]. unfold bare_id. cbn. now rewrite N. Qed.
Lemma string_der s t : spelled_string s t -> exists s', der G_Str (VExpr (EStr s')) [t] /\ bare_str s' = bare_str s.
Proof. intros (K & A & B & C). eexists. split; [mk 138%Z [[t]]|]. unfold bare_str. cbn. now rewrite A, B, C. Qed.
Lemma load_arg_der f t ts : load_arg f t ts -> exists f' t', der G_LArg (VLoads [(f', t')]) ts /\ bare_id f' = bare_id f /\ bare_id t' = bare_id t.
Proof.
  intro H. inversion H as [f0 t0 s K A B|f0 t0 i eq s SI C K A]; subst.
  - assert (D : der G_Str (VExpr (EStr (Str no_com (t_pos s) (t_str s) (t_triple s) (pos_add (t_pos s) (t_tok s)) (t_tok s)))) [s]) by mk 138%Z [[s]].
    eexists _, _. split; [mk 65%Z [[s]]|]. unfold bare_id. cbn. rewrite A, B. auto.
  - destruct (ident_der _ _ SI) as [DI EI].
    assert (D : der G_Str (VExpr (EStr (Str no_com (t_pos s) (t_str s) (t_triple s) (pos_add (t_pos s) (t_tok s)) (t_tok s)))) [s]) by mk 138%Z [[s]].
    eexists _, _. split; [mk 66%Z [[i]; [eq]; [s]]|]. split; [|exact EI]. unfold bare_id. cbn. now rewrite A.
Qed.
Lemma load_args_der fr to ts : load_args fr to ts -> exists l, der G_LArgs (VLoads l) ts /\
  map bare_id (map fst l) = map bare_id fr /\ map bare_id (map snd l) = map bare_id to.
Proof.
  induction 1 as [f t ts H|fs ts tl c f t ta H (l & D & A & B) C L].
  - destruct (load_arg_der _ _ _ H) as (f' & t' & D & A & B). exists [(f', t')]. split; [mk 63%Z [ts]|]. cbn. rewrite A, B. auto.
  - destruct (load_arg_der _ _ _ L) as (f' & t' & D' & A' & B'). exists (l ++ [(f', t')]). split; [mk 64%Z [tl; [c]; ta]|].
    rewrite !map_app, A, B. cbn. rewrite A', B'. auto.
Qed.
Lemma char_text t c : wf_tok t -> ch c t -> t_tok t = [c].
Proof. apply text_char. Qed.
Lemma not_tuple_shape e e' : (forall c p l d fc fm, e <> ETuple c true p l d fc fm) -> shape e' = shape e -> forall c p l d fc fm, e' <> ETuple c true p l d fc fm.
Proof. intros N E c p l d fc fm ->. destruct e; try discriminate E. injection E as <- _. eapply N. reflexivity. Qed.
Lemma as_tuple_more A A' r l e' e ts cm te : as_tuple A l ts -> der A' (VExpr e') te -> shape e' = shape e -> ch "," cm ->
  is_prod A [A; t_comma; A'] (Some r) = true -> (r =? 1)%Z = false -> act r = tuple2 -> as_tuple A (l ++ [e]) (ts ++ cm :: te).
Proof.
  intros T D E C P N F. right. rewrite app_length. cbn [List.length].
  assert (DR : forall x v, der A (VExpr x) ts -> tuple2 [VExpr x; VTok cm; VExpr e'] = Some v -> der A v (ts ++ cm :: te)).
  { intros x v DX V. eapply (by_rule _ [A; t_comma; A'] r _ _ _ [ts; [cm]; te]); [|lists|exact P|exact N|rewrite F; exact V].
    repeat (eapply pc_cons; [first [eassumption | exact (tk _ _ C)]|]). apply pc_nil. }
  destruct T as [(x & x' & -> & DX & EX & NX)|(L & c & p & l' & d & fc & fm & DX & EX)].
  - split; [cbn; lia|]. do 6 eexists. split.
    + eapply DR; [exact DX|]. unfold tuple2, add_tuple. destruct x'; try reflexivity. destruct nobr; [|reflexivity]. exfalso. eapply NX. reflexivity.
    + cbn. now rewrite EX, E.
  - split; [lia|]. do 6 eexists. split; [eapply DR; [exact DX|]; reflexivity|]. rewrite !map_app, EX. cbn. now rewrite E.
Qed.

Lemma binop_rule s k n : In (s, k, n) binops ->
  n <= 11 /\ mem_bytes s [%"="; %"+="; %"-="; %"*="; %"/="; %"//="; %"%="; %"|="] = false /\
  exists r, act r = bin /\ (r =? 1)%Z = false /\
    forall o, is_prod (G_level n o) [G_level n false; yylex1 (Parse.code k); G_level (S n) o] (Some r) = true.
Proof.
  intro H. cbn [In binops] in H.
  repeat (destruct H as [H|H]; [injection H as <- <- <-; split; [lia|]; split; [reflexivity|]|]); [..|contradiction];
  [exists 109%Z|exists 110%Z|exists 101%Z|exists 102%Z|exists 103%Z|exists 105%Z|exists 104%Z|exists 106%Z|exists 107%Z|exists 111%Z|exists 113%Z
  |exists 112%Z|exists 114%Z|exists 115%Z|exists 99%Z|exists 100%Z|exists 95%Z|exists 97%Z|exists 96%Z|exists 98%Z];
  (split; [reflexivity|]; split; [reflexivity|]; intros []; vm_compute; reflexivity).
Qed.
Lemma unop_rule op k : In (op, k) unops -> exists r, act r = un /\ (r =? 1)%Z = false /\
  forall o, is_prod (G_level 12 o) [yylex1 (Parse.code k); G_level 12 o] (Some r) = true.
Proof.
  intro H. cbn [In unops] in H. repeat (destruct H as [H|H]; [injection H as <- <-|]); [..|contradiction];
  [exists 91%Z|exists 92%Z|exists 93%Z|exists 94%Z];
  (split; [reflexivity|]; split; [reflexivity|]; intros []; vm_compute; reflexivity).
Qed.
Lemma is_value x' t y' y : ~ is_not y -> shape y' = shape y ->
  act 116 [VExpr x'; VTok t; VExpr y'] = Some (VExpr (binary x' (t_pos t) (t_tok t) y')).
Proof.
  intros N E.
  change (act 116 [VExpr x'; VTok t; VExpr y']) with
    (match y' with
     | EUnary _ _ op (Some z) => if beq op %"not" then Some (VExpr (binary x' (t_pos t) %"is not" z))
                                 else Some (VExpr (binary x' (t_pos t) (t_tok t) y'))
     | _ => Some (VExpr (binary x' (t_pos t) (t_tok t) y'))
     end).
  destruct y'; try reflexivity. destruct x as [z|]; [|reflexivity].
  destruct (beq op %"not") eqn:B; [|reflexivity]. exfalso. apply N. apply beq_eq in B. subst.
  destruct y; try discriminate E. injection E as <- _. eexists _, _, _. reflexivity.
Qed.

Lemma code_idem l : code (code l) = code l.
Proof. unfold code. induction l as [|x l IH]; [reflexivity|]. cbn. destruct (is_code x) eqn:E; [cbn; now rewrite E, IH|exact IH]. Qed.
Lemma shapes_code l : shapes (code l) = shapes l.
Proof. unfold shapes. now rewrite code_idem. Qed.
Lemma elif_der el : elif_toks el -> exists p, der G_Elif (VPos p) el.
Proof. intros [(a & -> & K)|(a & b & -> & K1 & K2)]; eexists; [mk 26%Z [[a]]|mk 25%Z [[a]; [b]]]. Qed.
Lemma linebreaks_der nls : newlines nls -> der G_LBr VNone nls.
Proof.
  induction nls as [|x l IH] using rev_ind; intro H; [mk 4%Z (@nil (list token))|]. apply Forall_app in H as [H1 H2]. inversion H2; subst.
  specialize (IH H1). mk 5%Z [l; [x]].
Qed.
Ltac mk' r pcs :=
  eapply (by_rule _ _ r _ _ _ pcs);
  [repeat (eapply pc_cons; [piece|]); apply pc_nil | lists | vm_compute; reflexivity | reflexivity |].
Lemma if_start k i x' t' f tx cl tb : is KIf i -> der G_Expr (VExpr x') tx -> ch ":" cl -> der (G_Suite k) (VStmts t' f) tb ->
  der (G_IfC k) (VBlock (EIf no_com (t_pos i) x' t' no_end []) f) (i :: tx ++ cl :: tb).
Proof. intros. destruct k; mk 21%Z [[i]; tx; [cl]; tb]. Qed.
Lemma if_elif k k0 e0 f0 ts0 el x' t' f tx cl tb : der (G_IfC k0) (VBlock e0 f0) ts0 -> chain e0 -> elif_toks el ->
  der G_Expr (VExpr x') tx -> ch ":" cl -> der (G_Suite k) (VStmts t' f) tb ->
  exists p c1, der (G_IfC k) (VBlock c1 f) (ts0 ++ el ++ tx ++ cl :: tb) /\ chain c1 /\ set_else e0 p [EIf no_com p x' t' no_end []] = Some c1 /\
    forall p' g, set_else c1 p' g = set_else e0 p [EIf no_com p x' t' (End no_com p') g].
Proof.
  intros D C E DX K DT. destruct (elif_der _ E) as (p & DE). destruct (chain_add e0 C p no_com p x' t' no_end) as (c1 & S0 & C1 & F).
  exists p, c1. split; [|auto].
  assert (V : act 22 [VBlock e0 f0; VPos p; VExpr x'; VTok cl; VStmts t' f] = Some (VBlock c1 f)).
  { change (option_map (fun e' => VBlock e' f) (set_else e0 p [EIf no_com p x' t' no_end []]) = Some (VBlock c1 f)). now rewrite S0. }
  destruct k, k0; (mk' 22%Z [ts0; el; tx; [cl]; tb]; exact V).
Qed.
Lemma if_else k k0 e0 f0 ts0 el cl g f tf e1 : der (G_IfC k0) (VBlock e0 f0) ts0 -> is KElse el -> ch ":" cl -> der (G_Suite k) (VStmts g f) tf ->
  set_else e0 (t_pos el) g = Some e1 -> der (G_IfE k) (VBlock e1 f) (ts0 ++ el :: cl :: tf).
Proof.
  intros D E K DT S0.
  assert (V : act 24 [VBlock e0 f0; VTok el; VTok cl; VStmts g f] = Some (VBlock e1 f)).
  { change (option_map (fun e' => VBlock e' f) (set_else e0 (t_pos el) g) = Some (VBlock e1 f)). now rewrite S0. }
  destruct k, k0; (mk' 24%Z [ts0; [el]; [cl]; tf]; exact V).
Qed.
Lemma if_stop k e f ts : der (G_IfC k) (VBlock e f) ts -> der (G_IfE k) (VBlock e f) ts.
Proof. intro. destruct k; mk 23%Z [ts]. Qed.

Lemma filter_short (b : list expr) : List.length (filter is_code b) <= List.length b.
Proof. induction b as [|x b IH]; cbn; [lia|]. destruct (is_code x); cbn; lia. Qed.
Lemma code_like a : forall b, map shape a = map shape b -> code b = b -> code a = a.
Proof.
  induction a as [|y a IHa]; intros [|z b] M Cb; try discriminate; [reflexivity|]. injection M as M1 M2. unfold code in *. cbn in *. rewrite (same_code _ _ M1).
  destruct (is_code z) eqn:Z0; [injection Cb as Cb; f_equal; eapply IHa; eauto|]. exfalso. pose proof (filter_short b) as L. rewrite Cb in L. cbn in L. lia.
Qed.
Lemma for_clause_der o f tv i tx v' x' : is KFor f -> der G_Vars (VExpr v') tv -> is KIn i -> der (G_level 2 o) (VExpr x') tx ->
  der (G_FI o) (VList [EForC no_com (t_pos f) v' (t_pos i) x']) (f :: tv ++ i :: tx).
Proof.
  intros. assert (D : der (G_ForC o) (VExpr (EForC no_com (t_pos f) v' (t_pos i) x')) (f :: tv ++ i :: tx)) by (destruct o; mk 144%Z [[f]; tv; [i]; tx]).
  destruct o; mk 145%Z [f :: tv ++ i :: tx].
Qed.
Lemma if_clause_der o l' tl i x' tx : der (G_FI false) (VList l') tl -> is KIf i -> der (G_level 2 o) (VExpr x') tx ->
  der (G_FI o) (VList (l' ++ [EIfC no_com (t_pos i) x'])) (tl ++ i :: tx).
Proof. intros. destruct o; mk 146%Z [tl; [i]; tx]. Qed.
Lemma stmt_der k k2 A l1 f1 ts l2 f2 t2 : der (G_Stmts k) (VStmts l1 f1) ts -> der A (VStmts l2 f2) t2 -> l2 <> [] ->
  is_prod (G_Stmts k2) [G_Stmts k; A] (Some 10%Z) = true ->
  exists l f, der (G_Stmts k2) (VStmts l f) (ts ++ t2) /\ shapes l = shapes l1 ++ shapes l2.
Proof.
  intros D1 D2 N P. destruct (add_stmt_shapes l1 f1 l2 f2 N) as (l & f & E & S0). exists l, f. split; [|exact S0].
  eapply (by_rule _ [G_Stmts k; A] 10%Z _ _ _ [ts; t2]); [repeat (eapply pc_cons; [eassumption|]); apply pc_nil|lists|exact P|reflexivity|exact E].
Qed.

Theorem embedding :
  (forall c e ts, one c e ts -> emb c e ts) /\ (forall c o ts, maybe c o ts -> emb_maybe c o ts) /\
  (forall o ts, stride o ts -> emb_stride o ts) /\ (forall o ts, annotation o ts -> emb_annotation o ts) /\
  (forall c l ts, row c l ts -> emb_row c l ts) /\ (forall c l ts, items c l ts -> emb_items c l ts) /\
  (forall c c' l ts, row1 c c' l ts -> emb_row1 c c' l ts) /\ (forall c l ts, params c l ts -> emb_params c l ts) /\
  (forall o l ts, clauses o l ts -> emb_clauses o l ts) /\ (forall l ts, smalls l ts -> emb_smalls l ts) /\
  (forall l ts, line l ts -> emb_line l ts) /\ (forall k l ts, stmts k l ts -> emb_stmts k l ts) /\
  (forall k l ts, suite k l ts -> emb_suite k l ts).
Proof.
  apply spec_ind.
  - (* p_ident *) begin. destruct (ident_der _ _ H) as [D E]. eapply prim_intro; [mk 40%Z [[t]]|]. cbn [shape]. now rewrite E.
  - (* p_int *) begin. assert (D : der G_IntN (VExpr (ELit no_com (t_pos t) (t_tok t))) [t]) by mk 143%Z [[t]].
    eexists. split; [mk 41%Z [[t]]|]. split; [|reflexivity]. intro N. exfalso. now apply (N t).
  - begin. assert (D : exists p, der G_Num (VExpr (ELit no_com p (t_tok a ++ %"." ++ t_tok b))) [a; d; b]) by (eexists; mk 140%Z [[a]; [d]; [b]]).
    destruct D as [q D]. eapply prim_intro; [mk 41%Z [[a; d; b]]|reflexivity].
  - begin. assert (D : exists p, der G_Num (VExpr (ELit no_com p (t_tok a ++ %"."))) [a; d]) by (eexists; mk 141%Z [[a]; [d]]).
    destruct D as [q D]. eapply prim_intro; [mk 41%Z [[a; d]]|reflexivity].
  - begin. assert (D : exists p, der G_Num (VExpr (ELit no_com p (%"." ++ t_tok b))) [d; b]) by (eexists; mk 142%Z [[d]; [b]]).
    destruct D as [q D]. eapply prim_intro; [mk 41%Z [[d; b]]|reflexivity].
  - (* p_str *) begin. destruct (string_der _ _ H) as (s' & D & E). eapply prim_intro; [mk 42%Z [[t]]|]. cbn [shape]. now rewrite E.
  - (* p_dot *) begin. match goal with H : _ -> der G_PrimN _ _ |- _ => specialize (H ltac:(assumption)) end.
    match goal with H : der G_Prim _ _ |- _ => clear H end.
    eapply prim_intro; [mk 43%Z [tx; [d]; [t]]|]. subst n. fin.
  - (* p_load *) begin. destruct (string_der _ _ H2) as (s' & D & E). destruct (load_args_der _ _ _ H5) as (la & DL & A & B).
    destruct (commas_opt_der cs0) as (p0 & D0 & _); auto. destruct (commas_der cs1) as (p1 & D1 & _); auto. destruct (commas_opt_der cs2) as (p2 & D2 & _); auto.
    eapply prim_intro; [mk 44%Z [[l]; [lp]; cs0; [s]; cs1; tl; cs2; [rp]]|]. cbn [shape]. now rewrite E, A, B.
  - (* p_call0 *) begin. assert (D : der G_ArgsO (VList []) []) by mk 55%Z (@nil (list token)).
    match goal with H : _ -> der G_PrimN _ _ |- _ => clear H end.
    eapply prim_intro; [mk 45%Z [tx; [lp]; []; [rp]]|]. fin.
  - (* p_call *) begin. destruct (commas_opt_der cs0) as (p0 & D0 & _); auto. destruct (commas_opt_der cs1) as (p1 & D1 & _); auto.
    match goal with H : forall cs p, der G_CommasO _ cs -> _ |- _ => destruct (H _ _ D0) as (l' & DA & EA) end.
    assert (D : der G_ArgsO (VList l') (cs0 ++ tl ++ cs1)) by mk 56%Z [cs0 ++ tl; cs1].
    match goal with H : _ -> der G_PrimN _ _ |- _ => clear H end.
    eapply prim_intro; [mk 45%Z [tx; [lp]; cs0 ++ tl ++ cs1; [rp]]|]. fin.
  - (* p_index *) begin. match goal with H : _ -> der G_PrimN _ _ |- _ => clear H end. eapply prim_intro; [mk 46%Z [tx; [lb]; ty; [rb]]|]. fin.
  - (* p_slice *) begin. match goal with H : _ -> der G_PrimN _ _ |- _ => clear H end.
    match goal with H : _ \/ _ |- _ => destruct H as [[-> ->]|(k2 & t2 & -> & C2 & (s' & D2 & E2))] end.
    + eapply prim_intro; [mk 47%Z [tx; [lb]; tf; [k1]; tt; [rb]]|]. fin.
    + eapply prim_intro; [mk 48%Z [tx; [lb]; tf; [k1]; tt; [k2]; t2; [rb]]|]. fin.
  - (* p_list *) begin. match goal with H : exists l' p, _ |- _ => destruct H as (l' & q & D & E) end. eapply prim_intro; [mk 49%Z [[lb]; tl; [rb]]|]. fin.
  - (* p_comp *) begin. destruct (clauses_der o l tl) as (l' & D & E); auto. destruct o; (eapply prim_intro; [mk 50%Z [[lb]; tb; tl; [rb]]|]; fin).
  - begin. destruct (clauses_der o l tl) as (l' & D & E); auto. destruct o; (eapply prim_intro; [mk 51%Z [[lb]; tb; tl; [rb]]|]; fin).
  - (* p_dict *) begin. eapply prim_intro; [mk 52%Z [[lb]; tl; [rb]]|]. fin.
  - (* p_set *) begin. destruct (comma_opt_der cs) as (q & D); auto. eapply prim_intro; [mk 53%Z [[lb]; tl; cs; [rb]]|]. fin.
  - (* p_paren *) begin. assert (D1 : exists x', der G_Tests (VList [x']) tx /\ shape x' = shape x) by (eexists; split; [mk 118%Z [tx]|assumption]).
    destruct D1 as (x' & D1 & E1). assert (D0 : der G_CommasO (VPos no_pos) []) by mk 128%Z (@nil (list token)).
    assert (D2 : der G_TestsO (VTests [x'] no_pos) tx) by mk 123%Z [tx; []].
    eapply prim_intro; [mk 54%Z [[lp]; tx; [rp]]|]. fin.
  - (* p_tuple0 *) begin. assert (D2 : der G_TestsO (VTests [] no_pos) []) by mk 122%Z (@nil (list token)).
    eapply prim_intro; [mk 54%Z [[lp]; []; [rp]]|]. fin.
  - (* p_tuple *) begin. destruct (commas_opt_der cs) as (q & D & Q); auto.
    match goal with H : der G_Tests (VList ?y) tl, K : map shape ?y = _ |- _ =>
      rename y into l'; assert (D2 : der G_TestsO (VTests l' q) (tl ++ cs)) by mk 123%Z [tl; cs];
      assert (LL : List.length l' = List.length l) by (rewrite <- (map_length shape l'), K; apply map_length) end.
    eapply prim_intro; [mk 54%Z [[lp]; tl ++ cs; [rp]]|].
    destruct l' as [|x1 [|x2 l']]; try fin.
    destruct (p_line q =? 0)%Z; [|fin]. exfalso. subst cs. cbn in LL. symmetry in LL. now apply H3.
  - (* t_prim *) begin. intro L. match goal with H : _ -> der G_PrimN _ _ |- _ => clear H end.
    eexists. split; [eapply (level_down 12); [exact L|lia|]; mk 89%Z [ts]|assumption].
  - (* t_lambda *) begin. intro L.
    match goal with H : der G_Test (VExpr ?y) tb |- _ => assert (D : der G_LBody (VExpr y) tb) by mk 85%Z [tb]; clear H end.
    eexists. split; [eapply (level_down 12); [exact L|lia|]; mk 90%Z [[l]; tp; [k]; tb]|]. fin.
  - (* t_unary *) begin. intro L. destruct (unop_rule _ _ H) as (r & F & N & P).
    eexists. split; [eapply (level_down 12); [exact L|lia|]; eapply (by_rule _ _ r _ _ _ [[t]; tx]);
      [eapply pc_cons; [exact (tk _ _ H0)|]; eapply pc_cons; [eassumption|]; apply pc_nil|lists|apply P|exact N|rewrite F; reflexivity]|].
    fin.
  - (* t_binary *) intros n o c x p op m lb y tx top ty OP H IHx H0 IHy LE.
    destruct OP as [s k n0 t I0 K TT|t u K1 K2].
    + destruct (binop_rule _ _ _ I0) as (B & M & r & F & N & P). begin. intro L.
      eexists. split; [eapply (level_down n0); [exact LE|lia|]; eapply (by_rule _ _ r _ _ _ [tx; [t]; ty]);
        [eapply pc_cons; [eassumption|]; eapply pc_cons; [exact (tk _ _ K)|]; eapply pc_cons; [eassumption|]; apply pc_nil|lists|apply P|exact N|rewrite F; reflexivity]|].
      unfold binary. rewrite TT, M. fin.
    + begin. intro L. destruct o; (eexists; split; [eapply (level_down 5); [exact LE|lia|]; mk 108%Z [tx; [t]; [u]; ty]|]; fin).
  - (* t_is *) intros n o c x p lb y tx t ty K TT H IHx H0 IHy NN LE. begin. intro L.
    match goal with E : shape ?x1 = shape x, E' : shape ?y1 = shape y |- _ => pose proof (is_value x1 t y1 y NN E') as V end.
    eexists. split; [eapply (level_down 2); [exact LE|lia|]; eapply (by_rule _ [G_level 2 false; yylex1 (Parse.code KIs); G_level 3 o] 116%Z _ _ _ [tx; [t]; ty]);
      [eapply pc_cons; [eassumption|]; eapply pc_cons; [exact (tk _ _ K)|]; eapply pc_cons; [eassumption|]; apply pc_nil|lists|destruct o; vm_compute; reflexivity|reflexivity|exact V]|].
    unfold binary. rewrite TT. fin.
  - (* t_is_not *) intros n o c x p lb y tx t u ty K K' TT H IHx H0 IHy LE. begin. intro L.
    match goal with D : der (G_level 12 o) (VExpr ?y1) ty |- _ =>
      assert (DN : der (G_level 12 o) (VExpr (unary (t_pos u) (t_tok u) (Some y1))) (u :: ty)) by (destruct o; mk 91%Z [[u]; ty]); rewrite TT in DN;
      apply (level_down 12 3) in DN; [|lia|lia]; clear D end.
    destruct o; (eexists; split; [eapply (level_down 2); [exact LE|lia|]; mk 116%Z [tx; [t]; u :: ty]|]; fin).
  - (* t_cond *) begin. intro L. destruct o; (eexists; split; [eapply (level_down 1); [eassumption|lia|]; mk 117%Z [tx; [i]; ty; [e]; tz]|]; fin).
  - (* t_any *) begin. eexists. split; [|eassumption]. destruct o; (eapply by_silent; [|eassumption]); vm_compute; reflexivity.
  - (* t_item *) begin. eexists. split; [|eassumption]. destruct o; (eapply by_silent; [|eassumption]); vm_compute; reflexivity.
  - (* e_test *) begin. eexists. split; [mk 85%Z [ts]|assumption].
  - (* e_tuple *) begin. match goal with H : as_tuple _ _ _ |- _ => destruct H as [(? & ? & -> & _)|(_ & ? & ? & ? & ? & ? & ? & ? & ?)] end; [cbn in *; lia|].
    eexists. split; [eassumption|]. fin.
  - (* v_one *) begin. match goal with H : _ -> der G_PrimN _ _ |- _ => clear H end. eexists. split; [mk 136%Z [ts]|assumption].
  - (* v_tuple *) begin. match goal with H : as_tuple _ _ _ |- _ => destruct H as [(? & ? & -> & _)|(_ & ? & ? & ? & ? & ? & ? & ? & ?)] end; [cbn in *; lia|].
    eexists. split; [eassumption|]. fin.
  - (* a_test *) begin. eexists. split; [mk 59%Z [ts]|assumption].
  - (* a_named *) begin. destruct (ident_der _ _ H) as [D E]. assert (TE : t_tok eq = %"=") by now apply (char_text eq "=").
    eexists. split; [mk 60%Z [[t]; [eq]; ty]|]. unfold binary. rewrite TE. cbn [shape mem_bytes]. fin.
  - begin. assert (TE : t_tok t = %"*") by now apply (char_text t "*"). eexists. split; [mk 61%Z [[t]; tx]|]. fin.
  - begin. assert (TE : t_tok t = %"**") by (eapply text1; [eassumption|eassumption|cbn; tauto]). eexists. split; [mk 62%Z [[t]; tx]|]. fin.
  - (* f_ident *) begin. destruct (ident_der _ _ H) as [D E]. eexists. split; [mk 75%Z [[t]]|]. fin.
  - begin. destruct (ident_der _ _ H) as [D E]. assert (TE : t_tok eq = %"=") by now apply (char_text eq "=").
    eexists. split; [mk 76%Z [[t]; [eq]; ty]|]. unfold binary. rewrite TE. fin.
  - begin. destruct (ident_der _ _ H0) as [D E]. assert (TE : t_tok s = %"*") by now apply (char_text s "*"). eexists. split; [mk 77%Z [[s]; [t]]|]. fin.
  - begin. assert (TE : t_tok s = %"*") by now apply (char_text s "*"). eexists. split; [mk 78%Z [[s]]|]. fin.
  - begin. destruct (ident_der _ _ H0) as [D E]. assert (TE : t_tok s = %"**") by (eapply text1; [eassumption|eassumption|cbn; tauto]).
    eexists. split; [mk 79%Z [[s]; [t]]|]. fin.
  - (* g_param *) begin. eexists. split; [mk 80%Z [ts]|assumption].
  - begin. destruct (ident_der _ _ H) as [D E]. eexists. split; [mk 81%Z [[t]; [k]; tt]|]. fin.
  - begin. destruct (ident_der _ _ H) as [D E]. assert (TE : t_tok eq = %"=") by now apply (char_text eq "=").
    eexists. split; [mk 82%Z [[t]; [k]; tt; [eq]; ty']|]. unfold binary. rewrite TE. fin.
  - begin. destruct (ident_der _ _ H0) as [D E]. assert (TE : t_tok s = %"*") by now apply (char_text s "*").
    eexists. split; [mk 83%Z [[s]; [t]; [k]; tt]|]. fin.
  - begin. destruct (ident_der _ _ H0) as [D E]. assert (TE : t_tok s = %"**") by (eapply text1; [eassumption|eassumption|cbn; tauto]).
    eexists. split; [mk 84%Z [[s]; [t]; [k]; tt]|]. fin.
  - (* k_pair *) begin. eexists. split; [mk 130%Z [tx; [k]; ty]|]. fin.
  - (* s_expr *) begin. eexists. split; [mk 30%Z [ts]|assumption].
  - begin. eexists. split; [mk 32%Z [[t]]|]. fin.
  - begin. eexists. split; [mk 31%Z [[t]; tx]|]. fin.
  - (* s_assign *) begin. assert (M : mem_bytes op [%"="; %"+="; %"-="; %"*="; %"/="; %"//="; %"%="; %"|="] = true) by (apply mem_bytes_In; exact H3).
    destruct H2 as [K|K]; (eexists; split; [first [mk 34%Z [tx; [t]; ty]|mk 33%Z [tx; [t]; ty]]|]; unfold binary; rewrite H1, M; fin).
  - (* s_augmented *) begin. assert (M : mem_bytes op [%"="; %"+="; %"-="; %"*="; %"/="; %"//="; %"%="; %"|="] = false).
    { repeat (destruct H3 as [<-|H3]; [reflexivity|]). destruct H3. }
    eexists. split; [mk 34%Z [tx; [t]; ty]|]. unfold binary. rewrite H1, M. fin.
  - (* s_branch *) begin. repeat (destruct H as [<-|H]; [eexists; split; [first [mk 35%Z [[t]]|mk 36%Z [[t]]|mk 37%Z [[t]]]|reflexivity]|]). destruct H.
  - (* b_def *) begin. split; [reflexivity|].
    match goal with H : der G_TParamsO (VList ?y) tp |- _ =>
      assert (D1 : exists c' p' n' fc' fm', der G_DefH (VExpr (EDef c' p' y [] n' no_pos fc' fm' None)) (d :: nm :: lp :: tp ++ [rp]) /\ n' = t_tok nm)
        by (do 5 eexists; split; [mk 15%Z [[d]; [nm]; [lp]; tp; [rp]]|reflexivity]); rename y into ps'; clear H end.
    destruct D1 as (c' & p' & n' & fc' & fm' & D1 & ->).
    assert (D2 : exists ty', der G_DefT (VExpr (EDef c' p' ps' [] (t_tok nm) no_pos fc' fm' ty')) (d :: nm :: lp :: tp ++ rp :: ta) /\ option_map shape ty' = option_map shape ty).
    { match goal with H : _ \/ _ |- _ => destruct H as [[-> ->]|(a & ar & t2 & -> & -> & KA & (a' & D2 & E2))] end.
      - exists None. split; [mk 16%Z [d :: nm :: lp :: tp ++ [rp]]|reflexivity].
      - exists (Some a'). split; [mk 17%Z [d :: nm :: lp :: tp ++ [rp]; [ar]; t2]|fin]. }
    destruct D2 as (ty' & D2 & E2). clear D1.
    destruct k; (eexists _, _; split; [mk 18%Z [d :: nm :: lp :: tp ++ rp :: ta; [cl]; tb]|]; rewrite !shape_def; rewrite shapes_code in *; congruence).
  - (* b_for *) begin. split; [reflexivity|].
    destruct k; (eexists _, _; split; [mk 19%Z [[f]; tv; [i]; tx; [cl]; tb]|]; rewrite !shape_for; rewrite shapes_code in *; congruence).
  - (* b_if *) begin. match goal with H : _ /\ _ |- _ => destruct H as (C & A & _) end. split; [exact C|]. destruct (A i) as (e' & f & D & E); [assumption|].
    exists e', f. split; [|exact E]. destruct k; mk 20%Z [i :: ts].
  - (* i_end *) begin. rewrite shapes_code in *. split; [reflexivity|]. split.
    + intros i K. eexists _, _. split; [apply if_stop, if_start; eassumption|]. rewrite !shape_if. fin.
    + intros k0 e0 f0 ts0 el D C E. match goal with DX : der G_Expr _ _, DT : der (G_Suite _) _ _ |- _ => destruct (if_elif _ _ _ _ _ _ _ _ _ _ _ _ D C E DX H1 DT) as (q & c1 & D1 & C1 & S1 & _) end.
      eexists q, c1, _, _. split; [apply if_stop; exact D1|]. split; [exact S1|]. rewrite !shape_if. fin.
  - (* i_elif *) intros k k' c p x t ep e tx cl tb el te H IHx K H1 IHt EL H2 IHe. begin. destruct IHe as (CE & _ & IHB). rewrite shapes_code in *. split; [reflexivity|]. split.
    + intros i KI. match goal with DX : der G_Expr _ _, DT : der (G_Suite _) _ _ |- _ => pose proof (if_start _ _ _ _ _ _ _ _ KI DX K DT) as D0 end.
      edestruct IHB as (p' & e1 & e2 & f' & D & S1 & E1); [exact D0|constructor|exact EL|]. eexists _, _. split; [revert D; cbn [app]; rewrite <- ?app_assoc; cbn [app]; intro D; exact D|].
      cbn [set_else no_end] in S1. injection S1 as <-. rewrite !shape_if, (shapes_one _ _ E1). fin.
    + intros k0 e0 f0 ts0 el0 D C E. match goal with DX : der G_Expr _ _, DT : der (G_Suite _) _ _ |- _ => destruct (if_elif _ _ _ _ _ _ _ _ _ _ _ _ D C E DX K DT) as (q & c1 & D1 & C1 & _ & F) end.
      edestruct IHB as (p' & e1 & e2 & f' & D2 & S1 & E1); [exact D1|exact C1|exact EL|]. rewrite F in S1. eexists _, _, _, _.
      split; [revert D2; rewrite <- ?app_assoc; cbn [app]; rewrite <- ?app_assoc; cbn [app]; intro D2; exact D2|]. split; [exact S1|].
      rewrite !shape_if, (shapes_one _ _ E1). fin.
  - (* i_else *) intros k k' c p x t ep f tx cl tb el cl' tf H IHx K H1 IHt EL K' H2 IHf. begin. rewrite shapes_code in *. split; [reflexivity|]. split.
    + intros i KI. match goal with DX : der G_Expr _ _, DT : der (G_Suite _) _ tb, DF : der (G_Suite _) _ tf |- _ =>
        pose proof (if_start _ _ _ _ _ _ _ _ KI DX K DT) as D0; epose proof (if_else _ _ _ _ _ _ _ _ _ _ _ D0 EL K' DF eq_refl) as D2 end.
      eexists _, _. split; [revert D2; cbn [app]; rewrite <- ?app_assoc; cbn [app]; intro D2; exact D2|]. rewrite !shape_if. fin.
    + intros k0 e0 f0 ts0 el0 D C E. match goal with DX : der G_Expr _ _, DT : der (G_Suite _) _ tb, DF : der (G_Suite _) (VStmts ?g _) tf |- _ =>
        destruct (if_elif _ _ _ _ _ _ _ _ _ _ _ _ D C E DX K DT) as (q & c1 & D1 & C1 & _ & F); destruct (chain_else _ C1 (t_pos el) g) as (e1 & S1);
        pose proof (if_else _ _ _ _ _ _ _ _ _ _ _ D1 EL K' DF S1) as D2 end. rewrite F in S1.
      eexists _, _, _, _. split; [revert D2; rewrite <- ?app_assoc; cbn [app]; rewrite <- ?app_assoc; cbn [app]; intro D2; exact D2|]. split; [exact S1|]. rewrite !shape_if. fin.
  - (* m_none *) begin. destruct c; try exact Logic.I; (eexists; split; [first [mk 87%Z (@nil (list token))|mk 120%Z (@nil (list token))]|reflexivity]).
  - (* m_some *) intros c e ts H IH. begin. destruct c; try exact Logic.I; destruct IH as (e' & D & E); (eexists; split; [first [mk 88%Z [ts]|mk 121%Z [ts]]|]; fin).
  - (* stride *) begin. now left.
  - begin. right. eexists _, _. split; [reflexivity|]. split; [assumption|]. eexists. split; eassumption.
  - (* annotation *) begin. now left.
  - begin. right. eexists _, _, _. split; [reflexivity|]. split; [reflexivity|]. split; [assumption|]. eexists. split; eassumption.
  - (* r_one *) intros c e ts H IH. begin. destruct c; try exact Logic.I; spec.
    + eexists. split; [mk 118%Z [ts]|]. fin.
    + intros cs p D. eexists. split; [mk 57%Z [cs; ts]|]. fin.
    + eexists. split; [mk 131%Z [ts]|]. fin.
  - (* r_more *) intros c l tl cs e ts H IH C N H0 IH0. begin. destruct (commas_der cs) as (pc & DC & _); auto. destruct c; try exact Logic.I; spec.
    + eexists. split; [mk 119%Z [tl; cs; ts]|]. rewrite !map_app. fin.
    + intros cs0 p D. destruct (IH _ _ D) as (l' & D1 & E1). eexists. split; [mk 58%Z [cs0 ++ tl; cs; ts]|]. rewrite !map_app. fin.
    + eexists. split; [mk 132%Z [tl; cs; ts]|]. rewrite !map_app. fin.
  - (* it_none *) begin. destruct c; try exact Logic.I.
    + eexists _, _. split; [mk 122%Z (@nil (list token))|reflexivity].
    + eexists. split; [mk 133%Z (@nil (list token))|reflexivity].
  - (* it_some *) intros c l tl cs H IH C. begin. destruct c; try exact Logic.I; spec.
    + destruct (commas_opt_der cs) as (pc & DC & _); auto. eexists _, _. split; [mk 123%Z [tl; cs]|assumption].
    + destruct cs as [|z cs]; [eexists; split; [mk 134%Z [tl]|assumption]|].
      destruct (commas_der (z :: cs)) as (pc & DC & _); auto; [discriminate|]. eexists. split; [mk 135%Z [tl; z :: cs]|assumption].
  - (* r1_one *) intros c c' e ts H IH. begin. destruct c, c'; try exact Logic.I; spec.
    + left. eexists _, _. split; [reflexivity|]. match goal with X : _ -> der G_PrimN _ _ |- _ => clear X end. split; [mk 136%Z [ts]|]. split; [eassumption|].
      eapply not_tuple_shape; [|eassumption]. intros ? ? ? ? ? ? ->. eapply prim_no_tuple; eassumption.
    + left. eexists _, _. split; [reflexivity|]. split; [mk 85%Z [ts]|]. split; [eassumption|].
      eapply not_tuple_shape; [|eassumption]. intros ? ? ? ? ? ? ->. eapply test_no_tuple; eassumption.
    + eexists. split; [mk 71%Z [ts]|]. fin.
    + eexists. split; [mk 73%Z [ts]|]. fin.
  - (* r1_more *) intros c c' l tl cm e ts H IH C H0 IH0. begin. destruct c, c'; try exact Logic.I; spec.
    + eapply (as_tuple_more _ G_Prim 137%Z); eauto; vm_compute; reflexivity.
    + eapply (as_tuple_more _ G_Item 86%Z); eauto; vm_compute; reflexivity.
    + eexists. split; [mk 72%Z [tl; [cm]; ts]|]. rewrite !map_app. fin.
    + eexists. split; [mk 74%Z [tl; [cm]; ts]|]. rewrite !map_app. fin.
  - (* ps_none *) begin. destruct c; try exact Logic.I; (eexists; split; [first [mk 67%Z (@nil (list token))|mk 69%Z (@nil (list token))]|reflexivity]).
  - (* ps_some *) intros c l tl cs H IH C L. begin. destruct (comma_opt_der cs) as (pc & DC); auto.
    destruct c; try exact Logic.I; spec; (eexists; split; [first [mk 68%Z [tl; cs]|mk 70%Z [tl; cs]]|assumption]).
  - (* c_for *) begin. left. eexists. split; [eapply for_clause_der; eassumption|]. fin.
  - (* c_more_for *) intros o' l tl o c p v q x f tv i tx H IH K H0 IH0 K' H1 IH1 W. wfs. destruct (clauses_der o' l tl) as (l' & D & E); auto.
    unfold emb in *. spec. right. exists o', l, [EForC c p v q x], tl, (f :: tv ++ i :: tx). split; [reflexivity|]. split; [reflexivity|]. split; [eexists; eauto|].
    eexists. split; [eapply for_clause_der; eassumption|]. fin.
  - (* c_more_if *) intros l tl o c p x i tx H IH K H0 IH0 W. wfs. unfold emb in *. spec.
    destruct IH as [(l' & D & E)|(o' & a & b & ta & tb & -> & -> & A & (b' & D & E))]; auto.
    + left. eexists. split; [eapply if_clause_der; eassumption|]. rewrite !map_app. fin.
    + right. exists o', a, (b ++ [EIfC c p x]), ta, (tb ++ i :: tx). rewrite <- !app_assoc. split; [reflexivity|]. split; [reflexivity|]. split; [exact A|].
      eexists. split; [eapply if_clause_der; eassumption|]. rewrite !map_app. fin.
  - (* sm_one *) begin. eexists _, [], ts, []. rewrite app_nil_r. split; [reflexivity|]. split; [eassumption|]. split; [mk 28%Z (@nil (list token))|]. fin.
  - (* sm_more *) intros l tl s e ts H IH K H0 IH0. begin. destruct IH as (e' & l' & t1 & t2 & -> & D1 & D2 & E).
    eexists e', _, t1, (t2 ++ s :: ts). rewrite <- app_assoc. split; [reflexivity|]. split; [exact D1|]. split; [mk 29%Z [t2; [s]; ts]|].
    rewrite app_comm_cons, !map_app, E. fin.
  - (* ln *) intros l tl semi nl H IH S0 K. begin. destruct IH as (e' & l' & t1 & t2 & -> & D1 & D2 & E).
    assert (DS : der G_SemiO VNone semi) by (destruct S0 as [->|(z & -> & K2)]; [mk 38%Z (@nil (list token))|mk 39%Z [[z]]]).
    exists e', l'. split; [mk 27%Z [t1; t2; semi; [nl]]|exact E].
  - (* st_nil *) begin. split; [reflexivity|]. split.
    + eexists _, _. split; [mk 9%Z (@nil (list token))|reflexivity].
    + intros _. eexists _, _. split; [mk 6%Z (@nil (list token))|constructor].
  - (* st_blank *) intros l ts nl H IH K. begin. destruct IH as (C & (l' & f & D & E) & N). split; [exact C|]. split.
    + eexists _, _. split; [mk 11%Z [ts; [nl]]|exact E].
    + intro Z0. destruct (N Z0) as (l2 & f2 & D2 & F). eexists _, _. split; [mk 8%Z [ts; [nl]]|exact F].
  - (* st_comment *) intros k l ts c nl H IH K K'. begin. destruct IH as (C & (l' & f & D & E) & N). split; [exact C|]. split.
    + destruct k; (eexists _, _; split; [mk 12%Z [ts; [c]; [nl]]|]; now rewrite add_comment_shapes).
    + intro Z0. destruct (N Z0) as (l2 & f2 & D2 & F). eexists _, _. split; [mk 7%Z [ts; [c]; [nl]]|now apply add_comment_noted].
  - (* st_line *) intros k l ts l' tl H IH H0 IH0. begin. destruct IH as (C & (l1 & f & D & E) & _). destruct IH0 as (x & l2 & D2 & E2).
    assert (CL : code l' = l' /\ l' <> []) by (inversion H0; subst; eapply smalls_code; eassumption).
    destruct CL as [CL NL]. split; [now rewrite code_app, C, CL|].
    assert (DS : der G_StmtL (VStmts (x :: l2) true) tl) by mk 13%Z [tl].
    assert (EC : code (x :: l2) = x :: l2) by (eapply code_like; eauto).
    split.
    + destruct (stmt_der k false G_StmtL _ _ _ _ _ _ D DS) as (l3 & f3 & D3 & E3); [discriminate|destruct k; vm_compute; reflexivity|].
      exists l3, f3. split; [exact D3|]. rewrite E3, shapes_app, E. f_equal. unfold shapes. now rewrite EC, CL.
    + intro Z0. apply app_eq_nil in Z0 as [_ Z0]. contradiction.
  - (* st_block *) intros k l ts k' e te H IH H0 IH0. begin. destruct IH as (C & (l1 & f & D & E) & _). destruct IH0 as (CE & e' & f' & D2 & E2).
    destruct (extract_shape e') as [X1 X2]. destruct (extractTrailingComments e') as [e2 cbs] eqn:X. cbn [fst snd] in *.
    assert (DS : exists g, der (G_StmtB k') (VStmts (e2 :: cbs) g) te).
    { assert (V : act 14 [VBlock e' f'] = Some (VStmts (e2 :: cbs) (match cbs with [] => true | _ => f' end))).
      { change (act 14 [VBlock e' f']) with (let (e'', cbs0) := extractTrailingComments e' in Some (VStmts (e'' :: cbs0) (match cbs0 with [] => true | _ => f' end))). now rewrite X. }
      destruct k'; eexists; (mk' 14%Z [te]; exact V). }
    destruct DS as (g & DS). split; [rewrite code_app, C; unfold code; cbn; now rewrite CE|]. split.
    + destruct (stmt_der k k' _ _ _ _ _ _ _ D DS) as (l3 & f3 & D3 & E3); [discriminate|destruct k, k'; vm_compute; reflexivity|].
      exists l3, f3. split; [exact D3|]. rewrite E3, shapes_app, E. f_equal. apply (shapes_cons_eq e e2 [] cbs); [congruence|]. rewrite (shapes_cb _ X2). reflexivity.
    + intro Z0. apply app_eq_nil in Z0 as [_ Z0]. discriminate.
  - (* su_block *) intros nl k0 noise ind k l tb un K H IH K1 H0 IH0 N K2. begin.
    destruct IH as (_ & _ & IHn). destruct (IHn eq_refl) as (cs & g & DN & F). destruct IH0 as (C & (l' & f & D & E) & _).
    assert (NL : l' <> []) by (intros ->; cbn in E; unfold shapes in E; rewrite C in E; destruct l; [contradiction|discriminate]).
    destruct (add_suite_shapes cs l' f F NL) as (l2 & g2 & A & S2). exists l2, g2. split; [|congruence].
    assert (V : act 2 [VTok nl; VStmts cs g; VTok ind; VStmts l' f; VTok un] = Some (VStmts l2 g2)) by exact A.
    destruct k; (mk' 2%Z [[nl]; noise; [ind]; tb; [un]]; exact V).
  - (* su_line *) intros l tl nls H IH NL. begin. destruct IH as (x & l' & D & E). pose proof (linebreaks_der _ NL) as DN.
    eexists _, _. split; [mk 3%Z [tl; nls]|].
    assert (CL : code l = l) by (inversion H; subst; eapply smalls_code; eassumption).
    unfold shapes. now rewrite CL, (code_like _ _ E CL).
Qed.
