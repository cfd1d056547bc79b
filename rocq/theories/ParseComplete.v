(** Completeness of the parser: whatever ParseSpec.v says is spelled by some tokens, the grammar of LRItems.v derives from
    them, with values of the same shape. *)
From Verif Require Import Base BaseProofs Ast Lex LexSpec LRTables LRCert Parse LRProofs LRItems LRComplete LRSim ParseSpec ParseLex ParseProofs ParseStmts ShapeSpec.
Local Open Scope list_scope.

(** ** Building derivations *)
Definition act (r : Z) (vs : list value) : option value :=
  match nth_error actions (Z.to_nat r - 1) with Some f => f vs | None => None end.
Fixpoint zlist_eqb (a b : list Z) : bool :=
  match a, b with [], [] => true | x :: a', y :: b' => (x =? y)%Z && zlist_eqb a' b' | _, _ => false end.
Definition rule_eqb (a b : option Z) : bool :=
  match a, b with None, None => true | Some x, Some y => (x =? y)%Z | _, _ => false end.
Definition is_prod (A : Z) (rhs : list Z) (r : option Z) : bool :=
  existsb (fun q => let '(A', rhs', r') := q in (A' =? A)%Z && zlist_eqb rhs' rhs && rule_eqb r' r) prods.
Lemma zlist_eqb_eq a b : zlist_eqb a b = true -> a = b.
Proof.
  revert b. induction a as [|x a IH]; intros [|y b] H; try discriminate; [reflexivity|]. cbn in H.
  apply andb_prop in H as [H1 H2]. apply Z.eqb_eq in H1. subst. f_equal. auto.
Qed.
Lemma is_prod_In A rhs r : is_prod A rhs r = true -> In (A, rhs, r) prods.
Proof.
  unfold is_prod. intro H. apply existsb_exists in H as ([[A' rhs'] r'] & H1 & H2).
  apply andb_prop in H2 as [H2 H4]. apply andb_prop in H2 as [H2 H3]. apply Z.eqb_eq in H2. apply zlist_eqb_eq in H3.
  assert (r' = r) as ->. { destruct r', r; try discriminate; [cbn in H4; apply Z.eqb_eq in H4; now subst|reflexivity]. }
  now subst.
Qed.
Inductive pieces : list Z -> list value -> list (list token) -> Prop :=
  | pc_nil : pieces [] [] []
  | pc_cons X v t l vs tl : der X v t -> pieces l vs tl -> pieces (X :: l) (v :: vs) (t :: tl).
Lemma pieces_ders l vs tl : pieces l vs tl -> ders l vs (List.concat tl).
Proof. induction 1; cbn; constructor; auto. Qed.
Lemma by_rule A rhs r vs v ts tl : pieces rhs vs tl -> List.concat tl = ts -> is_prod A rhs (Some r) = true -> (r =? 1)%Z = false ->
  act r vs = Some v -> der A v ts.
Proof.
  intros P <- H N E. unfold act in E. destruct (nth_error actions (Z.to_nat r - 1)) as [f|] eqn:F; [|discriminate].
  eapply d_rule; eauto using is_prod_In, pieces_ders. now apply Z.eqb_neq in N.
Qed.
Lemma by_silent A B v ts : is_prod A [B] None = true -> der B v ts -> der A v ts.
Proof. intros. eapply d_silent; eauto using is_prod_In. Qed.
Lemma tk k t : t_kind t = k -> der (yylex1 (Parse.code k)) (VTok t) [t].
Proof. intros <-. apply d_tok. Qed.
Ltac lists := cbn [List.concat]; repeat first [rewrite app_nil_r | rewrite <- app_assoc | progress cbn [app]]; reflexivity.
Ltac piece := first [eassumption | eapply tk; eassumption].
Ltac mk r pcs :=
  eapply (by_rule _ _ r _ _ _ pcs);
  [repeat (eapply pc_cons; [piece|]); apply pc_nil | lists | vm_compute; reflexivity | reflexivity | reflexivity].

(** ** Shapes *)
Lemma code_shapes b : flat_map (fun s => if is_code s then [shape s] else []) b = shapes b.
Proof. unfold shapes, code. induction b as [|x b IH]; [reflexivity|]. cbn. destruct (is_code x); cbn; now rewrite IH. Qed.
Lemma shape_def c p ps b n q fc fm ty : shape (EDef c p ps b n q fc fm ty) = EDef no_com no_pos (map shape ps) (shapes b) n no_pos false false (option_map shape ty).
Proof. cbn. now rewrite code_shapes. Qed.
Lemma shape_for c p v x b : shape (EFor c p v x b) = EFor no_com no_pos (shape v) (shape x) (shapes b).
Proof. cbn. now rewrite code_shapes. Qed.
Lemma shape_if c p x t e f : shape (EIf c p x t e f) = EIf no_com no_pos (shape x) (shapes t) no_end (shapes f).
Proof. cbn. now rewrite !code_shapes. Qed.
Lemma shape_set c e : shape (set_com c e) = shape e.
Proof. destruct e; reflexivity. Qed.
Lemma shape_code e : is_code (shape e) = is_code e.
Proof. now destruct e. Qed.
Lemma same_code e e' : shape e' = shape e -> is_code e' = is_code e.
Proof. intro H. now rewrite <- shape_code, H, shape_code. Qed.
Lemma shapes_app a b : shapes (a ++ b) = shapes a ++ shapes b.
Proof. unfold shapes. now rewrite code_app, map_app. Qed.
Lemma shapes_cons a b : is_code a = true -> shapes (a :: b) = shape a :: shapes b.
Proof. intro H. unfold shapes, code. cbn. now rewrite H. Qed.

(** ** The claim, category by category *)
Definition as_expr (A : Z) (e : expr) (ts : list token) : Prop := exists e', der A (VExpr e') ts /\ shape e' = shape e.
Definition as_list (A : Z) (l : list expr) (ts : list token) : Prop := exists l', der A (VList l') ts /\ map shape l' = map shape l.
Definition as_opt (A : Z) (o : option expr) (ts : list token) : Prop := exists o', der A (VOpt o') ts /\ option_map shape o' = option_map shape o.
(** A chain of conditions without an else. *)
Inductive chain : expr -> Prop :=
  | ch_end c p x t ep : chain (EIf c p x t ep [])
  | ch_more c p x t ep e : chain e -> chain (EIf c p x t ep [e]).
Definition elif_toks (el : list token) : Prop := (exists a, el = [a] /\ is KElif a) \/ (exists a b, el = [a; b] /\ is KElse a /\ is KIf b).
Definition emb (c : cat) (e : expr) (ts : list token) : Prop := Forall wf_tok ts ->
  match c with
  | Prim => exists e', der G_Prim (VExpr e') ts /\ ((forall a, is KInt a -> ts <> [a]) -> der G_PrimN (VExpr e') ts) /\ shape e' = shape e
  | Level n o => n <= 12 -> as_expr (G_level n o) e ts
  | Test => as_expr G_Test e ts
  | Item => as_expr G_Item e ts
  | Expr => as_expr G_Expr e ts
  | Vars => as_expr G_Vars e ts
  | Arg => as_expr G_Arg e ts
  | Param => as_expr G_Param e ts
  | TParam => as_expr G_TParam e ts
  | Pair => as_expr G_KV e ts
  | Small => as_expr G_Small e ts
  | IfTail k =>
      is_code e = true /\
      (forall i, is KIf i -> exists e' f, der (G_IfE k) (VBlock e' f) (i :: ts) /\ shape e' = shape e) /\
      (forall k0 e0 f0 ts0 el, der (G_IfC k0) (VBlock e0 f0) ts0 -> chain e0 -> elif_toks el ->
         exists p e1 e2 f, der (G_IfE k) (VBlock e1 f) (ts0 ++ el ++ ts) /\ set_else e0 p [e2] = Some e1 /\ shape e2 = shape e)
  | Block k => is_code e = true /\ exists e' f, der (G_Block k) (VBlock e' f) ts /\ shape e' = shape e
  end.
Definition emb_maybe (c : cat) (o : option expr) (ts : list token) : Prop := Forall wf_tok ts ->
  match c with Expr => as_opt G_ExprO o ts | Test => as_opt G_TestO o ts | _ => True end.
Definition emb_stride (o : option expr) (ts : list token) : Prop := Forall wf_tok ts ->
  o = None /\ ts = [] \/ exists k t, ts = k :: t /\ ch ":" k /\ as_opt G_TestO o t.
Definition emb_annotation (o : option expr) (ts : list token) : Prop := Forall wf_tok ts ->
  o = None /\ ts = [] \/ exists a k t, o = Some a /\ ts = k :: t /\ is KArrow k /\ as_expr G_Test a t.
Definition emb_row (c : cat) (l : list expr) (ts : list token) : Prop := Forall wf_tok ts ->
  match c with
  | Test => as_list G_Tests l ts
  | Arg => forall cs p, der G_CommasO (VPos p) cs -> as_list G_Args l (cs ++ ts)
  | Pair => as_list G_KVN l ts
  | _ => True
  end.
Definition emb_items (c : cat) (l : list expr) (ts : list token) : Prop := Forall wf_tok ts ->
  match c with
  | Test => exists l' p, der G_TestsO (VTests l' p) ts /\ map shape l' = map shape l
  | Pair => as_list G_KVS l ts
  | _ => True
  end.
Definition as_tuple (A : Z) (l : list expr) (ts : list token) : Prop :=
  (exists e e', l = [e] /\ der A (VExpr e') ts /\ shape e' = shape e /\ (forall c p l d fc fm, e' <> ETuple c true p l d fc fm)) \/
  (2 <= List.length l /\ exists c p l' d fc fm, der A (VExpr (ETuple c true p l' d fc fm)) ts /\ map shape l' = map shape l).
Definition emb_row1 (c c' : cat) (l : list expr) (ts : list token) : Prop := Forall wf_tok ts ->
  match c, c' with
  | Test, Item => as_tuple G_Expr l ts
  | Prim, Prim => as_tuple G_Vars l ts
  | Param, Param => as_list G_Params l ts
  | TParam, TParam => as_list G_TParams l ts
  | _, _ => True
  end.
Definition emb_params (c : cat) (l : list expr) (ts : list token) : Prop := Forall wf_tok ts ->
  match c with Param => as_list G_ParamsO l ts | TParam => as_list G_TParamsO l ts | _ => True end.
Definition emb_clauses (o : bool) (l : list expr) (ts : list token) : Prop := Forall wf_tok ts ->
  as_list (G_FI o) l ts \/
  exists o' a b ta tb, ts = ta ++ tb /\ l = a ++ b /\ as_list (G_FC o') a ta /\ as_list (G_FI o) b tb.
Definition emb_smalls (l : list expr) (ts : list token) : Prop := Forall wf_tok ts ->
  exists e' l' t1 t2, ts = t1 ++ t2 /\ der G_Small (VExpr e') t1 /\ der G_Cont (VList l') t2 /\ map shape (e' :: l') = map shape l.
Definition emb_line (l : list expr) (ts : list token) : Prop := Forall wf_tok ts ->
  exists x l', der G_Simple (VStmts (x :: l') true) ts /\ map shape (x :: l') = map shape l.
(** A block of comments with something in it. *)
Definition noted (e : expr) : Prop := exists c p, e = ECommentBlock c p /\ c_after c <> [].
Definition emb_stmts (k : bool) (l : list expr) (ts : list token) : Prop := Forall wf_tok ts ->
  code l = l /\
  (exists l' f, der (G_Stmts k) (VStmts l' f) ts /\ shapes l' = shapes l) /\
  (l = [] -> exists l' f, der G_Comms (VStmts l' f) ts /\ Forall noted l').
Definition emb_suite (k : bool) (l : list expr) (ts : list token) : Prop := Forall wf_tok ts ->
  exists l' f, der (G_Suite k) (VStmts l' f) ts /\ shapes l' = shapes l.

Scheme one_i := Minimality for one Sort Prop with maybe_i := Minimality for maybe Sort Prop
  with stride_i := Minimality for stride Sort Prop with annotation_i := Minimality for annotation Sort Prop
  with row_i := Minimality for row Sort Prop with items_i := Minimality for items Sort Prop
  with row1_i := Minimality for row1 Sort Prop with params_i := Minimality for params Sort Prop
  with clauses_i := Minimality for clauses Sort Prop with smalls_i := Minimality for smalls Sort Prop
  with line_i := Minimality for line Sort Prop with stmts_i := Minimality for stmts Sort Prop with suite_i := Minimality for suite Sort Prop.
Combined Scheme spec_ind from one_i, maybe_i, stride_i, annotation_i, row_i, items_i, row1_i, params_i, clauses_i, smalls_i, line_i, stmts_i, suite_i.

(** ** Pieces *)
Lemma commas_der cs : Forall wf_tok cs -> commas cs -> cs <> [] -> exists p, der G_Commas (VPos p) cs /\ (0 < p_line p)%Z.
Proof.
  induction cs as [|x cs IH] using rev_ind; intros W C N; [contradiction|].
  apply Forall_app in W as [W1 W2]. apply Forall_app in C as [C1 C2]. inversion C2; subst. inversion W2 as [|? ? [_ L] _]; subst.
  destruct cs as [|y cs'].
  - exists (t_pos x). split; [|exact L]. cbn [app]. mk 126%Z [[x]].
  - destruct IH as (p & D & P); auto; [discriminate|]. exists p. split; [|exact P]. mk 127%Z [y :: cs'; [x]].
Qed.
Lemma commas_opt_der cs : Forall wf_tok cs -> commas cs ->
  exists p, der G_CommasO (VPos p) cs /\ (if p_line p =? 0 then cs = [] else cs <> [])%Z.
Proof.
  intros W C. destruct cs as [|x cs].
  - exists no_pos. split; [|reflexivity]. mk 128%Z (@nil (list token)).
  - destruct (commas_der _ W C) as (p & D & P); [discriminate|]. exists p. split; [mk 129%Z [x :: cs]|].
    destruct (p_line p =? 0)%Z eqn:E; [lia|discriminate].
Qed.
Lemma comma_opt_der cs : commas cs -> (List.length cs <= 1)%nat -> exists p, der G_CommaO (VPos p) cs.
Proof.
  intros C L. destruct cs as [|x [|? ?]]; [| |cbn in L; lia].
  - eexists. mk 124%Z (@nil (list token)).
  - inversion C; subst. eexists. mk 125%Z [[x]].
Qed.
Lemma level_down m n o v ts : n <= m -> m <= 12 -> der (G_level m o) v ts -> der (G_level n o) v ts.
Proof.
  induction 1 as [|m L IH]; intros B D; [exact D|]. apply IH; [lia|]. eapply by_silent; [|exact D].
  destruct o; do 12 (destruct m as [|m]; [vm_compute; reflexivity|]); lia.
Qed.
Lemma clauses_der o l ts : emb_clauses o l ts -> Forall wf_tok ts -> as_list (G_FC o) l ts.
Proof.
  intros H W. destruct (H W) as [(l' & D & S0)|(o' & a & b & ta & tb & -> & -> & (a' & D & S0) & (b' & D' & S1))].
  - exists l'. split; [|exact S0]. destruct o; mk 147%Z [ts].
  - exists (a' ++ b'). split; [|rewrite !map_app; congruence]. destruct o, o'; mk 148%Z [ta; tb].
Qed.

(** ** Statements *)
Lemma shapes_cb l : Forall is_cb l -> shapes l = [].
Proof. intro H. unfold shapes. now rewrite code_cb. Qed.
Lemma shapes_one e e' : shape e' = shape e -> shapes [e'] = shapes [e].
Proof. intro H. unfold shapes, code. cbn. rewrite (same_code _ _ H). destruct (is_code e); cbn; congruence. Qed.
Lemma shapes_cons_eq e e' l l' : shape e' = shape e -> shapes l' = shapes l -> shapes (e' :: l') = shapes (e :: l).
Proof. intros H K. change (e' :: l') with ([e'] ++ l'). change (e :: l) with ([e] ++ l). rewrite !shapes_app. f_equal; [now apply shapes_one|exact K]. Qed.
Lemma extract_first_shapes ind x r a b : Forall is_cb r -> extract_from ind true (x :: r) = (a, b) -> shapes a = shapes (x :: r) /\ Forall is_cb b.
Proof.
  intros F E. cbn [extract_from] in E.
  assert (K : forall stay c leave, (if (negb true && match stay with [] => true | _ => false end)%bool then [] else [set_after stay x], ECommentBlock (Comments [] [] (c :: leave)) (c_start c) :: r) = (a, b) ->
    shapes a = shapes (x :: r) /\ Forall is_cb b).
  { intros stay c leave Q. cbn [negb andb] in Q. injection Q as <- <-. split; [|constructor; [reflexivity|exact F]].
    change (x :: r) with ([x] ++ r). rewrite shapes_app, (shapes_cb r F), app_nil_r. apply shapes_one, shape_set. }
  assert (K2 : (let (a0, b0) := extract_from ind false r in (x :: a0, b0)) = (a, b) -> shapes a = shapes (x :: r) /\ Forall is_cb b).
  { destruct (extract_from ind false r) as [a0 b0] eqn:Q. intro H. injection H as <- <-. destruct (extract_comments _ _ F _ _ Q) as [F1 F2].
    split; [|exact F2]. apply shapes_cons_eq; [reflexivity|]. now rewrite !shapes_cb. }
  destruct (dedented ind (c_after (com x))) as [[stay [|c leave]]|]; eauto.
Qed.
Lemma extract_body_shapes body b cbs : extract_body body = (b, cbs) -> shapes b = shapes body /\ Forall is_cb cbs.
Proof.
  unfold extract_body. destruct body as [|y body]; [intro E; injection E as <- <-; auto|].
  pose proof (last_non_comment_spec (y :: body) 0 None) as L. destruct (last_non_comment 0 (y :: body) None) as [n|].
  - destruct L as [[L _]|(_ & x & r & E & F)]; [discriminate|]. rewrite Nat.sub_0_r in E.
    destruct (extract_from _ true (skipn n (y :: body))) as [a0 b0] eqn:Q. rewrite E in Q. destruct (extract_first_shapes _ _ _ _ _ F Q) as [Q1 Q2].
    intro H. injection H as <- <-. split; [|assumption]. rewrite <- (firstn_skipn n (y :: body)) at 2. now rewrite !shapes_app, E, Q1.
  - intro E. injection E as <- <-. auto.
Qed.
Fixpoint extract_shape (e : expr) : shape (fst (extractTrailingComments e)) = shape e /\ Forall is_cb (snd (extractTrailingComments e)).
Proof.
  destruct e; try (split; [reflexivity|constructor]).
  - cbn [extractTrailingComments]. destruct (extract_body body) as [b' cbs] eqn:E. destruct (extract_body_shapes _ _ _ E). cbn [fst snd]. rewrite !shape_def. split; congruence.
  - cbn [extractTrailingComments]. destruct (extract_body body) as [b' cbs] eqn:E. destruct (extract_body_shapes _ _ _ E). cbn [fst snd]. rewrite !shape_for. split; congruence.
  - cbn [extractTrailingComments].
    assert (G : forall f, (let (f', cbs) := extract_body f in (EIf c p e tru elsep f', cbs)) = (EIf c p e tru elsep (fst (extract_body f)), snd (extract_body f))) by (intro f; now destruct (extract_body f)).
    assert (K : forall f, shapes (fst (extract_body f)) = shapes f /\ Forall is_cb (snd (extract_body f))) by (intro f; apply extract_body_shapes; now destruct (extract_body f)).
    destruct fls as [|n [|n' r]].
    + destruct (extract_body tru) as [t' cbs] eqn:E. destruct (extract_body_shapes _ _ _ E). cbn [fst snd]. rewrite !shape_if. split; congruence.
    + pose proof (extract_shape n) as IHn. clear extract_shape. destruct n; try (rewrite G; cbn [fst snd]; rewrite !shape_if; split; [now rewrite (proj1 (K _))|apply K]).
      destruct (extractTrailingComments (EIf c0 p0 n tru0 elsep0 fls)) as [n2 cbs]. cbn [fst snd] in *.
      destruct IHn as [S1 S2]. rewrite !shape_if. split; [|exact S2]. now rewrite (shapes_one _ _ S1).
    + destruct n; (rewrite G; cbn [fst snd]; rewrite !shape_if; split; [now rewrite (proj1 (K _))|apply K]).
Qed.
Lemma set_last_shapes f l : (forall x, shape (f x) = shape x) -> shapes (set_last f l) = shapes l.
Proof.
  intro H. destruct l as [|y l]; [reflexivity|]. destruct (set_last_spec f (y :: l)) as (l0 & x & E & ->); [discriminate|].
  rewrite E, !shapes_app. f_equal. now apply shapes_one.
Qed.
Lemma add_comment_shapes l f t : shapes (add_comment l f t) = shapes l.
Proof.
  unfold add_comment. destruct (last_stmt l f).
  - apply set_last_shapes. intro. apply shape_set.
  - rewrite shapes_app, (shapes_cb [_]) by (repeat constructor). apply app_nil_r.
Qed.
Lemma add_comment_noted l f t : Forall noted l -> Forall noted (add_comment l f t).
Proof.
  intro H. unfold add_comment. pose proof (last_stmt_spec l f) as L. destruct (last_stmt l f) as [x|].
  - destruct L as (l0 & ->). apply Forall_app in H as [H1 H2]. unfold set_last. rewrite rev_unit. cbn [rev]. rewrite rev_involutive.
    apply Forall_app. split; [exact H1|]. inversion H2 as [|? ? (c & p & -> & N) _]; subst. constructor; [|constructor].
    eexists _, _. split; [reflexivity|]. cbn. now destruct (c_after c).
  - apply Forall_app. split; [exact H|]. constructor; [|constructor]. eexists _, _. split; [reflexivity|discriminate].
Qed.
Lemma add_stmt_shapes l1 f1 l2 f2 : l2 <> [] -> exists l f, add_stmt l1 f1 l2 f2 = Some (VStmts l f) /\ shapes l = shapes l1 ++ shapes l2.
Proof.
  intro N. unfold add_stmt. pose proof (last_stmt_spec l1 f1) as L. destruct (last_stmt l1 f1) as [x|].
  - destruct L as (l0 & ->). destruct l2 as [|y l2]; [contradiction|].
    assert (Y : forall c, shapes (set_before c y :: l2) = shapes (y :: l2)) by (intro c; apply shapes_cons_eq; [apply shape_set|reflexivity]).
    destruct (is_comment_block x) eqn:C; eexists _, _; (split; [reflexivity|]).
    + rewrite removelast_last, !shapes_app, Y. rewrite (shapes_cb [x]), app_nil_r; [reflexivity|]. constructor; [|constructor]. now destruct x.
    + rewrite !shapes_app, Y. f_equal. rewrite set_last_shapes; [|intro; apply shape_set]. now rewrite shapes_app.
  - eexists _, _. split; [reflexivity|]. apply shapes_app.
Qed.
Lemma add_suite_shapes cs ss f : Forall noted cs -> ss <> [] -> exists l g, add_suite cs ss f = Some (VStmts l g) /\ shapes l = shapes ss.
Proof.
  intros H N. assert (NC : forall l, Forall noted l -> shapes l = []).
  { intros l F. apply shapes_cb. revert F. apply Forall_impl. intros e (c & p & -> & _). reflexivity. }
  unfold add_suite. destruct (rev cs) as [|cb r] eqn:E.
  - eexists _, _. split; reflexivity.
  - assert (Q : cs = rev r ++ [cb]) by now rewrite <- (rev_involutive cs), E. subst cs. apply Forall_app in H as [H1 H2].
    inversion H2 as [|? ? (c & p & -> & NA) _]; subst. cbn [com].
    destruct ss as [|s ss]; [contradiction|]. destruct (rev (c_after c)) as [|z zs] eqn:Z0.
    { exfalso. apply NA. now rewrite <- (rev_involutive (c_after c)), Z0. }
    destruct (_ =? 1)%Z; eexists _, _; (split; [reflexivity|]).
    + rewrite removelast_last, shapes_app, (NC _ H1). cbn [app]. apply shapes_cons_eq; [apply shape_set|reflexivity].
    + rewrite !shapes_app, (NC _ H1), (NC _ H2). reflexivity.
Qed.
(** Adding to a chain of conditions. *)
Lemma chain_add e0 : chain e0 -> forall p c q x t ep, exists c1, set_else e0 p [EIf c q x t ep []] = Some c1 /\ chain c1 /\
  forall p' f, set_else c1 p' f = set_else e0 p [EIf c q x t (End no_com p') f].
Proof.
  induction 1 as [c0 p0 x0 t0 ep0|c0 p0 x0 t0 ep0 e H IH]; intros p c q x t ep; cbn [set_else].
  - eexists. split; [reflexivity|]. split; [repeat constructor|]. reflexivity.
  - destruct (IH p c q x t ep) as (c1 & E & C & F). rewrite E. eexists. split; [reflexivity|]. split; [now constructor|].
    intros p' f. cbn [set_else]. now rewrite F.
Qed.
Lemma chain_else e0 : chain e0 -> forall p f, exists e1, set_else e0 p f = Some e1.
Proof. induction 1 as [c0 p0 x0 t0 ep0|c0 p0 x0 t0 ep0 e H IH]; intros p f; cbn [set_else]; [eauto|]. destruct (IH p f) as (e1 & ->). eauto. Qed.
