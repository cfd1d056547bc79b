(** The tree with the parentheses that the printer writes (C70): printing is the same. *)
From Verif Require Import Base BaseProofs Ast AttachTree Utf8 Quote QuoteProofs QuotePrint QuoteGrammar PropQuote Lex ParseSpec ShapeSpec Print PrintSpec.
Local Open Scope list_scope.

Definition prec (e : expr) : nat :=
  match e with
  | EUnary _ _ _ _ => precUnary
  | ELambda _ _ _ _ => precColon
  | EBinary _ _ _ op _ _ => opPrec op
  | EAssign _ _ _ _ _ _ => precAssign
  | _ => precSuffix
  end.
(** [g] stands for [e], in a place of precedence [outer]. *)
Definition wrap (outer : nat) (e g : expr) : expr :=
  if prec e <? outer then EParen (com e) (start_pos e) (set_com no_com g) (End no_com (end_pos e)) false else g.
Definition respell (s : strlit) : strlit :=
  Str (s_com s) (s_start s) (s_value s) (s_triple s) (s_end s)
    (let '(v, t, err) := unquote (s_token s) in
     if uerr_none err && beq v (s_value s) && Bool.eqb t (s_triple s) then s_token s else quote (s_value s) (s_triple s)).
Fixpoint group (e : expr) : expr :=
  let w n x := wrap n x (group x) in
  match e with
  | EFile c m l => EFile c m (map (option_map group) l)
  | ECommentBlock _ _ | EIdent _ | EBranch _ _ _ | ELit _ _ _ => e
  | EStr s => EStr (respell s)
  | ECall c x a l d f g => ECall c (w precSuffix x) a (map group l) d f g
  | ELoad c p m fr to r g => ELoad c p (respell m) fr to r g
  | ETyped c i t => ETyped c i (group t)
  | EDot c x a b n => EDot c (w precSuffix x) a b n
  | EList c a l b d => EList c a (map group l) b d
  | ESet c a l b d => ESet c a (map group l) b d
  | EDict c a l b d => EDict c a (map group l) b d
  | EComp c curly a x l b d => EComp c curly a (group x) (map group l) b d
  | EForC c a x b y => EForC c a (group x) b (group y)
  | EIfC c a x => EIfC c a (group x)
  | EKV c x a y => EKV c (group x) a (group y)
  | ETuple c nobr a l b d f => ETuple c nobr a (map group l) b d f
  | EUnary c a op x => EUnary c a op (option_map (w precSuffix) x)
  | EBinary c x a op b y => EBinary c (w (opPrec op) x) a op b (w (S (opPrec op)) y)
  | EAssign c x a op b y => EAssign c (w precAssign x) a op b (w (S precAssign) y)
  | ECond c x a y b z => ECond c (w precIfElse x) a (w precIfElse y) b (w precIfElse z)
  | EParen c p x en m => EParen c p (group x) en m
  | ESlice c x a u b v d s f => ESlice c (w precSuffix x) a (option_map group u) b (option_map group v) d (option_map group s) f
  | EIndex c x a y b => EIndex c (w precSuffix x) a (group y) b
  | ELambda c a ps b => ELambda c a (map group ps) (map group b)
  | EReturn c a x => EReturn c a (option_map group x)
  | EDef c a ps b n d f g ty => EDef c a (map group ps) (map group b) n d f g (option_map group ty)
  | EFor c a x y b => EFor c a (group x) (group y) (map group b)
  | EIf c a x t d f => EIf c a (group x) (map group t) d (map group f)
  end.
Notation grp n x := (wrap n x (group x)).

(** ** Positions *)
Lemma com_group e : com (group e) = com e.
Proof. destruct e; reflexivity. Qed.
Lemma com_wrap n e g : com g = com e -> com (wrap n e g) = com e.
Proof. intro H. unfold wrap. destruct (prec e <? n); auto. Qed.
Lemma com_grp n e : com (grp n e) = com e.
Proof. apply com_wrap, com_group. Qed.
Lemma start_set c e : start_pos (set_com c e) = start_pos e. Proof. destruct e; reflexivity. Qed.
Lemma end_set c e : end_pos (set_com c e) = end_pos e. Proof. destruct e; reflexivity. Qed.
Lemma start_wrap n e g : start_pos g = start_pos e -> start_pos (wrap n e g) = start_pos e.
Proof. intro H. unfold wrap. destruct (prec e <? n); auto. Qed.
Lemma start_group e : start_pos (group e) = start_pos e.
Proof.
  induction e as [e IH] using expr_ind_subs. assert (W : forall n x, In x (subs (fun y => y) e) -> start_pos (grp n x) = start_pos x) by (intros; apply start_wrap, IH; auto).
  destruct e; cbn [group start_pos]; auto; try (apply W; cbn; auto; fail); try (apply IH; cbn; auto; fail).
  - destruct stmts; reflexivity.
  - destruct nobr; auto. destruct l; auto. cbn [map]. apply IH. cbn. auto.
Qed.
Lemma start_grp n e : start_pos (grp n e) = start_pos e.
Proof. apply start_wrap, start_group. Qed.
Definition endl (e : expr) : Z := p_line (end_pos e).
Lemma endl_wrap n e g : endl g = endl e -> endl (wrap n e g) = endl e.
Proof.
  intro H. unfold wrap. destruct (prec e <? n); [|exact H]. reflexivity.
Qed.
Lemma last_lines l l' : map p_line l' = map p_line l -> p_line (last l' no_pos) = p_line (last l no_pos).
Proof.
  revert l'. induction l as [|x l IH]; intros [|y l'] E; try discriminate; [reflexivity|]. cbn [map] in E. apply cons_inj in E as [E1 E2].
  destruct l as [|x' l], l' as [|y' l']; try discriminate; [exact E1|]. exact (IH (y' :: l') E2).
Qed.
Lemma last_group l : (forall x, In x l -> endl (group x) = endl x) -> p_line (last (map end_pos (map group l)) no_pos) = p_line (last (map end_pos l) no_pos).
Proof. intro H. apply last_lines. rewrite !map_map. apply map_ext_in. exact H. Qed.
Lemma endl_group e : endl (group e) = endl e.
Proof.
  induction e as [e IH] using expr_ind_subs. assert (W : forall n x, In x (subs (fun y => y) e) -> endl (grp n x) = endl x) by (intros; apply endl_wrap, IH; auto).
  unfold endl in *.
  destruct e; cbn [group end_pos]; cbn [subs] in W, IH; rewrite ?map_id in W; rewrite ?map_id in IH; auto; try (apply W; cbn; auto; fail); try (apply IH; cbn; auto; fail);
    try (apply last_group; intros; apply IH; rewrite ?in_app_iff; cbn; rewrite ?in_app_iff; auto; fail).
  - destruct stmts as [|o l]; auto. cbn [map]. change (option_map group o :: map (option_map group) l) with (map (option_map group) (o :: l)).
    apply last_lines. revert IH. generalize (o :: l). clear. induction l as [|[x|] l IHl]; intros IH; auto; cbn [map option_map flat_map app].
    f_equal; [apply IH; left; auto|]. apply IHl. intros. apply IH. right. auto.
  - destruct nobr; auto. now apply last_group.
  - destruct x; auto. apply W. cbn; auto.
  - destruct x; auto. apply IH. cbn; auto.
  - assert (A : p_line (last (map end_pos (map group tru)) no_pos) = p_line (last (map end_pos tru) no_pos)) by (apply last_group; intros; apply IH; right; apply in_or_app; auto).
    assert (B : p_line (last (map end_pos (map group fls)) no_pos) = p_line (last (map end_pos fls) no_pos)) by (apply last_group; intros; apply IH; right; apply in_or_app; auto).
    destruct fls as [|y fls]; auto.
Qed.
Lemma endl_grp n e : endl (grp n e) = endl e.
Proof. apply endl_wrap, endl_group. Qed.

(** ** Strings *)
Lemma quote_prints v t : print_string v t (quote v t) = Ok (quote v t).
Proof.
  assert (N : print_string v t (quote v t) <> Panic).
  { apply print_no_panic; [exists []; apply lex_quote; auto|]. intros a c b E. pose proof (C01_quote_ascii v t) as A. rewrite E, Forall_app in A. destruct A as [_ A].
    inversion A as [|? ? _ A2]; subst. inversion A2 as [|? ? [A3|[_ ->]] _]; subst; [|reflexivity]. unfold high. apply N.leb_gt. apply A3. }
  assert (P : has_prefix %"r" (quote v t) = false /\ has_prefix [c_quote] (quote v t) = true) by (unfold quote; destruct t; split; reflexivity). destruct P as [P1 P2].
  unfold print_string in *. rewrite unquote_quote in *. cbn [uerr_none andb] in *. rewrite beq_refl, eqb_reflx in *. cbn [andb] in *. rewrite P1, P2 in *. cbn [orb] in *.
  destruct (is_correct_escaping (quote v t)) as [[]|]; [reflexivity|reflexivity|contradiction].
Qed.
Lemma quote_lexes v t : unquote (quote v t) = (v, t, None) /\ scan_string (quote v t) = Some [].
Proof.
  split; [apply unquote_quote|]. pose proof (lex_quote v t [] (or_intror (or_intror eq_refl))) as L. rewrite app_nil_r in L. unfold lex_string in L.
  destruct (scan_string (quote v t)) as [r|]; [|discriminate]. destruct (unquote _) as [[v' t'] [e|]]; [discriminate|]. injection L as _ _ _ ->. reflexivity.
Qed.
Lemma respell_text s : print_string (s_value s) (s_triple s) (s_token (respell s)) = print_string (s_value s) (s_triple s) (s_token s).
Proof.
  unfold respell. cbn [s_token]. destruct (unquote (s_token s)) as [[v t] e] eqn:U. destruct (uerr_none e && beq v (s_value s) && Bool.eqb t (s_triple s)) eqn:E; [reflexivity|].
  rewrite quote_prints. unfold print_string. now rewrite U, E.
Qed.

Lemma respell_prints s st : print_strlit s st = print_strlit (respell s) st.
Proof. unfold print_strlit. change (s_value (respell s)) with (s_value s). change (s_triple (respell s)) with (s_triple s). now rewrite respell_text. Qed.
Lemma opPrec_max op : opPrec op <= precMultiply.
Proof.
  unfold opPrec. destruct (find _ opPrecs) as [[w n]|] eqn:E; [|apply Nat.le_0_l]. apply find_some in E as [E _].
  assert (F : forallb (fun x => snd x <=? precMultiply) opPrecs = true) by reflexivity. rewrite forallb_forall in F. apply Nat.leb_le. exact (F _ E).
Qed.

(** ** Printing *)
Lemma two_length {A B} (R : A -> B -> Prop) l l' : Forall2 R l l' -> List.length l = List.length l'.
Proof. induction 1; cbn; auto. Qed.
Definition feq (f g : pst -> pst) : Prop := forall st, f st = g st.
Lemma node_ext c f g : feq f g -> feq (node c f) (node c g).
Proof. intros H st. unfold node. now rewrite H. Qed.
Lemma paren_ext p o f g : feq f g -> feq (addParen p o f) (addParen p o g).
Proof. intros H st. unfold addParen. destruct (p <? o); now rewrite H. Qed.
(** Elements that a sequence cannot tell apart. *)
Definition item_eq (a b : item) : Prop :=
  it_com a = it_com b /\ it_start a = it_start b /\ p_line (it_end a) = p_line (it_end b) /\ it_star a = it_star b /\ feq (it_print a) (it_print b).
Lemma different_lines p q p' q' : p_line p = p_line p' -> p_line q = p_line q' -> isDifferentLines p q = isDifferentLines p' q'.
Proof. intros H1 H2. unfold isDifferentLines. now rewrite H1, H2. Qed.
Lemma same_lines_ext l l' : Forall2 item_eq l l' -> forall prev prev' new, p_line prev = p_line prev' ->
  match same_lines prev new l, same_lines prev' new l' with
  | Some (p, n), Some (p', n') => p_line p = p_line p' /\ n = n'
  | None, None => True
  | _, _ => False
  end.
Proof.
  induction 1 as [|a b l l' (H1 & H2 & H3 & H4 & H5) _ IH]; intros prev prev' new E; cbn [same_lines]; [auto|].
  rewrite (different_lines _ _ (it_start b) prev' (f_equal p_line H2) E). destruct (isDifferentLines (it_start b) prev'); [exact Logic.I|].
  rewrite H2. apply IH. rewrite H3. destruct (Z.eqb (p_line (it_end b)) 0); auto.
Qed.
Lemma compact_ext ft level start l l' en md compact multi : Forall2 item_eq l l' ->
  useCompactMode ft level start l en md compact multi = useCompactMode ft level start l' en md compact multi.
Proof.
  intro H. unfold useCompactMode.
  assert (E : existsb (fun x => nonempty (c_before (it_com x)) || nonempty (c_suffix (it_com x)) && negb (mode_eqb md modeDef)) l = existsb (fun x => nonempty (c_before (it_com x)) || nonempty (c_suffix (it_com x)) && negb (mode_eqb md modeDef)) l').
  { induction H as [|a b l l' (H1 & _) _ IH]; cbn [existsb]; [reflexivity|]. now rewrite H1, IH. }
  rewrite E. assert (N : nonempty l = nonempty l') by (destruct H; reflexivity). assert (Q : List.length l = List.length l') by (eapply two_length; eauto).
  rewrite N, Q. pose proof (same_lines_ext l l' H start start (Z.eqb (p_line start) 0) eq_refl) as S0.
  destruct (same_lines start (Z.eqb (p_line start) 0) l) as [[p n]|], (same_lines start (Z.eqb (p_line start) 0) l') as [[p' n']|]; try contradiction; auto.
  destruct S0 as [S1 <-]. destruct en as [e|]; [|reflexivity]. now rewrite (different_lines p (e_pos e) p' (e_pos e) S1 eq_refl).
Qed.
Lemma seq_compact_ext l l' : Forall2 item_eq l l' -> feq (seq_compact l) (seq_compact l').
Proof.
  induction 1 as [|a b l l' (_ & _ & _ & _ & H) F IH]; intro st; [reflexivity|]. destruct F as [|a' b' l l' H' F]; cbn [seq_compact]; [apply H|].
  rewrite H. apply IH.
Qed.
Lemma seq_multi_ext md l l' : Forall2 item_eq l l' -> forall first, feq (seq_multi md first l) (seq_multi md first l').
Proof.
  induction 1 as [|a b l l' (_ & _ & _ & H4 & H5) F IH]; intros first st; [reflexivity|]. cbn [seq_multi].
  replace (nonempty l) with (nonempty l') by (destruct F; reflexivity). replace (needsTrailingComma md a) with (needsTrailingComma md b) by (unfold needsTrailingComma; now rewrite H4).
  rewrite H5. apply IH.
Qed.
Lemma seq_ext ft br start l l' en md compact multi : Forall2 item_eq l l' -> feq (seq ft br start l en md compact multi) (seq ft br start l' en md compact multi).
Proof.
  intros H st. unfold seq. rewrite (compact_ext _ _ _ l l' en _ _ _ H), (seq_compact_ext l l' H), (seq_multi_ext md l l' H), (two_length _ _ _ H). reflexivity.
Qed.
Definition stm_eq (a b : expr * (pst -> pst)) : Prop :=
  fst b = group (fst a) /\ feq (snd a) (snd b).
Lemma called_group e : called (group e) = option_map (fun x => (fst x, map group (snd x))) (called e).
Proof. destruct e; try reflexivity. cbn [group called]. unfold wrap. destruct (prec e <? precSuffix) eqn:P; [|destruct e; reflexivity]. destruct e; try discriminate P; reflexivity. Qed.
Lemma grp_ident n e : n <= precSuffix -> match grp n e with EIdent i => e = EIdent i | _ => forall i, e <> EIdent i end.
Proof.
  intro L. unfold wrap. destruct (prec e <? n) eqn:P; [|destruct e; cbn [group]; try reflexivity; discriminate].
  destruct e; cbn [prec] in P; discriminate || (apply Nat.ltb_lt in P; unfold precSuffix in *; lia).
Qed.
Lemma keyword_group l k : getKeywordArgument (map group l) k = option_map (fun y => grp (S precAssign) y) (getKeywordArgument l k).
Proof.
  induction l as [|x l IH]; [reflexivity|]. cbn [map]. destruct x; try exact IH. cbn [group getKeywordArgument].
  pose proof (grp_ident precAssign x1) as G. unfold precAssign, precSuffix in *. specialize (G ltac:(lia)).
  destruct (grp 1 x1) eqn:E; try (destruct x1; try exact IH; now elim (G i)).
  subst x1. destruct (beq (i_name i) k); [reflexivity|exact IH].
Qed.
Lemma bool_group l k : getKeywordBoolArgument (map group l) k = getKeywordBoolArgument l k.
Proof.
  unfold getKeywordBoolArgument. rewrite keyword_group. destruct (getKeywordArgument l k) as [y|]; [|reflexivity]. cbn [option_map].
  pose proof (grp_ident (S precAssign) y) as G. unfold precAssign, precSuffix in *. specialize (G ltac:(lia)).
  destruct (grp 2 y) eqn:E; try (destruct y; try reflexivity; now elim (G i)). now subst y.
Qed.
Lemma grp_str n e : n <= precSuffix -> match grp n e with EStr s => exists s', e = EStr s' /\ s_value s' = s_value s | _ => forall i, e <> EStr i end.
Proof.
  intro L. unfold wrap. destruct (prec e <? n) eqn:P; [|destruct e; cbn [group]; try discriminate; eauto].
  destruct e; cbn [prec] in P; discriminate || (apply Nat.ltb_lt in P; unfold precSuffix in *; lia).
Qed.
Lemma value_group l k : match getKeywordArgument (map group l) k with Some (EStr s) => Some (s_value s) | _ => None end = match getKeywordArgument l k with Some (EStr s) => Some (s_value s) | _ => None end.
Proof.
  rewrite keyword_group. destruct (getKeywordArgument l k) as [y|]; [|reflexivity]. cbn [option_map].
  pose proof (grp_str (S precAssign) y) as G. unfold precAssign, precSuffix in *. specialize (G ltac:(lia)).
  destruct (grp 2 y) eqn:E; try (destruct y; try reflexivity; now elim (G s)). destruct G as (s' & -> & ->). reflexivity.
Qed.
Ltac via_called := rewrite ?called_group; repeat match goal with |- context [called ?e] => destruct (called e) as [[? ?]|] end; cbn [option_map fst snd].
Lemma isBazelDep_group e : isBazelDep (group e) = isBazelDep e.
Proof. unfold isBazelDep. via_called; reflexivity. Qed.
Lemma isUse_group e : isUseRepoOrUseExtension (group e) = isUseRepoOrUseExtension e.
Proof. unfold isUseRepoOrUseExtension. via_called; reflexivity. Qed.
Lemma isOverride_group e : isModuleOverride (group e) = isModuleOverride e.
Proof. unfold isModuleOverride. via_called; reflexivity. Qed.
Lemma isInclude_group e : isInclude (group e) = isInclude e.
Proof. unfold isInclude. via_called; reflexivity. Qed.
Lemma same_type_group x y : areBazelDepsOfSameType (group x) (group y) = areBazelDepsOfSameType x y.
Proof. unfold areBazelDepsOfSameType. rewrite !isBazelDep_group. via_called; rewrite ?bool_group; reflexivity. Qed.
Lemma with_override_group x y : isBazelDepWithOverride (group x) (group y) = isBazelDepWithOverride x y.
Proof.
  unfold isBazelDepWithOverride. rewrite isBazelDep_group, isOverride_group. via_called; try reflexivity. f_equal.
  pose proof (value_group l %"name") as V. pose proof (value_group l0 %"module_name") as U.
  destruct (getKeywordArgument (map group l) %"name") as [[]|], (getKeywordArgument l %"name") as [[]|]; try discriminate V; try reflexivity;
  destruct (getKeywordArgument (map group l0) %"module_name") as [[]|], (getKeywordArgument l0 %"module_name") as [[]|]; try discriminate U; try reflexivity.
  injection V as ->. injection U as ->. reflexivity.
Qed.
Lemma proxy_group e : usedModuleExtensionProxy (group e) = usedModuleExtensionProxy e.
Proof.
  destruct e; try reflexivity.
  - cbn [group usedModuleExtensionProxy]. destruct e; try reflexivity; try (unfold wrap; destruct (_ <? _); reflexivity).
    + cbn [group]. unfold wrap. cbn [prec]. change (precSuffix <? precSuffix) with false. cbn iota. destruct (beq (i_name i) %"use_repo"); [|reflexivity]. destruct args as [|[]]; reflexivity.
    + cbn [group]. unfold wrap at 1. cbn [prec]. change (precSuffix <? precSuffix) with false. cbn iota.
      destruct e; try reflexivity; try (unfold wrap; destruct (_ <? _); reflexivity).
  - cbn [group usedModuleExtensionProxy].
    pose proof (grp_ident precAssign e1) as G. unfold precAssign, precSuffix in *. specialize (G ltac:(lia)).
    destruct (grp 1 e1) eqn:E; try (destruct e1; try reflexivity; now elim (G i)). subst e1. clear E.
    destruct e2; try reflexivity; try (unfold wrap; destruct (_ <? _); reflexivity).
    unfold wrap. cbn [prec]. change (precSuffix <? 2) with false. cbn iota. cbn [group].
    destruct e2; try reflexivity; try (unfold wrap; destruct (_ <? _); reflexivity).
Qed.
Lemma compactStmt_group ft n x y : compactStmt ft n (group x) (group y) = compactStmt ft n x y.
Proof.
  unfold compactStmt. rewrite !com_group, same_type_group, with_override_group, !isInclude_group, start_group.
  replace (isLoad (group x)) with (isLoad x) by now destruct x. replace (isLoad (group y)) with (isLoad y) by now destruct y.
  replace (isCommentBlock (group x)) with (isCommentBlock x) by now destruct x. replace (isCommentBlock (group y)) with (isCommentBlock y) by now destruct y.
  replace (isFunctionDefinition (group x)) with (isFunctionDefinition x) by now destruct x. replace (isFunctionDefinition (group y)) with (isFunctionDefinition y) by now destruct y.
  unfold useSameModuleExtensionProxy. rewrite !proxy_group. pose proof (endl_group x) as E. unfold endl in E. now rewrite E.
Qed.
Lemma statements_ext ft l l' : Forall2 stm_eq l l' -> feq (statements ft l) (statements ft l').
Proof.
  induction 1 as [|[s pr] [s' pr'] l l' [E1 E2] F IH]; intro st; [reflexivity|]. cbn [fst snd] in *. subst s'. cbn [statements].
  rewrite E2, com_group. replace (isCommentBlock (group s)) with (isCommentBlock s) by now destruct s.
  destruct F as [|[s2 pr2] [s2' pr2'] l l' [E3 E4] F]; [reflexivity|]. cbn [fst snd] in *. subst s2'. rewrite compactStmt_group. apply IH.
Qed.
Lemma nested_ext ft l l' : Forall2 stm_eq l l' -> feq (nestedStatements ft l) (nestedStatements ft l').
Proof. intros H st. unfold nestedStatements. now rewrite (statements_ext ft l l' H). Qed.
Lemma fold_ext {A} (F : (pst -> pst) -> A -> A) l l' : (forall f g, feq f g -> forall a, F f a = F g a) -> Forall2 feq l l' -> forall a, fold_left (fun a f => F f a) l a = fold_left (fun a f => F f a) l' a.
Proof. intro HF. induction 1 as [|f g l l' H _ IH]; intro a; cbn [fold_left]; [reflexivity|]. rewrite (HF f g H). apply IH. Qed.
Lemma listFor_ext curly b b' l l' multi en : feq b b' -> Forall2 feq l l' -> feq (listFor curly b l multi en) (listFor curly b' l' multi en).
Proof.
  intros H1 H2 st. unfold listFor. rewrite H1. rewrite (fold_ext (fun cl st => cl (if multi || nonempty (c_before (e_com en)) then breakline st else printf %" " st)) l l'); [reflexivity| |exact H2].
  intros f g H a. apply H.
Qed.
Lemma lambda_ext l l' : Forall2 feq l l' -> forall acc : bool * pst,
  fold_left (fun (acc : bool * pst) pr => (true, pr (printf %" " (if fst acc then printf %"," (snd acc) else snd acc)))) l acc =
  fold_left (fun (acc : bool * pst) pr => (true, pr (printf %" " (if fst acc then printf %"," (snd acc) else snd acc)))) l' acc.
Proof. intro H. apply (fold_ext (fun pr (acc : bool * pst) => (true, pr (printf %" " (if fst acc then printf %"," (snd acc) else snd acc))))); [|exact H]. intros f g E a. now rewrite E. Qed.
Lemma print_unfold ft ch v o st : print_expr ft ch v o st = print_body (print_expr ft) ft ch v o st.
Proof. destruct v; reflexivity. Qed.

(** Parentheses that the printer adds, and those of the tree. *)
Lemma newline_nl st : o_nl (newline st) = false.
Proof.
  unfold newline, break, trim, printf, set_out. cbn [o_nl]. destruct (o_com (set_nl false st)) as [|c cs]; [reflexivity|]. cbn [set_coms o_nl].
  assert (G : forall l s, o_nl (fold_left (fun st c => put_comment c (printf (c_nl :: pad (o_margin (set_out (drop_spaces (o_out st)) st))) (set_out (drop_spaces (o_out st)) st))) l s) = o_nl s) by (induction l as [|x l IH]; intro s; [reflexivity|]; cbn [fold_left]; rewrite IH; reflexivity).
  unfold printf, set_out in G. rewrite G. reflexivity.
Qed.
Lemma before_nl l st : o_nl (print_before l (newlineIfNeeded st)) = false.
Proof.
  assert (N : o_nl (newlineIfNeeded st) = false) by (unfold newlineIfNeeded; destruct (o_nl st) eqn:E; [apply newline_nl|exact E]).
  destruct l as [|c l]; [exact N|]. cbn [print_before].
  assert (G : forall l s, o_nl s = false -> o_nl (fold_left (fun st c => newline (put_comment c st)) l s) = false) by (induction l0 as [|x k IH]; intros s E; [exact E|]; cbn [fold_left]; apply IH, newline_nl).
  apply G. destruct (0 <? indent (trim (newlineIfNeeded st))); exact N.
Qed.
Lemma node_ext_nl c f g : (forall st, o_nl st = false -> f st = g st) -> feq (node c f) (node c g).
Proof. intros H st. unfold node. now rewrite H by apply before_nl. Qed.
Lemma node_none f st : o_nl st = false -> node no_com f st = f st.
Proof.
  intro N. unfold node. cbn [c_before c_suffix no_com print_before]. unfold newlineIfNeeded. rewrite N, app_nil_r. unfold set_coms. now destruct (f st).
Qed.
Lemma paren_seq ft pr outer body x p en : pr <? outer = true -> com x = no_com -> start_pos x = p -> p_line en = p_line (end_pos x) ->
  (forall st, print_expr ft None x precLow st = node no_com body st) -> forall st, o_nl st = false ->
  addParen pr outer body st =
  seq ft ("(", ")")%char p [Print.Item (com x) (start_pos x) (end_pos x) (is_star x) (print_expr ft None x precLow)] (Some (End no_com en)) modeParen false false st.
Proof.
  intros P C SP EN H st N. unfold addParen, seq. rewrite P. cbn [mode_eqb fst snd List.length Nat.eqb andb].
  match goal with |- context [useCompactMode ft ?n p ?l ?e ?m ?a ?b] => replace (useCompactMode ft n p l e m a b) with true end.
  - cbn [seq_compact it_print]. rewrite H, node_none by exact N. reflexivity.
  - symmetry. unfold useCompactMode. rewrite C. cbn [existsb it_com no_com c_before c_suffix nonempty orb andb e_com mode_eqb negb].
    destruct (_ && _); [|reflexivity]. cbn [same_lines it_start it_end]. rewrite SP.
    assert (D : isDifferentLines p p = false) by (unfold isDifferentLines; rewrite Z.eqb_refl; now destruct (_ || _)). rewrite D.
    match goal with |- (if ?b then _ else _) = true => assert (D2 : b = false) end; [|rewrite D2; destruct (_ && _); reflexivity].
    cbn [e_pos]. unfold isDifferentLines. destruct (Z.eqb (p_line (end_pos x)) 0) eqn:E0; rewrite EN; [rewrite E0, orb_true_r; reflexivity|rewrite E0, Z.eqb_refl; reflexivity].
Qed.
Section Same.
Variable ft : ftype.
Definition same_print (e : expr) : Prop :=
  (forall n, n <= precSuffix -> feq (print_expr ft None e n) (print_expr ft None (grp n e) n)) /\
  (forall b n, feq (print_expr ft (Some b) e n) (print_expr ft (Some b) (group e) n)).
Lemma same_low e : same_print e -> feq (print_expr ft None e precLow) (print_expr ft None (group e) precLow).
Proof. intros [H _]. specialize (H precLow). unfold precLow in H. assert (E : grp 0 e = group e) by (unfold wrap; now destruct (prec e)). rewrite E in H. apply H, Nat.le_0_l. Qed.
Definition it (x : expr) : item := Print.Item (com x) (start_pos x) (end_pos x) (is_star x) (print_expr ft None x precLow).
Lemma items_group l : (forall x, In x l -> same_print x) -> Forall2 item_eq (map it l) (map it (map group l)).
Proof.
  induction l as [|x l IH]; intro H; cbn [map]; constructor; [|apply IH; intros; apply H; now right].
  repeat match goal with |- _ /\ _ => split | |- item_eq _ _ => unfold item_eq end; cbn [it it_com it_start it_end it_star it_print].
  - now rewrite com_group.
  - now rewrite start_group.
  - symmetry. apply endl_group.
  - now destruct x.
  - apply same_low, H. now left.
Qed.
Definition stm (x : expr) : expr * (pst -> pst) := (x, print_expr ft None x precLow).
Lemma stms_group l : (forall x, In x l -> same_print x) -> Forall2 stm_eq (map stm l) (map stm (map group l)).
Proof.
  induction l as [|x l IH]; intro H; cbn [map]; constructor; [|apply IH; intros; apply H; now right].
  split; [reflexivity|]. apply same_low, H. now left.
Qed.
Lemma lows_group l : (forall x, In x l -> same_print x) -> Forall2 feq (map (fun x => print_expr ft None x precLow) l) (map (fun x => print_expr ft None x precLow) (map group l)).
Proof.
  induction l as [|x l IH]; intro H; cbn [map]; constructor; [|apply IH; intros; apply H; now right]. apply same_low, H. now left.
Qed.
Lemma body_group e ch n : (forall x, In x (subs (fun y => y) e) -> same_print x) -> feq (print_expr ft ch e n) (print_expr ft ch (group e) n).
Proof.
  intro IH. intro st. rewrite !print_unfold.
  assert (W : forall m x st, In x (subs (fun y => y) e) -> m <= precSuffix -> print_expr ft None x m st = print_expr ft None (grp m x) m st) by (intros m x st' I L; apply (proj1 (IH x I)), L).
  assert (Lw : forall x st, In x (subs (fun y => y) e) -> print_expr ft None x precLow st = print_expr ft None (group x) precLow st) by (intros x st' I; apply same_low, IH, I).
  assert (IT : forall l, (forall x, In x l -> In x (subs (fun y => y) e)) -> Forall2 item_eq (map it l) (map it (map group l))) by (intros l H; apply items_group; auto).
  assert (ST : forall l, (forall x, In x l -> In x (subs (fun y => y) e)) -> Forall2 stm_eq (map stm l) (map stm (map group l))) by (intros l H; apply stms_group; auto).
  assert (LO : forall l, (forall x, In x l -> In x (subs (fun y => y) e)) -> Forall2 feq (map (fun x => print_expr ft None x precLow) l) (map (fun x => print_expr ft None x precLow) (map group l))) by (intros l H; apply lows_group; auto).
  assert (NC : forall f g, feq f g -> match ch, e with Some _, EIf _ _ _ _ _ _ => f st | _, _ => node (com e) f st end = match ch, group e with Some _, EIf _ _ _ _ _ _ => g st | _, _ => node (com (group e)) g st end).
  { intros f g H. rewrite com_group. destruct ch; [|apply node_ext, H]. destruct e; try (apply node_ext, H). apply H. }
  unfold print_body. cbv zeta. apply NC. clear NC st. intro st.
  change (fun x : expr => Print.Item (com x) (start_pos x) (end_pos x) (is_star x) (print_expr ft None x precLow)) with it.
  change (fun x : expr => (x, print_expr ft None x precLow)) with stm.
  destruct e; cbn [group]; cbn [subs] in IH, W, Lw, IT, ST, LO; rewrite ?map_id in IH; rewrite ?map_id in W; rewrite ?map_id in Lw; rewrite ?map_id in IT; rewrite ?map_id in ST; rewrite ?map_id in LO; try reflexivity.
  all: try (apply seq_ext, IT; auto; fail).
  all: try (apply paren_ext; clear st; intro st).
  all: repeat match goal with
       | |- context [print_expr ft None ?x precLow _] => is_var x; rewrite (Lw x) by (cbn; auto)
       | |- context [print_expr ft None ?x ?m _] => is_var x; rewrite (W m x) by (cbn; auto; unfold precSuffix, precAssign, precIfElse; lia)
       end; try reflexivity.
  - apply respell_prints.
  - rewrite <- (isBazelDep_group (ECall _ _ _ _ _ _ _)), <- (isUse_group (ECall _ _ _ _ _ _ _)), <- (start_group (ECall _ _ _ _ _ _ _)).
    pose proof (endl_group (ECall c e lstart args e0 compact multi)) as E. unfold endl in E. rewrite <- E. cbn [group]. apply seq_ext, IT. intros; now right.
  - rewrite (different_lines npos (end_pos e) npos (end_pos (grp precSuffix e)) eq_refl (eq_sym (endl_grp _ _))). reflexivity.
  - apply listFor_ext; [intro s0; apply Lw; now left|apply LO; intros; now right].
  - destruct x as [y|]; [|reflexivity]. cbn [option_map]. apply W; [now left|constructor].
  - rewrite (W (opPrec op) e1), (W (S (opPrec op)) e2); [reflexivity|cbn; auto|pose proof (opPrec_max op); unfold precSuffix, precMultiply in *; lia|cbn; auto|pose proof (opPrec_max op); unfold precSuffix, precMultiply in *; lia].
  - apply (seq_ext _ _ _ (map it [e]) (map it (map group [e]))). apply IT. intros x []; [subst|contradiction]; now left.
  - assert (Q : forall o s1 s2, (forall x, o = Some x -> In x (e :: opt_list (fun y => y) from ++ opt_list (fun y => y) to ++ opt_list (fun y => y) step)) -> s1 = s2 ->
      match o with Some y => print_expr ft None y precLow s1 | None => s1 end = match option_map group o with Some y => print_expr ft None y precLow s2 | None => s2 end).
    { intros [y|] s1 s2 I0 ->; [|reflexivity]. cbn [option_map]. apply Lw. auto. }
    assert (I1 : forall x, from = Some x -> In x (e :: opt_list (fun y => y) from ++ opt_list (fun y => y) to ++ opt_list (fun y => y) step)) by (intros x ->; cbn; auto).
    assert (I2 : forall x, to = Some x -> In x (e :: opt_list (fun y => y) from ++ opt_list (fun y => y) to ++ opt_list (fun y => y) step)) by (intros x ->; cbn; rewrite in_app_iff; cbn; auto).
    assert (I3 : forall x, step = Some x -> In x (e :: opt_list (fun y => y) from ++ opt_list (fun y => y) to ++ opt_list (fun y => y) step)) by (intros x ->; cbn; rewrite !in_app_iff; cbn; auto).
    f_equal. destruct (Z.eqb (p_byte c2) 0).
    + apply Q; [exact I2|]. f_equal. apply Q; [exact I1|reflexivity].
    + apply Q; [exact I3|]. f_equal. apply Q; [exact I2|]. f_equal. apply Q; [exact I1|reflexivity].
  - rewrite (lambda_ext _ _ (LO params (fun x I0 => in_or_app _ _ _ (or_introl I0)))). destruct body as [|y body]; [reflexivity|]. cbn [map]. apply Lw. rewrite in_app_iff. cbn. auto.
  - apply seq_ext. constructor; [|].
    + unfold item_eq. cbn [it_com it_start it_end it_star it_print respell s_com s_start s_end]. repeat match goal with |- _ /\ _ => split end; auto. apply node_ext. intro s0. apply respell_prints.
    + clear. revert to. induction from as [|f from IH]; intros [|t to]; cbn [load_items]; constructor; auto. unfold item_eq. repeat match goal with |- _ /\ _ => split end; auto. intro; reflexivity.
  - rewrite (nested_ext ft _ _ (ST body (fun x I0 => in_or_app _ _ _ (or_intror (in_or_app _ _ _ (or_introl I0)))))). f_equal. f_equal.
    rewrite (seq_ext _ _ _ _ _ _ _ _ _ (IT params (fun x I0 => in_or_app _ _ _ (or_introl I0)))). destruct ty as [t|]; [|reflexivity]. cbn [option_map]. apply Lw. rewrite !in_app_iff. cbn. auto.
  - destruct x as [y|]; [|reflexivity]. cbn [option_map]. apply Lw. now left.
  - apply nested_ext, ST. intros. now do 2 right.
  - assert (NT : feq (nestedStatements ft (map stm tru)) (nestedStatements ft (map stm (map group tru)))) by (apply nested_ext, ST; intros; right; apply in_or_app; auto).
    assert (NF : feq (nestedStatements ft (map stm fls)) (nestedStatements ft (map stm (map group fls)))) by (apply nested_ext, ST; intros; right; apply in_or_app; auto).
    assert (NE : p_line (last (map end_pos tru) no_pos) = p_line (last (map end_pos (map group tru)) no_pos)) by (symmetry; apply last_group; intros; apply endl_group).
    rewrite NT, NE. assert (PA : forall s0 : pst, match tru with [] => panic s0 | _ :: _ => s0 end = match map group tru with [] => panic s0 | _ :: _ => s0 end) by (intro s0; now destruct tru).
    rewrite PA. match goal with |- context [nestedStatements ft (map (stm) (map group tru)) ?s] => generalize (nestedStatements ft (map stm (map group tru)) s); intro s1 end.
    destruct fls as [|y [|y2 fls]]; [reflexivity| |].
    + cbn [nonempty]. rewrite NF. cbn [map]. destruct y; try reflexivity. cbn [group].
      destruct (nonempty (c_suffix (e_com elsep)) || nonempty (c_before c0)); [reflexivity|].
      assert (I0 : In (EIf c0 p0 y tru0 elsep0 fls) (e :: tru ++ [EIf c0 p0 y tru0 elsep0 fls])) by (right; apply in_or_app; right; now left). apply (proj2 (IH _ I0)).
    + cbn [nonempty]. rewrite NF. cbn [map]. destruct y; reflexivity.
Qed.
Theorem same_printed e : same_print e.
Proof.
  induction e as [e IH] using expr_ind_subs. split; [|intros b n; now apply body_group]. intros n L. unfold wrap. destruct (prec e <? n) eqn:P; [|now apply body_group].
  intro st. rewrite (body_group e None n IH). rewrite !print_unfold.
  assert (Q : forall x body, set_com no_com (group e) = x -> print_body (print_expr ft) ft None (group e) n st = node (com e) (addParen (prec e) n body) st ->
    (forall s, print_expr ft None x precLow s = node no_com body s) ->
    print_body (print_expr ft) ft None (group e) n st = print_body (print_expr ft) ft None (EParen (com e) (start_pos e) x (End no_com (end_pos e)) false) n st).
  { intros x body <- E1 E2. rewrite E1. unfold print_body. cbn [com]. apply node_ext_nl. intros s N. apply paren_seq; auto.
    - now destruct e.
    - now rewrite start_set, start_group.
    - rewrite end_set. symmetry. apply endl_group. }
  destruct e; cbn [prec] in *; try (exfalso; apply Nat.ltb_lt in P; unfold precSuffix in *; lia).
  all: eapply Q; [reflexivity|reflexivity|]; intro s; rewrite print_unfold; cbn [group set_com com]; unfold print_body; cbn [com]; cbv zeta.
  all: apply node_ext; intro s2; unfold addParen at 1, precLow.
  all: match goal with |- (if ?b then _ else _) = _ => replace b with false by (symmetry; apply Nat.ltb_ge, Nat.le_0_l) end; reflexivity.
Qed.
End Same.
Lemma printed_group ft c l st : print_file ft c (map (option_map group) l) st = print_file ft c l st.
Proof.
  unfold print_file. match goal with |- context [map ?f (flat_map ?g (map (option_map group) l))] => set (h := f); set (k := g) end.
  assert (E : flat_map k (map (option_map group) l) = map group (flat_map k l)) by (induction l as [|[x|] l IH]; cbn; [reflexivity|now rewrite <- IH|exact IH]).
  rewrite E. pose proof (statements_ext ft _ _ (stms_group ft (flat_map k l) (fun x _ => same_printed ft x))) as S0.
  change (map (stm ft)) with (map h) in S0. now rewrite S0.
Qed.
