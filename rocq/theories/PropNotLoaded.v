(** C87: functions and symbols that have to be loaded. *)
From Verif Require Import LRTables LRCert Parse PropComplete.
From Verif Require Import Base BaseProofs Order Ast ParseFile Walk WalkSpec WalkProofs WalkGen PropWalk MacroLink LoadsSpec EditFileSpec EditFile PropEditFile PropEditLoad PropDictSort Print PropPrint AttrParams PropAttr Scope ScopeSpec ScopeProofs NotLoaded.
Local Open Scope list_scope.

(** ** What is asked for *)
(** A name that an assignment target (a name, a tuple or a list of targets) gives a value. *)
Inductive assigns (n : bytes) : expr -> Prop :=
  | as_name i : i_name i = n -> assigns n (EIdent i)
  | as_tuple c np p l e k m x : In x l -> assigns n x -> assigns n (ETuple c np p l e k m)
  | as_list c p l e m x : In x l -> assigns n x -> assigns n (EList c p l e m).
(** ... that a statement of a function body, other than a nested function, makes a local variable *)
Inductive makes_local (n : bytes) : expr -> Prop :=
  | ml_assign c x p o b y : assigns n x -> makes_local n (EAssign c x p o b y)
  | ml_loop c p v x b : assigns n v -> makes_local n (EFor c p v x b)
  | ml_for c p v x b s : In s b -> makes_local n s -> makes_local n (EFor c p v x b)
  | ml_then c p x t e l s : In s t -> makes_local n s -> makes_local n (EIf c p x t e l)
  | ml_else c p x t e l s : In s l -> makes_local n s -> makes_local n (EIf c p x t e l).
(** The file, a function or a comprehension gives the name a meaning for what is inside it. *)
Inductive binds (n : bytes) : expr -> Prop :=
  | bi_load c m l c' p ms fr to e k i : In (Some (ELoad c' p ms fr to e k)) l -> In i to -> i_name i = n -> binds n (EFile c m l)
  | bi_global c m l c' x p o b y : In (Some (EAssign c' x p o b y)) l -> assigns n x -> binds n (EFile c m l)
  | bi_function c m l c' p ps b q k mu t : In (Some (EDef c' p ps b n q k mu t)) l -> binds n (EFile c m l)
  | bi_param c p ps b f q k m t x : In x ps -> In n (param_name x) -> binds n (EDef c p ps b f q k m t)
  | bi_local c p ps b f q k m t s : In s b -> makes_local n s -> binds n (EDef c p ps b f q k m t)
  | bi_comp c cu p b cl m e c' q v r x : In (EForC c' q v r x) cl -> assigns n v -> binds n (EComp c cu p b cl m e).
Definition calls_native (g : bytes) (e : expr) : Prop := exists c c' i p q ls args en k m, e = ECall c (EDot c' (EIdent i) p q g) ls args en k m /\ i_name i = %"native".
Definition calls_name (g : bytes) (e : expr) : Prop := exists c i ls args en k m, e = ECall c (EIdent i) ls args en k m /\ i_name i = g.
Definition is_name (g : bytes) (e : expr) : Prop := exists i, e = EIdent i /\ i_name i = g.
(** native.g(...), or g(...) or g where g has no meaning in the file *)
Definition has_no_meaning (f : expr) (path : list nat) (g : bytes) : Prop := forall a, In a (above children f path) -> ~ binds g a.
Definition must_load (functions symbols : list bytes) (f : expr) (path : list nat) (e : expr) (g : bytes) : Prop :=
  node_at children f path = Some e /\
  ((calls_native g e /\ In g functions) \/ (calls_name g e /\ In g functions /\ has_no_meaning f path g) \/ (is_name g e /\ In g symbols /\ has_no_meaning f path g)).
(** native.g(args) becomes g(args) *)
Definition unqualified (g : bytes) (e e' : expr) : Prop := exists c c' i p q ls args en k m, e = ECall c (EDot c' (EIdent i) p q g) ls args en k m /\ e' = ECall c (EIdent (Ident no_com no_pos g)) ls args en k m.
Definition native_repaired (functions : list bytes) (kept : list expr -> Prop) (stk : list expr) (e e' : expr) : Prop :=
  (forall g, calls_native g e -> In g functions -> ~ kept stk -> unqualified g e e') /\
  ((forall g, calls_native g e -> ~ In g functions) \/ kept stk -> e' = e).

(** ** Proofs *)
Lemma lvalue_spec n e : In n (lvalue_names e) <-> assigns n e.
Proof.
  assert (L : forall l, Forall (fun e => In n (lvalue_names e) <-> assigns n e) l -> (In n (map i_name (flat_map CollectLValues l)) <-> exists x, In x l /\ assigns n x)).
  { intros l H. rewrite Forall_forall in H. rewrite in_map_iff. split.
    - intros (i & <- & I). apply in_flat_map in I as (x & Ix & I). exists x. split; auto. apply H; auto. unfold lvalue_names. apply in_map_iff. eauto.
    - intros (x & Ix & A). apply H in A; auto. unfold lvalue_names in A. apply in_map_iff in A as (i & E & I). exists i. split; auto. apply in_flat_map. eauto. }
  induction e as [e IH] using ScopeProofs.sub_ind. destruct e; try (split; [intros []|intro H; inversion H; fail]).
  - cbn. split; [intros [<-|[]]; constructor; auto|intro H; inversion H; auto].
  - unfold lvalue_names. cbn [CollectLValues]. rewrite L; [|apply Forall_forall; intros; apply IH; constructor; auto].
    split; [intros (x & I & A); econstructor; eauto|intro H; inversion H; eauto].
  - unfold lvalue_names. cbn [CollectLValues]. rewrite L; [|apply Forall_forall; intros; apply IH; constructor; auto].
    split; [intros (x & I & A); econstructor; eauto|intro H; inversion H; eauto].
Qed.
Lemma local_spec n s : In n (declareLocalVariables s) <-> makes_local n s.
Proof.
  induction s as [e IH] using ScopeProofs.sub_ind. destruct e; try (split; [intros []|intro H; inversion H; fail]).
  - cbn [declareLocalVariables]. rewrite lvalue_spec. split; [constructor; auto|intro H; inversion H; auto].
  - cbn [declareLocalVariables]. rewrite in_app_iff, lvalue_spec, in_flat_map. split.
    + intros [A|(x & I & A)]; [constructor; auto|]. apply IH in A; [|constructor; auto]. eapply ml_for; eauto.
    + intro H; inversion H; subst; auto. right. exists s. split; auto. apply IH; auto. constructor; auto.
  - cbn [declareLocalVariables]. rewrite in_app_iff, !in_flat_map. split.
    + intros [(x & I & A)|(x & I & A)]; (apply IH in A; [|first [apply sub_true; assumption|apply sub_false; assumption]]); [eapply ml_then; eauto|eapply ml_else; eauto].
    + intro H; inversion H; subst; [left|right]; exists s; (split; auto); apply IH; auto; first [apply sub_true; assumption|apply sub_false; assumption].
Qed.
Lemma param_spec n ps : In n (param_names ps) <-> exists p, In p ps /\ In n (param_name p).
Proof.
  assert (Q : forall p, opt_list i_name (GetParamIdent p) = param_name p).
  { induction p as [e IH] using ScopeProofs.sub_ind. destruct e; try reflexivity; cbn [GetParamIdent param_name].
    - destruct x as [x|]; [|reflexivity]. apply IH. constructor.
    - apply IH. constructor. }
  unfold param_names. rewrite in_flat_map. split; intros (p & I & H); exists p; (split; [auto|]); rewrite Q in *; auto.
Qed.
Lemma declared_spec n e : In n (declared e) <-> binds n e.
Proof.
  destruct e; try (split; [intros []|intro H; inversion H; fail]); cbn [declared].
  - rewrite in_flat_map. split.
    + intros (s & I & H). destruct s as [[]|]; cbn [declareGlobals] in H; try contradiction.
      * apply lvalue_spec in H. eapply bi_global; eauto.
      * apply in_map_iff in H as (i & E & J). eapply bi_load; eauto.
      * destruct H as [<-|[]]. eapply bi_function; eauto.
    + intro H; inversion H; subst; (eexists; split; [eassumption|]); cbn [declareGlobals].
      * apply in_map; auto.
      * apply lvalue_spec; auto.
      * left; auto.
  - rewrite in_flat_map. split.
    + intros (s & I & H). destruct s; try contradiction. apply lvalue_spec in H. eapply bi_comp; eauto.
    + intro H; inversion H; subst; (eexists; split; [eassumption|]). apply lvalue_spec; auto.
  - rewrite in_app_iff, param_spec, in_flat_map. split.
    + intros [(s & I & H)|(s & I & H)]; [eapply bi_param; eauto|apply local_spec in H; eapply bi_local; eauto].
    + intro H; inversion H; subst; [left; eauto|right]. exists s. split; auto. apply local_spec; auto.
Qed.
Lemma bound_spec stk n : bound_in stk n = true <-> exists a, In a stk /\ binds n a.
Proof.
  unfold bound_in. rewrite existsb_exists. split; intros (a & I & H); exists a; (split; auto).
  - apply mem_bytes_In in H. apply declared_spec; auto.
  - apply mem_bytes_In. apply declared_spec; auto.
Qed.
Lemma unbound_spec stk n : bound_in stk n = false <-> forall a, In a stk -> ~ binds n a.
Proof.
  destruct (bound_in stk n) eqn:E.
  - apply bound_spec in E as (a & I & B). split; [discriminate|]. intro H. elim (H a I B).
  - split; auto. intros _ a I B. assert (X : bound_in stk n = true) by (apply bound_spec; eauto). congruence.
Qed.
Lemma native_spec functions e g : native_call functions e = Some g <-> calls_native g e /\ In g functions.
Proof.
  split.
  - destruct e; try discriminate. destruct e; try discriminate. destruct e; try discriminate. cbn [native_call].
    destruct (beq (i_name i) %"native") eqn:B; [|discriminate]. destruct (mem_bytes name functions) eqn:M; [|discriminate]. cbn [andb]. intros [= <-].
    apply beq_eq in B. apply mem_bytes_In in M. split; auto. unfold calls_native. eauto 13.
  - intros [(c & c' & i & p & q & ls & args & en & k & m & -> & E) M]. cbn [native_call]. rewrite E. apply mem_bytes_In in M. rewrite M. reflexivity.
Qed.
Lemma plain_spec functions stk e g : plain_call functions stk e = Some g <-> calls_name g e /\ In g functions /\ forall a, In a stk -> ~ binds g a.
Proof.
  rewrite <- unbound_spec. split.
  - destruct e; try discriminate. destruct e; try discriminate. cbn [plain_call]. destruct (bound_in stk (i_name i)) eqn:B; [discriminate|]. destruct (mem_bytes (i_name i) functions) eqn:M; [|discriminate].
    cbn [negb andb]. intros [= <-]. apply mem_bytes_In in M. split; auto. unfold calls_name. eauto 9.
  - intros [(c & i & ls & args & en & k & m & -> & E) [M B]]. cbn [plain_call]. rewrite E, B. apply mem_bytes_In in M. rewrite M. reflexivity.
Qed.
Lemma symbol_spec symbols stk e g : symbol_use symbols stk e = Some g <-> is_name g e /\ In g symbols /\ forall a, In a stk -> ~ binds g a.
Proof.
  rewrite <- unbound_spec. split.
  - destruct e; try discriminate. cbn [symbol_use]. destruct (bound_in stk (i_name i)) eqn:B; [discriminate|]. destruct (mem_bytes (i_name i) symbols) eqn:M; [|discriminate].
    cbn [negb andb]. intros [= <-]. apply mem_bytes_In in M. split; auto. exists i. auto.
  - intros [(i & -> & E) [M B]]. cbn [symbol_use]. rewrite E, B. apply mem_bytes_In in M. rewrite M. reflexivity.
Qed.
Lemma opt_list_in {A} (x : A) o : In x (opt_list id o) <-> o = Some x.
Proof. destruct o; cbn; unfold id; split; intro H; auto; [destruct H as [-> |[]]; auto|injection H; auto|contradiction|discriminate]. Qed.
Lemma use_spec functions symbols e stk e' g : In (e', g) (use_found functions symbols (e, stk)) <->
  e' = e /\ ((calls_native g e /\ In g functions) \/ (calls_name g e /\ In g functions /\ forall a, In a stk -> ~ binds g a) \/ (is_name g e /\ In g symbols /\ forall a, In a stk -> ~ binds g a)).
Proof.
  unfold use_found. rewrite in_map_iff. split.
  - intros (x & [= <- <-] & I). rewrite !in_app_iff, !opt_list_in, native_spec, plain_spec, symbol_spec in I. auto.
  - intros [-> H]. exists g. split; auto. rewrite !in_app_iff, !opt_list_in, native_spec, plain_spec, symbol_spec. auto.
Qed.
(** What is reported. *)
Theorem C87_findings : forall functions symbols f e g,
  In (e, g) (notLoadedFindings functions symbols f) <-> exists path, must_load functions symbols f path e g.
Proof.
  intros functions symbols f e g. unfold notLoadedFindings, must_load, has_no_meaning. rewrite in_flat_map. split.
  - intros ((x & stk) & W & U). apply walk_in in W as (path & N & A). apply use_spec in U as [-> U]. subst stk. eauto.
  - intros (path & N & U). exists (e, above children f path). split; [apply walk_in; eauto|]. apply use_spec. auto.
Qed.
(** ** Edits of calls *)
Definition is_call (e : expr) : bool := match e with ECall _ _ _ _ _ _ _ => true | _ => false end.
Section Calls.
  Context (cb : list expr -> expr -> expr) (Hh : forall stk e, height (cb stk e) <= height e)
    (Hn : forall stk e, is_call e = false -> cb stk e = e) (Hc : forall stk e, is_call e = true -> is_call (cb stk e) = true).
  Lemma call_kind : cb_kind cb.
  Proof. apply not_call_kind. intros stk e H. apply Hn. destruct e; auto. elim (H c e lstart args e0 compact multi eq_refl). Qed.
  Lemma edit_call stk e : is_call (Edit_from cb stk e) = is_call e.
  Proof.
    rewrite Edit_from_unfold by auto. destruct (is_call e) eqn:E.
    - apply (Hc stk) in E. destruct (cb stk e); auto; discriminate E.
    - rewrite Hn by auto. destruct e; auto.
  Qed.
  Lemma edit_other stk e : is_call e = false -> Edit_from cb stk e = map_children (Edit_from cb (stk ++ [e])) e.
  Proof. intro H. rewrite Edit_from_unfold by auto. rewrite Hn by auto. reflexivity. Qed.
  Lemma edit_leaf stk e : children e = [] -> is_call e = false -> Edit_from cb stk e = e.
  Proof. intros H H'. rewrite edit_other by auto. apply map_children_id_in. rewrite H. contradiction. Qed.
  Lemma edit_ident stk i : Edit_from cb stk (EIdent i) = EIdent i.
  Proof. apply edit_leaf; reflexivity. Qed.
  Lemma edit_load stk c p m fr to r k : Edit_from cb stk (ELoad c p m fr to r k) = ELoad c p m fr to r k.
  Proof.
    rewrite edit_other by reflexivity. apply map_children_id_in. intros x H. apply edit_leaf; unfold children, fold_children in H; cbn [fold_children2] in H.
    - destruct H as [<-|H]; auto. revert to H. induction fr as [|a fr IH]; intros [|b to] H; cbn in H; try contradiction. destruct H as [<-|[<-|H]]; auto. eapply IH; eauto.
    - destruct H as [<-|H]; auto. revert to H. induction fr as [|a fr IH]; intros [|b to] H; cbn in H; try contradiction. destruct H as [<-|[<-|H]]; auto. eapply IH; eauto.
  Qed.
  Lemma edit_lvalues e : forall stk, CollectLValues (Edit_from cb stk e) = CollectLValues e.
  Proof.
    assert (L : forall l, Forall (fun e => forall stk, CollectLValues (Edit_from cb stk e) = CollectLValues e) l -> forall stk, flat_map CollectLValues (map (Edit_from cb stk) l) = flat_map CollectLValues l).
    { intros l F stk. induction F; cbn; auto. rewrite H, IHF. reflexivity. }
    induction e as [e IH] using ScopeProofs.sub_ind. intro stk. destruct (is_call e) eqn:E; [pose proof (edit_call stk e) as X; rewrite E in X; destruct e; try discriminate E; destruct (Edit_from cb _ _); auto; discriminate X|].
    rewrite edit_other by auto. destruct e; try reflexivity; cbn [map_children CollectLValues]; apply L; apply Forall_forall; intros; apply IH; constructor; auto.
  Qed.
  Lemma edit_lvalue_names e stk : lvalue_names (Edit_from cb stk e) = lvalue_names e.
  Proof. unfold lvalue_names. rewrite edit_lvalues. reflexivity. Qed.
  Lemma edit_param e : forall stk, GetParamIdent (Edit_from cb stk e) = GetParamIdent e.
  Proof.
    induction e as [e IH] using ScopeProofs.sub_ind. intro stk. destruct (is_call e) eqn:E; [pose proof (edit_call stk e) as X; rewrite E in X; destruct e; try discriminate E; destruct (Edit_from cb _ _); auto; discriminate X|].
    rewrite edit_other by auto. destruct e; try reflexivity; cbn [map_children GetParamIdent option_map].
    - destruct x as [x|]; [|reflexivity]. apply IH. constructor.
    - apply IH. constructor.
  Qed.
  Lemma edit_locals e : forall stk, declareLocalVariables (Edit_from cb stk e) = declareLocalVariables e.
  Proof.
    assert (L : forall l, Forall (fun e => forall stk, declareLocalVariables (Edit_from cb stk e) = declareLocalVariables e) l -> forall stk, flat_map declareLocalVariables (map (Edit_from cb stk) l) = flat_map declareLocalVariables l).
    { intros l F stk. induction F; cbn; auto. rewrite H, IHF. reflexivity. }
    induction e as [e IH] using ScopeProofs.sub_ind. intro stk. destruct (is_call e) eqn:E; [pose proof (edit_call stk e) as X; rewrite E in X; destruct e; try discriminate E; destruct (Edit_from cb _ _); auto; discriminate X|].
    rewrite edit_other by auto. destruct e; try reflexivity; cbn [map_children declareLocalVariables]; rewrite ?edit_lvalue_names; auto.
    - rewrite L; auto. apply Forall_forall. intros. apply IH. apply sub_for_stmt_body; auto.
    - rewrite !L; auto; apply Forall_forall; intros; apply IH; [apply sub_false|apply sub_true]; auto.
  Qed.
  Lemma edit_globals s : forall stk, declareGlobals (option_map (Edit_from cb stk) s) = declareGlobals s.
  Proof.
    destruct s as [e|]; auto. intro stk. cbn [option_map]. destruct (is_call e) eqn:E; [pose proof (edit_call stk e) as X; rewrite E in X; destruct e; try discriminate E; destruct (Edit_from cb _ _); auto; discriminate X|].
    destruct e; try (rewrite edit_load; reflexivity); rewrite edit_other by auto; try reflexivity. cbn [map_children declareGlobals]. apply edit_lvalue_names.
  Qed.
  Lemma edit_declared e stk : declared (Edit_from cb stk e) = declared e.
  Proof.
    destruct (is_call e) eqn:E; [pose proof (edit_call stk e) as X; rewrite E in X; destruct e; try discriminate E; destruct (Edit_from cb _ _); auto; discriminate X|].
    rewrite edit_other by auto.
    assert (G : forall s l, flat_map declareGlobals (map (option_map (Edit_from cb s)) l) = flat_map declareGlobals l) by (intros s l; induction l as [|x l IH]; auto; cbn [map flat_map]; rewrite edit_globals, IH; auto).
    assert (Lo : forall s l, flat_map declareLocalVariables (map (Edit_from cb s) l) = flat_map declareLocalVariables l) by (intros s l; induction l as [|x l IH]; auto; cbn [map flat_map]; rewrite edit_locals, IH; auto).
    assert (P : forall s l, param_names (map (Edit_from cb s) l) = param_names l) by (intros s l; unfold param_names; induction l as [|x l IH]; auto; cbn [map flat_map]; rewrite edit_param, IH; auto).
    destruct e; try reflexivity; cbn [map_children declared]; rewrite ?G, ?P, ?Lo; auto.
    rewrite !flat_map_concat_map, map_map. f_equal. apply map_ext. intro x. destruct (is_call x) eqn:Ex; [pose proof (edit_call (stk ++ [EComp c curly lb e clauses multi e0]) x) as X; rewrite Ex in X; destruct x; try discriminate Ex; destruct (Edit_from cb _ _); auto; discriminate X|].
    destruct x; try (rewrite edit_load; reflexivity); rewrite edit_other by auto; try reflexivity. cbn [map_children]. apply edit_lvalue_names.
  Qed.
End Calls.
Notation nostop := (fun _ _ => false).
Lemma native_call_shape functions e g : native_call functions e = Some g -> exists c c' i p q ls args en k m, e = ECall c (EDot c' (EIdent i) p q g) ls args en k m.
Proof. intro H. apply native_spec in H as [(c & c' & i & p & q & ls & args & en & k & m & -> & _) _]. eauto 12. Qed.
Lemma native_fix_cases functions lost stk e :
  (native_fix functions lost stk e = e /\ (native_call functions e = None \/ (lost = true /\ List.length stk = 1))) \/
  (exists g c x p l en k m, native_call functions e = Some g /\ (lost = true -> List.length stk <> 1) /\ e = ECall c x p l en k m /\ native_fix functions lost stk e = ECall c (EIdent (new_ident g)) p l en k m).
Proof.
  unfold native_fix. destruct (native_call functions e) as [g|] eqn:E; [|left; split; auto; destruct e; auto; rewrite E; auto].
  destruct (native_call_shape _ _ _ E) as (c & c' & i & p & q & ls & args & en & k & m & ->). rewrite E. destruct lost; cbn [andb].
  - destruct (Nat.eqb_spec (List.length stk) 1); [left; auto|]. right. exists g. eauto 13.
  - right. exists g. do 7 eexists. split; auto. split; [discriminate|]. eauto.
Qed.
Section Native.
  Context (functions : list bytes) (lost : bool).
  Notation cb := (native_fix functions lost).
  Lemma native_height stk e : height (cb stk e) <= height e.
  Proof.
    destruct (native_fix_cases functions lost stk e) as [[-> _]|(g & c & x & p & l & en & k & m & E & _ & -> & ->)]; auto.
    rewrite !height_call. assert (height (EIdent (new_ident g)) <= height x) by (rewrite (height_unfold x); cbn; lia). lia.
  Qed.
  Lemma native_other stk e : is_call e = false -> cb stk e = e.
  Proof. destruct (native_fix_cases functions lost stk e) as [[-> _]|(g & c & x & p & l & en & k & m & E & _ & -> & ->)]; auto. discriminate. Qed.
  Lemma native_is_call stk e : is_call e = true -> is_call (cb stk e) = true.
  Proof. destruct (native_fix_cases functions lost stk e) as [[-> _]|(g & c & x & p & l & en & k & m & E & _ & -> & ->)]; auto. Qed.
  Hint Resolve native_height native_other native_is_call : core.
  Context (extra : bytes -> bool).
  Definition related (s1 s0 : list expr) : Prop := forall nm, bound_in s1 nm = bound_in s0 nm || extra nm.
  Lemma related_app s1 s0 a1 a0 : related s1 s0 -> declared a1 = declared a0 -> related (s1 ++ [a1]) (s0 ++ [a0]).
  Proof. intros R D nm. unfold bound_in. rewrite !existsb_app. cbn [existsb]. rewrite D. specialize (R nm). unfold bound_in in R. rewrite R. destruct (existsb _ s0), (extra nm), (mem_bytes nm (declared a0)); auto. Qed.
  Lemma visited n : forall e, height e <= n -> forall s0 s1 s2, related s1 s0 -> List.length s2 = List.length s0 ->
    forall x' stk', In (x', stk') (visit nostop s1 (Edit_from cb s2 e)) ->
      (exists x stk s, In (x, stk) (visit nostop s0 e) /\ x' = Edit_from cb s x /\ List.length s = List.length stk /\ related stk' stk) \/
      (exists g x stk, In (x, stk) (visit nostop s0 e) /\ native_call functions x = Some g /\ x' = EIdent (new_ident g) /\ related stk' (stk ++ [x])).
  Proof.
    induction n as [|n IH]; intros e He s0 s1 s2 R L x' stk' I; [rewrite height_unfold in He; lia|].
    rewrite visit_unfold in I. destruct I as [[= <- <-]|I].
    { left. exists e, s0, s2. split; auto. rewrite visit_unfold. left; auto. }
    rewrite Edit_children in I by auto using call_kind. apply in_flat_map in I as (y & Iy & I). apply in_map_iff in Iy as (y0 & <- & Iy).
    assert (R' : related (s1 ++ [Edit_from cb s2 e]) (s0 ++ [e])) by (apply related_app; auto; apply edit_declared; auto).
    assert (Old : In y0 (children e) -> (exists x stk s, In (x, stk) (visit nostop s0 e) /\ x' = Edit_from cb s x /\ List.length s = List.length stk /\ related stk' stk) \/
      (exists g x stk, In (x, stk) (visit nostop s0 e) /\ native_call functions x = Some g /\ x' = EIdent (new_ident g) /\ related stk' (stk ++ [x]))).
    { intro Ic. assert (Hy := height_child _ _ Ic). destruct (IH y0 ltac:(lia) (s0 ++ [e]) _ (s2 ++ [cb s2 e]) R' ltac:(rewrite !app_length; cbn; lia) _ _ I) as [(x & stk & s & J & K)|(g & x & stk & J & K)].
      - left. exists x, stk, s. split; auto. rewrite visit_unfold. right. apply in_flat_map. eauto.
      - right. exists g, x, stk. split; auto. rewrite visit_unfold. right. apply in_flat_map. eauto. }
    destruct (native_fix_cases functions lost s2 e) as [[Ec _]|(g & c & x & p & l & en & k & m & En & _ & Ee & Ec)].
    - rewrite Ec in Iy. auto.
    - rewrite Ec in Iy. unfold children, fold_children in Iy. cbn [fold_children2] in Iy. rewrite map_id in Iy. destruct Iy as [<-|Iy].
      + rewrite edit_ident in I by auto. cbn in I. destruct I as [[= <- <-]|[]]. right. exists g, e, s0. split; [rewrite visit_unfold; left; auto|]. auto.
      + apply Old. subst e. unfold children, fold_children. cbn [fold_children2]. rewrite map_id. right; auto.
  Qed.
  (** What an edited node is like *)
  Lemma edited_native stk e g : calls_native g (Edit_from cb stk e) -> In g functions -> native_call functions e = Some g /\ lost = true /\ List.length stk = 1.
  Proof.
    intros (c & c' & i & p & q & ls & args & en & k & m & E & Hi) M. rewrite Edit_from_unfold in E by auto.
    destruct (native_fix_cases functions lost stk e) as [[Ec H]|(g' & c1 & x & p1 & l & en1 & k1 & m1 & En & _ & Ee & Ec)]; rewrite Ec in E.
    - destruct e; try discriminate E. cbn [map_children] in E. injection E as E1 E2 E3 E4 E5 E6 E7.
      assert (X : e = EDot c' (EIdent i) p q g).
      { assert (Y : forall s x, Edit_from cb s x = EIdent i -> x = EIdent i) by (intros s x Hx; destruct (is_call x) eqn:Cx; [pose proof (edit_call cb native_height native_other native_is_call s x) as Z; rewrite Hx, Cx in Z; discriminate Z|]; rewrite edit_other in Hx by auto; destruct x; try discriminate Hx; auto).
        destruct (is_call e) eqn:Ce; [pose proof (edit_call cb native_height native_other native_is_call (stk ++ [ECall c0 e lstart args0 e0 compact multi]) e) as Z; rewrite E2, Ce in Z; discriminate Z|].
        rewrite edit_other in E2 by auto. destruct e; try discriminate E2. cbn [map_children] in E2. injection E2 as F1 F2 F3 F4 F5. apply Y in F2. subst. reflexivity. }
      subst e. assert (Some g = native_call functions (ECall c0 (EDot c' (EIdent i) p q g) lstart args0 e0 compact multi)) as N by (symmetry; apply native_spec; split; auto; unfold calls_native; eauto 13). rewrite <- N in *. destruct H as [H|H]; [discriminate H|]. tauto.
    - cbn [map_children] in E. rewrite edit_ident in E by auto. discriminate E.
  Qed.
  Lemma edited_name_call stk e g : calls_name g (Edit_from cb stk e) -> calls_name g e \/ native_call functions e = Some g.
  Proof.
    intros (c & i & ls & args & en & k & m & E & Hi). rewrite Edit_from_unfold in E by auto.
    destruct (native_fix_cases functions lost stk e) as [[Ec H]|(g' & c1 & x & p1 & l & en1 & k1 & m1 & En & _ & Ee & Ec)]; rewrite Ec in E.
    - destruct e; try discriminate E. cbn [map_children] in E. injection E as E1 E2 E3 E4 E5 E6 E7.
      assert (Y : forall s x, Edit_from cb s x = EIdent i -> x = EIdent i) by (intros s x Hx; destruct (is_call x) eqn:Cx; [pose proof (edit_call cb native_height native_other native_is_call s x) as Z; rewrite Hx, Cx in Z; discriminate Z|]; rewrite edit_other in Hx by auto; destruct x; try discriminate Hx; auto).
      apply Y in E2. subst. left. unfold calls_name. eauto 9.
    - cbn [map_children] in E. rewrite edit_ident in E by auto. injection E as E1 E2 E3 E4 E5 E6 E7. subst i. cbn in Hi. subst g'. auto.
  Qed.
  Lemma edited_name stk e g : is_name g (Edit_from cb stk e) -> is_name g e.
  Proof.
    intros (i & E & Hi). destruct (is_call e) eqn:Ce; [pose proof (edit_call cb native_height native_other native_is_call stk e) as Z; rewrite E, Ce in Z; discriminate Z|].
    rewrite edit_other in E by auto. destruct e; try discriminate E. exists i0. cbn in E. injection E as <-. auto.
  Qed.
End Native.
Lemma toLoad_in fs g : In g (toLoad fs) <-> exists e, In (e, g) fs.
Proof.
  unfold toLoad. assert (P := isort_perm blt (nodup bytes_dec (map snd fs))). split.
  - intro H. apply (Permutation_in _ P) in H. apply nodup_In, in_map_iff in H as ([e h] & <- & H). eauto.
  - intros [e H]. apply (Permutation_in _ (Permutation_sym P)). apply nodup_In, in_map_iff. exists (e, g). auto.
Qed.
Lemma toLoad_sorted fs : StronglySorted (fun a b => blt a b = true) (toLoad fs).
Proof.
  assert (N : NoDup (toLoad fs)) by (unfold toLoad; eapply Permutation_NoDup; [apply Permutation_sym, isort_perm|apply NoDup_nodup]).
  pose proof (isort_swo_sorted blt (nodup bytes_dec (map snd fs)) swo_blt) as H. fold (toLoad fs) in H. induction H as [|x l H IH F]; constructor.
  - apply IH. inversion N; auto.
  - rewrite Forall_forall in *. intros y I. specialize (F y I). destruct (blt_total x y) as [B|B]; auto; [|congruence]. intros ->. inversion N; contradiction.
Qed.
Lemma sorted_nodup l : StronglySorted (fun a b => blt a b = true) l -> NoDup l.
Proof. induction 1 as [|x l H IH F]; constructor; auto. intro I. rewrite Forall_forall in F. specialize (F x I). rewrite blt_irrefl in F. discriminate. Qed.
Lemma edit_file functions lost c m l : Edit (native_fix functions lost) (EFile c m l) = EFile c m (map (option_map (Edit_from (native_fix functions lost) [EFile c m l])) l).
Proof. unfold Edit. rewrite Edit_from_unfold by apply native_height. rewrite native_other by reflexivity. reflexivity. Qed.
Definition stmts_repaired (R : list expr -> expr -> expr -> Prop) (f : expr) (l l' : list (option expr)) : Prop :=
  Forall2 (fun s s' => match s, s' with Some x, Some x' => walked R [f] x x' | None, None => True | _, _ => False end) l l'.
Lemma native_fix_spec functions lost (K : list expr -> Prop) stk e : (forall stk, K stk <-> lost = true /\ List.length stk = 1) -> native_repaired functions K stk e (native_fix functions lost stk e).
Proof.
  intro HK. specialize (HK stk). unfold native_repaired.
  destruct (native_fix_cases functions lost stk e) as [[-> H]|(g & c & x & p & l & en & k & m & E & L & -> & ->)]; split; auto.
  - intros g N M NK. assert (X : native_call functions e = Some g) by (apply native_spec; auto). destruct H as [H|H]; [congruence|]. elim NK. apply HK; auto.
  - intros g' N M _. assert (X : native_call functions (ECall c x p l en k m) = Some g') by (apply native_spec; auto). rewrite E in X. injection X as <-.
    destruct N as (c1 & c' & i & p1 & q & ls & args & en1 & k1 & m1 & Ee & _). injection Ee as <- -> <- <- <- <- <-. unfold unqualified. eauto 13.
  - intros [H|H]; [|apply HK in H as [H H']; elim (L H H')]. apply native_spec in E as [N M]. elim (H g N M).
Qed.
Lemma stmts_edited functions lost K f l : (forall stk, K stk <-> lost = true /\ List.length stk = 1) -> stmts_repaired (native_repaired functions K) f l (map (option_map (Edit_from (native_fix functions lost) [f])) l).
Proof.
  intro HK. induction l as [|[x|] l IH]; constructor; auto; cbn [option_map]; auto. apply Edit_walked; [apply native_height|apply call_kind; intros; apply native_other; auto|intros; apply native_fix_spec; auto].
Qed.
Definition doc_or_comment (s : option expr) : Prop := (exists c p, s = Some (ECommentBlock c p)) \/ exists v, s = Some (EStr v).
Lemma skips_spec s : load_place_skips s = true <-> doc_or_comment s.
Proof.
  unfold doc_or_comment. split.
  - destruct s as [[]|]; try discriminate; eauto.
  - intros [(c & p & ->)|(v & ->)]; reflexivity.
Qed.
Lemma nothing_found functions symbols c m l : (forall s, In s l -> doc_or_comment s) -> notLoadedFindings functions symbols (EFile c m l) = [].
Proof.
  intro H. destruct (notLoadedFindings functions symbols (EFile c m l)) as [|[e g] r] eqn:E; auto. exfalso.
  assert (I : In (e, g) (notLoadedFindings functions symbols (EFile c m l))) by (rewrite E; left; auto). unfold notLoadedFindings in I. apply in_flat_map in I as ((x & stk) & W & U). unfold Walk in W. rewrite visit_unfold in W. destruct W as [[= <- <-]|W].
  - cbn in U. contradiction.
  - apply in_flat_map in W as (y & Iy & W). apply in_flat_opt in Iy. apply H in Iy as [(c' & p & [= ->])|(v & [= ->])]; cbn in W; destruct W as [[= <- <-]|[]]; cbn in U; contradiction.
Qed.
Lemma edit_skipped functions lost f l : (forall s, In s l -> doc_or_comment s) -> map (option_map (Edit_from (native_fix functions lost) [f])) l = l.
Proof.
  intro H. induction l as [|s l IH]; auto. cbn [map]. rewrite IH by (intros; apply H; right; auto). f_equal.
  destruct (H s (or_introl eq_refl)) as [(c' & p & ->)|(v & ->)]; cbn [option_map]; f_equal; apply edit_leaf; auto; try apply native_height; apply native_other.
Qed.
Lemma skipn_len {A} (a b : list A) : skipn (List.length a) (a ++ b) = b.
Proof. induction a; auto. Qed.
Lemma firstn_len {A} (a b : list A) : firstn (List.length a) (a ++ b) = a.
Proof. induction a; cbn; f_equal; auto. Qed.
Notation edited functions lost f := (map (option_map (Edit_from (native_fix functions lost) [f]))).
Lemma fix_unfold ord functions symbols module c m l names : toLoad (notLoadedFindings functions symbols (EFile c m l)) = names -> names <> [] ->
  notLoadedFix ord functions symbols module (EFile c m l) =
    EFile c m match find_index (loads_from module) l with
              | Some i => firstn i (edited functions false (EFile c m l) l) ++ match skipn i (edited functions false (EFile c m l) l) with Some s :: r => Some (snd (AppendToLoad ord s names names)) :: r | r => r end
              | None => firstn (load_place l) (edited functions true (EFile c m l) l) ++ NewLoad module names names :: skipn (load_place l) (edited functions true (EFile c m l) l)
              end.
Proof. intros En Ne. unfold notLoadedFix. rewrite En. destruct names as [|a b]; [contradiction|]. destruct (find_index (loads_from module) l); rewrite edit_file; reflexivity. Qed.
(** The shape of the repaired file. *)
Lemma fix_shape ord functions symbols module c m l : a_map_order ord -> let f := EFile c m l in let names := toLoad (notLoadedFindings functions symbols f) in
  names <> [] ->
  (exists pre c1 p1 ms fr to r k post more,
     l = pre ++ Some (ELoad c1 p1 ms fr to r k) :: post /\ s_value ms = module /\ (forall s, In s pre -> ~ loads_module s module) /\
     NoDup more /\ (forall g, In g more <-> In g names /\ ~ In g (map i_name to)) /\
     notLoadedFix ord functions symbols module f =
       EFile c m (edited functions false f pre ++ Some (ELoad c1 p1 ms (fr ++ map new_ident more) (to ++ map new_ident more) r k) :: edited functions false f post)) \/
  ((forall s, In s l -> ~ loads_module s module) /\ exists pre s post, l = pre ++ s :: post /\ (forall s, In s pre -> doc_or_comment s) /\ ~ doc_or_comment s /\
     notLoadedFix ord functions symbols module f = EFile c m (pre ++ NewLoad module names names :: edited functions true f (s :: post))).
Proof.
  intros O f names Ne. assert (U : notLoadedFix ord functions symbols module f = notLoadedFix ord functions symbols module (EFile c m l)) by reflexivity. rewrite !U, (fix_unfold ord functions symbols module c m l names eq_refl Ne). fold f.
  assert (ND : NoDup names) by (apply sorted_nodup, toLoad_sorted).
  pose proof (find_index_spec (fun s => loads_module s module) (loads_from module) l) as F. destruct (find_index (loads_from module) l) as [i|]; specialize (F (fun s _ => loads_from_spec module s)).
  - left. destruct F as (pre & s & post & El & Ms & <- & F). destruct Ms as (c1 & p1 & ms & fr & to & r & k & -> & Em).
    assert (Ed : edited functions false f l = edited functions false f pre ++ edited functions false f (Some (ELoad c1 p1 ms fr to r k) :: post)) by (rewrite El at 1; apply map_app).
    rewrite Ed. cbn [map option_map].
    rewrite <- (map_length (option_map (Edit_from (native_fix functions false) [f])) pre). rewrite skipn_len, firstn_len.
    rewrite edit_load by (try apply native_height; apply native_other).
    set (rest := del_all to (symbols_to_load names names)).
    destruct (symbols_spec names names eq_refl) as (S1 & S2 & S3 & S4).
    assert (Eq : forall a b, In (a, b) (combine names names) -> a = b) by (clear; induction names as [|x nl IH]; cbn; [contradiction|]; intros a b [[= <- <-]|H]; auto).
    assert (Rk : forall kv, In kv rest -> snd kv = fst kv) by (intros [a b] I; unfold rest in I; apply del_all_in in I as [I _]; apply S3, Eq in I; auto).
    exists pre, c1, p1, ms, fr, to, r, k, post, (map fst (ord rest)). split; auto. split; auto. split; [intros x Ix; revert x Ix; apply Forall_forall; auto|].
    assert (P : Permutation (ord rest) rest) by apply O. split; [|split].
    + eapply Permutation_NoDup; [apply Permutation_map, Permutation_sym, P|]. apply (del_all_nodup to _ S1).
    + intro g. rewrite <- (S2 g). unfold keys. rewrite !in_map_iff. split.
      * intros (kv & <- & I). apply (Permutation_in _ P) in I. unfold rest in I. apply del_all_in in I as [I N]. split; [eauto|]. intros J. apply N. apply in_map_iff. auto.
      * intros [(kv & <- & I) N]. exists kv. split; auto. apply (Permutation_in _ (Permutation_sym P)). apply del_all_in. split; auto. intro J. apply N. apply in_map_iff in J. auto.
    + do 3 f_equal. cbn [AppendToLoad]. fold rest. assert (X : map snd (ord rest) = map fst (ord rest)).
      { apply map_ext_in. intros kv I. apply Rk. apply (Permutation_in _ P); auto. }
      destruct rest as [|kv rest'] eqn:Er.
      * apply Permutation_sym, Permutation_nil in P. rewrite P. cbn [snd map]. rewrite !app_nil_r. reflexivity.
      * cbn [snd]. do 3 f_equal; [|rewrite map_map; reflexivity]. rewrite <- (map_map snd new_ident), X. reflexivity.
  - right. split; auto.
    assert (D : exists pre s post, l = pre ++ s :: post /\ List.length pre = load_place l /\ (forall s, In s pre -> doc_or_comment s) /\ ~ doc_or_comment s).
    { unfold load_place. pose proof (find_index_spec (fun s => ~ doc_or_comment s) (fun s => negb (load_place_skips s)) l) as G. destruct (find_index (fun s => negb (load_place_skips s)) l) as [i|].
      - destruct G as (pre & s & post & El & Ns & Le & G); [intros x _; rewrite negb_true_iff, <- skips_spec; destruct (load_place_skips x); split; congruence|].
        exists pre, s, post. split; auto. split; auto. split; auto. intros x I. apply skips_spec. destruct (load_place_skips x) eqn:Ex; auto. rewrite Forall_forall in G. elim (G x I). rewrite <- skips_spec. congruence.
      - exfalso. assert (Z : notLoadedFindings functions symbols f = []). { apply nothing_found. intros x I. apply skips_spec. destruct (load_place_skips x) eqn:Ex; auto. exfalso. apply G in I; [|intros y _; rewrite negb_true_iff, <- skips_spec; destruct (load_place_skips y); split; congruence]. apply I. rewrite <- skips_spec. congruence. }
        apply Ne. unfold names. rewrite Z. reflexivity. }
    destruct D as (pre & s & post & El & Le & Dp & Ds). exists pre, s, post. split; auto. split; auto. split; auto.
    assert (Ed : edited functions true f l = pre ++ edited functions true f (s :: post)) by (rewrite El at 1; rewrite map_app, edit_skipped; auto).
    rewrite Ed, <- Le, skipn_len, firstn_len. reflexivity.
Qed.
Lemma names_spec functions symbols f g : In g (toLoad (notLoadedFindings functions symbols f)) <-> exists path e, must_load functions symbols f path e g.
Proof. rewrite toLoad_in. split; [intros (e & H); apply C87_findings in H as (path & H); eauto|intros (path & e & H); exists e; apply C87_findings; eauto]. Qed.
Definition the_load (module : bytes) (names : list bytes) : expr :=
  ELoad no_com no_pos (Str no_com no_pos module false no_pos []) (map (fun n => Ident no_com no_pos n) names) (map (fun n => Ident no_com no_pos n) names) (End no_com no_pos) true.
(** What the fix does: every reported native.g(...) becomes g(...), nothing else is changed in the statements, and the reported names, sorted, are loaded: by the first load of
    the module, or by a new load before the first statement that is neither a comment nor a string.  (In the second case native.g(...) stays if it is itself a statement of the file.) *)
Theorem C87_fix : forall ord functions symbols module c m l, a_map_order ord ->
  let f := EFile c m l in let f' := notLoadedFix ord functions symbols module f in
  ((forall path e g, ~ must_load functions symbols f path e g) -> f' = f) /\
  ((exists path e g, must_load functions symbols f path e g) ->
   exists names, (forall g, In g names <-> exists path e, must_load functions symbols f path e g) /\ StronglySorted (fun a b => blt a b = true) names /\
   ((exists pre c1 p1 ms fr to r k post pre' post' more,
       l = pre ++ Some (ELoad c1 p1 ms fr to r k) :: post /\ s_value ms = module /\ (forall s, In s pre -> ~ loads_module s module) /\
       NoDup more /\ (forall g, In g more <-> In g names /\ ~ In g (map i_name to)) /\
       stmts_repaired (native_repaired functions (fun _ => False)) f pre pre' /\ stmts_repaired (native_repaired functions (fun _ => False)) f post post' /\
       f' = EFile c m (pre' ++ Some (ELoad c1 p1 ms (fr ++ map (fun n => Ident no_com no_pos n) more) (to ++ map (fun n => Ident no_com no_pos n) more) r k) :: post')) \/
    ((forall s, In s l -> ~ loads_module s module) /\ exists pre s post post',
       l = pre ++ s :: post /\ (forall s, In s pre -> doc_or_comment s) /\ ~ doc_or_comment s /\
       stmts_repaired (native_repaired functions (fun stk => List.length stk = 1)) f (s :: post) post' /\
       f' = EFile c m (pre ++ Some (the_load module names) :: post')))).
Proof.
  intros ord functions symbols module c m l O f f'. split.
  - intro H. unfold f', notLoadedFix. unfold f at 1. fold f. destruct (toLoad (notLoadedFindings functions symbols f)) as [|g r] eqn:E; auto. exfalso.
    assert (I : In g (toLoad (notLoadedFindings functions symbols f))) by (rewrite E; left; auto). apply names_spec in I as (path & e & I). elim (H path e g I).
  - intros (path & e & g & M). exists (toLoad (notLoadedFindings functions symbols f)). split; [intro; apply names_spec|]. split; [apply toLoad_sorted|].
    destruct (fix_shape ord functions symbols module c m l O) as [(pre & c1 & p1 & ms & fr & to & r & k & post & more & El & Em & Np & Nd & Mo & Ef)|(Nl & pre & s & post & El & Dp & Ds & Ef)].
    + fold f. intro E. assert (I : In g (toLoad (notLoadedFindings functions symbols f))) by (apply names_spec; eauto). rewrite E in I. contradiction.
    + left. exists pre, c1, p1, ms, fr, to, r, k, post, (edited functions false f pre), (edited functions false f post), more. split; auto. split; auto. split; auto. split; auto. split; auto.
      split; [apply stmts_edited; intro; split; [contradiction|intros [X _]; discriminate X]|]. split; [apply stmts_edited; intro; split; [contradiction|intros [X _]; discriminate X]|]. exact Ef.
    + right. split; auto. exists pre, s, post, (edited functions true f (s :: post)). split; auto. split; auto. split; auto. split; [apply stmts_edited; intro; tauto|]. exact Ef.
Qed.
Print Assumptions C87_fix.
(** ** After the fix *)
Lemma binds_file_iff n c m l : binds n (EFile c m l) <-> exists s, In s l /\ In n (declareGlobals s).
Proof. rewrite <- declared_spec. cbn [declared]. apply in_flat_map. Qed.
Definition names_of functions symbols f := toLoad (notLoadedFindings functions symbols f).
(** The statements of the repaired file. *)
Lemma fixed_stmts ord functions symbols module c m l : a_map_order ord -> let f := EFile c m l in names_of functions symbols f <> [] ->
  exists lost l2, notLoadedFix ord functions symbols module f = EFile c m l2 /\
    (lost = true -> forall s, In s l -> ~ loads_module s module) /\
    (forall n, In n (flat_map declareGlobals l2) <-> In n (flat_map declareGlobals l) \/ In n (names_of functions symbols f)) /\
    (forall s, In s l2 -> (exists s0, In s0 l /\ s = option_map (Edit_from (native_fix functions lost) [f]) s0) \/
       exists c1 p1 ms fr to r k more, s = Some (ELoad c1 p1 ms (fr ++ map new_ident more) (to ++ map new_ident more) r k) /\ incl more (names_of functions symbols f) /\ s_value ms = module /\
         (In (Some (ELoad c1 p1 ms fr to r k)) l \/ fr = [] /\ to = [])).
Proof.
  intros O f Ne. destruct (fix_shape ord functions symbols module c m l O Ne) as [(pre & c1 & p1 & ms & fr & to & r & k & post & more & El & Em & Np & Nd & Mo & Ef)|(Nl & pre & s & post & El & Dp & Ds & Ef)]; fold f in Ef; rewrite Ef.
  - exists false. eexists. split; [reflexivity|]. split; [discriminate|].
    assert (G : forall l, flat_map declareGlobals (edited functions false f l) = flat_map declareGlobals l).
    { intro l0. induction l0 as [|x l0 IH]; auto. cbn [map flat_map]. rewrite edit_globals, IH; auto; [apply native_height|apply native_other|apply native_is_call]. }
    split.
    + intro n. rewrite El, !flat_map_app. cbn [flat_map declareGlobals]. rewrite !in_app_iff, !G, map_app, map_map, in_app_iff, map_id.
      fold f in Mo. fold (names_of functions symbols f) in Mo. rewrite Mo. destruct (in_dec bytes_dec n (map i_name to)); tauto.
    + intros s I. apply in_app_iff in I as [I|[<-|I]].
      * left. apply in_map_iff in I as (s0 & <- & I). exists s0. split; auto. rewrite El. apply in_app_iff. auto.
      * right. exists c1, p1, ms, fr, to, r, k, more. split; auto. split; [intros x Ix; apply Mo in Ix; apply Ix|]. split; auto. left. rewrite El. apply in_elt.
      * left. apply in_map_iff in I as (s0 & <- & I). exists s0. split; auto. rewrite El. apply in_app_iff. right; right; auto.
  - exists true. eexists. split; [reflexivity|]. split; auto.
    assert (G : forall l, flat_map declareGlobals (edited functions true f l) = flat_map declareGlobals l).
    { intro l0. induction l0 as [|x l0 IH]; auto. cbn [map flat_map]. rewrite edit_globals, IH; auto; [apply native_height|apply native_other|apply native_is_call]. }
    split.
    + intro n. rewrite El, !flat_map_app. cbn [flat_map]. rewrite flat_map_app || idtac. change (declareGlobals (NewLoad module (toLoad (notLoadedFindings functions symbols f)) (toLoad (notLoadedFindings functions symbols f)))) with (map i_name (map new_ident (names_of functions symbols f))).
      rewrite !in_app_iff, G, map_map, map_id. cbn [flat_map]. rewrite in_app_iff. tauto.
    + intros x I. apply in_app_iff in I as [I|[<-|I]].
      * left. exists x. split; [rewrite El; apply in_app_iff; auto|]. assert (E : edited functions true f [x] = [x]) by (apply edit_skipped; intros y [<-|[]]; auto). cbn [map] in E. injection E as E. auto.
      * right. do 3 eexists. exists [], []. do 2 eexists. exists (names_of functions symbols f). split; [reflexivity|]. split; [intro; auto|]. auto.
      * left. apply in_map_iff in I as (s0 & <- & I). exists s0. split; auto. rewrite El. apply in_app_iff. auto.
Qed.
Lemma walk_deep e : forall s x stk, In (x, stk) (visit nostop s e) -> List.length s <= List.length stk.
Proof.
  induction e as [e IH] using expr_children_ind. intros s x stk I. rewrite visit_unfold in I. destruct I as [[= _ <-]|I]; auto. apply in_flat_map in I as (y & Iy & I). apply IH in I; auto. rewrite app_length in I. cbn in I. lia.
Qed.
(** After the fix nothing is reported, unless native.g(...) was itself a statement of a file that did not load the module. *)
Theorem C87_again : forall ord functions symbols module c m l, a_map_order ord -> Forall loads_balanced l ->
  ((exists s, In s l /\ loads_module s module) \/ (forall x g, In (Some x) l -> calls_native g x -> ~ In g functions)) ->
  notLoadedFindings functions symbols (notLoadedFix ord functions symbols module (EFile c m l)) = [].
Proof.
  intros ord functions symbols module c m l O Bal Hyp. set (f := EFile c m l).
  destruct (toLoad (notLoadedFindings functions symbols f)) as [|n0 ns] eqn:En.
  { unfold notLoadedFix. unfold f at 1. fold f. rewrite En. destruct (notLoadedFindings functions symbols f) as [|[e g] r] eqn:E; auto. exfalso. assert (I : In g (toLoad ((e, g) :: r))) by (apply toLoad_in; exists e; left; auto). rewrite En in I. contradiction. }
  destruct (fixed_stmts ord functions symbols module c m l O) as (lost & l2 & Ef & Hl & Hd & Hs). { unfold names_of. fold f. rewrite En. discriminate. }
  fold f in Ef, Hs, Hd. rewrite Ef. set (F := EFile c m l2).
  assert (Rel : related (fun n => mem_bytes n (names_of functions symbols f)) [F] [f]).
  { intro n. unfold bound_in. cbn [existsb]. rewrite !orb_false_r. unfold F, f at 1. cbn [declared]. specialize (Hd n). rewrite <- !mem_bytes_In in Hd.
    destruct (mem_bytes n (flat_map declareGlobals l2)), (mem_bytes n (flat_map declareGlobals l)), (mem_bytes n (names_of functions symbols f)); cbn; intuition congruence. }
  destruct (notLoadedFindings functions symbols F) as [|[e g] r] eqn:E; auto. exfalso.
  assert (I : In (e, g) (notLoadedFindings functions symbols F)) by (rewrite E; left; auto). clear E. unfold notLoadedFindings in I. apply in_flat_map in I as ((x' & stk') & W & U). apply use_spec in U as [-> U].
  assert (Bd : forall s, related (fun n => mem_bytes n (names_of functions symbols f)) stk' s -> In g (names_of functions symbols f) -> exists a, In a stk' /\ binds g a).
  { intros s R In_. apply bound_spec. rewrite (R g). apply mem_bytes_In in In_. rewrite In_. apply orb_true_r. }
  unfold Walk in W. rewrite visit_unfold in W. destruct W as [[= <- <-]|W].
  { destruct U as [[(? & ? & ? & ? & ? & ? & ? & ? & ? & ? & X & _) _]|[[(? & ? & ? & ? & ? & ? & ? & X & _) _]|[(? & X & _) _]]]; discriminate X. }
  apply in_flat_map in W as (y & Iy & W). apply in_flat_opt in Iy. apply Hs in Iy as [(s0 & I0 & Es)|(c1 & p1 & ms & fr & to & rr & k & more & Es & Mo & Em & Old)].
  - destruct s0 as [x0|]; [|discriminate Es]. injection Es as ->. cbn [app] in W.
    assert (Wf : forall z, In z (visit nostop [f] x0) -> In z (Walk f)) by (intros z Iz; unfold Walk; rewrite visit_unfold; right; apply in_flat_map; exists x0; split; [apply in_flat_opt; auto|auto]).
    destruct (visited functions lost _ (height x0) x0 (le_n _) [f] [F] [f] Rel eq_refl _ _ W) as [(x & stk & s & J & -> & Ls & R)|(g' & x & stk & J & N & -> & R)].
    + assert (Nb : forall n, (forall a, In a stk' -> ~ binds n a) -> forall a, In a stk -> ~ binds n a).
      { intros n H. apply unbound_spec. apply unbound_spec in H. rewrite (R n) in H. apply orb_false_iff in H. apply H. }
      assert (Found : forall p, In (x, p) (use_found functions symbols (x, stk)) -> In p (names_of functions symbols f)).
      { intros p Ip. apply toLoad_in. exists x. unfold notLoadedFindings. apply in_flat_map. exists (x, stk). split; auto. }
      destruct U as [[N Mg]|[[N [Mg Ub]]|[N [Mg Ub]]]].
      * apply edited_native in N as (N & Lo & Le); auto. apply native_spec in N as [N _]. destruct Hyp as [(s1 & I1 & L1)|Hyp]; [elim (Hl Lo _ I1 L1)|].
        assert (Ex : x = x0). { rewrite visit_unfold in J. destruct J as [J|J]; [injection J as J1 J2; auto|]. exfalso. apply in_flat_map in J as (z & _ & J). apply walk_deep in J. rewrite app_length in J. cbn in J. lia. }
        subst x0. elim (Hyp x g I0 N Mg).
      * apply edited_name_call in N. assert (In g (names_of functions symbols f)) as Ig. { apply (Found g). apply use_spec. split; auto. destruct N as [N|N]; [right; left; auto|left; apply native_spec; auto]. }
        destruct (Bd _ R Ig) as (a & Ia & Ba). elim (Ub a Ia Ba).
      * apply edited_name in N. assert (In g (names_of functions symbols f)) as Ig. { apply (Found g). apply use_spec. split; auto. right; right. split; auto. }
        destruct (Bd _ R Ig) as (a & Ia & Ba). elim (Ub a Ia Ba).
    + assert (Ig' : In g' (names_of functions symbols f)) by (apply toLoad_in; exists x; unfold notLoadedFindings; apply in_flat_map; exists (x, stk); split; auto; apply use_spec; split; auto; left; apply native_spec; auto).
      destruct U as [[(? & ? & ? & ? & ? & ? & ? & ? & ? & ? & X & _) _]|[[(? & ? & ? & ? & ? & ? & ? & X & _) _]|[(i & X & Hi) [_ Ub]]]]; try discriminate X. injection X as <-. cbn in Hi. subst g'.
      destruct (Bd _ R Ig') as (a & Ia & Ba). elim (Ub a Ia Ba).
  - injection Es as ->. rewrite visit_unfold in W. destruct W as [[= <- <-]|W].
    { destruct U as [[(? & ? & ? & ? & ? & ? & ? & ? & ? & ? & X & _) _]|[[(? & ? & ? & ? & ? & ? & ? & X & _) _]|[(? & X & _) _]]]; discriminate X. }
    apply in_flat_map in W as (z & Iz & W).
    assert (Kz : (exists v, z = EStr v) \/ exists i, z = EIdent i /\ (In i fr \/ In i to \/ In (i_name i) more)).
    { unfold children, fold_children in Iz. cbn [fold_children2] in Iz. destruct Iz as [<-|Iz]; [eauto|right].
      assert (Z : forall a b, In z (zip_load (fun i => EIdent i) a b) -> exists i, z = EIdent i /\ (In i a \/ In i b)).
      { clear. induction a as [|u a IH]; intros [|v b] I; cbn in I; try contradiction. destruct I as [<-|[<-|I]]; [exists u; cbn; auto|exists v; cbn; auto|]. destruct (IH b I) as (i & -> & [J|J]); exists i; cbn; auto. }
      apply Z in Iz as (i & -> & [J|J]); exists i; (split; auto); apply in_app_iff in J as [J|J]; auto; right; right; apply in_map_iff in J as (n & <- & J); auto. }
    destruct Kz as [(v & ->)|(i & -> & Ki)]; cbn in W; destruct W as [[= <- <-]|[]].
    { destruct U as [[(? & ? & ? & ? & ? & ? & ? & ? & ? & ? & X & _) _]|[[(? & ? & ? & ? & ? & ? & ? & X & _) _]|[(? & X & _) _]]]; discriminate X. }
    destruct U as [[(? & ? & ? & ? & ? & ? & ? & ? & ? & ? & X & _) _]|[[(? & ? & ? & ? & ? & ? & ? & X & _) _]|[(i' & X & Hi) [Sg Ub]]]]; try discriminate X. injection X as <-.
    assert (Uf : ~ binds g F) by (apply Ub; cbn; auto). assert (Uf0 : ~ In g (flat_map declareGlobals l2)) by (intro Y; apply Uf; apply declared_spec; exact Y). rewrite Hd in Uf0.
    destruct Ki as [Ki|[Ki|Ki]].
    + destruct Old as [Old|[-> _]]; [|contradiction]. apply Uf0. right. apply toLoad_in. exists (EIdent i). unfold notLoadedFindings. apply in_flat_map.
      exists (EIdent i, [f; ELoad c1 p1 ms fr to rr k]). split.
      * unfold Walk. rewrite visit_unfold. right. apply in_flat_map. eexists. split; [apply in_flat_opt; exact Old|]. rewrite visit_unfold. right. apply in_flat_map. exists (EIdent i). split; [|left; auto].
        unfold children, fold_children. cbn [fold_children2]. right. rewrite Forall_forall in Bal. apply in_zip_load; [apply (Bal _ Old)|]. exists i. auto.
      * apply use_spec. split; auto. right; right. split; [exists i; auto|]. split; auto. intros a [<-|[<-|[]]] B; [|inversion B]. apply declared_spec in B. cbn [declared] in B. tauto.
    + destruct Old as [Old|[_ ->]]; [|contradiction]. apply Uf0. left. apply in_flat_map. eexists. split; [exact Old|]. cbn [declareGlobals]. rewrite <- Hi. apply in_map; auto.
    + apply Uf0. right. apply Mo. rewrite <- Hi. exact Ki.
Qed.
Print Assumptions C87_again.
(** If a name that is to be loaded has no meaning anywhere in the file, then after the fix it means the loaded function or symbol, everywhere. *)
Theorem C87_meaning : forall ord functions symbols module c m l g, a_map_order ord -> Forall loads_balanced l ->
  let f := EFile c m l in
  (exists path e, must_load functions symbols f path e g) -> (forall path a, node_at children f path = Some a -> ~ binds g a) ->
  exists l2, notLoadedFix ord functions symbols module f = EFile c m l2 /\
    In (module, g, g) (bindings l2) /\ (forall b, In b (bindings l2) -> snd b = g -> b = (module, g, g)) /\
    (forall s, In s l2 -> binds g (EFile c m [s]) -> loads_module s module) /\
    (forall path a, node_at children (EFile c m l2) path = Some a -> binds g a -> a = EFile c m l2).
Proof.
  intros ord functions symbols module c m l g O Bal f Hg Free.
  assert (Ig : In g (names_of functions symbols f)) by (apply names_spec; auto).
  destruct (fixed_stmts ord functions symbols module c m l O) as (lost & l2 & Ef & Hl & Hd & Hs). { fold f. intro E. rewrite E in Ig. contradiction. }
  fold f in Ef, Hs, Hd. exists l2. split; auto.
  assert (Nf : ~ In g (flat_map declareGlobals l)) by (intro H; apply (Free [] f eq_refl); apply declared_spec; exact H).
  assert (Same : forall s0, In s0 l -> ~ In g (declareGlobals (option_map (Edit_from (native_fix functions lost) [f]) s0))).
  { intros s0 I0. rewrite edit_globals; [|apply native_height|apply native_other|apply native_is_call]. intro H. apply Nf. apply in_flat_map. eauto. }
  assert (Mods : forall s, In s l2 -> In g (declareGlobals s) -> loads_module s module /\ (forall b, In b (bindings_of s) -> snd b = g -> b = (module, g, g)) /\ In (module, g, g) (bindings_of s)).
  { intros s I H. apply Hs in I as [(s0 & I0 & ->)|(c1 & p1 & ms & fr & to & rr & k & more & -> & Mo & Em & Old)]; [elim (Same s0 I0 H)|].
    assert (B : List.length fr = List.length to /\ ~ In g (map i_name to)).
    { destruct Old as [Old|[-> ->]]; [|split; auto]. rewrite Forall_forall in Bal. split; [apply (Bal _ Old)|]. intro J. apply Nf. apply in_flat_map. eexists. split; [exact Old|exact J]. }
    destruct B as [B Nt]. split; [unfold loads_module; eauto 9|]. cbn [declareGlobals] in H. rewrite map_app, in_app_iff, map_map, map_id in H. destruct H as [H|H]; [contradiction|].
    assert (Cb : combine (fr ++ map new_ident more) (to ++ map new_ident more) = combine fr to ++ map (fun n => (new_ident n, new_ident n)) more).
    { clear - B. revert to B. induction fr as [|a fr IH]; intros [|b to] B; try discriminate B; cbn [app combine]; [induction more as [|x more IH]; auto; cbn [map combine]; rewrite IH; auto|rewrite IH; auto]. }
    cbn [bindings_of]. rewrite Cb, map_app, map_map, Em. cbn [fst snd i_name new_ident]. split.
    - intros b Ib Hb. apply in_app_iff in Ib as [Ib|Ib]; apply in_map_iff in Ib as (q & <- & Iq); cbn [snd] in Hb.
      + elim Nt. subst g. destruct q as [u v]. apply in_combine_r in Iq. apply in_map. auto.
      + subst q. auto.
    - apply in_app_iff. right. apply in_map_iff. exists g. auto. }
  split; [|split; [|split]].
  - assert (J : In g (flat_map declareGlobals l2)) by (apply Hd; auto). apply in_flat_map in J as (s & Is & J). unfold bindings. apply in_flat_map. exists s. split; auto. apply Mods; auto.
  - intros b Ib Hb. unfold bindings in Ib. apply in_flat_map in Ib as (s & Is & Ib). apply (Mods s Is); auto.
    destruct s as [[]|]; try contradiction. cbn [bindings_of] in Ib. apply in_map_iff in Ib as ([u v] & <- & Iq). cbn [snd fst] in Hb. subst g. cbn [declareGlobals]. apply in_combine_r in Iq. apply in_map. auto.
  - intros s Is B. apply Mods; auto. apply declared_spec in B. cbn [declared flat_map] in B. rewrite app_nil_r in B. auto.
  - intros path a N B. assert (W : In (a, above children (EFile c m l2) path) (Walk (EFile c m l2))) by (apply walk_in; eauto). unfold Walk in W. rewrite visit_unfold in W. destruct W as [W|W]; [injection W as W _; auto|]. exfalso.
    apply in_flat_map in W as (y & Iy & W). apply in_flat_opt in Iy. apply Hs in Iy as [(s0 & I0 & Es)|(c1 & p1 & ms & fr & to & rr & k & more & Es & _)].
    + destruct s0 as [x0|]; [|discriminate Es]. injection Es as ->. cbn [app] in W.
      assert (Rel : related (fun n => mem_bytes n (names_of functions symbols f)) [EFile c m l2] [f]).
      { intro n. unfold bound_in. cbn [existsb]. rewrite !orb_false_r. unfold f at 1. cbn [declared]. specialize (Hd n). rewrite <- !mem_bytes_In in Hd.
        destruct (mem_bytes n (flat_map declareGlobals l2)), (mem_bytes n (flat_map declareGlobals l)), (mem_bytes n (names_of functions symbols f)); cbn; intuition congruence. }
      destruct (visited functions lost _ (height x0) x0 (le_n _) [f] [EFile c m l2] [f] Rel eq_refl _ _ W) as [(x & stk & s & J & -> & _)|(g' & x & stk & J & _ & -> & _)]; [|inversion B].
      apply declared_spec in B. rewrite edit_declared in B; [|apply native_height|apply native_other|apply native_is_call]. apply declared_spec in B.
      assert (J' : In (x, stk) (Walk f)) by (unfold Walk; rewrite visit_unfold; right; apply in_flat_map; exists x0; split; [apply in_flat_opt; auto|auto]).
      apply walk_in in J' as (q & Nq & _). elim (Free q x Nq B).
    + injection Es as ->. rewrite visit_unfold in W. destruct W as [W|W]; [injection W as <- _; inversion B|]. apply in_flat_map in W as (z & Iz & W).
      assert (Kz : (exists v, z = EStr v) \/ exists i, z = EIdent i).
      { unfold children, fold_children in Iz. cbn [fold_children2] in Iz. destruct Iz as [<-|Iz]; [eauto|right]. revert Iz. clear. generalize (to ++ map new_ident more). induction (fr ++ map new_ident more) as [|u q IH]; intros [|v b] I; cbn in I; try contradiction. destruct I as [<-|[<-|I]]; eauto. }
      destruct Kz as [(v & ->)|(i & ->)]; cbn in W; destruct W as [W|[]]; injection W as <- _; inversion B.
Qed.
Print Assumptions C87_meaning.
(** ** Where more is expected *)
Definition cc : list bytes := [%"cc_library"; %"cc_binary"].
Definition cc_bzl : bytes := %"@rules_cc//cc:defs.bzl".
Definition after (l : list bytes) : option bytes := fixed (notLoadedFix (fun m => m) cc [%"CcInfo"] cc_bzl) (lines l).
(** A macro that wraps the native rule of the same name calls itself afterwards. *)
Theorem C87_wrapper_refuted : after [%"def cc_library(**kwargs):"; %"    native.cc_library(**kwargs)"] =
  Some (lines [%"load(""@rules_cc//cc:defs.bzl"", ""cc_library"")"; %""; %"def cc_library(**kwargs):"; %"    cc_library(**kwargs)"]).
Proof. vm_compute. reflexivity. Qed.
(** The name may already be loaded from elsewhere: then it is loaded twice. *)
Theorem C87_loaded_twice_refuted : after [%"load("":my.bzl"", ""cc_library"")"; %""; %"x = [native.cc_library(name = ""x"")]"] =
  Some (lines [%"load(""@rules_cc//cc:defs.bzl"", ""cc_library"")"; %"load("":my.bzl"", ""cc_library"")"; %""; %"x = [cc_library(name = ""x"")]"]).
Proof. vm_compute. reflexivity. Qed.
(** A statement native.g(...) stays when the load is new; it goes at the next run. *)
Theorem C87_top_level_refuted :
  after [%"native.cc_library(name = ""x"")"] = Some (lines [%"load(""@rules_cc//cc:defs.bzl"", ""cc_library"")"; %""; %"native.cc_library(name = ""x"")"]) /\
  after [%"load(""@rules_cc//cc:defs.bzl"", ""cc_library"")"; %""; %"native.cc_library(name = ""x"")"] = Some (lines [%"load(""@rules_cc//cc:defs.bzl"", ""cc_library"")"; %""; %"cc_library(name = ""x"")"]).
Proof. split; vm_compute; reflexivity. Qed.
(** Names that do have a meaning: parameters of a lambda expression, nested functions, targets in parentheses; and names that are not variables: keywords, and what a load imports
    under another name. *)
Definition reported (l : list bytes) : list bytes := match parse_file meta (lines l) with Some f => map snd (notLoadedFindings cc [%"CcInfo"] f) | None => [] end.
Theorem C87_false_reports_refuted :
  reported [%"f = lambda cc_library: cc_library()"] = [%"cc_library"] /\
  reported [%"def f():"; %"    def cc_library():"; %"        pass"; %""; %"    cc_library()"] = [%"cc_library"] /\
  reported [%"(cc_library) = f"; %"x = cc_library()"] = [%"cc_library"] /\
  reported [%"f(CcInfo = 1)"] = [%"CcInfo"] /\
  reported [%"load("":my.bzl"", my_info = ""CcInfo"")"] = [%"CcInfo"].
Proof. repeat split; vm_compute; reflexivity. Qed.
Example C87_nontrivial :
  after [%"""""""Doc"""""""; %""; %"def f(name, CcInfo, cc_binary = None):"; %"    native.cc_library("; %"        # keep"; %"        name = name,"; %"    )"; %"    cc_binary(x = CcInfo)"; %""; %"def g():"; %"    cc_binary(x = [native.cc_library(y = CcInfo) for y in z])"] =
  Some (lines [%"""""""Doc"""""""; %""; %"load(""@rules_cc//cc:defs.bzl"", ""CcInfo"", ""cc_binary"", ""cc_library"")"; %""; %"def f(name, CcInfo, cc_binary = None):"; %"    cc_library("; %"        # keep"; %"        name = name,"; %"    )"; %"    cc_binary(x = CcInfo)"; %""; %"def g():"; %"    cc_binary(x = [cc_library(y = CcInfo) for y in z])"]).
Proof. vm_compute. reflexivity. Qed.
Print Assumptions C87_findings.
