(** C96: the lints about calls in BUILD, WORKSPACE and .bzl files. *)
From Verif Require Import Base BaseProofs Ast Walk WalkSpec WalkProofs WalkGen PropWalk PropDictSort RuleApi RuleSpec RuleProofs RulesSpec PropRules EditListSpec PropFixLists CallLints.
From Coq Require Import Sorted.
Local Open Scope list_scope.

(** ** What is asked for *)
Definition a_file (f : expr) (t : ftype) (stmts : list (option expr)) : Prop := exists c path pkg label, f = EFile c (FMeta path pkg label t) stmts.
(** What is found in the nodes of a tree, one after the other in the order of the text: in each node what [Q] says. *)
Definition found_in {R} (Q : expr -> list R -> Prop) (f : expr) (found : list R) : Prop :=
  exists places blocks, StronglySorted path_before places /\ (forall p, In p places <-> node_at children f p <> None) /\
    Forall2 (fun p b => exists e, node_at children f p = Some e /\ Q e b) places blocks /\ found = List.concat blocks.
(** [only_if]: one finding, about the node itself, exactly in the nodes that have the property *)
Definition only_if (P : expr -> Prop) (e : expr) (b : list expr) : Prop := (P e /\ b = [e]) \/ (~ P e /\ b = []).
Definition call_to (name : bytes) (e : expr) (args : list expr) : Prop := exists c i p en k m, e = ECall c (EIdent i) p args en k m /\ i_name i = name.
Definition native_member (e : expr) (i : ident) (name : bytes) : Prop := exists c p q, e = EDot c (EIdent i) p q name /\ i_name i = %"native".
(** a pattern without a wildcard *)
Definition constant (e : expr) (s : strlit) : Prop := e = EStr s /\ ~ In "*"%char (s_value s).
(** the first constant pattern of the list *)
Definition first_constant (l : list expr) (b : list strlit) : Prop :=
  (exists pre e s post, l = pre ++ e :: post /\ constant e s /\ (forall x t, In x pre -> ~ constant x t) /\ b = [s]) \/ ((forall x t, In x l -> ~ constant x t) /\ b = []).
(** the list of patterns a glob is called with, as far as it is written there: the first argument, or the first keyword argument include that is a list *)
Definition a_list (e : expr) (l : list expr) : Prop := exists c s en m, e = EList c s l en m.
Definition include (e : expr) (l : list expr) : Prop := exists v, gives %"include" e v /\ a_list v l.
Definition patterns (args l : list expr) : Prop :=
  (exists a rest, args = a :: rest /\ a_list a l) \/
  ((forall a rest m, args = a :: rest -> ~ a_list a m) /\ exists pre a post, args = pre ++ a :: post /\ include a l /\ forall x m, In x pre -> ~ include x m).
Definition glob_found (e : expr) (b : list strlit) : Prop :=
  (exists args l, call_to %"glob" e args /\ patterns args l /\ first_constant l b) \/
  ((forall args l, call_to %"glob" e args -> ~ patterns args l) /\ b = []).
(** the star arguments of a call, in order *)
Definition starred (a : expr) (double : bool) : Prop := exists c p x, a = EUnary c p (if double then %"**" else %"*") x.
Inductive stars : list expr -> list (expr * bool) -> Prop :=
  | st_nil : stars [] []
  | st_star a d l b : starred a d -> stars l b -> stars (a :: l) ((a, d) :: b)
  | st_other a l b : (forall d, ~ starred a d) -> stars l b -> stars (a :: l) b.
Definition stars_found (e : expr) (b : list (expr * bool)) : Prop :=
  (exists x args, call_of e x args /\ stars args b) \/ ((forall x args, ~ call_of e x args) /\ b = []).
(** A rule whose name an earlier rule has: the finding gives the line of the first of them and points at the name. *)
Inductive repeated : list expr -> list expr -> list duplicate -> Prop :=
  | re_nil earlier : repeated earlier [] []
  | re_unnamed earlier r x args rules b : call_of r x args -> unnamed args -> repeated (earlier ++ [r]) rules b -> repeated earlier (r :: rules) b
  | re_new earlier r x args n rules b : call_of r x args -> explicitly_named args n ->
      (forall r0 x0 args0, In r0 earlier -> call_of r0 x0 args0 -> ~ explicitly_named args0 n) ->
      repeated (earlier ++ [r]) rules b -> repeated earlier (r :: rules) b
  | re_again earlier r x args n v pre r0 x0 args0 post rules b : call_of r x args -> explicitly_named args n -> attr_is %"name" args v ->
      earlier = pre ++ r0 :: post -> call_of r0 x0 args0 -> explicitly_named args0 n ->
      (forall r1 x1 args1, In r1 pre -> call_of r1 x1 args1 -> ~ explicitly_named args1 n) ->
      repeated (earlier ++ [r]) rules b -> repeated earlier (r :: rules) (Duplicate n (p_line (start_pos r0)) (start_pos v) (end_pos v) :: b).
(** The rule that a statement instantiates: the statement, or what a comprehension makes many of *)
Definition instantiates (s : option expr) (call : expr) : Prop :=
  a_call call /\ (s = Some call \/ exists c k p l m en, s = Some (EComp c k p call l m en)).
(** the first argument without keyword of a call of a function that wants keywords *)
Definition keyword_argument (e : expr) : Prop := exists c x p op b v, e = EAssign c x p op b v.
Definition unkeyed (call a : expr) : Prop :=
  exists name args pre post, call_to name call args /\ ~ In name [%"exports_files"; %"licenses"; %"print"; %"register_toolchains"; %"vardef"] /\ args = pre ++ a :: post /\ ~ keyword_argument a /\ Forall keyword_argument pre.
Inductive per_statement : list (option expr) -> list expr -> Prop :=
  | ps_nil : per_statement [] []
  | ps_found s call a stmts b : instantiates s call -> unkeyed call a -> per_statement stmts b -> per_statement (s :: stmts) (a :: b)
  | ps_none s stmts b : (forall call a, instantiates s call -> ~ unkeyed call a) -> per_statement stmts b -> per_statement (s :: stmts) b.

(** ** Proofs *)
Lemma walk_found {R} (Q : expr -> list R -> Prop) (g : expr -> list R) f : (forall e, Q e (g e)) -> found_in Q f (walk_nodes g f).
Proof.
  intro H. destruct (C28_walk_preorder f) as (ps & So & _ & I & F). exists ps, (map g (map fst (Walk f))). split; auto. split; auto. split.
  - clear So I. induction F as [|p q ps l [A _] F IH]; constructor; auto. exists (fst q). auto.
  - unfold walk_nodes. now rewrite flat_map_concat_map.
Qed.
Lemma file_type_spec f t stmts : a_file f t stmts -> file_type f = t /\ stmts_of f = stmts.
Proof. intros (c & path & pk & la & ->). auto. Qed.
Lemma native_spec e : match native_dot e with Some (i, n) => native_member e i n | None => forall i n, ~ native_member e i n end.
Proof.
  destruct e; try (intros ? ? (? & ? & ? & E & _); discriminate E). cbn [native_dot]. destruct e; try (intros ? ? (? & ? & ? & E & _); discriminate E).
  destruct (beq (i_name i) %"native") eqn:E.
  - apply beq_eq in E. do 3 eexists. eauto.
  - apply beq_neq in E. intros j n (c1 & p1 & q1 & E1 & E2). injection E1 as ? ? ? ? ?. subst. contradiction.
Qed.
Theorem C96_print : forall f t stmts, a_file f t stmts -> t <> TypeDefault -> found_in (only_if (fun e => exists args, call_to %"print" e args)) f (printWarning f).
Proof.
  intros f t stmts H N. apply file_type_spec in H as [Ht _]. unfold printWarning. rewrite Ht.
  assert (G : found_in (only_if (fun e => exists args, call_to %"print" e args)) f (walk_nodes (fun e => match e with ECall _ (EIdent i) _ _ _ _ _ => if beq (i_name i) %"print" then [e] else [] | _ => [] end) f)).
  { apply walk_found. intro e. unfold only_if. destruct e; try (right; split; auto; intros (? & ? & ? & ? & ? & ? & ? & E & _); discriminate E).
    destruct e; try (right; split; auto; intros (? & ? & ? & ? & ? & ? & ? & E & _); discriminate E).
    destruct (beq (i_name i) %"print") eqn:E.
    - apply beq_eq in E. left. split; auto. eexists. do 6 eexists. eauto.
    - apply beq_neq in E. right. split; auto. intros (args' & c' & i' & p' & en' & k' & m' & E1 & E2). injection E1 as -> -> -> -> -> -> ->. contradiction. }
  destruct t; auto; contradiction.
Qed.
Print Assumptions C96_print.
Theorem C96_native_package : forall f t stmts, a_file f t stmts ->
  (t = TypeBzl -> found_in (only_if (fun e => exists x args i, call_of e x args /\ native_member x i %"package")) f (nativePackageWarning f)) /\
  (t <> TypeBzl -> nativePackageWarning f = []).
Proof.
  intros f t stmts H. apply file_type_spec in H as [Ht _]. unfold nativePackageWarning. rewrite Ht. split; [intros -> |destruct t; auto; contradiction].
  apply walk_found. intro e. unfold only_if. destruct e; try (right; split; auto; intros (? & ? & ? & (? & ? & ? & ? & ? & E) & _); discriminate E).
  pose proof (native_spec e) as N. destruct (native_dot e) as [[i n]|].
  - destruct (beq n %"package") eqn:E.
    + apply beq_eq in E. subst n. left. split; auto. exists e, args, i. split; auto. do 5 eexists. reflexivity.
    + apply beq_neq in E. right. split; auto. intros (x & args' & i' & (c' & p' & en' & k' & m' & E1) & N'). injection E1 as -> -> -> -> -> -> ->. destruct N as (? & ? & ? & -> & _), N' as (? & ? & ? & E2 & _). injection E2 as ? ? ? ? ?. subst. contradiction.
  - right. split; auto. intros (x & args' & i' & (c' & p' & en' & k' & m' & E1) & N'). injection E1 as -> -> -> -> -> -> ->. now apply N in N'.
Qed.
Print Assumptions C96_native_package.
Lemma star_spec a : match star_arg a with [(a', d)] => a' = a /\ starred a d | [] => forall d, ~ starred a d | _ => False end.
Proof.
  destruct a; try (intros ? (? & ? & ? & E); discriminate E). cbn [star_arg].
  destruct (beq op %"*") eqn:E1; [apply beq_eq in E1; subst; split; auto; do 3 eexists; reflexivity|]. apply beq_neq in E1.
  destruct (beq op %"**") eqn:E2; [apply beq_eq in E2; subst; split; auto; do 3 eexists; reflexivity|]. apply beq_neq in E2.
  intros d (c' & p' & x' & E). injection E as -> -> -> ->. destruct d; contradiction.
Qed.
Lemma stars_spec l : stars l (flat_map star_arg l).
Proof.
  induction l as [|a l IH]; [constructor|]. cbn [flat_map]. pose proof (star_spec a) as H. destruct (star_arg a) as [|[a' d] [|]]; [apply st_other; auto| |contradiction]. destruct H as [-> H]. now apply st_star.
Qed.
Theorem C96_args_kwargs : forall f t stmts, a_file f t stmts ->
  (t = TypeBuild -> found_in stars_found f (argsKwargsInBuildFilesWarning f)) /\ (t <> TypeBuild -> argsKwargsInBuildFilesWarning f = []).
Proof.
  intros f t stmts H. apply file_type_spec in H as [Ht _]. unfold argsKwargsInBuildFilesWarning. rewrite Ht. split; [intros -> |destruct t; auto; contradiction].
  apply walk_found. intro e. unfold stars_found. destruct e; try (right; split; auto; intros ? ? (? & ? & ? & ? & ? & E); discriminate E).
  left. exists e, args. split; [do 5 eexists; reflexivity|apply stars_spec].
Qed.
Print Assumptions C96_args_kwargs.
Lemma has_star_spec s : has_star s = true <-> In "*"%char s.
Proof.
  unfold has_star. rewrite existsb_exists. split; [intros (x & I & E)|intro I; exists "*"%char; split; auto]. 
  - unfold ceq in E. apply Ascii.eqb_eq in E. now subst.
Qed.
Lemma constant_spec l : first_constant l (constantGlobPattern l).
Proof.
  induction l as [|e l IH]; [right; split; auto; intros x t []|].
  assert (Skip : forall b, (forall t, ~ constant e t) -> first_constant l b -> first_constant (e :: l) b).
  { intros b N [(pre & x & s & post & -> & C & P & ->)|(P & ->)].
    - left. exists (e :: pre), x, s, post. split; auto. split; auto. split; auto. intros y t [<- | I]; auto.
    - right. split; auto. intros y t [<- | I]; auto. }
  destruct e; try (cbn [constantGlobPattern]; apply Skip; auto; intros ? (E & _); discriminate E). cbn [constantGlobPattern]. destruct (has_star (s_value s)) eqn:H.
  - apply Skip; auto. intros t (E & N). injection E as <-. apply N. now apply has_star_spec.
  - left. exists [], (EStr s), s, l. split; auto. split; [split; auto; intro K; apply has_star_spec in K; congruence|]. split; auto.
Qed.
Lemma include_spec l : match include_arg l with
  | Some ps => exists pre a post, l = pre ++ a :: post /\ include a ps /\ forall x m, In x pre -> ~ include x m
  | None => forall x m, In x l -> ~ include x m end.
Proof.
  induction l as [|e l IH]; [intros x m []|].
  assert (Skip : (forall m, ~ include e m) -> match include_arg l with
    | Some ps => exists pre a post, e :: l = pre ++ a :: post /\ include a ps /\ forall x m, In x pre -> ~ include x m
    | None => forall x m, In x (e :: l) -> ~ include x m end).
  { intro N. destruct (include_arg l) as [ps|].
    - destruct IH as (pre & a & post & -> & A & B). exists (e :: pre), a, post. split; auto. split; auto. intros x m [<- | I]; auto.
    - intros x m [<- | I]; auto. }
  destruct e; try (apply Skip; intros ? (? & (? & ? & ? & ? & ? & E & _) & _); discriminate E). cbn [include_arg].
  destruct e1; try (apply Skip; intros ? (? & (? & ? & ? & ? & ? & E & _) & _); discriminate E).
  destruct e2; try (apply Skip; intros ? (? & (? & ? & ? & ? & ? & E & _) & (? & ? & ? & ? & E')); rewrite E' in E; discriminate E).
  destruct (beq (i_name i) %"include") eqn:E.
  - apply beq_eq in E. eexists [], _, l. split; [reflexivity|]. split; [|intros x m []]. eexists. split; [|do 4 eexists; reflexivity]. unfold gives. do 5 eexists. split; [reflexivity|auto].
  - apply beq_neq in E. apply Skip. intros m (v & G & _). unfold gives in G. destruct G as (? & ? & ? & ? & ? & E1 & E2). injection E1 as ? ? ? ? ? ?. subst. contradiction.
Qed.
Lemma glob_spec e : glob_found e (glob_node e).
Proof.
  assert (No : forall args, ~ (exists l, patterns args l) -> call_to %"glob" e args -> glob_found e []).
  { intros args N C. right. split; auto. intros args' l (c & i & p & en & k & m & E & _) P. destruct C as (? & ? & ? & ? & ? & ? & E' & _). rewrite E in E'. injection E' as ? ? ? ? ? ? ?. subst. eauto. }
  destruct e; try (right; split; auto; intros ? ? (? & ? & ? & ? & ? & ? & E & _); discriminate E).
  destruct e; try (right; split; auto; intros ? ? (? & ? & ? & ? & ? & ? & E & _); discriminate E).
  cbn [glob_node]. destruct (beq (i_name i) %"glob") eqn:E.
  2:{ apply beq_neq in E. destruct args; (right; split; auto; intros args' l' (c' & i' & p' & en' & k' & m' & E1 & E2); injection E1 as ? ? ? ? ? ? ?; subst; contradiction). }
  apply beq_eq in E. assert (C : call_to %"glob" (ECall c (EIdent i) lstart args e0 compact multi) args) by (do 6 eexists; eauto).
  destruct args as [|a l]; [apply (No []); auto; intros (l & [(a & r & K & _)|(_ & pre & a & post & K & _)]); [discriminate K|destruct pre; discriminate K]|].
  assert (D : (exists ps, a_list a ps) \/ forall ps, ~ a_list a ps) by (destruct a; try (right; intros ? (? & ? & ? & ? & K); discriminate K); left; do 5 eexists; reflexivity).
  destruct D as [(ps & L)|N].
  - assert (G : match a with EList _ _ ps _ _ => constantGlobPattern ps | _ => match include_arg (a :: l) with Some ps => constantGlobPattern ps | None => [] end end = constantGlobPattern ps) by (destruct L as (? & ? & ? & ? & ->); reflexivity).
    rewrite G. left. exists (a :: l), ps. split; auto. split; [left; eauto|apply constant_spec].
  - assert (G : match a with EList _ _ ps _ _ => constantGlobPattern ps | _ => match include_arg (a :: l) with Some ps => constantGlobPattern ps | None => [] end end = match include_arg (a :: l) with Some ps => constantGlobPattern ps | None => [] end).
    { destruct a; try reflexivity. exfalso. eapply N. do 4 eexists. reflexivity. }
    rewrite G. pose proof (include_spec (a :: l)) as I. destruct (include_arg (a :: l)) as [ps|].
    + left. exists (a :: l), ps. split; auto. split; [|apply constant_spec]. right. split; auto. intros a' r m K. injection K as <- <-. apply N.
    + apply (No (a :: l)); auto. intros (m & [(a' & r & K & Lm)|(_ & pre & a' & post & K & J & _)]); [injection K as <- <-; now apply N in Lm|]. apply (I a' m); auto. rewrite K. apply in_app_iff. right. now left.
Qed.
Theorem C96_constant_glob : forall f t stmts, a_file f t stmts ->
  (t = TypeBuild \/ t = TypeWorkspace \/ t = TypeBzl -> found_in glob_found f (constantGlobWarning f)) /\ (t = TypeDefault \/ t = TypeModule -> constantGlobWarning f = []).
Proof.
  intros f t stmts H. apply file_type_spec in H as [Ht _]. unfold constantGlobWarning. rewrite Ht. split.
  - intros [-> |[-> | ->]]; apply walk_found, glob_spec.
  - intros [-> | ->]; reflexivity.
Qed.
Print Assumptions C96_constant_glob.
(** ** Duplicates *)
Lemma named_fun args n n' : explicitly_named args n -> explicitly_named args n' -> n = n'.
Proof.
  intros [H N] [H' N']. assert (A : AttrString %"name" args = n) by (apply AttrString_spec; auto). assert (A' : AttrString %"name" args = n') by (apply AttrString_spec; auto). congruence.
Qed.
Lemma call_fun r x args x' args' : call_of r x args -> call_of r x' args' -> x = x' /\ args = args'.
Proof. intros (? & ? & ? & ? & ? & E) (? & ? & ? & ? & ? & E'). rewrite E in E'. injection E' as ? ? ? ? ? ? ?. subst. auto. Qed.
(** the map of names while the loop runs *)
Definition names_ok (earlier : list expr) (names : list (bytes * Z)) : Prop :=
  forall n, n <> [] -> match lookup n names with
  | Some line => exists pre r0 x0 args0 post, earlier = pre ++ r0 :: post /\ call_of r0 x0 args0 /\ explicitly_named args0 n /\ line = p_line (start_pos r0) /\
      forall r1 x1 args1, In r1 pre -> call_of r1 x1 args1 -> ~ explicitly_named args1 n
  | None => forall r0 x0 args0, In r0 earlier -> call_of r0 x0 args0 -> ~ explicitly_named args0 n
  end.
Lemma names_skip earlier names r : names_ok earlier names -> (forall x args n, call_of r x args -> explicitly_named args n -> lookup n names <> None) -> names_ok (earlier ++ [r]) names.
Proof.
  intros H K n N. specialize (H n N). destruct (@lookup Z n names) as [line|] eqn:E.
  - destruct H as (pre & r0 & x0 & args0 & post & -> & H). exists pre, r0, x0, args0, (post ++ [r]). split; [now rewrite <- app_assoc|exact H].
  - intros r0 x0 args0 J C En. apply in_app_iff in J. destruct J as [J|[<- | []]]; [now apply (H r0 x0 args0 J C)|]. apply (K x0 args0 n C En). exact E.
Qed.
Lemma dup_spec rules : forall earlier names, Forall a_call rules -> names_ok earlier names -> repeated earlier rules (dup_loop names rules).
Proof.
  induction rules as [|r rules IH]; intros earlier names F Ok; [constructor|]. inversion F as [|? ? (x & args & C) F']; subst. cbn [dup_loop].
  pose proof C as Ca. apply callee_args_spec in Ca. rewrite Ca. destruct (AttrString %"name" args) as [|b0 n0] eqn:A.
  - pose proof (proj2 (unnamed_spec args) A) as U. eapply re_unnamed; eauto. apply IH; auto. apply names_skip; auto. intros x' args' n C' E. destruct (call_fun _ _ _ _ _ C C') as [-> ->]. now apply U in E.
  - set (n := b0 :: n0) in *. assert (En : explicitly_named args n).
    { apply AttrString_spec in A as [A|[A _]]; [split; auto; discriminate|discriminate A]. }
    assert (Nn : n <> []) by discriminate. assert (Ev : exists v, attr_is %"name" args v) by (destruct En as [(l & Hl & _) _]; eauto). destruct Ev as (v & Hv). pose proof (proj1 (attr_is_some _ _ _) Hv) as Av.
    clearbody n. pose proof (Ok n Nn) as On. destruct (@lookup Z n names) as [line|] eqn:L.
    + rewrite Av. destruct On as (pre & r0 & x0 & args0 & post & -> & C0 & E0 & -> & P0). eapply re_again; eauto. apply IH; auto. apply names_skip; auto. intros x' args' n' C' E. destruct (call_fun _ _ _ _ _ C C') as [-> ->]. rewrite <- (named_fun _ _ _ En E), L. discriminate.
    + eapply re_new; eauto. apply IH; auto. intros n' N'. cbn [lookup]. destruct (beq n' n) eqn:B.
      * apply beq_eq in B. subst n'. exists earlier, r, x, args, []. split; auto. 
      * apply beq_neq in B. specialize (Ok n' N'). destruct (@lookup Z n' names) as [line|].
        -- destruct Ok as (pre & r0 & x0 & args0 & post & -> & H). exists pre, r0, x0, args0, (post ++ [r]). split; [now rewrite <- app_assoc|exact H].
        -- intros r0 x0 args0 J C0 E0. apply in_app_iff in J. destruct J as [J|[<- | []]]; [now apply (Ok r0 x0 args0 J C0)|]. destruct (call_fun _ _ _ _ _ C C0) as [-> ->]. apply B. now apply (named_fun args0).
Qed.
Lemma outermost_calls e : forall l, outermost e l -> Forall a_call l.
Proof.
  induction e as [e IH] using expr_children_ind. intros l H. inversion H; subst; [constructor; auto|]. clear -IH H1. revert H1. generalize (children e) IH. clear.
  intros cs IH F. induction F; cbn [List.concat]; auto. apply Forall_app. split; [eapply IH; eauto; now left|]. apply IHF. intros; eapply IH; eauto. now right.
Qed.
Lemma rules_calls stmts l : rules_in stmts l -> Forall a_call l.
Proof. induction 1; auto. apply Forall_app. split; auto. eapply outermost_calls; eauto. Qed.
Theorem C96_duplicated : forall f t stmts rules, a_file f t stmts -> rules_in stmts rules ->
  (t = TypeBuild \/ t = TypeWorkspace -> repeated [] rules (duplicatedNameWarning f)) /\ (t <> TypeBuild -> t <> TypeWorkspace -> duplicatedNameWarning f = []).
Proof.
  intros f t stmts rules H Hr. apply file_type_spec in H as [Ht Hs]. unfold duplicatedNameWarning. rewrite Ht, Hs. split.
  - assert (E : Rules [] stmts = rules).
    { unfold Rules. rewrite rules_of_filter, <- (rules_in_fun _ _ _ Hr (all_rules_spec stmts)). pose proof (rules_calls _ _ Hr) as F. clear -F. induction F as [|r l (x & args & C) F IH]; auto. cbn [filter]. apply callee_args_spec in C. rewrite C. cbn [beq orb]. f_equal. exact IH. }
    rewrite E. assert (G : repeated [] rules (dup_loop [] rules)) by (apply dup_spec; [eapply rules_calls; eauto|intros n N; cbn; intros r0 x0 args0 []]). intros [-> | ->]; exact G.
  - intros N1 N2. destruct t; auto; contradiction.
Qed.
Print Assumptions C96_duplicated.
(** ** Positional arguments *)
Lemma find_split {A} (p : A -> bool) l : match find p l with Some a => exists pre post, l = pre ++ a :: post /\ p a = true /\ Forall (fun x => p x = false) pre | None => Forall (fun x => p x = false) l end.
Proof.
  induction l as [|a l IH]; cbn [find]; auto. destruct (p a) eqn:E; [exists [], l; auto|]. destruct (find p l) as [b|]; [|auto]. destruct IH as (pre & post & -> & B & F). exists (a :: pre), post. auto.
Qed.
Lemma keyword_arg_spec e : is_keyword_arg e = true <-> keyword_argument e.
Proof. split; [destruct e; try discriminate; intros _; do 6 eexists; reflexivity|intros (? & ? & ? & ? & ? & ? & ->); reflexivity]. Qed.
Lemma unkeyed_spec call : match positionalArguments call with Some a => unkeyed call a | None => forall a, ~ unkeyed call a end.
Proof.
  destruct call; try (intros ? (? & ? & ? & ? & (? & ? & ? & ? & ? & ? & E & _) & _); discriminate E).
  destruct call; try (intros ? (? & ? & ? & ? & (? & ? & ? & ? & ? & ? & E & _) & _); discriminate E). cbn [positionalArguments].
  destruct (mem_bytes (i_name i) functionsWithPositionalArguments) eqn:Mb.
  - apply mem_bytes_In in Mb. intros ? (? & ? & ? & ? & (? & ? & ? & ? & ? & ? & E & <-) & N & _). injection E as ? ? ? ? ? ? ?. subst. contradiction.
  - assert (Mn : ~ In (i_name i) functionsWithPositionalArguments) by (intro K; apply mem_bytes_In in K; congruence). clear Mb.
    pose proof (find_split (fun a => negb (is_keyword_arg a)) args) as F. destruct (find (fun a => negb (is_keyword_arg a)) args) as [a|].
    + destruct F as (pre & post & -> & Ka & Fp). exists (i_name i), (pre ++ a :: post), pre, post. split; [do 6 eexists; eauto|]. split; auto. split; auto. split; [intro K; apply keyword_arg_spec in K; rewrite K in Ka; discriminate|].
      eapply Forall_impl; [|exact Fp]. cbn beta. intros x Hx. apply keyword_arg_spec. destruct (is_keyword_arg x); auto; discriminate.
    + intros a (n & l & pre & post & (? & ? & ? & ? & ? & ? & E & <-) & _ & -> & Na & _). injection E as ? ? ? ? ? ? ?. subst. rewrite Forall_forall in F. specialize (F a). apply Na, keyword_arg_spec. destruct (is_keyword_arg a); auto. exfalso. cbn in F. discriminate F. apply in_app_iff. right. now left.
Qed.
Definition the_rule (s : option expr) : option expr :=
  match s with Some (ECall c x p l en k m) => Some (ECall c x p l en k m) | Some (EComp _ _ _ (ECall c x p l en k m) _ _ _) => Some (ECall c x p l en k m) | _ => None end.
Lemma the_rule_spec s call : instantiates s call <-> the_rule s = Some call.
Proof.
  split.
  - intros ((x & args & c & p & en & k & m & E) & [-> |(? & ? & ? & ? & ? & ? & ->)]); injection E as ->; reflexivity.
  - assert (G : forall c x p l en k m, a_call (ECall c x p l en k m)) by (intros; do 7 eexists; reflexivity).
    destruct s as [s|]; [|discriminate]. destruct s; try discriminate; cbn [the_rule].
    + intro E. injection E as <-. split; [apply G|auto].
    + destruct s; try discriminate. intro E. injection E as <-. split; [apply G|right; do 6 eexists; reflexivity].
Qed.
Theorem C96_positional : forall f t stmts, a_file f t stmts ->
  (t = TypeBuild -> per_statement stmts (positionalArgumentsWarning f)) /\ (t <> TypeBuild -> positionalArgumentsWarning f = []).
Proof.
  intros f t stmts H. apply file_type_spec in H as [Ht Hs]. unfold positionalArgumentsWarning, ruleWarningWrapper. rewrite Ht, Hs. split; [intros -> |destruct t; auto; contradiction]. clear.
  induction stmts as [|s stmts IH]; [constructor|]. cbn [flat_map]. match goal with |- per_statement _ (?h ++ ?t) => set (tl := t) in *; assert (G : h = match the_rule s with Some c => match positionalArguments c with Some r => [r] | None => [] end | None => [] end) end.
  { destruct s as [s|]; auto. destruct s; auto. destruct s; auto. }
  rewrite G. clear G. pose proof (the_rule_spec s) as Sp. destruct (the_rule s) as [call|].
  - pose proof (unkeyed_spec call) as U. destruct (positionalArguments call) as [a|].
    + cbn [app]. eapply ps_found; eauto. now apply Sp.
    + cbn [app]. apply ps_none; auto. intros call' a I. apply Sp in I. injection I as ->. apply U.
  - cbn [app]. apply ps_none; auto. intros call' a I. apply Sp in I. discriminate I.
Qed.
Print Assumptions C96_positional.
(** ** native in BUILD files *)
Theorem C96_native_build : forall f t stmts, a_file f t stmts ->
  (t = TypeBuild -> found_in (fun e b => (exists i n, native_member e i n /\ b = [i]) \/ ((forall i n, ~ native_member e i n) /\ b = [])) f (nativeInBuildFilesWarning f)) /\
  (t <> TypeBuild -> nativeInBuildFilesWarning f = []).
Proof.
  intros f t stmts H. apply file_type_spec in H as [Ht _]. unfold nativeInBuildFilesWarning. rewrite Ht. split; [intros -> |destruct t; auto; contradiction].
  apply walk_found. intro e. pose proof (native_spec e) as N. destruct (native_dot e) as [[i n]|]; [left; eauto|right; auto].
Qed.
Print Assumptions C96_native_build.
Lemma native_height stk e : height (native_cb stk e) <= height e.
Proof. unfold native_cb. pose proof (native_spec e) as N. destruct (native_dot e) as [[i n]|]; auto. destruct N as (? & ? & ? & -> & _). cbn. lia. Qed.
Lemma native_kind : cb_kind native_cb.
Proof. split; intros; eexists; reflexivity. Qed.
(** Exactly: native.name becomes name, and nothing else is changed. *)
Theorem C96_native_fix : forall f t stmts, a_file f t stmts ->
  (t = TypeBuild -> walked (fun _ e e' => (forall i n, native_member e i n -> exists i', e' = EIdent i' /\ i_name i' = n) /\ ((forall i n, ~ native_member e i n) -> e' = e)) [] f (nativeInBuildFilesFix f)) /\
  (t <> TypeBuild -> nativeInBuildFilesFix f = f).
Proof.
  intros f t stmts H. apply file_type_spec in H as [Ht _]. unfold nativeInBuildFilesFix. rewrite Ht. split; [intros -> |destruct t; auto; contradiction].
  apply Edit_walked; [apply native_height|apply native_kind|]. intros stk e. unfold native_cb. pose proof (native_spec e) as N. destruct (native_dot e) as [[i n]|]; split.
  - intros i' n' N'. destruct N as (? & ? & ? & -> & _), N' as (? & ? & ? & E & _). injection E as ? ? ? ? ?. subst. eexists. split; reflexivity.
  - intro K. now apply K in N.
  - intros i n N'. now apply N in N'.
  - auto.
Qed.
Print Assumptions C96_native_fix.
(** A comment that belongs to native.name is lost. *)
Theorem C96_native_fix_refuted : exists f stmts e com, a_file f TypeBuild stmts /\ In (e, [f]) (Walk f) /\ In com (c_before (Ast.com e)) /\
  forall e' stk, In (e', stk) (Walk (nativeInBuildFilesFix f)) -> ~ In com (c_before (Ast.com e')) /\ ~ In com (c_suffix (Ast.com e')) /\ ~ In com (c_after (Ast.com e')).
Proof.
  set (k := Comment no_pos %"# why"). set (e := EDot (Comments [k] [] []) (EIdent (Ident no_com no_pos %"native")) no_pos no_pos %"glob").
  exists (EFile no_com (FMeta %"p/BUILD" %"p" [] TypeBuild) [Some e]), [Some e], e, k. split; [do 4 eexists; reflexivity|]. split; [vm_compute; auto|]. split; [now left|].
  intros e' stk H. vm_compute in H. destruct H as [H|[H|[]]]; injection H as <- <-; cbn; auto.
Qed.
Print Assumptions C96_native_fix_refuted.
(** In every interpretation in which native.name means name the file means the same. *)
Theorem C96_native_fix_same : forall f V (ev : expr -> V), compositional ev -> (forall e i n j, native_member e i n -> i_name j = n -> ev (EIdent j) = ev e) -> ev (nativeInBuildFilesFix f) = ev f.
Proof.
  intros f V ev C A. unfold nativeInBuildFilesFix. destruct (file_type f); auto. apply Edit_same; auto; [apply native_height|apply native_kind|]. intros stk e. unfold native_cb. pose proof (native_spec e) as N. destruct (native_dot e) as [[i n]|]; auto. apply (A e i n); auto.
Qed.
Print Assumptions C96_native_fix_same.
Definition ex_at (l : Z) (name : bytes) (args : list expr) : expr := ECall no_com (EIdent (Ident no_com (Pos l 1 0) name)) no_pos args (End no_com no_pos) false false.
Definition ex_str (v : bytes) : expr := EStr (Str no_com no_pos v false no_pos []).
Definition ex_kw (k : bytes) (v : expr) : expr := EAssign no_com (EIdent (Ident no_com no_pos k)) no_pos %"=" false v.
Definition ex_lst (l : list expr) : expr := EList no_com no_pos l (End no_com no_pos) false.
Definition ex_file : expr := EFile no_com (FMeta %"p/BUILD" %"p" [] TypeBuild)
  [Some (ex_at 1 %"r" [ex_kw %"name" (ex_str %"a"); ex_kw %"srcs" (ex_at 2 %"glob" [ex_lst [ex_str %"*.c"; ex_str %"b.c"; ex_str %"c.c"]])]); None;
   Some (EComp no_com false no_pos (ex_at 4 %"r" [ex_kw %"name" (ex_str %"a"); ex_at 4 %"print" []; EUnary no_com no_pos %"**" (Some (ex_str %"k"))]) [] false (End no_com no_pos));
   Some (ex_at 5 %"q" [ex_kw %"name" (ex_str %"b"); ex_kw %"include" (ex_at 5 %"glob" [ex_kw %"x" (ex_str %"y"); ex_kw %"include" (ex_lst [ex_str %"d"])])]); Some (ex_at 6 %"q" [ex_kw %"name" (ex_str %"a")])].
Example C96_nontrivial :
  map (fun s => s_value s) (constantGlobWarning ex_file) = [%"b.c"; %"d"] /\ map d_line (duplicatedNameWarning ex_file) = [1; 1]%Z /\ map d_name (duplicatedNameWarning ex_file) = [%"a"; %"a"] /\
  map (fun e => p_line (start_pos e)) (printWarning ex_file) = [4]%Z /\ map (fun e => p_line (start_pos e)) (positionalArgumentsWarning ex_file) = [4]%Z /\ map snd (argsKwargsInBuildFilesWarning ex_file) = [true] /\
  a_file ex_file TypeBuild (stmts_of ex_file) /\ nativeInBuildFilesFix (EFile no_com (FMeta [] [] [] TypeBuild) [Some (EDot no_com (EIdent (Ident no_com no_pos %"native")) no_pos no_pos %"x")]) = EFile no_com (FMeta [] [] [] TypeBuild) [Some (EIdent (Ident no_com no_pos %"x"))].
Proof.
  split; [vm_compute; reflexivity|]. split; [vm_compute; reflexivity|]. split; [vm_compute; reflexivity|]. split; [vm_compute; reflexivity|]. split; [vm_compute; reflexivity|]. split; [vm_compute; reflexivity|]. split; [do 4 eexists; reflexivity|vm_compute; reflexivity].
Qed.
