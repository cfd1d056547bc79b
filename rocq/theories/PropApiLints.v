(** C99: the lints about names and calls of the Bazel API. *)
From Verif Require Import LRTables LRCert Parse PropComplete.
From Verif Require Import Base BaseProofs Ast ParseFile Walk WalkSpec WalkProofs WalkGen PropWalk RuleSpec RuleProofs Print PropPrint AttrParams PropAttr CallLints PropCallLints NotLoaded PropNotLoaded ApiLints.
From Coq Require Import Sorted.
Local Open Scope list_scope.

(** ** What is asked for *)
(** As [found_in], when what is found in a node depends on the nodes above it *)
Definition found_under {R} (Q : list expr -> expr -> list R -> Prop) (f : expr) (found : list R) : Prop :=
  exists places blocks, StronglySorted path_before places /\ (forall p, In p places <-> node_at children f p <> None) /\
    Forall2 (fun p b => exists e, node_at children f p = Some e /\ Q (above children f p) e b) places blocks /\ found = List.concat blocks.
(** A name to which nothing above gives a meaning *)
Definition free_under (above : list expr) (n : bytes) : Prop := forall a, In a above -> ~ binds n a.
Definition free_name (n : bytes) (above : list expr) (e : expr) (i : ident) : Prop := e = EIdent i /\ i_name i = n /\ free_under above n.
Definition a_load (e : expr) : Prop := exists c p m from to r k, e = ELoad c p m from to r k.
Definition in_load (above : list expr) : Prop := exists pre l, above = pre ++ [l] /\ a_load l.
(** attr.name(args) *)
Definition call_attr (name : bytes) (e : expr) (args : list expr) : Prop := exists c c' i p q ls en k m, e = ECall c (EDot c' (EIdent i) p q name) ls args en k m /\ i_name i = %"attr".
(** The first argument with a keyword *)
Definition keyed (key : bytes) (args : list expr) (a v : expr) : Prop := exists pre post, args = pre ++ a :: post /\ no_attr key pre /\ gives key a v.
Definition bare_default (e : expr) (b : list expr) : Prop :=
  (exists args a v, call_attr %"output" e args /\ keyed %"default" args a v /\ b = [a]) \/ ((forall args, call_attr %"output" e args -> no_attr %"default" args) /\ b = []).
(** The implementation of a rule: by keyword, or the first argument *)
Definition implementation (args : list expr) (v : expr) : Prop := (exists a, keyed %"implementation" args a v) \/ (no_attr %"implementation" args /\ exists l, args = v :: l).
Definition implements (f : expr) (n : bytes) : Prop := exists path e args i, node_at children f path = Some e /\ call_to %"rule" e args /\ implementation args (EIdent i) /\ i_name i = n.
Definition returns_struct (e : expr) : Prop := exists c p x args, e = EReturn c p (Some x) /\ call_to %"struct" x args.
Inductive struct_returns (f : expr) : list (option expr) -> list expr -> Prop :=
  | sr_nil : struct_returns f [] []
  | sr_impl c p ps b n q k m t l found rest : implements f n -> found_in (only_if returns_struct) (EDef c p ps b n q k m t) found -> struct_returns f l rest ->
      struct_returns f (Some (EDef c p ps b n q k m t) :: l) (found ++ rest)
  | sr_other s l rest : (forall c p ps b n q k m t, s = Some (EDef c p ps b n q k m t) -> ~ implements f n) -> struct_returns f l rest -> struct_returns f (s :: l) rest.
(** provider(...) without fields, without a documentation by keyword or as the first argument *)
Definition incomplete (e : expr) (b : list (expr * bool * bool)) : Prop :=
  (exists args fields doc, call_to %"provider" e args /\ (fields = true <-> no_attr %"fields" args) /\
     (doc = true <-> no_attr %"doc" args /\ forall a l, args = a :: l -> keyword_argument a) /\ b = (if fields || doc then [(e, fields, doc)] else [])) \/
  ((forall args, ~ call_to %"provider" e args) /\ b = []).
(** A dictionary, and each of its keys that is one of the names *)
Definition key_is (it : expr) (n : bytes) : Prop := exists c s q v, it = EKV c (EStr s) q v /\ s_value s = n.
Inductive keys_among (names : list bytes) (e : expr) : list expr -> list (expr * bytes) -> Prop :=
  | ka_nil : keys_among names e [] []
  | ka_name it n l b : key_is it n -> In n names -> keys_among names e l b -> keys_among names e (it :: l) ((e, n) :: b)
  | ka_other it l b : (forall n, key_is it n -> ~ In n names) -> keys_among names e l b -> keys_among names e (it :: l) b.
Definition forbidden_keys (names : list bytes) (e : expr) (b : list (expr * bytes)) : Prop :=
  (exists c p l en m, e = EDict c p l en m /\ keys_among names e l b) \/ ((forall c p l en m, e <> EDict c p l en m) /\ b = []).

(** ** Proofs *)
Lemma above_found {R} (Q : list expr -> expr -> list R -> Prop) (g : list expr -> expr -> list R) f : (forall stk e, Q stk e (g stk e)) -> found_under Q f (walk_above g f).
Proof.
  intro H. destruct (C28_walk_preorder f) as (ps & So & _ & I & F). exists ps, (map (fun v => g (snd v) (fst v)) (Walk f)). split; auto. split; auto. split.
  - clear So I. induction F as [|p q ps l [A B] F IH]; constructor; auto. exists (fst q). split; auto. rewrite B. auto.
  - unfold walk_above. now rewrite flat_map_concat_map.
Qed.
Lemma in_bzl_eq {R} (l : list R) f stmts : a_file f TypeBzl stmts -> in_bzl_file l f = l.
Proof. intros (c & path & pk & la & ->). auto. Qed.
Lemma in_bzl_other {R} (l : list R) f t stmts : a_file f t stmts -> t <> TypeBzl -> in_bzl_file l f = [].
Proof. intros (c & path & pk & la & ->) N. unfold in_bzl_file. cbn [file_type]. destruct t; auto. now elim N. Qed.
Lemma call_is e name : match isFunctionCall e name with Some args => call_to name e args | None => forall args, ~ call_to name e args end.
Proof.
  assert (N : (forall c i p args en k m, e = ECall c (EIdent i) p args en k m -> i_name i <> name) -> forall args, ~ call_to name e args).
  { intros H args (c & i & p & en & k & m & -> & E). now apply (H c i p args en k m). }
  unfold isFunctionCall. destruct e; try (apply N; intros; discriminate). match goal with |- context [match ?x with EIdent _ => _ | _ => _ end] => destruct x; try (apply N; intros; discriminate) end. destruct (beq (i_name i) name) eqn:E.
  - apply beq_eq in E. do 6 eexists. split; [reflexivity|auto].
  - apply beq_neq in E. apply N. intros ? ? ? ? ? ? ? [= <- <- <- <- <- <- <-]. auto.
Qed.
Lemma call_to_fun name e a b : call_to name e a -> call_to name e b -> a = b.
Proof. intros (c & i & p & en & k & m & -> & _) (? & ? & ? & ? & ? & ? & E & _). injection E. auto. Qed.

(** The identifiers. *)
Definition free_found (n : bytes) (above : list expr) (e : expr) (b : list ident) : Prop := (exists i, free_name n above e i /\ b = [i]) \/ ((forall i, ~ free_name n above e i) /\ b = []).
Lemma global_spec n stk e : free_found n stk e (global_node n stk e).
Proof.
  destruct e; try (right; split; [intros ? (E & _); discriminate E|reflexivity]). cbn [global_node]. destruct (beq (i_name i) n) eqn:E.
  - apply beq_eq in E. destruct (bound_in stk (i_name i)) eqn:B; cbn [negb andb].
    + right. split; auto. intros j (Ej & _ & F). apply bound_spec in B as (a & I & B). rewrite E in B. now apply (F a I).
    + left. exists i. split; auto. split; auto. split; auto. rewrite E in B. exact (proj1 (unbound_spec _ _) B).
  - apply beq_neq in E. right. split; auto. intros j ([= <-] & Ej & _). auto.
Qed.
Theorem C99_global_names : forall n f t stmts, a_file f t stmts ->
  (t = TypeBzl -> found_under (free_found n) f (globalVariableUsageCheck n f)) /\ (t <> TypeBzl -> globalVariableUsageCheck n f = []).
Proof.
  intros n f t stmts F. unfold globalVariableUsageCheck. split; [intros ->; rewrite (in_bzl_eq _ f stmts) by auto; apply above_found, global_spec|intro; eapply in_bzl_other; eauto].
Qed.
Print Assumptions C99_global_names.
(** Their replacement, except for what a load statement names. *)
Definition renamed (n new : bytes) (above : list expr) (e e' : expr) : Prop :=
  (forall i, free_name n above e i -> ~ in_load above -> e' = EIdent (Ident (i_com i) (i_pos i) new)) /\ ((forall i, ~ free_name n above e i) \/ in_load above -> e' = e).
Lemma under_load_spec stk : under_load stk = true <-> in_load stk.
Proof.
  unfold under_load, in_load. split.
  - destruct (rev stk) as [|l r] eqn:E; [discriminate|]. intro H. exists (rev r), l. split; [rewrite <- (rev_involutive stk), E; reflexivity|]. destruct l; try discriminate. unfold a_load. eauto 9.
  - intros (pre & l & -> & (c & p & m & from & to & r & k & ->)). now rewrite rev_app_distr.
Qed.
Lemma global_cb_spec n new stk e : renamed n new stk e (global_cb n new stk e).
Proof.
  unfold renamed, global_cb. pose proof (global_spec n stk e) as G. destruct (global_node n stk e) as [|i l] eqn:Eg.
  - destruct G as [(i & _ & K)|[N _]]; [discriminate K|]. split; [intros i K; elim (N _ K)|]. intros _. destruct e; auto. now rewrite Eg.
  - destruct G as [(j & G & K)|[_ K]]; [|discriminate K]. injection K as -> ->. pose proof G as (-> & _). rewrite Eg. destruct (under_load stk) eqn:U.
    + apply under_load_spec in U. split; auto. intros ? _ K. now elim K.
    + split; [intros k ([= <-] & _) _; reflexivity|]. intros [K | K]; [elim (K _ G)|]. apply under_load_spec in K. rewrite K in U. discriminate U.
Qed.
Lemma global_cb_ident n new stk e : (exists i j, e = EIdent i /\ global_cb n new stk e = EIdent j) \/ global_cb n new stk e = e.
Proof. unfold global_cb. destruct e; auto. left. exists i. destruct (global_node _ _ _); [eauto|]. destruct (under_load _); eauto. Qed.
Theorem C99_global_fix : forall n new f stmts, a_file f TypeBzl stmts -> walked (renamed n new) [] f (globalVariableFix n new f).
Proof.
  intros n new f stmts F. unfold globalVariableFix. replace (file_type f) with TypeBzl by (symmetry; apply (file_type_spec f _ stmts F)). apply Edit_walked.
  - intros stk e. destruct (global_cb_ident n new stk e) as [(i & j & -> & ->)| ->]; auto.
  - split; intros stk x; [exists x; reflexivity|]. destruct (global_cb_ident n new stk (EIdent x)) as [(i & j & _ & ->)| ->]; eauto.
  - apply global_cb_spec.
Qed.
Print Assumptions C99_global_fix.
Theorem C99_package_name : forall f, packageNameWarning f = globalVariableUsageCheck %"PACKAGE_NAME" f /\ repositoryNameWarning f = globalVariableUsageCheck %"REPOSITORY_NAME" f /\
  packageNameFix f = globalVariableFix %"PACKAGE_NAME" %"native.package_name()" f /\ repositoryNameFix f = globalVariableFix %"REPOSITORY_NAME" %"native.repository_name()" f.
Proof. intro f. repeat (apply conj); reflexivity. Qed.
Print Assumptions C99_package_name.
(** FileType(...) where the file gives FileType no meaning. *)
Definition file_type_call (above : list expr) (e : expr) (b : list expr) : Prop :=
  ((exists args, call_to %"FileType" e args) /\ free_under above %"FileType" /\ b = [e]) \/ (((forall args, ~ call_to %"FileType" e args) \/ ~ free_under above %"FileType") /\ b = []).
Theorem C99_file_type : forall f t stmts, a_file f t stmts -> (t = TypeBzl -> found_under file_type_call f (fileTypeWarning f)) /\ (t <> TypeBzl -> fileTypeWarning f = []).
Proof.
  intros f t stmts F. unfold fileTypeWarning. split; [intros ->; rewrite (in_bzl_eq _ f stmts) by auto|intro; eapply in_bzl_other; eauto].
  apply above_found. intros stk e. unfold file_type_node. pose proof (call_is e %"FileType") as C. destruct (isFunctionCall e %"FileType") as [args|]; [|right; auto].
  destruct (bound_in stk %"FileType") eqn:B; [right|left].
  - split; auto. right. intro K. rewrite (proj2 (unbound_spec _ _) K) in B. discriminate B.
  - split; [eauto|]. split; auto. exact (proj1 (unbound_spec _ _) B).
Qed.
Print Assumptions C99_file_type.
Lemma attr_call_spec e name : match attr_call e name with Some args => call_attr name e args | None => forall args, ~ call_attr name e args end.
Proof.
  assert (N : (forall c c' i p q ls args en k m, e = ECall c (EDot c' (EIdent i) p q name) ls args en k m -> i_name i <> %"attr") -> forall args, ~ call_attr name e args).
  { intros H args (c & c' & i & p & q & ls & en & k & m & -> & E). now apply (H c c' i p q ls args en k m). }
  unfold attr_call. destruct e; try (apply N; intros; discriminate). match goal with |- context [match ?x with EDot _ _ _ _ _ => _ | _ => _ end] => destruct x as [| | | | | | | |? dx ? ? nm| | | | | | | | | | | | | | | | | | | | |]; try (apply N; intros; discriminate) end. destruct dx; try (apply N; intros; discriminate).
  destruct (beq nm name) eqn:E; cbn [andb]; [|apply N; intros ? ? ? ? ? ? ? ? ? ? K; injection K as _ _ _ _ _ K _ _ _ _ _; subst; rewrite beq_refl in E; discriminate E].
  apply beq_eq in E. subst nm. destruct (beq (i_name i) %"attr") eqn:E.
  - apply beq_eq in E. unfold call_attr. do 9 eexists. split; [reflexivity|auto].
  - apply beq_neq in E. apply N. intros ? ? ? ? ? ? ? ? ? ? K. injection K as _ _ <- _ _ _ _ _ _ _. auto.
Qed.
Lemma call_attr_fun name e a b : call_attr name e a -> call_attr name e b -> a = b.
Proof. intros (c & c' & i & p & q & ls & en & k & m & -> & _) (? & ? & ? & ? & ? & ? & ? & ? & ? & E & _). injection E. auto. Qed.
Lemma keyed_spec args key : match getParam args key with
  | Some (i, v) => exists a, nth_error args i = Some a /\ keyed key args a v
  | None => no_attr key args end.
Proof.
  pose proof (getParam_spec key args) as G. destruct (getParam args key) as [[i v]|]; auto. destruct G as (pre & x & post & -> & <- & A & B). exists x. split; [|unfold keyed; eauto].
  rewrite nth_error_app2, PeanoNat.Nat.sub_diag by lia. reflexivity.
Qed.
Lemma keyed_not_no key args a v : keyed key args a v -> ~ no_attr key args.
Proof. intros (pre & post & -> & _ & G) N. apply (N a v); auto. apply in_app_iff. right. now left. Qed.
Theorem C99_output_default : forall f t stmts, a_file f t stmts -> (t = TypeBzl -> found_in bare_default f (attrOutputDefaultWarning f)) /\ (t <> TypeBzl -> attrOutputDefaultWarning f = []).
Proof.
  intros f t stmts F. unfold attrOutputDefaultWarning. split; [intros ->; rewrite (in_bzl_eq _ f stmts) by auto|intro; eapply in_bzl_other; eauto].
  apply walk_found. intro e. unfold output_node. pose proof (attr_call_spec e %"output") as C. destruct (attr_call e %"output") as [args|]; [|right; split; auto; intros ? K; now apply C in K].
  pose proof (keyed_spec args %"default") as K. destruct (getParam args %"default") as [[i v]|].
  - destruct K as (a & -> & K). left. eauto 6.
  - right. split; auto. intros args' C'. now rewrite (call_attr_fun _ _ _ _ C' C).
Qed.
Print Assumptions C99_output_default.
Theorem C99_license : forall f t stmts, a_file f t stmts ->
  (t = TypeBzl -> found_in (only_if (fun e => exists args, call_attr %"license" e args)) f (attrLicenseWarning f)) /\ (t <> TypeBzl -> attrLicenseWarning f = []).
Proof.
  intros f t stmts F. unfold attrLicenseWarning. split; [intros ->; rewrite (in_bzl_eq _ f stmts) by auto|intro; eapply in_bzl_other; eauto].
  apply walk_found. intro e. pose proof (attr_call_spec e %"license") as C. destruct (attr_call e %"license") as [args|]; [left; eauto|]. right. split; auto. intros (args & K). now apply C in K.
Qed.
Print Assumptions C99_license.
(** Rules. *)
Lemma keyed_fun key args a v a' v' : keyed key args a v -> keyed key args a' v' -> a = a' /\ v = v'.
Proof. intros (pre & post & -> & N & G) (pre' & post' & E & N' & G'). destruct (first_split key pre a v post pre' a' v' post' E N N' G G') as (_ & ? & ? & _). auto. Qed.
Lemma implementation_fun args v v' : implementation args v -> implementation args v' -> v = v'.
Proof.
  intros [(a & K)|(N & l & ->)] [(a' & K')|(N' & l' & E)].
  - eapply keyed_fun; eauto.
  - now apply keyed_not_no in K.
  - now apply keyed_not_no in K'.
  - injection E. auto.
Qed.
Lemma impl_spec e n : In n (impl_node e) <-> exists args i, call_to %"rule" e args /\ implementation args (EIdent i) /\ i_name i = n.
Proof.
  unfold impl_node. pose proof (call_is e %"rule") as C. destruct (isFunctionCall e %"rule") as [args|]; [|split; [intros []|intros (args & i & K & _); now apply C in K]].
  assert (M : match (match getParam args %"implementation" with Some (_, v) => Some v | None => hd_error args end) with Some v => implementation args v | None => forall v, ~ implementation args v end).
  { pose proof (keyed_spec args %"implementation") as K. destruct (getParam args %"implementation") as [[i v]|].
    - destruct K as (a & _ & K). left. eauto.
    - destruct args as [|a l]; cbn [hd_error]; [|right; eauto]. intros v [(a & pre & post & E & _)|(_ & l & E)]; [destruct pre; discriminate E|discriminate E]. }
  destruct (match getParam args %"implementation" with Some (_, v) => Some v | None => hd_error args end) as [v|].
  - assert (O : (forall i, v <> EIdent i) -> In n [] <-> exists args i, call_to %"rule" e args /\ implementation args (EIdent i) /\ i_name i = n).
    { intro H. split; [intros []|]. intros (args' & i & C' & I & _). rewrite (call_to_fun _ _ _ _ C' C) in I. pose proof (implementation_fun _ _ _ I M) as E. now elim (H i). }
    destruct v; try (apply O; intros; discriminate). split.
    + intros [<- | []]. eauto.
    + intros (args' & j & C' & I & <-). rewrite (call_to_fun _ _ _ _ C' C) in I. pose proof (implementation_fun _ _ _ I M) as [= ->]. now left.
  - split; [intros []|]. intros (args' & i & C' & I & _). rewrite (call_to_fun _ _ _ _ C' C) in I. now apply M in I.
Qed.
Lemma walked_in {R} (g : expr -> list R) f x : In x (walk_nodes g f) <-> exists path e, node_at children f path = Some e /\ In x (g e).
Proof.
  unfold walk_nodes. rewrite in_flat_map. split.
  - intros (e & I & G). apply in_map_iff in I as ([e' stk] & <- & I). apply PropDictSort.walk_in in I as (path & N & _). eauto.
  - intros (path & e & N & G). exists e. split; auto. apply in_map_iff. exists (e, above children f path). split; auto. apply PropDictSort.walk_in. eauto.
Qed.
Lemma impls_spec f n : In n (walk_nodes impl_node f) <-> implements f n.
Proof.
  rewrite walked_in. unfold implements. split.
  - intros (path & e & N & I). apply impl_spec in I as (args & i & A & B & C). eauto 8.
  - intros (path & e & args & i & N & A & B & C). exists path, e. split; auto. apply impl_spec. eauto.
Qed.
Lemma return_spec e : only_if returns_struct e (return_node e).
Proof.
  assert (O : (forall c p x, e <> EReturn c p (Some x)) -> only_if returns_struct e []) by (intro H; right; split; auto; intros (c & p & x & args & E & _); now apply (H c p x)).
  destruct e; try (apply O; intros; discriminate). destruct x as [x|]; [|apply O; intros; discriminate]. cbn [return_node]. pose proof (call_is x %"struct") as C. destruct (isFunctionCall x %"struct") as [args|].
  - left. split; auto. unfold returns_struct. eauto 6.
  - right. split; auto. intros (? & ? & ? & args & E & K). injection E as <- <- <-. now apply C in K.
Qed.
Theorem C99_struct_return : forall f t stmts, a_file f t stmts -> (t = TypeBzl -> struct_returns f stmts (ruleImplReturnWarning f)) /\ (t <> TypeBzl -> ruleImplReturnWarning f = []).
Proof.
  intros f t stmts F. unfold ruleImplReturnWarning. split; [intros ->; rewrite (in_bzl_eq _ f stmts) by auto|intro; eapply in_bzl_other; eauto].
  replace (stmts_of f) with stmts by (symmetry; apply (file_type_spec f _ stmts F)). clear F. induction stmts as [|s l IH]; [constructor|]. cbn [flat_map].
  assert (O : (forall c p ps b n q k m t, s <> Some (EDef c p ps b n q k m t)) -> struct_returns f (s :: l) ([] ++ flat_map (fun s => match s with
    | Some (EDef c p ps b n q k m t) => if mem_bytes n (walk_nodes impl_node f) then walk_nodes return_node (EDef c p ps b n q k m t) else []
    | _ => [] end) l)).
  { intro H. apply sr_other; auto. intros c p ps b n q k m t E. now apply H in E. }
  destruct s as [s|]; [|apply O; intros; discriminate]. destruct s; try (apply O; intros; discriminate).
  match goal with |- context [mem_bytes ?n ?l] => destruct (mem_bytes n l) eqn:E end.
  - apply mem_bytes_In, impls_spec in E. apply sr_impl; auto. apply walk_found, return_spec.
  - apply sr_other; auto. intros ? ? ? ? ? ? ? ? ? [= <- <- <- <- <- <- <- <- <-] K. apply impls_spec in K. apply mem_bytes_In in K. rewrite K in E. discriminate E.
Qed.
Print Assumptions C99_struct_return.
(** Providers. *)
Theorem C99_provider : forall f t stmts, a_file f t stmts -> (t = TypeBzl -> found_in incomplete f (providerParamsWarning f)) /\ (t <> TypeBzl -> providerParamsWarning f = []).
Proof.
  intros f t stmts F. unfold providerParamsWarning. split; [intros ->; rewrite (in_bzl_eq _ f stmts) by auto|intro; eapply in_bzl_other; eauto].
  apply walk_found. intro e. unfold provider_node. pose proof (call_is e %"provider") as C. destruct (isFunctionCall e %"provider") as [args|]; [|right; auto].
  left. cbv zeta. eexists args, _, _. split; [exact C|]. split; [|split; [|reflexivity]].
  - pose proof (keyed_spec args %"fields") as K. destruct (getParam args %"fields") as [[i v]|]; [|tauto]. destruct K as (a & _ & K). split; [discriminate|]. intro N. now apply keyed_not_no in K.
  - pose proof (keyed_spec args %"doc") as K. destruct (getParam args %"doc") as [[i v]|].
    + destruct K as (a & _ & K). split; [discriminate|]. intros [N _]. now apply keyed_not_no in K.
    + destruct args as [|a l]; cbn [negb]; [split; auto; intros _; split; auto; discriminate|]. rewrite Bool.negb_involutive. split.
      * intro H. apply keyword_arg_spec in H. split; auto. now intros ? ? [= <- <-].
      * intros [_ H]. apply keyword_arg_spec. eauto.
Qed.
Print Assumptions C99_provider.
(** Keys of dictionaries. *)
Lemma names_once (names : list bytes) (e : expr) (n : bytes) : NoDup names -> flat_map (fun m => if beq n m then [(e, n)] else []) names = if mem_bytes n names then [(e, n)] else [].
Proof.
  induction names as [|m l IH]; intro D; auto. inversion D as [|? ? N D']; subst. cbn [flat_map]. rewrite IH by auto. unfold mem_bytes at 2. cbn [existsb]. destruct (beq n m) eqn:E.
  - apply beq_eq in E. subst m. cbn [orb]. destruct (mem_bytes n l) eqn:M; auto. apply mem_bytes_In in M. contradiction.
  - reflexivity.
Qed.
Lemma keys_spec names e : NoDup names -> forbidden_keys names e (attr_name_node names e).
Proof.
  intro D. destruct e; try (right; split; [intros; discriminate|reflexivity]). left. do 5 eexists. split; [reflexivity|]. cbn [attr_name_node]. match goal with |- keys_among _ ?x _ _ => generalize x as d end. intro d.
  induction l as [|it l IH]; [constructor|]. cbn [flat_map].
  assert (O : (forall c s q v, it <> EKV c (EStr s) q v) -> keys_among names d (it :: l) ([] ++ flat_map (fun it => match it with
      | EKV _ (EStr s) _ _ => flat_map (fun n => if beq (s_value s) n then [(d, s_value s)] else []) names
      | _ => [] end) l)).
  { intro H. apply ka_other; auto. intros n (? & ? & ? & ? & E & _). now apply H in E. }
  destruct it; try (apply O; intros; discriminate). match goal with |- context [EKV _ ?k _ _] => destruct k; try (apply O; intros; discriminate) end.
  rewrite names_once by auto. destruct (mem_bytes (s_value s) names) eqn:M.
  - apply mem_bytes_In in M. apply (ka_name names d _ (s_value s)); auto. do 4 eexists. split; reflexivity.
  - apply ka_other; auto. intros n (? & ? & ? & ? & E & <-) K. injection E as <- <- <- <-. apply mem_bytes_In in K. rewrite K in M. discriminate M.
Qed.
Theorem C99_attr_names : forall names f t stmts, NoDup names -> a_file f t stmts -> (t = TypeBzl -> found_in (forbidden_keys names) f (attrNameWarning names f)) /\ (t <> TypeBzl -> attrNameWarning names f = []).
Proof.
  intros names f t stmts D F. unfold attrNameWarning. split; [intros ->; rewrite (in_bzl_eq _ f stmts) by auto|intro; eapply in_bzl_other; eauto].
  apply walk_found. intro e. now apply keys_spec.
Qed.
Print Assumptions C99_attr_names.
Theorem C99_licenses : forall f t stmts, a_file f t stmts ->
  (t = TypeBzl -> found_in (forbidden_keys [%"licenses"]) f (attrLicensesWarning f) /\ found_in (forbidden_keys [%"applicable_licenses"; %"package_metadata"]) f (attrApplicableLicensesWarning f)) /\
  (t <> TypeBzl -> attrLicensesWarning f = [] /\ attrApplicableLicensesWarning f = []).
Proof.
  intros f t stmts F. assert (D1 : NoDup [%"licenses"]) by (repeat constructor; auto). assert (D2 : NoDup [%"applicable_licenses"; %"package_metadata"]).
  { constructor; [|constructor; auto; constructor]. intros [E|[]]. discriminate E. }
  destruct (C99_attr_names _ f t stmts D1 F), (C99_attr_names _ f t stmts D2 F). split; intro; split; auto.
Qed.
Print Assumptions C99_licenses.
(** ** What does not hold *)
Definition checked {R} (g : expr -> list R) (l : list bytes) : option (list R) := match parse_file meta (lines l) with Some f => Some (g f) | None => None end.
(** The keyword of an argument is not a variable: with the replacement the file does not parse any more. *)
Theorem C99_keyword_refuted : exists out, fixed packageNameFix (lines [%"f(PACKAGE_NAME = 1)"]) = Some out /\ out = lines [%"f(native.package_name() = 1)"] /\ parse_file meta out = None.
Proof. eexists. split; [vm_compute; reflexivity|]. split; vm_compute; reflexivity. Qed.
Print Assumptions C99_keyword_refuted.
(** Neither is the parameter of a lambda, nor what is loaded under another name; the latter is reported again after the replacement. *)
Theorem C99_not_global_refuted :
  fixed packageNameFix (lines [%"f = lambda PACKAGE_NAME: PACKAGE_NAME"]) = Some (lines [%"f = lambda native.package_name(): native.package_name()"]) /\
  checked (fun f => map i_name (packageNameWarning (packageNameFix f))) [%"load("":my.bzl"", p = ""PACKAGE_NAME"")"] = Some [%"PACKAGE_NAME"].
Proof. split; vm_compute; reflexivity. Qed.
Print Assumptions C99_not_global_refuted.
(** A function inside an implementation may return what it likes; an implementation may be given in parentheses. *)
Theorem C99_struct_return_refuted :
  checked (fun f => map (fun e => p_line (start_pos e)) (ruleImplReturnWarning f)) [%"def f(ctx):"; %"    def g():"; %"        return struct()"; %""; %"    return []"; %""; %"r = rule(f)"] = Some [3%Z] /\
  checked (fun f => map (fun e => p_line (start_pos e)) (ruleImplReturnWarning f)) [%"def f(ctx):"; %"    return struct()"; %""; %"r = rule(implementation = (f))"] = Some [].
Proof. split; vm_compute; reflexivity. Qed.
Print Assumptions C99_struct_return_refuted.
(** Keys of any dictionary are taken for names of attributes, but not the keywords of dict(...). *)
Theorem C99_attr_names_refuted :
  checked (fun f => map snd (attrLicensesWarning f)) [%"x = {""licenses"": 1}"] = Some [%"licenses"] /\ checked (fun f => map snd (attrLicensesWarning f)) [%"r = rule(attrs = dict(licenses = attr.string()))"] = Some [].
Proof. split; vm_compute; reflexivity. Qed.
Print Assumptions C99_attr_names_refuted.
Definition start_of (e : expr) : Z * Z := (p_line (start_pos e), p_rune (start_pos e)).
Definition ex_api : list bytes :=
  [%"x = PACKAGE_NAME + REPOSITORY_NAME"; %""; %"def f(ctx, REPOSITORY_NAME):"; %"    y = [PACKAGE_NAME for PACKAGE_NAME in FileType([PACKAGE_NAME])]"; %"    if y:"; %"        return struct(a = REPOSITORY_NAME)"; %"    return g(struct())"; %"";
   %"def h(FileType):"; %"    return struct(x = FileType(1))"; %""; %"r = rule(attrs = {""licenses"": attr.license(1), ""a"": attr.output(x, default = 2), ""package_metadata"": attr.label(default = 3), a: 1}, implementation = f)";
   %"p = [provider(), provider(""d""), provider(fields = []), provider(doc = 1, fields = 2), provider(fields = 1, doc = 2), rule(k, fields = h)]"].
Example C99_nontrivial :
  checked (fun f => map (fun i => start_of (EIdent i)) (packageNameWarning f)) ex_api = Some [(1, 5)]%Z /\ checked (fun f => map (fun i => start_of (EIdent i)) (repositoryNameWarning f)) ex_api = Some [(1, 20)]%Z /\
  checked (fun f => map start_of (fileTypeWarning f)) ex_api = Some [(4, 43)]%Z /\ checked (fun f => map start_of (ruleImplReturnWarning f)) ex_api = Some [(6, 9)]%Z /\
  checked (fun f => map start_of (attrOutputDefaultWarning f)) ex_api = Some [(12, 68)]%Z /\ checked (fun f => map start_of (attrLicenseWarning f)) ex_api = Some [(12, 31)]%Z /\
  checked (fun f => map snd (attrLicensesWarning f)) ex_api = Some [%"licenses"] /\ checked (fun f => map snd (attrApplicableLicensesWarning f)) ex_api = Some [%"package_metadata"] /\
  checked (fun f => map (fun r => (start_of (fst (fst r)), snd (fst r), snd r)) (providerParamsWarning f)) ex_api = Some [((13, 6), true, true); ((13, 18), true, false); ((13, 33), false, true)]%Z.
Proof. vm_compute. repeat (apply conj); reflexivity. Qed.
Example C99_fix_nontrivial :
  fixed (fun f => packageNameFix (repositoryNameFix f)) (lines [%"x = PACKAGE_NAME + REPOSITORY_NAME"; %""; %"def f(REPOSITORY_NAME):"; %"    return REPOSITORY_NAME + PACKAGE_NAME"]) =
  Some (lines [%"x = native.package_name() + native.repository_name()"; %""; %"def f(REPOSITORY_NAME):"; %"    return REPOSITORY_NAME + native.package_name()"]).
Proof. vm_compute. reflexivity. Qed.
