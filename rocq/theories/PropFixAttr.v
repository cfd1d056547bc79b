(** C75 (useless visibility and testonly attributes) and C77 (short labels). *)
From Verif Require Import Base BaseProofs Order Ast Labels LabelsProofs RuleApi RuleSpec RuleProofs EditList EditListSpec EditListProofs EditFile EditFileSpec PropEditFile PropTop Fix.

(** ** C75: removing attributes with their default value *)
Definition string_list (e : expr) (l : list bytes) : Prop := exists c s es en m, e = EList c s (map EStr es) en m /\ map s_value es = l.
(** The first package() of the file has the attribute. *)
Definition package_says (stmts : list (option expr)) (key : bytes) (v : expr) : Prop :=
  exists a s b x args, stmts = a ++ s :: b /\ Forall (fun t => ~ package_stmt t) a /\ package_stmt s /\ calls s x args /\ attr_is key args v.
Definition package_silent (stmts : list (option expr)) (key : bytes) : Prop := forall v, ~ package_says stmts key v.
(** No argument is given twice. *)
Definition once (key : bytes) (args : list expr) : Prop := forall a x b v, args = a ++ x :: b -> gives key x v -> no_attr key (a ++ b).
(** The visibility of a rule: its own, or that of the package, or private.  (The files of exports_files are public unless it
    has a visibility of its own: Bazel's documentation of that function.) *)
Definition default_visible (stmts : list (option expr)) (l : list bytes) : Prop :=
  (exists v, package_says stmts %"default_visibility" v /\ string_list v l) \/
  (package_silent stmts %"default_visibility" /\ l = [%"//visibility:private"]).
Definition visible (kind : bytes) (stmts : list (option expr)) (args : list expr) (l : list bytes) : Prop :=
  (exists v, attr_is %"visibility" args v /\ string_list v l) \/
  (no_attr %"visibility" args /\ kind <> %"exports_files" /\ default_visible stmts l) \/
  (no_attr %"visibility" args /\ kind = %"exports_files" /\ l = [%"//visibility:public"]).
(** Is the rule testonly?  Tests are; otherwise the package may say so; otherwise everything in javatests is. *)
Definition truth (v : expr) (b : bool) : Prop :=
  exists t, ((exists i, v = EIdent i /\ i_name i = t) \/ (exists c p, v = ELit c p t)) /\ In t (if b then [%"1"; %"True"] else [%"0"; %"False"]).
Definition test_kind (kind : bytes) : Prop := (exists k, kind = k ++ %"_test") \/ kind = %"test_suite".
Definition default_test (stmts : list (option expr)) (kind pkg : bytes) (b : bool) : Prop :=
  (test_kind kind /\ b = true) \/
  (~ test_kind kind /\ exists v, package_says stmts %"default_testonly" v /\ truth v b) \/
  (~ test_kind kind /\ package_silent stmts %"default_testonly" /\ (b = true <-> exists r, pkg = %"javatests/" ++ r)).
Definition testonly (stmts : list (option expr)) (kind pkg : bytes) (args : list expr) (b : bool) : Prop :=
  (exists v, attr_is %"testonly" args v /\ truth v b) \/ (no_attr %"testonly" args /\ default_test stmts kind pkg b).

Lemma all_strings_spec l : forall r, all_strings l = Some r <-> exists es, l = map EStr es /\ map s_value es = r.
Proof.
  induction l as [|x l IH]; intro r; cbn [all_strings].
  - split; [intro H; injection H as <-; exists []; auto|]. intros ([|] & E & <-); [auto|discriminate].
  - split.
    + destruct x; try discriminate. intro H. destruct (all_strings l) as [r'|]; [|discriminate]. injection H as <-. destruct (proj1 (IH r') eq_refl) as (es & -> & <-). exists (s :: es). auto.
    + intros ([|s es] & E & <-); [discriminate|]. cbn in E. injection E as -> ->. cbn. rewrite (proj2 (IH (map s_value es))); eauto.
Qed.
Lemma Strings_spec e r : Strings (Some e) = Some r <-> string_list e r.
Proof.
  unfold string_list. split.
  - destruct e; try discriminate. cbn. intro H. apply all_strings_spec in H as (es & -> & <-). eauto 9.
  - intros (c & s & es & en & m & -> & <-). cbn. apply all_strings_spec. eauto.
Qed.
Lemma package_args_spec stmts key :
  match package_args stmts with
  | Some args => forall v, package_says stmts key v <-> attr_is key args v
  | None => package_silent stmts key
  end.
Proof.
  unfold package_args, ExistingPackageDeclaration, package_silent, package_says.
  assert (F : match find (fun s => ExprToRule s %"package") stmts with
              | Some s => exists a b, stmts = a ++ s :: b /\ Forall (fun t => ~ package_stmt t) a /\ package_stmt s
              | None => Forall (fun t => ~ package_stmt t) stmts end).
  { induction stmts as [|s l IH]; cbn [find]; [constructor|]. fold (pk s). destruct (pk s) eqn:P.
    - exists [], l. repeat split; auto. now apply pk_spec.
    - assert (N : ~ package_stmt s) by (intro X; apply pk_spec in X; congruence). destruct (find _ l) as [t|]; [|auto]. destruct IH as (a & b & -> & H1 & H2). exists (s :: a), b. auto. }
  destruct (find _ stmts) as [s|].
  - destruct F as (a & b & E & Fa & P). pose proof P as P0. destruct P as (c & i & p & l & en & k & m & -> & _). cbn. intro v. split.
    + intros (a' & s' & b' & x & args & E' & Fa' & P' & (c' & q & en' & k' & m' & ->) & A).
      assert (Eq : a' = a). { clear - E E' Fa Fa' P' P0. subst. revert a' E' Fa'. induction a as [|y a IH]; intros [|z a'] E' Fa'; auto; cbn in E'; injection E' as E1 E2.
        - inversion_clear Fa'. subst. contradiction.
        - inversion_clear Fa. subst. contradiction.
        - inversion_clear Fa; inversion_clear Fa'. f_equal; auto. }
      subst a'. rewrite E in E'. apply app_inv_head in E'. injection E' as <- <- <- <- <- <- <- <-. exact A.
    + intro A. exists a, (Some (ECall c (EIdent i) p l en k m)), b, (EIdent i), l. repeat split; auto. unfold calls. eauto 9.
  - intros v (a & s & b & x & args & -> & _ & P & _). apply Forall_app in F as [_ F]. inversion_clear F. contradiction.
Qed.
Lemma default_visibility_spec stmts l : default_visible stmts l -> default_visibility stmts = l.
Proof.
  unfold default_visible, default_visibility. pose proof (package_args_spec stmts %"default_visibility") as P. destruct (package_args stmts) as [args|].
  - intros [(v & S & L)|[S ->]].
    + apply P in S. apply attr_is_some in S. unfold AttrStrings. rewrite S. apply Strings_spec in L. rewrite L. auto.
    + destruct (Attr _ args) as [v|] eqn:A; auto. apply attr_is_some in A. apply P in A. elim (S v A).
  - intros [(v & S & L)|[S ->]]; auto. elim (P v S).
Qed.
Lemma same_strings_eq l : forall l', same_strings l l' = true <-> l = l'.
Proof.
  induction l as [|x l IH]; intros [|y l']; cbn; split; try discriminate; auto.
  - intro H. apply andb_true_iff in H as [H1 H2]. apply beq_eq in H1. apply IH in H2. congruence.
  - intro H. injection H as -> ->. rewrite beq_refl. now apply IH.
Qed.
Lemma defined_del key args v : once key args -> attr_is key args v -> exists a x b, args = a ++ x :: b /\ gives key x v /\ snd (DelAttr key args) = a ++ b /\ no_attr key (a ++ b).
Proof.
  intros O A. apply attr_is_split in A as (a & x & b & -> & N & G). exists a, x, b. split; auto. split; auto. split; [|now apply (O a x b v)].
  erewrite DelAttr_existing by eauto. reflexivity.
Qed.
Lemma isort_blt_perm l l' : isort blt l = isort blt l' <-> Permutation l l'.
Proof.
  split.
  - intro H. rewrite <- (isort_perm blt l), H. apply isort_perm.
  - intro P. assert (Q : Permutation (isort blt l) (isort blt l')) by (rewrite !isort_perm; auto).
    pose proof (isort_swo_sorted blt l swo_blt) as S1. pose proof (isort_swo_sorted blt l' swo_blt) as S2. revert Q S1 S2. generalize (isort blt l) as a, (isort blt l') as b. clear.
    induction a as [|x a IH]; intros b Q Sa Sb; [now apply Permutation_nil in Q|]. destruct b as [|y b]; [apply Permutation_sym in Q; now apply Permutation_nil in Q|].
    assert (E : x = y).
    { apply StronglySorted_inv in Sa as [_ Fa]. apply StronglySorted_inv in Sb as [_ Fb]. rewrite Forall_forall in Fa, Fb.
      assert (X : In x (y :: b)) by (apply (Permutation_in _ Q); left; auto). assert (Y : In y (x :: a)) by (apply (Permutation_in _ (Permutation_sym Q)); left; auto).
      destruct X as [X|X]; auto. destruct Y as [Y|Y]; auto. specialize (Fa _ Y). specialize (Fb _ X). cbn in Fa, Fb.
      apply blt_incomparable; auto. }
    subst y. f_equal. apply IH; [eapply Permutation_cons_inv; eauto| |]; [now inversion Sa|now inversion Sb].
Qed.

(** The visibility of the rule stays the same (up to order), and nothing else changes. *)
Theorem C75_visibility_partial :
  forall kind stmts args, kind <> %"exports_files" -> once %"visibility" args -> let r := removeVisibility stmts args in
    (forall l, visible kind stmts args l -> exists l', Permutation l l' /\ visible kind stmts (snd r) l') /\
    (fst r = false -> snd r = args) /\
    (fst r = true -> exists a x b v, args = a ++ x :: b /\ gives %"visibility" x v /\ snd r = a ++ b).
Proof.
  intros kind stmts args NE O r. unfold r, removeVisibility. destruct (AttrStrings %"visibility" args) as [[|w l0]|] eqn:A; [cbn; split; [eauto|]; split; [auto|discriminate]| |cbn; split; [eauto|]; split; [auto|discriminate]].
  destruct (_ && _) eqn:E; [|cbn; split; [eauto|]; split; [auto|discriminate]]. cbn [fst snd].
  apply andb_true_iff in E as [_ E]. apply same_strings_eq, isort_blt_perm in E.
  unfold AttrStrings in A. destruct (Attr %"visibility" args) as [v|] eqn:Av; [|discriminate]. apply attr_is_some in Av. apply Strings_spec in A.
  destruct (defined_del _ _ _ O Av) as (a & x & b & -> & G & -> & N). split; [|split; [discriminate|intros _; eauto 9]].
  intros l [(v' & V & L)|[(V & _)|(V & _)]].
  - pose proof (attr_is_fun _ _ _ _ Av V). subst v'. assert (l = w :: l0) by (apply Strings_spec in A, L; congruence). subst l. exists (default_visibility stmts). split; auto. right. left. split; auto. split; auto.
    unfold default_visible, default_visibility in *. pose proof (package_args_spec stmts %"default_visibility") as P. destruct (package_args stmts) as [pargs|]; [|auto].
    unfold AttrStrings in *. destruct (Attr %"default_visibility" pargs) as [dv|] eqn:D.
    + left. exists dv. split; [apply P; now apply attr_is_some|]. apply Strings_spec. destruct (Strings (Some dv)) as [dl|]; auto. apply Permutation_sym, Permutation_nil in E. discriminate.
    + right. split; auto. intros u U. apply P, attr_is_some in U. congruence.
  - exfalso. apply (V x v); auto. apply in_or_app. right. left. auto.
  - exfalso. apply (V x v); auto. apply in_or_app. right. left. auto.
Qed.
(** A visibility that says the same as the default is removed. *)
Theorem C75_useless_visibility_removed :
  forall stmts args v l d, attr_is %"visibility" args v -> string_list v l -> l <> [] -> default_visible stmts d -> Permutation l d ->
    fst (removeVisibility stmts args) = true.
Proof.
  intros stmts args v l d A L Ne D P. unfold removeVisibility, AttrStrings. apply attr_is_some in A. rewrite A. apply Strings_spec in L. rewrite L. destruct l as [|w l]; [congruence|].
  rewrite (default_visibility_spec _ _ D). rewrite (Permutation_length P), Nat.eqb_refl. cbn [andb].
  rewrite (proj2 (same_strings_eq _ _)); auto. now apply isort_blt_perm.
Qed.

Lemma literal_truth (b : bool) v : (match v with EIdent i => i_name i | ELit _ _ t => t | _ => [] end) = (if b then %"1" else %"0") -> truth v b.
Proof.
  intro H. exists (if b then %"1" else %"0"). split; [|destruct b; left; auto]. destruct v; cbn in H; try (destruct b; discriminate H); [left|right]; subst; eauto.
Qed.
Lemma truth_fun v b b' : truth v b -> truth v b' -> b = b'.
Proof.
  intros (t & [(i & -> & <-)|(c & p & ->)] & H) (t' & [(i' & E & <-)|(c' & p' & E)] & H'); try discriminate; injection E as <-; try subst.
  - destruct b, b'; auto; destruct H as [H|[H|[]]], H' as [H'|[H'|[]]]; rewrite <- H in H'; discriminate.
  - destruct b, b'; auto; destruct H as [H|[H|[]]], H' as [H'|[H'|[]]]; rewrite <- H in H'; discriminate.
Qed.
Lemma test_kind_spec kind : has_suffix %"_test" kind || beq kind %"test_suite" = true <-> test_kind kind.
Proof.
  unfold test_kind. rewrite orb_true_iff, beq_eq. split; intros [H|H]; auto; left; apply has_suffix_spec; auto.
Qed.
Lemma default_testonly_spec stmts kind pkg b : default_testonly stmts kind pkg = Some b -> default_test stmts kind pkg b.
Proof.
  unfold default_testonly, default_test. destruct (_ || _) eqn:K; [intro H; injection H as <-; left; split; auto; now apply test_kind_spec|].
  assert (NK : ~ test_kind kind) by (rewrite <- test_kind_spec; congruence).
  assert (J : Some (has_prefix %"javatests/" pkg) = Some b -> (b = true <-> exists r, pkg = %"javatests/" ++ r)) by (intro H; assert (Hb : b = has_prefix %"javatests/" pkg) by congruence; rewrite Hb; apply has_prefix_spec).
  pose proof (package_args_spec stmts %"default_testonly") as P. destruct (package_args stmts) as [args|]; [|intro H; right; right; auto].
  destruct (Attr %"default_testonly" args) as [v|] eqn:A; [|intro H; right; right; split; auto; split; auto; intros v V; apply P, attr_is_some in V; congruence].
  unfold AttrLiteral. rewrite A. intro H. right. left. split; auto. exists v. split; [apply P; now apply attr_is_some|]. apply literal_truth.
  destruct (beq _ %"1") eqn:E1; [injection H as <-; now apply beq_eq|]. destruct (beq _ %"0") eqn:E0; [injection H as <-; now apply beq_eq|discriminate].
Qed.
(** The rule is testonly afterwards if and only if it was so before. *)
Theorem C75_testonly :
  forall stmts kind pkg args, once %"testonly" args -> let r := removeTestOnly stmts kind pkg args in
    (forall b, testonly stmts kind pkg args b -> testonly stmts kind pkg (snd r) b) /\
    (fst r = false -> snd r = args) /\
    (fst r = true -> exists a x b v, args = a ++ x :: b /\ gives %"testonly" x v /\ snd r = a ++ b).
Proof.
  intros stmts kind pkg args O r. unfold r, removeTestOnly. destruct (default_testonly stmts kind pkg) as [d|] eqn:D; [|cbn; split; [eauto|]; split; [auto|discriminate]].
  destruct (beq _ _) eqn:E; [|cbn; split; [eauto|]; split; [auto|discriminate]]. apply beq_eq in E. unfold AttrLiteral in E. cbn [fst snd].
  destruct (Attr %"testonly" args) as [v|] eqn:A; [|destruct d; discriminate]. apply attr_is_some in A. apply default_testonly_spec in D.
  apply literal_truth in E. destruct (defined_del _ _ _ O A) as (a & x & b & -> & G & -> & N). split; [|split; [discriminate|intros _; eauto 9]].
  intros t [(v' & V & T)|[V _]].
  - pose proof (attr_is_fun _ _ _ _ A V). subst v'. rewrite (truth_fun _ _ _ T E). right. auto.
  - exfalso. apply (V x v); auto. apply in_or_app. right. left. auto.
Qed.

(** ** Cases *)
Definition str0 (v : bytes) : strlit := Str no_com no_pos v false no_pos [].
Definition strs0 (l : list bytes) : expr := EList no_com no_pos (map (fun v => EStr (str0 v)) l) (End no_com no_pos) false.
Lemma set0_gives k v : gives k (set0 k v) v.
Proof. exists no_com, (id0 k), no_pos, %"=", false. auto. Qed.
Lemma set0_other k k' v w : k <> k' -> ~ gives k' (set0 k v) w.
Proof. intros N (c & i & p & op & b & E & H). injection E as <- <- <- <- <- <-. contradiction. Qed.
Lemma strs0_list l : string_list (strs0 l) l.
Proof. exists no_com, no_pos, (map str0 l), (End no_com no_pos), false. unfold strs0. rewrite map_map, map_map. split; auto. cbn. apply map_id. Qed.
Lemma once_count key args : Nat.leb (List.length (filter (defines key) args)) 1 = true -> once key args.
Proof.
  intros H a x b v -> G y w I X. apply Nat.leb_le in H. rewrite filter_app in H. cbn [filter] in H. rewrite (proj2 (defines_spec key x)) in H by eauto.
  rewrite app_length in H. cbn [List.length] in H. assert (Y : In y (filter (defines key) (a ++ b))) by (apply filter_In; split; auto; apply defines_spec; eauto).
  rewrite filter_app in Y. pose proof (f_equal (@List.length expr) (filter_app (defines key) a b)) as L. rewrite app_length in L. destruct (filter (defines key) a), (filter (defines key) b); cbn in *; try lia; contradiction.
Qed.
Example C75_nontrivial :
  let pkg := rule0 %"package" [set0 %"default_visibility" (strs0 [%"//b"; %"//a"]); set0 %"default_testonly" (ELit no_com no_pos %"1")] in
  let args := [set0 %"name" (EStr (str0 %"n")); set0 %"visibility" (strs0 [%"//a"; %"//b"]); set0 %"testonly" (ELit no_com no_pos %"1")] in
  once %"visibility" args /\ visible %"r" [pkg] args [%"//a"; %"//b"] /\ default_visible [pkg] [%"//b"; %"//a"] /\
  removeVisibility [pkg] args = (true, [set0 %"name" (EStr (str0 %"n")); set0 %"testonly" (ELit no_com no_pos %"1")]) /\
  testonly [pkg] %"r" %"p" args true /\
  removeTestOnly [pkg] %"r" %"p" args = (true, [set0 %"name" (EStr (str0 %"n")); set0 %"visibility" (strs0 [%"//a"; %"//b"])]) /\
  removeTestOnly [pkg] %"r" %"p" [set0 %"testonly" (ELit no_com no_pos %"0")] = (false, [set0 %"testonly" (ELit no_com no_pos %"0")]).
Proof.
  intros pkg args. split.
  - apply once_count. reflexivity.
  - split; [left; exists (strs0 [%"//a"; %"//b"]); split; [apply ai_later; [intro; apply set0_other; discriminate|apply ai_here, set0_gives]|apply strs0_list]|].
    split. { left. exists (strs0 [%"//b"; %"//a"]). split; [|apply strs0_list]. eexists [], pkg, [], _, _. split; [reflexivity|]. split; [constructor|]. split; [apply package0|]. split; [unfold calls, pkg, rule0; repeat eexists|]. apply ai_here, set0_gives. }
    split; [reflexivity|]. split; [|split; reflexivity].
    left. exists (ELit no_com no_pos %"1"). split; [apply ai_later; [intro; apply set0_other; discriminate|apply ai_later; [intro; apply set0_other; discriminate|apply ai_here, set0_gives]]|].
    exists %"1". split; [right; eauto|left; auto].
Qed.
(** exports_files(["f"], visibility = ["//visibility:private"]): the files become public. *)
Theorem C75_exports_files_refuted :
  exists args args', removeVisibility [] args = (true, args') /\ visible %"exports_files" [] args [%"//visibility:private"] /\ visible %"exports_files" [] args' [%"//visibility:public"].
Proof.
  exists [strs0 [%"f"]; set0 %"visibility" (strs0 [%"//visibility:private"])], [strs0 [%"f"]]. split; [reflexivity|].
  assert (N : forall w, ~ gives %"visibility" (strs0 [%"f"]) w) by (intros w (c & i & p & op & b & E & _); discriminate). split.
  - left. exists (strs0 [%"//visibility:private"]). split; [|apply strs0_list]. apply ai_later; auto. apply ai_here, set0_gives.
  - right. right. split; auto. intros x v [<- |[]]. apply N.
Qed.

(** ** C77: shortening labels *)
(** A label for which Shorten is meant (see C07). *)
Definition proper_label (v : bytes) : Prop := target (parse v) <> [] /\ has_prefix [c_colon] (target (parse v)) = false.
(** The same element, or another spelling of the same label with the same comments. *)
Definition respelled (pkg : bytes) (x y : expr) : Prop :=
  y = x \/ exists s v, x = EStr s /\ y = EStr (Str (s_com s) (s_start s) v (s_triple s) (s_end s) (s_token s)) /\
    (proper_label (s_value s) -> parse_relative v pkg = parse_relative (s_value s) pkg).
Definition label_attr (label_attrs : list bytes) (kind key : bytes) : Prop := In key label_attrs /\ ~ (kind = %"package_group" /\ key = %"packages").
(** [y] is the argument [x] with another value for which P holds. *)
Definition arg_changed (P : bytes -> expr -> expr -> Prop) (x y : expr) : Prop :=
  y = x \/ exists c i p op b v v', x = EAssign c (EIdent i) p op b v /\ y = EAssign c (EIdent i) p op b v' /\ P (i_name i) v v'.

Lemma contains_labels_spec la kind key : ContainsLabels la kind key = true <-> label_attr la kind key.
Proof.
  unfold ContainsLabels, label_attr. rewrite <- (beq_eq kind), <- (beq_eq key). destruct (beq kind _), (beq key _); cbn; rewrite ?mem_bytes_In; intuition discriminate.
Qed.
Lemma Forall2_refl {A} (R : A -> A -> Prop) l : (forall x, R x x) -> Forall2 R l l.
Proof. intro H. induction l; auto. Qed.
Lemma Forall2_trans {A} (R S T : A -> A -> Prop) : (forall x y z, R x y -> S y z -> T x z) -> forall a b, Forall2 R a b -> forall c, Forall2 S b c -> Forall2 T a c.
Proof. intros H a b F. induction F; intros c G; inversion_clear G; constructor; eauto. Qed.
Lemma Forall2_mono {A} (R S : A -> A -> Prop) : (forall x y, R x y -> S x y) -> forall a b, Forall2 R a b -> Forall2 S a b.
Proof. intros H a b F. induction F; auto. Qed.
Lemma edit_attr_changed key f args : Forall2 (arg_changed (fun k v v' => k = key /\ v' = f v)) args (edit_attr key f args).
Proof.
  unfold edit_attr. destruct (Attr key args) as [v|] eqn:A; [|apply Forall2_refl; left; auto]. apply attr_is_some in A.
  induction A as [x v l G|x v l N A IH]; cbn [set_first].
  - rewrite (proj2 (defines_spec key x)) by eauto. constructor; [|apply Forall2_refl; left; auto]. destruct G as (c & i & p & op & b & -> & <-). right. cbn. eauto 15.
  - rewrite (proj2 (defines_no key x)) by auto. constructor; auto. left. auto.
Qed.
Lemma edit_attr_attr key f args k : Attr k (edit_attr key f args) = if beq k key then option_map f (Attr k args) else Attr k args.
Proof.
  destruct (beq_spec k key) as [->|N].
  - unfold edit_attr. destruct (Attr key args) as [v|] eqn:A; [|rewrite A; auto]. cbn. apply attr_is_some in A. apply attr_is_some. induction A as [x v l G|x v l Nx A IH]; cbn [set_first].
    + rewrite (proj2 (defines_spec key x)) by eauto. apply ai_here. destruct G as (c & i & p & op & b & -> & <-). cbn. exists c, i, p, op, b. auto.
    + rewrite (proj2 (defines_no key x)) by auto. apply ai_later; auto.
  - unfold edit_attr. destruct (Attr key args) as [v|] eqn:A; auto. generalize (f v). clear A. intro w. induction args as [|x l IH]; auto. cbn [set_first]. destruct (defines key x) eqn:D.
    + unfold Attr, AttrDefn. cbn [find]. assert (E : defines k x = false /\ defines k (set_rhs w x) = false).
      { apply defines_spec in D as (u & c & i & p & op & b & -> & <-). unfold defines, set_rhs, attr_key. apply beq_neq in N. rewrite <- beq_sym in N. split; apply beq_neq; intro X; rewrite X in N; rewrite beq_refl in N; discriminate. }
      destruct E as [-> ->]. reflexivity.
    + unfold Attr, AttrDefn in *. cbn [find]. destruct (defines k x); auto.
Qed.
Lemma map_lists_changed f e : lists_changed (fun l l' => l' = f l) eq e (map_lists f e).
Proof.
  pose proof (mapped f (fun l => l) e) as H. rewrite map_selects_id in H by auto. eapply lists_changed_mono; [| |exact H]; cbv beta; congruence.
Qed.
Lemma AllLists_same f e : (forall l, In l (AllLists e) -> f l = l) -> map_lists f e = e.
Proof.
  induction e; cbn [map_lists AllLists]; auto; intro H; [rewrite H by (left; auto); auto|]. destruct (beq op %"+") eqn:E; auto. rewrite IHe1, IHe2; auto; intros l L; apply H, in_or_app; auto.
Qed.
Section Shorten.
  Context (la : list bytes) (kind pkg : bytes).
  Let step := shorten_attr la kind pkg.
  Let short := map_lists (map (shorten_elem pkg)).
  Definition short_or_same (x y : expr) : Prop := y = x \/ y = shorten_elem pkg x.
  Lemma shorten_elem_idem x : shorten_elem pkg (shorten_elem pkg x) = shorten_elem pkg x.
  Proof. destruct x; auto. cbn. unfold set_str. cbn. rewrite shorten_idem. auto. Qed.
  Lemma short_trans x y z : short_or_same x y -> short_or_same y z -> short_or_same x z.
  Proof. unfold short_or_same. intros [-> | ->] [-> | ->]; auto. right. apply shorten_elem_idem. Qed.
  Definition changed_ok (k : bytes) (v v' : expr) : Prop := label_attr la kind k /\ lists_changed (Forall2 short_or_same) eq v v'.
  Lemma changed_trans x y z : arg_changed changed_ok x y -> arg_changed changed_ok y z -> arg_changed changed_ok x z.
  Proof.
    intros [->|(c & i & p & op & b & v & v' & -> & -> & L & C)] H; auto. destruct H as [->|(c1 & i1 & p1 & op1 & b1 & v1 & v2 & E & -> & L1 & C1)].
    - right. exists c, i, p, op, b, v, v'. split; auto. split; auto. split; auto.
    - injection E as <- <- <- <- <- <-. right. exists c, i, p, op, b, v, v2. split; auto. split; auto. split; auto.
      eapply lists_changed_trans; [| |exact C|exact C1]; [|congruence]. intros a b' d F G. eapply Forall2_trans; [|exact F|exact G]. apply short_trans.
  Qed.
  Lemma step_changed st key : Forall2 (arg_changed changed_ok) (snd st) (snd (step st key)).
  Proof.
    unfold step, shorten_attr. destruct (ContainsLabels la kind key) eqn:K; [|apply Forall2_refl; left; auto]. cbn [snd].
    eapply Forall2_mono; [|apply edit_attr_changed]. intros x y [->|(c & i & p & op & b & v & v' & -> & -> & E & ->)]; [left; auto|right]. exists c, i, p, op, b, v, (short v). split; auto. split; auto. rewrite E. split; [now apply contains_labels_spec|].
    eapply lists_changed_mono; [| |apply map_lists_changed]; auto. cbv beta. intros l l' ->. clear. induction l; constructor; auto. right. auto.
  Qed.
  Lemma step_says st key : fst (step st key) = false -> fst st = false /\ snd (step st key) = snd st.
  Proof.
    unfold step, shorten_attr. destruct (ContainsLabels la kind key); [|auto]. cbn [fst snd]. intro H. apply orb_false_iff in H as [H1 H2]. split; auto.
    unfold attr_says, edit_attr in *. destruct (Attr key (snd st)) as [v|] eqn:A; auto.
    assert (E : map_lists (map (shorten_elem pkg)) v = v).
    { apply AllLists_same. intros l L. assert (X : existsb (shortens pkg) l = false) by (destruct (existsb (shortens pkg) l) eqn:X; auto; assert (Y : existsb (existsb (shortens pkg)) (AllLists v) = true) by (apply existsb_exists; eauto); congruence).
      rewrite <- (map_id l) at 2. apply map_ext_in. intros x Hx. destruct x; auto. cbn. assert (Z : shortens pkg (EStr s) = false) by (destruct (shortens pkg (EStr s)) eqn:Z; auto; assert (existsb (shortens pkg) l = true) by (apply existsb_exists; eauto); congruence).
      cbn in Z. apply negb_false_iff, beq_eq in Z. rewrite <- Z. destruct s; reflexivity. }
    rewrite E. clear - A. apply attr_is_some in A. induction A as [x v l G|x v l N A IH]; cbn [set_first].
    - rewrite (proj2 (defines_spec key x)) by eauto. destruct G as (c & i & p & op & b & -> & <-). reflexivity.
    - rewrite (proj2 (defines_no key x)) by auto. congruence.
  Qed.
  Lemma short_idem v : short (short v) = short v.
  Proof.
    unfold short. induction v; auto; cbn [map_lists].
    - f_equal. rewrite map_map. apply map_ext. apply shorten_elem_idem.
    - destruct (beq op %"+") eqn:E; cbn [map_lists]; rewrite E; congruence.
  Qed.
  Lemma step_short st key k : Attr k (snd (step st key)) = if ContainsLabels la kind key && beq k key then option_map short (Attr k (snd st)) else Attr k (snd st).
  Proof. unfold step, shorten_attr. destruct (ContainsLabels la kind key); auto. cbn [snd andb]. apply edit_attr_attr. Qed.
  Lemma fold_changed keys : forall st, Forall2 (arg_changed changed_ok) (snd st) (snd (fold_left step keys st)) /\
    (fst (fold_left step keys st) = false -> fst st = false /\ snd (fold_left step keys st) = snd st) /\
    (forall k v, (exists v0, Attr k (snd st) = Some (short v0)) -> Attr k (snd (fold_left step keys st)) = Some v -> short v = v) /\
    (forall k v, In k keys -> ContainsLabels la kind k = true -> Attr k (snd (fold_left step keys st)) = Some v -> short v = v).
  Proof.
    induction keys as [|key keys IH]; intro st; cbn [fold_left].
    - split; [apply Forall2_refl; left; auto|]. split; [auto|]. split; [|intros k v []]. intros k v (v0 & H) H'. rewrite H in H'. injection H' as <-. apply short_idem.
    - destruct (IH (step st key)) as (I1 & I2 & I3 & I4). split; [eapply Forall2_trans; [|apply step_changed|exact I1]; apply changed_trans|].
      split; [intro H; destruct (I2 H) as [H1 H2]; apply step_says in H1 as [H3 H4]; split; congruence|].
      assert (K : forall k v, (exists v0, Attr k (snd st) = Some (short v0)) -> Attr k (snd (fold_left step keys (step st key))) = Some v -> short v = v).
      { intros k v (v0 & H) H'. apply (I3 k v); auto. exists v0. rewrite step_short, H. destruct (_ && _); auto. cbn. rewrite short_idem. auto. }
      split; auto. intros k v [-> |Hk] C H; [|now apply (I4 k v)]. apply (I3 k v); auto. rewrite step_short, C, beq_refl. cbn [andb].
      destruct (Attr k (snd st)) as [v0|] eqn:A; [exists v0; auto|].
      (* the attribute is still missing at the end *)
      exfalso. assert (N : forall keys st, Attr k (snd st) = None -> Attr k (snd (fold_left step keys st)) = None).
      { intro ks. induction ks as [|key' ks IHk]; intros st' H'; cbn [fold_left]; auto. apply IHk. rewrite step_short, H'. destruct (_ && _); auto. }
      rewrite N in H; [discriminate|]. rewrite step_short, A. destruct (_ && _); auto.
  Qed.
End Shorten.
Lemma plain_map g v : plain (map_lists (map g) v) = map g (plain v).
Proof.
  unfold plain. induction v; auto; cbn [map_lists parts].
  - destruct v; auto. destruct args as [|[] ?]; auto. destruct (select_name _); auto.
  - cbn. rewrite !app_nil_r. auto.
  - destruct (beq op %"+") eqn:E; cbn [parts]; rewrite E; auto. rewrite !flat_map_app, map_app. congruence.
Qed.
(** Only labels in the lists of label attributes change, to another spelling of the same label; and after it those are in the short form. *)
Theorem C77_shorten_labels :
  forall label_attrs kind pkg args, let r := shortenLabels label_attrs kind pkg args in
    Forall2 (arg_changed (fun key v v' => label_attr label_attrs kind key /\ lists_changed (Forall2 (respelled pkg)) eq v v')) args (snd r) /\
    (fst r = false -> snd r = args) /\
    (forall key v s, label_attr label_attrs kind key -> attr_is key (snd r) v -> In (EStr s) (plain v) -> shorten (s_value s) pkg = s_value s).
Proof.
  intros la kind pkg args r. destruct (fold_changed la kind pkg (AttrKeys args) (false, args)) as (F1 & F2 & _ & F4). fold (shortenLabels la kind pkg args) in F1, F2, F4. fold r in F1, F2, F4. split; [|split].
  - eapply Forall2_mono; [|exact F1]. intros x y [->|(c & i & p & op & b & v & v' & -> & -> & L & C)]; [left; auto|right]. exists c, i, p, op, b, v, v'. split; auto. split; auto. split; auto.
    eapply lists_changed_mono; [| |exact C]; auto. intros l l' F. eapply Forall2_mono; [|exact F]. intros x y [->| ->]; [left; auto|]. destruct x; try (left; reflexivity). right. exists s, (shorten (s_value s) pkg). split; auto. split; auto.
    intros [P1 P2]. now apply shorten_same.
  - intro H. now destruct (F2 H).
  - intros key v s L A I. apply contains_labels_spec in L. apply attr_is_some in A.
    assert (K : In key (AttrKeys args)).
    { assert (G : exists v0, Attr key args = Some v0).
      { clear - F1 A. change (snd (false, args)) with args in F1. unfold Attr, AttrDefn in *. induction F1 as [|x y l l' H F IH]; cbn [find] in *; [discriminate|].
        destruct H as [->|(c & i & p & op & b & v1 & v2 & -> & -> & _)]; [destruct (defines key x); [eauto|auto]|]. assert (D : forall w, defines key (EAssign c (EIdent i) p op b w) = beq (i_name i) key) by reflexivity. rewrite D in A |- *. destruct (beq (i_name i) key); [cbn; eauto|auto]. }
      destruct G as (v0 & G). apply attr_is_some in G. apply attr_is_split in G as (a & x & b & -> & (c & i & p & op & b' & -> & <-) & _). unfold AttrKeys. rewrite flat_map_app. apply in_or_app. right. left. reflexivity. }
    pose proof (F4 key v K L A) as S1. rewrite <- S1, plain_map in I. apply in_map_iff in I as (x & X & _). destruct x; try discriminate. injection X as <-. cbn. apply shorten_idem.
Qed.
Example C77_nontrivial :
  let args := [set0 %"name" (EStr (str0 %"//p:n")); set0 %"deps" (EBinary no_com (strs0 [%"//p:a"; %"b"]) no_pos %"+" false (strs0 [%"//x/y:y"])); set0 %"cmd" (strs0 [%"//p:a"])] in
  proper_label %"//p:a" /\
  shortenLabels [%"deps"; %"srcs"] %"r" %"p" args = (true,
    [set0 %"name" (EStr (str0 %"//p:n")); set0 %"deps" (EBinary no_com (strs0 [%":a"; %"b"]) no_pos %"+" false (strs0 [%"//x/y"])); set0 %"cmd" (strs0 [%"//p:a"])]).
Proof. split; [split; [discriminate|reflexivity]|reflexivity]. Qed.
Print Assumptions C75_visibility_partial.
Print Assumptions C75_useless_visibility_removed.
Print Assumptions C75_testonly.
Print Assumptions C75_exports_files_refuted.
Print Assumptions C77_shorten_labels.
