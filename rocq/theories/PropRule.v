(** Properties C33 (attributes) and C34 (rule deletion). *)
From Verif Require Import Base BaseProofs LabelsProofs Ast Walk Rewrite CallSpec CallProofs RuleApi RuleSpec RuleProofs LoadsSpec.

(** C33: reading. *)
Theorem C33_get :
  forall key args, (forall v, Attr key args = Some v <-> attr_is key args v) /\ (Attr key args = None <-> no_attr key args).
Proof. intros. split; [intros; symmetry; apply attr_is_some|symmetry; apply no_attr_none]. Qed.
Print Assumptions C33_get.
(** Setting: the first definition gets the new value and nothing else changes, or a definition is
    appended. *)
Theorem C33_set_place :
  forall key v args,
    (exists pre c i p op b old post,
       args = pre ++ EAssign c (EIdent i) p op b old :: post /\ i_name i = key /\ no_attr key pre /\
       SetAttr key v args = pre ++ EAssign c (EIdent i) p op b v :: post) \/
    (no_attr key args /\ exists x, SetAttr key v args = args ++ [x] /\ gives key x v).
Proof.
  intros key v args. destruct (Attr key args) as [w|] eqn:E.
  - left. apply attr_is_some, attr_is_split in E as (pre & x & post & -> & (c & i & p & op & b & -> & Ei) & N).
    exists pre, c, i, p, op, b, w, post. repeat split; auto. rewrite (SetAttr_existing _ _ _ _ _ w); auto.
    exists c, i, p, op, b. auto.
  - right. apply no_attr_none in E. split; auto. exists (new_attr key v). split; [apply SetAttr_new; auto|].
    do 5 eexists. split; reflexivity.
Qed.
Print Assumptions C33_set_place.
Theorem C33_get_set :
  forall key v args,
    Attr key (SetAttr key v args) = Some v /\
    (forall k, k <> key -> Attr k (SetAttr key v args) = Attr k args) /\
    SetAttr key v (SetAttr key v args) = SetAttr key v args.
Proof.
  intros key v args.
  assert (O : forall k, k <> key -> forall c i p op b old post pre, i_name i = key ->
            Attr k (pre ++ EAssign c (EIdent i) p op b old :: post) = Attr k (pre ++ post)).
  { intros k ne c i p op b old post pre Ei.
    assert (N : forall w, ~ gives k (EAssign c (EIdent i) p op b old) w) by (intros w (? & ? & ? & ? & ? & E1 & E2); congruence).
    destruct (Attr k (pre ++ post)) as [w|] eqn:E.
    - apply attr_is_some. apply attr_is_skip; auto. apply attr_is_some; auto.
    - apply no_attr_none. apply no_attr_none in E. intros y w Hy. rewrite in_app_iff in Hy. destruct Hy as [Hy|[<-|Hy]]; auto; apply E; apply in_app_iff; auto. }
  destruct (C33_set_place key v args) as [(pre & c & i & p & op & b & old & post & -> & Ei & N & E)|(N & x & E & G)]; rewrite E.
  - assert (G : forall w, gives key (EAssign c (EIdent i) p op b w) w) by (intros w; exists c, i, p, op, b; auto).
    split; [|split].
    + apply attr_is_some. apply attr_is_app; auto. apply ai_here. auto.
    + intros k ne. rewrite !O by auto. reflexivity.
    + rewrite (SetAttr_existing _ _ _ _ _ v); auto.
  - split; [|split].
    + apply attr_is_some. apply attr_is_app; auto. apply ai_here. auto.
    + intros k ne. destruct G as (c & i & p & op & b & -> & Ei). rewrite O by auto. rewrite app_nil_r. reflexivity.
    + rewrite (SetAttr_existing _ _ _ _ _ v); auto. destruct G as (c & i & p & op & b & -> & Ei). reflexivity.
Qed.
Print Assumptions C33_get_set.
(** Deleting removes the first definition, returns its value and touches nothing else. *)
Theorem C33_delete :
  forall key args,
    (exists pre x v post, args = pre ++ x :: post /\ gives key x v /\ no_attr key pre /\
       DelAttr key args = (Some v, pre ++ post)) \/
    (no_attr key args /\ DelAttr key args = (None, args)).
Proof.
  intros key args. destruct (Attr key args) as [w|] eqn:E.
  - left. apply attr_is_some, attr_is_split in E as (pre & x & post & -> & G & N).
    exists pre, x, w, post. repeat split; auto. apply DelAttr_existing; auto.
  - right. apply no_attr_none in E. split; auto. apply DelAttr_absent; auto.
Qed.
Print Assumptions C33_delete.
Theorem C33_delete_others :
  forall key args k, k <> key -> Attr k (snd (DelAttr key args)) = Attr k args.
Proof.
  intros key args k ne. destruct (C33_delete key args) as [(pre & x & v & post & -> & G & N & E)|(N & E)]; rewrite E; auto. cbn [snd].
  assert (N' : forall w, ~ gives k x w) by (intros w H; exact (proj1 (gives_other key k x v w ne G) H)).
  destruct (Attr k (pre ++ post)) as [w|] eqn:A.
  - symmetry. apply attr_is_some. apply attr_is_skip; auto. apply attr_is_some; auto.
  - symmetry. apply no_attr_none. apply no_attr_none in A. intros y w Hy. rewrite in_app_iff in Hy.
    destruct Hy as [Hy|[<-|Hy]]; auto; apply A; apply in_app_iff; auto.
Qed.
Print Assumptions C33_delete_others.
(** Deleting an attribute that was defined once makes it absent. *)
Theorem C33_delete_absent :
  forall key args, List.length (filter (fun k => beq k key) (AttrKeys args)) <= 1 -> Attr key (snd (DelAttr key args)) = None.
Proof.
  intros key args H. destruct (C33_delete key args) as [(pre & x & v & post & -> & G & N & E)|(N & E)]; rewrite E; cbn [snd]; apply no_attr_none; auto.
  intros y w Hy. rewrite in_app_iff in Hy. destruct Hy as [Hy|Hy]; [apply N; auto|]. intros Gy.
  assert (L : forall l y w, In y l -> gives key y w -> 1 <= List.length (filter (fun k => beq k key) (AttrKeys l))).
  { clear. induction l as [|z l IH]; intros y w Hy Gy; [contradiction|]. unfold AttrKeys; cbn [flat_map]. rewrite filter_app, app_length.
    destruct Hy as [->|Hy].
    - destruct Gy as (c & i & p & op & b & -> & Ei). cbn [attr_key opt_list filter]. rewrite Ei, beq_refl. cbn. lia.
    - specialize (IH _ w Hy Gy). unfold AttrKeys in IH. lia. }
  specialize (L post y w Hy Gy). unfold AttrKeys in *. rewrite flat_map_app in H. cbn [flat_map] in H.
  rewrite !filter_app, !app_length in H. destruct G as (c & i & p & op & b & -> & Ei). cbn [attr_key opt_list filter] in H.
  rewrite Ei, beq_refl in H. cbn [List.length] in H. lia.
Qed.
Print Assumptions C33_delete_absent.
Definition arg (k : bytes) (v : expr) := EAssign no_com (EIdent (Ident no_com no_pos k)) no_pos %"=" false v.
Definition num (t : bytes) := ELit no_com no_pos t.
Example C33_nontrivial :
  SetAttr %"b" (num %"3") [num %"0"; arg %"a" (num %"1"); arg %"b" (num %"2"); arg %"b" (num %"9")] =
    [num %"0"; arg %"a" (num %"1"); arg %"b" (num %"3"); arg %"b" (num %"9")] /\
  DelAttr %"b" [num %"0"; arg %"a" (num %"1"); arg %"b" (num %"2"); arg %"b" (num %"9")] =
    (Some (num %"2"), [num %"0"; arg %"a" (num %"1"); arg %"b" (num %"9")]).
Proof. split; reflexivity. Qed.

(** C34. *)
Definition dir_name (path : bytes) : option bytes :=
  if beq (path_dir path) %"." then None else Some (path_base (path_dir path)).
Lemma name_in_file_is path stmts x args n : name_in_file path stmts x args = n <-> name_is (dir_name path) stmts x args n.
Proof.
  unfold name_in_file, rule_name, implicitRuleName, dir_name, name_is. change %"." with [c_dot].
  rewrite unnamed_spec, !explicit_spec, kind_spec by discriminate.
  destruct (AttrString %"name" args) as [|a l] eqn:E.
  - assert (X : ([] = n /\ n <> []) <-> False) by (split; [intros [<- ?]; congruence|tauto]). rewrite X. clear X.
    destruct (beq_spec (kind_of x) %"package") as [K|K].
    + split; [intros <-; right; split; auto|]. intros [[]|[_ [[? _]|[_ ?]]]]; [congruence|auto].
    + destruct (beq (path_dir path) [c_dot]).
      * split; [intros <-; right; split; auto; right; split; auto; right; discriminate|].
        intros [[]|[_ [[_ (d & Ed & _)]|[_ ?]]]]; [discriminate|auto].
      * destruct (implicit_loop_spec (path_base (path_dir path)) stmts) as [[-> A]|[-> A]]; [apply path_base_nonempty| |].
        -- split; [intros <-; right; split; auto; left; split; auto; eauto|].
           intros [[]|[_ [[_ (d & Ed & _ & ->)]|[[?|B] ?]]]]; [congruence|congruence|]. exfalso. eapply B; eauto.
        -- split; [intros <-; right; split; auto; right; split; auto; right; intros d Ed; congruence|].
           intros [[]|[_ [[_ (d & Ed & B & _)]|[_ ?]]]]; [congruence|auto].
  - split; [intros <-; left; split; [auto|discriminate]|].
    intros [[? _]|[? _]]; congruence.
Qed.
(** The statement calls a rule of that kind and name ([] matches all). *)
Definition matches (path kind name : bytes) (stmts : list (option expr)) (s : option expr) : Prop :=
  exists x args, calls s x args /\ (kind = [] \/ has_kind x kind) /\
    (name = [] \/ name_is (dir_name path) stmts x args name).
Definition matches_b (path kind name : bytes) (stmts : list (option expr)) (s : option expr) : bool :=
  match stmt_call s with
  | Some (x, args) => (beq kind [] || beq (kind_of x) kind) && (beq name [] || beq (name_in_file path stmts x args) name)
  | None => false
  end.
Lemma matches_spec path kind name stmts s : matches_b path kind name stmts s = true <-> matches path kind name stmts s.
Proof.
  unfold matches, matches_b. split.
  - destruct (stmt_call s) as [[x args]|] eqn:E; [|discriminate]. apply stmt_call_spec in E. intros H.
    apply andb_true_iff in H as [H1 H2]. exists x, args. split; auto. split.
    + apply orb_true_iff in H1 as [H1|H1]; apply beq_eq in H1; auto. destruct kind as [|a k]; auto. right. apply kind_spec; [discriminate|auto].
    + apply orb_true_iff in H2 as [H2|H2]; apply beq_eq in H2; auto. right. apply name_in_file_is; auto.
  - intros (x & args & C & K & N). apply stmt_call_spec in C. rewrite C. apply andb_true_iff. split; apply orb_true_iff.
    + destruct kind as [|a k]; [left; auto|]. destruct K as [K|K]; [discriminate|]. right. apply beq_eq. apply kind_spec in K; [auto|discriminate].
    + destruct N as [->|N]; [left; auto|right]. apply beq_eq, name_in_file_is; auto.
Qed.
Lemma pick_filter {A} (P : A -> Prop) (p : A -> bool) l : (forall x, p x = true <-> P x) ->
  pick P l (filter p l) (filter (fun x => negb (p x)) l).
Proof.
  intros H. induction l as [|x l IH]; cbn [filter]; [constructor|]. destruct (p x) eqn:E; cbn [negb].
  - apply pick_in; auto. apply H; auto.
  - apply pick_out; auto. rewrite <- H. congruence.
Qed.
Lemma pick_lengths {A} (P : A -> Prop) l a b : pick P l a b -> List.length l = List.length a + List.length b.
Proof. induction 1; cbn [List.length]; lia. Qed.
Theorem C34_del_rules_partial :
  forall path kind name stmts, name = [] \/ dir_name path <> Some name ->
    let '(kept, n) := DelRules path kind name stmts in
    exists removed, pick (matches path kind name stmts) stmts removed kept /\ n = List.length removed.
Proof.
  intros path kind name stmts H. unfold DelRules.
  assert (L : forall orig todo kept, del_loop path kind name orig kept todo = kept ++ filter (fun s => negb (matches_b path kind name stmts s)) todo).
  { intros orig todo. induction todo as [|s todo IH]; intros kept; cbn [del_loop filter]; [rewrite app_nil_r; auto|].
    set (now := kept ++ skipn (List.length kept) orig).
    assert (E : match stmt_call s with
                | Some (x, args) => (beq kind [] || beq (kind_of x) kind) && (beq name [] || beq (name_in_file path now x args) name)
                | None => false end = matches_b path kind name stmts s).
    { unfold matches_b. destruct (stmt_call s) as [[x args]|]; auto. f_equal.
      destruct H as [->|H]; auto. destruct name as [|a n]; auto. cbn [beq orb].
      assert (B : forall st, beq (name_in_file path st x args) (a :: n) = beq (AttrString %"name" args) (a :: n)).
      { intros st. unfold name_in_file, rule_name, implicitRuleName. destruct (AttrString %"name" args); auto.
        destruct (beq (kind_of x) _); auto. unfold dir_name in H. change %"." with [c_dot] in H.
        destruct (beq (path_dir path) [c_dot]); auto.
        destruct (implicit_loop_spec (path_base (path_dir path)) st) as [[-> _]|[-> _]]; [apply path_base_nonempty| |auto].
        apply not_true_iff_false. intros E. apply beq_eq in E. apply H. rewrite E. reflexivity. }
      rewrite !B. reflexivity. }
    rewrite E. destruct (matches_b path kind name stmts s); cbn [negb]; [apply IH|]. rewrite IH, <- app_assoc. reflexivity. }
  rewrite L. cbn [app]. exists (filter (matches_b path kind name stmts) stmts).
  assert (P : pick (matches path kind name stmts) stmts (filter (matches_b path kind name stmts) stmts) (filter (fun s => negb (matches_b path kind name stmts s)) stmts)) by (apply pick_filter; apply matches_spec).
  split; auto. apply pick_lengths in P. lia.
Qed.
Print Assumptions C34_del_rules_partial.
(** With the directory's name it also removes an unnamed rule that becomes the only unnamed
    one during the deletion. *)
Definition call (k : bytes) (args : list expr) : option expr :=
  Some (ECall no_com (EIdent (Ident no_com no_pos k)) no_pos args (End no_com no_pos) false false).
Definition str (v : bytes) : expr := EStr (Str no_com no_pos v false no_pos []).
Definition named_call (k n : bytes) := call k [arg %"name" (str n)].
Theorem C34_implicit_name_refuted :
  exists path kind name stmts s,
    In s stmts /\ ~ matches path kind name stmts s /\ ~ In s (fst (DelRules path kind name stmts)).
Proof.
  exists %"foo/dir/BUILD", [], %"dir", [named_call %"r" %"dir"; named_call %"r" %"a"; call %"q" []], (call %"q" []).
  split; [simpl; auto|]. split.
  - rewrite <- matches_spec. vm_compute. discriminate.
  - vm_compute. intros [H|[]]. discriminate H.
Qed.
Print Assumptions C34_implicit_name_refuted.
Theorem C34_by_name :
  forall path name stmts,
    exists removed, pick (fun s => exists x args, calls s x args /\ name_is (dir_name path) stmts x args name)
                      stmts removed (DeleteRuleByName path name stmts).
Proof.
  intros path name stmts. unfold DeleteRuleByName.
  set (p := fun s => match stmt_call s with Some (x, args) => beq (name_in_file path stmts x args) name | None => false end).
  exists (filter p stmts). match goal with |- pick _ _ _ (filter ?q stmts) => rewrite (filter_ext q (fun s => negb (p s))) end; [apply (pick_filter _ p)|].
  - intros s. unfold p. split.
    + destruct (stmt_call s) as [[x args]|] eqn:E; [|discriminate]. apply stmt_call_spec in E. intros H. apply beq_eq in H.
      exists x, args. split; auto. apply name_in_file_is; auto.
    + intros (x & args & C & N). apply stmt_call_spec in C. rewrite C. apply beq_eq, name_in_file_is; auto.
  - intros s. unfold p. destruct (stmt_call s) as [[x args]|]; auto.
Qed.
Print Assumptions C34_by_name.
Theorem C34_by_kind :
  forall kind stmts,
    exists removed, pick (fun s => exists i args, calls s (EIdent i) args /\ i_name i = kind)
                      stmts removed (DeleteRuleByKind kind stmts).
Proof.
  intros kind stmts. unfold DeleteRuleByKind.
  set (p := fun s => match stmt_call s with Some (EIdent i, _) => beq (i_name i) kind | _ => false end).
  exists (filter p stmts). match goal with |- pick _ _ _ (filter ?q stmts) => rewrite (filter_ext q (fun s => negb (p s))) end; [apply (pick_filter _ p)|].
  - intros s. unfold p. split.
    + destruct (stmt_call s) as [[x args]|] eqn:E; [|discriminate]. apply stmt_call_spec in E. destruct x; try discriminate.
      intros H. apply beq_eq in H. eauto.
    + intros (i & args & C & N). apply stmt_call_spec in C. rewrite C. apply beq_eq; auto.
  - intros s. unfold p. destruct (stmt_call s) as [[[] args]|]; auto.
Qed.
Print Assumptions C34_by_kind.
Example C34_nontrivial :
  DelRules %"foo/dir/BUILD" %"q" %"dir" [named_call %"r" %"b"; None; call %"q" []; named_call %"r" %"a"] =
  ([named_call %"r" %"b"; None; named_call %"r" %"a"], 1) /\
  fst (DelRules %"foo/dir/BUILD" [] %"a" [named_call %"r" %"b"; None; call %"q" []; named_call %"r" %"a"]) =
  [named_call %"r" %"b"; None; call %"q" []].
Proof. split; reflexivity. Qed.
