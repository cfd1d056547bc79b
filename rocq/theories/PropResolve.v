(** Properties C39 (resolving selects) and C40 (moving values). *)
From Verif Require Import Base BaseProofs Ast Labels LabelsProofs Quote StrList Rewrite RuleApi RuleSpec RuleProofs EditList EditListSpec EditResolve EditListProofs PropRule PropEditList.

(** ** The value of an edited expression *)
Section Value.
Context (choose : list expr -> option nat) (val : expr -> option (list expr)).
Notation value := (value choose val).
(** [l'] is [l] without some of the elements in [P]. *)
Inductive thinned {A} (P : A -> Prop) : list A -> list A -> Prop :=
  | th_nil : thinned P [] []
  | th_drop x l l' : P x -> thinned P l l' -> thinned P (x :: l) l'
  | th_keep x l l' : thinned P l l' -> thinned P (x :: l) (x :: l').
Lemma thinned_refl {A} (P : A -> Prop) l : thinned P l l.
Proof. induction l; [constructor|apply th_keep; auto]. Qed.
Lemma without_thinned {A} (P : A -> Prop) l l' : without P l l' -> thinned P l l'.
Proof. induction 1; [constructor|apply th_drop|apply th_keep]; auto. Qed.
Lemma thinned_app {A} (P : A -> Prop) a a' b b' : thinned P a a' -> thinned P b b' -> thinned P (a ++ b) (a' ++ b').
Proof. induction 1; intros H'; cbn [app]; auto; [apply th_drop|apply th_keep]; auto. Qed.
Lemma thinned_in {A} (P : A -> Prop) l l' : thinned P l l' -> (forall x, In x l' -> In x l) /\ (forall x, In x l -> In x l' \/ P x).
Proof.
  induction 1 as [|y l l' Hy H [I1 I2]|y l l' H [I1 I2]]; split; intros z; cbn [In]; try tauto.
  - intros; auto.
  - intros [<-|?]; auto.
  - intros [<-|?]; auto.
  - intros [<-|Hz]; auto. destruct (I2 z Hz); auto.
Qed.
Lemma value_select_delete dwc e item pkg v :
  value e = Some v -> exists v', value (SelectDelete dwc e item pkg) = Some v' /\ thinned (removable dwc item pkg) v v'.
Proof.
  unfold SelectDelete. revert v. induction e; intros v H; try (exists v; split; [exact H|apply thinned_refl]).
  - cbn [map_selects]. destruct (is_select e) eqn:Si; [|exists v; split; [exact H|apply thinned_refl]].
    apply is_select_spec in Si as (i & -> & Ei). destruct args as [|[] rest]; try (exists v; split; [exact H|apply thinned_refl]).
    cbn [map_dict_lists EditListSpec.value] in *. unfold select_name in *. rewrite Ei, beq_refl in *.
    assert (K : map fst (entries (map (set_branch (RemoveFromList dwc item pkg)) l)) = map fst (entries l)).
    { clear. unfold entries. induction l as [|kv l IH]; auto. cbn [map flat_map]. rewrite !map_app, IH. f_equal.
      unfold set_branch. destruct kv; auto. destruct kv2; auto. }
    rewrite K. destruct (choose (map fst (entries l))) as [n|]; [|discriminate].
    rewrite nth_error_map in *. rewrite nth_error_map. destruct (nth_error l n) as [kv|]; [|discriminate]. cbn [option_map] in *.
    destruct kv; try discriminate. cbn [set_branch]. destruct kv2; try (exists v; split; [exact H|apply thinned_refl]).
    cbn [EditListSpec.value] in *. injection H as <-. eexists. split; [reflexivity|]. apply without_thinned, without_filter, to_remove_spec.
  - cbn [map_selects]. destruct (beq op %"+") eqn:E; [|exists v; split; [exact H|apply thinned_refl]].
    cbn [EditListSpec.value] in *. rewrite E in *. destruct (value e1) as [a|]; [|discriminate]. destruct (value e2) as [b|]; [|discriminate]. injection H as <-.
    destruct (IHe1 a eq_refl) as (a' & -> & Ta). destruct (IHe2 b eq_refl) as (b' & -> & Tb). eexists. split; [reflexivity|]. apply thinned_app; auto.
Qed.
Lemma value_add_in item sorted e v : value e = Some v -> exists v', value (add_in item sorted e) = Some v' /\ inserted item v v'.
Proof.
  intros H. unfold add_in.
  assert (F : forall f e' v, (forall l, inserted item l (f l)) -> value e = Some v -> map_first_list f e = Some e' -> exists v', value e' = Some v' /\ inserted item v v').
  { clear. intros f. induction e; intros e' v Hf H E; try discriminate.
    - cbn in E. injection E as <-. cbn in *. injection H as <-. eauto.
    - cbn [map_first_list] in E. cbn [EditListSpec.value] in H. destruct (beq op %"+") eqn:Eo; [|discriminate].
      destruct (value e1) as [a|] eqn:E1; [|discriminate]. destruct (value e2) as [b|] eqn:E2; [|discriminate]. injection H as <-.
      destruct (map_first_list f e1) as [x'|].
      + injection E as <-. destruct (IHe1 x' a Hf eq_refl eq_refl) as (a' & Ea & (q1 & q2 & -> & ->)). cbn [EditListSpec.value]. rewrite Eo, Ea, E2.
        eexists. split; [reflexivity|]. exists q1, (q2 ++ b). rewrite <- !app_assoc. auto.
      + destruct (map_first_list f e2) as [y'|]; [|discriminate]. injection E as <-.
        destruct (IHe2 y' b Hf eq_refl eq_refl) as (b' & Eb & (q1 & q2 & -> & ->)). cbn [EditListSpec.value]. rewrite Eo, Eb, E1.
        eexists. split; [reflexivity|]. exists (a ++ q1), q2. rewrite <- !app_assoc. auto. }
  destruct (map_first_list _ e) as [e'|] eqn:E.
  - eapply F; eauto. intros l. apply add_list_inserted.
  - cbn [EditListSpec.value one_list]. rewrite beq_refl, H. eexists. split; [reflexivity|]. exists v, []. rewrite app_nil_r. auto.
Qed.
Lemma value_remove_empty e v : value e = Some v -> value (RemoveEmptySelectsAndConcatLists e) = Some v.
Proof.
  revert v. induction e; intros v H; auto.
  - cbn [RemoveEmptySelectsAndConcatLists]. destruct (is_select e) eqn:Si; auto. apply is_select_spec in Si as (i & -> & Ei).
    destruct args as [|[] rest]; auto.
    + cbn [EditListSpec.value] in H. unfold select_name in H. rewrite Ei, beq_refl in H. discriminate.
    + destruct (forallb empty_branch l) eqn:F; auto. cbn [EditListSpec.value] in H. unfold select_name in H. rewrite Ei, beq_refl in H.
      destruct (choose _) as [n|]; [|discriminate]. rewrite nth_error_map in H. destruct (nth_error l n) as [kv|] eqn:N; [|discriminate].
      apply nth_error_In in N. rewrite forallb_forall in F. apply F in N. cbn in H. destruct kv; try discriminate. destruct kv2; try discriminate. destruct l0; try discriminate.
      cbn in H. exact H.
  - cbn [RemoveEmptySelectsAndConcatLists]. destruct (beq op %"+") eqn:E; auto. cbn [EditListSpec.value] in H. rewrite E in H.
    destruct (value e1) as [a|]; [|discriminate]. destruct (value e2) as [b|]; [|discriminate]. injection H as <-.
    specialize (IHe1 a eq_refl). specialize (IHe2 b eq_refl).
    set (x := RemoveEmptySelectsAndConcatLists e1) in *. set (y := RemoveEmptySelectsAndConcatLists e2) in *. clearbody x y.
    assert (G : value (EBinary c x p op lbreak y) = Some (a ++ b)) by (cbn [EditListSpec.value]; rewrite E, IHe1, IHe2; auto).
    destruct (match x with EList _ _ l _ _ => Some l | _ => None end) as [l|] eqn:Lx.
    + destruct x; try discriminate. injection Lx as ->. cbn in IHe1. injection IHe1 as ->.
      destruct (match y with EList _ _ l _ _ => Some l | _ => None end) as [l'|] eqn:Ly.
      * destruct y; try discriminate. injection Ly as ->. cbn in IHe2. injection IHe2 as ->. destruct a; reflexivity.
      * destruct a; [|destruct y; try exact G; discriminate Ly]. cbn [app]. destruct y; try exact IHe2; discriminate Ly.
    + destruct (match y with EList _ _ [] _ _ => true | _ => false end) eqn:Ly.
      * destruct y; try discriminate. destruct l; try discriminate. cbn in IHe2. injection IHe2 as <-. rewrite app_nil_r.
        destruct x; try exact IHe1; discriminate Lx.
      * destruct x; try discriminate Lx; (destruct y; try exact G; match goal with y0 : list expr |- _ => destruct y0; [discriminate Ly|exact G] end).
Qed.

(** ** Membership up to spelling *)
Definition in_value (pkg : bytes) (x : expr) (v : list expr) : Prop :=
  In x v \/ exists s, x = EStr s /\ exists y, In y v /\ spells (s_value s) pkg y.
Lemma covered_iff pkg l l' : covered pkg l l' <-> forall x, In x l -> in_value pkg x l'.
Proof. reflexivity. Qed.
Lemma in_value_trans pkg x v v' : in_value pkg x v -> covered pkg v v' -> in_value pkg x v'.
Proof.
  intros [H|(s & -> & y & Hy & (t & -> & Et))] C; [apply C; auto|].
  right. exists s. split; auto. destruct (C _ Hy) as [H|(u & [= <-] & y & Iy & (w & -> & Ew))].
  - exists (EStr t). split; auto. exists t. auto.
  - exists (EStr w). split; auto. exists w. split; congruence.
Qed.
Lemma covered_trans pkg a b c : covered pkg a b -> covered pkg b c -> covered pkg a c.
Proof. intros H1 H2 x Hx. eapply in_value_trans; [apply H1; auto|auto]. Qed.
Lemma same_labels_trans pkg a b c : same_labels pkg a b -> same_labels pkg b c -> same_labels pkg a c.
Proof. intros [? ?] [? ?]. split; eapply covered_trans; eauto. Qed.
Lemma same_labels_refl pkg a : same_labels pkg a a.
Proof. split; left; auto. Qed.
(** Adding something that is there already. *)
Lemma value_add dwc pkg item sorted e v :
  value e = Some v -> in_value pkg item v ->
  exists v', value (AddValueToList dwc (Some e) pkg item sorted) = Some v' /\ same_labels pkg v v'.
Proof.
  intros H I.
  assert (S : (exists s, item = EStr s) \/ AddValueToList dwc (Some e) pkg item sorted = add_in item sorted e) by (destruct item; eauto).
  destruct S as [[s ->]|EA]; [|rewrite EA; clear EA].
  - rewrite add_str. destruct (ListFind e (s_value s) pkg); [exists v; split; auto using same_labels_refl|].
    destruct (value_select_delete dwc e (s_value s) pkg v H) as (v1 & E1 & T). destruct (value_add_in (EStr s) sorted _ _ E1) as (v2 & E2 & (a & b & -> & ->)).
    eexists. split; [exact E2|]. apply thinned_in in T as [T1 T2]. split; intros x Hx.
    + destruct (T2 x Hx) as [J|[Sp _]]; [left; rewrite in_app_iff in *; cbn [In]; tauto|].
      destruct Sp as (t & -> & Et). right. exists t. split; auto. exists (EStr s). split; [rewrite in_app_iff; cbn; auto|]. exists s. split; auto.
    + rewrite in_app_iff in Hx. cbn [In] in Hx. assert (D : EStr s = x \/ In x (a ++ b)) by (rewrite in_app_iff; tauto).
      destruct D as [<-|D]; [exact I|left; auto].
  - destruct (value_add_in item sorted e v H) as (v2 & E2 & (a & b & -> & ->)). eexists. split; [exact E2|]. split; intros x Hx.
    + left. rewrite in_app_iff in *. cbn [In]. tauto.
    + rewrite in_app_iff in Hx. cbn [In] in Hx. assert (D : item = x \/ In x (a ++ b)) by (rewrite in_app_iff; tauto).
      destruct D as [<-|D]; [exact I|left; auto].
Qed.
(** ** Common elements of the branches *)
Lemma scan_some v l : scan v l = Some true -> exists s, In (EStr s) l /\ s_value s = v.
Proof.
  induction l as [|x l IH]; [discriminate|]. cbn [scan]. destruct x; try discriminate.
  destruct (beq_spec (s_value s) v) as [E|E]; intros H; [exists s; cbn; auto|]. destruct (IH H) as (t & ? & ?). exists t. cbn; auto.
Qed.
Lemma intersect_loop_in l1 l2 : forall r x, intersect_loop l1 l2 = Some r -> In x r ->
  In x l1 /\ exists s, x = EStr s /\ exists s', In (EStr s') l2 /\ s_value s' = s_value s.
Proof.
  induction l1 as [|y l1 IH]; intros r x H I; cbn [intersect_loop] in H; [injection H as <-; contradiction|].
  destruct y; try discriminate. destruct (scan (s_value s) l2) as [found|] eqn:S; [|discriminate].
  destruct (intersect_loop l1 l2) as [r'|]; [|discriminate]. destruct found; injection H as <-.
  - destruct I as [<-|I].
    + split; [left; auto|]. exists s. split; auto. apply scan_some; auto.
    + destruct (IH _ _ eq_refl I). split; auto. right; auto.
  - destruct (IH _ _ eq_refl I). split; auto. right; auto.
Qed.
Lemma intersect_rest_in kvs : forall cur r x, intersect_rest cur kvs = Some r -> In x r ->
  (exists l, cur = Some l /\ In x l) /\
  forall kv, In kv kvs -> exists l, branch_list kv = Some l /\ exists s, x = EStr s /\ exists s', In (EStr s') l /\ s_value s' = s_value s.
Proof.
  induction kvs as [|kv kvs IH]; intros cur r x H I; cbn [intersect_rest] in H; [split; [eauto|contradiction]|].
  destruct (branch_list kv) as [l|] eqn:B; [|discriminate].
  destruct (ComputeIntersection cur l) as [[|a t]|] eqn:C; [injection H as <-; contradiction| |discriminate].
  destruct (IH _ _ _ H I) as [(l' & [= <-] & I') N].
  unfold ComputeIntersection in C. destruct cur as [l0|]; [|discriminate]. destruct l as [|b l]; [discriminate|].
  destruct (intersect_loop_in _ _ _ _ C I') as [I0 S]. split; [eauto|]. intros kv' [<-|Hk]; eauto.
Qed.
Lemma extracted_in pkg e v x : value e = Some v -> In x (to_extract e) -> in_value pkg x v.
Proof.
  unfold to_extract. revert v. induction e; intros v H I; try contradiction.
  - cbn [AllSelects] in I. destruct (is_select e) eqn:Si; [|contradiction]. apply is_select_spec in Si as (i & -> & Ei).
    cbn [flat_map] in I. rewrite app_nil_r in I. destruct (SelectListsIntersection args) as [r|] eqn:R; [|contradiction].
    unfold SelectListsIntersection in R. destruct args as [|[] [|? ?]]; try discriminate; try (destruct l; discriminate). destruct l as [|kv0 kvs]; [discriminate|].
    destruct (intersect_rest_in _ _ _ _ R I) as [(l0 & E0 & I0) N].
    cbn [EditListSpec.value] in H. unfold select_name in H. rewrite Ei, beq_refl in H. destruct (choose _) as [n|]; [|discriminate].
    rewrite nth_error_map in H. destruct (nth_error (kv0 :: kvs) n) as [kv|] eqn:Nth; [|discriminate]. apply nth_error_In in Nth. cbn [option_map] in H.
    destruct Nth as [->|Nth].
    + unfold branch_list in E0. destruct kv; try discriminate. destruct kv2; try discriminate. injection E0 as ->. cbn in H. injection H as <-. left; auto.
    + destruct (N _ Nth) as (l1 & B & s & -> & s' & Is & Es). unfold branch_list in B. destruct kv; try discriminate. destruct kv2; try discriminate. injection B as ->.
      cbn in H. injection H as <-. right. exists s. split; auto. exists (EStr s'). split; auto. exists s'. rewrite Es. auto.
  - cbn [AllSelects] in I. cbn [EditListSpec.value] in H. destruct (beq op %"+"); [|contradiction].
    destruct (value e1) as [a|]; [|discriminate]. destruct (value e2) as [b|]; [|discriminate]. injection H as <-.
    rewrite flat_map_app, in_app_iff in I.
    assert (M : forall l, in_value pkg x l -> (forall z, In z l -> In z (a ++ b)) -> in_value pkg x (a ++ b)).
    { intros l [J|(s & -> & y & Hy & Sy)] K; [left; auto|right; exists s; split; auto; exists y; auto]. }
    destruct I as [I|I]; [apply (M a); auto|apply (M b); auto]; intros; apply in_app_iff; auto.
Qed.
Lemma value_resolve dwc pkg e v : value e = Some v -> exists v', value (resolve_expr dwc pkg e) = Some v' /\ same_labels pkg v v'.
Proof.
  intros H. unfold resolve_expr.
  assert (G : forall l e1 v1, (forall x, In x l -> in_value pkg x v) -> value e1 = Some v1 -> same_labels pkg v v1 ->
     exists v', value (fold_left (fun e x => AddValueToList dwc (Some e) pkg x false) l e1) = Some v' /\ same_labels pkg v v').
  { clear. induction l as [|x l IH]; intros e1 v1 Hl E1 S1; cbn [fold_left]; [eauto|].
    destruct (value_add dwc pkg x false e1 v1 E1) as (v2 & E2 & S2).
    - eapply in_value_trans; [apply Hl; left; auto|apply S1].
    - apply (IH _ v2); auto; [intros; apply Hl; right; auto|]. eapply same_labels_trans; eauto. }
  destruct (G (to_extract e) e v (fun x => extracted_in pkg e v x H) H (same_labels_refl _ _)) as (v' & E & S).
  exists v'. split; auto. apply value_remove_empty. auto.
Qed.
End Value.

(** C39: in every configuration in which the attribute has a value, it has the same labels afterwards. *)
Theorem C39_resolve :
  forall dwc args attr pkg e choose val v,
    Attr attr args = Some e -> value choose val e = Some v ->
    exists e' v', Attr attr (ResolveAttr dwc args attr pkg) = Some e' /\ value choose val e' = Some v' /\ same_labels pkg v v'.
Proof.
  intros dwc args attr pkg e choose val v A V. unfold ResolveAttr. rewrite A. destruct (value_resolve choose val dwc pkg e v V) as (v' & E & S).
  do 2 eexists. split; [apply C33_get_set|]. eauto.
Qed.
Print Assumptions C39_resolve.
Theorem C39_others : forall dwc args attr pkg k, k <> attr -> Attr k (ResolveAttr dwc args attr pkg) = Attr k args.
Proof. intros. unfold ResolveAttr. destruct (Attr attr args); auto. apply C33_get_set; auto. Qed.
Print Assumptions C39_others.
(** Simplification alone keeps the list exactly. *)
Theorem C39_simplify :
  forall choose val e v, value choose val e = Some v -> value choose val (RemoveEmptySelectsAndConcatLists e) = Some v.
Proof. intros. apply value_remove_empty; auto. Qed.
Print Assumptions C39_simplify.
Example C39_nontrivial :
  let e := plus (lst [str %":z"]) (sel [kv %"c" (lst [str %":a"; str %":b"]); kv %"d" (lst [str %":b"])] []) in
  resolve_expr false %"p" e = plus (lst [str %":z"; str %":b"]) (sel [kv %"c" (lst [str %":a"]); kv %"d" (lst [])] []) /\
  value (fun _ => Some 1) (fun _ => None) e = Some [str %":z"; str %":b"].
Proof. split; vm_compute; reflexivity. Qed.

(** C40. *)
(** The list the attribute stands for: its value, or that of the variable it is set to. *)
Inductive target (args : list expr) (vars : list (bytes * expr)) (name : bytes) : expr -> Prop :=
  | t_var i v : Attr name args = Some (EIdent i) -> lookup (i_name i) vars = Some v -> target args vars name v
  | t_attr e : Attr name args = Some e -> (forall i, e = EIdent i -> lookup (i_name i) vars = None) -> target args vars name e.
Lemma add_present dwc old pkg item sorted : exists x, In x (plain (AddValueToList dwc old pkg item sorted)) /\
  (x = item \/ exists s, item = EStr s /\ spells (s_value s) pkg x).
Proof.
  assert (D : (exists s, item = EStr s) \/ (forall s, item <> EStr s)) by (destruct item; eauto; right; discriminate).
  destruct D as [[s ->]|D].
  - destruct (C35_present dwc old pkg s sorted) as (x & I & S). exists x. eauto.
  - destruct old as [e|]; [|exists item; split; [left; auto|auto]].
    destruct (C35_add_other dwc e pkg item sorted D) as [(a & b & _ & E) _]. exists item. rewrite E, in_app_iff. cbn; auto.
Qed.
Lemma add_keeps dwc e pkg item sorted x : In x (plain e) -> In x (plain (AddValueToList dwc (Some e) pkg item sorted)).
Proof.
  intros I. assert (D : (exists s, item = EStr s) \/ (forall s, item <> EStr s)) by (destruct item; eauto; right; discriminate).
  destruct D as [[s ->]|D].
  - destruct (C35_add dwc e pkg s sorted) as [[_ ->]|(_ & (a & b & E1 & E2) & _)]; auto. rewrite E2. rewrite E1 in I. rewrite in_app_iff in *. cbn; tauto.
  - destruct (C35_add_other dwc e pkg item sorted D) as [(a & b & E1 & E2) _]. rewrite E2. rewrite E1 in I. rewrite in_app_iff in *. cbn; tauto.
Qed.
Lemma target_add dwc args vars name pkg item e : target args vars name e ->
  let '(a, v) := AddValueToListAttribute dwc args vars name pkg item in
  target a v name (AddValueToList dwc (Some e) pkg item (negb (beq name %"args"))) /\ (forall k, k <> name -> Attr k a = Attr k args).
Proof.
  intros T. pose proof (C35_attribute dwc args vars name pkg item) as H. destruct (AddValueToListAttribute dwc args vars name pkg item) as [a v].
  destruct H as [O [(i & w & A & L & -> & L' & _)|(N & -> & A')]]; split; auto.
  - destruct T as [j u A1 L1|u A1 N1].
    + assert (i = j) by congruence. subst j. assert (u = w) by congruence. subst u. eapply t_var; eauto.
    + exfalso. assert (u = EIdent i) by congruence. subst u. rewrite (N1 i eq_refl) in L. discriminate.
  - destruct T as [j u A1 L1|u A1 N1].
    + exfalso. rewrite (N j A1) in L1. discriminate.
    + rewrite A1 in A'. apply t_attr; auto. intros i E. exfalso.
      destruct (add_present dwc (Some u) pkg item (negb (beq name %"args"))) as (x & I & _). rewrite E in I. contradiction.
Qed.
(** Values moved from [old] to an existing attribute [new]: all are there afterwards (a string in some
    spelling), with all elements [new] had; the attribute [old] (if defined once) is gone and the
    other attributes are unchanged. *)
Theorem C40_move_to_existing_partial :
  forall dwc args vars old new pkg c s l en m e, old <> new ->
    Attr old args = Some (EList c s l en m) -> target args vars new e ->
    exists args' vars' e', MoveAllListAttributeValues dwc args vars old new pkg = Some (args', vars') /\
      target args' vars' new e' /\
      (forall x, In x (plain e) -> In x (plain e')) /\
      (forall x, In x l -> exists y, In y (plain e') /\ (y = x \/ exists t, x = EStr t /\ spells (s_value t) pkg y)) /\
      (List.length (filter (fun k => beq k old) (AttrKeys args)) <= 1 -> Attr old args' = None) /\
      (forall k, k <> old -> k <> new -> Attr k args' = Attr k args).
Proof.
  intros dwc args vars old new pkg c s l en m e ne A T. unfold MoveAllListAttributeValues. rewrite A.
  assert (B : exists b, Attr new args = Some b) by (destruct T; eauto). destruct B as [b ->].
  assert (G : forall l args vars e, target args vars new e ->
    let '(a, v) := fold_left (fun st x => AddValueToListAttribute dwc (fst st) (snd st) new pkg x) l (args, vars) in
    (exists e', target a v new e' /\ (forall x, In x (plain e) -> In x (plain e')) /\
      (forall x, In x l -> exists y, In y (plain e') /\ (y = x \/ exists t, x = EStr t /\ spells (s_value t) pkg y))) /\
    (forall k, k <> new -> Attr k a = Attr k args) /\
    filter (fun k => beq k old) (AttrKeys a) = filter (fun k => beq k old) (AttrKeys args)).
  { clear - ne. induction l as [|x l IH]; intros args vars e T; cbn [fold_left].
    - split; [exists e; repeat split; auto; contradiction|]. split; auto.
    - cbn [fst snd]. pose proof (target_add dwc args vars new pkg x e T) as H.
      assert (K : filter (fun k => beq k old) (AttrKeys (fst (AddValueToListAttribute dwc args vars new pkg x))) = filter (fun k => beq k old) (AttrKeys args)).
      { pose proof (C35_attribute dwc args vars new pkg x) as H'. unfold AddValueToListAttribute.
        assert (S : forall v, filter (fun k => beq k old) (AttrKeys (SetAttr new v args)) = filter (fun k => beq k old) (AttrKeys args)).
        { intros v. destruct (C33_set_place new v args) as [(pre & cc & i & p & op & bb & o & post & -> & Ei & N & ->)|(N & y & -> & (cc & i & p & op & bb & -> & Ei))].
          - unfold AttrKeys. rewrite !flat_map_app. reflexivity.
          - unfold AttrKeys. rewrite flat_map_app, filter_app. cbn. rewrite Ei. replace (beq new old) with false by (symmetry; apply beq_neq; auto). apply app_nil_r. }
        destruct (Attr new args) as [[]|]; try apply S. destruct (lookup (i_name i) vars); [reflexivity|apply S]. }
      destruct (AddValueToListAttribute dwc args vars new pkg x) as [a v]. destruct H as [T' O]. specialize (IH a v _ T'). cbn [fst] in K.
      destruct (fold_left _ l (a, v)) as [a' v']. destruct IH as [(e' & Te & P1 & P2) [O' K']]. split; [|split; [intros; rewrite O'; auto|congruence]].
      exists e'. split; auto. split; [intros; apply P1, add_keeps; auto|]. intros z [<-|Hz]; auto.
      destruct (add_present dwc (Some e) pkg x (negb (beq new %"args"))) as (y & Iy & Sy). exists y. split; auto. }
  specialize (G l args vars e T). destruct (fold_left _ l (args, vars)) as [a v]. destruct G as [(e' & Te & P1 & P2) [O K]].
  do 3 eexists. split; [reflexivity|]. split; [|split; [exact P1|split; [exact P2|split]]].
  - destruct Te as [i w A1 L1|w A1 N1]; [eapply t_var; eauto|apply t_attr; auto]; rewrite C33_delete_others; auto.
  - intros Hl. apply C33_delete_absent. rewrite K. auto.
  - intros k n1 n2. rewrite C33_delete_others; auto.
Qed.
Print Assumptions C40_move_to_existing_partial.
(** Moving to an attribute that does not exist renames. *)
Lemma rename_first_split old new args : (exists v, Attr old args = Some v) ->
  exists pre c i p op b v post, args = pre ++ EAssign c (EIdent i) p op b v :: post /\ i_name i = old /\ no_attr old pre /\
    Attr old args = Some v /\ rename_first old new args = Some (pre ++ EAssign c (EIdent (Ident (i_com i) (i_pos i) new)) p op b v :: post).
Proof.
  intros [v A]. pose proof A as A0. apply attr_is_some, attr_is_split in A as (pre & x & post & -> & (c & i & p & op & b & -> & Ei) & N).
  exists pre, c, i, p, op, b, v, post. repeat split; auto. clear A0. induction pre as [|y pre IH]; cbn [app rename_first].
  - unfold defines. cbn [attr_key]. rewrite Ei, beq_refl. reflexivity.
  - assert (Y : defines old y = false).
    { unfold defines, attr_key. destruct y; auto. destruct y1; auto. apply beq_neq. intros E. eapply (N (EAssign c0 (EIdent i0) p0 op0 lbreak y2)); [left; auto|].
      do 5 eexists. split; [reflexivity|auto]. }
    rewrite Y, IH; auto. intros z w Hz. apply N. right; auto.
Qed.
Theorem C40_rename :
  forall args old new v, Attr old args = Some v -> Attr new args = None -> old <> new ->
    exists args', RenameAttribute args old new = Some args' /\
      (exists pre c i p op b post, args = pre ++ EAssign c (EIdent i) p op b v :: post /\ i_name i = old /\
         args' = pre ++ EAssign c (EIdent (Ident (i_com i) (i_pos i) new)) p op b v :: post) /\
      Attr new args' = Some v /\
      (forall k, k <> old -> k <> new -> Attr k args' = Attr k args) /\
      (List.length (filter (fun k => beq k old) (AttrKeys args)) <= 1 -> Attr old args' = None).
Proof.
  intros args old new v A N ne. unfold RenameAttribute. rewrite N.
  destruct (rename_first_split old new args (ex_intro _ v A)) as (pre & c & i & p & op & b & w & post & E & Ei & Np & A' & ->).
  assert (w = v) by congruence. subst w. eexists. split; [reflexivity|]. split; [do 7 eexists; split; [exact E|split; auto]|].
  apply no_attr_none in N. set (x' := EAssign c (EIdent (Ident (i_com i) (i_pos i) new)) p op b v).
  assert (G' : gives new x' v) by (unfold x'; do 5 eexists; split; reflexivity).
  split; [|split].
  - apply attr_is_some. apply attr_is_app; [intros y u Hy; apply N; rewrite E, in_app_iff; auto|]. apply ai_here; auto.
  - intros k n1 n2.
    assert (Sk : forall y, (forall u, ~ gives k y u) -> Attr k (pre ++ y :: post) = Attr k (pre ++ post)).
    { intros y Ny. destruct (Attr k (pre ++ post)) as [u|] eqn:Au.
      - apply attr_is_some. apply attr_is_skip; auto. apply attr_is_some; auto.
      - apply no_attr_none. apply no_attr_none in Au. intros z u Hz. rewrite in_app_iff in Hz. destruct Hz as [Hz|[<-|Hz]]; auto; apply Au; apply in_app_iff; auto. }
    rewrite E, !Sk; auto; intros u (? & ? & ? & ? & ? & E1 & E2); [congruence|]. unfold x' in E1. injection E1 as <- <-. cbn in E2. congruence.
  - intros Hl. apply no_attr_none. intros y u Hy Gy. rewrite in_app_iff in Hy. destruct Hy as [Hy|[<-|Hy]].
    + eapply Np; eauto.
    + destruct Gy as (? & ? & ? & ? & ? & E1 & E2). unfold x' in E1. injection E1 as <- <-. cbn in E2. congruence.
    + rewrite E in Hl. unfold AttrKeys in Hl. rewrite flat_map_app in Hl. cbn [flat_map attr_key opt_list app] in Hl. rewrite !filter_app in Hl. cbn [filter] in Hl. rewrite Ei, beq_refl in Hl.
      apply in_split in Hy as (q & r & ->). destruct Gy as (? & j & ? & ? & ? & -> & Ej). rewrite flat_map_app in Hl. cbn [flat_map attr_key opt_list app] in Hl.
      rewrite filter_app in Hl. cbn [filter] in Hl. rewrite Ej, beq_refl in Hl. rewrite !app_length in Hl. cbn [List.length] in Hl. rewrite app_length in Hl. cbn [List.length] in Hl. lia.
Qed.
Print Assumptions C40_rename.
(** Renaming fails exactly if there is nothing to rename or the new name is taken. *)
Theorem C40_rename_fails :
  forall args old new, RenameAttribute args old new = None <->
    Attr new args <> None \/ forall x, In x args -> attr_key x <> Some old.
Proof.
  intros args old new. unfold RenameAttribute. destruct (Attr new args) as [v|].
  - split; auto. intros _. left. discriminate.
  - assert (H : rename_first old new args = None <-> forall x, In x args -> attr_key x <> Some old).
    { induction args as [|x args IH]; cbn [rename_first]; [split; [intros _ x []|auto]|].
      unfold defines. destruct (attr_key x) as [k|] eqn:K.
      - destruct (beq_spec k old) as [->|N].
        + split; [discriminate|]. intros H. exfalso. apply (H x); [now left|exact K].
        + destruct (rename_first old new args) as [r|]; cbn [option_map].
          * split; [discriminate|]. intros H. exfalso. destruct IH as [_ IH]. discriminate IH. intros y I1. apply H. now right.
          * split; auto. intros _ y [<-|I1]; [congruence|]. apply IH; auto.
      - destruct (rename_first old new args) as [r|]; cbn [option_map].
        + split; [discriminate|]. intros H. exfalso. destruct IH as [_ IH]. discriminate IH. intros y I1. apply H. now right.
        + split; auto. intros _ y [<-|I1]; [congruence|]. apply IH; auto. }
    rewrite H. split; auto. intros [C|C]; [now destruct C|exact C].
Qed.
Print Assumptions C40_rename_fails.
Theorem C40_move_to_new :
  forall dwc args vars old new pkg v, Attr old args = Some v -> Attr new args = None ->
    exists args', MoveAllListAttributeValues dwc args vars old new pkg = Some (args', vars) /\ RenameAttribute args old new = Some args'.
Proof.
  intros dwc args vars old new pkg v A N. unfold MoveAllListAttributeValues. rewrite A, N.
  assert (ne : old <> new) by congruence. destruct (C40_rename args old new v A N ne) as (a & -> & _). eauto.
Qed.
Print Assumptions C40_move_to_new.
(** It fails, changing nothing, exactly if there is nothing to move or the values are not a list. *)
Theorem C40_fails :
  forall dwc args vars old new pkg, MoveAllListAttributeValues dwc args vars old new pkg = None <->
    Attr old args = None \/ (Attr new args <> None /\ forall c s l en m, Attr old args <> Some (EList c s l en m)).
Proof.
  intros. unfold MoveAllListAttributeValues. destruct (Attr old args) as [e|]; [|tauto].
  destruct (Attr new args) as [b|].
  - destruct e; try (split; [intros _; right; split; discriminate|auto]). destruct (fold_left _ _ _).
    split; [discriminate|]. intros [H|[_ H]]; [discriminate|]. exfalso. eapply H; eauto.
  - split; [destruct (RenameAttribute _ _ _); discriminate|]. intros [H|[H _]]; congruence.
Qed.
Print Assumptions C40_fails.
(** Moving an attribute to itself loses its values. *)
Theorem C40_same_attribute_refuted :
  exists args x, MoveAllListAttributeValues false args [] %"deps" %"deps" [] = Some ([], []) /\
    Attr %"deps" args = Some (lst [x]).
Proof. exists [arg %"deps" (lst [str %":a"])], (str %":a"). split; vm_compute; reflexivity. Qed.
Print Assumptions C40_same_attribute_refuted.
Example C40_nontrivial :
  let args := [arg %"name" (str %"n"); arg %"a" (lst [str %":x"; str %"//p:y"]); arg %"b" (EIdent (Ident no_com no_pos %"B"))] in
  MoveAllListAttributeValues false args [(%"B", lst [str %":y"])] %"a" %"b" %"p" =
    Some ([arg %"name" (str %"n"); arg %"b" (EIdent (Ident no_com no_pos %"B"))], [(%"B", lst [str %":x"; str %":y"])]) /\
  target args [(%"B", lst [str %":y"])] %"b" (lst [str %":y"]).
Proof. split; [vm_compute; reflexivity|]. eapply t_var; vm_compute; reflexivity. Qed.
