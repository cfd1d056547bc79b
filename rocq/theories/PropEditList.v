(** Properties C35 (adding), C36 (removing), C37 (replacing list values), C38 (dictionaries). *)
From Verif Require Import Base BaseProofs Ast Labels LabelsProofs Quote StrList Rewrite RuleApi RuleSpec RuleProofs EditList EditListSpec EditResolve EditListProofs Order PropRule.

(** C35. *)
Lemma ListFind_spec e item pkg :
  (ListFind e item pkg = None /\ forall x, In x (plain e) -> ~ spells item pkg x) \/
  (exists x, ListFind e item pkg = Some x /\ In x (plain e) /\ spells item pkg x).
Proof.
  unfold ListFind, listsFind. rewrite AllLists_plain. destruct (find (is_item item pkg) (plain e)) as [x|] eqn:F.
  - right. apply find_some in F as [I S]. apply is_item_spec in S. eauto.
  - left. split; auto. intros x Hx S. apply is_item_spec in S. apply (find_none _ _ F) in Hx. congruence.
Qed.
Lemma add_str dwc e pkg s sorted :
  AddValueToList dwc (Some e) pkg (EStr s) sorted =
  match ListFind e (s_value s) pkg with Some _ => e | None => add_in (EStr s) sorted (SelectDelete dwc e (s_value s) pkg) end.
Proof. reflexivity. Qed.
(** A string that is already there (in any spelling) changes nothing; otherwise it is inserted exactly once into the
    unconditional elements, whose other elements stay as they are, and its (comment-free) spellings
    are removed from the branches of selects.  Nothing else changes. *)
Theorem C35_add :
  forall dwc e pkg s sorted, let e' := AddValueToList dwc (Some e) pkg (EStr s) sorted in
    ((exists x, In x (plain e) /\ spells (s_value s) pkg x) /\ e' = e) \/
    ((forall x, In x (plain e) -> ~ spells (s_value s) pkg x) /\
     inserted (EStr s) (plain e) (plain e') /\
     without (removable dwc (s_value s) pkg) (branches e) (branches e') /\
     (lists_changed (fun l l' => l' = l \/ inserted (EStr s) l l') (without (removable dwc (s_value s) pkg)) e e' \/
      exists e1, lists_changed eq (without (removable dwc (s_value s) pkg)) e e1 /\
                 e' = EBinary no_com e1 no_pos %"+" false (EList no_com no_pos [EStr s] (End no_com no_pos) false))).
Proof.
  intros dwc e pkg s sorted e'. unfold e'. rewrite add_str. destruct (ListFind_spec e (s_value s) pkg) as [[-> N]|(x & -> & I & S)]; [right|left; eauto].
  pose proof (select_delete_changed dwc e (s_value s) pkg) as C. set (e1 := SelectDelete dwc e (s_value s) pkg) in *.
  destruct (add_in_plain (EStr s) sorted e1) as [Ip Eb].
  assert (Pl : plain e1 = plain e).
  { pose proof (plain_changed eq (without (removable dwc (s_value s) pkg)) eq e e1) as Q. symmetry. apply Q; auto. intros; subst; auto. }
  split; auto. split; [rewrite <- Pl; auto|]. split.
  - rewrite Eb. eapply branches_changed; [| | |exact C]; auto; [constructor|apply without_app].
  - destruct (add_in_shape (EStr s) sorted e1) as [Sh|Sh]; [left|right; exists e1; auto].
    eapply lists_changed_trans; [| |exact C|exact Sh]; cbv beta; intros; subst; auto.
Qed.
Print Assumptions C35_add.
Theorem C35_present :
  forall dwc old pkg s sorted, exists x, In x (plain (AddValueToList dwc old pkg (EStr s) sorted)) /\ spells (s_value s) pkg x.
Proof.
  intros dwc [e|] pkg s sorted.
  - destruct (C35_add dwc e pkg s sorted) as [[H ->]|(_ & (a & b & _ & E) & _)]; auto.
    exists (EStr s). rewrite E, in_app_iff. cbn [In]. split; auto. exists s. auto.
  - exists (EStr s). split; [left; auto|exists s; auto].
Qed.
Print Assumptions C35_present.
(** Adding it again, in any spelling, changes nothing. *)
Theorem C35_idempotent :
  forall dwc old pkg s s' sorted dwc' sorted', parse_relative (s_value s') pkg = parse_relative (s_value s) pkg ->
    let e' := AddValueToList dwc old pkg (EStr s) sorted in
    AddValueToList dwc' (Some e') pkg (EStr s') sorted' = e'.
Proof.
  intros dwc old pkg s s' sorted dwc' sorted' E e'. destruct (C35_present dwc old pkg s sorted) as (x & I & (t & -> & Et)). fold e' in I.
  destruct (C35_add dwc' e' pkg s' sorted') as [[_ H]|(N & _)]; auto. exfalso. apply (N _ I). exists t. split; congruence.
Qed.
Print Assumptions C35_idempotent.
(** An expression that is not a string is always inserted, and nothing else changes. *)
Theorem C35_add_other :
  forall dwc e pkg item sorted, (forall s, item <> EStr s) -> let e' := AddValueToList dwc (Some e) pkg item sorted in
    inserted item (plain e) (plain e') /\ branches e' = branches e /\
    (lists_changed (fun l l' => l' = l \/ inserted item l l') eq e e' \/
     e' = EBinary no_com e no_pos %"+" false (EList no_com no_pos [item] (End no_com no_pos) false)).
Proof.
  intros dwc e pkg item sorted N e'. assert (E : e' = add_in item sorted e) by (unfold e'; destruct item; try reflexivity; exfalso; eapply N; eauto).
  rewrite E. destruct (add_in_plain item sorted e). split; auto. split; auto. apply add_in_shape.
Qed.
Print Assumptions C35_add_other.
(** Where a sorted insertion goes. *)
Lemma expr_less_spec x y : expr_less x y = true <-> goes_before x y.
Proof.
  unfold goes_before. destruct x, y; cbn [expr_less]; try (split; [discriminate|tauto]); try tauto.
  assert (F : forall t, has_prefix %"//" (s_value t) = true <-> exists u, s_value t = %"//" ++ u) by (intros; apply has_prefix_spec).
  rewrite <- !F. destruct (has_prefix %"//" (s_value s)), (has_prefix %"//" (s_value s0)); cbn [Bool.eqb]; intuition congruence.
Qed.
Theorem C35_sorted_place :
  forall item l, exists a b, l = a ++ b /\ sortedInsert item l = a ++ item :: b /\
    (forall x, In x a -> ~ goes_before item x) /\ match b with y :: _ => goes_before item y | [] => True end.
Proof.
  intros. destruct (sortedInsert_place item l) as (a & b & E1 & E2 & H1 & H2). exists a, b. split; auto. split; auto. split.
  - intros x Hx. rewrite <- expr_less_spec, H1; auto.
  - destruct b; auto. apply expr_less_spec; auto.
Qed.
Print Assumptions C35_sorted_place.
Lemma expr_less_asym x y : expr_less x y = true -> expr_less y x = false.
Proof.
  destruct x, y; cbn [expr_less]; auto; try discriminate.
  destruct (has_prefix %"//" (s_value s)), (has_prefix %"//" (s_value s0)); cbn [Bool.eqb]; auto; try discriminate; apply blt_asym.
Qed.
Lemma expr_less_ntrans x y z : expr_less x y = false -> expr_less y z = false -> expr_less x z = false.
Proof.
  destruct x, y, z; cbn [expr_less]; auto; try discriminate.
  destruct (has_prefix %"//" (s_value s)), (has_prefix %"//" (s_value s0)), (has_prefix %"//" (s_value s1)); cbn [Bool.eqb]; auto; try discriminate;
    apply (swo_ntrans swo_blt).
Qed.
(** A list in order stays in order. *)
Theorem C35_sorted :
  forall item l, StronglySorted (fun x y => ~ goes_before y x) l -> StronglySorted (fun x y => ~ goes_before y x) (sortedInsert item l).
Proof.
  intros item l H.
  assert (M : forall x y, ~ goes_before y x <-> expr_less y x = false) by (intros; rewrite <- expr_less_spec; apply not_true_iff_false).
  induction H as [|y l H IH F]; cbn [sortedInsert]; [repeat constructor|].
  destruct (expr_less item y) eqn:E.
  - constructor; [constructor; auto|]. apply expr_less_asym in E. constructor; [apply M; auto|].
    eapply Forall_impl; [|exact F]. intros z Hz. apply M in Hz. apply M. eapply expr_less_ntrans; eauto.
  - constructor; auto. apply Forall_forall. intros z Hz. rewrite Forall_forall in F.
    destruct (sortedInsert_place item l) as (a & b & E1 & E2 & _). rewrite E2 in Hz. rewrite in_app_iff in Hz. cbn [In] in Hz.
    assert (Hz' : z = item \/ In z l) by (rewrite E1, in_app_iff; intuition). destruct Hz' as [->|Hz']; [apply M; auto|auto].
Qed.
Print Assumptions C35_sorted.
(** On a rule: the attribute's value, or that of the variable the attribute is set to, is the one edited;
    all other attributes and variables keep theirs. *)
Theorem C35_attribute :
  forall dwc args vars name pkg item, let '(args', vars') := AddValueToListAttribute dwc args vars name pkg item in
    let sorted := negb (beq name %"args") in
    (forall k, k <> name -> Attr k args' = Attr k args) /\
    ((exists i v, Attr name args = Some (EIdent i) /\ lookup (i_name i) vars = Some v /\ args' = args /\
        lookup (i_name i) vars' = Some (AddValueToList dwc (Some v) pkg item sorted) /\
        forall k, k <> i_name i -> lookup k vars' = lookup k vars) \/
     ((forall i, Attr name args = Some (EIdent i) -> lookup (i_name i) vars = None) /\ vars' = vars /\
        Attr name args' = Some (AddValueToList dwc (Attr name args) pkg item sorted))).
Proof.
  intros dwc args vars name pkg item. unfold AddValueToListAttribute.
  destruct (Attr name args) as [e|] eqn:A.
  2: { split; [intros; apply C33_get_set; auto|]. right. split; [discriminate|]. split; auto. apply C33_get_set. }
  assert (D : (exists i, e = EIdent i) \/ (forall i, e <> EIdent i)) by (destruct e; eauto; right; discriminate).
  destruct D as [[i ->]|D].
  - destruct (lookup (i_name i) vars) as [v|] eqn:L.
    + split; auto. left. exists i, v. repeat split; auto.
      * revert L. generalize (AddValueToList dwc (Some v) pkg item (negb (beq name %"args"))). clear. intros w. induction vars as [|[k u] vars IH]; [discriminate|].
        cbn [lookup update]. destruct (beq (i_name i) k) eqn:E; cbn [lookup]; rewrite E; auto.
      * intros k ne. generalize (AddValueToList dwc (Some v) pkg item (negb (beq name %"args"))). clear - ne. intros w. induction vars as [|[k' u] vars IH]; auto.
        cbn [update]. destruct (beq_spec (i_name i) k') as [<-|]; cbn [lookup]; [|rewrite IH; auto].
        apply beq_neq in ne. rewrite ne. auto.
    + split; [intros; apply C33_get_set; auto|]. right. split; [intros j [= <-]; auto|]. split; auto. apply C33_get_set.
  - replace (match e with EIdent i => _ | _ => _ end) with (SetAttr name (AddValueToList dwc (Some e) pkg item (negb (beq name %"args"))) args, vars)
      by (destruct e; auto; exfalso; eapply D; eauto).
    split; [intros; apply C33_get_set; auto|]. right. split; [intros i [= E]; exfalso; eapply D; eauto|]. split; auto. apply C33_get_set.
Qed.
Print Assumptions C35_attribute.
Definition lst (l : list expr) : expr := EList no_com no_pos l (End no_com no_pos) false.
Definition kv (k : bytes) (v : expr) : expr := EKV no_com (str k) no_pos v.
Definition sel (kvs : list expr) (more : list expr) : expr :=
  ECall no_com (EIdent (Ident no_com no_pos %"select")) no_pos (EDict no_com no_pos kvs (End no_com no_pos) false :: more) (End no_com no_pos) false false.
Definition plus (x y : expr) : expr := EBinary no_com x no_pos %"+" false y.
Example C35_nontrivial :
  AddValueToList false (Some (plus (lst [str %":a"; str %"//z"]) (sel [kv %"c" (lst [str %"//p:m"; str %":k"]); kv %"d" (lst [])] []))) %"p" (str %":m") true =
    plus (lst [str %":a"; str %":m"; str %"//z"]) (sel [kv %"c" (lst [str %":k"]); kv %"d" (lst [])] []) /\
  AddValueToList false (Some (plus (lst [str %":a"]) (sel [] []))) %"p" (str %"//p:a") true = plus (lst [str %":a"]) (sel [] []) /\
  AddValueToList false (Some (sel [] [])) %"p" (str %"//p:a") true = plus (sel [] []) (lst [str %"//p:a"]).
Proof. repeat split; vm_compute; reflexivity. Qed.

(** C36: the item may be given as a quoted literal. *)
Theorem C36_delete :
  forall dwc e item0 item pkg,
    (snd (unquote item0) = None /\ item = fst (fst (unquote item0))) \/ (snd (unquote item0) <> None /\ item = item0) ->
    let '(deleted, e') := ListDelete dwc e item0 pkg in
    lists_changed (without (removable dwc item pkg)) (without (removable dwc item pkg)) e e' /\
    without (removable dwc item pkg) (plain e) (plain e') /\ without (removable dwc item pkg) (branches e) (branches e') /\
    match deleted with
    | Some x => In x (plain e ++ branches e) /\ removable dwc item pkg x
    | None => forall x, In x (plain e ++ branches e) -> ~ removable dwc item pkg x
    end.
Proof.
  intros dwc e item0 item pkg Hi. unfold ListDelete.
  assert (U : unquoted_item item0 = item).
  { unfold unquoted_item. destruct (unquote item0) as [[v t] [er|]]; cbn in Hi; destruct Hi as [[? ->]|[? ->]]; congruence. }
  rewrite U. clear item0 Hi U.
  set (r := RemoveFromList dwc item pkg).
  assert (C : lists_changed (without (removable dwc item pkg)) (without (removable dwc item pkg)) e (SelectDelete dwc (map_lists r e) item pkg)).
  { eapply lists_changed_mono; [| |apply (mapped r r e)]; cbv beta; intros l l' ->; apply without_filter, to_remove_spec. }
  split; auto. split; [|split].
  - eapply plain_changed; [| | |exact C]; auto; [constructor|apply without_app].
  - eapply branches_changed; [| | |exact C]; auto; [constructor|apply without_app].
  - rewrite AllSelects_map_lists.
    assert (IA : forall x, In x (plain e) \/ In x (branches e) -> In x (plain e ++ branches e)) by (intros; apply in_app_iff; auto).
    destruct (fold_removed dwc item pkg (flat_map dict_lists (AllSelects e)) (fold_left (last_removed dwc item pkg) (AllLists e) None)) as [[-> H]|(y & -> & I & R)]; rewrite AllSelects_branches in *; auto.
    destruct (fold_removed dwc item pkg (AllLists e) None) as [[-> H']|(y & -> & I & R)]; rewrite AllLists_plain in *; auto.
    intros x Hx. apply in_app_iff in Hx as [?|?]; auto.
Qed.
Print Assumptions C36_delete.
(** With -delete_with_comments (the default), no spelling remains. *)
Theorem C36_none_left :
  forall e item pkg, snd (unquote item) <> None ->
    forall x, In x (plain (snd (ListDelete true e item pkg)) ++ branches (snd (ListDelete true e item pkg))) -> ~ spells item pkg x.
Proof.
  intros e item pkg U x Hx S. pose proof (C36_delete true e item item pkg (or_intror (conj U eq_refl))) as H.
  destruct (ListDelete true e item pkg) as [d e']. destruct H as (_ & P & B & _). cbn [snd] in Hx.
  apply in_app_iff in Hx as [Hx|Hx]; [apply (without_in _ _ _ P) in Hx as [_ N]|apply (without_in _ _ _ B) in Hx as [_ N]]; apply N; split; auto.
Qed.
Print Assumptions C36_none_left.
Theorem C36_attribute :
  forall dwc args attr item pkg, let '(deleted, args') := ListAttributeDelete dwc args attr item pkg in
    match Attr attr args with
    | None => deleted = None /\ args' = args
    | Some e =>
        let '(d, e') := ListDelete dwc e item pkg in
        deleted = d /\ (forall k, k <> attr -> Attr k args' = Attr k args) /\
        ((exists c s en m, e' = EList c s [] en m) /\ d <> None /\ args' = snd (DelAttr attr args) \/
         ((forall c s en m, e' <> EList c s [] en m) \/ d = None) /\ args' = SetAttr attr e' args)
    end.
Proof.
  intros dwc args attr item pkg. unfold ListAttributeDelete. destruct (Attr attr args) as [e|] eqn:A; auto.
  destruct (ListDelete dwc e item pkg) as [d e'].
  assert (D : forall v, snd (DelAttr attr (SetAttr attr v args)) = snd (DelAttr attr args)).
  { intros v. unfold SetAttr, Attr in *. destruct (AttrDefn attr args) as [x|] eqn:F; [|discriminate]. clear A. revert x F. unfold AttrDefn.
    induction args as [|y args IH]; intros x F; [discriminate|]. cbn [find set_first DelAttr] in *. destruct (defines attr y) eqn:Dy.
    - cbn [DelAttr]. replace (defines attr (set_rhs v y)) with (defines attr y) by (destruct y; auto). rewrite Dy. auto.
    - cbn [DelAttr]. rewrite Dy. specialize (IH _ F). destruct (DelAttr attr (set_first attr v args)), (DelAttr attr args). cbn [snd] in *. congruence. }
  assert (O : forall v k, k <> attr -> Attr k (SetAttr attr v args) = Attr k args) by (intros; apply C33_get_set; auto).
  destruct d as [d|].
  - assert (E : (exists c s en m, e' = EList c s [] en m) \/ (forall c s en m, e' <> EList c s [] en m)).
    { destruct e'; try (right; intros; discriminate). destruct l; [left; eauto 6|right; intros; discriminate]. }
    destruct E as [(c & s & en & m & ->)|E].
    + split; auto. split; [intros; rewrite D; apply C33_delete_others; auto|]. left. rewrite D. split; [eauto 6|]. split; [discriminate|auto].
    + replace (match e' with EList _ _ [] _ _ => _ | _ => _ end) with (Some d, SetAttr attr e' args).
      * split; auto.
      * destruct e'; auto. destruct l; auto. exfalso. eapply E; eauto.
  - split; auto.
Qed.
Print Assumptions C36_attribute.
Example C36_nontrivial :
  ListDelete true (plus (lst [str %"//p:m"; num %"1"; str %":m"; str %":a"]) (sel [kv %"c" (lst [str %":m"])] [num %"0"])) %":m" %"p" =
    (Some (str %":m"), plus (lst [num %"1"; str %":a"]) (sel [kv %"c" (lst [])] [num %"0"])) /\ snd (unquote %":m") <> None.
Proof. split; [vm_compute; reflexivity|vm_compute; discriminate]. Qed.

(** C37. *)
Definition label_for (short : bool) (value pkg : bytes) : bytes := if short then shorten value pkg else value.
(** [x'] is a string with value [v] and the comments of the string [x]. *)
Definition new_text (v : bytes) (x x' : expr) : Prop := exists s s', x = EStr s /\ x' = EStr s' /\ s_com s' = s_com s /\ s_value s' = v.
Lemma replaced_map {A} (P : A -> Prop) (Q : A -> A -> Prop) (p : A -> bool) (f : A -> A) l :
  (forall x, p x = true <-> P x) -> (forall x, p x = true -> Q x (f x)) -> (forall x, p x = false -> f x = x) -> replaced P Q l (map f l).
Proof.
  intros H1 H2 H3. unfold replaced. induction l as [|x l IH]; constructor; auto. destruct (p x) eqn:E.
  - left. rewrite <- H1. auto.
  - right. rewrite <- H1, E. auto.
Qed.
Lemma simple_selects e : forallb one_dict (AllSelects e) = true <-> Forall simple_select (parts e).
Proof.
  induction e; try (cbn; split; auto; intros _; constructor; [intros; discriminate|constructor]).
  - cbn [AllSelects]. destruct (is_select e) eqn:Si.
    + apply is_select_spec in Si as (i & -> & Ei). cbn [forallb one_dict parts].
      assert (O : forall a, simple_select (POther (ECall c (EIdent i) lstart a e0 compact multi)) <-> False).
      { intros a. cbn [simple_select]. split; [|tauto]. intros H. eapply H; eauto. }
      assert (O1 : forall a, Forall simple_select [POther (ECall c (EIdent i) lstart a e0 compact multi)] <-> False).
      { intros a. split; [|tauto]. intros H. apply Forall_inv in H. apply O in H. auto. }
      destruct args as [|[] rest]; try (rewrite O1; cbn; split; [discriminate|tauto]).
      unfold select_name. rewrite Ei, beq_refl. destruct rest; cbn; split; try discriminate; auto.
      * intros _. repeat constructor.
      * intros H. apply Forall_inv in H. discriminate.
    + rewrite parts_call by auto. cbn. split; auto. intros _. constructor; [|constructor].
      cbn [simple_select]. intros c' i p a en k m [= <- -> <- <- <- <- <-] Ei. cbn in Si. rewrite Ei, beq_refl in Si. discriminate.
  - cbn. split; auto. intros _. repeat constructor.
  - cbn [AllSelects parts]. destruct (beq op %"+") eqn:E.
    + rewrite forallb_app, andb_true_iff, IHe1, IHe2, Forall_app. reflexivity.
    + cbn. split; auto. intros _. constructor; [intros; discriminate|constructor].
Qed.
Lemma map_all_lists r e :
  (Forall simple_select (parts e) -> lists_changed (fun l l' => l' = r l) (fun l l' => l' = r l) e (map_lists_from_selects r (map_lists r e))) /\
  (~ Forall simple_select (parts e) -> lists_changed (fun l l' => l' = r l) eq e (map_lists_from_selects r (map_lists r e))).
Proof.
  unfold map_lists_from_selects. rewrite AllSelects_map_lists. rewrite <- simple_selects. destruct (forallb one_dict (AllSelects e)).
  - split; [intros _; apply mapped|congruence].
  - split; [discriminate|]. intros _. pose proof (mapped r (fun l => l) e) as M. rewrite map_selects_id in M by auto.
    eapply lists_changed_mono; [| |exact M]; auto.
Qed.
Lemma all_lists_elems e : Forall simple_select (parts e) -> forall x, In x (List.concat (AllLists e ++ allListsFromSelects e)) <-> In x (plain e ++ branches e).
Proof.
  intros H x. unfold allListsFromSelects. apply simple_selects in H. rewrite H, concat_app, AllLists_plain, AllSelects_branches. reflexivity.
Qed.
Lemma all_lists_elems' e : ~ Forall simple_select (parts e) -> forall x, In x (List.concat (AllLists e ++ allListsFromSelects e)) <-> In x (plain e).
Proof.
  intros H x. unfold allListsFromSelects. rewrite <- simple_selects in H. destruct (forallb one_dict (AllSelects e)); [congruence|]. rewrite app_nil_r, AllLists_plain. reflexivity.
Qed.
(** If every select is given only its dictionary, exactly the spellings of the old label are replaced. *)
Theorem C37_replace_partial :
  forall short e old value pkg, Forall simple_select (parts e) ->
    let '(done, e') := ListReplace short e old value pkg in
    let R := replaced (spells old pkg) (new_text (label_for short value pkg)) in
    lists_changed R R e e' /\ R (plain e) (plain e') /\ R (branches e) (branches e') /\
    (done = true <-> exists x, In x (plain e ++ branches e) /\ spells old pkg x).
Proof.
  intros short e old value pkg H. unfold ListReplace. cbv zeta.
  set (R := replaced (spells old pkg) (new_text (label_for short value pkg))).
  assert (Rm : forall l, R l (map (replace_elem short old value pkg) l)).
  { intros l. apply (replaced_map _ _ (is_item old pkg)); [apply is_item_spec| |]; unfold is_item, replace_elem; intros x; destruct x; try discriminate; auto; intros ->; auto.
    do 2 eexists. repeat split. }
  assert (C : lists_changed R R e (map_lists_from_selects (map (replace_elem short old value pkg)) (map_lists (map (replace_elem short old value pkg)) e))).
  { eapply lists_changed_mono; [| |exact (proj1 (map_all_lists _ _) H)]; cbv beta; intros l l' ->; auto. }
  split; auto. split; [eapply plain_changed; [| | |exact C]; auto; [constructor|intros; apply Forall2_app; auto]|].
  split; [eapply branches_changed; [| | |exact C]; auto; [constructor|intros; apply Forall2_app; auto]|].
  rewrite existsb_exists. setoid_rewrite all_lists_elems; auto. setoid_rewrite is_item_spec. reflexivity.
Qed.
Print Assumptions C37_replace_partial.
(** Otherwise only the unconditional lists are looked at. *)
Theorem C37_otherwise_plain_only_partial :
  forall short e old value pkg, ~ Forall simple_select (parts e) ->
    let '(done, e') := ListReplace short e old value pkg in
    let R := replaced (spells old pkg) (new_text (label_for short value pkg)) in
    lists_changed R eq e e' /\ R (plain e) (plain e') /\ branches e' = branches e /\
    (done = true <-> exists x, In x (plain e) /\ spells old pkg x).
Proof.
  intros short e old value pkg H. unfold ListReplace. cbv zeta.
  set (R := replaced (spells old pkg) (new_text (label_for short value pkg))).
  assert (Rm : forall l, R l (map (replace_elem short old value pkg) l)).
  { intros l. apply (replaced_map _ _ (is_item old pkg)); [apply is_item_spec| |]; unfold is_item, replace_elem; intros x; destruct x; try discriminate; auto; intros ->; auto.
    do 2 eexists. repeat split. }
  assert (C : lists_changed R eq e (map_lists_from_selects (map (replace_elem short old value pkg)) (map_lists (map (replace_elem short old value pkg)) e))).
  { eapply lists_changed_mono; [| |exact (proj2 (map_all_lists _ _) H)]; cbv beta; auto; intros l l' ->; auto. }
  split; auto. split; [eapply plain_changed; [| | |exact C]; auto; [constructor|intros; apply Forall2_app; auto]|].
  split. { symmetry. apply (branches_changed R eq eq); auto. intros; subst; auto. }
  rewrite existsb_exists. setoid_rewrite all_lists_elems'; auto. setoid_rewrite is_item_spec. reflexivity.
Qed.
Print Assumptions C37_otherwise_plain_only_partial.
(** So a spelling in a select with a no_match_error argument is neither replaced nor reported. *)
Theorem C37_no_match_error_refuted :
  exists e old value pkg x,
    In x (branches e) /\ spells old pkg x /\ old <> value /\ ListReplace false e old value pkg = (false, e).
Proof.
  exists (sel [kv %"c" (lst [str %":m"])] [arg %"no_match_error" (str %"e")]), %":m", %":n", %"p", (str %":m").
  split; [left; auto|]. split; [eexists; split; reflexivity|]. split; [discriminate|vm_compute; reflexivity].
Qed.
Print Assumptions C37_no_match_error_refuted.
(** Substitution by a regular expression: [sub] gives the new text of matching strings. *)
Theorem C37_substitute_partial :
  forall sub e, Forall simple_select (parts e) ->
    let '(done, e') := ListSubstitute sub e in
    let R := Forall2 (fun x x' => (exists s v, x = EStr s /\ sub (s_value s) = Some v /\ new_text v x x') \/
                                  ((forall s v, x = EStr s -> sub (s_value s) <> Some v) /\ x' = x)) in
    lists_changed R R e e' /\
    (done = true <-> exists s v, In (EStr s) (plain e ++ branches e) /\ sub (s_value s) = Some v).
Proof.
  intros sub e H. unfold ListSubstitute. cbv zeta. split.
  - eapply lists_changed_mono; [| |exact (proj1 (map_all_lists _ _) H)]; cbv beta; intros l l' ->.
    all: induction l as [|x l IH]; constructor; auto; destruct x; cbn [subst_elem]; try (right; split; [discriminate|auto]).
    all: destruct (sub (s_value s)) as [v|] eqn:E; [left; exists s, v; repeat split; auto; do 2 eexists; repeat split|right; split; auto; intros s' v [= <-]; congruence].
  - rewrite existsb_exists. setoid_rewrite all_lists_elems; auto. split.
    + intros (x & I & B). destruct x; try discriminate. destruct (sub (s_value s)) eqn:E; [eauto|discriminate].
    + intros (s & v & I & E). exists (EStr s). rewrite E. auto.
Qed.
Print Assumptions C37_substitute_partial.
Example C37_nontrivial :
  let e := plus (lst [str %":m"; str %":a"]) (sel [kv %"c" (lst [str %"//p:m"])] []) in
  Forall simple_select (parts e) /\
  ListReplace true e %"m" %"//p:n" %"p" = (true, plus (lst [str %":n"; str %":a"]) (sel [kv %"c" (lst [str %":n"])] [])).
Proof. split; [repeat constructor|vm_compute; reflexivity]. Qed.

(** C38. *)
Lemma key_is_spec key kv : key_is key kv = true <-> exists v, entry key kv v.
Proof.
  unfold entry. split.
  - destruct kv; try discriminate. cbn. destruct kv1; try discriminate. intros H. apply beq_eq in H. eauto 8.
  - intros (v & c & s & p & -> & <-). cbn. apply beq_refl.
Qed.
Lemma no_entry_kv key kv : key_is key kv = false -> forall w, ~ entry key kv w.
Proof. intros H w E. assert (key_is key kv = true) by (apply key_is_spec; eauto). congruence. Qed.
Lemma entry_value key kv v : entry key kv v -> kv_value kv = Some v.
Proof. intros (c & s & p & -> & _). reflexivity. Qed.
Lemma get_some key kvs v : DictionaryGet kvs key = Some v <-> dict_is key kvs v.
Proof.
  unfold DictionaryGet. split.
  - induction kvs as [|kv kvs IH]; [discriminate|]. cbn [find]. destruct (key_is key kv) eqn:E.
    + apply key_is_spec in E as (w & E). intros V. rewrite (entry_value _ _ _ E) in V. injection V as ->. apply di_here; auto.
    + intros H. apply di_later; auto. apply no_entry_kv; auto.
  - induction 1 as [kv v l E|kv v l N H IH]; cbn [find].
    + replace (key_is key kv) with true by (symmetry; apply key_is_spec; eauto). eapply entry_value; eauto.
    + destruct (key_is key kv) eqn:E; auto. apply key_is_spec in E as (w & E). exfalso. eapply N; eauto.
Qed.
Lemma get_none key kvs : DictionaryGet kvs key = None <-> no_entry key kvs.
Proof.
  unfold DictionaryGet, no_entry. destruct (find (key_is key) kvs) as [kv|] eqn:F.
  - apply find_some in F as [I E]. apply key_is_spec in E as (w & E). rewrite (entry_value _ _ _ E). split; [discriminate|]. intros H. exfalso. eapply H; eauto.
  - split; auto. intros _ kv v I. apply no_entry_kv. eapply find_none; eauto.
Qed.
Theorem C38_get : forall key kvs, (forall v, DictionaryGet kvs key = Some v <-> dict_is key kvs v) /\ (DictionaryGet kvs key = None <-> no_entry key kvs).
Proof. intros. split; [intros; apply get_some|apply get_none]. Qed.
Print Assumptions C38_get.
(** Setting replaces the value of the first entry, or appends an entry. *)
Theorem C38_set :
  forall kvs key v, let '(r, kvs') := DictionarySet kvs key (Some v) in
    (exists pre c s p old post, kvs = pre ++ EKV c (EStr s) p old :: post /\ s_value s = key /\ no_entry key pre /\
       kvs' = pre ++ EKV c (EStr s) p v :: post /\ r = Some v) \/
    (no_entry key kvs /\ r = None /\ exists x, entry key x v /\ kvs' = kvs ++ [x]).
Proof.
  intros kvs key v. unfold DictionarySet. destruct (find (key_is key) kvs) as [kv|] eqn:F.
  - left. revert F. induction kvs as [|y kvs IH]; intros F; [discriminate|]. cbn [find set_first_key] in *. destruct (key_is key y) eqn:E.
    + apply key_is_spec in E as (w & c & s & p & -> & Es). exists [], c, s, p, w, kvs. repeat split; auto. intros ? ? [].
    + destruct (IH F) as (pre & c & s & p & old & post & -> & Es & N & -> & _). exists (y :: pre), c, s, p, old, post. repeat split; auto.
      intros z u [<-|Hz]; [apply no_entry_kv; auto|apply N; auto].
  - right. split; [|split; auto]. { apply get_none. unfold DictionaryGet. rewrite F. auto. }
    eexists. split; [|reflexivity]. do 3 eexists. split; reflexivity.
Qed.
Print Assumptions C38_set.
Theorem C38_set_get :
  forall kvs key v, DictionaryGet (snd (DictionarySet kvs key (Some v))) key = Some v /\
    forall k, k <> key -> DictionaryGet (snd (DictionarySet kvs key (Some v))) k = DictionaryGet kvs k.
Proof.
  intros kvs key v. pose proof (C38_set kvs key v) as H. destruct (DictionarySet kvs key (Some v)) as [r kvs']. cbn [snd].
  assert (Sp : forall k pre x post, key_is k x = false -> find (key_is k) (pre ++ x :: post) = find (key_is k) (pre ++ post)).
  { intros k pre x post E. induction pre as [|y pre IH]; cbn [app find]; [rewrite E; auto|]. destruct (key_is k y); auto. }
  assert (No : forall k pre, no_entry k pre -> forall post, find (key_is k) (pre ++ post) = find (key_is k) post).
  { intros k pre N post. induction pre as [|y pre IH]; auto. cbn [app find]. destruct (key_is k y) eqn:E.
    - apply key_is_spec in E as (w & E). exfalso. eapply N; [left; reflexivity|exact E].
    - apply IH. intros a b I. apply N. right; auto. }
  assert (Ne : forall c s p w k, k <> s_value s -> key_is k (EKV c (EStr s) p w) = false).
  { intros. cbn. apply beq_neq. congruence. }
  destruct H as [(pre & c & s & p & old & post & -> & Es & N & -> & _)|(N & _ & x & (c & s & p & -> & Es) & ->)]; unfold DictionaryGet; split.
  - rewrite No by auto. cbn [find key_is]. rewrite Es, beq_refl. auto.
  - intros k ne. rewrite !Sp; auto; apply Ne; congruence.
  - rewrite No by auto. cbn [find key_is]. rewrite Es, beq_refl. auto.
  - intros k ne. rewrite Sp; [rewrite app_nil_r; auto|apply Ne; congruence].
Qed.
Print Assumptions C38_set_get.
(** Deleting: exact if all keys are strings. *)
Definition string_keys (kvs : list expr) : Prop := forall x, In x kvs -> exists c s p v, x = EKV c (EStr s) p v.
Theorem C38_delete_partial :
  forall kvs key, string_keys kvs -> snd (unquote key) <> None ->
    let '(d, kvs') := DictionaryDelete kvs key in
    without (fun x => exists v, entry key x v) kvs kvs' /\ DictionaryGet kvs' key = None /\
    match d with Some x => In x kvs /\ exists v, entry key x v | None => no_entry key kvs end.
Proof.
  intros kvs key S U. unfold DictionaryDelete, unquoted_item.
  destruct (unquote key) as [[? ?] [er|]]; [|cbn in U; congruence].
  assert (F : filter (fun kv => has_string_key kv && negb (key_is key kv)) kvs = filter (fun kv => negb (key_is key kv)) kvs).
  { apply filter_ext_in. intros x Hx. destruct (S x Hx) as (c & s & p & v & ->). reflexivity. }
  rewrite F.
  assert (W : without (fun x => exists v, entry key x v) kvs (filter (fun kv => negb (key_is key kv)) kvs)) by (apply without_filter, key_is_spec).
  split; auto. split.
  - apply get_none. intros x v Hx E. apply (without_in _ _ _ W) in Hx as [_ N]. apply N. eauto.
  - assert (G : forall l d, (fold_left (fun d kv => if key_is key kv then Some kv else d) l d = d /\ no_entry key l) \/
        exists x, fold_left (fun d kv => if key_is key kv then Some kv else d) l d = Some x /\ In x l /\ exists v, entry key x v).
    { clear. induction l as [|y l IH]; intros d; cbn [fold_left]; [left; split; auto; intros ? ? []|].
      destruct (key_is key y) eqn:E.
      - right. apply key_is_spec in E. destruct (IH (Some y)) as [[-> N]|(x & -> & I & Hx)]; [exists y|exists x]; cbn [In]; auto.
      - destruct (IH d) as [[-> N]|(x & -> & I & Hx)]; [left|right; exists x; cbn [In]; auto].
        split; auto. intros z v [<-|Hz]; [apply no_entry_kv; auto|apply N; auto]. }
    destruct (G kvs None) as [[-> N]|(x & -> & I & Hx)]; auto.
Qed.
Print Assumptions C38_delete_partial.
(** Entries whose key is not a string literal are lost. *)
Theorem C38_delete_refuted :
  exists kvs key x, In x kvs /\ (forall v, ~ entry key x v) /\ ~ In x (snd (DictionaryDelete kvs key)).
Proof.
  exists [kv %"a" (num %"1"); EKV no_com (num %"X") no_pos (num %"2")], %"a", (EKV no_com (num %"X") no_pos (num %"2")).
  split; [right; left; auto|]. split; [intros v (c & s & p & E & _); discriminate|vm_compute; tauto].
Qed.
Print Assumptions C38_delete_refuted.
Example C38_nontrivial :
  string_keys [kv %"a" (num %"1"); kv %"b" (num %"2")] /\
  DictionaryDelete [kv %"a" (num %"1"); kv %"b" (num %"2")] %"b" = (Some (kv %"b" (num %"2")), [kv %"a" (num %"1")]) /\
  DictionarySet [kv %"a" (num %"1")] %"c" (Some (num %"2")) = (None, [kv %"a" (num %"1"); kv %"c" (num %"2")]).
Proof.
  split; [intros x [<-|[<-|[]]]; do 4 eexists; reflexivity|]. split; vm_compute; reflexivity.
Qed.
