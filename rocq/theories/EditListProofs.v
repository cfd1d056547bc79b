(** Proofs about list attributes. *)
From Verif Require Import Base BaseProofs Ast Labels LabelsProofs Quote StrList Rewrite RuleApi RuleProofs EditList EditListSpec EditResolve Order.

Lemma Forall2_mono {A B} (R R' : A -> B -> Prop) l l' : (forall x y, R x y -> R' x y) -> Forall2 R l l' -> Forall2 R' l l'.
Proof. intros H F. induction F; constructor; auto. Qed.
Lemma is_select_spec x : is_select x = true <-> exists i, x = EIdent i /\ i_name i = %"select".
Proof. unfold is_select. split; [destruct x; try discriminate; intros H; apply beq_eq in H; eauto|intros (i & -> & ->); reflexivity]. Qed.
Lemma parts_call c x p l en k m : is_select x = false -> parts (ECall c x p l en k m) = [POther (ECall c x p l en k m)].
Proof. intros H. cbn [parts]. destruct x; auto. unfold is_select in H. destruct l as [|[] ?]; auto. unfold select_name. rewrite H. auto. Qed.
Lemma set_branch_spec g kv : branch_changed (fun l l' => l' = g l) kv (set_branch g kv).
Proof.
  unfold set_branch. destruct kv; try (apply bc_other; intros; discriminate).
  destruct kv2; try (apply bc_other; intros; intros E; discriminate E). apply bc_list. auto.
Qed.
Lemma mapped f g e : lists_changed (fun l l' => l' = f l) (fun l l' => l' = g l) e (map_selects (map_dict_lists g) (map_lists f e)).
Proof.
  induction e; try (apply lc_other; reflexivity).
  - (* call *) cbn [map_lists map_selects]. destruct (is_select e) eqn:Si; [|apply lc_other, parts_call; auto].
    apply is_select_spec in Si as (i & -> & Ei). destruct args as [|a rest]; [apply lc_other; reflexivity|].
    destruct a; try (apply lc_other; reflexivity). cbn [map_dict_lists]. apply lc_select; auto.
    induction l; constructor; auto. apply set_branch_spec.
  - apply lc_list. auto.
  - cbn [map_lists]. destruct (beq_spec op %"+") as [->|ne].
    + cbn [map_selects]. rewrite beq_refl. apply lc_plus; auto.
    + apply beq_neq in ne. cbn [map_selects]. rewrite ne. apply lc_other. cbn [parts]. rewrite ne. reflexivity.
Qed.
Lemma map_lists_id e : map_lists (fun l => l) e = e.
Proof. induction e; auto. cbn [map_lists]. rewrite IHe1, IHe2. destruct (beq op _); auto. Qed.
Lemma map_selects_id g e : (forall l, g l = l) -> map_selects (map_dict_lists g) e = e.
Proof.
  intros H. induction e; auto; cbn [map_selects].
  - destruct (is_select e); auto. f_equal. unfold map_dict_lists. destruct args as [|[] ?]; auto. do 2 f_equal.
    rewrite <- (map_id l) at 2. apply map_ext. intros kv. unfold set_branch. destruct kv; auto. destruct kv2; auto. rewrite H. auto.
  - rewrite IHe1, IHe2. destruct (beq op _); auto.
Qed.
Lemma branch_changed_mono (S S' : list expr -> list expr -> Prop) kv kv' : (forall l l', S l l' -> S' l l') -> branch_changed S kv kv' -> branch_changed S' kv kv'.
Proof. intros H B. inversion B; subst; [apply bc_list; auto|apply bc_other; auto]. Qed.
Lemma lists_changed_mono (R R' S S' : list expr -> list expr -> Prop) e e' :
  (forall l l', R l l' -> R' l l') -> (forall l l', S l l' -> S' l l') -> lists_changed R S e e' -> lists_changed R' S' e e'.
Proof.
  intros HR HS H. induction H; [apply lc_list|apply lc_plus|apply lc_select|apply lc_other]; auto.
  eapply Forall2_mono; [|eassumption]. intros. eapply branch_changed_mono; eauto.
Qed.
Lemma without_filter {A} (P : A -> Prop) (p : A -> bool) l : (forall x, p x = true <-> P x) -> without P l (filter (fun x => negb (p x)) l).
Proof.
  intros H. induction l as [|x l IH]; cbn [filter]; [constructor|]. destruct (p x) eqn:E; cbn [negb].
  - apply wo_drop; auto. apply H; auto.
  - apply wo_keep; auto. rewrite <- H. congruence.
Qed.
Lemma without_in {A} (P : A -> Prop) l l' : without P l l' -> forall x, In x l' <-> In x l /\ ~ P x.
Proof.
  intros H. induction H as [|y l l' Hy H IH|y l l' Hy H IH]; intros z; cbn [In].
  - tauto.
  - rewrite IH. split; [tauto|]. intros [[<-|?] ?]; tauto.
  - rewrite IH. split; [intros [<-|[? ?]]; tauto|]. tauto.
Qed.

Lemma is_item_spec item pkg x : is_item item pkg x = true <-> spells item pkg x.
Proof.
  unfold is_item, spells. split.
  - destruct x; try discriminate. intros H. apply labels_equal_eq in H. eauto.
  - intros (s & -> & H). apply labels_equal_eq; auto.
Qed.
Definition no_line_comments (x : expr) : Prop := c_before (com x) = [] /\ c_suffix (com x) = [].
Definition removable (dwc : bool) (item pkg : bytes) (x : expr) : Prop := spells item pkg x /\ (dwc = true \/ no_line_comments x).
Lemma to_remove_spec dwc item pkg x : to_remove dwc item pkg x = true <-> removable dwc item pkg x.
Proof.
  unfold to_remove, removable, no_line_comments. rewrite <- is_item_spec. unfold is_item. destruct x; try (split; [discriminate|intros [H _]; discriminate]).
  rewrite andb_true_iff, orb_true_iff, negb_true_iff. cbn [com]. unfold hasComments.
  destruct (c_before (s_com s)), (c_suffix (s_com s)); intuition congruence.
Qed.

(** ** parts *)
Lemma parts_changed (R S : list expr -> list expr -> Prop) e e' : lists_changed R S e e' ->
  Forall2 (fun p p' => match p, p' with
    | PList l, PList l' => R l l'
    | PSelect b r, PSelect b' r' => r' = r /\ Forall2 (fun x x' => fst x' = fst x /\
         ((exists c s l l' en m, snd x = EList c s l en m /\ snd x' = EList c s l' en m /\ S l l') \/ (snd x' = snd x /\ forall c s l en m, snd x <> EList c s l en m))) b b'
    | POther a, POther b => a = b
    | _, _ => False end) (parts e) (parts e').
Proof.
  intros H. induction H as [c s l l' en m H|c x x' p b y y' H1 IH1 H2 IH2|c i p dc ds kvs kvs' de dm rest en k m Ei F|e E].
  - cbn [parts]. auto.
  - cbn [parts]. rewrite beq_refl. apply Forall2_app; auto.
  - cbn [parts]. unfold select_name. rewrite Ei, beq_refl. constructor; auto. split; auto.
    induction F as [|kv kv' kvs kvs' B F IH]; [constructor|]. unfold entries. cbn [flat_map]. inversion B; subst.
    + cbn [app]. constructor; auto. cbn [fst snd]. split; auto. left. do 6 eexists. eauto.
    + destruct kv'; cbn [app]; auto. constructor; auto. split; auto. right. split; auto. cbn [snd]. intros. intro; subst. eapply H; eauto.
  - rewrite E. constructor; auto.
Qed.
Lemma Forall2_flat {A B} (R : A -> A -> Prop) (f : A -> list B) (Q : list B -> list B -> Prop) l l' :
  Q [] [] -> (forall a a' b b', Q a a' -> Q b b' -> Q (a ++ b) (a' ++ b')) -> (forall x x', R x x' -> Q (f x) (f x')) ->
  Forall2 R l l' -> Q (flat_map f l) (flat_map f l').
Proof. intros H0 H1 H2 F. induction F; cbn [flat_map]; auto. Qed.
Lemma plain_changed (R S : list expr -> list expr -> Prop) (Q : list expr -> list expr -> Prop) e e' : 
  Q [] [] -> (forall a a' b b', Q a a' -> Q b b' -> Q (a ++ b) (a' ++ b')) -> (forall x x', R x x' -> Q x x') ->
  lists_changed R S e e' -> Q (plain e) (plain e').
Proof.
  intros H0 H1 H2 H. apply parts_changed in H. unfold plain. eapply Forall2_flat; eauto.
  intros [l|b r|a] [l'|b' r'|a'] H3; try contradiction; cbn [plain_of]; auto.
Qed.
Lemma branches_changed (R S : list expr -> list expr -> Prop) (Q : list expr -> list expr -> Prop) e e' : 
  Q [] [] -> (forall a a' b b', Q a a' -> Q b b' -> Q (a ++ b) (a' ++ b')) -> (forall x x', S x x' -> Q x x') ->
  lists_changed R S e e' -> Q (branches e) (branches e').
Proof.
  intros H0 H1 H2 H. apply parts_changed in H. unfold branches. eapply Forall2_flat; eauto.
  intros [l|b r|a] [l'|b' r'|a'] H3; try contradiction; cbn [branch_of]; auto.
  destruct H3 as [_ F]. eapply Forall2_flat; eauto. cbv beta. intros x x' [_ [(c & s & l & l' & en & m & -> & -> & Hs)|[-> N]]]; auto.
  destruct (snd x); auto. exfalso. eapply N; eauto.
Qed.
Lemma without_app {A} (P : A -> Prop) a a' b b' : without P a a' -> without P b b' -> without P (a ++ b) (a' ++ b').
Proof. induction 1; intros Hb; cbn [app]; auto; [apply wo_drop|apply wo_keep]; auto. Qed.

Lemma AllLists_plain e : List.concat (AllLists e) = plain e.
Proof.
  unfold plain. induction e; try reflexivity.
  - cbn [AllLists parts]. destruct e; try reflexivity. destruct args as [|[] ?]; try reflexivity. destruct (select_name i); reflexivity.
  - cbn [AllLists parts]. destruct (beq op %"+"); [|reflexivity]. rewrite concat_app, flat_map_app, IHe1, IHe2. auto.
Qed.
Lemma AllSelects_branches e : List.concat (flat_map dict_lists (AllSelects e)) = branches e.
Proof.
  unfold branches. induction e; try reflexivity.
  - cbn [AllSelects parts]. destruct (is_select e) eqn:Si.
    + apply is_select_spec in Si as (i & -> & Ei). cbn [flat_map]. rewrite app_nil_r. destruct args as [|[] ?]; try reflexivity.
      unfold select_name. rewrite Ei, beq_refl. cbn [dict_lists flat_map branch_of]. rewrite app_nil_r.
      unfold entries. induction l as [|kv l IH]; auto. cbn [flat_map]. rewrite concat_app, flat_map_app, IH. f_equal.
      destruct kv; try reflexivity. cbn [branch_list flat_map snd]. rewrite app_nil_r. destruct kv2; try reflexivity. cbn. apply app_nil_r.
    + fold (parts (ECall c e lstart args e0 compact multi)). rewrite parts_call by auto. reflexivity.
  - cbn [AllSelects parts]. destruct (beq op %"+"); [|reflexivity]. rewrite !flat_map_app, concat_app, IHe1, IHe2. auto.
Qed.

(** ** Deleting *)
Lemma lists_changed_eq e : lists_changed eq eq e e.
Proof.
  pose proof (mapped (fun l => l) (fun l => l) e) as H. rewrite map_lists_id, map_selects_id in H by auto.
  eapply lists_changed_mono; [| |exact H]; cbv beta; congruence.
Qed.
Lemma AllSelects_map_lists f e : AllSelects (map_lists f e) = AllSelects e.
Proof. induction e; auto. cbn [map_lists AllSelects]. destruct (beq op %"+") eqn:E; cbn [AllSelects]; rewrite ?E, ?IHe1, ?IHe2; auto. Qed.
Lemma last_removed_in dwc item pkg l : forall d,
  (last_removed dwc item pkg d l = d /\ forall x, In x l -> ~ removable dwc item pkg x) \/
  (exists x, last_removed dwc item pkg d l = Some x /\ In x l /\ removable dwc item pkg x).
Proof.
  unfold last_removed. induction l as [|x l IH]; intros d; cbn [fold_left]; [left; split; auto|].
  destruct (to_remove dwc item pkg x) eqn:E.
  - right. apply to_remove_spec in E. destruct (IH (Some x)) as [[-> H]|(y & -> & I & R)]; [exists x|exists y]; cbn [In]; auto.
  - assert (N : ~ removable dwc item pkg x) by (rewrite <- to_remove_spec; congruence).
    destruct (IH d) as [[-> H]|(y & -> & I & R)]; [left; split; auto; intros z [<-|Hz]; auto|right; exists y; cbn; auto].
Qed.
Lemma fold_removed dwc item pkg ls : forall d,
  (fold_left (last_removed dwc item pkg) ls d = d /\ forall x, In x (List.concat ls) -> ~ removable dwc item pkg x) \/
  (exists x, fold_left (last_removed dwc item pkg) ls d = Some x /\ In x (List.concat ls) /\ removable dwc item pkg x).
Proof.
  induction ls as [|l ls IH]; intros d; cbn [fold_left List.concat]; [left; split; auto|].
  destruct (IH (last_removed dwc item pkg d l)) as [[-> H]|(y & -> & I & R)].
  - destruct (last_removed_in dwc item pkg l d) as [[-> H']|(y & -> & I & R)].
    + left. split; auto. intros x Hx. apply in_app_iff in Hx as [?|?]; auto.
    + right. exists y. rewrite in_app_iff. auto.
  - right. exists y. rewrite in_app_iff. auto.
Qed.

(** ** Adding *)
Lemma first_list_parts f e :
  match map_first_list f e with
  | Some e' => exists pre l post, parts e = pre ++ PList l :: post /\ parts e' = pre ++ PList (f l) :: post
  | None => forall l, ~ In (PList l) (parts e)
  end.
Proof.
  induction e; try (cbn [map_first_list parts]; intros ? [H|[]]; discriminate).
  - cbn [map_first_list]. destruct (is_select e) eqn:Si.
    + cbn [parts]. destruct e; try (intros ? [H|[]]; discriminate). destruct args as [|[] ?]; try (intros ? [H|[]]; discriminate).
      destruct (select_name i); intros ? [H|[]]; discriminate.
    + rewrite parts_call by auto. intros ? [H|[]]; discriminate.
  - cbn [map_first_list parts]. exists [], l, []. auto.
  - cbn [map_first_list]. destruct (beq op %"+") eqn:E; [|cbn [parts]; rewrite E; intros ? [H|[]]; discriminate].
    destruct (map_first_list f e1) as [x'|].
    + destruct IHe1 as (pre & l & post & E1 & E2). exists pre, l, (post ++ parts e2). cbn [parts]. rewrite E, E1, E2, <- !app_assoc. auto.
    + destruct (map_first_list f e2) as [y'|]; cbn [option_map].
      * destruct IHe2 as (pre & l & post & E1 & E2). exists (parts e1 ++ pre), l, post. cbn [parts]. rewrite E, E1, E2, <- !app_assoc. auto.
      * intros l. cbn [parts]. rewrite E, in_app_iff. intros [H|H]; [eapply IHe1|eapply IHe2]; eauto.
Qed.
Lemma first_list_changed f e e' : map_first_list f e = Some e' -> lists_changed (fun l l' => l' = l \/ l' = f l) eq e e'.
Proof.
  revert e'. induction e; intros e' H; try discriminate.
  - injection H as <-. apply lc_list. auto.
  - cbn [map_first_list] in H. destruct (beq_spec op %"+") as [->|]; [|discriminate].
    assert (Q : forall e, lists_changed (fun l l' => l' = l \/ l' = f l) eq e e).
    { intros e. eapply lists_changed_mono; [| |apply lists_changed_eq]; auto. }
    destruct (map_first_list f e1) as [x'|].
    + injection H as <-. apply lc_plus; auto.
    + destruct (map_first_list f e2) as [y'|]; [|discriminate]. injection H as <-. apply lc_plus; auto.
Qed.
Lemma sortedInsert_place item l : exists a b, l = a ++ b /\ sortedInsert item l = a ++ item :: b /\
  (forall x, In x a -> expr_less item x = false) /\ match b with y :: _ => expr_less item y = true | [] => True end.
Proof.
  induction l as [|y l (a & b & E1 & E2 & H1 & H2)]; cbn [sortedInsert]; [exists [], []; repeat split; contradiction|].
  destruct (expr_less item y) eqn:E.
  - exists [], (y :: l). repeat split; auto. contradiction.
  - exists (y :: a), b. rewrite E2. subst l. repeat split; auto. intros x [<-|Hx]; auto.
Qed.
Definition add_in (item : expr) (sorted : bool) (e : expr) : expr :=
  match map_first_list (fun l => if sorted then sortedInsert item l else l ++ [item]) e with
  | Some e' => e'
  | None => EBinary no_com e no_pos %"+" false (one_list item)
  end.
Lemma add_list_inserted item (sorted : bool) l : inserted item l (if sorted then sortedInsert item l else l ++ [item]).
Proof.
  destruct sorted; [|exists l, []; rewrite app_nil_r; auto].
  destruct (sortedInsert_place item l) as (a & b & E1 & E2 & _). exists a, b. auto.
Qed.
Lemma add_in_plain item sorted e : inserted item (plain e) (plain (add_in item sorted e)) /\ branches (add_in item sorted e) = branches e.
Proof.
  unfold add_in. pose proof (first_list_parts (fun l => if sorted then sortedInsert item l else l ++ [item]) e) as H.
  destruct (map_first_list _ e) as [e'|].
  - destruct H as (pre & l & post & E1 & E2). unfold plain, branches. rewrite E1, E2, !flat_map_app. cbn [flat_map plain_of branch_of app].
    split; auto. destruct (add_list_inserted item sorted l) as (a & b & -> & ->).
    exists (flat_map plain_of pre ++ a), (b ++ flat_map plain_of post). rewrite <- !app_assoc. auto.
  - unfold plain, branches. cbn [parts one_list]. rewrite beq_refl, !flat_map_app. cbn [flat_map plain_of branch_of app]. split; [|apply app_nil_r].
    exists (flat_map plain_of (parts e)), []. rewrite app_nil_r. auto.
Qed.
Lemma add_in_shape item sorted e :
  lists_changed (fun l l' => l' = l \/ inserted item l l') eq e (add_in item sorted e) \/
  add_in item sorted e = EBinary no_com e no_pos %"+" false (one_list item).
Proof.
  unfold add_in. destruct (map_first_list _ e) as [e'|] eqn:E; auto. left. apply first_list_changed in E.
  eapply lists_changed_mono; [| |exact E]; auto. cbv beta. intros l l' [?| ->]; auto. right. apply add_list_inserted.
Qed.
Lemma select_delete_changed dwc e item pkg : lists_changed eq (without (removable dwc item pkg)) e (SelectDelete dwc e item pkg).
Proof.
  unfold SelectDelete. pose proof (mapped (fun l => l) (RemoveFromList dwc item pkg) e) as H. rewrite map_lists_id in H.
  eapply lists_changed_mono; [| |exact H]; cbv beta; auto. intros l l' ->. apply without_filter. apply to_remove_spec.
Qed.
Lemma branch_changed_trans (S S' T : list expr -> list expr -> Prop) a b c :
  (forall x y z, S x y -> S' y z -> T x z) -> branch_changed S a b -> branch_changed S' b c -> branch_changed T a c.
Proof.
  intros H B1 B2. inversion B1; subst.
  - inversion B2; subst; [apply bc_list; eauto|]. exfalso. eapply H1; reflexivity.
  - inversion B2; subst; [exfalso; eapply H0; reflexivity|apply bc_other; auto].
Qed.
Lemma lists_changed_other (R S : list expr -> list expr -> Prop) e e' : lists_changed R S e e' -> parts e = [POther e] -> e' = e.
Proof.
  intros H. destruct H as [| |c i p dc ds kvs kvs' de dm rest en k m Ei F|]; intros P; auto; try discriminate.
  - cbn [parts] in P. rewrite beq_refl in P. exfalso.
    assert (L : forall e, parts e <> []) by (clear; intros e; induction e; cbn [parts]; try discriminate; [destruct e; try discriminate; destruct args as [|[] ?]; try discriminate; destruct (select_name _); discriminate|destruct (beq op %"+"); [destruct (parts e1); [congruence|discriminate]|discriminate]]).
    destruct (parts x) as [|? [|? ?]] eqn:E; [exact (L _ E)| |destruct (parts y); discriminate].
    destruct (parts y) eqn:E'; [exact (L _ E')|discriminate].
  - cbn [parts] in P. unfold select_name in P. rewrite Ei, beq_refl in P. discriminate.
Qed.
Lemma lists_changed_trans (R R' T S S' U : list expr -> list expr -> Prop) a b :
  (forall x y z, R x y -> R' y z -> T x z) -> (forall x y z, S x y -> S' y z -> U x z) ->
  lists_changed R S a b -> forall c, lists_changed R' S' b c -> lists_changed T U a c.
Proof.
  intros HR HS H1. induction H1 as [c s l l' en m H|c x x' p b0 y y' H1 IH1 H2 IH2|c i p dc ds kvs kvs' de dm rest en k m Ei F|e E]; intros d H3.
  - inversion H3; subst; [apply lc_list; eauto|discriminate].
  - inversion H3; subst; [apply lc_plus; auto|]. 
    exfalso. assert (Q : lists_changed R S (EBinary c x p %"+" b0 y) (EBinary c x' p %"+" b0 y')) by (apply lc_plus; auto).
    assert (lists_changed eq eq (EBinary c x' p %"+" b0 y') (EBinary c x' p %"+" b0 y')) by apply lists_changed_eq.
    cbn [parts] in H. rewrite beq_refl in H.
    assert (L : forall e, parts e <> []) by (clear; intros e; induction e; cbn [parts]; try discriminate; [destruct e; try discriminate; destruct args as [|[] ?]; try discriminate; destruct (select_name _); discriminate|destruct (beq op %"+"); [destruct (parts e1); [congruence|discriminate]|discriminate]]).
    destruct (parts x') as [|? [|? ?]] eqn:E; [exact (L _ E)| |destruct (parts y'); discriminate].
    destruct (parts y') eqn:E'; [exact (L _ E')|discriminate].
  - inversion H3; subst.
    + match goal with H : Forall2 (branch_changed S') kvs' ?k |- _ => rename H into F2; revert F2; generalize k end. intros kvs0 F2.
      apply lc_select; auto. clear - HS F F2. revert kvs0 F2. induction F as [|kv kv' kvs kvs' B F IH]; intros l H; inversion H; subst; constructor; auto.
      eapply branch_changed_trans; eauto.
    + cbn [parts] in H. unfold select_name in H. rewrite Ei, beq_refl in H. discriminate.
  - rewrite (lists_changed_other _ _ _ _ H3 E). apply lc_other. auto.
Qed.
