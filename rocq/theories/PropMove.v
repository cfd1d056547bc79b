(** C95: the commands add and move: what a list attribute contains afterwards, in every configuration. *)
From Verif Require Import Base BaseProofs Ast Labels LabelsProofs Quote Rewrite RuleApi RuleSpec RuleProofs PropRule EditList EditListSpec EditListProofs EditResolve PropEditList PropResolve RuleCmd PropRuleCmd MoveCmd.
Local Open Scope list_scope.

(** ** What is asked for *)
(** In a configuration (which branch each select takes, and what other expressions stand for) the list
    of attribute [attr] has the elements v, up to order, repetition and the spelling of labels. *)
Definition has_list choose val (pk : bytes) (args : list expr) (vars : variables) (attr : bytes) (v : list expr) : Prop :=
  exists e v', target args vars attr e /\ value choose val e = Some v' /\ same_labels pk v v'.
(** The element for an argument of add *)
Definition added (s : setting) (attr v : bytes) (x : expr) : Prop :=
  if IsIntList (attr_types s) attr then x = ELit no_com no_pos v else exists triple w, x = EStr (Str no_com no_pos w triple no_pos []) /\ stored s v w.

(** ** Adding *)
Lemma some_inj {A} (a b : A) : Some a = Some b -> a = b.
Proof. congruence. Qed.
Lemma same_labels_app pk a b v v' : same_labels pk v v' -> same_labels pk (a ++ v ++ b) (a ++ v' ++ b).
Proof.
  assert (G : forall v v', covered pk v v' -> covered pk (a ++ v ++ b) (a ++ v' ++ b)).
  { clear. intros v v' C x I. rewrite !in_app_iff in I. destruct I as [I|[I|I]]; [left; rewrite !in_app_iff; auto| |left; rewrite !in_app_iff; auto].
    destruct (C x I) as [K|(t & -> & y & K & Sp)]; [left; rewrite !in_app_iff; auto|]. right. exists t. split; auto. exists y. rewrite !in_app_iff. auto. }
  intros (C1 & C2). split; auto.
Qed.
Lemma same_labels_sym pk v v' : same_labels pk v v' -> same_labels pk v' v.
Proof. intros (A & B). now split. Qed.
Lemma same_members pk (a b : list expr) : (forall x, In x a <-> In x b) -> same_labels pk a b.
Proof. intro H. split; intros x I; left; now apply H. Qed.
Lemma value_added choose val dwc pk item sorted e v : value choose val e = Some v ->
  exists v', value choose val (AddValueToList dwc (Some e) pk item sorted) = Some v' /\ same_labels pk (v ++ [item]) v'.
Proof.
  intro H.
  assert (S1 : (exists s, item = EStr s) \/ AddValueToList dwc (Some e) pk item sorted = add_in item sorted e) by (destruct item; eauto).
  destruct S1 as [[s ->]|EA]; [|rewrite EA; clear EA].
  - rewrite add_str. destruct (ListFind_spec e (s_value s) pk) as [[-> N]|(x & -> & I & Sp)].
    + destruct (value_select_delete choose val dwc e (s_value s) pk v H) as (v1 & E1 & T). destruct (value_add_in choose val (EStr s) sorted _ _ E1) as (v2 & E2 & (a & b & -> & ->)).
      eexists. split; [exact E2|]. apply thinned_in in T as [T1 T2]. split; intros x Hx.
      * rewrite in_app_iff in Hx. destruct Hx as [Hx|[<-|[]]]; [|left; rewrite in_app_iff; cbn; auto]. destruct (T2 x Hx) as [J|[Sp _]]; [left; rewrite in_app_iff in *; cbn [In]; tauto|].
        destruct Sp as (t & -> & Et). right. exists t. split; auto. exists (EStr s). split; [rewrite in_app_iff; cbn; auto|]. exists s. split; auto.
      * left. rewrite in_app_iff in *. cbn [In] in *. assert (D : EStr s = x \/ In x (a ++ b)) by (rewrite in_app_iff; tauto). destruct D as [<-|D]; auto.
    + exists v. split; auto. assert (Iv : In x v).
      { clear - H I. revert v H. induction e; intros v H; try (now destruct I).
        - unfold plain in I. cbn [parts] in I. destruct e; try (now destruct I). destruct args as [|a args]; [now destruct I|]. destruct a; try (now destruct I). destruct (select_name i); now destruct I.
        - cbn in H. injection H as <-. unfold plain in I. cbn in I. now rewrite app_nil_r in I.
        - unfold plain in I. cbn [parts] in I. cbn [value] in H. destruct (beq op %"+"); [|now destruct I]. rewrite flat_map_app in I. destruct (value choose val e1) as [a|]; [|discriminate H]. destruct (value choose val e2) as [b|]; [|discriminate H]. injection H as <-.
          apply in_app_iff in I. apply in_app_iff. destruct I as [I|I]; [left; now apply IHe1|right; now apply IHe2]. }
      split; intros y Hy; [|left; apply in_app_iff; auto]. apply in_app_iff in Hy. destruct Hy as [Hy|[<-|[]]]; [now left|]. right. exists s. split; auto. exists x. auto.
  - destruct (value_add_in choose val item sorted e v H) as (v2 & E2 & (a & b & -> & ->)). eexists. split; [exact E2|]. apply same_members. intro x. rewrite !in_app_iff. cbn [In]. tauto.
Qed.
(** One more value *)
Lemma add_step choose val s attr l vars x :
  let '(l', vars') := add_to s attr (l, vars) x in
  (forall k, k <> attr -> Attr k l' = Attr k l) /\ Attr attr l' <> None /\ (exists e', target l' vars' attr e' /\ plain e' <> []) /\
  (forall k, (forall i, Attr attr l = Some (EIdent i) -> k <> i_name i) -> lookup k vars' = lookup k vars) /\
  (forall i, Attr attr l' = Some (EIdent i) -> Attr attr l = Some (EIdent i)) /\
  (forall v, has_list choose val (pkg s) l vars attr v -> has_list choose val (pkg s) l' vars' attr (v ++ [x])) /\
  (Attr attr l = None -> has_list choose val (pkg s) l' vars' attr [x]).
Proof.
  unfold add_to. cbn [fst snd]. pose proof (C35_attribute (dwc s) l vars attr (pkg s) x) as H. pose proof (target_add (dwc s) l vars attr (pkg s) x) as T.
  destruct (AddValueToListAttribute (dwc s) l vars attr (pkg s) x) as [l' vars']. destruct H as [O H].
  assert (Ne : forall old sorted, plain (AddValueToList (dwc s) old (pkg s) x sorted) <> []).
  { intros old sorted K. destruct (add_present (dwc s) old (pkg s) x sorted) as (y & I & _). rewrite K in I. destruct I. }
  assert (Hl : forall v, has_list choose val (pkg s) l vars attr v -> has_list choose val (pkg s) l' vars' attr (v ++ [x])).
  { intros v (e & v0 & Te & V & Sm). destruct (T e Te) as (T' & _). destruct (value_added choose val (dwc s) (pkg s) x (negb (beq attr %"args")) e v0 V) as (v1 & V1 & Sm1).
    eexists. exists v1. split; [exact T'|]. split; auto. eapply same_labels_trans; [|exact Sm1]. now apply (same_labels_app (pkg s) [] [x]). }
  destruct H as [(i & w & A & L & -> & L' & Ov)|(N & -> & A')].
  - split; auto. split; [rewrite A; discriminate|]. split; [eexists; split; [eapply t_var; eauto|apply Ne]|]. split; [intros k K; apply Ov; auto|]. split; [auto|]. split; [exact Hl|]. intro K. rewrite A in K. discriminate.
  - assert (NI : forall i, Attr attr l' <> Some (EIdent i)). { intros i K. rewrite A' in K. apply some_inj in K. apply (Ne (Attr attr l) (negb (beq attr %"args"))). now rewrite K. }
    assert (Tn : target l' vars attr (AddValueToList (dwc s) (Attr attr l) (pkg s) x (negb (beq attr %"args")))) by (apply t_attr; auto; intros i K; exfalso; apply (NI i); now rewrite A', K).
    split; auto. split; [rewrite A'; discriminate|]. split; [eexists; split; [exact Tn|apply Ne]|]. split; auto. split; [intros i K; now apply NI in K|]. split; [exact Hl|].
    intro K. rewrite K in Tn. exists (one_list x), [x]. split; [exact Tn|]. split; [reflexivity|apply same_labels_refl].
Qed.
Lemma add_steps choose val s attr xs : forall l vars, xs <> [] ->
  let '(l', vars') := fold_left (add_to s attr) xs (l, vars) in
  (forall k, k <> attr -> Attr k l' = Attr k l) /\ (exists e', target l' vars' attr e' /\ plain e' <> []) /\
  (forall k, (forall i, Attr attr l = Some (EIdent i) -> k <> i_name i) -> lookup k vars' = lookup k vars) /\
  (forall v, has_list choose val (pkg s) l vars attr v -> has_list choose val (pkg s) l' vars' attr (v ++ xs)) /\
  (Attr attr l = None -> has_list choose val (pkg s) l' vars' attr xs).
Proof.
  induction xs as [|x xs IH]; intros l vars N; [contradiction|]. cbn [fold_left]. pose proof (add_step choose val s attr l vars x) as H. destruct (add_to s attr (l, vars) x) as [l1 vars1].
  destruct H as (O1 & A1 & T1 & V1 & I1 & L1 & E1). destruct xs as [|y xs]; [cbn [fold_left]; auto|]. specialize (IH l1 vars1). destruct (fold_left (add_to s attr) (y :: xs) (l1, vars1)) as [l2 vars2].
  destruct IH as (O2 & T2 & V2 & L2 & E2); [discriminate|]. split; [intros k K; rewrite O2; auto|]. split; auto. split; [intros k K; rewrite V2; auto|]. split.
  - intros v H. specialize (L2 _ (L1 v H)). now rewrite <- app_assoc in L2.
  - intro K. apply (L2 [x]). auto.
Qed.
Lemma plain_remove_empty e : plain (RemoveEmptySelectsAndConcatLists e) = plain e.
Proof.
  induction e; try reflexivity.
  - cbn [RemoveEmptySelectsAndConcatLists]. destruct (is_select e) eqn:Si; auto. apply is_select_spec in Si as (i & -> & Ei). destruct args as [|[] rest]; auto. destruct (forallb empty_branch l); auto. unfold plain. cbn [parts new_list]. unfold select_name. rewrite Ei, beq_refl. reflexivity.
  - cbn [RemoveEmptySelectsAndConcatLists]. destruct (beq op %"+") eqn:E; auto. set (x := RemoveEmptySelectsAndConcatLists e1) in *. set (y := RemoveEmptySelectsAndConcatLists e2) in *. clearbody x y.
    assert (G : plain (EBinary c e1 p op lbreak e2) = plain x ++ plain y) by (unfold plain at 1; cbn [parts]; rewrite E, flat_map_app, IHe1, IHe2; reflexivity). rewrite G. clear G.
    assert (G : plain (EBinary c x p op lbreak y) = plain x ++ plain y) by (unfold plain at 1; cbn [parts]; rewrite E, flat_map_app; reflexivity).
    destruct (match x with EList _ _ l _ _ => Some l | _ => None end) as [l|] eqn:Lx.
    + destruct x; try discriminate. injection Lx as ->. destruct (match y with EList _ _ l _ _ => Some l | _ => None end) as [l'|] eqn:Ly.
      * destruct y; try discriminate. injection Ly as ->. destruct l; unfold plain; cbn [parts flat_map plain_of app new_list]; rewrite ?app_nil_r; reflexivity.
      * destruct l; [destruct y; try discriminate Ly; reflexivity|destruct y; try exact G; discriminate Ly].
    + destruct (match y with EList _ _ [] _ _ => true | _ => false end) eqn:Ly.
      * destruct y; try discriminate. destruct l; try discriminate. destruct x; try discriminate Lx; (symmetry; apply app_nil_r).
      * destruct x; try discriminate Lx; (destruct y; try exact G; match goal with y0 : list expr |- _ => destruct y0; [discriminate Ly|exact G] end).
Qed.
Lemma plain_resolve dwc pk e : plain e <> [] -> plain (resolve_expr dwc pk e) <> [].
Proof.
  unfold resolve_expr. rewrite plain_remove_empty. generalize (to_extract e). intro l. revert e. induction l as [|x l IH]; intros e N; [exact N|]. cbn [fold_left]. apply IH.
  destruct (plain e) as [|y p] eqn:E; [contradiction|]. intro K. assert (I : In y (plain (AddValueToList dwc (Some e) pk x false))) by (apply add_keeps; rewrite E; now left). rewrite K in I. destruct I.
Qed.
Lemma resolve_ident dwc pk i : resolve_expr dwc pk (EIdent i) = EIdent i.
Proof. reflexivity. Qed.
Lemma item_added s attr v : added s attr v (item_of s attr v).
Proof.
  unfold added, item_of. destruct (IsIntList (attr_types s) attr); auto. destruct (string_stored s v) as (triple & w & E & St). eauto.
Qed.
(** After add the list has the values it had and the new ones, and no others; nothing else is changed. *)
Theorem C95_add : forall s attr vals args vars choose val, vals <> [] ->
  exists items args' vars', cmdAdd s attr vals args vars = (args', vars') /\ Forall2 (added s attr) vals items /\
    (forall v, has_list choose val (pkg s) args vars attr v -> has_list choose val (pkg s) args' vars' attr (v ++ items)) /\
    (no_attr attr args -> has_list choose val (pkg s) args' vars' attr items) /\
    (forall k, k <> attr -> Attr k args' = Attr k args) /\
    (forall k, (forall i, Attr attr args = Some (EIdent i) -> k <> i_name i) -> lookup k vars' = lookup k vars).
Proof.
  intros s attr vals args vars choose val N. unfold cmdAdd.
  assert (F : fold_left (fun st v => add_to s attr st (item_of s attr v)) vals (args, vars) = fold_left (add_to s attr) (map (item_of s attr) vals) (args, vars)).
  { clear N. generalize (args, vars). induction vals as [|v vals IH]; intro st; [reflexivity|]. cbn [fold_left map]. apply IH. }
  rewrite F. exists (map (item_of s attr) vals). assert (Nm : map (item_of s attr) vals <> []) by (destruct vals; [contradiction|discriminate]).
  pose proof (add_steps choose val s attr (map (item_of s attr) vals) args vars Nm) as H. destruct (fold_left (add_to s attr) _ _) as [l1 vars1]. destruct H as (O1 & (e1 & T1 & P1) & V1 & L1 & E1).
  exists (ResolveAttr (dwc s) l1 attr (pkg s)), vars1. split; [reflexivity|]. split; [clear; induction vals; constructor; auto using item_added|].
  assert (R : forall v, has_list choose val (pkg s) l1 vars1 attr v -> has_list choose val (pkg s) (ResolveAttr (dwc s) l1 attr (pkg s)) vars1 attr v).
  { intros v (e & v' & Te & V & Sm). unfold ResolveAttr. destruct Te as [i u A L|u A Nu].
    - rewrite A, resolve_ident. exists u, v'. split; auto. eapply t_var; [apply C33_get_set|exact L].
    - rewrite A. destruct (value_resolve choose val (dwc s) (pkg s) u v' V) as (v2 & V2 & S2). exists (resolve_expr (dwc s) (pkg s) u), v2. split; [|split; auto; eapply same_labels_trans; eauto].
      assert (u = e1). { destruct T1 as [j w A1 L2|w A1 _]; [|congruence]. exfalso. assert (u = EIdent j) by congruence. subst u. rewrite (Nu j eq_refl) in L2. discriminate. } subst e1.
      apply t_attr; [apply C33_get_set|]. intros i K. exfalso. apply (plain_resolve (dwc s) (pkg s) u P1). now rewrite K. }
  split; [auto|]. split; [intro K; apply R, E1; now apply no_attr_none|]. split; [|auto]. intros k K. rewrite C39_others; auto.
Qed.
Print Assumptions C95_add.

(** ** Moving *)
Lemma without_cases {A} (P : A -> Prop) a b : without P a b -> forall x, In x a -> P x \/ In x b.
Proof. induction 1 as [|y l l' H W IH|y l l' H W IH]; intros x I; [destruct I| |]; (destruct I as [<- | I]; [cbn; auto|destruct (IH x I); cbn; auto]). Qed.
Lemma has_list_same choose val pk l l' vars attr v : Attr attr l' = Attr attr l -> has_list choose val pk l vars attr v -> has_list choose val pk l' vars attr v.
Proof. intros E (e & v' & T & H). exists e, v'. split; auto. destruct T as [i u A L|u A N]; [eapply t_var|eapply t_attr]; eauto; now rewrite E. Qed.
Lemma once_set old new v l : old <> new -> once old l -> once old (SetAttr new v l).
Proof.
  intros N O. unfold once. destruct (Attr new l) as [w|] eqn:A; [now rewrite (keys_set new v l w A)|]. apply no_attr_none in A. rewrite (SetAttr_new new v l A), keys_app, filter_app, app_length. unfold once in O.
  cbn [AttrKeys]. cbn. rewrite (proj2 (beq_neq new old)) by auto. cbn. lia.
Qed.
Lemma once_add s old new l vars x : old <> new -> once old l -> once old (fst (add_to s new (l, vars) x)).
Proof.
  intros N O. unfold add_to, AddValueToListAttribute. cbn [fst snd]. assert (G : forall v, once old (SetAttr new v l)) by (intro; now apply once_set).
  destruct (Attr new l) as [e|]; [|apply G]. destruct e; try apply G. match goal with |- context [@lookup ?A ?k ?m] => destruct (@lookup A k m) end; [exact O|apply G].
Qed.
Definition inv choose val (s : setting) old new args vars e v (P : expr -> Prop) l vars1 (moved : list expr) : Prop :=
  match Attr old l with
  | Some e1 => once old l /\ Forall lists_only (parts e1) /\ (exists v', configured choose e1 = Some v' /\ without P v v') /\ without P (plain e) (plain e1) /\ without P (branches e) (branches e1)
  | None => (forall x, In x v -> P x) /\ forall x, In x (plain e ++ branches e) -> P x
  end /\
  (forall k, k <> old -> k <> new -> Attr k l = Attr k args) /\
  (moved = [] -> Attr new l = Attr new args /\ vars1 = vars) /\
  (forall w, has_list choose val (pkg s) args vars new w -> has_list choose val (pkg s) l vars1 new (w ++ moved)) /\
  (Attr new args = None -> moved <> [] -> has_list choose val (pkg s) l vars1 new moved) /\
  (forall k, (forall i, Attr new args = Some (EIdent i) -> k <> i_name i) -> lookup k vars1 = lookup k vars) /\
  (forall i, Attr new l = Some (EIdent i) -> Attr new args = Some (EIdent i)) /\
  (forall x, In x moved -> In x (plain e ++ branches e) /\ P x) /\
  (forall x, In x (plain e ++ branches e) -> P x -> exists y t, In y moved /\ x = EStr t /\ spells (s_value t) (pkg s) y).
Lemma move_step choose val s old new args vars e v P l vars1 moved fixed a t : old <> new ->
  means a t -> ((snd (unquote a) = None /\ t = fst (fst (unquote a))) \/ (snd (unquote a) <> None /\ t = a)) ->
  inv choose val s old new args vars e v P l vars1 moved -> (fixed = true <-> moved <> []) ->
  exists moved', let '(l2, vars2, fixed2) := move_one s old new (l, vars1, fixed) a in
    inv choose val s old new args vars e v (fun x => P x \/ removable (dwc s) t (pkg s) x) l2 vars2 moved' /\ (fixed2 = true <-> moved' <> []).
Proof.
  intros N M U (Ost & Oth & M0 & Hl & Hn & Vs & Id & M1 & M2) Fx. unfold move_one. pose proof (C36_attribute (dwc s) l old a (pkg s)) as H. destruct (ListAttributeDelete (dwc s) l old a (pkg s)) as [d l1].
  destruct (Attr old l) as [e1|] eqn:A.
  2:{ destruct H as (-> & ->). exists moved. split; auto. unfold inv. rewrite A. destruct Ost as (O1 & O2). repeat (apply conj); auto.
      intros x I. split; [now apply M1|left; now apply M1]. }
  destruct Ost as (On & Lo & (v1 & V1 & W1) & Wp & Wb). pose proof (C36_delete (dwc s) e1 a t (pkg s) U) as D. destruct (ListDelete (dwc s) e1 a (pkg s)) as [d' e2]. destruct D as (C & Dp & Db & Dd). destruct H as (-> & Ok & Pl).
  destruct (value_changed choose _ e1 e2 C Lo v1 V1) as (v2 & V2 & W2). pose proof (without_trans _ _ _ _ _ W1 W2) as W3. pose proof (without_trans _ _ _ _ _ Wp Dp) as Wp3. pose proof (without_trans _ _ _ _ _ Wb Db) as Wb3.
  set (P2 := fun x => P x \/ removable (dwc s) t (pkg s) x) in *.
  assert (Ost2 : match Attr old l1 with
    | Some e1 => once old l1 /\ Forall lists_only (parts e1) /\ (exists v', configured choose e1 = Some v' /\ without P2 v v') /\ without P2 (plain e) (plain e1) /\ without P2 (branches e) (branches e1)
    | None => (forall x, In x v -> P2 x) /\ forall x, In x (plain e ++ branches e) -> P2 x end).
  { destruct Pl as [((c & p & en & m & ->) & _ & ->) | (_ & ->)].
    - rewrite once_absent; auto. cbn in V2. injection V2 as <-. unfold plain, branches in Wp3, Wb3. cbn in Wp3, Wb3. split; [now apply none_left|]. intros x I. apply in_app_iff in I. destruct I as [I|I]; [exact (proj1 (none_left P2 _) Wp3 x I)|exact (proj1 (none_left P2 _) Wb3 x I)].
    - rewrite (proj1 (C33_get_set old e2 l)). split; [unfold once; now rewrite (keys_set old e2 l e1 A)|]. split; [now apply (lists_only_changed _ _ _ _ C)|]. eauto. }
  assert (An : Attr new l1 = Attr new l) by (apply Ok; auto).
  assert (Sub : forall x, In x (plain e1 ++ branches e1) -> In x (plain e ++ branches e)).
  { intros x I. apply in_app_iff in I. apply in_app_iff. destruct I as [I|I]; [left; now apply (without_in _ _ _ Wp)|right; now apply (without_in _ _ _ Wb)]. }
  assert (Still : forall x, In x (plain e ++ branches e) -> P x \/ In x (plain e1 ++ branches e1)).
  { intros x I. apply in_app_iff in I. destruct I as [I|I]; [destruct (without_cases _ _ _ Wp x I)|destruct (without_cases _ _ _ Wb x I)]; auto; right; apply in_app_iff; auto. }
  destruct d' as [d|].
  - destruct Dd as (Id1 & Rd). exists (moved ++ [d]). pose proof (add_step choose val s new l1 vars1 d) as G. pose proof (once_add s old new l1 vars1 d N) as Oa. destruct (add_to s new (l1, vars1) d) as [l2 vars2]. cbn [fst] in Oa.
    destruct G as (G1 & G2 & _ & G4 & G5 & G6 & G7). split; [|split; [intros _; now destruct moved|auto]]. unfold inv.
    assert (Ao : Attr old l2 = Attr old l1) by (apply G1; auto). rewrite Ao.
    assert (Nm : moved ++ [d] <> []) by now destruct moved.
    repeat (apply conj).
    + destruct (Attr old l1); [destruct Ost2 as (B1 & B2); split; auto|exact Ost2].
    + intros k K1 K2. rewrite G1, Ok, Oth; auto.
    + intro K. contradiction.
    + intros w Hw. rewrite app_assoc. apply G6. apply (has_list_same _ _ _ l); auto.
    + intros K _. destruct moved as [|m0 mm].
      * apply G7. rewrite An. destruct (M0 eq_refl) as (-> & _). exact K.
      * apply G6. apply (has_list_same _ _ _ l); auto. apply Hn; auto. discriminate.
    + intros k K. rewrite G4; auto. intros i Ki. rewrite An in Ki. apply K. auto.
    + intros i Ki. apply G5 in Ki. rewrite An in Ki. auto.
    + intros x I. apply in_app_iff in I. destruct I as [I|[<-|[]]]; [destruct (M1 x I); split; [auto|left; auto]|split; [auto|right; auto]].
    + intros x I [Px|Rx]; [destruct (M2 x I Px) as (y & t0 & Iy & E & Sp); exists y, t0; split; [apply in_app_iff; auto|auto]|].
      destruct Rx as ((tx & -> & Ex) & _). destruct Rd as ((td & -> & Ed) & _). exists (EStr td), tx. split; [apply in_app_iff; cbn; auto|]. split; auto. exists td. split; auto. congruence.
  - exists moved. split; auto. unfold inv. repeat (apply conj).
    + exact Ost2.
    + intros k K1 K2. rewrite Ok, Oth; auto.
    + intro K. rewrite An. auto.
    + intros w Hw. apply (has_list_same _ _ _ l); auto.
    + intros K1 K2. apply (has_list_same _ _ _ l); auto.
    + auto.
    + intros i Ki. rewrite An in Ki. auto.
    + intros x I. destruct (M1 x I). split; [auto|left; auto].
    + intros x I [Px|Rx]; [auto|]. destruct (Still x I) as [Px|I1]; [auto|]. now destruct (Dd x I1).
Qed.

Lemma inv_iff choose val s old new args vars e v P Q l vars1 moved : (forall x, P x <-> Q x) -> inv choose val s old new args vars e v P l vars1 moved -> inv choose val s old new args vars e v Q l vars1 moved.
Proof.
  intros E (Ost & Oth & M0 & Hl & Hn & Vs & Id & M1 & M2). unfold inv. split.
  - destruct (Attr old l).
    + destruct Ost as (B1 & B2 & (v' & B3 & B4) & B5 & B6). split; auto. split; auto. split; [exists v'; split; auto; now apply (without_iff P Q)|]. split; now apply (without_iff P Q).
    + destruct Ost as (B1 & B2). split; intros x I; apply E; auto.
  - split; auto. split; auto. split; auto. split; auto. split; auto. split; auto. split.
    + intros x I. destruct (M1 x I). split; auto. now apply E.
    + intros x I H. apply M2; auto. now apply E.
Qed.
Lemma means_unique a t t' : means a t -> means a t' -> t = t'.
Proof. intros [(tr & E) | (N & ->)] [(tr' & E') | (N' & ->)]; auto; [congruence|exfalso; now apply (N' _ _ E)|exfalso; now apply (N _ _ E')]. Qed.
Lemma move_steps choose val s old new args vars e v : old <> new -> forall vals P l vars1 moved fixed,
  inv choose val s old new args vars e v P l vars1 moved -> (fixed = true <-> moved <> []) ->
  exists moved', let '(l2, vars2, fixed2) := fold_left (move_one s old new) vals (l, vars1, fixed) in
    inv choose val s old new args vars e v (fun x => P x \/ removed_by s vals x) l2 vars2 moved' /\ (fixed2 = true <-> moved' <> []).
Proof.
  intros N. induction vals as [|a vals IH]; intros P l vars1 moved fixed H Fx; cbn [fold_left].
  - exists moved. split; auto. eapply inv_iff; [|exact H]. intro x. cbn beta. split; [tauto|]. intros [K | (a & t & [] & _)]. exact K.
  - destruct (means_item a) as (t & M & U). destruct (move_step choose val s old new args vars e v P l vars1 moved fixed a t N M U H Fx) as (m1 & H1). destruct (move_one s old new (l, vars1, fixed) a) as [[l1 v1] f1]. destruct H1 as (H1 & F1).
    destruct (IH _ l1 v1 m1 f1 H1 F1) as (m2 & H2). exists m2. destruct (fold_left (move_one s old new) vals (l1, v1, f1)) as [[l2 v2] f2]. destruct H2 as (H2 & F2). split; auto. eapply inv_iff; [|exact H2].
    intro x. cbn beta. unfold removed_by. split.
    + intros [[K | K] | (b & t' & I & K)]; [auto|right; exists a, t; split; [now left|auto]|right; exists b, t'; split; [now right|auto]].
    + intros [K | (b & t' & [<- | I] & K & R)]; [auto| |right; exists b, t'; auto]. left. right. rewrite (means_unique a t t'); auto.
Qed.
(** move takes the values out of every list and every branch of the one attribute, and appends each of
    them to the other one; nothing else is changed, and the file is written exactly if a value was found. *)
Theorem C95_move : forall s old new vals args vars e choose val v, old <> new -> vals <> [%"*"] -> once old args -> attr_is old args e -> Forall lists_only (parts e) -> configured choose e = Some v ->
  exists args' vars' fixed moved, cmdMove s old new vals args vars = Some (args', vars', fixed) /\
    (fixed = true <-> moved <> []) /\
    (forall x, In x moved -> In x (plain e ++ branches e) /\ removed_by s vals x) /\
    (forall x, In x (plain e ++ branches e) -> removed_by s vals x -> exists y t, In y moved /\ x = EStr t /\ spells (s_value t) (pkg s) y) /\
    match Attr old args' with
    | Some e' => exists v', configured choose e' = Some v' /\ without (removed_by s vals) v v'
    | None => forall x, In x v -> removed_by s vals x
    end /\
    (forall w, has_list choose val (pkg s) args vars new w -> has_list choose val (pkg s) args' vars' new (w ++ moved)) /\
    (no_attr new args -> moved <> [] -> has_list choose val (pkg s) args' vars' new moved) /\
    (moved = [] -> Attr new args' = Attr new args) /\
    (forall k, k <> old -> k <> new -> Attr k args' = Attr k args) /\
    (forall k, (forall i, Attr new args = Some (EIdent i) -> k <> i_name i) -> lookup k vars' = lookup k vars).
Proof.
  intros s old new vals args vars e choose val v N Ns On A L V. apply attr_is_some in A.
  assert (C : cmdMove s old new vals args vars = Some (move_values s old new vals args vars)).
  { unfold cmdMove. destruct vals as [|a [|b r]]; auto. destruct (beq a %"*") eqn:E; auto. apply beq_eq in E. subst a. contradiction. }
  rewrite C. unfold move_values.
  assert (Same : forall l : list expr, without (fun _ : expr => False) l l) by (induction l; [constructor|apply wo_keep; auto]).
  assert (I0 : inv choose val s old new args vars e v (fun _ => False) args vars []).
  { unfold inv. rewrite A. split; [split; auto; split; auto; split; [exists v; auto|auto]|]. split; auto. split; auto. split; [intros w H; now rewrite app_nil_r|]. split; [intros _ K; now contradiction K|]. split; auto. split; auto. split; [intros x []|intros x _ []]. }
  destruct (move_steps choose val s old new args vars e v N vals _ args vars [] false I0) as (moved & H); [split; [discriminate|intro K; now contradiction K]|].
  destruct (fold_left (move_one s old new) vals (args, vars, false)) as [[l2 v2] f2]. destruct H as (H & F). apply (inv_iff _ _ _ _ _ _ _ _ _ _ (removed_by s vals)) in H; [|intro x; cbn beta; tauto].
  destruct H as (Ost & Oth & M0 & Hl & Hn & Vs & _ & M1 & M2). exists l2, v2, f2, moved. split; auto. split; auto. split; auto. split; auto. split.
  - destruct (Attr old l2); [destruct Ost as (_ & _ & H & _); exact H|apply Ost].
  - split; auto. split; [intros K Nm; apply Hn; auto; now apply no_attr_none|]. split; [intro K; now apply M0|]. split; auto.
Qed.
Print Assumptions C95_move.
(** A value that stood only in one branch of a select is there in every configuration afterwards. *)
Definition ex_select : expr := sel [kv %"//c:on" (lst [str %":a"]); kv %"//c:off" (lst [str %":b"])] [].
Theorem C95_move_refuted : exists s old new val args args' vars' fixed choose v w, old <> new /\
  cmdMove s old new [val] args [] = Some (args', vars', fixed) /\
  has_list choose (fun _ => None) (pkg s) args [] old v /\ has_list choose (fun _ => None) (pkg s) args [] new w /\
  has_list choose (fun _ => None) (pkg s) args' vars' old v /\ (forall x, In x (v ++ w) -> ~ spells val (pkg s) x) /\ has_list choose (fun _ => None) (pkg s) args' vars' new (w ++ [str val]).
Proof.
  exists ex_setting, %"deps", %"exports", %":a", [arg_of %"deps" ex_select; arg_of %"exports" (lst [str %":x"])], [arg_of %"deps" (sel [kv %"//c:on" (lst []); kv %"//c:off" (lst [str %":b"])] []); arg_of %"exports" (lst [str %":a"; str %":x"])], [], true, (fun _ => Some 1%nat), [str %":b"], [str %":x"].
  split; [discriminate|]. split; [vm_compute; reflexivity|].
  split; [eexists; eexists; split; [apply t_attr; [vm_compute; reflexivity|discriminate]|split; [vm_compute; reflexivity|apply same_labels_refl]]|].
  split; [eexists; eexists; split; [apply t_attr; [vm_compute; reflexivity|discriminate]|split; [vm_compute; reflexivity|apply same_labels_refl]]|].
  split; [eexists; eexists; split; [apply t_attr; [vm_compute; reflexivity|discriminate]|split; [vm_compute; reflexivity|apply same_labels_refl]]|].
  split; [intros x [<- | [<- | []]] (t & E & H); injection E as <-; vm_compute in H; discriminate H|].
  eexists; eexists; split; [apply t_attr; [vm_compute; reflexivity|discriminate]|split; [vm_compute; reflexivity|]]. apply same_members. intro x. cbn. tauto.
Qed.
Print Assumptions C95_move_refuted.
Example C95_nontrivial :
  fst (cmdAdd ex_setting %"deps" [%"//p:z"; %":a"; %"//q:w"] [arg_of %"deps" (plus (lst [str %"//p:a"]) ex_select)] []) = [arg_of %"deps" (plus (lst [str %":z"; str %"//p:a"; str %"//q:w"]) ex_select)] /\
  cmdMove ex_setting %"deps" %"exports" [%"//p:a"; %":nope"] [arg_of %"deps" (plus (lst [str %":a"; str %":c"]) ex_select); arg_of %"exports" (new_ident_expr %"V")] [(%"V", lst [str %":x"])] =
    Some ([arg_of %"deps" (plus (lst [str %":c"]) (sel [kv %"//c:on" (lst []); kv %"//c:off" (lst [str %":b"])] [])); arg_of %"exports" (new_ident_expr %"V")], [(%"V", lst [str %":a"; str %":x"])], true) /\
  once %"deps" [arg_of %"deps" (plus (lst [str %":a"; str %":c"]) ex_select)] /\ Forall lists_only (parts (plus (lst [str %":a"; str %":c"]) ex_select)) /\
  configured (fun _ => Some 0%nat) (plus (lst [str %":a"; str %":c"]) ex_select) = Some [str %":a"; str %":c"; str %":a"].
Proof.
  split; [vm_compute; reflexivity|]. split; [vm_compute; reflexivity|]. split; [unfold once; vm_compute; lia|]. split; [|vm_compute; reflexivity].
  apply Forall_cons; [exact I|]. apply Forall_cons; [|apply Forall_nil]. cbn. repeat constructor; do 5 eexists; reflexivity.
Qed.
