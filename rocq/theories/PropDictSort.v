(** C84: the order of dictionary items. *)
From Verif Require Import Base BaseProofs Order Ast Walk WalkSpec WalkProofs WalkGen PropWalk CallSpec CallProofs Lint LintSpec PropLint DictSort.
Local Open Scope list_scope.

(** ** The order *)
(** Keys in the order of the alphabet, then //conditions:default, then those that start with an underscore. *)
Definition key_class (k : bytes) : nat := match k with "_"%char :: _ => 2 | _ => if beq k %"//conditions:default" then 1 else 0 end.
Definition key_before (k k' : bytes) : Prop := key_class k < key_class k' \/ key_class k = key_class k' /\ blt k k' = true.
Definition literal_key (k : bytes) (item : expr) : Prop := exists c s p v, item = EKV c (EStr s) p v /\ s_value s = k.
Definition keyed (item : expr) : Prop := exists k, literal_key k item.
(** x has to stand before y *)
Definition item_before (x y : expr) : Prop := exists k k', literal_key k x /\ literal_key k' y /\ key_before k k'.
Definition has_literal_key (k : option bytes) (item : expr) : bool :=
  match item, k with EKV _ (EStr s) _ _, Some k => beq (s_value s) k | EKV _ (EStr s) _ _, None => true | _, _ => false end.
Definition literal_items (l : list expr) : list expr := filter (has_literal_key None) l.
(** The same items in order: those without a literal key where they were; items with the same key in the order they had. *)
Definition rearranged (l l' : list expr) : Prop :=
  List.length l' = List.length l /\ (forall i x, nth_error l i = Some x -> ~ keyed x -> nth_error l' i = Some x) /\
  (forall i x y, nth_error l i = Some x -> nth_error l' i = Some y -> (keyed x <-> keyed y)) /\
  Permutation l l' /\ StronglySorted (fun x y => ~ item_before y x) (literal_items l') /\
  forall k, filter (has_literal_key (Some k)) l' = filter (has_literal_key (Some k)) l.
(** Nobody asked to leave the order alone here. *)
Definition free (stk : list expr) (e : expr) : Prop := forall x, In x (stk ++ [e]) -> ~ marked %"@unsorted-dict-items" x.
Definition dict_sorted (stk : list expr) (e e' : expr) : Prop :=
  (forall c p l en m, e = EDict c p l en m -> free stk e -> exists l', e' = EDict c p l' en m /\ rearranged l l') /\
  ((forall c p l en m, e <> EDict c p l en m) \/ ~ free stk e -> e' = e).
(** An item out of order. *)
Definition out_of_order (f y : expr) : Prop :=
  exists path c p l en m pre x post, node_at children f path = Some (EDict c p l en m) /\ free (above children f path) (EDict c p l en m) /\
    literal_items l = pre ++ x :: y :: post /\ item_before y x.

(** ** Proofs *)
Lemma class_spec k : (has_prefix %"_" k = true /\ key_class k = 2) \/ (has_prefix %"_" k = false /\ k = conditionsDefault /\ key_class k = 1) \/ (has_prefix %"_" k = false /\ beq k conditionsDefault = false /\ key_class k = 0).
Proof.
  destruct (has_prefix %"_" k) eqn:P.
  - left. split; auto. apply has_prefix_spec in P as [t ->]. reflexivity.
  - right. assert (K : key_class k = if beq k conditionsDefault then 1 else 0).
    { destruct k as [|a k]; [reflexivity|]. cbn [has_prefix B list_ascii_of_string] in P. unfold key_class. destruct a as [[] [] [] [] [] [] [] []]; try reflexivity. discriminate P. }
    destruct (beq k conditionsDefault) eqn:E; [left; apply beq_eq in E; auto|right; auto].
Qed.
Lemma compareKeys_spec k k' : compareKeys k k' = true <-> key_before k k'.
Proof.
  unfold compareKeys, key_before. destruct (class_spec k) as [[A ->]|[(A & E & ->)|(A & E & ->)]], (class_spec k') as [[A' ->]|[(A' & E' & ->)|(A' & E' & ->)]]; rewrite A, A'; try rewrite E; try rewrite E'; rewrite ?beq_refl; cbn [andb].
  all: try (split; [intro; right; auto|intros [H|[_ H]]; [lia|exact H]]).
  all: try (split; [discriminate|intros [H|[H _]]; lia]).
  all: try (split; [intro; left; lia|auto]).
  all: idtac.
Qed.
Lemma swo_keys : swo compareKeys.
Proof.
  assert (B := swo_blt). split.
  - intros x y H. apply compareKeys_spec in H. destruct (compareKeys y x) eqn:E; auto. apply compareKeys_spec in E. unfold key_before in *. destruct H as [H|[H1 H2]], E as [E|[E1 E2]]; try lia. apply (swo_asym B) in H2. congruence.
  - intros x y z H1 H2. destruct (compareKeys x z) eqn:E; auto. apply compareKeys_spec in E.
    assert (N1 : ~ key_before x y) by (intro X; apply compareKeys_spec in X; congruence). assert (N2 : ~ key_before y z) by (intro X; apply compareKeys_spec in X; congruence).
    unfold key_before in *. assert (C1 : key_class y <= key_class x) by lia. assert (C2 : key_class z <= key_class y) by lia. destruct E as [E|[E1 E2]]; [lia|].
    assert (key_class x = key_class y) by lia. assert (key_class y = key_class z) by lia. rewrite (swo_ntrans B x y z) in E2; [discriminate| |].
    + destruct (blt x y) eqn:F; auto. elim N1. auto.
    + destruct (blt y z) eqn:F; auto. elim N2. auto.
Qed.
Lemma string_key_spec item k : string_key item = Some k <-> literal_key k item.
Proof.
  unfold literal_key. split.
  - destruct item; try discriminate. destruct item1; try discriminate. intro H. injection H as <-. eauto 9.
  - intros (c & s & p & v & -> & <-). reflexivity.
Qed.
Lemma literal_items_eq l : literal_items l = filter has_key l.
Proof. apply filter_ext. intro x. destruct x; try reflexivity. destruct x1; reflexivity. Qed.
Lemma has_key_spec x : has_key x = true <-> keyed x.
Proof.
  unfold has_key, keyed. destruct (string_key x) as [k|] eqn:E; split; auto; try discriminate.
  - intros _. exists k. now apply string_key_spec.
  - intros [k H]. apply string_key_spec in H. congruence.
Qed.
Lemma compareItems_spec x y : keyed x -> keyed y -> (compareItems x y = true <-> item_before x y).
Proof.
  intros [k K] [k' K']. unfold compareItems, item_before, key_of. rewrite (proj2 (string_key_spec x k) K), (proj2 (string_key_spec y k') K'). rewrite compareKeys_spec. split; [eauto 9|].
  intros (j & j' & J & J' & H). apply string_key_spec in J, J', K, K'. congruence.
Qed.
Lemma swo_items : swo compareItems.
Proof. apply (swo_pull key_of _ swo_keys). Qed.
Lemma put_back_length l : forall s, List.length (put_back l s) = List.length l.
Proof. induction l as [|x l IH]; intro s; cbn [put_back]; auto. destruct (has_key x); [destruct s|]; cbn; rewrite IH; auto. Qed.
Lemma put_back_spec l : forall s, List.length s = List.length (filter has_key l) -> Forall (fun x => has_key x = true) s ->
  (forall i x, nth_error l i = Some x -> has_key x = false -> nth_error (put_back l s) i = Some x) /\
  (forall i x y, nth_error l i = Some x -> nth_error (put_back l s) i = Some y -> has_key x = has_key y) /\
  filter has_key (put_back l s) = s /\ filter (fun x => negb (has_key x)) (put_back l s) = filter (fun x => negb (has_key x)) l.
Proof.
  induction l as [|x l IH]; intros s L F; cbn [put_back].
  - destruct s; [|discriminate]. repeat split; auto; intros []; discriminate.
  - cbn [filter] in L. destruct (has_key x) eqn:K.
    + destruct s as [|y s]; [discriminate|]. pose proof (Forall_inv F) as Ky. cbn beta in Ky. destruct (IH s) as (A & B & C & D); [cbn in L; lia|apply Forall_inv_tail in F; auto|]. split; [|split; [|split]].
      * intros [|i] z H Hz; cbn in *; [injection H as <-; congruence|eauto].
      * intros [|i] z w H Hw; cbn in *; [injection H as <-; injection Hw as <-; congruence|eauto].
      * cbn [filter]. rewrite Ky, C. auto.
      * cbn [filter]. rewrite Ky, K. cbn. auto.
    + destruct (IH s L F) as (A & B & C & D). split; [|split; [|split]].
      * intros [|i] z H Hz; cbn in *; [auto|eauto].
      * intros [|i] z w H Hw; cbn in *; [congruence|eauto].
      * cbn [filter]. rewrite K. auto.
      * cbn [filter]. rewrite K. cbn. f_equal. auto.
Qed.
Lemma filter_part {A} (P : A -> bool) l : Permutation l (filter P l ++ filter (fun x => negb (P x)) l).
Proof. induction l as [|x l IH]; auto. cbn [filter]. destruct (P x); cbn; [auto|]. apply Permutation_cons_app. auto. Qed.
Lemma misplaced_none l : misplacedItems l = [] <-> LocallySorted (nlt compareItems) l.
Proof.
  induction l as [|x l IH]; [split; constructor|]. cbn [misplacedItems]. destruct l as [|y l]; [split; constructor|]. unfold nlt. split.
  - intro H. apply app_eq_nil in H as [H1 H2]. constructor; [apply IH; auto|]. destruct (compareItems y x); [discriminate|auto].
  - intro H. inversion H; subst. rewrite (proj2 IH) by auto. rewrite H4. reflexivity.
Qed.
Lemma filter_id {A} (P : A -> bool) l : Forall (fun x => P x = true) l -> filter P l = l.
Proof. induction 1 as [|x l H F IH]; auto. cbn. rewrite H, IH. auto. Qed.
Lemma filter_all {A} (P : A -> bool) l : Forall (fun x => P x = true) (filter P l).
Proof. apply Forall_forall. intros x H. now apply filter_In in H. Qed.
Lemma sortItems_sorted l : filter has_key (sortItems l) = isort compareItems (filter has_key l) /\ misplacedItems (filter has_key (sortItems l)) = [] /\ sortItems l = put_back l (isort compareItems (filter has_key l)).
Proof.
  assert (F : Forall (fun x => has_key x = true) (isort compareItems (filter has_key l))).
  { apply Forall_forall. intros x H. apply (Permutation_in _ (isort_perm compareItems _)) in H. now apply filter_In in H. }
  assert (L : List.length (isort compareItems (filter has_key l)) = List.length (filter has_key l)) by apply isort_length.
  assert (Loc : misplacedItems (isort compareItems (filter has_key l)) = []) by (apply misplaced_none, isort_locally_sorted, (swo_asym swo_items)).
  pose proof (put_back_spec l _ L F) as (_ & _ & C & _).
  unfold sortItems. destruct (misplacedItems (filter has_key l)) eqn:M; [|rewrite C; auto].
  pose proof (proj1 (misplaced_none _) M) as S0. rewrite (isort_sorted_id _ _ S0). split; auto. split; auto. clear. induction l as [|x l IH]; auto. cbn [filter put_back]. destruct (has_key x); cbn [put_back]; congruence.
Qed.
Lemma has_literal_some k x : has_literal_key (Some k) x = true <-> literal_key k x.
Proof.
  unfold literal_key. split.
  - destruct x; try discriminate. destruct x1; try discriminate. intro H. apply beq_eq in H. eauto 9.
  - intros (c & s & p & v & -> & <-). cbn. apply beq_refl.
Qed.
Lemma filter_filter_sub {A} (P Q : A -> bool) l : (forall x, P x = true -> Q x = true) -> filter P (filter Q l) = filter P l.
Proof. intro H. induction l as [|x l IH]; auto. cbn [filter]. destruct (Q x) eqn:E; cbn [filter]; rewrite IH; auto. destruct (P x) eqn:F; auto. apply H in F. congruence. Qed.
Lemma sortItems_spec l : rearranged l (sortItems l).
Proof.
  destruct (sortItems_sorted l) as (S1 & S2 & S3). assert (F : Forall (fun x => has_key x = true) (isort compareItems (filter has_key l))).
  { apply Forall_forall. intros x H. apply (Permutation_in _ (isort_perm compareItems _)) in H. now apply filter_In in H. }
  pose proof (put_back_spec l _ (isort_length compareItems _) F) as (P1 & P2 & P3 & P4). rewrite <- S3 in *. split; [rewrite S3; apply put_back_length|]. split; [|split; [|split; [|split]]].
  - intros i x H N. apply P1; auto. destruct (has_key x) eqn:E; auto. apply has_key_spec in E. contradiction.
  - intros i x y H H'. rewrite <- !has_key_spec. now rewrite (P2 i x y H H').
  - eapply Permutation_trans; [apply (filter_part has_key)|]. eapply Permutation_trans; [|apply Permutation_sym, (filter_part has_key)]. rewrite P4, S1. apply Permutation_app_tail, Permutation_sym, isort_perm.
  - rewrite literal_items_eq, S1. pose proof (isort_swo_sorted compareItems (filter has_key l) swo_items) as So. rewrite Forall_forall in F.
    assert (G : forall x, In x (isort compareItems (filter has_key l)) -> keyed x) by (intros x H; apply has_key_spec, F; auto). clear - So G.
    induction So as [|x m So IH Fa]; constructor; [apply IH; intros; apply G; right; auto|]. rewrite Forall_forall in *. intros y I H. apply compareItems_spec in H; [|apply G; right; auto|apply G; left; auto]. rewrite Fa in H; [discriminate|auto].
  - intro k. rewrite <- (filter_filter_sub (has_literal_key (Some k)) has_key (sortItems l)), <- (filter_filter_sub (has_literal_key (Some k)) has_key l).
    + rewrite S1. apply isort_filter. intros a b Ha Hb. apply has_literal_some, string_key_spec in Ha, Hb. unfold compareItems, key_of. rewrite Ha, Hb. apply (swo_irrefl _ swo_keys).
    + intros x H. apply has_literal_some in H. apply has_key_spec. exists k. auto.
    + intros x H. apply has_literal_some in H. apply has_key_spec. exists k. auto.
Qed.
Lemma skip_spec x : mustSkipCheck x = true <-> marked %"@unsorted-dict-items" x.
Proof. unfold mustSkipCheck. rewrite <- has_comment_spec. unfold ContainsComments, StrList.has_comment. change (to_lower %"@unsorted-dict-items") with %"@unsorted-dict-items". rewrite !existsb_app, !orb_true_iff. tauto. Qed.
Lemma free_spec stk e : existsb mustSkipCheck (stk ++ [e]) = false <-> free stk e.
Proof.
  unfold free. split.
  - intros H x I M. apply skip_spec in M. assert (X : existsb mustSkipCheck (stk ++ [e]) = true) by (apply existsb_exists; eauto). congruence.
  - intro H. destruct (existsb mustSkipCheck (stk ++ [e])) eqn:X; auto. apply existsb_exists in X as (x & I & M). apply skip_spec in M. elim (H x I M).
Qed.
Lemma checked_spec e stk l : checked e stk = Some l <-> free stk e /\ exists c p en m, e = EDict c p l en m.
Proof.
  unfold checked. split.
  - destruct e; try discriminate. destruct (existsb mustSkipCheck _) eqn:X; [discriminate|]. intro H. injection H as <-. split; [now apply free_spec|eauto 9].
  - intros (F & c & p & en & m & ->). apply free_spec in F. rewrite F. auto.
Qed.
Lemma sort_node_spec stk e : dict_sorted stk e (sort_node stk e).
Proof.
  unfold sort_node. destruct (checked e stk) as [l|] eqn:C.
  - apply checked_spec in C as (F & c & p & en & m & ->). split.
    + intros c' p' l' en' m' E _. injection E as <- <- <- <- <-. exists (sortItems l). split; auto. apply sortItems_spec.
    + intros [N|N]; [elim (N c p l en m eq_refl)|contradiction].
  - split; auto. intros c p l en m -> F. assert (X : checked (EDict c p l en m) stk = Some l) by (apply checked_spec; eauto 9). congruence.
Qed.
Lemma height_dict c p l en m : height (EDict c p l en m) = S (list_max (map height l)).
Proof. rewrite height_unfold. unfold children, fold_children; cbn [fold_children2]; rewrite map_id; reflexivity. Qed.
Lemma list_max_perm l l' : Permutation l l' -> list_max l = list_max l'.
Proof. unfold list_max. induction 1; cbn [fold_right]; auto; [rewrite !Nat.max_assoc, (Nat.max_comm y x); auto|congruence]. Qed.
Lemma sort_node_height stk e : height (sort_node stk e) <= height e.
Proof.
  unfold sort_node. destruct (checked e stk) as [l|] eqn:C; auto. apply checked_spec in C as (F & c & p & en & m & ->). rewrite !height_dict.
  rewrite (list_max_perm (map height (sortItems l)) (map height l)); auto. apply Permutation_map, Permutation_sym. apply sortItems_spec.
Qed.
Lemma sort_node_kind : cb_kind sort_node.
Proof. split; intros; eexists; reflexivity. Qed.
(** Every dictionary is put in order, and nothing else is changed. *)
Theorem C84_fix : forall f, walked dict_sorted [] f (fixDictItems f).
Proof. intro f. apply Edit_walked; [intros; apply sort_node_height|apply sort_node_kind|intros; apply sort_node_spec]. Qed.
Lemma walk_in f x stk : In (x, stk) (Walk f) <-> exists path, node_at children f path = Some x /\ above children f path = stk.
Proof.
  destruct (C28_walk_preorder f) as (ps & _ & _ & I & F). split.
  - intro H. clear I. induction F as [|p q ps l [A B] F IH]; [destruct H|]. destruct H as [->|H]; [exists p; auto|auto].
  - intros (path & N & A). assert (J : In path ps) by (apply I; congruence). clear I. induction F as [|p q ps l [A' B'] F IH]; [destruct J|]. destruct J as [->|J]; [left|right; auto]. destruct q as [y s]. cbn in *. congruence.
Qed.
Lemma misplaced_in y l : Forall keyed l -> (In y (misplacedItems l) <-> exists pre x post, l = pre ++ x :: y :: post /\ item_before y x).
Proof.
  induction l as [|a l IH]; intro K.
  - split; [intros []|]. intros ([] & x & post & H & _); discriminate.
  - pose proof (Forall_inv K) as Ka. apply Forall_inv_tail in K. specialize (IH K). destruct l as [|b l].
    + split; [intros []|]. intros ([|? []] & x & post & H & _); discriminate.
    + pose proof (Forall_inv K) as Kb. change (misplacedItems (a :: b :: l)) with ((if compareItems b a then [b] else []) ++ misplacedItems (b :: l)). rewrite in_app_iff, IH. split.
      * intros [H|(pre & x & post & E & H)]; [|exists (a :: pre), x, post; rewrite E; auto]. destruct (compareItems b a) eqn:C; [|destruct H]. destruct H as [<-|[]]. apply compareItems_spec in C; auto. exists [], a, l. auto.
      * intros ([|a' pre] & x & post & E & H).
        -- injection E as <- <- <-. apply compareItems_spec in H; auto. rewrite H. left. left. auto.
        -- injection E as <- E. right. eauto.
Qed.
Lemma edit_item stk x : string_key (Edit_from sort_node stk x) = string_key x.
Proof.
  rewrite Edit_from_unfold by (intros; apply sort_node_height). unfold sort_node at 2 3. destruct (checked x stk) as [l|] eqn:C.
  - apply checked_spec in C as (F & c & p & en & m & ->). reflexivity.
  - clear C. destruct x; try reflexivity. cbn [map_children string_key]. set (st := stk ++ _). clearbody st.
    rewrite Edit_from_unfold by (intros; apply sort_node_height). destruct x1; try reflexivity. unfold sort_node. destruct (checked (EDict c0 start l e multi) st); reflexivity.
Qed.
Lemma misplaced_map g l : (forall x, string_key (g x) = string_key x) -> misplacedItems (filter has_key (map g l)) = map g (misplacedItems (filter has_key l)).
Proof.
  intro H. assert (E : filter has_key (map g l) = map g (filter has_key l)). { induction l as [|x l IH]; auto. cbn [map filter]. assert (K : has_key (g x) = has_key x) by (unfold has_key; now rewrite H). rewrite K, IH. destruct (has_key x); auto. }
  rewrite E. generalize (filter has_key l) as m. clear l E. induction m as [|x m IH]; auto. destruct m as [|y m]; [reflexivity|].
  change (map g (misplacedItems (x :: y :: m))) with (map g ((if compareItems y x then [y] else []) ++ misplacedItems (y :: m))). rewrite map_app, <- IH.
  change (misplacedItems (map g (x :: y :: m))) with ((if compareItems (g y) (g x) then [g y] else []) ++ misplacedItems (map g (y :: m))). f_equal. unfold compareItems, key_of. rewrite !H. destruct (compareKeys _ _); auto.
Qed.
Lemma skip_com x y : com x = com y -> mustSkipCheck x = mustSkipCheck y.
Proof. unfold mustSkipCheck, ContainsComments. intros ->. auto. Qed.
Definition found (call : expr * list expr) : list expr := match checked (fst call) (snd call) with Some l => misplacedItems (filter has_key l) | None => [] end.
Lemma nothing_left n : forall e s1 s2, height e <= n -> existsb mustSkipCheck s1 = existsb mustSkipCheck s2 -> flat_map found (visit (fun _ _ => false) s1 (Edit_from sort_node s2 e)) = [].
Proof.
  induction n as [|n IH]; intros e s1 s2 Hn Es; [rewrite height_unfold in Hn; lia|]. rewrite visit_unfold. cbn [flat_map].
  pose proof (Edit_com sort_node sort_node_height s2 e) as Co.
  assert (Here : found (Edit_from sort_node s2 e, s1) = []).
  { unfold found. cbn [fst snd]. destruct (checked (Edit_from sort_node s2 e) s1) as [l'|] eqn:C; auto. apply checked_spec in C as (F & c & p & en & m & E'). pose proof E' as E0.
    rewrite Edit_from_unfold in E' by (intros; apply sort_node_height). apply free_spec in F. rewrite existsb_app in F. cbn [existsb] in F. rewrite orb_false_r, Es, (skip_com _ _ Co) in F.
    destruct (sort_node s2 e) eqn:Sn; try discriminate. cbn [map_children] in E'. injection E' as <- <- El <- <-. rewrite <- El. rewrite misplaced_map by (intro; apply edit_item).
    unfold sort_node in Sn. destruct (checked e s2) as [l1|] eqn:C1.
    - apply checked_spec in C1 as (F1 & c1 & p1 & en1 & m1 & ->). injection Sn as <- <- <- <- <-. rewrite (proj1 (proj2 (sortItems_sorted l1))). reflexivity.
    - subst e. unfold checked in C1. rewrite existsb_app in C1. cbn [existsb] in C1. rewrite orb_false_r, F in C1. discriminate. }
  rewrite Here. cbn [app]. rewrite (Edit_children sort_node sort_node_height sort_node_kind).
  assert (G : forall x, In x (children (sort_node s2 e)) -> flat_map found (visit (fun _ _ => false) (s1 ++ [Edit_from sort_node s2 e]) (Edit_from sort_node (s2 ++ [sort_node s2 e]) x)) = []).
  { intros x I. apply IH; [apply height_child in I; pose proof (sort_node_height s2 e); lia|]. rewrite !existsb_app, Es. cbn [existsb]. rewrite (skip_com _ _ Co). auto. }
  revert G. generalize (children (sort_node s2 e)) as l. induction l as [|x l IHl]; intro G; auto. cbn [map flat_map]. rewrite flat_map_app, (G x) by (left; auto). cbn [app]. apply IHl. intros; apply G; right; auto.
Qed.
Lemma unchanged e stk : flat_map found (visit (fun _ _ => false) stk e) = [] -> Edit_from sort_node stk e = e.
Proof.
  apply (Edit_id sort_node sort_node_height (fun stk e => flat_map found (visit (fun _ _ => false) stk e) = [])). clear. intros stk e H. rewrite visit_unfold in H. cbn [flat_map] in H. apply app_eq_nil in H as [H1 H2]. split.
  - unfold sort_node. unfold found in H1. cbn [fst snd] in H1. destruct (checked e stk) as [l|] eqn:C; auto. apply checked_spec in C as (F & c & p & en & m & ->). unfold sortItems. rewrite H1. auto.
  - intros x I. apply in_split in I as (a & b & E). rewrite E, !flat_map_app in H2. apply app_eq_nil in H2 as [_ H2]. cbn [flat_map] in H2. rewrite flat_map_app in H2. now apply app_eq_nil in H2.
Qed.
(** The items that are reported are those out of order; once they are put in order, nothing is reported; if nothing is reported, nothing changes. *)
Theorem C84_findings : forall f, (forall y, In y (unsortedDictItems f) <-> out_of_order f y) /\ unsortedDictItems (fixDictItems f) = [] /\ (unsortedDictItems f = [] -> fixDictItems f = f).
Proof.
  intro f. split; [|split].
  - intro y. unfold unsortedDictItems, out_of_order. rewrite in_flat_map. split.
    + intros ([e stk] & I & H). cbn [fst snd] in H. destruct (checked e stk) as [l|] eqn:C; [|destruct H]. apply checked_spec in C as (F & c & p & en & m & ->). apply walk_in in I as (path & N & <-).
      rewrite <- literal_items_eq in H. apply misplaced_in in H; [|rewrite literal_items_eq; eapply Forall_impl; [|apply filter_all]; intros x Hx; now apply has_key_spec]. destruct H as (pre & x & post & E & H). exists path, c, p, l, en, m, pre, x, post. auto.
    + intros (path & c & p & l & en & m & pre & x & post & N & F & E & H). exists (EDict c p l en m, above children f path). split; [apply walk_in; eauto|]. cbn [fst snd]. rewrite (proj2 (checked_spec _ _ l)) by eauto 9.
      rewrite <- literal_items_eq. apply misplaced_in; [|eauto]. rewrite literal_items_eq. eapply Forall_impl; [|apply filter_all]. intros z Hz. now apply has_key_spec.
  - apply (nothing_left (height f)); auto.
  - apply unchanged.
Qed.
(** A dictionary with literal and other keys, one inside a marked statement. *)
Example C84_nontrivial :
  let s v := EStr (Str no_com no_pos v false no_pos []) in let n t := ELit no_com no_pos t in let kv k v := EKV no_com k no_pos v in
  let d c l := EDict c no_pos l (End no_com no_pos) false in let x := EIdent (Ident no_com no_pos %"x") in
  let mark := Comments [Comment no_pos %"# @unsorted-dict-items"] [] [] in
  let f a b := EFile no_com (FMeta [] [] [] TypeBzl) [Some (d no_com a); None; Some (EParen mark no_pos (d no_com b) (End no_com no_pos) false)] in
  let l := [kv (s %"_p") (n %"1"); kv (s %"//conditions:default") (n %"2"); kv x (d no_com [kv (s %"b") x; kv (s %"a") x]); kv (s %"b") (n %"3"); kv (s %"b") (n %"4"); kv (s %"_a") x] in
  let l' := [kv (s %"b") (n %"3"); kv (s %"b") (n %"4"); kv x (d no_com [kv (s %"a") x; kv (s %"b") x]); kv (s %"//conditions:default") (n %"2"); kv (s %"_a") x; kv (s %"_p") (n %"1")] in
  fixDictItems (f l l) = f l' l /\ unsortedDictItems (f l l) = [kv (s %"//conditions:default") (n %"2"); kv (s %"b") (n %"3"); kv (s %"a") x].
Proof. vm_compute. split; reflexivity. Qed.
Print Assumptions C84_fix. Print Assumptions C84_findings.
