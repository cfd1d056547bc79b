From Verif Require Import Base BaseProofs Order Ast Walk WalkSpec WalkProofs WalkGen StrList StrListSpec StrListProofs Rewrite CallSpec.

Lemma is_sorted_cons2 {A} (less : A -> A -> bool) x y l :
  is_sorted less (x :: y :: l) = negb (less y x) && is_sorted less (y :: l).
Proof. reflexivity. Qed.
Lemma is_sorted_locally {A} (less : A -> A -> bool) l : is_sorted less l = true <-> LocallySorted (nlt less) l.
Proof.
  induction l as [|x [|y l] IH]; [split; constructor|split; constructor|].
  cbn [is_sorted]. rewrite andb_true_iff, IH, negb_true_iff. split.
  - intros [H1 H2]. constructor; auto.
  - inversion 1; subst. auto.
Qed.
Lemma sorted_or_isort {A} (less : A -> A -> bool) l :
  (if is_sorted less l then l else isort less l) = isort less l.
Proof.
  destruct (is_sorted less l) eqn:E; auto. apply is_sorted_locally in E. symmetry. apply isort_sorted_id; auto.
Qed.

(** ** named_less *)
Definition named_lex : named_arg -> named_arg -> bool :=
  lex (fun x y => Z.ltb (n_prio x) (n_prio y))
    (lex (fun x y => blt (n_name x) (n_name y)) (fun x y => Nat.ltb (n_index x) (n_index y))).
Lemma named_less_lex p q : named_less p q = named_lex p q.
Proof.
  unfold named_less, named_lex, lex.
  destruct (Z.eqb_spec (n_prio p) (n_prio q)) as [E|n]; cbn [negb].
  - rewrite E, Z.ltb_irrefl. destruct (beq_spec (n_name p) (n_name q)) as [->|n]; cbn [negb].
    + rewrite blt_irrefl; auto.
    + destruct (blt (n_name p) (n_name q)) eqn:H1; auto. destruct (blt (n_name q) (n_name p)) eqn:H2; auto.
      destruct n. apply blt_incomparable; auto.
  - destruct (Z.ltb_spec (n_prio p) (n_prio q)); auto.
    destruct (Z.ltb_spec (n_prio q) (n_prio p)); auto. lia.
Qed.
Lemma swo_named : swo named_less.
Proof.
  assert (H : swo named_lex).
  { unfold named_lex. repeat apply swo_lex.
    - apply (swo_pull n_prio), swo_Z.
    - apply (swo_pull n_name), swo_blt.
    - apply (swo_pull n_index), swo_nat. }
  split; intros *; rewrite !named_less_lex; [apply (swo_asym H)|apply (swo_ntrans H)].
Qed.

(** ** The named tail *)
Lemma arg_name_spec x : arg_name x = match name_of_arg x with Some n => n | None => [] end.
Proof. destruct x; auto. destruct x1; auto. simpl. destruct (i_name i); auto. Qed.
Lemma arg_name_named x : arg_name x <> [] <-> named x.
Proof.
  rewrite arg_name_spec. unfold named. destruct x; simpl; try (split; congruence).
  destruct x1; simpl; try (split; congruence). destruct (i_name i); simpl; split; congruence.
Qed.
Lemma named_tail_spec l : let (h, t) := named_tail l in
  l = h ++ t /\ Forall named t /\ match rev h with [] => True | x :: _ => ~ named x end.
Proof.
  induction l as [|x l IH]; simpl; [auto|].
  destruct (named_tail l) as [h t]. destruct IH as (H1 & H2 & H3).
  destruct h as [|y h].
  - destruct (arg_name x) eqn:E.
    + split; [simpl in *; congruence|]. split; auto. simpl. rewrite <- arg_name_named, E. auto.
    + split; [simpl in *; congruence|]. split; [|exact I].
      constructor; auto. apply arg_name_named. congruence.
  - assert (G : x :: l = (x :: y :: h) ++ t /\ Forall named t /\
        match rev (x :: y :: h) with [] => True | z :: _ => ~ named z end).
    { split; [simpl; simpl in H1; congruence|]. split; auto.
      change (rev (x :: y :: h)) with (rev (y :: h) ++ [x]).
      destruct (rev (y :: h)) as [|z r] eqn:E.
      - apply (f_equal (@List.length expr)) in E. rewrite rev_length in E. discriminate.
      - simpl. auto. }
    destruct (arg_name x); exact G.
Qed.
Lemma named_tail_unique h t : Forall named t -> match rev h with [] => True | x :: _ => ~ named x end ->
  named_tail (h ++ t) = (h, t).
Proof.
  intros Ht Hh. induction h as [|x h IH].
  - clear Hh. simpl. induction Ht as [|x t Hx Ht IH]; auto. simpl. rewrite IH.
    apply arg_name_named in Hx. destruct (arg_name x); congruence.
  - simpl. destruct h as [|y h].
    + simpl in *. clear IH. 
      assert (named_tail t = ([], t)) as ->.
      { clear Hh. induction Ht as [|z t Hx Ht IH]; auto. simpl. rewrite IH.
        apply arg_name_named in Hx. destruct (arg_name z); congruence. }
      destruct (arg_name x) eqn:E; auto. destruct Hh. apply arg_name_named. congruence.
    + rewrite IH.
      * destruct (arg_name x); auto.
      * change (rev (x :: y :: h)) with (rev (y :: h) ++ [x]) in Hh.
        destruct (rev (y :: h)) as [|z r] eqn:E; auto.
Qed.

(** ** Arrangements *)
Lemma enum_from_nth {A} (l : list A) n p : In p (enum_from n l) -> nth_error l (fst p - n) = Some (snd p) /\ n <= fst p.
Proof.
  revert n. induction l as [|x l IH]; intros n; simpl; [tauto|].
  intros [<-|H]; simpl; [rewrite Nat.sub_diag; auto|].
  apply IH in H as [H1 H2]. split; [|lia].
  replace (fst p - n) with (S (fst p - S n)) by lia. auto.
Qed.
Lemma enum_from_fst {A} (l : list A) n : map fst (enum_from n l) = seq n (List.length l).
Proof. revert n. induction l; intros; simpl; auto. rewrite IHl; auto. Qed.
Lemma enum_from_snd {A} (l : list A) n : map snd (enum_from n l) = l.
Proof. revert n. induction l; intros; simpl; auto. rewrite IHl; auto. Qed.

Definition to_narg prio rule (p : nat * expr) : named_arg :=
  NArg (rule_name_priority prio rule (arg_name (snd p))) (arg_name (snd p)) (fst p) (snd p).
Lemma prio_of_spec prio rule name : prio_of prio rule name (rule_name_priority prio rule name).
Proof.
  unfold prio_of, rule_name_priority. change [c_dot] with %".".
  destruct (lookup _ prio); auto. right. split; auto. destruct (lookup name prio); auto.
Qed.
Lemma nargs_arranged prio rule t :
  let s := isort named_less (map (to_narg prio rule) (enum_from 0 t)) in
  arranged t (map n_index s) (map n_expr s) /\
  (Forall named t -> StronglySorted (arg_before prio rule t) (map n_index s)).
Proof.
  intros s.
  assert (Hp : Permutation s (map (to_narg prio rule) (enum_from 0 t))) by apply isort_perm.
  assert (Hin : forall k, In k s -> exists p, k = to_narg prio rule p /\ nth_error t (fst p) = Some (snd p)).
  { intros k Hk. apply (Permutation_in _ Hp) in Hk. apply in_map_iff in Hk as (p & <- & H).
    exists p. split; auto. apply enum_from_nth in H as [H _]. rewrite Nat.sub_0_r in H. auto. }
  split.
  - split.
    + rewrite (Permutation_map n_index Hp), map_map. cbn [to_narg n_index].
      rewrite <- (enum_from_fst t 0). reflexivity.
    + clear Hp. induction s as [|k s IH]; simpl; constructor.
      * destruct (Hin k) as (p & -> & H); [left; auto|]. auto.
      * apply IH. intros; apply Hin; right; auto.
  - intros Hn. pose proof (isort_swo_sorted named_less (map (to_narg prio rule) (enum_from 0 t)) swo_named) as Hs. fold s in Hs.
    assert (Hidx : NoDup (map n_index s)).
    { eapply Permutation_NoDup; [symmetry; apply (Permutation_map n_index Hp)|].
      rewrite map_map. cbn [to_narg n_index]. change (fun x : nat * expr => fst x) with (@fst nat expr).
      rewrite enum_from_fst. apply seq_NoDup. }
    clear Hp. induction Hs as [|k s' Hs IH Hf]; simpl; constructor.
    + apply IH; [intros; apply Hin; right; auto|inversion Hidx; auto].
    + rewrite Forall_forall in *. intros j Hj. apply in_map_iff in Hj as (k' & <- & Hk').
      destruct (Hin k) as ([i x] & -> & Hx); [left; auto|].
      destruct (Hin k') as ([j y] & -> & Hy); [right; auto|].
      specialize (Hf _ Hk'). cbn [to_narg n_index fst snd] in *.
      assert (Hnx : named x) by (apply Hn; eapply nth_error_In; eauto).
      assert (Hny : named y) by (apply Hn; eapply nth_error_In; eauto).
      assert (Hij : i <> j).
      { intros ->. simpl in Hidx. inversion_clear Hidx as [|? ? H1 _]. apply H1.
        change j with (n_index (to_narg prio rule (j, y))). apply in_map; auto. }
      unfold named in Hnx, Hny.
      destruct (name_of_arg x) as [n|] eqn:En; [|congruence].
      destruct (name_of_arg y) as [m|] eqn:Em; [|congruence].
      exists x, y, n, m, (rule_name_priority prio rule n), (rule_name_priority prio rule m).
      repeat split; auto; try apply prio_of_spec.
      unfold to_narg, named_less in Hf. cbn [n_prio n_name n_index fst snd] in Hf.
      rewrite !arg_name_spec, En, Em in Hf.
      destruct (Z.eqb_spec (rule_name_priority prio rule m) (rule_name_priority prio rule n)) as [E|ne]; cbn [negb] in Hf.
      * right. split; auto. destruct (beq_spec m n) as [Emn|ne]; cbn [negb] in Hf.
        -- right. split; auto. apply Nat.ltb_ge in Hf. lia.
        -- left. apply blt_before. destruct (blt n m) eqn:G; auto. destruct ne. apply blt_incomparable; auto.
      * left. apply Z.ltb_ge in Hf. lia.
Qed.

Lemma sort_named_spec prio rule args :
  let h := fst (named_tail args) in let t := snd (named_tail args) in
  sort_named prio rule args = h ++ map n_expr (isort named_less (map (to_narg prio rule) (enum_from 0 t))).
Proof.
  pose proof (named_tail_spec args) as H. unfold sort_named. destruct (named_tail args) as [h t].
  cbn [fst snd]. destruct H as (H1 & _ & _).
  change (fun p : nat * expr => NArg (rule_name_priority prio rule (arg_name (snd p))) (arg_name (snd p)) (fst p) (snd p)) with (to_narg prio rule).
  destruct (is_sorted named_less (map (to_narg prio rule) (enum_from 0 t))) eqn:E; auto.
  rewrite isort_sorted_id by (apply is_sorted_locally; auto).
  rewrite map_map. cbn [to_narg n_expr]. change (fun x : nat * expr => snd x) with (@snd nat expr). rewrite enum_from_snd. auto.
Qed.

(** Re-sorting: the order of keys without the index is enough. *)
Lemma sort_named_sorted_id prio rule h t :
  Forall named t -> match rev h with [] => True | x :: _ => ~ named x end ->
  StronglySorted (fun x y => named_less (to_narg prio rule (0, y)) (to_narg prio rule (0, x)) = false) t ->
  sort_named prio rule (h ++ t) = h ++ t.
Proof.
  intros Ht Hh Hs. rewrite sort_named_spec, named_tail_unique by auto. cbn [fst snd]. f_equal.
  rewrite isort_sorted_id.
  - rewrite map_map. cbn [to_narg n_expr]. change (fun x : nat * expr => snd x) with (@snd nat expr). apply enum_from_snd.
  - apply is_sorted_locally. clear Ht Hh. generalize 0 at 1. revert Hs. induction t as [|x t IH]; intros Hs n; auto.
    inversion_clear Hs as [|? ? Hs' Hf]. destruct t as [|y t]; auto.
    specialize (IH Hs' (S n)). cbn [enum_from map] in *. rewrite is_sorted_cons2, IH, andb_true_r.
    inversion_clear Hf as [|? ? Hxy _]. apply negb_true_iff. revert Hxy.
    unfold to_narg, named_less. cbn [n_prio n_name n_index fst snd].
    destruct (Z.eqb _ _); auto. destruct (beq _ _); auto. cbn [negb]. intros _. apply Nat.ltb_ge. lia.
Qed.
Lemma sort_named_idem prio rule args : sort_named prio rule (sort_named prio rule args) = sort_named prio rule args.
Proof.
  rewrite (sort_named_spec prio rule args). cbv zeta.
  pose proof (named_tail_spec args) as H. destruct (named_tail args) as [h t]. destruct H as (H1 & H2 & H3). cbn [fst snd].
  pose proof (isort_swo_sorted named_less (map (to_narg prio rule) (enum_from 0 t)) swo_named) as Hs.
  assert (Hp := isort_perm named_less (map (to_narg prio rule) (enum_from 0 t))).
  assert (Hk : Forall (fun k => k = to_narg prio rule (n_index k, n_expr k)) (isort named_less (map (to_narg prio rule) (enum_from 0 t)))).
  { apply Forall_forall. intros k Hk. apply (Permutation_in _ Hp) in Hk. apply in_map_iff in Hk as ([i x] & <- & _). reflexivity. }
  apply sort_named_sorted_id; auto.
  - apply Forall_forall. intros x Hx. apply in_map_iff in Hx as (k & <- & Hin).
    apply (Permutation_in _ Hp) in Hin. apply in_map_iff in Hin as (p & <- & Hin). cbn [to_narg n_expr].
    rewrite Forall_forall in H2. apply H2. rewrite <- (enum_from_snd t 0). apply in_map; auto.
  - clear - Hs Hk. induction Hs as [|k s Hs IH Hf]; cbn [map]; constructor.
    + apply IH. inversion Hk; auto.
    + inversion_clear Hk as [|? ? Hk1 Hk2]. rewrite Forall_forall in *. intros y Hy.
      apply in_map_iff in Hy as (k' & <- & Hk'). specialize (Hf _ Hk'). rewrite Hk1, (Hk2 _ Hk') in Hf.
      revert Hf. unfold to_narg, named_less. cbn [n_prio n_name n_index n_expr fst snd].
      destruct (Z.eqb _ _); auto. destruct (beq _ _); auto.
Qed.

(** ** reorderArguments *)
Lemma reorder_isort l : reorder_args l = isort arg_less l.
Proof. apply sorted_or_isort. Qed.
Lemma swo_arg_less : swo arg_less.
Proof. apply (swo_pull argument_type), swo_nat. Qed.
(** Stability of insertion sort: elements of one class keep their order. *)
Lemma insert_filter {A} (less : A -> A -> bool) (P : A -> bool) x l :
  (forall a b, P a = true -> P b = true -> less a b = false) ->
  filter P (insert less x l) = filter P (x :: l).
Proof.
  intros H. induction l as [|y l IH]; auto. cbn [insert].
  destruct (less y x) eqn:E; auto. cbn [filter] in *. rewrite IH.
  destruct (P y) eqn:Ey, (P x) eqn:Ex; auto. rewrite (H y x Ey Ex) in E. discriminate.
Qed.
Lemma isort_filter {A} (less : A -> A -> bool) (P : A -> bool) l :
  (forall a b, P a = true -> P b = true -> less a b = false) ->
  filter P (isort less l) = filter P l.
Proof.
  intros H. induction l as [|x l IH]; auto. cbn [isort]. rewrite insert_filter by auto. cbn [filter]. rewrite IH. auto.
Qed.
Definition class_rank (c : arg_class) : nat :=
  match c with Positional => 1 | Named => 2 | Star => 3 | DoubleStar => 4 end.
Lemma argument_type_class e : argument_type e = class_rank (class_of e).
Proof. destruct e; auto. cbn [argument_type class_of]. destruct (beq op %"**"); auto. destruct (beq op %"*"); auto. Qed.
(** A list sorted by a four-valued key is the concatenation of its classes. *)
Lemma sorted_by_class l :
  StronglySorted (fun x y => arg_less y x = false) l ->
  l = filter (fun x => class_eqb (class_of x) Positional) l ++
      filter (fun x => class_eqb (class_of x) Named) l ++
      filter (fun x => class_eqb (class_of x) Star) l ++
      filter (fun x => class_eqb (class_of x) DoubleStar) l.
Proof.
  induction 1 as [|x l Hs IH Hf]; auto.
  assert (Hge : forall y, In y l -> class_rank (class_of x) <= class_rank (class_of y)).
  { intros y Hy. rewrite Forall_forall in Hf. specialize (Hf y Hy). unfold arg_less in Hf.
    rewrite !argument_type_class in Hf. apply Nat.ltb_ge in Hf. auto. }
  assert (Hnil : forall c, class_rank c < class_rank (class_of x) -> filter (fun y => class_eqb (class_of y) c) l = []).
  { intros c Hc. destruct (filter (fun y => class_eqb (class_of y) c) l) as [|z r] eqn:E; auto. exfalso.
    assert (In z (filter (fun y => class_eqb (class_of y) c) l)) by (rewrite E; left; auto).
    apply filter_In in H as [H1 H2]. apply Hge in H1. destruct (class_of z), c, (class_of x); simpl in *; try discriminate; lia. }
  cbn [filter].
  destruct (class_of x) eqn:Ex; cbn [class_eqb class_rank] in *.
  - cbn [app]. congruence.
  - rewrite (Hnil Positional) by auto. rewrite (Hnil Positional) in IH by auto. cbn [app] in *. congruence.
  - rewrite (Hnil Positional), (Hnil Named) by auto. rewrite (Hnil Positional), (Hnil Named) in IH by auto. cbn [app] in *. congruence.
  - rewrite (Hnil Positional), (Hnil Named), (Hnil Star) by auto. rewrite (Hnil Positional), (Hnil Named), (Hnil Star) in IH by auto. cbn [app] in *. congruence.
Qed.
Lemma reorder_classes l :
  reorder_args l =
      filter (fun x => class_eqb (class_of x) Positional) l ++
      filter (fun x => class_eqb (class_of x) Named) l ++
      filter (fun x => class_eqb (class_of x) Star) l ++
      filter (fun x => class_eqb (class_of x) DoubleStar) l.
Proof.
  rewrite reorder_isort. rewrite (sorted_by_class (isort arg_less l)) by (apply isort_swo_sorted, swo_arg_less).
  assert (G : forall c, filter (fun x => class_eqb (class_of x) c) (isort arg_less l) = filter (fun x => class_eqb (class_of x) c) l).
  { intros c. apply isort_filter. intros a b Ha Hb. unfold arg_less. rewrite !argument_type_class.
    apply Nat.ltb_ge. destruct (class_of a), (class_of b), c; simpl in *; try discriminate; lia. }
  rewrite !G. auto.
Qed.

(** ** Comments and callee names *)
Lemma contains_spec sub s : contains sub s = true <-> exists pre post, s = pre ++ sub ++ post.
Proof.
  induction s as [|c s IH]; cbn [contains]; rewrite orb_true_iff.
  - rewrite has_prefix_spec. split.
    + intros [[t H]|]; [|discriminate]. exists [], t. auto.
    + intros (pre & post & H). left. destruct pre; [exists post; auto|discriminate].
  - rewrite has_prefix_spec, IH. split.
    + intros [[t H]|(pre & post & ->)]; [exists [], t; auto|exists (c :: pre), post; auto].
    + intros ([|d pre] & post & H); [left; exists post; auto|right]. injection H as -> ->. exists pre, post. auto.
Qed.
Lemma has_comment_spec text e : has_comment text e = true <-> marked text e.
Proof.
  unfold has_comment, marked. rewrite existsb_exists. split.
  - intros (c & Hin & H). apply contains_spec in H as (pre & post & H). exists c, pre, post. split; auto.
    rewrite !in_app_iff in *. tauto.
  - intros (c & pre & post & Hin & H). exists c. split; [rewrite !in_app_iff in *; tauto|].
    apply contains_spec. exists pre, post; auto.
Qed.
Lemma leave_alone_spec stk e : leave_alone stk e = true <-> left_alone stk e.
Proof.
  unfold leave_alone, left_alone. rewrite orb_true_iff, existsb_exists. unfold leave_alone1. split.
  - intros [(x & H1 & H2)|H]; [exists x|exists e]; rewrite in_app_iff; split; try (apply has_comment_spec; auto); simpl; auto.
  - intros (x & Hin & H). apply has_comment_spec in H. apply in_app_iff in Hin as [Hin|[->|[]]]; eauto.
Qed.
Lemma join_snoc l n : l <> [] -> join [c_dot] (l ++ [n]) = join [c_dot] l ++ %"." ++ n.
Proof.
  intros H. induction l as [|a l IH]; [congruence|]. destruct l as [|b l]; auto.
  assert (E : b :: l <> []) by congruence. specialize (IH E). simpl app in *. cbn [join] in *.
  rewrite IH. rewrite <- !app_assoc. auto.
Qed.
Lemma dotted_spec : forall x n, callee_name x n <-> exists l, dotted x = Some l /\ l <> [] /\ join [c_dot] l = n.
Proof.
  fix IH 1. intros x n. destruct x;
    try (split; [inversion 1|intros (? & ? & ?); discriminate]).
  - split.
    + inversion 1; subst. exists [i_name i]. repeat split; auto. discriminate.
    + intros (l & H & _ & <-). injection H as <-. constructor.
  - split.
    + inversion 1; subst. match goal with H : callee_name x _ |- _ => apply IH in H as (l & H1 & H2 & <-) end.
      simpl. rewrite H1. exists (l ++ [name]). repeat split; auto; [destruct l; discriminate|]. apply join_snoc; auto.
    + simpl. destruct (dotted x) as [l|] eqn:E; intros (l' & H1 & H2 & <-); [|discriminate].
      injection H1 as <-. assert (Hl : l <> []).
      { clear -E. destruct x; try discriminate E; simpl in E; [injection E as <-; discriminate|].
        destruct (dotted x); [|discriminate]. injection E as <-. destruct l0; discriminate. }
      rewrite join_snoc by auto. constructor. apply IH. eauto.
Qed.
Lemma rule_of_spec x : rule_of x (match kind_of x with [] => %"<complex rule kind>" | r => r end).
Proof.
  unfold rule_of, kind_of. destruct (dotted x) as [l|] eqn:E.
  - destruct (join [c_dot] l) as [|c r] eqn:J.
    + right. split; auto. intros n Hn. apply dotted_spec in Hn as (l' & H1 & _ & <-). congruence.
    + left. split; [|discriminate]. apply dotted_spec. exists l. repeat split; auto. intros ->. discriminate.
  - right. split; auto. intros n Hn. apply dotted_spec in Hn as (l' & H1 & _). congruence.
Qed.

(** ** The walks *)
Lemma height_perm_args c x p l l' e k m c' p' e' k' m' : Permutation l l' ->
  height (ECall c x p l e k m) = height (ECall c' x p' l' e' k' m').
Proof.
  intros H. rewrite !height_unfold. unfold children, fold_children. simpl. f_equal. f_equal.
  rewrite !map_id. induction H; simpl; try lia.
Qed.
Lemma sort_named_perm prio rule l : Permutation (sort_named prio rule l) l.
Proof.
  rewrite sort_named_spec. pose proof (named_tail_spec l) as H. destruct (named_tail l) as [h t]. destruct H as (-> & _). cbn [fst snd].
  apply Permutation_app_head. etransitivity; [apply Permutation_map, isort_perm|].
  rewrite map_map. cbn [to_narg n_expr]. change (fun x : nat * expr => snd x) with (@snd nat expr). rewrite enum_from_snd. auto.
Qed.
Lemma callsort_height w stk e : height (callsort_node w stk e) <= height e.
Proof.
  destruct e; auto. unfold callsort_node. destruct (leave_alone _ _); auto.
  apply Nat.eq_le_incl, height_perm_args, sort_named_perm.
Qed.
Lemma reorder_height stk e : height (reorder_node stk e) <= height e.
Proof.
  destruct e; auto. unfold reorder_node. rewrite reorder_isort.
  apply Nat.eq_le_incl, height_perm_args, isort_perm.
Qed.
Lemma callsort_kind w : cb_kind (callsort_node w).
Proof. split; intros; eexists; reflexivity. Qed.
Lemma reorder_kind : cb_kind reorder_node.
Proof. split; intros; eexists; reflexivity. Qed.
Lemma enum_from_map {A B} (g : A -> B) l : forall n, enum_from n (map g l) = map (fun p => (fst p, g (snd p))) (enum_from n l).
Proof. induction l; intros; simpl; auto. rewrite IHl. auto. Qed.
Lemma isort_map {A B} (f : A -> B) lessA lessB l :
  (forall x y, lessB (f x) (f y) = lessA x y) -> isort lessB (map f l) = map f (isort lessA l).
Proof.
  intros H. induction l as [|x l IH]; simpl; auto. rewrite IH. generalize (isort lessA l) as s.
  induction s as [|y s IHs]; simpl; auto. rewrite H. destruct (lessA y x); simpl; auto. rewrite IHs; auto.
Qed.
Lemma named_tail_map g l : (forall x, arg_name (g x) = arg_name x) ->
  named_tail (map g l) = (map g (fst (named_tail l)), map g (snd (named_tail l))).
Proof.
  intros H. induction l as [|x l IH]; simpl; auto. rewrite IH, H.
  destruct (named_tail l) as [[|y h] t]; simpl; destruct (arg_name x); auto.
Qed.
Lemma sort_named_map prio rule g l : (forall x, arg_name (g x) = arg_name x) ->
  sort_named prio rule (map g l) = map g (sort_named prio rule l).
Proof.
  intros H. rewrite !sort_named_spec. cbv zeta. rewrite named_tail_map by auto. cbn [fst snd].
  rewrite map_app. f_equal. rewrite enum_from_map, map_map.
  set (G := fun k => NArg (n_prio k) (n_name k) (n_index k) (g (n_expr k))).
  rewrite (map_ext _ (fun p => G (to_narg prio rule p))).
  - rewrite <- (map_map (to_narg prio rule) G). rewrite (isort_map G named_less) by auto. rewrite !map_map. auto.
  - intros [i x]. unfold to_narg, G; simpl. rewrite H. auto.
Qed.
Lemma callsort_keeps w : forall e stk,
  arg_name (Edit_from (callsort_node w) stk e) = arg_name e /\
  dotted (Edit_from (callsort_node w) stk e) = dotted e.
Proof.
  fix IH 1. intros e stk. rewrite Edit_from_unfold by apply callsort_height.
  destruct e; try (split; reflexivity).
  - unfold callsort_node. destruct (leave_alone _ _); split; reflexivity.
  - cbn [callsort_node map_children arg_name dotted]. split; auto. rewrite (proj2 (IH e _)). auto.
  - cbn [callsort_node map_children arg_name dotted]. split; auto.
    rewrite Edit_from_unfold by apply callsort_height. destruct e1; auto.
    unfold callsort_node. destruct (leave_alone _ _); reflexivity.
Qed.
Lemma existsb_map {A B} (f : A -> B) (g : B -> bool) l : existsb g (map f l) = existsb (fun x => g (f x)) l.
Proof. induction l; simpl; auto. rewrite IHl; auto. Qed.
Lemma leave_alone_com stk stk' e e' : map com stk = map com stk' -> com e = com e' -> leave_alone stk e = leave_alone stk' e'.
Proof.
  intros H1 H2. unfold leave_alone.
  set (h := fun c => existsb (fun k => contains %"buildifier: leave-alone" (to_lower (c_tok k))) (c_before c ++ c_after c ++ c_suffix c)).
  assert (E : forall x, leave_alone1 x = h (com x)) by reflexivity.
  rewrite !E, H2. f_equal.
  transitivity (existsb h (map com stk)); [rewrite existsb_map; reflexivity|].
  rewrite H1, existsb_map. reflexivity.
Qed.
Lemma callsort_stk w stk stk' e : map com stk = map com stk' -> callsort_node w stk e = callsort_node w stk' e.
Proof. intros H. destruct e; auto. unfold callsort_node. rewrite (leave_alone_com stk stk' _ _ H eq_refl). auto. Qed.
Lemma callsort_com w stk e : com (callsort_node w stk e) = com e.
Proof. destruct e; auto. unfold callsort_node. destruct (leave_alone _ _); auto. Qed.
Lemma callsort_again w stk g e : (forall x, arg_name (g x) = arg_name x) -> (forall x, dotted (g x) = dotted x) ->
  callsort_node w stk (map_children g (callsort_node w stk e)) = map_children g (callsort_node w stk e).
Proof.
  intros H1 H2. destruct e; try reflexivity.
  cbn [callsort_node]. destruct (leave_alone stk (ECall c e lstart args e0 compact multi)) eqn:L; cbn [map_children callsort_node];
    rewrite (leave_alone_com stk stk _ (ECall c e lstart args e0 compact multi)), L; auto.
  f_equal. unfold kind_of. rewrite H2, sort_named_map by auto. rewrite sort_named_idem. auto.
Qed.
Lemma callsort_idem w e stk : Edit_from (callsort_node w) stk (Edit_from (callsort_node w) stk e) = Edit_from (callsort_node w) stk e.
Proof.
  apply Edit_idem.
  - apply callsort_height.
  - apply callsort_kind.
  - intros; apply callsort_stk; auto.
  - apply callsort_com.
  - clear. intros stk e. rewrite Edit_from_unfold by apply callsort_height.
    apply callsort_again; intros; apply callsort_keeps.
Qed.
(** reorderArguments *)
Lemma reorder_class g l : (forall x, class_of (g x) = class_of x) -> reorder_args (map g l) = map g (reorder_args l).
Proof.
  intros H. rewrite !reorder_isort. apply isort_map. intros. unfold arg_less. rewrite !argument_type_class, !H. auto.
Qed.
Lemma reorder_idem_args l : reorder_args (reorder_args l) = reorder_args l.
Proof. rewrite !reorder_isort. apply isort_idem, (swo_asym swo_arg_less). Qed.

Lemma reorder_keeps : forall e stk, class_of (Edit_from reorder_node stk e) = class_of e.
Proof. intros e stk. rewrite Edit_from_unfold by apply reorder_height. destruct e; reflexivity. Qed.
Lemma reorder_idem e stk : Edit_from reorder_node stk (Edit_from reorder_node stk e) = Edit_from reorder_node stk e.
Proof.
  apply Edit_idem; auto.
  - apply reorder_height.
  - apply reorder_kind.
  - intros ? []; auto.
  - clear. intros stk e. rewrite Edit_from_unfold by apply reorder_height.
    destruct e; try reflexivity. cbn [reorder_node map_children].
    rewrite reorder_class by (intros; apply reorder_keeps). rewrite reorder_idem_args. auto.
Qed.
