(** Properties C16 - C21: load statements. *)
From Verif Require Import Base BaseProofs Order Ast Walk WalkSpec WalkProofs WalkGen Labels StrList StrListSpec StrListProofs Rewrite CallSpec CallProofs ListRwSpec Loads LoadsSpec LoadsProofs LoadsOrder.

(** Looking for a comment anywhere in a file. *)
Lemma comment_anywhere_spec f text : is_comment_anywhere f text = true <-> exists x, within f x /\ marked text x.
Proof.
  unfold is_comment_anywhere, WalkInterruptable. split.
  - intros H. apply existsb_exists in H as ([x stk'] & Hin & Hc). exists x. split; [|apply has_comment_spec; auto]. clear Hc.
    cbn [fst] in *. revert Hin. generalize (@nil expr) as stk. revert x stk'.
    induction f as [f IH] using expr_children_ind. intros x stk' stk Hin. rewrite visit_unfold in Hin.
    destruct Hin as [E|Hin]; [injection E as <- <-; constructor|].
    destruct (has_comment text f); [destruct Hin|].
    apply in_flat_map in Hin as (c & Hc & Hx).
    specialize (IH c Hc _ _ _ Hx). clear Hx. induction IH as [|x y Hx IHx Hy]; [eapply within_child; [constructor|auto]|eapply within_child; eauto].
  - intros (x & Hw & Hm).
    assert (G : forall stk, existsb (fun p => has_comment text (fst p)) (visit (fun e _ => has_comment text e) stk f) = true); auto.
    assert (W : forall f x, within f x -> f = x \/ exists c, In c (children f) /\ within c x).
    { clear. induction 1 as [|x c Hx [->|(d & Hd & Hw)] Hc]; auto.
      - right. exists c. split; auto. constructor.
      - right. exists d. split; auto. eapply within_child; eauto. }
    revert Hw. induction f as [f IH] using expr_children_ind. intros Hw stk. rewrite visit_unfold.
    cbn [existsb fst]. destruct (has_comment text f) eqn:E; auto. cbn [orb].
    destruct (W _ _ Hw) as [->|(c & Hc & Hw')]; [apply has_comment_spec in Hm; congruence|].
    specialize (IH c Hc Hw' (stk ++ [f])). apply existsb_exists in IH as (p & Hp & Hh). apply existsb_exists. exists p. split; auto.
    apply in_flat_map. exists c. auto.
Qed.

(** C16 *)
Theorem C16_loads_on_top :
  forall c m l,
    (f_type m = TypeWorkspace \/ (exists x, within (EFile c m l) x /\ marked %"disable=load-on-top" x) ->
       moveLoadOnTop (EFile c m l) = Some (EFile c m l)) /\
    (f_type m <> TypeWorkspace -> (forall x, within (EFile c m l) x -> ~ marked %"disable=load-on-top" x) ->
       exists l', moveLoadOnTop (EFile c m l) = Some (EFile c m l') /\ loads_first l l').
Proof.
  intros c m l. cbn [moveLoadOnTop]. pose proof (comment_anywhere_spec (EFile c m l) %"disable=load-on-top") as S.
  destruct (is_comment_anywhere (EFile c m l) %"disable=load-on-top").
  - split; [intros _; destruct (f_type m); auto|]. intros _ H. destruct (proj1 S eq_refl) as (x & H1 & H2). destruct (H x H1 H2).
  - split.
    + intros [->|H]; auto. apply S in H. discriminate.
    + intros H _. destruct (move_loads_first l) as (l' & E & F). exists l'. rewrite E. split; auto.
      destruct (f_type m); auto. contradiction.
Qed.
Print Assumptions C16_loads_on_top.
(** No index goes out of range. *)
Theorem C16_no_panic : forall f, moveLoadOnTop f <> None.
Proof.
  intros f. destruct f; try discriminate. cbn [moveLoadOnTop].
  destruct (move_loads_first stmts) as (l' & E & _). rewrite E. destruct (f_type m); try discriminate; destruct (is_comment_anywhere _ _); discriminate.
Qed.
Print Assumptions C16_no_panic.
Theorem C16_idempotent : forall l l', move_loads l = Some l' -> move_loads l' = Some l'.
Proof.
  intros l l' H. destruct (move_loads_eq l) as (lead & rest & -> & H1 & H2 & E). rewrite E in H. injection H as <-.
  set (a := filter is_load_stmt rest). set (b := filter (fun s => negb (is_load_stmt s)) rest).
  assert (Fa : Forall (fun s => is_load_stmt s || is_skipped s = true) (lead ++ a)).
  { apply Forall_app. split; auto. apply Forall_forall. intros s Hs. apply filter_In in Hs as [_ ->]. reflexivity. }
  assert (Fb : filter is_load_stmt b = []).
  { unfold b. clear. induction rest as [|s r IH]; simpl; auto. destruct (is_load_stmt s) eqn:E; simpl; auto. rewrite E. auto. }
  unfold move_loads. rewrite app_assoc, find_lead by auto.
  assert (G : forall first i, exists first', find_misplaced i first [] b = (first', [])).
  { clear -Fb. induction b as [|s r IH]; intros first i; simpl; [eauto|]. simpl in Fb.
    destruct (is_load_stmt s) eqn:E; [discriminate|]. destruct (is_skipped s); apply IH; auto. }
  destruct (G None (0 + List.length (lead ++ a))) as (first' & ->). reflexivity.
Qed.
Print Assumptions C16_idempotent.
Definition mk_load (m : bytes) (syms : list (bytes * bytes)) : option expr :=
  Some (ELoad no_com no_pos (Str no_com no_pos m false no_pos []) (map (fun p => Ident no_com no_pos (fst p)) syms)
          (map (fun p => Ident no_com no_pos (snd p)) syms) (End no_com no_pos) false).
Definition mk_stmt (n : bytes) : option expr := Some (ECall no_com (EIdent (Ident no_com no_pos n)) no_pos [] (End no_com no_pos) false false).
Example C16_nontrivial :
  let doc := Some (EStr (Str no_com no_pos %"doc" true no_pos [])) in
  let l1 := mk_load %"a" [] in let l2 := mk_load %"b" [] in let l3 := mk_load %"c" [] in
  move_loads [doc; l1; mk_stmt %"x"; l2; mk_stmt %"y"; doc; l3; mk_stmt %"z"] =
  Some [doc; l1; l2; l3; mk_stmt %"x"; mk_stmt %"y"; doc; mk_stmt %"z"].
Proof. reflexivity. Qed.

(** C17: the bindings are kept, statements stay where they are, and what disappears is a later
    load of a module. *)
Theorem C17_bindings_kept :
  forall l, Forall loads_balanced l -> Permutation (bindings (compress_loads l)) (bindings l).
Proof.
  intros l H. destruct (compress_spec l H) as (loads & (_ & _ & _ & _ & _ & P) & L). rewrite L, firstn_all in P.
  assert (G : forall l, bindings l = map (fun p => (fst p, i_name (fst (snd p)), i_name (snd (snd p)))) (full_bindings l)).
  { clear. induction l as [|s l IH]; auto. unfold bindings, full_bindings in *. cbn [flat_map]. rewrite map_app, <- IH. f_equal.
    destruct s as [e|]; auto. destruct e; auto. cbn. rewrite map_map. reflexivity. }
  rewrite !G. apply Permutation_map, P.
Qed.
Print Assumptions C17_bindings_kept.
Theorem C17_statements_kept :
  forall l, Forall loads_balanced l ->
    List.length (compress_loads l) = List.length l /\
    forall i s', nth_error (compress_loads l) i = Some s' -> exists s, nth_error l i = Some s /\ merged_stmt l i s s'.
Proof. intros l H. destruct (compress_spec l H) as (loads & (I1 & _) & L). auto. Qed.
Print Assumptions C17_statements_kept.
(** One load per module remains, apart from exempted ones, unless the first load of the module is
    exempted. *)
Theorem C17_one_load_per_module_partial :
  forall l, Forall loads_balanced l ->
    forall i j s t m, i < j -> nth_error (compress_loads l) i = Some s -> nth_error (compress_loads l) j = Some t ->
      loads_module s m -> loads_module t m ->
      exempt s \/ exempt t \/ exists k o, first_load l m k /\ nth_error l k = Some o /\ exempt o.
Proof.
  intros l H i j s t m Hij Hi Hj Ms Mt. destruct (compress_spec l H) as (loads & (_ & I2 & _ & I4 & _) & _).
  destruct (I4 _ _ _ Hi Ms) as (k & o & E1 & E2 & E3). destruct (I4 _ _ _ Hj Mt) as (k' & o' & E1' & E2' & E3').
  assert (k' = k) by congruence. subst k'. assert (o' = o) by congruence. subst o'. destruct (I2 _ _ E1) as [F _].
  assert (Q : exempt o -> exempt s \/ exempt t \/ exists k o, first_load l m k /\ nth_error l k = Some o /\ exempt o) by (intros; right; right; exists k, o; auto).
  destruct E3 as [->|[E3|E3]]; auto. destruct E3' as [->|[E3'|E3']]; auto. lia.
Qed.
Print Assumptions C17_one_load_per_module_partial.
Definition exempt_load (m : bytes) (syms : list (bytes * bytes)) : option expr :=
  option_map (set_com (Comments [Comment no_pos %"# buildifier: disable=same-origin-load"] [] [])) (mk_load m syms).
(** Without the proviso the claim fails. *)
Theorem C17_one_load_per_module_refuted :
  exists l i j s t m, Forall loads_balanced l /\ i < j /\
    nth_error (compress_loads l) i = Some s /\ nth_error (compress_loads l) j = Some t /\
    loads_module s m /\ loads_module t m /\ ~ exempt s /\ ~ exempt t.
Proof.
  exists [exempt_load %"m" [(%"a", %"a")]; mk_load %"m" [(%"b", %"b")]; mk_load %"m" [(%"c", %"c")]], 1, 2.
  exists (mk_load %"m" [(%"b", %"b")]), (mk_load %"m" [(%"c", %"c")]), %"m".
  assert (N : forall s, ~ exempt (mk_load %"m" s)).
  { intros s (e & [= <-] & (c & pre & post & [] & _)). }
  split; [repeat constructor|]. split; [lia|]. split; [reflexivity|]. split; [reflexivity|]. split; [repeat eexists|]. split; [repeat eexists|]. split; apply N.
Qed.
Print Assumptions C17_one_load_per_module_refuted.
Example C17_nontrivial :
  let l := [mk_load %"m" [(%"a", %"a")]; mk_stmt %"x"; mk_load %"n" [(%"a", %"d")]; mk_load %"m" [(%"b", %"c")]] in
  compress_loads l = [mk_load %"m" [(%"a", %"a"); (%"b", %"c")]; mk_stmt %"x"; mk_load %"n" [(%"a", %"d")]; None] /\ Forall loads_balanced l.
Proof. split; [reflexivity|repeat constructor]. Qed.

(** C18: the comments of loaded symbols survive with the symbols; the comments of every statement
    that stays survive; so nothing is lost if the later loads of a module carry no comments. *)
Theorem C18_symbol_comments_kept :
  forall l, Forall loads_balanced l -> Permutation (full_bindings (compress_loads l)) (full_bindings l).
Proof.
  intros l H. destruct (compress_spec l H) as (loads & (_ & _ & _ & _ & _ & P) & L). rewrite L, firstn_all in P. auto.
Qed.
Print Assumptions C18_symbol_comments_kept.
Theorem C18_statement_comments_partial :
  forall l, Forall loads_balanced l ->
    (forall i s m k, nth_error l i = Some s -> loads_module s m -> first_load l m k -> k < i -> stmt_comments s = []) ->
    map stmt_comments (compress_loads l) = map stmt_comments l.
Proof.
  intros l H Hc. destruct (compress_spec l H) as (loads & (I1 & _) & L).
  assert (E : forall i, nth_error (map stmt_comments (compress_loads l)) i = nth_error (map stmt_comments l) i).
  { intros i. rewrite !nth_error_map. destruct (nth_error (compress_loads l) i) as [s'|] eqn:E.
    - destruct (I1 _ _ E) as (s & Hs & [[U _]|(-> & m & j & s0 & M & F & Hj & _)]).
      + rewrite Hs. cbn. f_equal. destruct s' as [e'|], s as [e|]; auto; try (destruct e' || destruct e; discriminate); try (destruct e; discriminate).
        destruct e', e; try discriminate; auto. cbn in U. inversion U; subst. reflexivity.
      + rewrite Hs. cbn. f_equal. symmetry. eapply Hc; eauto.
    - apply nth_error_None in E. rewrite L in E. apply nth_error_None in E. rewrite E. auto. }
  revert E. generalize (map stmt_comments (compress_loads l)), (map stmt_comments l). clear.
  induction l as [|x l IH]; intros [|y l'] E; auto; try (specialize (E 0); discriminate).
  f_equal; [specialize (E 0); injection E; auto|apply IH; intros i; exact (E (S i))].
Qed.
Print Assumptions C18_statement_comments_partial.
Theorem C18_statement_comments_refuted :
  exists l s c, In s l /\ In c (stmt_comments s) /\ forall s', In s' (compress_loads l) -> ~ In c (stmt_comments s').
Proof.
  exists [mk_load %"m" [(%"a", %"a")]; option_map (set_com (Comments [Comment no_pos %"# needed for x"] [] [])) (mk_load %"m" [(%"b", %"b")])].
  eexists. exists (Comment no_pos %"# needed for x"). split; [right; left; reflexivity|]. split; [left; reflexivity|].
  intros s' [<-|[<-|[]]]; cbn; auto.
Qed.
Print Assumptions C18_statement_comments_refuted.

(** C19: the order of module labels is not a strict weak order ... *)
Theorem C19_strict_weak_order_refuted :
  ~ forall a b c, compare_load_labels a b = false -> compare_load_labels b c = false -> compare_load_labels a c = false.
Proof. intros H. specialize (H %"//A/b:x" %"//a:x" %"//A/c:x" eq_refl eq_refl). vm_compute in H. discriminate. Qed.
Print Assumptions C19_strict_weak_order_refuted.
(** ... it is one on every set of labels in which no two path components differ only in case; two
    labels are then tied only if they denote the same target. *)
Theorem C19_strict_weak_order_partial :
  forall ms, case_consistent (packages_of ms) -> case_consistent (targets_of ms) ->
    (forall a b, In a ms -> In b ms -> compare_load_labels a b = true -> compare_load_labels b a = false) /\
    (forall a b c, In a ms -> In b ms -> In c ms ->
       compare_load_labels a b = false -> compare_load_labels b c = false -> compare_load_labels a c = false) /\
    (forall a b, In a ms -> In b ms -> compare_load_labels a b = false -> compare_load_labels b a = false -> sort_label a = sort_label b).
Proof.
  intros ms C1 C2. repeat split; intros *; intros.
  - rewrite (compare_labels_lt ms) in * by auto. apply (swo_asym swo_mod); auto.
  - rewrite (compare_labels_lt ms) in * by auto. eapply (swo_ntrans swo_mod); eauto.
  - rewrite !(compare_labels_lt ms) in * by auto. eapply mod_incomparable; eauto.
Qed.
Print Assumptions C19_strict_weak_order_partial.
(** Then the sorted modules do not depend on the initial order. *)
Theorem C19_result_unique_partial :
  forall ms l1 l2,
    case_consistent (packages_of ms) -> case_consistent (targets_of ms) ->
    (forall a b, In a ms -> In b ms -> sort_label a = sort_label b -> a = b) ->
    Permutation l1 ms -> Permutation l2 ms ->
    StronglySorted (fun a b => compare_load_labels b a = false) l1 ->
    StronglySorted (fun a b => compare_load_labels b a = false) l2 -> l1 = l2.
Proof.
  intros ms l1 l2 C1 C2 Hi P1 P2 S1 S2.
  destruct (C19_strict_weak_order_partial ms C1 C2) as (_ & _ & U).
  assert (G : forall l, Permutation l ms -> StronglySorted (fun a b => compare_load_labels b a = false) l ->
     StronglySorted (fun a b => In a ms /\ In b ms /\ compare_load_labels b a = false) l).
  { intros l P S. assert (I : incl l ms) by (intros x Hx; eapply Permutation_in; eauto). clear P.
    induction S as [|x l S IH F]; constructor.
    - apply IH. intros y Hy. apply I; right; auto.
    - rewrite Forall_forall in *. intros y Hy. repeat split; auto; apply I; [left|right]; auto. }
  apply (sorted_perm_unique (fun a b => In a ms /\ In b ms /\ compare_load_labels b a = false)); auto.
  - intros a b (Ha & Hb & H1) (_ & _ & H2). apply Hi; auto.
  - rewrite P1, P2. auto.
Qed.
Print Assumptions C19_result_unique_partial.
Example C19_nontrivial :
  let ms := [%"@r//a:b"; %"//a/b:c"; %"//a:z"; %":rel"; %"//:top"] in
  isort compare_load_labels ms = [%"@r//a:b"; %"//:top"; %"//a:z"; %"//a/b:c"; %":rel"] /\
  case_consistent (packages_of ms).
Proof.
  split; [reflexivity|]. intros p q x y (m & Hm & ->) (m' & Hm' & ->) Hx Hy.
  repeat (destruct Hm as [<-|Hm]); try destruct Hm; vm_compute in Hx;
  repeat (destruct Hx as [<-|Hx]); try destruct Hx;
  repeat (destruct Hm' as [<-|Hm']); try destruct Hm'; vm_compute in Hy;
  repeat (destruct Hy as [<-|Hy]); try destruct Hy; vm_compute; auto; discriminate.
Qed.

(** C20: each maximal run of loads is rearranged in place (and sorted, if its labels are well
    behaved); everything else stays at its index. *)
Definition run_sorted (run run' : list expr) : Prop :=
  Permutation run' run /\
  (case_consistent (packages_of (map load_module run)) -> case_consistent (targets_of (map load_module run)) ->
   StronglySorted (fun a b => compare_load_labels (load_module b) (load_module a) = false) run').
Theorem C20_runs_permuted :
  forall srt l, sorts srt -> exists l', sort_loads srt l = Some l' /\ chunk_perm run_sorted [] [] l l'.
Proof.
  intros srt l Hs. destruct (sort_loads_spec srt l Hs) as (l' & E & C). exists l'. split; auto.
  eapply chunk_perm_mono; [|exact C]. cbv beta. intros r r' ->. split; [apply (srt_perm srt Hs)|].
  intros C1 C2. destruct (C19_strict_weak_order_partial _ C1 C2) as (W1 & W2 & _).
  apply (srt_sorted srt Hs).
  - intros x y Hx Hy. apply W1; apply in_map; auto.
  - intros x y z Hx Hy Hz. apply W2; apply in_map; auto.
Qed.
Print Assumptions C20_runs_permuted.
Theorem C20_disabled :
  forall srt c m l, (exists x, within (EFile c m l) x /\ marked %"disable=out-of-order-load" x) ->
    sortLoadStatements srt (EFile c m l) = Some (EFile c m l).
Proof. intros srt c m l H. apply comment_anywhere_spec in H. cbn [sortLoadStatements]. rewrite H. reflexivity. Qed.
Print Assumptions C20_disabled.
Example C20_nontrivial :
  sorts (@isort expr) /\
  sort_loads (@isort expr) [mk_load %"//b" []; None; mk_load %"@a//b" []; mk_stmt %"x"; mk_load %"z" []; mk_load %"//c" []] =
  Some [mk_load %"@a//b" []; None; mk_load %"//b" []; mk_stmt %"x"; mk_load %"//c" []; mk_load %"z" []].
Proof. split; [apply isort_sorts|reflexivity]. Qed.

(** C21: for any sorting function: no binding is invented, every local name stays bound, renamed
    symbols come last and names strictly increase within both groups. *)
Theorem C21_load_arguments :
  forall srt c p m fr to r k, sorts srt -> List.length fr = List.length to ->
    exists fr' to', SortLoadArgs srt (ELoad c p m fr to r k) = ELoad c p m fr' to' r k /\
      List.length fr' = List.length to' /\
      (forall x, In x (combine fr' to') -> In x (combine fr to)) /\
      (forall n, In n (map i_name to') <-> In n (map i_name to)) /\
      StronglySorted arg_leq (combine fr' to').
Proof.
  intros srt c p m fr to r k Hs Hl. set (l := dedup_load [] (srt load_arg_less (combine fr to))).
  exists (map fst l), (map snd l). split; [reflexivity|].
  assert (E : combine (map fst l) (map snd l) = l).
  { clearbody l. clear. induction l as [|[a b] l IH]; simpl; auto. rewrite IH; auto. }
  assert (Hin : forall x, In x l -> In x (combine fr to)).
  { intros x Hx. apply dedup_load_in in Hx as [[]|Hx]. eapply Permutation_in; [apply (srt_perm srt Hs)|exact Hx]. }
  rewrite !map_length, E. split; auto. split; auto. split.
  - intros n. split.
    + intros H. rewrite map_map in H. apply in_map_iff in H as ([a b] & <- & H). apply Hin in H. apply in_combine_r in H. apply in_map; auto.
    + intros H. rewrite map_map. apply dedup_load_names. right.
      apply in_map_iff in H as (b & <- & H).
      assert (exists a, In (a, b) (combine fr to)) as (a & Ha).
      { clear l E Hin. revert to Hl H. clear. induction fr as [|x fr IH]; intros [|y to]; simpl; try discriminate; [tauto|]. intros L [->|H]; [eauto|].
        destruct (IH to) as (a & Ha); auto. exists a; auto. }
      apply in_map_iff. exists (a, b). split; auto. eapply Permutation_in; [apply Permutation_sym, (srt_perm srt Hs)|auto].
  - assert (S : StronglySorted (fun a b => load_arg_less a b = true) l).
    { apply dedup_load_sorted; auto; [constructor|]. apply (srt_sorted srt Hs).
      - intros; apply (swo_asym swo_load_arg); auto.
      - intros x y z _ _ _. apply (swo_ntrans swo_load_arg). }
    clear -S. induction S as [|x l S IH F]; constructor; auto. eapply Forall_impl; [|exact F]. cbv beta. intros y. apply load_arg_leq.
Qed.
Print Assumptions C21_load_arguments.
(** Only within each group are local names unique. *)
Theorem C21_unique_local_names_refuted :
  exists l, ~ NoDup (match SortLoadArgs (@isort _) l with ELoad _ _ _ _ to _ _ => map i_name to | _ => [] end).
Proof.
  exists (match mk_load %"m" [(%"a", %"a"); (%"c", %"c"); (%"b", %"a")] with Some e => e | None => blank end).
  vm_compute. intros H. inversion_clear H. apply H0. right; left; reflexivity.
Qed.
Print Assumptions C21_unique_local_names_refuted.
(** A second pass changes nothing. *)
Theorem C21_idempotent :
  forall srt srt' c p m fr to r k, sorts srt -> sorts srt' -> List.length fr = List.length to ->
    let e := SortLoadArgs srt (ELoad c p m fr to r k) in SortLoadArgs srt' e = e.
Proof.
  intros srt srt' c p m fr to r k Hs Hs' Hl. cbv zeta.
  destruct (C21_load_arguments srt c p m fr to r k Hs Hl) as (fr' & to' & E0 & L & _ & _ & S). rewrite E0.
  cbn [SortLoadArgs].
  assert (E : srt' load_arg_less (combine fr' to') = combine fr' to').
  { assert (S1 : StronglySorted (fun a b => load_arg_less a b = true) (combine fr' to')).
    { clear -S. induction S as [|x l S IH F]; constructor; auto. eapply Forall_impl; [|exact F]. cbv beta. intros y. apply load_arg_leq. }
    pose proof (srt_perm srt' Hs' load_arg_less (combine fr' to')) as P.
    pose proof (srt_sorted srt' Hs' load_arg_less (combine fr' to')) as S2.
    assert (S3 := S2 (fun x y _ _ => swo_asym swo_load_arg x y) (fun x y z _ _ _ => swo_ntrans swo_load_arg x y z)). clear S2.
    revert P S3. generalize (srt' load_arg_less (combine fr' to')) as l2. revert S1. generalize (combine fr' to') as l1. clear.
    induction l1 as [|x l1 IH]; intros S1 l2 P S3; [apply Permutation_nil, Permutation_sym, P|].
    destruct l2 as [|y l2]; [apply Permutation_nil in P; discriminate|].
    inversion_clear S1 as [|? ? S1' F1]. inversion_clear S3 as [|? ? S3' F3]. rewrite Forall_forall in F1, F3.
    assert (x = y).
    { assert (Hy : In y (x :: l1)) by (eapply Permutation_in; [exact P|left; auto]).
      assert (Hx : In x (y :: l2)) by (eapply Permutation_in; [apply Permutation_sym; exact P|left; auto]).
      destruct Hy as [|Hy]; auto. destruct Hx as [|Hx]; auto. apply F1 in Hy. apply F3 in Hx. congruence. }
    subst y. f_equal. apply IH; auto. eapply Permutation_cons_inv; eauto. }
  assert (I : dedup_load [] (combine fr' to') = combine fr' to').
  { assert (Q : SortLoadArgs srt (ELoad c p m fr to r k) = ELoad c p m fr' to' r k) by exact E0. cbn [SortLoadArgs] in Q. injection Q as Q1 Q2.
    assert (combine fr' to' = dedup_load [] (srt load_arg_less (combine fr to))) as ->; [|apply dedup_load_idem].
    rewrite <- Q1, <- Q2. generalize (dedup_load [] (srt load_arg_less (combine fr to))). clear.
    induction l as [|[a b] l IH]; simpl; auto. rewrite IH; auto. }
  rewrite E, I. assert (G : forall (a b : list ident), List.length a = List.length b -> map fst (combine a b) = a /\ map snd (combine a b) = b).
  { clear. induction a as [|x a IH]; intros [|y b]; simpl; try discriminate; auto. intros L. injection L as L. destruct (IH b L) as [-> ->]. auto. }
  destruct (G _ _ L) as [-> ->]. reflexivity.
Qed.
Print Assumptions C21_idempotent.
Example C21_nontrivial :
  SortLoadArgs (@isort _) (match mk_load %"m" [(%"z", %"b"); (%"d", %"d"); (%"a", %"a"); (%"y", %"b"); (%"d", %"d")] with Some e => e | None => blank end)
  = match mk_load %"m" [(%"a", %"a"); (%"d", %"d"); (%"y", %"b")] with Some e => e | None => blank end.
Proof. reflexivity. Qed.
(** In a file exactly the load statements change. *)
Theorem C21_file :
  forall srt f, sorts srt ->
    walked (fun _ e e1 => match e with
       | ELoad c p m fr to r k => e1 = SortLoadArgs srt e
       | _ => e1 = e end) [] f (sortAllLoadArgs srt f).
Proof.
  intros srt f Hs. apply Edit_walked.
  - intros stk e. destruct e; auto. cbn [SortLoadArgs]. rewrite !height_load. auto.
  - split; intros; eexists; reflexivity.
  - intros stk e. destruct e; reflexivity.
Qed.
Print Assumptions C21_file.
