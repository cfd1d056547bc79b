(** Proofs about the order of loads and of load arguments. *)
From Verif Require Import Base BaseProofs Order Ast Walk WalkSpec WalkProofs WalkGen Labels StrList StrListSpec StrListProofs Rewrite CallSpec CallProofs Loads LoadsSpec LoadsProofs.

Lemma isort_sorts {A} : sorts (@isort A).
Proof.
  split; [intros; apply isort_perm|]. intros lt l As Nt.
  assert (G : forall x s, In x l -> incl s l -> StronglySorted (fun x y => lt y x = false) s ->
            StronglySorted (fun x y => lt y x = false) (insert lt x s)).
  { intros x s Hx. induction s as [|y s IH]; intros Hi Hs; [repeat constructor|]. cbn [insert].
    inversion_clear Hs as [|? ? Hs' F]. assert (Hy : In y l) by (apply Hi; left; auto).
    assert (Hi' : incl s l) by (intros z Hz; apply Hi; right; auto).
    destruct (lt y x) eqn:E.
    - constructor; [auto|]. apply Forall_forall. intros z Hz. apply (Permutation_in _ (insert_perm lt x s)) in Hz.
      destruct Hz as [<-|Hz]; [apply As; auto|]. rewrite Forall_forall in F; auto.
    - constructor; [constructor; auto|]. constructor; auto. rewrite Forall_forall in F |- *. intros z Hz.
      apply (Nt z y x); auto. }
  assert (H : forall s, incl s l -> StronglySorted (fun x y => lt y x = false) (isort lt s)).
  { induction s as [|x s IH]; intros Hi; [constructor|]. cbn [isort]. apply G.
    - apply Hi; left; auto.
    - intros z Hz. apply (Permutation_in _ (isort_perm lt s)) in Hz. apply Hi; right; auto.
    - apply IH. intros z Hz. apply Hi; right; auto. }
  apply H, incl_refl.
Qed.

(** ** Chunks *)
Fixpoint chunks (run : list expr) (l : list (option expr)) : list (list expr) :=
  match l with
  | [] => match run with [] => [] | _ => [run] end
  | None :: l' => chunks run l'
  | Some e :: l' =>
      if is_load_stmt (Some e) then chunks (run ++ [e]) l'
      else match run with [] => [] | _ => [run] end ++ chunks [] l'
  end.
Lemma load_chunks_eq l :
  (forall acc, load_chunks true acc l = rev (map (@rev expr) acc) ++ chunks [] l) /\
  (forall ch acc, ch <> [] -> load_chunks false (ch :: acc) l = rev (map (@rev expr) acc) ++ chunks (rev ch) l).
Proof.
  induction l as [|s l [IH1 IH2]].
  - split; intros.
    + simpl. rewrite app_nil_r. auto.
    + cbn [load_chunks chunks map rev]. destruct (rev ch) eqn:E; auto.
      apply (f_equal (@rev expr)) in E. rewrite rev_involutive in E. subst. contradiction.
  - destruct s as [e|]; [|split; intros; simpl; auto].
    cbn [load_chunks chunks]. destruct (is_load_stmt (Some e)) eqn:E; split; intros.
    + rewrite IH2 by discriminate. reflexivity.
    + rewrite IH2 by discriminate. reflexivity.
    + apply IH1.
    + rewrite IH1. cbn [map rev]. rewrite <- app_assoc. f_equal. 
      destruct (rev ch) eqn:F; auto. apply (f_equal (@rev expr)) in F. rewrite rev_involutive in F. subst. contradiction.
Qed.
Section Sort.
  Context (f : list expr -> list expr) (Hp : forall l, Permutation (f l) l).
  Lemma f_nil : f [] = [].
  Proof. apply Permutation_nil, Permutation_sym, Hp. Qed.
  Lemma put_spec l : forall run, Forall (fun e => is_load (Some e)) run ->
    exists A B l', List.concat (map f (chunks run l)) = A ++ B /\ List.length A = List.length run /\
      Forall (fun e => is_load (Some e)) (A ++ B) /\
      put_loads B l = Some l' /\ chunk_perm (fun r r' => r' = f r) run A l l'.
  Proof.
    assert (E0 : forall run, List.concat (map f (match run with [] => [] | _ => [run] end)) = f run).
    { intros [|x r]; simpl; [rewrite f_nil|rewrite app_nil_r]; auto. }
    assert (EL : forall run, Forall (fun e => is_load (Some e)) run -> Forall (fun e => is_load (Some e)) (f run)).
    { intros run H. rewrite Forall_forall in *. intros x Hx. apply H. eapply Permutation_in; [apply Hp|auto]. }
    induction l as [|s l IH]; intros run Hr.
    - exists (f run), [], []. cbn [chunks]. rewrite E0, app_nil_r. repeat split; auto.
      + apply Permutation_length, Hp. + constructor. reflexivity.
    - destruct s as [e|].
      + cbn [chunks]. destruct (is_load_stmt (Some e)) eqn:E.
        * assert (Hr' : Forall (fun e => is_load (Some e)) (run ++ [e])) by (apply Forall_app; split; auto; constructor; auto; apply is_load_spec; auto).
          destruct (IH _ Hr') as (A & B & l' & H1 & H2 & H3 & H4 & H5).
          rewrite app_length in H2. destruct (rev A) as [|e' A'] eqn:EA.
          { apply (f_equal (@rev expr)) in EA. rewrite rev_involutive in EA. subst A. simpl in H2. lia. }
          apply (f_equal (@rev expr)) in EA. rewrite rev_involutive in EA. simpl in EA.
          exists (rev A'), (e' :: B), (Some e' :: l'). rewrite H1, EA, <- app_assoc. cbn [app].
          rewrite EA, app_length in H2. simpl in H2. rewrite EA, <- app_assoc in H3. cbn [app] in H3.
          repeat split; auto; [lia| |].
          -- cbn [put_loads]. rewrite E, H4. reflexivity.
          -- apply cp_load; [apply is_load_spec; auto| |rewrite <- EA; auto].
             apply Forall_app in H3 as [_ H3]. inversion H3; auto.
        * destruct (IH [] (Forall_nil _)) as (A & B & l' & H1 & H2 & H3 & H4 & H5).
          destruct A; [|discriminate]. exists (f run), B, (Some e :: l').
          rewrite map_app, concat_app, E0, H1. cbn [app] in *. repeat split; auto.
          -- apply Permutation_length, Hp.
          -- apply Forall_app. split; auto.
          -- cbn [put_loads]. rewrite E, H4. reflexivity.
          -- apply cp_other; auto. rewrite <- is_load_spec. congruence.
      + destruct (IH _ Hr) as (A & B & l' & H1 & H2 & H3 & H4 & H5). exists A, B, (None :: l').
        cbn [chunks put_loads is_load_stmt]. rewrite H4. repeat split; auto. apply cp_nil; auto.
  Qed.
End Sort.
Lemma chunk_perm_mono (R S : list expr -> list expr -> Prop) run run' l l' : (forall a b, R a b -> S a b) -> chunk_perm R run run' l l' -> chunk_perm S run run' l l'.
Proof. intros H. induction 1; [apply cp_end|apply cp_nil|apply cp_load|apply cp_other]; auto. Qed.
Lemma sort_loads_spec srt l : sorts srt -> exists l', sort_loads srt l = Some l' /\
  chunk_perm (fun r r' => r' = srt (fun a b => compare_load_labels (load_module a) (load_module b)) r) [] [] l l'.
Proof.
  intros Hs. set (f := srt (fun a b => compare_load_labels (load_module a) (load_module b))).
  destruct (put_spec f (srt_perm srt Hs _) l [] (Forall_nil _)) as (A & B & l' & H1 & H2 & H3 & H4 & H5).
  destruct A; [|discriminate]. exists l'. split; auto. unfold sort_loads. fold f.
  rewrite (proj1 (load_chunks_eq l)). simpl. rewrite H1. exact H4.
Qed.

(** ** The order of modules *)
Definition lower_lt (x y : bytes) : bool := blt (to_lower x) (to_lower y).
Definition paths_lt (p q : bytes) : bool := list_lt lower_lt (split c_slash p) (split c_slash q).
Lemma swo_paths : swo paths_lt.
Proof. unfold paths_lt. apply (swo_pull (split c_slash)), swo_list, (swo_pull to_lower), swo_blt. Qed.
Lemma join_prefix (l1 l2 : list bytes) : l1 <> [] -> l2 <> [] -> exists t, join [c_slash] (l1 ++ l2) = join [c_slash] l1 ++ c_slash :: t.
Proof.
  induction l1 as [|x l1 IH]; [contradiction|]. intros _ H2. destruct l1 as [|y l1].
  - destruct l2 as [|z l2]; [contradiction|]. simpl. exists (join [c_slash] (z :: l2)). reflexivity.
  - destruct IH as (t & E); auto; [discriminate|]. exists t.
    change (join [c_slash] ((x :: y :: l1) ++ l2)) with (x ++ [c_slash] ++ join [c_slash] ((y :: l1) ++ l2)).
    rewrite E. change (join [c_slash] (x :: y :: l1)) with (x ++ [c_slash] ++ join [c_slash] (y :: l1)). rewrite <- !app_assoc. reflexivity.
Qed.
Lemma blt_app_false a b : blt (a ++ b) a = false.
Proof.
  destruct (blt (a ++ b) a) eqn:E; auto. apply blt_before in E. exfalso.
  destruct E as [(y & t & E)|(p & x & s & y & t & E1 & E2 & L)].
  - apply (f_equal (@List.length _)) in E. rewrite !app_length in E. simpl in E. lia.
  - subst a. rewrite <- app_assoc in E1. apply app_inv_head in E1. cbn [app] in E1. injection E1 as E3 _. subst. lia.
Qed.
Lemma compare_paths_lt (P : bytes -> Prop) p q : case_consistent P -> P p -> P q -> p <> q ->
  compare_paths p q = paths_lt p q.
Proof.
  intros HC Hp Hq Hn. unfold compare_paths, paths_lt. destruct (beq_spec p q); [contradiction|].
  assert (G : forall l1 l2 pre, split c_slash p = pre ++ l1 -> split c_slash q = pre ++ l2 ->
    compare_chunks l1 l2 (negb (blt q p)) = list_lt lower_lt l1 l2).
  { induction l1 as [|x l1 IH]; intros l2 pre E1 E2.
    - rewrite app_nil_r in E1. destruct l2 as [|y l2].
      + rewrite app_nil_r in E2. exfalso. apply Hn. apply (split_inj c_slash). congruence.
      + cbn. apply negb_true_iff.
        rewrite <- (join_split c_slash q), E2, <- (join_split c_slash p), E1.
        destruct (join_prefix pre (y :: l2)) as (t & ->); [rewrite <- E1; apply split_nonempty|discriminate|]. apply blt_app_false.
    - destruct l2 as [|y l2]; [reflexivity|]. cbn [compare_chunks list_lt]. unfold lower_lt at 1 2.
      destruct (beq_spec (to_lower x) (to_lower y)) as [E|ne].
      + rewrite E, blt_irrefl. apply (IH l2 (pre ++ [x])); rewrite <- app_assoc; auto.
        assert (x = y) as ->; auto. apply (HC p q); auto; [rewrite E1|rewrite E2]; apply in_app_iff; right; left; auto.
      + apply blt_total in ne as [L|L]; [rewrite L; auto|]. rewrite L. rewrite (blt_asym _ _ L). auto. }
  apply (G _ _ []); auto.
Qed.
Lemma paths_incomparable (P : bytes -> Prop) p q : case_consistent P -> P p -> P q ->
  paths_lt p q = false -> paths_lt q p = false -> p = q.
Proof.
  intros HC Hp Hq H1 H2. apply (split_inj c_slash). unfold paths_lt in *.
  assert (G : forall l1 l2, incl l1 (split c_slash p) -> incl l2 (split c_slash q) ->
    list_lt lower_lt l1 l2 = false -> list_lt lower_lt l2 l1 = false -> l1 = l2).
  { induction l1 as [|x l1 IH]; intros [|y l2] I1 I2; simpl; auto; try discriminate.
    destruct (lower_lt x y) eqn:E; [discriminate|]. destruct (lower_lt y x) eqn:F; [discriminate|]. intros G1 G2.
    f_equal.
    - apply (HC p q); auto; [apply I1; left; auto|apply I2; left; auto|]. apply blt_incomparable; auto.
    - apply IH; auto; intros z Hz; [apply I1|apply I2]; right; auto. }
  apply G; auto; apply incl_refl.
Qed.
(** the order of well-behaved module sets *)
Definition mod_lt : bytes -> bytes -> bool :=
  lex (fun a b => bool_lt (has_prefix [c_at] a) (has_prefix [c_at] b))
 (lex (fun a b => blt (repository (sort_label a)) (repository (sort_label b)))
 (lex (fun a b => bool_lt (is_empty (package (sort_label a))) (is_empty (package (sort_label b))))
 (lex (fun a b => paths_lt (package (sort_label a)) (package (sort_label b)))
      (fun a b => paths_lt (target (sort_label a)) (target (sort_label b)))))).
Lemma swo_mod : swo mod_lt.
Proof.
  unfold mod_lt. repeat apply swo_lex.
  - apply (swo_pull (has_prefix [c_at])), swo_bool.
  - apply (swo_pull (fun a => repository (sort_label a))), swo_blt.
  - apply (swo_pull (fun a => is_empty (package (sort_label a)))), swo_bool.
  - apply (swo_pull (fun a => package (sort_label a))), swo_paths.
  - apply (swo_pull (fun a => target (sort_label a))), swo_paths.
Qed.
Lemma compare_labels_lt ms a b :
  case_consistent (packages_of ms) -> case_consistent (targets_of ms) -> In a ms -> In b ms ->
  compare_load_labels a b = mod_lt a b.
Proof.
  intros C1 C2 Ha Hb. unfold compare_load_labels. fold (sort_label a). fold (sort_label b). unfold mod_lt, lex.
  destruct (has_prefix [c_at] a), (has_prefix [c_at] b); cbn [Bool.eqb negb bool_lt andb]; auto.
  all: destruct (beq_spec (repository (sort_label a)) (repository (sort_label b))) as [E|ne]; cbn [negb];
    [rewrite E, blt_irrefl|apply blt_total in ne as [L|L]; rewrite L; auto; rewrite (blt_asym _ _ L); auto].
  all: destruct (is_empty (package (sort_label a))), (is_empty (package (sort_label b))); cbn [Bool.eqb negb bool_lt andb]; auto.
  all: assert (Pa : packages_of ms (package (sort_label a))) by (exists a; auto);
    assert (Pb : packages_of ms (package (sort_label b))) by (exists b; auto);
    assert (Ta : targets_of ms (target (sort_label a))) by (exists a; auto);
    assert (Tb : targets_of ms (target (sort_label b))) by (exists b; auto).
  all: destruct (beq_spec (package (sort_label a)) (package (sort_label b))) as [E2|ne2]; cbn [negb].
  all: try (rewrite (compare_paths_lt (packages_of ms)) by auto;
    destruct (paths_lt (package (sort_label a)) (package (sort_label b))) eqn:L1; auto;
    destruct (paths_lt (package (sort_label b)) (package (sort_label a))) eqn:L2; auto;
    exfalso; apply ne2; apply (paths_incomparable (packages_of ms)); auto).
  all: rewrite E2, (swo_irrefl _ swo_paths).
  all: destruct (bytes_eq_dec (target (sort_label a)) (target (sort_label b))) as [E3|ne3];
    [rewrite E3; unfold compare_paths; rewrite beq_refl, (swo_irrefl _ swo_paths); auto|].
  all: apply (compare_paths_lt (targets_of ms)); auto.
Qed.
Lemma mod_incomparable ms a b :
  case_consistent (packages_of ms) -> case_consistent (targets_of ms) -> In a ms -> In b ms ->
  mod_lt a b = false -> mod_lt b a = false -> sort_label a = sort_label b.
Proof.
  intros C1 C2 Ha Hb H1 H2. unfold mod_lt in *.
  apply lex_incomparable in H1 as (_ & _ & H1 & H2'); auto. clear H2.
  apply lex_incomparable in H1 as (R1 & R2 & H1 & H2); auto. clear H2'.
  apply lex_incomparable in H1 as (_ & _ & H1 & H2'); auto. clear H2.
  apply lex_incomparable in H1 as (P1 & P2 & T1 & T2); auto. clear H2'.
  apply blt_incomparable in R1; auto. apply (paths_incomparable (packages_of ms)) in P1; auto; try (eexists; eauto; fail).
  apply (paths_incomparable (targets_of ms)) in T1; auto; try (eexists; eauto; fail).
  destruct (sort_label a), (sort_label b); simpl in *; congruence.
Qed.

(** ** Load arguments *)
Lemma swo_load_arg : swo load_arg_less.
Proof.
  assert (E : forall a b, load_arg_less a b = lex (fun a b => bool_lt (beq (i_name (fst a)) (i_name (snd a))) (beq (i_name (fst b)) (i_name (snd b))))
     (fun a b => blt (i_name (snd a)) (i_name (snd b))) a b).
  { intros a b. unfold load_arg_less, lex. destruct (beq (i_name (fst a)) _), (beq (i_name (fst b)) _); reflexivity. }
  assert (S : swo (lex (fun a b : ident * ident => bool_lt (beq (i_name (fst a)) (i_name (snd a))) (beq (i_name (fst b)) (i_name (snd b))))
     (fun a b => blt (i_name (snd a)) (i_name (snd b))))).
  { apply swo_lex; [apply (swo_pull (fun a : ident * ident => beq (i_name (fst a)) (i_name (snd a)))), swo_bool|apply (swo_pull (fun a : ident * ident => i_name (snd a))), swo_blt]. }
  split; intros *; rewrite !E; apply S.
Qed.
Lemma load_arg_leq a b : load_arg_less a b = true <-> arg_leq a b.
Proof.
  unfold load_arg_less, arg_leq, unrenamed. rewrite <- blt_before.
  destruct (beq_spec (i_name (fst a)) (i_name (snd a))), (beq_spec (i_name (fst b)) (i_name (snd b))); cbn [Bool.eqb negb]; intuition congruence.
Qed.
Lemma load_arg_neq a b : i_name (snd a) <> i_name (snd b) -> load_arg_less b a = false -> load_arg_less a b = true.
Proof.
  intros Hn. unfold load_arg_less. destruct (beq (i_name (fst a)) (i_name (snd a))), (beq (i_name (fst b)) (i_name (snd b))); cbn [Bool.eqb negb]; try congruence.
  all: intros H; apply blt_total in Hn as [L|L]; congruence.
Qed.
Lemma sorted_snoc {A} (R : A -> A -> Prop) l x : StronglySorted R l -> Forall (fun y => R y x) l -> StronglySorted R (l ++ [x]).
Proof.
  induction 1 as [|y l H IH F]; intros G; [repeat constructor|]. inversion_clear G. cbn [app]. constructor; auto.
  apply Forall_app; split; auto.
Qed.
Lemma sorted_snoc_inv {A} (R : A -> A -> Prop) l x : StronglySorted R (l ++ [x]) -> StronglySorted R l /\ Forall (fun y => R y x) l.
Proof.
  induction l as [|y l IH]; cbn [app]; intros H; [split; constructor|]. inversion_clear H as [|? ? H1 H2]. apply IH in H1 as [H3 H4].
  apply Forall_app in H2 as [H5 H6]. inversion_clear H6. split; constructor; auto.
Qed.
Lemma dedup_load_sorted l : forall out,
  StronglySorted (fun a b => load_arg_less a b = true) (rev out) ->
  StronglySorted (fun a b => load_arg_less b a = false) l ->
  match out with [] => True | b :: _ => Forall (fun a => load_arg_less a b = false) l end ->
  StronglySorted (fun a b => load_arg_less a b = true) (dedup_load out l).
Proof.
  induction l as [|a l IH]; intros out H1 H2 H3; [exact H1|]. inversion_clear H2 as [|? ? H4 H5]. cbn [dedup_load].
  destruct out as [|b out].
  - apply IH; auto. repeat constructor.
  - inversion_clear H3 as [|? ? H6 H7]. cbn [rev] in H1. destruct (sorted_snoc_inv _ _ _ H1) as [S1 S2].
    assert (T : Forall (fun y => load_arg_less y a = true) (rev out)).
    { eapply Forall_impl; [|exact S2]. cbv beta. intros y Hy. destruct (load_arg_less y a) eqn:E; auto.
      rewrite (swo_ntrans swo_load_arg y a b) in Hy; auto; discriminate. }
    destruct (beq_spec (i_name (snd b)) (i_name (snd a))) as [E|ne].
    + apply IH; auto. cbn [rev]. apply sorted_snoc; auto.
    + apply IH; auto. cbn [rev]. apply sorted_snoc; auto. apply Forall_app. split; auto. constructor; auto. apply load_arg_neq; auto.
Qed.
Lemma dedup_load_in l : forall out x, In x (dedup_load out l) -> In x out \/ In x l.
Proof.
  induction l as [|a l IH]; intros out x H; [left; apply in_rev; auto|]. cbn [dedup_load] in H. destruct out as [|b out].
  - apply IH in H as [[->|[]]|H]; simpl; auto.
  - destruct (beq _ _); apply IH in H; simpl in *; tauto.
Qed.
Lemma dedup_load_names l : forall out n, In n (map (fun p => i_name (snd p)) out) \/ In n (map (fun p => i_name (snd p)) l) ->
  In n (map (fun p => i_name (snd p)) (dedup_load out l)).
Proof.
  induction l as [|a l IH]; intros out n H; [cbn; rewrite map_rev, <- in_rev; destruct H as [H|[]]; auto|].
  cbn [dedup_load]. destruct out as [|b out].
  - apply IH. simpl in *. tauto.
  - destruct (beq_spec (i_name (snd b)) (i_name (snd a))) as [E|]; apply IH; simpl in *; [rewrite <- E in *; tauto|tauto].
Qed.

Fixpoint adj_distinct (l : list (ident * ident)) : Prop :=
  match l with b :: ((c :: _) as t) => i_name (snd c) <> i_name (snd b) /\ adj_distinct t | _ => True end.
Lemma dedup_load_adj l : forall out, adj_distinct out -> exists res, dedup_load out l = rev res /\ adj_distinct res.
Proof.
  induction l as [|a l IH]; intros out H; [exists out; auto|]. cbn [dedup_load]. destruct out as [|b out].
  - apply IH. exact I.
  - destruct (beq_spec (i_name (snd b)) (i_name (snd a))) as [E|ne]; apply IH.
    + destruct out as [|c out]; [exact I|]. cbn [adj_distinct] in *. rewrite <- E. auto.
    + cbn [adj_distinct]. auto.
Qed.
Lemma adj_drop l x t : adj_distinct (l ++ x :: t) -> adj_distinct (x :: t).
Proof.
  induction l as [|y l IH]; auto. cbn [app]. intros H. apply IH.
  destruct (l ++ x :: t) as [|z r] eqn:E; [destruct l; discriminate|]. apply H.
Qed.
Lemma dedup_load_id l : forall out, adj_distinct (rev l ++ out) -> dedup_load out l = rev out ++ l.
Proof.
  induction l as [|a l IH]; intros out H; [rewrite app_nil_r; auto|]. cbn [rev] in H. rewrite <- app_assoc in H. cbn [app] in H.
  cbn [dedup_load]. assert (D := adj_drop _ _ _ H). destruct out as [|b out].
  - rewrite IH by auto. reflexivity.
  - cbn [adj_distinct] in D. destruct (beq_spec (i_name (snd b)) (i_name (snd a))) as [E|ne]; [destruct D; contradiction|].
    rewrite IH by auto. cbn [rev]. rewrite <- app_assoc. reflexivity.
Qed.
Lemma dedup_load_idem l : dedup_load [] (dedup_load [] l) = dedup_load [] l.
Proof.
  destruct (dedup_load_adj l [] I) as (res & -> & H). rewrite dedup_load_id; [reflexivity|]. rewrite rev_involutive, app_nil_r. auto.
Qed.
