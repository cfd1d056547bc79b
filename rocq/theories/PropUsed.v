(** C71, C72: removing loads that are not used. *)
From Verif Require Import Base BaseProofs Ast Walk WalkSpec CallSpec CallProofs Loads LoadsSpec LoadsProofs LoadsOrder Lint ScopeProofs Used UsedSpec UsedProofs.
From Coq Require Import Permutation.
Local Open Scope list_scope.

Definition nm (p : ident * ident) : bytes := i_name (snd p).
Lemma combine_map {A B} (l : list (A * B)) : combine (map fst l) (map snd l) = l.
Proof. induction l as [|[a b] l IH]; cbn; congruence. Qed.
Lemma nodup_adj l : NoDup (map nm l) -> adj_distinct l.
Proof.
  induction l as [|a [|b l] IH]; cbn [adj_distinct]; auto. intro H. inversion_clear H as [|? ? H1 H2]. split; [|now apply IH]. intro E. apply H1. left. auto.
Qed.
Lemma sort_args srt c p m l r k : sorts srt -> NoDup (map nm l) ->
  exists l', SortLoadArgs srt (ELoad c p m (map fst l) (map snd l) r k) = ELoad c p m (map fst l') (map snd l') r k /\ Permutation l' l.
Proof.
  intros Hs H. exists (srt load_arg_less l). pose proof (srt_perm srt Hs load_arg_less l) as P. split; auto.
  cbn [SortLoadArgs]. rewrite combine_map, dedup_load_id; auto. rewrite app_nil_r. apply nodup_adj.
  eapply Permutation_NoDup; [|exact H]. apply Permutation_map. rewrite <- Permutation_rev. now symmetry.
Qed.
Lemma sub_nodup (l rest : list (ident * ident)) : NoDup (map nm l) -> (exists keep, rest = filter keep l) -> NoDup (map nm rest).
Proof.
  intros H (keep & ->). induction l as [|a l IH]; cbn in *; [constructor|]. inversion_clear H as [|? ? H1 H2]. destruct (keep a); auto. cbn. constructor; auto.
  intro X. apply H1. apply in_map_iff in X as (b & E & X). apply filter_In in X as [X _]. apply in_map_iff. eauto.
Qed.

(** ** One load statement *)
Definition origin_is (o : option (bytes * bytes)) (tok from : bytes) : bool :=
  match o with Some (a, b) => beq a tok && beq b from | None => false end.
Lemma check_spec tok keep : forall l loaded, NoDup (map nm l) ->
  let '(loaded', rest, fs) := check_symbols tok keep loaded l in
  rest = filter (fun p => match lookup (nm p) loaded with Some (a, b) => negb (beq a tok && beq b (i_name (fst p))) | None => keep p end) l /\
  (fs = [] -> rest = l) /\
  (forall n, lookup n loaded' = match find (fun p => beq (nm p) n) l with Some p => Some (tok, i_name (fst p)) | None => lookup n loaded end).
Proof.
  induction l as [|[from to] l IH]; intros loaded H; cbn [check_symbols]; [auto|]. cbn [map] in H. inversion_clear H as [|? ? H1 H2].
  specialize (IH ((i_name to, (tok, i_name from)) :: loaded) H2). destruct (check_symbols tok keep _ l) as [[loaded' rest] fs]. destruct IH as (R & F & L).
  assert (E : rest = filter (fun p => match lookup (nm p) loaded with Some (a, b) => negb (beq a tok && beq b (i_name (fst p))) | None => keep p end) l).
  { rewrite R. apply filter_ext_in. intros p P. cbn [lookup]. destruct (beq (nm p) (i_name to)) eqn:B; auto. apply beq_eq in B. elim H1. apply in_map_iff. exists p. split; auto. }
  assert (L' : forall n, lookup n loaded' = match find (fun p => beq (nm p) n) ((from, to) :: l) with Some p => Some (tok, i_name (fst p)) | None => lookup n loaded end).
  { intro n. rewrite L. cbn [find lookup]. change (nm (from, to)) with (i_name to). destruct (beq (i_name to) n) eqn:B.
    - apply beq_eq in B. subst n. destruct (find _ l) as [p|] eqn:Fi.
      + apply find_some in Fi as [P Fi]. apply beq_eq in Fi. elim H1. apply in_map_iff. eauto.
      + rewrite beq_refl. reflexivity.
    - destruct (find _ l) as [p|] eqn:Fi; auto. replace (beq n (i_name to)) with false; auto. symmetry. apply beq_neq. intro X. subst. rewrite beq_refl in B. discriminate. }
  cbn [filter fst]. change (nm (from, to)) with (i_name to). destruct (lookup (i_name to) loaded) as [[label name]|] eqn:Lo.
  - destruct (beq label tok && beq name (i_name from)); cbn [negb]; (split; [congruence|split; [discriminate|auto]]).
  - destruct (keep (from, to)).
    + split; [congruence|split; [|auto]]. intro X. apply F in X. congruence.
    + split; [congruence|split; [discriminate|auto]].
Qed.

(** Bindings with the token of the module. *)
Definition tokens_of (s : option expr) : list (bytes * bytes * bytes) :=
  match s with Some (ELoad _ _ m fr to _ _) => map (fun p => (s_token m, i_name (fst p), nm p)) (combine fr to) | _ => [] end.
Definition names_of (s : option expr) : list bytes := match s with Some (ELoad _ _ _ fr to _ _) => map nm (combine fr to) | _ => [] end.
Section Check.
  Context (srt : (ident * ident -> ident * ident -> bool) -> list (ident * ident) -> list (ident * ident)) (Hs : sorts srt) (symbols types : list bytes).
  Definition wanted (n : bytes) : Prop := In n symbols \/ In n types.
  Lemma wanted_keep e p : wanted (nm p) -> keep_symbol symbols types e p = true.
  Proof. unfold keep_symbol, nm. intros [H|H]; apply mem_bytes_In in H; rewrite H; rewrite ?orb_true_r; auto. Qed.
  (** What becomes of one load statement. *)
  Lemma check_load_spec loaded c p m fr to r k (e := ELoad c p m fr to r k) : NoDup (names_of (Some e)) ->
    let '(loaded', s', fs) := check_load srt symbols types loaded (Some e) in
    exists rest, rest = filter (fun p => match lookup (nm p) loaded with Some (a, b) => negb (beq a (s_token m) && beq b (i_name (fst p))) | None => keep_symbol symbols types e p end) (combine fr to) /\
    (s' = Some e /\ rest = combine fr to \/ s' = None /\ rest = [] \/
     exists l', s' = Some (ELoad c p m (map fst l') (map snd l') r k) /\ Permutation l' rest) /\
    (forall n, lookup n loaded' = match find (fun p => beq (nm p) n) (combine fr to) with Some p => Some (s_token m, i_name (fst p)) | None => lookup n loaded end).
  Proof.
    intro N. cbn [check_load e]. pose proof (check_spec (s_token m) (keep_symbol symbols types e) (combine fr to) loaded N) as H.
    destruct (check_symbols (s_token m) _ loaded (combine fr to)) as [[loaded' rest] fs]. destruct H as (R & F & L). exists rest. split; auto. split; auto.
    destruct fs as [|q fs]; [left; auto|]. right. destruct rest as [|a rest]; [left; auto|]. right.
    destruct (sort_args srt c p m (a :: rest) r k Hs) as (l' & E & P); [eapply sub_nodup; [exact N|eauto]|]. exists l'. split; auto. now f_equal.
  Qed.
  Definition covered (out : list (option expr)) (loaded : list (bytes * (bytes * bytes))) : Prop :=
    forall n tok from, wanted n -> lookup n loaded = Some (tok, from) -> In (tok, from, n) (flat_map tokens_of out).
  Lemma check_loads_spec : forall l done loaded, Forall (fun s => NoDup (names_of s)) l -> covered done loaded ->
    forall b, In b (flat_map tokens_of l) -> wanted (snd b) -> In b (flat_map tokens_of (done ++ fst (check_loads srt symbols types loaded l))).
  Proof.
    induction l as [|s l IH]; intros done loaded N C b H W; [destruct H|]. apply Forall_inv in N as N1. apply Forall_inv_tail in N as N2.
    cbn [check_loads].
    assert (D : (exists c p m fr to r k, s = Some (ELoad c p m fr to r k)) \/ (tokens_of s = [] /\ check_load srt symbols types loaded s = (loaded, s, []))).
    { destruct s as [s|]; auto. destruct s; eauto 11. }
    destruct D as [(c & p & m & fr & to & r & k & ->)|[T ->]].
    - pose proof (check_load_spec loaded c p m fr to r k N1) as S1. destruct (check_load srt symbols types loaded _) as [[loaded' s'] fs].
      destruct S1 as (rest & R & S1 & L). specialize (IH (done ++ [s']) loaded' N2). rewrite <- app_assoc in IH. cbn [app] in IH.
      destruct (check_loads srt symbols types loaded' l) as [l'' fs']. cbn [fst] in *.
      assert (T : forall q, In q rest -> In (s_token m, i_name (fst q), nm q) (tokens_of s')).
      { intros q Q. destruct S1 as [[-> ->]|[[-> ->]|(l' & -> & P)]]; [|destruct Q|]; cbn [tokens_of]; apply in_map_iff; exists q; split; auto. rewrite combine_map. now apply (Permutation_in _ (Permutation_sym P)). }
      assert (K : forall q, In q (combine fr to) -> wanted (nm q) -> In (s_token m, i_name (fst q), nm q) (flat_map tokens_of (done ++ [s']))).
      { intros q Q Wq. rewrite flat_map_app, in_app_iff. cbn [flat_map]. rewrite app_nil_r. destruct (lookup (nm q) loaded) as [[a o]|] eqn:Lo.
        - destruct (beq a (s_token m) && beq o (i_name (fst q))) eqn:B.
          + apply andb_true_iff in B as [B1 B2]. apply beq_eq in B1, B2. subst. left. now apply C.
          + right. apply T. rewrite R. apply filter_In. split; auto. rewrite Lo, B. auto.
        - right. apply T. rewrite R. apply filter_In. split; auto. rewrite Lo. now apply wanted_keep. }
      assert (C' : covered (done ++ [s']) loaded').
      { intros n tok from Wn. rewrite L. destruct (find _ (combine fr to)) as [q|] eqn:F.
        - intro X. injection X as <- <-. apply find_some in F as [Q F]. apply beq_eq in F. subst n. now apply K.
        - intro X. rewrite flat_map_app. apply in_or_app. left. now apply C. }
      cbn [flat_map] in H. apply in_app_or in H as [H|H]; [|now apply IH]. cbn [tokens_of] in H. apply in_map_iff in H as (q & <- & Q). cbn [snd] in W.
      pose proof (K q Q W) as Z. rewrite flat_map_app in Z. rewrite flat_map_app. cbn [flat_map] in *. rewrite app_nil_r in Z. apply in_or_app. apply in_app_or in Z as [Z|Z]; auto. right. apply in_or_app. auto.
    - cbn [flat_map] in H. rewrite T in H. specialize (IH (done ++ [s]) loaded N2). rewrite <- app_assoc in IH. cbn [app] in IH.
      destruct (check_loads srt symbols types loaded l) as [l'' fs']. cbn [fst] in *. apply IH; auto.
      intros n tok from Wn X. rewrite flat_map_app. apply in_or_app. left. now apply C.
  Qed.
  (** Every statement, at its index. *)
  Definition becomes (before : list bytes) (s s' : option expr) : Prop :=
    match s with
    | Some (ELoad c p m fr to r k as e) =>
        (s' = s \/ s' = None \/ exists l', s' = Some (ELoad c p m (map fst l') (map snd l') r k)) /\
        (forall q, In q (LoadsSpec.symbols s') -> In q (combine fr to) /\ (keep_symbol symbols types e q = true \/ In (nm q) before))
    | _ => s' = s
    end.
  Lemma find_name n (l : list (ident * ident)) : find (fun p => beq (nm p) n) l <> None -> In n (map nm l).
  Proof. intro H. destruct (find _ l) as [p|] eqn:F; [|congruence]. apply find_some in F as [P F]. apply beq_eq in F. apply in_map_iff. eauto. Qed.
  Lemma check_each : forall l loaded before, Forall (fun s => NoDup (names_of s)) l -> (forall n, lookup n loaded <> None -> In n before) ->
    List.length (fst (check_loads srt symbols types loaded l)) = List.length l /\
    forall i s, nth_error l i = Some s -> exists s', nth_error (fst (check_loads srt symbols types loaded l)) i = Some s' /\ becomes (before ++ flat_map names_of (firstn i l)) s s'.
  Proof.
    induction l as [|s l IH]; intros loaded before N B; [split; auto; intros [|i] s X; discriminate|].
    apply Forall_inv in N as N1. apply Forall_inv_tail in N as N2. cbn [check_loads].
    assert (D : (exists c p m fr to r k, s = Some (ELoad c p m fr to r k)) \/ (names_of s = [] /\ check_load srt symbols types loaded s = (loaded, s, []) /\ forall b, becomes b s s)).
    { destruct s as [s|]; [|right; repeat split]. destruct s; eauto 11; right; repeat split. }
    destruct D as [(c & p & m & fr & to & r & k & ->)|(T & -> & Z)].
    - pose proof (check_load_spec loaded c p m fr to r k N1) as S1. destruct (check_load srt symbols types loaded _) as [[loaded' s'] fs].
      destruct S1 as (rest & R & S1 & L). set (e := ELoad c p m fr to r k) in *.
      destruct (IH loaded' (before ++ names_of (Some e)) N2) as [I1 I2].
      { intro n. rewrite L. intro X. apply in_or_app. destruct (find _ (combine fr to)) as [q|] eqn:F; [right; apply find_name; congruence|left; auto]. }
      destruct (check_loads srt symbols types loaded' l) as [l'' fs']. cbn [fst List.length] in *. split; [congruence|].
      intros [|i] x X; cbn [nth_error firstn flat_map] in *.
      + injection X as <-. exists s'. split; auto. cbn [becomes e]. split; [destruct S1 as [[-> _]|[[-> _]|(l' & -> & _)]]; eauto|].
        intros q Q. rewrite app_nil_r. assert (Q' : In q rest).
        { destruct S1 as [[-> ->]|[[-> ->]|(l' & -> & P)]]; [exact Q|destruct Q|]. cbn in Q. rewrite combine_map in Q. now apply (Permutation_in _ P). }
        rewrite R in Q'. apply filter_In in Q' as [Q1 Q2]. split; auto. destruct (lookup (nm q) loaded) eqn:Lo; auto. right. apply B. congruence.
      + apply I2 in X as (x' & X & Y). exists x'. split; auto. rewrite app_assoc. auto.
    - destruct (IH loaded before N2 B) as [I1 I2]. destruct (check_loads srt symbols types loaded l) as [l'' fs']. cbn [fst List.length] in *. split; [congruence|].
      intros [|i] x X; cbn [nth_error firstn flat_map] in *; [injection X as <-; eauto|]. rewrite T. cbn [app]. auto.
  Qed.
End Check.

(** ** C71: buildifier's fix for unused-load *)
Lemma bindings_names s m x n : In (m, x, n) (bindings_of s) -> In n (names_of s).
Proof. destruct s as [[]|]; cbn; try tauto. intro H. apply in_map_iff in H as (q & E & Q). injection E as _ _ <-. now apply (in_map nm). Qed.
(** No load statement gives two symbols the same local name. *)
Definition no_clash (s : option expr) : Prop := match s with Some (ELoad _ _ _ fr to _ _) => NoDup (map (fun q => i_name (snd q)) (combine fr to)) | _ => True end.
Lemma clash_names s : no_clash s -> NoDup (names_of s).
Proof. destruct s as [[]|]; cbn; auto; constructor. Qed.
(** Equal module literals are written in the same way only if they are equal (as in a parsed file). *)
Definition modules (l : list (option expr)) : list strlit := flat_map (fun s => match s with Some (ELoad _ _ m _ _ _ _) => [m] | _ => [] end) l.
Definition literal_modules (l : list (option expr)) : Prop := forall m m', In m (modules l) -> In m' (modules l) -> s_token m = s_token m' -> s_value m = s_value m'.

(** Every name that is used in the code, or in an annotation made of names, x[y] and x.type, keeps its binding; and there are no new
    ones. *)
Theorem C71_used_names_kept_partial :
  forall srt c fm l, sorts srt -> Forall no_clash l -> literal_modules l -> let f := EFile c fm l in let l' := fst (unusedLoadWarning srt f) in
    (forall m x n, In (m, x, n) (bindings l) -> refers plain_type f n -> In (m, x, n) (bindings l')) /\
    (forall b, In b (bindings l') -> In b (bindings l)).
Proof.
  intros srt c fm l Hs N M f l'.
  assert (N' : Forall (fun s => NoDup (names_of s)) l) by (eapply Forall_impl; [|exact N]; intros; now apply clash_names).
  assert (E : l' = fst (check_loads srt (UsedSymbols f) (UsedTypes f) [] l)) by reflexivity.
  destruct (check_each srt Hs (UsedSymbols f) (UsedTypes f) l [] [] N') as [Len Each]; [intros n H; elim H; reflexivity|]. rewrite <- E in Len, Each.
  assert (Mod : forall m, In m (modules l') -> In m (modules l)).
  { intros m H. apply in_flat_map in H as (s' & S1 & H). apply In_nth_error in S1 as (i & S1).
    destruct (nth_error l i) as [s|] eqn:S2; [|apply nth_error_None in S2; assert (i < List.length l') by (apply nth_error_Some; congruence); lia].
    destruct (Each i s S2) as (s2 & S3 & B). rewrite S1 in S3. injection S3 as <-. apply in_flat_map. exists s. split; [eapply nth_error_In; eauto|].
    destruct s as [[]|]; cbn [becomes] in B; subst; auto. destruct B as [[-> |[-> |(q & ->)]] _]; [exact H|destruct H|exact H]. }
  split.
  - intros m x n H R. apply in_flat_map in H as (s & S1 & H). destruct s as [[]|]; try destruct H. cbn [bindings_of] in H. apply in_map_iff in H as (q & X & Q). injection X as <- <- <-.
    assert (T : In (s_token m0, i_name (fst q), nm q) (flat_map tokens_of l')).
    { rewrite E. apply (check_loads_spec srt Hs (UsedSymbols f) (UsedTypes f) l [] []); auto.
      - intros n tok fr _ H. discriminate H.
      - apply in_flat_map. eexists. split; [exact S1|]. cbn. apply in_map_iff. exists q. auto.
      - cbn [snd]. destruct R as [R|(t & A & P & R)]; [left; now apply used_spec|right; eapply types_complete; eauto]. }
    apply in_flat_map in T as (s' & S2 & T). apply in_flat_map. exists s'. split; auto. destruct s' as [[]|]; try destruct T. cbn in T. apply in_map_iff in T as (q' & X & Q'). injection X as X1 X2 X3.
    cbn. apply in_map_iff. exists q'. split; auto. unfold nm in X3. rewrite X2, X3. f_equal. f_equal. apply M; [|apply in_flat_map; eexists; split; [exact S1|left; reflexivity]|auto].
    apply Mod. apply in_flat_map. eexists. split; [exact S2|left; reflexivity].
  - intros b H. apply in_flat_map in H as (s' & S1 & H). apply In_nth_error in S1 as (i & S1).
    destruct (nth_error l i) as [s|] eqn:S2; [|apply nth_error_None in S2; assert (i < List.length l') by (apply nth_error_Some; congruence); lia].
    destruct (Each i s S2) as (s2 & S3 & B). rewrite S1 in S3. injection S3 as <-. apply in_flat_map. exists s. split; [eapply nth_error_In; eauto|].
    destruct s as [[]|]; cbn [becomes] in B; subst; auto. destruct B as [B1 B2]. destruct B1 as [-> |[-> |(q & ->)]]; [exact H|destruct H|]. cbn [bindings_of] in *.
    apply in_map_iff in H as (p' & <- & P). apply in_map_iff. exists p'. split; auto. now apply B2.
Qed.
(** A symbol that is still loaded is used, or protected by a comment, or its name was loaded before. *)
Lemma marked_spec e : ContainsComments e %"@unused" = true <-> marked_unused (com e).
Proof.
  unfold ContainsComments, marked_unused. rewrite existsb_exists. split.
  - intros (k & K & H). apply contains_spec in H as (a & b & H). exists k, a, b. auto.
  - intros (k & a & b & K & H). exists k. split; auto. apply contains_spec. exists a, b. auto.
Qed.
Theorem C71_unused_names_removed :
  forall srt c fm l, sorts srt -> Forall no_clash l -> let f := EFile c fm l in let l' := fst (unusedLoadWarning srt f) in
    List.length l' = List.length l /\
    forall i s, nth_error l i = Some s -> exists s', nth_error l' i = Some s' /\
      match s with
      | Some (ELoad c p m fr to r k) =>
          (s' = s \/ s' = None \/ exists fr' to', s' = Some (ELoad c p m fr' to' r k)) /\
          forall from to1, In (from, to1) (LoadsSpec.symbols s') -> In (from, to1) (combine fr to) /\
            (mentions f (i_name to1) \/ marked_unused c \/ marked_unused (i_com from) \/ marked_unused (i_com to1) \/
             exists m' x, In (m', x, i_name to1) (bindings (firstn i l)))
      | _ => s' = s
      end.
Proof.
  intros srt c fm l Hs N f l'.
  assert (N' : Forall (fun s => NoDup (names_of s)) l) by (eapply Forall_impl; [|exact N]; intros; now apply clash_names).
  destruct (check_each srt Hs (UsedSymbols f) (UsedTypes f) l [] [] N') as [Len Each]; [intros n H; elim H; reflexivity|]. split; auto.
  intros i s H. destruct (Each i s H) as (s' & S1 & B). exists s'. split; auto. destruct s as [[]|]; cbn [becomes] in B; auto. destruct B as [B1 B2].
  split; [destruct B1 as [-> |[-> |(q & ->)]]; eauto|]. intros a b Q. destruct (B2 _ Q) as [B3 B4]. split; auto. cbn [snd nm] in B4. destruct B4 as [B4|B4].
  - unfold keep_symbol, ident_unused in B4. cbn [fst snd] in B4. rewrite !orb_true_iff in B4. rewrite !marked_spec in B4. cbn [com] in B4.
    destruct B4 as [[[[B4|B4]|B4]|B4]|B4]; auto; left; apply mem_bytes_In in B4; [apply uses_mentions; now apply used_spec|now apply types_sound].
  - right. right. right. right. cbn [app] in B4. apply in_flat_map in B4 as (s0 & S2 & B4). destruct s0 as [[]|]; try destruct B4. cbn in B4. apply in_map_iff in B4 as (q & X & Q').
    exists (s_value m0), (i_name (fst q)). apply in_flat_map. eexists. split; [exact S2|]. cbn. apply in_map_iff. exists q. split; auto. unfold nm in X; cbn [snd] in X; rewrite <- X; reflexivity.
Qed.

(** ** Examples and counterexamples *)
Definition id_ (n : bytes) : ident := Ident no_com no_pos n.
Definition v_ (n : bytes) : expr := EIdent (id_ n).
Definition en_ : endp := End no_com no_pos.
Definition lit_ (t : bytes) : strlit := Str no_com no_pos t false no_pos ([c_quote] ++ t ++ [c_quote]).
Definition load_ (c : comments) (m : bytes) (l : list (bytes * bytes)) : option expr :=
  Some (ELoad c no_pos (lit_ m) (map (fun p => id_ (fst p)) l) (map (fun p => id_ (snd p)) l) en_ false).
Definition meta_ : fmeta := FMeta [] [] [] TypeBzl.
Definition def_ (ps : list expr) (ty : option expr) : option expr :=
  Some (EDef no_com no_pos ps [EBranch no_com %"pass" no_pos] %"f" no_pos false false ty).
Definition fix_ (l : list (option expr)) : list (option expr) := fst (unusedLoadWarning (@isort _) (EFile no_com meta_ l)).
(** load("a", "x", "y", z = "q")  load("b", "u")  load("a", "x")  def f(p: x[z]): pass *)
Definition sample : list (option expr) :=
  [load_ no_com %"a" [(%"x", %"x"); (%"y", %"y"); (%"q", %"z")]; load_ no_com %"b" [(%"u", %"u")]; load_ no_com %"a" [(%"x", %"x")];
   def_ [ETyped no_com (id_ %"p") (EIndex no_com (v_ %"x") no_pos (v_ %"z") no_pos)] None].
Example C71_nontrivial :
  sorts (@isort (ident * ident)) /\ Forall no_clash sample /\ literal_modules sample /\ refers plain_type (EFile no_com meta_ sample) %"z" /\
  fix_ sample = [load_ no_com %"a" [(%"x", %"x"); (%"q", %"z")]; None; None; nth 3 sample None].
Proof.
  split; [apply isort_sorts|]. split; [repeat constructor; cbn; intuition discriminate|]. split.
  - intros m m' H H'. cbn in H, H'. intuition (subst; try reflexivity; discriminate).
  - split; [|reflexivity]. right. exists (EIndex no_com (v_ %"x") no_pos (v_ %"z") no_pos). split; [|split; [cbn; auto|]].
    + apply (a_part _ (match nth 3 sample None with Some e => e | None => v_ %"x" end)); [constructor; cbn; auto 6|].
      apply (a_part _ (ETyped no_com (id_ %"p") (EIndex no_com (v_ %"x") no_pos (v_ %"z") no_pos))); [left; left; reflexivity|constructor].
    + apply (u_part _ (v_ %"z")); [apply sub_index|apply (u_name (id_ %"z"))].
Qed.
(** A type that is used in other annotations loses its load: [removed t n] for def f() -> t. *)
Definition removed (t : expr) (n : bytes) : Prop :=
  let l := [load_ no_com %"a" [(n, n)]; def_ [] (Some t)] in
  refers (fun _ => True) (EFile no_com meta_ l) n /\ bindings l = [(%"a", n, n)] /\ bindings (fix_ l) = [].
Lemma removed_by t n : uses t n -> bindings (fix_ [load_ no_com %"a" [(n, n)]; def_ [] (Some t)]) = [] -> removed t n.
Proof.
  intros U H. split; [|split; auto]. right. exists t. split; auto. apply (a_part _ (match def_ [] (Some t) with Some e => e | None => t end)); [constructor; cbn; auto|constructor].
Qed.
(** int | x *)
Theorem C71_union_type_refuted : removed (EBinary no_com (v_ %"int") no_pos %"|" false (v_ %"x")) %"x".
Proof. apply removed_by; [|reflexivity]. eapply u_part; [apply sub_right|]. apply (u_name (id_ %"x")). Qed.
(** dict[str, x] *)
Theorem C71_tuple_type_refuted :
  removed (EIndex no_com (v_ %"dict") no_pos (ETuple no_com true no_pos [v_ %"str"; v_ %"x"] en_ true false) no_pos) %"x".
Proof.
  apply removed_by; [|reflexivity]. eapply u_part; [apply sub_index|]. eapply u_part; [apply sub_tuple; right; left; reflexivity|]. apply (u_name (id_ %"x")).
Qed.
(** x.T *)
Theorem C71_dotted_type_refuted : removed (EDot no_com (v_ %"x") no_pos no_pos %"T") %"x".
Proof. apply removed_by; [|reflexivity]. eapply u_part; [apply sub_dot|]. apply (u_name (id_ %"x")). Qed.
(** The comments of a load that disappears are lost. *)
Theorem C71_comments_refuted :
  exists l k, In k (stmt_comments (nth 0 l None)) /\ flat_map stmt_comments (fix_ l) = [] /\ Forall (fun s => exists c m x, s = load_ c m x) l.
Proof.
  exists [load_ (Comments [Comment no_pos %"# why"] [] []) %"a" [(%"x", %"x")]], (Comment no_pos %"# why"). split; [left; reflexivity|]. split; [reflexivity|]. repeat constructor. eauto.
Qed.
(** The fix is not finished after one run: an unused name that is loaded from two modules keeps its second load. *)
Theorem C71_idempotent_refuted : exists l, fix_ (filter (fun s => match s with None => false | _ => true end) (fix_ l)) <> filter (fun s => match s with None => false | _ => true end) (fix_ l).
Proof. exists [load_ no_com %"a" [(%"x", %"x")]; load_ no_com %"b" [(%"x", %"x")]]. vm_compute. discriminate. Qed.

(** ** C72: buildozer's fix unusedLoads *)
Section Clean.
  Context (srt : (ident * ident -> ident * ident -> bool) -> list (ident * ident) -> list (ident * ident)) (Hs : sorts srt) (used : list bytes).
  (** [ok x m n]: the only name under which the module m may be loaded as n *)
  Context (ok : bytes -> bytes -> bytes -> Prop) (one : forall m n x x', ok x m n -> ok x' m n -> x = x').
  Definition pair_of (m : bytes) (p : ident * ident) : bytes * bytes * bytes := (m, i_name (fst p), nm p).
  Definition backed (out : list (bytes * bytes * bytes)) (seen : list (bytes * bytes)) : Prop :=
    forall n m, lookup n seen = Some m -> exists x, In (m, x, n) out /\ ok x m n.
  Lemma clean_spec m : forall l seen out, backed out seen -> (forall p, In p l -> ok (i_name (fst p)) m (nm p)) ->
    let '(seen', rest, b) := clean_symbols used m seen l in
    (forall p, In p l -> In (nm p) used -> In (pair_of m p) (out ++ map (pair_of m) rest)) /\
    (forall p, In p rest -> In p l /\ In (nm p) used) /\
    backed (out ++ map (pair_of m) rest) seen' /\ (b = false -> rest = l).
  Proof.
    induction l as [|[from to] l IH]; intros seen out B O; cbn [clean_symbols]; [cbn; rewrite app_nil_r; split; [intros _ []|split; [intros _ []|auto]]|].
    destruct (mem_bytes (i_name to) used) eqn:U.
    - apply mem_bytes_In in U. destruct (match lookup (i_name to) seen with Some m' => beq m' m | None => false end) eqn:L.
      + destruct (lookup (i_name to) seen) as [m'|] eqn:L'; [|discriminate]. apply beq_eq in L. subst m'.
        specialize (IH seen out B (fun p P => O p (or_intror P))). destruct (clean_symbols used m seen l) as [[seen' rest] b]. destruct IH as (I1 & I2 & I3 & I4).
        split; [|split; [|split; [auto|discriminate]]]; [|intros p P; destruct (I2 p P); split; [right|]; auto].
        intros p [<- |P] Up; [|now apply I1]. destruct (B _ _ L') as (x & X & K). apply in_or_app. left. unfold pair_of. rewrite (one _ _ _ _ (O (from, to) (or_introl eq_refl)) K). exact X.
      + specialize (IH ((i_name to, m) :: seen) (out ++ [pair_of m (from, to)])).
        destruct (clean_symbols used m _ l) as [[seen' rest] b]. destruct IH as (I1 & I2 & I3 & I4).
        * intros n m'. cbn [lookup]. destruct (beq n (i_name to)) eqn:E.
          -- apply beq_eq in E. subst n. intro X. injection X as <-. exists (i_name from). split; [apply in_or_app; right; left; reflexivity|]. apply (O (from, to)). left; auto.
          -- intro X. destruct (B _ _ X) as (x & Y & K). exists x. split; auto. apply in_or_app. auto.
        * intros p P. apply O. right. auto.
        * cbn [map]. rewrite <- app_assoc in I1, I3. cbn [app] in I1, I3. split; [|split; [|split; [auto|]]].
          -- intros p [<- |P] Up; [apply in_or_app; right; left; auto|now apply I1].
          -- intros p [<- |P]; [split; [left|]; auto|]. destruct (I2 p P). split; [right|]; auto.
          -- intro X. rewrite I4; auto.
    - specialize (IH seen out B (fun p P => O p (or_intror P))). destruct (clean_symbols used m seen l) as [[seen' rest] b]. destruct IH as (I1 & I2 & I3 & I4).
      split; [|split; [|split; [auto|discriminate]]]; [|intros p P; destruct (I2 p P); split; [right|]; auto].
      intros p [<- |P] Up; [|now apply I1]. apply mem_bytes_In in Up. unfold nm in Up. cbn [snd] in Up. congruence.
  Qed.
  (** What one statement becomes. *)
  Definition cleaned (s : option expr) (a : list (option expr)) : Prop :=
    match s with
    | Some (ELoad c p m fr to r k) =>
        a = [s] /\ marked_unused c \/
        (a = [] /\ c_before c = [] /\ c_after c = []) \/
        (exists q, a = [Some (ECommentBlock (Comments [] [] (c_before c ++ c_after c)) q)]) \/
        (exists fr' to', a = [Some (ELoad c p m fr' to' r k)] /\ forall q, In q (combine fr' to') -> In q (combine fr to) /\ In (nm q) used)
    | _ => a = [s]
    end.
  Lemma clean_loads_spec : forall l seen out, backed (bindings out) seen -> (forall m x n, In (m, x, n) (bindings l) -> ok x m n) ->
    let '(l', b) := clean_loads srt used seen l in
    (forall m x n, In (m, x, n) (bindings l) -> In n used -> In (m, x, n) (bindings (out ++ l'))) /\
    (exists parts, Forall2 cleaned l parts /\ l' = List.concat parts) /\
    (b = false -> Forall2 (fun s s' => unbound s' = unbound s /\ Permutation (LoadsSpec.symbols s') (LoadsSpec.symbols s)) l l').
  Proof.
    unfold bindings. induction l as [|s l IH]; intros seen out B O; cbn [clean_loads].
    - split; [intros m x n []|]. split; [exists []; auto|auto].
    - assert (D : forall a b, (forall m x n, In (m, x, n) (bindings_of s) -> In n used -> In (m, x, n) (flat_map bindings_of (out ++ a))) -> cleaned s a ->
        (b = false -> exists s', a = [s'] /\ unbound s' = unbound s /\ Permutation (LoadsSpec.symbols s') (LoadsSpec.symbols s)) ->
        forall seen', backed (flat_map bindings_of (out ++ a)) seen' ->
        let '(l', b') := let (l'', b') := clean_loads srt used seen' l in (a ++ l'', b || b') in
        (forall m x n, In (m, x, n) (flat_map bindings_of (s :: l)) -> In n used -> In (m, x, n) (flat_map bindings_of (out ++ l'))) /\
        (exists parts, Forall2 cleaned (s :: l) parts /\ l' = List.concat parts) /\
        (b' = false -> Forall2 (fun s s' => unbound s' = unbound s /\ Permutation (LoadsSpec.symbols s') (LoadsSpec.symbols s)) (s :: l) l')).
      { intros a b K C F seen' B'. specialize (IH seen' (out ++ a) B' (fun m x n X => O m x n (in_or_app _ _ _ (or_intror X)))).
        destruct (clean_loads srt used seen' l) as [l'' b']. destruct IH as (I1 & (parts & I2 & I3) & I4). split; [|split].
        - intros m x n X U. rewrite app_assoc. cbn [flat_map] in X. apply in_app_or in X as [X|X]; [|now apply I1].
          rewrite flat_map_app. apply in_or_app. left. now apply K.
        - exists (a :: parts). split; [constructor; auto|]. cbn. congruence.
        - intro X. apply orb_false_iff in X as [X1 X2]. destruct (F X1) as (s' & -> & F'). cbn [app]. constructor; auto. }
      assert (T2 : cleaned s [s] -> let '(l', b) := let (l'', b') := clean_loads srt used seen l in ([s] ++ l'', false || b') in
        (forall m x n, In (m, x, n) (flat_map bindings_of (s :: l)) -> In n used -> In (m, x, n) (flat_map bindings_of (out ++ l'))) /\
        (exists parts, Forall2 cleaned (s :: l) parts /\ l' = List.concat parts) /\
        (b = false -> Forall2 (fun s s' => unbound s' = unbound s /\ Permutation (LoadsSpec.symbols s') (LoadsSpec.symbols s)) (s :: l) l')).
      { intro C. apply D; auto.
        - intros m x n X _. rewrite flat_map_app. apply in_or_app. right. cbn. rewrite app_nil_r. auto.
        - eauto.
        - intros n m X. destruct (B n m X) as (x & Y & K). exists x. split; auto. rewrite flat_map_app. apply in_or_app. auto. }
      assert (L : (exists c p m fr to r k, s = Some (ELoad c p m fr to r k)) \/ (clean_load srt used seen s = (seen, [s], false) /\ cleaned s [s])).
      { destruct s as [s|]; [|right; split; reflexivity]. destruct s; eauto 11; right; split; reflexivity. }
      destruct L as [(c & p & m & fr & to & r & k & ->)|[-> C]]; [|now apply T2]. cbn [clean_load].
      destruct (ContainsComments _ _) eqn:Cc; [apply T2; cbn; left; split; auto; now apply marked_spec in Cc|]. clear T2.
      pose proof (clean_spec (s_value m) (combine fr to) seen (flat_map bindings_of out) B) as H.
      destruct (clean_symbols used (s_value m) seen (combine fr to)) as [[seen' rest] b]. destruct H as (H1 & H2 & H3 & H4).
      { intros q Q. apply O. cbn [flat_map]. apply in_or_app. left. cbn. apply in_map_iff. exists q. auto. }
      destruct rest as [|q0 rest0] eqn:R.
      + cbn [map] in H1, H3. rewrite app_nil_r in H1, H3.
        assert (Z : forall cb, flat_map bindings_of [Some (ECommentBlock cb no_pos)] = []) by reflexivity.
        apply D; [| |discriminate|].
        * intros m' x n X U. cbn in X. apply in_map_iff in X as (q & X & Q). injection X as <- <- <-. rewrite flat_map_app. apply in_or_app. left. now apply (H1 q).
        * cbn [cleaned]. destruct (c_before c) as [|c1 cb] eqn:Eb; [destruct (c_after c) as [|c2 ca] eqn:Ea|]; [right; left; auto|right; right; left; eauto|right; right; left].
          exists no_pos. destruct (c_after c); reflexivity.
        * rewrite flat_map_app. destruct (c_before c), (c_after c); cbn [flat_map bindings_of app]; rewrite ?app_nil_r; auto.
      + rewrite <- R in *. clear R q0 rest0. pose proof (srt_perm srt Hs to_less rest) as P. set (l1 := srt to_less rest) in *.
        assert (Bi : flat_map bindings_of [Some (ELoad c p m (map fst l1) (map snd l1) r k)] = map (pair_of (s_value m)) l1) by (cbn; rewrite combine_map, app_nil_r; reflexivity).
        assert (In1 : forall z, In z (flat_map bindings_of out ++ map (pair_of (s_value m)) rest) -> In z (flat_map bindings_of (out ++ [Some (ELoad c p m (map fst l1) (map snd l1) r k)]))).
        { intros z Z. rewrite flat_map_app, Bi. apply in_or_app. apply in_app_or in Z as [Z|Z]; auto. right. eapply Permutation_in; [apply Permutation_map, Permutation_sym, P|auto]. }
        apply D.
        * intros m' x n X U. cbn in X. apply in_map_iff in X as (q & X & Q). injection X as <- <- <-. apply In1. now apply (H1 q).
        * cbn [cleaned]. right. right. right. exists (map fst l1), (map snd l1). split; auto. rewrite combine_map. intros q Q. apply H2. now apply (Permutation_in _ P).
        * intro X. rewrite (H4 X) in P. eexists. split; [reflexivity|]. split; auto. cbn. rewrite combine_map. auto.
        * intros n m' X. destruct (H3 n m' X) as (x & Y & K). exists x. split; auto.
  Qed.
End Clean.

(** Every name that is used in the code keeps its binding, provided that no module is the source of two symbols under one local name. *)
Definition one_source (l : list (option expr)) : Prop := forall m x x' n, In (m, x, n) (bindings l) -> In (m, x', n) (bindings l) -> x = x'.
Theorem C72_used_names_kept_partial :
  forall srt c fm l, sorts srt -> one_source l -> let f := EFile c fm l in let l' := fst (cleanUnusedLoads srt f) in
    forall m x n, In (m, x, n) (bindings l) -> uses f n -> In (m, x, n) (bindings l').
Proof.
  intros srt c fm l Hs One f l' m x n H U. pose proof (clean_loads_spec srt Hs (UsedSymbols f) (fun x m n => In (m, x, n) (bindings l)) (fun m n x x' => One m x x' n) l [] []) as S1.
  unfold l', cleanUnusedLoads, f in *. destruct (clean_loads _ _ _ _) as [l1 b]. destruct S1 as (S1 & _); [intros ? ? X; discriminate X|auto|]. apply S1; auto. now apply used_spec.
Qed.
(** Statements other than loads stay; a load keeps its module and comments, and loses all names that are not used in the code, unless it is
    marked with @unused; if no name is left, its comments before and after it stay.  The result says whether anything was removed. *)
Theorem C72_only_unused_removed :
  forall srt c fm l, sorts srt -> one_source l -> let f := EFile c fm l in let r := cleanUnusedLoads srt f in
    (exists parts, fst r = List.concat parts /\ Forall2 (fun s a =>
      match s with
      | Some (ELoad c p m fr to e k) =>
          a = [s] /\ marked_unused c \/
          a = [] /\ c_before c = [] /\ c_after c = [] \/
          (exists q, a = [Some (ECommentBlock (Comments [] [] (c_before c ++ c_after c)) q)]) \/
          (exists fr' to', a = [Some (ELoad c p m fr' to' e k)] /\ forall from to1, In (from, to1) (combine fr' to') -> In (from, to1) (combine fr to) /\ uses f (i_name to1))
      | _ => a = [s]
      end) l parts) /\
    (snd r = false -> Forall2 (fun s s' => unbound s' = unbound s /\ Permutation (LoadsSpec.symbols s') (LoadsSpec.symbols s)) l (fst r)).
Proof.
  intros srt c fm l Hs One f r. pose proof (clean_loads_spec srt Hs (UsedSymbols f) (fun x m n => In (m, x, n) (bindings l)) (fun m n x x' => One m x x' n) l [] []) as S1.
  unfold r, cleanUnusedLoads, f in *. destruct (clean_loads _ _ _ _) as [l1 b]. destruct S1 as (_ & (parts & S1 & S2) & S3); [intros ? ? X; discriminate X|auto|]. cbn [fst snd]. split; auto.
  exists parts. split; auto. clear - S1. set (f := EFile c fm l) in *. clearbody f. induction S1 as [|s a l parts C _ IH]; constructor; auto. destruct s as [[]|]; auto. cbn [cleaned] in C. destruct C as [C|[C|[C|(fr' & to' & C & D)]]]; auto.
  right. right. right. exists fr', to'. split; auto. intros x y Q. destruct (D _ Q) as [D1 D2]. split; auto. now apply used_spec.
Qed.
Definition clean_ (l : list (option expr)) : list (option expr) := fst (cleanUnusedLoads (@isort _) (EFile no_com meta_ l)).
Definition use_ (n : bytes) : option expr := Some (ECall no_com (v_ n) no_pos [] en_ false false).
Example C72_nontrivial :
  let l := [load_ no_com %"a" [(%"y", %"y"); (%"x", %"x"); (%"q", %"b")]; load_ (Comments [Comment no_pos %"# c"] [] []) %"b" [(%"u", %"u")]; load_ no_com %"a" [(%"x", %"x")]; use_ %"x"; use_ %"b"] in
  one_source l /\ uses (EFile no_com meta_ l) %"b" /\
  clean_ l = [load_ no_com %"a" [(%"q", %"b"); (%"x", %"x")]; Some (ECommentBlock (Comments [] [] [Comment no_pos %"# c"]) no_pos); use_ %"x"; use_ %"b"].
Proof.
  split; [intros m x x' n H H'; cbn in H, H'; intuition congruence|]. split; [|reflexivity].
  eapply u_part; [apply sub_file; do 4 right; left; reflexivity|]. eapply u_part; [apply sub_callee|]. apply (u_name (id_ %"b")).
Qed.
(** Annotations are not looked at: def f() -> x *)
Theorem C72_types_refuted :
  exists l, refers plain_type (EFile no_com meta_ l) %"x" /\ one_source l /\ bindings l = [(%"a", %"x", %"x")] /\ bindings (clean_ l) = [].
Proof.
  exists [load_ no_com %"a" [(%"x", %"x")]; def_ [] (Some (v_ %"x"))]. split.
  - right. exists (v_ %"x"). split; [|split; [exact Logic.I|apply (u_name (id_ %"x"))]].
    apply (a_part _ (match def_ [] (Some (v_ %"x")) with Some e => e | None => v_ %"x" end)); [constructor; cbn; auto|constructor].
  - split; [intros m x x' n H H'; cbn in H, H'; intuition congruence|]. split; reflexivity.
Qed.
(** Two symbols of one module under one name: the second load, which counts, is removed. *)
Theorem C72_one_source_refuted :
  exists l, uses (EFile no_com meta_ l) %"x" /\ In (%"a", %"q", %"x") (bindings l) /\ ~ In (%"a", %"q", %"x") (bindings (clean_ l)).
Proof.
  exists [load_ no_com %"a" [(%"p", %"x")]; load_ no_com %"a" [(%"q", %"x")]; use_ %"x"]. split.
  - eapply u_part; [apply sub_file; do 2 right; left; reflexivity|]. eapply u_part; [apply sub_callee|]. apply (u_name (id_ %"x")).
  - split; [right; left; reflexivity|]. cbv. intuition discriminate.
Qed.
(** The comment at the end of a line is lost. *)
Theorem C72_suffix_comment_refuted :
  exists l, flat_map stmt_comments l = [Comment no_pos %"# why"] /\ clean_ l = [].
Proof. exists [load_ (Comments [] [Comment no_pos %"# why"] []) %"a" [(%"x", %"x")]]. split; reflexivity. Qed.

Print Assumptions C71_used_names_kept_partial.
Print Assumptions C71_unused_names_removed.
Print Assumptions C71_union_type_refuted.
Print Assumptions C71_tuple_type_refuted.
Print Assumptions C71_dotted_type_refuted.
Print Assumptions C71_comments_refuted.
Print Assumptions C71_idempotent_refuted.
Print Assumptions C72_used_names_kept_partial.
Print Assumptions C72_only_unused_removed.
Print Assumptions C72_types_refuted.
Print Assumptions C72_one_source_refuted.
Print Assumptions C72_suffix_comment_refuted.
