(** Lemmas about Bzlmod.v. *)
From Verif Require Import Base BaseProofs Ast Rewrite RuleApi RuleSpec RuleProofs RulesSpec PropRules LoadsSpec Labels Cli Bzlmod BzlmodSpec.

Lemma keyword_spec a flag : parseBooleanKeywordArg a flag = true <->
  exists v, gives flag a v /\ ~ exists i, v = EIdent i /\ i_name i = %"False".
Proof.
  unfold gives. split.
  - destruct a; try discriminate. destruct a1; try discriminate. cbn [parseBooleanKeywordArg].
    destruct (beq_spec (i_name i) flag) as [<-|]; [|discriminate]. intros H. exists a2.
    split; [do 5 eexists; eauto|]. intros (j & -> & E). rewrite E in H. discriminate H.
  - intros (v & (c & i & p & op & b & -> & <-) & N). cbn [parseBooleanKeywordArg]. rewrite beq_refl.
    destruct v; auto. apply negb_true_iff, beq_neq. intros E. apply N. eauto.
Qed.
Lemma flag_spec flag extra : existsb (fun a => parseBooleanKeywordArg a flag) extra = true <-> flag_set flag extra.
Proof.
  unfold flag_set. rewrite existsb_exists. split.
  - intros (a & Ha & H). apply keyword_spec in H as (v & G & N). eauto 6.
  - intros (a & v & Ha & G & N). exists a. split; auto. apply keyword_spec. eauto.
Qed.
Lemma ext_spec s x : parseUseExtension s = Some x <->
  exists extra, uses_extension s (x_proxy x) (x_file x) (x_name x) extra /\
    (flag_set %"dev_dependency" extra <-> x_dev x = true) /\ (flag_set %"isolate" extra <-> x_isolated x = true).
Proof.
  unfold uses_extension. split.
  - destruct s as [e|]; [|discriminate]. destruct e; try discriminate. destruct e1; try discriminate.
    destruct e2; try discriminate. destruct e2; try discriminate. destruct args as [|[] [|[] extra]]; try discriminate.
    cbn [parseUseExtension]. destruct (beq_spec (i_name i0) %"use_extension") as [E|]; [|discriminate].
    intros H. injection H as <-. cbn [x_proxy x_file x_name x_dev x_isolated]. exists extra.
    rewrite !flag_spec. split; [|tauto]. do 13 eexists. split; [reflexivity|]. auto.
  - intros (extra & (c & lhs & p & op & b & c' & f & p' & sf & sn & en & k & m & -> & E1 & E2 & E3 & E4) & D & I).
    cbn [parseUseExtension]. rewrite E2, beq_refl. f_equal. rewrite E1, E3, E4. destruct x as [xp xf xn xd xi]; cbn [x_proxy x_file x_name x_dev x_isolated] in *.
    f_equal; apply eq_true_iff_eq; rewrite flag_spec; auto.
Qed.
Lemma ext_some s p f n extra : uses_extension s p f n extra -> exists x, parseUseExtension s = Some x /\
  x_proxy x = p /\ x_file x = f /\ x_name x = n /\
  (flag_set %"dev_dependency" extra <-> x_dev x = true) /\ (flag_set %"isolate" extra <-> x_isolated x = true).
Proof.
  intros U. set (x := Ext p f n (existsb (fun a => parseBooleanKeywordArg a %"dev_dependency") extra) (existsb (fun a => parseBooleanKeywordArg a %"isolate") extra)).
  exists x. assert (D : flag_set %"dev_dependency" extra <-> x_dev x = true) by (symmetry; apply flag_spec).
  assert (I : flag_set %"isolate" extra <-> x_isolated x = true) by (symmetry; apply flag_spec).
  split; [apply ext_spec; exists extra; auto|]. auto.
Qed.
Lemma uses_fun s p f n e p' f' n' e' : uses_extension s p f n e -> uses_extension s p' f' n' e' -> p = p' /\ f = f' /\ n = n' /\ e = e'.
Proof.
  intros (c & lhs & q & op & b & c' & g & q' & sf & sn & en & k & m & -> & <- & _ & <- & <-) (? & ? & ? & ? & ? & ? & ? & ? & ? & ? & ? & ? & ? & E & <- & _ & <- & <-).
  injection E. intros. subst. auto.
Qed.

(** ** The module's name *)
Definition mod_name (r : expr) : bytes :=
  match callee_args r with
  | Some (_, args) => if negb (beq (AttrString %"repo_name" args) []) then AttrString %"repo_name" args else AttrString %"name" args
  | None => []
  end.
Lemma string_attr_spec key args n : n <> [] -> (string_attr key args n <-> AttrString key args = n).
Proof. intros ne. rewrite AttrString_spec. split; auto. intros [H|[? _]]; congruence. Qed.
Lemma no_string_attr key args : (forall n, string_attr key args n -> n = []) <-> AttrString key args = [].
Proof.
  rewrite AttrString_spec. split.
  - intros H. destruct (AttrString key args) as [|a l] eqn:E.
    + apply AttrString_spec in E. auto.
    + apply string_attr_spec in E; [|discriminate]. apply H in E. discriminate.
  - intros [(l & H & E)|[_ H]] n (l' & H' & <-).
    + pose proof (attr_is_fun _ _ _ _ H H') as X. injection X as <-. auto.
    + exfalso. eapply H; eauto.
Qed.
Lemma mod_name_spec r n x args : call_of r x args -> has_kind x %"module" -> (module_named r n <-> mod_name r = n /\ n <> []).
Proof.
  intros C K. pose proof C as C'. apply callee_args_spec in C'. unfold mod_name. rewrite C'.
  unfold module_named. split.
  - intros (x' & args' & C1 & _ & H). apply callee_args_spec in C1. rewrite C' in C1. injection C1 as <- <-.
    destruct H as [[H ne]|(H & ne & N)].
    + apply string_attr_spec in H; auto. rewrite H. destruct n; [congruence|]. split; [reflexivity|discriminate].
    + apply no_string_attr in N. rewrite N. cbn [beq negb]. apply string_attr_spec in H; auto.
  - intros [H ne]. exists x, args. split; auto. split; auto.
    destruct (AttrString %"repo_name" args) as [|a l] eqn:E; cbn [beq negb] in H.
    + right. split; [apply string_attr_spec; auto|]. split; auto. apply no_string_attr. auto.
    + left. split; auto. apply string_attr_spec; [auto|congruence].
Qed.
Lemma apparent_spec stmts : apparent stmts (getApparentModuleName stmts).
Proof.
  exists (all_rules stmts). split; [apply all_rules_spec|]. unfold getApparentModuleName, Rules. rewrite rules_of_filter.
  set (P := fun e => match callee_args e with Some (x, _) => beq %"module" [] || beq (kind_of x) %"module" | None => false end).
  set (step := fun acc r => match callee_args r with
     | Some (_, args) => if negb (beq (AttrString %"repo_name" args) []) then AttrString %"repo_name" args
        else if negb (beq (AttrString %"name" args) []) then AttrString %"name" args else acc
     | None => acc end).
  assert (ST : forall acc r, step acc r = match mod_name r with [] => acc | n => n end).
  { intros acc r. unfold step, mod_name. destruct (callee_args r) as [[x args]|]; auto.
    destruct (AttrString %"repo_name" args); cbn [beq negb]; auto. destruct (AttrString %"name" args); auto. }
  assert (PM : forall r, P r = true <-> exists x args, call_of r x args /\ has_kind x %"module").
  { intros r. unfold P. split.
    - destruct (callee_args r) as [[x args]|] eqn:E; [|discriminate]. cbn [beq orb]. intros H. apply beq_eq in H. apply callee_args_spec in E.
      exists x, args. split; auto. apply kind_spec; [discriminate|auto].
    - intros (x & args & C & K). apply callee_args_spec in C. rewrite C. cbn [beq orb]. apply beq_eq. apply kind_spec; [discriminate|auto]. }
  induction (all_rules stmts) as [|r l IH] using rev_ind.
  - right. split; [intros r n []|reflexivity].
  - rewrite filter_app, fold_left_app. cbn [filter]. destruct (P r) eqn:E.
    + cbn [fold_left]. rewrite ST. apply PM in E as (x & args & C & K). destruct (mod_name r) as [|a m] eqn:M.
      * destruct IH as [(b & r0 & d & -> & N & R)|[N R]].
        -- left. exists b, r0, (d ++ [r]). rewrite <- app_assoc. split; auto. split; auto. intros r' n Hr.
           apply in_app_or in Hr as [Hr|[<-|[]]]; [apply R; auto|]. intros Hn. apply (mod_name_spec r n x args) in Hn; auto. destruct Hn; congruence.
        -- right. split; auto. intros r' n Hr. apply in_app_or in Hr as [Hr|[<-|[]]]; [apply N; auto|]. intros Hn. apply (mod_name_spec r n x args) in Hn; auto. destruct Hn; congruence.
      * left. exists l, r, []. split; auto. split; [apply (mod_name_spec r _ x args); auto; split; [auto|discriminate]|]. intros ? ? [].
    + cbn [fold_left]. assert (NR : forall n, ~ module_named r n).
      { intros n (x & args & C & K & _). assert (P r = true) by (apply PM; eauto). congruence. }
      destruct IH as [(b & r0 & d & -> & N & R)|[N R]].
      * left. exists b, r0, (d ++ [r]). rewrite <- app_assoc. split; auto. split; auto. intros r' n Hr.
        apply in_app_or in Hr as [Hr|[<-|[]]]; [apply R; auto|auto].
      * right. split; auto. intros r' n Hr. apply in_app_or in Hr as [Hr|[<-|[]]]; [apply N; auto|auto].
Qed.
Lemma module_named_fun r n n' : module_named r n -> module_named r n' -> n = n'.
Proof.
  intros H H'. pose proof H as (x & args & C & K & _). apply (mod_name_spec r n x args) in H as [<- _]; auto.
  apply (mod_name_spec r n' x args) in H' as [<- _]; auto.
Qed.
Lemma split_last {A} (P : A -> Prop) a r b a' r' b' : a ++ r :: b = a' ++ r' :: b' -> P r -> P r' ->
  (forall x, In x b -> ~ P x) -> (forall x, In x b' -> ~ P x) -> r = r'.
Proof.
  revert a'. induction a as [|y a IH]; intros [|y' a'] E Hr Hr' N N'; cbn [app] in E; injection E; auto.
  - intros. subst. exfalso. apply (N r'); [apply in_or_app; right; left; auto|auto].
  - intros. subst. exfalso. apply (N' r); [apply in_or_app; right; left; auto|auto].
  - intros E' <-. eauto.
Qed.
Lemma apparent_fun stmts m m' : apparent stmts m -> apparent stmts m' -> m = m'.
Proof.
  intros (all & R & H) (all' & R' & H'). rewrite <- (rules_in_fun _ _ _ R R') in H'. clear R R'.
  destruct H as [(a & r & b & E & N & L)|[N ->]], H' as [(a' & r' & b' & E' & N' & L')|[N' ->]]; auto.
  - rewrite E in E'. assert (r = r') as <-.
    { eapply (split_last (fun r => exists n, module_named r n)); eauto; intros x Hx (n & Hn); [eapply L|eapply L']; eauto. }
    eapply module_named_fun; eauto.
  - exfalso. eapply N'; [|eauto]. rewrite E. apply in_or_app; right; left; auto.
  - exfalso. eapply N; [|eauto]. rewrite E'. apply in_or_app; right; left; auto.
Qed.
Lemma normalize_spec m raw : normalizeLabelString raw m = format (full_label m raw).
Proof. unfold normalizeLabelString, full_label. destruct (repository (parse_relative raw [])) eqn:E; cbn [is_empty]; auto. Qed.

Lemma proxies_spec stmts file name dev p : In p (Proxies stmts file name dev) <-> extension_proxy stmts file name dev p.
Proof.
  unfold Proxies, extension_proxy. rewrite in_flat_map. split.
  - intros (s & Hs & H). destruct (parseUseExtension s) as [x|] eqn:E; [|destruct H].
    match type of H with In _ (if ?b then _ else _) => destruct b eqn:B; [|destruct H] end. destruct H as [<-|[]].
    apply andb_true_iff in B as [B B4]. apply andb_true_iff in B as [B B3]. apply andb_true_iff in B as [B1 B2].
    apply ext_spec in E as (extra & U & D & I). apply beq_eq in B3, B4. apply Bool.eqb_prop in B1. rewrite !normalize_spec in B3.
    exists s, (x_file x), extra, (getApparentModuleName stmts). rewrite <- B4, <- B1. split; auto. split; auto. split; [apply apparent_spec|].
    split; auto. split; auto. rewrite I. destruct (x_isolated x); [discriminate|congruence].
  - intros (s & f & extra & m & Hs & U & A & F & D & I). exists s. split; auto.
    destruct (ext_some _ _ _ _ _ U) as (x & E & <- & <- & <- & D' & I'). rewrite E.
    rewrite (apparent_fun _ _ _ A (apparent_spec stmts)) in F. rewrite !normalize_spec, F, !beq_refl, !andb_true_r.
    assert (x_dev x = dev) as -> by (apply eq_true_iff_eq; tauto). rewrite Bool.eqb_reflx.
    destruct (x_isolated x) eqn:X; [exfalso; tauto|]. left; auto.
Qed.
Lemma find_split {A} (p : A -> bool) l x : find p l = Some x -> exists a b, l = a ++ x :: b /\ p x = true /\ forall y, In y a -> p y = false.
Proof.
  induction l as [|y l IH]; cbn [find]; [discriminate|]. destruct (p y) eqn:E.
  - intros H. injection H as ->. exists [], l. repeat split; auto. intros ? [].
  - intros H. destruct (IH H) as (a & b & -> & Hx & N). exists (y :: a), b. repeat split; auto. intros z [<-|Hz]; auto.
Qed.
Lemma all_proxies_spec stmts p q : In q (AllProxies stmts p) <-> same_usage stmts p q.
Proof.
  unfold AllProxies, same_usage. set (P := fun s => match parseUseExtension s with Some x => beq (x_proxy x) p | None => false end). split.
  - destruct (find P stmts) as [s|] eqn:F; [|intros []]. apply find_split in F as (a & b & E & Ps & N). unfold P in Ps.
    destruct (parseUseExtension s) as [x|] eqn:X; [|discriminate]. apply beq_eq in Ps. subst p.
    pose proof X as X'. apply ext_spec in X' as (extra & U & D & I). intros H.
    exists a, s, b, (x_file x), (x_name x), extra. split; auto. split; auto. split.
    + intros s' f' n' e' Hs U'. apply N in Hs. unfold P in Hs. destruct (ext_some _ _ _ _ _ U') as (x' & E' & P' & _). rewrite E', P', beq_refl in Hs. discriminate.
    + destruct (x_isolated x) eqn:XI.
      * left. split; [apply I; auto|]. destruct H as [<-|[]]. auto.
      * right. rewrite I. split; [congruence|]. exists (x_dev x). split; auto. apply proxies_spec. auto.
  - intros (a & s & b & f & n & extra & E & U & N & H). destruct (ext_some _ _ _ _ _ U) as (x & X & EP & <- & <- & D & I).
    assert (F : find P stmts = Some s).
    { rewrite E. apply find_app_skip; [|unfold P; rewrite X, EP; apply beq_refl]. intros y Hy. unfold P.
      destruct (parseUseExtension y) as [x'|] eqn:X'; auto. apply beq_neq. intros E'. apply ext_spec in X' as (e' & U' & _).
      rewrite E' in U'. eapply N; eauto. }
    rewrite F, X. destruct H as [[H ->]|[H (dev & Hd & H')]].
    + rewrite (proj1 I H). left; auto.
    + destruct (x_isolated x) eqn:XI; [exfalso; tauto|]. apply proxies_spec.
      assert (x_dev x = dev) as -> by (apply eq_true_iff_eq; tauto). auto.
Qed.

(** ** use_repo calls *)
Lemma is_use_repo_spec proxies s : is_use_repo proxies s = true <-> exists args, use_repo_of proxies s args.
Proof.
  unfold use_repo_of. split.
  - destruct s as [e|]; [|discriminate]. destruct e; try discriminate. destruct e; try discriminate. destruct args as [|[] args]; try discriminate.
    cbn [is_use_repo]. intros H. apply andb_true_iff in H as [H1 H2]. apply beq_eq in H1. apply mem_bytes_In in H2.
    exists args. do 7 eexists. split; [reflexivity|]. auto.
  - intros (args & c & f & p & i & en & k & m & -> & E & I). cbn [is_use_repo]. rewrite E, beq_refl. apply mem_bytes_In in I. rewrite I. reflexivity.
Qed.
Lemma in_indices {A} (p : A -> bool) l : forall n i, In i (indices p n l) <-> exists x, n <= i /\ nth_error l (i - n) = Some x /\ p x = true.
Proof.
  induction l as [|y l IH]; intros n i; cbn [indices].
  - split; [intros []|]. intros (x & _ & E & _). destruct (i - n); discriminate.
  - assert (S : (exists x, S n <= i /\ nth_error l (i - S n) = Some x /\ p x = true) <->
                (exists x, n < i /\ nth_error (y :: l) (i - n) = Some x /\ p x = true)).
    { split; intros (x & L & E & P); exists x; (split; [lia|split; auto]).
      - replace (i - n) with (S (i - S n)) by lia. auto.
      - replace (i - n) with (S (i - S n)) in E by lia. auto. }
    destruct (p y) eqn:Py; cbn [In]; rewrite IH, S; split.
    + intros [<-|(x & L & E)]; [exists y; rewrite Nat.sub_diag; split; [lia|split; auto]|exists x; split; [lia|auto]].
    + intros (x & L & E & P). destruct (Nat.eq_dec n i) as [|]; auto. right. exists x. split; [lia|auto].
    + intros (x & L & E). exists x. split; [lia|auto].
    + intros (x & L & E & P). destruct (Nat.eq_dec n i) as [<-|].
      * rewrite Nat.sub_diag in E. injection E as <-. congruence.
      * exists x. split; [lia|auto].
Qed.
Lemma in_use_repos stmts proxies i : In i (UseRepos stmts proxies) <-> exists s args, nth_error stmts i = Some s /\ use_repo_of proxies s args.
Proof.
  unfold UseRepos. rewrite in_indices, Nat.sub_0_r. split.
  - intros (s & _ & E & H). apply is_use_repo_spec in H as (args & H). eauto.
  - intros (s & args & E & H). exists s. split; [lia|]. split; auto. apply is_use_repo_spec. eauto.
Qed.
Lemma use_repo_fun proxies s args args' : use_repo_of proxies s args -> use_repo_of proxies s args' -> args = args'.
Proof. intros (c & f & p & i & en & k & m & -> & _) (? & ? & ? & ? & ? & ? & ? & E & _). injection E. auto. Qed.
Lemma update_nth {A} (f : A -> A) l : forall i x, nth_error l i = Some x ->
  exists a b, l = a ++ x :: b /\ List.length a = i /\ update i f l = a ++ f x :: b.
Proof.
  induction l as [|y l IH]; intros [|i] x H; try discriminate; cbn [nth_error update] in *.
  - injection H as ->. exists [], l. auto.
  - destruct (IH i x H) as (a & b & -> & L & ->). exists (y :: a), b. cbn [app List.length]. auto.
Qed.
Lemma names_repo_spec a r : r <> [] -> (repoFromUseRepoArg a = r <-> names_repo a r).
Proof.
  intros ne. unfold names_repo. split.
  - destruct a; cbn [repoFromUseRepoArg]; try congruence; [intros E; exists s; auto|].
    destruct a2; try congruence. intros E. exists s. split; auto. right. do 5 eexists. reflexivity.
  - intros (s & <- & [->|(c & l & p & op & b & ->)]); reflexivity.
Qed.
Lemma seen_spec stmts proxies r : r <> [] -> (In r (seen_repos stmts (UseRepos stmts proxies)) <-> used_repo proxies stmts r).
Proof.
  intros ne. unfold seen_repos, used_repo. rewrite in_flat_map. split.
  - intros (i & Hi & H). apply in_use_repos in Hi as (s & args & E & U). unfold call_at in H. rewrite E in H.
    pose proof U as (c & f & p & j & en & k & m & -> & _). cbn [call_list tl] in H. apply in_map_iff in H as (a & Ha & Hin).
    apply names_repo_spec in Ha; auto. exists (Some (ECall c (EIdent f) p (EIdent j :: args) en k m)), args, a.
    split; [eapply nth_error_In; eauto|auto].
  - intros (s & args & a & Hs & U & Ha & N). apply In_nth_error in Hs as (i & E). exists i. split; [apply in_use_repos; eauto|].
    unfold call_at. rewrite E. pose proof U as (c & f & p & j & en & k & m & -> & _). cbn [call_list tl].
    apply in_map_iff. exists a. split; auto. apply names_repo_spec; auto.
Qed.
(** The fold of getLastUseRepo. *)
Lemma last_use_repo stmts calls : (forall i, In i calls -> exists e, call_at stmts i = Some e) -> StronglySorted lt calls ->
  match getLastUseRepo stmts calls with
  | None => calls = []
  | Some i => exists a b, calls = a ++ i :: b /\ exists e, call_at stmts i = Some e /\
      (forall j d, In j a -> call_at stmts j = Some d -> (call_end d < call_end e)%Z) /\
      (forall j d, In j b -> call_at stmts j = Some d -> (call_end d <= call_end e)%Z)
  end.
Proof.
  unfold getLastUseRepo. induction calls as [|i calls IH] using rev_ind; intros H S; [reflexivity|].
  rewrite fold_left_app. cbn [fold_left].
  assert (H' : forall i, In i calls -> exists e, call_at stmts i = Some e) by (intros; apply H; apply in_or_app; auto).
  assert (S' : StronglySorted lt calls).
  { clear -S. induction calls; cbn [app] in S; constructor; inversion S; subst; auto. apply Forall_app in H2. tauto. }
  specialize (IH H' S'). destruct (H i) as (e & E); [apply in_or_app; right; left; auto|].
  match goal with |- context [fold_left ?f calls None] => set (r := fold_left f calls None) in * end. destruct r as [j|].
  - destruct IH as (a & b & -> & e' & E' & A & B). rewrite E, E'. destruct (Z.ltb_spec (call_end e') (call_end e)) as [L|L].
    + exists (a ++ j :: b), []. split; auto. exists e. split; auto. split; [|intros ? ? []].
      intros k d Hk Ek. apply in_app_or in Hk as [Hk|[<-|Hk]].
      * specialize (A k d Hk Ek). lia.
      * rewrite E' in Ek. injection Ek as <-. auto.
      * specialize (B k d Hk Ek). lia.
    + exists a, (b ++ [i]). rewrite <- app_assoc. split; auto. exists e'. split; auto. split; auto.
      intros k d Hk Ek. apply in_app_or in Hk as [Hk|[<-|[]]]; [eauto|]. rewrite E in Ek. injection Ek as <-. auto.
  - subst calls. exists [], []. split; auto. exists e. split; auto. split; intros ? ? [].
Qed.
Lemma indices_sorted {A} (p : A -> bool) l : forall n, StronglySorted lt (indices p n l) /\ Forall (le n) (indices p n l).
Proof.
  induction l as [|x l IH]; intros n; cbn [indices]; [split; constructor|].
  destruct (IH (S n)) as [SS F]. assert (F' : Forall (le n) (indices p (S n) l)) by (eapply Forall_impl; [|eauto]; cbn; intros; lia).
  destruct (p x); split; auto; constructor; auto.
Qed.
