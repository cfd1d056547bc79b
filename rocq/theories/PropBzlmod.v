(** C53, C57: edits and queries of MODULE.bazel files. *)
From Verif Require Import Base BaseProofs Ast Rewrite RuleApi RuleSpec RuleProofs RulesSpec PropRule PropRules LoadsSpec Labels Cli Bzlmod BzlmodSpec BzlmodProofs.

(** The proxies of an extension, and of the usage a proxy belongs to. *)
Theorem C53_proxies :
  forall stmts file name dev p, In p (Proxies stmts file name dev) <-> extension_proxy stmts file name dev p.
Proof. exact proxies_spec. Qed.
Print Assumptions C53_proxies.
Theorem C53_all_proxies :
  forall stmts p q, In q (AllProxies stmts p) <-> same_usage stmts p q.
Proof. exact all_proxies_spec. Qed.
Print Assumptions C53_all_proxies.
(** The use_repo calls found are those of the proxies, each once and in order. *)
Theorem C53_use_repos :
  forall stmts proxies,
    StronglySorted lt (UseRepos stmts proxies) /\
    forall i, In i (UseRepos stmts proxies) <-> exists s args, nth_error stmts i = Some s /\ use_repo_of proxies s args.
Proof. intros. split; [apply indices_sorted|]. intros. apply in_use_repos. Qed.
Print Assumptions C53_use_repos.

Lemma pick_missing proxies stmts repos : ~ In [] repos ->
  pick (fun r => ~ used_repo proxies stmts r) repos
    (filter (fun r => negb (mem_bytes r (seen_repos stmts (UseRepos stmts proxies)))) repos)
    (filter (fun r => negb (negb (mem_bytes r (seen_repos stmts (UseRepos stmts proxies))))) repos).
Proof.
  intros H. apply pick_filter_in. intros r Hr. rewrite negb_true_iff. rewrite <- seen_spec by (intros ->; tauto).
  rewrite <- not_true_iff_false, mem_bytes_In. tauto.
Qed.
Lemma string_args_new l : Forall2 string_arg l (map new_repo l).
Proof. induction l; constructor; auto. eexists. split; reflexivity. Qed.
Lemma call_end_ends s z e : s = Some e -> ends_at s z -> z = call_end e.
Proof. intros -> (c & x & p & l & en & k & m & E & ->). injection E as ->. reflexivity. Qed.

(** Adding repos: nothing but the missing ones is added, to one call. *)
Theorem C53_add :
  forall stmts proxies repos, repos <> [] -> ~ In [] repos ->
    (exists s args, In s stmts /\ use_repo_of proxies s args) ->
    exists stmts', AddRepoUsages stmts (UseRepos stmts proxies) repos = Some stmts' /\
      repos_added proxies repos stmts stmts'.
Proof.
  intros stmts proxies repos ne nonil (s0 & args0 & Hs0 & U0). unfold AddRepoUsages. destruct repos as [|r0 rs] eqn:ER; [congruence|]. rewrite <- ER in *. clear ER r0 rs.
  assert (CA : forall i, In i (UseRepos stmts proxies) -> exists e, call_at stmts i = Some e).
  { intros i Hi. apply in_use_repos in Hi as (s & args & E & (c & f & p & j & en & k & m & -> & _)). unfold call_at. rewrite E. eauto. }
  pose proof (last_use_repo stmts (UseRepos stmts proxies) CA (proj1 (indices_sorted _ _ 0))) as L.
  destruct (getLastUseRepo stmts (UseRepos stmts proxies)) as [i|].
  2:{ exfalso. apply In_nth_error in Hs0 as (i & E). assert (In i (UseRepos stmts proxies)) by (apply in_use_repos; eauto). rewrite L in H. destruct H. }
  destruct L as (ia & ib & EU & e & Ee & A & B). eexists. split; [reflexivity|].
  set (new := filter (fun r => negb (mem_bytes r (seen_repos stmts (UseRepos stmts proxies)))) repos).
  assert (HI : In i (UseRepos stmts proxies)) by (rewrite EU; apply in_or_app; right; left; auto).
  apply in_use_repos in HI as (s & args & Es & U).
  destruct (update_nth (option_map (fun e => set_list (call_list e ++ map new_repo new) e)) stmts i s Es) as (a & b & E & La & ->).
  pose proof U as (c & f & p & j & en & k & m & ES & _).
  assert (Hse : s = Some e). { unfold call_at in Ee. rewrite Es in Ee. destruct s; congruence. }
  exists a, s, b. do 2 eexists. exists (filter (fun r => negb (negb (mem_bytes r (seen_repos stmts (UseRepos stmts proxies))))) repos), new. eexists.
  split; [exact E|]. split; [reflexivity|]. split; [eauto|]. split.
  { rewrite ES. cbn [option_map call_list set_list]. do 6 eexists. split; reflexivity. }
  split; [apply pick_missing; auto|]. split; [apply string_args_new|].
  assert (SO : StronglySorted lt (UseRepos stmts proxies)) by apply indices_sorted.
  assert (OR : forall x, In x ia -> x < i) by (intros x Hx; rewrite EU in SO; clear -SO Hx; induction ia as [|y ia IH]; [destruct Hx|]; cbn [app] in SO; inversion SO; subst; destruct Hx as [<-|Hx]; auto; rewrite Forall_forall in H2; apply H2, in_or_app; right; left; auto).
  assert (OR' : forall x, In x ib -> i < x) by (intros x Hx; rewrite EU in SO; clear -SO Hx; induction ia as [|y ia IH]; cbn [app] in SO; inversion SO; subst; auto; rewrite Forall_forall in H2; apply H2; auto).
  intros t targs z z' Ut Hz Hz'. pose proof Ut as (tc & tf & tp & tj & ten & tk & tm & ET & _).
  pose proof (call_end_ends _ _ _ Hse Hz) as ->. pose proof (call_end_ends _ _ _ ET Hz') as ->. split; intros Hin.
  - apply In_nth_error in Hin as (n & En). assert (n < List.length a) by (apply nth_error_Some; congruence).
    assert (E' : nth_error stmts n = Some t) by (rewrite E, nth_error_app1; auto).
    assert (Hn : In n (UseRepos stmts proxies)) by (apply in_use_repos; eauto). rewrite EU in Hn. apply in_app_or in Hn as [Hn|[Hn|Hn]].
    + eapply A; eauto. unfold call_at. rewrite E', ET. auto.
    + lia.
    + apply OR' in Hn. lia.
  - apply In_nth_error in Hin as (n & En).
    assert (E' : nth_error stmts (List.length a + S n) = Some t) by (rewrite E, nth_error_app2 by lia; replace (List.length a + S n - List.length a) with (S n) by lia; auto).
    assert (Hn : In (List.length a + S n) (UseRepos stmts proxies)) by (apply in_use_repos; eauto). rewrite EU in Hn. apply in_app_or in Hn as [Hn|[Hn|Hn]].
    + apply OR in Hn. lia.
    + lia.
    + eapply B; eauto. unfold call_at. rewrite E', ET. auto.
Qed.
Print Assumptions C53_add.
(** If the requested repos are different, each one is imported exactly once more often than before
    when it was missing, and not touched when it was there; in particular nothing is duplicated. *)
Lemma pick_NoDup {A} (P : A -> Prop) l a b : pick P l a b -> NoDup l -> NoDup a.
Proof.
  intros H. assert (I : forall x, In x a -> In x l) by (induction H; cbn [In]; intros y; intuition).
  induction H; intros N; inversion N; subst; auto; [constructor|]; auto.
  - intros Hx. apply H3. clear -H0 Hx. induction H0; cbn [In] in *; intuition.
  - apply IHpick; auto. clear -H0. induction H0; cbn [In]; intros y; intuition.
  - apply IHpick; auto. clear -H0. induction H0; cbn [In]; intros y; intuition.
Qed.
Definition use_at (proxies : list bytes) (stmts : list (option expr)) (r : bytes) (i j : nat) : Prop :=
  exists s args a, nth_error stmts i = Some s /\ use_repo_of proxies s args /\ nth_error args j = Some a /\ names_repo a r.
Lemma use_at_used proxies stmts r : used_repo proxies stmts r <-> exists i j, use_at proxies stmts r i j.
Proof.
  split.
  - intros (s & args & a & Hs & U & Ha & N). apply In_nth_error in Hs as (i & E). apply In_nth_error in Ha as (j & F).
    exists i, j, s, args, a. auto.
  - intros (i & j & s & args & a & E & U & F & N). exists s, args, a. apply nth_error_In in E, F. auto.
Qed.
Lemma names_repo_fun a r r' : names_repo a r -> names_repo a r' -> r = r'.
Proof.
  intros (s & <- & [->|(c & l & p & op & b & ->)]) (s' & <- & [E|(c' & l' & p' & op' & b' & E)]); congruence.
Qed.
Lemma string_names e r r' : string_arg r e -> (names_repo e r' <-> r = r').
Proof.
  intros (s & -> & <-). split.
  - intros N. eapply names_repo_fun; [|eauto]. exists s. auto.
  - intros <-. exists s. auto.
Qed.
Lemma pick_In {A} (P : A -> Prop) l a b : pick P l a b -> forall x, In x a <-> In x l /\ P x.
Proof.
  induction 1; intros y; cbn [In]; [tauto| |].
  - rewrite IHpick. split; [intros [<-|]|intros [[<-|] ?]]; tauto.
  - rewrite IHpick. split; [tauto|]. intros [[<-|] ?]; tauto.
Qed.
Theorem C53_add_once :
  forall stmts proxies repos stmts', NoDup repos -> repos_added proxies repos stmts stmts' ->
    forall r, r <> [] ->
      (used_repo proxies stmts' r <-> used_repo proxies stmts r \/ In r repos) /\
      (used_repo proxies stmts r -> forall i j, use_at proxies stmts' r i j <-> use_at proxies stmts r i j) /\
      (~ used_repo proxies stmts r -> forall i j i' j',
         use_at proxies stmts' r i j -> use_at proxies stmts' r i' j' -> i = i' /\ j = j').
Proof.
  intros stmts proxies repos stmts' ND (a & s & b & s' & l & old & missing & new & E1 & E2 & (args & U) & C & P & F & _) r Hr0.
  pose proof U as (c & f & p & h & en & k & m & ES & Ef & Ep).
  assert (U' : use_repo_of proxies s' (args ++ new)).
  { destruct C as (c1 & x1 & p1 & en1 & k1 & m1 & C1 & C2). rewrite ES in C1. injection C1 as <- <- <- <- <- <- <-.
    exists c, f, p, h, en, k, m. rewrite C2. cbn [app]. auto. }
  assert (NM : NoDup missing) by (eapply pick_NoDup; eauto).
  pose proof (pick_In _ _ _ _ P) as PI.
  assert (KEY : forall i j, use_at proxies stmts' r i j <-> use_at proxies stmts r i j \/
    (i = List.length a /\ List.length args <= j /\ nth_error missing (j - List.length args) = Some r)).
  { intros i j. unfold use_at. subst stmts stmts'. destruct (Nat.lt_trichotomy i (List.length a)) as [L|[->|L]].
    - rewrite !nth_error_app1 by auto. split; [auto|]. intros [H|(-> & _)]; [auto|lia].
    - rewrite !nth_error_app2, !Nat.sub_diag by lia. cbn [nth_error]. split.
      + intros (s1 & args1 & x & Hs & U1 & Hx & N). injection Hs as <-. rewrite (use_repo_fun _ _ _ _ U1 U') in Hx. clear U1 args1.
        destruct (Nat.lt_ge_cases j (List.length args)) as [Lj|Lj].
        * left. rewrite nth_error_app1 in Hx by auto. exists s, args, x. auto.
        * right. split; auto. split; auto. rewrite nth_error_app2 in Hx by auto.
          clear -Hx N F. revert Hx. generalize (j - List.length args). induction F as [|y e missing new G F IH]; intros [|n] Hx; try discriminate; cbn [nth_error] in *.
          -- injection Hx as <-. apply (string_names _ _ _ G) in N. rewrite N. reflexivity.
          -- eauto.
      + intros [(s1 & args1 & x & Hs & U1 & Hx & N)|(_ & Lj & H)].
        * injection Hs as <-. rewrite (use_repo_fun _ _ _ _ U1 U) in Hx. exists s', (args ++ new), x. split; auto. split; auto. split; auto.
          rewrite nth_error_app1; auto. apply nth_error_Some. congruence.
        * assert (G : exists x, nth_error new (j - List.length args) = Some x /\ names_repo x r).
          { clear -H F. revert H. generalize (j - List.length args). induction F as [|y e missing new G F IH]; intros [|n] Hx; try discriminate; cbn [nth_error] in *.
            - injection Hx as ->. exists e. split; auto. apply (string_names _ _ _ G). auto.
            - eauto. }
          destruct G as (x & Gx & N). exists s', (args ++ new), x. split; auto. split; auto. split; auto.
          rewrite nth_error_app2; auto.
    - rewrite !nth_error_app2 by lia. destruct (i - List.length a) as [|n] eqn:En; [lia|]. cbn [nth_error]. split; [auto|]. intros [H|(-> & _)]; [auto|lia]. }
  split; [|split].
  - rewrite !use_at_used. split.
    + intros (i & j & H). apply KEY in H as [H|(-> & _ & H)]; [left; eauto|right]. apply nth_error_In in H. apply PI in H. tauto.
    + intros [(i & j & H)|H]; [exists i, j; apply KEY; auto|].
      destruct (mem_bytes r (seen_repos stmts (UseRepos stmts proxies))) eqn:M.
      * apply mem_bytes_In, seen_spec in M; auto. apply use_at_used in M as (i & j & M). exists i, j. apply KEY. auto.
      * assert (I : In r missing).
        { apply PI. split; auto. intros X. apply seen_spec in X; auto. apply mem_bytes_In in X. congruence. }
        apply In_nth_error in I as (n & I). exists (List.length a), (List.length args + n). apply KEY. right. split; auto. split; [lia|]. rewrite <- I. f_equal. lia.
  - intros Hu i j. rewrite KEY. split; [|auto]. intros [H|(_ & _ & H)]; auto. apply nth_error_In in H. apply PI in H. tauto.
  - intros Hu i j i' j' H H'. apply KEY in H as [H|(-> & L1 & H)]; [exfalso; apply Hu, use_at_used; eauto|].
    apply KEY in H' as [H'|(-> & L2 & H')]; [exfalso; apply Hu, use_at_used; eauto|]. split; auto.
    assert (j - List.length args = j' - List.length args); [|lia].
    apply (proj1 (NoDup_nth_error missing) NM); [apply nth_error_Some; congruence|congruence].
Qed.
Print Assumptions C53_add_once.
(** A repo named twice in the request is imported twice. *)
Definition xuse (args : list expr) : option expr :=
  Some (ECall no_com (EIdent (Ident no_com no_pos %"use_repo")) no_pos args (End no_com (Pos 3 1 50)) false false).
Definition xid n := EIdent (Ident no_com no_pos n).
Theorem C53_duplicate_request_refuted :
  exists stmts proxies repos stmts', AddRepoUsages stmts (UseRepos stmts proxies) repos = Some stmts' /\
    stmts = [xuse [xid %"ext"]] /\ stmts' = [xuse [xid %"ext"; new_repo %"r"; new_repo %"r"]].
Proof. exists [xuse [xid %"ext"]], [%"ext"], [%"r"; %"r"]. eexists. split; [vm_compute; reflexivity|]. split; reflexivity. Qed.
Print Assumptions C53_duplicate_request_refuted.

(** Removing repos. *)
Lemma remove1 proxies repos s args : ~ In [] repos -> use_repo_of proxies s args ->
  repos_removed1 proxies repos s (option_map (remove_repos repos) s).
Proof.
  intros nonil U. right. pose proof U as (c & f & p & j & en & k & m & ES & _).
  exists (EIdent j), args, (filter (fun a => negb (mem_bytes (repoFromUseRepoArg a) repos)) args), (filter (fun a => mem_bytes (repoFromUseRepoArg a) repos) args).
  split. { rewrite ES. cbn [option_map remove_repos call_list set_list]. do 6 eexists. split; reflexivity. }
  split; auto. apply pick_filter_in. intros a Ha. rewrite mem_bytes_In. split.
  - intros H. exists (repoFromUseRepoArg a). split; auto. apply names_repo_spec; [|auto]. intros E; rewrite E in H; tauto.
  - intros (r & Hr & N). apply names_repo_spec in N; [congruence|]. intros ->; tauto.
Qed.
Lemma fold_update {A} (f : A -> A) (is : list nat) : forall l, NoDup is ->
  forall i, nth_error (fold_left (fun st i => update i f st) is l) i =
    if existsb (Nat.eqb i) is then option_map f (nth_error l i) else nth_error l i.
Proof.
  assert (U : forall (l : list A) i j, nth_error (update i f l) j = if Nat.eqb j i then option_map f (nth_error l j) else nth_error l j).
  { induction l as [|x l IH]; intros [|i] [|j]; cbn [update nth_error Nat.eqb]; auto. destruct (Nat.eqb j i); auto. }
  induction is as [|k is IH]; intros l N i; cbn [fold_left existsb]; auto. inversion N; subst. rewrite IH, U by auto.
  destruct (Nat.eqb_spec i k) as [->|]; cbn [orb]; auto.
  destruct (existsb (Nat.eqb k) is) eqn:E; auto. apply existsb_exists in E as (z & Hz & E). apply Nat.eqb_eq in E. subst. tauto.
Qed.
Lemma nth_Forall2 {A B} (R : A -> B -> Prop) : forall l l', List.length l = List.length l' ->
  (forall i x y, nth_error l i = Some x -> nth_error l' i = Some y -> R x y) -> Forall2 R l l'.
Proof.
  induction l as [|x l IH]; intros [|y l'] L H; try discriminate; constructor.
  - apply (H 0); auto.
  - apply IH; [injection L; auto|]. intros i a b. apply (H (S i)).
Qed.
Lemma update_length {A} (f : A -> A) : forall l i, List.length (update i f l) = List.length l.
Proof. induction l; intros [|i]; cbn [update List.length]; auto. Qed.
Theorem C53_remove :
  forall stmts proxies repos, repos <> [] -> ~ In [] repos ->
    Forall2 (repos_removed1 proxies repos) stmts (RemoveRepoUsages stmts (UseRepos stmts proxies) repos).
Proof.
  intros stmts proxies repos ne nonil. unfold RemoveRepoUsages. destruct repos as [|r0 rs] eqn:ER; [congruence|]. rewrite <- ER in *. clear ER r0 rs.
  assert (ND : NoDup (UseRepos stmts proxies)).
  { pose proof (proj1 (indices_sorted (is_use_repo proxies) stmts 0)) as S. fold (UseRepos stmts proxies) in S. clear -S.
    induction S; constructor; auto. rewrite Forall_forall in H. intros I. apply H in I. lia. }
  apply nth_Forall2.
  - generalize stmts at 1 3 as l. intros l. clear. generalize (UseRepos stmts proxies). intros is. revert l. induction is; intros l; cbn [fold_left]; auto. rewrite <- IHis, update_length. auto.
  - intros i s s' Hs Hs'. rewrite fold_update in Hs' by auto. rewrite Hs in Hs'. cbn [option_map] in Hs'.
    destruct (existsb (Nat.eqb i) (UseRepos stmts proxies)) eqn:E.
    + injection Hs' as <-. apply existsb_exists in E as (z & Hz & E). apply Nat.eqb_eq in E. subst z.
      apply in_use_repos in Hz as (s1 & args & E1 & U). rewrite Hs in E1. injection E1 as <-. eapply remove1; eauto.
    + injection Hs' as <-. left. split; auto. intros args U. assert (In i (UseRepos stmts proxies)) by (apply in_use_repos; eauto).
      apply not_true_iff_false in E. apply E. apply existsb_exists. exists i. split; auto. apply Nat.eqb_refl.
Qed.
Print Assumptions C53_remove.

(** ** The commands *)
Lemma usage_spec proxies s : match usage_proxy proxies s with
  | Some p => In p proxies /\ proxy_usage s p
  | None => forall q, In q proxies -> ~ proxy_usage s q end.
Proof.
  unfold usage_proxy, proxy_usage. destruct (parseUseExtension s) as [x|] eqn:E.
  - pose proof E as E'. apply ext_spec in E' as (extra & U & _). destruct (mem_bytes (x_proxy x) proxies) eqn:M.
    + apply mem_bytes_In in M. split; eauto.
    + intros q Hq [(f & n & e & U')|(c & c' & i & q1 & q2 & n & q3 & args & en & k & m & -> & _)].
      * destruct (uses_fun _ _ _ _ _ _ _ _ _ U U') as (<- & _). apply mem_bytes_In in Hq. congruence.
      * discriminate.
  - assert (NE : forall q f n e, ~ uses_extension s q f n e) by (intros q f n e U; destruct (ext_some _ _ _ _ _ U) as (x & X & _); congruence).
    destruct (parseTag s) as [p|] eqn:T.
    + assert (TT : exists c c' i q1 q2 n q3 args en k m, s = Some (ECall c (EDot c' (EIdent i) q1 q2 n) q3 args en k m) /\ i_name i = p).
      { destruct s as [e|]; [|discriminate]. destruct e; try discriminate. destruct e; try discriminate. destruct e; try discriminate.
        injection T as <-. do 11 eexists. split; reflexivity. }
      destruct (mem_bytes p proxies) eqn:M.
      * apply mem_bytes_In in M. split; auto.
      * intros q Hq [(f & n & e & U')|(c & c' & i & q1 & q2 & n & q3 & args & en & k & m & -> & <-)]; [eapply NE; eauto|].
        destruct TT as (? & ? & ? & ? & ? & ? & ? & ? & ? & ? & ? & TE & <-). injection TE as <- <- <- <- <- <- <- <- <- <- <-.
        apply mem_bytes_In in Hq. congruence.
    + intros q Hq [(f & n & e & U')|(c & c' & i & q1 & q2 & n & q3 & args & en & k & m & -> & <-)]; [eapply NE; eauto|discriminate].
Qed.
Lemma last_usage proxies stmts : forall n, match lastProxyUsage proxies n stmts with
  | Some (i, p) => exists a s b, stmts = a ++ s :: b /\ i = n + List.length a /\ In p proxies /\ proxy_usage s p /\
      (forall t q, In t b -> In q proxies -> ~ proxy_usage t q)
  | None => forall t q, In t stmts -> In q proxies -> ~ proxy_usage t q end.
Proof.
  induction stmts as [|s l IH]; intros n; cbn [lastProxyUsage]; [intros t q []|].
  specialize (IH (S n)). destruct (lastProxyUsage proxies (S n) l) as [[i p]|].
  - destruct IH as (a & s' & b & -> & -> & H). exists (s :: a), s', b. cbn [app List.length]. split; auto. split; [lia|auto].
  - pose proof (usage_spec proxies s) as U. destruct (usage_proxy proxies s) as [p|].
    + exists [], s, l. cbn [List.length]. split; auto. split; [lia|]. tauto.
    + intros t q [<-|Ht] Hq; auto.
Qed.
Lemma use_repo_on_spec add stmts proxies repos : repos <> [] -> ~ In [] repos ->
  (forall q, In q proxies -> exists s, In s stmts /\ proxy_usage s q) ->
  match use_repo_on add stmts proxies repos with
  | Panic => False
  | Error => proxies = []
  | Ok stmts' => proxies <> [] /\ use_repo_edited add proxies repos stmts stmts'
  end.
Proof.
  intros ne nonil HU. unfold use_repo_on. destruct proxies as [|q0 qs]; [auto|]. remember (q0 :: qs) as proxies eqn:EP. assert (PN : proxies <> []) by congruence.
  destruct (UseRepos stmts proxies) as [|i0 is] eqn:EU.
  - assert (NU : forall s args, In s stmts -> ~ use_repo_of proxies s args).
    { intros s args Hs U. apply In_nth_error in Hs as (i & Ei). assert (In i (UseRepos stmts proxies)) by (apply in_use_repos; eauto). rewrite EU in H. destruct H. }
    unfold NewUseRepo. pose proof (last_usage proxies stmts 0) as LU. destruct (lastProxyUsage proxies 0 stmts) as [[i p]|].
    2:{ exfalso. destruct (HU q0) as (s & Hs & U); [rewrite EP; left; auto|]. eapply LU; eauto. rewrite EP; left; auto. }
    destruct LU as (a & s & b & E & -> & Hp & U & N). rewrite Nat.add_0_l.
    assert (E1 : firstn (S (List.length a)) stmts = a ++ [s]).
    { rewrite E. change (a ++ s :: b) with (a ++ [s] ++ b). rewrite app_assoc, firstn_app.
      rewrite app_length. cbn [List.length]. replace (S (List.length a) - (List.length a + 1)) with 0 by lia.
      rewrite firstn_all2 by (rewrite app_length; cbn [List.length]; lia). cbn [firstn]. apply app_nil_r. }
    assert (E2 : skipn (S (List.length a)) stmts = b).
    { rewrite E. change (a ++ s :: b) with (a ++ [s] ++ b). rewrite app_assoc, skipn_app, skipn_all2 by (rewrite app_length; cbn [List.length]; lia).
      rewrite app_length. cbn [List.length app]. replace (S (List.length a) - (List.length a + 1)) with 0 by lia. reflexivity. }
    rewrite E1, E2. clear E1 E2. rewrite <- app_assoc. cbn [app].
    assert (NA : nth_error (a ++ s :: Some (use_repo_call p) :: b) (S (List.length a)) = Some (Some (use_repo_call p))).
    { rewrite nth_error_app2 by lia. replace (S (List.length a) - List.length a) with 1 by lia. reflexivity. }
    assert (UN : forall f, update (S (List.length a)) f (a ++ s :: Some (use_repo_call p) :: b) = a ++ s :: f (Some (use_repo_call p)) :: b).
    { intros f. clear. induction a as [|x a IH]; cbn [app List.length update]; auto. cbn [app List.length] in IH. rewrite <- IH. reflexivity. }
    destruct add.
    + unfold AddRepoUsages. destruct repos as [|r0 rs]; [congruence|]. remember (r0 :: rs) as repos eqn:ER. clear ER.
      unfold getLastUseRepo. cbn [fold_left]. split; auto. right. split; auto. rewrite UN.
      exists a, s, b, p, (map new_repo repos). eexists. split; auto. split; auto. split; auto. split; auto.
      assert (SE : seen_repos (a ++ s :: Some (use_repo_call p) :: b) [S (List.length a)] = []).
      { unfold seen_repos. cbn [flat_map]. unfold call_at. rewrite NA. reflexivity. }
      rewrite SE. assert (FI : filter (fun r => negb (mem_bytes r [])) repos = repos) by (clear; induction repos as [|r rs IH]; [reflexivity|]; cbn [filter]; change (negb (mem_bytes r [])) with true; cbv iota; f_equal; exact IH).
      rewrite FI. cbn [option_map use_repo_call call_list set_list app].
      split; [|split; [apply string_args_new|reflexivity]].
      do 7 eexists. split; [reflexivity|]. split; [reflexivity|]. cbn [i_name]. left; reflexivity.
    + split; auto. right. split; auto. unfold RemoveRepoUsages. destruct repos as [|r0 rs]; [congruence|]. remember (r0 :: rs) as repos eqn:ER. clear ER.
      cbn [fold_left]. rewrite UN. exists a, s, b, p, []. eexists. split; auto. split; auto. split; auto. split; auto.
      split; [|split; [constructor|reflexivity]].
      cbn [option_map use_repo_call remove_repos call_list set_list filter]. do 7 eexists. split; [reflexivity|]. split; [reflexivity|]. cbn [i_name]. left; reflexivity.
  - rewrite <- EU. assert (EX : exists s args, In s stmts /\ use_repo_of proxies s args).
    { assert (I : In i0 (UseRepos stmts proxies)) by (rewrite EU; left; auto). apply in_use_repos in I as (s & args & E & U). exists s, args. split; [eapply nth_error_In|]; eauto. }
    destruct add.
    + destruct (C53_add stmts proxies repos ne nonil EX) as (st & E & R). rewrite E. split; auto. left. auto.
    + split; auto. left. split; auto. apply C53_remove; auto.
Qed.
(** use_repo_add / use_repo_remove with a proxy: exactly the use_repo calls of its extension usage are
    edited; an error if no use_extension call assigns the proxy. *)
Theorem C53_command_proxy :
  forall add p repos stmts, repos <> [] -> ~ In [] repos -> isExtensionLabel p = false ->
    (p = %"dev" -> forall r rs, repos = r :: rs -> isExtensionLabel r = false) ->
    match cmdImplUseRepo add TypeModule (p :: repos) stmts with
    | Panic => False
    | Error => forall q, ~ same_usage stmts p q
    | Ok stmts' => exists proxies, (forall q, In q proxies <-> same_usage stmts p q) /\ proxies <> [] /\
        use_repo_edited add proxies repos stmts stmts'
    end.
Proof.
  intros add p repos stmts ne nonil HL HD.
  assert (D : cmdImplUseRepo add TypeModule (p :: repos) stmts = use_repo_on add stmts (AllProxies stmts p) repos).
  { unfold cmdImplUseRepo. cbv zeta. destruct (beq p %"dev") eqn:E; [|cbv iota; rewrite HL; reflexivity].
    apply beq_eq in E. destruct repos as [|r rs]; [congruence|]. rewrite (HD E r rs) by auto. cbv iota. rewrite HL. reflexivity. }
  rewrite D. pose proof (use_repo_on_spec add stmts (AllProxies stmts p) repos ne nonil) as U.
  assert (H : forall q, In q (AllProxies stmts p) -> exists s, In s stmts /\ proxy_usage s q).
  { intros q Hq. apply all_proxies_spec in Hq as (a & s & b & f & n & extra & E & Us & _ & H). destruct H as [[_ ->]|(_ & dev & _ & H)].
    - exists s. split; [rewrite E; apply in_or_app; right; left; auto|]. left. eauto.
    - destruct H as (s' & f' & extra' & m & Hs & U' & _). exists s'. split; auto. left. eauto. }
  specialize (U H). destruct (use_repo_on add stmts (AllProxies stmts p) repos) as [st| |].
  - exists (AllProxies stmts p). split; [intros; apply all_proxies_spec|tauto].
  - intros q Hq. apply all_proxies_spec in Hq. rewrite U in Hq. destruct Hq.
  - auto.
Qed.
Print Assumptions C53_command_proxy.
(** With an extension's file and name, optionally after "dev". *)
Theorem C53_command_extension :
  forall add (dev : bool) file name repos stmts, repos <> [] -> ~ In [] repos -> isExtensionLabel file = true ->
    match cmdImplUseRepo add TypeModule ((if dev then [%"dev"] else []) ++ file :: name :: repos) stmts with
    | Panic => False
    | Error => forall q, ~ extension_proxy stmts file name dev q
    | Ok stmts' => exists proxies, (forall q, In q proxies <-> extension_proxy stmts file name dev q) /\ proxies <> [] /\
        use_repo_edited add proxies repos stmts stmts'
    end.
Proof.
  intros add dev file name repos stmts ne nonil HL.
  assert (E : cmdImplUseRepo add TypeModule ((if dev then [%"dev"] else []) ++ file :: name :: repos) stmts = use_repo_on add stmts (Proxies stmts file name dev) repos).
  { unfold cmdImplUseRepo. cbv zeta. destruct dev; cbn [app].
    - rewrite beq_refl, HL. cbn [app]. rewrite HL. reflexivity.
    - destruct (beq_spec file %"dev") as [->|]; [vm_compute in HL; discriminate|]. rewrite HL. reflexivity. }
  rewrite E. pose proof (use_repo_on_spec add stmts (Proxies stmts file name dev) repos ne nonil) as U.
  assert (H : forall q, In q (Proxies stmts file name dev) -> exists s, In s stmts /\ proxy_usage s q).
  { intros q Hq. apply proxies_spec in Hq as (s' & f' & extra' & m & Hs & U' & _). exists s'. split; auto. left. eauto. }
  specialize (U H). destruct (use_repo_on add stmts (Proxies stmts file name dev) repos) as [st| |].
  - exists (Proxies stmts file name dev). split; [intros; apply proxies_spec|tauto].
  - intros q Hq. apply proxies_spec in Hq. rewrite U in Hq. destruct Hq.
  - auto.
Qed.
Print Assumptions C53_command_extension.
Theorem C53_command_module_only :
  forall add ty args stmts, ty <> TypeModule -> cmdImplUseRepo add ty args stmts = Error.
Proof. intros add [] args stmts H; auto. congruence. Qed.
Print Assumptions C53_command_module_only.
(** "use_repo_add dev @repo//:file.bzl" passes the argument count check and crashes. *)
Theorem C53_command_dev_panic_refuted :
  forall add stmts, cmdImplUseRepo add TypeModule [%"dev"; %"@repo//:x.bzl"] stmts = Panic.
Proof. intros. reflexivity. Qed.
Print Assumptions C53_command_dev_panic_refuted.
Example C53_nontrivial :
  let ext p f n extra := Some (EAssign no_com (xid p) no_pos %"=" false
     (ECall no_com (xid %"use_extension") no_pos (new_repo f :: new_repo n :: extra) (End no_com no_pos) false false)) in
  let dev := arg %"dev_dependency" (xid %"True") in
  let stmts := [ext %"a" %"//:x.bzl" %"go" []; ext %"b" %"//:x.bzl" %"go" [dev]; ext %"c" %"//:x.bzl" %"go" [arg %"dev_dependency" (xid %"False")];
                xuse [xid %"a"; new_repo %"r"; arg %"k" (new_repo %"s")]] in
  AllProxies stmts %"a" = [%"a"; %"c"] /\ UseRepos stmts [%"a"; %"c"] = [3] /\
  AddRepoUsages stmts [3] [%"s"; %"t"] = Some (firstn 3 stmts ++ [xuse [xid %"a"; new_repo %"r"; arg %"k" (new_repo %"s"); new_repo %"t"]]) /\
  RemoveRepoUsages stmts [3] [%"s"] = firstn 3 stmts ++ [xuse [xid %"a"; new_repo %"r"]].
Proof. repeat split; vm_compute; reflexivity. Qed.
