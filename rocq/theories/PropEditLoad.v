(** Properties C41 (new_load) and C42 (replace_load). *)
From Verif Require Import Base BaseProofs Ast Walk Rewrite RuleApi Loads LoadsSpec EditFile EditFileSpec PropEditFile EditListSpec.

(** ** Maps *)
Definition keys (m : gomap) : list bytes := map fst m.
Lemma map_del_in k m kv : In kv (map_del k m) <-> In kv m /\ fst kv <> k.
Proof. unfold map_del. rewrite filter_In, negb_true_iff. rewrite beq_neq. reflexivity. Qed.
Lemma filter_nodup_keys (p : bytes * bytes -> bool) m : NoDup (keys m) -> NoDup (keys (filter p m)).
Proof.
  unfold keys. induction m as [|x m IH]; cbn [filter map]; auto. intros H. inversion H; subst. destruct (p x); auto. cbn [map]. constructor; auto.
  intros I. apply H2. apply in_map_iff in I as (y & E & I). apply filter_In in I as [I _]. apply in_map_iff. eauto.
Qed.
Lemma map_set_nodup k v m : NoDup (keys m) -> NoDup (keys (map_set k v m)).
Proof.
  intros H. unfold map_set. cbn [keys map fst]. constructor; [|apply filter_nodup_keys; auto].
  intros I. apply in_map_iff in I as (y & E & I). apply map_del_in in I as [_ N]. congruence.
Qed.
Lemma symbols_spec from to : List.length from = List.length to -> let m := symbols_to_load from to in
  NoDup (keys m) /\ (forall n, In n (keys m) <-> In n to) /\ (forall n f, In (n, f) m -> In (f, n) (combine from to)) /\
  (NoDup to -> forall n f, In (f, n) (combine from to) -> In (n, f) m).
Proof.
  intros Le m. unfold m, symbols_to_load.
  assert (T : to = map snd (combine from to)).
  { clear - Le. revert to Le. induction from as [|f from IH]; intros [|t to] Le; try discriminate; cbn; f_equal; auto. }
  enough (Q : forall l, NoDup (keys (fold_left (fun m ft => map_set (snd ft) (fst ft) m) l [])) /\
    (forall n, In n (keys (fold_left (fun m ft => map_set (snd ft) (fst ft) m) l [])) <-> In n (map snd l)) /\
    (forall n f, In (n, f) (fold_left (fun m ft => map_set (snd ft) (fst ft) m) l []) -> In (f, n) l) /\
    (NoDup (map snd l) -> forall n f, In (f, n) l -> In (n, f) (fold_left (fun m ft => map_set (snd ft) (fst ft) m) l []))).
  { specialize (Q (combine from to)). rewrite <- T in Q. exact Q. }
  clear. intros l.
  assert (G : forall l m, NoDup (keys m) -> let r := fold_left (fun m ft => map_set (snd ft) (fst ft) m) l m in
    NoDup (keys r) /\ (forall n, In n (keys r) <-> In n (keys m) \/ In n (map snd l)) /\
    (forall n f, In (n, f) r -> In (n, f) m \/ In (f, n) l) /\
    (forall n f, In (n, f) m -> ~ In n (map snd l) -> In (n, f) r) /\
    (NoDup (map snd l) -> forall n f, In (f, n) l -> In (n, f) r)).
  { clear. induction l as [|[f t] l IH]; intros m N; cbn [fold_left map snd fst].
    - split; auto. split; [intros n; cbn [In]; tauto|]. split; auto. split; auto. contradiction.
    - destruct (IH (map_set t f m) (map_set_nodup t f m N)) as (A & B & C & D & E). split; auto. split; [|split; [|split]].
      + intros n. rewrite B. unfold map_set. cbn [keys map fst In]. fold (keys (map_del t m)).
        assert (K : In n (keys (map_del t m)) <-> In n (keys m) /\ n <> t).
        { unfold keys. rewrite !in_map_iff. split.
          - intros (y & <- & I). apply map_del_in in I as [I ne]. split; eauto.
          - intros [(y & <- & I) ne]. exists y. split; auto. apply map_del_in; auto. }
        rewrite K. destruct (beq_spec n t) as [->|ne]; [tauto|]. intuition congruence.
      + intros n g I. apply C in I as [I|I]; [|right; right; auto]. unfold map_set in I. destruct I as [[= <- <-]|I]; [right; left; auto|].
        left. apply map_del_in in I. apply I.
      + intros n g I Ni. apply D; [|intros J; apply Ni; right; auto]. right. apply map_del_in. split; auto. cbn [fst]. intros ->. apply Ni. left; auto.
      + intros Nd n g I. inversion Nd; subst. destruct I as [[= <- <-]|I]; [|apply E; auto]. apply D; auto. left; auto. }
  destruct (G l [] (NoDup_nil _)) as (A & B & C & _ & E). split; auto. split; [intros n; rewrite B; cbn; tauto|]. split; auto.
  intros n f I. apply C in I as [[]|I]; auto.
Qed.
Lemma del_all_in l : forall m kv, In kv (del_all l m) <-> In kv m /\ ~ In (fst kv) (map i_name l).
Proof.
  unfold del_all. induction l as [|i l IH]; intros m kv; cbn [fold_left map In]; [tauto|]. rewrite IH, map_del_in. intuition congruence.
Qed.
Lemma del_all_nodup l : forall m, NoDup (keys m) -> NoDup (keys (del_all l m)).
Proof. unfold del_all. induction l as [|i l IH]; intros m H; cbn [fold_left]; auto. apply IH, filter_nodup_keys; auto. Qed.
(** ** Statements *)
Lemma loads_from_spec loc s : loads_from loc s = true <-> loads_module s loc.
Proof.
  unfold loads_from, loads_module. split.
  - destruct s as [[]|]; try discriminate. intros H. apply beq_eq in H. do 7 eexists. split; [reflexivity|auto].
  - intros (c & p & ms & fr & to & r & k & -> & <-). apply beq_refl.
Qed.
Lemma names_from_app m a b : names_from m (a ++ b) = names_from m a ++ names_from m b.
Proof. unfold names_from, bindings. rewrite !flat_map_app. reflexivity. Qed.
Lemma map_snd_combine {A B} (a : list A) (b : list B) : List.length a = List.length b -> map snd (combine a b) = b.
Proof. revert b. induction a as [|x a IH]; intros [|y b] H; try discriminate; cbn; auto. f_equal. auto. Qed.
Lemma names_from_stmt m s : loads_balanced s -> names_from m [s] = if loads_from m s then map i_name (load_to s) else [].
Proof.
  unfold names_from, bindings. cbn [flat_map]. rewrite app_nil_r. destruct s as [[]|]; try reflexivity. cbn [loads_balanced loads_from load_to bindings_of].
  intros H. rewrite <- (map_snd_combine _ _ H) at 2. clear H. induction (combine from to) as [|[f t] l IH]; cbn [map flat_map].
  - destruct (beq (s_value m0) m); auto.
  - rewrite IH. cbn [fst snd]. destruct (beq (s_value m0) m); auto.
Qed.
Lemma left_in loc stmts : Forall loads_balanced stmts -> forall m kv,
  In kv (fold_left (fun m s => if loads_from loc s then del_all (load_to s) m else m) stmts m) <-> In kv m /\ ~ In (fst kv) (names_from loc stmts).
Proof.
  induction 1 as [|s l B F IH]; intros m kv; cbn [fold_left]; [cbn; tauto|].
  change (s :: l) with ([s] ++ l). rewrite IH, names_from_app, in_app_iff, names_from_stmt by auto.
  destruct (loads_from loc s); [rewrite del_all_in; tauto|cbn; tauto].
Qed.
Lemma left_nodup loc stmts : forall m, NoDup (keys m) -> NoDup (keys (fold_left (fun m s => if loads_from loc s then del_all (load_to s) m else m) stmts m)).
Proof. induction stmts as [|s l IH]; intros m H; cbn [fold_left]; auto. apply IH. destruct (loads_from loc s); auto. apply del_all_nodup; auto. Qed.
Lemma update_last_spec {A} (p : A -> bool) f l :
  match update_last p f l with
  | Some r => exists a x b, l = a ++ x :: b /\ p x = true /\ (forall y, In y b -> p y = false) /\ r = a ++ f x :: b
  | None => forall y, In y l -> p y = false
  end.
Proof.
  induction l as [|x l IH]; cbn [update_last]; [contradiction|]. destruct (update_last p f l) as [r|].
  - destruct IH as (a & y & b & -> & P & N & ->). exists (x :: a), y, b. auto.
  - destruct (p x) eqn:E; [exists [], x, l; auto|]. intros y [<-|Hy]; auto.
Qed.

(** C41.  If the module is loaded already, the missing symbols (in some order, each once) are added to its
    last load, and nothing else changes. *)
Definition fresh (n : bytes) : ident := Ident no_com no_pos n.
Theorem C41_existing_load :
  forall ord1 ord2 stmts location from to,
    a_map_order ord1 -> a_map_order ord2 -> List.length from = List.length to -> Forall loads_balanced stmts ->
    (exists s, In s stmts /\ loads_module s location) ->
    exists pre c p ms fr t r k post more,
      stmts = pre ++ Some (ELoad c p ms fr t r k) :: post /\ s_value ms = location /\
      (forall s, In s post -> ~ loads_module s location) /\
      InsertLoad ord1 ord2 stmts location from to =
        Some (pre ++ Some (ELoad c p ms (fr ++ map (fun x => fresh (fst x)) more) (t ++ map (fun x => fresh (snd x)) more) r k) :: post) /\
      NoDup (map snd more) /\
      (forall n, In n (map snd more) <-> In n to /\ ~ In n (names_from location stmts)) /\
      (forall f n, In (f, n) more -> In (f, n) (combine from to)).
Proof.
  intros ord1 ord2 stmts location from to O1 O2 Le Bal (s0 & I0 & M0). unfold InsertLoad. rewrite Le, Nat.eqb_refl. unfold appendLoad.
  destruct (symbols_spec from to Le) as (ND & K & V & _).
  set (left := fold_left _ stmts (symbols_to_load from to)).
  assert (Lin : forall kv, In kv left <-> In kv (symbols_to_load from to) /\ ~ In (fst kv) (names_from location stmts)) by (intros; apply left_in; auto).
  assert (Lnd : NoDup (keys left)) by (apply left_nodup; auto). clearbody left.
  set (l := ord1 left). assert (Pl : Permutation l left) by apply O1.
  match goal with |- context [update_last ?p ?f stmts] => set (F := f); pose proof (update_last_spec p F stmts) as U; destruct (update_last p F stmts) as [res|] end.
  2: { exfalso. apply U in I0. apply loads_from_spec in M0. congruence. }
  destruct U as (pre & x & post & Est & Px & Nx & ->).
  assert (X : exists c p ms fr t r k, x = Some (ELoad c p ms fr t r k) /\ s_value ms = location) by (apply loads_from_spec; auto).
  destruct X as (c & p & ms & fr & t & r & k & -> & Em).
  destruct (symbols_spec (map snd l) (map fst l)) as (ND2 & K2 & V2 & W2); [rewrite !map_length; auto|].
  set (rest := del_all t (symbols_to_load (map snd l) (map fst l))).
  assert (NDl : NoDup (map fst l)) by (eapply Permutation_NoDup; [apply Permutation_map, Permutation_sym, Pl|exact Lnd]).
  assert (Cl : forall f n, In (f, n) (combine (map snd l) (map fst l)) <-> In (n, f) l).
  { clear. intros f n. induction l as [|[a b] l IH]; cbn; [tauto|]. rewrite IH. intuition congruence. }
  assert (Rin : forall n f, In (n, f) rest <-> In (n, f) left).
  { intros n f. unfold rest. rewrite del_all_in. cbn [fst]. split.
    - intros [I _]. apply V2, Cl in I. apply (Permutation_in _ Pl); auto.
    - intros I. split.
      + apply W2; auto. apply Cl. apply (Permutation_in _ (Permutation_sym Pl)); auto.
      + apply Lin in I as [_ N]. cbn [fst] in N. intros It. apply N. rewrite Est. rewrite names_from_app, in_app_iff. right.
        change (Some (ELoad c p ms fr t r k) :: post) with ([Some (ELoad c p ms fr t r k)] ++ post). rewrite names_from_app, in_app_iff. left.
        rewrite names_from_stmt; [rewrite Px; exact It|]. rewrite Forall_forall in Bal. apply Bal. rewrite Est, in_app_iff. right; left; auto. }
  assert (Rnd : NoDup (keys rest)) by (apply del_all_nodup; auto).
  set (more := map (fun kv => (snd kv, fst kv)) (ord2 rest)).
  exists pre, c, p, ms, fr, t, r, k, post, more.
  assert (P2 : Permutation (ord2 rest) rest) by apply O2.
  assert (Sm : map snd more = map fst (ord2 rest)) by (unfold more; rewrite map_map; reflexivity).
  split; auto. split; auto. split. { intros s Hs M. apply loads_from_spec in M. rewrite (Nx _ Hs) in M. discriminate. }
  split; [|split; [|split]].
  - do 2 f_equal. unfold F. cbn [option_map AppendToLoad]. fold rest. destruct rest as [|kv rest'] eqn:Er.
    + apply Permutation_sym, Permutation_nil in P2. unfold more. rewrite P2. cbn [map snd]. rewrite !app_nil_r. reflexivity.
    + cbn [snd]. unfold more. rewrite !map_map. reflexivity.
  - rewrite Sm. eapply Permutation_NoDup; [apply Permutation_map, Permutation_sym, P2|exact Rnd].
  - intros n. rewrite Sm, in_map_iff. split.
    + intros ([n' f] & En & I). cbn [fst] in En. subst n'. apply (Permutation_in _ P2) in I. apply Rin, Lin in I as [I N]. split; auto. apply K. unfold keys. apply in_map_iff. exists (n, f). auto.
    + intros [I N]. apply K in I. unfold keys in I. apply in_map_iff in I as ([n' f] & En & I). cbn [fst] in En. subst n'. exists (n, f). split; auto.
      apply (Permutation_in _ (Permutation_sym P2)), Rin, Lin. auto.
  - intros f n I. unfold more in I. apply in_map_iff in I as ([n' f'] & [= -> ->] & I). apply (Permutation_in _ P2), Rin, Lin in I as [I _]. apply V; auto.
Qed.
Print Assumptions C41_existing_load.
(** Otherwise one load with the requested symbols is inserted after the docstring, comments and
    workspace() at the top. *)
Theorem C41_new_load :
  forall ord1 ord2 stmts location from to,
    List.length from = List.length to -> (forall s, In s stmts -> ~ loads_module s location) ->
    exists a b c p ms r k, stmts = a ++ b /\ before_loads a b /\ s_value ms = location /\
      InsertLoad ord1 ord2 stmts location from to = Some (a ++ Some (ELoad c p ms (map fresh from) (map fresh to) r k) :: b).
Proof.
  intros ord1 ord2 stmts location from to Le N. unfold InsertLoad. rewrite Le, Nat.eqb_refl. unfold appendLoad.
  match goal with |- context [update_last ?p ?f stmts] => pose proof (update_last_spec p f stmts) as U; destruct (update_last p f stmts) as [res|] end.
  { exfalso. destruct U as (pre & x & post & E & P & _). apply (N x); [rewrite E, in_app_iff; right; left; auto|apply loads_from_spec; auto]. }
  clear U.
  assert (S : forall l, let (a, b) := span load_skips l in l = a ++ b /\ longest_prefix (fun s => comment_block s \/ call_of %"workspace" s) a b).
  { intros l. apply span_spec. intros x. unfold load_skips, isWorkspaceCall. rewrite orb_true_iff, comment_block_spec, call_of_spec. reflexivity. }
  assert (D : let (a, b) := load_lead stmts in stmts = a ++ b /\ before_loads a b).
  { unfold load_lead.
    assert (D : (exists s l, stmts = Some (EStr s) :: l) \/ match stmts with s :: _ => ~ string_stmt s | [] => True end).
    { unfold string_stmt. destruct stmts as [|[[]|] l]; auto; try (right; intros (? & H); discriminate). left. eauto. }
    destruct D as [(s & l & ->)|D].
    - specialize (S l). destruct (span load_skips l) as [a b]. destruct S as [-> P]. split; auto. exists [Some (EStr s)], a. split; auto. split; auto. left. exists (Some (EStr s)). split; auto. exists s. auto.
    - assert (E : match stmts with Some (EStr s) :: l => let (a, b) := span load_skips l in (Some (EStr s) :: a, b) | _ => span load_skips stmts end = span load_skips stmts).
      { destruct stmts as [|[[]|] l]; auto. exfalso. apply D. exists s. auto. }
      rewrite E. specialize (S stmts). destruct (span load_skips stmts) as [a b]. destruct S as [Est P]. split; auto. exists [], a. split; auto. split; auto. right. split; auto. rewrite <- Est. auto. }
  destruct (load_lead stmts) as [a b]. destruct D as [-> D]. exists a, b. do 5 eexists. split; auto. split; auto. split; [|reflexivity]. reflexivity.
Qed.
Print Assumptions C41_new_load.
Theorem C41_panics : forall ord1 ord2 stmts location from to, InsertLoad ord1 ord2 stmts location from to = None <-> List.length from <> List.length to.
Proof.
  intros. unfold InsertLoad. destruct (Nat.eqb_spec (List.length from) (List.length to)); split; try tauto; discriminate.
Qed.
Print Assumptions C41_panics.
(** In terms of bindings: the old ones stay, the new ones are among those requested, every
    requested name is bound from the module. *)
Lemma bindings_app a b : bindings (a ++ b) = bindings a ++ bindings b.
Proof. unfold bindings. apply flat_map_app. Qed.
Lemma combine_fresh {A B} (f : A -> ident) (g : A -> ident) (l : list A) (mk : ident * ident -> B) : map mk (combine (map f l) (map g l)) = map (fun x => mk (f x, g x)) l.
Proof. induction l; cbn; f_equal; auto. Qed.
Lemma combine_app {A B} (a a' : list A) (b b' : list B) : List.length a = List.length b -> combine (a ++ a') (b ++ b') = combine a b ++ combine a' b'.
Proof. revert b. induction a as [|x a IH]; intros [|y b] H; try discriminate; cbn; auto. f_equal. auto. Qed.
Lemma names_from_bindings m l : names_from m l = flat_map (fun b => let '(m', _, n) := b in if beq m' m then [n] else []) (bindings l).
Proof. reflexivity. Qed.
Lemma names_of_new m more : flat_map (fun b => let '(m', _, n) := b in if beq m' m then [n] else []) (map (fun x : bytes * bytes => (m, fst x, snd x)) more) = map snd more.
Proof. induction more as [|[f n] l IH]; cbn [map flat_map]; auto. rewrite beq_refl, IH. reflexivity. Qed.
Lemma flat_map_perm {A B} (f : A -> list B) l l' : Permutation l l' -> Permutation (flat_map f l) (flat_map f l').
Proof.
  induction 1; cbn [flat_map]; auto; [apply Permutation_app; auto|rewrite !app_assoc; apply Permutation_app_tail, Permutation_app_comm|eapply Permutation_trans; eauto].
Qed.
Lemma NoDup_app_intro {A} (a b : list A) : NoDup a -> NoDup b -> (forall x, In x a -> In x b -> False) -> NoDup (a ++ b).
Proof.
  induction 1 as [|x a Nx Na IH]; intros Hb D; auto. cbn [app]. constructor.
  - rewrite in_app_iff. intros [I|I]; [auto|]. apply (D x); [left; auto|auto].
  - apply IH; auto. intros y I J. apply (D y); [right; auto|auto].
Qed.
Theorem C41_bindings :
  forall ord1 ord2 stmts location from to, a_map_order ord1 -> a_map_order ord2 -> List.length from = List.length to -> Forall loads_balanced stmts ->
    exists stmts' more, InsertLoad ord1 ord2 stmts location from to = Some stmts' /\
      Permutation (bindings stmts') (bindings stmts ++ map (fun x => (location, fst x, snd x)) more) /\
      incl more (combine from to) /\
      (forall n, In n to -> In n (names_from location stmts')) /\
      (NoDup to -> NoDup (names_from location stmts) -> NoDup (names_from location stmts')) /\
      Forall loads_balanced stmts'.
Proof.
  intros ord1 ord2 stmts location from to O1 O2 Le Bal.
  assert (D : (exists s, In s stmts /\ loads_module s location) \/ (forall s, In s stmts -> ~ loads_module s location)).
  { destruct (existsb (loads_from location) stmts) eqn:E.
    - left. apply existsb_exists in E as (s & I & M). apply loads_from_spec in M. eauto.
    - right. intros s I M. apply loads_from_spec in M. assert (existsb (loads_from location) stmts = true) by (apply existsb_exists; eauto). congruence. }
  assert (Names : forall stmts' more, Permutation (bindings stmts') (bindings stmts ++ map (fun x => (location, fst x, snd x)) more) ->
     Permutation (names_from location stmts') (names_from location stmts ++ map snd more)).
  { intros stmts' more P. rewrite !names_from_bindings. eapply Permutation_trans; [apply flat_map_perm; exact P|]. rewrite flat_map_app, names_of_new. auto. }
  destruct D as [Ex|Nx].
  - destruct (C41_existing_load ord1 ord2 stmts location from to O1 O2 Le Bal Ex) as (pre & c & p & ms & fr & t & r & k & post & more & E & Em & N & -> & ND & K & V).
    do 2 eexists. split; [reflexivity|].
    assert (Bfr : List.length fr = List.length t).
    { rewrite Forall_forall in Bal. apply (Bal (Some (ELoad c p ms fr t r k))). rewrite E, in_app_iff. right; left; auto. }
    assert (P : Permutation (bindings (pre ++ Some (ELoad c p ms (fr ++ map (fun x => fresh (fst x)) more) (t ++ map (fun x => fresh (snd x)) more) r k) :: post))
       (bindings stmts ++ map (fun x => (location, fst x, snd x)) more)).
    { rewrite E, !bindings_app. unfold bindings. cbn [flat_map bindings_of]. rewrite combine_app by auto. rewrite map_app, combine_fresh. cbn [fst snd fresh i_name]. rewrite Em.
      rewrite <- !app_assoc. apply Permutation_app_head. apply Permutation_app_head. apply Permutation_app_comm. }
    split; [exact P|]. split; [intros [f n] I; apply V; auto|]. apply Names in P. split; [|split].
    + intros n I. apply (Permutation_in _ (Permutation_sym P)). rewrite in_app_iff.
      destruct (in_dec (list_eq_dec ascii_dec) n (names_from location stmts)) as [J|J]; auto. right. apply K; auto.
    + intros _ Ns. eapply Permutation_NoDup; [apply Permutation_sym; exact P|]. apply NoDup_app_intro; auto.
      intros n I J. apply K in J as [_ J]. contradiction.
    + rewrite E in Bal. apply Forall_app in Bal as [B1 B2]. inversion B2; subst. apply Forall_app. split; auto. constructor; auto.
      cbn [loads_balanced]. rewrite !app_length, !map_length. lia.
  - destruct (C41_new_load ord1 ord2 stmts location from to Le Nx) as (a & b & c & p & ms & r & k & E & _ & Em & ->).
    do 2 eexists. split; [reflexivity|].
    assert (P : Permutation (bindings (a ++ Some (ELoad c p ms (map fresh from) (map fresh to) r k) :: b)) (bindings stmts ++ map (fun x => (location, fst x, snd x)) (combine from to))).
    { rewrite E, !bindings_app. unfold bindings. cbn [flat_map bindings_of]. rewrite Em. rewrite <- app_assoc. apply Permutation_app_head.
      rewrite (Permutation_app_comm (flat_map bindings_of b)). apply Permutation_app_tail.
      apply Permutation_refl'. clear. revert to. induction from as [|f from IH]; intros [|t to]; cbn; f_equal; auto. }
    split; [exact P|]. split; [apply incl_refl|]. apply Names in P. rewrite map_snd_combine in P by auto. split; [|split].
    + intros n I. apply (Permutation_in _ (Permutation_sym P)). rewrite in_app_iff. auto.
    + intros Nt Ns. eapply Permutation_NoDup; [apply Permutation_sym; exact P|]. apply NoDup_app_intro; auto.
      intros n I _. unfold names_from in I. apply in_flat_map in I as ([[m f] n'] & I & J). destruct (beq_spec m location) as [->|]; [|contradiction].
      unfold bindings in I. apply in_flat_map in I as (s & Is & Ib). apply (Nx _ Is). unfold bindings_of in Ib. destruct s as [[]|]; try contradiction.
      apply in_map_iff in Ib as (? & [= <- _ _] & _). do 7 eexists. split; reflexivity.
    + rewrite E in Bal. apply Forall_app in Bal as [B1 B2]. apply Forall_app. split; auto. constructor; auto. cbn [loads_balanced]. rewrite !map_length. auto.
Qed.
Print Assumptions C41_bindings.
(** A new load binds a name twice if it is requested twice. *)
Theorem C41_duplicates_refuted :
  exists location from to stmts', InsertLoad (fun l => l) (fun l => l) [] location from to = Some stmts' /\ ~ NoDup (names_from location stmts').
Proof.
  exists %":x.bzl", [%"a"; %"b"], [%"c"; %"c"]. eexists. split; [vm_compute; reflexivity|]. intros H. vm_compute in H. inversion H; subst. apply H2. left; auto.
Qed.
Print Assumptions C41_duplicates_refuted.
Example C41_nontrivial :
  a_map_order (fun l => rev l) /\
  InsertLoad (fun l => rev l) (fun l => l) [load1 %":x.bzl" [%"a"]; load1 %":y.bzl" [%"b"]] %":x.bzl" [%"a"; %"b"; %"c"] [%"a"; %"b"; %"c"] =
    Some [load1 %":x.bzl" [%"a"; %"c"; %"b"]; load1 %":y.bzl" [%"b"]] /\
  InsertLoad (fun l => l) (fun l => l) [new_call %"workspace" []; new_call %"r" []] %":x.bzl" [%"a"] [%"a"] =
    Some [new_call %"workspace" []; load1 %":x.bzl" [%"a"]; new_call %"r" []].
Proof. split; [intros l; apply Permutation_sym, Permutation_rev|]. split; vm_compute; reflexivity. Qed.

(** C42. *)
Definition hits (to : list bytes) (x : ident * ident) : Prop := In (i_name (snd x)) to.
(** At most one of the symbols of the load is replaced. *)
Definition one_replaced (to : list bytes) (s : option expr) : Prop :=
  forall a x b, symbols s = a ++ x :: b -> hits to x -> Forall (fun y => ~ hits to y) (a ++ b).
Lemma loop_none sym n : forall i a m, (forall j x, i <= j -> nth_error a j = Some x -> sym (i_name (snd x)) = false) ->
  remove_loop sym n i a m = (a, m).
Proof.
  induction n as [|n IH]; intros i a m H; cbn [remove_loop]; auto. destruct (nth_error a i) as [x|] eqn:E; auto.
  rewrite (H i x) by auto. apply IH. intros j y Hj. apply H. lia.
Qed.
Lemma loop_skip sym pre : forall n i a m post, a = firstn i a ++ pre ++ post -> i <= List.length a -> (forall x, In x pre -> sym (i_name (snd x)) = false) ->
  remove_loop sym (List.length pre + n) i a m = remove_loop sym n (i + List.length pre) a m.
Proof.
  induction pre as [|x pre IH]; intros n i a m post E Li H; cbn [List.length Nat.add]; [rewrite Nat.add_0_r; auto|].
  cbn [remove_loop].
  assert (Lf : List.length (firstn i a) = i) by (rewrite firstn_length; lia).
  assert (Nx : nth_error a i = Some x). { rewrite E, nth_error_app2; rewrite Lf; auto. rewrite Nat.sub_diag. auto. }
  rewrite Nx. rewrite H by (left; auto).
  assert (Si : firstn (S i) a = firstn i a ++ [x]).
  { rewrite E at 1. rewrite firstn_app, Lf. replace (S i - i) with 1 by lia. rewrite (firstn_all2 (n := S i)) by lia. reflexivity. }
  assert (Lt : S i <= List.length a). { rewrite E, app_length, Lf. cbn [app List.length]. lia. }
  rewrite (IH n (S i) a m post); auto.
  - f_equal. lia.
  - rewrite Si, <- app_assoc. exact E.
  - intros y Hy. apply H. right; auto.
Qed.
Lemma remove_one sym l : (forall a x b, l = a ++ x :: b -> sym (i_name (snd x)) = true -> Forall (fun y => sym (i_name (snd y)) = false) (a ++ b)) ->
  remove_symbols sym l = filter (fun x => negb (sym (i_name (snd x)))) l.
Proof.
  intros H. unfold remove_symbols.
  assert (D : (forall x, In x l -> sym (i_name (snd x)) = false) \/ exists a x b, l = a ++ x :: b /\ sym (i_name (snd x)) = true).
  { destruct (existsb (fun x => sym (i_name (snd x))) l) eqn:E.
    - right. apply existsb_exists in E as (x & I & S). apply in_split in I as (a & b & ->). eauto.
    - left. intros x I. destruct (sym (i_name (snd x))) eqn:S; auto. assert (existsb (fun x => sym (i_name (snd x))) l = true) by (apply existsb_exists; eauto). congruence. }
  assert (Fi : forall l : list (ident * ident), (forall x, In x l -> sym (i_name (snd x)) = false) -> filter (fun x => negb (sym (i_name (snd x)))) l = l).
  { clear. induction l as [|x l IH]; intros H; auto. cbn [filter]. rewrite H by (left; auto). cbn [negb]. f_equal. apply IH. intros; apply H; right; auto. }
  destruct D as [D|(a & x & b & -> & Sx)].
  - rewrite loop_none; [rewrite firstn_all; symmetry; auto|]. intros j x _ I. apply nth_error_In in I. auto.
  - specialize (H a x b eq_refl Sx). apply Forall_app in H as [Ha Hb]. rewrite Forall_forall in Ha, Hb.
    rewrite filter_app. cbn [filter]. rewrite Sx. cbn [negb]. rewrite !Fi by auto.
    set (N := List.length (a ++ x :: b)). assert (EN : N = List.length a + S (List.length b)) by (unfold N; rewrite app_length; auto).
    rewrite EN at 1. rewrite (loop_skip sym a (S (List.length b)) 0 (a ++ x :: b) N (x :: b)) by (auto; cbn; lia). cbn [Nat.add remove_loop].
    rewrite nth_error_app2, Nat.sub_diag by auto. cbn [nth_error]. rewrite Sx.
    destruct (Nat.ltb_spec (List.length a) (N - 1)) as [Lt|Ge].
    + assert (E1 : firstn (List.length a) (a ++ x :: b) = a) by (rewrite firstn_app, firstn_all, Nat.sub_diag; cbn; apply app_nil_r).
      assert (E2 : skipn (S (List.length a)) (firstn N (a ++ x :: b)) = b).
      { unfold N. rewrite firstn_all. rewrite skipn_app. rewrite skipn_all2 by lia. replace (S (List.length a) - List.length a) with 1 by lia. reflexivity. }
      rewrite E1, E2. rewrite loop_none.
      * replace (N - 1) with (List.length (a ++ b)) by (rewrite app_length; lia). rewrite app_assoc, firstn_app, firstn_all, Nat.sub_diag. cbn. apply app_nil_r.
      * intros j y Hj I. assert (In y (b ++ skipn (N - 1) (a ++ x :: b))).
        { rewrite nth_error_app2 in I by lia. apply nth_error_In in I. auto. }
        apply in_app_iff in H as [H|H]; auto. apply Hb.
        rewrite skipn_app in H. rewrite skipn_all2 in H by lia. cbn [app] in H. replace (N - 1 - List.length a) with (S (List.length b - 1)) in H by lia.
        cbn [skipn] in H. rewrite <- (firstn_skipn (List.length b - 1) b), in_app_iff. auto.
    + destruct b as [|y b]; [|cbn [List.length] in EN; lia]. cbn [List.length remove_loop]. rewrite firstn_app, firstn_all, Nat.sub_diag. cbn. rewrite app_nil_r. auto.
Qed.
Definition keeps (to : list bytes) (b : bytes * bytes * bytes) : bool := let '(_, _, n) := b in negb (mem_bytes n to).
Lemma replace_stmt_bindings to s : loads_balanced s -> one_replaced to s ->
  bindings (replace_stmt (fun n => mem_bytes n to) s) = filter (keeps to) (bindings [s]) /\
  Forall loads_balanced (replace_stmt (fun n => mem_bytes n to) s).
Proof.
  intros Bal One. assert (O : (forall c p m fr t r k, s <> Some (ELoad c p m fr t r k)) \/ exists c p m fr t r k, s = Some (ELoad c p m fr t r k)).
  { destruct s as [[]|]; try (left; intros; discriminate). right. do 7 eexists. reflexivity. }
  destruct O as [O|(c & p & m & fr & t & r & k & ->)].
  - assert (E : replace_stmt (fun n => mem_bytes n to) s = [s]) by (destruct s as [[]|]; auto; exfalso; eapply O; reflexivity).
    assert (E' : bindings [s] = []) by (destruct s as [[]|]; auto; exfalso; eapply O; reflexivity). rewrite E, E'. auto.
  - cbn [replace_stmt]. rewrite remove_one.
    2: { intros a x b E H. cbn in One. apply (One a x b E) in H || idtac.
         assert (Hh : hits to x) by (apply mem_bytes_In; auto). specialize (One a x b E Hh). eapply Forall_impl; [|exact One]. cbv beta. intros y Ny.
         apply not_true_iff_false. rewrite mem_bytes_In. exact Ny. }
    assert (B : bindings [Some (ELoad c p m fr t r k)] = map (fun p => (s_value m, i_name (fst p), i_name (snd p))) (combine fr t)) by (unfold bindings; cbn; apply app_nil_r).
    assert (C : forall l : list (ident * ident), combine (map fst l) (map snd l) = l) by (induction l as [|[? ?] l IH]; cbn; f_equal; auto).
    assert (F : forall l, filter (keeps to) (map (fun p => (s_value m, i_name (fst p), i_name (snd p))) l) =
                map (fun p => (s_value m, i_name (fst p), i_name (snd p))) (filter (fun x => negb (mem_bytes (i_name (snd x)) to)) l)).
    { clear. induction l as [|x l IH]; auto. cbn [map filter keeps]. destruct (mem_bytes (i_name (snd x)) to); cbn [negb map]; rewrite IH; auto. }
    rewrite B, F. set (q := filter _ (combine fr t)). destruct q as [|x q]; [split; auto|].
    split; [unfold bindings; cbn [flat_map bindings_of]; rewrite C; apply app_nil_r|]. constructor; auto. cbn [loads_balanced]. rewrite !map_length. auto.
Qed.
(** If no load has two of the replaced symbols: afterwards they are bound only from the new module (as requested),
    and all other bindings are still there, once each as before. *)
Theorem C42_replace_partial :
  forall ord1 ord2 stmts location from to, a_map_order ord1 -> a_map_order ord2 -> List.length from = List.length to ->
    Forall loads_balanced stmts -> Forall (one_replaced to) stmts ->
    exists stmts', ReplaceLoad ord1 ord2 stmts location from to = Some stmts' /\
      (forall n, In n to -> In n (names_from location stmts')) /\
      (forall m f n, In n to -> In (m, f, n) (bindings stmts') -> m = location /\ In (f, n) (combine from to)) /\
      Permutation (filter (keeps to) (bindings stmts')) (filter (keeps to) (bindings stmts)).
Proof.
  intros ord1 ord2 stmts location from to O1 O2 Le Bal One. unfold ReplaceLoad. rewrite Le, Nat.eqb_refl.
  set (mid := flat_map _ stmts).
  assert (M : bindings mid = filter (keeps to) (bindings stmts) /\ Forall loads_balanced mid).
  { unfold mid. clear - Bal One. induction stmts as [|s l IH]; [split; auto|]. inversion Bal; inversion One; subst. destruct (IH H2 H6) as [I1 I2]. cbn [flat_map].
    destruct (replace_stmt_bindings to s H1 H5) as [R1 R2]. split; [|apply Forall_app; auto].
    change (s :: l) with ([s] ++ l). rewrite !bindings_app, filter_app, R1, I1. auto. }
  destruct M as [M1 M2]. destruct (C41_bindings ord1 ord2 mid location from to O1 O2 Le M2) as (stmts' & more & E & P & I & Nm & _).
  exists stmts'. split; auto. split; auto. rewrite M1 in P.
  assert (K : forall m f n, In (m, f, n) (filter (keeps to) (bindings stmts)) -> ~ In n to).
  { intros m f n H. apply filter_In in H as [_ H]. cbn in H. apply negb_true_iff in H. rewrite <- mem_bytes_In. congruence. }
  split.
  - intros m f n In_ Ib. apply (Permutation_in _ P) in Ib. apply in_app_iff in Ib as [Ib|Ib]; [exfalso; eapply K; eauto|].
    apply in_map_iff in Ib as ([f' n'] & [= <- <- <-] & Im). auto.
  - assert (Fp : forall (q : bytes * bytes * bytes -> bool) l l', Permutation l l' -> Permutation (filter q l) (filter q l')).
    { clear. intros q l l' H. induction H; cbn [filter]; auto; [destruct (q x); auto|destruct (q x), (q y); auto using perm_swap|eapply Permutation_trans; eauto]. }
    eapply Permutation_trans; [apply Fp; exact P|]. rewrite filter_app.
    assert (Z : filter (keeps to) (map (fun x => (location, fst x, snd x)) more) = []).
    { assert (Zm : forall x, In x more -> In (snd x) to) by (intros [f n] Hx; apply I in Hx; apply in_combine_r in Hx; auto). clear - Zm.
      induction more as [|x more IH]; auto. cbn [map filter keeps]. replace (mem_bytes (snd x) to) with true by (symmetry; apply mem_bytes_In, Zm; left; auto). cbn [negb].
      apply IH. intros; apply Zm; right; auto. }
    rewrite Z, app_nil_r. assert (Fi : forall l, filter (keeps to) (filter (keeps to) l) = filter (keeps to) l).
    { clear. induction l as [|x l IH]; auto. cbn [filter]. destruct (keeps to x) eqn:E; auto. cbn [filter]. rewrite E, IH. auto. }
    rewrite Fi. auto.
Qed.
Print Assumptions C42_replace_partial.
(** Other statements stay, in order. *)
Theorem C42_other_statements :
  forall ord1 ord2 stmts location from to stmts', ReplaceLoad ord1 ord2 stmts location from to = Some stmts' ->
    filter (fun s => negb (is_load_stmt s)) stmts' = filter (fun s => negb (is_load_stmt s)) stmts.
Proof.
  intros ord1 ord2 stmts location from to stmts' H. unfold ReplaceLoad, InsertLoad in H. destruct (Nat.eqb (List.length from) (List.length to)); [|discriminate].
  injection H as <-. set (mid := flat_map _ stmts).
  assert (M : filter (fun s => negb (is_load_stmt s)) mid = filter (fun s => negb (is_load_stmt s)) stmts).
  { unfold mid. clear. induction stmts as [|s l IH]; auto. cbn [flat_map]. rewrite filter_app, IH. cbn [filter].
    destruct s as [[]|]; auto. cbn [replace_stmt is_load_stmt negb]. destruct (remove_symbols _ _); auto. }
  rewrite <- M. clear M. unfold appendLoad.
  match goal with |- context [update_last ?p ?f mid] => pose proof (update_last_spec p f mid) as U; destruct (update_last p f mid) as [res|] end.
  - destruct U as (a & x & b & -> & P & _ & ->). rewrite !filter_app. f_equal. cbn [filter].
    apply loads_from_spec in P as (c & p & ms & fr & t & r & k & -> & _). cbn [option_map AppendToLoad]. destruct (del_all _ _); reflexivity.
  - assert (E : let (a, b) := load_lead mid in mid = a ++ b).
    { assert (Sp : forall l, let (a, b) := span load_skips l in l = a ++ b).
      { intros l. pose proof (span_spec (fun x => load_skips x = true) load_skips l) as S. destruct (span load_skips l). apply S. reflexivity. }
      unfold load_lead. pose proof (Sp mid) as S0. destruct mid as [|[[]|] l]; auto. specialize (Sp l). destruct (span load_skips l). subst l. auto. }
    destruct (load_lead mid) as [a b]. subst mid. rewrite E, !filter_app. reflexivity.
Qed.
Print Assumptions C42_other_statements.
(** Two replaced symbols in one load: one of them survives. *)
Theorem C42_two_symbols_refuted :
  exists stmts location from to stmts' m n,
    Forall loads_balanced stmts /\ ReplaceLoad (fun l => l) (fun l => l) stmts location from to = Some stmts' /\
    In n to /\ m <> location /\ In n (names_from m stmts').
Proof.
  exists [load1 %":old.bzl" [%"a"; %"b"]], %":new.bzl", [%"a"; %"b"], [%"a"; %"b"]. eexists. exists %":old.bzl", %"b".
  split; [repeat constructor|]. split; [vm_compute; reflexivity|]. split; [right; left; auto|]. split; [discriminate|]. vm_compute. tauto.
Qed.
Print Assumptions C42_two_symbols_refuted.
Example C42_nontrivial :
  ReplaceLoad (fun l => l) (fun l => l) [load1 %":old.bzl" [%"a"; %"b"]; load1 %":x.bzl" [%"c"]; new_call %"r" []] %":new.bzl" [%"a"; %"c"] [%"a"; %"c"] =
    Some [load1 %":new.bzl" [%"a"; %"c"]; load1 %":old.bzl" [%"b"]; new_call %"r" []].
Proof. vm_compute. reflexivity. Qed.
(** The arguments of new_load and replace_load: 'local=exported' or 'name'. *)
Theorem C41_load_arguments :
  (forall l e, ~ In "="%char l -> split_load_arg (l ++ "="%char :: e) = (e, l)) /\
  (forall n, ~ In "="%char n -> split_load_arg n = (n, n)) /\
  (forall args, List.length (fst (splitLoadArgs args)) = List.length args /\ List.length (snd (splitLoadArgs args)) = List.length args) /\
  (forall args i a, nth_error args i = Some a ->
     nth_error (fst (splitLoadArgs args)) i = Some (fst (split_load_arg a)) /\ nth_error (snd (splitLoadArgs args)) i = Some (snd (split_load_arg a))).
Proof.
  unfold split_load_arg, splitLoadArgs. split; [|split; [|split]].
  - intros l e H. rewrite split2_app by assumption. reflexivity.
  - intros n H. rewrite split2_none by assumption. reflexivity.
  - intros args. cbn [fst snd]. rewrite !map_length. auto.
  - intros args i a H. cbn [fst snd]. rewrite !nth_error_map, H. auto.
Qed.
Print Assumptions C41_load_arguments.
(** The command overwrites its own arguments: the next file it is applied to loads something else. *)
Theorem C41_second_file_refuted :
  exists args file1 file2 args2 args3 r1 r2,
    cmdNewLoad (fun l => l) (fun l => l) file1 args = Some (r1, args2) /\ cmdNewLoad (fun l => l) (fun l => l) file2 args2 = Some (r2, args3) /\ file1 = file2 /\ r1 <> r2.
Proof.
  exists [%":a.bzl"; %"local=exported"], [], []. do 4 eexists. split; [vm_compute; reflexivity|]. split; [vm_compute; reflexivity|]. split; [reflexivity|].
  vm_compute. discriminate.
Qed.
Print Assumptions C41_second_file_refuted.
