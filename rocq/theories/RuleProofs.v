(** Proofs about rule attributes and rule deletion. *)
From Verif Require Import Base BaseProofs Ast Walk Rewrite CallSpec CallProofs RuleApi RuleSpec.

Lemma defines_spec key x : defines key x = true <-> exists v, gives key x v.
Proof.
  unfold defines, attr_key, gives. split.
  - destruct x as [| | | | | | | | | | | | | | | | | | |c l p op b v| | | | | | | | | |]; try discriminate. destruct l; try discriminate.
    intros H. apply beq_eq in H. exists v, c, i, p, op, b. auto.
  - intros (v & c & i & p & op & b & -> & <-). apply beq_refl.
Qed.
Lemma defines_no key x : defines key x = false <-> forall v, ~ gives key x v.
Proof.
  split.
  - intros H v G. assert (defines key x = true) by (apply defines_spec; eauto). congruence.
  - intros H. apply not_true_iff_false. intros E. apply defines_spec in E as [v G]. eapply H; eauto.
Qed.
Lemma gives_rhs key x v : gives key x v -> rhs x = Some v.
Proof. intros (c & i & p & op & b & -> & _). reflexivity. Qed.
Lemma defines_rhs key x : defines key x = true -> exists v, rhs x = Some v /\ gives key x v.
Proof. intros H. apply defines_spec in H as [v G]. exists v. split; auto. eapply gives_rhs; eauto. Qed.
Lemma gives_fun key x v w : gives key x v -> gives key x w -> v = w.
Proof. intros H1 H2. apply gives_rhs in H1, H2. congruence. Qed.
Lemma Attr_spec key args : match Attr key args with Some v => attr_is key args v | None => no_attr key args end.
Proof.
  unfold Attr, AttrDefn. induction args as [|x l IH]; cbn [find].
  - intros x v [].
  - destruct (defines key x) eqn:D.
    + apply defines_rhs in D as (v & -> & G). apply ai_here; auto.
    + destruct (find (defines key) l) as [y|] eqn:F.
      * apply find_some in F as [_ F]. apply defines_rhs in F as (v & E & G). rewrite E in *. apply ai_later; auto. apply defines_no; auto.
      * intros y v [<-|Hy]; [apply defines_no; auto|]. eapply IH; eauto.
Qed.
Lemma attr_is_fun key args v w : attr_is key args v -> attr_is key args w -> v = w.
Proof.
  intros H. revert w. induction H as [x v l G|x v l N H IH]; intros w Hw; inversion Hw as [? ? ? G'|? ? ? N' H']; subst.
  - eapply gives_fun; eauto.
  - exfalso; eapply N'; eauto.
  - exfalso; eapply N; eauto.
  - auto.
Qed.
Lemma attr_is_some key args v : attr_is key args v <-> Attr key args = Some v.
Proof.
  pose proof (Attr_spec key args) as H. split.
  - intros A. destruct (Attr key args) as [w|]; [f_equal; eapply attr_is_fun; eauto|].
    exfalso. clear -A H. induction A; [eapply H; [left; auto|eauto]|]. apply IHA. intros y w Hy. apply H. right; auto.
  - intros E. rewrite E in H. auto.
Qed.
Lemma no_attr_none key args : no_attr key args <-> Attr key args = None.
Proof.
  pose proof (Attr_spec key args) as H. split.
  - intros N. destruct (Attr key args) as [w|]; auto. exfalso. clear -H N. induction H; [eapply N; [left; auto|eauto]|].
    apply IHattr_is. intros y w Hy. apply N. right; auto.
  - intros E. rewrite E in H. auto.
Qed.
Lemma gives_set key x v w : gives key x v -> exists c i p op b, x = EAssign c (EIdent i) p op b v /\ set_rhs w x = EAssign c (EIdent i) p op b w /\ i_name i = key.
Proof. intros (c & i & p & op & b & -> & E). exists c, i, p, op, b. auto. Qed.
Lemma attr_is_split key args v : attr_is key args v ->
  exists pre x post, args = pre ++ x :: post /\ gives key x v /\ no_attr key pre.
Proof.
  intros H. induction H as [x v l G|x v l N H (pre & y & post & -> & G & N')].
  - exists [], x, l. split; auto. split; auto. intros y w [].
  - exists (x :: pre), y, post. split; auto. split; auto. intros z w [<-|Hz]; auto.
Qed.
Lemma no_attr_defines key pre : no_attr key pre -> forall x, In x pre -> defines key x = false.
Proof. intros H x Hx. apply defines_no. intros v G. eapply H; eauto. Qed.
Lemma find_app_skip {A} (p : A -> bool) pre x post : (forall y, In y pre -> p y = false) -> p x = true -> find p (pre ++ x :: post) = Some x.
Proof. induction pre as [|y pre IH]; intros H Hx; cbn [app find]; [rewrite Hx; auto|]. rewrite (H y (or_introl eq_refl)). apply IH; auto. intros; apply H; right; auto. Qed.
Lemma find_none_all {A} (p : A -> bool) l : (forall y, In y l -> p y = false) -> find p l = None.
Proof. induction l as [|y l IH]; intros H; cbn [find]; auto. rewrite (H y (or_introl eq_refl)). apply IH. intros; apply H; right; auto. Qed.
Lemma SetAttr_existing key v pre x post w : gives key x w -> no_attr key pre -> SetAttr key v (pre ++ x :: post) = pre ++ set_rhs v x :: post.
Proof.
  intros G N. assert (D : defines key x = true) by (apply defines_spec; eauto). pose proof (no_attr_defines _ _ N) as P.
  unfold SetAttr, AttrDefn. rewrite find_app_skip by auto. clear N. induction pre as [|y pre IH]; cbn [app set_first].
  - rewrite D. auto.
  - rewrite (P y (or_introl eq_refl)). f_equal. apply IH. intros; apply P; right; auto.
Qed.
Lemma SetAttr_new key v args : no_attr key args -> SetAttr key v args = args ++ [new_attr key v].
Proof. intros N. unfold SetAttr, AttrDefn. rewrite find_none_all; auto. apply no_attr_defines; auto. Qed.
Lemma DelAttr_existing key pre x post v : gives key x v -> no_attr key pre -> DelAttr key (pre ++ x :: post) = (Some v, pre ++ post).
Proof.
  intros G N. assert (D : defines key x = true) by (apply defines_spec; eauto). pose proof (no_attr_defines _ _ N) as P. clear N.
  induction pre as [|y pre IH]; cbn [app DelAttr].
  - rewrite D, (gives_rhs _ _ _ G). auto.
  - rewrite (P y (or_introl eq_refl)), IH; auto. intros; apply P; right; auto.
Qed.
Lemma DelAttr_absent key args : no_attr key args -> DelAttr key args = (None, args).
Proof.
  intros N. pose proof (no_attr_defines _ _ N) as P. clear N. induction args as [|y l IH]; cbn [DelAttr]; auto.
  rewrite (P y (or_introl eq_refl)), IH; auto. intros; apply P; right; auto.
Qed.
Lemma gives_other key k x v w : k <> key -> gives key x v -> (gives k x w <-> False).
Proof. intros ne (c & i & p & op & b & -> & E) . split; [|tauto]. intros (? & ? & ? & ? & ? & E1 & E2). congruence. Qed.
Lemma attr_is_app key pre l v : no_attr key pre -> attr_is key (pre ++ l) v <-> attr_is key l v.
Proof.
  intros N. induction pre as [|x pre IH]; [tauto|]. cbn [app]. rewrite <- IH by (intros y w Hy; apply N; right; auto). split.
  - intros H. inversion H; subst; auto. exfalso. eapply N; eauto. left; auto.
  - intros H. apply ai_later; auto. intros w. apply N. left; auto.
Qed.
Lemma attr_is_skip key pre x post v : (forall w, ~ gives key x w) -> attr_is key (pre ++ x :: post) v <-> attr_is key (pre ++ post) v.
Proof.
  intros N. induction pre as [|y pre IH]; cbn [app].
  - split; intros H; [inversion H; subst; auto; exfalso; eapply N; eauto|]. apply ai_later; auto.
  - split; intros H; inversion H; subst; try (apply ai_here; auto; fail); apply ai_later; auto; apply IH; auto.
Qed.

(** ** Names *)
Lemma AttrString_spec key args n : AttrString key args = n <->
  string_attr key args n \/ (n = [] /\ forall l, ~ attr_is key args (EStr l)).
Proof.
  unfold AttrString, string_attr. split.
  - destruct (Attr key args) as [v|] eqn:E.
    + apply attr_is_some in E. destruct v; intros <-; try (right; split; auto; intros l0 H; pose proof (attr_is_fun _ _ _ _ E H); discriminate).
      left. exists s. auto.
    + intros <-. right. split; auto. intros l H. apply attr_is_some in H. congruence.
  - intros [(l & H & <-)|[-> H]].
    + apply attr_is_some in H. rewrite H. auto.
    + destruct (Attr key args) as [[]|] eqn:E; auto. apply attr_is_some in E. exfalso. eapply H; eauto.
Qed.
Lemma explicit_spec args n : explicitly_named args n <-> AttrString %"name" args = n /\ n <> [].
Proof.
  unfold explicitly_named. split; intros [H ne]; split; auto.
  - apply AttrString_spec. auto.
  - apply AttrString_spec in H as [H|[-> _]]; [auto|congruence].
Qed.
Lemma unnamed_spec args : unnamed args <-> AttrString %"name" args = [].
Proof.
  unfold unnamed. split.
  - intros H. destruct (AttrString %"name" args) as [|a l] eqn:E; auto. exfalso. apply (H (a :: l)). apply explicit_spec. split; [auto|discriminate].
  - intros E n H. apply explicit_spec in H as [H ne]. congruence.
Qed.
Lemma dotted_name x l : dotted x = Some l -> callee_name x (join [c_dot] l) /\ l <> [].
Proof.
  revert l. induction x; intros ls H; try discriminate; cbn [dotted] in H.
  - injection H as <-. split; [apply (cn_ident i)|discriminate].
  - destruct (dotted x) as [l0|]; [|discriminate]. injection H as <-. destruct (IHx _ eq_refl) as [H1 H2].
    assert (J : join [c_dot] (l0 ++ [name]) = join [c_dot] l0 ++ %"." ++ name).
    { clear -H2. induction l0 as [|a [|b l0] IH]; [congruence|reflexivity|]. cbn [app join] in *. rewrite IH by discriminate. rewrite <- !app_assoc. reflexivity. }
    rewrite J. split; [apply cn_dot; auto|]. destruct l0; discriminate.
Qed.
Lemma callee_name_dotted x n : callee_name x n -> exists l, dotted x = Some l /\ join [c_dot] l = n.
Proof.
  intros H. induction H as [i|c x p q n m H (l & E & <-)].
  - exists [i_name i]. auto.
  - cbn [dotted]. rewrite E. exists (l ++ [n]). split; auto. destruct (dotted_name _ _ E) as [_ ne].
    clear -ne. induction l as [|a [|b l0] IH]; [congruence|reflexivity|]. cbn [app join] in *. rewrite IH by discriminate. rewrite <- !app_assoc. reflexivity.
Qed.
Lemma kind_spec x k : k <> [] -> (has_kind x k <-> kind_of x = k).
Proof.
  intros ne. unfold has_kind, kind_of. split.
  - intros H. apply callee_name_dotted in H as (l & -> & <-). auto.
  - destruct (dotted x) as [l|] eqn:E; [|intros <-; congruence]. intros <-. apply dotted_name; auto.
Qed.
Lemma kind_any x : (exists k, has_kind x k /\ k <> []) <-> kind_of x <> [].
Proof.
  split.
  - intros (k & H & ne). apply kind_spec in H; congruence.
  - intros ne. exists (kind_of x). split; auto. apply kind_spec; auto.
Qed.
Lemma stmt_call_spec s x args : stmt_call s = Some (x, args) <-> calls s x args.
Proof.
  unfold calls. split.
  - destruct s as [[]|]; try discriminate. intros H. injection H as <- <-. do 5 eexists. reflexivity.
  - intros (c & p & en & k & m & ->). reflexivity.
Qed.
Definition anon_b (s : option expr) : bool :=
  match stmt_call s with Some (x, args) => negb (beq (kind_of x) []) && beq (AttrString %"name" args) [] | None => false end.
Lemma anon_spec s : anon_b s = true <-> anonymous s.
Proof.
  unfold anon_b, anonymous. split.
  - destruct (stmt_call s) as [[x args]|] eqn:E; [|discriminate]. apply stmt_call_spec in E. intros H. apply andb_true_iff in H as [H1 H2].
    apply negb_true_iff, beq_neq in H1. apply beq_eq in H2. apply kind_any in H1 as (k & H1 & ne).
    exists x, args, k. repeat split; auto. apply unnamed_spec; auto.
  - intros (x & args & k & C & K & ne & U). apply stmt_call_spec in C. rewrite C. apply andb_true_iff. split.
    + apply negb_true_iff, beq_neq. apply kind_any. eauto.
    + apply beq_eq, unnamed_spec; auto.
Qed.
Definition explicit_b (d : bytes) (s : option expr) : bool :=
  match stmt_call s with Some (x, args) => beq (AttrString %"name" args) d | None => false end.
Lemma implicit_loop_count d saw l : implicit_loop d saw l =
  if existsb (explicit_b d) l then [] 
  else if Nat.eqb ((if saw then 1 else 0) + List.length (filter anon_b l)) 1 then d else [].
Proof.
  revert saw. induction l as [|s l IH]; intros saw; cbn [implicit_loop existsb filter List.length].
  - destruct saw; auto.
  - assert (X : forall saw, implicit_loop d saw l = if existsb (explicit_b d) l then [] else if Nat.eqb ((if saw then 1 else 0) + List.length (filter anon_b l)) 1 then d else []) by auto.
    unfold explicit_b at 1, anon_b at 1. destruct (stmt_call s) as [[x args]|]; [|cbn [orb]; auto].
    destruct (beq (AttrString %"name" args) d); cbn [orb]; auto.
    destruct (negb (beq (kind_of x) []) && beq (AttrString %"name" args) []); cbn [List.length].
    + destruct saw.
      * cbn. destruct (existsb (explicit_b d) l); auto.
      * rewrite X. cbn [plus]. reflexivity.
    + apply X.
Qed.
Lemma count_one {A} (p : A -> bool) l : List.length (filter p l) = 1 <->
  exists a s b, l = a ++ s :: b /\ p s = true /\ forall t, In t (a ++ b) -> p t = false.
Proof.
  induction l as [|x l IH]; cbn [filter].
  - split; [discriminate|]. intros ([|? ?] & s & b & E & _); discriminate.
  - destruct (p x) eqn:P.
    + cbn [List.length]. split.
      * intros H. exists [], x, l. split; auto. split; auto. cbn [app]. intros t Ht. destruct (p t) eqn:Pt; auto.
        assert (In t (filter p l)) by (apply filter_In; auto). destruct (filter p l); [contradiction|discriminate].
      * intros ([|y a] & s & b & E & Ps & N).
        -- injection E as <- <-. f_equal. cbn [app] in N. clear -N. induction l as [|t l IH]; auto. cbn [filter]. rewrite (N t) by (left; auto). apply IH. intros; apply N; right; auto.
        -- injection E as <- ->. rewrite (N x) in P by (left; auto). discriminate.
    + rewrite IH. split.
      * intros (a & s & b & -> & Ps & N). exists (x :: a), s, b. split; auto. split; auto. intros t [<-|Ht]; auto.
      * intros ([|y a] & s & b & E & Ps & N).
        -- injection E as <- <-. congruence.
        -- injection E as <- ->. exists a, s, b. split; auto. split; auto. intros t Ht. apply N. right; auto.
Qed.
Lemma implicit_applies_spec d l : d <> [] ->
  (implicit_applies d l <-> existsb (explicit_b d) l = false /\ List.length (filter anon_b l) = 1).
Proof.
  intros ne. unfold implicit_applies. rewrite count_one.
  assert (A : (forall s x args, In s l -> calls s x args -> ~ explicitly_named args d) <-> existsb (explicit_b d) l = false).
  { rewrite <- not_true_iff_false, existsb_exists. split.
    - intros H (s & Hs & E). unfold explicit_b in E. destruct (stmt_call s) as [[x args]|] eqn:C; [|discriminate].
      apply stmt_call_spec in C. apply beq_eq in E. eapply H; eauto. apply explicit_spec. auto.
    - intros H s x args Hs C E. apply H. exists s. split; auto. unfold explicit_b. apply stmt_call_spec in C. rewrite C.
      apply explicit_spec in E as [E _]. rewrite E. apply beq_refl. }
  rewrite A.
  assert (B : (exists a b s, l = a ++ s :: b /\ anonymous s /\ (forall t, In t (a ++ b) -> ~ anonymous t)) <->
              (exists a s b, l = a ++ s :: b /\ anon_b s = true /\ (forall t, In t (a ++ b) -> anon_b t = false))).
  { split.
    - intros (a & b & s & E & S & N). exists a, s, b. split; auto. split; [apply anon_spec; auto|]. intros t Ht. apply not_true_iff_false. rewrite anon_spec. auto.
    - intros (a & s & b & E & S & N). exists a, b, s. split; auto. split; [apply anon_spec; auto|]. intros t Ht. rewrite <- anon_spec. rewrite (N t Ht). discriminate. }
  rewrite B. tauto.
Qed.
Lemma implicit_loop_spec d l : d <> [] ->
  implicit_loop d false l = d /\ implicit_applies d l \/ implicit_loop d false l = [] /\ ~ implicit_applies d l.
Proof.
  intros ne. rewrite implicit_applies_spec by auto. rewrite implicit_loop_count. cbn [plus].
  destruct (existsb (explicit_b d) l).
  - right. split; auto. intros [H _]. discriminate.
  - destruct (Nat.eqb_spec (List.length (filter anon_b l)) 1); [left; auto|right; split; auto; tauto].
Qed.
