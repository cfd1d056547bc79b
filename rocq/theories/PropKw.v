(** C88 (keyword-positional-params). *)
From Verif Require Import LRTables LRCert Parse PropComplete.
From Verif Require Import Base BaseProofs Ast ParseFile Walk WalkSpec WalkProofs WalkGen PropWalk PropDictSort MacroLink RuleSpec RuleProofs Print PropPrint AttrParams PropAttr KwParams.
From Coq Require Import Sorted.
Local Open Scope list_scope.

(** ** What is asked for *)
(** The builtins looked for and their positional-only parameters *)
Definition builtin_params : list (bytes * list bytes) :=
  map (fun n => (n, [%"x"])) [%"tuple"; %"list"; %"len"; %"str"; %"repr"; %"bool"; %"int"; %"dir"; %"type"; %"select"] ++
  [(%"all", [%"elements"]); (%"any", [%"elements"]); (%"hasattr", [%"x"; %"name"]); (%"getattr", [%"x"; %"name"; %"default"])].
(** e is fn(args) or native.fn(args) *)
Definition callee (x : expr) (fn : bytes) : Prop :=
  (exists i, x = EIdent i /\ i_name i = fn) \/ (exists c i p q, x = EDot c (EIdent i) p q fn /\ i_name i = %"native").
Definition calls_builtin (e : expr) (fn : bytes) (ps : list bytes) (args : list expr) : Prop :=
  In (fn, ps) builtin_params /\ exists c x p en k m, e = ECall c x p args en k m /\ callee x fn.
(** The argument at position i is [n = v], where n is the name of parameter i *)
Definition misnamed (ps : list bytes) (i : nat) (a v : expr) : Prop :=
  exists n, nth_error ps i = Some n /\ exists c j p b, a = EAssign c (EIdent j) p %"=" b v /\ i_name j = n.
(** 0: positional, 1: keyword, 2: *args, 3: **kwargs *)
Definition has_kind (a : expr) (t : nat) : Prop :=
  let keyword := exists c x p b v, a = EAssign c x p %"=" b v in
  let star := exists c p x, a = EUnary c p %"*" x in
  let stars := exists c p x, a = EUnary c p %"**" x in
  (t = 1 /\ keyword) \/ (t = 2 /\ star) \/ (t = 3 /\ stars) \/ (t = 0 /\ ~ keyword /\ ~ star /\ ~ stars).
(** args with every misnamed argument replaced by its value, and the kinds of its arguments *)
Inductive unnamed (ps : list bytes) : nat -> list expr -> list expr -> list nat -> Prop :=
  | un_nil i : unnamed ps i [] [] []
  | un_value i a v l l' ks : misnamed ps i a v -> unnamed ps (S i) l l' ks -> unnamed ps i (a :: l) (v :: l') (0 :: ks)
  | un_same i a t l l' ks : (forall v, ~ misnamed ps i a v) -> has_kind a t -> unnamed ps (S i) l l' ks -> unnamed ps i (a :: l) (a :: l') (t :: ks).
Definition some_misnamed (ps : list bytes) (args : list expr) : Prop := exists i a v, nth_error args i = Some a /\ misnamed ps i a v.
Definition kw_repaired (e e' : expr) : Prop :=
  (forall c x p args en k m fn ps args' ks, e = ECall c x p args en k m -> callee x fn -> In (fn, ps) builtin_params -> unnamed ps 0 args args' ks ->
     some_misnamed ps args -> Sorted le ks -> exists k', e' = ECall c x p args' en k' m /\ (k' = k \/ k' = false /\ In 1 ks)) /\
  (forall fn ps args args' ks, calls_builtin e fn ps args -> unnamed ps 0 args args' ks -> (~ some_misnamed ps args \/ ~ Sorted le ks) -> e' = e) /\
  ((forall fn ps args, ~ calls_builtin e fn ps args) -> e' = e).
(** *** What a call passes to a function whose parameters are ps *)
Section Meaning.
  Context {V : Type} (value : expr -> V) (elements : expr -> list V) (items : expr -> list (bytes * V)).
  Definition positional_of (a : expr) : list V :=
    match a with
    | EAssign _ _ _ op _ _ => if beq op %"=" then [] else [value a]
    | EUnary _ _ op (Some x) => if beq op %"*" then elements x else if beq op %"**" then [] else [value a]
    | _ => [value a]
    end.
  Definition named_of (a : expr) : list (bytes * V) :=
    match a with
    | EAssign _ (EIdent i) _ op _ v => if beq op %"=" then [(i_name i, value v)] else []
    | EUnary _ _ op (Some x) => if beq op %"**" then items x else []
    | _ => []
    end.
  (** The positional values go to the first parameters, the others to those named; no parameter twice, none unknown. *)
  Definition passed (ps : list bytes) (args : list expr) (m : list (bytes * V)) : Prop :=
    m = combine ps (flat_map positional_of args) ++ flat_map named_of args /\
    List.length (flat_map positional_of args) <= List.length ps /\ NoDup (map fst m) /\ (forall n, In n (map fst m) -> In n ps).
End Meaning.
(** No argument is, and no keyword argument has for value, what could not be one: an assignment, *x or **x. *)
Definition plain_value (v : expr) : Prop := match v with EAssign _ _ _ _ _ _ => False | EUnary _ _ op _ => op <> %"*" /\ op <> %"**" | _ => True end.
Definition plain_values (args : list expr) : Prop := forall c x p op b v, In (EAssign c x p op b v) args -> plain_value v.

(** ** Proofs *)
Lemma callee_spec x fn : functionName x = Some fn <-> callee x fn.
Proof.
  unfold callee. split.
  - intro H. destruct x; cbn [functionName] in H; try (exfalso; now inversion H).
    + left. exists i. split; auto. now injection H.
    + right. destruct x; try (exfalso; now inversion H). destruct (beq (i_name i) %"native") eqn:E; [|exfalso; now inversion H]. apply beq_eq in E. injection H as H. subst. eauto 10.
  - intros [(i & -> & <-) | (c & i & p & q & -> & E)]; cbn; auto. now rewrite E.
Qed.
Ltac no_kind := right; right; right; split; [reflexivity|]; repeat split; let H := fresh in intro H; decompose [ex] H; clear H; match goal with K : _ = _ |- _ => now inversion K end.
Lemma kind_spec a : has_kind a (fst (paramType a)).
Proof.
  unfold has_kind. destruct a; try no_kind.
  - cbn [paramType]. destruct (beq op %"*") eqn:E1; [|destruct (beq op %"**") eqn:E2]; cbn [fst].
    + apply beq_eq in E1. subst. right. left. split; auto. eauto.
    + apply beq_eq in E2. subst. right. right. left. split; auto. eauto.
    + right. right. right. split; [reflexivity|]. apply beq_neq in E1, E2. repeat split; intro H; decompose [ex] H; clear H; match goal with K : _ = _ |- _ => inversion K; now subst end.
  - cbn [paramType]. destruct (beq op %"=") eqn:E1; cbn [fst].
    + apply beq_eq in E1. subst. left. split; auto. eauto 10.
    + right. right. right. split; [reflexivity|]. apply beq_neq in E1. repeat split; intro H; decompose [ex] H; clear H; match goal with K : _ = _ |- _ => inversion K; now subst end.
Qed.
Lemma kind_unique a t : has_kind a t -> t = fst (paramType a).
Proof.
  pose proof (kind_spec a) as K. revert K. generalize (fst (paramType a)). intro t'. unfold has_kind. 
  assert (A : forall c x p b v c' p' y o, EAssign c x p %"=" b v = EUnary c' p' o y -> False) by (intros; now inversion H).
  assert (B : forall c p x c' p' x', EUnary c p %"*" x = EUnary c' p' %"**" x' -> False) by (intros; now inversion H).
  intros [(-> & K) | [(-> & K) | [(-> & K) | (-> & K1 & K2 & K3)]]] [(-> & L) | [(-> & L) | [(-> & L) | (-> & L1 & L2 & L3)]]]; auto; exfalso; try contradiction;
    decompose [ex] K; decompose [ex] L; subst; eauto.
  all: match goal with E : EUnary _ _ _ _ = EUnary _ _ _ _ |- _ => symmetry in E; now apply B in E end || match goal with E : _ = _ |- _ => symmetry in E; now apply A in E end || idtac.
Qed.
(** Every finding is about a misnamed argument. *)
Lemma finding_spec (ps : list bytes) i a : ~ In [] ps -> match kw_finding (Sig ps []) i a with
  | Some (v, t) => misnamed ps i a v /\ t = 0
  | None => forall v, ~ misnamed ps i a v
  end.
Proof.
  intro Ne. unfold kw_finding. cbn [sg_positional sg_keyword]. destruct (Nat.eqb (fst (paramType a)) typeKeyword) eqn:T.
  - apply PeanoNat.Nat.eqb_eq in T. match goal with |- context [@nth_error ?A ?u ?v] => destruct (@nth_error A u v) as [n|] eqn:N end.
    + destruct a; cbn [paramType fst] in T; try (exfalso; now inversion T); [destruct (beq op %"*"); [exfalso; now inversion T|]; destruct (beq op %"**"); exfalso; now inversion T|].
      destruct (beq op %"=") eqn:E; [|exfalso; now inversion T]. cbn [paramType snd makePositional]. rewrite E. cbn [snd]. apply beq_eq in E. subst.
      match goal with |- context [beq n ?z] => destruct (beq n z) eqn:En end; [apply beq_eq in En|apply beq_neq in En].
      * split; auto. exists n. split; auto. destruct a1; try (exfalso; subst n; apply Ne; now apply (nth_error_In ps i)). eauto 10.
      * intros v (n' & N' & c' & j & p' & b' & Ea & Ej). rewrite N in N'. injection N' as N'. subst n'. inversion Ea. subst. now apply En.
    + intros v (n' & N' & _). rewrite N in N'. now inversion N'.
  - match goal with |- context [@nth_error ?A [] ?v] => replace (@nth_error A [] v) with (@None A) by now destruct v end. assert (H : forall v, ~ misnamed ps i a v).
    { intros v (n & _ & c & j & p & b & -> & _). cbn [paramType] in T. now rewrite beq_refl in T. }
    destruct (Nat.eqb (fst (paramType a)) typePositional && Nat.leb (List.length ps) i); exact H.
Qed.

Lemma args_spec (ps : list bytes) : ~ In [] ps -> forall l i, let r := kw_args (Sig ps []) i l in
  unnamed ps i l (map after_arg r) (map after_type r) /\ (existsb reported r = true <-> exists j a v, nth_error l j = Some a /\ misnamed ps (i + j) a v) /\
  (forall a, In a (map fst (filter reported r)) <-> exists j v, nth_error l j = Some a /\ misnamed ps (i + j) a v).
Proof.
  intro Ne. induction l as [|a l IH]; intros i r; subst r; cbn [kw_args map existsb filter].
  - split; [constructor|]. split; [split; [intro H; now inversion H|intros (j & a & v & H & _); destruct j; now inversion H]|]. intro a. split; [intros []|intros (j & v & H & _); destruct j; now inversion H].
  - specialize (IH (S i)). cbv zeta in IH. destruct IH as (U & X & F). pose proof (finding_spec ps i a Ne) as K.
    unfold reported at 1 3, after_arg at 1, after_type at 1. cbn [fst snd]. destruct (kw_finding (Sig ps []) i a) as [[v t]|].
    + destruct K as (K & ->). split; [constructor; auto|]. split.
      * split; auto. intros _. exists 0, a, v. rewrite PeanoNat.Nat.add_0_r. auto.
      * intro b. cbn [map In fst]. split.
        -- intros [<- | I]; [exists 0, v; rewrite PeanoNat.Nat.add_0_r; auto|]. apply F in I as (j & w & A & B). exists (S j), w. rewrite <- PeanoNat.Nat.add_succ_comm. auto.
        -- intros (j & w & A & B). destruct j as [|j]; [left; now injection A|right]. apply F. exists j, w. rewrite PeanoNat.Nat.add_succ_comm. auto.
    + split; [constructor; auto; apply kind_spec|]. split.
      * cbn [orb]. rewrite X. split; intros (j & b & w & A & B).
        -- exists (S j), b, w. rewrite <- PeanoNat.Nat.add_succ_comm. auto.
        -- destruct j as [|j]; [rewrite PeanoNat.Nat.add_0_r in B; injection A as ->; exfalso; now apply (K w)|]. exists j, b, w. rewrite PeanoNat.Nat.add_succ_comm. auto.
      * intro b. rewrite F. split; intros (j & w & A & B).
        -- exists (S j), w. rewrite <- PeanoNat.Nat.add_succ_comm. auto.
        -- destruct j as [|j]; [rewrite PeanoNat.Nat.add_0_r in B; injection A as ->; exfalso; now apply (K w)|]. exists j, w. rewrite PeanoNat.Nat.add_succ_comm. auto.
Qed.
Lemma misnamed_unique ps i a v w : misnamed ps i a v -> misnamed ps i a w -> v = w.
Proof. intros (n & _ & c & j & p & b & -> & _) (n' & _ & c' & j' & p' & b' & E & _). now inversion E. Qed.
Lemma unnamed_unique ps i l l1 k1 : unnamed ps i l l1 k1 -> forall l2 k2, unnamed ps i l l2 k2 -> l1 = l2 /\ k1 = k2.
Proof.
  induction 1 as [i|i a v l l' ks M _ IH|i a t l l' ks N K _ IH]; intros l2 k2 U; inversion U as [|? ? w ? l2' ks' M' U'|? ? t' ? l2' ks' N' K' U']; subst; auto.
  - destruct (IH _ _ U') as (-> & ->). now rewrite (misnamed_unique _ _ _ _ _ M M').
  - exfalso. now apply (N' v).
  - exfalso. now apply (N w).
  - destruct (IH _ _ U') as (-> & ->). now rewrite (kind_unique _ _ K), (kind_unique _ _ K').
Qed.
Lemma sorted_spec l : IntsAreSorted l = true <-> Sorted le l.
Proof.
  induction l as [|a [|b l] IH]; [split; constructor|split; auto; intros _; repeat constructor|].
  cbn [IntsAreSorted]. rewrite Bool.andb_true_iff, PeanoNat.Nat.leb_le, IH. split; [intros (A & B); auto|]. intro S1. inversion S1 as [|? ? A B]. subst. split; auto. now inversion B.
Qed.
Lemma signatures_spec fn ps : In (fn, ps) builtin_params <-> lookup fn signatures = Some (Sig ps []).
Proof.
  split.
  - cbn [builtin_params map app In]. intro H. decompose [or] H; clear H; try contradiction; match goal with K : (_, _) = (fn, ps) |- _ => injection K as <- <- end; reflexivity.
  - unfold signatures. cbn [lookup]. repeat match goal with |- context [beq fn ?z] => destruct (beq fn z) eqn:?E; [apply beq_eq in E; subst fn; intro K; injection K as <-; vm_compute; tauto|clear E] end. intro K. now inversion K.
Qed.
Lemma signatures_keyword fn s : lookup fn signatures = Some s -> exists ps, s = Sig ps [].
Proof.
  unfold signatures. cbn [lookup]. repeat match goal with |- context [beq fn ?z] => destruct (beq fn z); [intro K; injection K as <-; eauto|] end. intro K. now inversion K.
Qed.
Lemma builtin_named fn ps : In (fn, ps) builtin_params -> ~ In [] ps.
Proof.
  cbn [builtin_params map app In]. intro H. decompose [or] H; clear H; try contradiction; match goal with K : (_, _) = (fn, ps) |- _ => injection K as <- <- end; cbn [In]; intro H; decompose [or] H; try contradiction; match goal with K : _ = [] |- _ => now inversion K end.
Qed.
Lemma kw_call_spec e : match kw_call e with
  | [] => forall fn ps args, calls_builtin e fn ps args -> args = []
  | r => exists fn ps args, calls_builtin e fn ps args /\ r = kw_args (Sig ps []) 0 args
  end.
Proof.
  destruct e; try (intros ? ? ? (_ & ? & ? & ? & ? & ? & ? & E & _); now inversion E). cbn [kw_call].
  assert (N : (forall fn, functionName e = Some fn -> forall ps, lookup fn signatures <> Some (Sig ps [])) -> forall fn ps args0, calls_builtin (ECall c e lstart args e0 compact multi) fn ps args0 -> args0 = []).
  { intros H fn ps args0 (I & c1 & x & p & en & k & m & E & Cx). inversion E. subst. apply callee_spec in Cx. exfalso. apply (H fn Cx ps). now apply signatures_spec. }
  destruct (functionName e) as [fn|] eqn:Ef; [|apply N; intros ? A; now inversion A].
  destruct (lookup fn signatures) as [s|] eqn:El; [|apply N; intros ? A; injection A as <-; rewrite El; intros ? B; now inversion B].
  destruct (signatures_keyword _ _ El) as (ps & ->). destruct args as [|a args]; [intros ? ? ? (_ & ? & ? & ? & ? & ? & ? & E & _); now inversion E|].
  cbn [kw_args]. exists fn, ps, (a :: args). split; auto. split; [now apply signatures_spec|]. apply callee_spec in Ef. eauto 10.
Qed.

Lemma calls_unique e fn ps args fn' ps' args' : calls_builtin e fn ps args -> calls_builtin e fn' ps' args' -> fn = fn' /\ ps = ps' /\ args = args'.
Proof.
  intros (I & c & x & p & en & k & m & -> & Cx) (I' & c' & x' & p' & en' & k' & m' & E & Cx'). inversion E. subst. apply callee_spec in Cx, Cx'. rewrite Cx in Cx'. injection Cx' as <-. apply signatures_spec in I, I'. rewrite I in I'. now injection I'.
Qed.
Lemma args_nonempty s i l : kw_args s i l = [] -> l = [].
Proof. destruct l; auto. intro H. now inversion H. Qed.
Lemma kw_fix_cases e fn ps args args' ks : calls_builtin e fn ps args -> unnamed ps 0 args args' ks ->
  (some_misnamed ps args /\ Sorted le ks /\ exists c x p en k m, e = ECall c x p args en k m /\ kw_fix e = ECall c x p args' en (k && negb (existsb (Nat.eqb typeKeyword) ks)) m) \/
  ((~ some_misnamed ps args \/ ~ Sorted le ks) /\ kw_fix e = e).
Proof.
  intros C U. pose proof C as (I & c & x & p & en & k & m & E & Cx). pose proof (proj1 (signatures_spec _ _) I) as L. apply callee_spec in Cx.
  pose proof (args_spec ps (builtin_named _ _ I) args 0) as (U' & X & _). destruct (unnamed_unique _ _ _ _ _ U _ _ U') as (Ea & Ek).
  unfold kw_fix. rewrite E. cbn [kw_call]. rewrite Cx, L.
  destruct (existsb reported (kw_args (Sig ps []) 0 args)) eqn:Ex.
  - destruct (proj1 X eq_refl) as (j & a & v & A & B). destruct (IntsAreSorted (map after_type (kw_args (Sig ps []) 0 args))) eqn:Es; cbn [andb].
    + left. split; [exists j, a, v; auto|]. split; [subst ks; now apply sorted_spec|]. exists c, x, p, en, k, m. subst args' ks. auto.
    + right. split; auto. right. subst ks. intro K. apply sorted_spec in K. rewrite K in Es. now inversion Es.
  - right. cbn [andb]. split; auto. left. intros (j & a & v & A & B). assert (false = true) as F; [|now inversion F]. apply X. exists j, a, v. auto.
Qed.
Lemma kw_fix_other e : (forall fn ps args, ~ calls_builtin e fn ps args) -> kw_fix e = e.
Proof.
  intro N. unfold kw_fix. pose proof (kw_call_spec e) as K. destruct (kw_call e) as [|r l]; [now destruct e|]. destruct K as (fn & ps & args & C & _). exfalso. now apply (N fn ps args).
Qed.
Lemma unnamed_exists ps args : ~ In ([] : bytes) ps -> exists args' ks, unnamed ps 0 args args' ks.
Proof. intro N. pose proof (args_spec ps N args 0) as (U & _). eauto. Qed.
Lemma kw_fix_spec e : kw_repaired e (kw_fix e).
Proof.
  split; [|split].
  - intros c x p args en k m fn ps args' ks E Cx I U M S1. destruct (kw_fix_cases e fn ps args args' ks) as [(_ & _ & c1 & x1 & p1 & en1 & k1 & m1 & E1 & F) | ([N | N] & F)]; auto; try contradiction.
    { split; auto. exists c, x, p, en, k, m. auto. }
    rewrite E in E1. inversion E1. subst. eexists. split; [exact F|]. destruct (existsb (Nat.eqb typeKeyword) ks) eqn:Ek; cbn [negb]; [right; split; [apply Bool.andb_false_r|]|left; apply Bool.andb_true_r].
    apply existsb_exists in Ek as (t & It & Et). apply PeanoNat.Nat.eqb_eq in Et. unfold typeKeyword in Et. now subst t.
  - intros fn ps args args' ks C U N. destruct (kw_fix_cases e fn ps args args' ks C U) as [(M & S1 & _) | (_ & F)]; auto. exfalso. destruct N as [N | N]; auto.
  - apply kw_fix_other.
Qed.
(** Every call of a builtin is repaired, if its arguments are in order then; nothing else is changed. *)
Theorem C88_fix : forall f, everywhere kw_repaired f (keywordPositionalFix f).
Proof. apply (rebuild_everywhere kw_fix); auto. intro. apply kw_fix_spec. Qed.
(** What is reported: every misnamed argument of every call of a builtin in the file. *)
Theorem C88_findings : forall f a, In a (keywordPositionalFindings f) <->
  exists path e fn ps args i v, node_at children f path = Some e /\ calls_builtin e fn ps args /\ nth_error args i = Some a /\ misnamed ps i a v.
Proof.
  intros f a. unfold keywordPositionalFindings. rewrite in_flat_map. split.
  - intros (e & W & I). apply walked_node in W as (path & W). pose proof (kw_call_spec e) as K. destruct (kw_call e) as [|r l]; [destruct I|]. destruct K as (fn & ps & args & C & E). rewrite E in I.
    apply (args_spec ps (builtin_named _ _ (proj1 C))) in I as (j & v & A & B). exists path, e, fn, ps, args, j, v. auto.
  - intros (path & e & fn & ps & args & i & v & W & C & A & B). exists e. split; [apply walked_node; eauto|]. pose proof (kw_call_spec e) as K. destruct (kw_call e) as [|r l].
    + rewrite (K _ _ _ C) in A. destruct i; now inversion A.
    + destruct K as (fn' & ps' & args' & C' & E). destruct (calls_unique _ _ _ _ _ _ _ C C') as (<- & <- & <-). rewrite E. apply (args_spec ps (builtin_named _ _ (proj1 C))). exists i, v. auto.
Qed.
(** A call that passes something passes the same things afterwards, to a function whose first parameters have the names of those of the builtin. *)
Section Same.
  Context {V : Type} (value : expr -> V) (elements : expr -> list V) (items : expr -> list (bytes * V)).
  Notation pos_of := (positional_of value elements).
  Notation nam_of := (named_of value items).
  Lemma misnamed_of ps i a v : misnamed ps i a v -> exists n, nth_error ps i = Some n /\ pos_of a = [] /\ nam_of a = [(n, value v)].
  Proof. intros (n & N & c & j & p & b & -> & <-). exists (i_name j). cbn [positional_of named_of]. rewrite beq_refl. auto. Qed.
  Lemma plain_of v : plain_value v -> pos_of v = [value v] /\ nam_of v = [].
  Proof.
    destruct v; cbn [plain_value positional_of named_of]; intro H; try contradiction; auto. destruct H as (A & B). apply beq_neq in A, B. destruct x; auto. now rewrite A, B.
  Qed.
  Lemma kind_of a : has_kind a 0 -> pos_of a = [value a] /\ nam_of a = [].
  Proof.
    intros [(E & _) | [(E & _) | [(E & _) | (_ & K & A & B)]]]; try (exfalso; now inversion E). destruct a; auto; cbn [positional_of named_of].
    - destruct x; auto. destruct (beq op %"*") eqn:E1; [apply beq_eq in E1; subst; exfalso; eauto|]. destruct (beq op %"**") eqn:E2; [apply beq_eq in E2; subst; exfalso; eauto|]. auto.
    - destruct (beq op %"=") eqn:E1; [apply beq_eq in E1; subst; exfalso; eauto 10|]. split; auto. now destruct a1.
  Qed.
  Lemma later ps i l l' ks : unnamed ps i l l' ks -> Forall (le 1) ks -> l' = l.
  Proof. induction 1; intro F; auto; inversion F; subst; [exfalso; lia|]. f_equal. auto. Qed.
  Lemma same_passed ps more i l l' ks : unnamed ps i l l' ks -> Sorted le ks -> plain_values l -> let qs := skipn i (ps ++ more) in
    NoDup (map fst (combine qs (flat_map pos_of l) ++ flat_map nam_of l)) -> List.length (flat_map pos_of l) <= List.length qs ->
    combine qs (flat_map pos_of l') ++ flat_map nam_of l' = combine qs (flat_map pos_of l) ++ flat_map nam_of l /\ List.length (flat_map pos_of l') <= List.length qs.
  Proof.
    intros U. induction U as [i|i a v l l' ks M U IH|i a t l l' ks N K U IH]; intros S1 P qs ND L; auto.
    - destruct (misnamed_of _ _ _ _ M) as (n & Nn & Ea & En). assert (Q : qs = n :: skipn (S i) (ps ++ more)).
      { subst qs. assert (Nn' : nth_error (ps ++ more) i = Some n) by (rewrite nth_error_app1; [auto|]; apply nth_error_Some; now rewrite Nn). revert Nn'. clear. generalize (ps ++ more). intro l. revert i. induction l as [|b l IH]; intros [|i] H; cbn in *; try (now inversion H); auto. }
      cbn [flat_map] in ND, L |- *. rewrite Ea in ND, L. rewrite ?En in ND. rewrite ?Ea, ?En. cbn [app] in *. 
      destruct (plain_of v) as (Pv & Nv). { destruct M as (? & _ & c & j & p & b & -> & _). apply (P c (EIdent j) p %"=" b v). now left. }
      rewrite Pv, Nv. cbn [app]. assert (Z : flat_map pos_of l = []).
      { destruct (flat_map pos_of l) as [|z zs]; auto. exfalso. rewrite Q in ND. cbn [combine app map fst] in ND. inversion ND as [|? ? A B]. apply A. rewrite map_app. apply in_or_app. right. now left. }
      rewrite Z in *. rewrite Q in *. cbn [combine app] in *. assert (C0 : combine (skipn (S i) (ps ++ more)) (@nil V) = []) by now destruct (skipn (S i) (ps ++ more)).
      destruct IH as (I1 & I2); [now inversion S1|intros c x p op b w I'; apply (P c x p op b w); now right|rewrite C0; cbn [map fst app] in ND; now inversion ND|cbn [List.length]; lia|]. rewrite C0 in I1. cbn [app] in I1. rewrite I1. split; auto. cbn [List.length]. lia.
    - destruct t as [|t].
      + destruct (kind_of a K) as (Ea & En). cbn [flat_map] in ND, L |- *. rewrite Ea in ND, L. rewrite ?En in ND. rewrite ?Ea, ?En. cbn [app] in *. destruct qs as [|q qs'] eqn:Q; [cbn in L; lia|].
        assert (Q' : qs' = skipn (S i) (ps ++ more)). { revert Q. subst qs. clear. generalize (ps ++ more). intro l. revert i. induction l as [|b l IH]; intros [|i] H; cbn in *; try (now inversion H); auto. }
        cbn [combine app map fst] in *. destruct IH as (I1 & I2); [now inversion S1|intros c x p op b w I'; apply (P c x p op b w); now right|rewrite <- Q'; now inversion ND|rewrite <- Q'; cbn [List.length] in L; lia|]. rewrite <- Q' in I1, I2. split; [now f_equal|]. cbn [List.length]. lia.
      + assert (l' = l) as ->; [|auto]. apply (later _ _ _ _ _ U). apply Sorted_StronglySorted in S1; [|intros ? ? ? ? ?; lia]. inversion S1 as [|? ? _ F]. subst. eapply Forall_impl; [|exact F]. cbn. intros. lia.
  Qed.
End Same.
Theorem C88_meaning : forall (V : Type) (value : expr -> V) elements items ps more args args' ks m,
  unnamed ps 0 args args' ks -> Sorted le ks -> plain_values args ->
  passed value elements items (ps ++ more) args m -> passed value elements items (ps ++ more) args' m.
Proof.
  intros V value elements items ps more args args' ks m U S1 P (-> & L & ND & I). destruct (same_passed value elements items ps more _ _ _ _ U S1 P ND L) as (E & L'). cbn [skipn] in E, L'. unfold passed. rewrite E. auto.
Qed.

(** ** Doing it again *)
Definition plain_tree (f : expr) : Prop := forall path c x p args en k m, node_at children f path = Some (ECall c x p args en k m) -> plain_values args.
Lemma fix_head e : match e with EAssign _ _ _ _ _ _ | EUnary _ _ _ _ => kw_fix e = e | ECall _ _ _ _ _ _ _ => exists c x p l en k m, kw_fix e = ECall c x p l en k m | _ => kw_fix e = e end.
Proof.
  destruct e; try reflexivity. unfold kw_fix. match goal with |- context [if ?b then _ else _] => destruct b end; eauto 10.
Qed.
Lemma plain_rebuilt v : plain_value v -> plain_value (keywordPositionalFix v).
Proof.
  intro P. unfold keywordPositionalFix. rewrite rebuild_unfold. pose proof (fix_head (map_children (rebuild kw_fix) v)) as H. destruct v; cbn [map_children] in *; try (rewrite H); try exact P; try exact I. destruct H as (? & ? & ? & ? & ? & ? & ? & ->). exact I.
Qed.
Lemma assign_rebuilt c x p op b v : keywordPositionalFix (EAssign c x p op b v) = EAssign c (keywordPositionalFix x) p op b (keywordPositionalFix v).
Proof. unfold keywordPositionalFix. now rewrite rebuild_unfold. Qed.
Lemma rebuilt_assign a c x p op b v : keywordPositionalFix a = EAssign c x p op b v -> exists x0 v0, a = EAssign c x0 p op b v0 /\ v = keywordPositionalFix v0.
Proof.
  unfold keywordPositionalFix. rewrite rebuild_unfold. pose proof (fix_head (map_children (rebuild kw_fix) a)) as H. destruct a; cbn [map_children] in *; try (rewrite H); try (destruct H as (? & ? & ? & ? & ? & ? & ? & ->)); intro E; inversion E; subst; eauto.
Qed.
Lemma plain_child f c : plain_tree f -> In c (children f) -> plain_tree c.
Proof.
  intros P I path. apply In_nth_error in I as (i & I). intros. apply (P (i :: path) c0 x p args en k m). cbn. now rewrite I.
Qed.
Lemma unnamed_again ps i l l' ks : unnamed ps i l l' ks -> plain_values l -> forall j a v, nth_error l' j = Some a -> ~ misnamed ps (i + j) a v.
Proof.
  induction 1 as [i|i a v l l' ks M U IH|i a t l l' ks N K U IH]; intros P j b w A; [destruct j; now inversion A| |].
  - destruct j as [|j]; [|rewrite <- PeanoNat.Nat.add_succ_comm; apply (IH (fun c x p op q y I => P c x p op q y (or_intror I)) j b w A)].
    injection A as <-. destruct M as (? & _ & c & k & p & q & -> & _). intros (? & _ & c' & k' & p' & q' & -> & _). apply (P _ _ _ _ _ _ (or_introl eq_refl)).
  - destruct j as [|j]; [|rewrite <- PeanoNat.Nat.add_succ_comm; apply (IH (fun c x p op q y I => P c x p op q y (or_intror I)) j b w A)]. injection A as <-. rewrite PeanoNat.Nat.add_0_r. apply N.
Qed.
Lemma unnamed_parts ps i l l' ks : unnamed ps i l l' ks -> forall a, In a l' -> In a l \/ exists c x p b, In (EAssign c x p %"=" b a) l.
Proof.
  induction 1 as [i|i a v l l' ks M U IH|i a t l l' ks N K U IH]; intros b I; [destruct I| |].
  - destruct I as [<- | I]; [right; destruct M as (? & _ & c & k & p & q & -> & _); exists c, (EIdent k), p, q; now left|]. destruct (IH _ I) as [J | (c & x & p & q & J)]; [left; now right|right; exists c, x, p, q; now right].
  - destruct I as [<- | I]; [left; now left|]. destruct (IH _ I) as [J | (c & x & p & q & J)]; [left; now right|right; exists c, x, p, q; now right].
Qed.
Theorem C88_again : forall f, plain_tree f -> keywordPositionalFix (keywordPositionalFix f) = keywordPositionalFix f.
Proof.
  intro f. induction f as [e IH] using expr_children_ind. intro P.
  assert (U : forall x, keywordPositionalFix x = kw_fix (map_children keywordPositionalFix x)) by (intro; apply rebuild_unfold).
  set (e1 := map_children keywordPositionalFix e). assert (E : keywordPositionalFix e = kw_fix e1) by apply U.
  assert (S1 : forall s, exists s', keywordPositionalFix (EStr s) = EStr s') by (intros; rewrite U; eexists; reflexivity).
  assert (S2 : forall s, exists s', keywordPositionalFix (EIdent s) = EIdent s') by (intros; rewrite U; eexists; reflexivity).
  assert (Ch : children e1 = map keywordPositionalFix (children e)) by (apply children_map_children; split; auto).
  assert (F : forall c, In c (children e1) -> keywordPositionalFix c = c).
  { intros c I. rewrite Ch in I. apply in_map_iff in I as (c0 & <- & I). apply IH; auto. now apply (plain_child e). }
  assert (Same : kw_fix e1 = e1 -> keywordPositionalFix (kw_fix e1) = kw_fix e1).
  { intro K. rewrite K. rewrite U at 1. rewrite map_children_id_in; auto. }
  rewrite E. pose proof (kw_call_spec e1) as K. destruct (kw_call e1) as [|r l] eqn:Ek; [apply Same; unfold kw_fix; rewrite Ek; now destruct e1|].
  destruct K as (fn & ps & args & C & _). destruct (unnamed_exists ps args (builtin_named _ _ (proj1 C))) as (args' & ks & Un).
  destruct (kw_fix_cases _ _ _ _ _ _ C Un) as [(_ & _ & c & x & p & en & k & m & E1 & E2) | (_ & E2)]; [|now apply Same].
  assert (Pl : plain_values args).
  { destruct e; cbn [map_children] in e1; subst e1; try (now inversion E1). injection E1 as <- Ex <- Ea <- <- <-. subst args. intros c1 x1 p1 op b v I. apply in_map_iff in I as (a & Ea & I).
    apply rebuilt_assign in Ea as (x0 & v0 & -> & ->). apply plain_rebuilt. apply (P [] _ _ _ _ _ _ _ eq_refl _ _ _ _ _ _ I). }
  rewrite E2. rewrite U. rewrite map_children_id_in.
  - assert (C2 : calls_builtin (ECall c x p args' en (k && negb (existsb (Nat.eqb typeKeyword) ks)) m) fn ps args').
    { destruct C as (I & c1 & x1 & p1 & en1 & k1 & m1 & E3 & Cx). split; auto. rewrite E1 in E3. inversion E3. subst. eauto 10. }
    destruct (unnamed_exists ps args' (builtin_named _ _ (proj1 C))) as (args2 & ks2 & Un2).
    destruct (kw_fix_cases _ _ _ _ _ _ C2 Un2) as [((j & a & v & A & B) & _) | (_ & E3)]; auto. exfalso. now apply (unnamed_again _ _ _ _ _ Un Pl j a v A).
  - intros y I. rewrite E1 in F. change (children (ECall c x p args en k m)) with (x :: map (fun y => y) args) in F. match type of I with In _ (children (ECall ?a1 ?a2 ?a3 ?a4 ?a5 ?a6 ?a7)) => change (In y (x :: map (fun y => y) args')) in I end. rewrite map_id in F, I. destruct I as [<- | I]; [apply F; now left|].
    destruct (unnamed_parts _ _ _ _ _ Un _ I) as [J | (c1 & x1 & p1 & b & J)]; [apply F; now right|]. specialize (F _ (or_intror J)). rewrite assign_rebuilt in F. now injection F.
Qed.
(** The function is not looked up: one of the user's with a builtin's name gets its argument for another parameter. *)
Theorem C88_user_function_refuted : fixed keywordPositionalFix (lines [%"def len(y = 1, x = 2):"; %"    return x"; []; %"z = len(x = 3)"]) = Some (lines [%"def len(y = 1, x = 2):"; %"    return x"; []; %"z = len(3)"]) /\
  (let v := EIdent (Ident no_com no_pos %"v") in let parameters := [%"y"; %"x"] in
   let passes := passed (fun e => e) (fun _ => []) (fun _ => []) parameters in
   passes [EAssign no_com (EIdent (Ident no_com no_pos %"x")) no_pos %"=" false v] [(%"x", v)] /\ passes [v] [(%"y", v)]).
Proof.
  split; [vm_compute; reflexivity|]. cbv zeta. split; (split; [reflexivity|]; split; [cbn; lia|]; split; [repeat constructor; intros []|]).
  - intros n [<- | []]. right. now left.
  - intros n [<- | []]. now left.
Qed.
(** The comments at an argument go with its name. *)
Theorem C88_comments_refuted : fixed keywordPositionalFix (lines [%"a = hasattr("; %"    # why"; %"    x = 1,  # why not"; %"    name = 2,"; %")"]) = Some (lines [%"a = hasattr("; %"    1,"; %"    2,"; %")"]).
Proof. vm_compute. reflexivity. Qed.
Example C88_nontrivial :
  fixed keywordPositionalFix (lines [%"a = getattr(x, name = len(x = b), default = 3), hasattr(x = 1, y = 2), native.len(x = 1), foo.len(x = 1), len(y = 2), getattr(x, default = 3), len(x = 1, y), getattr(x = 1, *b)"]) =
  Some (lines [%"a = getattr(x, len(b), 3), hasattr(1, y = 2), native.len(1), foo.len(x = 1), len(y = 2), getattr(x, default = 3), len(1, y), getattr(1, *b)"]).
Proof. vm_compute. reflexivity. Qed.
Print Assumptions C88_fix. Print Assumptions C88_findings. Print Assumptions C88_meaning. Print Assumptions C88_again. Print Assumptions C88_user_function_refuted. Print Assumptions C88_comments_refuted.
