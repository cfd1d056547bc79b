(** C89 (ctx-actions, output-group). *)
From Verif Require Import LRTables LRCert Parse PropComplete.
From Verif Require Import Base BaseProofs Ast ParseFile Walk WalkSpec WalkProofs WalkGen PropWalk PropDictSort MacroLink RuleSpec RuleProofs Print PropPrint AttrParams PropAttr KwParams PropKw CtxActions.
From Coq Require Import Permutation.
Local Open Scope list_scope.

(** ** What is asked for *)
Definition ctx_call (e : expr) (name : bytes) (args : list expr) : Prop :=
  exists c c' i p q ls en k m, e = ECall c (EDot c' (EIdent i) p q name) ls args en k m /\ i_name i = %"ctx".
Definition ctx_call' (e : expr) (name : bytes) (args : list expr) (e' : expr) : Prop :=
  exists c c' i p q old ls l en k m, e = ECall c (EDot c' (EIdent i) p q old) ls l en k m /\ e' = ECall c (EDot c' (EIdent i) p q name) ls args en k m.
(** the value of an argument; the argument with this keyword *)
Inductive valued : expr -> expr -> Prop :=
  | va_keyword c x p op b v : valued (EAssign c x p op b v) v
  | va_plain v : (forall c x p op b w, v <> EAssign c x p op b w) -> valued v v.
Inductive keyed_as (key : bytes) : expr -> expr -> Prop :=
  | ka_already c i p op b v : i_name i = key -> keyed_as key (EAssign c (EIdent i) p op b v) (EAssign c (EIdent i) p op b v)
  | ka_other c x p op b v : (forall i, x = EIdent i -> i_name i <> key) -> keyed_as key (EAssign c x p op b v) (EAssign c (EIdent (Ident no_com no_pos key)) p op b v)
  | ka_new v : (forall c x p op b w, v <> EAssign c x p op b w) -> keyed_as key v (EAssign no_com (EIdent (Ident no_com no_pos key)) no_pos %"=" false v).
(** the first argument called key, if any, is called key' *)
Inductive recalled (key key' : bytes) : list expr -> list expr -> Prop :=
  | rc_none l : no_attr key l -> recalled key key' l l
  | rc_some pre x x' v post : no_attr key pre -> gives key x v -> rekeyed key' v x x' -> recalled key key' (pre ++ x :: post) (pre ++ x' :: post).
(** The calls of the old interface that can be expressed in the new one *)
Inductive api : bytes -> list expr -> bytes -> list expr -> Prop :=
  | api_file l : List.length l <= 1 -> api %"new_file" l %"actions.declare_file" l
  | api_sibling s s' n n' : valued n n' -> keyed_as %"sibling" s s' -> api %"new_file" [s; n] %"actions.declare_file" [n'; s']
  | api_directory l : api %"experimental_new_directory" l %"actions.declare_directory" l
  | api_write l l' : recalled %"executable" %"is_executable" l l' -> api %"file_action" l %"actions.write" l'
  | api_run l : no_attr %"command" l -> api %"action" l %"actions.run" l
  | api_shell l x v : In x l -> gives %"command" x v -> api %"action" l %"actions.run_shell" l
  | api_nothing l : api %"empty_action" l %"actions.do_nothing" l
  | api_template l l' : recalled %"executable" %"is_executable" l l' -> api %"template_action" l %"actions.expand_template" l'.
Definition deprecated (e : expr) : Prop := exists name args name' args', ctx_call e name args /\ api name args name' args'.
Definition ctx_repaired (e e' : expr) : Prop :=
  (forall name args, ctx_call e name args -> forall name' args', api name args name' args' -> ctx_call' e name' args' e') /\ (~ deprecated e -> e' = e).
(** No such call is itself an argument of another, or the value of an argument whose keyword is changed. *)
Definition apart (f : expr) : Prop :=
  forall path e name args a, node_at children f path = Some e -> deprecated e -> ctx_call e name args -> In a args ->
    ~ deprecated a /\ forall c x p op b v, a = EAssign c x p op b v -> name = %"new_file" \/ (exists i, x = EIdent i /\ i_name i = %"executable") -> ~ deprecated v.

(** ** Proofs *)
Lemma valued_spec a : valued a (makePositional a).
Proof. destruct a; constructor; intros; intro H; now inversion H. Qed.
Lemma valued_fun a v : valued a v -> v = makePositional a.
Proof. intros [|w N]; auto. destruct w; auto. exfalso. now apply (N c w1 p op lbreak w2). Qed.
Lemma keyed_spec key a : keyed_as key a (makeKeyword a key).
Proof.
  destruct a; try (apply ka_new; intros; intro H; now inversion H). cbn [makeKeyword]. destruct a1; try (apply ka_other; intros ? H; now inversion H).
  destruct (beq (i_name i) key) eqn:E; [apply ka_already; now apply beq_eq|apply ka_other]. intros j H. injection H as <-. now apply beq_neq.
Qed.
Lemma keyed_fun key a v : keyed_as key a v -> v = makeKeyword a key.
Proof.
  intros [c i p op b w E|c x p op b w N|w N]; cbn [makeKeyword].
  - now rewrite E, beq_refl.
  - destruct x; auto. specialize (N i eq_refl). apply beq_neq in N. now rewrite N.
  - destruct w; auto. exfalso. now apply (N c w1 p op lbreak w2).
Qed.
Definition set_executable (l : list expr) : list expr := match getParam l %"executable" with Some (j, _) => update_at j (set_keyword %"is_executable") l | None => l end.
Lemma set_keyword_spec key key' x v : gives key x v -> rekeyed key' v x (set_keyword key' x).
Proof. intros (c & i & p & op & b & -> & _). exists c, i, p, op, b, v. auto. Qed.
Lemma recalled_spec l : recalled %"executable" %"is_executable" l (set_executable l).
Proof.
  unfold set_executable. pose proof (getParam_spec %"executable" l) as G. destruct (getParam l %"executable") as [[j v]|]; [|now constructor].
  destruct G as (pre & x & post & -> & <- & N & G). rewrite update_split. apply (rc_some _ _ pre x _ v post); auto. now apply (set_keyword_spec %"executable").
Qed.
Lemma recalled_fun l l' : recalled %"executable" %"is_executable" l l' -> l' = set_executable l.
Proof.
  unfold set_executable. intros [l0 N|pre x x' v post N G R]; match goal with |- context [getParam ?l ?k] => pose proof (getParam_spec k l) as H; destruct (getParam l k) as [[j w]|] end; auto.
  - destruct H as (pre & x & post & -> & _ & _ & G). exfalso. apply (N x w); auto. apply in_or_app. right. now left.
  - destruct H as (pre' & y & post' & E & <- & N' & G'). destruct (first_split _ _ _ _ _ _ _ _ _ E N N' G G') as (<- & <- & <- & <-). rewrite update_split. f_equal. f_equal.
    destruct R as (c & i & p & op & b & u & -> & ->). destruct G as (? & ? & ? & ? & ? & G & _). inversion G. now subst.
  - exfalso. apply (H x v); auto. apply in_or_app. right. now left.
Qed.
Lemma api_spec name args name' args' : api name args name' args' <-> ctx_action name args = Some name' /\ args' = ctx_args name args.
Proof.
  split.
  - intros [l L|s s' n n' A B|l|l l' A|l A|l x v A B|l|l l' A]; unfold ctx_action, ctx_args; rewrite ?beq_refl.
    + destruct l as [|a [|b l]]; cbn in L; try lia; cbn; auto.
    + cbn. apply valued_fun in A. apply keyed_fun in B. now subst.
    + split; reflexivity.
    + apply recalled_fun in A. subst. split; reflexivity.
    + change (ctx_action %"action" l = Some %"actions.run" /\ l = l). split; auto. change (ctx_action %"action" l) with (Some (match getParam l %"command" with Some _ => %"actions.run_shell" | None => %"actions.run" end)). pose proof (getParam_spec %"command" l) as G. destruct (getParam l %"command") as [[j w]|]; auto. destruct G as (pre & x & post & -> & _ & _ & G). exfalso. apply (A x w); auto. apply in_or_app. right. now left.
    + change (ctx_action %"action" l = Some %"actions.run_shell" /\ l = l). split; auto. change (ctx_action %"action" l) with (Some (match getParam l %"command" with Some _ => %"actions.run_shell" | None => %"actions.run" end)). pose proof (getParam_spec %"command" l) as G. destruct (getParam l %"command") as [[j w]|]; auto. exfalso. now apply (G x v).
    + split; reflexivity.
    + apply recalled_fun in A. subst. split; reflexivity.
  - intros (A & ->). unfold ctx_action in A.
    destruct (beq name %"new_file") eqn:E1; [apply beq_eq in E1; subst name|].
    { destruct args as [|a [|b [|d args]]]; cbn in A; try (now inversion A); injection A as <-.
      - apply (api_file []). cbn. lia.
      - apply (api_file [a]). cbn. lia.
      - apply api_sibling; [apply valued_spec|apply keyed_spec]. }
    destruct (beq name %"experimental_new_directory") eqn:E2; [apply beq_eq in E2; subst name; injection A as <-; apply (api_directory args)|].
    destruct (beq name %"file_action") eqn:E3; [apply beq_eq in E3; subst name; injection A as <-; apply api_write; apply recalled_spec|].
    destruct (beq name %"action") eqn:E4; [apply beq_eq in E4; subst name|].
    { change (ctx_args %"action" args) with args. pose proof (getParam_spec %"command" args) as G. destruct (getParam args %"command") as [[j w]|]; injection A as <-.
      - destruct G as (pre & x & post & -> & _ & _ & G). apply (api_shell _ x w); auto. apply in_or_app. right. now left.
      - now apply api_run. }
    destruct (beq name %"empty_action") eqn:E5; [apply beq_eq in E5; subst name; injection A as <-; apply (api_nothing args)|].
    destruct (beq name %"template_action") eqn:E6; [apply beq_eq in E6; subst name; injection A as <-; apply api_template; apply recalled_spec|]. now inversion A.
Qed.
(** The fix of one node *)
Definition ctx_node (e : expr) : expr :=
  match e with
  | ECall c (EDot c' (EIdent i) p q old) ls l en k m =>
      match (if beq (i_name i) %"ctx" then ctx_action old l else None) with
      | Some new => ECall c (EDot c' (EIdent i) p q new) ls (ctx_args old l) en k m
      | None => e
      end
  | _ => e
  end.
Lemma deprecated_spec e : deprecated e <-> exists name args new, ctx_call e name args /\ ctx_action name args = Some new.
Proof. split; [intros (n & a & n' & a' & C & H); apply api_spec in H as (H & _); eauto|intros (n & a & n' & C & H); exists n, a, n', (ctx_args n a); split; auto; now apply api_spec]. Qed.
Lemma ctx_node_spec e : ctx_repaired e (ctx_node e).
Proof.
  split.
  - intros name args (c & c' & i & p & q & ls & en & k & m & -> & Ei) name' args' H. apply api_spec in H as (H & ->). cbn [ctx_node]. rewrite Ei, beq_refl, H. unfold ctx_call'. eauto 20.
  - intro N. destruct e; auto. destruct e; auto. destruct e; auto. cbn [ctx_node]. destruct (beq (i_name i) %"ctx") eqn:E; auto. apply beq_eq in E. destruct (ctx_action name args) eqn:A; auto. exfalso. apply N. apply deprecated_spec. exists name, args, b. split; auto. unfold ctx_call. eauto 20.
Qed.

Lemma fix_unfold n w e : ctx_fix_from (S n) w e =
  match e with
  | ECall c (EDot c' (EIdent i) p q old) ls l en k m =>
      match (if w && beq (i_name i) %"ctx" then ctx_action old l else None) with
      | Some new =>
          let l1 := map_at (fun j a => match a with EAssign ca x pa op b v => if ctx_taken old l j a then EAssign ca (ctx_fix_from n true x) pa op b (ctx_fix_from n false v) else ctx_fix_from n false a | _ => ctx_fix_from n false a end) 0 l in
          ECall c (EDot c' (EIdent i) p q new) ls (ctx_args old l1) en k m
      | None => map_children (ctx_fix_from n true) e
      end
  | _ => map_children (ctx_fix_from n true) e
  end.
Proof. reflexivity. Qed.
Lemma fix_call n w c x ls l en k m : exists x' l', ctx_fix_from n w (ECall c x ls l en k m) = ECall c x' ls l' en k m.
Proof.
  destruct n; [eexists _, _; reflexivity|]. rewrite fix_unfold. destruct x; try (eexists _, _; reflexivity). destruct x; try (eexists _, _; reflexivity). match goal with |- context [match ?o with Some _ => _ | None => _ end] => destruct o end; cbn [map_children]; eauto.
Qed.
Lemma fix_other n w e : (forall c x ls l en k m, e <> ECall c x ls l en k m) -> ctx_fix_from (S n) w e = map_children (ctx_fix_from n true) e.
Proof. intro N. destruct e; try reflexivity. exfalso. now apply (N c e lstart args e0 compact multi). Qed.
Lemma fix_ident n w x i : ctx_fix_from n w x = EIdent i -> x = EIdent i.
Proof.
  destruct n; auto. destruct x; try (rewrite fix_other; [|intros; intro E; now inversion E]; cbn [map_children]; intro H; now inversion H).
  destruct (fix_call (S n) w c x lstart args e compact multi) as (x' & l' & ->). intro H. now inversion H.
Qed.
Lemma fix_is_ident n w i : ctx_fix_from n w (EIdent i) = EIdent i.
Proof. now destruct n. Qed.
Lemma fix_is_str n w i : exists s, ctx_fix_from n w (EStr i) = EStr s.
Proof. destruct n; eexists; reflexivity. Qed.
Lemma fix_dot n w x c y p q nm : ctx_fix_from n w x = EDot c y p q nm -> exists y0 n', x = EDot c y0 p q nm /\ y = ctx_fix_from n' true y0.
Proof.
  destruct n; [cbn; intros ->; exists y, 0; auto|]. destruct x; try (rewrite fix_other; [|intros; intro E; now inversion E]; cbn [map_children]; intro H; inversion H; subst; eauto).
  destruct (fix_call (S n) w c0 x lstart args e compact multi) as (x' & l' & ->). intro H. now inversion H.
Qed.
(** Keywords stay. *)
Definition key_of (a : expr) : option bytes := match a with EAssign _ (EIdent i) _ _ _ _ => Some (i_name i) | _ => None end.
Lemma fix_key n w a : key_of (ctx_fix_from n w a) = key_of a.
Proof.
  destruct n; auto. destruct a; try (rewrite fix_other; [|intros; intro E; now inversion E]; cbn [map_children]; try reflexivity).
  - destruct (fix_call (S n) w c a lstart args e compact multi) as (x' & l' & ->). reflexivity.
  - cbn [key_of]. destruct (ctx_fix_from n true a1) eqn:E; try (apply fix_ident in E; subst a1; reflexivity); destruct a1; auto; rewrite fix_is_ident in E; now inversion E.
Qed.
Lemma param_none key l : getParam l key = None <-> ~ In (Some key) (map key_of l).
Proof.
  assert (K : forall x, key_of x = Some key <-> exists v, gives key x v).
  { intro x. unfold gives. split; [|intros (v & c & i & p & op & b & -> & <-); reflexivity]. intro H. destruct x; try (now inversion H). destruct x1; try (now inversion H). injection H as H. eauto 10. }
  pose proof (getParam_spec key l) as G. destruct (getParam l key) as [[j v]|].
  - split; [intro H; now inversion H|]. intro N. exfalso. apply N. destruct G as (pre & x & post & -> & _ & _ & G). apply in_map_iff. exists x. split; [apply K; eauto|apply in_or_app; right; now left].
  - split; auto. intros _ I. apply in_map_iff in I as (x & E & I). apply K in E as (v & E). now apply (G x v).
Qed.
Lemma action_keys name l l' : map key_of l = map key_of l' -> ctx_action name l' = ctx_action name l.
Proof.
  intro E. assert (L : List.length l' = List.length l) by (rewrite <- (map_length key_of l), <- (map_length key_of l'); congruence).
  pose proof (param_none %"command" l) as A. pose proof (param_none %"command" l') as B. rewrite E in A. unfold ctx_action. rewrite L.
  assert (Q : forall X (u v : X), match getParam l' %"command" with Some _ => u | None => v end = match getParam l %"command" with Some _ => u | None => v end).
  { intros. destruct (getParam l %"command") eqn:E1, (getParam l' %"command") eqn:E2; auto; exfalso; [assert (Some p = None) as F|assert (Some p = None) as F]; try (now inversion F); tauto. }
  now rewrite Q.
Qed.
Lemma map_at_keys f l : (forall j a, key_of (f j a) = key_of a) -> forall j, map key_of (map_at f j l) = map key_of l.
Proof. intro H. induction l as [|a l IH]; intro j; cbn [map_at map]; [auto|]. now rewrite H, IH. Qed.
Lemma dep_map n e : deprecated (map_children (ctx_fix_from n true) e) <-> deprecated e.
Proof.
  rewrite !deprecated_spec. split; intros (name & args & new & (c & c' & i & p & q & ls & en & k & m & E & Ei) & A).
  - destruct e; cbn [map_children] in E; try (now inversion E). injection E as -> Ex -> El -> -> ->. apply fix_dot in Ex as (y0 & n' & -> & Ey). symmetry in Ey. apply fix_ident in Ey. subst.
    exists name, args0, new. split; [unfold ctx_call; eauto 20|]. rewrite <- A. symmetry. apply action_keys. rewrite map_map. apply map_ext. intro. symmetry. apply fix_key.
  - subst e. cbn [map_children]. exists name, (map (ctx_fix_from n true) args), new. split.
    + destruct n; cbn [ctx_fix_from map_children]; [unfold ctx_call; eauto 20|]. rewrite fix_is_ident. unfold ctx_call. eauto 20.
    + rewrite <- A. apply action_keys. rewrite map_map. apply map_ext. intro. symmetry. apply fix_key.
Qed.
Section Everywhere.
  Variables (R : expr -> expr -> Prop) (Q : bool -> expr -> Prop).
  Hypothesis R_node : forall e, R e (ctx_node e).
  Hypothesis Q_lost : forall e e1, Q false e -> (deprecated e1 <-> deprecated e) -> R e1 e1.
  Hypothesis Q_child : forall w e x, Q w e -> In x (children e) -> Q true x.
  Hypothesis Q_arg : forall e name args a, Q true e -> ctx_call e name args -> deprecated e -> In a args ->
    Q false a /\ forall c x p op b v, a = EAssign c x p op b v -> name = %"new_file" \/ (exists i, x = EIdent i /\ i_name i = %"executable") -> Q false v.
  Lemma node_same e : ~ deprecated e -> ctx_node e = e.
  Proof. apply ctx_node_spec. Qed.
  Lemma taken_key old l j a : ctx_taken old l j a = true -> nth_error l j = Some a -> old = %"new_file" \/ key_of a = Some %"executable".
  Proof.
    unfold ctx_taken. intros H N. destruct (beq old %"new_file") eqn:E; [left; now apply beq_eq|right]. destruct (beq old %"file_action" || beq old %"template_action"); [|now inversion H].
    pose proof (getParam_spec %"executable" l) as G. destruct (getParam l %"executable") as [[i v]|]; [|now inversion H]. apply PeanoNat.Nat.eqb_eq in H. subst j. destruct G as (pre & x & post & -> & <- & _ & G).
    rewrite nth_error_app2, PeanoNat.Nat.sub_diag in N; [|lia]. injection N as <-. destruct G as (c & j & p & op & b & -> & <-). reflexivity.
  Qed.
  Lemma fix_everywhere n : forall w e, height e <= n -> Q w e -> everywhere R e (ctx_fix_from n w e).
  Proof.
    induction n as [|n IH]; intros w e L Qe; [pose proof (height_unfold e); lia|].
    assert (Kids : Forall2 (everywhere R) (children e) (map (ctx_fix_from n true) (children e))).
    { assert (F : forall x, In x (children e) -> everywhere R x (ctx_fix_from n true x)) by (intros x I; apply IH; [apply height_child in I; lia|now apply (Q_child w e)]).
      revert F. generalize (children e). induction l as [|x l IHl]; intro F; constructor; [apply F; now left|apply IHl; intros; apply F; now right]. }
    assert (Plain : (w = true -> ~ deprecated e) -> everywhere R e (map_children (ctx_fix_from n true) e)).
    { intro Hw. apply (ev_node R e (map_children (ctx_fix_from n true) e)).
      - symmetry. apply shell_map_children.
      - rewrite children_map_children; auto. split; intros s; [apply fix_is_str|eexists; apply fix_is_ident].
      - destruct w; [|apply (Q_lost e); auto; apply dep_map]. specialize (Hw eq_refl). rewrite <- node_same at 2; auto. now rewrite dep_map. }
    rewrite fix_unfold. destruct e; try (apply Plain; intros _ (? & ? & ? & ? & (? & ? & ? & ? & ? & ? & ? & ? & ? & E & _) & _); now inversion E).
    destruct e; try (apply Plain; intros _ (? & ? & ? & ? & (? & ? & ? & ? & ? & ? & ? & ? & ? & E & _) & _); now inversion E).
    destruct e; try (apply Plain; intros _ (? & ? & ? & ? & (? & ? & ? & ? & ? & ? & ? & ? & ? & E & _) & _); now inversion E).
    set (e := ECall c (EDot c0 (EIdent i) dot npos name) lstart args e0 compact multi) in *.
    match goal with |- context [match ?o with Some _ => _ | None => _ end] => destruct o as [new|] eqn:Eo end.
    2:{ apply Plain. intros -> D. apply deprecated_spec in D as (nm & l & nw & (? & ? & ? & ? & ? & ? & ? & ? & ? & E & Ei) & A). inversion E. subst. rewrite Ei, beq_refl in Eo. cbn [andb] in Eo. rewrite Eo in A. now inversion A. }
    destruct w; [|cbn [andb] in Eo; now inversion Eo]. cbn [andb] in Eo. destruct (beq (i_name i) %"ctx") eqn:Ei; [|now inversion Eo]. apply beq_eq in Ei.
    assert (Cc : ctx_call e name args) by (unfold ctx_call; subst e; eauto 20).
    assert (D : deprecated e) by (apply deprecated_spec; eauto). cbv zeta.
    match goal with |- context [map_at ?f 0 args] => set (g := f) end.
    assert (Kg : forall j a, key_of (g j a) = key_of a).
    { intros j a. subst g. cbv beta. destruct a; try apply fix_key. destruct (ctx_taken name args j _); [|apply fix_key]. cbn [key_of]. destruct (ctx_fix_from n true a1) eqn:Ex; try (apply fix_ident in Ex; subst a1; reflexivity); destruct a1; auto; rewrite fix_is_ident in Ex; now inversion Ex. }
    apply (ev_node R e (ECall c (EDot c0 (EIdent i) dot npos name) lstart (map_at g 0 args) e0 compact multi)).
    - subst e. unfold shell. cbn [map_children]. f_equal. generalize 0. clearbody g. clear. induction args as [|a l IHl]; intro j; cbn [map_at map]; [auto|]. f_equal. apply IHl.
    - subst e. change (Forall2 (everywhere R) (EDot c0 (EIdent i) dot npos name :: map (fun y => y) args) (EDot c0 (EIdent i) dot npos name :: map (fun y => y) (map_at g 0 args))). rewrite !map_id. constructor.
      + apply (ev_node R _ (EDot c0 (EIdent i) dot npos name)); auto; [|apply (R_node (EDot c0 (EIdent i) dot npos name))]. change (Forall2 (everywhere R) [EIdent i] [EIdent i]). repeat constructor. apply (ev_node R _ (EIdent i)); auto; [constructor|apply (R_node (EIdent i))].
      + assert (F : forall j a, nth_error args j = Some a -> everywhere R a (g j a)).
        { intros j a N. pose proof (nth_error_In _ _ N) as I. assert (La : height a <= n).
          { assert (J : In a (children (ECall c (EDot c0 (EIdent i) dot npos name) lstart args e0 compact multi))) by (change (In a (EDot c0 (EIdent i) dot npos name :: map (fun y => y) args)); rewrite map_id; now right). apply height_child in J. lia. }
          destruct (Q_arg _ _ _ a Qe Cc D I) as (Qa & Qv). subst g. cbv beta. destruct a; try (apply IH; auto). destruct (ctx_taken name args j _) eqn:Et; [|apply IH; auto].
          pose proof (taken_key _ _ _ _ Et N) as Tk. rewrite height_assign in La.
          apply (ev_node R _ (EAssign c1 (ctx_fix_from n true a1) p op lbreak (ctx_fix_from n false a2))); [reflexivity| |apply (R_node (EAssign c1 _ p op lbreak _))].
          change (Forall2 (everywhere R) [a1; a2] [ctx_fix_from n true a1; ctx_fix_from n false a2]). constructor; [|constructor; [|constructor]].
          - apply IH; [lia|]. apply (Q_child false (EAssign c1 a1 p op lbreak a2)); auto. now left.
          - apply IH; [lia|]. apply (Qv _ _ _ _ _ _ eq_refl). destruct Tk as [-> | Tk]; auto. right. destruct a1; try (now inversion Tk). injection Tk as Tk. eauto. }
        assert (G : forall l j, (forall k a, nth_error l k = Some a -> everywhere R a (g (j + k) a)) -> Forall2 (everywhere R) l (map_at g j l)).
        { clear. intros l. induction l as [|a l IHl]; intros j F; cbn [map_at]; constructor; [specialize (F 0 a eq_refl); now rewrite PeanoNat.Nat.add_0_r in F|]. apply IHl. intros k b N. specialize (F (S k) b N). now rewrite <- PeanoNat.Nat.add_succ_comm in F. }
        apply G. exact F.
    - replace (ECall c (EDot c0 (EIdent i) dot npos new) lstart (ctx_args name (map_at g 0 args)) e0 compact multi) with (ctx_node (ECall c (EDot c0 (EIdent i) dot npos name) lstart (map_at g 0 args) e0 compact multi)); [apply R_node|].
      cbn [ctx_node]. rewrite Ei, beq_refl. rewrite (action_keys name args), Eo; auto. symmetry. now apply map_at_keys.
  Qed.
End Everywhere.

Lemma apart_child f x : apart f -> In x (children f) -> apart x.
Proof. intros A I path. apply In_nth_error in I as (i & I). intros e name args a N. apply (A (i :: path) e name args a). cbn. now rewrite I. Qed.
(** Every call of the old interface that the new one has becomes the corresponding call, and nothing else is changed. *)
Theorem C89_fix : forall f, bzl f -> apart f -> everywhere ctx_repaired f (ctxActionsFix f).
Proof.
  intros f (c & a & b & d & l & ->) A. unfold ctxActionsFix. cbn [in_bzl].
  apply (fix_everywhere ctx_repaired (fun w e => apart e /\ (w = true \/ ~ deprecated e))); auto.
  - intro. apply ctx_node_spec.
  - intros e e1 (_ & [E | N]) D; [now inversion E|]. split; [|auto]. intros name args C name' args' H. exfalso. apply N, D. exists name, args, name', args'. auto.
  - intros w e x (Ae & _) I. split; auto. now apply (apart_child e).
  - intros e name args x (Ae & _) C D I. destruct (Ae [] e name args x eq_refl D C I) as (N & V).
    assert (J : In x (children e)).
    { destruct C as (c0 & c' & i & p & q & ls & en & k & m & -> & _). change (In x (EDot c' (EIdent i) p q name :: map (fun y => y) args)). rewrite map_id. now right. }
    split; [split; auto; now apply (apart_child e)|]. intros c0 y p op b0 v -> H. split; [|right; now apply (V _ _ _ _ _ _ eq_refl)]. apply (apart_child (EAssign c0 y p op b0 v)); [now apply (apart_child e)|right; now left].
Qed.
(** ... In any file, what is not so repaired is left as it was. *)
Theorem C89_fix_partial : forall f, bzl f -> everywhere (fun e e' => ctx_repaired e e' \/ e' = e) f (ctxActionsFix f).
Proof.
  intros f (c & a & b & d & l & ->). unfold ctxActionsFix. cbn [in_bzl]. apply (fix_everywhere _ (fun _ _ => True)); auto. intro. left. apply ctx_node_spec.
Qed.
(** Exactly the calls of the old interface are reported. *)
Definition old_interface : list bytes := [%"action"; %"empty_action"; %"experimental_new_directory"; %"file_action"; %"new_file"; %"template_action"].
Theorem C89_findings : forall f d, bzl f -> (In d (ctxActionsFindings f) <->
  exists path c c' i p q name ls l en k m, node_at children f path = Some (ECall c d ls l en k m) /\ d = EDot c' (EIdent i) p q name /\ i_name i = %"ctx" /\ In name old_interface).
Proof.
  intros f d (c & a & b & d0 & l & ->). cbn [ctxActionsFindings]. rewrite in_flat_map. split.
  - intros (e & W & I). apply walked_node in W as (path & W). destruct e; try (now destruct I). destruct e; try (now destruct I). destruct e; try (now destruct I). cbn [ctx_found] in I.
    destruct (beq (i_name i) %"ctx") eqn:Ei; [|destruct I]. destruct (mem_bytes name ctx_names) eqn:M; [|destruct I]. destruct I as [<- | []]. apply beq_eq in Ei. apply mem_bytes_In in M. exists path, c0, c1, i, dot, npos, name, lstart, args, e0, compact, multi.
    split; [exact W|]. split; [reflexivity|]. split; [exact Ei|]. clear - M. unfold ctx_names, old_interface in *. cbn [In] in *. tauto.
  - intros (path & c0 & c' & i & p & q & name & ls & l0 & en & k & m & W & -> & Ei & M). eexists. split; [apply walked_node; exists path; exact W|]. cbn [ctx_found].
    assert (M' : mem_bytes name ctx_names = true) by (apply mem_bytes_In; clear - M; unfold ctx_names, old_interface in *; cbn [In] in *; tauto). rewrite Ei, beq_refl, M'. now left.
Qed.
(** The call of declare_file passes what the call of new_file did, unless the name comes first and by keyword. *)
Definition plain_or_named (key : bytes) (a : expr) : Prop := plain_value a \/ exists c i p b v, a = EAssign c (EIdent i) p %"=" b v /\ i_name i = key /\ plain_value v.
Theorem C89_sibling_meaning : forall (V : Type) (value : expr -> V) elements items s n s' n' m,
  plain_or_named %"sibling" s -> plain_or_named %"name" n -> valued n n' -> keyed_as %"sibling" s s' ->
  passed value elements items [%"sibling"; %"name"] [s; n] m ->
  exists m', passed value elements items [%"name"; %"sibling"] [n'; s'] m' /\ Permutation m m'.
Proof.
  intros V value elements items s n s' n' m Hs Hn Vn Ks (-> & L & ND & I). apply valued_fun in Vn. apply keyed_fun in Ks. subst n' s'.
  assert (Pn : plain_value n -> makePositional n = n) by (intro H; destruct n; auto; destruct H).
  assert (Ps : plain_value s -> makeKeyword s %"sibling" = EAssign no_com (EIdent (Ident no_com no_pos %"sibling")) no_pos %"=" false s) by (intro H; destruct s; auto; destruct H).
  assert (Res : forall u w z, positional_of value elements u = [value u] -> named_of value items u = [] -> positional_of value elements w = [] -> named_of value items w = [(%"sibling", z)] ->
    passed value elements items [%"name"; %"sibling"] [u; w] [(%"name", value u); (%"sibling", z)]).
  { intros u w z A B C D. unfold passed. cbn [flat_map]. rewrite A, B, C, D. split; [reflexivity|]. split; [cbn; lia|]. split.
    - repeat constructor; cbn [map fst In]; [intros [E | []]; now inversion E|intros []].
    - cbn [map fst In]. tauto. }
  destruct Hs as [Hs | (c & i & p & b & v & -> & Ei & Hv)].
  - destruct (plain_of value elements items s Hs) as (A & B). rewrite (Ps Hs). destruct Hn as [Hn | (c1 & i1 & p1 & b1 & v1 & -> & Ei1 & Hv1)].
    + destruct (plain_of value elements items n Hn) as (A1 & B1). rewrite (Pn Hn). exists [(%"name", value n); (%"sibling", value s)]. split; [now apply Res|]. cbn [flat_map]. rewrite A, B, A1, B1. cbn [app combine]. apply perm_swap.
    + destruct (plain_of value elements items v1 Hv1) as (A1 & B1). cbn [makePositional]. exists [(%"name", value v1); (%"sibling", value s)]. split; [now apply Res|]. cbn [flat_map]. rewrite A, B. cbn [positional_of named_of]. rewrite beq_refl, Ei1. cbn [app combine]. apply perm_swap.
  - cbn [makeKeyword]. rewrite Ei, beq_refl. assert (W1 : positional_of value elements (EAssign c (EIdent i) p %"=" b v) = []) by (cbn [positional_of]; now rewrite beq_refl). assert (W2 : named_of value items (EAssign c (EIdent i) p %"=" b v) = [(%"sibling", value v)]) by (cbn [named_of]; now rewrite beq_refl, Ei).
    destruct Hn as [Hn | (c1 & i1 & p1 & b1 & v1 & -> & Ei1 & Hv1)].
    + exfalso. destruct (plain_of value elements items n Hn) as (A1 & B1). cbn [flat_map] in ND. rewrite W1, W2, A1, B1 in ND. cbn [app combine map fst] in ND. inversion ND as [|? ? N _]. apply N. now left.
    + destruct (plain_of value elements items v1 Hv1) as (A1 & B1). cbn [makePositional]. exists [(%"name", value v1); (%"sibling", value v)]. split; [now apply Res|]. cbn [flat_map]. rewrite W1, W2. cbn [positional_of named_of]. rewrite beq_refl, Ei1. cbn [app combine]. apply perm_swap.
Qed.
(** A call inside another is left (its own arguments are not). *)
Theorem C89_nested_refuted :
  fixed ctxActionsFix (lines [%"x = ctx.new_file(a, ctx.new_file(b, ctx.new_file(c)))"]) = Some (lines [%"x = ctx.actions.declare_file(ctx.new_file(b, ctx.actions.declare_file(c)), sibling = a)"]).
Proof. vm_compute. reflexivity. Qed.
(** Keyword arguments in the other order are mistaken for each other. *)
Theorem C89_keywords_refuted : fixed ctxActionsFix (lines [%"x = ctx.new_file(name = n, sibling = s)"]) = Some (lines [%"x = ctx.actions.declare_file(s, sibling = n)"]).
Proof. vm_compute. reflexivity. Qed.
(** The result need not parse. *)
Theorem C89_stars_refuted : exists out, fixed ctxActionsFix (lines [%"x = ctx.new_file(*a, **b)"]) = Some out /\ out = lines [%"x = ctx.actions.declare_file(**b, sibling = *a)"] /\ parse_file meta out = None.
Proof. eexists. split; [vm_compute; reflexivity|]. split; vm_compute; reflexivity. Qed.
(** Comments at an argument whose keyword goes are lost. *)
Theorem C89_comments_refuted :
  fixed ctxActionsFix (lines [%"x = ctx.new_file("; %"    a,  # sib"; %"    name = b,  # why"; %")"]) = Some (lines [%"x = ctx.actions.declare_file("; %"    b,"; %"    sibling = a,  # sib"; %")"]).
Proof. vm_compute. reflexivity. Qed.
Example C89_nontrivial :
  fixed ctxActionsFix (lines [%"x = ctx.new_file(ctx.bin_dir, name), ctx.new_file(a), ctx.new_file(a, b, c), ctx.file_action(output = ctx.new_file(f), executable = True), ctx.action(command = c), ctx.action(executable = d), ctx.empty_action(), foo.action(), ctx.template_action(executable = 1), ctx.experimental_new_directory(e)"]) =
  Some (lines [%"x = ctx.actions.declare_file(name, sibling = ctx.bin_dir), ctx.actions.declare_file(a), ctx.new_file(a, b, c), ctx.actions.write(output = ctx.actions.declare_file(f), is_executable = True), ctx.actions.run_shell(command = c), ctx.actions.run(executable = d), ctx.actions.do_nothing(), foo.action(), ctx.actions.expand_template(is_executable = 1), ctx.actions.declare_directory(e)"]).
Proof. vm_compute. reflexivity. Qed.

(** ** output-group *)
Definition output_group_of (e dep : expr) : Prop :=
  exists c d n, e = EDot c dep d n %"output_group" /\ exists c1 c2 i p1 q1 p2 q2 name, dep = EDot c2 (EDot c1 (EIdent i) p1 q1 %"attr") p2 q2 name /\ i_name i = %"ctx".
Definition output_group_repaired (e e' : expr) : Prop :=
  (forall dep, output_group_of e dep -> exists c p y q, e' = EIndex c dep p y q /\ exists i, y = EIdent i /\ i_name i = %"OutputGroupInfo") /\ ((forall dep, ~ output_group_of e dep) -> e' = e).
Lemma output_group_spec e : output_group_repaired e (output_group_fix e).
Proof.
  split.
  - intros dep (c & d & n & -> & c1 & c2 & i & p1 & q1 & p2 & q2 & name & -> & Ei). cbn [output_group_fix]. rewrite Ei, !beq_refl. cbn [andb]. eexists _, _, _, _. split; [reflexivity|]. eexists. split; reflexivity.
  - intro N. destruct e; auto. destruct e; auto. destruct e; auto. destruct e; auto. cbn [output_group_fix]. destruct (beq name %"output_group") eqn:E1; auto. destruct (beq name1 %"attr") eqn:E2; auto. destruct (beq (i_name i) %"ctx") eqn:E3; auto.
    apply beq_eq in E1, E2, E3. subst name name1. exfalso. eapply N. unfold output_group_of. eexists _, _, _. split; [reflexivity|]. eexists _, _, _, _, _, _, _, _. split; [reflexivity|auto].
Qed.
Theorem C89_output_group : forall f, bzl f -> everywhere output_group_repaired f (outputGroupFix f).
Proof. intros f (c & a & b & d & l & ->). apply (rebuild_everywhere output_group_fix); auto. intro. apply output_group_spec. Qed.
Theorem C89_output_group_comments_refuted : fixed outputGroupFix (lines [%"x = f("; %"    # why"; %"    ctx.attr.dep.output_group,  # why not"; %"    a,"; %")"]) = Some (lines [%"x = f("; %"    ctx.attr.dep[OutputGroupInfo],"; %"    a,"; %")"]).
Proof. vm_compute. reflexivity. Qed.
Example C89_output_group_nontrivial :
  fixed outputGroupFix (lines [%"x = ctx.attr.dep.output_group.foo(ctx.attr.attr.output_group), ctx.attrs.dep.output_group, ctx.attr.output_group"]) = Some (lines [%"x = ctx.attr.dep[OutputGroupInfo].foo(ctx.attr.attr[OutputGroupInfo]), ctx.attrs.dep.output_group, ctx.attr.output_group"]).
Proof. vm_compute. reflexivity. Qed.
Print Assumptions C89_fix. Print Assumptions C89_fix_partial. Print Assumptions C89_findings. Print Assumptions C89_sibling_meaning. Print Assumptions C89_nested_refuted. Print Assumptions C89_keywords_refuted.
Print Assumptions C89_stars_refuted. Print Assumptions C89_comments_refuted. Print Assumptions C89_output_group. Print Assumptions C89_output_group_comments_refuted.
