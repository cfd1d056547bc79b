(** C79 (sums of literal lists, varref), C80 (+= for extend and append) and C81 (licenses in package). *)
From Verif Require Import LRTables LRCert Parse PropComplete.
From Verif Require Import Base BaseProofs Ast ParseFile Walk WalkSpec WalkProofs WalkGen Rewrite RuleApi RuleSpec RuleProofs EditList EditFile EditFileSpec PropEditFile Print PropPrint PropTop Fix.
Local Open Scope list_scope.

(** ** C79: expressions with the same value *)
(** An interpretation of expressions: what an expression means is a function of the kind of node and of what its parts mean. *)
Definition compositional {V} (ev : expr -> V) : Prop :=
  forall e e', shell e = shell e' -> map ev (children e) = map ev (children e') -> ev e = ev e'.
(** In it + concatenates lists. *)
Definition adds_lists {V} (ev : expr -> V) : Prop :=
  forall c c1 s1 l1 n1 m1 p b c2 s2 l2 n2 m2,
    ev (EBinary c (EList c1 s1 l1 n1 m1) p %"+" b (EList c2 s2 l2 n2 m2)) = ev (EList c1 s1 (l1 ++ l2) n1 m1).
(** In it varref("X") means "$(X)". *)
Definition reads_varref {V} (ev : expr -> V) : Prop :=
  forall c ci p c1 s1 v t1 e1 k1 q en k m com', ev (ECall c (EIdent (Ident ci p %"varref")) q [EStr (Str c1 s1 v t1 e1 k1)] en k m) = ev (EStr (Str com' s1 (%"$(" ++ v ++ %")") t1 e1 k1)).

Lemma Edit_same {V} (ev : expr -> V) cb : compositional ev -> (forall stk e, height (cb stk e) <= height e) -> cb_kind cb -> (forall stk e, ev (cb stk e) = ev e) ->
  forall e stk, ev (Edit_from cb stk e) = ev e.
Proof.
  intros C H K E e. remember (height e) as n eqn:Hn. revert e Hn. induction n as [n IH] using lt_wf_ind. intros e -> stk. rewrite <- (E stk e). apply C; [apply Edit_shell; auto|].
  rewrite Edit_children by auto. rewrite map_map. apply map_ext_in. intros c Hc. eapply IH; [|reflexivity]. apply height_child in Hc. specialize (H stk e). lia.
Qed.
Lemma elc_same {V} (ev : expr -> V) : compositional ev -> adds_lists ev -> forall e, ev (evaluateListConcatenation e) = ev e.
Proof.
  intros C A. induction e; auto. cbn [evaluateListConcatenation]. destruct (beq op %"+") eqn:E; auto. apply beq_eq in E. subst op.
  destruct (evaluateListConcatenation e1) eqn:E1; auto. destruct (evaluateListConcatenation e2) eqn:E2; auto.
  etransitivity; [symmetry; apply (A c)|]. apply C; [reflexivity|]. cbn. f_equal; [exact IHe1|f_equal; exact IHe2].
Qed.
Lemma elc_list e : (exists c s l n m, evaluateListConcatenation e = EList c s l n m) \/ evaluateListConcatenation e = e.
Proof. destruct e; auto. cbn [evaluateListConcatenation]. destruct (beq op %"+"); auto. destruct (evaluateListConcatenation e1); auto. destruct (evaluateListConcatenation e2); auto. left. eauto 9. Qed.
Lemma height_list c s l n m : height (EList c s l n m) = S (list_max (map height l)).
Proof. rewrite height_unfold. unfold children, fold_children; cbn [fold_children2]; rewrite map_id; reflexivity. Qed.
Lemma height_bin c x p op b y : height (EBinary c x p op b y) = S (Nat.max (height x) (height y)).
Proof. rewrite height_unfold. cbn. rewrite Nat.max_0_r. reflexivity. Qed.
Lemma elc_height e : height (evaluateListConcatenation e) <= height e.
Proof.
  induction e; auto. cbn [evaluateListConcatenation]. destruct (beq op %"+") eqn:E; auto.
  destruct (evaluateListConcatenation e1); auto. destruct (evaluateListConcatenation e2); auto. rewrite height_bin. rewrite height_list in *. rewrite map_app, list_max_app. lia.
Qed.
Lemma elc_kind : cb_kind (fun _ => evaluateListConcatenation).
Proof. split; intros; eexists; reflexivity. Qed.
Lemma elc_idem e : evaluateListConcatenation (evaluateListConcatenation e) = evaluateListConcatenation e.
Proof. destruct (elc_list e) as [(c & s & l & n & m & ->)|E]; [reflexivity|rewrite E; exact E]. Qed.
Definition literal_list (e : expr) : Prop := exists c s l n m, e = EList c s l n m.
Lemma edit_list stk e : literal_list (Edit_from (fun _ => evaluateListConcatenation) stk e) <-> literal_list (evaluateListConcatenation e).
Proof.
  rewrite Edit_from_unfold by (intros; apply elc_height). unfold literal_list. destruct (evaluateListConcatenation e); cbn [map_children]; split; intros (? & ? & ? & ? & ? & H); try discriminate; eauto 9.
Qed.
(** The value of every expression is the same, and no sum of two literal lists is left. *)
Theorem C79_merge_lists_partial :
  forall e, (forall V (ev : expr -> V), compositional ev -> adds_lists ev -> ev (mergeLiteralLists e) = ev e) /\
    forall path c x p b y, node_at children (mergeLiteralLists e) path = Some (EBinary c x p %"+" b y) -> ~ (literal_list x /\ literal_list y).
Proof.
  intro e. split.
  - intros V ev C A. apply Edit_same; auto; [intros; apply elc_height|apply elc_kind|intros; apply elc_same; auto].
  - unfold mergeLiteralLists, Edit. generalize ([] : list expr) as stk. intros stk path. revert e stk. induction path as [|i path IH]; intros e stk c x p b y H [Lx Ly]; cbn [node_at] in H.
    + injection H as H. pose proof (Edit_shell (fun _ => evaluateListConcatenation) (fun _ => elc_height) stk e) as Sh. pose proof (Edit_children (fun _ => evaluateListConcatenation) (fun _ => elc_height) elc_kind stk e) as Ch. rewrite H in *.
      pose proof (elc_idem e) as I. destruct (evaluateListConcatenation e); try discriminate. cbn in Sh. injection Sh as -> -> <- ->. unfold children, fold_children in Ch. cbn [fold_children2 map] in Ch. injection Ch as E1 E2. rewrite E1 in Lx. rewrite E2 in Ly. apply edit_list in Lx. apply edit_list in Ly.
      cbn [evaluateListConcatenation] in I. rewrite beq_refl in I. destruct Lx as (? & ? & ? & ? & ? & Lx), Ly as (? & ? & ? & ? & ? & Ly). rewrite Lx, Ly in I. discriminate.
    + rewrite (Edit_children _ (fun _ => elc_height) elc_kind) in H. rewrite nth_error_map in H. destruct (nth_error _ i) as [c0|]; [|discriminate]. cbn [option_map] in H. eapply IH; [exact H|auto].
Qed.
Lemma varref_cases stk e : varref_node stk e = e \/ exists c ci p c1 s1 v t1 e1 k1 q en k m com', e = ECall c (EIdent (Ident ci p %"varref")) q [EStr (Str c1 s1 v t1 e1 k1)] en k m /\
  varref_node stk e = EStr (Str com' s1 (%"$(" ++ v ++ %")") t1 e1 k1).
Proof.
  destruct e; auto. destruct e; auto. destruct args as [|[] [|]]; auto. cbn [varref_node]. destruct (beq (i_name i) %"varref") eqn:E; auto. apply beq_eq in E. right. destruct i as [ci p n], s as [c1 s1 v t1 e1 k1]. cbn in E. subst n.
  exists c, ci, p, c1, s1, v, t1, e1, k1, lstart, e0, compact, multi. eexists. split; reflexivity.
Qed.
Lemma varref_height stk e : height (varref_node stk e) <= height e.
Proof. destruct (varref_cases stk e) as [-> |(c & ci & p & c1 & s1 & v & t1 & e1 & k1 & q & en & k & m & com' & -> & ->)]; auto. cbn. lia. Qed.
Lemma varref_kind : cb_kind varref_node.
Proof. split; intros; eexists; reflexivity. Qed.
(** The same for varref: except that a rule of this name would keep it. *)
Definition varref_call (e : expr) : Prop := exists c ci p q s en k m, e = ECall c (EIdent (Ident ci p %"varref")) q [EStr s] en k m.
Definition varref_twice (e : expr) : Prop := exists c ci p q a en k m, e = ECall c (EIdent (Ident ci p %"varref")) q [a] en k m /\ varref_call a.
Theorem C79_varref_partial :
  forall e, ~ varref_call e -> (forall V (ev : expr -> V), compositional ev -> reads_varref ev -> ev (removeVarref e) = ev e) /\
    ((forall path x, node_at children e path = Some x -> ~ varref_twice x) ->
     forall path x, node_at children (removeVarref e) path = Some x -> ~ varref_call x).
Proof.
  intros e N. assert (R : removeVarref e = Edit varref_node e).
  { destruct e; auto. destruct e; auto. destruct args as [|[] [|]]; auto. cbn [removeVarref]. destruct (beq (i_name i) %"varref") eqn:E; auto. apply beq_eq in E. elim N. destruct i as [ci p n]. cbn in E. subst n. exists c, ci, p, lstart, s, e0, compact, multi. reflexivity. }
  rewrite R. split.
  - intros V ev C A. apply Edit_same; auto; [apply varref_height|apply varref_kind|]. intros stk x. destruct (varref_cases stk x) as [-> |(c & ci & p & c1 & s1 & v & t1 & e1 & k1 & q & en & k & m & com' & -> & ->)]; auto.
  - unfold Edit. generalize ([] : list expr) as stk. intros stk T path. clear R N. revert e stk T. induction path as [|i path IH]; intros e stk T x H V; cbn [node_at] in H.
    + injection H as H. destruct V as (c & ci & p & q & s & en & k & m & E). rewrite E in H. clear E x. rewrite Edit_from_unfold in H by apply varref_height.
      destruct (varref_cases stk e) as [E|(c' & ci' & p' & c1 & s1 & v & t1 & e1 & k1 & q' & en' & k' & m' & com' & E1 & E2)]; [|rewrite E2 in H; discriminate].
      rewrite E in H. destruct e; try discriminate. cbn [map_children] in H. injection H as <- H1 <- H2 <- <- <-. destruct args as [|a [|]]; try discriminate. cbn [map] in H2. injection H2 as H2.
      assert (X : e = EIdent (Ident ci p %"varref")).
      { rewrite Edit_from_unfold in H1 by apply varref_height. set (st := stk ++ _) in H1. destruct (varref_cases st e) as [E'|(? & ? & ? & ? & ? & ? & ? & ? & ? & ? & ? & ? & ? & ? & _ & E')]; rewrite E' in H1; [|discriminate]. destruct e; try discriminate. exact H1. }
      subst e. set (st := stk ++ _) in H2. rewrite Edit_from_unfold in H2 by apply varref_height. destruct (varref_cases st a) as [E'|(c2 & ci2 & p2 & c1 & s1 & v & t1 & e1 & k1 & q2 & en2 & k2 & m2 & ? & E1 & E')].
      * rewrite E' in H2. destruct a; discriminate.
      * apply (T [] _ eq_refl). exists c0, ci, p, lstart, a, e0, compact, multi. split; auto. rewrite E1. exists c2, ci2, p2, q2, (Str c1 s1 v t1 e1 k1), en2, k2, m2. reflexivity.
    + rewrite (Edit_children _ varref_height varref_kind) in H. rewrite nth_error_map in H. destruct (nth_error _ i) as [c0|] eqn:N; [|discriminate]. cbn [option_map] in H. eapply IH; [|exact H|exact V].
      intros path' y Hy. destruct (varref_cases stk e) as [E|(? & ? & ? & ? & ? & ? & ? & ? & ? & ? & ? & ? & ? & ? & _ & E)]; rewrite E in N; [|destruct i; discriminate]. apply (T (i :: path')). cbn [node_at]. rewrite N. exact Hy.
Qed.
(** Exactly: varref("X") becomes "$(X)" with the comments of the string and the comments behind the call, and nothing else is changed. *)
Definition varref_replaced (_ : list expr) (e e' : expr) : Prop :=
  (forall c ci p q c1 s1 v t1 e1 k1 en k m, e = ECall c (EIdent (Ident ci p %"varref")) q [EStr (Str c1 s1 v t1 e1 k1)] en k m ->
     e' = EStr (Str (Comments (c_before c1) (c_suffix c1 ++ c_suffix c) (c_after c1)) s1 (%"$(" ++ v ++ %")") t1 e1 k1)) /\
  (~ varref_call e -> e' = e).
Theorem C79_varref_exact : forall e, ~ varref_call e -> walked varref_replaced [] e (removeVarref e).
Proof.
  intros e N. assert (R : removeVarref e = Edit varref_node e).
  { destruct e; auto. destruct e; auto. destruct args as [|[] [|]]; auto. cbn [removeVarref]. destruct (beq (i_name i) %"varref") eqn:E; auto. apply beq_eq in E. elim N. destruct i as [ci p n]. cbn in E. subst n. exists c, ci, p, lstart, s, e0, compact, multi. reflexivity. }
  rewrite R. apply Edit_walked; [apply varref_height|apply varref_kind|]. intros stk x. split.
  - intros c ci p q c1 s1 v t1 e1 k1 en k m ->. reflexivity.
  - intro Nx. destruct (varref_cases stk x) as [-> |(c & ci & p & c1 & s1 & v & t1 & e1 & k1 & q & en & k & m & com' & -> & _)]; auto. elim Nx. exists c, ci, p, q, (Str c1 s1 v t1 e1 k1), en, k, m. reflexivity.
Qed.
(** The comments before the call are lost. *)
Theorem C79_varref_comments_refuted :
  let rule x := ECall no_com (EIdent (id0 %"r")) no_pos [set0 %"copts" (EList no_com no_pos [x] (End no_com no_pos) false)] (End no_com no_pos) false false in
  exists c, c_before c <> [] /\ removeVarref (rule (ECall c (EIdent (id0 %"varref")) no_pos [EStr (Str no_com no_pos %"X" false no_pos [])] (End no_com no_pos) false false)) = rule (EStr (Str no_com no_pos %"$(X)" false no_pos [])).
Proof. exists (Comments [Comment no_pos %"# why"] [] []). split; [discriminate|reflexivity]. Qed.
(** An interpretation: the strings in an expression, in order.  (For varref: the variables it names.) *)
Fixpoint strings_in (e : expr) : list bytes := match e with EStr s => [s_value s] | _ => [] end ++ List.concat (fold_children2 strings_in (fun s => [s_value s]) (fun _ => []) e).
Example C79_nontrivial :
  let e := ECall no_com (EIdent (id0 %"r")) no_pos [set0 %"srcs" (EBinary no_com (EBinary no_com (EList no_com no_pos [EStr (Str no_com no_pos %"a" false no_pos [])] (End no_com no_pos) false) no_pos %"+" false
     (EList no_com no_pos [EStr (Str no_com no_pos %"b" false no_pos [])] (End no_com no_pos) false)) no_pos %"+" false (EIdent (id0 %"X")))] (End no_com no_pos) false false in
  compositional strings_in /\ adds_lists strings_in /\ strings_in (mergeLiteralLists e) = [%"a"; %"b"] /\ mergeLiteralLists e <> e.
Proof.
  assert (U : forall e, strings_in e = match e with EStr s => [s_value s] | _ => [] end ++ List.concat (map strings_in (children e))) by (intro e; rewrite <- (fold_children2_map strings_in (fun s => [s_value s]) (fun _ => [])); auto; destruct e; reflexivity).
  split; [|split; [|split; [reflexivity|discriminate]]].
  - intros e e' Sh C. rewrite (U e), (U e'), C. f_equal. destruct e, e'; try discriminate Sh; auto. cbn in Sh. injection Sh as ->. reflexivity.
  - unfold adds_lists. intros. cbn [strings_in fold_children2 app]. rewrite map_app, concat_app. cbn [List.concat]. rewrite app_nil_r. reflexivity.
Qed.
Example C79_varref_nontrivial :
  let call x := ECall no_com (EIdent (id0 %"varref")) no_pos [EStr (Str no_com no_pos x false no_pos [])] (End no_com no_pos) false false in
  let rule x := ECall no_com (EIdent (id0 %"r")) no_pos [set0 %"copts" (EList no_com no_pos [x] (End no_com no_pos) false)] (End no_com no_pos) false false in
  ~ varref_call (rule (call %"X")) /\ removeVarref (rule (call %"X")) = rule (EStr (Str no_com no_pos %"$(X)" false no_pos [])).
Proof. split; [|reflexivity]. intros (c & ci & p & q & s & en & k & m & E). discriminate. Qed.
(** A comment on the second list is lost. *)
Theorem C79_comments_refuted :
  let list c x := EList c no_pos [EStr (Str no_com no_pos x false no_pos [])] (End no_com no_pos) false in
  exists c, c <> no_com /\ mergeLiteralLists (EBinary no_com (list no_com %"a") no_pos %"+" false (list c %"b")) =
    EList no_com no_pos [EStr (Str no_com no_pos %"a" false no_pos []); EStr (Str no_com no_pos %"b" false no_pos [])] (End no_com no_pos) false.
Proof. exists (Comments [Comment no_pos %"# only on Mondays"] [] []). split; [discriminate|reflexivity]. Qed.

(** ** C80: += *)
Definition method_call (name : bytes) (c : comments) (obj : ident) (arg : expr) (s : option expr) : Prop :=
  exists dc p1 p2 q en k m, s = Some (ECall c (EDot dc (EIdent obj) p1 p2 name) q [arg] en k m).
Definition grows (s : option expr) : Prop := exists name c obj arg, In name [%"extend"; %"append"] /\ method_call name c obj arg s.
Inductive grown : option expr -> option expr -> Prop :=
  | gr_extend c obj arg s : method_call %"extend" c obj arg s -> grown s (Some (EAssign c (EIdent obj) no_pos %"+=" false arg))
  | gr_append c obj arg s : method_call %"append" c obj arg s ->
      grown s (Some (EAssign c (EIdent obj) no_pos %"+=" false (EList no_com no_pos [arg] (End no_com no_pos) false)))
  | gr_other s : ~ grows s -> grown s s.
Lemma plus_equal_spec s : grown s (fst (plus_equal s)) /\ (snd (plus_equal s) = false -> fst (plus_equal s) = s) /\ ~ grows (fst (plus_equal s)).
Proof.
  assert (D : (exists c dc obj p1 p2 n q arg en k m, s = Some (ECall c (EDot dc (EIdent obj) p1 p2 n) q [arg] en k m) /\ In n [%"extend"; %"append"]) \/ (~ grows s /\ plus_equal s = (s, false))).
  { destruct s as [e|]; [|right; split; [intros (? & ? & ? & ? & _ & (? & ? & ? & ? & ? & ? & ? & E)); discriminate|reflexivity]].
    assert (O : forall P : Prop, (~ grows (Some e) -> plus_equal (Some e) = (Some e, false) -> P) -> (forall c dc obj p1 p2 n q arg en k m, e <> ECall c (EDot dc (EIdent obj) p1 p2 n) q [arg] en k m) -> P).
    { intros P H N. apply H; [intros (n & c & obj & arg & _ & (dc & p1 & p2 & q & en & k & m & E)); injection E as E; eapply N; eauto|].
      destruct e; auto. destruct e; auto. destruct e; auto. destruct args as [|a [|]]; auto. exfalso. eapply N. reflexivity. }
    destruct e; try (apply O; [auto|intros; discriminate]). destruct e; try (apply O; [auto|intros; discriminate]). destruct e; try (apply O; [auto|intros; discriminate]). destruct args as [|a [|]]; try (apply O; [auto|intros; discriminate]).
    destruct (beq name %"extend") eqn:E1; [apply beq_eq in E1; subst; left; do 11 eexists; split; [reflexivity|left; reflexivity]|].
    destruct (beq name %"append") eqn:E2; [apply beq_eq in E2; subst; left; do 11 eexists; split; [reflexivity|right; left; reflexivity]|].
    right. split; [|cbn [plus_equal]; rewrite E1, E2; reflexivity]. intros (n & c' & obj & arg & H & (dc & p1 & p2 & q & en & k & m & E)). injection E as _ _ _ _ _ -> _ _ _ _ _. cbn in H. destruct H as [<- |[<- |[]]]; rewrite beq_refl in *; discriminate. }
  destruct D as [(c & dc & obj & p1 & p2 & n & q & arg & en & k & m & -> & H)|[N ->]].
  - assert (NG : forall c x p op b y, ~ grows (Some (EAssign c x p op b y))) by (intros ? ? ? ? ? ? (? & ? & ? & ? & _ & (? & ? & ? & ? & ? & ? & ? & E)); discriminate).
    cbn in H. destruct H as [<- |[<- |[]]]; cbn [plus_equal]; rewrite ?beq_refl.
    + split; [|split; [discriminate|apply NG]]. apply gr_extend. unfold method_call. eauto 12.
    + change (beq %"append" %"extend") with false. split; [|split; [discriminate|apply NG]]. apply gr_append. unfold method_call. eauto 12.
  - split; [apply gr_other; auto|split; auto].
Qed.
(** buildozer fix usePlusEqual: each statement x.extend(y) becomes x += y and each x.append(y) becomes x += [y], with its
    comments, in place; nothing else changes. *)
Theorem C80_plus_equal_partial :
  forall stmts, let r := usePlusEqual stmts in
    Forall2 grown stmts (snd r) /\ (fst r = false -> snd r = stmts) /\ Forall (fun s => ~ grows s) (snd r).
Proof.
  intro stmts. unfold usePlusEqual. cbn [fst snd]. induction stmts as [|s l (I1 & I2 & I3)]; cbn [map existsb]; [repeat split; constructor|]. destruct (plus_equal_spec s) as (P1 & P2 & P3).
  split; [constructor; auto|]. split; [|constructor; auto]. intro H. apply orb_false_iff in H as [H1 H2]. rewrite P2, I2; auto.
Qed.
(** With a starred argument the result cannot be read back. *)
Theorem C80_star_refuted :
  exists c m stmts out, parse_file meta (lines [%"x.extend(*y)"]) = Some (EFile c m stmts) /\
    FormatWithoutRewriting (EFile c m (snd (usePlusEqual stmts))) = Some out /\ parse out = Rejected.
Proof.
  assert (H : match parse_file meta (lines [%"x.extend(*y)"]) with
              | Some (EFile c m stmts) => match FormatWithoutRewriting (EFile c m (snd (usePlusEqual stmts))) with Some out => match parse out with Rejected => true | _ => false end | None => false end
              | _ => false end = true) by (vm_compute; reflexivity).
  destruct (parse_file meta (lines [%"x.extend(*y)"])) as [f|]; [|discriminate]. destruct f; try discriminate.
  destruct (FormatWithoutRewriting _) as [out|] eqn:F; [|discriminate]. destruct (parse out) eqn:P; try discriminate. eexists _, _, _, out. auto.
Qed.
Example C80_nontrivial :
  match parse_file meta (lines [%"x.extend(y)  # a"; %"x.append(z)"; %"x.pop(z)"]) with
  | Some (EFile c m stmts) => FormatWithoutRewriting (EFile c m (snd (usePlusEqual stmts)))
  | _ => None end = Some (lines [%"x += y  # a"; %"x += [z]"; []; %"x.pop(z)"]).
Proof. vm_compute. reflexivity. Qed.

(** ** C81: licenses *)
Definition license (s : option expr) (v : expr) (c : comments) : Prop :=
  exists i p en k m, s = Some (ECall c (EIdent i) p [v] en k m) /\ i_name i = %"licenses".
Definition licenses_stmt (s : option expr) : Prop := exists v c, license s v c.
(** [args'] is [args] with the first definition of the attribute, or a new one at the end, set to [v] and with the comments [c]. *)
Definition defined_as (key : bytes) (v : expr) (c : comments) (args args' : list expr) : Prop :=
  exists pre x post, args' = pre ++ x :: post /\ gives key x v /\ com x = c /\ no_attr key pre /\
    ((post = [] /\ args = pre) \/ exists y w, args = pre ++ y :: post /\ gives key y w).

Lemma comment_first_at key c pre x post w : gives key x w -> no_attr key pre -> comment_first key c (pre ++ x :: post) = pre ++ set_com c x :: post.
Proof.
  intros G N. assert (D : defines key x = true) by (apply defines_spec; eauto). pose proof (no_attr_defines _ _ N) as P. clear N. induction pre as [|y pre IH]; cbn [app comment_first]; [rewrite D; auto|].
  rewrite (P y (or_introl eq_refl)). f_equal. apply IH. intros; apply P; right; auto.
Qed.
Lemma to_package_spec key args vc : defined_as key (fst vc) (snd vc) args (to_package key args vc).
Proof.
  destruct vc as [v c]. unfold to_package, defined_as. cbn [fst snd]. destruct (Attr key args) as [w|] eqn:A.
  - apply attr_is_some in A. apply attr_is_split in A as (pre & x & post & -> & G & N). rewrite (SetAttr_existing key v pre x post w) by auto. pose proof G as G0. destruct G as (c0 & i & p & op & b & -> & E). cbn [set_rhs].
    rewrite (comment_first_at key c pre _ post v); [|unfold gives; eauto 9|auto]. exists pre. eexists. exists post. split; [reflexivity|]. split; [cbn; unfold gives; eauto 9|]. split; [reflexivity|]. split; [auto|]. right. eauto.
  - assert (N : no_attr key args).
    { intros x w K G. unfold Attr, AttrDefn in A. destruct (find (defines key) args) as [y|] eqn:Fd.
      - apply find_some in Fd as [_ Fd]. apply defines_spec in Fd as (u & c1 & i1 & p1 & op1 & b1 & -> & _). discriminate.
      - apply (find_none _ _ Fd) in K. rewrite (proj2 (defines_spec key x)) in K by eauto. discriminate. }
    rewrite SetAttr_new by auto. assert (G : gives key (new_attr key v) v) by (unfold gives, new_attr; eauto 9). rewrite (comment_first_at key c args _ [] v) by auto. exists args. eexists. exists []. split; [reflexivity|]. split; [cbn; unfold gives; eauto 9|]. split; [reflexivity|]. split; auto.
Qed.
Lemma first_unique key pre x post pre' x' post' w w' : pre ++ x :: post = pre' ++ x' :: post' -> no_attr key pre -> no_attr key pre' -> gives key x w -> gives key x' w' -> pre = pre' /\ post = post'.
Proof.
  revert pre'. induction pre as [|y pre IH]; intros [|z pre'] E N N' G G'; cbn in E; injection E as E1 E2; subst; auto.
  - elim (N' _ w (or_introl eq_refl)). auto.
  - elim (N _ w' (or_introl eq_refl)). auto.
  - destruct (IH pre' E2) as [-> ->]; auto; intros a b H; [apply N|apply N']; right; auto.
Qed.
Lemma defined_trans key v1 c1 v2 c2 a b d : defined_as key v1 c1 a b -> defined_as key v2 c2 b d -> defined_as key v2 c2 a d.
Proof.
  intros (pre & x & post & -> & G & C & N & H) (pre' & x' & post' & -> & G' & C' & N' & H'). exists pre', x', post'. split; auto. split; auto. split; auto. split; auto.
  destruct H' as [[-> E]|(y & w & E & Gy)].
  - subst pre'. elim (N' x v1); [apply in_or_app; right; left; auto|auto].
  - destruct (first_unique key _ _ _ _ _ _ _ _ E N N' G Gy) as [<- <-]. destruct H as [H|H]; [left|right]; auto.
Qed.
Lemma fold_package key : forall moved args, moved <> [] -> exists v c, last moved (EIdent (id0 []), no_com) = (v, c) /\ defined_as key v c args (fold_left (to_package key) moved args).
Proof.
  induction moved as [|vc moved IH]; intros args N; [congruence|]. cbn [fold_left]. destruct moved as [|vc' moved].
  - exists (fst vc), (snd vc). cbn. split; [destruct vc; auto|]. apply to_package_spec.
  - destruct (IH (to_package key args vc)) as (v & c & L & D); [discriminate|]. exists v, c. split; [exact L|]. eapply defined_trans; [apply to_package_spec|exact D].
Qed.
Lemma moved_license s : match moved_arg %"licenses" s with Some (v, c) => license s v c | None => ~ licenses_stmt s end.
Proof.
  unfold moved_arg, licenses_stmt, license. destruct s as [e|]; [|intros (v & c & i & p & en & k & m & E & _); discriminate]. destruct e; try (intros (? & ? & ? & ? & ? & ? & ? & ? & _); discriminate).
  destruct args as [|a [|]]; try (intros (? & ? & ? & ? & ? & ? & ? & ? & _); discriminate). destruct (ExprToRule _ _) eqn:R.
  - apply call_of_spec in R as (c' & i & p & l & en & k & m & E & H). injection E as <- -> <- <- <- <- <-. eauto 12.
  - intros (v & c' & i & p' & en & k & m & E & H). assert (R' : ExprToRule (Some (ECall c e lstart [a] e0 compact multi)) %"licenses" = true) by (apply call_of_spec; unfold call_of; rewrite E; eauto 12). congruence.
Qed.
Lemma edit_package_none f l : Forall (fun s => ~ package_stmt s) l -> edit_package f l = l.
Proof. induction 1 as [|s l N F IH]; cbn [edit_package]; auto. destruct (ExprToRule s %"package") eqn:E; [|congruence]. apply call_of_spec in E. contradiction. Qed.
Lemma edit_package_first f a c i p args en k m b : Forall (fun s => ~ package_stmt s) a -> i_name i = %"package" ->
  edit_package f (a ++ Some (ECall c (EIdent i) p args en k m) :: b) = a ++ Some (ECall c (EIdent i) p (f args) en k m) :: b.
Proof.
  intros F H. induction F as [|s l N F IH]; cbn [app edit_package].
  - destruct (ExprToRule _ _) eqn:E; [reflexivity|]. assert (X : ExprToRule (Some (ECall c (EIdent i) p args en k m)) %"package" = true) by (apply call_of_spec; unfold call_of; eauto 12). congruence.
  - destruct (ExprToRule s %"package") eqn:E; [apply call_of_spec in E; contradiction|]. congruence.
Qed.
(** buildozer fix moveLicenses: when the file has a package(), the calls of licenses() go, and the first package() gets the
    attribute of the last of them with its comments. *)
Theorem C81_licenses_partial :
  forall stmts, let r := moveLicenses stmts in exists yes no, parted licenses_stmt stmts yes no /\
    (fst r = false <-> yes = []) /\ (yes = [] -> snd r = stmts) /\
    forall a c i p args en k m b, no = a ++ Some (ECall c (EIdent i) p args en k m) :: b -> i_name i = %"package" -> Forall (fun s => ~ package_stmt s) a ->
      (yes = [] \/ exists before s v cs args', yes = before ++ [s] /\ license s v cs /\ defined_as %"licenses" v cs args args' /\
         snd r = a ++ Some (ECall c (EIdent i) p args' en k m) :: b).
Proof.
  intros stmts r. unfold r, moveLicenses, moveToPackage. clear r. cbn [fst snd].
  set (kept := filter _ stmts). set (moved := flat_map _ stmts).
  assert (P : exists yes, parted licenses_stmt stmts yes kept /\ Forall2 (fun s vc => license s (fst vc) (snd vc)) yes moved).
  { unfold kept, moved. clear. induction stmts as [|s l (yes & P & F)]; [exists []; split; constructor|]. cbn [filter flat_map]. pose proof (moved_license s) as M. destruct (moved_arg %"licenses" s) as [[v c]|].
    - exists (s :: yes). split; [apply pt_yes; auto; unfold licenses_stmt; eauto|]. cbn. constructor; auto.
    - exists yes. split; [apply pt_no; auto|]. exact F. }
  destruct P as (yes & P & F). exists yes, kept. split; auto. split; [|split].
  - inversion F; split; auto; discriminate.
  - intros ->. inversion F as [E|]. assert (K : kept = stmts) by (clear - P; remember [] as ys; induction P; auto; [discriminate|f_equal; auto]). rewrite K. clear.
    induction stmts as [|s l IH]; cbn [edit_package fold_left]; auto. destruct (ExprToRule s %"package"); [|f_equal; auto]. destruct s as [[]|]; auto.
  - intros a c i p args en k m b E H Fa. destruct yes as [|y yes]; [left; auto|right].
    assert (NM : moved <> []) by (inversion F; discriminate).
    destruct (fold_package %"licenses" moved args NM) as (v & cs & L & D).
    assert (G : forall ys ms, Forall2 (fun s vc => license s (fst vc) (snd vc)) ys ms -> ms <> [] -> exists before s, ys = before ++ [s] /\ license s (fst (last ms (EIdent (id0 []), no_com))) (snd (last ms (EIdent (id0 []), no_com)))).
    { clear. induction 1 as [|s vc ys ms Hs Fs IH]; intro N; [congruence|]. destruct ms as [|vc' ms]; [inversion Fs; subst; exists [], s; split; auto|].
      destruct IH as (before & t & -> & Ht); [discriminate|]. exists (s :: before), t. split; auto. }
    destruct (G _ _ F NM) as (before & s & Y & Ls). rewrite L in Ls. exists before, s, v, cs, (fold_left (to_package %"licenses") moved args). split; auto. split; auto. split; auto. rewrite E. apply edit_package_first; auto.
Qed.
(** Without package() the licenses are lost. *)
Theorem C81_no_package_refuted :
  forall s v c, license s v c -> moveLicenses [s] = (true, []).
Proof.
  intros s v c L. unfold moveLicenses, moveToPackage. cbn [flat_map filter]. pose proof (moved_license s) as M. destruct (moved_arg %"licenses" s) as [[v' c']|]; [reflexivity|]. elim M. unfold licenses_stmt. eauto.
Qed.
(** licenses(license_types = ["notice"]): the result cannot be read back. *)
Definition licensed (data : bytes) : option bytes :=
  match parse_file meta data with
  | Some (EFile c m stmts) => FormatWithoutRewriting (EFile c m (snd (moveLicenses stmts)))
  | _ => None
  end.
Theorem C81_keyword_refuted :
  exists out, licensed (lines [%"package()"; %"licenses(license_types = [""notice""])"]) = Some out /\ parse out = Rejected.
Proof.
  destruct (licensed _) as [out|] eqn:E; [|vm_compute in E; discriminate]. exists out. split; auto.
  assert (H : match licensed (lines [%"package()"; %"licenses(license_types = [""notice""])"]) with Some out => match parse out with Rejected => true | _ => false end | None => false end = true) by (vm_compute; reflexivity).
  rewrite E in H. destruct (parse out); auto; discriminate.
Qed.
Example C81_nontrivial :
  licensed (lines [%"package()"; %"# lawyers said so"; %"licenses([""notice""])"; %"r(name = ""x"")"]) =
  Some (lines [%"package("; %"    # lawyers said so"; %"    licenses = [""notice""],"; %")"; []; %"r(name = ""x"")"]) /\
  licensed (lines [%"licenses([""notice""])"; %"r(name = ""x"")"]) = Some (lines [%"r(name = ""x"")"]).
Proof. split; vm_compute; reflexivity. Qed.
Print Assumptions C79_merge_lists_partial. Print Assumptions C79_varref_partial. Print Assumptions C79_varref_exact. Print Assumptions C79_comments_refuted.
Print Assumptions C80_plus_equal_partial. Print Assumptions C80_star_refuted.
Print Assumptions C81_licenses_partial. Print Assumptions C81_no_package_refuted. Print Assumptions C81_keyword_refuted.
