(** C62: the rules of a file. *)
From Verif Require Import Base BaseProofs Ast Walk WalkProofs Rewrite RuleApi RuleSpec RuleProofs LoadsSpec CallSpec CallProofs PropRule RulesSpec.

Lemma is_call_spec e : is_call e = true <-> a_call e.
Proof.
  unfold a_call, call_of, calls. split.
  - destruct e; try discriminate. intros _. do 7 eexists. reflexivity.
  - intros (x & a & c & p & en & k & m & E). injection E as ->. reflexivity.
Qed.
Definition om_of (stk : list expr) (e : expr) : list expr :=
  map fst (filter (fun v : expr * list expr => is_call (fst v) && negb (existsb is_call (snd v))) (visit (fun _ _ => false) stk e)).
Lemma concat_map_filter {A B} (f : A -> B) p (ls : list (list A)) :
  map f (filter p (List.concat ls)) = List.concat (map (fun l => map f (filter p l)) ls).
Proof. induction ls; cbn [List.concat map]; auto. rewrite filter_app, map_app, IHls. reflexivity. Qed.
Lemma om_of_unfold stk e : om_of stk e =
  (if is_call e && negb (existsb is_call stk) then [e] else []) ++ List.concat (map (om_of (stk ++ [e])) (children e)).
Proof.
  unfold om_of at 1. rewrite visit_unfold. cbn [filter fst snd].
  destruct (is_call e && negb (existsb is_call stk)); cbn [map fst app]; rewrite flat_map_concat_map, concat_map_filter, map_map; reflexivity.
Qed.
Lemma om_of_inside e : forall stk, existsb is_call stk = true -> om_of stk e = [].
Proof.
  induction e as [e IH] using expr_children_ind. intros stk H. rewrite om_of_unfold, H, andb_false_r. cbn [app].
  assert (H' : existsb is_call (stk ++ [e]) = true) by (rewrite existsb_app, H; reflexivity).
  clear -IH H'. induction (children e) as [|c l IHl]; cbn [map List.concat]; auto.
  rewrite IH; [|left; auto|auto]. apply IHl. intros; apply IH; [right|]; auto.
Qed.
Lemma om_of_spec e : forall stk, existsb is_call stk = false -> outermost e (om_of stk e).
Proof.
  induction e as [e IH] using expr_children_ind. intros stk H. rewrite om_of_unfold, H. cbn [negb].
  rewrite andb_true_r. destruct (is_call e) eqn:C.
  - assert (Z : List.concat (map (om_of (stk ++ [e])) (children e)) = []).
    { assert (H' : existsb is_call (stk ++ [e]) = true) by (rewrite existsb_app; cbn [existsb]; rewrite C; apply orb_true_r).
      clear -H'. induction (children e); cbn [map List.concat]; auto. rewrite om_of_inside; auto. }
    rewrite Z. apply om_call. apply is_call_spec; auto.
  - cbn [app]. apply om_other. { rewrite <- is_call_spec. congruence. }
    assert (H' : existsb is_call (stk ++ [e]) = false) by (rewrite existsb_app, H; cbn [existsb]; rewrite C; reflexivity).
    clear -IH H'. induction (children e) as [|c l IHl]; constructor.
    + apply IH; [left|]; auto.
    + apply IHl. intros; apply IH; [right|]; auto.
Qed.
Lemma outermost_fun e : forall l l', outermost e l -> outermost e l' -> l = l'.
Proof.
  induction e as [e IH] using expr_children_ind. intros l l' H H'. inversion H; subst; inversion H'; subst; auto; try tauto.
  f_equal. clear -IH H1 H3. revert ls0 H3. induction H1; intros ls0 H3; inversion H3; subst; auto. f_equal.
  - eapply IH; eauto. left; auto.
  - apply IHForall2; auto. intros; eapply IH; eauto. right; auto.
Qed.
Definition all_rules (stmts : list (option expr)) : list expr :=
  flat_map (fun o => match o with Some e => om_of [] e | None => [] end) stmts.
Lemma all_rules_spec stmts : rules_in stmts (all_rules stmts).
Proof.
  induction stmts as [|[e|] l IH]; [constructor| |]; cbn [all_rules flat_map app]; constructor; auto.
  apply om_of_spec. reflexivity.
Qed.
Lemma rules_in_fun stmts l l' : rules_in stmts l -> rules_in stmts l' -> l = l'.
Proof.
  intros H. revert l'. induction H; intros m M; inversion M; subst; auto. f_equal; auto. eapply outermost_fun; eauto.
Qed.
Lemma rules_of_filter p stmts : rules_of p stmts = filter p (all_rules stmts).
Proof.
  unfold rules_of, all_rules. induction stmts as [|[e|] l IH]; cbn [flat_map app]; auto.
  rewrite filter_app, map_app, IH, filter_app. f_equal. unfold om_of, Walk.
  induction (visit (fun _ _ => false) [] e) as [|v t IHt]; cbn [filter map]; auto.
  destruct (is_call (fst v) && negb (existsb is_call (snd v))); cbn [andb map filter]; auto.
  destruct (p (fst v)); cbn [map]; rewrite IHt; auto.
Qed.
Lemma pick_spec {A} (P : A -> Prop) (p : A -> bool) l a b : (forall x, In x l -> (p x = true <-> P x)) ->
  pick P l a b -> a = filter p l.
Proof.
  intros H K. induction K; cbn [filter]; auto.
  - rewrite (proj2 (H x (or_introl eq_refl)) H0). f_equal. apply IHK. intros; apply H; right; auto.
  - destruct (p x) eqn:E; [exfalso; apply H0, H; auto; left; auto|]. apply IHK. intros; apply H; right; auto.
Qed.
Lemma pick_filter_in {A} (P : A -> Prop) (p : A -> bool) l : (forall x, In x l -> (p x = true <-> P x)) ->
  pick P l (filter p l) (filter (fun x => negb (p x)) l).
Proof.
  induction l as [|x l IH]; intros H; cbn [filter]; [constructor|].
  destruct (p x) eqn:E; cbn [negb]; constructor; try (apply IH; intros; apply H; right; auto).
  - apply H; auto. left; auto.
  - rewrite <- (H x (or_introl eq_refl)). congruence.
Qed.
Lemma callee_args_spec e x a : callee_args e = Some (x, a) <-> call_of e x a.
Proof. apply (stmt_call_spec (Some e)). Qed.
Lemma the_only_spec {A} (P : A -> Prop) (p : A -> bool) l r : (forall x, In x l -> (p x = true <-> P x)) ->
  (match filter p l with [y] => Some y | _ => None end = Some r) <-> the_only P l r.
Proof.
  intros H. unfold the_only. split.
  - intros E. destruct (filter p l) as [|y [|z t]] eqn:F; try discriminate. injection E as ->.
    assert (I : In r l /\ p r = true) by (apply filter_In; rewrite F; left; auto).
    assert (G : exists a b, l = a ++ r :: b /\ filter p a = [] /\ filter p b = []).
    { clear -F. induction l as [|x l IH]; [discriminate|]. cbn [filter] in F. destruct (p x) eqn:E.
      - injection F as -> F. exists [], l. auto.
      - destruct (IH F) as (a & b & -> & A1 & B1). exists (x :: a), b. cbn [filter app]. rewrite E. auto. }
    destruct G as (a & b & -> & A1 & B1). exists a, b. split; auto. split; [apply H; tauto|].
    intros x Hx Px. assert (Q : In x (filter p a ++ filter p b)).
    { rewrite <- filter_app. apply filter_In. split; auto. apply H; auto. rewrite in_app_iff in *. cbn [In]. tauto. }
    rewrite A1, B1 in Q. destruct Q.
  - intros (a & b & -> & Pr & N). rewrite filter_app. cbn [filter].
    rewrite (proj2 (H r ltac:(rewrite in_app_iff; right; left; auto)) Pr).
    assert (Z : forall m, (forall x, In x m -> In x (a ++ b)) -> filter p m = []).
    { induction m as [|x m IH]; intros I; cbn [filter]; auto. destruct (p x) eqn:E.
      - exfalso. apply (N x); [apply I; left; auto|]. apply H; auto. specialize (I x (or_introl eq_refl)).
        rewrite in_app_iff in *. cbn [In]. tauto.
      - apply IH. intros; apply I; right; auto. }
    rewrite !Z; auto; intros x; rewrite in_app_iff; tauto.
Qed.

(** Every file has exactly one list of rules. *)
Theorem C62_rules_exist : forall stmts, exists l, rules_in stmts l /\ forall l', rules_in stmts l' -> l' = l.
Proof.
  intros stmts. exists (all_rules stmts). split; [apply all_rules_spec|]. intros l' H.
  eapply rules_in_fun; eauto using all_rules_spec.
Qed.
Print Assumptions C62_rules_exist.
(** [Rules kind]: the rules of the file whose callee is named [kind], in source order;
    with an empty kind, all of them. *)
Theorem C62_rules :
  forall kind stmts all, rules_in stmts all ->
    exists others, pick (fun r => kind = [] \/ exists x args, call_of r x args /\ has_kind x kind) all (Rules kind stmts) others.
Proof.
  intros kind stmts all H. rewrite (rules_in_fun _ _ _ H (all_rules_spec stmts)). clear H all.
  unfold Rules. rewrite rules_of_filter. eexists. apply pick_filter_in. intros e He.
  assert (C : a_call e).
  { unfold all_rules in He. apply in_flat_map in He as ([s|] & _ & He); [|destruct He].
    unfold om_of in He. apply in_map_iff in He as (v & <- & He). apply filter_In in He as [_ He].
    apply andb_true_iff in He as [He _]. apply is_call_spec; auto. }
  destruct C as (x & a & C). pose proof C as C'. apply callee_args_spec in C. rewrite C. rewrite orb_true_iff. split.
  - intros [E|E]; apply beq_eq in E; auto. destruct kind as [|k0 k]; auto. right. exists x, a. split; auto.
    apply kind_spec; [discriminate|auto].
  - intros [->|(x' & a' & C1 & K)]; [left; reflexivity|]. apply callee_args_spec in C1. rewrite C in C1. injection C1 as <- <-.
    destruct kind as [|k0 k]; [left; reflexivity|right]. apply beq_eq. apply kind_spec in K; [auto|discriminate].
Qed.
Print Assumptions C62_rules.
(** [RuleNamed name] finds a rule exactly when one rule of the file, and only one, has that name
    (explicit, or by the convention of C34). *)
Theorem C62_rule_named :
  forall path name stmts all r, rules_in stmts all ->
    (RuleNamed path name stmts = Some r <->
     the_only (fun r => exists x args, call_of r x args /\ name_is (dir_name path) stmts x args name) all r).
Proof.
  intros path name stmts all r H. rewrite (rules_in_fun _ _ _ H (all_rules_spec stmts)). clear H all.
  unfold RuleNamed. rewrite rules_of_filter. apply the_only_spec. intros e _. split.
  - destruct (callee_args e) as [[x a]|] eqn:C; [|discriminate]. apply callee_args_spec in C. intros E. apply beq_eq in E.
    exists x, a. split; auto. apply name_in_file_is; auto.
  - intros (x & a & C & N). apply callee_args_spec in C. rewrite C. apply beq_eq, name_in_file_is; auto.
Qed.
Print Assumptions C62_rule_named.
(** [RuleAt line]: the only rule whose callee's text covers the line. *)
Theorem C62_rule_at :
  forall line stmts all r, rules_in stmts all ->
    (RuleAt line stmts = Some r <->
     the_only (fun r => exists x args, call_of r x args /\
       (p_line (start_pos x) <= line <= p_line (end_pos x))%Z) all r).
Proof.
  intros line stmts all r H. rewrite (rules_in_fun _ _ _ H (all_rules_spec stmts)). clear H all.
  unfold RuleAt. rewrite rules_of_filter. apply the_only_spec. intros e _. split.
  - destruct (callee_args e) as [[x a]|] eqn:C; [|discriminate]. apply callee_args_spec in C. intros E.
    exists x, a. split; auto. lia.
  - intros (x & a & C & N). apply callee_args_spec in C. rewrite C. lia.
Qed.
Print Assumptions C62_rule_at.
(** A rule inside an assignment and a comprehension; the nested call is not a rule. *)
Example C62_nontrivial :
  let cl n args := ECall no_com (EIdent (Ident no_com (Pos 3 1 1) n)) no_pos args (End no_com no_pos) false false in
  let st s := EStr (Str no_com no_pos s false no_pos []) in
  let r1 := cl %"cc_library" [arg %"name" (st %"a"); arg %"srcs" (cl %"glob" [])] in
  let r2 := cl %"cc_test" [arg %"name" (st %"b")] in
  let stmts := [Some (arg %"x" r1); None; Some (EComp no_com false no_pos r2 [] false (End no_com no_pos))] in
  rules_in stmts [r1; r2] /\ Rules [] stmts = [r1; r2] /\ Rules %"cc_test" stmts = [r2] /\ Rules %"glob" stmts = [] /\
  RuleNamed %"pkg/BUILD" %"b" stmts = Some r2 /\ RuleAt 3 [Some r1] = Some r1.
Proof.
  cbv zeta. split.
  - match goal with |- rules_in ?s ?l => assert (E : l = all_rules s) by (vm_compute; reflexivity) end. rewrite E. apply all_rules_spec.
  - repeat split; vm_compute; reflexivity.
Qed.
