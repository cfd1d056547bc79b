(** C107: substitute and substitute_load. *)
From Verif Require Import LRTables LRCert Parse.
From Verif Require Import Base BaseProofs Ast ParseFile Quote Labels LabelsProofs PropLabels Rewrite CallSpec RuleApi RuleSpec RuleProofs PropRule EditList EditListSpec EditListProofs EditResolve PropEditList PropResolve EditFile Print RuleCmd PropRuleCmd PropMove DictCmd PropDict SubstCmd.
Local Open Scope list_scope.

(** ** What is asked for *)
(** What the library of regular expressions promises about the first match *)
Definition in_range (re : regexp) : Prop := forall t a b, match_of re t = Some (a, b) -> a <= b /\ b <= List.length t.
(** The first match is replaced by what the template becomes for it. *)
Definition replaced (re : regexp) (old new : bytes) : Prop :=
  exists pre m post, old = pre ++ m ++ post /\ match_of re old = Some (List.length pre, List.length (pre ++ m)) /\ new = pre ++ expansion re old ++ post.
(** A list element and what it becomes *)
Definition element (re : regexp) (x x' : expr) : Prop :=
  (exists t v, x = EStr t /\ replaced re (s_value t) v /\ new_text v x x') \/ ((forall t v, x = EStr t -> ~ replaced re (s_value t) v) /\ x' = x).
(** The value of an attribute and what it becomes *)
Inductive substituted (s : setting) (re : regexp) : expr -> expr -> Prop :=
  | su_string t v w : replaced re (s_value t) v -> written s v w -> substituted s re (EStr t) w
  | su_other t : (forall v, ~ replaced re (s_value t) v) -> substituted s re (EStr t) (EStr t)
  | su_lists e e' : (forall t, e <> EStr t) -> lists_changed (Forall2 (element re)) (Forall2 (element re)) e e' -> substituted s re e e'.
(** Every select in the value has nothing but a dictionary. *)
Definition simple_value (e : expr) : Prop := Forall simple_select (parts e).

(** ** Proofs *)
Lemma length_pos {A} (l : list A) : (0 <? List.length l)%nat = false -> l = [].
Proof. destruct l; [auto|discriminate]. Qed.
Lemma cut a b (t : bytes) : a <= b -> b <= List.length t -> exists pre m post, t = pre ++ m ++ post /\ List.length pre = a /\ List.length (pre ++ m) = b.
Proof.
  intros H1 H2. exists (firstn a (firstn b t)), (skipn a (firstn b t)), (skipn b t). split; [|split].
  - rewrite app_assoc, !firstn_skipn. reflexivity.
  - rewrite !firstn_length. lia.
  - rewrite firstn_skipn, firstn_length. lia.
Qed.
Lemma subst_at re pre m post : match_of re (pre ++ m ++ post) = Some (List.length pre, List.length (pre ++ m)) ->
  stringSubstitute re (pre ++ m ++ post) = Some (pre ++ expansion re (pre ++ m ++ post) ++ post).
Proof.
  intro M. unfold stringSubstitute. rewrite M. f_equal.
  assert (F : firstn (List.length pre) (pre ++ m ++ post) = pre) by (rewrite firstn_app, firstn_all, Nat.sub_diag; cbn [firstn]; apply app_nil_r).
  assert (K : skipn (List.length (pre ++ m)) (pre ++ m ++ post) = post) by (rewrite app_assoc, skipn_app, skipn_all, Nat.sub_diag; reflexivity).
  rewrite F, K. set (x := expansion re (pre ++ m ++ post)).
  assert (P : (if (0 <? List.length pre)%nat then pre ++ x else x) = pre ++ x) by (destruct (0 <? List.length pre)%nat eqn:E; auto; apply length_pos in E; now subst).
  rewrite P. destruct (List.length (pre ++ m) <? List.length (pre ++ m ++ post))%nat eqn:E; [now rewrite <- app_assoc|].
  apply Nat.ltb_ge in E. rewrite !app_length in E. destruct post; [now rewrite app_nil_r|]. cbn [List.length] in E. lia.
Qed.
(** ** C107 *)
Theorem C107_text : forall re old new, in_range re -> (stringSubstitute re old = Some new <-> replaced re old new).
Proof.
  intros re old new R. split.
  - intro H. destruct (match_of re old) as [(a, b)|] eqn:M; [|unfold stringSubstitute in H; rewrite M in H; discriminate H].
    destruct (R _ _ _ M) as (H1 & H2). destruct (cut a b old H1 H2) as (pre & m & post & -> & <- & <-). exists pre, m, post. split; auto. split; auto. rewrite (subst_at _ _ _ _ M) in H. now injection H.
  - intros (pre & m & post & -> & M & ->). now apply subst_at.
Qed.
Print Assumptions C107_text.
Lemma sub_attr s re args key : in_range re ->
  (forall k, k <> key -> Attr k (substitute_attr s re args key) = Attr k args) /\
  (Attr key args = None -> substitute_attr s re args key = args) /\
  (forall e, Attr key args = Some e -> simple_value e -> exists e', Attr key (substitute_attr s re args key) = Some e' /\ substituted s re e e').
Proof.
  intro R. unfold substitute_attr. split; [|split].
  - intros k N. destruct (Attr key args) as [e|]; auto. destruct e; try (now apply C33_get_set). destruct (stringSubstitute re (s_value s0)); auto. now apply C33_get_set.
  - now intros ->.
  - intros e A Si. rewrite A.
    assert (G : (forall t, e <> EStr t) -> substituted s re e (snd (ListSubstitute (stringSubstitute re) e))).
    { intro N. apply su_lists; auto. pose proof (C37_substitute_partial (stringSubstitute re) e Si) as H. destruct (ListSubstitute (stringSubstitute re) e) as [d e']. destruct H as (H & _). cbn [snd].
      assert (I : forall l l', Forall2 (fun x x' => (exists t v, x = EStr t /\ stringSubstitute re (s_value t) = Some v /\ new_text v x x') \/ ((forall t v, x = EStr t -> stringSubstitute re (s_value t) <> Some v) /\ x' = x)) l l' -> Forall2 (element re) l l').
      { induction 1 as [|x x' l l' Hx F IH]; constructor; auto. destruct Hx as [(t & v & -> & S1 & S2)|(N1 & ->)].
        - left. exists t, v. split; auto. split; auto. now apply C107_text.
        - right. split; auto. intros t v Ex K. apply C107_text in K; auto. exact (N1 t v Ex K). }
      eapply lists_changed_mono; [exact I|exact I|exact H]. }
    assert (D : (exists t, e = EStr t) \/ forall t, e <> EStr t) by (destruct e; eauto; right; intros; discriminate). destruct D as [(t & ->)|N].
    + destruct (stringSubstitute re (s_value t)) as [v|] eqn:E.
      * eexists. split; [apply C33_get_set|]. apply C107_text in E; auto. eapply su_string; [exact E|apply written_expr].
      * exists (EStr t). split; auto. apply su_other. intros v K. apply C107_text in K; auto. rewrite K in E. discriminate E.
    + exists (snd (ListSubstitute (stringSubstitute re) e)). split; [|now apply G]. assert (W : forall v, Attr key (SetAttr key v args) = Some v) by (intro; apply C33_get_set). destruct e; try apply W. now destruct (N s0).
Qed.
(** One attribute: nothing else is changed, and a missing attribute is not created. *)
Theorem C107_attribute_partial : forall s re key r, in_range re -> key <> %"*" -> let r' := cmdSubstitute s re key r in
  only key r r' /\ (no_attr key (r_args r) -> r' = r) /\
  forall e, attr_is key (r_args r) e -> simple_value e -> exists e', attr_is key (r_args r') e' /\ substituted s re e e'.
Proof.
  intros s re key r R N. cbv zeta. unfold cmdSubstitute, attrKeysForPattern. rewrite (proj2 (beq_neq _ _) N). cbn [fold_left]. destruct (sub_attr s re (r_args r) key R) as (O & A & P). split; [|split].
  - unfold only. cbn [with_args r_com r_x r_start r_end r_compact r_multi r_args]. repeat (apply conj; [reflexivity|]). exact O.
  - intro Na. rewrite A; [destruct r; reflexivity|]. destruct (Attr key (r_args r)) as [e|] eqn:E; auto. apply attr_is_some in E. exfalso. clear -E Na. induction E as [x v l G|x v l G E IH]; [apply (Na x v); auto; now left|]. apply IH. intros y w I. apply Na. now right.
  - intros e E Si. apply attr_is_some in E. destruct (P e E Si) as (e' & E' & S'). exists e'. split; auto. now apply attr_is_some.
Qed.
Print Assumptions C107_attribute_partial.
Lemma sub_fold s re ks : in_range re -> NoDup ks -> forall args,
  (forall k, ~ In k ks -> Attr k (fold_left (substitute_attr s re) ks args) = Attr k args) /\
  forall k e, In k ks -> Attr k args = Some e -> simple_value e -> exists e', Attr k (fold_left (substitute_attr s re) ks args) = Some e' /\ substituted s re e e'.
Proof.
  intros R D. induction D as [|key ks N D IH]; intro args; [split; [auto|intros k e []]|]. cbn [fold_left]. destruct (IH (substitute_attr s re args key)) as (I1 & I2). destruct (sub_attr s re args key R) as (O & A & P). split.
  - intros k Nk. cbn [In] in Nk. rewrite I1 by tauto. apply O. intros ->. tauto.
  - intros k e [->|I] E Si.
    + rewrite I1 by auto. now apply P.
    + apply I2; auto. rewrite O; auto. intros ->. contradiction.
Qed.
(** All attributes, that is the pattern "*" : each as if it were given alone, and there are no new ones. *)
Theorem C107_all_partial : forall s re r, in_range re -> NoDup (AttrKeys (r_args r)) -> let r' := cmdSubstitute s re %"*" r in
  (r_com r' = r_com r /\ r_x r' = r_x r /\ r_start r' = r_start r /\ r_end r' = r_end r /\ r_compact r' = r_compact r /\ r_multi r' = r_multi r) /\
  (forall key, ~ In key (AttrKeys (r_args r)) -> Attr key (r_args r') = Attr key (r_args r)) /\
  forall key e, In key (AttrKeys (r_args r)) -> attr_is key (r_args r) e -> simple_value e -> exists e', attr_is key (r_args r') e' /\ substituted s re e e'.
Proof.
  intros s re r R D. cbv zeta. unfold cmdSubstitute, attrKeysForPattern. rewrite beq_refl. destruct (sub_fold s re _ R D (r_args r)) as (O & P). split; [auto 10|]. split; [exact O|].
  intros key e I E Si. apply attr_is_some in E. destruct (P key e I E Si) as (e' & E' & S'). exists e'. split; auto. now apply attr_is_some.
Qed.
Print Assumptions C107_all_partial.
(** substitute_load: the modules of the load statements, and nothing else *)
Definition module_changed (re : regexp) (o o' : option expr) : Prop :=
  (exists c p m m' from to e k, o = Some (ELoad c p m from to e k) /\ o' = Some (ELoad c p m' from to e k) /\ replaced re (s_value m) (s_value m') /\ s_com m' = s_com m /\ s_start m' = s_start m /\ s_end m' = s_end m) \/
  ((forall c p m from to e k v, o = Some (ELoad c p m from to e k) -> ~ replaced re (s_value m) v) /\ o' = o).
Theorem C107_load : forall re stmts, in_range re -> Forall2 (module_changed re) stmts (cmdSubstituteLoad re stmts).
Proof.
  intros re stmts R. unfold cmdSubstituteLoad. induction stmts as [|o l IH]; [constructor|]. cbn [map]. constructor; [|exact IH]. unfold module_changed.
  assert (D : (exists c p m from to e k, o = Some (ELoad c p m from to e k)) \/ forall c p m from to e k, o <> Some (ELoad c p m from to e k)) by (destruct o as [[]|]; eauto 10; right; discriminate).
  destruct D as [(c & p & m & from & to & e & k & ->)|N].
  - cbn [substitute_module]. destruct (stringSubstitute re (s_value m)) as [v|] eqn:E.
    + left. apply C107_text in E; auto. do 8 eexists. split; [reflexivity|]. split; [reflexivity|]. auto.
    + right. split; auto. intros ? ? ? ? ? ? ? v H K. injection H as <- <- <- <- <- <- <-. apply C107_text in K; auto. rewrite K in E. discriminate E.
  - right. split; [intros c p m from to e k v H; now apply N in H|]. destruct o as [[]|]; auto. now apply N in N || (exfalso; eapply N; reflexivity).
Qed.
Print Assumptions C107_load.

(** ** An example: the expression old, and the template new *)
Fixpoint find_old (i : nat) (t : bytes) : option (nat * nat) := if has_prefix %"old" t then Some (i, i + 3) else match t with [] => None | _ :: t' => find_old (S i) t' end.
Definition ex_re : regexp := Regexp (find_old 0) (fun _ => %"new").
Lemma ex_in_range : in_range ex_re.
Proof.
  assert (G : forall t i a b, find_old i t = Some (a, b) -> a <= b /\ b <= i + List.length t).
  { induction t as [|c t IH]; intros i a b H; [discriminate H|]. cbn [find_old] in H. destruct (has_prefix %"old" (c :: t)) eqn:P.
    - injection H as <- <-. apply has_prefix_spec in P as (u & E). rewrite E, app_length. change (List.length %"old") with 3. lia.
    - apply IH in H as (? & ?). cbn [List.length]. lia. }
  intros t a b H. apply G in H. exact H.
Qed.
Definition ex_rule : rule := ex_call [arg_of %"name" (str %"old_x"); arg_of %"deps" (EBinary no_com (lst [str %":old_a"; str %":b"]) no_pos %"+" false (sel [kv %"c" (lst [str %"//older:gold"])] []))].
Example C107_nontrivial : in_range ex_re /\ NoDup (AttrKeys (r_args ex_rule)) /\
  (exists e, attr_is %"deps" (r_args ex_rule) e /\ simple_value e) /\ (exists e, attr_is %"name" (r_args ex_rule) e /\ simple_value e) /\
  cmdSubstitute PropDict.ex_setting ex_re %"*" ex_rule = ex_call [arg_of %"name" (str %"new_x"); arg_of %"deps" (EBinary no_com (lst [str %":new_a"; str %":b"]) no_pos %"+" false (sel [kv %"c" (lst [str %"//newer:gold"])] []))] /\
  cmdSubstituteLoad ex_re [Some (ELoad no_com no_pos (Str no_com no_pos %"//x/old:a.bzl" false no_pos %"//x/old:a.bzl") [] [] (End no_com no_pos) false); Some (str %"old")] =
    [Some (ELoad no_com no_pos (Str no_com no_pos %"//x/new:a.bzl" false no_pos %"//x/old:a.bzl") [] [] (End no_com no_pos) false); Some (str %"old")].
Proof.
  split; [exact ex_in_range|]. split; [repeat constructor; cbn; intuition discriminate|].
  split; [eexists; split; [apply attr_is_some; vm_compute; reflexivity|]; repeat constructor|]. split; [eexists; split; [apply attr_is_some; vm_compute; reflexivity|]; repeat constructor; intros; discriminate|].
  split; vm_compute; reflexivity.
Qed.
