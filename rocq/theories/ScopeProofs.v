(** Proofs about the variable lints. *)
From Verif Require Import Base BaseProofs Ast Walk WalkSpec AttachTree Flow Scope ScopeSpec.
Local Open Scope list_scope.

Lemma sub_ind (P : expr -> Prop) : (forall e, (forall d, sub e d -> P d) -> P e) -> forall e, P e.
Proof.
  intros H. induction e as [e IH] using expr_ind_subs. apply H. intros d D.
  assert (L : In d (subs (fun x => x) e) \/ (exists i, d = EIdent i) \/ exists s, d = EStr s).
  { destruct D; cbn [subs opt_list]; rewrite ?map_id; eauto 6; try (left; cbn; auto; fail).
    all: try (left; rewrite ?in_app_iff; cbn; auto; fail).
    all: try (left; cbn; rewrite ?in_app_iff; cbn; auto; fail).
    left. apply in_flat_map. exists (Some x). cbn. auto. }
  destruct L as [L|[[i ->]|[s ->]]]; auto; apply H; intros d' D'; inversion D'.
Qed.
Lemma inside_sub e x y : sub e x -> inside x y -> inside e y.
Proof. intros X Y. induction Y; [eapply in_part; [constructor|auto]|eapply in_part; eauto]. Qed.

Lemma in_without n names l i : i_name i = n -> (In i (without names l) <-> In i l /\ ~ In n names).
Proof. intros <-. unfold without. rewrite filter_In. rewrite negb_true_iff. rewrite <- mem_bytes_In. split; intros [A B]; split; auto; [congruence|]. now apply not_true_is_false. Qed.
Lemma in_fresh n names l i : i_name i = n -> (In i (fresh names l) <-> In i l /\ ~ In n names).
Proof. apply in_without. Qed.
Lemma in_names n l : In n (names l) <-> exists i, In i l /\ i_name i = n.
Proof. unfold names. rewrite in_map_iff. split; intros (i & A & B); eauto. Qed.

(** Names that are bound. *)
Lemma lvalue_bound n e : In n (lvalue_names e) -> In n (bound e).
Proof.
  unfold lvalue_names. induction e as [e IH] using sub_ind. destruct e; cbn [CollectLValues bound]; auto; intro H; try (now destruct H).
  all: apply in_map_iff in H as (i & <- & H); apply in_flat_map in H as (x & X & H); apply in_flat_map; exists x; split; [auto|apply IH; [now constructor|exact (in_map i_name _ _ H)]].
Qed.
Lemma bound_lvalue n e : unwrapped n e -> In n (bound e) -> In n (lvalue_names e).
Proof.
  unfold lvalue_names. induction e as [e IH] using sub_ind. destruct e; cbn [CollectLValues bound unwrapped]; auto; intros U H; try (now elim U).
  all: apply in_flat_map in H as (x & X & H); enough (In n (map i_name (CollectLValues x))) as E
    by (apply in_map_iff in E as (i & <- & E); apply in_map; apply in_flat_map; eauto).
  all: apply IH; [constructor; auto| |auto]; clear - U X; induction l as [|y l IHl]; [destruct X|destruct U as [U1 U2], X as [<- |X]; auto].
Qed.
Lemma reads_target e i : In i (reads false e) -> In i (reads true e) \/ In (i_name i) (bound e).
Proof.
  induction e as [e IH] using sub_ind. destruct e; cbn [reads bound]; auto; intro H.
  - destruct H as [-> |[]]. cbn. auto.
  - apply in_flat_map in H as (x & X & H). destruct (IH x) as [G|G]; auto; [constructor; auto|left|right]; apply in_flat_map; eauto.
  - apply in_flat_map in H as (x & X & H). destruct (IH x) as [G|G]; auto; [constructor; auto|left|right]; apply in_flat_map; eauto.
  - apply IH; auto. constructor.
Qed.
Lemma target_reads e i : In i (reads true e) -> In i (reads false e).
Proof.
  induction e as [e IH] using sub_ind. destruct e; cbn [reads]; auto; intro H.
  - destruct H.
  - apply in_flat_map in H as (x & X & H). apply in_flat_map. exists x. split; auto. apply IH; auto. constructor; auto.
  - apply in_flat_map in H as (x & X & H). apply in_flat_map. exists x. split; auto. apply IH; auto. constructor; auto.
  - apply IH; auto. constructor.
Qed.
Lemma scope_vars e n : In n (scope_of e) ->
  match e with
  | EComp _ _ _ _ cl _ _ => In n (flat_map clause_vars cl)
  | ELambda _ _ ps _ => Forall (is_param is_name) ps -> exists p, In p ps /\ is_name p /\ In n (param_name p)
  | _ => False
  end.
Proof.
  destruct e; cbn [scope_of]; auto; intro H.
  - apply in_flat_map in H as (k & K & H). apply in_flat_map. exists k. split; auto. destruct k; auto. cbn. now apply lvalue_bound.
  - intro F. rewrite Forall_forall in F. apply in_flat_map in H as (p0 & P & H). exists p0. split; auto. apply F in P.
    destruct p0; cbn in *; auto; destruct H.
Qed.

(** ** Nothing is missed in an expression *)
Definition all_in (P : expr -> Prop) (e : expr) : Prop := forall x, inside e x -> P x.
Lemma all_here P e : all_in P e -> P e.
Proof. intro H. apply H. constructor. Qed.
Lemma all_sub P e x : all_in P e -> sub e x -> all_in P x.
Proof. intros H X y Y. apply H. eapply inside_sub; eauto. Qed.
Definition seen (n : bytes) (e : expr) : Prop := all_in legal e /\ all_in (seen_expr n) e.
Lemma seen_sub n e x : seen n e -> sub e x -> seen n x.
Proof. intros [A B] X. split; eapply all_sub; eauto. Qed.

Lemma concat_in {A} (x : A) l : In x (List.concat l) <-> exists k, In k l /\ In x k.
Proof. rewrite in_concat. firstorder. Qed.
Ltac subst_in := repeat match goal with
  | H : In _ (_ ++ _) |- _ => apply in_app_or in H as [H|H]
  | H : In _ [] |- _ => destruct H
  end.
Definition ordinary (e : expr) : Prop :=
  match e with
  | EStr _ | ELit _ _ _ | EBranch _ _ _ | ECommentBlock _ _ | ECall _ _ _ _ _ _ _ | EDot _ _ _ _ _ | EKV _ _ _ _ | EDict _ _ _ _ _ | ESet _ _ _ _ _
  | EUnary _ _ _ _ | EBinary _ _ _ _ _ _ | ESlice _ _ _ _ _ _ _ _ _ | EIndex _ _ _ _ _ | ECond _ _ _ _ _ _ | EIfC _ _ _ => True
  | _ => False
  end.
Lemma ordinary_children e d : ordinary e -> (sub e d <-> In d (children e)).
Proof.
  unfold children, fold_children. intro O. split.
  - intro H. destruct H; try (now destruct O); cbn [fold_children2 opt_list]; rewrite ?map_id; cbn [In app]; rewrite ?in_app_iff; cbn; auto 8.
  - destruct e; destruct O; cbn [fold_children2 opt_list]; rewrite ?map_id; cbn [In app]; rewrite ?in_app_iff; intro H.
    all: try (now destruct H).
    all: repeat match goal with
      | H : _ \/ _ |- _ => destruct H as [H|H]
      | H : False |- _ => destruct H
      end.
    all: try (subst; now constructor).
    + destruct x; [|destruct H]. destruct H as [<- |[]]. constructor.
    + destruct from; [|destruct H]. destruct H as [<- |[]]. constructor.
    + destruct to; [|destruct H]. destruct H as [<- |[]]. constructor.
    + destruct step; [|destruct H]. destruct H as [<- |[]]. constructor.
Qed.
Lemma in_concat_map {A} (f : expr -> list A) l x : In x (List.concat (map f l)) <-> exists d, In d l /\ In x (f d).
Proof. rewrite <- flat_map_concat_map. apply in_flat_map. Qed.
Lemma fold_concat {A} (f : expr -> list A) fs fi e : ordinary e -> fold_children2 f fs fi e = map f (children e).
Proof.
  unfold children, fold_children. intro O. destruct e; destruct O; cbn [fold_children2 opt_list map]; rewrite ?map_map, ?map_app; auto.
  all: try (destruct x; reflexivity). f_equal. destruct from, to, step; reflexivity.
Qed.
Lemma used_ordinary root lv shadow e i : ordinary e ->
  (In i (used_idents root lv shadow e) <-> exists x, sub e x /\ In i (used_idents false false shadow x)).
Proof.
  intro O. transitivity (In i (List.concat (map (used_idents false false shadow) (children e)))).
  - rewrite <- (fold_concat _ (fun _ => []) (fun i => if mem_bytes (i_name i) shadow then [] else [i])) by auto. destruct e; destruct O; reflexivity.
  - rewrite in_concat_map. split; intros (x & X & H); exists x; split; auto; [now apply ordinary_children|now apply ordinary_children in X].
Qed.
Lemma plain_ordinary coll lv e i : ordinary e ->
  (In i (plain_idents coll lv e) <-> exists x, sub e x /\ In i (plain_idents coll false x)).
Proof.
  intro O. transitivity (In i (List.concat (map (plain_idents coll false) (children e)))).
  - rewrite <- (fold_concat _ (fun _ => []) (fun i => [i])) by auto. destruct e; destruct O; reflexivity.
  - rewrite in_concat_map. split; intros (x & X & H); exists x; split; auto; [now apply ordinary_children|now apply ordinary_children in X].
Qed.
Lemma reads_ordinary t e i : ordinary e -> (In i (reads t e) <-> exists x, sub e x /\ In i (reads false x)).
Proof.
  intro O. transitivity (In i (List.concat (map (reads false) (children e)))).
  - rewrite <- (fold_concat _ (fun _ => []) (fun i => [])) by auto. destruct e; destruct O; try reflexivity; cbn [reads fold_children2 opt_list List.concat];
      rewrite ?app_nil_r, ?flat_map_concat_map; try reflexivity; try (destruct x; cbn; rewrite ?app_nil_r; reflexivity).
    destruct from, to, step; cbn; rewrite ?app_nil_r; reflexivity.
  - rewrite in_concat_map. split; intros (x & X & H); exists x; split; auto; [now apply ordinary_children|now apply ordinary_children in X].
Qed.
Lemma in_if (b : bool) {A} (x : A) l : In x (if b then [] else l) <-> b = false /\ In x l.
Proof. destruct b; split; [intros []|intros [X _]; discriminate X|auto|tauto]. Qed.
Lemma used_sound n e i : seen n e -> i_name i = n -> forall root lv target shadow, (lv = true -> target = true) -> ~ In n shadow ->
  In i (reads target e) -> In i (used_idents root lv shadow e).
Proof.
  intros N E. induction e as [e IH] using sub_ind. intros root lv target shadow L NS H.
  pose proof (all_here _ _ (proj1 N)) as [LS LG]. pose proof (all_here _ _ (proj2 N)) as SE.
  assert (G : forall x target, sub e x -> In i (reads target x) -> ~ In n (scope_of e) -> In i (used_idents false false (scope_of e ++ shadow) x)).
  { intros x t X R NB. apply (IH x X (seen_sub _ _ _ N X) false false t); auto; [discriminate|]. rewrite in_app_iff. tauto. }
  destruct e; try (exfalso; apply LS; exact Logic.I);
    try (apply used_ordinary; [exact Logic.I|]; apply reads_ordinary in H as (d & X & H); [|exact Logic.I]; exists d; split; [exact X|]; exact (G d false X H (fun z => z))).
  - cbn [reads used_idents] in *. apply in_if in H as [-> [-> |[]]]. destruct lv; [specialize (L eq_refl); discriminate|]. cbn [orb].
    destruct (mem_bytes (i_name i) shadow) eqn:M; [apply mem_bytes_In in M; congruence|left; auto].
  - destruct H.
  - (* comprehension *)
    cbn [legal] in LG. destruct LG as (NB & FC & FF). destruct clauses as [|k cl]; [destruct FF|]. destruct k; destruct FF. cbn [seen_expr] in SE.
    set (C := EComp c curly lb e (EForC c0 p k1 pin k2 :: cl) multi e0) in *.
    assert (SV : In n (scope_of C) -> In n (flat_map clause_vars (EForC c0 p k1 pin k2 :: cl))) by (intro; now apply (scope_vars C)).
    assert (U : In i (List.concat (map (used_idents false false (scope_of C ++ shadow)) (e :: EForC c0 p k1 pin k2 :: cl))) -> In i (used_idents root lv shadow C)) by auto.
    apply U. apply in_concat_map. clear U. unfold C in H. cbn [reads] in H. apply in_app_or in H as [H|H].
    + exists (EForC c0 p k1 pin k2). split; [right; left; reflexivity|]. apply (G _ false); [unfold C; constructor; left; reflexivity| |].
      * cbn [reads]. apply in_or_app. auto.
      * intro X. apply SV in X. apply SE in X. apply X. apply in_names. eauto.
    + rewrite (in_without n) in H by auto. destruct H as [H X]. assert (X' : ~ In n (scope_of C)) by auto. apply in_app_or in H as [H|H]; [|apply in_app_or in H as [H|H]].
      * exists e. split; [left; auto|]. apply (G _ false); auto. constructor.
      * exists (EForC c0 p k1 pin k2). split; [right; left; reflexivity|]. apply (G _ false); auto; [unfold C; constructor; left; reflexivity|]. cbn [reads]. apply in_or_app. auto.
      * apply in_flat_map in H as (d & D & H). exists d. split; [right; right; auto|]. apply (G _ false); auto. constructor. right. auto.
  - (* for clause *)
    cbn [reads] in H. change (In i (List.concat [used_idents false false shadow e1; used_idents false false shadow e2])). cbn [List.concat]. rewrite app_nil_r.
    apply in_app_or in H as [H|H]; apply in_or_app; [left; apply (G e1 true)|right; apply (G e2 false)]; auto; constructor.
  - cbn [reads] in H. cbn [used_idents]. apply in_flat_map in H as (d & D & H). apply in_flat_map. exists d. split; auto.
    apply (IH d (sub_list _ _ _ _ _ _ D) (seen_sub _ _ _ N (sub_list _ _ _ _ _ _ D)) false lv target); auto.
  - cbn [reads] in H. cbn [used_idents]. apply in_flat_map in H as (d & D & H). apply in_flat_map. exists d. split; auto.
    apply (IH d (sub_tuple _ _ _ _ _ _ _ _ D) (seen_sub _ _ _ N (sub_tuple _ _ _ _ _ _ _ _ D)) false lv target); auto.
  - cbn [reads] in H. cbn [used_idents]. apply in_or_app. right. apply (G e2 false); auto. constructor.
  - cbn [reads] in H. change (In i (List.concat [used_idents false false shadow e])). cbn [List.concat]. rewrite app_nil_r. apply (G e target); auto. constructor.
  - (* lambda *)
    cbn [legal] in LG. destruct LG as (FP & _). cbn [seen_expr] in SE. set (C := ELambda c p params body) in *.
    assert (U : In i (List.concat (map (used_idents false false (scope_of C ++ shadow)) (params ++ body))) -> In i (used_idents root lv shadow C)) by (rewrite map_app; auto).
    assert (SV : In n (scope_of C) -> In n (flat_map param_name params)).
    { intro X. destruct (scope_vars C _ X FP) as (p0 & P & _ & P'). apply in_flat_map. eauto. }
    apply U. apply in_concat_map. clear U. unfold C in H. cbn [reads] in H. apply in_app_or in H as [H|H].
    + apply in_flat_map in H as (q & Q & H). exists q. split; [apply in_or_app; auto|]. destruct q; try destruct H.
      assert (X : ~ In n (scope_of C)).
      { intro X. apply SV in X. apply SE in X. apply X. apply in_names. exists i. split; auto. apply in_flat_map. exists q2. split; auto. apply in_flat_map. exists (EAssign c0 q1 p0 op lbreak q2). cbn. auto. }
      apply (G _ false); auto. unfold C. constructor. auto.
    + rewrite (in_without n) in H by auto. destruct H as [H X]. apply in_flat_map in H as (d & D & H). exists d. split; [apply in_or_app; auto|]. apply (G _ false); auto.
      unfold C. now apply sub_lbody.
Qed.
Lemma plain_sound n e i : seen n e -> i_name i = n -> forall coll lv target, (lv = true -> target = true) ->
  In i (reads target e) -> In i (plain_idents coll lv e).
Proof.
  intros N E. induction e as [e IH] using sub_ind. intros coll lv target L H.
  pose proof (all_here _ _ (proj1 N)) as [LS LG].
  assert (G : forall x target, sub e x -> In i (reads target x) -> In i (plain_idents coll false x)).
  { intros x t X R. apply (IH x X (seen_sub _ _ _ N X) coll false t); auto. discriminate. }
  destruct e; try (exfalso; apply LS; exact Logic.I);
    try (apply plain_ordinary; [exact Logic.I|]; apply reads_ordinary in H as (d & X & H); [|exact Logic.I]; exists d; split; [exact X|]; exact (G d false X H));
    try (apply (used_sound n _ i N E true false target []); auto; discriminate).
  - cbn [reads plain_idents] in *. apply in_if in H as [-> H]. destruct lv; [specialize (L eq_refl); discriminate|]. exact H.
  - cbn [reads] in H. change (In i (List.concat [plain_idents coll false e1; plain_idents coll false e2])). cbn [List.concat]. rewrite app_nil_r.
    apply in_app_or in H as [H|H]; apply in_or_app; [left; apply (G e1 true)|right; apply (G e2 false)]; auto; constructor.
  - cbn [reads] in H. cbn [plain_idents]. apply in_flat_map in H as (d & D & H). apply in_flat_map. exists d. split; auto.
    apply (IH d (sub_list _ _ _ _ _ _ D) (seen_sub _ _ _ N (sub_list _ _ _ _ _ _ D)) coll lv target); auto.
  - cbn [reads] in H. cbn [plain_idents]. apply in_flat_map in H as (d & D & H). apply in_flat_map. exists d. split; auto.
    apply (IH d (sub_tuple _ _ _ _ _ _ _ _ D) (seen_sub _ _ _ N (sub_tuple _ _ _ _ _ _ _ _ D)) coll lv target); auto.
  - cbn [reads] in H. cbn [plain_idents]. apply in_or_app. right. apply (G e2 false); auto. constructor.
  - cbn [reads] in H. change (In i (List.concat [plain_idents coll false e])). cbn [List.concat]. rewrite app_nil_r. apply (G e target); auto. constructor.
Qed.

(** ** Nothing is invented in an expression *)
Definition real (n : bytes) (e : expr) : Prop := all_in legal e /\ all_in (real_expr n) e.
Lemma real_sub n e x : real n e -> sub e x -> real n x.
Proof. intros [A B] X. split; eapply all_sub; eauto. Qed.
Lemma ordinary_flat e x : legal e -> sub e x -> ordinary e -> ~ is_clause x.
Proof. intros [_ L] X O. destruct e; destruct O; cbn [legal] in L; auto. Qed.
Lemma no_vars e n : ~ is_clause e -> ~ In n (clause_vars e).
Proof. intro H. destruct e; cbn; auto. elim H. exact Logic.I. Qed.
Lemma used_complete n e i : real n e -> i_name i = n -> forall shadow,
  In i (used_idents false false shadow e) -> (In i (reads false e) \/ In n (clause_vars e)) /\ ~ In n shadow.
Proof.
  intros N E. induction e as [e IH] using sub_ind. intros shadow H.
  pose proof (all_here _ _ (proj1 N)) as LE. pose proof (all_here _ _ (proj2 N)) as RE. pose proof LE as [LS LG].
  assert (G : forall x shadow, sub e x -> In i (used_idents false false shadow x) -> (In i (reads false x) \/ In n (clause_vars x)) /\ ~ In n shadow).
  { intros x t X R. apply (IH x X (real_sub _ _ _ N X)); auto. }
  destruct e; try (exfalso; apply LS; exact Logic.I);
    try (apply used_ordinary in H as (d & X & H); [|exact Logic.I]; destruct (G d _ X H) as [[R|R] NS]; [|elim (no_vars d n (ordinary_flat _ _ LE X Logic.I) R)];
         split; [|exact NS]; left; apply reads_ordinary; [exact Logic.I|]; exists d; auto).
  - cbn [reads used_idents orb] in *. apply in_if in H as [M [-> |[]]]. split; [left; left; auto|]. intro X. rewrite <- E in X. apply mem_bytes_In in X. congruence.
  - destruct H.
  - (* comprehension *)
    cbn [legal] in LG. destruct LG as (NB & FC & FF). destruct clauses as [|k cl]; [destruct FF|]. destruct k; destruct FF. cbn [real_expr] in RE.
    set (C := EComp c curly lb e (EForC c0 p k1 pin k2 :: cl) multi e0) in *.
    change (In i (List.concat (map (used_idents false false (scope_of C ++ shadow)) (e :: EForC c0 p k1 pin k2 :: cl)))) in H.
    apply in_concat_map in H as (d & D & H). assert (X : sub C d) by (unfold C; destruct D as [<- |D]; constructor; auto).
    destruct (G d _ X H) as [R NS]. rewrite in_app_iff in NS. split; [|tauto]. left.
    assert (NV : ~ In n (flat_map clause_vars (EForC c0 p k1 pin k2 :: cl))).
    { intro V. apply NS. left. apply in_flat_map in V as (k & K & V). unfold C. cbn [scope_of]. apply in_flat_map. exists k. split; auto.
      rewrite Forall_forall in RE. apply RE in K. destruct k; auto. now apply bound_lvalue. }
    unfold C. cbn [reads]. destruct D as [<- |[<- |D]].
    + apply in_or_app. right. rewrite (in_without n) by auto. split; auto. apply in_or_app. left. destruct R as [R|R]; auto. elim (no_vars e n NB R).
    + destruct R as [R|R]; [|elim NV; apply in_flat_map; eexists; split; [left; reflexivity|auto]]. cbn [reads] in R. apply in_app_or in R as [R|R]; apply in_or_app; auto.
      right. rewrite (in_without n) by auto. split; auto. rewrite !in_app_iff. auto.
    + apply in_or_app. right. rewrite (in_without n) by auto. split; auto. rewrite !in_app_iff. right. right. apply in_flat_map. exists d. split; auto. destruct R as [R|R]; auto.
      elim NV. apply in_flat_map. exists d. split; auto. right. auto.
  - (* for clause *)
    cbn [reads]. change (In i (List.concat [used_idents false false shadow e1; used_idents false false shadow e2])) in H. cbn [List.concat] in H. rewrite app_nil_r in H.
    cbn [legal] in LG. apply in_app_or in H as [H|H].
    + destruct (G e1 shadow) as [[R|R] NS]; auto; [constructor| |exfalso; revert R; apply no_vars; apply LG; constructor]. split; auto.
      apply reads_target in R as [R|R]; [left; apply in_or_app; auto|right]. cbn. congruence.
    + destruct (G e2 shadow) as [[R|R] NS]; auto; [constructor| |exfalso; revert R; apply no_vars; apply LG; constructor]. split; auto. left. apply in_or_app. auto.
  - cbn [used_idents] in H. apply in_flat_map in H as (d & D & H). destruct (G d _ (sub_list _ _ _ _ _ _ D) H) as [[R|R] NS]; [|exfalso; revert R; apply no_vars; apply LG; constructor; auto].
    split; auto. left. cbn [reads]. apply in_flat_map. eauto.
  - cbn [used_idents] in H. apply in_flat_map in H as (d & D & H). destruct (G d _ (sub_tuple _ _ _ _ _ _ _ _ D) H) as [[R|R] NS]; [|exfalso; revert R; apply no_vars; apply LG; constructor; auto].
    split; auto. left. cbn [reads]. apply in_flat_map. eauto.
  - cbn [used_idents app] in H. destruct (G e2 shadow) as [[R|R] NS]; auto; [constructor|]. exfalso; revert R; apply no_vars; apply LG.
  - change (In i (List.concat [used_idents false false shadow e])) in H. cbn [List.concat] in H. rewrite app_nil_r in H.
    destruct (G e shadow) as [[R|R] NS]; auto; [constructor|]. exfalso; revert R; apply no_vars; apply LG; constructor.
  - (* lambda *)
    cbn [legal] in LG. destruct LG as (FP & FB). cbn [real_expr] in RE. set (C := ELambda c p params body) in *.
    change (In i (List.concat (map (used_idents false false (scope_of C ++ shadow)) params ++ map (used_idents false false (scope_of C ++ shadow)) body))) in H.
    rewrite <- map_app in H. apply in_concat_map in H as (d & D & H). rewrite Forall_forall in FP, FB, RE. apply in_app_or in D as [D|D].
    + assert (X : sub C d) by (unfold C; now apply sub_lparam). destruct (G d _ X H) as [R NS]. rewrite in_app_iff in NS. split; [|tauto]. left. unfold C. cbn [reads]. apply in_or_app. left.
      apply in_flat_map. exists d. split; auto. pose proof (FP d D) as PD. pose proof (RE d D) as RD. destruct d; try destruct PD.
      * cbn in R. destruct R as [[-> |[]]|[]]. elim NS. left. unfold C. cbn [scope_of]. apply in_flat_map. exists (EIdent i). split; auto. cbn. auto.
      * destruct x as [x|]; [destruct x; destruct PD|cbn in R; tauto]. cbn in R. destruct R as [[-> |[]]|[]]. destruct RD as [[]|RD]. cbn in RD. tauto.
      * cbn [reads clause_vars] in R. destruct R as [R|[]]. auto.
    + assert (X : sub C d) by (unfold C; now apply sub_lbody). destruct (G d _ X H) as [[R|R] NS]; [|exfalso; revert R; apply no_vars; auto]. rewrite in_app_iff in NS. split; [|tauto]. left.
      unfold C. cbn [reads]. apply in_or_app. right. rewrite (in_without n) by auto. split; [apply in_flat_map; eauto|]. intro V. apply NS. left. apply in_flat_map in V as (q & Q & V).
      unfold C. cbn [scope_of]. apply in_flat_map. exists q. split; auto. destruct (RE q Q) as [I1|I1]; [|tauto]. destruct q; destruct I1. exact V.
Qed.
Lemma plain_complete n e i : real n e -> i_name i = n -> ~ is_clause e -> forall coll lv,
  (coll = false -> forall c j a op b y, inside e (EAssign c (EIdent j) a op b y) -> i_name j <> n) -> (lv = true -> unwrapped n e) ->
  In i (plain_idents coll lv e) -> In i (reads lv e).
Proof.
  intros N E. induction e as [e IH] using sub_ind. intros NC coll lv K U H.
  pose proof (all_here _ _ (proj1 N)) as LE. pose proof LE as [LS LG].
  assert (G : forall x, sub e x -> ~ is_clause x -> In i (plain_idents coll false x) -> In i (reads false x)).
  { intros x X Cx R. apply (IH x X (real_sub _ _ _ N X)) with (coll := coll); auto; [|discriminate]. intros. eapply K; eauto. eapply inside_sub; eauto. }
  assert (GC : forall x, sub e x -> ~ is_clause x -> (lv = true -> unwrapped n x) -> In i (plain_idents coll lv x) -> In i (reads lv x)).
  { intros x X Cx Ux R. apply (IH x X (real_sub _ _ _ N X)) with (coll := coll); auto. intros. eapply K; eauto. eapply inside_sub; eauto. }
  destruct e; try (exfalso; apply LS; exact Logic.I); try (exfalso; apply NC; exact Logic.I);
    try (apply plain_ordinary in H as (d & X & H); [|exact Logic.I]; apply reads_ordinary; [exact Logic.I|]; exists d; split; auto; apply G; auto; exact (ordinary_flat _ _ LE X Logic.I)).
  - exact H.
  - destruct H.
  - change (In i (used_idents false false [] (EComp c curly lb e clauses multi e0))) in H. apply (used_complete n) in H as [[R|R] _]; auto. destruct R.
  - cbn [plain_idents] in H. apply in_flat_map in H as (d & D & H). cbn [reads]. apply in_flat_map. exists d. split; auto. apply GC; auto; [now constructor|apply LG; now constructor|].
    intro Z. specialize (U Z). cbn [unwrapped] in U. clear - U D. induction l as [|y l IHl]; [destruct D|]. destruct U as [U1 U2], D as [<- |D]; auto.
  - cbn [plain_idents] in H. apply in_flat_map in H as (d & D & H). cbn [reads]. apply in_flat_map. exists d. split; auto. apply GC; auto; [now constructor|apply LG; now constructor|].
    intro Z. specialize (U Z). cbn [unwrapped] in U. clear - U D. induction l as [|y l IHl]; [destruct D|]. destruct U as [U1 U2], D as [<- |D]; auto.
  - cbn [plain_idents] in H. destruct LG as [IN NC2]. cbn [reads]. apply in_app_or in H as [H|H].
    + destruct e1; destruct IN. cbn [plain_idents] in H. apply in_if in H as [Q [-> |[]]]. elim (K Q _ _ _ _ _ _ (in_self _) E).
    + apply G; auto. constructor.
  - change (In i (List.concat [plain_idents coll false e])) in H. cbn [List.concat] in H. rewrite app_nil_r in H. cbn [reads].
    assert (R : In i (reads false e)) by (apply G; auto; [constructor|apply LG; constructor]). destruct lv; auto. apply reads_target in R as [R|R]; auto.
    specialize (U eq_refl). cbn [unwrapped] in U. congruence.
  - change (In i (used_idents false false [] (ELambda c p params body))) in H. apply (used_complete n) in H as [[R|R] _]; auto. destruct R.
Qed.
