(** The analysis of blocks (C64). *)
From Verif Require Import Base BaseProofs Ast Walk WalkSpec AttachTree Flow Scope ScopeSpec ScopeProofs.
Local Open Scope list_scope.

(** ** Simple statements *)
Lemma assign_reads e i : In (Read i) (assign e) <-> In i (reads true e).
Proof.
  induction e as [e IH] using sub_ind. destruct e; cbn [assign].
  all: try (unfold free; rewrite in_map_iff; split; [intros (j & J & H); injection J as ->; exact H|intro H; exists i; auto]; fail).
  - cbn [reads]. split; [intros [H|[]]; discriminate|intros []].
  - cbn [reads]. rewrite !in_flat_map. split; intros (x & X & H); exists x; split; auto; apply (IH x); auto; constructor; auto.
  - cbn [reads]. rewrite !in_flat_map. split; intros (x & X & H); exists x; split; auto; apply (IH x); auto; constructor; auto.
  - cbn [reads]. apply IH. constructor.
Qed.
Lemma assign_binds e n : In (Bind n) (assign e) <-> In n (bound e).
Proof.
  induction e as [e IH] using sub_ind. destruct e; cbn [assign bound].
  all: try (rewrite in_map_iff; split; [intros (j & J & H); discriminate J|intros []]; fail).
  - split; (intros [H|[]]; [left; congruence]).
  - rewrite !in_flat_map. split; intros (x & X & H); exists x; split; auto; apply (IH x); auto; constructor; auto.
  - rewrite !in_flat_map. split; intros (x & X & H); exists x; split; auto; apply (IH x); auto; constructor; auto.
  - apply IH. constructor.
Qed.
Lemma eval_reads e i : In (Read i) (eval e) <-> In i (free e).
Proof. unfold eval. rewrite in_map_iff. split; [intros (j & J & H); injection J as ->; auto|eauto]. Qed.
Lemma eval_binds e n : ~ In (Bind n) (eval e).
Proof. unfold eval. rewrite in_map_iff. intros (j & J & H). discriminate. Qed.

(** An event before which nothing binds [n]. *)
Definition early (n : bytes) (i : ident) (tr : list event) : Prop := exists p q, tr = p ++ Read i :: q /\ ~ In (Bind n) p.
Lemma early_app n i a b : early n i (a ++ b) <-> early n i a \/ (~ In (Bind n) a /\ early n i b).
Proof.
  split.
  - intros (p & q & E & H). revert p E H. induction a as [|x a IH]; intros p E H; cbn [app] in E.
    + right. split; [intros []|]. exists p, q. auto.
    + destruct p as [|y p]; cbn [app] in E; injection E as -> E.
      * left. exists [], a. split; auto.
      * destruct (IH p E) as [(p' & q' & -> & H')|[N G]]; [intro; apply H; right; auto| |].
        -- left. exists (y :: p'), q'. split; auto. intros [Z|Z]; auto. apply H. left; auto.
        -- right. split; auto. intros [Z|Z]; auto. apply H. left; auto.
  - intros [(p & q & -> & H)|[N (p & q & -> & H)]].
    + exists p, (q ++ b). split; auto. rewrite <- app_assoc. reflexivity.
    + exists (a ++ p), q. split; [rewrite <- app_assoc; reflexivity|]. rewrite in_app_iff. tauto.
Qed.
Lemma early_in n i tr : early n i tr -> In (Read i) tr.
Proof. intros (p & q & -> & _). apply in_elt. Qed.
Lemma in_early n i tr : In (Read i) tr -> ~ In (Bind n) tr -> early n i tr.
Proof. intros H N. apply in_split in H as (p & q & ->). exists p, q. split; auto. intro Z. apply N. apply in_or_app. auto. Qed.
Lemma early_nil n i : ~ early n i [].
Proof. intro H. apply early_in in H. destruct H. Qed.

Lemma seen_expr_of n s e : legal_stmt s -> seen_stmt n s -> In e (exprs_of s) -> seen n e.
Proof. intros (L & _ & _) (N & _) H. split; intros x X; eauto. Qed.
Lemma real_expr_of n s e : legal_stmt s -> real_stmt n s -> In e (exprs_of s) -> real n e.
Proof. intros (L & _ & _) (N & _) H. split; intros x X; eauto. Qed.

Lemma def_idents c p ps b m a k l ty i : Forall (is_param names_one) ps ->
  (In i (idents_of (EDef c p ps b m a k l ty)) <-> exists y, In y (flat_map default ps) /\ In i (plain_idents false false y)).
Proof.
  intro F. unfold idents_of. cbn [plain_idents]. induction F as [|x ps X F IH]; cbn [flat_map]; [split; [intros []|intros (y & [] & _)]|].
  rewrite in_app_iff. etransitivity; [apply or_iff_compat_l, IH|]. setoid_rewrite in_app_iff.
  destruct x; try (now destruct X).
  - cbn. split; [intros [[]|(y & Y & H)]; eauto|intros (y & [[]|Y] & H); eauto].
  - cbn. split; [intros [[]|(y & Y & H)]; eauto|intros (y & [[]|Y] & H); eauto].
  - destruct x; [destruct e; destruct X|]; cbn; (split; [intros [[]|(y & Y & H)]; eauto|intros (y & [[]|Y] & H); eauto]).
  - destruct x1; destruct X; cbn; (split; [intros [H|(y & Y & H)]; eauto|intros (y & [[<- |[]]|Y] & H); eauto]).
Qed.
Lemma simple_other s : match s with EAssign _ _ _ _ _ _ | EDef _ _ _ _ _ _ _ _ _ | ELoad _ _ _ _ _ _ _ | EFor _ _ _ _ _ | EIf _ _ _ _ _ _ | EReturn _ _ _ => False | _ => True end ->
  simple s = eval s /\ exprs_of s = [s].
Proof. destruct s; auto; intros []. Qed.

Lemma simple_sound n i s : i_name i = n -> legal_stmt s -> seen_stmt n s -> ~ is_jump s -> early n i (simple s) -> In i (idents_of s).
Proof.
  intros E L N J R. apply early_in in R.
  assert (O : simple s = eval s /\ exprs_of s = [s] -> In i (idents_of s)).
  { intros [A B]. rewrite A in R. apply eval_reads in R. apply (plain_sound n s i) with (target := false); auto. apply (seen_expr_of _ _ _ L N). rewrite B. left; auto. }
  destruct s; try (apply O; split; reflexivity); try (now elim J).
  - assert (S1 : seen n s1) by (apply (seen_expr_of _ _ _ L N); cbn; auto). assert (S2 : seen n s2) by (apply (seen_expr_of _ _ _ L N); cbn; auto).
    unfold idents_of. cbn [plain_idents]. apply in_or_app. cbn [simple] in R. apply in_app_or in R as [R|R]; [|apply in_app_or in R as [R|R]].
    + destruct (beq op %"=") eqn:B; [destruct R|]. apply eval_reads in R. destruct N as [_ [_ [N|N]]]; [subst op; rewrite beq_refl in B; discriminate|].
      left. apply (plain_sound n s1 i S1 E true true true); auto. apply reads_target in R as [R|R]; auto. rewrite E in R. tauto.
    + apply eval_reads in R. right. apply (plain_sound n s2 i S2 E true false false); auto.
    + apply assign_reads in R. left. apply (plain_sound n s1 i S1 E true true true); auto.
  - cbn [simple] in R. apply in_map_iff in R as (j & R & _). discriminate.
  - cbn [simple] in R. apply in_app_or in R as [R|[R|[]]]; [|discriminate]. apply def_idents; [apply L|]. apply in_flat_map in R as (q & Q & R).
    destruct q; try destruct R. apply eval_reads in R. exists q2. assert (IQ : In q2 (flat_map default params)) by (apply in_flat_map; eexists; split; [exact Q|left; auto]). split; auto.
    apply (plain_sound n q2 i) with (target := false); auto. apply (seen_expr_of _ _ _ L N). exact IQ.
Qed.
Lemma idents_load fr to i : In i (List.concat (zip_load (fun i => [i]) fr to)) -> In i fr \/ In i to.
Proof.
  revert to. induction fr as [|a fr IH]; intros [|b to] H; try destruct H. { subst. left; left; auto. }
  cbn [zip_load List.concat app] in H. destruct H as [H|H]; [subst; right; left; auto|]. apply IH in H as [H|H]; [left; right|right; right]; auto.
Qed.
Lemma simple_complete n i s : i_name i = n -> legal_stmt s -> real_stmt n s -> ~ is_jump s -> In i (idents_of s) -> early n i (simple s).
Proof.
  intros E L N J R.
  assert (P : forall e coll, In e (exprs_of s) -> (coll = false -> forall c j a op b y, inside e (EAssign c (EIdent j) a op b y) -> i_name j <> n) -> In i (plain_idents coll false e) -> In i (free e)).
  { intros e coll X K Q. apply (plain_complete n e i) with (coll := coll); auto; [now apply (real_expr_of _ _ _ L N)|apply L; auto|discriminate]. }
  assert (O : simple s = eval s /\ exprs_of s = [s] -> early n i (simple s)).
  { intros [A B]. rewrite A. apply in_early; [|apply eval_binds]. apply eval_reads. apply (P s true); auto; [|discriminate]. rewrite B. left; auto. }
  destruct s; try (apply O; split; reflexivity); try (now elim J).
  - unfold idents_of in R. cbn [plain_idents] in R. cbn [simple]. destruct N as [N1 [UW NB]]. apply in_app_or in R as [R|R]; apply early_app.
    + right. split; [destruct (beq op %"="); [auto|apply eval_binds]|]. apply early_app. right. split; [apply eval_binds|].
      assert (T : In i (reads true s1)).
      { apply (plain_complete n s1 i) with (coll := true); auto; [split; intros x X; [eapply (proj1 L)|eapply N1]; eauto; cbn; auto|apply (proj1 (proj2 L)); cbn; auto|discriminate]. }
      apply in_early; [now apply assign_reads|]. rewrite assign_binds. intro Z. apply NB in Z. apply Z. apply in_names. eauto.
    + right. split; [destruct (beq op %"="); [auto|apply eval_binds]|]. apply early_app. left. apply in_early; [|apply eval_binds]. apply eval_reads. apply (P s2 true); auto; [cbn; auto|discriminate].
  - change (In i (List.concat (zip_load (fun i => [i]) from to))) in R. destruct N as [_ [N1 N2]]. apply idents_load in R as [R|R]; exfalso; [apply N1|apply N2]; apply in_names; eauto.
  - apply def_idents in R as (y & Y & R); [|apply L]. cbn [simple]. apply early_app. left. assert (F : In i (free y)).
    { apply (P y false); auto. intros _ c0 j a op b z Z. apply in_flat_map in Y as (q & Q & Y). destruct N as [_ [_ N]]. eapply N; eauto. }
    apply in_early.
    + apply in_flat_map in Y as (q & Q & Y). apply in_flat_map. exists q. split; auto. destruct q; try (now destruct Y). destruct Y as [<- |[]]. now apply eval_reads.
    + intro Z. apply in_flat_map in Z as (q & Q & Z). destruct q; try (now destruct Z). now apply eval_binds in Z.
Qed.

(** ** Blocks *)
Definition holds (P : expr -> Prop) (l : list expr) : Prop := forall s, own l s -> P s.
Lemma own_incl l l' s : (forall x, In x l -> own l' x) -> own l s -> own l' s.
Proof. intros H O. induction O; auto; [eapply own_for|eapply own_true|eapply own_false]; eauto. Qed.
Lemma holds_cons P s l : holds P (s :: l) -> holds P [s] /\ holds P l.
Proof. intro H. split; intros x X; apply H; (eapply own_incl; [|exact X]); intros y Y; [destruct Y as [<- |[]]|]; apply own_here; [left|right]; auto. Qed.
Lemma holds_here P s : holds P [s] -> P s.
Proof. intro H. apply H. apply own_here. left; auto. Qed.
Lemma holds_for P c p v x b : holds P [EFor c p v x b] -> holds P b.
Proof. intros H y Y. apply H. eapply own_incl; [|exact Y]. intros z Z. eapply own_for; [apply own_here; left; reflexivity|auto]. Qed.
Lemma holds_true P c p x t ep f : holds P [EIf c p x t ep f] -> holds P t.
Proof. intros H y Y. apply H. eapply own_incl; [|exact Y]. intros z Z. eapply own_true; [apply own_here; left; reflexivity|auto]. Qed.
Lemma holds_false P c p x t ep f : holds P [EIf c p x t ep f] -> holds P f.
Proof. intros H y Y. apply H. eapply own_incl; [|exact Y]. intros z Z. eapply own_false; [apply own_here; left; reflexivity|auto]. Qed.

Lemma uninit_for init c p v x b : uninit1 init (EFor c p v x b) = Found false [] (fresh init (idents_of x) ++ w_calls (uninit_block (lvalue_names v ++ init) [] b)).
Proof. reflexivity. Qed.
Lemma uninit_if init c p x t ep f : uninit1 init (EIf c p x t ep f) =
  let r1 := uninit_block init [] t in
  let r2 := uninit_block init [] f in
  let calls := fresh init (idents_of x) ++ w_calls r1 ++ w_calls r2 in
  if w_ended r1 && w_ended r2 then Found true [] calls
  else if w_ended r1 then Found false (w_new r2) calls
  else if w_ended r2 then Found false (w_new r1) calls
  else Found false (filter (fun n => mem_bytes n (w_new r2)) (w_new r1)) calls.
Proof. reflexivity. Qed.
Lemma uninit_if_calls init c p x t ep f : w_calls (uninit1 init (EIf c p x t ep f)) =
  fresh init (idents_of x) ++ w_calls (uninit_block init [] t) ++ w_calls (uninit_block init [] f).
Proof. rewrite uninit_if. cbv zeta. destruct (w_ended (uninit_block init [] t)), (w_ended (uninit_block init [] f)); reflexivity. Qed.
Lemma uninit_simple init s : ~ is_jump s ->
  w_ended (uninit1 init s) = false /\ w_calls (uninit1 init s) = fresh init (idents_of s) /\ w_new (uninit1 init s) = match s with EAssign _ x _ _ _ _ => lvalue_names x | _ => [] end.
Proof.
  intro J. destruct s; auto; try (now elim J).
  - cbn [uninit1 is_jump] in *. destruct (beq tok %"break") eqn:B; [apply beq_eq in B; tauto|]. destruct (beq tok %"continue") eqn:C; [apply beq_eq in C; tauto|]. auto.
  - cbn [uninit1]. destruct (is_fail s) eqn:F; auto. destruct s; try discriminate. cbn in F. apply beq_eq in F. elim J. exact F.
Qed.

Scheme path_ind2 := Minimality for path Sort Prop
  with path1_ind2 := Minimality for path1 Sort Prop
  with rounds_ind2 := Minimality for rounds Sort Prop.
Combined Scheme path_mut from path_ind2, path1_ind2, rounds_ind2.

Lemma through_ended :
  (forall l tr k, path l tr k -> k = Through -> forall init loc, w_ended (uninit_block init loc l) = false) /\
  (forall s tr k, path1 s tr k -> k = Through -> forall init, w_ended (uninit1 init s) = false) /\
  (forall v b tr k, rounds v b tr k -> True).
Proof.
  apply path_mut; auto; try discriminate.
  - intros s l tr tr' k _ IH1 _ IH2 K init loc. cbn [uninit_block]. rewrite IH1 by auto. cbn [w_ended]. auto.
  - intros s l tr k _ _ N K. contradiction.
  - intros s J _ init. apply uninit_simple. exact J.
  - intros c p x t ep f tr k _ IH K init. rewrite uninit_if. cbv zeta. rewrite IH by auto. cbn [andb]. destruct (w_ended (uninit_block init [] f)); reflexivity.
  - intros c p x t ep f tr k _ IH K init. rewrite uninit_if. cbv zeta. rewrite IH by auto. rewrite andb_false_r. destruct (w_ended (uninit_block init [] t)); reflexivity.
Qed.

Section Sound.
  Context (n : bytes) (i : ident) (E : i_name i = n).
  Definition okay (s : expr) : Prop := legal_stmt s /\ seen_stmt n s.
  Lemma okay_check s e init : okay s -> In e (exprs_of s) -> ~ In n init -> In i (free e) -> In i (fresh init (idents_of e)).
  Proof. intros [L N] X I1 F. apply (in_fresh n); auto. split; auto. apply (plain_sound n e i) with (target := false); auto. eapply seen_expr_of; eauto. Qed.
  Lemma sound_path :
    (forall l tr k, path l tr k -> holds okay l -> forall init loc, ~ In n init ->
       (early n i tr -> In i (w_calls (uninit_block init loc l))) /\
       (k = Through -> ~ In (Bind n) tr -> ~ In n loc -> ~ In n (w_new (uninit_block init loc l)))) /\
    (forall s tr k, path1 s tr k -> holds okay [s] -> forall init, ~ In n init ->
       (early n i tr -> In i (w_calls (uninit1 init s))) /\
       (k = Through -> ~ In (Bind n) tr -> ~ In n (w_new (uninit1 init s)))) /\
    (forall v b tr k, rounds v b tr k -> holds okay b -> unwrapped n v -> ~ In n (names (reads true v)) -> forall init, ~ In n init ->
       early n i tr -> In i (w_calls (uninit_block (lvalue_names v ++ init) [] b))).
  Proof.
    apply path_mut.
    - intros _ init loc I1. split; [intro H; now apply early_nil in H|auto].
    - intros s l tr tr' k P1 IH1 _ IH2 H init loc I1. apply holds_cons in H as [H1 H2]. cbn [uninit_block]. rewrite (proj1 (proj2 through_ended) _ _ _ P1 eq_refl init). cbn [w_calls w_new].
      destruct (IH1 H1 init I1) as [A1 B1].
      assert (I2 : ~ In (Bind n) tr -> ~ In n (w_new (uninit1 init s) ++ init)) by (intros Z; rewrite in_app_iff; specialize (B1 eq_refl Z); tauto). split.
      + intro R. apply in_or_app. apply early_app in R as [R|[Z R]]; [left; auto|right]. apply IH2; auto.
      + intros K Z L. rewrite in_app_iff in Z. assert (Z1 : ~ In (Bind n) tr) by tauto. apply IH2; auto. rewrite in_app_iff. specialize (B1 eq_refl Z1). tauto.
    - intros s l tr k P1 IH1 K H init loc I1. apply holds_cons in H as [H1 H2]. destruct (IH1 H1 init I1) as [A1 B1]. split; [|intro; contradiction].
      intro R. specialize (A1 R). cbn [uninit_block]. destruct (w_ended (uninit1 init s)); cbn [w_calls]; auto. apply in_or_app. auto.
    - intros s J H init I1. apply holds_here in H as [L N]. destruct (uninit_simple init s J) as (_ & A & B). rewrite A, B. split.
      + intro R. apply (in_fresh n); auto. split; auto. apply (simple_sound n); auto.
      + intros _ Z. destruct s; auto. intro X. apply Z. cbn [simple]. rewrite !in_app_iff. right. right. apply assign_binds. now apply lvalue_bound.
    - intros c j p args en k m F H init I1. apply holds_here in H as [L N]. split; [|discriminate]. intro R. apply early_in in R. apply eval_reads in R.
      destruct N as [_ N]. elim (N F). apply in_names. eauto.
    - intros c p x H init I1. apply holds_here in H. split; [|discriminate]. intro R. apply early_in in R. cbn [uninit1 w_calls].
      destruct x as [x|]; [|destruct R]. apply eval_reads in R. apply (okay_check _ x init) in H; auto; [|cbn; auto]. unfold idents_of in *. cbn [plain_idents fold_children2 opt_list List.concat]. now rewrite app_nil_r.
    - intros c p H init I1. split; [intro R; now apply early_nil in R|discriminate].
    - intros c p H init I1. split; [intro R; now apply early_nil in R|discriminate].
    - intros c p x t ep f tr k P IH H init I1. pose proof (holds_here _ _ H) as O. apply holds_true in H. destruct (IH H init [] I1) as [A B]. split.
      + intro R. rewrite uninit_if_calls. rewrite !in_app_iff. apply early_app in R as [R|[_ R]]; [left|auto]. apply early_in, eval_reads in R. eapply okay_check; eauto. cbn; auto.
      + intros K Z. rewrite in_app_iff in Z. assert (Z2 : ~ In (Bind n) tr) by tauto. specialize (B K Z2 (fun z => z)). rewrite uninit_if. cbv zeta. rewrite (proj1 through_ended _ _ _ P K). cbn [andb].
        destruct (w_ended (uninit_block init [] f)); cbn [w_new]; auto. rewrite filter_In. tauto.
    - intros c p x t ep f tr k P IH H init I1. pose proof (holds_here _ _ H) as O. apply holds_false in H. destruct (IH H init [] I1) as [A B]. split.
      + intro R. rewrite uninit_if_calls. rewrite !in_app_iff. apply early_app in R as [R|[_ R]]; [left|auto]. apply early_in, eval_reads in R. eapply okay_check; eauto. cbn; auto.
      + intros K Z. rewrite in_app_iff in Z. assert (Z2 : ~ In (Bind n) tr) by tauto. specialize (B K Z2 (fun z => z)). rewrite uninit_if. cbv zeta. rewrite (proj1 through_ended _ _ _ P K). rewrite andb_false_r.
        destruct (w_ended (uninit_block init [] t)); cbn [w_new]; auto. rewrite filter_In. intros [_ X]. apply mem_bytes_In in X. contradiction.
    - intros c p v x b tr k P IH H init I1. pose proof (holds_here _ _ H) as O. apply holds_for in H. rewrite uninit_for. cbn [w_calls w_new]. split; [|auto].
      intro R. apply in_or_app. destruct O as [L N]. destruct N as [N1 [N2 N3]]. apply early_app in R as [R|[_ R]]; [left|right; apply IH; auto].
      apply early_in, eval_reads in R. apply (okay_check (EFor c p v x b)); auto; [split; auto; split; auto|cbn; auto].
    - intros v b _ _ _ init _ R. now apply early_nil in R.
    - intros v b tr k tr' k' _ IH1 _ _ IH2 H U N init I1 R. apply early_app in R as [R|[Z R]].
      { apply early_in, assign_reads in R. elim N. apply in_names. eauto. }
      apply early_app in R as [R|[Z2 R]]; [|apply IH2; auto]. apply IH1; auto. rewrite in_app_iff. intros [X|X]; auto. apply Z. apply assign_binds. now apply lvalue_bound.
    - intros v b tr _ IH1 H U N init I1 R. apply early_app in R as [R|[Z R]].
      { apply early_in, assign_reads in R. elim N. apply in_names. eauto. }
      apply IH1; auto. rewrite in_app_iff. intros [X|X]; auto. apply Z. apply assign_binds. now apply lvalue_bound.
    - intros v b tr _ IH1 H U N init I1 R. apply early_app in R as [R|[Z R]].
      { apply early_in, assign_reads in R. elim N. apply in_names. eauto. }
      apply IH1; auto. rewrite in_app_iff. intros [X|X]; auto. apply Z. apply assign_binds. now apply lvalue_bound.
  Qed.
End Sound.

Section Complete.
  Context (n : bytes) (i : ident) (E : i_name i = n).
  Definition sure (s : expr) : Prop := legal_stmt s /\ real_stmt n s.
  Definition exact1 (s : expr) : Prop := forall init,
    (In i (w_calls (uninit1 init s)) -> ~ In n init /\ exists tr k, path1 s tr k /\ early n i tr) /\
    (w_ended (uninit1 init s) = false -> ~ In n (w_new (uninit1 init s)) -> exists tr, path1 s tr Through /\ ~ In (Bind n) tr).
  Definition exact (l : list expr) : Prop := forall init loc,
    (In i (w_calls (uninit_block init loc l)) -> ~ In n init /\ exists tr k, path l tr k /\ early n i tr) /\
    (w_ended (uninit_block init loc l) = false -> ~ In n (w_new (uninit_block init loc l)) -> ~ In n loc /\ exists tr, path l tr Through /\ ~ In (Bind n) tr).
  Lemma some_path1 s : exists tr k, path1 s tr k.
  Proof.
    induction s as [s IH] using sub_ind.
    assert (B : forall l, (forall x, In x l -> sub s x) -> exists tr k, path l tr k).
    { induction l as [|x l IHl]; intro H; [exists [], Through; constructor|]. destruct (IH x (H x (or_introl eq_refl))) as (tr & k & P).
      destruct IHl as (tr' & k' & P'); [intros; apply H; right; auto|]. destruct k; [eexists _, _; eapply p_next; eauto|..]; eexists _, _; eapply p_stop; eauto; discriminate. }
    destruct s; try (eexists _, _; apply p_simple; intros []; fail).
    - destruct (beq tok %"break") eqn:B1; [apply beq_eq in B1 as ->; eexists _, _; apply p_break|]. destruct (beq tok %"continue") eqn:C1; [apply beq_eq in C1 as ->; eexists _, _; apply p_continue|].
      eexists _, _. apply p_simple. cbn. apply beq_neq in B1, C1. tauto.
    - destruct (is_fail s) eqn:F.
      + destruct s; try discriminate. cbn in F. apply beq_eq in F. eexists _, _. apply p_fail. exact F.
      + eexists _, _. apply p_simple. cbn. destruct s; auto. cbn in F. apply beq_neq in F. auto.
    - eexists _, _. apply p_return.
    - eexists _, _. apply p_for. constructor.
    - destruct (B tru) as (tr & k & P); [intros; now constructor|]. eexists _, _. apply p_true. exact P.
  Qed.
  Lemma some_path l : exists tr k, path l tr k.
  Proof.
    induction l as [|x l (tr' & k' & P')]; [exists [], Through; constructor|]. destruct (some_path1 x) as (tr & k & P).
    destruct k; [eexists _, _; eapply p_next; eauto|..]; eexists _, _; eapply p_stop; eauto; discriminate.
  Qed.
  Lemma before_rest s l tr k : path1 s tr k -> early n i tr -> exists tr k, path (s :: l) tr k /\ early n i tr.
  Proof.
    intros P R. destruct (some_path l) as (tr' & k' & P'). destruct k; [eexists _, _; split; [eapply p_next; eauto|apply early_app; auto]|..]; eexists _, _; (split; [eapply p_stop; eauto; discriminate|auto]).
  Qed.
  Lemma exact_block l : (forall s, In s l -> exact1 s) -> exact l.
  Proof.
    induction l as [|s l IH]; intros H init loc; cbn [uninit_block].
    - cbn [w_calls w_ended w_new]. split; [intros []|]. intros _ N. split; auto. exists []. split; [constructor|auto].
    - destruct (H s (or_introl eq_refl) init) as [A1 B1]. assert (IH' := IH (fun x X => H x (or_intror X))).
      destruct (w_ended (uninit1 init s)) eqn:W; cbn [w_calls w_ended w_new].
      + split; [|discriminate]. intro C. apply A1 in C as [I1 (tr & k & P & R)]. split; auto. eapply before_rest; eauto.
      + destruct (IH' (w_new (uninit1 init s) ++ init) (w_new (uninit1 init s) ++ loc)) as [A2 B2]. split.
        * intro C. apply in_app_or in C as [C|C].
          -- apply A1 in C as [I1 (tr & k & P & R)]. split; auto. eapply before_rest; eauto.
          -- apply A2 in C as [I1 (tr & k & P & R)]. rewrite in_app_iff in I1. split; [tauto|]. destruct (B1 eq_refl) as (tr1 & P1 & Z); [tauto|].
             eexists _, _. split; [eapply p_next; eauto|]. apply early_app. auto.
        * intros W2 N2. destruct (B2 W2 N2) as [N3 (tr & P & Z)]. rewrite in_app_iff in N3. split; [tauto|]. destruct (B1 eq_refl) as (tr1 & P1 & Z1); [tauto|].
          eexists. split; [eapply p_next; eauto|]. rewrite in_app_iff. tauto.
  Qed.
  Lemma sure_check s e init : sure s -> In e (exprs_of s) -> In i (fresh init (idents_of e)) -> ~ In n init /\ early n i (eval e).
  Proof.
    intros [L N] X C. rewrite (in_fresh n) in C by auto. destruct C as [C I1]. split; auto. apply in_early; [|apply eval_binds]. apply eval_reads.
    apply (plain_complete n e i) with (coll := true); auto; [now apply (real_expr_of n s)|apply L; auto|discriminate|discriminate].
  Qed.
  Lemma exact_stmt s : holds sure [s] -> exact1 s.
  Proof.
    induction s as [s IH] using sub_ind. intros H init. pose proof (holds_here _ _ H) as [L N].
    assert (SP : ~ is_jump s -> (In i (w_calls (uninit1 init s)) -> ~ In n init /\ exists tr k, path1 s tr k /\ early n i tr) /\
      (w_ended (uninit1 init s) = false -> ~ In n (w_new (uninit1 init s)) -> exists tr, path1 s tr Through /\ ~ In (Bind n) tr)).
    { intro J. destruct (uninit_simple init s J) as (_ & A & B). rewrite A, B. split.
      - intro C. rewrite (in_fresh n) in C by auto. destruct C as [C I1]. split; auto. eexists _, _. split; [apply p_simple; exact J|]. now apply (simple_complete n).
      - intros _ Z. exists (simple s). split; [now apply p_simple|]. destruct s; try (apply eval_binds).
        + cbn [simple]. rewrite !in_app_iff. rewrite assign_binds. intros [X|[X|X]]; [destruct (beq op %"="); [auto|now apply eval_binds in X]|now apply eval_binds in X|].
          apply Z. apply bound_lvalue; auto. apply N.
        + cbn [simple]. intro X. apply in_map_iff in X as (j & X & Y). injection X as X. apply N. apply in_names. eauto.
        + cbn [simple]. rewrite in_app_iff. intros [X|[X|[]]]; [|injection X as X; apply N; auto]. apply in_flat_map in X as (q & Q & X). destruct q; try (now destruct X). now apply eval_binds in X. }
    destruct s; try (apply SP; intros []; fail).
    - destruct (beq tok %"break") eqn:B1; [cbn [uninit1]; rewrite B1; split; [intros []|discriminate]|].
      destruct (beq tok %"continue") eqn:C1; [cbn [uninit1]; rewrite C1, orb_true_r; split; [intros []|discriminate]|].
      apply SP. cbn. apply beq_neq in B1, C1. tauto.
    - destruct (is_fail s) eqn:F; [cbn [uninit1]; rewrite F; split; [intros []|discriminate]|]. apply SP. cbn. destruct s; auto. cbn in F. apply beq_neq in F. auto.
    - cbn [uninit1 w_calls w_ended]. split; [|discriminate]. intro C. destruct x as [x|]; [|destruct C].
      unfold idents_of in C. cbn [plain_idents fold_children2 opt_list List.concat] in C. rewrite app_nil_r in C.
      apply (sure_check (EReturn c p (Some x))) in C as [I1 R]; [|split; auto|cbn; auto]. split; auto. eexists _, _. split; [apply p_return|exact R].
    - rewrite uninit_for. cbn [w_calls w_ended w_new]. split.
      + intro C. apply in_app_or in C as [C|C].
        * apply (sure_check (EFor c p s1 s2 body)) in C as [I1 R]; [|split; auto|cbn; auto]. split; auto. eexists _, _. split; [apply p_for; constructor|]. apply early_app. auto.
        * assert (X : exact body).
          { apply exact_block. intros y Y. apply IH; [now constructor|]. intros z Z. apply H. eapply own_incl; [|exact Z]. intros w [<- |[]]. eapply own_for; [apply own_here; left; reflexivity|auto]. }
          destruct (X (lvalue_names s1 ++ init) []) as [A _]. apply A in C as [I1 (tr & k & P & R)]. rewrite in_app_iff in I1. split; [tauto|].
          assert (Z : ~ In (Bind n) (assign s1)) by (rewrite assign_binds; intro Z; apply I1; left; apply bound_lvalue; auto; apply N).
          assert (RR : forall t, early n i (eval s2 ++ assign s1 ++ tr ++ t)) by (intro t; apply early_app; right; split; [apply eval_binds|]; apply early_app; right; split; auto; apply early_app; auto).
          destruct k.
          -- eexists _, _. split; [apply p_for; eapply r_again; [exact P|auto|apply r_none]|apply RR].
          -- eexists _, _. split; [apply p_for; eapply r_broke; exact P|]. specialize (RR []). now rewrite app_nil_r in RR.
          -- eexists _, _. split; [apply p_for; eapply r_again; [exact P|auto|apply r_none]|apply RR].
          -- eexists _, _. split; [apply p_for; eapply r_out; exact P|]. specialize (RR []). now rewrite app_nil_r in RR.
      + intros _ _. exists (eval s2 ++ []). split; [apply p_for; constructor|]. rewrite app_nil_r. apply eval_binds.
    - assert (X1 : exact tru).
      { apply exact_block. intros y Y. apply IH; [now constructor|]. intros z Z. apply H. eapply own_incl; [|exact Z]. intros w [<- |[]]. eapply own_true; [apply own_here; left; reflexivity|auto]. }
      assert (X2 : exact fls).
      { apply exact_block. intros y Y. apply IH; [now apply sub_false|]. intros z Z. apply H. eapply own_incl; [|exact Z]. intros w [<- |[]]. eapply own_false; [apply own_here; left; reflexivity|auto]. }
      destruct (X1 init []) as [A1 B1]. destruct (X2 init []) as [A2 B2]. split.
      + rewrite uninit_if_calls. rewrite !in_app_iff. intros [C|[C|C]].
        * apply (sure_check (EIf c p s tru elsep fls)) in C as [I1 R]; [|split; auto|cbn; auto]. split; auto. destruct (some_path tru) as (tr & k & P). eexists _, _. split; [eapply p_true; exact P|].
          apply early_app. auto.
        * apply A1 in C as [I1 (tr & k & P & R)]. split; auto. eexists _, _. split; [eapply p_true; exact P|]. apply early_app. right. split; auto. apply eval_binds.
        * apply A2 in C as [I1 (tr & k & P & R)]. split; auto. eexists _, _. split; [eapply p_false; exact P|]. apply early_app. right. split; auto. apply eval_binds.
      + assert (G1 : w_ended (uninit_block init [] tru) = false -> ~ In n (w_new (uninit_block init [] tru)) -> exists tr, path1 (EIf c p s tru elsep fls) tr Through /\ ~ In (Bind n) tr).
        { intros W Z. destruct (B1 W Z) as [_ (tr & P & Z2)]. eexists. split; [eapply p_true; exact P|]. rewrite in_app_iff. intros [X|X]; auto. now apply eval_binds in X. }
        assert (G2 : w_ended (uninit_block init [] fls) = false -> ~ In n (w_new (uninit_block init [] fls)) -> exists tr, path1 (EIf c p s tru elsep fls) tr Through /\ ~ In (Bind n) tr).
        { intros W Z. destruct (B2 W Z) as [_ (tr & P & Z2)]. eexists. split; [eapply p_false; exact P|]. rewrite in_app_iff. intros [X|X]; auto. now apply eval_binds in X. }
        rewrite uninit_if. cbv zeta. destruct (w_ended (uninit_block init [] tru)) eqn:W1, (w_ended (uninit_block init [] fls)) eqn:W2; cbn [andb w_ended w_new]; auto; try discriminate.
        intros _ Z. destruct (mem_bytes n (w_new (uninit_block init [] tru))) eqn:M.
        * apply G2; auto. intro M2. apply Z. apply filter_In. split; [now apply mem_bytes_In|]. now apply mem_bytes_In.
        * apply G1; auto. intro M2. apply mem_bytes_In in M2. congruence.
  Qed.
  Lemma exact_all l : holds sure l -> exact l.
  Proof. intro H. apply exact_block. intros s X. apply exact_stmt. intros y Y. apply H. eapply own_incl; [|exact Y]. intros z [<- |[]]. now apply own_here. Qed.
End Complete.
