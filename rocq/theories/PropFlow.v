(** C55: unreachable statements and missing return values. *)
From Verif Require Import Base BaseProofs Ast Walk WalkProofs Flow FlowSpec FlowProofs.

(** ** Walking statements *)
Lemma sub_height x d : In d (blocks x) -> height d < height x.
Proof.
  intros H. apply height_child. destruct x; try (destruct H; fail); unfold children, fold_children; cbn [blocks fold_children2] in *; rewrite ?map_id.
  - induction stmts as [|[y|] l IH]; cbn [flat_map opt_list app] in *; auto.
  - apply in_or_app. right. auto.
  - right; right; auto.
  - right. auto.
Qed.
Lemma visit_unfold stop stk e : visit_stmts stop stk e =
  (e, stk) :: if stop e stk then [] else flat_map (visit_stmts stop (stk ++ [e])) (blocks e).
Proof.
  destruct e; cbn [visit_stmts blocks flat_map]; destruct (stop _ _); auto; f_equal.
  - generalize (stk ++ [EFile c m stmts]). intros k. induction stmts as [|[y|] l IH]; cbn [flat_map app]; auto. f_equal; auto.
  - rewrite flat_map_app. reflexivity.
Qed.
Lemma stmt_in_trans e x d : stmt_in e x -> stmt_in x d -> stmt_in e d.
Proof. intros H H'. induction H'; auto. eapply si_sub; eauto. Qed.
Lemma visited n : forall e stk d, height e <= n -> ((exists s, In (d, s) (visit_stmts (fun _ _ => false) stk e)) <-> stmt_in e d).
Proof.
  induction n as [|n IH]; intros e stk d Hn; [rewrite height_unfold in Hn; lia|]. rewrite visit_unfold. cbn [In]. split.
  - intros (s & [X|X]); [injection X as -> ->; constructor|]. apply in_flat_map in X as (x & Hx & X).
    pose proof (sub_height _ _ Hx). assert (S1 : stmt_in x d) by (apply (IH x (stk ++ [e])); [lia|eauto]).
    eapply stmt_in_trans; eauto. eapply si_sub; eauto. constructor.
  - intros X. assert (G : d = e \/ exists x, In x (blocks e) /\ stmt_in x d).
    { clear -X. induction X as [|x d X IHX H]; auto. right. destruct IHX as [->|(y & Hy & Sy)]; [exists d; split; auto; constructor|].
      exists y. split; auto. eapply si_sub; eauto. }
    destruct G as [->|(x & Hx & S1)]; [exists stk; left; auto|]. pose proof (sub_height _ _ Hx).
    apply (IH x (stk ++ [e])) in S1 as (s & S1); [|lia]. exists s. right. apply in_flat_map. eauto.
Qed.
Lemma visited_stmts f d : (exists s, In (d, s) (visit_stmts (fun _ _ => false) [] f)) <-> stmt_in f d.
Proof. apply (visited (height f)). auto. Qed.

(** ** Unreachable statements *)
(** A statement is executed by some run of its function exactly when it does not come, in its block, at or
    after a reported one (nor inside such a statement). *)
Theorem C55_unreachable_exact :
  forall body q st, stmt_at body q = Some st ->
    ((exists tr o, runs body tr o /\ In q tr) <->
     (forall p, In p (snd (findUnreachableStatements body)) -> ~ covers p q)).
Proof.
  intros body q st A. split.
  - intros (tr & o & X & Hq) p Hp C. apply covers_cov in C. destruct (proj1 unreach_sound _ _ _ _ X) as [_ S1]. eapply S1; eauto.
  - intros U. eapply unreach_complete; eauto. intros p Hp C. eapply U; eauto. apply covers_cov; auto.
Qed.
Print Assumptions C55_unreachable_exact.
(** The result of the search: can control reach the end of the block? *)
Theorem C55_unreachable_end :
  forall body, fst (findUnreachableStatements body) = false <-> exists tr, runs body tr Completes.
Proof.
  intros body. split.
  - intros F. eapply (goes_on_gen (fun _ => True) body); eauto. intros s _ _ Fs. eapply goes_on; eauto.
  - intros (tr & X). destruct (proj1 unreach_sound _ _ _ _ X) as [S1 _]. unfold findUnreachableStatements. destruct (fst _); auto. exfalso. apply S1; auto.
Qed.
Print Assumptions C55_unreachable_end.
Lemma unreach_valid n : (forall s, height s <= n -> forall b q, In (Into b :: q) (snd (unreach1 s)) -> exists l' st, branch_of b s = Some l' /\ stmt_at l' q = Some st).
Proof.
  induction n as [|n IH]; intros s Hn b q H; [rewrite height_unfold in Hn; lia|].
  assert (BL : forall l, (forall x, In x l -> height x <= n) -> forall i u q, In q (snd (unreach_block i l u)) -> exists st, at_from i l q = Some st).
  { clear -IH. induction l as [|x l IHl]; intros HL i u q H; [destruct H|]. rewrite at_from_cons. destruct u.
    - destruct H as [<-|[]]. rewrite Nat.eqb_refl. eauto.
    - rewrite unreach_cons in H. cbn [snd] in H. apply in_app_or in H as [H|H].
      + apply in_map_iff in H as (q' & <- & H). destruct (unreach1_into _ _ H) as (b & q'' & ->). rewrite Nat.eqb_refl.
        destruct (IH x (HL x (or_introl eq_refl)) b q'' H) as (l' & st & -> & ->). eauto.
      + destruct (block_at _ _ _ _ H) as (j & q' & -> & L). destruct (IHl (fun y Hy => HL y (or_intror Hy)) (S i) _ _ H) as (st & A).
        destruct q' as [|[|b'] q']; [| |]; rewrite ?(proj2 (Nat.eqb_neq j i)) by lia; eauto.
        cbn [at_from] in A. destruct (Nat.ltb j (S i)); discriminate. }
  destruct s; try (destruct H; fail).
  - rewrite unreach_for in H. cbn [snd] in H. apply in_map_iff in H as (q' & X & H). injection X as <- <-. exists body.
    destruct (BL body) with (i := 0) (u := false) (q := q') as (st & A); auto; [|rewrite at_from0 in A; eauto].
    intros y Hy. apply (block_height c p s1 s2) in Hy. lia.
  - rewrite unreach_if in H. cbn [snd] in H. apply in_app_or in H as [H|H]; apply in_map_iff in H as (q' & X & H); injection X as <- <-.
    + exists tru. destruct (BL tru) with (i := 0) (u := false) (q := q') as (st & A); auto; [|rewrite at_from0 in A; eauto].
      intros y Hy. apply (true_height c p s tru elsep fls) in Hy. lia.
    + exists fls. destruct (BL fls) with (i := 0) (u := false) (q := q') as (st & A); auto; [|rewrite at_from0 in A; eauto].
      intros y Hy. apply (false_height c p s tru elsep fls) in Hy. lia.
Qed.
Lemma reported_exists body q : In q (snd (findUnreachableStatements body)) -> exists st, stmt_at body q = Some st.
Proof.
  intros H. pose (w := EFor no_com no_pos (EList no_com no_pos [] (End no_com no_pos) false) (EList no_com no_pos [] (End no_com no_pos) false) body).
  destruct (unreach_valid (height w) w (le_n _) InBody q) as (l' & st & B & A).
  - unfold w. rewrite unreach_for. cbn [snd]. apply in_map. exact H.
  - injection B as <-. eauto.
Qed.
(** The lint: every finding is a statement of a function of the file (at any depth, also of a nested
    function) that no run of that function executes. *)
Theorem C55_unreachable_warning :
  forall f d q, In (d, q) (unreachableStatementWarning f) <->
    exists c p params body name colon k m ty, d = EDef c p params body name colon k m ty /\
      stmt_in f d /\ In q (snd (findUnreachableStatements body)).
Proof.
  intros f d q. unfold unreachableStatementWarning. rewrite in_flat_map. split.
  - intros ((d' & s) & V & H). cbn [fst] in H. destruct d'; cbn [def_body] in H; try (destruct H; fail).
    apply in_map_iff in H as (q' & X & H). injection X as <- <-. repeat eexists; eauto. apply visited_stmts. eauto.
  - intros (c & p & params & body & name & colon & k & m & ty & -> & Si & H). apply visited_stmts in Si as (s & V).
    eexists. split; [exact V|]. cbn [fst def_body]. apply in_map. auto.
Qed.
Print Assumptions C55_unreachable_warning.
Theorem C55_unreachable_sound :
  forall f d q, In (d, q) (unreachableStatementWarning f) ->
    exists c p params body name colon k m ty, d = EDef c p params body name colon k m ty /\ stmt_in f d /\
      (exists st, stmt_at body q = Some st) /\ forall tr o, runs body tr o -> ~ In q tr.
Proof.
  intros f d q H. apply C55_unreachable_warning in H as (c & p & params & body & name & colon & k & m & ty & -> & Si & H).
  exists c, p, params, body, name, colon, k, m, ty. split; auto. split; auto. destruct (reported_exists _ _ H) as (st & A).
  split; [eauto|]. intros tr o X Hq. apply (proj1 (C55_unreachable_exact body q st A) (ex_intro _ tr (ex_intro _ o (conj X Hq))) q H).
  assert (E : exists pre i, q = pre ++ [At i]).
  { clear -A. revert body A. induction q as [q IH] using (well_founded_induction (Wf_nat.well_founded_ltof _ (@List.length step))). intros body A.
    destruct q as [|[i|b] q]; try discriminate. destruct q as [|[|b] q]; try discriminate; [exists [], i; auto|].
    cbn [stmt_at] in A. destruct (nth_error body i) as [s|]; [|discriminate]. destruct (branch_of b s) as [l'|]; [|discriminate].
    destruct (IH q) with (body := l') as (pre & j & ->); auto; [unfold Wf_nat.ltof; cbn; lia|]. exists (At i :: Into b :: pre), j. auto. }
  destruct E as (pre & i & ->). exists pre, i, i, []. auto.
Qed.
Print Assumptions C55_unreachable_sound.

(** ** Missing return values *)
Lemma returns_for c p v x body : returns1 (EFor c p v x body) = (false, map (cons (Into InBody)) (snd (returns_block 0 body false))).
Proof. reflexivity. Qed.
Lemma returns_if c p e tru ep fls : returns1 (EIf c p e tru ep fls) =
  (fst (returns_block 0 tru false) && fst (returns_block 0 fls false),
   map (cons (Into InTrue)) (snd (returns_block 0 tru false)) ++ map (cons (Into InFalse)) (snd (returns_block 0 fls false))).
Proof.
  change (returns1 (EIf c p e tru ep fls)) with
   (let (t1, r1) := returns_block 0 tru false in let (t2, r2) := returns_block 0 fls false in
    (t1 && t2, map (cons (Into InTrue)) r1 ++ map (cons (Into InFalse)) r2)).
  destruct (returns_block 0 tru false), (returns_block 0 fls false). reflexivity.
Qed.
Lemma returns_cons i x l t : returns_block i (x :: l) t =
  (fst (returns_block (S i) l (t || fst (returns1 x))),
   map (cons (At i)) (snd (returns1 x)) ++ snd (returns_block (S i) l (t || fst (returns1 x)))).
Proof.
  cbn [returns_block]. destruct (returns1 x) as [t' r]. cbn [fst snd]. destruct (returns_block (S i) l (t || t')). reflexivity.
Qed.
Lemma returns_flag l : forall i t, returns_block i l t = (t || fst (returns_block i l false), snd (returns_block i l false)).
Proof.
  induction l as [|x l IH]; intros i t; [cbn; rewrite orb_false_r; auto|]. rewrite !returns_cons. rewrite (IH (S i) (t || _)), (IH (S i) (false || _)).
  cbn [fst snd]. rewrite orb_false_l, !orb_assoc. reflexivity.
Qed.
Definition bare_return (s : expr) : Prop := exists c p, s = EReturn c p None.
Lemma returns_spec n : forall s, height s <= n -> forall q, In q (snd (returns1 s)) <->
  (q = [] /\ bare_return s) \/ exists b q' l' st, q = Into b :: q' /\ branch_of b s = Some l' /\ stmt_at l' q' = Some st /\ bare_return st.
Proof.
  induction n as [|n IH]; intros s Hn q; [rewrite height_unfold in Hn; lia|].
  assert (BL : forall l, (forall x, In x l -> height x <= n) -> forall i q, In q (snd (returns_block i l false)) <-> exists st, at_from i l q = Some st /\ bare_return st).
  { clear -IH. induction l as [|x l IHl]; intros HL i q.
    - split; [intros []|]. intros (st & A & _). destruct q as [|[j|] q]; try discriminate. cbn [at_from] in A. destruct (Nat.ltb j i); [discriminate|].
      destruct q as [|[|b] q]; cbn [stmt_at] in A; try discriminate; rewrite nth_error_nil in A; discriminate.
    - rewrite returns_cons, returns_flag. cbn [snd]. rewrite in_app_iff, in_map_iff, (IHl (fun y Hy => HL y (or_intror Hy))).
      rewrite at_from_cons. assert (Hx := HL x (or_introl eq_refl)). split.
      + intros [(q' & <- & H)|(st & A & B)].
        * apply (IH x Hx) in H as [[-> H]|(b & q'' & l' & st & -> & Bb & A & B)]; rewrite Nat.eqb_refl; [eauto|rewrite Bb; eauto].
        * exists st. split; auto. destruct q as [|[j|] q]; try discriminate. assert (j <> i).
          { intros ->. cbn [at_from] in A. rewrite (proj2 (Nat.ltb_lt i (S i))) in A by lia. discriminate. }
          destruct q as [|[|b] q]; rewrite ?(proj2 (Nat.eqb_neq j i)) by auto; auto. cbn [at_from] in A. destruct (Nat.ltb j (S i)); discriminate.
      + intros (st & A & B). destruct q as [|[j|] q]; try discriminate. destruct q as [|[|b] q]; try discriminate.
        * destruct (Nat.eqb_spec j i) as [->|]; [|eauto]. injection A as ->. left. exists []. split; auto. apply (IH st Hx). auto.
        * destruct (Nat.eqb_spec j i) as [->|]; [|eauto]. left. destruct (branch_of b x) as [l'|] eqn:Bb; [|discriminate].
          exists (Into b :: q). split; auto. apply (IH x Hx). right. eauto 10. }
  assert (NB : forall s, bare_return s -> forall b, branch_of b s = None) by (intros ? (c & p & ->) []; reflexivity).
  destruct s; try (split; [intros []|intros [[_ (c' & p' & X)]|([] & q' & l' & st & _ & X & _)]; discriminate]).
  - destruct x as [x|]; cbn [returns1 snd].
    + split; [intros []|intros [[_ (c' & p' & X)]|([] & q' & l' & st & _ & X & _)]; discriminate].
    + split; [intros [<-|[]]; left; split; auto; repeat eexists|]. intros [[-> _]|([] & q' & l' & st & _ & X & _)]; [left; auto|discriminate..].
  - rewrite returns_for. cbn [snd]. assert (HB : forall y, In y body -> height y <= n) by (intros y Hy; apply (block_height c p s1 s2) in Hy; lia).
    rewrite in_map_iff. split.
    + intros (q' & <- & H). apply (BL body HB) in H as (st & A & B). rewrite at_from0 in A. right. exists InBody, q', body, st. auto.
    + intros [[_ (c' & p' & X)]|(b & q' & l' & st & -> & X & A & B)]; [discriminate|]. destruct b; try discriminate. injection X as <-.
      exists q'. split; auto. apply (BL body HB). rewrite at_from0. eauto.
  - rewrite returns_if. cbn [snd].
    assert (HT : forall y, In y tru -> height y <= n) by (intros y Hy; apply (true_height c p s tru elsep fls) in Hy; lia).
    assert (HF : forall y, In y fls -> height y <= n) by (intros y Hy; apply (false_height c p s tru elsep fls) in Hy; lia).
    rewrite in_app_iff, !in_map_iff. split.
    + intros [(q' & <- & H)|(q' & <- & H)]; right.
      * apply (BL tru HT) in H as (st & A & B). rewrite at_from0 in A. exists InTrue, q', tru, st. auto.
      * apply (BL fls HF) in H as (st & A & B). rewrite at_from0 in A. exists InFalse, q', fls, st. auto.
    + intros [[_ (c' & p' & X)]|(b & q' & l' & st & -> & X & A & B)]; [discriminate|]. destruct b; try discriminate; injection X as <-.
      * left. exists q'. split; auto. apply (BL tru HT). rewrite at_from0. eauto.
      * right. exists q'. split; auto. apply (BL fls HF). rewrite at_from0. eauto.
Qed.
(** The callback is called on exactly the bare returns. *)
Theorem C55_bare_returns :
  forall body q, In q (snd (findReturnsWithoutValue body)) <-> exists c p, stmt_at body q = Some (EReturn c p None).
Proof.
  intros body q. pose (w := EFor no_com no_pos (EList no_com no_pos [] (End no_com no_pos) false) (EList no_com no_pos [] (End no_com no_pos) false) body).
  pose proof (returns_spec (height w) w (le_n _) (Into InBody :: q)) as H. unfold w in H at 1. rewrite returns_for in H. cbn [snd] in H.
  rewrite in_map_iff in H. unfold findReturnsWithoutValue. split.
  - intros Hq. destruct (proj1 H) as [[X _]|(b & q' & l' & st & X & B & A & (c & p & ->))]; [eauto|discriminate|].
    injection X as <- <-. injection B as <-. eauto.
  - intros (c & p & A). destruct (proj2 H) as (q' & X & Hq); [right; exists InBody, q, body, (EReturn c p None); split; auto; split; auto; split; auto; repeat eexists|].
    injection X as ->. auto.
Qed.
Print Assumptions C55_bare_returns.
Lemma plain_returns s : plain s -> fst (returns1 s) = false.
Proof.
  destruct s; cbn [plain returns1 fst]; auto; try (intros []; fail).
  intros H. destruct s; auto. cbn [is_fail]. apply beq_neq. intros E. apply H. unfold fail_call. repeat eexists. auto.
Qed.
Lemma returns_sound :
  (forall i l tr o, exec i l tr o ->
     (fst (returns_block i l false) = true -> o <> Completes) /\
     (o = Returns false -> snd (returns_block i l false) <> [])) /\
  (forall s tr o, exec1 s tr o ->
     (fst (returns1 s) = true -> o <> Completes) /\ (o = Returns false -> snd (returns1 s) <> [])).
Proof.
  assert (MN : forall (b : step) (l : list loc), map (cons b) l = [] -> l = []) by (intros b []; [auto|discriminate]).
  apply exec_mut; try (intros; split; discriminate).
  - intros i s l tr tr' o H1 [A1 A2] H2 [B1 B2]. rewrite returns_cons, returns_flag. cbn [fst snd]. rewrite orb_false_l. split.
    + intros T. apply orb_true_iff in T as [T|T]; [exfalso; apply A1; auto|auto].
    + intros E X. apply app_eq_nil in X as [_ X]. apply B2 in X; auto.
  - intros i s l tr o H1 [A1 A2] No. rewrite returns_cons, returns_flag. cbn [fst snd]. split; auto.
    intros E X. apply app_eq_nil in X as [X _]. apply MN in X. apply A2; auto.
  - intros s H. split; [rewrite plain_returns by auto; discriminate|discriminate].
  - intros c p e tru ep fls tr o H [A1 A2]. rewrite returns_if. cbn [fst snd]. split.
    + intros T. apply andb_true_iff in T as [T1 T2]. auto.
    + intros E X. apply app_eq_nil in X as [X _]. apply MN in X. apply A2; auto.
  - intros c p e tru ep fls tr o H [A1 A2]. rewrite returns_if. cbn [fst snd]. split.
    + intros T. apply andb_true_iff in T as [T1 T2]. auto.
    + intros E X. apply app_eq_nil in X as [_ X]. apply MN in X. apply A2; auto.
  - auto.
  - intros c p v x body tr o H [A1 A2] Ho. rewrite returns_for. cbn [fst snd]. split; [discriminate|].
    intros E X. apply MN in X. apply A2; auto.
Qed.
Lemma falls_gen (P : expr -> Prop) l : (forall s, In s l -> P s -> fst (returns1 s) = false -> exists tr, exec1 s tr Completes) ->
  (forall s, In s l -> P s) ->
  forall i, fst (returns_block i l false) = false -> exists tr, exec i l tr Completes.
Proof.
  intros H HP. induction l as [|s l IH]; intros i F; [exists []; constructor|]. rewrite returns_cons, returns_flag in F. cbn [fst] in F.
  rewrite orb_false_l in F. apply orb_false_iff in F as [F1 F2].
  destruct (H s (or_introl eq_refl) (HP s (or_introl eq_refl)) F1) as (tr & X).
  destruct IH with (i := S i) as (tr' & X'); auto; [intros; apply H; auto; right; auto|intros; apply HP; right; auto|].
  eexists. eapply x_next; eauto.
Qed.
Lemma all_jumps l : (fix all (l : list expr) := match l with [] => True | x :: l' => jumps_in_loops x /\ all l' end) l <-> forall x, In x l -> jumps_in_loops x.
Proof.
  induction l as [|x l IH]; [split; [intros _ y []|auto]|]. split.
  - intros [H1 H2] y [<-|Hy]; auto. apply IH; auto.
  - intros H. split; [apply H; left; auto|apply IH; intros; apply H; right; auto].
Qed.
Lemma falls n : forall s, height s <= n -> jumps_in_loops s -> fst (returns1 s) = false -> exists tr, exec1 s tr Completes.
Proof.
  induction n as [|n IH]; intros s Hn J F; [rewrite height_unfold in Hn; lia|].
  destruct s; try (exists []; apply x_plain; cbn [plain]; auto; intros (c' & i' & p' & a' & en' & k' & m' & X & _); discriminate; fail).
  - exists []. apply x_plain. cbn [plain]. intros (c' & i' & p' & a' & en' & k' & m' & X & Hi). injection X as -> -> -> -> -> -> ->.
    cbn [returns1 fst is_fail] in F. rewrite Hi in F. discriminate.
  - destruct x; discriminate.
  - exists []. apply x_done.
  - cbn [jumps_in_loops] in J. rewrite !all_jumps in J. destruct J as [J1 J2].
    rewrite returns_if in F. cbn [fst] in F. apply andb_false_iff in F as [F|F].
    + destruct (falls_gen (fun s => height s <= n /\ jumps_in_loops s) tru) with (i := 0) as (tr & X); auto;
        [intros y _ [Hy Jy]; auto|intros y Hy; split; auto; apply (true_height c p s tru elsep fls) in Hy; lia|].
      eexists. eapply x_true; eauto.
    + destruct (falls_gen (fun s => height s <= n /\ jumps_in_loops s) fls) with (i := 0) as (tr & X); auto;
        [intros y _ [Hy Jy]; auto|intros y Hy; split; auto; apply (false_height c p s tru elsep fls) in Hy; lia|].
      eexists. eapply x_false; eauto.
Qed.
(** The result of the search says whether a run can fall off the end of the function. *)
Theorem C55_explicit_return :
  forall body, Forall jumps_in_loops body ->
    (fst (findReturnsWithoutValue body) = true <-> forall tr, ~ runs body tr Completes).
Proof.
  intros body J. rewrite Forall_forall in J. split.
  - intros T tr X. destruct (proj1 returns_sound _ _ _ _ X) as [S1 _]. apply S1; auto.
  - intros N. unfold findReturnsWithoutValue. destruct (fst _) eqn:F; auto. exfalso.
    destruct (falls_gen jumps_in_loops body) with (i := 0) as (tr & X); auto; [|eapply N; eauto].
    intros s _ Js Fs. eapply falls; eauto.
Qed.
Print Assumptions C55_explicit_return.

Definition stop_nested (e : expr) (stk : list expr) : bool := is_def e && match stk with [] => false | _ => true end.
Lemma own_incl l l' x : (forall y, In y l -> own_stmt l' y) -> own_stmt l x -> own_stmt l' x.
Proof. intros H O. induction O; auto. eapply own_sub; eauto. Qed.
Lemma own_inv l x : own_stmt l x -> exists y, In y l /\ (x = y \/ (is_def y = false /\ own_stmt (blocks y) x)).
Proof.
  intros O. induction O as [x H|x z O (y & Hy & IH) ND Hz]; [eauto|]. exists y. split; auto. right. destruct IH as [->|[D IH]].
  - split; [destruct y; auto; exfalso; eapply ND; reflexivity|constructor; auto].
  - split; auto. eapply own_sub; eauto.
Qed.
Lemma nested_visit n : forall s stk, height s <= n -> stk <> [] ->
  (existsb (fun es => value_return (fst es)) (visit_stmts stop_nested stk s) = true <->
   value_return s = true \/ (is_def s = false /\ returns_a_value (blocks s))).
Proof.
  induction n as [|n IH]; intros s stk Hn Hs; [rewrite height_unfold in Hn; lia|].
  rewrite visit_unfold. cbn [existsb fst]. rewrite orb_true_iff. unfold stop_nested at 1. destruct stk as [|s0 stk]; [contradiction|].
  rewrite andb_true_r. destruct (is_def s) eqn:D; [cbn [existsb]; intuition discriminate|].
  assert (G : existsb (fun es => value_return (fst es)) (flat_map (visit_stmts stop_nested ((s0 :: stk) ++ [s])) (blocks s)) = true <-> returns_a_value (blocks s)); [|tauto].
  rewrite existsb_exists. setoid_rewrite in_flat_map. split.
  - intros (es & (x & Hx & H) & V).
    assert (E : existsb (fun es => value_return (fst es)) (visit_stmts stop_nested ((s0 :: stk) ++ [s]) x) = true) by (apply existsb_exists; eauto).
    apply IH in E; [|pose proof (sub_height _ _ Hx); lia|discriminate]. destruct E as [E|[Dx (c & p & e & O)]].
    + destruct x; try discriminate. destruct x; [|discriminate]. exists c, p, e. constructor. auto.
    + exists c, p, e. eapply own_incl; [|exact O]. intros y Hy. eapply own_sub; [constructor; exact Hx| |exact Hy]. intros ? ? ? ? ? ? ? ? ? ->. discriminate.
  - intros (c & p & e & O). apply own_inv in O as (y & Hy & O).
    assert (E : existsb (fun es => value_return (fst es)) (visit_stmts stop_nested ((s0 :: stk) ++ [s]) y) = true).
    { apply IH; [pose proof (sub_height _ _ Hy); lia|discriminate|]. destruct O as [<-|[Dy O]]; [left; reflexivity|right; split; auto; exists c, p, e; auto]. }
    apply existsb_exists in E as (es & H & V). eauto.
Qed.
Lemma has_returns_spec c p params body name colon k m ty :
  hasNonEmptyReturns (EDef c p params body name colon k m ty) = true <-> returns_a_value body.
Proof.
  unfold hasNonEmptyReturns. fold stop_nested. rewrite visit_unfold. cbn [fst existsb value_return orb].
  change (stop_nested (EDef c p params body name colon k m ty) []) with false. cbv iota. cbn [blocks app].
  set (d := EDef c p params body name colon k m ty).
  rewrite existsb_exists. setoid_rewrite in_flat_map. split.
  - intros (es & (x & Hx & H) & V).
    assert (E : existsb (fun es => value_return (fst es)) (visit_stmts stop_nested [d] x) = true) by (apply existsb_exists; eauto).
    apply (nested_visit (height x)) in E; [|auto|discriminate]. destruct E as [E|[Dx (c' & p' & e & O)]].
    + destruct x; try discriminate. destruct x; [|discriminate]. eexists _, _, _. constructor. eauto.
    + exists c', p', e. eapply own_incl; [|exact O]. intros y Hy. eapply own_sub; [constructor; exact Hx| |exact Hy]. intros ? ? ? ? ? ? ? ? ? ->. discriminate.
  - intros (c' & p' & e & O). apply own_inv in O as (y & Hy & O).
    assert (E : existsb (fun es => value_return (fst es)) (visit_stmts stop_nested [d] y) = true).
    { apply (nested_visit (height y)); [auto|discriminate|]. destruct O as [<-|[Dy O]]; [left; reflexivity|right; split; auto; exists c', p', e; auto]. }
    apply existsb_exists in E as (es & H & V). eauto.
Qed.
Lemma missing_exact f d o : In (d, o) (missingReturnValueWarning f) <->
    exists c p params body name colon k m ty, d = EDef c p params body name colon k m ty /\ stmt_in f d /\
      returns_a_value body /\
      match o with
      | Some q => exists c p, stmt_at body q = Some (EReturn c p None)
      | None => fst (findReturnsWithoutValue body) = false
      end.
Proof.
  unfold missingReturnValueWarning. rewrite in_flat_map. split.
  - intros ((d' & s) & V & H). cbn [fst] in H. assert (Si : stmt_in f d') by (apply visited_stmts; eauto). destruct d'; cbn [def_body] in H; try (destruct H; fail).
    destruct (hasNonEmptyReturns _) eqn:R; [|destruct H]. apply has_returns_spec in R.
    destruct (findReturnsWithoutValue body) as [t r] eqn:E. apply in_app_or in H as [H|H].
    + apply in_map_iff in H as (q & X & H). injection X as <- <-. exists c, p, params, body, name, colon, compact, multi, ty. split; auto. split; auto. split; auto.
      apply C55_bare_returns. rewrite E. exact H.
    + destruct t; [destruct H|]. destruct H as [X|[]]. injection X as <- <-. exists c, p, params, body, name, colon, compact, multi, ty. rewrite E. auto.
  - intros (c & p & params & body & name & colon & k & m & ty & -> & Si & R & H). apply visited_stmts in Si as (s & V).
    eexists. split; [exact V|]. cbn [fst def_body]. rewrite (proj2 (has_returns_spec _ _ _ _ _ _ _ _ _) R).
    destruct (findReturnsWithoutValue body) as [t r] eqn:E. apply in_or_app. destruct o as [q|].
    + left. apply in_map_iff. exists q. split; auto. apply C55_bare_returns in H. rewrite E in H. auto.
    + right. cbn [fst] in H. rewrite H. left. auto.
Qed.
(** The findings, exactly: the bare returns of functions that also return values, and those of these
    functions that a run can leave at the end. *)
Theorem C55_missing_return_exact :
  forall f d o,
    (forall c p params body name colon k m ty, stmt_in f (EDef c p params body name colon k m ty) -> Forall jumps_in_loops body) ->
    (In (d, o) (missingReturnValueWarning f) <->
     exists c p params body name colon k m ty, d = EDef c p params body name colon k m ty /\ stmt_in f d /\
      returns_a_value body /\
      match o with
      | Some q => exists c p, stmt_at body q = Some (EReturn c p None)
      | None => exists tr, runs body tr Completes
      end).
Proof.
  intros f d o J. rewrite missing_exact.
  assert (E : forall c p params body name colon k m ty, stmt_in f (EDef c p params body name colon k m ty) ->
    (fst (findReturnsWithoutValue body) = false <-> exists tr, runs body tr Completes)).
  { intros c p params body name colon k m ty Si. apply J in Si. split.
    - intros F. destruct (falls_gen jumps_in_loops body) with (i := 0) as (tr & X); auto; [|rewrite Forall_forall in Si; auto|exists tr; exact X].
      intros s _ Js Fs. eapply falls; eauto.
    - intros (tr & X). destruct (fst _) eqn:F; auto. exfalso. eapply (proj1 (C55_explicit_return body Si)); eauto. }
  split; intros (c & p & params & body & name & colon & k & m & ty & -> & Si & R & H); exists c, p, params, body, name, colon, k, m, ty;
    split; auto; split; auto; split; auto; destruct o; auto; eapply E; eauto.
Qed.
Print Assumptions C55_missing_return_exact.
(** A function that returns values and gets no finding returns a value in every run that ends. *)
Theorem C55_missing_return_sound :
  forall f c p params body name colon k m ty,
    let d := EDef c p params body name colon k m ty in
    stmt_in f d -> returns_a_value body -> (forall o, ~ In (d, o) (missingReturnValueWarning f)) ->
    forall tr o, runs body tr o -> o <> Completes /\ o <> Returns false.
Proof.
  intros f c p params body name colon k m ty d Si R N tr o X. destruct (proj1 returns_sound _ _ _ _ X) as [S1 S2]. split.
  - apply S1. change (fst (findReturnsWithoutValue body) = true). destruct (fst (findReturnsWithoutValue body)) eqn:F; auto. exfalso. apply (N None).
    apply missing_exact. exists c, p, params, body, name, colon, k, m, ty. auto.
  - intros E. apply S2 in E. change (snd (returns_block 0 body false)) with (snd (findReturnsWithoutValue body)) in E.
    destruct (snd (findReturnsWithoutValue body)) as [|q r] eqn:F; [contradiction|]. apply (N (Some q)).
    apply missing_exact. exists c, p, params, body, name, colon, k, m, ty. split; auto. split; auto. split; auto.
    apply C55_bare_returns. rewrite F. left; auto.
Qed.
Print Assumptions C55_missing_return_sound.
(** A loop with code after 'break', and an if whose branches both leave the function. *)
Example C55_nontrivial :
  let id n := EIdent (Ident no_com no_pos n) in
  let en := End no_com no_pos in
  let ret v := EReturn no_com no_pos v in
  let br t := EBranch no_com t no_pos in
  let loop b := EFor no_com no_pos (id %"x") (id %"xs") b in
  let cond t f := EIf no_com no_pos (id %"c") t en f in
  let body := [loop [cond [br %"break"; id %"dead"] []; id %"live"; br %"continue"; id %"dead2"];
               cond [ret (Some (id %"x"))] [ECall no_com (id %"fail") no_pos [] en false false]; id %"dead3"; id %"dead4"] in
  findUnreachableStatements body =
    (true, [[At 0; Into InBody; At 0; Into InTrue; At 1]; [At 0; Into InBody; At 3]; [At 2]]) /\
  findReturnsWithoutValue body = (true, []) /\
  findReturnsWithoutValue [loop [ret (Some (id %"x"))]; cond [ret None] []] = (false, [[At 1; Into InTrue; At 0]]).
Proof. repeat split; reflexivity. Qed.
(** The value returned by a nested function does not count; the hypotheses of the theorems hold. *)
Example C55_warning_nontrivial :
  let id n := EIdent (Ident no_com no_pos n) in
  let en := End no_com no_pos in
  let ret v := EReturn no_com no_pos v in
  let cond t f := EIf no_com no_pos (id %"c") t en f in
  let def n b := EDef no_com no_pos [] b n no_pos false false None in
  let b1 := [cond [ret None] [ret (Some (id %"x"))]] in
  let b2 := [def %"g" [ret (Some (id %"x"))]; ret None] in
  let b3 := [cond [ret (Some (id %"x"))] []] in
  let f := EFile no_com (FMeta [] [] [] TypeBzl) [Some (def %"a" b1); Some (def %"b" b2); Some (def %"c" b3)] in
  missingReturnValueWarning f =
    [(def %"a" b1, Some [At 0; Into InTrue; At 0]); (def %"c" b3, None)] /\
  Forall jumps_in_loops b1 /\ Forall jumps_in_loops b2 /\ Forall jumps_in_loops b3.
Proof. cbv zeta. split; [reflexivity|]. repeat split; repeat constructor. Qed.
