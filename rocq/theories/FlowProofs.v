(** Proofs about the control-flow lints. *)
From Verif Require Import Base BaseProofs Ast Walk WalkProofs Flow FlowSpec.

Scheme exec_ind2 := Minimality for exec Sort Prop
  with exec1_ind2 := Minimality for exec1 Sort Prop.
Combined Scheme exec_mut from exec_ind2, exec1_ind2.

Lemma unreach_for c p v x body : unreach1 (EFor c p v x body) = (false, map (cons (Into InBody)) (snd (unreach_block 0 body false))).
Proof. reflexivity. Qed.
Lemma unreach_if c p e tru ep fls : unreach1 (EIf c p e tru ep fls) =
  (fst (unreach_block 0 tru false) && fst (unreach_block 0 fls false),
   map (cons (Into InTrue)) (snd (unreach_block 0 tru false)) ++ map (cons (Into InFalse)) (snd (unreach_block 0 fls false))).
Proof.
  change (unreach1 (EIf c p e tru ep fls)) with
   (let (t1, r1) := unreach_block 0 tru false in let (t2, r2) := unreach_block 0 fls false in
    (t1 && t2, map (cons (Into InTrue)) r1 ++ map (cons (Into InFalse)) r2)).
  destruct (unreach_block 0 tru false), (unreach_block 0 fls false). reflexivity.
Qed.
Lemma unreach_cons i x l : unreach_block i (x :: l) false =
  (fst (unreach_block (S i) l (fst (unreach1 x))),
   map (cons (At i)) (snd (unreach1 x)) ++ snd (unreach_block (S i) l (fst (unreach1 x)))).
Proof.
  cbn [unreach_block]. destruct (unreach1 x) as [t r]. cbn [fst snd]. destruct (unreach_block (S i) l t). reflexivity.
Qed.
Lemma unreach_true i l : unreach_block i l true = (true, match l with [] => [] | _ => [[At i]] end).
Proof. destruct l; reflexivity. Qed.

(** [covers], step by step. *)
Fixpoint cov (p q : loc) : Prop :=
  match p, q with
  | [At i], At j :: _ => i <= j
  | x :: p', y :: q' => x = y /\ cov p' q'
  | _, _ => False
  end.
Lemma covers_cov p q : covers p q <-> cov p q.
Proof.
  split.
  - intros (pre & i & j & rest & -> & -> & L). induction pre as [|x pre IH]; cbn [app cov]; auto.
    destruct x; [|auto]. destruct (pre ++ [At i]) eqn:E; [destruct pre; discriminate|auto].
  - revert q. induction p as [|x p IH]; intros q H; [destruct q; destruct H|].
    assert (G : forall y q', q = y :: q' -> x = y /\ cov p q' -> covers (x :: p) q).
    { intros y q' -> [-> H']. apply IH in H' as (pre & i & j & rest & -> & -> & L). exists (y :: pre), i, j, rest. auto. }
    destruct q as [|y q]; [destruct x, p; destruct H|].
    destruct x as [i|b]; [|eapply G; eauto]. destruct p as [|x' p]; [|eapply G; eauto].
    destruct y as [j|b]; [|destruct H as [H _]; discriminate]. exists [], i, j, q. auto.
Qed.
Lemma cov_into b p c q : cov (Into b :: p) (Into c :: q) <-> b = c /\ cov p q.
Proof. cbn [cov]. split; intros [H1 H2]; split; auto; congruence. Qed.
Lemma cov_at i p j q : p <> [] -> cov (At i :: p) (At j :: q) <-> i = j /\ cov p q.
Proof. intros H. destruct p; [contradiction|]. cbn [cov]. split; intros [H1 H2]; split; auto; congruence. Qed.
Lemma cov_at_nil p j : p <> [] -> cov (At j :: p) [At j] <-> False.
Proof. intros H. destruct p as [|x p]; [contradiction|]. cbn [cov]. split; [intros [_ H1]|intros []]. destruct x, p; destruct H1. Qed.

(** Locations reported inside a statement go into one of its blocks, those of a block start at or after
    its first position. *)
Lemma unreach1_into s : forall p, In p (snd (unreach1 s)) -> exists b p', p = Into b :: p'.
Proof.
  intros p H. destruct s; try (destruct H; fail).
  - rewrite unreach_for in H. cbn [snd] in H. apply in_map_iff in H as (p' & <- & _). eauto.
  - rewrite unreach_if in H. cbn [snd] in H. apply in_app_or in H as [H|H]; apply in_map_iff in H as (p' & <- & _); eauto.
Qed.
Lemma block_at l : forall i u p, In p (snd (unreach_block i l u)) -> exists j p', p = At j :: p' /\ i <= j.
Proof.
  induction l as [|x l IH]; intros i u p H; [destruct H|]. destruct u.
  - destruct H as [<-|[]]. exists i, []. auto.
  - rewrite unreach_cons in H. cbn [snd] in H. apply in_app_or in H as [H|H].
    + apply in_map_iff in H as (p' & <- & _). eauto.
    + apply IH in H as (j & p' & -> & L). exists j, p'. split; auto. lia.
Qed.
Lemma trace_into s tr o : exec1 s tr o -> forall q, In q tr -> exists b q', q = Into b :: q'.
Proof.
  intros H. induction H; intros q Hq; try (destruct Hq; fail);
    try (apply in_map_iff in Hq as (q' & <- & _); eauto; fail).
  apply in_app_or in Hq as [Hq|Hq]; [apply in_map_iff in Hq as (q' & <- & _); eauto|auto].
Qed.
Lemma trace_at i l tr o : exec i l tr o -> forall q, In q tr -> exists j q', q = At j :: q' /\ i <= j.
Proof.
  intros H. induction H; intros q Hq.
  - destruct Hq.
  - destruct Hq as [<-|Hq]; [exists i, []; auto|]. apply in_app_or in Hq as [Hq|Hq].
    + apply in_map_iff in Hq as (q' & <- & _). eauto.
    + apply IHexec in Hq as (j & q' & -> & L). exists j, q'. split; auto. lia.
  - destruct Hq as [<-|Hq]; [exists i, []; auto|]. apply in_map_iff in Hq as (q' & <- & _). eauto.
Qed.
Definition clean (r tr : list loc) : Prop := forall p q, In p r -> In q tr -> ~ cov p q.
Lemma clean_into b r tr : clean r tr -> clean (map (cons (Into b)) r) (map (cons (Into b)) tr).
Proof.
  intros H p q Hp Hq. apply in_map_iff in Hp as (p' & <- & Hp). apply in_map_iff in Hq as (q' & <- & Hq).
  rewrite cov_into. intros [_ C]. eapply H; eauto.
Qed.
Lemma clean_other b c r tr : b <> c -> clean (map (cons (Into b)) r) (map (cons (Into c)) tr).
Proof.
  intros H p q Hp Hq. apply in_map_iff in Hp as (p' & <- & Hp). apply in_map_iff in Hq as (q' & <- & Hq).
  rewrite cov_into. intros [E C]. contradiction.
Qed.
Lemma clean_app r r' tr : clean r tr -> clean r' tr -> clean (r ++ r') tr.
Proof. intros H H' p q Hp Hq. apply in_app_or in Hp as [Hp|Hp]; [apply H|apply H']; auto. Qed.
Lemma clean_app_r r tr tr' : clean r tr -> clean r tr' -> clean r (tr ++ tr').
Proof. intros H H' p q Hp Hq. apply in_app_or in Hq as [Hq|Hq]; [apply H|apply H']; auto. Qed.
Lemma clean_cons i s l u tr : clean (snd (unreach1 s)) tr -> (forall q, In q tr -> exists b q', q = Into b :: q') ->
  clean (map (cons (At i)) (snd (unreach1 s)) ++ snd (unreach_block (S i) l u)) ([At i] :: map (cons (At i)) tr).
Proof.
  intros H Ht p q Hp Hq. apply in_app_or in Hp as [Hp|Hp].
  - apply in_map_iff in Hp as (p' & <- & Hp). destruct (unreach1_into _ _ Hp) as (b & p'' & ->).
    destruct Hq as [<-|Hq]; [rewrite cov_at_nil by discriminate; auto|]. apply in_map_iff in Hq as (q' & <- & Hq).
    rewrite cov_at by discriminate. intros [_ C]. eapply H; eauto.
  - apply block_at in Hp as (j & p' & -> & L). assert (Q : exists q', q = At i :: q') by (destruct Hq as [<-|Hq]; [eauto|apply in_map_iff in Hq as (q' & <- & _); eauto]).
    destruct Q as (q' & ->). destruct p' as [|x p']; [cbn [cov]; lia|]. rewrite cov_at by discriminate. intros [E _]. lia.
Qed.

Lemma plain_goes_on s : plain s -> fst (unreach1 s) = false.
Proof.
  destruct s; cbn [plain unreach1 fst]; auto; try (intros []; fail).
  - intros ->. reflexivity.
  - intros H. destruct s; auto. cbn [is_fail]. apply beq_neq. intros E. apply H. unfold fail_call. repeat eexists. auto.
Qed.
(** Soundness. *)
Lemma unreach_sound :
  (forall i l tr o, exec i l tr o ->
     (fst (unreach_block i l false) = true -> o <> Completes) /\ clean (snd (unreach_block i l false)) tr) /\
  (forall s tr o, exec1 s tr o ->
     (fst (unreach1 s) = true -> o <> Completes) /\ clean (snd (unreach1 s)) tr).
Proof.
  apply exec_mut.
  - intros i. split; [discriminate|]. intros p q [].
  - intros i s l tr tr' o H1 [A1 A2] H2 [B1 B2]. rewrite unreach_cons. cbn [fst snd].
    assert (F : fst (unreach1 s) = false) by (destruct (fst (unreach1 s)); auto; exfalso; apply A1; auto).
    rewrite F. split; auto. change ([At i] :: map (cons (At i)) tr ++ tr') with (([At i] :: map (cons (At i)) tr) ++ tr').
    apply clean_app_r; [apply clean_cons; auto; eapply trace_into; eauto|]. apply clean_app; auto.
    intros p q Hp Hq. apply in_map_iff in Hp as (p' & <- & Hp). destruct (unreach1_into _ _ Hp) as (b & p'' & ->).
    destruct (trace_at _ _ _ _ H2 _ Hq) as (j & q' & -> & L). rewrite cov_at by discriminate. intros [E _]. lia.
  - intros i s l tr o H1 [A1 A2] No. rewrite unreach_cons. cbn [fst snd]. split; auto.
    apply clean_cons; auto. eapply trace_into; eauto.
  - intros s. split; [discriminate|]. intros p q _ [].
  - intros s H. split; [rewrite plain_goes_on by auto; discriminate|]. intros p q _ [].
  - intros. split; [discriminate|]. intros q r _ [].
  - intros. split; [discriminate|]. intros q r _ [].
  - intros. split; [discriminate|]. intros q r _ [].
  - intros. split; [discriminate|]. intros q r _ [].
  - intros c p e tru ep fls tr o H [A1 A2]. rewrite unreach_if. cbn [fst snd]. split.
    + intros T. apply andb_true_iff in T as [T1 T2]. auto.
    + apply clean_app; [apply clean_into; auto|apply clean_other; discriminate].
  - intros c p e tru ep fls tr o H [A1 A2]. rewrite unreach_if. cbn [fst snd]. split.
    + intros T. apply andb_true_iff in T as [T1 T2]. auto.
    + apply clean_app; [apply clean_other; discriminate|apply clean_into; auto].
  - intros. rewrite unreach_for. split; [discriminate|]. intros q r _ [].
  - intros c p v x body tr o tr' o' H [A1 A2] Ho H' [B1 B2]. rewrite unreach_for in *. cbn [fst snd] in *. split; [discriminate|].
    apply clean_app_r; auto. apply clean_into; auto.
  - intros c p v x body tr H [A1 A2]. rewrite unreach_for in *. cbn [fst snd] in *. split; [discriminate|]. apply clean_into; auto.
  - intros c p v x body tr o H [A1 A2] Ho. rewrite unreach_for in *. cbn [fst snd] in *. split; [discriminate|]. apply clean_into; auto.
Qed.

(** Completeness. *)
Lemma nth_error_nil {A} n : nth_error (@nil A) n = None.
Proof. destruct n; reflexivity. Qed.
Lemma block_height c p v x body s : In s body -> height s < height (EFor c p v x body).
Proof. intros H. apply height_child. unfold children, fold_children. cbn. rewrite map_id. auto. Qed.
Lemma true_height c p e tru ep fls s : In s tru -> height s < height (EIf c p e tru ep fls).
Proof. intros H. apply height_child. unfold children, fold_children. cbn. rewrite !map_id. right. apply in_or_app; auto. Qed.
Lemma false_height c p e tru ep fls s : In s fls -> height s < height (EIf c p e tru ep fls).
Proof. intros H. apply height_child. unfold children, fold_children. cbn. rewrite !map_id. right. apply in_or_app; auto. Qed.
Lemma can_start l : forall i, exists tr o, exec i l tr o.
Proof. destruct l as [|s l]; intros i; [exists [], Completes; constructor|]. exists [[At i]], Fails. apply (x_stop i s l [] Fails); [constructor|discriminate]. Qed.
Lemma goes_on_gen (P : expr -> Prop) l : (forall s, In s l -> P s -> fst (unreach1 s) = false -> exists tr, exec1 s tr Completes) ->
  (forall s, In s l -> P s) ->
  forall i, fst (unreach_block i l false) = false -> exists tr, exec i l tr Completes.
Proof.
  intros H HP. induction l as [|s l IH]; intros i F; [exists []; constructor|]. rewrite unreach_cons in F. cbn [fst] in F.
  destruct (fst (unreach1 s)) eqn:E; [rewrite unreach_true in F; discriminate|].
  destruct (H s (or_introl eq_refl) (HP s (or_introl eq_refl)) E) as (tr & X).
  destruct IH with (i := S i) as (tr' & X'); auto; [intros; apply H; auto; right; auto|intros; apply HP; right; auto|].
  eexists. eapply x_next; eauto.
Qed.
Lemma goes_on n : forall s, height s <= n -> fst (unreach1 s) = false -> exists tr, exec1 s tr Completes.
Proof.
  induction n as [|n IH]; intros s Hn F; [rewrite height_unfold in Hn; lia|].
  destruct s; try (exists []; apply x_plain; cbn [plain]; auto; intros (c' & i' & p' & a' & en' & k' & m' & X & _); discriminate; fail);
    try discriminate.
  - exists []. apply x_plain. cbn [plain]. cbn [unreach1 fst] in F. apply negb_false_iff in F. apply beq_eq; auto.
  - exists []. apply x_plain. cbn [plain]. intros (c' & i' & p' & a' & en' & k' & m' & X & Hi). injection X as -> -> -> -> -> -> ->.
    cbn [unreach1 fst is_fail] in F. rewrite Hi in F. discriminate.
  - exists []. apply x_done.
  - rewrite unreach_if in F. cbn [fst] in F. apply andb_false_iff in F as [F|F].
    + destruct (goes_on_gen (fun s => height s <= n) tru) with (i := 0) as (tr & X); auto; [intros y Hy; apply (true_height c p s tru elsep fls) in Hy; lia|].
      eexists. eapply x_true; eauto.
    + destruct (goes_on_gen (fun s => height s <= n) fls) with (i := 0) as (tr & X); auto; [intros y Hy; apply (false_height c p s tru elsep fls) in Hy; lia|].
      eexists. eapply x_false; eauto.
Qed.
Lemma exec_in_for c p v x body tr o q : exec 0 body tr o -> In q tr ->
  exists tr' o', exec1 (EFor c p v x body) tr' o' /\ In (Into InBody :: q) tr'.
Proof.
  intros X Hq. destruct o.
  - exists (map (cons (Into InBody)) tr ++ []), Completes. split; [eapply x_again; eauto; apply x_done|]. rewrite app_nil_r. apply in_map; auto.
  - exists (map (cons (Into InBody)) tr), (Returns value). split; [eapply x_out; eauto|apply in_map; auto].
  - exists (map (cons (Into InBody)) tr), Fails. split; [eapply x_out; eauto|apply in_map; auto].
  - exists (map (cons (Into InBody)) tr), Completes. split; [eapply x_broken; eauto|apply in_map; auto].
  - exists (map (cons (Into InBody)) tr ++ []), Completes. split; [eapply x_again; eauto; apply x_done|]. rewrite app_nil_r. apply in_map; auto.
Qed.
(** Locations of a block whose first position is [i]. *)
Definition at_from (i : nat) (l : list expr) (q : loc) : option expr :=
  match q with At j :: q' => if Nat.ltb j i then None else stmt_at l (At (j - i) :: q') | _ => None end.
Lemma at_from0 l q : at_from 0 l q = stmt_at l q.
Proof. destruct q as [|[j|] q]; try reflexivity. cbn [at_from Nat.ltb Nat.leb]. rewrite Nat.sub_0_r. reflexivity. Qed.
Lemma stmt_at_cons s l j q : stmt_at (s :: l) (At (S j) :: q) = stmt_at l (At j :: q).
Proof. destruct q as [|[|b] q]; reflexivity. Qed.
Lemma at_from_cons i s l q : at_from i (s :: l) q =
  match q with
  | [At j] => if Nat.eqb j i then Some s else at_from (S i) l q
  | At j :: Into b :: q' => if Nat.eqb j i then match branch_of b s with Some l' => stmt_at l' q' | None => None end else at_from (S i) l q
  | _ => None
  end.
Proof.
  assert (G : forall j q', j <> i -> at_from i (s :: l) (At j :: q') = at_from (S i) l (At j :: q')).
  { intros j q' N. unfold at_from. destruct (Nat.ltb j i) eqn:L.
    - apply Nat.ltb_lt in L. rewrite (proj2 (Nat.ltb_lt j (S i))) by lia. auto.
    - apply Nat.ltb_ge in L. rewrite (proj2 (Nat.ltb_ge j (S i))) by lia. replace (j - i) with (S (j - S i)) by lia. apply stmt_at_cons. }
  destruct q as [|[j|b] q]; auto. destruct q as [|[j'|b] q]; auto.
  - destruct (Nat.eqb_spec j i) as [->|N]; [|apply G; auto]. cbn [at_from]. rewrite Nat.ltb_irrefl, Nat.sub_diag. reflexivity.
  - unfold at_from. destruct (Nat.ltb j i); auto.
  - destruct (Nat.eqb_spec j i) as [->|N]; [|apply G; auto]. cbn [at_from]. rewrite Nat.ltb_irrefl, Nat.sub_diag. reflexivity.
Qed.
Definition uncovered (r : list loc) (q : loc) : Prop := forall p, In p r -> ~ cov p q.
Lemma reach_gen n l : (forall s, In s l -> height s <= n) ->
  (forall s b l' q st, In s l -> branch_of b s = Some l' -> stmt_at l' q = Some st -> uncovered (snd (unreach1 s)) (Into b :: q) ->
     exists tr o, exec1 s tr o /\ In (Into b :: q) tr) ->
  forall i q st, at_from i l q = Some st -> uncovered (snd (unreach_block i l false)) q ->
    exists tr o, exec i l tr o /\ In q tr.
Proof.
  intros HN H. induction l as [|s l IH]; intros i q st A U.
  { destruct q as [|[j|] q]; try discriminate. cbn [at_from] in A. destruct (Nat.ltb j i); [discriminate|].
    destruct q as [|[|b] q]; cbn [stmt_at] in A; try discriminate; rewrite nth_error_nil in A; discriminate. }
  rewrite at_from_cons in A. rewrite unreach_cons in U. cbn [snd] in U.
  assert (U2 : fst (unreach1 s) = false -> uncovered (snd (unreach_block (S i) l false)) q).
  { intros E p Hp. apply U. rewrite E. apply in_or_app; auto. }
  assert (LATER : forall j q', q = At j :: q' -> at_from (S i) l q = Some st -> j <> i -> exists tr o, exec i (s :: l) tr o /\ In q tr).
  { intros j q' Eq A' Nj. destruct (fst (unreach1 s)) eqn:E.
    - rewrite unreach_true in U. exfalso. rewrite Eq in A'. unfold at_from in A'. destruct (Nat.ltb j (S i)) eqn:L; [discriminate|]. apply Nat.ltb_ge in L.
      destruct l as [|y l]; [destruct q' as [|[|b] q']; cbn [stmt_at] in A'; try discriminate; rewrite nth_error_nil in A'; discriminate|].
      apply (U [At (S i)]); [apply in_or_app; right; left; auto|]. rewrite Eq. cbn [cov]. lia.
    - destruct (goes_on n s (HN s (or_introl eq_refl)) E) as (tr & X).
      destruct (IH) with (i := S i) (q := q) (st := st) as (tr' & o & X' & Hq); auto.
      { intros; apply HN; right; auto. } { intros; eapply H; eauto. right; auto. }
      eexists _, o. split; [eapply x_next; eauto|]. right. apply in_or_app; auto. }
  destruct q as [|[j|b] q]; try discriminate. destruct q as [|[j'|b] q]; try discriminate.
  - destruct (Nat.eqb_spec j i) as [->|N]; [|eapply LATER; eauto]. exists [[At i]], Fails. split; [|left; auto].
    apply (x_stop i s l [] Fails); [constructor|discriminate].
  - destruct (Nat.eqb_spec j i) as [->|N]; [|eapply LATER; eauto]. destruct (branch_of b s) as [l'|] eqn:B; [|discriminate].
    destruct (H s b l' q st (or_introl eq_refl) B A) as (tr & o & X & Hq).
    { intros p Hp C. apply (U (At i :: p)); [apply in_or_app; left; apply in_map; auto|]. destruct (unreach1_into _ _ Hp) as (b' & p' & ->).
      rewrite cov_at by discriminate. auto. }
    assert (D : o = Completes \/ o <> Completes) by (destruct o; auto; right; discriminate). destruct D as [->|D].
    + destruct (can_start l (S i)) as (tr' & o' & X'). eexists _, o'. split; [eapply x_next; eauto|]. right. apply in_or_app. left. apply in_map; auto.
    + eexists _, o. split; [eapply x_stop; eauto|]. right. apply in_map; auto.
Qed.
Lemma reach1 n : forall s b l' q st, height s <= n -> branch_of b s = Some l' -> stmt_at l' q = Some st ->
  uncovered (snd (unreach1 s)) (Into b :: q) -> exists tr o, exec1 s tr o /\ In (Into b :: q) tr.
Proof.
  induction n as [|n IH]; intros s b l' q st Hn B A U; [rewrite height_unfold in Hn; lia|].
  assert (REC : forall l, (forall x, In x l -> height x <= n) -> stmt_at l q = Some st -> uncovered (snd (unreach_block 0 l false)) q ->
      exists tr o, exec 0 l tr o /\ In q tr).
  { intros l Hl Al Ul. apply (reach_gen n l Hl) with (st := st); auto; [|rewrite at_from0; auto]. intros; eapply IH; eauto. }
  destruct b, s; try discriminate; cbn [branch_of] in B; injection B as ->.
  - rewrite unreach_for in U. cbn [snd] in U. destruct (REC l') as (tr & o & X & Hq); auto.
    { intros x Hx. apply (block_height c p s1 s2) in Hx. lia. }
    { intros p0 Hp C. apply (U (Into InBody :: p0)); [apply in_map; auto|]. apply cov_into; auto. }
    eapply exec_in_for; eauto.
  - rewrite unreach_if in U. cbn [snd] in U. destruct (REC l') as (tr & o & X & Hq); auto.
    { intros x Hx. apply (true_height c p s l' elsep fls) in Hx. lia. }
    { intros p0 Hp C. apply (U (Into InTrue :: p0)); [apply in_or_app; left; apply in_map; auto|]. apply cov_into; auto. }
    eexists _, o. split; [eapply x_true; eauto|apply in_map; auto].
  - rewrite unreach_if in U. cbn [snd] in U. destruct (REC l') as (tr & o & X & Hq); auto.
    { intros x Hx. apply (false_height c p s tru elsep l') in Hx. lia. }
    { intros p0 Hp C. apply (U (Into InFalse :: p0)); [apply in_or_app; right; apply in_map; auto|]. apply cov_into; auto. }
    eexists _, o. split; [eapply x_false; eauto|apply in_map; auto].
Qed.
Lemma unreach_complete l q st : stmt_at l q = Some st -> uncovered (snd (unreach_block 0 l false)) q ->
  exists tr o, exec 0 l tr o /\ In q tr.
Proof.
  intros A U. set (n := list_max (map height l)).
  assert (HN : forall s, In s l -> height s <= n).
  { intros s Hs. assert (F : Forall (fun k => k <= n) (map height l)) by (apply list_max_le; auto). rewrite Forall_forall in F. apply F, in_map, Hs. }
  apply (reach_gen n l HN) with (st := st); auto; [|rewrite at_from0; auto]. intros; eapply reach1; eauto.
Qed.
