(** C73: moving package() to the top. *)
From Verif Require Import Base BaseProofs Ast Loads LoadsSpec RuleApi RuleSpec EditFile EditFileSpec PropEditFile Fix.

(** What may stay before package(), besides other package declarations: strings, comments, loads, licenses(), package_group(). *)
Definition goes_first (s : option expr) : Prop :=
  s = None \/ string_stmt s \/ comment_block s \/ is_load s \/ call_of %"licenses" s \/ call_of %"package_group" s.
Definition package_stmt (s : option expr) : Prop := call_of %"package" s.
Definition assignment (s : option expr) : Prop := exists c x p op b y, s = Some (EAssign c x p op b y).
(** A statement before which package() should stand. *)
Definition comes_later (s : option expr) : Prop := ~ goes_first s /\ ~ package_stmt s /\ ~ assignment s.
(** [yes] and [no] are the elements of [l] in and not in P, in order. *)
Inductive parted {A} (P : A -> Prop) : list A -> list A -> list A -> Prop :=
  | pt_nil : parted P [] [] []
  | pt_yes x l yes no : P x -> parted P l yes no -> parted P (x :: l) (x :: yes) no
  | pt_no x l yes no : ~ P x -> parted P l yes no -> parted P (x :: l) yes (x :: no).

Lemma is_assign_spec s : is_assign s = true <-> assignment s.
Proof. split; [|intros (c & x & p & op & b & y & ->); reflexivity]. destruct s as [[]|]; try discriminate. intros _. unfold assignment. eauto 9. Qed.
Lemma is_load_spec s : is_load_stmt s = true <-> is_load s.
Proof. unfold is_load. split; [|intros (c & p & m & f & t & r & k & ->); reflexivity]. destruct s as [[]|]; try discriminate. eauto 12. Qed.
Lemma top_skips_spec s : top_skips s = true <-> goes_first s.
Proof.
  unfold goes_first. rewrite <- !call_of_spec, <- comment_block_spec, <- is_load_spec. unfold string_stmt.
  destruct s as [e|]; [|split; auto]. split.
  - destruct e; cbn [top_skips]; intros H; try (apply orb_true_iff in H as [H|H]); auto 9. right. left. eexists. reflexivity.
  - destruct e; try reflexivity; intros [H|[(l' & H)|[H|[H|[H|H]]]]]; try discriminate H; cbn [top_skips]; rewrite H, ?orb_true_r; reflexivity.
Qed.
Definition pk (s : option expr) : bool := ExprToRule s %"package".
Lemma pk_spec s : pk s = true <-> package_stmt s.
Proof. apply call_of_spec. Qed.
Lemma pk_skips s : pk s = true -> top_skips s = false /\ is_assign s = false /\ move_skips s = false.
Proof.
  intro H. apply pk_spec in H. destruct H as (c & i & p & l & e & k & m & -> & H). split; [|split; reflexivity]. cbn. rewrite H. reflexivity.
Qed.
Lemma parted_filter l : parted package_stmt l (filter pk l) (filter (fun s => negb (pk s)) l).
Proof.
  induction l as [|s l IH]; cbn [filter]; [constructor|]. destruct (pk s) eqn:E; cbn [negb]; constructor; auto; rewrite <- pk_spec; congruence.
Qed.

Lemma parted_yes {A} (P : A -> Prop) l y n : parted P l y n -> Forall P y.
Proof. induction 1; auto. Qed.
Lemma parted_no {A} (P : A -> Prop) l y n : parted P l y n -> Forall (fun x => ~ P x) n.
Proof. induction 1; auto. Qed.
Lemma parted_sub {A} (P Q : A -> Prop) l y n : parted P l y n -> Forall Q l -> Forall Q n.
Proof. induction 1; intro H'; auto; inversion_clear H'; auto. Qed.

(** ** The scan *)
Definition early (s : option expr) : Prop := top_skips s = true \/ pk s = true.
Definition late (s : option expr) : Prop := top_skips s = false /\ pk s = false /\ is_assign s = false.
Fixpoint pk_at (i : nat) (l : list (option expr)) : list nat :=
  match l with [] => [] | s :: l' => if pk s then i :: pk_at (S i) l' else pk_at (S i) l' end.
Lemma early_assign s : early s -> is_assign s = false.
Proof. intros [H|H]; [|now apply pk_skips]. destruct s as [[]|]; try reflexivity; discriminate. Qed.
Lemma scan_early a : forall i l, Forall early a -> top_scan i None (a ++ l) = top_scan (i + List.length a) None l.
Proof.
  induction a as [|s a IH]; intros i l H; cbn [app List.length]; [now rewrite Nat.add_0_r|]. inversion_clear H as [|? ? E F]. cbn [top_scan].
  rewrite (early_assign _ E). rewrite (Nat.add_succ_r i), <- Nat.add_succ_l. destruct E as [E|E]; [rewrite E; auto|].
  destruct (pk_skips _ E) as (-> & _). unfold pk in E. rewrite E. auto.
Qed.
Definition ends (rest : list (option expr)) : Prop := match rest with [] => True | s :: _ => is_assign s = true end.
Lemma scan_late b : forall i f rest, Forall (fun s => is_assign s = false) b -> ends rest -> top_scan i (Some f) (b ++ rest) = (Some f, pk_at i b).
Proof.
  induction b as [|s b IH]; intros i f rest H R; cbn [app].
  - destruct rest as [|s rest]; cbn; auto. cbn in R. rewrite R. reflexivity.
  - inversion_clear H as [|? ? E F]. cbn [top_scan pk_at]. rewrite E. destruct (top_skips s) eqn:T.
    + destruct (pk s) eqn:P; [apply pk_skips in P; destruct P; congruence|]. auto.
    + fold (pk s). destruct (pk s) eqn:P; rewrite IH by auto; reflexivity.
Qed.
(** Every list is such a concatenation. *)
Lemma scan_parts l : exists a b rest, l = a ++ b ++ rest /\ Forall early a /\ Forall (fun s => is_assign s = false) b /\ ends rest /\ match b with [] => True | s :: _ => late s end.
Proof.
  assert (B : forall l, exists b rest, l = b ++ rest /\ Forall (fun s => is_assign s = false) b /\ ends rest).
  { clear. induction l as [|s l (b & rest & -> & H & R)]; [exists [], []; repeat split; auto|].
    destruct (is_assign s) eqn:E; [exists [], (s :: b ++ rest); repeat split; auto|]. exists (s :: b), rest. auto. }
  induction l as [|s l (a & b & rest & -> & A & Hb & R & L)]; [exists [], [], []; repeat split; auto|].
  destruct (is_assign s) eqn:E; [exists [], [], (s :: a ++ b ++ rest); repeat split; auto|].
  destruct (top_skips s) eqn:T; [exists (s :: a), b, rest; repeat split; auto; constructor; auto; left; auto|].
  destruct (pk s) eqn:P; [exists (s :: a), b, rest; repeat split; auto; constructor; auto; right; auto|].
  destruct (B (a ++ b ++ rest)) as (b' & rest' & Eq & H' & R'). exists [], (s :: b'), rest'. cbn [app]. rewrite Eq. split; auto. split; auto. split; [constructor; auto|]. split; auto. split; auto.
Qed.
Definition scanned (a b : list (option expr)) : option nat * list nat := (match b with [] => None | _ => Some (List.length a) end, pk_at (List.length a) b).
Lemma scan_spec a b rest : Forall early a -> Forall (fun s => is_assign s = false) b -> ends rest -> match b with [] => True | s :: _ => late s end ->
  top_scan 0 None (a ++ b ++ rest) = scanned a b.
Proof.
  intros A B R L. rewrite scan_early by auto. cbn [Nat.add]. destruct b as [|s b]; cbn [app].
  - destruct rest as [|s rest]; cbn; auto. cbn in R. rewrite R. reflexivity.
  - inversion_clear B as [|? ? E F]. destruct L as (L1 & L2 & L3). cbn [top_scan scanned pk_at]. rewrite E, L1. fold (pk s). rewrite L2. rewrite scan_late by auto. unfold scanned. cbn [pk_at]. rewrite L2. reflexivity.
Qed.

(** ** The moves *)
Lemma set_nth_length {A} n (v : A) : forall l, List.length (set_nth n v l) = List.length l.
Proof. induction n; intros [|x l]; cbn; auto. Qed.
Lemma nth_set_nth {A} n (v : A) : forall l m, m < List.length l -> nth_error (set_nth n v l) m = if Nat.eqb m n then Some v else nth_error l m.
Proof. induction n as [|n IH]; intros [|x l] [|m] H; cbn in *; try lia; auto. apply IH. lia. Qed.
Lemma nth_error_same {A} : forall l l' : list A, (forall j, nth_error l j = nth_error l' j) -> l = l'.
Proof.
  induction l as [|x l IH]; intros [|y l'] H; auto; [discriminate (H 0)|discriminate (H 0)|]. pose proof (H 0) as E. cbn in E. injection E as ->. f_equal. apply IH. intro j. apply (H (S j)).
Qed.
Lemma apply_moves_spec : forall rs (l t : list (option expr)), List.length l = List.length t ->
  (forall r, In r rs -> nth_error t (fst r) = Some (snd r)) ->
  (forall j, j < List.length t -> nth_error l j = nth_error t j \/ In j (map fst rs)) -> apply_moves l rs = t.
Proof.
  unfold apply_moves. induction rs as [|[j v] rs IH]; intros l t L H C; cbn [fold_left].
  - apply nth_error_same. intro j. destruct (le_lt_dec (List.length t) j) as [K|K].
    + rewrite (proj2 (nth_error_None l j)), (proj2 (nth_error_None t j)) by lia. auto.
    + destruct (C j K) as [E|[]]; auto.
  - apply IH; [rewrite set_nth_length; auto|intros r R; apply H; right; auto|]. intros k K. rewrite nth_set_nth by lia. cbn [fst snd].
    destruct (Nat.eqb k j) eqn:E.
    + apply Nat.eqb_eq in E. subst k. left. symmetry. apply (H (j, v)). left; auto.
    + apply Nat.eqb_neq in E. destruct (C k K) as [X|[X|X]]; auto. cbn in X. congruence.
Qed.

(** ** The moves, between the two parts *)
Definition npk (s : option expr) : bool := negb (pk s).
Lemma pk_at_in l : forall i n, In n (pk_at i l) <-> exists j s, n = i + j /\ nth_error l j = Some s /\ pk s = true.
Proof.
  induction l as [|s l IH]; intros i n; cbn [pk_at].
  - split; [intros []|intros ([|j] & s & _ & H & _); discriminate].
  - split.
    + destruct (pk s) eqn:P; intros H.
      * destruct H as [<- |H]; [exists 0, s; rewrite Nat.add_0_r; auto|]. apply IH in H as (j & t & -> & H). exists (S j), t. rewrite Nat.add_succ_r. auto.
      * apply IH in H as (j & t & -> & H). exists (S j), t. rewrite Nat.add_succ_r. auto.
    + intros ([|j] & t & -> & H & Pt); cbn in H.
      * injection H as ->. rewrite Pt. left. symmetry. apply Nat.add_0_r.
      * assert (X : In (i + S j) (pk_at (S i) l)) by (apply IH; exists j, t; rewrite Nat.add_succ_r; auto). destruct (pk s); auto. right; auto.
Qed.
Lemma pk_at_length l : forall i, List.length (pk_at i l) = List.length (filter pk l).
Proof. induction l as [|s l IH]; intro i; cbn; auto. destruct (pk s); cbn; auto. Qed.
Lemma count_app (p : option expr -> bool) l l' : List.length (filter p (l ++ l')) = List.length (filter p l) + List.length (filter p l').
Proof. rewrite filter_app, app_length. auto. Qed.
Lemma count_two l : List.length l = List.length (filter pk l) + List.length (filter npk l).
Proof. induction l as [|s l IH]; cbn; auto. unfold npk. destruct (pk s); cbn; fold npk; lia. Qed.
Lemma nth_filter (p : option expr -> bool) b1 s b2 : p s = true -> nth_error (filter p (b1 ++ s :: b2)) (List.length (filter p b1)) = Some s.
Proof. intro H. rewrite filter_app. cbn [filter]. rewrite H, nth_error_app2, Nat.sub_diag by lia. reflexivity. Qed.
Section Moves.
  Context (a b rest : list (option expr)).
  Let t := a ++ filter pk b ++ filter npk b ++ rest.
  Let ms := pk_at (List.length a) b.
  Lemma moves_mem b1 s b2 : b = b1 ++ s :: b2 -> existsb (Nat.eqb (List.length a + List.length b1)) ms = pk s.
  Proof.
    intros E. apply eq_true_iff_eq. rewrite existsb_exists. split.
    - intros (n & N & Q). apply Nat.eqb_eq in Q. subst n. apply pk_at_in in N as (j & u & J & U & P). assert (j = List.length b1) by lia. subst j.
      rewrite E, nth_error_app2, Nat.sub_diag in U by lia. cbn in U. congruence.
    - intro P. exists (List.length a + List.length b1). split; [|apply Nat.eqb_refl]. apply pk_at_in. exists (List.length b1), s. split; auto. split; auto. rewrite E, nth_error_app2, Nat.sub_diag by lia. reflexivity.
  Qed.
  (** Each move is right, and the cells between are all written. *)
  Lemma moves_spec : forall b2 b1, b = b1 ++ b2 -> filter pk b2 <> [] ->
    let rs := top_moves ms (List.length a + List.length b1) (List.length a + List.length (filter pk b1)) (List.length (filter pk b2)) (b2 ++ rest) in
    (forall r, In r rs -> nth_error t (fst r) = Some (snd r)) /\ (forall k, List.length (filter pk b1) <= k < List.length (filter pk b) -> In (List.length a + k) (map fst rs)) /\ (exists b3 s b4, b2 = b3 ++ s :: b4 /\ pk s = true /\ filter pk b4 = [] /\ forall k, List.length (filter npk b1) <= k < List.length (filter npk b1) + List.length (filter npk b3) -> In (List.length a + List.length (filter pk b) + k) (map fst rs)).
  Proof.
    induction b2 as [|s b2 IH]; intros b1 Eb Ne; [elim Ne; reflexivity|]. cbn [app top_moves].
    assert (L : Nat.ltb (List.length a + List.length b1) (List.length a + List.length (filter pk b1)) = false) by (apply Nat.ltb_ge; rewrite (count_two b1); lia).
    rewrite L. rewrite (moves_mem b1 s b2 Eb). assert (Eb' : b = (b1 ++ [s]) ++ b2) by (rewrite <- app_assoc; exact Eb).
    specialize (IH (b1 ++ [s]) Eb'). rewrite !count_app, app_length in IH. cbn [filter List.length] in IH.
    assert (Cb : List.length (filter pk b) = List.length (filter pk b1) + List.length (filter pk (s :: b2))) by (rewrite Eb, count_app; reflexivity).
    assert (Np : npk s = negb (pk s)) by reflexivity. rewrite Np in IH.
    destruct (pk s) eqn:P; cbn [negb List.length] in IH, Np; repeat rewrite Nat.add_succ_r in IH; repeat rewrite Nat.add_0_r in IH.
    - cbn [filter]. rewrite P. cbn [List.length].
      assert (Here : nth_error t (List.length a + List.length (filter pk b1)) = Some s).
      { unfold t. rewrite nth_error_app2, Nat.add_comm, Nat.add_sub by lia. rewrite nth_error_app1 by (rewrite Cb; cbn [filter]; rewrite P; cbn; lia). rewrite Eb. apply nth_filter. auto. }
      cbn [filter] in Cb. rewrite P in Cb. cbn [List.length] in Cb.
      destruct (filter pk b2) as [|q l] eqn:F.
      + cbn [List.length Nat.eqb]. split; [intros r [<- |[]]; exact Here|]. split.
        * intros k K. left. cbn in *. lia.
        * exists [], s, b2. repeat split; auto. cbn. intros k K. lia.
      + cbn [List.length Nat.eqb Nat.sub]. destruct IH as (I1 & I2 & (b3 & u & b4 & -> & Pu & Q4 & I3)); [discriminate|].
        cbn [List.length] in I1, I2, I3. split; [intros r [<- |R]; [exact Here|auto]|]. split.
        * intros k K. cbn [map fst]. destruct (Nat.eq_dec k (List.length (filter pk b1))) as [-> |X]; [left; auto|right]. apply I2. lia.
        * exists (s :: b3), u, b4. repeat split; auto. intros k K. cbn [map fst]. right. apply I3. cbn [filter] in K. rewrite Np in K. exact K.
    - cbn [filter] in Ne, Cb |- *. rewrite P in Ne, Cb |- *.
      destruct IH as (I1 & I2 & (b3 & u & b4 & -> & Pu & Q4 & I3)); [exact Ne|]. split; [|split].
      + intros r [<- |R]; [|auto]. cbn [fst snd]. unfold t. rewrite nth_error_app2 by lia. rewrite (count_two b1).
        rewrite nth_error_app2 by lia. rewrite nth_error_app1.
        * replace (_ - _ - _) with (List.length (filter npk b1)) by lia. rewrite Eb. apply nth_filter. auto.
        * assert (Cn : List.length (filter npk b) = List.length (filter npk b1) + S (List.length (filter npk (b3 ++ u :: b4)))) by (rewrite Eb, (count_app npk); cbn [filter]; rewrite Np; reflexivity). lia.
      + intros k K. cbn [map fst]. right. apply I2. auto.
      + exists (s :: b3), u, b4. repeat split; auto. intros k K. cbn [map fst]. cbn [filter] in K. rewrite Np in K. cbn [List.length] in K.
        destruct (Nat.eq_dec k (List.length (filter npk b1))) as [-> |X]; [left; rewrite (count_two b1); lia|right]. apply I3. lia.
  Qed.
  Lemma moves_apply : filter pk b <> [] -> apply_moves (a ++ b ++ rest) (top_moves ms 0 (List.length a) (List.length ms) (a ++ b ++ rest)) = t.
  Proof.
    intro Ne. assert (Sk : forall l i, i + List.length l = List.length a -> top_moves ms i (List.length a) (List.length ms) (l ++ b ++ rest) = top_moves ms (List.length a) (List.length a) (List.length ms) (b ++ rest)).
    { induction l as [|s l IH]; intros i H; cbn [app List.length] in *; [f_equal; lia|]. cbn [top_moves]. rewrite (proj2 (Nat.ltb_lt i (List.length a))) by lia. apply IH. lia. }
    rewrite (Sk a 0) by auto. unfold ms at 2. rewrite pk_at_length.
    destruct (moves_spec b [] eq_refl Ne) as (M1 & M2 & (b3 & s & b4 & Eb & Ps & Q4 & M3)). cbn [filter List.length] in *. rewrite !Nat.add_0_r in *.
    apply apply_moves_spec; auto.
    - unfold t. rewrite !app_length, (count_two b). lia.
    - intros j J. destruct (le_lt_dec (List.length a) j) as [K|K]; [|left; unfold t; rewrite !nth_error_app1 by auto; auto].
      destruct (le_lt_dec (List.length a + List.length (filter pk b)) j) as [K2|K2]; [|right; replace j with (List.length a + (j - List.length a)) by lia; apply M2; lia].
      destruct (le_lt_dec (List.length a + List.length (filter pk b) + List.length (filter npk b3)) j) as [K3|K3].
      + left. assert (Fb : filter pk b = filter pk b3 ++ [s]) by (rewrite Eb, filter_app; cbn [filter]; rewrite Ps, Q4; auto).
        assert (Fn : filter npk b = filter npk b3 ++ b4).
        { rewrite Eb, filter_app. cbn [filter]. unfold npk at 2. rewrite Ps. cbn [negb]. f_equal. clear - Q4. induction b4 as [|x l IH]; cbn in *; auto. unfold npk at 1. destruct (pk x); [discriminate|]. cbn. f_equal. auto. }
        unfold t. rewrite Fb, Fn in *. rewrite app_length in *. cbn [List.length] in *.
        assert (X : forall p q, List.length p <= j -> List.length q = List.length p -> nth_error (p ++ b4 ++ rest) j = nth_error (q ++ b4 ++ rest) j) by (intros p q Hp Hq; rewrite (nth_error_app2 p), (nth_error_app2 q) by lia; rewrite Hq; auto).
        replace (a ++ b ++ rest) with ((a ++ b3 ++ [s]) ++ b4 ++ rest) by (rewrite Eb, <- !app_assoc; reflexivity).
        replace (a ++ (filter pk b3 ++ [s]) ++ (filter npk b3 ++ b4) ++ rest) with ((a ++ filter pk b3 ++ [s] ++ filter npk b3) ++ b4 ++ rest) by (rewrite <- !app_assoc; reflexivity).
        pose proof (count_two b3). apply X; rewrite !app_length; cbn [List.length]; lia.
      + right. replace j with (List.length a + List.length (filter pk b) + (j - List.length a - List.length (filter pk b))) by lia. apply M3. lia.
  Qed.
End Moves.

(** A package() to be reported: it comes after a statement that should come later, and there is no assignment before it. *)
Definition misplaced (stmts : list (option expr)) (n : nat) : Prop :=
  exists before s after, stmts = before ++ s :: after /\ List.length before = n /\ package_stmt s /\ Exists comes_later before /\ Forall (fun x => ~ assignment x) before.
Definition build_file (ty : ftype) : Prop := ty <> TypeWorkspace /\ ty <> TypeModule.
Lemma early_spec s : early s <-> goes_first s \/ package_stmt s.
Proof. unfold early. rewrite top_skips_spec, pk_spec. tauto. Qed.
Lemma late_spec s : late s <-> comes_later s.
Proof. unfold late, comes_later. rewrite <- top_skips_spec, <- pk_spec, <- is_assign_spec, !not_true_iff_false. tauto. Qed.
Lemma not_assign s : is_assign s = false <-> ~ assignment s.
Proof. rewrite <- is_assign_spec, not_true_iff_false. tauto. Qed.
Lemma warning_spec ty a b rest : build_file ty -> Forall early a -> Forall (fun s => is_assign s = false) b -> ends rest -> match b with [] => True | s :: _ => late s end ->
  packageOnTopWarning ty (a ++ b ++ rest) = map (fun i => (i, top_moves (pk_at (List.length a) b) 0 (List.length a) (List.length (pk_at (List.length a) b)) (a ++ b ++ rest))) (pk_at (List.length a) b).
Proof.
  intros [T1 T2] A B R L. unfold packageOnTopWarning. rewrite (scan_spec a b rest) by auto. unfold scanned. destruct b as [|s b]; destruct ty; try (elim T1; reflexivity); try (elim T2; reflexivity); reflexivity.
Qed.
Lemma misplaced_spec a b rest n : Forall early a -> Forall (fun s => is_assign s = false) b -> ends rest -> match b with [] => True | s :: _ => late s end ->
  misplaced (a ++ b ++ rest) n <-> In n (pk_at (List.length a) b).
Proof.
  intros A B R L. rewrite pk_at_in. split.
  - intros (bf & s & af & E & <- & P & X & F).
    assert (Na : ~ List.length bf < List.length a).
    { intro K. apply Exists_exists in X as (x & I & Lx). apply late_spec in Lx. apply In_nth_error in I as (j & J). assert (j < List.length bf) by (apply nth_error_Some; congruence).
      assert (Y : nth_error a j = Some x). { rewrite <- (nth_error_app1 a (b ++ rest)) by lia. rewrite E, nth_error_app1 by auto. auto. }
      apply nth_error_In in Y. rewrite Forall_forall in A. destruct (A _ Y); destruct Lx as (? & ? & ?); congruence. }
    assert (E2 : nth_error (a ++ b ++ rest) (List.length bf) = Some s) by (rewrite E, nth_error_app2, Nat.sub_diag by lia; reflexivity).
    rewrite nth_error_app2 in E2 by lia. destruct (le_lt_dec (List.length b) (List.length bf - List.length a)) as [K|K].
    + exfalso. rewrite nth_error_app2 in E2 by lia. destruct rest as [|r rest]; [destruct (_ - _ - _); discriminate|]. cbn in R.
      destruct (List.length bf - List.length a - List.length b) as [|k] eqn:Ek; cbn in E2.
      * injection E2 as ->. apply pk_spec in P. apply pk_skips in P. destruct P as (_ & P & _). congruence.
      * assert (Y : nth_error bf (List.length a + List.length b) = Some r).
        { rewrite <- (nth_error_app1 bf (s :: af)) by lia. rewrite <- E. rewrite app_assoc, nth_error_app2; rewrite app_length; [|lia]. rewrite Nat.sub_diag. reflexivity. }
        apply nth_error_In in Y. rewrite Forall_forall in F. apply (F _ Y). now apply is_assign_spec.
    + rewrite nth_error_app1 in E2 by auto. exists (List.length bf - List.length a), s. split; [lia|]. split; auto. now apply pk_spec.
  - intros (j & s & -> & J & P). apply nth_error_split in J as (b1 & b2 & -> & <-). exists (a ++ b1), s, (b2 ++ rest).
    split; [rewrite <- !app_assoc; reflexivity|]. split; [apply app_length|]. split; [now apply pk_spec|]. split.
    + destruct b1 as [|x b1]; cbn [app] in L; [destruct L as (_ & L & _); congruence|]. apply Exists_exists. exists x. split; [apply in_or_app; right; left; auto|now apply late_spec].
    + apply Forall_app. split; [|apply Forall_app in B as [B _]]; (eapply Forall_impl; [|eassumption]); intros x Hx; apply not_assign; auto. now apply early_assign.
Qed.

(** Exactly the misplaced declarations of BUILD and .bzl files are reported. *)
Theorem C73_lint_reports :
  forall ty stmts n, In n (map fst (packageOnTopWarning ty stmts)) <-> build_file ty /\ misplaced stmts n.
Proof.
  intros ty stmts n. destruct (scan_parts stmts) as (a & b & rest & -> & A & B & R & L).
  assert (D : build_file ty \/ packageOnTopWarning ty (a ++ b ++ rest) = [] /\ ~ build_file ty).
  { unfold build_file. destruct ty; try (left; split; discriminate); right; (split; [reflexivity|intuition congruence]). }
  destruct D as [T|[-> T]]; [|split; [intros []|intros [X _]; contradiction]].
  rewrite warning_spec, map_map by auto. cbn [fst]. rewrite map_id, misplaced_spec by auto. tauto.
Qed.
(** The fix moves all misplaced declarations, in their order, to just before the first statement that should come later; nothing
    else changes places, and no declaration is moved over an assignment. *)
Theorem C73_lint_fix :
  forall on ty stmts, (exists n, on n = true /\ build_file ty /\ misplaced stmts n) ->
  exists a b rest pkgs others,
    stmts = a ++ b ++ rest /\ packageOnTopFix on ty stmts = a ++ pkgs ++ others ++ rest /\
    parted package_stmt b pkgs others /\ (exists s b', b = s :: b' /\ comes_later s) /\
    Forall (fun s => goes_first s \/ package_stmt s) a /\ Forall (fun s => ~ assignment s) (a ++ b) /\
    match rest with [] => True | s :: _ => assignment s end.
Proof.
  intros on ty stmts (n & On & T & M). destruct (scan_parts stmts) as (a & b & rest & -> & A & B & R & L).
  apply misplaced_spec in M; auto. exists a, b, rest, (filter pk b), (filter npk b). split; auto. split.
  - unfold packageOnTopFix. rewrite warning_spec by auto. set (mv := top_moves _ _ _ _ _).
    assert (Nb : filter pk b <> []). { intro Z. pose proof (pk_at_length b (List.length a)) as X. rewrite Z in X. destruct (pk_at (List.length a) b); [destruct M|discriminate]. }
    assert (Ap : forall l, l = a ++ b ++ rest \/ l = a ++ filter pk b ++ filter npk b ++ rest -> apply_moves l mv = a ++ filter pk b ++ filter npk b ++ rest).
    { intros l [-> | ->]; [now apply moves_apply|].
      pose proof (moves_apply a b rest Nb) as Y. fold mv in Y.
      destruct (moves_spec a b rest b [] eq_refl Nb) as (M1 & _). cbn [filter List.length] in M1. rewrite !Nat.add_0_r in M1.
      apply apply_moves_spec; auto. intros r I. apply M1. revert I. unfold mv. generalize (pk_at_length b (List.length a)). intros <-. set (ms := pk_at _ _).
      assert (Sk : forall l i, i + List.length l = List.length a -> top_moves ms i (List.length a) (List.length ms) (l ++ b ++ rest) = top_moves ms (List.length a) (List.length a) (List.length ms) (b ++ rest)).
      { induction l as [|s l IH]; intros i H; cbn [app List.length] in *; [f_equal; lia|]. cbn [top_moves]. rewrite (proj2 (Nat.ltb_lt i (List.length a))) by lia. apply IH. lia. }
      rewrite (Sk a 0) by auto. auto. }
    set (t := a ++ filter pk b ++ filter npk b ++ rest) in *. clearbody mv.
    assert (G : forall ms l, l = t \/ (l = a ++ b ++ rest /\ In n ms) -> fold_left (fun l f => if on (fst f) then apply_moves l (snd f) else l) (map (fun i : nat => (i, mv)) ms) l = t).
    { induction ms as [|m ms IH]; intros l H; cbn [map fold_left fst snd]; [destruct H as [->|[_ []]]; auto|]. apply IH. destruct H as [->|[-> [->|I]]].
      - left. destruct (on m); auto.
      - left. rewrite On. auto.
      - destruct (on m); auto. }
    apply G. auto.
  - split; [apply parted_filter|]. split.
    + destruct b as [|s b]; [destruct M|]. exists s, b. split; auto. now apply late_spec.
    + split; [eapply Forall_impl; [|exact A]; intros s S1; now apply early_spec|]. split.
      * apply Forall_app. split; (eapply Forall_impl; [|eassumption]); intros s S1; apply not_assign; auto. now apply early_assign.
      * destruct rest as [|r rest]; auto. now apply is_assign_spec.
Qed.
Theorem C73_lint_no_fix :
  forall on ty stmts, ~ (exists n, on n = true /\ build_file ty /\ misplaced stmts n) -> packageOnTopFix on ty stmts = stmts.
Proof.
  intros on ty stmts H. unfold packageOnTopFix.
  assert (G : forall fs l, (forall f, In f fs -> on (fst f) = false) -> fold_left (fun l f => if on (fst f) then apply_moves l (snd f) else l) fs l = l).
  { clear. induction fs as [|f fs IH]; intros l H; cbn [fold_left]; auto. rewrite (H f) by (left; auto). apply IH. intros; apply H; right; auto. }
  apply G. intros f F. destruct (on (fst f)) eqn:On; auto. elim H. exists (fst f). split; auto. apply C73_lint_reports. now apply in_map.
Qed.
(** After the fix there is nothing left to report. *)
Theorem C73_lint_done :
  forall ty stmts n, build_file ty -> ~ misplaced (packageOnTopFix (fun _ => true) ty stmts) n.
Proof.
  intros ty stmts n T. destruct (scan_parts stmts) as (a & b & rest & -> & A & B & R & L).
  destruct (pk_at (List.length a) b) as [|m ms] eqn:E.
  - rewrite C73_lint_no_fix; [rewrite misplaced_spec, E by auto; intros []|]. intros (k & _ & _ & M). apply misplaced_spec in M; auto. rewrite E in M. destruct M.
  - destruct (C73_lint_fix (fun _ => true) ty (a ++ b ++ rest)) as (a' & b' & rest' & pkgs & others & Eq & -> & Pt & (s & b'' & -> & Ls) & A' & N' & R').
    { exists m. split; auto. split; auto. apply misplaced_spec; auto. rewrite E. left; auto. }
    clear - Pt A' N' R' Ls. rewrite app_assoc. 
    assert (F1 : Forall package_stmt pkgs) by (eapply parted_yes; eauto). assert (F2 : Forall (fun s => ~ package_stmt s) others) by (eapply parted_no; eauto).
    assert (F3 : Forall (fun s => ~ assignment s) others). { apply Forall_app in N' as [_ N']. eapply parted_sub; eauto. }
    rewrite misplaced_spec.
    + rewrite pk_at_in. intros (j & u & _ & J & P). apply nth_error_In in J. rewrite Forall_forall in F2. apply (F2 _ J). now apply pk_spec.
    + apply Forall_app. split; (eapply Forall_impl; [|eassumption]); intros x X; apply early_spec; auto.
    + eapply Forall_impl; [|exact F3]. intros x X. now apply not_assign.
    + destruct rest' as [|r rest']; cbn; auto. now apply is_assign_spec.
    + destruct Ls as (L1 & L2 & L3). inversion Pt; subst; [contradiction|]. apply late_spec. split; auto.
Qed.

(** ** buildozer's movePackageToTop *)
(** What it leaves before the declaration. *)
Definition stays_first (s : option expr) : Prop := comment_block s \/ string_stmt s \/ assignment s \/ is_load s.
Lemma move_skips_spec s : move_skips s = true <-> stays_first s.
Proof.
  unfold stays_first. rewrite <- comment_block_spec, <- is_assign_spec, <- is_load_spec. unfold string_stmt. split.
  - destruct s as [[]|]; try discriminate; auto. right. left. eexists. reflexivity.
  - destruct s as [[]|]; intros [H|[(l' & H)|[H|H]]]; try discriminate H; reflexivity.
Qed.
Lemma move_loop_end pkg l : Forall (fun s => True) l -> move_loop pkg true true l = Some l.
Proof.
  induction 1 as [|s l _ _ IH]; cbn [move_loop]; auto. rewrite andb_false_r, IH. destruct (move_skips s); reflexivity.
Qed.
Lemma move_loop_in pkg p c : forall l, ~ (exists s, In s l /\ pk s = true) -> pk p = true -> move_loop pkg true false (l ++ p :: c) = Some (l ++ c).
Proof.
  induction l as [|s l IH]; intros N P; cbn [app move_loop].
  - destruct (pk_skips _ P) as (_ & _ & ->). unfold pk in P. rewrite P. cbn. apply move_loop_end. apply Forall_forall. auto.
  - rewrite IH; auto; [|intros (x & X & Y); apply N; exists x; split; [right|]; auto]. assert (E : pk s = false) by (destruct (pk s) eqn:E; auto; elim N; exists s; split; [left|]; auto).
    unfold pk in E. rewrite E. destruct (move_skips s); reflexivity.
Qed.
(** The first declaration moves up to the first statement other than comments, strings, assignments and loads; everything else stays. *)
Theorem C74_move_partial :
  forall stmts, let r := movePackageDeclarationToTheTop stmts in
    (fst r = true -> exists a s b pkg c, stmts = a ++ s :: b ++ pkg :: c /\ snd r = a ++ pkg :: s :: b ++ c /\
       Forall stays_first a /\ ~ stays_first s /\ package_stmt pkg /\ Forall (fun x => ~ package_stmt x) (a ++ s :: b)) /\
    (fst r = false -> snd r = stmts /\ forall a pkg c, stmts = a ++ pkg :: c -> package_stmt pkg -> Forall (fun x => ~ package_stmt x) a -> Forall stays_first a).
Proof.
  intros stmts r. unfold r, movePackageDeclarationToTheTop. clear r. destruct (ExistingPackageDeclaration stmts) as [pkg|] eqn:E.
  - assert (D : exists a c, stmts = a ++ pkg :: c /\ pk pkg = true /\ Forall (fun x => pk x = false) a).
    { clear - E. unfold ExistingPackageDeclaration in E. induction stmts as [|s l IH]; [discriminate|]. cbn [find] in E. fold (pk s) in E. destruct (pk s) eqn:P.
      - injection E as ->. exists [], l. auto.
      - destruct (IH E) as (a & c & -> & H & F). exists (s :: a), c. auto. }
    destruct D as (a & c & -> & P & F).
    assert (D : Forall (fun x => move_skips x = true) a \/ exists a1 s b, a = a1 ++ s :: b /\ Forall (fun x => move_skips x = true) a1 /\ move_skips s = false).
    { clear. induction a as [|s a [H|(a1 & x & b & -> & H)]]; auto; destruct (move_skips s) eqn:M; auto.
      - right. exists [], s, a. auto.
      - right. exists (s :: a1), x, b. destruct H. auto.
      - right. exists [], s, (a1 ++ x :: b). auto. }
    assert (G : forall a1 l, Forall (fun x => move_skips x = true) a1 -> move_loop pkg false false (a1 ++ l) = option_map (app a1) (move_loop pkg false false l)).
    { clear. induction a1 as [|s a1 IH]; intros l H; cbn [app]; [destruct (move_loop pkg false false l); reflexivity|]. inversion_clear H as [|? ? X Y]. cbn [move_loop]. rewrite X, IH by auto. destruct (move_loop pkg false false l); reflexivity. }
    destruct D as [D|(a1 & s & b & -> & D & Ms)].
    + rewrite G by auto. cbn [move_loop]. destruct (pk_skips _ P) as (_ & _ & ->). unfold pk in P. rewrite P. cbn. split; [discriminate|]. intros _. split; auto.
      intros a' pkg' c' Eq P' F'. assert (a' = a).
      { clear - Eq P P' F F'. revert a' Eq F'. induction a as [|x a IH]; intros [|y a'] Eq F'; auto; cbn in Eq; injection Eq as E1 E2; subst.
        - inversion_clear F' as [|? ? X _]. elim X. now apply pk_spec.
        - inversion_clear F as [|? ? X _]. apply pk_spec in P'. congruence.
        - inversion_clear F; inversion_clear F'. f_equal. apply IH; auto. }
      subst. eapply Forall_impl; [|exact D]. intros x X. now apply move_skips_spec.
    + apply Forall_app in F as [F1 F2]. inversion_clear F2 as [|? ? Fs Fb]. rewrite <- app_assoc. rewrite G by auto. cbn [app move_loop]. rewrite Ms. unfold pk in Fs. rewrite Fs. cbn [andb].
      rewrite move_loop_in; auto; [|intros (x & X & Y); rewrite Forall_forall in Fb; rewrite (Fb _ X) in Y; discriminate]. cbn. split; [|discriminate]. intros _.
      exists a1, s, b, pkg, c. split; auto. split; auto. split; [eapply Forall_impl; [|exact D]; intros x X; now apply move_skips_spec|].
      split; [rewrite <- move_skips_spec; congruence|]. split; [now apply pk_spec|]. apply Forall_app. split; [|constructor; [intro X; apply pk_spec in X; unfold pk in X; rewrite X in Fs; discriminate|]]; [eapply Forall_impl; [|exact F1]|eapply Forall_impl; [|exact Fb]]; intros x X Y; apply pk_spec in Y; cbn in X; rewrite X in Y; discriminate.
  - cbn. split; [discriminate|]. intros _. split; auto. intros a pkg c -> P _. exfalso. unfold ExistingPackageDeclaration in E. apply pk_spec in P. unfold pk in P. rewrite (find_none _ _ E pkg) in P; [discriminate|]. apply in_or_app; right; left; auto.
Qed.

(** ** Cases *)
Definition id0 (n : bytes) : ident := Ident no_com no_pos n.
Definition rule0 (n : bytes) (args : list expr) : option expr := Some (ECall no_com (EIdent (id0 n)) no_pos args (End no_com no_pos) false false).
Definition set0 (n : bytes) (v : expr) : expr := EAssign no_com (EIdent (id0 n)) no_pos %"=" false v.
Definition block0 : option expr := Some (ECommentBlock no_com no_pos).
Lemma package0 args : package_stmt (rule0 %"package" args).
Proof. exists no_com, (id0 %"package"), no_pos, args, (End no_com no_pos), false, false. split; reflexivity. Qed.
(** Two declarations move over two rules; the third stays behind the assignment. *)
Example C73_nontrivial :
  let one := set0 %"v" (ELit no_com no_pos %"1") in
  let stmts := [block0; rule0 %"r" []; rule0 %"package" [one]; rule0 %"s" []; rule0 %"package" []; rule0 %"t" []; Some one; rule0 %"package" []] in
  misplaced stmts 2 /\ map fst (packageOnTopWarning TypeBuild stmts) = [2; 4] /\
  packageOnTopFix (fun n => Nat.eqb n 4) TypeBuild stmts = [block0; rule0 %"package" [one]; rule0 %"package" []; rule0 %"r" []; rule0 %"s" []; rule0 %"t" []; Some one; rule0 %"package" []] /\
  movePackageDeclarationToTheTop stmts = (true, [block0; rule0 %"package" [one]; rule0 %"r" []; rule0 %"s" []; rule0 %"package" []; rule0 %"t" []; Some one; rule0 %"package" []]).
Proof.
  intros one stmts. split; [|split; [reflexivity|split; reflexivity]].
  apply (C73_lint_reports TypeBuild stmts 2). left. reflexivity.
Qed.
Example C74_nontrivial :
  let a := Some (set0 %"v" (ELit no_com no_pos %"1")) in
  movePackageDeclarationToTheTop [a; rule0 %"r" []; a; rule0 %"package" []; rule0 %"s" []] = (true, [a; rule0 %"package" []; rule0 %"r" []; a; rule0 %"s" []]) /\
  movePackageDeclarationToTheTop [a; rule0 %"package" []; rule0 %"r" []] = (false, [a; rule0 %"package" []; rule0 %"r" []]).
Proof. split; reflexivity. Qed.
(** buildozer moves a declaration over the assignment of a variable that it reads. *)
Theorem C74_assignment_refuted :
  exists r x p, let v := EIdent (id0 %"v") in x = Some (set0 %"v" (ELit no_com no_pos %"1")) /\ p = rule0 %"package" [set0 %"default_testonly" v] /\
    snd (movePackageDeclarationToTheTop [r; x; p]) = [p; r; x].
Proof. exists (rule0 %"r" []). eexists. eexists. split; [reflexivity|]. split; reflexivity. Qed.
Print Assumptions C73_lint_reports.
Print Assumptions C73_lint_fix.
Print Assumptions C73_lint_no_fix.
Print Assumptions C73_lint_done.
Print Assumptions C74_move_partial.
Print Assumptions C74_assignment_refuted.
