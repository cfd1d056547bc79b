(** Strict weak orders given as boolean comparators, and lexicographic composition. *)
From Verif Require Import Base BaseProofs.

Record swo {A} (lt : A -> A -> bool) : Prop := {
  swo_asym : forall x y, lt x y = true -> lt y x = false;
  swo_ntrans : forall x y z, lt x y = false -> lt y z = false -> lt x z = false }.
Arguments swo_asym {A lt}.
Arguments swo_ntrans {A lt}.

Lemma swo_irrefl {A} (lt : A -> A -> bool) : swo lt -> forall x, lt x x = false.
Proof. intros H x. destruct (lt x x) eqn:E; auto. rewrite (swo_asym H x x E) in E; discriminate. Qed.
Lemma swo_trans {A} (lt : A -> A -> bool) : swo lt -> forall x y z, lt x y = true -> lt y z = true -> lt x z = true.
Proof.
  intros H x y z H1 H2. destruct (lt x z) eqn:E; auto.
  apply (swo_asym H) in H2. rewrite (swo_ntrans H x z y) in H1; auto.
Qed.
Lemma swo_eq_compat {A} (lt : A -> A -> bool) : swo lt ->
  forall x y z, lt x y = false -> lt y x = false -> lt x z = lt y z.
Proof.
  intros H x y z H1 H2.
  destruct (lt x z) eqn:E1, (lt y z) eqn:E2; auto.
  - rewrite (swo_ntrans H x y z) in E1; auto.
  - rewrite (swo_ntrans H y x z) in E2; auto.
Qed.

Lemma swo_total_intro {A} (lt : A -> A -> bool) :
  (forall x y, lt x y = true -> lt y x = false) ->
  (forall x y z, lt x y = true -> lt y z = true -> lt x z = true) ->
  (forall x y, x = y \/ lt x y = true \/ lt y x = true) -> swo lt.
Proof.
  intros H1 H2 H3. split; auto. intros x y z Hx Hy.
  destruct (H3 y x) as [->|[E|E]]; auto; [|congruence].
  destruct (H3 z y) as [->|[F|F]]; auto; [|congruence].
  destruct (lt x z) eqn:G; auto. apply H1 in G. rewrite (H2 z y x) in G; auto.
Qed.

Lemma swo_pull {A B} (f : A -> B) (lt : B -> B -> bool) : swo lt -> swo (fun x y => lt (f x) (f y)).
Proof. intros H. split; intros; [eapply swo_asym|eapply swo_ntrans]; eauto. Qed.

Definition lex {A} (lt1 lt2 : A -> A -> bool) (x y : A) : bool :=
  if lt1 x y then true else if lt1 y x then false else lt2 x y.
Lemma swo_lex {A} (lt1 lt2 : A -> A -> bool) : swo lt1 -> swo lt2 -> swo (lex lt1 lt2).
Proof.
  intros H1 H2. split; unfold lex.
  - intros x y. destruct (lt1 x y) eqn:E.
    + rewrite (swo_asym H1 _ _ E). auto.
    + destruct (lt1 y x) eqn:F; [discriminate|]. apply (swo_asym H2).
  - intros x y z.
    destruct (lt1 x y) eqn:A1; [discriminate|].
    destruct (lt1 y z) eqn:A2; [discriminate|].
    rewrite (swo_ntrans H1 x y z) by auto.
    destruct (lt1 z x) eqn:A3; auto.
    destruct (lt1 y x) eqn:A4.
    { intros _ _.
      (* y < x, not z < x, so ... y < x -> y<z or z<x *)
      destruct (lt1 z y) eqn:A5; [|rewrite (swo_ntrans H1 y z x) in A4; auto; discriminate].
      rewrite (swo_trans _ H1 z y x) in A3; auto; discriminate. }
    destruct (lt1 z y) eqn:A5.
    { rewrite (swo_ntrans H1 z x y) in A5; auto; discriminate. }
    intros. eapply (swo_ntrans H2); eauto.
Qed.
Lemma lex_incomparable {A} (lt1 lt2 : A -> A -> bool) x y :
  lex lt1 lt2 x y = false -> lex lt1 lt2 y x = false ->
  lt1 x y = false /\ lt1 y x = false /\ lt2 x y = false /\ lt2 y x = false.
Proof.
  unfold lex. destruct (lt1 x y) eqn:E; [discriminate|].
  destruct (lt1 y x) eqn:F; [discriminate|]. auto.
Qed.

Lemma swo_blt : swo blt.
Proof.
  apply swo_total_intro.
  - apply blt_asym. - apply blt_trans.
  - intros x y. destruct (bytes_eq_dec x y); auto. right. apply blt_total; auto.
Qed.
Lemma blt_incomparable a b : blt a b = false -> blt b a = false -> a = b.
Proof. intros H1 H2. destruct (bytes_eq_dec a b) as [|n]; auto. apply blt_total in n as [H|H]; congruence. Qed.
Lemma swo_nat : swo Nat.ltb.
Proof. split; intros *; rewrite ?Nat.ltb_lt, ?Nat.ltb_ge; lia. Qed.
Lemma nat_incomparable a b : Nat.ltb a b = false -> Nat.ltb b a = false -> a = b.
Proof. rewrite !Nat.ltb_ge. lia. Qed.
Lemma swo_Z : swo Z.ltb.
Proof. split; intros *; rewrite ?Z.ltb_lt, ?Z.ltb_ge; lia. Qed.
Lemma Z_incomparable a b : Z.ltb a b = false -> Z.ltb b a = false -> a = b.
Proof. rewrite !Z.ltb_ge. lia. Qed.
(** true before false *)
Definition bool_lt (a b : bool) : bool := a && negb b.
Lemma swo_bool : swo bool_lt.
Proof. split; intros [] []; try intros []; simpl; congruence. Qed.
Lemma bool_incomparable a b : bool_lt a b = false -> bool_lt b a = false -> a = b.
Proof. destruct a, b; simpl; congruence. Qed.

(** Lexicographic order on lists. *)
Fixpoint list_lt {A} (lt : A -> A -> bool) (a b : list A) : bool :=
  match a, b with
  | _, [] => false
  | [], _ :: _ => true
  | x :: a', y :: b' => if lt x y then true else if lt y x then false else list_lt lt a' b'
  end.
Lemma swo_list {A} (lt : A -> A -> bool) : swo lt -> swo (list_lt lt).
Proof.
  intros H. split.
  - induction x as [|x a IH]; intros [|y b]; simpl; auto; try discriminate.
    destruct (lt x y) eqn:E.
    + rewrite (swo_asym H _ _ E). auto.
    + destruct (lt y x) eqn:F; [discriminate|]. apply IH.
  - induction x as [|x a IH]; intros [|y b] [|z c]; simpl; auto; try discriminate.
    destruct (lt x y) eqn:A1; [discriminate|].
    destruct (lt y z) eqn:A2; [discriminate|].
    rewrite (swo_ntrans H x y z) by auto.
    destruct (lt z x) eqn:A3; auto.
    destruct (lt y x) eqn:A4.
    { intros _ _. destruct (lt z y) eqn:A5; [|rewrite (swo_ntrans H y z x) in A4; auto; discriminate].
      rewrite (swo_trans _ H z y x) in A3; auto; discriminate. }
    destruct (lt z y) eqn:A5.
    { rewrite (swo_ntrans H z x y) in A5; auto; discriminate. }
    apply IH.
Qed.
Lemma list_lt_incomparable {A} (lt : A -> A -> bool) :
  (forall x y, lt x y = false -> lt y x = false -> x = y) ->
  forall a b, list_lt lt a b = false -> list_lt lt b a = false -> a = b.
Proof.
  intros H. induction a as [|x a IH]; intros [|y b]; simpl; auto; try discriminate.
  destruct (lt x y) eqn:E; [discriminate|]. destruct (lt y x) eqn:F; [discriminate|].
  intros H1 H2. rewrite (H x y), (IH b); auto.
Qed.

(** Sorting with a strict weak order. *)
Lemma isort_swo_sorted {A} (lt : A -> A -> bool) l : swo lt ->
  StronglySorted (fun x y => lt y x = false) (isort lt l).
Proof.
  intros H. apply (isort_strongly_sorted lt).
  - exact (swo_asym H).
  - unfold nlt. intros x y z H1 H2. exact (swo_ntrans H z y x H2 H1).
Qed.
