(** The names a file uses: [UsedSymbols], [UsedTypes] against [uses], [annotated]. *)
From Verif Require Import Base BaseProofs Ast Walk WalkSpec ScopeProofs Used UsedSpec.
Local Open Scope list_scope.

Lemma in_opts {A} (F : expr -> list A) o v : In v (List.concat (opt_list F o)) <-> exists x, o = Some x /\ In v (F x).
Proof. destruct o; cbn; rewrite ?app_nil_r; [firstorder congruence|firstorder discriminate]. Qed.
Lemma in_maps {A} (F : expr -> list A) l v : In v (List.concat (map F l)) <-> exists x, In x l /\ In v (F x).
Proof. rewrite <- flat_map_concat_map. apply in_flat_map. Qed.
Definition opaque (e : expr) : Prop := match e with ETyped _ _ _ | ELoad _ _ _ _ _ _ _ => True | _ => False end.
(** The children that the walkers visit. *)
Lemma children_parts {A} (F : expr -> list A) fs fi e v : ~ opaque e ->
  (In v (List.concat (fold_children2 F fs fi e)) <-> exists x, any_part e x /\ In v (F x)).
Proof.
  intro O. destruct e; try (elim O; exact Logic.I); cbn [fold_children2 any_part List.concat].
  all: rewrite ?concat_app, ?in_app_iff; cbn [List.concat]; rewrite ?in_app_iff, ?in_maps, ?in_opts; cbn [In]; rewrite ?in_app_iff, ?in_maps, ?in_opts.
  all: try (split; [intros []|intros (x & X & _); inversion X]; fail).
  all: try (split; [intros [(x & X & Y)|(x & X & Y)]; eauto|intros (x & [X|X] & Y); eauto]; fail).
  1: { split.
    + intro H. apply in_concat in H as (l & L & H). apply in_flat_map in L as ([x|] & X & L); [|destruct L]. destruct L as [<- |[]]. exists x. split; auto. now constructor.
    + intros (x & X & Y). inversion X; subst. apply in_concat. exists (F x). split; auto. apply in_flat_map. exists (Some x). split; auto. left; auto. }
  all: rewrite ?concat_app, ?in_app_iff, ?in_maps, ?in_opts.
  all: split; [intro H; repeat match goal with H : _ \/ _ |- _ => destruct H | H : exists _, _ /\ _ |- _ => destruct H as (? & ? & ?) | H : False |- _ => destruct H end;
    subst; eauto using sub|intros (z & Z & Y); inversion Z; subst; eauto 8].
Qed.
Lemma code_any e x : code_part e x -> any_part e x.
Proof. destruct e; cbn; auto. intros [-> |[-> _]]; constructor. Qed.
Theorem used_spec e n : In n (UsedSymbols e) <-> uses e n.
Proof.
  unfold UsedSymbols. induction e as [e IH] using sub_ind. assert (P : forall x, code_part e x -> sub e x).
  { intros x X. destruct e; cbn in X; auto; try (destruct X; fail). 1: destruct X as [-> |[-> _]]; constructor. destruct X; [now apply sub_dparam|now apply sub_dbody]. }
  assert (U : uses e n <-> (exists i, e = EIdent i /\ n = i_name i) \/ exists x, code_part e x /\ uses x n).
  { split; [intro H; inversion H; subst; eauto|]. intros [(i & -> & ->)|(x & X & Y)]; [constructor|econstructor; eauto]. }
  rewrite U. clear U.
  assert (G : ~ opaque e -> (forall i, e <> EIdent i) -> (forall c x p op b y, e <> EAssign c x p op b y) ->
    (In n (List.concat (fold_children2 (used_in false) (fun _ => []) (fun i => [i_name i]) e)) <-> (exists i, e = EIdent i /\ n = i_name i) \/ exists x, code_part e x /\ uses x n)).
  { intros O I1 A1. rewrite (children_parts _ _ _ _ _ O). split.
    - intros (x & X & Y). right. exists x. assert (C : code_part e x) by (destruct e; auto; elim (A1 c e1 p op lbreak e2); auto). split; auto. apply IH; auto.
    - intros [(i & -> & _)|(x & X & Y)]; [elim (I1 i); auto|]. exists x. split; [now apply code_any|]. apply IH; auto. }
  destruct e; try (apply G; [intros []; fail|discriminate|discriminate]); clear G; cbn [used_in].
  - cbn [In]. split; [intros [<- |[]]; eauto|]. intros [(j & X & ->)|(x & X & _)]; [injection X as ->; auto|inversion X].
  - cbn. split; [intros []|]. intros [(i' & X & _)|(x & [] & _)]. discriminate.
  - rewrite in_app_iff. assert (L : In n (used_in true e1) <-> (forall i, e1 <> EIdent i) /\ uses e1 n).
    { destruct e1; try (rewrite <- IH by constructor; cbn; split; [intro H; split; [discriminate|exact H]|intros [_ H]; exact H]; fail). cbn. split; [intros []|]. intros [H _]. elim (H i); auto. }
    rewrite L, IH by constructor. split.
    + intros [[N H]|H]; right; [exists e1|exists e2]; cbn; auto.
    + intros [(i & X & _)|(x & [-> |[-> N]] & H)]; [discriminate|auto|auto].
  - split; [intros []|]. intros [(i' & X & _)|(x & [] & _)]. discriminate.
Qed.

Lemma parts_visited e stk x : ~ opaque e -> any_part e x -> forall v, In v (visit (fun _ _ => false) (stk ++ [e]) x) -> In v (visit (fun _ _ => false) stk e).
Proof.
  intros O P v V.
  assert (U : visit (fun _ _ => false) stk e = (e, stk) :: List.concat (fold_children2 (visit (fun _ _ => false) (stk ++ [e])) (fun s => [(EStr s, stk ++ [e])]) (fun i => [(EIdent i, stk ++ [e])]) e)) by (destruct e; reflexivity).
  rewrite U. right. apply (children_parts _ _ _ _ _ O). eauto.
Qed.
Lemma any_open e x : any_part e x -> ~ opaque e.
Proof. destruct e; cbn; auto. Qed.
Lemma plain_types t n : plain_type t -> uses t n -> In n (GetTypes t).
Proof.
  induction t as [t IH] using sub_ind. intros P U. destruct t; try destruct P; inversion U; subst; cbn [GetTypes]; try (left; reflexivity).
  all: match goal with H : code_part _ _ |- _ => cbn [code_part] in H; inversion H; subst end.
  - replace (beq %"type" %"type") with true by reflexivity. apply IH; auto; constructor.
  - apply in_or_app. left. apply IH; auto; constructor.
  - apply in_or_app. right. apply IH; auto; constructor.
Qed.
Lemma types_complete e t n : annotated e t -> plain_type t -> uses t n -> In n (UsedTypes e).
Proof.
  intros A P U. unfold UsedTypes, Walk. generalize (@nil expr) as stk. induction A; intro stk.
  - cbn [visit flat_map fst GetTypes]. apply in_or_app. left. now apply plain_types.
  - cbn [visit flat_map fst GetTypes]. apply in_or_app. left. apply in_or_app. left. now apply plain_types.
  - specialize (IHA P U (stk ++ [e])). apply in_flat_map in IHA as (v & V & IHA). apply in_flat_map. exists v. split; auto.
    eapply parts_visited; eauto using any_open.
Qed.
(** Everything that is counted is there. *)
Lemma get_types_mentions t n : In n (GetTypes t) -> mentions t n.
Proof.
  induction t as [t IH] using sub_ind. intro H. destruct t; cbn [GetTypes] in H; try (destruct H; fail).
  - destruct H as [<- |[]]. constructor.
  - constructor. apply IH; [constructor|auto].
  - destruct (beq _ _); [|destruct H]. eapply m_code; [apply sub_dot|]. apply IH; [constructor|auto].
  - apply in_app_or in H as [H|H]; (eapply m_code; [|apply IH; [|exact H]]); now constructor.
  - apply in_app_or in H as [H|H].
    + destruct ty as [t|]; [|destruct H]. apply m_result. apply IH; [now constructor|auto].
    + apply in_flat_map in H as (x & X & H). eapply m_code; [|apply IH; [|exact H]]; [left; auto|now constructor].
Qed.
Lemma uses_mentions e n : uses e n -> mentions e n.
Proof. induction 1; [constructor|eapply m_code; eauto]. Qed.
Lemma types_sound e n : In n (UsedTypes e) -> mentions e n.
Proof.
  unfold UsedTypes, Walk. generalize (@nil expr) as stk. induction e as [e IH] using sub_ind. intros stk H.
  assert (U : visit (fun _ _ => false) stk e = (e, stk) :: List.concat (fold_children2 (visit (fun _ _ => false) (stk ++ [e])) (fun s => [(EStr s, stk ++ [e])]) (fun i => [(EIdent i, stk ++ [e])]) e)) by (destruct e; reflexivity).
  rewrite U in H. cbn [flat_map fst] in H. apply in_app_or in H as [H|H].
  - destruct e; try (destruct H; fail); now apply get_types_mentions.
  - apply in_flat_map in H as (v & V & H). assert (D : opaque e \/ ~ opaque e) by (destruct e; cbn; auto). destruct D as [O|O].
    + exfalso. destruct e; try destruct O; cbn [fold_children2 List.concat app] in V; [destruct V|]. destruct V as [<- |V]; [destruct H|].
      assert (Z : exists i, fst v = EIdent i); [|destruct Z as (i & Z); rewrite Z in H; destruct H].
      clear - V. generalize dependent (stk ++ [ELoad c p m from to r compact]). intros q V. revert to V. induction from as [|a fr IH]; intros [|b to] V; try (destruct V; fail). cbn in V. destruct V as [<- |[<- |V]]; cbn; eauto.
    + apply (children_parts _ _ _ _ _ O) in V as (x & X & V).
      assert (S1 : sub e x) by (destruct e; cbn in X; auto; try (elim O; exact Logic.I); destruct X; [now apply sub_dparam|now apply sub_dbody]).
      assert (M : mentions x n) by (eapply IH; [exact S1|apply in_flat_map; eauto]). eapply m_code; [|exact M].
      destruct e; auto. cbn in *. inversion X; subst; auto. right. split; auto. intros i ->. cbn in V. destruct V as [<- |[]]. destruct H.
Qed.
