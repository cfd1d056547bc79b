(** General facts about editing walks. *)
From Verif Require Import Base BaseProofs Ast Walk WalkSpec WalkProofs.

Lemma map_pref_length {A B} (f : A -> A) l : forall o : list B, List.length (map_pref f l o) = List.length l.
Proof. induction l as [|a l IH]; intros [|b o]; simpl; auto. Qed.
Lemma map_const_length {A B C} (b : C) (l : list A) (l' : list B) :
  List.length l = List.length l' -> map (fun _ => b) l = map (fun _ => b) l'.
Proof. revert l'. induction l as [|x l IH]; intros [|y l']; simpl; try discriminate; auto. intros H; f_equal; auto. Qed.
Lemma shell_map_children f e : shell (map_children f e) = shell e.
Proof.
  assert (O : forall A (o : option A) (g : A -> expr), option_map (fun _ => blank) (option_map g o) = option_map (fun _ => blank) o) by (intros ? [] ?; auto).
  destruct e; simpl; rewrite ?map_map, ?O; auto.
  - f_equal. apply map_ext. intros [x|]; auto.
  - f_equal; apply map_const_length; apply map_pref_length.
Qed.

Definition cb_kind (cb : list expr -> expr -> expr) : Prop :=
  (forall stk s, exists s', cb stk (EStr s) = EStr s') /\ (forall stk i, exists i', cb stk (EIdent i) = EIdent i').
Section Edit.
  Context (cb : list expr -> expr -> expr) (Hcb : forall stk e, height (cb stk e) <= height e)
    (Hk : cb_kind cb).
  Lemma Edit_kind stk : kind_ok (Edit_from cb stk).
  Proof.
    destruct Hk as [H1 H2]. split.
    - intros s. rewrite Edit_from_unfold by auto. destruct (H1 stk s) as [s' ->]. exists s'; auto.
    - intros i. rewrite Edit_from_unfold by auto. destruct (H2 stk i) as [i' ->]. exists i'; auto.
  Qed.
  Lemma Edit_children stk e :
    children (Edit_from cb stk e) = map (Edit_from cb (stk ++ [cb stk e])) (children (cb stk e)).
  Proof. rewrite Edit_from_unfold by auto. apply children_map_children, Edit_kind. Qed.
  Lemma Edit_shell stk e : shell (Edit_from cb stk e) = shell (cb stk e).
  Proof. rewrite Edit_from_unfold by auto. apply shell_map_children. Qed.
  Lemma Edit_walked (R : list expr -> expr -> expr -> Prop) :
    (forall stk e, R stk e (cb stk e)) -> forall e stk, walked R stk e (Edit_from cb stk e).
  Proof.
    intros HR e. remember (height e) as n eqn:E. revert e E. induction n as [n IH] using lt_wf_ind. intros e -> stk.
    econstructor; [apply HR|symmetry; apply Edit_shell|].
    rewrite Edit_children.
    assert (G : forall c, In c (children (cb stk e)) -> height c < height e).
    { intros c Hc. apply height_child in Hc. specialize (Hcb stk e). lia. }
    revert G. generalize (children (cb stk e)) as l. induction l as [|c l IHl]; intros G; simpl; constructor.
    - eapply IH; eauto. apply G; left; auto.
    - apply IHl. intros; apply G; right; auto.
  Qed.
  (** A walk that changes nothing. *)
  Lemma Edit_id (P : list expr -> expr -> Prop) :
    (forall stk e, P stk e -> cb stk e = e /\ forall c, In c (children e) -> P (stk ++ [e]) c) ->
    forall e stk, P stk e -> Edit_from cb stk e = e.
  Proof.
    intros H e. induction e as [e IH] using expr_children_ind. intros stk Hp.
    destruct (H _ _ Hp) as [H1 H2]. rewrite Edit_from_unfold, H1 by auto.
    apply map_children_id_in. intros c Hc. apply IH; auto.
  Qed.
  (** Idempotence: the callback looks at its ancestors only through their comments, keeps the
      node's comments, and changes nothing in a finished node. *)
  Lemma Edit_idem :
    (forall stk stk' e, map com stk = map com stk' -> cb stk e = cb stk' e) ->
    (forall stk e, com (cb stk e) = com e) ->
    (forall stk e, cb stk (Edit_from cb stk e) = Edit_from cb stk e) ->
    forall e stk, Edit_from cb stk (Edit_from cb stk e) = Edit_from cb stk e.
  Proof.
    intros Hs Hc Hf.
    assert (Hcom : forall stk e, com (Edit_from cb stk e) = com (cb stk e)).
    { intros. rewrite Edit_from_unfold by auto. destruct (cb stk e); auto; simpl. }
    assert (Hstk : forall e stk stk', map com stk = map com stk' -> Edit_from cb stk e = Edit_from cb stk' e).
    { intros e. remember (height e) as n eqn:E. revert e E. induction n as [n IH] using lt_wf_ind. intros e -> stk stk' H.
      rewrite !(Edit_from_unfold cb Hcb). rewrite (Hs stk stk') by auto. apply map_children_ext. intros c Hin.
      apply height_child in Hin. specialize (Hcb stk' e) as Hh.
      eapply IH; [|reflexivity|]; [lia|]. rewrite !map_app, H. auto. }
    intros e. remember (height e) as n eqn:E. revert e E. induction n as [n IH] using lt_wf_ind. intros e -> stk.
    rewrite (Edit_from_unfold cb Hcb stk (Edit_from cb stk e)). rewrite Hf.
    apply map_children_id_in. rewrite Edit_children. intros c Hin. apply in_map_iff in Hin as (d & <- & Hin).
    assert (Hh : height d < height e). { apply height_child in Hin. specialize (Hcb stk e). lia. }
    rewrite (Hstk (Edit_from cb (stk ++ [cb stk e]) d) (stk ++ [Edit_from cb stk e]) (stk ++ [cb stk e])).
    - eapply IH; eauto.
    - rewrite !map_app. simpl. rewrite Hcom. auto.
  Qed.
  Lemma Edit_com stk e : com (Edit_from cb stk e) = com (cb stk e).
  Proof. rewrite Edit_from_unfold by auto. destruct (cb stk e); auto; simpl. Qed.
End Edit.
