(** Property C25: removal of parentheses. *)
From Verif Require Import Base BaseProofs Ast Walk WalkSpec WalkProofs WalkGen Rewrite ParenSpec.

Lemma remove_parens_kind n : kind_ok (remove_parens n).
Proof. split; intros; destruct n; eexists; reflexivity. Qed.
Lemma deparen_refl e : deparen e e.
Proof.
  induction e as [e IH] using expr_children_ind. apply dp_node; auto.
  induction (children e) as [|c l IHl]; constructor; [apply IH; left; auto|]. apply IHl. intros; apply IH; right; auto.
Qed.
Lemma no_comments_eq c : no_comments c = true -> c = no_com.
Proof. destruct c as [[] [] []]; try discriminate. auto. Qed.
Lemma removable_spec x : paren_removable x = true <-> self_contained x.
Proof. destruct x; simpl; try tauto; try (intuition discriminate). apply Z.eqb_eq. Qed.
Lemma map_children_deparen f e : kind_ok f -> (forall c, deparen c (f c)) -> deparen e (map_children f e).
Proof.
  intros Hk H. apply dp_node; [symmetry; apply shell_map_children|].
  rewrite children_map_children by auto. induction (children e); simpl; constructor; auto.
Qed.
Lemma remove_parens_deparen n : forall e, deparen e (remove_parens n e).
Proof.
  induction n as [|n IH]; intros e; [apply deparen_refl|]. cbn [remove_parens].
  eapply dp_trans; [|apply map_children_deparen; [apply remove_parens_kind|exact IH]].
  destruct e; try apply deparen_refl.
  destruct multi; cbn [negb andb]; [apply deparen_refl|].
  destruct (no_comments c) eqn:N; cbn [andb]; [|apply deparen_refl].
  destruct (paren_removable e) eqn:R; [|apply deparen_refl].
  apply no_comments_eq in N as ->. eapply dp_trans; [apply dp_drop; apply removable_spec; auto|apply IH].
Qed.
Lemma shell_paren e e' : shell e = shell e' -> forall c p x en m, e = EParen c p x en m -> exists x', e' = EParen c p x' en m.
Proof. intros H c p x en m ->. destruct e'; try discriminate H. simpl in H. injection H as -> -> -> ->. eauto. Qed.
Lemma Forall2_same_left {A B} (R : A -> A -> Prop) (S : A -> B -> Prop) l l' :
  Forall2 (fun a b => R a b /\ forall t, S a t <-> S b t) l l' -> forall ts, Forall2 S l ts <-> Forall2 S l' ts.
Proof.
  induction 1 as [|a b l l' [_ H] F IH]; intros ts; [tauto|].
  split; inversion 1; subst; constructor; try (apply H; auto); apply IH; auto.
Qed.
Section Ind.
  (* induction principle with the nested lists *)
  Context (P : expr -> expr -> Prop)
    (Hn : forall e e', shell e = shell e' -> Forall2 (fun a b => deparen a b /\ P a b) (children e) (children e') -> P e e')
    (Hd : forall p x en, self_contained x -> P (EParen no_com p x en false) x)
    (Ht : forall a b c, P a b -> P b c -> P a c).
  Fixpoint deparen_ind' e e' (H : deparen e e') : P e e' :=
    match H with
    | dp_node e e' Hs Hf =>
        Hn e e' Hs
          ((fix go l l' (F : Forall2 deparen l l') : Forall2 (fun a b => deparen a b /\ P a b) l l' :=
              match F with
              | Forall2_nil _ => Forall2_nil _
              | Forall2_cons x y h t => Forall2_cons x y (conj h (deparen_ind' x y h)) (go _ _ t)
              end) _ _ Hf)
    | dp_drop p x en Hx => Hd p x en Hx
    | dp_trans a b c H1 H2 => Ht a b c (deparen_ind' _ _ H1) (deparen_ind' _ _ H2)
    end.
End Ind.
Lemma deparen_erased e e' : deparen e e' -> forall t, erased e t <-> erased e' t.
Proof.
  revert e e'. refine (deparen_ind' (fun e e' => forall t, erased e t <-> erased e' t) _ _ _).
  - intros e e' Hs Hf. pose proof (Forall2_same_left deparen erased _ _ Hf) as HF. intros t.
    destruct e eqn:E;
    try (assert (Ne : forall c p x en m, e <> EParen c p x en m) by (intros; subst; discriminate);
         assert (Ne' : forall c p x en m, e' <> EParen c p x en m)
           by (intros c0 p0 x0 en0 m0 E0; destruct (shell_paren e' e (eq_sym (eq_trans (f_equal shell E) Hs)) _ _ _ _ _ E0) as [x' Ex]; eapply Ne; eauto);
         rewrite <- E in *;
         split; inversion 1; subst; try (exfalso; eapply Ne; eauto; fail); try (exfalso; eapply Ne'; eauto; fail);
         apply er_node; auto; try congruence; try (apply HF; auto); fail).
    (* parenthesis node *)
    destruct (shell_paren _ _ Hs _ _ _ _ _ eq_refl) as [x' ->].
    unfold children, fold_children in Hf; simpl in Hf. inversion_clear Hf as [|? ? ? ? [_ H0] _].
    split; inversion 1; subst; try (exfalso; match goal with H : forall _ _ _ _ _, _ <> _ |- _ => eapply H; reflexivity end);
      constructor; apply H0; auto.
  - intros p x en Hx t. split; [inversion 1; subst; auto|constructor; auto].
    exfalso. match goal with H : forall _ _ _ _ _, _ <> _ |- _ => eapply H; reflexivity end.
  - intros a b c H1 H2 t. rewrite H1. apply H2.
Qed.
Fixpoint erase (n : nat) (e : expr) : expr :=
  match n with
  | 0 => e
  | S n => match e with EParen _ _ x _ _ => erase n x | _ => map_children (erase n) e end
  end.
Lemma erase_erased n : forall e, height e <= n -> erased e (erase n e).
Proof.
  induction n as [|n IH]; intros e H; [rewrite height_unfold in H; lia|].
  assert (Hk : kind_ok (erase n)) by (split; intros; destruct n; eexists; reflexivity).
  assert (Hc : forall c, In c (children e) -> erased c (erase n c)) by (intros c Hc; apply IH; apply height_child in Hc; lia).
  assert (F : Forall2 erased (children e) (map (erase n) (children e))).
  { revert Hc. generalize (children e) as ll. induction ll; simpl; intros Hc; constructor; auto. }
  destruct e eqn:E; try (rewrite <- E in *;
    replace (erase (S n) e) with (map_children (erase n) e) by (subst; reflexivity);
    apply er_node; [intros; subst; discriminate|symmetry; apply shell_map_children|];
    rewrite children_map_children by auto; auto; fail).
  cbn [erase]. constructor. apply Hc. left. auto.
Qed.

(** C25: only uncommented parentheses around self-contained expressions are deleted... *)
Theorem C25_only_redundant_parens :
  forall f, deparen f (removeParens f).
Proof. intros. apply remove_parens_deparen. Qed.
Print Assumptions C25_only_redundant_parens.
(** ... so that input and output are the same tree when all parentheses are ignored. *)
Theorem C25_same_tree_without_parens :
  forall f, (exists t, erased f t) /\ forall t, erased f t <-> erased (removeParens f) t.
Proof.
  intros f. split; [exists (erase (height f) f); apply erase_erased; auto|].
  apply deparen_erased, C25_only_redundant_parens.
Qed.
Print Assumptions C25_same_tree_without_parens.
Example C25_nontrivial :
  let id n := EIdent (Ident no_com no_pos n) in
  let par x := EParen no_com no_pos x (End no_com no_pos) false in
  let plus a b := EBinary no_com a no_pos %"+" false b in
  removeParens (plus (par (par (id %"a"))) (par (plus (par (id %"b")) (id %"c"))))
  = plus (id %"a") (par (plus (id %"b") (id %"c"))).
Proof. vm_compute. reflexivity. Qed.
