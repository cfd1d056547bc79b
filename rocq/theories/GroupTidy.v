(** Adding the printer's parentheses changes neither the meaning nor the layout (C70). *)
From Verif Require Import Base BaseProofs Ast AttachTree Utf8 Quote Lex ParseSpec ShapeSpec Print PrintSpec PrintSource Group.
Local Open Scope list_scope.

Lemma shape_set c e : shape (set_com c e) = shape e.
Proof. now destruct e. Qed.
Lemma meaning_wrap n e g : meaning g = meaning e -> meaning (wrap n e g) = meaning e.
Proof. intro H. unfold wrap. destruct (prec e <? n); [|exact H]. unfold meaning in *. cbn [shape plain]. now rewrite shape_set. Qed.
Lemma meaning_group e : meaning (group e) = meaning e.
Proof.
  induction e as [e IH] using expr_ind_subs.
  assert (W : forall n x, In x (subs (fun y => y) e) -> plain (shape (grp n x)) = plain (shape x)) by (intros n x I; apply meaning_wrap, IH, I).
  assert (L : forall l, (forall x, In x l -> In x (subs (fun y => y) e)) -> map plain (map shape (map group l)) = map plain (map shape l)) by (intros l H; rewrite !map_map; apply map_ext_in; intros x X; apply IH; auto).
  assert (B : forall l, (forall x, In x l -> In x (subs (fun y => y) e)) -> map plain (flat_map (fun s => if is_code s then [shape s] else []) (map group l)) = map plain (flat_map (fun s => if is_code s then [shape s] else []) l)).
  { induction l as [|x l IHl]; intro H; [reflexivity|]. cbn [map flat_map]. rewrite !map_app, IHl by (intros; apply H; now right). f_equal. replace (is_code (group x)) with (is_code x) by now destruct x.
    destruct (is_code x); [|reflexivity]. cbn [map]. f_equal. apply IH, H. now left. }
  assert (O : forall o, (forall x, o = Some x -> In x (subs (fun y => y) e)) -> option_map plain (option_map shape (option_map group o)) = option_map plain (option_map shape o)) by (intros [x|] H; [cbn; f_equal; apply IH; auto|reflexivity]).
  assert (OW : forall n o, (forall x, o = Some x -> In x (subs (fun y => y) e)) -> option_map plain (option_map shape (option_map (fun x => grp n x) o)) = option_map plain (option_map shape o)) by (intros n [x|] H; [cbn; f_equal; apply W; auto|reflexivity]).
  unfold meaning in *.
  destruct e; cbn [group shape plain]; cbn [subs] in W, L, B, O, OW, IH; rewrite ?map_id in W; rewrite ?map_id in L; rewrite ?map_id in B; rewrite ?map_id in O; rewrite ?map_id in OW; rewrite ?map_id in IH; try reflexivity.
  all: try (apply IH; cbn; auto; fail).
  all: f_equal; try (apply IH; cbn; tauto); try (apply W; cbn; tauto); try (apply L; intros; cbn; rewrite ?in_app_iff; tauto); try (apply B; intros; cbn; rewrite ?in_app_iff; tauto); try (apply O; intros; subst; cbn; rewrite ?in_app_iff; cbn; tauto); try (apply OW; intros; subst; cbn; rewrite ?in_app_iff; cbn; tauto).
  rewrite !map_map. apply map_ext_in. intros [x|] X; [|reflexivity]. cbn. f_equal. apply IH. apply in_flat_map. exists (Some x). split; [exact X|now left].
Qed.
Lemma meanings_group l : meanings (map group l) = meanings l.
Proof.
  unfold meanings, code. induction l as [|x l IH]; [reflexivity|]. cbn [map filter]. replace (is_code (group x)) with (is_code x) by now destruct x.
  destruct (is_code x); cbn [map]; rewrite IH; [now rewrite meaning_group|reflexivity].
Qed.

(** ** Layout *)
Lemma tidy_inside e : forall w, tidy w e -> tidy Inside e.
Proof.
  induction e as [e IH] using expr_ind_subs. intros w T.
  assert (S1 : forall w x, In x (subs (fun y => y) e) -> (w <> Inside -> c_before (com x) = []) /\ tidy w x -> (Inside <> Inside -> c_before (com x) = []) /\ tidy Inside x) by (intros w' x I1 [I3 I4]; split; [congruence|eauto]).
  assert (SL : forall w l, (forall x, In x l -> In x (subs (fun y => y) e)) -> all_of (fun x => (w <> Inside -> c_before (com x) = []) /\ tidy w x) l -> all_of (fun x => (Inside <> Inside -> c_before (com x) = []) /\ tidy Inside x) l).
  { intros w' l I1. apply all_impl. intros x X. apply S1. auto. }
  assert (SO : forall w o, (forall x, o = Some x -> In x (subs (fun y => y) e)) -> if_any (fun x => (w <> Inside -> c_before (com x) = []) /\ tidy w x) o -> if_any (fun x => (Inside <> Inside -> c_before (com x) = []) /\ tidy Inside x) o).
  { intros w' o I1. apply any_impl. intros x ->. apply S1. now apply I1. }
  destruct e; cbn [tidy] in *; cbn [subs] in S1, SL, SO, IH; rewrite ?map_id in S1; rewrite ?map_id in SL; rewrite ?map_id in SO; rewrite ?map_id in IH;
    repeat match goal with H : _ /\ _ |- _ => destruct H end; repeat match goal with |- _ /\ _ => split end; auto; try discriminate.
  all: try (eapply S1; eauto; cbn; tauto); try (eapply SL; eauto; intros; cbn; rewrite ?in_app_iff; tauto); try (eapply SO; eauto; intros; subst; cbn; rewrite ?in_app_iff; cbn; tauto).
  all: try (split; congruence).
  destruct nobr; [|assumption]. destruct H0 as [H0 H1]. split; [|exact H1]. revert H0. apply all_impl. intros x X (X1 & X2 & X3). repeat split; auto. eapply IH; eauto.
Qed.
Lemma fine_none : fine_coms no_com.
Proof. unfold fine_coms. cbn. auto. Qed.
Lemma tidy_set w e : prec e < precSuffix -> tidy w e -> tidy w (set_com no_com e).
Proof. intros P T. destruct e; cbn [prec] in P; try (exfalso; lia); (split; [apply fine_none|exact (proj2 T)]). Qed.
Lemma prec_group e : prec (group e) = prec e.
Proof. now destruct e. Qed.
Lemma tidy_wrap w n e g : n <= precSuffix -> prec g = prec e -> com g = com e -> tidy w e -> tidy w g -> tidy w (wrap n e g).
Proof.
  intros L P C T T2. unfold wrap. destruct (prec e <? n) eqn:E; [|exact T2]. apply Nat.ltb_lt in E. cbn [tidy com].
  split; [|split; [split; [congruence|]|apply fine_none]].
  - destruct e; exact (proj1 T).
  - apply tidy_set; [rewrite P; lia|]. eapply tidy_inside; eauto.
Qed.
Lemma fine_respell s : fine_str s -> fine_str (respell s).
Proof. intros [F1 F2]. split; [exact F1|]. change (s_value (respell s)) with (s_value s). change (s_triple (respell s)) with (s_triple s). now rewrite respell_text. Qed.
Lemma all_map {A B} (P : B -> Prop) (f : A -> B) l : all_of P (map f l) <-> all_of (fun x => P (f x)) l.
Proof. induction l as [|x l IH]; cbn; [tauto|]. now rewrite IH. Qed.
Lemma tidy_group e : forall w, tidy w e -> tidy w (group e).
Proof.
  induction e as [e IH] using expr_ind_subs. intros w T.
  assert (G1 : forall w x, In x (subs (fun y => y) e) -> (w <> Inside -> c_before (com x) = []) /\ tidy w x -> (w <> Inside -> c_before (com (group x)) = []) /\ tidy w (group x)) by (intros w' x I1 [I3 I4]; rewrite com_group; split; auto).
  assert (W1 : forall n w x, In x (subs (fun y => y) e) -> n <= precSuffix -> (w <> Inside -> c_before (com x) = []) /\ tidy w x -> (w <> Inside -> c_before (com (grp n x)) = []) /\ tidy w (grp n x)).
  { intros n w' x I1 L [I3 I4]; rewrite com_grp; split; auto. apply tidy_wrap; auto using prec_group, com_group. }
  assert (WT : forall n w x, In x (subs (fun y => y) e) -> n <= precSuffix -> tidy w x -> tidy w (grp n x)) by (intros; apply tidy_wrap; auto using prec_group, com_group).
  assert (GL : forall w l, (forall x, In x l -> In x (subs (fun y => y) e)) -> all_of (fun x => (w <> Inside -> c_before (com x) = []) /\ tidy w x) l -> all_of (fun x => (w <> Inside -> c_before (com x) = []) /\ tidy w x) (map group l)).
  { intros w' l I1 H. apply all_map. revert H. apply all_impl. intros x X. apply G1. auto. }
  assert (GB : forall l, (forall x, In x l -> In x (subs (fun y => y) e)) -> all_of (tidy Outside) l -> all_of (tidy Outside) (map group l)).
  { intros l I1 H. apply all_map. revert H. apply all_impl. intros x X. apply IH. auto. }
  assert (GO : forall w o, (forall x, o = Some x -> In x (subs (fun y => y) e)) -> if_any (fun x => (w <> Inside -> c_before (com x) = []) /\ tidy w x) o -> if_any (fun x => (w <> Inside -> c_before (com x) = []) /\ tidy w x) (option_map group o)).
  { intros w' [x|] I1; cbn; auto. }
  assert (WO : forall n w o, (forall x, o = Some x -> In x (subs (fun y => y) e)) -> n <= precSuffix -> if_any (fun x => (w <> Inside -> c_before (com x) = []) /\ tidy w x) o -> if_any (fun x => (w <> Inside -> c_before (com x) = []) /\ tidy w x) (option_map (fun x => grp n x) o)).
  { intros n w' [x|] I1 L; cbn; auto. }
  destruct e; cbn [tidy group] in *; cbn [subs] in G1, W1, WT, GL, GB, GO, WO, IH; rewrite ?map_id in G1; rewrite ?map_id in W1; rewrite ?map_id in WT; rewrite ?map_id in GL; rewrite ?map_id in GB; rewrite ?map_id in GO; rewrite ?map_id in WO; rewrite ?map_id in IH;
    repeat match goal with H : _ /\ _ |- _ => destruct H end; repeat match goal with |- _ /\ _ => split end; auto.
  all: try (eapply G1; eauto; cbn; tauto); try (eapply GL; eauto; intros; cbn; rewrite ?in_app_iff; tauto); try (eapply GO; eauto; intros; subst; cbn; rewrite ?in_app_iff; cbn; tauto); try (eapply GB; eauto; intros; cbn; rewrite ?in_app_iff; tauto).
  all: try (eapply W1; eauto; [cbn; tauto|unfold precSuffix, precAssign, precIfElse; lia]).
  all: try (rewrite com_grp; assumption). all: try (now apply fine_respell).
  all: try (apply WT; [cbn; tauto|pose proof (opPrec_max op); unfold precSuffix, precMultiply in *; lia|assumption]).
  all: try (apply WT; [cbn; tauto|unfold precSuffix; lia|assumption]).
  - intro X. rewrite (different_lines npos (end_pos (grp precSuffix e)) npos (end_pos e) eq_refl (endl_grp _ _)). auto.
  - destruct nobr; [|split; [eapply GL; [auto|]|]; apply H0]. destruct H0 as [H0 H1]. split; [|exact H1]. apply all_map. revert H0. apply all_impl.
    intros x X (X1 & X2 & X3). rewrite com_group. repeat split; auto.
  - apply WO; [|unfold precSuffix; lia|assumption]. intros y ->. now left.
  - intro X. destruct step; [|now elim X]. match goal with H : Some _ <> None -> _ |- _ => apply H; discriminate end.
Qed.
Lemma tidy_file_group c m l : tidy_file (EFile c m l) -> tidy_file (EFile c m (map (option_map group) l)).
Proof.
  intros [T1 T2]. split; [exact T1|]. rewrite Forall_forall in *. intros o X. apply in_map_iff in X. destruct X as (o' & <- & X). specialize (T2 _ X).
  destruct o' as [x|]; [|exact Logic.I]. cbn [option_map]. now apply tidy_group.
Qed.
Lemma stmts_group c m l : stmts_of (EFile c m (map (option_map group) l)) = map group (stmts_of (EFile c m l)).
Proof. cbn [stmts_of]. induction l as [|[x|] l IH]; cbn; [reflexivity|now rewrite IH|exact IH]. Qed.
