(** Properties C22, C23 (numeric literals) and C24 (docstrings). *)
From Verif Require Import Base BaseProofs Ast Walk WalkSpec WalkProofs WalkGen Quote Rewrite LitSpec LitProofs.

Lemma lit_height (g : bytes -> bytes) stk e :
  height ((fun (_ : list expr) e => match e with ELit c s tok => ELit c s (g tok) | _ => e end) stk e) <= height e.
Proof. destruct e; auto. Qed.
Lemma lit_kind (g : bytes -> bytes) : cb_kind (fun _ e => match e with ELit c s tok => ELit c s (g tok) | _ => e end).
Proof. split; intros; eexists; reflexivity. Qed.

(** C22: only numeric literals change; an integer literal keeps its value; a literal that does
    not start with 0 and another digit is not touched. *)
Theorem C22_octals_partial :
  forall f,
    walked (fun _ e e1 =>
      match e with
      | ELit c p tok => exists tok', e1 = ELit c p tok' /\
          (forall v, int_literal tok v -> int_literal tok' v) /\
          ((forall d r, tok = "0"%char :: d :: r -> digit_val 10 d = None) -> tok' = tok)
      | _ => e1 = e
      end) [] f (editOctals f).
Proof.
  intros f. apply Edit_walked; [apply (lit_height octal_token)|apply (lit_kind octal_token)|].
  intros stk e. destruct e; try reflexivity. cbn [octal_node]. eexists. split; [reflexivity|].
  split; [apply octal_value|apply octal_untouched].
Qed.
Print Assumptions C22_octals_partial.
(** The value of an integer literal is unique. *)
Theorem C22_value_unique : forall tok v w, int_literal tok v -> int_literal tok w -> v = w.
Proof. apply int_literal_value. Qed.
Print Assumptions C22_value_unique.
(** A float with a leading zero is destroyed: 01.5 becomes 0o1.5. *)
Theorem C22_float_refuted :
  exists tok m e, float_literal tok m e /\
    (forall m' e', ~ float_literal (octal_token tok) m' e') /\ (forall v, ~ int_literal (octal_token tok) v).
Proof.
  exists %"01.5", 15%Z, (-1)%Z.
  assert (D : octal_token %"01.5" = %"0o1.5") by reflexivity. rewrite D. split; [|split].
  - exists %"01", %"5", [], 0%Z. split; [reflexivity|]. split; [discriminate|]. split.
    + intros c [<-|[<-|[<-|[]]]]; discriminate.
    + split; [|split; [constructor|reflexivity]]. right. apply numeral_spec. split; [discriminate|]. split; [|reflexivity].
      repeat constructor; discriminate.
  - intros m' e' (ip & fp & ex & x & E & _ & H & _).
    assert (In "o"%char ip).
    { destruct ip as [|a [|b ip]]; try discriminate E. injection E as _ <- _. right; left; auto. }
    apply (H "o"%char); [apply in_app_iff; auto|reflexivity].
  - intros v H. inversion H; subst;
      match goal with H : numeral _ _ _ |- _ => apply numeral_spec in H as (_ & F & _) end; try congruence.
    + inversion_clear F as [|? ? F1 _]. apply F1. reflexivity.
    + inversion_clear F as [|? ? F0 F1]. inversion_clear F1 as [|? ? F2 _]. apply F2. reflexivity.
Qed.
Print Assumptions C22_float_refuted.
Example C22_nontrivial : int_literal %"0755" 493 /\ octal_token %"0755" = %"0o755" /\ int_literal %"0o755" 493.
Proof.
  assert (N : numeral 8 %"755" 493) by (apply numeral_spec; split; [discriminate|split; [repeat constructor; discriminate|reflexivity]]).
  repeat split; [apply il_old_octal; auto|apply il_octal; auto].
Qed.

(** C23: only numeric literals change; a literal with a point and no zero exponent keeps its
    value (and stays a literal); a literal without a point is not touched. *)
Theorem C23_floats_partial :
  forall f,
    walked (fun _ e e1 =>
      match e with
      | ELit c p tok => exists tok', e1 = ELit c p tok' /\
          (~ In c_dot tok -> tok' = tok) /\
          (forall m x, float_literal tok m x ->
             (forall ip fp ex, tok = ip ++ %"." ++ fp ++ ex -> ex <> [] -> ~ exponent ex 0) ->
             float_literal tok' m x)
      | _ => e1 = e
      end) [] f (editFloats f).
Proof.
  intros f. apply Edit_walked; [apply (lit_height float_token)|apply (lit_kind float_token)|].
  intros stk e. destruct e; try reflexivity. cbn [float_node]. eexists. split; [reflexivity|]. split.
  - intros H. unfold float_token. destruct (contains_byte c_dot tok) eqn:E; auto. apply contains_byte_In in E. contradiction.
  - intros m x H1 H2. apply float_value; auto.
Qed.
Print Assumptions C23_floats_partial.
(** With a zero exponent the result is not a literal: 1.0e0 becomes 1.0e. *)
Theorem C23_zero_exponent_refuted :
  exists tok m e, float_literal tok m e /\ forall m' e', ~ float_literal (float_token tok) m' e'.
Proof.
  exists %"1.0e0", 10%Z, (-1)%Z. assert (D : float_token %"1.0e0" = %"1.0e") by reflexivity. rewrite D. split.
  - exists %"1", %"0", %"e0", 0%Z. split; [reflexivity|]. split; [discriminate|]. split.
    + intros c [<-|[<-|[]]]; discriminate.
    + split; [|split].
      * right. apply numeral_spec. split; [discriminate|]. split; [repeat constructor; discriminate|reflexivity].
      * apply ex_pos; auto. apply numeral_spec. split; [discriminate|]. split; [repeat constructor; discriminate|reflexivity].
      * reflexivity.
  - intros m' e' (ip & fp & ex & x & E & _ & H & _ & Hx & _).
    assert (Hsuf : exists z, ex = z ++ %"e").
    { assert (Hex : ex <> []).
      { intros ->. assert (In "e"%char (ip ++ fp)).
        { assert (In "e"%char (ip ++ %"." ++ fp ++ [])) by (rewrite <- E; simpl; auto).
          rewrite !in_app_iff in *. simpl in *. intuition discriminate. }
        apply (H "e"%char); auto. }
      destruct (exists_last Hex) as (z & c & ->). exists z. f_equal.
      rewrite !app_assoc in E. apply (f_equal (fun l => last l "x"%char)) in E. rewrite last_last in E. simpl in E. subst. auto. }
    destruct Hsuf as [z ->].
    inversion Hx; subst.
    + destruct z; discriminate.
    + match goal with H : numeral _ _ _ |- _ => apply numeral_spec in H as (N1 & N2 & _) end.
      destruct z as [|c z]; [injection H0 as _ H0; congruence|]. injection H0 as _ H0; subst s.
      apply Forall_app in N2 as [_ N2]. inversion_clear N2 as [|? ? N3 _]. apply N3; reflexivity.
    + match goal with H : numeral _ _ _ |- _ => apply numeral_spec in H as (N1 & N2 & _) end.
      destruct z as [|c [|d z]]; try discriminate H0. injection H0 as _ _ H0; subst s.
      apply Forall_app in N2 as [_ N2]. inversion_clear N2 as [|? ? N3 _]. apply N3; reflexivity.
    + match goal with H : numeral _ _ _ |- _ => apply numeral_spec in H as (N1 & N2 & _) end.
      destruct z as [|c [|d z]]; try discriminate H0. injection H0 as _ _ H0; subst s.
      apply Forall_app in N2 as [_ N2]. inversion_clear N2 as [|? ? N3 _]. apply N3; reflexivity.
Qed.
Print Assumptions C23_zero_exponent_refuted.
Example C23_nontrivial : float_token %".5E+07" = %"0.5e7" /\ float_token %"1.25E-05" = %"1.25e-05".
Proof. split; reflexivity. Qed.

(** C24: a triple-quoted docstring of a function nested in [length stk] nodes keeps its first
    line and its number of lines; the other lines are shifted by the difference of indentations
    (not beyond the margin) and lose their trailing blanks; nothing else in the file changes. *)
Theorem C24_docstrings :
  forall f,
    walked (fun stk => docstring_moved (fun tok => fst (fst (unquote tok))) (List.length stk))
      [] f (formatDocstrings f).
Proof.
  assert (H8 : forall stk e, height (docstring_node stk e) <= height e).
  { intros stk e. destruct e; auto. cbn [docstring_node].
    assert (E : map height (docstring_body (List.length stk) body) = map height body).
    { unfold docstring_body. destruct body as [|[] rest]; auto. destruct (s_triple s); auto. destruct (beq _ _); reflexivity. }
    rewrite !height_unfold. unfold children, fold_children. simpl. rewrite !map_id, !map_app, E. auto. }
  intros f. apply Edit_walked; [exact H8|split; intros; eexists; reflexivity|].
  intros stk e. destruct e; try reflexivity. cbn [docstring_moved docstring_node docstring_body].
  destruct body as [|[] rest]; try reflexivity. cbn [docstring_body]. destruct (s_triple s) eqn:T; [|reflexivity].
  set (d := (4 * Z.of_nat (List.length stk) - (p_rune (s_start s) - 1))%Z).
  destruct (format_string_spec (s_token s) (p_rune (s_start s) - 1) (4 * Z.of_nat (List.length stk))) as (first & lines & H1 & E).
  fold d in E. rewrite E.
  exists first, lines, (format_lines d lines).
  destruct (beq_spec (join [c_nl] (first :: format_lines d lines)) (s_token s)) as [Eq|ne].
  - exists (s_value s). split; auto. split; [apply format_lines_reindented|]. rewrite Eq. split; [|split; congruence].
    destruct s; cbn in *. subst. reflexivity.
  - exists (fst (fst (unquote (join [c_nl] (first :: format_lines d lines))))).
    split; auto. split; [apply format_lines_reindented|]. split; [reflexivity|split; congruence].
Qed.
Print Assumptions C24_docstrings.
(** Once the docstring is at its indentation, formatting it again changes nothing. *)
Theorem C24_idempotent :
  forall value old new, format_string (format_string value old new) new new = format_string value old new.
Proof. apply format_string_again. Qed.
Print Assumptions C24_idempotent.
(** The text changes in blanks only, but the value may lose a line break: a trailing
    "backslash blank" becomes a line continuation. *)
Theorem C24_value_loses_newline :
  exists tok tok' v v', tok' = format_string tok 4 4 /\ tok <> tok' /\
    unquote tok = (v, true, None) /\ unquote tok' = (v', true, None) /\
    In c_nl v /\ filter (fun c => negb (Ascii.eqb c c_sp)) v <> filter (fun c => negb (Ascii.eqb c c_sp)) v'.
Proof.
  set (q := [c_quote; c_quote; c_quote]).
  exists (q ++ [c_nl; "a"%char; c_bs; c_sp; c_nl; "b"%char] ++ q), (q ++ [c_nl; "a"%char; c_bs; c_nl; "b"%char] ++ q).
  exists [c_nl; "a"%char; c_bs; c_sp; c_nl; "b"%char], [c_nl; "a"%char; "b"%char].
  split; [reflexivity|]. split; [discriminate|]. split; [reflexivity|]. split; [reflexivity|].
  split; [left; reflexivity|discriminate].
Qed.
Print Assumptions C24_value_loses_newline.
Example C24_nontrivial :
  format_string %"'''Doc.

      text  
        more
      '''" 6 4 = %"'''Doc.

    text
      more
    '''".
Proof. vm_compute. reflexivity. Qed.
