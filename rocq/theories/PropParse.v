(** C65, C66: parsing ends, and what it accepts is spelled as the grammar says. *)
From Verif Require Import Base BaseProofs Ast Lex LexProofs LRTables LRCert Parse LRProofs ParseSpec ParseLex ParseSound.

(** Whatever the tokens, the parser comes to an end, after at most 16 turns of its loop for each token. *)
Theorem C65_parser_terminates l : exists o, forall n, 16 * List.length l + 10 <= n -> run n (initial l) = Some o.
Proof. destruct (run_terminates l) as [o H]. exists o. intros n L. eapply run_mono; eauto. Qed.
Example accepts : exists l, parse (%"x = [a for a in b if c]" ++ [c_nl] ++ %"if x:" ++ [c_nl] ++ %"  f(y = 1)" ++ [c_nl]) = Accepted l /\ List.length l = 2.
Proof. eexists. vm_compute. split; reflexivity. Qed.
Example rejects : parse (%"x = = y") = Rejected.
Proof. vm_compute. reflexivity. Qed.
Print Assumptions C65_parser_terminates.

(** A file that is accepted is spelled, up to its end, as the grammar of ParseSpec.v says for the statements that
    are returned: every token is accounted for, every operator has the operands its precedence gives it, every
    statement is in the body it is indented under. *)
Theorem C66_sound_partial data stmts : (forall p, data <> p ++ [c_bs]) -> parse data = Accepted stmts ->
  exists ts eof st, tokenize data = Lexed (ts ++ [eof]) st /\ is KEof eof /\ program stmts ts.
Proof.
  intros N E. pose proof (tokens_legit data N) as LG. unfold parse in E.
  assert (R : forall l, toks (tokenize data) = l -> match run (16 * List.length l + 10) (initial l) with Some o => o | None => Panicked end = Accepted stmts ->
     exists ts eof rest, l = ts ++ eof :: rest /\ is KEof eof /\ program stmts ts).
  { intros l El. destruct (run _ _) as [o|] eqn:ER; [|discriminate]. intros ->. rewrite El in LG. exact (run_sound _ _ _ LG ER). }
  destruct (tokenize data) as [l st|l|] eqn:ET; [| |discriminate].
  - destruct (R l eq_refl E) as (ts & eof & rest & -> & K & P). destruct (lex_eof _ _ _ _ _ (new_stack data) ET) as (l' & e & E1 & E2 & E3).
    assert (rest = []) as ->.
    { destruct (rev rest) as [|x r] eqn:ER; [now rewrite <- (rev_involutive rest), ER|]. exfalso.
      assert (Q : rest = rev r ++ [x]) by now rewrite <- (rev_involutive rest), ER. rewrite Q in E1.
      change (ts ++ eof :: rev r ++ [x]) with (ts ++ (eof :: rev r) ++ [x]) in E1. rewrite app_assoc in E1. apply app_inj_tail in E1. destruct E1 as [E1 _].
      rewrite <- E1, Forall_app in E3. destruct E3 as [_ E3]. inversion E3; subst. contradiction. }
    exists ts, eof, st. auto.
  - exfalso. destruct (R l eq_refl E) as (ts & eof & rest & -> & K & P). apply (lex_fail_eof _ _ _ ET eof K). apply in_elt.
Qed.
(** No run-time error inside the parser. *)
Theorem C66_no_internal_error_partial data : (forall p, data <> p ++ [c_bs]) -> parse data <> Panicked.
Proof.
  intros N E. pose proof (tokens_legit data N) as LG. unfold parse in E.
  assert (R : forall l, toks (tokenize data) = l -> match run (16 * List.length l + 10) (initial l) with Some o => o | None => Panicked end <> Panicked).
  { intros l El. destruct (run_terminates l) as [o H]. rewrite H. intros ->. rewrite El in LG. exact (run_sound _ _ _ LG H). }
  destruct (tokenize data) as [l st|l|] eqn:ET.
  - exact (R l eq_refl E).
  - exact (R l eq_refl E).
  - eapply lex_all_term; [apply new_stack|apply new_measure|exact ET].
Qed.
(** The condition that the file does not end with a backslash is needed: such an ending, after spaces, opens a block without
    statements.  An index out of range in the action for suites (reported as an internal error): *)
Theorem C66_dangling_backslash_refuted :
  parse (%"if x:" ++ [c_nl] ++ %"# c" ++ [c_nl] ++ %"  " ++ [c_bs]) = Panicked /\
  (exists c p x ep, parse (%"if x:" ++ [c_nl] ++ %"  " ++ [c_bs]) = Accepted [EIf c p x [] ep []]).
Proof. split; [vm_compute; reflexivity|]. eexists _, _, _, _. vm_compute. reflexivity. Qed.
Print Assumptions C66_sound_partial. Print Assumptions C66_no_internal_error_partial. Print Assumptions C66_dangling_backslash_refuted.
(** The grouping of a conditional in a tuple without parentheses: the second element cannot be one. *)
Example tuple_conditional_rejected :
  parse %"x = a, b if c else d" = Rejected /\ (exists l, parse %"x = b if c else d, a" = Accepted l) /\ (exists l, parse %"x = (a, b if c else d)" = Accepted l).
Proof. split; [vm_compute; reflexivity|]. split; eexists; vm_compute; reflexivity. Qed.
(** [not] binds tighter than comparison, unlike in Python. *)
Example not_binds_tightly : exists c c' p' x p2 lb y, parse %"not a == b" = Accepted [EBinary c (EUnary c' p' %"not" (Some x)) p2 %"==" lb y].
Proof. eexists _, _, _, _, _, _, _. vm_compute. reflexivity. Qed.
Lemma no_backslash data : last data c_nl <> c_bs -> forall p, data <> p ++ [c_bs].
Proof. intros H p ->. rewrite last_last in H. contradiction. Qed.
(** A program with nesting, to which the theorems apply. *)
Example sound_applies : exists stmts, parse (%"def f(a, *b):" ++ [c_nl] ++ %"  # note" ++ [c_nl] ++ %"  return -a.b[1:] + {1: b} if not a else 2 * 3 - 4" ++ [c_nl]) = Accepted stmts /\
  exists ts, program stmts ts /\ List.length ts = 40.
Proof.
  eexists. split; [vm_compute; reflexivity|].
  match goal with |- exists ts, program ?s ts /\ _ =>
    assert (E : parse (%"def f(a, *b):" ++ [c_nl] ++ %"  # note" ++ [c_nl] ++ %"  return -a.b[1:] + {1: b} if not a else 2 * 3 - 4" ++ [c_nl]) = Accepted s) by (vm_compute; reflexivity) end.
  apply C66_sound_partial in E.
  - destruct E as (ts & eof & st & E & _ & P). exists ts. split; [exact P|].
    assert (L : List.length (toks (tokenize (%"def f(a, *b):" ++ [c_nl] ++ %"  # note" ++ [c_nl] ++ %"  return -a.b[1:] + {1: b} if not a else 2 * 3 - 4" ++ [c_nl]))) = 41) by (vm_compute; reflexivity).
    rewrite E in L. cbn [toks] in L. rewrite app_length in L. cbn in L. lia.
  - apply no_backslash. vm_compute. discriminate.
Qed.
