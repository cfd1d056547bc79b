(** C67: everything in the language is parsed, and in one way. *)
From Verif Require Import Base BaseProofs Ast Lex LexProofs LRTables LRCert Parse LRProofs ParseSpec ParseLex ParseProofs ParseSound ShapeSpec.
From Verif Require Import LRItems LRComplete LRSim ParseComplete ParseEmbed PropParse.

Lemma code_code l : code (code l) = code l.
Proof. unfold code. induction l as [|e l IH]; cbn; [reflexivity|]. destruct (is_code e) eqn:E; cbn; rewrite ?E; congruence. Qed.
Lemma program_run l ts eof : Forall wf_tok ts -> is KEof eof -> program l ts ->
  exists l', (forall n, 16 * List.length (ts ++ [eof]) + 10 <= n -> run n (initial (ts ++ [eof])) = Some (Accepted l')) /\ shapes l' = shapes l.
Proof.
  intros W K [k P]. destruct embedding as (_ & _ & _ & _ & _ & _ & _ & _ & _ & _ & _ & Q & _).
  destruct (Q _ _ _ P W) as (_ & (l' & f & D & S0) & _). destruct (LRSim.accepts _ _ _ _ eof D K) as [n R].
  exists l'. split.
  - destruct (run_terminates (ts ++ [eof])) as [o T]. intros m L. destruct (le_ge_dec n m).
    + eapply run_mono; eauto.
    + pose proof (run_mono _ n _ _ T) as M. rewrite M in R by lia. inversion R; subst. eapply run_mono; eauto.
  - rewrite S0. unfold shapes. now rewrite code_code.
Qed.
Lemma tokens_wf data : Forall wf_tok (toks (tokenize data)).
Proof. apply (lex_wf (data ++ [c_nl]) _ _ 0); [apply new_stack|]. exists []. repeat split; auto. Qed.

(** A source whose tokens spell a program is accepted, and the result is that program. *)
Theorem C67_complete data l ts eof st : tokenize data = Lexed (ts ++ [eof]) st -> is KEof eof -> program l ts ->
  exists l', parse data = Accepted l' /\ shapes l' = shapes l.
Proof.
  intros T K P. pose proof (tokens_wf data) as W. rewrite T in W. cbn [toks] in W. apply Forall_app in W as [W _].
  destruct (program_run l ts eof W K P) as (l' & R & S0). exists l'. split; [|exact S0].
  unfold parse. rewrite T, R; [reflexivity|lia].
Qed.
(** No sequence of tokens spells two programs (the tokens are those the lexer makes: [wf_tok], proved for all of them in ParseLex.v). *)
Theorem C67_unambiguous l l' ts : Forall wf_tok ts -> program l ts -> program l' ts -> shapes l = shapes l'.
Proof.
  intros W P P'. set (eof := Tok KEof no_pos [] [] false).
  destruct (program_run l ts eof W eq_refl P) as (m & R & E). destruct (program_run l' ts eof W eq_refl P') as (m' & R' & E').
  specialize (R _ (le_n _)). specialize (R' _ (le_n _)). rewrite R in R'. inversion R'; subst. congruence.
Qed.
(** With C66: the language of the parser (the condition is that of C66: a final backslash makes it accept more). *)
Theorem C67_language data : (forall p, data <> p ++ [c_bs]) ->
  (exists l, parse data = Accepted l) <-> (exists ts eof st l, tokenize data = Lexed (ts ++ [eof]) st /\ is KEof eof /\ program l ts).
Proof.
  intros N. split.
  - intros [l P]. destruct (C66_sound_partial _ _ N P) as (ts & eof & st & T & K & Q). exists ts, eof, st, l. auto.
  - intros (ts & eof & st & l & T & K & P). destruct (C67_complete _ _ _ _ _ T K P) as (l' & A & _). eauto.
Qed.

(** A program to which the theorems apply, and the grouping that is ruled out. *)
Definition v (n : bytes) : expr := EIdent (Ident no_com no_pos n).
Definition bin (op : bytes) (x y : expr) : expr := EBinary no_com x no_pos op false y.
Lemma name_spelled t n : is KIdent t -> t_tok t = n -> one Prim (v n) [t].
Proof. intros K <-. now apply p_ident. Qed.
Example spelled : exists ts eof st, tokenize %"a + b * c" = Lexed (ts ++ [eof]) st /\ is KEof eof /\
  program [bin %"+" (v %"a") (bin %"*" (v %"b") (v %"c"))] ts /\ ~ program [bin %"*" (bin %"+" (v %"a") (v %"b")) (v %"c")] ts.
Proof.
  remember (toks (tokenize %"a + b * c")) as l eqn:E. pose proof E as E0. vm_compute in E0.
  destruct l as [|t1 [|t2 [|t3 [|t4 [|t5 [|t6 [|t7 [|? ?]]]]]]]]; try discriminate E0.
  assert (K : t_kind t1 = KIdent /\ t_kind t2 = KChar "+" /\ t_kind t3 = KIdent /\ t_kind t4 = KChar "*" /\ t_kind t5 = KIdent /\ t_kind t6 = KChar c_nl /\ t_kind t7 = KEof)
    by (clear E; injection E0 as -> -> -> -> -> -> ->; repeat split).
  assert (X : t_tok t1 = %"a" /\ t_tok t2 = %"+" /\ t_tok t3 = %"b" /\ t_tok t4 = %"*" /\ t_tok t5 = %"c") by (clear E; injection E0 as -> -> -> -> -> -> ->; repeat split).
  clear E0. destruct K as (K1 & K2 & K3 & K4 & K5 & K6 & K7), X as (X1 & X2 & X3 & X4 & X5).
  assert (P : program [bin %"+" (v %"a") (bin %"*" (v %"b") (v %"c"))] [t1; t2; t3; t4; t5; t6]).
  { exists false. apply (st_line false [] [] _ _ st_nil). apply (ln _ [t1; t2; t3; t4; t5] []); [|auto|assumption].
    apply sm_one, s_expr, e_test, (t_any false), (t_binary 0 false no_com (v %"a") no_pos %"+" 10 false _ [t1] [t2] [t3; t4; t5]); [|now apply t_prim, name_spelled| |lia].
    - apply (op_one _ (KChar "+")); [cbn; tauto|assumption|assumption].
    - apply (t_binary 11 false no_com (v %"b") no_pos %"*" 11 false _ [t3] [t4] [t5]); [|now apply t_prim, name_spelled|now apply t_prim, name_spelled|lia].
      apply (op_one _ (KChar "*")); [cbn; tauto|assumption|assumption]. }
  pose proof (tokens_wf %"a + b * c") as W. rewrite <- E in W.
  change [t1; t2; t3; t4; t5; t6; t7] with ([t1; t2; t3; t4; t5; t6] ++ [t7]) in E, W. apply Forall_app in W as [W _].
  destruct (tokenize %"a + b * c") as [l st|l|] eqn:T; [|vm_compute in T; discriminate T..].
  cbn [toks] in E. subst l. exists [t1; t2; t3; t4; t5; t6], t7, st. split; [reflexivity|]. split; [assumption|]. split; [exact P|].
  intro P'. pose proof (C67_unambiguous _ _ _ W P P') as S0. vm_compute in S0. discriminate S0.
Qed.
Print Assumptions C67_complete. Print Assumptions C67_unambiguous. Print Assumptions C67_language.
