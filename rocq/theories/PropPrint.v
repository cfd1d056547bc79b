(** C30: a printed file is read back as the same code. *)
From Verif Require Import LRTables LRCert Parse PropComplete.
From Verif Require Import Base BaseProofs Ast Utf8 Quote Lex LexProofs ParseSpec ShapeSpec ParseLex ParseFile Attach AttachSpec PropParse Print PrintSpec PrintStmt PrintBlock PrintMove PrintFile PrintSource.
Local Open Scope list_scope.

Lemma printed c m l ts : program (stmts_of (EFile c m l)) ts -> Forall wf_tok ts -> tidy_file (EFile c m l) ->
  exists out l' ts' st, FormatWithoutRewriting (EFile c m l) = Some out /\ tokenize out = Lexed ts' st /\ parse out = Accepted l' /\ meanings l' = meanings (stmts_of (EFile c m l)).
Proof.
  intros [k P] W [T1 T2]. assert (E : stmts_of (EFile c m l) = listed l) by reflexivity. rewrite E in *.
  destruct (file_reads m c l) as (out & l1 & ts1 & eof & st & F & TK & KE & P1 & M); [eapply stmts_ok; eauto|exact T1|exact T2|].
  destruct (C67_complete out l1 ts1 eof st TK KE P1) as (l' & A & S0). exists out, l', (ts1 ++ [eof]), st. split; [exact F|]. split; [exact TK|]. split; [exact A|].
  rewrite <- M. unfold meanings, meaning, shapes in *. rewrite <- !(map_map shape plain). now rewrite S0.
Qed.
(** Any file tree that some tokens spell and that is laid out as PrintSpec.v says is printed as text that the parser accepts, and
    the statements it reads are the same, up to parentheses, the spelling of strings, comments and positions. *)
Theorem C30_tree_partial c m l ts : program (stmts_of (EFile c m l)) ts -> Forall wf_tok ts -> tidy_file (EFile c m l) ->
  exists out l', FormatWithoutRewriting (EFile c m l) = Some out /\ parse out = Accepted l' /\ meanings l' = meanings (stmts_of (EFile c m l)).
Proof. intros P W T. destruct (printed c m l ts P W T) as (out & l' & ts' & st & A & _ & B & D). eauto. Qed.
(** A file that was read from text, with all its comments: printing it gives a text that is read as the same code. *)
Theorem C30_format_parse_partial m data f : (forall p, data <> p ++ [c_bs]) -> parse_file m data = Some f -> layout_file f ->
  exists out f', FormatWithoutRewriting f = Some out /\ parse_file m out = Some f' /\ meanings (stmts_of f') = meanings (stmts_of f).
Proof.
  intros N E L. pose proof (layout_tidy_file f L (parsed_comments m data f N E)) as T.
  destruct (parsed_shape m data f E) as (ts0 & st & stmts & c & l & TK & PA & -> & ES).
  destruct (C66_sound_partial data stmts N PA) as (ts & eof & st' & TK' & KE & P). rewrite TK in TK'. injection TK' as -> <-.
  assert (P' : program (stmts_of (EFile c m l)) ts) by (eapply (move_program stmts _ ts ts); auto).
  pose proof (tokens_wf data) as W. rewrite TK in W. cbn [toks] in W. apply Forall_app in W as [W _].
  destruct (printed c m l ts P' W T) as (out & l' & ts1 & st1 & F & TO & A & M). exists out.
  assert (Q : exists f', parse_file m out = Some f') by (unfold parse_file; rewrite TO, A; eauto). destruct Q as [f' Q].
  exists f'. split; [exact F|]. split; [exact Q|]. destruct (parsed_shape m out f' Q) as (ts2 & st2 & l2 & c2 & l3 & TO2 & A2 & -> & ES2).
  rewrite A in A2. injection A2 as ->. rewrite <- M. now apply meanings_strip.
Qed.

(** A file to which the theorem applies. *)
Definition meta : fmeta := FMeta [] [] [] TypeBzl.
Definition lines (l : list bytes) : bytes := flat_map (fun x => x ++ [c_nl]) l.
Definition sample : bytes := lines
  [%"# a"; %"a = ("; %"  # c"; %"  b)"; %"if x: # d"; %"  y = (1 + 2) * -f(a = 3, *b)"; %"  # e"; %"else:"; %"  for i in x[1:2:3], 7:";
   %"    z = lambda a, b = 1: a or 'q'"; %"def f(x, *, y: int = 2):"; %"  return [i for i in (1, 2) if i], {1: 2,"; %"  # g"; %"}"].
Example sample_fits : (forall p, sample <> p ++ [c_bs]) /\ exists f, parse_file meta sample = Some f /\ layout_file f.
Proof.
  split; [apply no_backslash; vm_compute; discriminate|].
  assert (L : match parse_file meta sample with Some f => layout_file f | None => False end).
  { vm_compute. repeat match goal with |- _ /\ _ => split | |- True => exact Logic.I | |- _ -> _ => intro | H : ?x = ?x -> False |- _ => now elim H | |- _ = _ => reflexivity | H : _ = _ |- _ => discriminate H end. }
  destruct (parse_file meta sample) as [f|]; [|destruct L]. exists f. auto.
Qed.
Definition format (data : bytes) : option bytes := match parse_file meta data with Some f => FormatWithoutRewriting f | None => None end.
Example sample_printed : format sample = Some (lines
  [%"# a"; %"a = ("; %"    # c"; %"    b"; %")"; %"if x:  # d"; %"    y = (1 + 2) * -f(a = 3, *b)"; %"    # e"; []; %"else:"; %"    for i in x[1:2:3], 7:";
   %"        z = lambda a, b = 1: a or ""q"""; []; %"def f(x, *, y: int = 2):"; %"    return [i for i in (1, 2) if i], {"; %"        1: 2,"; %"        # g"; %"    }"]).
Proof. vm_compute. reflexivity. Qed.

(** The conditions on the layout are needed.  Whether printing breaks a file, by computation: *)
Definition broken (data : bytes) : Prop := exists f out, parse_file meta data = Some f /\ FormatWithoutRewriting f = Some out /\ parse out = Rejected.
Definition breaks (data : bytes) : bool :=
  match parse_file meta data with
  | Some f => match FormatWithoutRewriting f with Some out => match parse out with Rejected => true | _ => false end | None => false end
  | None => false
  end.
Lemma breaks_broken data : breaks data = true -> broken data.
Proof.
  unfold breaks, broken. destruct (parse_file meta data) as [f|]; [|discriminate]. destruct (FormatWithoutRewriting f) as [out|] eqn:E; [|discriminate].
  destruct (parse out) eqn:P; try discriminate. intros _. exists f, out. auto.
Qed.
(** A line break after an operator in a tuple without parentheses loses its backslash. *)
Theorem C30_line_break_refuted : broken (lines [%"x = 1, 2 + \"; %"  3"]).
Proof. apply breaks_broken. vm_compute. reflexivity. Qed.
(** A comment inside the brackets of one operand is moved out of all brackets, before the next operand. *)
Theorem C30_comment_refuted : broken (lines [%"a = x["; %"    y"; %"    # c"; %"] + z"]).
Proof. apply breaks_broken. vm_compute. reflexivity. Qed.
(** Variables of a comprehension with a comment get a trailing comma, which they cannot have. *)
Theorem C30_comprehension_refuted : broken (lines [%"z = [x for a, # c"; %"       b in y]"]).
Proof. apply breaks_broken. vm_compute. reflexivity. Qed.
(** C69: printing what was printed can give another text. *)
Theorem C69_idempotent_refuted : exists f out f' out', parse_file meta (lines [%"z = x["; %"  y"; %"  # c"; %"]"]) = Some f /\
  FormatWithoutRewriting f = Some out /\ parse_file meta out = Some f' /\ FormatWithoutRewriting f' = Some out' /\ out <> out'.
Proof.
  assert (C : match format (lines [%"z = x["; %"  y"; %"  # c"; %"]"]) with Some out => match format out with Some out' => negb (beq out out') | None => false end | None => false end = true) by (vm_compute; reflexivity).
  unfold format in C. destruct (parse_file meta _) as [f|]; [|discriminate]. destruct (FormatWithoutRewriting f) as [out|] eqn:E; [|discriminate].
  destruct (parse_file meta out) as [f'|] eqn:E2; [|discriminate]. destruct (FormatWithoutRewriting f') as [out'|] eqn:E3; [|discriminate].
  exists f, out, f', out'. repeat split; auto. intros ->. rewrite beq_refl in C. discriminate C.
Qed.
Print Assumptions C30_tree_partial. Print Assumptions C30_format_parse_partial. Print Assumptions C30_line_break_refuted.
Print Assumptions C30_comment_refuted. Print Assumptions C30_comprehension_refuted. Print Assumptions C69_idempotent_refuted.
