(** C32: the lexer is lossless, balanced and total. *)
From Verif Require Import Base BaseProofs Ast Quote Lex LexSpec LexProofs.

(** Lexing ends: after finitely many tokens comes the end of the file or an error. *)
Theorem C32_terminates data : tokenize data <> LexLoop.
Proof. unfold tokenize. eapply lex_all_term; [apply new_stack|apply new_measure]. Qed.
(** The input, completed with a newline, is exactly the tokens and the gaps between them, every token
    correctly spelled, at its offset and as long as possible; every comment in a gap is handed on once. *)
Theorem C32_partition data l st : tokenize data = Lexed l st ->
  exists cs, toks_of 0 (data ++ [c_nl]) l cs /\ handed_on cs (l_lines st) (l_suffixes st).
Proof.
  intros E. destruct (lex_partition _ _ _ _ _ (new_stack data) E) as (cs & T & ls & ss & H1 & H2 & H3).
  exists cs. split; [exact T|]. cbn [newInput l_lines l_suffixes app] in *. subst. auto.
Qed.
(** The end-of-file token comes last and only there. *)
Theorem C32_eof_last data l st : tokenize data = Lexed l st ->
  exists l' e, l = l' ++ [e] /\ t_kind e = KEof /\ Forall (fun t => t_kind t <> KEof) l'.
Proof. intros E. eapply lex_eof; eauto using new_stack. Qed.
(** INDENT and UNINDENT match like brackets. *)
Theorem C32_indentation_balanced data l st : tokenize data = Lexed l st -> nested 0 l.
Proof. intros E. eapply lex_nested; eauto using new_stack. Qed.
(** Newlines, comments on their own line and indentation are tokens only outside brackets, except for the
    unindents that close the open blocks at the end of the file. *)
Theorem C32_lines_outside_brackets data l st : tokenize data = Lexed l st -> lines_outside 0 l.
Proof. intros E. eapply (proj1 (lex_outside _ _ _ _ _ (new_stack data) E)). Qed.
(** Token positions give the right line. *)
Theorem C32_line_numbers data l st : tokenize data = Lexed l st ->
  Forall (fun t => p_line (t_pos t) = line_of (data ++ [c_nl]) (p_byte (t_pos t))) l.
Proof. intros E. eapply lex_lines; eauto using new_stack. exists []. repeat split; auto. Qed.

(** A program with nested blocks, brackets over lines, comments of all kinds and a continuation. *)
Definition sample : bytes :=
  %"# top" ++ [c_nl] ++ %"def f(x):" ++ [c_nl] ++ %"  if x >= 1e+5: # why" ++ [c_nl] ++ %"    return [x," ++ [c_nl] ++
  %" # inner" ++ [c_nl] ++ %" r'a" ++ [c_bs] ++ %"''] # tail" ++ [c_nl] ++ %"  y //= " ++ [c_bs; c_nl] ++ %"2" ++ [c_nl] ++ %"z".
Definition kinds (r : lexed) : list kind := match r with Lexed l _ => map t_kind l | _ => [] end.
Definition texts (r : lexed) : list bytes := match r with Lexed l _ => map t_tok l | _ => [] end.
Definition coms (r : lexed) : list bytes * list bytes :=
  match r with Lexed _ st => (map c_tok (l_lines st), map c_tok (l_suffixes st)) | _ => ([], []) end.
Example sample_kinds : kinds (tokenize (%"def f(x):" ++ [c_nl] ++ %"  y += [1," ++ [c_nl] ++ %"x] # s" ++ [c_nl] ++ %"z")) =
  [KDef; KIdent; KChar "("; KIdent; KChar ")"; KChar ":"; KChar c_nl; KIndent; KIdent; KAugm; KChar "["; KInt; KChar ","; KIdent;
   KChar "]"; KChar c_nl; KUnindent; KIdent; KChar c_nl; KEof]%char.
Proof. vm_compute. reflexivity. Qed.
Example sample_texts : texts (tokenize sample) =
  [%"# top"; [c_nl]; %"def"; %"f"; %"("; %"x"; %")"; %":"; [c_nl]; []; %"if"; %"x"; %">="; %"1e+5"; %":"; [c_nl]; []; %"return"; %"[";
   %"x"; %","; %"r'a\''"; %"]"; [c_nl]; []; %"y"; %"//="; %"2"; [c_nl]; []; %"z"; [c_nl]; []].
Proof. vm_compute. reflexivity. Qed.
Example sample_comments : coms (tokenize sample) = ([%"# inner"], [%"# why"; %"# tail"]).
Proof. vm_compute. reflexivity. Qed.
Example sample_rejected : exists l, tokenize (%"if x:" ++ [c_nl] ++ %"    y" ++ [c_nl] ++ %"  z") = LexFail l /\ List.length l = 7.
Proof. eexists. vm_compute. split; reflexivity. Qed.
(** An exponent letter before a sign glues it to any number, also a hexadecimal one. *)
Example hex_sign : texts (tokenize %"0xE+1") = [%"0xE+1"; [c_nl]; []].
Proof. vm_compute. reflexivity. Qed.
Print Assumptions C32_terminates. Print Assumptions C32_partition. Print Assumptions C32_eof_last.
Print Assumptions C32_indentation_balanced. Print Assumptions C32_lines_outside_brackets. Print Assumptions C32_line_numbers.
