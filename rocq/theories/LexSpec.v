(** What the lexer has to do (C32), independent of its code. *)
From Verif Require Import Base Ast Quote.
From Verif Require Import Lex.   (* for the token type *)

(** Text between tokens: blanks, backslash-newline and comments.  The list gives the comments in it, with
    their offsets ([o] is the offset of the gap). *)
Inductive gap : Z -> bytes -> list (Z * bytes) -> Prop :=
  | g_nil o : gap o [] []
  | g_blank o c g cs : In c [c_sp; c_tab; c_cr; c_nl] -> gap (o + 1) g cs -> gap o (c :: g) cs
  | g_continue o g cs : gap (o + 2) g cs -> gap o (c_bs :: c_nl :: g) cs
  | g_comment o c g cs : ~ In c_nl c -> (forall x g', g = x :: g' -> x = c_nl) ->
      gap (o + 1 + Z.of_nat (List.length c)) g cs -> gap o (c_hash :: c ++ g) ((o, c_hash :: c) :: cs).

(** Spelling of the tokens of each kind. *)
Definition operators : list (bytes * kind) :=
  [(%"==", KEq); (%"!=", KNe); (%"<=", KLe); (%">=", KGe); (%"**", KStarStar); (%"//", KIntDiv);
   (%"<<", KLsh); (%">>", KRsh); (%"->", KArrow);
   (%"+=", KAugm); (%"-=", KAugm); (%"*=", KAugm); (%"/=", KAugm); (%"//=", KAugm); (%"%=", KAugm);
   (%"|=", KAugm); (%"&=", KAugm); (%"^=", KAugm); (%"<<=", KAugm); (%">>=", KAugm)].
Definition keywords : list (bytes * kind) :=
  [(%"and", KAnd); (%"for", KFor); (%"if", KIf); (%"else", KElse); (%"elif", KElif); (%"in", KIn); (%"is", KIs);
   (%"lambda", KLambda); (%"load", KLoad); (%"not", KNot); (%"or", KOr); (%"def", KDef); (%"return", KReturn);
   (%"pass", KPass); (%"break", KBreak); (%"continue", KContinue)].
Definition digit (c : ascii) : Prop := In c %"0123456789".
Definition name_char (c : ascii) : Prop :=
  In c %"abcdefghijklmnopqrstuvwxyzABCDEFGHIJKLMNOPQRSTUVWXYZ0123456789_" \/ (128 <= bN c)%N.
(** A sign belongs to a number directly after an exponent letter. *)
Definition number_char (before : bytes) (c : ascii) : Prop :=
  name_char c \/ (In c %"+-" /\ exists b d, before = b ++ [d] /\ In d %"eE").
Definition spelled (t : token) : Prop :=
  match t_kind t with
  | KChar c => t_tok t = [c] /\ In c (c_nl :: %"[]{}().:;,<>=!+-*/%|&~^")
  | KIdent => (exists c s, t_tok t = c :: s /\ ~ digit c) /\ Forall name_char (t_tok t) /\ (forall k, ~ In (t_tok t, k) keywords)
  | KInt => (exists c s, t_tok t = c :: s /\ digit c) /\
            (forall b c s, t_tok t = b ++ c :: s -> number_char b c)
  | KString => unquote (t_tok t) = (t_str t, t_triple t, None) /\ scan_string (t_tok t) = Some []
  | KComment => exists s, t_tok t = c_hash :: s /\ ~ In c_nl s
  | KEof | KIndent | KUnindent => t_tok t = []
  | k => In (t_tok t, k) operators \/ In (t_tok t, k) keywords
  end.
(** The longest possible token is taken. *)
Definition maximal (t : token) (next : bytes) : Prop :=
  forall c s, next = c :: s ->
    match t_kind t with
    | KIdent => ~ name_char c
    | KInt => ~ number_char (t_tok t) c
    | KComment => c = c_nl
    | KString | KEof | KIndent | KUnindent => True
    | _ => (forall k, ~ In (t_tok t ++ [c], k) operators) /\
           ((exists k, In (t_tok t, k) keywords) -> ~ name_char c)
    end.
(** [toks_of o s l cs]: the text [s] at offset [o] consists of the tokens [l] (each with its text at its
    offset) and gaps that contain the comments [cs]. *)
Inductive toks_of : Z -> bytes -> list token -> list (Z * bytes) -> Prop :=
  | to_end o : toks_of o [] [] []
  | to_gap o g s l cs cs' : gap o g cs -> toks_of (o + Z.of_nat (List.length g)) s l cs' -> toks_of o (g ++ s) l (cs ++ cs')
  | to_tok o t s l cs : p_byte (t_pos t) = o -> spelled t -> maximal t s ->
      toks_of (o + Z.of_nat (List.length (t_tok t))) s l cs ->
      toks_of o (t_tok t ++ s) (t :: l) cs.
(** The line of a position in the text. *)
Definition line_of (text : bytes) (o : Z) : Z :=
  (1 + Z.of_nat (List.length (filter (ceq c_nl) (firstn (Z.to_nat o) text))))%Z.
(** Indentation is well nested: never more unindents than indents, and as many at the end. *)
Fixpoint nested (n : nat) (l : list token) : Prop :=
  match l with
  | [] => n = 0
  | t :: l' =>
      match t_kind t, n with
      | KIndent, _ => nested (S n) l'
      | KUnindent, S m => nested m l'
      | KUnindent, O => False
      | _, _ => nested n l'
      end
  end.
(** Ends of lines matter only outside brackets. *)
Fixpoint lines_outside (depth : Z) (l : list token) : Prop :=
  match l with
  | [] => True
  | t :: l' =>
      (In (t_kind t) [KChar c_nl; KComment; KIndent; KUnindent] -> depth = 0%Z \/ (t_kind t = KUnindent /\ Forall (fun u => In (t_kind u) [KUnindent; KEof]) l')) /\
      lines_outside (match t_kind t with
                     | KChar c => if existsb (ceq c) %"[({" then depth + 1 else if existsb (ceq c) %"])}" then depth - 1 else depth
                     | _ => depth
                     end)%Z l'
  end.
(** The comments of the gaps as the lexer hands them on: each of them, in order, either as a line comment
    or as a suffix comment; a line comment with empty text marks blank lines before the comment at the same
    position. *)
Inductive handed_on : list (Z * bytes) -> list comment -> list comment -> Prop :=
  | h_nil : handed_on [] [] []
  | h_blank p tok cs ls ss : handed_on ((p_byte p, tok) :: cs) ls ss -> handed_on ((p_byte p, tok) :: cs) (Comment p [] :: ls) ss
  | h_line p tok cs ls ss : handed_on cs ls ss -> handed_on ((p_byte p, tok) :: cs) (Comment p tok :: ls) ss
  | h_suffix p tok cs ls ss : handed_on cs ls ss -> handed_on ((p_byte p, tok) :: cs) ls (Comment p tok :: ss).
