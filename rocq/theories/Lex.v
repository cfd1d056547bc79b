(** The lexer: build/lex.go [newInput], [readRune], [Lex].
    Simplifications: error messages and error positions are not modelled (one outcome [LexError]);
    [in.lastToken], used only in messages, is left out; the position and text of INDENT and UNINDENT
    tokens, which no grammar action uses, are those of the current position and empty. *)
From Verif Require Import Base Ast Utf8 Quote.

(** build/parse.y.go:38-74, the values returned by [Lex]. *)
Inductive kind :=
  | KChar (c : ascii)                      (* a one-character token, newline included *)
  | KAugm | KAnd | KComment | KEof | KEq | KFor | KGe | KIdent | KInt | KIf | KElse | KElif | KIn | KIs
  | KLambda | KLoad | KLe | KNe | KStarStar | KIntDiv | KLsh | KRsh | KArrow | KNot | KOr | KString
  | KDef | KReturn | KPass | KBreak | KContinue | KIndent | KUnindent.
(** The token fields of [yySymType], build/parse.y:34-38. *)
Record token := Tok { t_kind : kind; t_pos : pos; t_tok : bytes; t_str : bytes; t_triple : bool }.

(** build/lex.go:188-210 [input]: the lexing state.  [l_seen] is the consumed part of [complete],
    reversed; the stack [l_indents] has its top first. *)
Record lexst := LX {
  l_seen : bytes; l_rest : bytes; l_pos : pos; l_lines : list comment; l_suffixes : list comment;
  l_depth : Z; l_clean : bool; l_indent : nat; l_indents : list nat }.

(** build/lex.go:212-226 [newInput]. *)
Definition newInput (data : bytes) : lexst :=
  LX [] (data ++ [c_nl]) (Pos 1 1 0) [] [] 0 true 0 [0].

(** build/lex.go:287-301 [readRune]: the effect on the position. *)
Definition rune_pos (p : pos) (r : N) (size : nat) : pos :=
  if N.eqb r 10 then Pos (p_line p + 1) 1 (p_byte p + Z.of_nat size)
  else Pos (p_line p) (p_rune p + 1) (p_byte p + Z.of_nat size).
Fixpoint advance (fuel : nat) (p : pos) (s : bytes) : pos :=
  match fuel, s with
  | S f, _ :: _ => let (r, n) := decode_rune s in advance f (rune_pos p r n) (skipn n s)
  | _, _ => p
  end.
(** Repeated [readRune] over the next [n] bytes.  (Everything the lexer reads in one go ends before an
    ASCII character or at the end of the input, so no rune extends past it.) *)
Definition read (n : nat) (st : lexst) : lexst :=
  let s := firstn n (l_rest st) in
  LX (rev s ++ l_seen st) (skipn n (l_rest st)) (advance (List.length s) (l_pos st) s)
     (l_lines st) (l_suffixes st) (l_depth st) (l_clean st) (l_indent st) (l_indents st).
Definition set_line (clean : bool) (indent : nat) (st : lexst) : lexst :=
  LX (l_seen st) (l_rest st) (l_pos st) (l_lines st) (l_suffixes st) (l_depth st) clean indent (l_indents st).
Definition set_depth (d : Z) (st : lexst) : lexst :=
  LX (l_seen st) (l_rest st) (l_pos st) (l_lines st) (l_suffixes st) d (l_clean st) (l_indent st) (l_indents st).
Definition set_indents (l : list nat) (st : lexst) : lexst :=
  LX (l_seen st) (l_rest st) (l_pos st) (l_lines st) (l_suffixes st) (l_depth st) (l_clean st) (l_indent st) l.
Definition add_comments (ls ss : list comment) (st : lexst) : lexst :=
  LX (l_seen st) (l_rest st) (l_pos st) (l_lines st ++ ls) (l_suffixes st ++ ss)
     (l_depth st) (l_clean st) (l_indent st) (l_indents st).
Definition here (k : kind) (tok : bytes) (st : lexst) : token := Tok k (l_pos st) tok [] false.

(** The longest prefix without the given bytes. *)
Fixpoint span_not (stop : ascii -> bool) (s : bytes) : bytes :=
  match s with [] => [] | c :: s' => if stop c then [] else c :: span_not stop s' end.
Definition is_nl (c : ascii) : bool := ceq c c_nl.

(** The white space [bytes.TrimSpace] removes: ASCII, and the encodings of U+0085, U+00A0, U+1680,
    U+2000-U+200A, U+2028, U+2029, U+202F, U+205F and U+3000. *)
Definition ascii_space (c : ascii) : bool := ((bN c =? 32) || ((9 <=? bN c) && (bN c <=? 13)))%N.
Definition wide_space (a b c : N) : bool :=
  (((a =? 225) && (b =? 154) && (c =? 128)) ||
   ((a =? 226) && (b =? 128) && ((c <=? 138) || (c =? 168) || (c =? 169) || (c =? 175))) ||
   ((a =? 226) && (b =? 129) && (c =? 159)) || ((a =? 227) && (b =? 128) && (c =? 128)))%N.
Definition lead_space (s : bytes) : nat :=
  match s with
  | c :: s' =>
      if ascii_space c then 1
      else match s' with
           | d :: s'' =>
               if ((bN c =? 194) && ((bN d =? 133) || (bN d =? 160)))%N then 2
               else match s'' with e :: _ => if wide_space (bN c) (bN d) (bN e) then 3 else 0 | [] => 0 end
           | [] => 0
           end
  | [] => 0
  end.
(** The same at the end of a text given in reverse. *)
Definition trail_space (s : bytes) : nat :=
  match s with
  | c :: s' =>
      if ascii_space c then 1
      else match s' with
           | d :: s'' =>
               if ((bN d =? 194) && ((bN c =? 133) || (bN c =? 160)))%N then 2
               else match s'' with e :: _ => if wide_space (bN e) (bN d) (bN c) then 3 else 0 | [] => 0 end
           | [] => 0
           end
  | [] => 0
  end.
Fixpoint trim_with (f : bytes -> nat) (fuel : nat) (s : bytes) : bytes :=
  match fuel with
  | S fu => match f s with O => s | n => trim_with f fu (skipn n s) end
  | O => s
  end.
(** build/lex.go:374-393: is the comment at the current position a suffix comment? *)
Definition is_suffix (seen : bytes) : bool :=
  let line := span_not is_nl seen in                                            (* reversed *)
  let line := trim_with trail_space (List.length line) line in
  let prefix := trim_with lead_space (List.length line) (rev line) in
  let prefix := filter (fun c => negb (ceq c c_sp)) prefix in
  match rev prefix with
  | [] => false
  | [a; b] => negb (ceq b ")" && ceq a ":" || ceq a "[" || ceq a "(" || ceq a "{")
  | a :: _ => negb (ceq a "[" || ceq a "(" || ceq a "{")
  end%char.

Inductive lexres := LexToken (t : token) (st : lexst) | LexError.
(** build/lex.go:340-434 (in [Lex]), the loop that skips blanks and comments: it may return a token
    ([inl]) or stop at the next non-blank ([inr]). *)
Fixpoint skip_blanks (fuel : nat) (st : lexst) (countNL : nat) : (token * lexst) + lexst :=
  match fuel with
  | O => inr st
  | S fuel =>
      match l_rest st with
      | [] => inr st
      | c :: s =>
          if ceq c c_sp || ceq c c_tab || ceq c c_cr || ceq c c_nl then
            if ceq c c_nl then
              let st := set_line true 0 st in
              if Z.eqb (l_depth st) 0 then inl (here (KChar c_nl) [c_nl] st, read 1 st)
              else skip_blanks fuel (read 1 st) (S countNL)
            else if ceq c c_sp && l_clean st then
              skip_blanks fuel (read 1 (set_line (l_clean st) (S (l_indent st)) st)) countNL
            else skip_blanks fuel (read 1 st) countNL
          else if ceq c c_hash then
            let isLineComment := l_clean st in
            let st := set_line true 0 st in
            let isSuffix := is_suffix (l_seen st) in
            let tok := span_not is_nl (l_rest st) in
            let p := l_pos st in
            let st' := read (List.length tok) st in
            if Z.eqb (l_depth st) 0 && isLineComment then inl (here KComment tok st, st')
            else
              let st' := if 1 <? countNL then add_comments [Comment p []] [] st' else st' in
              let st' := if isSuffix then add_comments [] [Comment p tok] st'
                         else add_comments [Comment p tok] [] st' in
              skip_blanks fuel st' 0
          else if ceq c c_bs && match s with d :: _ => ceq d c_nl | [] => false end then
            skip_blanks fuel (read 2 st) countNL
          else inr st
      end
  end.

(** build/lex.go:662-668 [isIdent], on the first byte of a rune. *)
Definition isIdent (c : ascii) : bool :=
  (((48 <=? bN c) && (bN c <=? 57)) || ((65 <=? bN c) && (bN c <=? 90)) || ((97 <=? bN c) && (bN c <=? 122))
   || (bN c =? 95) || (128 <=? bN c))%N.
Definition is_digit (c : ascii) : bool := ((48 <=? bN c) && (bN c <=? 57))%N.
(** build/lex.go:623-638: the extent of an identifier or number; [num] says that the token starts with
    a digit, [last_e] that its last character so far is e or E. *)
Fixpoint scan_ident (num last_e : bool) (s : bytes) : bytes :=
  match s with
  | [] => []
  | c :: s' =>
      if isIdent c || ((ceq c "+" || ceq c "-") && num && last_e)
      then c :: scan_ident num (ceq c "e" || ceq c "E") s'
      else []
  end%char.
(** build/lex.go:640-657 and 672-687 [keywordToken]. *)
Definition ident_kind (tok : bytes) : kind :=
  if beq tok %"and" then KAnd else if beq tok %"for" then KFor else if beq tok %"if" then KIf
  else if beq tok %"else" then KElse else if beq tok %"elif" then KElif else if beq tok %"in" then KIn
  else if beq tok %"is" then KIs else if beq tok %"lambda" then KLambda else if beq tok %"load" then KLoad
  else if beq tok %"not" then KNot else if beq tok %"or" then KOr else if beq tok %"def" then KDef
  else if beq tok %"return" then KReturn else if beq tok %"pass" then KPass
  else if beq tok %"break" then KBreak else if beq tok %"continue" then KContinue
  else match tok with c :: _ => if is_digit c then KInt else KIdent | [] => KIdent end.

(** build/lex.go:498-550: operators possibly followed by '='; the kind and the length. *)
Definition op_token (c : ascii) (s : bytes) : kind * nat :=
  let peek n := match nth_error s n with Some d => d | None => "000"%char end in
  if ceq c "~" then (KChar c, 1)
  else if ceq c "*" && ceq (peek 0) "*" then (KStarStar, 2)
  else if ceq c "-" && ceq (peek 0) ">" then (KArrow, 2)
  else
    let '(k, n) :=
      if ceq c (peek 0) then
        if ceq c "/" then (KIntDiv, 2) else if ceq c "<" then (KLsh, 2)
        else if ceq c ">" then (KRsh, 2) else (KChar c, 1)
      else (KChar c, 1) in
    if ceq (peek (n - 1)) "=" then
      (match k with
       | KChar d => if ceq d "<" then KLe else if ceq d ">" then KGe else if ceq d "=" then KEq
                    else if ceq d "!" then KNe else KAugm
       | _ => KAugm
       end, S n)
    else (k, n).
Definition mem_char (c : ascii) (s : bytes) : bool := existsb (ceq c) s.
(** Is the next token a string literal? *)
Definition starts_string (s : bytes) : bool :=
  match s with
  | c :: s' => ceq c c_quote || ceq c c_sq ||
               (ceq c "r" && match s' with d :: _ => ceq d c_quote || ceq d c_sq | [] => false end)
  | [] => false
  end.
Definition peekToken (n : nat) (st : lexst) : bytes := firstn n (l_rest st).
(** build/lex.go:472-658 (in [Lex]) from [startToken] on: the input is not empty and starts with a
    non-blank. *)
Definition lex_token (st : lexst) : lexres :=
  let emit k n := LexToken (here k (firstn n (l_rest st)) st) (read n st) in
  match l_rest st with
  | [] => LexToken (here KEof [] st) st
  | c :: s =>
      if mem_char c %"[({" then LexToken (here (KChar c) [c] st) (read 1 (set_depth (l_depth st + 1) st))
      else if mem_char c %"])}" then LexToken (here (KChar c) [c] st) (read 1 (set_depth (l_depth st - 1) st))
      else if mem_char c %".:;," then emit (KChar c) 1
      else if mem_char c %"<>=!+-*/%|&~^" then let (k, n) := op_token c s in emit k n
      else if starts_string (l_rest st) then
        match lex_string (l_rest st) with
        | Some (tok, v, t, _) => LexToken (Tok KString (l_pos st) tok v t) (read (List.length tok) st)
        | None => LexError
        end
      else if negb (isIdent c) then LexError
      else
        let tok := scan_ident (is_digit c) false (l_rest st) in
        emit (ident_kind tok) (List.length tok)
  end.
(** build/lex.go:339-658 [Lex]. *)
Definition Lex (st : lexst) : lexres :=
  match skip_blanks (S (List.length (l_rest st))) st 0 with
  | inl (t, st) => LexToken t st
  | inr st =>
      let cur := hd 0 (l_indents st) in
      if Z.eqb (l_depth st) 0 && l_clean st && (cur <? l_indent st) then
        LexToken (here KIndent [] st) (set_line false (l_indent st) (set_indents (l_indent st :: l_indents st) st))
      else if Z.eqb (l_depth st) 0 && l_clean st && (l_indent st <? cur) then
        let st := set_indents (tl (l_indents st)) st in
        if hd 0 (l_indents st) <? l_indent st then LexError
        else LexToken (here KUnindent [] st) st
      else
        let st := set_line false (l_indent st) st in
        match l_rest st with
        | [] => if 0 <? cur then LexToken (here KUnindent [] st) (set_indents (tl (l_indents st)) st)
                else lex_token st
        | _ => lex_token st
        end
  end.
(** The tokens the parser asks for, up to the end of the file. *)
Inductive lexed := Lexed (l : list token) (st : lexst) | LexFail (l : list token) | LexLoop.
Fixpoint lex_all (fuel : nat) (st : lexst) : lexed :=
  match fuel with
  | O => LexLoop
  | S f =>
      match Lex st with
      | LexError => LexFail []
      | LexToken t st' =>
          match t_kind t with
          | KEof => Lexed [t] st'
          | _ => match lex_all f st' with
                 | Lexed l st'' => Lexed (t :: l) st''
                 | LexFail l => LexFail (t :: l)
                 | LexLoop => LexLoop
                 end
          end
      end
  end.
Definition tokenize (data : bytes) : lexed :=
  lex_all (3 * List.length data + 6) (newInput data).
