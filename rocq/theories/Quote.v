(** Model of build/quote.go (string quoting), of the string scanner of build/lex.go
    and of the string case of build/print.go. *)
From Verif Require Import Base Utf8.

(** build/quote.go:28-40 [unesc]: value of a one-letter escape (None = table entry 0). *)
Definition unesc (c : ascii) : option ascii :=
  if ceq c "a" then Some "007"%char
  else if ceq c "b" then Some "008"%char
  else if ceq c "f" then Some "012"%char
  else if ceq c "n" then Some "010"%char
  else if ceq c "r" then Some "013"%char
  else if ceq c "t" then Some "009"%char
  else if ceq c "v" then Some "011"%char
  else if ceq c c_bs then Some c_bs
  else if ceq c c_sq then Some c_sq
  else if ceq c c_quote then Some c_quote
  else None.

(** build/quote.go:43-54 [esc]: letter following the backslash (None = table entry 0). *)
Definition esc (c : ascii) : option ascii :=
  if ceq c "007" then Some "a"%char
  else if ceq c "008" then Some "b"%char
  else if ceq c "012" then Some "f"%char
  else if ceq c "010" then Some "n"%char
  else if ceq c "013" then Some "r"%char
  else if ceq c "009" then Some "t"%char
  else if ceq c "011" then Some "v"%char
  else if ceq c c_bs then Some c_bs
  else if ceq c c_sq then Some c_sq
  else if ceq c c_quote then Some c_quote
  else None.

(** build/quote.go:58-83 [escapable], a [256]bool table. *)
Definition escapable (n : N) : bool :=
  existsb (N.eqb n) (map bN (c_nl :: %"abfnrtuUvx'\" ++ [c_quote] ++ %"0123456789")).

Inductive uerr :=
  | ErrTooShort | ErrBadQuotes | ErrTruncated | ErrInvalidEscape | ErrSurrogate | ErrOutOfRange.

(** The digit value used by [strconv.ParseInt(_, 16, 0)]. *)
Definition hexval (c : ascii) : option Z :=
  let n := Z.of_N (bN c) in
  if (48 <=? n)%Z && (n <=? 57)%Z then Some (n - 48)%Z
  else if (97 <=? n)%Z && (n <=? 102)%Z then Some (n - 87)%Z
  else if (65 <=? n)%Z && (n <=? 70)%Z then Some (n - 55)%Z
  else None.
Fixpoint hexdigits (acc : Z) (s : bytes) : option Z :=
  match s with
  | [] => Some acc
  | c :: s' => match hexval c with Some v => hexdigits (acc * 16 + v)%Z s' | None => None end
  end.
(** [strconv.ParseInt(s, 16, 0)] for inputs of at most 8 characters (no overflow):
    an optional sign followed by at least one hexadecimal digit. *)
Definition parse_int16 (s : bytes) : option Z :=
  match s with
  | [] => None
  | c :: s' =>
      if ceq c "-" then match s' with [] => None | _ => option_map Z.opp (hexdigits 0 s') end
      else if ceq c "+" then match s' with [] => None | _ => hexdigits 0 s' end
      else hexdigits 0 s
  end.

Definition is_octal (c : ascii) : bool := ((48 <=? bN c) && (bN c <=? 55))%N.
Definition octval (c : ascii) : N := (bN c - 48)%N.

(** build/quote.go:100-103, 115-230: the escape loop of [Unquote], reading the body
    byte by byte (the Go code copies runs of plain bytes at once, which is the same). *)
Fixpoint unescape (q : bytes) : uerr + bytes :=
  let emit (l : bytes) (r : uerr + bytes) : uerr + bytes :=
    match r with inl e => inl e | inr t => inr (l ++ t) end in
  match q with
  | [] => inr []
  | c0 :: q1 =>
      if negb (ceq c0 c_bs) then emit [c0] (unescape q1) else
      match q1 with
      | [] => inl ErrTruncated
      | c :: r =>
          if ceq c c_nl then unescape r
          else if ceq c "u" then
            match r with
            | a1 :: a2 :: a3 :: a4 :: r' =>
                match parse_int16 [a1; a2; a3; a4] with
                | None => inl ErrInvalidEscape
                | Some n =>
                    if (55296 <=? n)%Z && (n <=? 57343)%Z then inl ErrSurrogate
                    else emit (encode_rune n) (unescape r')
                end
            | _ => inl ErrTruncated
            end
          else if ceq c "U" then
            match r with
            | a1 :: a2 :: a3 :: a4 :: a5 :: a6 :: a7 :: a8 :: r' =>
                match parse_int16 [a1; a2; a3; a4; a5; a6; a7; a8] with
                | None => inl ErrInvalidEscape
                | Some n =>
                    if (55296 <=? n)%Z && (n <=? 57343)%Z then inl ErrSurrogate
                    else if (1114111 <? n)%Z then inl ErrOutOfRange
                    else emit (encode_rune n) (unescape r')
                end
            | _ => inl ErrTruncated
            end
          else if ceq c "x" then
            match r with
            | a1 :: a2 :: r' =>
                match parse_int16 [a1; a2] with
                | None => inl ErrInvalidEscape
                | Some n => emit [byte_of (Z.to_N (n mod 256))] (unescape r')
                end
            | _ => inl ErrTruncated
            end
          else if is_octal c then
            match r with
            | d1 :: r1 =>
                if is_octal d1 then
                  match r1 with
                  | d2 :: r2 =>
                      if is_octal d2 then
                        let n := ((octval c * 8 + octval d1) * 8 + octval d2)%N in
                        if (256 <=? n)%N then inl ErrInvalidEscape else emit [byte_of n] (unescape r2)
                      else emit [byte_of (octval c * 8 + octval d1)] (unescape r1)
                  | [] => emit [byte_of (octval c * 8 + octval d1)] (unescape r1)
                  end
                else emit [byte_of (octval c)] (unescape r)
            | [] => emit [byte_of (octval c)] (unescape r)
            end
          else match unesc c with
               | Some v => emit [v] (unescape r)
               | None => emit [c_bs; c] (unescape r)
               end
      end
  end.

(** build/quote.go:88-238 [Unquote]: value, triple flag and error (None = nil).
    Note that the "invalid quotes" error does not return early (lines 101-103). *)
Definition unquote (quoted : bytes) : bytes * bool * option uerr :=
  let raw := has_prefix %"r" quoted in
  let q := if raw then skipn 1 quoted else quoted in
  match q with
  | [] | [_] => ([], false, Some ErrTooShort)
  | q0 :: _ =>
      let lastc := last q "000"%char in
      let err := if negb (ceq q0 c_quote) && negb (ceq q0 c_sq) || negb (ceq q0 lastc)
                 then Some ErrBadQuotes else None in
      let triple :=
        (6 <=? List.length q) && ceq (nth 1 q "000"%char) q0 && ceq (nth 2 q "000"%char) q0
        && beq (firstn 3 q) (skipn (List.length q - 3) q) in
      let body := if triple then firstn (List.length q - 6) (skipn 3 q)
                  else firstn (List.length q - 2) (skipn 1 q) in
      if raw || negb (contains_byte c_bs body) then (body, triple, err)
      else match unescape body with
           | inl e => ([], triple, Some e)
           | inr s => (s, triple, err)
           end
  end.

(** build/quote.go:238-261 [IsCorrectEscaping]. [None] is the index-out-of-range
    run-time panic of [escapable[ch]] for a rune of 256 or more. *)
Fixpoint correct_escaping (escaped : bool) (rs : list N) : option bool :=
  match rs with
  | [] => Some true
  | ch :: rs' =>
      if negb escaped then correct_escaping (N.eqb ch 92) rs'
      else if (256 <=? ch)%N then None
      else if escapable ch then correct_escaping false rs'
      else Some false
  end.
Definition is_correct_escaping (value : bytes) : option bool := correct_escaping false (runes value).

(** build/quote.go:275-276 [hex], lines 326-328: an octal digit. *)
Definition octdigit (n : N) : ascii := ascii_of_N (48 + n mod 8).

(** build/quote.go:309-335: how one byte is written outside the special triple-quote case. *)
Definition quote_byte (triple : bool) (c : ascii) : bytes :=
  if triple && ceq c c_nl then [c]
  else if ceq c c_sq then [c]
  else if ceq c c_bs then [c_bs; c_bs]
  else match esc c with
       | Some e => [c_bs; e]
       | None =>
           if (bN c <? 32)%N || (128 <=? bN c)%N
           then [c_bs; octdigit (bN c / 64); octdigit (bN c / 8); octdigit (bN c)]
           else [c]
       end.

(** build/quote.go:289-340: the loop of [quote]. *)
Fixpoint quote_loop (triple : bool) (u : bytes) : bytes :=
  match u with
  | [] => []
  | c :: u1 =>
      if ceq c c_quote && triple then
        match u1 with
        | [] => quote_byte triple c ++ quote_loop triple u1
        | d :: u2 =>
            if negb (ceq d c_quote) then c :: quote_loop triple u1
            else match u2 with
                 | e :: _ => if negb (ceq e c_quote) then c :: c :: quote_loop triple u2
                             else quote_byte triple c ++ quote_loop triple u1
                 | [] => quote_byte triple c ++ quote_loop triple u1
                 end
        end
      else quote_byte triple c ++ quote_loop triple u1
  end.

(** build/quote.go:278-343 [quote]. *)
Definition quotes (triple : bool) : bytes := if triple then [c_quote; c_quote; c_quote] else [c_quote].
Definition quote (unquoted : bytes) (triple : bool) : bytes :=
  quotes triple ++ quote_loop triple unquoted ++ quotes triple.

(** ** The string scanner, build/lex.go:556-606.
    [None] is a lexical error; [Some rest] is what remains after the closing quote. *)
Definition read_rune (s : bytes) : option (N * bytes) :=
  match s with
  | [] => None
  | _ => let (r, n) := decode_rune s in Some (r, skipn n s)
  end.

(** build/lex.go:584-605: single-quoted (non-triple) body. *)
Fixpoint scan_single (fuel : nat) (q : N) (s : bytes) : option bytes :=
  match fuel with
  | O => None
  | S f =>
      match read_rune s with
      | None => None                       (* unexpected EOF in string *)
      | Some (c, s1) =>
          if N.eqb c 10 then None          (* unexpected newline in string *)
          else if N.eqb c q then Some s1
          else if N.eqb c 92 then
            match read_rune s1 with
            | None => None
            | Some (_, s2) => scan_single f q s2
            end
          else scan_single f q s1
      end
  end.

(** build/lex.go:563-582: triple-quoted body, with the last two runes read. *)
Fixpoint scan_triple (fuel : nat) (q c2 c3 : N) (s : bytes) : option bytes :=
  match fuel with
  | O => None
  | S f =>
      match read_rune s with
      | None => None
      | Some (c, s1) =>
          if N.eqb c2 q && N.eqb c3 q && N.eqb c q then Some s1
          else if N.eqb c 92 then
            match read_rune s1 with
            | None => None
            | Some (_, s2) => scan_triple f q c3 c s2
            end
          else scan_triple f q c3 c s1
      end
  end.

(** build/lex.go:549-606: the literal at the start of the input (which starts with
    an optional r and a quote character), giving the remaining input. *)
Definition scan_string (s : bytes) : option bytes :=
  let s0 := match s with
            | c :: c' :: _ => if ceq c "r" && (ceq c' c_quote || ceq c' c_sq) then skipn 1 s else s
            | _ => s
            end in
  match s0 with
  | [] => None
  | q :: s1 =>
      if negb (ceq q c_quote || ceq q c_sq) then None else
      match s1 with
      | a :: b :: s3 =>
          if ceq a q && ceq b q then scan_triple (S (List.length s3)) (bN q) 0 0 s3
          else scan_single (S (List.length s1)) (bN q) s1
      | _ => scan_single (S (List.length s1)) (bN q) s1
      end
  end.

(** build/lex.go:607-614: the whole string token: text, value, triple flag, rest.
    [None] is a lexical error (bad literal or bad escape). *)
Definition lex_string (s : bytes) : option (bytes * bytes * bool * bytes) :=
  match scan_string s with
  | None => None
  | Some rest =>
      let tok := firstn (List.length s - List.length rest) s in
      match unquote tok with
      | (v, t, None) => Some (tok, v, t, rest)
      | _ => None
      end
  end.

(** ** Printing a string literal, build/print.go:626-658. *)
Inductive outcome (A : Type) := Ok (a : A) | Panic.
Arguments Ok {A} _.
Arguments Panic {A}.

(** Go slice expression s[lo:hi] with its bounds check. *)
Definition slice (s : bytes) (lo hi : nat) : outcome bytes :=
  if (lo <=? hi) && (hi <=? List.length s) then Ok (firstn (hi - lo) (skipn lo s)) else Panic.

Definition uerr_none (e : option uerr) : bool := match e with None => true | _ => false end.

Definition print_string (value : bytes) (triple : bool) (token : bytes) : outcome bytes :=
  let fresh := Ok (quote value triple) in
  let '(s, t, err) := unquote token in
  if uerr_none err && beq s value && Bool.eqb t triple then
    if has_prefix %"r" token then
      if has_suffix [c_sq] token && negb (contains_byte c_quote value) then
        if has_suffix [c_sq; c_sq; c_sq] token then
          if List.length token <? 3 then Panic else
          match slice token 4 (List.length token - 3) with
          | Ok m => Ok (%"r" ++ quotes true ++ m ++ quotes true)
          | Panic => Panic
          end
        else
          match slice token 2 (List.length token - 1) with
          | Ok m => Ok (%"r" ++ quotes false ++ m ++ quotes false)
          | Panic => Panic
          end
      else Ok token
    else if has_prefix [c_quote] token || contains_byte c_quote value then
      match is_correct_escaping token with
      | None => Panic
      | Some true => Ok token
      | Some false => fresh
      end
    else fresh
  else fresh.
