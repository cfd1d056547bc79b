(** Specification of numeric literals (C22, C23) and of docstring re-indentation (C24). *)
From Verif Require Import Base Ast.

Definition digit_val (base : nat) (c : ascii) : option nat :=
  let n := nat_of_ascii c in
  if (48 <=? n) && (n <=? 57) && (n - 48 <? base) then Some (n - 48) else None.
(** [numeral base s v]: [s] is a nonempty sequence of digits of [base] denoting [v]. *)
Inductive numeral (base : nat) : bytes -> Z -> Prop :=
  | num_one c d : digit_val base c = Some d -> numeral base [c] (Z.of_nat d)
  | num_snoc s v c d : numeral base s v -> digit_val base c = Some d ->
      numeral base (s ++ [c]) (v * Z.of_nat base + Z.of_nat d).
(** Integer literals in decimal and in both octal notations. *)
Inductive int_literal : bytes -> Z -> Prop :=
  | il_zero : int_literal %"0" 0
  | il_decimal c s v : c <> "0"%char -> numeral 10 (c :: s) v -> int_literal (c :: s) v
  | il_old_octal s v : numeral 8 s v -> int_literal ("0"%char :: s) v
  | il_octal x s v : x = "o"%char \/ x = "O"%char -> numeral 8 s v -> int_literal ("0"%char :: x :: s) v.
(** Possibly empty digit sequences. *)
Definition digits0 (s : bytes) (v : Z) : Prop := (s = [] /\ v = 0%Z) \/ numeral 10 s v.
(** Exponent part: value. *)
Inductive exponent : bytes -> Z -> Prop :=
  | ex_none : exponent [] 0
  | ex_pos m s v : m = "e"%char \/ m = "E"%char -> numeral 10 s v -> exponent (m :: s) v
  | ex_plus m s v : m = "e"%char \/ m = "E"%char -> numeral 10 s v -> exponent (m :: "+"%char :: s) v
  | ex_minus m s v : m = "e"%char \/ m = "E"%char -> numeral 10 s v -> exponent (m :: "-"%char :: s) (- v).
(** [float_literal s m e]: [s] denotes [m * 10^e]: digits, a point, digits (not both empty), an
    optional exponent; [m] is the number written by all digits, [e] the exponent minus the number
    of digits after the point. *)
Definition float_literal (s : bytes) (m e : Z) : Prop :=
  exists ip fp ex x,
    s = ip ++ %"." ++ fp ++ ex /\ ip ++ fp <> [] /\
    (forall c, In c (ip ++ fp) -> digit_val 10 c <> None) /\
    digits0 (ip ++ fp) m /\ exponent ex x /\ e = (x - Z.of_nat (List.length fp))%Z.

(** ** Docstrings *)
Definition spaces (n : nat) : bytes := repeat c_sp n.
Definition starts_solid (b : bytes) : Prop := match b with [] => True | c :: _ => c <> c_sp end.
(** A line is shifted by [d] columns (towards the margin it stops there). *)
Definition shifted (d : Z) (n n' : nat) : Prop := Z.of_nat n' = Z.max 0 (Z.of_nat n + d).
(** An inner line: the text between the blanks stays, the leading blanks are shifted, trailing
    blanks disappear. *)
Definition inner_line (d : Z) (line line' : bytes) : Prop :=
  exists n n' body m,
    line = spaces n ++ body ++ spaces m /\ starts_solid body /\ starts_solid (rev body) /\
    ((body <> [] /\ shifted d n n' /\ line' = spaces n' ++ body) \/ (body = [] /\ line' = [])).
(** The last line (it ends with the closing quotes): the leading blanks are shifted. *)
Definition last_line (d : Z) (line line' : bytes) : Prop :=
  exists n n' body,
    line = spaces n ++ body /\ starts_solid body /\ line' = spaces n' ++ body /\
    (shifted d n n' \/ (body = [] /\ n' = n)).
Inductive reindented (d : Z) : list bytes -> list bytes -> Prop :=
  | ri_nil : reindented d [] []
  | ri_last l l' : last_line d l l' -> reindented d [l] [l']
  | ri_inner l l' r r' : r <> [] -> inner_line d l l' -> reindented d r r' -> reindented d (l :: r) (l' :: r').
(** Text with lines [ls] joined by newlines. *)
Definition text_of (ls : list bytes) (s : bytes) : Prop :=
  ls <> [] /\ Forall (fun l => ~ In c_nl l) ls /\ s = join [c_nl] ls.

(** What happens to a function definition [e] nested in [depth] nodes ([unq] decodes a token). *)
Definition docstring_moved (unq : bytes -> bytes) (depth : nat) (e e1 : expr) : Prop :=
  match e with
  | EDef c p ps (EStr s :: rest) n q k m t =>
      if s_triple s then
        exists first lines lines' v,
          text_of (first :: lines) (s_token s) /\
          reindented (4 * Z.of_nat depth - (p_rune (s_start s) - 1)) lines lines' /\
          let tok := join [c_nl] (first :: lines') in
          e1 = EDef c p ps (EStr (Str (s_com s) (s_start s) v (s_triple s) (s_end s) tok) :: rest) n q k m t /\
          (tok = s_token s -> v = s_value s) /\ (tok <> s_token s -> v = unq tok)
      else e1 = e
  | _ => e1 = e
  end.
