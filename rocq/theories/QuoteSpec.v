(** Independent specification of string-literal escapes (Python / Starlark rules as
    documented in build/quote.go:85-100 comments). *)
From Verif Require Import Base Utf8.

Definition octal_digits : list (ascii * N) :=
  combine %"01234567" [0; 1; 2; 3; 4; 5; 6; 7]%N.
Definition hex_digits : list (ascii * Z) :=
  combine %"0123456789abcdefABCDEF"
    [0;1;2;3;4;5;6;7;8;9;10;11;12;13;14;15;10;11;12;13;14;15]%Z.

(** Positional value, most significant digit first. *)
Inductive hex_value : bytes -> Z -> Prop :=
  | hv_nil : hex_value [] 0
  | hv_snoc ds c d v : hex_value ds v -> In (c, d) hex_digits -> hex_value (ds ++ [c]) (16 * v + d)%Z.
Inductive octal_value : bytes -> N -> Prop :=
  | ov_nil : octal_value [] 0
  | ov_snoc ds c d v : octal_value ds v -> In (c, d) octal_digits -> octal_value (ds ++ [c]) (8 * v + d)%N.

(** What the documentation says: exactly the given number of hexadecimal digits. *)
Definition strict_num (ds : bytes) (n : Z) : Prop := hex_value ds n.
(** What the code accepts: the first of them may also be a sign. *)
Definition signed_num (ds : bytes) (n : Z) : Prop :=
  hex_value ds n \/
  (exists ds', ds = "+"%char :: ds' /\ ds' <> [] /\ hex_value ds' n) \/
  (exists ds' m, ds = "-"%char :: ds' /\ ds' <> [] /\ hex_value ds' m /\ n = (- m)%Z).

Definition simple_escapes : list (ascii * ascii) :=
  [("a", "007"); ("b", "008"); ("f", "012"); ("n", "010"); ("r", "013"); ("t", "009"); ("v", "011");
   ("\", "\"); ("'", "'"); ("""", """")]%char.

(** Bytes that start a known escape after a backslash. *)
Definition known_escape (c : ascii) : Prop :=
  In c (map fst simple_escapes) \/ In c (map fst octal_digits) \/ In c [c_nl; "u"; "U"; "x"]%char.

Definition surrogate (n : Z) : Prop := (55296 <= n <= 57343)%Z.

(** [denotes num body s]: the (unquoted) literal text [body] denotes the bytes [s];
    [num] says how numeric hexadecimal escapes are read. *)
Inductive denotes (num : bytes -> Z -> Prop) : bytes -> bytes -> Prop :=
  | D_end : denotes num [] []
  | D_plain c q s : c <> c_bs -> denotes num q s -> denotes num (c :: q) (c :: s)
  | D_newline q s : denotes num q s -> denotes num (c_bs :: c_nl :: q) s
  | D_simple c v q s : In (c, v) simple_escapes -> denotes num q s -> denotes num (c_bs :: c :: q) (v :: s)
  | D_octal ds n q s :
      1 <= List.length ds <= 3 -> octal_value ds n -> (n < 256)%N ->
      (List.length ds = 3 \/ forall c q', q = c :: q' -> ~ In c (map fst octal_digits)) ->
      denotes num q s -> denotes num (c_bs :: ds ++ q) (ascii_of_N n :: s)
  | D_hex ds n q s :
      List.length ds = 2 -> num ds n -> denotes num q s ->
      denotes num (c_bs :: "x"%char :: ds ++ q) (ascii_of_N (Z.to_N (n mod 256)) :: s)
  | D_u ds n q s :
      List.length ds = 4 -> num ds n -> ~ surrogate n -> denotes num q s ->
      denotes num (c_bs :: "u"%char :: ds ++ q) (encode_rune n ++ s)
  | D_U ds n q s :
      List.length ds = 8 -> num ds n -> ~ surrogate n -> (n <= 1114111)%Z -> denotes num q s ->
      denotes num (c_bs :: "U"%char :: ds ++ q) (encode_rune n ++ s)
  | D_other c q s : ~ known_escape c -> denotes num q s -> denotes num (c_bs :: c :: q) (c_bs :: c :: s).
