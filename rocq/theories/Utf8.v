(** Go's [unicode/utf8]: [DecodeRune] and [EncodeRune]/[WriteRune]. *)
From Verif Require Import Base.
Local Open Scope N_scope.

Definition rune_error : N := 65533. (* utf8.RuneError, U+FFFD *)

Definition in_range (lo hi : N) (c : ascii) : bool := (lo <=? bN c) && (bN c <=? hi).
Definition is_cont : ascii -> bool := in_range 128 191.
Definition cont_bits (c : ascii) : N := bN c - 128.

(** [utf8.DecodeRune] (Go standard library): the first rune of a non-empty input and
    its width; an invalid encoding gives (RuneError, 1); empty input gives (RuneError, 0). *)
Definition decode_rune (s : bytes) : N * nat :=
  match s with
  | [] => (rune_error, 0%nat)
  | b0 :: r =>
      let n0 := bN b0 in
      if n0 <? 128 then (n0, 1%nat)
      else if n0 <? 194 then (rune_error, 1%nat)
      else if n0 <? 224 then
        match r with
        | b1 :: _ => if is_cont b1 then ((n0 - 192) * 64 + cont_bits b1, 2%nat) else (rune_error, 1%nat)
        | _ => (rune_error, 1%nat)
        end
      else if n0 <? 240 then
        match r with
        | b1 :: b2 :: _ =>
            let lo := if n0 =? 224 then 160 else 128 in
            let hi := if n0 =? 237 then 159 else 191 in
            if in_range lo hi b1 && is_cont b2
            then ((n0 - 224) * 4096 + cont_bits b1 * 64 + cont_bits b2, 3%nat)
            else (rune_error, 1%nat)
        | _ => (rune_error, 1%nat)
        end
      else if n0 <? 245 then
        match r with
        | b1 :: b2 :: b3 :: _ =>
            let lo := if n0 =? 240 then 144 else 128 in
            let hi := if n0 =? 244 then 143 else 191 in
            if in_range lo hi b1 && is_cont b2 && is_cont b3
            then ((n0 - 240) * 262144 + cont_bits b1 * 4096 + cont_bits b2 * 64 + cont_bits b3, 4%nat)
            else (rune_error, 1%nat)
        | _ => (rune_error, 1%nat)
        end
      else (rune_error, 1%nat)
  end.

Definition byte_of (n : N) : ascii := ascii_of_N (n mod 256).

(** [bytes.Buffer.WriteRune(rune(n))]: UTF-8 encoding; negative, surrogate and
    too large values are written as U+FFFD. *)
Definition encode_rune (z : Z) : bytes :=
  let bad := [byte_of 239; byte_of 191; byte_of 189] in
  if (z <? 0)%Z then bad else
  let n := Z.to_N z in
  if n <? 128 then [byte_of n]
  else if n <? 2048 then [byte_of (192 + n / 64); byte_of (128 + n mod 64)]
  else if (55296 <=? n) && (n <=? 57343) then bad
  else if n <? 65536 then
    [byte_of (224 + n / 4096); byte_of (128 + (n / 64) mod 64); byte_of (128 + n mod 64)]
  else if n <=? 1114111 then
    [byte_of (240 + n / 262144); byte_of (128 + (n / 4096) mod 64);
     byte_of (128 + (n / 64) mod 64); byte_of (128 + n mod 64)]
  else bad.

(** The runes of a Go string, as produced by [for _, ch := range s]. *)
Fixpoint runes_fuel (fuel : nat) (s : bytes) : list N :=
  match fuel, s with
  | O, _ | _, [] => []
  | S f, _ => let (r, n) := decode_rune s in r :: runes_fuel f (skipn n s)
  end.
Definition runes (s : bytes) : list N := runes_fuel (List.length s) s.
