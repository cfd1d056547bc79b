(** Byte strings and the parts of Go's [strings], [path] and [sort] packages that
    the rest of the model uses.  Go strings are arbitrary byte sequences, so they
    are modelled as [list ascii]. *)
From Coq Require Export List Ascii String Bool Arith ZArith NArith Lia.
From Coq Require Export Permutation Sorted.
Export ListNotations.
Open Scope list_scope.
Open Scope nat_scope.

Definition bytes := list ascii.

(** Literal helper: [B "abc"] is the byte list of the literal. *)
Definition B (s : string) : bytes := list_ascii_of_string s.
Notation "% s" := (B s%string) (at level 0, s at level 0, only parsing).

(** Numeric value of a byte. *)
Definition bN (c : ascii) : N := N_of_ascii c.

Definition ceq : ascii -> ascii -> bool := Ascii.eqb.

(** Byte constants. *)
Definition c_quote : ascii := """"%char.
Definition c_sq : ascii := "'"%char.
Definition c_bs : ascii := "\"%char.
Definition c_nl : ascii := "010"%char.
Definition c_sp : ascii := " "%char.
Definition c_tab : ascii := "009"%char.
Definition c_cr : ascii := "013"%char.
Definition c_slash : ascii := "/"%char.
Definition c_colon : ascii := ":"%char.
Definition c_at : ascii := "@"%char.
Definition c_hash : ascii := "#"%char.
Definition c_dot : ascii := "."%char.

(** Go [==] on strings. *)
Fixpoint beq (a b : bytes) : bool :=
  match a, b with
  | [], [] => true
  | x :: a', y :: b' => Ascii.eqb x y && beq a' b'
  | _, _ => false
  end.

(** Go [<] on strings: bytewise lexicographic order. *)
Fixpoint bcmp (a b : bytes) : comparison :=
  match a, b with
  | [], [] => Eq
  | [], _ :: _ => Lt
  | _ :: _, [] => Gt
  | x :: a', y :: b' =>
      match N.compare (bN x) (bN y) with
      | Eq => bcmp a' b'
      | c => c
      end
  end.
Definition blt (a b : bytes) : bool :=
  match bcmp a b with Lt => true | _ => false end.

(** [strings.HasPrefix]. *)
Fixpoint has_prefix (p s : bytes) : bool :=
  match p, s with
  | [], _ => true
  | _ :: _, [] => false
  | x :: p', y :: s' => Ascii.eqb x y && has_prefix p' s'
  end.
(** [strings.HasSuffix]. *)
Definition has_suffix (p s : bytes) : bool := has_prefix (rev p) (rev s).
(** [strings.TrimPrefix]. *)
Definition trim_prefix (p s : bytes) : bytes :=
  if has_prefix p s then skipn (List.length p) s else s.
(** [strings.TrimSuffix]. *)
Definition trim_suffix (p s : bytes) : bytes :=
  if has_suffix p s then firstn (List.length s - List.length p) s else s.
(** [strings.TrimLeft] for an ASCII cutset given as a predicate. *)
Fixpoint trim_left (p : ascii -> bool) (s : bytes) : bytes :=
  match s with
  | [] => []
  | c :: s' => if p c then trim_left p s' else s
  end.
(** [strings.TrimRight] for an ASCII cutset given as a predicate. *)
Definition trim_right (p : ascii -> bool) (s : bytes) : bytes :=
  rev (trim_left p (rev s)).
(** [strings.Contains] for a one-byte needle. *)
Definition contains_byte (c : ascii) (s : bytes) : bool := existsb (Ascii.eqb c) s.
(** [strings.Contains] for an arbitrary needle. *)
Fixpoint contains (sub s : bytes) : bool :=
  has_prefix sub s ||
  match s with [] => false | _ :: s' => contains sub s' end.
(** [strings.SplitN(s, c, 2)] for a one-byte separator: [(s, None)] if there is no
    separator, [(before, Some after)] for the first one. *)
Fixpoint split2 (c : ascii) (s : bytes) : bytes * option bytes :=
  match s with
  | [] => ([], None)
  | x :: s' =>
      if Ascii.eqb x c then ([], Some s')
      else let (a, b) := split2 c s' in (x :: a, b)
  end.
(** [strings.Split(s, c)] for a one-byte separator: never empty. *)
Fixpoint split (c : ascii) (s : bytes) : list bytes :=
  match s with
  | [] => [[]]
  | x :: s' =>
      if Ascii.eqb x c then [] :: split c s'
      else match split c s' with
           | [] => [[x]]
           | h :: t => (x :: h) :: t
           end
  end.
(** [strings.Join(l, sep)]. *)
Fixpoint join (sep : bytes) (l : list bytes) : bytes :=
  match l with
  | [] => []
  | [x] => x
  | x :: l' => x ++ sep ++ join sep l'
  end.

(** Text after the last '/' (all of the text if there is none). *)
Definition after_last_slash (s : bytes) : bytes :=
  fold_left (fun acc c => if Ascii.eqb c c_slash then [] else acc ++ [c]) s [].
(** [path.Base] (Go standard library): "." for "", strip trailing slashes, keep the
    last element, "/" if nothing is left. *)
Definition path_base (s : bytes) : bytes :=
  match s with
  | [] => [c_dot]
  | _ =>
      let s1 := trim_right (Ascii.eqb c_slash) s in
      match after_last_slash s1 with
      | [] => [c_slash]
      | b => b
      end
  end.

(** [strings.ToLower] restricted to ASCII (the callers use it on file names and
    module labels; non-ASCII letters are left alone: simplification). *)
Definition lower_byte (c : ascii) : ascii :=
  let n := bN c in
  if ((65 <=? n) && (n <=? 90))%N then ascii_of_N (n + 32) else c.
Definition to_lower (s : bytes) : bytes := map lower_byte s.

(** Stable insertion sort: the result of Go's [sort.Stable] / [sort.SliceStable]
    for a strict weak order [lt]. *)
Section ISort.
  Context {A : Type} (lt : A -> A -> bool).
  Fixpoint insert (x : A) (l : list A) : list A :=
    match l with
    | [] => [x]
    | y :: l' => if lt y x then y :: insert x l' else x :: l
    end.
  (* inserting from the right end keeps equal elements in order *)
  Fixpoint isort (l : list A) : list A :=
    match l with
    | [] => []
    | x :: l' => insert x (isort l')
    end.
End ISort.

(** [List] helpers. *)
Fixpoint mem_bytes (x : bytes) (l : list bytes) : bool :=
  match l with [] => false | y :: l' => beq x y || mem_bytes x l' end.

(** Association lists used for Go maps with string keys. *)
Fixpoint lookup {V} (k : bytes) (l : list (bytes * V)) : option V :=
  match l with
  | [] => None
  | (k', v) :: l' => if beq k k' then Some v else lookup k l'
  end.
