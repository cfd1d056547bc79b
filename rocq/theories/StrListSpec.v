(** Specification vocabulary for string lists (properties C09 - C13), independent of the
    sorting code. *)
From Verif Require Import Base Ast.

(** [a] comes before [b] lexicographically: at the first difference either [a] has ended or
    its element is smaller. *)
Definition lex_before {A} (lt : A -> A -> Prop) (a b : list A) : Prop :=
  (exists y t, b = a ++ y :: t) \/
  (exists p x s y t, a = p ++ x :: s /\ b = p ++ y :: t /\ lt x y).
(** Go's [<] on strings. *)
Definition bytes_before : bytes -> bytes -> Prop := lex_before (fun x y => (bN x < bN y)%N).

(** The documented phases (build/rewrite.go:726-731): most strings, ":", "//", "@".  With
    [strip] (labels written without leading slashes) everything that does not start with ':'
    or '@' counts as a "//" label. *)
Definition phase_of (strip : bool) (v : bytes) : nat :=
  match v with
  | c :: r =>
      if Ascii.eqb c c_colon then 1
      else if Ascii.eqb c c_at then 3
      else if strip then 2
      else match r with d :: _ => if Ascii.eqb c c_slash && Ascii.eqb d c_slash then 2 else 0 | [] => 0 end
  | [] => if strip then 2 else 0
  end.
(** [comps] are the components of [v]: [v] is their concatenation with one '.' or ':' between
    neighbours, and no component contains one. *)
Inductive components : bytes -> list bytes -> Prop :=
  | comp_last v : ~ In c_dot v -> ~ In c_colon v -> components v [v]
  | comp_cons v sep rest cs :
      ~ In c_dot v -> ~ In c_colon v -> sep = c_dot \/ sep = c_colon ->
      components rest cs -> components (v ++ sep :: rest) (v :: cs).
(** The order of string list elements. *)
Definition str_before (strip : bool) (v w : bytes) : Prop :=
  phase_of strip v < phase_of strip w \/
  (phase_of strip v = phase_of strip w /\
   exists cv cw, components v cv /\ components w cw /\
     (lex_before bytes_before cv cw \/ (cv = cw /\ bytes_before v w))).

Definition is_str (e : expr) : bool := match e with EStr _ => true | _ => false end.
(** Values of the string elements. *)
Definition str_values (l : list expr) : list bytes :=
  flat_map (fun e => match e with EStr s => [s_value s] | _ => [] end) l.
(** The literal without its whole-line comments. *)
Definition bare (s : strlit) : strlit :=
  Str (Comments [] (c_suffix (s_com s)) (c_after (s_com s)))
      (s_start s) (s_value s) (s_triple s) (s_end s) (s_token s).
Definition before_of (s : strlit) : list comment := c_before (s_com s).

(** A chunk: consecutive string elements of which only the first may carry whole-line
    comments; [chunk_result run run'] says that [run'] is its sorted duplicate-free version,
    made of the same literals, with the whole-line comments kept at the top. *)
Definition is_chunk (run : list strlit) : Prop :=
  match run with [] => False | _ :: t => Forall (fun s => before_of s = []) t end.
Record chunk_result (strip : bool) (run run' : list strlit) : Prop := {
  cr_sorted : StronglySorted (str_before strip) (map s_value run');
  cr_values : forall v, In v (map s_value run') <-> In v (map s_value run);
  cr_literals : Forall (fun x' => exists x, In x run /\ bare x = bare x') run';
  cr_top : match run, run' with
           | f :: _, f' :: _ => before_of f' = before_of f
           | _, _ => False end;
  cr_chunk : is_chunk run' }.

(** Nothing moves except inside chunks. *)
Inductive chunkwise (strip : bool) : list expr -> list expr -> Prop :=
  | cw_nil : chunkwise strip [] []
  | cw_keep e l l' : chunkwise strip l l' -> chunkwise strip (e :: l) (e :: l')
  | cw_chunk run run' l l' :
      is_chunk run -> chunk_result strip run run' -> chunkwise strip l l' ->
      chunkwise strip (map EStr run ++ l) (map EStr run' ++ l').

(** The list starts with something that ends a chunk. *)
Definition ends_chunk (l : list expr) : Prop :=
  match l with
  | [] => True
  | EStr s :: _ => before_of s <> []
  | _ => True
  end.
(** The same, with every maximal chunk sorted. *)
Inductive all_chunks_sorted (strip : bool) : list expr -> list expr -> Prop :=
  | ac_nil : all_chunks_sorted strip [] []
  | ac_other e l l' :
      is_str e = false -> all_chunks_sorted strip l l' -> all_chunks_sorted strip (e :: l) (e :: l')
  | ac_chunk run run' l l' :
      is_chunk run -> ends_chunk l -> chunk_result strip run run' ->
      all_chunks_sorted strip l l' ->
      all_chunks_sorted strip (map EStr run ++ l) (map EStr run' ++ l').
(** No chunk of [l] has two strings of equal value. *)
Definition no_dup_in_chunks (l : list expr) : Prop :=
  forall a run b, l = a ++ map EStr run ++ b -> is_chunk run -> NoDup (map s_value run).

(** ** Deduplication *)
(** Element [i] of [l] is a non-string or the first string with its value. *)
Definition first_occurrence (l : list expr) (i : nat) : Prop :=
  match nth_error l i with
  | Some (EStr s) =>
      forall j s', j < i -> nth_error l j = Some (EStr s') -> s_value s' <> s_value s
  | Some _ => True
  | None => False
  end.
Definition bare_expr (e : expr) : expr := match e with EStr s => EStr (bare s) | _ => e end.
(** Whole-line comments of the string elements, in order; those after a removed duplicate
    count as whole-line comments of it ([seen]: values seen so far). *)
Fixpoint line_comments (seen : list bytes) (l : list expr) : list comment :=
  match l with
  | [] => []
  | EStr s :: l' =>
      c_before (s_com s) ++
      (if in_dec (list_eq_dec ascii_dec) (s_value s) seen then c_after (s_com s) else []) ++
      line_comments (s_value s :: seen) l'
  | _ :: l' => line_comments seen l'
  end.
Definition before_comments (l : list expr) : list comment :=
  flat_map (fun e => match e with EStr s => before_of s | _ => [] end) l.
