(** Sorting and deduplication of string lists: build/rewrite.go:146-212, 534-702, 732-785. *)
From Verif Require Import Base Ast.

(** build/rewrite.go:160-180 [hasComment].  Lower-casing is ASCII (Base.to_lower); the texts
    searched for are ASCII. *)
Definition has_comment (text : bytes) (e : expr) : bool :=
  existsb (fun c => contains text (to_lower (c_tok c)))
    (c_before (com e) ++ c_after (com e) ++ c_suffix (com e)).
(** build/rewrite.go:198-200 [leaveAlone1]. *)
Definition leave_alone1 (e : expr) : bool := has_comment %"buildifier: leave-alone" e.
(** build/rewrite.go:146-156 [leaveAlone]. *)
Definition leave_alone (stk : list expr) (final : expr) : bool :=
  existsb leave_alone1 stk || leave_alone1 final.
(** build/rewrite.go:204-206 [doNotSort]. *)
Definition do_not_sort (e : expr) : bool := has_comment %"do not sort" e.
(** build/rewrite.go:210-212 [keepSorted]. *)
Definition keep_sorted (e : expr) : bool := has_comment %"keep sorted" e.

(** build/rewrite.go:732-738 [stringSortKey]. *)
Record skey := SKey { k_phase : nat; k_split : list bytes; k_value : bytes; k_orig : nat; k_x : strlit }.

(** build/rewrite.go:740-758 [makeSortKey]; [strip] is tables.StripLabelLeadingSlashes. *)
Definition dot_colons (s : bytes) : bytes := map (fun c => if Ascii.eqb c c_colon then c_dot else c) s.
Definition make_key (strip : bool) (index : nat) (x : strlit) : skey :=
  let v := s_value x in
  let phase :=
    if has_prefix %":" v then 1
    else if has_prefix %"//" v || (strip && negb (has_prefix %"@" v)) then 2
    else if has_prefix %"@" v then 3 else 0 in
  SKey phase (split c_dot (dot_colons v)) v index x.

(** build/rewrite.go:766-785 [byStringExpr.Less]: the loop over the common components
    (None: all common components are equal). *)
Fixpoint split_first (a b : list bytes) : option bool :=
  match a, b with
  | x :: a', y :: b' => if beq x y then split_first a' b' else Some (blt x y)
  | _, _ => None
  end.
Definition key_less (p q : skey) : bool :=
  if negb (Nat.eqb (k_phase p) (k_phase q)) then Nat.ltb (k_phase p) (k_phase q)
  else match split_first (k_split p) (k_split q) with
       | Some r => r
       | None =>
           if negb (Nat.eqb (List.length (k_split p)) (List.length (k_split q)))
           then Nat.ltb (List.length (k_split p)) (List.length (k_split q))
           else if negb (beq (k_value p) (k_value q)) then blt (k_value p) (k_value q)
           else Nat.ltb (k_orig p) (k_orig q)
       end.

(** Go's sort.IsSorted(x): no i with Less(i, i-1). *)
Fixpoint is_sorted {A} (less : A -> A -> bool) (l : list A) : bool :=
  match l with
  | x :: ((y :: _) as l') => negb (less y x) && is_sorted less l'
  | _ => true
  end.

(** build/rewrite.go:684-692 [uniq]: the accumulator is [out]. *)
Definition uniq (l : list skey) : list skey :=
  fold_left (fun out sk =>
    match rev out with
    | [] => out ++ [sk]
    | y :: _ => if beq (k_value sk) (k_value y) then out else out ++ [sk]
    end) l [].
(** build/rewrite.go:695-702 [isUniq]. *)
Fixpoint is_uniq (l : list skey) : bool :=
  match l with
  | x :: ((y :: _) as l') => negb (beq (k_value x) (k_value y)) && is_uniq l'
  | _ => true
  end.

Definition set_before (b : list comment) (s : strlit) : strlit :=
  Str (Comments b (c_suffix (s_com s)) (c_after (s_com s)))
      (s_start s) (s_value s) (s_triple s) (s_end s) (s_token s).
Fixpoint enum_from {A} (n : nat) (l : list A) : list (nat * A) :=
  match l with [] => [] | x :: l' => (n, x) :: enum_from (S n) l' end.
Definition make_keys (strip : bool) (run : list strlit) : list skey :=
  map (fun p => make_key strip (fst p) (snd p)) (enum_from 0 run).

(** build/rewrite.go:658-675: the treatment of one chunk.  The Before comments of the first
    element are removed from it and put on the new first element.  sort.Sort is not stable,
    but the keys are pairwise different (original index), so its result is the unique sorted
    permutation (PropStrList.C09_sorted_unique); here computed by insertion sort. *)
Definition sort_chunk (strip : bool) (run : list strlit) : list strlit :=
  let chunk := make_keys strip run in
  if negb (is_sorted key_less chunk) || negb (is_uniq chunk) then
    match run with
    | [] => []
    | first :: rest =>
        let before := c_before (s_com first) in
        let chunk1 := make_keys strip (set_before [] first :: rest) in
        match map k_x (uniq (isort key_less chunk1)) with
        | [] => []
        | x :: xs => set_before before x :: xs
        end
    end
  else run.

(** The maximal run of strings without Before comments (the j loop, rewrite.go:651-656). *)
Fixpoint take_run (l : list expr) : list strlit :=
  match l with
  | EStr s :: l' => match c_before (s_com s) with [] => s :: take_run l' | _ => [] end
  | _ => []
  end.

(** build/rewrite.go:639-680 [sortStringExprs].  As in Go, the index continues at [j] of the
    old list although the list has become shorter. *)
Fixpoint sort_exprs_loop (strip : bool) (fuel i : nat) (l : list expr) : list expr :=
  match fuel with
  | 0 => l
  | S fuel' =>
      match skipn i l with
      | [] => l
      | EStr s :: rest =>
          let run := s :: take_run rest in
          let j := i + List.length run in
          let l' := firstn i l ++ map EStr (sort_chunk strip run) ++ skipn j l in
          sort_exprs_loop strip fuel' j l'
      | _ :: _ => sort_exprs_loop strip fuel' (S i) l
      end
  end.
Definition sort_string_exprs (strip : bool) (l : list expr) : list expr :=
  if Nat.ltb (List.length l) 2 then l else sort_exprs_loop strip (List.length l) 0 l.

(** build/rewrite.go:546-573 [deduplicateStringExprs]: state = (comments, alreadySeen, out). *)
Definition dedup_step (st : list comment * list bytes * list expr) (value : expr)
  : list comment * list bytes * list expr :=
  let '(cs, seen, out) := st in
  match value with
  | EStr s =>
      if mem_bytes (s_value s) seen
      then (cs ++ c_before (s_com s) ++ c_after (s_com s), seen, out)
      else
        let v := match cs with [] => s | _ => set_before (cs ++ c_before (s_com s)) s end in
        ([], s_value s :: seen, out ++ [EStr v])
  | _ => (cs, seen, out ++ [value])
  end.
Definition dedup_state (l : list expr) := fold_left dedup_step l ([], [], []).
Definition deduplicate (l : list expr) : list expr := snd (dedup_state l).

(** build/rewrite.go:534-541 [deduplicateStringList]. *)
Definition deduplicate_list (x : expr) : expr :=
  match x with
  | EList c s l e m => EList c s (deduplicate l) e m
  | _ => x
  end.

(** build/rewrite.go:1213-1231 [hasComments], first result. *)
Definition has_line_comments (c : comments) (e : endp) (l : list expr) : bool :=
  match c_before c, c_after c, c_before (e_com e) with
  | [], [], [] => existsb (fun x => match c_before (com x) with [] => false | _ => true end) l
  | _, _, _ => true
  end.

(** build/rewrite.go:578-604 [SortStringList]. *)
Definition SortStringList (strip : bool) (x : expr) : expr :=
  match x with
  | EList c s l e m =>
      match l with
      | [] | [_] => x
      | first :: _ =>
          if do_not_sort first then EList c s (deduplicate l) e m
          else
            let force := keep_sorted x || keep_sorted first in
            if negb force && has_line_comments c e l
            then EList c s (deduplicate l) e m
            else EList c s (sort_string_exprs strip l) e m
      end
  | _ => x
  end.
