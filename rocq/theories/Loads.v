(** Load statements: build/rewrite.go:946-1188, 1237-1293. *)
From Verif Require Import Base Ast Walk Labels StrList Rewrite.

(** Assignment to an element of a slice; None: index out of range (a Go panic). *)
Fixpoint set_nth {A} (i : nat) (x : A) (l : list A) : option (list A) :=
  match l, i with
  | [], _ => None
  | _ :: l', 0 => Some (x :: l')
  | y :: l', S i' => option_map (cons y) (set_nth i' x l')
  end.

(** build/rewrite.go:184-194 [isCommentAnywhere]; the callback returns StopTraversalError at a
    node that has the comment. *)
Definition is_comment_anywhere (f : expr) (text : bytes) : bool :=
  existsb (fun p => has_comment text (fst p)) (WalkInterruptable (fun e _ => has_comment text e) f).

(** build/rewrite.go:946-955 [isFunctionCall]. *)
Definition is_function_call (e : expr) (name : bytes) : bool :=
  match e with ECall _ (EIdent i) _ _ _ _ _ => beq (i_name i) name | _ => false end.
Definition is_load_stmt (o : option expr) : bool :=
  match o with Some (ELoad _ _ _ _ _ _ _) => true | _ => false end.
(** build/rewrite.go:977-983: statements that the first loop skips. *)
Definition is_skipped (o : option expr) : bool :=
  match o with
  | None => true
  | Some (EStr _) | Some (ECommentBlock _ _) => true
  | Some e => is_function_call e %"workspace"
  end.
(** build/rewrite.go:974-994, first loop: (firstStmtIndex, misplaced indices). *)
Fixpoint find_misplaced (i : nat) (first : option nat) (mis : list nat) (l : list (option expr))
  : option nat * list nat :=
  match l with
  | [] => (first, mis)
  | s :: l' =>
      if is_skipped s then find_misplaced (S i) first mis l'
      else if is_load_stmt s then
        match first with
        | None => find_misplaced (S i) first mis l'
        | Some _ => find_misplaced (S i) first (i :: mis) l'
        end
      else find_misplaced (S i) (match first with None => Some i | _ => first end) mis l'
  end.
(** build/rewrite.go:1004-1023, second loop; [copy] is the rest of stmtCopy from index [i]. *)
Fixpoint move_loop (i first offset : nat) (mis : list nat) (copy st : list (option expr))
  : option (list (option expr)) :=
  match copy with
  | [] => Some st
  | x :: copy' =>
      if Nat.ltb i first then move_loop (S i) first offset mis copy' st
      else if existsb (Nat.eqb i) mis then
        match set_nth first x st with
        | None => None
        | Some st' =>
            if Nat.eqb (offset - 1) 0 then Some st'
            else move_loop (S i) (S first) (offset - 1) mis copy' st'
        end
      else
        match set_nth (i + offset) x st with
        | None => None
        | Some st' => move_loop (S i) first offset mis copy' st'
        end
  end.
Definition move_loads (l : list (option expr)) : option (list (option expr)) :=
  let (first, mis) := find_misplaced 0 None [] l in
  let first := match first with Some k => k | None => 0 end in
  if Nat.eqb (List.length mis) 0 then Some l
  else move_loop 0 first (List.length mis) mis l l.
(** build/rewrite.go:958-1024 [moveLoadOnTop]; None: panic. *)
Definition moveLoadOnTop (f : expr) : option expr :=
  match f with
  | EFile c m l =>
      match f_type m with
      | TypeWorkspace => Some f
      | _ => if is_comment_anywhere f %"disable=load-on-top" then Some f
             else option_map (EFile c m) (move_loads l)
      end
  | _ => Some f
  end.

(** build/rewrite.go:1027-1053 [compressSameOriginLoads].  [loads]: module -> index of the load
    statement (in Go: pointer to it). *)
Fixpoint compress_loop (i : nat) (loads : list (bytes * nat)) (todo st : list (option expr))
  : list (option expr) :=
  match todo with
  | [] => st
  | Some (ELoad c p m fr to r k) :: todo' =>
      match lookup (s_value m) loads with
      | None => compress_loop (S i) ((s_value m, i) :: loads) todo' st
      | Some j =>
          match nth_error st j with
          | Some (Some (ELoad c0 p0 m0 fr0 to0 r0 k0 as prev)) =>
              if has_comment %"disable=same-origin-load" prev
                 || has_comment %"disable=same-origin-load" (ELoad c p m fr to r k)
              then compress_loop (S i) loads todo' st
              else
                match set_nth j (Some (ELoad c0 p0 m0 (fr0 ++ fr) (to0 ++ to) r0 k0)) st with
                | Some st1 =>
                    match set_nth i None st1 with
                    | Some st2 => compress_loop (S i) loads todo' st2
                    | None => st
                    end
                | None => st
                end
          | _ => st   (* unreachable: the map points to loads *)
          end
      end
  | _ :: todo' => compress_loop (S i) loads todo' st
  end.
Definition compress_loads (l : list (option expr)) : list (option expr) := compress_loop 0 [] l l.
Definition compressSameOriginLoads (f : expr) : expr :=
  match f with EFile c m l => EFile c m (compress_loads l) | _ => f end.

(** build/rewrite.go:1057-1081 [comparePaths]. *)
Fixpoint compare_chunks (l1 l2 : list bytes) (fin : bool) : bool :=
  match l1, l2 with
  | [], _ => fin
  | _ :: _, [] => false
  | x :: l1', y :: l2' =>
      if beq (to_lower x) (to_lower y) then compare_chunks l1' l2' fin
      else blt (to_lower x) (to_lower y)
  end.
Definition compare_paths (p q : bytes) : bool :=
  if beq p q then false
  else compare_chunks (split c_slash p) (split c_slash q) (negb (blt q p)).
(** build/rewrite.go:1088-1120 [compareLoadLabels]. *)
Definition compare_load_labels (a b : bytes) : bool :=
  let ea := has_prefix [c_at] a in
  let eb := has_prefix [c_at] b in
  if negb (Bool.eqb ea eb) then ea
  else
    let la := parse_relative a ["127"%char] in
    let lb := parse_relative b ["127"%char] in
    if negb (beq (repository la) (repository lb)) then blt (repository la) (repository lb)
    else if negb (Bool.eqb (is_empty (package la)) (is_empty (package lb))) then is_empty (package la)
    else if negb (beq (package la) (package lb)) then compare_paths (package la) (package lb)
    else compare_paths (target la) (target lb).

(** build/rewrite.go:1124-1179 [sortLoadStatements]: collecting the chunks (the last chunk is the
    head of the accumulator, reversed). *)
Fixpoint load_chunks (new_chunk : bool) (acc : list (list expr)) (l : list (option expr)) : list (list expr) :=
  match l with
  | [] => rev (map (@rev expr) acc)
  | None :: l' => load_chunks new_chunk acc l'
  | Some e :: l' =>
      if is_load_stmt (Some e) then
        match new_chunk, acc with
        | false, ch :: acc' => load_chunks false ((e :: ch) :: acc') l'
        | _, _ => load_chunks false ([e] :: acc) l'
        end
      else load_chunks true acc l'
  end.
(** build/rewrite.go:1171-1178: putting the sorted loads back; None: panic. *)
Fixpoint put_loads (sorted : list expr) (l : list (option expr)) : option (list (option expr)) :=
  match l with
  | [] => Some []
  | s :: l' =>
      if is_load_stmt s then
        match sorted with
        | [] => None
        | x :: sorted' => option_map (cons (Some x)) (put_loads sorted' l')
        end
      else option_map (cons s) (put_loads sorted l')
  end.
Definition load_module (e : expr) : bytes :=
  match e with ELoad _ _ m _ _ _ _ => s_value m | _ => [] end.
(** [srt] is sort.SliceStable with the given order. *)
Definition sort_loads (srt : (expr -> expr -> bool) -> list expr -> list expr) (l : list (option expr)) : option (list (option expr)) :=
  put_loads
    (List.concat (map (srt (fun a b => compare_load_labels (load_module a) (load_module b))) (load_chunks true [] l)))
    l.
Definition sortLoadStatements srt (f : expr) : option expr :=
  match f with
  | EFile c m l =>
      if is_comment_anywhere f %"disable=out-of-order-load" then Some f
      else option_map (EFile c m) (sort_loads srt l)
  | _ => Some f
  end.

(** build/rewrite.go:1237-1266 [loadArgs.Less] on (from, to) pairs. *)
Definition load_arg_less (a b : ident * ident) : bool :=
  let ea := beq (i_name (fst a)) (i_name (snd a)) in
  let eb := beq (i_name (fst b)) (i_name (snd b)) in
  if negb (Bool.eqb ea eb) then ea else blt (i_name (snd a)) (i_name (snd b)).
(** build/rewrite.go:1270-1283 [loadArgs.deduplicate]; [out] is reversed. *)
Fixpoint dedup_load (out l : list (ident * ident)) : list (ident * ident) :=
  match l with
  | [] => rev out
  | a :: l' =>
      match out with
      | b :: out' => if beq (i_name (snd b)) (i_name (snd a)) then dedup_load (a :: out') l' else dedup_load (a :: out) l'
      | [] => dedup_load [a] l'
      end
  end.
(** build/rewrite.go:1286-1293 [SortLoadArgs]; [srt] is sort.Sort with the given order (not
    stable).  From and To have equal length. *)
Definition SortLoadArgs (srt : (ident * ident -> ident * ident -> bool) -> list (ident * ident) -> list (ident * ident)) (e : expr) : expr :=
  match e with
  | ELoad c p m fr to r k =>
      let l := dedup_load [] (srt load_arg_less (combine fr to)) in
      ELoad c p m (map fst l) (map snd l) r k
  | _ => e
  end.
(** build/rewrite.go:1182-1188 [sortAllLoadArgs]. *)
Definition sortAllLoadArgs srt (f : expr) : expr := Edit (fun _ e => SortLoadArgs srt e) f.
