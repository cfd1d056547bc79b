(** Unused loads: edit/edit.go and build/utils.go (names and types that a file uses), warn/warn_control_flow.go (the lint
    unused-load and its fix), edit/fix.go (buildozer's fix unusedLoads). *)
From Verif Require Import Base Ast Walk Loads Lint.

(** edit/edit.go:994-1019 [UsedSymbols].  The test as.LHS == expr compares nodes: the identifier is itself the left-hand side
    ([lhs]) of the assignment around it.  The set is a list. *)
Fixpoint used_in (lhs : bool) (e : expr) : list bytes :=
  match e with
  | EIdent i => if lhs then [] else [i_name i]
  | EAssign _ x _ _ _ y => used_in true x ++ used_in false y
  | ELoad _ _ _ _ _ _ _ => []
  | _ => List.concat (fold_children2 (used_in false) (fun _ => []) (fun i => [i_name i]) e)
  end.
Definition UsedSymbols (e : expr) : list bytes := used_in false e.
(** build/utils.go:50-81 [GetTypes] *)
Fixpoint GetTypes (t : expr) : list bytes :=
  match t with
  | ETyped _ _ t => GetTypes t
  | EIdent i => [i_name i]
  | EDef _ _ ps _ _ _ _ _ ty => match ty with Some t => GetTypes t | None => [] end ++ flat_map GetTypes ps
  | EIndex _ x _ y _ => GetTypes x ++ GetTypes y
  | EDot _ x _ _ n => if beq n %"type" then GetTypes x else []
  | _ => []
  end.
(** edit/edit.go:1022-1044 [UsedTypes] *)
Definition UsedTypes (e : expr) : list bytes :=
  flat_map (fun v => match fst v with ETyped _ _ _ | EDef _ _ _ _ _ _ _ _ _ => GetTypes (fst v) | _ => [] end) (Walk e).

(** ** The lint unused-load *)
Inductive load_problem := AlreadyLoaded | OtherLoaded | Unused.
(** warn/warn_control_flow.go:611-656, the loop over one load statement: [loaded] maps local names to the token of the module
    and the name there (the latest); the result is the new map, the symbols that remain, and the findings. *)
Fixpoint check_symbols (tok : bytes) (keep : ident * ident -> bool) (loaded : list (bytes * (bytes * bytes))) (l : list (ident * ident))
  : list (bytes * (bytes * bytes)) * list (ident * ident) * list (load_problem * ident) :=
  match l with
  | [] => (loaded, [], [])
  | (from, to) :: l' =>
      let '(loaded', rest, fs) := check_symbols tok keep ((i_name to, (tok, i_name from)) :: loaded) l' in
      match lookup (i_name to) loaded with
      | Some (label, name) =>
          if beq label tok && beq name (i_name from) then (loaded', rest, (AlreadyLoaded, to) :: fs)
          else (loaded', (from, to) :: rest, (OtherLoaded, to) :: fs)
      | None =>
          if keep (from, to) then (loaded', (from, to) :: rest, fs) else (loaded', rest, (Unused, to) :: fs)
      end
  end.
Definition ident_unused (i : ident) : bool := ContainsComments (EIdent i) %"@unused".
Section UnusedLoad.
  Context (srt : (ident * ident -> ident * ident -> bool) -> list (ident * ident) -> list (ident * ident)) (symbols types : list bytes).
  (** warn/warn_control_flow.go:634-638: is the symbol used or protected? *)
  Definition keep_symbol (e : expr) (p : ident * ident) : bool :=
    mem_bytes (i_name (snd p)) symbols || mem_bytes (i_name (snd p)) types ||
    ContainsComments e %"@unused" || ident_unused (snd p) || ident_unused (fst p).
  (** warn/warn_control_flow.go:597-688, one statement: the map, the statement after the replacement of the first finding (if
      any), the findings. *)
  Definition check_load (loaded : list (bytes * (bytes * bytes))) (s : option expr)
    : list (bytes * (bytes * bytes)) * option expr * list (load_problem * ident) :=
    match s with
    | Some (ELoad c p m fr to r k as e) =>
        let '(loaded', l, fs) := check_symbols (s_token m) (keep_symbol e) loaded (combine fr to) in
        (loaded',
         match fs with
         | [] => s
         | _ => match l with [] => None | _ => Some (SortLoadArgs srt (ELoad c p m (map fst l) (map snd l) r k)) end
         end, fs)
    | _ => (loaded, s, [])
    end.
  Fixpoint check_loads (loaded : list (bytes * (bytes * bytes))) (l : list (option expr)) : list (option expr) * list (load_problem * ident) :=
    match l with
    | [] => ([], [])
    | s :: l' =>
        let '(loaded', s', fs) := check_load loaded s in
        let (l'', fs') := check_loads loaded' l' in (s' :: l'', fs ++ fs')
    end.
End UnusedLoad.
(** warn/warn_control_flow.go:585-691 [unusedLoadWarning]: the statements of the file with all the replacements, and the
    findings. *)
Definition unusedLoadWarning srt (f : expr) : list (option expr) * list (load_problem * ident) :=
  match f with
  | EFile _ _ l => check_loads srt (UsedSymbols f) (UsedTypes f) [] l
  | _ => ([], [])
  end.

(** ** buildozer's fix unusedLoads *)
(** edit/fix.go:379-399, the loop over one load; [seen] maps a local name to the last module it is loaded from
    (the last element of the slice in symbolsToModules). *)
Fixpoint clean_symbols (symbols : list bytes) (m : bytes) (seen : list (bytes * bytes)) (l : list (ident * ident))
  : list (bytes * bytes) * list (ident * ident) * bool :=
  match l with
  | [] => (seen, [], false)
  | (from, to) :: l' =>
      if mem_bytes (i_name to) symbols then
        if match lookup (i_name to) seen with Some m' => beq m' m | None => false end then
          let '(seen', rest, _) := clean_symbols symbols m seen l' in (seen', rest, true)
        else
          let '(seen', rest, b) := clean_symbols symbols m ((i_name to, m) :: seen) l' in (seen', (from, to) :: rest, b)
      else let '(seen', rest, _) := clean_symbols symbols m seen l' in (seen', rest, true)
  end.
(** edit/fix.go:577-579 [loadArgs.Less] *)
Definition to_less (a b : ident * ident) : bool := blt (i_name (snd a)) (i_name (snd b)).
(** edit/fix.go:370-419: one statement; the statements it becomes. *)
Definition clean_load (srt : (ident * ident -> ident * ident -> bool) -> list (ident * ident) -> list (ident * ident)) (symbols : list bytes)
    (seen : list (bytes * bytes)) (s : option expr) : list (bytes * bytes) * list (option expr) * bool :=
  match s with
  | Some (ELoad c p m fr to r k as e) =>
      if ContainsComments e %"@unused" then (seen, [s], false)
      else
        let '(seen', l, b) := clean_symbols symbols (s_value m) seen (combine fr to) in
        match l with
        | [] =>
            (seen',
             match c_before c, c_after c with
             | [], [] => []
             | _, _ => [Some (ECommentBlock (Comments [] [] (c_before c ++ c_after c)) no_pos)]
             end, true)
        | _ => let l' := srt to_less l in (seen', [Some (ELoad c p m (map fst l') (map snd l') r k)], b)
        end
  | _ => (seen, [s], false)
  end.
Fixpoint clean_loads srt (symbols : list bytes) (seen : list (bytes * bytes)) (l : list (option expr)) : list (option expr) * bool :=
  match l with
  | [] => ([], false)
  | s :: l' =>
      let '(seen', a, b) := clean_load srt symbols seen s in
      let (l'', b') := clean_loads srt symbols seen' l' in (a ++ l'', b || b')
  end.
(** edit/fix.go:349-406 [cleanUnusedLoads]: the new statements; was anything changed? *)
Definition cleanUnusedLoads srt (f : expr) : list (option expr) * bool :=
  match f with EFile _ _ l => clean_loads srt (UsedSymbols f) [] l | _ => ([], false) end.
