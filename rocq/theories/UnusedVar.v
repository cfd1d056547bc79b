(** Unused variables: warn/warn_control_flow.go.
    Simplifications: maps are lists (their iteration order only matters for the order of the findings, and for which of two targets with the same name
    in one statement is reported: here the first); the accumulators are computed one by one instead of in one traversal. *)
From Verif Require Import Base Ast Walk Scope Lint Flow CallLints.
Local Open Scope list_scope.

Definition underscored (n : bytes) : bool := has_prefix %"_" n.
(** warn/warn_control_flow.go:238-392 [extractIdentsFromStmt], first result: the identifiers that are assigned, and whether the warning is suppressed *)
Definition assigned_idents (e : expr) : list (ident * bool) :=
  match e with
  | EAssign _ x _ _ _ _ =>
      let l := CollectLValues x in
      map (fun i => (i, ContainsComments e %"@unused" || (negb (forallb (fun j => underscored (i_name j)) l) && underscored (i_name i)))) l
  | EFor _ _ v _ _ => map (fun i => (i, underscored (i_name i))) (CollectLValues v)
  | _ => []
  end.
(** second result, by names; warn/warn_control_flow.go:387-391: what is assigned is not used *)
Definition used_in_stmt (e : expr) : list bytes := map i_name (used_idents true false [] e).

(** build/walk.go:230-277 with the callback of warn/warn_control_flow.go:414-498: the statements below [root] without those in inner functions *)
Definition own_statements (root : expr) : list expr :=
  map fst (tl (visit_stmts (fun e stk => is_def e && match stk with [] => false | _ => true end) [] root)).
Definition params_of (root : expr) : list expr := match root with EDef _ _ ps _ _ _ _ _ _ => ps | _ => [] end.
(** warn/warn_control_flow.go:465-471: neither functions nor loads *)
Definition plain_stmt (e : expr) : bool := match e with EFile _ _ _ | EDef _ _ _ _ _ _ _ _ _ | ELoad _ _ _ _ _ _ _ => false | _ => true end.
Definition def_name (e : expr) : bytes := match e with EDef _ _ _ _ n _ _ _ _ => n | _ => [] end.
(** the first of every name *)
Fixpoint first_of {A} (seen : list bytes) (l : list (bytes * A)) : list (bytes * A) :=
  match l with
  | [] => []
  | (n, a) :: l' => if mem_bytes n seen then first_of seen l' else (n, a) :: first_of (n :: seen) l'
  end.
(** warn/warn_control_flow.go:437-442: the last parameter of every name *)
Definition param_idents (root : expr) : list (bytes * ident) := flat_map (fun p => opt_list (fun i => (i_name i, i)) (GetParamIdent p)) (params_of root).
(** [definedSymbols], with the suppression of the first definition by a statement *)
Definition definitions (root : expr) : list (bytes * (ident * bool)) :=
  first_of [] (map (fun d : bytes * ident => (fst d, (snd d, false))) (rev (param_idents root)) ++
               flat_map (fun s => if plain_stmt s then map (fun a : ident * bool => (i_name (fst a), a)) (assigned_idents s) else []) (own_statements root)).
(** [definedFunctions] *)
Definition functions_of (root : expr) : list (bytes * expr) := first_of [] (map (fun d => (def_name d, d)) (filter is_def (own_statements root))).
(** [suppressedWarnings] *)
Definition suppressed (root : expr) : list bytes :=
  flat_map (fun p => match GetParamIdent p with Some i => if beq (i_name i) %"name" || underscored (i_name i) || ContainsComments p %"@unused" then [i_name i] else [] | None => [] end) (params_of root) ++
  flat_map (fun d => if ContainsComments d %"@unused" then [def_name d] else []) (filter is_def (own_statements root)) ++
  flat_map (fun d : bytes * (ident * bool) => if snd (snd d) then [fst d] else []) (definitions root).
(** The used names without those of inner functions *)
Definition used_here (root : expr) : list bytes :=
  flat_map (fun p => match p with EAssign _ _ _ _ _ y => used_in_stmt y | _ => [] end) (params_of root) ++
  flat_map (fun s => if plain_stmt s then used_in_stmt s else []) (own_statements root).
Inductive unused := UnusedVariable (i : ident) | UnusedFunction (d : expr).
(** warn/warn_control_flow.go:398-549 [unusedVariableCheck]; [export]: [ignoreTopLevel] *)
Fixpoint unusedVariableCheck (n : nat) (export : bool) (root : expr) : list bytes * list unused :=
  match n with
  | 0 => ([], [])
  | S n =>
      let inner := map (unusedVariableCheck n false) (filter is_def (own_statements root)) in
      let used := used_here root ++ flat_map fst inner in
      let keep (x : bytes) := mem_bytes x used || mem_bytes x (suppressed root) || (export && negb (underscored x)) in
      (filter (fun x => negb (mem_bytes x (map fst (definitions root))) && negb (mem_bytes x (map fst (functions_of root)))) used,
       flat_map snd inner ++
       flat_map (fun d : bytes * (ident * bool) => if keep (fst d) then [] else [UnusedVariable (fst (snd d))]) (definitions root) ++
       flat_map (fun d : bytes * expr => if keep (fst d) then [] else [UnusedFunction (snd d)]) (functions_of root))
  end.
(** warn/warn_control_flow.go:551-554 [unusedVariableWarning] *)
Definition unusedVariableWarning (f : expr) : list unused :=
  snd (unusedVariableCheck (height f) (match file_type f with TypeBzl | TypeDefault => true | _ => false end) f).
