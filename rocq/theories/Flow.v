(** warn/warn_control_flow.go: unreachable statements and missing return values. *)
From Verif Require Import Base Ast Walk.

(** A location of a statement below a block: the position in the block, then (inside a compound
    statement) the block chosen, the position there, and so on.  Go has pointers instead. *)
Inductive branch := InBody | InTrue | InFalse.
Inductive step := At (i : nat) | Into (b : branch).
Definition loc := list step.

Definition is_fail (x : expr) : bool := match x with EIdent i => beq (i_name i) %"fail" | _ => false end.

(** warn/warn_control_flow.go:33-67 [findReturnsWithoutValue]: the result and the locations the callback
    is called on.  [returns1] is one iteration of the loop. *)
Fixpoint returns1 (s : expr) : bool * list loc :=
  let block := (fix block (i : nat) (l : list expr) (terminated : bool) : bool * list loc :=
    match l with
    | [] => (terminated, [])
    | x :: l' =>
        let (t, r) := returns1 x in
        let (t', r') := block (S i) l' (terminated || t) in
        (t', map (cons (At i)) r ++ r')
    end) in
  match s with
  | EReturn _ _ None => (true, [[]])
  | EReturn _ _ (Some _) => (true, [])
  | ECall _ x _ _ _ _ _ => (is_fail x, [])
  | EFor _ _ _ _ body => (false, map (cons (Into InBody)) (snd (block 0 body false)))
  | EIf _ _ _ tru _ fls =>
      let (t1, r1) := block 0 tru false in
      let (t2, r2) := block 0 fls false in
      (t1 && t2, map (cons (Into InTrue)) r1 ++ map (cons (Into InFalse)) r2)
  | _ => (false, [])
  end.
Fixpoint returns_block (i : nat) (l : list expr) (terminated : bool) : bool * list loc :=
  match l with
  | [] => (terminated, [])
  | x :: l' =>
      let (t, r) := returns1 x in
      let (t', r') := returns_block (S i) l' (terminated || t) in
      (t', map (cons (At i)) r ++ r')
  end.
Definition findReturnsWithoutValue (stmts : list expr) : bool * list loc := returns_block 0 stmts false.

(** warn/warn_control_flow.go:116-150 [findUnreachableStatements]: as above. *)
Fixpoint unreach1 (s : expr) : bool * list loc :=
  let block := (fix block (i : nat) (l : list expr) (unreachable : bool) : bool * list loc :=
    match l with
    | [] => (unreachable, [])
    | x :: l' =>
        if unreachable then (true, [[At i]])
        else let (t, r) := unreach1 x in
             let (t', r') := block (S i) l' t in
             (t', map (cons (At i)) r ++ r')
    end) in
  match s with
  | EReturn _ _ _ => (true, [])
  | ECall _ x _ _ _ _ _ => (is_fail x, [])
  | EBranch _ tok _ => (negb (beq tok %"pass"), [])
  | EFor _ _ _ _ body => (false, map (cons (Into InBody)) (snd (block 0 body false)))
  | EIf _ _ _ tru _ fls =>
      let (t1, r1) := block 0 tru false in
      let (t2, r2) := block 0 fls false in
      (t1 && t2, map (cons (Into InTrue)) r1 ++ map (cons (Into InFalse)) r2)
  | _ => (false, [])
  end.
Fixpoint unreach_block (i : nat) (l : list expr) (unreachable : bool) : bool * list loc :=
  match l with
  | [] => (unreachable, [])
  | x :: l' =>
      if unreachable then (true, [[At i]])
      else let (t, r) := unreach1 x in
           let (t', r') := unreach_block (S i) l' t in
           (t', map (cons (At i)) r ++ r')
  end.
Definition findUnreachableStatements (stmts : list expr) : bool * list loc := unreach_block 0 stmts false.

Definition def_body (e : expr) : option (list expr) := match e with EDef _ _ _ b _ _ _ _ _ => Some b | _ => None end.
(** warn/warn_control_flow.go:152-166 [unreachableStatementWarning]: findings as (function, location). *)
Definition unreachableStatementWarning (f : expr) : list (expr * loc) :=
  flat_map (fun ds => match def_body (fst ds) with
                      | Some body => map (pair (fst ds)) (snd (findUnreachableStatements body))
                      | None => [] end)
    (visit_stmts (fun _ _ => false) [] f).
(** warn/warn_control_flow.go:84-97: does the function return a value somewhere?  Nested functions are
    skipped. *)
Definition is_def (e : expr) : bool := match e with EDef _ _ _ _ _ _ _ _ _ => true | _ => false end.
Definition value_return (e : expr) : bool := match e with EReturn _ _ (Some _) => true | _ => false end.
Definition hasNonEmptyReturns (d : expr) : bool :=
  existsb (fun es => value_return (fst es))
    (visit_stmts (fun e stk => is_def e && match stk with [] => false | _ => true end) [] d).
(** warn/warn_control_flow.go:70-110 [missingReturnValueWarning]: findings as (function, location of a bare
    return) or (function, None) for the implicit return at the end. *)
Definition missingReturnValueWarning (f : expr) : list (expr * option loc) :=
  flat_map (fun ds =>
    match def_body (fst ds) with
    | Some body =>
        if hasNonEmptyReturns (fst ds) then
          let (t, r) := findReturnsWithoutValue body in
          map (fun l => (fst ds, Some l)) r ++ (if t then [] else [(fst ds, None)])
        else []
    | None => [] end)
    (visit_stmts (fun _ _ => false) [] f).
