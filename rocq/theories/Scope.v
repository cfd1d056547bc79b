(** warn/warn_control_flow.go: variables (the lints uninitialized, unused-variable); bzlenv/bzlenv.go: assigned names;
    build/utils.go: parameters.
    The Go code keeps sets of *build.Ident, that is, of occurrences of identifiers; here an occurrence is told apart by the way
    that leads to it, so that membership becomes a flag of the traversal ([lv]: this node is an element of the left-hand side
    whose occurrences were collected).  Maps from names are lists.  Trees do not share nodes (as after parsing). *)
From Verif Require Import Base Ast Walk Flow.

(** bzlenv/bzlenv.go:142-157 [CollectLValues] *)
Fixpoint CollectLValues (e : expr) : list ident :=
  match e with
  | EIdent i => [i]
  | ETuple _ _ _ l _ _ _ | EList _ _ l _ _ => flat_map CollectLValues l
  | _ => []
  end.
Definition lvalue_names (e : expr) : list bytes := map i_name (CollectLValues e).
(** build/utils.go:28-48 [GetParamIdent] (without the operator) *)
Fixpoint GetParamIdent (e : expr) : option ident :=
  match e with
  | EIdent i => Some i
  | ETyped _ i _ => Some i
  | EAssign _ x _ _ _ _ => GetParamIdent x
  | EUnary _ _ _ (Some x) => GetParamIdent x
  | _ => None
  end.
(** build/utils.go:19-26 [GetParamName] for a parameter with a name *)
Definition param_names (ps : list expr) : list bytes := flat_map (fun p => opt_list i_name (GetParamIdent p)) ps.

(** warn/warn_control_flow.go:340-368: the scope of a comprehension or lambda expression. *)
Definition scope_of (e : expr) : list bytes :=
  match e with
  | EComp _ _ _ _ cl _ _ => flat_map (fun k => match k with EForC _ _ v _ _ => lvalue_names v | _ => [] end) cl
  | ELambda _ _ ps _ => flat_map lvalue_names ps
  | _ => []
  end.
(** warn/warn_control_flow.go:238-392 [extractIdentsFromStmt], second result: occurrences that are used.  [root]: the node is
    the statement itself; [shadow]: names in the scopes of the nodes above. *)
Fixpoint used_idents (root lv : bool) (shadow : list bytes) (e : expr) : list ident :=
  let shadow' := scope_of e ++ shadow in
  let sub := used_idents false false shadow' in
  match e with
  | EIdent i => if lv || mem_bytes (i_name i) shadow then [] else [i]
  | EAssign _ x _ _ _ y => (if root then used_idents false true shadow' x else []) ++ sub y
  | EFor _ _ v x _ => used_idents false true shadow' v ++ sub x
  | EIf _ _ x _ _ _ => sub x
  | ETuple _ _ _ l _ _ _ | EList _ _ l _ _ => flat_map (used_idents false lv shadow') l
  | _ => List.concat (fold_children2 sub (fun _ => []) (fun i => if mem_bytes (i_name i) shadow' then [] else [i]) e)
  end.

(** warn/warn_control_flow.go:734-801 [findUninitializedIdents]: the occurrences that [callbackIfNeeded] is called on and that
    are not in [lValues].  [coll]: the first walk (lines 738-757) reaches this node, it does not enter nested functions. *)
Fixpoint plain_idents (coll lv : bool) (e : expr) : list ident :=
  let sub := plain_idents coll false in
  let param := (fix param (e : expr) : list ident :=
    match e with
    | EIdent _ | ETyped _ _ _ => []
    | EAssign _ x _ _ _ y => param x ++ plain_idents false false y
    | EUnary _ _ _ (Some x) => param x
    | _ => plain_idents false false e
    end) in
  match e with
  | EIdent i => if lv then [] else [i]
  | EComp _ _ _ _ _ _ _ | ELambda _ _ _ _ => used_idents true false [] e
  | EAssign _ x _ _ _ y => plain_idents coll coll x ++ sub y
  | ETuple _ _ _ l _ _ _ | EList _ _ l _ _ => flat_map (plain_idents coll lv) l
  | EDef _ _ ps _ _ _ _ _ _ => flat_map param ps
  | _ => List.concat (fold_children2 sub (fun _ => []) (fun i => [i]) e)
  end.
Definition idents_of (e : expr) : list ident := plain_idents true false e.

(** warn/warn_control_flow.go:693-713 [collectLocalVariables] *)
Fixpoint local1 (s : expr) : list ident :=
  match s with
  | EFor _ _ v _ b => CollectLValues v ++ flat_map local1 b
  | EIf _ _ _ t _ f => flat_map local1 t ++ flat_map local1 f
  | EAssign _ x _ _ _ _ => CollectLValues x
  | _ => []
  end.
Definition collectLocalVariables (l : list expr) : list ident := flat_map local1 l.

Definition fresh (init : list bytes) (l : list ident) : list ident := filter (fun i => negb (mem_bytes (i_name i) init)) l.
(** warn/warn_control_flow.go:803-876: one statement of [findUninitializedVariables], with [initialized] before it.  The result:
    does the function return here; which variables are added to [initialized] and [locallyInitialized]; the occurrences that
    the callback is called on.  (Of a block that returns early the added variables are those up to there.) *)
Record found := Found { w_ended : bool; w_new : list bytes; w_calls : list ident }.
Fixpoint uninit1 (init : list bytes) (s : expr) : found :=
  let block := (fix block (init loc : list bytes) (l : list expr) : found :=
    match l with
    | [] => Found false loc []
    | x :: l' =>
        let r := uninit1 init x in
        if w_ended r then Found true loc (w_calls r)
        else let r' := block (w_new r ++ init) (w_new r ++ loc) l' in Found (w_ended r') (w_new r') (w_calls r ++ w_calls r')
    end) in
  let check e := fresh init (idents_of e) in
  match s with
  | ECall _ x _ _ _ _ _ => if is_fail x then Found true [] [] else Found false [] (check s)
  | EReturn _ _ _ => Found true [] (check s)
  | EBranch _ tok _ => if beq tok %"break" || beq tok %"continue" then Found true [] [] else Found false [] (check s)
  | EFor _ _ v x b => Found false [] (check x ++ w_calls (block (lvalue_names v ++ init) [] b))
  | EIf _ _ x t _ f =>
      let r1 := block init [] t in
      let r2 := block init [] f in
      let calls := check x ++ w_calls r1 ++ w_calls r2 in
      if w_ended r1 && w_ended r2 then Found true [] calls
      else if w_ended r1 then Found false (w_new r2) calls
      else if w_ended r2 then Found false (w_new r1) calls
      else Found false (filter (fun n => mem_bytes n (w_new r2)) (w_new r1)) calls
  | EAssign _ x _ _ _ _ => Found false (lvalue_names x) (check s)
  | _ => Found false [] (check s)
  end.
Fixpoint uninit_block (init loc : list bytes) (l : list expr) : found :=
  match l with
  | [] => Found false loc []
  | x :: l' =>
      let r := uninit1 init x in
      if w_ended r then Found true loc (w_calls r)
      else let r' := uninit_block (w_new r ++ init) (w_new r ++ loc) l' in Found (w_ended r') (w_new r') (w_calls r ++ w_calls r')
  end.
(** warn/warn_control_flow.go:715-877 [findUninitializedVariables] *)
Definition findUninitializedVariables (init : list bytes) (l : list expr) : found := uninit_block init [] l.

(** warn/warn_control_flow.go:879-913 [uninitializedVariableWarning]: findings as (function, occurrence). *)
Definition uninitializedVariableWarning (f : expr) : list (expr * ident) :=
  flat_map (fun ds =>
    match fst ds with
    | EDef _ _ ps body _ _ _ _ _ =>
        let locals := filter (fun n => negb (mem_bytes n (param_names ps))) (map i_name (collectLocalVariables body)) in
        map (pair (fst ds)) (filter (fun i => mem_bytes (i_name i) locals) (w_calls (findUninitializedVariables [] body)))
    | _ => []
    end)
    (visit_stmts (fun _ _ => false) [] f).
