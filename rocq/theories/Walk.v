(** The tree walkers of build/walk.go. *)
From Verif Require Import Base Ast.

(** build/walk.go:33-57 [Walk], [WalkInterruptable] with build/walk.go:85-108 [walk1] for a
    callback that does not change the tree: the list of calls (node, stack).  [stop] tells for
    which calls the callback returns StopTraversalError ([fun _ _ => false] for Walk). *)
Fixpoint visit (stop : expr -> list expr -> bool) (stk : list expr) (e : expr)
  : list (expr * list expr) :=
  (e, stk) ::
  if stop e stk then []
  else
    let stk' := stk ++ [e] in
    List.concat (fold_children2 (visit stop stk') (fun s => [(EStr s, stk')]) (fun i => [(EIdent i, stk')]) e).
Definition Walk (e : expr) : list (expr * list expr) := visit (fun _ _ => false) [] e.
Definition WalkInterruptable (stop : expr -> list expr -> bool) (e : expr) := visit stop [] e.

(** build/walk.go:85-108 [walk1] for a callback that mutates or replaces the visited node:
    [cb stk e] is the node after the callback.  The stack is the list of ancestors as they were
    when entered (in Go they are shared with the tree, so that a callback would also see later
    changes below them; no callback of rewrite.go looks below an ancestor).  [fuel]: see
    [walk_edit_unfold] in WalkProofs. *)
Fixpoint walk_edit (fuel : nat) (cb : list expr -> expr -> expr) (stk : list expr) (e : expr) : expr :=
  match fuel with
  | 0 => e
  | S n => let e1 := cb stk e in map_children (walk_edit n cb (stk ++ [e1])) e1
  end.
Definition Edit_from (cb : list expr -> expr -> expr) (stk : list expr) (e : expr) : expr :=
  walk_edit (height e) cb stk e.
(** build/walk.go:33-39 [Walk] / 66-71 [Edit] *)
Definition Edit (cb : list expr -> expr -> expr) (e : expr) : expr := Edit_from cb [] e.

(** build/walk.go:230-277 [walkStatements], [WalkStatements]. *)
Fixpoint visit_stmts (stop : expr -> list expr -> bool) (stk : list expr) (e : expr)
  : list (expr * list expr) :=
  (e, stk) ::
  if stop e stk then []
  else
    let go := visit_stmts stop (stk ++ [e]) in
    match e with
    | EFile _ _ l => flat_map (fun o => match o with Some x => go x | None => [] end) l
    | EDef _ _ _ b _ _ _ _ _ => flat_map go b
    | EIf _ _ _ t _ f => flat_map go t ++ flat_map go f
    | EFor _ _ _ _ b => flat_map go b
    | _ => []
    end.
