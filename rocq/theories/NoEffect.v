(** Statements without an effect: warn/warn_control_flow.go. *)
From Verif Require Import Base Ast Walk Scope CallLints.
Local Open Scope list_scope.

(** warn/warn_control_flow.go:183-197: what is said about a statement that is no docstring *)
Definition has_effect (top : bool) (e : expr) : bool :=
  match e with
  | EDef _ _ _ _ _ _ _ _ _ | EFor _ _ _ _ _ | EIf _ _ _ _ _ _ | ELoad _ _ _ _ _ _ _ | EReturn _ _ _ | ECall _ _ _ _ _ _ _ | ECommentBlock _ _ | EBranch _ _ _ | EAssign _ _ _ _ _ _ => true
  | EComp _ curly _ _ _ _ _ => top && negb curly
  | _ => false
  end.
Definition is_string (e : expr) : bool := match e with EStr _ => true | _ => false end.
Definition is_comment_block (e : expr) : bool := match e with ECommentBlock _ _ => true | _ => false end.
(** warn/warn_control_flow.go:168-206 [noEffectStatementsCheck] *)
Fixpoint noEffectStatementsCheck (top func seen : bool) (body : list expr) : list expr :=
  match body with
  | [] => []
  | s :: body' =>
      if is_string s && negb seen && (top || func) then noEffectStatementsCheck top func true body'
      else (if has_effect top s then [] else [s]) ++ noEffectStatementsCheck top func (seen || negb (is_comment_block s)) body'
  end.
Definition block_findings (e : expr) : list expr :=
  match e with
  | EFor _ _ _ _ b => noEffectStatementsCheck false false false b
  | EDef _ _ _ b _ _ _ _ _ => noEffectStatementsCheck false true false b
  | EIf _ _ _ t _ f => noEffectStatementsCheck false false false t ++ noEffectStatementsCheck false false false f
  | _ => []
  end.
(** warn/warn_control_flow.go:208-228 [noEffectWarning] *)
Definition noEffectWarning (f : expr) : list expr :=
  noEffectStatementsCheck true false false (flat_map (opt_list (fun x => x)) (stmts_of f)) ++ flat_map (fun v => block_findings (fst v)) (visit_stmts (fun _ _ => false) [] f).
