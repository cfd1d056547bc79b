(** Lints about deprecated members of ctx: warn/warn_bazel_api.go. *)
From Verif Require Import Base Ast Walk AttrParams KwParams.

(** warn/warn_bazel_api.go:577-630: the name that a call of ctx.old(l) gets; None: not looked for, or not fixable *)
Definition ctx_action (old : bytes) (l : list expr) : option bytes :=
  if beq old %"new_file" then (if Nat.leb (List.length l) 2 then Some %"actions.declare_file" else None)
  else if beq old %"experimental_new_directory" then Some %"actions.declare_directory"
  else if beq old %"file_action" then Some %"actions.write"
  else if beq old %"action" then Some (match getParam l %"command" with Some _ => %"actions.run_shell" | None => %"actions.run" end)
  else if beq old %"empty_action" then Some %"actions.do_nothing"
  else if beq old %"template_action" then Some %"actions.expand_template"
  else None.
(** ... and its arguments *)
Definition ctx_args (old : bytes) (l : list expr) : list expr :=
  match (if beq old %"new_file" then l else []) with
  | [s; name] => [makePositional name; makeKeyword s %"sibling"]
  | _ => match (if beq old %"file_action" || beq old %"template_action" then getParam l %"executable" else None) with
         | Some (j, _) => update_at j (set_keyword %"is_executable") l
         | None => l
         end
  end.
(** ... Is argument number j, if it is a keyword argument, itself copied or only its value taken? *)
Definition ctx_taken (old : bytes) (l : list expr) (j : nat) (a : expr) : bool :=
  if beq old %"new_file" then
    Nat.eqb (List.length l) 2 && (Nat.eqb j 1 || negb (match a with EAssign _ (EIdent i) _ _ _ _ => beq (i_name i) %"sibling" | _ => false end))
  else if beq old %"file_action" || beq old %"template_action" then match getParam l %"executable" with Some (i, _) => Nat.eqb i j | None => false end
  else false.
Fixpoint map_at (f : nat -> expr -> expr) (j : nat) (l : list expr) : list expr := match l with [] => [] | a :: l => f j a :: map_at f (S j) l end.
(** warn/warn_bazel_api.go:553-637 [ctxActionsWarning], with the replacements made.  In Go they are made after the walk, through pointers into the old tree, so that
    for a call that is an element of a list that was copied, or the value of an argument that was copied or whose value was taken, the replacement is lost:
    [written] is false there.  The parts of such a call are still in the tree. *)
Fixpoint ctx_fix_from (n : nat) (written : bool) (e : expr) : expr :=
  match n with
  | 0 => e
  | S n =>
      let lost := ctx_fix_from n false in
      match e with
      | ECall c (EDot c' (EIdent i) p q old) ls l en k m =>
          match (if written && beq (i_name i) %"ctx" then ctx_action old l else None) with
          | Some new =>
              let l1 := map_at (fun j a => match a with EAssign ca x pa op b v => if ctx_taken old l j a then EAssign ca (ctx_fix_from n true x) pa op b (lost v) else lost a | _ => lost a end) 0 l in
              ECall c (EDot c' (EIdent i) p q new) ls (ctx_args old l1) en k m
          | None => map_children (ctx_fix_from n true) e
          end
      | _ => map_children (ctx_fix_from n true) e
      end
  end.
Definition ctxActionsFix : expr -> expr := in_bzl (fun f => ctx_fix_from (height f) true f).
(** ... and what is reported (the callee) *)
Definition ctx_names : list bytes := [%"new_file"; %"experimental_new_directory"; %"file_action"; %"action"; %"empty_action"; %"template_action"].
Definition ctx_found (e : expr) : list expr :=
  match e with
  | ECall _ (EDot c (EIdent i) p q old) _ _ _ _ _ => if beq (i_name i) %"ctx" && mem_bytes old ctx_names then [EDot c (EIdent i) p q old] else []
  | _ => []
  end.
Definition ctxActionsFindings (f : expr) : list expr := match f with EFile _ (FMeta _ _ _ TypeBzl) _ => flat_map ctx_found (map fst (Walk f)) | _ => [] end.

(** warn/warn_bazel_api.go:672-708 [outputGroupWarning] *)
Definition output_group_fix (e : expr) : expr :=
  match e with
  | EDot _ (EDot c2 (EDot c1 (EIdent i) p1 q1 attr) p2 q2 dep) _ _ name =>
      if beq name %"output_group" && beq attr %"attr" && beq (i_name i) %"ctx"
      then EIndex no_com (EDot c2 (EDot c1 (EIdent i) p1 q1 attr) p2 q2 dep) no_pos (EIdent (Ident no_com no_pos %"OutputGroupInfo")) no_pos else e
  | _ => e
  end.
Definition outputGroupFix : expr -> expr := in_bzl (rebuild output_group_fix).
