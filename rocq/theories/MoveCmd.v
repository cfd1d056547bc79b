(** edit/buildozer.go: the commands add and move. *)
From Verif Require Import Base Ast Labels Rewrite RuleApi EditList EditResolve RuleCmd.
Local Open Scope list_scope.

(** Variables that are assigned in the file, with their values (edit/buildozer.go:74-82 [CmdEnvironment], Vars). *)
Definition variables : Type := list (bytes * expr).
Definition add_to (s : setting) (attr : bytes) (st : list expr * variables) (x : expr) : list expr * variables :=
  AddValueToListAttribute (dwc s) (fst st) (snd st) attr (pkg s) x.
(** edit/buildozer.go:88-94: the expression for an argument *)
Definition item_of (s : setting) (attr val : bytes) : expr :=
  if IsIntList (attr_types s) attr then ELit no_com no_pos val else getStringExpr s val.
(** edit/buildozer.go:86-98 [cmdAdd]: the arguments of the rule and the variables afterwards *)
Definition cmdAdd (s : setting) (attr : bytes) (vals : list bytes) (args : list expr) (vars : variables) : list expr * variables :=
  let '(l, vs) := fold_left (fun st v => add_to s attr st (item_of s attr v)) vals (args, vars) in
  (ResolveAttr (dwc s) l attr (pkg s), vs).
(** edit/buildozer.go:225-230: one value; the last result tells if something was moved *)
Definition move_one (s : setting) (old new : bytes) (st : list expr * variables * bool) (val : bytes) : list expr * variables * bool :=
  let '(l, vs, fixed) := st in
  match ListAttributeDelete (dwc s) l old val (pkg s) with
  | (Some deleted, l') => (add_to s new (l', vs) deleted, true)
  | (None, l') => (l', vs, fixed)
  end.
Definition move_values (s : setting) (old new : bytes) (vals : list bytes) (args : list expr) (vars : variables) : list expr * variables * bool :=
  fold_left (move_one s old new) vals (args, vars, false).
(** edit/buildozer.go:215-235 [cmdMove]: None for an error; the last result tells if the file is written *)
Definition cmdMove (s : setting) (old new : bytes) (vals : list bytes) (args : list expr) (vars : variables) : option (list expr * variables * bool) :=
  match vals with
  | [v] =>
      if beq v %"*" then option_map (fun st => (st, true)) (MoveAllListAttributeValues (dwc s) args vars old new (pkg s))
      else Some (move_values s old new vals args vars)
  | _ => Some (move_values s old new vals args vars)
  end.
