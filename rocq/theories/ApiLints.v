(** Lints about names and calls of the Bazel API in .bzl files: warn/warn_bazel_api.go.  A finding is given by the node it points at, and what else the message tells. *)
From Verif Require Import Base Ast Walk AttrParams CallLints NotLoaded.
Local Open Scope list_scope.

(** every node and those above it, in the order of bzlenv/bzlenv.go:190-220 [WalkOnceWithEnvironment] with a callback that looks at the node first, which is that of build/walk.go:33-39 *)
Definition walk_above {R} (g : list expr -> expr -> list R) (f : expr) : list R := flat_map (fun v => g (snd v) (fst v)) (Walk f).
Definition in_bzl_file {R} (l : list R) (f : expr) : list R := match file_type f with TypeBzl => l | _ => [] end.
(** warn/warn_bazel_api.go:88-98 [isFunctionCall]: the arguments *)
Definition isFunctionCall (e : expr) (name : bytes) : option (list expr) :=
  match e with ECall _ (EIdent i) _ l _ _ _ => if beq (i_name i) name then Some l else None | _ => None end.
(** warn/warn_bazel_api.go:111-128: one node *)
Definition global_node (global : bytes) (stk : list expr) (e : expr) : list ident :=
  match e with EIdent i => if beq (i_name i) global && negb (bound_in stk (i_name i)) then [i] else [] | _ => [] end.
(** warn/warn_bazel_api.go:100-136 [globalVariableUsageCheck]: the identifiers *)
Definition globalVariableUsageCheck (global : bytes) (f : expr) : list ident := in_bzl_file (walk_above (global_node global) f) f.
(** ... and the file with its replacements made.  Those of the names in a load statement go to a copy of the pointer (build/walk.go:213-224) and are lost. *)
Definition under_load (stk : list expr) : bool := match rev stk with ELoad _ _ _ _ _ _ _ :: _ => true | _ => false end.
Definition global_cb (global alternative : bytes) (stk : list expr) (e : expr) : expr :=
  match e, global_node global stk e with
  | EIdent i, _ :: _ => if under_load stk then e else EIdent (Ident (i_com i) (i_pos i) alternative)
  | _, _ => e
  end.
Definition globalVariableFix (global alternative : bytes) (f : expr) : expr := match file_type f with TypeBzl => Edit (global_cb global alternative) f | _ => f end.
(** warn/warn_bazel_api.go:664-670 [packageNameWarning, repositoryNameWarning] *)
Definition packageNameWarning : expr -> list ident := globalVariableUsageCheck %"PACKAGE_NAME".
Definition repositoryNameWarning : expr -> list ident := globalVariableUsageCheck %"REPOSITORY_NAME".
Definition packageNameFix : expr -> expr := globalVariableFix %"PACKAGE_NAME" %"native.package_name()".
Definition repositoryNameFix : expr -> expr := globalVariableFix %"REPOSITORY_NAME" %"native.repository_name()".
(** warn/warn_bazel_api.go:639-662 [fileTypeWarning] *)
Definition file_type_node (stk : list expr) (e : expr) : list expr :=
  match isFunctionCall e %"FileType" with Some _ => if bound_in stk %"FileType" then [] else [e] | None => [] end.
Definition fileTypeWarning (f : expr) : list expr := in_bzl_file (walk_above file_type_node f) f.
(** warn/warn_bazel_api.go:909-925, 940-952: a call attr.name(...) *)
Definition attr_call (e : expr) (name : bytes) : option (list expr) :=
  match e with ECall _ (EDot _ (EIdent i) _ _ n) _ l _ _ _ => if beq n name && beq (i_name i) %"attr" then Some l else None | _ => None end.
(** warn/warn_bazel_api.go:904-932 [attrOutputDefaultWarning]: the arguments *)
Definition output_node (e : expr) : list expr :=
  match attr_call e %"output" with
  | Some l => match getParam l %"default" with Some (i, _) => match nth_error l i with Some a => [a] | None => [] end | None => [] end
  | None => []
  end.
Definition attrOutputDefaultWarning (f : expr) : list expr := in_bzl_file (walk_nodes output_node f) f.
(** warn/warn_bazel_api.go:934-958 [attrLicenseWarning] *)
Definition attrLicenseWarning (f : expr) : list expr := in_bzl_file (walk_nodes (fun e => match attr_call e %"license" with Some _ => [e] | None => [] end) f) f.
(** warn/warn_bazel_api.go:967-988: the name of an implementation *)
Definition impl_node (e : expr) : list bytes :=
  match isFunctionCall e %"rule" with
  | Some l =>
      match (match getParam l %"implementation" with Some (_, v) => Some v | None => hd_error l end) with
      | Some (EIdent i) => [i_name i]
      | _ => []
      end
  | None => []
  end.
(** warn/warn_bazel_api.go:998-1008: the returns *)
Definition return_node (e : expr) : list expr :=
  match e with EReturn _ _ (Some x) => match isFunctionCall x %"struct" with Some _ => [e] | None => [] end | _ => [] end.
(** warn/warn_bazel_api.go:960-1012 [ruleImplReturnWarning] *)
Definition ruleImplReturnWarning (f : expr) : list expr :=
  let impls := walk_nodes impl_node f in
  in_bzl_file (flat_map (fun s => match s with
    | Some (EDef c p ps b n q k m t) => if mem_bytes n impls then walk_nodes return_node (EDef c p ps b n q k m t) else []
    | _ => [] end) (stmts_of f)) f.
(** warn/warn_bazel_api.go:1163-1200 [providerParamsWarning]: the calls, if the fields are missing, and if the documentation is *)
Definition provider_node (e : expr) : list (expr * bool * bool) :=
  match isFunctionCall e %"provider" with
  | Some l =>
      let no_fields := match getParam l %"fields" with Some _ => false | None => true end in
      let positional := match l with a :: _ => negb (is_keyword_arg a) | [] => false end in
      let no_doc := match getParam l %"doc" with Some _ => false | None => negb positional end in
      if no_fields || no_doc then [(e, no_fields, no_doc)] else []
  | None => []
  end.
Definition providerParamsWarning (f : expr) : list (expr * bool * bool) := in_bzl_file (walk_nodes provider_node f) f.
(** warn/warn_bazel_api.go:1203-1232 [attrNameWarning]: the dictionaries and the names *)
Definition attr_name_node (names : list bytes) (e : expr) : list (expr * bytes) :=
  match e with
  | EDict _ _ l _ _ => flat_map (fun it => match it with
      | EKV _ (EStr s) _ _ => flat_map (fun n => if beq (s_value s) n then [(e, s_value s)] else []) names
      | _ => [] end) l
  | _ => []
  end.
Definition attrNameWarning (names : list bytes) (f : expr) : list (expr * bytes) := in_bzl_file (walk_nodes (attr_name_node names) f) f.
(** warn/warn_bazel_api.go:1234-1240 [attrLicensesWarning, attrApplicableLicensesWarning] *)
Definition attrLicensesWarning : expr -> list (expr * bytes) := attrNameWarning [%"licenses"].
Definition attrApplicableLicensesWarning : expr -> list (expr * bytes) := attrNameWarning [%"applicable_licenses"; %"package_metadata"].
