(** Lints about calls: warn/warn_bazel.go.  A finding is given by the node it points at (its span is reported), and what else the message tells. *)
From Verif Require Import Base Ast Walk RuleApi.
Local Open Scope list_scope.

Definition file_type (f : expr) : ftype := match f with EFile _ (FMeta _ _ _ t) _ => t | _ => TypeDefault end.
Definition stmts_of (f : expr) : list (option expr) := match f with EFile _ _ l => l | _ => [] end.
(** every node, in the order of the walk (build/walk.go:33-39) *)
Definition walk_nodes {R} (g : expr -> list R) (f : expr) : list R := flat_map g (map fst (Walk f)).

(** warn/warn_bazel.go:28-34 [functionsWithPositionalArguments] *)
Definition functionsWithPositionalArguments : list bytes := [%"exports_files"; %"licenses"; %"print"; %"register_toolchains"; %"vardef"].
(** strings.Contains(s, "*") *)
Definition has_star (s : bytes) : bool := existsb (ceq "*"%char) s.
(** warn/warn_bazel.go:36-51 [constantGlobPatternWarning] *)
Fixpoint constantGlobPattern (l : list expr) : list strlit :=
  match l with
  | [] => []
  | EStr s :: l' => if has_star (s_value s) then constantGlobPattern l' else [s]
  | _ :: l' => constantGlobPattern l'
  end.
(** warn/warn_bazel.go:79-93: the first include argument that is a list *)
Fixpoint include_arg (l : list expr) : option (list expr) :=
  match l with
  | [] => None
  | EAssign _ (EIdent i) _ _ _ (EList _ _ ps _ _) :: l' => if beq (i_name i) %"include" then Some ps else include_arg l'
  | _ :: l' => include_arg l'
  end.
(** warn/warn_bazel.go:62-94: one node *)
Definition glob_node (e : expr) : list strlit :=
  match e with
  | ECall _ (EIdent i) _ (a :: l) _ _ _ =>
      if beq (i_name i) %"glob" then
        match a with
        | EList _ _ ps _ _ => constantGlobPattern ps
        | _ => match include_arg (a :: l) with Some ps => constantGlobPattern ps | None => [] end
        end
      else []
  | _ => []
  end.
(** warn/warn_bazel.go:53-96 [constantGlobWarning]: the patterns *)
Definition constantGlobWarning (f : expr) : list strlit :=
  match file_type f with TypeBuild | TypeWorkspace | TypeBzl => walk_nodes glob_node f | _ => [] end.

(** warn/warn_bazel.go:105-113: the node native.name *)
Definition native_dot (e : expr) : option (ident * bytes) :=
  match e with EDot _ (EIdent i) _ _ n => if beq (i_name i) %"native" then Some (i, n) else None | _ => None end.
(** warn/warn_bazel.go:98-121 [nativeInBuildFilesWarning]: the identifiers *)
Definition nativeInBuildFilesWarning (f : expr) : list ident :=
  match file_type f with
  | TypeBuild => walk_nodes (fun e => match native_dot e with Some (i, _) => [i] | None => [] end) f
  | _ => []
  end.
(** ... and the file when its replacements have been made (warn/warn.go:283-290; no two of them overlap) *)
Definition native_cb (_ : list expr) (e : expr) : expr := match native_dot e with Some (_, n) => EIdent (Ident no_com no_pos n) | None => e end.
Definition nativeInBuildFilesFix (f : expr) : expr := match file_type f with TypeBuild => Edit native_cb f | _ => f end.
(** warn/warn_bazel.go:123-148 [nativePackageWarning] *)
Definition nativePackageWarning (f : expr) : list expr :=
  match file_type f with
  | TypeBzl => walk_nodes (fun e => match e with ECall _ x _ _ _ _ _ => match native_dot x with Some (_, n) => if beq n %"package" then [e] else [] | None => [] end | _ => [] end) f
  | _ => []
  end.

Record duplicate := Duplicate { d_name : bytes; d_line : Z; d_start : pos; d_end : pos }.
(** warn/warn_bazel.go:162-178: [names] is the map from names to lines *)
Fixpoint dup_loop (names : list (bytes * Z)) (rules : list expr) : list duplicate :=
  match rules with
  | [] => []
  | r :: rules' =>
      match callee_args r with
      | Some (_, args) =>
          match AttrString %"name" args with
          | [] => dup_loop names rules'
          | name =>
              match lookup name names with
              | Some line =>
                  match Attr %"name" args with
                  | Some v => Duplicate name line (start_pos v) (end_pos v)
                  | None => Duplicate name line (start_pos r) (end_pos r)
                  end :: dup_loop names rules'
              | None => dup_loop ((name, p_line (start_pos r)) :: names) rules'
              end
          end
      | None => dup_loop names rules'
      end
  end.
(** warn/warn_bazel.go:150-180 [duplicatedNameWarning] *)
Definition duplicatedNameWarning (f : expr) : list duplicate :=
  match file_type f with TypeBuild | TypeWorkspace => dup_loop [] (Rules [] (stmts_of f)) | _ => [] end.

Definition is_keyword_arg (e : expr) : bool := match e with EAssign _ _ _ _ _ _ => true | _ => false end.
(** warn/warn_bazel.go:182-193 [positionalArgumentsWarning] *)
Definition positionalArguments (call : expr) : option expr :=
  match call with
  | ECall _ (EIdent i) _ l _ _ _ => if mem_bytes (i_name i) functionsWithPositionalArguments then None else find (fun a => negb (is_keyword_arg a)) l
  | _ => None
  end.
(** warn/warn.go:248-273 [ruleWarningWrapper] *)
Definition ruleWarningWrapper {R} (ruleWarning : expr -> option R) (f : expr) : list R :=
  let run c := match ruleWarning c with Some r => [r] | None => [] end in
  match file_type f with
  | TypeBuild => flat_map (fun s => match s with
      | Some (ECall c x p l en k m) => run (ECall c x p l en k m)
      | Some (EComp _ _ _ (ECall c x p l en k m) _ _ _) => run (ECall c x p l en k m)
      | _ => [] end) (stmts_of f)
  | _ => []
  end.
Definition positionalArgumentsWarning (f : expr) : list expr := ruleWarningWrapper positionalArguments f.

(** warn/warn_bazel.go:195-223 [argsKwargsInBuildFilesWarning]: the arguments, and if they are **kwargs *)
Definition star_arg (e : expr) : list (expr * bool) :=
  match e with EUnary _ _ op _ => if beq op %"*" then [(e, false)] else if beq op %"**" then [(e, true)] else [] | _ => [] end.
Definition argsKwargsInBuildFilesWarning (f : expr) : list (expr * bool) :=
  match file_type f with TypeBuild => walk_nodes (fun e => match e with ECall _ _ _ l _ _ _ => flat_map star_arg l | _ => [] end) f | _ => [] end.
(** warn/warn_bazel.go:225-245 [printWarning] *)
Definition printWarning (f : expr) : list expr :=
  match file_type f with
  | TypeDefault => []
  | _ => walk_nodes (fun e => match e with ECall _ (EIdent i) _ _ _ _ _ => if beq (i_name i) %"print" then [e] else [] | _ => [] end) f
  end.
