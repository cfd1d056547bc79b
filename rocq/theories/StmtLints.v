(** Lints about names, visibility and statements: warn/warn_naming.go, warn/warn_visibility.go, warn/warn_deprecated.go, and two of
    warn/warn_operation.go and warn/warn_bazel_operation.go.  A finding is given by the node it points at. *)
From Verif Require Import Base Ast Walk Labels Scope RuleApi AttrParams CallLints Docstring.
Local Open Scope list_scope.

(** warn/warn_naming.go:27-31 [ambiguousNames] *)
Definition ambiguousNames : list bytes := [%"I"; %"l"; %"O"].
(** warn/warn_naming.go:34-40 [ambiguousNameCheck] *)
Definition ambiguousNameCheck (e : expr) (name : bytes) : list expr := if mem_bytes name ambiguousNames then [e] else [].
Definition check_idents (l : list ident) : list expr := flat_map (fun i => ambiguousNameCheck (EIdent i) (i_name i)) l.
(** build/utils.go:20-26 [GetParamName] *)
Definition GetParamName (param : expr) : bytes := match GetParam param with Some (i, _) => i_name i | None => [] end.
(** warn/warn_naming.go:50-69: one node *)
Definition confusing_node (e : expr) : list expr :=
  match e with
  | EDef _ _ ps body name _ _ _ _ => ambiguousNameCheck e name ++ flat_map (fun p => ambiguousNameCheck p (GetParamName p)) ps ++ check_idents (collectLocalVariables body)
  | EComp _ _ _ _ cl _ _ => flat_map (fun c => match c with EForC _ _ v _ _ => check_idents (CollectLValues v) | _ => [] end) cl
  | _ => []
  end.
(** build/syntax.go: the statements of a file that are there *)
Definition real_stmts (f : expr) : list expr := flat_map (fun o => match o with Some x => [x] | None => [] end) (stmts_of f).
(** warn/warn_naming.go:42-74 [confusingNameWarning] *)
Definition confusingNameWarning (f : expr) : list expr := check_idents (collectLocalVariables (real_stmts f)) ++ walk_nodes confusing_node f.

Section Cases.
  (** strings.ToLower, strings.ToUpper, strings.Title (about all of Unicode) *)
  Context (lower upper title : bytes -> bytes).
  (** warn/warn_naming.go:76-82 [isUpperCamelCase] *)
  Definition isUpperCamelCase (name : bytes) : bool :=
    let name := if has_prefix %"_" name then skipn 1 name else name in negb (existsb (ceq "_"%char) name) && beq name (title name).
  (** warn/warn_naming.go:84-90 [isLowerSnakeCase], [isUpperSnakeCase], and the check at warn/warn_naming.go:102-112 *)
  Definition bad_name (i : ident) : bool :=
    let n := i_name i in negb (beq n (lower n) || beq n (upper n)) && negb (isUpperCamelCase n && has_suffix %"Info" n).
  (** warn/warn_naming.go:92-117 [nameConventionsWarning] *)
  Definition nameConventionsWarning (f : expr) : list ident :=
    flat_map (fun v => match fst v with EAssign _ x _ _ _ _ => filter bad_name (CollectLValues x) | _ => [] end) (visit_stmts (fun _ _ => false) [] f).
End Cases.

(** warn/warn_visibility.go:29 [internalDirectory]: what is before the first match, if there is one *)
Fixpoint internal_split (s : bytes) : option bytes :=
  if existsb (fun m => has_prefix m s) [%"/internal/"; %"/internal:"; %"/private/"; %"/private:"] then Some []
  else match s with [] => None | c :: s' => option_map (cons c) (internal_split s') end.
(** strings.SplitN(s, "//", 2): what is behind the first // *)
Fixpoint after_slashes (s : bytes) : option bytes :=
  if has_prefix %"//" s then Some (skipn 2 s) else match s with [] => None | _ :: s' => after_slashes s' end.
(** strings.Replace(s, old, new, 1) *)
Fixpoint replace_first (old new s : bytes) : bytes :=
  if has_prefix old s then new ++ skipn (List.length old) s else match s with [] => [] | c :: s' => c :: replace_first old new s' end.
(** build/syntax.go:124-129 [CanonicalPath] *)
Definition CanonicalPath (pkg label : bytes) : bytes := match pkg with [] => %"//" ++ label | _ => %"//" ++ pkg ++ %"/" ++ label end.
(** warn/warn_visibility.go:48-74: one load *)
Definition module_hidden (path module : bytes) : bool :=
  let m := if has_prefix %"@" module then match after_slashes module with Some r => %"//" ++ r | None => module end else module in
  match internal_split m with
  | None => false
  | Some dir => negb (has_prefix dir path || has_prefix dir (replace_first %"/javatests/" %"/java/" path))
  end.
(** warn/warn_visibility.go:31-78 [bzlVisibilityWarning] ([root]: the workspace root; a load without module is not modelled): the modules *)
Definition bzlVisibilityWarning (root : bytes) (f : expr) : list strlit :=
  match root, f with
  | [], _ => []
  | _, EFile _ (FMeta _ pkg label _) stmts =>
      flat_map (fun o => match o with Some (ELoad _ _ m _ _ _ _) => if module_hidden (CanonicalPath pkg label) (s_value m) then [m] else [] | _ => [] end) stmts
  | _, _ => []
  end.

(** warn/warn_bazel_operation.go:148-158: in a for loop *)
Definition in_loop (stk : list expr) : bool := existsb (fun e => match e with EFor _ _ _ _ _ => true | _ => false end) stk.
(** warn/warn_bazel_operation.go:160-193: one statement *)
Definition nests (e : expr) : bool :=
  match e with
  | EAssign _ (EIdent x) _ _ _ (ECall _ (EIdent d) _ args _ _ _) =>
      beq (i_name d) %"depset" &&
      match getParam args %"transitive" with
      | Some (_, EList _ _ l _ _) => existsb (fun t => match t with EIdent i => beq (i_name i) (i_name x) | _ => false end) l
      | _ => false
      end
  | _ => false
  end.
(** warn/warn_bazel_operation.go:145-195 [overlyNestedDepsetWarning] *)
Definition overlyNestedDepsetWarning (f : expr) : list expr :=
  flat_map (fun v => if in_loop (snd v) && nests (fst v) then [fst v] else []) (visit_stmts (fun _ _ => false) [] f).

(** warn/warn_operation.go:181-189: one node; [x += [y]] *)
Definition appends (e : expr) : option (comments * expr * list expr) :=
  match e with EAssign c x _ op _ (EList _ _ [y] _ _) => if beq op %"+=" then Some (c, x, [y]) else None | _ => None end.
(** warn/warn_operation.go:177-205 [listAppendWarning] *)
Definition listAppendWarning (f : expr) : list expr := walk_nodes (fun e => match appends e with Some _ => [e] | None => [] end) f.
(** ... and the file when its replacements have been made (warn/warn.go:283-290; an assignment is no part of an expression, so no two of them overlap) *)
Definition append_fix (e : expr) : expr :=
  match appends e with Some (c, x, l) => ECall c (EDot no_com x no_pos no_pos %"append") no_pos l (End no_com (end_pos e)) false false | None => e end.
Definition listAppendFix (f : expr) : expr := rebuild append_fix f.

Section Files.
  (** warn/multifile.go:63-77 [GetFile]: the file of a package; None: not found or not valid *)
  Context (read : bytes -> bytes -> option expr).
  (** warn/warn_deprecated.go:28-51 [checkDeprecatedFunction] (None: it panics); warn/warn_deprecated.go:70-73: the map of loaded symbols keeps the last identifier *)
  Definition checkDeprecatedFunction (from : list ident) (s : option expr) : option (list (ident * bytes)) :=
    match s with
    | Some (EDef _ _ _ body name _ _ _ _) =>
        match find (fun i => beq (i_name i) name) (rev from) with
        | None => Some []
        | Some i => match docstring_of body with
            | None => Some []
            | Some d => option_map (fun inf => if i_deprecated inf then [(i, name)] else []) (parseFunctionDocstring d)
            end
        end
    | _ => Some []
    end.
  (** warn/warn_deprecated.go:53-85 [deprecatedFunctionWarning] (with a file reader): the identifiers and the paths of the loaded files *)
  Definition deprecated_in (pkg : bytes) (s : option expr) : option (list (ident * bytes * bytes)) :=
    match s with
    | Some (ELoad _ _ m from _ _ _) =>
        let l := parse_relative (s_value m) pkg in
        match repository l, target l with
        | [], (_ :: _) as t =>
            match read (package l) t with
            | Some (EFile _ (FMeta _ p la _) stmts) => option_map (map (fun x => (x, CanonicalPath p la))) (all_some (checkDeprecatedFunction from) stmts)
            | _ => Some []
            end
        | _, _ => Some []
        end
    | _ => Some []
    end.
  Definition deprecatedFunctionWarning (f : expr) : option (list (ident * bytes * bytes)) :=
    match f with EFile _ (FMeta _ pkg _ _) stmts => all_some (deprecated_in pkg) stmts | _ => Some [] end.
End Files.
