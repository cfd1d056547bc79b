(** Finding workspaces, packages and the file a label is about: wspace/workspace.go, edit/edit.go.  Unix paths.
    The file system is a function from absolute paths; a relative path is looked up in the working directory, lexically. *)
From Verif Require Import LRTables LRCert Parse.
From Verif Require Import Base Ast ParseFile Labels Rewrite RuleApi Bzlmod.
Local Open Scope list_scope.

(** What os.Stat finds: nothing, an error other than "not exist", or a file or directory *)
Inductive entry := Missing | Failed | Entry (regular executable : bool).
Record system := System { cwd : bytes; at_path : bytes -> entry; contents : bytes -> option bytes }.
Definition absolute (sys : system) (p : bytes) : bytes := if has_prefix [c_slash] p then p else path_join (cwd sys) p.
Definition stat (sys : system) (p : bytes) : entry := match p with [] => Missing | _ => at_path sys (absolute sys p) end.
(** Go's filepath.Dir *)
Definition filepath_dir (p : bytes) : bytes := path_clean (firstn (List.length p - List.length (after_last_slash p)) p).
(** Go's filepath.Rel *)
Fixpoint rel_parts (base targ : list bytes) : option (list bytes) :=
  match base, targ with
  | [], _ => Some targ
  | b :: base', t :: targ' => if beq b t then rel_parts base' targ' else if beq b %".." then None else Some (map (fun _ => %"..") base ++ targ)
  | b :: _, [] => if beq b %".." then None else Some (map (fun _ => %"..") base)
  end.
Definition path_parts (p : bytes) : list bytes := clean_parts (has_prefix [c_slash] p) [] (split c_slash p).
Definition filepath_rel (base targ : bytes) : option bytes :=
  if beq (path_clean base) (path_clean targ) then Some %"."
  else if Bool.eqb (has_prefix [c_slash] base) (has_prefix [c_slash] targ)
  then option_map (fun l => match l with [] => %"." | _ => join [c_slash] l end) (rel_parts (path_parts base) (path_parts targ)) else None.

(** wspace/workspace.go:32-44 [IsRegularFile] *)
Definition IsRegularFile (sys : system) (p : bytes) : bool := match stat sys p with Entry r _ => r | _ => false end.
(** wspace/workspace.go:45-51 [isFile, isExecutable] *)
Definition isFile (regular executable : bool) : bool := regular.
Definition isExecutable (regular executable : bool) : bool := regular && executable.
(** wspace/workspace.go:53-65 [repoRootFiles, packageRootFiles], sorted as in lines 102-107 *)
Definition repoRootFiles : list (bytes * (bool -> bool -> bool)) :=
  [(%".buckconfig", isFile); (%"MODULE.bazel", isFile); (%"REPO.bazel", isFile); (%"WORKSPACE", isFile); (%"WORKSPACE.bazel", isFile); (%"pants", isExecutable)].
Definition packageRootFiles : list (bytes * (bool -> bool -> bool)) := [(%"BUILD", isFile); (%"BUILD.bazel", isFile)].
(** wspace/workspace.go:94-119 [Find]: None for an error *)
Fixpoint probe (sys : system) (dir : bytes) (files : list (bytes * (bool -> bool -> bool))) : option bool :=
  match files with
  | [] => Some false
  | (name, check) :: files' =>
      match stat sys (path_join dir name) with
      | Entry r x => if check r x then Some true else probe sys dir files'
      | Failed => None
      | Missing => probe sys dir files'
      end
  end.
Fixpoint find_from (n : nat) (sys : system) (files : list (bytes * (bool -> bool -> bool))) (dir : bytes) : option bytes :=
  match n with
  | 0 => None
  | S n =>
      if beq dir [] || beq dir [c_slash] || beq dir [c_dot] || (Nat.eqb (List.length dir) 3 && has_suffix %":\" dir) then None
      else match probe sys dir files with
           | None => None
           | Some true => Some dir
           | Some false => find_from n sys files (filepath_dir dir)
           end
  end.
Definition Find (sys : system) (dir : bytes) (files : list (bytes * (bool -> bool -> bool))) : option bytes := find_from (S (List.length dir)) sys files dir.
(** wspace/workspace.go:67-90 [findContextPath, FindWorkspaceRoot] *)
Definition FindWorkspaceRoot (sys : system) (rootDir : bytes) : bytes * bytes :=
  let wd := match rootDir with [] => cwd sys | _ => rootDir end in
  match Find sys wd repoRootFiles with
  | None => ([], [])
  | Some root => if Nat.eqb (List.length wd) (List.length root) then (root, []) else (root, skipn (S (List.length root)) wd)
  end.
(** wspace/workspace.go:118-150 [FindRepoBuildFiles]: assignments to the map, the last first *)
Definition repo_kinds : list bytes := [%"git_repository"; %"new_local_repository"; %"new_git_repository"; %"new_http_archive"].
Definition colons_to_slashes (s : bytes) : bytes := map (fun c => if ceq c c_colon then c_slash else c) s.
Definition FindRepoBuildFiles (sys : system) (root : bytes) : option (list (bytes * bytes)) :=
  let ws := path_join root %"WORKSPACE" in
  match contents sys (absolute sys ws) with
  | None => None
  | Some data =>
      match parse_file (FMeta ws [] [] TypeWorkspace) data with
      | Some (EFile _ _ l) =>
          let stmts := l in
          Some (rev (flat_map (fun kind => flat_map (fun r =>
            match callee_args r with
            | Some (x, args) =>
                match AttrString %"build_file" args with
                | [] => []
                | b => [(name_in_file ws stmts x args, path_join root (colons_to_slashes b))]
                end
            | None => []
            end) (Rules kind stmts)) repo_kinds))
      | _ => None
      end
  end.
(** wspace/workspace.go:151-163 [relPath] *)
Definition relPath (base targ : bytes) : option bytes := option_map (fun r => if beq r %"." then [] else r) (filepath_rel base targ).
(** wspace/workspace.go:165-191 [SplitFilePath] *)
Definition SplitFilePath (sys : system) (filename : bytes) : bytes * bytes * bytes :=
  let dir := filepath_dir filename in
  match Find sys dir repoRootFiles with
  | None => ([], [], [])
  | Some workspaceRoot =>
      let packageRoot := match Find sys dir packageRootFiles with Some p => if has_prefix workspaceRoot p then p else workspaceRoot | None => workspaceRoot end in
      match relPath workspaceRoot packageRoot, relPath packageRoot filename with
      | Some pkg, Some label => (workspaceRoot, pkg, label)
      | _, _ => ([], [], [])
      end
  end.

(** edit/buildozer.go:1107 [BuildFileNames] *)
Definition BuildFileNames : list bytes := [%"BUILD.bazel"; %"BUILD"; %"BUCK"].
(** edit/edit.go:66-76, 85-95: the first of these that exists, or BUILD *)
Fixpoint build_file_in (sys : system) (dir : bytes) (names : list bytes) : bytes :=
  match names with
  | [] => path_join dir %"BUILD"
  | n :: names' => if IsRegularFile sys (path_join dir n) then path_join dir n else build_file_in sys dir names'
  end.
(** edit/edit.go:41-99 [InterpretLabelForWorkspaceLocation] *)
Record interpreted := Interpreted { buildFile : bytes; repo : bytes; pkg : bytes; rule : bytes }.
Definition InterpretLabelForWorkspaceLocation (sys : system) (root target_ : bytes) : interpreted :=
  let l := parse target_ in
  let (rootDir, relativePath) := FindWorkspaceRoot sys root in
  if negb (beq (repository l) []) then
    Interpreted (match FindRepoBuildFiles sys rootDir with Some files => match lookup (repository l) files with Some f => f | None => [] end | None => [] end)
      (repository l) (package l) (target l)
  else if has_prefix %"//" target_ then
    let pkgPath := path_join rootDir (package l) in
    if IsRegularFile sys pkgPath then Interpreted pkgPath [] (filepath_dir (package l)) (target l)
    else Interpreted (build_file_in sys pkgPath BuildFileNames) [] (package l) (target l)
  else if IsRegularFile sys (package l) then Interpreted (package l) [] (path_join relativePath (filepath_dir (package l))) (target l)
  else Interpreted (build_file_in sys (package l) BuildFileNames) [] (path_join relativePath (package l)) (target l).
