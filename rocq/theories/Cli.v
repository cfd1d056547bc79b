(** Command lines of buildozer (edit/buildozer.go), file types (build/lex.go) and user tables
    (tables/tables.go). *)
From Verif Require Import Base Ast Labels.

(** strings.ReplaceAll for a non-empty [old]: [k] bytes still belong to the last match. *)
Fixpoint replace_from (old new : bytes) (k : nat) (s : bytes) : bytes :=
  match s with
  | [] => []
  | c :: r =>
      match k with
      | S k' => replace_from old new k' r
      | 0 => if has_prefix old s then (new ++ replace_from old new (List.length old - 1) r)%list
             else c :: replace_from old new 0 r
      end
  end.
Definition replace_all (old new s : bytes) : bytes := replace_from old new 0 s.

Definition is_sep (c : ascii) : bool := Ascii.eqb c c_sp || Ascii.eqb c c_nl.
(** edit/buildozer.go:1015 [spaceRegex], FindAllString: the maximal pieces made of escaped blanks and
    non-blanks.  [cur] is the piece being read, last byte first.  Bytes of one UTF-8 rune (and
    invalid bytes) are matched one by one by the class: no difference to matching runes. *)
Definition flush (cur : bytes) : list bytes := match cur with [] => [] | _ => [rev cur] end.
Fixpoint pieces (cur s : bytes) : list bytes :=
  match s with
  | [] => flush cur
  | c :: r =>
      match r with
      | d :: r' =>
          if Ascii.eqb c c_bs && is_sep d then pieces (d :: c :: cur) r'
          else if is_sep c then flush cur ++ pieces [] r else pieces (c :: cur) r
      | [] => if is_sep c then flush cur else flush (c :: cur)
      end
  end.
(** edit/buildozer.go:1020-1028 [SplitOnSpaces] *)
Definition unescape (s : bytes) : bytes :=
  replace_all [c_bs; c_nl] [c_nl] (replace_all [c_bs; c_sp] [c_sp] s).
Definition SplitOnSpaces (input : bytes) : list bytes := map unescape (pieces [] input).

Definition c_pipe : ascii := "|"%char.
Definition nul : ascii := Ascii.zero.
(** edit/buildozer.go:1405-1407 [saveEscapedPipes] *)
Definition saveEscapedPipes (s : bytes) : bytes := replace_all [c_bs; c_pipe] [nul; nul] s.
(** edit/buildozer.go:1409-1411 [replaceSavedPipes] *)
Definition replaceSavedPipes (s : bytes) : bytes := replace_all [nul; nul] [c_pipe] s.
(** the splitting of a line in edit/buildozer.go:1367-1403 [appendCommandsFromReader] *)
Definition line_args (line : bytes) : list bytes := map replaceSavedPipes (split c_pipe (saveEscapedPipes line)).
(** the treatment of a (trimmed) line in edit/buildozer.go:1367-1403 [appendCommandsFromReader]: nothing
    for empty lines and comments; a second field '*' stands for the labels of the command line. *)
Definition line_commands (labels : list bytes) (line : bytes) : option (list bytes) :=
  match line with
  | [] => None
  | c :: _ =>
      if Ascii.eqb c c_hash then None
      else Some (match line_args line with
           | a :: b :: rest => if beq b %"*" then a :: labels else a :: b :: rest
           | l => l
           end)
  end.

(** edit/buildozer.go:1037-1053 [parseCommands].  [is_command] is membership in AllCommands;
    checkCommandUsage (which exits on a wrong number of arguments) is left out. *)
Section Commands.
  Context (is_command : bytes -> bool).
  Fixpoint parseCommands (args : list bytes) : option (list (list bytes) * list bytes) :=
    match args with
    | [] => Some ([], [])
    | arg :: rest =>
        match SplitOnSpaces arg with
        | [] => None
        | name :: ps =>
            match parseCommands rest with
            | None => None
            | Some (cmds, targets) =>
                if is_command name then Some ((name :: ps) :: cmds, targets) else Some (cmds, arg :: targets)
            end
        end
    end.

  (** edit/buildozer.go:1326-1351 [appendCommands].  [files] is the rest of the loop body from the
      target to its BUILD files (targetExpressionToBuildFiles reads the file system). *)
  Context (files : bytes -> list bytes).
  Definition command_map := bytes -> list (bytes * list (list bytes)).
  Definition append_at (m : command_map) (file : bytes) (x : bytes * list (list bytes)) : command_map :=
    fun f => if beq f file then (m f ++ [x])%list else m f.
  (** the names edit/buildozer.go:1105 [BuildFileNames] *)
  Definition BuildFileNames : list bytes := [%"BUILD.bazel"; %"BUILD"; %"BUCK"].
  (** the inner loop: '//pkg/BUILD' stands for '//pkg:__pkg__' (Unix: both branches are the same) *)
  Definition target_of (target : bytes) : bytes :=
    fold_left (fun t name => let suf := (%"/" ++ name)%list in
      if has_suffix suf t then (trim_suffix suf t ++ %":__pkg__")%list else t) BuildFileNames target.
  Definition appendCommands (m : command_map) (args : list bytes) : option command_map :=
    match parseCommands args with
    | None => None
    | Some (cmds, targets) =>
        Some (fold_left (fun m t =>
          let t := target_of t in fold_left (fun m file => append_at m file (t, cmds)) (files t) m) targets m)
    end.
  (** edit/buildozer.go:1367-1403 [appendCommandsFromReader]; the lines are already read and trimmed. *)
  Fixpoint appendCommandsFromLines (labels : list bytes) (m : command_map) (lines : list bytes) : option command_map :=
    match lines with
    | [] => Some m
    | line :: rest =>
        match line_commands labels line with
        | None => appendCommandsFromLines labels m rest
        | Some args =>
            match appendCommands m args with
            | None => None
            | Some m' => appendCommandsFromLines labels m' rest
            end
        end
    end.
End Commands.

(** edit/buildozer.go:888-892 [isExtensionLabel] *)
Definition isExtensionLabel (arg : bytes) : bool := has_prefix %"@" arg || has_suffix %"//" arg.

(** ** File types *)
(** path/filepath.Ext on a name without slashes: from the last dot. *)
Fixpoint ext_from (s : bytes) : option bytes :=
  match s with
  | [] => None
  | c :: r => match ext_from r with Some e => Some e | None => if Ascii.eqb c c_dot then Some s else None end
  end.
Definition file_ext (s : bytes) : bytes := match ext_from s with Some e => e | None => [] end.
(** build/lex.go:125-151 [getFileType] *)
Definition getFileType (filename : bytes) : ftype :=
  match filename with
  | [] => TypeDefault
  | _ =>
      let basename := to_lower (path_base filename) in
      let basename := if has_suffix %".oss" basename then firstn (List.length basename - 4) basename else basename in
      if beq basename %"module.bazel" || has_suffix %".module.bazel" basename then TypeModule
      else
        let ext := file_ext basename in
        if beq ext %".bzl" then TypeBzl
        else if beq ext %".sky" then TypeDefault
        else
          let base := firstn (List.length basename - List.length ext) basename in
          if beq ext %".build" || beq base %"build" || has_prefix %"build." base then TypeBuild
          else if beq ext %".workspace" || beq base %"workspace" || has_prefix %"workspace." base then TypeWorkspace
          else TypeDefault
  end.

(** ** User tables *)
(** A Go map: [None] is the nil map, otherwise the lookup function. *)
Definition gomap (V : Type) := option (bytes -> option V).
(** Reading a nil map finds nothing. *)
Definition mget {V} (m : gomap V) (k : bytes) : option V := match m with None => None | Some f => f k end.
(** Assigning to an entry of a nil map panics ([None]). *)
Definition mset {V} (m : gomap V) (k : bytes) (v : V) : option (gomap V) :=
  match m with
  | None => None
  | Some f => Some (Some (fun q => if beq q k then Some v else f q))
  end.
(** A map given by the user: nil, or its entries in the order in which 'range' visits them. *)
Definition umap (V : Type) := option (list (bytes * V)).
Definition uentries {V} (u : umap V) : list (bytes * V) := match u with None => [] | Some l => l end.
(** 'for k, v := range u { m[k] = v }' *)
Fixpoint merge_entries {V} (l : list (bytes * V)) (m : gomap V) : option (gomap V) :=
  match l with
  | [] => Some m
  | (k, v) :: r => match mset m k v with None => None | Some m' => merge_entries r m' end
  end.
Definition merge_map {V} (u : umap V) (m : gomap V) : option (gomap V) := merge_entries (uentries u) m.
(** The tables of tables/tables.go:26-213. *)
Record tables := Tables {
  t_label : gomap bool; t_deny : gomap bool; t_list : gomap bool; t_sortable : gomap bool;
  t_sdeny : gomap bool; t_sallow : gomap bool; t_prio : gomap Z;
  t_strip : bool; t_shorten : bool }.
Record user_tables := UTables {
  u_label : umap bool; u_deny : umap bool; u_list : umap bool; u_sortable : umap bool;
  u_sdeny : umap bool; u_sallow : umap bool; u_prio : umap Z; u_strip : bool; u_shorten : bool }.
(** tables/tables.go:282-307 [MergeTables] *)
Definition MergeTables (u : user_tables) (t : tables) : option tables :=
  match merge_map (u_label u) (t_label t) with None => None | Some a =>
  match merge_map (u_deny u) (t_deny t) with None => None | Some b =>
  match merge_map (u_list u) (t_list t) with None => None | Some c =>
  match merge_map (u_sortable u) (t_sortable t) with None => None | Some d =>
  match merge_map (u_sdeny u) (t_sdeny t) with None => None | Some e =>
  match merge_map (u_sallow u) (t_sallow t) with None => None | Some f =>
  match merge_map (u_prio u) (t_prio t) with None => None | Some g =>
    Some (Tables a b c d e f g (u_strip u || t_strip t) (u_shorten u || t_shorten t))
  end end end end end end end.
(** tables/tables.go:269-279 [OverrideTables] *)
Definition of_user {V} (u : umap V) : gomap V :=
  match u with None => None | Some l => Some (fun q => lookup q l) end.
Definition OverrideTables (u : user_tables) (t : tables) : tables :=
  Tables (of_user (u_label u)) (of_user (u_deny u)) (of_user (u_list u)) (of_user (u_sortable u))
    (of_user (u_sdeny u)) (of_user (u_sallow u)) (of_user (u_prio u)) (u_strip u) (u_shorten u).
