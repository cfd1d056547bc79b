(** unused_deps: finding the dependencies of Java rules that no compilation uses.
    The file system, zip archives, the protocol buffer decoder and the answers of the build tool are parameters. *)
From Verif Require Import LRTables LRCert Parse.
From Verif Require Import Base Ast ParseFile Labels Rewrite RuleApi EditList RuleCmd Bzlmod Wspace Cli Fix.
Local Open Scope list_scope.

(** What the tool reads: files; the entries of a jar by name, None for one that cannot be read; the
    messages of a .jdeps file (is the kind EXPLICIT, and the path); the name of the build tool and what
    its info command says for the binary directory, the output path and the output base. *)
Record world := World {
  files : system;
  jar : bytes -> option (list (bytes * option bytes));
  decode : bytes -> option (list (bool * bytes));
  build_tool : bytes; bin_dir : bytes; output_path : bytes; output_base : bytes }.
Definition read_file (w : world) (p : bytes) : option bytes := contents (files w) (absolute (files w) p).

(** [strings.IndexByte], [strings.Index] and [bytes.Index] *)
Fixpoint index_byte (c : ascii) (s : bytes) : option nat :=
  match s with [] => None | x :: s' => if Ascii.eqb x c then Some O else option_map S (index_byte c s') end.
Fixpoint index (sub s : bytes) : option nat :=
  if has_prefix sub s then Some O else match s with [] => None | _ :: s' => option_map S (index sub s') end.

(** unused_deps/jar_manifest.go:28-52 [manifestIndexNewline] *)
Definition manifestIndexNewline (m : bytes) : option (nat * nat) :=
  match index_byte c_nl m, index_byte c_cr m with
  | None, None => None
  | None, Some r => Some (r, S r)
  | Some n, None => Some (n, S n)
  | Some n, Some r => if Nat.ltb n r then Some (n, S n) else if Nat.eqb n (S r) then Some (r, S n) else Some (r, S r)
  end.
(** unused_deps/jar_manifest.go:85-94: the lines of the value.  Each line takes at least one byte, so
    that the length of the text is enough for n. *)
Fixpoint value_lines (n : nat) (label rest : bytes) : option bytes :=
  match rest with
  | c :: r =>
      if Ascii.eqb c c_sp then
        match n, manifestIndexNewline rest with
        | S n', Some (newline, next) => value_lines n' (label ++ firstn (newline - 1) r) (skipn next rest)
        | _, _ => None
        end
      else Some label
  | [] => Some label
  end.
(** unused_deps/jar_manifest.go:80-95: the value in the text of the manifest *)
Definition manifest_value (key text : bytes) : option bytes :=
  match index (key ++ [c_colon]) text with
  | None => None
  | Some found => let rest := skipn (found + List.length (key ++ [c_colon])) text in value_lines (List.length rest) [] rest
  end.
(** unused_deps/jar_manifest.go:55-98 [jarManifestValue] *)
Definition jarManifestValue (w : world) (name key : bytes) : option bytes :=
  match jar w name with
  | None => None
  | Some entries =>
      match lookup %"META-INF/MANIFEST.MF" entries with
      | Some (Some text) => manifest_value key text
      | _ => None
      end
  end.

(** [bufio.Scanner] with [bufio.ScanLines]: it stops at a line that does not fit in its buffer *)
Definition maxScanTokenSize : N := 65536.
Definition drop_cr (s : bytes) : bytes := trim_suffix [c_cr] s.
Fixpoint scan (l : list bytes) : list bytes :=
  match l with
  | [] => []
  | [x] => match x with [] => [] | _ => if N.ltb (N.of_nat (List.length x)) maxScanTokenSize then [drop_cr x] else [] end
  | x :: l' => if N.ltb (N.of_nat (List.length x)) maxScanTokenSize then drop_cr x :: scan l' else []
  end.
Definition scan_lines (s : bytes) : list bytes := scan (split c_nl s).

(** unused_deps/unused_deps.go:171-184: the jars after the flag, with the labels of those that have one *)
Definition local_label (label : bytes) : bytes :=
  if has_prefix %"@@" label || has_prefix %"@/" label then skipn 1 label else label.
Fixpoint read_jars (w : world) (lines : list bytes) : list (bytes * bytes) :=
  match lines with
  | [] => []
  | j :: lines' =>
      if has_prefix %"--" j then []
      else match jarManifestValue w (output_path w ++ trim_prefix %"bazel-out" j) %"Target-Label" with
           | None => read_jars w lines'
           | Some label => (j, local_label label) :: read_jars w lines'
           end
  end.
(** unused_deps/unused_deps.go:152-195 [directDepParams] of one file.  A jar gets the same label each
    time, so that the order of the assignments to the map does not matter.  None: panics. *)
Definition direct_deps_flag : bytes := %"--direct_dependencies".
Definition directDepParams (w : world) (params : bytes) : option (list (bytes * bytes)) :=
  match read_file w params with
  | None => Some []
  | Some data =>
      match index direct_deps_flag data with
      | None => Some []
      | Some arg =>
          let first := arg + List.length direct_deps_flag + 1 in
          if Nat.ltb (List.length data) first then None else Some (read_jars w (scan_lines (skipn first data)))
      end
  end.

(** unused_deps/unused_deps.go:200-221 [unusedDeps]: the labels in the set *)
Definition label_of (depsByJar : list (bytes * bytes)) (path : bytes) : bytes := match lookup path depsByJar with Some l => l | None => [] end.
Definition unusedDeps (w : world) (depsFile : bytes) (depsByJar : list (bytes * bytes)) : list bytes :=
  match read_file w depsFile with
  | None => []
  | Some data =>
      match decode w data with
      | None => []
      | Some deps => filter (fun l => negb (existsb (fun d => fst d && beq (label_of depsByJar (snd d)) l) deps)) (map snd depsByJar)
      end
  end.

(** unused_deps/unused_deps.go:224-249 [parseBuildFile], [getDepsExpr] *)
Definition getDepsExpr (w : world) (name ruleName : bytes) : option expr :=
  match read_file w name with
  | None => None
  | Some data =>
      match parse_file (FMeta name [] [] (getFileType name)) data with
      | Some (EFile _ _ l) =>
          match FindRuleByName name l ruleName with
          | Some c => match stmt_call c with Some (_, args) => Attr %"deps" args | None => None end
          | None => None
          end
      | _ => None
      end
  end.
(** unused_deps/unused_deps.go:253-260 [hasRuntimeComment]; only ASCII letters are made lower case *)
Definition hasRuntimeComment (c : comments) : bool := existsb (fun k => contains %"runtime" (to_lower (c_tok k))) (c_suffix c).
(** unused_deps/unused_deps.go:288-292: the lines that are printed *)
Definition move_line (dep label : bytes) : bytes := %"buildozer 'move deps runtime_deps " ++ dep ++ %"' " ++ label.
Definition add_line (tool dep label : bytes) : bytes :=
  %"buildozer """ ++ %"add deps $(" ++ tool ++ %" query 'labels(exports, " ++ dep ++ %")' | tr '\n' ' ')" ++ %""" " ++ label.
Definition remove_line (dep label : bytes) : bytes := %"buildozer 'remove deps " ++ dep ++ %"' " ++ label.
Fixpoint collect {A} (l : list (option (list A))) : option (list A) :=
  match l with
  | [] => Some []
  | None :: _ => None
  | Some a :: l' => option_map (app a) (collect l')
  end.
(** unused_deps/unused_deps.go:275-295: one element of a list and one of the labels.  None: panics. *)
Definition element_lines (w : world) (label repo pkg : bytes) (elem : expr) (dep : bytes) : option (list bytes) :=
  match elem with
  | EStr s =>
      let v := s_value s in
      if negb (is_empty repo) && Nat.ltb (List.length v) 2 then None
      else let buildLabel := if negb (is_empty repo) && has_prefix %"//" v then c_at :: repo ++ v else v in
           if negb (labels_equal buildLabel dep pkg) then Some []
           else if hasRuntimeComment (s_com s) then Some [move_line v label]
           else Some [add_line (build_tool w) v label; remove_line v label]
  | _ => Some []
  end.
(** unused_deps/unused_deps.go:265-299 [printCommands]: the lines, for each element in the order [range elem] of the labels *)
Definition printCommands (w : world) (label : bytes) (range : expr -> list bytes) : option (list bytes) :=
  let i := InterpretLabelForWorkspaceLocation (files w) [] label in
  let name := if is_empty (repo i) then buildFile i else output_base w ++ %"/external/" ++ repo i ++ [c_slash] ++ buildFile i in
  match getDepsExpr w name (rule i) with
  | None => Some []
  | Some e => collect (flat_map (fun elem => map (element_lines w label (repo i) (pkg i) elem) (range elem)) (List.concat (AllLists e)))
  end.

(** unused_deps/unused_deps.go:140-147 [inputFileName] *)
Definition inputFileName (w : world) (blazeBin pkg ruleName extension : bytes) : bytes :=
  let name := blazeBin ++ [c_slash] ++ pkg ++ %"/lib" ++ ruleName ++ [c_dot] ++ extension in
  match stat (files w) name with
  | Entry _ _ => name
  | _ => blazeBin ++ [c_slash] ++ pkg ++ [c_slash] ++ ruleName ++ [c_dot] ++ extension
  end.
(** unused_deps/unused_deps.go:401-409: the set of labels for a target, and the lines that are printed for it *)
Definition unused_for (w : world) (label : bytes) : option (list bytes) :=
  let i := InterpretLabelForWorkspaceLocation (files w) [] label in
  let blazeBin := if is_empty (repo i) then bin_dir w else bin_dir w ++ %"/external/" ++ repo i in
  match directDepParams w (inputFileName w blazeBin (pkg i) (rule i) %"javac_params") with
  | None => None
  | Some depsByJar => Some (unusedDeps w (inputFileName w blazeBin (pkg i) (rule i) %"jdeps") depsByJar)
  end.
(** [range t e]: the order in which the map is ranged over for target t at element e *)
Definition target_lines (w : world) (range : list bytes -> expr -> list bytes) (label : bytes) : option (list bytes) :=
  match unused_for w label with None => None | Some deps => printCommands w label (range deps) end.
(** unused_deps/unused_deps.go:395-413: what is printed for the answer of the query *)
Definition unused_deps (w : world) (cquery : bool) (range : bytes -> list bytes -> expr -> list bytes) (query : bytes) : option (list bytes) :=
  collect (map (fun t => target_lines w (range t) t) (filter (fun t => negb (cquery && has_prefix %"(" t)) (Fields query))).
