(** The files that buildifier -r and buildozer's //... work on: buildifier/utils/utils.go, edit/buildozer.go.
    Simplifications: a directory is the list of its entries in the order in which the operating system's
    library returns them (by name); a file that is found is given by the names on the way to it, of which Go
    returns the filepath.Join; the file system does not change meanwhile. *)
From Verif Require Import Base Ast Cli.
Local Open Scope list_scope.

(** What there can be at a path: nothing, a file, a symbolic link (and what is there), a directory (and whether it can be read) *)
Inductive node := Missing | File | Link (to : node) | Dir (ok : bool) (entries : list (bytes * node)).
(** buildifier/utils/utils.go:30-44 [isStarlarkFile] *)
Definition isStarlarkFile (name : bytes) : bool :=
  let ext := file_ext name in
  if existsb (beq ext) [%".bzl"; %".sky"; %".star"] then true
  else if existsb (beq ext) [%".bazel"; %".oss"] then has_prefix %"BUILD." name || has_prefix %"WORKSPACE." name || has_prefix %"MODULE." name
  else beq name %"BUILD" || beq name %"WORKSPACE".
(** buildifier/utils/utils.go:46-48 [skip], of a directory *)
Definition skip (name : bytes) : bool := beq name %".git".
(** buildifier/utils/utils.go:63-74 and path/filepath.Walk, which does not follow links and reads a directory before the function is called; None: an error *)
Fixpoint walk_dir (name : bytes) (path : list bytes) (n : node) : option (list (list bytes)) :=
  match n with
  | Missing => None
  | File | Link _ => Some (if isStarlarkFile name then [path] else [])
  | Dir ok entries =>
      if ok then
        if skip name then Some []
        else (fix go (es : list (bytes * node)) : option (list (list bytes)) :=
          match es with
          | [] => Some []
          | (nm, c) :: es' =>
              match walk_dir nm (path ++ [nm]) c, go es' with
              | Some a, Some b => Some (a ++ b)
              | _, _ => None
              end
          end) entries
      else None
  end.
(** os.Stat: follows links *)
Fixpoint stat (n : node) : node := match n with Link t => stat t | _ => n end.
(** An argument: its text, the last name in it and what is there *)
Record argument := Argument { a_text : bytes; a_base : bytes; a_node : node }.
(** buildifier/utils/utils.go:54-77: one argument *)
Definition expand_one (a : argument) : option (list (bytes * list bytes)) :=
  match stat (a_node a) with
  | Missing => None
  | Dir _ _ => option_map (map (pair (a_text a))) (walk_dir (a_base a) [] (a_node a))
  | _ => Some [(a_text a, [])]
  end.
(** buildifier/utils/utils.go:52-80 [ExpandDirectories] *)
Fixpoint ExpandDirectories (args : list argument) : option (list (bytes * list bytes)) :=
  match args with
  | [] => Some []
  | a :: args' => match expand_one a, ExpandDirectories args' with Some x, Some y => Some (x ++ y) | _, _ => None end
  end.

(** edit/buildozer.go:1309-1317: the entries of one directory: files, and directories in order *)
Definition build_files (path : list bytes) (es : list (bytes * node)) : list (list bytes) :=
  flat_map (fun e => match snd e with Dir _ _ => [] | _ => if existsb (beq (fst e)) BuildFileNames then [path ++ [fst e]] else [] end) es.
Definition sub_dirs (path : list bytes) (es : list (bytes * node)) : list (list bytes * node) :=
  flat_map (fun e => match snd e with Dir ok l => [(path ++ [fst e], Dir ok l)] | _ => [] end) es.
(** edit/buildozer.go:1298-1320: the stack of directories, its top first; None: [fuel] was not enough *)
Fixpoint search (fuel : nat) (stack : list (list bytes * node)) : option (list (list bytes)) :=
  match stack with
  | [] => Some []
  | (path, n) :: stack' =>
      match fuel with
      | O => None
      | S fuel =>
          match n with
          | Dir true es => option_map (app (build_files path es)) (search fuel (rev (sub_dirs path es) ++ stack'))
          | _ => search fuel stack'
          end
      end
  end.
(** edit/buildozer.go:1294-1322 [findBuildFiles]; os.ReadDir fails on what is no directory *)
Definition findBuildFiles (fuel : nat) (root : node) : option (list (list bytes)) := search fuel [([], stat root)].
