(** Specification of command lines, file types and user tables (C51, C52, C54, C56, C61). *)
From Verif Require Import Base Ast Cli.

Definition blank (c : ascii) : Prop := c = c_sp \/ c = c_nl.
Definition blanks (s : bytes) : Prop := Forall blank s.
(** An argument as it has to be typed: a backslash before every blank. *)
Definition escaped (a : bytes) : bytes := flat_map (fun c => if is_sep c then [c_bs; c] else [c]) a.
Definition ends_in_backslash (a : bytes) : Prop := exists p, a = p ++ [c_bs].
(** [spelled line args]: the line is a spelling of the arguments: escaped, non-empty, separated
    by blanks; only the last one may end in a backslash. *)
Inductive spelled : bytes -> list bytes -> Prop :=
  | spelled_none b : blanks b -> spelled b []
  | spelled_last b a : blanks b -> a <> [] -> spelled (b ++ escaped a) [a]
  | spelled_more b a c rest args : blanks b -> a <> [] -> ~ ends_in_backslash a -> blank c ->
      spelled rest args -> spelled (b ++ escaped a ++ c :: rest) (a :: args).

(** A field of a command file: a backslash before every '|'. *)
Definition pipe_escaped (a : bytes) : bytes := flat_map (fun c => if Ascii.eqb c c_pipe then [c_bs; c] else [c]) a.

(** The name that decides about the type of a file: the last component of the path in lower case,
    without one '.oss' at its end. *)
Inductive deciding_name (path : bytes) : bytes -> Prop :=
  | dn_oss n : to_lower (path_base path) = n ++ %".oss" -> deciding_name path n
  | dn_plain n : to_lower (path_base path) = n -> (forall p, n <> p ++ %".oss") -> deciding_name path n.
Definition ends_in (suf n : bytes) : Prop := exists p, n = p ++ suf.
Definition starts_with (pre n : bytes) : Prop := exists p, n = pre ++ p.
Definition module_name (n : bytes) : Prop := n = %"module.bazel" \/ ends_in %".module.bazel" n.
Definition build_name (n : bytes) : Prop := n = %"build" \/ starts_with %"build." n \/ ends_in %".build" n.
Definition workspace_name (n : bytes) : Prop := n = %"workspace" \/ starts_with %"workspace." n \/ ends_in %".workspace" n.
Inductive documented_type (n : bytes) : ftype -> Prop :=
  | dt_module : module_name n -> documented_type n TypeModule
  | dt_bzl : ends_in %".bzl" n -> documented_type n TypeBzl
  | dt_sky : ends_in %".sky" n -> documented_type n TypeDefault
  | dt_build : ~ module_name n -> ~ ends_in %".bzl" n -> ~ ends_in %".sky" n -> build_name n ->
      documented_type n TypeBuild
  | dt_workspace : ~ ends_in %".bzl" n -> ~ ends_in %".sky" n -> ~ module_name n -> ~ build_name n -> workspace_name n ->
      documented_type n TypeWorkspace
  | dt_other : ~ module_name n -> ~ ends_in %".bzl" n -> ~ build_name n -> ~ workspace_name n -> documented_type n TypeDefault.

(** A user map gives the key the value / does not mention it. *)
Definition gives {V} (u : umap V) (k : bytes) (v : V) : Prop := In (k, v) (uentries u).
Definition silent {V} (u : umap V) (k : bytes) : Prop := ~ In k (map fst (uentries u)).
Definition a_map {V} (u : umap V) : Prop := NoDup (map fst (uentries u)).
(** [m'] is [m] with the entries of [u] overriding. *)
Definition overlay {V} (u : umap V) (m m' : gomap V) : Prop :=
  forall k, (forall v, gives u k v -> mget m' k = Some v) /\ (silent u k -> mget m' k = mget m k).
Definition exactly {V} (u : umap V) (m' : gomap V) : Prop :=
  forall k, (forall v, gives u k v -> mget m' k = Some v) /\ (silent u k -> mget m' k = None).
Definition not_nil {V} (m : gomap V) : Prop := m <> None.

(** What a line of a command file asks for: nothing (an empty line or a comment), or its fields, where a second
    field '*' stands for the labels given on the command line. *)
Inductive line_reads (labels : list bytes) : bytes -> option (list bytes) -> Prop :=
  | lr_empty : line_reads labels [] None
  | lr_comment s : line_reads labels (c_hash :: s) None
  | lr_labels c s command rest : c <> c_hash -> line_args (c :: s) = command :: %"*" :: rest ->
      line_reads labels (c :: s) (Some (command :: labels))
  | lr_fields c s : c <> c_hash -> nth_error (line_args (c :: s)) 1 <> Some %"*" ->
      line_reads labels (c :: s) (Some (line_args (c :: s))).
