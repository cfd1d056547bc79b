(** The buildifier command: buildifier/buildifier.go, buildifier/utils/diagnostics.go. *)
From Verif Require Import Base.

Inductive bmode := MCheck | MDiff | MPipe | MFix | MPrintIfChanged.
(** What processFile does to the outside world. *)
Inductive effect :=
  | EWrite (file data : bytes)       (* os.WriteFile(filename, ndata) *)
  | EStdout (data : bytes)           (* os.Stdout.Write *)
  | ETemp (data : bytes)             (* a temporary file for diff *)
  | EShow (infile : option bytes) (new : bytes). (* differ.Show *)
(** buildifier/utils/diagnostics.go:69-74 [FileDiagnostics]; of the warnings only the number. *)
Record fdiag := FDiag { d_file : bytes; d_formatted : bool; d_valid : bool; d_warnings : nat }.

Section ProcessFile.
  (** the parsed file; parser, linter and formatter *)
  Context {F : Type} (parse : bytes -> bytes -> option F) (lint : F -> F * nat) (format : F -> bytes)
    (display : F -> bytes).
  (** b.config.Mode and b.config.WorkspaceRelativePath *)
  Context (mode : bmode) (workspace_path : bytes).
  (** whether the calls of the operating system succeed *)
  Context (write_ok : bytes -> bool) (temp_ok show_ok stdout_ok : bool).

  (** buildifier/utils/diagnostics.go:131-142 [InvalidFileDiagnostics] *)
  Definition InvalidFileDiagnostics (filename : bytes) : fdiag :=
    FDiag (match filename with [] => %"<stdin>" | _ => filename end) false false 0.
  (** buildifier/utils/diagnostics.go:107-128 [NewFileDiagnostics] *)
  Definition NewFileDiagnostics (filename : bytes) (warnings : nat) : fdiag := FDiag filename true true warnings.

  (** buildifier/buildifier.go:283-384 [processFile].  Messages on stderr are left out, as is
      displayFileNames, which only adds one.  Results: diagnostics, exit code, effects in order. *)
  Definition processFile (filename data : bytes) : fdiag * nat * list effect :=
    let displayFilename := match workspace_path with [] => filename | p => p end in
    match parse displayFilename data with
    | None => (InvalidFileDiagnostics displayFilename, 1, [])
    | Some f =>
        let '(f, warnings) := lint f in
        let exitCode := if Nat.ltb 0 warnings then 4 else 0 in
        let fd := NewFileDiagnostics (display f) warnings in
        let ndata := format f in
        match mode with
        | MCheck => if negb (beq data ndata) then (FDiag (d_file fd) false (d_valid fd) (d_warnings fd), 4, []) else (fd, exitCode, [])
        | MDiff =>
            if beq data ndata then (fd, exitCode, [])
            else if negb temp_ok then (fd, 3, [])
            else
              let '(infile, eff) := match filename with [] => (None, [ETemp ndata; ETemp data]) | _ => (Some filename, [ETemp ndata]) end in
              if show_ok then (fd, exitCode, eff ++ [EShow infile ndata]) else (fd, 4, eff ++ [EShow infile ndata])
        | MPipe => (fd, exitCode, [EStdout ndata])
        | MFix =>
            if beq data ndata then (fd, exitCode, [])
            else if write_ok filename then (fd, exitCode, [EWrite filename ndata]) else (fd, 3, [EWrite filename ndata])
        | MPrintIfChanged =>
            if beq data ndata then (fd, exitCode, [])
            else if stdout_ok then (fd, exitCode, [EStdout ndata]) else (fd, 3, [EStdout ndata])
        end
    end.

  (** buildifier/utils/diagnostics.go:92-104 [NewDiagnostics]: the field Success *)
  Definition NewDiagnostics (l : list fdiag) : bool :=
    forallb (fun f => d_formatted f && Nat.eqb (d_warnings f) 0) l.

  (** ** Reading files in parallel *)
  Definition fsys := bytes -> option bytes.   (* None: cannot be read *)
  (** the local type 'result' of processFiles *)
  Record result := Result { r_file : bytes; r_data : option bytes }.
  (** the state of the loop over the files: exit code, diagnostics, effects, phase error seen *)
  Record acc := Acc { a_exit : nat; a_diags : list fdiag; a_effects : list effect; a_phase : bool }.
  (** the body of the loop of buildifier/buildifier.go:221-279 [processFiles], after the receive *)
  Definition handle (file : bytes) (res : result) (a : acc) : acc :=
    if negb (beq (r_file res) file) then Acc 3 (a_diags a) (a_effects a) true
    else match r_data res with
    | None => Acc 3 (a_diags a) (a_effects a) (a_phase a)
    | Some data =>
        let '(fd, code, eff) := processFile file data in
        Acc (if Nat.eqb code 0 then a_exit a else code) (a_diags a ++ [fd]) (a_effects a ++ eff) (a_phase a)
    end.
  (** What the writes do to the file system. *)
  Definition do_effect (fs : fsys) (e : effect) : fsys :=
    match e with
    | EWrite f d => if write_ok f then fun g => if beq g f then Some d else fs g else fs
    | _ => fs
    end.
  Definition effects_of (file : bytes) (res : result) : list effect :=
    if negb (beq (r_file res) file) then [] else
    match r_data res with None => [] | Some data => snd (processFile file data) end.

  (** buildifier/buildifier.go:221-279 [processFiles]: the number of workers *)
  Definition nworkers (n : nat) : nat := Nat.min 100 ((n + 9) / 10).

  (** A worker: about to read file number j, or having read it and about to send. *)
  Inductive wstate := WRead (j : nat) | WSend (j : nat) (r : result).
  Record pstate := PState {
    s_workers : nat -> wstate; s_chan : nat -> option result;  (* channels of capacity 1 *)
    s_main : nat; s_fs : fsys; s_acc : acc }.
  Definition set_at {A} (f : nat -> A) (i : nat) (x : A) : nat -> A := fun k => if Nat.eqb k i then x else f k.

  Context (files : list bytes).
  Let n := nworkers (List.length files).
  Definition file_no (j : nat) : bytes := nth j files [].
  Inductive pstep : pstate -> pstate -> Prop :=
    | ps_read s i j : i < n -> s_workers s i = WRead j -> j < List.length files ->
        pstep s (PState (set_at (s_workers s) i (WSend j (Result (file_no j) (s_fs s (file_no j)))))
                        (s_chan s) (s_main s) (s_fs s) (s_acc s))
    | ps_send s i j r : i < n -> s_workers s i = WSend j r -> s_chan s i = None ->
        pstep s (PState (set_at (s_workers s) i (WRead (j + n))) (set_at (s_chan s) i (Some r)) (s_main s) (s_fs s) (s_acc s))
    | ps_recv s r : s_main s < List.length files -> s_chan s (s_main s mod n) = Some r ->
        a_phase (s_acc s) = false ->
        let file := file_no (s_main s) in
        pstep s (PState (s_workers s) (set_at (s_chan s) (s_main s mod n) None) (S (s_main s))
                        (fold_left do_effect (effects_of file r) (s_fs s)) (handle file r (s_acc s))).
  Definition pinit (fs : fsys) : pstate :=
    PState (fun i => WRead i) (fun _ => None) 0 fs (Acc 0 [] [] false).
  (** The run is over: every file has been processed (or the phase error has exited). *)
  Definition pdone (s : pstate) : Prop := s_main s = List.length files \/ a_phase (s_acc s) = true.
End ProcessFile.
