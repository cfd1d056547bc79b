(** Applying commands to files and running buildozer: edit/buildozer.go. *)
From Verif Require Import Base.

Section Rewrite.
  (** parsed files and rules *)
  Context {F rule : Type}.
  Definition err := bytes.
  (** A command's Fn: the file as the command leaves it (it may change it in place), the file it
      returns ([None]: nil), its error, and whether it added a record. *)
  Record ran := Ran { x_file : F; x_new : option F; x_err : option err; x_record : bool }.
  Context (fn : list bytes -> bytes -> option rule -> F -> ran) (per_rule : bytes -> bool).
  (** expandTargets followed by filterRules (edit/buildozer.go:952-989) *)
  Context (expand : F -> bytes -> list rule * option err).
  (** opts.KeepGoing, opts.Stdout or the stdin package *)
  Context (keep_going to_stdout : bool).
  (** build.Parse, RemoveEmptyPackage and RemoveEmptyUseRepoCalls, buildifier.Buildify *)
  Context (parse : bytes -> option F) (clean : F -> F) (buildify : F -> option bytes).
  (** whether reading, the EditFile hook and writing succeed *)
  Context (read_ok edit_ok write_ok : bool).

  Record rstate := RState { t_file : F; t_changed : bool; t_errs : list err; t_records : nat }.
  (** edit/buildozer.go:1076-1081 [rewriteResult] *)
  Record rresult := RResult { q_errs : list err; q_modified : bool; q_records : nat }.
  Inductive reffect := RWrite (data : bytes) | ROut (data : bytes).

  (** the innermost loop of edit/buildozer.go:1134-1262 [rewrite], over the rules of one command: [inr] is
      the early return *)
  Fixpoint run_rules (target : bytes) (cmd : list bytes) (rs : list (option rule)) (st : rstate) : rstate + rresult :=
    match rs with
    | [] => inl st
    | r :: rest =>
        let x := fn cmd target r (t_file st) in
        let records := if x_record x then S (t_records st) else t_records st in
        match x_err x, keep_going with
        | Some e, false => inr (RResult [e] false records)
        | e, _ =>
            let errs := (t_errs st ++ match e with Some e => [e] | None => [] end)%list in
            run_rules target cmd rest
              (match x_new x with
               | Some f => RState f true errs records
               | None => RState (x_file x) (t_changed st) errs records
               end)
        end
    end.
  Definition command_name (cmd : list bytes) : bytes := nth 0 cmd [].
  (** ... over the commands *)
  Fixpoint run_commands (target : bytes) (targets : list rule) (cmds : list (list bytes)) (st : rstate) : rstate + rresult :=
    match cmds with
    | [] => inl st
    | cmd :: rest =>
        match run_rules target cmd (if per_rule (command_name cmd) then map Some targets else [None]) st with
        | inr r => inr r
        | inl st => run_commands target targets rest st
        end
    end.
  (** ... over the targets *)
  Fixpoint run_targets (work : list (bytes * list (list bytes))) (st : rstate) : rstate + rresult :=
    match work with
    | [] => inl st
    | (target, cmds) :: rest =>
        let (targets, e) := expand (t_file st) target in
        match e, keep_going with
        | Some e, false => inr (RResult (t_errs st ++ [e]) false (t_records st))
        | _, _ =>
            let st := RState (t_file st) (t_changed st) (t_errs st ++ match e with Some e => [e] | None => [] end) (t_records st) in
            match run_commands target targets cmds st with
            | inr r => inr r
            | inl st => run_targets rest st
            end
        end
    end.
  Definition read_error : err := %"file not found or not readable".
  Definition other_error : err := %"error".
  (** edit/buildozer.go:1134-1262 [rewrite]: the result and what is written.  The search for the
      BUILD file name, the variables and the package names given to the commands are left out
      (they are part of [fn] and [expand]); messages are abstract. *)
  Definition rewrite (work : list (bytes * list (list bytes))) (data : bytes) : rresult * list reffect :=
    if negb read_ok then (RResult [read_error] false 0, [])
    else match parse data with
    | None => (RResult [other_error] false 0, [])
    | Some f =>
        match run_targets work (RState f false [] 0) with
        | inr r => (r, [])
        | inl st =>
            if negb (t_changed st) then (RResult (t_errs st) false (t_records st), [])
            else
              match buildify (clean (t_file st)) with
              | None => (RResult [other_error] false (t_records st), [])
              | Some ndata =>
                  if to_stdout then (RResult (t_errs st) false (t_records st), [ROut ndata])
                  else if beq data ndata then (RResult (t_errs st) false (t_records st), [])
                  else if negb edit_ok then (RResult [other_error] false (t_records st), [])
                  else if negb write_ok then (RResult [other_error] false (t_records st), [RWrite ndata])
                  else (RResult (t_errs st) true (t_records st), [RWrite ndata])
              end
        end
    end.
End Rewrite.

(** ** Many files in parallel: edit/buildozer.go:1442-1552 [Buildozer] *)
Section Run.
  (** files of the command map, contents of the file system, results *)
  Context {file content store res : Type}.
  (** 'rewrite' on a file: the state shared by all workers (the parsed commands: their argument slices are
      shared by all targets and files, edit/buildozer.go:1326-1351 [appendCommands]), new content and
      result.  The access of one 'rewrite' to the shared state is modelled as atomic. *)
  Context (process : file -> store -> content -> store * content * res).
  Context (file_eqb : file -> file -> bool).
  (** A worker: waiting for work, working on a file, about to send a result, gone. *)
  Inductive zworker := ZIdle | ZBusy (f : file) | ZDone (f : file) (r : res) | ZGone.
  (** main: sending the files that are left, or (after close) receiving results *)
  Inductive zmain := ZFeed (rest : list file) | ZCollect (i : nat).
  Record zstate := ZState {
    z_main : zmain; z_workers : list zworker; z_results : list (file * res); (* the buffered channel *)
    z_fs : file -> content; z_shared : store; z_seen : list (file * res) }.
  Context (numFiles : nat).
  Definition write_fs (fs : file -> content) (f : file) (c : content) : file -> content :=
    fun g => if file_eqb g f then c else fs g.
  Inductive zstep : zstate -> zstate -> Prop :=
    | z_handoff f rest l1 l2 rs fs sh seen : (* data is unbuffered: the worker receives as main sends *)
        zstep (ZState (ZFeed (f :: rest)) (l1 ++ ZIdle :: l2) rs fs sh seen)
              (ZState (ZFeed rest) (l1 ++ ZBusy f :: l2) rs fs sh seen)
    | z_close ws rs fs sh seen :
        zstep (ZState (ZFeed []) ws rs fs sh seen) (ZState (ZCollect 0) ws rs fs sh seen)
    | z_work m f l1 l2 rs fs sh seen :
        zstep (ZState m (l1 ++ ZBusy f :: l2) rs fs sh seen)
              (ZState m (l1 ++ ZDone f (snd (process f sh (fs f))) :: l2) rs
                      (write_fs fs f (snd (fst (process f sh (fs f))))) (fst (fst (process f sh (fs f)))) seen)
    | z_send m f r l1 l2 rs fs sh seen : List.length rs < numFiles ->
        zstep (ZState m (l1 ++ ZDone f r :: l2) rs fs sh seen)
              (ZState m (l1 ++ ZIdle :: l2) (rs ++ [(f, r)]) fs sh seen)
    | z_gone i l1 l2 rs fs sh seen :
        zstep (ZState (ZCollect i) (l1 ++ ZIdle :: l2) rs fs sh seen)
              (ZState (ZCollect i) (l1 ++ ZGone :: l2) rs fs sh seen)
    | z_collect i ws f r rs fs sh seen : i < numFiles ->
        zstep (ZState (ZCollect i) ws ((f, r) :: rs) fs sh seen)
              (ZState (ZCollect (S i)) ws rs fs sh (seen ++ [(f, r)])).
  (** [order] is the order in which ranging over the map visits the files. *)
  Definition zinit (numIO : nat) (order : list file) (fs : file -> content) (sh : store) : zstate :=
    ZState (ZFeed order) (repeat ZIdle numIO) [] fs sh [].
  Definition zdone (s : zstate) : Prop := z_main s = ZCollect numFiles.

  (** the end of Buildozer: the exit code *)
  Context (has_errors modified : res -> bool) (stdout : bool) (non_readonly : bool).
  Definition exit_code (seen : list (file * res)) : nat :=
    if existsb (fun p => has_errors (snd p)) seen then 2
    else if existsb (fun p => modified (snd p)) seen || stdout then 0
    else if non_readonly then 3 else 0.
End Run.
(** edit/buildozer.go:947-950 [readonlyCommands] and the last loops of Buildozer *)
Definition readonly (name : bytes) : bool := beq name %"print" || beq name %"print_comment".
Definition has_non_readonly (commands : list (list (bytes * list (list bytes)))) : bool :=
  existsb (existsb (fun tc => existsb (fun cmd => negb (readonly (command_name cmd))) (snd tc))) commands.
