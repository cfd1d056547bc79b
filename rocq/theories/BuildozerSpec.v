(** Specification of applying commands (C45) and of the parallel run (C46). *)
From Verif Require Import Base Buildozer.

Section Does.
  Context {F rule : Type}
    (fn : list bytes -> bytes -> option rule -> F -> @ran F) (per_rule : bytes -> bool)
    (expand : F -> bytes -> list rule * option err).
  (** What happened in one step: an error, a changed file. *)
  Record event := Event { v_err : option err; v_changed : bool }.
  (** [does ...]: the work, done completely, whatever goes wrong: the events in order and the file in the end. *)
  Inductive does_rules (t : bytes) (cmd : list bytes) : F -> list (option rule) -> list event -> F -> Prop :=
    | dr_nil f : does_rules t cmd f [] [] f
    | dr_unchanged f r rs x vs g : fn cmd t r f = x -> x_new x = None ->
        does_rules t cmd (x_file x) rs vs g -> does_rules t cmd f (r :: rs) (Event (x_err x) false :: vs) g
    | dr_changed f r rs x f' vs g : fn cmd t r f = x -> x_new x = Some f' ->
        does_rules t cmd f' rs vs g -> does_rules t cmd f (r :: rs) (Event (x_err x) true :: vs) g.
  Inductive does_commands (t : bytes) (rs : list rule) : F -> list (list bytes) -> list event -> F -> Prop :=
    | dc_nil f : does_commands t rs f [] [] f
    | dc_per_rule f cmd cmds vs g vs' h : per_rule (command_name cmd) = true ->
        does_rules t cmd f (map Some rs) vs g -> does_commands t rs g cmds vs' h ->
        does_commands t rs f (cmd :: cmds) (vs ++ vs') h
    | dc_once f cmd cmds vs g vs' h : per_rule (command_name cmd) = false ->
        does_rules t cmd f [None] vs g -> does_commands t rs g cmds vs' h ->
        does_commands t rs f (cmd :: cmds) (vs ++ vs') h.
  Inductive does : F -> list (bytes * list (list bytes)) -> list event -> F -> Prop :=
    | d_nil f : does f [] [] f
    | d_target f t cmds work rs e vs g vs' h : expand f t = (rs, e) ->
        does_commands t rs f cmds vs g -> does g work vs' h ->
        does f ((t, cmds) :: work) (Event e false :: vs ++ vs') h.
End Does.
Definition failed (vs : list event) : Prop := exists v, In v vs /\ v_err v <> None.
Definition changed (vs : list event) : Prop := exists v, In v vs /\ v_changed v = true.
Definition errors (vs : list event) : list err := flat_map (fun v => match v_err v with Some e => [e] | None => [] end) vs.
