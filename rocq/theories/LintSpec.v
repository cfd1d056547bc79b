(** Specification of lint suggestions and modes (C49, C50, C59, C60). *)
From Verif Require Import Base Ast WalkSpec CallSpec Lint.

(** Replacing the bytes from [s] up to [e] (exclusive) of [old] by [content]. *)
Definition splice (old : bytes) (s e : nat) (content : bytes) : bytes :=
  (firstn s old ++ content ++ skipn e old)%list.
(** A valid edit script of one replacement from [old] to [new]. *)
Definition edits (old new : bytes) (s e : nat) (content : bytes) : Prop :=
  s <= e /\ e <= List.length old /\ splice old s e content = new.

(** The file after a list of assignments, the last assignment to a cell wins. *)
Fixpoint assigned {value} (h : heap value) (rs : list (replacement value)) (c : nat) : value :=
  match rs with
  | [] => h c
  | r :: rest => assigned (fun d => if Nat.eqb d (r_old r) then r_new r else h d) rest c
  end.
Definition touched {value} (rs : list (replacement value)) (c : nat) : Prop := In c (map (@r_old value) rs).

(** What identifies a finding for the user. *)
Definition key (n : finding) := (n_cat n, n_start n, n_end n, n_msg n, n_fixable n).
Definition lkey {value} (cat : bytes) (w : lfinding value) :=
  (cat, l_start w, l_end w, l_msg w, negb (Nat.eqb (List.length (l_repl w)) 0)).
(** Sorted by the line of the start. *)
Definition by_line (l : list finding) : Prop :=
  StronglySorted (fun a b => (p_line (n_start a) <= p_line (n_start b))%Z) l.

(** A node covers a line: from its first comment above (or its start) to its last comment below
    (or its end). *)
Definition covers (e : expr) (line : Z) : Prop :=
  (p_line (match c_before (com e) with c :: _ => c_start c | [] => start_pos e end) <= line)%Z /\
  (line <= p_line (match rev (c_after (com e)) with c :: _ => pos_add (c_start c) (c_tok c) | [] => end_pos e end))%Z.
Definition disabled_at (f : expr) (line : Z) (warning : bytes) : Prop :=
  exists path n, node_at children f path = Some n /\ covers n line /\
    (marked (to_lower (%"buildifier: disable=" ++ warning)) n \/ marked (to_lower (%"buildozer: disable=" ++ warning)) n).
