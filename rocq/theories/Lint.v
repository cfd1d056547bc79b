(** The lint driver of warn/warn.go. *)
From Verif Require Import Base Ast Walk.

(** Length of the longest common prefix: the first loop of warn/warn.go:393-424
    [calculateDifference] over the bytes of [old]. *)
Fixpoint common (old new : bytes) : nat :=
  match old, new with
  | b :: old', c :: new' => if Ascii.eqb b c then S (common old' new') else 0
  | _, _ => 0
  end.
(** warn/warn.go:393-424 [calculateDifference].  The second loop compares the byte
    [len-1-i] of both texts: the common prefix of the reversed texts. *)
Definition calculateDifference (old new : bytes) : nat * nat * bytes :=
  let commonPrefix := common old new in
  let commonSuffix := common (rev old) (rev new) in
  let commonSuffix :=
    if Nat.ltb (List.length old) (commonPrefix + commonSuffix) then List.length old - commonPrefix else commonSuffix in
  let commonSuffix :=
    if Nat.ltb (List.length new) (commonPrefix + commonSuffix) then List.length new - commonPrefix else commonSuffix in
  (commonPrefix, List.length old - commonSuffix,
   firstn (List.length new - commonSuffix - commonPrefix) (skipn commonPrefix new)).

(** ** Replacements
    The file as the linter sees it: cells (the places a *build.Expr may point to) holding values
    (pointers to nodes). *)
Section Driver.
  Context {value : Type}.
  Definition heap := nat -> value.
  Definition store (h : heap) (c : nat) (v : value) : heap := fun d => if Nat.eqb d c then v else h d.
  (** warn/warn.go:54-57 [LinterReplacement] *)
  Record replacement := Repl { r_old : nat; r_new : value }.
  (** warn/warn.go:45-51 [LinterFinding] *)
  Record lfinding := LFinding { l_start : pos; l_end : pos; l_msg : bytes; l_url : bytes; l_repl : list replacement }.
  (** warn/warn.go:73-78 [Replacement] *)
  Record suggestion := Sugg { g_desc : bytes; g_start : nat; g_end : nat; g_content : bytes }.
  (** warn/warn.go:60-70 [Finding]; the field File is left out. *)
  Record finding := Finding {
    n_start : pos; n_end : pos; n_cat : bytes; n_url : bytes; n_msg : bytes;
    n_actionable : bool; n_fixable : bool; n_repl : option suggestion }.
  (** warn/warn.go:32-42 [LintMode] *)
  Inductive mode := ModeWarn | ModeFix | ModeSuggest.

  (** build.Format: the text, and the file after formatting (Format rewrites the file in place). *)
  Context (format : heap -> bytes * heap).
  (** warn.DisabledWarning on the file in its current state. *)
  Context (disabled : heap -> Z -> bytes -> bool).

  (** the first loop of warn/warn.go:380-389 [formatWithFix]: the new file and the
    deferred assignments, the last one first. *)
  Definition apply_step (st : heap * list (nat * value)) (r : replacement) :=
    let (h, defers) := st in (store h (r_old r) (r_new r), (r_old r, h (r_old r)) :: defers).
  (** warn/warn.go:380-389 [formatWithFix] *)
  Definition formatWithFix (h : heap) (rs : list replacement) : bytes * heap :=
    let (h1, defers) := fold_left apply_step rs (h, []) in
    let (out, h2) := format h1 in
    (out, fold_left (fun h d => store h (fst d) (snd d)) defers h2).

  (** warn/warn.go:80-82 [docURL] *)
  Definition docURL (cat : bytes) : bytes :=
    (%"https://github.com/bazelbuild/buildtools/blob/main/WARNINGS.md#" ++ cat)%list.
  (** warn/warn.go:85-100 [makeFinding] *)
  Definition makeFinding (st en : pos) (cat url msg : bytes) (act fixable : bool) (fix_ : option suggestion) : finding :=
    Finding st en cat (match url with [] => docURL cat | _ => url end) msg act fixable fix_.

  (** the loop body of warn/warn.go:276-309 [runWarningsFunction] *)
  Definition run_step (category : bytes) (formatted : bytes) (md : mode) (st : heap * list finding) (w : lfinding)
    : heap * list finding :=
    let (h, acc) := st in
    if disabled h (p_line (l_start w)) category then (h, acc)
    else
      let mk := makeFinding (l_start w) (l_end w) category (l_url w) (l_msg w) true (negb (Nat.eqb (List.length (l_repl w)) 0)) in
      match l_repl w, md with
      | [], _ | _, ModeWarn => (h, acc ++ [mk None])
      | rs, ModeFix => (fold_left (fun h r => store h (r_old r) (r_new r)) rs h, acc)
      | rs, ModeSuggest =>
          let (newContents, h') := formatWithFix h rs in
          let '(s, e, c) := calculateDifference formatted newContents in
          (h', acc ++ [mk (Some (Sugg (l_msg w) s e c))])
      end.
  (** warn/warn.go:276-309 [runWarningsFunction]; [fct] only looks at the file. *)
  Definition runWarningsFunction (category : bytes) (fct : heap -> list lfinding) (formatted : bytes) (md : mode)
      (h : heap) : heap * list finding :=
    fold_left (run_step category formatted md) (fct h) (h, []).

  (** warn/warn.go:349-377 [FileWarnings].  [fcts] is the union of the three warning maps (an
      unknown name exits the process: [None]); [sort_strings] and [sort_findings] are sort.Strings
      and sort.Slice. *)
  Context (fcts : bytes -> option (heap -> list lfinding)).
  Context (sort_strings : (bytes -> bytes -> bool) -> list bytes -> list bytes).
  Context (sort_findings : (finding -> finding -> bool) -> list finding -> list finding).
  Definition line_less (a b : finding) : bool := (p_line (n_start a) <? p_line (n_start b))%Z.
  Fixpoint run_all (formatted : bytes) (md : mode) (warnings : list bytes) (h : heap) (acc : list finding)
    : option (heap * list finding) :=
    match warnings with
    | [] => Some (h, acc)
    | w :: ws =>
        match fcts w with
        | None => None
        | Some fct =>
            let (h', l) := runWarningsFunction w fct formatted md h in
            run_all formatted md ws h' (acc ++ l)
        end
    end.
  Definition FileWarnings (enabled : list bytes) (formatted : option bytes) (md : mode) (h : heap)
    : option (heap * list finding) :=
    let warnings := sort_strings blt enabled in
    let '(formatted, h) :=
      match md, formatted with
      | ModeSuggest, None => format h
      | _, Some b => (b, h)
      | _, None => ([], h)
      end in
    match run_all formatted md warnings h [] with
    | None => None
    | Some (h', l) => Some (h', sort_findings line_less l)
    end.
End Driver.
Arguments heap : clear implicits.
Arguments replacement : clear implicits.
Arguments lfinding : clear implicits.

(** ** Disabling comments *)
(** edit/edit.go:518-529 [ContainsComments] *)
Definition ContainsComments (e : expr) (str : bytes) : bool :=
  existsb (fun c => contains (to_lower str) (to_lower (c_tok c)))
    (c_before (com e) ++ c_suffix (com e) ++ c_after (com e)).
(** warn/warn.go:312-315 [HasDisablingComment] *)
Definition HasDisablingComment (e : expr) (warning : bytes) : bool :=
  ContainsComments e (%"buildifier: disable=" ++ warning)%list ||
  ContainsComments e (%"buildozer: disable=" ++ warning)%list.
(** warn/warn.go:319-346 [DisabledWarning]: the body of the callback. *)
Definition disables (line : Z) (warning : bytes) (e : expr) : bool :=
  let start := match c_before (com e) with c :: _ => c_start c | [] => start_pos e end in
  let end_ := match rev (c_after (com e)) with c :: _ => pos_add (c_start c) (c_tok c) | [] => end_pos e end in
  if ((line <? p_line start) || (p_line end_ <? line))%Z then false else HasDisablingComment e warning.
(** warn/warn.go:319-346 [DisabledWarning] *)
Definition DisabledWarning (f : expr) (line : Z) (warning : bytes) : bool :=
  existsb (fun call => disables line warning (fst call)) (Walk f).
