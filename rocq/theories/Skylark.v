(** The old name of the language: warn/warn_cosmetic.go.
    Simplification: a finding is given by its node, the comment that it points to and the comments of the replacement. *)
From Verif Require Import Base Ast Walk Scope Lint CallLints Docstring.
Local Open Scope list_scope.

(** warn/warn_cosmetic.go:226: the regular expression (?i)skylark; besides the two cases of the letters it matches the long s (U+017F) and the Kelvin sign (U+212A), in UTF-8 *)
Definition after_letter (lo up : ascii) (s : bytes) : option bytes :=
  match s with c :: r => if Ascii.eqb c lo || Ascii.eqb c up then Some r else None | [] => None end.
Definition after_sign (sign s : bytes) : option bytes := if has_prefix sign s then Some (skipn (List.length sign) s) else None.
Definition long_s : bytes := [ascii_of_N 197; ascii_of_N 191].
Definition kelvin : bytes := [ascii_of_N 226; ascii_of_N 132; ascii_of_N 170].
Definition after_s (s : bytes) : option bytes := match after_letter "s"%char "S"%char s with Some r => Some r | None => after_sign long_s s end.
Definition after_k (s : bytes) : option bytes := match after_letter "k"%char "K"%char s with Some r => Some r | None => after_sign kelvin s end.
Definition bind {A B} (o : option A) (f : A -> option B) : option B := match o with Some x => f x | None => None end.
Definition after_skylark (s : bytes) : option bytes :=
  bind (after_s s) (fun s => bind (after_k s) (fun s => bind (after_letter "y"%char "Y"%char s) (fun s => bind (after_letter "l"%char "L"%char s) (fun s =>
  bind (after_letter "a"%char "A"%char s) (fun s => bind (after_letter "r"%char "R"%char s) after_k))))).
(** [FindAllStringIndex]: the matches cannot overlap, as only their first letter is an s *)
Fixpoint find_all (i : nat) (s : bytes) : list (nat * nat) :=
  match s with
  | [] => []
  | _ :: s' => match after_skylark s with Some r => [(i, i + (List.length s - List.length r))] | None => [] end ++ find_all (S i) s'
  end.
(** warn/warn_cosmetic.go:208-217 [skylarkToStarlark] *)
Definition skylarkToStarlark (s : bytes) : bytes :=
  if beq s %"SKYLARK" then %"STARLARK" else if has_prefix %"S" s then %"Starlark" else %"starlark".
Definition is_slash (o : option ascii) : bool := match o with Some c => Ascii.eqb c "/"%char | None => false end.
(** warn/warn_cosmetic.go:228-236: one match; None: a slice out of range *)
Definition replace_match (s : bytes) (new : option bytes) (r : nat * nat) : option bytes :=
  let (a, b) := r in
  match new with
  | None => None
  | Some new =>
      if (0 <? a)%nat && is_slash (nth_error s (a - 1)) then Some new
      else if (b <? List.length s - 1)%nat && is_slash (nth_error s (b + 1)) then Some new
      else if (b <=? List.length new)%nat then Some (firstn a new ++ skylarkToStarlark (firstn (b - a) (skipn a new)) ++ skipn b new)
      else None
  end.
(** warn/warn_cosmetic.go:219-238 [replaceSkylark]: the new string and whether it is another; None: panic *)
Definition replaceSkylark (s : bytes) : option (bytes * bool) :=
  match fold_left (replace_match s) (find_all 0 s) (Some s) with Some new => Some (new, negb (beq new s)) | None => None end.

(** warn/warn_cosmetic.go:255-271: the comments of one kind; None: panic.  Second result: the last comment that is changed *)
Definition new_comment (c : comment) : option (comment * bool) :=
  if contains %"disable=skylark-docstring" (c_tok c) then Some (c, false)
  else match replaceSkylark (c_tok c) with Some (t, changed) => Some (Comment (c_start c) t, changed) | None => None end.
Fixpoint new_comments (l : list comment) : option (list comment * option comment) :=
  match l with
  | [] => Some ([], None)
  | c :: l' =>
      match new_comment c, new_comments l' with
      | Some (c', changed), Some (cs, last) => Some (c' :: cs, match last with Some d => Some d | None => if changed then Some c else None end)
      | _, _ => None
      end
  end.
Definition last_of {A} (a b : option A) : option A := match b with Some x => Some x | None => a end.
(** warn/warn_cosmetic.go:245-283: one node; Some None: no finding *)
Definition node_comments (e : expr) : option (option (expr * comment * comments)) :=
  match new_comments (c_before (com e)), new_comments (c_suffix (com e)), new_comments (c_after (com e)) with
  | Some (b, lb), Some (s, ls), Some (a, la) =>
      Some (match last_of (last_of lb ls) la with Some c => Some (e, c, Comments b s a) | None => None end)
  | _, _, _ => None
  end.
Fixpoint all_some {A} (l : list (option A)) : option (list A) :=
  match l with [] => Some [] | None :: _ => None | Some x :: l' => match all_some l' with Some r => Some (x :: r) | None => None end end.
(** warn/warn_cosmetic.go:240-286 [skylarkCommentWarning] *)
Definition skylarkCommentWarning (f : expr) : option (list (expr * comment * comments)) :=
  match all_some (walk_nodes (fun e => [node_comments e]) f) with Some l => Some (flat_map (opt_list (fun x => x)) l) | None => None end.
(** warn/warn_cosmetic.go:288-303 [checkSkylarkDocstring]: the docstring and its new value *)
Definition checkSkylarkDocstring (stmts : list (option expr)) : option (list (strlit * bytes)) :=
  match getDocstring stmts with
  | (Some (EStr s), true) => match replaceSkylark (s_value s) with Some (new, true) => Some [(s, new)] | Some (_, false) => Some [] | None => None end
  | _ => Some []
  end.
(** warn/warn_cosmetic.go:305-325 [skylarkDocstringWarning] *)
Definition skylarkDocstringWarning (stmts : list (option expr)) : option (list (strlit * bytes)) :=
  match checkSkylarkDocstring stmts, all_some (map (fun o => match o with Some (EDef _ _ _ body _ _ _ _ _) => checkSkylarkDocstring (map Some body) | _ => Some [] end) stmts) with
  | Some a, Some b => Some (a ++ List.concat b)
  | _, _ => None
  end.
