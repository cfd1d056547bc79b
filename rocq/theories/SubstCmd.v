(** edit/buildozer.go, edit/edit.go: the commands substitute and substitute_load.
    Simplification: the regular expression is a function that finds the first match of a text (its start and end) and what the template becomes for it; an expression that does not compile is an error before anything is changed. *)
From Verif Require Import Base Ast Quote Labels Rewrite RuleApi EditList RuleCmd.
Local Open Scope list_scope.

Record regexp := Regexp { match_of : bytes -> option (nat * nat); expansion : bytes -> bytes }.
(** edit/edit.go:773-786 [stringSubstitute] *)
Definition stringSubstitute (re : regexp) (old : bytes) : option bytes :=
  match match_of re old with
  | None => None
  | Some (a, b) =>
      let new := expansion re old in
      let new := if (0 <? a)%nat then firstn a old ++ new else new in
      Some (if (b <? List.length old)%nat then new ++ skipn b old else new)
  end.
(** edit/buildozer.go:543-554: one attribute *)
Definition substitute_attr (s : setting) (re : regexp) (args : list expr) (key : bytes) : list expr :=
  match Attr key args with
  | Some (EStr t) => match stringSubstitute re (s_value t) with Some v => SetAttr key (getStringExpr s v) args | None => args end
  | Some e => SetAttr key (snd (ListSubstitute (stringSubstitute re) e)) args
  | None => args
  end.
(** edit/buildozer.go:538-556 [cmdSubstitute] *)
Definition cmdSubstitute (s : setting) (re : regexp) (pattern : bytes) (r : rule) : rule :=
  with_args (fold_left (substitute_attr s re) (attrKeysForPattern r pattern) (r_args r)) r.
(** edit/buildozer.go:317-326: one statement; only the value of the string is changed, its token is left *)
Definition substitute_module (re : regexp) (o : option expr) : option expr :=
  match o with
  | Some (ELoad c p m from to e k) =>
      match stringSubstitute re (s_value m) with
      | Some v => Some (ELoad c p (Str (s_com m) (s_start m) v (s_triple m) (s_end m) (s_token m)) from to e k)
      | None => o
      end
  | _ => o
  end.
(** edit/buildozer.go:310-329 [cmdSubstituteLoad] *)
Definition cmdSubstituteLoad (re : regexp) (stmts : list (option expr)) : list (option expr) := map (substitute_module re) stmts.
