(** Validation of buildifier's options: buildifier/config/validation.go, buildifier/config/config.go. *)
From Verif Require Import Base.

Definition c_comma : ascii := ","%char.
(** buildifier/config/validation.go:25-33 [ValidateInputType]; true: no error *)
Definition ValidateInputType (t : bytes) : bool := mem_bytes t [%"build"; %"bzl"; %"workspace"; %"default"; %"module"; %"auto"].
(** buildifier/config/validation.go:36-50 [ValidateFormat] *)
Definition ValidateFormat (format mode : bytes) : bool :=
  if beq format [] then true else if beq format %"text" || beq format %"json" then beq mode %"check" else false.
(** buildifier/config/validation.go:63-99 [ValidateModes]: the new values of mode and lint, None is an error *)
Definition ValidateModes (mode lint : bytes) (dflag : bool) (additionalModes : list bytes) : option (bytes * bytes) :=
  if dflag && negb (beq mode []) then None
  else
    let mode := if dflag then %"diff" else mode in
    let mode' := if beq mode [] then %"fix" else mode in
    if negb (beq mode []) && negb (mem_bytes mode ([%"check"; %"diff"; %"fix"; %"print_if_changed"] ++ additionalModes)) then None
    else if beq lint [] then Some (mode', %"off")
    else if beq lint %"off" || beq lint %"warn" then Some (mode', lint)
    else if beq lint %"fix" then if beq mode' %"fix" then Some (mode', lint) else None
    else None.
(** buildifier/config/validation.go:102-139 [ValidateWarnings]; [order]: the iteration over the keys of the map plus *)
Section Warnings.
  Variable order : list bytes -> list bytes.
  Definition plus_of (w : bytes) : list bytes := if has_prefix %"+" w then [skipn 1 w] else [].
  Definition minus_of (w : bytes) : list bytes := if has_prefix %"+" w then [] else if has_prefix %"-" w then [skipn 1 w] else [].
  Definition raw_of (w : bytes) : list bytes := if has_prefix %"+" w || has_prefix %"-" w then [] else [w].
  Definition ValidateWarnings (warnings : bytes) (all default : list bytes) : option (list bytes) :=
    if beq warnings [] || beq warnings %"default" then Some default
    else if beq warnings %"all" then Some all
    else
      let parts := split c_comma warnings in
      let plus := flat_map plus_of parts in
      let minus := flat_map minus_of parts in
      let raw := flat_map raw_of parts in
      match raw with
      | [] => Some (filter (fun w => negb (mem_bytes w minus)) default ++ order plus)
      | _ => match plus, minus with [], [] => Some raw | _, _ => None end
      end.
  (** buildifier/config/config.go:92-150 [Config], the fields that are validated *)
  Record config := Config {
    c_type : bytes; c_format : bytes; c_mode : bytes; c_diff : bool; c_lint : bytes; c_warnings : bytes; c_list : list bytes; c_path : bytes }.
  (** buildifier/config/config.go:195-246 [Validate] without the tables: the mode, the lint mode and the warnings *)
  Definition Validate (c : config) (nargs : nat) (all default : list bytes) : option (bytes * bytes * list bytes) :=
    if negb (ValidateInputType (c_type c)) then None
    else if negb (ValidateFormat (c_format c) (c_mode c)) then None
    else
      match ValidateModes (c_mode c) (c_lint c) (c_diff c) [] with
      | None => None
      | Some (mode, lint) =>
          if (negb (beq (c_path c) []) || beq mode %"print_if_changed") && Nat.ltb 1 nargs then None
          else
            let l := c_list c ++ (if beq (c_warnings c) [] then [] else [c_warnings c]) in
            match ValidateWarnings (join [c_comma] l) all default with None => None | Some ws => Some (mode, lint, ws) end
      end.
End Warnings.
