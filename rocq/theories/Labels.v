(** Model of labels/labels.go. *)
From Verif Require Import Base.

(** labels/labels.go:28-32 [Label]. *)
Record label := Label { repository : bytes; package : bytes; target : bytes }.

Definition label_eqb (a b : label) : bool :=
  beq (repository a) (repository b) && beq (package a) (package b) && beq (target a) (target b).

Definition is_empty (s : bytes) : bool := match s with [] => true | _ => false end.

(** labels/labels.go:36-52 [Label.Format]. *)
Definition format (l : label) : bytes :=
  let b := if is_empty (repository l) then [] else c_at :: repository l in
  if beq (repository l) (target l) && is_empty (package l) then b
  else b ++ %"//" ++ package l ++
       (if beq (target l) (path_base (package l)) then [] else c_colon :: target l).

(** labels/labels.go:56-62 [Label.FormatRelative]. *)
Definition format_relative (l : label) (pkg : bytes) : bytes :=
  if negb (is_empty (repository l)) || negb (beq pkg (package l)) then format l
  else c_colon :: target l.

(** labels/labels.go:78-93: the part of [Parse] after the repository has been removed. *)
Definition parse_rest (repo t : bytes) : label :=
  let (p0, p1) := split2 c_colon t in
  let pkg := trim_prefix %"//" p0 in
  let other :=
    if negb (has_prefix %"//" t) then Label repo [] t
    else Label repo pkg (path_base pkg) in
  match p1 with
  | Some tg => if is_empty tg then other else Label repo pkg tg
  | None => other
  end.

(** labels/labels.go:66-92 [Parse]. *)
Definition parse (t : bytes) : label :=
  if has_prefix [c_at] t then
    let t1 := trim_left (Ascii.eqb c_at) t in
    match split2 c_slash t1 with
    | (_, None) => Label t1 [] t1
    | (repo, Some rest) => parse_rest repo (c_slash :: rest)
    end
  else parse_rest [] t.

(** labels/labels.go:96-101 [ParseRelative]. *)
Definition parse_relative (input pkg : bytes) : label :=
  if negb (has_prefix [c_at] input) && negb (has_prefix %"//" input)
  then Label [] pkg (trim_left (Ascii.eqb c_colon) input)
  else parse input.

(** labels/labels.go:106-114 [Shorten]. *)
Definition shorten (input pkg : bytes) : bytes :=
  if negb (has_prefix %"//" input) && negb (has_prefix [c_at] input) then input
  else format_relative (parse input) pkg.

(** labels/labels.go:119-121 [Equal]. *)
Definition labels_equal (l1 l2 pkg : bytes) : bool :=
  label_eqb (parse_relative l1 pkg) (parse_relative l2 pkg).
