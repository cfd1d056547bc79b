(** Parsing a file, comments included. *)
From Verif Require Import Base Ast Lex Parse Attach.

(** build/lex.go:232-259 [parse]: the grammar, then the assignment of line and suffix comments; [None] is an error.
    Of the file only its statements and comments are given here (the name, package and kind are [m]). *)
Definition parse_file (m : fmeta) (data : bytes) : option expr :=
  match tokenize data, parse data with
  | Lexed _ st, Accepted stmts => Some (assignComments (EFile no_com m (map Some stmts)) (l_lines st) (l_suffixes st))
  | _, _ => None
  end.
