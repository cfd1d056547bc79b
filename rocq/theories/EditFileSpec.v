(** Specification of edits of a file's statements (C41 - C44). *)
From Verif Require Import Base Ast Labels CallSpec LoadsSpec RuleSpec.

(** The statement calls the function [name]. *)
Definition call_of (name : bytes) (s : option expr) : Prop :=
  exists c i p l e k m, s = Some (ECall c (EIdent i) p l e k m) /\ i_name i = name.
Definition comment_block (s : option expr) : Prop := exists c p, s = Some (ECommentBlock c p).
Definition string_stmt (s : option expr) : Prop := exists l, s = Some (EStr l).
(** What may stand before the package declaration. *)
Definition before_package (s : option expr) : Prop :=
  comment_block s \/ is_load s \/ string_stmt s \/ call_of %"workspace" s.
(** [a] is the longest prefix of [a ++ b] whose elements are all in [P]. *)
Definition longest_prefix {A} (P : A -> Prop) (a b : list A) : Prop :=
  Forall P a /\ match b with x :: _ => ~ P x | [] => True end.
(** What may stand before loads: a docstring (the first statement), comments, workspace(). *)
Definition before_loads (a b : list (option expr)) : Prop :=
  exists d a', a = d ++ a' /\ longest_prefix (fun s => comment_block s \/ call_of %"workspace" s) a' b /\
    ((exists s, string_stmt s /\ d = [s]) \/ (d = [] /\ match a ++ b with s :: _ => ~ string_stmt s | [] => True end)).
(** The local names bound from module [m]. *)
Definition names_from (m : bytes) (l : list (option expr)) : list bytes :=
  flat_map (fun b => let '(m', _, n) := b in if beq m' m then [n] else []) (bindings l).
Definition a_map_order (ord : list (bytes * bytes) -> list (bytes * bytes)) : Prop := forall l, Permutation (ord l) l.
(** The rule [callee(args)] is the one called [name], on line [%n], or package() for "__pkg__". *)
Definition answers_to (dir : option bytes) (line : option Z) (stmts : list (option expr)) (name : bytes) (s : option expr) : Prop :=
  exists x args, calls s x args /\
    (name_is dir stmts x args name \/ line = Some (p_line (start_pos x)) \/ (name = %"__pkg__" /\ call_of %"package" s)).
Definition first_index {A} (P : A -> Prop) (l : list A) (i : nat) : Prop :=
  exists a x b, l = a ++ x :: b /\ P x /\ List.length a = i /\ Forall (fun y => ~ P y) a.
Definition last_index {A} (P : A -> Prop) (l : list A) (i : nat) : Prop :=
  exists a x b, l = a ++ x :: b /\ P x /\ List.length a = i /\ Forall (fun y => ~ P y) b.
