(** Specification of layout-only changes, and of which rewrites run (C29, C58). *)
From Verif Require Import Base Ast WalkSpec.

(** A node without its children and without the flags that only influence line breaks: lists and
    calls forced onto several lines, line breaks after a binary operator. *)
Definition clear (e : expr) : expr :=
  match e with
  | EList c s l en _ => EList c s l en false
  | EBinary c x p op _ y => EBinary c x p op false y
  | ECall c f p l en k _ => ECall c f p l en k false
  | _ => e
  end.
Inductive same_but_layout : expr -> expr -> Prop :=
  | sbl e e' : clear (shell e) = clear (shell e') ->
      Forall2 same_but_layout (children e) (children e') -> same_but_layout e e'.

(** The documented rewrites, in order. *)
Definition documented_order : list bytes :=
  [ %"removeParens"; %"callsort"; %"label"; %"listsort"; %"multiplus"; %"loadTop"; %"sameOriginLoad";
    %"sortLoadStatements"; %"loadsort"; %"useRepoPositionalsSort"; %"formatdocstrings"; %"reorderarguments";
    %"editoctal"; %"editfloat"; %"collapseEmpty" ].
Definition only_build_like : list bytes := [ %"removeParens"; %"callsort"; %"label"; %"multiplus" ].
Definition only_module : list bytes := [ %"useRepoPositionalsSort" ].
Definition should_run (off : list bytes) (set : option (list bytes)) (ty : ftype) (n : bytes) : Prop :=
  match set with
  | Some s => In n s
  | None =>
      ~ In n off /\
      (In n only_build_like -> ty = TypeBuild \/ ty = TypeWorkspace \/ ty = TypeModule) /\
      (In n only_module -> ty = TypeModule)
  end.
Inductive subseq {A} : list A -> list A -> Prop :=
  | ss_nil : subseq [] []
  | ss_keep x a b : subseq a b -> subseq (x :: a) (x :: b)
  | ss_drop x a b : subseq a b -> subseq a (x :: b).
