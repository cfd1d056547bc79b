(** build/rewrite.go: [fixMultilinePlus] and the driver [Rewrite]. *)
From Verif Require Import Base Ast Walk StrList Rewrite Loads.

(** build/rewrite.go:812-824 isList. *)
Fixpoint is_list (e : expr) : bool :=
  match e with
  | EList _ _ _ _ _ => true
  | ECall _ _ _ [x] _ _ _ => is_list x
  | _ => false
  end.
(** build/rewrite.go:827-842 isMultiLine. *)
Fixpoint is_multi_line (e : expr) : bool :=
  match e with
  | EList _ _ l _ multi => multi || Nat.ltb 1 (List.length l)
  | ECall _ _ _ l _ compact multi =>
      if multi || (Nat.ltb 1 (List.length l) && negb compact) then true
      else match l with [x] => is_multi_line x | _ => false end
  | _ => false
  end.
(** build/rewrite.go:846-869 forceMultiLine: success, and the expression after it. *)
Fixpoint force_multi_line (e : expr) : bool * expr :=
  match e with
  | EList c s l en multi =>
      if multi then (true, e)
      else
        match l with
        | [x] => let (ok, x') := force_multi_line x in
                 if ok then (true, EList c s [x'] en multi) else (true, EList c s [x'] en true)
        | _ => (true, EList c s l en true)
        end
  | ECall c f p [x] en k m => let (ok, x') := force_multi_line x in (ok, ECall c f p [x'] en k m)
  | _ => (false, e)
  end.

(** A sum flattened (build/rewrite.go:888-904): the first addend and the '+' nodes, left to right,
    with their right operands. *)
Record plus := Plus { pl_com : comments; pl_pos : pos; pl_break : bool; pl_right : expr }.
Definition is_plus (e : expr) : bool :=
  match e with EBinary _ _ _ op _ _ => beq op %"+" | _ => false end.
Fixpoint flatten (e : expr) : expr * list plus :=
  match e with
  | EBinary c x p op br y =>
      if beq op %"+" then let (w, l) := flatten x in (w, l ++ [Plus c p br y]) else (e, [])
  | _ => (e, [])
  end.
Definition unflatten (w : expr) (l : list plus) : expr :=
  fold_left (fun x q => EBinary (pl_com q) x (pl_pos q) %"+" (pl_break q) (pl_right q)) l w.
(** build/rewrite.go:920-941: each + next to a line break; [prev] is the addend before it. *)
Fixpoint fix_breaks (prev : expr) (l : list plus) : list plus :=
  match l with
  | [] => []
  | q :: l' =>
      if pl_break q then
        let (ok, y') := force_multi_line (pl_right q) in
        let br := if ok then false else if is_multi_line prev then false else true in
        Plus (pl_com q) (pl_pos q) br y' :: fix_breaks y' l'
      else q :: fix_breaks (pl_right q) l'
  end.
Definition fix_sum (e : expr) : expr :=
  let (w, l) := flatten e in
  if existsb is_list (w :: map pl_right l) then unflatten w (fix_breaks w l) else e.
(** build/rewrite.go:806-943 [fixMultilinePlus].  [skip] tells whether the node is in the skip map:
    exactly the left operands that are themselves sums of a visited sum are. *)
Fixpoint multiplus (fuel : nat) (skip : bool) (e : expr) : expr :=
  match fuel with
  | 0 => e
  | S n =>
      let e1 := if is_plus e && negb skip then fix_sum e else e in
      match e1 with
      | EBinary c x p op br y =>
          EBinary c (multiplus n (beq op %"+" && is_plus x) x) p op br (multiplus n false y)
      | _ => map_children (multiplus n false) e1
      end
  end.
Definition fixMultilinePlus (f : expr) : expr := multiplus (height f) false f.

(** What the rewrites see of the global state: DisableRewrites, AllowSort and
    tables.StripLabelLeadingSlashes (used by the string order). *)
Record env := Env { g_disabled : list bytes; g_allow : list bytes; g_strip : bool }.
(** build/rewrite.go:36-43 [disabled]. *)
Definition disabled (g : env) (name : bytes) : bool := mem_bytes name (g_disabled g).

(** build/rewrite.go:113-117: the scopes, as sets of file types. *)
Definition type_eqb (a b : ftype) : bool :=
  match a, b with
  | TypeDefault, TypeDefault | TypeBuild, TypeBuild | TypeWorkspace, TypeWorkspace | TypeBzl, TypeBzl | TypeModule, TypeModule => true
  | _, _ => false
  end.
Definition scope_default : list ftype := [TypeDefault; TypeBzl].
Definition scope_build : list ftype := [TypeBuild; TypeWorkspace; TypeModule].
Definition scope_both : list ftype := scope_default ++ scope_build.
Definition in_scope (t : ftype) (s : list ftype) : bool := existsb (type_eqb t) s.

(** build/rewrite.go:122-142, the table; a rewrite returns None if it panics. *)
Record rw := Rw { rw_name : bytes; rw_scope : list ftype; rw_fn : env -> rewriter -> expr -> option expr }.
Section Table.
  Context (srt_loads : (expr -> expr -> bool) -> list expr -> list expr)
          (srt_args : (ident * ident -> ident * ident -> bool) -> list (ident * ident) -> list (ident * ident)).
  Definition rewrites : list rw :=
    [ Rw %"removeParens" scope_build (fun _ _ f => Some (removeParens f));
      Rw %"callsort" scope_build (fun _ w f => Some (sortCallArgs w f));
      Rw %"label" scope_build (fun _ w f => Some (fixLabels w f));
      Rw %"listsort" scope_both (fun g w f => Some (sortStringLists w (disabled g %"unsafesort") (g_allow g) (g_strip g) f));
      Rw %"multiplus" scope_build (fun _ _ f => Some (fixMultilinePlus f));
      Rw %"loadTop" scope_both (fun _ _ f => moveLoadOnTop f);
      Rw %"sameOriginLoad" scope_both (fun _ _ f => Some (compressSameOriginLoads f));
      Rw %"sortLoadStatements" scope_both (fun _ _ f => sortLoadStatements srt_loads f);
      Rw %"loadsort" scope_both (fun _ _ f => Some (sortAllLoadArgs srt_args f));
      Rw %"useRepoPositionalsSort" [TypeModule] (fun g _ f => Some (sortUseRepoPositionals (g_strip g) f));
      Rw %"formatdocstrings" scope_both (fun _ _ f => Some (formatDocstrings f));
      Rw %"reorderarguments" scope_both (fun _ _ f => Some (reorderArguments f));
      Rw %"editoctal" scope_both (fun _ _ f => Some (editOctals f));
      Rw %"editfloat" scope_both (fun _ _ f => Some (editFloats f));
      Rw %"collapseEmpty" scope_both (fun _ _ f => Some (collapseEmpty f)) ].
  (** build/rewrite.go:90-100 [Rewriter.Rewrite], 102-109 [rewriteSetContains]: the loop over the
      table also records the names of the rewrites that ran. *)
  Definition runs (g : env) (w : rewriter) (ty : ftype) (r : rw) : bool :=
    (negb (disabled g (rw_name r)) && in_scope ty (rw_scope r) && match w_set w with None => true | _ => false end)
    || match w_set w with Some s => mem_bytes (rw_name r) s | None => false end.
  Fixpoint rewrite_loop (g : env) (w : rewriter) (table : list rw) (f : expr) : option (list bytes * expr) :=
    match table with
    | [] => Some ([], f)
    | r :: table' =>
        if runs g w (file_type f) r then
          match rw_fn r g w f with
          | None => None
          | Some f' => option_map (fun p => (rw_name r :: fst p, snd p)) (rewrite_loop g w table' f')
          end
        else rewrite_loop g w table' f
    end.
  Definition Rewrite (g : env) (w : rewriter) (f : expr) : option (list bytes * expr) := rewrite_loop g w rewrites f.
End Table.
