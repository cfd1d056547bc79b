(** edit/edit.go: resolving selects. *)
From Verif Require Import Base Ast Labels Rewrite RuleApi EditList.

Definition new_list (l : list expr) : expr := EList no_com no_pos l (End no_com no_pos) false.
(** edit/edit.go:533-575 [RemoveEmptySelectsAndConcatLists]. *)
Definition empty_branch (kv : expr) : bool := match kv with EKV _ _ _ (EList _ _ [] _ _) => true | _ => false end.
Fixpoint RemoveEmptySelectsAndConcatLists (e : expr) : expr :=
  match e with
  | EBinary c x p op b y =>
      if beq op %"+" then
        let x' := RemoveEmptySelectsAndConcatLists x in
        let y' := RemoveEmptySelectsAndConcatLists y in
        match x', y' with
        | EList _ _ l _ _, EList _ _ l' _ _ => new_list (l ++ l')
        | EList _ _ [] _ _, _ => y'
        | _, EList _ _ [] _ _ => x'
        | _, _ => EBinary c x' p op b y'
        end
      else e
  | ECall _ x _ args _ _ _ =>
      if is_select x then
        match args with
        | [] => new_list []
        | EDict _ _ kvs _ _ :: _ => if forallb empty_branch kvs then new_list [] else e
        | _ => e
        end
      else e
  | _ => e
  end.
(** edit/edit.go:579-612 [ComputeIntersection]; None is nil.  A nil second list gives nil instead of
    the empty list in Go: the caller treats both alike. *)
Fixpoint scan (v : bytes) (l : list expr) : option bool :=
  match l with
  | [] => Some false
  | EStr s :: l' => if beq (s_value s) v then Some true else scan v l'
  | _ => None
  end.
Fixpoint intersect_loop (l1 l2 : list expr) : option (list expr) :=
  match l1 with
  | [] => Some []
  | EStr s :: l1' =>
      match scan (s_value s) l2 with
      | None => None
      | Some found =>
          match intersect_loop l1' l2 with
          | None => None
          | Some r => Some (if found then EStr s :: r else r)
          end
      end
  | _ => None
  end.
Definition ComputeIntersection (l1 : option (list expr)) (l2 : list expr) : option (list expr) :=
  match l1 with
  | None => None
  | Some l => match l2 with [] => Some [] | _ => intersect_loop l l2 end
  end.
(** edit/edit.go:616-643 [SelectListsIntersection] on the arguments of the select. *)
Fixpoint intersect_rest (cur : option (list expr)) (kvs : list expr) : option (list expr) :=
  match kvs with
  | [] => cur
  | kv :: kvs' =>
      match branch_list kv with
      | None => None
      | Some l =>
          match ComputeIntersection cur l with
          | None => None
          | Some [] => Some []
          | cur' => intersect_rest cur' kvs'
          end
      end
  end.
Definition SelectListsIntersection (args : list expr) : option (list expr) :=
  match args with
  | [EDict _ _ (kv :: kvs) _ _] => intersect_rest (branch_list kv) kvs
  | _ => None
  end.
(** edit/edit.go:648-668 [ResolveAttr]: on the attribute's value. *)
Definition to_extract (e : expr) : list expr :=
  flat_map (fun args => match SelectListsIntersection args with Some l => l | None => [] end) (AllSelects e).
Definition resolve_expr (dwc : bool) (pkg : bytes) (e : expr) : expr :=
  RemoveEmptySelectsAndConcatLists
    (fold_left (fun e x => AddValueToList dwc (Some e) pkg x false) (to_extract e) e).
Definition ResolveAttr (dwc : bool) (args : list expr) (attr pkg : bytes) : list expr :=
  match Attr attr args with
  | None => args
  | Some e => SetAttr attr (resolve_expr dwc pkg e) args
  end.
