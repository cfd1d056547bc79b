(** Lints about parameters of attr definitions: warn/warn_bazel_api.go.
    Simplifications: a replacement is made when the walk comes to the node, or from the leaves up.  (In Go all replacements are made after the walk, through pointers
    into the old tree; the difference shows only if a reported call is directly, not by keyword, an argument of another reported call, which
    no attr definition allows.)  A call has at most one argument with the keyword in question. *)
From Verif Require Import Base Ast Walk.

(** warn/warn_bazel_api.go:73-86 [getParam]: the position of the first argument with this keyword, and its value *)
Fixpoint getParam (l : list expr) (name : bytes) : option (nat * expr) :=
  match l with
  | [] => None
  | EAssign _ (EIdent i) _ _ _ v :: l' =>
      if beq (i_name i) name then Some (0, v) else option_map (fun r => (S (fst r), snd r)) (getParam l' name)
  | _ :: l' => option_map (fun r => (S (fst r), snd r)) (getParam l' name)
  end.
(** warn/warn_bazel_api.go:367-369, 459-461, 499-501: only .bzl files are looked at *)
Definition in_bzl (run : expr -> expr) (f : expr) : expr := match f with EFile _ (FMeta _ _ _ TypeBzl) _ => run f | _ => f end.
(** The callee is attr.xxx. *)
Definition is_attr (x : expr) : bool := match x with EDot _ (EIdent i) _ _ _ => beq (i_name i) %"attr" | _ => false end.
Definition remove_at {A} (i : nat) (l : list A) : list A := firstn i l ++ skipn (S i) l.
Definition update_at {A} (i : nat) (f : A -> A) (l : list A) : list A :=
  firstn i l ++ match skipn i l with x :: l' => f x :: l' | [] => [] end.
(** What append(l[:i], l[i+1:]...) leaves in the array of l itself. *)
Definition shift_at {A} (i : nat) (l : list A) : list A := remove_at i l ++ skipn (List.length l - 1) l.
Definition set_value (v : expr) (a : expr) : expr := match a with EAssign c x p op b _ => EAssign c x p op b v | _ => a end.
Definition set_keyword (n : bytes) (a : expr) : expr :=
  match a with EAssign c (EIdent i) p op b v => EAssign c (EIdent (Ident (i_com i) (i_pos i) n)) p op b v | _ => a end.

(** warn/warn_bazel_api.go:366-424 [attrConfigurationWarning]: what it finds in a node *)
Inductive cfg_value := Data | Host.
Definition cfg_found (e : expr) : option (nat * strlit * cfg_value) :=
  match e with
  | ECall _ x _ l _ _ _ =>
      if is_attr x then
        match getParam l %"cfg" with
        | Some (i, EStr s) => if beq (s_value s) %"data" then Some (i, s, Data) else if beq (s_value s) %"host" then Some (i, s, Host) else None
        | _ => None
        end
      else None
  | _ => None
  end.
Definition attrConfigurationFindings (f : expr) : list expr :=
  match f with EFile _ (FMeta _ _ _ TypeBzl) _ => filter (fun e => match cfg_found e with Some _ => true | None => false end) (map fst (Walk f)) | _ => [] end.
(** ... with its replacements made *)
Definition cfg_fix (_ : list expr) (e : expr) : expr :=
  match e, cfg_found e with
  | ECall c x p l en k m, Some (i, s, Data) => ECall c x p (remove_at i l) en k m
  | ECall c x p l en k m, Some (i, s, Host) =>
      ECall c x p (update_at i (set_value (EStr (Str (s_com s) (s_start s) %"exec" (s_triple s) (s_end s) (s_token s)))) l) en k m
  | _, _ => e
  end.
Definition attrConfigurationFix : expr -> expr := in_bzl (Edit cfg_fix).
(** ... without them: line 400 [append(newCall.List[:i], newCall.List[i+1:]...)] writes to the list of the old call *)
Definition cfg_walk (_ : list expr) (e : expr) : expr :=
  match e, cfg_found e with ECall c x p l en k m, Some (i, _, Data) => ECall c x p (shift_at i l) en k m | _, _ => e end.
Definition attrConfigurationWalk : expr -> expr := in_bzl (Edit cfg_walk).

(** For the next two the replacements are made from the leaves up. *)
Fixpoint rebuild_from (n : nat) (node : expr -> expr) (e : expr) : expr :=
  match n with 0 => e | S n => node (map_children (rebuild_from n node) e) end.
Definition rebuild (node : expr -> expr) (e : expr) : expr := rebuild_from (height e) node e.
(** warn/warn_bazel_api.go:41-69 [negateExpression] *)
Fixpoint negateExpression (e : expr) : expr :=
  match e with
  | EParen c p x en m => EParen c p (negateExpression x) en m
  | EIdent i => EIdent (Ident (i_com i) (i_pos i) (if beq (i_name i) %"True" then %"False" else %"True"))
  | EUnary c p op (Some x) => if beq op %"not" then x else EUnary no_com no_pos %"not" (Some e)
  | _ => EUnary no_com no_pos %"not" (Some e)
  end.
(** warn/warn_bazel_api.go:455-495 [attrNonEmptyWarning] *)
Definition non_empty_fix (e : expr) : expr :=
  match e with
  | ECall c x p l en k m =>
      if is_attr x then
        match getParam l %"non_empty" with
        | Some (i, v) => ECall c x p (update_at i (fun a => set_value (negateExpression v) (set_keyword %"allow_empty" a)) l) en k m
        | None => e
        end
      else e
  | _ => e
  end.
Definition attrNonEmptyFix : expr -> expr := in_bzl (rebuild non_empty_fix).
(** warn/warn_bazel_api.go:497-551 [attrSingleFileWarning] *)
Definition is_false (v : expr) : bool := match v with EIdent i => beq (i_name i) %"False" | _ => false end.
Definition single_file_fix (e : expr) : expr :=
  match e with
  | ECall c x p l en k m =>
      if is_attr x then
        match getParam l %"single_file" with
        | Some (i, v) =>
            let become w := update_at i (fun a => set_value w (set_keyword %"allow_single_file" a)) l in
            ECall c x p
              (if is_false v then remove_at i l
               else match getParam l %"allow_files" with Some (j, w) => remove_at j (become w) | None => become v end) en k m
        | None => e
        end
      else e
  | _ => e
  end.
Definition attrSingleFileFix : expr -> expr := in_bzl (rebuild single_file_fix).
