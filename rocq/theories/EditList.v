(** edit/edit.go: list and dictionary attributes.  Go edits the tree in place through pointers to the
    lists; here each function returns the edited expression (no list occurs twice in a tree). *)
From Verif Require Import Base Ast Labels Quote StrList Rewrite RuleApi.

(** edit/edit.go:393-403 [AllLists]: the elements of the lists. *)
Fixpoint AllLists (e : expr) : list (list expr) :=
  match e with
  | EList _ _ l _ _ => [l]
  | EBinary _ x _ op _ y => if beq op %"+" then AllLists x ++ AllLists y else []
  | _ => []
  end.
(** Assigning to the lists found by [AllLists]. *)
Fixpoint map_lists (f : list expr -> list expr) (e : expr) : expr :=
  match e with
  | EList c s l en m => EList c s (f l) en m
  | EBinary c x p op b y => if beq op %"+" then EBinary c (map_lists f x) p op b (map_lists f y) else e
  | _ => e
  end.
(** edit/edit.go:406-418 [AllSelects]: the arguments of the selects. *)
Definition is_select (callee : expr) : bool :=
  match callee with EIdent i => beq (i_name i) %"select" | _ => false end.
Fixpoint AllSelects (e : expr) : list (list expr) :=
  match e with
  | EBinary _ x _ op _ y => if beq op %"+" then AllSelects x ++ AllSelects y else []
  | ECall _ x _ l _ _ _ => if is_select x then [l] else []
  | _ => []
  end.
Fixpoint map_selects (f : list expr -> list expr) (e : expr) : expr :=
  match e with
  | EBinary c x p op b y => if beq op %"+" then EBinary c (map_selects f x) p op b (map_selects f y) else e
  | ECall c x p l en k m => if is_select x then ECall c x p (f l) en k m else e
  | _ => e
  end.
(** The lists that are direct values of the dictionary of a select. *)
Definition branch_list (kv : expr) : option (list expr) :=
  match kv with EKV _ _ _ (EList _ _ l _ _) => Some l | _ => None end.
Definition set_branch (f : list expr -> list expr) (kv : expr) : expr :=
  match kv with EKV c k p (EList c1 s l en m) => EKV c k p (EList c1 s (f l) en m) | _ => kv end.
Definition dict_lists (args : list expr) : list (list expr) :=
  match args with EDict _ _ kvs _ _ :: _ => flat_map (fun kv => opt_list (fun l => l) (branch_list kv)) kvs | _ => [] end.
Definition map_dict_lists (f : list expr -> list expr) (args : list expr) : list expr :=
  match args with EDict c s kvs en m :: rest => EDict c s (map (set_branch f) kvs) en m :: rest | _ => args end.
(** edit/edit.go:422-442 [allListsFromSelects]: nothing at all if some select has more than its
    dictionary as arguments. *)
Definition one_dict (args : list expr) : bool := match args with [EDict _ _ _ _ _] => true | _ => false end.
Definition allListsFromSelects (e : expr) : list (list expr) :=
  if forallb one_dict (AllSelects e) then flat_map dict_lists (AllSelects e) else [].
Definition map_lists_from_selects (f : list expr -> list expr) (e : expr) : expr :=
  if forallb one_dict (AllSelects e) then map_selects (map_dict_lists f) e else e.

(** edit/edit.go:454-469 [FirstList], with an assignment to it; None: there is no list. *)
Fixpoint map_first_list (f : list expr -> list expr) (e : expr) : option expr :=
  match e with
  | EList c s l en m => Some (EList c s (f l) en m)
  | EBinary c x p op b y =>
      if beq op %"+" then
        match map_first_list f x with
        | Some x' => Some (EBinary c x' p op b y)
        | None => option_map (EBinary c x p op b) (map_first_list f y)
        end
      else None
  | _ => None
  end.

(** edit/edit.go:486-496 [listsFind], 501-503 [ListFind], 508-510 [listOrSelectFind]. *)
Definition is_item (item pkg : bytes) (x : expr) : bool :=
  match x with EStr s => labels_equal (s_value s) item pkg | _ => false end.
Definition listsFind (lists : list (list expr)) (item pkg : bytes) : option expr :=
  find (is_item item pkg) (List.concat lists).
Definition ListFind (e : expr) (item pkg : bytes) : option expr := listsFind (AllLists e) item pkg.
Definition listOrSelectFind (e : expr) (item pkg : bytes) : option expr :=
  listsFind (AllLists e ++ allListsFromSelects e) item pkg.

(** edit/edit.go:513-515 [hasComments]. *)
Definition hasComments (s : strlit) : bool :=
  match c_before (s_com s), c_suffix (s_com s) with [], [] => false | _, _ => true end.
(** edit/edit.go:690-705 [RemoveFromList]; [dwc] is the flag DeleteWithComments. *)
Definition to_remove (dwc : bool) (item pkg : bytes) (x : expr) : bool :=
  match x with EStr s => labels_equal (s_value s) item pkg && (dwc || negb (hasComments s)) | _ => false end.
Definition RemoveFromList (dwc : bool) (item pkg : bytes) (l : list expr) : list expr :=
  filter (fun x => negb (to_remove dwc item pkg x)) l.
(** The deleted string: the last one removed. *)
Definition last_removed (dwc : bool) (item pkg : bytes) (d : option expr) (l : list expr) : option expr :=
  fold_left (fun d x => if to_remove dwc item pkg x then Some x else d) l d.
(** edit/edit.go:672-686 [SelectDelete]. *)
Definition SelectDelete (dwc : bool) (e : expr) (item pkg : bytes) : expr :=
  map_selects (map_dict_lists (RemoveFromList dwc item pkg)) e.
(** edit/edit.go:709-721 [ListDelete]: the deleted string and the new expression. *)
Definition unquoted_item (item : bytes) : bytes :=
  match unquote item with (v, _, None) => v | _ => item end.
Definition ListDelete (dwc : bool) (e : expr) (item0 pkg : bytes) : option expr * expr :=
  let item := unquoted_item item0 in
  let e1 := map_lists (RemoveFromList dwc item pkg) e in
  let d1 := fold_left (last_removed dwc item pkg) (AllLists e) None in
  (fold_left (last_removed dwc item pkg) (flat_map dict_lists (AllSelects e1)) d1, SelectDelete dwc e1 item pkg).
(** edit/edit.go:725-733 [ListAttributeDelete] on the argument list. *)
Definition ListAttributeDelete (dwc : bool) (args : list expr) (attr item pkg : bytes) : option expr * list expr :=
  match Attr attr args with
  | None => (None, args)
  | Some e =>
      let (d, e') := ListDelete dwc e item pkg in
      let args' := SetAttr attr e' args in
      match d, e' with
      | Some _, EList _ _ [] _ _ => (d, snd (DelAttr attr args'))
      | _, _ => (d, args')
      end
  end.

(** edit/edit.go:1229-1234 [ShortenLabel]; [short] is the flag ShortenLabelsFlag. *)
Definition ShortenLabel (short : bool) (lab pkg : bytes) : bytes := if short then shorten lab pkg else lab.
Definition plain_str (c : comments) (v : bytes) : expr := EStr (Str c no_pos v false no_pos []).
(** edit/edit.go:737-750 [ListReplace]: whether something was replaced, and the new expression. *)
Definition replace_elem (short : bool) (old value pkg : bytes) (x : expr) : expr :=
  match x with
  | EStr s => if labels_equal (s_value s) old pkg then plain_str (s_com s) (ShortenLabel short value pkg) else x
  | _ => x
  end.
Definition ListReplace (short : bool) (e : expr) (old value pkg : bytes) : bool * expr :=
  let r := map (replace_elem short old value pkg) in
  (existsb (is_item old pkg) (List.concat (AllLists e ++ allListsFromSelects e)),
   map_lists_from_selects r (map_lists r e)).
(** edit/edit.go:755-771 [ListSubstitute]; [sub] is stringSubstitute (edit/edit.go:773-786) for the given
    regular expression and template: None if it does not match. *)
Definition subst_elem (sub : bytes -> option bytes) (x : expr) : expr :=
  match x with EStr s => match sub (s_value s) with Some v => plain_str (s_com s) v | None => x end | _ => x end.
Definition ListSubstitute (sub : bytes -> option bytes) (e : expr) : bool * expr :=
  let r := map (subst_elem sub) in
  (existsb (fun x => match x with EStr s => match sub (s_value s) with Some _ => true | None => false end | _ => false end)
     (List.concat (AllLists e ++ allListsFromSelects e)),
   map_lists_from_selects r (map_lists r e)).

(** edit/edit.go:789-805 [isExprLessThan]. *)
Definition expr_less (x y : expr) : bool :=
  match x, y with
  | EStr a, EStr b =>
      let p := has_prefix %"//" (s_value a) in
      let q := has_prefix %"//" (s_value b) in
      if Bool.eqb p q then blt (s_value a) (s_value b) else q
  | EStr _, _ => false
  | _, EStr _ => true
  | _, _ => false
  end.
(** edit/edit.go:807-819 [sortedInsert]. *)
Fixpoint sortedInsert (item : expr) (l : list expr) : list expr :=
  match l with
  | [] => [item]
  | y :: l' => if expr_less item y then item :: l else y :: sortedInsert item l'
  end.
Definition one_list (item : expr) : expr := EList no_com no_pos [item] (End no_com no_pos) false.
(** edit/edit.go:848-874 [AddValueToList]. *)
Definition AddValueToList (dwc : bool) (old : option expr) (pkg : bytes) (item : expr) (sorted : bool) : expr :=
  match old with
  | None => one_list item
  | Some e =>
      let add e :=
        match map_first_list (fun l => if sorted then sortedInsert item l else l ++ [item]) e with
        | Some e' => e'
        | None => EBinary no_com e no_pos %"+" false (one_list item)
        end in
      match item with
      | EStr s =>
          match ListFind e (s_value s) pkg with
          | Some _ => e
          | None => add (SelectDelete dwc e (s_value s) pkg)
          end
      | _ => add e
      end
  end.
(** edit/edit.go:832-844 [getVariable], 877-885 [AddValueToListAttribute]: [vars] maps variables to
    the values assigned to them in the file; result: arguments and variables. *)
Fixpoint update (k : bytes) (v : expr) (l : list (bytes * expr)) : list (bytes * expr) :=
  match l with
  | [] => []
  | (k', v') :: l' => if beq k k' then (k', v) :: l' else (k', v') :: update k v l'
  end.
Definition AddValueToListAttribute (dwc : bool) (args : list expr) (vars : list (bytes * expr)) (name pkg : bytes) (item : expr)
  : list expr * list (bytes * expr) :=
  let sorted := negb (beq name %"args") in
  let plain := (SetAttr name (AddValueToList dwc (Attr name args) pkg item sorted) args, vars) in
  match Attr name args with
  | Some (EIdent i) =>
      match lookup (i_name i) vars with
      | Some v => (args, update (i_name i) (AddValueToList dwc (Some v) pkg item sorted) vars)
      | None => plain
      end
  | _ => plain
  end.
(** edit/edit.go:958-975 [RenameAttribute]: None on error. *)
Definition set_key (new : bytes) (x : expr) : expr :=
  match x with EAssign c (EIdent i) p op b v => EAssign c (EIdent (Ident (i_com i) (i_pos i) new)) p op b v | _ => x end.
Fixpoint rename_first (old new : bytes) (args : list expr) : option (list expr) :=
  match args with
  | [] => None
  | x :: args' => if defines old x then Some (set_key new x :: args') else option_map (cons x) (rename_first old new args')
  end.
Definition RenameAttribute (args : list expr) (old new : bytes) : option (list expr) :=
  match Attr new args with Some _ => None | None => rename_first old new args end.
(** edit/edit.go:889-905 [MoveAllListAttributeValues]: None on error (an error of RenameAttribute is
    ignored). *)
Definition MoveAllListAttributeValues (dwc : bool) (args : list expr) (vars : list (bytes * expr)) (old new pkg : bytes)
  : option (list expr * list (bytes * expr)) :=
  match Attr old args with
  | None => None
  | Some e =>
      match Attr new args with
      | None => match RenameAttribute args old new with Some a => Some (a, vars) | None => Some (args, vars) end
      | Some _ =>
          match e with
          | EList _ _ l _ _ =>
              let '(a, v) := fold_left (fun st x => AddValueToListAttribute dwc (fst st) (snd st) new pkg x) l (args, vars) in
              Some (snd (DelAttr old a), v)
          | _ => None
          end
      end
  end.

(** edit/edit.go:927-934 [DictionaryGet] on the entries of a dictionary. *)
Definition key_is (key : bytes) (kv : expr) : bool :=
  match kv with EKV _ (EStr s) _ _ => beq (s_value s) key | _ => false end.
Definition kv_value (kv : expr) : option expr := match kv with EKV _ _ _ v => Some v | _ => None end.
Definition DictionaryGet (kvs : list expr) (key : bytes) : option expr :=
  match find (key_is key) kvs with Some kv => kv_value kv | None => None end.
(** edit/edit.go:909-923 [DictionarySet]: the returned value and the new entries. *)
Definition set_value_of (v : expr) (kv : expr) : expr := match kv with EKV c k p _ => EKV c k p v | _ => kv end.
Fixpoint set_first_key (key : bytes) (v : expr) (kvs : list expr) : list expr :=
  match kvs with
  | [] => []
  | kv :: kvs' => if key_is key kv then set_value_of v kv :: kvs' else kv :: set_first_key key v kvs'
  end.
Definition DictionarySet (kvs : list expr) (key : bytes) (value : option expr) : option expr * list expr :=
  match find (key_is key) kvs, value with
  | Some kv, Some v => (Some v, set_first_key key v kvs)
  | Some kv, None => (kv_value kv, kvs)
  | None, Some v => (None, kvs ++ [EKV no_com (plain_str no_com key) no_pos v])
  | None, None => (None, kvs)
  end.
(** edit/edit.go:938-954 [DictionaryDelete]: the deleted entry and the rest. *)
Definition has_string_key (kv : expr) : bool := match kv with EKV _ (EStr _) _ _ => true | _ => false end.
Definition DictionaryDelete (kvs : list expr) (key0 : bytes) : option expr * list expr :=
  let key := unquoted_item key0 in
  (fold_left (fun d kv => if key_is key kv then Some kv else d) kvs None,
   filter (fun kv => has_string_key kv && negb (key_is key kv)) kvs).
