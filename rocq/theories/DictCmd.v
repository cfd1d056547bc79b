(** edit/buildozer.go: the commands on attributes that are dictionaries. *)
From Verif Require Import LRTables LRCert Parse.
From Verif Require Import Base Ast Quote Labels Rewrite RuleApi EditList RuleCmd.
Local Open Scope list_scope.

(** The rule afterwards: without an error, or with one (dictionaries are changed in place, so that the rule may have changed) *)
Inductive dict_result := Done (r : rule) | Failed (r : rule).
Definition new_dict : expr := EDict no_com no_pos [] (End no_com no_pos) false.
Definition dict_attr (attr : bytes) (r : rule) : option expr := match Attr attr (r_args r) with Some (EDict c p l en m) => Some (EDict c p l en m) | _ => None end.
Definition dict_entries (d : expr) : list expr := match d with EDict _ _ l _ _ => l | _ => [] end.
Definition with_entries (l : list expr) (d : expr) : expr := match d with EDict c p _ en m => EDict c p l en m | _ => d end.
Definition dict_or_new (attr : bytes) (r : rule) : expr := match dict_attr attr r with Some d => d | None => new_dict end.
Definition set_dict (attr : bytes) (d : expr) (r : rule) : rule := with_args (SetAttr attr d (r_args r)) r.
(** The arguments key:value in turn, until one has no colon *)
Fixpoint dict_args (step : list expr -> bytes -> bytes -> list expr) (args : list bytes) (kvs : list expr) : bool * list expr :=
  match args with
  | [] => (true, kvs)
  | a :: args' => match split2 ":"%char a with (k, Some v) => dict_args step args' (step kvs k v) | (_, None) => (false, kvs) end
  end.
Definition dict_cmd (step : list expr -> bytes -> bytes -> list expr) (attr : bytes) (args : list bytes) (r : rule) : dict_result :=
  let d := dict_or_new attr r in
  let (ok, kvs) := dict_args step args (dict_entries d) in
  if ok then Done (set_dict attr (with_entries kvs d) r)
  else Failed (match dict_attr attr r with Some _ => set_dict attr (with_entries kvs d) r | None => r end).
(** edit/buildozer.go:643-668 [cmdDictAdd] *)
Definition add_entry (s : setting) (kvs : list expr) (k v : bytes) : list expr :=
  match DictionaryGet kvs k with None => snd (DictionarySet kvs k (Some (getStringExpr s v))) | Some _ => kvs end.
Definition cmdDictAdd (s : setting) := dict_cmd (add_entry s).
(** edit/buildozer.go:703-724 [cmdDictSet] *)
Definition set_entry (s : setting) (kvs : list expr) (k v : bytes) : list expr := snd (DictionarySet kvs k (Some (getStringExpr s v))).
Definition cmdDictSet (s : setting) := dict_cmd (set_entry s).
(** edit/buildozer.go:727-749 [cmdDictRemove] *)
Definition cmdDictRemove (attr : bytes) (args : list bytes) (r : rule) : dict_result :=
  match dict_attr attr r with
  | None => Done r
  | Some d =>
      match fold_left (fun l k => snd (DictionaryDelete l k)) args (dict_entries d) with
      | [] => Done (with_args (snd (DelAttr attr (r_args r))) r)
      | kvs => Done (set_dict attr (with_entries kvs d) r)
      end
  end.
(** edit/buildozer.go:752-778 [cmdDictReplaceIfEqual] *)
Definition cmdDictReplaceIfEqual (s : setting) (attr key old new : bytes) (r : rule) : dict_result :=
  match dict_attr attr r with
  | None => Done r
  | Some d =>
      let kvs := dict_entries d in
      let changed := Done (set_dict attr (with_entries (snd (DictionarySet kvs key (Some (getStringExpr s (getStringValue new))))) d) r) in
      match DictionaryGet kvs key with
      | None => Failed r
      | Some (EStr t) => if labels_equal (s_value t) (getStringValue old) (pkg s) then changed else Done r
      | Some (EIdent i) => if beq (i_name i) (getStringValue old) then changed else Done r
      | Some _ => Done r
      end
  end.
(** edit/buildozer.go:781-805 [cmdDictListAdd] *)
Definition cmdDictListAdd (s : setting) (attr key : bytes) (args : list bytes) (r : rule) : dict_result :=
  let d := dict_or_new attr r in
  let prev := match DictionaryGet (dict_entries d) key with Some e => e | None => EList no_com no_pos [] (End no_com no_pos) false end in
  let new := fold_left (fun e v => AddValueToList (dwc s) (Some e) (pkg s) (getStringExpr s v) true) args prev in
  Done (set_dict attr (with_entries (snd (DictionarySet (dict_entries d) key (Some new))) d) r).
