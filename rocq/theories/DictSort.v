(** The check of the order of dictionary items: warn/warn_cosmetic.go. *)
From Verif Require Import Base Ast Walk Lint.

(** The value of the key of an item if it is a string literal. *)
Definition string_key (item : expr) : option bytes := match item with EKV _ (EStr s) _ _ => Some (s_value s) | _ => None end.
Definition has_key (item : expr) : bool := match string_key item with Some _ => true | None => false end.
(** warn/warn_cosmetic.go:119-139 [compareItems], on the keys *)
Definition conditionsDefault : bytes := %"//conditions:default".
Definition compareKeys (key1 key2 : bytes) : bool :=
  if has_prefix %"_" key1 then has_prefix %"_" key2 && blt key1 key2
  else if has_prefix %"_" key2 then true
  else if beq key1 conditionsDefault then false
  else if beq key2 conditionsDefault then true
  else blt key1 key2.
(** of items; it is called for items with string keys only, others would make it panic *)
Definition key_of (item : expr) : bytes := match string_key item with Some k => k | None => [] end.
Definition compareItems (i1 i2 : expr) : bool := compareKeys (key_of i1) (key_of i2).
(** warn/warn_cosmetic.go:171-176: the items that should precede the item before them *)
Fixpoint misplacedItems (l : list expr) : list expr :=
  match l with
  | x :: l' => match l' with y :: _ => (if compareItems y x then [y] else []) ++ misplacedItems l' | [] => [] end
  | [] => []
  end.
(** warn/warn_cosmetic.go:186-194: the sorted items go where items with string keys were *)
Fixpoint put_back (l sorted : list expr) : list expr :=
  match l with
  | [] => []
  | x :: l' => if has_key x then match sorted with s :: sorted' => s :: put_back l' sorted' | [] => x :: put_back l' [] end
               else x :: put_back l' sorted
  end.
(** warn/warn_cosmetic.go:158-194: the new list of items; [sort] is sort.SliceStable *)
Definition sortItems (l : list expr) : list expr :=
  let sortedItems := filter has_key l in
  match misplacedItems sortedItems with [] => l | _ => put_back l (isort compareItems sortedItems) end.
(** warn/warn_cosmetic.go:144-146 [mustSkipCheck] *)
Definition mustSkipCheck (e : expr) : bool := ContainsComments e %"@unsorted-dict-items".
(** warn/warn_cosmetic.go:141-201: the callback of the walk: the dictionaries that are checked *)
Definition checked (e : expr) (stk : list expr) : option (list expr) :=
  match e with EDict _ _ l _ _ => if existsb mustSkipCheck (stk ++ [e]) then None else Some l | _ => None end.
(** warn/warn_cosmetic.go:115-204 [unsortedDictItemsWarning]: the items that are reported *)
Definition unsortedDictItems (f : expr) : list expr :=
  flat_map (fun call : expr * list expr => match checked (fst call) (snd call) with Some l => misplacedItems (filter has_key l) | None => [] end) (Walk f).
(** The same function with its replacements made.  A replacement puts a new dictionary with the same items (pointers) into the place of
    the old one, so that replacements inside items still have their effect; hence each dictionary is replaced as the walk comes to it. *)
Definition sort_node (stk : list expr) (e : expr) : expr :=
  match checked e stk with
  | Some l => match e with EDict c p _ en m => EDict c p (sortItems l) en m | _ => e end
  | None => e
  end.
Definition fixDictItems (f : expr) : expr := Edit sort_node f.
