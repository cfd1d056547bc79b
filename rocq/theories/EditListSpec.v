(** Specification of list and dictionary attributes (C35 - C40). *)
From Verif Require Import Base Ast Labels.

(** ** The shape of a list attribute: sums of lists, selects and other expressions *)
Inductive part :=
  | PList (l : list expr)                                  (* [ ... ] *)
  | PSelect (branches : list (expr * expr)) (rest : list expr)  (* select({key: value, ...}, ...) *)
  | POther (e : expr).
(** The addends, left to right. *)
Definition entries (kvs : list expr) : list (expr * expr) :=
  flat_map (fun kv => match kv with EKV _ k _ v => [(k, v)] | _ => [] end) kvs.
Definition select_name (i : ident) : bool := beq (i_name i) %"select".
Fixpoint parts (e : expr) : list part :=
  match e with
  | EList _ _ l _ _ => [PList l]
  | EBinary _ x _ op _ y => if beq op %"+" then parts x ++ parts y else [POther e]
  | ECall _ (EIdent i) _ (EDict _ _ kvs _ _ :: rest) _ _ _ => if select_name i then [PSelect (entries kvs) rest] else [POther e]
  | _ => [POther e]
  end.
(** The unconditional elements, and the elements of the list-valued branches of selects. *)
Definition plain_of (p : part) : list expr := match p with PList l => l | _ => [] end.
Definition branch_of (p : part) : list expr :=
  match p with PSelect bs _ => flat_map (fun b => match snd b with EList _ _ l _ _ => l | _ => [] end) bs | _ => [] end.
Definition plain (e : expr) : list expr := flat_map plain_of (parts e).
Definition branches (e : expr) : list expr := flat_map branch_of (parts e).
(** Every select is given only its dictionary. *)
Definition simple_select (p : part) : Prop :=
  match p with
  | PList _ => True
  | PSelect _ rest => rest = []
  | POther e => forall c i p args en k m, e = ECall c (EIdent i) p args en k m -> i_name i <> %"select"
  end.
(** [l'] is [l] with [x] inserted somewhere. *)
Definition inserted {A} (x : A) (l l' : list A) : Prop := exists a b, l = a ++ b /\ l' = a ++ x :: b.

(** [x] is a string that denotes the same label as [item] in package [pkg]. *)
Definition spells (item pkg : bytes) (x : expr) : Prop :=
  exists s, x = EStr s /\ parse_relative (s_value s) pkg = parse_relative item pkg.

(** A branch of a select, its list (if it is one) changed by [S]. *)
Inductive branch_changed (S : list expr -> list expr -> Prop) : expr -> expr -> Prop :=
  | bc_list c k p c1 s l l' en m : S l l' -> branch_changed S (EKV c k p (EList c1 s l en m)) (EKV c k p (EList c1 s l' en m))
  | bc_other kv : (forall c k p c1 s l en m, kv <> EKV c k p (EList c1 s l en m)) -> branch_changed S kv kv.
(** [e'] is [e] with every unconditional list changed by [R] and every list-valued branch by [S]. *)
Inductive lists_changed (R S : list expr -> list expr -> Prop) : expr -> expr -> Prop :=
  | lc_list c s l l' en m : R l l' -> lists_changed R S (EList c s l en m) (EList c s l' en m)
  | lc_plus c x x' p b y y' : lists_changed R S x x' -> lists_changed R S y y' ->
      lists_changed R S (EBinary c x p %"+" b y) (EBinary c x' p %"+" b y')
  | lc_select c i p dc ds kvs kvs' de dm rest en k m : i_name i = %"select" ->
      Forall2 (branch_changed S) kvs kvs' ->
      lists_changed R S (ECall c (EIdent i) p (EDict dc ds kvs de dm :: rest) en k m)
                        (ECall c (EIdent i) p (EDict dc ds kvs' de dm :: rest) en k m)
  | lc_other e : parts e = [POther e] -> lists_changed R S e e.
(** Removing from a list the elements in [P], keeping the others in order. *)
Inductive without {A} (P : A -> Prop) : list A -> list A -> Prop :=
  | wo_nil : without P [] []
  | wo_drop x l l' : P x -> without P l l' -> without P (x :: l) l'
  | wo_keep x l l' : ~ P x -> without P l l' -> without P (x :: l) (x :: l').
(** Replacing the elements in [P]. *)
Definition replaced {A} (P : A -> Prop) (Q : A -> A -> Prop) (l l' : list A) : Prop :=
  Forall2 (fun x x' => (P x /\ Q x x') \/ (~ P x /\ x' = x)) l l'.

(** The order in which new values are inserted: strings last, those of other packages at the end. *)
Definition goes_before (x y : expr) : Prop :=
  match x, y with
  | EStr a, EStr b =>
      let far s := exists t, s_value s = %"//" ++ t in
      (~ far a /\ far b) \/ ((far a <-> far b) /\ blt (s_value a) (s_value b) = true)
  | EStr _, _ => False
  | _, EStr _ => True
  | _, _ => False
  end.

(** ** The value of a list attribute *)
(** A configuration chooses a branch of each select by its keys; [val] gives the value of the
    other expressions.  None: no branch matches, or the value is not a list. *)
Section Value.
  Context (choose : list expr -> option nat) (val : expr -> option (list expr)).
  Fixpoint value (e : expr) : option (list expr) :=
    match e with
    | EList _ _ l _ _ => Some l
    | EBinary _ x _ op _ y =>
        if beq op %"+" then
          match value x, value y with Some a, Some b => Some (a ++ b) | _, _ => None end
        else val e
    | ECall _ (EIdent i) _ (EDict _ _ kvs _ _ :: rest) _ _ _ =>
        if select_name i then
          match choose (map fst (entries kvs)) with
          | Some n =>
              match nth_error (map (fun kv => match kv with EKV _ _ _ v => value v | _ => None end) kvs) n with
              | Some v => v
              | None => None
              end
          | None => None
          end
        else val e
    | ECall _ (EIdent i) _ [] _ _ _ => if select_name i then None else val e
    | _ => val e
    end.
End Value.
(** Two lists of elements are the same up to order, repetition and the spelling of labels. *)
Definition covered (pkg : bytes) (l l' : list expr) : Prop :=
  forall x, In x l -> In x l' \/ exists s, x = EStr s /\ exists y, In y l' /\ spells (s_value s) pkg y.
Definition same_labels (pkg : bytes) (l l' : list expr) : Prop := covered pkg l l' /\ covered pkg l' l.

(** ** Dictionaries *)
Definition entry (key : bytes) (kv v : expr) : Prop := exists c s p, kv = EKV c (EStr s) p v /\ s_value s = key.
Inductive dict_is (key : bytes) : list expr -> expr -> Prop :=
  | di_here kv v l : entry key kv v -> dict_is key (kv :: l) v
  | di_later kv v l : (forall w, ~ entry key kv w) -> dict_is key l v -> dict_is key (kv :: l) v.
Definition no_entry (key : bytes) (kvs : list expr) : Prop := forall kv v, In kv kvs -> ~ entry key kv v.
