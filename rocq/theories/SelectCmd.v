(** edit/buildozer.go: the command set_select. *)
From Verif Require Import Base Ast Quote Labels Rewrite RuleApi EditList EditResolve RuleCmd.
Local Open Scope list_scope.

(** edit/edit.go:825-828 [attributeMustNotBeSorted] *)
Definition attributeMustNotBeSorted (attr : bytes) : bool := beq attr %"args".
(** edit/buildozer.go:676-678, 680-682: the arguments in pairs; None: a last key without value *)
Fixpoint in_pairs (args : list bytes) : option (list (bytes * bytes)) :=
  match args with
  | [] => Some []
  | [_] => None
  | k :: v :: args' => option_map (cons (k, v)) (in_pairs args')
  end.
(** edit/buildozer.go:683-696: one key and its value *)
Definition select_step (s : setting) (attr : bytes) (kvs : list expr) (p : bytes * bytes) : list expr :=
  let (key, value) := p in
  let e :=
    if IsList (attr_types s) attr then
      AddValueToList (dwc s) (Some (match DictionaryGet kvs key with Some cur => cur | None => new_list [] end)) (pkg s) (getStringExpr s value) (negb (attributeMustNotBeSorted attr))
    else getStringExpr s value in
  snd (DictionarySet kvs key (Some e)).
(** edit/buildozer.go:698-699: the call *)
Definition select_call (kvs : list expr) : expr :=
  ECall no_com (new_ident_expr %"select") no_pos [EDict no_com no_pos kvs (End no_com no_pos) false] (End no_com no_pos) false false.
(** edit/buildozer.go:670-702 [cmdSetSelect]; None: an error *)
Definition cmdSetSelect (s : setting) (attr : bytes) (args : list bytes) (r : rule) : option rule :=
  match in_pairs args with
  | None => None
  | Some l => Some (with_args (SetAttr attr (select_call (fold_left (select_step s attr) l [])) (r_args r)) r)
  end.
