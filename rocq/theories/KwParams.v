(** The lint about keyword arguments of builtins that should be positional: warn/warn_bazel_api.go.
    Simplifications: replacements are made from the leaves up; in Go they are made after the walk, which differs only for the compact flag of a call
    that is the value of a keyword argument that goes (its reset is lost there). *)
From Verif Require Import Base Ast Walk AttrParams.

(** warn/warn_bazel_api.go:336-342 [makePositional] *)
Definition makePositional (a : expr) : expr := match a with EAssign _ _ _ _ _ v => v | _ => a end.
(** warn/warn_bazel_api.go:344-364 [makeKeyword] *)
Definition makeKeyword (a : expr) (name : bytes) : expr :=
  match a with
  | EAssign c (EIdent i) p op b v => if beq (i_name i) name then a else EAssign c (EIdent (Ident no_com no_pos name)) p op b v
  | EAssign c _ p op b v => EAssign c (EIdent (Ident no_com no_pos name)) p op b v
  | _ => EAssign no_com (EIdent (Ident no_com no_pos name)) no_pos %"=" false a
  end.
(** warn/warn_bazel_api.go:1012-1032 [signature, signatures]: the names of the positional and of the keyword parameters *)
Record signature := Sig { sg_positional : list bytes; sg_keyword : list bytes }.
Definition signatures : list (bytes * signature) :=
  [(%"all", Sig [%"elements"] []); (%"any", Sig [%"elements"] []); (%"tuple", Sig [%"x"] []); (%"list", Sig [%"x"] []); (%"len", Sig [%"x"] []);
   (%"str", Sig [%"x"] []); (%"repr", Sig [%"x"] []); (%"bool", Sig [%"x"] []); (%"int", Sig [%"x"] []); (%"dir", Sig [%"x"] []);
   (%"type", Sig [%"x"] []); (%"hasattr", Sig [%"x"; %"name"] []); (%"getattr", Sig [%"x"; %"name"; %"default"] []); (%"select", Sig [%"x"] [])].
(** warn/warn_bazel_api.go:1034-1049 [functionName] *)
Definition functionName (x : expr) : option bytes :=
  match x with
  | EIdent i => Some (i_name i)
  | EDot _ (EIdent i) _ _ n => if beq (i_name i) %"native" then Some n else None
  | _ => None
  end.
(** warn/warn_bazel_api.go:1051-1056 *)
Definition typePositional : nat := 0.
Definition typeKeyword : nat := 1.
Definition typeArgs : nat := 2.
Definition typeKwargs : nat := 3.
(** warn/warn_bazel_api.go:1058-1079 [paramType] *)
Definition paramType (a : expr) : nat * bytes :=
  match a with
  | EAssign _ x _ op _ _ => if beq op %"=" then (typeKeyword, match x with EIdent i => i_name i | _ => [] end) else (typePositional, [])
  | EUnary _ _ op _ => if beq op %"*" then (typeArgs, []) else if beq op %"**" then (typeKwargs, []) else (typePositional, [])
  | _ => (typePositional, [])
  end.
(** warn/warn_bazel_api.go:1105-1131: the finding for argument number i, if any: the replacement, and the type of the argument after it *)
Definition kw_finding (s : signature) (i : nat) (a : expr) : option (expr * nat) :=
  let t := fst (paramType a) in
  if Nat.eqb t typeKeyword then
    match nth_error (sg_positional s) i with Some n => if beq n (snd (paramType a)) then Some (makePositional a, typePositional) else None | None => None end
  else if Nat.eqb t typePositional && Nat.leb (List.length (sg_positional s)) i then
    match nth_error (sg_keyword s) (i - List.length (sg_positional s)) with Some n => Some (makeKeyword a n, typeKeyword) | None => None end
  else None.
Fixpoint kw_args (s : signature) (i : nat) (l : list expr) : list (expr * option (expr * nat)) :=
  match l with [] => [] | a :: l => (a, kw_finding s i a) :: kw_args s (S i) l end.
Definition after_type (r : expr * option (expr * nat)) : nat := match snd r with Some (_, t) => t | None => fst (paramType (fst r)) end.
Definition after_arg (r : expr * option (expr * nat)) : expr := match snd r with Some (a, _) => a | None => fst r end.
Definition reported (r : expr * option (expr * nat)) : bool := match snd r with Some _ => true | None => false end.
(** sort.IntsAreSorted *)
Fixpoint IntsAreSorted (l : list nat) : bool := match l with a :: (b :: _) as t => Nat.leb a b && IntsAreSorted t | _ => true end.
(** What a node is looked at for *)
Definition kw_call (e : expr) : list (expr * option (expr * nat)) :=
  match e with
  | ECall _ x _ l _ _ _ => match functionName x with Some n => match lookup n signatures with Some s => kw_args s 0 l | None => [] end | None => [] end
  | _ => []
  end.
(** warn/warn_bazel_api.go:1081-1163 [keywordPositionalParametersWarning] *)
Definition keywordPositionalFindings (f : expr) : list expr := flat_map (fun e => map fst (filter reported (kw_call e))) (map fst (Walk f)).
Definition kw_fix (e : expr) : expr :=
  let r := kw_call e in
  match e with
  | ECall c x p l en k m =>
      if existsb reported r && IntsAreSorted (map after_type r)
      then ECall c x p (map after_arg r) en (k && negb (existsb (Nat.eqb typeKeyword) (map after_type r))) m else e
  | _ => e
  end.
Definition keywordPositionalFix : expr -> expr := rebuild kw_fix.
