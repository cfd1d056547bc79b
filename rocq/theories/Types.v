(** Types of expressions, and the lints that need them: warn/types.go, warn/warn_operation.go, warn/warn_bazel_operation.go, warn/warn_bazel_api.go, warn/warn_control_flow.go.
    Simplifications: an expression is given by its place in the file (in Go by its address), and a variable by the place of the node that opens its block and its
    name (in Go by a number that is new for every declaration; all names of a block are declared before what is in the block is visited, and the last declaration of a
    name in a block counts). *)
From Verif Require Import Base Ast Walk Scope CallLints NotLoaded AttrParams ApiLints.
Local Open Scope list_scope.

Definition place := list nat.
Definition place_dec (p q : place) : {p = q} + {p <> q} := list_eq_dec PeanoNat.Nat.eq_dec p q.
(** warn/types.go:30-43; [None] is Unknown *)
Inductive type := TBool | TCtx | TCtxActions | TCtxActionsArgs | TDepset | TDict | TInt | TNone | TString | TList | TFloat.
Definition type_dec (a b : type) : {a = b} + {a <> b}. Proof. decide equality. Defined.
Definition is_type (o : option type) (t : type) : bool := match o with Some u => if type_dec u t then true else false | None => false end.

(** warn/types.go:62 [intRegexp] *)
Definition in_range (lo hi : ascii) (c : ascii) : bool := ((bN lo <=? bN c) && (bN c <=? bN hi))%N.
Definition is_digit_ (c : ascii) : bool := in_range "0"%char "9"%char c.
Definition is_hex (c : ascii) : bool := is_digit_ c || in_range "A"%char "F"%char c || in_range "a"%char "f"%char c.
Definition is_octal (c : ascii) : bool := in_range "0"%char "7"%char c.
Definition all_of (p : ascii -> bool) (s : bytes) : bool := match s with [] => false | _ => forallb p s end.
Definition int_token (tok : bytes) : bool :=
  all_of is_digit_ tok ||
  ((has_prefix %"0x" tok || has_prefix %"0X" tok) && all_of is_hex (skipn 2 tok)) ||
  ((has_prefix %"0o" tok || has_prefix %"0O" tok) && all_of is_octal (skipn 2 tok)).

Fixpoint number_from {A} (n : nat) (l : list A) : list (nat * A) := match l with [] => [] | a :: l' => (n, a) :: number_from (S n) l' end.
(** warn/types.go:199-220 [walkOnce]: what is visited below a node: the way to it, the nodes from here on down to it, and the node itself *)
Definition visits (e : expr) : list (place * list expr * expr) :=
  map (fun ic => match e, ic with
    | ECall _ _ _ _ _ _ _, (S i, EAssign c x p op b v) => ([S i; 1], [e; EAssign c x p op b v], v)
    | _, (i, c) => ([i], [e], c) end) (number_from 0 (children e)).
(** warn/types.go:72-75: every visited node after those below it, with its place and the nodes above it *)
Fixpoint post_from (n : nat) (p : place) (stk : list expr) (e : expr) : list (place * list expr * expr) :=
  match n with
  | 0 => []
  | S n => flat_map (fun v => match v with (r, a, c) => post_from n (p ++ r) (stk ++ a) c end) (visits e) ++ [(p, stk, e)]
  end.
Definition post (f : expr) : list (place * list expr * expr) := post_from (height f) [] [] f.

(** bzlenv/bzlenv.go:104-111 [Get]: the block of a name is that of the innermost node above with the name; given by its depth *)
Fixpoint block_depth (stk : list expr) (name : bytes) : option nat :=
  match stk with
  | [] => None
  | a :: stk' => match block_depth stk' name with Some d => Some (S d) | None => if mem_bytes name (declared a) then Some 0 else None end
  end.
Definition variable (p : place) (stk : list expr) (name : bytes) : option (place * bytes) := option_map (fun d => (firstn d p, name)) (block_depth stk name).
(** warn/types.go:136-141: is the name a parameter there?  (bzlenv/bzlenv.go:159-189: a local variable of the same function replaces it) *)
Definition is_parameter (stk : list expr) (name : bytes) : bool :=
  match block_depth stk name with
  | Some d => match nth_error stk d with
      | Some (EDef _ _ ps b _ _ _ _ _) => mem_bytes name (param_names ps) && negb (mem_bytes name (flat_map declareLocalVariables b))
      | _ => false end
  | None => false
  end.
Definition results := list (place * type).
Definition result (R : results) (p : place) : option type := option_map snd (find (fun r => if place_dec (fst r) p then true else false) R).
Definition variables := list ((place * bytes) * type).
Definition var_is (x y : place * bytes) : bool := (if place_dec (fst x) (fst y) then true else false) && beq (snd x) (snd y).
Definition value_of (V : variables) (x : place * bytes) : option type := option_map snd (find (fun r => var_is (fst r) x) V).
(** warn/types.go:105-120 *)
Definition constructor_types : list (bytes * type) :=
  [(%"bool", TBool); (%"int", TInt); (%"float", TFloat); (%"str", TString); (%"depset", TDepset); (%"dict", TDict); (%"list", TList)].
Definition comparisons : list bytes := [%">"; %">="; %"<"; %"<="; %"=="; %"!="; %"in"; %"not in"].
Definition same_type_operators : list bytes := [%"+"; %"-"; %"*"; %"/"; %"//"; %"%"; %"|"].
(** warn/types.go:84-172: the type of a node *)
Definition node_type (R : results) (V : variables) (p : place) (stk : list expr) (e : expr) : option type :=
  match e with
  | EStr _ => Some TString
  | EDict _ _ _ _ _ => Some TDict
  | EList _ _ _ _ _ => Some TList
  | ELit _ _ tok => Some (if int_token tok then TInt else TFloat)
  | EComp _ curly _ _ _ _ _ => Some (if curly then TDict else TList)
  | ECall _ (EIdent i) _ _ _ _ _ => lookup (i_name i) constructor_types
  | ECall _ (EDot _ _ _ _ n) _ _ _ _ _ => if is_type (result R (p ++ [0; 0])) TCtxActions && beq n %"args" then Some TCtxActionsArgs else None
  | EParen _ _ _ _ _ => result R (p ++ [0])
  | EIdent i =>
      if beq (i_name i) %"True" || beq (i_name i) %"False" then Some TBool
      else if beq (i_name i) %"None" then Some TNone
      else if beq (i_name i) %"ctx" && is_parameter stk (i_name i) then Some TCtx
      else match variable p stk (i_name i) with Some x => value_of V x | None => None end
  | EDot _ _ _ _ n => if is_type (result R (p ++ [0])) TCtx && beq n %"actions" then Some TCtxActions else None
  | EBinary _ _ _ op _ _ =>
      if mem_bytes op comparisons then Some TBool
      else if mem_bytes op same_type_operators then
        match result R (p ++ [0]) with
        | Some t => Some t
        | None => match result R (p ++ [1]) with Some t => if negb (beq op %"%") || is_type (Some t) TString then Some t else None | None => None end
        end
      else None
  | _ => None
  end.
(** warn/types.go:173-190: the variable that an assignment gives a type *)
Definition assigns_type (R : results) (p : place) (stk : list expr) (e : expr) : option ((place * bytes) * type) :=
  match e with
  | EAssign _ (EIdent i) _ op _ _ =>
      match result R (p ++ [1]) with
      | Some t => if beq op %"%=" && negb (is_type (Some t) TString) then None else option_map (fun x => (x, t)) (variable p stk (i_name i))
      | None => None
      end
  | _ => None
  end.
Definition type_step (s : results * variables) (v : place * list expr * expr) : results * variables :=
  match v with
  | (p, stk, e) =>
      (match node_type (fst s) (snd s) p stk e with Some t => (p, t) :: fst s | None => fst s end,
       match assigns_type (fst s) p stk e with Some a => a :: snd s | None => snd s end)
  end.
(** warn/types.go:64-197 [DetectTypes] *)
Definition DetectTypes (f : expr) : results := fst (fold_left type_step (post f) ([], [])).

(** every node with its place, in the order of the walk (build/walk.go:33-39) *)
Fixpoint places_from (n : nat) (p : place) (e : expr) : list (place * expr) :=
  match n with 0 => [] | S n => (p, e) :: flat_map (fun ic => places_from n (p ++ [fst ic]) (snd ic)) (number_from 0 (children e)) end.
Definition typed_walk {R} (g : (place -> option type) -> place -> expr -> list R) (f : expr) : list R :=
  flat_map (fun v => g (result (DetectTypes f)) (fst v) (snd v)) (places_from (height f) [] f).
Definition is_one (ty : place -> option type) (t : type) (p : place) : bool := is_type (ty p) t.

(** warn/warn_operation.go:25-53 [dictionaryConcatenationWarning] *)
Definition dict_node (ty : place -> option type) (p : place) (e : expr) : list expr :=
  match e with
  | EBinary _ _ _ op _ _ => if beq op %"+" && (is_one ty TDict (p ++ [0]) || is_one ty TDict (p ++ [1])) then [e] else []
  | EAssign _ _ _ op _ _ => if beq op %"+=" && (is_one ty TDict (p ++ [0]) || is_one ty TDict (p ++ [1])) then [e] else []
  | _ => []
  end.
Definition dictionaryConcatenationWarning : expr -> list expr := typed_walk dict_node.
(** warn/warn_operation.go:55-95 [dictMethodNamedArgWarning] *)
Definition is_default (e : expr) : bool := match e with EAssign _ (EIdent i) _ _ _ _ => beq (i_name i) %"default" | _ => false end.
Definition dict_method_node (ty : place -> option type) (p : place) (e : expr) : list expr :=
  match e with
  | ECall _ (EDot _ _ _ _ n) _ l _ _ _ => if is_one ty TDict (p ++ [0; 0]) && mem_bytes n [%"pop"; %"get"; %"setdefault"] then filter is_default l else []
  | _ => []
  end.
Definition dictMethodNamedArgWarning : expr -> list expr := typed_walk dict_method_node.
(** The arguments of a call of one of these functions that have the type: of some functions all arguments, of the others the only one. *)
Definition typed_args (ty : place -> option type) (t : type) (only all : list bytes) (p : place) (e : expr) : list expr :=
  match e with
  | ECall _ (EIdent i) _ l _ _ _ =>
      if mem_bytes (i_name i) only then match l with [a] => if is_one ty t (p ++ [1]) then [a] else [] | _ => [] end
      else if mem_bytes (i_name i) all then flat_map (fun ia => if is_one ty t (p ++ [fst ia]) then [snd ia] else []) (number_from 1 l)
      else []
  | _ => []
  end.
(** warn/warn_operation.go:97-139 [stringIterationWarning] *)
Definition string_iteration_node (ty : place -> option type) (p : place) (e : expr) : list expr :=
  match e with
  | EFor _ _ _ x _ | EForC _ _ _ _ x => if is_one ty TString (p ++ [1]) then [x] else []
  | _ => typed_args ty TString [%"all"; %"any"; %"reversed"; %"max"; %"min"] [%"zip"] p e
  end.
Definition stringIterationWarning : expr -> list expr := typed_walk string_iteration_node.
(** warn/warn_operation.go:141-174 [integerDivisionWarning] *)
Definition division_node (ty : place -> option type) (p : place) (e : expr) : list expr :=
  match e with
  | EBinary _ _ _ op _ _ => if beq op %"/" && (is_one ty TInt (p ++ [0]) && is_one ty TInt (p ++ [1])) then [e] else []
  | EAssign _ _ _ op _ _ => if beq op %"/=" && (is_one ty TInt (p ++ [0]) && is_one ty TInt (p ++ [1])) then [e] else []
  | _ => []
  end.
Definition integerDivisionWarning : expr -> list expr := typed_walk division_node.
(** warn/warn_bazel_operation.go:27-74 [depsetUnionWarning] *)
Definition union_node (ty : place -> option type) (p : place) (e : expr) : list expr :=
  match e with
  | EBinary _ _ _ op _ _ => if (is_one ty TDepset (p ++ [0]) || is_one ty TDepset (p ++ [1])) && mem_bytes op [%"+"; %"|"] then [e] else []
  | EAssign _ _ _ op _ _ => if (is_one ty TDepset (p ++ [0]) || is_one ty TDepset (p ++ [1])) && mem_bytes op [%"+="; %"|="] then [e] else []
  | ECall _ (EDot _ _ _ _ n) _ (_ :: _) _ _ _ => if beq n %"union" && (is_one ty TDepset (p ++ [0; 0]) || is_one ty TDepset (p ++ [1])) then [e] else []
  | _ => []
  end.
Definition depsetUnionWarning : expr -> list expr := typed_walk union_node.
(** warn/warn_bazel_operation.go:76-143 [depsetIterationWarning]: the depsets *)
Definition depset_iteration_node (ty : place -> option type) (p : place) (e : expr) : list expr :=
  match e with
  | EFor _ _ _ x _ | EForC _ _ _ _ x => if is_one ty TDepset (p ++ [1]) then [x] else []
  | EBinary _ _ _ op _ y => if mem_bytes op [%"in"; %"not in"] && is_one ty TDepset (p ++ [1]) then [y] else []
  | _ => typed_args ty TDepset [%"all"; %"any"; %"depset"; %"len"; %"sorted"; %"max"; %"min"; %"list"; %"tuple"] [%"zip"] p e
  end.
Definition depsetIterationWarning : expr -> list expr := typed_walk depset_iteration_node.
(** warn/warn_bazel_api.go:424-456 [depsetItemsWarning]: the arguments *)
Definition depset_items_node (ty : place -> option type) (p : place) (e : expr) : list expr :=
  match isFunctionCall e %"depset" with
  | Some (a :: l) =>
      match getParam (a :: l) %"items" with
      | Some (i, _) => match nth_error (a :: l) i with Some x => [x] | None => [] end
      | None => if negb (is_keyword_arg a) && is_one ty TDepset (p ++ [1]) then [a] else []
      end
  | _ => []
  end.
Definition depsetItemsWarning : expr -> list expr := typed_walk depset_items_node.
(** warn/warn_bazel_api.go:834-902 [contextArgsAPIWarning]: the calls, and the new names of the method *)
Definition args_api_node (ty : place -> option type) (p : place) (e : expr) : list (expr * bytes) :=
  match e with
  | ECall _ (EDot _ _ _ _ n) _ l _ _ _ =>
      if beq n %"add" && is_one ty TCtxActionsArgs (p ++ [0; 0]) then
        match getParam l %"join_with", getParam l %"before_each", getParam l %"map_fn" with
        | Some _, _, _ => [(e, %"add_joined")]
        | None, None, None => []
        | None, _, _ => [(e, %"add_all")]
        end
      else []
  | _ => []
  end.
Definition contextArgsAPIWarning (f : expr) : list (expr * bytes) := in_bzl_file (typed_walk args_api_node f) f.
(** warn/warn_control_flow.go:561-583: [defined] are the names seen *)
Fixpoint redefined_loop (ty : place -> option type) (defined : list bytes) (l : list (nat * expr)) : list ident :=
  match l with
  | [] => []
  | (k, EAssign _ (EIdent i) _ op _ _) :: l' =>
      if negb (mem_bytes (i_name i) defined) then redefined_loop ty (i_name i :: defined) l'
      else if beq op %"+=" && (is_one ty TList [k; 0] || is_one ty TList [k; 1]) then redefined_loop ty defined l'
      else i :: redefined_loop ty defined l'
  | _ :: l' => redefined_loop ty defined l'
  end.
(** warn/warn_control_flow.go:556-585 [redefinedVariableWarning] *)
Definition redefinedVariableWarning (f : expr) : list ident := redefined_loop (result (DetectTypes f)) [] (number_from 0 (children f)).
