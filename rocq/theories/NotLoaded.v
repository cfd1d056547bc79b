(** Uses of functions and symbols that have to be loaded: warn/warn_bazel_api.go:138-322 (behind the lints native-cc, native-java, native-proto, ...), with the
    environment of bzlenv/bzlenv.go.
    Simplifications: the module to load from is a parameter (warn/warn_bazel_api.go:182-204 [useApparentRepoNameIfExternal] is applied to it before). *)
From Verif Require Import Base Ast Walk Scope EditFile.

(** bzlenv/bzlenv.go:166-189 [declareLocalVariables]: the names, for one statement *)
Fixpoint declareLocalVariables (s : expr) : list bytes :=
  match s with
  | EAssign _ x _ _ _ _ => lvalue_names x
  | EIf _ _ _ t _ e => flat_map declareLocalVariables t ++ flat_map declareLocalVariables e
  | EFor _ _ v _ b => lvalue_names v ++ flat_map declareLocalVariables b
  | _ => []
  end.
(** bzlenv/bzlenv.go:119-138 [declareGlobals]: the names, for one statement *)
Definition declareGlobals (s : option expr) : list bytes :=
  match s with
  | Some (ELoad _ _ _ _ to _ _) => map i_name to
  | Some (EAssign _ x _ _ _ _) => lvalue_names x
  | Some (EDef _ _ _ _ n _ _ _ _) => [n]
  | _ => []
  end.
(** bzlenv/bzlenv.go:190-220 [WalkOnceWithEnvironment]: the names in the block that a node opens for its children *)
Definition declared (e : expr) : list bytes :=
  match e with
  | EFile _ _ l => flat_map declareGlobals l
  | EDef _ _ ps b _ _ _ _ _ => param_names ps ++ flat_map declareLocalVariables b
  | EComp _ _ _ _ cl _ _ => flat_map (fun k => match k with EForC _ _ v _ _ => lvalue_names v | _ => [] end) cl
  | _ => []
  end.
(** bzlenv/bzlenv.go:104-111 [Get] (is there a binding?): the blocks are those of the nodes above *)
Definition bound_in (stk : list expr) (name : bytes) : bool := existsb (fun a => mem_bytes name (declared a)) stk.

(** warn/warn_bazel_api.go:206-250 [notLoadedFunctionUsageCheckInternal] *)
Definition native_call (functions : list bytes) (e : expr) : option bytes :=
  match e with
  | ECall _ (EDot _ (EIdent i) _ _ n) _ _ _ _ _ => if beq (i_name i) %"native" && mem_bytes n functions then Some n else None
  | _ => None
  end.
Definition plain_call (functions : list bytes) (stk : list expr) (e : expr) : option bytes :=
  match e with
  | ECall _ (EIdent i) _ _ _ _ _ => if negb (bound_in stk (i_name i)) && mem_bytes (i_name i) functions then Some (i_name i) else None
  | _ => None
  end.
(** warn/warn_bazel_api.go:252-274 [notLoadedSymbolUsageCheckInternal] *)
Definition symbol_use (symbols : list bytes) (stk : list expr) (e : expr) : option bytes :=
  match e with
  | EIdent i => if negb (bound_in stk (i_name i)) && mem_bytes (i_name i) symbols then Some (i_name i) else None
  | _ => None
  end.
(** warn/warn_bazel_api.go:282-297: what is found in a node (as a node is not both a call and an identifier, there is at most one name) *)
Definition use_found (functions symbols : list bytes) (x : expr * list expr) : list (expr * bytes) :=
  let (e, stk) := x in
  map (pair e) (opt_list id (native_call functions e) ++ opt_list id (plain_call functions stk e) ++ opt_list id (symbol_use symbols stk e)).
Definition notLoadedFindings (functions symbols : list bytes) (f : expr) : list (expr * bytes) := flat_map (use_found functions symbols) (Walk f).
(** warn/warn_bazel_api.go:301-312: the names, sorted *)
Definition bytes_dec (a b : bytes) : {a = b} + {a <> b} := list_eq_dec ascii_dec a b.
Definition toLoad (found : list (expr * bytes)) : list bytes := isort blt (nodup bytes_dec (map snd found)).

(** warn/warn_bazel_api.go:140-175 [insertLoad]: the place of a new load *)
Definition load_place_skips (s : option expr) : bool := match s with Some (ECommentBlock _ _) | Some (EStr _) => true | _ => false end.
Definition load_place (l : list (option expr)) : nat :=
  match find_index (fun s => negb (load_place_skips s)) l with Some i => i | None => List.length l - 1 end.
(** warn/warn_bazel_api.go:225-229: native.name(...) becomes name(...).  [lost]: insertLoad has given the file a new list of statements; the replacement of a
    node that is itself a statement of the file then changes the old list only. *)
Definition native_fix (functions : list bytes) (lost : bool) (stk : list expr) (e : expr) : expr :=
  match e, native_call functions e with
  | ECall c _ p l en k m, Some n => if lost && Nat.eqb (List.length stk) 1 then e else ECall c (EIdent (new_ident n)) p l en k m
  | _, _ => e
  end.
(** warn/warn_bazel_api.go:278-322 [notLoadedUsageCheck] with all replacements made; [ord]: the order of the symbols in Go's map, for [AppendToLoad] *)
Definition notLoadedFix (ord : gomap -> gomap) (functions symbols : list bytes) (module : bytes) (f : expr) : expr :=
  match f, toLoad (notLoadedFindings functions symbols f) with
  | EFile _ _ _, [] => f
  | EFile _ _ l, names =>
      let place := find_index (loads_from module) l in
      match Edit (native_fix functions (match place with None => true | Some _ => false end)) f with
      | EFile c m l' =>
          EFile c m
            match place with
            | Some i => firstn i l' ++ match skipn i l' with Some s :: r => Some (snd (AppendToLoad ord s names names)) :: r | r => r end
            | None => firstn (load_place l) l' ++ NewLoad module names names :: skipn (load_place l) l'
            end
      | f' => f'
      end
  | _, _ => f
  end.
