(** The lint unnamed-macro: warn/warn_macro.go. *)
From Verif Require Import Base Ast Walk Labels Scope.

(** warn/warn_macro.go:29-40 [nativeModule], [function] *)
Definition nativeModule : bytes := %"<native>".
Record function := Fn { fn_pkg : bytes; fn_file : bytes; fn_name : bytes }.
Definition fn_eqb (f g : function) : bool := beq (fn_pkg f) (fn_pkg g) && beq (fn_file f) (fn_file g) && beq (fn_name f) (fn_name g).
(** build/utils.go:28-48 [GetParamIdent]: the operator of a parameter that has a name *)
Fixpoint param_op (p : expr) : bytes :=
  match p with EAssign _ x _ _ _ _ => param_op x | EUnary _ _ op (Some _) => op | _ => [] end.
(** warn/warn_macro.go:51-60 [acceptsNameArgument]; build/utils.go:20-26 [GetParamName] *)
Definition accepts_name (p : expr) : bool :=
  match GetParamIdent p with Some i => beq (i_name i) %"name" || beq (param_op p) %"**" | None => false end.
Definition acceptsNameArgument (params : list expr) : bool := existsb accepts_name params.
(** Maps: the newest entry comes first. *)
Definition symbols_map := list (bytes * function).
Fixpoint find_key {A} (k : bytes) (m : list (bytes * A)) : option A :=
  match m with [] => None | (k', v) :: m' => if beq k' k then Some v else find_key k m' end.
(** warn/warn_macro.go:62-67 [fileData]; the map of the calls of a function is a list of calls (calls with one name are of one
    function, see [order] for the repetitions).  The line of a call is left out. *)
Record fileData := FileData { fd_rules : list bytes; fd_functions : list (bytes * list (bytes * function)); fd_aliases : symbols_map }.
Definition no_data : fileData := FileData [] [] [].
(** warn/warn_macro.go:71-76 [resolveExternal] *)
Definition resolveExternal (fn : function) (ext : symbols_map) : function := match find_key (fn_name fn) ext with Some f => f | None => fn end.
(** warn/warn_macro.go:85-117 [getFunCalls] *)
Definition fun_call (pkg file : bytes) (ext : symbols_map) (e : expr) : list (bytes * function) :=
  match e with
  | ECall _ (EIdent i) _ _ _ _ _ => [(i_name i, resolveExternal (Fn pkg file (i_name i)) ext)]
  | ECall _ (EDot _ (EIdent i) _ _ n) _ _ _ _ _ => if beq (i_name i) %"native" then [((%"native." ++ n)%list, Fn [] nativeModule n)] else []
  | _ => []
  end.
Definition getFunCalls (def : expr) (pkg file : bytes) (ext : symbols_map) : list (bytes * function) :=
  flat_map (fun v => fun_call pkg file ext (fst v)) (Walk def).
(** warn/warn_macro.go:120-176 [analyzeFile]: the loaded symbols, *)
Fixpoint zip_symbols (l : label) (fr to : list ident) (ext : symbols_map) : symbols_map :=
  match fr, to with
  | a :: fr', b :: to' => zip_symbols l fr' to' ((i_name b, Fn (package l) (target l) (i_name a)) :: ext)
  | _, _ => ext
  end.
Definition load_symbols (pkg : bytes) (ext : symbols_map) (s : option expr) : symbols_map :=
  match s with
  | Some (ELoad _ _ m fr to _ _) =>
      let l := parse_relative (s_value m) pkg in
      if negb (is_empty (repository l)) || is_empty (target l) then ext else zip_symbols l fr to ext
  | _ => ext
  end.
(** and what the statements define. *)
Definition analyze_stmt (pkg file : bytes) (ext : symbols_map) (d : fileData) (s : option expr) : fileData :=
  match s with
  | Some (EAssign _ (EIdent x) _ _ _ (EIdent y)) =>
      FileData (fd_rules d) (fd_functions d) ((i_name x, resolveExternal (Fn pkg file (i_name y)) ext) :: fd_aliases d)
  | Some (EAssign _ (EIdent x) _ _ _ (ECall _ (EIdent i) _ _ _ _ _)) =>
      if beq (i_name i) %"rule" then FileData (i_name x :: fd_rules d) (fd_functions d) (fd_aliases d) else d
  | Some (EDef _ _ _ _ name _ _ _ _ as def) =>
      FileData (fd_rules d) ((name, getFunCalls def pkg file ext) :: fd_functions d) (fd_aliases d)
  | _ => d
  end.
Definition analyzeFile (pkg file : bytes) (stmts : list (option expr)) : fileData :=
  fold_left (analyze_stmt pkg file (fold_left (load_symbols pkg) stmts [])) stmts no_data.

(** warn/warn_macro.go:179-182 [functionReport]: is it a macro, and the name of the call that makes it one *)
Definition report := (bool * option bytes)%type.
Definition cache := list (function * report).
Fixpoint cached (fn : function) (st : cache) : option report :=
  match st with [] => None | (g, r) :: st' => if fn_eqb g fn then Some r else cached fn st' end.
(** warn/warn_macro.go:225-229 *)
Definition not_rules : list bytes := [%"glob"; %"existing_rule"; %"existing_rules"; %"package_name"; %"repository_name"; %"exports_files"].
Section Analyzer.
  (** warn/warn_macro.go:194-207 [getFileData]: the data of a file; analyzed once, the map of the files only remembers it.  (In Go
      the keys of the maps are texts: two labels that are spelled alike, or that are the same path, share one entry.) *)
  Variable data : bytes -> bytes -> fileData.
  (** The order in which the calls of a function are looked at: Go's iteration over a map, each name once, then those in known
      files first. *)
  Variable order : cache -> function -> list (bytes * function) -> list (bytes * function).
  (** warn/warn_macro.go:268-274: the loop over the calls *)
  Section Loop.
    Variable is_macro : cache -> function -> option (cache * report).
    Fixpoint try_calls (st : cache) (calls : list (bytes * function)) : option (cache * report) :=
      match calls with
      | [] => Some (st, (false, None))
      | (alias, g) :: calls' =>
          match is_macro st g with
          | None => None
          | Some (st', (true, _)) => Some (st', (true, Some alias))
          | Some (st', (false, _)) => try_calls st' calls'
          end
      end.
  End Loop.
  (** warn/warn_macro.go:211-278 [IsMacro]; None: the fuel is used up.  The cache gets a negative entry before the analysis and
      the result after it. *)
  Fixpoint IsMacro (fuel : nat) (st : cache) (fn : function) : option (cache * report) :=
    match cached fn st with
    | Some r => Some (st, r)
    | None =>
        match fuel with
        | 0 => None
        | S n =>
            let st1 := (fn, (false, None)) :: st in
            let result :=
              if beq (fn_file fn) nativeModule then Some (st1, (negb (mem_bytes (fn_name fn) not_rules), None))
              else
                let d := data (fn_pkg fn) (fn_file fn) in
                match find_key (fn_name fn) (fd_aliases d) with
                | Some alias => match IsMacro n st1 alias with Some (st2, (b, _)) => Some (st2, (b, None)) | None => None end
                | None =>
                    if mem_bytes (fn_name fn) (fd_rules d) then Some (st1, (true, None))
                    else
                      match find_key (fn_name fn) (fd_functions d) with
                      | None => Some (st1, (false, None))
                      | Some calls => try_calls (IsMacro n) st1 (order st1 fn calls)
                      end
                end in
            match result with Some (st2, r) => Some ((fn, r) :: st2, r) | None => None end
        end
    end.
  (** warn/warn_macro.go:289-332 [unnamedMacroWarning]: the functions that are reported and the calls that the messages name *)
  Fixpoint warn_loop (fuel : nat) (pkg file : bytes) (st : cache) (stmts : list (option expr)) : option (list (expr * option bytes)) :=
    match stmts with
    | [] => Some []
    | Some (EDef _ _ params _ name _ _ _ _ as def) :: stmts' =>
        if has_prefix %"_" name || acceptsNameArgument params then warn_loop fuel pkg file st stmts'
        else
          match IsMacro fuel st (Fn pkg file name) with
          | None => None
          | Some (st', (b, fc)) =>
              match warn_loop fuel pkg file st' stmts' with
              | None => None
              | Some l => Some (if b then (def, fc) :: l else l)
              end
          end
    | _ :: stmts' => warn_loop fuel pkg file st stmts'
    end.
End Analyzer.
(** A file of the repository: warn/multifile.go:63-77 [GetFile]; None: not found or not valid. *)
Definition reader := bytes -> bytes -> option (list (option expr)).
Definition file_data (get : reader) (pkg file : bytes) (stmts : list (option expr)) (p f : bytes) : fileData :=
  if beq p pkg && beq f file then analyzeFile pkg file stmts
  else match get p f with Some l => analyzeFile p f l | None => no_data end.
Definition unnamedMacroWarning (order : cache -> function -> list (bytes * function) -> list (bytes * function)) (fuel : nat) (get : reader)
  (ty : ftype) (pkg file : bytes) (stmts : list (option expr)) : option (list (expr * option bytes)) :=
  match ty with
  | TypeBzl => warn_loop (file_data get pkg file stmts) order fuel pkg file [] stmts
  | _ => Some []
  end.
