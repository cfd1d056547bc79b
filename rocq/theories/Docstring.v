(** warn/warn_docstring.go: the lints about docstrings. *)
From Verif Require Import Base Ast Walk.
Local Open Scope list_scope.

(** warn/warn_docstring.go:33-48 [getDocstring]: the first statement that is not a comment, and if it is a string *)
Fixpoint getDocstring (stmts : list (option expr)) : option expr * bool :=
  match stmts with
  | [] => (None, false)
  | None :: l => getDocstring l
  | Some (ECommentBlock _ _) :: l => getDocstring l
  | Some (EStr s) :: _ => (Some (EStr s), true)
  | Some e :: _ => (Some e, false)
  end.
Definition docstring_of (body : list expr) : option strlit := match getDocstring (map Some body) with (Some (EStr s), true) => Some s | _ => None end.
(** warn/warn_docstring.go:50-67 [moduleDocstringWarning]: the start of the finding (its end is the next column) *)
Definition moduleDocstringWarning (f : expr) : option pos :=
  match f with
  | EFile _ (FMeta _ _ _ t) stmts =>
      match t with
      | TypeDefault | TypeBzl => match getDocstring stmts with (Some e, false) => Some (start_pos e) | _ => None end
      | _ => None
      end
  | _ => None
  end.
(** warn/warn_docstring.go:69-83 [stmtsCount] *)
Fixpoint stmt_count (s : expr) : nat :=
  S match s with
    | EIf _ _ _ t _ f => fold_right (fun x n => stmt_count x + n) 0 t + fold_right (fun x n => stmt_count x + n) 0 f
    | EFor _ _ _ _ b => fold_right (fun x n => stmt_count x + n) 0 b
    | _ => 0
    end.
Definition stmtsCount (l : list expr) : nat := fold_right (fun x n => stmt_count x + n) 0 l.

(** warn/warn_docstring.go:94-104 [countLeadingSpaces] *)
Fixpoint countLeadingSpaces (s : bytes) : nat := match s with c :: s' => if ceq c c_sp then S (countLeadingSpaces s') else 0 | [] => 0 end.
(** warn/warn_docstring.go:106 [argRegex]: the classes of characters *)
Definition is_word (c : ascii) : bool := (((48 <=? bN c) && (bN c <=? 57)) || ((65 <=? bN c) && (bN c <=? 90)) || (bN c =? 95) || ((97 <=? bN c) && (bN c <=? 122)))%N.
Definition is_type_char (c : ascii) : bool := is_word c || existsb (ceq c) [" "; ","; "<"; ">"; "["; "]"]%char.
Fixpoint span_of (p : ascii -> bool) (s : bytes) : bytes * bytes :=
  match s with c :: s' => if p c then let (a, b) := span_of p s' in (c :: a, b) else ([], s) | [] => ([], []) end.
Definition star_opt (s : bytes) : bytes * bytes := match s with c :: s' => if ceq c "*"%char then ([c], s') else ([], s) | [] => ([], []) end.
(** ... the optional part with the colon behind it *)
Definition type_and_colon (s : bytes) : bool :=
  match s with
  | ":"%char :: _ => true
  | _ => match trim_left (ceq c_sp) s with
         | "("%char :: s1 => match span_of is_type_char s1 with (_ :: _, ")"%char :: ":"%char :: _) => true | _ => false end
         | _ => false
         end
  end.
(** ... the first submatch.  (No choice of the matcher is ever revised: each class excludes what can follow it.) *)
Definition argRegex (line : bytes) : option bytes :=
  let s := trim_left (ceq c_sp) line in
  let (a, s1) := star_opt s in
  let (b, s2) := star_opt s1 in
  let (w, s3) := span_of is_word s2 in
  if type_and_colon s3 then Some (a ++ b ++ w) else None.

(** warn/warn_docstring.go:85-92 [docstringInfo].  Lines are numbers of lines of the docstring; the start of the docstring is added
    when a finding is made.  [i_columns]: the columns (LineRune) of the described arguments. *)
Record info := Info { i_header : bool; i_args : list (bytes * (nat * Z)); i_returns : bool; i_deprecated : bool; i_arguments : option nat }.
Fixpoint put {A} (k : bytes) (v : A) (l : list (bytes * A)) : list (bytes * A) :=
  match l with [] => [(k, v)] | (k', v') :: l' => if beq k k' then (k, v) :: l' else (k', v') :: put k v l' end.
(** warn/warn_docstring.go:111-130: the lines *)
Definition doc_lines (v : bytes) : list bytes := map (fun l => trim_right (ceq c_sp) (trim_right (ceq c_cr) l)) (split c_nl v).
(** warn/warn_docstring.go:131-140: the header *)
Fixpoint hasHeader (lines : list bytes) : bool :=
  match lines with
  | [] => false
  | [] :: l => hasHeader l
  | _ :: [] => true
  | _ :: next :: _ => beq next []
  end.
(** warn/warn_docstring.go:142-186: the loop; [on]: in a description of arguments, [ind]: argIndentation *)
Record scan := Scan { on : bool; ind : Z; so_far : info }.
Definition doc_step (indent : nat) (st : scan) (i : nat) (line : bytes) : scan :=
  let prefix := repeat c_sp indent in
  let f := so_far st in
  if beq line (prefix ++ %"Arguments:") then Scan true (ind st) (Info (i_header f) (i_args f) (i_returns f) (i_deprecated f) (Some i))
  else if beq line (prefix ++ %"Args:") then Scan true (ind st) f
  else if beq line (prefix ++ %"Returns:") then Scan false (ind st) (Info (i_header f) (i_args f) true (i_deprecated f) (i_arguments f))
  else if beq line (prefix ++ %"Deprecated:") then Scan false (ind st) (Info (i_header f) (i_args f) (i_returns f) true (i_arguments f))
  else if on st then
    let n := countLeadingSpaces line in
    if negb (beq line []) && (n <=? indent)%nat then Scan false (ind st) f
    else if (Z.of_nat n >? ind st)%Z then st
    else match argRegex line with
         | Some name => Scan true (Z.of_nat n) (Info (i_header f) (put name (i, (Z.of_nat indent + Z.of_nat n)%Z) (i_args f)) (i_returns f) (i_deprecated f) (i_arguments f))
         | None => st
         end
  else st.
Fixpoint doc_loop (indent : nat) (st : scan) (i : nat) (lines : list bytes) : scan :=
  match lines with [] => st | l :: lines' => doc_loop indent (doc_step indent st i l) (S i) lines' end.
(** warn/warn_docstring.go:110-189 [parseFunctionDocstring]; None: strings.Repeat panics *)
Definition parse_doc (indent : nat) (v : bytes) : info :=
  let lines := doc_lines v in
  so_far (doc_loop indent (Scan false 1000000 (Info (hasHeader lines) [] false false None)) 0 lines).
Definition parseFunctionDocstring (doc : strlit) : option info :=
  if (p_rune (s_start doc) <? 1)%Z then None else Some (parse_doc (Z.to_nat (p_rune (s_start doc) - 1)) (s_value doc)).

(** warn/warn_docstring.go:191-206 [hasReturnValues] *)
Definition is_def (e : expr) : bool := match e with EDef _ _ _ _ _ _ _ _ _ => true | _ => false end.
Definition hasReturnValues (def : expr) : bool :=
  existsb (fun v => match fst v with EReturn _ _ (Some _) => true | _ => false end) (visit_stmts (fun e stk => is_def e && negb (match stk with [] => true | _ => false end)) [] def).
(** warn/warn_docstring.go:210-216 [isDocstringRequired]; warn/warn_docstring.go:29 [FunctionLengthDocstringThreshold] *)
Definition isDocstringRequired (start : pos) (name : bytes) (body : list expr) : bool :=
  if (p_rune start >? 1)%Z then false else negb (has_prefix %"_" name) && (5 <=? stmtsCount body)%nat.
(** warn/warn_docstring.go:218-243 [functionDocstringWarning]: the functions *)
Definition functionDocstringWarning (f : expr) : list expr :=
  match f with
  | EFile _ _ stmts => flat_map (fun s => match s with
      | Some (EDef c p ps b n q k m t as e) => if isDocstringRequired (start_pos e) n b then match docstring_of b with Some _ => [] | None => [e] end else []
      | _ => [] end) stmts
  | _ => []
  end.
(** The functions of a file with their docstrings, in the order of the walk (warn/warn_docstring.go:248-257, 273-282, 379-388) *)
Record function := Function { f_start : pos; f_name : bytes; f_params : list expr; f_body : list expr; f_def : expr }.
Definition function_of (e : expr) : option function := match e with EDef c p ps b n q k m t => Some (Function (start_pos e) n ps b e) | _ => None end.
Definition functions_in (f : expr) : list function := flat_map (fun v => match function_of (fst v) with Some d => [d] | None => [] end) (visit_stmts (fun _ _ => false) [] f).
Fixpoint all_some {A B} (g : A -> option (list B)) (l : list A) : option (list B) :=
  match l with [] => Some [] | x :: l' => match g x, all_some g l' with Some a, Some b => Some (a ++ b) | _, _ => None end end.
Definition each_docstring {R} (g : function -> strlit -> info -> list R) (f : expr) : option (list R) :=
  all_some (fun d => match docstring_of (f_body d) with Some s => option_map (g d s) (parseFunctionDocstring s) | None => Some [] end) (functions_in f).
(** warn/warn_docstring.go:245-268 [functionDocstringHeaderWarning]; None: a panic, as in the next two *)
Definition functionDocstringHeaderWarning (f : expr) : option (list (bytes * strlit)) := each_docstring (fun d s i => if i_header i then [] else [(f_name d, s)]) f.
(** warn/warn_docstring.go:376-400 [functionDocstringReturnWarning] *)
Definition functionDocstringReturnWarning (f : expr) : option (list (bytes * strlit)) :=
  each_docstring (fun d s i => if isDocstringRequired (f_start d) (f_name d) (f_body d) && hasReturnValues (f_def d) && negb (i_returns i) then [(f_name d, s)] else []) f.

(** build/utils.go:20-48 [GetParamName], [GetParamIdent]: the name and the operator *)
Fixpoint GetParam (e : expr) : option (ident * bytes) :=
  match e with
  | EIdent i => Some (i, [])
  | ETyped _ i _ => Some (i, [])
  | EAssign _ x _ _ _ _ => GetParam x
  | EUnary _ _ op (Some x) => option_map (fun r => (fst r, op)) (GetParam x)
  | _ => None
  end.
(** warn/warn_docstring.go:304-310: *args or **kwargs; an empty name is skipped *)
Definition starred_name (param : expr) : list bytes :=
  match GetParam param with Some (i, op) => match i_name i with [] => [] | n => [op ++ n] end | None => [] end.
Inductive arg_finding :=
  | PreferArgs (start finish : pos)
  | NotDocumented (names : list bytes) (none_documented : bool) (doc : strlit)
  | Unknown (name : bytes) (meant : option bytes) (start finish : pos).
Section Args.
  (** the order in which the entries of a map come *)
  Context (map_order : list (bytes * (nat * Z)) -> list (bytes * (nat * Z))).
  (** warn/warn_docstring.go:352-371: an argument that is described but not there *)
  Definition unknown_arg (line : Z) (params : list bytes) (a : bytes * (nat * Z)) : list arg_finding :=
    let '(name, (i, col)) := a in
    if mem_bytes name params then []
    else [Unknown name (find (fun n => mem_bytes n params) [%"*" ++ name; %"**" ++ name]) (Pos (line + Z.of_nat i) col 0) (Pos (line + Z.of_nat i) (col + Z.of_nat (List.length name)) 0)].
  Definition args_of_function (d : function) (s : strlit) (i : info) : list arg_finding :=
    let line := p_line (s_start s) in
    let indent := (p_rune (s_start s) - 1)%Z in
    let params := flat_map starred_name (f_params d) in
    let missing := filter (fun n => match lookup n (i_args i) with Some _ => false | None => true end) params in
    match i_arguments i with
    | Some k => if (indent >? 0)%Z then [PreferArgs (Pos (line + Z.of_nat k) indent 0) (Pos (line + Z.of_nat k) (indent + 10) 10)] else []
    | None => []
    end ++
    if negb (isDocstringRequired (f_start d) (f_name d) (f_body d)) && match i_args i with [] => true | _ => false end then []
    else match missing with [] => [] | _ => [NotDocumented missing (match i_args i with [] => true | _ => false end) s] end ++
         flat_map (unknown_arg line params) (map_order (i_args i)).
  (** warn/warn_docstring.go:270-374 [functionDocstringArgsWarning] *)
  Definition functionDocstringArgsWarning (f : expr) : option (list arg_finding) := each_docstring args_of_function f.
End Args.
