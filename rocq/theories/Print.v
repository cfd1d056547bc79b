(** The printer: build/print.go.
    Simplifications: the elements of sequences and bodies are never nil (the statements of a file can be);
    the operator [%s] of [printf] is string concatenation; margins, depths and levels are natural numbers (they
    are never negative).  A run-time panic clears [o_ok]. *)
From Verif Require Import Base Ast Utf8 Quote Lex.

(** build/print.go:78-86 [printer]; the buffer is reversed. *)
Record pst := PS {
  o_out : bytes; o_com : list comment; o_margin : nat; o_depth : nat; o_level : nat; o_nl : bool; o_ok : bool }.
Definition set_coms (l : list comment) (st : pst) : pst := PS (o_out st) l (o_margin st) (o_depth st) (o_level st) (o_nl st) (o_ok st).
Definition set_margin (n : nat) (st : pst) : pst := PS (o_out st) (o_com st) n (o_depth st) (o_level st) (o_nl st) (o_ok st).
Definition set_nest (n : nat) (st : pst) : pst := PS (o_out st) (o_com st) (o_margin st) n (o_level st) (o_nl st) (o_ok st).
Definition set_level (n : nat) (st : pst) : pst := PS (o_out st) (o_com st) (o_margin st) (o_depth st) n (o_nl st) (o_ok st).
Definition set_nl (b : bool) (st : pst) : pst := PS (o_out st) (o_com st) (o_margin st) (o_depth st) (o_level st) b (o_ok st).
Definition panic (st : pst) : pst := PS (o_out st) (o_com st) (o_margin st) (o_depth st) (o_level st) (o_nl st) false.
Definition set_out (l : bytes) (st : pst) : pst := PS l (o_com st) (o_margin st) (o_depth st) (o_level st) (o_nl st) (o_ok st).

(** build/print.go:29-33. *)
Definition nestedIndentation : nat := 4.
Definition listIndentation : nat := 4.
Definition defIndentation : nat := 8.

(** build/print.go:100-102 [printf]. *)
Definition printf (s : bytes) (st : pst) : pst := set_out (rev s ++ o_out st) st.
(** [printf("%*s", n, "")]. *)
Definition pad (n : nat) : bytes := repeat c_sp n.
(** build/print.go:105-112 [indent]. *)
Definition indent (st : pst) : nat := List.length (span_not is_nl (o_out st)).
Fixpoint drop_spaces (l : bytes) : bytes := match l with c :: l' => if ceq c c_sp then drop_spaces l' else l | [] => [] end.
(** build/print.go:173-181 [trim]. *)
Definition trim (st : pst) : pst := set_out (drop_spaces (o_out st)) st.
(** [strings.TrimSpace]. *)
Definition trimSpace (s : bytes) : bytes :=
  let s := trim_with lead_space (List.length s) s in
  rev (trim_with trail_space (List.length s) (rev s)).
Definition put_comment (c : comment) (st : pst) : pst := printf (trimSpace (c_tok c)) st.
Definition break (st : pst) : pst := printf (c_nl :: pad (o_margin st)) st.
(** build/print.go:119-135 [newline]. *)
Definition newline (st : pst) : pst :=
  let st := set_nl false st in
  let st := match o_com st with
            | [] => st
            | c :: cs => set_coms [] (fold_left (fun st c => put_comment c (break (trim st))) cs (put_comment c (printf %"  " st)))
            end in
  break (trim st).
(** build/print.go:148-150 [softNewline]. *)
Definition softNewline (st : pst) : pst := set_nl true st.
(** build/print.go:153-157 [newlineIfNeeded]. *)
Definition newlineIfNeeded (st : pst) : pst := if o_nl st then newline st else st.
(** build/print.go:161-170 [breakline]. *)
Definition breakline (st : pst) : pst :=
  if Nat.eqb (o_depth st) 0 then printf (%" \" ++ c_nl :: pad (o_margin st)) st else newline st.

(** build/print.go:90-97 [formattingMode]: is it TypeBuild? *)
Definition build_mode (ft : ftype) : bool := match ft with TypeBuild | TypeWorkspace | TypeModule => true | _ => false end.
Definition is_module (ft : ftype) : bool := match ft with TypeModule => true | _ => false end.

(** build/print.go:298-301 [isLoad]. *)
Definition isLoad (e : expr) : bool := match e with ELoad _ _ _ _ _ _ _ => true | _ => false end.
Definition called (e : expr) : option (bytes * list expr) :=
  match e with ECall _ (EIdent i) _ l _ _ _ => Some (i_name i, l) | _ => None end.
(** build/print.go:314-323 [isBazelDep]. *)
Definition isBazelDep (e : expr) : bool := match called e with Some (n, _) => beq n %"bazel_dep" | None => false end.
(** build/print.go:325-334 [isUseRepoOrUseExtension]. *)
Definition isUseRepoOrUseExtension (e : expr) : bool :=
  match called e with Some (n, _) => beq n %"use_repo" || beq n %"use_extension" | None => false end.
(** build/print.go:336-346 [isModuleOverride], tables/tables.go:260-266 [IsModuleOverride]. *)
Definition isModuleOverride (e : expr) : bool :=
  match called e with
  | Some (n, _) => mem_bytes n [%"archive_override"; %"git_override"; %"local_path_override"; %"multiple_version_override"; %"single_version_override"]
  | None => false
  end.
(** build/print.go:361-376 [getKeywordArgument]. *)
Fixpoint getKeywordArgument (l : list expr) (param : bytes) : option expr :=
  match l with
  | EAssign _ (EIdent i) _ _ _ y :: l' => if beq (i_name i) param then Some y else getKeywordArgument l' param
  | _ :: l' => getKeywordArgument l' param
  | [] => None
  end.
(** build/print.go:348-359 [getKeywordBoolArgument], with false as default. *)
Definition getKeywordBoolArgument (l : list expr) (param : bytes) : bool :=
  match getKeywordArgument l param with
  | None => false
  | Some (EIdent i) => beq (i_name i) %"True"
  | Some _ => true
  end.
(** build/print.go:305-312 [areBazelDepsOfSameType]. *)
Definition areBazelDepsOfSameType (x y : expr) : bool :=
  match called x, called y with
  | Some (_, l), Some (_, l') => isBazelDep x && isBazelDep y &&
      Bool.eqb (getKeywordBoolArgument l %"dev_dependency") (getKeywordBoolArgument l' %"dev_dependency")
  | _, _ => false
  end.
(** build/print.go:378-391 [isBazelDepWithOverride]. *)
Definition isBazelDepWithOverride (x y : expr) : bool :=
  match called x, called y with
  | Some (_, l), Some (_, l') => isBazelDep x && isModuleOverride y &&
      match getKeywordArgument l %"name", getKeywordArgument l' %"module_name" with
      | Some (EStr s), Some (EStr s') => beq (s_value s) (s_value s')
      | _, _ => false
      end
  | _, _ => false
  end.
(** build/print.go:410-453 [usedModuleExtensionProxy]. *)
Definition usedModuleExtensionProxy (x : expr) : bytes * bool :=
  match x with
  | ECall _ (EIdent i) _ l _ _ _ =>
      if beq (i_name i) %"use_repo" then match l with EIdent j :: _ => (i_name j, true) | _ => ([], true) end else ([], false)
  | ECall _ (EDot _ (EIdent i) _ _ _) _ _ _ _ _ => (i_name i, false)
  | EAssign _ (EIdent i) _ _ _ (ECall _ (EIdent j) _ _ _ _ _) => if beq (i_name j) %"use_extension" then (i_name i, false) else ([], false)
  | _ => ([], false)
  end.
(** build/print.go:393-408 [useSameModuleExtensionProxy]. *)
Definition useSameModuleExtensionProxy (x y : expr) : bool :=
  let (a, ra) := usedModuleExtensionProxy x in
  let (b, rb) := usedModuleExtensionProxy y in
  negb (beq a []) && beq a b && (negb ra || rb).
(** build/print.go:455-462 [isInclude]. *)
Definition isInclude (e : expr) : bool := match called e with Some (n, _) => beq n %"include" | None => false end.
(** build/print.go:465-468 [isCommentBlock]. *)
Definition isCommentBlock (e : expr) : bool := match e with ECommentBlock _ _ => true | _ => false end.
(** build/print.go:471-474 [isFunctionDefinition]. *)
Definition isFunctionDefinition (e : expr) : bool := match e with EDef _ _ _ _ _ _ _ _ _ => true | _ => false end.
Definition nonempty {A} (l : list A) : bool := match l with [] => false | _ => true end.
(** build/print.go:253-294 [compactStmt]. *)
Definition compactStmt (ft : ftype) (level : nat) (s1 s2 : expr) : bool :=
  if nonempty (c_before (com s2)) || nonempty (c_after (com s1)) then false
  else if isLoad s1 && isLoad s2 then true
  else if isLoad s1 || isLoad s2 then false
  else if is_module ft && areBazelDepsOfSameType s1 s2 then true
  else if is_module ft && isBazelDepWithOverride s1 s2 then true
  else if is_module ft && useSameModuleExtensionProxy s1 s2 then true
  else if is_module ft && isInclude s1 && isInclude s2 then true
  else if isCommentBlock s1 || isCommentBlock s2 then false
  else if build_mode ft && Nat.eqb level 0 then false
  else if isFunctionDefinition s1 || isFunctionDefinition s2 then false
  else (p_line (start_pos s2) - p_line (end_pos s1) <=? 1)%Z.

(** build/print.go:479-484 [isDifferentLines]. *)
Definition isDifferentLines (p q : pos) : bool :=
  if Z.eqb (p_line p) 0 || Z.eqb (p_line q) 0 then false else negb (Z.eqb (p_line p) (p_line q)).

(** build/print.go:511-527: the precedences. *)
Definition precLow := 0. Definition precAssign := 1. Definition precColon := 2. Definition precIfElse := 3.
Definition precOr := 4. Definition precAnd := 5. Definition precCmp := 6. Definition precBitwiseOr := 7. Definition precBitwiseXor := 8.
Definition precBitwiseAnd := 9. Definition precBitwiseShift := 10. Definition precAdd := 11. Definition precMultiply := 12.
Definition precUnary := 13. Definition precSuffix := 14.
(** build/print.go:530-552 [opPrec]; 0 for others. *)
Definition opPrecs : list (bytes * nat) :=
  [(%"or", precOr); (%"and", precAnd); (%"in", precCmp); (%"not in", precCmp); (%"<", precCmp); (%">", precCmp); (%"==", precCmp);
   (%"!=", precCmp); (%"<=", precCmp); (%">=", precCmp); (%"+", precAdd); (%"-", precAdd); (%"*", precMultiply); (%"/", precMultiply);
   (%"//", precMultiply); (%"%", precMultiply); (%"|", precBitwiseOr); (%"&", precBitwiseAnd); (%"^", precBitwiseXor);
   (%"<<", precBitwiseShift); (%">>", precBitwiseShift)].
Definition opPrec (op : bytes) : nat := match find (fun x => beq (fst x) op) opPrecs with Some (_, n) => n | None => 0 end.

(** build/print.go:570-590 (in [expr]): the comments before an expression. *)
Definition print_before (l : list comment) (st : pst) : pst :=
  match l with
  | [] => st
  | _ =>
      let st := trim st in
      let st := if 0 <? indent st then printf [c_nl] st else st in
      let st := printf (pad (o_margin st)) st in
      fold_left (fun st c => newline (put_comment c st)) l st
  end.
(** build/print.go:559-942 [expr] around the switch. *)
Definition node (c : comments) (body : pst -> pst) (st : pst) : pst :=
  let st := body (print_before (c_before c) (newlineIfNeeded st)) in
  set_coms (o_com st ++ c_suffix c) st.
(** build/print.go:597-603 [addParen] and 931-935, the closing parenthesis. *)
Definition addParen (prec outer : nat) (body : pst -> pst) (st : pst) : pst :=
  if prec <? outer then
    let st := body (set_nest (S (o_depth st)) (printf %"(" st)) in
    printf %")" (set_nest (pred (o_depth st)) st)
  else body st.

(** build/print.go:947-960 [seqMode]. *)
Inductive seqMode := modeCall | modeList | modeTuple | modeParen | modeDict | modeSeq | modeDef | modeLoad.
Definition mode_eqb (a b : seqMode) : bool :=
  match a, b with
  | modeCall, modeCall | modeList, modeList | modeTuple, modeTuple | modeParen, modeParen
  | modeDict, modeDict | modeSeq, modeSeq | modeDef, modeDef | modeLoad, modeLoad => true
  | _, _ => false
  end.
(** An element of a sequence: what [seq] needs to know about it, and how it is printed. *)
Record item := Item { it_com : comments; it_start : pos; it_end : pos; it_star : bool; it_print : pst -> pst }.
(** build/print.go:992-1006 (in [useCompactMode]): [None] if two elements are on different lines; otherwise the
    last position and whether all positions are new. *)
Fixpoint same_lines (prev : pos) (new : bool) (l : list item) : option (pos * bool) :=
  match l with
  | [] => Some (prev, new)
  | x :: l' =>
      if isDifferentLines (it_start x) prev then None
      else same_lines (if Z.eqb (p_line (it_end x)) 0 then prev else it_end x) (new && Z.eqb (p_line (it_start x)) 0) l'
  end.
(** build/print.go:963-1025 [useCompactMode]. *)
Definition useCompactMode (ft : ftype) (level : nat) (start : pos) (l : list item) (en : option endp) (mode : seqMode) (compact multi : bool) : bool :=
  if existsb (fun x => nonempty (c_before (it_com x)) || nonempty (c_suffix (it_com x)) && negb (mode_eqb mode modeDef)) l then false
  else if match en with Some e => nonempty (c_before (e_com e)) | None => false end then false
  else if mode_eqb mode modeSeq then true
  else if mode_eqb mode modeCall && negb (nonempty l) && negb multi then true
  else if (negb (Nat.eqb level 0) || negb (build_mode ft) || mode_eqb mode modeDef) && negb (mode_eqb mode modeLoad) then
    match same_lines start (Z.eqb (p_line start) 0) l with
    | None => false
    | Some (prev, new) =>
        match en with
        | Some e => if isDifferentLines prev (e_pos e) then false
                    else if new && Z.eqb (p_line (e_pos e)) 0 then negb multi else true
        | None => if new then negb multi else true
        end
    end
  else if multi then false
  else if compact then true
  else List.length l <=? 1.
(** build/print.go:1108-1125 [needsTrailingComma]. *)
Definition needsTrailingComma (mode : seqMode) (x : item) : bool :=
  match mode with
  | modeDef | modeParen => false
  | modeCall => negb (it_star x)
  | _ => true
  end.
(** build/print.go:1055-1060 (in [seq]): the elements on one line. *)
Fixpoint seq_compact (l : list item) (st : pst) : pst :=
  match l with
  | [] => st
  | [x] => it_print x st
  | x :: l' => seq_compact l' (printf %", " (it_print x st))
  end.
(** build/print.go:1073-1092 (in [seq]): one element per line. *)
Fixpoint seq_multi (mode : seqMode) (first : bool) (l : list item) (st : pst) : pst :=
  match l with
  | [] => st
  | x :: l' =>
      let st := if first && nonempty (o_com st) then printf (c_nl :: pad (o_margin st - 2)) st else st in
      let st := it_print x (newline st) in
      let st := if nonempty l' || needsTrailingComma mode x then printf %"," st else st in
      seq_multi mode false l' st
  end.
(** build/print.go:1034-1106 [seq]. *)
Definition seq (ft : ftype) (brack : ascii * ascii) (start : pos) (l : list item) (en : option endp) (mode : seqMode) (compact multi : bool) (st : pst) : pst :=
  let st := if mode_eqb mode modeSeq then st else printf [fst brack] st in
  let st := set_nest (S (o_depth st)) st in
  let st :=
    if useCompactMode ft (o_level st) start l en mode compact multi then
      let st := seq_compact l st in
      if Nat.eqb (List.length l) 1 && mode_eqb mode modeTuple then printf %"," st else st
    else
      let indentation := if mode_eqb mode modeDef then defIndentation else listIndentation in
      let st := set_margin (o_margin st + indentation) st in
      let st := seq_multi mode true l st in
      let st := match en with
                | Some e => fold_left (fun st c => put_comment c (newline st)) (c_before (e_com e)) st
                | None => st
                end in
      let st := set_margin (o_margin st - indentation) st in
      if mode_eqb mode modeDef then st else newline st in
  let st := set_nest (pred (o_depth st)) st in
  if mode_eqb mode modeSeq then st else printf [snd brack] st.

(** build/print.go:624-652 (in [expr]): string literals; Quote.v has the choice of the spelling. *)
Definition print_strlit (s : strlit) (st : pst) : pst :=
  match print_string (s_value s) (s_triple s) (s_token s) with
  | Ok t => printf t st
  | Panic => panic st
  end.
Definition print_ident (i : ident) : pst -> pst := node (i_com i) (printf (i_name i)).
(** build/syntax.go:184-192 [asString]. *)
Definition asString (i : ident) : strlit := Str (i_com i) (i_pos i) (i_name i) false (pos_add (i_pos i) (i_name i)) [].
(** build/print.go:800-822 (in [expr]): the arguments of a load statement. *)
Definition load_item (from to : ident) : item :=
  let s := asString from in
  if beq (i_name from) (i_name to) then
    let c := Comments (c_before (i_com to)) (c_suffix (i_com from)) (c_after (i_com from)) in
    Item c (s_start s) (s_end s) false (node c (print_strlit s))
  else
    Item no_com (i_pos to) (s_end s) false
      (node no_com (fun st => node (s_com s) (print_strlit s) (printf %" " (printf %" =" (print_ident to st))))).
Fixpoint load_items (from to : list ident) : list item :=
  match from, to with
  | f :: from', t :: to' => load_item f t :: load_items from' to'
  | _, _ => []
  end.

(** build/print.go:211-247 [statements]; each statement comes with its printing function. *)
Fixpoint statements (ft : ftype) (l : list (expr * (pst -> pst))) (st : pst) : pst :=
  match l with
  | [] => st
  | (s, pr) :: l' =>
      let st := pr st in
      let st := if isCommentBlock s then st else softNewline st in
      let st := fold_left (fun st c => softNewline (put_comment c (newlineIfNeeded st))) (c_after (com s)) st in
      match l' with
      | [] => st
      | (s2, _) :: _ =>
          let st := newline st in
          let st := if compactStmt ft (o_level st) s s2 then st else newline st in
          statements ft l' st
      end
  end.
(** build/print.go:200-209 [nestedStatements]. *)
Definition nestedStatements (ft : ftype) (l : list (expr * (pst -> pst))) (st : pst) : pst :=
  let st := newline (set_level (S (o_level st)) (set_margin (o_margin st + nestedIndentation) st)) in
  let st := statements ft l st in
  set_level (pred (o_level st)) (set_margin (o_margin st - nestedIndentation) st).
(** build/print.go:1138-1181 [listFor]; the body and the clauses come with their printing functions. *)
Definition listFor (curly : bool) (body : pst -> pst) (clauses : list (pst -> pst)) (multi : bool) (en : endp) (st : pst) : pst :=
  let multiLine := multi || nonempty (c_before (e_com en)) in
  let space st := if multiLine then breakline st else printf %" " st in
  let st := set_nest (S (o_depth st)) st in
  let st := printf (if curly then %"{" else %"[") st in
  let st := if multiLine then newline (set_margin (o_margin st + listIndentation) st) else st in
  let st := body st in
  let st := fold_left (fun st cl => cl (space st)) clauses st in
  let st :=
    if multiLine then
      let st := fold_left (fun st c => put_comment c (newline st)) (c_before (e_com en)) st in
      newline (set_margin (o_margin st - listIndentation) st)
    else st in
  let st := printf (if curly then %"}" else %"]") st in
  set_nest (pred (o_depth st)) st.

Definition is_star (e : expr) : bool := match e with EUnary _ _ op _ => beq op %"*" || beq op %"**" | _ => false end.
Definition is_empty (l : bytes) : bool := match l with [] => true | _ => false end.
(** build/print.go:559-942 [expr].  [rec] prints the parts; [chain] is [Some needsEmptyLine] when the node is an if statement printed by the
    loop of lines 864-907 after the first turn, as [elif]. *)
Definition print_body (rec : option bool -> expr -> nat -> pst -> pst) (ft : ftype) (chain : option bool) (v : expr) (outer : nat) (st : pst) : pst :=
  let low x := rec None x precLow in
  let it x := Item (com x) (start_pos x) (end_pos x) (is_star x) (rec None x precLow) in
  let stm x := (x, rec None x precLow) in
  let op_line (b : bool) op st := let st := printf (%" " ++ op) st in if b then breakline st else printf %" " st in
  let body st :=
    match v with
    | EFile _ _ _ => panic st
    | ECommentBlock _ _ => st
    | ELit _ _ t => printf t st
    | EIdent i => printf (i_name i) st
    | ETyped _ i t => low t (printf %": " (print_ident i st))
    | EBranch _ t _ => printf t st
    | EStr s => print_strlit s st
    | EDot _ x _ np n =>
        addParen precSuffix outer (fun st =>
          let st := rec None x precSuffix st in
          let multi := isDifferentLines np (end_pos x) in
          let st := if multi then breakline (set_margin (o_margin st + listIndentation) st) else st in
          let st := printf (%"." ++ n) st in
          if multi then set_margin (o_margin st - listIndentation) st else st) st
    | EIndex _ x _ y _ =>
        addParen precSuffix outer (fun st => printf %"]" (low y (printf %"[" (rec None x precSuffix st)))) st
    | EKV _ k _ x => low x (printf %": " (low k st))
    | ESlice _ x _ a _ b c2 s _ =>
        addParen precSuffix outer (fun st =>
          let st := printf %"[" (rec None x precSuffix st) in
          let st := match a with Some y => low y st | None => st end in
          let st := printf %":" st in
          let st := match b with Some y => low y st | None => st end in
          let st := if Z.eqb (p_byte c2) 0 then st
                    else let st := printf %":" st in match s with Some y => low y st | None => st end in
          printf %"]" st) st
    | EUnary _ _ op x =>
        addParen precUnary outer (fun st =>
          let st := if beq op %"not" then printf %"not " st else printf op st in
          match x with Some y => rec None y precSuffix st | None => st end) st
    | ELambda _ _ ps b =>
        addParen precColon outer (fun st =>
          let st := printf %"lambda" st in
          let st := snd (fold_left (fun (acc : bool * pst) pr =>
                       (true, pr (printf %" " (if fst acc then printf %"," (snd acc) else snd acc))))
                     (map low ps) (false, st)) in
          let st := printf %": " st in
          match b with y :: _ => low y st | [] => panic st end) st
    | EBinary _ x _ op br y =>
        let prec := opPrec op in
        addParen prec outer (fun st =>
          let m := o_margin st in
          let st := if br then set_margin (indent st) st else st in
          let st := op_line br op (rec None x prec st) in
          set_margin m (rec None y (S prec) st)) st
    | EAssign _ x _ op br y =>
        addParen precAssign outer (fun st =>
          let m := o_margin st in
          let st := if br then set_margin (indent st + listIndentation) st else st in
          let st := op_line br op (rec None x precAssign st) in
          set_margin m (rec None y (S precAssign) st)) st
    | EParen _ p x en multi => seq ft ("(", ")")%char p [it x] (Some en) modeParen false multi st
    | ECall _ x p l en compact multi =>
        let compact := if is_module ft && (isBazelDep v || isUseRepoOrUseExtension v)
                       then Z.eqb (p_line (start_pos v)) (p_line (end_pos v)) else compact in
        addParen precSuffix outer (fun st =>
          seq ft ("(", ")")%char p (map it l) (Some en) modeCall compact multi (rec None x precSuffix st)) st
    | ELoad _ p m fr to r compact =>
        addParen precSuffix outer (fun st =>
          let args := Item (s_com m) (s_start m) (s_end m) false (node (s_com m) (print_strlit m)) :: load_items fr to in
          seq ft ("(", ")")%char p args (Some r) modeLoad compact false (printf %"load" st)) st
    | EList _ p l en multi => seq ft ("[", "]")%char p (map it l) (Some en) modeList false multi st
    | ESet _ p l en multi => seq ft ("{", "}")%char p (map it l) (Some en) modeList false multi st
    | ETuple _ nobr p l en compact multi =>
        seq ft ("(", ")")%char p (map it l) (Some en) (if nobr then modeSeq else modeTuple) compact multi st
    | EDict _ p l en multi => seq ft ("{", "}")%char p (map it l) (Some en) modeDict false multi st
    | EComp _ curly _ x l multi en => listFor curly (low x) (map low l) multi en st
    | ECond _ x _ y _ z =>
        addParen precSuffix outer (fun st =>
          let st := printf %" if " (rec None x precIfElse st) in
          let st := printf %" else " (rec None y precIfElse st) in
          rec None z precIfElse st) st
    | EReturn _ _ x =>
        let st := printf %"return" st in
        match x with Some y => low y (printf %" " st) | None => st end
    | EDef _ p ps b n _ compact multi ty =>
        let st := seq ft ("(", ")")%char p (map it ps) None modeDef compact multi (printf n (printf %"def " st)) in
        let st := match ty with Some t => low t (printf %" -> " st) | None => st end in
        nestedStatements ft (map stm b) (printf %":" st)
    | EFor _ _ x y b =>
        let st := printf %" in " (low x (printf %"for " st)) in
        nestedStatements ft (map stm b) (printf %":" (low y st))
    | EIf _ _ x t ep f =>
        let st := newlineIfNeeded st in
        let st := match chain with
                  | None => st
                  | Some needsEmptyLine => printf %"el" (if needsEmptyLine then newline st else st)
                  end in
        let st := printf %":" (low x (printf %"if " st)) in
        let st := nestedStatements ft (map stm t) st in
        let st := match t with [] => panic st | _ => st end in
        let needsEmptyLine := (1 <? p_line (e_pos ep) - p_line (last (map end_pos t) no_pos))%Z in
        let else_part st :=
          if nonempty f then
            let st := newlineIfNeeded st in
            let st := if needsEmptyLine then newline st else st in
            let st := printf %"else:" st in
            nestedStatements ft (map stm f) (set_coms (o_com st ++ c_suffix (e_com ep)) st)
          else st in
        match f with
        | [EIf cn _ _ _ _ _ as next] =>
            if nonempty (c_suffix (e_com ep)) || nonempty (c_before cn) then else_part st
            else rec (Some needsEmptyLine) next precLow st
        | _ => else_part st
        end
    | EForC _ _ x _ y => low y (printf %" in " (low x (printf %"for " st)))
    | EIfC _ _ x => low x (printf %"if " st)
    end in
  match chain, v with
  | Some _, EIf _ _ _ _ _ _ => body st
  | _, _ => node (com v) body st
  end.
Fixpoint print_expr (ft : ftype) (chain : option bool) (v : expr) (outer : nat) (st : pst) {struct v} : pst := print_body (print_expr ft) ft chain v outer st.

(** build/print.go:184-198 [file]. *)
Definition print_file (ft : ftype) (c : comments) (stmts : list (option expr)) (st : pst) : pst :=
  let st := fold_left (fun st c => newline (put_comment c st)) (c_before c) st in
  let st := statements ft (map (fun x => (x, print_expr ft None x precLow)) (flat_map (opt_list (fun x => x)) stmts)) st in
  let st := fold_left (fun st c => newline (put_comment c st)) (c_after c) st in
  newlineIfNeeded st.
Definition new_printer : pst := PS [] [] 0 0 0 false true.
(** build/print.go:37-41 [FormatWithoutRewriting]; [None] if the printer panics. *)
Definition FormatWithoutRewriting (f : expr) : option bytes :=
  match f with
  | EFile c m l => let st := print_file (f_type m) c l new_printer in if o_ok st then Some (rev (o_out st)) else None
  | _ => None
  end.
