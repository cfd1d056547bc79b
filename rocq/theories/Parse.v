(** The parser: the goyacc driver of build/parse.y.go over its tables (LRTables.v), and the grammar
    actions and helper functions of build/parse.y.
    Simplifications: the parser reads its tokens from a list (the lexer has no other input than the text,
    so asking for tokens one by one or all at once is the same); error messages and error positions are
    not modelled ([Error] panics, so there is no error recovery: one outcome [Rejected]); run-time panics in
    actions are the outcome [Panicked].  Nodes are values: [lastStmt] is always nil or the last statement of
    the list it goes with, so it is modelled by a flag. *)
From Verif Require Import Base Ast Lex LRTables.

(** ** Driver *)
(** build/parse.y.go:38-74: the code of a token. *)
Definition code (k : kind) : Z :=
  match k with
  | KChar c => Z.of_N (bN c)
  | KAugm => 57346 | KAnd => 57347 | KComment => 57348 | KEof => 57349 | KEq => 57350 | KFor => 57351 | KGe => 57352
  | KIdent => 57353 | KInt => 57354 | KIf => 57355 | KElse => 57356 | KElif => 57357 | KIn => 57358 | KIs => 57359
  | KLambda => 57360 | KLoad => 57361 | KLe => 57362 | KNe => 57363 | KStarStar => 57364 | KIntDiv => 57365
  | KLsh => 57366 | KRsh => 57367 | KArrow => 57368 | KNot => 57369 | KOr => 57370 | KString => 57371 | KDef => 57372
  | KReturn => 57373 | KPass => 57374 | KBreak => 57375 | KContinue => 57376 | KIndent => 57377 | KUnindent => 57378
  end%Z.
Definition at_ (l : list Z) (i : Z) : Z := nth (Z.to_nat i) l 0%Z.
Definition len (l : list Z) : Z := Z.of_nat (List.length l).
(** build/parse.y.go:807-840 [yylex1]; yyTok3 is empty. *)
Definition yylex1 (char : Z) : Z :=
  (let token :=
    if char <=? 0 then at_ yyTok1 0
    else if char <? len yyTok1 then at_ yyTok1 char
    else if (yyPrivate <=? char) && (char <? yyPrivate + len yyTok2) then at_ yyTok2 (char - yyPrivate)
    else 0 in
   if token =? 0 then at_ yyTok2 1 else token)%Z.
Definition terminal (t : token) : Z := yylex1 (code (t_kind t)).

Inductive act := Shift (s : Z) | Reduce (r : Z) | Fail | Stop.
(** build/parse.y.go:920-932: the exception table. *)
Fixpoint exca_find (l : list Z) (state : Z) : list Z :=
  match l with
  | a :: b :: l' => if ((a =? -1) && (b =? state))%Z then l' else exca_find l' state
  | _ => []
  end.
Fixpoint exca_entry (l : list Z) (token : Z) : Z :=
  match l with
  | a :: b :: l' => if ((a <? 0) || (a =? token))%Z then b else exca_entry l' token
  | _ => 0%Z
  end.
(** build/parse.y.go:912-938, the default action of a state. *)
Definition default_action (state : Z) (token : Z) : act :=
  let n := at_ yyDef state in
  let n' := if (n =? -2)%Z then exca_entry (exca_find yyExca state) token else n in
  if ((n =? -2) && (n' <? 0))%Z then Stop else if (n' =? 0)%Z then Fail else Reduce n'.
(** build/parse.y.go:888-910: shift or default.  Tokens are positive; [None] says that there is no token,
    which is an error when one is needed. *)
Definition simple_state (state : Z) : bool := (at_ yyPact state <=? yyFlag)%Z && negb (at_ yyDef state =? -2)%Z.
Definition action (state : Z) (token : Z) : act :=
  let n := at_ yyPact state in
  if (n <=? yyFlag)%Z then default_action state token
  else
    let n := (n + token)%Z in
    if ((n <? 0) || (yyLast <=? n))%Z then default_action state token
    else
      let s := at_ yyAct n in
      if (at_ yyChk s =? token)%Z then Shift s else default_action state token.
(** build/parse.y.go:1005-1017: the state after reducing to the nonterminal with number [n]. *)
Definition goto_ (state : Z) (n : Z) : Z :=
  let g := at_ yyPgo n in
  let j := (g + state + 1)%Z in
  if (yyLast <=? j)%Z then at_ yyAct g
  else let s := at_ yyAct j in if (at_ yyChk s =? - n)%Z then s else at_ yyAct g.

(** ** Semantic values *)
(** build/parse.y:34-55, the fields of [yySymType] that each kind of symbol uses. *)
Inductive value :=
  | VNone                                         (* linebreaks_opt, semi_opt *)
  | VTok (t : token)                              (* terminals *)
  | VPos (p : pos)                                (* pos *)
  | VExpr (e : expr)                              (* expr, kv, string, def_header *)
  | VOpt (e : option expr)                        (* expr, possibly nil *)
  | VList (l : list expr)                         (* exprs, kvs *)
  | VTests (l : list expr) (comma : pos)          (* exprs and comma *)
  | VStmts (l : list expr) (last : bool)          (* exprs and lastStmt *)
  | VBlock (e : expr) (last : bool)               (* expr or ifstmt, and lastStmt *)
  | VLoads (l : list (ident * ident)).            (* loadargs; from and to *)

(** build/parse.y:1064-1070 [unary]. *)
Definition unary (p : pos) (op : bytes) (x : option expr) : expr := EUnary no_com p op x.
(** build/parse.y:1074-1096 [binary]. *)
Definition binary (x : expr) (p : pos) (op : bytes) (y : expr) : expr :=
  let lb := (p_line (end_pos x) <? p_line (start_pos y))%Z in
  if mem_bytes op [%"="; %"+="; %"-="; %"*="; %"/="; %"//="; %"%="; %"|="]
  then EAssign no_com x p op lb y
  else EBinary no_com x p op lb y.
(** build/parse.y:1099-1104 [typed]. *)
Definition typed (x y : expr) : option expr :=
  match x with EIdent i => Some (ETyped no_com i y) | _ => None end.
(** build/parse.y:1110-1129 [isSimpleExpression]. *)
Definition isSimpleExpression (e : expr) : bool :=
  match e with
  | ELit _ _ _ | EStr _ | EIdent _ => true
  | EUnary _ _ _ (Some (ELit _ _ _)) | EUnary _ _ _ (Some (EIdent _)) => true
  | EList _ _ [] _ _ | ETuple _ _ _ [] _ _ _ | EDict _ _ [] _ _ | ESet _ _ [] _ _ => true
  | _ => false
  end.
(** build/parse.y:1164-1184 [forceCompact]. *)
Fixpoint compact_from (line : Z) (l : list expr) (stop : Z) : bool :=
  match l with
  | [] => (stop =? line)%Z
  | x :: l' => (p_line (start_pos x) =? line)%Z && isSimpleExpression x && compact_from (p_line (end_pos x)) l' stop
  end.
Definition forceCompact (start : pos) (l : list expr) (stop : pos) : bool :=
  (1 <? List.length l) && compact_from (p_line start) l (p_line stop).
(** build/parse.y:1187-1203 [forceMultiLine]. *)
Definition forceMultiLine (start : pos) (l : list expr) (stop : pos) : bool :=
  match l with
  | [] => negb (p_line start =? p_line stop)%Z
  | [x] => negb (p_line start =? p_line (start_pos x))%Z || negb (p_line stop =? p_line (end_pos x))%Z
  | _ => false
  end.
(** build/parse.y:1206-1221 [forceMultiLineComprehension]. *)
Fixpoint breaks_from (line : Z) (l : list expr) (stop : Z) : bool :=
  match l with
  | [] => negb (line =? stop)%Z
  | x :: l' => negb (line =? p_line (start_pos x))%Z || breaks_from (p_line (end_pos x)) l' stop
  end.
Definition forceMultiLineComprehension (start : pos) (e : expr) (clauses : list expr) (stop : pos) : bool :=
  breaks_from (p_line start) (e :: clauses) (p_line stop).

(** [x.Comment().Before = l], [x.Comment().After = l]. *)
Definition set_before (l : list comment) (e : expr) : expr :=
  set_com (Comments l (c_suffix (com e)) (c_after (com e))) e.
Definition set_after (l : list comment) (e : expr) : expr :=
  set_com (Comments (c_before (com e)) (c_suffix (com e)) l) e.
Definition set_last (f : expr -> expr) (l : list expr) : list expr :=
  match rev l with [] => [] | x :: r => rev (f x :: r) end.
Definition last_stmt (l : list expr) (flag : bool) : option expr :=
  if flag then match rev l with x :: _ => Some x | [] => None end else None.
Definition is_comment_block (e : expr) : bool := match e with ECommentBlock _ _ => true | _ => false end.

(** build/parse.y:1269-1284 [extractDedentedComment]: the comments that stay and those that leave. *)
Fixpoint dedented (indentation : Z) (l : list comment) : option (list comment * list comment) :=
  match l with
  | [] => None
  | c :: l' =>
      if ((0 <? p_rune (c_start c)) && (p_rune (c_start c) <? indentation))%Z then Some ([], l)
      else match dedented indentation l' with Some (a, b) => Some (c :: a, b) | None => None end
  end.
(** build/parse.y:1248-1261: from the last non-comment statement ([first]) on; the statements that stay
    and the extracted comment blocks. *)
Fixpoint extract_from (indentation : Z) (first : bool) (l : list expr) : list expr * list expr :=
  match l with
  | [] => ([], [])
  | s :: rest =>
      match dedented indentation (c_after (com s)) with
      | Some (stay, c :: leave) =>
          ((if negb first && match stay with [] => true | _ => false end then [] else [set_after stay s]),
           ECommentBlock (Comments [] [] (c :: leave)) (c_start c) :: rest)
      | _ => let (a, b) := extract_from indentation false rest in (s :: a, b)
      end
  end.
Fixpoint last_non_comment (i : nat) (l : list expr) (found : option nat) : option nat :=
  match l with
  | [] => found
  | s :: l' => last_non_comment (S i) l' (if is_comment_block s then found else Some i)
  end.
(** build/parse.y:1227-1264 [extractTrailingComments], on the last body. *)
Definition extract_body (body : list expr) : list expr * list expr :=
  match body with
  | [] => ([], [])
  | b :: _ =>
      match last_non_comment 0 body None with
      | None => (body, [])
      | Some i =>
          let (a, cbs) := extract_from (p_rune (start_pos b)) true (skipn i body) in
          (firstn i body ++ a, cbs)
      end
  end.
(** build/parse.y:1288-1306 [getLastBody] composed with the extraction. *)
Fixpoint extractTrailingComments (stmt : expr) : expr * list expr :=
  match stmt with
  | EDef c p ps b n col fc fm ty => let (b', cbs) := extract_body b in (EDef c p ps b' n col fc fm ty, cbs)
  | EFor c p v x b => let (b', cbs) := extract_body b in (EFor c p v x b', cbs)
  | EIf c p x t ep f =>
      match f with
      | [] => let (t', cbs) := extract_body t in (EIf c p x t' ep f, cbs)
      | [EIf c1 p1 x1 t1 ep1 f1 as next] =>
          let (next', cbs) := extractTrailingComments next in (EIf c p x t ep [next'], cbs)
      | _ => let (f', cbs) := extract_body f in (EIf c p x t ep f', cbs)
      end
  | _ => (stmt, [])
  end.
(** build/parse.y:409-421 and 430-436: adding an else branch at the end of a chain. *)
Fixpoint set_else (e : expr) (p : pos) (fls : list expr) : option expr :=
  match e with
  | EIf c p0 x t ep f =>
      match f with
      | [inner] => match set_else inner p fls with Some i => Some (EIf c p0 x t ep [i]) | None => None end
      | _ => Some (EIf c p0 x t (End no_com p) fls)
      end
  | _ => None
  end.
(** build/parse.y:257-268 and 317-328: a comment line. *)
Definition add_comment (l : list expr) (flag : bool) (t : token) : list expr :=
  let c := Comment (t_pos t) (t_tok t) in
  match last_stmt l flag with
  | None => l ++ [ECommentBlock (Comments [] [] [c]) (t_pos t)]
  | Some _ => set_last (fun s => set_after (c_after (com s) ++ [c]) s) l
  end.
(** build/parse.y:280-310: a statement after the previous ones. *)
Definition add_stmt (l1 : list expr) (f1 : bool) (l2 : list expr) (f2 : bool) : option value :=
  match last_stmt l1 f1 with
  | None => Some (VStmts (l1 ++ l2) f2)
  | Some x =>
      match l2 with
      | [] => None
      | y :: l2' =>
          let l2' := set_before (c_after (com x)) y :: l2' in
          if is_comment_block x then Some (VStmts (removelast l1 ++ l2') f2)
          else Some (VStmts (set_last (set_after []) l1 ++ l2') f2)
      end
  end.
(** build/parse.y:224-243: an indented block after the comments [cs] that precede its first statement. *)
Definition add_suite (cs : list expr) (ss : list expr) (flag : bool) : option value :=
  match rev cs with
  | [] => Some (VStmts ss flag)
  | cb :: _ =>
      match ss, rev (c_after (com cb)) with
      | s :: ss', c :: _ =>
          if (p_line (start_pos s) - p_line (c_start c) =? 1)%Z
          then Some (VStmts (removelast cs ++ set_before (c_after (com cb)) s :: ss') flag)
          else Some (VStmts (cs ++ ss) flag)
      | _, _ => None
      end
  end.
(** build/parse.y:806-819 and 973-986: one more element of a tuple without brackets. *)
Definition add_tuple (x y : expr) : expr :=
  match x with
  | ETuple c true p l e _ _ => ETuple c true p (l ++ [y]) e true false
  | _ => ETuple no_com true no_pos [x; y] (End no_com no_pos) true false
  end.
(** build/parse.y:694-723: a load argument. *)
Definition load_pos (s : strlit) : pos :=
  let p := pos_add (s_start s) %"'" in if s_triple s then pos_add p %"''" else p.
Definition end_at (p : pos) : endp := End no_com p.

(** ** Actions *)
(** The action of each rule; [None] is a run-time panic.  Rules without an action return their first value. *)
Definition un (args : list value) : option value :=
  match args with [VTok o; VExpr x] => Some (VExpr (unary (t_pos o) (t_tok o) (Some x))) | _ => None end.
Definition bin (args : list value) : option value :=
  match args with [VExpr x; VTok o; VExpr y] => Some (VExpr (binary x (t_pos o) (t_tok o) y)) | _ => None end.
Definition branch (args : list value) : option value :=
  match args with [VTok t] => Some (VExpr (EBranch no_com (t_tok t) (t_pos t))) | _ => None end.
Definition first (args : list value) : option value := match args with v :: _ => Some v | [] => None end.
Definition first_pos (args : list value) : option value := match args with VTok t :: _ => Some (VPos (t_pos t)) | _ => None end.
Definition nothing (args : list value) : option value := Some VNone.
Definition nil_list (args : list value) : option value := Some (VList []).
Definition nil_opt (args : list value) : option value := Some (VOpt None).
Definition nil_pos (args : list value) : option value := Some (VPos no_pos).
Definition some_opt (args : list value) : option value := match args with [VExpr e] => Some (VOpt (Some e)) | _ => None end.
Definition singleton (args : list value) : option value := match args with [VExpr e] => Some (VList [e]) | _ => None end.
Definition snoc (args : list value) : option value := match args with [VList l; _; VExpr e] => Some (VList (l ++ [e])) | _ => None end.
Definition first_list (args : list value) : option value := match args with VList l :: _ => Some (VList l) | _ => None end.
Definition tuple2 (args : list value) : option value :=
  match args with [VExpr x; VTok _; VExpr y] => Some (VExpr (add_tuple x y)) | _ => None end.

(** build/parse.y:216-1056, rules 1 to 148 in order; rule 1 ends the parse (see [step]). *)
Definition actions : list (list value -> option value) :=
  [(* 1 file, parse.y:217-221 *) first;
   (* 2 suite, parse.y:224-243 *) (fun a => match a with
     | [VTok _; VStmts cs _; VTok _; VStmts ss f; VTok _] => add_suite cs ss f | _ => None end);
   (* 3, parse.y:244-247 *) first;
   (* 4, 5 linebreaks_opt, parse.y:249-250 *) nothing; nothing;
   (* 6 comments, parse.y:253-256 *) (fun _ => Some (VStmts [] false));
   (* 7, parse.y:257-268 *) (fun a => match a with
     | [VStmts l f; VTok c; VTok _] => Some (VStmts (add_comment l f c) true) | _ => None end);
   (* 8, parse.y:269-273 *) (fun a => match a with [VStmts l _; VTok _] => Some (VStmts l false) | _ => None end);
   (* 9 stmts, parse.y:276-279 *) (fun _ => Some (VStmts [] false));
   (* 10, parse.y:280-310 *) (fun a => match a with
     | [VStmts l1 f1; VStmts l2 f2] => add_stmt l1 f1 l2 f2 | _ => None end);
   (* 11, parse.y:311-316 *) (fun a => match a with [VStmts l _; VTok _] => Some (VStmts l false) | _ => None end);
   (* 12, parse.y:317-328 *) (fun a => match a with
     | [VStmts l f; VTok c; VTok _] => Some (VStmts (add_comment l f c) true) | _ => None end);
   (* 13 stmt, parse.y:331-335 *) (fun a => match a with
     | [VStmts l _] => match l with [] => None | _ => Some (VStmts l true) end | _ => None end);
   (* 14, parse.y:336-347 *) (fun a => match a with
     | [VBlock e last] =>
         let (e', cbs) := extractTrailingComments e in
         Some (VStmts (e' :: cbs) (match cbs with [] => true | _ => last end))
     | _ => None end);
   (* 15 def_header, parse.y:350-361 *) (fun a => match a with
     | [VTok d; VTok n; VTok l; VList ps; VTok r] =>
         Some (VExpr (EDef no_com (t_pos d) ps [] (t_tok n) no_pos
           (forceCompact (t_pos l) ps (t_pos r)) (forceMultiLine (t_pos l) ps (t_pos r)) None))
     | _ => None end);
   (* 16, 17 def_header_type_opt, parse.y:364-369 *) first;
   (fun a => match a with
     | [VExpr (EDef c p ps b n col fc fm _); VTok _; VExpr t] => Some (VExpr (EDef c p ps b n col fc fm (Some t)))
     | _ => None end);
   (* 18 block_stmt, parse.y:372-378 *) (fun a => match a with
     | [VExpr (EDef c p ps _ n _ fc fm ty); VTok col; VStmts b last] =>
         Some (VBlock (EDef c p ps b n (t_pos col) fc fm ty) last)
     | _ => None end);
   (* 19, parse.y:379-388 *) (fun a => match a with
     | [VTok p; VExpr v; VTok _; VExpr x; VTok _; VStmts b last] => Some (VBlock (EFor no_com (t_pos p) v x b) last)
     | _ => None end);
   (* 20, parse.y:389-393 *) first;
   (* 21 if_chain, parse.y:397-405 *) (fun a => match a with
     | [VTok p; VExpr x; VTok _; VStmts t last] => Some (VBlock (EIf no_com (t_pos p) x t (End no_com no_pos) []) last)
     | _ => None end);
   (* 22, parse.y:406-422 *) (fun a => match a with
     | [VBlock e _; VPos p; VExpr x; VTok _; VStmts t last] =>
         option_map (fun e' => VBlock e' last) (set_else e p [EIf no_com p x t (End no_com no_pos) []])
     | _ => None end);
   (* 23, 24 if_else_block, parse.y:426-437 *) first;
   (fun a => match a with
     | [VBlock e _; VTok p; VTok _; VStmts f last] => option_map (fun e' => VBlock e' last) (set_else e (t_pos p) f)
     | _ => None end);
   (* 25, 26 elif, parse.y:440-441 *) first_pos; first_pos;
   (* 27 simple_stmt, parse.y:444-448 *) (fun a => match a with
     | [VExpr s; VList l; VNone; VTok _] => Some (VStmts (s :: l) true) | _ => None end);
   (* 28, 29 small_stmts_continuation, parse.y:451-457 *) nil_list; snoc;
   (* 30 small_stmt, parse.y:460 *) first;
   (* 31, parse.y:461-467 *) (fun a => match a with [VTok t; VExpr x] => Some (VExpr (EReturn no_com (t_pos t) (Some x))) | _ => None end);
   (* 32, parse.y:468-473 *) (fun a => match a with [VTok t] => Some (VExpr (EReturn no_com (t_pos t) None)) | _ => None end);
   (* 33, 34, parse.y:474-475 *) bin; bin;
   (* 35, 36, 37, parse.y:476-496 *) branch; branch; branch;
   (* 38, 39 semi_opt, parse.y:498-499 *) nothing; nothing;
   (* 40, 41, 42 primary_expr, parse.y:502-507 *) first; first; first;
   (* 43, parse.y:508-516 *) (fun a => match a with
     | [VExpr x; VTok d; VTok n] => Some (VExpr (EDot no_com x (t_pos d) (t_pos n) (t_tok n))) | _ => None end);
   (* 44, parse.y:517-530 *) (fun a => match a with
     | [VTok l; VTok lp; VPos _; VExpr (EStr m); VPos _; VLoads args; VPos _; VTok r] =>
         Some (VExpr (ELoad no_com (t_pos l) m (map fst args) (map snd args) (end_at (t_pos r))
           (p_line (t_pos lp) =? p_line (t_pos r))%Z))
     | _ => None end);
   (* 45, parse.y:531-541 *) (fun a => match a with
     | [VExpr x; VTok l; VList args; VTok r] =>
         Some (VExpr (ECall no_com x (t_pos l) args (end_at (t_pos r))
           (forceCompact (t_pos l) args (t_pos r)) (forceMultiLine (t_pos l) args (t_pos r))))
     | _ => None end);
   (* 46, parse.y:542-550 *) (fun a => match a with
     | [VExpr x; VTok l; VExpr y; VTok r] => Some (VExpr (EIndex no_com x (t_pos l) y (t_pos r))) | _ => None end);
   (* 47, parse.y:551-561 *) (fun a => match a with
     | [VExpr x; VTok l; VOpt f; VTok c; VOpt t; VTok r] =>
         Some (VExpr (ESlice no_com x (t_pos l) f (t_pos c) t no_pos None (t_pos r)))
     | _ => None end);
   (* 48, parse.y:562-574 *) (fun a => match a with
     | [VExpr x; VTok l; VOpt f; VTok c; VOpt t; VTok c2; VOpt s; VTok r] =>
         Some (VExpr (ESlice no_com x (t_pos l) f (t_pos c) t (t_pos c2) s (t_pos r)))
     | _ => None end);
   (* 49, parse.y:575-583 *) (fun a => match a with
     | [VTok l; VTests es _; VTok r] =>
         Some (VExpr (EList no_com (t_pos l) es (end_at (t_pos r)) (forceMultiLine (t_pos l) es (t_pos r))))
     | _ => None end);
   (* 50, parse.y:584-594 *) (fun a => match a with
     | [VTok l; VExpr b; VList cs; VTok r] =>
         Some (VExpr (EComp no_com false (t_pos l) b cs (forceMultiLineComprehension (t_pos l) b cs (t_pos r)) (end_at (t_pos r))))
     | _ => None end);
   (* 51, parse.y:595-605 *) (fun a => match a with
     | [VTok l; VExpr b; VList cs; VTok r] =>
         Some (VExpr (EComp no_com true (t_pos l) b cs (forceMultiLineComprehension (t_pos l) b cs (t_pos r)) (end_at (t_pos r))))
     | _ => None end);
   (* 52, parse.y:606-618 *) (fun a => match a with
     | [VTok l; VList es; VTok r] =>
         Some (VExpr (EDict no_com (t_pos l) es (end_at (t_pos r)) (forceMultiLine (t_pos l) es (t_pos r))))
     | _ => None end);
   (* 53, parse.y:619-627 *) (fun a => match a with
     | [VTok l; VList es; VPos _; VTok r] =>
         Some (VExpr (ESet no_com (t_pos l) es (end_at (t_pos r)) (forceMultiLine (t_pos l) es (t_pos r))))
     | _ => None end);
   (* 54, parse.y:628-647 *) (fun a => match a with
     | [VTok l; VTests es comma; VTok r] =>
         let fm := forceMultiLine (t_pos l) es (t_pos r) in
         let tuple := ETuple no_com false (t_pos l) es (end_at (t_pos r)) (forceCompact (t_pos l) es (t_pos r)) fm in
         Some (VExpr (match es with
                      | [x] => if (p_line comma =? 0)%Z then EParen no_com (t_pos l) x (end_at (t_pos r)) fm else tuple
                      | _ => tuple
                      end))
     | _ => None end);
   (* 55, 56 arguments_opt, parse.y:650-656 *) nil_list; first_list;
   (* 57, 58 arguments, parse.y:659-666 *)
   (fun a => match a with [VPos _; VExpr e] => Some (VList [e]) | _ => None end); snoc;
   (* 59, 60, 61, 62 argument, parse.y:669-681 *) first; bin; un; un;
   (* 63, 64 load_arguments, parse.y:684-691 *) first;
   (fun a => match a with [VLoads l; VTok _; VLoads m] => Some (VLoads (l ++ m)) | _ => None end);
   (* 65, 66 load_argument, parse.y:694-723 *)
   (fun a => match a with
     | [VExpr (EStr s)] => Some (VLoads [(Ident no_com (load_pos s) (s_value s), Ident no_com (load_pos s) (s_value s))])
     | _ => None end);
   (fun a => match a with
     | [VExpr (EIdent i); VTok _; VExpr (EStr s)] => Some (VLoads [(Ident no_com (load_pos s) (s_value s), i)])
     | _ => None end);
   (* 67, 68 parameters_opt, parse.y:726-732 *) nil_list; first_list;
   (* 69, 70 parameters_type_opt, parse.y:735-741 *) nil_list; first_list;
   (* 71, 72 parameters, parse.y:744-751 *) singleton; snoc;
   (* 73, 74 parameters_type, parse.y:755-762 *) singleton; snoc;
   (* 75, 76, 77 parameter, parse.y:765-773 *) first; bin; un;
   (* 78, parse.y:774-777 *)
   (fun a => match a with [VTok o] => Some (VExpr (unary (t_pos o) (t_tok o) None)) | _ => None end);
   (* 79, parse.y:778-781 *) un;
   (* 80 parameter_type, parse.y:785 *) first;
   (* 81, parse.y:786-790 *)
   (fun a => match a with [VExpr x; VTok _; VExpr t] => option_map VExpr (typed x t) | _ => None end);
   (* 82, parse.y:791-794 *)
   (fun a => match a with
     | [VExpr x; VTok _; VExpr t; VTok o; VExpr y] => option_map (fun z => VExpr (binary z (t_pos o) (t_tok o) y)) (typed x t)
     | _ => None end);
   (* 83, 84, parse.y:795-802 *)
   (fun a => match a with
     | [VTok o; VExpr x; VTok _; VExpr t] => option_map (fun z => VExpr (unary (t_pos o) (t_tok o) (Some z))) (typed x t)
     | _ => None end);
   (fun a => match a with
     | [VTok o; VExpr x; VTok _; VExpr t] => option_map (fun z => VExpr (unary (t_pos o) (t_tok o) (Some z))) (typed x t)
     | _ => None end);
   (* 85, 86 expr, parse.y:805-819 *) first; tuple2;
   (* 87, 88 expr_opt, parse.y:822-825 *) nil_opt; some_opt;
   (* 89 test, parse.y:828 *) first;
   (* 90, parse.y:829-838 *) (fun a => match a with
     | [VTok l; VList ps; VTok _; VExpr b] => Some (VExpr (ELambda no_com (t_pos l) ps [b])) | _ => None end);
   (* 91-94, parse.y:839-842 *) un; un; un; un;
   (* 95-107, parse.y:843-855 *) bin; bin; bin; bin; bin; bin; bin; bin; bin; bin; bin; bin; bin;
   (* 108, parse.y:856 *) (fun a => match a with
     | [VExpr x; VTok o; VTok _; VExpr y] => Some (VExpr (binary x (t_pos o) %"not in" y)) | _ => None end);
   (* 109-115, parse.y:857-863 *) bin; bin; bin; bin; bin; bin; bin;
   (* 116, parse.y:864-871 *) (fun a => match a with
     | [VExpr x; VTok o; VExpr y] =>
         match y with
         | EUnary _ _ op (Some z) => if beq op %"not" then Some (VExpr (binary x (t_pos o) %"is not" z))
                                     else Some (VExpr (binary x (t_pos o) (t_tok o) y))
         | _ => Some (VExpr (binary x (t_pos o) (t_tok o) y))
         end
     | _ => None end);
   (* 117, parse.y:872-881 *) (fun a => match a with
     | [VExpr x; VTok i; VExpr c; VTok e; VExpr y] => Some (VExpr (ECond no_com x (t_pos i) c (t_pos e) y)) | _ => None end);
   (* 118, 119 tests, parse.y:884-891 *) singleton; snoc;
   (* 120, 121 test_opt, parse.y:894-897 *) nil_opt; some_opt;
   (* 122, 123 tests_opt, parse.y:900-906 *) (fun _ => Some (VTests [] no_pos));
   (fun a => match a with [VList l; VPos p] => Some (VTests l p) | _ => None end);
   (* 124, 125 comma_opt, parse.y:914-917 *) nil_pos; first_pos;
   (* 126, 127 commas, parse.y:923-927 *) first_pos; first;
   (* 128, 129 commas_opt, parse.y:933-936 *) nil_pos; first;
   (* 130 keyvalue, parse.y:940-946 *) (fun a => match a with
     | [VExpr k; VTok c; VExpr v] => Some (VExpr (EKV no_com k (t_pos c) v)) | _ => None end);
   (* 131, 132 keyvalues_no_comma, parse.y:949-956 *) singleton; snoc;
   (* 133, 134, 135 keyvalues, parse.y:959-969 *) nil_list; first_list; first_list;
   (* 136, 137 loop_vars, parse.y:972-986 *) first; tuple2;
   (* 138 string, parse.y:989-998 *) (fun a => match a with
     | [VTok t] => Some (VExpr (EStr (Str no_com (t_pos t) (t_str t) (t_triple t) (pos_add (t_pos t) (t_tok t)) (t_tok t))))
     | _ => None end);
   (* 139 ident, parse.y:1001-1004 *) (fun a => match a with
     | [VTok t] => Some (VExpr (EIdent (Ident no_com (t_pos t) (t_tok t)))) | _ => None end);
   (* 140 number, parse.y:1007-1010 *) (fun a => match a with
     | [VTok a; VTok _; VTok b] => Some (VExpr (ELit no_com (t_pos a) (t_tok a ++ %"." ++ t_tok b))) | _ => None end);
   (* 141, parse.y:1011-1014 *) (fun a => match a with
     | [VTok a; VTok _] => Some (VExpr (ELit no_com (t_pos a) (t_tok a ++ %"."))) | _ => None end);
   (* 142, parse.y:1015-1018 *) (fun a => match a with
     | [VTok d; VTok b] => Some (VExpr (ELit no_com (t_pos d) (%"." ++ t_tok b))) | _ => None end);
   (* 143, parse.y:1019-1022 *) (fun a => match a with
     | [VTok a] => Some (VExpr (ELit no_com (t_pos a) (t_tok a))) | _ => None end);
   (* 144 for_clause, parse.y:1025-1033 *) (fun a => match a with
     | [VTok f; VExpr v; VTok i; VExpr x] => Some (VExpr (EForC no_com (t_pos f) v (t_pos i) x)) | _ => None end);
   (* 145, 146 for_clause_with_if_clauses_opt, parse.y:1036-1046 *) singleton;
   (fun a => match a with [VList l; VTok i; VExpr c] => Some (VList (l ++ [EIfC no_com (t_pos i) c])) | _ => None end);
   (* 147, 148 for_clauses_with_if_clauses_opt, parse.y:1049-1056 *) first_list;
   (fun a => match a with [VList l; VList m] => Some (VList (l ++ m)) | _ => None end)].

(** ** Running *)
Record conf := Conf { k_stack : list (Z * value); k_input : list token }.
Inductive outcome := Accepted (stmts : list expr) | Rejected | Panicked.
Definition top (st : list (Z * value)) : Z := match st with (s, _) :: _ => s | [] => 0%Z end.
(** Reduction by rule [r] (build/parse.y.go:982-1018). *)
Definition reduce (r : Z) (c : conf) : conf + outcome :=
  let n := Z.to_nat (at_ yyR2 r) in
  let args := rev (map snd (firstn n (k_stack c))) in
  let st := skipn n (k_stack c) in
  if (r =? 1)%Z then
    match args with VStmts l _ :: _ => inr (Accepted l) | _ => inr Panicked end
  else
    match nth_error actions (Z.to_nat r - 1) with
    | Some f =>
        match f args with
        | Some v => inl (Conf ((goto_ (top st) (at_ yyR1 r), v) :: st) (k_input c))
        | None => inr Panicked
        end
    | None => inr Panicked
    end.
(** One turn of the loop of build/parse.y.go:846-2091 [Parse]. *)
Definition step (c : conf) : conf + outcome :=
  let s := top (k_stack c) in
  match k_input c with
  | [] =>
      if simple_state s then
        match default_action s 0 with
        | Reduce r => reduce r c
        | _ => inr Rejected
        end
      else inr Rejected
  | t :: rest =>
      match action s (terminal t) with
      | Shift s' => inl (Conf ((s', VTok t) :: k_stack c) rest)
      | Reduce r => reduce r c
      | Fail => inr Rejected
      | Stop => inr Panicked                       (* return without a file: never happens (ParseProofs) *)
      end
  end.
Fixpoint run (fuel : nat) (c : conf) : option outcome :=
  match fuel with
  | O => None
  | S f => match step c with inl c' => run f c' | inr o => Some o end
  end.
Definition initial (l : list token) : conf := Conf [(0%Z, VNone)] l.
(** build/lex.go:232-259 [parse] up to the assignment of comments (Attach.v), on the tokens of the lexer.  When the
    lexer fails, the parser has seen the tokens before (and may have failed on them). *)
Definition parse (data : bytes) : outcome :=
  match tokenize data with
  | Lexed l _ | LexFail l => match run (16 * List.length l + 10) (initial l) with Some o => o | None => Panicked end
  | LexLoop => Panicked
  end.
