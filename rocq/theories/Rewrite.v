(** The rewrites of build/rewrite.go that act on single nodes, as callbacks for the walker. *)
From Verif Require Import Base Ast Walk StrList Quote.

(** build/rewrite.go:63-73 [Rewriter]; tables are association lists / name lists. *)
Record rewriter := Rewriter {
  w_set : option (list bytes);                 (* RewriteSet, None = nil *)
  w_label_arg : list bytes;                    (* IsLabelArg: names mapped to true *)
  w_label_deny : list bytes;
  w_sortable_arg : list bytes;
  w_sortable_deny : list bytes;
  w_sortable_allow : list bytes;
  w_priority : list (bytes * Z);
  w_strip : bool;
  w_shorten : bool }.

(** build/rule.go:167-189 [Rule.Kind] on the callee: None stands for "" (not a dotted name). *)
Fixpoint dotted (e : expr) : option (list bytes) :=
  match e with
  | EIdent i => Some [i_name i]
  | EDot _ x _ _ n => option_map (fun l => l ++ [n]) (dotted x)
  | _ => None
  end.
(** build/rewrite.go:354-356 [callName]. *)
Definition kind_of (callee : expr) : bytes :=
  match dotted callee with Some l => join [c_dot] l | None => [] end.

(** build/rewrite.go:424-431 [argName]. *)
Definition arg_name (x : expr) : bytes :=
  match x with EAssign _ (EIdent i) _ _ _ _ => i_name i | _ => [] end.

(** build/rewrite.go:401-420 [ruleNamePriority]: a missing key has priority 0. *)
Definition rule_name_priority (prio : list (bytes * Z)) (rule arg : bytes) : Z :=
  match lookup (rule ++ [c_dot] ++ arg) prio with
  | Some v => v
  | None => match lookup arg prio with Some v => v | None => 0 end
  end.

(** build/rewrite.go:435-458 [namedArg], [namedArgs.Less]. *)
Record named_arg := NArg { n_prio : Z; n_name : bytes; n_index : nat; n_expr : expr }.
Definition named_less (p q : named_arg) : bool :=
  if negb (Z.eqb (n_prio p) (n_prio q)) then Z.ltb (n_prio p) (n_prio q)
  else if negb (beq (n_name p) (n_name q)) then blt (n_name p) (n_name q)
  else Nat.ltb (n_index p) (n_index q).

(** build/rewrite.go:374-378: the tail of named arguments; [named_tail l] = (head, tail). *)
Fixpoint named_tail (l : list expr) : list expr * list expr :=
  match l with
  | [] => ([], [])
  | x :: l' =>
      let (h, t) := named_tail l' in
      match h, arg_name x with
      | [], _ :: _ => ([], x :: t)
      | _, _ => (x :: h, t)
      end
  end.

(** build/rewrite.go:359-396 [sortCallArgs], the argument list of one call. *)
Definition sort_named (prio : list (bytes * Z)) (rule : bytes) (args : list expr) : list expr :=
  let (h, t) := named_tail args in
  let nargs := map (fun p => NArg (rule_name_priority prio rule (arg_name (snd p))) (arg_name (snd p)) (fst p) (snd p))
                   (enum_from 0 t) in
  if is_sorted named_less nargs then args
  else h ++ map n_expr (isort named_less nargs).
Definition callsort_node (w : rewriter) (stk : list expr) (e : expr) : expr :=
  match e with
  | ECall c x p args en k m =>
      if leave_alone stk e then e
      else
        let rule := match kind_of x with [] => %"<complex rule kind>" | r => r end in
        ECall c x p (sort_named (w_priority w) rule args) en k m
  | _ => e
  end.
Definition sortCallArgs (w : rewriter) (f : expr) : expr := Edit (callsort_node w) f.

(** build/rewrite.go:1353-1366 [argumentType]. *)
Definition argument_type (e : expr) : nat :=
  match e with
  | EUnary _ _ op _ => if beq op %"**" then 4 else if beq op %"*" then 3 else 1
  | EAssign _ _ _ _ _ _ => 2
  | _ => 1
  end.
(** build/rewrite.go:1370-1388 [reorderArguments] (arguments of parsed calls are never nil). *)
Definition arg_less (a b : expr) : bool := Nat.ltb (argument_type a) (argument_type b).
Definition reorder_args (args : list expr) : list expr :=
  if is_sorted arg_less args then args else isort arg_less args.
Definition reorder_node (stk : list expr) (e : expr) : expr :=
  match e with
  | ECall c x p args en k m => ECall c x p (reorder_args args) en k m
  | _ => e
  end.
Definition reorderArguments (f : expr) : expr := Edit reorder_node f.

(** build/rewrite.go:1392-1402 [editOctals]. *)
Definition is_digit (c : ascii) : bool := ((48 <=? bN c) && (bN c <=? 57))%N.
Definition octal_token (tok : bytes) : bytes :=
  match tok with
  | z :: ((d :: _) as r) => if Ascii.eqb z "0" && is_digit d then %"0o" ++ r else tok
  | _ => tok
  end.
Definition octal_node (stk : list expr) (e : expr) : expr :=
  match e with ELit c s tok => ELit c s (octal_token tok) | _ => e end.
Definition editOctals (f : expr) : expr := Edit octal_node f.

(** build/rewrite.go:1406-1431 [editFloats]. *)
Definition float_token (tok : bytes) : bytes :=
  if negb (contains_byte c_dot tok) then tok
  else
    let t := if has_prefix [c_dot] tok then "0"%char :: tok else tok in
    let strip m e := m ++ "e"%char :: trim_left (fun c => Ascii.eqb c "0" || Ascii.eqb c "+") e in
    match split2 "e"%char t with
    | (m, Some e) => strip m e
    | _ => match split2 "E"%char t with
           | (m, Some e) => strip m e
           | _ => t
           end
    end.
Definition float_node (stk : list expr) (e : expr) : expr :=
  match e with ELit c s tok => ELit c s (float_token tok) | _ => e end.
Definition editFloats (f : expr) : expr := Edit float_node f.

(** build/rewrite.go:1465-1471 [collapseEmpty]. *)
Definition collapse_node (stk : list expr) (e : expr) : expr :=
  match e with ECall c x p [] en k m => ECall c x p [] en k false | _ => e end.
Definition collapseEmpty (f : expr) : expr := Edit collapse_node f.

(** build/rewrite.go:1333-1340, the inner loop of [formatString]: [line[i:]] for the first
    index [i] with [i = n] or [line[i] <> ' ']; unchanged if there is none.  Go ranges over runes; a
    rune that starts at a byte other than a space is not a space, so bytes suffice. *)
Fixpoint dedent (n : nat) (line : bytes) : option bytes :=
  match line with
  | [] => None
  | c :: r =>
      match n with
      | 0 => Some line
      | S n' => if Ascii.eqb c c_sp then dedent n' r else Some line
      end
  end.
Definition dedent_line (n : nat) (line : bytes) : bytes :=
  match dedent n line with Some l => l | None => line end.
(** build/rewrite.go:1323-1349 [formatString]. *)
Fixpoint format_lines (diff : Z) (lines : list bytes) : list bytes :=
  match lines with
  | [] => []
  | line :: rest =>
      let l1 := if (0 <? diff)%Z then repeat c_sp (Z.to_nat diff) ++ line
                else dedent_line (Z.to_nat (- diff)) line in
      let l2 := match rest with [] => l1 | _ => trim_right (Ascii.eqb c_sp) l1 end in
      l2 :: format_lines diff rest
  end.
Definition format_string (value : bytes) (old new : Z) : bytes :=
  match split c_nl value with
  | [] => []
  | first :: rest => join [c_nl] (first :: format_lines (new - old) rest)
  end.
(** build/rewrite.go:1296-1319 [formatDocstrings]; nestedIndentation = 4 (build/print.go:31).
    Unquote's error is ignored in Go, the value is then "". *)
Definition docstring_body (depth : nat) (body : list expr) : list expr :=
  match body with
  | EStr s :: rest =>
      if s_triple s then
        let tok := format_string (s_token s) (p_rune (s_start s) - 1) (4 * Z.of_nat depth) in
        if beq tok (s_token s) then body
        else EStr (Str (s_com s) (s_start s)
                     (fst (fst (unquote tok)))
                     (s_triple s) (s_end s) tok) :: rest
      else body
  | _ => body
  end.

Definition docstring_node (stk : list expr) (e : expr) : expr :=
  match e with
  | EDef c p ps b n q k m t => EDef c p ps (docstring_body (List.length stk) b) n q k m t
  | _ => e
  end.
Definition formatDocstrings (f : expr) : expr := Edit docstring_node f.

(** build/rewrite.go:1434-1462 [removeParens]: which parentheses are removed. *)
Definition no_comments (c : comments) : bool :=
  match c_before c, c_after c, c_suffix c with [], [], [] => true | _, _, _ => false end.
Definition paren_removable (x : expr) : bool :=
  match x with
  | EComp _ _ _ _ _ _ _ | EDict _ _ _ _ _ | EIdent _ | EList _ _ _ _ _ | ELit _ _ _
  | EParen _ _ _ _ _ | ESet _ _ _ _ _ | EStr _ => true
  | ECall _ f _ _ _ _ _ => Z.eqb (p_line (start_pos f)) (p_line (end_pos f))
  | _ => false
  end.
(** [Edit(e, simplify)]; [simplify] itself calls Edit on the operand. *)
Fixpoint remove_parens (fuel : nat) (e : expr) : expr :=
  match fuel with
  | 0 => e
  | S n =>
      let e1 :=
        match e with
        | EParen c _ x _ multi =>
            if negb multi && no_comments c && paren_removable x then remove_parens n x else e
        | _ => e
        end in
      map_children (remove_parens n) e1
  end.
Definition removeParens (f : expr) : expr := remove_parens (height f) f.

(** ** Labels: build/rewrite.go:222-349 [fixLabels] *)
(** \w in Go regular expressions. *)
Definition is_word (c : ascii) : bool :=
  is_digit c || ((65 <=? bN c) && (bN c <=? 90))%N || ((97 <=? bN c) && (bN c <=? 122))%N || Ascii.eqb c "_".
Fixpoint word_prefix (s : bytes) : bytes :=
  match s with c :: r => if is_word c then c :: word_prefix r else [] | [] => [] end.
(** The end of labelRE (text without colon, then optionally a colon and a nonempty text without
    colon, then the end) at the current position: ($4, $5). *)
Definition match_target (s : bytes) : option (bytes * bytes) :=
  match split2 c_colon s with
  | (a, None) => Some (a, [])
  | (a, Some []) => None
  | (a, Some b) => if contains_byte c_colon b then None else Some (a, b)
  end.
(** [(?:.+/)] greedily: the longest nonempty newline-free prefix followed by '/' after which the
    rest matches; result (prefix with slash, $4, $5).  [ne]: at least one character before. *)
Fixpoint match_dirs (ne : bool) (pre s : bytes) : option (bytes * (bytes * bytes)) :=
  match s with
  | [] => None
  | c :: r =>
      let here :=
        if ne && Ascii.eqb c c_slash
        then option_map (fun m => (pre ++ [c], m)) (match_target r) else None in
      if Ascii.eqb c c_nl then None
      else match match_dirs true (pre ++ [c]) r with
           | Some z => Some z
           | None => here
           end
  end.
Definition match_path (s : bytes) : option (bytes * (bytes * bytes)) :=
  match match_dirs false [] s with
  | Some z => Some z
  | None => option_map (fun m => ([], m)) (match_target s)
  end.
(** labelRE (rewrite.go:252-258): ($1, $3, $4, $5).  [strip]: the alternative prefix is empty. *)
Definition match_label (strip : bool) (s : bytes) : option (bytes * bytes * bytes * bytes) :=
  let alt1 :=
    let '(pre, r, rest) :=
      if has_prefix [c_at] s then
        let r := word_prefix (skipn 1 s) in
        (c_at :: r, r, skipn (1 + List.length r) s)
      else ([], [], s) in
    if has_prefix %"//" rest && (negb (has_prefix [c_at] s) || negb (beq r []))
    then option_map (fun z => (pre ++ %"//" ++ fst z ++ fst (snd z), r, fst (snd z), snd (snd z)))
           (match_path (skipn 2 rest))
    else None in
  match alt1 with
  | Some m => Some m
  | None =>
      if strip then option_map (fun z => (fst z ++ fst (snd z), [], fst (snd z), snd (snd z))) (match_path s)
      else None
  end.
(** filepath.Dir for slash-separated relative paths (filepath.Clean not modelled: paths are
    assumed clean). *)
Definition path_dir (p : bytes) : bytes :=
  if contains_byte c_slash p then
    match trim_right (Ascii.eqb c_slash) (firstn (List.length p - List.length (after_last_slash p)) p) with
    | [] => [c_slash]
    | d => d
    end
  else [c_dot].
(** build/rewrite.go:260-293 shortenLabel on a string value. *)
Definition shorten_value (strip shorten : bool) (path v0 : bytes) : bytes :=
  let v1 :=
    if strip && has_prefix %"//" v0 then
      if beq (path_dir path) [c_dot] || negb (has_prefix %"//:" v0) then skipn 2 v0 else v0
    else v0 in
  let v :=
    if shorten then
      let this := (if strip then [] else %"//") ++ path_dir path in
      if beq v1 this then c_colon :: path_base v1
      else if has_prefix (this ++ [c_colon]) v1 then skipn (List.length this) v1
      else v1
    else v1 in
  match match_label strip v with
  | None => v
  | Some (m1, m3, m4, m5) =>
      if negb (beq m4 []) && beq m4 m5 then m1
      else if negb (beq m3 []) && beq m4 [] && beq m3 m5 then c_at :: m3
      else v
  end.
Definition set_value (s : strlit) (v : bytes) : strlit :=
  Str (s_com s) (s_start s) v (s_triple s) (s_end s) (s_token s).
Definition shorten_label (w : rewriter) (path : bytes) (e : expr) : expr :=
  match e with
  | EStr s => EStr (set_value s (shorten_value (w_strip w) (w_shorten w) path (s_value s)))
  | _ => e
  end.
(** build/rewrite.go:223-250 joinLabel. *)
Definition join_label (e : expr) : expr :=
  match e with
  | EBinary c (EStr a) _ op _ (EStr b) =>
      if beq op %"+" && has_prefix %"//" (s_value a) && negb (contains_byte c_sp (s_value a))
         && negb (contains_byte c_sp (s_value b))
      then
        let ca := s_com a in let cb := s_com b in
        EStr (Str (Comments (c_before c ++ c_before ca ++ c_before cb)
                            (c_suffix c ++ c_suffix ca ++ c_suffix cb) (c_after c))
                  (s_start a) (s_value a ++ s_value b) (s_triple a) (s_end a) (s_token a))
      else e
  | _ => e
  end.
(** build/rewrite.go:298-320 fixLabelsWithinAContainer. *)
Definition fix_label_elem (w : rewriter) (path : bytes) (x : expr) : expr :=
  if leave_alone1 x then x else shorten_label w path (join_label x).
Definition fix_container (w : rewriter) (path : bytes) (e : expr) : expr :=
  match e with
  | EList c s l en m => EList c s (map (fix_label_elem w path) l) en m
  | ESet c s l en m => ESet c s (map (fix_label_elem w path) l) en m
  | _ => shorten_label w path (join_label e)
  end.
(** build/rewrite.go:613-637 [findAndModifyStrings] (dictionary entries are key-value pairs). *)
Fixpoint find_modify (fuel : nat) (cb : expr -> expr) (x : expr) : expr :=
  match fuel with
  | 0 => x
  | S n =>
      let x1 := cb x in
      match x1 with
      | EBinary c a p op b y =>
          if beq op %"+" then EBinary c (find_modify n cb a) p op b (find_modify n cb y) else x1
      | ECall c (EIdent i) p (EDict dc ds dl de dm :: args) en k m =>
          if beq (i_name i) %"select"
          then ECall c (EIdent i) p
                 (EDict dc ds (map (fun kv => match kv with EKV c1 key p1 v => EKV c1 key p1 (find_modify n cb v) | _ => kv end) dl) de dm :: args)
                 en k m
          else x1
      | _ => x1
      end
  end.
Definition find_and_modify (cb : expr -> expr) (x : expr) : expr := find_modify (height x) cb x.

(** build/rewrite.go:322-348: the callback of fixLabels. *)
Definition fix_label_arg (w : rewriter) (path kind : bytes) (arg : expr) : expr :=
  if leave_alone1 arg then arg
  else match arg with
       | EAssign c (EIdent key) p op b rhs =>
           if negb (mem_bytes (i_name key) (w_label_arg w))
              || mem_bytes (kind ++ [c_dot] ++ i_name key) (w_label_deny w)
              || leave_alone1 rhs
           then arg
           else EAssign c (EIdent key) p op b (find_and_modify (fix_container w path) rhs)
       | _ => arg
       end.
Definition label_node (w : rewriter) (path : bytes) (stk : list expr) (e : expr) : expr :=
  match e with
  | ECall c x p args en k m =>
      if leave_alone stk e then e
      else ECall c x p (map (fix_label_arg w path (kind_of x)) args) en k m
  | _ => e
  end.
Definition file_path (f : expr) : bytes := match f with EFile _ m _ => f_path m | _ => [] end.
Definition file_type (f : expr) : ftype := match f with EFile _ m _ => f_type m | _ => TypeDefault end.
Definition fixLabels (w : rewriter) (f : expr) : expr := Edit (label_node w (file_path f)) f.

(** ** String lists in files: build/rewrite.go:461-529 [sortStringLists].
    [unsafe_off] is disabled("unsafesort"), [allow] the AllowSort list, [strip] the global
    tables.StripLabelLeadingSlashes. *)
Definition sort_list_arg (w : rewriter) (unsafe_off : bool) (allow : list bytes) (strip : bool)
    (kind : bytes) (arg : expr) : expr :=
  if leave_alone1 arg then arg
  else match arg with
       | EAssign c (EIdent key) p op b rhs =>
           let context := kind ++ [c_dot] ++ i_name key in
           if mem_bytes context (w_sortable_deny w) then arg
           else if mem_bytes (i_name key) (w_sortable_arg w) || mem_bytes context (w_sortable_allow w)
                   || (negb unsafe_off && mem_bytes context allow)
           then EAssign c (EIdent key) p op b
                  (if do_not_sort arg then deduplicate_list rhs
                   else find_and_modify (SortStringList strip) rhs)
           else arg
       | _ => arg
       end.
Definition listsort_node (w : rewriter) (unsafe_off : bool) (allow : list bytes) (strip : bool)
    (ty : ftype) (stk : list expr) (e : expr) : expr :=
  match e with
  | ECall c x p args en k m =>
      match ty with
      | TypeDefault | TypeBzl => e
      | _ => if leave_alone stk e then e
             else ECall c x p (map (sort_list_arg w unsafe_off allow strip (kind_of x)) args) en k m
      end
  | EAssign c lhs p op b rhs =>
      if negb unsafe_off && keep_sorted e
      then EAssign c lhs p op b (find_and_modify (SortStringList strip) rhs) else e
  | EKV c key p v =>
      if negb unsafe_off && keep_sorted e
      then EKV c key p (find_and_modify (SortStringList strip) v) else e
  | EList _ _ (first :: _) _ _ =>
      if negb unsafe_off && (keep_sorted e || keep_sorted first)
      then find_and_modify (SortStringList strip) e else e
  | _ => e
  end.
Definition sortStringLists (w : rewriter) (unsafe_off : bool) (allow : list bytes) (strip : bool) (f : expr) : expr :=
  Edit (listsort_node w unsafe_off allow strip (file_type f)) f.

(** build/rewrite.go:1190-1209 [sortUseRepoPositionals]. *)
Definition use_repo_node (strip : bool) (stk : list expr) (e : expr) : expr :=
  match e with
  | ECall c (EIdent i) p ((a0 :: a1 :: _ :: _) as args) en k m =>
      if beq (i_name i) %"use_repo" then
        if do_not_sort e || do_not_sort a0 || do_not_sort a1
        then ECall c (EIdent i) p (deduplicate args) en k m
        else ECall c (EIdent i) p (sort_string_exprs strip args) en k m
      else e
  | _ => e
  end.
Definition sortUseRepoPositionals (strip : bool) (f : expr) : expr := Edit (use_repo_node strip) f.
