(** Automatic fixes: edit/fix.go (buildozer fix) and warn/warn_cosmetic.go (the lint package-on-top).  A rule is given by the
    name of its kind and its arguments, a file by its statements; each function returns whether it says that it changed
    something, and the changed arguments or statements. *)
From Verif Require Import Base Utf8 Ast Walk Labels Rewrite RuleApi EditList EditFile.

(** ** splitOptions *)
(** unicode.IsSpace (Go standard library) *)
Definition is_space (r : N) : bool :=
  ((9 <=? r) && (r <=? 13) || (r =? 32) || (r =? 133) || (r =? 160) || (r =? 5760) || (8192 <=? r) && (r <=? 8202) ||
   (r =? 8232) || (r =? 8233) || (r =? 8239) || (r =? 8287) || (r =? 12288))%N.
Definition flush (cur : bytes) (l : list bytes) : list bytes := match cur with [] => l | _ => cur :: l end.
(** strings.Fields (Go standard library); [cur] is the field read so far; the fuel is the length of the text. *)
Fixpoint fields_loop (fuel : nat) (cur s : bytes) : list bytes :=
  match fuel, s with
  | O, _ | _, [] => flush cur []
  | S n, _ =>
      let (r, w) := decode_rune s in
      if is_space r then flush cur (fields_loop n [] (skipn w s)) else fields_loop n (cur ++ firstn w s) (skipn w s)
  end.
Definition Fields (s : bytes) : list bytes := fields_loop (List.length s) [] s.
(** edit/fix.go:56-80 [splitStrings], one element; the second result tells if it was split. *)
Definition split_string (x : expr) : list expr * bool :=
  match x with
  | EStr s =>
      if contains %" " (s_value s) && negb (contains [c_sq; c_quote] (s_value s)) && negb (contains %"$(location" (s_value s))
      then (match Fields (s_value s) with
            | [] => []
            | v :: vs => plain_str (s_com s) v :: map (plain_str no_com) vs
            end, true)
      else ([x], false)
  | _ => ([x], false)
  end.
Definition splitStrings (l : list expr) : bool * list expr :=
  (existsb (fun x => snd (split_string x)) l, flat_map (fun x => fst (split_string x)) l).
(** Replacing the value of the first definition of an attribute, if there is one (Go edits the value in place). *)
Definition edit_attr (key : bytes) (f : expr -> expr) (args : list expr) : list expr :=
  match Attr key args with Some v => set_first key (f v) args | None => args end.
Definition attr_says (key : bytes) (p : expr -> bool) (args : list expr) : bool :=
  match Attr key args with Some v => p v | None => false end.
(** edit/fix.go:39-54 [splitOptionsWithSpaces] *)
Definition split_attr (key : bytes) (args : list expr) : bool * list expr :=
  (attr_says key (fun v => existsb (fun l => fst (splitStrings l)) (AllLists v)) args,
   edit_attr key (map_lists (fun l => snd (splitStrings l))) args).
Definition splitOptionsWithSpaces (args : list expr) : bool * list expr :=
  let (b1, args1) := split_attr %"copts" args in
  let (b2, args2) := split_attr %"linkopts" args1 in (b1 || b2, args2).

(** ** shortenLabels *)
(** edit/types.go:69-77 [ContainsLabels]; [label_attrs]: the attributes that typeOf maps to LABEL or LABEL_LIST. *)
Definition ContainsLabels (label_attrs : list bytes) (kind attr : bytes) : bool :=
  if beq kind %"package_group" && beq attr %"packages" then false else mem_bytes attr label_attrs.
(** edit/fix.go:83-101 [shortenLabels] *)
Definition shortens (pkg : bytes) (x : expr) : bool := match x with EStr s => negb (beq (s_value s) (shorten (s_value s) pkg)) | _ => false end.
Definition set_str (v : bytes) (s : strlit) : strlit := Str (s_com s) (s_start s) v (s_triple s) (s_end s) (s_token s).
Definition shorten_elem (pkg : bytes) (x : expr) : expr := match x with EStr s => EStr (set_str (shorten (s_value s) pkg) s) | _ => x end.
Definition shorten_attr (label_attrs : list bytes) (kind pkg : bytes) (st : bool * list expr) (key : bytes) : bool * list expr :=
  if ContainsLabels label_attrs kind key
  then (fst st || attr_says key (fun v => existsb (existsb (shortens pkg)) (AllLists v)) (snd st),
        edit_attr key (map_lists (map (shorten_elem pkg))) (snd st))
  else st.
Definition shortenLabels (label_attrs : list bytes) (kind pkg : bytes) (args : list expr) : bool * list expr :=
  fold_left (shorten_attr label_attrs kind pkg) (AttrKeys args) (false, args).

(** ** removeVisibility, removeTestOnly *)
(** The arguments of the package declaration. *)
Definition package_args (stmts : list (option expr)) : option (list expr) :=
  match ExistingPackageDeclaration stmts with
  | Some s => match stmt_call s with Some (_, args) => Some args | None => None end
  | None => None
  end.
(** edit/fix.go:103-127 [removeVisibility]; sort.Strings is [isort]: bytes are totally ordered. *)
Definition default_visibility (stmts : list (option expr)) : list bytes :=
  match package_args stmts with
  | Some pargs =>
      match Attr %"default_visibility" pargs with
      | Some _ => match AttrStrings %"default_visibility" pargs with Some l => l | None => [] end
      | None => [%"//visibility:private"]
      end
  | None => [%"//visibility:private"]
  end.
Fixpoint same_strings (l l' : list bytes) : bool :=
  match l, l' with
  | [], [] => true
  | x :: l, y :: l' => beq x y && same_strings l l'
  | _, _ => false
  end.
Definition removeVisibility (stmts : list (option expr)) (args : list expr) : bool * list expr :=
  match AttrStrings %"visibility" args with
  | None | Some [] => (false, args)
  | Some l =>
      let d := default_visibility stmts in
      if Nat.eqb (List.length l) (List.length d) && same_strings (isort blt l) (isort blt d)
      then (true, snd (DelAttr %"visibility" args))
      else (false, args)
  end.
(** edit/fix.go:129-154 [removeTestOnly]: None means that the default is not known. *)
Definition default_testonly (stmts : list (option expr)) (kind pkg : bytes) : option bool :=
  if has_suffix %"_test" kind || beq kind %"test_suite" then Some true
  else
    match match package_args stmts with Some a => match Attr %"default_testonly" a with Some _ => Some a | None => None end | None => None end with
    | None => Some (has_prefix %"javatests/" pkg)
    | Some pargs =>
        if beq (AttrLiteral %"default_testonly" pargs) %"1" then Some true
        else if beq (AttrLiteral %"default_testonly" pargs) %"0" then Some false
        else None
    end.
Definition removeTestOnly (stmts : list (option expr)) (kind pkg : bytes) (args : list expr) : bool * list expr :=
  match default_testonly stmts kind pkg with
  | None => (false, args)
  | Some def =>
      if beq (AttrLiteral %"testonly" args) (if def then %"1" else %"0")
      then (true, snd (DelAttr %"testonly" args))
      else (false, args)
  end.

(** ** genruleRenameDepsTools, genruleFixHeuristicLabels *)
(** edit/fix.go:156-158 [genruleRenameDepsTools] *)
Definition genruleRenameDepsTools (kind : bytes) (args : list expr) : bool * list expr :=
  if beq kind %"genrule" then match RenameAttribute args %"deps" %"tools" with Some a => (true, a) | None => (false, args) end else (false, args).
(** edit/fix.go:161-193 [explicitHeuristicLabels]: the characters of labels. *)
Definition label_char (c : ascii) : bool :=
  let n := bN c in
  ((97 <=? n) && (n <=? 122) || (65 <=? n) && (n <=? 90) || (48 <=? n) && (n <=? 58) || (n =? 47) || (n =? 95) || (n =? 46) ||
   (n =? 43) || (n =? 45))%N.
(** regexp.FindAllString for the two runs of characters: maximal runs, label characters and others in turn (a regular
    expression reads an invalid byte as a character outside the set, like any character that is not ASCII). *)
Fixpoint runs (s : bytes) : list bytes :=
  match s with
  | [] => []
  | c :: s' =>
      match runs s' with
      | (d :: r) :: l => if Bool.eqb (label_char c) (label_char d) then (c :: d :: r) :: l else [c] :: (d :: r) :: l
      | l => [c] :: l
      end
  end.
(** the loop over the parts; [can] is canChange; [labels] is the set *)
Fixpoint mark_loop (labels : list bytes) (can : bool) (parts : list bytes) : list bytes * bool :=
  match parts with
  | [] => ([], false)
  | part :: parts' =>
      let can := if beq part %"location" || beq part %"locations" then false else can in
      match (if mem_bytes part labels then Some part
             else if mem_bytes (c_colon :: part) labels then Some (c_colon :: part) else None) with
      | None => let (l, b) := mark_loop labels can parts' in (part :: l, b)
      | Some label =>
          if can then let (l, _) := mark_loop labels can parts' in ((%"$(location " ++ label ++ %")")%list :: l, true)
          else let (l, b) := mark_loop labels true parts' in (part :: l, b)
      end
  end.
Definition explicitHeuristicLabels (s : bytes) (labels : list bytes) : bytes :=
  let (l, changed) := mark_loop labels true (runs s) in if changed then List.concat l else s.
(** edit/fix.go:195-207 [addLabels] *)
Definition addLabels (args : list expr) (key : bytes) : list bytes :=
  match Attr key args with
  | Some v => flat_map (flat_map (fun x => match x with EStr s => [s_value s] | _ => [] end)) (AllLists v)
  | None => []
  end.
(** edit/edit.go:473-483 [AllStrings], assigning to the strings *)
Fixpoint map_strings (f : strlit -> strlit) (e : expr) : expr :=
  match e with
  | EStr s => EStr (f s)
  | EBinary c x p op b y => if beq op %"+" then EBinary c (map_strings f x) p op b (map_strings f y) else e
  | _ => e
  end.
Fixpoint AllStrings (e : expr) : list strlit :=
  match e with
  | EStr s => [s]
  | EBinary _ x _ op _ y => if beq op %"+" then AllStrings x ++ AllStrings y else []
  | _ => []
  end.
(** edit/fix.go:212-234 [genruleFixHeuristicLabels] *)
Definition genruleFixHeuristicLabels (kind : bytes) (args : list expr) : bool * list expr :=
  if negb (beq kind %"genrule") then (false, args)
  else
    let labels := addLabels args %"tools" ++ addLabels args %"srcs" in
    (attr_says %"cmd" (fun v => existsb (fun s => negb (beq (explicitHeuristicLabels (s_value s) labels) (s_value s))) (AllStrings v)) args,
     edit_attr %"cmd" (map_strings (fun s => set_str (explicitHeuristicLabels (s_value s) labels) s)) args).

(** ** varref, mergeLiteralLists (on the call) *)
(** edit/fix.go:247-264 [removeVarref] with edit/edit.go:979-991 [EditFunction]: the callback *)
Definition varref_node (stk : list expr) (e : expr) : expr :=
  match e with
  | ECall c (EIdent i) _ [EStr s] _ _ _ =>
      if beq (i_name i) %"varref"
      then EStr (Str (Comments (c_before (s_com s)) (c_suffix (s_com s) ++ c_suffix c) (c_after (s_com s)))
                   (s_start s) (%"$(" ++ s_value s ++ %")")%list (s_triple s) (s_end s) (s_token s))
      else e
  | _ => e
  end.
(** The call itself cannot be replaced: the caller ignores what Edit returns for the root; but its string is changed. *)
Definition removeVarref (call : expr) : expr :=
  match call with
  | ECall c (EIdent i) p [EStr s] en k m =>
      if beq (i_name i) %"varref" then ECall c (EIdent i) p [varref_node [] call] en k m else Edit varref_node call
  | _ => Edit varref_node call
  end.
(** edit/fix.go:280-296 [evaluateListConcatenation].  append may write behind the end of the first list's elements; nothing
    reads them there. *)
Fixpoint evaluateListConcatenation (e : expr) : expr :=
  match e with
  | EBinary _ x _ op _ y =>
      if beq op %"+" then
        match evaluateListConcatenation x, evaluateListConcatenation y with
        | EList c s l en m, EList _ _ l' _ _ => EList c s (l ++ l') en m
        | _, _ => e
        end
      else e
  | _ => e
  end.
(** edit/fix.go:300-308 [mergeLiteralLists] *)
Definition mergeLiteralLists (call : expr) : expr := Edit (fun _ => evaluateListConcatenation) call.

(** ** Fixes of the statements *)
(** edit/fix.go:319-344 [usePlusEqual], one statement; the second result tells if it was changed. *)
Definition plus_equal (s : option expr) : option expr * bool :=
  match s with
  | Some (ECall c (EDot _ (EIdent obj) _ _ n) _ [arg] _ _ _) =>
      if beq n %"extend" then (Some (EAssign c (EIdent obj) no_pos %"+=" false arg), true)
      else if beq n %"append" then (Some (EAssign c (EIdent obj) no_pos %"+=" false (EList no_com no_pos [arg] (End no_com no_pos) false)), true)
      else (s, false)
  | _ => (s, false)
  end.
Definition usePlusEqual (stmts : list (option expr)) : bool * list (option expr) :=
  (existsb (fun s => snd (plus_equal s)) stmts, map (fun s => fst (plus_equal s)) stmts).

(** edit/fix.go:410-440 [movePackageDeclarationToTheTop]: what the loop leaves where it is. *)
Definition move_skips (s : option expr) : bool :=
  match s with
  | Some (ECommentBlock _ _) | Some (EStr _) | Some (EAssign _ _ _ _ _ _) | Some (ELoad _ _ _ _ _ _ _) => true
  | _ => false
  end.
(** The loop: None is "the file was ok"; [pkg] is the declaration, [inserted] tells if it has been inserted and [removed] if
    it has been met (Go compares pointers: it is the first package() among the statements). *)
Fixpoint move_loop (pkg : option expr) (inserted removed : bool) (l : list (option expr)) : option (list (option expr)) :=
  match l with
  | [] => Some []
  | s :: l' =>
      if move_skips s then option_map (cons s) (move_loop pkg inserted removed l')
      else if ExprToRule s %"package" && negb removed
      then if inserted then move_loop pkg inserted true l' else None
      else option_map (fun r => if inserted then s :: r else pkg :: s :: r) (move_loop pkg true removed l')
  end.
Definition movePackageDeclarationToTheTop (stmts : list (option expr)) : bool * list (option expr) :=
  match ExistingPackageDeclaration stmts with
  | None => (false, stmts)
  | Some pkg => match move_loop pkg false false stmts with Some l => (true, l) | None => (false, stmts) end
  end.

(** edit/fix.go:446-462 [moveToPackage]: a statement that is moved *)
Definition moved_arg (attr : bytes) (s : option expr) : option (expr * comments) :=
  match s with
  | Some (ECall c _ _ [v] _ _ _) => if ExprToRule s attr then Some (v, c) else None
  | _ => None
  end.
(** edit/fix.go:456-457: SetAttr, and the comments of the definition *)
Fixpoint comment_first (key : bytes) (c : comments) (args : list expr) : list expr :=
  match args with
  | [] => []
  | x :: args' => if defines key x then set_com c x :: args' else x :: comment_first key c args'
  end.
Definition to_package (attr : bytes) (args : list expr) (vc : expr * comments) : list expr :=
  comment_first attr (snd vc) (SetAttr attr (fst vc) args).
(** Replacing the arguments of the first package(). *)
Fixpoint edit_package (f : list expr -> list expr) (l : list (option expr)) : list (option expr) :=
  match l with
  | [] => []
  | s :: l' =>
      if ExprToRule s %"package"
      then match s with Some (ECall c x p args en k m) => Some (ECall c x p (f args) en k m) | _ => s end :: l'
      else s :: edit_package f l'
  end.
(** edit/fix.go:446-462 [moveToPackage].  The loop reads the statements as they were; PackageDeclaration finds the declaration
    among them and edits it in place, or else inserts one into f.Stmt, which is then overwritten with the statements that the
    loop kept. *)
Definition moveToPackage (attr : bytes) (stmts : list (option expr)) : bool * list (option expr) :=
  let moved := flat_map (fun s => opt_list (fun v => v) (moved_arg attr s)) stmts in
  let kept := filter (fun s => match moved_arg attr s with Some _ => false | None => true end) stmts in
  (match moved with [] => false | _ => true end, edit_package (fun args => fold_left (to_package attr) moved args) kept).
(** edit/fix.go:468-470 [moveLicenses] *)
Definition moveLicenses (stmts : list (option expr)) : bool * list (option expr) := moveToPackage %"licenses" stmts.

(** ** The lint package-on-top *)
(** warn/warn_cosmetic.go:54-61: what may come first *)
Definition top_skips (s : option expr) : bool :=
  match s with
  | None | Some (EStr _) | Some (ECommentBlock _ _) | Some (ELoad _ _ _ _ _ _ _) => true
  | _ => ExprToRule s %"licenses" || ExprToRule s %"package_group"
  end.
Definition is_assign (s : option expr) : bool := match s with Some (EAssign _ _ _ _ _ _) => true | _ => false end.
(** warn/warn_cosmetic.go:41-73: firstStmtIndex (None is -1) and the indexes of the misplaced declarations *)
Fixpoint top_scan (i : nat) (first : option nat) (l : list (option expr)) : option nat * list nat :=
  match l with
  | [] => (first, [])
  | s :: l' =>
      if is_assign s then (first, [])
      else if top_skips s then top_scan (S i) first l'
      else if ExprToRule s %"package"
      then match first with
           | None => top_scan (S i) None l'
           | Some _ => let (f, ms) := top_scan (S i) first l' in (f, i :: ms)
           end
      else top_scan (S i) (match first with None => Some i | Some _ => first end) l'
  end.
(** warn/warn_cosmetic.go:83-102: the replacements (index of the cell, new statement) *)
Fixpoint top_moves (ms : list nat) (i first offset : nat) (l : list (option expr)) : list (nat * option expr) :=
  match l with
  | [] => []
  | s :: l' =>
      if Nat.ltb i first then top_moves ms (S i) first offset l'
      else if existsb (Nat.eqb i) ms
      then (first, s) :: (if Nat.eqb offset 1 then [] else top_moves ms (S i) (S first) (offset - 1) l')
      else (i + offset, s) :: top_moves ms (S i) first offset l'
  end.
(** warn/warn_cosmetic.go:34-113 [packageOnTopWarning]: for each finding, the index of the statement and the replacements *)
Definition packageOnTopWarning (ty : ftype) (stmts : list (option expr)) : list (nat * list (nat * option expr)) :=
  match ty with
  | TypeWorkspace | TypeModule => []
  | _ =>
      let (first, ms) := top_scan 0 None stmts in
      let first := match first with Some i => i | None => 0 end in
      map (fun i => (i, top_moves ms 0 first (List.length ms) stmts)) ms
  end.
(** Storing into the cells of f.Stmt, as warn/warn.go:293-297 does for each finding that is not disabled ([on]). *)
Fixpoint set_nth {A} (n : nat) (v : A) (l : list A) : list A :=
  match l, n with
  | [], _ => []
  | _ :: l', 0 => v :: l'
  | x :: l', S n' => x :: set_nth n' v l'
  end.
Definition apply_moves (l : list (option expr)) (rs : list (nat * option expr)) : list (option expr) :=
  fold_left (fun l r => set_nth (fst r) (snd r) l) rs l.
Definition packageOnTopFix (on : nat -> bool) (ty : ftype) (stmts : list (option expr)) : list (option expr) :=
  fold_left (fun l f => if on (fst f) then apply_moves l (snd f) else l) (packageOnTopWarning ty stmts) stmts.
