(** edit/edit.go, edit/buildozer.go: edits of a file's statements. *)
From Verif Require Import Base Ast Walk Rewrite RuleApi Loads.

(** ** The package declaration *)
(** edit/edit.go:118-128 [ExprToRule]. *)
Definition ExprToRule (s : option expr) (kind : bytes) : bool :=
  match s with Some e => is_function_call e kind | None => false end.
(** edit/edit.go:131-138 [ExistingPackageDeclaration]: the statement. *)
Definition ExistingPackageDeclaration (stmts : list (option expr)) : option (option expr) :=
  find (fun s => ExprToRule s %"package") stmts.
(** edit/edit.go:203-210 [isWorkspaceCall]. *)
Definition isWorkspaceCall (s : option expr) : bool := ExprToRule s %"workspace".
(** The statements a loop skips, and the rest. *)
Fixpoint span {A} (p : A -> bool) (l : list A) : list A * list A :=
  match l with
  | [] => ([], [])
  | x :: l' => if p x then let (a, b) := span p l' in (x :: a, b) else ([], l)
  end.
(** edit/edit.go:141-174 [PackageDeclaration]: the statements afterwards (the result is the declaration
    among them). *)
Definition package_skips (s : option expr) : bool :=
  match s with
  | Some (ECommentBlock _ _) | Some (ELoad _ _ _ _ _ _ _) | Some (EStr _) => true
  | _ => isWorkspaceCall s
  end.
Definition new_call (kind : bytes) (args : list expr) : option expr :=
  Some (ECall no_com (EIdent (Ident no_com no_pos kind)) no_pos args (End no_com no_pos) false false).
Definition PackageDeclaration (stmts : list (option expr)) : list (option expr) :=
  match ExistingPackageDeclaration stmts with
  | Some _ => stmts
  | None => let (a, b) := span package_skips stmts in a ++ new_call %"package" [] :: b
  end.
(** edit/edit.go:192-201 [isEmptyPackage]. *)
Definition isEmptyPackage (s : option expr) : bool :=
  match s with Some (ECall _ (EIdent i) _ [] _ _ _) => beq (i_name i) %"package" | _ => false end.
(** edit/edit.go:182-191 [RemoveEmptyPackage]. *)
Definition RemoveEmptyPackage (stmts : list (option expr)) : list (option expr) :=
  filter (fun s => negb (isEmptyPackage s)) stmts.
(** edit/edit.go:227-235 [isEmptyUseRepoCall]. *)
Definition isEmptyUseRepoCall (s : option expr) : bool :=
  match s with Some (ECall _ (EIdent i) _ [_] _ _ _) => beq (i_name i) %"use_repo" | _ => false end.
(** edit/edit.go:213-225 [RemoveEmptyUseRepoCalls]. *)
Definition RemoveEmptyUseRepoCalls (ty : ftype) (stmts : list (option expr)) : list (option expr) :=
  match ty with TypeModule => filter (fun s => negb (isEmptyUseRepoCall s)) stmts | _ => stmts end.

(** ** Insertion *)
(** edit/edit.go:238-245 [InsertAfter]; here [i] counts the statements before the new one (the Go
    index plus one). *)
Definition InsertAfter (i : nat) (stmts : list (option expr)) (e : option expr) : list (option expr) :=
  firstn i stmts ++ e :: skipn i stmts.
(** edit/edit.go:248-261 [IndexOfLast], plus one; 0 for -1. *)
Fixpoint IndexOfLast (stmts : list (option expr)) (kind : bytes) : nat :=
  match stmts with
  | [] => 0
  | s :: l => match IndexOfLast l kind with
              | 0 => if ExprToRule s kind then 1 else 0
              | n => S n
              end
  end.
(** edit/edit.go:273-282 [InsertAtEnd]: the loop from the end, counting the remaining statements. *)
Definition is_comment_block (s : option expr) : bool :=
  match s with Some (ECommentBlock _ _) => true | _ => false end.
Definition InsertAtEnd (stmts : list (option expr)) (e : option expr) : list (option expr) :=
  InsertAfter (List.length (snd (span is_comment_block (rev stmts)))) stmts e.
(** edit/edit.go:264-270 [InsertAfterLastOfSameKind]. *)
Definition InsertAfterLastOfSameKind (stmts : list (option expr)) (kind : bytes) (e : option expr) : list (option expr) :=
  match IndexOfLast stmts kind with
  | 0 => InsertAtEnd stmts e
  | n => InsertAfter n stmts e
  end.

(** strconv.Atoi: an optional sign and decimal digits, within int64. *)
Definition is_digit (c : ascii) : bool := (48 <=? N_of_ascii c)%N && (N_of_ascii c <=? 57)%N.
Definition dec (l : bytes) : option Z :=
  match l with
  | [] => None
  | _ => if forallb is_digit l
         then Some (fold_left (fun n c => 10 * n + (Z.of_N (N_of_ascii c) - 48))%Z l 0%Z) else None
  end.
Definition Atoi (s : bytes) : option Z :=
  let r := match s with
           | c :: s' => if Ascii.eqb c "-" then option_map Z.opp (dec s')
                        else if Ascii.eqb c "+" then dec s' else dec s
           | [] => None
           end in
  match r with
  | Some n => if (- 2 ^ 63 <=? n)%Z && (n <? 2 ^ 63)%Z then Some n else None
  | None => None
  end.
(** edit/edit.go:295-327 [IndexOfRuleByName]: None for -1. *)
Definition line_of (name : bytes) : Z :=
  match name with
  | c :: n => if Ascii.eqb c "%" then match Atoi n with Some z => z | None => (-1)%Z end else (-1)%Z
  | [] => (-1)%Z
  end.
Definition found_by_name (path : bytes) (stmts : list (option expr)) (name : bytes) (s : option expr) : bool :=
  match stmt_call s with
  | Some (x, args) =>
      beq (name_in_file path stmts x args) name || Z.eqb (p_line (start_pos x)) (line_of name)
      || (beq name %"__pkg__" && ExprToRule s %"package")
  | None => false
  end.
Fixpoint find_index {A} (p : A -> bool) (l : list A) : option nat :=
  match l with [] => None | x :: l' => if p x then Some 0 else option_map S (find_index p l') end.
Definition IndexOfRuleByName (path : bytes) (stmts : list (option expr)) (name : bytes) : option nat :=
  find_index (found_by_name path stmts name) stmts.
(** edit/buildozer.go:262-281 [findInsertionIndex]: None: error; Some None: at the end; otherwise the number of
    statements before the new one. *)
Definition findInsertionIndex (path : bytes) (stmts : list (option expr)) (args : list bytes) : option (option nat) :=
  match args with
  | _ :: _ :: op :: rel :: _ =>
      match IndexOfRuleByName path stmts rel with
      | None => Some None
      | Some i => if beq op %"before" then Some (Some i) else if beq op %"after" then Some (Some (S i)) else None
      end
  | _ => Some None
  end.
(** edit/buildozer.go:237-259 [cmdNew] (it is given at least two arguments); None: error, nothing is
    written.  [FindRuleByName] (edit/edit.go:286-292) finds or creates a rule for "__pkg__". *)
Definition cmdNew (path : bytes) (stmts : list (option expr)) (args : list bytes) : option (list (option expr)) :=
  match args with
  | kind :: name :: _ =>
      match findInsertionIndex path stmts args with
      | None => None
      | Some where_ =>
          if beq name %"__pkg__" then None
          else match IndexOfRuleByName path stmts name with
          | Some _ => None
          | None =>
              let call := new_call kind (SetAttr %"name" (EStr (Str no_com no_pos name false no_pos [])) []) in
              Some match where_ with
                   | None => InsertAfterLastOfSameKind stmts kind call
                   | Some i => InsertAfter i stmts call
                   end
          end
      end
  | _ => None
  end.

(** ** Loads *)
(** Go maps from local to exported names, as association lists with distinct keys; [ord] is an
    iteration order. *)
Definition gomap := list (bytes * bytes).
Definition map_del (k : bytes) (m : gomap) : gomap := filter (fun kv => negb (beq (fst kv) k)) m.
Definition map_set (k v : bytes) (m : gomap) : gomap := (k, v) :: map_del k m.
Definition symbols_to_load (from to : list bytes) : gomap :=
  fold_left (fun m ft => map_set (snd ft) (fst ft) m) (combine from to) [].
Definition del_all (to : list ident) (m : gomap) : gomap := fold_left (fun m i => map_del (i_name i) m) to m.
Definition new_ident (n : bytes) : ident := Ident no_com no_pos n.
(** edit/edit.go:1047-1059 [NewLoad]. *)
Definition NewLoad (location : bytes) (from to : list bytes) : option expr :=
  Some (ELoad no_com no_pos (Str no_com no_pos location false no_pos []) (map new_ident from) (map new_ident to)
          (End no_com no_pos) true).
(** edit/edit.go:1064-1083 [AppendToLoad]. *)
Definition AppendToLoad (ord : gomap -> gomap) (e : expr) (from to : list bytes) : bool * expr :=
  match e with
  | ELoad c p m fr t r k =>
      match del_all t (symbols_to_load from to) with
      | [] => (false, e)
      | rest => (true, ELoad c p m (fr ++ map (fun kv => new_ident (snd kv)) (ord rest)) (t ++ map (fun kv => new_ident (fst kv)) (ord rest)) r k)
      end
  | _ => (false, e)
  end.
(** edit/edit.go:1085-1120 [appendLoad]: None: there is no load of the location. *)
Definition loads_from (location : bytes) (s : option expr) : bool :=
  match s with Some (ELoad _ _ m _ _ _ _) => beq (s_value m) location | _ => false end.
Definition load_to (s : option expr) : list ident := match s with Some (ELoad _ _ _ _ t _ _) => t | _ => [] end.
Fixpoint update_last {A} (p : A -> bool) (f : A -> A) (l : list A) : option (list A) :=
  match l with
  | [] => None
  | x :: l' =>
      match update_last p f l' with
      | Some r => Some (x :: r)
      | None => if p x then Some (f x :: l') else None
      end
  end.
Definition appendLoad (ord1 ord2 : gomap -> gomap) (stmts : list (option expr)) (location : bytes) (from to : list bytes)
  : option (list (option expr)) :=
  let left := fold_left (fun m s => if loads_from location s then del_all (load_to s) m else m) stmts (symbols_to_load from to) in
  let l := ord1 left in
  update_last (loads_from location) (option_map (fun e => snd (AppendToLoad ord2 e (map snd l) (map fst l)))) stmts.
(** edit/edit.go:1127-1173 [InsertLoad]; None: panic. *)
Definition load_skips (s : option expr) : bool := is_comment_block s || isWorkspaceCall s.
Definition load_lead (stmts : list (option expr)) : list (option expr) * list (option expr) :=
  match stmts with
  | Some (EStr s) :: l => let (a, b) := span load_skips l in (Some (EStr s) :: a, b)
  | _ => span load_skips stmts
  end.
Definition InsertLoad (ord1 ord2 : gomap -> gomap) (stmts : list (option expr)) (location : bytes) (from to : list bytes)
  : option (list (option expr)) :=
  if Nat.eqb (List.length from) (List.length to) then
    Some match appendLoad ord1 ord2 stmts location from to with
         | Some l => l
         | None => let (a, b) := load_lead stmts in a ++ NewLoad location from to :: b
         end
  else None.
(** edit/edit.go:1176-1214 [ReplaceLoad]: the symbols of a load are a slice [firstn m a] of an array [a], while
    the loop ranges over the original slice (all of [a], as long as the array is not longer; From and
    To have the same length, as the parser makes them, and are treated as pairs). *)
Fixpoint remove_loop (sym : bytes -> bool) (todo i : nat) (a : list (ident * ident)) (m : nat) : list (ident * ident) * nat :=
  match todo with
  | 0 => (a, m)
  | S todo' =>
      match nth_error a i with
      | Some x =>
          if sym (i_name (snd x)) then
            if i <? m - 1 then remove_loop sym todo' (S i) (firstn i a ++ skipn (S i) (firstn m a) ++ skipn (m - 1) a) (m - 1)
            else remove_loop sym todo' (S i) a i
          else remove_loop sym todo' (S i) a m
      | None => (a, m)
      end
  end.
Definition remove_symbols (sym : bytes -> bool) (l : list (ident * ident)) : list (ident * ident) :=
  let (a, m) := remove_loop sym (List.length l) 0 l (List.length l) in firstn m a.
Definition replace_stmt (sym : bytes -> bool) (s : option expr) : list (option expr) :=
  match s with
  | Some (ELoad c p m fr t r k) =>
      match remove_symbols sym (combine fr t) with
      | [] => []
      | l => [Some (ELoad c p m (map fst l) (map snd l) r k)]
      end
  | _ => [s]
  end.
Definition ReplaceLoad (ord1 ord2 : gomap -> gomap) (stmts : list (option expr)) (location : bytes) (from to : list bytes)
  : option (list (option expr)) :=
  if Nat.eqb (List.length from) (List.length to) then
    InsertLoad ord1 ord2 (flat_map (replace_stmt (fun n => mem_bytes n to)) stmts) location from to
  else None.
(** edit/buildozer.go:285-296 [splitLoadArgs]: (from, to). *)
Definition split_load_arg (a : bytes) : bytes * bytes :=
  match split2 "="%char a with (t, Some f) => (f, t) | _ => (a, a) end.
Definition splitLoadArgs (args : list bytes) : list bytes * list bytes :=
  (map (fun a => fst (split_load_arg a)) args, map (fun a => snd (split_load_arg a)) args).
(** edit/buildozer.go:298-302 [cmdNewLoad]: the statements and the argument slice afterwards (splitLoadArgs
    overwrites the elements of env.Args, a slice of the parsed command); None: panic. *)
Definition cmdNewLoad (ord1 ord2 : gomap -> gomap) (stmts : list (option expr)) (args : list bytes)
  : option (list (option expr) * list bytes) :=
  match args with
  | [] => None
  | location :: names =>
      let (from, to) := splitLoadArgs names in
      option_map (fun l => (l, location :: from)) (InsertLoad ord1 ord2 stmts location from to)
  end.
