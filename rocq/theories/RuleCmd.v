(** edit/buildozer.go: the commands that read and write the attributes of a rule. *)
From Verif Require Import LRTables LRCert Parse.
From Verif Require Import Base Ast ParseFile Quote Labels Rewrite RuleApi EditList EditResolve EditFile Print.
Local Open Scope list_scope.

(** edit/types.go:30-61 [IsList, IsIntList, IsString]: what the tables say about attributes *)
Record types := Types { IsList : bytes -> bool; IsIntList : bytes -> bool; IsString : bytes -> bool }.
(** What a command works on (edit/buildozer.go:74-82 [CmdEnvironment]), and the flags ShortenLabelsFlag and DeleteWithComments *)
Record setting := Setting { file_path : bytes; stmts : list (option expr); pkg : bytes; attr_types : types; short : bool; dwc : bool }.
(** build/rule.go:37-43 [Rule]: the call *)
Record rule := Rule { r_com : comments; r_x : expr; r_start : pos; r_args : list expr; r_end : endp; r_compact : bool; r_multi : bool }.
Definition call_expr (r : rule) : expr := ECall (r_com r) (r_x r) (r_start r) (r_args r) (r_end r) (r_compact r) (r_multi r).
Definition with_args (l : list expr) (r : rule) : rule := Rule (r_com r) (r_x r) (r_start r) l (r_end r) (r_compact r) (r_multi r).
Definition with_x (x : expr) (r : rule) : rule := Rule (r_com r) x (r_start r) (r_args r) (r_end r) (r_compact r) (r_multi r).
Definition Name (s : setting) (r : rule) : bytes := name_in_file (file_path s) (stmts s) (r_x r) (r_args r).

(** The result of a command: the rule in the file that is written, no change, or an error or a panic *)
Inductive result := Changed (r : rule) | Unchanged | Error | Panic.

(** edit/buildozer.go:607-613 [getStringValue] *)
Definition getStringValue (v : bytes) : bytes := match unquote v with (u, _, None) => u | _ => v end.
(** edit/buildozer.go:615-622 [getStringExpr] *)
Definition getStringExpr (s : setting) (v : bytes) : expr :=
  match unquote v with
  | (u, triple, None) => EStr (Str no_com no_pos (ShortenLabel (short s) u (pkg s)) triple no_pos [])
  | _ => plain_str no_com (ShortenLabel (short s) v (pkg s))
  end.
(** edit/buildozer.go:581-605 [getAttrValueExpr], for another attribute than "kind" *)
Definition new_ident_expr (n : bytes) : expr := EIdent (Ident no_com no_pos n).
Definition is_glob (args : list bytes) : bool := match args with [a] => has_prefix %"glob(" a | _ => false end.
Definition getAttrValueExpr (s : setting) (attr : bytes) (args : list bytes) : expr :=
  if IsIntList (attr_types s) attr then new_list (map (fun i => ELit no_com no_pos i) args)
  else if IsList (attr_types s) attr && negb (is_glob args) then new_list (map (getStringExpr s) args)
  else match args with
       | [] => new_ident_expr %"None"
       | a :: _ => if IsString (attr_types s) attr then getStringExpr s a else new_ident_expr a
       end.
(** edit/buildozer.go:558-567 [cmdSet]; without arguments after "kind" it panics *)
Definition cmdSet (s : setting) (attr : bytes) (args : list bytes) (r : rule) : result :=
  if beq attr %"kind" then match args with k :: _ => Changed (with_x (SetKind k (r_x r)) r) | [] => Panic end
  else Changed (with_args (SetAttr attr (getAttrValueExpr s attr args) (r_args r)) r).
(** edit/buildozer.go:569-579 [cmdSetIfAbsent] *)
Definition cmdSetIfAbsent (s : setting) (attr : bytes) (args : list bytes) (r : rule) : result :=
  if beq attr %"kind" then Error
  else match Attr attr (r_args r) with
       | None => Changed (with_args (SetAttr attr (getAttrValueExpr s attr args) (r_args r)) r)
       | Some _ => Changed r
       end.
(** edit/buildozer.go:412-417 [attrKeysForPattern] *)
Definition attrKeysForPattern (r : rule) (pattern : bytes) : list bytes := if beq pattern %"*" then AttrKeys (r_args r) else [pattern].
(** edit/buildozer.go:419-457 [cmdRemove] of attributes (lines 420-438) *)
Definition del_attr (key : bytes) (st : bool * list expr) : bool * list expr :=
  let (v, l) := DelAttr key (snd st) in (match v with Some _ => true | None => fst st end, l).
Definition cmdRemoveAttr (attr : bytes) (r : rule) : result :=
  let (did, l) :=
    if beq attr %"*" then fold_left (fun st key => if beq key %"name" then st else del_attr key st) (AttrKeys (r_args r)) (false, r_args r)
    else del_attr attr (false, r_args r) in
  if did then Changed (with_args l r) else Unchanged.
(** edit/buildozer.go:439-455: [cmdRemove] of values; every attribute in turn *)
Definition remove_values (s : setting) (vals : list bytes) (l : list expr) (key : bytes) : list expr :=
  let l1 := fold_left (fun l v => snd (ListAttributeDelete (dwc s) l key v (pkg s))) vals l in
  let l2 := ResolveAttr (dwc s) l1 key (pkg s) in
  match Attr key l2 with Some (EList _ _ [] _ _) => snd (DelAttr key l2) | _ => l2 end.
Definition cmdRemoveValues (s : setting) (attr : bytes) (vals : list bytes) (r : rule) : result :=
  match attrKeysForPattern r attr, vals with
  | [], _ => Unchanged
  | _, [] => Unchanged
  | keys, _ => Changed (with_args (fold_left (remove_values s vals) keys (r_args r)) r)
  end.
(** edit/buildozer.go:459-479 [cmdRemoveIfEqual] *)
Definition cmdRemoveIfEqual (s : setting) (attr val : bytes) (r : rule) : result :=
  match Attr attr (r_args r) with
  | Some (EStr t) => if labels_equal (s_value t) val (pkg s) then Changed (with_args (snd (DelAttr attr (r_args r))) r) else Unchanged
  | Some (EIdent i) => if beq (i_name i) val then Changed (with_args (snd (DelAttr attr (r_args r))) r) else Unchanged
  | _ => Unchanged
  end.
(** edit/buildozer.go:513-520 [cmdRename] *)
Definition cmdRename (old new : bytes) (r : rule) : result :=
  match RenameAttribute (r_args r) old new with Some l => Changed (with_args l r) | None => Error end.
(** edit/buildozer.go:522-536 [cmdReplace] on one attribute, and on all with "*"; None: the value of an attribute "kind" is replaced by nil, which cannot be printed *)
Definition replace_value (s : setting) (old new : bytes) (l : option (list expr)) (key : bytes) : option (list expr) :=
  match l with
  | None => None
  | Some l =>
      match Attr key l with
      | Some (EStr t) =>
          if labels_equal (s_value t) old (pkg s)
          then if beq key %"kind" then None else Some (SetAttr key (getAttrValueExpr s key [new]) l)
          else Some l
      | Some e => Some (SetAttr key (snd (ListReplace (short s) e old new (pkg s))) l)
      | None => Some l
      end
  end.
Definition cmdReplace (s : setting) (attr old new : bytes) (r : rule) : result :=
  match fold_left (replace_value s (getStringValue old) (getStringValue new)) (attrKeysForPattern r attr) (Some (r_args r)) with
  | Some l => Changed (with_args l r)
  | None => Panic
  end.

(** build/print.go:55-75 [FormatString] of an expression: comments that wait for the end of the line are not printed *)
Definition FormatString (e : expr) : option bytes := let st := print_expr TypeBuild None e precLow new_printer in if o_ok st then Some (rev (o_out st)) else None.
(** edit/buildozer.go:807-824 [copyAttributeBetweenRules].  A package() that [FindRuleByName] (edit/edit.go:286-292) creates for "__pkg__" has no attributes. *)
Definition FindRuleByName (path : bytes) (l : list (option expr)) (name : bytes) : option (option expr) :=
  if beq name %"__pkg__" then ExistingPackageDeclaration l
  else match IndexOfRuleByName path l name with Some i => nth_error l i | None => None end.
Definition copyAttributeBetweenRules (s : setting) (attr from : bytes) (r : rule) : result :=
  match FindRuleByName (file_path s) (stmts s) from with
  | Some c =>
      match stmt_call c with
      | Some (_, args) =>
          match Attr attr args with
          | None => Error
          | Some v =>
              match FormatString v with
              | None => Panic
              | Some data =>
                  match parse_file (FMeta [] [] [] TypeBuild) data with
                  | Some (EFile _ _ (Some v' :: _)) => Changed (with_args (SetAttr attr v' (r_args r)) r)
                  | Some _ => Panic
                  | None => Error
                  end
              end
          end
      | None => Error
      end
  | None => Error
  end.
(** edit/buildozer.go:624-629 [cmdCopy] *)
Definition cmdCopy := copyAttributeBetweenRules.
(** edit/buildozer.go:631-640 [cmdCopyNoOverwrite] *)
Definition cmdCopyNoOverwrite (s : setting) (attr from : bytes) (r : rule) : result :=
  match Attr attr (r_args r) with Some _ => Changed r | None => copyAttributeBetweenRules s attr from r end.

(** The fields of a record that is printed (api_proto/api.proto), Missing for an attribute that the rule does not have *)
Inductive field := Text (t : bytes) (quote_when_printing : bool) | Number (n : Z) | FMissing | FStrings (l : list bytes).
(** edit/buildozer.go:338-405: one field in [cmdPrint]; None: the command ends without output.  int32 is not modelled. *)
Definition print_field (s : setting) (r : rule) (str : bytes) : option field :=
  let fmt e := match FormatString e with Some t => Some (Text t false) | None => None end in
  if beq str %"kind" then Some (Text (kind_of (r_x r)) false)
  else if beq str %"name" then Some (Text (Name s r) false)
  else if beq str %"label" then
    (if beq (Name s r) [] then None else Some (Text (format (Label [] (pkg s) (Name s r))) false))
  else if beq str %"rule" then fmt (call_expr r)
  else if beq str %"startline" then Some (Number (p_line (r_start r)))
  else if beq str %"endline" then Some (Number (p_line (e_pos (r_end r))))
  else if beq str %"path" then Some (Text (file_path s) false)
  else if beq str %"attrs" then Some (FStrings (AttrKeys (r_args r)))
  else match Attr str (r_args r) with
       | None => Some FMissing
       | Some (ELit _ _ t) => Some (Text t false)
       | Some (EIdent i) => Some (Text (i_name i) false)
       | Some (EStr t) => Some (Text (s_value t) true)
       | Some e => match AttrStrings str (r_args r) with Some l => Some (FStrings l) | None => fmt e end
       end.
(** edit/buildozer.go:331-410 [cmdPrint] *)
Fixpoint all_fields (s : setting) (r : rule) (l : list bytes) : option (list field) :=
  match l with
  | [] => Some []
  | x :: l' => match print_field s r x, all_fields s r l' with Some f, Some fs => Some (f :: fs) | _, _ => None end
  end.
Definition cmdPrint (s : setting) (args : list bytes) (r : rule) : option (list field) :=
  all_fields s r (match args with [] => [%"name"; %"kind"] | _ => args end).
(** edit/buildozer.go:1413-1439 [printRecord]; [quoted] is Go's %q and [itoa] its strconv.Itoa *)
Definition print_one (quoted : bytes -> bytes) (itoa : Z -> bytes) (f : field) : bytes :=
  match f with
  | Text t q => if q && contains_byte c_sp t then quoted t else t
  | Number n => itoa n
  | FMissing => %"(missing)"
  | FStrings l => %"[" ++ join [c_sp] l ++ %"]"
  end.
Definition printRecord (quoted : bytes -> bytes) (itoa : Z -> bytes) (l : list field) : bytes := join [c_sp] (map (print_one quoted itoa) l) ++ [c_nl].
