(** edit/buildozer.go: the commands that read and write the comments of a rule. *)
From Verif Require Import Base Ast Labels Rewrite RuleApi EditList Print Cli RuleCmd.
Local Open Scope list_scope.

(** edit/buildozer.go:101-109: the comment that [cmdComment] attaches; [eol] is opts.PreferEOLComments *)
Definition comment_text (str : bytes) : bytes := replace_all [c_bs; "n"%char] [c_nl] str.
Definition full_line (eol : bool) (str : bytes) : bool := negb eol || contains_byte c_nl (comment_text str).
Definition comment_lines (str : bytes) : list comment := map (fun line => Comment no_pos (%"# " ++ line)) (split c_nl (comment_text str)).
(** Assignments to the fields Before and Suffix of a node's comments *)
Definition set_comment (full : bool) (l : list comment) (c : comments) : comments :=
  if full then Comments l (c_suffix c) (c_after c) else Comments (c_before c) l (c_after c).
Definition map_com (f : comments -> comments) (e : expr) : expr := set_com (f (com e)) e.
(** build/rule.go:235-248 [AttrDefn] with an assignment to what it gives: the first definition *)
Fixpoint map_defn (attr : bytes) (f : expr -> expr) (args : list expr) : list expr :=
  match args with [] => [] | x :: l => if defines attr x then f x :: l else x :: map_defn attr f l end.

(** edit/edit.go:508-510 [listOrSelectFind] with an assignment to the string it finds *)
Section Item.
  Context (f : expr -> expr) (item pkg : bytes).
  Fixpoint map_first (l : list expr) : option (list expr) :=
    match l with [] => None | x :: l' => if is_item item pkg x then Some (f x :: l') else option_map (cons x) (map_first l') end.
  Fixpoint map_in_lists (e : expr) : option expr :=
    match e with
    | EList c s l en m => option_map (fun l' => EList c s l' en m) (map_first l)
    | EBinary c x p op b y =>
        if beq op %"+" then match map_in_lists x with Some x' => Some (EBinary c x' p op b y) | None => option_map (EBinary c x p op b) (map_in_lists y) end else None
    | _ => None
    end.
  Fixpoint map_in_branches (kvs : list expr) : option (list expr) :=
    match kvs with
    | [] => None
    | kv :: l =>
        match kv with
        | EKV c k p (EList c1 s l1 en m) => match map_first l1 with Some l1' => Some (EKV c k p (EList c1 s l1' en m) :: l) | None => option_map (cons kv) (map_in_branches l) end
        | _ => option_map (cons kv) (map_in_branches l)
        end
    end.
  Fixpoint map_in_selects (e : expr) : option expr :=
    match e with
    | EBinary c x p op b y =>
        if beq op %"+" then match map_in_selects x with Some x' => Some (EBinary c x' p op b y) | None => option_map (EBinary c x p op b) (map_in_selects y) end else None
    | ECall c x p (EDict c1 s kvs en1 m1 :: rest) en k m =>
        if is_select x then option_map (fun kvs' => ECall c x p (EDict c1 s kvs' en1 m1 :: rest) en k m) (map_in_branches kvs) else None
    | _ => None
    end.
  Definition map_item (e : expr) : expr :=
    match map_in_lists e with
    | Some e' => e'
    | None => if forallb one_dict (AllSelects e) then match map_in_selects e with Some e' => e' | None => e end else e
    end.
End Item.

(** edit/buildozer.go:100-138 [cmdComment]: on the rule, an attribute, a value *)
Definition with_com (c : comments) (r : rule) : rule := Rule c (r_x r) (r_start r) (r_args r) (r_end r) (r_compact r) (r_multi r).
Definition cmdCommentRule (str : bytes) (r : rule) : rule := with_com (set_comment true (comment_lines str) (r_com r)) r.
Definition comment_attr (full : bool) (l : list comment) (x : expr) : expr :=
  match x with
  | EAssign c a p op b v => if full then EAssign c (map_com (set_comment true l) a) p op b v else EAssign c a p op b (map_com (set_comment false l) v)
  | _ => x
  end.
Definition cmdCommentAttr (eol : bool) (attr str : bytes) (r : rule) : rule := with_args (map_defn attr (comment_attr (full_line eol str) (comment_lines str)) (r_args r)) r.
Definition edit_value (f : comments -> comments) (s : setting) (attr value : bytes) (r : rule) : rule :=
  match Attr attr (r_args r) with Some e => with_args (SetAttr attr (map_item (map_com f) value (pkg s) e) (r_args r)) r | None => r end.
Definition cmdCommentValue (eol : bool) (s : setting) (attr value str : bytes) (r : rule) : rule := edit_value (set_comment (full_line eol str) (comment_lines str)) s attr value r.
(** edit/buildozer.go:481-511 [cmdRemoveComment] *)
Definition cmdRemoveCommentRule (r : rule) : rule := with_com no_com r.
Definition uncomment_attr (x : expr) : expr :=
  match x with EAssign c a p op b v => EAssign no_com (set_com no_com a) p op b (set_com no_com v) | _ => x end.
Definition cmdRemoveCommentAttr (attr : bytes) (r : rule) : rule := with_args (map_defn attr uncomment_attr (r_args r)) r.
Definition cmdRemoveCommentValue (s : setting) (attr value : bytes) (r : rule) : rule := edit_value (fun _ => no_com) s attr value r.

(** edit/buildozer.go:141-151 [commentsText] *)
Definition comment_word (c : comment) : bytes := trimSpace (match c_tok c with x :: t => if ceq x c_hash then t else x :: t | [] => [] end).
Definition commentsText (l : list comment) : bytes := map (fun x => if ceq x c_nl then c_sp else x) (join [c_sp] (map comment_word l)).
(** edit/buildozer.go:153-208 [cmdPrintComment]; None: an error *)
Definition cmdPrintCommentRule (r : rule) : list bytes :=
  commentsText (c_before (r_com r)) :: filter (fun t => negb (beq t [])) [commentsText (c_suffix (r_com r)); commentsText (c_after (r_com r))].
Definition cmdPrintCommentAttr (attr : bytes) (r : rule) : option (list bytes) :=
  match AttrDefn attr (r_args r) with Some x => Some [commentsText (c_before (com x) ++ c_suffix (com x))] | None => None end.
Definition cmdPrintCommentValue (s : setting) (attr value : bytes) (r : rule) : option (list bytes) :=
  match Attr attr (r_args r) with
  | Some e => match listOrSelectFind e value (pkg s) with Some x => Some [commentsText (c_before (com x) ++ c_suffix (com x))] | None => None end
  | None => None
  end.
