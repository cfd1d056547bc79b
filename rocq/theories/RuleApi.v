(** build/rule.go: attributes of rules, and the rules of a file. *)
From Verif Require Import Base Ast Walk Rewrite.

(** A rule's call expression is a Go pointer into the tree; here the functions take and return the
    argument list ([Call.List]) or the call itself. *)
(** The attribute key of an argument: build/rule.go:228-236 (the operator is not looked at). *)
Definition attr_key (x : expr) : option bytes :=
  match x with EAssign _ (EIdent i) _ _ _ _ => Some (i_name i) | _ => None end.
Definition defines (key : bytes) (x : expr) : bool :=
  match attr_key x with Some k => beq k key | None => false end.
(** build/rule.go:221-231 [AttrKeys]. *)
Definition AttrKeys (args : list expr) : list bytes := flat_map (fun x => opt_list (fun k => k) (attr_key x)) args.
(** build/rule.go:235-248 [AttrDefn]. *)
Definition AttrDefn (key : bytes) (args : list expr) : option expr := find (defines key) args.
Definition rhs (x : expr) : option expr := match x with EAssign _ _ _ _ _ v => Some v | _ => None end.
(** build/rule.go:253-259 [Attr]. *)
Definition Attr (key : bytes) (args : list expr) : option expr :=
  match AttrDefn key args with Some x => rhs x | None => None end.
(** build/rule.go:263-279 [DelAttr]: the old value and the remaining arguments (copy and re-slice
    remove one element). *)
Fixpoint DelAttr (key : bytes) (args : list expr) : option expr * list expr :=
  match args with
  | [] => (None, [])
  | x :: args' =>
      if defines key x then (rhs x, args')
      else let (v, l) := DelAttr key args' in (v, x :: l)
  end.
(** build/rule.go:284-298 [SetAttr]. *)
Definition set_rhs (v x : expr) : expr := match x with EAssign c l p op b _ => EAssign c l p op b v | _ => x end.
Fixpoint set_first (key : bytes) (v : expr) (args : list expr) : list expr :=
  match args with
  | [] => []
  | x :: args' => if defines key x then set_rhs v x :: args' else x :: set_first key v args'
  end.
Definition new_attr (key : bytes) (v : expr) : expr :=
  EAssign no_com (EIdent (Ident no_com no_pos key)) no_pos %"=" false v.
Definition SetAttr (key : bytes) (v : expr) (args : list expr) : list expr :=
  match AttrDefn key args with
  | Some _ => set_first key v args
  | None => args ++ [new_attr key v]
  end.
(** build/rule.go:305-314 [AttrLiteral]. *)
Definition AttrLiteral (key : bytes) (args : list expr) : bytes :=
  match Attr key args with
  | Some (EIdent i) => i_name i
  | Some (ELit _ _ t) => t
  | _ => []
  end.
(** build/rule.go:320-326 [AttrString]. *)
Definition AttrString (key : bytes) (args : list expr) : bytes :=
  match Attr key args with Some (EStr s) => s_value s | _ => [] end.
(** build/rule.go:342-356 [Strings]: None is the nil slice. *)
Fixpoint all_strings (l : list expr) : option (list bytes) :=
  match l with
  | [] => Some []
  | EStr s :: l' => option_map (cons (s_value s)) (all_strings l')
  | _ => None
  end.
Definition Strings (e : option expr) : option (list bytes) :=
  match e with Some (EList _ _ l _ _) => all_strings l | _ => None end.
Definition AttrStrings (key : bytes) (args : list expr) : option (list bytes) := Strings (Attr key args).

(** build/rule.go:191-203 [SetKind] on the callee. *)
Definition SetKind (kind : bytes) (callee : expr) : expr :=
  match split c_dot kind with
  | [] => callee
  | n :: ns =>
      fold_left (fun x m => EDot no_com x no_pos (start_pos callee) m) ns
        (EIdent (Ident no_com (start_pos callee) n))
  end.

Definition callee_args (e : expr) : option (expr * list expr) :=
  match e with ECall _ x _ l _ _ _ => Some (x, l) | _ => None end.
Definition stmt_call (s : option expr) : option (expr * list expr) :=
  match s with Some e => callee_args e | None => None end.
(** build/rule.go:131-161 [implicitRuleName]. *)
Fixpoint implicit_loop (candidate : bytes) (saw : bool) (l : list (option expr)) : bytes :=
  match l with
  | [] => if saw then candidate else []
  | s :: l' =>
      match stmt_call s with
      | None => implicit_loop candidate saw l'
      | Some (x, args) =>
          if beq (AttrString %"name" args) candidate then []
          else if negb (beq (kind_of x) []) && beq (AttrString %"name" args) []
          then if saw then [] else implicit_loop candidate true l'
          else implicit_loop candidate saw l'
      end
  end.
Definition implicitRuleName (path : bytes) (stmts : list (option expr)) : bytes :=
  if beq (path_dir path) [c_dot] then [] else implicit_loop (path_base (path_dir path)) false stmts.
(** build/rule.go:37-43 [File.Rule] with build/rule.go:203-211 [ExplicitName], [Name]. *)
Definition rule_name (implicit : bytes) (x : expr) (args : list expr) : bytes :=
  match AttrString %"name" args with
  | [] => if beq (kind_of x) %"package" then [] else implicit
  | n => n
  end.
Definition name_in_file (path : bytes) (stmts : list (option expr)) (x : expr) (args : list expr) : bytes :=
  rule_name (implicitRuleName path stmts) x args.

(** build/rule.go:109-125 [DelRules]: while the loop runs, f.Stmt (which File.Rule looks at) holds the
    kept statements followed by the old contents from that index on. *)
Fixpoint del_loop (path kind name : bytes) (orig kept todo : list (option expr)) : list (option expr) :=
  match todo with
  | [] => kept
  | s :: todo' =>
      let now := kept ++ skipn (List.length kept) orig in
      let del :=
        match stmt_call s with
        | Some (x, args) =>
            (beq kind [] || beq (kind_of x) kind) && (beq name [] || beq (name_in_file path now x args) name)
        | None => false
        end in
      if del then del_loop path kind name orig kept todo' else del_loop path kind name orig (kept ++ [s]) todo'
  end.
Definition DelRules (path kind name : bytes) (stmts : list (option expr)) : list (option expr) * nat :=
  let l := del_loop path kind name stmts [] stmts in (l, List.length stmts - List.length l).

(** build/rule.go:45-80 [rules], [Rules]: calls that are not nested in a call. *)
Definition is_call (e : expr) : bool := match e with ECall _ _ _ _ _ _ _ => true | _ => false end.
Definition rules_of (p : expr -> bool) (stmts : list (option expr)) : list expr :=
  map fst (filter (fun v => is_call (fst v) && negb (existsb is_call (snd v)) && p (fst v))
             (flat_map (fun o => match o with Some e => Walk e | None => [] end) stmts)).
Definition Rules (kind : bytes) (stmts : list (option expr)) : list expr :=
  rules_of (fun e => match callee_args e with Some (x, _) => beq kind [] || beq (kind_of x) kind | None => false end) stmts.
(** build/rule.go:96-104 [RuleNamed]. *)
Definition RuleNamed (path name : bytes) (stmts : list (option expr)) : option expr :=
  match rules_of (fun e => match callee_args e with Some (x, a) => beq (name_in_file path stmts x a) name | None => false end) stmts with
  | [r] => Some r
  | _ => None
  end.

(** build/rule.go:82-93 [RuleAt]: the callee spans the line. *)
Definition RuleAt (line : Z) (stmts : list (option expr)) : option expr :=
  match rules_of (fun e => match callee_args e with
                           | Some (x, _) => (p_line (start_pos x) <=? line)%Z && (line <=? p_line (end_pos x))%Z
                           | None => false end) stmts with
  | [r] => Some r
  | _ => None
  end.

(** edit/edit.go:356-370 [DeleteRuleByName]. *)
Definition DeleteRuleByName (path name : bytes) (stmts : list (option expr)) : list (option expr) :=
  filter (fun s => match stmt_call s with
                   | Some (x, args) => negb (beq (name_in_file path stmts x args) name)
                   | None => true
                   end) stmts.
(** edit/edit.go:374-388 [DeleteRuleByKind]. *)
Definition DeleteRuleByKind (kind : bytes) (stmts : list (option expr)) : list (option expr) :=
  filter (fun s => match stmt_call s with
                   | Some (EIdent i, _) => negb (beq (i_name i) kind)
                   | _ => true
                   end) stmts.
