(** The syntax tree of build/syntax.go.
    Go nodes are mutable heap objects; here they are values.  A nil [Expr] is possible
    only where an [option] appears (optional fields) and in [File.Stmt], where
    compressSameOriginLoads leaves nil entries. *)
From Verif Require Import Base.

(** build/syntax.go:29-33 [Position]. *)
Record pos := Pos { p_line : Z; p_rune : Z; p_byte : Z }.
(** build/syntax.go:65-68 [Comment]. *)
Record comment := Comment { c_start : pos; c_tok : bytes }.
(** build/syntax.go:76-83 [Comments]. *)
Record comments := Comments { c_before : list comment; c_suffix : list comment; c_after : list comment }.
Definition no_pos : pos := Pos 0 0 0.
Definition no_com : comments := Comments [] [] [].

(** build/syntax.go [End]: closing bracket with its own comments. *)
Record endp := End { e_com : comments; e_pos : pos }.
(** build/syntax.go [Ident]. *)
Record ident := Ident { i_com : comments; i_pos : pos; i_name : bytes }.
(** build/syntax.go [StringExpr]. *)
Record strlit := Str {
  s_com : comments; s_start : pos; s_value : bytes; s_triple : bool; s_end : pos; s_token : bytes }.

(** build/lex.go:34-60 [FileType], a bit set; the five single types. *)
Inductive ftype := TypeDefault | TypeBuild | TypeWorkspace | TypeBzl | TypeModule.
(** build/syntax.go:105-113 [File] without comments and statements. *)
Record fmeta := FMeta { f_path : bytes; f_pkg : bytes; f_label : bytes; f_type : ftype }.

Inductive expr :=
  | EFile (c : comments) (m : fmeta) (stmts : list (option expr))          (* File *)
  | ECommentBlock (c : comments) (start : pos)                             (* CommentBlock *)
  | EIdent (i : ident)                                                     (* Ident *)
  | ETyped (c : comments) (i : ident) (ty : expr)                          (* TypedIdent *)
  | EBranch (c : comments) (tok : bytes) (p : pos)                         (* BranchStmt *)
  | ELit (c : comments) (start : pos) (tok : bytes)                        (* LiteralExpr *)
  | EStr (s : strlit)                                                      (* StringExpr *)
  | ECall (c : comments) (x : expr) (lstart : pos) (args : list expr) (e : endp) (compact multi : bool)
  | EDot (c : comments) (x : expr) (dot npos : pos) (name : bytes)
  | EComp (c : comments) (curly : bool) (lb : pos) (body : expr) (clauses : list expr) (multi : bool) (e : endp)
  | EForC (c : comments) (p : pos) (vars : expr) (pin : pos) (x : expr)    (* ForClause *)
  | EIfC (c : comments) (p : pos) (cond : expr)                            (* IfClause *)
  | EKV (c : comments) (k : expr) (colon : pos) (v : expr)                 (* KeyValueExpr *)
  | EDict (c : comments) (start : pos) (l : list expr) (e : endp) (multi : bool)
  | EList (c : comments) (start : pos) (l : list expr) (e : endp) (multi : bool)
  | ESet (c : comments) (start : pos) (l : list expr) (e : endp) (multi : bool)
  | ETuple (c : comments) (nobr : bool) (start : pos) (l : list expr) (e : endp) (compact multi : bool)
  | EUnary (c : comments) (p : pos) (op : bytes) (x : option expr)
  | EBinary (c : comments) (x : expr) (p : pos) (op : bytes) (lbreak : bool) (y : expr)
  | EAssign (c : comments) (lhs : expr) (p : pos) (op : bytes) (lbreak : bool) (rhs : expr)
  | EParen (c : comments) (start : pos) (x : expr) (e : endp) (multi : bool)
  | ESlice (c : comments) (x : expr) (p : pos) (from : option expr) (c1 : pos) (to : option expr)
           (c2 : pos) (step : option expr) (e : pos)
  | EIndex (c : comments) (x : expr) (p : pos) (y : expr) (e : pos)
  | ELambda (c : comments) (p : pos) (params body : list expr)
  | ECond (c : comments) (thn : expr) (p1 : pos) (test : expr) (p2 : pos) (els : expr)
  | ELoad (c : comments) (p : pos) (m : strlit) (from to : list ident) (r : endp) (compact : bool)
  | EDef (c : comments) (p : pos) (params body : list expr) (name : bytes) (colon : pos)
         (compact multi : bool) (ty : option expr)
  | EReturn (c : comments) (p : pos) (x : option expr)
  | EFor (c : comments) (p : pos) (vars x : expr) (body : list expr)
  | EIf (c : comments) (p : pos) (cond : expr) (tru : list expr) (elsep : endp) (fls : list expr).

(** The [Comments] of a node ([Expr.Comment()]). *)
Definition com (e : expr) : comments :=
  match e with
  | EFile c _ _ | ECommentBlock c _ | ETyped c _ _ | EBranch c _ _ | ELit c _ _
  | ECall c _ _ _ _ _ _ | EDot c _ _ _ _ | EComp c _ _ _ _ _ _ | EForC c _ _ _ _ | EIfC c _ _
  | EKV c _ _ _ | EDict c _ _ _ _ | EList c _ _ _ _ | ESet c _ _ _ _ | ETuple c _ _ _ _ _ _
  | EUnary c _ _ _ | EBinary c _ _ _ _ _ | EAssign c _ _ _ _ _ | EParen c _ _ _ _
  | ESlice c _ _ _ _ _ _ _ _ | EIndex c _ _ _ _ | ELambda c _ _ _ | ECond c _ _ _ _ _
  | ELoad c _ _ _ _ _ _ | EDef c _ _ _ _ _ _ _ _ | EReturn c _ _ | EFor c _ _ _ _ | EIf c _ _ _ _ _ => c
  | EIdent i => i_com i
  | EStr s => s_com s
  end.
(** [*e.Comment() = c]. *)
Definition set_com (c : comments) (e : expr) : expr :=
  match e with
  | EFile _ m l => EFile c m l
  | ECommentBlock _ a => ECommentBlock c a
  | EIdent i => EIdent (Ident c (i_pos i) (i_name i))
  | ETyped _ i t => ETyped c i t
  | EBranch _ a b => EBranch c a b
  | ELit _ a b => ELit c a b
  | EStr s => EStr (Str c (s_start s) (s_value s) (s_triple s) (s_end s) (s_token s))
  | ECall _ x a b d f g => ECall c x a b d f g
  | EDot _ x a b d => EDot c x a b d
  | EComp _ a b d f g h => EComp c a b d f g h
  | EForC _ a b d f => EForC c a b d f
  | EIfC _ a b => EIfC c a b
  | EKV _ a b d => EKV c a b d
  | EDict _ a b d f => EDict c a b d f
  | EList _ a b d f => EList c a b d f
  | ESet _ a b d f => ESet c a b d f
  | ETuple _ a b d f g h => ETuple c a b d f g h
  | EUnary _ a b d => EUnary c a b d
  | EBinary _ a b d f g => EBinary c a b d f g
  | EAssign _ a b d f g => EAssign c a b d f g
  | EParen _ a b d f => EParen c a b d f
  | ESlice _ a b d f g h i j => ESlice c a b d f g h i j
  | EIndex _ a b d f => EIndex c a b d f
  | ELambda _ a b d => ELambda c a b d
  | ECond _ a b d f g => ECond c a b d f g
  | ELoad _ a b d f g h => ELoad c a b d f g h
  | EDef _ a b d f g h i j => EDef c a b d f g h i j
  | EReturn _ a b => EReturn c a b
  | EFor _ a b d f => EFor c a b d f
  | EIf _ a b d f g => EIf c a b d f g
  end.

Definition opt_list {A B} (f : A -> B) (o : option A) : list B :=
  match o with Some x => [f x] | None => [] end.
(** The [From]/[To] idents of a load, interleaved as WalkOnce visits them. *)
Fixpoint zip_load {B} (f : ident -> B) (from to : list ident) : list B :=
  match from, to with
  | a :: from', b :: to' => f a :: f b :: zip_load f from' to'
  | _, _ => []
  end.

(** build/walk.go:111-227 [WalkOnce]: the children of a node in the order in which they
    are visited, with [f] applied.  (Nil children are skipped by walk1.)  Note that the
    type annotations of TypedIdent and DefStmt are not visited. *)
Definition fold_children2 {A} (f : expr -> A) (fs : strlit -> A) (fi : ident -> A) (e : expr) : list A :=
  match e with
  | EFile _ _ l => flat_map (opt_list f) l
  | ECommentBlock _ _ | EIdent _ | ETyped _ _ _ | EBranch _ _ _ | ELit _ _ _ | EStr _ => []
  | ECall _ x _ l _ _ _ => f x :: map f l
  | EDot _ x _ _ _ => [f x]
  | EComp _ _ _ b l _ _ => f b :: map f l
  | EForC _ _ v _ x => [f v; f x]
  | EIfC _ _ x => [f x]
  | EKV _ k _ v => [f k; f v]
  | EDict _ _ l _ _ | EList _ _ l _ _ | ESet _ _ l _ _ | ETuple _ _ _ l _ _ _ => map f l
  | EUnary _ _ _ x => opt_list f x
  | EBinary _ x _ _ _ y => [f x; f y]
  | EAssign _ x _ _ _ y => [f x; f y]
  | EParen _ _ x _ _ => [f x]
  | ESlice _ x _ a _ b _ d _ => f x :: opt_list f a ++ opt_list f b ++ opt_list f d
  | EIndex _ x _ y _ => [f x; f y]
  | ELambda _ _ ps b => map f ps ++ map f b
  | ECond _ a _ b _ d => [f a; f b; f d]
  | ELoad _ _ m fr to _ _ => fs m :: zip_load fi fr to
  | EDef _ _ ps b _ _ _ _ _ => map f ps ++ map f b
  | EReturn _ _ x => opt_list f x
  | EFor _ _ v x b => f v :: f x :: map f b
  | EIf _ _ x t _ e => f x :: map f t ++ map f e
  end.
Definition fold_children {A} (f : expr -> A) : expr -> list A :=
  fold_children2 f (fun s => f (EStr s)) (fun i => f (EIdent i)).
Definition children : expr -> list expr := fold_children (fun x => x).

Definition as_str (d : strlit) (e : expr) : strlit := match e with EStr s => s | _ => d end.
Definition as_ident (d : ident) (e : expr) : ident := match e with EIdent i => i | _ => d end.

(** [f] on the elements of [l] that have a partner in [other]. *)
Fixpoint map_pref {A B} (f : A -> A) (l : list A) (other : list B) : list A :=
  match l, other with
  | a :: l', _ :: o' => f a :: map_pref f l' o'
  | _, _ => l
  end.

(** Rebuilding a node with every visited child replaced.  The Go code asserts that a load's
    children keep their kind (walk.go:186-197, run-time panic otherwise); here such a
    replacement is ignored. *)
Definition map_children (f : expr -> expr) (e : expr) : expr :=
  match e with
  | EFile c m l => EFile c m (map (option_map f) l)
  | ECommentBlock _ _ | EIdent _ | ETyped _ _ _ | EBranch _ _ _ | ELit _ _ _ | EStr _ => e
  | ECall c x a l d g h => ECall c (f x) a (map f l) d g h
  | EDot c x a b d => EDot c (f x) a b d
  | EComp c a b x l g h => EComp c a b (f x) (map f l) g h
  | EForC c a v b x => EForC c a (f v) b (f x)
  | EIfC c a x => EIfC c a (f x)
  | EKV c k a v => EKV c (f k) a (f v)
  | EDict c a l b d => EDict c a (map f l) b d
  | EList c a l b d => EList c a (map f l) b d
  | ESet c a l b d => ESet c a (map f l) b d
  | ETuple c a b l d g h => ETuple c a b (map f l) d g h
  | EUnary c a b x => EUnary c a b (option_map f x)
  | EBinary c x a b d y => EBinary c (f x) a b d (f y)
  | EAssign c x a b d y => EAssign c (f x) a b d (f y)
  | EParen c a x b d => EParen c a (f x) b d
  | ESlice c x a b d g h i j => ESlice c (f x) a (option_map f b) d (option_map f g) h (option_map f i) j
  | EIndex c x a y b => EIndex c (f x) a (f y) b
  | ELambda c a ps b => ELambda c a (map f ps) (map f b)
  | ECond c x a y b z => ECond c (f x) a (f y) b (f z)
  | ELoad c a m fr to r g =>
      ELoad c a (as_str m (f (EStr m)))
        (map_pref (fun i => as_ident i (f (EIdent i))) fr to)
        (map_pref (fun i => as_ident i (f (EIdent i))) to fr) r g
  | EDef c a ps b d g h i j => EDef c a (map f ps) (map f b) d g h i j
  | EReturn c a x => EReturn c a (option_map f x)
  | EFor c a v x b => EFor c a (f v) (f x) (map f b)
  | EIf c a x t b e => EIf c a (f x) (map f t) b (map f e)
  end.

(** Height over visited children (not part of the Go code: used as recursion fuel). *)
Fixpoint height (e : expr) : nat := 
  S (list_max (fold_children2 height (fun _ => 1) (fun _ => 1) e)).

(** ** Spans *)
(** build/syntax.go:36-45 [Position.add], rune counting by bytes that are not UTF-8
    continuation bytes (equal to utf8.RuneCountInString on valid UTF-8: simplification). *)
Definition is_cont_byte (c : ascii) : bool := ((128 <=? bN c) && (bN c <? 192))%N.
Definition rune_count (s : bytes) : Z := Z.of_nat (List.length (filter (fun c => negb (is_cont_byte c)) s)).
Definition pos_add (p : pos) (s : bytes) : pos :=
  let n := List.length (filter (Ascii.eqb c_nl) s) in
  let tail := last (split c_nl s) [] in
  if Nat.eqb n 0 then Pos (p_line p) (p_rune p + rune_count s) (p_byte p + Z.of_nat (List.length s))
  else Pos (p_line p + Z.of_nat n) (1 + rune_count tail) (p_byte p + Z.of_nat (List.length s)).

(** build/syntax.go:71-900, the [Span] methods: start and end of a node. *)
Fixpoint start_pos (e : expr) : pos :=
  match e with
  | EFile _ _ l => match l with [] => Pos 1 1 0 | _ => no_pos end
  | ECommentBlock _ p => p
  | EIdent i => i_pos i
  | ETyped _ i _ => i_pos i
  | EBranch _ _ p => p
  | ELit _ p _ => p
  | EStr s => s_start s
  | ECall _ x _ _ _ _ _ | EDot _ x _ _ _ => start_pos x
  | EComp _ _ p _ _ _ _ => p
  | EForC _ p _ _ _ | EIfC _ p _ => p
  | EKV _ k _ _ => start_pos k
  | EDict _ p _ _ _ | EList _ p _ _ _ | ESet _ p _ _ _ => p
  | ETuple _ nobr p l _ _ _ =>
      if nobr then match l with x :: _ => start_pos x | [] => no_pos end else p
  | EUnary _ p _ _ => p
  | EBinary _ x _ _ _ _ | EAssign _ x _ _ _ _ => start_pos x
  | EParen _ p _ _ _ => p
  | ESlice _ x _ _ _ _ _ _ _ | EIndex _ x _ _ _ => start_pos x
  | ELambda _ p _ _ => p
  | ECond _ x _ _ _ _ => start_pos x
  | ELoad _ p _ _ _ _ _ | EDef _ p _ _ _ _ _ _ _ | EReturn _ p _ | EFor _ p _ _ _ | EIf _ p _ _ _ _ => p
  end.
Fixpoint end_pos (e : expr) : pos :=
  let last_of l := last (map end_pos l) no_pos in
  match e with
  | EFile _ _ l =>
      match l with
      | [] => Pos 1 1 0
      | _ => last (flat_map (fun o => match o with Some x => [end_pos x] | None => [] end) l) no_pos
      end
  | ECommentBlock _ p => p
  | EIdent i => pos_add (i_pos i) (i_name i)
  | ETyped _ _ t => end_pos t
  | EBranch _ t p => pos_add p t
  | ELit _ p t => pos_add p t
  | EStr s => s_end s
  | ECall _ _ _ _ en _ _ => pos_add (e_pos en) %")"
  | EDot _ _ _ p n => pos_add p n
  | EComp _ _ _ _ _ _ en => pos_add (e_pos en) %"]"
  | EForC _ _ _ _ x => end_pos x
  | EIfC _ _ x => end_pos x
  | EKV _ _ _ v => end_pos v
  | EDict _ _ _ en _ | EList _ _ _ en _ | ESet _ _ _ en _ => pos_add (e_pos en) %"]"
  | ETuple _ nobr _ l en _ _ => if nobr then last_of l else pos_add (e_pos en) %")"
  | EUnary _ p _ x => match x with Some y => end_pos y | None => p end
  | EBinary _ _ _ _ _ y | EAssign _ _ _ _ _ y => end_pos y
  | EParen _ _ _ en _ => pos_add (e_pos en) %")"
  | ESlice _ _ _ _ _ _ _ _ p | EIndex _ _ _ _ p => pos_add p %"]"
  | ELambda _ _ _ b => last_of b
  | ECond _ _ _ _ _ y => end_pos y
  | ELoad _ _ _ _ _ r _ => pos_add (e_pos r) %")"
  | EDef _ _ _ b _ _ _ _ _ => last_of b
  | EReturn _ p x => match x with Some y => end_pos y | None => pos_add p %"return" end
  | EFor _ _ _ _ b => last_of b
  | EIf _ _ _ t _ f => match f with [] => last_of t | _ => last_of f end
  end.
