(** Reading and binding variables (C64), by the scoping rules of Starlark; nothing here refers to the analysis. *)
From Verif Require Import Base Ast WalkSpec.

(** A variable of the function is read at an occurrence, or gets a value. *)
Inductive event := Read (i : ident) | Bind (n : bytes).
Definition without (names : list bytes) (l : list ident) : list ident := filter (fun i => negb (mem_bytes (i_name i) names)) l.
(** The names that an assignment to [e] gives a value. *)
Fixpoint bound (e : expr) : list bytes :=
  match e with
  | EIdent i => [i_name i]
  | ETuple _ _ _ l _ _ _ | EList _ _ l _ _ => flat_map bound l
  | EParen _ _ x _ _ => bound x
  | _ => []
  end.
Definition clause_vars (k : expr) : list bytes := match k with EForC _ _ v _ _ => bound v | _ => [] end.
(** The name of a parameter: x, x = e, *x, **x, with or without a type. *)
Fixpoint param_name (p : expr) : list bytes :=
  match p with
  | EIdent i | ETyped _ i _ => [i_name i]
  | EAssign _ x _ _ _ _ | EUnary _ _ _ (Some x) => param_name x
  | _ => []
  end.
(** The occurrences of the variables of the surrounding function that are read by evaluating [e] ([target] = false) or in
    order to assign to [e] ([target] = true: x = .. does not read x, but x[i] = .. reads x and i). *)
Fixpoint reads (target : bool) (e : expr) : list ident :=
  let free := reads false in
  let some o := match o with Some x => free x | None => [] end in
  let default p := match p with EAssign _ _ _ _ _ y => free y | _ => [] end in
  match e with
  | EIdent i => if target then [] else [i]
  | EList _ _ l _ _ | ETuple _ _ _ l _ _ _ => flat_map (reads target) l
  | EParen _ _ x _ _ => reads target x
  | ECall _ x _ args _ _ _ => free x ++ flat_map free args
  | EAssign _ _ _ _ _ y => free y                             (* an argument name = value: the name is not a variable *)
  | EDot _ x _ _ _ => free x
  | EUnary _ _ _ x => some x
  | EBinary _ x _ _ _ y | EKV _ x _ y | EIndex _ x _ y _ => free x ++ free y
  | ECond _ x _ y _ z => free x ++ free y ++ free z
  | ESlice _ x _ a _ b _ c _ => free x ++ some a ++ some b ++ some c
  | ESet _ _ l _ _ | EDict _ _ l _ _ => flat_map free l
  | EForC _ _ v _ x => reads true v ++ free x
  | EIfC _ _ x => free x
  | EComp _ _ _ b cl _ _ =>
      (* the first iterable is evaluated outside; the variables are visible in all the rest *)
      match cl with
      | EForC _ _ v _ x :: cl' => free x ++ without (flat_map clause_vars cl) (free b ++ reads true v ++ flat_map free cl')
      | _ => free b ++ flat_map free cl
      end
  | ELambda _ _ ps b => flat_map default ps ++ without (flat_map param_name ps) (flat_map free b)
  | _ => []
  end.
Definition free : expr -> list ident := reads false.
(** Assigning to [e], from left to right. *)
Fixpoint assign (e : expr) : list event :=
  match e with
  | EIdent i => [Bind (i_name i)]
  | ETuple _ _ _ l _ _ _ | EList _ _ l _ _ => flat_map assign l
  | EParen _ _ x _ _ => assign x
  | _ => map Read (free e)
  end.
Definition eval (e : expr) : list event := map Read (free e).
Definition default_of (p : expr) : list event := match p with EAssign _ _ _ _ _ y => eval y | _ => [] end.

(** Statements that run through.  A nested function is defined here; its body runs later and is not followed. *)
Definition is_jump (s : expr) : Prop :=
  match s with
  | EReturn _ _ _ | EFor _ _ _ _ _ | EIf _ _ _ _ _ _ => True
  | EBranch _ tok _ => tok = %"break" \/ tok = %"continue"
  | ECall _ (EIdent i) _ _ _ _ _ => i_name i = %"fail"
  | _ => False
  end.
Definition simple (s : expr) : list event :=
  match s with
  | EAssign _ x _ op _ y => (if beq op %"=" then [] else eval x) ++ eval y ++ assign x
  | EDef _ _ ps _ n _ _ _ _ => flat_map default_of ps ++ [Bind n]
  | ELoad _ _ _ _ to _ _ => map (fun i => Bind (i_name i)) to
  | _ => eval s
  end.
Inductive ending := Through | Broke | Continued | Ended.
(** [path l tr k]: [l] can run with the events [tr] and end in the way [k]: at its end, with break or continue, or by leaving
    the function.  Conditions and iterables are arbitrary.  (A run may also stop anywhere because of an error; its events are
    then the beginning of those of a run given here.) *)
Inductive path : list expr -> list event -> ending -> Prop :=
  | p_end : path [] [] Through
  | p_next s l tr tr' k : path1 s tr Through -> path l tr' k -> path (s :: l) (tr ++ tr') k
  | p_stop s l tr k : path1 s tr k -> k <> Through -> path (s :: l) tr k
with path1 : expr -> list event -> ending -> Prop :=
  | p_simple s : ~ is_jump s -> path1 s (simple s) Through
  | p_fail c i p args en k m : i_name i = %"fail" -> path1 (ECall c (EIdent i) p args en k m) (eval (ECall c (EIdent i) p args en k m)) Ended
  | p_return c p x : path1 (EReturn c p x) (match x with Some x => eval x | None => [] end) Ended
  | p_break c p : path1 (EBranch c %"break" p) [] Broke
  | p_continue c p : path1 (EBranch c %"continue" p) [] Continued
  | p_true c p x t ep f tr k : path t tr k -> path1 (EIf c p x t ep f) (eval x ++ tr) k
  | p_false c p x t ep f tr k : path f tr k -> path1 (EIf c p x t ep f) (eval x ++ tr) k
  | p_for c p v x b tr k : rounds v b tr k -> path1 (EFor c p v x b) (eval x ++ tr) k
(** The iterations of a loop. *)
with rounds : expr -> list expr -> list event -> ending -> Prop :=
  | r_none v b : rounds v b [] Through
  | r_again v b tr k tr' k' : path b tr k -> k = Through \/ k = Continued -> rounds v b tr' k' -> rounds v b (assign v ++ tr ++ tr') k'
  | r_broke v b tr : path b tr Broke -> rounds v b (assign v ++ tr) Through
  | r_out v b tr : path b tr Ended -> rounds v b (assign v ++ tr) Ended.
(** On some run of the body the occurrence [i] is read before its variable has a value. *)
Definition read_unset (body : list expr) (i : ident) : Prop :=
  exists tr k p q, path body tr k /\ tr = p ++ Read i :: q /\ ~ In (Bind (i_name i)) p.

(** The variables of a function: names that are assigned by one of its own statements and are not parameters. *)
Inductive own (l : list expr) : expr -> Prop :=
  | own_here x : In x l -> own l x
  | own_for c p v x b y : own l (EFor c p v x b) -> In y b -> own l y
  | own_true c p x t ep f y : own l (EIf c p x t ep f) -> In y t -> own l y
  | own_false c p x t ep f y : own l (EIf c p x t ep f) -> In y f -> own l y.
Definition variable (ps body : list expr) (n : bytes) : Prop :=
  ~ In n (flat_map param_name ps) /\
  exists s, own body s /\ In n match s with EAssign _ x _ _ _ _ => bound x | EFor _ _ v _ _ => bound v | _ => [] end.

(** ** Conditions *)
(** [inside e x]: [x] is [e] or a part of it. *)
Inductive inside (e : expr) : expr -> Prop :=
  | in_self : inside e e
  | in_part x y : inside e x -> sub x y -> inside e y.
Definition is_name (e : expr) : Prop := match e with EIdent _ => True | _ => False end.
Definition is_clause (e : expr) : Prop := match e with EForC _ _ _ _ _ | EIfC _ _ _ => True | _ => False end.
Definition is_for (e : expr) : Prop := match e with EForC _ _ _ _ _ => True | _ => False end.
Definition is_stmt (e : expr) : Prop :=
  match e with EDef _ _ _ _ _ _ _ _ _ | EFor _ _ _ _ _ | EIf _ _ _ _ _ _ | EReturn _ _ _ | ELoad _ _ _ _ _ _ _ | EFile _ _ _ => True | _ => False end.
(** x, x: t *)
Definition names_one (e : expr) : Prop := match e with EIdent _ | ETyped _ _ _ => True | _ => False end.
(** A parameter: x, x = e, *x, **x, * (with types, in a function). *)
Definition is_param (named : expr -> Prop) (p : expr) : Prop :=
  match p with
  | EAssign _ x _ _ _ _ => named x
  | EUnary _ _ _ (Some x) => named x
  | EUnary _ _ _ None => True
  | _ => named p
  end.
(** What the grammar ensures of an expression, at one node: no statements inside; clauses stand in comprehensions only, the first
    is a for; the name of a keyword argument is a name; parameters are parameters. *)
Definition legal (e : expr) : Prop :=
  ~ is_stmt e /\
  match e with
  | EComp _ _ _ b cl _ _ => ~ is_clause b /\ Forall is_clause cl /\ match cl with k :: _ => is_for k | [] => False end
  | EAssign _ x _ _ _ y => is_name x /\ ~ is_clause y
  | ELambda _ _ ps b => Forall (is_param is_name) ps /\ Forall (fun x => ~ is_clause x) b
  | _ => forall x, sub e x -> ~ is_clause x
  end.
(** Expressions that belong to a statement itself, and those it assigns to. *)
Definition default (p : expr) : list expr := match p with EAssign _ _ _ _ _ y => [y] | _ => [] end.
Definition exprs_of (s : expr) : list expr :=
  match s with
  | EAssign _ x _ _ _ y => [x; y]
  | EFor _ _ v x _ => [v; x]
  | EIf _ _ x _ _ _ => [x]
  | EReturn _ _ x => opt_list (fun x => x) x
  | EDef _ _ ps _ _ _ _ _ _ => flat_map default ps
  | ELoad _ _ _ _ _ _ _ => []
  | _ => [s]
  end.
Definition legal_stmt (s : expr) : Prop :=
  (forall e x, In e (exprs_of s) -> inside e x -> legal x) /\ (forall e, In e (exprs_of s) -> ~ is_clause e) /\
  match s with EDef _ _ ps _ _ _ _ _ _ => Forall (is_param names_one) ps | EFile _ _ _ => False | _ => True end.
Definition names (l : list ident) : list bytes := map i_name l.
(** [n] is not assigned in parentheses, as in (n) = 1. *)
Fixpoint unwrapped (n : bytes) (e : expr) : Prop :=
  match e with
  | ETuple _ _ _ l _ _ _ | EList _ _ l _ _ => (fix all l := match l with [] => True | x :: l' => unwrapped n x /\ all l' end) l
  | EParen _ _ x _ _ => ~ In n (bound x)
  | _ => True
  end.

(** Where the analysis looks away.  In an expression: a first iterable that reads a variable with the name of one of the
    comprehension's own; the default of a lambda parameter that reads a variable with the name of another parameter. *)
Definition seen_expr (n : bytes) (e : expr) : Prop :=
  match e with
  | EComp _ _ _ _ ((EForC _ _ _ _ x :: _) as cl) _ _ => In n (flat_map clause_vars cl) -> ~ In n (names (free x))
  | ELambda _ _ ps _ => In n (flat_map param_name ps) -> ~ In n (names (flat_map free (flat_map default ps)))
  | _ => True
  end.
(** In a statement: x += 1; fail(x); for a[x] in .. ; (x) = 1 *)
Definition seen_stmt (n : bytes) (s : expr) : Prop :=
  (forall e x, In e (exprs_of s) -> inside e x -> seen_expr n x) /\
  match s with
  | EAssign _ x _ op _ _ => unwrapped n x /\ (op = %"=" \/ ~ In n (bound x))
  | EFor _ _ v _ _ => unwrapped n v /\ ~ In n (names (reads true v))
  | ECall _ (EIdent i) _ _ _ _ _ => i_name i = %"fail" -> ~ In n (names (free s))
  | _ => True
  end.
(** Where the analysis sees what is not there.  In an expression: a lambda parameter with a default or star; a comprehension variable
    in parentheses. *)
Definition real_expr (n : bytes) (e : expr) : Prop :=
  match e with
  | EComp _ _ _ _ cl _ _ => Forall (fun k => match k with EForC _ _ v _ _ => unwrapped n v | _ => True end) cl
  | ELambda _ _ ps _ => Forall (fun p => is_name p \/ ~ In n (param_name p)) ps
  | _ => True
  end.
(** In a statement: the name of a nested function, of a loaded symbol, of an argument in the default of a parameter of a nested
    function; a[x], x = .. in one assignment; (x) = 1. *)
Definition real_stmt (n : bytes) (s : expr) : Prop :=
  (forall e x, In e (exprs_of s) -> inside e x -> real_expr n x) /\
  match s with
  | EAssign _ x _ _ _ _ => unwrapped n x /\ (In n (bound x) -> ~ In n (names (reads true x)))
  | EFor _ _ v _ _ => unwrapped n v
  | EDef _ _ ps _ m _ _ _ _ =>
      m <> n /\ forall p e c i a op b y, In p ps -> In e (default p) -> inside e (EAssign c (EIdent i) a op b y) -> i_name i <> n
  | ELoad _ _ _ fr to _ _ => ~ In n (names fr) /\ ~ In n (names to)
  | _ => True
  end.
