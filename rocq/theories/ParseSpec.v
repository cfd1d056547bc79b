(** The language of the parser (C65-C69), independent of its tables: which tokens spell which tree.
    Positions, comments and layout flags of the tree play no part here, and blocks that hold only comments
    ([CommentBlock]) are skipped. *)
From Verif Require Import Base Ast.
From Verif Require Import Lex.   (* for the token type *)

Definition is (k : kind) (t : token) : Prop := t_kind t = k.
Definition ch (c : ascii) (t : token) : Prop := t_kind t = KChar c.
Definition commas (ts : list token) : Prop := Forall (ch ",") ts.
Definition newlines (ts : list token) : Prop := Forall (ch c_nl) ts.

(** Binary operators from the loosest (a conditional expression is looser still, level 1) to the tightest;
    all associate to the left.  Unary operators, [not] included, bind tighter (level 12). *)
Definition binops : list (bytes * kind * nat) :=
  [(%"or", KOr, 3); (%"and", KAnd, 4);
   (%"<", KChar "<", 5); (%">", KChar ">", 5); (%"==", KEq, 5); (%"!=", KNe, 5); (%"<=", KLe, 5); (%">=", KGe, 5); (%"in", KIn, 5);
   (%"|", KChar "|", 6); (%"^", KChar "^", 7); (%"&", KChar "&", 8); (%"<<", KLsh, 9); (%">>", KRsh, 9);
   (%"+", KChar "+", 10); (%"-", KChar "-", 10);
   (%"*", KChar "*", 11); (%"/", KChar "/", 11); (%"%", KChar "%", 11); (%"//", KIntDiv, 11)]%char.
Definition unops : list (bytes * kind) := [(%"not", KNot); (%"-", KChar "-"); (%"+", KChar "+"); (%"~", KChar "~")]%char.
Inductive operator : bytes -> nat -> list token -> Prop :=
  | op_one s k n t : In (s, k, n) binops -> is k t -> t_tok t = s -> operator s n [t]
  | op_not_in t u : is KNot t -> is KIn u -> operator %"not in" 5 [t; u].
Definition is_not (e : expr) : Prop := exists c p x, e = EUnary c p %"not" x.
(** Assignments; four of the augmented ones give a [BinaryExpr]. *)
Definition assign_ops : list bytes := [%"="; %"+="; %"-="; %"*="; %"/="; %"//="; %"%="; %"|="].
Definition other_augmented : list bytes := [%"&="; %"^="; %"<<="; %">>="].

Definition spelled_string (s : strlit) (t : token) : Prop :=
  is KString t /\ s_value s = t_str t /\ s_triple s = t_triple t /\ s_token s = t_tok t.
Definition spelled_ident (i : ident) (t : token) : Prop := is KIdent t /\ i_name i = t_tok t.
Inductive load_arg : ident -> ident -> list token -> Prop :=
  | la_same f t s : is KString s -> i_name f = t_str s -> i_name t = t_str s -> load_arg f t [s]
  | la_as f t i eq s : spelled_ident t i -> ch "=" eq -> is KString s -> i_name f = t_str s -> load_arg f t [i; eq; s].
Inductive load_args : list ident -> list ident -> list token -> Prop :=
  | las_one f t ts : load_arg f t ts -> load_args [f] [t] ts
  | las_more fs ts tl c f t ta : load_args fs ts tl -> ch "," c -> load_arg f t ta ->
      load_args (fs ++ [f]) (ts ++ [t]) (tl ++ c :: ta).

(** The statements of a body that are not just comments. *)
Definition is_code (e : expr) : bool := match e with ECommentBlock _ _ => false | _ => true end.
Definition code (l : list expr) : list expr := filter is_code l.

Inductive cat :=
  | Prim                                  (* an expression with nothing to parenthesize *)
  | Level (n : nat) (opn : bool)          (* an expression whose operators bind at least as tightly as level n;
                                             [opn]: it ends with a lambda, so that operators after it would belong
                                             to the lambda *)
  | Test                                  (* any expression without top-level commas *)
  | Item                                  (* the same without a top-level conditional: the second and further elements
                                             of a tuple without parentheses *)
  | Expr                                  (* any expression *)
  | Vars                                  (* loop variables *)
  | Arg | Param | TParam                  (* arguments, lambda parameters, function parameters *)
  | Pair                                  (* key: value *)
  | Small                                 (* a simple statement *)
  | IfTail (tight : bool)                 (* an if statement without its keyword *)
  | Block (tight : bool).                 (* a def, for or if statement; [tight]: it ends with a one-line suite,
                                             to which the empty lines after it belong *)
Inductive one : cat -> expr -> list token -> Prop :=
  | p_ident i t : spelled_ident i t -> one Prim (EIdent i) [t]
  | p_int c p t : is KInt t -> one Prim (ELit c p (t_tok t)) [t]
  | p_int_frac c p a d b : is KInt a -> ch "." d -> is KInt b -> one Prim (ELit c p (t_tok a ++ %"." ++ t_tok b)) [a; d; b]
  | p_int_dot c p a d : is KInt a -> ch "." d -> one Prim (ELit c p (t_tok a ++ %".")) [a; d]
  | p_frac c p d b : ch "." d -> is KInt b -> one Prim (ELit c p (%"." ++ t_tok b)) [d; b]
  | p_str s t : spelled_string s t -> one Prim (EStr s) [t]
  | p_dot c x p q n tx d t : one Prim x tx -> (forall a, is KInt a -> tx <> [a]) -> ch "." d -> is KIdent t -> t_tok t = n ->
      one Prim (EDot c x p q n) (tx ++ [d; t])
  | p_load c p m fr to r fc l lp cs0 s cs1 tl cs2 rp : is KLoad l -> ch "(" lp -> commas cs0 -> spelled_string m s ->
      commas cs1 -> cs1 <> [] -> load_args fr to tl -> commas cs2 -> ch ")" rp ->
      one Prim (ELoad c p m fr to r fc) (l :: lp :: cs0 ++ s :: cs1 ++ tl ++ cs2 ++ [rp])
  | p_call0 c x p e fc fm tx lp rp : one Prim x tx -> ch "(" lp -> ch ")" rp ->
      one Prim (ECall c x p [] e fc fm) (tx ++ [lp; rp])
  | p_call c x p l e fc fm tx lp cs0 tl cs1 rp : one Prim x tx -> ch "(" lp -> commas cs0 -> row Arg l tl -> commas cs1 -> ch ")" rp ->
      one Prim (ECall c x p l e fc fm) (tx ++ lp :: cs0 ++ tl ++ cs1 ++ [rp])
  | p_index c x p y e tx lb ty rb : one Prim x tx -> ch "[" lb -> one Expr y ty -> ch "]" rb ->
      one Prim (EIndex c x p y e) (tx ++ lb :: ty ++ [rb])
  | p_slice c x p f c1 t c2 s e tx lb tf k1 tt tr rb : one Prim x tx -> ch "[" lb -> maybe Expr f tf -> ch ":" k1 -> maybe Test t tt ->
      stride s tr -> ch "]" rb ->
      one Prim (ESlice c x p f c1 t c2 s e) (tx ++ lb :: tf ++ k1 :: tt ++ tr ++ [rb])
  | p_list c p l e fm lb tl rb : ch "[" lb -> items Test l tl -> ch "]" rb -> one Prim (EList c p l e fm) (lb :: tl ++ [rb])
  | p_comp c p b l fm e lb tb o tl rb : ch "[" lb -> one Test b tb -> clauses o l tl -> ch "]" rb ->
      one Prim (EComp c false p b l fm e) (lb :: tb ++ tl ++ [rb])
  | p_dict_comp c p b l fm e lb tb o tl rb : ch "{" lb -> one Pair b tb -> clauses o l tl -> ch "}" rb ->
      one Prim (EComp c true p b l fm e) (lb :: tb ++ tl ++ [rb])
  | p_dict c p l e fm lb tl rb : ch "{" lb -> items Pair l tl -> ch "}" rb -> one Prim (EDict c p l e fm) (lb :: tl ++ [rb])
  | p_set c p l e fm lb tl cs rb : ch "{" lb -> row Test l tl -> commas cs -> (List.length cs <= 1)%nat -> ch "}" rb ->
      one Prim (ESet c p l e fm) (lb :: tl ++ cs ++ [rb])
  | p_paren c p x e fm lp tx rp : ch "(" lp -> one Test x tx -> ch ")" rp -> one Prim (EParen c p x e fm) (lp :: tx ++ [rp])
  | p_tuple0 c p e fc fm lp rp : ch "(" lp -> ch ")" rp -> one Prim (ETuple c false p [] e fc fm) [lp; rp]
  | p_tuple c p l e fc fm lp tl cs rp : ch "(" lp -> row Test l tl -> commas cs -> (List.length l = 1 -> cs <> []) -> ch ")" rp ->
      one Prim (ETuple c false p l e fc fm) (lp :: tl ++ cs ++ [rp])

  | t_prim n e ts : one Prim e ts -> one (Level n false) e ts
  | t_lambda n c p ps b l tp k tb : is KLambda l -> params Param ps tp -> ch ":" k -> one Test b tb ->
      one (Level n true) (ELambda c p ps [b]) (l :: tp ++ k :: tb)
  | t_unary n o c p op k x t tx : In (op, k) unops -> is k t -> t_tok t = op -> one (Level 12 o) x tx -> n <= 12 ->
      one (Level n o) (EUnary c p op (Some x)) (t :: tx)
  | t_binary n o c x p op m lb y tx top ty : operator op m top -> one (Level m false) x tx -> one (Level (S m) o) y ty -> n <= m ->
      one (Level n o) (EBinary c x p op lb y) (tx ++ top ++ ty)
  | t_is n o c x p lb y tx t ty : is KIs t -> t_tok t = %"is" -> one (Level 2 false) x tx -> one (Level 3 o) y ty -> ~ is_not y -> n <= 2 ->
      one (Level n o) (EBinary c x p %"is" lb y) (tx ++ t :: ty)
  | t_is_not n o c x p lb y tx t u ty : is KIs t -> is KNot u -> t_tok u = %"not" -> one (Level 2 false) x tx -> one (Level 12 o) y ty -> n <= 2 ->
      one (Level n o) (EBinary c x p %"is not" lb y) (tx ++ t :: u :: ty)
  | t_cond n o c x p1 y p2 z tx i ty e tz : is KIf i -> is KElse e -> one (Level 1 false) x tx -> one Test y ty -> one (Level 2 o) z tz -> n <= 1 ->
      one (Level n o) (ECond c x p1 y p2 z) (tx ++ i :: ty ++ e :: tz)
  | t_any o e ts : one (Level 0 o) e ts -> one Test e ts
  | t_item o e ts : one (Level 2 o) e ts -> one Item e ts

  | e_test e ts : one Test e ts -> one Expr e ts
  | e_tuple c p l d fc fm ts : row1 Test Item l ts -> 2 <= List.length l -> one Expr (ETuple c true p l d fc fm) ts
  | v_one e ts : one Prim e ts -> one Vars e ts
  | v_tuple c p l d fc fm ts : row1 Prim Prim l ts -> 2 <= List.length l -> one Vars (ETuple c true p l d fc fm) ts
  | a_test e ts : one Test e ts -> one Arg e ts
  | a_named c i p lb y t eq ty : spelled_ident i t -> ch "=" eq -> one Test y ty ->
      one Arg (EAssign c (EIdent i) p %"=" lb y) (t :: eq :: ty)
  | a_star c p x t tx : ch "*" t -> one Test x tx -> one Arg (EUnary c p %"*" (Some x)) (t :: tx)
  | a_star2 c p x t tx : is KStarStar t -> one Test x tx -> one Arg (EUnary c p %"**" (Some x)) (t :: tx)
  | f_ident i t : spelled_ident i t -> one Param (EIdent i) [t]
  | f_default c i p lb y t eq ty : spelled_ident i t -> ch "=" eq -> one Test y ty ->
      one Param (EAssign c (EIdent i) p %"=" lb y) (t :: eq :: ty)
  | f_star c p i s t : ch "*" s -> spelled_ident i t -> one Param (EUnary c p %"*" (Some (EIdent i))) [s; t]
  | f_bare c p s : ch "*" s -> one Param (EUnary c p %"*" None) [s]
  | f_star2 c p i s t : is KStarStar s -> spelled_ident i t -> one Param (EUnary c p %"**" (Some (EIdent i))) [s; t]
  | g_param e ts : one Param e ts -> one TParam e ts
  | g_typed c i ty t k tt : spelled_ident i t -> ch ":" k -> one Test ty tt -> one TParam (ETyped c i ty) (t :: k :: tt)
  | g_default c c' i ty p lb y t k tt eq ty' : spelled_ident i t -> ch ":" k -> one Test ty tt -> ch "=" eq -> one Test y ty' ->
      one TParam (EAssign c (ETyped c' i ty) p %"=" lb y) (t :: k :: tt ++ eq :: ty')
  | g_star c p c' i ty s t k tt : ch "*" s -> spelled_ident i t -> ch ":" k -> one Test ty tt ->
      one TParam (EUnary c p %"*" (Some (ETyped c' i ty))) (s :: t :: k :: tt)
  | g_star2 c p c' i ty s t k tt : is KStarStar s -> spelled_ident i t -> ch ":" k -> one Test ty tt ->
      one TParam (EUnary c p %"**" (Some (ETyped c' i ty))) (s :: t :: k :: tt)
  | k_pair c x p y tx k ty : one Test x tx -> ch ":" k -> one Test y ty -> one Pair (EKV c x p y) (tx ++ k :: ty)

  | s_expr e ts : one Expr e ts -> one Small e ts
  | s_return c p t : is KReturn t -> one Small (EReturn c p None) [t]
  | s_return_value c p x t tx : is KReturn t -> one Expr x tx -> one Small (EReturn c p (Some x)) (t :: tx)
  | s_assign c x p op lb y tx t ty : one Expr x tx -> t_tok t = op -> (is KAugm t \/ ch "=" t) -> In op assign_ops -> one Expr y ty ->
      one Small (EAssign c x p op lb y) (tx ++ t :: ty)
  | s_augmented c x p op lb y tx t ty : one Expr x tx -> t_tok t = op -> is KAugm t -> In op other_augmented -> one Expr y ty ->
      one Small (EBinary c x p op lb y) (tx ++ t :: ty)
  | s_branch c p t k : In k [KPass; KBreak; KContinue] -> is k t -> one Small (EBranch c (t_tok t) p) [t]

  | b_def k c p ps b n col fc fm ty d nm lp tp rp ta cl tb : is KDef d -> is KIdent nm -> t_tok nm = n -> ch "(" lp -> params TParam ps tp -> ch ")" rp ->
      annotation ty ta -> ch ":" cl -> suite k (code b) tb ->
      one (Block k) (EDef c p ps b n col fc fm ty) (d :: nm :: lp :: tp ++ rp :: ta ++ cl :: tb)
  | b_for k c p v x b f tv i tx cl tb : is KFor f -> one Vars v tv -> is KIn i -> one Expr x tx -> ch ":" cl -> suite k (code b) tb ->
      one (Block k) (EFor c p v x b) (f :: tv ++ i :: tx ++ cl :: tb)
  | b_if k e i ts : is KIf i -> one (IfTail k) e ts -> one (Block k) e (i :: ts)
  | i_end k c p x t ep tx cl tb : one Expr x tx -> ch ":" cl -> suite k (code t) tb -> one (IfTail k) (EIf c p x t ep []) (tx ++ cl :: tb)
  | i_elif k k' c p x t ep e tx cl tb el te : one Expr x tx -> ch ":" cl -> suite k' (code t) tb ->
      (exists a, el = [a] /\ is KElif a) \/ (exists a b, el = [a; b] /\ is KElse a /\ is KIf b) -> one (IfTail k) e te ->
      one (IfTail k) (EIf c p x t ep [e]) (tx ++ cl :: tb ++ el ++ te)
  | i_else k k' c p x t ep f tx cl tb el cl' tf : one Expr x tx -> ch ":" cl -> suite k' (code t) tb -> is KElse el -> ch ":" cl' -> suite k (code f) tf ->
      one (IfTail k) (EIf c p x t ep f) (tx ++ cl :: tb ++ el :: cl' :: tf)

(** An optional part. *)
with maybe : cat -> option expr -> list token -> Prop :=
  | m_none c : maybe c None []
  | m_some c e ts : one c e ts -> maybe c (Some e) ts
(** The last part of a slice; the type of the result of a function. *)
with stride : option expr -> list token -> Prop :=
  | sp_none : stride None []
  | sp_some k s ts : ch ":" k -> maybe Test s ts -> stride s (k :: ts)
with annotation : option expr -> list token -> Prop :=
  | an_none : annotation None []
  | an_some ar t tt : is KArrow ar -> one Test t tt -> annotation (Some t) (ar :: tt)
(** Elements separated by one or more commas. *)
with row : cat -> list expr -> list token -> Prop :=
  | r_one c e ts : one c e ts -> row c [e] ts
  | r_more c l tl cs e ts : row c l tl -> commas cs -> cs <> [] -> one c e ts -> row c (l ++ [e]) (tl ++ cs ++ ts)
(** The same, possibly empty, possibly with trailing commas. *)
with items : cat -> list expr -> list token -> Prop :=
  | it_none c : items c [] []
  | it_some c l tl cs : row c l tl -> commas cs -> items c l (tl ++ cs)
(** Elements separated by single commas: the first one and the others. *)
with row1 : cat -> cat -> list expr -> list token -> Prop :=
  | r1_one c c' e ts : one c e ts -> row1 c c' [e] ts
  | r1_more c c' l tl cm e ts : row1 c c' l tl -> ch "," cm -> one c' e ts -> row1 c c' (l ++ [e]) (tl ++ cm :: ts)
(** Parameters: possibly none, possibly with one trailing comma. *)
with params : cat -> list expr -> list token -> Prop :=
  | ps_none c : params c [] []
  | ps_some c l tl cs : row1 c c l tl -> commas cs -> (List.length cs <= 1)%nat -> params c l (tl ++ cs)
(** The clauses of a comprehension; [opn]: the last one ends with a lambda. *)
with clauses : bool -> list expr -> list token -> Prop :=
  | c_for o c p v q x f tv i tx : is KFor f -> one Vars v tv -> is KIn i -> one (Level 2 o) x tx ->
      clauses o [EForC c p v q x] (f :: tv ++ i :: tx)
  | c_more_for o' l tl o c p v q x f tv i tx : clauses o' l tl -> is KFor f -> one Vars v tv -> is KIn i -> one (Level 2 o) x tx ->
      clauses o (l ++ [EForC c p v q x]) (tl ++ f :: tv ++ i :: tx)
  | c_more_if l tl o c p x i tx : clauses false l tl -> is KIf i -> one (Level 2 o) x tx ->
      clauses o (l ++ [EIfC c p x]) (tl ++ i :: tx)
(** Simple statements separated by semicolons. *)
with smalls : list expr -> list token -> Prop :=
  | sm_one e ts : one Small e ts -> smalls [e] ts
  | sm_more l tl s e ts : smalls l tl -> ch ";" s -> one Small e ts -> smalls (l ++ [e]) (tl ++ s :: ts)
(** The same as a line. *)
with line : list expr -> list token -> Prop :=
  | ln l tl semi nl : smalls l tl -> (semi = [] \/ exists s, semi = [s] /\ ch ";" s) -> ch c_nl nl -> line l (tl ++ semi ++ [nl])
(** Statements, with empty lines and comment lines; [tight]: the last one is. *)
with stmts : bool -> list expr -> list token -> Prop :=
  | st_nil : stmts false [] []
  | st_blank l ts nl : stmts false l ts -> ch c_nl nl -> stmts false l (ts ++ [nl])
  | st_comment k l ts c nl : stmts k l ts -> is KComment c -> ch c_nl nl -> stmts false l (ts ++ [c; nl])
  | st_line k l ts l' tl : stmts k l ts -> line l' tl -> stmts false (l ++ l') (ts ++ tl)
  | st_block k l ts k' e te : stmts k l ts -> one (Block k') e te -> stmts k' (l ++ [e]) (ts ++ te)
with suite : bool -> list expr -> list token -> Prop :=
  | su_block nl k0 noise ind k l tb un : ch c_nl nl -> stmts k0 [] noise -> is KIndent ind -> stmts k l tb -> l <> [] -> is KUnindent un ->
      suite false l (nl :: noise ++ ind :: tb ++ [un])
  | su_line l tl nls : line l tl -> newlines nls -> suite true l (tl ++ nls).
(** A file. *)
Definition program (l : list expr) (ts : list token) : Prop := exists k, stmts k (code l) ts.
