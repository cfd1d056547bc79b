(** What the lint unnamed-macro is about: functions that make rules. *)
From Verif Require Import Base Ast WalkSpec Labels Macro.

(** [x] is the last element of [l] in [P]. *)
Definition last_such {A} (P : A -> Prop) (l : list A) (x : A) : Prop := exists a b, l = a ++ x :: b /\ P x /\ Forall (fun y => ~ P y) b.
Definition none_such {A} (P : A -> Prop) (l : list A) : Prop := Forall (fun y => ~ P y) l.

(** A load statement of this repository brings the symbol [orig] of file [f] of package [p] under the name [n]; it binds a name
    once (Starlark rejects it otherwise) as many times as it is there: the last one counts. *)
Definition load_pairs (fr to : list ident) : list (bytes * bytes) := combine (map i_name fr) (map i_name to).
Definition loads_name (pkg n : bytes) (s : option expr) : Prop :=
  exists c q m fr to r k, s = Some (ELoad c q m fr to r k) /\ repository (parse_relative (s_value m) pkg) = [] /\
    target (parse_relative (s_value m) pkg) <> [] /\ exists orig, In (orig, n) (load_pairs fr to).
Definition loaded_as (pkg : bytes) (stmts : list (option expr)) (n : bytes) (g : function) : Prop :=
  exists c q m fr to r k orig, let l := parse_relative (s_value m) pkg in
    last_such (loads_name pkg n) stmts (Some (ELoad c q m fr to r k)) /\
    last_such (fun e => snd e = n) (load_pairs fr to) (orig, n) /\ g = Fn (package l) (target l) orig.
(** What a name at the top of a file refers to: a loaded symbol or one of the file. *)
Definition refers (pkg file : bytes) (stmts : list (option expr)) (n : bytes) (g : function) : Prop :=
  loaded_as pkg stmts n g \/ none_such (loads_name pkg n) stmts /\ g = Fn pkg file n.

(** n = y *)
Definition alias_stmt (n : bytes) (s : option expr) : Prop :=
  exists c x p op b y, s = Some (EAssign c (EIdent x) p op b (EIdent y)) /\ i_name x = n.
(** n = rule(...) *)
Definition rule_stmt (n : bytes) (s : option expr) : Prop :=
  exists c x p op b c' i q args en k m, s = Some (EAssign c (EIdent x) p op b (ECall c' (EIdent i) q args en k m)) /\ i_name x = n /\ i_name i = %"rule".
(** def n(...) *)
Definition def_stmt (n : bytes) (s : option expr) : Prop := exists c p params body colon k m ty, s = Some (EDef c p params body n colon k m ty).
(** A call of a function, anywhere in [e]: by its name, or as a native function; [alias] is how it is spelled. *)
Definition calls_fn (pkg file : bytes) (stmts : list (option expr)) (e : expr) (alias : bytes) (g : function) : Prop :=
  exists path c x q args en k m, node_at children e path = Some (ECall c x q args en k m) /\
    ((exists i, x = EIdent i /\ i_name i = alias /\ refers pkg file stmts alias g) \/
     (exists dc i p1 p2 n, x = EDot dc (EIdent i) p1 p2 n /\ i_name i = %"native" /\ alias = %"native." ++ n /\ g = Fn [] %"<native>" n)).

(** The repository: the linted file and what can be read of the others. *)
Definition repo (get : reader) (pkg file : bytes) (stmts : list (option expr)) (p f : bytes) : option (list (option expr)) :=
  if beq p pkg && beq f file then Some stmts else get p f.
Section Files.
  (** The files of the repository. *)
  Variable files : bytes -> bytes -> option (list (option expr)).
  (** A function that makes a rule: a native one other than these six, a rule, an alias of one, or a function that calls one. *)
  Inductive macro : function -> Prop :=
    | m_native p n : ~ In n [%"glob"; %"existing_rule"; %"existing_rules"; %"package_name"; %"repository_name"; %"exports_files"] -> macro (Fn p %"<native>" n)
    | m_alias p f n stmts c x q op b y g : f <> %"<native>" -> files p f = Some stmts ->
        last_such (alias_stmt n) stmts (Some (EAssign c (EIdent x) q op b (EIdent y))) -> refers p f stmts (i_name y) g -> macro g -> macro (Fn p f n)
    | m_rule p f n stmts s : f <> %"<native>" -> files p f = Some stmts -> none_such (alias_stmt n) stmts ->
        In s stmts -> rule_stmt n s -> macro (Fn p f n)
    | m_def p f n stmts d alias g : f <> %"<native>" -> files p f = Some stmts -> none_such (alias_stmt n) stmts -> none_such (rule_stmt n) stmts ->
        last_such (def_stmt n) stmts (Some d) -> calls_fn p f stmts d alias g -> macro g -> macro (Fn p f n).
  (** The functions that the verdict on a function is read from. *)
  Inductive depends : function -> function -> Prop :=
    | d_alias p f n stmts c x q op b y g : f <> %"<native>" -> files p f = Some stmts ->
        last_such (alias_stmt n) stmts (Some (EAssign c (EIdent x) q op b (EIdent y))) -> refers p f stmts (i_name y) g -> depends (Fn p f n) g
    | d_def p f n stmts d alias g : f <> %"<native>" -> files p f = Some stmts -> none_such (alias_stmt n) stmts -> none_such (rule_stmt n) stmts ->
        last_such (def_stmt n) stmts (Some d) -> calls_fn p f stmts d alias g -> depends (Fn p f n) g.
End Files.
(** A public function without a parameter called name and without a ** parameter. *)
Inductive param_named : expr -> bytes -> Prop :=
  | pn_ident i : param_named (EIdent i) (i_name i)
  | pn_typed c i t : param_named (ETyped c i t) (i_name i)
  | pn_default c x q op b v n : param_named x n -> param_named (EAssign c x q op b v) n
  | pn_star c q op x n : param_named x n -> param_named (EUnary c q op (Some x)) n.
(** A parameter **x *)
Inductive param_kwargs : expr -> Prop :=
  | pk_star c q x n : param_named x n -> param_kwargs (EUnary c q %"**" (Some x))
  | pk_default c x q op b v : param_kwargs x -> param_kwargs (EAssign c x q op b v).
Definition takes_name (params : list expr) : Prop := exists p, In p params /\ (param_named p %"name" \/ param_kwargs p).
Definition should_take_name (stmts : list (option expr)) (d : expr) (n : bytes) : Prop :=
  exists c p params body colon k m ty, d = EDef c p params body n colon k m ty /\ In (Some d) stmts /\ ~ (exists t, n = %"_" ++ t) /\ ~ takes_name params.
