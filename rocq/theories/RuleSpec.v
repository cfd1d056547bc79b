(** Specification of rule attributes and rule deletion (C33, C34). *)
From Verif Require Import Base Ast CallSpec.

(** Argument [x] gives attribute [key] the value [v]. *)
Definition gives (key : bytes) (x v : expr) : Prop :=
  exists c i p op b, x = EAssign c (EIdent i) p op b v /\ i_name i = key.
(** The value of attribute [key]: that of the first argument giving one. *)
Inductive attr_is (key : bytes) : list expr -> expr -> Prop :=
  | ai_here x v l : gives key x v -> attr_is key (x :: l) v
  | ai_later x v l : (forall w, ~ gives key x w) -> attr_is key l v -> attr_is key (x :: l) v.
Definition no_attr (key : bytes) (args : list expr) : Prop := forall x v, In x args -> ~ gives key x v.

(** The name of a rule, with [implicit] for rules without an explicit name. *)
Definition string_attr (key : bytes) (args : list expr) (s : bytes) : Prop :=
  exists l, attr_is key args (EStr l) /\ s_value l = s.
(** [named_rule args n]: the rule is explicitly named n (nonempty). *)
Definition explicitly_named (args : list expr) (n : bytes) : Prop := string_attr %"name" args n /\ n <> [].
Definition unnamed (args : list expr) : Prop := forall n, ~ explicitly_named args n.

(** The statement is a call of a rule [kind] with arguments [args]. *)
Definition calls (s : option expr) (callee : expr) (args : list expr) : Prop :=
  exists c p en k m, s = Some (ECall c callee p args en k m).
Definition has_kind (callee : expr) (kind : bytes) : Prop := callee_name callee kind.

(** The implicit name convention: a file in directory [dir] whose only unnamed rule may be called
    [dir], unless another rule has that name. *)
Definition anonymous (s : option expr) : Prop :=
  exists x args k, calls s x args /\ has_kind x k /\ k <> [] /\ unnamed args.
Definition implicit_applies (dir : bytes) (stmts : list (option expr)) : Prop :=
  (forall s x args, In s stmts -> calls s x args -> ~ explicitly_named args dir) /\
  exists a b s, stmts = a ++ s :: b /\ anonymous s /\ (forall t, In t (a ++ b) -> ~ anonymous t).
(** The name of the rule call [callee(args)] in a file of directory [dir] (None: top directory). *)
Definition name_is (dir : option bytes) (stmts : list (option expr)) (callee : expr) (args : list expr) (n : bytes) : Prop :=
  explicitly_named args n \/
  (unnamed args /\
   ((~ has_kind callee %"package" /\ exists d, dir = Some d /\ implicit_applies d stmts /\ n = d) \/
    ((has_kind callee %"package" \/ (forall d, dir = Some d -> ~ implicit_applies d stmts)) /\ n = []))).
