(** Specification of the MODULE.bazel edits and queries (C53, C57). *)
From Verif Require Import Base Ast RuleSpec RulesSpec LoadsSpec Labels Bzlmod.

(** [s] is the statement  proxy = use_extension("file", "name", extra...). *)
Definition uses_extension (s : option expr) (proxy file name : bytes) (extra : list expr) : Prop :=
  exists c lhs p op b c' f p' sf sn en k m,
    s = Some (EAssign c (EIdent lhs) p op b (ECall c' (EIdent f) p' (EStr sf :: EStr sn :: extra) en k m)) /\
    i_name lhs = proxy /\ i_name f = %"use_extension" /\ s_value sf = file /\ s_value sn = name.
(** A boolean keyword argument is given and is not literally False. *)
Definition flag_set (flag : bytes) (extra : list expr) : Prop :=
  exists a v, In a extra /\ gives flag a v /\ ~ exists i, v = EIdent i /\ i_name i = %"False".
(** The module's apparent name: repo_name (or else name) of the last module() call that has one. *)
Definition module_named (r : expr) (n : bytes) : Prop :=
  exists x args, call_of r x args /\ has_kind x %"module" /\
    ((string_attr %"repo_name" args n /\ n <> []) \/
     (string_attr %"name" args n /\ n <> [] /\ forall n', string_attr %"repo_name" args n' -> n' = [])).
Definition apparent (stmts : list (option expr)) (m : bytes) : Prop :=
  exists all, rules_in stmts all /\
    ((exists a r b, all = a ++ r :: b /\ module_named r m /\ forall r' n, In r' b -> ~ module_named r' n) \/
     ((forall r n, In r all -> ~ module_named r n) /\ m = [])).
(** The label with the module's own name for the main repository. *)
Definition full_label (m raw : bytes) : label :=
  let l := parse_relative raw [] in
  match repository l with [] => Label m (package l) (target l) | _ => l end.
(** [p] is a proxy of the (non-isolated) extension [name] of [file], for dev dependencies or not. *)
Definition extension_proxy (stmts : list (option expr)) (file name : bytes) (dev : bool) (p : bytes) : Prop :=
  exists s f extra m, In s stmts /\ uses_extension s p f name extra /\ apparent stmts m /\
    format (full_label m f) = format (full_label m file) /\
    (flag_set %"dev_dependency" extra <-> dev = true) /\ ~ flag_set %"isolate" extra.
(** All proxies that belong together with proxy [p], whose first assignment counts. *)
Definition same_usage (stmts : list (option expr)) (p q : bytes) : Prop :=
  exists a s b f n extra, stmts = a ++ s :: b /\ uses_extension s p f n extra /\
    (forall s' f' n' extra', In s' a -> ~ uses_extension s' p f' n' extra') /\
    ((flag_set %"isolate" extra /\ q = p) \/
     (~ flag_set %"isolate" extra /\ exists dev, (flag_set %"dev_dependency" extra <-> dev = true) /\
        extension_proxy stmts f n dev q)).

(** use_repo(proxy, args...) for one of the proxies. *)
Definition use_repo_of (proxies : list bytes) (s : option expr) (args : list expr) : Prop :=
  exists c f p i en k m, s = Some (ECall c (EIdent f) p (EIdent i :: args) en k m) /\
    i_name f = %"use_repo" /\ In (i_name i) proxies.
(** The repository an argument imports. *)
Definition names_repo (a : expr) (r : bytes) : Prop :=
  exists s, s_value s = r /\ (a = EStr s \/ exists c l p op b, a = EAssign c l p op b (EStr s)).
Definition used_repo (proxies : list bytes) (stmts : list (option expr)) (r : bytes) : Prop :=
  exists s args a, In s stmts /\ use_repo_of proxies s args /\ In a args /\ names_repo a r.
(** The same call with other arguments. *)
Definition same_call (s s' : option expr) (l l' : list expr) : Prop :=
  exists c x p en k m, s = Some (ECall c x p l en k m) /\ s' = Some (ECall c x p l' en k m).
Definition string_arg (r : bytes) (e : expr) : Prop := exists s, e = EStr s /\ s_value s = r.
(** Where a call ends (byte position of its closing parenthesis). *)
Definition ends_at (s : option expr) (z : Z) : Prop :=
  exists c x p l en k m, s = Some (ECall c x p l en k m) /\ z = p_byte (e_pos en).

(** The repos not used yet are appended, in order, to the use_repo call that ends last. *)
Definition repos_added (proxies repos : list bytes) (stmts stmts' : list (option expr)) : Prop :=
  exists a s b s' l old missing new,
    stmts = a ++ s :: b /\ stmts' = a ++ s' :: b /\ (exists args, use_repo_of proxies s args) /\
    same_call s s' l (l ++ new) /\
    pick (fun r => ~ used_repo proxies stmts r) repos missing old /\
    Forall2 string_arg missing new /\
    (forall t args z z', use_repo_of proxies t args -> ends_at s z -> ends_at t z' ->
       (In t a -> (z' < z)%Z) /\ (In t b -> (z' <= z)%Z)).
(** Exactly the arguments that import one of the repos disappear from the use_repo calls. *)
Definition repos_removed1 (proxies repos : list bytes) (s s' : option expr) : Prop :=
  ((forall args, ~ use_repo_of proxies s args) /\ s' = s) \/
  exists x args args' gone, same_call s s' (x :: args) (x :: args') /\ use_repo_of proxies s args /\
    pick (fun a => exists r, In r repos /\ names_repo a r) args gone args'.
(** A statement uses the proxy: assigns it or calls a tag class of it. *)
Definition proxy_usage (s : option expr) (p : bytes) : Prop :=
  (exists f n extra, uses_extension s p f n extra) \/
  (exists c c' i q q' n q'' args en k m, s = Some (ECall c (EDot c' (EIdent i) q q' n) q'' args en k m) /\ i_name i = p).
(** A use_repo call with the given repos is inserted after the last usage of a proxy. *)
Definition use_repo_inserted (proxies repos : list bytes) (stmts stmts' : list (option expr)) : Prop :=
  exists a s b p new call,
    stmts = a ++ s :: b /\ In p proxies /\ proxy_usage s p /\
    (forall t q, In t b -> In q proxies -> ~ proxy_usage t q) /\
    use_repo_of [p] call new /\ Forall2 string_arg repos new /\ stmts' = a ++ s :: call :: b.

(** What the use_repo_add and use_repo_remove commands do, given the proxies. *)
Definition use_repo_edited (add : bool) (proxies repos : list bytes) (stmts stmts' : list (option expr)) : Prop :=
  ((exists s args, In s stmts /\ use_repo_of proxies s args) /\
   if add then repos_added proxies repos stmts stmts' else Forall2 (repos_removed1 proxies repos) stmts stmts') \/
  ((forall s args, In s stmts -> ~ use_repo_of proxies s args) /\
   use_repo_inserted proxies (if add then repos else []) stmts stmts').

(** ** Includes *)
(** [include("label")] in a file. *)
Definition included (stmts : list (option expr)) (lab : bytes) : Prop :=
  exists all r i s, rules_in stmts all /\ In r all /\ call_of r (EIdent i) [EStr s] /\ i_name i = %"include" /\ s_value s = lab.
Inductive reachable (reader : bytes -> option (list (option expr))) (start : bytes) : bytes -> Prop :=
  | re_start : reachable reader start start
  | re_step f stmts lab : reachable reader start f -> reader f = Some stmts -> included stmts lab ->
      reachable reader start (include_path lab).
(** module() and bazel_dep() calls: module name and apparent name. *)
Definition declares (r : expr) (m n : bytes) : Prop :=
  exists x args, call_of r x args /\ (has_kind x %"module" \/ has_kind x %"bazel_dep") /\ explicitly_named args m /\
    ((string_attr %"repo_name" args n /\ n <> []) \/
     ((forall n', string_attr %"repo_name" args n' -> n' = []) /\ n = m)).
Inductive declarations : list expr -> list (bytes * bytes) -> Prop :=
  | de_nil : declarations [] []
  | de_yes r rs m n l : declares r m n -> declarations rs l -> declarations (r :: rs) ((m, n) :: l)
  | de_no r rs l : (forall m n, ~ declares r m n) -> declarations rs l -> declarations (r :: rs) l.
Definition file_declarations (stmts : list (option expr)) (l : list (bytes * bytes)) : Prop :=
  exists all, rules_in stmts all /\ declarations all l.
Inductive include_list : list expr -> list bytes -> Prop :=
  | il_nil : include_list [] []
  | il_yes r rs i s l : call_of r (EIdent i) [EStr s] -> i_name i = %"include" -> include_list rs l ->
      include_list (r :: rs) (include_path (s_value s) :: l)
  | il_no r rs l : (forall i s, call_of r (EIdent i) [EStr s] -> i_name i <> %"include") -> include_list rs l ->
      include_list (r :: rs) l.
Definition file_includes (stmts : list (option expr)) (l : list bytes) : Prop :=
  exists all, rules_in stmts all /\ include_list all l.
(** [r] is [l] without repetitions: every first occurrence, in order. *)
Inductive firsts {A} (seen : list A) : list A -> list A -> Prop :=
  | fi_nil : firsts seen [] []
  | fi_old x l r : In x seen -> firsts seen l r -> firsts seen (x :: l) r
  | fi_new x l r : ~ In x seen -> firsts (x :: seen) l r -> firsts seen (x :: l) (x :: r).
(** The value given to [k] by the last pair with that key. *)
Definition last_value (l : list (bytes * bytes)) (k v : bytes) : Prop :=
  exists a b, l = a ++ (k, v) :: b /\ forall v', ~ In (k, v') b.
