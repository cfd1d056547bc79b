(** C98: the lints about names, visibility, depsets in loops, single-element lists and deprecated functions. *)
From Verif Require Import LRTables LRCert Parse.
From Verif Require Import Base BaseProofs Ast ParseFile Walk WalkSpec WalkProofs WalkGen PropWalk RuleApi RuleSpec RuleProofs Labels Scope AttrParams PropAttr PropPrint PropFixLists CallLints PropCallLints Docstring PropDocstring StmtLints.
Local Open Scope list_scope.

(** ** What is asked for *)
(** The identifiers that an assignment to an expression binds (in parentheses none is seen) *)
Definition sequence (e : expr) (l : list expr) : Prop := (exists c np p en b m, e = ETuple c np p l en b m) \/ (exists c p en m, e = EList c p l en m).
Inductive binds : expr -> list ident -> Prop :=
  | bi_ident i : binds (EIdent i) [i]
  | bi_seq e l ls : sequence e l -> Forall2 binds l ls -> binds e (List.concat ls)
  | bi_other e : (forall i, e <> EIdent i) -> (forall l, ~ sequence e l) -> binds e [].
(** ... that statements bind, without the functions in them *)
Inductive assigned_by : expr -> list ident -> Prop :=
  | ab_assign c x p op b v ids : binds x ids -> assigned_by (EAssign c x p op b v) ids
  | ab_for c p v x body a ls : binds v a -> Forall2 assigned_by body ls -> assigned_by (EFor c p v x body) (a ++ List.concat ls)
  | ab_if c p x t q f ts fs : Forall2 assigned_by t ts -> Forall2 assigned_by f fs -> assigned_by (EIf c p x t q f) (List.concat ts ++ List.concat fs)
  | ab_other e : (forall c x p op b v, e <> EAssign c x p op b v) -> (forall c p v x body, e <> EFor c p v x body) -> (forall c p x t q f, e <> EIf c p x t q f) -> assigned_by e [].
Definition assigned (l : list expr) (ids : list ident) : Prop := exists ls, Forall2 assigned_by l ls /\ ids = List.concat ls.
(** The names a node introduces, with the expressions they are reported at *)
Definition named (i : ident) : expr * bytes := (EIdent i, i_name i).
Definition param_named (p : expr) (l : list (expr * bytes)) : Prop := (exists o n, param_name p o n /\ l = [(p, n)]) \/ ((forall o n, ~ param_name p o n) /\ l = []).
Definition clause_binds (c : expr) (ids : list ident) : Prop := (exists d p v q x, c = EForC d p v q x /\ binds v ids) \/ ((forall d p v q x, c <> EForC d p v q x) /\ ids = []).
Inductive introduces : expr -> list (expr * bytes) -> Prop :=
  | in_def c p ps b n q k m t pn ids : Forall2 param_named ps pn -> assigned b ids -> introduces (EDef c p ps b n q k m t) ((EDef c p ps b n q k m t, n) :: List.concat pn ++ map named ids)
  | in_comp c k p x cl m en ls : Forall2 clause_binds cl ls -> introduces (EComp c k p x cl m en) (map named (List.concat ls))
  | in_other e : ~ a_def e -> (forall c k p x cl m en, e <> EComp c k p x cl m en) -> introduces e [].
(** Those that are easily confused *)
Inductive confused : list (expr * bytes) -> list expr -> Prop :=
  | cf_nil : confused [] []
  | cf_bad e n l b : In n [%"I"; %"l"; %"O"] -> confused l b -> confused ((e, n) :: l) (e :: b)
  | cf_good e n l b : ~ In n [%"I"; %"l"; %"O"] -> confused l b -> confused ((e, n) :: l) b.
(** All statements in the order of the text, and whether they are in a loop *)
Definition is_for (e : expr) : bool := match e with EFor _ _ _ _ _ => true | _ => false end.
Inductive statements : bool -> expr -> list (expr * bool) -> Prop :=
  | sm_node b e ls : Forall2 (statements (b || is_for e)) (blocks e) ls -> statements b e ((e, b) :: List.concat ls).
(** Names of variables *)
Definition lower_case (c : ascii) : Prop := (97 <= bN c <= 122)%N.
Definition upper_case (c : ascii) : Prop := (65 <= bN c <= 90)%N.
Definition a_provider (n : bytes) : Prop :=
  exists pre core, n = pre ++ core /\ In pre [[]; %"_"] /\ ~ In "_"%char core /\ (forall c r, core = c :: r -> ~ lower_case c) /\ exists x, n = x ++ %"Info".
Definition unconventional (n : bytes) : Prop := Exists upper_case n /\ Exists lower_case n /\ ~ a_provider n.
Inductive ill_named : list ident -> list ident -> Prop :=
  | il_nil : ill_named [] []
  | il_bad i l b : unconventional (i_name i) -> ill_named l b -> ill_named (i :: l) (i :: b)
  | il_good i l b : ~ unconventional (i_name i) -> ill_named l b -> ill_named (i :: l) b.
Inductive against_conventions : list (expr * bool) -> list ident -> Prop :=
  | ac_nil : against_conventions [] []
  | ac_assign c x p op b v k l ids bad r : binds x ids -> ill_named ids bad -> against_conventions l r -> against_conventions ((EAssign c x p op b v, k) :: l) (bad ++ r)
  | ac_other e k l r : (forall c x p op b v, e <> EAssign c x p op b v) -> against_conventions l r -> against_conventions ((e, k) :: l) r.
(** The first occurrence of a string *)
Definition first_at (pat s pre post : bytes) : Prop := s = pre ++ pat ++ post /\ forall pre' post', s = pre' ++ pat ++ post' -> List.length pre <= List.length pre'.
Definition occurs (pat s : bytes) : Prop := exists pre post, s = pre ++ pat ++ post.
(** The module without the repository *)
Definition in_repo (module m : bytes) : Prop :=
  (exists r pre rest, module = %"@" ++ r /\ first_at %"//" module pre rest /\ m = %"//" ++ rest) \/
  (((forall r, module <> %"@" ++ r) \/ ~ occurs %"//" module) /\ m = module).
(** The directory in which the first internal or private directory of a module is *)
Definition an_internal (m dir : bytes) : Prop := exists w, In w [%"/internal/"; %"/internal:"; %"/private/"; %"/private:"] /\ exists rest, m = dir ++ w ++ rest.
Definition internal_of (m dir : bytes) : Prop := an_internal m dir /\ forall dir', an_internal m dir' -> List.length dir <= List.length dir'.
(** A path with java for the first javatests *)
Definition not_test (path p : bytes) : Prop :=
  (exists a b, first_at %"/javatests/" path a b /\ p = a ++ %"/java/" ++ b) \/ (~ occurs %"/javatests/" path /\ p = path).
Definition invisible (path module : bytes) : Prop :=
  exists m dir, in_repo module m /\ internal_of m dir /\ (forall r, path <> dir ++ r) /\ forall p r, not_test path p -> p <> dir ++ r.
Inductive invisible_loads (path : bytes) : list (option expr) -> list strlit -> Prop :=
  | iv_nil : invisible_loads path [] []
  | iv_bad c p m from to r k l b : invisible path (s_value m) -> invisible_loads path l b -> invisible_loads path (Some (ELoad c p m from to r k) :: l) (m :: b)
  | iv_good s l b : (forall c p m from to r k, s = Some (ELoad c p m from to r k) -> ~ invisible path (s_value m)) -> invisible_loads path l b -> invisible_loads path (s :: l) b.
(** x = depset(..., transitive = [..., x, ...]) *)
Definition nests_itself (e : expr) : Prop :=
  exists c x p op b call args pre a post l y, e = EAssign c (EIdent x) p op b call /\ call_to %"depset" call args /\ args = pre ++ a :: post /\ no_attr %"transitive" pre /\
    (exists v, gives %"transitive" a v /\ a_list v l) /\ In (EIdent y) l /\ i_name y = i_name x.
Inductive nested_in_loops : list (expr * bool) -> list expr -> Prop :=
  | nl_nil : nested_in_loops [] []
  | nl_bad e l b : nests_itself e -> nested_in_loops l b -> nested_in_loops ((e, true) :: l) (e :: b)
  | nl_good e k l b : (k = true -> ~ nests_itself e) -> nested_in_loops l b -> nested_in_loops ((e, k) :: l) b.
(** x += [y] *)
Definition adds_one (e x y : expr) : Prop := exists c p b v, e = EAssign c x p %"+=" b v /\ a_list v [y].
(** The identifier under which a function is loaded *)
Definition loaded_as (from : list ident) (name : bytes) (i : ident) : Prop := exists pre post, from = pre ++ i :: post /\ i_name i = name /\ forall j, In j post -> i_name j <> name.
Definition deprecated_doc (body : list expr) : Prop :=
  exists s ls indent j, has_doc body s /\ lines_of (s_value s) ls /\ (p_rune (s_start s) = Z.of_nat indent + 1)%Z /\ titled indent ls j %"Deprecated:".
Definition deprecated_use (from : list ident) (s : option expr) (i : ident) (name : bytes) : Prop :=
  exists d st ps body, s = Some d /\ function_is d st name ps body /\ loaded_as from name i /\ deprecated_doc body.
Definition uses_of (from : list ident) (s : option expr) (b : list (ident * bytes)) : Prop :=
  (exists i n, deprecated_use from s i n /\ b = [(i, n)]) \/ ((forall i n, ~ deprecated_use from s i n) /\ b = []).
Definition loads_file (read : bytes -> bytes -> option expr) (pkg : bytes) (s : option expr) (from : list ident) (path : bytes) (stmts : list (option expr)) : Prop :=
  exists c p m to r k l c' path' pkg' la' t', s = Some (ELoad c p m from to r k) /\ l = parse_relative (s_value m) pkg /\ repository l = [] /\ target l <> [] /\
    read (package l) (target l) = Some (EFile c' (FMeta path' pkg' la' t') stmts) /\ path = CanonicalPath pkg' la'.
Definition load_found (read : bytes -> bytes -> option expr) (pkg : bytes) (s : option expr) (b : list (ident * bytes * bytes)) : Prop :=
  (exists from path stmts bs, loads_file read pkg s from path stmts /\ Forall2 (uses_of from) stmts bs /\ b = map (fun x => (x, path)) (List.concat bs)) \/
  ((forall from path stmts, ~ loads_file read pkg s from path stmts) /\ b = []).

(** ** Confusing names *)
Lemma binds_spec e : binds e (CollectLValues e).
Proof.
  induction e as [e IH] using expr_children_ind.
  assert (G : forall l, (forall x, In x l -> In x (children e)) -> Forall2 binds l (map CollectLValues l)).
  { intros l. induction l as [|x l IHl]; intro Hl; cbn [map]; constructor; [apply IH, Hl; now left|apply IHl; intros; apply Hl; now right]. }
  destruct e; try (cbn [CollectLValues]; apply bi_other; [discriminate|intros ? [(? & ? & ? & ? & ? & ? & E)|(? & ? & ? & ? & E)]; discriminate E]).
  - apply bi_ident.
  - match goal with |- binds (EList ?a ?b ?l ?c ?d) _ => change (CollectLValues (EList a b l c d)) with (flat_map CollectLValues l) end. rewrite flat_map_concat_map. eapply bi_seq; [right; do 4 eexists; reflexivity|]. apply G. intros x J. unfold children, fold_children. cbn [fold_children2]. rewrite ?map_id. auto.
  - match goal with |- binds (ETuple ?a ?b ?x ?l ?c ?d ?e) _ => change (CollectLValues (ETuple a b x l c d e)) with (flat_map CollectLValues l) end. rewrite flat_map_concat_map. eapply bi_seq; [left; do 6 eexists; reflexivity|]. apply G. intros x J. unfold children, fold_children. cbn [fold_children2]. rewrite ?map_id. auto.
Qed.
Lemma binds_fun e : forall a b, binds e a -> binds e b -> a = b.
Proof.
  induction e as [e IH] using expr_children_ind. intros a b H H'.
  assert (G : forall l, (forall x, In x l -> In x (children e)) -> forall ls ls', Forall2 binds l ls -> Forall2 binds l ls' -> ls = ls').
  { intros l Hl ls ls' F. revert ls'. induction F as [|x y l ls Hx F IHF]; intros ls' F'; inversion F'; subst; auto. f_equal; [|apply IHF; auto; intros; apply Hl; now right]. eapply IH; eauto. apply Hl. now left. }
  assert (Sc : forall l, sequence e l -> forall x, In x l -> In x (children e)).
  { intros l Hq w J; destruct Hq as [(? & ? & ? & ? & ? & ? & ->)|(? & ? & ? & ? & ->)]; unfold children, fold_children; cbn [fold_children2]; rewrite ?map_id; auto. }
  assert (Sf : forall l l', sequence e l -> sequence e l' -> l = l') by (intros l l' [(? & ? & ? & ? & ? & ? & ->)|(? & ? & ? & ? & ->)] [(? & ? & ? & ? & ? & ? & E)|(? & ? & ? & ? & E)]; try discriminate E; injection E; auto).
  destruct H as [i|e l ls Sq F|e N1 N2]; inversion H' as [i'|e' l' ls' Sq' F'|e' N1' N2']; subst; auto.
  - destruct Sq' as [(? & ? & ? & ? & ? & ? & E)|(? & ? & ? & ? & E)]; discriminate E.
  - now contradiction (N1' i).
  - destruct Sq as [(? & ? & ? & ? & ? & ? & E)|(? & ? & ? & ? & E)]; discriminate E.
  - rewrite (Sf _ _ Sq' Sq) in F'. now rewrite (G l (Sc l Sq) ls ls' F F').
  - now apply N2' in Sq.
  - now contradiction (N1 i').
  - now apply N2 in Sq'.
Qed.
Lemma assigned_by_spec e : assigned_by e (local1 e).
Proof.
  induction e as [e IH] using expr_children_ind.
  assert (G : forall l, (forall x, In x l -> In x (children e)) -> Forall2 assigned_by l (map local1 l)).
  { intros l. induction l as [|x l IHl]; intro Hl; cbn [map]; constructor; [apply IH, Hl; now left|apply IHl; intros; apply Hl; now right]. }
  destruct e; try (cbn [local1]; apply ab_other; discriminate); cbn [local1].
  - apply ab_assign, binds_spec.
  - rewrite flat_map_concat_map. apply ab_for; [apply binds_spec|]. apply G. intros x J. unfold children, fold_children. cbn [fold_children2]. rewrite ?map_id. now right; right.
  - rewrite !flat_map_concat_map. apply ab_if; apply G; intros x J; unfold children, fold_children; cbn [fold_children2]; rewrite ?map_id; right; apply in_app_iff; auto.
Qed.
Lemma assigned_spec l : assigned l (collectLocalVariables l).
Proof.
  exists (map local1 l). split; [|apply flat_map_concat_map]. induction l; cbn [map]; constructor; auto using assigned_by_spec.
Qed.
Lemma confused_app l l' b b' : confused l b -> confused l' b' -> confused (l ++ l') (b ++ b').
Proof. induction 1; intro; cbn [app]; auto; [apply cf_bad|apply cf_good]; auto. Qed.
Lemma check_spec e n : confused [(e, n)] (ambiguousNameCheck e n).
Proof.
  unfold ambiguousNameCheck, ambiguousNames. pose proof (mem_bytes_In n [%"I"; %"l"; %"O"]) as M. destruct (mem_bytes n _); [apply cf_bad; [now apply M|constructor]|apply cf_good; [|constructor]]. intro K. apply M in K. discriminate.
Qed.
Lemma check_idents_spec ids : confused (map named ids) (check_idents ids).
Proof. induction ids as [|i ids IH]; [constructor|]. cbn [map]. unfold check_idents. cbn [flat_map]. apply (confused_app [named i]); auto. apply check_spec. Qed.
Lemma check_params ps : exists pn, Forall2 param_named ps pn /\ confused (List.concat pn) (flat_map (fun p => ambiguousNameCheck p (GetParamName p)) ps).
Proof.
  induction ps as [|p ps (pn & F & C)]; [exists []; split; constructor|]. pose proof (GetParam_spec p) as G. cbn [flat_map]. unfold GetParamName at 1. destruct (GetParam p) as [[i op]|].
  - exists ([(p, i_name i)] :: pn). split; [constructor; auto; left; exists op, (i_name i); split; auto; now apply G|]. cbn [List.concat]. apply confused_app; auto. apply check_spec.
  - exists ([] :: pn). split; [constructor; auto; right; auto|]. exact C.
Qed.
Lemma confusing_spec e : exists l, introduces e l /\ confused l (confusing_node e).
Proof.
  destruct e; try (exists []; split; [apply in_other; [intros (? & ? & ? & ? & ? & ? & ? & ? & ? & E); discriminate E|discriminate]|constructor]).
  - eexists. cbn [confusing_node]. split; [apply (in_comp c curly lb e clauses multi e0 (map (fun c => match c with EForC _ _ v _ _ => CollectLValues v | _ => [] end) clauses))|].
    + induction clauses as [|x l IH]; cbn [map]; constructor; auto. destruct x; try (right; split; [discriminate|reflexivity]). left. do 5 eexists. split; [reflexivity|apply binds_spec].
    + induction clauses as [|x l IH]; cbn [map List.concat flat_map]; [constructor|]. rewrite map_app. apply confused_app; auto. destruct x; try constructor. apply check_idents_spec.
  - cbn [confusing_node]. destruct (check_params params) as (pn & F & C). eexists. split; [apply in_def; [exact F|apply assigned_spec]|]. apply (confused_app [(_, name)]); [apply check_spec|]. apply confused_app; auto. apply check_idents_spec.
Qed.
Theorem C98_confusing_name : forall f t stmts, a_file f t stmts ->
  exists ids a b, assigned (blocks f) ids /\ confusingNameWarning f = a ++ b /\ confused (map named ids) a /\ found_in (fun e b => exists l, introduces e l /\ confused l b) f b.
Proof.
  intros f t stmts (c & path & pk & la & ->). exists (collectLocalVariables (real_stmts (EFile c (FMeta path pk la t) stmts))). do 2 eexists. split; [apply assigned_spec|]. split; [reflexivity|]. split; [apply check_idents_spec|]. apply walk_found. apply confusing_spec.
Qed.
Print Assumptions C98_confusing_name.
(** ** All statements *)
Lemma in_loop_app a e : in_loop (a ++ [e]) = (in_loop a || is_for e)%bool.
Proof. unfold in_loop. rewrite existsb_app. cbn [existsb]. rewrite orb_false_r. reflexivity. Qed.
Definition flagged (l : list (expr * list expr)) : list (expr * bool) := map (fun v => (fst v, in_loop (snd v))) l.
Lemma statements_spec e : forall stk, statements (in_loop stk) e (flagged (visit_stmts (fun _ _ => false) stk e)).
Proof.
  remember (height e) as n eqn:Hn. revert e Hn. induction n as [n IH] using lt_wf_ind. intros e -> stk. rewrite visit_stmts_unfold. unfold flagged. cbn [map fst snd].
  assert (G : exists ls, Forall2 (statements (in_loop stk || is_for e)) (blocks e) ls /\ map (fun v => (fst v, in_loop (snd v))) (flat_map (visit_stmts (fun _ _ => false) (stk ++ [e])) (blocks e)) = List.concat ls).
  { assert (Hb : forall x, In x (blocks e) -> height x < height e) by (intros; now apply block_child). revert Hb. generalize (blocks e). intros l Hb. induction l as [|x l IHl]; [exists []; split; [constructor|reflexivity]|].
    destruct IHl as (ls & F & E); [intros; apply Hb; now right|]. exists (flagged (visit_stmts (fun _ _ => false) (stk ++ [e]) x) :: ls). split; [constructor; auto; rewrite <- in_loop_app; eapply IH; eauto; apply Hb; now left|]. cbn [flat_map List.concat]. rewrite map_app, E. reflexivity. }
  destruct G as (ls & F & ->). constructor. exact F.
Qed.
Lemma statements_fun e : forall b l l', statements b e l -> statements b e l' -> l = l'.
Proof.
  remember (height e) as n eqn:Hn. revert e Hn. induction n as [n IH] using lt_wf_ind. intros e -> b l l' H H'. inversion H as [? ? ls F]; inversion H' as [? ? ls' F']; subst. f_equal. f_equal.
  assert (Hb : forall x, In x (blocks e) -> height x < height e) by (intros; now apply block_child). revert Hb F F'. generalize (blocks e). generalize (b || is_for e)%bool. clear -IH. intros k b0 Hb F. revert ls'. induction F as [|x y b0 ls Hx F IHF]; intros ls' F'; inversion F'; subst; auto. f_equal; [|apply IHF; auto; intros; apply Hb; now right]. eapply IH; eauto. apply Hb. now left.
Qed.
(** ** Conventions *)
(** What the functions of package strings do on names in ASCII *)
Definition to_lower (c : ascii) : ascii := if ((65 <=? bN c) && (bN c <=? 90))%N then ascii_of_N (bN c + 32) else c.
Definition to_upper (c : ascii) : ascii := if ((97 <=? bN c) && (bN c <=? 122))%N then ascii_of_N (bN c - 32) else c.
Definition cases (lower upper title : bytes -> bytes) : Prop :=
  forall n, Forall word_char n -> lower n = map to_lower n /\ upper n = map to_upper n /\ title n = match n with c :: r => to_upper c :: r | [] => [] end.
Lemma to_lower_spec c : to_lower c = c <-> ~ upper_case c.
Proof.
  unfold to_lower, upper_case. destruct ((65 <=? bN c) && (bN c <=? 90))%N eqn:E.
  - apply andb_true_iff in E as (A & B). apply N.leb_le in A, B. split; [|intro K; elim K; split; assumption]. intro K. exfalso. apply (f_equal bN) in K. unfold bN in *. rewrite N_ascii_embedding in K; lia.
  - split; auto. intros _ (A & B). apply N.leb_le in A, B. rewrite A, B in E. discriminate.
Qed.
Lemma to_upper_spec c : to_upper c = c <-> ~ lower_case c.
Proof.
  unfold to_upper, lower_case. destruct ((97 <=? bN c) && (bN c <=? 122))%N eqn:E.
  - apply andb_true_iff in E as (A & B). apply N.leb_le in A, B. split; [|intro K; elim K; split; assumption]. intro K. exfalso. apply (f_equal bN) in K. unfold bN in *. rewrite N_ascii_embedding in K; lia.
  - split; auto. intros _ (A & B). apply N.leb_le in A, B. rewrite A, B in E. discriminate.
Qed.
Lemma map_same (g : ascii -> ascii) (P : ascii -> Prop) : (forall c, g c = c <-> ~ P c) -> (forall c, P c \/ ~ P c) -> forall n, beq n (map g n) = false <-> Exists P n.
Proof.
  intros H Dec n. induction n as [|c n IH]; [split; [discriminate|intro K; inversion K]|]. cbn [map]. rewrite beq_neq. split.
  - intro E. destruct (Dec c) as [Pc|Pc]; [now left|]. right. apply IH. apply beq_neq. intro Q. apply E. rewrite <- Q. f_equal. symmetry. now apply H.
  - intros K E. injection E as E1 E2. inversion K as [? ? Pc|? ? Pn]; subst; [now apply (proj1 (H c) (eq_sym E1))|]. apply IH in Pn. apply beq_neq in Pn. contradiction.
Qed.
Lemma upper_dec c : upper_case c \/ ~ upper_case c.
Proof. unfold upper_case. destruct (N.le_decidable 65 (bN c)), (N.le_decidable (bN c) 90); tauto. Qed.
Lemma lower_dec c : lower_case c \/ ~ lower_case c.
Proof. unfold lower_case. destruct (N.le_decidable 97 (bN c)), (N.le_decidable (bN c) 122); tauto. Qed.
Lemma no_underscore n : existsb (ceq "_"%char) n = false <-> ~ In "_"%char n.
Proof.
  split.
  - intros E K. assert (X : existsb (ceq "_"%char) n = true) by (apply existsb_exists; exists "_"%char; split; [exact K|reflexivity]). congruence.
  - intro N. destruct (existsb (ceq "_"%char) n) eqn:E; auto. apply existsb_exists in E as (c & K & E). apply Ascii.eqb_eq in E. subst. contradiction.
Qed.
Lemma camel_spec lower upper title n : cases lower upper title -> Forall word_char n ->
  ((isUpperCamelCase title n && has_suffix %"Info" n)%bool = true <-> a_provider n).
Proof.
  intros C W. unfold isUpperCamelCase, a_provider. rewrite andb_true_iff, has_suffix_spec.
  assert (Core : forall core, Forall word_char core -> ((negb (existsb (ceq "_"%char) core) && beq core (title core))%bool = true <-> ~ In "_"%char core /\ forall c r, core = c :: r -> ~ lower_case c)).
  { intros core Wc. rewrite andb_true_iff, negb_true_iff, no_underscore, beq_eq. destruct (C core Wc) as (_ & _ & ->). destruct core as [|c r]; [split; intros (A & B); split; auto; discriminate|]. split; intros (A & B); split; auto.
    - intros c' r' E. injection E as <- <-. injection B as B. now apply to_upper_spec.
    - f_equal. symmetry. apply to_upper_spec. apply (B c r). reflexivity. }
  cbv zeta. destruct n as [|c n].
  - change (has_prefix %"_" []) with false. cbv iota. rewrite Core by constructor. split; [intros ((A & B) & D); exists [], []; repeat (apply conj); auto; now left|]. intros (pre & core & E & I & A & B & D). symmetry in E. apply app_eq_nil in E as (-> & ->). auto.
  - inversion W as [|? ? Wc Wn]; subst. destruct (Ascii.eqb_spec c "_"%char) as [->|Nc].
    + change (has_prefix %"_" ("_"%char :: n)) with true. cbv iota. cbn [skipn]. rewrite Core by auto. split; [intros ((A & B) & D); exists %"_", n; repeat (apply conj); auto; now right; left|]. intros (pre & core & E & I & A & B & D). destruct I as [<- |[<- |[]]]; [cbn [app] in E; subst core; elim A; now left|]. injection E as ->. auto.
    + assert (E : has_prefix %"_" (c :: n) = false) by (destruct (has_prefix %"_" (c :: n)) eqn:K; auto; apply has_prefix_spec in K as (r & K); injection K as K _; contradiction). rewrite E. cbv iota. rewrite Core by auto. clear E.
      split; [intros ((A & B) & D); exists [], (c :: n); repeat (apply conj); auto; now left|]. intros (pre & core & E & I & A & B & D). destruct I as [<- |[<- |[]]]; [cbn [app] in E; subst core; auto|]. injection E as -> _. now contradiction Nc.
Qed.
Lemma bad_name_spec lower upper title i : cases lower upper title -> Forall word_char (i_name i) -> (bad_name lower upper title i = true <-> unconventional (i_name i)).
Proof.
  intros C W. unfold bad_name, unconventional. rewrite andb_true_iff, !negb_true_iff, orb_false_iff. pose proof (camel_spec lower upper title _ C W) as P. destruct (C _ W) as (-> & -> & _).
  rewrite (map_same to_lower upper_case to_lower_spec upper_dec), (map_same to_upper lower_case to_upper_spec lower_dec), <- P, not_true_iff_false. tauto.
Qed.
(** name-conventions: exactly the ill-named identifiers of the assignments, in the order of the text *)
Theorem C98_name_conventions : forall lower upper title f l, cases lower upper title -> statements false f l ->
  (forall c x p op b v k ids i, In (EAssign c x p op b v, k) l -> binds x ids -> In i ids -> Forall word_char (i_name i)) ->
  against_conventions l (nameConventionsWarning lower upper title f).
Proof.
  intros lower upper title f l C St. rewrite (statements_fun f false l _ St (statements_spec f [])). clear St l. unfold nameConventionsWarning. generalize (visit_stmts (fun _ _ => false) [] f). intros l W.
  induction l as [|[e stk] l IH]; [constructor|]. unfold flagged in *. cbn [map flat_map fst snd] in *. assert (IH' : against_conventions (map (fun v => (fst v, in_loop (snd v))) l) (flat_map (fun v => match fst v with EAssign _ x _ _ _ _ => filter (bad_name lower upper title) (CollectLValues x) | _ => [] end) l)) by (apply IH; intros ? ? ? ? ? ? ? ? ? J; apply (W _ _ _ _ _ _ _ _ _ (or_intror J))). clear IH.
  destruct e; try (cbn [app]; apply ac_other; [discriminate|exact IH']). eapply ac_assign; [apply binds_spec| |exact IH'].
  assert (Wi : forall i, In i (CollectLValues e1) -> Forall word_char (i_name i)) by (intros i J; eapply W; [now left|apply binds_spec|exact J]). clear W. revert Wi. generalize (CollectLValues e1) as ids. clear -C. induction ids as [|i ids IH]; intro Wi; [constructor|]. cbn [filter].
  pose proof (bad_name_spec lower upper title i C (Wi i (or_introl eq_refl))) as B. destruct (bad_name lower upper title i); [apply il_bad|apply il_good]; try (apply IH; intros j J; apply Wi; right; exact J); [now apply B|]. intro K. apply B in K. discriminate.
Qed.
Print Assumptions C98_name_conventions.
(** ** Visibility *)
Lemma first_shift pat c s pre post : has_prefix pat (c :: s) = false -> first_at pat s pre post -> first_at pat (c :: s) (c :: pre) post.
Proof.
  intros N (-> & M). split; [reflexivity|]. intros [|x pre'] post' E; [cbn [app] in E; rewrite E, has_prefix_app in N; discriminate|]. injection E as <- E. apply M in E. cbn. lia.
Qed.
Lemma first_here pat s : has_prefix pat s = true -> exists post, first_at pat s [] post.
Proof. intro H. apply has_prefix_spec in H as (t & ->). exists t. split; auto. intros. cbn. lia. Qed.
Lemma occurs_cons pat c s : has_prefix pat (c :: s) = false -> occurs pat (c :: s) -> occurs pat s.
Proof. intros N ([|x pre] & post & E); [cbn [app] in E; rewrite E, has_prefix_app in N; discriminate|]. injection E as <- ->. exists pre, post. reflexivity. Qed.
Lemma occurs_nil pat : has_prefix pat [] = false -> ~ occurs pat [].
Proof. intros N (pre & post & E). symmetry in E. apply app_eq_nil in E as (_ & E). rewrite <- E, has_prefix_app in N. discriminate. Qed.
Lemma after_slashes_spec s : match after_slashes s with Some r => exists pre, first_at %"//" s pre r | None => ~ occurs %"//" s end.
Proof.
  induction s as [|c s IH]; [apply occurs_nil; reflexivity|]. cbn [after_slashes]. destruct (has_prefix %"//" (c :: s)) eqn:E.
  - apply first_here in E as (post & E). pose proof E as (E1 & _). exists []. replace (skipn 2 (c :: s)) with post by (rewrite E1; reflexivity). exact E.
  - destruct (after_slashes s) as [r|]; [destruct IH as (pre & IH); exists (c :: pre); now apply first_shift|]. intro K. apply IH. eapply occurs_cons; eauto.
Qed.
Lemma replace_first_spec path : not_test path (replace_first %"/javatests/" %"/java/" path).
Proof.
  unfold not_test. induction path as [|c s IH]; [right; split; [apply occurs_nil; reflexivity|reflexivity]|]. cbn [replace_first]. destruct (has_prefix %"/javatests/" (c :: s)) eqn:E.
  - apply first_here in E as (post & E). pose proof E as (E1 & _). left. exists [], post. split; auto. rewrite E1. reflexivity.
  - destruct IH as [(a & b & F & Er)|(N & Er)]; rewrite Er.
    + left. exists (c :: a), b. split; [now apply first_shift|reflexivity].
    + right. split; auto. intro K. apply N. eapply occurs_cons; eauto.
Qed.
Lemma first_fun pat s a b a' b' : first_at pat s a b -> first_at pat s a' b' -> a = a' /\ b = b'.
Proof.
  intros (E & M) (E' & M'). assert (L : List.length a = List.length a') by (apply Nat.le_antisymm; [eapply M; eauto|eapply M'; eauto]). rewrite E in E'. clear -L E'. revert a' L E'. induction a as [|x a IH]; intros [|y a'] L E; try discriminate L; cbn [app] in E.
  - split; auto. now apply app_inv_head in E.
  - injection E as -> E. destruct (IH a') as (-> & ->); auto.
Qed.
Lemma not_test_fun path p p' : not_test path p -> not_test path p' -> p = p'.
Proof.
  intros [(a & b & F & ->)|(N & ->)] [(a' & b' & F' & ->)|(N' & ->)]; auto.
  - destruct (first_fun _ _ _ _ _ _ F F') as (-> & ->). reflexivity.
  - destruct F as (F & _). elim N'. exists a, b. exact F.
  - destruct F' as (F & _). elim N. exists a', b'. exact F.
Qed.
Definition marks : list bytes := [%"/internal/"; %"/internal:"; %"/private/"; %"/private:"].
Lemma internal_split_spec m : match internal_split m with Some dir => internal_of m dir | None => forall dir, ~ an_internal m dir end.
Proof.
  assert (Here : forall s, existsb (fun w => has_prefix w s) marks = true <-> an_internal s []).
  { intro s. rewrite existsb_exists. unfold an_internal. split; intros (w & I & H); exists w; (split; [exact I|]); now apply has_prefix_spec. }
  assert (Shift : forall c s dir, existsb (fun w => has_prefix w (c :: s)) marks = false -> an_internal (c :: s) dir -> exists d, dir = c :: d /\ an_internal s d).
  { intros c s [|x dir] N K; [apply Here in K; congruence|]. destruct K as (w & I & r & E). injection E as <- E. exists dir. split; auto. exists w. split; auto. exists r. exact E. }
  induction m as [|c s IH].
  - change (internal_split []) with (@None bytes). intros dir (w & I & r & E). symmetry in E. apply app_eq_nil in E as (_ & E). apply app_eq_nil in E as (-> & _). destruct I as [I|[I|[I|[I|[]]]]]; discriminate I.
  - change (internal_split (c :: s)) with (if existsb (fun w => has_prefix w (c :: s)) marks then Some [] else option_map (cons c) (internal_split s)). destruct (existsb (fun w => has_prefix w (c :: s)) marks) eqn:E.
    + split; [now apply Here|]. intros. cbn. lia.
    + destruct (internal_split s) as [d|]; cbn [option_map].
      * destruct IH as ((w & I & r & Es) & M). split; [exists w; split; auto; exists r; rewrite Es; reflexivity|]. intros dir' K. apply (Shift c s dir' E) in K as (d' & -> & K). apply M in K. cbn. lia.
      * intros dir K. apply (Shift c s dir E) in K as (d' & -> & K). now apply IH in K.
Qed.
Lemma internal_fun m d d' : internal_of m d -> internal_of m d' -> d = d'.
Proof.
  intros (A & M) (A' & M'). assert (L : List.length d = List.length d') by (apply Nat.le_antisymm; [now apply M|now apply M']). destruct A as (w & _ & r & E), A' as (w' & _ & r' & E'). rewrite E in E'. clear -L E'. revert d' L E'. induction d as [|x d IH]; intros [|y d'] L E; try discriminate L; auto. injection E as -> E. f_equal. apply IH; auto.
Qed.
Lemma hidden_spec path module : module_hidden path module = true <-> invisible path module.
Proof.
  unfold module_hidden, invisible. set (m := if has_prefix %"@" module then _ else _).
  assert (Hm : forall m', in_repo module m' <-> m' = m).
  { intro m'. subst m. unfold in_repo. pose proof (has_prefix_spec %"@" module) as Pa. pose proof (after_slashes_spec module) as A. destruct (has_prefix %"@" module).
    - destruct (proj1 Pa eq_refl) as (r0 & Er). destruct (after_slashes module) as [r|].
      + destruct A as (pre & F). split.
        * intros [(r1 & pre1 & rest & _ & F1 & ->)|([K|K] & _)]; [destruct (first_fun _ _ _ _ _ _ F F1) as (_ & ->); reflexivity|now apply K in Er|]. elim K. destruct F as (F & _). exists pre, r. exact F.
        * intros ->. left. exists r0, pre, r. auto.
      + split; [|intros ->; right; auto]. intros [(r1 & pre1 & rest & _ & (F1 & _) & _)|(_ & ->)]; auto. elim A. exists pre1, rest. exact F1.
    - split; [|intros ->; right; split; auto; left; intros r Er; assert (false = true) by (apply Pa; eauto); discriminate]. intros [(r1 & pre1 & rest & Er & _)|(_ & ->)]; auto. assert (false = true) by (apply Pa; eauto). discriminate. }
  clearbody m. pose proof (internal_split_spec m) as Sp. pose proof (replace_first_spec path) as Rt. destruct (internal_split m) as [dir|].
  - rewrite negb_true_iff, orb_false_iff. assert (Np : forall p, has_prefix dir p = false <-> forall r, p <> dir ++ r).
    { intro p. split; [intros H r ->; now rewrite has_prefix_app in H|]. intro H. destruct (has_prefix dir p) eqn:P; auto. apply has_prefix_spec in P as (t & ->). now contradiction (H t). }
    rewrite !Np. split.
    + intros (A & B). exists m, dir. split; [now apply Hm|]. split; auto. split; auto. intros p r Hp. rewrite (not_test_fun _ _ _ Hp Rt). apply B.
    + intros (m' & d & Hm' & Hd & A & B). apply Hm in Hm'. subst m'. rewrite (internal_fun m dir d Sp Hd). split; auto.
  - split; [discriminate|]. intros (m' & d & Hm' & (Hd & _) & _). apply Hm in Hm'. subst m'. now apply Sp in Hd.
Qed.
(** bzl-visibility: exactly the loads of modules in a directory internal or private of another directory *)
Theorem C98_visibility : forall root c fp pkg label t stmts path, root <> [] -> path = %"//" ++ match pkg with [] => label | _ => pkg ++ %"/" ++ label end ->
  invisible_loads path stmts (bzlVisibilityWarning root (EFile c (FMeta fp pkg label t) stmts)).
Proof.
  intros root c fp pk la t stmts path Nr Ep. assert (E : CanonicalPath pk la = path) by (rewrite Ep; now destruct pk). destruct root; [contradiction|]. cbn [bzlVisibilityWarning]. rewrite E. clear.
  induction stmts as [|s l IH]; [constructor|]. cbn [flat_map]. destruct s as [e|]; [|apply iv_good; auto; discriminate]. destruct e; try (apply iv_good; auto; discriminate).
  pose proof (hidden_spec path (s_value m)) as H. destruct (module_hidden path (s_value m)); cbn [app]; [apply iv_bad; auto; now apply H|]. apply iv_good; auto. intros ? ? ? ? ? ? ? K Hi. injection K as <- <- <- <- <- <- <-. apply H in Hi. discriminate.
Qed.
Print Assumptions C98_visibility.
Theorem C98_visibility_unknown_root : forall f, bzlVisibilityWarning [] f = [].
Proof. reflexivity. Qed.
(** ** Depsets in loops *)
Lemma nests_spec e : nests e = true <-> nests_itself e.
Proof.
  unfold nests_itself. split.
  - intro H. destruct e; try discriminate H. cbn [nests] in H. destruct e1; try discriminate H. destruct e2; try discriminate H. destruct e2; try discriminate H. apply andb_true_iff in H as (H1 & H2). apply beq_eq in H1.
    match goal with H : context [getParam ?a ?k] |- _ => pose proof (getParam_spec k a) as G; destruct (getParam a k) as [[j v]|] eqn:Ga; [|discriminate H]; destruct v; try discriminate H; destruct G as (pre & a' & post & Ea & _ & Np & Gv) end.
    apply existsb_exists in H2 as (y & J & Hy). destruct y; try discriminate Hy. apply beq_eq in Hy. do 7 eexists. exists pre, a', post. do 2 eexists. split; [reflexivity|]. split; [do 6 eexists; split; [reflexivity|exact H1]|]. split; [exact Ea|]. split; [exact Np|]. split; [eexists; split; [exact Gv|do 4 eexists; reflexivity]|]. split; [exact J|exact Hy].
  - intros (c & x & p & op & b & call & args & pre & a & post & l & y & -> & (c' & d & p' & en & k & m & -> & Hd) & -> & Np & (v & Gv & (c2 & s2 & en2 & m2 & ->)) & J & Hy). cbn [nests]. rewrite Hd, beq_refl. cbn [andb].
    pose proof (getParam_spec %"transitive" (pre ++ a :: post)) as G. destruct (getParam (pre ++ a :: post) %"transitive") as [[j w]|].
    + destruct G as (pre' & a' & post' & E & _ & Np' & Gv').
      assert (w = EList c2 s2 l en2 m2).
      { assert (E' : pre = pre' /\ a = a').
        { clear -E Np Np' Gv Gv'. revert pre' E Np'. induction pre as [|z pre IH]; intros [|z' pre'] E Np'; cbn [app] in E; injection E as E1 E2.
          - auto.
          - subst z'. elim (Np' a _ (or_introl eq_refl) Gv).
          - subst z. elim (Np a' _ (or_introl eq_refl) Gv').
          - subst z'. destruct (IH (fun q w J => Np q w (or_intror J)) pre' E2 (fun q w J => Np' q w (or_intror J))) as (-> & ->). auto. }
        destruct E' as (<- & <-). unfold gives in *. destruct Gv as (? & ? & ? & ? & ? & Ea & _), Gv' as (? & ? & ? & ? & ? & Ea' & _). rewrite Ea in Ea'. injection Ea'. auto. }
      subst w. apply existsb_exists. exists (EIdent y). split; auto. rewrite Hy. apply beq_refl.
    + elim (G a _ (in_elt _ _ _) Gv).
Qed.
Theorem C98_nested_depset : forall f l, statements false f l -> nested_in_loops l (overlyNestedDepsetWarning f).
Proof.
  intros f l St. rewrite (statements_fun f false l _ St (statements_spec f [])). clear St l. unfold overlyNestedDepsetWarning. induction (visit_stmts (fun _ _ => false) [] f) as [|[e stk] l IH]; [constructor|]. unfold flagged in *. cbn [map flat_map fst snd].
  pose proof (nests_spec e) as N. destruct (in_loop stk) eqn:L; cbn [andb]; [|apply nl_good; auto; discriminate]. destruct (nests e); cbn [app]; [apply nl_bad; auto; now apply N|]. apply nl_good; auto. intros _ K. apply N in K. discriminate.
Qed.
Print Assumptions C98_nested_depset.
(** ** Lists of one element *)
Lemma appends_spec e : match appends e with Some (c, x, l) => exists y, l = [y] /\ adds_one e x y /\ c = com e | None => forall x y, ~ adds_one e x y end.
Proof.
  unfold adds_one, a_list. destruct e; try (intros ? ? (? & ? & ? & ? & E & _); discriminate E). cbn [appends]. destruct e2; try (intros ? ? (? & ? & ? & ? & E & (? & ? & ? & ? & E')); rewrite E' in E; discriminate E).
  destruct l as [|y [|z l]]; try (intros ? ? (? & ? & ? & ? & E & (? & ? & ? & ? & E')); rewrite E' in E; discriminate E). destruct (beq op %"+=") eqn:B.
  - apply beq_eq in B. subst op. exists y. split; auto. split; [|reflexivity]. do 4 eexists. split; [reflexivity|]. do 4 eexists. reflexivity.
  - apply beq_neq in B. intros ? ? (? & ? & ? & ? & E & _). injection E as ? ? ? ? ? ?. subst. now contradiction B.
Qed.
Theorem C98_list_append : forall f, found_in (only_if (fun e => exists x y, adds_one e x y)) f (listAppendWarning f).
Proof.
  intro f. apply walk_found. intro e. pose proof (appends_spec e) as A. destruct (appends e) as [[[c x] l]|]; [left; destruct A as (y & _ & A & _); eauto|right; split; auto]. intros (x & y & K). now apply A in K.
Qed.
Print Assumptions C98_list_append.
(** The fix replaces exactly x += [y] by x.append(y), everywhere. *)
Definition appended (e e' : expr) : Prop :=
  (forall x y, adds_one e x y -> exists c d p q en k m, e' = ECall (com e) (EDot c x p q %"append") d [y] en k m) /\ ((forall x y, ~ adds_one e x y) -> e' = e).
Lemma append_fix_spec e : appended e (append_fix e).
Proof.
  unfold appended, append_fix. pose proof (appends_spec e) as A. destruct (appends e) as [[[c x] l]|].
  - destruct A as (y & -> & A & ->). split; [|intro K; now apply K in A]. intros x' y' A'. destruct A as (? & ? & ? & ? & -> & (? & ? & ? & ? & ->)), A' as (? & ? & ? & ? & E & (? & ? & ? & ? & E')). rewrite E' in E. injection E as ? ? ? ? ? ? ? ? ?. subst. do 7 eexists. reflexivity.
  - split; auto. intros x y K. now apply A in K.
Qed.
Theorem C98_append_fix : forall f, everywhere appended f (listAppendFix f).
Proof. intro f. apply rebuild_everywhere; auto using append_fix_spec. Qed.
Print Assumptions C98_append_fix.
(** ** Deprecated functions *)
Lemma loaded_spec from name : match find (fun i => beq (i_name i) name) (rev from) with Some i => loaded_as from name i | None => forall i, ~ loaded_as from name i end.
Proof.
  destruct (find (fun i => beq (i_name i) name) (rev from)) as [i|] eqn:E.
  - assert (G : forall l, find (fun i => beq (i_name i) name) l = Some i -> exists a b, l = a ++ i :: b /\ i_name i = name /\ forall j, In j a -> i_name j <> name).
    { clear. induction l as [|x l IH]; [discriminate|]. cbn [find]. destruct (beq (i_name x) name) eqn:B.
      - intro H. injection H as <-. apply beq_eq in B. exists [], l. split; [reflexivity|]. split; [exact B|]. intros j [].
      - intro H. destruct (IH H) as (a & b & -> & N & F). exists (x :: a), b. split; auto. split; auto. intros j [<- | J]; [now apply beq_neq|auto]. }
    apply G in E as (a & b & E & N & F). exists (rev b), (rev a). split; [|split; auto; intros j J; apply F; now apply in_rev]. rewrite <- (rev_involutive from), E, rev_app_distr. cbn [rev]. now rewrite <- app_assoc.
  - intros i (pre & post & -> & N & _). apply (find_none _ _) with (x := i) in E; [rewrite N, beq_refl in E; discriminate|]. apply in_rev. rewrite rev_involutive. apply in_elt.
Qed.
Lemma loaded_fun from name i i' : loaded_as from name i -> loaded_as from name i' -> i = i'.
Proof.
  intros (a & b & -> & N & F) (a' & b' & E & N' & F'). revert a' E. induction a as [|x a IH]; intros [|x' a'] E; cbn [app] in E; injection E as E1 E2; auto.
  - subst b. now contradiction (F i' (in_elt _ _ _)).
  - subst b'. now contradiction (F' i (in_elt _ _ _)).
  - eapply IH; eauto.
Qed.
Lemma deprecated_stmt from s : (forall d x, s = Some d -> doc_of d x -> (1 <= p_rune (s_start x))%Z) -> exists b, checkDeprecatedFunction from s = Some b /\ uses_of from s b.
Proof.
  intro Hr. assert (No : (forall i n, ~ deprecated_use from s i n) -> uses_of from s []) by (intro; right; auto).
  destruct s as [e|]; [|exists []; split; auto; apply No; intros i n (? & ? & ? & ? & E & _); discriminate E].
  destruct e; try (exists []; split; auto; apply No; intros i0 n0 (? & ? & ? & ? & E & (? & ? & ? & ? & ? & ? & E' & _) & _); rewrite E' in E; discriminate E).
  cbn [checkDeprecatedFunction]. set (d := EDef _ _ _ _ _ _ _ _ _) in *. assert (Fi : function_is d (start_pos d) name params body) by (do 6 eexists; split; reflexivity).
  assert (Ff : forall (i : ident) n st ps b, Some d = Some d -> function_is d st n ps b -> n = name /\ b = body) by (intros i0 n st ps b _ F; destruct (function_fun _ _ _ _ _ _ _ _ _ F Fi) as (_ & -> & _ & ->); auto).
  pose proof (loaded_spec from name) as L. destruct (find _ (rev from)) as [i|].
  2:{ exists []. split; auto. apply No. intros i n (d' & st & ps & b & E & F & Lo & _). injection E as <-. destruct (Ff i n st ps b eq_refl F) as (-> & ->). now apply L in Lo. }
  pose proof (doc_spec body) as Ds. destruct (docstring_of body) as [s|].
  2:{ exists []. split; auto. apply No. intros i' n (d' & st & ps & b & E & F & _ & (s & _ & _ & _ & Hd & _)). injection E as <-. destruct (Ff i n st ps b eq_refl F) as (-> & ->). now apply Ds in Hd. }
  assert (Hs : (1 <= p_rune (s_start s))%Z) by (apply (Hr d); auto; exists (start_pos d), name, params, body; auto).
  destruct (C97_docstring s (Z.to_nat (p_rune (s_start s) - 1)) (doc_lines (s_value s))) as (inf & D & Ei & K); [lia|apply doc_lines_spec|]. rewrite Ei. cbn [option_map]. eexists. split; [reflexivity|]. destruct K as (_ & _ & _ & _ & _ & K & _). destruct (i_deprecated inf).
  - left. exists i, name. split; auto. exists d, (start_pos d), params, body. split; auto. split; auto. split; auto. destruct (proj1 K eq_refl) as (j & Tj). exists s, (doc_lines (s_value s)), (Z.to_nat (p_rune (s_start s) - 1)), j. split; auto. split; [apply doc_lines_spec|]. split; auto. lia.
  - apply No. intros i' n (d' & st & ps & b & E & F & _ & (s' & ls & indent & j & Hd & Hl & Hp & Tj)). injection E as <-. destruct (Ff i n st ps b eq_refl F) as (-> & ->). pose proof (PropDocstring.first_fun _ _ _ Hd Ds) as Es. injection Es as ->. rewrite (lines_fun _ _ _ Hl (doc_lines_spec _)) in Tj. replace indent with (Z.to_nat (p_rune (s_start s) - 1)) in Tj by lia. assert (X : false = true) by (apply K; eauto). discriminate X.
Qed.
(** deprecated-function: exactly the loaded functions whose docstring in the loaded file has a section Deprecated: *)
Theorem C98_deprecated : forall read c fp pkg label t stmts,
  (forall s from path l d x, In s stmts -> loads_file read pkg s from path l -> In (Some d) l -> doc_of d x -> (1 <= p_rune (s_start x))%Z) ->
  exists r bs, deprecatedFunctionWarning read (EFile c (FMeta fp pkg label t) stmts) = Some r /\ Forall2 (load_found read pkg) stmts bs /\ r = List.concat bs.
Proof.
  intros read c fp pk la t stmts. cbn [deprecatedFunctionWarning]. induction stmts as [|s l IH]; intro H; [exists [], []; auto|]. destruct IH as (r & bs & E & F & ->); [intros; eapply H; eauto; now right|]. cbn [all_some]. rewrite E.
  assert (G : exists b, deprecated_in read pk s = Some b /\ load_found read pk s b).
  { specialize (H s). assert (No : (forall from path st, ~ loads_file read pk s from path st) -> load_found read pk s []) by (intro; right; auto).
    destruct s as [e|]; [|exists []; split; auto; apply No; intros from path st (? & ? & ? & ? & ? & ? & ? & ? & ? & ? & ? & ? & E1 & _); discriminate E1].
    destruct e; try (exists []; split; auto; apply No; intros ? ? ? (? & ? & ? & ? & ? & ? & ? & ? & ? & ? & ? & ? & E1 & _); discriminate E1).
    cbn [deprecated_in]. set (lb := parse_relative (s_value m) pk). 
    destruct (repository lb) eqn:R; [|exists []; split; auto; apply No; intros ? ? ? (? & ? & ? & ? & ? & ? & ? & ? & ? & ? & ? & ? & E1 & E2 & E3 & _); injection E1 as <- <- <- <- <- <- <-; subst; unfold lb in R; rewrite R in E3; discriminate E3].
    destruct (target lb) as [|t0 tt] eqn:T; [exists []; split; auto; apply No; intros ? ? ? (? & ? & ? & ? & ? & ? & ? & ? & ? & ? & ? & ? & E1 & E2 & _ & E3 & _); injection E1 as <- <- <- <- <- <- <-; subst; now contradiction E3|]. rewrite <- T.
    assert (Q : forall from' path st, loads_file read pk (Some (ELoad c0 p m from to r compact)) from' path st -> from' = from /\ exists c' path' pk' la' t', read (package lb) (target lb) = Some (EFile c' (FMeta path' pk' la' t') st) /\ path = CanonicalPath pk' la').
    { intros from' path st (? & ? & ? & ? & ? & ? & ? & c' & path' & pk' & la' & t' & E1 & E2 & _ & _ & E3 & E4). injection E1 as <- <- <- <- <- <- <-. subst. split; auto. do 5 eexists. split; [exact E3|reflexivity]. }
    destruct (read (package lb) (target lb)) as [g|] eqn:Rd; [|exists []; split; auto; apply No; intros ? ? ? K; apply Q in K as (_ & ? & ? & ? & ? & ? & K & _); discriminate K].
    destruct g; try (exists []; split; auto; apply No; intros ? ? ? K; apply Q in K as (_ & ? & ? & ? & ? & ? & K & _); discriminate K).
    match goal with Rd : _ = Some (EFile ?c1 ?m1 ?st) |- _ => destruct m1 as [path' pk' la' t']; assert (Ld : loads_file read pk (Some (ELoad c0 p m from to r compact)) from (CanonicalPath pk' la') st) end.
    { do 12 eexists. split; [reflexivity|]. split; [reflexivity|]. split; [exact R|]. fold lb. split; [rewrite T; discriminate|]. split; [exact Rd|reflexivity]. }
    assert (Gs : forall sl, (forall d x, In (Some d) sl -> doc_of d x -> (1 <= p_rune (s_start x))%Z) -> exists cs, all_some (checkDeprecatedFunction from) sl = Some (List.concat cs) /\ Forall2 (uses_of from) sl cs).
    { clear. induction sl as [|s sl IH]; intro H; [exists []; auto|]. destruct IH as (cs & E & F); [intros d x J; apply H; now right|]. destruct (deprecated_stmt from s) as (b & Eb & Ub); [intros d x -> D; eapply H; eauto; now left|]. exists (b :: cs). cbn [all_some]. rewrite Eb, E. auto. }
    destruct (Gs stmts) as (cs & Ec & Fc); [intros d x J Dx; eapply H; eauto; now left|]. rewrite Ec. cbn [option_map]. eexists. split; [reflexivity|]. left. do 4 eexists. split; [exact Ld|]. split; [exact Fc|reflexivity]. }
  destruct G as (b & -> & Lb). exists (b ++ List.concat bs), (b :: bs). auto.
Qed.
Print Assumptions C98_deprecated.

(** ** What is not guaranteed *)
(** The directory is compared letter by letter: a module in //foo/internal can be loaded from //foobar. *)
Theorem C98_visibility_refuted : exists path module dir, in_repo module module /\ internal_of module dir /\ (forall r, path <> dir ++ %"/" ++ r) /\ ~ invisible path module.
Proof.
  exists %"//foobar/BUILD", %"//foo/internal:x.bzl", %"//foo". split; [right; split; auto; left; discriminate|]. split; [apply (internal_split_spec %"//foo/internal:x.bzl")|]. split; [discriminate|].
  intro K. apply hidden_spec in K. vm_compute in K. discriminate K.
Qed.
Print Assumptions C98_visibility_refuted.
(** A comment before the closing bracket is lost. *)
Theorem C98_append_refuted :
  fixed listAppendFix (lines [%"def f(x, l):"; %"    for I in l:"; %"        x += [I]  # a"; %"        x += ["; %"            I,  # b"; %"            # c"; %"        ]  # d"; %"        x += [I, l]"]) =
  Some (lines [%"def f(x, l):"; %"    for I in l:"; %"        x.append(I)  # a"; %"        x.append("; %"            I,  # b"; %"        )  # d"; %"        x += [I, l]"]).
Proof. vm_compute. reflexivity. Qed.
Print Assumptions C98_append_refuted.
(** An assignment to a name in parentheses is not seen. *)
Theorem C98_parentheses_refuted : exists f c e p x q v, f = EFile no_com (FMeta [] [] [] TypeBzl) [Some e] /\ e = EAssign c x p %"=" q v /\ (exists d s i en m, x = EParen d s (EIdent i) en m /\ i_name i = %"l") /\ confusingNameWarning f = [].
Proof.
  set (x := EParen no_com no_pos (EIdent (Ident no_com no_pos %"l")) (End no_com no_pos) false). exists (EFile no_com (FMeta [] [] [] TypeBzl) [Some (EAssign no_com x no_pos %"=" false (EIdent (Ident no_com no_pos %"y")))]), no_com. do 5 eexists. split; [reflexivity|]. split; [reflexivity|]. split; [do 5 eexists; split; reflexivity|]. vm_compute. reflexivity.
Qed.
Print Assumptions C98_parentheses_refuted.
(** ** Instances *)
Definition checked_names (g : expr -> list bytes) (data : bytes) : option (list bytes) := match parse_file meta data with Some f => Some (g f) | None => None end.
Definition shown (e : expr) : list bytes := match e with EIdent i => [i_name i] | EDef _ _ _ _ n _ _ _ _ => [%"def " ++ n] | EAssign _ (EIdent i) _ _ _ _ => [i_name i ++ %"="] | _ => [%"?"] end.
Definition ex_names : bytes := lines [%"l, (O, x) = y"; %"def I(l = 1, *O):"; %"    for l in x:"; %"        O = depset([], transitive = [O])"; %"        I.x = [l for l in O if O for (a, I) in y]"; %"fooBar = 1"; %"FooInfo = 2"; %"Foo_Info, BAR, [_FooInfo, fooInfo] = 3"].
Example C98_nontrivial_confusing : checked_names (fun f => flat_map shown (confusingNameWarning f)) ex_names = Some [%"l"; %"O"; %"def I"; %"l="; %"?"; %"l"; %"O"; %"l"; %"I"].
Proof. vm_compute. reflexivity. Qed.
Definition lo : bytes -> bytes := map to_lower.
Definition up : bytes -> bytes := map to_upper.
Definition ti (n : bytes) : bytes := match n with c :: r => to_upper c :: r | [] => [] end.
Example C98_nontrivial_cases : cases lo up ti.
Proof. intros n _. repeat (apply conj); reflexivity. Qed.
Example C98_nontrivial_conventions : checked_names (fun f => map i_name (nameConventionsWarning lo up ti f)) ex_names = Some [%"fooBar"; %"Foo_Info"; %"fooInfo"].
Proof. vm_compute. reflexivity. Qed.
Example C98_nontrivial_nested : checked_names (fun f => flat_map shown (overlyNestedDepsetWarning f)) ex_names = Some [%"O="].
Proof. vm_compute. reflexivity. Qed.
Example C98_nontrivial_visibility : module_hidden %"//foo/bar/BUILD" %"@r//foo/baz/private/x:y.bzl" = true /\ module_hidden %"//foo/javatests/z/BUILD" %"//foo/java/z/internal:y.bzl" = false /\ module_hidden %"//foo/bar/BUILD" %"//foo/internals:y.bzl" = false.
Proof. repeat (apply conj); vm_compute; reflexivity. Qed.
