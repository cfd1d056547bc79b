(** C101: the lints about typed values. *)
From Verif Require Import LRTables LRCert Parse PropComplete.
From Verif Require Import Base BaseProofs Ast ParseFile Walk WalkSpec WalkProofs WalkGen PropWalk PropDictSort RuleSpec RuleProofs Print PropPrint AttrParams PropAttr Scope ScopeSpec ScopeProofs CallLints PropCallLints NotLoaded PropNotLoaded ApiLints PropApiLints Types PropTypes.
From Coq Require Import Sorted.
Local Open Scope list_scope.

(** ** What is asked for *)
(** What is found in the places of a tree, in the order of the text: at each place what [Q] says *)
Definition found_at {R} (Q : place -> expr -> list R -> Prop) (f : expr) (found : list R) : Prop :=
  exists places blocks, StronglySorted path_before places /\ (forall p, In p places <-> node_at children f p <> None) /\
    Forall2 (fun p b => exists e, node_at children f p = Some e /\ Q p e b) places blocks /\ found = List.concat blocks.
(** The elements with the property, in order; [k] is the number of the first element. *)
Inductive those (P : nat -> expr -> Prop) : nat -> list expr -> list expr -> Prop :=
  | th_nil k : those P k [] []
  | th_yes k x l b : P k x -> those P (S k) l b -> those P k (x :: l) (x :: b)
  | th_no k x l b : ~ P k x -> those P (S k) l b -> those P k (x :: l) b.
Definition child_types := place -> option type.
(** [x op y] or [x aop y] *)
Definition operation (op aop : bytes) (e : expr) : Prop := exists c x q br y, e = EBinary c x q op br y \/ e = EAssign c x q aop br y.
Definition left_is (ty : child_types) (t : type) (p : place) : Prop := ty (p ++ [0]) = Some t.
Definition right_is (ty : child_types) (t : type) (p : place) : Prop := ty (p ++ [1]) = Some t.
Definition joins_dicts (ty : child_types) (p : place) (e : expr) : Prop := operation %"+" %"+=" e /\ (left_is ty TDict p \/ right_is ty TDict p).
Definition divides_integers (ty : child_types) (p : place) (e : expr) : Prop := operation %"/" %"/=" e /\ left_is ty TInt p /\ right_is ty TInt p.
(** [x.name(...)] where [x] has the type *)
Definition method_call (name : bytes) (e : expr) (args : list expr) : Prop := exists c d x q nq ls en k m, e = ECall c (EDot d x q nq name) ls args en k m.
Definition called_on (ty : child_types) (t : type) (p : place) : Prop := ty (p ++ [0; 0]) = Some t.
Definition joins_depsets (ty : child_types) (p : place) (e : expr) : Prop :=
  ((operation %"+" %"+=" e \/ operation %"|" %"|=" e) /\ (left_is ty TDepset p \/ right_is ty TDepset p)) \/
  (exists a l, method_call %"union" e (a :: l) /\ (called_on ty TDepset p \/ right_is ty TDepset p)).
Definition is_default_argument (x : expr) : Prop := exists c i q op br v, x = EAssign c (EIdent i) q op br v /\ i_name i = %"default".
(** The children [x] (number [i]) of [e] that are findings *)
Definition children_with (P : place -> expr -> nat -> expr -> Prop) (p : place) (e : expr) (b : list expr) : Prop := those (P p e) 0 (children e) b.
Definition default_argument (ty : child_types) (p : place) (e : expr) (i : nat) (x : expr) : Prop :=
  exists n args, In n [%"pop"; %"get"; %"setdefault"] /\ method_call n e args /\ called_on ty TDict p /\ 0 < i /\ is_default_argument x.
Definition iterates (e : expr) : Prop := (exists c q v x b, e = EFor c q v x b) \/ (exists c q v b x, e = EForC c q v b x).
(** The only argument of one of the functions, or any argument of one of the others *)
Definition argument_of (only all : list bytes) (e : expr) (i : nat) : Prop :=
  0 < i /\ exists n args, call_to n e args /\ ((In n only /\ List.length args = 1) \/ In n all).
Definition iterated_string (ty : child_types) (p : place) (e : expr) (i : nat) (x : expr) : Prop :=
  ty (p ++ [i]) = Some TString /\ ((iterates e /\ i = 1) \/ argument_of [%"all"; %"any"; %"reversed"; %"max"; %"min"] [%"zip"] e i).
Definition iterated_depset (ty : child_types) (p : place) (e : expr) (i : nat) (x : expr) : Prop :=
  ty (p ++ [i]) = Some TDepset /\ ((iterates e /\ i = 1) \/ (i = 1 /\ exists c l q op br r, e = EBinary c l q op br r /\ In op [%"in"; %"not in"]) \/
    argument_of [%"all"; %"any"; %"depset"; %"len"; %"sorted"; %"max"; %"min"; %"list"; %"tuple"] [%"zip"] e i).
Definition items_argument (ty : child_types) (p : place) (e : expr) (b : list expr) : Prop :=
  (exists args a v, call_to %"depset" e args /\ keyed %"items" args a v /\ b = [a]) \/
  (exists a l, call_to %"depset" e (a :: l) /\ no_attr %"items" (a :: l) /\ ~ keyword_argument a /\ right_is ty TDepset p /\ b = [a]) \/
  (b = [] /\ forall args, call_to %"depset" e args -> no_attr %"items" args /\ forall a l, args = a :: l -> ~ keyword_argument a -> ~ right_is ty TDepset p).
Definition adds_many (ty : child_types) (p : place) (e : expr) (b : list (expr * bytes)) : Prop :=
  (exists args, method_call %"add" e args /\ called_on ty TCtxActionsArgs p /\ ~ no_attr %"join_with" args /\ b = [(e, %"add_joined")]) \/
  (exists args, method_call %"add" e args /\ called_on ty TCtxActionsArgs p /\ no_attr %"join_with" args /\ (~ no_attr %"before_each" args \/ ~ no_attr %"map_fn" args) /\ b = [(e, %"add_all")]) \/
  (b = [] /\ forall args, method_call %"add" e args -> called_on ty TCtxActionsArgs p -> no_attr %"join_with" args /\ no_attr %"before_each" args /\ no_attr %"map_fn" args).
Definition assigns (n : bytes) (op : bytes) (x : expr) : Prop := exists c i q br v, x = EAssign c (EIdent i) q op br v /\ i_name i = n.
(** Assigned again, by a statement that does not extend a list *)
Definition assigned_again (ty : child_types) (stmts : list expr) (i : nat) (x : expr) : Prop :=
  exists n op, assigns n op x /\ (exists j y op', j < i /\ nth_error stmts j = Some y /\ assigns n op' y) /\ ~ (op = %"+=" /\ (ty [i; 0] = Some TList \/ ty [i; 1] = Some TList)).
Definition assigned_variable (x : expr) (i : ident) : Prop := exists c q op br v, x = EAssign c (EIdent i) q op br v.

(** ** Proofs *)
Lemma one_spec ty t p : is_one ty t p = true <-> ty p = Some t.
Proof. apply is_type_spec. Qed.
Lemma typed_found {R} (Q : place -> expr -> list R -> Prop) g f ty : types_of f ty -> (forall ty ty' p e, (forall q, ty q = ty' q) -> g ty p e = g ty' p e) ->
  (forall p e, node_at children f p = Some e -> Q p e (g ty p e)) -> found_at Q f (typed_walk g f).
Proof.
  intros T X H. destruct (places_spec (height f) f [] (le_n _)) as (In1 & So). exists (map fst (places_from (height f) [] f)), (map (fun v => g (result (DetectTypes f)) (fst v) (snd v)) (places_from (height f) [] f)).
  split; [now apply sorted_map|]. split.
  - intro p. rewrite in_map_iff. split.
    + intros ([q x] & <- & I). apply In1 in I as (r & -> & N). cbn [fst app]. rewrite N. discriminate.
    + intro N. destruct (node_at children f p) as [x|] eqn:E; [|now elim N]. exists (p, x). split; auto. apply In1. exists p. auto.
  - split; [|unfold typed_walk; now rewrite flat_map_concat_map]. assert (A : forall v, In v (places_from (height f) [] f) -> node_at children f (fst v) = Some (snd v)).
    { intros [q x] I. apply In1 in I as (r & -> & N). exact N. }
    revert A. clear In1 So. generalize (places_from (height f) [] f) as l. induction l as [|v l IH]; intro A; cbn [map]; constructor; [|apply IH; intros w I; apply A; now right].
    assert (N : node_at children f (fst v) = Some (snd v)) by (apply A; now left). exists (snd v). split; auto. rewrite (X _ ty); [apply H; auto|]. intro q. apply (C100_unique f); auto. apply C100_types.
Qed.
Lemma one_ext ty ty' t p : (forall q, ty q = ty' q) -> is_one ty t p = is_one ty' t p.
Proof. intro H. unfold is_one. now rewrite H. Qed.
Lemma if_only (P : expr -> Prop) (b : bool) e : (b = true <-> P e) -> only_if P e (if b then [e] else []).
Proof. intro H. destruct b; [left; split; auto; now apply H|right; split; auto]. intro K. apply H in K. discriminate K. Qed.
Lemma none_only (P : expr -> Prop) e : ~ P e -> only_if P e [].
Proof. right. auto. Qed.
Ltac ext H := repeat match goal with |- context [is_one ?ty ?t ?p] => first [rewrite (one_ext ty _ t p H)] end.
Theorem C101_dict_concatenation : forall f ty, types_of f ty -> found_at (fun p => only_if (joins_dicts ty p)) f (dictionaryConcatenationWarning f).
Proof.
  intros f ty T. apply (typed_found _ _ _ ty T).
  - intros t1 t2 p e H. unfold dict_node. destruct e; auto; rewrite !(one_ext t1 t2) by auto; reflexivity.
  - intros p e _. unfold joins_dicts, operation, left_is, right_is.
    destruct e; cbn [dict_node]; try (apply none_only; intros ((? & ? & ? & ? & ? & [E|E]) & _); discriminate E).
    + apply if_only. rewrite Bool.andb_true_iff, Bool.orb_true_iff, !one_spec, beq_eq. split.
      * intros (-> & K). split; auto. do 5 eexists. left. reflexivity.
      * intros ((? & ? & ? & ? & ? & [E|E]) & K); [|discriminate E]. injection E as -> -> -> -> ->. auto.
    + apply if_only. rewrite Bool.andb_true_iff, Bool.orb_true_iff, !one_spec, beq_eq. split.
      * intros (-> & K). split; auto. do 5 eexists. right. reflexivity.
      * intros ((? & ? & ? & ? & ? & [E|E]) & K); [discriminate E|]. injection E as -> -> -> -> ->. auto.
Qed.
Print Assumptions C101_dict_concatenation.
Theorem C101_integer_division : forall f ty, types_of f ty -> found_at (fun p => only_if (divides_integers ty p)) f (integerDivisionWarning f).
Proof.
  intros f ty T. apply (typed_found _ _ _ ty T).
  - intros t1 t2 p e H. unfold division_node. destruct e; auto; rewrite !(one_ext t1 t2) by auto; reflexivity.
  - intros p e _. unfold divides_integers, operation, left_is, right_is.
    destruct e; cbn [division_node]; try (apply none_only; intros ((? & ? & ? & ? & ? & [E|E]) & _); discriminate E).
    + apply if_only. rewrite !Bool.andb_true_iff, !one_spec, beq_eq. split.
      * intros (-> & K). split; auto. do 5 eexists. left. reflexivity.
      * intros ((? & ? & ? & ? & ? & [E|E]) & K); [|discriminate E]. injection E as -> -> -> -> ->. auto.
    + apply if_only. rewrite !Bool.andb_true_iff, !one_spec, beq_eq. split.
      * intros (-> & K). split; auto. do 5 eexists. right. reflexivity.
      * intros ((? & ? & ? & ? & ? & [E|E]) & K); [discriminate E|]. injection E as -> -> -> -> ->. auto.
Qed.
Print Assumptions C101_integer_division.
Theorem C101_depset_union : forall f ty, types_of f ty -> found_at (fun p => only_if (joins_depsets ty p)) f (depsetUnionWarning f).
Proof.
  intros f ty T. apply (typed_found _ _ _ ty T).
  - intros t1 t2 p e H. unfold union_node. destruct e; auto; [|rewrite !(one_ext t1 t2) by auto; reflexivity|rewrite !(one_ext t1 t2) by auto; reflexivity]. destruct e; auto. match goal with |- context [match ?l with [] => _ | _ :: _ => _ end] => destruct l end; auto. rewrite !(one_ext t1 t2) by auto. reflexivity.
  - intros p e _. unfold joins_depsets, operation, method_call, left_is, right_is, called_on.
    destruct e; cbn [union_node]; try (apply none_only; intros [([(? & ? & ? & ? & ? & [E|E])|(? & ? & ? & ? & ? & [E|E])] & _)|(? & ? & (? & ? & ? & ? & ? & ? & ? & ? & ? & E) & _)]; discriminate E).
    + match goal with |- only_if ?P (ECall ?c ?x ?ls ?l ?en ?k ?m) _ => rename x into fn; rename l into args_;
        assert (No : (forall d x q nq a l', ~ (fn = EDot d x q nq %"union" /\ args_ = a :: l')) -> only_if P (ECall c fn ls args_ en k m) []) end.
      { intro H. apply none_only. intros [([(? & ? & ? & ? & ? & [E|E])|(? & ? & ? & ? & ? & [E|E])] & _)|(? & ? & (? & ? & ? & ? & ? & ? & ? & ? & ? & E) & _)]; try discriminate E. injection E as -> -> -> -> -> -> ->. eapply H; eauto. }
      destruct fn; try (apply No; intros ? ? ? ? ? ? [E _]; discriminate E). destruct args_ as [|a l]; [apply No; intros ? ? ? ? ? ? [_ E]; discriminate E|]. clear No.
      apply if_only. rewrite Bool.andb_true_iff, Bool.orb_true_iff, !one_spec, beq_eq. split.
      * intros (-> & K). right. exists a, l. split; [do 9 eexists; reflexivity|auto].
      * intros [([(? & ? & ? & ? & ? & [E|E])|(? & ? & ? & ? & ? & [E|E])] & _)|(? & ? & (? & ? & ? & ? & ? & ? & ? & ? & ? & E) & K)]; try discriminate E. injection E as -> -> -> -> -> -> -> -> -> -> ->. auto.
    + apply if_only. rewrite Bool.andb_true_iff, Bool.orb_true_iff, !one_spec, mem_bytes_In. split.
      * intros (K & [<-|[<-|[]]]); left; split; auto; [left|right]; do 5 eexists; left; reflexivity.
      * intros [([(? & ? & ? & ? & ? & [E|E])|(? & ? & ? & ? & ? & [E|E])] & K)|(? & ? & (? & ? & ? & ? & ? & ? & ? & ? & ? & E) & _)]; try discriminate E; injection E as -> -> -> -> ->; split; auto; cbn; auto.
    + apply if_only. rewrite Bool.andb_true_iff, Bool.orb_true_iff, !one_spec, mem_bytes_In. split.
      * intros (K & [<-|[<-|[]]]); left; split; auto; [left|right]; do 5 eexists; right; reflexivity.
      * intros [([(? & ? & ? & ? & ? & [E|E])|(? & ? & ? & ? & ? & [E|E])] & K)|(? & ? & (? & ? & ? & ? & ? & ? & ? & ? & ? & E) & _)]; try discriminate E; injection E as -> -> -> -> ->; split; auto; cbn; auto.
Qed.
Print Assumptions C101_depset_union.
Lemma those_none (P : nat -> expr -> Prop) l : forall k, (forall i x, k <= i -> ~ P i x) -> those P k l [].
Proof. induction l as [|x l IH]; intros k H; [constructor|]. apply th_no; [apply H; lia|]. apply IH. intros. apply H. lia. Qed.
Lemma those_filter (P : nat -> expr -> Prop) g l : forall k, (forall i x, k <= i -> (g x = true <-> P i x)) -> those P k l (filter g l).
Proof.
  induction l as [|x l IH]; intros k H; [constructor|]. cbn [filter]. assert (T : those P (S k) l (filter g l)) by (apply IH; intros; apply H; lia). destruct (g x) eqn:G; [apply th_yes; auto; now apply H|apply th_no; auto].
  intro K. apply (H k x (le_n k)) in K. rewrite K in G. discriminate G.
Qed.
Lemma those_if (P : nat -> expr -> Prop) (g : nat -> bool) l : forall k, (forall i x, k <= i -> (g i = true <-> P i x)) -> those P k l (flat_map (fun ia => if g (fst ia) then [snd ia] else []) (number_from k l)).
Proof.
  induction l as [|x l IH]; intros k H; [constructor|]. cbn [number_from flat_map fst snd]. assert (T : those P (S k) l (flat_map (fun ia => if g (fst ia) then [snd ia] else []) (number_from (S k) l))) by (apply IH; intros; apply H; lia).
  destruct (g k) eqn:G; [apply th_yes; auto; now apply (H k x)|apply th_no; auto]. intro K. apply (H k x (le_n k)) in K. rewrite K in G. discriminate G.
Qed.
Lemma kids_call c x ls l en k m : children (ECall c x ls l en k m) = x :: l.
Proof. unfold children, fold_children. cbn [fold_children2]. now rewrite map_id. Qed.
Lemma kids_for c q v x b : children (EFor c q v x b) = v :: x :: b.
Proof. unfold children, fold_children. cbn [fold_children2]. now rewrite map_id. Qed.
(** Of all children only number 1 *)
Lemma those_second (P : nat -> expr -> Prop) (g : bool) v x l : (forall i y, P i y -> i = 1) -> (g = true <-> P 1 x) -> those P 0 (v :: x :: l) (if g then [x] else []).
Proof.
  intros H G. apply th_no; [intro K; apply H in K; discriminate K|]. assert (T : those P 2 l []) by (apply those_none; intros i y L K; apply H in K; lia).
  destruct g; [apply th_yes; auto; now apply G|apply th_no; auto]. intro K. apply G in K. discriminate K.
Qed.
Lemma typed_args_ext t1 t2 t only all p e : (forall q, t1 q = t2 q) -> typed_args t1 t only all p e = typed_args t2 t only all p e.
Proof.
  intro H. unfold typed_args. destruct e; auto. destruct e; auto. rewrite !(one_ext t1 t2) by auto. destruct (mem_bytes _ only); auto. destruct (mem_bytes _ all); auto. apply flat_map_ext. intros [k a]. cbn [fst snd]. now rewrite (one_ext t1 t2).
Qed.
Lemma typed_args_spec ty t only all p e (P : nat -> expr -> Prop) : (forall n, In n only -> ~ In n all) -> (forall i x, P i x <-> ty (p ++ [i]) = Some t /\ argument_of only all e i) -> those P 0 (children e) (typed_args ty t only all p e).
Proof.
  intros D H. assert (No : (forall n args, ~ call_to n e args) -> those P 0 (children e) []).
  { intro N. apply those_none. intros i x _ K. apply H in K as (_ & _ & n & args & C & _). now apply N in C. }
  destruct e; try (apply No; intros ? ? (? & ? & ? & ? & ? & ? & E & _); discriminate E). match goal with |- context [ECall ?c ?x ?ls ?l ?en ?k ?m] => rename x into fn; rename l into args end.
  destruct fn; try (apply No; intros ? ? (? & ? & ? & ? & ? & ? & E & _); discriminate E). clear No. cbn [typed_args].
  assert (Arg : forall i0 x, P i0 x <-> ty (p ++ [i0]) = Some t /\ 0 < i0 /\ ((In (i_name i) only /\ List.length args = 1) \/ In (i_name i) all)).
  { intros i0 x. rewrite H. unfold argument_of. split.
    - intros (T & L & n & args' & (? & ? & ? & ? & ? & ? & E & <-) & K). injection E as -> -> -> -> -> -> ->. auto.
    - intros (T & L & K). split; auto. split; auto. exists (i_name i), args. split; auto. do 6 eexists. split; reflexivity. }
  rewrite kids_call.
  apply th_no; [intro K; apply Arg in K as (_ & L & _); lia|]. destruct (mem_bytes (i_name i) only) eqn:M1.
  - apply mem_bytes_In in M1. specialize (D _ M1). destruct args as [|a [|b args]]; [constructor| |apply those_none; intros j x _ K; apply Arg in K as (_ & _ & [[_ K]|K]); [discriminate K|contradiction]].
    destruct (is_one ty t (p ++ [1])) eqn:O.
    + apply th_yes; [|constructor]. apply Arg. apply one_spec in O. auto.
    + apply th_no; [|constructor]. intro K. apply Arg in K as (K & _). apply one_spec in K. rewrite K in O. discriminate O.
  - destruct (mem_bytes (i_name i) all) eqn:M2.
    + apply mem_bytes_In in M2. apply (those_if P (fun j => is_one ty t (p ++ [j]))). intros j x L. rewrite one_spec, Arg. split; [auto|tauto].
    + apply those_none. intros j x _ K. apply Arg in K as (_ & _ & [[K _]|K]); apply mem_bytes_In in K; rewrite K in *; discriminate.
Qed.
Theorem C101_default_argument : forall f ty, types_of f ty -> found_at (children_with (default_argument ty)) f (dictMethodNamedArgWarning f).
Proof.
  intros f ty T. apply (typed_found _ _ _ ty T).
  - intros t1 t2 p e H. unfold dict_method_node. destruct e; auto. destruct e; auto. rewrite !(one_ext t1 t2) by auto. reflexivity.
  - intros p e _. unfold children_with. assert (No : (forall n args, In n [%"pop"; %"get"; %"setdefault"] -> method_call n e args -> ~ called_on ty TDict p) -> those (default_argument ty p e) 0 (children e) []).
    { intro N. apply those_none. intros i x _ (n & args & I & M & C & _). now apply (N n args) in C. }
    destruct e; try (apply No; intros ? ? _ (? & ? & ? & ? & ? & ? & ? & ? & ? & E); discriminate E). match goal with |- context [ECall ?c ?x ?ls ?l ?en ?k ?m] => rename x into fn; rename l into args end.
    destruct fn; try (apply No; intros ? ? _ (? & ? & ? & ? & ? & ? & ? & ? & ? & E); discriminate E). cbn [dict_method_node].
    match goal with |- those _ _ _ (if ?b then _ else _) => destruct b eqn:G end.
    + apply Bool.andb_true_iff in G as (G1 & G2). apply one_spec in G1. apply mem_bytes_In in G2. clear No. rewrite kids_call.
      apply th_no; [intros (? & ? & _ & _ & _ & L & _); lia|]. apply those_filter. intros j x L. split.
      * intro Dx. eexists _, _. split; [exact G2|]. split; [do 9 eexists; reflexivity|]. split; auto. split; auto. unfold is_default in Dx. destruct x; try discriminate Dx. match type of Dx with match ?l with _ => _ end = _ => destruct l; try discriminate Dx end.
        apply beq_eq in Dx. unfold is_default_argument. eauto 9.
      * intros (_ & _ & _ & _ & _ & _ & (? & ? & ? & ? & ? & ? & -> & E)). cbn [is_default]. rewrite E. apply beq_refl.
    + apply No. intros n args' I (? & ? & ? & ? & ? & ? & ? & ? & ? & E) C. injection E as -> -> -> -> -> -> -> -> -> -> ->. apply mem_bytes_In in I. rewrite I, Bool.andb_true_r in G. apply one_spec in C. rewrite C in G. discriminate G.
Qed.
Print Assumptions C101_default_argument.
Lemma not_call n e args : (forall c x ls l en k m, e <> ECall c x ls l en k m) -> ~ call_to n e args.
Proof. intros H (c & i & q & en & k & m & -> & _). now apply (H c (EIdent i) q args en k m). Qed.
Theorem C101_string_iteration : forall f ty, types_of f ty -> found_at (children_with (iterated_string ty)) f (stringIterationWarning f).
Proof.
  intros f ty T. apply (typed_found _ _ _ ty T).
  - intros t1 t2 p e H. unfold string_iteration_node. rewrite !(typed_args_ext t1 t2) by auto. destruct e; auto; rewrite !(one_ext t1 t2) by auto; reflexivity.
  - intros p e _. unfold children_with.
    assert (Gen : ~ iterates e -> those (iterated_string ty p e) 0 (children e) (typed_args ty TString [%"all"; %"any"; %"reversed"; %"max"; %"min"] [%"zip"] p e)).
    { intro N. apply typed_args_spec; [cbn; intuition (subst; discriminate)|]. intros i x. unfold iterated_string. tauto. }
    destruct e; try (apply Gen; intros [(? & ? & ? & ? & ? & E)|(? & ? & ? & ? & ? & E)]; discriminate E).
    + cbn [string_iteration_node]. match goal with |- those ?P _ (children (EForC ?c ?a ?v ?b ?x)) _ => change (children (EForC c a v b x)) with ([v; x]) end. clear Gen. apply those_second.
      * intros j y (_ & [[_ E]|(_ & n & args & C & _)]); auto. exfalso. revert C. apply not_call. discriminate.
      * rewrite one_spec. unfold iterated_string. split; [|tauto]. intro K. split; auto. left. split; auto. right. eauto 6.
    + cbn [string_iteration_node]. rewrite kids_for. clear Gen. apply those_second.
      * intros j y (_ & [[_ E]|(_ & n & args & C & _)]); auto. exfalso. revert C. apply not_call. discriminate.
      * rewrite one_spec. unfold iterated_string. split; [|tauto]. intro K. split; auto. left. split; auto. left. eauto 6.
Qed.
Print Assumptions C101_string_iteration.
Theorem C101_depset_iteration : forall f ty, types_of f ty -> found_at (children_with (iterated_depset ty)) f (depsetIterationWarning f).
Proof.
  intros f ty T. apply (typed_found _ _ _ ty T).
  - intros t1 t2 p e H. unfold depset_iteration_node. rewrite !(typed_args_ext t1 t2) by auto. destruct e; auto; rewrite !(one_ext t1 t2) by auto; reflexivity.
  - intros p e _. unfold children_with.
    assert (Gen : ~ iterates e -> (forall c l q op br r, e <> EBinary c l q op br r) -> those (iterated_depset ty p e) 0 (children e) (typed_args ty TDepset [%"all"; %"any"; %"depset"; %"len"; %"sorted"; %"max"; %"min"; %"list"; %"tuple"] [%"zip"] p e)).
    { intros N N2. apply typed_args_spec; [cbn; intuition (subst; discriminate)|]. intros i x. unfold iterated_depset. split; [|tauto]. intros (K & [[J _]|[(_ & c & l & q & op & br & r & J & _)|J]]); auto; [contradiction|now apply N2 in J]. }
    destruct e; try (apply Gen; [intros [(? & ? & ? & ? & ? & E)|(? & ? & ? & ? & ? & E)]; discriminate E|discriminate]).
    + cbn [depset_iteration_node]. match goal with |- those ?P _ (children (EForC ?c ?a ?v ?b ?x)) _ => change (children (EForC c a v b x)) with ([v; x]) end. clear Gen. apply those_second.
      * intros j y (_ & [[_ E]|[(E & _)|(_ & n & args & C & _)]]); auto. exfalso. revert C. apply not_call. discriminate.
      * rewrite one_spec. unfold iterated_depset. split; [|tauto]. intro K. split; auto. left. split; auto. right. eauto 6.
    + cbn [depset_iteration_node]. match goal with |- those ?P _ (children (EBinary ?c ?x ?q ?op ?br ?y)) _ => change (children (EBinary c x q op br y)) with ([x; y]) end. clear Gen. apply those_second.
      * intros j y (_ & [[_ E]|[(E & _)|(_ & n & args & C & _)]]); auto. exfalso. revert C. apply not_call. discriminate.
      * rewrite Bool.andb_true_iff, one_spec, mem_bytes_In. unfold iterated_depset. split.
        -- intros (K & K'). split; auto. right. left. split; auto. do 6 eexists. split; [reflexivity|auto].
        -- intros (K & [[[(? & ? & ? & ? & ? & E)|(? & ? & ? & ? & ? & E)] _]|[(_ & ? & ? & ? & ? & ? & ? & E & K')|(_ & n & args & C & _)]]); try discriminate E; [injection E as -> -> -> -> -> ->; auto|]. exfalso. revert C. apply not_call. discriminate.
    + cbn [depset_iteration_node]. rewrite kids_for. clear Gen. apply those_second.
      * intros j y (_ & [[_ E]|[(E & _)|(_ & n & args & C & _)]]); auto. exfalso. revert C. apply not_call. discriminate.
      * rewrite one_spec. unfold iterated_depset. split; [|tauto]. intro K. split; auto. left. split; auto. left. eauto 6.
Qed.
Print Assumptions C101_depset_iteration.
Theorem C101_depset_items : forall f ty, types_of f ty -> found_at (items_argument ty) f (depsetItemsWarning f).
Proof.
  intros f ty T. apply (typed_found _ _ _ ty T).
  - intros t1 t2 p e H. unfold depset_items_node. destruct (isFunctionCall e %"depset") as [[|a l]|]; auto. rewrite !(one_ext t1 t2) by auto. reflexivity.
  - intros p e _. unfold items_argument, depset_items_node. pose proof (call_is e %"depset") as C. destruct (isFunctionCall e %"depset") as [[|a l]|].
    + right. right. split; auto. intros args C'. rewrite (call_to_fun _ _ _ _ C' C). split; [intros ? ? []|intros ? ? E; discriminate E].
    + pose proof (keyed_spec (a :: l) %"items") as K. destruct (getParam (a :: l) %"items") as [[i v]|].
      * destruct K as (x & -> & K). left. exists (a :: l), x, v. auto.
      * right. destruct (negb (is_keyword_arg a) && is_one ty TDepset (p ++ [1])) eqn:G.
        -- left. apply Bool.andb_true_iff in G as (G1 & G2). apply one_spec in G2. exists a, l. split; auto. split; auto. split; [|auto]. intro Ka. apply keyword_arg_spec in Ka. rewrite Ka in G1. discriminate G1.
        -- right. split; auto. intros args C'. rewrite (call_to_fun _ _ _ _ C' C). split; auto. intros a' l' [= <- <-] Nk D. apply one_spec in D. rewrite D, Bool.andb_true_r in G. apply Nk, keyword_arg_spec. now apply Bool.negb_false_iff in G.
    + right. right. split; auto. intros args C'. elim (C _ C').
Qed.
Print Assumptions C101_depset_items.
Lemma keyed_param args key : ~ no_attr key args <-> getParam args key <> None.
Proof.
  pose proof (keyed_spec args key) as K. destruct (getParam args key) as [[i v]|].
  - destruct K as (a & _ & K). split; [discriminate|]. intros _. eapply keyed_not_no; eauto.
  - split; [contradiction|]. intro N. now elim N.
Qed.
Lemma method_fun n e a a' : method_call n e a -> method_call n e a' -> a = a'.
Proof. intros (? & ? & ? & ? & ? & ? & ? & ? & ? & ->) (? & ? & ? & ? & ? & ? & ? & ? & ? & E). now injection E. Qed.
Theorem C101_args_api : forall f ty t stmts, types_of f ty -> a_file f t stmts ->
  (t = TypeBzl -> found_at (adds_many ty) f (contextArgsAPIWarning f)) /\ (t <> TypeBzl -> contextArgsAPIWarning f = []).
Proof.
  intros f ty t stmts T F. unfold contextArgsAPIWarning. split; [intros ->; rewrite (in_bzl_eq _ f stmts) by auto|intro; eapply in_bzl_other; eauto].
  apply (typed_found _ _ _ ty T).
  - intros t1 t2 p e H. unfold args_api_node. destruct e; auto. destruct e; auto. rewrite !(one_ext t1 t2) by auto. reflexivity.
  - intros p e _. assert (No : (forall args, method_call %"add" e args -> ~ called_on ty TCtxActionsArgs p) -> adds_many ty p e []).
    { intro N. right. right. split; auto. intros args M C. elim (N args M C). }
    destruct e; try (apply No; intros ? (? & ? & ? & ? & ? & ? & ? & ? & ? & E); discriminate E). match goal with |- context [ECall ?c ?x ?ls ?l ?en ?k ?m] => rename x into fn; rename l into args end.
    destruct fn; try (apply No; intros ? (? & ? & ? & ? & ? & ? & ? & ? & ? & E); discriminate E). cbn [args_api_node].
    match goal with |- adds_many _ _ _ (if ?b then _ else _) => destruct b eqn:G end.
    + apply Bool.andb_true_iff in G as (G1 & G2). apply one_spec in G2. apply beq_eq in G1. subst. clear No.
      match goal with |- adds_many _ _ ?e _ => assert (M : method_call %"add" e args) by (do 9 eexists; reflexivity) end.
      pose proof (keyed_param args %"join_with") as J. pose proof (keyed_param args %"before_each") as Bf. pose proof (keyed_param args %"map_fn") as Mf.
      pose proof (keyed_spec args %"join_with") as J'. pose proof (keyed_spec args %"before_each") as Bf'. pose proof (keyed_spec args %"map_fn") as Mf'.
      destruct (getParam args %"join_with"); [left; exists args; split; auto; split; auto; split; auto; apply J; discriminate|].
      destruct (getParam args %"before_each"); [right; left; exists args; split; auto; split; auto; split; auto; split; auto; left; apply Bf; discriminate|].
      destruct (getParam args %"map_fn"); [right; left; exists args; split; auto; split; auto; split; auto; split; auto; right; apply Mf; discriminate|].
      right. right. split; auto. intros args' M' _. rewrite (method_fun _ _ _ _ M' M). auto.
    + apply No. intros args' (? & ? & ? & ? & ? & ? & ? & ? & ? & E) C. injection E as -> -> -> -> -> -> -> -> -> -> ->. apply one_spec in C. rewrite C, beq_refl in G. discriminate G.
Qed.
Print Assumptions C101_args_api.
Lemma assign_case x : (exists n op i, assigns n op x /\ assigned_variable x i /\ i_name i = n) \/ (forall n op, ~ assigns n op x).
Proof.
  destruct x; try (right; intros ? ? (? & ? & ? & ? & ? & E & _); discriminate E). match goal with |- context [EAssign ?c ?x ?q ?op ?br ?v] => rename x into lhs end.
  destruct lhs; try (right; intros ? ? (? & ? & ? & ? & ? & E & _); discriminate E). left. do 2 eexists. exists i. split; [do 5 eexists; split; reflexivity|]. split; auto. do 5 eexists. reflexivity.
Qed.
Theorem C101_redefined : forall f ty, types_of f ty -> exists b, those (assigned_again ty (children f)) 0 (children f) b /\ Forall2 assigned_variable b (redefinedVariableWarning f).
Proof.
  intros f ty T. unfold redefinedVariableWarning. assert (Eq : forall p, result (DetectTypes f) p = ty p) by (intro p; apply (C100_unique f); auto; apply C100_types).
  set (D := result (DetectTypes f)) in *. clearbody D. clear T.
  assert (G : forall pre l seen, (forall n, In n seen <-> exists x op, In x pre /\ assigns n op x) ->
    exists b, those (assigned_again ty (pre ++ l)) (List.length pre) l b /\ Forall2 assigned_variable b (redefined_loop D seen (number_from (List.length pre) l))).
  { intros pre l. revert pre. induction l as [|x l IH]; intros pre seen H; [exists []; split; constructor|].
    assert (Len : List.length (pre ++ [x]) = S (List.length pre)) by (rewrite app_length; cbn; lia).
    assert (At : nth_error (pre ++ x :: l) (List.length pre) = Some x) by (rewrite nth_error_app2, PeanoNat.Nat.sub_diag by lia; reflexivity).
    assert (Pre : forall n, (exists j y op', j < List.length pre /\ nth_error (pre ++ x :: l) j = Some y /\ assigns n op' y) <-> In n seen).
    { intro n. rewrite H. split.
      - intros (j & y & op' & L & N & A). rewrite nth_error_app1 in N by auto. exists y, op'. split; auto. eapply nth_error_In; eauto.
      - intros (y & op' & I & A). apply In_nth_error in I as (j & N). exists j, y, op'. assert (L : j < List.length pre) by (apply nth_error_Some; rewrite N; discriminate). split; auto. split; auto. rewrite nth_error_app1; auto. }
    assert (Step : forall seen', (forall n, In n seen' <-> exists y op, In y (pre ++ [x]) /\ assigns n op y) ->
      exists b, those (assigned_again ty (pre ++ x :: l)) (S (List.length pre)) l b /\ Forall2 assigned_variable b (redefined_loop D seen' (number_from (S (List.length pre)) l))).
    { intros seen' H'. specialize (IH (pre ++ [x]) seen' H'). rewrite Len, <- app_assoc in IH. exact IH. }
    cbn [number_from]. destruct (assign_case x) as [(n & op & i & A & V & En)|N].
    - assert (AA : forall n' op', assigns n' op' x -> n' = n /\ op' = op).
      { intros n' op' (? & ? & ? & ? & ? & -> & <-). destruct A as (? & ? & ? & ? & ? & E & <-). injection E as -> -> -> -> -> ->. auto. }
      destruct A as (c & i0 & q & br & v & Ex & En0). assert (A : assigns n op x) by (rewrite Ex, <- En0; do 5 eexists; split; reflexivity).
      assert (i0 = i) by (destruct V as (? & ? & ? & ? & ? & E); rewrite Ex in E; now injection E). subst i0.
      assert (Loop : forall s r, redefined_loop D s ((List.length pre, x) :: r) = if negb (mem_bytes n s) then redefined_loop D (n :: s) r
        else if beq op %"+=" && (is_one D TList [List.length pre; 0] || is_one D TList [List.length pre; 1]) then redefined_loop D s r else i :: redefined_loop D s r) by (intros; rewrite Ex, <- En; reflexivity).
      rewrite Loop. clear Loop.
      destruct (mem_bytes n seen) eqn:M; cbn [negb].
      + apply mem_bytes_In in M. destruct (Step seen) as (b & Tb & Fb).
        { intro n'. rewrite H. split; intros (y & op' & I & A'); [exists y, op'; rewrite in_app_iff; auto|]. apply in_app_iff in I as [I|[<-|[]]]; [eauto|]. apply AA in A' as [-> _]. now apply H. }
        destruct (beq op %"+=" && (is_one D TList [List.length pre; 0] || is_one D TList [List.length pre; 1])) eqn:L.
        * exists b. split; auto. apply th_no; auto. intros (n' & op' & A' & _ & K). apply AA in A' as [-> ->]. apply K. apply Bool.andb_true_iff in L as (L1 & L2). apply beq_eq in L1. split; auto. rewrite Bool.orb_true_iff, !one_spec, !Eq in L2. exact L2.
        * exists (x :: b). split; [apply th_yes; auto|constructor; auto]. exists n, op. split; auto. split; [now apply Pre|]. intros (-> & K). rewrite beq_refl in L. cbn [andb] in L. rewrite <- !Eq, <- !one_spec in K. apply Bool.orb_false_iff in L as [L1 L2]. destruct K as [K|K]; rewrite K in *; discriminate.
      + destruct (Step (n :: seen)) as (b & Tb & Fb).
        { intro n'. cbn [In]. rewrite H. split.
          - intros [<-|(y & op' & I & A')]; [exists x, op; split; auto; apply in_app_iff; right; now left|exists y, op'; rewrite in_app_iff; auto].
          - intros (y & op' & I & A'). apply in_app_iff in I as [I|[<-|[]]]; [eauto|]. left. apply AA in A' as [-> _]. reflexivity. }
        exists b. split; auto. apply th_no; auto. intros (n' & op' & A' & K & _). apply AA in A' as [-> ->]. apply Pre, mem_bytes_In in K. rewrite K in M. discriminate M.
    - destruct (Step seen) as (b & Tb & Fb).
      { intro n'. rewrite H. split; intros (y & op' & I & A'); [exists y, op'; rewrite in_app_iff; auto|]. apply in_app_iff in I as [I|[<-|[]]]; [eauto|]. now apply N in A'. }
      exists b. split; [apply th_no; auto; intros (n' & op' & A' & _); now apply N in A'|].
      cbn [redefined_loop]. destruct x; try exact Fb. match type of N with context [EAssign ?c ?x ?q ?op ?br ?v] => destruct x; try exact Fb end. exfalso. eapply N. do 5 eexists. split; reflexivity. }
  destruct (G [] (children f) []) as (b & Tb & Fb); [intro n; split; [intros []|intros (? & ? & [] & _)]|]. exists b. auto.
Qed.
Print Assumptions C101_redefined.
(** ** A file with all of them *)
Definition ex_typed : list bytes :=
  [%"x = {""a"": 1} + z"; %"n = (0x1F)"; %"n += 7 / n"; %""; %"def f(ctx, d, k = 3):"; %"    a = ctx.actions.args()"; %"    a.add(d, join_with = "","")"; %"    a.add(d, map_fn = k)"; %"    a.add(d)"; %"    e = depset(depset([1]))"; %"    if d in e:";
   %"        d = e + d"; %"    for c in ""abc"" % d:"; %"        x.get(c, default = k / 2.0)"; %"    e.union(d)"; %"    return [k for k in zip(d, str(d), e)]"; %""; %"l = [1]"; %"l += [2]"; %"x = 3"].
Definition at_starts (g : expr -> list expr) := checked (fun f => map start_of (g f)) ex_typed.
Example C100_nontrivial : checked (fun f => map (result (DetectTypes f)) [[0; 0]; [0; 1]; [0]; [1; 0]; [1; 1]; [1; 1; 0]; [2]; [2; 0]]) ex_typed = Some [None; Some TDict; None; None; Some TInt; Some TInt; None; Some TInt].
Proof. vm_compute. reflexivity. Qed.
Example C101_nontrivial :
  at_starts dictionaryConcatenationWarning = Some [(1, 5)]%Z /\ at_starts integerDivisionWarning = Some [(3, 6)]%Z /\ at_starts depsetUnionWarning = Some [(12, 13); (15, 5)]%Z /\ at_starts dictMethodNamedArgWarning = Some [(14, 18)]%Z /\
  at_starts stringIterationWarning = Some [(13, 14); (16, 31)]%Z /\ at_starts depsetIterationWarning = Some [(10, 16); (11, 13); (16, 28); (16, 39)]%Z /\ at_starts depsetItemsWarning = Some [(10, 16)]%Z /\
  checked (fun f => map (fun v => (start_of (fst v), snd v)) (contextArgsAPIWarning f)) ex_typed = Some [((7, 5), %"add_joined"); ((8, 5), %"add_all")]%Z /\
  checked (fun f => map (fun i => start_of (EIdent i)) (redefinedVariableWarning f)) ex_typed = Some [(3, 1); (20, 1)]%Z.
Proof. repeat split; vm_compute; reflexivity. Qed.
(** The default value of a parameter gives it its type, though a caller may pass something else. *)
Theorem C100_parameter_refuted : exists f, parse_file meta (lines [%"def f(x = 3):"; %"    return x / 2"]) = Some f /\ map start_of (integerDivisionWarning f) = [(2, 12)]%Z /\ exists i, node_at children f [0; 1; 0; 0] = Some (EIdent i) /\ parameter_at f [0; 1; 0; 0] (i_name i).
Proof.
  eexists. split; [vm_compute; reflexivity|]. split; [vm_compute; reflexivity|]. eexists. split; [vm_compute; reflexivity|]. apply parameter_spec; [vm_compute; discriminate|]. vm_compute. reflexivity.
Qed.
(** An assignment of a value without a type does not take the type of the last one away. *)
Theorem C100_reassigned_refuted : checked (fun f => map start_of (integerDivisionWarning f)) [%"x = 1"; %""; %"x = g()"; %""; %"y = x / 2"] = Some [(5, 5)]%Z.
Proof. vm_compute. reflexivity. Qed.
(** A number times a string is taken for a number, a string times a number for a string. *)
Theorem C100_product_refuted : checked (fun f => map start_of (stringIterationWarning f)) [%"[c for c in 2 * ""a""]"; %""; %"[c for c in ""a"" * 2]"] = Some [(3, 13)]%Z.
Proof. vm_compute. reflexivity. Qed.
(** Also where an operand has another type *)
Example C101_default_nontrivial : checked (fun f => map start_of (dictMethodNamedArgWarning f)) [%"x = {}.get(1, default = 2)"; %"y = {}.get(default = 2, key = 3)"; %"z = {} | y"; %"z.pop(1, default = 2)"] = Some [(1, 15); (2, 12); (4, 10)]%Z.
Proof. vm_compute. reflexivity. Qed.
