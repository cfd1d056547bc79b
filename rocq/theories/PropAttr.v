(** C85 (attr-cfg) and C86 (attr-non-empty, attr-single-file). *)
From Verif Require Import LRTables LRCert Parse PropComplete.
From Verif Require Import Base BaseProofs Ast ParseFile Walk WalkSpec WalkProofs WalkGen PropWalk MacroLink RuleSpec RuleProofs Print PropPrint AttrParams.
Local Open Scope list_scope.

(** ** What is asked for *)
(** attr.xxx(args), the first argument with this keyword, and its value *)
Definition attr_args (e : expr) (args : list expr) : Prop := exists c c' i p q n ls en k m, e = ECall c (EDot c' (EIdent i) p q n) ls args en k m /\ i_name i = %"attr".
Definition with_args (e : expr) (args : list expr) (e' : expr) : Prop := exists c x p l en k m, e = ECall c x p l en k m /\ e' = ECall c x p args en k m.
Inductive keyword (key : bytes) (e : expr) (pre : list expr) (x v : expr) (post : list expr) : Prop :=
  kw : attr_args e (pre ++ x :: post) -> no_attr key pre -> gives key x v -> keyword key e pre x v post.
(** the same argument with another value, or with another keyword and value *)
Definition revalued (v : expr) (x x' : expr) : Prop := exists c i p op b w, x = EAssign c (EIdent i) p op b w /\ x' = EAssign c (EIdent i) p op b v.
Definition rekeyed (key : bytes) (v : expr) (x x' : expr) : Prop :=
  exists c i p op b w, x = EAssign c (EIdent i) p op b w /\ x' = EAssign c (EIdent (Ident (i_com i) (i_pos i) key)) p op b v.
Definition cfg_is (e : expr) (value : bytes) (pre : list expr) (x : expr) (s : strlit) (post : list expr) : Prop := keyword %"cfg" e pre x (EStr s) post /\ s_value s = value.
Definition spelled (s : strlit) (v : bytes) : strlit := Str (s_com s) (s_start s) v (s_triple s) (s_end s) (s_token s).
(** cfg = "data" goes, cfg = "host" becomes cfg = "exec" *)
Definition cfg_repaired (_ : list expr) (e e' : expr) : Prop :=
  (forall pre x s post, cfg_is e %"data" pre x s post -> with_args e (pre ++ post) e') /\
  (forall pre x s post, cfg_is e %"host" pre x s post -> exists x', revalued (EStr (spelled s %"exec")) x x' /\ with_args e (pre ++ x' :: post) e') /\
  ((forall pre x s post, ~ cfg_is e %"data" pre x s post /\ ~ cfg_is e %"host" pre x s post) -> e' = e).
Definition bzl (f : expr) : Prop := exists c a b d l, f = EFile c (FMeta a b d TypeBzl) l.

(** ** Proofs *)
Lemma getParam_spec key l : match getParam l key with
  | Some (i, v) => exists pre x post, l = pre ++ x :: post /\ List.length pre = i /\ no_attr key pre /\ gives key x v
  | None => no_attr key l end.
Proof.
  induction l as [|a l IH]; cbn [getParam]; [intros x v []|].
  assert (Step : (forall w, ~ gives key a w) -> match option_map (fun r : nat * expr => (S (fst r), snd r)) (getParam l key) with
    | Some (i, v) => exists pre x post, a :: l = pre ++ x :: post /\ List.length pre = i /\ no_attr key pre /\ gives key x v
    | None => no_attr key (a :: l) end).
  { intro N. destruct (getParam l key) as [[i v]|]; cbn.
    - destruct IH as (pre & x & post & -> & <- & A & B). exists (a :: pre), x, post. split; auto. split; auto. split; auto. intros y w [<-|I]; auto.
    - intros y w [<-|I]; auto. }
  destruct a; try (apply Step; intros w (? & ? & ? & ? & ? & H & _); discriminate H). destruct a1; try (apply Step; intros w (? & ? & ? & ? & ? & H & _); discriminate H).
  destruct (beq (i_name i) key) eqn:E.
  - apply beq_eq in E. eexists [], _, l. split; [reflexivity|]. split; auto. split; [intros x w []|]. unfold gives. eauto 9.
  - apply beq_neq in E. apply Step. intros w (? & ? & ? & ? & ? & H & H'). injection H as <- <- <- <- <- <-. contradiction.
Qed.
Lemma remove_split {A} (pre : list A) x post : remove_at (List.length pre) (pre ++ x :: post) = pre ++ post.
Proof. unfold remove_at. rewrite firstn_app, firstn_all, Nat.sub_diag. cbn [firstn]. rewrite app_nil_r. f_equal. induction pre; auto. Qed.
Lemma update_split {A} (pre : list A) x post f : update_at (List.length pre) f (pre ++ x :: post) = pre ++ f x :: post.
Proof. unfold update_at. rewrite firstn_app, firstn_all, Nat.sub_diag. cbn [firstn]. rewrite app_nil_r. f_equal. induction pre; auto. Qed.
Lemma first_split key pre x v post pre' x' v' post' : pre ++ x :: post = pre' ++ x' :: post' -> no_attr key pre -> no_attr key pre' -> gives key x v -> gives key x' v' -> pre = pre' /\ x = x' /\ v = v' /\ post = post'.
Proof.
  revert pre'. induction pre as [|a pre IH]; intros [|a' pre'] E N N' G G'; cbn in E.
  - injection E as E1 E2. subst x' post'. destruct G as (? & ? & ? & ? & ? & E1 & _), G' as (? & ? & ? & ? & ? & E2 & _). rewrite E1 in E2. injection E2. auto.
  - injection E as E1 E2. subst a'. elim (N' _ _ (or_introl eq_refl) G).
  - injection E as E1 E2. subst a. elim (N _ _ (or_introl eq_refl) G').
  - injection E as E1 E. subst a'. destruct (IH pre' E) as (-> & H); auto; [intros y w I; apply N; right; auto|intros y w I; apply N'; right; auto].
Qed.
Lemma is_attr_spec x : is_attr x = true <-> exists c' i p q n, x = EDot c' (EIdent i) p q n /\ i_name i = %"attr".
Proof.
  split.
  - destruct x; try discriminate. destruct x; try discriminate. cbn. intro H. apply beq_eq in H. eauto 9.
  - intros (c' & i & p & q & n & -> & H). cbn. rewrite H. reflexivity.
Qed.
Lemma attr_args_spec c x p l en k m l' : attr_args (ECall c x p l en k m) l' <-> l' = l /\ is_attr x = true.
Proof.
  rewrite is_attr_spec. unfold attr_args. split.
  - intros (c1 & c' & i & p1 & q & n & ls & en1 & k1 & m1 & E & H). injection E as <- -> <- <- <- <- <-. split; auto. eauto 9.
  - intros (-> & c' & i & p1 & q & n & -> & H). eauto 15.
Qed.
Lemma keyword_unique key e pre x v post pre' x' v' post' : keyword key e pre x v post -> keyword key e pre' x' v' post' -> pre = pre' /\ x = x' /\ v = v' /\ post = post'.
Proof.
  intros [A N G] [A' N' G']. destruct A as (c & c' & i & p & q & n & ls & en & k & m & -> & H). apply attr_args_spec in A' as [E _]. eapply first_split; eauto.
Qed.
Lemma cfg_found_spec e : match cfg_found e with
  | Some (i, s, Data) => exists pre x post, cfg_is e %"data" pre x s post /\ List.length pre = i
  | Some (i, s, Host) => exists pre x post, cfg_is e %"host" pre x s post /\ List.length pre = i
  | None => forall pre x s post, ~ cfg_is e %"data" pre x s post /\ ~ cfg_is e %"host" pre x s post end.
Proof.
  assert (No : (forall pre x s post, keyword %"cfg" e pre x (EStr s) post -> s_value s <> %"data" /\ s_value s <> %"host") -> forall pre x s post, ~ cfg_is e %"data" pre x s post /\ ~ cfg_is e %"host" pre x s post).
  { intros H pre x s post. split; intros [K V]; apply H in K; tauto. }
  destruct e; cbn [cfg_found]; try (apply No; intros ? ? ? ? [(? & ? & ? & ? & ? & ? & ? & ? & ? & ? & E & _) _ _]; discriminate E).
  destruct (is_attr e) eqn:A; [|apply No; intros pre x s post [H _ _]; apply attr_args_spec in H as [_ H]; congruence].
  pose proof (getParam_spec %"cfg" args) as G. destruct (getParam args %"cfg") as [[i v]|]; [|apply No; intros pre x s post [H _ H']; apply attr_args_spec in H as [<- _]; elim (G x _ (in_elt _ _ _) H')].
  destruct G as (pre & x & post & E & L & N & G). assert (K : keyword %"cfg" (ECall c e lstart args e0 compact multi) pre x v post) by (constructor; auto; apply attr_args_spec; auto).
  destruct v; try (apply No; intros pre' x' s' post' K'; destruct (keyword_unique _ _ _ _ _ _ _ _ _ _ K K') as (_ & _ & V & _); discriminate V).
  destruct (beq (s_value s) %"data") eqn:D; [apply beq_eq in D; exists pre, x, post; split; [split; auto|auto]|]. destruct (beq (s_value s) %"host") eqn:Ho; [apply beq_eq in Ho; exists pre, x, post; split; [split; auto|auto]|].
  apply No. intros pre' x' s' post' K'. destruct (keyword_unique _ _ _ _ _ _ _ _ _ _ K K') as (_ & _ & V & _). injection V as <-. apply beq_neq in D, Ho. auto.
Qed.
Lemma set_value_spec key x w v : gives key x w -> revalued v x (set_value v x).
Proof. intros (c & i & p & op & b & -> & _). exists c, i, p, op, b, w. auto. Qed.
Lemma rekey_spec key key' x w v : gives key x w -> rekeyed key' v x (set_value v (set_keyword key' x)).
Proof. intros (c & i & p & op & b & -> & _). exists c, i, p, op, b, w. auto. Qed.
Lemma cfg_is_call e v pre x s post : cfg_is e v pre x s post -> exists c f p en k m, e = ECall c f p (pre ++ x :: post) en k m.
Proof. intros [[(c & c' & i & p & q & n & ls & en & k & m & -> & _) _ _] _]. eauto 9. Qed.
Lemma cfg_value_unique e v v' pre x s post pre' x' s' post' : cfg_is e v pre x s post -> cfg_is e v' pre' x' s' post' -> v = v' /\ pre = pre' /\ x = x' /\ s = s' /\ post = post'.
Proof. intros [K V] [K' V']. destruct (keyword_unique _ _ _ _ _ _ _ _ _ _ K K') as (A & B & C & D). injection C as C. subst. auto. Qed.
Lemma cfg_fix_spec stk e : cfg_repaired stk e (cfg_fix stk e).
Proof.
  pose proof (cfg_found_spec e) as F. unfold cfg_fix. destruct (cfg_found e) as [[[i s] []]|] eqn:E.
  - destruct F as (pre & x & post & F & L). destruct (cfg_is_call _ _ _ _ _ _ F) as (c & f & p & en & k & m & Ee). subst e i. cbv beta iota. rewrite E. rewrite remove_split. split; [|split].
    + intros pre' x' s' post' F'. destruct (cfg_value_unique _ _ _ _ _ _ _ _ _ _ _ F F') as (_ & -> & -> & -> & ->). exists c, f, p, (pre' ++ x' :: post'), en, k, m. auto.
    + intros pre' x' s' post' F'. destruct (cfg_value_unique _ _ _ _ _ _ _ _ _ _ _ F F') as (X & _). discriminate X.
    + intro N. elim (proj1 (N _ _ _ _) F).
  - destruct F as (pre & x & post & F & L). destruct (cfg_is_call _ _ _ _ _ _ F) as (c & f & p & en & k & m & Ee). subst e i. cbv beta iota. rewrite E. rewrite update_split. split; [|split].
    + intros pre' x' s' post' F'. destruct (cfg_value_unique _ _ _ _ _ _ _ _ _ _ _ F F') as (X & _). discriminate X.
    + intros pre' x' s' post' F'. destruct (cfg_value_unique _ _ _ _ _ _ _ _ _ _ _ F F') as (_ & -> & -> & -> & ->). eexists. split; [|exists c, f, p, (pre' ++ x' :: post'), en, k, m; split; reflexivity]. destruct F' as [[_ _ G] _]. eapply set_value_spec; eauto.
    + intro N. elim (proj2 (N _ _ _ _) F).
  - split; [|split].
    + intros pre x s post H. elim (proj1 (F pre x s post) H).
    + intros pre x s post H. elim (proj2 (F pre x s post) H).
    + intros _. destruct e; auto. rewrite E. auto.
Qed.
Lemma height_call c x p l en k m : height (ECall c x p l en k m) = S (Nat.max (height x) (list_max (map height l))).
Proof. rewrite height_unfold. unfold children, fold_children; cbn [fold_children2]; rewrite map_id; reflexivity. Qed.
Lemma height_assign c x p op b y : height (EAssign c x p op b y) = S (Nat.max (height x) (height y)).
Proof. rewrite height_unfold. cbn. rewrite Nat.max_0_r. reflexivity. Qed.
Lemma list_max_part {A} (f : A -> nat) pre x x' post : f x' <= f x -> list_max (map f (pre ++ x' :: post)) <= list_max (map f (pre ++ x :: post)).
Proof. intro H. rewrite !map_app. cbn [map]. rewrite !list_max_app. unfold list_max at 2 4. cbn [fold_right]. lia. Qed.
Lemma list_max_less {A} (f : A -> nat) pre x post : list_max (map f (pre ++ post)) <= list_max (map f (pre ++ x :: post)).
Proof. rewrite !map_app. cbn [map]. rewrite !list_max_app. unfold list_max at 2 4. cbn [fold_right]. lia. Qed.
Lemma cfg_fix_height stk e : height (cfg_fix stk e) <= height e.
Proof.
  pose proof (cfg_found_spec e) as F. unfold cfg_fix. destruct (cfg_found e) as [[[i s] []]|] eqn:E; [| |destruct e; auto; rewrite E; auto].
  - destruct F as (pre & x & post & F & L). destruct (cfg_is_call _ _ _ _ _ _ F) as (c & f & p & en & k & m & ->). subst i. rewrite E, remove_split, !height_call. pose proof (list_max_less height pre x post). lia.
  - destruct F as (pre & x & post & F & L). destruct (cfg_is_call _ _ _ _ _ _ F) as (c & f & p & en & k & m & ->). subst i. rewrite E, update_split, !height_call.
    destruct F as [[_ _ (c1 & i & p1 & op & b & -> & _)] _]. cbn [set_value]. match goal with |- S (Nat.max _ (list_max (map height (pre ++ ?u :: post)))) <= _ => pose proof (list_max_part height pre (EAssign c1 (EIdent i) p1 op b (EStr s)) u post) as M end.
    rewrite !height_assign in M. assert (height (EStr (spelled s %"exec")) = height (EStr s)) by reflexivity. unfold spelled in *. lia.
Qed.
Lemma not_call_kind (cb : list expr -> expr -> expr) : (forall stk e, (forall c x p l en k m, e <> ECall c x p l en k m) -> cb stk e = e) -> cb_kind cb.
Proof. intro H. split; intros; eexists; apply H; discriminate. Qed.
(** Every definition with cfg = "data" or "host" is repaired, and nothing else is changed. *)
Theorem C85_fix : forall f, bzl f -> walked cfg_repaired [] f (attrConfigurationFix f).
Proof.
  intros f (c & a & b & d & l & ->). apply (Edit_walked cfg_fix); [intros; apply cfg_fix_height| |intros; apply cfg_fix_spec].
  apply not_call_kind. intros stk e N. destruct e; auto. elim (N c0 e lstart args e0 compact multi eq_refl).
Qed.
(** Exactly these are reported. *)
Theorem C85_findings : forall f e, bzl f ->
  (In e (attrConfigurationFindings f) <-> (exists path, node_at children f path = Some e) /\ exists pre x s post, cfg_is e %"data" pre x s post \/ cfg_is e %"host" pre x s post).
Proof.
  intros f e (c & a & b & d & l & ->). unfold attrConfigurationFindings. rewrite filter_In, walked_node. pose proof (cfg_found_spec e) as F. split; intros [H1 H2]; (split; [exact H1|]).
  - destruct (cfg_found e) as [[[i s] []]|]; [destruct F as (pre & x & post & F & _); eauto 9|destruct F as (pre & x & post & F & _); eauto 9|discriminate H2].
  - destruct H2 as (pre & x & s & post & H2). destruct (cfg_found e) as [[[i s'] []]|]; auto. destruct (F pre x s post). tauto.
Qed.
(** Looking for them leaves the file alone if cfg = "data" is always the last argument. *)
Theorem C85_lint_only_partial : forall f,
  (forall path e pre x s post, node_at children f path = Some e -> cfg_is e %"data" pre x s post -> post = []) -> attrConfigurationWalk f = f.
Proof.
  intros f H. unfold attrConfigurationWalk. assert (G : Edit cfg_walk f = f).
  { apply (Edit_id cfg_walk) with (P := fun _ e => forall path e' pre x s post, node_at children e path = Some e' -> cfg_is e' %"data" pre x s post -> post = []); [| |exact H].
    - intros stk e. pose proof (cfg_found_spec e) as F. unfold cfg_walk. destruct (cfg_found e) as [[[i s] []]|] eqn:E; [|destruct e; auto; rewrite E; auto|destruct e; auto; rewrite E; auto].
      destruct F as (pre & x & post & F & L). destruct (cfg_is_call _ _ _ _ _ _ F) as (c & f0 & p & en & k & m & ->). subst i. rewrite E. unfold shift_at. rewrite remove_split, !height_call, !map_app, list_max_app. cbn [map].
      assert (M : list_max (map height (skipn (List.length (pre ++ x :: post) - 1) (pre ++ x :: post))) <= list_max (map height (pre ++ x :: post))).
      { rewrite <- (firstn_skipn (List.length (pre ++ x :: post) - 1) (pre ++ x :: post)) at 3. rewrite map_app, list_max_app. lia. }
      pose proof (list_max_less height pre x post) as M'. rewrite !map_app in M'. cbn [map] in M'. rewrite !map_app in M. cbn [map] in M. lia.
    - intros stk e Hp. split.
      + pose proof (cfg_found_spec e) as F. unfold cfg_walk. destruct (cfg_found e) as [[[i s] []]|] eqn:E; [|destruct e; auto; rewrite E; auto|destruct e; auto; rewrite E; auto].
        destruct F as (pre & x & post & F & L). pose proof (Hp [] e pre x s post eq_refl F) as ->. destruct (cfg_is_call _ _ _ _ _ _ F) as (c & f0 & p & en & k & m & ->). subst i. rewrite E. unfold shift_at. rewrite remove_split, app_nil_r. f_equal.
        rewrite app_length. cbn [List.length]. rewrite Nat.add_sub, skipn_app, skipn_all, Nat.sub_diag. reflexivity.
      + intros x I path e' pre y s post N. apply In_nth_error in I as [i I]. apply (Hp (i :: path)). cbn [node_at]. rewrite I. exact N. }
  unfold in_bzl. destruct f; auto. destruct m as [? ? ? []]; auto.
Qed.
(** Otherwise the last argument is doubled, in the file that is then printed, although nothing is to be fixed. *)
Definition linted (data : bytes) : option bytes := match parse_file meta data with Some f => FormatWithoutRewriting (attrConfigurationWalk f) | None => None end.
Theorem C85_lint_only_refuted :
  linted (lines [%"a = attr.label(cfg = ""data"", mandatory = True)"]) = Some (lines [%"a = attr.label(mandatory = True, mandatory = True)"]).
Proof. vm_compute. reflexivity. Qed.
Definition fixed (fix_ : expr -> expr) (data : bytes) : option bytes := match parse_file meta data with Some f => FormatWithoutRewriting (fix_ f) | None => None end.
Example C85_nontrivial :
  fixed attrConfigurationFix (lines [%"a = {""x"": attr.label(cfg = ""data"", mandatory = True), ""y"": attr.label(doc = """", cfg = ""host"", values = [1])}"; %"b = x.label(cfg = ""host"")"]) =
  Some (lines [%"a = {""x"": attr.label(mandatory = True), ""y"": attr.label(doc = """", cfg = ""exec"", values = [1])}"; %"b = x.label(cfg = ""host"")"]).
Proof. vm_compute. reflexivity. Qed.

(** ** C86 *)
(** A reading of boolean expressions. *)
Record truth (ev : expr -> bool) : Prop := {
  ev_paren : forall c p x en m, ev (EParen c p x en m) = ev x;
  ev_not : forall c p x, ev (EUnary c p %"not" (Some x)) = negb (ev x);
  ev_true : forall c p, ev (EIdent (Ident c p %"True")) = true;
  ev_false : forall c p, ev (EIdent (Ident c p %"False")) = false }.
(** Inside its parentheses, the expression is not a variable. *)
Fixpoint no_variable (e : expr) : Prop :=
  match e with EParen _ _ x _ _ => no_variable x | EIdent i => i_name i = %"True" \/ i_name i = %"False" | _ => True end.
Definition non_empty_repaired (e e' : expr) : Prop :=
  (forall pre x v post, keyword %"non_empty" e pre x v post -> exists x' w, rekeyed %"allow_empty" w x x' /\ with_args e (pre ++ x' :: post) e' /\
     (no_variable v -> forall ev, truth ev -> ev w = negb (ev v))) /\
  ((forall pre x v post, ~ keyword %"non_empty" e pre x v post) -> e' = e).
(** The same everywhere in a tree, from the leaves up. *)
Inductive everywhere (R : expr -> expr -> Prop) : expr -> expr -> Prop :=
  | ev_node e e1 e' : shell e = shell e1 -> Forall2 (everywhere R) (children e) (children e1) -> R e1 e' -> everywhere R e e'.
(** single_file = False goes; otherwise it becomes allow_single_file with the value of allow_files, which goes, or with its own *)
Definition single_file_repaired (e e' : expr) : Prop :=
  (forall pre x v post, keyword %"single_file" e pre x v post ->
     (is_false v = true -> with_args e (pre ++ post) e') /\
     (is_false v = false -> forall pre' y w post', keyword %"allow_files" e pre' y w post' ->
        exists x' l, rekeyed %"allow_single_file" w x x' /\ with_args e l e' /\
          ((exists mid, pre' = pre ++ x :: mid /\ l = pre ++ x' :: mid ++ post') \/ (exists mid, pre = pre' ++ y :: mid /\ l = pre' ++ mid ++ x' :: post))) /\
     (is_false v = false -> (forall pre' y w post', ~ keyword %"allow_files" e pre' y w post') -> exists x', rekeyed %"allow_single_file" v x x' /\ with_args e (pre ++ x' :: post) e')) /\
  ((forall pre x v post, ~ keyword %"single_file" e pre x v post) -> e' = e).
Lemma negate_spec v ev : truth ev -> no_variable v -> ev (negateExpression v) = negb (ev v).
Proof.
  intro T. induction v; cbn [no_variable negateExpression]; intro N; try (apply (ev_not _ T)).
  - destruct i as [c p n]. cbn [i_name i_com i_pos] in *. destruct N as [-> | ->]; cbn [beq]; [rewrite (ev_true _ T)|rewrite (ev_false _ T)]; [apply (ev_false _ T)|apply (ev_true _ T)].
  - destruct x as [x|]; [|apply (ev_not _ T)]. destruct (beq op %"not") eqn:E; [|apply (ev_not _ T)]. apply beq_eq in E. subst op. rewrite (ev_not _ T). symmetry. apply negb_involutive.
  - rewrite !(ev_paren _ T). auto.
Qed.
Lemma keyword_found key c x p l en k m : is_attr x = true ->
  match getParam l key with
  | Some (i, v) => exists pre y post, keyword key (ECall c x p l en k m) pre y v post /\ l = pre ++ y :: post /\ List.length pre = i
  | None => forall pre y v post, ~ keyword key (ECall c x p l en k m) pre y v post end.
Proof.
  intro A. pose proof (getParam_spec key l) as G. destruct (getParam l key) as [[i v]|].
  - destruct G as (pre & y & post & E & L & N & G). exists pre, y, post. split; auto. constructor; auto. apply attr_args_spec. auto.
  - intros pre y v post [H _ H']. apply attr_args_spec in H as [<- _]. elim (G y _ (in_elt _ _ _) H').
Qed.
Lemma keyword_attr key c x p l en k m pre y v post : keyword key (ECall c x p l en k m) pre y v post -> is_attr x = true.
Proof. intros [H _ _]. now apply attr_args_spec in H. Qed.
Lemma no_call_no_keyword key e pre y v post : (forall c x p l en k m, e <> ECall c x p l en k m) -> ~ keyword key e pre y v post.
Proof. intros N [(c & c' & i & p & q & n & ls & en & k & m & H & _) _ _]. elim (N _ _ _ _ _ _ _ H). Qed.
Lemma non_empty_spec e : non_empty_repaired e (non_empty_fix e).
Proof.
  destruct e; try (split; [intros ? ? ? ? H; exfalso; revert H; apply no_call_no_keyword; discriminate|reflexivity]). cbn [non_empty_fix].
  destruct (is_attr e) eqn:A; [|split; [intros pre y v post H; apply keyword_attr in H; congruence|auto]].
  pose proof (keyword_found %"non_empty" c e lstart args e0 compact multi A) as K. destruct (getParam args %"non_empty") as [[i v]|]; [|split; [intros pre y v post H; elim (K _ _ _ _ H)|auto]].
  destruct K as (pre & y & post & K & -> & <-). rewrite update_split. split; [|intro N; elim (N _ _ _ _ K)]. intros pre' y' v' post' K'. destruct (keyword_unique _ _ _ _ _ _ _ _ _ _ K K') as (-> & -> & -> & ->).
  eexists _, (negateExpression v'). split; [destruct K' as [_ _ G]; eapply rekey_spec; eauto|]. split; [eexists _, _, _, _, _, _, _; split; reflexivity|]. intros NV ev T. apply negate_spec; auto.
Qed.
Lemma two_places {A} (pre : list A) x post pre' y post' : pre ++ x :: post = pre' ++ y :: post' -> x <> y ->
  (exists mid, pre' = pre ++ x :: mid /\ post = mid ++ y :: post') \/ (exists mid, pre = pre' ++ y :: mid /\ post' = mid ++ x :: post).
Proof.
  revert pre'. induction pre as [|a pre IH]; intros [|a' pre'] E N; cbn in E.
  - injection E as E1 E2. contradiction.
  - injection E as E1 E2. subst a'. left. exists pre'. auto.
  - injection E as E1 E2. subst a. right. exists pre. auto.
  - injection E as E1 E2. subst a'. destruct (IH pre' E2 N) as [(mid & -> & ->)|(mid & -> & ->)]; [left|right]; exists mid; auto.
Qed.
Lemma keys_differ key key' x v w : gives key x v -> gives key' x w -> key = key'.
Proof. intros (c & i & p & op & b & -> & <-) (c' & i' & p' & op' & b' & E & <-). injection E as _ <- _ _ _ _. auto. Qed.
Lemma single_file_spec e : single_file_repaired e (single_file_fix e).
Proof.
  destruct e; try (split; [intros ? ? ? ? H; exfalso; revert H; apply no_call_no_keyword; discriminate|reflexivity]). cbn [single_file_fix].
  destruct (is_attr e) eqn:A; [|split; [intros pre y v post H; apply keyword_attr in H; congruence|auto]].
  pose proof (keyword_found %"single_file" c e lstart args e0 compact multi A) as K. destruct (getParam args %"single_file") as [[i v]|]; [|split; [intros pre y v post H; elim (K _ _ _ _ H)|auto]].
  destruct K as (pre & y & post & K & El & <-). split; [|intro N; elim (N _ _ _ _ K)]. intros pre' y' v' post' K'. destruct (keyword_unique _ _ _ _ _ _ _ _ _ _ K K') as (<- & <- & <- & <-). clear K'. cbv zeta.
  pose proof (keyword_found %"allow_files" c e lstart args e0 compact multi A) as K2. assert (G : gives %"single_file" y v) by (destruct K; auto).
  split; [|split].
  - intros ->. rewrite El at 2. rewrite remove_split. eexists _, _, _, _, _, _, _. split; reflexivity.
  - intros -> pre' y' w post' K'. destruct (getParam args %"allow_files") as [[j w']|]; [|elim (K2 _ _ _ _ K')].
    destruct K2 as (pre2 & y2 & post2 & K2 & El2 & <-). destruct (keyword_unique _ _ _ _ _ _ _ _ _ _ K2 K') as (-> & -> & -> & ->). assert (G2 : gives %"allow_files" y' w) by (destruct K'; auto).
    assert (Ny : y <> y') by (intros ->; pose proof (keys_differ _ _ _ _ _ G G2) as X; discriminate X).
    eexists (set_value w (set_keyword %"allow_single_file" y)), _. split; [eapply rekey_spec; eauto|]. split; [eexists _, _, _, _, _, _, _; split; reflexivity|].
    rewrite El in El2. rewrite El. rewrite update_split. destruct (two_places _ _ _ _ _ _ El2 Ny) as [(mid & -> & ->)|(mid & -> & ->)]; [left|right]; exists mid; (split; [reflexivity|]).
    + assert (Len : List.length (pre ++ y :: mid) = List.length (pre ++ set_value w (set_keyword %"allow_single_file" y) :: mid)) by (rewrite !app_length; reflexivity). rewrite Len.
      rewrite (app_comm_cons mid), (app_assoc pre). rewrite remove_split. rewrite <- app_assoc. reflexivity.
    + rewrite <- app_assoc. cbn [app]. rewrite remove_split. reflexivity.
  - intros -> N. destruct (getParam args %"allow_files") as [[j w']|]; [destruct K2 as (pre2 & y2 & post2 & K2 & _); elim (N _ _ _ _ K2)|].
    eexists (set_value v (set_keyword %"allow_single_file" y)). split; [eapply rekey_spec; eauto|]. rewrite El at 2. rewrite update_split. eexists _, _, _, _, _, _, _. split; reflexivity.
Qed.
Lemma rebuild_fuel node e : forall n, height e <= n -> rebuild_from n node e = rebuild node e.
Proof.
  induction e as [e IH] using expr_children_ind. intros n L. unfold rebuild. pose proof (height_unfold e) as Hh. destruct n as [|n]; [lia|]. destruct (height e) as [|h] eqn:Eh; [lia|]. cbn [rebuild_from]. f_equal. apply map_children_ext.
  intros c I. pose proof (height_child e c I). rewrite !IH; auto; lia.
Qed.
Lemma rebuild_unfold node e : rebuild node e = node (map_children (rebuild node) e).
Proof.
  unfold rebuild at 1. pose proof (height_unfold e) as Hh. destruct (height e) as [|h] eqn:Eh; [lia|]. cbn [rebuild_from]. f_equal. apply map_children_ext. intros c I. apply rebuild_fuel. apply height_child in I. lia.
Qed.
Lemma rebuild_everywhere node (R : expr -> expr -> Prop) : (forall s, node (EStr s) = EStr s) -> (forall i, node (EIdent i) = EIdent i) -> (forall e, R e (node e)) -> forall e, everywhere R e (rebuild node e).
Proof.
  intros N1 N2 H e. induction e as [e IH] using expr_children_ind. rewrite rebuild_unfold. econstructor; [| |apply H].
  - symmetry. apply shell_map_children.
  - rewrite children_map_children; [|split; intros; eexists; rewrite rebuild_unfold; [apply N1|apply N2]]. revert IH. generalize (children e) as l. induction l as [|x l IHl]; intro IH; constructor; [apply IH; left; auto|apply IHl; intros; apply IH; right; auto].
Qed.
(** Every non_empty becomes an allow_empty with the opposite value, unless the value is a variable. *)
Theorem C86_non_empty_partial : forall f, bzl f -> everywhere non_empty_repaired f (attrNonEmptyFix f).
Proof. intros f (c & a & b & d & l & ->). apply (rebuild_everywhere non_empty_fix); auto. intro. apply non_empty_spec. Qed.
Theorem C86_single_file : forall f, bzl f -> everywhere single_file_repaired f (attrSingleFileFix f).
Proof. intros f (c & a & b & d & l & ->). apply (rebuild_everywhere single_file_fix); auto. intro. apply single_file_spec. Qed.
(** A variable becomes True, whatever its value. *)
Theorem C86_variable_refuted : fixed attrNonEmptyFix (lines [%"a = attr.label_list(non_empty = x)"]) = Some (lines [%"a = attr.label_list(allow_empty = True)"]).
Proof. vm_compute. reflexivity. Qed.
(** A variable single_file is forgotten. *)
Theorem C86_single_file_refuted : fixed attrSingleFileFix (lines [%"a = attr.label(single_file = x, allow_files = y)"]) = Some (lines [%"a = attr.label(allow_single_file = y)"]).
Proof. vm_compute. reflexivity. Qed.
Example C86_nontrivial :
  fixed attrNonEmptyFix (lines [%"a = attr.label_list(doc = """", non_empty = (False), m = 1), attr.label_list(non_empty = not x), attr.label_list(non_empty = x and y)"]) =
  Some (lines [%"a = attr.label_list(doc = """", allow_empty = (True), m = 1), attr.label_list(allow_empty = x), attr.label_list(allow_empty = not (x and y))"]) /\
  fixed attrSingleFileFix (lines [%"a = [attr.label(allow_files = [1], m = 2, single_file = True), attr.label(single_file = False, allow_files = 1), attr.label(single_file = 1)]"]) =
  Some (lines [%"a = [attr.label(m = 2, allow_single_file = [1]), attr.label(allow_files = 1), attr.label(allow_single_file = 1)]"]).
Proof. vm_compute. split; reflexivity. Qed.
Print Assumptions C85_fix. Print Assumptions C85_findings. Print Assumptions C85_lint_only_partial. Print Assumptions C85_lint_only_refuted.
Print Assumptions C86_non_empty_partial. Print Assumptions C86_single_file. Print Assumptions C86_variable_refuted. Print Assumptions C86_single_file_refuted.
