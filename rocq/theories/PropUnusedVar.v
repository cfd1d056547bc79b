(** C103: unused variables and functions. *)
From Verif Require Import LRTables LRCert Parse PropComplete.
From Verif Require Import Base BaseProofs Ast ParseFile Walk WalkSpec WalkProofs WalkGen PropWalk Print PropPrint CallSpec CallProofs AttrParams PropAttr Scope Lint Flow CallLints PropCallLints PropApiLints Docstring PropDocstring StmtLints PropStmtLints UnusedVar.
Local Open Scope list_scope.

(** ** What is asked for *)
(** The statements below a statement, in order, without those in functions *)
Inductive listed : expr -> list expr -> Prop :=
  | li_def d : a_def d -> listed d [d]
  | li_other e ls : ~ a_def e -> Forall2 listed (blocks e) ls -> listed e (e :: List.concat ls).
(** The statements of a file or function itself *)
Definition own (r : expr) (l : list expr) : Prop := exists ls, Forall2 listed (blocks r) ls /\ l = List.concat ls.
Definition starts_ (n : bytes) : Prop := exists s, n = "_"%char :: s.
Definition binds_name (e : expr) (n : bytes) : Prop := exists ids i, binds e ids /\ In i ids /\ i_name i = n.
(** The loop variables of a comprehension and the (plain) parameters of a lambda hide other variables. *)
Definition hides (n : bytes) (e : expr) : Prop :=
  (exists c cu p b cl m en c' q v pin x, e = EComp c cu p b cl m en /\ In (EForC c' q v pin x) cl /\ binds_name v n) \/ (exists c q ps b p, e = ELambda c q ps b /\ In p ps /\ binds_name p n).
Definition special (e : expr) : Prop :=
  (exists i, e = EIdent i) \/ (exists l, sequence e l) \/ (exists c x q op br y, e = EAssign c x q op br y) \/ (exists c p v x b, e = EFor c p v x b) \/ (exists c p x t q f, e = EIf c p x t q f).
(** The name is used in the expression; [true]: the expression is assigned to. *)
Inductive uses (n : bytes) : bool -> expr -> Prop :=
  | us_name i : i_name i = n -> uses n false (EIdent i)
  | us_item t e l x : sequence e l -> In x l -> uses n t x -> uses n t e
  | us_keyword t c x q op br y : uses n false y -> uses n t (EAssign c x q op br y)
  | us_target t c p v x b : uses n true v -> uses n t (EFor c p v x b)
  | us_over t c p v x b : uses n false x -> uses n t (EFor c p v x b)
  | us_cond t c p x tr q f : uses n false x -> uses n t (EIf c p x tr q f)
  | us_part t e x : ~ special e -> In x (children e) -> uses n false x -> ~ hides n e -> uses n t e.
Definition stmt_uses (n : bytes) (s : expr) : Prop :=
  (exists c x q op br y, s = EAssign c x q op br y /\ (uses n true x \/ uses n false y)) \/ ((forall c x q op br y, s <> EAssign c x q op br y) /\ uses n false s).
(** The identifiers that a statement assigns *)
Definition targets (s : expr) (ids : list ident) : Prop := (exists c x q op br y, s = EAssign c x q op br y /\ binds x ids) \/ (exists c p v x b, s = EFor c p v x b /\ binds v ids).
Definition assigns_to (s : expr) (n : bytes) : Prop := exists ids i, targets s ids /\ In i ids /\ i_name i = n.
(** It need not be used: by a comment, or as one of several targets that do not all begin with _, or as the variable of a loop *)
Definition spared (s : expr) (ids : list ident) (i : ident) : Prop :=
  (exists c x q op br y, s = EAssign c x q op br y /\ (marked %"@unused" s \/ (starts_ (i_name i) /\ exists j, In j ids /\ ~ starts_ (i_name j)))) \/
  (exists c p v x b, s = EFor c p v x b /\ starts_ (i_name i)).
Inductive param_is : expr -> ident -> Prop :=
  | pi_name i : param_is (EIdent i) i
  | pi_typed c i t : param_is (ETyped c i t) i
  | pi_default c x q op b v i : param_is x i -> param_is (EAssign c x q op b v) i
  | pi_star c q op x i : param_is x i -> param_is (EUnary c q op (Some x)) i.
Definition has_params (r : expr) (ps : list expr) : Prop := (exists c p b n k co m t, r = EDef c p ps b n k co m t) \/ (~ a_def r /\ ps = []).
Definition last_param (r : expr) (n : bytes) (i : ident) : Prop :=
  exists ps pre p post, has_params r ps /\ ps = pre ++ p :: post /\ param_is p i /\ i_name i = n /\ forall p' j, In p' post -> param_is p' j -> i_name j <> n.
Definition param_called (r : expr) (n : bytes) (p : expr) : Prop := exists ps i, has_params r ps /\ In p ps /\ param_is p i /\ i_name i = n.
(** [i] is what the first statement [s] that assigns the name, which is no parameter, assigns to. *)
Definition first_target (r : expr) (n : bytes) (s : expr) (ids : list ident) (i : ident) : Prop :=
  (forall p, ~ param_called r n p) /\ exists l pre post before after, own r l /\ l = pre ++ s :: post /\ (forall x, In x pre -> ~ assigns_to x n) /\ targets s ids /\ ids = before ++ i :: after /\ i_name i = n /\ forall j, In j before -> i_name j <> n.
Definition variable (r : expr) (n : bytes) (i : ident) : Prop := last_param r n i \/ exists s ids, first_target r n s ids i.
Definition def_called (n : bytes) (d : expr) : Prop := exists c p ps b k co m t, d = EDef c p ps b n k co m t.
Definition local_function (r : expr) (n : bytes) (d : expr) : Prop := exists l pre post, own r l /\ l = pre ++ d :: post /\ def_called n d /\ forall x, In x pre -> ~ def_called n x.
Definition local (r : expr) (n : bytes) : Prop := (exists i, variable r n i) \/ (exists d, local_function r n d).
Definition excused (r : expr) (n : bytes) : Prop :=
  (exists p, param_called r n p /\ (n = %"name" \/ starts_ n \/ marked %"@unused" p)) \/ (exists l d, own r l /\ In d l /\ def_called n d /\ marked %"@unused" d) \/
  (exists s ids i, first_target r n s ids i /\ spared s ids i).
(** Used in the file or function, or from it in an inner function *)
Inductive used_by : expr -> bytes -> Prop :=
  | ub_default r ps c x q op br y n : has_params r ps -> In (EAssign c x q op br y) ps -> stmt_uses n y -> used_by r n
  | ub_stmt r l s n : own r l -> In s l -> ~ a_def s -> (forall c p m fr to rp k, s <> ELoad c p m fr to rp k) -> (forall c m st, s <> EFile c m st) -> stmt_uses n s -> used_by r n
  | ub_inner r l d n : own r l -> In d l -> a_def d -> used_by d n -> ~ local d n -> used_by r n.
(** The file and its functions, nested ones too *)
Inductive scope_in (f : expr) : expr -> Prop :=
  | sc_root : scope_in f f
  | sc_def r l d : scope_in f r -> own r l -> In d l -> a_def d -> scope_in f d.
Definition is_unused (r : expr) (export : Prop) (x : unused) : Prop :=
  exists n, ~ used_by r n /\ ~ excused r n /\ ~ (export /\ ~ starts_ n) /\ ((exists i, x = UnusedVariable i /\ variable r n i) \/ (exists d, x = UnusedFunction d /\ local_function r n d)).

(** ** Proofs *)
Lemma underscored_spec n : underscored n = true <-> starts_ n.
Proof. unfold underscored, starts_. rewrite has_prefix_spec. reflexivity. Qed.
Lemma unused_marked e : ContainsComments e %"@unused" = true <-> marked %"@unused" e.
Proof. rewrite <- has_comment_spec. unfold ContainsComments, StrList.has_comment. rewrite !existsb_app, !Bool.orb_true_iff. change (Base.to_lower %"@unused") with %"@unused". tauto. Qed.
Lemma binds_name_spec e n : binds_name e n <-> In n (lvalue_names e).
Proof.
  unfold binds_name, lvalue_names. rewrite in_map_iff. split.
  - intros (ids & i & B & I & E). rewrite (binds_fun _ _ _ B (binds_spec e)) in I. eauto.
  - intros (i & E & I). exists (CollectLValues e), i. split; auto. apply binds_spec.
Qed.
Lemma hides_spec n e : hides n e <-> In n (scope_of e).
Proof.
  unfold hides. split.
  - intros [(c & cu & p & b & cl & m & en & c' & q & v & pin & x & -> & I & B)|(c & q & ps & b & p & -> & I & B)]; apply binds_name_spec in B; cbn [scope_of]; apply in_flat_map; [exists (EForC c' q v pin x)|exists p]; auto.
  - destruct e; try (intros []; fail); cbn [scope_of]; intro H; apply in_flat_map in H as (x & I & H).
    + left. destruct x; try destruct H. do 12 eexists. split; [reflexivity|]. split; [exact I|]. now apply binds_name_spec.
    + right. do 5 eexists. split; [reflexivity|]. split; [exact I|]. now apply binds_name_spec.
Qed.
Lemma kids_of e l : sequence e l -> children e = l.
Proof. intros [(? & ? & ? & ? & ? & ? & ->)|(? & ? & ? & ? & ->)]; unfold children, fold_children; cbn [fold_children2]; apply map_id. Qed.
Lemma in_names {A} (h : A -> list ident) l n : In n (map i_name (flat_map h l)) <-> exists x, In x l /\ In n (map i_name (h x)).
Proof.
  rewrite in_map_iff. split.
  - intros (i & E & I). apply in_flat_map in I as (x & I & J). exists x. split; auto. apply in_map_iff. eauto.
  - intros (x & I & J). apply in_map_iff in J as (i & E & J). exists i. split; auto. apply in_flat_map. eauto.
Qed.
Lemma used_spec n e : forall lv shadow, In n (map i_name (used_idents false lv shadow e)) <-> uses n lv e /\ ~ In n shadow.
Proof.
  induction e as [e IH] using expr_children_ind. intros lv shadow.
  assert (Gen : ~ special e -> used_idents false lv shadow e = flat_map (used_idents false false (scope_of e ++ shadow)) (children e) -> In n (map i_name (used_idents false lv shadow e)) <-> uses n lv e /\ ~ In n shadow).
  { intros Ns ->. rewrite in_names. split.
    - intros (x & I & J). apply (IH x I) in J as (U & N). rewrite in_app_iff in N. split; [|tauto]. eapply us_part; eauto. rewrite hides_spec. tauto.
    - intros (U & N). assert (K : exists x, In x (children e) /\ uses n false x /\ ~ hides n e).
      { destruct U; try (elim Ns; unfold special; eauto 12; fail). eauto. }
      destruct K as (x & I & Ux & H). exists x. split; auto. apply (IH x I). split; auto. rewrite in_app_iff, <- hides_spec. tauto. }
  assert (Fold : forall sh, List.concat (fold_children2 (used_idents false false sh) (fun _ => []) (fun i => if mem_bytes (i_name i) sh then [] else [i]) e) = flat_map (used_idents false false sh) (children e)).
  { intro sh. rewrite (fold_children2_map (used_idents false false sh)), flat_map_concat_map by reflexivity. reflexivity. }
  assert (Seq : forall l, sequence e l -> In n (map i_name (flat_map (used_idents false lv shadow) l)) <-> uses n lv e /\ ~ In n shadow).
  { intros l Sq. rewrite in_names. pose proof (kids_of e l Sq) as Ke. split.
    - intros (x & I & J). apply IH in J as (U & N); [|now rewrite Ke]. split; auto. eapply us_item; eauto.
    - intros (U & N). assert (K : exists x, In x l /\ uses n lv x).
      { destruct U; try (destruct Sq as [(? & ? & ? & ? & ? & ? & E)|(? & ? & ? & ? & E)]; discriminate E).
        - match goal with S2 : sequence e _ |- _ => apply kids_of in S2; rewrite Ke in S2; subst end. eauto.
        - match goal with Ns : ~ special e |- _ => elim Ns; right; left; eauto end. }
      destruct K as (x & I & Ux). exists x. split; auto. apply IH; [now rewrite Ke|auto]. }
  destruct e; try (apply Gen; [intros [(? & E)|[(? & [(? & ? & ? & ? & ? & ? & E)|(? & ? & ? & ? & E)])|[(? & ? & ? & ? & ? & ? & E)|[(? & ? & ? & ? & ? & E)|(? & ? & ? & ? & ? & ? & E)]]]]; discriminate E|exact (Fold _)]).
  - cbn [used_idents]. destruct lv; cbn [orb map In].
    + split; [intros []|]. intros (U & _). inversion U; subst; [match goal with K : sequence _ _ |- _ => destruct K as [(? & ? & ? & ? & ? & ? & E)|(? & ? & ? & ? & E)]; discriminate E end|]. match goal with K : In _ (children _) |- _ => destruct K end.
    + destruct (mem_bytes (i_name i) shadow) eqn:M; cbn [map In].
      * split; [intros []|]. intros (U & N). apply mem_bytes_In in M. inversion U; subst; [contradiction| |]; [match goal with K : sequence _ _ |- _ => destruct K as [(? & ? & ? & ? & ? & ? & E)|(? & ? & ? & ? & E)]; discriminate E end|]. match goal with K : In _ (children _) |- _ => destruct K end.
      * split.
        -- intros [<-|[]]. split; [now constructor|]. intro K. apply mem_bytes_In in K. rewrite K in M. discriminate M.
        -- intros (U & N). inversion U; subst; [auto| |]; [match goal with K : sequence _ _ |- _ => destruct K as [(? & ? & ? & ? & ? & ? & E)|(? & ? & ? & ? & E)]; discriminate E end|]. match goal with K : In _ (children _) |- _ => destruct K end.
  - match goal with |- context [EList ?c ?p ?l ?en ?m] => change (used_idents false lv shadow (EList c p l en m)) with (flat_map (used_idents false lv shadow) l); apply Seq; right; eauto end.
  - match goal with |- context [ETuple ?c ?np ?p ?l ?en ?b ?m] => change (used_idents false lv shadow (ETuple c np p l en b m)) with (flat_map (used_idents false lv shadow) l); apply Seq; left; eauto 8 end.
  - match goal with |- context [EAssign ?c ?x ?q ?op ?br ?y] => change (used_idents false lv shadow (EAssign c x q op br y)) with (used_idents false false shadow y); rewrite (IH y) by (right; now left) end. split; intros (U & N); split; auto; [now constructor|].
    inversion U; subst; auto; [match goal with K : sequence _ _ |- _ => destruct K as [(? & ? & ? & ? & ? & ? & E)|(? & ? & ? & ? & E)]; discriminate E end|]. match goal with K : ~ special _ |- _ => elim K; right; right; left; eauto 8 end.
  - match goal with |- context [EFor ?c ?p ?v ?x ?b] => change (used_idents false lv shadow (EFor c p v x b)) with (used_idents false true shadow v ++ used_idents false false shadow x); rewrite map_app, in_app_iff, (IH v), (IH x) by (unfold children, fold_children; cbn [fold_children2 In]; auto) end.
    split; [intros [(U & N)|(U & N)]; split; auto; [now apply us_target|now apply us_over]|]. intros (U & N). inversion U; subst; auto; [match goal with K : sequence _ _ |- _ => destruct K as [(? & ? & ? & ? & ? & ? & E)|(? & ? & ? & ? & E)]; discriminate E end|].
    match goal with K : ~ special _ |- _ => elim K; right; right; right; left; eauto 8 end.
  - match goal with |- context [EIf ?c ?p ?x ?t ?q ?f] => change (used_idents false lv shadow (EIf c p x t q f)) with (used_idents false false shadow x); rewrite (IH x) by (unfold children, fold_children; cbn [fold_children2 In]; auto) end.
    split; intros (U & N); split; auto; [now constructor|]. inversion U; subst; auto; [match goal with K : sequence _ _ |- _ => destruct K as [(? & ? & ? & ? & ? & ? & E)|(? & ? & ? & ? & E)]; discriminate E end|].
    match goal with K : ~ special _ |- _ => elim K; right; right; right; right; eauto 8 end.
Qed.
Lemma used_stmt n s : In n (used_in_stmt s) <-> stmt_uses n s.
Proof.
  unfold used_in_stmt, stmt_uses. assert (O : (forall c x q op br y, s <> EAssign c x q op br y) -> In n (map i_name (used_idents true false [] s)) <-> uses n false s).
  { intro H. replace (used_idents true false [] s) with (used_idents false false [] s) by (destruct s; try reflexivity; exfalso; eapply H; reflexivity). rewrite used_spec. split; [tauto|]. split; auto. }
  destruct s; try (rewrite O by discriminate; split; [intro; right; split; [discriminate|auto]|]; intros [(? & ? & ? & ? & ? & ? & E & _)|(_ & U)]; [discriminate E|auto]; fail).
  match goal with |- context [EAssign ?c ?x ?q ?op ?br ?y] => change (used_idents true false [] (EAssign c x q op br y)) with (used_idents false true [] x ++ used_idents false false [] y) end.
  rewrite map_app, in_app_iff, !used_spec. split.
  - intros [(U & _)|(U & _)]; left; do 6 eexists; split; eauto.
  - intros [(? & ? & ? & ? & ? & ? & E & U)|(N & _)]; [|exfalso; eapply N; reflexivity]. injection E as -> -> -> -> -> ->. cbn [In]. tauto.
Qed.
(** *** The statements of a function *)
Notation is_def := Flow.is_def.
Lemma is_def_spec e : is_def e = true <-> a_def e.
Proof. exact (PropDocstring.is_def_spec e). Qed.
Definition stop_at (e : expr) (stk : list expr) : bool := is_def e && match stk with [] => false | _ => true end.
Lemma forall2_of {A B} (P : A -> B -> Prop) (g : A -> B) l : (forall x, In x l -> P x (g x)) -> Forall2 P l (map g l).
Proof. induction l; intro H; cbn [map]; constructor; auto; [apply H; now left|apply IHl; intros; apply H; now right]. Qed.
Lemma fst_flat {A B C} (f : A -> list (B * C)) l : map fst (flat_map f l) = List.concat (map (fun x => map fst (f x)) l).
Proof. induction l; cbn [flat_map map List.concat]; auto. now rewrite map_app, IHl. Qed.
Lemma listed_spec : forall n e stk, height e < n -> stk <> [] -> listed e (map fst (visit_stmts stop_at stk e)).
Proof.
  induction n as [|n IH]; intros e stk Hn Ns; [lia|]. rewrite visit_stmts_unfold. cbn [map fst].
  assert (St : stop_at e stk = is_def e) by (unfold stop_at; destruct stk; [contradiction|now rewrite Bool.andb_true_r]). rewrite St.
  pose proof (is_def_spec e) as Sp. destruct (is_def e).
  - apply li_def. now apply Sp.
  - rewrite fst_flat. apply li_other; [intro K; apply Sp in K; discriminate K|]. apply forall2_of. intros x J. apply IH; [apply block_child in J; lia|]. destruct stk; discriminate.
Qed.
Lemma own_spec r : own r (own_statements r).
Proof.
  unfold own_statements. change (fun (e : expr) (stk : list expr) => is_def e && match stk with [] => false | _ :: _ => true end) with stop_at. rewrite visit_stmts_unfold.
  replace (stop_at r []) with false by (unfold stop_at; now rewrite Bool.andb_false_r). cbn iota. unfold tl. rewrite fst_flat. eexists. split; [|reflexivity]. apply forall2_of. intros x _. apply (listed_spec (S (height x))); [lia|discriminate].
Qed.
Lemma listed_fun e : forall l l', listed e l -> listed e l' -> l = l'.
Proof.
  remember (height e) as n eqn:Hn. revert e Hn. induction n as [n IH] using lt_wf_ind. intros e -> l l' H H'.
  assert (G : forall b, (forall x, In x b -> height x < height e) -> forall ls ls', Forall2 listed b ls -> Forall2 listed b ls' -> ls = ls').
  { intros b Hb ls ls' F. revert ls'. induction F as [|x y b ls Hx F IHF]; intros ls' F'; inversion F'; subst; auto. f_equal; [|apply IHF; auto; intros; apply Hb; now right]. eapply IH; eauto. apply Hb. now left. }
  inversion H; inversion H'; subst; try contradiction; auto. f_equal. f_equal. eapply G; eauto. intros; now apply block_child.
Qed.
Lemma own_fun r l : own r l -> l = own_statements r.
Proof.
  intros (ls & F & ->). destruct (own_spec r) as (ls' & F' & ->). f_equal. clear - F F'. revert ls' F'. induction F as [|x y b ls Hx F IHF]; intros ls' F'; inversion F'; subst; auto. f_equal; auto. eapply listed_fun; eauto.
Qed.
Lemma listed_height e : forall l, listed e l -> forall x, In x l -> height x <= height e.
Proof.
  remember (height e) as n eqn:Hn. revert e Hn. induction n as [n IH] using lt_wf_ind. intros e -> l H x I. destruct H as [d D|e ls N F]; [destruct I as [<-|[]]; auto|]. destruct I as [<-|I]; auto.
  assert (G : forall b, (forall y, In y b -> height y < height e) -> forall ls, Forall2 listed b ls -> In x (List.concat ls) -> height x <= height e).
  { intros b Hb ls' F'. induction F' as [|y l b ls' Hy F' IHF]; intros J; [destruct J|]. cbn [List.concat] in J. apply in_app_iff in J as [J|J]; [|apply IHF; auto; intros; apply Hb; now right]. specialize (Hb y (or_introl eq_refl)). pose proof (IH _ Hb y eq_refl l Hy x J). lia. }
  eapply G; eauto. intros; now apply block_child.
Qed.
Lemma own_height r x : In x (own_statements r) -> height x < height r.
Proof.
  destruct (own_spec r) as (ls & F & ->). intro I. assert (Hb : forall y, In y (blocks r) -> height y < height r) by (intros; now apply block_child). revert Hb. induction F as [|y l b ls Hy F IHF]; intro Hb; [destruct I|].
  cbn [List.concat] in I. apply in_app_iff in I as [I|I]; [|apply IHF; auto; intros; apply Hb; now right]. pose proof (listed_height y l Hy x I). specialize (Hb y (or_introl eq_refl)). lia.
Qed.

(** *** Targets and parameters *)
Lemma some_plain l : negb (forallb (fun j : ident => underscored (i_name j)) l) = true <-> exists j, In j l /\ ~ starts_ (i_name j).
Proof.
  induction l as [|i l IH]; cbn [forallb].
  - split; [discriminate|intros (j & [] & _)].
  - rewrite Bool.negb_andb, Bool.orb_true_iff, IH. split.
    + intros [H|(j & I & N)]; [|exists j; split; [now right|exact N]]. exists i. split; [now left|]. intro K. apply underscored_spec in K. rewrite K in H. discriminate H.
    + intros (j & [<-|I] & N); [left|right; eauto]. destruct (underscored (i_name i)) eqn:E; auto. apply underscored_spec in E. contradiction.
Qed.
Lemma targets_fun s a b : targets s a -> targets s b -> a = b.
Proof.
  intros [(c & x & q & op & br & y & -> & B)|(c & p & v & x & b' & -> & B)] [(? & ? & ? & ? & ? & ? & E & B')|(? & ? & ? & ? & ? & E & B')]; try discriminate E; injection E; intros; subst; eapply binds_fun; eauto.
Qed.
Lemma assigned_spec s ids : targets s ids -> exists g, assigned_idents s = map (fun i => (i, g i)) ids /\ forall i, g i = true <-> spared s ids i.
Proof.
  intros [(c & x & q & op & br & y & -> & B)|(c & p & v & x & b & -> & B)]; rewrite (binds_fun _ _ _ B (binds_spec _)); cbn [assigned_idents]; eexists; (split; [reflexivity|]); intro i; cbn beta.
  - rewrite Bool.orb_true_iff, Bool.andb_true_iff, unused_marked, some_plain, underscored_spec. unfold spared. split.
    + intros H. left. do 6 eexists. split; [reflexivity|]. tauto.
    + intros [(? & ? & ? & ? & ? & ? & E & H)|(? & ? & ? & ? & ? & E & H)]; [tauto|discriminate E].
  - rewrite underscored_spec. unfold spared. split.
    + intros H. right. do 5 eexists. split; [reflexivity|]. exact H.
    + intros [(? & ? & ? & ? & ? & ? & E & H)|(? & ? & ? & ? & ? & E & H)]; [discriminate E|exact H].
Qed.
Lemma assigned_some s a : In a (assigned_idents s) -> exists ids, targets s ids.
Proof.
  destruct s; try (intros []; fail); intros _; eexists; [left; do 6 eexists|right; do 5 eexists]; (split; [reflexivity|apply binds_spec]).
Qed.
Definition named (a : ident * bool) : bytes * (ident * bool) := (i_name (fst a), a).
Lemma assigns_spec s n : In n (map fst (map named (assigned_idents s))) <-> assigns_to s n.
Proof.
  split.
  - intros H. assert (K : exists ids, targets s ids). { destruct (assigned_idents s) as [|a l] eqn:E; [destruct H|]. apply (assigned_some s a). rewrite E. now left. }
    destruct K as (ids & T). destruct (assigned_spec s ids T) as (g & E & _). rewrite E, !map_map in H. apply in_map_iff in H as (i & N & I). exists ids, i. auto.
  - intros (ids & i & T & I & N). destruct (assigned_spec s ids T) as (g & -> & _). rewrite !map_map. apply in_map_iff. exists i. auto.
Qed.
Lemma plain_assigned s : (if plain_stmt s then map named (assigned_idents s) else []) = map named (assigned_idents s).
Proof. destruct s; reflexivity. Qed.
Lemma param_spec p i : param_is p i <-> GetParamIdent p = Some i.
Proof.
  split; [induction 1; auto|]. revert i. induction p as [p IH] using expr_children_ind. intros i H. destruct p; try discriminate H; cbn [GetParamIdent] in H.
  - injection H as ->. constructor.
  - injection H as ->. constructor.
  - match goal with H : match ?o with Some _ => _ | None => _ end = _ |- _ => destruct o; [|discriminate H] end. apply pi_star. apply IH; auto. now left.
  - apply pi_default. apply IH; auto. now left.
Qed.
Lemma has_params_spec r ps : has_params r ps <-> ps = params_of r.
Proof.
  split.
  - intros [(? & ? & ? & ? & ? & ? & ? & ? & ->)|(N & ->)]; auto. destruct r; auto. elim N. do 9 eexists. reflexivity.
  - intros ->. destruct r; try (right; split; [intros (? & ? & ? & ? & ? & ? & ? & ? & ? & E); discriminate E|reflexivity]). left. do 8 eexists. reflexivity.
Qed.
Lemma called_spec r n p : param_called r n p <-> In p (params_of r) /\ exists i, GetParamIdent p = Some i /\ i_name i = n.
Proof.
  split.
  - intros (ps & i & H & I & P & N). apply has_params_spec in H as ->. apply param_spec in P. eauto.
  - intros (I & i & P & N). exists (params_of r), i. rewrite has_params_spec, param_spec. auto.
Qed.
(** *** The first of every name *)
Lemma first_spec {A} (n : bytes) (a : A) l : forall seen, In (n, a) (first_of seen l) <-> ~ In n seen /\ exists pre post, l = pre ++ (n, a) :: post /\ ~ In n (map fst pre).
Proof.
  induction l as [|(m, b) l IH]; intro seen; cbn [first_of].
  - split; [intros []|]. intros (_ & [|? ?] & post & E & _); discriminate E.
  - destruct (mem_bytes m seen) eqn:M.
    + apply mem_bytes_In in M. rewrite IH. split.
      * intros (N & pre & post & -> & P). split; auto. exists ((m, b) :: pre), post. split; auto. cbn [map fst In]. intros [->|K]; contradiction.
      * intros (N & [|(m', b') pre] & post & E & P); cbn [app] in E; injection E; intros; subst; [contradiction|]. split; auto. exists pre, post. split; auto. intro K. apply P. now right.
    + cbn [In]. rewrite IH. assert (Nm : ~ In m seen) by (intro K; apply mem_bytes_In in K; rewrite K in M; discriminate M). split.
      * intros [E|(N & pre & post & -> & P)].
        -- injection E as -> ->. split; auto. exists [], l. split; auto.
        -- cbn [In] in N. split; [tauto|]. exists ((m, b) :: pre), post. split; auto. cbn [map fst In]. tauto.
      * intros (N & [|(m', b') pre] & post & E & P); cbn [app] in E; injection E; intros; subst; [now left|]. right. cbn [map fst In] in P. split; [cbn [In]; tauto|]. exists pre, post. split; auto.
Qed.
Lemma first_app {A} (n : bytes) (a : A) l l' : In (n, a) (first_of [] (l ++ l')) <-> In (n, a) (first_of [] l) \/ (~ In n (map fst l) /\ In (n, a) (first_of [] l')).
Proof.
  rewrite !first_spec. split.
  - intros (_ & pre & post & E & P). apply app_eq_app in E as (m & [(E1 & E2)|(E1 & E2)]).
    + destruct m as [|x m]; cbn [app] in E2.
      * right. subst l. rewrite app_nil_r. split; auto. split; [intros []|]. exists [], post. split; auto.
      * injection E2 as <- E2. left. split; [intros []|]. exists pre, m. auto.
    + right. subst pre. rewrite map_app, in_app_iff in P. split; [tauto|]. split; [intros []|]. exists m, post. split; auto.
  - intros [(_ & pre & post & -> & P)|(N & _ & pre & post & -> & P)]; (split; [intros []|]).
    + exists pre, (post ++ l'). rewrite <- app_assoc. auto.
    + exists (l ++ pre), post. rewrite <- app_assoc, map_app, in_app_iff. tauto.
Qed.
Lemma first_flat {A X} (n : bytes) (a : A) (h : X -> list (bytes * A)) l :
  In (n, a) (first_of [] (flat_map h l)) <-> exists pre x post, l = pre ++ x :: post /\ (forall y, In y pre -> ~ In n (map fst (h y))) /\ In (n, a) (first_of [] (h x)).
Proof.
  induction l as [|x l IH]; cbn [flat_map].
  - split; [intros []|]. intros ([|? ?] & ? & ? & E & _); discriminate E.
  - rewrite first_app, IH. split.
    + intros [H|(N & pre & y & post & -> & P & H)]; [exists [], x, l|exists (x :: pre), y, post]; (split; [reflexivity|]; split; [|exact H]); [intros ? []|]. intros z [<-|J]; auto.
    + intros ([|z pre] & y & post & E & P & H); cbn [app] in E; injection E as -> ->; [now left|]. right. split; [apply P; now left|]. exists pre, y, post. split; [reflexivity|]. split; [|exact H]. intros w J. apply P. now right.
Qed.
Lemma rev_small {A X} (h : X -> list A) l : (forall x, List.length (h x) <= 1) -> rev (flat_map h l) = flat_map h (rev l).
Proof.
  intro H. induction l as [|x l IH]; cbn [flat_map rev]; auto. rewrite rev_app_distr, IH, flat_map_app. f_equal. cbn [flat_map]. rewrite app_nil_r. specialize (H x). destruct (h x) as [|y [|z r]]; auto. cbn [List.length] in H. lia.
Qed.
Definition param_entry (p : expr) : list (bytes * (ident * bool)) := opt_list (fun i => (i_name i, (i, false))) (GetParamIdent p).
Lemma param_list r : map (fun d : bytes * ident => (fst d, (snd d, false))) (rev (param_idents r)) = flat_map param_entry (rev (params_of r)).
Proof.
  unfold param_idents. rewrite rev_small by (intro x; destruct (GetParamIdent x); cbn; lia). induction (rev (params_of r)) as [|x l IH]; auto. cbn [flat_map]. rewrite map_app, IH. f_equal. unfold param_entry. destruct (GetParamIdent x); reflexivity.
Qed.
Lemma entry_names p n : In n (map fst (param_entry p)) <-> exists i, GetParamIdent p = Some i /\ i_name i = n.
Proof.
  unfold param_entry. destruct (GetParamIdent p) as [i|]; cbn [opt_list map fst In]; split; try (intros []; fail).
  - intros [<-|[]]. eauto.
  - intros (j & E & <-). injection E as ->. now left.
  - intros (j & E & _). discriminate E.
Qed.
Lemma definitions_eq r : definitions r = first_of [] (flat_map param_entry (rev (params_of r)) ++ flat_map (fun s => map named (assigned_idents s)) (own_statements r)).
Proof.
  unfold definitions. rewrite param_list. f_equal. f_equal. apply flat_map_ext. intro s. exact (plain_assigned s).
Qed.
Lemma definitions_spec r n i sp : In (n, (i, sp)) (definitions r) <-> (sp = false /\ last_param r n i) \/ exists s ids, first_target r n s ids i /\ (sp = true <-> spared s ids i).
Proof.
  rewrite definitions_eq, first_app, !first_flat.
  assert (Q1 : forall b, ~ In b (map fst (flat_map param_entry (rev (params_of r)))) <-> forall p, ~ param_called r b p).
  { intro b. rewrite fst_flat. split.
    - intros N p H. apply called_spec in H as (I & H). apply N. apply in_concat. exists (map fst (param_entry p)). split; [apply in_map_iff; exists p; split; auto; now apply -> in_rev|]. now apply entry_names.
    - intros N H. apply in_concat in H as (l & I & H). apply in_map_iff in I as (p & <- & I). apply entry_names in H. apply (N p). apply called_spec. split; auto. now apply in_rev. }
  rewrite Q1. assert (Q2 : (exists pre x post, rev (params_of r) = pre ++ x :: post /\ (forall y, In y pre -> ~ In n (map fst (param_entry y))) /\ In (n, (i, sp)) (first_of [] (param_entry x))) <-> sp = false /\ last_param r n i).
  { split.
    - intros (pre & x & post & E & P & H). apply (f_equal (@rev expr)) in E. rewrite rev_involutive, rev_app_distr in E. cbn [rev] in E. rewrite <- app_assoc in E. cbn [app] in E.
      unfold param_entry in H. destruct (GetParamIdent x) as [j|] eqn:G; [|destruct H]. destruct H as [H|[]]. injection H as N -> <-. split; auto. exists (params_of r), (rev post), x, (rev pre). rewrite has_params_spec, param_spec. split; auto. split; auto. split; auto. split; auto.
      intros p' k I K N'. apply -> in_rev in I. rewrite rev_involutive in I. apply param_spec in K. apply (P p' I), entry_names. eauto.
    - intros (-> & ps & pre & x & post & H & E & G & N & P). apply has_params_spec in H as ->. apply param_spec in G. exists (rev post), x, (rev pre). rewrite E, rev_app_distr. cbn [rev]. rewrite <- app_assoc. split; auto. split.
      + intros y I K. apply in_rev in I. apply entry_names in K as (k & K & N'). apply param_spec in K. exact (P y k I K N').
      + unfold param_entry. rewrite G. cbn [opt_list first_of mem_bytes existsb]. rewrite <- N. now left. }
  assert (Q3 : (exists pre x post, own_statements r = pre ++ x :: post /\ (forall y, In y pre -> ~ In n (map fst (map named (assigned_idents y)))) /\ In (n, (i, sp)) (first_of [] (map named (assigned_idents x)))) <->
    exists s ids l pre post before after, (own r l /\ l = pre ++ s :: post /\ (forall x, In x pre -> ~ assigns_to x n) /\ targets s ids /\ ids = before ++ i :: after /\ i_name i = n /\ forall j, In j before -> i_name j <> n) /\ (sp = true <-> spared s ids i)).
  { split.
    - intros (pre & x & post & E & P & H). apply first_spec in H as (_ & l1 & l2 & El & Nl). assert (I : In (n, (i, sp)) (map named (assigned_idents x))) by (rewrite El; apply in_app_iff; right; now left).
      apply in_map_iff in I as (a & _ & I). destruct (assigned_some x a I) as (ids & T). destruct (assigned_spec x ids T) as (g & Eg & G). rewrite Eg, map_map in El. apply map_eq_app in El as (b & c & -> & <- & El). apply map_eq_cons in El as (k & d & -> & E1 & _). unfold named in E1. cbn [fst] in E1. injection E1 as N -> <-.
      exists x, (b ++ i :: d), (own_statements r), pre, post, b, d. split; [|exact (G i)]. split; [apply own_spec|]. split; auto. split; [intros y J K; apply (P y J), assigns_spec, K|]. split; auto. split; auto. split; auto. intros j J K. apply Nl. rewrite map_map. apply in_map_iff. exists j. auto.
    - intros (s & ids & l & pre & post & before & after & (O & E & P & T & -> & N & B) & G). rewrite (own_fun r l O) in E. exists pre, s, post. split; auto. split; [intros y J K; apply (P y J), assigns_spec, K|]. apply first_spec. split; [intros []|].
      destruct (assigned_spec s _ T) as (g & Eg & G'). rewrite Eg, !map_app, map_cons, map_cons. exists (map named (map (fun i => (i, g i)) before)), (map named (map (fun i => (i, g i)) after)). split.
      + f_equal. f_equal. unfold named. cbn [fst]. rewrite N. f_equal. f_equal. specialize (G' i). rewrite <- G in G'. clear - G'. destruct (g i), sp; intuition.
      + rewrite !map_map. intro K. apply in_map_iff in K as (j & K & J). exact (B j J K). }
  rewrite Q2, Q3. unfold first_target. split.
  - intros [H|(N & s & ids & l & pre & post & before & after & H & G)]; [now left|]. right. exists s, ids. split; auto. split; auto. exists l, pre, post, before, after. exact H.
  - intros [H|(s & ids & (N & l & pre & post & before & after & H) & G)]; [now left|]. right. split; auto. exists s, ids, l, pre, post, before, after. auto.
Qed.
Lemma variable_spec r n i : variable r n i <-> exists sp, In (n, (i, sp)) (definitions r).
Proof.
  unfold variable. split.
  - intros [H|(s & ids & H)].
    + exists false. apply definitions_spec. now left.
    + assert (T : targets s ids) by (destruct H as (_ & ? & ? & ? & ? & ? & _ & _ & _ & T & _); exact T). destruct (assigned_spec s ids T) as (g & _ & G). exists (g i). apply definitions_spec. right. exists s, ids. split; auto.
  - intros (sp & H). apply definitions_spec in H as [(_ & H)|(s & ids & H & _)]; [now left|right; eauto].
Qed.
Lemma def_called_spec n d : def_called n d <-> is_def d = true /\ def_name d = n.
Proof.
  split.
  - intros (? & ? & ? & ? & ? & ? & ? & ? & ->). auto.
  - intros (H & <-). destruct d; try discriminate H. do 8 eexists. reflexivity.
Qed.
Definition def_entry (s : expr) : list (bytes * expr) := if is_def s then [(def_name s, s)] else [].
Lemma functions_eq r : functions_of r = first_of [] (flat_map def_entry (own_statements r)).
Proof.
  unfold functions_of. f_equal. induction (own_statements r) as [|s l IH]; auto. cbn [filter flat_map]. unfold def_entry at 1. destruct (is_def s); cbn [map app]; now rewrite IH.
Qed.
Lemma function_spec r n d : In (n, d) (functions_of r) <-> local_function r n d.
Proof.
  rewrite functions_eq, first_flat. assert (Q : forall s, In n (map fst (def_entry s)) <-> def_called n s).
  { intro s. rewrite def_called_spec. unfold def_entry. destruct (is_def s); cbn [map fst In]; [tauto|]. split; [intros []|intros (E & _); discriminate E]. }
  split.
  - intros (pre & x & post & E & P & H). unfold def_entry in H. destruct (is_def x) eqn:D; [|destruct H]. destruct H as [H|[]]. injection H as N ->. exists (own_statements r), pre, post. split; [apply own_spec|]. split; auto. split; [now apply def_called_spec|]. intros y J. rewrite <- Q. auto.
  - intros (l & pre & post & O & E & D & P). rewrite (own_fun r l O) in E. exists pre, d, post. split; auto. split; [intros y J; rewrite Q; auto|]. apply def_called_spec in D as (D & <-). unfold def_entry. rewrite D. now left.
Qed.
Lemma local_spec r n : local r n <-> In n (map fst (definitions r)) \/ In n (map fst (functions_of r)).
Proof.
  unfold local. split.
  - intros [(i & H)|(d & H)]; [left|right]; apply in_map_iff; [apply variable_spec in H as (sp & H); exists (n, (i, sp)); auto|apply function_spec in H; exists (n, d); auto].
  - intros [H|H]; apply in_map_iff in H as ((m & y) & E & H); cbn [fst] in E; subst m; [left; destruct y as (i, sp); exists i; apply variable_spec; eauto|right; exists y; now apply function_spec].
Qed.
(** *** What is excused and what is used *)
Lemma suppressed_spec r n : In n (suppressed r) <-> excused r n.
Proof.
  unfold suppressed, excused. rewrite !in_app_iff.
  assert (Q1 : In n (flat_map (fun p => match GetParamIdent p with Some i => if beq (i_name i) %"name" || underscored (i_name i) || ContainsComments p %"@unused" then [i_name i] else [] | None => [] end) (params_of r)) <-> exists p, param_called r n p /\ (n = %"name" \/ starts_ n \/ marked %"@unused" p)).
  { rewrite in_flat_map. split.
    - intros (p & I & H). destruct (GetParamIdent p) as [i|] eqn:G; [|destruct H]. destruct (beq (i_name i) %"name" || underscored (i_name i) || ContainsComments p %"@unused") eqn:E; [|destruct H]. destruct H as [<-|[]].
      rewrite !Bool.orb_true_iff, beq_eq, underscored_spec, unused_marked in E. exists p. split; [|tauto]. apply called_spec. eauto.
    - intros (p & C & H). apply called_spec in C as (I & i & G & <-). exists p. split; auto. rewrite G. assert (E : beq (i_name i) %"name" || underscored (i_name i) || ContainsComments p %"@unused" = true) by (rewrite !Bool.orb_true_iff, beq_eq, underscored_spec, unused_marked; tauto). rewrite E. now left. }
  assert (Q2 : In n (flat_map (fun d => if ContainsComments d %"@unused" then [def_name d] else []) (filter is_def (own_statements r))) <-> exists l d, own r l /\ In d l /\ def_called n d /\ marked %"@unused" d).
  { rewrite in_flat_map. split.
    - intros (d & I & H). apply filter_In in I as (I & D). destruct (ContainsComments d %"@unused") eqn:E; [|destruct H]. destruct H as [<-|[]]. apply unused_marked in E. exists (own_statements r), d. split; [apply own_spec|]. split; auto. split; auto. now apply def_called_spec.
    - intros (l & d & O & I & C & M). rewrite (own_fun r l O) in I. apply def_called_spec in C as (D & <-). exists d. split; [apply filter_In; auto|]. apply unused_marked in M. rewrite M. now left. }
  assert (Q3 : In n (flat_map (fun d : bytes * (ident * bool) => if snd (snd d) then [fst d] else []) (definitions r)) <-> exists s ids i, first_target r n s ids i /\ spared s ids i).
  { rewrite in_flat_map. split.
    - intros ((m & i & sp) & I & H). cbn [fst snd] in H. destruct sp; [|destruct H]. destruct H as [->|[]]. apply definitions_spec in I as [(E & _)|(s & ids & T & G)]; [discriminate E|]. exists s, ids, i. split; auto. now apply G.
    - intros (s & ids & i & T & G). exists (n, (i, true)). split; [|now left]. apply definitions_spec. right. exists s, ids. split; auto. tauto. }
  rewrite Q1, Q2, Q3. reflexivity.
Qed.
Lemma plain_spec s : plain_stmt s = true <-> ~ a_def s /\ (forall c p m fr to rp k, s <> ELoad c p m fr to rp k) /\ (forall c m st, s <> EFile c m st).
Proof.
  split.
  - destruct s; intro H; try discriminate H; (split; [intros (? & ? & ? & ? & ? & ? & ? & ? & ? & E); discriminate E|]; split; discriminate).
  - intros (D & L & F). destruct s; try reflexivity; exfalso; [eapply F|eapply L|apply D; do 9 eexists]; reflexivity.
Qed.
Definition all_used (k : nat) (r : expr) : list bytes := used_here r ++ flat_map fst (map (unusedVariableCheck k false) (filter is_def (own_statements r))).
Lemma outer_used k e r n : In n (fst (unusedVariableCheck (S k) e r)) <-> In n (all_used k r) /\ ~ local r n.
Proof.
  cbn [unusedVariableCheck fst]. rewrite filter_In, local_spec, Bool.andb_true_iff, !Bool.negb_true_iff. assert (M : forall l, mem_bytes n l = false <-> ~ In n l).
  { intro l. rewrite <- mem_bytes_In. destruct (mem_bytes n l); intuition. }
  rewrite !M. unfold all_used. tauto.
Qed.
Lemma height_pos e : 1 <= height e.
Proof. rewrite height_unfold. lia. Qed.
Lemma used_by_spec : forall k r, height r <= S k -> forall n, In n (all_used k r) <-> used_by r n.
Proof.
  induction k as [k IH] using lt_wf_ind. intros r Hk n. unfold all_used, used_here. rewrite !in_app_iff, !in_flat_map. split.
  - intros [[(p & I & H)|(s & I & H)]|(y & I & H)].
    + destruct p; try destruct H. apply used_stmt in H. eapply ub_default; eauto. now apply has_params_spec.
    + destruct (plain_stmt s) eqn:P; [|destruct H]. apply plain_spec in P as (D & L & F). apply used_stmt in H. eapply ub_stmt; eauto. apply own_spec.
    + apply in_map_iff in I as (d & <- & I). apply filter_In in I as (I & D). pose proof (own_height r d I). pose proof (height_pos d). destruct k as [|k]; [lia|]. apply outer_used in H as (H & N). apply IH in H; [|lia|lia]. apply is_def_spec in D. eapply ub_inner; eauto. apply own_spec.
  - intros H. destruct H as [r ps c x q op br y n Hp I U|r l s n O I D L F U|r l d n O I D U N].
    + left. left. apply has_params_spec in Hp as ->. eexists. split; [exact I|]. now apply used_stmt.
    + left. right. rewrite (own_fun r l O) in I. exists s. split; auto. assert (P : plain_stmt s = true) by (apply plain_spec; auto). rewrite P. now apply used_stmt.
    + right. rewrite (own_fun r l O) in I. pose proof (own_height r d I). pose proof (height_pos d). destruct k as [|k]; [lia|]. exists (unusedVariableCheck (S k) false d). split; [apply in_map; apply filter_In; split; auto; now apply is_def_spec|]. apply outer_used. split; auto. apply IH; auto; lia.
Qed.
(** *** The scopes *)
Lemma scope_height f r : scope_in f r -> height r <= height f.
Proof. induction 1 as [|r l d H IH O I D]; auto. rewrite (own_fun r l O) in I. apply own_height in I. lia. Qed.
Lemma scope_step f r : scope_in f r <-> r = f \/ exists d, In d (filter is_def (own_statements f)) /\ scope_in d r.
Proof.
  split.
  - induction 1 as [|r l d H IH O I D]; [now left|]. right. destruct IH as [->|(d' & J & K)].
    + exists d. split; [|constructor]. rewrite (own_fun f l O) in I. apply filter_In. split; auto. now apply is_def_spec.
    + exists d'. split; auto. eapply sc_def; eauto.
  - intros [->|(d & I & H)]; [constructor|]. apply filter_In in I as (I & D). apply is_def_spec in D. induction H as [|r l d' H IH O J D']; eapply sc_def; eauto; [constructor|apply own_spec].
Qed.
Lemma here_spec k r (e : bool) x : height r <= S k ->
  let keep := fun n => mem_bytes n (all_used k r) || mem_bytes n (suppressed r) || (e && negb (underscored n)) in
  In x (flat_map (fun d : bytes * (ident * bool) => if keep (fst d) then [] else [UnusedVariable (fst (snd d))]) (definitions r) ++ flat_map (fun d : bytes * expr => if keep (fst d) then [] else [UnusedFunction (snd d)]) (functions_of r)) <-> is_unused r (e = true) x.
Proof.
  intros Hk keep. assert (K : forall n, keep n = false <-> ~ used_by r n /\ ~ excused r n /\ ~ (e = true /\ ~ starts_ n)).
  { intro n. unfold keep. rewrite <- (used_by_spec k r Hk), <- suppressed_spec, <- underscored_spec, !Bool.orb_false_iff, <- !mem_bytes_In. destruct (mem_bytes n (all_used k r)), (mem_bytes n (suppressed r)), e, (underscored n); cbn [andb negb]; intuition congruence. }
  unfold is_unused. rewrite in_app_iff, !in_flat_map. split.
  - intros [((n & i & sp) & I & H)|((n & d) & I & H)]; cbn [fst snd] in H; destruct (keep n) eqn:E; try (destruct H; fail); apply K in E as (A & B & C); exists n; (split; [exact A|]; split; [exact B|]; split; [exact C|]); [left|right]; (destruct H as [<-|H]; [|destruct H]).
    + exists i. split; auto. apply variable_spec. eauto.
    + exists d. split; auto. now apply function_spec.
  - intros (n & A & B & C & H). assert (E : keep n = false) by (apply K; auto). destruct H as [(i & -> & H)|(d & -> & H)].
    + left. apply variable_spec in H as (sp & H). exists (n, (i, sp)). split; auto. cbn [fst snd]. rewrite E. now left.
    + right. apply function_spec in H. exists (n, d). split; auto. cbn [fst snd]. rewrite E. now left.
Qed.
Lemma unused_spec : forall k r (e : bool), height r <= S k -> forall x, In x (snd (unusedVariableCheck (S k) e r)) <-> exists r', scope_in r r' /\ is_unused r' (r' = r /\ e = true) x.
Proof.
  induction k as [k IH] using lt_wf_ind. intros r e Hk x. pose proof (here_spec k r e x Hk) as Hr. cbv zeta in Hr. unfold all_used in Hr. cbn [unusedVariableCheck snd]. rewrite in_app_iff, Hr. clear Hr.
  assert (Ex : forall r' (P Q : Prop), (P <-> Q) -> is_unused r' P x <-> is_unused r' Q x). { intros r' P Q E. unfold is_unused. split; intros (n & A & B & C & D); exists n; (split; [exact A|]; split; [exact B|]; split; [|exact D]); tauto. }
  split.
  - intros [H|H].
    + apply in_flat_map in H as (y & I & H). apply in_map_iff in I as (d & <- & I). pose proof I as I'. apply filter_In in I' as (I' & _). pose proof (own_height r d I'). pose proof (height_pos d). destruct k as [|k]; [lia|]. apply IH in H as (r' & Sc & U); [|lia|lia]. exists r'. split; [apply scope_step; right; eauto|].
      apply (Ex r' (r' = d /\ false = true)); auto. pose proof (scope_height d r' Sc). split; [intros (_ & F); discriminate F|]. intros (-> & _). lia.
    + exists r. split; [constructor|]. revert H. apply Ex. tauto.
  - intros (r' & Sc & U). apply scope_step in Sc as [->|(d & I & Sc)].
    + right. revert U. apply Ex. tauto.
    + left. pose proof I as I'. apply filter_In in I' as (I' & _). pose proof (own_height r d I'). pose proof (height_pos d). destruct k as [|k]; [lia|]. apply in_flat_map. exists (unusedVariableCheck (S k) false d). split; [now apply in_map|]. apply IH; [lia|lia|]. exists r'. split; auto.
      apply (Ex r' (r' = r /\ e = true)); auto. pose proof (scope_height d r' Sc). split; [intros (-> & _); lia|intros (_ & F); discriminate F].
Qed.

(** ** C103 *)
Theorem C103_unused : forall f t stmts, a_file f t stmts ->
  forall x, In x (unusedVariableWarning f) <-> exists r, scope_in f r /\ is_unused r (r = f /\ (t = TypeBzl \/ t = TypeDefault)) x.
Proof.
  intros f t stmts H x. unfold unusedVariableWarning. pose proof (height_pos f) as Hp. destruct (height f) as [|k] eqn:E; [lia|]. rewrite unused_spec by lia.
  assert (Ft : file_type f = t) by (destruct H as (? & ? & ? & ? & ->); reflexivity). rewrite Ft.
  assert (Q : (match t with TypeBzl | TypeDefault => true | _ => false end = true) <-> t = TypeBzl \/ t = TypeDefault) by (destruct t; intuition discriminate).
  split; intros (r & Sc & n & A & B & C & D); exists r; (split; [exact Sc|]); exists n; (split; [exact A|]; split; [exact B|]; split; [|exact D]); tauto.
Qed.
Print Assumptions C103_unused.
Definition ex_unused : list bytes :=
  [%"a = 1"; %"_b = 2"; %"_c, d = f(a)"; %"_e, _g = 1, 2"; %"_h = 3 # @unused"; %"_i = [_i for _i in d]"; %"";
   %"def _f(name, x, y = _b, *args, _z = 1, **kwargs):"; %"    u = [y for y in x]"; %"    for v, _w in u:"; %"        t = 1"; %"        r, _s = v, 1"; %"        if x:"; %"            t = lambda q: q"; %"    def g(r):"; %"        u = t"; %"        def h():"; %"            g(u)"; %"    return kwargs(args = 1)"].
Definition what (u : unused) : bytes * (Z * Z) := match u with UnusedVariable i => (i_name i, PropApiLints.start_of (EIdent i)) | UnusedFunction d => (def_name d, PropApiLints.start_of d) end.
Example C103_nontrivial : PropApiLints.checked (fun f => map what (unusedVariableWarning f)) ex_unused =
  Some [(%"r", (15, 11)); (%"h", (17, 9)); (%"args", (8, 26)); (%"y", (8, 17)); (%"r", (12, 9)); (%"_e", (4, 1)); (%"_g", (4, 5)); (%"_i", (6, 1)); (%"_f", (8, 1))]%Z.
Proof. vm_compute. reflexivity. Qed.
(** The first iterable of a comprehension is evaluated outside it: the parameter is used, but reported. *)
Theorem C103_iterable_refuted : PropApiLints.checked (fun f => map what (unusedVariableWarning f)) [%"def f(x):"; %"    return [x for x in x]"] = Some [(%"x", (1, 7)%Z)].
Proof. vm_compute. reflexivity. Qed.
Print Assumptions C103_iterable_refuted.
(** A parameter with a default value does not hide a variable: x in line 2 is not used, but not reported. *)
Theorem C103_lambda_refuted : PropApiLints.checked (fun f => map what (unusedVariableWarning f)) [%"def f():"; %"    x = 1"; %"    return lambda x = 2: x"] = Some [] /\
  PropApiLints.checked (fun f => map what (unusedVariableWarning f)) [%"def f():"; %"    x = 1"; %"    return lambda x: x"] = Some [(%"x", (2, 5)%Z)].
Proof. split; vm_compute; reflexivity. Qed.
Print Assumptions C103_lambda_refuted.
