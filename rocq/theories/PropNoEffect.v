(** C102: statements without an effect. *)
From Verif Require Import LRTables LRCert Parse PropComplete.
From Verif Require Import Base BaseProofs Ast ParseFile Walk WalkSpec WalkProofs WalkGen PropWalk Print PropPrint AttrParams PropAttr CallLints PropCallLints PropApiLints PropDocstring PropTypeLints NoEffect.
Local Open Scope list_scope.

(** ** What is asked for *)
(** Statements that do something (or are comments); [top]: at the top level of the file, where list comprehensions do *)
Inductive effective (top : Prop) : expr -> Prop :=
  | ef_def c p ps b n k co m t : effective top (EDef c p ps b n k co m t)
  | ef_for c p v x b : effective top (EFor c p v x b)
  | ef_if c p x t q f : effective top (EIf c p x t q f)
  | ef_load c p m fr to r k : effective top (ELoad c p m fr to r k)
  | ef_return c p x : effective top (EReturn c p x)
  | ef_call c x p l en k m : effective top (ECall c x p l en k m)
  | ef_comment c p : effective top (ECommentBlock c p)
  | ef_branch c p k : effective top (EBranch c p k)
  | ef_assign c x p op br v : effective top (EAssign c x p op br v)
  | ef_comprehension c p b l m en : top -> effective top (EComp c false p b l m en).
(** A string with nothing but comments before it *)
Definition docstring_at (body : list expr) (i : nat) (x : expr) : Prop :=
  (exists s, x = EStr s) /\ forall j y, j < i -> nth_error body j = Some y -> exists c p, y = ECommentBlock c p.
(** A statement of the block without an effect; [doc]: the block may begin with a docstring *)
Definition pointless (top doc : Prop) (body : list expr) (i : nat) (x : expr) : Prop := ~ effective top x /\ ~ (doc /\ docstring_at body i x).
Definition in_block (top doc : Prop) (body b : list expr) : Prop := those (pointless top doc body) 0 body b.
Inductive in_own_blocks : expr -> list expr -> Prop :=
  | ob_def c p ps body n k co m t b : in_block False True body b -> in_own_blocks (EDef c p ps body n k co m t) b
  | ob_for c p v x body b : in_block False False body b -> in_own_blocks (EFor c p v x body) b
  | ob_if c p x tru q fls b b' : in_block False False tru b -> in_block False False fls b' -> in_own_blocks (EIf c p x tru q fls) (b ++ b')
  | ob_other e : (blocks e = [] \/ exists c m stmts, e = EFile c m stmts) -> in_own_blocks e [].
(** All of them in a statement: those of its own blocks, then those inside the statements of its blocks, one after the other *)
Inductive without_effect : expr -> list expr -> Prop :=
  we e own inner : in_own_blocks e own -> Forall2 without_effect (blocks e) inner -> without_effect e (own ++ List.concat inner).

(** ** Proofs *)
Lemma effect_spec top e : has_effect top e = true <-> effective (top = true) e.
Proof.
  split.
  - destruct e; try discriminate; intro H; try constructor. cbn [has_effect] in H. destruct top; [|discriminate H]. destruct curly; [discriminate H|]. now constructor.
  - intros [ ]; try reflexivity. cbn [has_effect]. now rewrite H.
Qed.
Lemma comment_block_spec e : is_comment_block e = true <-> exists c p, e = ECommentBlock c p.
Proof. split; [destruct e; try discriminate; eauto|intros (c & p & ->); reflexivity]. Qed.
Lemma string_spec e : is_string e = true <-> exists s, e = EStr s.
Proof. split; [destruct e; try discriminate; eauto|intros (s & ->); reflexivity]. Qed.
Lemma check_spec (T D : Prop) top func : (top = true <-> T) -> (top || func = true <-> D) -> forall body, in_block T D body (noEffectStatementsCheck top func false body).
Proof.
  intros HT HD body. unfold in_block.
  assert (G : forall l pre seen, body = pre ++ l -> (seen = false <-> forall y, In y pre -> exists c p, y = ECommentBlock c p) -> those (pointless T D body) (List.length pre) l (noEffectStatementsCheck top func seen l)).
  { induction l as [|s l IH]; intros pre seen E Se; [constructor|].
    assert (Ef : has_effect top s = true <-> effective T s).
    { rewrite effect_spec. split; intros [ ]; try constructor; apply HT; auto. }
    assert (Len : List.length (pre ++ [s]) = Datatypes.S (List.length pre)) by (rewrite app_length; cbn; lia).
    assert (Doc : docstring_at body (List.length pre) s <-> is_string s = true /\ seen = false).
    { unfold docstring_at. rewrite string_spec, Se. split; intros (A & B); split; auto.
      - intros y I. apply In_nth_error in I as (j & N). assert (L : j < List.length pre) by (apply nth_error_Some; rewrite N; discriminate). apply (B j y L). rewrite E, nth_error_app1; auto.
      - intros j y L N. rewrite E, nth_error_app1 in N by auto. apply B. eapply nth_error_In; eauto. }
    assert (Next : forall seen', (seen' = false <-> seen = false /\ exists c p, s = ECommentBlock c p) -> those (pointless T D body) (Datatypes.S (List.length pre)) l (noEffectStatementsCheck top func seen' l)).
    { intros seen' H. rewrite <- Len. apply IH; [rewrite <- app_assoc; exact E|]. rewrite H, Se. split.
      - intros (A & B) y I. apply in_app_iff in I as [I|[<-|[]]]; auto.
      - intro A. split; [intros y I; apply A, in_app_iff; auto|apply A, in_app_iff; right; now left]. }
    cbn [noEffectStatementsCheck]. destruct (is_string s && negb seen && (top || func)) eqn:B.
    - apply Bool.andb_true_iff in B as (B & B3). apply Bool.andb_true_iff in B as (B1 & B2). apply Bool.negb_true_iff in B2. apply th_no.
      + intros (_ & N). apply N. split; [now apply HD|]. now apply Doc.
      + apply Next. split; [discriminate|]. intros (_ & c & p & ->). discriminate B1.
    - assert (N : ~ (D /\ docstring_at body (List.length pre) s)).
      { intros (d & dd). apply HD in d. apply Doc in dd as (d1 & d2). rewrite d, d1, d2 in B. discriminate B. }
      assert (Tail : those (pointless T D body) (Datatypes.S (List.length pre)) l (noEffectStatementsCheck top func (seen || negb (is_comment_block s)) l)).
      { apply Next. rewrite Bool.orb_false_iff, Bool.negb_false_iff, comment_block_spec. tauto. }
      destruct (has_effect top s) eqn:H; cbn [app].
      + apply th_no; auto. intros (K & _). apply K, Ef. reflexivity.
      + apply th_yes; auto. split; auto. intro K. apply Ef in K. discriminate K. }
  apply (G body [] false); auto. split; [intros _ y []|auto].
Qed.
Lemma own_spec e : in_own_blocks e (block_findings e).
Proof.
  assert (F : false = true <-> False) by (split; [discriminate|intros []]). assert (T : true = true <-> True) by tauto.
  destruct e; try (apply ob_other; left; reflexivity); cbn [block_findings].
  - apply ob_other. right. eauto.
  - apply ob_def. now apply check_spec.
  - apply ob_for. now apply check_spec.
  - apply ob_if; now apply check_spec.
Qed.
Definition inner_findings (stk : list expr) (e : expr) : list expr := flat_map (fun v => block_findings (fst v)) (flat_map (visit_stmts (fun _ _ => false) stk) (blocks e)).
Lemma inner_spec n : forall e stk, height e <= n -> exists inner, Forall2 without_effect (blocks e) inner /\ inner_findings stk e = List.concat inner.
Proof.
  induction n as [|n IH]; intros e stk L; [rewrite height_unfold in L; lia|]. unfold inner_findings.
  assert (Hb : forall x, In x (blocks e) -> height x <= n) by (intros x I; apply block_child in I; lia). revert Hb. generalize (blocks e) as l. induction l as [|x l IHl]; intro H; [exists []; split; [constructor|reflexivity]|].
  destruct IHl as (inner & F & E); [intros; apply H; now right|]. destruct (IH x (stk ++ [x]) (H x (or_introl eq_refl))) as (inner' & F' & E').
  exists ((block_findings x ++ List.concat inner') :: inner). split; [constructor; auto; constructor; auto; apply own_spec|]. cbn [flat_map List.concat]. rewrite flat_map_app, E. f_equal. rewrite visit_stmts_unfold. cbn [flat_map fst]. f_equal.
  destruct (IH x (stk ++ [x]) (H x (or_introl eq_refl))) as (i2 & F2 & E2). rewrite <- E'. reflexivity.
Qed.
Theorem C102_no_effect : forall f t stmts, a_file f t stmts -> exists top inner, in_block True True (blocks f) top /\ Forall2 without_effect (blocks f) inner /\ noEffectWarning f = top ++ List.concat inner.
Proof.
  intros f t stmts (c & path & pk & la & ->). unfold noEffectWarning. rewrite visit_stmts_unfold. set (f := EFile c (FMeta path pk la t) stmts). cbn [flat_map fst]. change (block_findings f) with (@nil expr). cbn [app].
  destruct (inner_spec (height f) f ([] ++ [f]) (le_n _)) as (inner & F & E). exists (noEffectStatementsCheck true false false (blocks f)), inner. split; [apply check_spec; split; auto|]. split; auto.
  replace (blocks f) with (flat_map (opt_list (fun x => x)) (CallLints.stmts_of f)) at 1 by (apply flat_map_ext; intros [x|]; reflexivity). f_equal. exact E.
Qed.
Print Assumptions C102_no_effect.
(** The relations leave no choice. *)
Lemma those_fun P l : forall k b b', those P k l b -> those P k l b' -> b = b'.
Proof. induction l as [|x l IH]; intros k b b' H H'; inversion H; inversion H'; subst; try contradiction; auto; [f_equal; eauto|eauto]. Qed.
Lemma those_empty P k b : those P k [] b -> b = [].
Proof. now inversion 1. Qed.
Lemma own_fun e b b' : in_own_blocks e b -> in_own_blocks e b' -> b = b'.
Proof.
  assert (Z : forall top doc b, in_block top doc [] b -> b = []) by (intros ? ? ? H; now apply those_empty in H).
  assert (U : forall top doc l b b', in_block top doc l b -> in_block top doc l b' -> b = b') by (intros ? ? ? ? ? H H'; eapply those_fun; eauto).
  intros H H'. destruct H; inversion H'; subst; auto; try (eapply U; eauto; fail); try (f_equal; eapply U; eauto; fail);
    repeat match goal with K : _ \/ _ |- _ => destruct K as [K|(? & ? & ? & K)]; [cbn [blocks] in K|discriminate K] end; subst;
    repeat match goal with K : _ ++ _ = [] |- _ => apply app_eq_nil in K as [-> ->] | K : in_block _ _ [] _ |- _ => apply Z in K; subst end; auto.
Qed.
Lemma without_fun n : forall e b b', height e <= n -> without_effect e b -> without_effect e b' -> b = b'.
Proof.
  induction n as [|n IH]; intros e b b' L H H'; [rewrite height_unfold in L; lia|]. destruct H as [e own inner O F]. inversion H' as [? own' inner' O' F' E1 E2]. subst. f_equal; [eapply own_fun; eauto|].
  assert (Hb : forall x, In x (blocks e) -> height x <= n) by (intros x I; apply block_child in I; lia). clear - F F' IH Hb. f_equal. revert inner' F'. induction F as [|x b l bs Hx F IHF]; intros inner' F'; inversion F'; subst; auto. f_equal; [eapply IH; eauto; apply Hb; now left|apply IHF; auto; intros; apply Hb; now right].
Qed.
Theorem C102_unique : forall e b b', without_effect e b -> without_effect e b' -> b = b'.
Proof. intros e b b'. exact (without_fun (height e) e b b' (le_n _)). Qed.
Print Assumptions C102_unique.
Definition ex_no_effect : list bytes :=
  [%"# comment"; %""; %"""docstring"""; %""; %"""no docstring"""; %"[f(x) for x in y]"; %"{f(x): 1 for x in y}"; %"x"; %""; %"def f():"; %"    # comment"; %"    ""docstring"""; %"    if x:"; %"        ""no docstring"""; %"        [g(x) for x in y]"; %"        return 1"; %"    else:"; %"        1 + f()"; %"        pass"; %"    for i in x:"; %"        def g():"; %"            1"; %"            ""no docstring"""; %"            f()"; %"            (f())"].
Example C102_nontrivial : PropApiLints.checked (fun f => map PropApiLints.start_of (noEffectWarning f)) ex_no_effect = Some [(5, 1); (7, 1); (8, 1); (14, 9); (15, 9); (18, 9); (22, 13); (23, 13); (25, 13)]%Z.
Proof. vm_compute. reflexivity. Qed.
