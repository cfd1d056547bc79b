(** C70: trees that tools build are printed with the parentheses they need. *)
From Verif Require Import LRTables LRCert Parse PropComplete.
From Verif Require Import Base BaseProofs Ast Utf8 Quote Lex LexSpec LexProofs ParseSpec ShapeSpec ParseLex Print PrintSpec PropPrint GroupSpec Group GroupTidy GroupBuilt.
Local Open Scope list_scope.

(** Any file that consists of parts of the right kinds, in the layout that C30 asks for: the text is read as the same tree, so
    every operand is still the operand of its operator.  Missing: conditional expressions as operands, after [else], and after
    the first comma of a tuple without parentheses; fields of number literals; the operators [is] and [is not] (refuted below). *)
Theorem C70_built_partial c m l : all_of (built Statement) (stmts_of (EFile c m l)) -> tidy_file (EFile c m l) ->
  exists out l', FormatWithoutRewriting (EFile c m l) = Some out /\ parse out = Accepted l' /\ meanings l' = meanings (stmts_of (EFile c m l)).
Proof.
  intros B T. destruct (program_said _ B) as (ts & W & P). rewrite <- (stmts_group c m) in P.
  destruct (C30_tree_partial _ _ _ _ P W (tidy_file_group _ _ _ T)) as (out & l' & F & A & M). exists out, l'. split; [|split; [exact A|]].
  - rewrite <- F. unfold FormatWithoutRewriting. now rewrite printed_group.
  - rewrite M, stmts_group. apply meanings_group.
Qed.

Definition x_ (n : bytes) : expr := EIdent (Ident no_com no_pos n).
Definition n_ (n : bytes) : expr := ELit no_com no_pos n.
Definition s_ (v : bytes) : expr := EStr (Str no_com no_pos v false no_pos []).
Definition bin (op : bytes) (a b : expr) : expr := EBinary no_com a no_pos op false b.
Definition un (op : bytes) (a : expr) : expr := EUnary no_com no_pos op (Some a).
Definition set_ (n : bytes) (e : expr) : expr := EAssign no_com (x_ n) no_pos %"=" false e.
Definition dot_ (a : expr) (n : bytes) : expr := EDot no_com a no_pos no_pos n.
Definition cond_ (a b c : expr) : expr := ECond no_com a no_pos b no_pos c.
Definition lam_ (b : expr) : expr := ELambda no_com no_pos [x_ %"p"; EAssign no_com (x_ %"q") no_pos %"=" false (n_ %"1")] [b].
Definition call_ (f : expr) (l : list expr) : expr := ECall no_com f no_pos l no_end false false.
Definition list_ (l : list expr) : expr := EList no_com no_pos l no_end false.
Definition file_ (l : list expr) : expr := EFile no_com meta (map Some l).
Definition sample_built : list expr :=
  [ set_ %"a" (bin %"*" (bin %"+" (x_ %"b") (x_ %"c")) (bin %"-" (x_ %"d") (bin %"-" (n_ %"1") (n_ %"2"))));
    EIf no_com no_pos (un %"not" (bin %"and" (x_ %"a") (x_ %"b")))
      [set_ %"e" (dot_ (bin %"or" (s_ %"x""y") (lam_ (cond_ (x_ %"p") (x_ %"q") (x_ %"r")))) %"f")] no_end
      [EReturn no_com no_pos (Some (ETuple no_com true no_pos [un %"-" (un %"-" (x_ %"z")); call_ (un %"~" (x_ %"k")) [un %"*" (bin %"+" (x_ %"u") (x_ %"v")); list_ []]] no_end false false))] ].
Lemma name_by c s : forallb isIdent (c :: s) && negb (is_digit c) && negb (mem_bytes (c :: s) (map fst keywords)) = true -> is_name (c :: s).
Proof.
  intro H. apply andb_true_iff in H as [H H3]. apply andb_true_iff in H as [H1 H2]. apply negb_true_iff in H2, H3. split; [|split]; cbn [t_tok].
  - exists c, s. split; [reflexivity|]. rewrite <- is_digit_spec. congruence.
  - apply Forall_forall. intros x X. apply isIdent_spec. rewrite forallb_forall in H1. auto.
  - intros k K. apply (in_map fst) in K. apply mem_bytes_In in K. cbn [fst] in K. congruence.
Qed.
Lemma digit_by c : is_digit c = true -> is_int [c].
Proof.
  intro H. split; cbn [t_tok]; [exists c, []; split; [reflexivity|now apply is_digit_spec]|]. intros b d s E. destruct b as [|x b]; [|destruct b; discriminate]. injection E as <- <-.
  left. apply isIdent_spec. unfold isIdent. unfold is_digit in H. rewrite H. now rewrite ?orb_true_r.
Qed.
Lemma fresh_str s : s_token s = [] -> s_value s <> [] -> is_string s.
Proof. intros E V H. rewrite E in H. vm_compute in H. injection H as H _. congruence. Qed.
Ltac pick_ :=
  lazymatch goal with
  | |- True => exact Logic.I
  | |- _ /\ _ => split; pick_
  | |- fits _ _ => unfold fits; pick_
  | |- In _ _ => solve [apply mem_bytes_In; vm_compute; reflexivity | cbn; tauto]
  | |- _ = _ => reflexivity
  | |- ident_ok _ => apply name_by; vm_compute; reflexivity
  | |- is_name _ => apply name_by; vm_compute; reflexivity
  | |- is_number _ => left; apply digit_by; reflexivity
  | |- is_string _ => apply fresh_str; [reflexivity|discriminate]
  | |- 2 <= _ => cbn; repeat constructor
  | |- _ <> _ => discriminate
  | |- all_of _ _ => progress cbn [all_of]; pick_
  | |- if_any _ _ => progress cbn [if_any]; pick_
  | |- not_lit _ => exact Logic.I
  | |- _ \/ _ => first [left; pick_ | right; pick_]
  | |- built _ _ => cbn [built]; pick_
  | |- let _ := _ in _ => cbv zeta; pick_
  | |- match _ with _ => _ end => cbv iota beta; pick_
  end.
Example sample_is_built : all_of (built Statement) (stmts_of (file_ sample_built)).
Proof.
  unfold file_, sample_built, set_, lam_, list_, un, bin, dot_, cond_, call_, x_, s_, n_. cbn [stmts_of map flat_map app all_of]. pick_.
Qed.

Lemma fine_none : fine_coms no_com.
Proof. repeat split; constructor. Qed.
Ltac tidy_ :=
  lazymatch goal with
  | |- True => exact Logic.I
  | |- fine_coms _ => exact fine_none
  | |- fine_str _ => split; [exact fine_none|vm_compute; discriminate]
  | |- _ /\ _ => split; tidy_
  | |- _ <> Inside -> _ => intros _; reflexivity
  | |- _ = InTuple -> _ => intros _; reflexivity
  | |- _ = _ => reflexivity
  | |- tidy _ _ => cbn [tidy com no_com c_before c_suffix c_after e_com s_com i_com]; tidy_
  | |- all_of _ _ => progress cbn [all_of]; tidy_
  | |- if_any _ _ => progress cbn [if_any]; tidy_
  end.
Example sample_is_tidy : tidy_file (file_ sample_built).
Proof.
  unfold file_, sample_built, set_, lam_, list_, un, bin, dot_, cond_, call_, x_, s_, n_. split; [exact fine_none|]. cbn [map].
  repeat (constructor; [tidy_|]). constructor.
Qed.
Example sample_built_printed : FormatWithoutRewriting (file_ sample_built) = Some (lines
  [%"a = (b + c) * (d - (1 - 2))"; %"if not (a and b):"; %"    e = (""x\""y"" or (lambda p, q = 1: p if q else r)).f";
   %"else:"; %"    return -(-z), (~k)(*(u + v), [])"]).
Proof. vm_compute. reflexivity. Qed.

(** Missing parentheses.  A file is changed by printing when its text is refused, or is read as another tree. *)
Definition changed_as (f : expr) (out : bytes) : Prop :=
  FormatWithoutRewriting f = Some out /\ exists l, parse out = Accepted l /\ meanings l <> meanings (stmts_of f).
Definition refused_as (f : expr) (out : bytes) : Prop :=
  FormatWithoutRewriting f = Some out /\ forall l, parse out <> Accepted l.
(** (a if b else c) + d *)
Theorem C70_conditional_operand_refuted :
  changed_as (file_ [set_ %"x" (bin %"+" (cond_ (x_ %"a") (x_ %"b") (x_ %"c")) (x_ %"d"))]) (lines [%"x = a if b else c + d"]).
Proof. split; [vm_compute; reflexivity|]. eexists. split; [vm_compute; reflexivity|]. vm_compute. discriminate. Qed.
(** (a) if b else (c if d else e) *)
Theorem C70_conditional_else_refuted :
  changed_as (file_ [set_ %"x" (cond_ (x_ %"a") (x_ %"b") (cond_ (x_ %"c") (x_ %"d") (x_ %"e")))]) (lines [%"x = a if b else c if d else e"]).
Proof. split; [vm_compute; reflexivity|]. eexists. split; [vm_compute; reflexivity|]. vm_compute. discriminate. Qed.
(** a is not (a or b) *)
Theorem C70_is_not_refuted :
  changed_as (file_ [set_ %"x" (bin %"is not" (x_ %"a") (bin %"or" (x_ %"a") (x_ %"b")))]) (lines [%"x = (a is not a or b)"]).
Proof. split; [vm_compute; reflexivity|]. eexists. split; [vm_compute; reflexivity|]. vm_compute. discriminate. Qed.
(** (1).f *)
Theorem C70_number_field_refuted : refused_as (file_ [set_ %"x" (dot_ (n_ %"1") %"f")]) (lines [%"x = 1.f"]).
Proof. split; [vm_compute; reflexivity|]. intros l H. vm_compute in H. discriminate H. Qed.
(** A conditional expression after the first comma of a tuple without parentheses *)
Theorem C70_tuple_refuted :
  refused_as (file_ [set_ %"x" (ETuple no_com true no_pos [x_ %"a"; cond_ (x_ %"b") (x_ %"c") (x_ %"d")] no_end false false)]) (lines [%"x = a, b if c else d"]).
Proof. split; [vm_compute; reflexivity|]. intros l H. vm_compute in H. discriminate H. Qed.
Print Assumptions C70_built_partial. Print Assumptions C70_conditional_operand_refuted. Print Assumptions C70_conditional_else_refuted.
Print Assumptions C70_is_not_refuted. Print Assumptions C70_number_field_refuted. Print Assumptions C70_tuple_refuted.
