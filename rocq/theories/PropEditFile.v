(** Properties C43 (new rules) and C44 (package declaration). *)
From Verif Require Import Base BaseProofs Ast Walk Rewrite RuleApi RuleSpec RuleProofs Loads LoadsSpec CallSpec EditFile EditFileSpec EditListSpec EditListProofs PropRule.

Lemma call_of_spec name s : ExprToRule s name = true <-> call_of name s.
Proof.
  unfold ExprToRule, call_of, is_function_call. split.
  - destruct s as [[]|]; try discriminate. destruct x; try discriminate. intros H. apply beq_eq in H. eauto 12.
  - intros (c & i & p & l & e & k & m & -> & <-). apply beq_refl.
Qed.
Lemma comment_block_spec s : is_comment_block s = true <-> comment_block s.
Proof.
  unfold comment_block. split; [destruct s as [[]|]; try discriminate; eauto|]. intros (c & p & ->). reflexivity.
Qed.
Lemma package_skips_spec s : package_skips s = true <-> before_package s.
Proof.
  unfold before_package, isWorkspaceCall. rewrite <- call_of_spec, <- comment_block_spec.
  assert (L : is_load s <-> is_load_stmt s = true).
  { unfold is_load. split; [intros (c & p & m & f & t & r & k & ->); reflexivity|]. destruct s as [[]|]; try discriminate. eauto 12. }
  rewrite L. unfold string_stmt. unfold package_skips, isWorkspaceCall.
  destruct s as [[]|]; cbn [is_comment_block is_load_stmt ExprToRule is_function_call]; split; try tauto; try discriminate; intros H; repeat (destruct H as [H|H]; try discriminate; auto); try (destruct H; discriminate).
  all: eauto.
Qed.
Lemma span_spec {A} (P : A -> Prop) (p : A -> bool) l : (forall x, p x = true <-> P x) ->
  let (a, b) := span p l in l = a ++ b /\ longest_prefix P a b.
Proof.
  intros H. unfold longest_prefix. induction l as [|x l IH]; cbn [span]; [repeat split; auto|].
  destruct (p x) eqn:E.
  - destruct (span p l) as [a b]. destruct IH as (-> & F & N). repeat split; auto. constructor; auto. apply H; auto.
  - repeat split; auto. rewrite <- H. congruence.
Qed.

(** C44: an existing declaration is returned and nothing changes; otherwise one empty declaration is
    inserted after the leading comments, strings, loads and workspace() calls. *)
Theorem C44_declaration :
  forall stmts,
    ((exists s, In s stmts /\ call_of %"package" s) /\ PackageDeclaration stmts = stmts) \/
    ((forall s, In s stmts -> ~ call_of %"package" s) /\
     exists a b d, stmts = a ++ b /\ longest_prefix before_package a b /\
       PackageDeclaration stmts = a ++ d :: b /\ call_of %"package" d /\ calls d (EIdent (Ident no_com no_pos %"package")) []).
Proof.
  intros stmts. unfold PackageDeclaration, ExistingPackageDeclaration. destruct (find _ stmts) as [s|] eqn:F.
  - left. apply find_some in F as [I E]. apply call_of_spec in E. eauto.
  - right. split. { intros s I E. apply call_of_spec in E. apply (find_none _ _ F) in I. congruence. }
    pose proof (span_spec before_package package_skips stmts package_skips_spec) as S. destruct (span package_skips stmts) as [a b].
    destruct S as [-> S]. exists a, b. eexists. split; [reflexivity|]. split; auto. split; [reflexivity|]. unfold new_call. split.
    + exists no_com, (Ident no_com no_pos %"package"), no_pos. do 4 eexists. split; reflexivity.
    + do 5 eexists. reflexivity.
Qed.
Print Assumptions C44_declaration.
(** So it is there once it was asked for, and asking again changes nothing. *)
Theorem C44_once :
  forall stmts, (exists s, In s (PackageDeclaration stmts) /\ call_of %"package" s) /\
    PackageDeclaration (PackageDeclaration stmts) = PackageDeclaration stmts /\
    List.length (filter (fun s => ExprToRule s %"package") (PackageDeclaration stmts)) =
      Nat.max 1 (List.length (filter (fun s => ExprToRule s %"package") stmts)).
Proof.
  intros stmts.
  assert (P : exists s, In s (PackageDeclaration stmts) /\ call_of %"package" s).
  { destruct (C44_declaration stmts) as [[H ->]|(_ & a & b & d & _ & _ & -> & C & _)]; auto. exists d. rewrite in_app_iff. cbn; auto. }
  split; auto. split.
  - destruct (C44_declaration (PackageDeclaration stmts)) as [[_ H]|(N & _)]; auto. destruct P as (s & I & C). exfalso. eapply N; eauto.
  - destruct (C44_declaration stmts) as [[(s & I & C) ->]|(N & a & b & d & -> & _ & -> & C & _)].
    + assert (In s (filter (fun s => ExprToRule s %"package") stmts)) by (apply filter_In; split; auto; apply call_of_spec; auto).
      destruct (filter _ stmts); [contradiction|cbn [List.length]; lia].
    + apply call_of_spec in C.
      assert (Z : forall l, (forall s, In s l -> ~ call_of %"package" s) -> filter (fun s => ExprToRule s %"package") l = []).
      { clear. induction l as [|x l IH]; intros H; auto. cbn [filter]. destruct (ExprToRule x %"package") eqn:E.
        - exfalso. apply call_of_spec in E. eapply H; [left; reflexivity|auto].
        - apply IH. intros; apply H; right; auto. }
      rewrite !filter_app. cbn [filter]. rewrite C, !Z; [reflexivity| |]; intros s I; apply N; apply in_app_iff; auto.
Qed.
Print Assumptions C44_once.
(** Saving removes exactly the empty declarations. *)
Theorem C44_remove_empty :
  forall stmts, without (fun s => exists x, calls s (EIdent x) [] /\ i_name x = %"package") stmts (RemoveEmptyPackage stmts).
Proof.
  intros stmts. unfold RemoveEmptyPackage. apply without_filter. intros s. unfold isEmptyPackage. split.
  - destruct s as [[]|]; try discriminate. destruct x; try discriminate. destruct args; try discriminate. intros H. apply beq_eq in H.
    exists i. split; auto. do 5 eexists. reflexivity.
  - intros (x & (c & p & en & k & m & ->) & E). rewrite E. reflexivity.
Qed.
Print Assumptions C44_remove_empty.
Theorem C44_remove_empty_use_repo :
  forall ty stmts, ty = TypeModule ->
    without (fun s => exists x a, calls s (EIdent x) [a] /\ i_name x = %"use_repo") stmts (RemoveEmptyUseRepoCalls ty stmts).
Proof.
  intros ty stmts ->. apply without_filter. intros s. unfold isEmptyUseRepoCall. split.
  - destruct s as [[]|]; try discriminate. destruct x; try discriminate. destruct args as [|a [|? ?]]; try discriminate. intros H. apply beq_eq in H.
    exists i, a. split; auto. do 5 eexists. reflexivity.
  - intros (x & a & (c & p & en & k & m & ->) & E). rewrite E. reflexivity.
Qed.
Print Assumptions C44_remove_empty_use_repo.
Theorem C44_use_repo_other_files : forall ty stmts, ty <> TypeModule -> RemoveEmptyUseRepoCalls ty stmts = stmts.
Proof. intros [] stmts H; auto. congruence. Qed.
Print Assumptions C44_use_repo_other_files.
(** Creating the declaration and saving without using it gives the file back. *)
Theorem C44_unused :
  forall stmts, (forall s, In s stmts -> ~ call_of %"package" s) -> RemoveEmptyPackage (PackageDeclaration stmts) = stmts.
Proof.
  intros stmts N. destruct (C44_declaration stmts) as [[(s & I & C) _]|(_ & a & b & d & -> & _ & -> & _ & (c & p & en & k & m & ->))]; [exfalso; eapply N; eauto|].
  unfold RemoveEmptyPackage. rewrite filter_app. cbn [filter isEmptyPackage i_name]. rewrite beq_refl. cbn [negb].
  assert (Z : forall l, (forall s, In s l -> ~ call_of %"package" s) -> filter (fun s => negb (isEmptyPackage s)) l = l).
  { clear. induction l as [|x l IH]; intros H; auto. cbn [filter]. rewrite IH by (intros; apply H; right; auto).
    destruct (isEmptyPackage x) eqn:E; auto. exfalso. apply (H x); [left; auto|]. apply call_of_spec. unfold isEmptyPackage in E. unfold ExprToRule, is_function_call.
    destruct x as [[]|]; try discriminate. destruct x; try discriminate. destruct args; try discriminate. auto. }
  rewrite !Z; auto; intros s I; apply N; apply in_app_iff; auto.
Qed.
Print Assumptions C44_unused.
Definition load1 (m : bytes) (names : list bytes) : option expr := NewLoad m names names.
Example C44_nontrivial :
  PackageDeclaration [Some (str %"doc"); load1 %":x.bzl" [%"a"]; named_call %"r" %"n"] =
    [Some (str %"doc"); load1 %":x.bzl" [%"a"]; new_call %"package" []; named_call %"r" %"n"] /\
  RemoveEmptyPackage [call %"package" []; call %"package" [num %"1"]; named_call %"r" %"n"] = [call %"package" [num %"1"]; named_call %"r" %"n"].
Proof. split; vm_compute; reflexivity. Qed.

(** C43. *)
Lemma find_index_spec {A} (P : A -> Prop) (p : A -> bool) l : (forall x, In x l -> (p x = true <-> P x)) ->
  match find_index p l with
  | Some i => first_index P l i
  | None => forall x, In x l -> ~ P x
  end.
Proof.
  induction l as [|x l IH]; intros H; cbn [find_index]; [contradiction|].
  destruct (p x) eqn:E.
  - exists [], x, l. repeat split; auto. apply H; [left; auto|auto].
  - assert (N : ~ P x) by (rewrite <- H by (left; auto); congruence).
    assert (IH' := IH (fun y Hy => H y (or_intror Hy))). destruct (find_index p l) as [i|]; cbn [option_map].
    + destruct IH' as (a & y & b & -> & Py & <- & F). exists (x :: a), y, b. repeat split; auto.
    + intros y [<-|Hy]; auto.
Qed.
Definition line_ref (name : bytes) : option Z :=
  match name with c :: n => if Ascii.eqb c "%" then Atoi n else None | [] => None end.
(** Positions come from the parser, or are zero. *)
Definition real_lines (stmts : list (option expr)) : Prop :=
  forall s x args, In s stmts -> calls s x args -> (0 <= p_line (start_pos x))%Z.
Lemma found_spec path stmts name s : real_lines stmts -> In s stmts ->
  (found_by_name path stmts name s = true <-> answers_to (dir_name path) (line_ref name) stmts name s).
Proof.
  intros R I. unfold found_by_name, answers_to.
  assert (Ln : forall x args, calls s x args -> (Z.eqb (p_line (start_pos x)) (line_of name) = true <-> line_ref name = Some (p_line (start_pos x)))).
  { intros x args C. apply (R _ _ _ I) in C. unfold line_of, line_ref. destruct name as [|c n]; [rewrite Z.eqb_eq; split; [lia|discriminate]|].
    destruct (Ascii.eqb c "%"); [|rewrite Z.eqb_eq; split; [lia|discriminate]]. destruct (Atoi n); rewrite Z.eqb_eq; split; try congruence; try lia. }
  destruct (stmt_call s) as [[x args]|] eqn:C.
  - apply stmt_call_spec in C. rewrite !orb_true_iff, andb_true_iff, beq_eq, (name_in_file_is path stmts), (Ln x args C), beq_eq, call_of_spec.
    split.
    + intros H. exists x, args. tauto.
    + intros (x' & args' & C' & H). apply stmt_call_spec in C, C'. rewrite C in C'. injection C' as <- <-. tauto.
  - split; [discriminate|]. intros (x & args & C' & _). apply stmt_call_spec in C'. congruence.
Qed.
Lemma IndexOfRuleByName_spec path stmts name : real_lines stmts ->
  match IndexOfRuleByName path stmts name with
  | Some i => first_index (answers_to (dir_name path) (line_ref name) stmts name) stmts i
  | None => forall s, In s stmts -> ~ answers_to (dir_name path) (line_ref name) stmts name s
  end.
Proof. intros R. apply find_index_spec. intros. apply found_spec; auto. Qed.
Lemma IndexOfLast_spec stmts kind :
  match IndexOfLast stmts kind with
  | 0 => forall s, In s stmts -> ~ call_of kind s
  | S i => last_index (call_of kind) stmts i
  end.
Proof.
  induction stmts as [|s l IH]; cbn [IndexOfLast]; [contradiction|]. destruct (IndexOfLast l kind) as [|i].
  - destruct (ExprToRule s kind) eqn:E.
    + exists [], s, l. repeat split; [apply call_of_spec; auto|]. apply Forall_forall; auto.
    + intros x [<-|Hx]; auto. rewrite <- call_of_spec. congruence.
  - destruct IH as (a & x & b & -> & P & <- & F). exists (s :: a), x, b. repeat split; auto.
Qed.
(** Where [new] puts the rule: [n] is the number of statements before it. *)
Definition at_end (kind : bytes) (stmts : list (option expr)) (n : nat) : Prop :=
  (exists i, last_index (call_of kind) stmts i /\ n = S i) \/
  ((forall s, In s stmts -> ~ call_of kind s) /\
   exists a b, stmts = a ++ b /\ n = List.length a /\ Forall comment_block b /\ (a = [] \/ exists a' s, a = a' ++ [s] /\ ~ comment_block s)).
Definition place (path : bytes) (stmts : list (option expr)) (kind : bytes) (relative : list bytes) (n : nat) : Prop :=
  match relative with
  | op :: rel :: _ =>
      (exists i, first_index (answers_to (dir_name path) (line_ref rel) stmts rel) stmts i /\
         ((op = %"before" /\ n = i) \/ (op = %"after" /\ n = S i))) \/
      ((forall s, In s stmts -> ~ answers_to (dir_name path) (line_ref rel) stmts rel s) /\ at_end kind stmts n)
  | _ => at_end kind stmts n
  end.
Lemma InsertAtEnd_spec stmts e : exists a b, stmts = a ++ b /\ InsertAtEnd stmts e = a ++ e :: b /\
  Forall comment_block b /\ (a = [] \/ exists a' s, a = a' ++ [s] /\ ~ comment_block s).
Proof.
  unfold InsertAtEnd. pose proof (span_spec comment_block is_comment_block (rev stmts) comment_block_spec) as S.
  destruct (span is_comment_block (rev stmts)) as [a b]. destruct S as [E [F N]]. cbn [snd].
  assert (E' : stmts = rev b ++ rev a) by (rewrite <- rev_app_distr, <- E, rev_involutive; auto). clear E.
  exists (rev b), (rev a). split; auto. split.
  - unfold InsertAfter. rewrite E', <- rev_length, firstn_app, firstn_all, Nat.sub_diag, skipn_app, skipn_all, Nat.sub_diag. cbn [firstn skipn app]. rewrite app_nil_r. auto.
  - split; [apply Forall_rev; auto|]. destruct b as [|x b]; [left; auto|right]. exists (rev b), x. auto.
Qed.
Lemma insert_at {A} (l : list A) n e : n <= List.length l -> exists a b, l = a ++ b /\ firstn n l ++ e :: skipn n l = a ++ e :: b /\ List.length a = n.
Proof. intros H. exists (firstn n l), (skipn n l). rewrite firstn_skipn, firstn_length. repeat split; auto. lia. Qed.
Lemma first_index_bound {A} (P : A -> Prop) l i : first_index P l i -> i < List.length l.
Proof. intros (a & x & b & -> & _ & <- & _). rewrite app_length. cbn [List.length]. lia. Qed.
Lemma last_index_bound {A} (P : A -> Prop) l i : last_index P l i -> i < List.length l.
Proof. intros (a & x & b & -> & _ & <- & _). rewrite app_length. cbn [List.length]. lia. Qed.
Theorem C43_new :
  forall path stmts kind name relative stmts', real_lines stmts ->
    cmdNew path stmts (kind :: name :: relative) = Some stmts' ->
    exists pre post rule, stmts = pre ++ post /\ stmts' = pre ++ rule :: post /\
      (exists args, calls rule (EIdent (Ident no_com no_pos kind)) args /\ AttrKeys args = [%"name"] /\ List.length args = 1 /\ string_attr %"name" args name) /\
      place path stmts kind relative (List.length pre) /\
      (forall s, In s stmts -> ~ answers_to (dir_name path) (line_ref name) stmts name s).
Proof.
  intros path stmts kind name relative stmts' R H. unfold cmdNew in H.
  destruct (findInsertionIndex path stmts (kind :: name :: relative)) as [w|] eqn:W; [|discriminate].
  destruct (beq name %"__pkg__"); [discriminate|]. pose proof (IndexOfRuleByName_spec path stmts name R) as NF.
  destruct (IndexOfRuleByName path stmts name); [discriminate|]. injection H as <-.
  set (args := SetAttr %"name" (EStr (Str no_com no_pos name false no_pos [])) []).
  set (rule := new_call kind args).
  assert (Rl : exists args, calls rule (EIdent (Ident no_com no_pos kind)) args /\ AttrKeys args = [%"name"] /\ List.length args = 1 /\ string_attr %"name" args name).
  { exists args. split; [do 5 eexists; reflexivity|]. split; [reflexivity|]. split; [reflexivity|]. exists (Str no_com no_pos name false no_pos []). split; [|reflexivity]. apply ai_here. do 5 eexists. split; reflexivity. }
  assert (AE : exists pre post, stmts = pre ++ post /\ InsertAfterLastOfSameKind stmts kind rule = pre ++ rule :: post /\ at_end kind stmts (List.length pre)).
  { unfold InsertAfterLastOfSameKind. pose proof (IndexOfLast_spec stmts kind) as L. destruct (IndexOfLast stmts kind) as [|i].
    - destruct (InsertAtEnd_spec stmts rule) as (a & b & E & E' & F & T). exists a, b. split; auto. split; auto. right. split; auto. exists a, b. auto.
    - pose proof (last_index_bound _ _ _ L). destruct (insert_at stmts (S i) rule) as (a & b & E & E' & Le); [lia|]. exists a, b. split; auto. split; auto.
      left. exists i. rewrite Le. auto. }
  unfold findInsertionIndex in W.
  assert (D : w = None /\ (forall n, at_end kind stmts n -> place path stmts kind relative n) \/
              exists i, w = Some i /\ i <= List.length stmts /\ place path stmts kind relative i).
  { destruct relative as [|op [|rel more]]; try (injection W as <-; left; split; auto).
    pose proof (IndexOfRuleByName_spec path stmts rel R) as I. destruct (IndexOfRuleByName path stmts rel) as [i|].
    - right. pose proof (first_index_bound _ _ _ I).
      destruct (beq_spec op %"before") as [->|nb]; [|destruct (beq_spec op %"after") as [->|na]; [|discriminate]]; injection W as <-; eexists; (split; [reflexivity|]); split; try lia.
      + left. exists i. auto.
      + left. exists i. auto.
    - injection W as <-. left. split; auto. intros n Hn. right. auto. }
  destruct D as [[-> D]|(i & -> & Li & D)].
  - destruct AE as (pre & post & E & E' & A). exists pre, post, rule. auto 8.
  - destruct (insert_at stmts i rule Li) as (a & b & E & E' & Le). exists a, b, rule. unfold InsertAfter. rewrite Le. auto 8.
Qed.
Print Assumptions C43_new.
(** It fails exactly if the name is taken or the relative operator is unknown. *)
Theorem C43_refused :
  forall path stmts kind name relative, real_lines stmts ->
    (cmdNew path stmts (kind :: name :: relative) = None <->
     name = %"__pkg__" \/ (exists s, In s stmts /\ answers_to (dir_name path) (line_ref name) stmts name s) \/
     (exists op rel more s, relative = op :: rel :: more /\ In s stmts /\ answers_to (dir_name path) (line_ref rel) stmts rel s /\
        op <> %"before" /\ op <> %"after")).
Proof.
  intros path stmts kind name relative R. unfold cmdNew.
  assert (X : forall n, (exists i, IndexOfRuleByName path stmts n = Some i) <-> exists s, In s stmts /\ answers_to (dir_name path) (line_ref n) stmts n s).
  { intros n. pose proof (IndexOfRuleByName_spec path stmts n R) as I. destruct (IndexOfRuleByName path stmts n) as [i|].
    - split; eauto. intros _. destruct I as (a & x & b & E & P & _). exists x. rewrite E at 1. rewrite in_app_iff. cbn; auto.
    - split; [intros (i & H); discriminate|]. intros (s & Hs & A). exfalso. eapply I; eauto. }
  assert (F : findInsertionIndex path stmts (kind :: name :: relative) = None <->
     exists op rel more s, relative = op :: rel :: more /\ In s stmts /\ answers_to (dir_name path) (line_ref rel) stmts rel s /\ op <> %"before" /\ op <> %"after").
  { unfold findInsertionIndex. destruct relative as [|op [|rel more]].
    - split; [discriminate|]. intros (? & ? & ? & ? & H & _); discriminate.
    - split; [discriminate|]. intros (? & ? & ? & ? & H & _); discriminate.
    - specialize (X rel). split.
      + destruct (IndexOfRuleByName path stmts rel) as [i|]; [|discriminate]. destruct (beq_spec op %"before"); [discriminate|]. destruct (beq_spec op %"after"); [discriminate|].
        intros _. destruct (proj1 X (ex_intro _ i eq_refl)) as (s & Hs & A). exists op, rel, more, s. auto.
      + intros (o & r & mo & s & [= <- <- <-] & Hs & A & n1 & n2). destruct (proj2 X (ex_intro _ s (conj Hs A))) as (i & ->).
        apply beq_neq in n1, n2. rewrite n1, n2. auto. }
  rewrite <- F, <- X. destruct (findInsertionIndex path stmts (kind :: name :: relative)) as [w|]; [|tauto].
  destruct (beq_spec name %"__pkg__") as [->|np]; [tauto|]. destruct (IndexOfRuleByName path stmts name) as [i|].
  - split; eauto.
  - split; [discriminate|]. intros [?|[(i & ?)|?]]; [contradiction|discriminate|discriminate].
Qed.
Print Assumptions C43_refused.
Example C43_nontrivial :
  cmdNew %"p/BUILD" [named_call %"r" %"a"; named_call %"q" %"b"] [%"r"; %"n"] =
    Some [named_call %"r" %"a"; named_call %"r" %"n"; named_call %"q" %"b"] /\
  cmdNew %"p/BUILD" [named_call %"r" %"a"; named_call %"q" %"b"] [%"r"; %"n"; %"before"; %"a"] =
    Some [named_call %"r" %"n"; named_call %"r" %"a"; named_call %"q" %"b"] /\
  cmdNew %"p/BUILD" [named_call %"r" %"a"] [%"r"; %"a"] = None /\
  real_lines [named_call %"r" %"a"; named_call %"q" %"b"].
Proof.
  split; [vm_compute; reflexivity|]. split; [vm_compute; reflexivity|]. split; [vm_compute; reflexivity|].
  intros s x args [<-|[<-|[]]] (c & p & en & k & m & E); injection E as <- <-; cbn; lia.
Qed.
