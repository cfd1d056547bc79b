(** C92: buildozer's copy puts the same value into the rule. *)
From Verif Require Import LRTables LRCert Parse PropComplete.
From Verif Require Import Base BaseProofs Ast Utf8 Quote Lex LexProofs ParseSpec ShapeSpec ParseLex ParseFile Attach AttachSpec PropAttach PropParse Print PrintSpec PrintLex PrintState PrintExpr PrintGood PrintStmt PrintBlock PrintMove PrintFile PrintSource.
From Verif Require Import RuleApi RuleSpec RuleProofs PropRule EditFile RuleCmd.
Local Open Scope list_scope.

(** The value can be written down: some tokens spell it as an expression, and it is laid out as PrintSpec.v says (no line is broken outside of brackets, no comments there). *)
Definition writable (v : expr) : Prop := exists ts, one Expr v ts /\ Forall wf_tok ts /\ PrintSpec.tidy Outside v.
Lemma parsed_all m data f : parse_file m data = Some f -> exists c l stmts, f = EFile c m (map Some l) /\ parse data = Accepted stmts /\ map strip l = map strip stmts.
Proof.
  unfold parse_file. destruct (tokenize data) as [ts st| |] eqn:T; try discriminate. destruct (parse data) as [stmts| |] eqn:P; try discriminate. intros [= <-].
  pose proof (C31_code_unchanged (EFile no_com m (map Some stmts)) (l_lines st) (l_suffixes st)) as E. set (f := assignComments _ _ _) in *. clearbody f.
  destruct f; try discriminate E. cbn [strip] in E. injection E as -> E. rename stmts0 into l. rewrite map_map in E.
  assert (X : exists k, l = map Some k /\ map strip k = map strip stmts).
  { clear - E. revert l E. induction stmts as [|x k IH]; intros [|y l] E; try discriminate; [exists []; auto|]. cbn [map] in E. apply cons_inj in E as [E1 E2]. destruct y as [y|]; [|discriminate]. cbn in E1. destruct (IH l E2) as (k' & -> & E3). exists (y :: k'). cbn [map]. rewrite E3. split; auto. f_equal. now injection E1. }
  destruct X as (k & -> & E2). exists c, k, stmts. auto.
Qed.
Lemma format_reads v : writable v -> exists data c l, FormatString v = Some data /\ parse_file (FMeta [] [] [] TypeBuild) data = Some (EFile c (FMeta [] [] [] TypeBuild) (map Some l)) /\ meanings l = [meaning v].
Proof.
  intros (ts0 & O & W & T). assert (O2 : one Small v ts0) by now apply s_expr. pose proof (good_one Small v ts0 O2 Logic.I W) as G.
  pose proof (small_fresh v ts0 TypeBuild O2 G T) as F.
  assert (S0 : sits (Fresh (o_margin new_printer)) new_printer [] 0 [0]).
  { split; [|split; [reflexivity|constructor]]. exists []. split; [reflexivity|]. split; [auto|]. intro w. apply reads_sim, sim_refl. }
  destruct (F new_printer [] [0] [] [0] S0 (turn_same 0 [0] eq_refl)) as (nz & pre & j & N & (e1 & M & C1 & D) & (Sm & m & ns & xs & A & U & LX & FX & _)); [split; reflexivity|].
  unfold FormatString. set (st := print_expr TypeBuild None v precLow new_printer) in *. cbv zeta. assert (o_ok st = true) as -> by apply Sm. cbn [app] in A.
  assert (CL : closes m [NL]) by (split; [apply no_nl, no_nil|intros _; exists []; split; [reflexivity|apply no_nil]]).
  destruct (U [NL] CL) as (ns4 & Q & N4). apply at_nl in A. cbn [eol] in A. rewrite <- !app_assoc in A. rewrite Q in A.
  assert (R : reads (mk (rev (o_out st) ++ [c_nl]) 0 true 0 [0]) ((nz ++ pre ++ NL :: ns4) ++ uns j) (mk [] 0 true 0 [0])).
  { eapply reads_trans; [|rewrite <- LX; apply rd_uns; eapply Forall_impl; [|exact FX]; cbn; intros x X; lia]. pose proof (at_fresh 0 _ _ _ _ [] A) as R. cbn [rev] in R. rewrite <- app_assoc in R. exact R. }
  assert (P : ParseSpec.stmts false [e1] ((nz ++ pre ++ NL :: ns4) ++ uns j)).
  { pose proof (D false [] [] ns4 (st_nil) N4) as P. cbn [app] in P. apply (stmts_prefix nz _ _ _ N) in P. rewrite <- !app_assoc. cbn [app]. exact P. }
  destruct (reads_tokens _ _ _ R) as (ts' & eof & lx & TK & KE & BT).
  assert (P' : program [e1] ts').
  { apply (move_program [e1] [e1] ((nz ++ pre ++ NL :: ns4) ++ uns j) ts'); [reflexivity| |exists false; unfold code; cbn [filter]; rewrite C1; exact P]. rewrite <- BT, map_map. apply map_ext. intro t. unfold PrintLex.bare. cbn [t_kind t_tok t_str t_triple t_pos]. destruct (t_kind t); reflexivity. }
  destruct (C67_complete _ _ _ _ _ TK KE P') as (l' & PA & Sh).
  assert (PF : exists f, parse_file (FMeta [] [] [] TypeBuild) (rev (o_out st)) = Some f) by (unfold parse_file; rewrite TK, PA; eauto). destruct PF as (f & PF).
  destruct (parsed_all _ _ _ PF) as (c & l & stmts & -> & PA' & E). rewrite PA in PA'. injection PA' as <-.
  exists (rev (o_out st)), c, l. split; [reflexivity|]. split; [exact PF|]. rewrite (meanings_strip _ _ E), <- M.
  assert (X : meanings l' = meanings [e1]) by (unfold meanings, meaning, shapes in *; rewrite <- !(map_map shape plain); now rewrite Sh). rewrite X. unfold meanings, code. cbn [filter]. now rewrite C1.
Qed.

(** The rule with this name, or the package declaration for "__pkg__" *)
Definition source (s : setting) (from : bytes) (args : list expr) : Prop := exists c x, FindRuleByName (file_path s) (stmts s) from = Some c /\ calls c x args.
Lemma source_call s from args : source s from args <-> exists c x, FindRuleByName (file_path s) (stmts s) from = Some c /\ stmt_call c = Some (x, args).
Proof. unfold source. split; intros (c & x & E & H); exists c, x; (split; [exact E|]); now apply stmt_call_spec. Qed.

(** ** C92: what the rule gets: the statement that is read from the printed value, and nothing else is changed.  Missing: that this is the value's statement
    and not a comment that stands before it. *)
Theorem C92_copy_partial : forall s attr from r args v, source s from args -> attr_is attr args v -> writable v ->
  exists r' v' l, cmdCopy s attr from r = Changed r' /\ r_x r' = r_x r /\ r_com r' = r_com r /\
    attr_is attr (r_args r') v' /\ (forall k, k <> attr -> Attr k (r_args r') = Attr k (r_args r)) /\
    meanings (v' :: l) = [meaning v] /\ (is_code v' = true -> meaning v' = meaning v).
Proof.
  intros s attr from r args v S0 A W. apply source_call in S0 as (c & x & EF & EC). apply attr_is_some in A. destruct (format_reads v W) as (data & c0 & l & F & P & M).
  destruct l as [|v' l]; [discriminate M|]. exists (with_args (SetAttr attr v' (r_args r)) r), v', l. split.
  { unfold cmdCopy, copyAttributeBetweenRules. rewrite EF, EC, A, F, P. reflexivity. }
  cbn [with_args r_x r_com r_args]. split; [reflexivity|]. split; [reflexivity|]. split; [apply attr_is_some, C33_get_set|]. split; [intros k N; now apply C33_get_set|]. split; [exact M|].
  intro C. unfold meanings, code in M. cbn [filter] in M. rewrite C in M. cbn [map] in M. now injection M.
Qed.
Print Assumptions C92_copy_partial.
(** Errors: no such rule, no such attribute. *)
Theorem C92_errors : forall s attr from r,
  ((forall args, ~ source s from args) -> cmdCopy s attr from r = Error) /\
  (forall args, source s from args -> no_attr attr args -> cmdCopy s attr from r = Error).
Proof.
  intros s attr from r. unfold cmdCopy, copyAttributeBetweenRules. split.
  - intro N. destruct (FindRuleByName (file_path s) (stmts s) from) as [c|] eqn:E; auto. destruct (stmt_call c) as [[x args]|] eqn:Ec; auto. exfalso. apply (N args). apply source_call. eauto.
  - intros args S0 A. apply source_call in S0 as (c & x & -> & ->). apply no_attr_none in A. now rewrite A.
Qed.
Print Assumptions C92_errors.
(** copy_no_overwrite leaves an attribute that is there *)
Theorem C92_no_overwrite : forall s attr from r,
  (no_attr attr (r_args r) -> cmdCopyNoOverwrite s attr from r = cmdCopy s attr from r) /\ (~ no_attr attr (r_args r) -> cmdCopyNoOverwrite s attr from r = Changed r).
Proof. intros s attr from r. unfold cmdCopyNoOverwrite, cmdCopy. rewrite no_attr_none. destruct (Attr attr (r_args r)); split; auto; intro H; [discriminate H|exfalso; now apply H]. Qed.

(** ** Values that are not copied *)
Definition build : fmeta := FMeta %"p/BUILD" [] [] TypeBuild.
Definition lines (l : list bytes) : bytes := flat_map (fun x => x ++ [c_nl]) l.
Definition copied (text : list bytes) (attr : bytes) : option (option expr * result) :=
  match parse_file build (lines text) with
  | Some (EFile _ _ l) =>
      match l with
      | Some (ECall _ _ _ args _ _ _) :: Some (ECall c x p args' e k m) :: _ =>
          Some (Attr attr args, cmdCopy (Setting %"p/BUILD" l %"p" (Types (fun _ => false) (fun _ => false) (fun _ => false)) true true) attr %"a" (Rule c x p args' e k m))
      | _ => None
      end
  | _ => None
  end.
(** A value with a comment on a line of its own, outside of the value's brackets: what is printed cannot be read alone. *)
Definition broken_value : list bytes := [%"r(name = ""a"","; %"  deps = [""x""] +"; %"         # why"; %"         [""y""])"; %"r(name = ""b"")"].
Theorem C92_inner_comment_refuted : exists v, copied broken_value %"deps" = Some (Some v, Error).
Proof. eexists. vm_compute. reflexivity. Qed.
(** The comment at the end of the last line of the value but one is lost. *)
Definition commented : list bytes := [%"r(name = ""a"","; %"  x = y +  # one"; %"      z,"; %")"; %"r(name = ""b"")"].
Theorem C92_comment_refuted : exists c a p op b d r' c' a' p' b' d', copied commented %"x" = Some (Some (EBinary c a p op b d), Changed r') /\ c_suffix (com a) <> [] /\
  Attr %"x" (r_args r') = Some (EBinary c' a' p' op b' d') /\ c' = no_com /\ com a' = no_com /\ com d' = no_com.
Proof. do 12 eexists. split; [vm_compute; reflexivity|]. split; [intro H; vm_compute in H; discriminate H|]. split; [vm_compute; reflexivity|]. repeat split. Qed.
Definition fine_value : list bytes := [%"r(name = ""a"","; %"  deps = [""x"", f(1)] + select({""c"": [""y""]}))"; %"r(name = ""b"")"].
Example C92_nontrivial : exists v r', copied fine_value %"deps" = Some (Some v, Changed r') /\ exists v', Attr %"deps" (r_args r') = Some v' /\ is_code v' = true /\ meaning v' = meaning v.
Proof. eexists. eexists. split; [vm_compute; reflexivity|]. eexists. split; [vm_compute; reflexivity|]. split; vm_compute; reflexivity. Qed.
