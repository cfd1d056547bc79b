(** C57: collecting apparent names over include() edges. *)
From Coq Require Import Permutation.
From Verif Require Import Base BaseProofs Ast Rewrite RuleApi RuleSpec RuleProofs RulesSpec PropRule PropRules LoadsSpec Labels Bzlmod BzlmodSpec BzlmodProofs.

(** What one rule contributes. *)
Definition decl1 (r : expr) : list (bytes * bytes) :=
  match callee_args r with
  | Some (x, args) =>
      match AttrString %"name" args with
      | [] => []
      | n => if beq (kind_of x) %"module" || beq (kind_of x) %"bazel_dep"
             then [(n, match AttrString %"repo_name" args with [] => n | rn => rn end)] else []
      end
  | None => []
  end.
Definition inc1 (r : expr) : list bytes :=
  match callee_args r with
  | Some (x, [EStr s]) => if is_include x then [s_value s] else []
  | _ => []
  end.
Lemma names_and_includes_eq stmts : names_and_includes stmts = (flat_map decl1 (all_rules stmts), flat_map inc1 (all_rules stmts)).
Proof.
  unfold names_and_includes, Rules. rewrite rules_of_filter.
  assert (F : filter (fun e => match callee_args e with Some (x, _) => beq [] [] || beq (kind_of x) [] | None => false end) (all_rules stmts) =
              filter (fun e => match callee_args e with Some _ => true | None => false end) (all_rules stmts)).
  { apply filter_ext. intros e. destruct (callee_args e) as [[]|]; reflexivity. }
  rewrite F. clear F. match goal with |- fold_left ?f _ _ = _ => set (step := f) end.
  assert (G : forall l acc, fold_left step (filter (fun e => match callee_args e with Some _ => true | None => false end) l) acc =
    (fst acc ++ flat_map decl1 l, snd acc ++ flat_map inc1 l)).
  { induction l as [|r l IH]; intros acc; cbn [filter flat_map].
    - cbn [fold_left]. rewrite !app_nil_r. destruct acc; auto.
    - unfold decl1 at 1, inc1 at 1. destruct (callee_args r) as [[x args]|] eqn:E; [|apply IH].
      cbn [fold_left]. rewrite IH. unfold step. cbv beta. rewrite E.
      destruct (AttrString %"name" args) as [|a n] eqn:N.
      + destruct args as [|[] [|]]; destruct (is_include x); cbn [fst snd app]; rewrite <- ?app_assoc; reflexivity.
      + destruct (beq (kind_of x) %"module" || beq (kind_of x) %"bazel_dep"); cbn [fst snd app];
          rewrite <- ?app_assoc; f_equal; destruct args as [|[] [|]]; cbn [app]; auto; cbn in N; discriminate. }
  rewrite G. reflexivity.
Qed.
Lemma decl1_spec r : match decl1 r with
  | [] => forall m n, ~ declares r m n
  | [(m, n)] => declares r m n
  | _ => False end.
Proof.
  unfold decl1. destruct (callee_args r) as [[x args]|] eqn:E.
  - assert (C : call_of r x args) by (apply callee_args_spec; auto).
    assert (INV : forall m n, declares r m n -> (kind_of x = %"module" \/ kind_of x = %"bazel_dep") /\ AttrString %"name" args = m /\ m <> []).
    { intros m n (x' & args' & C' & K & N & _). apply callee_args_spec in C'. rewrite E in C'. injection C' as <- <-.
      apply explicit_spec in N. split; auto. destruct K as [K|K]; [left|right]; apply kind_spec; auto; discriminate. }
    destruct (AttrString %"name" args) as [|a nm] eqn:N.
    + intros m n D. apply INV in D as (_ & <- & ?). congruence.
    + destruct (beq (kind_of x) %"module" || beq (kind_of x) %"bazel_dep") eqn:K.
      * exists x, args. split; auto. split.
        { apply orb_true_iff in K as [K|K]; apply beq_eq in K; [left|right]; apply kind_spec; auto; discriminate. }
        split; [apply explicit_spec; split; [auto|discriminate]|].
        destruct (AttrString %"repo_name" args) as [|c rn] eqn:R.
        -- right. split; auto. apply no_string_attr. auto.
        -- left. split; [|discriminate]. apply string_attr_spec; [discriminate|auto].
      * intros m n D. apply INV in D as (D & _). apply orb_false_iff in K as [K1 K2]. apply beq_neq in K1, K2. tauto.
  - intros m n (x' & args' & C' & _). apply callee_args_spec in C'. congruence.
Qed.
Lemma declares_spec rs : declarations rs (flat_map decl1 rs).
Proof.
  induction rs as [|r rs IH]; cbn [flat_map]; [constructor|]. pose proof (decl1_spec r) as D.
  destruct (decl1 r) as [|[m n] [|]]; [| |destruct D]; constructor; auto.
Qed.
Lemma inc1_spec r : match inc1 r with
  | [] => forall i s, call_of r (EIdent i) [EStr s] -> i_name i <> %"include"
  | [v] => exists i s, call_of r (EIdent i) [EStr s] /\ i_name i = %"include" /\ s_value s = v
  | _ => False end.
Proof.
  unfold inc1. destruct (callee_args r) as [[x args]|] eqn:E.
  - assert (INV : forall i s, call_of r (EIdent i) [EStr s] -> x = EIdent i /\ args = [EStr s]).
    { intros i s C. apply callee_args_spec in C. rewrite E in C. injection C. auto. }
    destruct args as [|y [|]]; try (intros i s C; apply INV in C as [_ C]; discriminate).
    + destruct y; try (intros i0 s0 C; apply INV in C as [_ C]; discriminate).
      destruct (is_include x) eqn:I.
      * destruct x; try discriminate. cbn [is_include] in I. apply beq_eq in I. exists i, s. apply callee_args_spec in E. auto.
      * intros i0 s0 C. apply INV in C as [-> _]. cbn [is_include] in I. apply beq_neq in I. auto.
    + destruct y; intros i0 s0 C; apply INV in C as [_ C]; discriminate.
  - intros i s C. apply callee_args_spec in C. congruence.
Qed.
Lemma includes_spec rs : include_list rs (map include_path (flat_map inc1 rs)).
Proof.
  induction rs as [|r rs IH]; cbn [flat_map map]; [constructor|]. pose proof (inc1_spec r) as D.
  destruct (inc1 r) as [|v [|]]; [| |destruct D].
  - apply il_no; auto.
  - destruct D as (i & s & C & N & <-). cbn [app map]. eapply il_yes; eauto.
Qed.
Definition incs (stmts : list (option expr)) : list bytes := map include_path (flat_map inc1 (all_rules stmts)).
Definition decls (stmts : list (option expr)) : list (bytes * bytes) := flat_map decl1 (all_rules stmts).
Lemma file_includes_incs stmts : file_includes stmts (incs stmts).
Proof. exists (all_rules stmts). split; [apply all_rules_spec|apply includes_spec]. Qed.
Lemma include_list_fun rs l l' : include_list rs l -> include_list rs l' -> l = l'.
Proof.
  intros H. revert l'. induction H; intros l' H'; inversion H'; subst; auto.
  - f_equal; auto. apply callee_args_spec in H, H4. congruence.
  - exfalso. eapply H4; eauto.
  - exfalso. eapply H; eauto.
Qed.
Lemma file_includes_eq stmts l : file_includes stmts l -> l = incs stmts.
Proof.
  intros (all & R & H). rewrite (rules_in_fun _ _ _ R (all_rules_spec stmts)) in H. eapply include_list_fun; eauto. apply includes_spec.
Qed.
Lemma file_declarations_decls stmts : file_declarations stmts (decls stmts).
Proof. exists (all_rules stmts). split; [apply all_rules_spec|apply declares_spec]. Qed.
Lemma included_incs stmts g : (exists lab, included stmts lab /\ include_path lab = g) <-> In g (incs stmts).
Proof.
  unfold incs, included. rewrite in_map_iff. setoid_rewrite in_flat_map. split.
  - intros (lab & (all & r & i & s & R & Hr & C & N & <-) & <-). exists (s_value s). split; auto. exists r.
    rewrite (rules_in_fun _ _ _ R (all_rules_spec stmts)) in Hr. split; auto. pose proof (inc1_spec r) as D.
    destruct (inc1 r) as [|v [|]]; [exfalso; eapply D; eauto| |destruct D]. destruct D as (i' & s' & C' & _ & <-).
    apply callee_args_spec in C, C'. left. congruence.
  - intros (lab & <- & r & Hr & H). exists lab. split; auto. pose proof (inc1_spec r) as D.
    destruct (inc1 r) as [|v [|]]; [destruct H| |destruct D]. destruct H as [->|[]]. destruct D as (i & s & C & N & E).
    exists (all_rules stmts), r, i, s. split; [apply all_rules_spec|auto].
Qed.

Section Run.
  Context (reader : bytes -> option (list (option expr))) (start : bytes).
  Notation reach := (reachable reader start).
  Lemma reach_step f stmts g : reach f -> reader f = Some stmts -> In g (incs stmts) -> reach g.
  Proof. intros R E I. apply included_incs in I as (lab & I & <-). eapply re_step; eauto. Qed.

  Definition text (f : bytes) : list (option expr) := match reader f with Some s => s | None => [] end.
  (** Invariant; [read] is the list of files read, oldest first. *)
  Record inv (s : cstate) (read : list bytes) : Prop := {
    i_seen : c_seen s = rev read;
    i_nodup : NoDup read;
    i_readable : forall f, In f read -> reader f <> None;
    i_reach : forall f, In f read \/ In f (c_todo s) -> reach f;
    i_start : In start read \/ In start (c_todo s);
    i_closed : forall f g, In f read -> In g (incs (text f)) -> In g read \/ In g (c_todo s);
    i_names : c_names s = flat_map (fun f => decls (text f)) read;
    i_order : forall rest, firsts (rev read) (c_todo s) rest ->
      exists q, start :: flat_map (fun f => incs (text f)) read = q ++ c_todo s /\ firsts [] q read }.
  Lemma firsts_app {A} (l l' : list A) : forall seen r r', firsts seen l r -> firsts (rev r ++ seen) l' r' -> firsts seen (l ++ l') (r ++ r').
  Proof.
    induction l as [|x l IH]; intros seen r r' H H'; inversion H; subst; cbn [app rev] in *; auto.
    - apply fi_old; auto.
    - apply fi_new; auto. apply IH; auto. rewrite <- app_assoc in H'. auto.
  Qed.
  Lemma firsts_total (l : list bytes) : forall seen, exists r, firsts seen l r.
  Proof.
    induction l as [|x l IH]; intros seen; [exists []; constructor|]. destruct (mem_bytes x seen) eqn:E.
    - apply mem_bytes_In in E. destruct (IH seen) as (r & H). exists r. apply fi_old; auto.
    - destruct (IH (x :: seen)) as (r & H). exists (x :: r). apply fi_new; auto. rewrite <- mem_bytes_In. congruence.
  Qed.
  Lemma inv_init : inv (CState [start] [] []) [].
  Proof.
    constructor; cbn [c_todo c_seen c_names flat_map rev]; auto; try (intros f []; fail).
    - constructor.
    - intros f [[]|[<-|[]]]. constructor.
    - right. left. auto.
    - intros rest _. exists []. split; auto. constructor.
  Qed.
  Lemma inv_step s read s' : inv s read -> cstep reader s = inl s' ->
    (inv s' read /\ List.length (c_todo s') < List.length (c_todo s) /\ (forall f, In f (c_todo s) -> In f (c_todo s') \/ In f read)) \/
    exists f, c_todo s = f :: tl (c_todo s) /\ ~ In f read /\ inv s' (read ++ [f]).
  Proof.
    intros I H. unfold cstep in H. destruct I as [i1 i2 i3 i4 i5 i6 i7 i8]. destruct (c_todo s) as [|f todo] eqn:T; [discriminate|].
    destruct (mem_bytes f (c_seen s)) eqn:M.
    - injection H as <-. apply mem_bytes_In in M. rewrite i1, <- in_rev in M. left. split.
      + constructor; cbn [c_todo c_seen c_names]; auto.
        * intros g [Hg|Hg]; apply i4; auto. right; right; auto.
        * destruct i5 as [|[<-|]]; auto.
        * intros g h Hg Hh. destruct (i6 g h Hg Hh) as [|[<-|]]; auto.
        * intros rest Hr. destruct (i8 rest) as (q & E & F); [apply fi_old; auto; rewrite <- in_rev; auto|].
          exists (q ++ [f]). rewrite <- app_assoc. split; auto. rewrite <- (app_nil_r read). apply firsts_app; auto.
          apply fi_old; [rewrite app_nil_r, <- in_rev; auto|constructor].
      + split; [cbn [c_todo List.length]; lia|]. cbn [c_todo]. intros g [<-|]; auto.
    - destruct (reader f) as [stmts|] eqn:R; [|discriminate]. rewrite names_and_includes_eq in H. injection H as <-.
      assert (NI : ~ In f read) by (rewrite in_rev, <- i1, <- mem_bytes_In; congruence).
      assert (TX : text f = stmts) by (unfold text; rewrite R; auto).
      right. exists f. cbn [tl]. split; auto. split; auto.
      assert (RF : reach f) by (apply i4; right; left; auto).
      constructor; cbn [c_todo c_seen c_names].
      * rewrite rev_app_distr, i1. reflexivity.
      * apply (Permutation_NoDup (l := f :: read)); [apply Permutation_cons_append|constructor; auto].
      * intros g Hg. apply in_app_or in Hg as [Hg|[<-|[]]]; auto. congruence.
      * intros g [Hg|Hg]; apply in_app_or in Hg.
        -- destruct Hg as [Hg|[<-|[]]]; auto.
        -- destruct Hg as [Hg|Hg]; [apply i4; right; right; auto|]. eapply reach_step; eauto.
      * destruct i5 as [|[<-|]]; rewrite ?in_app_iff; cbn [In]; auto.
      * intros g h Hg Hh. rewrite !in_app_iff. apply in_app_or in Hg as [Hg|[<-|[]]].
        -- destruct (i6 g h Hg Hh) as [|[<-|]]; cbn [In]; auto.
        -- rewrite TX in Hh. auto.
      * rewrite flat_map_app, i7. cbn [flat_map]. rewrite TX, app_nil_r. reflexivity.
      * intros rest Hr. destruct (firsts_total (f :: todo) (rev read)) as (r0 & H0). destruct (i8 r0 H0) as (q & E & F).
        exists (q ++ [f]). rewrite flat_map_app, app_comm_cons, E. cbn [flat_map]. rewrite TX, app_nil_r. fold (incs stmts). rewrite <- !app_assoc. split; auto.
        apply firsts_app; auto. apply fi_new; [rewrite app_nil_r, <- in_rev; auto|constructor].
  Qed.

  (** Termination for a finite include graph. *)
  Lemma filter_less (univ : list bytes) read f : In f univ -> ~ In f read ->
    List.length (filter (fun g => negb (mem_bytes g (read ++ [f]))) univ) < List.length (filter (fun g => negb (mem_bytes g read)) univ).
  Proof.
    intros Hf N. assert (LE : forall l, List.length (filter (fun g => negb (mem_bytes g (read ++ [f]))) l) <= List.length (filter (fun g => negb (mem_bytes g read)) l)).
    { induction l as [|x l IH]; cbn [filter]; auto. destruct (mem_bytes x read) eqn:E.
      - assert (mem_bytes x (read ++ [f]) = true) as -> by (rewrite mem_bytes_In in *; apply in_or_app; auto). auto.
      - cbn [negb List.length]. destruct (negb (mem_bytes x (read ++ [f]))); cbn [List.length]; lia. }
    induction univ as [|x l IH]; [destruct Hf|]. cbn [filter]. destruct Hf as [->|Hf].
    - assert (mem_bytes f (read ++ [f]) = true) as -> by (rewrite mem_bytes_In; apply in_or_app; right; left; auto).
      assert (mem_bytes f read = false) as -> by (apply not_true_iff_false; rewrite mem_bytes_In; auto). cbn [negb List.length]. specialize (LE l). lia.
    - specialize (IH Hf). destruct (mem_bytes x read) eqn:E.
      + assert (mem_bytes x (read ++ [f]) = true) as -> by (rewrite mem_bytes_In in *; apply in_or_app; auto). auto.
      + cbn [negb List.length]. destruct (negb (mem_bytes x (read ++ [f]))); cbn [List.length]; lia.
  Qed.
  Lemma runs_finite (univ : list bytes) : (forall f, reach f -> In f univ) ->
    forall k s read, inv s read -> List.length (filter (fun g => negb (mem_bytes g read)) univ) <= k ->
    exists fuel r, crun reader fuel s = Some r.
  Proof.
    intros U. induction k as [k IHk] using lt_wf_ind. intros s.
    remember (List.length (c_todo s)) as n eqn:En. revert s En. induction n as [n IHn] using lt_wf_ind. intros s En read I K.
    destruct (cstep reader s) as [s'|r] eqn:S.
    - destruct (inv_step s read s' I S) as [(I' & L & _)|(f & Tf & Nf & I')].
      + destruct (IHn (List.length (c_todo s')) ltac:(lia) s' eq_refl read I' K) as (fuel & r & H). exists (Datatypes.S fuel), r. cbn [crun]. rewrite S. auto.
      + assert (RF : reach f) by (apply (i_reach _ _ I); right; rewrite Tf; left; auto).
        pose proof (filter_less univ read f (U f RF) Nf) as LT.
        destruct (IHk (List.length (filter (fun g => negb (mem_bytes g (read ++ [f]))) univ)) ltac:(lia) s' (read ++ [f]) I' ltac:(lia)) as (fuel & r & H).
        exists (Datatypes.S fuel), r. cbn [crun]. rewrite S. auto.
    - exists 1. eexists. cbn [crun]. rewrite S. reflexivity.
  Qed.
  Lemma crun_final fuel : forall s read r out, inv s read -> crun reader fuel s = Some (out, r) ->
    exists s' read', inv s' read' /\
      match r with
      | Some names => c_todo s' = [] /\ out = read' /\ names = c_names s'
      | None => exists f, c_todo s' = f :: tl (c_todo s') /\ ~ In f read' /\ reader f = None /\ out = read' ++ [f]
      end.
  Proof.
    induction fuel as [|fuel IH]; intros s read r out I H; [discriminate|]. cbn [crun] in H.
    destruct (cstep reader s) as [s'|r'] eqn:S.
    - destruct (inv_step s read s' I S) as [(I' & _)|(f & _ & _ & I')]; eapply IH; eauto.
    - injection H as <- <-. exists s, read. split; auto. unfold cstep in S. destruct (c_todo s) as [|f todo] eqn:T.
      + injection S as <-. rewrite (i_seen _ _ I), rev_involutive. auto.
      + destruct (mem_bytes f (c_seen s)) eqn:M; [discriminate|]. destruct (reader f) as [st|] eqn:R; [destruct (names_and_includes st); discriminate|].
        injection S as <-. exists f. cbn [tl]. split; auto. split.
        * rewrite in_rev, <- (i_seen _ _ I), <- mem_bytes_In. congruence.
        * split; auto. cbn [firstn app rev]. rewrite (i_seen _ _ I), rev_involutive. auto.
  Qed.
End Run.

(** The traversal ends on every finite include graph (also on cyclic ones). *)
Theorem C57_terminates :
  forall reader start univ, (forall f, reachable reader start f -> In f univ) ->
    exists fuel r, collectApparentNames reader fuel start = Some r.
Proof. intros reader start univ U. eapply runs_finite; eauto. apply inv_init. Qed.
Print Assumptions C57_terminates.
(** More steps do not change the result: the outcome is a function of the files. *)
Theorem C57_deterministic :
  forall reader start n m r, collectApparentNames reader n start = Some r -> n <= m ->
    collectApparentNames reader m start = Some r.
Proof.
  intros reader start n m r. unfold collectApparentNames. generalize (CState [start] [] []). revert m.
  induction n as [|n IH]; intros m s H L; [discriminate|]. destruct m as [|m]; [lia|]. cbn [crun] in *.
  destruct (cstep reader s); auto. apply IH; auto. lia.
Qed.
Print Assumptions C57_deterministic.
(** If it succeeds, it has read exactly the reachable files, each once, in breadth-first order of the
    includes, and collected their declarations in that order (the last one wins). *)
Theorem C57_success :
  forall reader start fuel read names, collectApparentNames reader fuel start = Some (read, Some names) ->
    NoDup read /\ (forall f, In f read <-> reachable reader start f) /\
    exists texts incs decls,
      Forall2 (fun f t => reader f = Some t) read texts /\
      Forall2 file_includes texts incs /\ firsts [] (start :: List.concat incs) read /\
      Forall2 file_declarations texts decls /\ names = List.concat decls.
Proof.
  intros reader start fuel read names H. destruct (crun_final _ _ _ _ _ _ _ (inv_init reader start) H) as (s & rd & I & T & -> & ->).
  destruct I as [i1 i2 i3 i4 i5 i6 i7 i8]. rewrite T in *. split; auto.
  assert (RS : forall f, In f rd -> reader f = Some (text reader f)).
  { intros f Hf. unfold text. destruct (reader f) eqn:E; auto. exfalso. eapply i3; eauto. }
  split.
  - intros f. split; [intros; apply i4; auto|]. intros R. induction R as [|f st lab R IH E Inc].
    + destruct i5 as [|[]]; auto.
    + pose proof (RS f IH) as E'. rewrite E in E'. injection E' as E'.
      destruct (i6 f (include_path lab) IH) as [|[]]; auto. rewrite <- E'. apply included_incs. eauto.
  - exists (map (text reader) rd), (map incs (map (text reader) rd)), (map decls (map (text reader) rd)).
    split; [clear -RS; induction rd; constructor; [apply RS; left; auto|apply IHrd; intros; apply RS; right; auto]|].
    split; [generalize (map (text reader) rd); intros l; induction l; constructor; auto; apply file_includes_incs|].
    destruct (i8 [] ltac:(constructor)) as (q & Eq & F). rewrite app_nil_r in Eq.
    split; [|split].
    + rewrite map_map, <- flat_map_concat_map, Eq. auto.
    + generalize (map (text reader) rd); intros l; induction l; constructor; auto; apply file_declarations_decls.
    + rewrite map_map, <- flat_map_concat_map. auto.
Qed.
Print Assumptions C57_success.
(** It gives up (an empty mapping) exactly when a reachable file cannot be read; no file is read twice. *)
Theorem C57_failure :
  forall reader start fuel read, collectApparentNames reader fuel start = Some (read, None) ->
    NoDup read /\ (forall f, In f read -> reachable reader start f) /\
    exists f, In f read /\ reader f = None.
Proof.
  intros reader start fuel read H. destruct (crun_final _ _ _ _ _ _ _ (inv_init reader start) H) as (s & rd & I & f & T & N & R & ->).
  destruct I as [i1 i2 i3 i4 i5 i6 i7 i8]. split; [|split].
  - apply (Permutation_NoDup (l := f :: rd)); [apply Permutation_cons_append|constructor; auto].
  - intros g Hg. apply i4. apply in_app_or in Hg as [|[<-|[]]]; auto. right. rewrite T. left; auto.
  - exists f. split; auto. apply in_or_app; right; left; auto.
Qed.
Print Assumptions C57_failure.
(** The mapping handed to the user. *)
Theorem C57_mapping :
  forall names m, (forall v, last_value names m v -> apparent_name (Some names) m = v) /\
    ((forall v, ~ In (m, v) names) -> apparent_name (Some names) m = []) /\ apparent_name None m = [].
Proof.
  intros names m. unfold apparent_name, last_binding. split; [|split; auto].
  - intros v (a & b & -> & N). rewrite rev_app_distr. cbn [rev]. rewrite <- app_assoc. cbn [app].
    assert (L : forall (l r : list (bytes * bytes)), (forall v', ~ In (m, v') l) -> lookup m (l ++ r) = lookup m r).
    { induction l as [|[k w] l IH]; intros r H; cbn [app lookup]; auto. destruct (beq_spec m k) as [->|]; [exfalso; eapply H; left; eauto|].
      apply IH. intros v' Hv. eapply H; right; eauto. }
    rewrite L; [cbn [lookup]; rewrite beq_refl; auto|]. intros v'. rewrite <- in_rev. auto.
  - intros H. assert (L : lookup m (rev names) = None); [|rewrite L; auto].
    assert (H' : forall v, ~ In (m, v) (rev names)) by (intros v; rewrite <- in_rev; auto). clear H. induction (rev names) as [|[k w] l IH]; auto.
    cbn [lookup]. destruct (beq_spec m k) as [->|]; [exfalso; eapply H'; left; eauto|]. apply IH. intros v Hv. eapply H'. right; eauto.
Qed.
Print Assumptions C57_mapping.
(** The included file's path, for plain labels of the main repository. *)
Definition plain_part (s : bytes) : Prop := s <> [] /\ s <> %"." /\ s <> %".." /\ ~ In c_slash s /\ ~ In c_colon s.
Lemma clean_plain l : Forall plain_part l -> forall r out, clean_parts r out l = rev out ++ l.
Proof.
  induction 1 as [|x l (n1 & n2 & n3 & _) F IH]; intros r out; cbn [clean_parts]; [rewrite app_nil_r; auto|].
  rewrite (proj2 (beq_neq x []) n1), (proj2 (beq_neq x %".") n2), (proj2 (beq_neq x %"..") n3). cbn [orb].
  rewrite IH. cbn [rev]. rewrite <- app_assoc. reflexivity.
Qed.

Lemma join_cat (l1 l2 : list bytes) : l1 <> [] -> l2 <> [] -> join [c_slash] l1 ++ [c_slash] ++ join [c_slash] l2 = join [c_slash] (l1 ++ l2).
Proof.
  intros H1 H2. induction l1 as [|x l1 IH]; [contradiction|]. destruct l1 as [|y l1].
  - destruct l2; [contradiction|]. reflexivity.
  - change (join [c_slash] ((x :: y :: l1) ++ l2)) with (x ++ [c_slash] ++ join [c_slash] ((y :: l1) ++ l2)).
    rewrite <- IH by discriminate. change (join [c_slash] (x :: y :: l1)) with (x ++ [c_slash] ++ join [c_slash] (y :: l1)).
    rewrite <- !app_assoc. reflexivity.
Qed.
Lemma no_colon_join l : Forall plain_part l -> ~ In c_colon (join [c_slash] l).
Proof.
  induction 1 as [|x l (_ & _ & _ & _ & n) F IH]; [intros []|]. destruct l as [|y l]; [exact n|].
  change (join [c_slash] (x :: y :: l)) with (x ++ [c_slash] ++ join [c_slash] (y :: l)). rewrite !in_app_iff.
  intros [H|[[H|[]]|H]]; [contradiction|discriminate|contradiction].
Qed.
Lemma join_head l : Forall plain_part l -> l <> [] -> join [c_slash] l <> [] /\ has_prefix [c_slash] (join [c_slash] l) = false.
Proof.
  intros F N. destruct F as [|x l (n & _ & _ & ns & _) F]; [contradiction|]. destruct x as [|a x]; [contradiction|].
  assert (a <> c_slash) by (intros ->; apply ns; left; auto).
  destruct l as [|y l]; cbn [join app has_prefix]; (split; [discriminate|]); apply andb_false_iff; left; apply Ascii.eqb_neq; auto.
Qed.
Lemma clean_join l : Forall plain_part l -> l <> [] -> path_clean (join [c_slash] l) = join [c_slash] l.
Proof.
  intros F N. destruct (join_head l F N) as [N1 N2]. unfold path_clean. rewrite N2, split_join, clean_plain; auto.
  - cbn [rev app]. destruct (join [c_slash] l); [contradiction|auto].
  - eapply Forall_impl; [|exact F]. intros x (_ & _ & _ & n & _). auto.
Qed.
(** include("//a/b:c/d.MODULE.bazel") names the file a/b/c/d.MODULE.bazel, and include("//:c") the file c. *)
Theorem C57_path :
  forall pkg tgt, Forall plain_part pkg -> Forall plain_part tgt -> tgt <> [] ->
    include_path (%"//" ++ join [c_slash] pkg ++ %":" ++ join [c_slash] tgt) = join [c_slash] (pkg ++ tgt).
Proof.
  intros pkg tgt FP FT N. unfold include_path, parse.
  assert (has_prefix [c_at] (%"//" ++ join [c_slash] pkg ++ %":" ++ join [c_slash] tgt) = false) as -> by reflexivity.
  unfold parse_rest. rewrite app_assoc. change (%":" ++ join [c_slash] tgt) with (c_colon :: join [c_slash] tgt).
  rewrite split2_app.
  2:{ rewrite in_app_iff. intros [H|H]; [|exact (no_colon_join pkg FP H)]. cbn in H; destruct H as [H|[H|[]]]; discriminate H. }
  destruct (join_head tgt FT N) as [N1 N2]. cbv zeta. destruct (is_empty (join [c_slash] tgt)) eqn:E; [destruct (join [c_slash] tgt); [contradiction|discriminate]|].
  cbn [package target]. assert (T : trim_prefix %"//" (%"//" ++ join [c_slash] pkg) = join [c_slash] pkg) by reflexivity.
  rewrite T. clear T E. unfold path_join. destruct pkg as [|p pkg].
  - change (join [c_slash] []) with (@nil ascii). cbn [app]. destruct (join [c_slash] tgt) eqn:E; [contradiction|]. rewrite <- E. apply clean_join; auto.
  - destruct (join_head (p :: pkg) FP ltac:(discriminate)) as [P1 P2].
    destruct (join [c_slash] (p :: pkg)) eqn:EP; [contradiction|]. rewrite <- EP.
    destruct (join [c_slash] tgt) eqn:ET; [contradiction|]. rewrite <- ET.
    rewrite join_cat by (auto; discriminate). apply clean_join; [apply Forall_app; auto|discriminate].
Qed.
Print Assumptions C57_path.
(** A cyclic include graph of three files; the first includes the second twice. *)
Example C57_nontrivial :
  let inc f := (call %"include" [str f]) in
  let dep n extra := (call %"bazel_dep" (arg %"name" (str n) :: extra)) in
  let reader f :=
    if beq f %"MODULE.bazel" then Some [(call %"module" [arg %"name" (str %"m")]); inc %"//a:x.MODULE.bazel"; dep %"p" []; inc %"//a:x.MODULE.bazel"; inc %"//:y.MODULE.bazel"]
    else if beq f %"a/x.MODULE.bazel" then Some [dep %"q" [arg %"repo_name" (str %"my_q")]; inc %"//:y.MODULE.bazel"]
    else if beq f %"y.MODULE.bazel" then Some [inc %"//a:x.MODULE.bazel"; dep %"p" [arg %"repo_name" (str %"pp")]]
    else None in
  exists names,
  collectApparentNames reader 20 %"MODULE.bazel" = Some ([%"MODULE.bazel"; %"a/x.MODULE.bazel"; %"y.MODULE.bazel"], Some names) /\ map (apparent_name (Some names)) [%"m"; %"p"; %"q"; %"z"] = [%"m"; %"pp"; %"my_q"; []].
Proof. eexists. vm_compute. split; reflexivity. Qed.
