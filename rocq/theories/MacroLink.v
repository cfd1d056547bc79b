(** The graph that IsMacro searches is the one of the files. *)
From Verif Require Import Base BaseProofs Ast Walk WalkSpec WalkProofs PropWalk Labels Scope Macro MacroSpec MacroProofs.
Local Open Scope list_scope.

Lemma last_unique {A} (P : A -> Prop) l x y : last_such P l x -> last_such P l y -> x = y.
Proof.
  intros (a & b & E & Px & F) (a' & b' & E' & Py & F'). subst l. revert a' E'. induction a as [|z a IH]; intros [|z' a'] E'.
  - now injection E'.
  - injection E' as -> ->. rewrite Forall_app in F. destruct F as [_ F]. apply Forall_inv in F. contradiction.
  - injection E' as -> <-. rewrite Forall_app in F'. destruct F' as [_ F']. apply Forall_inv in F'. contradiction.
  - injection E' as -> E'. eauto.
Qed.
Lemma last_none {A} (P : A -> Prop) l x : last_such P l x -> none_such P l -> False.
Proof. intros (a & b & -> & Px & F) N. apply Forall_app in N as [_ N]. apply Forall_inv in N. contradiction. Qed.
Lemma last_in {A} (P : A -> Prop) l x : last_such P l x -> In x l /\ P x.
Proof. intros (a & b & -> & Px & F). split; auto. apply in_elt. Qed.
Lemma last_snoc {A} (P : A -> Prop) l y : P y -> last_such P (l ++ [y]) y.
Proof. intro H. exists l, []. auto. Qed.
Lemma last_skip {A} (P : A -> Prop) l x y : ~ P y -> last_such P l x -> last_such P (l ++ [y]) x.
Proof. intros N (a & b & -> & Px & F). exists a, (b ++ [y]). rewrite <- app_assoc. split; auto. split; auto. apply Forall_app. split; auto. Qed.
Lemma none_skip {A} (P : A -> Prop) l y : ~ P y -> none_such P l -> none_such P (l ++ [y]).
Proof. intros N F. apply Forall_app. split; auto. Qed.

Lemma zip_spec l n fr : forall to ext,
  (exists orig, last_such (fun e => snd e = n) (load_pairs fr to) (orig, n) /\ find_key n (zip_symbols l fr to ext) = Some (Fn (package l) (target l) orig)) \/
  (none_such (fun e => snd e = n) (load_pairs fr to) /\ find_key n (zip_symbols l fr to ext) = find_key n ext).
Proof.
  unfold load_pairs. induction fr as [|a fr IH]; intros to ext; [right; split; [constructor|auto]|]. destruct to as [|b to]; [right; split; [constructor|auto]|].
  cbn [map combine zip_symbols]. destruct (IH to ((i_name b, Fn (package l) (target l) (i_name a)) :: ext)) as [(orig & (u & v & E & Px & F) & K)|[F K]].
  - left. exists orig. split; auto. exists ((i_name a, i_name b) :: u), v. rewrite E. auto.
  - rewrite K. cbn [find_key]. destruct (beq (i_name b) n) eqn:Q.
    + apply beq_eq in Q. left. exists (i_name a). split; auto. exists [], (combine (map i_name fr) (map i_name to)). rewrite Q. auto.
    + right. split; auto. constructor; auto. cbn. intro E. apply beq_eq in E. congruence.
Qed.
Lemma load_other pkg n ext s : ~ loads_name pkg n s -> find_key n (load_symbols pkg ext s) = find_key n ext.
Proof.
  intro N. destruct s as [e|]; auto. destruct e; auto. cbn [load_symbols]. destruct (negb _ || _) eqn:C; auto. apply orb_false_iff in C as [C1 C2]. apply negb_false_iff in C1.
  destruct (zip_spec (parse_relative (s_value m) pkg) n from to ext) as [(orig & K & _)|[_ K]]; auto. elim N. apply last_in in K as [K _].
  exists c, p, m, from, to, r, compact. split; auto. split; [destruct (repository _); [auto|discriminate]|]. split; [destruct (target _); [discriminate|intro; discriminate]|]. eauto.
Qed.
Lemma loads_dec pkg n s : loads_name pkg n s \/ ~ loads_name pkg n s.
Proof.
  destruct s as [e|]; [|right; intros (c & q & m & fr & to & r & k & E & _); discriminate].
  destruct e; try (right; intros (c' & q' & m' & fr' & to' & r' & k' & E & _); discriminate).
  destruct (repository (parse_relative (s_value m) pkg)) eqn:R; [|right; intros (c' & q' & m' & fr' & to' & r' & k' & E & R' & _); injection E as -> -> -> -> -> -> ->; congruence].
  destruct (target (parse_relative (s_value m) pkg)) eqn:T; [right; intros (c' & q' & m' & fr' & to' & r' & k' & E & _ & T' & _); injection E as -> -> -> -> -> -> ->; congruence|].
  destruct (in_dec (list_eq_dec Ascii.ascii_dec) n (map snd (load_pairs from to))) as [I|I].
  - left. apply in_map_iff in I as ([orig n'] & <- & I). exists c, p, m, from, to, r, compact. rewrite R, T. split; auto. split; auto. split; [discriminate|eauto].
  - right. intros (c' & q' & m' & fr' & to' & r' & k' & E & _ & _ & orig & J). injection E as -> -> -> -> -> -> ->. apply I. apply in_map_iff. exists (orig, n). auto.
Qed.
Lemma loads_spec pkg n stmts :
  match find_key n (fold_left (load_symbols pkg) stmts []) with Some g => loaded_as pkg stmts n g | None => none_such (loads_name pkg n) stmts end.
Proof.
  induction stmts as [|s l IH] using rev_ind; [constructor|]. rewrite fold_left_app. cbn [fold_left]. set (ext := fold_left (load_symbols pkg) l []) in *. destruct (loads_dec pkg n s) as [D|D].
  - assert (D0 := D). destruct D as (c & q & m & fr & to & r & k & -> & R & T & orig & I). cbn [load_symbols]. rewrite R. destruct (target (parse_relative (s_value m) pkg)) as [|t0 t] eqn:T'; [congruence|]. cbn [is_empty negb orb].
    destruct (zip_spec (parse_relative (s_value m) pkg) n fr to ext) as [(o & K & E)|[K _]].
    + rewrite E. exists c, q, m, fr, to, r, k, o. cbv zeta. split; [apply last_snoc; auto|]. auto.
    + unfold none_such in K. rewrite Forall_forall in K. elim (K _ I). auto.
  - rewrite load_other; auto. destruct (find_key n ext) as [g|]; [|apply none_skip; auto].
    destruct IH as (c & q & m & fr & to & r & k & o & K & X). exists c, q, m, fr, to, r, k, o. split; auto. apply last_skip; auto.
Qed.
Lemma loaded_unique pkg stmts n g h : loaded_as pkg stmts n g -> loaded_as pkg stmts n h -> g = h.
Proof.
  intros (c & q & m & fr & to & r & k & o & K & X & ->) (c' & q' & m' & fr' & to' & r' & k' & o' & K' & X' & ->). pose proof (last_unique _ _ _ _ K K') as E. injection E as -> -> -> -> -> -> ->.
  pose proof (last_unique _ _ _ _ X X') as E. injection E as ->. auto.
Qed.
Lemma refers_spec pkg file stmts n g : refers pkg file stmts n g <-> g = resolveExternal (Fn pkg file n) (fold_left (load_symbols pkg) stmts []).
Proof.
  unfold resolveExternal, refers. cbn [fn_name]. pose proof (loads_spec pkg n stmts) as L. destruct (find_key n _) as [h|].
  - split; [|intros ->; auto]. intros [K|[N _]]; [eapply loaded_unique; eauto|]. destruct L as (c & q & m & fr & to & r & k & o & K & X). elim (last_none _ _ _ K N).
  - split; [|intros ->; auto]. intros [(c & q & m & fr & to & r & k & o & K & X)|[_ ->]]; auto. elim (last_none _ _ _ K L).
Qed.
Lemma walked_node e x : In x (map fst (Walk e)) <-> exists p, node_at children e p = Some x.
Proof.
  destruct (C28_walk_preorder e) as (ps & _ & _ & I & F). split.
  - intro H. clear I. induction F as [|p y ps l [H1 H2] F IH]; [destruct H|]. cbn in H. destruct H as [<-|H]; eauto.
  - intros (p & H). assert (J : In p ps) by (apply I; congruence). clear I. induction F as [|q y ps l [H1 H2] F IH]; [destruct J|]. cbn. destruct J as [->|J]; [left; congruence|right; auto].
Qed.
Lemma calls_spec pkg file stmts d a g :
  In (a, g) (getFunCalls d pkg file (fold_left (load_symbols pkg) stmts [])) <-> calls_fn pkg file stmts d a g.
Proof.
  unfold getFunCalls, calls_fn. rewrite in_flat_map. split.
  - intros ([y stk] & I & H). cbn [fst] in H. assert (J : In y (map fst (Walk d))) by (apply in_map_iff; exists (y, stk); auto). apply walked_node in J as (p & J).
    destruct y; try (destruct H; fail). exists p. eexists _, _, _, _, _, _, _. split; [exact J|]. destruct y; try (destruct H; fail).
    + cbn in H. destruct H as [H|[]]. injection H as <- <-. left. exists i. split; auto. split; auto. apply refers_spec. auto.
    + cbn [fun_call] in H. destruct y; try (destruct H; fail). destruct (beq (i_name i) %"native") eqn:N; [|destruct H]. apply beq_eq in N. destruct H as [H|[]]. injection H as <- <-. right. eexists _, _, _, _, _. split; [reflexivity|]. auto.
  - intros (p & c & x & q & args & en & k & m & J & H). assert (K : In (ECall c x q args en k m) (map fst (Walk d))) by (apply walked_node; eauto).
    apply in_map_iff in K as ([y stk] & E & K). exists (y, stk). split; auto. cbn [fst] in *. subst y. destruct H as [(i & -> & <- & R)|(dc & i & p1 & p2 & n & -> & E & -> & ->)].
    + apply refers_spec in R as ->. left. auto.
    + cbn [fun_call]. rewrite E, beq_refl. left. auto.
Qed.
Section Stmts.
  Variables (pkg file : bytes) (ext : symbols_map).
  Notation run := (fun stmts => fold_left (analyze_stmt pkg file ext) stmts no_data).
  Lemma aliases_spec n stmts :
    match find_key n (fd_aliases (run stmts)) with
    | Some g => exists c x q op b y, last_such (alias_stmt n) stmts (Some (EAssign c (EIdent x) q op b (EIdent y))) /\ g = resolveExternal (Fn pkg file (i_name y)) ext
    | None => none_such (alias_stmt n) stmts
    end.
  Proof.
    induction stmts as [|s l IH] using rev_ind; [constructor|]. rewrite fold_left_app. cbn [fold_left]. set (d := run l) in *.
    assert (Same : ~ alias_stmt n s -> find_key n (fd_aliases (analyze_stmt pkg file ext d s)) = find_key n (fd_aliases d) ->
       match find_key n (fd_aliases (analyze_stmt pkg file ext d s)) with
       | Some g => exists c x q op b y, last_such (alias_stmt n) (l ++ [s]) (Some (EAssign c (EIdent x) q op b (EIdent y))) /\ g = resolveExternal (Fn pkg file (i_name y)) ext
       | None => none_such (alias_stmt n) (l ++ [s]) end).
    { intros N E. rewrite E. destruct (find_key n (fd_aliases d)) as [g|]; [|apply none_skip; auto]. destruct IH as (c & x & q & op & b & y & K & X). exists c, x, q, op, b, y. split; auto. apply last_skip; auto. }
    destruct s as [e|]; [|apply Same; [intros (c & x & q & op & b & y & E & _); discriminate|auto]].
    destruct e; try (apply Same; [intros (c' & x' & q' & op' & b' & y' & E & _); discriminate|auto]).
    destruct e1; try (apply Same; [intros (c' & x' & q' & op' & b' & y' & E & _); discriminate|auto]).
    destruct e2; try (apply Same; [intros (c' & x' & q' & op' & b' & y' & E & _); discriminate|auto]).
    - cbn [analyze_stmt fd_aliases find_key] in *. destruct (beq (i_name i) n) eqn:Q.
      + apply beq_eq in Q. eexists _, _, _, _, _, _. split; [apply last_snoc; eexists _, _, _, _, _, _; split; [reflexivity|auto]|auto].
      + apply Same; auto. intros (c' & x' & q' & op' & b' & y' & E & En). injection E as E1 E2 E3 E4 E5. subst x'. apply beq_eq in En. congruence.
    - cbn [analyze_stmt]. destruct e2; auto. destruct (beq _ _); auto.
  Qed.
  Lemma functions_spec n stmts :
    match find_key n (fd_functions (run stmts)) with
    | Some calls => exists d, last_such (def_stmt n) stmts (Some d) /\ calls = getFunCalls d pkg file ext
    | None => none_such (def_stmt n) stmts
    end.
  Proof.
    induction stmts as [|s l IH] using rev_ind; [constructor|]. rewrite fold_left_app. cbn [fold_left]. set (d := run l) in *.
    assert (Same : ~ def_stmt n s -> find_key n (fd_functions (analyze_stmt pkg file ext d s)) = find_key n (fd_functions d) ->
       match find_key n (fd_functions (analyze_stmt pkg file ext d s)) with
       | Some calls => exists d, last_such (def_stmt n) (l ++ [s]) (Some d) /\ calls = getFunCalls d pkg file ext
       | None => none_such (def_stmt n) (l ++ [s]) end).
    { intros N E. rewrite E. destruct (find_key n (fd_functions d)) as [g|]; [|apply none_skip; auto]. destruct IH as (d0 & K & X). exists d0. split; auto. apply last_skip; auto. }
    destruct s as [e|]; [|apply Same; [intros (c & x & q & op & b & y & z & w & E); discriminate|auto]].
    destruct e; try (apply Same; [intros (c' & x' & q' & op' & b' & y' & z' & w' & E); discriminate|auto]).
    - destruct e1; auto. destruct e2; auto. cbn [analyze_stmt]. destruct e2; auto. destruct (beq _ _); auto.
    - cbn [analyze_stmt fd_functions find_key] in *. destruct (beq name n) eqn:Q.
      + apply beq_eq in Q. subst n. eexists. split; [apply last_snoc; eexists _, _, _, _, _, _, _, _; reflexivity|auto].
      + apply Same; auto. intros (c' & x' & q' & op' & b' & y' & z' & w' & E). injection E as E1 E2 E3 E4 E5. subst n. rewrite beq_refl in Q. discriminate.
  Qed.
  Lemma rules_spec n stmts : mem_bytes n (fd_rules (run stmts)) = true <-> exists s, In s stmts /\ rule_stmt n s.
  Proof.
    rewrite mem_bytes_In. induction stmts as [|s l IH] using rev_ind; [split; [intros []|intros (s & [] & _)]|]. rewrite fold_left_app. cbn [fold_left]. set (d := run l) in *.
    assert (Same : ~ rule_stmt n s -> fd_rules (analyze_stmt pkg file ext d s) = fd_rules d -> (In n (fd_rules (analyze_stmt pkg file ext d s)) <-> exists s0, In s0 (l ++ [s]) /\ rule_stmt n s0)).
    { intros N E. rewrite E, IH. split; [intros (s0 & I & R); exists s0; split; auto; apply in_or_app; auto|]. intros (s0 & I & R). apply in_app_or in I as [I|[<-|[]]]; [eauto|contradiction]. }
    destruct s as [e|]; [|apply Same; [intros (c & x & q & op & b & c' & i & q' & args & en & k & m & E & _); discriminate|auto]].
    destruct e; try (apply Same; [intros (c' & x' & q' & op' & b' & c'' & i' & q'' & args' & en' & k' & m' & E & _); discriminate|auto]).
    destruct e1; try (apply Same; [intros (c' & x' & q' & op' & b' & c'' & i' & q'' & args' & en' & k' & m' & E & _); discriminate|auto]).
    destruct e2; try (apply Same; [intros (c' & x' & q' & op' & b' & c'' & i' & q'' & args' & en' & k' & m' & E & _); discriminate|auto]).
    destruct e2; try (apply Same; [intros (c' & x' & q' & op' & b' & c'' & i' & q'' & args' & en' & k' & m' & E & _); discriminate|auto]).
    cbn [analyze_stmt] in *. destruct (beq (i_name i0) %"rule") eqn:Q.
    - apply beq_eq in Q. cbn [fd_rules]. split.
      + intros [E|I]; [|apply IH in I as (s0 & I & R); exists s0; split; auto; apply in_or_app; auto]. eexists. split; [apply in_elt|]. eexists _, _, _, _, _, _, _, _, _, _, _, _. split; [reflexivity|auto].
      + intros (s0 & I & R). apply in_app_or in I as [I|[<-|[]]]; [right; apply IH; eauto|]. destruct R as (c' & x' & q' & op' & b' & c'' & i' & q'' & args' & en' & k' & m' & E & En & _). injection E. intros. subst. left. auto.
    - apply Same; auto. intros (c' & x' & q' & op' & b' & c'' & i' & q'' & args' & en' & k' & m' & E & _ & R). injection E. intros. subst. apply beq_eq in R. congruence.
  Qed.
End Stmts.
Section Data.
  Variables (get : reader) (pkg file : bytes) (stmts : list (option expr)).
  Notation files := (repo get pkg file stmts).
  Notation data := (file_data get pkg file stmts).
  Lemma data_files p f : data p f = match files p f with Some l => analyzeFile p f l | None => no_data end.
  Proof. unfold file_data, repo. destruct (beq p pkg) eqn:A, (beq f file) eqn:B; auto. cbn. apply beq_eq in A, B. now subst. Qed.
  Lemma not_rules_spec n : negb (mem_bytes n not_rules) = true <-> ~ In n [%"glob"; %"existing_rule"; %"existing_rules"; %"package_name"; %"repository_name"; %"exports_files"].
  Proof. rewrite negb_true_iff. fold not_rules. destruct (mem_bytes n not_rules) eqn:E; [apply mem_bytes_In in E; split; [discriminate|contradiction]|]. split; auto. intros _ I. apply mem_bytes_In in I. congruence. Qed.
  Lemma rules_none p f n l : mem_bytes n (fd_rules (analyzeFile p f l)) = false <-> none_such (rule_stmt n) l.
  Proof.
    unfold none_such. rewrite Forall_forall. split.
    - intros H s I R. assert (X : mem_bytes n (fd_rules (analyzeFile p f l)) = true) by (apply rules_spec; eauto). congruence.
    - intro H. destruct (mem_bytes n (fd_rules (analyzeFile p f l))) eqn:E; auto. apply rules_spec in E as (s & I & R). elim (H _ I R).
  Qed.
  (** What a verdict is read from, in terms of the files. *)
  Lemma step_true fn : step data fn = inl true -> macro files fn.
  Proof.
    unfold step. destruct fn as [p f n]. cbn [fn_pkg fn_file fn_name]. destruct (beq f nativeModule) eqn:Nat.
    - apply beq_eq in Nat. subst f. intro H. injection H as H. apply m_native. now apply not_rules_spec.
    - assert (Nf : f <> %"<native>") by (intro; subst; discriminate). rewrite data_files. destruct (files p f) as [l|] eqn:Fl; [|discriminate].
      pose proof (aliases_spec p f (fold_left (load_symbols p) l []) n l) as A. cbv beta in A. fold (analyzeFile p f l) in A. destruct (find_key n (fd_aliases (analyzeFile p f l))) as [g|]; [discriminate|].
      destruct (mem_bytes n (fd_rules _)) eqn:R; [|destruct (find_key n (fd_functions _)); discriminate]. intros _. apply rules_spec in R as (s & I & R). eapply m_rule; eauto.
  Qed.
  Lemma step_calls fn calls a g : step data fn = inr calls -> In (a, g) calls ->
    depends files fn g /\ (macro files g -> macro files fn) /\
    (noalias data fn -> exists l d, files (fn_pkg fn) (fn_file fn) = Some l /\ last_such (def_stmt (fn_name fn)) l (Some d) /\ calls_fn (fn_pkg fn) (fn_file fn) l d a g).
  Proof.
    unfold step, noalias. destruct fn as [p f n]. cbn [fn_pkg fn_file fn_name]. destruct (beq f nativeModule) eqn:Nat; [discriminate|].
    assert (Nf : f <> %"<native>") by (intro; subst; discriminate). rewrite data_files. destruct (files p f) as [l|] eqn:Fl; [|discriminate].
    pose proof (aliases_spec p f (fold_left (load_symbols p) l []) n l) as A. cbv beta in A. fold (analyzeFile p f l) in A. destruct (find_key n (fd_aliases (analyzeFile p f l))) as [h|].
    - intros H I. injection H as <-. destruct I as [I|[]]. injection I as <- <-. destruct A as (c & x & q & op & b & y & K & E). apply refers_spec in E.
      split; [eapply d_alias; eauto|]. split; [intro; eapply m_alias; eauto|discriminate].
    - destruct (mem_bytes n (fd_rules _)) eqn:R; [discriminate|]. apply rules_none in R.
      pose proof (functions_spec p f (fold_left (load_symbols p) l []) n l) as F. cbv beta in F. fold (analyzeFile p f l) in F. destruct (find_key n (fd_functions (analyzeFile p f l))) as [cs|]; [|discriminate].
      intros H I. injection H as <-. destruct F as (d & K & ->). apply calls_spec in I. split; [eapply d_def; eauto|]. split; [intro; eapply m_def; eauto|]. eauto.
  Qed.
  Lemma depends_step fn g : depends files fn g -> exists calls a, step data fn = inr calls /\ In (a, g) calls.
  Proof.
    unfold step. intros [p f n l c x q op b y g' Nf Fl K R|p f n l d a g' Nf Fl Al Rl K C]; cbn [fn_pkg fn_file fn_name]; rewrite (proj2 (beq_neq f nativeModule) Nf), data_files, Fl;
      pose proof (aliases_spec p f (fold_left (load_symbols p) l []) n l) as A; cbv beta in A; fold (analyzeFile p f l) in A.
    - destruct (find_key n (fd_aliases (analyzeFile p f l))) as [h|]; [|elim (last_none _ _ _ K A)]. destruct A as (c' & x' & q' & op' & b' & y' & K' & E). pose proof (last_unique _ _ _ _ K K') as U. injection U. intros; subst y'.
      apply refers_spec in R. exists [([], h)], []. split; auto. left. rewrite E, R. reflexivity.
    - destruct (find_key n (fd_aliases (analyzeFile p f l))) as [h|]; [destruct A as (c' & x' & q' & op' & b' & y' & K' & E); elim (last_none _ _ _ K' Al)|]. apply (rules_none p f) in Rl. rewrite Rl.
      pose proof (functions_spec p f (fold_left (load_symbols p) l []) n l) as F. cbv beta in F. fold (analyzeFile p f l) in F. destruct (find_key n (fd_functions (analyzeFile p f l))) as [cs|]; [|elim (last_none _ _ _ K F)].
      destruct F as (d' & K' & ->). pose proof (last_unique _ _ _ _ K K') as U. injection U as <-. apply calls_spec in C. eauto.
  Qed.
  Lemma gm_macro fn : gm data fn <-> macro files fn.
  Proof.
    split.
    - intro M. induction M as [fn H|fn calls a g H I M IH]; [apply step_true; auto|]. eapply step_calls; eauto.
    - intro M. assert (Dep : forall f g, depends files f g -> gm data g -> gm data f) by (intros f g D G; apply depends_step in D as (calls & a & H & I); eapply gm_call; eauto).
      induction M as [p n H|p f n l c x q op b y g Nf Fl K R M IH|p f n l s Nf Fl Al I R|p f n l d a g Nf Fl Al Rl K C M IH].
      + apply gm_leaf. unfold step. cbn [fn_file fn_name]. change nativeModule with %"<native>". rewrite beq_refl. f_equal. now apply not_rules_spec.
      + eapply Dep; [eapply d_alias; eauto|auto].
      + apply gm_leaf. unfold step. cbn [fn_pkg fn_file fn_name]. rewrite (proj2 (beq_neq f nativeModule) Nf), data_files, Fl.
        pose proof (aliases_spec p f (fold_left (load_symbols p) l []) n l) as A; cbv beta in A; fold (analyzeFile p f l) in A. destruct (find_key n (fd_aliases (analyzeFile p f l))) as [h|]; [destruct A as (c' & x' & q' & op' & b' & y' & K' & E); elim (last_none _ _ _ K' Al)|].
        destruct (mem_bytes n (fd_rules (analyzeFile p f l))) eqn:E; auto. apply rules_none in E. unfold none_such in E. rewrite Forall_forall in E. elim (E _ I R).
      + eapply Dep; [eapply d_def; eauto|auto].
  Qed.
End Data.
