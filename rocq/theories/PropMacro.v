(** C82: functions that make rules should take a name. *)
From Verif Require Import LRTables LRCert Parse PropComplete.
From Verif Require Import Base BaseProofs Ast ParseFile Walk WalkSpec WalkProofs PropWalk Labels Scope PropPrint Macro MacroSpec MacroProofs MacroLink.
Local Open Scope list_scope.

Lemma param_ident p n : (exists i, GetParamIdent p = Some i /\ i_name i = n) <-> param_named p n.
Proof.
  split.
  - intros (i & H & <-). revert H. assert (K : forall h p, height p <= h -> GetParamIdent p = Some i -> param_named p (i_name i)).
    { induction h as [|h IH]; intros e L H; [destruct e; cbn in L; lia|]. destruct e; try discriminate.
      - injection H as <-. constructor.
      - injection H as <-. constructor.
      - destruct x as [x|]; [|discriminate]. cbn [GetParamIdent] in H. constructor. apply IH; auto. cbn in L. lia.
      - cbn [GetParamIdent] in H. constructor. apply IH; auto. cbn in L. lia. }
    apply (K (height p)); auto.
  - intro H. induction H as [i|c i t|c x q op b v n H (i & IH & E)|c q op x n H (i & IH & E)]; cbn [GetParamIdent]; eauto.
Qed.
Lemma kwargs_spec p i : GetParamIdent p = Some i -> (param_op p = %"**" <-> param_kwargs p).
Proof.
  intro H. split.
  - revert H. assert (K : forall h p, height p <= h -> GetParamIdent p = Some i -> param_op p = %"**" -> param_kwargs p).
    { induction h as [|h IH]; intros e L H O; [destruct e; cbn in L; lia|]. destruct e; try discriminate.
      - destruct x as [x|]; [|discriminate]. cbn [GetParamIdent param_op] in *. subst op. apply (pk_star _ _ _ (i_name i)). apply param_ident. eauto.
      - cbn [GetParamIdent param_op] in *. constructor. apply IH; auto. cbn in L. lia. }
    apply (K (height p)); auto.
  - intro K. clear H. induction K; cbn [param_op]; auto.
Qed.
Lemma kwargs_named p : param_kwargs p -> exists i, GetParamIdent p = Some i.
Proof. intro K. induction K as [c q x n H|c x q op b v K IH]; cbn [GetParamIdent]; auto. apply param_ident in H as (i & H & _). eauto. Qed.
Lemma accepts_spec params : acceptsNameArgument params = true <-> takes_name params.
Proof.
  unfold acceptsNameArgument, takes_name. rewrite existsb_exists. split; intros (p & I & H); exists p; split; auto; unfold accepts_name in *.
  - destruct (GetParamIdent p) as [i|] eqn:E; [|discriminate]. apply orb_true_iff in H as [H|H]; apply beq_eq in H; [left; apply param_ident; eauto|right; eapply kwargs_spec; eauto].
  - destruct H as [H|H].
    + apply param_ident in H as (i & -> & ->). rewrite beq_refl. auto.
    + destruct (kwargs_named _ H) as (i & E). rewrite E. rewrite (proj2 (kwargs_spec _ _ E) H). rewrite beq_refl. apply orb_true_r.
Qed.
Definition skipped (params : list expr) (name : bytes) : bool := has_prefix %"_" name || acceptsNameArgument params.
Lemma skipped_spec params name : skipped params name = false <-> ~ (exists t, name = %"_" ++ t) /\ ~ takes_name params.
Proof.
  unfold skipped. rewrite orb_false_iff. split.
  - intros [A B]. split; [intros (t & ->); cbn in A; discriminate|]. intro T. apply accepts_spec in T. congruence.
  - intros [A B]. split.
    + destruct (has_prefix %"_" name) eqn:E; auto. apply has_prefix_spec in E. contradiction.
    + destruct (acceptsNameArgument params) eqn:E; auto. apply accepts_spec in E. contradiction.
Qed.
(** A statement that the loop asks about. *)
Definition asked (l : list (option expr)) (d : expr) (n : bytes) : Prop :=
  exists c p params body colon k m ty, d = EDef c p params body n colon k m ty /\ In (Some d) l /\ skipped params n = false.
Lemma asked_should l d n : asked l d n <-> should_take_name l d n.
Proof.
  split; intros (c & p & params & body & colon & k & m & ty & E & I & H); exists c, p, params, body, colon, k, m, ty; split; auto; split; auto; apply skipped_spec; auto.
Qed.
Lemma asked_cons s l d n : asked (s :: l) d n <-> asked [s] d n \/ asked l d n.
Proof.
  split.
  - intros (c & p & params & body & colon & k & m & ty & E & [I|I] & H); [left|right]; exists c, p, params, body, colon, k, m, ty; split; auto. split; auto. left. auto.
  - intros [(c & p & params & body & colon & k & m & ty & E & [I|[]] & H)|(c & p & params & body & colon & k & m & ty & E & I & H)]; exists c, p, params, body, colon, k, m, ty; split; auto; split; auto; [left; auto|right; auto].
Qed.
Lemma filter_short {A} (p : A -> bool) l : List.length (filter p l) <= List.length l.
Proof. induction l as [|x l IH]; cbn; auto. destruct (p x); cbn; lia. Qed.
Section Loop.
  Variable data : bytes -> bytes -> fileData.
  Variable order : cache -> function -> list (bytes * function) -> list (bytes * function).
  Hypothesis order_same : forall st fn l x, In x (order st fn l) <-> In x l.
  Variables (fuel : nat) (pkg file : bytes).
  Notation loop := (warn_loop data order fuel pkg file).
  (** One step of the loop. *)
  Inductive looped : cache -> list (option expr) -> list (expr * option bytes) -> Prop :=
    | lp_nil st : looped st [] []
    | lp_skip st s l out : (forall d n, ~ asked [s] d n) -> looped st l out -> looped st (s :: l) out
    | lp_no st d n l st' o out : asked [Some d] d n -> IsMacro data order fuel st (Fn pkg file n) = Some (st', (false, o)) -> looped st' l out -> looped st (Some d :: l) out
    | lp_yes st d n l st' o out : asked [Some d] d n -> IsMacro data order fuel st (Fn pkg file n) = Some (st', (true, o)) -> looped st' l out -> looped st (Some d :: l) ((d, o) :: out).
  Lemma loop_looped l : forall st out, loop st l = Some out -> looped st l out.
  Proof.
    induction l as [|s l IH]; intros st out H; [injection H as <-; constructor|].
    assert (Sk : (forall d n, ~ asked [s] d n) -> loop st l = Some out -> looped st (s :: l) out) by (intros; apply lp_skip; auto).
    destruct s as [e|]; [|apply Sk; auto; intros d n (c & p & params & body & colon & k & m & ty & E & [I|[]] & X); discriminate].
    destruct e; try (apply Sk; [intros d n (c' & p' & params' & body' & colon' & k' & m' & ty' & E & [I|[]] & X); subst; discriminate|exact H]).
    cbn [warn_loop] in H. fold (skipped params name) in H. destruct (skipped params name) eqn:K.
    - apply Sk; auto. intros d n (c' & p' & params' & body' & colon' & k' & m' & ty' & E & [I|[]] & X). rewrite E in I. injection I. intros. subst. congruence.
    - assert (A : forall d, d = EDef c p params body name colon compact multi ty -> asked [Some d] d name) by (intros d ->; eexists _, _, _, _, _, _, _, _; split; [reflexivity|]; split; [left; auto|auto]).
      destruct (IsMacro data order fuel st (Fn pkg file name)) as [[st' [b fc]]|] eqn:E; [|discriminate]. destruct (loop st' l) as [out'|] eqn:F; [|discriminate]. injection H as <-.
      destruct b; [eapply lp_yes|eapply lp_no]; eauto.
  Qed.
  Lemma asked_self d n d' n' : asked [Some d] d n -> asked [Some d] d' n' -> d' = d /\ n' = n.
  Proof. intros (c & p & params & body & colon & k & m & ty & E & _) (c' & p' & params' & body' & colon' & k' & m' & ty' & E' & [I|[]] & _). injection I as <-. split; auto. congruence. Qed.
  Lemma looped_sound st l out : looped st l out -> sound data st -> forall d o, In (d, o) out -> exists n, asked l d n /\ sound_entry data (Fn pkg file n) (true, o).
  Proof.
    intro H. induction H as [st|st s l out N H IH|st d n l st' o out A E H IH|st d n l st' o out A E H IH]; intros Sd d' o' I.
    - destruct I.
    - destruct (IH Sd _ _ I) as (n' & A' & K). exists n'. split; auto. apply asked_cons. auto.
    - destruct (IsMacro_sound _ _ order_same _ _ _ _ _ Sd E) as [S' _]. destruct (IH S' _ _ I) as (n' & A' & K). exists n'. split; auto. apply asked_cons. auto.
    - destruct (IsMacro_sound _ _ order_same _ _ _ _ _ Sd E) as [S' K]. destruct I as [I|I]; [injection I as <- <-; exists n; split; auto; apply asked_cons; auto|].
      destruct (IH S' _ _ I) as (n' & A' & K'). exists n'. split; auto. apply asked_cons. auto.
  Qed.
  Lemma looped_first st l out : looped st l out -> sound data st -> exact data st ->
    exists a b, l = a ++ b /\ (forall d n, asked a d n -> ~ gm data (Fn pkg file n)) /\ match out with [] => b = [] | (d, _) :: _ => exists b', b = Some d :: b' end.
  Proof.
    intro H. induction H as [st|st s l out N H IH|st d n l st' o out A E H IH|st d n l st' o out A E H IH]; intros Sd Ex.
    - exists [], []. split; auto. split; auto. intros d n (c & p & params & body & colon & k & m & ty & _ & [] & _).
    - destruct (IH Sd Ex) as (a & b & -> & F & K). exists (s :: a), b. split; auto. split; auto. intros d n A. apply asked_cons in A as [A|A]; [elim (N _ _ A)|eauto].
    - destruct (IsMacro_sound _ _ order_same _ _ _ _ _ Sd E) as [S' _]. destruct (IsMacro_exact _ _ order_same _ _ _ _ _ Sd Ex E) as [X1 X2]. destruct (IH S' (X2 eq_refl)) as (a & b & -> & F & K). exists (Some d :: a), b. split; auto. split; auto.
      intros d' n' A'. apply asked_cons in A' as [A'|A']; [|eauto]. destruct (asked_self _ _ _ _ A A') as [-> ->]. intro M. apply X1 in M. discriminate.
    - exists [], (Some d :: l). split; auto. split; [intros d' n' (c & p & params & body & colon & k & m & ty & _ & [] & _)|eauto].
  Qed.
  Lemma looped_ranked rank st l out : (forall fn calls a g, step data fn = inr calls -> In (a, g) calls -> rank g < rank fn) ->
    looped st l out -> exact data st -> forall d n, asked l d n -> gm data (Fn pkg file n) -> exists o, In (d, o) out.
  Proof.
    intros Rk H. assert (Next : forall st fn st' r, exact data st -> IsMacro data order fuel st fn = Some (st', r) -> (fst r = true <-> gm data fn) /\ exact data st').
    { intros st0 fn st' r Ex E. destruct (IsMacro_ranked _ _ order_same rank Rk _ _ _ _ _ (fun g r C _ => Ex g r C) E) as [X1 X2]. split; auto. intros g r' C. destruct (X2 _ _ C) as [|[_ X]]; auto. }
    induction H as [st|st s l out N H IH|st d n l st' o out A E H IH|st d n l st' o out A E H IH]; intros Ex d' n' A' M.
    - destruct A' as (c & p & params & body & colon & k & m & ty & _ & [] & _).
    - apply asked_cons in A' as [A'|A']; [elim (N _ _ A')|eauto].
    - destruct (Next _ _ _ _ Ex E) as [X1 X2]. apply asked_cons in A' as [A'|A']; [|eauto]. destruct (asked_self _ _ _ _ A A') as [-> ->]. apply X1 in M. discriminate.
    - destruct (Next _ _ _ _ Ex E) as [X1 X2]. apply asked_cons in A' as [A'|A']; [|destruct (IH X2 _ _ A' M) as (o' & I); exists o'; right; auto].
      destruct (asked_self _ _ _ _ A A') as [-> ->]. exists o. left. auto.
  Qed.
  Lemma loop_total L l : (forall fn calls a g, In fn L -> step data fn = inr calls -> In (a, g) calls -> In g L) -> (forall d n, asked l d n -> In (Fn pkg file n) L) -> List.length L <= fuel ->
    forall st, loop st l <> None.
  Proof.
    intros Cl. induction l as [|s l IH]; intros Al Hf st; [discriminate|].
    assert (Al' : forall d n, asked l d n -> In (Fn pkg file n) L) by (intros; eapply Al; apply asked_cons; eauto). specialize (IH Al' Hf).
    destruct s as [e|]; [|apply IH]. destruct e; try apply IH. cbn [warn_loop]. fold (skipped params name). destruct (skipped params name) eqn:K; [apply IH|].
    destruct (IsMacro_total data order order_same L Cl fuel st (Fn pkg file name)) as (st' & [b fc] & -> & _).
    - eapply Al. apply asked_cons. left. eexists _, _, _, _, _, _, _, _. split; [reflexivity|]. split; [left; auto|auto].
    - unfold open_in. pose proof (filter_short (opened st) L). lia.
    - specialize (IH st'). destruct (loop st' l); [discriminate|auto].
  Qed.
End Loop.
(** More fuel changes nothing. *)
Lemma IsMacro_more data order n : forall m st fn x, n <= m -> IsMacro data order n st fn = Some x -> IsMacro data order m st fn = Some x.
Proof.
  induction n as [|n IH]; intros m st fn x L H.
  - cbn [IsMacro] in H. destruct m; cbn [IsMacro]; destruct (cached fn st); congruence.
  - destruct m as [|m]; [lia|]. cbn [IsMacro] in *. destruct (cached fn st); auto. cbv zeta in *. destruct (beq (fn_file fn) nativeModule); auto.
    destruct (find_key (fn_name fn) (fd_aliases _)) as [alias|].
    + destruct (IsMacro data order n _ alias) as [[st2 [b fc]]|] eqn:E; [|discriminate]. rewrite (IH m _ _ _ ltac:(lia) E). auto.
    + destruct (mem_bytes _ _); auto. destruct (find_key (fn_name fn) (fd_functions _)) as [calls|]; auto.
      assert (T : forall l st y, try_calls (IsMacro data order n) st l = Some y -> try_calls (IsMacro data order m) st l = Some y).
      { induction l as [|[a g] l IHl]; intros st0 y Hy; auto. cbn [try_calls] in *. destruct (IsMacro data order n st0 g) as [[st2 [b fc]]|] eqn:E; [|discriminate]. rewrite (IH m _ _ _ ltac:(lia) E). destruct b; auto. }
      destruct (try_calls (IsMacro data order n) _ _) as [y|] eqn:E; [|discriminate]. rewrite (T _ _ _ E). auto.
Qed.
Lemma loop_more data order n m pkg file l : n <= m -> forall st out, warn_loop data order n pkg file st l = Some out -> warn_loop data order m pkg file st l = Some out.
Proof.
  intro L. induction l as [|s l IH]; intros st out H; auto. destruct s as [e|]; [|apply IH; auto]. destruct e; try (apply IH; auto; fail). cbn [warn_loop] in *. destruct (_ || _); [apply IH; auto|].
  destruct (IsMacro data order n st (Fn pkg file name)) as [[st' [b fc]]|] eqn:E; [|discriminate]. rewrite (IsMacro_more _ _ _ _ _ _ _ L E). destruct (warn_loop data order n pkg file st' l) as [out'|] eqn:F; [|discriminate]. rewrite (IH _ _ F). auto.
Qed.

(** ** C82 *)
(** Go's iteration over a map: any order of the calls. *)
Definition some_order (order : cache -> function -> list (bytes * function) -> list (bytes * function)) : Prop :=
  forall st fn l x, In x (order st fn l) <-> In x l.
(** Every function that is reported is public, cannot be given a name, and makes rules; the call that the message names makes a rule. *)
Theorem C82_sound :
  forall order fuel get ty pkg file stmts findings, some_order order ->
    unnamedMacroWarning order fuel get ty pkg file stmts = Some findings ->
    forall d o, In (d, o) findings ->
      exists n, should_take_name stmts d n /\ macro (repo get pkg file stmts) (Fn pkg file n) /\
        forall alias, o = Some alias -> exists d' g, last_such (def_stmt n) stmts (Some d') /\ calls_fn pkg file stmts d' alias g /\ macro (repo get pkg file stmts) g.
Proof.
  intros order fuel get ty pkg file stmts out Or H d o I. destruct ty; try (injection H as <-; destruct I). apply loop_looped in H.
  destruct (looped_sound _ _ Or _ _ _ _ _ _ H) with (d := d) (o := o) as (n & A & K); auto; [intros fn r C; discriminate|]. apply asked_should in A. exists n. split; auto.
  destruct (K eq_refl) as [M1 M2]. split; [apply gm_macro; auto|]. intros alias ->. destruct (M2 alias eq_refl) as (calls & g & Na & Hs & Hin & Mg).
  destruct (step_calls _ _ _ _ _ _ _ _ Hs Hin) as (_ & _ & X). destruct (X Na) as (l & d' & Fl & K1 & K2). cbn [fn_pkg fn_file fn_name] in *. unfold repo in Fl. rewrite !beq_refl in Fl. injection Fl as <-.
  exists d', g. split; auto. split; auto. apply gm_macro. auto.
Qed.
(** No findings: no such function makes rules. *)
Theorem C82_clean :
  forall order fuel get pkg file stmts findings, some_order order ->
    unnamedMacroWarning order fuel get TypeBzl pkg file stmts = Some findings ->
    (findings = [] <-> forall d n, should_take_name stmts d n -> ~ macro (repo get pkg file stmts) (Fn pkg file n)).
Proof.
  intros order fuel get pkg file stmts out Or H. split.
  - intros -> d n A M. apply loop_looped in H. destruct (looped_first _ _ Or _ _ _ _ _ _ H) as (a & b & E & F & K); [intros fn r C; discriminate|intros fn r C; discriminate|]. subst b. rewrite app_nil_r in E. subst a.
    apply asked_should in A. apply (F _ _ A). apply gm_macro. auto.
  - intro N. destruct out as [|[d o] out]; auto. destruct (C82_sound _ _ _ _ _ _ _ _ Or H d o) as (n & A & M & _); [left; auto|]. elim (N _ _ A M).
Qed.
(** The first finding is the first such function of the file that makes rules. *)
Theorem C82_first :
  forall order fuel get pkg file stmts d o findings, some_order order ->
    unnamedMacroWarning order fuel get TypeBzl pkg file stmts = Some ((d, o) :: findings) ->
    exists a b, stmts = a ++ Some d :: b /\ forall d' n, should_take_name a d' n -> ~ macro (repo get pkg file stmts) (Fn pkg file n).
Proof.
  intros order fuel get pkg file stmts d o out Or H. apply loop_looped in H. destruct (looped_first _ _ Or _ _ _ _ _ _ H) as (a & b & E & F & K); [intros fn r C; discriminate|intros fn r C; discriminate|].
  destruct K as (b' & ->). exists a, b'. split; auto. intros d' n A M. apply asked_should in A. apply (F _ _ A). apply gm_macro. auto.
Qed.
(** Without recursion all of them are reported. *)
Theorem C82_complete_partial :
  forall order fuel get pkg file stmts findings (rank : function -> nat), some_order order ->
    (forall f g, depends (repo get pkg file stmts) f g -> rank g < rank f) ->
    unnamedMacroWarning order fuel get TypeBzl pkg file stmts = Some findings ->
    forall d n, should_take_name stmts d n -> macro (repo get pkg file stmts) (Fn pkg file n) -> exists o, In (d, o) findings.
Proof.
  intros order fuel get pkg file stmts out rank Or Rk H d n A M. apply loop_looped in H. eapply (looped_ranked _ _ Or); [|exact H|intros fn r C; discriminate|apply asked_should; exact A|apply gm_macro; auto].
  intros fn calls a g Hs Hi. apply Rk. eapply step_calls; eauto.
Qed.
(** The analysis ends, with recursion too, if there are finitely many files; and then it does not matter how long it may take. *)
Theorem C82_terminates :
  forall order get pkg file stmts (all : list (bytes * bytes)), some_order order -> (forall p f, get p f <> None -> In (p, f) all) ->
    exists fuel findings, forall fuel', fuel <= fuel' -> unnamedMacroWarning order fuel' get TypeBzl pkg file stmts = Some findings.
Proof.
  intros order get pkg file stmts all Or Fin.
  set (data := file_data get pkg file stmts).
  set (targets := flat_map (fun k => let d := data (fst k) (snd k) in map snd (fd_aliases d) ++ flat_map (fun e => map snd (snd e)) (fd_functions d)) ((pkg, file) :: all)).
  set (starts := flat_map (fun s => match s with Some (EDef _ _ _ _ n _ _ _ _) => [Fn pkg file n] | _ => [] end) stmts).
  set (L := starts ++ targets).
  assert (Key : forall A k (m : list (bytes * A)) v, find_key k m = Some v -> In (k, v) m).
  { intros A k m. induction m as [|[k' v'] m IH]; intros v H; [discriminate|]. cbn in H. destruct (beq k' k) eqn:Q; [apply beq_eq in Q; subst; injection H as <-; left; auto|right; auto]. }
  assert (Cl : forall fn calls a g, In fn L -> step data fn = inr calls -> In (a, g) calls -> In g L).
  { intros fn calls a g _ Hs Hi. apply in_or_app. right. apply in_flat_map. exists (fn_pkg fn, fn_file fn). cbn [fst snd]. unfold step in Hs. destruct (beq (fn_file fn) nativeModule); [discriminate|]. split.
    - unfold data in Hs. rewrite data_files in Hs. unfold repo in Hs. destruct (beq (fn_pkg fn) pkg && beq (fn_file fn) file) eqn:Q.
      + apply andb_true_iff in Q as [Q1 Q2]. apply beq_eq in Q1, Q2. subst. left. auto.
      + right. apply Fin. intro X. rewrite X in Hs. discriminate.
    - destruct (find_key (fn_name fn) (fd_aliases _)) as [alias|] eqn:E.
      + injection Hs as <-. destruct Hi as [Hi|[]]. injection Hi as <- <-. apply in_or_app. left. apply in_map_iff. apply Key in E. exists (fn_name fn, alias). auto.
      + destruct (mem_bytes _ _); [discriminate|]. destruct (find_key (fn_name fn) (fd_functions _)) as [cs|] eqn:E'; [|discriminate]. injection Hs as <-. apply in_or_app. right. apply in_flat_map. apply Key in E'. exists (fn_name fn, cs). split; auto. cbn [snd]. apply in_map_iff. exists (a, g). auto. }
  assert (Al : forall d n, asked stmts d n -> In (Fn pkg file n) L).
  { intros d n (c & p & params & body & colon & k & m & ty & -> & I & _). apply in_or_app. left. apply in_flat_map. eexists. split; [exact I|]. left. auto. }
  pose proof (loop_total data order Or (List.length L) pkg file L stmts Cl Al (le_n _) []) as T. destruct (warn_loop data order (List.length L) pkg file [] stmts) as [out|] eqn:E; [|congruence].
  exists (List.length L), out. intros fuel' Le. cbn [unnamedMacroWarning]. eapply loop_more; eauto.
Qed.
Definition source (l : list bytes) : list (option expr) := match parse_file meta (lines l) with Some (EFile _ _ stmts) => stmts | _ => [] end.
Definition names (o : option (list (expr * option bytes))) : option (list (bytes * option bytes)) :=
  option_map (map (fun e => (match fst e with EDef _ _ _ _ n _ _ _ _ => n | _ => [] end, snd e))) o.
(** Full completeness fails: with recursion it depends on the order of Go's iteration over a map whether a macro is reported. *)
Definition recursive_file : list (option expr) := source [%"def f(x):"; %"    g(x)"; %"    native.cc_library()"; []; %"def g(x):"; %"    f(x)"].
Theorem C82_recursion_refuted :
  exists o1 o2, some_order o1 /\ some_order o2 /\
    (exists d, should_take_name recursive_file d %"g" /\ macro (repo (fun _ _ => None) [] %"a.bzl" recursive_file) (Fn [] %"a.bzl" %"g")) /\
    names (unnamedMacroWarning o1 10 (fun _ _ => None) TypeBzl [] %"a.bzl" recursive_file) = Some [(%"f", Some %"native.cc_library")] /\
    names (unnamedMacroWarning o2 10 (fun _ _ => None) TypeBzl [] %"a.bzl" recursive_file) = Some [(%"f", Some %"native.cc_library"); (%"g", Some %"f")].
Proof.
  set (o1 := fun (_ : cache) (_ : function) (l : list (bytes * function)) => l). set (o2 := fun (_ : cache) (_ : function) (l : list (bytes * function)) => rev l).
  assert (O1 : some_order o1) by (intros st fn l x; reflexivity). assert (O2 : some_order o2) by (intros st fn l x; unfold o2; rewrite <- in_rev; reflexivity).
  assert (E2 : names (unnamedMacroWarning o2 10 (fun _ _ => None) TypeBzl [] %"a.bzl" recursive_file) = Some [(%"f", Some %"native.cc_library"); (%"g", Some %"f")]) by (vm_compute; reflexivity).
  exists o1, o2. split; auto. split; auto. split; [|split; [vm_compute; reflexivity|exact E2]].
  destruct (unnamedMacroWarning o2 10 (fun _ _ => None) TypeBzl [] %"a.bzl" recursive_file) as [out|] eqn:E; [|discriminate E2]. cbn [names option_map] in E2. injection E2 as E2.
  destruct out as [|x [|[d o] out]]; try discriminate E2. destruct (C82_sound _ _ _ _ _ _ _ _ O2 E d o) as (n & A & M & _); [right; left; auto|]. exists d.
  assert (n = %"g") as ->; [|split; assumption]. clear - A E2. destruct A as (c & p & params & body & colon & k & m & ty & -> & _). cbn [map fst] in E2. injection E2. intros. assumption.
Qed.
(** Macros of another file, an alias, a rule, a name, **kwargs, a private function, native.glob. *)
Definition rules_bzl : list (option expr) := source [%"my_rule = rule(attrs = {})"; %"alias = my_rule"; %"def wrap(n):"; %"    alias(name = n)"].
Definition main_bzl : list (option expr) :=
  source [%"load("":rules.bzl"", w = ""wrap"")"; %"def a():"; %"    [w(x) for x in range(3)]"; %"def b(name):"; %"    w(name)"; %"def c(**kwargs):"; %"    w(**kwargs)"; %"def _d():"; %"    w(1)"; %"def e():"; %"    native.glob([])"; %"def f():"; %"    a()"].
Definition lib : reader := fun p f => if beq p %"lib" && beq f %"rules.bzl" then Some rules_bzl else None.
Example C82_nontrivial :
  names (unnamedMacroWarning (fun _ _ l => l) 10 lib TypeBzl %"lib" %"main.bzl" main_bzl) = Some [(%"a", Some %"w"); (%"f", Some %"a")].
Proof. vm_compute. reflexivity. Qed.
(** That file has no recursion: C82_complete_partial is about it. *)
Definition main_rank (f : function) : nat :=
  match find_key (fn_name f) [(%"f", 5); (%"a", 4); (%"b", 4); (%"c", 4); (%"_d", 4); (%"e", 4); (%"wrap", 3); (%"alias", 2); (%"my_rule", 1)] with Some n => n | None => 0 end.
Definition ranks_ok (rank : function -> nat) (p f : bytes) (d : fileData) : bool :=
  forallb (fun e => Nat.ltb (rank (snd e)) (rank (Fn p f (fst e)))) (fd_aliases d) &&
  forallb (fun e => forallb (fun c => Nat.ltb (rank (snd c)) (rank (Fn p f (fst e)))) (snd e)) (fd_functions d).
Example C82_complete_nontrivial : forall f g, depends (repo lib %"lib" %"main.bzl" main_bzl) f g -> main_rank g < main_rank f.
Proof.
  intros [p f n] g D. apply depends_step in D as (calls & a & Hs & Hi).
  assert (Key : forall A k (m : list (bytes * A)) v, find_key k m = Some v -> In (k, v) m).
  { intros A k m. induction m as [|[k' v'] m IH]; intros v H; [discriminate|]. cbn in H. destruct (beq k' k) eqn:Q; [apply beq_eq in Q; subst; injection H as <-; left; auto|right; auto]. }
  assert (Ok : ranks_ok main_rank p f (file_data lib %"lib" %"main.bzl" main_bzl p f) = true).
  { unfold file_data, lib. destruct (beq p %"lib") eqn:P; [|reflexivity]. apply beq_eq in P. subst p. destruct (beq f %"main.bzl") eqn:F; [apply beq_eq in F; subst f; vm_compute; reflexivity|].
    destruct (beq f %"rules.bzl") eqn:F'; [apply beq_eq in F'; subst f; vm_compute; reflexivity|reflexivity]. }
  remember (file_data lib %"lib" %"main.bzl" main_bzl) as data eqn:Ed. clear Ed. unfold ranks_ok in Ok. apply andb_true_iff in Ok as [O1 O2]. rewrite forallb_forall in O1, O2.
  unfold step in Hs. cbn [fn_pkg fn_file fn_name] in Hs. destruct (beq f nativeModule); [discriminate Hs|]. destruct (find_key n (fd_aliases (data p f))) as [h|] eqn:E.
  - injection Hs as <-. destruct Hi as [Hi|[]]. injection Hi as <- <-. apply Key in E. apply O1 in E. apply Nat.ltb_lt in E. exact E.
  - destruct (mem_bytes _ _); [discriminate Hs|]. destruct (find_key n (fd_functions (data p f))) as [cs|] eqn:E'; [|discriminate Hs]. injection Hs as <-. apply Key in E'. apply O2 in E'. cbn [fst snd] in E'. rewrite forallb_forall in E'. apply E' in Hi. apply Nat.ltb_lt in Hi. exact Hi.
Qed.
Print Assumptions C82_sound. Print Assumptions C82_clean. Print Assumptions C82_first. Print Assumptions C82_complete_partial. Print Assumptions C82_terminates. Print Assumptions C82_recursion_refuted.
