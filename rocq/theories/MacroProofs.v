(** Proofs about IsMacro: first for any graph of calls, then that the graph is the one of the files. *)
From Verif Require Import Base BaseProofs Ast Walk WalkSpec WalkProofs PropWalk Labels Scope Macro MacroSpec.
Local Open Scope list_scope.

Lemma fn_eqb_eq f g : fn_eqb f g = true <-> f = g.
Proof.
  unfold fn_eqb. destruct f as [a b c], g as [a' b' c']. cbn. rewrite !andb_true_iff, !beq_eq. split; [intros [[-> ->] ->]; auto|intro E; injection E; auto].
Qed.
Lemma fn_eqb_refl f : fn_eqb f f = true. Proof. now apply fn_eqb_eq. Qed.
Lemma cached_cons fn g r st : cached fn ((g, r) :: st) = if fn_eqb g fn then Some r else cached fn st.
Proof. reflexivity. Qed.
Definition is_some {A} (o : option A) : bool := match o with Some _ => true | None => false end.
Section Graph.
  Variable data : bytes -> bytes -> fileData.
  Variable order : cache -> function -> list (bytes * function) -> list (bytes * function).
  Hypothesis order_same : forall st fn l x, In x (order st fn l) <-> In x l.
  (** What a verdict is read from: nothing, or these functions. *)
  Definition step (fn : function) : bool + list (bytes * function) :=
    if beq (fn_file fn) nativeModule then inl (negb (mem_bytes (fn_name fn) not_rules))
    else
      let d := data (fn_pkg fn) (fn_file fn) in
      match find_key (fn_name fn) (fd_aliases d) with
      | Some alias => inr [([], alias)]
      | None => if mem_bytes (fn_name fn) (fd_rules d) then inl true
                else match find_key (fn_name fn) (fd_functions d) with None => inl false | Some calls => inr calls end
      end.
  Definition noalias (fn : function) : Prop := find_key (fn_name fn) (fd_aliases (data (fn_pkg fn) (fn_file fn))) = None.
  Inductive gm : function -> Prop :=
    | gm_leaf fn : step fn = inl true -> gm fn
    | gm_call fn calls a g : step fn = inr calls -> In (a, g) calls -> gm g -> gm fn.
  Notation is_macro := (IsMacro data order).
  Inductive tried (n : nat) : cache -> list (bytes * function) -> cache -> option (bytes * function) -> Prop :=
    | tr_nil st : tried n st [] st None
    | tr_true st a g l st' fc : is_macro n st g = Some (st', (true, fc)) -> tried n st ((a, g) :: l) st' (Some (a, g))
    | tr_false st a g l st' fc st'' o : is_macro n st g = Some (st', (false, fc)) -> tried n st' l st'' o -> tried n st ((a, g) :: l) st'' o.
  Lemma try_calls_tried n calls : forall st st' r, try_calls (is_macro n) st calls = Some (st', r) -> exists o, tried n st calls st' o /\ r = (is_some o, option_map fst o).
  Proof.
    induction calls as [|[a g] l IH]; intros st st' r H; cbn [try_calls] in H; [injection H as <- <-; exists None; split; [constructor|auto]|].
    destruct (is_macro n st g) as [[st1 [b fc]]|] eqn:E; [|discriminate]. destruct b.
    - injection H as <- <-. exists (Some (a, g)). split; [econstructor; eauto|auto].
    - apply IH in H as (o & T & ->). exists o. split; [econstructor; eauto|auto].
  Qed.
  Lemma IsMacro_cases n st fn st' r : is_macro (S n) st fn = Some (st', r) ->
    (cached fn st = Some r /\ st' = st) \/
    (cached fn st = None /\ let st1 := (fn, (false, None)) :: st in
      ((step fn = inl (fst r) /\ snd r = None /\ st' = (fn, r) :: st1) \/
       exists calls calls' st2 o, step fn = inr calls /\ (forall x, In x calls' <-> In x calls) /\ tried n st1 calls' st2 o /\ st' = (fn, r) :: st2 /\ fst r = is_some o /\
         (snd r = option_map fst o /\ noalias fn \/ snd r = None))).
  Proof.
    cbn [IsMacro]. destruct (cached fn st) as [r0|]; [intro H; injection H as <- <-; left; auto|]. intro H. right. split; auto. cbv zeta in *. unfold step, noalias.
    destruct (beq (fn_file fn) nativeModule); [injection H as <- <-; left; auto|].
    destruct (find_key (fn_name fn) (fd_aliases (data (fn_pkg fn) (fn_file fn)))) as [alias|].
    - right. destruct (is_macro n _ alias) as [[st2 [b fc]]|] eqn:E; [|discriminate]. injection H as <- <-. exists [([], alias)], [([], alias)], st2.
      destruct b; [exists (Some ([], alias))|exists None]; (split; [auto|]; split; [tauto|]; split; [|split; [auto|split; auto]]).
      + econstructor; eauto.
      + econstructor; eauto. constructor.
    - destruct (mem_bytes _ _); [injection H as <- <-; left; auto|]. destruct (find_key (fn_name fn) (fd_functions _)) as [calls|]; [|injection H as <- <-; left; auto].
      right. destruct (try_calls _ _ _) as [[st2 r2]|] eqn:E; [|discriminate]. injection H as <- <-. apply try_calls_tried in E as (o & T & ->). exists calls, (order ((fn, (false, None)) :: st) fn calls), st2, o. cbn. split; auto. split; [intro x; apply order_same|]. split; auto.
  Qed.
  Lemma IsMacro_zero st fn st' r : is_macro 0 st fn = Some (st', r) -> cached fn st = Some r /\ st' = st.
  Proof. cbn [IsMacro]. destruct (cached fn st); [|discriminate]. intro H. injection H as <- <-. auto. Qed.

  (** ** Whatever is reported makes rules *)
  Definition sound_entry (fn : function) (r : report) : Prop :=
    fst r = true -> gm fn /\ forall a, snd r = Some a -> exists calls g, noalias fn /\ step fn = inr calls /\ In (a, g) calls /\ gm g.
  Definition sound (st : cache) : Prop := forall fn r, cached fn st = Some r -> sound_entry fn r.
  Lemma sound_cons st fn r : sound st -> sound_entry fn r -> sound ((fn, r) :: st).
  Proof. intros Sd E g r' H. rewrite cached_cons in H. destruct (fn_eqb fn g) eqn:Q; [|auto]. apply fn_eqb_eq in Q. subst. injection H as <-. auto. Qed.
  Lemma IsMacro_sound n : forall st fn st' r, sound st -> is_macro n st fn = Some (st', r) -> sound st' /\ sound_entry fn r.
  Proof.
    induction n as [|n IH]; intros st fn st' r Sd H; [apply IsMacro_zero in H as [H ->]; auto|].
    apply IsMacro_cases in H as [[H ->]|[_ H]]; [auto|]. cbv zeta in H. set (st1 := (fn, (false, None)) :: st) in H.
    assert (S1 : sound st1) by (apply sound_cons; auto; intro; discriminate).
    destruct H as [(H & E & ->)|(calls & calls' & st2 & o & H & Hc & T & -> & Eb & Ef)].
    - assert (X : sound_entry fn r) by (intro B; rewrite B in H; split; [apply gm_leaf; auto|congruence]). split; auto. apply sound_cons; auto.
    - assert (G : sound st2 /\ match o with Some (a, g) => In (a, g) calls' /\ gm g | None => True end).
      { clearbody st1. clear - IH S1 T. induction T as [st|st a g l st' fc E|st a g l st' fc st'' o E T IHT]; auto.
        - apply IH in E as [E1 E2]; auto. split; auto. split; [left; auto|]. apply E2. auto.
        - apply IH in E as [E1 E2]; auto. destruct (IHT E1) as [X1 X2]. split; auto. destruct o as [[a' g']|]; auto. destruct X2; split; auto. right. auto. }
      destruct G as [G1 G2]. assert (X : sound_entry fn r).
      { intro B. rewrite B in Eb. destruct o as [[a g]|]; [|discriminate]. destruct G2 as [G2 G3]. apply Hc in G2. split; [eapply gm_call; eauto|]. intros a' E'. destruct Ef as [[Ef Na]|Ef]; [|congruence]. cbn in Ef. assert (a' = a) by congruence. subst. exists calls, g. auto. }
      split; auto. apply sound_cons; auto.
  Qed.

  (** ** A negative answer *)
  Definition closed (g : function) (st : cache) : Prop :=
    step g <> inl true /\ forall calls a h, step g = inr calls -> In (a, h) calls -> exists r, cached h st = Some r /\ fst r = false.
  Definition grows_by (st st' : cache) : Prop :=
    (forall g r, cached g st = Some r -> cached g st' = Some r) /\
    (forall g r, cached g st = None -> cached g st' = Some r -> fst r = false /\ closed g st').
  Lemma grows_refl st : grows_by st st.
  Proof. split; auto. congruence. Qed.
  Lemma closed_mono g st st' : (forall g r, cached g st = Some r -> cached g st' = Some r) -> closed g st -> closed g st'.
  Proof. intros K [C1 C2]. split; auto. intros calls a h H I. destruct (C2 _ _ _ H I) as (r & R & F). eauto. Qed.
  Lemma grows_trans a b c : grows_by a b -> grows_by b c -> grows_by a c.
  Proof.
    intros [A1 A2] [B1 B2]. split; auto. intros g r N H. destruct (cached g b) as [r0|] eqn:E.
    - destruct (A2 _ _ N E) as [F C]. apply B1 in E. assert (r = r0) by congruence. subst. split; auto. eapply closed_mono; eauto.
    - eauto.
  Qed.
  Lemma IsMacro_false n : forall st fn st' r, is_macro n st fn = Some (st', r) -> fst r = false -> grows_by st st' /\ cached fn st' = Some r.
  Proof.
    induction n as [|n IH]; intros st fn st' r H F; [apply IsMacro_zero in H as [H ->]; split; auto; apply grows_refl|].
    apply IsMacro_cases in H as [[H ->]|[N H]]; [split; auto; apply grows_refl|]. cbv zeta in H. set (st1 := (fn, (false, None)) :: st) in H.
    assert (Up : forall st2, grows_by st1 st2 -> r = (false, None) -> closed fn st2 -> grows_by st ((fn, r) :: st2) /\ cached fn ((fn, r) :: st2) = Some r).
    { intros st2 [G1 G2] R C. split; [|rewrite cached_cons, fn_eqb_refl; auto].
      assert (Same : forall g, cached g ((fn, r) :: st2) = cached g st2).
      { intro g. rewrite cached_cons. destruct (fn_eqb fn g) eqn:Q; auto. apply fn_eqb_eq in Q. subst g. symmetry. rewrite R. apply G1. unfold st1. rewrite cached_cons, fn_eqb_refl. auto. }
      assert (Cl : forall g, closed g st2 -> closed g ((fn, r) :: st2)) by (intros g; apply closed_mono; intros h r' X; rewrite Same; auto).
      split.
      - intros g r' X. rewrite Same. apply G1. unfold st1. rewrite cached_cons. destruct (fn_eqb fn g) eqn:Q; auto. apply fn_eqb_eq in Q. subst. congruence.
      - intros g r' X Y. rewrite Same in Y. destruct (fn_eqb fn g) eqn:Q.
        + apply fn_eqb_eq in Q. subst g. split; auto. assert (Z : cached fn st2 = Some (false, None)) by (apply G1; unfold st1; rewrite cached_cons, fn_eqb_refl; auto). rewrite Z in Y. injection Y as <-. auto.
        + destruct (G2 g r') as [Z1 Z2]; auto. unfold st1. rewrite cached_cons, Q. auto. }
    destruct H as [(H & E & ->)|(calls & calls' & st2 & o & H & Hc & T & -> & Eb & Ef)].
    - rewrite F in H. apply Up; [apply grows_refl|destruct r; cbn in *; congruence|]. split; [congruence|]. intros; congruence.
    - rewrite F in Eb. destruct o; [discriminate|].
      assert (G : grows_by st1 st2 /\ forall a h, In (a, h) calls' -> exists r, cached h st2 = Some r /\ fst r = false).
      { clearbody st1. clear - IH T. remember None as o eqn:O. induction T as [st|st a g l st' fc E|st a g l st' fc st'' o E T IHT]; [split; [apply grows_refl|intros a h []]|discriminate|].
        destruct (IHT O) as [X1 X2]. apply IH in E as [E1 E2]; auto. split; [eapply grows_trans; eauto|]. intros a' h [Q|Q]; [|eauto]. injection Q as <- <-. exists (false, fc). split; auto. apply X1. auto. }
      destruct G as [G1 G2]. apply Up; auto; [destruct r; cbn in *; destruct Ef as [[Ef _]|Ef]; congruence|]. split; [congruence|]. intros calls0 a h H0 I0. assert (calls0 = calls) by congruence. subst. apply (G2 a). now apply Hc.
  Qed.
  Definition exact (st : cache) : Prop := forall fn r, cached fn st = Some r -> (fst r = true <-> gm fn).
  Lemma exact_sound st : exact st -> (forall fn r a, cached fn st = Some r -> snd r = Some a -> exists calls g, noalias fn /\ step fn = inr calls /\ In (a, g) calls /\ gm g) -> sound st.
  Proof. intros E F fn r H B. split; [apply (E fn r); auto|]. intros a Ha. eapply F; eauto. Qed.
  (** From a cache without wrong entries the answer is right; and a negative answer makes no wrong entries. *)
  Lemma IsMacro_exact n st fn st' r : sound st -> exact st -> is_macro n st fn = Some (st', r) -> (fst r = true <-> gm fn) /\ (fst r = false -> exact st').
  Proof.
    intros Sd Ex H. destruct (IsMacro_sound n _ _ _ _ Sd H) as [S1 S2].
    assert (Neg : fst r = false -> exact st' /\ ~ gm fn).
    { intro F. destruct (IsMacro_false n _ _ _ _ H F) as [[G1 G2] C].
      assert (No : forall g, gm g -> forall r', cached g st' = Some r' -> fst r' = false -> False).
      { intros g M. induction M as [g Hs|g calls a h Hs Hin M IHm]; intros r' C' F'.
        - destruct (cached g st) as [r0|] eqn:E; [|destruct (G2 _ _ E C') as [_ [K _]]; contradiction].
          pose proof (Ex _ _ E) as X. apply G1 in E. assert (r0 = r') by congruence. subst. assert (Y : fst r' = true) by (apply X, gm_leaf; auto). congruence.
        - destruct (cached g st) as [r0|] eqn:E.
          + pose proof (Ex _ _ E) as X. apply G1 in E. assert (r0 = r') by congruence. subst. assert (Y : fst r' = true) by (apply X; eapply gm_call; eauto). congruence.
          + destruct (G2 _ _ E C') as [_ [_ K]]. destruct (K _ _ _ Hs Hin) as (r1 & R1 & R2). eauto. }
      split; [|intro M; eapply No; eauto]. intros g r' C'. split; [intro T; apply (S1 _ _ C'); auto|]. intro M. destruct (fst r') eqn:T; auto. elim (No g M r' C' T). }
    split; [|apply Neg]. split; [intro T; apply S2; auto|]. intro M. destruct (fst r) eqn:F; auto. destruct (Neg eq_refl) as [_ K]. contradiction.
  Qed.
  (** ** No recursion *)
  Section Acyclic.
    Variable rank : function -> nat.
    Hypothesis ranked : forall fn calls a g, step fn = inr calls -> In (a, g) calls -> rank g < rank fn.
    Lemma IsMacro_ranked n : forall st fn st' r, (forall g r, cached g st = Some r -> rank g <= rank fn -> (fst r = true <-> gm g)) -> is_macro n st fn = Some (st', r) ->
      (fst r = true <-> gm fn) /\ forall g r', cached g st' = Some r' -> cached g st = Some r' \/ (rank g <= rank fn /\ (fst r' = true <-> gm g)).
    Proof.
      induction n as [|n IH]; intros st fn st' r Ex H; [apply IsMacro_zero in H as [H ->]; split; auto; apply (Ex fn r); auto|].
      apply IsMacro_cases in H as [[H ->]|[N H]]; [split; auto; apply (Ex fn r); auto|]. cbv zeta in H. set (st1 := (fn, (false, None)) :: st) in H.
      destruct H as [(H & E & ->)|(calls & calls' & st2 & o & H & Hc & T & -> & Eb & Ef)].
      - assert (X : fst r = true <-> gm fn).
        { split; [intro B; rewrite B in H; apply gm_leaf; auto|]. intro M. inversion M; congruence. }
        split; auto. intros g r' C. rewrite cached_cons in C. destruct (fn_eqb fn g) eqn:Q; [apply fn_eqb_eq in Q; subst; injection C as <-; right; auto|]. unfold st1 in C. rewrite cached_cons, Q in C. auto.
      - assert (G : match o with Some (a, g) => In (a, g) calls' /\ gm g | None => forall a g, In (a, g) calls' -> ~ gm g end /\
                    forall g r', cached g st2 = Some r' -> cached g st1 = Some r' \/ (rank g < rank fn /\ (fst r' = true <-> gm g))).
        { assert (E1 : forall g r, cached g st1 = Some r -> rank g < rank fn -> (fst r = true <-> gm g)).
          { intros g r' C L. unfold st1 in C. rewrite cached_cons in C. destruct (fn_eqb fn g) eqn:Q; [apply fn_eqb_eq in Q; subst; lia|]. apply Ex; auto. lia. }
          assert (Rk : forall a g, In (a, g) calls' -> rank g < rank fn) by (intros a g I; apply Hc in I; eauto).
          clearbody st1. clear - IH T E1 Rk. induction T as [st|st a g l st' fc E|st a g l st' fc st'' o E T IHT].
          - split; [intros a g []|auto].
          - assert (L : rank g < rank fn) by (eapply Rk; left; auto). apply IH in E as [X1 X2]; [|intros h r' C L'; apply E1; auto; lia]. split; [split; [left; auto|apply X1; auto]|]. intros h r' C. destruct (X2 _ _ C) as [|[X3 X4]]; auto. right. split; auto. lia.
          - assert (L : rank g < rank fn) by (eapply Rk; left; auto). apply IH in E as [X1 X2]; [|intros h r' C L'; apply E1; auto; lia].
            assert (E2 : forall h r, cached h st' = Some r -> rank h < rank fn -> (fst r = true <-> gm h)) by (intros h r' C L'; destruct (X2 _ _ C) as [|[X3 X4]]; auto).
            destruct (IHT E2) as [Y1 Y2]; [intros b h I; eapply Rk; right; eauto|]. split.
            + destruct o as [[a' g']|]; [destruct Y1; split; auto; right; auto|]. intros b h [Q|Q]; [injection Q as <- <-; intro M; apply X1 in M; discriminate|eauto].
            + intros h r' C. destruct (Y2 _ _ C) as [C'|]; auto. destruct (X2 _ _ C') as [|[X3 X4]]; auto. right. split; auto. lia. }
        destruct G as [G1 G2]. assert (X : fst r = true <-> gm fn).
        { rewrite Eb. destruct o as [[a g]|]; cbn [is_some].
          - split; auto. intros _. destruct G1 as [I M]. apply Hc in I. eapply gm_call; eauto.
          - split; [discriminate|]. intro M. inversion M as [? K|? calls0 a g K I M']; [congruence|]. subst. assert (calls0 = calls) by congruence. subst. apply Hc in I. elim (G1 _ _ I M'). }
        split; auto. intros g r' C. rewrite cached_cons in C. destruct (fn_eqb fn g) eqn:Q; [apply fn_eqb_eq in Q; subst; injection C as <-; right; auto|].
        destruct (G2 _ _ C) as [C'|[L K]]; [|right; split; auto; lia]. unfold st1 in C'. rewrite cached_cons, Q in C'. auto.
    Qed.
  End Acyclic.
  (** ** Enough fuel *)
  Definition opened (st : cache) (f : function) : bool := match cached f st with None => true | Some _ => false end.
  Definition open_in (L : list function) (st : cache) : nat := List.length (filter (opened st) L).
  Definition keeps (st st' : cache) : Prop := forall g, cached g st <> None -> cached g st' <> None.
  Lemma keeps_cons st fn r : keeps st ((fn, r) :: st).
  Proof. intros g H. rewrite cached_cons. destruct (fn_eqb fn g); [discriminate|auto]. Qed.
  Lemma keeps_trans a b c : keeps a b -> keeps b c -> keeps a c.
  Proof. intros A B g H. auto. Qed.
  Lemma keeps_open L st st' : keeps st st' -> open_in L st' <= open_in L st.
  Proof.
    intro K. unfold open_in. induction L as [|f l IH]; auto. cbn [filter]. pose proof (K f) as Kf. change (opened st' f) with (match cached f st' with None => true | Some _ => false end). change (opened st f) with (match cached f st with None => true | Some _ => false end). destruct (cached f st) as [r|].
    - destruct (cached f st') as [r'|]; [apply IH|]. elim Kf; [discriminate|auto].
    - destruct (cached f st'); cbn; lia.
  Qed.
  Lemma open_less L st fn r : In fn L -> cached fn st = None -> open_in L ((fn, r) :: st) < open_in L st.
  Proof.
    intros I N. induction L as [|f l IH]; [destruct I|]. unfold open_in in *. cbn [filter]. change (opened ((fn, r) :: st) f) with (match cached f ((fn, r) :: st) with None => true | Some _ => false end). change (opened st f) with (match cached f st with None => true | Some _ => false end). rewrite cached_cons. destruct (fn_eqb fn f) eqn:Q.
    - apply fn_eqb_eq in Q. subst f. rewrite N. cbn. apply le_n_S. apply (keeps_open l). apply keeps_cons.
    - destruct I as [I|I]; [subst; rewrite fn_eqb_refl in Q; discriminate|]. specialize (IH I). destruct (cached f st); cbn; lia.
  Qed.
  Section Finite.
    Variable L : list function.
    Hypothesis Lclosed : forall fn calls a g, In fn L -> step fn = inr calls -> In (a, g) calls -> In g L.
    Lemma IsMacro_total n : forall st fn, In fn L -> open_in L st <= n -> exists st' r, is_macro n st fn = Some (st', r) /\ keeps st st'.
    Proof.
      induction n as [|n IH]; intros st fn Hin Hn.
      - cbn [IsMacro]. destruct (cached fn st) as [r|] eqn:E; [exists st, r; split; auto; intro; auto|]. exfalso. pose proof (open_less L st fn (false, None) Hin E). lia.
      - cbn [IsMacro]. destruct (cached fn st) as [r|] eqn:E; [exists st, r; split; auto; intro; auto|]. cbv zeta.
        pose proof (open_less L st fn (false, None) Hin E) as Lt. change (open_in L ((fn, (false, None)) :: st : cache) < open_in L st) in Lt. remember ((fn, (false, None)) :: st : cache) as st1 eqn:Est1.
        assert (Kp : keeps st st1) by (rewrite Est1; apply keeps_cons).
        assert (Call : forall calls, (forall a g, In (a, g) calls -> In g L) -> forall st0, keeps st1 st0 -> exists st' r, try_calls (is_macro n) st0 calls = Some (st', r) /\ keeps st0 st').
        { induction calls as [|[a g] l IHl]; intros Cl st0 K; cbn [try_calls]; [exists st0, (false, None); split; auto; intro; auto|].
          destruct (IH st0 g) as (st2 & [b fc] & E2 & K2); [eapply Cl; left; auto|pose proof (keeps_open L _ _ K); lia|]. rewrite E2. destruct b; [exists st2, (true, Some a); split; auto|].
          destruct (IHl) with (st0 := st2) as (st3 & r3 & E3 & K3); [intros; eapply Cl; right; eauto|eapply keeps_trans; eauto|]. exists st3, r3. split; auto. eapply keeps_trans; eauto. }
        pose proof (Lclosed fn) as Cl. unfold step in Cl. clear Est1.
        assert (Fin : forall st2 r, keeps st1 st2 -> keeps st ((fn, r) :: st2)) by (intros st2 r K; eapply keeps_trans; [exact Kp|]; eapply keeps_trans; [exact K|apply keeps_cons]).
        destruct (beq (fn_file fn) nativeModule); [eexists _, _; split; [reflexivity|]; apply Fin; intro; auto|].
        destruct (find_key (fn_name fn) (fd_aliases (data (fn_pkg fn) (fn_file fn)))) as [alias|].
        + destruct (IH st1 alias) as (st2 & [b fc] & E2 & K2); [eapply Cl; eauto; left; auto|lia|]. rewrite E2. eexists _, _. split; [reflexivity|]. auto.
        + destruct (mem_bytes _ _); [eexists _, _; split; [reflexivity|]; apply Fin; intro; auto|]. destruct (find_key (fn_name fn) (fd_functions _)) as [calls|]; [|eexists _, _; split; [reflexivity|]; apply Fin; intro; auto].
          destruct (Call (order st1 fn calls)) with (st0 := st1) as (st2 & r2 & E2 & K2); [intros a g I; apply order_same in I; eapply Cl; eauto|intro; auto|]. rewrite E2. eexists _, _. split; [reflexivity|]. auto.
    Qed.
  End Finite.
End Graph.
