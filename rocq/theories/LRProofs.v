(** Properties of the LR automaton that hold for every input: the shape of the stack, what a reduction finds
    there, and termination.  The facts about the tables are checked by computation. *)
From Verif Require Import Base BaseProofs Ast Lex LRTables LRCert Parse.
Local Open Scope Z_scope.

Definition chk (s : Z) : Z := at_ yyChk s.
Definition preds_of (s : Z) : list Z := nth (Z.to_nat s) preds [].
Definition bound (s : Z) : Z := at_ chain_bound s.
Definition nstates : nat := 267.
Definition states : list Z := map Z.of_nat (seq 0 nstates).
Definition lookaheads : list Z := map Z.of_nat (seq 0 63).
Definition memZ (x : Z) (l : list Z) : bool := existsb (Z.eqb x) l.
Definition rule (r : Z) : option (Z * list Z) := if r <=? 0 then None else nth_error rules (Z.to_nat r - 1).
Definition live (s : Z) : bool := (s =? 0) || match preds_of s with [] => false | _ => true end.
(** Nonterminals that may stand for no tokens. *)
Definition nullable (X : Z) : bool :=
  memZ X [N_parameters_opt; N_semi_opt; N_arguments_opt; N_comments; N_test_opt; N_comma_opt; N_small_stmts_continuation;
          N_expr_opt; N_linebreaks_opt; N_stmts; N_commas_opt; N_parameters_type_opt; N_keyvalues; N_tests_opt].
Definition weight (X : Z) : Z := if nullable X then 0 else 8.
Definition weights (l : list Z) : Z := fold_right (fun X n => weight X + n) 0 l.

Lemma memZ_In x l : memZ x l = true <-> In x l.
Proof.
  unfold memZ. rewrite existsb_exists. split.
  - intros (y & H & E). apply Z.eqb_eq in E. now subst.
  - intro H. exists x. now rewrite Z.eqb_refl.
Qed.
Definition union_preds (l : list Z) : list Z :=
  let u := flat_map preds_of l in filter (fun s => memZ s u) states.
Fixpoint back (l : list Z) (rhs : list Z) : option (list Z) :=
  match rhs with
  | [] => Some l
  | X :: r => if forallb (fun s => (chk s =? X) && negb (s =? 0)) l then back (union_preds l) r else None
  end.
Definition check_reduce (p r : Z) : bool :=
  match rule r with
  | Some (A, rhs) =>
      (at_ yyR1 r =? - A) && (at_ yyR2 r =? Z.of_nat (List.length rhs)) &&
      match nth_error actions (Z.to_nat r - 1) with Some _ => true | None => false end &&
      match back [p] (rev rhs) with
      | Some qs =>
          if r =? 1 then forallb (Z.eqb 0) qs
          else forallb (fun q => let g := goto_ q (- A) in
                 memZ q (preds_of g) && (chk g =? A) && negb (g =? 0) && (weight A + bound g <? weights rhs + bound p)) qs
      | None => false
      end
  | None => false
  end.
Definition reductions (p : Z) : list Z :=
  nodup Z.eq_dec (flat_map (fun a => match action p a with Reduce r => [r] | _ => [] end) lookaheads).
Definition check_state (p : Z) : bool :=
  forallb (fun a => match action p a with
                    | Shift s => negb (a =? 0) && memZ p (preds_of s) && (chk s =? a) && negb (s =? 0)
                    | Stop => false
                    | _ => true
                    end) lookaheads &&
  forallb (check_reduce p) (reductions p).
Definition check_edge (s q : Z) : bool :=
  memZ q states && live q && (if chk s <? 0 then goto_ q (- chk s) =? s else match action q (chk s) with Shift s' => s' =? s | _ => false end).
Definition tables_ok : bool :=
  forallb check_state (filter live states) &&
  forallb (fun s => forallb (check_edge s) (preds_of s) && (0 <=? bound s) && (bound s <=? 7)) states &&
  match preds_of 0 with [] => true | _ => false end &&
  (List.length preds =? nstates)%nat.
Lemma tables_checked : tables_ok = true.
Proof. vm_compute. reflexivity. Qed.
Lemma tables_split :
  forallb check_state (filter live states) = true /\
  forallb (fun s => forallb (check_edge s) (preds_of s) && (0 <=? bound s) && (bound s <=? 7)) states = true /\
  List.length preds = nstates.
Proof.
  generalize tables_checked. unfold tables_ok. intro T.
  destruct (andb_prop _ _ T) as [T1 T2]. destruct (andb_prop _ _ T1) as [T3 T4]. destruct (andb_prop _ _ T3) as [T5 T6].
  split; [exact T5|]. split; [exact T6|]. now apply Nat.eqb_eq.
Qed.

Ltac ands := repeat match goal with H : (_ && _)%bool = true |- _ => apply andb_prop in H; destruct H end.
(** ** What the checks say *)
Lemma in_states s : In s states <-> 0 <= s < 267.
Proof.
  unfold states, nstates. rewrite in_map_iff. split.
  - intros (n & <- & H). apply in_seq in H. lia.
  - intro H. exists (Z.to_nat s). split; [lia|]. apply in_seq. lia.
Qed.
Lemma in_lookaheads a : In a lookaheads <-> 0 <= a < 63.
Proof.
  unfold lookaheads. rewrite in_map_iff. split.
  - intros (n & <- & H). apply in_seq in H. lia.
  - intro H. exists (Z.to_nat a). split; [lia|]. apply in_seq. lia.
Qed.
Lemma preds_states s q : In q (preds_of s) -> 0 <= s -> In s states.
Proof.
  intros H G. apply in_states. split; [assumption|].
  destruct (Z_lt_ge_dec s 267); [assumption|]. exfalso. unfold preds_of in H.
  rewrite nth_overflow in H; [destruct H|].
  destruct tables_split as (_ & _ & T). rewrite T. unfold nstates. lia.
Qed.
Lemma preds_neg s : s < 0 -> preds_of s = [].
Proof. intro H. unfold preds_of. replace (Z.to_nat s) with 0%nat by lia. reflexivity. Qed.
Lemma preds_range s q : In q (preds_of s) -> 0 < s < 267.
Proof.
  intro H. destruct (Z_lt_ge_dec s 0) as [N|N]; [now rewrite preds_neg in H|].
  assert (S1 : In s states) by (eapply preds_states; eauto; lia). apply in_states in S1.
  enough (s <> 0) by lia. intros ->. destruct H.
Qed.
Lemma bounds s : 0 <= bound s <= 7.
Proof.
  destruct (Z_lt_ge_dec s 0) as [N|N]; [unfold bound, at_; replace (Z.to_nat s) with 0%nat by lia; vm_compute; split; discriminate|].
  destruct (Z_lt_ge_dec s 267) as [M|M].
  - destruct tables_split as (_ & T & _).
    rewrite forallb_forall in T. specialize (T s (proj2 (in_states s) ltac:(lia))). cbv beta in T. ands. lia.
  - unfold bound, at_. rewrite nth_overflow; [lia|]. change (List.length chain_bound) with 267%nat. lia.
Qed.
Lemma edge s q : In q (preds_of s) ->
  0 <= q < 267 /\ live q = true /\
  (chk s < 0 -> goto_ q (- chk s) = s) /\ (0 <= chk s -> action q (chk s) = Shift s).
Proof.
  intro H. pose proof (preds_range _ _ H) as R.
  destruct tables_split as (_ & T & _).
  rewrite forallb_forall in T. specialize (T s (proj2 (in_states s) ltac:(lia))). cbv beta in T.
  apply andb_prop in T. destruct T as [T _]. apply andb_prop in T. destruct T as [T _].
  rewrite forallb_forall in T. specialize (T q H). unfold check_edge in T.
  apply andb_prop in T. destruct T as [T C]. apply andb_prop in T. destruct T as [A B]. apply memZ_In, in_states in A. split; [lia|]. split; [assumption|].
  destruct (chk s <? 0) eqn:E.
  - split; intros; [|lia]. now apply Z.eqb_eq.
  - split; intros; [lia|]. destruct (action q (chk s)) eqn:F; try discriminate. apply Z.eqb_eq in C. now subst.
Qed.
Lemma state_check p : live p = true -> 0 <= p < 267 -> check_state p = true.
Proof.
  intros L R. destruct tables_split as (T & _ & _).
  rewrite forallb_forall in T. apply T. apply filter_In. split; [now apply in_states|assumption].
Qed.
Lemma shift_check p a s : live p = true -> 0 <= p < 267 -> 0 <= a < 63 -> action p a = Shift s ->
  a <> 0 /\ In p (preds_of s) /\ chk s = a.
Proof.
  intros L R A H. pose proof (state_check p L R) as C. unfold check_state in C. apply andb_prop in C. destruct C as [C _].
  rewrite forallb_forall in C. specialize (C a (proj2 (in_lookaheads a) A)). rewrite H in C.
  ands. rewrite memZ_In in *. split; [lia|]. split; [assumption|lia].
Qed.
Lemma stop_check p a : live p = true -> 0 <= p < 267 -> 0 <= a < 63 -> action p a <> Stop.
Proof.
  intros L R A H. pose proof (state_check p L R) as C. unfold check_state in C. apply andb_prop in C. destruct C as [C _].
  rewrite forallb_forall in C. specialize (C a (proj2 (in_lookaheads a) A)). now rewrite H in C.
Qed.
Lemma reduce_check p a r : live p = true -> 0 <= p < 267 -> 0 <= a < 63 -> action p a = Reduce r -> check_reduce p r = true.
Proof.
  intros L R A H. pose proof (state_check p L R) as C. unfold check_state in C. apply andb_prop in C. destruct C as [_ C].
  rewrite forallb_forall in C. apply C. unfold reductions. apply nodup_In. apply in_flat_map. exists a.
  split; [now apply in_lookaheads|]. rewrite H. now left.
Qed.
Lemma live_preds s q : In q (preds_of s) -> live s = true.
Proof. intro H. unfold live. destruct (preds_of s); [destruct H|]. now rewrite orb_true_r. Qed.
Lemma union_preds_In q s l : In s l -> In q (preds_of s) -> In q (union_preds l).
Proof.
  intros H G. unfold union_preds. apply filter_In. split.
  - apply in_states. apply (edge s q G).
  - apply memZ_In, in_flat_map. eauto.
Qed.
Lemma terminal_range t : 0 < terminal t < 63.
Proof.
  destruct t as [k ? ? ? ?]. unfold terminal. cbn [t_kind]. destruct k; try (vm_compute; split; reflexivity).
  assert (T : ((0 <? yylex1 (code (KChar c))) && (yylex1 (code (KChar c)) <? 63))%Z = true).
  { apply (forall_byte (fun c => (0 <? yylex1 (code (KChar c))) && (yylex1 (code (KChar c)) <? 63))). vm_compute. reflexivity. }
  lia.
Qed.

(** ** The stack *)
(** The lookahead before the tokens [ts] if [a] follows them; 0 stands for the end of the list. *)
Definition look (ts : list token) (a : Z) : Z := match ts with t :: _ => terminal t | [] => a end.
Lemma look_app x y a : look (x ++ y) a = look x (look y a).
Proof. now destruct x. Qed.
Lemma look_range ts a : 0 <= a < 63 -> 0 <= look ts a < 63.
Proof. destruct ts as [|t ts]; cbn; [auto|]. intros _. pose proof (terminal_range t). lia. Qed.

Section Stack.
  (** What is known of an entry: its state, its value, its tokens and the lookahead after them. *)
  Variable good : Z -> value -> list token -> Z -> Prop.
  Inductive stk : Z -> list (Z * value) -> list token -> Prop :=
    | stk_nil a : stk a [(0, VNone)] []
    | stk_cons a s v st ts t : stk (look t a) st ts -> In (top st) (preds_of s) -> good s v t a ->
        stk a ((s, v) :: st) (ts ++ t).
  (** The entries of a right-hand side, from state [q] up to state [p]. *)
  Inductive args_ok : Z -> list Z -> list value -> list token -> Z -> Z -> Prop :=
    | args_nil q a : args_ok q [] [] [] a q
    | args_cons q X rhs s v vs t ts a p : In q (preds_of s) -> chk s = X -> good s v t (look ts a) ->
        args_ok s rhs vs ts a p -> args_ok q (X :: rhs) (v :: vs) (t ++ ts) a p.
  Lemma stk_top a st ts : stk a st ts -> 0 <= top st < 267 /\ live (top st) = true.
  Proof.
    intros [b|b s v st' ts' t H1 H2 H3]; cbn; [split; [lia|reflexivity]|].
    pose proof (preds_range _ _ H2). split; [lia|]. eapply live_preds; eauto.
  Qed.
  Lemma stk_bottom a st ts : stk a st ts -> top st = 0 -> st = [(0, VNone)] /\ ts = [].
  Proof.
    intros [b|b s v st' ts' t H1 H2 H3]; cbn; intro E; [auto|]. subst. destruct H2.
  Qed.
  Lemma pop_args rhs : forall l st a ts0 qs done vs tsd p, stk (look tsd a) st ts0 -> In (top st) l -> back l rhs = Some qs ->
    args_ok (top st) done vs tsd a p ->
    exists front st' ts' vs' tsr, st = front ++ st' /\ (List.length front = List.length rhs /\ map (fun e => chk (fst e)) front = rhs /\ Forall (fun e => fst e <> 0) front) /\ map snd front = rev vs' /\
      stk (look (tsr ++ tsd) a) st' ts' /\ ts0 = ts' ++ tsr /\ In (top st') qs /\
      args_ok (top st') (rev rhs ++ done) (vs' ++ vs) (tsr ++ tsd) a p.
  Proof.
    induction rhs as [|X rhs IH]; intros l st a ts0 qs done vs tsd p H Hin B G; cbn [back] in B.
    - injection B as <-. exists [], st, ts0, [], []. rewrite app_nil_r. repeat split; auto.
    - destruct (forallb _ l) eqn:F; [|discriminate]. rewrite forallb_forall in F. specialize (F _ Hin).
      apply andb_prop in F. destruct F as [F1 F2]. apply Z.eqb_eq in F1.
      inversion H as [b E1 E2 E3|b s v st1 ts1 t H1 H2 H3 E1 E2 E3]; subst; [now cbn in F2|]. cbn [top] in *.
      assert (G' : args_ok (top st1) (chk s :: done) (v :: vs) (t ++ tsd) a p) by (econstructor; eauto).
      rewrite <- look_app in H1.
      destruct (IH _ _ _ _ _ _ _ _ _ H1 (union_preds_In _ _ _ Hin H2) B G') as (front & st' & ts' & vs' & tsr & E & (E4 & E7 & E8) & E5 & S1 & E6 & Q & A).
      exists ((s, v) :: front), st', ts', (vs' ++ [v]), (tsr ++ t). subst.
      rewrite <- !app_assoc in *. cbn [app rev map snd] in *. rewrite rev_app_distr. cbn. rewrite <- ?app_assoc. cbn.
      assert (s <> 0) by (intros ->; discriminate F2). repeat split; auto. now rewrite E5.
  Qed.

  Inductive stepped (c : conf) (ts : list token) : Prop :=
    | st_shift t rest s : k_input c = t :: rest -> step c = inl (Conf ((s, VTok t) :: k_stack c) rest) ->
        In (top (k_stack c)) (preds_of s) -> chk s = terminal t -> stepped c ts
    | st_reduce r A rhs f st' ts' vs tsr : r <> 1 -> rule r = Some (A, rhs) -> nth_error actions (Z.to_nat r - 1) = Some f ->
        action (top (k_stack c)) (look (k_input c) 0) = Reduce r ->
        stk (look tsr (look (k_input c) 0)) st' ts' -> ts = ts' ++ tsr ->
        args_ok (top st') rhs vs tsr (look (k_input c) 0) (top (k_stack c)) ->
        In (top st') (preds_of (goto_ (top st') (- A))) -> chk (goto_ (top st') (- A)) = A ->
        weight A + bound (goto_ (top st') (- A)) < weights rhs + bound (top (k_stack c)) ->
        (exists front, k_stack c = front ++ st' /\ map (fun e => chk (fst e)) front = rev rhs /\ Forall (fun e => fst e <> 0) front) ->
        step c = match f vs with Some v => inl (Conf ((goto_ (top st') (- A), v) :: st') (k_input c)) | None => inr Panicked end ->
        stepped c ts
    | st_accept vs : args_ok 0 [N_stmts; T_EOF] vs ts (look (k_input c) 0) (top (k_stack c)) ->
        step c = match vs with VStmts l _ :: _ => inr (Accepted l) | _ => inr Panicked end -> stepped c ts
    | st_reject : step c = inr Rejected -> stepped c ts.
  Lemma step_cases c ts : stk (look (k_input c) 0) (k_stack c) ts -> stepped c ts.
  Proof.
    intro H. destruct (stk_top _ _ _ H) as [R L].
    assert (LA : 0 <= look (k_input c) 0 < 63) by (apply look_range; lia).
    set (s := top (k_stack c)) in *. set (a := look (k_input c) 0) in *.
    assert (RED : forall r, action s a = Reduce r -> step c = reduce r c -> stepped c ts).
    { intros r E1 E2. pose proof (reduce_check _ _ _ L R LA E1) as C. unfold check_reduce in C.
      destruct (rule r) as [[A rhs]|] eqn:ER; [|discriminate]. apply andb_prop in C. destruct C as [C C4]. apply andb_prop in C. destruct C as [C C3]. apply andb_prop in C. destruct C as [C1 C2].
      apply Z.eqb_eq in C1, C2. destruct (nth_error actions _) as [f|] eqn:EF; [|discriminate].
      destruct (back [s] (rev rhs)) as [qs|] eqn:EB; [|discriminate].
      destruct (pop_args (rev rhs) [s] (k_stack c) a ts qs [] [] [] s) as (front & st' & ts' & vs & tsr & E & (E4 & E7 & E8) & E5 & S1 & E6 & Q & AO); auto.
      { now left. } { constructor. }
      rewrite rev_involutive, !app_nil_r in *. rewrite rev_length in E4.
      assert (EV : rev (map snd (firstn (Z.to_nat (at_ yyR2 r)) (k_stack c))) = vs).
      { rewrite C2, Nat2Z.id, E, <- E4, firstn_app, firstn_all, Nat.sub_diag. cbn. now rewrite app_nil_r, E5, rev_involutive. }
      assert (ES : skipn (Z.to_nat (at_ yyR2 r)) (k_stack c) = st').
      { rewrite C2, Nat2Z.id, E, <- E4, skipn_app, skipn_all, Nat.sub_diag. reflexivity. }
      unfold reduce in E2. rewrite EV, ES in E2. destruct (r =? 1) eqn:E1r.
      - apply Z.eqb_eq in E1r. subst r. cbv in ER. injection ER as <- <-.
        rewrite forallb_forall in C4. specialize (C4 _ Q). apply Z.eqb_eq in C4.
        destruct (stk_bottom _ _ _ S1 (eq_sym C4)) as [-> ->]. cbn [app top] in *. subst ts.
        eapply st_accept; eauto.
      - apply Z.eqb_neq in E1r. rewrite forallb_forall in C4. specialize (C4 _ Q). cbn zeta in C4.
        apply andb_prop in C4. destruct C4 as [C4 C7]. apply andb_prop in C4. destruct C4 as [C4 C6].
        apply andb_prop in C4. destruct C4 as [C4 C5]. apply memZ_In in C4. rewrite EF, C1 in E2.
        apply Z.eqb_eq in C5. apply Z.ltb_lt in C7. eapply st_reduce with (st' := st'); eauto. }
    unfold step in *. fold s in RED |- *. destruct (k_input c) as [|t rest] eqn:EI; cbn [look] in a.
    - destruct (simple_state s) eqn:SS.
      + assert (EA : action s 0 = default_action s 0).
        { unfold action, simple_state in *. apply andb_prop in SS. now rewrite (proj1 SS). }
        destruct (default_action s 0) eqn:ED; try (apply st_reject; unfold step; fold s; now rewrite EI, SS, ED).
        apply RED with (r := r); [exact EA|]. reflexivity.
      + apply st_reject. unfold step. fold s. now rewrite EI, SS.
    - destruct (action s (terminal t)) as [s'|r| |] eqn:EA.
      + destruct (shift_check s (terminal t) s' L R LA EA) as (_ & P & K).
        eapply st_shift; eauto. unfold step. fold s. now rewrite EI, EA.
      + apply RED with (r := r); [exact EA|]. reflexivity.
      + apply st_reject. unfold step. fold s. now rewrite EI, EA.
      + exfalso. now apply (stop_check s (terminal t)) in EA.
  Qed.

  (** ** Soundness for a given notion of goodness *)
  Variable legit : list token -> Prop.
  Hypothesis legit_infix : forall x y z, legit (x ++ y ++ z) -> legit y.
  Hypothesis good_shift : forall s t a, chk s = terminal t -> good s (VTok t) [t] a.
  Hypothesis good_reduce : forall q p r A rhs f vs ts a, r <> 1 -> rule r = Some (A, rhs) ->
    nth_error actions (Z.to_nat r - 1) = Some f -> action p a = Reduce r -> 0 <= a < 63 -> legit ts -> args_ok q rhs vs ts a p ->
    In q (preds_of (goto_ q (- A))) -> chk (goto_ q (- A)) = A ->
    exists v, f vs = Some v /\ good (goto_ q (- A)) v ts a.
  Lemma step_good c ts : stk (look (k_input c) 0) (k_stack c) ts -> legit (ts ++ k_input c) ->
    match step c with
    | inl c' => exists ts', stk (look (k_input c') 0) (k_stack c') ts' /\ ts ++ k_input c = ts' ++ k_input c'
    | inr (Accepted l) => exists vs, args_ok 0 [N_stmts; T_EOF] vs ts (look (k_input c) 0) (top (k_stack c)) /\ exists f v, vs = VStmts l f :: v
    | inr Rejected => True
    | inr Panicked => exists vs, args_ok 0 [N_stmts; T_EOF] vs ts (look (k_input c) 0) (top (k_stack c)) /\ forall l f v, vs <> VStmts l f :: v
    end.
  Proof.
    intros H G. destruct (step_cases c ts H) as [t rest s EI -> P K | r A rhs f st' ts' vs tsr N ER EF EA S1 ET AO P K W FR -> | vs AO -> | ->]; [| | |auto].
    - exists (ts ++ [t]). rewrite EI. cbn [k_input k_stack]. split; [|now rewrite <- app_assoc].
      constructor; [|assumption|now apply good_shift]. rewrite EI in H. exact H.
    - subst ts. assert (LT : legit tsr) by (eapply legit_infix; rewrite <- app_assoc in G; exact G).
      assert (LR : 0 <= look (k_input c) 0 < 63) by (apply look_range; lia).
      destruct (good_reduce (top st') _ _ _ _ _ vs tsr _ N ER EF EA LR LT AO P K) as (v & EV & GV).
      rewrite EV. exists (ts' ++ tsr). cbn [k_input k_stack]. split; [|reflexivity]. constructor; auto.
    - destruct vs as [|v vs]; [exists []; split; [assumption|discriminate]|]. destruct v; eauto; eexists; (split; [eassumption|discriminate]).
  Qed.
  Theorem run_good fuel l o : legit l -> run fuel (initial l) = Some o ->
    match o with
    | Accepted stmts => exists ts rest f v p, l = ts ++ rest /\ args_ok 0 [N_stmts; T_EOF] (VStmts stmts f :: v) ts (look rest 0) p
    | Rejected => True
    | Panicked => exists ts rest vs p, l = ts ++ rest /\ args_ok 0 [N_stmts; T_EOF] vs ts (look rest 0) p /\ forall l f v, vs <> VStmts l f :: v
    end.
  Proof.
    intros G. set (c := initial l).
    assert (I : exists ts, stk (look (k_input c) 0) (k_stack c) ts /\ l = ts ++ k_input c) by (exists []; split; [constructor|reflexivity]).
    clearbody c. revert c I. induction fuel as [|fuel IH]; [discriminate|]. intros c (ts & S1 & E1) H. cbn in H.
    assert (G' := G). rewrite E1 in G'. pose proof (step_good c ts S1 G') as T. destruct (step c) as [c'|o'].
    - destruct T as (ts' & S2 & E2). apply (IH c'); [|assumption]. exists ts'. split; [assumption|]. now rewrite E1.
    - injection H as <-. destruct o'; auto.
      + destruct T as (vs & AO & f & v & ->). exists ts, (k_input c), f, v, (top (k_stack c)). auto.
      + destruct T as (vs & AO & NE). exists ts, (k_input c), vs, (top (k_stack c)). auto.
  Qed.
End Stack.

(** ** Termination *)
Definition load1 (e : Z * value) : Z := if (fst e =? 0)%Z then 0 else weight (chk (fst e)).
Definition loads (st : list (Z * value)) : Z := fold_right (fun e n => load1 e + n) 0 st.
Definition potential (st : list (Z * value)) : Z := loads st + bound (top st).
Definition measure (c : conf) : Z := 16 * Z.of_nat (List.length (k_input c)) + potential (k_stack c).
Definition anything (s : Z) (v : value) (ts : list token) (a : Z) : Prop := True.
Lemma weight_range X : 0 <= weight X <= 8.
Proof. unfold weight. destruct (nullable X); lia. Qed.
Lemma load1_range e : 0 <= load1 e <= 8.
Proof. unfold load1. pose proof (weight_range (chk (fst e))). destruct (fst e =? 0); lia. Qed.
Lemma loads_nonneg st : 0 <= loads st.
Proof. induction st as [|e st IH]; cbn [loads fold_right]; [lia|]. pose proof (load1_range e). fold (loads st). lia. Qed.
Lemma potential_nonneg st : 0 <= potential st.
Proof. unfold potential. pose proof (bounds (top st)). pose proof (loads_nonneg st). lia. Qed.
Lemma loads_app a b : loads (a ++ b) = loads a + loads b.
Proof. induction a as [|e a IH]; [reflexivity|]. cbn [app loads fold_right]. fold (loads a) (loads (a ++ b)). lia. Qed.
Lemma weights_app a b : weights (a ++ b) = weights a + weights b.
Proof. induction a as [|e a IH]; [reflexivity|]. cbn [app weights fold_right]. fold (weights a) (weights (a ++ b)). lia. Qed.
Lemma weights_rev l : weights (rev l) = weights l.
Proof. induction l as [|x l IH]; [reflexivity|]. cbn [rev]. rewrite weights_app. cbn [weights fold_right]. fold (weights l). lia. Qed.
Lemma loads_front front : Forall (fun e => fst e <> 0) front -> loads front = weights (map (fun e => chk (fst e)) front).
Proof.
  induction 1 as [|e l H G IH]; [reflexivity|]. cbn [loads weights fold_right map]. fold (loads l) (weights (map (fun e => chk (fst e)) l)).
  unfold load1. rewrite (proj2 (Z.eqb_neq _ _) H). lia.
Qed.
Lemma step_decreases c ts c' : stk anything (look (k_input c) 0) (k_stack c) ts -> step c = inl c' ->
  measure c' < measure c /\ exists ts', stk anything (look (k_input c') 0) (k_stack c') ts'.
Proof.
  intros H E. pose proof (bounds (top (k_stack c))) as B0.
  destruct (step_cases anything c ts H) as [t rest s EI ES P K | r A rhs f st' ts' vs tsr N ER EF EA S1 ET AO P K W (front & FR & F1 & F2) ES | vs AO ES | ES];
    rewrite ES in E.
  - injection E as <-. split.
    + unfold measure, potential. cbn [k_input k_stack]. rewrite EI. cbn [List.length loads fold_right top]. fold (loads (k_stack c)).
      pose proof (load1_range (s, VTok t)). pose proof (bounds s). lia.
    + exists (ts ++ [t]). cbn [k_input k_stack]. constructor; [|assumption|exact I]. rewrite EI in H. exact H.
  - destruct (f vs) as [v|]; [|discriminate]. injection E as <-. split.
    + unfold measure, potential. cbn [k_input k_stack loads fold_right top]. fold (loads st').
      rewrite FR at 1. rewrite loads_app, (loads_front _ F2), F1, weights_rev.
      unfold load1. cbn [fst]. rewrite K. destruct (goto_ (top st') (- A) =? 0); pose proof (weight_range A); lia.
    + exists (ts' ++ tsr). cbn [k_input k_stack]. constructor; [exact S1|exact P|exact I].
  - destruct vs as [|[]]; discriminate.
  - discriminate.
Qed.
Theorem run_terminates l : exists o, run (16 * List.length l + 10) (initial l) = Some o.
Proof.
  set (c := initial l).
  assert (M : measure c < Z.of_nat (16 * List.length l + 10)).
  { unfold measure, potential. subst c. unfold initial. cbn [k_input k_stack top loads fold_right]. pose proof (bounds 0). unfold load1. cbn [fst]. rewrite Z.eqb_refl. lia. }
  assert (S0 : exists ts, stk anything (look (k_input c) 0) (k_stack c) ts) by (exists []; constructor).
  generalize dependent (16 * List.length l + 10)%nat. clearbody c. intro n. revert c S0.
  induction n as [|n IH]; intros c (ts & S0) M.
  - exfalso. unfold measure in M. pose proof (potential_nonneg (k_stack c)). lia.
  - cbn [run]. destruct (step c) as [c'|o] eqn:E; [|eauto].
    destruct (step_decreases c ts c' S0 E) as [D S1]. apply IH; [exact S1|lia].
Qed.
Lemma run_mono n m c o : run n c = Some o -> (n <= m)%nat -> run m c = Some o.
Proof.
  revert m c. induction n as [|n IH]; [discriminate|]. intros [|m] c H L; [lia|]. cbn in *.
  destruct (step c); [|assumption]. apply IH; [assumption|lia].
Qed.
