(** The automaton follows every derivation of the unambiguous grammar. *)
From Verif Require Import Base BaseProofs Ast Lex LRTables LRCert Parse LRProofs LRItems LRComplete.
Local Open Scope Z_scope.

Record has (s i : Z) (d : nat) (m : Z) : Prop := {
  h_state : In s states;
  h_item : in_kernel s i d m = true \/
           (d = O /\ In i indices /\ let '(A, _, _) := prod_at i in get (closure s) A <> 0 /\ sub m (get (closure s) A) = true) }.

Lemma checked : (forall p, In p prods -> check_prod p = true) /\ (forall s, In s states -> check_state_items s = true).
Proof.
  generalize items_checked. unfold items_ok. intro C. apply andb_prop in C as [C1 C2].
  split; [now apply forallb_forall|now apply forallb_forall].
Qed.
(** An item that is current has passed the checks, with some larger set. *)
Lemma has_checked s i d m : has s i d m -> exists m', sub m m' = true /\ check_item s (closure s) i d m' = true.
Proof.
  intros [S0 H]. generalize (proj2 checked _ S0). unfold check_state_items. intro C. apply andb_prop in C as [C1 C2].
  rewrite forallb_forall in C1, C2. destruct H as [H|(-> & H & H')].
  - unfold in_kernel in H. apply existsb_exists in H as ([[i' d'] m'] & HI & H).
    apply andb_prop in H as [H H3]. apply andb_prop in H as [H1 H2]. apply Z.eqb_eq in H1, H2. subst.
    specialize (C1 _ HI). cbn beta iota in C1. rewrite Nat2Z.id in C1. eauto.
  - specialize (C2 _ H). cbn beta in C2. destruct (prod_at i) as [[A rhs] r] eqn:E. destruct H' as [N0 H'].
    exists (get (closure s) A). split; [exact H'|]. apply orb_prop in C2 as [C2|C2]; [apply Z.eqb_eq in C2; contradiction|exact C2].
Qed.
Lemma prod_index q : In q prods -> exists i, In i indices /\ prod_at i = q.
Proof.
  intro H. apply In_nth_error in H as (n & H). exists (Z.of_nat n). split.
  - unfold indices. apply in_map_iff. exists n. split; [reflexivity|]. apply in_seq.
    generalize (nth_error_Some prods n). rewrite H. intro K. assert (n < List.length prods)%nat by (apply K; discriminate). lia.
  - unfold prod_at. rewrite Nat2Z.id. now apply nth_error_nth.
Qed.

Inductive steps : conf -> conf -> Prop :=
  | steps_refl c : steps c c
  | steps_step c c' c'' : step c = inl c' -> steps c' c'' -> steps c c''.
Lemma steps_trans a b c : steps a b -> steps b c -> steps a c.
Proof. induction 1; [auto|]. intro. econstructor; eauto. Qed.
Lemma steps_one c c' : step c = inl c' -> steps c c'.
Proof. intro. econstructor; eauto using steps_refl. Qed.
Lemma steps_run c c' n o : steps c c' -> run n c' = Some o -> exists n', run n' c = Some o.
Proof.
  induction 1 as [c|c c1 c2 H _ IH]; intro R; [eauto|]. destruct (IH R) as (n' & R').
  exists (S n'). cbn [run]. now rewrite H.
Qed.

Lemma in_lookahead t : In (terminal t) lookaheads.
Proof. apply in_lookaheads. generalize (terminal_range t). lia. Qed.

Lemma skipn_1 {A} d (l : list A) x r : skipn d l = x :: r -> skipn (S d) l = r.
Proof.
  revert l. induction d as [|d IH]; intros [|y l] H; try discriminate; cbn in *; [now injection H|]. now apply IH.
Qed.
(** What the current item expects, the automaton reads. *)
Theorem simulation :
  (forall X v ts, der X v ts -> forall s stk i d m rest u more,
     has s i d m -> skipn d (snd (fst (prod_at i))) = X :: rest -> top stk = s -> inset (FIRST rest m) (terminal u) = true ->
     exists s', next s X = Some s' /\ steps (Conf stk (ts ++ u :: more)) (Conf ((s', v) :: stk) (u :: more)))
  /\
  (forall l vs ts, ders l vs ts -> forall s stk i d m A rhs r u more,
     has s i d m -> prod_at i = (A, rhs, Some r) -> skipn d rhs = l -> top stk = s -> inset m (terminal u) = true ->
     exists st', steps (Conf stk (ts ++ u :: more)) (Conf (st' ++ stk) (u :: more)) /\
       map snd st' = rev vs /\ List.length st' = List.length l /\ has (top (st' ++ stk)) i (d + List.length l) m).
Proof.
  apply der_mut.
  - (* a token *)
    intros t s stk i d m rest u more H E T _. destruct (has_checked _ _ _ _ H) as (m' & _ & C). unfold check_item in C.
    destruct (prod_at i) as [[A rhs] r] eqn:P0. cbn [fst snd] in E. rewrite E in C.
    apply andb_prop in C as [_ C]. destruct r as [r|].
    + destruct (next s (terminal t)) as [s'|] eqn:N0; [|discriminate]. exists s'. split; [reflexivity|].
      apply steps_one. unfold step. cbn [k_stack k_input]. rewrite T. cbn [app].
      unfold next in N0. destruct (terminal t <? 0) eqn:L0; [generalize (terminal_pos t); lia|].
      destruct (action s (terminal t)) eqn:AC; try discriminate. injection N0 as ->. reflexivity.
    + (* a silent production has no token *)
      exfalso. assert (IP : In (A, rhs, None) prods).
      { destruct H as [_ [H|(_ & H & _)]].
        - unfold prod_at in P0. rewrite <- P0. apply nth_In.
          destruct (Nat.lt_ge_cases (Z.to_nat i) (List.length prods)) as [G|G]; [exact G|].
          rewrite nth_overflow in P0 by exact G. assert (rhs = []) as -> by congruence. destruct d; discriminate E.
        - unfold prod_at in P0. rewrite <- P0. apply nth_In. unfold indices in H. apply in_map_iff in H as (n & <- & H).
          apply in_seq in H. rewrite Nat2Z.id. lia. }
      generalize (proj1 checked _ IP). unfold check_prod. destruct rhs as [|B [|? ?]]; try discriminate. intro K. apply andb_prop in K as [K _].
      destruct d as [|d]; cbn in E; [|destruct d; discriminate]. injection E as E1 _. generalize (terminal_pos t). lia.
  - (* a silent production *)
    intros A B v ts HP _ IH s stk i d m rest u more H E T U.
    generalize (proj1 checked _ HP). unfold check_prod. intro K. apply andb_prop in K as [K1 K2]. apply Z.eqb_eq in K2.
    destruct (has_checked _ _ _ _ H) as (m' & SM & C). unfold check_item in C.
    destruct (prod_at i) as [[A0 rhs0] r0] eqn:P0. cbn [fst snd] in E. rewrite E in C.
    apply andb_prop in C as [C _]. destruct (prod_first _ _ _ HP) as [AN _].
    destruct (A <? 0) eqn:AL; [|lia].
    destruct (prod_index _ HP) as (j & J1 & J2).
    set (L := FIRST rest m) in *.
    assert (U' : inset (get (closure s) A) (terminal u) = true).
    { apply (sub_spec _ _ _ C). revert U. unfold L. apply firsts_mono. apply sub_spec. exact SM. }
    assert (HJ : has s j 0 (get (closure s) A)).
    { destruct H as [HS _]. split; [exact HS|]. right. split; [reflexivity|]. split; [exact J1|]. rewrite J2.
      split; [|apply sub_refl]. intro Z0. rewrite Z0 in U'. unfold inset in U'. rewrite Z.bits_0 in U'. discriminate. }
    destruct (IH s stk j O (get (closure s) A) [] u more HJ) as (s' & N0 & R).
    { now rewrite J2. } { exact T. } { exact U'. }
    exists s'. split; [|exact R]. unfold next in *. rewrite AL. destruct (B <? 0) eqn:BL; [|discriminate].
    rewrite <- K2. exact N0.
  - (* a rule *)
    intros A rhs r f vs v ts HP R1 HF _ IH HV s stk i d m rest u more H E T U.
    generalize (proj1 checked _ HP). unfold check_prod. intro K. apply andb_prop in K as [K1 K2]. apply Z.eqb_eq in K1, K2.
    destruct (has_checked _ _ _ _ H) as (m' & SM & C). unfold check_item in C.
    destruct (prod_at i) as [[A0 rhs0] r0] eqn:P0. cbn [fst snd] in E. rewrite E in C.
    apply andb_prop in C as [C _]. destruct (prod_first _ _ _ HP) as [AN _].
    destruct (A <? 0) eqn:AL; [|lia].
    destruct (prod_index _ HP) as (j & J1 & J2).
    set (L := get (closure s) A) in *.
    assert (U' : inset L (terminal u) = true).
    { apply (sub_spec _ _ _ C). revert U. apply firsts_mono. apply sub_spec. exact SM. }
    assert (HJ : has s j 0 L).
    { destruct H as [HS _]. split; [exact HS|]. right. split; [reflexivity|]. split; [exact J1|]. rewrite J2.
      split; [|apply sub_refl]. intro Z0. fold L in Z0. rewrite Z0 in U'. unfold inset in U'. rewrite Z.bits_0 in U'. discriminate. }
    destruct (IH s stk j O L A rhs r u more HJ J2 eq_refl T U') as (st' & R & V & LL & H').
    exists (goto_ s (at_ yyR1 r)). split; [unfold next; rewrite AL, K1; reflexivity|].
    eapply steps_trans; [exact R|]. apply steps_one.
    destruct (has_checked _ _ _ _ H') as (m1 & SM1 & C1). unfold check_item in C1. rewrite J2 in C1.
    cbn [Nat.add] in C1. rewrite skipn_all in C1. apply orb_prop in C1 as [C1|C1]; [apply Z.eqb_eq in C1; contradiction|].
    rewrite forallb_forall in C1. specialize (C1 _ (in_lookahead u)).
    rewrite (sub_spec _ _ _ SM1 U') in C1. cbn [negb orb] in C1.
    unfold step. cbn [k_stack k_input].
    destruct (action (top (st' ++ stk)) (terminal u)) as [ |r'| | ] eqn:AC; try discriminate. apply Z.eqb_eq in C1. subst r'.
    unfold reduce. rewrite <- K2. rewrite Nat2Z.id. destruct (r =? 1) eqn:RE; [apply Z.eqb_eq in RE; contradiction|].
    cbn [k_stack k_input]. rewrite HF, <- LL, firstn_app, Nat.sub_diag, firstn_all, app_nil_r, V, rev_involutive, HV.
    rewrite skipn_app, Nat.sub_diag, skipn_all. cbn [app skipn]. now rewrite T.
  - (* nothing left *)
    intros s stk i d m A rhs r u more H _ _ T _. exists []. cbn [app rev map List.length].
    rewrite T, Nat.add_0_r. repeat split; try apply H. constructor.
  - (* one more symbol *)
    intros X v ts l vs ts' _ IH D' IH' s stk i d m A rhs r u more H P0 E T U.
    destruct (first_token _ _ _ _ _ more D' U) as (u' & more' & EQ & U').
    destruct (IH s stk i d m l u' more' H) as (s' & N0 & R). { now rewrite P0. } { exact T. } { exact U'. }
    destruct (has_checked _ _ _ _ H) as (m' & SM & C). unfold check_item in C. rewrite P0, E in C.
    apply andb_prop in C as [_ C]. rewrite N0 in C. apply andb_prop in C as [C1 C2]. apply memZ_In in C1.
    assert (H' : has s' i (S d) m).
    { split; [exact C1|]. left. unfold in_kernel in *. apply existsb_exists in C2 as ([[i1 d1] m1] & K1 & K2).
      apply existsb_exists. exists (i1, d1, m1). split; [exact K1|]. cbn beta iota in *.
      apply andb_prop in K2 as [K2 K3]. rewrite K2. cbn [andb]. eapply sub_trans; eauto. }
    assert (E' : skipn (S d) rhs = l).
    { exact (skipn_1 _ _ _ _ E). }
    destruct (IH' s' ((s', v) :: stk) i (S d) m A rhs r u more H' P0 E' eq_refl U) as (st' & R' & V & LL & H'').
    exists (st' ++ [(s', v)]). rewrite <- !app_assoc. cbn [app List.length rev]. split; [|split; [|split]].
    + eapply steps_trans; [|exact R']. rewrite EQ. exact R.
    + rewrite map_app, V. reflexivity.
    + rewrite app_length. cbn. lia.
    + replace (d + S (List.length l))%nat with (S d + List.length l)%nat by lia. exact H''.
Qed.

(** A file: statements and the end. *)
Lemma in_prods q : (if in_dec (ltac:(repeat decide equality) : forall x y : Z * list Z * option Z, {x = y} + {x <> y}) q prods then true else false) = true -> In q prods.
Proof. destruct (in_dec _ q prods); [auto|discriminate]. Qed.
Theorem accepts k l f ts eof : der (G_Stmts k) (VStmts l f) ts -> t_kind eof = KEof ->
  exists n, run n (initial (ts ++ [eof])) = Some (Accepted l).
Proof.
  intros D E.
  assert (TE : terminal eof = T_EOF) by (unfold terminal; rewrite E; reflexivity).
  assert (I0 : exists i, prod_at i = (G_Start, [G_Stmts k; T_EOF], Some 1) /\ in_kernel 0 i 0 (Z.shiftl 1 T_EOF) = true).
  { destruct k; [exists 177|exists 176]; vm_compute; split; reflexivity. }
  destruct I0 as (i & P0 & K0).
  assert (H : has 0 i 0 (Z.shiftl 1 T_EOF)) by (split; [apply in_states; lia|now left]).
  destruct (proj1 simulation _ _ _ D 0 [(0, VNone)] i O _ [T_EOF] eof [] H) as (s' & N0 & R).
  { now rewrite P0. } { reflexivity. } { rewrite TE. reflexivity. }
  assert (S' : s' = goto_ 0 (- N_stmts)) by (destruct k; vm_compute in N0; injection N0 as <-; reflexivity).
  eapply steps_run; [exact R|].
  instantiate (1 := 2%nat). cbn [run]. unfold step at 1. cbn [k_stack k_input top]. rewrite TE, S'.
  assert (A0 : exists s1, action (goto_ 0 (- N_stmts)) T_EOF = Shift s1 /\ simple_state s1 = true /\ default_action s1 0 = Reduce 1).
  { eexists. vm_compute. repeat split. }
  destruct A0 as (s1 & -> & SS & DA). unfold step. cbn [k_stack k_input top]. rewrite SS, DA. reflexivity.
Qed.
