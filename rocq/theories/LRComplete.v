(** Completeness of the LR automaton for the unambiguous grammar of LRItems.v: whatever the grammar derives, the automaton
    reduces in the same way.  The method is that of validated LR parsers: for each state a set of current items, closed
    under the moves of the automaton; all facts about the tables are checked by computation. *)
From Verif Require Import Base BaseProofs Ast Lex LRTables LRCert Parse LRProofs LRItems.
Local Open Scope Z_scope.

(** ** Derivations with the values that the actions of build/parse.y compute *)
Inductive der : Z -> value -> list token -> Prop :=
  | d_tok t : der (terminal t) (VTok t) [t]
  | d_silent A B v ts : In (A, [B], None) prods -> der B v ts -> der A v ts
  | d_rule A rhs r f vs v ts : In (A, rhs, Some r) prods -> r <> 1 -> nth_error actions (Z.to_nat r - 1) = Some f ->
      ders rhs vs ts -> f vs = Some v -> der A v ts
with ders : list Z -> list value -> list token -> Prop :=
  | ds_nil : ders [] [] []
  | ds_cons X v ts rhs vs ts' : der X v ts -> ders rhs vs ts' -> ders (X :: rhs) (v :: vs) (ts ++ ts').
Scheme der_ind2 := Minimality for der Sort Prop with ders_ind2 := Minimality for ders Sort Prop.
Combined Scheme der_mut from der_ind2, ders_ind2.

(** ** Sets of terminals *)
Definition sub (a b : Z) : bool := Z.lor a b =? b.
Definition inset (m : Z) (a : Z) : bool := Z.testbit m a.
Lemma sub_spec a b x : sub a b = true -> inset a x = true -> inset b x = true.
Proof. unfold sub, inset. intros H I. apply Z.eqb_eq in H. rewrite <- H, Z.lor_spec, I. reflexivity. Qed.
Lemma sub_refl a : sub a a = true.
Proof. unfold sub. apply Z.eqb_eq, Z.lor_diag. Qed.
Lemma sub_trans a b c : sub a b = true -> sub b c = true -> sub a c = true.
Proof.
  unfold sub. rewrite !Z.eqb_eq. intros H I. rewrite <- I at 2. rewrite <- H, <- I, !Z.lor_assoc.
  rewrite <- !Z.lor_assoc, (Z.lor_comm b c), !Z.lor_assoc. 
  apply Z.bits_inj. intro n. rewrite !Z.lor_spec. destruct (Z.testbit a n), (Z.testbit b n), (Z.testbit c n); reflexivity.
Qed.

(** ** First sets *)
Definition tab := list Z.                         (* by nonterminal *)
Definition get (t : tab) (A : Z) : Z := at_ t (- A).
Fixpoint put (t : tab) (n : nat) (m : Z) : tab :=
  match t, n with
  | [], _ => []
  | x :: t', O => Z.lor x m :: t'
  | x :: t', S n' => x :: put t' n' m
  end.
(** First set of a sequence followed by a terminal of [m]; [-1] as an entry's bit 0 says nullable. *)
Definition null (fs : tab) (X : Z) : bool := (X <? 0) && Z.testbit (get fs X) 0.
Definition base (fs : tab) (X : Z) : Z := if X <? 0 then Z.clearbit (get fs X) 0 else Z.shiftl 1 X.
Fixpoint firsts (fs : tab) (l : list Z) (m : Z) : Z :=
  match l with
  | [] => m
  | X :: l' => if null fs X then Z.lor (base fs X) (firsts fs l' m) else base fs X
  end.
Definition blank : tab := map (fun _ => 0) erased.
Definition first_round (fs : tab) : tab :=
  fold_left (fun fs p => let '(A, rhs, _) := p in put fs (Z.to_nat (- A)) (firsts fs rhs 1)) prods fs.
Fixpoint iterate {A} (n : nat) (f : A -> A) (x : A) : A := match n with O => x | S n' => iterate n' f (f x) end.
Definition first_tab : tab := Eval vm_compute in iterate 30 first_round blank.
Definition FIRST := firsts first_tab.
Definition first_ok : bool :=
  forallb (fun p => let '(A, rhs, _) := p in (A <? 0) && sub (FIRST rhs 1) (get first_tab A)) prods.
Lemma first_checked : first_ok = true. Proof. vm_compute. reflexivity. Qed.

Definition starts (X : Z) (ts : list token) : Prop :=
  match ts with [] => null first_tab X = true | t :: _ => inset (base first_tab X) (terminal t) = true end.
Definition starts_all (l : list Z) (ts : list token) : Prop :=
  match ts with
  | [] => forallb (null first_tab) l = true
  | t :: _ => inset (firsts first_tab l 1) (terminal t) = true
  end.
Lemma terminal_pos t : 0 < terminal t.
Proof. generalize (terminal_range t). lia. Qed.
Lemma firsts_null l m : forallb (null first_tab) l = true -> sub m (FIRST l m) = true.
Proof.
  unfold FIRST. induction l as [|X l IH]; cbn [firsts forallb]; intro H; [apply sub_refl|].
  apply andb_prop in H as [H1 H2]. rewrite H1. specialize (IH H2). unfold sub in *. rewrite Z.eqb_eq in *.
  rewrite (Z.lor_comm (base _ _)), Z.lor_assoc, IH. reflexivity.
Qed.
Lemma base_null X : X < 0 -> forall t, inset (get first_tab X) (terminal t) = true -> inset (base first_tab X) (terminal t) = true.
Proof.
  intros H t I. unfold base. destruct (X <? 0) eqn:E; [|lia]. unfold inset in *. rewrite Z.clearbit_eqb, I. 
  generalize (terminal_pos t). intro. destruct (Z.eqb_spec 0 (terminal t)); [lia|reflexivity].
Qed.
Lemma prod_first A rhs r : In (A, rhs, r) prods -> A < 0 /\ sub (FIRST rhs 1) (get first_tab A) = true.
Proof.
  intro H. generalize first_checked. unfold first_ok. rewrite forallb_forall. intro C. specialize (C _ H). cbn in C.
  apply andb_prop in C as [C1 C2]. split; [lia|exact C2].
Qed.
Lemma prod_starts A rhs r ts : In (A, rhs, r) prods -> starts_all rhs ts -> starts A ts.
Proof.
  intros H S0. destruct (prod_first _ _ _ H) as [L C]. destruct ts as [|t ts]; cbn in *.
  - unfold null. destruct (A <? 0) eqn:E; [|lia]. cbn [andb]. apply firsts_null with (m := 1) in S0.
    apply (sub_spec (FIRST rhs 1)); [exact C|]. apply (sub_spec 1); [exact S0|reflexivity].
  - apply base_null; [exact L|]. eapply sub_spec; eauto.
Qed.
Lemma der_starts :
  (forall X v ts, der X v ts -> starts X ts) /\ (forall l vs ts, ders l vs ts -> starts_all l ts).
Proof.
  apply der_mut.
  - intro t. cbn. generalize (terminal_pos t). intro P. unfold base. destruct (terminal t <? 0) eqn:E; [lia|].
    unfold inset. rewrite Z.shiftl_spec by lia. rewrite Z.sub_diag. reflexivity.
  - intros A B v ts H _ IH. apply (prod_starts _ _ _ _ H). destruct ts as [|t ts]; cbn in *.
    + now rewrite IH.
    + destruct (null first_tab B); [|exact IH]. unfold inset in *. now rewrite Z.lor_spec, IH.
  - intros A rhs r f vs v ts H _ _ _ IH _. now apply (prod_starts _ _ _ _ H).
  - reflexivity.
  - intros X v ts l vs ts' _ IH _ IH'. destruct ts as [|t ts]; cbn in IH |- *.
    + destruct ts' as [|t' ts']; cbn in IH' |- *; rewrite IH; [exact IH'|]. unfold inset in *. rewrite Z.lor_spec, IH'. apply orb_true_r.
    + destruct (null first_tab X); [|exact IH]. unfold inset in *. now rewrite Z.lor_spec, IH.
Qed.
Lemma firsts_mono l a b x : (inset a x = true -> inset b x = true) -> inset (FIRST l a) x = true -> inset (FIRST l b) x = true.
Proof.
  intro H. unfold FIRST. induction l as [|X l IH]; cbn [firsts]; [exact H|].
  destruct (null first_tab X); [|auto]. unfold inset in *. rewrite !Z.lor_spec. intro K.
  apply orb_prop in K as [K|K]; [now rewrite K|]. rewrite (IH K). apply orb_true_r.
Qed.
(** The first token of a derived sequence followed by [u]. *)
Lemma first_token l vs ts m u rest : ders l vs ts -> inset m (terminal u) = true ->
  exists u' rest', ts ++ u :: rest = u' :: rest' /\ inset (FIRST l m) (terminal u') = true.
Proof.
  intros D U. apply der_starts in D. destruct ts as [|t ts]; cbn in D.
  - exists u, rest. split; [reflexivity|]. eapply sub_spec; [now apply firsts_null|exact U].
  - exists t, (ts ++ u :: rest). split; [reflexivity|]. revert D. apply firsts_mono. unfold inset.
    generalize (terminal_pos t). intros P E. change 1 with (2 ^ 0) in E. rewrite Z.pow2_bits_eqb in E by lia.
    apply Z.eqb_eq in E. lia.
Qed.

(** ** Items *)
Definition kernel (s : Z) : list (Z * Z * Z) := nth (Z.to_nat s) kernels [].
Definition add_item (c : tab) (rest : list Z) (m : Z) : tab :=
  match rest with
  | X :: rest' => if X <? 0 then put c (Z.to_nat (- X)) (FIRST rest' m) else c
  | [] => c
  end.
Definition prod_at (i : Z) : Z * list Z * option Z := nth (Z.to_nat i) prods (0, [], None).
Definition closure_round (c : tab) : tab :=
  fold_left (fun c p => let '(A, rhs, _) := p in if get c A =? 0 then c else add_item c rhs (get c A)) prods c.
Definition closure (s : Z) : tab :=
  iterate 12 closure_round
    (fold_left (fun c i => let '(p, d, m) := i in
       add_item c (skipn (Z.to_nat d) (snd (fst (prod_at p)))) (at_ masks m)) (kernel s) blank).
Definition next (s X : Z) : option Z :=
  if X <? 0 then Some (goto_ s (- at_ erased (- X)))
  else match action s X with Shift s' => Some s' | _ => None end.
Definition in_kernel (s i : Z) (d : nat) (m : Z) : bool :=
  existsb (fun k => let '(i', d', m') := k in (i' =? i) && (d' =? Z.of_nat d) && sub m (at_ masks m')) (kernel s).
Definition check_item (s : Z) (c : tab) (i : Z) (d : nat) (m : Z) : bool :=
  let '(A, rhs, r) := prod_at i in
  match skipn d rhs with
  | [] =>
      match r with
      | Some r => (r =? 1) || forallb (fun a => negb (inset m a) || match action s a with Reduce r' => r' =? r | _ => false end) lookaheads
      | None => true
      end
  | X :: rest =>
      (if X <? 0 then sub (FIRST rest m) (get c X) else true) &&
      match r with
      | Some _ => match next s X with Some s' => memZ s' states && in_kernel s' i (S d) m | None => false end
      | None => true
      end
  end.
Definition indices : list Z := map Z.of_nat (seq 0 (List.length prods)).
Definition check_state_items (s : Z) : bool :=
  let c := closure s in
  forallb (fun k => let '(i, d, m) := k in check_item s c i (Z.to_nat d) (at_ masks m)) (kernel s) &&
  forallb (fun i => let '(A, _, _) := prod_at i in (get c A =? 0) || check_item s c i 0 (get c A)) indices.
(** Each production agrees with the rule that it stands for. *)
Definition check_prod (p : Z * list Z * option Z) : bool :=
  let '(A, rhs, r) := p in
  match r with
  | Some r => (- at_ erased (- A) =? at_ yyR1 r) && (Z.of_nat (List.length rhs) =? at_ yyR2 r)
  | None => match rhs with [B] => (B <? 0) && (at_ erased (- B) =? at_ erased (- A)) | _ => false end
  end.
Definition items_ok : bool := forallb check_prod prods && forallb check_state_items states.
Lemma items_checked : items_ok = true. Proof. vm_compute. reflexivity. Qed.
