(** Proofs about list sorting in files. *)
From Verif Require Import Base BaseProofs Ast Walk WalkSpec WalkProofs WalkGen StrList StrListSpec StrListProofs StrListSort Rewrite CallSpec CallProofs LabelRwSpec LabelRwProofs ListRwSpec.

Lemma Forall2_weaken {A B} (P Q : A -> B -> Prop) l l' : (forall a b, P a b -> Q a b) -> Forall2 P l l' -> Forall2 Q l l'.
Proof. intros H. induction 1; constructor; auto. Qed.
Lemma height_pos e : 1 <= height e.
Proof. destruct e; simpl; lia. Qed.
Lemma deduplicate_tidied l : deduplicated l (deduplicate l).
Proof. apply dedup_firsts. Qed.

Lemma heights_le (l l' : list expr) :
  (forall e, In e l' -> (exists e0, In e0 l /\ height e <= height e0)) ->
  list_max (map height l') <= list_max (map height l).
Proof.
  intros H. apply list_max_le, Forall_forall. intros n Hn. apply in_map_iff in Hn as (e & <- & He).
  destruct (H e He) as (e0 & H0 & H1). etransitivity; [exact H1|].
  assert (F : Forall (fun k => k <= list_max (map height l)) (map height l)) by (apply list_max_le; auto).
  rewrite Forall_forall in F. apply F, in_map, H0.
Qed.
Lemma chunkwise_heights strip l l' : chunkwise strip l l' -> forall e, In e l' -> exists e0, In e0 l /\ height e <= height e0.
Proof.
  induction 1 as [|a l l' H IH|run run' l l' H1 H2 H3 IH]; intros e He.
  - destruct He.
  - destruct He as [->|He]; [exists e; split; [left|]; auto|]. destruct (IH _ He) as (e0 & ? & ?). exists e0; split; auto; right; auto.
  - apply in_app_iff in He as [He|He].
    + apply in_map_iff in He as (s & <- & Hs). destruct run as [|f r]; [destruct H1|].
      exists (EStr f). split; [left; auto|simpl; lia].
    + destruct (IH _ He) as (e0 & ? & ?). exists e0; split; auto. apply in_app_iff; auto.
Qed.
Lemma bare_height e e' : bare_expr e = bare_expr e' -> height e = height e'.
Proof.
  intros H. assert (G : forall x, height (bare_expr x) = height x) by (intros []; reflexivity).
  rewrite <- G, H. apply G.
Qed.
Lemma forall2_in_r {A B} (P : A -> B -> Prop) l l' : Forall2 P l l' -> forall b, In b l' -> exists a, In a l /\ P a b.
Proof. induction 1 as [|x y l l' H F IH]; intros b []; subst; [exists x; split; auto; left; auto|]. destruct (IH _ H0) as (a & ? & ?). exists a; split; auto; right; auto. Qed.
Lemma tidied_heights strip l l' : tidied strip l l' -> list_max (map height l') <= list_max (map height l).
Proof.
  intros [H|(idx & _ & _ & F)]; apply heights_le; [eapply chunkwise_heights; eauto|].
  intros e He. destruct (forall2_in_r _ _ _ F _ He) as (i & _ & e0 & H1 & H2).
  exists e0. split; [eapply nth_error_In; eauto|]. rewrite (bare_height _ _ H2). auto.
Qed.
Lemma lists_tidied_height strip : forall e e', lists_tidied strip e e' -> height e' <= height e.
Proof.
  fix IH 3. intros e e' H. destruct H as [e|c s l l' e m H|c x x' p br y y' H1 H2|c i p dc ds dl dl' de dm args en k m Hi F].
  - auto.
  - rewrite !height_unfold. unfold children, fold_children; simpl. rewrite !map_id. apply le_n_S. eapply tidied_heights; eauto.
  - apply IH in H1. apply IH in H2. rewrite !height_unfold. unfold children, fold_children; simpl. lia.
  - assert (G : list_max (map height dl') <= list_max (map height dl)).
    { clear Hi. induction F as [|a b dl dl' H F IHF]; auto. cbn [map list_max fold_right]. fold (list_max (map height dl)). fold (list_max (map height dl')).
      apply Nat.max_le_compat; auto. destruct H as [<-|(c1 & key & p1 & v & v' & -> & -> & H)]; auto.
      apply IH in H. rewrite !height_unfold. unfold children, fold_children; simpl. lia. }
    rewrite !height_unfold. unfold children, fold_children; simpl. rewrite ?map_id. destruct (list_max (map height args)); lia.
Qed.

Lemma sort_list_tidied strip e : lists_tidied strip e (SortStringList strip e).
Proof.
  destruct e; try apply lt_same. cbn [SortStringList]. destruct l as [|a [|b l]]; try apply lt_same.
  destruct (do_not_sort a); [apply lt_list; right; apply deduplicate_tidied|].
  destruct (_ && _); [apply lt_list; right; apply deduplicate_tidied|].
  apply lt_list; left; apply sort_string_exprs_chunkwise.
Qed.
Lemma sort_list_shape strip e : SortStringList strip e = e \/ exists c s l en m, SortStringList strip e = EList c s l en m.
Proof.
  destruct e; auto. right. cbn [SortStringList]. destruct l as [|a [|b l]]; [repeat eexists..|].
  destruct (do_not_sort a); [repeat eexists|]. destruct (_ && _); repeat eexists.
Qed.
Lemma find_tidied strip n : forall e, lists_tidied strip e (find_modify n (SortStringList strip) e).
Proof.
  induction n as [|n IH]; intros e; [apply lt_same|]. cbn [find_modify].
  destruct (sort_list_shape strip e) as [E|(c & s & l & en & m & E)].
  - rewrite E. destruct e; try apply lt_same.
    + destruct e; try apply lt_same. destruct args as [|a args]; try apply lt_same. destruct a; try apply lt_same.
      destruct (beq_spec (i_name i) %"select") as [Ei|]; [|apply lt_same]. apply lt_select; auto.
      clear E. induction l as [|kv l IHl]; cbn [map]; constructor; auto.
      destruct kv; auto. right. eexists _, _, _, _, _. repeat split; auto.
    + destruct (beq_spec op %"+") as [->|]; [|apply lt_same]. apply lt_plus; apply IH.
  - pose proof (sort_list_tidied strip e) as H. rewrite E in *. exact H.
Qed.

Section L.
  Context (w : rewriter) (uoff : bool) (allow : list bytes) (strip : bool) (ty : ftype).
  Definition w_sortable (n key : bytes) : Prop :=
    In key (w_sortable_arg w) \/ In (n ++ %"." ++ key) (w_sortable_allow w) \/ (uoff = false /\ In (n ++ %"." ++ key) allow).
  Definition w_denied (n key : bytes) : Prop := In (n ++ %"." ++ key) (w_sortable_deny w).
  Lemma kind_of_name x : callee_name x (kind_of x) \/ ((forall n, ~ callee_name x n) /\ kind_of x = []).
  Proof.
    unfold kind_of. destruct (dotted x) as [l|] eqn:D.
    - left. clear -D. revert l D. induction x; intros ll D; cbn [dotted] in D; try discriminate.
      + injection D as <-. simpl. constructor.
      + destruct (dotted x) as [l0|] eqn:E; [|discriminate]. injection D as <-.
        specialize (IHx _ eq_refl). assert (H0 : l0 <> []).
        { intros ->. destruct x; try discriminate. cbn [dotted] in E. destruct (dotted x) as [[]|]; discriminate. }
        replace (join [c_dot] (l0 ++ [name])) with (join [c_dot] l0 ++ %"." ++ name); [constructor; auto|].
        clear -H0. induction l0 as [|a l0 IH]; [contradiction|]. destruct l0 as [|b l0]; [reflexivity|].
        change (join [c_dot] ((a :: b :: l0) ++ [name])) with (a ++ [c_dot] ++ join [c_dot] ((b :: l0) ++ [name])).
        rewrite <- IH by discriminate. cbn [join]. rewrite <- ?app_assoc. reflexivity.
    - right. split; auto. intros n H. apply dotted_spec in H as (l2 & Hl & _). congruence.
  Qed.
  Lemma arg_tidied x a :
    let a' := sort_list_arg w uoff allow strip (kind_of x) a in
    a' = a \/ exists ca key pa op b rhs rhs' n,
            a = EAssign ca (EIdent key) pa op b rhs /\ a' = EAssign ca (EIdent key) pa op b rhs' /\
            (callee_name x n \/ ((forall n, ~ callee_name x n) /\ n = [])) /\
            w_sortable n (i_name key) /\ ~ w_denied n (i_name key) /\
            ~ marked %"buildifier: leave-alone" a /\ lists_tidied strip rhs rhs'.
  Proof.
    cbv zeta. unfold sort_list_arg. destruct (leave_alone1 a) eqn:La; [left; auto|].
    destruct a; try (left; reflexivity). destruct a1; try (left; reflexivity).
    destruct (mem_bytes (kind_of x ++ [c_dot] ++ i_name i) (w_sortable_deny w)) eqn:D; [left; auto|].
    destruct (_ || _ || _) eqn:S; [|left; auto]. right.
    exists c, i, p, op, lbreak, a2. eexists. exists (kind_of x). split; [reflexivity|]. split; [reflexivity|].
    split; [apply kind_of_name|]. split; [|split; [|split]].
    - unfold w_sortable. change %"." with [c_dot]. apply orb_true_iff in S as [S|S]; [apply orb_true_iff in S as [S|S]|].
      + left. apply mem_bytes_In; auto.
      + right; left. apply mem_bytes_In; auto.
      + right; right. apply andb_true_iff in S as [S1 S2]. apply negb_true_iff in S1. apply mem_bytes_In in S2; auto.
    - unfold w_denied. intros H. apply mem_bytes_In in H. change %"." with [c_dot] in H. congruence.
    - intros H. apply has_comment_spec in H. unfold leave_alone1 in La. congruence.
    - destruct (do_not_sort _); [|apply find_tidied].
      destruct a2; try apply lt_same. apply lt_list; right; apply deduplicate_tidied.
  Qed.
  Definition like_build : Prop := ty <> TypeDefault /\ ty <> TypeBzl.
  Lemma keep_spec e : uoff = false /\ keep_sorted e = true -> marked %"keep sorted" e.
  Proof. intros [_ H]. apply has_comment_spec; auto. Qed.
  Lemma listsort_ok stk e : lists_sorted strip w_sortable w_denied like_build stk e (listsort_node w uoff allow strip ty stk e).
  Proof.
    unfold lists_sorted. destruct e; try (left; reflexivity); cbn [listsort_node].
    - assert (G : like_build ->
        (if leave_alone stk (ECall c e lstart args e0 compact multi) then ECall c e lstart args e0 compact multi
         else ECall c e lstart (map (sort_list_arg w uoff allow strip (kind_of e)) args) e0 compact multi) = ECall c e lstart args e0 compact multi \/
        like_build /\ ~ left_alone stk (ECall c e lstart args e0 compact multi) /\
        exists args', (if leave_alone stk (ECall c e lstart args e0 compact multi) then ECall c e lstart args e0 compact multi
         else ECall c e lstart (map (sort_list_arg w uoff allow strip (kind_of e)) args) e0 compact multi) = ECall c e lstart args' e0 compact multi /\
        Forall2 (fun a a' => a' = a \/ exists ca key pa op b rhs rhs' n,
            a = EAssign ca (EIdent key) pa op b rhs /\ a' = EAssign ca (EIdent key) pa op b rhs' /\
            (callee_name e n \/ ((forall n, ~ callee_name e n) /\ n = [])) /\
            w_sortable n (i_name key) /\ ~ w_denied n (i_name key) /\
            ~ marked %"buildifier: leave-alone" a /\ lists_tidied strip rhs rhs') args args').
      { intros Hb. destruct (leave_alone _ _) eqn:L; [left; auto|right]. split; auto.
        split; [intros H; apply leave_alone_spec in H; congruence|]. eexists; split; [reflexivity|].
        clear L. induction args as [|a args IH]; cbn [map]; constructor; auto. apply arg_tidied. }
      unfold like_build in *. destruct ty; (left; reflexivity) || (apply G; split; discriminate).
    - destruct (negb uoff && _) eqn:K; [|left; auto]. right. apply andb_true_iff in K as [K1 K2]. apply negb_true_iff in K1.
      split; [apply keep_spec; auto|]. eexists; split; [reflexivity|apply find_tidied].
    - destruct l as [|x l]; [left; auto|]. destruct (negb uoff && _) eqn:K; [|left; auto]. right.
      apply andb_true_iff in K as [K1 K2]. apply negb_true_iff in K1. apply orb_true_iff in K2.
      split; [|apply find_tidied]. destruct K2; [left|right; exists x, l; split; auto]; apply keep_spec; auto.
    - destruct (negb uoff && _) eqn:K; [|left; auto]. right. apply andb_true_iff in K as [K1 K2]. apply negb_true_iff in K1.
      split; [apply keep_spec; auto|]. eexists; split; [reflexivity|apply find_tidied].
  Qed.
  Lemma listsort_height stk e : height (listsort_node w uoff allow strip ty stk e) <= height e.
  Proof.
    destruct (listsort_ok stk e) as [->|H]; auto. destruct e; try contradiction.
    - destruct H as (_ & _ & args' & -> & F). rewrite !height_unfold. unfold children, fold_children. simpl. rewrite !map_id.
      apply le_n_S, Nat.max_le_compat_l. apply forall2_height. eapply Forall2_weaken; [|exact F]. cbv beta.
      intros a a' [->|(ca & key & pa & op & b & rhs & rhs' & n & -> & -> & _ & _ & _ & _ & G)]; auto.
      apply lists_tidied_height in G. rewrite !height_unfold. unfold children, fold_children. change (height (EIdent key)) with 1. cbn [map fold_children2 list_max fold_right]. change (height (EIdent key)) with 1. lia.
    - destruct H as (_ & v' & -> & G). apply lists_tidied_height in G. rewrite !height_unfold. unfold children, fold_children. simpl. lia.
    - destruct H as (_ & G). apply lists_tidied_height in G. auto.
    - destruct H as (_ & v' & -> & G). apply lists_tidied_height in G. rewrite !height_unfold. unfold children, fold_children. simpl. lia.
  Qed.
  Lemma listsort_kind : cb_kind (listsort_node w uoff allow strip ty).
  Proof. split; intros; eexists; reflexivity. Qed.
End L.
