From Verif Require Import Base BaseProofs Ast Walk WalkSpec.

(** ** Children *)
Lemma opt_list_map {A B} (f : A -> B) o : opt_list f o = map f (opt_list (fun x => x) o).
Proof. destruct o; reflexivity. Qed.
Lemma flat_opt_map {A B} (f : A -> B) l : flat_map (opt_list f) l = map f (flat_map (opt_list (fun x => x)) l).
Proof. induction l as [|[x|] l IH]; simpl; auto. rewrite IH; auto. Qed.
Lemma zip_load_map {B C} (f : ident -> B) (g : B -> C) fr : forall to, map g (zip_load f fr to) = zip_load (fun i => g (f i)) fr to.
Proof. induction fr as [|a fr IH]; intros [|b to]; simpl; auto. rewrite IH; auto. Qed.
Lemma fold_children_map {A} (f : expr -> A) e : fold_children f e = map f (children e).
Proof.
  destruct e; unfold children, fold_children; simpl; rewrite ?map_app, ?map_map, ?map_id, ?zip_load_map; auto.
  - apply flat_opt_map.
  - apply opt_list_map.
  - rewrite (opt_list_map f from), (opt_list_map f to), (opt_list_map f step). auto.
  - apply opt_list_map.
Qed.
Lemma fold_children2_map {A} (f : expr -> A) fs fi e :
  (forall s, fs s = f (EStr s)) -> (forall i, fi i = f (EIdent i)) ->
  fold_children2 f fs fi e = map f (children e).
Proof.
  intros H1 H2. rewrite <- fold_children_map. unfold fold_children.
  destruct e; simpl; auto. rewrite H1. f_equal.
  revert to. induction from as [|a fr IH]; intros [|b to]; simpl; auto. rewrite !H2, IH; auto.
Qed.
Lemma height_unfold e : height e = S (list_max (map height (children e))).
Proof. rewrite <- (fold_children2_map height (fun _ => 1) (fun _ => 1)) by reflexivity. destruct e; reflexivity. Qed.
Lemma list_max_ge l x : In x l -> x <= list_max l.
Proof.
  intros H. assert (Forall (fun k => k <= list_max l) l) by (apply list_max_le; auto).
  rewrite Forall_forall in H0. auto.
Qed.
Lemma height_child e c : In c (children e) -> height c < height e.
Proof. intros H. rewrite (height_unfold e). apply Nat.lt_succ_r, list_max_ge, in_map, H. Qed.

(** Induction over children. *)
Lemma expr_children_ind (P : expr -> Prop) :
  (forall e, (forall c, In c (children e) -> P c) -> P e) -> forall e, P e.
Proof.
  intros H e. remember (height e) as n eqn:E. revert e E.
  induction n as [n IH] using lt_wf_ind. intros e ->. apply H. intros c Hc.
  eapply IH; eauto. apply height_child; auto.
Qed.

Lemma visit_unfold stop stk e :
  visit stop stk e = (e, stk) :: if stop e stk then [] else flat_map (visit stop (stk ++ [e])) (children e).
Proof.
  rewrite flat_map_concat_map, <- (fold_children2_map (visit stop (stk ++ [e])) (fun s => [(EStr s, stk ++ [e])]) (fun i => [(EIdent i, stk ++ [e])])).
  - destruct e; reflexivity.
  - intros; simpl; destruct (stop _ _); reflexivity.
  - intros; simpl; destruct (stop _ _); reflexivity.
Qed.

(** ** Children are the immediate subexpressions without type annotations *)
Lemma in_flat_opt x (l : list (option expr)) : In x (flat_map (opt_list (fun y => y)) l) <-> In (Some x) l.
Proof.
  induction l as [|[y|] l IH]; simpl; [tauto| |]; rewrite IH; intuition congruence.
Qed.
Lemma in_zip_load x fr : forall to, List.length fr = List.length to ->
  (In x (zip_load (fun i => EIdent i) fr to) <-> exists i, x = EIdent i /\ (In i fr \/ In i to)).
Proof.
  induction fr as [|a fr IH]; intros [|b to] H; simpl in *; try discriminate.
  - split; [tauto|]. intros (i & _ & [[]|[]]).
  - rewrite IH by lia. split.
    + intros [<-|[<-|(i & -> & H')]]; [exists a|exists b|exists i]; tauto.
    + intros (i & -> & [[->|H']|[->|H']]); eauto 6.
Qed.
Lemma children_sub e x : load_ok e -> In x (children e) -> sub e x.
Proof.
  intros Hok H. destruct e; unfold children, fold_children in H; simpl in H; rewrite ?map_id, ?in_app_iff in H;
      try (exfalso; exact H).
  all: try (destruct H as [<-|[<-|[<-|[]]]]; constructor; fail).
  all: try (destruct H as [<-|[<-|[]]]; constructor; fail).
  all: try (destruct H as [<-|[]]; constructor; fail).
  all: try (destruct H as [<-|H]; constructor; auto; fail).
  all: try (constructor; auto; fail).
  - constructor. apply in_flat_opt; auto.
  - destruct x0; simpl in H; [|destruct H]. destruct H as [<-|[]]. constructor.
  - destruct H as [<-|[H|[H|H]]]; [constructor| | |];
    [destruct from|destruct to|destruct step]; simpl in H; try tauto; destruct H as [<-|[]]; constructor.
  - destruct H as [H|H]; [apply sub_lparam|apply sub_lbody]; auto.
  - destruct H as [<-|H]; [constructor|]. apply in_zip_load in H; auto.
    destruct H as (i & -> & [H|H]); [apply sub_load_from|apply sub_load_to]; auto.
  - destruct H as [H|H]; [apply sub_dparam|apply sub_dbody]; auto.
  - destruct x0; simpl in H; [|destruct H]. destruct H as [<-|[]]. constructor.
  - destruct H as [<-|[<-|H]]; [constructor|constructor|]. apply sub_for_stmt_body; auto.
  - destruct H as [<-|[H|H]]; [constructor|apply sub_true|apply sub_false]; auto.
Qed.
Lemma sub_children e x : load_ok e -> sub e x -> In x (children e) \/ type_part e x.
Proof.
  intros Hok H.
  destruct H; try (right; constructor; fail); left; unfold children, fold_children; simpl; rewrite ?map_id, ?in_app_iff; auto;
    try (repeat match goal with o : option expr |- _ => destruct o end; simpl; tauto).
  - apply in_flat_opt; auto.
  - right. apply in_zip_load; eauto.
  - right. apply in_zip_load; eauto.
Qed.

(** ** Preorder enumeration of paths *)
Fixpoint enum_paths (kids : nat) (ps : nat -> list (list nat)) (i : nat) : list (list nat) :=
  match kids with
  | 0 => []
  | S k => map (cons i) (ps i) ++ enum_paths k ps (S i)
  end.

Definition stopped (stop : expr -> list expr -> bool) (stk : list expr) (e : expr) (p : list nat) : Prop :=
  exists q i t n, p = q ++ i :: t /\ node_at children e q = Some n /\ stop n (stk ++ above children e q) = true.

Lemma path_before_cons i p q : path_before p q -> path_before (i :: p) (i :: q).
Proof.
  intros [(j & t & ->)|(r & j & s & k & t & -> & -> & H)].
  - left. exists j, t. auto.
  - right. exists (i :: r), j, s, k, t. auto.
Qed.
Lemma path_before_lt i j p q : i < j -> path_before (i :: p) (j :: q).
Proof. intros H. right. exists [], i, p, j, q. auto. Qed.
Lemma path_before_nil i q : path_before [] (i :: q).
Proof. left. exists i, q. auto. Qed.

(** One node: given results for the children. *)
Definition good stop stk e (v : list (expr * list expr)) (ps : list (list nat)) : Prop :=
  StronglySorted path_before ps /\
  (forall p, In p ps <-> node_at children e p <> None /\ ~ stopped stop stk e p) /\
  Forall2 (fun p x => node_at children e p = Some (fst x) /\ snd x = stk ++ above children e p) ps v.

Lemma StronglySorted_app {A} (R : A -> A -> Prop) a b :
  StronglySorted R a -> StronglySorted R b -> (forall x y, In x a -> In y b -> R x y) ->
  StronglySorted R (a ++ b).
Proof.
  induction 1 as [|x a Ha IH Hf]; simpl; auto. intros Hb H. constructor.
  - apply IH; auto. - apply Forall_app. split; auto. apply Forall_forall. intros y Hy. apply H; auto.
Qed.
Lemma StronglySorted_map {A B} (R : A -> A -> Prop) (S : B -> B -> Prop) (f : A -> B) l :
  (forall x y, R x y -> S (f x) (f y)) -> StronglySorted R l -> StronglySorted S (map f l).
Proof.
  intros H. induction 1 as [|x l Hl IH Hf]; simpl; constructor; auto.
  rewrite Forall_forall in *. intros y Hy. apply in_map_iff in Hy as (z & <- & Hz). auto.
Qed.

Lemma visit_good stop e : forall stk, exists ps, good stop stk e (visit stop stk e) ps.
Proof.
  induction e as [e IH] using expr_children_ind. intros stk. rewrite visit_unfold.
  destruct (stop e stk) eqn:Hstop.
  - exists [[]]. split; [repeat constructor|]. split.
    + intros p. split.
      * intros [<-|[]]. split; [discriminate|]. intros (q & i & t & n & H & _). destruct q; discriminate.
      * intros [H1 H2]. destruct p as [|i p]; [left; auto|]. destruct H2.
        exists [], i, p, e. simpl. rewrite app_nil_r. auto.
    + constructor; [|constructor]. simpl. rewrite app_nil_r. auto.
  - (* children *)
    assert (G : forall ks off, (forall k, In k ks -> forall stk, exists ps, good stop stk k (visit stop stk k) ps) ->
       (forall i, nth_error ks i = nth_error (children e) (off + i)) ->
       exists ps, StronglySorted path_before ps /\
         (forall p, In p ps <-> (exists i p', p = i :: p' /\ off <= i) /\ node_at children e p <> None /\ ~ stopped stop stk e p) /\
         Forall2 (fun p x => node_at children e p = Some (fst x) /\ snd x = stk ++ above children e p) ps
           (flat_map (visit stop (stk ++ [e])) ks)).
    { induction ks as [|k ks IHk]; intros off Hk Hn.
      - exists []. split; [constructor|]. split; [|constructor]. intros p. split; [intros []|].
        intros ((i & p' & -> & Hi) & H & _). simpl in H. specialize (Hn (i - off)).
        replace (off + (i - off)) with i in Hn by lia. rewrite <- Hn in H. destruct (i - off); simpl in H; congruence.
      - destruct (Hk k (or_introl eq_refl) (stk ++ [e])) as (ps1 & S1 & I1 & F1).
        destruct (IHk (S off)) as (ps2 & S2 & I2 & F2).
        { intros; apply Hk; right; auto. }
        { intros i. specialize (Hn (S i)). simpl in Hn. rewrite Hn. f_equal. lia. }
        assert (Hoff : nth_error (children e) off = Some k).
        { specialize (Hn 0). simpl in Hn. rewrite Nat.add_0_r in Hn. auto. }
        assert (Hst : forall p, stopped stop stk e (off :: p) <-> stopped stop (stk ++ [e]) k p).
        { intros p. split.
          - intros (q & i & t & n & H1 & H2 & H3). destruct q as [|j q]; simpl in *.
            + injection H2 as <-. rewrite app_nil_r in H3. congruence.
            + injection H1 as -> ->. rewrite Hoff in H2, H3. exists q, i, t, n. rewrite <- app_assoc. auto.
          - intros (q & i & t & n & -> & H2 & H3). exists (off :: q), i, t, n. simpl. rewrite Hoff.
            rewrite <- app_assoc in H3. auto. }
        exists (map (cons off) ps1 ++ ps2). split; [|split].
        + apply StronglySorted_app; auto.
          * eapply StronglySorted_map; [|exact S1]. intros; apply path_before_cons; auto.
          * intros x y Hx Hy. apply in_map_iff in Hx as (p & <- & _). apply I2 in Hy as ((i & p' & -> & Hi) & _).
            apply path_before_lt. lia.
        + intros p. rewrite in_app_iff. split.
          * intros [H|H].
            -- apply in_map_iff in H as (p' & <- & H). apply I1 in H as [Ha Hb].
               split; [eauto|]. split; [simpl; rewrite Hoff; auto|]. rewrite Hst. auto.
            -- apply I2 in H as ((i & p' & -> & Hi) & H). split; auto. exists i, p'. split; auto. lia.
          * intros ((i & p' & -> & Hi) & Ha & Hb). destruct (Nat.eq_dec i off) as [->|n].
            -- left. apply in_map, I1. simpl in Ha. rewrite Hoff in Ha. rewrite Hst in Hb. auto.
            -- right. apply I2. split; auto. exists i, p'. split; auto. lia.
        + cbn [flat_map]. apply Forall2_app; auto.
          clear - F1 Hoff. induction F1 as [|p x ps v Hpx F1 IH]; simpl; constructor; auto.
          simpl. rewrite Hoff. destruct Hpx as [-> ->]. rewrite <- app_assoc. auto. }
    destruct (G (children e) 0) as (ps & S1 & I1 & F1); [intros; apply IH; auto|auto|].
    exists ([] :: ps). split; [|split].
    + constructor; auto. apply Forall_forall. intros p Hp. apply I1 in Hp as ((i & p' & -> & _) & _).
      apply path_before_nil.
    + intros p. split.
      * intros [<-|H].
        -- split; [discriminate|]. intros (q & i & t & n & H & _). destruct q; discriminate.
        -- apply I1 in H. tauto.
      * intros [H1 H2]. destruct p as [|i p]; [left; auto|right]. apply I1. split; auto. exists i, p. split; auto. lia.
    + constructor; auto. simpl. rewrite app_nil_r. auto.
Qed.

(** ** Editing walks *)
Lemma map_ext_in' {A B} (f g : A -> B) l : (forall c, In c (map (fun x => x) l) -> f c = g c) -> map f l = map g l.
Proof. rewrite map_id. apply map_ext_in. Qed.
Lemma option_map_ext {A B} (f g : A -> B) o : (forall c, In c (opt_list (fun x => x) o) -> f c = g c) -> option_map f o = option_map g o.
Proof. destruct o; simpl; auto. intros H. rewrite H; auto. Qed.
Lemma map_pref_ext f g fr : forall to, (forall c, In c (zip_load (fun i => EIdent i) fr to) -> f c = g c) ->
  map_pref (fun i => as_ident i (f (EIdent i))) fr to = map_pref (fun i => as_ident i (g (EIdent i))) fr to /\
  map_pref (fun i => as_ident i (f (EIdent i))) to fr = map_pref (fun i => as_ident i (g (EIdent i))) to fr.
Proof.
  induction fr as [|a fr IH]; intros [|b to] H; simpl in *; auto.
  destruct (IH to) as [H1 H2]; [auto|]. rewrite H1, H2, !H by auto. auto.
Qed.
Lemma map_children_ext f g e : (forall c, In c (children e) -> f c = g c) ->
  map_children f e = map_children g e.
Proof.
  intros H. destruct e; unfold children, fold_children in H; simpl in H |- *; auto;
    repeat match goal with
    | |- context [map f ?l] => rewrite (map_ext_in' f g l) by (intros; apply H; rewrite ?in_app_iff; auto)
    | |- context [option_map f ?o] => rewrite (option_map_ext f g o) by (intros; apply H; rewrite ?in_app_iff; auto)
    | |- context [f ?x] => rewrite (H x) by (rewrite ?in_app_iff; auto)
    end; auto.
  - f_equal. apply map_ext_in. intros [x|] Hx; auto. simpl. rewrite H; auto. apply in_flat_opt; auto.
  - destruct (map_pref_ext f g from to) as [H1 H2]; [auto|]. rewrite H1, H2. auto.
Qed.
Lemma map_children_id e : map_children (fun x => x) e = e.
Proof.
  assert (O : forall A (o : option A), option_map (fun x => x) o = o) by (intros ? []; auto).
  assert (P : forall fr (to : list ident), map_pref (fun i : ident => i) fr to = fr).
  { induction fr as [|a fr IH]; intros [|b to]; simpl; auto. rewrite IH; auto. }
  destruct e; simpl; rewrite ?map_id, ?O, ?P; auto.
  f_equal. rewrite (map_ext _ (fun x => x)); [apply map_id|auto].
Qed.
Lemma map_children_id_in f e : (forall c, In c (children e) -> f c = c) -> map_children f e = e.
Proof. intros H. rewrite <- (map_children_id e) at 2. apply map_children_ext; auto. Qed.

(** The children of a rebuilt node, for functions that keep strings strings and idents idents. *)
Definition kind_ok (f : expr -> expr) : Prop :=
  (forall s, exists s', f (EStr s) = EStr s') /\ (forall i, exists i', f (EIdent i) = EIdent i').
Lemma children_map_children f e : kind_ok f -> children (map_children f e) = map f (children e).
Proof.
  intros [Hs Hi]. rewrite <- fold_children_map. unfold children.
  destruct e; simpl; unfold fold_children; simpl; rewrite ?map_id; auto.
  - induction stmts as [|[x|] l IH]; simpl; auto. rewrite IH; auto.
  - destruct x; auto.
  - destruct from, to, step; auto.
  - destruct (Hs m) as [m' ->]. simpl. f_equal.
    revert to. induction from as [|a fr IH]; intros [|b to]; simpl; auto.
    destruct (Hi a) as [a' Ha], (Hi b) as [b' Hb]. rewrite Ha, Hb. simpl. rewrite IH; auto.
  - destruct x; auto.
Qed.

(** Whatever [f] does, the children of a rebuilt load are leaves. *)
Lemma list_max_map_le (f g : expr -> nat) l : (forall x, In x l -> f x <= g x) -> list_max (map f l) <= list_max (map g l).
Proof.
  induction l as [|x l IH]; simpl; auto. intros H.
  specialize (H x) as Hx. assert (f x <= g x) by auto. assert (list_max (map f l) <= list_max (map g l)) by auto. lia.
Qed.
Definition is_load (e : expr) : bool := match e with ELoad _ _ _ _ _ _ _ => true | _ => false end.
Lemma children_map_children' f e : is_load e = false -> children (map_children f e) = map f (children e).
Proof.
  intros Hl. rewrite <- fold_children_map. unfold children.
  destruct e; try discriminate Hl; simpl; unfold fold_children; simpl; rewrite ?map_id; auto.
  - induction stmts as [|[x|] l IH]; simpl; auto. rewrite IH; auto.
  - destruct x; auto.
  - destruct from, to, step; auto.
  - destruct x; auto.
Qed.
Lemma height_load c p m fr to r k : height (ELoad c p m fr to r k) = 2.
Proof.
  rewrite height_unfold. unfold children, fold_children; simpl. f_equal. rewrite zip_load_map.
  assert (H : list_max (zip_load (fun i => height (EIdent i)) fr to) <= 1).
  { apply list_max_le. revert to. induction fr as [|a fr IH]; intros [|b to]; simpl; constructor; auto. }
  destruct (list_max _); lia.
Qed.
Lemma height_map_children f e : (forall c, In c (children e) -> height (f c) <= height c) ->
  height (map_children f e) <= height e.
Proof.
  intros H. destruct (is_load e) eqn:Hl.
  - destruct e; try discriminate Hl. simpl map_children. rewrite !height_load. auto.
  - rewrite (height_unfold (map_children f e)), (height_unfold e). apply le_n_S.
    rewrite children_map_children' by auto. rewrite map_map. apply list_max_map_le; auto.
Qed.

Section Edit.
  Context (cb : list expr -> expr -> expr) (Hcb : forall stk e, height (cb stk e) <= height e).
  Lemma walk_edit_fuel n : forall stk e, height e <= n -> walk_edit n cb stk e = walk_edit (height e) cb stk e.
  Proof.
    assert (G : forall n m stk e, height e <= n -> height e <= m -> walk_edit n cb stk e = walk_edit m cb stk e).
    { clear n. induction n as [|n IH]; intros m stk e H1 H2.
      - rewrite height_unfold in H1. lia.
      - destruct m as [|m]; [rewrite height_unfold in H2; lia|]. cbn [walk_edit].
        apply map_children_ext. intros c Hc. apply height_child in Hc. specialize (Hcb stk e).
        apply IH; lia. }
    intros. apply G; auto.
  Qed.
  Lemma Edit_from_unfold stk e :
    Edit_from cb stk e = map_children (Edit_from cb (stk ++ [cb stk e])) (cb stk e).
  Proof.
    unfold Edit_from at 1. rewrite height_unfold. cbn [walk_edit]. apply map_children_ext. intros c Hc.
    unfold Edit_from. apply walk_edit_fuel. apply height_child in Hc. specialize (Hcb stk e).
    rewrite (height_unfold e) in Hcb. lia.
  Qed.
  Lemma Edit_from_height stk e : height (Edit_from cb stk e) <= height e.
  Proof.
    remember (height e) as n eqn:E. revert stk e E. induction n as [n IH] using lt_wf_ind. intros stk e ->.
    rewrite Edit_from_unfold. etransitivity; [|apply (Hcb stk e)].
    apply height_map_children. intros c Hc. eapply IH; eauto.
    apply height_child in Hc. specialize (Hcb stk e). lia.
  Qed.
End Edit.
