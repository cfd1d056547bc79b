(** C100: the types of expressions. *)
From Verif Require Import LRTables LRCert Parse PropComplete.
From Verif Require Import Base BaseProofs Ast ParseFile Walk WalkSpec WalkProofs WalkGen PropWalk PropDictSort RuleSpec RuleProofs Print PropPrint AttrParams PropAttr Scope ScopeSpec ScopeProofs CallLints PropCallLints NotLoaded PropNotLoaded ApiLints PropApiLints Types.
From Coq Require Import Sorted.
Local Open Scope list_scope.

(** ** What is asked for *)
(** A keyword argument of a call *)
Definition is_keyword_of (e : expr) (i : nat) (a : expr) : Prop := (exists c x ls l en k m, e = ECall c x ls l en k m) /\ i <> 0 /\ keyword_argument a.
(** The places that have a type at all: of a keyword argument only those in its value *)
Fixpoint reached (e : expr) (p : place) : Prop :=
  match p with
  | [] => True
  | i :: q => match nth_error (children e) i with Some c => (is_keyword_of e i c -> exists q', q = 1 :: q') /\ reached c q | None => False end
  end.
(** From the inside to the outside, from the left to the right *)
Definition done_before (p q : place) : Prop :=
  (exists i t, p = q ++ i :: t) \/ (exists r i s j t, p = r ++ i :: s /\ q = r ++ j :: t /\ i < j).
(** [b] is the place of the innermost file, function or comprehension around [p] that gives the name a meaning. *)
Definition block_of (f : expr) (p : place) (n : bytes) (b : place) : Prop :=
  (exists i q, p = b ++ i :: q) /\ (exists a, node_at children f b = Some a /\ binds n a) /\
  forall j r i q a, p = b ++ (j :: r) ++ i :: q -> node_at children f (b ++ j :: r) = Some a -> ~ binds n a.
(** The name is a parameter there, and not also a local variable. *)
Definition parameter_at (f : expr) (p : place) (n : bytes) : Prop :=
  exists b c q ps body m k co mu ty, block_of f p n b /\ node_at children f b = Some (EDef c q ps body m k co mu ty) /\
    (exists x, In x ps /\ In n (param_name x)) /\ forall s, In s body -> ~ makes_local n s.
(** At [q] a value of type [t] is assigned to variable [n] of block [b]. *)
Definition assigned_at (ty : place -> option type) (f : expr) (b : place) (n : bytes) (q : place) (t : type) : Prop :=
  exists c i o op br v, node_at children f q = Some (EAssign c (EIdent i) o op br v) /\ reached f q /\ i_name i = n /\ block_of f q n b /\ ty (q ++ [1]) = Some t /\ (op = %"%=" -> t = TString).
(** The last of these before [p] *)
Definition last_assigned (ty : place -> option type) (f : expr) (p : place) (n : bytes) (t : type) : Prop :=
  exists b q, block_of f p n b /\ done_before q p /\ assigned_at ty f b n q t /\ forall q' t', done_before q' p -> assigned_at ty f b n q' t' -> q' = q \/ done_before q' q.
(** Integer literals *)
Definition digit (c : ascii) : Prop := (48 <= bN c <= 57)%N.
Definition hex_digit (c : ascii) : Prop := digit c \/ (65 <= bN c <= 70)%N \/ (97 <= bN c <= 102)%N.
Definition octal_digit (c : ascii) : Prop := (48 <= bN c <= 55)%N.
Definition integer (tok : bytes) : Prop := exists pre ds, tok = pre ++ ds /\ ds <> [] /\
  ((pre = [] /\ Forall digit ds) \/ (In pre [%"0x"; %"0X"] /\ Forall hex_digit ds) \/ (In pre [%"0o"; %"0O"] /\ Forall octal_digit ds)).
(** The type of a node, when [ty] gives the types of the others *)
Inductive has_type (ty : place -> option type) (f : expr) (p : place) : expr -> type -> Prop :=
  | ht_string s : has_type ty f p (EStr s) TString
  | ht_dict c s l en m : has_type ty f p (EDict c s l en m) TDict
  | ht_list c s l en m : has_type ty f p (EList c s l en m) TList
  | ht_int c s tok : integer tok -> has_type ty f p (ELit c s tok) TInt
  | ht_float c s tok : ~ integer tok -> has_type ty f p (ELit c s tok) TFloat
  | ht_dict_comp c l b cl m en : has_type ty f p (EComp c true l b cl m en) TDict
  | ht_list_comp c l b cl m en : has_type ty f p (EComp c false l b cl m en) TList
  | ht_call e n args t : call_to n e args -> In (n, t) [(%"bool", TBool); (%"int", TInt); (%"float", TFloat); (%"str", TString); (%"depset", TDepset); (%"dict", TDict); (%"list", TList)] -> has_type ty f p e t
  | ht_args c d x dot np ls args en k m : ty (p ++ [0; 0]) = Some TCtxActions -> has_type ty f p (ECall c (EDot d x dot np %"args") ls args en k m) TCtxActionsArgs
  | ht_paren c s x en m t : ty (p ++ [0]) = Some t -> has_type ty f p (EParen c s x en m) t
  | ht_bool i : In (i_name i) [%"True"; %"False"] -> has_type ty f p (EIdent i) TBool
  | ht_none i : i_name i = %"None" -> has_type ty f p (EIdent i) TNone
  | ht_ctx i : i_name i = %"ctx" -> parameter_at f p %"ctx" -> has_type ty f p (EIdent i) TCtx
  | ht_var i t : ~ In (i_name i) [%"True"; %"False"; %"None"] -> ~ (i_name i = %"ctx" /\ parameter_at f p %"ctx") -> last_assigned ty f p (i_name i) t -> has_type ty f p (EIdent i) t
  | ht_actions c x dot np : ty (p ++ [0]) = Some TCtx -> has_type ty f p (EDot c x dot np %"actions") TCtxActions
  | ht_compare c x q op br y : In op [%">"; %">="; %"<"; %"<="; %"=="; %"!="; %"in"; %"not in"] -> has_type ty f p (EBinary c x q op br y) TBool
  | ht_left c x q op br y t : In op [%"+"; %"-"; %"*"; %"/"; %"//"; %"%"; %"|"] -> ty (p ++ [0]) = Some t -> has_type ty f p (EBinary c x q op br y) t
  | ht_right c x q op br y t : In op [%"+"; %"-"; %"*"; %"/"; %"//"; %"%"; %"|"] -> ty (p ++ [0]) = None -> ty (p ++ [1]) = Some t -> (op = %"%" -> t = TString) -> has_type ty f p (EBinary c x q op br y) t.
(** [ty] gives every place its type. *)
Definition types_of (f : expr) (ty : place -> option type) : Prop :=
  (forall p e, node_at children f p = Some e -> reached f p -> forall t, ty p = Some t <-> has_type ty f p e t) /\
  (forall p, (node_at children f p = None \/ ~ reached f p) -> ty p = None).

(** ** Proofs *)
Lemma db_nil q : ~ done_before [] q.
Proof. intros [(i & t & E)|(r & i & s & j & t & E & _)]; [destruct q|destruct r]; discriminate E. Qed.
Lemma db_end i p : done_before (i :: p) [].
Proof. left. exists i, p. reflexivity. Qed.
Lemma db_cons i p j q : done_before (i :: p) (j :: q) <-> i < j \/ (i = j /\ done_before p q).
Proof.
  split.
  - intros [(k & t & E)|(r & k & s & l & t & E1 & E2 & L)].
    + injection E as <- ->. right. split; auto. left. eauto.
    + destruct r as [|a r]; cbn in E1, E2; injection E1 as ? ?; injection E2 as ? ?; subst; auto. right. split; auto. right. exists r, k, s, l, t. auto.
  - intros [L|(<- & [(k & t & ->)|(r & k & s & l & t & -> & -> & L)])].
    + right. exists [], i, p, j, q. auto.
    + left. exists k, t. auto.
    + right. exists (i :: r), k, s, l, t. auto.
Qed.
Lemma db_irrefl p : ~ done_before p p.
Proof. induction p as [|i p IH]; [apply db_nil|]. rewrite db_cons. intros [L|[_ L]]; [lia|auto]. Qed.
Lemma db_asym p : forall q, done_before p q -> done_before q p -> False.
Proof.
  induction p as [|i p IH]; intros q A B; [now apply db_nil in A|]. destruct q as [|j q]; [now apply db_nil in B|]. apply db_cons in A, B. destruct A as [A|[-> A]], B as [B|[E B]]; try lia. eauto.
Qed.
Lemma db_app r p q : done_before (r ++ p) (r ++ q) <-> done_before p q.
Proof. induction r as [|i r IH]; [tauto|]. cbn [app]. rewrite db_cons, IH. split; [intros [L|[_ L]]; [lia|auto]|auto]. Qed.
Lemma sorted_app {A} (R : A -> A -> Prop) l l' : StronglySorted R l -> StronglySorted R l' -> (forall x y, In x l -> In y l' -> R x y) -> StronglySorted R (l ++ l').
Proof.
  intros S1 S2 H. induction S1 as [|a l S1 IH F]; [exact S2|]. cbn [app]. constructor; [apply IH; intros; apply H; auto; now right|]. apply Forall_app. split; auto. apply Forall_forall. intros y I. apply H; auto. now left.
Qed.
Lemma sorted_flat {A B} (R : B -> B -> Prop) (g : A -> list B) l : (forall a, In a l -> StronglySorted R (g a)) -> StronglySorted (fun a b => forall x y, In x (g a) -> In y (g b) -> R x y) l -> StronglySorted R (flat_map g l).
Proof.
  intros H S. induction S as [|a l S IH F]; [constructor|]. cbn [flat_map]. apply sorted_app; [apply H; now left|apply IH; intros; apply H; now right|].
  intros x y I J. apply in_flat_map in J as (b & Ib & J). rewrite Forall_forall in F. eapply F; eauto.
Qed.
Lemma sorted_weaken {A} (R R' : A -> A -> Prop) l : (forall x y, In x l -> In y l -> R x y -> R' x y) -> StronglySorted R l -> StronglySorted R' l.
Proof.
  intros H S. induction S as [|a l S IH F]; constructor; [apply IH; intros; apply H; auto; now right|]. rewrite Forall_forall in *. intros y I. apply H; auto; [now left|now right].
Qed.
Lemma sorted_map {A B} (R : B -> B -> Prop) (g : A -> B) l : StronglySorted (fun x y => R (g x) (g y)) l -> StronglySorted R (map g l).
Proof. induction 1 as [|a l S IH F]; cbn [map]; constructor; auto. apply Forall_forall. rewrite Forall_forall in F. intros y I. apply in_map_iff in I as (x & <- & I). auto. Qed.
Lemma map_sorted {A B} (R : B -> B -> Prop) (g : A -> B) l : StronglySorted R (map g l) -> StronglySorted (fun x y => R (g x) (g y)) l.
Proof. induction l as [|a l IH]; intro S; constructor; inversion S as [|? ? S' F]; subst; auto. rewrite Forall_forall in *. intros y I. apply F, in_map, I. Qed.
Lemma number_in {A} (l : list A) : forall k i c, In (i, c) (number_from k l) <-> k <= i /\ nth_error l (i - k) = Some c.
Proof.
  induction l as [|a l IH]; intros k i c; cbn [number_from In].
  - split; [intros []|]. intros [_ H]. destruct (i - k); discriminate H.
  - rewrite IH. split.
    + intros [[= <- <-]|[L N]]; [split; auto; now rewrite PeanoNat.Nat.sub_diag|]. split; [lia|]. replace (i - k) with (S (i - S k)) by lia. exact N.
    + intros [L N]. destruct (PeanoNat.Nat.eq_dec i k) as [->|D]; [rewrite PeanoNat.Nat.sub_diag in N; injection N as <-; auto|]. right. split; [lia|]. replace (i - k) with (S (i - S k)) in N by lia. exact N.
Qed.
Lemma number_zero {A} (l : list A) i c : In (i, c) (number_from 0 l) <-> nth_error l i = Some c.
Proof. rewrite number_in, PeanoNat.Nat.sub_0_r. split; [tauto|]. split; [lia|auto]. Qed.
Lemma number_sorted {A} (l : list A) : forall k, StronglySorted (fun a b => fst a < fst b) (number_from k l).
Proof. induction l as [|a l IH]; intro k; cbn [number_from]; constructor; auto. apply Forall_forall. intros [i c] I. apply number_in in I as [L _]. cbn. lia. Qed.

(** *** All places *)
Lemma places_spec n : forall e p, height e <= n -> (forall q x, In (q, x) (places_from n p e) <-> exists r, q = p ++ r /\ node_at children e r = Some x) /\
  StronglySorted (fun v w => path_before (fst v) (fst w)) (places_from n p e).
Proof.
  induction n as [|n IH]; intros e p L; [rewrite height_unfold in L; lia|]. cbn [places_from].
  assert (Kid : forall ic, In ic (number_from 0 (children e)) -> height (snd ic) <= n).
  { intros [i c] I. apply number_zero, nth_error_In, height_child in I. cbn. lia. }
  assert (Sub : forall q x, In (q, x) (flat_map (fun ic => places_from n (p ++ [fst ic]) (snd ic)) (number_from 0 (children e))) <-> exists i r, q = p ++ i :: r /\ node_at children e (i :: r) = Some x).
  { intros q x. rewrite in_flat_map. split.
    - intros ([i c] & I & J). apply (IH _ _ (Kid _ I)) in J as (r & -> & N). exists i, r. cbn [fst snd] in *. split; [now rewrite <- app_assoc|]. apply number_zero in I. cbn [node_at]. now rewrite I.
    - intros (i & r & -> & N). cbn [node_at] in N. destruct (nth_error (children e) i) as [c|] eqn:E; [|discriminate N]. apply number_zero in E. exists (i, c). split; auto. apply (IH _ _ (Kid _ E)). exists r. cbn [fst snd]. split; auto. now rewrite <- app_assoc. }
  split.
  - intros q x. cbn [In]. rewrite Sub. split.
    + intros [[= <- <-]|(i & r & -> & N)]; [exists []; rewrite app_nil_r; auto|exists (i :: r); auto].
    + intros ([|i r] & -> & N); [left; rewrite app_nil_r; now injection N as ->|right; eauto].
  - constructor.
    + apply sorted_flat; [intros a I; now apply IH, Kid|]. eapply sorted_weaken; [|apply number_sorted]. intros [i c] [j d] I J K [q x] [q' x'] I' J'.
      apply (IH _ _ (Kid _ I)) in I' as (r & -> & _). apply (IH _ _ (Kid _ J)) in J' as (r' & -> & _). cbn [fst] in *. right. exists p, i, r, j, r'. now rewrite <- !app_assoc.
    + apply Forall_forall. intros [q x] I. apply Sub in I as (i & r & -> & _). cbn [fst]. left. eauto.
Qed.
(** *** The visited places *)
Lemma keyword_dec e i c : is_keyword_of e i c \/ ~ is_keyword_of e i c.
Proof.
  destruct e; try (right; intros ((? & ? & ? & ? & ? & ? & ? & E) & _); discriminate E). destruct i as [|i]; [right; intros (_ & N & _); auto|]. destruct c; try (right; intros (_ & _ & (? & ? & ? & ? & ? & ? & E)); discriminate E).
  left. split; [eauto 9|]. split; [auto|]. unfold keyword_argument. eauto 8.
Qed.
Lemma visits_spec e r a c : In (r, a, c) (visits e) <->
  (exists i, r = [i] /\ a = [e] /\ nth_error (children e) i = Some c /\ ~ is_keyword_of e i c) \/
  (exists i k, r = [i; 1] /\ a = [e; k] /\ nth_error (children e) i = Some k /\ is_keyword_of e i k /\ nth_error (children k) 1 = Some c).
Proof.
  unfold visits. rewrite in_map_iff. split.
  - intros ([i k] & E & I). apply number_zero in I. destruct (keyword_dec e i k) as [K|K].
    + right. exists i, k. destruct K as ((c0 & x & ls & l & en & kk & m & Ee) & Z & (c1 & y & o & op & b & v & Ek)). rewrite Ee, Ek in *. destruct i as [|i]; [now elim Z|]. injection E as <- <- <-.
      repeat (apply conj); auto; [eauto 9|]. unfold keyword_argument. eauto 8.
    + left. exists i. assert (E' : ([i], [e], k) = (r, a, c)).
      { destruct e; auto. destruct i as [|i]; auto. destruct k; auto. exfalso. apply K. split; [eauto 9|]. split; [auto|]. unfold keyword_argument. eauto 8. }
      injection E' as <- <- <-. auto.
  - intros [(i & -> & -> & N & K)|(i & k & -> & -> & N & K & N')].
    + exists (i, c). apply number_zero in N. split; auto. destruct e; auto. destruct i as [|i]; auto. destruct c; auto. exfalso. apply K. split; [eauto 9|]. split; [auto|]. unfold keyword_argument. eauto 8.
    + exists (i, k). apply number_zero in N. split; auto. destruct K as ((c0 & x & ls & l & en & kk & m & Ee) & Z & (c1 & y & o & op & b & v & Ek)). rewrite Ee, Ek in *. destruct i as [|i]; [now elim Z|]. injection N' as <-. reflexivity.
Qed.
Lemma visits_sorted e : StronglySorted (fun v w => match v, w with (r, _, _), (r', _, _) => exists i s j s', r = i :: s /\ r' = j :: s' /\ i < j end) (visits e).
Proof.
  unfold visits. apply sorted_map. eapply sorted_weaken; [|apply number_sorted]. intros [i c] [j d] _ _ L. cbn [fst] in L.
  assert (F : forall i c, exists s a x, (match e, (i, c) with ECall _ _ _ _ _ _ _, (S i, EAssign c x p op b v) => ([S i; 1], [e; EAssign c x p op b v], v) | _, (i, c) => ([i], [e], c) end) = (i :: s, a, x)).
  { intros i0 c0. destruct e; eauto 4. destruct i0 as [|i0]; eauto 4. destruct c0; eauto 4. }
  destruct (F i c) as (s & a & x & ->), (F j d) as (s' & a' & x' & ->). exists i, s, j, s'. auto.
Qed.
Notation pl v := (fst (fst v)).
Lemma post_spec n : forall e p stk, height e <= n ->
  (forall q s x, In (q, s, x) (post_from n p stk e) <-> exists r, q = p ++ r /\ node_at children e r = Some x /\ reached e r /\ s = stk ++ above children e r) /\
  StronglySorted (fun v w => done_before (pl v) (pl w)) (post_from n p stk e).
Proof.
  induction n as [|n IH]; intros e p stk L; [rewrite height_unfold in L; lia|].
  set (g := fun v : place * list expr * expr => match v with (r, a, c) => post_from n (p ++ r) (stk ++ a) c end).
  change (post_from (S n) p stk e) with (flat_map g (visits e) ++ [(p, stk, e)]).
  assert (Kid : forall r a c, In (r, a, c) (visits e) -> height c <= n).
  { intros r a c I. apply visits_spec in I as [(i & _ & _ & N & _)|(i & k & _ & _ & N & _ & N')]; apply nth_error_In, height_child in N; [lia|]. apply nth_error_In, height_child in N'. lia. }
  assert (Sub : forall q s x, In (q, s, x) (flat_map g (visits e)) <-> exists i r, q = p ++ i :: r /\ node_at children e (i :: r) = Some x /\ reached e (i :: r) /\ s = stk ++ above children e (i :: r)).
  { intros q s x. rewrite in_flat_map. split.
    - intros ([[r a] c] & I & J). subst g. cbv beta iota in J. apply (IH _ _ _ (Kid _ _ _ I)) in J as (r' & -> & N & Re & ->). apply visits_spec in I as [(i & -> & -> & M & K)|(i & k & -> & -> & M & K & M')].
      + exists i, r'. rewrite <- !app_assoc. cbn [app node_at above reached]. rewrite M. split; auto. split; auto. split; auto. split; auto. intro K'. contradiction.
      + exists i, (1 :: r'). rewrite <- !app_assoc. cbn [app node_at above reached]. rewrite M. cbn [app node_at above reached]. rewrite M'. split; auto. split; auto. split; auto. split; [eauto|]. split; auto.
        intro K'. exfalso. destruct K as (_ & _ & (? & ? & ? & ? & ? & ? & ->)), K' as ((? & ? & ? & ? & ? & ? & ? & E) & _). discriminate E.
    - intros (i & r & -> & N & Re & ->). cbn [node_at above reached] in *. destruct (nth_error (children e) i) as [c|] eqn:M; [|contradiction]. destruct Re as [K Re]. destruct (keyword_dec e i c) as [K'|K'].
      + destruct (K K') as (r' & ->). cbn [node_at above reached] in *. destruct (nth_error (children c) 1) as [d|] eqn:M'; [|contradiction]. destruct Re as [_ Re]. exists ([i; 1], [e; c], d).
        assert (I : In ([i; 1], [e; c], d) (visits e)) by (apply visits_spec; right; exists i, c; auto). split; auto. subst g. cbv beta iota. apply (IH _ _ _ (Kid _ _ _ I)). exists r'. rewrite <- !app_assoc. auto.
      + exists ([i], [e], c). assert (I : In ([i], [e], c) (visits e)) by (apply visits_spec; left; exists i; auto). split; auto. subst g. cbv beta iota. apply (IH _ _ _ (Kid _ _ _ I)). exists r. rewrite <- !app_assoc. auto. }
  split.
  - intros q s x. rewrite in_app_iff, Sub. cbn [In]. split.
    + intros [(i & r & H)|[[= <- <- <-]|[]]]; [eauto|]. exists []. cbn. rewrite !app_nil_r. auto.
    + intros ([|i r] & -> & N & Re & ->); [right; left; cbn in *; rewrite !app_nil_r; now injection N as ->|left; eauto 6].
  - apply sorted_app; [|repeat constructor|].
    + apply sorted_flat; [intros [[r a] c] I; subst g; cbv beta iota; now apply IH, (Kid r a)|]. eapply sorted_weaken; [|apply visits_sorted]. intros [[r a] c] [[r' a'] c'] I J (i & s & j & s' & -> & -> & Lt) [[q t] x] [[q' t'] x'] I' J'.
      subst g. cbv beta iota in I', J'. apply (IH _ _ _ (Kid _ _ _ I)) in I' as (u & -> & _). apply (IH _ _ _ (Kid _ _ _ J)) in J' as (u' & -> & _). cbn [fst]. rewrite <- !app_assoc. apply db_app. cbn [app]. apply db_cons. auto.
    + intros [[q s] x] y I [<- |[]]. apply Sub in I as (i & r & -> & _). cbn [fst]. left. eauto.
Qed.
Lemma post_in f q s x : In (q, s, x) (post f) <-> node_at children f q = Some x /\ reached f q /\ s = above children f q.
Proof.
  unfold post. rewrite (proj1 (post_spec (height f) f [] [] (le_n _))). split; [intros (r & -> & H); exact H|intro H; exists q; auto].
Qed.
Lemma post_sorted f : StronglySorted (fun v w => done_before (pl v) (pl w)) (post f).
Proof. apply (post_spec (height f) f [] [] (le_n _)). Qed.
(** *** Blocks *)
Lemma depth_some stk n d : block_depth stk n = Some d -> (exists a, nth_error stk d = Some a /\ binds n a) /\ forall d' a, d < d' -> nth_error stk d' = Some a -> ~ binds n a.
Proof.
  revert d. assert (Z : forall stk d' a, block_depth stk n = None -> nth_error stk d' = Some a -> ~ binds n a).
  { intros l. induction l as [|b l IH]; intros d' a H N; [destruct d'; discriminate N|]. cbn [block_depth] in H. destruct (block_depth l n); [discriminate H|]. destruct (mem_bytes n (declared b)) eqn:M; [discriminate H|].
    destruct d' as [|d']; [|now apply (IH d' a)]. injection N as ->. intro B. apply declared_spec, mem_bytes_In in B. rewrite B in M. discriminate M. }
  induction stk as [|a stk IH]; intros d H; [discriminate H|]. cbn [block_depth] in H. destruct (block_depth stk n) as [d0|] eqn:E.
  - injection H as <-. destruct (IH d0 eq_refl) as ((b & N & B) & O). split; [eauto|]. intros d' b' L N'. destruct d' as [|d']; [lia|]. apply (O d'); auto. lia.
  - destruct (mem_bytes n (declared a)) eqn:M; [|discriminate H]. injection H as <-. apply mem_bytes_In, declared_spec in M. split; [exists a; auto|]. intros d' b' L N'. destruct d' as [|d']; [lia|]. now apply (Z stk d').
Qed.
Lemma depth_none stk n : block_depth stk n = None -> forall a, In a stk -> ~ binds n a.
Proof.
  induction stk as [|b l IH]; intros H a I; [destruct I|]. cbn [block_depth] in H. destruct (block_depth l n); [discriminate H|]. destruct (mem_bytes n (declared b)) eqn:M; [discriminate H|].
  destruct I as [->|I]; [|now apply IH]. intro B. apply declared_spec, mem_bytes_In in B. rewrite B in M. discriminate M.
Qed.
Lemma depth_spec stk n d : block_depth stk n = Some d <-> (exists a, nth_error stk d = Some a /\ binds n a) /\ forall d' a, d < d' -> nth_error stk d' = Some a -> ~ binds n a.
Proof.
  split; [apply depth_some|]. intros ((a & N & B) & O). destruct (block_depth stk n) as [d0|] eqn:E.
  - apply depth_some in E as ((a0 & N0 & B0) & O0). destruct (PeanoNat.Nat.lt_trichotomy d d0) as [L|[->|L]]; auto; exfalso; [eapply O; eauto|eapply O0; eauto].
  - exfalso. apply (depth_none _ _ E a); auto. eapply nth_error_In; eauto.
Qed.
Lemma above_length f p : node_at children f p <> None -> List.length (above children f p) = List.length p.
Proof. revert f. induction p as [|i p IH]; intros f N; auto. cbn [node_at above length] in *. destruct (nth_error (children f) i) as [e|]; [cbn [length]; change (S (List.length (above children e p)) = S (List.length p)); rewrite (IH e N); reflexivity|now elim N]. Qed.
Lemma above_app f p q : node_at children f p <> None -> above children f (p ++ q) = above children f p ++ match node_at children f p with Some x => above children x q | None => [] end.
Proof. revert f. induction p as [|i p IH]; intros f N; auto. cbn [app node_at above] in *. destruct (nth_error (children f) i); [|now elim N]. rewrite IH by auto. reflexivity. Qed.
Lemma node_app f p q : node_at children f (p ++ q) = match node_at children f p with Some x => node_at children x q | None => None end.
Proof. revert f. induction p as [|i p IH]; intro f; auto. cbn [app node_at]. destruct (nth_error (children f) i); auto. Qed.
Lemma above_nth f p d a : node_at children f p <> None -> (nth_error (above children f p) d = Some a <-> exists i q, p = firstn d p ++ i :: q /\ List.length (firstn d p) = d /\ node_at children f (firstn d p) = Some a).
Proof.
  revert f d. induction p as [|i p IH]; intros f d N.
  - cbn [above]. split; [destruct d; discriminate|]. intros (i & q & E & _). rewrite firstn_nil in E. discriminate E.
  - cbn [node_at above] in *. destruct (nth_error (children f) i) as [c|] eqn:M; [|now elim N]. destruct d as [|d].
    + cbn [nth_error firstn app length node_at]. split; [intros [= ->]; eauto|intros (j & q & _ & _ & E); exact E].
    + cbn [nth_error firstn app length node_at]. rewrite M, (IH c d N). split.
      * intros (j & q & E & L & A). exists j, q. rewrite <- E. split; [reflexivity|]. split; [exact (f_equal S L)|exact A].
      * intros (j & q & E & L & A). injection E as E. exists j, q. split; [exact E|]. split; [exact (eq_add_S _ _ L)|exact A].
Qed.
Lemma above_in f p a : node_at children f p <> None -> (In a (above children f p) <-> exists b i q, p = b ++ i :: q /\ node_at children f b = Some a).
Proof.
  intro N. split.
  - intro I. apply In_nth_error in I as (d & I). apply above_nth in I as (i & q & E & _ & A); auto. eauto.
  - intros (b & i & q & -> & A). assert (N' : node_at children f b <> None) by (rewrite A; discriminate). rewrite above_app by auto. rewrite A. apply in_app_iff. right. now left.
Qed.
Lemma block_depth_spec f p n b : node_at children f p <> None -> (block_of f p n b <-> block_depth (above children f p) n = Some (List.length b) /\ b = firstn (List.length b) p).
Proof.
  intro N. rewrite depth_spec. split.
  - intros ((i & q & ->) & (a & A & B) & O). assert (Fb : firstn (List.length b) (b ++ i :: q) = b) by (rewrite firstn_app, firstn_all, PeanoNat.Nat.sub_diag; cbn [firstn]; apply app_nil_r).
    split; [|auto]. split.
    + exists a. split; auto. apply above_nth; auto. exists i, q. rewrite Fb. auto.
    + intros d' a' L N'. apply above_nth in N' as (j & t & E & L' & A'); auto. rewrite firstn_app, (firstn_all2 b) in E, A' by lia. destruct (d' - List.length b) as [|m] eqn:Em; [lia|]. cbn [firstn] in E, A'. rewrite <- app_assoc in E. exact (O _ _ _ _ a' E A').
  - intros (((a & Na & B) & O) & Eb). apply above_nth in Na as (i & q & E & L & A); auto. rewrite <- Eb in E, A. split; [eauto|]. split; [eauto|].
    intros j r k t a' E' A'. apply (O (List.length (b ++ j :: r))); [rewrite app_length; change (List.length (j :: r)) with (S (List.length r)); lia|]. apply above_nth; auto.
    assert (Fr : firstn (List.length (b ++ j :: r)) p = b ++ j :: r) by (rewrite E', app_assoc; rewrite firstn_app, firstn_all, PeanoNat.Nat.sub_diag; cbn [firstn]; apply app_nil_r).
    exists k, t. rewrite Fr, <- app_assoc. auto.
Qed.
Lemma variable_spec f p n x : node_at children f p <> None -> (variable p (above children f p) n = Some x <-> exists b, block_of f p n b /\ x = (b, n)).
Proof.
  intro N. unfold variable. split.
  - destruct (block_depth (above children f p) n) as [d|] eqn:E; [|discriminate]. intros [= <-]. exists (firstn d p). split; auto. apply block_depth_spec; auto.
    assert (L : List.length (firstn d p) = d); [|rewrite L; auto]. apply depth_some in E as ((a & Na & _) & _). apply above_nth in Na as (i & q & _ & L & _); auto.
  - intros (b & Bl & ->). apply block_depth_spec in Bl as (-> & E); auto. cbn [option_map]. now rewrite <- E.
Qed.
Lemma parameter_spec f p n : node_at children f p <> None -> (is_parameter (above children f p) n = true <-> parameter_at f p n).
Proof.
  intro N. unfold is_parameter, parameter_at. split.
  - destruct (block_depth (above children f p) n) as [d|] eqn:E; [|discriminate]. destruct (nth_error (above children f p) d) as [a|] eqn:Na; [|discriminate]. destruct a; try discriminate. intro H. apply Bool.andb_true_iff in H as (M & No).
    apply mem_bytes_In, param_spec in M. apply above_nth in Na as (i & q & Ep & L & A); auto. eexists (firstn d p), _, _, _, _, _, _, _, _, _. split; [|split; [exact A|]].
    + apply block_depth_spec; auto. rewrite L. auto.
    + split; auto. intros s I B. apply Bool.negb_true_iff in No. assert (X : mem_bytes n (flat_map declareLocalVariables body) = true); [|rewrite X in No; discriminate No]. apply mem_bytes_In, in_flat_map. exists s. split; auto. now apply local_spec.
  - intros (b & c & q & ps & body & m & k & co & mu & ty & Bl & A & Pa & Lo). pose proof Bl as ((i & t & Ep) & _). apply block_depth_spec in Bl as (-> & E); auto.
    assert (Na : nth_error (above children f p) (List.length b) = Some (EDef c q ps body m k co mu ty)).
    { apply above_nth; auto. rewrite <- E. eauto. }
    rewrite Na. apply Bool.andb_true_iff. split; [now apply mem_bytes_In, param_spec|]. apply Bool.negb_true_iff. destruct (mem_bytes n (flat_map declareLocalVariables body)) eqn:M; auto. apply mem_bytes_In, in_flat_map in M as (s & I & B). apply local_spec in B. now apply Lo in B.
Qed.
(** *** The loop *)
Definition run (l : list (place * list expr * expr)) : results * variables := fold_left type_step l ([], []).
Lemma run_snoc l v : run (l ++ [v]) = type_step (run l) v.
Proof. unfold run. now rewrite fold_left_app. Qed.
Lemma result_cons p t R q : result ((p, t) :: R) q = if place_dec p q then Some t else result R q.
Proof. unfold result. cbn [find fst]. destruct (place_dec p q); reflexivity. Qed.
Lemma run_places l q : result (fst (run l)) q <> None -> In q (map (fun v => pl v) l).
Proof.
  induction l as [|[[p s] e] l IH] using rev_ind; [now intros []|]. rewrite run_snoc, map_app, in_app_iff. cbn [type_step fst snd map In]. destruct (node_type _ _ p s e); [|auto]. rewrite result_cons. destruct (place_dec p q); auto.
Qed.
Lemma run_later l l' q : ~ In q (map (fun v => pl v) l') -> result (fst (run (l ++ l'))) q = result (fst (run l)) q.
Proof.
  induction l' as [|[[p s] e] l' IH] using rev_ind; intro N; [now rewrite app_nil_r|]. rewrite app_assoc, run_snoc. rewrite map_app, in_app_iff in N. cbn [type_step fst snd map In] in *.
  assert (N' : p <> q) by tauto. destruct (node_type _ _ p s e); [rewrite result_cons; destruct (place_dec p q); [contradiction|]|]; apply IH; tauto.
Qed.
Section Run.
  Context (L : list (place * list expr * expr)) (So : StronglySorted (fun v w => done_before (pl v) (pl w)) L).
  Notation final := (fst (run L)).
  Lemma split_sorted l1 v l2 : L = l1 ++ v :: l2 -> (forall w, In w l1 -> done_before (pl w) (pl v)) /\ (forall w, In w l2 -> done_before (pl v) (pl w)).
  Proof.
    intros ->. clear - So. induction l1 as [|a l1 IH]; cbn [app] in So; inversion So as [|? ? S' F]; subst.
    - rewrite Forall_forall in F. split; [intros w []|auto].
    - destruct (IH S') as (A & B). rewrite Forall_forall in F. split; auto. intros w [<-|I]; auto. apply F, in_app_iff. right. now left.
  Qed.
  Lemma run_before l1 v l2 q : L = l1 ++ v :: l2 -> done_before q (pl v) -> result (fst (run l1)) q = result final q.
  Proof.
    intros E D. destruct (split_sorted _ _ _ E) as (_ & B). rewrite E. symmetry. apply run_later. cbn [map In]. intros [<-|I]; [now apply db_irrefl in D|]. apply in_map_iff in I as (w & <- & I). apply (db_asym _ _ D). auto.
  Qed.
  Lemma run_own l1 p s e l2 : L = l1 ++ (p, s, e) :: l2 -> result final p = node_type (fst (run l1)) (snd (run l1)) p s e.
  Proof.
    intro E. destruct (split_sorted _ _ _ E) as (A & B). rewrite E. change ((p, s, e) :: l2) with ([(p, s, e)] ++ l2). rewrite app_assoc, run_later.
    - rewrite run_snoc. cbn [type_step fst snd]. destruct (node_type _ _ p s e); [rewrite result_cons; destruct (place_dec p p); auto; contradiction|].
      destruct (result (fst (run l1)) p) eqn:R; auto. exfalso. assert (I : In p (map (fun v => pl v) l1)) by (apply run_places; rewrite R; discriminate). apply in_map_iff in I as (w & Ew & I). apply A in I. rewrite Ew in I. now apply db_irrefl in I.
    - intro I. apply in_map_iff in I as (w & Ew & I). apply B in I. cbn [fst] in I. rewrite Ew in I. now apply db_irrefl in I.
  Qed.
End Run.
Lemma below p i t : done_before (p ++ i :: t) p. Proof. left. eauto. Qed.
Lemma node_type_ext R R' V p s e : (forall i t, result R (p ++ i :: t) = result R' (p ++ i :: t)) -> node_type R V p s e = node_type R' V p s e.
Proof. intro H. unfold node_type. rewrite !H. reflexivity. Qed.
Lemma assigns_ext R R' p s e : (forall i t, result R (p ++ i :: t) = result R' (p ++ i :: t)) -> assigns_type R p s e = assigns_type R' p s e.
Proof. intro H. unfold assigns_type. rewrite !H. reflexivity. Qed.
Definition given (R : results) (v : place * list expr * expr) : list ((place * bytes) * type) := match assigns_type R (pl v) (snd (fst v)) (snd v) with Some a => [a] | None => [] end.
Lemma run_variables L : StronglySorted (fun v w => done_before (pl v) (pl w)) L -> forall l1 l2, L = l1 ++ l2 -> snd (run l1) = rev (flat_map (given (fst (run L))) l1).
Proof.
  intro So. induction l1 as [|[[p s] e] l1 IH] using rev_ind; intros l2 E; auto. rewrite <- app_assoc in E. cbn [app] in E. rewrite run_snoc, flat_map_app, rev_app_distr, <- (IH _ E). cbn [type_step fst snd flat_map]. rewrite app_nil_r. unfold given. cbn [fst snd].
  rewrite (assigns_ext (fst (run l1)) (fst (run L))); [destruct (assigns_type _ p s e); reflexivity|]. intros i t. apply (run_before L So l1 (p, s, e) l2); auto. cbn [fst]. apply below.
Qed.
Lemma var_is_spec x y : var_is x y = true <-> x = y.
Proof.
  unfold var_is. destruct x as [p n], y as [q m]. cbn [fst snd]. rewrite Bool.andb_true_iff, beq_eq. destruct (place_dec p q); split.
  - intros [_ ->]. now subst.
  - intros [= -> ->]. auto.
  - intros [H _]. discriminate H.
  - intros [= -> ->]. contradiction.
Qed.
Lemma value_last {A} (h : A -> list ((place * bytes) * type)) (Hh : forall w, List.length (h w) <= 1) l x t :
  value_of (rev (flat_map h l)) x = Some t <-> exists l1 w l2, l = l1 ++ w :: l2 /\ h w = [(x, t)] /\ forall w' t', In w' l2 -> h w' <> [(x, t')].
Proof.
  induction l as [|a l IH] using rev_ind.
  - split; [discriminate|]. intros ([|? ?] & w & l2 & E & _); discriminate E.
  - rewrite flat_map_app, rev_app_distr. cbn [flat_map]. rewrite app_nil_r. specialize (Hh a).
    assert (Skip : (forall t', h a <> [(x, t')]) -> (exists l1 w l2, l = l1 ++ w :: l2 /\ h w = [(x, t)] /\ forall w' t', In w' l2 -> h w' <> [(x, t')]) <-> exists l1 w l2, l ++ [a] = l1 ++ w :: l2 /\ h w = [(x, t)] /\ forall w' t', In w' l2 -> h w' <> [(x, t')]).
    { intro Na. split.
      - intros (l1 & w & l2 & -> & Hw & No). exists l1, w, (l2 ++ [a]). rewrite <- app_assoc. split; auto. split; auto. intros w' t' I. apply in_app_iff in I as [I|[<-|[]]]; auto.
      - intros (l1 & w & l2 & E & Hw & No). destruct l2 as [|b l2 _] using rev_ind.
        + apply app_inj_tail in E as [_ ->]. now apply Na in Hw.
        + rewrite app_comm_cons, app_assoc in E. apply app_inj_tail in E as [-> ->]. exists l1, w, l2. split; auto. split; auto. intros w' t' I. apply No, in_app_iff. auto. }
    destruct (h a) as [|[y u] [|? ?]] eqn:Ea; [| |cbn in Hh; lia].
    + cbn [rev app]. rewrite IH. apply Skip. intros t'. discriminate.
    + cbn [rev app]. unfold value_of. cbn [find fst]. destruct (var_is y x) eqn:Ev.
      * apply var_is_spec in Ev. subst y. cbn [option_map snd]. split.
        -- intros [= ->]. exists l, a, []. split; [reflexivity|split; [exact Ea|intros w' t' []]].
        -- intros (l1 & w & l2 & E & Hw & No). destruct l2 as [|b l2 _] using rev_ind.
           ++ apply app_inj_tail in E as [_ <-]. rewrite Ea in Hw. injection Hw as ->. reflexivity.
           ++ rewrite app_comm_cons, app_assoc in E. apply app_inj_tail in E as [_ ->]. exfalso. apply (No b u); [apply in_app_iff; right; now left|exact Ea].
      * change (value_of (rev (flat_map h l)) x = Some t <-> exists l1 w l2, l ++ [a] = l1 ++ w :: l2 /\ h w = [(x, t)] /\ forall w' t', In w' l2 -> h w' <> [(x, t')]). rewrite IH. apply Skip. intros t' [= -> ->]. assert (X : var_is x x = true) by now apply var_is_spec. rewrite X in Ev. discriminate Ev.
Qed.
Lemma db_trans p : forall q r, done_before p q -> done_before q r -> done_before p r.
Proof.
  induction p as [|i p IH]; intros q r A B; [now apply db_nil in A|]. destruct q as [|j q]; [now apply db_nil in B|]. destruct r as [|k r]; [apply db_end|].
  apply db_cons in A, B. apply db_cons. destruct A as [A|[-> A]], B as [B|[-> B]]; try (left; lia). right. split; auto. eauto.
Qed.
Lemma int_spec tok : int_token tok = true <-> integer tok.
Proof.
  assert (R : forall lo hi c, in_range lo hi c = true <-> (bN lo <= bN c <= bN hi)%N) by (intros; unfold in_range; rewrite Bool.andb_true_iff, !N.leb_le; tauto).
  assert (D : forall c, is_digit_ c = true <-> digit c) by (intro c; apply R).
  assert (H : forall c, is_hex c = true <-> hex_digit c) by (intro c; unfold is_hex, hex_digit; rewrite !Bool.orb_true_iff, D, !R; cbv [bN N_of_ascii N_of_digits N.add N.mul]; tauto).
  assert (O : forall c, is_octal c = true <-> octal_digit c) by (intro c; apply R).
  assert (A : forall (f : ascii -> bool) (P : ascii -> Prop) s, (forall c, f c = true <-> P c) -> all_of f s = true <-> s <> [] /\ Forall P s).
  { intros f P s E. unfold all_of. destruct s as [|a s]; [split; [discriminate|intros [N _]; now elim N]|]. rewrite forallb_forall, Forall_forall. split; [intro X; split; [discriminate|intros x I; apply E, X, I]|intros [_ X] x I; apply E, X, I]. }
  unfold int_token. rewrite !Bool.orb_true_iff, !Bool.andb_true_iff, !Bool.orb_true_iff, !has_prefix_spec, (A _ _ _ D), (A _ _ _ H), (A _ _ _ O). split.
  - intros [[[N F]|[[(s & ->)|(s & ->)] [N F]]]|[[(s & ->)|(s & ->)] [N F]]].
    + exists [], tok. auto.
    + exists %"0x", s. cbn [skipn app] in *. split; auto. split; auto. right. left. split; auto. now left.
    + exists %"0X", s. cbn [skipn app] in *. split; auto. split; auto. right. left. split; auto. right. now left.
    + exists %"0o", s. cbn [skipn app] in *. split; auto. split; auto. right. right. split; auto. now left.
    + exists %"0O", s. cbn [skipn app] in *. split; auto. split; auto. right. right. split; auto. right. now left.
  - intros (pre & ds & -> & N & [[-> F]|[[[<-|[<-|[]]] F]|[[<-|[<-|[]]] F]]]).
    + left. left. auto.
    + left. right. split; [left; eauto|auto].
    + left. right. split; [right; eauto|auto].
    + right. split; [left; eauto|auto].
    + right. split; [right; eauto|auto].
Qed.
Lemma is_type_spec o t : is_type o t = true <-> o = Some t.
Proof. unfold is_type. destruct o as [u|]; [|split; discriminate]. destruct (type_dec u t) as [->|N]; split; intro H; auto; [discriminate H|]. now injection H as ->. Qed.
Notation final f := (fst (run (post f))).
Lemma given_spec f q s e b n t : In (q, s, e) (post f) -> (given (final f) (q, s, e) = [((b, n), t)] <-> assigned_at (result (final f)) f b n q t).
Proof.
  intro I. apply post_in in I as (N & Re & ->). assert (N' : node_at children f q <> None) by (rewrite N; discriminate).
  unfold given. cbn [fst snd]. split.
  - destruct (assigns_type (final f) q (above children f q) e) as [x|] eqn:E; [|discriminate]. intros [= ->]. unfold assigns_type in E. destruct e; try discriminate E.
    match type of E with match ?x with _ => _ end = _ => destruct x; try discriminate E end. destruct (result (final f) (q ++ [1])) as [u|] eqn:T; [|discriminate E].
    match type of E with (if ?x then _ else _) = _ => destruct x eqn:Op; [discriminate E|] end.
    match type of E with option_map _ ?x = _ => destruct x as [v|] eqn:V; [|discriminate E] end. cbn [option_map] in E. injection E as -> ->. apply variable_spec in V as (b' & Bl & [= -> ->]); auto.
    unfold assigned_at. do 6 eexists. split; [exact N|]. split; [exact Re|]. split; [reflexivity|]. split; [exact Bl|]. split; [exact T|]. intros ->. rewrite beq_refl in Op. cbn [andb] in Op. apply Bool.negb_false_iff, is_type_spec in Op. now injection Op as ->.
  - intros (c & i & o & op & br & v & N2 & _ & <- & Bl & T & Op). rewrite N2 in N. injection N as <-. unfold assigns_type. rewrite T. assert (V : variable q (above children f q) (i_name i) = Some (b, i_name i)) by (apply variable_spec; eauto).
    rewrite V. destruct (beq op %"%=") eqn:Eo; cbn [andb option_map]; [|reflexivity]. apply beq_eq in Eo. rewrite (Op Eo). reflexivity.
Qed.
Lemma in_before f l1 p s e l2 q t x : post f = l1 ++ (p, s, e) :: l2 -> In (q, t, x) (post f) -> done_before q p -> In (q, t, x) l1.
Proof.
  intros E I D. destruct (split_sorted _ (post_sorted f) _ _ _ E) as (_ & B). rewrite E in I. apply in_app_iff in I as [I|[[= -> -> ->]|I]]; auto; exfalso; [now apply db_irrefl in D|]. apply B in I. cbn [fst] in I. eapply db_asym; eauto.
Qed.
Lemma value_spec f l1 p s e l2 n b t : post f = l1 ++ (p, s, e) :: l2 ->
  value_of (snd (run l1)) (b, n) = Some t <-> exists q, done_before q p /\ assigned_at (result (final f)) f b n q t /\ forall q' t', done_before q' p -> assigned_at (result (final f)) f b n q' t' -> q' = q \/ done_before q' q.
Proof.
  intro E. rewrite (run_variables _ (post_sorted f) _ _ E), value_last.
  2:{ intro w. unfold given. destruct (assigns_type _ _ _ _); cbn [List.length]; lia. }
  assert (Part : forall w, In w l1 -> In w (post f)) by (intros w I; rewrite E; apply in_app_iff; auto).
  destruct (split_sorted _ (post_sorted f) _ _ _ E) as (Bef & _). split.
  - intros (k1 & [[q s'] x] & k2 & Ek & G & No). exists q. assert (Iq : In (q, s', x) l1) by (rewrite Ek; apply in_app_iff; right; now left). split; [now apply (Bef _ Iq)|]. split; [apply (given_spec f q s' x); auto|].
    intros q' t' D As. pose proof As as (c & i & o & op & br & v & N & Re & _). assert (I : In (q', above children f q', EAssign c (EIdent i) o op br v) (post f)) by (apply post_in; auto).
    pose proof (in_before _ _ _ _ _ _ _ _ _ E I D) as I1. apply (given_spec f q' _ _ b n t' I) in As. rewrite Ek in I1, E. apply in_app_iff in I1 as [I1|[[= -> -> ->]|I1]]; [|auto|now apply No in As].
    right. rewrite <- app_assoc in E. cbn [app] in E. destruct (split_sorted _ (post_sorted f) _ _ _ E) as (B2 & _). now apply B2 in I1.
  - intros (q & D & As & La). pose proof As as (c & i & o & op & br & v & N & Re & _). assert (I : In (q, above children f q, EAssign c (EIdent i) o op br v) (post f)) by (apply post_in; auto).
    pose proof (in_before _ _ _ _ _ _ _ _ _ E I D) as I1. apply in_split in I1 as (k1 & k2 & Ek). exists k1, (q, above children f q, EAssign c (EIdent i) o op br v), k2. split; auto. split; [now apply (given_spec f)|].
    intros [[q' s'] x'] t' I' G. assert (I2 : In (q', s', x') l1) by (rewrite Ek; apply in_app_iff; right; now right). apply (given_spec f q' s' x') in G; auto. pose proof (Bef _ I2) as D'. cbn [fst] in D'.
    rewrite Ek, <- app_assoc in E. cbn [app] in E. destruct (split_sorted _ (post_sorted f) _ _ _ E) as (_ & B2). specialize (B2 (q', s', x')). cbn [fst] in B2.
    assert (X : done_before q q') by (apply B2, in_app_iff; auto). destruct (La q' t' D' G) as [->|Y]; [now apply db_irrefl in X|eapply db_asym; eauto].
Qed.
Lemma lookup_in {A} k (l : list (bytes * A)) v : NoDup (map fst l) -> (lookup k l = Some v <-> In (k, v) l).
Proof.
  induction l as [|[k' v'] l IH]; intro Nd; cbn [lookup In]; [split; [discriminate|intros []]|]. inversion Nd as [|? ? Ni Nd']; subst. destruct (beq k k') eqn:B.
  - apply beq_eq in B. subst k'. split; [intros [= ->]; auto|]. intros [[= ->]|I]; auto. elim Ni. change k with (fst (k, v)). now apply in_map.
  - rewrite IH by auto. split; auto. intros [[= -> _]|I]; auto. rewrite beq_refl in B. discriminate B.
Qed.
Lemma has_type_below ty ty' f p e t : (forall q, done_before q p -> ty q = ty' q) -> has_type ty f p e t -> has_type ty' f p e t.
Proof.
  intros H T. destruct T; try (econstructor; eauto; fail).
  - apply ht_args. rewrite <- H; [assumption|apply below].
  - apply ht_paren. rewrite <- H; [assumption|apply below].
  - match goal with L : last_assigned _ _ _ _ _ |- _ => destruct L as (b & q & Bl & D & As & La) end.
    assert (Eq : forall q t, done_before q p -> assigned_at ty f b (i_name i) q t <-> assigned_at ty' f b (i_name i) q t).
    { intros q0 t0 D0. unfold assigned_at. assert (X : done_before (q0 ++ [1]) p) by (eapply db_trans; [apply below|exact D0]). rewrite (H _ X). reflexivity. }
    apply ht_var; auto. exists b, q. split; auto. split; auto. split; [now apply Eq|]. intros q' t' D' A'. apply (La q' t'); auto. now apply Eq.
  - apply ht_actions. rewrite <- H; [assumption|apply below].
  - apply ht_left; [assumption|]. rewrite <- H; [assumption|apply below].
  - apply ht_right; [assumption| | |assumption]; rewrite <- H; try assumption; apply below.
Qed.
Lemma node_type_spec R V f p e t : node_at children f p = Some e ->
  (forall n b u, value_of V (b, n) = Some u <-> exists q, done_before q p /\ assigned_at (result R) f b n q u /\ forall q' t', done_before q' p -> assigned_at (result R) f b n q' t' -> q' = q \/ done_before q' q) ->
  node_type R V p (above children f p) e = Some t <-> has_type (result R) f p e t.
Proof.
  intros N HV. assert (N' : node_at children f p <> None) by (rewrite N; discriminate).
  assert (Hvar : forall n, (match variable p (above children f p) n with Some x => value_of V x | None => None end) = Some t <-> last_assigned (result R) f p n t).
  { intro n. split.
    - destruct (variable p (above children f p) n) as [x|] eqn:E; [|discriminate]. apply variable_spec in E as (b & Bl & ->); auto. intro H. apply HV in H as (q & D & A & La). exists b, q. auto.
    - intros (b & q & Bl & D & A & La). assert (E : variable p (above children f p) n = Some (b, n)) by (apply variable_spec; eauto). rewrite E. apply HV. eauto. }
  split.
  - destruct e; cbn [node_type]; try discriminate.
    + destruct (beq (i_name i) %"True" || beq (i_name i) %"False") eqn:B1.
      { intros [= <-]. apply ht_bool. apply Bool.orb_true_iff in B1 as [B1|B1]; apply beq_eq in B1; rewrite B1; [now left|right; now left]. }
      apply Bool.orb_false_iff in B1 as [B1 B2]. destruct (beq (i_name i) %"None") eqn:B3; [intros [= <-]; apply beq_eq in B3; now apply ht_none|].
      destruct (beq (i_name i) %"ctx" && is_parameter (above children f p) (i_name i)) eqn:B4.
      { intros [= <-]. apply Bool.andb_true_iff in B4 as [B4 B5]. apply beq_eq in B4. rewrite B4 in B5. apply parameter_spec in B5; auto. now apply ht_ctx. }
      intro H. apply Hvar in H. apply ht_var; auto.
      * intros [K|[K|[K|[]]]]; rewrite <- K, beq_refl in *; discriminate.
      * intros [K Pa]. rewrite K, beq_refl in B4. apply parameter_spec in Pa; auto. rewrite Pa in B4. discriminate B4.
    + destruct (int_token tok) eqn:E; intros [= <-]; [apply ht_int; now apply int_spec|]. apply ht_float. intro K. apply int_spec in K. rewrite K in E. discriminate E.
    + intros [= <-]. constructor.
    + destruct e; try discriminate.
      * intro H. eapply ht_call; [do 6 eexists; split; [reflexivity|reflexivity]|]. apply lookup_in; [|exact H]. repeat constructor; cbn; intuition discriminate.
      * match goal with |- (if is_type ?r _ && beq ?n _ then _ else _) = _ -> _ => destruct (is_type r TCtxActions) eqn:E1; [|discriminate]; destruct (beq n %"args") eqn:E2; [|discriminate] end.
        intros [= <-]. apply is_type_spec in E1. apply beq_eq in E2. rewrite E2. now apply ht_args.
    + match goal with |- (if is_type ?r _ && beq ?n _ then _ else _) = _ -> _ => destruct (is_type r TCtx) eqn:E1; [|discriminate]; destruct (beq n %"actions") eqn:E2; [|discriminate] end.
      intros [= <-]. apply is_type_spec in E1. apply beq_eq in E2. rewrite E2. now apply ht_actions.
    + intros [= <-]. destruct curly; constructor.
    + intros [= <-]. constructor.
    + intros [= <-]. constructor.
    + destruct (mem_bytes op comparisons) eqn:M1; [intros [= <-]; apply ht_compare; now apply mem_bytes_In|]. destruct (mem_bytes op same_type_operators) eqn:M2; [|discriminate]. apply mem_bytes_In in M2.
      destruct (result R (p ++ [0])) as [u|] eqn:E0; [intros [= <-]; now apply ht_left|]. destruct (result R (p ++ [1])) as [u|] eqn:E1; [|discriminate].
      destruct (negb (beq op %"%") || is_type (Some u) TString) eqn:O; [|discriminate]. intros [= <-]. apply ht_right; auto. intros ->. rewrite beq_refl in O. cbn [negb orb] in O. apply is_type_spec in O. now injection O.
    + intro H. now apply ht_paren.
  - intro T. destruct T; cbn [node_type]; try reflexivity.
    + assert (E : int_token tok = true) by now apply int_spec. rewrite E. reflexivity.
    + destruct (int_token tok) eqn:E; [|reflexivity]. apply int_spec in E. contradiction.
    + match goal with C : call_to _ _ _ |- _ => destruct C as (c & i & ls & en & k & m & -> & <-) end. cbn [node_type]. apply lookup_in; auto. repeat constructor; cbn; intuition discriminate.
    + match goal with E : result R _ = _ |- _ => rewrite E end. reflexivity.
    + assumption.
    + match goal with K : In _ _ |- _ => destruct K as [K|[K|[]]]; rewrite <- K; reflexivity end.
    + match goal with K : i_name i = _ |- _ => rewrite K; reflexivity end.
    + match goal with K : i_name i = _, P : parameter_at _ _ _ |- _ => rewrite K; apply parameter_spec in P; auto; rewrite P; reflexivity end.
    + match goal with K : ~ In _ _, P : ~ (_ /\ _), L : last_assigned _ _ _ _ _ |- _ => rename K into Kn; rename P into Pn; rename L into La end.
      destruct (beq (i_name i) %"True" || beq (i_name i) %"False") eqn:B1; [elim Kn; apply Bool.orb_true_iff in B1 as [B1|B1]; apply beq_eq in B1; rewrite B1; cbn; auto|].
      destruct (beq (i_name i) %"None") eqn:B3; [elim Kn; apply beq_eq in B3; rewrite B3; cbn; auto|].
      destruct (beq (i_name i) %"ctx" && is_parameter (above children f p) (i_name i)) eqn:B4; [|now apply Hvar].
      elim Pn. apply Bool.andb_true_iff in B4 as [B4 B5]. apply beq_eq in B4. split; auto. rewrite B4 in B5. now apply parameter_spec.
    + match goal with E : result R _ = _ |- _ => rewrite E end. reflexivity.
    + match goal with K : In _ _ |- _ => apply mem_bytes_In in K; unfold comparisons; rewrite K end. reflexivity.
    + match goal with K : In op _, E : result R _ = _ |- _ => rewrite E; unfold same_type_operators; pose proof K as K2; apply mem_bytes_In in K2; rewrite K2 end.
      assert (C : mem_bytes op comparisons = false); [|rewrite C; reflexivity]. match goal with K : In op _ |- _ => repeat (destruct K as [K|K]; [rewrite <- K; reflexivity|]); destruct K end.
    + match goal with K : In op _, E : result R (p ++ [0]) = _, E1 : result R (p ++ [1]) = _ |- _ => rewrite E, E1; unfold same_type_operators; pose proof K as K2; apply mem_bytes_In in K2; rewrite K2 end.
      assert (C : mem_bytes op comparisons = false); [|rewrite C]. { match goal with K : In op _ |- _ => repeat (destruct K as [K|K]; [rewrite <- K; reflexivity|]); destruct K end. }
      destruct (beq op %"%") eqn:B; [|reflexivity]. apply beq_eq in B. match goal with K : op = _ -> _ |- _ => rewrite (K B) end. reflexivity.
Qed.
Theorem C100_types : forall f, types_of f (result (DetectTypes f)).
Proof.
  intro f. change (DetectTypes f) with (final f). split.
  - intros p e N Re t. assert (I : In (p, above children f p, e) (post f)) by (apply post_in; auto). apply in_split in I as (l1 & l2 & E). rewrite (run_own _ (post_sorted f) _ _ _ _ _ E).
    assert (X : node_type (fst (run l1)) (snd (run l1)) p (above children f p) e = node_type (final f) (snd (run l1)) p (above children f p) e).
    { apply node_type_ext. intros i q. apply (run_before _ (post_sorted f) _ _ _ _ E). apply below. }
    rewrite X. apply node_type_spec; auto. intros n b u. eapply value_spec; eauto.
  - intros p H. destruct (result (final f) p) as [t|] eqn:E; auto. exfalso. assert (I : In p (map (fun v => pl v) (post f))) by (apply run_places; rewrite E; discriminate).
    apply in_map_iff in I as ([[q s] e] & <- & I). apply post_in in I as (N & Re & _). cbn [fst] in H. destruct H as [H|H]; [rewrite N in H; discriminate H|contradiction].
Qed.
Print Assumptions C100_types.
Theorem C100_unique : forall f ty ty', types_of f ty -> types_of f ty' -> forall p, ty p = ty' p.
Proof.
  intros f ty ty' (A & Z) (A' & Z').
  assert (G : forall l1 l2, post f = l1 ++ l2 -> forall v, In v l1 -> ty (pl v) = ty' (pl v)).
  { induction l1 as [|[[p s] e] l1 IH] using rev_ind; intros l2 E v I; [destruct I|]. rewrite <- app_assoc in E. cbn [app] in E. apply in_app_iff in I as [I|[<-|[]]]; [eauto|]. cbn [fst].
    assert (I : In (p, s, e) (post f)) by (rewrite E; apply in_app_iff; right; now left). apply post_in in I as (N & Re & ->).
    assert (B : forall q, done_before q p -> ty q = ty' q).
    { intros q D. destruct (in_dec place_dec q (map (fun v => pl v) (post f))) as [K|K].
      - apply in_map_iff in K as ([[q0 s'] x] & <- & K). cbn [fst] in *. apply (IH _ E (q0, s', x)). eapply in_before; eauto.
      - assert (U : node_at children f q = None \/ ~ reached f q).
        { destruct (node_at children f q) as [x|] eqn:Nq; auto. right. intro Rq. apply K. apply in_map_iff. exists (q, above children f q, x). split; auto. apply post_in. auto. }
        now rewrite (Z q U), (Z' q U). }
    destruct (ty p) as [t|] eqn:T.
    - apply (A p e N Re) in T. symmetry. apply (A' p e N Re). eapply has_type_below; eauto.
    - destruct (ty' p) as [t|] eqn:T'; auto. apply (A' p e N Re) in T'. apply (has_type_below ty' ty) in T'; [|intros q D; symmetry; auto]. apply (A p e N Re) in T'. rewrite T' in T. discriminate T. }
  intro p. destruct (in_dec place_dec p (map (fun v => pl v) (post f))) as [K|K].
  - apply in_map_iff in K as (v & <- & K). apply (G (post f) []); auto. now rewrite app_nil_r.
  - assert (U : node_at children f p = None \/ ~ reached f p).
    { destruct (node_at children f p) as [x|] eqn:Nq; auto. right. intro Rq. apply K. apply in_map_iff. exists (p, above children f p, x). split; auto. apply post_in. auto. }
    now rewrite (Z p U), (Z' p U).
Qed.
Print Assumptions C100_unique.
