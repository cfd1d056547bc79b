From Verif Require Import Base BaseProofs Ast Attach AttachSpec.

Lemma skipn_add {A} a b : forall l : list A, skipn b (skipn a l) = skipn (a + b) l.
Proof. induction a as [|a IH]; intros [|x l]; cbn [skipn Nat.add]; auto. destruct b; auto. Qed.
(** ** Trees of nodes *)
Section RoseInd.
  Variable P : rose -> Prop.
  Hypothesis H : forall s e b c k, Forall P k -> P (Rose s e b c k).
  Fixpoint rose_ind' (r : rose) : P r :=
    match r with
    | Rose s e b c k => H s e b c k ((fix go (l : list rose) : Forall P l :=
        match l with [] => Forall_nil P | x :: l' => Forall_cons x (rose_ind' x) (go l') end) k)
    end.
End RoseInd.
Lemma preorder_length r : List.length (preorder r) = size r.
Proof.
  induction r as [s e b c k IH] using rose_ind'. cbn [preorder size kids List.length]. f_equal.
  induction IH as [|x l E _ IHl]; auto. cbn [flat_map map]. rewrite app_length, E, IHl. reflexivity.
Qed.
Fixpoint posts (n : nat) (l : list rose) : list nat :=
  match l with [] => [] | x :: l' => postorder n x ++ posts (n + size x) l' end.
Lemma postorder_unfold n s e b c k : postorder n (Rose s e b c k) = posts (S n) k ++ [n].
Proof.
  reflexivity.
Qed.
Lemma postorder_perm r : forall n, Permutation (postorder n r) (seq n (size r)).
Proof.
  induction r as [s e b c k IH] using rose_ind'. intros n. rewrite postorder_unfold. cbn [size seq].
  rewrite Permutation_app_comm. cbn [app]. constructor. generalize (S n). clear n.
  induction IH as [|x l E _ IHl]; intros n; auto. cbn [posts map]. change (list_sum (size x :: map size l)) with (size x + list_sum (map size l)).
  rewrite seq_app. apply Permutation_app; auto.
Qed.
Lemma postorder_NoDup r n : NoDup (postorder n r).
Proof. eapply Permutation_NoDup; [symmetry; apply postorder_perm|apply seq_NoDup]. Qed.

(** Putting comments into the tree of nodes. *)
Fixpoint bare (r : rose) : rose := let 'Rose s e b c k := r in Rose s e b no_com (map bare k).
Fixpoint puts (k : list rose) (l : list comments) : list rose * list comments :=
  match k with
  | [] => ([], l)
  | x :: k => let (x', l) := put x l in let (k', l) := puts k l in (x' :: k', l)
  end.
Lemma put_unfold s e b c k c' l : put (Rose s e b c k) (c' :: l) = let (k', l) := puts k l in (Rose s e b c' k', l).
Proof.
  reflexivity.
Qed.
Lemma put_spec r : forall l, size r <= List.length l ->
  exists r', put r l = (r', skipn (size r) l) /\ bare r' = bare r /\ map rcom (preorder r') = firstn (size r) l.
Proof.
  induction r as [s e b c k IH] using rose_ind'. intros [|c' l] L; [cbn in L; lia|]. rewrite put_unfold. cbn [size List.length] in L.
  assert (G : forall l, list_sum (map size k) <= List.length l -> exists k', puts k l = (k', skipn (list_sum (map size k)) l) /\
     map bare k' = map bare k /\ map rcom (flat_map preorder k') = firstn (list_sum (map size k)) l).
  { clear l L. induction IH as [|x k E _ IHk]; intros l L; [exists []; auto|].
    cbn [map list_sum puts] in *. change (list_sum (size x :: map size k)) with (size x + list_sum (map size k)) in *.
    destruct (E l) as (x' & E1 & E2 & E3); [lia|]. rewrite E1.
    destruct (IHk (skipn (size x) l)) as (k' & K1 & K2 & K3); [rewrite skipn_length; lia|]. rewrite K1. exists (x' :: k').
    rewrite skipn_add. split; auto. cbn [map flat_map]. rewrite E2, K2. split; auto.
    rewrite map_app, E3, K3. clear. rewrite <- (firstn_skipn (size x) (firstn (size x + _) l)).
    rewrite firstn_firstn, Nat.min_l by lia. f_equal. rewrite skipn_firstn_comm. f_equal. lia. }
  destruct (G l) as (k' & G1 & G2 & G3); [lia|]. rewrite G1. exists (Rose s e b c' k').
  cbn [size skipn firstn bare preorder map kids rcom]. rewrite G2, G3. auto.
Qed.

(** ** Loops *)
Lemma nth_error_update {A} (f : A -> A) i j : forall l, nth_error (update i f l) j = if Nat.eqb i j then option_map f (nth_error l j) else nth_error l j.
Proof.
  revert j. induction i as [|i IH]; intros [|j] [|x l]; cbn [update nth_error Nat.eqb option_map]; auto; try (destruct (Nat.eqb i j); auto; fail).
Qed.
Lemma update_length {A} (f : A -> A) i : forall l, List.length (update i f l) = List.length l.
Proof. induction i as [|i IH]; intros [|x l]; cbn [update List.length]; auto. Qed.
Lemma spans_split {A} (p : A -> bool) l : let (a, b) := spans p l in l = a ++ b.
Proof. induction l as [|x l IH]; cbn [spans]; auto. destruct (p x); auto. destruct (spans p l). cbn [app]. congruence. Qed.
Lemma spans_filter {A} (R : A -> A -> Prop) (p : A -> bool) l :
  (forall a b, R a b -> p b = true -> p a = true) -> StronglySorted R l ->
  spans p l = (filter p l, filter (fun x => negb (p x)) l).
Proof.
  intros M S. induction S as [|x l S IH F]; auto. cbn [spans filter]. rewrite IH. destruct (p x) eqn:E; cbn [negb]; auto.
  assert (N : forall y, In y l -> p y = false).
  { intros y Hy. rewrite Forall_forall in F. specialize (F y Hy). destruct (p y) eqn:Ey; auto. rewrite (M x y F Ey) in E. discriminate. }
  clear -N. induction l as [|y l IH]; cbn [filter]; auto. rewrite (N y) by (left; auto). cbn [negb].
  assert (I : forall z, In z l -> p z = false) by (intros; apply N; right; auto). specialize (IH I). injection IH as IH1 IH2. rewrite <- IH1. congruence.
Qed.
Lemma ssorted_filter {A} (R : A -> A -> Prop) p l : StronglySorted R l -> StronglySorted R (filter p l).
Proof.
  intros S. induction S as [|x l S IH F]; cbn [filter]; [constructor|]. destruct (p x); auto. constructor; auto.
  rewrite Forall_forall in *. intros y Hy. apply filter_In in Hy as [Hy _]. auto.
Qed.
Definition is_owner (p : nat -> comment -> bool) (idx : list nat) (o : option nat) (c : comment) : bool :=
  match find (fun i => p i c) idx, o with Some i, Some j => Nat.eqb i j | None, None => true | _, _ => false end.
Lemma owner_cons p i idx o l : filter (is_owner p idx o) (filter (fun c => negb (p i c)) l) = 
  filter (fun c => negb (p i c) && is_owner p idx o c) l.
Proof. induction l as [|c l IH]; cbn [filter]; auto. destruct (p i c); cbn [negb andb]; auto. cbn [filter]. destruct (is_owner p idx o c); rewrite IH; auto. Qed.
Lemma filter_none {A} (f : A -> bool) l : (forall x, f x = false) -> filter f l = [].
Proof. intros H. induction l as [|x l IH]; cbn [filter]; auto. rewrite H. auto. Qed.
Lemma not_owner p idx j c : ~ In j idx -> is_owner p idx (Some j) c = false.
Proof.
  intros H. unfold is_owner. destruct (find (fun i => p i c) idx) as [i|] eqn:E; auto.
  apply find_some in E as [E _]. destruct (Nat.eqb_spec i j); auto. subst. contradiction.
Qed.
Definition p_suffix (pre : list rose) (i : nat) (c : comment) : bool :=
  match nth_error pre i with Some x => negb (r_block x) && (r_stop x <=? c_byte c)%Z | None => false end.
Lemma add_suffix_nil c : add_suffix [] c = c.
Proof. unfold add_suffix. destruct c as [b s a]. cbn [c_before c_suffix c_after]. rewrite app_nil_r. auto. Qed.
Lemma option_map_id {A} (f : A -> A) o : (forall x, f x = x) -> option_map f o = o.
Proof. intros H. destruct o; cbn; [rewrite H|]; auto. Qed.
Lemma suffix_loop_spec pre idx : NoDup idx -> forall suffix heap,
  StronglySorted (fun a b => (c_byte b <= c_byte a)%Z) suffix ->
  exists heap', suffix_loop pre idx suffix heap = (filter (is_owner (p_suffix pre) idx None) suffix, heap') /\
  forall j, nth_error heap' j = option_map (add_suffix (filter (is_owner (p_suffix pre) idx (Some j)) suffix)) (nth_error heap j).
Proof.
  induction 1 as [|i idx NI ND IH]; intros suffix heap S.
  { cbn [suffix_loop]. exists heap. split.
    - f_equal. unfold is_owner. cbn [find]. clear. induction suffix as [|x l IH]; cbn [filter]; congruence.
    - intros j. rewrite filter_none by (intros; reflexivity). rewrite option_map_id; auto using add_suffix_nil. }
  assert (SK : (forall c, p_suffix pre i c = false) -> suffix_loop pre (i :: idx) suffix heap = suffix_loop pre idx suffix heap ->
    exists heap', suffix_loop pre (i :: idx) suffix heap = (filter (is_owner (p_suffix pre) (i :: idx) None) suffix, heap') /\
    forall j, nth_error heap' j = option_map (add_suffix (filter (is_owner (p_suffix pre) (i :: idx) (Some j)) suffix)) (nth_error heap j)).
  { intros F E. destruct (IH suffix heap S) as (heap' & E1 & E2). exists heap'. rewrite E, E1.
    assert (X : forall o c, is_owner (p_suffix pre) (i :: idx) o c = is_owner (p_suffix pre) idx o c) by (intros; unfold is_owner; cbn [find]; rewrite F; auto).
    split; [f_equal; apply filter_ext; auto|]. intros j. rewrite E2. f_equal. f_equal. apply filter_ext. auto. }
  cbn [suffix_loop] in *. destruct (nth_error pre i) as [x|] eqn:Ex; [|apply SK; auto; intros; unfold p_suffix; rewrite Ex; auto].
  destruct (r_block x) eqn:Eb; [apply SK; auto; intros; unfold p_suffix; rewrite Ex, Eb; auto|]. clear SK.
  assert (P : forall c, (r_stop x <=? c_byte c)%Z = p_suffix pre i c) by (intros; unfold p_suffix; rewrite Ex, Eb; auto).
  rewrite (spans_filter (fun a b => (c_byte b <= c_byte a)%Z)); [|intros a b Hab; rewrite !Z.leb_le; lia|auto].
  destruct (IH (filter (fun c => negb (r_stop x <=? c_byte c)%Z) suffix) (update i (add_suffix (filter (fun c => (r_stop x <=? c_byte c)%Z) suffix)) heap)) as (heap' & E1 & E2); [apply ssorted_filter; auto|].
  exists heap'. rewrite E1.
  assert (FE : filter (fun c => negb (r_stop x <=? c_byte c)%Z) suffix = filter (fun c => negb (p_suffix pre i c)) suffix) by (apply filter_ext; intros; rewrite P; auto).
  rewrite FE in *. split.
  - f_equal. rewrite owner_cons. apply filter_ext. intros c. unfold is_owner at 2. cbn [find]. destruct (p_suffix pre i c); auto.
  - intros j. rewrite E2, nth_error_update. rewrite owner_cons. destruct (Nat.eqb_spec i j) as [<-|Ne].
    + rewrite (filter_ext (fun c => negb (p_suffix pre i c) && is_owner (p_suffix pre) idx (Some i) c) (fun _ => false)).
      * rewrite filter_none by auto. rewrite (option_map_id (add_suffix [])) by apply add_suffix_nil. f_equal. f_equal. apply filter_ext.
        intros c. rewrite P. unfold is_owner. cbn [find]. destruct (p_suffix pre i c); [rewrite Nat.eqb_refl; auto|].
        symmetry. apply not_owner. auto.
      * intros c. rewrite not_owner by auto. apply andb_false_r.
    + f_equal. f_equal. apply filter_ext. intros c. unfold is_owner. cbn [find]. destruct (p_suffix pre i c); cbn [negb andb]; auto.
      destruct (Nat.eqb_spec i j); auto.
Qed.
Definition p_line_at (pre : list rose) (i : nat) (c : comment) : bool :=
  match nth_error pre i with Some x => (c_byte c <=? r_start x)%Z | None => false end.
Definition add_sorted (cs : list comment) (c : comments) : comments :=
  Comments (isort before_less (c_before c ++ cs)) (c_suffix c) (c_after c).
Lemma line_loop_spec all pre : forall i done line heap, all = done ++ pre -> List.length done = i ->
  in_order line ->
  exists heap', line_loop i pre line heap = (filter (is_owner (p_line_at all) (seq i (List.length pre)) None) line, heap') /\
  forall j, nth_error heap' j =
    if (i <=? j) && (j <? i + List.length pre)
    then option_map (add_sorted (filter (is_owner (p_line_at all) (seq i (List.length pre)) (Some j)) line)) (nth_error heap j)
    else nth_error heap j.
Proof.
  induction pre as [|x pre IH]; intros i done line heap E L Srt.
  { cbn [line_loop List.length seq]. exists heap. split.
    - f_equal. unfold is_owner. cbn [find]. clear. induction line as [|y l IH]; cbn [filter]; congruence.
    - intros j. rewrite Nat.add_0_r. destruct (Nat.leb_spec i j), (Nat.ltb_spec j i); auto; lia. }
  cbn [line_loop List.length seq].
  assert (P : forall c, (c_byte c <=? r_start x)%Z = p_line_at all i c).
  { intros c. unfold p_line_at. rewrite E, nth_error_app2, L, Nat.sub_diag by lia. reflexivity. }
  rewrite (spans_filter (fun a b => (c_byte a <= c_byte b)%Z)); [|intros a b Hab; rewrite !Z.leb_le; lia|auto].
  assert (FE : filter (fun c => negb (c_byte c <=? r_start x)%Z) line = filter (fun c => negb (p_line_at all i c)) line) by (apply filter_ext; intros; rewrite P; auto).
  assert (FE' : filter (fun c => (c_byte c <=? r_start x)%Z) line = filter (p_line_at all i) line) by (apply filter_ext; intros; rewrite P; auto).
  rewrite FE, FE'. clear FE FE'. cbv beta iota.
  match goal with |- context [line_loop (S i) pre ?a ?b] => destruct (IH (S i) (done ++ [x]) a b) as (heap' & E1 & E2) end;
    [rewrite <- app_assoc; auto|rewrite app_length; cbn; lia|apply ssorted_filter; auto|].
  exists heap'. rewrite E1. split.
  - f_equal. rewrite owner_cons. apply filter_ext. intros c. unfold is_owner at 2. cbn [find]. destruct (p_line_at all i c); auto.
  - intros j. rewrite E2, nth_error_update, owner_cons. destruct (Nat.eqb_spec i j) as [<-|Ne].
    + replace ((S i <=? i) && _) with false by (destruct (Nat.leb_spec (S i) i); auto; lia).
      replace ((i <=? i) && (i <? i + S (List.length pre))) with true by (destruct (Nat.leb_spec i i), (Nat.ltb_spec i (i + S (List.length pre))); auto; lia).
      assert (X : filter (p_line_at all i) line = filter (is_owner (p_line_at all) (i :: seq (S i) (List.length pre)) (Some i)) line).
      { apply filter_ext. intros c. unfold is_owner. cbn [find]. destruct (p_line_at all i c); [rewrite Nat.eqb_refl; auto|].
        symmetry. apply not_owner. rewrite in_seq. lia. }
      rewrite <- X. reflexivity.
    + replace ((S i <=? j) && (j <? S i + List.length pre)) with ((i <=? j) && (j <? i + S (List.length pre)))
        by (destruct (Nat.leb_spec (S i) j), (Nat.ltb_spec j (S i + List.length pre)), (Nat.leb_spec i j), (Nat.ltb_spec j (i + S (List.length pre))); auto; lia).
      destruct ((i <=? j) && (j <? i + S (List.length pre))); auto. f_equal. f_equal. apply filter_ext. intros c. unfold is_owner. cbn [find].
      destruct (p_line_at all i c); cbn [negb andb]; auto. destruct (Nat.eqb_spec i j); auto.
Qed.

(** ** Counting comments *)
Definition pos_dec : forall a b : pos, {a = b} + {a <> b}. Proof. decide equality; apply Z.eq_dec. Defined.
Definition comment_dec : forall a b : comment, {a = b} + {a <> b}.
Proof. decide equality; [apply list_eq_dec, Ascii.ascii_dec|apply pos_dec]. Defined.
Notation cnt := (count_occ comment_dec).
Definition hcnt (x : comment) (heap : list comments) : nat := list_sum (map (fun c => cnt (coms_of c) x) heap).
Lemma perm_cnt l l' : (forall x, cnt l x = cnt l' x) <-> Permutation l l'.
Proof. symmetry. apply Permutation_count_occ. Qed.
Lemma cnt_app l l' x : cnt (l ++ l') x = cnt l x + cnt l' x.
Proof. apply count_occ_app. Qed.
Lemma cnt_rev l x : cnt (rev l) x = cnt l x.
Proof. apply perm_cnt. symmetry. apply Permutation_rev. Qed.
Lemma hcnt_update x i f n : (forall c, cnt (coms_of (f c)) x = cnt (coms_of c) x + n) ->
  forall heap, i < List.length heap -> hcnt x (update i f heap) = hcnt x heap + n.
Proof.
  intros H. induction i as [|i IH]; intros [|c heap] L; cbn [List.length] in L; try lia; unfold hcnt in *; cbn [update map];
    change (list_sum (?a :: ?l)) with (a + list_sum l).
  - rewrite H. lia.
  - rewrite IH by lia. lia.
Qed.
Lemma hcnt_map x f : (forall c, cnt (coms_of (f c)) x = cnt (coms_of c) x) -> forall heap, hcnt x (map f heap) = hcnt x heap.
Proof. intros H. induction heap as [|c heap IH]; auto. unfold hcnt in *. cbn [map]. change (list_sum (?a :: ?l)) with (a + list_sum l). rewrite H, IH. auto. Qed.
Lemma suffix_loop_cnt x pre idx : forall suffix heap, List.length heap = List.length pre ->
  let (rest, heap') := suffix_loop pre idx suffix heap in
  hcnt x heap' + cnt rest x = hcnt x heap + cnt suffix x /\ List.length heap' = List.length heap.
Proof.
  induction idx as [|i idx IH]; intros suffix heap L; cbn [suffix_loop]; [auto|].
  destruct (nth_error pre i) as [r|] eqn:E; [|apply IH; auto]. destruct (r_block r); [apply IH; auto|].
  pose proof (spans_split (fun c => (r_stop r <=? c_byte c)%Z) suffix) as Sp.
  destruct (spans _ suffix) as [a b]. specialize (IH b (update i (add_suffix a) heap)). rewrite update_length in IH. specialize (IH L).
  destruct (suffix_loop _ _ _ _) as [rest heap']. destruct IH as [IH1 IH2]. split; auto. rewrite IH1, Sp, cnt_app.
  rewrite (hcnt_update x i (add_suffix a) (cnt a x)); [lia| |rewrite L; apply nth_error_Some; congruence].
  intros c. unfold coms_of, add_suffix. cbn [c_before c_suffix c_after]. rewrite !cnt_app. lia.
Qed.
Lemma line_loop_cnt x pre : forall i line heap, i + List.length pre <= List.length heap ->
  let (rest, heap') := line_loop i pre line heap in
  hcnt x heap' + cnt rest x = hcnt x heap + cnt line x /\ List.length heap' = List.length heap.
Proof.
  induction pre as [|r pre IH]; intros i line heap L; cbn [line_loop]; [auto|]. cbn [List.length] in L.
  pose proof (spans_split (fun c => (c_byte c <=? r_start r)%Z) line) as Sp.
  destruct (spans _ line) as [a b]. specialize (IH (S i) b (update i (add_sorted a) heap)). rewrite update_length in IH. 
  fold (add_sorted a). destruct (line_loop _ _ _ _) as [rest heap']. destruct IH as [IH1 IH2]; [lia|]. split; auto. rewrite IH1, Sp, cnt_app.
  rewrite (hcnt_update x i (add_sorted a) (cnt a x)); [lia| |lia].
  intros c. unfold coms_of, add_sorted. cbn [c_before c_suffix c_after]. rewrite !cnt_app.
  assert (X : cnt (isort before_less (c_before c ++ a)) x = cnt (c_before c ++ a) x) by (apply perm_cnt, isort_perm).
  rewrite X, cnt_app. lia.
Qed.
