(** C31: comments are attached exactly once, next to the code they belong to. *)
From Verif Require Import Base BaseProofs Ast Attach AttachSpec AttachProofs AttachTree Lex LexSpec PropLex.

Lemma heap_length r ls ss : let h := map rcom (preorder r) in
  let h1 := assignSuffixComments r ss h in let h2 := assignLineComments r ls h1 in
  List.length h1 = size r /\ List.length h2 = size r /\
  forall x, hcnt x h2 = hcnt x h + cnt ls x + cnt ss x.
Proof.
  cbv zeta. set (h := map rcom (preorder r)).
  assert (Lh : List.length h = size r) by (unfold h; rewrite map_length; apply preorder_length).
  assert (P : 0 < size r) by (destruct r; cbn [size]; lia).
  assert (A : List.length (assignSuffixComments r ss h) = size r /\ forall x, hcnt x (assignSuffixComments r ss h) = hcnt x h + cnt ss x).
  { unfold assignSuffixComments.
    assert (Lp : List.length h = List.length (preorder r)) by (rewrite preorder_length; auto).
    pose proof (fun x => suffix_loop_cnt x (preorder r) (rev (postorder 0 r)) (rev ss) h Lp) as X.
    destruct (suffix_loop _ _ _ _) as [rest h1].
    assert (L1 : List.length h1 = size r) by (destruct (X (Comment no_pos [])) as [_ ->]; auto).
    rewrite update_length, map_length. split; auto. intros x. destruct (X x) as [X1 _].
    rewrite (hcnt_update x 0 _ (cnt rest x)), hcnt_map.
    - rewrite cnt_rev in X1. lia.
    - intros c. unfold coms_of. cbn [c_before c_suffix c_after]. rewrite !cnt_app, cnt_rev. auto.
    - intros c. unfold coms_of, add_before. cbn [c_before c_suffix c_after]. rewrite !cnt_app, cnt_rev. lia.
    - rewrite map_length. lia. }
  destruct A as [A1 A2]. split; auto. unfold assignLineComments. set (h1 := assignSuffixComments r ss h) in *.
  assert (Lp : 0 + List.length (preorder r) <= List.length h1) by (rewrite preorder_length; lia).
  pose proof (fun x => line_loop_cnt x (preorder r) 0 ls h1 Lp) as X. destruct (line_loop _ _ _ _) as [rest h2].
  assert (L1 : List.length h2 = size r) by (destruct (X (Comment no_pos [])) as [_ ->]; auto).
  rewrite update_length. split; auto. intros x. destruct (X x) as [X1 _]. rewrite (hcnt_update x 0 _ (cnt rest x)).
  - rewrite A2 in X1. lia.
  - intros c. unfold coms_of, add_after. cbn [c_before c_suffix c_after]. rewrite !cnt_app. lia.
  - lia.
Qed.
Lemma assigned f ls ss : exists r', skel (assignComments f ls ss) = r' /\ bare r' = bare (skel f) /\
  map rcom (preorder r') = assignLineComments (skel f) ls (assignSuffixComments (skel f) ss (map rcom (preorder (skel f)))) /\
  assignComments f ls ss = refill f r'.
Proof.
  unfold assignComments. cbv zeta. set (h2 := assignLineComments _ _ _).
  destruct (heap_length (skel f) ls ss) as (_ & L & _). fold h2 in L.
  destruct (put_spec (skel f) h2) as (r' & E1 & E2 & E3); [lia|]. rewrite E1. cbn [fst]. exists r'.
  rewrite <- L, firstn_all in E3. split; [apply lens_all; auto|auto].
Qed.

(** Assignment changes nothing but comments. *)
Theorem C31_code_unchanged file lines suffixes : strip (assignComments file lines suffixes) = strip file.
Proof. apply strip_refill. Qed.
(** Every line and suffix comment is in the tree afterwards, exactly once, and so is every comment that was
    there before. *)
Theorem C31_each_comment_once file lines suffixes :
  Permutation (every (assignComments file lines suffixes)) (every file ++ lines ++ suffixes).
Proof.
  apply perm_cnt. intros x. destruct (assigned file lines suffixes) as (r' & _ & E2 & E3 & ->).
  destruct (lens_all file r' E2) as [_ X]. specialize (X x).
  destruct (heap_length (skel file) lines suffixes) as (_ & _ & H). specialize (H x). cbv zeta in H. rewrite <- E3 in H.
  unfold rc in X. cbn [flat_map] in X. rewrite !app_nil_r in X. rewrite !cnt_app. lia.
Qed.
Lemma bare_span a b : bare a = bare b -> r_start a = r_start b /\ r_stop a = r_stop b /\ r_block a = r_block b.
Proof. destruct a, b. cbn [bare]. intros H. injection H as -> -> -> _. auto. Qed.
Lemma bare_preorder a : forall b, bare a = bare b -> map bare (preorder a) = map bare (preorder b).
Proof.
  induction a as [s e bl c k IH] using rose_ind'. intros [s' e' bl' c' k'] H. cbn [preorder kids map]. f_equal; [exact H|].
  cbn [bare] in H. injection H as _ _ _ H. revert k' H. induction IH as [|x k E _ IHk]; intros [|x' k'] H; try discriminate; auto.
  cbn [map flat_map] in *. injection H as H1 H2. rewrite !map_app. f_equal; auto.
Qed.
Lemma filter_rev {A} (p : A -> bool) l : filter p (rev l) = rev (filter p l).
Proof. induction l as [|x l IH]; auto. cbn [rev filter]. rewrite filter_app, IH. cbn [filter]. destruct (p x); auto. apply app_nil_r. Qed.
Lemma ssorted_rev {A} (R : A -> A -> Prop) l : StronglySorted R l -> StronglySorted (fun a b => R b a) (rev l).
Proof.
  induction 1 as [|x l S IH F]; cbn [rev]; [constructor|]. clear S.
  assert (G : forall m, StronglySorted (fun a b => R b a) m -> Forall (R x) m -> StronglySorted (fun a b => R b a) (m ++ [x])).
  { induction m as [|y m IHm]; intros S G; cbn [app]; [repeat constructor|]. inversion S; subst. inversion G; subst. constructor; auto.
    apply Forall_app. split; auto. }
  apply G; auto. apply Forall_rev. auto.
Qed.
(** Where the comments go: a line comment before the first node that starts after it, or to the end of the file;
    a suffix comment to the last node (in the order of their ends) that ends before it and is not a block, or to
    the beginning of the file; among themselves in source order. *)
Theorem C31_placement file lines suffixes : in_order lines -> in_order suffixes ->
  let file' := assignComments file lines suffixes in
  List.length (nodes file') = List.length (nodes file) /\
  forall i x x', nth_error (nodes file) i = Some x -> nth_error (nodes file') i = Some x' ->
    (r_start x', r_stop x', r_block x') = (r_start x, r_stop x, r_block x) /\
    c_before (rcom x') = isort before_less (c_before (rcom x) ++
      (if Nat.eqb i 0 then owned (suffix_owner file) None suffixes else []) ++ owned (line_owner file) (Some i) lines) /\
    c_suffix (rcom x') = owned (suffix_owner file) (Some i) suffixes ++ rev (c_suffix (rcom x)) /\
    c_after (rcom x') = c_after (rcom x) ++ (if Nat.eqb i 0 then owned (line_owner file) None lines else []).
Proof.
  intros Sl Ss. cbv zeta. destruct (assigned file lines suffixes) as (r' & E1 & E2 & E3 & _).
  unfold nodes. rewrite E1. pose proof (bare_preorder _ _ E2) as Bp. split.
  { apply (f_equal (@List.length _)) in Bp. rewrite !map_length in Bp. auto. }
  intros i x x' Hx Hx'. split.
  { apply (f_equal (fun l => nth_error l i)) in Bp. rewrite !nth_error_map, Hx, Hx' in Bp. cbn [option_map] in Bp. injection Bp as Bp.
    destruct (bare_span _ _ Bp) as (-> & -> & ->). auto. }
  apply (f_equal (fun l => nth_error l i)) in E3. rewrite nth_error_map, Hx' in E3. cbn [option_map] in E3.
  unfold assignLineComments, assignSuffixComments in E3. set (pre := preorder (skel file)) in *.
  destruct (suffix_loop_spec pre (rev (postorder 0 (skel file)))) with (suffix := rev suffixes) (heap := map rcom pre) as (h1 & F1 & F2).
  { apply NoDup_rev, postorder_NoDup. }
  { apply (ssorted_rev (fun a b => (c_byte a <= c_byte b)%Z)). auto. }
  rewrite F1 in E3. 
  match type of E3 with context [line_loop 0 pre lines ?h] => destruct (line_loop_spec pre pre 0 [] lines h eq_refl eq_refl Sl) as (h2 & G1 & G2) end.
  rewrite G1 in E3. rewrite nth_error_update in E3.
  assert (Li : i < List.length pre) by (apply nth_error_Some; congruence).
  rewrite G2, nth_error_update, nth_error_map, F2, nth_error_map, Hx in E3.
  replace ((0 <=? i) && (i <? 0 + List.length pre)) with true in E3 by (symmetry; apply andb_true_iff; rewrite Nat.leb_le, Nat.ltb_lt; lia).
  cbn [option_map] in E3.
  assert (OS : forall o, filter (is_owner (p_suffix pre) (rev (postorder 0 (skel file))) o) (rev suffixes) = rev (owned (suffix_owner file) o suffixes)) by (intros; apply filter_rev).
  assert (OL : forall o, filter (is_owner (p_line_at pre) (seq 0 (List.length pre)) o) lines = owned (line_owner file) o lines) by reflexivity.
  rewrite !OS, !OL, (Nat.eqb_sym 0 i) in E3.
  destruct (Nat.eqb i 0); cbn [option_map] in E3; injection E3 as ->; unfold add_sorted, add_before, add_suffix, add_after; cbn [c_before c_suffix c_after];
    rewrite ?rev_app_distr, ?rev_involutive, ?app_nil_r, <- ?app_assoc; auto.
Qed.
(** The comments before a node are in source order. *)
Theorem C31_before_in_order file lines suffixes i x : in_order lines -> in_order suffixes ->
  nth_error (nodes (assignComments file lines suffixes)) i = Some x -> in_order (c_before (rcom x)).
Proof.
  intros Sl Ss H. destruct (C31_placement file lines suffixes Sl Ss) as [L P].
  destruct (nth_error (nodes file) i) as [y|] eqn:E.
  - destruct (P i y x E H) as (_ & -> & _).
    assert (T : forall a b, before_less a b = false <-> (c_byte b <= c_byte a)%Z) by (intros; unfold before_less; rewrite Z.ltb_ge; tauto).
    match goal with |- in_order (isort _ ?l) => generalize l end. clear. intros l. unfold in_order. induction l as [|c l IH]; cbn [isort]; [constructor|].
    revert IH. generalize (isort before_less l). clear. induction l as [|d l IH]; intros S; cbn [insert]; [repeat constructor|].
    inversion S as [|? ? S1 F1]; subst. unfold before_less at 1. destruct (Z.ltb_spec (c_byte d) (c_byte c)).
    + constructor; auto. assert (I : Permutation (insert before_less c l) (c :: l)).
      { clear. induction l as [|e l IH]; cbn [insert]; auto. destruct (before_less e c); auto. rewrite IH. constructor. }
      rewrite Forall_forall in *. intros z Hz. apply (Permutation_in _ I) in Hz as [<-|Hz]; [lia|auto].
    + constructor; auto. constructor; [lia|]. rewrite Forall_forall in *. intros z Hz. specialize (F1 z Hz). lia.
  - exfalso. apply nth_error_None in E. assert (i < List.length (nodes (assignComments file lines suffixes))) by (apply nth_error_Some; congruence). lia.
Qed.

(** ** The lexer delivers comments in source order *)
Definition offsets (lo hi : Z) (cs : list (Z * bytes)) : Prop :=
  StronglySorted (fun a b => (fst a < fst b)%Z) cs /\ Forall (fun a => (lo <= fst a < hi)%Z) cs.
Lemma offsets_weaken lo hi lo' hi' cs : offsets lo hi cs -> (lo' <= lo)%Z -> (hi <= hi')%Z -> offsets lo' hi' cs.
Proof. intros [S F] H1 H2. split; auto. rewrite Forall_forall in *. intros x Hx. specialize (F x Hx). lia. Qed.
Lemma offsets_app a b c cs cs' : offsets a b cs -> offsets b c cs' -> (a <= b <= c)%Z -> offsets a c (cs ++ cs').
Proof.
  intros [S F] [S' F'] H. split.
  - induction S as [|x l S IH G]; auto. cbn [app]. inversion F; subst. constructor; auto. apply Forall_app. split; auto.
    rewrite Forall_forall in *. intros y Hy. specialize (F' y Hy). lia.
  - apply Forall_app. rewrite !Forall_forall in *. split; intros x Hx; [specialize (F x Hx)|specialize (F' x Hx)]; lia.
Qed.
Lemma gap_offsets o g cs : gap o g cs -> offsets o (o + Z.of_nat (List.length g)) cs.
Proof.
  induction 1 as [o|o c g cs _ _ IH|o g cs _ IH|o c g cs _ _ _ IH]; cbn [List.length].
  - repeat constructor.
  - eapply offsets_weaken; eauto; lia.
  - eapply offsets_weaken; eauto; lia.
  - rewrite app_length. apply (offsets_app o (o + 1 + Z.of_nat (List.length c)) _ [_] cs).
    + repeat constructor; cbn [fst]; lia.
    + eapply offsets_weaken; eauto; lia.
    + lia.
Qed.
Lemma toks_offsets o s l cs : toks_of o s l cs -> offsets o (o + Z.of_nat (List.length s)) cs.
Proof.
  induction 1 as [o|o g s l cs cs' G _ IH|o t s l cs _ _ _ _ IH].
  - repeat constructor.
  - rewrite app_length. eapply offsets_app; [apply gap_offsets; eauto| |lia]. eapply offsets_weaken; eauto; lia.
  - rewrite app_length. eapply offsets_weaken; eauto; lia.
Qed.
Lemma handed_in_order cs ls ss : handed_on cs ls ss -> StronglySorted (fun a b => (fst a < fst b)%Z) cs ->
  (in_order ls /\ in_order ss) /\ forall n, Forall (fun a => (n <= fst a)%Z) cs -> Forall (fun c => (n <= c_byte c)%Z) ls /\ Forall (fun c => (n <= c_byte c)%Z) ss.
Proof.
  induction 1 as [|p tok cs ls ss H IH|p tok cs ls ss H IH|p tok cs ls ss H IH]; intros S.
  - repeat split; constructor.
  - destruct (IH S) as [[I1 I2] I3]. inversion S as [|? ? S1 F1]; subst. cbn [fst] in *. split; [split; auto|].
    + constructor; auto. destruct (I3 (p_byte p)); auto. constructor; [cbn; lia|]. rewrite Forall_forall in *. intros y Hy. specialize (F1 y Hy). cbn [fst] in F1. lia.
    + intros n F. inversion F; subst. destruct (I3 n); auto.
  - inversion S as [|? ? S1 F1]; subst. cbn [fst] in *. destruct (IH S1) as [[I1 I2] I3]. split; [split; auto|].
    + constructor; auto. destruct (I3 (p_byte p)); auto. rewrite Forall_forall in *. intros y Hy. specialize (F1 y Hy). lia.
    + intros n F. inversion F; subst. destruct (I3 n); auto.
  - inversion S as [|? ? S1 F1]; subst. cbn [fst] in *. destruct (IH S1) as [[I1 I2] I3]. split; [split; auto|].
    + constructor; auto. destruct (I3 (p_byte p)); auto. rewrite Forall_forall in *. intros y Hy. specialize (F1 y Hy). lia.
    + intros n F. inversion F; subst. destruct (I3 n); auto.
Qed.
Theorem C31_lexed_in_order data l st : tokenize data = Lexed l st -> in_order (l_lines st) /\ in_order (l_suffixes st).
Proof.
  intros E. destruct (C32_partition _ _ _ E) as (cs & T & H). apply toks_offsets in T as [S _].
  apply (handed_in_order _ _ _ H S).
Qed.

(** [f(] / [# arg] / [x,] / [)  # call] at offsets 0, 4, 11 and 13. *)
Definition at_ (n : Z) : pos := Pos 1 n n.
Definition sample_tree : expr :=
  EFile no_com (FMeta [] [] [] TypeBuild)
    [Some (ECall no_com (EIdent (Ident no_com (at_ 0) %"f")) (at_ 1) [EIdent (Ident no_com (at_ 11) %"x")] (End no_com (at_ 13)) false true)].
Example sample_assigned :
  assignComments sample_tree [Comment (at_ 4) %"# arg"] [Comment (at_ 16) %"# call"] =
  EFile no_com (FMeta [] [] [] TypeBuild)
    [Some (ECall (Comments [] [Comment (at_ 16) %"# call"] []) (EIdent (Ident no_com (at_ 0) %"f")) (at_ 1)
      [EIdent (Ident (Comments [Comment (at_ 4) %"# arg"] [] []) (at_ 11) %"x")] (End no_com (at_ 13)) false true)].
Proof. vm_compute. reflexivity. Qed.
Example sample_in_order : in_order [Comment (at_ 4) %"# arg"] /\ in_order [Comment (at_ 16) %"# call"].
Proof. split; repeat constructor. Qed.
Print Assumptions C31_code_unchanged. Print Assumptions C31_each_comment_once. Print Assumptions C31_placement.
Print Assumptions C31_before_in_order. Print Assumptions C31_lexed_in_order.
