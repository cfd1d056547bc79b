(** C105: skylark-comment and skylark-docstring. *)
From Verif Require Import LRTables LRCert Parse PropComplete.
From Verif Require Import Base BaseProofs Ast ParseFile Walk WalkSpec WalkProofs WalkGen PropWalk Print PropPrint CallSpec CallProofs AttrParams PropAttr Scope Lint CallLints PropCallLints PropApiLints Docstring PropDocstring Skylark.
Local Open Scope list_scope.

(** ** What is asked for *)
Definition letter (c : ascii) (w : bytes) : Prop := exists x, w = [x] /\ lower_byte x = c.
(** The word, in upper or lower case letters, or the two other characters that have s and k as lower case letters *)
Definition word (w : bytes) : Prop := exists s k y l a r k', w = s ++ k ++ y ++ l ++ a ++ r ++ k' /\
  (letter "s"%char s \/ s = long_s) /\ (letter "k"%char k \/ k = kelvin) /\ letter "y"%char y /\ letter "l"%char l /\ letter "a"%char a /\ letter "r"%char r /\ (letter "k"%char k' \/ k' = kelvin).
Definition occurs (s : bytes) (pre w post : bytes) : Prop := s = pre ++ w ++ post /\ word w.
Definition renamed (w n : bytes) : Prop :=
  (w = %"SKYLARK" /\ n = %"STARLARK") \/ (w <> %"SKYLARK" /\ (exists t, w = %"S" ++ t) /\ n = %"Starlark") \/ ((forall t, w <> %"S" ++ t) /\ n = %"starlark").
(** It may be part of an URL: a slash before it, or one character later than after it *)
Definition in_url (pre post : bytes) : Prop := (exists t, pre = t ++ %"/") \/ (exists c t, post = c :: %"/" ++ t).
(** What becomes of a text in which the word occurs at most once *)
Inductive renewed (s : bytes) : bytes -> Prop :=
  | rn_none : (forall pre w post, ~ occurs s pre w post) -> renewed s s
  | rn_url pre w post : occurs s pre w post -> in_url pre post -> renewed s s
  | rn_word pre w post n : occurs s pre w post -> ~ in_url pre post -> renamed w n -> renewed s (pre ++ n ++ post).
Definition once_only (s : bytes) : Prop := forall pre w post pre' w' post', occurs s pre w post -> occurs s pre' w' post' -> pre = pre'.

(** ** Proofs *)
Lemma letter_spec lo up s r : (forall c, Ascii.eqb c lo || Ascii.eqb c up = true <-> lower_byte c = lo) -> (after_letter lo up s = Some r <-> exists w, letter lo w /\ s = w ++ r).
Proof.
  intro H. unfold after_letter, letter. split.
  - destruct s as [|c s]; [discriminate|]. destruct (Ascii.eqb c lo || Ascii.eqb c up) eqn:E; [|discriminate]. intro K. injection K as ->. apply H in E. exists [c]. split; eauto.
  - intros (w & (x & -> & L) & ->). cbn [app]. apply H in L. now rewrite L.
Qed.
Lemma all_letters lo up : (forall b0 b1 b2 b3 b4 b5 b6 b7, let c := Ascii b0 b1 b2 b3 b4 b5 b6 b7 in Bool.eqb (Ascii.eqb c lo || Ascii.eqb c up) (Ascii.eqb (lower_byte c) lo) = true) -> forall c, Ascii.eqb c lo || Ascii.eqb c up = true <-> lower_byte c = lo.
Proof.
  intros H [b0 b1 b2 b3 b4 b5 b6 b7]. specialize (H b0 b1 b2 b3 b4 b5 b6 b7). cbv zeta in H. apply Bool.eqb_prop in H. rewrite H. apply Ascii.eqb_eq.
Qed.
Ltac letters := intros r s; apply letter_spec, all_letters; intros [] [] [] [] [] [] [] []; reflexivity.
Lemma sign_spec sign s r : after_sign sign s = Some r <-> s = sign ++ r.
Proof.
  unfold after_sign. split.
  - destruct (has_prefix sign s) eqn:E; [|discriminate]. apply has_prefix_spec in E as (t & ->). rewrite skipn_app, skipn_all, Nat.sub_diag. intro K. now injection K as ->.
  - intros ->. replace (has_prefix sign (sign ++ r)) with true by (symmetry; apply has_prefix_spec; eauto). now rewrite skipn_app, skipn_all, Nat.sub_diag.
Qed.
Lemma ls_s : forall s r, after_letter "s"%char "S"%char s = Some r <-> exists w, letter "s"%char w /\ s = w ++ r. Proof. letters. Qed.
Lemma ls_k : forall s r, after_letter "k"%char "K"%char s = Some r <-> exists w, letter "k"%char w /\ s = w ++ r. Proof. letters. Qed.
Lemma ls_y : forall s r, after_letter "y"%char "Y"%char s = Some r <-> exists w, letter "y"%char w /\ s = w ++ r. Proof. letters. Qed.
Lemma ls_l : forall s r, after_letter "l"%char "L"%char s = Some r <-> exists w, letter "l"%char w /\ s = w ++ r. Proof. letters. Qed.
Lemma ls_a : forall s r, after_letter "a"%char "A"%char s = Some r <-> exists w, letter "a"%char w /\ s = w ++ r. Proof. letters. Qed.
Lemma ls_r : forall s r, after_letter "r"%char "R"%char s = Some r <-> exists w, letter "r"%char w /\ s = w ++ r. Proof. letters. Qed.
Lemma after_s_spec s r : after_s s = Some r <-> exists w, (letter "s"%char w \/ w = long_s) /\ s = w ++ r.
Proof.
  unfold after_s. pose proof (ls_s s) as L. destruct (after_letter "s"%char "S"%char s) as [t|] eqn:E.
  - split.
    + intro K. injection K as ->. destruct (proj1 (L r) eq_refl) as (w & Lw & ->). eauto.
    + intros (w & [Lw| ->] & Es); [apply L; eauto|]. subst s. discriminate E.
  - rewrite sign_spec. split; [intros ->; exists long_s; auto|]. intros (w & [Lw| ->] & Es); auto. assert (K : None = Some r) by (apply L; eauto). discriminate K.
Qed.
Lemma after_k_spec s r : after_k s = Some r <-> exists w, (letter "k"%char w \/ w = kelvin) /\ s = w ++ r.
Proof.
  unfold after_k. pose proof (ls_k s) as L. destruct (after_letter "k"%char "K"%char s) as [t|] eqn:E.
  - split.
    + intro K. injection K as ->. destruct (proj1 (L r) eq_refl) as (w & Lw & ->). eauto.
    + intros (w & [Lw| ->] & Es); [apply L; eauto|]. subst s. discriminate E.
  - rewrite sign_spec. split; [intros ->; exists kelvin; auto|]. intros (w & [Lw| ->] & Es); auto. assert (K : None = Some r) by (apply L; eauto). discriminate K.
Qed.
Lemma bind_spec {A B} (o : option A) (f : A -> option B) r : bind o f = Some r <-> exists x, o = Some x /\ f x = Some r.
Proof. destruct o as [x|]; cbn; split; [intro; exists x; auto|intros (y & E & H); now injection E as ->|discriminate|intros (y & E & _); discriminate E]. Qed.
Lemma word_spec s r : after_skylark s = Some r <-> exists w, word w /\ s = w ++ r.
Proof.
  unfold after_skylark, word. split.
  - intro H. apply bind_spec in H as (s1 & H1 & H). apply after_s_spec in H1 as (w1 & L1 & ->). apply bind_spec in H as (s2 & H2 & H). apply after_k_spec in H2 as (w2 & L2 & ->).
    apply bind_spec in H as (s3 & H3 & H). apply ls_y in H3 as (w3 & L3 & ->). apply bind_spec in H as (s4 & H4 & H). apply ls_l in H4 as (w4 & L4 & ->). apply bind_spec in H as (s5 & H5 & H). apply ls_a in H5 as (w5 & L5 & ->).
    apply bind_spec in H as (s6 & H6 & H). apply ls_r in H6 as (w6 & L6 & ->). apply after_k_spec in H as (w7 & L7 & ->).
    exists (w1 ++ w2 ++ w3 ++ w4 ++ w5 ++ w6 ++ w7). split; [exists w1, w2, w3, w4, w5, w6, w7; auto 10|]. now rewrite <- !app_assoc.
  - intros (w & (w1 & w2 & w3 & w4 & w5 & w6 & w7 & -> & L1 & L2 & L3 & L4 & L5 & L6 & L7) & ->). rewrite <- !app_assoc.
    apply bind_spec. eexists. split; [apply after_s_spec; eauto|]. apply bind_spec. eexists. split; [apply after_k_spec; eauto|]. apply bind_spec. eexists. split; [apply ls_y; eauto|]. apply bind_spec. eexists. split; [apply ls_l; eauto|].
    apply bind_spec. eexists. split; [apply ls_a; eauto|]. apply bind_spec. eexists. split; [apply ls_r; eauto|]. apply after_k_spec. eauto.
Qed.
Lemma word_start w : word w -> exists c t, w = c :: t.
Proof.
  intros (s & k & y & l & a & r & k' & -> & [(x & -> & _)| ->] & _); cbn [app]; eauto. unfold long_s. cbn [app]. eauto.
Qed.
Lemma find_none s : (forall pre w post, ~ occurs s pre w post) -> forall i, find_all i s = [].
Proof.
  induction s as [|c s IH]; intros N i; [reflexivity|]. cbn [find_all]. destruct (after_skylark (c :: s)) as [r|] eqn:E.
  - apply word_spec in E as (w & W & E). exfalso. apply (N [] w r). split; auto.
  - cbn [app]. apply IH. intros pre w post (E1 & W). apply (N (c :: pre) w post). split; auto. cbn [app]. congruence.
Qed.
Lemma find_once pre : forall s w post i, occurs s pre w post -> once_only s -> find_all i s = [(i + List.length pre, i + List.length pre + List.length w)].
Proof.
  induction pre as [|c pre IH]; intros s w post i (E & W) U.
  - cbn [app] in E. destruct (word_start w W) as (c & t & ->). assert (A : after_skylark s = Some post) by (apply word_spec; exists (c :: t); auto). rewrite E in *. cbn [app] in *. cbn [find_all]. rewrite A.
    rewrite (find_none (t ++ post)).
    + cbn [app]. f_equal. f_equal; cbn [List.length]; rewrite ?app_length; lia.
    + intros p v q (E1 & V). assert (K : [] = c :: p); [|discriminate K]. apply (U [] (c :: t) post (c :: p) v q); split; auto. cbn [app]. congruence.
  - rewrite E. cbn [app find_all]. destruct (after_skylark (c :: pre ++ w ++ post)) as [r|] eqn:A.
    + apply word_spec in A as (v & V & A). assert (K : c :: pre = []); [|discriminate K]. apply (U (c :: pre) w post [] v r); split; auto. rewrite E. exact A.
    + cbn [app]. rewrite (IH (pre ++ w ++ post) w post (S i)); [f_equal; f_equal; cbn [List.length]; lia|split; auto|].
      intros p v q p' v' q' (E1 & V) (E2 & V'). assert (K : c :: p = c :: p'); [|now injection K]. apply (U (c :: p) v q (c :: p') v' q'); split; auto; rewrite E; cbn [app]; congruence.
Qed.
Lemma renamed_spec w : renamed w (skylarkToStarlark w).
Proof.
  unfold renamed, skylarkToStarlark. destruct (beq w %"SKYLARK") eqn:E; [left; split; [now apply beq_eq|auto]|]. apply beq_neq in E. right.
  pose proof (has_prefix_spec %"S" w) as P. destruct (has_prefix %"S" w).
  - left. split; auto. split; [now apply P|auto].
  - right. split; auto. intros t K. assert (F : false = true) by (apply P; eauto). discriminate F.
Qed.
Lemma slash_before pre rest : (0 <? List.length pre)%nat && is_slash (nth_error (pre ++ rest) (List.length pre - 1)) = true <-> exists t, pre = t ++ %"/".
Proof.
  destruct pre as [|c pre] using rev_ind.
  - cbn. split; [discriminate|]. intros ([|? ?] & E); discriminate E.
  - clear IHpre. rewrite app_length. cbn [List.length]. replace (List.length pre + 1 - 1) with (List.length pre) by lia. rewrite <- app_assoc, nth_error_app2, Nat.sub_diag by lia. cbn [app nth_error is_slash].
    replace (0 <? List.length pre + 1)%nat with true by (symmetry; apply Nat.ltb_lt; lia). cbn [andb]. split.
    + intro E. apply Ascii.eqb_eq in E as ->. exists pre. reflexivity.
    + intros (t & E). apply app_inj_tail in E as (_ & ->). reflexivity.
Qed.
Lemma slash_after pre w post : word w -> ((List.length pre + List.length w <? List.length (pre ++ w ++ post) - 1)%nat && is_slash (nth_error (pre ++ w ++ post) (List.length pre + List.length w + 1)) = true <-> exists c t, post = c :: %"/" ++ t).
Proof.
  intro W. rewrite app_assoc, nth_error_app2 by (rewrite app_length; lia). rewrite !app_length. replace (List.length pre + List.length w + 1 - (List.length pre + List.length w)) with 1 by lia.
  destruct post as [|c [|d post]]; cbn [nth_error is_slash List.length].
  - rewrite Bool.andb_false_r. split; [discriminate|intros (? & ? & E); discriminate E].
  - rewrite Bool.andb_false_r. split; [discriminate|intros (? & ? & E); discriminate E].
  - rewrite (proj2 (Nat.ltb_lt _ _)) by lia. cbn [andb]. split.
    + intro E. apply Ascii.eqb_eq in E as ->. exists c, post. reflexivity.
    + intros (? & ? & E). injection E as _ -> _. reflexivity.
Qed.
Lemma other_word w n : word w -> renamed w n -> forall post, w ++ post <> n ++ post.
Proof.
  intros W R post E. apply app_inv_tail in E. subst n.
  destruct W as (s & k & y & l & a & r & k' & E & Ls & Lk & _). assert (K : exists c d t, w = c :: d :: t /\ d <> "t"%char /\ d <> "T"%char).
  { destruct Ls as [(x & -> & _)| ->].
    - destruct Lk as [(z & -> & Lz)| ->]; rewrite E; cbn [app]; [exists x, z|unfold kelvin; exists x, (ascii_of_N 226)]; eexists; (split; [reflexivity|]); split; intro K; try discriminate K; subst; discriminate Lz.
    - rewrite E. unfold long_s. exists (ascii_of_N 197), (ascii_of_N 191). eexists. split; [reflexivity|]. split; intro K; discriminate K. }
  destruct K as (c & d & t & -> & N1 & N2). destruct R as [(E1 & E2)|[(_ & _ & E2)|(_ & E2)]]; injection E2; intros; subst; contradiction.
Qed.
(** ** C105: the text *)
Theorem C105_text_partial : forall s, once_only s -> exists s' changed, replaceSkylark s = Some (s', changed) /\ renewed s s' /\ (changed = true <-> s' <> s) /\
  (changed = true <-> exists pre w post, occurs s pre w post /\ ~ in_url pre post).
Proof.
  intros s U. unfold replaceSkylark.
  assert (D : (forall pre w post, ~ occurs s pre w post) \/ exists pre w post, occurs s pre w post).
  { clear U. induction s as [|c s [N|(pre & w & post & E & W)]].
    - left. intros pre w post (E & W). destruct (word_start w W) as (c & t & ->). destruct pre; discriminate E.
    - destruct (after_skylark (c :: s)) as [r|] eqn:A.
      + apply word_spec in A as (w & W & A). right. exists [], w, r. split; auto.
      + left. intros [|d pre] w post (E & W).
        * assert (K : None = Some post); [|discriminate K]. rewrite <- A. apply word_spec. eauto.
        * cbn [app] in E. injection E as -> E. apply (N pre w post). split; auto.
    - right. exists (c :: pre), w, post. split; auto. cbn [app]. congruence. }
  destruct D as [N|(pre & w & post & O)].
  - rewrite (find_none s N). cbn [fold_left]. exists s, false. rewrite (proj2 (beq_eq s s) eq_refl). split; [reflexivity|]. split; [now apply rn_none|]. split; [split; [discriminate|contradiction]|]. split; [discriminate|]. intros (pre & w & post & O & _). exfalso. eapply N; eauto.
  - rewrite (find_once pre s w post 0 O U). cbn [fold_left]. unfold replace_match. cbn [plus]. pose proof O as (E & W). pose proof (slash_before pre (w ++ post)) as Sb. pose proof (slash_after pre w post W) as Sa. rewrite <- E in Sb, Sa. change (0 + List.length pre) with (List.length pre).
    destruct ((0 <? List.length pre)%nat && is_slash (nth_error s (List.length pre - 1))) eqn:B.
    { exists s, false. rewrite (proj2 (beq_eq s s) eq_refl). split; [reflexivity|]. assert (Q : in_url pre post) by (left; now apply Sb). split; [eapply rn_url; eauto|]. split; [split; [discriminate|contradiction]|]. split; [discriminate|]. intros (pre' & w' & post' & O' & Q'). exfalso. apply Q'. assert (pre' = pre) by (eapply U; eauto). subst pre'. left. now apply Sb. }
    destruct ((List.length pre + List.length w <? List.length s - 1)%nat && is_slash (nth_error s (List.length pre + List.length w + 1))) eqn:A.
    { exists s, false. rewrite (proj2 (beq_eq s s) eq_refl). split; [reflexivity|]. assert (Q : in_url pre post) by (right; now apply Sa). split; [eapply rn_url; eauto|]. split; [split; [discriminate|contradiction]|]. split; [discriminate|].
      intros (pre' & w' & post' & (E' & W') & Q'). exfalso. apply Q'. assert (pre' = pre) by (apply (U pre' w' post' pre w post); split; auto). subst pre'.
      assert (K : post' = post); [|now subst post']. rewrite E in E'. apply app_inv_head in E'. pose proof (proj2 (word_spec (w ++ post) post) (ex_intro _ w (conj W eq_refl))) as K1. pose proof (proj2 (word_spec (w' ++ post') post') (ex_intro _ w' (conj W' eq_refl))) as K2. rewrite E' in K1. rewrite K1 in K2. now injection K2. }
    assert (Q : ~ in_url pre post) by (intros [K|K]; [apply Sb in K|apply Sa in K]; discriminate K).
    assert (Ln : (List.length pre + List.length w <=? List.length s)%nat = true) by (apply Nat.leb_le; rewrite E, !app_length; lia). rewrite Ln.
    assert (Ef : firstn (List.length pre) s = pre) by (rewrite E, firstn_app, firstn_all, Nat.sub_diag; cbn [firstn]; apply app_nil_r).
    assert (Em : firstn (List.length pre + List.length w - List.length pre) (skipn (List.length pre) s) = w).
    { replace (List.length pre + List.length w - List.length pre) with (List.length w) by lia. rewrite E, skipn_app, skipn_all, Nat.sub_diag. cbn [app skipn]. rewrite firstn_app, firstn_all, Nat.sub_diag. cbn [firstn]. apply app_nil_r. }
    assert (Ee : skipn (List.length pre + List.length w) s = post).
    { rewrite E, app_assoc, skipn_app. rewrite skipn_all2 by (rewrite app_length; lia). rewrite app_length, Nat.sub_diag. reflexivity. }
    rewrite Ef, Em, Ee. exists (pre ++ skylarkToStarlark w ++ post), true.
    assert (Nq : pre ++ skylarkToStarlark w ++ post <> s). { rewrite E. intro K. apply app_inv_head in K. exact (other_word w _ W (renamed_spec w) post (eq_sym K)). }
    rewrite (proj2 (beq_neq _ _) Nq). split; [reflexivity|]. split; [eapply rn_word; eauto using renamed_spec|]. split; [split; auto|]. split; eauto 6.
Qed.
Print Assumptions C105_text_partial.
(** With two words the second one is replaced at the wrong place *)
Theorem C105_twice_refuted : replaceSkylark %"a skylark b Skylark c" = Some (%"a starlark bstarlarkk c", true).
Proof. vm_compute. reflexivity. Qed.
Print Assumptions C105_twice_refuted.
(** ... or the linter panics (with the other characters the word is longer than its replacement) *)
Theorem C105_panic_refuted : exists w, word w /\ replaceSkylark (w ++ w) = None.
Proof.
  exists (long_s ++ kelvin ++ %"ylar" ++ kelvin). split; [|vm_compute; reflexivity]. exists long_s, kelvin, %"y", %"l", %"a", %"r", kelvin. split; [reflexivity|].
  split; [auto|]. split; [auto|]. split; [eexists; split; reflexivity|]. split; [eexists; split; reflexivity|]. split; [eexists; split; reflexivity|]. split; [eexists; split; reflexivity|auto].
Qed.
Print Assumptions C105_panic_refuted.
(** A directory of that name is renamed, and a word before a space and a slash is not. *)
Theorem C105_url_refuted : replaceSkylark %"skylark/docs" = Some (%"starlark/docs", true) /\ replaceSkylark %"skylark /docs" = Some (%"skylark /docs", false).
Proof. split; vm_compute; reflexivity. Qed.
Print Assumptions C105_url_refuted.

(** ** Comments *)
Definition disabled (t : bytes) : Prop := exists a b, t = a ++ %"disable=skylark-docstring" ++ b.
Definition outdated (t : bytes) : Prop := ~ disabled t /\ exists pre w post, occurs t pre w post /\ ~ in_url pre post.
(** A comment and the one in its place *)
Definition new_text (c c' : comment) : Prop := c_start c' = c_start c /\ ((disabled (c_tok c) /\ c_tok c' = c_tok c) \/ (~ disabled (c_tok c) /\ renewed (c_tok c) (c_tok c'))).
Definition texts (e : expr) : list comment := c_before (com e) ++ c_suffix (com e) ++ c_after (com e).
Definition last_outdated (l : list comment) (c : comment) : Prop := exists a b, l = a ++ c :: b /\ outdated (c_tok c) /\ Forall (fun d => ~ outdated (c_tok d)) b.
(** What is found in a node: nothing if no comment has the old name, otherwise the last comment with it, and all the new comments *)
Definition comment_found (e : expr) (b : list (expr * comment * comments)) : Prop :=
  (b = [] /\ Forall (fun c => ~ outdated (c_tok c)) (texts e)) \/
  exists c b1 s1 a1, b = [(e, c, Comments b1 s1 a1)] /\ last_outdated (texts e) c /\
    Forall2 new_text (c_before (com e)) b1 /\ Forall2 new_text (c_suffix (com e)) s1 /\ Forall2 new_text (c_after (com e)) a1.

Lemma new_comment_spec c : once_only (c_tok c) -> exists c' b, new_comment c = Some (c', b) /\ new_text c c' /\ (b = true <-> outdated (c_tok c)).
Proof.
  intro U. unfold new_comment, new_text, outdated. pose proof (CallProofs.contains_spec %"disable=skylark-docstring" (c_tok c)) as P. fold (disabled (c_tok c)) in P.
  destruct (contains %"disable=skylark-docstring" (c_tok c)).
  - exists c, false. assert (D : disabled (c_tok c)) by now apply P. split; [auto|]. split; [auto|]. split; [discriminate|]. intros (N & _). contradiction.
  - assert (N : ~ disabled (c_tok c)) by (intro K; apply P in K; discriminate K). destruct (C105_text_partial _ U) as (t & b & E & R & _ & B). rewrite E. exists (Comment (c_start c) t), b. split; [reflexivity|]. split; [auto|]. rewrite B. split; [auto|]. now intros (_ & ?).
Qed.
Lemma new_comments_spec l : Forall (fun c => once_only (c_tok c)) l -> exists l' last, new_comments l = Some (l', last) /\ Forall2 new_text l l' /\
  match last with Some c => last_outdated l c | None => Forall (fun c => ~ outdated (c_tok c)) l end.
Proof.
  induction l as [|c l IH]; intro F; [exists [], None; cbn; auto|]. inversion_clear F. destruct (new_comment_spec c H) as (c' & b & E & T & B). destruct (IH H0) as (l' & last & E' & F' & L). cbn [new_comments]. rewrite E, E'.
  eexists (c' :: l'), _. split; [reflexivity|]. split; [now constructor|]. destruct last as [d|].
  - destruct L as (p & q & -> & O & N). exists (c :: p), q. auto.
  - destruct b.
    + exists [], l. split; auto. split; auto. now apply B.
    + constructor; auto. intro K. apply B in K. discriminate K.
Qed.
Lemma last_app l1 l2 o1 o2 : match o1 with Some c => last_outdated l1 c | None => Forall (fun c => ~ outdated (c_tok c)) l1 end ->
  match o2 with Some c => last_outdated l2 c | None => Forall (fun c => ~ outdated (c_tok c)) l2 end ->
  match last_of o1 o2 with Some c => last_outdated (l1 ++ l2) c | None => Forall (fun c => ~ outdated (c_tok c)) (l1 ++ l2) end.
Proof.
  intros H1 H2. destruct o2 as [d|]; cbn [last_of].
  - destruct H2 as (a & b & -> & O & N). exists (l1 ++ a), b. rewrite <- app_assoc. auto.
  - destruct o1 as [d|].
    + destruct H1 as (a & b & -> & O & N). exists a, (b ++ l2). rewrite <- app_assoc. split; auto. split; auto. apply Forall_app; auto.
    + apply Forall_app; auto.
Qed.
Lemma node_comments_spec e : Forall (fun c => once_only (c_tok c)) (texts e) -> exists r, node_comments e = Some r /\ comment_found e (opt_list (fun x => x) r).
Proof.
  unfold texts. intro F. apply Forall_app in F as (F1 & F). apply Forall_app in F as (F2 & F3).
  destruct (new_comments_spec _ F1) as (b & lb & E1 & G1 & L1). destruct (new_comments_spec _ F2) as (s & ls & E2 & G2 & L2). destruct (new_comments_spec _ F3) as (a & la & E3 & G3 & L3).
  unfold node_comments. rewrite E1, E2, E3. eexists. split; [reflexivity|]. pose proof (last_app _ _ _ _ (last_app _ _ _ _ L1 L2) L3) as L. rewrite <- app_assoc in L. unfold comment_found, texts.
  destruct (last_of (last_of lb ls) la) as [c|]; cbn [opt_list].
  - right. exists c, b, s, a. auto 10.
  - left. auto.
Qed.
(** Every comment in the file has the word at most once *)
Definition simple_comments (f : expr) : Prop := forall p e, node_at children f p = Some e -> Forall (fun c => once_only (c_tok c)) (texts e).
Theorem C105_comments : forall f, simple_comments f -> exists found, skylarkCommentWarning f = Some found /\ found_in comment_found f found.
Proof.
  intros f S. unfold skylarkCommentWarning, walk_nodes.
  destruct (C28_walk_preorder f) as (ps & So & _ & I & F).
  assert (G : exists rs, all_some (flat_map (fun e => [node_comments e]) (map fst (Walk f))) = Some rs /\
    Forall2 (fun p b => exists e, node_at children f p = Some e /\ comment_found e b) ps (map (opt_list (fun x => x)) rs)).
  { clear So I. induction F as [|p q ps l [A _] F IH]; [exists []; cbn; auto|]. destruct IH as (rs & E & H). destruct (node_comments_spec (fst q) (S p (fst q) A)) as (r & Er & Hr).
    exists (r :: rs). cbn [map flat_map app all_some]. rewrite Er. cbn. rewrite E. split; [reflexivity|]. constructor; eauto. }
  destruct G as (rs & E & H). rewrite E. eexists. split; [reflexivity|]. exists ps, (map (opt_list (fun x => x)) rs). split; auto. split; auto. split; auto. now rewrite flat_map_concat_map.
Qed.
Print Assumptions C105_comments.

(** ** Docstrings *)
(** What is found in the docstring of some statements *)
Definition docstring_found (stmts : list (option expr)) (b : list (strlit * bytes)) : Prop :=
  (b = [] /\ forall s, first_statement stmts (EStr s) -> forall pre w post, occurs (s_value s) pre w post -> in_url pre post) \/
  exists s v pre w post, b = [(s, v)] /\ first_statement stmts (EStr s) /\ renewed (s_value s) v /\ occurs (s_value s) pre w post /\ ~ in_url pre post.
(** ... of the functions at the top of the file *)
Inductive functions_found : list (option expr) -> list (strlit * bytes) -> Prop :=
  | fu_nil : functions_found [] []
  | fu_def c p ps body n q k m t stmts b l : docstring_found (map Some body) b -> functions_found stmts l -> functions_found (Some (EDef c p ps body n q k m t) :: stmts) (b ++ l)
  | fu_other o stmts l : (forall c p ps body n q k m t, o <> Some (EDef c p ps body n q k m t)) -> functions_found stmts l -> functions_found (o :: stmts) l.
Definition simple_doc (stmts : list (option expr)) : Prop := forall s, first_statement stmts (EStr s) -> once_only (s_value s).
Definition simple_docs (stmts : list (option expr)) : Prop := simple_doc stmts /\ forall c p ps body n q k m t, In (Some (EDef c p ps body n q k m t)) stmts -> simple_doc (map Some body).
Lemma in_url_dec pre post : in_url pre post \/ ~ in_url pre post.
Proof.
  assert (A : (exists t, pre = t ++ %"/") \/ ~ exists t, pre = t ++ %"/").
  { destruct pre as [|c pre] using rev_ind; [right; intros ([|? ?] & E); discriminate E|]. clear IHpre. destruct (Ascii.ascii_dec c "/"%char) as [->|N]; [left; eauto|]. right. intros (t & E). apply app_inj_tail in E as (_ & ->). contradiction. }
  assert (B : (exists c t, post = c :: %"/" ++ t) \/ ~ exists c t, post = c :: %"/" ++ t).
  { destruct post as [|c [|d post]]; try (right; intros (? & ? & E); discriminate E). destruct (Ascii.ascii_dec d "/"%char) as [->|N]; [left; exists c, post; reflexivity|]. right. intros (? & ? & E). injection E as _ -> _. contradiction. }
  unfold in_url. tauto.
Qed.
Lemma check_docstring stmts : simple_doc stmts -> exists b, checkSkylarkDocstring stmts = Some b /\ docstring_found stmts b.
Proof.
  intro S. unfold checkSkylarkDocstring, docstring_found. pose proof (docstring_spec stmts) as D. destruct (getDocstring stmts) as [[e|] b].
  - destruct D as (F & B).
    assert (Uq : forall s, first_statement stmts (EStr s) -> e = EStr s) by (intros s K; exact (first_fun _ _ _ F K)).
    destruct b.
    + destruct (proj1 B eq_refl) as (s & ->). destruct (C105_text_partial _ (S s F)) as (v & ch & E & R & _ & C). rewrite E. destruct ch.
      * destruct (proj1 C eq_refl) as (pre & w & post & O & N). eexists. split; [reflexivity|]. right. eauto 10.
      * exists []. split; [reflexivity|]. left. split; auto. intros s' K pre w post O. apply Uq in K. injection K as <-. destruct (in_url_dec pre post) as [|N]; auto. assert (K : false = true) by (apply C; eauto). discriminate K.
    + exists []. split; [destruct e; reflexivity|]. left. split; auto. intros s K. apply Uq in K. assert (X : false = true) by (apply B; eauto). discriminate X.
  - destruct D as (-> & N). exists []. split; auto. left. split; auto. intros s K. now apply N in K.
Qed.
Theorem C105_docstring : forall stmts, simple_docs stmts -> exists a l, skylarkDocstringWarning stmts = Some (a ++ l) /\ docstring_found stmts a /\ functions_found stmts l.
Proof.
  intros stmts (S & F). unfold skylarkDocstringWarning. destruct (check_docstring stmts S) as (a & -> & Ha). clear S.
  match goal with |- context [all_some (map ?g stmts)] => set (G := g) end.
  assert (K : exists r, all_some (map G stmts) = Some r /\ functions_found stmts (List.concat r)).
  { clear Ha a. induction stmts as [|o stmts IH]; [exists []; split; [reflexivity|constructor]|]. destruct IH as (r & E & H); [intros; eapply F; right; eauto|]. cbn [map all_some]. rewrite E.
    destruct o as [e|]; [destruct e|]; try (exists ([] :: r); split; [reflexivity|]; apply fu_other; [intros; discriminate|exact H]).
    unfold G at 1. edestruct check_docstring as (b & Eb & Hb); [eapply F; left; reflexivity|]. rewrite Eb. exists (b :: r). split; [reflexivity|]. cbn [List.concat]. now apply fu_def. }
  destruct K as (r & -> & H). eauto.
Qed.
Print Assumptions C105_docstring.

(** ** An example *)
Lemma find_all_in pre : forall s w post i, occurs s pre w post -> exists b, In (i + List.length pre, b) (find_all i s).
Proof.
  induction pre as [|c pre IH]; intros s w post i (E & W).
  - cbn [app] in E. destruct (word_start w W) as (c & t & ->). assert (A : after_skylark s = Some post) by (apply word_spec; exists (c :: t); auto). rewrite E in *. cbn [app] in *. cbn [find_all]. rewrite A. cbn [app]. eexists. left. f_equal. cbn [List.length]. lia.
  - rewrite E. cbn [app find_all]. destruct (IH (pre ++ w ++ post) w post (S i)) as (b & K); [split; auto|]. exists b. apply in_or_app. right. replace (i + List.length (c :: pre)) with (S i + List.length pre) by (cbn [List.length]; lia). exact K.
Qed.
Lemma once_check s : (List.length (find_all 0 s) <= 1)%nat -> once_only s.
Proof.
  intros L pre w post pre' w' post' O O'. destruct (find_all_in _ _ _ _ 0 O) as (b & K). destruct (find_all_in _ _ _ _ 0 O') as (b' & K'). destruct O as (E & _), O' as (E' & _).
  destruct (find_all 0 s) as [|x [|y l]]; cbn [List.length] in L; try lia; [contradiction|]. destruct K as [K|[]], K' as [K'|[]]. assert (N : List.length pre = List.length pre') by (cbn [plus] in K, K'; congruence).
  assert (P : pre = firstn (List.length pre) s) by (rewrite E, firstn_app, firstn_all, Nat.sub_diag; cbn [firstn]; now rewrite app_nil_r).
  assert (P' : pre' = firstn (List.length pre') s) by (rewrite E', firstn_app, firstn_all, Nat.sub_diag; cbn [firstn]; now rewrite app_nil_r). congruence.
Qed.
Example C105_nontrivial : once_only %"see SKYLARK." /\ replaceSkylark %"see SKYLARK." = Some (%"see STARLARK.", true) /\
  once_only %"//skylark/rules" /\ replaceSkylark %"//skylark/rules" = Some (%"//skylark/rules", false) /\
  match PropApiLints.checked (fun f => [skylarkCommentWarning f]) [%"# Skylark rules"; %"a = 1  # skylark"; %"b = 2  # skylark, disable=skylark-docstring"] with
  | Some [Some fs] => map (fun r => match r with (_, c, n) => (c_tok c, map c_tok (c_before n ++ c_suffix n ++ c_after n)) end) fs = [(%"# skylark", [%"# Starlark rules"; %"# starlark"])]
  | _ => False end /\
  match PropApiLints.checked (fun f => [skylarkDocstringWarning (stmts_of f)]) [ex_q3 ++ %"Skylark." ++ ex_q3; %"def f():"; %"  " ++ ex_q3 ++ %"in skylark" ++ ex_q3] with
  | Some [Some fs] => map (fun r => (s_value (fst r), snd r)) fs = [(%"Skylark.", %"Starlark."); (%"in skylark", %"in starlark")]
  | _ => False end.
Proof.
  split; [apply once_check; vm_compute; lia|]. split; [vm_compute; reflexivity|]. split; [apply once_check; vm_compute; lia|]. split; [vm_compute; reflexivity|]. split; vm_compute; reflexivity.
Qed.
