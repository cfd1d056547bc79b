(** Properties C49, C50, C59, C60: lint suggestions, modes and disabling comments. *)
From Verif Require Import Base BaseProofs Ast Walk WalkSpec WalkProofs PropWalk CallSpec CallProofs LoadsSpec LoadsOrder Lint LintSpec.

Lemma common_firstn a : forall b k, k <= common a b -> firstn k a = firstn k b.
Proof.
  induction a as [|x a IH]; intros [|y b] k H; simpl in H.
  - auto.
  - assert (k = 0) by lia. subst. reflexivity.
  - assert (k = 0) by lia. subst. reflexivity.
  - destruct (Ascii.eqb_spec x y) as [<-|]; [|assert (k = 0) by lia; subst; reflexivity].
    destruct k; simpl; auto. f_equal. apply IH. lia.
Qed.
Lemma common_max p : forall a b, List.length p <= common (p ++ a) (p ++ b).
Proof. induction p as [|x p IH]; intros a b; simpl; [lia|]. rewrite Ascii.eqb_refl. specialize (IH a b). lia. Qed.
Lemma common_le a : forall b, common a b <= List.length a /\ common a b <= List.length b.
Proof.
  induction a as [|x a IH]; intros [|y b]; simpl; try lia. destruct (Ascii.eqb x y); [|lia].
  specialize (IH b). lia.
Qed.
Lemma common_suffix a b k : k <= common (rev a) (rev b) -> skipn (List.length a - k) a = skipn (List.length b - k) b.
Proof.
  intros H. pose proof (common_firstn _ _ _ H) as E. apply (f_equal (@rev ascii)) in E.
  rewrite !firstn_rev, !rev_involutive in E. exact E.
Qed.
Lemma common_rev_max p a b : List.length p <= common (rev (a ++ p)) (rev (b ++ p)).
Proof. rewrite !rev_app_distr. rewrite <- (rev_length p). apply common_max. Qed.

Lemma skipn_add {A} a : forall b (l : list A), skipn b (skipn a l) = skipn (a + b) l.
Proof. induction a as [|a IH]; intros b l; simpl; [reflexivity|]. destruct l; [destruct b; reflexivity|apply IH]. Qed.
Lemma calc_facts old new s e c : calculateDifference old new = (s, e, c) ->
  exists cs, s = common old new /\ e = List.length old - cs /\
    s + cs <= List.length old /\ s + cs <= List.length new /\ cs <= common (rev old) (rev new) /\
    c = firstn (List.length new - cs - s) (skipn s new) /\
    (cs = common (rev old) (rev new) \/ s + cs = List.length old \/ s + cs = List.length new).
Proof.
  unfold calculateDifference. intros H. injection H as <- <- <-.
  destruct (common_le old new) as [A1 A2].
  destruct (common_le (rev old) (rev new)) as [B1 B2]. rewrite rev_length in B1, B2.
  set (cp := common old new) in *. set (cr := common (rev old) (rev new)) in *.
  destruct (Nat.ltb_spec (List.length old) (cp + cr)) as [L1|L1].
  - destruct (Nat.ltb_spec (List.length new) (cp + (List.length old - cp))) as [L2|L2];
      eexists; repeat split; try lia.
  - destruct (Nat.ltb_spec (List.length new) (cp + cr)) as [L2|L2]; eexists; repeat split; try lia.
Qed.

(** C49: the suggested replacement, applied to the old text, gives exactly the new text. *)
Theorem C49_replacement_reproduces_new_text :
  forall old new s e content,
    calculateDifference old new = (s, e, content) -> edits old new s e content.
Proof.
  intros old new s e content H. apply calc_facts in H as (cs & -> & -> & H1 & H2 & H3 & -> & _).
  split; [lia|]. split; [lia|]. unfold splice.
  rewrite (common_firstn old new) by lia. rewrite (common_suffix old new cs) by lia.
  set (k := common old new) in *. set (r := skipn k new).
  assert (E : skipn (List.length new - cs) new = skipn (List.length new - cs - k) r).
  { unfold r. rewrite skipn_add. f_equal. lia. }
  rewrite E. rewrite firstn_skipn. unfold r. apply firstn_skipn.
Qed.
Print Assumptions C49_replacement_reproduces_new_text.

(** C49: no other single replacement removes or inserts fewer bytes. *)
Theorem C49_replacement_is_minimal :
  forall old new s e content s' e' content',
    calculateDifference old new = (s, e, content) -> edits old new s' e' content' ->
    s' <= s /\ e - s <= e' - s' /\ List.length content <= List.length content'.
Proof.
  intros old new s e content s' e' content' H (W1 & W2 & W3).
  apply calc_facts in H as (cs & -> & -> & H1 & H2 & H3 & -> & H4).
  assert (L : List.length new = s' + List.length content' + (List.length old - e')).
  { rewrite <- W3. unfold splice. rewrite !app_length, firstn_length, skipn_length. lia. }
  assert (P1 : s' <= common old new).
  { rewrite <- W3. unfold splice. rewrite <- (firstn_skipn s' old) at 1.
    pose proof (common_max (firstn s' old) (skipn s' old) (content' ++ skipn e' old)).
    rewrite firstn_length in H. lia. }
  assert (P2 : List.length old - e' <= common (rev old) (rev new)).
  { rewrite <- W3. unfold splice. rewrite <- (firstn_skipn e' old) at 2. rewrite app_assoc.
    pose proof (common_rev_max (skipn e' old) (firstn e' old) (firstn s' old ++ content')).
    rewrite skipn_length in H. lia. }
  rewrite firstn_length, skipn_length. split; [lia|]. split; lia.
Qed.
Print Assumptions C49_replacement_is_minimal.
Example C49_nontrivial : (* the case of the comment in the code: prefix and suffix overlap *)
  calculateDifference %"abc" %"abdbc" = (2, 2, %"db") /\ splice %"abc" 2 2 %"db" = %"abdbc" /\
  calculateDifference %"x = [1, 2]" %"x = [2]" = (5, 8, []).
Proof. repeat split. Qed.

(** ** C50 *)
Section Rollback.
  Context {value : Type} (format : heap value -> bytes * heap value).

  Lemma apply_steps rs : forall (h : heap value) defers,
    fold_left (@apply_step value) rs (h, defers) =
    (fun c => assigned h rs c, snd (fold_left (@apply_step value) rs (h, defers))).
  Proof.
    induction rs as [|r rs IH]; intros h defers; simpl; [reflexivity|]. apply IH.
  Qed.
  Definition undo (l : list (nat * value)) (h : heap value) : heap value :=
    fold_left (fun h d => store h (fst d) (snd d)) l h.
  Lemma defers_spec rs : forall (h : heap value) defers,
    exists new, snd (fold_left (@apply_step value) rs (h, defers)) = new ++ defers /\
      forall g c, undo new g c = if existsb (Nat.eqb c) (map (@r_old value) rs) then h c else g c.
  Proof.
    induction rs as [|r rs IH]; intros h defers; simpl.
    - exists []. split; auto.
    - destruct (IH (store h (r_old r) (r_new r)) ((r_old r, h (r_old r)) :: defers)) as (new & E & U).
      exists (new ++ [(r_old r, h (r_old r))]). split; [rewrite E, <- app_assoc; reflexivity|].
      intros g c. unfold undo in *. rewrite fold_left_app. simpl. unfold store at 1.
      destruct (Nat.eqb_spec c (r_old r)) as [->|N]; simpl; [reflexivity|].
      rewrite U. unfold store. destruct (Nat.eqb_spec c (r_old r)); [congruence|]. reflexivity.
  Qed.
End Rollback.

(** C50: the trial formats the file with all replacements applied (the last one to a cell wins);
    afterwards every cell a replacement touched holds what it held before, whatever the formatter
    did to it, and every other cell is as the formatter left it. *)
Theorem C50_rollback :
  forall (value : Type) (format : heap value -> bytes * heap value) h rs out h',
    formatWithFix format h rs = (out, h') ->
    out = fst (format (assigned h rs)) /\
    (forall c, touched rs c -> h' c = h c) /\
    (forall c, ~ touched rs c -> h' c = snd (format (assigned h rs)) c).
Proof.
  intros value format h rs out h' H. unfold formatWithFix in H.
  rewrite (apply_steps rs h []) in H.
  destruct (defers_spec rs h []) as (new & E & U). rewrite E, app_nil_r in H.
  change (fun c => assigned h rs c) with (assigned h rs) in H.
  destruct (format (assigned h rs)) as [o h2]. injection H as <- <-. split; [reflexivity|]. simpl.
  split; intros c T; fold (undo new h2); rewrite U.
  - assert (existsb (Nat.eqb c) (map (@r_old value) rs) = true) as ->; [|reflexivity].
    apply existsb_exists. exists c. split; [exact T|]. apply Nat.eqb_refl.
  - destruct (existsb (Nat.eqb c) (map (@r_old value) rs)) eqn:X; [|reflexivity].
    apply existsb_exists in X as (d & D & X). apply Nat.eqb_eq in X. subst d. contradiction.
Qed.
Print Assumptions C50_rollback.
(** C50: with a formatter that leaves alone the cells no fix touches, the whole file is restored. *)
Theorem C50_rollback_file :
  forall (value : Type) (format : heap value -> bytes * heap value) h rs out h',
    (forall g c, snd (format g) c = g c) ->
    formatWithFix format h rs = (out, h') -> forall c, h' c = h c.
Proof.
  intros value format h rs out h' F H c. apply C50_rollback in H as (_ & H1 & H2).
  destruct (in_dec Nat.eq_dec c (map (@r_old value) rs)) as [T|T]; [auto|].
  rewrite H2 by exact T. rewrite F.
  clear -T. revert h. induction rs as [|r rs IH]; intros h; simpl; [reflexivity|]. simpl in T.
  rewrite IH by tauto. destruct (Nat.eqb_spec c (r_old r)) as [->|]; [|reflexivity]. tauto.
Qed.
Print Assumptions C50_rollback_file.
Example C50_nontrivial : (* two replacements of the same cell, and a formatter that spoils it *)
  let fmt := fun g : heap nat => (%"out", store (store g 0 77) 5 88) in
  let h := fun c => c in
  let rs := [Repl 0 10; Repl 1 11; Repl 0 12] in
  let h' := snd (formatWithFix fmt h rs) in
  assigned h rs 0 = 12 /\ h' 0 = 0 /\ h' 1 = 1 /\ h' 2 = 2 /\ h' 5 = 88.
Proof. repeat split. Qed.

(** ** C59: the lint modes *)
Local Opaque calculateDifference formatWithFix.
Section Modes.
  Context {value : Type} (format : heap value -> bytes * heap value) (disabled : heap value -> Z -> bytes -> bool)
    (fcts : bytes -> option (heap value -> list (lfinding value)))
    (ss : (bytes -> bytes -> bool) -> list bytes -> list bytes)
    (sf : (finding -> finding -> bool) -> list finding -> list finding).
  (** What a category reports on file [h]: its findings that are not disabled. *)
  Definition reported (h : heap value) (cat : bytes) : list (bytes * pos * pos * bytes * bool) :=
    match fcts cat with
    | Some fct => map (lkey cat) (filter (fun w => negb (disabled h (p_line (l_start w)) cat)) (fct h))
    | None => []
    end.
  (** The findings without an automatic fix. *)
  Definition unfixable (k : bytes * pos * pos * bytes * bool) : bool := negb (snd k).


  Definition same (g h : heap value) : Prop := forall c, g c = h c.
  Definition reads_only_cells : Prop :=
    (forall g h, same g h -> forall line cat, disabled g line cat = disabled h line cat) /\
    (forall g h, same g h -> forall cat fct, fcts cat = Some fct -> fct g = fct h).

  Lemma run_warn cat formatted ws : forall h acc,
    exists l, fold_left (run_step format disabled cat formatted ModeWarn) ws (h, acc) = (h, acc ++ l) /\
      map key l = map (lkey cat) (filter (fun w => negb (disabled h (p_line (l_start w)) cat)) ws).
  Proof.
    induction ws as [|w ws IH]; intros h acc; simpl.
    - exists []. rewrite app_nil_r. auto.
    - destruct (disabled h (p_line (l_start w)) cat) eqn:D; [apply IH|].
      assert (E : exists mk, key mk = lkey cat w /\ (match l_repl w with [] | _ => (h, acc ++ [mk]) end) = (h, acc ++ [mk]) /\
        mk = makeFinding (l_start w) (l_end w) cat (l_url w) (l_msg w) true (negb (Nat.eqb (List.length (l_repl w)) 0)) None).
      { eexists. split; [|split; [|reflexivity]]; [reflexivity|]. destruct (l_repl w); reflexivity. }
      destruct E as (mk & K & _ & M). rewrite <- M.
      destruct (IH h (acc ++ [mk])) as (l & E & Q).
      exists (mk :: l). split; [|simpl; rewrite K; f_equal; exact Q].
      destruct (l_repl w); rewrite E, <- app_assoc; reflexivity.
  Qed.
  Lemma run_suggest cat formatted ws : (forall g, same (snd (format g)) g) -> reads_only_cells -> forall h acc,
    exists h' l, fold_left (run_step format disabled cat formatted ModeSuggest) ws (h, acc) = (h', acc ++ l) /\
      same h' h /\
      map key l = map (lkey cat) (filter (fun w => negb (disabled h (p_line (l_start w)) cat)) ws) /\
      Forall2 (fun w n => match n_repl n with
        | None => l_repl w = []
        | Some g => l_repl w <> [] /\ exists h0, same h0 h /\
            edits formatted (fst (format (assigned h0 (l_repl w)))) (g_start g) (g_end g) (g_content g)
        end) (filter (fun w => negb (disabled h (p_line (l_start w)) cat)) ws) l.
  Proof.
    intros F (RD & _).
    induction ws as [|w ws IH]; intros h acc; simpl.
    - exists h, []. rewrite app_nil_r. split; auto. split; [intros c; auto|]. split; [auto|constructor].
    - destruct (disabled h (p_line (l_start w)) cat) eqn:D; [apply IH|].
      destruct (l_repl w) as [|r rs] eqn:R.
      + match goal with |- context [fold_left _ ws (h, ?a ++ [?b])] => destruct (IH h (a ++ [b])) as (h' & l & E & S1 & Q & FF); exists h', (b :: l) end.
        rewrite E, <- app_assoc. split; [reflexivity|]. split; [exact S1|].
        split; [simpl; f_equal; [|exact Q]|constructor; [exact R|exact FF]].
        unfold key, lkey; simpl. rewrite R. reflexivity.
      + destruct (formatWithFix format h (r :: rs)) as [nc h1] eqn:FW.
        destruct (calculateDifference formatted nc) as [[s e] c] eqn:CD.
        assert (S0 : same h1 h). { intros d. apply (C50_rollback_file value format h (r :: rs) nc h1 F FW). }
        match goal with |- context [fold_left _ ws (h1, ?b ++ [?d])] => destruct (IH h1 (b ++ [d])) as (h' & l & E & S1 & Q & FF); exists h', (d :: l) end.
        assert (X : forall l0, filter (fun w0 : lfinding value => negb (disabled h1 (p_line (l_start w0)) cat)) l0
                  = filter (fun w0 : lfinding value => negb (disabled h (p_line (l_start w0)) cat)) l0).
        { intros l0. apply filter_ext. intros w0. rewrite (RD h1 h S0). reflexivity. }
        rewrite X in Q, FF.
        rewrite E, <- app_assoc. split; [reflexivity|].
        split; [intros d; rewrite S1; apply S0|].
        split; [simpl; f_equal; [|exact Q]; unfold key, lkey; simpl; rewrite R; reflexivity|].
        constructor.
        * simpl. rewrite R. split; [discriminate|]. exists h. split; [intros d; reflexivity|].
          apply C50_rollback in FW as (-> & _ & _).
          apply (C49_replacement_reproduces_new_text _ _ _ _ _ CD).
        * clear -FF S0. induction FF as [|w' n ws' l H FF IH]; constructor; auto.
          destruct (n_repl n); auto. destruct H as (H1 & h0 & H2 & H3). split; auto. exists h0. split; auto.
          intros d. rewrite H2. apply S0.
  Qed.
  Lemma all_warn formatted enabled : forall h acc h' l,
    run_all format disabled fcts formatted ModeWarn enabled h acc = Some (h', l) ->
    h' = h /\ exists l0, l = acc ++ l0 /\ map key l0 = flat_map (reported h) enabled.
  Proof.
    induction enabled as [|cat ws IH]; intros h acc h' l H; simpl in H.
    - injection H as <- <-. split; auto. exists []. rewrite app_nil_r. auto.
    - destruct (fcts cat) as [fct|] eqn:C; [|discriminate]. unfold runWarningsFunction in H.
      destruct (run_warn cat formatted (fct h) h []) as (l1 & E & Q). rewrite E in H. simpl in H.
      apply IH in H as (-> & l0 & -> & Q0). split; auto. exists (l1 ++ l0).
      rewrite app_assoc. split; auto. simpl. unfold reported at 1. rewrite C, map_app, Q, Q0. reflexivity.
  Qed.
  Lemma all_suggest formatted enabled : (forall g, same (snd (format g)) g) -> reads_only_cells -> forall h acc h' l,
    run_all format disabled fcts formatted ModeSuggest enabled h acc = Some (h', l) ->
    same h' h /\ exists l0, l = acc ++ l0 /\ map key l0 = flat_map (reported h) enabled.
  Proof.
    intros F RO. induction enabled as [|cat ws IH]; intros h acc h' l H; simpl in H.
    - injection H as <- <-. split; [intros c; auto|]. exists []. rewrite app_nil_r. auto.
    - destruct (fcts cat) as [fct|] eqn:C; [|discriminate]. unfold runWarningsFunction in H.
      destruct (run_suggest cat formatted (fct h) F RO h []) as (h1 & l1 & E & S1 & Q & _). rewrite E in H. simpl in H.
      apply IH in H as (S2 & l0 & -> & Q0). split; [intros c; rewrite S2; apply S1|]. exists (l1 ++ l0).
      rewrite app_assoc. split; auto. simpl. unfold reported at 1. rewrite C, map_app, Q, Q0. f_equal.
      clear -S1 RO. induction ws as [|x ws IH]; simpl; [reflexivity|]. rewrite IH. f_equal.
      unfold reported. destruct (fcts x) as [fx|] eqn:X; [|reflexivity].
      destruct RO as [R1 R2]. rewrite (R2 h1 h S1 x fx X). f_equal. apply filter_ext. intros w. rewrite (R1 h1 h S1). reflexivity.
  Qed.
  Lemma stores_touch c l0 : forall h : heap value, ~ touched l0 c ->
    fold_left (fun h r => store h (r_old r) (r_new r)) l0 h c = h c.
  Proof.
    induction l0 as [|r0 l0 IH]; intros h T; simpl; [reflexivity|].
    unfold touched in T; simpl in T. rewrite IH by (unfold touched; tauto). unfold store.
    destruct (Nat.eqb_spec c (r_old r0)); [exfalso; apply T; left; auto|reflexivity].
  Qed.
  Lemma run_fix cat formatted ws : forall h acc h' l,
    Forall (fun n => n_fixable n = false) acc ->
    fold_left (run_step format disabled cat formatted ModeFix) ws (h, acc) = (h', l) ->
    Forall (fun n => n_fixable n = false) l /\
    (forall c, (forall w, In w ws -> ~ touched (l_repl w) c) -> h' c = h c).
  Proof.
    induction ws as [|w ws IH]; intros h acc h' l FA H; simpl in H.
    - injection H as <- <-. auto.
    - destruct (disabled h (p_line (l_start w)) cat) eqn:D.
      { destruct (IH _ _ _ _ FA H) as [H1 H2]. split; auto. intros c T. apply H2. intros w' I'. apply T. right; auto. }
      destruct (l_repl w) as [|r rs] eqn:R.
      + simpl in H. apply IH in H as [H1 H2]; [|apply Forall_app; split; auto].
        split; auto. intros c T. apply H2. intros w' I'. apply T. right; auto.
      + apply IH in H as [H1 H2]; auto. split; auto. intros c T.
        rewrite H2 by (intros w' I'; apply T; right; auto).
        assert (T0 : ~ touched (r :: rs) c) by (rewrite <- R; apply T; left; auto).
        exact (stores_touch c (r :: rs) h T0).
  Qed.
  Lemma all_fix formatted enabled : forall h acc h' l,
    Forall (fun n => n_fixable n = false) acc ->
    run_all format disabled fcts formatted ModeFix enabled h acc = Some (h', l) ->
    Forall (fun n => n_fixable n = false) l /\
    (forall c, (forall g cat fct w, In cat enabled -> fcts cat = Some fct -> In w (fct g) -> ~ touched (l_repl w) c) -> h' c = h c).
  Proof.
    induction enabled as [|cat ws IH]; intros h acc h' l FA H; simpl in H.
    - injection H as <- <-. auto.
    - destruct (fcts cat) as [fct|] eqn:C; [|discriminate].
      destruct (runWarningsFunction format disabled cat fct formatted ModeFix h) as [h1 l1] eqn:E.
      unfold runWarningsFunction in E. apply run_fix in E as [E1 E2]; [|constructor].
      apply IH in H as [H1 H2]; [|apply Forall_app; auto]. split; auto. intros c T.
      rewrite H2 by (intros g cat' fct' w I1; apply T; right; auto).
      apply E2. intros w I1. apply (T h cat fct w); auto. left; auto.
  Qed.
  Lemma run_all_none formatted md enabled : forall h acc,
    run_all format disabled fcts formatted md enabled h acc = None <-> exists w, In w enabled /\ fcts w = None.
  Proof.
    induction enabled as [|cat ws IH]; intros h acc; simpl.
    - split; [discriminate|intros (w & [] & _)].
    - destruct (fcts cat) as [fct|] eqn:C.
      + destruct (runWarningsFunction format disabled cat fct formatted md h) as [h1 l1]. rewrite IH. split.
        * intros (w & I1 & W). exists w. auto.
        * intros (w & [->|I1] & W); [congruence|]. exists w; auto.
      + split; auto. intros _. exists cat. auto.
  Qed.
End Modes.

Lemma StronglySorted_weaken {A} (R S : A -> A -> Prop) l : (forall x y, R x y -> S x y) -> StronglySorted R l -> StronglySorted S l.
Proof. intros H. induction 1; constructor; auto. eapply Forall_impl; [|eassumption]. auto. Qed.
Lemma sort_lines (sf : (finding -> finding -> bool) -> list finding -> list finding) l :
  sorts sf -> by_line (sf line_less l) /\ Permutation (sf line_less l) l.
Proof.
  intros S. split; [|apply (srt_perm _ S)].
  unfold by_line. pose proof (srt_sorted _ S line_less l) as H.
  eapply StronglySorted_weaken; [|apply H].
  - intros x y Hl. unfold line_less in Hl. apply Z.ltb_ge in Hl. lia.
  - unfold line_less. intros x y _ _ L. apply Z.ltb_lt in L. apply Z.ltb_ge. lia.
  - unfold line_less. intros x y z _ _ _ L1 L2. apply Z.ltb_ge in L1, L2. apply Z.ltb_ge. lia.
Qed.
Lemma flat_map_permutation {A B} (f : A -> list B) l l' : Permutation l l' -> Permutation (flat_map f l) (flat_map f l').
Proof.
  induction 1; simpl; auto.
  - apply Permutation_app_head; auto.
  - rewrite !app_assoc. apply Permutation_app_tail. apply Permutation_app_comm.
  - etransitivity; eauto.
Qed.

(** C59, warn mode: the file is not changed; exactly the findings of the enabled warnings that no
    comment disables are reported, sorted by line. *)
Theorem C59_warn_mode :
  forall (value : Type) format disabled fcts ss sf enabled formatted (h h' : heap value) l,
    sorts ss -> sorts sf ->
    FileWarnings format disabled fcts ss sf enabled formatted ModeWarn h = Some (h', l) ->
    h' = h /\ by_line l /\ Permutation (map key l) (flat_map (reported disabled fcts h) enabled).
Proof.
  intros value format disabled fcts ss sf enabled formatted h h' l S1 S2 H. unfold FileWarnings in H.
  assert (X : exists fm, match run_all format disabled fcts fm ModeWarn (ss blt enabled) h [] with
    | None => None | Some (h1, l1) => Some (h1, sf line_less l1) end = Some (h', l)).
  { destruct formatted; eexists; exact H. }
  clear H. destruct X as [fm H].
  destruct (run_all format disabled fcts fm ModeWarn (ss blt enabled) h []) as [[h1 l1]|] eqn:E; [|discriminate].
  injection H as <- <-. apply all_warn in E as (-> & l0 & -> & Q). split; auto. simpl.
  destruct (sort_lines sf l0 S2) as [B P]. split; auto.
  rewrite (Permutation_map key P), Q. apply flat_map_permutation. apply (srt_perm _ S1).
Qed.
Print Assumptions C59_warn_mode.
(** C59, suggest mode: with a formatter that does not change the file (see C50), the file is
    restored and the same findings are reported. *)
Theorem C59_suggest_mode :
  forall (value : Type) format disabled fcts ss sf enabled formatted (h h' : heap value) l,
    sorts ss -> sorts sf -> (forall g c, snd (format g) c = g c) -> reads_only_cells disabled fcts ->
    FileWarnings format disabled fcts ss sf enabled formatted ModeSuggest h = Some (h', l) ->
    (forall c, h' c = h c) /\ by_line l /\ Permutation (map key l) (flat_map (reported disabled fcts h) enabled).
Proof.
  intros value format disabled fcts ss sf enabled formatted h h' l S1 S2 F RO H. unfold FileWarnings in H.
  assert (X : exists fm g, same g h /\ match run_all format disabled fcts fm ModeSuggest (ss blt enabled) g [] with
    | None => None | Some (h1, l1) => Some (h1, sf line_less l1) end = Some (h', l)).
  { destruct formatted; [exists b, h; split; [intros c; auto|exact H]|].
    specialize (F h). destruct (format h) as [b g]. exists b, g. split; [exact F|exact H]. }
  clear H. destruct X as (fm & g & G & H).
  destruct (run_all format disabled fcts fm ModeSuggest (ss blt enabled) g []) as [[h1 l1]|] eqn:E; [|discriminate].
  injection H as <- <-. apply all_suggest in E as (S & l0 & -> & Q); auto.
  split; [intros c; rewrite S; apply G|]. simpl.
  destruct (sort_lines sf l0 S2) as [B P]. split; auto.
  rewrite (Permutation_map key P), Q.
  assert (R : flat_map (reported disabled fcts g) (ss blt enabled) = flat_map (reported disabled fcts h) (ss blt enabled)).
  { apply flat_map_ext. intros x. unfold reported. destruct (fcts x) as [fx|] eqn:X; [|reflexivity].
    destruct RO as [R1 R2]. rewrite (R2 g h G x fx X). f_equal. apply filter_ext. intros w. rewrite (R1 g h G). reflexivity. }
  rewrite R. apply flat_map_permutation. apply (srt_perm _ S1).
Qed.
Print Assumptions C59_suggest_mode.
(** C49/C59: in suggest mode every finding with an automatic fix carries a replacement that turns
    the formatted file into the formatted file with that fix (and only that fix) applied. *)
Theorem C49_suggestion_is_the_fix :
  forall (value : Type) format disabled (fcts : bytes -> option (heap value -> list (lfinding value))) cat fct formatted (h h' : heap value) l,
    (forall g c, snd (format g) c = g c) -> reads_only_cells disabled fcts ->
    runWarningsFunction format disabled cat fct formatted ModeSuggest h = (h', l) ->
    Forall2 (fun w n => match n_repl n with
        | None => l_repl w = []
        | Some g => l_repl w <> [] /\ exists h0, (forall c, h0 c = h c) /\
            edits formatted (fst (format (assigned h0 (l_repl w)))) (g_start g) (g_end g) (g_content g)
        end) (filter (fun w => negb (disabled h (p_line (l_start w)) cat)) (fct h)) l.
Proof.
  intros value format disabled fcts cat fct formatted h h' l F RO H. unfold runWarningsFunction in H.
  destruct (run_suggest format disabled fcts cat formatted (fct h) F RO h []) as (h1 & l1 & E & _ & _ & FF).
  rewrite E in H. injection H as _ <-. exact FF.
Qed.
Print Assumptions C49_suggestion_is_the_fix.
(** C59, fix mode: no finding that could be fixed is left over, and the only cells that change are
    those some enabled warning asks to replace. *)
Theorem C59_fix_mode :
  forall (value : Type) format disabled fcts ss sf enabled formatted (h h' : heap value) l,
    sorts ss -> sorts sf ->
    FileWarnings format disabled fcts ss sf enabled formatted ModeFix h = Some (h', l) ->
    Forall (fun n => n_fixable n = false) l /\ by_line l /\
    (forall c, (forall g cat fct w, In cat enabled -> fcts cat = Some fct -> In w (fct g) -> ~ touched (l_repl w) c) ->
      h' c = h c).
Proof.
  intros value format disabled fcts ss sf enabled formatted h h' l S1 S2 H. unfold FileWarnings in H.
  assert (X : exists fm, match run_all format disabled fcts fm ModeFix (ss blt enabled) h [] with
    | None => None | Some (h1, l1) => Some (h1, sf line_less l1) end = Some (h', l)).
  { destruct formatted; eexists; exact H. }
  clear H. destruct X as [fm H].
  destruct (run_all format disabled fcts fm ModeFix (ss blt enabled) h []) as [[h1 l1]|] eqn:E; [|discriminate].
  injection H as <- <-. apply all_fix in E as (Q & T); [|constructor].
  destruct (sort_lines sf l1 S2) as [B P]. split; [|split; auto].
  - apply Permutation_sym in P. eapply Permutation_Forall; [exact P|exact Q].
  - intros c H. apply T. intros g cat fct w I1. apply (H g). eapply Permutation_in; [apply (srt_perm _ S1)|exact I1].
Qed.
Print Assumptions C59_fix_mode.
(** C59: only an unknown warning name makes the run fail. *)
Theorem C59_fails_iff_unknown :
  forall (value : Type) format disabled fcts ss sf enabled formatted md (h : heap value),
    sorts ss ->
    (FileWarnings format disabled fcts ss sf enabled formatted md h = None <-> exists w, In w enabled /\ fcts w = None).
Proof.
  intros value format disabled fcts ss sf enabled formatted md h S1. unfold FileWarnings.
  set (q := match md with ModeSuggest => _ | _ => _ end). destruct q as [fm g].
  destruct (run_all format disabled fcts fm md (ss blt enabled) g []) as [[h1 l1]|] eqn:E.
  - split; [discriminate|]. intros (w & I1 & W).
    assert (run_all format disabled fcts fm md (ss blt enabled) g [] = None); [|congruence].
    apply run_all_none. exists w. split; auto. eapply Permutation_in; [apply Permutation_sym, (srt_perm _ S1)|exact I1].
  - split; auto. intros _. apply run_all_none in E as (w & I1 & W). exists w. split; auto.
    eapply Permutation_in; [apply (srt_perm _ S1)|exact I1].
Qed.
Print Assumptions C59_fails_iff_unknown.
Local Transparent calculateDifference formatWithFix.
Example C59_nontrivial :
  let w line cell := LFinding (Pos line 1 0) (Pos line 2 1) %"msg" [] (match cell with 0 => [] | _ => [Repl cell 7] end) in
  let fcts cat := if beq cat %"a" then Some (fun h : heap nat => [w 9%Z 1; w 5%Z 0]) else
                  if beq cat %"b" then Some (fun h => [w 3%Z 2; w 4%Z 3]) else None in
  let run md := FileWarnings (fun h => ([], h)) (fun _ line _ => Z.eqb line 4) fcts isort isort [%"b"; %"a"] None md (fun c => c) in
  option_map (fun r => map (fun n => p_line (n_start n)) (snd r)) (run ModeWarn) = Some [3; 5; 9]%Z /\
  option_map (fun r => map (fun n => p_line (n_start n)) (snd r)) (run ModeFix) = Some [5]%Z /\
  option_map (fun r => (fst r 1, fst r 2, fst r 3)) (run ModeFix) = Some (7, 7, 3).
Proof. vm_compute. repeat split. Qed.

(** ** C60: disabling comments *)
Theorem C60_disabled_iff_comment :
  forall f line warning, DisabledWarning f line warning = true <-> disabled_at f line warning.
Proof.
  intros f line warning. unfold DisabledWarning, disabled_at. rewrite existsb_exists.
  destruct (C28_walk_preorder f) as (ps & _ & _ & I1 & F1).
  assert (D : forall n, disables line warning n = true <-> covers n line /\
    (marked (to_lower (%"buildifier: disable=" ++ warning)) n \/ marked (to_lower (%"buildozer: disable=" ++ warning)) n)).
  { intros n. unfold disables, covers.
    set (st := match c_before (com n) with c :: _ => c_start c | [] => start_pos n end).
    set (en := match rev (c_after (com n)) with c :: _ => pos_add (c_start c) (c_tok c) | [] => end_pos n end).
    assert (CC : forall t, ContainsComments n t = true <-> marked (to_lower t) n).
    { intros t. rewrite <- has_comment_spec. unfold ContainsComments, StrList.has_comment. rewrite !existsb_app, !orb_true_iff. tauto. }
    unfold HasDisablingComment.
    destruct ((line <? p_line st) || (p_line en <? line))%Z eqn:L.
    - split; [discriminate|]. intros [[H1 H2] _]. apply orb_true_iff in L as [L|L]; apply Z.ltb_lt in L; lia.
    - apply orb_false_iff in L as [L1 L2]. apply Z.ltb_ge in L1, L2. rewrite orb_true_iff, !CC. tauto. }
  split.
  - intros (call & IN & H). apply D in H.
    assert (exists p, In p ps /\ node_at children f p = Some (fst call)) as (p & _ & Np).
    { clear -F1 IN. induction F1 as [|p c ps' cs [A B] F1 IH]; [destruct IN|].
      destruct IN as [->|IN]; [exists p; simpl; auto|]. destruct (IH IN) as (q & Q1 & Q2). exists q; simpl; auto. }
    exists p, (fst call). tauto.
  - intros (p & n & Np & H).
    assert (IP : In p ps) by (apply I1; congruence).
    assert (exists call, In call (Walk f) /\ node_at children f p = Some (fst call)) as (call & IN & E).
    { clear -F1 IP. induction F1 as [|q c ps' cs [A B] F1 IH]; [destruct IP|].
      destruct IP as [->|IP]; [exists c; simpl; auto|]. destruct (IH IP) as (call & Q1 & Q2). exists call; simpl; auto. }
    exists call. split; auto. apply D. assert (n = fst call) as <- by congruence. exact H.
Qed.
Print Assumptions C60_disabled_iff_comment.
(** C60: the comment is matched as a substring, so that the comment that disables one warning also
    disables every warning whose name is a prefix of it: 'attr-licenses' disables 'attr-license'. *)
Theorem C60_exact_name_refuted :
  exists f line, DisabledWarning f line %"attr-license" = true /\
    Forall (fun call => forall c, In c (c_before (com (fst call)) ++ c_suffix (com (fst call)) ++ c_after (com (fst call))) ->
      c_tok c = %"# buildifier: disable=attr-licenses") (Walk f).
Proof.
  exists (EFile no_com (FMeta [] [] [] TypeBzl)
     [Some (EIdent (Ident (Comments [] [Comment (Pos 1 3 2) %"# buildifier: disable=attr-licenses"] []) (Pos 1 1 0) %"x"))]), 1%Z.
  split; [reflexivity|]. vm_compute. repeat constructor; intros c; intros H; repeat destruct H as [<-|H]; auto; destruct H.
Qed.
Print Assumptions C60_exact_name_refuted.
(** Multi-node files: the comment counts for every line its node covers, and only for those. *)
Example C60_nontrivial :
  let id c l n := Some (EIdent (Ident c (Pos l 1 0) n)) in
  let f := EFile no_com (FMeta [] [] [] TypeBzl)
     [id (Comments [Comment (Pos 1 1 0) %"# Buildifier: Disable=PRINT"] [] []) 2%Z %"x"; id no_com 3%Z %"y"] in
  map (fun l => DisabledWarning f l %"print") [1; 2; 3]%Z = [true; true; false].
Proof. reflexivity. Qed.
