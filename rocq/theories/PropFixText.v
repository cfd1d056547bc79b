(** C76 (splitting options) and C78 (explicit labels in commands). *)
From Verif Require Import Base BaseProofs Utf8 Ast Rewrite RuleApi RuleSpec RuleProofs EditList EditListSpec EditListProofs EditFile EditFileSpec CallProofs PropTop Fix PropFixAttr.

(** ** C76: splitting options *)
(** How options are split into words: at blanks (space and tab), except in single or double quotes; a backslash protects the next
    character.  None: a quote or a backslash is left open. *)
Inductive quoting := Bare | InSingle | InDouble.
Definition blank (c : ascii) : bool := Ascii.eqb c c_sp || Ascii.eqb c c_tab.
Definition word_so_far (cur : option bytes) : bytes := match cur with Some w => w | None => [] end.
Definition close (cur : option bytes) (l : list bytes) : list bytes := match cur with Some w => w :: l | None => l end.
Fixpoint shell_words (q : quoting) (cur : option bytes) (s : bytes) : option (list bytes) :=
  match q, s with
  | Bare, [] => Some (close cur [])
  | _, [] => None
  | Bare, c :: s' =>
      if Ascii.eqb c c_sq then shell_words InSingle (Some (word_so_far cur)) s'
      else if Ascii.eqb c c_quote then shell_words InDouble (Some (word_so_far cur)) s'
      else if Ascii.eqb c c_bs then match s' with d :: s'' => shell_words Bare (Some (word_so_far cur ++ [d])) s'' | [] => None end
      else if blank c then option_map (close cur) (shell_words Bare None s')
      else shell_words Bare (Some (word_so_far cur ++ [c])) s'
  | InSingle, c :: s' => if Ascii.eqb c c_sq then shell_words Bare cur s' else shell_words InSingle (Some (word_so_far cur ++ [c])) s'
  | InDouble, c :: s' =>
      if Ascii.eqb c c_quote then shell_words Bare cur s'
      else if Ascii.eqb c c_bs then match s' with d :: s'' => shell_words InDouble (Some (word_so_far cur ++ [d])) s'' | [] => None end
      else shell_words InDouble (Some (word_so_far cur ++ [c])) s'
  end.
(** The options that a list stands for: the words of its strings, and its other elements as they are. *)
Definition options (l : list expr) : list (option (list bytes) + expr) :=
  map (fun x => match x with EStr s => inl (shell_words Bare None (s_value s)) | _ => inr x end) l.
Fixpoint flat_options (l : list (option (list bytes) + expr)) : option (list (bytes + expr)) :=
  match l with
  | [] => Some []
  | inl None :: _ => None
  | inl (Some ws) :: l' => option_map (app (map inl ws)) (flat_options l')
  | inr x :: l' => option_map (cons (inr x)) (flat_options l')
  end.
(** A string without quotes and backslashes, and without white space other than blanks. *)
Definition simple_option (v : bytes) : Prop :=
  ~ In c_sq v /\ ~ In c_quote v /\ ~ In c_bs v /\ forall r, In r (runes v) -> is_space r = true -> r = 32%N \/ r = 9%N.

Lemma decode_high s : match s with
  | [] => True
  | b :: _ => let (r, w) := decode_rune s in (1 <= w)%nat /\
      if (bN b <? 128)%N then r = bN b /\ w = 1%nat else (128 <= r)%N /\ Forall (fun c => (128 <= bN c)%N) (firstn w s)
  end.
Proof.
  destruct s as [|b s]; auto. unfold decode_rune. destruct (bN b <? 128)%N eqn:E; [auto|]. apply N.ltb_ge in E.
  assert (One : (1 <= 1)%nat /\ (128 <= rune_error)%N /\ Forall (fun c => (128 <= bN c)%N) (firstn 1 (b :: s))) by (split; [auto|split; [unfold rune_error; lia|constructor; auto]]).
  assert (Rg : forall lo hi c, in_range lo hi c = true -> (lo <= bN c)%N) by (intros lo hi c H'; unfold in_range in H'; apply andb_true_iff in H' as [H' _]; apply N.leb_le in H'; exact H').
  assert (Ct : forall c, is_cont c = true -> (128 <= bN c)%N) by (intros c H; eapply Rg; exact H).
  destruct (bN b <? 194)%N eqn:E1; [auto|]. apply N.ltb_ge in E1. destruct (bN b <? 224)%N eqn:E2.
  - destruct s as [|b1 s]; [auto|]. destruct (is_cont b1) eqn:C1; [|auto]. split; [lia|]. split; [|repeat constructor; auto]. apply Ct in C1. unfold cont_bits. lia.
  - apply N.ltb_ge in E2. destruct (bN b <? 240)%N eqn:E3.
    + destruct s as [|b1 [|b2 s]]; auto. destruct (in_range _ _ b1 && is_cont b2) eqn:C; [|auto]. apply andb_true_iff in C as [C1 C2]. split; [lia|]. apply Rg in C1.
      assert (L1 : (128 <= bN b1)%N) by (destruct (bN b =? 224)%N; lia).
      split; [|repeat constructor; auto]. unfold cont_bits. destruct (N.eqb_spec (bN b) 224); lia.
    + apply N.ltb_ge in E3. destruct (bN b <? 245)%N eqn:E4; [|auto]. destruct s as [|b1 [|b2 [|b3 s]]]; auto. destruct (in_range _ _ b1 && is_cont b2 && is_cont b3) eqn:C; [|auto]. apply andb_true_iff in C as [C C3]. apply andb_true_iff in C as [C1 C2]. split; [lia|]. apply Rg in C1.
      assert (L1 : (128 <= bN b1)%N) by (destruct (bN b =? 240)%N; lia).
      split; [|repeat constructor; auto]. unfold cont_bits. destruct (N.eqb_spec (bN b) 240); lia.
Qed.
(** Characters that stand for themselves. *)
Definition inert (c : ascii) : Prop := c <> c_sq /\ c <> c_quote /\ c <> c_bs /\ blank c = false.
Lemma words_inert w : forall cur s, w <> [] -> Forall inert w -> shell_words Bare cur (w ++ s) = shell_words Bare (Some (word_so_far cur ++ w)) s.
Proof.
  assert (G : forall w v s, Forall inert w -> shell_words Bare (Some v) (w ++ s) = shell_words Bare (Some (v ++ w)) s).
  { clear w. induction w as [|c w IH]; intros v s F; [rewrite app_nil_r; reflexivity|]. destruct (Forall_inv F) as (H1 & H2 & H3 & H4). pose proof (Forall_inv_tail F) as F'. cbn [app shell_words].
    rewrite (proj2 (Ascii.eqb_neq _ _) H1), (proj2 (Ascii.eqb_neq _ _) H2), (proj2 (Ascii.eqb_neq _ _) H3), H4. cbn [word_so_far]. rewrite IH, <- app_assoc by auto. reflexivity. }
  intros cur s N F. destruct w as [|c w]; [congruence|]. destruct (Forall_inv F) as (H1 & H2 & H3 & H4). pose proof (Forall_inv_tail F) as F'. cbn [app shell_words].
  rewrite (proj2 (Ascii.eqb_neq _ _) H1), (proj2 (Ascii.eqb_neq _ _) H2), (proj2 (Ascii.eqb_neq _ _) H3), H4. rewrite G, <- app_assoc by auto. reflexivity.
Qed.
Lemma blank_rune b : blank b = true -> bN b = 32%N \/ bN b = 9%N.
Proof. unfold blank. intro H. apply orb_true_iff in H as [H|H]; apply Ascii.eqb_eq in H; subst; [left|right]; reflexivity. Qed.
Lemma blank_iff b : blank b = true <-> (bN b = 32 \/ bN b = 9)%N.
Proof.
  split; [apply blank_rune|]. unfold blank, c_sp, c_tab, bN. intros [H|H]; rewrite <- (ascii_N_embedding b), H; reflexivity.
Qed.
Definition quiet (v : bytes) : Prop := ~ In c_sq v /\ ~ In c_quote v /\ ~ In c_bs v.
Lemma fields_words : forall fuel s cur, (List.length s <= fuel)%nat -> quiet s -> (forall r, In r (runes_fuel fuel s) -> is_space r = true -> r = 32%N \/ r = 9%N) -> Forall inert cur ->
  shell_words Bare (match cur with [] => None | _ => Some cur end) s = Some (fields_loop fuel cur s) /\ Forall (fun w => w <> [] /\ Forall inert w) (fields_loop fuel cur s).
Proof.
  assert (Fl : forall cur l, Forall inert cur -> Forall (fun w => w <> [] /\ Forall inert w) l -> Forall (fun w => w <> [] /\ Forall inert w) (flush cur l)).
  { intros [|c cur] l F H; cbn; auto. constructor; auto. split; [discriminate|auto]. }
  assert (Cl : forall cur l, close (match cur with [] => None | _ => Some cur end) l = flush cur l) by (intros [|c cur] l; reflexivity).
  induction fuel as [|n IH]; intros s cur L Q R F.
  - destruct s; [|cbn in L; lia]. cbn [shell_words fields_loop]. rewrite Cl. auto.
  - destruct s as [|b s]; [cbn [shell_words fields_loop]; rewrite Cl; auto|].
    cbn [fields_loop]. pose proof (decode_high (b :: s)) as D. cbv zeta beta match in D. cbn [runes_fuel] in R. destruct (decode_rune (b :: s)) as [r w]. destruct D as [W D].
    assert (Len : (List.length (skipn w (b :: s)) <= n)%nat) by (rewrite skipn_length; cbn [List.length] in *; clear - W L; lia).
    assert (Qs : quiet (skipn w (b :: s))).
    { destruct Q as (Q1 & Q2 & Q3). assert (X : forall c, In c (skipn w (b :: s)) -> In c (b :: s)) by (intros c H; rewrite <- (firstn_skipn w (b :: s)); apply in_or_app; auto). split; [|split]; auto. }
    assert (Rs : forall r0, In r0 (runes_fuel n (skipn w (b :: s))) -> is_space r0 = true -> r0 = 32%N \/ r0 = 9%N) by (intros r0 H; apply R; right; auto).
    destruct (is_space r) eqn:Sp.
    + assert (Hr : r = 32%N \/ r = 9%N) by (apply R; [left|]; auto). destruct (bN b <? 128)%N eqn:B; [|destruct D; lia]. destruct D as [-> ->].
      cbn [skipn] in *. apply blank_iff in Hr. destruct (IH s [] Len Qs Rs (Forall_nil _)) as [I1 I2]. split; [|apply Fl; auto].
      assert (Nb : inert b \/ True) by auto. destruct Q as (Q1 & Q2 & Q3). cbn [shell_words].
      rewrite (proj2 (Ascii.eqb_neq b c_sq)), (proj2 (Ascii.eqb_neq b c_quote)), (proj2 (Ascii.eqb_neq b c_bs)), Hr by (intro; subst; first [apply Q1; left; reflexivity|apply Q2; left; reflexivity|apply Q3; left; reflexivity]).
      cbv iota in I1. rewrite I1. cbn. rewrite Cl. auto.
    + assert (Fi : Forall inert (firstn w (b :: s))).
      { destruct Q as (Q1 & Q2 & Q3). assert (X : forall c, In c (firstn w (b :: s)) -> In c (b :: s)) by (intros c H; rewrite <- (firstn_skipn w (b :: s)); apply in_or_app; auto).
        apply Forall_forall. intros c Hc. split; [intros ->; apply Q1; auto|]. split; [intros ->; apply Q2; auto|]. split; [intros ->; apply Q3; auto|].
        destruct (bN b <? 128)%N eqn:B.
        - destruct D as [-> ->]. cbn in Hc. destruct Hc as [<- |[]]. destruct (blank b) eqn:Bl; auto. apply blank_rune in Bl as [Z|Z]; rewrite Z in Sp; discriminate.
        - destruct D as [_ D]. rewrite Forall_forall in D. specialize (D _ Hc). destruct (blank c) eqn:Bl; auto. apply blank_rune in Bl. lia. }
      assert (Ne : firstn w (b :: s) <> []) by (destruct w; [lia|discriminate]).
      destruct (IH (skipn w (b :: s)) (cur ++ firstn w (b :: s)) Len Qs Rs) as [I1 I2]; [apply Forall_app; auto|]. split; auto.
      rewrite <- (firstn_skipn w (b :: s)) at 1. rewrite words_inert by auto. rewrite <- I1.
      f_equal. destruct cur as [|c0 cur]; cbn [word_so_far app]; auto. destruct (firstn w (b :: s)); [congruence|auto].
Qed.
Lemma Fields_words v : simple_option v -> shell_words Bare None v = Some (Fields v) /\ Forall (fun w => w <> [] /\ Forall inert w) (Fields v).
Proof. intros (Q1 & Q2 & Q3 & R). apply (fields_words (List.length v) v []); auto. split; auto. Qed.
Lemma word_alone w : w <> [] -> Forall inert w -> shell_words Bare None w = Some [w].
Proof. intros N F. rewrite <- (app_nil_r w) at 1. rewrite words_inert by auto. reflexivity. Qed.
Lemma flat_options_app l l' : flat_options (l ++ l') = match flat_options l with Some a => option_map (app a) (flat_options l') | None => None end.
Proof.
  induction l as [|[[ws|]|x] l IH]; cbn [app flat_options]; auto.
  - destruct (flat_options l'); auto.
  - rewrite IH. destruct (flat_options l); auto. destruct (flat_options l'); cbn; rewrite ?app_assoc; auto.
  - rewrite IH. destruct (flat_options l); auto. destruct (flat_options l'); auto.
Qed.
Definition commented (l : list expr) : list comments := filter (fun c => match c with Comments [] [] [] => false | _ => true end) (map com l).
(** One list of options. *)
Lemma splitStrings_spec l : let r := splitStrings l in
  ((forall s, In (EStr s) l -> simple_option (s_value s)) -> flat_options (options (snd r)) = flat_options (options l)) /\
  ((forall s, In (EStr s) l -> Fields (s_value s) <> [] \/ s_com s = no_com) -> commented (snd r) = commented l) /\
  (fst r = false -> snd r = l).
Proof.
  intro r. unfold r, splitStrings. clear r. cbn [fst snd]. induction l as [|x l (I1 & I2 & I3)]; [repeat split; auto|]. cbn [flat_map existsb].
  split; [|split].
  - intro H. unfold options in *. cbn [map]. rewrite map_app, flat_options_app, I1 by (intros s S1; apply H; right; auto). clear I1 I2 I3.
    destruct x; try (cbn; destruct (flat_options _); reflexivity). unfold split_string. destruct (_ && _) eqn:E; [|cbn [fst map flat_options]; destruct (shell_words Bare None (s_value s)); cbn; rewrite ?app_nil_r; auto].
    cbn [fst]. destruct (Fields_words (s_value s)) as [F1 F2]; [apply H; left; auto|]. cbn [flat_options]. rewrite F1.
    assert (G : forall ws, Forall (fun w => w <> [] /\ Forall inert w) ws -> flat_options (map (fun x => match x with EStr s => inl (shell_words Bare None (s_value s)) | _ => inr x end) (map (plain_str no_com) ws)) = Some (map inl ws)).
    { clear. induction ws as [|w ws IH]; intro F; cbn [map flat_options]; auto. inversion_clear F as [|? ? [N W] F']. unfold plain_str at 1. cbn [s_value]. rewrite word_alone by auto. cbn in IH. rewrite IH by auto. reflexivity. }
    destruct (Fields (s_value s)) as [|w ws]; [cbn; destruct (flat_options _); reflexivity|]. inversion_clear F2 as [|? ? [N W] F']. cbn [map flat_options]. unfold plain_str at 1. cbn [s_value]. rewrite word_alone by auto. rewrite G by auto. reflexivity.
  - intro H. unfold commented in *. cbn [map]. rewrite map_app, filter_app, I2 by (intros s S1; apply H; right; auto). clear I1 I2 I3.
    destruct x; try reflexivity; try (cbn [split_string fst map filter app]; match goal with |- context [if ?b then _ else _] => destruct b end; reflexivity).
    unfold split_string. destruct (_ && _) eqn:E; cbn [fst map filter]; [|match goal with |- context [if ?b then _ else _] => destruct b end; reflexivity].
    assert (G : forall ws, filter (fun c => match c with Comments [] [] [] => false | _ => true end) (map com (map (plain_str no_com) ws)) = []) by (clear; induction ws; auto).
    destruct (H s (or_introl eq_refl)) as [F|F].
    + destruct (Fields (s_value s)) as [|w ws]; [congruence|]. cbn [map filter]. rewrite G. unfold plain_str at 1. cbn [com s_com]. match goal with |- context [if ?b then _ else _] => destruct b end; reflexivity.
    + cbn [com]. rewrite F. destruct (Fields (s_value s)) as [|w ws]; [reflexivity|]. cbn [map filter]. rewrite G. reflexivity.
  - intro H. apply orb_false_iff in H as [H1 H2]. rewrite I3 by auto. destruct x; try reflexivity. unfold split_string in *. destruct (_ && _); [discriminate|reflexivity].
Qed.
(** One list of options is the other: if all strings are simple, the same options; the same comments, in order, unless a string
    is blank. *)
Definition same_options (l l' : list expr) : Prop :=
  ((forall s, In (EStr s) l -> simple_option (s_value s)) -> flat_options (options l') = flat_options (options l)) /\
  ((forall s, In (EStr s) l -> shell_words Bare None (s_value s) <> Some [] \/ s_com s = no_com) ->
   (forall s, In (EStr s) l -> simple_option (s_value s)) -> commented l' = commented l).
Lemma splitStrings_same l : same_options l (snd (splitStrings l)).
Proof.
  destruct (splitStrings_spec l) as (H1 & H2 & _). split; auto. intros C S1. apply H2. intros s Hs. destruct (C s Hs) as [N|E]; auto. left. intro F. apply N. destruct (Fields_words (s_value s) (S1 s Hs)) as [W _]. congruence.
Qed.
Lemma split_attr_same key args : fst (split_attr key args) = false -> snd (split_attr key args) = args.
Proof.
  unfold split_attr, attr_says, edit_attr. cbn [fst snd]. destruct (Attr key args) as [v|] eqn:A; auto. intro H.
  rewrite AllLists_same.
  - clear H. apply attr_is_some in A. induction A as [x v l G|x v l N A IH]; cbn [set_first].
    + rewrite (proj2 (defines_spec key x)) by eauto. destruct G as (c & i & p & op & b & -> & <-). reflexivity.
    + rewrite (proj2 (defines_no key x)) by auto. congruence.
  - intros l L. apply splitStrings_spec. destruct (fst (splitStrings l)) eqn:E; auto. assert (X : existsb (fun l => fst (splitStrings l)) (AllLists v) = true) by (apply existsb_exists; eauto). congruence.
Qed.
(** buildozer fix splitOptionsWithSpaces: only the lists of copts and linkopts change, and they still give the same options. *)
Theorem C76_split_options_partial :
  forall args, let r := splitOptionsWithSpaces args in
    Forall2 (arg_changed (fun key v v' => (key = %"copts" \/ key = %"linkopts") /\ lists_changed same_options eq v v')) args (snd r) /\
    (fst r = false -> snd r = args).
Proof.
  intros args r. unfold r, splitOptionsWithSpaces. clear r. destruct (split_attr %"copts" args) as [b1 a1] eqn:E1. destruct (split_attr %"linkopts" a1) as [b2 a2] eqn:E2. cbn [fst snd]. split.
  - assert (C : forall key a, Forall2 (arg_changed (fun k v v' => k = key /\ lists_changed same_options eq v v')) a (snd (split_attr key a))).
    { intros key a. cbn [split_attr snd]. eapply Forall2_mono; [|apply edit_attr_changed]. intros x y [-> |(c & i & p & op & b & v & v' & -> & -> & K & ->)]; [left; auto|right].
      exists c, i, p, op, b, v, (map_lists (fun l => snd (splitStrings l)) v). repeat split; auto. eapply lists_changed_mono; [| |apply map_lists_changed]; auto. cbv beta. intros l l' ->. apply splitStrings_same. }
    pose proof (C %"copts" args) as F1. rewrite E1 in F1. pose proof (C %"linkopts" a1) as F2. rewrite E2 in F2. cbn [snd] in *.
    eapply Forall2_trans; [|exact F1|exact F2]. intros x y z [-> |(c & i & p & op & b & v & v' & -> & -> & K & L)].
    + intros [-> |(c & i & p & op & b & v & v' & -> & -> & K & L)]; [left; auto|right; exists c, i, p, op, b, v, v'; auto].
    + intros [-> |(c' & i' & p' & op' & b' & w & w' & E & -> & K' & L')]; [right; exists c, i, p, op, b, v, v'; auto|].
      injection E as <- <- <- <- <- <-. rewrite K in K'. discriminate.
  - intro H. apply orb_false_iff in H as [-> ->]. pose proof (split_attr_same %"copts" args) as S1. pose proof (split_attr_same %"linkopts" a1) as S2. rewrite E1 in S1. rewrite E2 in S2. cbn in *. rewrite S2, S1; auto.
Qed.
(** After it each simple string is one option, except the ones that name a location. *)
Theorem C76_one_option_each :
  forall l s, In (EStr s) (snd (splitStrings l)) -> simple_option (s_value s) -> In c_sp (s_value s) ->
    exists a b, s_value s = a ++ %"$(location" ++ b.
Proof.
  intros l s H O I. unfold splitStrings in H. cbn [snd] in H. apply in_flat_map in H as (x & _ & H).
  assert (Sp : forall w, Forall inert w -> ~ In c_sp w) by (intros w F K; rewrite Forall_forall in F; destruct (F _ K) as (_ & _ & _ & B); discriminate).
  assert (Same : In (EStr s) [x] -> split_string x = ([x], false) -> exists a b, s_value s = a ++ %"$(location" ++ b).
  { intros [->|[]] E. unfold split_string in E. destruct (_ && _) eqn:C in E; [destruct (Fields _); discriminate|]. clear E.
    destruct (contains %"$(location" (s_value s)) eqn:L; [now apply contains_spec in L|]. rewrite andb_true_r in C.
    assert (C1 : contains %" " (s_value s) = true) by (apply contains_spec; apply in_split in I as (a & b & ->); exists a, b; reflexivity). rewrite C1 in C. cbn [andb] in C. apply negb_false_iff in C. apply contains_spec in C as (a & b & E).
    destruct O as (O1 & _). elim O1. rewrite E. apply in_or_app. right. left. reflexivity. }
  destruct x; try (apply Same; auto; fail). destruct (split_string (EStr s0)) as [r b] eqn:E. destruct b.
  - exfalso. unfold split_string in E. destruct (_ && _); [|congruence]. injection E as <-.
    (* the words have no blanks *)
    assert (Wd : forall fuel t cur w, In w (fields_loop fuel cur t) -> ~ In c_sp cur -> ~ In c_sp w).
    { assert (Fw : forall cur (l : list bytes) w, In w (flush cur l) -> w = cur \/ In w l) by (intros [|c cur] l0 w K; cbn in K; intuition).
      induction fuel as [|n IH]; intros t cur w K N; [cbn in K; apply Fw in K as [->|[]]; auto|]. destruct t as [|c t]; [cbn in K; apply Fw in K as [->|[]]; auto|].
      cbn [fields_loop] in K. pose proof (decode_high (c :: t)) as D. cbv zeta beta match in D. destruct (decode_rune (c :: t)) as [r w0]. destruct D as [W D]. destruct (is_space r) eqn:P.
      - apply Fw in K as [->|K]; auto. apply (IH _ _ _ K). auto.
      - apply (IH _ _ _ K). intro X. apply in_app_or in X as [X|X]; auto. destruct (bN c <? 128)%N eqn:B.
        + destruct D as [-> ->]. cbn in X. destruct X as [->|[]]. discriminate.
        + destruct D as [_ D]. rewrite Forall_forall in D. specialize (D _ X). change (bN c_sp) with 32%N in D. lia. }
    assert (K : exists w, In w (Fields (s_value s0)) /\ s_value s = w).
    { unfold plain_str in H. destruct (Fields (s_value s0)) as [|v vs]; [destruct H|]. destruct H as [H|H]; [injection H as <-; exists v; split; [left; auto|reflexivity]|].
      apply in_map_iff in H as (w & H & K). injection H as <-. exists w. split; [right; auto|reflexivity]. }
    destruct K as (w & K & E). rewrite E in I. revert I. apply (Wd _ _ _ _ K). intros [].
  - assert (E' : r = [EStr s0]) by (unfold split_string in E; destruct (_ && _); congruence). subst r. cbn [fst] in H. apply Same; auto.
Qed.
Example C76_nontrivial :
  let args := [set0 %"copts" (strs0 [%"-I a  -Ib"; %"-c"]); set0 %"linkopts" (strs0 [%"-l x"])] in
  simple_option %"-I a  -Ib" /\ shell_words Bare None %"-I a  -Ib" = Some [%"-I"; %"a"; %"-Ib"] /\
  splitOptionsWithSpaces args = (true, [set0 %"copts" (strs0 [%"-I"; %"a"; %"-Ib"; %"-c"]); set0 %"linkopts" (strs0 [%"-l"; %"x"])]).
Proof.
  split; [|split; reflexivity]. repeat split; try (cbn; intuition discriminate). intros r H E. cbn in H. intuition (subst; try discriminate; auto).
Qed.
(** copts = ["-DX='a b'"] is one option; split at the blank it is not even a list of options any more.  (The test for quotes
    looks for a single quote followed by a double one.) *)
Theorem C76_quotes_refuted :
  exists l, flat_options (options l) = Some [inl %"-DX=a b"] /\ flat_options (options (snd (splitStrings l))) = None.
Proof. exists [EStr (str0 %"-DX='a b'")]. split; reflexivity. Qed.
(** A blank string is dropped with its comment. *)
Theorem C76_comments_refuted :
  exists l, commented l <> [] /\ snd (splitStrings l) = [].
Proof. exists [plain_str (Comments [] [Comment no_pos %"# why"] []) %" "]. split; [discriminate|reflexivity]. Qed.

(** ** C78: explicit labels in commands *)
(** The characters of labels, and the parts of a command: words of such characters and what is between them. *)
Definition name_char (c : ascii) : Prop := In c %"abcdefghijklmnopqrstuvwxyzABCDEFGHIJKLMNOPQRSTUVWXYZ0123456789:/_.+-".
Definition word (p : bytes) : Prop := p <> [] /\ Forall name_char p.
Definition gap (p : bytes) : Prop := p <> [] /\ Forall (fun c => ~ name_char c) p.
Inductive alternate : list bytes -> Prop :=
  | al_nil : alternate []
  | al_word w ps : word w -> alternate ps -> (forall p, hd_error ps = Some p -> gap p) -> alternate (w :: ps)
  | al_gap g ps : gap g -> alternate ps -> (forall p, hd_error ps = Some p -> word p) -> alternate (g :: ps).
(** The label that a part names. *)
Definition names (labels : list bytes) (p label : bytes) : Prop := In label labels /\ (label = p \/ label = c_colon :: p /\ ~ In p labels).
Definition located (label : bytes) : bytes := (%"$(location " ++ label ++ %")")%list.
Definition marked (labels : list bytes) (p p' : bytes) : Prop := exists label, names labels p label /\ p' = located label.
(** No label is punctuation only, or a colon and punctuation; nor is one called location or locations. *)
Definition labels_named (labels : list bytes) : Prop := forall p, gap p -> ~ In p labels /\ ~ In (c_colon :: p) labels.
Definition not_called_location (labels : list bytes) : Prop :=
  forall l, In l labels -> ~ In l [%"location"; %":location"; %"locations"; %":locations"].

Lemma name_char_spec c : label_char c = true <-> name_char c.
Proof.
  unfold name_char. set (l := %"abcdefghijklmnopqrstuvwxyzABCDEFGHIJKLMNOPQRSTUVWXYZ0123456789:/_.+-").
  assert (E : existsb (Ascii.eqb c) l = true <-> In c l) by (rewrite existsb_exists; split; [intros (d & H & D); apply Ascii.eqb_eq in D; congruence|intro H; exists c; split; auto; apply Ascii.eqb_refl]).
  rewrite <- E. assert (label_char c = existsb (Ascii.eqb c) l) as ->; [|tauto]. clear E. destruct c as [[] [] [] [] [] [] [] []]; vm_compute; reflexivity.
Qed.
Lemma name_char_dec c : label_char c = false <-> ~ name_char c.
Proof. rewrite <- name_char_spec. destruct (label_char c); intuition discriminate. Qed.
Definition all_class (b : bool) (p : bytes) : Prop := p <> [] /\ Forall (fun c => label_char c = b) p.
Lemma word_class p : word p <-> all_class true p.
Proof. unfold word, all_class. rewrite !Forall_forall. setoid_rewrite name_char_spec. tauto. Qed.
Lemma gap_class p : gap p <-> all_class false p.
Proof. unfold gap, all_class. rewrite !Forall_forall. setoid_rewrite name_char_dec. tauto. Qed.
Inductive alt : list bytes -> Prop :=
  | alt_nil : alt []
  | alt_cons b p ps : all_class b p -> alt ps -> (forall q, hd_error ps = Some q -> all_class (negb b) q) -> alt (p :: ps).
Lemma alt_alternate ps : alt ps <-> alternate ps.
Proof.
  split; induction 1.
  - constructor.
  - destruct b; [apply al_word|apply al_gap]; rewrite ?word_class, ?gap_class; auto; intros q Q; rewrite ?word_class, ?gap_class; auto.
  - constructor.
  - apply (alt_cons true); rewrite <- ?word_class; auto. intros q Q. apply gap_class; auto.
  - apply (alt_cons false); rewrite <- ?gap_class; auto. intros q Q. apply word_class; auto.
Qed.
Lemma runs_alt s : alt (runs s) /\ List.concat (runs s) = s.
Proof.
  induction s as [|c s [A C]]; [split; [constructor|auto]|]. cbn [runs]. destruct (runs s) as [|p ps] eqn:E.
  - cbn in C. subst s. split; [|reflexivity]. apply (alt_cons (label_char c)); [split; [discriminate|repeat constructor]|constructor|discriminate].
  - inversion_clear A as [|b ? ? [N F] A' H]. destruct p as [|d r]; [congruence|]. inversion_clear F as [|? ? F1 F2]. destruct (Bool.eqb (label_char c) (label_char d)) eqn:B.
    + apply eqb_prop in B. split; [|cbn in *; congruence]. apply (alt_cons b); auto. split; [discriminate|]. constructor; [congruence|]. constructor; auto.
    + split; [|cbn in *; congruence]. apply eqb_false_iff in B. apply (alt_cons (label_char c)); [split; [discriminate|repeat constructor]| |].
      * apply (alt_cons b); auto. split; [discriminate|]. constructor; auto.
      * intros q Q. injection Q as <-. assert (E' : negb (label_char c) = b) by (destruct (label_char c), (label_char d); cbn in *; congruence). rewrite E'. split; [discriminate|]. constructor; auto.
Qed.
(** The parts of a text that begins with a piece of one class. *)
Lemma runs_piece b p : forall s, all_class b p ->
  match runs s with
  | q :: l => all_class b q /\ runs (p ++ s) = (p ++ q) :: l \/ all_class (negb b) q /\ runs (p ++ s) = p :: q :: l
  | [] => runs (p ++ s) = [p]
  end.
Proof.
  induction p as [|c p IH]; intros s [N F]; [congruence|]. inversion_clear F as [|? ? F1 F2]. destruct p as [|d p].
  - cbn [app runs]. pose proof (proj1 (runs_alt s)) as A. destruct (runs s) as [|q l]; auto. inversion_clear A as [|b' ? ? [Nq Fq] A' H]. destruct q as [|e q]; [congruence|]. inversion_clear Fq as [|? ? Fe Fq'].
    destruct (Bool.eqb (label_char c) (label_char e)) eqn:B.
    + left. split; [|reflexivity]. apply eqb_prop in B. assert (E' : b' = b) by congruence. rewrite <- E'. split; [discriminate|constructor; auto].
    + right. split; [|reflexivity]. apply eqb_false_iff in B. assert (negb b = b') as -> by (destruct b, b'; cbn; congruence). split; [discriminate|constructor; auto].
  - specialize (IH s (conj (fun H => nil_cons (eq_sym H)) F2)). change ((c :: d :: p) ++ s) with (c :: ((d :: p) ++ s)). cbn [runs]. inversion_clear F2 as [|? ? Fd _].
    assert (B : Bool.eqb (label_char c) (label_char d) = true) by (rewrite F1, Fd; destruct b; reflexivity).
    destruct (runs s) as [|q l].
    + rewrite IH. rewrite B. reflexivity.
    + destruct IH as [[Q ->]|[Q ->]]; cbn [app]; rewrite B; [left|right]; auto.
Qed.
Definition chosen (labels : list bytes) (part : bytes) : option bytes :=
  if mem_bytes part labels then Some part else if mem_bytes (c_colon :: part) labels then Some (c_colon :: part) else None.
Lemma chosen_names labels p : match chosen labels p with Some label => names labels p label | None => forall label, ~ names labels p label end.
Proof.
  unfold chosen, names. destruct (mem_bytes p labels) eqn:E; [apply mem_bytes_In in E; auto|]. assert (N : ~ In p labels) by (rewrite <- mem_bytes_In; congruence).
  destruct (mem_bytes (c_colon :: p) labels) eqn:E1; [apply mem_bytes_In in E1; auto|]. assert (N1 : ~ In (c_colon :: p) labels) by (rewrite <- mem_bytes_In; congruence).
  intros l [H [-> |[-> _]]]; auto.
Qed.
Lemma names_unique labels p l l' : names labels p l -> names labels p l' -> l = l'.
Proof. intros [H [-> |[-> N]]] [H' [-> |[-> N']]]; auto; contradiction. Qed.
Definition is_loc (p : bytes) : bool := beq p %"location" || beq p %"locations".
Lemma mark_cons labels can p ps : mark_loop labels can (p :: ps) =
  let can := if is_loc p then false else can in
  match chosen labels p with
  | None => let (l, b) := mark_loop labels can ps in (p :: l, b)
  | Some label => if can then let (l, _) := mark_loop labels can ps in (located label :: l, true)
                  else let (l, b) := mark_loop labels true ps in (p :: l, b)
  end.
Proof. reflexivity. Qed.
Lemma mark_form labels ps : forall can, let r := mark_loop labels can ps in
  Forall2 (fun p p' => p' = p \/ marked labels p p') ps (fst r) /\ (snd r = false -> fst r = ps).
Proof.
  induction ps as [|p ps IH]; intro can; [split; [constructor|auto]|]. cbv zeta. rewrite mark_cons. cbv zeta. pose proof (chosen_names labels p) as N.
  set (can' := if is_loc p then false else can). clearbody can'. destruct (chosen labels p) as [label|].
  - destruct can'.
    + destruct (IH true) as [I1 _]. destruct (mark_loop labels true ps) as [l b]. cbn [fst snd] in *. split; [|discriminate]. constructor; auto. right. exists label. auto.
    + destruct (IH true) as [I1 I2]. destruct (mark_loop labels true ps) as [l b]. cbn [fst snd] in *. split; [constructor; auto|]. intro H. rewrite I2; auto.
  - destruct (IH can') as [I1 I2]. destruct (mark_loop labels can' ps) as [l b]. cbn [fst snd] in *. split; [constructor; auto|]. intro H. rewrite I2; auto.
Qed.
Lemma explicit_out s labels : explicitHeuristicLabels s labels = List.concat (fst (mark_loop labels true (runs s))).
Proof.
  unfold explicitHeuristicLabels. destruct (mark_form labels (runs s) true) as [_ H]. destruct (mark_loop labels true (runs s)) as [l b]. destruct b; auto. cbn [fst snd] in *. rewrite H by auto. symmetry. apply runs_alt.
Qed.
(** Second pass. *)
Section Again.
  Variable labels : list bytes.
  Hypothesis Named : labels_named labels.
  Hypothesis Nloc : not_called_location labels.
  Definition pass (can : bool) (s : bytes) : bytes * bool := let (l, b) := mark_loop labels can (runs s) in (List.concat l, b).
  Lemma gap_inert p : all_class false p -> chosen labels p = None /\ is_loc p = false.
  Proof.
    intro G. split.
    - apply gap_class in G. destruct (Named p G) as [N1 N2]. unfold chosen. destruct (mem_bytes p labels) eqn:E; [apply mem_bytes_In in E; contradiction|]. destruct (mem_bytes (c_colon :: p) labels) eqn:E1; [apply mem_bytes_In in E1; contradiction|]. auto.
    - destruct G as [N F]. unfold is_loc. destruct (beq p %"location") eqn:E; [apply beq_eq in E; subst; inversion F; discriminate|]. destruct (beq p %"locations") eqn:E1; [apply beq_eq in E1; subst; inversion F; discriminate|]. auto.
  Qed.
  Lemma mark_gap can g ps : all_class false g -> mark_loop labels can (g :: ps) = let (l, b) := mark_loop labels can ps in (g :: l, b).
  Proof. intro G. rewrite mark_cons. destruct (gap_inert g G) as [-> ->]. reflexivity. Qed.
  Lemma pass_gap can g s : all_class false g -> pass can (g ++ s) = let (t, b) := pass can s in (g ++ t, b).
  Proof.
    intro G. unfold pass. pose proof (runs_piece false g s G) as R. destruct (runs s) as [|q l].
    - rewrite R. rewrite mark_gap by auto. reflexivity.
    - destruct R as [[Q ->]|[Q ->]].
      + rewrite !mark_gap; auto; [|split; [destruct g; [destruct G; congruence|discriminate]|apply Forall_app; split; [apply G|apply Q]]].
        destruct (mark_loop labels can l). cbn [List.concat]. rewrite app_assoc. reflexivity.
      + rewrite mark_gap by auto. destruct (mark_loop labels can (q :: l)). reflexivity.
  Qed.
  Definition starts_with_gap (s : bytes) : Prop := match s with [] => True | c :: _ => label_char c = false end.
  Lemma runs_word w s : all_class true w -> starts_with_gap s -> runs (w ++ s) = w :: runs s.
  Proof.
    intros W G. pose proof (runs_piece true w s W) as R. destruct s as [|c s]; [exact R|]. cbn in G. destruct (runs (c :: s)) as [|q l] eqn:E; [exact R|].
    destruct R as [[[Q1 Q2] _]|[_ R]]; auto. exfalso. pose proof (proj2 (runs_alt (c :: s))) as C. rewrite E in C. destruct q as [|d q]; [congruence|]. cbn in C. injection C as -> _. inversion Q2. congruence.
  Qed.
  Lemma pass_word can w s : all_class true w -> starts_with_gap s -> pass can (w ++ s) =
    let can := if is_loc w then false else can in
    match chosen labels w with
    | None => let (t, b) := pass can s in (w ++ t, b)
    | Some label => if can then let (t, _) := pass can s in (located label ++ t, true) else let (t, b) := pass true s in (w ++ t, b)
    end.
  Proof.
    intros W G. unfold pass. rewrite runs_word, mark_cons by auto. cbv zeta. set (can' := if is_loc w then false else can). destruct (chosen labels w).
    - destruct can'; [destruct (mark_loop labels true (runs s))|destruct (mark_loop labels true (runs s))]; reflexivity.
    - destruct (mark_loop labels can' (runs s)). reflexivity.
  Qed.
  Lemma loc_not_chosen p : is_loc p = true -> chosen labels p = None.
  Proof.
    intro L. unfold chosen. assert (E : p = %"location" \/ p = %"locations") by (unfold is_loc in L; apply orb_true_iff in L as [L|L]; apply beq_eq in L; auto).
    destruct (mem_bytes p labels) eqn:M; [apply mem_bytes_In in M; elim (Nloc _ M); destruct E as [-> | ->]; cbn; auto|].
    destruct (mem_bytes (c_colon :: p) labels) eqn:M1; [apply mem_bytes_In in M1; elim (Nloc _ M1); destruct E as [-> | ->]; cbn; auto|]. auto.
  Qed.
  Lemma again ps : alt ps -> forall can, let out := List.concat (fst (mark_loop labels can ps)) in
    pass can out = (out, false) /\ (forall q, hd_error ps = Some q -> all_class false q -> starts_with_gap out) /\ (ps = [] -> out = []).
  Proof.
    induction 1 as [|b p ps C A IH H]; intro can; [split; [reflexivity|split; [discriminate|auto]]|].
    destruct b; cbn [negb] in H.
    - (* a word *)
      split; [|split; [intros q Q Gq; injection Q as <-; destruct C as [N F]; destruct Gq as [_ Gq]; destruct p; [congruence|]; inversion F; inversion Gq; congruence|discriminate]].
      assert (SG : forall can, starts_with_gap (List.concat (fst (mark_loop labels can ps)))).
      { intro can0. destruct (IH can0) as (_ & I2 & I3). destruct ps as [|q ps]; [rewrite I3; cbn; auto|]. apply (I2 q); auto. }
      rewrite mark_cons. cbv zeta. pose proof (chosen_names labels p) as Nm. destruct (chosen labels p) as [label|] eqn:Ch.
      + assert (L0 : is_loc p = false) by (destruct (is_loc p) eqn:L; auto; rewrite (loc_not_chosen _ L) in Ch; discriminate). rewrite L0. destruct can.
        * destruct (IH true) as (I1 & _). specialize (SG true). destruct (mark_loop labels true ps) as [l b]. cbn [fst] in *. cbn [List.concat]. set (out := List.concat l) in *.
          assert (Lw : all_class true label).
          { destruct Nm as [_ [-> |[-> _]]]; auto. split; [discriminate|]. constructor; [reflexivity|apply C]. }
          assert (E : located label ++ out = %"$(" ++ %"location" ++ %" " ++ label ++ %")" ++ out) by (unfold located; rewrite <- !app_assoc; reflexivity). rewrite E.
          assert (G1 : forall t, t <> [] -> forallb (fun c => negb (label_char c)) t = true -> all_class false t) by (intros t N F; split; auto; apply Forall_forall; intros c Hc; rewrite forallb_forall in F; specialize (F c Hc); now apply negb_true_iff in F).
          rewrite pass_gap by (apply G1; [discriminate|reflexivity]).
          rewrite pass_word; [|split; [discriminate|repeat constructor]|exact eq_refl]. change (is_loc %"location") with true. rewrite loc_not_chosen by reflexivity. cbv zeta.
          rewrite pass_gap by (apply G1; [discriminate|reflexivity]).
          rewrite pass_word; [|exact Lw|exact eq_refl]. cbv zeta.
          assert (Ll : is_loc label = false).
          { destruct (is_loc label) eqn:X; auto. unfold is_loc in X. apply orb_true_iff in X. destruct Nm as [Nm _]. elim (Nloc _ Nm). destruct X as [X|X]; apply beq_eq in X; subst; cbn; auto. }
          assert (Cl : chosen labels label = Some label) by (unfold chosen; destruct Nm as [Nm _]; rewrite (proj2 (mem_bytes_In _ _) Nm); auto).
          rewrite Ll, Cl. rewrite pass_gap by (apply G1; [discriminate|reflexivity]). rewrite I1. reflexivity.
        * destruct (IH true) as (I1 & _). specialize (SG true). destruct (mark_loop labels true ps) as [l b]. cbn [fst] in *. cbn [List.concat]. rewrite pass_word by auto. rewrite L0, Ch, I1. reflexivity.
      + set (can' := if is_loc p then false else can). destruct (IH can') as (I1 & _). specialize (SG can'). destruct (mark_loop labels can' ps) as [l b]. cbn [fst] in *. cbn [List.concat]. rewrite pass_word by auto. rewrite Ch. fold can'. cbv zeta. rewrite I1. reflexivity.
    - (* a gap *)
      rewrite mark_gap by auto. destruct (IH can) as (I1 & _). destruct (mark_loop labels can ps) as [l b]. cbn [fst] in *. cbn [List.concat]. split; [rewrite pass_gap by auto; rewrite I1; reflexivity|]. split; [|discriminate].
      intros q _ _. destruct C as [N F]. destruct p; [congruence|]. inversion F. cbn. auto.
  Qed.
End Again.
(** buildozer fix genruleFixHeuristicLabels on one command: words that name a label of srcs or tools become $(location label). *)
Theorem C78_labels_only :
  forall s labels, exists ps ps', alternate ps /\ List.concat ps = s /\ explicitHeuristicLabels s labels = List.concat ps' /\
    Forall2 (fun p p' => p' = p \/ marked labels p p') ps ps' /\
    (* in a command without the words location(s), all that name labels *)
    (~ In %"location" ps -> ~ In %"locations" ps -> Forall2 (fun p p' => forall label, names labels p label -> p' = located label) ps ps').
Proof.
  intros s labels. exists (runs s), (fst (mark_loop labels true (runs s))). destruct (runs_alt s) as [A C]. split; [now apply alt_alternate|]. split; auto. split; [apply explicit_out|]. split; [apply mark_form|].
  clear. induction (runs s) as [|p ps IH]; intros N1 N2; [constructor|]. rewrite mark_cons. assert (L : is_loc p = false).
  { unfold is_loc. destruct (beq p %"location") eqn:E; [apply beq_eq in E; subst; elim N1; left; auto|]. destruct (beq p %"locations") eqn:E1; [apply beq_eq in E1; subst; elim N2; left; auto|]. auto. }
  rewrite L. cbv zeta. assert (IH' : Forall2 (fun p p' => forall label, names labels p label -> p' = located label) ps (fst (mark_loop labels true ps))) by (apply IH; intro X; [apply N1|apply N2]; right; auto).
  pose proof (chosen_names labels p) as Nm. destruct (mark_loop labels true ps) as [l b]. destruct (chosen labels p) as [label|]; cbn [fst] in *; constructor; auto.
  - intros l' H. f_equal. eapply names_unique; eauto.
  - intros l' H. elim (Nm l' H).
Qed.
(** Doing it again changes nothing; so a label that is already in $(location label) is left alone. *)
Theorem C78_again_partial :
  forall s labels, labels_named labels -> not_called_location labels ->
    let s' := explicitHeuristicLabels s labels in explicitHeuristicLabels s' labels = s'.
Proof.
  intros s labels N L. cbv zeta. rewrite (explicit_out s). destruct (again labels N L (runs s) (proj1 (runs_alt s)) true) as (P & _). unfold pass in P. unfold explicitHeuristicLabels. destruct (mark_loop labels true (runs _)) as [l b]. injection P as P ->. reflexivity.
Qed.
(** On the rule: only strings in the sum that is the value of cmd change, and only a genrule. *)
Inductive strings_changed (R : bytes -> bytes -> Prop) : expr -> expr -> Prop :=
  | sc_str c p v v' t e k : R v v' -> strings_changed R (EStr (Str c p v t e k)) (EStr (Str c p v' t e k))
  | sc_plus c x x' p b y y' : strings_changed R x x' -> strings_changed R y y' -> strings_changed R (EBinary c x p %"+" b y) (EBinary c x' p %"+" b y')
  | sc_other e : (forall s, e <> EStr s) -> (forall c x p b y, e <> EBinary c x p %"+" b y) -> strings_changed R e e.
Lemma map_strings_changed f e : strings_changed (fun v v' => v' = f v) e (map_strings (fun s => set_str (f (s_value s)) s) e).
Proof.
  induction e; cbn [map_strings]; try (apply sc_other; congruence).
  - destruct s. cbn. constructor. auto.
  - destruct (beq op %"+") eqn:E; [apply beq_eq in E; subst; constructor; auto|]. apply sc_other; [congruence|]. intros c' x q b' y H. injection H as _ _ _ -> _ _. rewrite beq_refl in E. discriminate.
Qed.
Lemma map_strings_same f e : existsb (fun s => negb (beq (f (s_value s)) (s_value s))) (AllStrings e) = false -> map_strings (fun s => set_str (f (s_value s)) s) e = e.
Proof.
  induction e; cbn [map_strings AllStrings]; auto.
  - destruct s. cbn. rewrite orb_false_r. intro H. apply negb_false_iff, beq_eq in H. cbn in H; rewrite H; reflexivity.
  - destruct (beq op %"+"); auto. rewrite existsb_app. intro H. apply orb_false_iff in H as [H1 H2]. rewrite IHe1, IHe2; auto.
Qed.
Theorem C78_cmd_only :
  forall kind args, let r := genruleFixHeuristicLabels kind args in
    (exists labels, Forall2 (arg_changed (fun key v v' => kind = %"genrule" /\ key = %"cmd" /\ strings_changed (fun t t' => t' = explicitHeuristicLabels t labels) v v')) args (snd r) /\
      forall l, In l labels <-> exists key v s, In key [%"tools"; %"srcs"] /\ attr_is key args v /\ In (EStr s) (plain v) /\ s_value s = l) /\
    (fst r = false -> snd r = args).
Proof.
  intros kind args r. unfold r, genruleFixHeuristicLabels. clear r. set (labels := addLabels args %"tools" ++ addLabels args %"srcs"). split.
  - exists labels. split.
    + destruct (beq kind %"genrule") eqn:K; cbn [negb snd]; [|apply Forall2_refl; left; auto]. apply beq_eq in K. eapply Forall2_mono; [|apply edit_attr_changed].
      intros x y [-> |(c & i & p & op & b & v & v' & -> & -> & E & ->)]; [left; auto|right]. exists c, i, p, op, b, v. eexists. split; [reflexivity|]. split; [reflexivity|]. split; auto. split; auto. apply (map_strings_changed (fun t => explicitHeuristicLabels t labels)).
    + assert (One : forall key l, In l (addLabels args key) <-> exists v s, attr_is key args v /\ In (EStr s) (plain v) /\ s_value s = l).
      { intros key l. unfold addLabels. assert (Pl : forall v, List.concat (AllLists v) = plain v).
        { clear. unfold plain. induction v; cbn [AllLists parts]; auto.
          - destruct v; auto. destruct args as [|[] ?]; auto. destruct (select_name _); auto.
          - destruct (beq op %"+"); auto. rewrite concat_app, flat_map_app. congruence. }
        split.
        - destruct (Attr key args) as [v|] eqn:A; [|intros []]. apply attr_is_some in A. intro H. apply in_flat_map in H as (es & H1 & H2). apply in_flat_map in H2 as (x & H3 & H4). destruct x; try (destruct H4; fail). destruct H4 as [H4|[]]. exists v, s. split; auto. split; [rewrite <- Pl; apply in_concat; eauto|]. auto.
        - intros (v & s & A & H & <-). apply attr_is_some in A. rewrite A. rewrite <- Pl in H. apply in_concat in H as (es & H1 & H2). apply in_flat_map. exists es. split; auto. apply in_flat_map. exists (EStr s). split; auto. left. auto. }
      intro l. unfold labels. rewrite in_app_iff, !One. split.
      * intros [(v & s & H)|(v & s & H)]; [exists %"tools", v, s|exists %"srcs", v, s]; cbn; tauto.
      * intros (key & v & s & K & H). cbn in K. destruct K as [<- |[<- |[]]]; [left|right]; eauto.
  - destruct (negb (beq kind %"genrule")); auto. cbn [fst snd]. unfold attr_says, edit_attr. destruct (Attr %"cmd" args) as [v|] eqn:A; auto. intro H.
    rewrite (map_strings_same (fun t => explicitHeuristicLabels t labels)) by exact H. clear H. apply attr_is_some in A. induction A as [x v l G|x v l N A IH]; cbn [set_first].
    + rewrite (proj2 (defines_spec _ x)) by eauto. destruct G as (c & i & p & op & b & -> & _). reflexivity.
    + rewrite (proj2 (defines_no _ x)) by auto. congruence.
Qed.
Example C78_nontrivial :
  labels_named [%"foo"; %":bar"] /\ not_called_location [%"foo"; %":bar"] /\
  explicitHeuristicLabels %"x foo bar $(location foo); :bar" [%"foo"; %":bar"] = %"x $(location foo) $(location :bar) $(location foo); $(location :bar)" /\
  genruleFixHeuristicLabels %"genrule" [set0 %"srcs" (strs0 [%"foo"]); set0 %"cmd" (EStr (str0 %"cat foo > $@"))] =
    (true, [set0 %"srcs" (strs0 [%"foo"]); set0 %"cmd" (EStr (str0 %"cat $(location foo) > $@"))]).
Proof.
  assert (B : c_colon = ":"%char) by reflexivity. split; [|split; [|split; reflexivity]].
  - intros p G. apply gap_class in G. destruct G as [N F]. destruct p as [|c p]; [congruence|]. inversion_clear F as [|? ? H _]. split; intros [E|[E|[]]]; try discriminate; injection E as <- _; discriminate.
  - intros l [<- |[<- |[]]]; cbn; intuition discriminate.
Qed.
(** $(execpath foo) is explicit already, but it is changed. *)
Theorem C78_execpath_refuted :
  explicitHeuristicLabels %"$(execpath foo)" [%"foo"] = %"$(execpath $(location foo))".
Proof. reflexivity. Qed.
(** A file called location: every run nests one more $(location .). *)
Theorem C78_again_refuted :
  let f s := explicitHeuristicLabels s [%"foo"; %"location"] in
  f %"cp foo x" = %"cp $(location foo) x" /\ f (f %"cp foo x") = %"cp $(location $(location foo)) x".
Proof. split; reflexivity. Qed.
Print Assumptions C76_split_options_partial.
Print Assumptions C76_one_option_each.
Print Assumptions C76_quotes_refuted.
Print Assumptions C76_comments_refuted.
Print Assumptions C78_labels_only.
Print Assumptions C78_again_partial.
Print Assumptions C78_cmd_only.
Print Assumptions C78_execpath_refuted.
Print Assumptions C78_again_refuted.
