From Verif Require Import Base BaseProofs Labels LabelsProofs Ast Walk WalkSpec WalkProofs WalkGen StrList Rewrite.

Lemma match_target_sound s a b : match_target s = Some (a, b) ->
  s = a ++ match b with [] => [] | _ => c_colon :: b end /\ ~ In c_colon a /\ ~ In c_colon b.
Proof.
  unfold match_target. pose proof (split2_inv c_colon s) as E. destruct (split2 c_colon s) as [x [y|]].
  - destruct E as [-> Hx]. destruct y as [|c y]; [discriminate|].
    destruct (contains_byte c_colon (c :: y)) eqn:Hc; [discriminate|]. intros H. injection H as <- <-.
    split; auto. split; auto. intros Hin. apply contains_byte_In in Hin. congruence.
  - destruct E as [-> Hx]. intros H. injection H as <- <-. rewrite app_nil_r. auto.
Qed.
Lemma match_target_complete a b : ~ In c_colon a -> b <> [] -> ~ In c_colon b -> match_target (a ++ c_colon :: b) = Some (a, b).
Proof.
  intros Ha Hb Hc. unfold match_target. rewrite split2_app by auto. destruct b as [|c b]; [congruence|].
  destruct (contains_byte c_colon (c :: b)) eqn:E; auto. apply contains_byte_In in E. contradiction.
Qed.
Lemma match_dirs_sound s : forall ne pre d a b, match_dirs ne pre s = Some (d, (a, b)) ->
  exists u, d = pre ++ u ++ [c_slash] /\ s = u ++ c_slash :: a ++ match b with [] => [] | _ => c_colon :: b end /\
    ~ In c_colon a /\ ~ In c_colon b /\ ~ In c_nl u.
Proof.
  induction s as [|c s IH]; intros ne pre d a b; [discriminate|]. cbn [match_dirs].
  destruct (Ascii.eqb_spec c c_nl) as [->|Hnl]; [discriminate|].
  destruct (match_dirs true (pre ++ [c]) s) as [z|] eqn:E.
  - intros H. injection H as ->. destruct (IH _ _ _ _ _ E) as (u & -> & -> & H1 & H2 & H3).
    exists (c :: u). rewrite <- app_assoc. repeat split; auto. intros [|]; auto.
  - destruct ne; cbn [andb]; [|discriminate]. destruct (Ascii.eqb_spec c c_slash) as [->|]; [|discriminate].
    destruct (match_target s) as [[x y]|] eqn:T; [|discriminate]. intros H. injection H as <- <- <-.
    apply match_target_sound in T as (T1 & T2 & T3). exists []. rewrite <- T1. repeat split; auto.
Qed.
(** The match is the longest one. *)
Lemma match_dirs_longest : forall u s ne pre rest, s = u ++ c_slash :: rest -> (u <> [] \/ ne = true) -> ~ In c_nl u ->
  match_target rest <> None ->
  exists d a b, match_dirs ne pre s = Some (d, (a, b)) /\ List.length pre + List.length u < List.length d.
Proof.
  induction u as [|c u IH]; intros s ne pre rest -> Hne Hnl Hm.
  - destruct Hne as [|Hne]; [congruence|]. subst ne. cbn [app match_dirs].
    change (Ascii.eqb c_slash c_nl) with false. cbv iota. rewrite ascii_eqb_refl. cbn [andb].
    destruct (match_dirs true (pre ++ [c_slash]) rest) as [[d [a b]]|] eqn:E.
    + apply match_dirs_sound in E as E'. destruct E' as (u & -> & _). exists ((pre ++ [c_slash]) ++ u ++ [c_slash]), a, b. split; auto.
      rewrite !app_length. simpl. lia.
    + destruct (match_target rest) as [[a b]|]; [|congruence]. simpl. eexists _, _, _. split; [reflexivity|]. rewrite app_length. simpl. lia.
  - cbn [app match_dirs]. destruct (Ascii.eqb_spec c c_nl) as [->|]; [destruct Hnl; left; auto|].
    destruct (IH (u ++ c_slash :: rest) true (pre ++ [c]) rest) as (d & a & b & E & Hl); auto.
    { intros Hin. apply Hnl. right; auto. }
    rewrite E. exists d, a, b. split; auto. rewrite app_length in Hl. simpl in *. lia.
Qed.
Lemma match_path_sound s d a b : match_path s = Some (d, (a, b)) ->
  s = d ++ a ++ match b with [] => [] | _ => c_colon :: b end /\ ~ In c_colon a /\ ~ In c_colon b /\
  (d = [] \/ exists u, d = u ++ [c_slash]).
Proof.
  unfold match_path. destruct (match_dirs false [] s) as [z|] eqn:E.
  - intros H. injection H as ->. apply match_dirs_sound in E as (u & -> & -> & H1 & H2 & H3).
    simpl. rewrite <- app_assoc. repeat split; auto. right; eauto.
  - destruct (match_target s) as [[x y]|] eqn:T; [|discriminate]. intros H. injection H as <- <- <-.
    apply match_target_sound in T as (T1 & T2 & T3). auto.
Qed.
Lemma match_path_last p t d a b : ~ In c_colon p -> ~ In c_nl p -> has_prefix [c_slash] p = false ->
  b <> [] -> match_path (p ++ c_colon :: t) = Some (d, (a, b)) -> ~ In c_colon t -> p = d ++ a -> ~ In c_slash a.
Proof.
  intros Hc Hn Hs Hb H Ht E Hin. apply in_split in Hin as (u & w & ->).
  assert (Htn : t <> []).
  { intros ->. apply match_path_sound in H as (H & _ & Hb' & _). rewrite E in H. rewrite <- !app_assoc in H.
    do 3 apply app_inv_head in H. destruct b; [congruence|]. discriminate H. }
  assert (Hu : d ++ u <> [] ).
  { destruct d as [|x d]; [|discriminate]. destruct u as [|x u]; [|discriminate]. simpl in E. subst p. simpl in Hs. discriminate. }
  destruct (match_dirs_longest (d ++ u) (p ++ c_colon :: t) false [] (w ++ c_colon :: t)) as (d2 & a2 & b2 & E2 & Hl); auto.
  - rewrite E. rewrite <- !app_assoc. reflexivity.
  - intros Hin. apply Hn. rewrite E. rewrite in_app_iff in *. rewrite in_app_iff. tauto.
  - rewrite match_target_complete; [discriminate| |auto|auto]. intros Hin. apply Hc. rewrite E, !in_app_iff. simpl. auto.
  - unfold match_path in H. rewrite E2 in H. injection H as -> _ _. simpl in Hl. rewrite app_length in Hl. lia.
Qed.
Lemma word_prefix_spec s : exists r, s = word_prefix s ++ r /\ forallb is_word (word_prefix s) = true.
Proof.
  induction s as [|c s IH]; simpl; [exists []; auto|]. destruct (is_word c) eqn:E; [|exists (c :: s); auto].
  destruct IH as (r & H1 & H2). exists r. simpl. rewrite E, H2. rewrite <- H1 at 1. auto.
Qed.
(** What a successful match says (without stripping). *)
Lemma match_label_sound s m1 m3 m4 m5 : match_label false s = Some (m1, m3, m4, m5) ->
  exists pre d, 
    ((pre = [] /\ m3 = []) \/ (pre = c_at :: m3 /\ m3 <> [] /\ forallb is_word m3 = true)) /\
    m1 = pre ++ %"//" ++ d ++ m4 /\
    s = m1 ++ match m5 with [] => [] | _ => c_colon :: m5 end /\
    ~ In c_colon m4 /\ ~ In c_colon m5 /\ (d = [] \/ exists u, d = u ++ [c_slash]) /\
    match_path (d ++ m4 ++ match m5 with [] => [] | _ => c_colon :: m5 end) = Some (d, (m4, m5)).
Proof.
  unfold match_label.
  destruct (has_prefix [c_at] s) eqn:A.
  - apply has_prefix_spec in A as [s' ->]. cbn [skipn app]; change ([c_at] ++ s') with (c_at :: s').
    destruct (word_prefix_spec s') as (r & H1 & H2). set (wd := word_prefix s') in *.
    replace (skipn (1 + List.length wd) (c_at :: s')) with r by (cbn [Nat.add skipn]; rewrite H1, skipn_app_exact; auto).
    cbv zeta beta iota.
    destruct (has_prefix %"//" r) eqn:P; cbn [negb andb orb]; [|discriminate].
    destruct (beq_spec wd []) as [|Hw]; cbn [negb]; [discriminate|].
    apply has_prefix_spec in P as [t ->]. change (match %"//" ++ t with _ :: _ :: l0 => l0 | _ => [] end) with t.
    destruct (match_path t) as [[d [a b]]|] eqn:M; cbn [option_map fst snd]; intros H; [|discriminate H]. injection H as <- <- <- <-.
    pose proof M as M'. apply match_path_sound in M' as (M1 & M2 & M3 & M4).
    exists (c_at :: wd), d. cbn [fst snd]. split; [right; auto|]. split; [auto|]. split; [|rewrite <- M1; auto].
    rewrite H1, M1. simpl. rewrite <- !app_assoc. simpl. rewrite <- !app_assoc. auto.
  - cbv zeta beta iota. cbn [negb orb]. rewrite andb_true_r.
    destruct (has_prefix %"//" s) eqn:P; [|discriminate].
    apply has_prefix_spec in P as [t ->]. replace (skipn 2 (%"//" ++ t)) with t by reflexivity.
    destruct (match_path t) as [[d [a b]]|] eqn:M; cbn [option_map fst snd]; intros H; [|discriminate H]. injection H as <- <- <- <-.
    pose proof M as M'. apply match_path_sound in M' as (M1 & M2 & M3 & M4).
    exists [], d. cbn [fst snd]. split; [left; auto|]. split; [auto|]. split; [|rewrite <- M1; auto].
    rewrite M1. simpl. rewrite <- !app_assoc. auto.
Qed.
Lemma shorten_default path v : shorten_value false false path v =
  match match_label false v with
  | None => v
  | Some (m1, m3, m4, m5) =>
      if negb (beq m4 []) && beq m4 m5 then m1
      else if negb (beq m3 []) && beq m4 [] && beq m3 m5 then c_at :: m3
      else v
  end.
Proof. reflexivity. Qed.
From Verif Require Import CallSpec CallProofs LabelRwSpec.
Lemma is_word_char c : is_word c = word_char c.
Proof.
  assert (G : forall c, Bool.eqb (is_word c) (word_char c) = true) by (apply forall_byte; vm_compute; auto).
  apply Bool.eqb_prop, G.
Qed.
Lemma forallb_word w : forallb is_word w = forallb word_char w.
Proof. induction w as [|c w IH]; auto. cbn [forallb]. rewrite is_word_char, IH. auto. Qed.
Lemma shorten_forms path v : label_change v (shorten_value false false path v).
Proof.
  rewrite shorten_default. destruct (match_label false v) as [[[[m1 m3] m4] m5]|] eqn:M; [|constructor].
  apply match_label_sound in M as (pre & d & Hp & -> & -> & H4 & H5 & Hd & _).
  destruct (beq_spec m4 []) as [E4|N4]; cbn [negb andb].
  - destruct (beq_spec m3 []) as [E3|N3]; cbn [negb andb]; [constructor|].
    destruct (beq_spec m3 m5) as [<-|N5]; [|constructor]. subst m4.
    destruct Hp as [[_ Hp]|(-> & _ & Hw)]; [congruence|]. rewrite app_nil_r.
    destruct m3 as [|c m3]; [congruence|].
    replace (((c_at :: c :: m3) ++ %"//" ++ d) ++ c_colon :: c :: m3) with (%"@" ++ (c :: m3) ++ %"//" ++ d ++ %":" ++ (c :: m3)).
    + apply lc_repo; auto. rewrite <- forallb_word; auto.
    + rewrite <- !app_assoc. reflexivity.
  - destruct (beq_spec m4 m5) as [<-|N5].
    + destruct m4 as [|c m4]; [congruence|].
      replace ((pre ++ %"//" ++ d ++ c :: m4) ++ c_colon :: c :: m4) with (pre ++ %"//" ++ d ++ (c :: m4) ++ %":" ++ (c :: m4))
        by (rewrite <- !app_assoc; reflexivity).
      apply lc_target; auto. destruct Hp as [[-> _]|(-> & H1 & H2)]; [left; auto|right; exists m3; rewrite <- forallb_word; auto].
    + rewrite andb_false_r. cbn [andb]. constructor.
Qed.
Lemma app_colon_unique a b a' b' : ~ In c_colon a -> ~ In c_colon a' -> a ++ c_colon :: b = a' ++ c_colon :: b' -> a = a' /\ b = b'.
Proof.
  intros H1 H2 E. pose proof (split2_app c_colon a b H1) as S1. rewrite E, split2_app in S1 by auto. injection S1 as -> ->. auto.
Qed.
Lemma word_no c w : word_char c = false -> forallb word_char w = true -> ~ In c w.
Proof. intros Hc H Hin. rewrite forallb_forall in H. rewrite (H c Hin) in Hc. discriminate. Qed.
Lemma path_base_last d z : z <> [] -> ~ In c_slash z -> (d = [] \/ exists u, d = u ++ [c_slash]) -> path_base (d ++ z) = z.
Proof.
  intros Hz Hs Hd. unfold path_base. destruct (d ++ z) as [|c r] eqn:E; [destruct d, z; try discriminate; congruence|]. rewrite <- E. clear E c r.
  assert (trim_right (Ascii.eqb c_slash) (d ++ z) = d ++ z) as ->.
  { unfold trim_right. destruct (exists_last Hz) as (z' & c & ->). rewrite app_assoc, rev_app_distr. cbn [rev app].
    rewrite trim_left_id; [|]. 
    - cbn [rev]. rewrite rev_involutive. auto.
    - apply Ascii.eqb_neq. intros <-. apply Hs, in_app_iff. right; left; auto. }
  assert (Hal : after_last_slash (d ++ z) = z).
  { destruct Hd as [->|[u ->]]; [apply after_last_slash_none; auto|].
    unfold after_last_slash. rewrite !fold_left_app. cbn [fold_left]. rewrite ascii_eqb_refl.
    fold (after_last_slash z). apply after_last_slash_none; auto. }
  rewrite Hal. destruct z; congruence.
Qed.
Definition parse_with (r t : bytes) : label :=
  match r with [] => parse_rest [] t | _ :: w => parse_rest w t end.
Lemma parse_abs r t p : repo_prefix r -> has_prefix %"//" t = true -> parse_relative (r ++ t) p = parse_with r t.
Proof.
  intros Hr Ht. unfold parse_relative. apply has_prefix_spec in Ht as [t' ->].
  destruct Hr as [->|(w & -> & Hw & Hc)].
  - cbn [app]. rewrite has_prefix_app. rewrite andb_false_r. unfold parse. cbn. reflexivity.
  - cbn [app has_prefix]. rewrite ascii_eqb_refl. cbn [negb andb]. unfold parse. cbn [has_prefix]. rewrite ascii_eqb_refl. cbn [andb].
    rewrite trim_left_at; [|auto|].
    + assert (Hs : ~ In c_slash w) by (apply word_no; auto; reflexivity).
      change (w ++ %"//" ++ t') with (w ++ c_slash :: (c_slash :: t')). rewrite split2_app by auto. reflexivity.
    + destruct w as [|x w]; [congruence|]. rewrite has_prefix_one. apply Ascii.eqb_neq. intros <-.
      revert Hc. cbn [forallb]. discriminate.
Qed.
Lemma shorten_same_label path p r pkg t :
  repo_prefix r -> ~ In c_colon pkg -> ~ In c_nl pkg ->
  has_prefix %"/" pkg = false -> has_suffix %"/" pkg = false -> ~ In c_colon t ->
  parse_relative (shorten_value false false path (r ++ %"//" ++ pkg ++ %":" ++ t)) p =
  parse_relative (r ++ %"//" ++ pkg ++ %":" ++ t) p.
Proof.
  intros Hr Hc Hn Hs He Ht. rewrite shorten_default.
  destruct (match_label false (r ++ %"//" ++ pkg ++ %":" ++ t)) as [[[[m1 m3] m4] m5]|] eqn:M; auto.
  apply match_label_sound in M as (pre & d & Hp & -> & E & H4 & H5 & Hd & Hm).
  assert (Hpre : repo_prefix pre). { destruct Hp as [[-> _]|(-> & H1 & H2)]; [left; auto|right; exists m3; rewrite <- forallb_word; auto]. }
  assert (Hnc : forall q, repo_prefix q -> ~ In c_colon (q ++ %"//")).
  { intros q [->|(w & -> & _ & Hw)] Hin; rewrite in_app_iff in Hin; simpl in Hin; [intuition discriminate|].
    destruct Hin as [[Hin|Hin]|Hin]; [discriminate| |intuition discriminate]. revert Hin. apply word_no; auto. }
  assert (Er : m5 <> [] -> pre = r /\ ((d ++ m4 = pkg /\ m5 = t) \/ In c_colon d)).
  { intros N5. destruct m5 as [|x m5]; [congruence|].
    rewrite !app_assoc in E. rewrite <- (app_assoc (pre ++ %"//")) in E.
    assert (Eq : pre = r).
    { clear -E Hp Hr. rewrite <- !app_assoc in E. 
      destruct Hr as [->|(w & -> & Hw & Hwc)].
      - destruct Hp as [[-> _]|(-> & _)]; auto. discriminate E.
      - destruct Hp as [[-> _]|(-> & H1 & H2)]; [discriminate E|]. f_equal. rewrite forallb_word in H2.
        change ((c_at :: w) ++ %"//" ++ pkg ++ %":" ++ t) with (c_at :: w ++ c_slash :: (c_slash :: pkg ++ c_colon :: t)) in E.
        change ((c_at :: m3) ++ %"//" ++ d ++ m4 ++ c_colon :: x :: m5) with (c_at :: m3 ++ c_slash :: (c_slash :: d ++ m4 ++ c_colon :: x :: m5)) in E.
        injection E as E.
        assert (S1 : ~ In c_slash w) by (apply word_no; auto; reflexivity).
        assert (S2 : ~ In c_slash m3) by (apply word_no; auto; reflexivity).
        pose proof (split2_app c_slash w (c_slash :: pkg ++ c_colon :: t) S1) as X1.
        pose proof (split2_app c_slash m3 (c_slash :: d ++ m4 ++ c_colon :: x :: m5) S2) as X2.
        rewrite E in X1. rewrite X1 in X2. congruence. }
    split; auto. subst r. rewrite <- !app_assoc in E. do 2 apply app_inv_head in E.
    destruct (in_dec ascii_dec c_colon d) as [|Nd]; auto. left.
    rewrite (app_assoc d) in E. change (%":" ++ t) with (c_colon :: t) in E. apply app_colon_unique in E as [E1 E2]; auto.
    intros Hin. apply in_app_iff in Hin as [|]; auto. }
  (* a colon in d is impossible: there is only one colon *)
  assert (Nd : m5 <> [] -> ~ In c_colon d).
  { intros N5 Hin. destruct (Er N5) as [-> _]. destruct m5 as [|x m5]; [congruence|].
    rewrite <- !app_assoc in E. do 2 apply app_inv_head in E. 
    apply in_split in Hin as (d1 & d2 & ->).
    assert (In c_colon t \/ In c_colon pkg).
    { clear - E. destruct (in_dec ascii_dec c_colon pkg) as [|Np]; auto. left.
      revert pkg Np E. induction d1 as [|y d1 IH]; intros [|z pkg] Np E; simpl in E.
      - injection E as ->. rewrite !in_app_iff. simpl. tauto.
      - injection E as -> _. destruct Np; left; auto.
      - injection E as _ ->. rewrite !in_app_iff. simpl. tauto.
      - injection E as _ E. apply (IH pkg); auto. intros H; apply Np; right; auto. }
    tauto. }
  destruct (beq_spec m4 []) as [E4|N4]; cbn [negb andb].
  - destruct (beq_spec m3 []) as [E3|N3]; cbn [negb andb]; auto.
    destruct (beq_spec m3 m5) as [E5|N5]; auto. subst m5 m4.
    destruct (Er N3) as [Epr [[Epk Et]|Hin]]; [|destruct (Nd N3 Hin)]. subst t.
    rewrite app_nil_r in Epk. subst d.
    assert (pkg = []). { destruct Hd as [|[u Hu]]; auto. rewrite Hu in He. rewrite has_suffix_app in He. discriminate. }
    subst pkg. destruct Hp as [[_ Hp]|(Hp & _ & Hw)]; [congruence|]. rewrite <- Epr. rewrite Hp in *. clear Hd.
    rewrite (parse_abs (c_at :: m3)); [|auto|reflexivity]. cbn [parse_with].
    change (%"//" ++ [] ++ %":" ++ m3) with (%"//" ++ [] ++ c_colon :: m3).
    rewrite parse_rest_slashes by auto.
    unfold parse_relative, parse. cbn [has_prefix]. rewrite ascii_eqb_refl. cbn [andb negb].
    rewrite forallb_word in Hw.
    assert (T : trim_left (Ascii.eqb c_at) (c_at :: m3) = m3).
    { rewrite <- (app_nil_r m3) at 1. rewrite trim_left_at, app_nil_r; auto.
      destruct m3 as [|y w]; [congruence|]. rewrite has_prefix_one. apply Ascii.eqb_neq. intros <-. discriminate Hw. }
    rewrite T, split2_none; auto. apply word_no; auto; reflexivity.
  - destruct (beq_spec m4 m5) as [E5|N5]; [|cbn [andb]; rewrite andb_false_r; cbn [andb]; auto]. subst m5.
    destruct (Er N4) as [Epr [[Epk Et]|Hin]]; [|destruct (Nd N4 Hin)]. subst t.
    assert (Hsl : ~ In c_slash m4).
    { apply (match_path_last pkg m4 d m4 m4); auto.
      destruct m4 as [|x m4]; [congruence|]. rewrite <- Epk, <- app_assoc. exact Hm. }
    subst r pkg.
    rewrite (parse_abs pre); [|auto|reflexivity].
    replace (pre ++ %"//" ++ (d ++ m4) ++ %":" ++ m4) with (pre ++ (%"//" ++ (d ++ m4) ++ c_colon :: m4)) by reflexivity.
    rewrite parse_abs; [|auto|reflexivity].
    assert (PB : path_base (d ++ m4) = m4) by (apply path_base_last; auto).
    unfold parse_with. destruct pre as [|y w]; rewrite parse_rest_slashes, parse_rest_base, PB; auto.
Qed.

(** ** The walk *)
Section RInd.
  Context (R : bytes -> bytes -> Prop) (P : expr -> expr -> Prop)
    (H1 : forall e, P e e)
    (H2 : forall s v, P (EStr s) (EStr (with_value s v)))
    (H3 : forall c a p br b s, P (EBinary c (EStr a) p %"+" br (EStr b)) (EStr s))
    (H4 : forall c s l l' e m, Forall2 P l l' -> P (EList c s l e m) (EList c s l' e m))
    (H5 : forall c s l l' e m, Forall2 P l l' -> P (ESet c s l e m) (ESet c s l' e m))
    (H6 : forall c x x' p br y y', P x x' -> P y y' -> P (EBinary c x p %"+" br y) (EBinary c x' p %"+" br y'))
    (H7 : forall c i p dc ds dl dl' de dm args en k m, Forall2 P dl dl' ->
      P (ECall c (EIdent i) p (EDict dc ds dl de dm :: args) en k m) (ECall c (EIdent i) p (EDict dc ds dl' de dm :: args) en k m))
    (H8 : forall c key p v v', P v v' -> P (EKV c key p v) (EKV c key p v'))
    (H9 : forall a b c, P a b -> P b c -> P a c).
  Fixpoint relabeled_ind' e e' (H : relabeled R e e') : P e e' :=
    let go := fix go l l' (F : Forall2 (relabeled R) l l') : Forall2 P l l' :=
      match F with
      | Forall2_nil _ => Forall2_nil _
      | Forall2_cons x y h t => Forall2_cons x y (relabeled_ind' x y h) (go _ _ t)
      end in
    match H with
    | rl_same _ e => H1 e
    | rl_str _ s v _ => H2 s v
    | rl_join _ c a p br b v _ _ _ => H3 c a p br b _
    | rl_list _ c s l l' e m F => H4 c s l l' e m (go _ _ F)
    | rl_set _ c s l l' e m F => H5 c s l l' e m (go _ _ F)
    | rl_plus _ c x x' p br y y' a b => H6 c x x' p br y y' (relabeled_ind' _ _ a) (relabeled_ind' _ _ b)
    | rl_select _ c i p dc ds dl dl' de dm args en k m _ F => H7 c i p dc ds dl dl' de dm args en k m (go _ _ F)
    | rl_entry _ c key p v v' a => H8 c key p v v' (relabeled_ind' _ _ a)
    | rl_trans _ a b c h1 h2 => H9 a b c (relabeled_ind' _ _ h1) (relabeled_ind' _ _ h2)
    end.
End RInd.
Lemma forall2_height l l' : Forall2 (fun a b => height b <= height a) l l' -> list_max (map height l') <= list_max (map height l).
Proof. induction 1; simpl; lia. Qed.
Lemma relabeled_height R e e' : relabeled R e e' -> height e' <= height e.
Proof.
  revert e e'. refine (relabeled_ind' R (fun a b => height b <= height a) _ _ _ _ _ _ _ _ _); intros; auto.
  all: try (etransitivity; eassumption).
  all: rewrite !height_unfold; unfold children, fold_children; simpl; rewrite ?map_id.
  - lia.
  - apply le_n_S, forall2_height; auto.
  - apply le_n_S, forall2_height; auto.
  - lia.
  - apply forall2_height in H. destruct (list_max (map height args)); lia.
  - lia.
Qed.
Section Lab.
  Context (w : rewriter) (path : bytes).
  Let R v v' := v' = shorten_value (w_strip w) (w_shorten w) path v.
  Lemma shorten_label_relabeled e : relabeled R e (shorten_label w path e).
  Proof. destruct e; try apply rl_same. apply rl_str. reflexivity. Qed.
  Lemma join_shorten_relabeled e : relabeled R e (shorten_label w path (join_label e)).
  Proof.
    destruct e; try apply shorten_label_relabeled.
    destruct e1; try apply shorten_label_relabeled. destruct e2; try apply shorten_label_relabeled.
    cbn [join_label]. destruct (beq_spec op %"+") as [->|]; cbn [andb]; [|apply rl_same].
    destruct (has_prefix %"//" (s_value s)) eqn:E1; cbn [andb]; [|apply rl_same].
    destruct (contains_byte c_sp (s_value s)) eqn:E2; cbn [negb andb]; [apply rl_same|].
    destruct (contains_byte c_sp (s_value s0)) eqn:E3; cbn [negb andb]; [apply rl_same|].
    cbn [shorten_label set_value s_com s_start s_value s_triple s_end s_token]. unfold set_value. cbn [s_com s_start s_value s_triple s_end s_token]. apply rl_join; auto; [|reflexivity].
    intros Hin. apply in_app_iff in Hin as [Hin|Hin]; apply contains_byte_In in Hin; congruence.
  Qed.
  Lemma elem_relabeled e : relabeled R e (fix_label_elem w path e).
  Proof. unfold fix_label_elem. destruct (leave_alone1 e); [apply rl_same|apply join_shorten_relabeled]. Qed.
  Lemma map_relabeled (f : expr -> expr) l : (forall e, relabeled R e (f e)) -> Forall2 (relabeled R) l (map f l).
  Proof. intros H. induction l; simpl; constructor; auto. Qed.
  Lemma container_relabeled e : relabeled R e (fix_container w path e).
  Proof.
    unfold fix_container. destruct e; try apply join_shorten_relabeled.
    - apply rl_list, map_relabeled, elem_relabeled.
    - apply rl_set, map_relabeled, elem_relabeled.
  Qed.
  Lemma find_relabeled cb : (forall e, relabeled R e (cb e)) -> forall n e, relabeled R e (find_modify n cb e).
  Proof.
    intros H n. induction n as [|n IH]; intros e; [apply rl_same|]. cbn [find_modify].
    eapply rl_trans; [apply H|]. generalize (cb e) as x. intros x. destruct x; try apply rl_same.
    - destruct x; try apply rl_same. destruct args as [|a args]; try apply rl_same.
      destruct a; try apply rl_same. destruct (beq_spec (i_name i) %"select") as [E|]; [|apply rl_same].
      apply rl_select; auto. apply map_relabeled. intros kv. destruct kv; try apply rl_same. apply rl_entry, IH.
    - destruct (beq_spec op %"+") as [->|]; [|apply rl_same]. apply rl_plus; apply IH.
  Qed.
  Lemma label_fixed stk e : labels_fixed (w_label_arg w) (w_label_deny w) R stk e (label_node w path stk e).
  Proof.
    destruct e; try reflexivity. cbn [labels_fixed label_node].
    destruct (leave_alone stk (ECall c e lstart args e0 compact multi)) eqn:L.
    - split; auto. exists args. split; auto. clear. induction args; constructor; auto.
    - split; [intros H; apply leave_alone_spec in H; congruence|]. eexists. split; [reflexivity|].
      clear L. induction args as [|a args IH]; cbn [map]; constructor; auto. clear IH.
      unfold fix_label_arg. destruct (leave_alone1 a) eqn:La; [left; auto|].
      destruct a; try (left; reflexivity). destruct a1; try (left; reflexivity).
      destruct (mem_bytes (i_name i) (w_label_arg w)) eqn:M1; cbn [negb orb]; [|left; auto].
      destruct (mem_bytes (kind_of e ++ [c_dot] ++ i_name i) (w_label_deny w)) eqn:M2; cbn [orb]; [left; auto|].
      destruct (leave_alone1 a2) eqn:L2; [left; auto|]. right.
      exists c0, i, p, op, lbreak, a2. eexists. split; [reflexivity|]. split; [reflexivity|].
      split; [apply mem_bytes_In; auto|]. split; [|split; [|split]].
      + intros n Hn Hin. apply dotted_spec in Hn as (l & Hl & _ & <-). unfold kind_of in M2. rewrite Hl in M2.
        apply mem_bytes_In in Hin. change %"." with [c_dot] in Hin. congruence.
      + intros H. apply has_comment_spec in H. unfold leave_alone1 in La. congruence.
      + intros H. apply has_comment_spec in H. unfold leave_alone1 in L2. congruence.
      + apply find_relabeled. apply container_relabeled.
  Qed.
  Lemma label_height stk e : height (label_node w path stk e) <= height e.
  Proof.
    destruct e; auto. cbn [label_node]. destruct (leave_alone _ _); auto.
    rewrite !height_unfold. unfold children, fold_children. simpl. rewrite !map_id, !map_map. apply le_n_S.
    apply Nat.max_le_compat_l. apply list_max_map_le. intros a _. unfold fix_label_arg.
    destruct (leave_alone1 a); auto. destruct a; auto. destruct a1; auto.
    destruct (_ || _ || _); auto. rewrite !height_unfold. unfold children, fold_children. cbn [map fold_children2].
    pose proof (relabeled_height _ _ _ (find_relabeled (fix_container w path) container_relabeled (height a2) a2)) as H.
    unfold find_and_modify. cbn [list_max fold_right]. change (height (EIdent i)) with 1. fold (list_max []). lia.
  Qed.
  Lemma label_kind : cb_kind (label_node w path).
  Proof. split; intros; eexists; reflexivity. Qed.
End Lab.
Lemma relabeled_mono (R S : bytes -> bytes -> Prop) : (forall v v', R v v' -> S v v') -> forall e e', relabeled R e e' -> relabeled S e e'.
Proof.
  intros H. fix IH 3. intros e e' Hr. 
  assert (go : forall l l', Forall2 (relabeled R) l l' -> Forall2 (relabeled S) l l').
  { fix go 3. intros l l' F. destruct F as [|x y l l' h t]; constructor; [apply IH, h|apply go, t]. }
  destruct Hr; try (constructor; auto; fail).
  eapply rl_trans; eauto.
Qed.
Lemma left_alone_child stk e c : left_alone stk e -> left_alone (stk ++ [e]) c.
Proof. intros (x & H & M). exists x. split; auto. apply in_app_iff. auto. Qed.
