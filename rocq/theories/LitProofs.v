From Verif Require Import Base BaseProofs Ast Walk WalkSpec WalkProofs WalkGen Rewrite LitSpec.

(** ** Numerals *)
Definition dv base c : Z := match digit_val base c with Some d => Z.of_nat d | None => 0 end.
Definition value base s : Z := fold_left (fun a c => (a * Z.of_nat base + dv base c)%Z) s 0%Z.
Lemma numeral_spec base s v : numeral base s v <->
  s <> [] /\ Forall (fun c => digit_val base c <> None) s /\ v = value base s.
Proof.
  split.
  - induction 1 as [c d H|s v c d H IH Hc].
    + split; [discriminate|]. split; [constructor; [congruence|auto]|]. unfold value, dv; simpl. rewrite H. lia.
    + destruct IH as (H1 & H2 & ->). split; [destruct s; discriminate|]. split.
      * apply Forall_app. split; auto. constructor; auto. congruence.
      * unfold value. rewrite fold_left_app. simpl. replace (dv base c) with (Z.of_nat d) by (unfold dv; rewrite Hc; auto). auto.
  - intros (H1 & H2 & ->). induction s as [|c s IH] using rev_ind; [congruence|].
    apply Forall_app in H2 as [H2 H3]. inversion_clear H3 as [|? ? H3' _].
    destruct (digit_val base c) as [d|] eqn:E; [|congruence].
    unfold value. rewrite fold_left_app. simpl. fold (value base s). unfold dv. rewrite E.
    destruct s as [|x s].
    + simpl. change (value base []) with 0%Z. replace (0 * Z.of_nat base + Z.of_nat d)%Z with (Z.of_nat d) by lia. constructor; auto.
    + constructor; auto. apply IH; auto. discriminate.
Qed.
Lemma value_zero base s : base <> 0 -> value base ("0"%char :: s) = value base s.
Proof. intros H. unfold value. simpl. replace (dv base "0") with 0%Z; auto. unfold dv, digit_val. simpl. destruct base; [congruence|]. auto. Qed.
Lemma value_zeros base z s : base <> 0 -> forallb (Ascii.eqb "0") z = true -> value base (z ++ s) = value base s.
Proof.
  intros H. induction z as [|c z IH]; cbn [forallb app]; auto. rewrite andb_true_iff. intros [H1 H2].
  apply Ascii.eqb_eq in H1. subst c. rewrite value_zero by auto. auto.
Qed.
Lemma digit_is_digit c : is_digit c = true <-> digit_val 10 c <> None.
Proof.
  split; intros H; revert c H.
  - assert (G : forall c, (negb (is_digit c) || match digit_val 10 c with Some _ => true | None => false end) = true).
    { apply forall_byte. vm_compute. auto. }
    intros c H. specialize (G c). rewrite H in G. simpl in G. destruct (digit_val 10 c); congruence.
  - assert (G : forall c, (is_digit c || match digit_val 10 c with Some _ => false | None => true end) = true).
    { apply forall_byte. vm_compute. auto. }
    intros c H. specialize (G c). destruct (digit_val 10 c); [|congruence]. rewrite orb_false_r in G. auto.
Qed.
Lemma digit8_10 c : digit_val 8 c <> None -> digit_val 10 c <> None.
Proof.
  assert (G : forall c, match digit_val 8 c, digit_val 10 c with Some _, None => false | _, _ => true end = true).
  { apply forall_byte. vm_compute. auto. }
  specialize (G c). destruct (digit_val 8 c), (digit_val 10 c); congruence.
Qed.
Lemma digits_not c s : digit_val 10 c = None -> Forall (fun d => digit_val 10 d <> None) s -> ~ In c s.
Proof. intros H F Hin. rewrite Forall_forall in F. apply (F c Hin H). Qed.

(** ** editOctals *)
Lemma octal_value tok v : int_literal tok v -> int_literal (octal_token tok) v.
Proof.
  intros H. destruct H as [|c s v Hc Hn|s v Hn|x s v Hx Hn].
  - constructor.
  - unfold octal_token. destruct s as [|d s]; [constructor; auto|].
    destruct (Ascii.eqb_spec c "0"); [congruence|]. simpl. constructor; auto.
  - pose proof Hn as Hn'. apply numeral_spec in Hn' as (H1 & H2 & _). destruct s as [|d s]; [congruence|].
    inversion_clear H2 as [|? ? Hd _]. apply digit8_10, digit_is_digit in Hd.
    unfold octal_token. rewrite Hd. simpl. apply il_octal; auto.
  - unfold octal_token. assert (is_digit x = false) as -> by (destruct Hx; subst; reflexivity).
    rewrite andb_false_r. apply il_octal; auto.
Qed.
Lemma octal_untouched tok :
  (forall d r, tok = "0"%char :: d :: r -> digit_val 10 d = None) -> octal_token tok = tok.
Proof.
  intros H. unfold octal_token. destruct tok as [|z [|d r]]; auto.
  destruct (Ascii.eqb_spec z "0"); auto. subst. simpl. destruct (is_digit d) eqn:E; auto.
  apply digit_is_digit in E. rewrite (H d r) in E; congruence.
Qed.
Lemma int_literal_value tok v w : int_literal tok v -> int_literal tok w -> v = w.
Proof.
  assert (Z1 : digit_val 8 "o" = None) by reflexivity. assert (Z2 : digit_val 8 "O" = None) by reflexivity.
  intros H1 H2. destruct H1 as [|c s v Hc Hn|s v Hn|x s v Hx Hn]; inversion H2; subst; auto; try congruence;
    repeat match goal with H : numeral _ _ _ |- _ => apply numeral_spec in H as (? & ? & ?) end; try congruence.
  - match goal with H : Forall _ (_ :: _) |- _ => inversion H; subst end. destruct H0; subst; congruence.
  - match goal with H : Forall _ (_ :: _) |- _ => inversion H; subst end. destruct Hx; subst; congruence.
Qed.

(** ** editFloats *)
Lemma zero_plus c : (Ascii.eqb c "0" || Ascii.eqb c "+") = true -> c = "0"%char \/ c = "+"%char.
Proof. rewrite orb_true_iff, !Ascii.eqb_eq. auto. Qed.
Lemma strip_numeral s v : numeral 10 s v -> v <> 0%Z ->
  numeral 10 (trim_left (fun c => Ascii.eqb c "0" || Ascii.eqb c "+") s) v.
Proof.
  intros H Hv. apply numeral_spec in H as (H1 & H2 & ->).
  destruct (trim_left_suffix (fun c => Ascii.eqb c "0" || Ascii.eqb c "+") s) as (z & E & Hz).
  set (t := trim_left _ s) in *.
  assert (Hz' : forallb (Ascii.eqb "0") z = true).
  { rewrite E in H2. apply Forall_app in H2 as [H2 _]. clear -Hz H2. induction z as [|c z IH]; auto.
    cbn [forallb] in *. apply andb_true_iff in Hz as [Hc Hz]. inversion_clear H2 as [|? ? Hd H2']. rewrite IH by auto.
    apply zero_plus in Hc as [->| ->]; [auto|destruct Hd; reflexivity]. }
  rewrite E in Hv |- *. rewrite value_zeros in Hv |- * by auto. apply numeral_spec. split; [|split; auto].
  - intros Ht. rewrite Ht in Hv. apply Hv. reflexivity.
  - rewrite E in H2. apply Forall_app in H2. tauto.
Qed.
Lemma exponent_strip mk s x : exponent (mk :: s) x -> x <> 0%Z ->
  exponent ("e"%char :: trim_left (fun c => Ascii.eqb c "0" || Ascii.eqb c "+") s) x.
Proof.
  intros H Hx. inversion H; subst.
  - constructor; auto. apply strip_numeral; auto.
  - simpl. apply ex_pos; auto. apply strip_numeral; auto.
  - simpl. apply ex_minus; auto.
Qed.
Lemma float_value tok m e : float_literal tok m e ->
  (forall ip fp ex, tok = ip ++ %"." ++ fp ++ ex -> ex <> [] -> ~ exponent ex 0) ->
  float_literal (float_token tok) m e.
Proof.
  intros (ip & fp & ex & x & -> & Hne & Hd & Hm & He & ->) Hz.
  assert (Hip : forall c, digit_val 10 c = None -> ~ In c ip /\ ~ In c fp).
  { intros c Hc. split; intros Hin; apply (Hd c); auto; apply in_app_iff; auto. }
  assert (N : forall c, In c %"eE.+-" -> digit_val 10 c = None).
  { intros c Hc. repeat (destruct Hc as [<-|Hc]; [reflexivity|]). destruct Hc. }
  set (ip' := match ip with [] => %"0" | _ => ip end).
  assert (E1 : (if has_prefix [c_dot] (ip ++ %"." ++ fp ++ ex) then "0"%char :: ip ++ %"." ++ fp ++ ex else ip ++ %"." ++ fp ++ ex)
     = ip' ++ %"." ++ fp ++ ex).
  { unfold ip'. destruct ip as [|c ip]; auto.
    assert (has_prefix [c_dot] ((c :: ip) ++ %"." ++ fp ++ ex) = false) as ->; auto.
    cbn [has_prefix app]. destruct (Ascii.eqb_spec c_dot c); auto. subst. destruct (Hip c_dot) as [Hc _]; [reflexivity|].
    destruct Hc; left; auto. }
  assert (F : float_literal (ip' ++ %"." ++ fp ++ ex) m (x - Z.of_nat (List.length fp)) /\
    (forall c, digit_val 10 c = None -> ~ In c ip')).
  { unfold ip'. destruct ip as [|c ip].
    - split; [|intros c Hc [<-|[]]; discriminate].
      exists %"0", fp, ex, x. split; auto. split; [discriminate|]. split.
      + intros c [<-|Hc]; [discriminate|auto].
      + split; auto. destruct Hm as [[H _]|Hm]; [simpl in *; congruence|]. right. simpl in *.
        apply numeral_spec in Hm as (G1 & G2 & ->). apply numeral_spec. split; [discriminate|]. split.
        * constructor; [discriminate|auto].
        * symmetry. apply value_zero. discriminate.
    - split; [exists (c :: ip), fp, ex, x; repeat split; auto|]. intros d Hd'. apply Hip; auto. }
  destruct F as [F Hip'].
  unfold float_token.
  assert (contains_byte c_dot (ip ++ %"." ++ fp ++ ex) = true) as ->.
  { apply contains_byte_In. apply in_app_iff. right. left. auto. }
  cbn [negb]. rewrite E1.
  assert (Hpre : forall c, In c %"eE" -> ~ In c (ip' ++ %"." ++ fp)).
  { intros c Hc Hin. assert (digit_val 10 c = None) by (apply N; destruct Hc as [<-|[<-|[]]]; simpl; auto).
    rewrite !in_app_iff in Hin. destruct Hin as [Hin|[Hin|Hin]].
    - apply (Hip' c); auto.
    - destruct Hin as [<-|[]]. destruct Hc as [Hc|[Hc|[]]]; discriminate.
    - apply (Hip c); auto. }
  destruct ex as [|mk ex].
  { rewrite app_nil_r in *. rewrite !split2_none; auto; apply Hpre; simpl; auto. }
  assert (Hx0 : x <> 0%Z). { intros ->. eapply Hz; eauto. discriminate. }
  assert (Hmk : mk = "e"%char \/ mk = "E"%char) by (inversion He; auto).
  assert (Hnoe : mk = "E"%char -> ~ In "e"%char ex).
  { intros ->. inversion He; subst; repeat match goal with H : numeral _ _ _ |- _ => apply numeral_spec in H as (? & ? & ?) end;
    try (apply digits_not; auto; fail); intros [H'|H']; try discriminate; revert H'; apply digits_not; auto. }
  assert (G : float_literal ((ip' ++ %"." ++ fp) ++ "e"%char :: trim_left (fun c => Ascii.eqb c "0" || Ascii.eqb c "+") ex) m (x - Z.of_nat (List.length fp))).
  { destruct F as (a & b & ex2 & x2 & F1 & F2 & F3 & F4 & F5 & F6).
    exists ip', fp. exists ("e"%char :: trim_left (fun c => Ascii.eqb c "0" || Ascii.eqb c "+") ex), x.
    split; [rewrite <- !app_assoc; auto|]. split; [unfold ip'; destruct ip; [discriminate|exact Hne]|]. split.
    - intros c Hc. apply in_app_iff in Hc as [Hc|Hc]; [|apply Hd, in_app_iff; auto].
      intros Hn. apply (Hip' c); auto.
    - split; [|split; [eapply exponent_strip; eauto|auto]].
      unfold ip'. destruct ip as [|c ip]; auto. destruct Hm as [[H _]|Hm]; [simpl in *; congruence|]. right. simpl in *.
      apply numeral_spec in Hm as (G1 & G2 & ->). apply numeral_spec. split; [discriminate|]. split.
      * constructor; [discriminate|auto].
      * symmetry. apply value_zero. discriminate. }
  replace (ip' ++ %"." ++ fp ++ mk :: ex) with ((ip' ++ %"." ++ fp) ++ mk :: ex) by (rewrite <- !app_assoc; auto).
  destruct Hmk as [->| ->].
  - rewrite split2_app by (apply Hpre; simpl; auto). exact G.
  - rewrite split2_none.
    + rewrite split2_app by (apply Hpre; simpl; auto). exact G.
    + intros Hin. apply in_app_iff in Hin as [Hin|[Hin|Hin]]; [revert Hin; apply Hpre; simpl; auto|discriminate|apply Hnoe; auto].
Qed.

(** ** Docstrings *)
Lemma spaces_app n m : spaces n ++ spaces m = spaces (n + m).
Proof. unfold spaces. rewrite repeat_app. auto. Qed.
Lemma spaces_forallb n : forallb (Ascii.eqb c_sp) (spaces n) = true.
Proof. unfold spaces. induction n; auto. Qed.
Lemma forallb_spaces s : forallb (Ascii.eqb c_sp) s = true -> s = spaces (List.length s).
Proof.
  induction s as [|c s IH]; auto. cbn [forallb]. rewrite andb_true_iff. intros [H1 H2].
  apply Ascii.eqb_eq in H1. subst c. cbn [List.length]. unfold spaces. simpl. f_equal. apply IH; auto.
Qed.
Lemma rev_spaces n : rev (spaces n) = spaces n.
Proof.
  unfold spaces. induction n as [|n IH]; auto. simpl. rewrite IH.
  change [c_sp] with (repeat c_sp 1). rewrite <- repeat_app. rewrite Nat.add_comm. auto.
Qed.
Lemma lead_decomp s : exists n body, s = spaces n ++ body /\ starts_solid body.
Proof.
  destruct (trim_left_suffix (Ascii.eqb c_sp) s) as (t & H1 & H2).
  pose proof (trim_left_head (Ascii.eqb c_sp) s) as H3.
  exists (List.length t), (trim_left (Ascii.eqb c_sp) s). rewrite <- (forallb_spaces t) by auto. split; auto.
  unfold starts_solid. destruct (trim_left (Ascii.eqb c_sp) s); auto. intros ->. rewrite ascii_eqb_refl in H3. discriminate.
Qed.
Lemma trail_decomp s : exists body m, s = body ++ spaces m /\ starts_solid (rev body).
Proof.
  destruct (lead_decomp (rev s)) as (n & b & H1 & H2). exists (rev b), n. split.
  - rewrite <- (rev_involutive s), H1, rev_app_distr, rev_spaces. auto.
  - rewrite rev_involutive. auto.
Qed.
Lemma trim_left_spaces n b : starts_solid b -> trim_left (Ascii.eqb c_sp) (spaces n ++ b) = b.
Proof.
  intros H. rewrite trim_left_app by apply spaces_forallb. apply trim_left_id.
  destruct b as [|c b]; auto. simpl in H. apply Ascii.eqb_neq. congruence.
Qed.
Lemma trim_right_spaces n b : starts_solid (rev b) -> trim_right (Ascii.eqb c_sp) (b ++ spaces n) = b.
Proof.
  intros H. unfold trim_right. rewrite rev_app_distr, rev_spaces, trim_left_spaces by auto. apply rev_involutive.
Qed.
Lemma dedent_body k n b : b <> [] -> starts_solid b -> dedent_line k (spaces n ++ b) = spaces (n - k) ++ b.
Proof.
  intros Hb Hs. unfold dedent_line. revert n. induction k as [|k IH]; intros n.
  - rewrite Nat.sub_0_r. destruct b as [|c b]; [congruence|]. unfold spaces. destruct n; reflexivity.
  - destruct n as [|n].
    + destruct b as [|c b]; [congruence|]. simpl in Hs. simpl app. cbn [dedent].
      destruct (Ascii.eqb_spec c c_sp); [congruence|]. reflexivity.
    + change (spaces (S n) ++ b) with (c_sp :: (spaces n ++ b)). cbn [dedent]. rewrite ascii_eqb_refl.
      specialize (IH n). destruct (dedent k (spaces n ++ b)) eqn:E; auto.
      exfalso. clear -E Hb Hs. revert n E. induction k as [|k IH]; intros n E.
      * destruct b; [congruence|]. unfold spaces in E. destruct n; discriminate.
      * destruct n; [destruct b as [|c b]; [congruence|]; cbn in E; simpl in Hs|].
        -- destruct (Ascii.eqb_spec c c_sp); [congruence|]. discriminate.
        -- change (spaces (S n) ++ b) with (c_sp :: (spaces n ++ b)) in E. cbn [dedent] in E. rewrite ascii_eqb_refl in E. eauto.
Qed.
Lemma dedent_blank k n : dedent_line k (spaces n) = spaces (if k <? n then n - k else n).
Proof.
  unfold dedent_line.
  assert (G : dedent k (spaces n) = if k <? n then Some (spaces (n - k)) else None).
  { revert n. induction k as [|k IH]; intros [|n]; auto.
    change (spaces (S n)) with (c_sp :: spaces n). cbn [dedent]. rewrite ascii_eqb_refl, IH. reflexivity. }
  rewrite G. destruct (k <? n); auto.
Qed.
Definition shift_line (diff : Z) (line : bytes) : bytes :=
  if (0 <? diff)%Z then repeat c_sp (Z.to_nat diff) ++ line else dedent_line (Z.to_nat (- diff)) line.
Lemma shift_body d n b : b <> [] -> starts_solid b -> exists n', shifted d n n' /\ shift_line d (spaces n ++ b) = spaces n' ++ b.
Proof.
  intros Hb Hs. unfold shift_line, shifted. destruct (Z.ltb_spec 0 d).
  - exists (Z.to_nat d + n). split; [lia|]. change (repeat c_sp (Z.to_nat d)) with (spaces (Z.to_nat d)). rewrite app_assoc, spaces_app. auto.
  - exists (n - Z.to_nat (- d)). split; [lia|]. apply dedent_body; auto.
Qed.
Lemma shift_blank d n : exists n', shift_line d (spaces n) = spaces n' /\ (shifted d n n' \/ n' = n).
Proof.
  unfold shift_line, shifted. destruct (Z.ltb_spec 0 d).
  - exists (Z.to_nat d + n). split; [apply spaces_app|]. left. lia.
  - exists (if Z.to_nat (- d) <? n then n - Z.to_nat (- d) else n). split; [apply dedent_blank|].
    destruct (Nat.ltb_spec (Z.to_nat (- d)) n); auto. left. lia.
Qed.
Lemma format_lines_cons d line rest :
  format_lines d (line :: rest) =
  (match rest with [] => shift_line d line | _ => trim_right (Ascii.eqb c_sp) (shift_line d line) end) :: format_lines d rest.
Proof. reflexivity. Qed.
Lemma format_lines_reindented d lines : reindented d lines (format_lines d lines).
Proof.
  induction lines as [|line rest IH]; [constructor|]. rewrite format_lines_cons.
  destruct (lead_decomp line) as (n & b & -> & Hs).
  destruct rest as [|r rest].
  - constructor. destruct b as [|c b].
    + rewrite app_nil_r. destruct (shift_blank d n) as (n' & E & H). rewrite E. exists n, n', []. rewrite !app_nil_r. repeat split; auto. destruct H; auto.
    + destruct (shift_body d n (c :: b)) as (n' & H & E); [discriminate|auto|]. rewrite E. exists n, n', (c :: b). auto.
  - constructor; [discriminate| |exact IH]. destruct b as [|c b].
    + rewrite app_nil_r. destruct (shift_blank d n) as (n' & -> & _).
      exists n, 0, [], 0. rewrite app_nil_r. repeat split; auto. right. split; auto.
      apply (trim_right_spaces n' []). exact I.
    + destruct (trail_decomp (c :: b)) as (body & m & E & He).
      assert (Hb : body <> []). { intros ->. simpl in E. destruct m; [discriminate|]. injection E as -> _. destruct Hs; auto. }
      destruct (shift_body d n (c :: b)) as (n' & H & Es); [discriminate|auto|]. rewrite Es, E.
      exists n, n', body, m. split; auto. split; [destruct body; [congruence|]; injection E as <- _; exact Hs|]. split; auto.
      left. split; auto. split; auto. rewrite app_assoc. apply trim_right_spaces.
      rewrite rev_app_distr. destruct (rev body) eqn:Er; auto. apply (f_equal (@rev ascii)) in Er. rewrite rev_involutive in Er. simpl in Er. congruence.
Qed.
Lemma format_string_spec value old new :
  exists first lines, text_of (first :: lines) value /\
    format_string value old new = join [c_nl] (first :: format_lines (new - old) lines).
Proof.
  unfold format_string, text_of. destruct (split c_nl value) as [|first lines] eqn:E; [destruct (split_nonempty _ _ E)|].
  exists first, lines. split; auto. split; [discriminate|]. split.
  - rewrite <- E. apply split_no_sep.
  - rewrite <- E. symmetry. apply join_split.
Qed.
Lemma reindented_no_nl d l l' : reindented d l l' -> Forall (fun x => ~ In c_nl x) l -> Forall (fun x => ~ In c_nl x) l'.
Proof.
  assert (Hsp : forall n, ~ In c_nl (spaces n)) by (intros n H; apply repeat_spec in H; discriminate).
  induction 1 as [|l l' H|l l' r r' Hr H R IH]; intros F; constructor; inversion_clear F as [|? ? F1 F2]; auto.
  - destruct H as (n & n' & b & -> & _ & -> & _). rewrite in_app_iff in *. firstorder.
  - destruct H as (n & n' & b & m & -> & _ & _ & [(_ & _ & ->)|(_ & ->)]); [|auto]. rewrite !in_app_iff in *. firstorder.
Qed.
Lemma format_lines_zero d l : format_lines 0 (format_lines d l) = format_lines d l.
Proof.
  induction l as [|x l IH]; auto. cbn [format_lines]. destruct l as [|y l].
  - cbn [format_lines]. f_equal. set (z := if (0 <? d)%Z then _ else _). cbn. 
    unfold dedent_line. destruct z; reflexivity.
  - rewrite IH. f_equal. set (z := trim_right _ _).
    destruct (format_lines d (y :: l)) eqn:E; [discriminate|].
    assert (dedent_line (Z.to_nat (- 0)) z = z) as Hz by (unfold dedent_line; destruct z; reflexivity).
    change (0 <? 0)%Z with false. cbv iota. rewrite Hz. unfold z, trim_right. rewrite rev_involutive, trim_left_idem. auto.
Qed.
Lemma format_string_again value old new :
  format_string (format_string value old new) new new = format_string value old new.
Proof.
  destruct (format_string_spec value old new) as (first & lines & (H1 & H2 & H3) & E). rewrite E.
  assert (F : Forall (fun x => ~ In c_nl x) (first :: format_lines (new - old) lines)).
  { inversion_clear H2. constructor; auto. eapply reindented_no_nl; [apply format_lines_reindented|auto]. }
  unfold format_string. rewrite split_join by (auto; discriminate). rewrite Z.sub_diag, format_lines_zero. auto.
Qed.
