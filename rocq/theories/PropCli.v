(** Properties C51, C52, C54, C56, C61: command lines, tables, extension labels, file types. *)
From Verif Require Import Base BaseProofs Ast Labels Cli CliSpec.

(** ** Replacing *)
Definition esc_with (P : ascii -> bool) (a : bytes) : bytes := flat_map (fun c => if P c then [c_bs; c] else [c]) a.
Definition sub_with (P : ascii -> bool) (x : ascii) (new a : bytes) : bytes :=
  flat_map (fun c => if Ascii.eqb c x then new else if P c then [c_bs; c] else [c]) a.
Lemma replace_skip old new k a b : List.length a = k -> replace_from old new k (a ++ b) = replace_from old new 0 b.
Proof. revert a. induction k as [|k IH]; intros [|c a] H; simpl in *; try discriminate; auto. Qed.
Lemma replace_hit x new r : replace_from [c_bs; x] new 0 (c_bs :: x :: r) = new ++ replace_from [c_bs; x] new 0 r.
Proof. simpl. rewrite !Ascii.eqb_refl. reflexivity. Qed.
Lemma replace_miss x new c r : (c <> c_bs \/ match r with d :: _ => d <> x | [] => True end) ->
  replace_from [c_bs; x] new 0 (c :: r) = c :: replace_from [c_bs; x] new 0 r.
Proof.
  intros H. cbn [replace_from has_prefix]. destruct (Ascii.eqb_spec c_bs c) as [<-|N]; [|reflexivity].
  destruct H as [H|H]; [congruence|]. destruct r as [|d r]; [reflexivity|].
  destruct (Ascii.eqb_spec x d) as [<-|]; [congruence|reflexivity].
Qed.
Lemma not_ends_cons c a : a <> [] -> ends_in_backslash (c :: a) <-> ends_in_backslash a.
Proof.
  intros N. split; intros [p H].
  - destruct p as [|q p]; simpl in H; [injection H as _ H; congruence|]. injection H as _ H. exists p; auto.
  - exists (c :: p). rewrite H. reflexivity.
Qed.
Lemma esc_head P a : match esc_with P a with [] => a = [] | d :: _ => d = c_bs \/ P d = false end.
Proof. destruct a as [|c a]; simpl; auto. destruct (P c) eqn:E; simpl; auto. Qed.
Lemma replace_esc P x new a rest : P x = true -> P c_bs = false -> x <> c_bs ->
  (~ ends_in_backslash a \/ match rest with d :: _ => d <> x | [] => True end) ->
  replace_from [c_bs; x] new 0 (esc_with P a ++ rest) = sub_with P x new a ++ replace_from [c_bs; x] new 0 rest.
Proof.
  intros Px Pb Nx. induction a as [|c a IH]; intros H; [reflexivity|].
  assert (H' : a = [] \/ (~ ends_in_backslash a \/ match rest with d :: _ => d <> x | [] => True end)).
  { destruct a as [|d a]; [left; auto|right]. destruct H as [H|H]; [left|right; auto]. intros E. apply H. apply not_ends_cons; [discriminate|auto]. }
  assert (IH' : replace_from [c_bs; x] new 0 (esc_with P a ++ rest) = sub_with P x new a ++ replace_from [c_bs; x] new 0 rest).
  { destruct H' as [->|H']; [reflexivity|]. apply IH; auto. }
  unfold esc_with, sub_with. cbn [flat_map]. fold (esc_with P a). fold (sub_with P x new a).
  destruct (P c) eqn:Pc.
  - destruct (Ascii.eqb_spec c x) as [->|N].
    + cbn [app]. rewrite replace_hit, IH', app_assoc. reflexivity.
    + cbn [app]. rewrite replace_miss by auto. rewrite replace_miss; [rewrite IH'; reflexivity|].
      left. intros ->. congruence.
  - destruct (Ascii.eqb_spec c x) as [->|N]; [congruence|]. cbn [app].
    rewrite replace_miss; [rewrite IH'; reflexivity|].
    destruct (Ascii.eqb_spec c c_bs) as [->|Nb]; [right|left; auto].
    pose proof (esc_head P a) as Hd. destruct (esc_with P a) as [|d t].
    + subst a. cbn [app]. destruct H as [H|H]; auto. exfalso. apply H. exists []. reflexivity.
    + cbn [app]. destruct Hd as [->|Hd]; [auto|]. intros ->. congruence.
Qed.
Lemma replace_esc_all P x new a : P x = true -> P c_bs = false -> x <> c_bs ->
  replace_all [c_bs; x] new (esc_with P a) = sub_with P x new a.
Proof.
  intros H1 H2 H3. unfold replace_all. rewrite <- (app_nil_r (esc_with P a)), replace_esc by auto.
  cbn [replace_from]. rewrite app_nil_r. reflexivity.
Qed.

(** ** Splitting command lines *)
Lemma sep_blank c : is_sep c = true <-> blank c.
Proof.
  unfold is_sep, blank. rewrite orb_true_iff, !Ascii.eqb_eq. tauto.
Qed.
Lemma unescape_escaped a : unescape (escaped a) = a.
Proof.
  unfold unescape. change (escaped a) with (esc_with is_sep a).
  rewrite replace_esc_all; [|reflexivity|reflexivity|discriminate].
  assert (E : sub_with is_sep c_sp [c_sp] a = esc_with (fun c => Ascii.eqb c c_nl) a).
  { unfold sub_with, esc_with. apply flat_map_ext. intros c. unfold is_sep.
    destruct (Ascii.eqb_spec c c_sp) as [->|]; [reflexivity|]. rewrite orb_false_l. reflexivity. }
  rewrite E, replace_esc_all; [|reflexivity|reflexivity|discriminate].
  unfold sub_with. clear E. induction a as [|c a IH]; [reflexivity|]. cbn [flat_map]. rewrite IH.
  destruct (Ascii.eqb_spec c c_nl) as [->|]; reflexivity.
Qed.
Lemma pieces_sep cur c r : is_sep c = true -> pieces cur (c :: r) = flush cur ++ pieces [] r.
Proof.
  intros H. destruct r as [|d r].
  - cbn [pieces]. rewrite H. cbn [flush]. rewrite app_nil_r. reflexivity.
  - cbn [pieces]. rewrite H. destruct (Ascii.eqb_spec c c_bs) as [->|]; [discriminate|]. reflexivity.
Qed.
Lemma pieces_blanks b r : blanks b -> pieces [] (b ++ r) = pieces [] r.
Proof.
  induction 1 as [|c b Hc Hb IH]; [reflexivity|]. cbn [app]. rewrite pieces_sep by (apply sep_blank; auto). exact IH.
Qed.
Lemma pieces_plain cur c r : is_sep c = false -> (c <> c_bs \/ match r with d :: _ => is_sep d = false | [] => True end) ->
  pieces cur (c :: r) = pieces (c :: cur) r.
Proof.
  intros H H2. destruct r as [|d r].
  - cbn [pieces]. rewrite H. reflexivity.
  - cbn [pieces]. rewrite H. destruct (Ascii.eqb_spec c c_bs) as [->|N]; [|reflexivity].
    destruct H2 as [H2|H2]; [congruence|]. rewrite H2. reflexivity.
Qed.
Lemma pieces_pair cur d r : is_sep d = true -> pieces cur (c_bs :: d :: r) = pieces (d :: c_bs :: cur) r.
Proof. intros H. cbn [pieces]. rewrite H, Ascii.eqb_refl. reflexivity. Qed.
Lemma pieces_escaped a : forall cur rest,
  (~ ends_in_backslash a \/ rest = []) ->
  pieces cur (escaped a ++ rest) = pieces (rev (escaped a) ++ cur) rest.
Proof.
  induction a as [|c a IH]; intros cur rest H; [reflexivity|].
  assert (H' : a = [] \/ (~ ends_in_backslash a \/ rest = [])).
  { destruct a as [|d a]; [left; auto|right]. destruct H as [H|H]; [left|right; auto]. intros E. apply H. apply not_ends_cons; [discriminate|auto]. }
  assert (IH' : forall cur', pieces cur' (escaped a ++ rest) = pieces (rev (escaped a) ++ cur') rest).
  { destruct H' as [->|H']; [reflexivity|]. intros cur'. apply IH; auto. }
  change (escaped (c :: a)) with ((if is_sep c then [c_bs; c] else [c]) ++ escaped a).
  destruct (is_sep c) eqn:S.
  - cbn [app]. rewrite pieces_pair by auto. rewrite IH'. f_equal. cbn [rev]. rewrite <- !app_assoc. reflexivity.
  - cbn [app]. rewrite pieces_plain; auto.
    + rewrite IH'. f_equal. cbn [rev]. rewrite <- app_assoc. reflexivity.
    + destruct (Ascii.eqb_spec c c_bs) as [->|N]; [right|left; auto].
      pose proof (esc_head is_sep a) as Hd. change (esc_with is_sep a) with (escaped a) in Hd.
      destruct (escaped a) as [|d t].
      * subst a. cbn [app]. destruct H as [H| ->]; auto. exfalso. apply H. exists []. reflexivity.
      * cbn [app]. destruct Hd as [->|Hd]; auto.
Qed.
Lemma escaped_nonempty a : a <> [] -> exists c t, rev (escaped a) = c :: t.
Proof.
  intros N. destruct (rev (escaped a)) as [|c t] eqn:E; [|eauto].
  apply (f_equal (@rev ascii)) in E. rewrite rev_involutive in E. destruct a as [|x a]; [congruence|].
  change (escaped (x :: a)) with ((if is_sep x then [c_bs; x] else [x]) ++ escaped a) in E.
  destruct (is_sep x); discriminate.
Qed.
Lemma flush_escaped a : a <> [] -> map unescape (flush (rev (escaped a))) = [a].
Proof.
  intros N. destruct (escaped_nonempty a N) as (c & t & E).
  unfold flush. rewrite E, <- E, rev_involutive. cbn [map]. rewrite unescape_escaped. reflexivity.
Qed.

(** C51: whatever arguments a line spells, splitting returns them. *)
Theorem C51_split_returns_arguments :
  forall line args, spelled line args -> SplitOnSpaces line = args.
Proof.
  intros line args H. unfold SplitOnSpaces.
  induction H as [b Hb|b a Hb Na|b a c rest args Hb Na Ne Hc H IH].
  - rewrite <- (app_nil_r b), pieces_blanks by auto. reflexivity.
  - rewrite pieces_blanks by auto. rewrite <- (app_nil_r (escaped a)), pieces_escaped by auto.
    rewrite app_nil_r. cbn [pieces]. apply flush_escaped; auto.
  - rewrite pieces_blanks by auto. rewrite pieces_escaped by auto. rewrite app_nil_r.
    rewrite pieces_sep by (apply sep_blank; auto). rewrite map_app, flush_escaped by auto. rewrite IH. reflexivity.
Qed.
Print Assumptions C51_split_returns_arguments.

Lemma spelled_blank c rest args : blank c -> spelled rest args -> spelled (c :: rest) args.
Proof.
  intros Hc H. destruct H as [b Hb|b a Hb Na|b a d rest args Hb Na Ne Hd H].
  - apply spelled_none. constructor; auto.
  - apply (spelled_last (c :: b)); auto. constructor; auto.
  - apply (spelled_more (c :: b)); auto. constructor; auto.
Qed.
Lemma escaped_snoc a c : escaped (a ++ [c]) = escaped a ++ (if is_sep c then [c_bs; c] else [c]).
Proof. unfold escaped. rewrite flat_map_app. cbn [flat_map]. rewrite app_nil_r. reflexivity. Qed.
Lemma ends_snoc a c : ends_in_backslash (a ++ [c]) <-> c = c_bs.
Proof.
  split.
  - intros [p H]. apply app_inj_tail in H as [_ H]. auto.
  - intros ->. exists a; auto.
Qed.
Lemma not_ends_nil : ~ ends_in_backslash [].
Proof. intros [p H]. destruct p; discriminate. Qed.
Lemma pieces_spelled n : forall s a, List.length s <= n ->
  (~ ends_in_backslash a \/ match s with d :: _ => is_sep d = false | [] => True end) ->
  spelled (escaped a ++ s) (map unescape (pieces (rev (escaped a)) s)).
Proof.
  induction n as [|n IH]; intros s a L H.
  - destruct s; [|simpl in L; lia]. rewrite app_nil_r. cbn [pieces].
    destruct a as [|x a]; [apply spelled_none; constructor|].
    rewrite flush_escaped by discriminate. apply (spelled_last [] (x :: a)); [constructor|discriminate].
  - destruct s as [|c s].
    { rewrite app_nil_r. cbn [pieces].
      destruct a as [|x a]; [apply spelled_none; constructor|].
      rewrite flush_escaped by discriminate. apply (spelled_last [] (x :: a)); [constructor|discriminate]. }
    simpl in L. destruct (is_sep c) eqn:S.
    + rewrite pieces_sep by auto. rewrite map_app.
      assert (Sp : spelled s (map unescape (pieces [] s))).
      { change s with (escaped [] ++ s) at 1. apply (IH s []); [lia|left; apply not_ends_nil]. }
      destruct a as [|x a].
      * cbn [flush rev escaped flat_map map app]. apply spelled_blank; [apply sep_blank; auto|exact Sp].
      * rewrite flush_escaped by discriminate. cbn [app].
        apply (spelled_more [] (x :: a) c s); auto; [constructor|discriminate| |apply sep_blank; auto].
        destruct H as [H|H]; [exact H|congruence].
    + destruct (Ascii.eqb_spec c c_bs) as [->|Nb].
      * destruct s as [|d s].
        -- rewrite pieces_plain by auto.
           specialize (IH [] (a ++ [c_bs])). rewrite escaped_snoc in IH. cbn in IH. rewrite rev_app_distr in IH. cbn in IH.
           rewrite app_nil_r in IH. apply IH; [lia|right; auto].
        -- destruct (is_sep d) eqn:Sd.
           ++ rewrite pieces_pair by auto.
              specialize (IH s (a ++ [d])). rewrite escaped_snoc, Sd in IH. rewrite rev_app_distr in IH. cbn [rev app] in IH.
              rewrite <- app_assoc in IH. apply IH; [simpl in L; lia|]. left. rewrite ends_snoc. intros ->. discriminate.
           ++ rewrite pieces_plain by auto.
              specialize (IH (d :: s) (a ++ [c_bs])). rewrite escaped_snoc in IH. 
              replace (is_sep c_bs) with false in IH by reflexivity. rewrite rev_app_distr in IH. cbn [rev app] in IH.
              rewrite <- app_assoc in IH. apply IH; [lia|right; auto].
      * rewrite pieces_plain by auto.
        specialize (IH s (a ++ [c])). rewrite escaped_snoc, S in IH. rewrite rev_app_distr in IH. cbn [rev app] in IH.
        rewrite <- app_assoc in IH. apply IH; [lia|]. left. rewrite ends_snoc. auto.
Qed.
(** C51: every line is a spelling of the arguments it is split into; the escaping loses nothing. *)
Theorem C51_split_is_a_reading :
  forall line, spelled line (SplitOnSpaces line).
Proof.
  intros line. unfold SplitOnSpaces. apply (pieces_spelled (List.length line) line []); [lia|].
  left. apply not_ends_nil.
Qed.
Print Assumptions C51_split_is_a_reading.
(** C51: so an argument that ends in a backslash cannot be followed by another one. *)
Theorem C51_trailing_backslash_refuted :
  forall line a b rest before, SplitOnSpaces line = before ++ a :: b :: rest -> ~ ends_in_backslash a.
Proof.
  intros line a b rest before H. pose proof (C51_split_is_a_reading line) as Sp. rewrite H in Sp.
  remember (before ++ a :: b :: rest) as args eqn:E. clear H. revert before E.
  induction Sp as [b0 Hb|b0 a0 Hb Na|b0 a0 c r args Hb Na Ne Hc Sp IH]; intros before E.
  - destruct before; discriminate.
  - destruct before as [|x before]; [discriminate|]. injection E as _ E. destruct before; discriminate.
  - destruct before as [|x before]; cbn [app] in E; injection E as -> E.
    + exact Ne.
    + apply (IH before). exact E.
Qed.
Print Assumptions C51_trailing_backslash_refuted.
Example C51_nontrivial :
  spelled %"  set copts -DX=a\ b" [%"set"; %"copts"; %"-DX=a b"] /\
  SplitOnSpaces %"  set copts -DX=a\ b" = [%"set"; %"copts"; %"-DX=a b"].
Proof.
  split; [|reflexivity].
  apply (spelled_more %"  " %"set" c_sp %"copts -DX=a\ b"); [repeat constructor|discriminate| |left; auto|].
  { intros [p H]. apply (f_equal (@rev ascii)) in H. rewrite rev_app_distr in H. discriminate. }
  apply (spelled_more [] %"copts" c_sp %"-DX=a\ b"); [constructor|discriminate| |left; auto|].
  { intros [p H]. apply (f_equal (@rev ascii)) in H. rewrite rev_app_distr in H. discriminate. }
  apply (spelled_last [] %"-DX=a b"); [constructor|discriminate].
Qed.

(** ** Command files *)
Lemma saved_back a : ~ In nul a -> replace_all [nul; nul] [c_pipe] (flat_map (fun c => if Ascii.eqb c c_pipe then [nul; nul] else [c]) a) = a.
Proof.
  unfold replace_all. induction a as [|c a IH]; intros H; [reflexivity|]. cbn [flat_map].
  assert (Ha : ~ In nul a) by (intros X; apply H; right; auto).
  destruct (Ascii.eqb_spec c c_pipe) as [->|N].
  - cbn [app]. cbn [replace_from has_prefix]. rewrite !Ascii.eqb_refl. cbn [andb List.length Nat.sub replace_from app].
    rewrite IH by auto. reflexivity.
  - cbn [app]. cbn [replace_from has_prefix]. destruct (Ascii.eqb_spec nul c) as [E|_].
    + exfalso. apply H. left. auto.
    + cbn [andb]. rewrite IH by auto. reflexivity.
Qed.
Lemma sub_pipe a : sub_with (fun c => Ascii.eqb c c_pipe) c_pipe [nul; nul] a
  = flat_map (fun c => if Ascii.eqb c c_pipe then [nul; nul] else [c]) a.
Proof. unfold sub_with. apply flat_map_ext. intros c. destruct (Ascii.eqb c c_pipe); reflexivity. Qed.
Lemma sub_no_pipe a : ~ In c_pipe (flat_map (fun c => if Ascii.eqb c c_pipe then [nul; nul] else [c]) a).
Proof.
  rewrite in_flat_map. intros (c & _ & H). destruct (Ascii.eqb_spec c c_pipe) as [E|N].
  - destruct H as [H|[H|[]]]; discriminate.
  - destruct H as [H|[]]. congruence.
Qed.
(** C51: the fields of a line of a command file are read back as they were, if '|' in them is
    escaped; provided that no field but the last ends in a backslash and that there are no NUL
    bytes in them. *)
Theorem C51_pipes_are_preserved :
  forall fields last,
    Forall (fun f => ~ ends_in_backslash f /\ ~ In nul f) fields -> ~ In nul last ->
    line_args (join [c_pipe] (map pipe_escaped (fields ++ [last]))) = fields ++ [last].
Proof.
  intros fields last F L. unfold line_args, saveEscapedPipes.
  assert (E : replace_all [c_bs; c_pipe] [nul; nul] (join [c_pipe] (map pipe_escaped (fields ++ [last]))) =
    join [c_pipe] (map (fun a => flat_map (fun c => if Ascii.eqb c c_pipe then [nul; nul] else [c]) a) (fields ++ [last]))).
  { unfold replace_all. induction F as [|f fields [F1 F2] F IH].
    - cbn [app map join]. change (pipe_escaped last) with (esc_with (fun c => Ascii.eqb c c_pipe) last).
      rewrite <- sub_pipe. rewrite <- (replace_esc_all (fun c => Ascii.eqb c c_pipe) c_pipe [nul; nul] last); [reflexivity|reflexivity|reflexivity|discriminate].
    - cbn [app map]. destruct (fields ++ [last]) as [|g r] eqn:G; [destruct fields; discriminate|].
      cbn [map]. cbn [map] in IH.
      change (join [c_pipe] (pipe_escaped f :: pipe_escaped g :: map pipe_escaped r))
        with (pipe_escaped f ++ c_pipe :: join [c_pipe] (pipe_escaped g :: map pipe_escaped r)).
      change (pipe_escaped f) with (esc_with (fun c => Ascii.eqb c c_pipe) f).
      rewrite replace_esc; [|reflexivity|reflexivity|discriminate|auto].
      rewrite replace_miss by (left; discriminate). rewrite IH, sub_pipe. reflexivity. }
  rewrite E. rewrite split_join.
  - unfold replaceSavedPipes. rewrite map_map. rewrite <- (map_id (fields ++ [last])) at 2. apply map_ext_in. intros a Ha.
    apply saved_back. apply in_app_iff in Ha as [Ha|[<-|[]]]; auto.
    rewrite Forall_forall in F. apply F; auto.
  - destruct fields; discriminate.
  - apply Forall_forall. intros p Hp. apply in_map_iff in Hp as (a & <- & _). apply sub_no_pipe.
Qed.
Print Assumptions C51_pipes_are_preserved.
(** C51: the placeholder for saved pipes is itself taken for a pipe: a field with two NUL bytes
    is changed. *)
Theorem C51_nul_refuted :
  exists f, ~ In c_pipe f /\ ~ In c_bs f /\ line_args f = [%"|"].
Proof.
  exists [nul; nul]. split; [|split; [|reflexivity]]; intros [H|[H|[]]]; discriminate.
Qed.
Print Assumptions C51_nul_refuted.
Example C51_pipes_nontrivial :
  line_args (join [c_pipe] (map pipe_escaped [%"set cmd a|b\|c"; %"//x:y"; %"z\"])) = [%"set cmd a|b\|c"; %"//x:y"; %"z\"] /\
  pipe_escaped %"a|b" = %"a\|b".
Proof. split; reflexivity. Qed.

(** ** C61: the order of commands *)
Section Order.
  Context (is_command : bytes -> bool) (files : bytes -> list bytes).
  Definition command_arg (a : bytes) : bool := match SplitOnSpaces a with n :: _ => is_command n | [] => false end.
  (** what the arguments of one line ask of file [f] *)
  Definition asked (f : bytes) (args : list bytes) : list (bytes * list (list bytes)) :=
    let cmds := map SplitOnSpaces (filter command_arg args) in
    flat_map (fun t => map (fun _ => (target_of t, cmds)) (filter (beq f) (files (target_of t))))
      (filter (fun a => negb (command_arg a)) args).
  Lemma parse_spec args cmds targets : parseCommands is_command args = Some (cmds, targets) ->
    cmds = map SplitOnSpaces (filter command_arg args) /\ targets = filter (fun a => negb (command_arg a)) args /\
    Forall (fun a => SplitOnSpaces a <> []) args.
  Proof.
    revert cmds targets. induction args as [|a args IH]; intros cmds targets H; cbn [parseCommands] in H.
    - injection H as <- <-. repeat split; constructor.
    - destruct (SplitOnSpaces a) as [|n ps] eqn:S; [discriminate|].
      destruct (parseCommands is_command args) as [[cs ts]|] eqn:P; [|discriminate].
      destruct (IH cs ts eq_refl) as (-> & -> & F).
      assert (C : command_arg a = is_command n) by (unfold command_arg; rewrite S; reflexivity).
      cbn [filter]. rewrite C. destruct (is_command n); injection H as <- <-; cbn [map negb]; rewrite ?S.
      + repeat split; auto. constructor; auto. congruence.
      + repeat split; auto. constructor; auto. congruence.
  Qed.
  Lemma append_files t cmds fs : forall m f,
    fold_left (fun m file => append_at m file (t, cmds)) fs m f = m f ++ map (fun _ => (t, cmds)) (filter (beq f) fs).
  Proof.
    induction fs as [|g fs IH]; intros m f; cbn [fold_left filter]; [rewrite app_nil_r; reflexivity|].
    rewrite IH. unfold append_at at 1. destruct (beq f g); [|reflexivity].
    cbn [map]. rewrite <- app_assoc. reflexivity.
  Qed.
  Lemma append_targets cmds ts : forall m f,
    fold_left (fun m t => let t := target_of t in fold_left (fun m file => append_at m file (t, cmds)) (files t) m) ts m f
    = m f ++ flat_map (fun t => map (fun _ => (target_of t, cmds)) (filter (beq f) (files (target_of t)))) ts.
  Proof.
    induction ts as [|t ts IH]; intros m f; cbn [fold_left flat_map]; [rewrite app_nil_r; reflexivity|].
    rewrite IH. cbv zeta. rewrite append_files, app_assoc. reflexivity.
  Qed.
End Order.

(** Every line has exactly one reading. *)
Theorem C61_line_reading : forall labels line r, line_reads labels line r <-> r = line_commands labels line.
Proof.
  intros labels line r. unfold line_commands. split.
  - intros H. destruct H as [|s|c s cmd rest C E|c s C N].
    + reflexivity.
    + rewrite Ascii.eqb_refl. reflexivity.
    + destruct (Ascii.eqb_spec c c_hash); [contradiction|]. rewrite E. rewrite beq_refl. reflexivity.
    + destruct (Ascii.eqb_spec c c_hash); [contradiction|].
      destruct (line_args (c :: s)) as [|a [|b l]]; try reflexivity.
      cbn [nth_error] in N. destruct (beq_spec b %"*") as [->|]; [congruence|reflexivity].
  - intros ->. destruct line as [|c s]; [constructor|].
    destruct (Ascii.eqb_spec c c_hash) as [->|C]; [constructor|].
    destruct (line_args (c :: s)) as [|a [|b l]] eqn:E.
    + rewrite <- E. apply lr_fields; auto. rewrite E. discriminate.
    + rewrite <- E. apply lr_fields; auto. rewrite E. discriminate.
    + destruct (beq_spec b %"*") as [->|N].
      * eapply lr_labels; eauto.
      * rewrite <- E. apply lr_fields; auto. rewrite E. cbn [nth_error]. congruence.
Qed.
Print Assumptions C61_line_reading.

(** C61: every file gets, in the order of the lines and of the targets in them, all commands of
    the lines that name one of its targets; comments and empty lines count for nothing. *)
Theorem C61_commands_in_order :
  forall is_command files labels lines readings m m',
    appendCommandsFromLines is_command files labels m lines = Some m' ->
    Forall2 (line_reads labels) lines readings ->
    forall f, m' f = m f ++
      flat_map (fun r => match r with None => [] | Some args => asked is_command files f args end) readings.
Proof.
  intros is_command files labels lines.
  induction lines as [|line lines IH]; intros readings m m' H R f; inversion R as [|? r ? rs R1 R2]; subst; cbn [appendCommandsFromLines flat_map] in *.
  - injection H as <-. rewrite app_nil_r. reflexivity.
  - apply C61_line_reading in R1. subst r.
    destruct (line_commands labels line) as [args|]; [|apply IH; auto].
    destruct (appendCommands is_command files m args) as [m1|] eqn:E; [|discriminate].
    rewrite (IH rs m1 m' H R2 f). rewrite app_assoc. f_equal. unfold appendCommands in E.
    destruct (parseCommands is_command args) as [[cs ts]|] eqn:P; [|discriminate]. injection E as <-.
    apply parse_spec in P as (-> & -> & _). rewrite append_targets. reflexivity.
Qed.
Print Assumptions C61_commands_in_order.
(** C61: an empty argument is an error, nothing else is. *)
Theorem C61_error_iff_empty_argument :
  forall is_command files m args,
    appendCommands is_command files m args = None <-> exists a, In a args /\ blanks a.
Proof.
  intros is_command files m args. unfold appendCommands.
  assert (Q : forall a, SplitOnSpaces a = [] <-> blanks a).
  { intros a. split.
    - intros H. pose proof (C51_split_is_a_reading a) as S. rewrite H in S. inversion S; subst; auto.
    - intros H. apply C51_split_returns_arguments. constructor; auto. }
  destruct (parseCommands is_command args) as [[cs ts]|] eqn:P.
  - split; [discriminate|]. intros (a & I1 & B). apply parse_spec in P as (_ & _ & F).
    rewrite Forall_forall in F. exfalso. apply (F a I1). apply Q. auto.
  - split; auto. intros _. induction args as [|a args IH]; cbn [parseCommands] in P; [discriminate|].
    destruct (SplitOnSpaces a) as [|n ps] eqn:S.
    + exists a. split; [left; auto|]. apply Q; auto.
    + destruct (parseCommands is_command args) as [[cs ts]|].
      * destruct (is_command n); discriminate.
      * destruct (IH eq_refl) as (x & I1 & B). exists x. split; [right; auto|auto].
Qed.
Print Assumptions C61_error_iff_empty_argument.
(** '//pkg/BUILD' names the package. *)
Theorem C61_build_file_targets :
  forall p, target_of (p ++ %"/BUILD") = p ++ %":__pkg__" /\ target_of (p ++ %"/BUCK") = p ++ %":__pkg__" /\
    target_of (p ++ %"/BUILD.bazel") = p ++ %":__pkg__".
Proof.
  intros p. unfold target_of, BuildFileNames. cbn [fold_left].
  assert (N : forall s t q, List.length s = List.length t -> s <> t -> has_suffix s (q ++ t) = false).
  { intros s t q L Hn. destruct (has_suffix s (q ++ t)) eqn:E; auto. apply has_suffix_spec in E as [r E].
    exfalso. apply Hn. apply (f_equal (@rev ascii)) in E. rewrite !rev_app_distr in E.
    apply (f_equal (firstn (List.length s))) in E.
    rewrite <- (rev_length s) in E at 2. rewrite firstn_app_exact in E. rewrite L, <- (rev_length t), firstn_app_exact in E.
    apply (f_equal (@rev ascii)) in E. rewrite !rev_involutive in E. auto. }
  assert (K : forall name x q, In name BuildFileNames -> In x [%":__pkg__"] -> has_suffix (%"/" ++ name) (q ++ x) = false).
  { intros name x q I1 [<-|[]]. destruct (has_suffix (%"/" ++ name) (q ++ %":__pkg__")) eqn:E; auto.
    exfalso. apply has_suffix_spec in E as [r E]. apply (f_equal (@rev ascii)) in E. rewrite !rev_app_distr in E.
    destruct I1 as [<-|[<-|[<-|[]]]]; discriminate. }
  repeat split.
  - assert (has_suffix (%"/" ++ %"BUILD.bazel") (p ++ %"/BUILD") = false) as ->.
    { destruct (has_suffix (%"/" ++ %"BUILD.bazel") (p ++ %"/BUILD")) eqn:E; auto. exfalso.
      apply has_suffix_spec in E as [r E]. apply (f_equal (@rev ascii)) in E. rewrite !rev_app_distr in E. discriminate. }
    change (%"/" ++ %"BUILD") with %"/BUILD". rewrite has_suffix_app, trim_suffix_app. rewrite K; simpl; auto.
  - assert (has_suffix (%"/" ++ %"BUILD.bazel") (p ++ %"/BUCK") = false) as ->.
    { destruct (has_suffix (%"/" ++ %"BUILD.bazel") (p ++ %"/BUCK")) eqn:E; auto. exfalso.
      apply has_suffix_spec in E as [r E]. apply (f_equal (@rev ascii)) in E. rewrite !rev_app_distr in E. discriminate. }
    assert (has_suffix (%"/" ++ %"BUILD") (p ++ %"/BUCK") = false) as ->.
    { destruct (has_suffix (%"/" ++ %"BUILD") (p ++ %"/BUCK")) eqn:E; auto. exfalso.
      apply has_suffix_spec in E as [r E]. apply (f_equal (@rev ascii)) in E. rewrite !rev_app_distr in E. discriminate. }
    change (%"/" ++ %"BUCK") with %"/BUCK". rewrite has_suffix_app, trim_suffix_app. reflexivity.
  - change (%"/" ++ %"BUILD.bazel") with %"/BUILD.bazel". rewrite has_suffix_app, trim_suffix_app.
    rewrite !K; simpl; auto.
Qed.
Print Assumptions C61_build_file_targets.
Example C61_nontrivial :
  let is_command n := mem_bytes n [%"add"; %"set"] in
  let files t := if has_prefix %"//a" t then [%"a/BUILD"] else [%"b/BUILD"] in
  option_map (fun m => m %"a/BUILD")
    (appendCommandsFromLines is_command files [] (fun _ => []) [%"# note"; %"add deps x|//a:l|//b:m"; %"set c d|//a/BUILD"]) =
  Some [(%"//a:l", [[%"add"; %"deps"; %"x"]]); (%"//a:__pkg__", [[%"set"; %"c"; %"d"]])].
Proof. reflexivity. Qed.
Example C61_star_nontrivial :
  Forall2 (line_reads [%"//a:l"; %"//b:m"]) [%"# note"; %"add deps x|*"; %"set c d|//a:k"]
    [None; Some [%"add deps x"; %"//a:l"; %"//b:m"]; Some [%"set c d"; %"//a:k"]].
Proof. repeat apply Forall2_cons; try apply Forall2_nil; apply C61_line_reading; reflexivity. Qed.
