(** Properties C47, C48: the buildifier command. *)
From Verif Require Import Base BaseProofs Buildifier BuildifierSpec.

(** ** C48: modes and exit codes *)
Section Modes.
  Context {F : Type} (parse : bytes -> bytes -> option F) (lint : F -> F * nat) (format : F -> bytes) (display : F -> bytes).
  Context (wpath : bytes) (write_ok : bytes -> bool) (temp_ok show_ok stdout_ok : bool).
  Notation pf mode := (processFile parse lint format display mode wpath write_ok temp_ok show_ok stdout_ok).
  Definition shown (filename : bytes) : bytes := match wpath with [] => filename | p => p end.
  (** The file as parsed and after linting, the number of warnings left. *)
  Definition linted (filename data : bytes) (f : F) (warnings : nat) : Prop :=
    exists f0, parse (shown filename) data = Some f0 /\ lint f0 = (f, warnings).

  (** A syntax error: exit code 1, nothing is written or printed. *)
  Lemma syntax_error mode filename data : parse (shown filename) data = None ->
    exists fd, pf mode filename data = (fd, 1, []) /\ d_valid fd = false /\ d_formatted fd = false.
  Proof. unfold processFile. fold (shown filename). intros ->. eexists. repeat split. Qed.
End Modes.

(** C48: a file with a syntax error gives exit code 1 in every mode, and nothing is written or printed. *)
Theorem C48_syntax_error :
  forall (F : Type) parse (lint : F -> F * nat) format display mode wpath write_ok temp_ok show_ok stdout_ok filename data,
    parse (shown wpath filename) data = None ->
    exists fd, processFile parse lint format display mode wpath write_ok temp_ok show_ok stdout_ok filename data = (fd, 1, []) /\
      d_valid fd = false /\ d_formatted fd = false.
Proof. intros. apply syntax_error; auto. Qed.
Print Assumptions C48_syntax_error.
(** C48: check mode has no effects; exit code 4 iff the formatted text differs or warnings are
    left, otherwise 0; the diagnostics say which. *)
Theorem C48_check_mode :
  forall (F : Type) parse (lint : F -> F * nat) format display wpath write_ok temp_ok show_ok stdout_ok filename data f warnings,
    linted parse lint wpath filename data f warnings ->
    exists fd code, processFile parse lint format display MCheck wpath write_ok temp_ok show_ok stdout_ok filename data = (fd, code, []) /\
      (code = 4 <-> format f <> data \/ warnings <> 0) /\ (code = 0 <-> format f = data /\ warnings = 0) /\
      d_valid fd = true /\ (d_formatted fd = true <-> format f = data) /\ d_warnings fd = warnings /\ d_file fd = display f.
Proof.
  intros F parse lint format display wpath write_ok temp_ok show_ok stdout_ok filename data f warnings (f0 & P & L).
  unfold processFile. fold (shown wpath filename). rewrite P, L. cbv zeta.
  destruct (beq_spec data (format f)) as [E|N]; cbn [negb].
  - eexists _, _. split; [reflexivity|]. rewrite <- E. cbn [d_valid d_formatted d_warnings d_file NewFileDiagnostics].
    destruct warnings as [|w]; cbn [Nat.ltb Nat.leb]; intuition (try congruence; try lia).
  - assert (N' : format f <> data) by congruence.
    eexists _, _. split; [reflexivity|]. cbn [d_valid d_formatted d_warnings d_file NewFileDiagnostics].
    intuition (try congruence; try lia).
Qed.
Print Assumptions C48_check_mode.
(** C48: fix mode writes iff the text differs, then exactly the formatted text to that file and
    nothing else; an error of the write gives exit code 3. *)
Theorem C48_fix_mode :
  forall (F : Type) parse (lint : F -> F * nat) format display wpath write_ok temp_ok show_ok stdout_ok filename data f warnings,
    linted parse lint wpath filename data f warnings ->
    exists fd code eff, processFile parse lint format display MFix wpath write_ok temp_ok show_ok stdout_ok filename data = (fd, code, eff) /\
      (format f = data -> eff = []) /\ (format f <> data -> eff = [EWrite filename (format f)]) /\
      (code = 3 <-> format f <> data /\ write_ok filename = false) /\
      (code <> 3 -> (code = 4 <-> warnings <> 0) /\ (code = 0 <-> warnings = 0)) /\
      d_valid fd = true /\ d_formatted fd = true /\ d_warnings fd = warnings.
Proof.
  intros F parse lint format display wpath write_ok temp_ok show_ok stdout_ok filename data f warnings (f0 & P & L).
  unfold processFile. fold (shown wpath filename). rewrite P, L. cbv zeta.
  destruct (beq_spec data (format f)) as [E|N].
  - eexists _, _, _. split; [reflexivity|]. rewrite <- E. cbn [d_valid d_formatted d_warnings d_file NewFileDiagnostics].
    destruct warnings as [|w]; cbn [Nat.ltb Nat.leb]; intuition (try congruence; try lia).
  - assert (N' : format f <> data) by congruence.
    destruct (write_ok filename) eqn:W; eexists _, _, _; (split; [reflexivity|]);
      cbn [d_valid d_formatted d_warnings d_file NewFileDiagnostics].
    + destruct warnings as [|w]; cbn [Nat.ltb Nat.leb]; intuition (try congruence; try lia).
    + intuition (try congruence; try lia).
Qed.
Print Assumptions C48_fix_mode.
(** C48: no mode but fix ever writes a file; pipe prints exactly the formatted text;
    print_if_changed prints it iff it differs. *)
Theorem C48_only_fix_writes :
  forall (F : Type) parse (lint : F -> F * nat) format display mode wpath write_ok temp_ok show_ok stdout_ok filename data fd code eff,
    processFile parse lint format display mode wpath write_ok temp_ok show_ok stdout_ok filename data = (fd, code, eff) ->
    mode <> MFix -> no_write eff.
Proof.
  intros F parse lint format display mode wpath write_ok temp_ok show_ok stdout_ok filename data fd code eff H NF.
  unfold processFile in H. destruct (parse _ data) as [f0|]; [|injection H as <- <- <-; reflexivity].
  destruct (lint f0) as [f w]. cbv zeta in H. unfold no_write.
  destruct mode; try congruence.
  - destruct (negb _); injection H as <- <- <-; reflexivity.
  - destruct (beq _ _); [injection H as <- <- <-; reflexivity|]. destruct (negb temp_ok); [injection H as <- <- <-; reflexivity|].
    destruct filename; destruct show_ok; injection H as <- <- <-; reflexivity.
  - injection H as <- <- <-; reflexivity.
  - destruct (beq _ _); [injection H as <- <- <-; reflexivity|]. destruct stdout_ok; injection H as <- <- <-; reflexivity.
Qed.
Print Assumptions C48_only_fix_writes.
Theorem C48_printing_modes :
  forall (F : Type) parse (lint : F -> F * nat) format display wpath write_ok temp_ok show_ok stdout_ok filename data f warnings,
    linted parse lint wpath filename data f warnings ->
    let run mode := processFile parse lint format display mode wpath write_ok temp_ok show_ok stdout_ok filename data in
    snd (run MPipe) = [EStdout (format f)] /\
    (format f = data -> snd (run MPrintIfChanged) = []) /\
    (format f <> data -> snd (run MPrintIfChanged) = [EStdout (format f)]).
Proof.
  intros F parse lint format display wpath write_ok temp_ok show_ok stdout_ok filename data f warnings (f0 & P & L) run.
  unfold run, processFile. fold (shown wpath filename). rewrite P, L. cbv zeta. split; [reflexivity|].
  destruct (beq_spec data (format f)) as [E|N]; split; intros; try congruence; try reflexivity.
  destruct stdout_ok; reflexivity.
Qed.
Print Assumptions C48_printing_modes.
(** C48: the diagnostics of a run in check mode report success iff every file is valid, formatted
    and without warnings. *)
Theorem C48_diagnostics_success :
  forall (F : Type) parse (lint : F -> F * nat) format display wpath write_ok temp_ok show_ok stdout_ok (inputs : list (bytes * bytes)),
    NewDiagnostics (map (fun i => fst (fst (processFile parse lint format display MCheck wpath write_ok temp_ok show_ok stdout_ok (fst i) (snd i)))) inputs) = true
    <-> Forall (fun i => exists f, linted parse lint wpath (fst i) (snd i) f 0 /\ format f = snd i) inputs.
Proof.
  intros. unfold NewDiagnostics. rewrite forallb_forall, Forall_forall. split.
  - intros H [name data] Hin. specialize (H _ (in_map _ _ _ Hin)). cbn [fst snd] in *.
    destruct (parse (shown wpath name) data) as [f0|] eqn:P.
    + destruct (lint f0) as [f w] eqn:L.
      destruct (C48_check_mode F parse lint format display wpath write_ok temp_ok show_ok stdout_ok name data f w) as (fd & code & E & _ & _ & _ & FF & W & _).
      { exists f0; auto. }
      rewrite E in H. cbn [fst] in H. apply andb_true_iff in H as [H1 H2]. apply Nat.eqb_eq in H2.
      exists f. split; [|apply FF; auto]. exists f0. rewrite P, L. split; congruence.
    + destruct (C48_syntax_error F parse lint format display MCheck wpath write_ok temp_ok show_ok stdout_ok name data P) as (fd & E & _ & FF).
      rewrite E in H. cbn [fst] in H. rewrite FF in H. discriminate.
  - intros H fd Hin. apply in_map_iff in Hin as ([name data] & <- & Hin). destruct (H _ Hin) as (f & L & E).
    cbn [fst snd] in *.
    destruct (C48_check_mode F parse lint format display wpath write_ok temp_ok show_ok stdout_ok name data f 0 L) as (fd & code & E2 & _ & _ & _ & FF & W & _).
    rewrite E2. cbn [fst]. apply andb_true_iff. split; [apply FF; auto|]. rewrite W. reflexivity.
Qed.
Print Assumptions C48_diagnostics_success.
(** C48: in diff mode (as in print_if_changed mode) the diagnostics report success and the exit
    code may be 0 although the file is not formatted. *)
Theorem C48_diff_mode_success_refuted :
  exists (parse : bytes -> bytes -> option bytes) data,
    parse %"f" data <> Some data /\
    let '(fd, code, eff) := processFile parse (fun f => (f, 0)) (fun f => f) (fun f => f) MDiff [] (fun _ => true) true true true %"f" data in
    NewDiagnostics [fd] = true /\ code = 0.
Proof. exists (fun _ d => Some (d ++ [c_nl])), %"x". split; [discriminate|]. split; reflexivity. Qed.
Print Assumptions C48_diff_mode_success_refuted.
Example C48_nontrivial :
  let run mode data := processFile (fun _ d => match d with [] => None | _ => Some d end) (fun f => (f, 2)) (fun f => f ++ %"!") (fun f => %"n")
      mode [] (fun _ => true) true true true %"f" data in
  run MFix %"a" = (FDiag %"n" true true 2, 4, [EWrite %"f" %"a!"]) /\
  run MCheck %"a" = (FDiag %"n" false true 2, 4, []) /\ run MFix [] = (FDiag %"f" false false 0, 1, []).
Proof. repeat split. Qed.

(** ** C47: the schedule of the readers *)
Section Schedule.
  Context {F : Type} (parse : bytes -> bytes -> option F) (lint : F -> F * nat) (format : F -> bytes) (display : F -> bytes).
  Context (mode : bmode) (wpath : bytes) (write_ok : bytes -> bool) (temp_ok show_ok stdout_ok : bool) (files : list bytes).
  Notation pf := (processFile parse lint format display mode wpath write_ok temp_ok show_ok stdout_ok).
  Notation stp := (pstep parse lint format display mode wpath write_ok temp_ok show_ok stdout_ok files).
  Notation hdl := (handle parse lint format display mode wpath write_ok temp_ok show_ok stdout_ok).
  Notation effs := (effects_of parse lint format display mode wpath write_ok temp_ok show_ok stdout_ok).
  Notation len := (List.length files).
  Notation n := (nworkers (List.length files)).
  Notation fno := (file_no files).

  Lemma n_pos : 0 < len -> 0 < n.
  Proof.
    intros H. unfold nworkers. apply Nat.min_glb_lt; [lia|].
    assert (1 <= (len + 9) / 10); [|lia]. apply (Nat.div_le_lower_bound (len + 9) 10 1); lia.
  Qed.

  Definition windex (w : wstate) : nat := match w with WRead j => j | WSend j _ => j end.
  (** the index of the file that worker [i] delivers next to main *)
  Definition next_of (s : pstate) (i : nat) : nat :=
    match s_chan s i with Some _ => windex (s_workers s i) - n | None => windex (s_workers s i) end.
  Definition res_for (fs : fsys) (k : nat) (r : result) : Prop :=
    r_file r = fno k /\ (NoDup files -> r_data r = fs (fno k)).
  (** the accumulated outcome of the first files *)
  Definition code_of (fs : fsys) (f : bytes) : nat := match fs f with None => 3 | Some d => snd (fst (pf f d)) end.
  Definition last_nonzero (l : list nat) : nat := fold_left (fun e c => if Nat.eqb c 0 then e else c) l 0.
  Definition outcome (fs : fsys) (fl : list bytes) (a : acc) : Prop :=
    a_exit a = last_nonzero (map (code_of fs) fl) /\
    a_diags a = flat_map (fun f => match fs f with None => [] | Some d => [fst (fst (pf f d))] end) fl /\
    a_effects a = flat_map (fun f => match fs f with None => [] | Some d => snd (pf f d) end) fl.
  Definition inv (fs : fsys) (s : pstate) : Prop :=
    (forall i, i < n ->
      next_of s i mod n = i /\ s_main s <= next_of s i < s_main s + n /\
      (s_chan s i <> None -> n <= windex (s_workers s i)) /\
      (forall r, s_chan s i = Some r -> res_for fs (next_of s i) r /\ next_of s i < len) /\
      (forall j r, s_workers s i = WSend j r -> res_for fs j r /\ j < len)) /\
    s_main s <= len /\ a_phase (s_acc s) = false /\
    (NoDup files -> (forall j, s_main s <= j < len -> s_fs s (fno j) = fs (fno j)) /\
                    outcome fs (firstn (s_main s) files) (s_acc s)).

  Lemma effs_own file r e : In e (effs file r) -> match e with EWrite f _ => f = file | _ => True end.
  Proof.
    unfold effects_of. destruct (negb _); [intros []|]. destruct (r_data r) as [d|]; [|intros []].
    unfold processFile. destruct (parse _ d) as [f0|]; [|intros []]. destruct (lint f0) as [f w]. cbv zeta.
    destruct mode; cbn.
    - destruct (negb _); intros [].
    - destruct (beq _ _); [intros []|]. destruct (negb temp_ok); [intros []|].
      destruct file; destruct show_ok; cbn; intros H; repeat destruct H as [<-|H]; auto; destruct H.
    - intros [<-|[]]; auto.
    - destruct (beq _ _); [intros []|]. destruct (write_ok file); intros [<-|[]]; auto.
    - destruct (beq _ _); [intros []|]. destruct stdout_ok; intros [<-|[]]; auto.
  Qed.
  Lemma do_effects_other file g l : forall fs, g <> file -> (forall e, In e l -> match e with EWrite f _ => f = file | _ => True end) ->
    fold_left (do_effect write_ok) l fs g = fs g.
  Proof.
    induction l as [|e l IH]; intros fs N H; [reflexivity|]. cbn [fold_left].
    rewrite IH; [|auto|intros x Hx; apply H; right; auto].
    specialize (H e (or_introl eq_refl)). destruct e; cbn [do_effect]; auto. subst file0.
    destruct (write_ok file); auto. destruct (beq_spec g file); congruence.
  Qed.
  Lemma fno_inj j k : NoDup files -> j < len -> k < len -> fno j = fno k -> j = k.
  Proof. intros ND Hj Hk E. unfold file_no in E. apply (proj1 (NoDup_nth files []) ND j k Hj Hk E). Qed.
  Lemma firstn_S k : k < len -> firstn (S k) files = firstn k files ++ [fno k].
  Proof.
    intros H. unfold file_no. revert k H. generalize files. intros l.
    induction l as [|x l IH]; intros k H; [simpl in H; lia|]. destruct k as [|k]; [reflexivity|].
    simpl in H. cbn [firstn app nth]. rewrite <- IH by lia. reflexivity.
  Qed.
  Lemma last_nonzero_snoc l c : last_nonzero (l ++ [c]) = if Nat.eqb c 0 then last_nonzero l else c.
  Proof. unfold last_nonzero. rewrite fold_left_app. reflexivity. Qed.

  Lemma inv_init fs : inv fs (pinit fs).
  Proof.
    unfold inv, pinit, next_of. cbn [s_workers s_chan s_main s_fs s_acc windex a_phase].
    split; [|split; [lia|split; [reflexivity|]]].
    - intros i Hi. split; [apply Nat.mod_small; lia|]. split; [lia|]. split; [congruence|]. split; intros; discriminate.
    - intros _. split; [auto|]. repeat split.
  Qed.
  Lemma inv_step fs s t : inv fs s -> stp s t -> inv fs t.
  Proof.
    intros (W & M & P & O) H. destruct H as [s i j Hi Hw Hj|s i j r Hi Hw Hc|s r Hm Hr Hp file].
    - (* read *)
      split; [|split; [|split]]; cbn [s_workers s_chan s_main s_fs s_acc] in *; auto.
      intros i' Hi'. specialize (W i' Hi') as (W1 & W2 & W3 & W4 & W5). unfold next_of, set_at in *; cbn [s_workers s_chan] in *.
      destruct (Nat.eqb_spec i' i) as [->|N]; [|tauto]. rewrite Hw in *. cbn [windex] in *.
      split; [exact W1|split; [exact W2|split; [exact W3|split; [exact W4|]]]].
      + intros j' r' E. injection E as <- <-. split; auto. split; [reflexivity|]. intros ND. cbn [r_data].
        destruct (O ND) as [O1 _]. destruct (s_chan s i) eqn:C; apply O1; [|lia].
        specialize (W3 ltac:(discriminate)). lia.
    - (* send *)
      assert (NP : 0 < n) by lia.
      split; [|split; [|split]]; cbn [s_workers s_chan s_main s_fs s_acc] in *; auto.
      intros i' Hi'. specialize (W i' Hi') as (W1 & W2 & W3 & W4 & W5). unfold next_of, set_at in *; cbn [s_workers s_chan] in *.
      destruct (Nat.eqb_spec i' i) as [->|N]; [|tauto]. rewrite Hw, Hc in *. cbn [windex] in *.
      replace (j + n - n) with j by lia. destruct (W5 j r eq_refl) as [R1 R2].
      split; [exact W1|split; [exact W2|split; [lia|split]]].
      + intros r' E. injection E as <-. auto.
      + intros j' r' E. discriminate.
    - (* receive *)
      assert (NP : 0 < n) by (apply n_pos; lia).
      assert (Hi : s_main s mod n < n) by (apply Nat.mod_upper_bound; lia).
      pose proof (W _ Hi) as (W1 & W2 & W3 & W4 & W5). destruct (W4 r Hr) as [[RF RD] RL].
      assert (EQ : next_of s (s_main s mod n) = s_main s).
      { clear -W1 W2 NP. revert W1 W2. generalize (next_of s (s_main s mod n)). generalize (s_main s). intros m x E B.
        pose proof (Nat.div_mod x n ltac:(lia)) as Dx. pose proof (Nat.div_mod m n ltac:(lia)) as Dm.
        rewrite E in Dx. assert (x / n = m / n) by nia. nia. }
      rewrite EQ in *.
      split; [|split; [|split]]; cbn [s_workers s_chan s_main s_fs s_acc].
      + intros i' Hi'. pose proof (W i' Hi') as (V1 & V2 & V3 & V4 & V5). unfold next_of, set_at in *; cbn [s_workers s_chan] in *.
        destruct (Nat.eqb_spec i' (s_main s mod n)) as [E|N].
        * subst i'. rewrite Hr in *. specialize (V3 ltac:(discriminate)).
          assert (X : windex (s_workers s (s_main s mod n)) = s_main s + n) by lia. rewrite X.
          split; [|split; [lia|split; [congruence|split]]].
          -- replace (s_main s + n) with (s_main s + 1 * n) by lia. rewrite Nat.mod_add by lia. reflexivity.
          -- intros r' E. discriminate.
          -- exact V5.
        * split; [exact V1|split; [|split; [exact V3|split; [exact V4|exact V5]]]].
          enough (match s_chan s i' with Some _ => windex (s_workers s i') - n | None => windex (s_workers s i') end <> s_main s) by lia.
          intros E. apply N. rewrite <- V1, E. reflexivity.
      + lia.
      + unfold handle. rewrite RF. unfold file. rewrite beq_refl. cbn [negb]. destruct (r_data r) as [d|]; [|exact Hp].
        destruct (pf _ d) as [[fd code] eff]. exact Hp.
      + intros ND. destruct (O ND) as [O1 O2]. split.
        * intros j Hj. rewrite (do_effects_other file); [apply O1; lia| |apply effs_own].
          intros E. apply fno_inj in E; auto; lia.
        * rewrite firstn_S by lia. destruct O2 as (A & B & C). unfold outcome.
          rewrite map_app, !flat_map_app. cbn [map flat_map]. rewrite !app_nil_r, last_nonzero_snoc.
          unfold handle. rewrite RF. unfold file. rewrite beq_refl. cbn [negb]. rewrite (RD ND).
          assert (CO : code_of fs (fno (s_main s)) = match fs (fno (s_main s)) with None => 3 | Some d => snd (fst (pf (fno (s_main s)) d)) end) by reflexivity.
          rewrite CO.
          destruct (fs (fno (s_main s))) as [d|] eqn:FE.
          -- destruct (pf (fno (s_main s)) d) as [[fd code] eff]. cbn [a_exit a_diags a_effects fst snd].
             rewrite A, B, C. auto.
          -- cbn [a_exit a_diags a_effects]. rewrite B, C, !app_nil_r. auto.
  Qed.
  Lemma inv_steps fs k s : steps stp k (pinit fs) s -> inv fs s.
  Proof. intros H. remember (pinit fs) as s0 eqn:E. induction H; [subst; apply inv_init|]. eapply inv_step; eauto. Qed.

  Lemma progress fs s : inv fs s -> s_main s < len -> exists t, stp s t.
  Proof.
    intros (W & M & P & O) L. assert (NP : 0 < n) by (apply n_pos; lia).
    assert (Hi : s_main s mod n < n) by (apply Nat.mod_upper_bound; lia).
    pose proof (W _ Hi) as (W1 & W2 & W3 & W4 & W5).
    destruct (s_chan s (s_main s mod n)) as [r|] eqn:C.
    - eexists. eapply ps_recv; eauto.
    - unfold next_of in *. rewrite C in *.
      destruct (s_workers s (s_main s mod n)) as [j|j r] eqn:E; cbn [windex] in *.
      + assert (j = s_main s).
        { clear -W1 W2 NP. revert W1 W2. generalize (s_main s). intros m E B.
          pose proof (Nat.div_mod j n ltac:(lia)) as Dx. pose proof (Nat.div_mod m n ltac:(lia)) as Dm.
          rewrite E in Dx. assert (j / n = m / n) by nia. nia. }
        eexists. eapply ps_read; [exact Hi|exact E|]. lia.
      + eexists. eapply ps_send; [exact Hi|exact E|exact C].
  Qed.

  (** termination *)
  Definition cnt (j : nat) : nat := (len - j + n - 1) / n.
  Definition wmeasure (w : wstate) : nat := match w with WRead j => 2 * cnt j | WSend j _ => 2 * cnt j - 1 end.
  Definition measure (s : pstate) : nat :=
    list_sum (map (fun i => wmeasure (s_workers s i)) (seq 0 n)) + (len - s_main s).
  Lemma sum_set (f : nat -> nat) (g : nat -> nat) i l : NoDup l -> In i l -> (forall k, k <> i -> g k = f k) ->
    list_sum (map g l) + f i = list_sum (map f l) + g i.
  Proof.
    induction l as [|x l IH]; intros ND Hin H; [destruct Hin|]. inversion ND as [|? ? N1 N2]; subst. cbn [map list_sum].
    change (list_sum (g x :: map g l)) with (g x + list_sum (map g l)). change (list_sum (f x :: map f l)) with (f x + list_sum (map f l)).
    destruct Hin as [->|Hin].
    - assert (map g l = map f l) as ->; [|lia]. apply map_ext_in. intros a Ha. apply H. intros ->. contradiction.
    - specialize (IH N2 Hin H). assert (g x = f x) by (apply H; intros ->; contradiction). lia.
  Qed.
  Lemma cnt_pos j : 0 < n -> j < len -> 0 < cnt j.
  Proof. intros N H. unfold cnt. assert (1 <= (len - j + n - 1) / n); [|lia]. apply (Nat.div_le_lower_bound _ n 1); lia. Qed.
  Lemma cnt_add j : 0 < n -> j < len -> cnt (j + n) + 1 = cnt j.
  Proof.
    intros N H. unfold cnt. destruct (Nat.le_gt_cases (j + n) len) as [L|L].
    - replace (len - j + n - 1) with ((len - (j + n) + n - 1) + 1 * n) by lia. rewrite Nat.div_add by lia. reflexivity.
    - replace (len - (j + n)) with 0 by lia. rewrite (Nat.div_small (0 + n - 1)) by lia.
      replace (len - j + n - 1) with ((len - j - 1) + 1 * n) by lia. rewrite Nat.div_add by lia.
      rewrite (Nat.div_small (len - j - 1)) by lia. reflexivity.
  Qed.
  Lemma set_at_same {A} (f : nat -> A) i x : set_at f i x i = x.
  Proof. unfold set_at. rewrite Nat.eqb_refl. reflexivity. Qed.
  Lemma measure_step fs s t : inv fs s -> stp s t -> measure t < measure s.
  Proof.
    intros (W & M & P & O) H. destruct H as [s i j Hi Hw Hj|s i j r Hi Hw Hc|s r Hm Hr Hp file];
      unfold measure; cbn [s_workers s_chan s_main s_fs s_acc].
    - pose proof (sum_set (fun k => wmeasure (s_workers s k)) (fun k => wmeasure (set_at (s_workers s) i (WSend j (Result (fno j) (s_fs s (fno j)))) k)) i (seq 0 n)
        (seq_NoDup _ _) ltac:(apply in_seq; lia)) as X.
      cbv beta in X. rewrite set_at_same, Hw in X. cbn [wmeasure] in X.
      pose proof (cnt_pos j ltac:(lia) Hj).
      enough (list_sum (map (fun k => wmeasure (set_at (s_workers s) i (WSend j (Result (fno j) (s_fs s (fno j)))) k)) (seq 0 n)) <
              list_sum (map (fun k => wmeasure (s_workers s k)) (seq 0 n))) by lia.
      assert (Y : forall k, k <> i -> wmeasure (set_at (s_workers s) i (WSend j (Result (fno j) (s_fs s (fno j)))) k) = wmeasure (s_workers s k)).
      { intros k Hk. unfold set_at. destruct (Nat.eqb_spec k i); congruence. }
      specialize (X Y). lia.
    - destruct (W i Hi) as (_ & _ & _ & _ & W5). destruct (W5 j r Hw) as [_ Hj].
      pose proof (sum_set (fun k => wmeasure (s_workers s k)) (fun k => wmeasure (set_at (s_workers s) i (WRead (j + n)) k)) i (seq 0 n)
        (seq_NoDup _ _) ltac:(apply in_seq; lia)) as X.
      cbv beta in X. rewrite set_at_same, Hw in X. cbn [wmeasure] in X.
      pose proof (cnt_pos j ltac:(lia) Hj). pose proof (cnt_add j ltac:(lia) Hj).
      assert (Y : forall k, k <> i -> wmeasure (set_at (s_workers s) i (WRead (j + n)) k) = wmeasure (s_workers s k)).
      { intros k Hk. unfold set_at. destruct (Nat.eqb_spec k i); congruence. }
      specialize (X Y). lia.
    - lia.
  Qed.
  Lemma bounded fs k s : steps stp k (pinit fs) s -> k + measure s <= measure (pinit fs).
  Proof.
    intros H. remember (pinit fs) as s0 eqn:E. induction H as [|k s t u H IH Hs]; [lia|]. specialize (IH E). subst s.
    pose proof (measure_step fs t u (inv_steps fs _ _ H) Hs). lia.
  Qed.
  Lemma measure_init fs : measure (pinit fs) <= (2 * n + 1) * len.
  Proof.
    unfold measure, pinit. cbn [s_workers s_main]. cbn [wmeasure].
    assert (H : forall l, list_sum (map (fun i => 2 * cnt i) l) <= List.length l * (2 * len)).
    { induction l as [|x l IH]; [simpl; lia|]. cbn [map List.length].
      change (list_sum (2 * cnt x :: map (fun i => 2 * cnt i) l)) with (2 * cnt x + list_sum (map (fun i => 2 * cnt i) l)).
      assert (cnt x <= len); [|lia]. unfold cnt. destruct (Nat.eq_dec n 0) as [->|N]; [cbn; lia|].
      destruct (Nat.eq_dec (len - x) 0) as [->|N2]; [rewrite Nat.div_small; lia|].
      apply Nat.div_le_upper_bound; nia. }
    specialize (H (seq 0 n)). rewrite seq_length in H. nia.
  Qed.
End Schedule.

(** C47: under every interleaving of the readers there is never a phase error. *)
Theorem C47_never_out_of_phase :
  forall (F : Type) parse (lint : F -> F * nat) format display mode wpath write_ok temp_ok show_ok stdout_ok files fs k s,
    steps (pstep parse lint format display mode wpath write_ok temp_ok show_ok stdout_ok files) k (pinit fs) s ->
    a_phase (s_acc s) = false.
Proof. intros. apply inv_steps in H. apply H. Qed.
Print Assumptions C47_never_out_of_phase.
(** C47: if no file is named twice, then in every reachable state the files processed so far are
    the first ones, each with the content it had at the start: the exit code is the last one that
    is not 0 (3 for a file that cannot be read), the diagnostics and effects are those of the files
    in order. *)
Theorem C47_in_order :
  forall (F : Type) parse (lint : F -> F * nat) format display mode wpath write_ok temp_ok show_ok stdout_ok files fs k s,
    NoDup files ->
    steps (pstep parse lint format display mode wpath write_ok temp_ok show_ok stdout_ok files) k (pinit fs) s ->
    let run f d := processFile parse lint format display mode wpath write_ok temp_ok show_ok stdout_ok f d in
    let seen := firstn (s_main s) files in
    a_exit (s_acc s) = last_nonzero (map (fun f => match fs f with None => 3 | Some d => snd (fst (run f d)) end) seen) /\
    a_diags (s_acc s) = flat_map (fun f => match fs f with None => [] | Some d => [fst (fst (run f d))] end) seen /\
    a_effects (s_acc s) = flat_map (fun f => match fs f with None => [] | Some d => snd (run f d) end) seen.
Proof. intros F parse lint format display mode wpath write_ok temp_ok show_ok stdout_ok files fs k s ND H. apply inv_steps in H as (_ & _ & _ & O). apply (O ND). Qed.
Print Assumptions C47_in_order.
(** C47: no deadlock. *)
Theorem C47_no_deadlock :
  forall (F : Type) parse (lint : F -> F * nat) format display mode wpath write_ok temp_ok show_ok stdout_ok files fs k s,
    steps (pstep parse lint format display mode wpath write_ok temp_ok show_ok stdout_ok files) k (pinit fs) s ->
    s_main s < List.length files ->
    exists t, pstep parse lint format display mode wpath write_ok temp_ok show_ok stdout_ok files s t.
Proof. intros. apply inv_steps in H. eapply progress; eauto. Qed.
Print Assumptions C47_no_deadlock.
(** C47: every run ends. *)
Theorem C47_terminates :
  forall (F : Type) parse (lint : F -> F * nat) format display mode wpath write_ok temp_ok show_ok stdout_ok files fs k s,
    steps (pstep parse lint format display mode wpath write_ok temp_ok show_ok stdout_ok files) k (pinit fs) s ->
    k <= (2 * nworkers (List.length files) + 1) * List.length files.
Proof.
  intros. apply bounded in H.
  pose proof (measure_init files fs). lia.
Qed.
Print Assumptions C47_terminates.
(** The exit code is 0 iff all are. *)
Lemma last_nonzero_zero l : last_nonzero l = 0 <-> Forall (fun c => c = 0) l.
Proof.
  induction l as [|c l IH] using rev_ind; [split; [constructor|reflexivity]|].
  unfold last_nonzero in *. rewrite fold_left_app. cbn [fold_left]. rewrite Forall_app.
  destruct (Nat.eqb_spec c 0) as [->|N].
  - rewrite IH. split; [intros H; split; auto|tauto].
  - split; [congruence|]. intros [_ H]. inversion H; congruence.
Qed.
(** C47/C48: a finished run exits with 0 iff every file could be read and got exit code 0. *)
Theorem C48_exit_zero_iff_all_fine :
  forall (F : Type) parse (lint : F -> F * nat) format display mode wpath write_ok temp_ok show_ok stdout_ok files fs k s,
    NoDup files ->
    steps (pstep parse lint format display mode wpath write_ok temp_ok show_ok stdout_ok files) k (pinit fs) s ->
    s_main s = List.length files ->
    (a_exit (s_acc s) = 0 <->
     Forall (fun f => exists d fd eff, fs f = Some d /\
       processFile parse lint format display mode wpath write_ok temp_ok show_ok stdout_ok f d = (fd, 0, eff)) files).
Proof.
  intros F parse lint format display mode wpath write_ok temp_ok show_ok stdout_ok files fs k s ND H D.
  destruct (C47_in_order F parse lint format display mode wpath write_ok temp_ok show_ok stdout_ok files fs k s ND H) as (E & _ & _).
  rewrite E, D, firstn_all, last_nonzero_zero, Forall_map, !Forall_forall.
  split; intros Q f Hf; specialize (Q f Hf).
  - destruct (fs f) as [d|]; [|discriminate]. exists d.
    destruct (processFile _ _ _ _ _ _ _ _ _ _ f d) as [[fd code] eff]. cbn [fst snd] in Q. subst code. eauto.
  - destruct Q as (d & fd & eff & -> & ->). reflexivity.
Qed.
Print Assumptions C48_exit_zero_iff_all_fine.
(** C47: a file named twice is read by the readers before or after the first copy is written: the
    runs differ. *)
Theorem C47_duplicates_refuted :
  exists (parse : bytes -> bytes -> option bytes) lint format display write_ok files fs,
    let stp := pstep parse lint format display MFix [] write_ok true true true files in
    exists k1 s1 k2 s2, steps stp k1 (pinit fs) s1 /\ steps stp k2 (pinit fs) s2 /\
      s_main s1 = List.length files /\ s_main s2 = List.length files /\
      a_effects (s_acc s1) <> a_effects (s_acc s2).
Proof.
  exists (fun _ d => Some d), (fun f => (f, 0)), (fun _ => %"y"), (fun f => f), (fun _ => true), [%"f"; %"f"], (fun _ => Some %"x").
  cbv zeta. do 4 eexists. split; [|split; [|split; [|split]]].
  - eapply steps_more. 1: eapply steps_more. 1: eapply steps_more. 1: eapply steps_more. 1: eapply steps_more. 1: eapply steps_more.
    1: apply steps_refl.
    + apply (ps_read _ _ _ _ _ _ _ _ _ _ _ _ 0 0); [vm_compute; lia|reflexivity|vm_compute; lia].
    + apply (ps_send _ _ _ _ _ _ _ _ _ _ _ _ 0 0 (Result %"f" (Some %"x"))); [vm_compute; lia|reflexivity|reflexivity].
    + apply (ps_read _ _ _ _ _ _ _ _ _ _ _ _ 0 1); [vm_compute; lia|reflexivity|vm_compute; lia].
    + apply (ps_recv _ _ _ _ _ _ _ _ _ _ _ _ (Result %"f" (Some %"x"))); [vm_compute; lia|reflexivity|reflexivity].
    + apply (ps_send _ _ _ _ _ _ _ _ _ _ _ _ 0 1 (Result %"f" (Some %"x"))); [vm_compute; lia|reflexivity|reflexivity].
    + apply (ps_recv _ _ _ _ _ _ _ _ _ _ _ _ (Result %"f" (Some %"x"))); [vm_compute; lia|reflexivity|reflexivity].
  - eapply steps_more. 1: eapply steps_more. 1: eapply steps_more. 1: eapply steps_more. 1: eapply steps_more. 1: eapply steps_more.
    1: apply steps_refl.
    + apply (ps_read _ _ _ _ _ _ _ _ _ _ _ _ 0 0); [vm_compute; lia|reflexivity|vm_compute; lia].
    + apply (ps_send _ _ _ _ _ _ _ _ _ _ _ _ 0 0 (Result %"f" (Some %"x"))); [vm_compute; lia|reflexivity|reflexivity].
    + apply (ps_recv _ _ _ _ _ _ _ _ _ _ _ _ (Result %"f" (Some %"x"))); [vm_compute; lia|reflexivity|reflexivity].
    + apply (ps_read _ _ _ _ _ _ _ _ _ _ _ _ 0 1); [vm_compute; lia|reflexivity|vm_compute; lia].
    + apply (ps_send _ _ _ _ _ _ _ _ _ _ _ _ 0 1 (Result %"f" (Some %"y"))); [vm_compute; lia|reflexivity|reflexivity].
    + apply (ps_recv _ _ _ _ _ _ _ _ _ _ _ _ (Result %"f" (Some %"y"))); [vm_compute; lia|reflexivity|reflexivity].
  - reflexivity.
  - reflexivity.
  - vm_compute. discriminate.
Qed.
Print Assumptions C47_duplicates_refuted.
(** With 25 files there are 3 readers; main waits for reader 1 in its second step. *)
Example C47_nontrivial : nworkers 25 = 3 /\ nworkers 5000 = 100 /\ nworkers 3 = 1 /\
  last_nonzero [0; 3; 0; 4; 0] = 4.
Proof. repeat split. Qed.
