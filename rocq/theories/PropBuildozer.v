(** Applying commands to files: C45; running on many files in parallel: C46. *)
From Coq Require Import Permutation.
From Verif Require Import Base BaseProofs Buildozer BuildozerSpec BuildifierSpec.
From Verif Require Ast EditFile.
Local Open Scope list_scope.

(** * C45: what 'rewrite' writes *)
Section C45.
  Context {F rule : Type} (fn : list bytes -> bytes -> option rule -> F -> @ran F) (per_rule : bytes -> bool)
    (expand : F -> bytes -> list rule * option err) (keep_going to_stdout : bool)
    (parse : bytes -> option F) (clean : F -> F) (buildify : F -> option bytes) (read_ok edit_ok write_ok : bool).

  Definition changedb (vs : list event) : bool := existsb v_changed vs.
  Lemma changedb_spec vs : changedb vs = true <-> changed vs.
  Proof. unfold changedb, changed. rewrite existsb_exists. reflexivity. Qed.
  Lemma failed_errors vs : failed vs <-> errors vs <> [].
  Proof.
    induction vs as [|v vs IH]; cbn.
    - split; [intros (v & [] & _)|congruence].
    - destruct (v_err v) as [e|] eqn:E; cbn.
      + split; [discriminate|]. intros _. exists v. split; [now left|congruence].
      + rewrite <- IH. split; intros (w & H & K).
        * destruct H as [<-|H]; [congruence|]. now exists w.
        * exists w. split; [now right|assumption].
  Qed.
  Lemma errors_app a b : errors (a ++ b) = errors a ++ errors b.
  Proof. apply flat_map_app. Qed.
  Lemma changedb_app a b : changedb (a ++ b) = changedb a || changedb b.
  Proof. apply existsb_app. Qed.

  (** Running a piece of the work: *)
  Definition good (st : @rstate F) (vs : list event) (g : F) (r : @rstate F + rresult) : Prop :=
    (keep_going = true \/ errors vs = [] ->
       exists n, r = inl (RState g (t_changed st || changedb vs) (t_errs st ++ errors vs) n)) /\
    (keep_going = false -> t_errs st = [] -> errors vs <> [] ->
       exists n, r = inr (RResult (firstn 1 (errors vs)) false n)).

  Lemma run_rules_good t cmd rs : forall f vs g, does_rules fn t cmd f rs vs g ->
    forall st, t_file st = f -> good st vs g (run_rules fn keep_going t cmd rs st).
  Proof.
    intros f vs g D. induction D as [f|f r rs x vs g X N D IH|f r rs x f' vs g X N D IH]; intros st E.
    - split.
      + intros _. destruct st as [f' c e n]. cbn in *. subst. exists n. now rewrite orb_false_r, app_nil_r.
      + intros _ _ K. now destruct K.
    - cbn [run_rules]. rewrite E, X. cbn zeta. rewrite N.
      destruct (x_err x) as [e|] eqn:XE.
      + destruct keep_going eqn:KG.
        * split; [|congruence]. intros _.
          destruct (IH (RState (x_file x) (t_changed st) (t_errs st ++ [e]) (if x_record x then S (t_records st) else t_records st)) eq_refl) as [IH1 _].
          destruct IH1 as [n IH1]; [now left|]. exists n. rewrite IH1. cbn. rewrite <- app_assoc. reflexivity.
        * split; [intros [K|K]; [congruence|discriminate]|]. intros _ _ _. cbn. eexists. reflexivity.
      + destruct (IH (RState (x_file x) (t_changed st) (t_errs st ++ []) (if x_record x then S (t_records st) else t_records st)) eq_refl) as [IH1 IH2].
        cbn [t_changed t_errs] in IH1, IH2. rewrite app_nil_r in IH1, IH2.
        rewrite app_nil_r. split; [exact IH1|exact IH2].
    - cbn [run_rules]. rewrite E, X. cbn zeta. rewrite N.
      destruct (x_err x) as [e|] eqn:XE.
      + destruct keep_going eqn:KG.
        * split; [|congruence]. intros _.
          destruct (IH (RState f' true (t_errs st ++ [e]) (if x_record x then S (t_records st) else t_records st)) eq_refl) as [IH1 _].
          destruct IH1 as [n IH1]; [now left|]. exists n. rewrite IH1. cbn. rewrite <- app_assoc, orb_true_r. reflexivity.
        * split; [intros [K|K]; [congruence|discriminate]|]. intros _ _ _. cbn. eexists. reflexivity.
      + destruct (IH (RState f' true (t_errs st ++ []) (if x_record x then S (t_records st) else t_records st)) eq_refl) as [IH1 IH2].
        cbn [t_changed t_errs] in IH1, IH2. rewrite app_nil_r in IH1, IH2.
        rewrite app_nil_r. split; [|exact IH2].
        intros H. destruct (IH1 H) as [n H1]. exists n. rewrite H1. cbn. now rewrite orb_true_r.
  Qed.

  (** putting two pieces together *)
  Lemma good_seq st vs g vs' h r (k : @rstate F -> @rstate F + rresult) :
    good st vs g r ->
    (forall st', t_file st' = g -> good st' vs' h (k st')) ->
    good st (vs ++ vs') h (match r with inr e => inr e | inl st' => k st' end).
  Proof.
    intros [G1 G2] K. split.
    - intros H. rewrite errors_app, changedb_app in *.
      destruct G1 as [n ->]. { destruct H as [H|H]; [now left|right]. now apply app_eq_nil in H. }
      destruct (K (RState g (t_changed st || changedb vs) (t_errs st ++ errors vs) n) eq_refl) as [K1 _].
      destruct K1 as [m ->]. { destruct H as [H|H]; [now left|right]. now apply app_eq_nil in H. }
      exists m. cbn. now rewrite orb_assoc, app_assoc.
    - intros KG TE NE. rewrite errors_app in *.
      destruct (errors vs) as [|e es] eqn:EV.
      + destruct G1 as [n ->]; [now right|].
        destruct (K (RState g (t_changed st || changedb vs) (t_errs st ++ []) n) eq_refl) as [_ K2].
        cbn in *. apply K2; auto. now rewrite TE.
      + destruct G2 as [n ->]; auto; [discriminate|]. exists n. reflexivity.
  Qed.

  Lemma run_commands_good t rs : forall f cmds vs g, does_commands fn per_rule t rs f cmds vs g ->
    forall st, t_file st = f -> good st vs g (run_commands fn per_rule keep_going t rs cmds st).
  Proof.
    intros f cmds vs g D. induction D as [f|f cmd cmds vs g vs' h P R D IH|f cmd cmds vs g vs' h P R D IH]; intros st E.
    - split; [|intros _ _ K; now destruct K].
      intros _. destruct st as [f' c e n]. cbn in *. subst. exists n. now rewrite orb_false_r, app_nil_r.
    - cbn [run_commands]. rewrite P. refine (good_seq _ _ _ _ _ _ (fun st => run_commands fn per_rule keep_going t rs cmds st) (run_rules_good _ _ _ _ _ _ R st E) IH).
    - cbn [run_commands]. rewrite P. refine (good_seq _ _ _ _ _ _ (fun st => run_commands fn per_rule keep_going t rs cmds st) (run_rules_good _ _ _ _ _ _ R st E) IH).
  Qed.

  Lemma run_targets_good : forall f work vs g, does fn per_rule expand f work vs g ->
    forall st, t_file st = f -> good st vs g (run_targets fn per_rule expand keep_going work st).
  Proof.
    intros f work vs g D. induction D as [f|f t cmds work rs e vs g vs' h X C D IH]; intros st E.
    - split; [|intros _ _ K; now destruct K].
      intros _. destruct st as [f' c e n]. cbn in *. subst. exists n. now rewrite orb_false_r, app_nil_r.
    - cbn [run_targets]. rewrite E, X.
      pose proof (fun st E => good_seq st _ _ _ _ _ (fun st => run_targets fn per_rule expand keep_going work st) (run_commands_good _ _ _ _ _ _ C st E) IH) as S.
      destruct e as [e|].
      + destruct keep_going eqn:KG.
        * split; [|congruence]. intros _.
          destruct (S (RState f (t_changed st) (t_errs st ++ [e]) (t_records st)) eq_refl) as [S1 _].
          destruct S1 as [n S1]; [now left|]. exists n. rewrite S1. cbn. rewrite <- app_assoc. reflexivity.
        * split; [intros [K|K]; [congruence|discriminate]|]. intros _ TE _. rewrite TE. cbn. eexists. reflexivity.
      + destruct (S (RState f (t_changed st) (t_errs st ++ []) (t_records st)) eq_refl) as [S1 S2].
        cbn [t_changed t_errs] in S1, S2. rewrite app_nil_r in S1, S2. rewrite app_nil_r.
        split; [exact S1|exact S2].
  Qed.

  (** The work can always be done, in one way. *)
  Lemma does_rules_total t cmd rs : forall f, exists vs g, does_rules fn t cmd f rs vs g.
  Proof.
    induction rs as [|r rs IH]; intros f; [now repeat econstructor|].
    destruct (x_new (fn cmd t r f)) as [f'|] eqn:N.
    - destruct (IH f') as (vs & g & D). eexists _, g. eapply dr_changed; eauto.
    - destruct (IH (x_file (fn cmd t r f))) as (vs & g & D). eexists _, g. eapply dr_unchanged; eauto.
  Qed.
  Lemma does_commands_total t rs cmds : forall f, exists vs g, does_commands fn per_rule t rs f cmds vs g.
  Proof.
    induction cmds as [|c cmds IH]; intros f; [now repeat econstructor|].
    destruct (per_rule (command_name c)) eqn:P.
    - destruct (does_rules_total t c (map Some rs) f) as (vs & g & D). destruct (IH g) as (vs' & h & D').
      eexists _, h. eapply dc_per_rule; eauto.
    - destruct (does_rules_total t c [None] f) as (vs & g & D). destruct (IH g) as (vs' & h & D').
      eexists _, h. eapply dc_once; eauto.
  Qed.
  Lemma does_total work : forall f, exists vs g, does fn per_rule expand f work vs g.
  Proof.
    induction work as [|[t cmds] work IH]; intros f; [now repeat econstructor|].
    destruct (expand f t) as [rs e] eqn:E.
    destruct (does_commands_total t rs cmds f) as (vs & g & D). destruct (IH g) as (vs' & h & D').
    eexists _, h. eapply d_target; eauto.
  Qed.

  (** The work on a file, done completely, has events [vs] and result [f1].
      If a step fails and -k is not given, nothing is written and the first error is the result.
      Otherwise the file is written exactly if some step changed it and its new text, buildified,
      differs from what was read; then what is written is that text. *)
  Theorem C45_rewrite : forall work data f0 vs f1,
    parse data = Some f0 -> does fn per_rule expand f0 work vs f1 ->
    let (q, effects) := rewrite fn per_rule expand keep_going to_stdout parse clean buildify true edit_ok write_ok work data in
    (keep_going = false /\ failed vs ->
       effects = [] /\ q_modified q = false /\ q_errs q = firstn 1 (errors vs) /\ q_errs q <> []) /\
    (keep_going = true \/ ~ failed vs ->
       (~ changed vs -> effects = [] /\ q_modified q = false /\ q_errs q = errors vs) /\
       (changed vs -> buildify (clean f1) = None -> effects = [] /\ q_modified q = false /\ q_errs q <> []) /\
       (forall d, changed vs -> buildify (clean f1) = Some d ->
          (to_stdout = true -> effects = [ROut d] /\ q_modified q = false /\ q_errs q = errors vs) /\
          (to_stdout = false -> d = data -> effects = [] /\ q_modified q = false /\ q_errs q = errors vs) /\
          (to_stdout = false -> d <> data -> edit_ok = false -> effects = [] /\ q_modified q = false /\ q_errs q <> []) /\
          (to_stdout = false -> d <> data -> edit_ok = true ->
             effects = [RWrite d] /\ q_modified q = write_ok /\
             (write_ok = true -> q_errs q = errors vs) /\ (write_ok = false -> q_errs q <> [])))).
  Proof.
    intros work data f0 vs f1 P D.
    pose proof (run_targets_good _ _ _ _ D (RState f0 false [] 0) eq_refl) as [G1 G2].
    cbn [t_changed t_errs app orb] in G1, G2.
    unfold rewrite. cbn [negb]. rewrite P.
    destruct (run_targets fn per_rule expand keep_going work (RState f0 false [] 0)) as [st|r] eqn:R.
    - assert (K : keep_going = true \/ errors vs = []).
      { destruct keep_going; [now left|right]. destruct (errors vs) eqn:EV; [reflexivity|].
        destruct G2 as [n G2]; auto; discriminate. }
      destruct (G1 K) as [n G]. injection G as ->. cbn [t_changed t_errs t_file t_records negb].
      assert (NF : ~ (keep_going = false /\ failed vs)).
      { intros [KF FA]. apply failed_errors in FA. destruct K; congruence. }
      destruct (changedb vs) eqn:CH; cbn [negb].
      + assert (C : changed vs) by now apply changedb_spec.
        destruct (buildify (clean f1)) as [d|] eqn:B.
        * destruct to_stdout; [|destruct (beq data d) eqn:DD; [|destruct edit_ok; [destruct write_ok|]]]; cbn [negb].
          all: split; [now intros|intros _; split; [now intros|split; [intros; congruence|]]].
          all: intros d' _ [= <-]; cbn [q_errs q_modified].
          all: try (assert (DE : data = d) by now apply beq_eq).
          all: try (assert (DE : data <> d) by now apply beq_neq).
          all: repeat split; intros; try congruence; try discriminate; auto.
        * split; [now intros|intros _; split; [now intros|split]].
          -- intros _ _. cbn. repeat split; discriminate.
          -- intros d _ K'. discriminate.
      + assert (C : ~ changed vs) by (intros C; apply changedb_spec in C; congruence).
        split; [now intros|intros _; split; [now intros|split]]; intros; now destruct C.
    - assert (K : keep_going = false /\ errors vs <> []).
      { destruct keep_going.
        - destruct G1; [now left|discriminate].
        - split; [reflexivity|]. intros EV. destruct G1; [now right|discriminate]. }
      destruct K as [K NE]. destruct (G2 K eq_refl NE) as [n G]. injection G as ->. cbn [q_errs q_modified].
      split.
      + intros _. repeat split; auto. destruct (errors vs); [congruence|discriminate].
      + intros [K'|NF]; [congruence|]. destruct NF. now apply failed_errors.
  Qed.

  (** A file that cannot be read or parsed is not written, and there is an error. *)
  Theorem C45_unreadable : forall work data,
    read_ok = false \/ parse data = None ->
    let (q, effects) := rewrite fn per_rule expand keep_going to_stdout parse clean buildify read_ok edit_ok write_ok work data in
    effects = [] /\ q_modified q = false /\ q_errs q <> [].
  Proof.
    intros work data H. unfold rewrite. destruct read_ok; cbn [negb].
    - destruct H as [H|H]; [discriminate|]. rewrite H. cbn. repeat split; discriminate.
    - cbn. repeat split; discriminate.
  Qed.

  (** There is always such a complete run, so [C45_rewrite] applies to every input. *)
  Theorem C45_total : forall work f0, exists vs f1, does fn per_rule expand f0 work vs f1.
  Proof. intros. apply does_total. Qed.
End C45.
Print Assumptions C45_rewrite.
Print Assumptions C45_unreadable.
Print Assumptions C45_total.

(** Commands that never return a file (edit/buildozer.go:153-209 [cmdPrintComment] and
    edit/buildozer.go:331-414 [cmdPrint] return nil on every path) never write. *)
Section PrintOnly.
  Context {F rule : Type} (fn : list bytes -> bytes -> option rule -> F -> @ran F) (per_rule : bytes -> bool)
    (expand : F -> bytes -> list rule * option err).
  Hypothesis print_returns_nil : forall cmd t r f, readonly (command_name cmd) = true -> x_new (fn cmd t r f) = None.
  Lemma print_rules t cmd : readonly (command_name cmd) = true ->
    forall f rs vs g, does_rules fn t cmd f rs vs g -> existsb v_changed vs = false.
  Proof.
    intros R f rs vs g D. induction D as [|f r rs x vs g X N D IH|f r rs x f' vs g X N D IH]; auto.
    exfalso. subst x. rewrite print_returns_nil in N by assumption. discriminate.
  Qed.
  Lemma print_commands t rs : forall f cmds vs g, does_commands fn per_rule t rs f cmds vs g ->
    forallb (fun c => readonly (command_name c)) cmds = true -> existsb v_changed vs = false.
  Proof.
    intros f cmds vs g D. induction D as [|f cmd cmds vs g vs' h P R D IH|f cmd cmds vs g vs' h P R D IH]; auto; cbn [forallb]; intros H.
    all: apply andb_true_iff in H; destruct H as [H1 H2]; rewrite existsb_app; rewrite IH by assumption.
    all: rewrite (print_rules _ _ H1 _ _ _ _ R); reflexivity.
  Qed.
  Lemma print_work : forall f work vs g, does fn per_rule expand f work vs g ->
    forallb (fun tc => forallb (fun c => readonly (command_name c)) (snd tc)) work = true -> existsb v_changed vs = false.
  Proof.
    intros f work vs g D. induction D as [|f t cmds work rs e vs g vs' h X C D IH]; auto; cbn [forallb snd]; intros H.
    apply andb_true_iff in H. destruct H as [H1 H2].
    cbn [existsb v_changed orb]. rewrite existsb_app, IH by assumption. now rewrite (print_commands _ _ _ _ _ _ C H1).
  Qed.
  Context (keep_going to_stdout : bool) (parse : bytes -> option F) (clean : F -> F) (buildify : F -> option bytes)
    (read_ok edit_ok write_ok : bool).
  Theorem C45_print_only : forall work data,
    forallb (fun tc => forallb (fun c => readonly (command_name c)) (snd tc)) work = true ->
    let (q, effects) := rewrite fn per_rule expand keep_going to_stdout parse clean buildify read_ok edit_ok write_ok work data in
    effects = [] /\ q_modified q = false.
  Proof.
    intros work data H.
    destruct read_ok; [|now cbn]. destruct (parse data) as [f0|] eqn:P; [|unfold rewrite; rewrite P; now cbn].
    destruct (C45_total fn per_rule expand work f0) as (vs & f1 & D).
    pose proof (C45_rewrite fn per_rule expand keep_going to_stdout parse clean buildify edit_ok write_ok work data f0 vs f1 P D) as R.
    pose proof (print_work _ _ _ _ D H) as C.
    destruct (rewrite _ _ _ _ _ _ _ _ _ _ _ work data) as [q eff].
    destruct R as [R1 R2].
    assert (NC : ~ changed vs). { intros K. apply changedb_spec in K. unfold changedb in K. congruence. }
    destruct keep_going.
    - destruct R2 as [R2 _]; [now left|]. now destruct (R2 NC) as (? & ? & _).
    - destruct (errors vs) eqn:EV.
      + destruct R2 as [R2 _]; [right; rewrite failed_errors; congruence|]. now destruct (R2 NC) as (? & ? & _).
      + destruct R1 as (? & ? & _); [|now split]. split; [reflexivity|]. apply failed_errors. congruence.
  Qed.
End PrintOnly.
Print Assumptions C45_print_only.

(** Non-triviality: files are lists of rule names; "new x" appends a rule, "fail" fails, "print" prints. *)
Module Ex45.
  Definition fn (cmd : list bytes) (t : bytes) (r : option bytes) (f : list bytes) : @ran (list bytes) :=
    match cmd with
    | [c; x] => Ran f (Some (f ++ [x])) None false
    | [c] => if beq c %"fail" then Ran f None (Some %"failed") false else Ran f None None true
    | _ => Ran f None None false
    end.
  Definition run kg := rewrite fn (fun c => beq c %"print") (fun f t => (f, None)) kg false (fun d => Some (split c_nl d)) (fun f => f)
     (fun f => Some (join %"," f)) true true true.
  Definition work : list (bytes * list (list bytes)) := [(%"t", [[%"new"; %"b"]; [%"fail"]; [%"new"; %"c"]])].
  Example keeps_going : run true work %"a" = (RResult [%"failed"] true 0, [RWrite %"a,b,c"]).
  Proof. vm_compute. reflexivity. Qed.
  Example stops : run false work %"a" = (RResult [%"failed"] false 0, []).
  Proof. vm_compute. reflexivity. Qed.
  Example prints : run false [(%"t", [[%"print"]])] %"a" = (RResult [] false 1, []).
  Proof. vm_compute. reflexivity. Qed.
End Ex45.

(** * C46: every schedule gives the same result *)
Section C46.
  Context {file content store res : Type} (process : file -> store -> content -> store * content * res) (file_eqb : file -> file -> bool).
  Context (files : list file) (fs0 : file -> content) (numIO : nat) (order : list file)
    (order_perm : Permutation order files).
  Context (sh0 : store).
  Notation n := (List.length files).
  Notation step := (zstep process file_eqb n).

  Definition busy (w : @zworker file res) : list file := match w with ZBusy f => [f] | _ => [] end.
  Definition sending (w : @zworker file res) : list (file * res) := match w with ZDone f r => [(f, r)] | _ => [] end.
  Definition rest (m : @zmain file) : list file := match m with ZFeed l => l | ZCollect _ => [] end.
  Definition finished (s : @zstate file content store res) : list (file * res) :=
    flat_map sending (z_workers s) ++ z_results s ++ z_seen s.

  (** Every file is in exactly one place. *)
  Record inv (s : @zstate file content store res) : Prop := {
    i_files : Permutation (rest (z_main s) ++ flat_map busy (z_workers s) ++ map fst (finished s)) files;
    i_main : match z_main s with ZFeed _ => z_seen s = [] /\ ~ In ZGone (z_workers s) | ZCollect i => i = List.length (z_seen s) end;
    i_len : List.length (z_workers s) = numIO }.

  Lemma no_busy k : flat_map busy (repeat ZIdle k) = [].
  Proof. induction k; auto. Qed.
  Lemma no_sending k : flat_map sending (repeat ZIdle k) = [].
  Proof. induction k; auto. Qed.
  Lemma inv_init : inv (zinit numIO order fs0 sh0).
  Proof.
    unfold zinit. split; unfold finished; cbn [z_main z_workers z_results z_seen z_fs z_shared rest]; rewrite ?no_busy, ?no_sending; cbn [app map].
    - now rewrite app_nil_r.
    - split; [reflexivity|]. intros H. now apply repeat_spec in H.
    - apply repeat_length.
  Qed.
  Lemma send_perm (A B rs seen : list (file * res)) x :
    Permutation ((A ++ B) ++ (rs ++ [x]) ++ seen) ((A ++ x :: B) ++ rs ++ seen).
  Proof. rewrite <- !app_assoc. apply Permutation_app_head. cbn [app]. rewrite app_assoc. rewrite <- Permutation_middle. now rewrite <- app_assoc. Qed.
  Lemma collect_perm (A rs seen : list (file * res)) x :
    Permutation (A ++ rs ++ seen ++ [x]) (A ++ x :: rs ++ seen).
  Proof. apply Permutation_app_head. rewrite app_assoc. rewrite <- Permutation_cons_append. reflexivity. Qed.

  Lemma inv_step s t : inv s -> step s t -> inv t.
  Proof.
    intros [IF IM IL] Z.
    destruct Z as [f rs0 l1 l2 rs fs sh seen|ws rs fs sh seen|m f l1 l2 rs fs sh seen|m f r l1 l2 rs fs sh seen L|i l1 l2 rs fs sh seen|i ws f r rs fs sh seen L];
      unfold finished in *; cbn [z_main z_workers z_results z_seen z_fs z_shared rest] in *;
      rewrite ?flat_map_app in *; cbn [flat_map busy sending app] in *.
    - (* handoff *)
      split; unfold finished; cbn [z_main z_workers z_results z_seen z_fs z_shared rest]; rewrite ?flat_map_app; cbn [flat_map busy sending app]; auto.
      + rewrite <- IF. rewrite <- app_assoc. cbn [app].
        rewrite app_assoc. rewrite <- Permutation_middle. rewrite <- app_assoc. constructor.
        apply Permutation_app_head. now rewrite app_assoc.
      + destruct IM as [-> NG]. split; [reflexivity|]. intros H. apply NG. apply in_app_iff in H. apply in_app_iff.
        destruct H as [H|[H|H]]; [now left|discriminate|right; now right].
      + rewrite app_length in *. cbn in *. exact IL.
    - (* close *)
      split; unfold finished; cbn [z_main z_workers z_results z_seen z_fs z_shared rest]; auto. destruct IM as [-> _]. reflexivity.
    - (* work *)
      split; unfold finished; cbn [z_main z_workers z_results z_seen z_fs z_shared rest]; rewrite ?flat_map_app; cbn [flat_map busy sending app].
      + rewrite <- IF. apply Permutation_app_head. rewrite !map_app. cbn [map fst]. rewrite <- !app_assoc. cbn [app].
        apply Permutation_app_head. rewrite (app_assoc (flat_map busy l2)). rewrite <- Permutation_middle. rewrite <- app_assoc. reflexivity.
      + destruct m; [|exact IM]. destruct IM as [-> NG]. split; [reflexivity|]. intros H. apply NG. apply in_app_iff in H. apply in_app_iff.
        destruct H as [H|[H|H]]; [now left|discriminate|right; now right].
      + rewrite app_length in *. cbn in *. exact IL.
    - (* send *)
      split; unfold finished; cbn [z_main z_workers z_results z_seen z_fs z_shared rest]; rewrite ?flat_map_app; cbn [flat_map busy sending app].
      + rewrite <- IF. apply Permutation_app_head. apply Permutation_app_head. apply Permutation_map, send_perm.
      + destruct m; [|exact IM]. destruct IM as [-> NG]. split; [reflexivity|]. intros H. apply NG. apply in_app_iff in H. apply in_app_iff.
        destruct H as [H|[H|H]]; [now left|discriminate|right; now right].
      + rewrite app_length in *. cbn in *. exact IL.
    - (* gone *)
      split; unfold finished; cbn [z_main z_workers z_results z_seen z_fs z_shared rest]; rewrite ?flat_map_app; cbn [flat_map busy sending app]; auto.
      rewrite app_length in *. cbn in *. exact IL.
    - (* collect *)
      split; unfold finished; cbn [z_main z_workers z_results z_seen z_fs z_shared rest]; auto.
      + rewrite <- IF. cbn [app]. apply Permutation_app_head. apply Permutation_map, collect_perm.
      + rewrite app_length. cbn. rewrite IM. rewrite Nat.add_comm. reflexivity.
  Qed.
  Lemma inv_steps k s : steps step k (zinit numIO order fs0 sh0) s -> inv s.
  Proof.
    remember (zinit numIO order fs0 sh0) as s0. induction 1 as [|k s t u S IH Z]; subst; [apply inv_init|].
    eapply inv_step; eauto.
  Qed.

  Lemma done_empty s : inv s -> zdone n s ->
    flat_map busy (z_workers s) = [] /\ flat_map sending (z_workers s) = [] /\ z_results s = [].
  Proof.
    intros [IF IM IL] D. unfold zdone in D. rewrite D in *. cbn [rest app] in IF.
    apply Permutation_length in IF. unfold finished in IF. rewrite app_length, map_length, !app_length in IF.
    destruct (flat_map busy (z_workers s)), (flat_map sending (z_workers s)), (z_results s); cbn in IF; auto; lia.
  Qed.
  (** A finished run has one result for each file. *)
  Theorem C46_each_once : forall k s, steps step k (zinit numIO order fs0 sh0) s -> zdone n s ->
    Permutation (map fst (z_seen s)) files.
  Proof.
    intros k s S D. apply inv_steps in S. destruct (done_empty s S D) as (B & W & R). destruct S as [IF IM IL].
    unfold zdone in D. unfold finished in IF. rewrite D, B, W, R in IF. exact IF.
  Qed.

  Lemma has_step_or (l : list (@zworker file res)) :
    (exists l1 f l2, l = l1 ++ ZBusy f :: l2) \/ (exists l1 f r l2, l = l1 ++ ZDone f r :: l2) \/
    (forall w, In w l -> w = ZIdle \/ w = ZGone).
  Proof.
    induction l as [|w l IH]; [now right; right; intros ? []|].
    destruct w as [|f|f r|].
    2: now left; exists [], f, l. 2: now right; left; exists [], f, r, l.
    all: destruct IH as [(l1 & f & l2 & ->)|[(l1 & f & r & l2 & ->)|IH]];
      [left; eexists (_ :: l1), f, l2; reflexivity|right; left; eexists (_ :: l1), f, r, l2; reflexivity|].
    all: right; right; intros w [<-|H]; auto.
  Qed.

  (** The run cannot get stuck, *)
  Theorem C46_no_deadlock : forall k s, 1 <= numIO -> steps step k (zinit numIO order fs0 sh0) s ->
    zdone n s \/ exists t, step s t.
  Proof.
    intros k s IO S. apply inv_steps in S. destruct S as [IF IM IL]. destruct s as [m ws rs fs sh seen]. unfold finished in *.
    cbn [z_main z_workers z_results z_seen z_fs] in *.
    apply Permutation_length in IF. rewrite !app_length, map_length, !app_length in IF.
    destruct (has_step_or ws) as [(l1 & f & l2 & ->)|[(l1 & f & r & l2 & ->)|W]].
    - right. eexists. apply z_work.
    - right. eexists. apply z_send. rewrite flat_map_app, app_length in IF. cbn in IF. rewrite flat_map_app, !app_length in IF. cbn in IF. lia.
    - assert (B : flat_map busy ws = [] /\ flat_map sending ws = []).
      { clear IM IL IF. induction ws as [|w ws IH]; [auto|]. destruct IH as [IH1 IH2]; [intros w' H; apply W; now right|].
        cbn. rewrite IH1, IH2. destruct (W w) as [-> | ->]; auto; now left. }
      destruct B as [B1 B2]. rewrite B1, B2 in IF. cbn in IF.
      destruct m as [[|f l]|i].
      + right. eexists. apply z_close.
      + right. destruct IM as [_ NG]. destruct ws as [|w ws]; [cbn in IL; lia|].
        destruct (W w) as [-> | ->]; [now left| |destruct NG; now left].
        eexists. apply (z_handoff _ _ _ f l []).
      + subst i. cbn in IF. destruct rs as [|[f r] rs].
        * left. unfold zdone. cbn in *. now rewrite IF.
        * right. eexists. apply z_collect. cbn in IF. lia.
  Qed.

  (** and ends within a bounded number of steps. *)
  Definition weight (w : @zworker file res) : nat := match w with ZIdle => 1 | ZBusy _ => 4 | ZDone _ _ => 3 | ZGone => 0 end.
  Definition measure (s : @zstate file content store res) : nat :=
    4 * List.length (rest (z_main s)) + list_sum (map weight (z_workers s)) + List.length (z_results s)
    + match z_main s with ZFeed _ => 1 | _ => 0 end.
  Lemma step_measure s t : step s t -> measure t < measure s.
  Proof.
    destruct 1; unfold measure; cbn [z_main z_workers z_results rest]; rewrite ?map_app, ?list_sum_app, ?app_length; cbn; lia.
  Qed.
  Theorem C46_terminates : forall k s, steps step k (zinit numIO order fs0 sh0) s -> k <= 4 * n + numIO + 1.
  Proof.
    assert (H : forall k s t, steps step k s t -> k + measure t <= measure s).
    { induction 1 as [|k s t u S IH Z]; [lia|]. apply step_measure in Z. lia. }
    intros k s S. apply H in S. unfold measure in S at 2. cbn [z_main z_workers z_results zinit rest] in S.
    rewrite (Permutation_length order_perm) in S.
    assert (L : forall j, list_sum (map weight (repeat ZIdle j)) = j) by (induction j; cbn; auto).
    rewrite L in S. cbn [List.length] in S. lia.
  Qed.

  (** ** What the run computes, if the commands leave their (shared) arguments alone *)
  Hypothesis file_eqb_eq : forall a b, file_eqb a b = true <-> a = b.
  Hypothesis keeps_shared : forall f sh c, fst (fst (process f sh c)) = sh.
  Hypothesis files_nodup : NoDup files.
  Record inv2 (s : @zstate file content store res) : Prop := {
    i_res : forall f r, In (f, r) (finished s) -> r = snd (process f sh0 (fs0 f));
    i_fs1 : forall f, In f (map fst (finished s)) -> z_fs s f = snd (fst (process f sh0 (fs0 f)));
    i_fs0 : forall f, ~ In f (map fst (finished s)) -> z_fs s f = fs0 f;
    i_shared : z_shared s = sh0 }.
  Lemma inv2_perm (s t : @zstate file content store res) : Permutation (finished t) (finished s) -> z_fs t = z_fs s -> z_shared t = z_shared s -> inv2 s -> inv2 t.
  Proof.
    intros P F H [IR I1 I0 IS]. split.
    - intros g q I. apply IR. eapply Permutation_in; [exact P|exact I].
    - intros g I. rewrite F. apply I1. eapply Permutation_in; [apply Permutation_map, P|exact I].
    - intros g I. rewrite F. apply I0. intros K. apply I. eapply Permutation_in; [apply Permutation_map, Permutation_sym, P|exact K].
    - congruence.
  Qed.
  Lemma inv2_step s t : inv s -> inv2 s -> step s t -> inv2 t.
  Proof.
    intros [IF IM IL] I2 Z.
    destruct Z as [f rs0 l1 l2 rs fs sh seen|ws rs fs sh seen|m f l1 l2 rs fs sh seen|m f r l1 l2 rs fs sh seen L|i l1 l2 rs fs sh seen|i ws f r rs fs sh seen L].
    1,2,4,5,6: revert I2; apply inv2_perm; [|reflexivity|reflexivity]; unfold finished; cbn [z_workers z_results z_seen];
      rewrite ?flat_map_app; cbn [flat_map sending app]; first [reflexivity|apply send_perm|apply collect_perm].
    destruct I2 as [IR I1 I0 IS]. unfold finished in *.
    cbn [z_main z_workers z_results z_seen z_fs z_shared rest] in *. rewrite ?flat_map_app in *. cbn [flat_map busy sending app] in *. subst sh.
    assert (NI : ~ In f (map fst ((flat_map sending l1 ++ flat_map sending l2) ++ rs ++ seen))).
    { intros H. assert (ND : NoDup (rest m ++ (flat_map busy l1 ++ f :: flat_map busy l2) ++ map fst ((flat_map sending l1 ++ flat_map sending l2) ++ rs ++ seen))).
      { eapply Permutation_NoDup; [apply Permutation_sym, IF|exact files_nodup]. }
      rewrite <- app_assoc in ND. cbn [app] in ND. rewrite app_assoc in ND. apply NoDup_remove_2 in ND. apply ND.
      rewrite !in_app_iff. right. now right. }
    assert (FSF : fs f = fs0 f) by now apply I0.
    assert (IN : forall x, In x (map fst ((flat_map sending l1 ++ (f, snd (process f sh0 (fs f))) :: flat_map sending l2) ++ rs ++ seen)) <-> x = f \/ In x (map fst ((flat_map sending l1 ++ flat_map sending l2) ++ rs ++ seen))).
    { intros x. rewrite !map_app, !in_app_iff. cbn. split; [intros [[H|[H|H]]|H]|intros [H|[[H|H]|H]]]; auto. }
    split; unfold finished; cbn [z_main z_workers z_results z_seen z_fs z_shared rest]; rewrite ?flat_map_app; cbn [flat_map busy sending app].
    - intros g r H. rewrite !in_app_iff in H. cbn in H.
      assert (C : (g, r) = (f, snd (process f sh0 (fs f))) \/ In (g, r) ((flat_map sending l1 ++ flat_map sending l2) ++ rs ++ seen)).
      { rewrite !in_app_iff. destruct H as [[H|[H|H]]|H]; auto. }
      destruct C as [[= -> ->]|C]; [now rewrite FSF|now apply IR].
    - intros g H. apply IN in H. unfold write_fs. destruct (file_eqb g f) eqn:E.
      + apply file_eqb_eq in E. subst. now rewrite FSF.
      + destruct H as [->|H]; [|now apply I1]. assert (E' : file_eqb f f = true) by now apply file_eqb_eq. congruence.
    - intros g H. rewrite IN in H. unfold write_fs. destruct (file_eqb g f) eqn:E.
      + apply file_eqb_eq in E. subst. destruct H. now left.
      + apply I0. intros K. apply H. now right.
    - apply keeps_shared.
  Qed.
  Lemma inv2_steps k s : steps step k (zinit numIO order fs0 sh0) s -> inv2 s.
  Proof.
    remember (zinit numIO order fs0 sh0) as s0. induction 1 as [|k s t u S IH Z]; subst.
    - unfold zinit. split; unfold finished; cbn [z_main z_workers z_results z_seen z_fs z_shared rest]; rewrite ?no_sending; cbn [app map]; auto; intros; contradiction.
    - eapply inv2_step; eauto. eapply inv_steps; eauto.
  Qed.
  (** Each file was processed exactly once, on its original content. *)
  Definition sequential : list (file * res) := map (fun f => (f, snd (process f sh0 (fs0 f)))) files.
  Theorem C46_result_partial : forall k s, steps step k (zinit numIO order fs0 sh0) s -> zdone n s ->
    Permutation (z_seen s) sequential /\
    (forall f, In f files -> z_fs s f = snd (fst (process f sh0 (fs0 f)))) /\
    (forall f, ~ In f files -> z_fs s f = fs0 f).
  Proof.
    intros k s S D. pose proof (C46_each_once _ _ S D) as IF. pose proof (inv2_steps _ _ S) as [IR I1 I0 _]. apply inv_steps in S.
    destruct (done_empty s S D) as (B & W & R). unfold finished in *. rewrite W, R in *. cbn [app] in *.
    split; [|split].
    - assert (Q : z_seen s = map (fun f => (f, snd (process f sh0 (fs0 f)))) (map fst (z_seen s))).
      { rewrite map_map. rewrite <- (map_id (z_seen s)) at 1. apply map_ext_in. intros [f r] H. cbn. f_equal. now apply IR. }
      rewrite Q. unfold sequential. now apply Permutation_map.
    - intros f H. apply I1. eapply Permutation_in; [apply Permutation_sym, IF|exact H].
    - intros f H. apply I0. intros K. apply H. eapply Permutation_in; [exact IF|exact K].
  Qed.

  (** The exit code is the one of processing the files one after the other. *)
  Lemma existsb_permutation {A} (p : A -> bool) l l' : Permutation l l' -> existsb p l = existsb p l'.
  Proof.
    induction 1; cbn; try congruence. destruct (p x), (p y); reflexivity.
  Qed.
  Theorem C46_exit_code_partial : forall has_errors modified stdout non_readonly k s,
    steps step k (zinit numIO order fs0 sh0) s -> zdone n s ->
    exit_code has_errors modified stdout non_readonly (z_seen s) = exit_code has_errors modified stdout non_readonly sequential.
  Proof.
    intros he md so nr k s S D. destruct (C46_result_partial _ _ S D) as [P _]. unfold exit_code.
    now rewrite !(existsb_permutation _ _ _ P).
  Qed.
End C46.
Print Assumptions C46_each_once.
Print Assumptions C46_result_partial.
Print Assumptions C46_no_deadlock.
Print Assumptions C46_terminates.
Print Assumptions C46_exit_code_partial.

(** The exit code, in words: 2 exactly if some file had an error; 3 exactly if nothing changed although a
    command could have changed something. *)
Theorem C46_exit_code_meaning : forall {file res} (has_errors modified : res -> bool) stdout commands (seen : list (file * res)),
  let c := exit_code has_errors modified stdout (has_non_readonly commands) seen in
  (c = 2 <-> exists f r, In (f, r) seen /\ has_errors r = true) /\
  (c = 3 <-> (forall f r, In (f, r) seen -> has_errors r = false /\ modified r = false) /\ stdout = false /\
             exists targets t cmds cmd, In targets commands /\ In (t, cmds) targets /\ In cmd cmds /\ readonly (command_name cmd) = false) /\
  (c = 0 \/ c = 2 \/ c = 3).
Proof.
  intros file res he md so commands seen c. subst c. unfold exit_code.
  destruct (existsb (fun p => he (snd p)) seen) eqn:E.
  - apply existsb_exists in E. destruct E as ([f r] & I & H). cbn in H.
    split; [|split].
    + split; auto. intros _. exists f, r. auto.
    + split; [discriminate|]. intros (K & _). destruct (K f r I) as [K1 _]. congruence.
    + auto.
  - assert (NE : forall f r, In (f, r) seen -> he r = false).
    { intros f r I. destruct (he r) eqn:H; [|reflexivity]. rewrite <- E. symmetry. apply existsb_exists. exists (f, r). auto. }
    assert (C2 : forall x, x <> 2 -> (x = 2 <-> exists f r, In (f, r) seen /\ he r = true)).
    { intros x X. split; [congruence|]. intros (f & r & I & H). rewrite (NE f r I) in H. discriminate. }
    destruct (existsb (fun p => md (snd p)) seen) eqn:M; cbn [orb].
    + split; [apply C2; discriminate|split; [|auto]]. split; [discriminate|]. intros (K & _).
      apply existsb_exists in M. destruct M as ([f r] & I & H). destruct (K f r I). cbn in H. congruence.
    + assert (NM : forall f r, In (f, r) seen -> md r = false).
      { intros f r I. destruct (md r) eqn:H; [|reflexivity]. rewrite <- M. symmetry. apply existsb_exists. exists (f, r). auto. }
      destruct so.
      * split; [apply C2; discriminate|split; [|auto]]. split; [discriminate|]. intros (_ & K & _). discriminate.
      * assert (RO : has_non_readonly commands = true <-> exists targets t cmds cmd, In targets commands /\ In (t, cmds) targets /\ In cmd cmds /\ readonly (command_name cmd) = false).
        { unfold has_non_readonly. rewrite existsb_exists. split.
          - intros (ts & I & H). apply existsb_exists in H. destruct H as ([t cmds] & I2 & H). apply existsb_exists in H. destruct H as (cmd & I3 & H).
            exists ts, t, cmds, cmd. repeat split; auto. now apply negb_true_iff.
          - intros (ts & t & cmds & cmd & I1 & I2 & I3 & H). exists ts. split; auto. apply existsb_exists. exists (t, cmds). split; auto.
            apply existsb_exists. exists cmd. split; auto. now rewrite H. }
        destruct (has_non_readonly commands) eqn:HN.
        -- split; [apply C2; discriminate|split; [|auto]]. split; [|auto]. intros _. split; [|split; [auto|now apply RO]]. intros f r I. split; eauto.
        -- split; [apply C2; discriminate|split; [|auto]]. split; [discriminate|]. intros (_ & _ & K). apply RO in K. discriminate.
Qed.
Print Assumptions C46_exit_code_meaning.

(** Non-triviality: two workers, three files, finished out of order. *)
Module Ex46.
  Definition process (f : nat) (sh : unit) (c : nat) : unit * nat * nat := (sh, f + c, c).
  Definition fs0 : nat -> nat := fun f => 10.
  Ltac go := eapply steps_more.
  Example out_of_order : exists k s, steps (zstep process Nat.eqb 3) k (zinit 2 [1; 2; 3] fs0 tt) s /\ zdone 3 s /\
     map fst (z_seen s) = [2; 1; 3] /\ z_fs s 1 = 11 /\ z_fs s 4 = 10.
  Proof.
    do 2 eexists. split.
    - unfold zinit, fs0. cbn [repeat].
      go. go. go. go. go. go. go. go. go. go. go. go. go. go. go.
      apply steps_refl.
      apply (z_handoff _ _ _ 1 [2;3] [] [ZIdle]).
      apply (z_handoff _ _ _ 2 [3] [ZBusy 1] []).
      apply (z_work _ _ _ _ 2 [ZBusy 1] []).
      apply (z_send _ _ _ _ 2 _ [ZBusy 1] []); cbn; lia.
      apply (z_work _ _ _ _ 1 [] [ZIdle]).
      apply (z_send _ _ _ _ 1 _ [] [ZIdle]); cbn; lia.
      apply (z_handoff _ _ _ 3 [] [] [ZIdle]).
      apply z_close.
      apply (z_work _ _ _ _ 3 [] [ZIdle]).
      apply (z_send _ _ _ _ 3 _ [] [ZIdle]); cbn; lia.
      apply z_collect; lia.
      apply z_collect; lia.
      apply (z_gone _ _ _ _ [] [ZIdle]).
      apply (z_gone _ _ _ _ [ZGone] []).
      apply z_collect; lia.
    - vm_compute. repeat split.
  Qed.
End Ex46.

(** The command new_load changes the arguments that all files share: two runs of
    buildozer 'new_load :a.bzl local=exported' on two files end with different files. *)
Definition process_new_load (f : nat) (args : list bytes) (stmts : list (option Ast.expr))
  : list bytes * list (option Ast.expr) * bool :=
  match EditFile.cmdNewLoad (fun l => l) (fun l => l) stmts args with
  | Some (l, args') => (args', l, true)
  | None => (args, stmts, false)
  end.
Theorem C46_shared_arguments_refuted :
  exists args fs0 k1 k2 s1 s2 f,
    steps (zstep process_new_load Nat.eqb 2) k1 (zinit 1 [1; 2] fs0 args) s1 /\ zdone 2 s1 /\
    steps (zstep process_new_load Nat.eqb 2) k2 (zinit 1 [2; 1] fs0 args) s2 /\ zdone 2 s2 /\
    z_fs s1 f <> z_fs s2 f.
Proof.
  exists [%":a.bzl"; %"local=exported"], (fun _ => []).
  do 4 eexists. exists 1. split; [|split; [|split; [|split]]].
  - unfold zinit. cbn [repeat].
    Ex46.go. Ex46.go. Ex46.go. Ex46.go. Ex46.go. Ex46.go. Ex46.go. Ex46.go. Ex46.go.
    apply steps_refl.
    apply (z_handoff _ _ _ 1 [2] [] []).
    apply (z_work _ _ _ _ 1 [] []).
    apply (z_send _ _ _ _ 1 _ [] []); cbn; lia.
    apply (z_handoff _ _ _ 2 [] [] []).
    apply (z_work _ _ _ _ 2 [] []).
    apply (z_send _ _ _ _ 2 _ [] []); cbn; lia.
    apply z_close.
    apply z_collect; lia.
    apply z_collect; lia.
  - reflexivity.
  - unfold zinit. cbn [repeat].
    Ex46.go. Ex46.go. Ex46.go. Ex46.go. Ex46.go. Ex46.go. Ex46.go. Ex46.go. Ex46.go.
    apply steps_refl.
    apply (z_handoff _ _ _ 2 [1] [] []).
    apply (z_work _ _ _ _ 2 [] []).
    apply (z_send _ _ _ _ 2 _ [] []); cbn; lia.
    apply (z_handoff _ _ _ 1 [] [] []).
    apply (z_work _ _ _ _ 1 [] []).
    apply (z_send _ _ _ _ 1 _ [] []); cbn; lia.
    apply z_close.
    apply z_collect; lia.
    apply z_collect; lia.
  - reflexivity.
  - vm_compute. discriminate.
Qed.
Print Assumptions C46_shared_arguments_refuted.
