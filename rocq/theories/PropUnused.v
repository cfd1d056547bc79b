(** C94: unused_deps prints commands exactly for the dependencies that no compilation uses. *)
From Verif Require Import LRTables LRCert Parse.
From Verif Require Import Base BaseProofs Ast ParseFile Labels LabelsProofs Rewrite RuleApi RuleSpec RuleProofs PropRule EditList RuleCmd Bzlmod Wspace Cli Fix UnusedDeps.
Local Open Scope list_scope.

(** ** What is asked for *)
(** A jar manifest: a line ends in one of three ways, and a long value goes on in lines that start with a space *)
Inductive eol := CR | LF | CRLF.
Definition eol_text (e : eol) : bytes := match e with CR => [c_cr] | LF => [c_nl] | CRLF => [c_cr; c_nl] end.
Definition wrapped (l : list (bytes * eol)) : bytes := List.concat (map (fun x => c_sp :: fst x ++ eol_text (snd x)) l).
Definition header (key : bytes) (l : list (bytes * eol)) : bytes := key ++ [c_colon] ++ wrapped l.
Definition one_line (t : bytes) : Prop := ~ In c_cr t /\ ~ In c_nl t.
(** What follows is another line, and not the second half of a line end *)
Definition new_line (after : bytes) : Prop := forall c r, after = c :: r -> c <> c_sp /\ c <> c_nl.
(** A file with one argument on each line *)
Definition arguments (l : list bytes) : bytes := List.concat (map (fun a => a ++ [c_nl]) l).
(** The label in a jar *)
Definition jar_label (w : world) (j label : bytes) : Prop :=
  exists entries text l, jar w (output_path w ++ trim_prefix %"bazel-out" j) = Some entries /\ lookup %"META-INF/MANIFEST.MF" entries = Some (Some text) /\
    manifest_value %"Target-Label" text = Some l /\ label = local_label l.
(** The jars that the compiler says it needed *)
Definition used (w : world) (depsFile path : bytes) : Prop := exists data deps, read_file w depsFile = Some data /\ decode w data = Some deps /\ In (true, path) deps.
Definition known (w : world) (depsFile : bytes) : Prop := exists data deps, read_file w depsFile = Some data /\ decode w data = Some deps.
(** The elements of the lists in a sum *)
Inductive element (x : expr) : expr -> Prop :=
  | element_list c s l e m : In x l -> element x (EList c s l e m)
  | element_left c a p b y : element x a -> element x (EBinary c a p %"+" b y)
  | element_right c a p b y : element x y -> element x (EBinary c a p %"+" b y).
Definition same_target (pkg a b : bytes) : Prop := parse_relative a pkg = parse_relative b pkg.
Definition for_runtime (s : strlit) : Prop := exists k, In k (c_suffix (s_com s)) /\ contains %"runtime" (to_lower (c_tok k)) = true.

(** ** The text of manifests *)
Lemma index_byte_app c t x : ~ In c t -> index_byte c (t ++ x) = option_map (Nat.add (List.length t)) (index_byte c x).
Proof.
  induction t as [|a t IH]; intro N; cbn [app index_byte List.length]; [destruct (index_byte c x); auto|].
  assert (a <> c) by (intros ->; apply N; now left). destruct (Ascii.eqb_spec a c); [contradiction|]. rewrite IH by (intro; apply N; now right). destruct (index_byte c x); auto.
Qed.
Lemma newline_at t e r : one_line t -> (e = CR -> forall c q, r = c :: q -> c <> c_nl) ->
  manifestIndexNewline (t ++ eol_text e ++ r) = Some (List.length t, List.length t + List.length (eol_text e)).
Proof.
  intros (N1 & N2) H. unfold manifestIndexNewline. rewrite (index_byte_app c_nl), (index_byte_app c_cr) by auto. destruct e; cbn [eol_text app index_byte List.length].
  - assert (E1 : Ascii.eqb c_cr c_nl = false) by reflexivity. rewrite E1, !ascii_eqb_refl. cbn [option_map].
    destruct r as [|c q]; cbn [index_byte option_map]; [f_equal; f_equal; lia|]. destruct (Ascii.eqb_spec c c_nl) as [->|n]; [now destruct (H eq_refl _ _ eq_refl)|].
    destruct (index_byte c_nl q) as [k|]; cbn [option_map]; [|f_equal; f_equal; lia]. destruct (PeanoNat.Nat.ltb_spec (List.length t + S (S k)) (List.length t + 0)); [lia|]. destruct (PeanoNat.Nat.eqb_spec (List.length t + S (S k)) (S (List.length t + 0))); [lia|]. f_equal; f_equal; lia.
  - assert (E1 : Ascii.eqb c_nl c_cr = false) by reflexivity. rewrite E1, !ascii_eqb_refl. cbn [option_map].
    destruct (index_byte c_cr r) as [k|]; cbn [option_map]; [|f_equal; f_equal; lia]. destruct (PeanoNat.Nat.ltb_spec (List.length t + 0) (List.length t + S k)); [|lia]. f_equal; f_equal; lia.
  - assert (E1 : Ascii.eqb c_cr c_nl = false) by reflexivity. rewrite E1, !ascii_eqb_refl. cbn [option_map]. destruct (PeanoNat.Nat.ltb_spec (List.length t + 1) (List.length t + 0)); [lia|]. destruct (PeanoNat.Nat.eqb_spec (List.length t + 1) (S (List.length t + 0))); [|lia]. f_equal; f_equal; lia.
Qed.
Lemma lines_of_value l after : Forall (fun x => one_line (fst x)) l -> new_line after ->
  forall n label, List.length l <= n -> value_lines n label (wrapped l ++ after) = Some (label ++ List.concat (map fst l)).
Proof.
  intros F NL. induction F as [|[t e] l O F IH]; intros n label Hn.
  - cbn [wrapped map List.concat app]. rewrite app_nil_r. destruct after as [|c r]; [destruct n; auto|]. destruct (NL c r eq_refl) as (X & _). destruct n; cbn [value_lines]; (destruct (Ascii.eqb_spec c c_sp); [contradiction|auto]).
  - destruct n as [|n]; [cbn in Hn; lia|]. cbn [fst] in O. unfold wrapped in *. cbn [map List.concat app value_lines fst snd]. rewrite ascii_eqb_refl. rewrite <- !app_assoc.
    set (rest := List.concat _ ++ after) in *.
    assert (NLr : forall c q, rest = c :: q -> c <> c_nl). { subst rest. destruct l as [|[t2 e2] l2]; cbn [map List.concat app fst snd]; intros c q K; [destruct (NL _ _ K); auto|injection K as <- _; discriminate]. }
    assert (E : manifestIndexNewline (c_sp :: t ++ eol_text e ++ rest) = Some (S (List.length t), S (List.length t) + List.length (eol_text e))).
    { change (c_sp :: t ++ eol_text e ++ rest) with ((c_sp :: t) ++ eol_text e ++ rest). rewrite newline_at; auto. destruct O as (O1 & O2). split; (intros [K|K]; [discriminate|contradiction]). }
    rewrite E. replace (S (List.length t) - 1) with (List.length t) by lia. rewrite firstn_app, PeanoNat.Nat.sub_diag, firstn_all. cbn [firstn]. rewrite app_nil_r.
    replace (skipn (S (List.length t) + List.length (eol_text e)) (c_sp :: t ++ eol_text e ++ rest)) with rest; [rewrite IH by (cbn in Hn; lia); rewrite <- app_assoc; reflexivity|].
    cbn [Nat.add skipn]. rewrite skipn_app, (skipn_all2 t) by lia. cbn [app]. replace (List.length t + List.length (eol_text e) - List.length t) with (List.length (eol_text e)) by lia. rewrite skipn_app, skipn_all, PeanoNat.Nat.sub_diag. reflexivity.
Qed.
Lemma index_none sub s : index sub s = None <-> contains sub s = false.
Proof.
  induction s as [|a s IH]; cbn [index contains]; [destruct (has_prefix sub []); cbn; split; auto; discriminate|]. destruct (has_prefix sub (a :: s)); cbn [orb]; [split; discriminate|]. destruct (index sub s); cbn [option_map]; rewrite <- IH; split; auto; discriminate.
Qed.
Lemma index_first sub a b : (forall x y, a ++ sub ++ b = x ++ sub ++ y -> List.length a <= List.length x) -> index sub (a ++ sub ++ b) = Some (List.length a).
Proof.
  induction a as [|c a IH]; intro H; cbn [app List.length].
  - destruct (sub ++ b) eqn:E; cbn [index]; rewrite <- E, has_prefix_app; auto.
  - cbn [index]. destruct (has_prefix sub (c :: a ++ sub ++ b)) eqn:E.
    + exfalso. apply has_prefix_spec in E. destruct E as (t & E). specialize (H [] t E). cbn in H. lia.
    + rewrite IH; auto. intros x y E2. specialize (H (c :: x) y). cbn [app List.length] in H. rewrite E2 in H. specialize (H eq_refl). lia.
Qed.
(** The value of a header is found whole, wherever its lines are broken and however they end. *)
Theorem C94_manifest : forall before key l after,
  Forall (fun x => one_line (fst x)) l -> new_line after ->
  (forall x y, before ++ header key l ++ after = x ++ (key ++ [c_colon]) ++ y -> List.length before <= List.length x) ->
  manifest_value key (before ++ header key l ++ after) = Some (List.concat (map fst l)).
Proof.
  intros before key l after F NL First. assert (T : before ++ header key l ++ after = before ++ (key ++ [c_colon]) ++ (wrapped l ++ after)) by (unfold header; now rewrite <- !app_assoc).
  unfold manifest_value. rewrite T in *. rewrite index_first by auto.
  replace (skipn (List.length before + List.length (key ++ [c_colon])) (before ++ (key ++ [c_colon]) ++ wrapped l ++ after)) with (wrapped l ++ after).
  2:{ rewrite app_assoc, <- app_length. now rewrite skipn_app, skipn_all, PeanoNat.Nat.sub_diag. }
  cbv zeta. rewrite lines_of_value; auto. rewrite app_length. enough (List.length l <= List.length (wrapped l)) by lia. unfold wrapped. clear. induction l as [|x l IH]; cbn [map List.concat List.length app]; [lia|]. rewrite !app_length. lia.
Qed.
Print Assumptions C94_manifest.
Example C94_manifest_example :
  let text := %"Manifest-Version: 1.0" ++ [c_cr; c_nl] ++ %"Target-Label: //some/pa" ++ [c_cr; c_nl] ++ %" ckage:lib" ++ [c_cr; c_nl] ++ [c_cr; c_nl] in
  manifest_value %"Target-Label" text = Some %"//some/package:lib" /\
  text = (%"Manifest-Version: 1.0" ++ [c_cr; c_nl]) ++ header %"Target-Label" [(%"//some/pa", CRLF); (%"ckage:lib", CRLF)] ++ [c_cr; c_nl].
Proof. vm_compute. split; reflexivity. Qed.
(** The key is looked for in the whole text: the end of another name will do. *)
Theorem C94_manifest_refuted : exists before key l, Forall (fun x => one_line (fst x)) l /\ before = %"Old-Target-Label: //old" ++ [c_nl] /\ key = %"Target-Label" /\ l = [(%"//a", LF)] /\
  manifest_value key (before ++ header key l) = Some %"//old".
Proof.
  exists (%"Old-Target-Label: //old" ++ [c_nl]), %"Target-Label", [(%"//a", LF)]. split; [|repeat (apply conj); vm_compute; reflexivity]. constructor; [|constructor]. split; intro K; cbn in K; repeat (destruct K as [K|K]; [discriminate|]); auto.
Qed.

(** ** The jars *)
Lemma scan_cons x l : l <> [] -> scan (x :: l) = if N.ltb (N.of_nat (List.length x)) maxScanTokenSize then drop_cr x :: scan l else [].
Proof. destruct l; [contradiction|reflexivity]. Qed.
Lemma drop_cr_id x : (forall y, x <> y ++ [c_cr]) -> drop_cr x = x.
Proof.
  intro H. unfold drop_cr, trim_suffix, has_suffix. destruct (has_prefix (rev [c_cr]) (rev x)) eqn:E; auto. exfalso. apply has_prefix_spec in E. destruct E as (t & E). apply (H (rev t)). cbn [rev app] in E. rewrite <- (rev_involutive x), E. reflexivity.
Qed.
Definition plain_argument (a : bytes) : Prop := ~ In c_nl a /\ (forall y, a <> y ++ [c_cr]) /\ (N.of_nat (List.length a) < 65536)%N.
Lemma scan_arguments l rest : Forall plain_argument l -> scan_lines (arguments l ++ rest) = l ++ scan_lines rest.
Proof.
  unfold scan_lines. induction 1 as [|a l (N & C & L) F IH]; auto. unfold arguments in *. cbn [map List.concat app]. rewrite <- !app_assoc. cbn [app]. rewrite split_app by auto. rewrite scan_cons by apply split_nonempty.
  apply N.ltb_lt in L. fold maxScanTokenSize in L. rewrite L, drop_cr_id by auto. f_equal. auto.
Qed.
Lemma jar_label_spec w j label : jar_label w j label <-> exists l, jarManifestValue w (output_path w ++ trim_prefix %"bazel-out" j) %"Target-Label" = Some l /\ label = local_label l.
Proof.
  unfold jar_label, jarManifestValue. split.
  - intros (en & text & l & -> & -> & E & ->). eauto.
  - intros (l & E & ->). destruct (jar w _) as [en|]; [|discriminate]. destruct (lookup %"META-INF/MANIFEST.MF" en) as [[text|]|] eqn:El; try discriminate. exists en, text, l. auto.
Qed.
Lemma jar_label_fun w j a b : jar_label w j a -> jar_label w j b -> a = b.
Proof. rewrite !jar_label_spec. intros (l & E & ->) (l2 & E2 & ->). rewrite E in E2. now injection E2 as ->. Qed.
Lemma read_jars_fun w lines j label : In (j, label) (read_jars w lines) -> jar_label w j label.
Proof.
  induction lines as [|x lines IH]; cbn [read_jars]; [intros []|]. destruct (has_prefix %"--" x); [intros []|]. destruct (jarManifestValue w (output_path w ++ trim_prefix %"bazel-out" x) %"Target-Label") eqn:E; auto.
  intros [K|K]; auto. injection K as <- <-. apply jar_label_spec. eauto.
Qed.
Lemma read_jars_spec w jars more : Forall (fun j => has_prefix %"--" j = false) jars -> (forall a r, more = a :: r -> has_prefix %"--" a = true) ->
  forall j label, In (j, label) (read_jars w (jars ++ more)) <-> In j jars /\ jar_label w j label.
Proof.
  intros F M j label. induction F as [|x jars H F IH]; cbn [app].
  - split; [|now intros ([] & _)]. destruct more as [|a r]; cbn [read_jars]; [intros []|]. rewrite (M _ _ eq_refl). intros [].
  - cbn [read_jars]. rewrite H. destruct (jarManifestValue w (output_path w ++ trim_prefix %"bazel-out" x) %"Target-Label") as [l|] eqn:E.
    + cbn [In]. rewrite IH. split.
      * intros [K|(K1 & K2)]; [injection K as <- <-; split; [now left|apply jar_label_spec; eauto]|tauto].
      * intros ([<-|K] & J); [left|right; auto]. f_equal. apply (jar_label_fun w x); auto. apply jar_label_spec; eauto.
    + rewrite IH. cbn [In]. split; [tauto|]. intros ([<-|K] & J); auto. apply jar_label_spec in J. destruct J as (l & J & _). rewrite E in J. discriminate.
Qed.
Lemma contains_spec sub s : contains sub s = true <-> exists a b, s = a ++ sub ++ b.
Proof.
  induction s as [|c s IH]; cbn [contains]; rewrite Bool.orb_true_iff, has_prefix_spec.
  - split; [intros [(t & E)|K]; [exists [], t; auto|discriminate]|]. intros (a & b & E). destruct a; [left; eauto|discriminate].
  - rewrite IH. split; [intros [(t & E)|(a & b & ->)]; [exists [], t; auto|exists (c :: a), b; auto]|]. intros (a & b & E). destruct a as [|x a]; [left; eauto|]. injection E as -> E. right; eauto.
Qed.
(** A text without line ends that occurs in the file occurs in an argument. *)
Lemma occurs_before sub pre rest : sub <> [] -> ~ In c_nl sub -> Forall (fun a => contains sub a = false) pre ->
  forall x y, arguments pre ++ rest = x ++ sub ++ y -> List.length (arguments pre) <= List.length x.
Proof.
  intros NE N F. unfold arguments. induction F as [|a pre H F IH]; intros x y E; cbn [map List.concat List.length]; [lia|]. cbn [map List.concat] in E. rewrite <- !app_assoc in E. cbn [app] in E.
  assert (L : List.length (a ++ [c_nl]) <= List.length x).
  { destruct (Compare_dec.le_lt_dec (List.length (a ++ [c_nl])) (List.length x)) as [|L]; auto. exfalso.
    assert (P : exists x2, a = x ++ x2). { clear - E L. revert a E L. induction x as [|c x IHx]; intros a E L; [now exists a|]. destruct a as [|d a]; [cbn in L; lia|]. cbn [app] in E. injection E as -> E. destruct (IHx a E) as (x2 & ->); [cbn in L |- *; lia|]. now exists x2. }
    destruct P as (x2 & ->). rewrite <- app_assoc in E. apply app_inv_head in E.
    assert (Q : exists z, x2 = sub ++ z). { clear - E N. revert x2 E. induction sub as [|c sub IHs]; intros x2 E; [now exists x2|]. destruct x2 as [|d x2]; cbn [app] in E; injection E as K E; [exfalso; apply N; left; auto|]. subst d. destruct IHs with (x2 := x2) as (z & ->); auto; [intro; apply N; now right|]. now exists z. }
    destruct Q as (z & ->). enough (contains sub (x ++ sub ++ z) = true) by congruence. apply contains_spec. eauto. }
  rewrite app_length in *.
  assert (P : exists x2, x = (a ++ [c_nl]) ++ x2). { replace (a ++ c_nl :: List.concat (map (fun a => a ++ [c_nl]) pre) ++ rest) with ((a ++ [c_nl]) ++ (List.concat (map (fun a => a ++ [c_nl]) pre) ++ rest)) in E by now rewrite <- app_assoc. clear - E L. rewrite <- app_length in L. revert x E L. induction (a ++ [c_nl]) as [|c s IHs]; intros x E L; [now exists x|]. destruct x as [|d x]; [cbn in L; lia|]. cbn [app] in E. injection E as -> E. destruct (IHs x E) as (x2 & ->); [cbn in L; lia|]. now exists x2. }
  destruct P as (x2 & ->). rewrite <- !app_assoc in E. apply app_inv_head in E. cbn [app] in E. injection E as E. specialize (IH _ _ E). rewrite !app_length in *. cbn in *. lia.
Qed.
Lemma arguments_app a b : arguments (a ++ b) = arguments a ++ arguments b.
Proof. unfold arguments. now rewrite map_app, concat_app. Qed.
(** The direct dependencies are the jars after the flag, up to the next option, that have a label. *)
Theorem C94_params : forall w params pre jars more, read_file w params = Some (arguments (pre ++ [%"--direct_dependencies"] ++ jars ++ more)) ->
  Forall (fun a => contains %"--direct_dependencies" a = false) pre ->
  Forall (fun j => plain_argument j /\ has_prefix %"--" j = false) jars ->
  (forall a r, more = a :: r -> plain_argument a /\ has_prefix %"--" a = true) ->
  exists m, directDepParams w params = Some m /\ forall j label, In (j, label) m <-> In j jars /\ jar_label w j label.
Proof.
  intros w params pre jars more R P J M. unfold directDepParams. rewrite R.
  assert (T : arguments (pre ++ [%"--direct_dependencies"] ++ jars ++ more) = arguments pre ++ direct_deps_flag ++ (c_nl :: arguments (jars ++ more))).
  { unfold arguments. rewrite !map_app, !concat_app. cbn [map List.concat app]. rewrite <- !app_assoc. reflexivity. }
  rewrite T. rewrite index_first.
  2:{ apply occurs_before; auto; [discriminate|]. intro K. cbn in K. repeat (destruct K as [K|K]; [discriminate|]). auto. }
  cbv zeta. match goal with |- context [Nat.ltb ?a ?b] => destruct (PeanoNat.Nat.ltb_spec a b) as [L|_] end; [rewrite !app_length in L; cbn in L; lia|].
  replace (skipn (List.length (arguments pre) + List.length direct_deps_flag + 1) (arguments pre ++ direct_deps_flag ++ c_nl :: arguments (jars ++ more))) with (arguments (jars ++ more)).
  2:{ replace (arguments pre ++ direct_deps_flag ++ c_nl :: arguments (jars ++ more)) with (((arguments pre ++ direct_deps_flag) ++ [c_nl]) ++ arguments (jars ++ more)) by now rewrite <- !app_assoc.
      replace (List.length (arguments pre) + List.length direct_deps_flag + 1) with (List.length ((arguments pre ++ direct_deps_flag) ++ [c_nl])) by (rewrite !app_length; cbn; lia). now rewrite skipn_app, skipn_all, PeanoNat.Nat.sub_diag. }
  eexists. split; [reflexivity|]. intros j label. rewrite arguments_app, scan_arguments.
  2:{ revert J. apply Forall_impl. tauto. }
  rewrite read_jars_spec; [tauto|revert J; apply Forall_impl; tauto|]. intros a r E. destruct more as [|b more]; [discriminate|]. destruct (M _ _ eq_refl) as (Pl & Hb).
  change (arguments (b :: more)) with ((b ++ [c_nl]) ++ arguments more) in E. replace (b ++ [c_nl]) with (arguments [b]) in E by (unfold arguments; cbn; now rewrite app_nil_r). rewrite scan_arguments in E by auto. cbn [app] in E. injection E as <- _. auto.
Qed.
Print Assumptions C94_params.
(** ** The labels *)
Theorem C94_label : forall l pkg, has_prefix %"@@" l = true \/ has_prefix %"@//" l = true \/ has_prefix %"//" l = true -> same_target pkg (local_label l) l.
Proof.
  intros l pkg [H|[H|H]]; apply has_prefix_spec in H; destruct H as (t & ->); reflexivity.
Qed.
Print Assumptions C94_label.
Lemma functional w params m : directDepParams w params = Some m -> forall j label, In (j, label) m -> jar_label w j label.
Proof.
  unfold directDepParams. destruct (read_file w params) as [data|]; [|now intros [= <-] j l []]. destruct (index direct_deps_flag data) as [n|]; [|now intros [= <-] j l []]. cbv zeta. destruct (Nat.ltb _ _); [discriminate|]. intros [= <-] j label. apply read_jars_fun.
Qed.
Lemma lookup_In' {A} k (m : list (bytes * A)) v : lookup k m = Some v -> In (k, v) m.
Proof. induction m as [|[k' v'] m IH]; cbn [lookup]; [discriminate|]. destruct (beq_spec k k') as [->|]; [intros [= ->]; now left|right; auto]. Qed.
Lemma In_lookup {A} k (m : list (bytes * A)) v : In (k, v) m -> exists v', lookup k m = Some v'.
Proof. induction m as [|[k' v'] m IH]; cbn [lookup]; [intros []|]. destruct (beq_spec k k') as [->|n]; [eauto|]. intros [K|K]; [injection K as -> ->; contradiction|auto]. Qed.
Lemma label_of_spec w params m p l : directDepParams w params = Some m -> l <> [] -> (label_of m p = l <-> In (p, l) m).
Proof.
  intros D NE. pose proof (functional _ _ _ D) as F. unfold label_of. split.
  - destruct (lookup p m) eqn:E; [intros ->; now apply lookup_In'|intros <-; contradiction].
  - intro K. destruct (In_lookup _ _ _ K) as (v & E). assert (E0 := lookup_In' _ _ _ E). match goal with |- match ?x with _ => _ end = _ => replace x with (Some v) by (symmetry; exact E) end. apply (jar_label_fun w p); auto.
Qed.
(** A label is in the set when it is that of a direct dependency, and no jar with it was needed. *)
Definition unneeded (w : world) (m : list (bytes * bytes)) (depsFile l : bytes) : Prop :=
  known w depsFile /\ (exists j, In (j, l) m) /\ forall j, In (j, l) m -> ~ used w depsFile j.
Theorem C94_unused : forall w params m depsFile l, directDepParams w params = Some m -> l <> [] -> (In l (unusedDeps w depsFile m) <-> unneeded w m depsFile l).
Proof.
  intros w params m depsFile l D NE. unfold unusedDeps, unneeded, known, used.
  destruct (read_file w depsFile) as [data|]; [|split; [intros []|intros ((x & d & K & _) & _); discriminate]].
  destruct (decode w data) as [deps|] eqn:Ed; [|split; [intros []|intros ((x & d & K & K2) & _); injection K as <-; rewrite Ed in K2; discriminate]].
  rewrite filter_In, Bool.negb_true_iff, in_map_iff. split.
  - intros (([j l'] & <- & I) & E). cbn [snd] in *. split; [eauto|]. split; [eauto|]. intros p Ip (x & d & K & K2 & U). injection K as <-. rewrite Ed in K2. injection K2 as <-.
    enough (existsb (fun d => fst d && beq (label_of m (snd d)) l') deps = true) by congruence. apply existsb_exists. exists (true, p). split; auto. cbn [fst snd andb]. apply beq_eq. eapply label_of_spec; eauto.
  - intros (_ & (j & I) & N). split; [now exists (j, l)|]. apply Bool.not_true_iff_false. intro E. apply existsb_exists in E. destruct E as ([b p] & U & E). cbn [fst snd] in E. apply andb_prop in E. destruct E as (-> & E). apply beq_eq in E.
    rewrite label_of_spec in E by eauto. apply (N p E). exists data, deps. auto.
Qed.
Print Assumptions C94_unused.

(** ** The commands *)
Lemma element_spec x e : In x (List.concat (AllLists e)) <-> element x e.
Proof.
  split.
  - induction e; cbn [AllLists List.concat In]; try (now intros []).
    + rewrite app_nil_r. apply element_list.
    + destruct (beq_spec op %"+") as [->|]; [|intros []]. rewrite concat_app, in_app_iff. intros [K|K]; [apply element_left|apply element_right]; auto.
  - induction 1; cbn [AllLists List.concat]; [now rewrite app_nil_r| |]; (replace (beq %"+" %"+") with true by reflexivity; rewrite concat_app, in_app_iff; auto).
Qed.
Lemma runtime_spec s : hasRuntimeComment (s_com s) = true <-> for_runtime s.
Proof. apply existsb_exists. Qed.
Lemma collect_total {A} (l : list (option (list A))) : (forall x, In x l -> x <> None) -> exists out, collect l = Some out /\ forall y, In y out <-> exists a, In (Some a) l /\ In y a.
Proof.
  induction l as [|[a|] l IH]; intro H; cbn [collect].
  - exists []. split; auto. split; [intros []|intros (a & [] & _)].
  - destruct IH as (out & -> & S1); [intros x K; apply H; now right|]. exists (a ++ out). split; auto. intro y. rewrite in_app_iff, S1. split.
    + intros [K|(a' & K1 & K2)]; [exists a; split; auto; now left|exists a'; split; auto; now right].
    + intros (a' & [K|K] & K2); [injection K as ->; auto|eauto].
  - exfalso. apply (H None); auto. now left.
Qed.
(** The lines: a dependency that is only for running moves to another attribute, any other is removed
    after what it exports was added. *)
Definition move_command (v t : bytes) : bytes := %"buildozer 'move deps runtime_deps " ++ v ++ %"' " ++ t.
Definition add_command (tool v t : bytes) : bytes := %"buildozer ""add deps $(" ++ tool ++ %" query 'labels(exports, " ++ v ++ %")' | tr '\n' ' ')"" " ++ t.
Definition remove_command (v t : bytes) : bytes := %"buildozer 'remove deps " ++ v ++ %"' " ++ t.
Inductive command (w : world) (t : bytes) (s : strlit) : bytes -> Prop :=
  | command_move : for_runtime s -> command w t s (move_command (s_value s) t)
  | command_add : ~ for_runtime s -> command w t s (add_command (build_tool w) (s_value s) t)
  | command_remove : ~ for_runtime s -> command w t s (remove_command (s_value s) t).
(** The file of the compilation with this extension: that of a library, if there is one *)
Definition input_file (w : world) (i : interpreted) (ext p : bytes) : Prop :=
  let lib := bin_dir w ++ %"/" ++ pkg i ++ %"/lib" ++ rule i ++ %"." ++ ext in
  ((exists r x, stat (files w) lib = Entry r x) /\ p = lib) \/ ((forall r x, stat (files w) lib <> Entry r x) /\ p = bin_dir w ++ %"/" ++ pkg i ++ %"/" ++ rule i ++ %"." ++ ext).
(** The lists: the attribute of the rule *)
Theorem C94_deps : forall w name r e, getDepsExpr w name r = Some e <->
  exists data c m l call x args, read_file w name = Some data /\ parse_file (FMeta name [] [] (getFileType name)) data = Some (EFile c m l) /\ FindRuleByName name l r = Some call /\ calls call x args /\ attr_is %"deps" args e.
Proof.
  intros. unfold getDepsExpr. split.
  - destruct (read_file w name) as [data|]; [|discriminate]. destruct (parse_file _ data) as [f|] eqn:P; [|discriminate]. destruct f as [c m l| | | | | | | | | | | | | | | | | | | | | | | | | | | | |]; try discriminate. destruct (FindRuleByName name l r) as [call|] eqn:F; [|discriminate]. destruct (stmt_call call) as [[x args]|] eqn:C; [|discriminate].
    intro A. exists data, c, m, l, call, x, args. apply C33_get in A. apply stmt_call_spec in C. auto.
  - intros (data & c & m & l & call & x & args & -> & P & F & C & A). rewrite P, F. apply stmt_call_spec in C. rewrite C. apply C33_get. auto.
Qed.
Print Assumptions C94_deps.
(** Commands are printed exactly for the strings in the lists that name an unneeded dependency. *)
Theorem C94_exact : forall w range t params depsFile m e,
  let i := InterpretLabelForWorkspaceLocation (files w) [] t in
  repo i = [] -> (forall d x l, In l (range d x) <-> In l d) ->
  input_file w i %"javac_params" params -> input_file w i %"jdeps" depsFile ->
  directDepParams w params = Some m -> (forall j l, In (j, l) m -> l <> []) ->
  getDepsExpr w (buildFile i) (rule i) = Some e ->
  exists out, target_lines w range t = Some out /\
    forall line, In line out <-> exists s l, element (EStr s) e /\ unneeded w m depsFile l /\ same_target (pkg i) (s_value s) l /\ command w t s line.
Proof.
  intros w range t params depsFile m e i Ri Rg P1 P2 D NE G.
  assert (In1 : forall ext p, input_file w i ext p -> inputFileName w (bin_dir w) (pkg i) (rule i) ext = p).
  { intros ext p H. unfold inputFileName. change [c_slash] with %"/". change [c_dot] with %".". destruct H as [((r & x & E) & ->)|(E & ->)].
    - rewrite E. reflexivity.
    - match goal with |- context [stat ?a ?b] => destruct (stat a b) as [| |r x] eqn:K end; auto. now destruct (E r x). }
  unfold target_lines, unused_for, printCommands. fold i. rewrite Ri. cbn [is_empty]. rewrite (In1 _ _ P1), (In1 _ _ P2), D, G.
  destruct (collect_total (flat_map (fun elem => map (element_lines w t [] (pkg i) elem) (range (unusedDeps w depsFile m) elem)) (List.concat (AllLists e)))) as (out & E & S1).
  { intros x K. apply in_flat_map in K. destruct K as (el & _ & K). apply in_map_iff in K. destruct K as (dep & <- & _). destruct el; try discriminate. cbn [element_lines is_empty negb andb]. destruct (labels_equal _ _ _); cbn [negb]; [|discriminate]. destruct (hasRuntimeComment _); discriminate. }
  exists out. split; [exact E|]. intro line. rewrite S1. split.
  - intros (a & K & L). apply in_flat_map in K. destruct K as (el & I & K). apply in_map_iff in K. destruct K as (dep & K & Id). apply Rg in Id. destruct el; try (injection K as <-; contradiction). cbn [element_lines is_empty negb andb] in K.
    destruct (labels_equal _ _ _) eqn:Q; cbn [negb] in K; [|injection K as <-; contradiction]. exists s, dep. split; [now apply element_spec|]. split.
    { apply (C94_unused w params); auto. unfold unusedDeps in Id. destruct (read_file w depsFile); [|destruct Id]. destruct (decode w b); [|destruct Id]. apply filter_In in Id. destruct Id as (Id & _). apply in_map_iff in Id. destruct Id as ([jj ll] & <- & Id). eapply NE; eauto. }
    split; [apply label_eqb_eq; exact Q|]. destruct (hasRuntimeComment (s_com s)) eqn:Rt; injection K as <-.
    + destruct L as [<-|[]]. apply command_move. now apply runtime_spec.
    + assert (~ for_runtime s) by (intro X; apply runtime_spec in X; congruence). destruct L as [<-|[<-|[]]]; constructor; auto.
  - intros (s & l & El & U & Sm & C). assert (NEl : l <> []) by (destruct U as (_ & (j & Ij) & _); eapply NE; eauto). apply element_spec in El. assert (Q : labels_equal (s_value s) l (pkg i) = true) by (apply label_eqb_eq; exact Sm).
    assert (X : forall a, element_lines w t [] (pkg i) (EStr s) l = Some a -> In (Some a) (flat_map (fun elem => map (element_lines w t [] (pkg i) elem) (range (unusedDeps w depsFile m) elem)) (List.concat (AllLists e)))).
    { intros a K. apply in_flat_map. exists (EStr s). split; auto. rewrite <- K. apply in_map. apply Rg. apply (C94_unused w params); auto. }
    cbn [element_lines is_empty negb andb] in X. rewrite Q in X. cbn [negb] in X. destruct (hasRuntimeComment (s_com s)) eqn:Rt.
    + eexists. split; [apply X; reflexivity|]. apply runtime_spec in Rt. inversion C; try contradiction. left. reflexivity.
    + eexists. split; [apply X; reflexivity|]. assert (~ for_runtime s) by (intro K; apply runtime_spec in K; congruence). inversion C; try contradiction; [left|right; left]; reflexivity.
Qed.
Print Assumptions C94_exact.
(** What is removed was not needed, when one target always has one label in the jars. *)
Theorem C94_safe : forall w range t params depsFile m e out v,
  let i := InterpretLabelForWorkspaceLocation (files w) [] t in
  repo i = [] -> (forall d x l, In l (range d x) <-> In l d) ->
  input_file w i %"javac_params" params -> input_file w i %"jdeps" depsFile ->
  directDepParams w params = Some m -> (forall j l, In (j, l) m -> l <> []) ->
  (forall j l j' l', In (j, l) m -> In (j', l') m -> same_target (pkg i) l l' -> l = l') ->
  getDepsExpr w (buildFile i) (rule i) = Some e -> target_lines w range t = Some out ->
  In (remove_command v t) out -> forall j l, In (j, l) m -> same_target (pkg i) v l -> ~ used w depsFile j.
Proof.
  intros w range t params depsFile m e out v i Ri Rg P1 P2 D NE Can G T L j l I Sm.
  destruct (C94_exact w range t params depsFile m e Ri Rg P1 P2 D NE G) as (out' & T' & X). rewrite T in T'. injection T' as <-. apply X in L. destruct L as (s & l0 & _ & (_ & (j0 & I0) & N) & Sm0 & C).
  assert (V : s_value s = v).
  { remember (remove_command v t) as line eqn:K. destruct C; [discriminate K|discriminate K|]. unfold remove_command in K. apply app_inv_head in K. apply app_inv_tail in K. exact K. }
  rewrite V in Sm0. assert (l0 = l) by (apply (Can j0 l0 j l I0 I); transitivity (parse_relative v (pkg i)); [symmetry; exact Sm0|exact Sm]). subst l0. auto.
Qed.
Print Assumptions C94_safe.
(** What is printed for all targets of the query *)
Theorem C94_all : forall w cquery range query out, unused_deps w cquery range query = Some out ->
  forall line, In line out <-> exists t o, In t (Fields query) /\ (cquery = true -> has_prefix %"(" t = false) /\ target_lines w (range t) t = Some o /\ In line o.
Proof.
  intros w cquery range query out E line. unfold unused_deps in E. set (ts := filter _ _) in E.
  assert (T : forall t, In t ts <-> In t (Fields query) /\ (cquery = true -> has_prefix %"(" t = false)).
  { intro t. subst ts. rewrite filter_In, Bool.negb_true_iff. destruct cquery; cbn [andb]; intuition discriminate. }
  enough (H : In line out <-> exists t o, In t ts /\ target_lines w (range t) t = Some o /\ In line o).
  { rewrite H. split; intros (t & o & H1 & H2); exists t, o; [apply T in H1; tauto|split; [apply T; tauto|tauto]]. }
  clearbody ts. clear T. revert out E. induction ts as [|t ts IH]; cbn [map collect]; intros out E.
  - injection E as <-. split; [intros []|intros (t & o & [] & _)].
  - destruct (target_lines w (range t) t) as [a|] eqn:Et; [|discriminate]. destruct (collect _) as [b|]; [|discriminate]. injection E as <-. rewrite in_app_iff, (IH b eq_refl). split.
    + intros [K|(t' & o & K1 & K2)]; [exists t, a; split; [now left|auto]|exists t', o; split; [now right|auto]].
    + intros (t' & o & [<-|K1] & K2 & K3); [left; rewrite Et in K2; injection K2 as ->; auto|right; eauto].
Qed.
Print Assumptions C94_all.

(** ** A workspace *)
Definition make_world (texts : list (bytes * bytes)) (labels : list (bytes * bytes)) (deps : list (bool * bytes)) : world :=
  World (System %"/w" (fun p => if mem_bytes p (map fst texts) then Entry true false else Missing) (fun p => lookup p texts))
    (fun p => option_map (fun l => [(%"META-INF/", None); (%"META-INF/MANIFEST.MF", Some (%"Target-Label: " ++ l ++ [c_nl]))]) (lookup p labels))
    (fun d => if beq d %"deps" then Some deps else None) %"bazel" %"/bin" %"/o" %"/base".
Definition ex_params : bytes := arguments [%"--output"; %"a.jar"; %"--direct_dependencies"; %"bazel-out/x.jar"; %"bazel-out/y.jar"; %"bazel-out/z.jar"; %"bazel-out/none.jar"; %"--classpath"; %"bazel-out/w.jar"].
Definition ex_build : bytes := arguments [%"java_library("; %"    name = ""lib"","; %"    deps = ["; %"        "":x"","; %"        ""//b:y"","; %"        ""//c"",  # Runtime only"; %"    ],"; %")"].
Definition ex_world : world := make_world
  [(%"/w/WORKSPACE", []); (%"/w/a/BUILD", ex_build); (%"/bin/a/liblib.javac_params", ex_params); (%"/bin/a/liblib.jdeps", %"deps")]
  [(%"/o/x.jar", %"//a:x"); (%"/o/y.jar", %"@//b:y"); (%"/o/z.jar", %"//c:c"); (%"/o/w.jar", %"//a:w")]
  [(true, %"bazel-out/x.jar"); (false, %"bazel-out/y.jar")].
Lemma is_there {A} (o : option A) : (if o then true else false) = true -> exists e, o = Some e.
Proof. destruct o; [eauto|discriminate]. Qed.
Example C94_example :
  let i := InterpretLabelForWorkspaceLocation (files ex_world) [] %"//a:lib" in
  i = Interpreted %"/w/a/BUILD" [] %"a" %"lib" /\
  input_file ex_world i %"javac_params" %"/bin/a/liblib.javac_params" /\ input_file ex_world i %"jdeps" %"/bin/a/liblib.jdeps" /\
  directDepParams ex_world %"/bin/a/liblib.javac_params" = Some [(%"bazel-out/x.jar", %"//a:x"); (%"bazel-out/y.jar", %"//b:y"); (%"bazel-out/z.jar", %"//c:c")] /\
  (exists e, getDepsExpr ex_world %"/w/a/BUILD" %"lib" = Some e) /\
  target_lines ex_world (fun d _ => d) %"//a:lib" = Some [
    %"buildozer ""add deps $(bazel query 'labels(exports, //b:y)' | tr '\n' ' ')"" //a:lib";
    %"buildozer 'remove deps //b:y' //a:lib";
    %"buildozer 'move deps runtime_deps //c' //a:lib"].
Proof.
  cbv zeta. split; [vm_compute; reflexivity|]. split; [left; split; [exists true, false; vm_compute; reflexivity|vm_compute; reflexivity]|]. split; [left; split; [exists true, false; vm_compute; reflexivity|vm_compute; reflexivity]|].
  split; [vm_compute; reflexivity|]. split; [|vm_compute; reflexivity].
  apply is_there. vm_compute. reflexivity.
Qed.
(** Two spellings of a label in the jars of one target: the needed one does not save the other. *)
Theorem C94_safe_refuted : exists w params m, let i := InterpretLabelForWorkspaceLocation (files w) [] %"//a:lib" in
  directDepParams w params = Some m /\ input_file w i %"javac_params" params /\ (exists l, In (%"bazel-out/y.jar", l) m /\ same_target (pkg i) %"//c" l /\ used w %"/bin/a/liblib.jdeps" %"bazel-out/y.jar") /\
  input_file w i %"jdeps" %"/bin/a/liblib.jdeps" /\ exists out, target_lines w (fun d _ => d) %"//a:lib" = Some out /\ In (%"buildozer 'move deps runtime_deps //c' //a:lib") out.
Proof.
  exists (make_world [(%"/w/WORKSPACE", []); (%"/w/a/BUILD", ex_build); (%"/bin/a/liblib.javac_params", ex_params); (%"/bin/a/liblib.jdeps", %"deps")]
    [(%"/o/x.jar", %"//c:c"); (%"/o/y.jar", %"//c")] [(true, %"bazel-out/y.jar")]), %"/bin/a/liblib.javac_params", [(%"bazel-out/x.jar", %"//c:c"); (%"bazel-out/y.jar", %"//c")].
  cbv zeta. split; [vm_compute; reflexivity|]. split; [left; split; [exists true, false; vm_compute; reflexivity|vm_compute; reflexivity]|]. split.
  { exists %"//c". split; [right; left; reflexivity|]. split; [vm_compute; reflexivity|]. exists %"deps", [(true, %"bazel-out/y.jar")]. split; [vm_compute; reflexivity|]. split; [vm_compute; reflexivity|]. now left. }
  split; [left; split; [exists true, false; vm_compute; reflexivity|vm_compute; reflexivity]|].
  exists [%"buildozer 'move deps runtime_deps //c' //a:lib"]. split; [vm_compute; reflexivity|now left].
Qed.
(** The flag at the end of the file, without an end of line: the tool crashes. *)
Theorem C94_params_refuted : exists w params, read_file w params = Some %"--direct_dependencies" /\ directDepParams w params = None.
Proof. exists (make_world [(%"/p", %"--direct_dependencies")] [] []), %"/p". split; reflexivity. Qed.
Lemma second_element o v : match o with Some e => match nth_error (List.concat (AllLists e)) 1 with Some (EStr s) => beq (s_value s) v | _ => false end | None => false end = true ->
  exists s e, o = Some e /\ element (EStr s) e /\ s_value s = v.
Proof.
  destruct o as [e|]; [|discriminate]. destruct (nth_error (List.concat (AllLists e)) 1) as [x|] eqn:Nx; [|discriminate]. destruct x; try discriminate. intro K. exists s, e. split; auto. split; [apply element_spec; eapply nth_error_In; eauto|now apply beq_eq].
Qed.
(** A target of another repository: its build file is not looked for where the repository is, and no command is printed. *)
Theorem C94_external_refuted : exists w l,
  unused_for w %"@r//a:lib" = Some [l] /\ same_target %"a" %"@r//b:y" l /\ read_file w %"/base/external/r/a/BUILD" = Some ex_build /\
  (exists s e, getDepsExpr w %"/base/external/r/a/BUILD" %"lib" = Some e /\ element (EStr s) e /\ s_value s = %"//b:y") /\
  target_lines w (fun d _ => d) %"@r//a:lib" = Some [].
Proof.
  exists (make_world [(%"/w/WORKSPACE", []); (%"/base/external/r/a/BUILD", ex_build); (%"/bin/external/r/a/liblib.javac_params", ex_params); (%"/bin/external/r/a/liblib.jdeps", %"deps")] [(%"/o/x.jar", %"@@r//b:y")] []), %"@r//b:y".
  split; [vm_compute; reflexivity|]. split; [reflexivity|]. split; [reflexivity|]. split; [|vm_compute; reflexivity].
  apply second_element. vm_compute. reflexivity.
Qed.
(** ... and in one, a relative label is taken for that of a target in the main repository. *)
Theorem C94_external_label_refuted : exists w s, s_value s = %":x" /\ element_lines w %"@r//a:lib" %"r" %"a" (EStr s) %"//a:x" = Some [add_command (build_tool w) %":x" %"@r//a:lib"; remove_command %":x" %"@r//a:lib"] /\
  element_lines w %"@r//a:lib" %"r" %"a" (EStr s) %"@r//a:x" = Some [].
Proof. exists ex_world, (Str no_com no_pos %":x" false no_pos []). vm_compute. repeat (apply conj); reflexivity. Qed.
Print Assumptions C94_external_refuted.
