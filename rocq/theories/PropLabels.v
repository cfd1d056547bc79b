(** Properties C06 - C08: labels. *)
From Verif Require Import Base BaseProofs Labels LabelsProofs.

(** C06: parsing the formatted form of a well-formed label gives the label back... *)
Theorem C06_parse_format :
  forall l : label,
    ~ In c_slash (repository l) -> has_prefix [c_at] (repository l) = false ->
    ~ In c_colon (package l) -> target l <> [] ->
    parse (format l) = l.
Proof. intros l H1 H2 H3 H4. apply parse_format. repeat split; auto. Qed.
Print Assumptions C06_parse_format.
(** ... and every string is parsed to a label whose formatted form denotes the same label. *)
Theorem C06_format_of_parsed :
  forall s : bytes, parse (format (parse s)) = parse s.
Proof. exact parse_format_parse. Qed.
Print Assumptions C06_format_of_parsed.
Example C06_nontrivial :
  let l := Label %"r" %"a/b" %"b" in
  ~ In c_slash (repository l) /\ ~ In c_colon (package l) /\ format l = %"@r//a/b" /\ parse (format l) = l.
Proof. vm_compute. intuition discriminate. Qed.

(** C07: shortening does not change the label (relative to the package) for labels whose
    target is non-empty and does not start with a colon, and is idempotent for all inputs. *)
Theorem C07_shorten_same_label :
  forall input pkg : bytes,
    target (parse input) <> [] -> has_prefix [c_colon] (target (parse input)) = false ->
    parse_relative (shorten input pkg) pkg = parse_relative input pkg.
Proof. intros. apply shorten_same; auto. Qed.
Print Assumptions C07_shorten_same_label.
Theorem C07_shorten_idempotent :
  forall input pkg : bytes, shorten (shorten input pkg) pkg = shorten input pkg.
Proof. exact shorten_idem. Qed.
Print Assumptions C07_shorten_idempotent.
(** Relative inputs are never changed, and a label of the same package becomes [":" target]. *)
Theorem C07_shorten_forms :
  forall input pkg : bytes,
    (has_prefix %"//" input = false -> has_prefix [c_at] input = false -> shorten input pkg = input) /\
    (has_prefix %"//" input = true -> repository (parse input) = [] -> package (parse input) = pkg ->
     shorten input pkg = c_colon :: target (parse input)).
Proof.
  intros input pkg. split.
  - intros H1 H2. unfold shorten. rewrite H1, H2. reflexivity.
  - intros H1 H2 H3. unfold shorten. rewrite H1. cbn [negb andb]. unfold format_relative.
    rewrite H2, H3, beq_refl. reflexivity.
Qed.
Print Assumptions C07_shorten_forms.
Example C07_nontrivial :
  shorten %"//a/b:c" %"a/b" = %":c" /\ shorten %"//a/b:b" %"x" = %"//a/b" /\
  target (parse %"//a/b:c") <> [] /\ has_prefix [c_colon] (target (parse %"//a/b:c")) = false.
Proof. vm_compute. intuition discriminate. Qed.
(** Without the side conditions the claim is false. *)
Theorem C07_shorten_all_inputs_refuted :
  exists input pkg, parse_relative (shorten input pkg) pkg <> parse_relative input pkg.
Proof. exists %"//a::b", %"a". vm_compute. discriminate. Qed.
Print Assumptions C07_shorten_all_inputs_refuted.

(** C08: label equality. *)
Theorem C08_equal_equivalence :
  forall pkg : bytes,
    (forall a, labels_equal a a pkg = true) /\
    (forall a b, labels_equal a b pkg = true -> labels_equal b a pkg = true) /\
    (forall a b c, labels_equal a b pkg = true -> labels_equal b c pkg = true -> labels_equal a c pkg = true).
Proof.
  intros pkg. repeat split; intros *; rewrite !labels_equal_eq; congruence.
Qed.
Print Assumptions C08_equal_equivalence.
(** All spellings of one target are equal, and spellings of different targets are not. *)
Theorem C08_equal_spellings :
  forall (t t' pkg p : bytes),
    plain_target t -> plain_target t' -> ~ In c_colon pkg -> ~ In c_colon p ->
    labels_equal t (c_colon :: t) pkg = true /\
    labels_equal t (%"//" ++ pkg ++ c_colon :: t) pkg = true /\
    (labels_equal t t' pkg = true <-> t = t') /\
    (labels_equal (c_colon :: t) (%"//" ++ p ++ c_colon :: t') pkg = true <-> t = t' /\ pkg = p) /\
    (labels_equal (%"//" ++ p) (%"//" ++ p ++ c_colon :: t) pkg = true <-> t = path_base p).
Proof.
  intros t t' pkg p Ht Ht' Hpkg Hp.
  rewrite !labels_equal_eq.
  rewrite (parse_relative_plain t), (parse_relative_plain t'), (parse_relative_colon t) by auto.
  rewrite !parse_relative_slashes by (auto; first [apply Ht|apply Ht']).
  rewrite parse_relative_pkg by auto.
  split; [reflexivity|]. split; [reflexivity|].
  split; [split; [intros H; injection H; auto|intros ->; reflexivity]|].
  split; [split; [intros H; injection H; auto|intros [-> ->]; reflexivity]|].
  split; [intros H; injection H; auto|intros ->; reflexivity].
Qed.
Print Assumptions C08_equal_spellings.
Theorem C08_equal_distinguishes :
  forall (l1 l2 : label) (pkg : bytes), wf_label l1 -> wf_label l2 -> target l1 <> [] -> target l2 <> [] ->
    (labels_equal (format l1) (format l2) pkg = true <-> l1 = l2).
Proof. intros; apply equal_formats; auto. Qed.
Print Assumptions C08_equal_distinguishes.
Example C08_nontrivial : plain_target %"lib.h" /\ labels_equal %"lib.h" %"//a/b:lib.h" %"a/b" = true.
Proof. split; [split; [discriminate|split; reflexivity]|reflexivity]. Qed.
