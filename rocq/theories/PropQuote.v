(** Properties C01 - C05: string literals. *)
From Verif Require Import Base Utf8 Quote QuoteSpec QuoteProofs QuotePrint QuoteGrammar.

(** C01: quoting then unquoting gives back the value, the triple flag and no error. *)
Theorem C01_quote_roundtrip :
  forall (value : bytes) (triple : bool), unquote (quote value triple) = (value, triple, None).
Proof. exact unquote_quote. Qed.
Print Assumptions C01_quote_roundtrip.
Example C01_nontrivial :
  quote (%"a""b'" ++ [c_nl; "200"%char; "\"%char]) false =
  %"""a\""b'\n\310\\""" /\
  unquote (quote (%"a""b'" ++ [c_nl; "200"%char; "\"%char]) true) = (%"a""b'" ++ [c_nl; "200"%char; "\"%char], true, None).
Proof. split; vm_compute; reflexivity. Qed.

(** A quoted string is plain ASCII text on one line (on several lines if triple-quoted): no control
    character and no byte above 127 is written raw. *)
Definition ascii_text (triple : bool) (c : ascii) : Prop :=
  (32 <= bN c /\ bN c < 128)%N \/ (triple = true /\ c = c_nl).
Definition ascii_textb (t : bool) (c : ascii) : bool := ((32 <=? bN c)%N && (bN c <? 128)%N) || (t && Ascii.eqb c c_nl).
Lemma ascii_textb_spec t c : ascii_textb t c = true -> ascii_text t c.
Proof.
  unfold ascii_textb, ascii_text. intros H. apply orb_true_iff in H as [H|H]; apply andb_true_iff in H as [H1 H2].
  - left. apply N.leb_le in H1. apply N.ltb_lt in H2. auto.
  - right. apply Ascii.eqb_eq in H2. auto.
Qed.
Lemma quote_byte_ascii t c : Forall (ascii_text t) (quote_byte t c).
Proof.
  assert (H : forallb (ascii_textb t) (quote_byte t c) = true) by (destruct t; all_bytes c; vm_compute; reflexivity).
  apply Forall_forall. intros x Hx. apply ascii_textb_spec. rewrite forallb_forall in H. auto.
Qed.
Theorem C01_quote_ascii :
  forall value triple, Forall (ascii_text triple) (quote value triple).
Proof.
  intros value t. assert (Q : ascii_text t c_quote) by (apply ascii_textb_spec; destruct t; reflexivity).
  unfold quote. assert (QQ : Forall (ascii_text t) (quotes t)) by (apply Forall_forall; intros x Hx; destruct t; repeat destruct Hx as [<-|Hx]; auto; destruct Hx).
  apply Forall_app; split; auto. apply Forall_app; split; auto.
  induction value as [u IH] using (well_founded_induction (Wf_nat.well_founded_ltof _ (@List.length ascii))).
  unfold Wf_nat.ltof in IH. destruct u as [|c u]; [constructor|].
  destruct (quote_loop_cases t c u) as [->|[(E & -> & -> & _)|(E & -> & d & u' & -> & Hd & ->)]].
  - apply Forall_app; split; [apply quote_byte_ascii|apply IH; simpl; lia].
  - apply Forall_cons; [exact Q|]. apply IH; simpl; lia.
  - apply Forall_cons; [exact Q|]. apply Forall_cons; [exact Q|]. apply IH; simpl; lia.
Qed.
Print Assumptions C01_quote_ascii.

(** C02: in any context, the lexer reads a freshly quoted string as one token with its value.
    The only ambiguous case is [""] followed by another double quote. *)
Theorem C02_quote_self_delimiting :
  forall (value : bytes) (triple : bool) (rest : bytes),
    (triple = true \/ value <> [] \/ head_is c_quote rest = false) ->
    lex_string (quote value triple ++ rest) = Some (quote value triple, value, triple, rest).
Proof. exact lex_quote. Qed.
Print Assumptions C02_quote_self_delimiting.
Example C02_nontrivial :
  lex_string (quote %"a""" true ++ %"""x") = Some (quote %"a""" true, %"a""", true, %"""x").
Proof. vm_compute; reflexivity. Qed.
(** The side condition is needed. *)
Example C02_side_condition : lex_string (quote [] false ++ %"""a""") = None.
Proof. vm_compute; reflexivity. Qed.

(** C03: what the printer writes for a string node whose token came from the lexer is read back,
    in any context not starting with a quote, as one token with the same value and flag;
    a token that is not a quoting of the value is ignored and the value is freshly quoted.
    (The [Panic] outcome is C05.) *)
Theorem C03_print_string_preserves_value :
  forall (value : bytes) (triple : bool) (token printed : bytes),
    (lexed token value triple \/ unquote token <> (value, triple, None)) ->
    print_string value triple token = Ok printed ->
    forall rest, head_is c_quote rest = false -> head_is c_sq rest = false ->
      lex_string (printed ++ rest) = Some (printed, value, triple, rest).
Proof.
  intros value triple token printed [H|H] E rest H1 H2.
  - destruct (print_lexed value triple token H) as [(E' & _)|(p & E' & Hp)]; [congruence|].
    assert (p = printed) by congruence. subst; auto.
  - rewrite print_other in E by auto. injection E as <-. apply lex_quote; auto.
Qed.
Print Assumptions C03_print_string_preserves_value.
Example C03_nontrivial :
  lexed %"r'a\d'" %"a\d" false /\ print_string %"a\d" false %"r'a\d'" = Ok %"r""a\d""".
Proof. split; [exists []|]; vm_compute; reflexivity. Qed.

(** C04: the decoder accepts exactly the literals of the escape grammar and returns what they
    denote.  [signed_num] differs from the documented grammar by allowing a sign. *)
Theorem C04_unquote_grammar :
  forall (q : ascii) (body s : bytes) (t : bool),
    (q = c_quote \/ q = c_sq) ->
    ((match body with [] => True | h :: _ => h <> q end) ->
       (unquote (q :: body ++ [q]) = (s, t, None) <-> t = false /\ denotes signed_num body s)) /\
    (unquote (q :: q :: q :: body ++ [q; q; q]) = (s, t, None) <-> t = true /\ denotes signed_num body s).
Proof.
  intros q body s t Hq. assert (is_q q = true) by (destruct Hq; subst; reflexivity).
  split; [intros; apply unquote_single_iff; auto|apply unquote_triple_iff; auto].
Qed.
Print Assumptions C04_unquote_grammar.
(** Every documented literal is decoded as documented. *)
Theorem C04_documented_escapes_decoded :
  forall (body s : bytes), denotes strict_num body s ->
    unquote (c_quote :: c_quote :: c_quote :: body ++ [c_quote; c_quote; c_quote]) = (s, true, None).
Proof.
  intros body s H. apply unquote_triple_iff; auto. split; auto. eapply denotes_mono; [|exact H]. exact strict_signed.
Qed.
Print Assumptions C04_documented_escapes_decoded.
(** The converse fails: ["\x+1"] is accepted although it is not a documented escape. *)
Theorem C04_only_documented_refuted :
  exists body s, unquote (c_quote :: body ++ [c_quote]) = (s, false, None) /\ forall s', ~ denotes strict_num body s'.
Proof.
  exists (c_bs :: %"x+1"), ["001"%char]. split; [vm_compute; reflexivity|exact sign_not_documented].
Qed.
Print Assumptions C04_only_documented_refuted.
Example C04_nontrivial : denotes strict_num (%"\u2603a\101\q") ((encode_rune 9731) ++ %"aA\q").
Proof.
  apply (D_u strict_num %"2603" 9731 %"a\101\q" %"aA\q"); [reflexivity| |unfold surrogate; lia|].
  - apply hexdigits_spec. reflexivity.
  - apply (D_plain strict_num "a"); [discriminate|].
    apply (D_octal strict_num %"101" 65 %"\q" %"\q"); [simpl; lia| |reflexivity|left; reflexivity|].
    + apply (octal_snoc %"10"). exists 8%N. repeat split. apply (octal_snoc %"1"). exists 1%N. repeat split.
      apply octal_one. auto.
    + apply (D_other strict_num "q"); [|constructor]. rewrite known_bool. discriminate.
Qed.

(** C05: printing a lexed literal must not fault.  It does: the escape check indexes a
    256-entry table with a rune. *)
Theorem C05_format_literal_no_panic_refuted :
  exists token value triple, lexed token value triple /\ print_string value triple token = Panic.
Proof.
  exists ([c_quote; c_bs] ++ encode_rune 9731 ++ [c_quote]), ([c_bs] ++ encode_rune 9731), false.
  split; [exists []|]; vm_compute; reflexivity.
Qed.
Print Assumptions C05_format_literal_no_panic_refuted.
(** Partial: no fault when no non-ASCII byte directly follows a backslash. *)
Theorem C05_format_literal_no_panic_partial :
  forall token value triple, lexed token value triple ->
    (forall a c b, token = a ++ c_bs :: c :: b -> high c = false) ->
    print_string value triple token <> Panic.
Proof. exact print_no_panic. Qed.
Print Assumptions C05_format_literal_no_panic_partial.
Example C05_nontrivial : lexed %"""a\nb""" (%"a" ++ [c_nl] ++ %"b") false /\ no_bs_high %"""a\nb""".
Proof.
  split; [exists []; vm_compute; reflexivity|].
  intros a c b H. apply (f_equal (fun l => forallb (fun x => negb (high x)) l)) in H.
  rewrite forallb_app in H. cbn in H. symmetry in H. rewrite !andb_true_iff in H.
  destruct H as (_ & H & _). apply negb_true_iff in H. exact H.
Qed.
