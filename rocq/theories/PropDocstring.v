(** C97: the lints about docstrings. *)
From Verif Require Import Base BaseProofs Ast Walk WalkProofs Quote Docstring.
From Coq Require Import Permutation.
Local Open Scope list_scope.

(** ** What is asked for *)
(** The first statement that is not a comment *)
Definition skipped (s : option expr) : Prop := s = None \/ exists c p, s = Some (ECommentBlock c p).
Definition first_statement (stmts : list (option expr)) (e : expr) : Prop :=
  exists pre post, stmts = pre ++ Some e :: post /\ Forall skipped pre /\ ~ skipped (Some e).
Definition has_doc (body : list expr) (s : strlit) : Prop := first_statement (map Some body) (EStr s).
(** The statements in a statement, without those of functions; how many there are in a list of statements *)
Definition inner (e : expr) : list expr := match e with EIf _ _ _ t _ f => t ++ f | EFor _ _ _ _ b => b | _ => [] end.
Inductive size : list expr -> nat -> Prop :=
  | sz_nil : size [] 0
  | sz_cons e l a b : size (inner e) a -> size l b -> size (e :: l) (S (a + b)).
(** A public function at the margin with at least five statements needs a docstring. *)
Definition needs_doc (start : pos) (name : bytes) (body : list expr) : Prop :=
  (p_rune start <= 1)%Z /\ (forall n, name <> %"_" ++ n) /\ exists k, size body k /\ 5 <= k.
(** The lines of a docstring *)
Definition a_line (raw l : bytes) : Prop :=
  exists a b, raw = l ++ repeat c_sp a ++ repeat c_cr b /\ (forall x, l <> x ++ [c_sp]) /\ (forall x, l ++ repeat c_sp a <> x ++ [c_cr]).
Definition lines_of (v : bytes) (ls : list bytes) : Prop :=
  exists raws, raws <> [] /\ v = join [c_nl] raws /\ Forall (fun r => ~ In c_nl r) raws /\ Forall2 a_line raws ls.
(** A one-line summary: the first line that is not empty is the last one or is followed by an empty one. *)
Definition summary (ls : list bytes) : Prop :=
  exists pre l post, ls = pre ++ l :: post /\ Forall (eq []) pre /\ l <> [] /\ (post = [] \/ exists rest, post = [] :: rest).
(** name: or name (type): *)
Definition word_char (c : ascii) : Prop := (48 <= bN c <= 57 \/ 65 <= bN c <= 90 \/ bN c = 95 \/ 97 <= bN c <= 122)%N.
Definition type_char (c : ascii) : Prop := word_char c \/ In c [" "; ","; "<"; ">"; "["; "]"]%char.
Definition describes (line name : bytes) : Prop :=
  exists k stars word ty rest, line = repeat c_sp k ++ name ++ ty ++ %":" ++ rest /\ name = stars ++ word /\ In stars [[]; %"*"; %"**"] /\ Forall word_char word /\
    (ty = [] \/ exists k' t, ty = repeat c_sp k' ++ %"(" ++ t ++ %")" /\ t <> [] /\ Forall type_char t).
(** How far a line is indented *)
Definition indented (line : bytes) (n : nat) : Prop := exists s, line = repeat c_sp n ++ s /\ forall s', s <> c_sp :: s'.
Section Lines.
  Context (indent : nat) (ls : list bytes).
  Definition line_is (i : nat) (l : bytes) : Prop := nth_error ls i = Some l.
  Definition titled (i : nat) (t : bytes) : Prop := line_is i (repeat c_sp indent ++ t).
  Definition opens (i : nat) : Prop := titled i %"Args:" \/ titled i %"Arguments:".
  Definition closes (i : nat) : Prop :=
    titled i %"Returns:" \/ titled i %"Deprecated:" \/ (~ opens i /\ exists l n, line_is i l /\ l <> [] /\ indented l n /\ n <= indent).
  (** A line in a section about arguments *)
  Definition in_section (i : nat) : Prop := (exists j, j < i /\ opens j /\ forall k, j < k -> k < i -> ~ closes k) /\ ~ opens i /\ ~ closes i.
  (** The lines at which the description of an argument begins: those of the form name: in a section about arguments,
      but not if they are more indented than an earlier one. *)
  Definition described (D : list (nat * bytes)) : Prop :=
    forall i n, In (i, n) D <-> exists l k, line_is i l /\ in_section i /\ describes l n /\ indented l k /\ (Z.of_nat k <= 1000000)%Z /\
      forall j m l' k', In (j, m) D -> j < i -> line_is j l' -> indented l' k' -> k <= k'.
End Lines.
(** The last line at which an argument is described *)
Definition last_at (D : list (nat * bytes)) (n : bytes) (i : nat) : Prop := In (i, n) D /\ forall j, In (j, n) D -> j <= i.

(** ** The first statement *)
Lemma docstring_spec stmts : match getDocstring stmts with
  | (Some e, b) => first_statement stmts e /\ (b = true <-> exists s, e = EStr s)
  | (None, b) => b = false /\ forall e, ~ first_statement stmts e end.
Proof.
  induction stmts as [|s l IH]; [split; auto; intros e (pre & post & E & _); destruct pre; discriminate E|].
  assert (Skip : skipped s -> match getDocstring l with
    | (Some e, b) => first_statement (s :: l) e /\ (b = true <-> exists s, e = EStr s)
    | (None, b) => b = false /\ forall e, ~ first_statement (s :: l) e end).
  { intro Hs. destruct (getDocstring l) as [[e|] b].
    - destruct IH as ((pre & post & -> & F & N) & B). split; auto. exists (s :: pre), post. auto.
    - destruct IH as (-> & N). split; auto. intros e (pre & post & E & F & Ns). destruct pre as [|x pre]; injection E as -> ->; [contradiction|]. inversion F; subst. apply (N e). exists pre, post. auto. }
  destruct s as [e|]; [|apply Skip; now left].
  assert (Here : (forall c p, e <> ECommentBlock c p) -> first_statement (Some e :: l) e).
  { intro N. exists [], l. split; auto. split; auto. intros [K|(c & p & K)]; [discriminate K|injection K as K; now apply (N c p)]. }
  destruct e; try (split; [apply Here; discriminate|split; [discriminate|intros (s' & K); discriminate K]]).
  - apply Skip. right. eauto.
  - split; [apply Here; discriminate|split; eauto].
Qed.
Lemma first_fun stmts e e' : first_statement stmts e -> first_statement stmts e' -> e = e'.
Proof.
  intros (pre & post & -> & F & N) (pre' & post' & E & F' & N'). revert pre' E F'. induction F as [|x pre Hx F IH]; intros pre' E F'; destruct pre' as [|y pre']; cbn [app] in E; injection E as E1 E2.
  - auto.
  - inversion F'; subst. contradiction.
  - subst. contradiction.
  - inversion F'; subst. eapply IH; eauto.
Qed.
Theorem C97_module : forall c path pkg label t stmts e, first_statement stmts e ->
  (moduleDocstringWarning (EFile c (FMeta path pkg label t) stmts) <> None <-> (t = TypeDefault \/ t = TypeBzl) /\ forall s, e <> EStr s) /\
  (forall p, moduleDocstringWarning (EFile c (FMeta path pkg label t) stmts) = Some p -> p = start_pos e).
Proof.
  intros c path pk la t stmts e F. cbn [moduleDocstringWarning]. pose proof (docstring_spec stmts) as D. destruct (getDocstring stmts) as [[e'|] b]; [|destruct D as (_ & D); now apply D in F].
  destruct D as (F' & B). rewrite (first_fun _ _ _ F F') in *. clear F. split.
  - destruct b.
    + split; [destruct t; intro K; now contradiction K|]. intros (_ & N). destruct (proj1 B eq_refl) as (s & ->). now contradiction (N s).
    + split.
      * intro K. split; [destruct t; auto; now contradiction K|]. intros s ->. assert (false = true) by (apply B; eauto). discriminate.
      * intros ([-> | ->] & _); discriminate.
  - intros p. destruct t; try discriminate; (destruct b; [discriminate|intro K; injection K as <-; reflexivity]).
Qed.
Print Assumptions C97_module.
Theorem C97_module_empty : forall c path pkg label t stmts, (forall e, ~ first_statement stmts e) -> moduleDocstringWarning (EFile c (FMeta path pkg label t) stmts) = None.
Proof.
  intros c path pk la t stmts N. cbn [moduleDocstringWarning]. pose proof (docstring_spec stmts) as D. destruct (getDocstring stmts) as [[e'|] b]; [destruct D as (D & _); now apply N in D|]. destruct t; auto.
Qed.
Print Assumptions C97_module_empty.
Lemma doc_spec body : match docstring_of body with Some s => has_doc body s | None => forall s, ~ has_doc body s end.
Proof.
  unfold docstring_of, has_doc. pose proof (docstring_spec (map Some body)) as D. destruct (getDocstring (map Some body)) as [[e|] b].
  - destruct D as (F & B). destruct b.
    + destruct (proj1 B eq_refl) as (s & ->). exact F.
    + assert (N : forall s, e <> EStr s) by (intros s ->; assert (false = true) by (apply B; eauto); discriminate). assert (G : forall s, ~ first_statement (map Some body) (EStr s)) by (intros s K; apply (N s); now apply (first_fun (map Some body))). destruct e; exact G.
  - destruct D as (-> & D). intros s. apply D.
Qed.
(** ** Functions without docstring *)
Lemma fold_inner l : fold_right (fun x n => stmt_count x + n) 0 l = stmtsCount l.
Proof. reflexivity. Qed.
Lemma stmtsCount_app a b : stmtsCount (a ++ b) = stmtsCount a + stmtsCount b.
Proof. induction a as [|x a IH]; [reflexivity|]. change (stmt_count x + stmtsCount (a ++ b) = stmt_count x + stmtsCount a + stmtsCount b). lia. Qed.
Lemma stmt_count_inner e : stmt_count e = S (stmtsCount (inner e)).
Proof. destruct e; try reflexivity. cbn [stmt_count inner]. now rewrite stmtsCount_app. Qed.
Lemma size_spec l : size l (stmtsCount l).
Proof.
  assert (G : forall n l, fold_right (fun e k => Nat.max (height e) k) 0 l < n -> size l (stmtsCount l)).
  { induction n as [|n IH]; intros l0 H; [lia|]. induction l0 as [|e l0 IHl]; [constructor|]. cbn [fold_right] in H. change (stmtsCount (e :: l0)) with (stmt_count e + stmtsCount l0). rewrite stmt_count_inner. cbn [Nat.add]. constructor; [|apply IHl; lia].
    apply IH. assert (He : forall c, In c (inner e) -> height c < height e).
    { intros c Hc. apply height_child. destruct e; try (now destruct Hc); unfold children, fold_children; cbn [inner fold_children2] in *; rewrite ?map_id; [now right; right|now right]. }
    assert (Hm : fold_right (fun e k => Nat.max (height e) k) 0 (inner e) < height e \/ inner e = []).
    { revert He. generalize (inner e). clear. intros l He. induction l as [|x l IHl]; auto. left. cbn [fold_right]. destruct IHl as [IHl| ->]; [intros; apply He; now right| |]; specialize (He x (or_introl eq_refl)); cbn [fold_right]; lia. }
    destruct Hm as [Hm| ->]; [lia|]. rewrite (height_unfold e) in H. cbn [fold_right]. lia. }
  eapply G. apply Nat.lt_succ_diag_r.
Qed.

Lemma size_fun l a : size l a -> forall b, size l b -> a = b.
Proof. induction 1; intros k H1; inversion H1; subst; auto. Qed.
Lemma needs_spec start name body : isDocstringRequired start name body = true <-> needs_doc start name body.
Proof.
  unfold isDocstringRequired, needs_doc. pose proof (size_spec body) as Sz. destruct (p_rune start >? 1)%Z eqn:E.
  - split; [discriminate|]. intros (K & _). apply Z.gtb_lt in E. lia.
  - rewrite andb_true_iff, negb_true_iff, Nat.leb_le. assert (Hp : has_prefix %"_" name = false <-> forall n, name <> %"_" ++ n).
    { split; [intros H n ->; now rewrite has_prefix_app in H|]. intro H. destruct (has_prefix %"_" name) eqn:P; auto. apply has_prefix_spec in P as (t & ->). now contradiction (H t). }
    rewrite Hp. assert (Z.gtb (p_rune start) 1 <> true) by congruence. rewrite Z.gtb_lt in H. split.
    + intros (A & B). split; [lia|]. split; auto. eauto.
    + intros (_ & A & k & B & C). split; auto. now rewrite (size_fun _ _ Sz _ B).
Qed.
(** function-docstring: exactly the functions of the file that need a docstring and have none, in order *)
Inductive undocumented : list (option expr) -> list expr -> Prop :=
  | ud_nil : undocumented [] []
  | ud_found c p ps b n q k m t stmts l : needs_doc (start_pos (EDef c p ps b n q k m t)) n b -> (forall s, ~ has_doc b s) -> undocumented stmts l ->
      undocumented (Some (EDef c p ps b n q k m t) :: stmts) (EDef c p ps b n q k m t :: l)
  | ud_fine s stmts l : (forall c p ps b n q k m t, s = Some (EDef c p ps b n q k m t) -> needs_doc (start_pos (EDef c p ps b n q k m t)) n b -> exists d, has_doc b d) ->
      undocumented stmts l -> undocumented (s :: stmts) l.
Theorem C97_function : forall c meta stmts, undocumented stmts (functionDocstringWarning (EFile c meta stmts)).
Proof.
  intros c meta stmts. cbn [functionDocstringWarning]. induction stmts as [|s l IH]; [constructor|]. cbn [flat_map].
  destruct s as [e|]; [|apply ud_fine; auto; discriminate]. destruct e; try (apply ud_fine; auto; discriminate).
  match goal with |- context [isDocstringRequired ?a ?b ?c] => pose proof (needs_spec a b c) as N; destruct (isDocstringRequired a b c) end.
  - match goal with |- context [docstring_of ?b] => pose proof (doc_spec b) as D; destruct (docstring_of b) as [d|] end.
    + apply ud_fine; auto. intros ? ? ? ? ? ? ? ? ? E _. injection E as -> -> -> -> -> -> -> -> ->. eauto.
    + cbn [app]. apply ud_found; auto. now apply N.
  - apply ud_fine; auto. intros ? ? ? ? ? ? ? ? ? E K. injection E as -> -> -> -> -> -> -> -> ->. apply N in K. discriminate.
Qed.
Print Assumptions C97_function.
(** ** Lines *)
Lemma all_repeat c t : forallb (ceq c) t = true -> t = repeat c (List.length t).
Proof. induction t as [|x t IH]; auto. cbn. rewrite andb_true_iff. intros [E H]. apply Ascii.eqb_eq in E. subst x. now rewrite <- IH. Qed.
Lemma trim_left_first p s x t : trim_left p s = x :: t -> p x = false.
Proof. induction s as [|y s IH]; [discriminate|]. cbn [trim_left]. destruct (p y) eqn:E; auto. intro H. injection H as <- <-. exact E. Qed.
Lemma trim_right_last p s x a : trim_right p s = x ++ [a] -> p a = false.
Proof. unfold trim_right. intro H. assert (E : trim_left p (rev s) = a :: rev x) by (rewrite <- (rev_involutive (trim_left p (rev s))), H, rev_app_distr; reflexivity). now apply trim_left_first in E. Qed.
Lemma trim_line raw : a_line raw (trim_right (ceq c_sp) (trim_right (ceq c_cr) raw)).
Proof.
  destruct (trim_right_prefix (ceq c_cr) raw) as (t & E & F). destruct (trim_right_prefix (ceq c_sp) (trim_right (ceq c_cr) raw)) as (t' & E' & F'). apply all_repeat in F, F'.
  exists (List.length t'), (List.length t). rewrite <- F, <- F', app_assoc, <- E'. split; [exact E|]. split.
  - intros x K. apply trim_right_last in K. discriminate K.
  - intros x K. apply trim_right_last in K. discriminate K.
Qed.
Lemma doc_lines_spec v : lines_of v (doc_lines v).
Proof.
  exists (split c_nl v). split; [apply split_nonempty|]. split; [now rewrite join_split|]. split; [apply split_no_sep|]. unfold doc_lines. induction (split c_nl v); constructor; auto. apply trim_line.
Qed.
Lemma ends_fun (c : ascii) (l : bytes) : forall a b (l' : bytes), l ++ repeat c a = l' ++ repeat c b -> (forall x, l <> x ++ [c]) -> (forall x, l' <> x ++ [c]) -> l = l'.
Proof.
  assert (R : forall n, repeat c (S n) = repeat c n ++ [c]) by (induction n; [reflexivity|]; cbn [repeat app] in *; now rewrite <- IHn).
  induction a as [|a IH]; intros b l' E N N'.
  - destruct b; [now rewrite !app_nil_r in E|]. rewrite R, app_assoc, app_nil_r in E. now apply N in E.
  - destruct b as [|b]; rewrite ?R, ?app_assoc, ?app_nil_r in E; [symmetry in E; now apply N' in E|]. apply app_inj_tail in E as [E _]. eauto.
Qed.
Lemma a_line_fun raw l l' : a_line raw l -> a_line raw l' -> l = l'.
Proof.
  intros (a & b & -> & N & M) (a' & b' & E & N' & M'). rewrite !app_assoc in E. assert (E' : l ++ repeat c_sp a = l' ++ repeat c_sp a') by (eapply ends_fun; eauto). eapply ends_fun; eauto.
Qed.
(** Every string has exactly one list of lines. *)
Lemma lines_fun v ls ls' : lines_of v ls -> lines_of v ls' -> ls = ls'.
Proof.
  intros (r & N & -> & F & A) (r' & N' & E & F' & A'). assert (r = r') by (rewrite <- (split_join c_nl r), <- (split_join c_nl r'), E; auto). subst r'. clear -A A'. revert ls' A'. induction A; intros ls' A'; inversion A'; subst; f_equal; eauto using a_line_fun.
Qed.
Lemma summary_spec ls : hasHeader ls = true <-> summary ls.
Proof.
  induction ls as [|l ls IH]; [split; [discriminate|intros (pre & l & post & E & _); destruct pre; discriminate E]|]. destruct l as [|c l].
  - cbn [hasHeader]. rewrite IH. split; intros (pre & x & post & E & F & N & P).
    + exists ([] :: pre), x, post. rewrite E. auto.
    + destruct pre as [|y pre]; injection E as E1 E2; [subst; contradiction|]. inversion F; subst. exists pre, x, post. auto.
  - assert (S1 : summary ((c :: l) :: ls) <-> (ls = [] \/ exists rest, ls = [] :: rest)).
    { split.
      - intros (pre & x & post & E & F & N & P). destruct pre as [|y pre]; injection E as E1 E2; [subst; auto|]. inversion F; subst. discriminate.
      - intro P. exists [], (c :: l), ls. repeat (apply conj); auto. discriminate. }
    rewrite S1. destruct ls as [|n ls]; cbn [hasHeader]; [split; auto|]. rewrite beq_eq. split; [intros ->; eauto|intros [K|(r & K)]; [discriminate K|now injection K as ->]].
Qed.
(** ** name: *)
Lemma word_spec c : is_word c = true <-> word_char c.
Proof. unfold is_word, word_char. rewrite !orb_true_iff, !andb_true_iff, !N.leb_le, N.eqb_eq. tauto. Qed.
Lemma type_spec c : is_type_char c = true <-> type_char c.
Proof.
  unfold is_type_char, type_char. rewrite orb_true_iff, word_spec, existsb_exists. apply or_iff_compat_l. split; [intros (x & J & E)|intro J; exists c; split; auto].
  - apply Ascii.eqb_eq in E. now subst.
  - unfold ceq. apply ascii_eqb_refl.
Qed.
Lemma span_of_spec p s : forall a b, span_of p s = (a, b) -> s = a ++ b /\ Forall (fun c => p c = true) a /\ forall c t, b = c :: t -> p c = false.
Proof.
  induction s as [|c s IH]; intros a b H; cbn [span_of] in H; [injection H as <- <-; repeat (apply conj); auto; discriminate|].
  destruct (p c) eqn:E; [destruct (span_of p s) as [a' b'] eqn:Es; injection H as <- <-; destruct (IH _ _ eq_refl) as (-> & F & N); repeat (apply conj); auto|injection H as <- <-; repeat (apply conj); auto].
  intros c' t' K. injection K as <- <-. exact E.
Qed.
Lemma span_of_app p a : Forall (fun c => p c = true) a -> forall b, (forall c t, b = c :: t -> p c = false) -> span_of p (a ++ b) = (a, b).
Proof.
  induction 1 as [|c a H F IH]; intros b N; cbn [app span_of].
  - destruct b as [|c t]; auto. cbn [span_of]. now rewrite (N c t eq_refl).
  - rewrite H, IH; auto.
Qed.
Lemma trim_repeat k s : trim_left (ceq c_sp) (repeat c_sp k ++ s) = trim_left (ceq c_sp) s.
Proof. induction k; cbn; auto. Qed.
Lemma trim_split s : exists k, s = repeat c_sp k ++ trim_left (ceq c_sp) s.
Proof. destruct (trim_left_suffix (ceq c_sp) s) as (t & E & F). apply all_repeat in F. exists (List.length t). now rewrite <- F. Qed.
Definition typed (ty : bytes) : Prop := ty = [] \/ exists k' t, ty = repeat c_sp k' ++ %"(" ++ t ++ %")" /\ t <> [] /\ Forall type_char t.
Lemma type_forall t : Forall type_char t <-> Forall (fun c => is_type_char c = true) t.
Proof. rewrite !Forall_forall. split; intros H c J; apply type_spec; auto. Qed.
Lemma word_forall t : Forall word_char t <-> Forall (fun c => is_word c = true) t.
Proof. rewrite !Forall_forall. split; intros H c J; apply word_spec; auto. Qed.
Lemma colon_spec s : type_and_colon s = true <-> exists ty rest, s = ty ++ %":" ++ rest /\ typed ty.
Proof.
  split.
  - intro H. destruct s as [|c s]; [discriminate H|]. destruct (Ascii.eqb_spec c ":"%char) as [->|N]; [exists [], s; split; [reflexivity|now left]|].
    assert (H' : match trim_left (ceq c_sp) (c :: s) with "("%char :: s1 => match span_of is_type_char s1 with (_ :: _, ")"%char :: ":"%char :: _) => true | _ => false end | _ => false end = true).
    { etransitivity; [|exact H]. unfold type_and_colon. destruct c as [[] [] [] [] [] [] [] []]; try reflexivity; now contradiction N. }
    clear H. destruct (trim_split (c :: s)) as (k & E). destruct (trim_left (ceq c_sp) (c :: s)) as [|d s1]; [discriminate H'|].
    destruct (Ascii.eqb_spec d "("%char) as [->|Nd]; [|exfalso; destruct d as [[] [] [] [] [] [] [] []]; try discriminate H'; now apply Nd]. destruct (span_of is_type_char s1) as [t r] eqn:Sp. apply span_of_spec in Sp as (-> & F & _).
    destruct t as [|t0 t]; [discriminate H'|]. destruct r as [|r1 r]; [discriminate H'|]. destruct (Ascii.eqb_spec r1 ")"%char) as [->|N1]; [|exfalso; destruct r1 as [[] [] [] [] [] [] [] []]; try discriminate H'; now apply N1].
    destruct r as [|r2 r]; [discriminate H'|]. destruct (Ascii.eqb_spec r2 ":"%char) as [->|N2]; [|exfalso; destruct r2 as [[] [] [] [] [] [] [] []]; try discriminate H'; now apply N2].
    exists (repeat c_sp k ++ %"(" ++ (t0 :: t) ++ %")"), r. split; [rewrite E, <- !app_assoc; cbn [B app]; rewrite <- ?app_assoc; reflexivity|]. right. exists k, (t0 :: t). split; auto. split; [discriminate|now apply type_forall].
  - intros (ty & rest & -> & [-> |(k & t & -> & N & F)]); [reflexivity|].
    assert (G : forall x y, (forall z, x <> ":"%char :: z) -> x = y -> type_and_colon x = match trim_left (ceq c_sp) y with "("%char :: s1 => match span_of is_type_char s1 with (_ :: _, ")"%char :: ":"%char :: _) => true | _ => false end | _ => false end).
    { intros x y Hx <-. destruct x as [|c x]; auto. unfold type_and_colon. destruct c as [[] [] [] [] [] [] [] []]; try reflexivity; now contradiction (Hx x). }
    rewrite (G _ (repeat c_sp k ++ "("%char :: t ++ ")"%char :: ":"%char :: rest)).
    + rewrite trim_repeat. cbn [trim_left]. replace (ceq c_sp "("%char) with false by reflexivity. apply type_forall in F. rewrite span_of_app; [|auto|intros c u K; injection K as <- <-; reflexivity]. destruct t; [contradiction|reflexivity].
    + intros z K. destruct k; discriminate K.
    + rewrite <- !app_assoc. reflexivity.
Qed.
Lemma star_opt_spec s a s1 : star_opt s = (a, s1) -> s = a ++ s1 /\ (a = %"*" \/ (a = [] /\ forall t, s <> "*"%char :: t)).
Proof.
  destruct s as [|c s]; cbn [star_opt]; [intro H; injection H as <- <-; split; auto; right; split; auto; discriminate|]. destruct (ceq c "*"%char) eqn:E; intro H; injection H as <- <-.
  - apply Ascii.eqb_eq in E. subst. auto.
  - split; auto. right. split; auto. intros t K. injection K as -> ->. discriminate E.
Qed.
Lemma star_opt_none s : (forall t, s <> "*"%char :: t) -> star_opt s = ([], s).
Proof. intro H. destruct s as [|c s]; auto. cbn [star_opt]. destruct (ceq c "*"%char) eqn:E; auto. apply Ascii.eqb_eq in E. subst. now contradiction (H s). Qed.
Lemma word_not c : word_char c -> c <> c_sp /\ c <> "*"%char /\ c <> ":"%char /\ c <> "("%char.
Proof. intro H. repeat (apply conj); intros ->; apply word_spec in H; discriminate H. Qed.
(** What the regular expression accepts, and the name it gives *)
Theorem C97_describes : forall line name, argRegex line = Some name <-> describes line name.
Proof.
  intros line name. split.
  - intro H. unfold argRegex in H. destruct (trim_split line) as (k & E). destruct (star_opt (trim_left (ceq c_sp) line)) as [a s1] eqn:S1. apply star_opt_spec in S1 as (E1 & A). destruct (star_opt s1) as [b s2] eqn:S2. apply star_opt_spec in S2 as (E2 & Ab).
    destruct (span_of is_word s2) as [w s3] eqn:Sp. apply span_of_spec in Sp as (E3 & F & _). destruct (type_and_colon s3) eqn:T; [|discriminate H]. injection H as <-. apply colon_spec in T as (ty & rest & E4 & T).
    exists k, (a ++ b), w, ty, rest. split; [rewrite E, E1, E2, E3, E4, <- !app_assoc; reflexivity|]. split; [now rewrite <- app_assoc|]. split; [|split; [now apply word_forall|exact T]].
    destruct A as [-> |(-> & N)], Ab as [-> |(-> & _)]; cbn [B app In]; auto.
  - intros (k & stars & word & ty & rest & -> & -> & St & W & T).
    assert (Hw : forall x, span_of is_word (word ++ ty ++ %":" ++ x) = (word, ty ++ %":" ++ x)).
    { intro x. apply span_of_app; [now apply word_forall|]. intros c u K. destruct T as [-> |(k' & t & -> & _)]; [injection K as <- <-; reflexivity|]. destruct k'; injection K as <- <-; reflexivity. }
    assert (Hc : type_and_colon (ty ++ %":" ++ rest) = true) by (apply colon_spec; eauto).
    assert (Hs : (stars = [] /\ word = []) \/ trim_left (ceq c_sp) ((stars ++ word) ++ ty ++ %":" ++ rest) = (stars ++ word) ++ ty ++ %":" ++ rest).
    { destruct St as [<- |[<- |[<- |[]]]]; [|right; reflexivity|right; reflexivity]. destruct word as [|c word]; [now left|right]. apply trim_left_id. cbn [app]. inversion W as [|? ? Wc]; subst. apply word_not in Wc as (Wc & _). destruct (ceq c_sp c) eqn:K; auto. apply Ascii.eqb_eq in K. now contradiction Wc. }
    unfold argRegex. rewrite trim_repeat. destruct Hs as [(-> & ->)| ->].
    + cbn [app]. assert (Tl : exists u, trim_left (ceq c_sp) (ty ++ %":" ++ rest) = u /\ type_and_colon u = true /\ (forall t, u <> "*"%char :: t) /\ forall c t, u = c :: t -> is_word c = false).
      { destruct T as [-> |(k' & t & -> & Nt & Ft)]; [exists (%":" ++ rest); repeat (apply conj); auto; [discriminate|intros c t K; injection K as <- <-; reflexivity]|]. rewrite <- app_assoc, trim_repeat. exists ((%"(" ++ t ++ %")") ++ %":" ++ rest). split; [reflexivity|]. split.
        - apply colon_spec. exists (%"(" ++ t ++ %")"), rest. split; auto. right. exists 0, t. auto.
        - split; [discriminate|]. intros c u K. injection K as <- <-. reflexivity. }
      destruct Tl as (u & -> & Tu & Su & Wu). rewrite (star_opt_none u Su), (star_opt_none u Su). pose proof (span_of_app is_word [] (Forall_nil _) u Wu) as Q. cbn [app] in Q. rewrite Q, Tu. reflexivity.
    + assert (Nw : forall t, word ++ ty ++ %":" ++ rest <> "*"%char :: t).
      { intros t K. destruct word as [|c word]; [|injection K as -> K; inversion W as [|? ? Wc]; subst; apply word_not in Wc as (_ & Wc & _); now contradiction Wc]. destruct T as [-> |(k' & u & -> & _)]; [discriminate K|destruct k'; discriminate K]. }
      destruct St as [<- |[<- |[<- |[]]]].
      * cbn [app]. rewrite (star_opt_none _ Nw), (star_opt_none _ Nw), Hw, Hc. reflexivity.
      * change (star_opt ((%"*" ++ word) ++ ty ++ %":" ++ rest)) with (%"*", word ++ ty ++ %":" ++ rest). cbv beta iota. rewrite (star_opt_none _ Nw), Hw, Hc. reflexivity.
      * change (star_opt ((%"**" ++ word) ++ ty ++ %":" ++ rest)) with (%"*", "*"%char :: word ++ ty ++ %":" ++ rest). cbv beta iota. change (star_opt ("*"%char :: word ++ ty ++ %":" ++ rest)) with (%"*", word ++ ty ++ %":" ++ rest). cbv beta iota. rewrite Hw, Hc. reflexivity.
Qed.
Print Assumptions C97_describes.
(** ** The sections *)
Lemma indented_spec l : indented l (countLeadingSpaces l).
Proof.
  induction l as [|c l (s & E & N)]; [exists []; split; auto; discriminate|]. cbn [countLeadingSpaces]. destruct (ceq c c_sp) eqn:K.
  - apply Ascii.eqb_eq in K. subst c. exists s. split; auto. cbn [repeat app]. now rewrite <- E.
  - exists (c :: l). split; auto. intros s' H. injection H as -> _. discriminate K.
Qed.
Lemma indented_fun l a : forall l' b, l = l' -> indented l a -> indented l' b -> a = b.
Proof.
  intros l' b <- (s & E & N) (s' & E' & N'). rewrite E in E'. clear E l. revert b E'. induction a as [|a IH]; intros [|b] E; cbn [repeat app] in E; auto.
  - subst s. now contradiction (N (repeat c_sp b ++ s')).
  - subst s'. now contradiction (N' (repeat c_sp a ++ s)).
  - injection E as E. f_equal. auto.
Qed.
Section Loop.
  Context (indent : nat) (ls : list bytes).
  Let opens' := opens indent ls.
  Let closes' := closes indent ls.
  Definition open_at (i : nat) : Prop := exists j, j < i /\ opens indent ls j /\ forall k, j < k -> k < i -> ~ closes indent ls k.
  Definition candidate (D : list (nat * bytes)) (i : nat) (n : bytes) : Prop :=
    exists l k, line_is ls i l /\ in_section indent ls i /\ describes l n /\ indented l k /\ (Z.of_nat k <= 1000000)%Z /\
      forall j m l' k', In (j, m) D -> j < i -> line_is ls j l' -> indented l' k' -> k <= k'.
  Definition goes (i : nat) (st : scan) (D : list (nat * bytes)) : Prop :=
    (on st = true <-> open_at i) /\
    (forall j n, In (j, n) D <-> j < i /\ candidate D j n) /\
    ((D = [] /\ ind st = 1000000%Z) \/ exists j m l, In (j, m) D /\ line_is ls j l /\ ind st = Z.of_nat (countLeadingSpaces l)) /\
    ((ind st <= 1000000)%Z /\ forall j m l, In (j, m) D -> line_is ls j l -> (ind st <= Z.of_nat (countLeadingSpaces l))%Z) /\
    (forall n j col, lookup n (i_args (so_far st)) = Some (j, col) <-> last_at D n j /\ exists l, line_is ls j l /\ col = (Z.of_nat indent + Z.of_nat (countLeadingSpaces l))%Z) /\
    NoDup (map fst (i_args (so_far st))) /\
    (i_returns (so_far st) = true <-> exists j, j < i /\ titled indent ls j %"Returns:") /\
    (i_deprecated (so_far st) = true <-> exists j, j < i /\ titled indent ls j %"Deprecated:") /\
    (forall j, i_arguments (so_far st) = Some j <-> j < i /\ titled indent ls j %"Arguments:" /\ forall k, k < i -> titled indent ls k %"Arguments:" -> k <= j).
  Lemma lookup_put {A} k (v : A) l n : lookup n (put k v l) = if beq n k then Some v else lookup n l.
  Proof.
    induction l as [|[k' v'] l IH]; cbn [put lookup]; auto. destruct (beq k k') eqn:E; cbn [lookup].
    - apply beq_eq in E. subst k'. destruct (beq n k); auto.
    - rewrite IH. destruct (beq n k') eqn:F; auto. apply beq_eq in F. subst n. destruct (beq k' k) eqn:G; auto. apply beq_eq in G. subst. now rewrite beq_refl in E.
  Qed.
  Lemma put_keys {A} k (v : A) l x : In x (map fst (put k v l)) <-> x = k \/ In x (map fst l).
  Proof.
    induction l as [|[k' v'] l IH]; cbn [put map fst In]; [intuition|]. destruct (beq k k') eqn:E; cbn [map fst In]; [apply beq_eq in E; subst; intuition|]. rewrite IH. intuition.
  Qed.
  Lemma put_nodup {A} k (v : A) l : NoDup (map fst l) -> NoDup (map fst (put k v l)).
  Proof.
    induction l as [|[k' v'] l IH]; intro H; cbn [put map fst]; [repeat constructor; auto|]. cbn [map fst] in H. inversion H as [|? ? N H']; subst. destruct (beq k k') eqn:E; cbn [map fst].
    - apply beq_eq in E. subst. constructor; auto.
    - constructor; auto. rewrite put_keys. intros [->|K]; [now rewrite beq_refl in E|auto].
  Qed.
  Lemma titled_fun i l t : line_is ls i l -> (titled indent ls i t <-> l = repeat c_sp indent ++ t).
  Proof. unfold titled, line_is. intro E. rewrite E. split; [intro K; now injection K|congruence]. Qed.
  Lemma lt_S (P : nat -> Prop) i : ~ P i -> ((exists j, j < S i /\ P j) <-> exists j, j < i /\ P j).
  Proof. intros NP. split; intros (j & L & Hj); exists j; split; auto. destruct (Nat.eq_dec j i) as [->|]; [contradiction|lia]. Qed.
  Lemma last_S (P : nat -> Prop) i : ~ P i -> forall j, (j < S i /\ P j /\ forall k, k < S i -> P k -> k <= j) <-> (j < i /\ P j /\ forall k, k < i -> P k -> k <= j).
  Proof.
    intros NP j. split; intros (A & B & C).
    - split; [destruct (Nat.eq_dec j i) as [->|]; [contradiction|lia]|]. split; [exact B|]. intros k Hk. apply C. lia.
    - split; [lia|]. split; [exact B|]. intros k Hk Tk. destruct (Nat.eq_dec k i) as [->|]; [contradiction|apply C; auto; lia].
  Qed.
  Lemma last_here (P : nat -> Prop) i : P i -> forall j, (j < S i /\ P j /\ forall k, k < S i -> P k -> k <= j) <-> i = j.
  Proof. intros Pi j. split; [intros (A & _ & C); specialize (C i (Nat.lt_succ_diag_r i) Pi); lia|intros <-; split; [lia|split; auto; intros; lia]]. Qed.
  Lemma goes_info i st D : goes i st D -> forall st', i_args (so_far st') = i_args (so_far st) -> ind st' = ind st -> (on st' = true <-> open_at (S i)) -> (forall n, ~ candidate D i n) ->
    (i_returns (so_far st') = true <-> exists j, j < S i /\ titled indent ls j %"Returns:") ->
    (i_deprecated (so_far st') = true <-> exists j, j < S i /\ titled indent ls j %"Deprecated:") ->
    (forall j, i_arguments (so_far st') = Some j <-> j < S i /\ titled indent ls j %"Arguments:" /\ forall k, k < S i -> titled indent ls k %"Arguments:" -> k <= j) -> goes (S i) st' D.
  Proof.
    intros (H1 & H2 & H3 & H4 & H5 & H6 & H7 & H8 & H9) st' E1 E2 Ho Nc R De Ar. unfold goes. rewrite E1, E2. split; auto.
    split; [intros j n; rewrite H2; split; intros (A & B); split; auto; destruct (Nat.eq_dec j i) as [->|]; try lia; now apply Nc in B|]. repeat (split; auto).
  Qed.
  Lemma not_open_at i : ~ opens indent ls i -> closes indent ls i \/ ~ open_at i -> ~ open_at (S i).
  Proof.
    intros No H (j & L & O & C). destruct (Nat.eq_dec j i) as [->|]; [contradiction|]. destruct H as [H|H]; [apply (C i); auto; lia|]. apply H. exists j. split; [lia|]. split; auto.
  Qed.
  Lemma loop_step i st D l : line_is ls i l -> goes i st D -> exists D', goes (S i) (doc_step indent st i l) D'.
  Proof.
    intros Hl G. pose proof (titled_fun i l) as T. assert (TT : forall t, titled indent ls i t <-> l = repeat c_sp indent ++ t) by (intro t; apply (T t Hl)). clear T.
    pose proof G as (H1 & H2 & H3 & (H4 & H4') & H5 & H6 & H7 & H8 & H9). unfold doc_step.
    assert (NC : (opens indent ls i \/ closes indent ls i \/ ~ open_at i) -> forall n, ~ candidate D i n).
    { intros H n (l' & k & _ & (O & No & Nc) & _). destruct H as [H|[H|H]]; auto. }
    destruct (beq l (repeat c_sp indent ++ %"Arguments:")) eqn:B1.
    { apply beq_eq in B1. assert (Ti : titled indent ls i %"Arguments:") by now apply TT. exists D. apply (goes_info i st D G); auto; cbn [on so_far i_returns i_deprecated i_arguments].
      - split; auto. intros _. exists i. split; [lia|]. split; [now right|]. intros; lia.
      - apply NC. left. now right.
      - rewrite H7. symmetry. apply (lt_S (fun j => titled indent ls j %"Returns:")). rewrite TT, B1. intro K. apply app_inv_head in K. discriminate K.
      - rewrite H8. symmetry. apply (lt_S (fun j => titled indent ls j %"Deprecated:")). rewrite TT, B1. intro K. apply app_inv_head in K. discriminate K.
      - intro j. rewrite (last_here (fun j => titled indent ls j %"Arguments:") i Ti). split; [intro K; now injection K|congruence]. }
    apply beq_neq in B1. assert (N1 : ~ titled indent ls i %"Arguments:") by now rewrite TT.
    assert (A9 : forall j, i_arguments (so_far st) = Some j <-> j < S i /\ titled indent ls j %"Arguments:" /\ forall k, k < S i -> titled indent ls k %"Arguments:" -> k <= j) by (intro j; rewrite H9; symmetry; now apply (last_S (fun j => titled indent ls j %"Arguments:"))).
    destruct (beq l (repeat c_sp indent ++ %"Args:")) eqn:B2.
    { apply beq_eq in B2. assert (Ti : titled indent ls i %"Args:") by now apply TT. exists D. apply (goes_info i st D G); auto; cbn [on so_far i_returns i_deprecated i_arguments]; auto.
      - split; auto. intros _. exists i. split; [lia|]. split; [now left|]. intros; lia.
      - apply NC. left. now left.
      - rewrite H7. symmetry. apply (lt_S (fun j => titled indent ls j %"Returns:")). rewrite TT, B2. intro K. apply app_inv_head in K. discriminate K.
      - rewrite H8. symmetry. apply (lt_S (fun j => titled indent ls j %"Deprecated:")). rewrite TT, B2. intro K. apply app_inv_head in K. discriminate K. }
    apply beq_neq in B2. assert (N2 : ~ titled indent ls i %"Args:") by now rewrite TT. assert (No : ~ opens indent ls i) by (intros [K|K]; contradiction).
    destruct (beq l (repeat c_sp indent ++ %"Returns:")) eqn:B3.
    { apply beq_eq in B3. assert (Ti : titled indent ls i %"Returns:") by now apply TT. assert (Ci : closes indent ls i) by now left. exists D. apply (goes_info i st D G); auto; cbn [on so_far i_returns i_deprecated i_arguments]; auto.
      - split; [discriminate|]. intro K. exfalso. eapply not_open_at; eauto.
      - split; auto. intros _. exists i. auto.
      - rewrite H8. symmetry. apply (lt_S (fun j => titled indent ls j %"Deprecated:")). rewrite TT, B3. intro K. apply app_inv_head in K. discriminate K. }
    apply beq_neq in B3. assert (N3 : ~ titled indent ls i %"Returns:") by now rewrite TT.
    assert (A7 : i_returns (so_far st) = true <-> exists j, j < S i /\ titled indent ls j %"Returns:") by (rewrite H7; symmetry; now apply (lt_S (fun j => titled indent ls j %"Returns:"))).
    destruct (beq l (repeat c_sp indent ++ %"Deprecated:")) eqn:B4.
    { apply beq_eq in B4. assert (Ti : titled indent ls i %"Deprecated:") by now apply TT. assert (Ci : closes indent ls i) by (right; now left). exists D. apply (goes_info i st D G); auto; cbn [on so_far i_returns i_deprecated i_arguments]; auto.
      - split; [discriminate|]. intro K. exfalso. eapply not_open_at; eauto.
      - split; auto. intros _. exists i. auto. }
    apply beq_neq in B4. assert (N4 : ~ titled indent ls i %"Deprecated:") by now rewrite TT.
    assert (A8 : i_deprecated (so_far st) = true <-> exists j, j < S i /\ titled indent ls j %"Deprecated:") by (rewrite H8; symmetry; now apply (lt_S (fun j => titled indent ls j %"Deprecated:"))).
    destruct (on st) eqn:On.
    2:{ assert (Nop : ~ open_at i) by (intro K; apply H1 in K; discriminate K). exists D. apply (goes_info i st D G); auto. rewrite On. split; [discriminate|]. intro K. exfalso. eapply not_open_at; eauto. }
    assert (Op : open_at i) by now apply H1. cbv zeta. destruct (negb (beq l []) && (countLeadingSpaces l <=? indent))%bool eqn:Cl.
    { apply andb_true_iff in Cl as [Ne Le]. apply negb_true_iff, beq_neq in Ne. apply Nat.leb_le in Le. assert (Ci : closes indent ls i) by (right; right; split; auto; exists l, (countLeadingSpaces l); repeat (apply conj); auto using indented_spec).
      exists D. apply (goes_info i st D G); auto; cbn [on so_far]; auto. split; [discriminate|]. intro K. exfalso. eapply not_open_at; eauto. }
    assert (Nc : ~ closes indent ls i).
    { intros [K|[K|(_ & l' & n & K1 & K2 & K3 & K4)]]; try contradiction. unfold line_is in *. rewrite Hl in K1. injection K1 as <-. rewrite <- (indented_fun l _ l n eq_refl (indented_spec l) K3) in K4. apply Nat.leb_le in K4. apply beq_neq in K2. rewrite K2, K4 in Cl. discriminate Cl. }
    assert (Sec : in_section indent ls i) by (split; auto). assert (Os : open_at (S i)).
    { destruct Op as (j & L & O & C). exists j. split; [lia|]. split; auto. intros k K1 K2. destruct (Nat.eq_dec k i) as [->|]; auto. apply C; auto. lia. }
    destruct (Z.of_nat (countLeadingSpaces l) >? ind st)%Z eqn:Gt.
    { apply Z.gtb_lt in Gt. exists D. apply (goes_info i st D G); auto; [rewrite On; split; auto|].
      intros n (l' & k & K1 & _ & _ & K2 & K3 & K4). unfold line_is in K1. rewrite Hl in K1. injection K1 as <-. rewrite <- (indented_fun l _ l k eq_refl (indented_spec l) K2) in *.
      destruct H3 as [(-> & E)|(j & m & lj & Ij & Lj & E)]; [lia|]. assert (Hj : j < i) by (apply H2 in Ij; tauto). specialize (K4 j m lj _ Ij Hj Lj (indented_spec lj)). lia. }
    assert (Le : (Z.of_nat (countLeadingSpaces l) <= ind st)%Z) by (destruct (Z.gtb_spec (Z.of_nat (countLeadingSpaces l)) (ind st)); [discriminate|lia]). clear Gt.
    destruct (argRegex l) as [name|] eqn:Re.
    2:{ exists D. apply (goes_info i st D G); auto; [rewrite On; split; auto|]. intros n (l' & k & K1 & _ & K & _). unfold line_is in K1. rewrite Hl in K1. injection K1 as <-. apply C97_describes in K. congruence. }
    exists (D ++ [(i, name)]). apply C97_describes in Re.
    assert (Ind : forall j m, In (j, m) (D ++ [(i, name)]) <-> In (j, m) D \/ (j = i /\ m = name)) by (intros j m; rewrite in_app_iff; cbn [In]; split; [intros [K|[K|[]]]; [auto|injection K as <- <-; auto]|intros [K|(-> & ->)]; auto]).
    assert (Lt : forall j m, In (j, m) D -> j < i) by (intros j m K; apply H2 in K; tauto).
    assert (Cand : forall j n, j <= i -> (candidate (D ++ [(i, name)]) j n <-> candidate D j n)).
    { intros j n Hj. unfold candidate. split; intros (l' & k & K1 & K2 & K3 & K4 & K5 & K6); exists l', k; repeat (apply conj; [assumption|]); intros j' m l2 k2 J L2; [apply (K6 j' m); auto; apply Ind; auto|]. apply Ind in J as [J|(-> & _)]; [now apply (K6 j' m)|lia]. }
    assert (Ci : candidate D i name).
    { exists l, (countLeadingSpaces l). repeat (apply conj); auto using indented_spec; [lia|]. intros j m l' k' J Lj K Kk. specialize (H4' j m l' J K). rewrite <- (indented_fun l' _ l' k' eq_refl (indented_spec l') Kk). lia. }
    assert (Cu : forall n, candidate D i n -> n = name).
    { intros n (l' & k & K1 & _ & K & _). unfold line_is in K1. rewrite Hl in K1. injection K1 as <-. apply C97_describes in K, Re. congruence. }
    unfold goes. cbn [on ind so_far i_args i_returns i_deprecated i_arguments].
    split; [split; auto|]. split.
    { intros j n. rewrite Ind, H2. split.
      - intros [(K1 & K2)|(-> & ->)]; (split; [lia|apply Cand; auto; lia]).
      - intros (K1 & K2). destruct (Nat.eq_dec j i) as [->|]; [right; split; auto; apply Cu, Cand; auto|left; split; [lia|apply Cand; auto; lia]]. }
    split; [right; exists i, name, l; split; [apply Ind; auto|auto]|]. split.
    { split; [lia|]. intros j m l' J K. apply Ind in J as [J|(-> & ->)]; [specialize (H4' j m l' J K); lia|]. unfold line_is in *. rewrite Hl in K. injection K as <-. lia. }
    split.
    { intros n j col. rewrite lookup_put. unfold last_at. destruct (beq n name) eqn:E.
      - apply beq_eq in E. subst n. split.
        + intro K. injection K as <- <-. split; [split; [apply Ind; auto|]|exists l; auto]. intros j J. apply Ind in J as [J|(-> & _)]; auto. specialize (Lt j name J). lia.
        + intros ((J & La) & l' & K1 & ->). assert (i <= j) by (apply La, Ind; auto). apply Ind in J as [J|(-> & _)]; [specialize (Lt j name J); lia|]. unfold line_is in *. rewrite Hl in K1. injection K1 as <-. reflexivity.
      - apply beq_neq in E. rewrite H5. unfold last_at. split; intros ((J & La) & K); (split; [split|exact K]).
        + apply Ind. auto.
        + intros j' J'. apply Ind in J' as [J'|(_ & K')]; [auto|contradiction].
        + apply Ind in J as [J|(_ & K')]; [auto|contradiction].
        + intros j' J'. apply La, Ind. auto. }
    split; [now apply put_nodup|]. auto.
  Qed.
  Lemma loop_goes : forall todo done st D, ls = done ++ todo -> goes (List.length done) st D -> exists D', goes (List.length ls) (doc_loop indent st (List.length done) todo) D'.
  Proof.
    induction todo as [|l todo IH]; intros done st D E G; cbn [doc_loop].
    - rewrite app_nil_r in E. subst done. eauto.
    - destruct (loop_step (List.length done) st D l) as (D' & G'); auto.
      + unfold line_is. rewrite E, nth_error_app2, Nat.sub_diag by lia. reflexivity.
      + assert (Ln : S (List.length done) = List.length (done ++ [l])) by (rewrite app_length; cbn; lia). rewrite Ln in *. apply (IH (done ++ [l]) _ D'); auto. now rewrite <- app_assoc.
  Qed.
  (** What is found in a docstring *)
  Lemma parse_goes header : exists D, goes (List.length ls) (doc_loop indent (Scan false 1000000 (Info header [] false false None)) 0 ls) D.
  Proof.
    apply (loop_goes ls [] _ []); auto. cbn [List.length]. unfold goes. cbn [on ind so_far i_args i_returns i_deprecated i_arguments].
    split; [split; [discriminate|intros (j & L & _); lia]|]. split; [intros j n; split; [intros []|intros (L & _); lia]|]. split; [now left|]. split; [split; [lia|intros j m l []]|].
    split; [intros n j col; split; [discriminate|intros ((K & _) & _); destruct K]|]. split; [constructor|]. split; [split; [discriminate|intros (j & L & _); lia]|]. split; [split; [discriminate|intros (j & L & _); lia]|].
    intro j. split; [discriminate|intros (L & _); lia].
  Qed.
End Loop.
(** What the lints know about a docstring whose opening quotes are indented by [indent] *)
Definition known (indent : nat) (ls : list bytes) (D : list (nat * bytes)) (i : info) : Prop :=
  described indent ls D /\ (i_header i = true <-> summary ls) /\
  (forall n j col, In (n, (j, col)) (i_args i) <-> last_at D n j /\ exists l k, line_is ls j l /\ indented l k /\ col = (Z.of_nat indent + Z.of_nat k)%Z) /\
  NoDup (map fst (i_args i)) /\
  (i_returns i = true <-> exists j, titled indent ls j %"Returns:") /\ (i_deprecated i = true <-> exists j, titled indent ls j %"Deprecated:") /\
  (forall j, i_arguments i = Some j <-> titled indent ls j %"Arguments:" /\ forall k, titled indent ls k %"Arguments:" -> k <= j).
Lemma lookup_in {A} (l : list (bytes * A)) k v : NoDup (map fst l) -> (lookup k l = Some v <-> In (k, v) l).
Proof.
  induction l as [|[k' v'] l IH]; cbn [map fst lookup In]; intro H; [split; [discriminate|intros []]|]. inversion H as [|? ? N H']; subst. destruct (beq k k') eqn:E.
  - apply beq_eq in E. subst k'. split; [intro K; injection K as ->; auto|]. intros [K|K]; [now injection K as ->|]. elim N. apply (in_map fst) in K. exact K.
  - apply beq_neq in E. rewrite IH by auto. split; [auto|]. intros [K|K]; auto. injection K as -> _. contradiction.
Qed.
Lemma line_lt ls i l : line_is ls i l -> i < List.length ls.
Proof. intro H. apply nth_error_Some. unfold line_is in H. now rewrite H. Qed.
Theorem C97_docstring : forall s indent ls, (p_rune (s_start s) = Z.of_nat indent + 1)%Z -> lines_of (s_value s) ls -> exists i D, parseFunctionDocstring s = Some i /\ known indent ls D i.
Proof.
  intros s indent ls P L. rewrite (lines_fun _ _ _ L (doc_lines_spec _)). clear L ls. unfold parseFunctionDocstring. assert (E : (p_rune (s_start s) <? 1)%Z = false) by (apply Z.ltb_ge; lia). rewrite E. replace (Z.to_nat (p_rune (s_start s) - 1)) with indent by lia.
  unfold parse_doc. set (ls := doc_lines (s_value s)). destruct (parse_goes indent ls (hasHeader ls)) as (D & G). eexists. exists D. split; [reflexivity|]. set (st := doc_loop _ _ _ _) in *.
  assert (Hh : i_header (so_far st) = hasHeader ls).
  { assert (Gn : forall l st0 i0, i_header (so_far (doc_loop indent st0 i0 l)) = i_header (so_far st0)).
    { induction l as [|x l IH]; intros st0 i0; auto. cbn [doc_loop]. rewrite IH. unfold doc_step. repeat match goal with |- context [if ?b then _ else _] => destruct b end; auto. destruct (argRegex x); auto. }
    subst st. rewrite Gn. reflexivity. }
  clearbody st. destruct G as (H1 & H2 & H3 & H4 & H5 & H6 & H7 & H8 & H9). unfold known. split; [|split; [|split; [|split; [auto|split; [|split]]]]].
  - intros i n. rewrite H2. unfold candidate. split; [intros (_ & H); exact H|]. intro H. split; auto. destruct H as (l & k & Hl & _). now apply line_lt in Hl.
  - rewrite Hh. apply summary_spec.
  - intros n j col. rewrite <- (lookup_in _ _ _ H6), H5. split; intros (A & B); (split; [exact A|]).
    + destruct B as (l & Hl & ->). exists l, (countLeadingSpaces l). auto using indented_spec.
    + destruct B as (l & k & Hl & Hk & ->). exists l. split; auto. now rewrite (indented_fun l k l _ eq_refl Hk (indented_spec l)).
  - rewrite H7. split; intros (j & H); [exists j; tauto|]. exists j. split; auto. now apply line_lt in H.
  - rewrite H8. split; intros (j & H); [exists j; tauto|]. exists j. split; auto. now apply line_lt in H.
  - intro j. rewrite H9. split.
    + intros (A & B & C). split; auto. intros k K. apply C; auto. now apply line_lt in K.
    + intros (B & C). split; [now apply line_lt in B|]. split; auto.
Qed.
Print Assumptions C97_docstring.
(** These are determined by the docstring. *)
Lemma described_unique indent ls D D' : described indent ls D -> described indent ls D' -> forall i n, In (i, n) D <-> In (i, n) D'.
Proof.
  assert (G : forall D D', described indent ls D -> described indent ls D' -> forall b i n, i < b -> In (i, n) D -> In (i, n) D').
  { clear. intros D D' H H' b. revert D D' H H'. induction b as [|b IH]; intros D D' H H' i n L K; [lia|]. apply H in K as (l & k & A1 & A2 & A3 & A4 & A5 & A6). apply H'. exists l, k. repeat (apply conj; auto). intros j m l' k' J Lj. apply (A6 j m); auto. apply (IH D' D); auto. lia. }
  intros H H' i n. split; intro K; eapply G; eauto.
Qed.
(** ** The functions of a file *)
Definition blocks (e : expr) : list expr :=
  match e with EFile _ _ l => flat_map (fun o => match o with Some x => [x] | None => [] end) l | EDef _ _ _ b _ _ _ _ _ => b | EIf _ _ _ t _ f => t ++ f | EFor _ _ _ _ b => b | _ => [] end.
Definition a_def (e : expr) : Prop := exists c p ps b n q k m t, e = EDef c p ps b n q k m t.
(** All function definitions in a statement, in the order of the text *)
Inductive all_defs : expr -> list expr -> Prop :=
  | ad_def e ls : a_def e -> Forall2 all_defs (blocks e) ls -> all_defs e (e :: List.concat ls)
  | ad_other e ls : ~ a_def e -> Forall2 all_defs (blocks e) ls -> all_defs e (List.concat ls).
(** A return statement with a value, not in an inner function *)
Inductive yields : expr -> Prop :=
  | yi_return c p x : yields (EReturn c p (Some x))
  | yi_inner e x : ~ a_def e -> In x (blocks e) -> yields x -> yields e.
Definition returns_value (e : expr) : Prop := exists x, In x (blocks e) /\ yields x.
Lemma visit_stmts_unfold stop stk e : visit_stmts stop stk e = (e, stk) :: if stop e stk then [] else flat_map (visit_stmts stop (stk ++ [e])) (blocks e).
Proof.
  destruct e; try (cbn [visit_stmts blocks flat_map]; reflexivity).
  - cbn [visit_stmts blocks]. destruct (stop _ stk); auto. f_equal. generalize (stk ++ [EFile c m stmts]). intro st. induction stmts as [|[x|] l IH]; auto. cbn [flat_map app]. now rewrite <- IH.
  - cbn [visit_stmts blocks]. destruct (stop _ stk); auto. f_equal. now rewrite flat_map_app.
Qed.
Lemma block_child e x : In x (blocks e) -> height x < height e.
Proof.
  intro H. apply height_child. unfold children, fold_children. destruct e; try (now destruct H); cbn [blocks fold_children2] in *; rewrite ?map_id.
  - apply in_flat_map in H as ([y|] & J & K); [destruct K as [<- | []]|destruct K]. apply in_flat_map. exists (Some y). split; auto. now left.
  - apply in_app_iff. now right.
  - now right; right.
  - now right.
Qed.
Lemma is_def_spec e : is_def e = true <-> a_def e.
Proof. split; [destruct e; try discriminate; intros _; do 9 eexists; reflexivity|intros (? & ? & ? & ? & ? & ? & ? & ? & ? & ->); reflexivity]. Qed.
Definition defs_of (f : expr) (stk : list expr) : list expr := flat_map (fun v : expr * list expr => if is_def (fst v) then [fst v] else []) (visit_stmts (fun _ _ => false) stk f).
Lemma defs_spec e : forall stk, all_defs e (defs_of e stk).
Proof.
  remember (height e) as n eqn:Hn. revert e Hn. induction n as [n IH] using lt_wf_ind. intros e -> stk. unfold defs_of. rewrite visit_stmts_unfold. cbn [flat_map fst].
  assert (G : exists ls, Forall2 all_defs (blocks e) ls /\ flat_map (fun v : expr * list expr => if is_def (fst v) then [fst v] else []) (flat_map (visit_stmts (fun _ _ => false) (stk ++ [e])) (blocks e)) = List.concat ls).
  { assert (Hb : forall x, In x (blocks e) -> height x < height e) by (intros; now apply block_child). revert Hb. generalize (blocks e). intros l Hb. induction l as [|x l IHl]; [exists []; auto|].
    destruct IHl as (ls & F & E); [intros; apply Hb; now right|]. exists (defs_of x (stk ++ [e]) :: ls). split; [constructor; auto; eapply IH; eauto; apply Hb; now left|]. cbn [flat_map List.concat]. rewrite flat_map_app, E. reflexivity. }
  destruct G as (ls & F & ->). pose proof (is_def_spec e) as Sp. destruct (is_def e); cbn [app]; [apply ad_def|apply ad_other]; auto; [now apply Sp|]. intro K. apply Sp in K. discriminate.
Qed.
Definition stops (e : expr) (stk : list expr) : bool := is_def e && negb (match stk with [] => true | _ => false end).
Definition gives_value (v : expr * list expr) : bool := match fst v with EReturn _ _ (Some _) => true | _ => false end.
Lemma yields_spec : forall n x stk, height x < n -> stk <> [] -> (existsb gives_value (visit_stmts stops stk x) = true <-> yields x).
Proof.
  induction n as [|n IH]; intros x stk Hn Ns; [lia|]. rewrite visit_stmts_unfold. cbn [existsb]. rewrite orb_true_iff.
  assert (St : stops x stk = is_def x) by (unfold stops; destruct stk; [contradiction|now rewrite andb_true_r]). rewrite St.
  assert (B : forall l, (forall y, In y l -> height y < n) -> (existsb gives_value (flat_map (visit_stmts stops (stk ++ [x])) l) = true <-> exists y, In y l /\ yields y)).
  { intros l Hb. induction l as [|y l IHl]; cbn [flat_map existsb]; [split; [discriminate|intros (y & [] & _)]|].
    rewrite existsb_app, orb_true_iff, IHl by (intros; apply Hb; now right). rewrite (IH y) by (try (apply Hb; now left); destruct stk; discriminate). split.
    - intros [K|(z & J & K)]; [exists y; split; [now left|auto]|exists z; split; [now right|auto]].
    - intros (z & [<- | J] & K); eauto. }
  specialize (B (blocks x)). pose proof (is_def_spec x) as Sp. destruct (is_def x).
  - destruct (proj1 Sp eq_refl) as (? & ? & ? & ? & ? & ? & ? & ? & ? & ->). split; [intros [K|K]; discriminate K|]. intro K. inversion K; subst. elim H. do 9 eexists. reflexivity.
  - rewrite B by (intros y J; apply block_child in J; lia). split.
    + intros [K|(y & J & K)]; [unfold gives_value in K; cbn [fst] in K; destruct x; try discriminate; match goal with K : context [match ?o with Some _ => true | None => false end] |- _ => destruct o end; try discriminate; constructor|]. apply (yi_inner x y); auto. intro Kd. apply Sp in Kd. discriminate.
    + intro K. inversion K; subst; [now left|right; eauto].
Qed.
Lemma returns_spec e : a_def e -> (hasReturnValues e = true <-> returns_value e).
Proof.
  intro Hd. change (hasReturnValues e) with (existsb gives_value (visit_stmts stops [] e)). rewrite visit_stmts_unfold. destruct Hd as (c & p & ps & b & n & q & k & m & t & ->).
  set (e := EDef _ _ _ _ _ _ _ _ _). change (stops e []) with false. cbn [existsb app]. change (gives_value (e, [])) with false. cbn [orb]. unfold returns_value. generalize (blocks e). intro l.
  induction l as [|x l IHl]; cbn [flat_map existsb]; [split; [discriminate|intros (y & [] & _)]|].
  rewrite existsb_app, orb_true_iff, IHl. rewrite (yields_spec (S (height x)) x) by (try lia; discriminate). split.
  - intros [K|(z & J & K)]; [exists x; split; [now left|auto]|exists z; split; [now right|auto]].
  - intros (z & [<- | J] & K); eauto.
Qed.
(** Every file has exactly one list of functions. *)
Lemma defs_fun e : forall l l', all_defs e l -> all_defs e l' -> l = l'.
Proof.
  remember (height e) as n eqn:Hn. revert e Hn. induction n as [n IH] using lt_wf_ind. intros e -> l l' H H'.
  assert (G : forall ls ls', Forall2 all_defs (blocks e) ls -> Forall2 all_defs (blocks e) ls' -> ls = ls').
  { assert (Hb : forall x, In x (blocks e) -> height x < height e) by (intros; now apply block_child). revert Hb. generalize (blocks e). intros b Hb ls ls' F. revert ls'. induction F as [|x y b ls Hx F IHF]; intros ls' F'; inversion F'; subst; auto. f_equal; [|apply IHF; auto; intros; apply Hb; now right]. eapply IH; eauto. apply Hb. now left. }
  inversion H; inversion H'; subst; try contradiction; f_equal; try f_equal; auto.
Qed.
(** A function of a file *)
Definition function_is (d : expr) (start : pos) (name : bytes) (params body : list expr) : Prop :=
  exists c p q k m t, d = EDef c p params body name q k m t /\ start = start_pos d.
Definition doc_of (d : expr) (s : strlit) : Prop := exists st n ps b, function_is d st n ps b /\ has_doc b s.
(** What is reported for every function that has a docstring, in order *)
Inductive reports {R} (P : expr -> strlit -> list R -> Prop) : list expr -> list R -> Prop :=
  | rp_nil : reports P [] []
  | rp_none d l r : (forall s, ~ doc_of d s) -> reports P l r -> reports P (d :: l) r
  | rp_doc d s l a r : doc_of d s -> P d s a -> reports P l r -> reports P (d :: l) (a ++ r).
Definition functions_of_defs (l : list expr) : list function := flat_map (fun e => match function_of e with Some d => [d] | None => [] end) l.
Lemma functions_in_defs f defs : all_defs f defs -> functions_in f = functions_of_defs defs.
Proof.
  intro H. rewrite (defs_fun f defs _ H (defs_spec f [])). unfold functions_in, defs_of, functions_of_defs. induction (visit_stmts (fun _ _ => false) [] f) as [|v l IH]; auto. cbn [flat_map]. rewrite IH. destruct (fst v) eqn:E; reflexivity.
Qed.
Lemma defs_are f defs : all_defs f defs -> Forall a_def defs.
Proof.
  intro H. rewrite (defs_fun f defs _ H (defs_spec f [])). unfold defs_of. apply Forall_forall. intros x K. apply in_flat_map in K as (v & _ & K). destruct (is_def (fst v)) eqn:E; [destruct K as [<- | []]|destruct K]. now apply is_def_spec.
Qed.
Lemma each_spec {R} (g : function -> strlit -> info -> list R) (P : expr -> strlit -> list R -> Prop) f defs : all_defs f defs ->
  (forall d st n ps b s i D ls indent, function_is d st n ps b -> has_doc b s -> (p_rune (s_start s) = Z.of_nat indent + 1)%Z -> lines_of (s_value s) ls -> known indent ls D i -> P d s (g (Function st n ps b d) s i)) ->
  (forall d s, In d defs -> doc_of d s -> (1 <= p_rune (s_start s))%Z) -> exists r, each_docstring g f = Some r /\ reports P defs r.
Proof.
  intros A HP Hr. unfold each_docstring. rewrite (functions_in_defs f defs A). apply defs_are in A. induction A as [|d defs Hd A IH]; [exists []; split; auto; constructor|].
  destruct IH as (r & E & Rr); [intros; eapply Hr; eauto; now right|]. pose proof Hd as (c & p & ps & b & n & q & k & m & t & Ed). assert (Fi : function_is d (start_pos d) n ps b) by (exists c, p, q, k, m, t; auto).
  cbn [functions_of_defs flat_map]. replace (function_of d) with (Some (Function (start_pos d) n ps b d)) by (rewrite Ed; reflexivity). cbn [app all_some f_body]. pose proof (doc_spec b) as Db. change (flat_map (fun e : expr => match function_of e with Some d0 => [d0] | None => [] end) defs) with (functions_of_defs defs). rewrite E.
  destruct (docstring_of b) as [s|].
  - assert (Hs : (1 <= p_rune (s_start s))%Z) by (apply (Hr d); [now left|]; exists (start_pos d), n, ps, b; auto).
    destruct (C97_docstring s (Z.to_nat (p_rune (s_start s) - 1)) (doc_lines (s_value s))) as (i & D & Ei & K); [lia|apply doc_lines_spec|]. rewrite Ei. cbn [option_map]. eexists. split; [reflexivity|]. apply rp_doc with s; auto.
    + exists (start_pos d), n, ps, b; auto.
    + eapply HP; eauto; [|apply doc_lines_spec]. lia.
  - cbn [app]. eexists. split; [reflexivity|]. apply rp_none; auto. intros s (st' & n' & ps' & b' & (c' & p' & q' & k' & m' & t' & E' & _) & Hb). rewrite Ed in E'. injection E' as -> -> -> -> -> -> -> -> ->. now apply Db in Hb.
Qed.
Lemma each_panic {R} (g : function -> strlit -> info -> list R) f defs d s : all_defs f defs -> In d defs -> doc_of d s -> (p_rune (s_start s) < 1)%Z -> each_docstring g f = None.
Proof.
  intros A J Hd Hs. unfold each_docstring. rewrite (functions_in_defs f defs A). clear A. destruct Hd as (st & n & ps & b & (c & p & q & k & m & t & Ed & _) & Hb).
  induction defs as [|x defs IH]; [destruct J|]. cbn [functions_of_defs flat_map]. change (flat_map (fun e : expr => match function_of e with Some d0 => [d0] | None => [] end) defs) with (functions_of_defs defs). destruct J as [-> | J].
  - rewrite Ed. cbn [function_of app all_some f_body]. pose proof (doc_spec b) as Db. destruct (docstring_of b) as [s'|]; [|now apply Db in Hb]. unfold has_doc in *. pose proof (first_fun _ _ _ Hb Db) as E. injection E as <-. unfold parseFunctionDocstring. apply Z.ltb_lt in Hs. rewrite Hs. reflexivity.
  - specialize (IH J). destruct (function_of x); cbn [app all_some]; [|exact IH]. rewrite IH. destruct (match docstring_of (f_body f0) with Some _ => _ | None => _ end); reflexivity.
Qed.
(** function-docstring-header: the functions whose docstring has no one-line summary *)
Definition no_summary (d : expr) (s : strlit) (a : list (bytes * strlit)) : Prop :=
  forall st n ps b ls, function_is d st n ps b -> lines_of (s_value s) ls -> (summary ls -> a = []) /\ (~ summary ls -> a = [(n, s)]).
Lemma function_fun d st n ps b st' n' ps' b' : function_is d st n ps b -> function_is d st' n' ps' b' -> st = st' /\ n = n' /\ ps = ps' /\ b = b'.
Proof. intros (c & p & q & k & m & t & E & ->) (c' & p' & q' & k' & m' & t' & E' & ->). rewrite E in E'. injection E' as -> -> -> -> -> -> -> -> ->. auto. Qed.
Theorem C97_header : forall f defs, all_defs f defs -> (forall d s, In d defs -> doc_of d s -> (1 <= p_rune (s_start s))%Z) ->
  exists r, functionDocstringHeaderWarning f = Some r /\ reports no_summary defs r.
Proof.
  intros f defs A H. apply each_spec; auto. intros d st n ps b s i D ls indent Fi _ _ Hl (_ & K & _) st' n' ps' b' ls' Fi' Hl'. destruct (function_fun _ _ _ _ _ _ _ _ _ Fi Fi') as (_ & <- & _). rewrite (lines_fun _ _ _ Hl' Hl). cbn [f_name].
  destruct (i_header i); split; intro Hs; auto; [elim Hs; now apply K|apply K in Hs; discriminate].
Qed.
Print Assumptions C97_header.
(** function-docstring-return: the functions that need a docstring and return values, and whose docstring has no section Returns: *)
Definition no_returns (d : expr) (s : strlit) (a : list (bytes * strlit)) : Prop :=
  forall st n ps b ls indent, function_is d st n ps b -> lines_of (s_value s) ls -> (p_rune (s_start s) = Z.of_nat indent + 1)%Z ->
  let asked := needs_doc st n b /\ returns_value d /\ ~ exists j, titled indent ls j %"Returns:" in (asked -> a = [(n, s)]) /\ (~ asked -> a = []).
Theorem C97_return : forall f defs, all_defs f defs -> (forall d s, In d defs -> doc_of d s -> (1 <= p_rune (s_start s))%Z) ->
  exists r, functionDocstringReturnWarning f = Some r /\ reports no_returns defs r.
Proof.
  intros f defs A H. apply each_spec; auto. intros d st n ps b s i D ls indent Fi _ Pr Hl (_ & _ & _ & _ & K & _) st' n' ps' b' ls' indent' Fi' Hl' Pr'. destruct (function_fun _ _ _ _ _ _ _ _ _ Fi Fi') as (<- & <- & <- & <-). rewrite (lines_fun _ _ _ Hl' Hl). clear Hl' ls'. assert (indent' = indent) by lia. subst indent'. cbn [f_name f_start f_body f_def]. cbv zeta.
  assert (E : (isDocstringRequired st n b && hasReturnValues d && negb (i_returns i) = true)%bool <-> needs_doc st n b /\ returns_value d /\ ~ exists j, titled indent ls j %"Returns:").
  { rewrite !andb_true_iff, negb_true_iff, needs_spec, returns_spec, <- K; [|destruct Fi as (? & ? & ? & ? & ? & ? & -> & _); do 9 eexists; reflexivity]. rewrite not_true_iff_false. tauto. }
  destruct (isDocstringRequired st n b && hasReturnValues d && negb (i_returns i))%bool; split; intro Hs; auto; [elim Hs; now apply E|apply E in Hs; discriminate].
Qed.
Print Assumptions C97_return.
(** They only fail for a docstring that has no position. *)
Theorem C97_panic : forall f defs d s, all_defs f defs -> In d defs -> doc_of d s -> (p_rune (s_start s) < 1)%Z -> functionDocstringHeaderWarning f = None /\ functionDocstringReturnWarning f = None.
Proof. intros f defs d s A J Hd Hs. split; eapply each_panic; eauto. Qed.
Print Assumptions C97_panic.
(** ** Arguments *)
(** The name of a parameter and the stars in front of it *)
Inductive param_name : expr -> bytes -> bytes -> Prop :=
  | pn_ident i : param_name (EIdent i) [] (i_name i)
  | pn_typed c i t : param_name (ETyped c i t) [] (i_name i)
  | pn_default c x p op lb y o n : param_name x o n -> param_name (EAssign c x p op lb y) o n
  | pn_star c p op x o n : param_name x o n -> param_name (EUnary c p op (Some x)) op n.
Inductive names_of : list expr -> list bytes -> Prop :=
  | nm_nil : names_of [] []
  | nm_name x o n l ns : param_name x o n -> n <> [] -> names_of l ns -> names_of (x :: l) ((o ++ n) :: ns)
  | nm_none x l ns : (forall o n, param_name x o n -> n = []) -> names_of l ns -> names_of (x :: l) ns.
(** The parameter that was probably meant *)
Definition meant_by (names : list bytes) (n : bytes) (m : option bytes) : Prop :=
  (In (%"*" ++ n) names /\ m = Some (%"*" ++ n)) \/ (~ In (%"*" ++ n) names /\ In (%"**" ++ n) names /\ m = Some (%"**" ++ n)) \/ (~ In (%"*" ++ n) names /\ ~ In (%"**" ++ n) names /\ m = None).
Section Asked.
  Context (d : expr) (s : strlit) (start : pos) (name : bytes) (params body : list expr) (names : list bytes) (indent : nat) (ls : list bytes) (D : list (nat * bytes)).
  Let line := p_line (s_start s).
  (** The last line Arguments: of an indented docstring should be Args: *)
  Definition prefers (a : list arg_finding) : Prop :=
    (forall j, 0 < indent -> titled indent ls j %"Arguments:" -> (forall k, titled indent ls k %"Arguments:" -> k <= j) ->
       a = [PreferArgs (Pos (line + Z.of_nat j) (Z.of_nat indent) 0) (Pos (line + Z.of_nat j) (Z.of_nat indent + 10) 10)]) /\
    ((indent = 0 \/ forall j, ~ titled indent ls j %"Arguments:") -> a = []).
  (** The parameters that are not described, in one finding *)
  Definition undescribed (a : list arg_finding) : Prop :=
    exists missing keep, missing = filter keep names /\ (forall n, keep n = true <-> ~ exists j, In (j, n) D) /\
    (missing = [] -> a = []) /\ (missing <> [] -> exists b, a = [NotDocumented missing b s] /\ (b = true <-> D = [])).
  (** The names that are described but are no parameters, each in one finding about the line where it is described last *)
  Definition unknown_at (n : bytes) (x : arg_finding) : Prop :=
    exists j l k m, last_at D n j /\ line_is ls j l /\ indented l k /\ meant_by names n m /\
    x = Unknown n m (Pos (line + Z.of_nat j) (Z.of_nat indent + Z.of_nat k) 0) (Pos (line + Z.of_nat j) (Z.of_nat indent + Z.of_nat k + Z.of_nat (List.length n)) 0).
  Definition unknowns (a : list arg_finding) : Prop :=
    exists N, NoDup N /\ (forall n, In n N <-> (exists j, In (j, n) D) /\ ~ In n names) /\ Forall2 unknown_at N a.
  (** If a docstring is needed, or describes some argument *)
  Definition checked : Prop := needs_doc start name body \/ D <> [].
End Asked.
Definition args_asked (d : expr) (s : strlit) (a : list arg_finding) : Prop :=
  forall st n ps b names ls indent, function_is d st n ps b -> names_of ps names -> lines_of (s_value s) ls -> (p_rune (s_start s) = Z.of_nat indent + 1)%Z ->
  exists D x y z, described indent ls D /\ a = x ++ y ++ z /\ prefers s indent ls x /\
    (checked st n b D -> undescribed s names D y /\ unknowns s names indent ls D z) /\ (~ checked st n b D -> y = [] /\ z = []).
Lemma GetParam_spec e : match GetParam e with Some (i, op) => forall o n, param_name e o n <-> o = op /\ n = i_name i | None => forall o n, ~ param_name e o n end.
Proof.
  remember (height e) as h eqn:Hh. revert e Hh. induction h as [h IH] using lt_wf_ind. intros e ->. destruct e; try (cbn [GetParam]; intros o n K; inversion K; fail).
  - cbn [GetParam]. intros o n. split; [intro K; inversion K; auto|]. intros (-> & ->). constructor.
  - cbn [GetParam]. intros o n. split; [intro K; inversion K; auto|]. intros (-> & ->). constructor.
  - cbn [GetParam]. destruct x as [x|]; [|intros o n K; inversion K].
    match goal with |- context [EUnary ?a ?b ?o (Some x)] => assert (L : height x < height (EUnary a b o (Some x))) by (apply height_child; now left) end. specialize (IH _ L x eq_refl). destruct (GetParam x) as [[i op']|]; cbn [option_map fst].
    + intros o n. split; [intro K; inversion K; subst; match goal with K : param_name x _ _ |- _ => apply IH in K as (_ & ->) end; auto|]. intros (-> & ->). econstructor. apply (IH op'). auto.
    + intros o n K. inversion K; subst. eapply IH; eauto.
  - cbn [GetParam]. match goal with |- context [EAssign c ?x ?p ?op ?lb ?y] => assert (L : height x < height (EAssign c x p op lb y)) by (apply height_child; now left); specialize (IH _ L x eq_refl); destruct (GetParam x) as [[i op']|] end.
    + intros o n. split; [intro K; inversion K; subst; now apply IH|]. intros K. constructor. now apply IH.
    + intros o n K. inversion K; subst. eapply IH; eauto.
Qed.
Lemma names_spec ps : names_of ps (flat_map starred_name ps).
Proof.
  induction ps as [|x l IH]; [constructor|]. cbn [flat_map]. unfold starred_name at 1. pose proof (GetParam_spec x) as G. destruct (GetParam x) as [[i op]|].
  - destruct (i_name i) eqn:E; cbn [app]; [apply nm_none; auto; intros o n K; now apply G in K as (_ & ->)|]. rewrite <- E. apply nm_name; auto; [now apply G|]. rewrite E. discriminate.
  - apply nm_none; auto. intros o n K. now apply G in K.
Qed.
Lemma param_fun e o n : param_name e o n -> forall o' n', param_name e o' n' -> o = o' /\ n = n'.
Proof. intros H o' n' H'. pose proof (GetParam_spec e) as G. destruct (GetParam e) as [[i op]|]; [|now apply G in H]. apply G in H as (-> & ->). apply G in H' as (-> & ->). auto. Qed.
Lemma names_fun ps ns : names_of ps ns -> forall ns', names_of ps ns' -> ns = ns'.
Proof.
  induction 1 as [|x o n l ns P N H IH|x l ns P H IH]; intros ns' H'; inversion H'; subst; auto.
  - match goal with K : param_name x _ _ |- _ => destruct (param_fun _ _ _ P _ _ K) as (-> & ->) end. f_equal. auto.
  - exfalso. eauto.
  - exfalso. eauto.
Qed.
Lemma lookup_known indent ls D i n : known indent ls D i -> (lookup n (i_args i) <> None <-> exists j, In (j, n) D).
Proof.
  intros (Hd & _ & Ka & Nd & _). split.
  - intro H. destruct (lookup n (i_args i)) as [[j col]|] eqn:E; [|now contradiction H]. apply lookup_in in E; auto. apply Ka in E as ((J & _) & _). eauto.
  - intros (j & J) K.
    assert (La : exists j', last_at D n j').
    { clear -J. assert (G : forall l : list (nat * bytes), (exists j, In (j, n) l) -> exists j, In (j, n) l /\ forall k, In (k, n) l -> k <= j).
      { induction l as [|[a m] l IH]; intros (j0 & J0); [destruct J0|]. destruct (beq m n) eqn:E.
        - apply beq_eq in E. subst m. destruct (existsb (fun v => beq (snd v) n) l) eqn:X.
          + apply existsb_exists in X as ([b m] & J1 & E). apply beq_eq in E. cbn in E. subst m. destruct IH as (j1 & J2 & M); [eauto|]. exists (Nat.max a j1). split; [destruct (Nat.max_spec a j1) as [(_ & ->)|(_ & ->)]; [now right|now left]|]. intros k [K|K]; [injection K as <-; lia|apply M in K; lia].
          + exists a. split; [now left|]. intros k [K|K]; [injection K as <-; lia|]. exfalso. assert (existsb (fun v => beq (snd v) n) l = true) by (apply existsb_exists; exists (k, n); split; auto; apply beq_refl). congruence.
        - apply beq_neq in E. destruct IH as (j1 & J2 & M); [destruct J0 as [J0|J0]; [injection J0 as _ ->; contradiction|eauto]|]. exists j1. split; [now right|]. intros k [K|K]; [injection K as _ ->; contradiction|auto]. }
      destruct (G D) as (j' & J' & M); [eauto|]. exists j'. split; auto. }
    destruct La as (j' & La). pose proof La as (J' & _). apply Hd in J' as (l & k & Hl & _ & _ & Hk & _). assert (X : In (n, (j', (Z.of_nat indent + Z.of_nat k)%Z)) (i_args i)) by (apply Ka; split; eauto). apply lookup_in in X; auto. congruence.
Qed.
Lemma known_nil indent ls D i : known indent ls D i -> (i_args i = [] <-> D = []).
Proof.
  intro K. split; intro H.
  - destruct D as [|[j n] D]; auto. exfalso. assert (X : lookup n (i_args i) <> None) by (apply (lookup_known indent ls ((j, n) :: D)); auto; exists j; now left). rewrite H in X. now apply X.
  - destruct (i_args i) as [|[n v] l] eqn:E; auto. exfalso. assert (X : exists j, In (j, n) D) by (apply (lookup_known indent ls D i); auto; rewrite E; cbn [lookup]; rewrite beq_refl; discriminate). rewrite H in X. now destruct X.
Qed.
Lemma meant_spec names n : meant_by names n (find (fun x => mem_bytes x names) [%"*" ++ n; %"**" ++ n]).
Proof.
  unfold meant_by. cbn [find]. pose proof (mem_bytes_In (%"*" ++ n) names) as A. pose proof (mem_bytes_In (%"**" ++ n) names) as A2. destruct (mem_bytes (%"*" ++ n) names); [left; split; auto; now apply A|]. assert (~ In (%"*" ++ n) names) by (intro K; apply A in K; discriminate). right.
  destruct (mem_bytes (%"**" ++ n) names); [left; split; auto; split; auto; now apply A2|]. right. split; auto. split; auto. intro K. apply A2 in K. discriminate.
Qed.
Theorem C97_args : forall map_order f defs, (forall l, Permutation l (map_order l)) -> all_defs f defs -> (forall d s, In d defs -> doc_of d s -> (1 <= p_rune (s_start s))%Z) ->
  exists r, functionDocstringArgsWarning map_order f = Some r /\ reports args_asked defs r.
Proof.
  intros mo f defs Mo A H. apply each_spec; auto. intros d st n ps b s i D ls indent Fi _ Pr Hl K st' n' ps' b' names ls' indent' Fi' Nm Hl' Pr'. destruct (function_fun _ _ _ _ _ _ _ _ _ Fi Fi') as (<- & <- & <- & <-). rewrite (lines_fun _ _ _ Hl' Hl). clear Hl' ls'. assert (indent' = indent) by lia. subst indent'. rewrite (names_fun _ _ Nm _ (names_spec ps)). clear Nm names.
  exists D. unfold args_of_function. cbn [f_params f_start f_name f_body]. set (names := flat_map starred_name ps). replace (p_rune (s_start s) - 1)%Z with (Z.of_nat indent) by lia.
  match goal with |- context [?x ++ (if ?c then [] else ?y ++ ?z)] => exists x, (if c then [] else y), (if c then [] else z) end.
  split; [apply K|]. split; [now destruct (negb _ && _)%bool|].
  pose proof K as (_ & _ & Ka & Nd & _ & _ & Kr). split.
  { split.
    - intros j Hi Hj Hm. assert (E : i_arguments i = Some j) by (apply Kr; auto). rewrite E. replace (Z.of_nat indent >? 0)%Z with true by (symmetry; apply Z.gtb_lt; lia). reflexivity.
    - intro Hn. destruct (i_arguments i) as [j|] ; auto. destruct (proj1 (Kr j) eq_refl) as (E & _). destruct Hn as [-> | Hn]; [reflexivity|now apply Hn in E]. }
  assert (Ck : (negb (isDocstringRequired st n b) && match i_args i with [] => true | _ => false end)%bool = false <-> checked st n b D).
  { unfold checked. rewrite <- needs_spec, <- (known_nil _ _ _ _ K). destruct (isDocstringRequired st n b), (i_args i); cbn [negb andb]; split; try reflexivity; try (intros _; left; reflexivity); try (intros _; right; discriminate); try discriminate. intros [X|X]; [discriminate X|now contradiction X]. }
  destruct (negb (isDocstringRequired st n b) && match i_args i with [] => true | _ => false end)%bool.
  - split; auto. intro X. apply Ck in X. discriminate.
  - split; [|intro X; elim X; now apply Ck]. intros _. split.
    + exists (filter (fun n0 => match lookup n0 (i_args i) with Some _ => false | None => true end) names), (fun n0 => match lookup n0 (i_args i) with Some _ => false | None => true end). split; auto. split.
      { intro m. rewrite <- (lookup_known indent ls D i m K). destruct (lookup m (i_args i)); split; auto; try discriminate. intro X. contradiction X. discriminate. }
      destruct (filter _ names) as [|x l]; split; intro X; auto; try discriminate; [now contradiction X|]. eexists. split; [reflexivity|]. rewrite <- (known_nil _ _ _ _ K). destruct (i_args i); split; auto; discriminate.
    + set (args := mo (i_args i)). assert (Pa : Permutation (i_args i) args) by apply Mo. clearbody args.
      exists (map fst (filter (fun a => negb (mem_bytes (fst a) names)) args)).
      assert (Nda : NoDup (map fst args)) by (eapply Permutation_NoDup; [apply Permutation_map, Pa|exact Nd]).
      assert (Ina : forall n j col, In (n, (j, col)) args <-> last_at D n j /\ exists l k, line_is ls j l /\ indented l k /\ col = (Z.of_nat indent + Z.of_nat k)%Z).
      { intros. rewrite <- Ka. split; apply Permutation_in; [now apply Permutation_sym|auto]. }
      split; [|split].
      * clear -Nda. induction args as [|a args IH]; [constructor|]. cbn [map] in Nda. inversion Nda as [|? ? X Nd']; subst. cbn [filter]. destruct (negb (mem_bytes (fst a) names)); auto. cbn [map]. constructor; auto. intro J. apply X. apply in_map_iff in J as (y & <- & J). apply filter_In in J as (J & _). now apply in_map.
      * intro m. rewrite in_map_iff. split.
        { intros ([m' [j col]] & <- & J). apply filter_In in J as (J & Nm). cbn [fst] in *. apply Ina in J as ((J & _) & _). split; [eauto|]. intro X. apply mem_bytes_In in X. rewrite X in Nm. discriminate. }
        { intros (Hj & Nm). apply (lookup_known indent ls D i m K) in Hj. destruct (lookup m (i_args i)) as [v|] eqn:E; [|now contradiction Hj]. apply lookup_in in E; auto. exists (m, v). split; auto. apply filter_In. split; [eapply Permutation_in; eauto|]. cbn [fst]. destruct (mem_bytes m names) eqn:X; auto. apply mem_bytes_In in X. contradiction. }
      * clear Pa Nda. assert (Sub : forall m j col, In (m, (j, col)) args -> last_at D m j /\ exists l k, line_is ls j l /\ indented l k /\ col = (Z.of_nat indent + Z.of_nat k)%Z) by (intros; now apply Ina). clear Ina.
        induction args as [|[m [j col]] args IH]; [constructor|]. assert (IH' := IH (fun m j col J => Sub m j col (or_intror J))). clear IH. cbn [filter flat_map fst]. unfold unknown_arg at 1. destruct (mem_bytes m names); cbn [negb app]; [exact IH'|]. cbn [map fst]. constructor; [|exact IH'].
        destruct (Sub m j col (or_introl eq_refl)) as (La & l & k & Hl' & Hk & ->). exists j, l, k. eexists. split; auto. split; auto. split; auto. split; [apply meant_spec|reflexivity].
Qed.
Print Assumptions C97_args.
Theorem C97_args_panic : forall map_order f defs d s, all_defs f defs -> In d defs -> doc_of d s -> (p_rune (s_start s) < 1)%Z -> functionDocstringArgsWarning map_order f = None.
Proof. intros mo f defs d s A J Hd Hs. eapply each_panic; eauto. Qed.
Print Assumptions C97_args_panic.
(** ** The positions that are reported *)
(** They are not where the names are: the column is off by the indentation. *)
Definition ex_nl : bytes := [c_nl].
Definition ex_q3 : bytes := [c_quote; c_quote; c_quote].
Definition ex_v : bytes := join ex_nl [%"Sum."; []; %"  Args:"; %"    y: it"; %"      more: of it"; %"    x (list of int): that"; %"  Returns:"; %"    z: no"; %"  "].
Definition ex_doc : strlit := Str no_com (Pos 2 3 0) ex_v true (Pos 10 6 0) (ex_q3 ++ ex_v ++ ex_q3).
Definition ex_id (n : bytes) : expr := EIdent (Ident no_com (Pos 1 1 0) n).
Definition ex_params : list expr := [ex_id %"x"; EUnary no_com no_pos %"*" (Some (ex_id %"y")); EAssign no_com (ex_id %"w") no_pos %"=" false (ex_id %"None"); EUnary no_com no_pos %"*" None].
Definition ex_fun (s : strlit) (b : list expr) : expr := EDef no_com (Pos 1 1 0) ex_params (EStr s :: b) %"f" no_pos false false None.
Definition ex_file (s : strlit) : expr := EFile no_com (FMeta [] [] [] TypeBzl) [Some (ECommentBlock no_com no_pos); Some (ex_fun s [EIf no_com no_pos (ex_id %"x") [EReturn no_com no_pos (Some (ex_id %"x"))] (End no_com no_pos) [ex_id %"x"]; ex_id %"x"])].
Theorem C97_column_refuted : exists f s r n m a b, functionDocstringArgsWarning (fun l => l) f = Some r /\ In (Unknown n m a b) r /\
  unquote (s_token s) = (s_value s, true, None) /\ s_token s = ex_q3 ++ s_value s ++ ex_q3 /\ doc_of f s /\
  exists ls l k, lines_of (s_value s) ls /\ line_is ls (Z.to_nat (p_line a - p_line (s_start s))) l /\ describes l n /\ indented l k /\ p_rune a <> (Z.of_nat k + 1)%Z.
Proof.
  exists (ex_fun ex_doc []), ex_doc. eexists. exists %"y", (Some %"*y"). do 2 eexists. split; [vm_compute; reflexivity|]. split; [right; left; vm_compute; reflexivity|]. split; [vm_compute; reflexivity|]. split; [reflexivity|]. split; [do 4 eexists; split; [do 6 eexists; split; reflexivity|]; exists [], []; split; [reflexivity|]; split; [constructor|]; intros [K|(? & ? & K)]; discriminate K|].
  exists (doc_lines ex_v), %"    y: it", 4. split; [apply doc_lines_spec|]. split; [vm_compute; reflexivity|]. split; [apply C97_describes; vm_compute; reflexivity|]. split; [apply indented_spec|]. vm_compute. discriminate.
Qed.
Print Assumptions C97_column_refuted.
(** Nor is the line, if the docstring is written with escapes: here it is one line of the file. *)
Definition ex_escaped : strlit := Str no_com (Pos 2 3 0) (join ex_nl [%"Sum."; []; %"  Args:"; %"    y: it"]) false (Pos 2 36 0)
  (c_quote :: %"Sum.\n\n  Args:\n    y: it" ++ [c_quote]).
Theorem C97_line_refuted : exists s r n m a b, functionDocstringArgsWarning (fun l => l) (ex_fun s []) = Some r /\ In (Unknown n m a b) r /\
  unquote (s_token s) = (s_value s, false, None) /\ ~ In c_nl (s_token s) /\ p_line (s_end s) = p_line (s_start s) /\ (p_line (s_end s) < p_line a)%Z.
Proof.
  exists ex_escaped. eexists. exists %"y", (Some %"*y"). do 2 eexists. split; [vm_compute; reflexivity|]. split; [right; left; vm_compute; reflexivity|]. split; [vm_compute; reflexivity|]. split; [|split; vm_compute; reflexivity].
  assert (E : existsb (ceq c_nl) (s_token ex_escaped) = false) by (vm_compute; reflexivity). intro K. assert (X : existsb (ceq c_nl) (s_token ex_escaped) = true) by (apply existsb_exists; exists c_nl; split; [exact K|reflexivity]). congruence.
Qed.
Print Assumptions C97_line_refuted.
(** ** An instance: f(x, *y, w = None) with a docstring of nine lines *)
Example C97_nontrivial_args : functionDocstringArgsWarning (fun l => l) (ex_file ex_doc) =
  Some [NotDocumented [%"*y"; %"w"] false ex_doc; Unknown %"y" (Some %"*y") (Pos 5 6 0) (Pos 5 7 0)].
Proof. vm_compute. reflexivity. Qed.
Example C97_nontrivial_others : functionDocstringHeaderWarning (ex_file ex_doc) = Some [] /\ functionDocstringReturnWarning (ex_file ex_doc) = Some [] /\
  moduleDocstringWarning (ex_file ex_doc) = Some (Pos 1 1 0) /\ functionDocstringWarning (ex_file ex_doc) = [].
Proof. vm_compute. auto. Qed.
Definition ex_bad : strlit := Str no_com (Pos 2 3 0) (join ex_nl [%"Sum of"; %"all."; %"  Arguments:"; %"    x: it"]) true (Pos 2 36 0) [].
Example C97_nontrivial_bad : functionDocstringHeaderWarning (ex_file ex_bad) = Some [(%"f", ex_bad)] /\ functionDocstringReturnWarning (ex_file ex_bad) = Some [(%"f", ex_bad)] /\
  functionDocstringArgsWarning (fun l => l) (ex_file ex_bad) = Some [PreferArgs (Pos 4 2 0) (Pos 4 12 10); NotDocumented [%"*y"; %"w"] false ex_bad].
Proof. repeat (apply conj); vm_compute; reflexivity. Qed.
Example C97_nontrivial_hyps : forall s, (1 <= p_rune (s_start s))%Z -> exists defs, all_defs (ex_file s) defs /\ List.length defs = 1 /\ forall d s', In d defs -> doc_of d s' -> (1 <= p_rune (s_start s'))%Z.
Proof.
  intros s H. exists (defs_of (ex_file s) []). split; [apply defs_spec|]. split; [reflexivity|]. intros d s' J (st & n & ps & b & (c & p & q & k & m & t & E & _) & Hb). cbn in J. destruct J as [<- | []]. injection E as <- <- <- <- <- <- <- <- <-.
  destruct Hb as (pre & post & E & F & _). destruct pre as [|x pre]; cbn [app map] in E; injection E as E1 E2; [rewrite <- E1; exact H|]. subst x. inversion F as [|? ? [K|(? & ? & K)]]; discriminate K.
Qed.
