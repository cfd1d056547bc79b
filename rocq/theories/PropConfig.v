(** C83: the options of buildifier. *)
From Verif Require Import Base BaseProofs Ast Lint Config.
Local Open Scope list_scope.

(** ** What the options mean *)
Definition or_else (x d : bytes) : bytes := match x with [] => d | _ => x end.
Definition modified (w : bytes) : Prop := exists x, w = %"+" ++ x \/ w = %"-" ++ x.
(** The categories that are chosen by the texts [l] (of warningsList and of --warnings), each a list separated by commas. *)
Inductive chosen (l all default ws : list bytes) : Prop :=
  | ch_default : l = [] \/ l = [[]] \/ l = [%"default"] -> ws = default -> chosen l all default ws
  | ch_all : l = [%"all"] -> ws = all -> chosen l all default ws
  | ch_plain : l <> [] -> l <> [[]] -> l <> [%"default"] -> l <> [%"all"] -> ws = flat_map (split c_comma) l -> Forall (fun w => ~ modified w) ws -> chosen l all default ws
  | ch_modified added : l <> [] -> Forall modified (flat_map (split c_comma) l) ->
      (forall x, In x added <-> In (%"+" ++ x) (flat_map (split c_comma) l)) -> NoDup added ->
      ws = filter (fun w => negb (mem_bytes (%"-" ++ w) (flat_map (split c_comma) l))) default ++ added -> chosen l all default ws.
(** The options that make sense together, and what they say. *)
Definition settled (c : config) (nargs : nat) (all default : list bytes) (mode lint : bytes) (ws : list bytes) : Prop :=
  In (c_type c) [%"build"; %"bzl"; %"workspace"; %"default"; %"module"; %"auto"] /\
  (c_format c = [] \/ (c_format c = %"text" \/ c_format c = %"json") /\ c_mode c = %"check") /\
  (c_diff c = true -> c_mode c = []) /\
  mode = (if c_diff c then %"diff" else or_else (c_mode c) %"fix") /\
  In mode [%"check"; %"diff"; %"fix"; %"print_if_changed"] /\
  lint = or_else (c_lint c) %"off" /\ In lint [%"off"; %"warn"; %"fix"] /\ (lint = %"fix" -> mode = %"fix") /\
  (c_path c <> [] \/ mode = %"print_if_changed" -> nargs <= 1) /\
  chosen (c_list c ++ match c_warnings c with [] => [] | w => [w] end) all default ws.
(** Go's iteration over the keys of a map *)
Definition map_order (order : list bytes -> list bytes) : Prop := forall l, NoDup (order l) /\ forall x, In x (order l) <-> In x l.

(** ** Proofs *)
Lemma split_cat a b : split c_comma (a ++ c_comma :: b) = split c_comma a ++ split c_comma b.
Proof.
  induction a as [|x a IH]; [reflexivity|]. change ((x :: a) ++ c_comma :: b) with (x :: (a ++ c_comma :: b)). cbn [split]. destruct (Ascii.eqb x c_comma); [rewrite IH; reflexivity|].
  rewrite IH. pose proof (split_nonempty c_comma a) as N. destruct (split c_comma a); [congruence|reflexivity].
Qed.
Lemma split_joined l : l <> [] -> split c_comma (join [c_comma] l) = flat_map (split c_comma) l.
Proof.
  induction l as [|x l IH]; intro N; [congruence|]. destruct l as [|y l]; [cbn [join flat_map]; now rewrite app_nil_r|].
  change (join [c_comma] (x :: y :: l)) with (x ++ [c_comma] ++ join [c_comma] (y :: l)). cbn [app]. rewrite split_cat, IH by discriminate. reflexivity.
Qed.
Lemma joined_one l t : ~ In c_comma t -> t <> [] -> (join [c_comma] l = t <-> l = [t]).
Proof.
  intros N E. split; [|intros ->; reflexivity]. destruct l as [|x [|y l]]; intro H; [cbn in H; congruence|change (x = t) in H; now rewrite H|]. elim N. rewrite <- H. change (In c_comma (x ++ [c_comma] ++ join [c_comma] (y :: l))). apply in_or_app. right. left. reflexivity.
Qed.
Lemma joined_none l : join [c_comma] l = [] <-> l = [] \/ l = [[]].
Proof. split; [|intros [-> | ->]; reflexivity]. destruct l as [|x [|y l]]; intro H; [auto|change (x = []) in H; subst; auto|]. change (x ++ [c_comma] ++ join [c_comma] (y :: l) = []) in H. destruct x; discriminate H. Qed.
Lemma plus_prefix w : has_prefix %"+" w = true <-> exists x, w = %"+" ++ x.
Proof. apply has_prefix_spec. Qed.
Lemma minus_prefix w : has_prefix %"-" w = true <-> exists x, w = %"-" ++ x.
Proof. apply has_prefix_spec. Qed.
Lemma in_plus parts x : In x (flat_map plus_of parts) <-> In (%"+" ++ x) parts.
Proof.
  rewrite in_flat_map. split.
  - intros (w & I & H). unfold plus_of in H. destruct (has_prefix %"+" w) eqn:P; [|destruct H]. apply plus_prefix in P as (y & ->). destruct H as [<-|[]]. exact I.
  - intro I. exists (%"+" ++ x). split; auto. unfold plus_of. rewrite (proj2 (plus_prefix _)); [left; reflexivity|eauto].
Qed.
Lemma in_minus parts x : In x (flat_map minus_of parts) <-> In (%"-" ++ x) parts.
Proof.
  rewrite in_flat_map. split.
  - intros (w & I & H). unfold minus_of in H. destruct (has_prefix %"+" w) eqn:P; [destruct H|]. destruct (has_prefix %"-" w) eqn:Q; [|destruct H]. apply minus_prefix in Q as (y & ->). destruct H as [<-|[]]. exact I.
  - intro I. exists (%"-" ++ x). split; auto. unfold minus_of. assert (E : has_prefix %"+" (%"-" ++ x) = false) by reflexivity. rewrite E, (proj2 (minus_prefix _)); [left; reflexivity|eauto].
Qed.
Lemma modified_bool w : modified w <-> has_prefix %"+" w || has_prefix %"-" w = true.
Proof.
  rewrite orb_true_iff. rewrite plus_prefix, minus_prefix. unfold modified. split; [intros (x & [H|H]); eauto|intros [(x & H)|(x & H)]; eauto].
Qed.
Lemma raw_none parts : flat_map raw_of parts = [] <-> Forall modified parts.
Proof.
  induction parts as [|w l IH]; [split; auto|]. cbn [flat_map]. unfold raw_of at 1. pose proof (modified_bool w) as M. destruct (has_prefix %"+" w || has_prefix %"-" w).
  - cbn [app]. rewrite IH. split; [intro; constructor; auto; apply M; auto|intro H; apply Forall_inv_tail in H; auto].
  - split; [discriminate|]. intro H. apply Forall_inv in H. apply M in H. discriminate.
Qed.
Lemma raw_all parts : flat_map plus_of parts = [] -> flat_map minus_of parts = [] -> flat_map raw_of parts = parts /\ Forall (fun w => ~ modified w) parts.
Proof.
  intros P M. assert (F : Forall (fun w => ~ modified w) parts).
  { apply Forall_forall. intros w I (x & [->| ->]).
    - apply in_plus in I. rewrite P in I. destruct I.
    - apply in_minus in I. rewrite M in I. destruct I. }
  split; auto. clear P M. induction F as [|w l H F IH]; auto. cbn [flat_map]. rewrite IH. unfold raw_of. destruct (has_prefix %"+" w || has_prefix %"-" w) eqn:E; auto. apply modified_bool in E. contradiction.
Qed.
Lemma raw_mixed parts : (exists w, In w parts /\ modified w) -> flat_map plus_of parts = [] -> flat_map minus_of parts = [] -> False.
Proof. intros (w & I & M) P N. destruct (raw_all _ P N) as [_ F]. rewrite Forall_forall in F. elim (F _ I M). Qed.
Lemma empty_not_modified : ~ modified [].
Proof. intros (x & [H|H]); discriminate. Qed.
Lemma warnings_spec order l all default : map_order order ->
  match ValidateWarnings order (join [c_comma] l) all default with
  | Some ws => chosen l all default ws
  | None => forall ws, ~ chosen l all default ws
  end.
Proof.
  intro Or. unfold ValidateWarnings. destruct (beq (join [c_comma] l) []) eqn:E0; [apply beq_eq, joined_none in E0; cbn; apply ch_default; [tauto|auto]|].
  apply beq_neq in E0. rewrite joined_none in E0. cbn [orb].
  destruct (beq (join [c_comma] l) %"default") eqn:E1; [apply beq_eq, joined_one in E1; [|cbn; intuition discriminate|discriminate]; apply ch_default; auto|].
  apply beq_neq in E1. rewrite joined_one in E1; [|cbn; intuition discriminate|discriminate].
  destruct (beq (join [c_comma] l) %"all") eqn:E2; [apply beq_eq, joined_one in E2; [|cbn; intuition discriminate|discriminate]; apply ch_all; auto|].
  apply beq_neq in E2. rewrite joined_one in E2; [|cbn; intuition discriminate|discriminate].
  assert (Nl : l <> []) by tauto. rewrite (split_joined l Nl). cbv zeta. set (parts := flat_map (split c_comma) l).
  assert (Np : parts <> []) by (unfold parts; destruct l as [|x l]; [congruence|]; cbn [flat_map]; pose proof (split_nonempty c_comma x); destruct (split c_comma x); [congruence|discriminate]).
  destruct (flat_map raw_of parts) as [|r rs] eqn:R.
  - apply raw_none in R. apply (ch_modified _ _ _ _ (order (flat_map plus_of parts))); auto.
    + intro x. rewrite (proj2 (Or _)). apply in_plus.
    + apply Or.
    + f_equal. apply filter_ext. intro w. f_equal. destruct (mem_bytes w _) eqn:A, (mem_bytes (%"-" ++ w) _) eqn:B; auto.
      * apply mem_bytes_In, in_minus, mem_bytes_In in A. discriminate (eq_trans (eq_sym A) B).
      * apply mem_bytes_In, in_minus, mem_bytes_In in B. discriminate (eq_trans (eq_sym A) B).
  - assert (Mixed : flat_map plus_of parts <> [] \/ flat_map minus_of parts <> [] -> forall ws, ~ chosen l all default ws).
    { intros X ws C. destruct C as [C _|C _|_ _ _ _ Ews F|added _ F _ _ _].
      - tauto.
      - tauto.
      - fold parts in Ews. subst ws. rewrite Forall_forall in F. destruct X as [X|X].
        + destruct (flat_map plus_of parts) as [|x t] eqn:P; [congruence|]. assert (I : In (%"+" ++ x) parts) by (apply in_plus; rewrite P; left; auto). apply (F _ I). exists x. auto.
        + destruct (flat_map minus_of parts) as [|x t] eqn:P; [congruence|]. assert (I : In (%"-" ++ x) parts) by (apply in_minus; rewrite P; left; auto). apply (F _ I). exists x. auto.
      - fold parts in F. apply raw_none in F. congruence. }
    destruct (flat_map plus_of parts) as [|p ps] eqn:P; [|apply Mixed; left; discriminate]. destruct (flat_map minus_of parts) as [|m ms] eqn:M; [|apply Mixed; right; discriminate].
    destruct (raw_all _ P M) as [R' F]. rewrite <- R, R'. apply ch_plain; auto.
Qed.
Lemma modes_spec c mode lint :
  ValidateModes (c_mode c) (c_lint c) (c_diff c) [] = Some (mode, lint) <->
  (c_diff c = true -> c_mode c = []) /\
  mode = (if c_diff c then %"diff" else or_else (c_mode c) %"fix") /\
  In mode [%"check"; %"diff"; %"fix"; %"print_if_changed"] /\
  lint = or_else (c_lint c) %"off" /\ In lint [%"off"; %"warn"; %"fix"] /\ (lint = %"fix" -> mode = %"fix").
Proof.
  unfold ValidateModes. destruct c as [ty fm md df ln wn wl pa]. cbn [c_mode c_lint c_diff]. rewrite app_nil_r.
  set (mode0 := if df then %"diff" else md). set (m' := if beq mode0 [] then %"fix" else mode0).
  assert (Em : (df = true -> md = []) -> m' = if df then %"diff" else or_else md %"fix").
  { intro H. unfold m', mode0. destruct df; [reflexivity|]. destruct md; reflexivity. }
  destruct (df && negb (beq md [])) eqn:D.
  { split; [discriminate|]. intros (H & _). apply andb_true_iff in D as [-> D]. rewrite H in D by auto. discriminate. }
  assert (H : df = true -> md = []). { intros ->. cbn in D. apply negb_false_iff, beq_eq in D. auto. }
  cbv zeta. fold mode0. fold m'. idtac.
  rewrite <- (Em H). set (l' := or_else ln %"off").
  destruct (negb (beq mode0 []) && negb (mem_bytes mode0 [%"check"; %"diff"; %"fix"; %"print_if_changed"])) eqn:V.
  { split; [discriminate|]. intros (_ & -> & I & _). apply andb_true_iff in V as [V1 V2]. apply negb_true_iff in V1, V2. unfold m' in I. rewrite V1 in I. apply mem_bytes_In in I. congruence. }
  assert (I : In m' [%"check"; %"diff"; %"fix"; %"print_if_changed"]).
  { unfold m'. destruct (beq mode0 []) eqn:Z; [cbn; auto|]. cbn [negb andb] in V. apply negb_false_iff, mem_bytes_In in V. exact V. }
  clearbody m'. clear V D Em. clearbody mode0.
  destruct (beq ln []) eqn:L0; [apply beq_eq in L0; subst ln l'|].
  { split; [intro E; injection E as <- <-; split; auto; split; auto; split; auto; split; auto; split; [left; auto|intro; discriminate]|]. intros (_ & -> & _ & -> & _). reflexivity. }
  assert (El : l' = ln) by (unfold l'; destruct ln; [discriminate|reflexivity]). rewrite El. clear El l'.
  destruct (beq ln %"off" || beq ln %"warn") eqn:L1.
  { apply orb_true_iff in L1. rewrite !beq_eq in L1. split; [intro E; injection E as <- <-|intros (_ & -> & _ & -> & _); reflexivity]. split; auto. split; auto. split; auto. split; auto. split; [destruct L1 as [->| ->]; cbn; auto|]. intro; destruct L1; subst; discriminate. }
  apply orb_false_iff in L1 as [L1 L2]. apply beq_neq in L1, L2. destruct (beq ln %"fix") eqn:L3; [apply beq_eq in L3; subst ln|apply beq_neq in L3].
  - destruct (beq m' %"fix") eqn:M; [apply beq_eq in M|apply beq_neq in M].
    + split; [intro E; injection E as <- <-; split; auto; split; auto; split; auto; split; auto; split; [right; right; left; auto|auto]|]. intros (_ & -> & _ & -> & _). reflexivity.
    + split; [discriminate|]. intros (_ & -> & _ & -> & _ & X). elim (M (X eq_refl)).
  - split; [discriminate|]. intros (_ & _ & _ & -> & [X|[X|[X|[]]]] & _); congruence.
Qed.
(** The options are accepted exactly if they make sense, and then they mean this. *)
Theorem C83_options :
  forall order c nargs all default, map_order order ->
    match Validate order c nargs all default with
    | Some (mode, lint, ws) => settled c nargs all default mode lint ws
    | None => forall mode lint ws, ~ settled c nargs all default mode lint ws
    end.
Proof.
  intros order c nargs all default Or. unfold Validate. destruct (ValidateInputType (c_type c)) eqn:T; cbn [negb].
  2:{ intros mode lint ws (H & _). apply mem_bytes_In in H. unfold ValidateInputType in T. congruence. }
  apply mem_bytes_In in T. assert (Fm : ValidateFormat (c_format c) (c_mode c) = true <-> c_format c = [] \/ (c_format c = %"text" \/ c_format c = %"json") /\ c_mode c = %"check").
  { unfold ValidateFormat. destruct (beq (c_format c) []) eqn:F; [apply beq_eq in F; tauto|apply beq_neq in F]. destruct (beq (c_format c) %"text" || beq (c_format c) %"json") eqn:G.
    - apply orb_true_iff in G. rewrite !beq_eq in G. rewrite beq_eq. tauto.
    - apply orb_false_iff in G as [G1 G2]. apply beq_neq in G1, G2. split; [discriminate|tauto]. }
  destruct (ValidateFormat (c_format c) (c_mode c)); cbn [negb]; [|intros mode lint ws (_ & H & _); apply Fm in H; discriminate]. assert (F := proj1 Fm eq_refl). clear Fm.
  destruct (ValidateModes (c_mode c) (c_lint c) (c_diff c) []) as [[mode lint]|] eqn:M.
  2:{ intros mode lint ws (_ & _ & H1 & H2 & H3 & H4 & H5 & H6 & _). assert (X := proj2 (modes_spec c mode lint) (conj H1 (conj H2 (conj H3 (conj H4 (conj H5 H6)))))). congruence. }
  assert (M' := proj1 (modes_spec c mode lint) M). destruct M' as (M1 & M2 & M3 & M4 & M5 & M6).
  assert (P : (negb (beq (c_path c) []) || beq mode %"print_if_changed") && Nat.ltb 1 nargs = false <-> (c_path c <> [] \/ mode = %"print_if_changed" -> nargs <= 1)).
  { rewrite andb_false_iff, orb_false_iff, negb_false_iff, beq_eq, beq_neq, Nat.ltb_ge. destruct (list_eq_dec Ascii.ascii_dec (c_path c) []), (list_eq_dec Ascii.ascii_dec mode %"print_if_changed"); tauto. }
  destruct (_ && Nat.ltb 1 nargs).
  { intros mode' lint' ws (_ & _ & H1 & H2 & H3 & H4 & H5 & H6 & H7 & _). assert (X := proj2 (modes_spec c mode' lint') (conj H1 (conj H2 (conj H3 (conj H4 (conj H5 H6)))))). rewrite M in X. injection X as <- <-. apply P in H7. discriminate. }
  assert (P' := proj1 P eq_refl). assert (Ew : (if beq (c_warnings c) [] then [] else [c_warnings c]) = match c_warnings c with [] => [] | w => [w] end) by (destruct (c_warnings c); reflexivity). rewrite Ew.
  pose proof (warnings_spec order (c_list c ++ match c_warnings c with [] => [] | w => [w] end) all default Or) as W. destruct (ValidateWarnings _ _ _ _) as [ws|].
  - unfold settled. tauto.
  - intros mode' lint' ws (_ & _ & _ & _ & _ & _ & _ & _ & _ & H). elim (W _ H).
Qed.
(** Categories that are on already, switched on: their findings are reported twice. *)
Theorem C83_twice_refuted :
  exists c ws, Validate (fun l => l) c 1 [%"a"; %"b"] [%"a"; %"b"] = Some (%"fix", %"warn", ws) /\ ws = [%"a"; %"b"; %"a"] /\
    forall w : lfinding nat, l_repl w = [] ->
      let fcts cat := if beq cat %"a" then Some (fun h : heap nat => [w]) else Some (fun h => []) in
      option_map (fun r => List.length (snd r)) (FileWarnings (fun h => ([], h)) (fun _ _ _ => false) fcts isort isort ws None ModeWarn (fun c => c)) = Some 2.
Proof.
  exists (Config %"auto" [] [] false %"warn" %"+a" [] []), [%"a"; %"b"; %"a"]. split; [reflexivity|]. split; [reflexivity|]. intros [s e m u r] H. cbn in H. subst r.
  cbv [FileWarnings]. change (isort blt [%"a"; %"b"; %"a"]) with [%"a"; %"a"; %"b"]. cbv [run_all runWarningsFunction run_step fold_left l_repl l_start l_end l_msg l_url beq]. cbn. unfold line_less. cbn. rewrite Z.ltb_irrefl. reflexivity.
Qed.
Example C83_nontrivial :
  let run f m d l w wl p n := Validate (fun l => l) (Config %"auto" f m d l w wl p) n [%"a"; %"b"; %"z"] [%"a"; %"b"] in
  run [] [] true [] [] [] [] 3 = Some (%"diff", %"off", [%"a"; %"b"]) /\
  run %"json" %"check" false %"warn" %"-a,+z" [] [] 3 = Some (%"check", %"warn", [%"b"; %"z"]) /\
  run [] [] false %"fix" %"z" [%"a"] %"p" 1 = Some (%"fix", %"fix", [%"a"; %"z"]) /\
  run [] %"check" false %"fix" [] [] [] 1 = None /\ run [] [] true %"fix" [] [] [] 1 = None /\ run [] %"check" true [] [] [] [] 1 = None /\
  run %"json" [] false [] [] [] [] 1 = None /\ run [] [] false [] %"a,+z" [] [] 1 = None /\ run [] [] false [] [] [] %"p" 2 = None.
Proof. repeat split. Qed.
Print Assumptions C83_options. Print Assumptions C83_twice_refuted.
