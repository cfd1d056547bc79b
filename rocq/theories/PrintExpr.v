(** Printed expressions are read back as the same expressions. *)
From Verif Require Import Base BaseProofs Ast Utf8 Quote Lex LexSpec LexProofs ParseSpec ShapeSpec ParseLex ParseProofs ParseComplete Print PrintSpec PrintLex PrintTok PrintState PrintSeq.
Local Open Scope list_scope.

Definition pcat (c : cat) : ascii -> bool := match c with Arg | Param | TParam => solid | _ => starter end.
Definition ple (c1 c : cat) : Prop := match c with Level n o => exists o', c1 = Level n o' /\ (o' = true -> o = true) | _ => c1 = c end.
Definition extra (c : cat) (e : expr) (ts0 : list token) (e1 : expr) (ts1 : list token) : Prop :=
  match c with
  | Prim => forall a, is KInt a -> ts1 = [a] -> exists a', is KInt a' /\ ts0 = [a']
  | Level _ _ => is_not e1 -> is_not e
  | _ => True
  end.
(** [e1], spelled [ts1], stands for [e], which was spelled [ts0]. *)
Definition stands (c : cat) (e : expr) (ts0 : list token) (e1 : expr) (ts1 : list token) : Prop :=
  exists c1, ple c1 c /\ one c1 e1 ts1 /\ meaning e1 = meaning e /\ extra c e ts0 e1 ts1.
Definition Xof (c : cat) (e : expr) (ts0 : list token) : list token -> Prop := fun t => exists e1, stands c e ts0 e1 t.
Definition writes (c : cat) (e : expr) (ts0 : list token) (f : pst -> pst) (w : place) : Prop := iprints (pcat c) (Xof c e ts0) f w.
Definition flex (c : cat) (outer : nat) : Prop := match c with Arg | Param | TParam | Pair | Small => outer = 0 | _ => True end.
Definition goodb (c : cat) (e : expr) (ts0 : list token) : Prop :=
  forall ft w outer, tidy w e -> flex c outer ->
    exists body, (forall st, print_expr ft None e outer st = node (com e) body st) /\ writes c e ts0 body w.
Lemma pcat_solid c : within (pcat c) solid. Proof. destruct c; auto. Qed.
Lemma pcat_starter c : within starter (pcat c). Proof. destruct c; auto. Qed.
#[export] Hint Resolve pcat_solid pcat_starter : core.

Lemma node_prints P X c body w : iprints P X body w -> fine_coms c -> within P solid -> (w <> Inside -> c_before c = []) -> iprints P X (node c body) w.
Proof.
  intros H F W B st ts d stk C E. destruct (node_ex (A := unit) P c body st ts d stk (fun _ t => X t) E F W) as (_ & t & A1 & A2); eauto.
  - destruct w; cbn in C; [right; apply B; discriminate|right; apply B; discriminate|left; exact C].
  - intros st1 S0 E1. destruct (H st1 ts d stk) as (t & A1 & A2); [eapply ctx_same; eauto|exact E1|]. exists tt, t. auto.
Qed.
Lemma iprints_ext P X f g w : (forall st, f st = g st) -> iprints P X g w -> iprints P X f w.
Proof. intros E H st ts d stk C Q. rewrite E. now apply H. Qed.
Lemma tidy_coms w e : tidy w e -> fine_coms (com e).
Proof. destruct e; intros [H _]; exact H. Qed.
Definition sub (w : place) (x : expr) : Prop := (w <> Inside -> c_before (com x) = []) /\ tidy w x.
(** An expression with its comments. *)
Lemma good_prints c e ts0 ft w outer : goodb c e ts0 -> sub w e -> flex c outer -> iprints (pcat c) (Xof c e ts0) (print_expr ft None e outer) w.
Proof.
  intros G [B T] F. destruct (G ft w outer T F) as (body & E & W). eapply iprints_ext; [exact E|]. apply node_prints; auto. eapply tidy_coms; eauto.
Qed.

Ltac sames := unfold same in *; cbn [printf set_out set_nest set_margin set_coms set_level o_margin o_depth o_level o_ok] in *; intuition congruence.
(** Words at a given place. *)
Lemma name_facts t : spelled t -> t_kind t = KIdent -> exists c w, t_tok t = c :: w /\ starter c = true /\ nosp (rev (t_tok t)) /\ nosp (t_tok t) /\ isIdent c = true.
Proof.
  unfold spelled. intros H K. rewrite K in H. destruct H as ((c & w & E & D) & F & _). exists c, w. rewrite E in *. split; [reflexivity|].
  assert (A : forall x, In x (c :: w) -> isIdent x = true) by (intros x Hx; rewrite Forall_forall in F; apply isIdent_spec; auto).
  split; [apply ident_starter, A; now left|]. split; [|split; [|apply A; now left]].
  - destruct (rev (c :: w)) as [|y l] eqn:R; [exact Logic.I|]. cbn. intros ->. assert (In c_sp (c :: w)) by (apply in_rev; rewrite R; now left). apply A in H. discriminate.
  - cbn. intros ->. specialize (A c_sp (or_introl eq_refl)). discriminate.
Qed.
Lemma put_name P t st ts d stk : spelled t -> t_kind t = KIdent -> entry P st ts d stk -> within starter P -> sits (Mid closer 0) (printf (t_tok t) st) (ts ++ [tok0 KIdent (t_tok t)]) d stk.
Proof.
  intros S0 K E W. destruct (name_facts t S0 K) as (c & w & Q & A & B & _). pose proof (scan_ident_tok t d S0 K) as SC. rewrite Q in *. eapply word; eauto.
Qed.
Lemma put_int P t st ts d stk : spelled t -> t_kind t = KInt -> entry P st ts d stk -> within starter P -> sits (Mid closer 0) (printf (t_tok t) st) (ts ++ [tok0 KInt (t_tok t)]) d stk.
Proof.
  intros S0 K E W. pose proof (scan_int t d S0 K) as SC. unfold spelled in S0. rewrite K in S0. destruct S0 as ((c & w & Q & D) & F). rewrite Q in *.
  eapply word; eauto; [apply W, ident_starter, digit_ident, is_digit_spec, D|].
  destruct (rev (c :: w)) as [|y l] eqn:R; [exact Logic.I|]. cbn. intros ->.
  assert (X : c :: w = rev l ++ [c_sp]) by (rewrite <- (rev_involutive (c :: w)), R; reflexivity). destruct (F (rev l) c_sp [] X) as [N|[N _]]; [|cbn in N; repeat (destruct N as [N|N]; [discriminate|]); contradiction].
  apply isIdent_spec in N. discriminate.
Qed.
Lemma keyword_facts w k : In (w, k) keywords -> exists c s, w = c :: s /\ starter c = true /\ nosp (rev w).
Proof.
  intros H. assert (F : forallb (fun x => match fst x with c :: _ => starter c | [] => false end && match rev (fst x) with c :: _ => negb (ceq c c_sp) | [] => true end) keywords = true) by reflexivity.
  rewrite forallb_forall in F. specialize (F _ H). cbn [fst] in F. apply andb_true_iff in F as [F1 F2]. destruct w as [|c s]; [discriminate|]. exists c, s. repeat split; auto.
  unfold nosp. destruct (rev (c :: s)); [exact Logic.I|]. apply negb_true_iff in F2. now apply ceq_neq.
Qed.
Lemma put_kw P w k st ts d stk : In (w, k) keywords -> entry P st ts d stk -> within starter P -> sits (Mid closer 0) (printf w st) (ts ++ [tok0 k w]) d stk.
Proof. intros H E W. destruct (keyword_facts w k H) as (c & s & -> & A & B). eapply word; eauto. now apply scan_keyword. Qed.
Lemma kw_sp P w k st ts d stk : In (w, k) keywords -> entry P st ts d stk -> within starter P -> sits (Mid closer 1) (printf (w ++ %" ") st) (ts ++ [tok0 k w]) d stk.
Proof. intros H E W. rewrite printf_app. apply space. eapply put_kw; eauto. Qed.
Lemma kw_mid w k st ts d stk : In (w, k) keywords -> sits (Mid closer 0) st ts d stk -> sits (Mid closer 1) (printf (%" " ++ w ++ %" ") st) (ts ++ [tok0 k w]) d stk.
Proof. intros H E. rewrite printf_app. eapply (kw_sp solid); eauto. eapply entry_space, E. Qed.
Lemma put_punct c st ts d stk : In c %".:;," -> closer c = true -> sits (Mid closer 0) st ts d stk -> sits (Mid any 0) (printf [c] st) (ts ++ [tok0 (KChar c) [c]]) d stk.
Proof. intros H C E. eapply (word closer c []); [eapply entry_mid; eauto|exact C|now apply scan_punct|auto|]. cbn in H. cbn. destruct H as [<-|[<-|[<-|[<-|[]]]]]; discriminate. Qed.
Lemma colon_sp st ts d stk : sits (Mid closer 0) st ts d stk -> sits (Mid any 1) (printf %": " st) (ts ++ [tok0 (KChar ":") %":"]) d stk.
Proof. intros H. change %": " with (%":" ++ %" "). rewrite printf_app. apply space. apply (put_punct ":"%char); cbn; auto. Qed.

(** Parentheses. *)
Lemma prim_test e ts : one Prim e ts -> one Test e ts.
Proof. intro. eapply t_any, t_prim. eassumption. Qed.
Definition LP : token := tok0 (KChar "(") %"(".
Definition RP : token := tok0 (KChar ")") %")".
Lemma in_parens c c1 e1 t : ple c1 c -> (c = Prim \/ exists n o, c = Level n o) -> one c1 e1 t -> one Prim (EParen no_com no_pos e1 no_end false) (LP :: t ++ [RP]).
Proof.
  intros L [-> | (n & o & ->)] H; cbn in L.
  - subst. apply p_paren; [reflexivity|now apply prim_test|reflexivity].
  - destruct L as (o' & -> & _). apply p_paren; [reflexivity| |reflexivity]. eapply level_test, H.
Qed.
Lemma paren_prints c e ts0 prec outer body w : (c = Prim \/ exists n o, c = Level n o) -> writes c e ts0 body w -> writes c e ts0 (addParen prec outer body) w.
Proof.
  intros HC H st ts d stk C E. unfold addParen. destruct (prec <? outer); [|now apply H].
  assert (PC : pcat c = starter) by (destruct HC as [-> | (n & o & ->)]; reflexivity). rewrite PC in *.
  pose proof (open_spec starter "("%char st ts d stk E eq_refl ltac:(cbn; auto)) as S1.
  destruct (H (set_nest (S (o_depth (printf %"(" st))) (printf %"(" st)) (ts ++ [LP]) (S d) stk) as (t & (e1 & c1 & L & O & M & X) & S2 & S3).
  { destruct w; cbn; auto; lia. }
  { rewrite PC. eapply entry_mid; [exact S1|]. auto. }
  set (st1 := body _) in *. exists (LP :: t ++ [RP]). split.
  - pose proof (in_parens c c1 e1 t L HC O) as Q. exists (EParen no_com no_pos e1 no_end false). destruct HC as [-> | (n & o & ->)].
    + exists Prim. repeat split; auto. intros a _ Y. destruct t; discriminate.
    + exists (Level n false). split; [exists false; split; [auto|discriminate]|]. split; [now apply t_prim|]. split; [exact M|]. intros (? & ? & ? & Y). discriminate.
  - split; [destruct S2 as (A1 & A2 & A3 & A4); cbn in A1, A2, A3, A4; repeat split; cbn; auto; now rewrite A2|]. pose proof (close_spec closer ")"%char (set_nest (pred (o_depth st1)) st1) ((ts ++ [LP]) ++ t) d stk) as Y.
    rewrite <- !app_assoc in Y. cbn [app] in Y. apply Y; [|reflexivity|cbn; auto]. rewrite <- app_assoc in S3. eapply entry_mid; [exact S3|]. auto.
Qed.
(** Infix operators. *)
Definition infix (br : bool) (mg : pst -> nat) (op : bytes) (fx fy : pst -> pst) (st : pst) : pst :=
  let m := o_margin st in
  let st := if br then set_margin (mg st) st else st in
  let st := (let st := printf (%" " ++ op) (fx st) in if br then breakline st else printf %" " st) in
  set_margin m (fy st).
Lemma infix_prints P (X Y Z : list token -> Prop) br mg op top fx fy w : iprints P X fx w -> iprints starter Y fy w -> (forall d, scans op closer d top d) -> (exists c s, op = c :: s) -> nosp (rev op) ->
  (w = InTuple -> br = false) -> (forall t1 t2, X t1 -> Y t2 -> Z (t1 ++ top ++ t2)) -> iprints P Z (infix br mg op fx fy) w.
Proof.
  intros HX HY SC (c & s & EO) N BR HZ st ts d stk C E. unfold infix.
  set (st0 := if br then set_margin (mg st) st else st).
  assert (A : o_depth st0 = o_depth st /\ entry P st0 ts d stk /\ o_level st0 = o_level st /\ o_ok st0 = o_ok st) by (unfold st0; destruct br; repeat split; apply E). destruct A as (A1 & A2 & A3 & A4).
  destruct (HX st0 ts d stk) as (t1 & X1 & S1 & S2); [now rewrite A1|exact A2|].
  assert (B : sits (Mid closer 0) (printf (%" " ++ op) (fx st0)) (ts ++ t1 ++ top) d stk).
  { rewrite printf_app, app_assoc. subst op. eapply (word any); [eapply entry_space, S2|reflexivity|apply SC|auto|exact N]. }
  set (st1 := printf (%" " ++ op) (fx st0)) in *. set (st2 := if br then breakline st1 else printf %" " st1).
  assert (D : same st1 st2 /\ entry solid st2 (ts ++ t1 ++ top) d stk).
  { unfold st2. destruct br; [|split; [apply printf_same|eapply entry_space, B]]. eapply breakline_spec; [exact B|]. assert (o_depth st1 = o_depth st) as -> by sames.
    destruct w; cbn in C; [exact C|discriminate (BR eq_refl)|auto]. }
  destruct D as [D1 D2]. destruct (HY st2 (ts ++ t1 ++ top) d stk) as (t2 & Y2 & S3 & S4); [|eapply entry_weaken; eauto|].
  { assert (o_depth st2 = o_depth st) as -> by (unfold st1 in D1; sames). exact C. }
  exists (t1 ++ top ++ t2). split; [auto|]. rewrite <- !app_assoc in S4. split; [unfold st1 in D1; sames|exact S4].
Qed.

(** ** From one category to another *)
Lemma iprints_mono P Q (X Y : list token -> Prop) f w : iprints P X f w -> within P Q -> (forall t, X t -> Y t) -> iprints Q Y f w.
Proof. intros H W M st ts d stk C E. destruct (H st ts d stk C) as (t & A & B); [eapply entry_weaken; eauto|]. eauto. Qed.
Lemma good_conv c c' e ts : goodb c e ts -> within (pcat c) (pcat c') -> (forall outer, flex c' outer -> flex c outer) ->
  (forall e1 t, stands c e ts e1 t -> stands c' e ts e1 t) -> goodb c' e ts.
Proof.
  intros G W F H ft w outer T FL. destruct (G ft w outer T (F _ FL)) as (body & E & B). exists body. split; [exact E|].
  eapply iprints_mono; [exact B|exact W|]. intros t (e1 & S0). exists e1. auto.
Qed.
Lemma prim_not e ts : one Prim e ts -> ~ is_not e.
Proof. intros H (c & p & x & ->). inversion H. Qed.
Lemma good_level n e ts : goodb Prim e ts -> goodb (Level n false) e ts.
Proof.
  intro G. eapply good_conv; [exact G|auto|auto|]. intros e1 t (c1 & -> & O & M & _). exists (Level n false). split; [exists false; auto|]. split; [now apply t_prim|]. split; [exact M|].
  intro N. exfalso. eapply prim_not; eauto.
Qed.
Lemma good_up n o e ts : goodb (Level n o) e ts -> goodb Test e ts /\ (n = 2 -> goodb ParseSpec.Item e ts).
Proof.
  intro G. split; [|intros ->]; (eapply good_conv; [exact G|auto|auto|]); intros e1 t (c1 & (o' & -> & _) & O & M & _).
  - exists Test. repeat split; auto. eapply level_test, O.
  - exists ParseSpec.Item. repeat split; auto. eapply t_item, O.
Qed.
Ltac conv H := eapply good_conv; [exact H|first [apply within_refl|apply pcat_starter]|cbn; auto|]; intros e1 t1 (c1 & -> & O1 & M1 & _); eexists; split; [reflexivity|]; split; [|split; [exact M1|exact Logic.I]].
Lemma good_expr e ts : goodb Test e ts -> goodb Expr e ts. Proof. intro G. conv G. now apply e_test. Qed.
Lemma good_vars e ts : goodb Prim e ts -> goodb Vars e ts. Proof. intro G. conv G. now apply v_one. Qed.
Lemma good_arg e ts : goodb Test e ts -> goodb Arg e ts.
Proof. intro G. eapply good_conv; [exact G|apply (pcat_starter Arg)|cbn; auto|]. intros e1 t1 (c1 & -> & O1 & M1 & _). exists Arg. repeat split; auto. now apply a_test. Qed.
Lemma good_tparam e ts : goodb Param e ts -> goodb TParam e ts. Proof. intro G. conv G. now apply g_param. Qed.
Lemma good_small e ts : goodb Expr e ts -> goodb Small e ts. Proof. intro G. conv G. now apply s_expr. Qed.

(** ** Lists *)
Definition simple (c : cat) : Prop := match c with Level _ _ | IfTail _ | Block _ => False | _ => True end.
Lemma simple_ple c c1 : simple c -> ple c1 c -> c1 = c. Proof. destruct c; cbn; intuition. Qed.
Lemma flex0 c : flex c 0. Proof. destruct c; cbn; auto. Qed.
#[export] Hint Resolve flex0 : core.
Lemma all_snoc {A} (P : A -> Prop) l x : all_of P (l ++ [x]) <-> all_of P l /\ P x.
Proof. induction l as [|y l IH]; cbn; [tauto|]. rewrite IH. tauto. Qed.
Lemma all_imp {A} (P Q : A -> Prop) l : (forall x, P x -> Q x) -> all_of P l -> all_of Q l.
Proof. intro H. induction l as [|y l IH]; cbn; [auto|]. intuition. Qed.
Lemma sep_snoc tss t : tss <> [] -> sep (tss ++ [t]) = sep tss ++ CM :: t.
Proof.
  induction tss as [|x tss IH]; intro N; [contradiction|]. destruct tss as [|y tss]; [reflexivity|]. cbn [app].
  change (sep (x :: y :: tss ++ [t])) with (x ++ CM :: sep ((y :: tss) ++ [t])). rewrite IH by discriminate. change (sep (x :: y :: tss)) with (x ++ CM :: sep (y :: tss)). now rewrite <- app_assoc.
Qed.
Lemma two_snoc {A B} (R : A -> B -> Prop) l x l' : Forall2 R (l ++ [x]) l' -> exists k y, l' = k ++ [y] /\ Forall2 R l k /\ R x y.
Proof. intro H. apply Forall2_app_inv_l in H as (k & k' & A1 & A2 & ->). inversion A2 as [|? y ? ? B1 B2]; subst. inversion B2; subst. eauto. Qed.
Definition item_of (ft : ftype) (x : expr) : item := Print.Item (com x) (start_pos x) (end_pos x) (is_star x) (print_expr ft None x precLow).
Definition rows (P : ascii -> bool) (Q : list expr -> list token -> Prop) (l : list expr) : Prop :=
  forall ft w, all_of (sub w) l -> exists Xs, Forall2 (fun i X => iprints P X (it_print i) w) (map (item_of ft) l) Xs /\
    forall tss, Forall2 (fun (X : list token -> Prop) t => X t) Xs tss -> exists l1, Q l1 (sep tss) /\ map meaning l1 = map meaning l.
Lemma rows_one P (Q : list expr -> list token -> Prop) c e t : goodb c e t -> simple c -> within (pcat c) P -> (forall e1 t1, one c e1 t1 -> Q [e1] t1) -> rows P Q [e].
Proof.
  intros G S0 W H ft w [T _]. exists [Xof c e t]. split.
  - constructor; [|constructor]. eapply iprints_weaken; [apply good_prints; eauto|exact W].
  - intros tss F. inversion F as [|? t1 ? ? F1 F2]; subst. destruct F1 as (e1 & c1 & A & B & M & _). inversion F2; subst. rewrite (simple_ple _ _ S0 A) in B. exists [e1]. split; [now apply H|]. cbn. now rewrite M.
Qed.
Lemma rows_more P (Q : list expr -> list token -> Prop) c l e t : rows P Q l -> l <> [] -> goodb c e t -> simple c -> within (pcat c) P ->
  (forall l1 tl e1 t1, Q l1 tl -> one c e1 t1 -> Q (l1 ++ [e1]) (tl ++ CM :: t1)) -> rows P Q (l ++ [e]).
Proof.
  intros R N G S0 W H ft w T. apply all_snoc in T as [T1 T2]. destruct (R ft w T1) as (Xs & A & B). exists (Xs ++ [Xof c e t]). split.
  - rewrite map_app. apply Forall2_app; [exact A|]. constructor; [|constructor]. eapply iprints_weaken; [apply good_prints; eauto|exact W].
  - intros tss F. apply two_snoc in F as (tss' & t1 & -> & F1 & (e1 & c1 & D & O & M & _)). rewrite (simple_ple _ _ S0 D) in O. destruct (B _ F1) as (l1 & Q1 & M1).
    exists (l1 ++ [e1]). rewrite sep_snoc. { split; [now apply H|]. rewrite !map_app, M1. cbn. now rewrite M. }
    intros ->. inversion F1; subst. inversion A as [E|]; subst. destruct l; [contradiction|discriminate].
Qed.
Lemma ch_cm : ch "," CM. Proof. reflexivity. Qed.
Lemma commas_cm : commas [CM]. Proof. constructor; [reflexivity|constructor]. Qed.
Lemma cs_commas md n cs : cs_ok md n cs -> commas cs /\ (List.length cs <= 1)%nat.
Proof. intros [[->|(-> & _)] _]; split; try constructor; auto; constructor. Qed.

Definition pone (c : cat) (e : expr) (ts : list token) : Prop := match c with IfTail _ | Block _ => True | _ => Forall wf_tok ts -> goodb c e ts end.
Definition pmaybe (c : cat) (o : option expr) (ts : list token) : Prop := simple c -> Forall wf_tok ts -> match o with Some e => goodb c e ts | None => True end.
Definition pstride (o : option expr) (ts : list token) : Prop := Forall wf_tok ts -> match o with Some e => exists t, goodb Test e t | None => True end.
Definition prow (c : cat) (l : list expr) (ts : list token) : Prop := simple c -> Forall wf_tok ts -> l <> [] /\ rows (pcat c) (row c) l.
Definition pitems (c : cat) (l : list expr) (ts : list token) : Prop := simple c -> Forall wf_tok ts -> l = [] \/ (l <> [] /\ rows (pcat c) (row c) l).
Definition prow1 (c c' : cat) (l : list expr) (ts : list token) : Prop := simple c -> simple c' -> Forall wf_tok ts -> pcat c = pcat c' -> l <> [] /\ rows (pcat c) (row1 c c') l.
Definition pparams (c : cat) (l : list expr) (ts : list token) : Prop := simple c -> Forall wf_tok ts -> l = [] \/ (l <> [] /\ rows (pcat c) (row1 c c) l).
Definition clause_rows (o : bool) (l : list expr) : Prop :=
  forall ft, all_of (sub Inside) l -> exists Xs, Forall2 (fun f X => iprints starter X f Inside) (map (fun x => print_expr ft None x precLow) l) Xs /\
    forall tss, Forall2 (fun (X : list token -> Prop) t => X t) Xs tss -> exists o' l1, (o' = true -> o = true) /\ clauses o' l1 (List.concat tss) /\ map meaning l1 = map meaning l.
Definition pclauses (o : bool) (l : list expr) (ts : list token) : Prop := Forall wf_tok ts -> clause_rows o l.
Lemma simple_pone c e ts : simple c -> pone c e ts -> Forall wf_tok ts -> goodb c e ts.
Proof. destruct c; cbn; intros; auto; contradiction. Qed.
Ltac wfs := repeat match goal with
  | H : Forall wf_tok (_ ++ _) |- _ => apply Forall_app in H; destruct H
  | H : Forall wf_tok (_ :: _) |- _ => let A := fresh "W" in let B := fresh "W" in pose proof (Forall_inv H) as A; pose proof (Forall_inv_tail H) as B; clear H
  | H : wf_tok _ |- _ => destruct H as [? _]
  end.
(** ** Words *)
Lemma stands_same c e ts0 e1 t : simple c \/ c = Prim -> one c e1 t -> meaning e1 = meaning e -> extra c e ts0 e1 t -> stands c e ts0 e1 t.
Proof. intros S0 O M X. exists c. split; [|auto]. destruct c; cbn; auto. destruct S0; [contradiction|discriminate]. Qed.
Lemma ident_prints P i t w : spelled t -> spelled_ident i t -> within starter P -> iprints P (fun ts1 => ts1 = [tok0 KIdent (i_name i)]) (printf (i_name i)) w.
Proof.
  intros S0 [K E] W st ts d stk C EN. exists [tok0 KIdent (i_name i)]. split; [reflexivity|]. split; [apply printf_same|]. rewrite E. eapply put_name; eauto.
Qed.
Lemma new_ident i t e : spelled_ident i t -> e = EIdent i -> spelled_ident (Ident no_com no_pos (i_name i)) (tok0 KIdent (i_name i)) /\ meaning (EIdent (Ident no_com no_pos (i_name i))) = meaning e.
Proof. intros _ ->. repeat split. Qed.
Lemma gb_ident c i t : c = Prim \/ c = Param -> spelled t -> spelled_ident i t -> goodb c (EIdent i) [t].
Proof.
  intros HC S0 I0 ft w outer T F. eexists. split; [intro st; cbn [print_expr print_body com]; reflexivity|].
  eapply iprints_mono; [eapply (ident_prints (pcat c)); eauto| |intros ts1 ->]; auto.
  exists (EIdent (Ident no_com no_pos (i_name i))). apply stands_same; [destruct HC as [-> | ->]; cbn; auto| |reflexivity|].
  - destruct HC as [-> | ->]; constructor; split; reflexivity.
  - destruct HC as [-> | ->]; [|exact Logic.I]. intros a A Q. injection Q as <-. discriminate A.
Qed.
Lemma gb_int c p t : spelled t -> is KInt t -> goodb Prim (ELit c p (t_tok t)) [t].
Proof.
  intros S0 K ft w outer T F. eexists. split; [intro st; cbn [print_expr print_body com]; reflexivity|]. intros st ts d stk C E. exists [tok0 KInt (t_tok t)]. split.
  - exists (ELit no_com no_pos (t_tok t)). apply stands_same; [auto| |reflexivity|]. { apply (p_int no_com no_pos (tok0 KInt (t_tok t))). reflexivity. } intros a _ _. eauto.
  - split; [apply printf_same|]. eapply put_int; eauto.
Qed.
Definition DOT : token := tok0 (KChar ".") %".".
Lemma put_dot P st ts d stk : entry P st ts d stk -> P "."%char = true -> sits (Mid any 0) (printf %"." st) (ts ++ [DOT]) d stk.
Proof. intros E H. eapply (word P "."%char []); [exact E|exact H|apply scan_punct; cbn; auto|auto|cbn; discriminate]. Qed.
Lemma gb_int_frac c p a d0 b : spelled a -> is KInt a -> spelled b -> is KInt b -> goodb Prim (ELit c p (t_tok a ++ %"." ++ t_tok b)) [a; d0; b].
Proof.
  intros S0 K S1 K1 ft w outer T F. eexists. split; [intro st; cbn [print_expr print_body com]; reflexivity|]. intros st ts d stk C E. exists ([tok0 KInt (t_tok a)] ++ [DOT] ++ [tok0 KInt (t_tok b)]). split.
  - exists (ELit no_com no_pos (t_tok a ++ %"." ++ t_tok b)). apply stands_same; [auto| |reflexivity|]. { apply (p_int_frac no_com no_pos (tok0 KInt (t_tok a)) DOT (tok0 KInt (t_tok b))); reflexivity. } intros x _ Q. discriminate.
  - split; [apply printf_same|]. rewrite !printf_app, !app_assoc. eapply (put_int any); eauto. eapply (entry_mid _ any 0); [|auto]. eapply (put_dot closer); [|reflexivity]. eapply (entry_mid _ closer 0); [|auto]. eapply put_int; eauto.
Qed.
Lemma gb_int_dot c p a d0 : spelled a -> is KInt a -> goodb Prim (ELit c p (t_tok a ++ %".")) [a; d0].
Proof.
  intros S0 K ft w outer T F. eexists. split; [intro st; cbn [print_expr print_body com]; reflexivity|]. intros st ts d stk C E. exists ([tok0 KInt (t_tok a)] ++ [DOT]). split.
  - exists (ELit no_com no_pos (t_tok a ++ %".")). apply stands_same; [auto| |reflexivity|]. { apply (p_int_dot no_com no_pos (tok0 KInt (t_tok a)) DOT); reflexivity. } intros x _ Q. discriminate.
  - split; [apply printf_same|]. rewrite !printf_app, !app_assoc. eapply (sits_weaken any); [|apply within_any|auto]. eapply (put_dot closer); [|reflexivity]. eapply (entry_mid _ closer 0); [|auto]. eapply put_int; eauto.
Qed.
Lemma gb_frac c p d0 b : spelled b -> is KInt b -> goodb Prim (ELit c p (%"." ++ t_tok b)) [d0; b].
Proof.
  intros S1 K1 ft w outer T F. eexists. split; [intro st; cbn [print_expr print_body com]; reflexivity|]. intros st ts d stk C E. exists ([DOT] ++ [tok0 KInt (t_tok b)]). split.
  - exists (ELit no_com no_pos (%"." ++ t_tok b)). apply stands_same; [auto| |reflexivity|]. { apply (p_frac no_com no_pos DOT (tok0 KInt (t_tok b))); reflexivity. } intros x _ Q. discriminate.
  - split; [apply printf_same|]. rewrite !printf_app, !app_assoc. eapply (put_int any); eauto. eapply (entry_mid _ any 0); [|auto]. eapply (put_dot starter); [|reflexivity]. exact E.
Qed.
(** Strings. *)
Definition str_tok (p v : bytes) (t : bool) : token := Tok KString no_pos p v t.
Lemma put_text P p v t st ts d stk : good_text p v t -> entry P st ts d stk -> within starter P -> sits (Mid closer 0) (printf p st) (ts ++ [str_tok p v t]) d stk.
Proof.
  intros G E W. destruct (good_first _ _ _ G) as (c & s & Q & A & _). destruct (good_last _ _ _ G) as (b & q & Q2 & N & _). pose proof (scan_text _ _ _ d G) as SC.
  assert (nosp (rev p)) by (rewrite Q2, rev_app_distr; exact N). rewrite Q in *. eapply word; eauto.
Qed.
Lemma strlit_prints P s t w : spelled t -> spelled_string s t -> fine_str s -> within starter P ->
  exists p, iprints P (fun ts1 => ts1 = [str_tok p (s_value s) (s_triple s)]) (print_strlit s) w.
Proof.
  intros S0 (K & E1 & E2 & E3) [_ NP] W. unfold print_strlit. destruct (print_string (s_value s) (s_triple s) (s_token s)) as [p|] eqn:Q; [|contradiction].
  exists p. intros st ts d stk C E. eexists. split; [reflexivity|]. rewrite E1, E2, E3 in *. split; [apply printf_same|]. eapply put_text; eauto. now apply good_token.
Qed.
Lemma gb_str s t : spelled t -> spelled_string s t -> goodb Prim (EStr s) [t].
Proof.
  intros S0 I0 ft w outer T F. eexists. split; [intro st; cbn [print_expr print_body com]; reflexivity|]. destruct T as [_ T].
  destruct (strlit_prints starter s t w S0 I0 T (within_refl _)) as (p & H). eapply iprints_mono; [exact H|auto|intros ts1 ->].
  exists (EStr (Str no_com no_pos (s_value s) (s_triple s) no_pos p)). apply stands_same; [auto| |reflexivity|].
  - constructor. repeat split.
  - intros a A Q. injection Q as <-. discriminate A.
Qed.
