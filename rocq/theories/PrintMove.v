(** The grammar does not look at positions in tokens, at the text of comments, and at the comments of a tree. *)
From Verif Require Import Base BaseProofs Ast AttachSpec Lex LexSpec ParseSpec ParseComplete PrintLex.
Local Open Scope list_scope.

Lemma cons_inj {A} (x y : A) l k : x :: l = y :: k -> x = y /\ l = k. Proof. intro H. now inversion H. Qed.
Definition simt (t' t : token) : Prop := bare t' = bare t.
Definition eqt : list token -> list token -> Prop := Forall2 simt.
Lemma eqt_bare a b : map bare a = map bare b -> eqt a b.
Proof. revert b. induction a as [|x a IH]; intros [|y b] H; try discriminate; [constructor|]. cbn in H. apply cons_inj in H as [H1 H2]. constructor; [exact H1|apply IH, H2]. Qed.
Lemma sim_kind t' t : simt t' t -> t_kind t' = t_kind t. Proof. intros H. injection H. auto. Qed.
Lemma sim_is k t' t : simt t' t -> is k t -> is k t'. Proof. unfold is. intros H <-. now apply sim_kind. Qed.
Lemma sim_ch k t' t : simt t' t -> ch k t -> ch k t'. Proof. apply sim_is. Qed.
Lemma sim_tok t' t : simt t' t -> t_kind t <> KComment -> t_tok t' = t_tok t.
Proof. intros H K. pose proof (sim_kind _ _ H) as E. injection H as _ T _ _. rewrite E in T. destruct (t_kind t); auto. contradiction. Qed.
Lemma sim_tok_is k t' t : simt t' t -> is k t -> k <> KComment -> t_tok t' = t_tok t. Proof. intros H <- N. now apply sim_tok. Qed.
Lemma sim_str t' t : simt t' t -> t_str t' = t_str t /\ t_triple t' = t_triple t. Proof. intros H. injection H. auto. Qed.
Lemma move_string s' s t' t : strip_str s' = strip_str s -> simt t' t -> spelled_string s t -> spelled_string s' t'.
Proof.
  intros E S0 (A & B & C & D). injection E as E1 E2 E3 E4 E5. destruct (sim_str _ _ S0) as [X Y]. pose proof (sim_tok_is _ _ _ S0 A ltac:(discriminate)).
  repeat split; try congruence. eapply sim_is; eauto.
Qed.
Lemma move_ident i' i t' t : strip_id i' = strip_id i -> simt t' t -> spelled_ident i t -> spelled_ident i' t'.
Proof.
  intros E S0 (A & B). injection E as E1 E2. pose proof (sim_tok_is _ _ _ S0 A ltac:(discriminate)). split; [eapply sim_is; eauto|congruence].
Qed.
Lemma move_ident2 i' i t' t : i_name i' = i_name i -> simt t' t -> spelled_ident i t -> spelled_ident i' t'.
Proof. intros E S0 (A & B). pose proof (sim_tok_is _ _ _ S0 A ltac:(discriminate)). split; [eapply sim_is; eauto|congruence]. Qed.
Lemma move_string2 s' s t' t : s_value s' = s_value s -> s_triple s' = s_triple s -> s_token s' = s_token s -> simt t' t -> spelled_string s t -> spelled_string s' t'.
Proof.
  intros E1 E2 E3 S0 (A & B & C & D). destruct (sim_str _ _ S0) as [X Y]. pose proof (sim_tok_is _ _ _ S0 A ltac:(discriminate)).
  repeat split; try congruence. eapply sim_is; eauto.
Qed.
Lemma move_commas a b : eqt a b -> commas b -> commas a.
Proof. intros H C. induction H; [constructor|]. inversion C; subst. constructor; [eapply sim_ch; eauto|apply IHForall2; assumption]. Qed.
Lemma move_newlines a b : eqt a b -> newlines b -> newlines a.
Proof. intros H C. induction H; [constructor|]. inversion C; subst. constructor; [eapply sim_ch; eauto|apply IHForall2; assumption]. Qed.
Ltac toks := repeat match goal with
  | H : eqt _ _ |- _ => unfold eqt in H
  | H : Forall2 simt _ (_ ++ _) |- _ => apply Forall2_app_inv_r in H as (? & ? & ? & ? & ->)
  | H : Forall2 simt _ (_ :: _) |- _ => inversion H; clear H; subst
  | H : Forall2 simt _ [] |- _ => inversion H; clear H; subst
  end; repeat match goal with H : Forall2 simt _ _ |- _ => fold eqt in H end.
Lemma move_arg f' t' f t ts' ts : strip_id f' = strip_id f -> strip_id t' = strip_id t -> eqt ts' ts -> load_arg f t ts -> load_arg f' t' ts'.
Proof.
  intros E1 E2 H L. injection E1 as _ N1. inversion L; subst; toks.
  - injection E2 as _ N2. match goal with H : simt ?a ?b |- _ => destruct (sim_str _ _ H) end. apply la_same; [eapply sim_is; eauto|congruence|congruence].
  - match goal with H : simt ?a s |- _ => destruct (sim_str _ _ H) end. apply la_as; [eapply move_ident; eauto|eapply sim_ch; eauto|eapply sim_is; eauto|congruence].
Qed.
Lemma map_eq_snoc {A B} (f : A -> B) l' l x : map f l' = map f (l ++ [x]) -> exists k y, l' = k ++ [y] /\ map f k = map f l /\ f y = f x.
Proof.
  rewrite map_app. intros H. apply map_eq_app in H as (k & r & -> & A1 & A2). destruct r as [|y [|z r]]; try discriminate. injection A2 as A2. eauto.
Qed.
Lemma map_eq_one {A B} (f : A -> B) l' x : map f l' = map f [x] -> exists y, l' = [y] /\ f y = f x.
Proof. destruct l' as [|y [|z r]]; try discriminate. intro H. injection H as H. eauto. Qed.
Lemma map_eq_nil' {A B} (f : A -> B) l' : map f l' = map f [] -> l' = [].
Proof. destruct l'; [auto|discriminate]. Qed.
Lemma move_args fr to ts : load_args fr to ts -> forall fr' to' ts', map strip_id fr' = map strip_id fr -> map strip_id to' = map strip_id to -> eqt ts' ts -> load_args fr' to' ts'.
Proof.
  induction 1 as [f t ts L|fs tl ts c f t ta L IH C A]; intros fr' to' ts' E1 E2 H.
  - apply map_eq_one in E1 as (y & -> & E1). apply map_eq_one in E2 as (z & -> & E2). constructor. eapply move_arg; eauto.
  - apply map_eq_snoc in E1 as (k & y & -> & E1 & F1). apply map_eq_snoc in E2 as (k2 & z & -> & E2 & F2). toks. constructor; [apply IH; auto|eapply sim_ch; eauto|eapply move_arg; eauto].
Qed.
Lemma move_operator s n ts' ts : eqt ts' ts -> operator s n ts -> operator s n ts'.
Proof.
  intros H O. inversion O as [? k ? t I K T|t u K1 K2]; subst; toks.
  - eapply op_one; [exact I|eapply sim_is; eauto|]. match goal with H : simt ?a t |- _ => rewrite <- (sim_tok _ _ H); [reflexivity|] end. rewrite K. intro X. subst. cbn in I. repeat (destruct I as [I|I]; [discriminate|]); contradiction.
  - apply op_not_in; eapply sim_is; eauto.
Qed.
Lemma code_strip l' l : map strip l' = map strip l -> map strip (code l') = map strip (code l).
Proof.
  revert l. induction l' as [|x l' IH]; intros [|y l] H; try discriminate; [reflexivity|]. cbn [map] in H. apply cons_inj in H as [H1 H2]. specialize (IH _ H2).
  unfold code in *. cbn [filter]. assert (is_code x = is_code y) as -> by (destruct x, y; try discriminate; reflexivity). destruct (is_code y); cbn [map]; congruence.
Qed.
Lemma not_strip e' e : strip e' = strip e -> ~ is_not e -> ~ is_not e'.
Proof. intros H N (c & p & x & ->). destruct e; cbn in H; try discriminate. injection H as <- <- H. apply N. do 3 eexists. reflexivity. Qed.
Lemma eqt_length a b : eqt a b -> List.length a = List.length b. Proof. induction 1; cbn; congruence. Qed.
Lemma eqt_nil a : eqt a [] -> a = []. Proof. intro H. now inversion H. Qed.
Lemma eqt_ne a b : eqt a b -> b <> [] -> a <> []. Proof. intros H N ->. inversion H. now subst. Qed.
Lemma strip_len l' l : map strip l' = map strip l -> List.length l' = List.length l.
Proof. intro H. apply (f_equal (@List.length expr)) in H. now rewrite !map_length in H. Qed.

Definition mone (c : cat) (e : expr) (ts : list token) := forall e' ts', strip e' = strip e -> eqt ts' ts -> one c e' ts'.
Ltac open_tree := match goal with H : strip ?e' = _ |- _ => destruct e'; cbn [strip] in H; try discriminate H; injection H; clear H; intros; subst end.
Ltac mv := first
  [ eassumption | reflexivity | eapply sim_is; eassumption | eapply sim_ch; eassumption | eapply move_string; eassumption | eapply move_ident; eassumption | eapply move_ident2; eassumption | eapply move_string2; eassumption | eapply move_commas; eassumption
  | eapply move_newlines; eassumption | eapply move_args; eassumption | eapply move_operator; eassumption | eapply not_strip; eassumption
  | match goal with IH : forall e' ts', _ -> eqt ts' _ -> _ |- _ => apply IH; [assumption|assumption] end
  | match goal with IH : forall e' ts', _ -> eqt ts' _ -> _ |- _ => apply IH; [apply code_strip; assumption|assumption] end
  | eapply eqt_ne; eassumption
  | match goal with H : eqt ?a ?b |- List.length ?a <= _ => rewrite (eqt_length _ _ H); assumption end
  | match goal with H : map strip ?a = map strip ?b |- _ <= List.length ?a => rewrite (strip_len _ _ H); assumption end ].
Ltac lists := repeat match goal with
  | H : map _ ?l' = map _ (_ ++ [_]) |- _ => is_var l'; apply map_eq_snoc in H as (? & ? & -> & ? & ?)
  | H : map _ ?l' = map _ [_] |- _ => is_var l'; apply map_eq_one in H as (? & -> & ?)
  | H : map _ ?l' = map _ [] |- _ => is_var l'; apply map_eq_nil' in H; subst
  | H : map _ ?l' = [] |- _ => is_var l'; apply map_eq_nil' in H; subst
  | H : option_map _ ?o = option_map _ (Some _) |- _ => is_var o; destruct o; [|discriminate H]; cbn [option_map] in H; injection H as H
  | H : option_map _ ?o = option_map _ None |- _ => is_var o; destruct o; [discriminate H|]; clear H
  end.
Ltac tree := repeat (cbn [strip option_map map] in *; match goal with
  | H : option_map _ ?o = Some _ |- _ => is_var o; destruct o; [|discriminate H]; cbn [option_map] in H; injection H as H
  | H : option_map _ ?o = None |- _ => is_var o; destruct o; [discriminate H|]; clear H
  | H : strip ?e' = strip _ |- _ => fail
  | H : strip ?e' = ?c |- _ => is_var e'; let x := constr:(c) in match x with strip _ => fail 1 | _ => idtac end; destruct e'; cbn [strip] in H; try discriminate H; injection H; clear H; intros; subst
  | H : map strip ?l = [_] |- _ => is_var l; destruct l as [|? [|? ?]]; try discriminate H; cbn [map] in H; injection H as H
  end).
Ltac texts := repeat match goal with
  | H : simt ?x ?t, I : In (_, ?k) unops, K : is ?k ?t |- context [t_tok ?t] => rewrite <- (sim_tok_is _ _ _ H K ltac:(intros ->; cbn in I; intuition discriminate))
  | H : simt ?x ?t, I : In ?k [KPass; KBreak; KContinue], K : is ?k ?t |- context [t_tok ?t] => rewrite <- (sim_tok_is _ _ _ H K ltac:(intros ->; cbn in I; intuition discriminate))
  | H : simt ?x ?t, K : is KAugm ?t \/ ch _ ?t |- context [t_tok ?t] => rewrite <- (sim_tok _ _ H ltac:(unfold is, ch in K; destruct K as [K|K]; rewrite K; discriminate))
  | H : simt ?x ?t, K : is ?k ?t |- context [t_tok ?t] => rewrite <- (sim_tok_is _ _ _ H K ltac:(discriminate))
  end.
Theorem move :
  (forall c e ts, one c e ts -> mone c e ts) /\
  (forall c o ts, maybe c o ts -> forall o' ts', option_map strip o' = option_map strip o -> eqt ts' ts -> maybe c o' ts') /\
  (forall o ts, stride o ts -> forall o' ts', option_map strip o' = option_map strip o -> eqt ts' ts -> stride o' ts') /\
  (forall o ts, annotation o ts -> forall o' ts', option_map strip o' = option_map strip o -> eqt ts' ts -> annotation o' ts') /\
  (forall c l ts, row c l ts -> forall l' ts', map strip l' = map strip l -> eqt ts' ts -> row c l' ts') /\
  (forall c l ts, items c l ts -> forall l' ts', map strip l' = map strip l -> eqt ts' ts -> items c l' ts') /\
  (forall c c' l ts, row1 c c' l ts -> forall l' ts', map strip l' = map strip l -> eqt ts' ts -> row1 c c' l' ts') /\
  (forall c l ts, params c l ts -> forall l' ts', map strip l' = map strip l -> eqt ts' ts -> params c l' ts') /\
  (forall o l ts, clauses o l ts -> forall l' ts', map strip l' = map strip l -> eqt ts' ts -> clauses o l' ts') /\
  (forall l ts, smalls l ts -> forall l' ts', map strip l' = map strip l -> eqt ts' ts -> smalls l' ts') /\
  (forall l ts, line l ts -> forall l' ts', map strip l' = map strip l -> eqt ts' ts -> line l' ts') /\
  (forall k l ts, stmts k l ts -> forall l' ts', map strip l' = map strip l -> eqt ts' ts -> stmts k l' ts') /\
  (forall k l ts, suite k l ts -> forall l' ts', map strip l' = map strip l -> eqt ts' ts -> suite k l' ts').
Proof.
  apply spec_ind; unfold mone; intros; subst; try (open_tree; [idtac]); toks; lists; tree; texts.
  all: try solve [econstructor; mv].
  - apply p_dot; try mv. intros a K ->. match goal with H : eqt [a] _ |- _ => inversion H as [|? y ? ? S0 N]; subst; inversion N; subst end. apply (H1 y); [|reflexivity]. eapply sim_is; [|exact K]. symmetry. exact S0.
  - apply p_tuple; try mv. intro L. eapply eqt_ne; [eassumption|]. match goal with H : _ -> ?cs <> [] |- _ => apply H end. erewrite <- strip_len; eassumption.
  - match goal with S0 : simt ?x ?t, I : In (t_tok ?t, ?k) unops, K : is ?k ?t |- _ => rewrite <- (sim_tok_is _ _ _ S0 K ltac:(intros ->; cbn in I; intuition discriminate)) in I; eapply t_unary; [exact I|mv..] end.
  - eapply t_is; try mv. erewrite sim_tok_is; eauto. discriminate.
  - eapply t_is_not; try mv. erewrite sim_tok_is; eauto. discriminate.
  - apply s_assign; try mv; [destruct H2; [left|right]; mv|]. rewrite (sim_tok _ _ H12); [assumption|]. destruct H2 as [K|K]; rewrite K; discriminate.
  - apply s_augmented; try mv. match goal with S0 : simt ?x ?t, I : In (t_tok ?t) _, K : is KAugm ?t |- _ => rewrite (sim_tok_is _ _ _ S0 K ltac:(discriminate)) end. assumption.
  - eapply i_elif; try mv. match goal with H : _ \/ _ |- _ => destruct H as [(a & -> & K)|(a & b & -> & K1 & K2)] end; toks; [left|right]; repeat eexists; mv.
  - apply ln; try mv. match goal with H : _ \/ _ |- _ => destruct H as [->|(s0 & -> & K)] end; toks; [left; reflexivity|right]. eexists. split; [reflexivity|mv].
  - match goal with H : map strip _ = map strip (_ ++ _) |- _ => rewrite map_app in H; apply map_eq_app in H as (k1 & k2 & -> & ? & ?) end. eapply st_line; mv.
  - eapply su_block; try mv; [apply H1; [reflexivity|assumption]|]. match goal with N : ?l <> [] |- _ => intros ->; apply N; destruct l; [reflexivity|discriminate] end.
Qed.
Lemma move_program l l' ts ts' : map strip l' = map strip l -> map bare ts' = map bare ts -> program l ts -> program l' ts'.
Proof. intros E B [k P]. exists k. apply (proj1 (proj2 (proj2 (proj2 (proj2 (proj2 (proj2 (proj2 (proj2 (proj2 (proj2 (proj2 move)))))))))))) with (l := code l) (ts := ts); [exact P|now apply code_strip|now apply eqt_bare]. Qed.
