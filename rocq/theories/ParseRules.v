(** Soundness of the parser: the action of each grammar rule. *)
From Verif Require Import Base BaseProofs Ast Lex LexSpec LRTables LRCert Parse LRProofs ParseSpec ParseLex ParseProofs.
Local Open Scope list_scope.

Definition kind_at (X : Z) : option kind := option_map snd (find (fun p => (fst p =? X)%Z) tkinds).
Lemma tkind_at t X k : terminal t = X -> kind_at X = Some k -> t_kind t = k.
Proof.
  intros E H. unfold kind_at in H. destruct (find _ tkinds) as [[Y k']|] eqn:F; [|discriminate].
  cbn in H. injection H as <-. apply find_some in F. destruct F as [F1 F2]. cbn in F2. apply Z.eqb_eq in F2. subst Y.
  eapply tkind; eauto.
Qed.
Definition case (r : Z) : Prop := forall A rhs f, rule r = Some (A, rhs) -> nth_error actions (Z.to_nat r - 1) = Some f ->
  forall q p vs ts a, action p a = Reduce r -> (0 <= a < 63)%Z -> legit ts -> args_ok good q rhs vs ts a p ->
    In q (preds_of (goto_ q (- A))) -> chk (goto_ q (- A)) = A ->
    exists v, f vs = Some v /\ pred_of A (goto_ q (- A)) v ts a.
Ltac start RED LA LG GI GK AO :=
  let A := fresh "A" in let rhs := fresh "rhs" in let f := fresh "f" in let E1 := fresh in let E2 := fresh in
  intros A rhs f E1 E2; lazy in E1; injection E1 as <- <-; injection E2 as <-; intros q0 p0 vs0 ts0 a0 RED LA LG AO GI GK.
Ltac evp H := match type of H with pred_of ?X ?s ?v ?t ?a => let P := eval hnf in (pred_of X) in change (P s v t a) in H; cbv beta in H end.
Ltac take_ AO s P K G :=
  let v := fresh "v" in let vs := fresh "vs" in let t := fresh "t" in let ts := fresh "ts" in let AO' := fresh in
  destruct (args_inv _ _ _ _ _ _ _ AO) as (s & v & vs & t & ts & -> & -> & P & K & G & AO'); clear AO; rename AO' into AO; evp G.
Tactic Notation "take" ident(AO) simple_intropattern(pat) :=
  let s := fresh "s" in let P := fresh "P" in let K := fresh "K" in let G := fresh "G" in
  take_ AO s P K G; destruct G as pat.
Tactic Notation "take" ident(AO) ident(s) ident(P) ident(K) simple_intropattern(pat) :=
  let G := fresh "G" in take_ AO s P K G; destruct G as pat.
Tactic Notation "tok" ident(AO) ident(tk) :=
  let s := fresh "s" in let P := fresh "P" in let K := fresh "K" in let G := fresh "G" in let T := fresh "T" in
  take_ AO s P K G; destruct G as (tk & -> & -> & T); rewrite K in T;
  match type of T with _ = ?X => let k := eval vm_compute in (kind_at X) in match k with Some ?k' =>
    let H := fresh "K" in assert (H : t_kind tk = k') by (eapply tkind_at; [exact T|vm_compute; reflexivity]) end end.
Ltac done_args AO := apply args_end in AO; destruct AO as (-> & -> & ->); rewrite ?app_nil_r.
Ltac goalp := match goal with |- pred_of ?X ?s ?v ?t ?a => let P := eval hnf in (pred_of X) in change (P s v t a); cbv beta end.
Ltac answer := eexists; split; [reflexivity|goalp].
Lemma edge_goto q s X : In q (preds_of s) -> chk s = X -> (X < 0)%Z -> goto_ q (- X) = s.
Proof. intros H <- L. now apply (edge s q H). Qed.
Lemma edge_shift q s X : In q (preds_of s) -> chk s = X -> (0 <= X)%Z -> action q X = Shift s.
Proof. intros H <- L. now apply (edge s q H). Qed.
Lemma edge_live q s : In q (preds_of s) -> live s = true /\ (0 <= s < 267)%Z.
Proof. intro H. pose proof (preds_range _ _ H). split; [eapply live_preds; eauto|lia]. Qed.
Lemma legit_tok x t y : legit (x ++ t :: y) -> wf_tok t.
Proof. intros [A _]. apply Forall_app in A. destruct A as [_ A]. now inversion A. Qed.
(** Well-formedness of a token somewhere in the list. *)
Ltac inlist := solve [repeat (rewrite in_app_iff || cbn [In]); tauto].
Lemma legit_in t ts : legit ts -> In t ts -> wf_tok t.
Proof. intros [A _] H. rewrite Forall_forall in A. auto. Qed.
Ltac wf LG t := match type of LG with legit ?ts => assert (wf_tok t) by (apply (legit_in t ts LG); inlist) end.

(** ** Small lists *)
Lemma rule_124 : case 124. Proof. start RED LA LG GI GK AO. done_args AO. answer. eexists. split; [reflexivity|]. split; [constructor|cbn; lia]. Qed.
Lemma rule_125 : case 125. Proof. start RED LA LG GI GK AO. tok AO c. done_args AO. answer. eexists. split; [reflexivity|]. split; [now repeat constructor|cbn; lia]. Qed.
Lemma rule_126 : case 126.
Proof. start RED LA LG GI GK AO. tok AO c. done_args AO. wf LG c. answer. eexists. split; [reflexivity|]. split; [now repeat constructor|]. split; [discriminate|].
  destruct H as [_ H]. lia. Qed.
Lemma rule_127 : case 127.
Proof. start RED LA LG GI GK AO. take AO (p & -> & A & B & C). tok AO c. done_args AO. answer. eexists. split; [reflexivity|].
  split; [apply Forall_app; split; [assumption|now repeat constructor]|]. split; [now destruct t|assumption]. Qed.
Lemma rule_128 : case 128. Proof. start RED LA LG GI GK AO. done_args AO. answer. eexists. split; [reflexivity|]. split; [constructor|]. now split. Qed.
Lemma rule_129 : case 129.
Proof. start RED LA LG GI GK AO. take AO (p & -> & A & B & C). done_args AO. answer. eexists. split; [reflexivity|]. split; [assumption|]. tauto. Qed.
Lemma rule_4 : case 4. Proof. start RED LA LG GI GK AO. done_args AO. answer. split; [reflexivity|constructor]. Qed.
Lemma rule_5 : case 5.
Proof. start RED LA LG GI GK AO. take AO (-> & A). tok AO c. done_args AO. answer. split; [reflexivity|]. apply Forall_app; split; [assumption|now repeat constructor]. Qed.
Lemma rule_38 : case 38. Proof. start RED LA LG GI GK AO. done_args AO. answer. split; auto. Qed.
Lemma rule_39 : case 39. Proof. start RED LA LG GI GK AO. tok AO c. done_args AO. answer. split; [reflexivity|]. right. exists c. now split. Qed.

(** ** Tokens with a meaning of their own *)
Lemma rule_138 : case 138.
Proof. start RED LA LG GI GK AO. tok AO c. done_args AO. answer. eexists _, c. split; [reflexivity|]. split; [reflexivity|]. now repeat split. Qed.
Lemma rule_139 : case 139.
Proof. start RED LA LG GI GK AO. tok AO c. done_args AO. answer. eexists _, c. split; [reflexivity|]. split; [reflexivity|]. now repeat split. Qed.
Lemma one_tok_not_two (t : token) (l : list token) x : l <> [] -> t :: l <> [x].
Proof. destruct l; [tauto|discriminate]. Qed.
Lemma rule_140 : case 140.
Proof. start RED LA LG GI GK AO. tok AO c. tok AO d. tok AO e. done_args AO. answer. eexists. split; [reflexivity|]. split; [now apply p_int_frac|discriminate]. Qed.
Lemma rule_141 : case 141.
Proof. start RED LA LG GI GK AO. tok AO c. tok AO d. done_args AO. answer. eexists. split; [reflexivity|]. split; [now apply p_int_dot|discriminate]. Qed.
Lemma rule_142 : case 142.
Proof. start RED LA LG GI GK AO. tok AO c. tok AO d. done_args AO. answer. eexists. split; [reflexivity|]. split; [now apply p_frac|discriminate]. Qed.
Lemma rule_143 : case 143.
Proof.
  start RED LA LG GI GK AO. take_ AO s P K G. destruct G as (c & -> & -> & T). rewrite K in T.
  assert (K0 : t_kind c = KInt) by (eapply tkind_at; [exact T|vm_compute; reflexivity]).
  done_args AO. answer. eexists. split; [reflexivity|]. split; [now apply p_int|].
  intros ->. exfalso. destruct (edge_live _ _ P) as [L R]. now apply (precedence s L R).
Qed.
(** ** Primary expressions *)
Lemma rule_40 : case 40.
Proof. start RED LA LG GI GK AO. take AO (i & tk & -> & -> & H). done_args AO. answer. eexists. split; [reflexivity|]. split; [now apply p_ident|].
  intros _ j J E. injection E as <-. destruct H as [H _]. congruence. Qed.
Lemma rule_41 : case 41.
Proof. start RED LA LG GI GK AO. take AO (e & -> & H & N). done_args AO. answer. eexists. split; [reflexivity|]. split; auto. Qed.
Lemma rule_42 : case 42.
Proof. start RED LA LG GI GK AO. take AO (i & tk & -> & -> & H). done_args AO. answer. eexists. split; [reflexivity|]. split; [now apply p_str|].
  intros _ j J E. injection E as <-. destruct H as [H _]. congruence. Qed.
Lemma not_lone (x y : list token) b i : x ++ b :: y = [i] -> x = [] /\ y = [] /\ b = i.
Proof. destruct x; cbn; intro E; [injection E as -> ->; auto|]. injection E as _ E. destruct x; discriminate. Qed.
Lemma prim_nonempty e ts : one Prim e ts -> ts <> [].
Proof. intros H. inversion H; subst; try discriminate; destruct tx; discriminate. Qed.
Lemma rule_43 : case 43.
Proof.
  start RED LA LG GI GK AO. take AO (e & -> & H & N). tok AO d. tok AO n. done_args AO. answer. eexists. split; [reflexivity|].
  split.
  - eapply p_dot; eauto.
  - intros _ i _ E. apply not_lone in E. destruct E as (_ & E & _). discriminate.
Qed.
Lemma rule_44 : case 44.
Proof.
  start RED LA LG GI GK AO. tok AO l. tok AO lp. take AO (x0 & -> & A & _). take AO (m & tk & -> & -> & M). take AO (x1 & -> & B & B' & _).
  take AO (ls & -> & C). take AO (x2 & -> & D & _). tok AO rp. done_args AO. answer. eexists. split; [reflexivity|]. split; [|discriminate].
  cbn [app]. eapply p_load; eauto.
Qed.
Lemma rule_45 : case 45.
Proof.
  start RED LA LG GI GK AO. take AO (e & -> & H & N). tok AO lp. take AO (l & -> & A). tok AO rp. done_args AO. answer.
  eexists. split; [reflexivity|]. split.
  - destruct A as [[-> ->]|(cs0 & tl & cs1 & -> & A & B & C)]; cbn [app].
    + now apply p_call0.
    + rewrite <- !app_assoc. eapply p_call; eauto.
  - intros _ i _ E. apply not_lone in E. destruct E as (E & _ & _). now apply prim_nonempty in H.
Qed.
Lemma rule_46 : case 46.
Proof.
  start RED LA LG GI GK AO. take AO (e & -> & H & N). tok AO lb. take AO (y & -> & A & _). tok AO rb. done_args AO. answer.
  eexists. split; [reflexivity|]. split; [cbn [app]; eapply p_index; eauto|].
  intros _ i _ E. apply not_lone in E. destruct E as (E & _ & _). now apply prim_nonempty in H.
Qed.
Lemma rule_47 : case 47.
Proof.
  start RED LA LG GI GK AO. take AO (e & -> & H & N). tok AO lb. take AO (f & -> & A). tok AO k1. take AO (t' & -> & B). tok AO rb. done_args AO. answer.
  eexists. split; [reflexivity|]. split.
  - cbn [app]. eapply p_slice with (tr := []); eauto using sp_none.
  - intros _ i _ E. apply not_lone in E. destruct E as (E & _ & _). now apply prim_nonempty in H.
Qed.
Lemma rule_48 : case 48.
Proof.
  start RED LA LG GI GK AO. take AO (e & -> & H & N). tok AO lb. take AO (f & -> & A). tok AO k1. take AO (t' & -> & B). tok AO k2. take AO (u & -> & C).
  tok AO rb. done_args AO. answer.
  eexists. split; [reflexivity|]. split.
  - cbn [app]. eapply p_slice with (tr := k2 :: _); eauto using sp_some.
  - intros _ i _ E. apply not_lone in E. destruct E as (E & _ & _). now apply prim_nonempty in H.
Qed.
Lemma rule_49 : case 49.
Proof.
  start RED LA LG GI GK AO. tok AO lb. take AO (l & p & -> & A). tok AO rb. done_args AO. answer.
  eexists. split; [reflexivity|]. split.
  - cbn [app]. apply p_list; auto. destruct A as [[-> ->]|(tl & cs & -> & A & B & C)]; [apply it_none|now apply it_some].
  - intros _ i _ E. injection E as _ E. destruct t; discriminate.
Qed.
Lemma rule_50 : case 50.
Proof.
  start RED LA LG GI GK AO. tok AO lb. take AO (e & r & o & -> & A & _). take AO (l & o' & -> & B & _). tok AO rb. done_args AO. answer.
  eexists. split; [reflexivity|]. split.
  - cbn [app]. eapply p_comp; eauto. eapply level_test; eauto.
  - intros _ i _ E. injection E as _ E. apply (f_equal (@rev _)) in E. rewrite app_assoc, rev_app_distr in E. discriminate.
Qed.
Lemma rule_51 : case 51.
Proof.
  start RED LA LG GI GK AO. tok AO lb. take AO (e & -> & A). take AO (l & o' & -> & B & _). tok AO rb. done_args AO. answer.
  eexists. split; [reflexivity|]. split.
  - cbn [app]. eapply p_dict_comp; eauto.
  - intros _ i _ E. injection E as _ E. apply (f_equal (@rev _)) in E. rewrite app_assoc, rev_app_distr in E. discriminate.
Qed.
Lemma rule_52 : case 52.
Proof.
  start RED LA LG GI GK AO. tok AO lb. take AO (l & -> & A). tok AO rb. done_args AO. answer.
  eexists. split; [reflexivity|]. split.
  - cbn [app]. apply p_dict; auto.
  - intros _ i _ E. injection E as _ E. destruct t; discriminate.
Qed.
Lemma rule_53 : case 53.
Proof.
  start RED LA LG GI GK AO. tok AO lb. take AO (l & -> & A). take AO (x & -> & B & C). tok AO rb. done_args AO. answer.
  eexists. split; [reflexivity|]. split.
  - cbn [app]. apply p_set; auto.
  - intros _ i _ E. injection E as _ E. apply (f_equal (@rev _)) in E. rewrite app_assoc, rev_app_distr in E. discriminate.
Qed.
Lemma row_nonempty c l ts : row c l ts -> l <> [].
Proof. intro H. inversion H; subst; [discriminate|]. match goal with |- ?l ++ _ <> _ => destruct l; discriminate end. Qed.
Lemma row_single c x ts : row c [x] ts -> one c x ts.
Proof.
  intro H. inversion H; subst; [assumption|]. match goal with E : ?l ++ [_] = [_] |- _ => destruct l as [|? [|]]; try discriminate end.
  exfalso. eapply row_nonempty; eauto.
Qed.
Lemma rule_54 : case 54.
Proof.
  start RED LA LG GI GK AO. tok AO lp. take AO (l & x & -> & A). tok AO rp. done_args AO.
  assert (N : forall i, [lp] ++ t ++ [rp] <> [i]) by (intros i E; injection E as _ E; destruct t; discriminate).
  destruct A as [[-> ->]|(tl & cs & -> & A & B & C)].
  - answer. eexists. split; [reflexivity|]. split; [cbn [app]; now apply p_tuple0|]. intros; apply N.
  - destruct l as [|e [|e' l]]; [now apply row_nonempty in A| |].
    + destruct (p_line x =? 0)%Z eqn:E.
      * answer. eexists. split; [reflexivity|]. split; [|intros; apply N]. apply Z.eqb_eq in E. apply C in E. subst cs.
        rewrite app_nil_r. cbn [app]. apply p_paren; auto. now apply row_single.
      * answer. eexists. split; [reflexivity|]. split; [|intros; apply N]. rewrite <- app_assoc. cbn [app]. apply p_tuple; auto.
        intros _ ->. apply Z.eqb_neq in E. tauto.
    + answer. eexists. split; [reflexivity|]. split; [|intros; apply N]. rewrite <- app_assoc. cbn [app]. apply p_tuple; auto. discriminate.
Qed.
(** ** Lists of expressions *)
Lemma rule_55 : case 55. Proof. start RED LA LG GI GK AO. done_args AO. answer. exists []. auto. Qed.
Lemma rule_56 : case 56.
Proof.
  start RED LA LG GI GK AO. take AO (l & -> & cs0 & tl & -> & A & B). take AO (x & -> & C & _). done_args AO. answer.
  exists l. split; [reflexivity|]. right. exists cs0, tl, t. now rewrite <- app_assoc.
Qed.
Lemma rule_57 : case 57.
Proof.
  start RED LA LG GI GK AO. take AO (x & -> & C & _). take AO (e & -> & A). done_args AO. answer.
  exists [e]. split; [reflexivity|]. exists t, t0. split; [reflexivity|]. split; [assumption|]. now apply r_one.
Qed.
Lemma rule_58 : case 58.
Proof.
  start RED LA LG GI GK AO. take AO (l & -> & cs0 & tl & -> & A & B). take AO (x & -> & C & D & _). take AO (e & -> & F). done_args AO. answer.
  eexists. split; [reflexivity|]. exists cs0, (tl ++ t ++ t0). rewrite <- app_assoc. split; [reflexivity|]. split; [assumption|]. now apply r_more.
Qed.
Lemma rule_59 : case 59.
Proof. start RED LA LG GI GK AO. take AO (e & r & o & -> & A & _). done_args AO. answer. eexists. split; [reflexivity|]. eapply a_test, level_test; eauto. Qed.
Lemma bin_assign x p y : mem_bytes p [%"="; %"+="; %"-="; %"*="; %"/="; %"//="; %"%="; %"|="] = true -> forall o,
  binary x o p y = EAssign no_com x o p (p_line (end_pos x) <? p_line (start_pos y))%Z y.
Proof. intros E o. unfold binary. now rewrite E. Qed.
Lemma rule_60 : case 60.
Proof.
  start RED LA LG GI GK AO. take AO (i & tk & -> & -> & H). tok AO q. take AO (e & r & o & -> & A & _). done_args AO. wf LG q.
  answer. eexists. split; [reflexivity|]. rewrite (text_char q "=") by assumption. cbn [app]. apply a_named; auto. eapply level_test; eauto.
Qed.
Lemma rule_61 : case 61.
Proof.
  start RED LA LG GI GK AO. tok AO q. take AO (e & r & o & -> & A & _). done_args AO. wf LG q.
  answer. eexists. split; [reflexivity|]. unfold unary. rewrite (text_char q "*") by assumption. cbn [app]. apply a_star; auto. eapply level_test; eauto.
Qed.
Ltac t1 q k := match goal with W : wf_tok q |- _ => rewrite (text1 q k _ W ltac:(assumption) ltac:(cbn [texts In]; tauto)) end.
Lemma rule_62 : case 62.
Proof.
  start RED LA LG GI GK AO. tok AO q. take AO (e & r & o & -> & A & _). done_args AO. wf LG q.
  answer. eexists. split; [reflexivity|]. unfold unary. rewrite (text1 q KStarStar %"**") by (assumption || (cbn [texts In]; tauto)).
  cbn [app]. apply a_star2; auto. eapply level_test; eauto.
Qed.
Lemma rule_63 : case 63.
Proof. start RED LA LG GI GK AO. take AO (f & to & -> & A). done_args AO. answer. eexists. split; [reflexivity|]. cbn [map fst snd]. now apply las_one. Qed.
Lemma rule_64 : case 64.
Proof.
  start RED LA LG GI GK AO. take AO (l & -> & A). tok AO c. take AO (f & to & -> & B). done_args AO. answer. eexists. split; [reflexivity|].
  rewrite !map_app. cbn [map fst snd app]. now apply las_more.
Qed.
Lemma rule_65 : case 65.
Proof.
  start RED LA LG GI GK AO. take AO (x & tk & -> & -> & (A & B & C & D)). done_args AO. answer. eexists _, _. split; [reflexivity|]. now apply la_same. Qed.
Lemma rule_66 : case 66.
Proof.
  start RED LA LG GI GK AO. take AO (i & u & -> & -> & H). tok AO q. take AO (x & tk & -> & -> & (A & B & C & D)). done_args AO. answer.
  eexists _, _. split; [reflexivity|]. cbn [app]. now apply la_as.
Qed.
Lemma rule_67 : case 67. Proof. start RED LA LG GI GK AO. done_args AO. answer. exists []. split; [reflexivity|apply ps_none]. Qed.
Lemma rule_69 : case 69. Proof. start RED LA LG GI GK AO. done_args AO. answer. exists []. split; [reflexivity|apply ps_none]. Qed.
Lemma rule_68 : case 68.
Proof. start RED LA LG GI GK AO. take AO (l & -> & A). take AO (x & -> & B & C). done_args AO. answer. eexists. split; [reflexivity|]. now apply ps_some. Qed.
Lemma rule_70 : case 70.
Proof. start RED LA LG GI GK AO. take AO (l & -> & A). take AO (x & -> & B & C). done_args AO. answer. eexists. split; [reflexivity|]. now apply ps_some. Qed.
Lemma rule_71 : case 71. Proof. start RED LA LG GI GK AO. take AO (e & -> & A). done_args AO. answer. eexists. split; [reflexivity|]. now apply r1_one. Qed.
Lemma rule_73 : case 73. Proof. start RED LA LG GI GK AO. take AO (e & -> & A). done_args AO. answer. eexists. split; [reflexivity|]. now apply r1_one. Qed.
Lemma rule_72 : case 72.
Proof. start RED LA LG GI GK AO. take AO (l & -> & A). tok AO c. take AO (e & -> & B). done_args AO. answer. eexists. split; [reflexivity|]. cbn [app]. now apply r1_more. Qed.
Lemma rule_74 : case 74.
Proof. start RED LA LG GI GK AO. take AO (l & -> & A). tok AO c. take AO (e & -> & B). done_args AO. answer. eexists. split; [reflexivity|]. cbn [app]. now apply r1_more. Qed.
Lemma rule_75 : case 75.
Proof. start RED LA LG GI GK AO. take AO (i & tk & -> & -> & H). done_args AO. answer. eexists. split; [reflexivity|]. now apply f_ident. Qed.
Lemma rule_76 : case 76.
Proof.
  start RED LA LG GI GK AO. take AO (i & tk & -> & -> & H). tok AO q. take AO (e & r & o & -> & A & _). done_args AO. wf LG q.
  answer. eexists. split; [reflexivity|]. rewrite (text_char q "=") by assumption. cbn [app]. apply f_default; auto. eapply level_test; eauto.
Qed.
Lemma rule_77 : case 77.
Proof.
  start RED LA LG GI GK AO. tok AO q. take AO (i & tk & -> & -> & H). done_args AO. wf LG q. answer. eexists. split; [reflexivity|].
  unfold unary. rewrite (text_char q "*") by assumption. cbn [app]. now apply f_star.
Qed.
Lemma rule_78 : case 78.
Proof.
  start RED LA LG GI GK AO. tok AO q. done_args AO. wf LG q. answer. eexists. split; [reflexivity|].
  unfold unary. rewrite (text_char q "*") by assumption. cbn [app]. now apply f_bare.
Qed.
Lemma rule_79 : case 79.
Proof.
  start RED LA LG GI GK AO. tok AO q. take AO (i & tk & -> & -> & H). done_args AO. wf LG q. answer. eexists. split; [reflexivity|].
  unfold unary. rewrite (text1 q KStarStar %"**") by (assumption || (cbn [texts In]; tauto)). cbn [app]. now apply f_star2.
Qed.
Lemma rule_80 : case 80. Proof. start RED LA LG GI GK AO. take AO (e & -> & A). done_args AO. answer. eexists. split; [reflexivity|]. now apply g_param. Qed.
Lemma rule_81 : case 81.
Proof.
  start RED LA LG GI GK AO. take AO (i & tk & -> & -> & H). tok AO c. take AO (e & r & o & -> & A & _). done_args AO. answer.
  eexists. split; [reflexivity|]. cbn [app]. apply g_typed; auto. eapply level_test; eauto.
Qed.
Lemma rule_82 : case 82.
Proof.
  start RED LA LG GI GK AO. take AO (i & tk & -> & -> & H). tok AO c. take AO (e & r & o & -> & A & _). tok AO q. take AO (e' & r' & o' & -> & B & _). done_args AO.
  wf LG q. answer. eexists. split; [reflexivity|]. rewrite (text_char q "=") by assumption. cbn [app]. apply g_default; auto; eapply level_test; eauto.
Qed.
Lemma rule_83 : case 83.
Proof.
  start RED LA LG GI GK AO. tok AO q. take AO (i & tk & -> & -> & H). tok AO c. take AO (e & r & o & -> & A & _). done_args AO. wf LG q. answer.
  eexists. split; [reflexivity|]. unfold unary. rewrite (text_char q "*") by assumption. cbn [app]. apply g_star; auto. eapply level_test; eauto.
Qed.
Lemma rule_84 : case 84.
Proof.
  start RED LA LG GI GK AO. tok AO q. take AO (i & tk & -> & -> & H). tok AO c. take AO (e & r & o & -> & A & _). done_args AO. wf LG q. answer.
  eexists. split; [reflexivity|]. unfold unary. rewrite (text1 q KStarStar %"**") by (assumption || (cbn [texts In]; tauto)). cbn [app]. apply g_star2; auto. eapply level_test; eauto.
Qed.
Lemma rule_118 : case 118.
Proof. start RED LA LG GI GK AO. take AO (e & r & o & -> & A & _). done_args AO. answer. eexists. split; [reflexivity|]. eapply r_one, level_test; eauto. Qed.
Lemma rule_119 : case 119.
Proof.
  start RED LA LG GI GK AO. take AO (l & -> & A). take AO (x & -> & C & D & _). take AO (e & r & o & -> & B & _). done_args AO. answer. eexists. split; [reflexivity|].
  apply r_more; auto. eapply level_test; eauto.
Qed.
Lemma rule_120 : case 120. Proof. start RED LA LG GI GK AO. done_args AO. answer. eexists. split; [reflexivity|]. apply m_none. Qed.
Lemma rule_121 : case 121.
Proof. start RED LA LG GI GK AO. take AO (e & r & o & -> & A & _). done_args AO. answer. eexists. split; [reflexivity|]. eapply m_some, level_test; eauto. Qed.
Lemma rule_122 : case 122. Proof. start RED LA LG GI GK AO. done_args AO. answer. eexists _, _. split; [reflexivity|]. auto. Qed.
Lemma rule_123 : case 123.
Proof. start RED LA LG GI GK AO. take AO (l & -> & A). take AO (x & -> & B & C). done_args AO. answer. eexists _, _. split; [reflexivity|]. right. exists t, t0. auto. Qed.
Lemma rule_130 : case 130.
Proof.
  start RED LA LG GI GK AO. take AO (e & r & o & -> & A & _). tok AO c. take AO (e' & r' & o' & -> & B & _). done_args AO. answer. eexists. split; [reflexivity|].
  cbn [app]. apply k_pair; auto; eapply level_test; eauto.
Qed.
Lemma rule_131 : case 131. Proof. start RED LA LG GI GK AO. take AO (e & -> & A). done_args AO. answer. eexists. split; [reflexivity|]. now apply r_one. Qed.
Lemma rule_132 : case 132.
Proof. start RED LA LG GI GK AO. take AO (l & -> & A). take AO (x & -> & B & C & _). take AO (e & -> & D). done_args AO. answer. eexists. split; [reflexivity|]. now apply r_more. Qed.
Lemma rule_133 : case 133. Proof. start RED LA LG GI GK AO. done_args AO. answer. eexists. split; [reflexivity|]. apply it_none. Qed.
Lemma rule_134 : case 134.
Proof. start RED LA LG GI GK AO. take AO (l & -> & A). done_args AO. answer. eexists. split; [reflexivity|]. rewrite <- (app_nil_r t). apply it_some; [assumption|constructor]. Qed.
Lemma rule_135 : case 135.
Proof. start RED LA LG GI GK AO. take AO (l & -> & A). take AO (x & -> & B & C & _). done_args AO. answer. eexists. split; [reflexivity|]. now apply it_some. Qed.
(** ** Expressions with operators *)
Lemma oplevel_max X m : In (X, m) oplevel -> m <= 11.
Proof. intro H. repeat (destruct H as [H|H]; [injection H as <- <-; lia|]). destruct H. Qed.
Lemma rule_89 : case 89.
Proof.
  start RED LA LG GI GK AO. take AO (e & -> & H & _). done_args AO. answer. exists e, 12, false. split; [reflexivity|]. split; [now apply t_prim|].
  split; [apply lvl_max, (edge_live _ _ GI)|]. intros m M. apply oplevel_max in M. split; [lia|reflexivity].
Qed.
Lemma rule_85 : case 85.
Proof.
  start RED LA LG GI GK AO. take AO s P K (e & r & o & -> & A & B & C). done_args AO. answer. exists e. split; [reflexivity|].
  apply level_test in A. split; [now apply e_test|]. intros _. split; [assumption|]. intros m M.
  destruct (edge_live _ _ P) as [L R]. destruct (precedence s L R) as (_ & _ & Q & _). specialize (Q _ _ _ M RED). apply Q. now left.
Qed.
Lemma tuple_expr x tx y o ty c : one Expr x tx -> ch "," c -> one (Level 2 o) y ty -> one Expr (add_tuple x y) (tx ++ c :: ty).
Proof.
  intros X C Y. destruct (expr_row x tx X) as (l & R & M).
  assert (W : row1 Test Item (l ++ [y]) (tx ++ c :: ty)) by (apply r1_more; auto; eapply t_item; eauto).
  assert (D : add_tuple x y = ETuple no_com true no_pos [x; y] (End no_com no_pos) true false /\ l = [x] \/
              exists c0 p0 l0 d0 b0 b1, x = ETuple c0 true p0 l d0 b0 b1 /\ add_tuple x y = ETuple c0 true p0 l0 d0 true false /\ l0 = l ++ [y] /\ 2 <= List.length l).
  { destruct x; auto. destruct nobr; auto. right. destruct M as [-> M]. repeat eexists; auto. }
  destruct D as [[-> ->]|(c0 & p0 & l0 & d0 & b0 & b1 & _ & -> & -> & L)]; apply e_tuple; auto.
  rewrite app_length. lia.
Qed.
Lemma rule_86 : case 86.
Proof.
  start RED LA LG GI GK AO. take AO s1 P1 K1 (x & -> & A & _). take AO s2 P2 K2 (c & -> & -> & T). rewrite K2 in T.
  assert (C : t_kind c = KChar ",") by (eapply tkind_at; [exact T|vm_compute; reflexivity]).
  take AO s3 P3 K3 (y & r & o & -> & B & L & _). done_args AO.
  assert (L2 : 2 <= r) by (pose proof (need_lvl _ _ _ LA RED) as N; change (need 86) with 2 in N; lia).
  answer. eexists. split; [reflexivity|]. split.
  - cbn [app]. eapply tuple_expr; eauto. eapply level_weaken; eauto.
  - intro Q. exfalso. rewrite (edge_goto q0 s1 (-17) P1 K1 ltac:(lia)) in Q. destruct (edge_live _ _ P1) as [L1 R1].
    destruct (precedence s1 L1 R1) as (_ & N & _). apply (N K1 Q s2). apply (edge_shift s1 s2 9 P2 K2). lia.
Qed.
Lemma rule_87 : case 87. Proof. start RED LA LG GI GK AO. done_args AO. answer. eexists. split; [reflexivity|]. apply m_none. Qed.
Lemma rule_88 : case 88.
Proof. start RED LA LG GI GK AO. take AO (e & -> & A & _). done_args AO. answer. eexists. split; [reflexivity|]. now apply m_some. Qed.
Lemma rule_90 : case 90.
Proof.
  start RED LA LG GI GK AO. tok AO l. take AO (ps & -> & A). tok AO c. take AO s9 P9 K9 (b & -> & B & C). done_args AO.
  destruct (C (lambda_reduces _ _ LA RED)) as [D N]. answer. exists (ELambda no_com (t_pos l) ps [b]), 12, true. split; [reflexivity|].
  split; [cbn [app]; now apply t_lambda|]. split; [apply lvl_max, (edge_live _ _ GI)|]. intros m M. now apply N in M.
Qed.
Lemma binary_binop s k m x p y : In (s, k, m) binops -> binary x p s y = EBinary no_com x p s (p_line (end_pos x) <? p_line (start_pos y))%Z y.
Proof. intro H. repeat (destruct H as [H|H]; [injection H as <- <- <-; reflexivity|]). destruct H. Qed.
Lemma unop_case q0 l e r o a0 k tx s : In (s, k) unops -> t_kind l = k -> wf_tok l -> t_tok l = s ->
  one (Level r o) e tx -> 12 <= r -> (forall m, In (a0, m) oplevel -> m <= r /\ o = false) ->
  In q0 (preds_of (goto_ q0 13)) -> g_test (goto_ q0 13) (VExpr (unary (t_pos l) (t_tok l) (Some e))) (l :: tx) a0.
Proof.
  intros I K W E A L O GI. exists (unary (t_pos l) (t_tok l) (Some e)), 12, o. split; [reflexivity|]. split.
  - unfold unary. rewrite E. eapply t_unary; eauto. eapply level_weaken; [|exact A]. lia.
  - split; [apply lvl_max, (edge_live _ _ GI)|]. intros m M. destruct (O _ M) as [_ ->]. apply oplevel_max in M. split; [lia|reflexivity].
Qed.
Lemma un_case X k s r0 A f : In (s, k) unops -> kind_at X = Some k -> pred_of X = g_tok -> (forall l, wf_tok l -> t_kind l = k -> t_tok l = s) -> need r0 = 12 ->
  rule r0 = Some (A, [X; N_test]) -> A = N_test -> nth_error actions (Z.to_nat r0 - 1) = Some f -> f = un -> case r0.
Proof.
  intros I KX PX TX NE E1 -> E2 -> A' rhs f' E1' E2'. rewrite E1 in E1'. injection E1' as <- <-. rewrite E2 in E2'. injection E2' as <-.
  intros q0 p0 vs0 ts0 a0 RED LA LG AO GI GK.
  destruct (args_inv _ _ _ _ _ _ _ AO) as (s0 & v & vs & t & ts & -> & -> & P & K & G & AO'). rewrite PX in G. destruct G as (l & -> & -> & T).
  rewrite K in T. clear AO. rename AO' into AO. take AO s1 P1 K1 (e & r & o & -> & B & L & O). done_args AO. wf LG l.
  pose proof (need_lvl _ _ _ LA RED) as N. rewrite NE in N.
  eexists. split; [reflexivity|]. change (- N_test)%Z with 13%Z in *. change (pred_of N_test) with g_test. cbn [app].
  eapply unop_case; eauto; [eapply tkind_at; eauto|apply TX; eauto using tkind_at|lia].
Qed.
Ltac unrule X k s := apply (un_case X k s _ N_test un); try reflexivity; try (cbn [unops In]; tauto);
  intros ? ? ?; first [apply text_char; assumption | eapply text1; [eassumption|eassumption|cbn [texts In]; tauto]].
Lemma rule_91 : case 91. Proof. unrule T_NOT KNot %"not". Qed.
Lemma rule_92 : case 92. Proof. unrule t_minus (KChar "-") %"-". Qed.
Lemma rule_93 : case 93. Proof. unrule t_plus (KChar "+") %"+". Qed.
Lemma rule_94 : case 94. Proof. unrule t_tilde (KChar "~") %"~". Qed.
(** A binary operator at level [m]. *)
Lemma bin_level q s1 X m s2 r0 p a : In q (preds_of s1) -> chk s1 = N_test -> In s1 (preds_of s2) -> chk s2 = X -> (0 <= X)%Z -> In (X, m) oplevel ->
  live p = true -> (0 <= p < 267)%Z -> action p a = Reduce r0 -> rule_level r0 = Some m -> (0 <= a < 63)%Z ->
  goto_ q 13 = s1 /\ lvl s1 <= m /\ S m <= lvl p /\ (forall m', In (a, m') oplevel -> m' <= m).
Proof.
  intros P1 K1 P2 K2 PX I L R RED RL LA.
  assert (G : goto_ q 13 = s1) by (apply (edge_goto q s1 N_test P1 K1); reflexivity).
  split; [assumption|]. destruct (edge_live _ _ P1) as [L1 R1]. destruct (precedence s1 L1 R1) as (Q & _).
  split; [apply (Q K1 X m s2 I), (edge_shift s1 s2 X P2 K2 PX)|].
  split; [pose proof (need_lvl _ _ _ LA RED) as N; unfold need in N; now rewrite RL in N|].
  intros m' M. destruct (precedence p L R) as (_ & _ & Q' & _). specialize (Q' _ _ _ M RED). now rewrite RL in Q'.
Qed.
Lemma bin_case X m k s r0 A f : In (s, k, m) binops -> In (X, m) oplevel -> kind_at X = Some k -> pred_of X = g_tok -> (forall l, wf_tok l -> t_kind l = k -> t_tok l = s) ->
  rule_level r0 = Some m -> rule r0 = Some (A, [N_test; X; N_test]) -> A = N_test -> (0 <= X)%Z -> nth_error actions (Z.to_nat r0 - 1) = Some f -> f = bin -> case r0.
Proof.
  intros I IX KX PX TX RL E1 -> PZ E2 -> A' rhs f' E1' E2'. rewrite E1 in E1'. injection E1' as <- <-. rewrite E2 in E2'. injection E2' as <-.
  intros q0 p0 vs0 ts0 a0 RED LA LG AO GI GK.
  take AO s1 P1 K1 (x & r1 & o1 & -> & A & L1 & O1).
  destruct (args_inv _ _ _ _ _ _ _ AO) as (s2 & v & vs' & t' & ts' & -> & -> & P2 & K2 & G & AO'). rewrite PX in G. destruct G as (op & -> & -> & T).
  rewrite K2 in T. clear AO. rename AO' into AO. take AO s3 P3 K3 (y & r2 & o2 & -> & B & L2 & O2). done_args AO. wf LG op.
  destruct (edge_live _ _ P3) as [LL RR].
  destruct (bin_level _ _ X m _ _ _ _ P1 K1 P2 K2 PZ IX LL RR RED RL LA) as (G & G1 & G2 & G3).
  destruct (O1 m) as [LO ->]; [rewrite look_app; cbn [look]; now rewrite T|].
  assert (KO : t_kind op = k) by (eapply tkind_at; eauto). specialize (TX op H KO).
  eexists. split; [reflexivity|]. change (- N_test)%Z with 13%Z in *. change (pred_of N_test) with g_test.
  rewrite TX, (binary_binop s k m) by assumption. eexists _, m, o2. split; [reflexivity|]. split; [|split].
  - cbn [app]. apply (t_binary m o2 _ _ _ _ m _ _ t [op]); [now apply (op_one s k m)| | |lia].
    + eapply level_weaken; [|exact A]. lia.
    + eapply level_weaken; [|exact B]. lia.
  - rewrite G. assumption.
  - intros m' M. split; [now apply G3|now destruct (O2 _ M)].
Qed.
Ltac binrule X m k s := apply (bin_case X m k s _ N_test bin);
  [cbn [binops In]; tauto | cbn [oplevel In]; tauto | reflexivity | reflexivity
  | intros ? ? ?; first [apply text_char; assumption | eapply text1; [eassumption|eassumption|cbn [texts In]; tauto]]
  | reflexivity | reflexivity | reflexivity | vm_compute; discriminate | reflexivity | reflexivity].
Lemma rule_95 : case 95. Proof. binrule t_star 11 (KChar "*") %"*". Qed.
Lemma rule_96 : case 96. Proof. binrule t_percent 11 (KChar "%") %"%". Qed.
Lemma rule_97 : case 97. Proof. binrule t_slash 11 (KChar "/") %"/". Qed.
Lemma rule_98 : case 98. Proof. binrule T_INT_DIV 11 KIntDiv %"//". Qed.
Lemma rule_99 : case 99. Proof. binrule t_plus 10 (KChar "+") %"+". Qed.
Lemma rule_100 : case 100. Proof. binrule t_minus 10 (KChar "-") %"-". Qed.
Lemma rule_101 : case 101. Proof. binrule t_lt 5 (KChar "<") %"<". Qed.
Lemma rule_102 : case 102. Proof. binrule t_gt 5 (KChar ">") %">". Qed.
Lemma rule_103 : case 103. Proof. binrule T_EQ 5 KEq %"==". Qed.
Lemma rule_104 : case 104. Proof. binrule T_LE 5 KLe %"<=". Qed.
Lemma rule_105 : case 105. Proof. binrule T_NE 5 KNe %"!=". Qed.
Lemma rule_106 : case 106. Proof. binrule T_GE 5 KGe %">=". Qed.
Lemma rule_107 : case 107. Proof. binrule T_IN 5 KIn %"in". Qed.
Lemma rule_109 : case 109. Proof. binrule T_OR 3 KOr %"or". Qed.
Lemma rule_110 : case 110. Proof. binrule T_AND 4 KAnd %"and". Qed.
Lemma rule_111 : case 111. Proof. binrule t_bar 6 (KChar "|") %"|". Qed.
Lemma rule_112 : case 112. Proof. binrule t_amp 8 (KChar "&") %"&". Qed.
Lemma rule_113 : case 113. Proof. binrule t_caret 7 (KChar "^") %"^". Qed.
Lemma rule_114 : case 114. Proof. binrule T_BIT_LSH 9 KLsh %"<<". Qed.
Lemma rule_115 : case 115. Proof. binrule T_BIT_RSH 9 KRsh %">>". Qed.
Lemma rule_108 : case 108.
Proof.
  start RED LA LG GI GK AO. take AO s1 P1 K1 (x & r1 & o1 & -> & A & L1 & O1). take AO s2 P2 K2 (op & -> & -> & T). rewrite K2 in T.
  assert (KO : t_kind op = KNot) by (eapply tkind_at; [exact T|vm_compute; reflexivity]). tok AO u.
  take AO s3 P3 K3 (y & r2 & o2 & -> & B & L2 & O2). done_args AO. destruct (edge_live _ _ P3) as [LL RR].
  destruct (bin_level _ _ T_NOT 5 _ _ _ _ P1 K1 P2 K2 ltac:(vm_compute; discriminate) ltac:(cbn [oplevel In]; tauto) LL RR RED eq_refl LA) as (G & G1 & G2 & G3).
  destruct (O1 5) as [LO ->]; [cbn [app look]; rewrite T; cbn [oplevel In]; tauto|].
  answer. eexists _, 5, o2. split; [reflexivity|]. split; [|split].
  - cbn [app]. apply (t_binary 5 o2 _ _ _ _ 5 _ _ t [op; u]); [now apply op_not_in| | |lia].
    + eapply level_weaken; [|exact A]. lia.
    + eapply level_weaken; [|exact B]. lia.
  - change (- (-13))%Z with 13%Z. rewrite G. assumption.
  - intros m' M. split; [now apply G3|now destruct (O2 _ M)].
Qed.
Lemma level_not r o c p z ts : one (Level r o) (EUnary c p %"not" (Some z)) ts -> exists u tz, ts = u :: tz /\ is KNot u /\ t_tok u = %"not" /\ one (Level 12 o) z tz.
Proof.
  intro H. inversion H; subst.
  - match goal with L : one Prim _ _ |- _ => inversion L end.
  - exists t, tx. match goal with L : In _ unops |- _ => repeat (destruct L as [L|L]; [injection L; intros; subst; try discriminate; auto|]); destruct L end.
Qed.
Lemma level_not_none r o c p op ts : ~ one (Level r o) (EUnary c p op None) ts.
Proof. intro H. inversion H; subst. match goal with L : one Prim _ _ |- _ => inversion L end. Qed.
Lemma is_not_dec y : (exists c p z, y = EUnary c p %"not" (Some z)) \/ ~ exists c p z, y = EUnary c p %"not" (Some z).
Proof.
  destruct y; try (right; intros (? & ? & ? & H); discriminate). destruct x; [|right; intros (? & ? & ? & H); discriminate].
  destruct (beq op %"not") eqn:E; [apply beq_eq in E; subst; eauto|]. right. intros (? & ? & ? & H). injection H; intros; subst. now rewrite beq_refl in E.
Qed.
Lemma rule_116 : case 116.
Proof.
  start RED LA LG GI GK AO. take AO s1 P1 K1 (x & r1 & o1 & -> & A & L1 & O1). take AO s2 P2 K2 (op & -> & -> & T). rewrite K2 in T.
  assert (KO : t_kind op = KIs) by (eapply tkind_at; [exact T|vm_compute; reflexivity]).
  take AO s3 P3 K3 (y & r2 & o2 & -> & B & L2 & O2). done_args AO. wf LG op. destruct (edge_live _ _ P3) as [LL RR].
  destruct (bin_level _ _ T_IS 2 _ _ _ _ P1 K1 P2 K2 ltac:(vm_compute; discriminate) ltac:(cbn [oplevel In]; tauto) LL RR RED eq_refl LA) as (G & G1 & G2 & G3).
  destruct (O1 2) as [LO ->]; [cbn [app look]; rewrite T; cbn [oplevel In]; tauto|].
  assert (TX : t_tok op = %"is") by (eapply text1; [eassumption|eassumption|cbn [texts In]; tauto]).
  assert (TAIL : forall e, one (Level 2 o2) e (t ++ op :: t0) -> g_test (goto_ q0 (- (-13))) (VExpr e) (t ++ op :: t0) a0).
  { intros e E. exists e, 2, o2. split; [reflexivity|]. split; [assumption|]. split; [change (- (-13))%Z with 13%Z; rewrite G; assumption|].
    intros m' M. split; [now apply G3|now destruct (O2 _ M)]. }
  destruct (is_not_dec y) as [(c & p & z & ->)|N].
  - answer. cbn [beq]. apply TAIL. cbn [app]. destruct (level_not _ _ _ _ _ _ B) as (u & tz & -> & U1 & U2 & Z1).
    apply t_is_not; auto. eapply level_weaken; [|exact A]. lia.
  - eexists. split.
    + instantiate (1 := VExpr (binary x (t_pos op) (t_tok op) y)). destruct y; try reflexivity.
      destruct x0; [|reflexivity]. match goal with |- (if ?b then _ else _) = _ => destruct b eqn:E end; [|reflexivity]. exfalso. apply N. apply beq_eq in E. subst. eauto.
    + goalp. apply TAIL. rewrite TX. cbn [app]. apply t_is; auto; [eapply level_weaken; [|exact A]; lia|eapply level_weaken; [|exact B]; lia|].
      intros (c & p & z & ->). destruct z as [z|]; [apply N; eauto|]. now apply level_not_none in B.
Qed.
