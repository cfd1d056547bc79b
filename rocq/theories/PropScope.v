(** C64: variables that may be read before they are set. *)
From Verif Require Import Base BaseProofs Ast Walk WalkSpec WalkProofs AttachTree Flow FlowSpec PropFlow Scope ScopeSpec ScopeProofs ScopeFlow.
Local Open Scope list_scope.

Lemma param_names_spec ps : param_names ps = flat_map param_name ps.
Proof.
  assert (G : forall p, opt_list i_name (GetParamIdent p) = param_name p).
  { induction p as [p IH] using sub_ind. destruct p; auto.
    - destruct x; auto. cbn. apply IH. constructor.
    - cbn. apply IH. constructor. }
  unfold param_names. induction ps as [|p ps IH]; cbn [flat_map]; auto. rewrite G, IH. auto.
Qed.
Lemma locals_in n l : In n (map i_name (collectLocalVariables l)) <->
  exists s, own l s /\ In n match s with EAssign _ x _ _ _ _ => lvalue_names x | EFor _ _ v _ _ => lvalue_names v | _ => [] end.
Proof.
  unfold collectLocalVariables. split.
  - intro H. apply in_map_iff in H as (i & <- & H). apply in_flat_map in H as (s & S1 & H).
    assert (G : exists x, own [s] x /\ In (i_name i) match x with EAssign _ x _ _ _ _ => lvalue_names x | EFor _ _ v _ _ => lvalue_names v | _ => [] end).
    { clear S1 l. induction s as [s IH] using sub_ind. destruct s; cbn [local1] in H; try destruct H.
      - exists (EAssign c s1 p op lbreak s2). split; [apply own_here; left; auto|]. now apply in_map.
      - apply in_app_or in H as [H|H]; [exists (EFor c p s1 s2 body); split; [apply own_here; left; auto|now apply in_map]|]. apply in_flat_map in H as (y & Y & H).
        destruct (IH y (sub_for_stmt_body _ _ _ _ _ _ Y) H) as (x & X & B). exists x. split; auto. eapply own_incl; [|exact X]. intros z [<- |[]]. eapply own_for; [apply own_here; left; reflexivity|auto].
      - apply in_app_or in H as [H|H]; apply in_flat_map in H as (y & Y & H).
        + destruct (IH y (sub_true _ _ _ _ _ _ _ Y) H) as (x & X & B). exists x. split; auto. eapply own_incl; [|exact X]. intros z [<- |[]]. eapply own_true; [apply own_here; left; reflexivity|auto].
        + destruct (IH y (sub_false _ _ _ _ _ _ _ Y) H) as (x & X & B). exists x. split; auto. eapply own_incl; [|exact X]. intros z [<- |[]]. eapply own_false; [apply own_here; left; reflexivity|auto]. }
    destruct G as (x & X & B). exists x. split; auto. eapply own_incl; [|exact X]. intros z [<- |[]]. now apply own_here.
  - intros (s & O & H). assert (G : incl (local1 s) (flat_map local1 l)).
    { clear H. induction O; intros i I1.
      - apply in_flat_map. eauto.
      - apply IHO. cbn [local1]. apply in_or_app. right. apply in_flat_map. eauto.
      - apply IHO. cbn [local1]. apply in_or_app. left. apply in_flat_map. eauto.
      - apply IHO. cbn [local1]. apply in_or_app. right. apply in_flat_map. eauto. }
    destruct s; try destruct H; apply in_map_iff in H as (i & <- & H); apply in_map; apply G; cbn [local1]; auto. apply in_or_app. auto.
Qed.
Lemma warning_spec f d i : In (d, i) (uninitializedVariableWarning f) <->
  exists c p ps body m a k l ty, d = EDef c p ps body m a k l ty /\ stmt_in f d /\
    In i (w_calls (findUninitializedVariables [] body)) /\ In (i_name i) (map i_name (collectLocalVariables body)) /\ ~ In (i_name i) (flat_map param_name ps).
Proof.
  unfold uninitializedVariableWarning. rewrite in_flat_map. split.
  - intros ((d' & s) & V & H). cbn [fst] in H. assert (Si : stmt_in f d') by (apply visited_stmts; eauto). destruct d'; try (destruct H; fail).
    apply in_map_iff in H as (j & X & H). injection X as <- <-. apply filter_In in H as [H M]. apply mem_bytes_In, filter_In in M as [M1 M2].
    exists c, p, params, body, name, colon, compact, multi, ty. split; auto. split; auto. split; auto. split; auto. rewrite <- param_names_spec. apply negb_true_iff in M2.
    intro X. apply mem_bytes_In in X. congruence.
  - intros (c & p & ps & body & m & a & k & l & ty & -> & Si & H & M1 & M2). apply visited_stmts in Si as (s & V). eexists. split; [exact V|]. cbn [fst].
    apply in_map. apply filter_In. split; auto. apply mem_bytes_In, filter_In. split; auto. apply negb_true_iff. rewrite param_names_spec.
    destruct (mem_bytes _ _) eqn:B; auto. apply mem_bytes_In in B. contradiction.
Qed.

(** Every variable of a function that can be read before it is set is reported, if the function does not use that name in one of
    the ways the analysis looks away from ([seen_stmt]; all of them are refuted below). *)
Theorem C64_sound_partial :
  forall f c p ps body m a k l ty i, let d := EDef c p ps body m a k l ty in
    stmt_in f d -> (forall s, own body s -> legal_stmt s /\ seen_stmt (i_name i) s) ->
    variable ps body (i_name i) -> read_unset body i -> In (d, i) (uninitializedVariableWarning f).
Proof.
  intros f c p ps body m a k l ty i d Si H [V1 (s & O & V2)] (tr & e & p' & q & P & T & N). apply warning_spec. exists c, p, ps, body, m, a, k, l, ty. split; auto. split; auto. split; [|split; auto].
  - apply (proj1 (sound_path (i_name i) i eq_refl) body tr e P H [] []); auto. exists p', q. auto.
  - apply locals_in. exists s. split; auto. destruct (H s O) as [_ [_ S1]]. destruct s; try destruct V2; (apply bound_lvalue; [apply S1|auto]).
Qed.
(** Every report is true: the variable can be read there before it is set, if the function does not use that name in one of
    the ways the analysis misunderstands ([real_stmt]; refuted below). *)
Theorem C64_complete_partial :
  forall f d i, In (d, i) (uninitializedVariableWarning f) ->
    exists c p ps body m a k l ty, d = EDef c p ps body m a k l ty /\ stmt_in f d /\ variable ps body (i_name i) /\
      ((forall s, own body s -> legal_stmt s /\ real_stmt (i_name i) s) -> read_unset body i).
Proof.
  intros f d i H. apply warning_spec in H as (c & p & ps & body & m & a & k & l & ty & -> & Si & H & M1 & M2). exists c, p, ps, body, m, a, k, l, ty. split; auto. split; auto. split.
  - split; auto. apply locals_in in M1 as (s & O & M1). exists s. split; auto. destruct s; try destruct M1; now apply lvalue_bound.
  - intro S1. destruct (exact_all (i_name i) i eq_refl body S1 [] []) as [A _]. destruct (A H) as [_ (tr & e & P & p' & q & T & N)]. exists tr, e, p', q. auto.
Qed.

(** ** Functions without jumps *)
Lemma straight l tr k : Forall (fun s => ~ is_jump s) l -> (path l tr k <-> tr = flat_map simple l /\ k = Through).
Proof.
  intro F. split.
  - intro P. revert F. assert (G : forall s tr k, ~ is_jump s -> path1 s tr k -> tr = simple s /\ k = Through).
    { intros s t e J P1. destruct P1; auto; elim J; cbn; auto. }
    induction P; intro F; [auto| |]; apply Forall_inv in F as F1; apply Forall_inv_tail in F; destruct (G _ _ _ F1 H) as [-> X]; [|contradiction]. destruct IHP as [-> ->]; auto.
  - intros [-> ->]. induction F; cbn [flat_map]; constructor; auto. now apply p_simple.
Qed.
Fixpoint before_bind (n : bytes) (tr : list event) : list event :=
  match tr with
  | Bind m :: tr' => if beq m n then [] else Bind m :: before_bind n tr'
  | e :: tr' => e :: before_bind n tr'
  | [] => []
  end.
Lemma early_before n i tr : early n i tr <-> In (Read i) (before_bind n tr).
Proof.
  split.
  - intros (p & q & -> & H). induction p as [|[j|m] p IH]; cbn [app before_bind]; [left; auto| |].
    + right. apply IH. intro; apply H; right; auto.
    + destruct (beq m n) eqn:B; [apply beq_eq in B; subst; elim H; left; auto|]. right. apply IH. intro; apply H; right; auto.
  - induction tr as [|[j|m] tr IH]; cbn [before_bind]; [intros []| |].
    + intros [X|X]; [injection X as ->; exists [], tr; auto|]. destruct (IH X) as (p & q & -> & N). exists (Read j :: p), q. split; auto. intros [Z|Z]; auto. discriminate.
    + destruct (beq m n) eqn:B; [intros []|]. intros [X|X]; [discriminate|]. destruct (IH X) as (p & q & -> & N). exists (Bind m :: p), q. split; auto. intros [Z|Z]; auto. injection Z as ->. rewrite beq_refl in B. discriminate.
Qed.
Lemma straight_unset l i : Forall (fun s => ~ is_jump s) l -> (read_unset l i <-> In (Read i) (before_bind (i_name i) (flat_map simple l))).
Proof.
  intro F. rewrite <- early_before. split.
  - intros (tr & k & p & q & P & T & N). apply (straight _ _ _ F) in P as [-> _]. exists p, q. auto.
  - intros (p & q & T & N). exists (flat_map simple l), Through, p, q. split; auto. now apply straight.
Qed.

(** ** A function that meets the conditions *)
Definition v_ (n : bytes) : expr := EIdent (Ident no_com no_pos n).
Definition lit_ : expr := ELit no_com no_pos %"1".
Definition en_ : endp := End no_com no_pos.
Definition let_ (x y : expr) : expr := EAssign no_com x no_pos %"=" false y.
Definition plus_ (x y : expr) : expr := EBinary no_com x no_pos %"+" false y.
Definition if_ (x : expr) (t f : list expr) : expr := EIf no_com no_pos x t en_ f.
Definition for_ (v x : expr) (b : list expr) : expr := EFor no_com no_pos v x b.
Definition ret_ (x : expr) : expr := EReturn no_com no_pos (Some x).
Definition call_ (f : expr) (l : list expr) : expr := ECall no_com f no_pos l en_ false false.
Definition def_ (n : bytes) (ps b : list expr) : expr := EDef no_com no_pos ps b n no_pos false false None.
Definition tuple_ (l : list expr) : expr := ETuple no_com true no_pos l en_ false false.
Definition at_ (x y : expr) : expr := EIndex no_com x no_pos y no_pos.
Definition paren_ (x : expr) : expr := EParen no_com no_pos x en_ false.
Definition comp_ (b v x : expr) : expr := EComp no_com false no_pos b [EForC no_com no_pos v no_pos x] false en_.
Definition lam_ (ps : list expr) (b : expr) : expr := ELambda no_com no_pos ps [b].
Definition file_ (l : list expr) : expr := EFile no_com (FMeta [] [] [] TypeBzl) (map Some l).
(** def f(a):
        if a: x = 1
        for y in a:
            if y: break
            z, w = g(y, k = z)
        return x + z + [z for z in y] *)
Definition sample_body : list expr :=
  [ if_ (v_ %"a") [let_ (v_ %"x") lit_] [];
    for_ (v_ %"y") (v_ %"a") [if_ (v_ %"y") [EBranch no_com %"break" no_pos] []; let_ (tuple_ [v_ %"z"; v_ %"w"]) (call_ (v_ %"g") [v_ %"y"; let_ (v_ %"k") (v_ %"z")])];
    ret_ (plus_ (plus_ (v_ %"x") (v_ %"z")) (comp_ (v_ %"z") (v_ %"z") (v_ %"y"))) ].
Example sample_reports :
  map (fun r => i_name (snd r)) (uninitializedVariableWarning (file_ [def_ %"f" [v_ %"a"] sample_body])) = [%"z"; %"x"; %"z"; %"y"].
Proof. reflexivity. Qed.
(** The conditions can be checked by computation. *)
Fixpoint own1 (s : expr) : list expr :=
  s :: match s with EFor _ _ _ _ b => flat_map own1 b | EIf _ _ _ t _ f => flat_map own1 t ++ flat_map own1 f | _ => [] end.
Lemma own_listed l s : own l s -> In s (flat_map own1 l).
Proof.
  assert (G : forall x y, In x (flat_map own1 l) -> In y match x with EFor _ _ _ _ b => b | EIf _ _ _ t _ f => t ++ f | _ => [] end -> In y (flat_map own1 l)).
  { intros x y X Y. apply in_flat_map in X as (z & Z & X). apply in_flat_map. exists z. split; auto. clear Z. revert x X Y. induction z as [z IH] using sub_ind. intros x X Y.
    destruct z; cbn [own1] in *; try (destruct X as [<- |[]]; destruct Y; fail).
    - destruct X as [<- |X].
      + right. apply in_flat_map. exists y. split; auto. destruct y; left; auto.
      + right. apply in_flat_map in X as (w & W & X). apply in_flat_map. exists w. split; auto. eapply IH; eauto. now constructor.
    - destruct X as [<- |X].
      + right. rewrite in_app_iff. rewrite !in_flat_map. apply in_app_or in Y as [Y|Y]; [left|right]; exists y; (split; auto; destruct y; left; auto).
      + right. rewrite in_app_iff in *. rewrite !in_flat_map in *. destruct X as [(w & W & X)|(w & W & X)]; [left|right]; exists w; (split; auto; eapply IH; eauto); [now constructor|now apply sub_false]. }
  intro O. induction O; [apply in_flat_map; exists x; split; auto; destruct x; left; auto|..]; (eapply G; [exact IHO|cbn; rewrite ?in_app_iff; auto]).
Qed.
Definition kids (e : expr) : list expr :=
  subs (fun x => x) e ++ match e with ETyped _ i _ => [EIdent i] | ELoad _ _ m fr to _ _ => EStr m :: map EIdent (fr ++ to) | _ => [] end.
Lemma kids_spec e x : sub e x -> In x (kids e).
Proof.
  intro H. unfold kids. destruct H; cbn [subs opt_list]; rewrite ?map_id; rewrite ?in_app_iff; cbn [In]; rewrite ?in_app_iff; cbn; auto 6.
  - left. apply in_flat_map. exists (Some x). cbn. auto.
  - right. right. apply in_map. apply in_or_app. auto.
  - right. right. apply in_map. apply in_or_app. auto.
Qed.
Fixpoint parts (e : expr) : list expr :=
  e :: List.concat (subs parts e) ++ match e with ETyped _ i _ => [EIdent i] | ELoad _ _ m fr to _ _ => EStr m :: map EIdent (fr ++ to) | _ => [] end.
Lemma parts_self e : In e (parts e).
Proof. destruct e; left; auto. Qed.
Lemma parts_spec e x : inside e x -> In x (parts e).
Proof.
  intro H. induction H as [|x y X IH Y]; [apply parts_self|]. revert IH. clear X. induction e as [e IHe] using sub_ind. intro X.
  assert (U : forall z, In z (parts e) <-> z = e \/ (exists d, In d (subs (fun x => x) e) /\ In z (parts d)) \/ In z match e with ETyped _ i _ => [EIdent i] | ELoad _ _ m fr to _ _ => EStr m :: map EIdent (fr ++ to) | _ => [] end).
  { intro z. transitivity (e = z \/ In z (List.concat (subs parts e) ++ match e with ETyped _ i _ => [EIdent i] | ELoad _ _ m fr to _ _ => EStr m :: map EIdent (fr ++ to) | _ => [] end)).
    - destruct e; reflexivity.
    - rewrite in_app_iff. rewrite (subs_map parts e), in_concat_map. split; intros [H|[H|H]]; auto. }
  apply U in X as [-> |[(d & D & X)|X]].
  - apply kids_spec in Y. unfold kids in Y. apply U. apply in_app_or in Y as [Y|Y]; auto. right. left. exists y. split; auto. apply parts_self.
  - apply U. right. left. exists d. split; auto. apply IHe; auto. destruct e; cbn [subs] in D; rewrite ?map_id in D; cbn [In app] in D; rewrite ?in_app_iff in D.
    all: repeat match goal with H : _ \/ _ |- _ => destruct H as [H|H] | H : False |- _ => destruct H end; subst; try (now constructor); try (now apply sub_lbody); try (now apply sub_dbody); try (now apply sub_false).
    all: try (match goal with H : In _ (opt_list _ ?o) |- _ => destruct o; [destruct H as [<- |[]]|destruct H] end; now constructor).
    apply in_flat_map in D as ([w|] & W & D); [|destruct D]. destruct D as [<- |[]]. now constructor.
  - exfalso. destruct e; try destruct X as [<- |X]; try destruct X; try (inversion Y; fail). apply in_map_iff in X as (j & <- & _). inversion Y.
Qed.
Definition name_b (e : expr) : bool := match e with EIdent _ => true | _ => false end.
Definition clause_b (e : expr) : bool := match e with EForC _ _ _ _ _ | EIfC _ _ _ => true | _ => false end.
Definition legal_b (e : expr) : bool :=
  match e with
  | EDef _ _ _ _ _ _ _ _ _ | EFor _ _ _ _ _ | EIf _ _ _ _ _ _ | EReturn _ _ _ | ELoad _ _ _ _ _ _ _ | EFile _ _ _ => false
  | EComp _ _ _ b cl _ _ => negb (clause_b b) && forallb clause_b cl && match cl with EForC _ _ _ _ _ :: _ => true | _ => false end
  | EAssign _ x _ _ _ y => name_b x && negb (clause_b y)
  | ELambda _ _ ps b =>
      forallb (fun p => match p with EAssign _ x _ _ _ _ => name_b x | EUnary _ _ _ (Some x) => name_b x | EUnary _ _ _ None => true | _ => name_b p end) ps &&
      forallb (fun x => negb (clause_b x)) b
  | _ => forallb (fun x => negb (clause_b x)) (kids e)
  end.
Lemma clause_not x : negb (clause_b x) = true -> ~ is_clause x.
Proof. destruct x; cbn; auto; discriminate. Qed.
Lemma name_is x : name_b x = true -> is_name x.
Proof. destruct x; cbn; auto; discriminate. Qed.
Lemma legal_by e : legal_b e = true -> legal e.
Proof.
  intro H. split; [destruct e; cbn; auto; discriminate|].
  assert (K : forallb (fun x => negb (clause_b x)) (kids e) = true -> forall x, sub e x -> ~ is_clause x).
  { intros F x X. apply clause_not. rewrite forallb_forall in F. apply F. now apply kids_spec. }
  destruct e; cbn [legal legal_b] in *; auto; try discriminate.
  - apply andb_true_iff in H as [H F]. apply andb_true_iff in H as [B C]. split; [now apply clause_not|]. split.
    + rewrite forallb_forall in C. apply Forall_forall. intros x X. apply C in X. destruct x; cbn; auto; discriminate.
    + destruct clauses as [|[] cl]; try discriminate. exact Logic.I.
  - apply andb_true_iff in H as [H1 H2]. split; [now apply name_is|now apply clause_not].
  - apply andb_true_iff in H as [H1 H2]. rewrite forallb_forall in H1, H2. split; apply Forall_forall; intros x X; [|now apply clause_not, H2].
    apply H1 in X. destruct x; cbn [is_param] in *; try (now apply name_is). destruct x; auto. now apply name_is.
Qed.
Definition none (n : bytes) (l : list bytes) : bool := negb (mem_bytes n l).
Lemma none_spec n l : none n l = true -> ~ In n l.
Proof. unfold none. intros H X. apply mem_bytes_In in X. rewrite X in H. discriminate. Qed.
Fixpoint unwrapped_b (n : bytes) (e : expr) : bool :=
  match e with
  | ETuple _ _ _ l _ _ _ | EList _ _ l _ _ => forallb (unwrapped_b n) l
  | EParen _ _ x _ _ => none n (bound x)
  | _ => true
  end.
Lemma unwrapped_by n e : unwrapped_b n e = true -> unwrapped n e.
Proof.
  induction e as [e IH] using sub_ind. destruct e; cbn [unwrapped unwrapped_b]; auto; intro H; [| |now apply none_spec].
  all: rewrite forallb_forall in H; assert (G : forall x, In x l -> unwrapped n x) by (intros x X; apply IH; [now constructor|auto]); clear - G; induction l as [|x l IHl]; [exact Logic.I|split; [apply G; left; auto|apply IHl; intros; apply G; right; auto]].
Qed.
Definition fine_expr_b (n : bytes) (e : expr) : bool :=
  match e with
  | EComp _ _ _ _ cl _ _ =>
      match cl with EForC _ _ _ _ x :: _ => none n (flat_map clause_vars cl) || none n (names (free x)) | _ => true end &&
      forallb (fun k => match k with EForC _ _ v _ _ => unwrapped_b n v | _ => true end) cl
  | ELambda _ _ ps _ => none n (flat_map param_name ps)
  | _ => true
  end.
Lemma fine_expr_by n e : fine_expr_b n e = true -> seen_expr n e /\ real_expr n e.
Proof.
  destruct e; cbn [fine_expr_b seen_expr real_expr]; auto; intro H.
  - apply andb_true_iff in H as [H1 H2]. split.
    + destruct clauses as [|[] cl]; auto. apply orb_true_iff in H1 as [H1|H1]; apply none_spec in H1; tauto.
    + rewrite forallb_forall in H2. apply Forall_forall. intros x X. apply H2 in X. destruct x; auto. now apply unwrapped_by.
  - apply none_spec in H. split; [tauto|]. apply Forall_forall. intros x X. right. intro Z. apply H. apply in_flat_map. eauto.
Qed.
Definition fine_stmt_b (n : bytes) (s : expr) : bool :=
  forallb (fun e => negb (clause_b e) && forallb (fun x => legal_b x && fine_expr_b n x) (parts e)) (exprs_of s) &&
  match s with
  | EAssign _ x _ op _ _ => unwrapped_b n x && (beq op %"=" || none n (bound x)) && (none n (bound x) || none n (names (reads true x)))
  | EFor _ _ v _ _ => unwrapped_b n v && none n (names (reads true v))
  | ECall _ (EIdent i) _ _ _ _ _ => negb (beq (i_name i) %"fail") || none n (names (free s))
  | EFile _ _ _ | ELoad _ _ _ _ _ _ _ | EDef _ _ _ _ _ _ _ _ _ => false
  | _ => true
  end.
Lemma fine_stmt_by n s : fine_stmt_b n s = true -> legal_stmt s /\ seen_stmt n s /\ real_stmt n s.
Proof.
  unfold fine_stmt_b. intro H. apply andb_true_iff in H as [H1 H2]. rewrite forallb_forall in H1.
  assert (A : forall e x, In e (exprs_of s) -> inside e x -> legal x /\ seen_expr n x /\ real_expr n x).
  { intros e x X Y. apply H1 in X. apply andb_true_iff in X as [_ X]. rewrite forallb_forall in X. apply parts_spec in Y. apply X in Y. apply andb_true_iff in Y as [Y1 Y2].
    split; [now apply legal_by|]. now apply fine_expr_by. }
  assert (B : forall e, In e (exprs_of s) -> ~ is_clause e) by (intros e X; apply clause_not; apply H1 in X; now apply andb_true_iff in X).
  split; [|split].
  - split; [intros; eapply A; eauto|]. split; auto. destruct s; auto; discriminate.
  - split; [intros; eapply A; eauto|]. destruct s; auto; try discriminate.
    + destruct s; auto. intro F. apply orb_true_iff in H2 as [H2|H2]; [rewrite F in H2; discriminate|now apply none_spec].
    + apply andb_true_iff in H2 as [H2 _]. apply andb_true_iff in H2 as [U H2]. split; [now apply unwrapped_by|]. apply orb_true_iff in H2 as [H2|H2]; [left; now apply beq_eq|right; now apply none_spec].
    + apply andb_true_iff in H2 as [U H2]. split; [now apply unwrapped_by|now apply none_spec].
  - split; [intros; eapply A; eauto|]. destruct s; auto; try discriminate.
    + apply andb_true_iff in H2 as [H2 H3]. apply andb_true_iff in H2 as [U _]. split; [now apply unwrapped_by|]. apply orb_true_iff in H3 as [H3|H3]; apply none_spec in H3; tauto.
    + apply andb_true_iff in H2 as [U H2]. now apply unwrapped_by.
Qed.
Example sample_meets n : In n [%"x"; %"z"; %"y"; %"w"] -> forall s, own sample_body s -> legal_stmt s /\ seen_stmt n s /\ real_stmt n s.
Proof.
  intros H s O. apply fine_stmt_by. apply own_listed in O. revert s O. apply forallb_forall. repeat (destruct H as [<- |H]; [vm_compute; reflexivity|]). destruct H.
Qed.

(** ** What the analysis looks away from, and what it sees that is not there *)
Definition legal_stmt_b (s : expr) : bool :=
  forallb (fun e => negb (clause_b e) && forallb legal_b (parts e)) (exprs_of s) &&
  match s with
  | EDef _ _ ps _ _ _ _ _ _ => forallb (fun p => match p with EAssign _ (EIdent _) _ _ _ _ | EIdent _ => true | _ => false end) ps
  | EFile _ _ _ => false
  | _ => true
  end.
Lemma legal_stmt_by s : legal_stmt_b s = true -> legal_stmt s.
Proof.
  unfold legal_stmt_b. intro H. apply andb_true_iff in H as [H1 H2]. rewrite forallb_forall in H1. split; [|split].
  - intros e x X Y. apply H1 in X. apply andb_true_iff in X as [_ X]. rewrite forallb_forall in X. apply legal_by, X. now apply parts_spec.
  - intros e X. apply clause_not. apply H1 in X. now apply andb_true_iff in X.
  - destruct s; auto; try discriminate. rewrite forallb_forall in H2. apply Forall_forall. intros q Q. apply H2 in Q. destruct q; try discriminate; cbn; auto. destruct q1; try discriminate; exact Logic.I.
Qed.
Lemma legal_all l : forallb legal_stmt_b (flat_map own1 l) = true -> forall s, own l s -> legal_stmt s.
Proof. intros H s O. apply legal_stmt_by. apply own_listed in O. revert s O. now apply forallb_forall. Qed.
Definition x_ : ident := Ident no_com no_pos %"x".
Definition in_def (body : list expr) : expr := def_ %"f" [] body.
(** [missed body]: x is a variable of the function, it can be read before it is set, and nothing is reported. *)
Definition missed (body : list expr) : Prop :=
  (forall s, own body s -> legal_stmt s) /\ variable [] body %"x" /\ read_unset body x_ /\ uninitializedVariableWarning (file_ [in_def body]) = [].
(** [false_alarm body n]: the variable n is reported, but is never read before it is set. *)
Definition false_alarm (body : list expr) (n : bytes) : Prop :=
  (forall s, own body s -> legal_stmt s) /\ variable [] body n /\ ~ read_unset body (Ident no_com no_pos n) /\
  In (in_def body, Ident no_com no_pos n) (uninitializedVariableWarning (file_ [in_def body])).
Definition jump_b (s : expr) : bool :=
  match s with
  | EReturn _ _ _ | EFor _ _ _ _ _ | EIf _ _ _ _ _ _ => true
  | EBranch _ tok _ => beq tok %"break" || beq tok %"continue"
  | ECall _ (EIdent i) _ _ _ _ _ => beq (i_name i) %"fail"
  | _ => false
  end.
Lemma jump_not s : jump_b s = false -> ~ is_jump s.
Proof.
  destruct s; cbn; auto; try discriminate.
  - intros H [E|E]; subst; discriminate.
  - destruct s; auto. intros H E. rewrite E in H. discriminate.
Qed.
Definition is_read (i : ident) (e : event) : bool := match e with Read j => beq (i_name j) (i_name i) | _ => false end.
Lemma not_unset l i : existsb jump_b l = false -> existsb (is_read i) (before_bind (i_name i) (flat_map simple l)) = false -> ~ read_unset l i.
Proof.
  intros J H X. apply straight_unset in X.
  - assert (Y : existsb (is_read i) (before_bind (i_name i) (flat_map simple l)) = true) by (apply existsb_exists; exists (Read i); split; auto; cbn; apply beq_refl). congruence.
  - apply Forall_forall. intros s S1. apply jump_not. destruct (jump_b s) eqn:B; auto. assert (existsb jump_b l = true) by (apply existsb_exists; eauto). congruence.
Qed.
Lemma is_unset l i : existsb jump_b l = false -> In (Read i) (before_bind (i_name i) (flat_map simple l)) -> read_unset l i.
Proof.
  intros J X. apply straight_unset; auto.
  apply Forall_forall. intros s S1. apply jump_not. destruct (jump_b s) eqn:B; auto. assert (existsb jump_b l = true) by (apply existsb_exists; eauto). congruence.
Qed.
Ltac assigned := split; [intros []|].
Ltac misses := split; [apply legal_all; vm_compute; reflexivity|split; [split; [intros []|]|split; [apply is_unset; [reflexivity|cbv; auto]|reflexivity]]].
Ltac alarms := split; [apply legal_all; vm_compute; reflexivity|split; [split; [intros []|]|split; [apply not_unset; vm_compute; reflexivity|cbv; auto]]].
Ltac by_stmt s := exists s; split; [apply own_here; cbn; auto 6|cbv; auto].
Definition x1_ : expr := let_ (v_ %"x") lit_.
(** x += 1 *)
Theorem C64_augmented_refuted : missed [EAssign no_com (v_ %"x") no_pos %"+=" false lit_].
Proof. misses. by_stmt (EAssign no_com (v_ %"x") no_pos %"+=" false lit_). Qed.
(** y = [x for x in x] and then x = 1: the first iterable is evaluated outside the comprehension. *)
Theorem C64_iterable_refuted : missed [let_ (v_ %"y") (comp_ (v_ %"x") (v_ %"x") (v_ %"x")); x1_].
Proof. misses. by_stmt x1_. Qed.
(** y = lambda x, z = x: z and then x = 1: the default is evaluated outside the lambda. *)
Theorem C64_lambda_default_refuted : missed [let_ (v_ %"y") (lam_ [v_ %"x"; let_ (v_ %"z") (v_ %"x")] (v_ %"z")); x1_].
Proof. misses. by_stmt x1_. Qed.
(** y = x and then (x) = 1 *)
Theorem C64_parenthesized_refuted : missed [let_ (v_ %"y") (v_ %"x"); let_ (paren_ (v_ %"x")) lit_].
Proof. misses. by_stmt (let_ (paren_ (v_ %"x")) lit_). Qed.
(** if g: fail(x) and then x = 1 *)
Theorem C64_fail_refuted : missed [if_ (v_ %"g") [call_ (v_ %"fail") [v_ %"x"]] []; x1_].
Proof.
  split; [apply legal_all; vm_compute; reflexivity|split; [split; [intros []|by_stmt x1_]|split; [|reflexivity]]].
  exists (eval (v_ %"g") ++ eval (call_ (v_ %"fail") [v_ %"x"])), Ended, [Read (Ident no_com no_pos %"g"); Read (Ident no_com no_pos %"fail")], [].
  split; [|split; [reflexivity|cbn; intuition discriminate]]. apply p_stop; [|discriminate]. apply p_true. apply p_stop; [|discriminate]. now apply p_fail.
Qed.
(** for a[x] in s: pass and then x = 1 *)
Theorem C64_loop_target_refuted : missed [for_ (at_ (v_ %"a") (v_ %"x")) (v_ %"s") [EBranch no_com %"pass" no_pos]; x1_].
Proof.
  split; [apply legal_all; vm_compute; reflexivity|split; [split; [intros []|by_stmt x1_]|split; [|reflexivity]]].
  set (b := [EBranch no_com %"pass" no_pos]). set (v := at_ (v_ %"a") (v_ %"x")).
  exists ((eval (v_ %"s") ++ (assign v ++ [] ++ [])) ++ flat_map simple [x1_]), Through, [Read (Ident no_com no_pos %"s"); Read (Ident no_com no_pos %"a")], [Bind %"x"].
  split; [|split; [reflexivity|cbn; intuition discriminate]]. apply p_next.
  - apply p_for. eapply r_again; [|left; reflexivity|constructor]. apply straight; [|auto]. repeat constructor. apply jump_not. reflexivity.
  - apply straight; auto.
Qed.
(** y = lambda x = 1: x and then x = 1: the x in the lambda is its parameter. *)
Theorem C64_lambda_parameter_refuted : false_alarm [let_ (v_ %"y") (lam_ [x1_] (v_ %"x")); x1_] %"x".
Proof. alarms. by_stmt x1_. Qed.
(** def g(a = h(x = 1)): pass and then x = 1: the x in the call is the name of an argument. *)
Theorem C64_argument_name_refuted : false_alarm [def_ %"g" [let_ (v_ %"a") (call_ (v_ %"h") [x1_])] [EBranch no_com %"pass" no_pos]; x1_] %"x".
Proof. alarms. by_stmt x1_. Qed.
(** def g(): pass and then y = g, g = 1: the function is a value of g. *)
Theorem C64_nested_function_refuted : false_alarm [def_ %"g" [] [EBranch no_com %"pass" no_pos]; let_ (v_ %"y") (v_ %"g"); let_ (v_ %"g") lit_] %"g".
Proof. alarms. by_stmt (let_ (v_ %"g") lit_). Qed.
(** (x) = 1 and then x = 1: the first assignment sets x. *)
Theorem C64_parenthesized_target_refuted : false_alarm [let_ (paren_ (v_ %"x")) lit_; x1_] %"x".
Proof. alarms. by_stmt x1_. Qed.
(** x, a[x] = y: the targets are set from left to right. *)
Theorem C64_target_order_refuted : false_alarm [let_ (tuple_ [v_ %"x"; at_ (v_ %"a") (v_ %"x")]) (v_ %"s")] %"x".
Proof. alarms. by_stmt (let_ (tuple_ [v_ %"x"; at_ (v_ %"a") (v_ %"x")]) (v_ %"s")). Qed.

Print Assumptions C64_sound_partial.
Print Assumptions C64_complete_partial.
Print Assumptions C64_augmented_refuted.
Print Assumptions C64_iterable_refuted.
Print Assumptions C64_lambda_default_refuted.
Print Assumptions C64_parenthesized_refuted.
Print Assumptions C64_fail_refuted.
Print Assumptions C64_loop_target_refuted.
Print Assumptions C64_lambda_parameter_refuted.
Print Assumptions C64_argument_name_refuted.
Print Assumptions C64_nested_function_refuted.
Print Assumptions C64_parenthesized_target_refuted.
Print Assumptions C64_target_order_refuted.
