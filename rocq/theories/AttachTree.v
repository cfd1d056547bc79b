From Verif Require Import Base BaseProofs Ast Attach AttachSpec AttachProofs.

(** ** Induction over all parts of a tree *)
Definition subs {A} (f : expr -> A) (e : expr) : list A :=
  match e with
  | EFile _ _ l => flat_map (opt_list f) l
  | ECommentBlock _ _ | EIdent _ | EBranch _ _ _ | ELit _ _ _ | EStr _ | ELoad _ _ _ _ _ _ _ => []
  | ECall _ x _ l _ _ _ => f x :: map f l
  | ETyped _ _ t => [f t]
  | EDot _ x _ _ _ => [f x]
  | EList _ _ l _ _ | ESet _ _ l _ _ | EDict _ _ l _ _ | ETuple _ _ _ l _ _ _ => map f l
  | EComp _ _ _ b l _ _ => f b :: map f l
  | EForC _ _ v _ x => [f v; f x]
  | EIfC _ _ x => [f x]
  | EKV _ k _ v => [f k; f v]
  | EUnary _ _ _ x => opt_list f x
  | EBinary _ x _ _ _ y | EAssign _ x _ _ _ y => [f x; f y]
  | ECond _ a _ b _ d => [f a; f b; f d]
  | EParen _ _ x _ _ => [f x]
  | ESlice _ x _ a _ b _ d _ => f x :: opt_list f a ++ opt_list f b ++ opt_list f d
  | EIndex _ x _ y _ => [f x; f y]
  | ELambda _ _ ps b => map f ps ++ map f b
  | EReturn _ _ x => opt_list f x
  | EDef _ _ ps b _ _ _ _ ty => map f ps ++ map f b ++ opt_list f ty
  | EFor _ _ v x b => f v :: f x :: map f b
  | EIf _ _ x t _ e => f x :: map f t ++ map f e
  end.
Fixpoint tsize (e : expr) : nat := S (list_sum (subs tsize e)).
Lemma subs_map {A} (f : expr -> A) e : subs f e = map f (subs (fun x => x) e).
Proof.
  assert (M : forall l, map f l = map f (map (fun x => x) l)) by (intros; rewrite map_id; auto).
  destruct e; cbn [subs map]; rewrite ?map_app, <- ?M; auto.
  - induction stmts as [|[x|] l IH]; cbn [flat_map opt_list map app]; auto. f_equal. auto.
  - destruct x; auto.
  - destruct from, to, step; auto.
  - destruct ty; auto.
  - destruct x; auto.
Qed.
Lemma tsize_unfold e : tsize e = S (list_sum (map tsize (subs (fun x => x) e))).
Proof. rewrite <- subs_map. destruct e; reflexivity. Qed.
Lemma sum_in l n : In n l -> n <= list_sum l.
Proof. induction l as [|a l IH]; intros []; change (list_sum (a :: l)) with (a + list_sum l); [lia|]. specialize (IH H). lia. Qed.
Lemma expr_ind_subs (P : expr -> Prop) : (forall e, (forall d, In d (subs (fun x => x) e) -> P d) -> P e) -> forall e, P e.
Proof.
  intros H. assert (G : forall n e, tsize e <= n -> P e).
  { induction n as [|n IH]; intros e L; [rewrite tsize_unfold in L; lia|]. apply H. intros d Hd. apply IH.
    rewrite tsize_unfold in L. pose proof (sum_in _ _ (in_map tsize _ _ Hd)). lia. }
  intros e. eapply G. eauto.
Qed.
Lemma in_subs_opt (o : option expr) d : In d (opt_list (fun x => x) o) <-> o = Some d.
Proof. destruct o; cbn; split; intros H; try contradiction; [destruct H as [->|[]]; auto|injection H; auto|discriminate]. Qed.

(** ** Only comments change *)
Lemma strip_zipw f l : (forall x r, In x l -> strip (f x r) = strip x) -> forall k, map strip (zipw f l k) = map strip l.
Proof. induction l as [|x l IH]; intros H [|r k]; cbn [zipw map]; auto. rewrite H by (left; auto). f_equal. apply IH. intros; apply H; right; auto. Qed.
Lemma strip_zipo f o k : (forall x r, o = Some x -> strip (f x r) = strip x) -> option_map strip (zipo f o k) = option_map strip o.
Proof. destruct o as [x|]; intros H; auto. destruct k; cbn [zipo option_map]; auto. rewrite H; auto. Qed.
Lemma strip_zipos f l : (forall x r, In (Some x) l -> strip (f x r) = strip x) -> forall k, map (option_map strip) (zipos f l k) = map (option_map strip) l.
Proof.
  induction l as [|[x|] l IH]; intros H k; cbn [zipos map]; auto.
  - destruct k; cbn [map option_map]; auto. rewrite H by (left; auto). f_equal. apply IH. intros; apply H; right; auto.
  - f_equal. apply IH. intros; apply H; right; auto.
Qed.
Lemma strip_refill_end d k : strip_end (refill_end d k) = strip_end d.
Proof. destruct k; auto. Qed.
Lemma strip_zip_id l : forall k, map strip_id (zipw refill_id l k) = map strip_id l.
Proof. induction l as [|x l IH]; intros [|r k]; cbn [zipw map]; auto. rewrite IH. auto. Qed.
Lemma strip_refill e : forall r, strip (refill e r) = strip e.
Proof.
  induction e as [e IH] using expr_ind_subs. intros r.
  assert (Z : forall l, (forall x, In x l -> In x (subs (fun x => x) e)) -> forall k, map strip (zipw refill l k) = map strip l).
  { intros l Hl k. apply strip_zipw. intros x r' Hx. apply IH. auto. }
  assert (O : forall o, (forall x, o = Some x -> In x (subs (fun x => x) e)) -> forall k, option_map strip (zipo refill o k) = option_map strip o).
  { intros o Ho k. apply strip_zipo. intros x r' Hx. apply IH. auto. }
  destruct e; cbn [refill]; cbn [subs] in IH, Z, O; rewrite ?map_id in Z; rewrite ?map_id in O; rewrite ?map_id in IH;
    destruct (kids r) as [|k1 [|k2 [|k3 k]]]; cbn [strip option_map]; auto;
    rewrite ?strip_refill_end, ?strip_zip_id; f_equal; auto;
    try (apply IH; cbn; auto; fail); try (apply Z; intros; auto using in_or_app; cbn; rewrite ?in_app_iff; auto; fail);
    try (apply O; intros ? ->; cbn; rewrite ?in_app_iff; cbn; auto 8; fail);
    try (apply strip_zipos; intros; apply IH; apply in_flat_map; eexists; split; [eassumption|cbn; auto]; fail).
  all: try (destruct nobr; rewrite ?strip_refill_end; auto; fail).
  all: try (destruct fls; rewrite ?strip_refill_end; auto; fail).
Qed.
Lemma map_ext_sub {A} (f g : expr -> A) l : (forall x, In x l -> f x = g x) -> map f l = map g l.
Proof. intros H. apply map_ext_in. auto. Qed.
Lemma start_strip e : start_pos (strip e) = start_pos e.
Proof.
  induction e as [e IH] using expr_ind_subs. destruct e; cbn [strip start_pos]; auto; try (apply IH; cbn; auto; fail).
  - destruct stmts; auto.
  - destruct nobr; auto. destruct l; auto. cbn [map]. apply IH. cbn. auto.
Qed.
Lemma last_map_strip l d : (forall x, In x l -> end_pos (strip x) = end_pos x) -> last (map end_pos (map strip l)) d = last (map end_pos l) d.
Proof. intros H. rewrite map_map. f_equal. apply map_ext_in. auto. Qed.
Lemma end_strip e : end_pos (strip e) = end_pos e.
Proof.
  induction e as [e IH] using expr_ind_subs. destruct e; cbn [strip end_pos]; cbn [subs] in IH; rewrite ?map_id in IH; auto; try (apply IH; cbn; auto; fail);
    try (apply last_map_strip; intros; apply IH; rewrite ?in_app_iff; cbn; auto; fail).
  - destruct stmts as [|o l]; auto. cbn [map]. change (option_map strip o :: map (option_map strip) l) with (map (option_map strip) (o :: l)).
    f_equal. revert IH. generalize (o :: l). clear. induction l as [|[x|] l IHl]; intros IH; auto; cbn [map option_map flat_map app].
    f_equal; [apply IH; left; auto|]. apply IHl. intros. apply IH. right. auto.
  - destruct nobr; auto. apply last_map_strip. auto.
  - destruct x; auto. apply IH. cbn; auto.
  - destruct x; auto. apply IH. cbn; auto.
  - assert (A : last (map end_pos (map strip tru)) no_pos = last (map end_pos tru) no_pos) by (apply last_map_strip; intros; apply IH; right; apply in_or_app; auto).
    assert (B : last (map end_pos (map strip fls)) no_pos = last (map end_pos fls) no_pos) by (apply last_map_strip; intros; apply IH; right; apply in_or_app; auto).
    destruct fls as [|y fls]; auto.
Qed.
Lemma span_refill e r : start_pos (refill e r) = start_pos e /\ end_pos (refill e r) = end_pos e.
Proof. rewrite <- start_strip, <- (start_strip e), <- end_strip, <- (end_strip e), !strip_refill. auto. Qed.

(** ** Every visited node gets its comments *)
Definition rc (x : comment) (k : list rose) : nat := hcnt x (map rcom (flat_map preorder k)).
Lemma hcnt_app x a b : hcnt x (a ++ b) = hcnt x a + hcnt x b.
Proof. unfold hcnt. rewrite map_app, list_sum_app. auto. Qed.
Lemma rc_app x a b : rc x (a ++ b) = rc x a + rc x b.
Proof. unfold rc. rewrite flat_map_app, map_app, hcnt_app. auto. Qed.
Lemma rc_cons x r k : rc x (r :: k) = rc x [r] + rc x k.
Proof. apply (rc_app x [r] k). Qed.
Lemma rc_node x s e b c k : rc x [Rose s e b c k] = cnt (coms_of c) x + rc x k.
Proof.
  unfold rc. cbn [flat_map preorder kids]. rewrite app_nil_r. cbn [map rcom]. unfold hcnt. cbn [map].
  change (list_sum (?a :: ?l)) with (a + list_sum l). reflexivity.
Qed.
Definition lens (e : expr) : Prop := forall r, bare r = bare (skel e) ->
  skel (refill e r) = r /\ forall x, cnt (every (refill e r)) x + rc x [skel e] = cnt (every e) x + rc x [r].
Lemma zip_lens l B : (forall e, In e l -> lens e) -> forall k, map bare k = map bare (map skel l) ++ B ->
  exists k1 k2, k = k1 ++ k2 /\ map skel (zipw refill l k) = k1 /\ skipn (List.length l) k = k2 /\ map bare k2 = B /\
  (forall x, cnt (flat_map every (zipw refill l k)) x + rc x (map skel l) = cnt (flat_map every l) x + rc x k1) /\
  List.length (zipw refill l k) = List.length l.
Proof.
  induction l as [|e l IH]; intros H k E; [exists [], k; repeat split; auto|].
  destruct k as [|r k]; [discriminate|]. cbn [map app] in E. injection E as E1 E2.
  destruct (H e (or_introl eq_refl) r E1) as [L1 L2].
  destruct (IH (fun d Hd => H d (or_intror Hd)) k E2) as (k1 & k2 & -> & A1 & A2 & A3 & A4 & A5).
  exists (r :: k1), k2. cbn [app zipw map List.length skipn]. rewrite L1, A1. repeat split; auto.
  intros x. cbn [flat_map]. rewrite !cnt_app, (rc_cons x (skel e)), (rc_cons x r). specialize (L2 x). specialize (A4 x). lia.
Qed.
Lemma zipo_lens o B : (forall e, o = Some e -> lens e) -> forall k, map bare k = map bare (opt_list skel o) ++ B ->
  exists k1 k2, k = k1 ++ k2 /\ opt_list skel (zipo refill o k) = k1 /\ skipn (olen o) k = k2 /\ map bare k2 = B /\
  (forall x, cnt (opt_coms every (zipo refill o k)) x + rc x (opt_list skel o) = cnt (opt_coms every o) x + rc x k1).
Proof.
  destruct o as [e|]; intros H k E; [|exists [], k; destruct k; repeat split; auto].
  destruct k as [|r k]; [discriminate|]. cbn [opt_list map app] in E. injection E as E1 E2.
  destruct (H e eq_refl r E1) as [L1 L2]. exists [r], k. cbn [zipo opt_list olen skipn app opt_coms]. rewrite L1. repeat split; auto.
Qed.
Lemma zipos_lens l : (forall e, In (Some e) l -> lens e) -> forall k, map bare k = map bare (flat_map (opt_list skel) l) ->
  flat_map (opt_list skel) (zipos refill l k) = k /\
  (forall x, cnt (flat_map (opt_coms every) (zipos refill l k)) x + rc x (flat_map (opt_list skel) l) = cnt (flat_map (opt_coms every) l) x + rc x k).
Proof.
  induction l as [|[e|] l IH]; intros H k E.
  - destruct k; [auto|discriminate].
  - destruct k as [|r k]; [discriminate|]. cbn [flat_map opt_list map app] in E. injection E as E1 E2.
    destruct (H e (or_introl eq_refl) r E1) as [L1 L2]. destruct (IH (fun d Hd => H d (or_intror Hd)) k E2) as [A1 A2].
    cbn [zipos flat_map opt_list app opt_coms]. rewrite L1, A1. split; auto.
    intros x. rewrite !cnt_app, (rc_cons x (skel e)), (rc_cons x r). specialize (L2 x). specialize (A2 x). lia.
  - cbn [zipos flat_map opt_list app opt_coms] in *. apply IH; auto. intros; apply H; right; auto.
Qed.
Lemma bare_inv r s e b c k : bare r = bare (Rose s e b c k) -> exists c' k', r = Rose s e b c' k' /\ map bare k' = map bare k.
Proof. destruct r as [s' e' b' c' k']. cbn [bare]. intros H. injection H as -> -> -> H. eauto. Qed.
Lemma cons_inj {A} (x y : A) l m : x :: l = y :: m -> x = y /\ l = m.
Proof. intros H. injection H. auto. Qed.
Lemma end_lens d B k : map bare k = bare (end_node d) :: B ->
  exists r k2, k = r :: k2 /\ end_node (refill_end d k) = r /\ map bare k2 = B /\
  forall x, cnt (end_coms (refill_end d k)) x + rc x [end_node d] = cnt (end_coms d) x + rc x [r].
Proof.
  destruct k as [|r k]; [discriminate|]. cbn [map]. intros E. apply cons_inj in E as [E1 E2]. apply bare_inv in E1 as (c' & k' & -> & E1).
  destruct k'; [|discriminate]. do 2 eexists. split; [reflexivity|]. split; [reflexivity|]. split; auto.
  intros x. unfold end_node. rewrite !rc_node. unfold end_coms. cbn [refill_end e_com rcom]. lia.
Qed.
Lemma id_lens i r : bare r = bare (id_node i) -> id_node (refill_id i r) = r /\
  forall x, cnt (id_coms (refill_id i r)) x + rc x [id_node i] = cnt (id_coms i) x + rc x [r].
Proof.
  intros E. apply bare_inv in E as (c' & k' & -> & E). destruct k'; [|discriminate]. split; auto.
  intros x. unfold id_node, node. rewrite !rc_node. unfold id_coms. cbn [refill_id i_com rcom com]. lia.
Qed.
Lemma str_lens i r : bare r = bare (str_node i) -> str_node (refill_str i r) = r /\
  forall x, cnt (str_coms (refill_str i r)) x + rc x [str_node i] = cnt (str_coms i) x + rc x [r].
Proof.
  intros E. apply bare_inv in E as (c' & k' & -> & E). destruct k'; [|discriminate]. split; auto.
  intros x. unfold str_node, node. rewrite !rc_node. unfold str_coms. cbn [refill_str s_com rcom com]. lia.
Qed.
Lemma load_lens B to : forall fr k, map bare k = map bare (zip_load id_node to fr) ++ B ->
  let n := 2 * Nat.min (List.length to) (List.length fr) in
  let fr' := zipw refill_id fr (evens (tl (firstn n k))) in let to' := zipw refill_id to (evens (firstn n k)) in
  exists k1 k2, k = k1 ++ k2 /\ zip_load id_node to' fr' = k1 /\ skipn n k = k2 /\ map bare k2 = B /\
  forall x, cnt (flat_map id_coms fr') x + cnt (flat_map id_coms to') x + rc x (zip_load id_node to fr) =
            cnt (flat_map id_coms fr) x + cnt (flat_map id_coms to) x + rc x k1.
Proof.
  induction to as [|a to IH]; intros [|b fr] k E; cbv zeta.
  - exists [], k. repeat split; auto.
  - exists [], k. repeat split; auto.
  - cbn [List.length]. rewrite Nat.min_0_r. exists [], k. repeat split; auto.
  - cbn [zip_load map app] in E. destruct k as [|r1 [|r2 k]]; try discriminate. cbn [map] in E. apply cons_inj in E as [E1 E]. apply cons_inj in E as [E2 E3].
    destruct (IH fr k E3) as (k1 & k2 & -> & A1 & A2 & A3 & A4).
    destruct (id_lens _ _ E1) as [I1 I2]. destruct (id_lens _ _ E2) as [J1 J2]. cbn [List.length]. rewrite <- Nat.succ_min_distr.
    replace (2 * S (Nat.min (List.length to) (List.length fr))) with (S (S (2 * Nat.min (List.length to) (List.length fr)))) by lia.
    cbn [firstn tl skipn]. set (w := firstn (2 * Nat.min (List.length to) (List.length fr)) (k1 ++ k2)) in *.
    assert (X : evens (r2 :: w) = r2 :: evens (tl w)) by (destruct w; auto).
    change (evens (r1 :: r2 :: w)) with (r1 :: evens w).
    rewrite X. cbn [zipw zip_load]. rewrite I1, J1, A1. exists (r1 :: r2 :: k1), k2. repeat split; auto.
    intros x. cbn [flat_map]. rewrite !cnt_app. rewrite (rc_cons x (id_node a)), (rc_cons x (id_node b)), (rc_cons x r1), (rc_cons x r2).
    specialize (A4 x). specialize (I2 x). specialize (J2 x). lia.
Qed.
Lemma skel_node e : skel e = node e (kids (skel e)).
Proof. destruct e; reflexivity. Qed.
Lemma in_first {A} (x : A) l : In x (x :: l). Proof. left; auto. Qed.
Ltac one IH E r L1 L2 :=
  match type of E with
  | map bare ?k = bare (skel ?x) :: _ =>
      let E1 := fresh in destruct k as [|r k]; [discriminate E|]; cbn [map] in E; apply cons_inj in E as [E1 E];
      destruct (IH x ltac:(cbn; rewrite ?in_app_iff; cbn; auto 8) r E1) as [L1 L2]; clear E1; rewrite ?map_app in E; cbn [map] in E
  end.
Ltac many IH E := 
  match type of E with
  | map bare ?k = map bare (map skel ?l) ++ ?B =>
      let k1 := fresh "k1" in let k2 := fresh "k2" in let A1 := fresh "A1" in let A2 := fresh "A2" in let A3 := fresh "A3" in let A4 := fresh "A4" in let A5 := fresh "A5" in
      destruct (zip_lens l B (fun d Hd => IH d ltac:(cbn; rewrite ?in_app_iff; cbn; auto 8)) k E) as (k1 & k2 & -> & A1 & A2 & A3 & A4 & A5)
  end.
Ltac opt IH E := 
  match type of E with
  | map bare ?k = map bare (opt_list skel ?l) ++ ?B =>
      let k1 := fresh "k1" in let k2 := fresh "k2" in let A1 := fresh "A1" in let A2 := fresh "A2" in let A3 := fresh "A3" in let A4 := fresh "A4" in
      destruct (zipo_lens l B (fun d Hd => IH d ltac:(rewrite Hd; cbn; rewrite ?in_app_iff; cbn; auto 8)) k E) as (k1 & k2 & -> & A1 & A2 & A3 & A4)
  end.
Ltac fin E r A1 A4 :=
  match type of E with
  | map bare ?k = bare (end_node ?d) :: ?B =>
      let k2 := fresh "k2" in let A3 := fresh in
      destruct (end_lens d B k E) as (r & k2 & -> & A1 & A3 & A4)
  end.
Ltac nil E := match type of E with map bare ?k = [] => destruct k; [|discriminate E] end.
Ltac spec_all x := repeat match goal with H : forall y : comment, _ = _ |- _ => specialize (H x) end.
Ltac done_cnt := let x := fresh in intros x; spec_all x; cbn [every com opt_coms]; rewrite ?cnt_app in *; rewrite ?rc_app in *;
  repeat match goal with
  | |- context [rc x (?a :: ?k)] => lazymatch k with [] => fail | _ => rewrite (rc_cons x a k) end
  | |- context [rc x (?a ++ ?k)] => rewrite (rc_app x a k)
  end; try lia.
Lemma lens_all e : lens e.
Proof.
  induction e as [e IH] using expr_ind_subs. intros r E0. rewrite skel_node in E0. unfold node in E0.
  apply bare_inv in E0 as (c' & k & -> & E).
  set (r := Rose (p_byte (start_pos e)) (p_byte (end_pos e)) (is_block e) c' k).
  assert (G : com (refill e r) = c' /\ is_block (refill e r) = is_block e /\ kids (skel (refill e r)) = k /\
    forall x, cnt (every (refill e r)) x + cnt (coms_of (com e)) x + rc x (kids (skel e)) = cnt (every e) x + cnt (coms_of c') x + rc x k).
  2: { destruct G as (G1 & G2 & G3 & G4). split.
       - rewrite skel_node, G3. unfold node. rewrite G1, G2. destruct (span_refill e r) as [-> ->]. reflexivity.
       - intros x. specialize (G4 x). rewrite (skel_node e). unfold node. unfold r in *. rewrite !rc_node. lia. }
  subst r. destruct e; cbn [subs] in IH; rewrite ?map_id in IH; cbn [skel kids node refill rcom] in *; rewrite ?map_app in E; cbn [map] in E.
  - destruct (zipos_lens stmts) with (k := k) as [A1 A2]; auto.
    { intros e He. apply IH. apply in_flat_map. eexists. split; [exact He|]. left; auto. }
    cbn [com is_block]. do 2 (split; [reflexivity|]). cbn [skel node kids]. split; [exact A1|]. done_cnt.
  - nil E. do 3 (split; [reflexivity|]). done_cnt.
  - nil E. do 3 (split; [reflexivity|]). done_cnt. cbn [refill_id i_com rcom]. lia.
  - one IH E k1 L1 L2. nil E. cbn [com is_block]. do 2 (split; [reflexivity|]). cbn [skel node kids]. rewrite L1. split; auto. done_cnt.
  - nil E. do 3 (split; [reflexivity|]). done_cnt.
  - nil E. do 3 (split; [reflexivity|]). done_cnt.
  - nil E. do 3 (split; [reflexivity|]). done_cnt. cbn [refill_str s_com rcom]. lia.
  - one IH E k1 L1 L2. many IH E. fin A3 k3 B1 B2. nil H. cbn [com is_block]. do 2 (split; [reflexivity|]). cbn [skel node kids]. rewrite L1, A1, A2, B1. split; auto. done_cnt.
  - one IH E k1 L1 L2. nil E. cbn [com is_block]. do 2 (split; [reflexivity|]). cbn [skel node kids]. rewrite L1. split; auto. done_cnt.
  - one IH E k1 L1 L2. many IH E. fin A3 k3 B1 B2. nil H. cbn [com is_block]. do 2 (split; [reflexivity|]). cbn [skel node kids]. rewrite L1, A1, A2, B1. split; auto. done_cnt.
  - one IH E k1 L1 L2. one IH E k2 M1 M2. nil E. cbn [com is_block]. do 2 (split; [reflexivity|]). cbn [skel node kids]. rewrite L1, M1. split; auto. done_cnt.
  - one IH E k1 L1 L2. nil E. cbn [com is_block]. do 2 (split; [reflexivity|]). cbn [skel node kids]. rewrite L1. split; auto. done_cnt.
  - one IH E k1 L1 L2. one IH E k2 M1 M2. nil E. cbn [com is_block]. do 2 (split; [reflexivity|]). cbn [skel node kids]. rewrite L1, M1. split; auto. done_cnt.
  - many IH E. fin A3 k3 B1 B2. nil H. cbn [com is_block]. do 2 (split; [reflexivity|]). cbn [skel node kids]. rewrite A1, A2, B1. split; auto. done_cnt.
  - many IH E. fin A3 k3 B1 B2. nil H. cbn [com is_block]. do 2 (split; [reflexivity|]). cbn [skel node kids]. rewrite A1, A2, B1. split; auto. done_cnt.
  - many IH E. fin A3 k3 B1 B2. nil H. cbn [com is_block]. do 2 (split; [reflexivity|]). cbn [skel node kids]. rewrite A1, A2, B1. split; auto. done_cnt.
  - many IH E. destruct nobr; cbn [map] in A3.
    + nil A3. cbn [com is_block]. do 2 (split; [reflexivity|]). cbn [skel node kids]. rewrite A1. split; auto. done_cnt.
    + fin A3 k3 B1 B2. nil H. cbn [com is_block]. do 2 (split; [reflexivity|]). cbn [skel node kids]. rewrite A1, A2, B1. split; auto. done_cnt.
  - rewrite <- (app_nil_r (map bare (opt_list skel x))) in E. opt IH E. nil A3. rewrite app_nil_r in *. cbn [com is_block]. do 2 (split; [reflexivity|]). cbn [skel node kids]. split; auto. done_cnt.
  - one IH E k1 L1 L2. one IH E k2 M1 M2. nil E. cbn [com is_block]. do 2 (split; [reflexivity|]). cbn [skel node kids]. rewrite L1, M1. split; auto. done_cnt.
  - one IH E k1 L1 L2. one IH E k2 M1 M2. nil E. cbn [com is_block]. do 2 (split; [reflexivity|]). cbn [skel node kids]. rewrite L1, M1. split; auto. done_cnt.
  - one IH E k1 L1 L2. fin E k3 B1 B2. nil H. cbn [com is_block]. do 2 (split; [reflexivity|]). cbn [skel node kids]. rewrite L1, B1. split; auto. done_cnt.
  - one IH E k1 L1 L2. rewrite ?map_app in E. opt IH E. opt IH A3. rewrite A2, A5.
    rewrite <- (app_nil_r (map bare (opt_list skel step))) in A6. opt IH A6. nil A10. rewrite !app_nil_r in *.
    cbn [com is_block]. do 2 (split; [reflexivity|]). cbn [skel node kids]. rewrite L1, A1, A0, A8. split; [auto|]. done_cnt.
  - one IH E k1 L1 L2. one IH E k2 M1 M2. nil E. cbn [com is_block]. do 2 (split; [reflexivity|]). cbn [skel node kids]. rewrite L1, M1. split; auto. done_cnt.
  - many IH E. rewrite <- (app_nil_r (map bare (map skel body))) in A3. many IH A3. nil A7. rewrite app_nil_r in *.
    cbn [com is_block]. do 2 (split; [reflexivity|]). cbn [skel node kids]. rewrite A1, A2, A0. split; auto. done_cnt.
  - one IH E k1 L1 L2. one IH E k2 M1 M2. one IH E k3 N1 N2. nil E. cbn [com is_block]. do 2 (split; [reflexivity|]). cbn [skel node kids]. rewrite L1, M1, N1. split; auto. done_cnt.
  - destruct k as [|k1 k]; [discriminate E|]. cbn [map] in E. apply cons_inj in E as [E1 E]. rewrite map_app in E. cbn [map] in E.
    destruct (str_lens _ _ E1) as [S1 S2]. destruct (load_lens [bare (end_node r)] to from k E) as (k2 & k3 & -> & A1 & A2 & A3 & A4).
    fin A3 k4 B1 B2. nil H. cbn [com is_block]. do 2 (split; [reflexivity|]). cbn [skel kids node]. rewrite S1, A1, A2, B1. split; auto. done_cnt.
  - many IH E. rewrite <- (app_nil_r (map bare (map skel body))) in A3. many IH A3. nil A7. rewrite app_nil_r in *.
    cbn [com is_block]. do 2 (split; [reflexivity|]). cbn [skel node kids]. rewrite A1, A2, A0. split; auto. done_cnt.
  - rewrite <- (app_nil_r (map bare (opt_list skel x))) in E. opt IH E. nil A3. rewrite app_nil_r in *. cbn [com is_block]. do 2 (split; [reflexivity|]). cbn [skel node kids]. split; auto. done_cnt.
  - one IH E k1 L1 L2. one IH E k2 M1 M2. rewrite <- (app_nil_r (map bare (map skel body))) in E. many IH E. nil A3. rewrite app_nil_r in *.
    cbn [com is_block]. do 2 (split; [reflexivity|]). cbn [skel node kids]. rewrite L1, M1, A1. split; auto. done_cnt.
  - one IH E k1 L1 L2. rewrite ?map_app in E. many IH E. rewrite A2. destruct fls as [|y fls].
    + cbn [map app] in A3. nil A3. cbn [com is_block]. do 2 (split; [reflexivity|]). cbn [skel node kids zipw map app]. rewrite L1, A1. split; auto. done_cnt.
    + cbn [map app] in A3. fin A3 k4 B1 B2. cbn [tl]. change (bare (skel y) :: map bare (map skel fls)) with (map bare (map skel (y :: fls))) in H.
      rewrite <- (app_nil_r (map bare (map skel (y :: fls)))) in H. many IH H. nil A7. rewrite app_nil_r in *.
      cbn [com is_block]. do 2 (split; [reflexivity|]). cbn [skel node kids]. rewrite L1, A1, B1, A0. split; [|done_cnt].
      match goal with |- context [match ?z with [] => _ | _ => _ end] => destruct z; [discriminate|auto] end.
Qed.
