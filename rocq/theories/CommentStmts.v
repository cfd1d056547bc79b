(** The comment tokens are in the parsed statements, in order: statements. *)
From Verif Require Import Base BaseProofs Ast AttachSpec Lex LexSpec LRTables LRCert Parse LRProofs ParseSpec ParseLex ParseProofs ParseRules ParseStmts ParseSound CommentSpec CommentProofs.
Local Open Scope list_scope.

(** ** Trees *)
Definition flat (l : list expr) : list comment := flat_map in_order_of l.
Lemma flat_app a b : flat (a ++ b) = flat a ++ flat b.
Proof. apply flat_map_app. Qed.
Lemma flat_cons x l : flat (x :: l) = in_order_of x ++ flat l.
Proof. reflexivity. Qed.
Definition inner (e : expr) : list comment := in_order_of (set_com no_com e).
Lemma inner_set c e : inner (set_com c e) = inner e.
Proof. unfold inner. destruct e; try reflexivity. Qed.
Lemma around_inner e : in_order_of e = around (com e) (inner e).
Proof.
  unfold inner. destruct e; cbn [in_order_of set_com com]; unfold around; cbn [no_com c_before c_suffix c_after app]; now rewrite ?app_nil_r.
Qed.
Lemma com_set c e : com (set_com c e) = c.
Proof. now destruct e. Qed.
Lemma in_order_set_after l e : c_suffix (com e) = [] -> in_order_of (set_after l e) = c_before (com e) ++ inner e ++ l.
Proof. intro H. unfold set_after. rewrite around_inner, com_set, inner_set, H. unfold around. cbn [c_before c_suffix c_after app]. reflexivity. Qed.
Lemma in_order_after e : c_suffix (com e) = [] -> in_order_of e = (c_before (com e) ++ inner e) ++ c_after (com e).
Proof. intro H. rewrite around_inner. unfold around. rewrite H. now rewrite <- app_assoc. Qed.
Lemma in_order_set_before l e : c_before (com e) = [] -> in_order_of (set_before l e) = l ++ in_order_of e.
Proof. intro H. unfold set_before. rewrite (around_inner e), around_inner, com_set, inner_set. unfold around. rewrite H. reflexivity. Qed.

(** Nothing is left to be extracted. *)
Definition sealed (e : expr) : Prop := snd (extractTrailingComments e) = [].
Lemma extract_set c e : extractTrailingComments (set_com c e) = (set_com c (extracted e), snd (extractTrailingComments e)).
Proof.
  unfold extracted. destruct e; try reflexivity; cbn [set_com extractTrailingComments].
  - now destruct (extract_body body).
  - now destruct (extract_body body).
  - destruct fls as [|n [|n' f]]; [now destruct (extract_body tru)| |destruct (extract_body (n :: n' :: f)); destruct n; reflexivity].
    destruct n; try (destruct (extract_body [_]); reflexivity). now destruct (extractTrailingComments (EIf c1 p0 n tru0 elsep0 fls)).
Qed.
Lemma sealed_set c e : sealed (set_com c e) <-> sealed e.
Proof. unfold sealed. now rewrite extract_set. Qed.
Lemma com_extracted e : com (extracted e) = com e.
Proof.
  unfold extracted. destruct e; try reflexivity; cbn [extractTrailingComments].
  - now destruct (extract_body body).
  - now destruct (extract_body body).
  - destruct fls as [|n [|n' f]]; [now destruct (extract_body tru)| |destruct (extract_body (n :: n' :: f)); destruct n; reflexivity].
    destruct n; try (destruct (extract_body [_]); reflexivity). now destruct (extractTrailingComments (EIf c0 p0 n tru0 elsep0 fls)).
Qed.
(** Statements as the parser builds them. *)
Fixpoint st_ok (e : expr) : Prop :=
  let all := fix all (l : list expr) : Prop := match l with [] => True | x :: l' => st_ok x /\ all l' end in
  c_suffix (com e) = [] /\ (is_code e = false -> c_before (com e) = []) /\ sealed e /\
  match e with
  | EDef _ _ _ b _ _ _ _ _ | EFor _ _ _ _ b => all b
  | EIf _ _ _ t d f => all t /\ end_in d = [] /\ all f
  | _ => True
  end.
Lemma st_ok_all l : (fix all (l : list expr) : Prop := match l with [] => True | x :: l' => st_ok x /\ all l' end) l <-> Forall st_ok l.
Proof. induction l as [|x l IH]; [split; constructor|]. rewrite IH. split; [intros [A B]; now constructor|intro H; inversion H; auto]. Qed.
Definition bodies_ok (e : expr) : Prop :=
  match e with
  | EDef _ _ _ b _ _ _ _ _ | EFor _ _ _ _ b => Forall st_ok b
  | EIf _ _ _ t d f => Forall st_ok t /\ end_in d = [] /\ Forall st_ok f
  | _ => True
  end.
Lemma st_ok_def e : st_ok e <-> c_suffix (com e) = [] /\ (is_code e = false -> c_before (com e) = []) /\ sealed e /\ bodies_ok e.
Proof.
  assert (B : match e with
     | EDef _ _ _ b _ _ _ _ _ | EFor _ _ _ _ b => (fix all (l : list expr) : Prop := match l with [] => True | x :: l' => st_ok x /\ all l' end) b
     | EIf _ _ _ t d f => (fix all (l : list expr) : Prop := match l with [] => True | x :: l' => st_ok x /\ all l' end) t /\ end_in d = [] /\ (fix all (l : list expr) : Prop := match l with [] => True | x :: l' => st_ok x /\ all l' end) f
     | _ => True end <-> bodies_ok e) by (destruct e; unfold bodies_ok; rewrite ?st_ok_all; reflexivity).
  rewrite <- B. destruct e; reflexivity.
Qed.
Lemma bodies_set c e : bodies_ok (set_com c e) <-> bodies_ok e.
Proof. destruct e; reflexivity. Qed.
Lemma dedented_app ind l a b : dedented ind l = Some (a, b) -> l = a ++ b.
Proof.
  revert a b. induction l as [|c l IH]; intros a b H; [discriminate|]. cbn [dedented] in H. destruct (_ && _); [injection H as <- <-; reflexivity|].
  destruct (dedented ind l) as [[a' b']|]; [|discriminate]. injection H as <- <-. cbn. f_equal. auto.
Qed.
Lemma block_ok c p : st_ok (ECommentBlock (Comments [] [] c) p).
Proof. apply st_ok_def. cbn. repeat split; auto. Qed.
Lemma set_after_ok l e : st_ok e -> st_ok (set_after l e).
Proof.
  rewrite !st_ok_def. unfold set_after. rewrite com_set, bodies_set, sealed_set. cbn [c_before c_suffix c_after]. intros (A & B & C & D). repeat split; auto.
  destruct e; auto.
Qed.
Lemma set_before_ok l e : is_code e = true -> st_ok e -> st_ok (set_before l e).
Proof.
  rewrite !st_ok_def. unfold set_before. rewrite com_set, bodies_set, sealed_set. cbn [c_before c_suffix c_after]. intros W (A & B & C & D). repeat split; auto.
  destruct e; discriminate || (cbn; discriminate).
Qed.
Lemma cb_in_order e : st_ok e -> is_code e = false -> in_order_of e = c_after (com e).
Proof. rewrite st_ok_def. intros (A & B & _) H. specialize (B H). rewrite around_inner. unfold around. rewrite A, B. destruct e; try discriminate. reflexivity. Qed.
Lemma extract_from_spec ind l : forall first a b, (first = false -> Forall is_cb l) -> (first = true -> match l with [] => True | _ :: l' => Forall is_cb l' end) ->
  Forall st_ok l -> extract_from ind first l = (a, b) ->
  flat a ++ flat b = flat l /\ Forall st_ok a /\ Forall st_ok b.
Proof.
  induction l as [|s l IH]; intros first a b F1 F2 OK E; cbn [extract_from] in E; [injection E as <- <-; auto|].
  inversion OK as [|? ? OS OL]; subst.
  assert (CL : Forall is_cb l) by (destruct first; [now apply F2|specialize (F1 eq_refl); now inversion F1]).
  assert (D : forall a b, (let (a0, b0) := extract_from ind false l in (s :: a0, b0)) = (a, b) -> flat a ++ flat b = flat (s :: l) /\ Forall st_ok a /\ Forall st_ok b).
  { intros a' b' E'. destruct (extract_from ind false l) as [a0 b0] eqn:Q. injection E' as <- <-.
    destruct (IH false a0 b0) as (X & Y & Z); auto; [discriminate|]. rewrite !flat_cons, <- app_assoc, X. auto. }
  destruct (dedented ind (c_after (com s))) as [[stay [|c leave]]|] eqn:DD; auto.
  apply dedented_app in DD. injection E as <- <-.
  assert (SX : c_suffix (com s) = []) by (now apply st_ok_def in OS).
  assert (NE : c_after (com s) <> []) by (rewrite DD; destruct stay; discriminate).
  assert (CB : in_order_of (ECommentBlock (Comments [] [] (c :: leave)) (c_start c)) = c :: leave) by reflexivity.
  split; [|split; [|constructor; [apply block_ok|assumption]]].
  - rewrite !flat_cons, CB. destruct (negb first && match stay with [] => true | _ => false end) eqn:W.
    + apply andb_prop in W. destruct W as [W1 W2]. destruct first; [discriminate|]. destruct stay; [|discriminate]. cbn [app] in *.
      specialize (F1 eq_refl). inversion F1 as [|? ? CS _]; subst. rewrite (cb_in_order s OS CS), DD. reflexivity.
    + rewrite flat_cons. cbn [flat flat_map]. rewrite app_nil_r, in_order_set_after, (in_order_after s SX), DD by assumption. rewrite <- !app_assoc. reflexivity.
  - destruct (_ && _); constructor; [|constructor]. apply set_after_ok; auto.
Qed.
Lemma skipn_S {A} n (l : list A) x r : skipn n l = x :: r -> firstn n l ++ x :: r = l.
Proof. intros <-. apply firstn_skipn. Qed.
Lemma extract_body_order b b' cbs : Forall st_ok b -> extract_body b = (b', cbs) ->
  flat b' ++ flat cbs = flat b /\ Forall st_ok b' /\ Forall st_ok cbs.
Proof.
  unfold extract_body. destruct b as [|y b]; [intros _ E; injection E as <- <-; auto|]. intro OK.
  pose proof (last_non_comment_spec (y :: b) 0 None) as L. destruct (last_non_comment 0 (y :: b) None) as [n|].
  - destruct L as [[L _]|(_ & x & r & E & F)]; [discriminate|]. rewrite Nat.sub_0_r in E.
    destruct (extract_from _ true (skipn n (y :: b))) as [a0 b0] eqn:Q. rewrite E in Q. intro H. injection H as <- <-.
    rewrite <- (firstn_skipn n (y :: b)), E in OK. apply Forall_app in OK. destruct OK as [O1 O2].
    destruct (extract_from_spec _ (x :: r) true _ _ ltac:(discriminate) (fun _ => F) O2 Q) as (X & Y & Z).
    rewrite flat_app, <- app_assoc, X. split; [|split; [apply Forall_app; auto|assumption]]. rewrite <- flat_app. f_equal. now apply skipn_S.
  - intro E. injection E as <- <-. now rewrite app_nil_r.
Qed.

(** ** Extracting twice is extracting once *)
Lemma dedented_stay ind l : forall a b, dedented ind l = Some (a, b) -> dedented ind a = None.
Proof.
  induction l as [|c l IH]; intros a b H; [discriminate|]. cbn [dedented] in H. destruct (_ && _) eqn:E; [injection H as <- <-; reflexivity|].
  destruct (dedented ind l) as [[a' b']|]; [|discriminate]. injection H as <- <-. cbn [dedented]. rewrite E. now rewrite (IH a' b').
Qed.
Lemma extract_idem ind l : forall first a b, extract_from ind first l = (a, b) -> extract_from ind first a = (a, []).
Proof.
  induction l as [|s l IH]; intros first a b E; cbn [extract_from] in E; [injection E as <- <-; reflexivity|].
  assert (D : match dedented ind (c_after (com s)) with Some (_, _ :: _) => False | _ => True end ->
     forall a b, (let (a0, b0) := extract_from ind false l in (s :: a0, b0)) = (a, b) -> extract_from ind first a = (a, [])).
  { intros W a' b' E'. destruct (extract_from ind false l) as [a0 b0] eqn:Q. injection E' as <- <-. cbn [extract_from]. rewrite (IH _ _ _ Q).
    destruct (dedented ind (c_after (com s))) as [[? [|? ?]]|]; [reflexivity|destruct W|reflexivity]. }
  destruct (dedented ind (c_after (com s))) as [[stay [|c leave]]|] eqn:DD; [eapply D; eauto| |eapply D; eauto].
  injection E as <- <-. destruct (_ && _); [reflexivity|]. cbn [extract_from]. unfold set_after at 1. rewrite com_set. cbn [c_after].
  now rewrite (dedented_stay _ _ _ _ DD).
Qed.
Lemma last_nc_app l : forall j found, last_non_comment j l found =
  match last_non_comment 0 l None with Some n => Some (j + n) | None => found end.
Proof.
  assert (G : forall i j found, match last_non_comment i l None with
     | Some n => i <= n /\ last_non_comment j l found = Some (j + (n - i)) | None => last_non_comment j l found = found end).
  { induction l as [|x l IH]; intros i j found; cbn [last_non_comment]; [reflexivity|]. destruct (is_comment_block x).
    - pose proof (IH (S i) (S j) found) as A. destruct (last_non_comment (S i) l None) as [n|]; [|exact A].
      destruct A as [A ->]. split; [lia|]. f_equal. lia.
    - pose proof (IH (S i) (S j) (Some j)) as A. pose proof (IH (S i) (S i) (Some i)) as B. destruct (last_non_comment (S i) l None) as [n|].
      + destruct A as [A ->]. destruct B as [B ->]. split; [lia|]. f_equal. lia.
      + rewrite A, B. split; [lia|]. f_equal. lia. }
  intros j found. specialize (G 0 j found). destruct (last_non_comment 0 l None); [|assumption]. destruct G as [_ G]. now rewrite Nat.sub_0_r in G.
Qed.
Lemma last_nc_split l x r : is_code x = true -> Forall is_cb r -> forall j found, last_non_comment j (l ++ x :: r) found = Some (j + List.length l).
Proof.
  intros C F. assert (B : forall i f, last_non_comment i r f = f).
  { induction F as [|y r H F IH]; intros i f; [reflexivity|]. cbn [last_non_comment]. replace (is_comment_block y) with true by (destruct y; now inversion H). apply IH. }
  induction l as [|y l IH]; intros j found; cbn [app last_non_comment List.length].
  - replace (is_comment_block x) with false by now destruct x. rewrite B. f_equal. lia.
  - rewrite IH. f_equal. lia.
Qed.
Lemma code_split l : Forall is_cb l \/ exists a x r, l = a ++ x :: r /\ is_code x = true /\ Forall is_cb r.
Proof.
  induction l as [|y l [IH|(a & x & r & -> & C & F)]]; [left; constructor| |right; now exists (y :: a), x, r].
  destruct (is_code y) eqn:E; [right; now exists [], y, l|left; now constructor].
Qed.
Lemma last_nc_none l : Forall is_cb l -> last_non_comment 0 l None = None.
Proof. intro F. generalize 0. induction F as [|y r H F IH]; intro i; [reflexivity|]. cbn [last_non_comment]. replace (is_comment_block y) with true by (destruct y; now inversion H). apply IH. Qed.
Lemma start_set c e : start_pos (set_com c e) = start_pos e.
Proof. now destruct e. Qed.
(** What the extraction from a body does. *)
Lemma extract_body_cases b : 
  (extract_body b = (b, [])) \/
  exists a x r x' r' cbs, b = a ++ x :: r /\ is_code x = true /\ Forall is_cb r /\
    extract_body b = (a ++ x' :: r', cbs) /\ is_code x' = true /\ start_pos x' = start_pos x /\ Forall is_cb r' /\
    extract_from (match b with y :: _ => p_rune (start_pos y) | [] => 0 end) true (x' :: r') = (x' :: r', []).
Proof.
  destruct (code_split b) as [F|(a & x & r & -> & C & F)].
  - left. unfold extract_body. destruct b; [reflexivity|]. now rewrite (last_nc_none _ F).
  - right. unfold extract_body. destruct (a ++ x :: r) as [|y b] eqn:EB; [now destruct a|]. rewrite <- EB. rewrite (last_nc_split _ _ _ C F). cbn [Nat.add].
    rewrite skipn_app, firstn_app, skipn_all, firstn_all, Nat.sub_diag. cbn [skipn firstn app]. rewrite app_nil_r.
    destruct (extract_from (p_rune (start_pos y)) true (x :: r)) as [a0 cbs] eqn:Q. pose proof (extract_idem _ _ _ _ _ Q) as ID.
    pose proof (extract_first _ _ _ _ _ F Q) as [K _].
    assert (H : exists x' r', a0 = x' :: r' /\ is_code x' = true /\ start_pos x' = start_pos x /\ Forall is_cb r').
    { cbn [extract_from] in Q.
      assert (D : forall a0 cbs, (let (a0, b0) := extract_from (p_rune (start_pos y)) false r in (x :: a0, b0)) = (a0, cbs) -> exists x' r', a0 = x' :: r' /\ is_code x' = true /\ start_pos x' = start_pos x /\ Forall is_cb r').
      { intros a1 b1 E'. destruct (extract_from (p_rune (start_pos y)) false r) as [a2 b2] eqn:Q'. injection E' as <- <-. exists x, a2. repeat split; auto. now apply (extract_comments _ _ F _ _ Q'). }
      destruct (dedented _ _) as [[stay [|c leave]]|]; [eapply D; eauto| |eapply D; eauto].
      injection Q as <- <-. cbn [negb andb]. exists (set_after stay x), []. repeat split; auto; [|unfold set_after; apply start_set].
      rewrite (eqc_code _ _ (set_after_eqc stay x)). assumption. }
    destruct H as (x' & r' & -> & C' & P' & F'). exists a, x, r, x', r', cbs. repeat split; auto.
Qed.
Lemma extract_body_idem b : snd (extract_body (fst (extract_body b))) = [].
Proof.
  destruct (extract_body_cases b) as [E|(a & x & r & x' & r' & cbs & EB & C & F & E & C' & P' & F' & ID)]; rewrite E; cbn [fst]; [now rewrite E|].
  unfold extract_body. destruct (a ++ x' :: r') as [|y' l] eqn:EL; [reflexivity|]. rewrite <- EL. rewrite (last_nc_split _ _ _ C' F'). cbn [Nat.add].
  rewrite skipn_app, skipn_all, Nat.sub_diag. cbn [skipn app].
  replace (p_rune (start_pos y')) with (match b with y :: _ => p_rune (start_pos y) | [] => 0%Z end); [now rewrite ID|].
  subst b. destruct a as [|z a]; cbn [app] in *; injection EL as <- _; congruence.
Qed.

Lemma extract_none ind l : forall first a, extract_from ind first l = (a, []) -> a = l.
Proof.
  induction l as [|s l IH]; intros first a E; cbn [extract_from] in E; [now injection E as <-|].
  assert (D : forall a, (let (a0, b0) := extract_from ind false l in (s :: a0, b0)) = (a, []) -> a = s :: l).
  { intros a' E'. destruct (extract_from ind false l) as [a0 b0] eqn:Q. injection E' as <- ->. f_equal. eauto. }
  destruct (dedented _ _) as [[stay [|c leave]]|]; auto. injection E as _ E. discriminate.
Qed.
Lemma extract_body_none b b' : extract_body b = (b', []) -> b' = b.
Proof.
  unfold extract_body. destruct b as [|y b]; [intro E; now injection E as <-|]. destruct (last_non_comment _ _ _) as [n|]; [|intro E; now injection E as <-].
  destruct (extract_from _ _ _) as [a cbs] eqn:Q. intro E. injection E as <- ->. apply extract_none in Q. subst a. apply firstn_skipn.
Qed.
Fixpoint sealed_fix (e : expr) : sealed e -> extracted e = e.
Proof.
  destruct e; try reflexivity.
  - clear sealed_fix. unfold sealed, extracted. cbn [extractTrailingComments]. destruct (extract_body body) as [b' cbs] eqn:E. cbn [fst snd]. intros ->. now rewrite (extract_body_none _ _ E).
  - clear sealed_fix. unfold sealed, extracted. cbn [extractTrailingComments]. destruct (extract_body body) as [b' cbs] eqn:E. cbn [fst snd]. intros ->. now rewrite (extract_body_none _ _ E).
  - assert (IH : forall n, fls = [n] -> sealed n -> extracted n = n) by (destruct fls as [|n l]; [discriminate|]; pose proof (sealed_fix n) as T; intros n' E; injection E as <- _; exact T).
    clear sealed_fix. unfold extracted, sealed.
    destruct (extract_if c p e tru elsep fls) as [(-> & t' & cbs & E1 & ->)|[(n & -> & N & ->)|(f' & cbs & E1 & -> & NI)]]; cbn [fst snd].
    + intros ->. now rewrite (extract_body_none _ _ E1).
    + intro H. now rewrite (IH n eq_refl H).
    + intros ->. now rewrite (extract_body_none _ _ E1).
Qed.
(** Statements before the extraction. *)
Definition bare (e : expr) : Prop := c_before (com e) = [] /\ c_suffix (com e) = [] /\ c_after (com e) = [].
Inductive pre_ok : expr -> Prop :=
  | pre_def c p ps b n col fc fm ty : bare (EDef c p ps b n col fc fm ty) -> Forall st_ok b -> pre_ok (EDef c p ps b n col fc fm ty)
  | pre_for c p v x b : bare (EFor c p v x b) -> Forall st_ok b -> pre_ok (EFor c p v x b)
  | pre_if c p x t d f : bare (EIf c p x t d f) -> end_in d = [] -> Forall st_ok t -> Forall st_ok f -> pre_ok (EIf c p x t d f)
  | pre_elif c p x t d n : bare (EIf c p x t d [n]) -> end_in d = [] -> Forall st_ok t -> (exists c p x b ep f, n = EIf c p x b ep f) -> pre_ok n -> pre_ok (EIf c p x t d [n]).
Lemma pre_bare e : pre_ok e -> bare e.
Proof. now destruct 1. Qed.
Definition ext_order (e : expr) : Prop :=
  in_order_of (extracted e) ++ flat (snd (extractTrailingComments e)) = in_order_of e /\ st_ok (extracted e) /\ Forall st_ok (snd (extractTrailingComments e)).
Lemma rebuild e e' cbs : extractTrailingComments e = (e', cbs) -> is_code e' = true -> bare e -> com e' = com e -> sealed e' -> bodies_ok e' ->
  inner e' ++ flat cbs = inner e -> Forall st_ok cbs -> ext_order e.
Proof.
  intros E CE' (B1 & B2 & B3) C SE BO IN CB. unfold ext_order, extracted. rewrite E. cbn [fst snd]. split; [|split; [|assumption]].
  - rewrite (around_inner e), (around_inner e'), C. unfold around. rewrite B1, B2, B3. cbn [app]. now rewrite !app_nil_r.
  - apply st_ok_def. rewrite C. repeat split; auto.
Qed.
Lemma sealed_else c p x t d f : f <> [] -> Forall st_ok f -> snd (extract_body f) = [] -> sealed (EIf c p x t d f).
Proof.
  intros N F I. unfold sealed. destruct (extract_if c p x t d f) as [(-> & _)|[(n & -> & _ & ->)|(f' & cbs & E1 & -> & _)]]; cbn [snd]; [congruence| |].
  - inversion F as [|? ? H _]; subst. now apply st_ok_def in H.
  - now rewrite E1 in I.
Qed.
Lemma extract_body_nonempty b : b <> [] -> fst (extract_body b) <> [].
Proof. intro N. destruct (extract_body_cases b) as [->|(a & x & r & x' & r' & cbs' & _ & _ & _ & -> & _)]; cbn [fst]; [assumption|now destruct a]. Qed.
Theorem pre_ext e : pre_ok e -> ext_order e.
Proof.
  induction 1 as [c p ps b n col fc fm ty B F|c p v x b B F|c p x t d f B D FT FF|c p x t d n B D FT N P IH].
  - pose proof (extract_body_idem b) as I. destruct (extract_body b) as [b' cbs] eqn:E. cbn [fst] in I. destruct (extract_body_order _ _ _ F E) as (O1 & O2 & O3).
    eapply rebuild; [cbn [extractTrailingComments]; rewrite E; reflexivity|reflexivity|exact B|reflexivity| |exact O2| |exact O3].
    + unfold sealed. cbn [extractTrailingComments]. now destruct (extract_body b').
    + unfold inner. cbn [set_com in_order_of]. unfold around. cbn [no_com com c_before c_suffix c_after app]. rewrite !app_nil_r, <- !app_assoc. fold (flat b') (flat b). now rewrite O1.
  - pose proof (extract_body_idem b) as I. destruct (extract_body b) as [b' cbs] eqn:E. cbn [fst] in I. destruct (extract_body_order _ _ _ F E) as (O1 & O2 & O3).
    eapply rebuild; [cbn [extractTrailingComments]; rewrite E; reflexivity|reflexivity|exact B|reflexivity| |exact O2| |exact O3].
    + unfold sealed. cbn [extractTrailingComments]. now destruct (extract_body b').
    + unfold inner. cbn [set_com in_order_of]. unfold around. cbn [no_com com c_before c_suffix c_after app]. rewrite !app_nil_r, <- !app_assoc. fold (flat b') (flat b). now rewrite O1.
  - destruct f as [|y f].
    + pose proof (extract_body_idem t) as I. destruct (extract_body t) as [t' cbs] eqn:E. cbn [fst] in I. destruct (extract_body_order _ _ _ FT E) as (O1 & O2 & O3).
      eapply rebuild; [cbn [extractTrailingComments]; rewrite E; reflexivity|reflexivity|exact B|reflexivity| | | |exact O3].
      * unfold sealed. cbn [extractTrailingComments]. now destruct (extract_body t').
      * cbn. auto.
      * unfold inner. cbn [set_com in_order_of flat_map]. unfold around. cbn [no_com com c_before c_suffix c_after app]. rewrite D, !app_nil_r, <- !app_assoc. fold (flat t') (flat t). now rewrite O1.
    + destruct (extract_if c p x t d (y :: f)) as [(Q & _)|[(n & E & N & EQ)|(f' & cbs & E1 & EQ & NI)]]; [discriminate| |].
      * assert (SN : sealed n) by (rewrite E in FF; inversion FF as [|? ? H _]; subst; now apply st_ok_def in H).
        rewrite (sealed_fix n SN) in EQ. unfold sealed in SN. rewrite SN, <- E in EQ.
        eapply rebuild; [exact EQ|reflexivity|exact B|reflexivity| | | |constructor].
        -- unfold sealed. now rewrite EQ.
        -- cbn. auto.
        -- now rewrite app_nil_r.
      * pose proof (extract_body_idem (y :: f)) as I. pose proof (extract_body_nonempty (y :: f) ltac:(discriminate)) as NE. rewrite E1 in I, NE. cbn [fst] in I, NE.
        destruct (extract_body_order _ _ _ FF E1) as (O1 & O2 & O3).
        eapply rebuild; [exact EQ|reflexivity|exact B|reflexivity| | | |exact O3].
        -- apply sealed_else; auto.
        -- cbn [bodies_ok]. auto.
        -- unfold inner. cbn [set_com in_order_of]. unfold around. cbn [no_com com c_before c_suffix c_after app]. rewrite !app_nil_r, <- !app_assoc. fold (flat f') (flat (y :: f)). now rewrite O1.
  - destruct IH as (I1 & I2 & I3). destruct (extract_if c p x t d [n]) as [(Q & _)|[(n' & E & _ & EQ)|(f' & cbs & E1 & EQ & NI)]]; [discriminate| |exfalso; now apply (NI n eq_refl)].
    injection E as <-. eapply rebuild; [exact EQ|reflexivity|exact B|reflexivity| | | |exact I3].
    + unfold sealed. destruct (extract_if c p x t d [extracted n]) as [(Q & _)|[(n' & E & _ & ->)|(f' & cbs & E1 & -> & NI)]]; [discriminate| |]; cbn [snd].
      * injection E as <-. now apply st_ok_def in I2.
      * exfalso. apply (NI _ eq_refl). destruct N as (c1 & p1 & x1 & b1 & ep1 & f1 & ->). unfold extracted.
        destruct (extract_if c1 p1 x1 b1 ep1 f1) as [(-> & t' & ? & _ & ->)|[(n & -> & N & ->)|(f2 & ? & _ & -> & _)]]; cbn [fst]; repeat eexists.
    + cbn [bodies_ok]. auto.
    + unfold inner. cbn [set_com in_order_of flat_map]. unfold around. cbn [no_com com c_before c_suffix c_after app]. rewrite !app_nil_r, <- !app_assoc. now rewrite I1.
Qed.
