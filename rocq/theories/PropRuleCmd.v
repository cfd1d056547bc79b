(** C91: buildozer's set, set_if_absent, rename, remove, remove_if_equal and replace change what they say, and print shows it. *)
From Verif Require Import LRTables LRCert Parse.
From Verif Require Import Base BaseProofs Ast ParseFile Quote Labels LabelsProofs PropLabels Rewrite CallSpec RuleApi RuleSpec RuleProofs PropRule EditList EditListSpec EditListProofs EditResolve PropEditList PropResolve EditFile Print RuleCmd.
Local Open Scope list_scope.

(** ** What is asked for *)
(** The text that an argument stands for: the string, if it is a string literal *)
Definition means (v t : bytes) : Prop := (exists triple, unquote v = (t, triple, None)) \/ (forall u triple, unquote v <> (u, triple, None)) /\ t = v.
(** The text that is written to the file: labels are shortened, if that is asked for (C07 says what this does to labels) *)
Definition stored (s : setting) (v w : bytes) : Prop := exists t, means v t /\ w = if short s then shorten t (pkg s) else t.
(** Only this attribute is different *)
Definition only (attr : bytes) (r r' : rule) : Prop :=
  r_com r' = r_com r /\ r_x r' = r_x r /\ r_start r' = r_start r /\ r_end r' = r_end r /\ r_compact r' = r_compact r /\ r_multi r' = r_multi r /\
  forall k, k <> attr -> Attr k (r_args r') = Attr k (r_args r).
(** Words for which print shows something else than the attribute *)
Definition reserved : list bytes := [%"kind"; %"name"; %"label"; %"rule"; %"startline"; %"endline"; %"path"; %"attrs"].
Definition once (attr : bytes) (args : list expr) : Prop := List.length (filter (fun k => beq k attr) (AttrKeys args)) <= 1.

Lemma string_stored s v : exists triple w, getStringExpr s v = EStr (Str no_com no_pos w triple no_pos []) /\ stored s v w.
Proof.
  unfold getStringExpr, stored, ShortenLabel, plain_str. destruct (unquote v) as [[u tr] [e|]] eqn:E.
  - exists false. eexists. split; [reflexivity|]. exists v. split; auto. right. split; auto. intros u' tr'. rewrite E. intro K. now inversion K.
  - exists tr. eexists. split; [reflexivity|]. exists u. split; auto. left. eauto.
Qed.
Lemma strings_stored s args : exists ws, all_strings (map (getStringExpr s) args) = Some ws /\ Forall2 (stored s) args ws.
Proof.
  induction args as [|a args (ws & E & F)]; [exists []; split; auto|]. destruct (string_stored s a) as (tr & w & Ew & Sw). exists (w :: ws). cbn [map]. rewrite Ew. cbn [all_strings]. rewrite E. cbn [option_map s_value]. split; auto.
Qed.
Lemma not_reserved attr : ~ In attr reserved -> forall x, In x reserved -> beq attr x = false.
Proof. intros N x I. apply beq_neq. intros ->. contradiction. Qed.
Lemma print_attr s r attr : ~ In attr reserved -> print_field s r attr =
  match Attr attr (r_args r) with
  | None => Some FMissing
  | Some (ELit _ _ t) => Some (Text t false)
  | Some (EIdent i) => Some (Text (i_name i) false)
  | Some (EStr t) => Some (Text (s_value t) true)
  | Some e => match AttrStrings attr (r_args r) with Some l => Some (FStrings l) | None => match FormatString e with Some t => Some (Text t false) | None => None end end
  end.
Proof. intro N. unfold print_field. rewrite !(not_reserved attr N); auto; unfold reserved; cbn [In]; tauto. Qed.
Lemma only_set attr v r : only attr r (with_args (SetAttr attr v (r_args r)) r).
Proof. unfold only. cbn [with_args r_com r_x r_start r_end r_compact r_multi r_args]. repeat (apply conj; [reflexivity|]). intros k N. now apply C33_get_set. Qed.
Lemma only_refl attr r : only attr r r.
Proof. unfold only. tauto. Qed.
Lemma kind_set k x : kind_of (SetKind k x) = k.
Proof.
  unfold SetKind, kind_of. destruct (split c_dot k) as [|n ns] eqn:E; [exfalso; now apply (split_nonempty c_dot k)|].
  assert (D : forall ns acc l, dotted acc = Some l -> dotted (fold_left (fun a m => EDot no_com a no_pos (start_pos x) m) ns acc) = Some (l ++ ns)).
  { clear. induction ns as [|m ns IH]; intros acc l H; cbn [fold_left]; [now rewrite app_nil_r|]. rewrite (IH _ (l ++ [m])); [now rewrite <- app_assoc|]. cbn [dotted]. now rewrite H. }
  rewrite (D ns (EIdent (Ident no_com (start_pos x) n)) [n] eq_refl). cbn [app]. rewrite <- E. apply join_split.
Qed.

(** ** C91: set *)
Theorem C91_set : forall s attr args r, attr <> %"kind" -> exists r', cmdSet s attr args r = Changed r' /\ only attr r r' /\
  (** the place: the first definition, or the end *)
  ((exists pre c i p op b old post, r_args r = pre ++ EAssign c (EIdent i) p op b old :: post /\ i_name i = attr /\ no_attr attr pre /\ exists v, r_args r' = pre ++ EAssign c (EIdent i) p op b v :: post) \/
   no_attr attr (r_args r) /\ exists x v, r_args r' = r_args r ++ [x] /\ gives attr x v) /\
  (** what print shows afterwards *)
  (IsIntList (attr_types s) attr = true -> exists c p l en m, Attr attr (r_args r') = Some (EList c p l en m) /\ Forall2 (fun a x => exists c p, x = ELit c p a) args l) /\
  (IsIntList (attr_types s) attr = false -> IsList (attr_types s) attr = true -> (forall u, args <> [%"glob(" ++ u]) -> ~ In attr reserved -> exists ws, cmdPrint s [attr] r' = Some [FStrings ws] /\ Forall2 (stored s) args ws) /\
  (IsIntList (attr_types s) attr = false -> IsList (attr_types s) attr = false \/ (exists u, args = [%"glob(" ++ u]) ->
     (~ In attr reserved -> args = [] -> cmdPrint s [attr] r' = Some [Text %"None" false]) /\
     (~ In attr reserved -> forall a rest, args = a :: rest -> IsString (attr_types s) attr = false -> cmdPrint s [attr] r' = Some [Text a false]) /\
     (forall a rest, args = a :: rest -> IsString (attr_types s) attr = true -> exists w, stored s a w /\ (~ In attr reserved -> cmdPrint s [attr] r' = Some [Text w true]) /\ (attr = %"name" -> w <> [] -> Name s r' = w))).
Proof.
  intros s attr args r N. unfold cmdSet. rewrite (proj2 (beq_neq attr %"kind") N). eexists. split; [reflexivity|]. split; [apply only_set|].
  set (v := getAttrValueExpr s attr args). cbn [with_args r_args]. destruct (C33_get_set attr v (r_args r)) as (G & _).
  assert (Pr : ~ In attr reserved -> forall f, match v with ELit _ _ t => Some (Text t false) | EIdent i => Some (Text (i_name i) false) | EStr t => Some (Text (s_value t) true) | e => match Strings (Some v) with Some l => Some (FStrings l) | None => match FormatString e with Some t => Some (Text t false) | None => None end end end = Some f -> cmdPrint s [attr] (with_args (SetAttr attr v (r_args r)) r) = Some [f]).
  { intros Nr f E. unfold cmdPrint. cbn [all_fields]. rewrite print_attr; auto. unfold AttrStrings. cbn [with_args r_args]. rewrite G, E. reflexivity. }
  split; [|split; [|split]].
  - destruct (C33_set_place attr v (r_args r)) as [(pre & c & i & p & op & b & old & post & E & Ei & Np & E') | (Na & x & E & Gx)].
    + left. exists pre, c, i, p, op, b, old, post. split; auto. split; auto. split; auto. exists v. auto.
    + right. split; auto. exists x, v. auto.
  - intro Hi. rewrite G. unfold v, getAttrValueExpr. rewrite Hi. unfold new_list. do 5 eexists. split; [reflexivity|]. clear. induction args; cbn [map]; constructor; eauto.
  - intros Hi Hl Hg Nr. destruct (strings_stored s args) as (ws & E & F). exists ws. split; auto. apply Pr; auto.
    assert (Ev : v = new_list (map (getStringExpr s) args)).
    { unfold v, getAttrValueExpr. rewrite Hi, Hl. assert (Eg : is_glob args = false) by (destruct args as [|a [|b args]]; auto; cbn [is_glob]; destruct (has_prefix %"glob(" a) eqn:K; auto; apply has_prefix_spec in K as (u & ->); exfalso; now apply (Hg u)). now rewrite Eg. }
    rewrite Ev. unfold new_list. cbn [Strings]. now rewrite E.
  - intros Hi Hl. assert (Ev : v = match args with [] => new_ident_expr %"None" | a :: _ => if IsString (attr_types s) attr then getStringExpr s a else new_ident_expr a end).
    { unfold v, getAttrValueExpr. rewrite Hi. destruct Hl as [-> | (u & ->)]; [reflexivity|]. cbn [is_glob]. rewrite has_prefix_app, Bool.andb_false_r. reflexivity. }
    split; [|split].
    + intros Nr ->. apply Pr; auto. now rewrite Ev.
    + intros Nr a rest -> Hs. apply Pr; auto. rewrite Ev, Hs. reflexivity.
    + intros a rest -> Hs. destruct (string_stored s a) as (tr & w & Ew & Sw). exists w. rewrite Hs, Ew in Ev. split; auto. split.
      * intro Nr. apply Pr; auto. now rewrite Ev.
      * intros -> Nw. unfold Name, name_in_file, rule_name. cbn [with_args r_args r_x]. unfold AttrString. rewrite G, Ev. cbn [s_value]. destruct w; [contradiction|reflexivity].
Qed.
Print Assumptions C91_set.
Theorem C91_set_kind : forall s k rest r r', cmdSet s %"kind" (k :: rest) r = Changed r' -> r_args r' = r_args r /\ r_com r' = r_com r /\ cmdPrint s [%"kind"] r' = Some [Text k false].
Proof.
  intros s k rest r r' E. unfold cmdSet in E. rewrite beq_refl in E. injection E as <-. cbn [with_x r_args r_com]. split; auto. split; auto. unfold cmdPrint. cbn [all_fields]. unfold print_field. rewrite beq_refl. cbn [with_x r_x]. now rewrite kind_set.
Qed.
Theorem C91_set_if_absent : forall s attr args r, attr <> %"kind" ->
  (no_attr attr (r_args r) -> cmdSetIfAbsent s attr args r = cmdSet s attr args r) /\ (~ no_attr attr (r_args r) -> cmdSetIfAbsent s attr args r = Changed r).
Proof.
  intros s attr args r N. unfold cmdSetIfAbsent, cmdSet. rewrite (proj2 (beq_neq attr %"kind") N). rewrite no_attr_none. destruct (Attr attr (r_args r)); split; auto; intro H; try (now inversion H). exfalso. now apply H.
Qed.

(** ** C91: rename *)
Theorem C91_rename : forall old new r, old <> new ->
  (forall v, attr_is old (r_args r) v -> no_attr new (r_args r) -> exists r', cmdRename old new r = Changed r' /\
     (exists pre c i p op b post, r_args r = pre ++ EAssign c (EIdent i) p op b v :: post /\ i_name i = old /\ r_args r' = pre ++ EAssign c (EIdent (Ident (i_com i) (i_pos i) new)) p op b v :: post) /\
     attr_is new (r_args r') v /\ (forall k, k <> old -> k <> new -> Attr k (r_args r') = Attr k (r_args r)) /\ (once old (r_args r) -> no_attr old (r_args r'))) /\
  (no_attr old (r_args r) \/ ~ no_attr new (r_args r) -> cmdRename old new r = Error).
Proof.
  intros old new r N. unfold cmdRename. split.
  - intros v A B. apply attr_is_some in A. apply no_attr_none in B. destruct (C40_rename (r_args r) old new v A B N) as (l & -> & P & G & O & D). eexists. split; [reflexivity|]. cbn [with_args r_args]. split; auto. split; [now apply attr_is_some|]. split; auto. intro On. apply no_attr_none. auto.
  - intro H. assert (K : RenameAttribute (r_args r) old new = None); [|now rewrite K]. apply C40_rename_fails. destruct H as [H | H].
    + destruct (Attr new (r_args r)) eqn:E; [left; discriminate|right]. intros x I K. unfold attr_key in K. destruct x; try discriminate K. destruct x1; try discriminate K. injection K as K. apply (H _ x2 I). unfold gives. eauto 10.
    + left. intro K. apply H. now apply no_attr_none.
Qed.
Print Assumptions C91_rename.

(** ** C91: remove *)
Theorem C91_remove : forall attr r, attr <> %"*" ->
  (no_attr attr (r_args r) -> cmdRemoveAttr attr r = Unchanged) /\
  (forall pre x v post, r_args r = pre ++ x :: post -> gives attr x v -> no_attr attr pre -> exists r', cmdRemoveAttr attr r = Changed r' /\ r_args r' = pre ++ post /\ only attr r r' /\ (once attr (r_args r) -> no_attr attr (r_args r'))).
Proof.
  intros attr r N. unfold cmdRemoveAttr, del_attr. rewrite (proj2 (beq_neq attr %"*") N). cbn [fst snd]. split.
  - intro A. now rewrite DelAttr_absent.
  - intros pre x v post E G A. pose proof (C33_delete_absent attr (r_args r)) as D. pose proof (fun k => C33_delete_others attr (r_args r) k) as O. rewrite E in D, O. rewrite (DelAttr_existing _ _ _ _ _ G A) in D, O. rewrite E, (DelAttr_existing _ _ _ _ _ G A).
    eexists. split; [reflexivity|]. cbn [with_args r_args snd] in *. split; auto. split.
    + unfold only. cbn [with_args r_com r_x r_start r_end r_compact r_multi r_args]. repeat (apply conj; [reflexivity|]). rewrite E. exact O.
    + unfold once. intro On. apply no_attr_none, D, On.
Qed.
Print Assumptions C91_remove.
Definition kept (x : expr) : bool := match attr_key x with Some k => beq k %"name" | None => true end.
Lemma del_one key l : forall x v, In x l -> gives key x v -> exists pre y w post, l = pre ++ y :: post /\ gives key y w /\ no_attr key pre /\ DelAttr key l = (Some w, pre ++ post).
Proof.
  intros x v I G. destruct (C33_delete key l) as [(pre & y & w & post & E & Gy & A & D) | (A & D)]; [exists pre, y, w, post; auto|]. exfalso. now apply (A x v I).
Qed.
Lemma filter_same {A} (p : A -> bool) l : (forall x, In x l -> p x = true) -> filter p l = l.
Proof. induction l as [|x l IH]; intro H; auto. cbn [filter]. rewrite H by now left. f_equal. apply IH. intros y I. apply H. now right. Qed.
Lemma keys_app a b : AttrKeys (a ++ b) = AttrKeys a ++ AttrKeys b.
Proof. apply flat_map_app. Qed.
Lemma keys_in k l : In k (AttrKeys l) <-> exists x, In x l /\ attr_key x = Some k.
Proof.
  unfold AttrKeys. rewrite in_flat_map. split; intros (x & I & H); exists x; split; auto.
  - destruct (attr_key x); cbn [opt_list] in H; [destruct H as [-> | []]; auto|destruct H].
  - rewrite H. now left.
Qed.
Lemma gives_key key x v : gives key x v -> attr_key x = Some key.
Proof. intros (c & i & p & op & b & -> & <-). reflexivity. Qed.
Lemma key_gives key x : attr_key x = Some key -> exists v, gives key x v.
Proof. intro H. apply defines_spec. unfold defines. now rewrite H, beq_refl. Qed.
(** The loop deletes one definition for each key in the list, so when the keys are those in the arguments (with repetitions), all go. *)
Lemma remove_loop_spec : forall keys done l, (forall k, k <> %"name" -> List.length (filter (fun x => beq x k) (AttrKeys l)) = List.length (filter (fun x => beq x k) keys)) ->
  let st := fold_left (fun st key => if beq key %"name" then st else del_attr key st) keys (done, l) in
  snd st = filter kept l /\ fst st = (done || existsb (fun x => negb (kept x)) l)%bool.
Proof.
  induction keys as [|k keys IH]; intros done l H; cbn [fold_left].
  - cbn [fst snd]. assert (K : forall x, In x l -> kept x = true).
    { intros x I. unfold kept. destruct (attr_key x) as [k|] eqn:E; auto. destruct (beq k %"name") eqn:B; auto. apply beq_neq in B. specialize (H k B). cbn [filter List.length] in H. exfalso.
      assert (In k (filter (fun y => beq y k) (AttrKeys l))) as J by (apply filter_In; split; [apply keys_in; eauto|apply beq_refl]). destruct (filter (fun y => beq y k) (AttrKeys l)); [destruct J|discriminate H]. }
    split; [now rewrite filter_same|]. assert (E : existsb (fun x => negb (kept x)) l = false) by (apply Bool.not_true_iff_false; intro X; apply existsb_exists in X as (x & I & X); rewrite K in X; auto; discriminate X). now rewrite E, Bool.orb_false_r.
  - destruct (beq k %"name") eqn:B.
    + apply IH. intros k' N. rewrite (H k' N). cbn [filter]. apply beq_eq in B as ->. now rewrite (proj2 (beq_neq %"name" k') (not_eq_sym N)).
    + apply beq_neq in B. assert (I : In k (AttrKeys l)).
      { specialize (H k B). cbn [filter] in H. rewrite beq_refl in H. cbn [List.length] in H. destruct (filter (fun x => beq x k) (AttrKeys l)) as [|y f] eqn:E; [discriminate H|]. assert (J : In y (filter (fun x => beq x k) (AttrKeys l))) by (rewrite E; now left). apply filter_In in J as (J & Ey). apply beq_eq in Ey as ->. auto. }
      apply keys_in in I as (x & I & Kx). destruct (key_gives k x Kx) as (v & G). destruct (del_one k l x v I G) as (pre & y & w & post & -> & Gy & A & D).
      assert (Ed : del_attr k (done, pre ++ y :: post) = (true, pre ++ post)) by (unfold del_attr; cbn [snd]; now rewrite D). rewrite Ed. pose proof (gives_key k y w Gy) as Ky.
      assert (Hk : kept y = false) by (unfold kept; rewrite Ky; now apply beq_neq).
      destruct (IH true (pre ++ post)) as (E1 & E2).
      * intros k' N. specialize (H k' N). rewrite keys_app in H |- *. change (AttrKeys (y :: post)) with (opt_list (fun z => z) (attr_key y) ++ AttrKeys post) in H. rewrite Ky in H. cbn [opt_list app] in H. rewrite !filter_app, !app_length in H |- *. cbn [filter] in H. destruct (beq k k'); cbn [List.length] in H; lia.
      * split; [rewrite E1, !filter_app; cbn [filter]; now rewrite Hk|]. rewrite E2, !existsb_app. cbn [existsb]. rewrite Hk. cbn [negb orb]. now rewrite !Bool.orb_true_r.
Qed.
(** "remove *" removes all attributes but the name *)
Theorem C91_remove_all : forall r,
  match cmdRemoveAttr %"*" r with
  | Changed r' => r_args r' = filter kept (r_args r) /\ r_x r' = r_x r /\ (exists k, k <> %"name" /\ ~ no_attr k (r_args r)) /\ (forall k, k <> %"name" -> no_attr k (r_args r')) /\ Attr %"name" (r_args r') = Attr %"name" (r_args r)
  | Unchanged => forall k, k <> %"name" -> no_attr k (r_args r)
  | _ => False
  end.
Proof.
  intro r. unfold cmdRemoveAttr. rewrite beq_refl. destruct (remove_loop_spec (AttrKeys (r_args r)) false (r_args r)) as (E1 & E2); [auto|].
  destruct (fold_left _ _ _) as [did l]. cbn [fst snd] in E1, E2. cbn [orb] in E2. subst did l.
  assert (Kn : forall k x v, k <> %"name" -> In x (filter kept (r_args r)) -> ~ gives k x v). { intros k x v N I G. apply filter_In in I as (_ & K). unfold kept in K. rewrite (gives_key k x v G) in K. apply beq_eq in K. contradiction. }
  destruct (existsb _ (r_args r)) eqn:E.
  - apply existsb_exists in E as (x & I & K). cbn [with_args r_args r_x]. split; auto. split; auto. split; [|split].
    + unfold kept in K. destruct (attr_key x) as [k|] eqn:Ek; [|discriminate K]. apply Bool.negb_true_iff, beq_neq in K. exists k. split; auto. destruct (key_gives k x Ek) as (v & G). intro A. now apply (A x v).
    + intros k N y v J G. now apply (Kn k y v N J).
    + unfold Attr, AttrDefn. clear. induction (r_args r) as [|x l IH]; auto. cbn [filter find]. unfold kept at 1. unfold defines at 2. destruct (attr_key x) as [k|] eqn:Ek; [|cbn [find]; unfold defines at 1; rewrite Ek; exact IH]. destruct (beq k %"name") eqn:B; [|exact IH]. cbn [find]. unfold defines at 1. now rewrite Ek, B.
  - intros k N x v I G. assert (K : existsb (fun x => negb (kept x)) (r_args r) = true); [|rewrite K in E; discriminate E]. apply existsb_exists. exists x. split; auto. unfold kept. rewrite (gives_key k x v G). now rewrite (proj2 (beq_neq k %"name") N).
Qed.
Print Assumptions C91_remove_all.
(** remove_if_equal *)
Definition equals (s : setting) (val : bytes) (e : expr) : Prop :=
  (exists t, e = EStr t /\ parse_relative (s_value t) (pkg s) = parse_relative val (pkg s)) \/ (exists i, e = EIdent i /\ i_name i = val).
Theorem C91_remove_if_equal : forall s attr val r, attr <> %"*" ->
  (forall e, attr_is attr (r_args r) e -> equals s val e -> cmdRemoveIfEqual s attr val r = cmdRemoveAttr attr r /\ cmdRemoveAttr attr r <> Unchanged) /\
  ((forall e, attr_is attr (r_args r) e -> ~ equals s val e) -> cmdRemoveIfEqual s attr val r = Unchanged).
Proof.
  intros s attr val r N. unfold cmdRemoveIfEqual, cmdRemoveAttr, del_attr. rewrite (proj2 (beq_neq attr %"*") N). cbn [fst snd].
  assert (Le : forall t, labels_equal (s_value t) val (pkg s) = true <-> parse_relative (s_value t) (pkg s) = parse_relative val (pkg s)) by (intro t; unfold labels_equal; apply label_eqb_eq).
  split.
  - intros e A Q. pose proof A as A'. apply attr_is_some in A. rewrite A. apply attr_is_split in A' as (pre & x & post & -> & G & Np). rewrite (DelAttr_existing _ _ _ _ _ G Np). cbn [snd]. destruct Q as [(t & -> & Q) | (i & -> & Q)]; [rewrite (proj2 (Le t) Q)|rewrite Q, beq_refl]; (split; [reflexivity|discriminate]).
  - intro Q. destruct (Attr attr (r_args r)) as [e|] eqn:A; auto. apply attr_is_some in A. specialize (Q e A). destruct e; auto.
    + destruct (beq (i_name i) val) eqn:E; auto. exfalso. apply Q. right. exists i. split; auto. now apply beq_eq.
    + destruct (labels_equal (s_value s0) val (pkg s)) eqn:E; auto. exfalso. apply Q. left. exists s0. split; auto. now apply Le.
Qed.
Print Assumptions C91_remove_if_equal.
(** An attribute that is defined twice is not removed: its other definition takes effect. *)
Definition ex_call (args : list expr) : rule := Rule no_com (EIdent (Ident no_com no_pos %"r")) (Pos 3 1 30) args (End no_com (Pos 5 1 60)) false false.
Definition arg_of (k : bytes) (v : expr) : expr := EAssign no_com (EIdent (Ident no_com no_pos k)) no_pos %"=" false v.
Theorem C91_remove_refuted : exists attr r r', cmdRemoveAttr attr r = Changed r' /\ ~ no_attr attr (r_args r').
Proof.
  exists %"a", (ex_call [arg_of %"a" (num %"1"); arg_of %"a" (num %"2")]). eexists. split; [vm_compute; reflexivity|]. intro A. apply (A (arg_of %"a" (num %"2")) (num %"2")); [now left|]. unfold gives, arg_of. do 5 eexists. split; reflexivity.
Qed.

(** ** C91: remove values *)
(** An attribute made of lists and of selects between lists *)
Definition lists_only (p : part) : Prop :=
  match p with PList _ => True | PSelect bs _ => Forall (fun b => exists c s l en m, snd b = EList c s l en m) bs | POther _ => False end.
Definition configured (choose : list expr -> option nat) (e : expr) : option (list expr) := value choose (fun _ => None) e.
Definition removed_by (s : setting) (vals : list bytes) (x : expr) : Prop := exists a item, In a vals /\ means a item /\ removable (dwc s) item (pkg s) x.

Lemma means_item v : exists t, means v t /\ ((snd (unquote v) = None /\ t = fst (fst (unquote v))) \/ (snd (unquote v) <> None /\ t = v)).
Proof.
  unfold means. destruct (unquote v) as [[u tr] [e|]] eqn:E; cbn [fst snd].
  - exists v. split; [right; split; auto; intros; intro K; inversion K|right; split; [discriminate|reflexivity]].
  - exists u. split; [left; eauto|left; auto].
Qed.
Lemma lists_only_changed (R S : list expr -> list expr -> Prop) e e' : lists_changed R S e e' -> Forall lists_only (parts e) -> Forall lists_only (parts e').
Proof.
  intros H F. apply parts_changed in H. induction H as [|p p' l l' Hp H IH]; constructor; inversion F; subst; auto. clear IH H.
  destruct p, p'; try contradiction; cbn [lists_only] in *; auto. destruct Hp as (_ & Hp). rename H2 into Fb. clear -Hp Fb. induction Hp as [|x x' l l' Hx H IH]; constructor; inversion Fb; subst; auto.
  destruct Hx as (_ & [(c & s & a & a' & en & m & _ & -> & _) | (-> & N)]); eauto 7.
Qed.
Lemma value_changed choose (P : expr -> Prop) e e' : lists_changed (without P) (without P) e e' -> Forall lists_only (parts e) -> forall v, configured choose e = Some v -> exists v', configured choose e' = Some v' /\ without P v v'.
Proof.
  intros H. induction H as [c s l l' en m H|c x x' p b y y' H1 IH1 H2 IH2|c i p dc ds kvs kvs' de dm rest en k m Ei F|e E]; intros L v V.
  - cbn in V |- *. injection V as <-. eauto.
  - unfold configured in *. cbn [parts] in L. cbn [value] in V |- *. rewrite beq_refl in *. apply Forall_app in L as (L1 & L2). destruct (value choose (fun _ => None) x) as [a|]; [|discriminate V]. destruct (value choose (fun _ => None) y) as [a'|]; [|discriminate V]. injection V as <-.
    destruct (IH1 L1 a eq_refl) as (v1 & -> & W1). destruct (IH2 L2 a' eq_refl) as (v2 & -> & W2). eexists. split; [reflexivity|]. now apply without_app.
  - unfold configured in *. cbn [parts] in L. cbn [value] in V |- *. unfold select_name in *. rewrite Ei, beq_refl in *. apply Forall_inv in L. cbn [lists_only] in L.
    assert (K : map fst (entries kvs') = map fst (entries kvs)). { clear V L. induction F as [|kv kv' kvs kvs' B F IH]; auto. unfold entries in *. cbn [flat_map]. rewrite !map_app, IH. f_equal. inversion B; subst; auto. }
    rewrite K. destruct (choose (map fst (entries kvs))) as [n|]; [|discriminate V]. clear K. revert n V. induction F as [|kv kv' kvs kvs' B F IH]; intros n V; [destruct n; discriminate V|].
    unfold entries in L. cbn [flat_map] in L. apply Forall_app in L as (L1 & L2). destruct n as [|n]; cbn [map nth_error] in V |- *; [|now apply IH].
    destruct kv; try discriminate V. apply Forall_inv in L1. destruct L1 as (c9 & s & l & en0 & m0 & El). cbn [snd] in El. subst. inversion B; subst.
    + cbn [value] in V |- *. injection V as <-. eauto.
    + exfalso. eapply H; eauto.
  - exfalso. rewrite E in L. apply Forall_inv in L. exact L.
Qed.
Lemma without_trans {A} (P Q : A -> Prop) a b c : without P a b -> without Q b c -> without (fun x => P x \/ Q x) a c.
Proof.
  intro H. revert c. induction H as [|x l l' Px H IH|x l l' Px H IH]; intros c W.
  - inversion W; subst. constructor.
  - apply wo_drop; auto.
  - inversion W; subst; [apply wo_drop|apply wo_keep]; auto. tauto.
Qed.
Lemma without_iff {A} (P Q : A -> Prop) a b : (forall x, P x <-> Q x) -> without P a b -> without Q a b.
Proof. intros E H. induction H as [|x l l' Px H IH|x l l' Px H IH]; [constructor|apply wo_drop|apply wo_keep]; auto; rewrite <- E; auto. Qed.
Lemma keys_set attr v l w : Attr attr l = Some w -> AttrKeys (SetAttr attr v l) = AttrKeys l.
Proof.
  intro A. apply attr_is_some, attr_is_split in A as (pre & x & post & -> & G & N). rewrite (SetAttr_existing attr v pre x post w G N), !keys_app. f_equal. destruct G as (c & i & p & op & b & -> & Ei). reflexivity.
Qed.
Lemma with_args_same r : with_args (r_args r) r = r.
Proof. now destruct r. Qed.
Lemma once_absent attr l : once attr l -> Attr attr (snd (DelAttr attr l)) = None.
Proof. intro O. now apply C33_delete_absent. Qed.
Definition state_ok (s : setting) attr (choose : list expr -> option nat) (v : list expr) (P : expr -> Prop) (l0 l : list expr) : Prop :=
  (forall k, k <> attr -> Attr k l = Attr k l0) /\
  match Attr attr l with
  | Some e => once attr l /\ Forall lists_only (parts e) /\ exists v', configured choose e = Some v' /\ without P v v'
  | None => without P v []
  end.
Lemma none_left {A} (P : A -> Prop) v : without P v [] <-> forall x, In x v -> P x.
Proof.
  split.
  - induction v as [|y v IH]; intros W x I; [destruct I|]. inversion W; subst. destruct I as [<- | I]; auto.
  - induction v as [|y v IH]; intro H; [constructor|]. apply wo_drop; [apply H; now left|]. apply IH. intros x I. apply H. now right.
Qed.
Lemma delete_step s attr choose v P l0 l a t : means a t -> ((snd (unquote a) = None /\ t = fst (fst (unquote a))) \/ (snd (unquote a) <> None /\ t = a)) ->
  state_ok s attr choose v P l0 l -> state_ok s attr choose v (fun x => P x \/ removable (dwc s) t (pkg s) x) l0 (snd (ListAttributeDelete (dwc s) l attr a (pkg s))).
Proof.
  intros M U (O & St). pose proof (C36_attribute (dwc s) l attr a (pkg s)) as H. destruct (ListAttributeDelete (dwc s) l attr a (pkg s)) as [d l']. cbn [snd]. unfold state_ok. destruct (Attr attr l) as [e|] eqn:A.
  - destruct St as (On & L & v' & V & W). pose proof (C36_delete (dwc s) e a t (pkg s) U) as D. destruct (ListDelete (dwc s) e a (pkg s)) as [d' e']. destruct D as (C & _). destruct H as (_ & Ok & Pl).
    destruct (value_changed choose _ e e' C L v' V) as (v2 & V2 & W2). pose proof (without_trans _ _ _ _ _ W W2) as W3. split; [intros k N; rewrite Ok; auto|].
    destruct Pl as [((c & p & en & m & ->) & _ & ->) | (_ & ->)].
    + rewrite once_absent; auto. cbn in V2. injection V2 as <-. exact W3.
    + rewrite (proj1 (C33_get_set attr e' l)). split; [unfold once; now rewrite (keys_set attr e' l e A)|]. split; [now apply (lists_only_changed _ _ _ _ C)|]. eauto.
  - destruct H as (_ & ->). split; auto. rewrite A. apply none_left. intros x I. left. rewrite none_left in St. auto.
Qed.
Lemma delete_steps s attr choose v l0 : forall vals P l, state_ok s attr choose v P l0 l ->
  state_ok s attr choose v (fun x => P x \/ removed_by s vals x) l0 (fold_left (fun l a => snd (ListAttributeDelete (dwc s) l attr a (pkg s))) vals l).
Proof.
  assert (Mono : forall P Q l, (forall x, P x <-> Q x) -> state_ok s attr choose v P l0 l -> state_ok s attr choose v Q l0 l).
  { intros P Q l E (O & St). split; auto. destruct (Attr attr l).
    - destruct St as (On & L & v' & V & W). split; auto. split; auto. exists v'. split; auto. now apply (without_iff P Q).
    - now apply (without_iff P Q). }
  assert (Mu : forall a t t', means a t -> means a t' -> t = t').
  { intros a t t' [(tr & E) | (N & ->)] [(tr' & E') | (N' & ->)]; auto; [congruence|exfalso; now apply (N' _ _ E)|exfalso; now apply (N _ _ E')]. }
  induction vals as [|a vals IH]; intros P l St; cbn [fold_left].
  - eapply Mono; [|exact St]. intro x. split; [tauto|]. intros [H | (a & t & [] & _)]. exact H.
  - destruct (means_item a) as (t & M & U). eapply Mono; [|apply IH, (delete_step s attr choose v P l0 l a t M U St)]. intro x. cbn beta. unfold removed_by. split.
    + intros [[H | H] | (b & t' & I & H)]; [auto|right; exists a, t; split; [now left|auto]|right; exists b, t'; split; [now right|auto]].
    + intros [H | (b & t' & [<- | I] & H & R)]; [auto| |right; exists b, t'; auto]. left. right. rewrite (Mu a t t'); auto.
Qed.
Theorem C91_remove_values : forall s attr vals r e choose v, attr <> %"*" -> vals <> [] -> once attr (r_args r) -> attr_is attr (r_args r) e -> Forall lists_only (parts e) -> configured choose e = Some v ->
  exists r' v1, cmdRemoveValues s attr vals r = Changed r' /\ only attr r r' /\
    without (removed_by s vals) v v1 /\
    match Attr attr (r_args r') with
    | Some e' => (forall c p en m, e' <> EList c p [] en m) /\ exists v', configured choose e' = Some v' /\ same_labels (pkg s) v1 v'
    | None => v1 = []
    end.
Proof.
  intros s attr vals r e choose v N Nv On A L V. apply attr_is_some in A. unfold cmdRemoveValues, attrKeysForPattern. rewrite (proj2 (beq_neq attr %"*") N). destruct vals as [|a0 vals0]; [contradiction|]. set (vals := a0 :: vals0). clearbody vals. cbn [fold_left]. clear a0 vals0 Nv.
  assert (S0 : state_ok s attr choose v (fun _ => False) (r_args r) (r_args r)).
  { split; auto. rewrite A. split; auto. split; auto. exists v. split; auto. clear. induction v; [constructor|apply wo_keep; auto]. }
  pose proof (delete_steps s attr choose v (r_args r) vals _ _ S0) as (O1 & S1). unfold remove_values. set (l1 := fold_left _ vals (r_args r)) in *.
  assert (S2 : match Attr attr l1 with Some e1 => once attr l1 /\ Forall lists_only (parts e1) /\ exists v', configured choose e1 = Some v' /\ without (removed_by s vals) v v' | None => without (removed_by s vals) v [] end).
  { destruct (Attr attr l1); [destruct S1 as (B1 & B2 & v' & B3 & B4); split; auto; split; auto; exists v'; split; auto; eapply without_iff; [|exact B4]; cbn beta; tauto|eapply without_iff; [|exact S1]; cbn beta; tauto]. }
  clear S1. unfold ResolveAttr. destruct (Attr attr l1) as [e1|] eqn:A1.
  - destruct S2 as (On1 & L1 & v1 & V1 & W1). eexists. exists v1. split; [reflexivity|].
    destruct (C39_resolve (dwc s) l1 attr (pkg s) e1 choose (fun _ => None) v1 A1 V1) as (e2 & v2 & A2 & V2 & Sm). unfold ResolveAttr in A2. rewrite A1 in A2. rewrite (proj1 (C33_get_set attr _ l1)) in A2. injection A2 as A2. rewrite (proj1 (C33_get_set attr _ l1)), A2.
    assert (Ok : forall k, k <> attr -> Attr k (SetAttr attr e2 l1) = Attr k (r_args r)) by (intros k Nk; rewrite <- (O1 k Nk); now apply C33_get_set).
    assert (On2 : once attr (SetAttr attr e2 l1)) by (unfold once; now rewrite (keys_set attr e2 l1 e1 A1)).
    assert (Only : forall l, (forall k, k <> attr -> Attr k l = Attr k (r_args r)) -> only attr r (with_args l r)).
    { intros l H. unfold only. cbn [with_args r_com r_x r_start r_end r_compact r_multi r_args]. repeat (apply conj; [reflexivity|]). exact H. }
    assert (E : (exists c p en m, e2 = EList c p [] en m) \/ (forall c p en m, e2 <> EList c p [] en m)).
    { destruct e2; try (right; intros; discriminate). destruct l; [left; eauto 6|right; intros; discriminate]. }
    destruct E as [(c & p & en & m & ->) | E].
    + split; [|split; auto].
      * apply Only. intros k Nk. rewrite C33_delete_others; auto.
      * cbn [with_args r_args]. rewrite once_absent; auto. cbn in V2. injection V2 as <-. destruct Sm as (Cv & _). destruct v1 as [|x v1]; auto. exfalso. destruct (Cv x (or_introl eq_refl)) as [[] | (t & _ & y & [] & _)].
    + replace (match e2 with EList _ _ [] _ _ => _ | _ => _ end) with (SetAttr attr e2 l1) by (destruct e2; auto; destruct l; auto; exfalso; eapply E; eauto).
      split; [now apply Only|]. split; auto. cbn [with_args r_args]. rewrite (proj1 (C33_get_set attr _ l1)). split; auto. exists v2. split; auto.
  - eexists. exists []. split; [reflexivity|]. rewrite A1. cbn [with_args r_args]. rewrite A1. split; [|split; auto].
    unfold only. cbn [with_args r_com r_x r_start r_end r_compact r_multi r_args]. repeat (apply conj; [reflexivity|]). exact O1.
Qed.
Print Assumptions C91_remove_values.

(** ** C91: replace *)
Lemma getStringValue_means v : means v (getStringValue v).
Proof. unfold means, getStringValue. destruct (unquote v) as [[u tr] [e|]]; [right; split; auto; intros; intro K; inversion K|left; eauto]. Qed.
Theorem C91_replace : forall s attr old new o n r, attr <> %"*" -> means old o -> means new n ->
  (** no attribute: nothing is done, and no error *)
  (no_attr attr (r_args r) -> cmdReplace s attr old new r = Changed r) /\
  (** a string: it is compared as a whole, and set *)
  (forall t, attr_is attr (r_args r) (EStr t) -> parse_relative (s_value t) (pkg s) <> parse_relative o (pkg s) -> cmdReplace s attr old new r = Changed r) /\
  (forall t, attr_is attr (r_args r) (EStr t) -> parse_relative (s_value t) (pkg s) = parse_relative o (pkg s) -> attr <> %"kind" -> cmdReplace s attr old new r = cmdSet s attr [n] r) /\
  (** a list: the elements that are the old label *)
  (forall e, attr_is attr (r_args r) e -> (forall t, e <> EStr t) -> Forall simple_select (parts e) -> exists r' e', cmdReplace s attr old new r = Changed r' /\ only attr r r' /\ attr_is attr (r_args r') e' /\
     let R := replaced (spells o (pkg s)) (new_text (label_for (short s) n (pkg s))) in lists_changed R R e e').
Proof.
  intros s attr old new o n r N Mo Mn.
  assert (Mu : forall a t, means a t -> getStringValue a = t). { intros a t M. pose proof (getStringValue_means a) as M'. destruct M as [(tr & E) | (Nu & ->)], M' as [(tr' & E') | (Nu' & E')]; auto; [congruence|exfalso; now apply (Nu' _ _ E)|exfalso; now apply (Nu _ _ E')]. }
  unfold cmdReplace, attrKeysForPattern. rewrite (proj2 (beq_neq attr %"*") N), (Mu old o Mo), (Mu new n Mn). cbn [fold_left replace_value]. split; [|split; [|split]].
  - intro A. apply no_attr_none in A. rewrite A. now rewrite with_args_same.
  - intros t A D. apply attr_is_some in A. rewrite A. destruct (labels_equal (s_value t) o (pkg s)) eqn:E; [exfalso; apply D; now apply label_eqb_eq|]. now rewrite with_args_same.
  - intros t A D K. apply attr_is_some in A. rewrite A. assert (E : labels_equal (s_value t) o (pkg s) = true) by now apply label_eqb_eq. rewrite E. unfold cmdSet. now rewrite (proj2 (beq_neq attr %"kind") K).
  - intros e A Ns Sm. apply attr_is_some in A. rewrite A. pose proof (C37_replace_partial (short s) e o n (pkg s) Sm) as H. destruct (ListReplace (short s) e o n (pkg s)) as [d e'] eqn:El. destruct H as (H & _).
    exists (with_args (SetAttr attr e' (r_args r)) r), e'. split; [destruct e; try reflexivity; exfalso; eapply Ns; reflexivity|]. split; [apply only_set|]. cbn [with_args r_args]. split; [apply attr_is_some, C33_get_set|exact H].
Qed.
Print Assumptions C91_replace.
(** An attribute called "kind" is not set: its value is replaced by nothing, and the file cannot be printed. *)
Theorem C91_replace_refuted : exists s attr old new r t, attr_is attr (r_args r) (EStr t) /\ s_value t = old /\ cmdReplace s attr old new r = Panic.
Proof.
  exists (Setting %"p/BUILD" [] %"p" (Types (fun _ => false) (fun _ => false) (fun _ => false)) true true), %"kind", %"x", %"y", (ex_call [arg_of %"kind" (str %"x")]). eexists. split; [|split].
  - apply attr_is_some. vm_compute. reflexivity.
  - reflexivity.
  - vm_compute. reflexivity.
Qed.

(** ** C91: print *)
Definition place (s : setting) : option bytes := dir_name (file_path s).
Lemma kind_shown k x : k <> [] -> (kind_of x = k <-> has_kind x k).
Proof. intro N. unfold has_kind. symmetry. now apply kind_spec. Qed.
Theorem C91_print : forall s r,
  (** the words with a meaning *)
  cmdPrint s [] r = cmdPrint s [%"name"; %"kind"] r /\
  (forall n, name_is (place s) (stmts s) (r_x r) (r_args r) n -> cmdPrint s [%"name"] r = Some [Text n false]) /\
  (forall k, k <> [] -> has_kind (r_x r) k -> cmdPrint s [%"kind"] r = Some [Text k false]) /\
  (forall n, name_is (place s) (stmts s) (r_x r) (r_args r) n -> n <> [] -> ~ In c_colon (pkg s) -> exists t, cmdPrint s [%"label"] r = Some [Text t false] /\ parse t = Label [] (pkg s) n) /\
  (name_is (place s) (stmts s) (r_x r) (r_args r) [] -> cmdPrint s [%"label"] r = None) /\
  (exists l, cmdPrint s [%"attrs"] r = Some [FStrings l] /\ forall k, In k l <-> ~ no_attr k (r_args r)) /\
  cmdPrint s [%"startline"; %"endline"; %"path"] r = Some [Number (p_line (r_start r)); Number (p_line (e_pos (r_end r))); Text (file_path s) false] /\
  (** and all others: the attributes *)
  (forall attr, ~ In attr reserved ->
    (no_attr attr (r_args r) -> cmdPrint s [attr] r = Some [FMissing]) /\
    (forall t, attr_is attr (r_args r) (EStr t) -> cmdPrint s [attr] r = Some [Text (s_value t) true]) /\
    (forall i, attr_is attr (r_args r) (EIdent i) -> cmdPrint s [attr] r = Some [Text (i_name i) false]) /\
    (forall c p n, attr_is attr (r_args r) (ELit c p n) -> cmdPrint s [attr] r = Some [Text n false]) /\
    (forall c p l en m ts, attr_is attr (r_args r) (EList c p (map EStr ts) en m) -> l = map s_value ts -> cmdPrint s [attr] r = Some [FStrings l])) /\
  (** one field for each word *)
  (forall args fs, args <> [] -> cmdPrint s args r = Some fs <-> Forall2 (fun a f => cmdPrint s [a] r = Some [f]) args fs).
Proof.
  intros s r.
  assert (One : forall a f, print_field s r a = Some f <-> cmdPrint s [a] r = Some [f]).
  { intros a f. unfold cmdPrint. cbn [all_fields]. destruct (print_field s r a) as [g|]; split; intro H; try discriminate H; injection H as ->; reflexivity. }
  split; [reflexivity|]. split; [|split; [|split; [|split; [|split; [|split; [|split]]]]]].
  - intros n Hn. apply One. unfold print_field. change (beq %"name" %"kind") with false. rewrite beq_refl. cbv iota. do 2 f_equal. apply name_in_file_is. exact Hn.
  - intros k Nk Hk. apply One. unfold print_field. rewrite beq_refl. do 2 f_equal. now apply kind_shown.
  - intros n Hn Nn Cn. apply name_in_file_is in Hn. exists (format (Label [] (pkg s) n)). split.
    + apply One. unfold print_field. change (beq %"label" %"kind") with false. change (beq %"label" %"name") with false. rewrite beq_refl. cbv iota. unfold Name. rewrite Hn. rewrite (proj2 (beq_neq n []) Nn). reflexivity.
    + apply C06_parse_format; cbn [repository package Labels.target]; auto.
  - intro Hn. apply name_in_file_is in Hn. unfold cmdPrint. cbn [all_fields]. unfold print_field. change (beq %"label" %"kind") with false. change (beq %"label" %"name") with false. rewrite beq_refl. cbv iota. unfold Name. rewrite Hn. reflexivity.
  - exists (AttrKeys (r_args r)). split; [reflexivity|]. intro k. rewrite keys_in. split.
    + intros (x & I & K) A. destruct (key_gives k x K) as (v & G). now apply (A x v).
    + intro A. destruct (Attr k (r_args r)) as [v|] eqn:E; [|exfalso; apply A; now apply no_attr_none]. apply attr_is_some, attr_is_split in E as (pre & x & post & -> & G & _). exists x. split; [apply in_app_iff; right; now left|now apply (gives_key k x v)].
  - reflexivity.
  - intros attr Nr. split; [|split; [|split; [|split]]].
    + intro A. apply One. rewrite print_attr; auto. apply no_attr_none in A. now rewrite A.
    + intros t A. apply One. rewrite print_attr; auto. apply attr_is_some in A. now rewrite A.
    + intros i A. apply One. rewrite print_attr; auto. apply attr_is_some in A. now rewrite A.
    + intros c p n A. apply One. rewrite print_attr; auto. apply attr_is_some in A. now rewrite A.
    + intros c p l en m ts A ->. apply One. rewrite print_attr; auto. apply attr_is_some in A. unfold AttrStrings. rewrite A. cbn [Strings].
      assert (E : all_strings (map EStr ts) = Some (map s_value ts)) by (clear; induction ts as [|t ts IH]; auto; cbn [map all_strings]; rewrite IH; reflexivity). now rewrite E.
  - intros args fs Na. unfold cmdPrint at 1. replace (match args with [] => [%"name"; %"kind"] | _ => args end) with args by (destruct args; auto; contradiction). clear Na. revert fs. induction args as [|a args IH]; intro fs; cbn [all_fields].
    + split; [intro H; injection H as <-; constructor|intro H; inversion H; reflexivity].
    + split.
      * destruct (print_field s r a) as [f|] eqn:E; [|discriminate]. destruct (all_fields s r args) as [fs'|] eqn:E'; [|discriminate]. intro H. injection H as <-. constructor; [now apply One|now apply IH].
      * intro H. inversion H as [|? f ? fs' Hf Hfs]; subst. apply One in Hf. apply IH in Hfs. now rewrite Hf, Hfs.
Qed.
Print Assumptions C91_print.
(** The columns of the output can be told apart, when the texts have no spaces and no text but a quoted one is empty ... *)
Definition no_space (b : bytes) : Prop := ~ In c_sp b.
Theorem C91_columns : forall quoted itoa fs, fs <> [] -> (forall n, no_space (itoa n)) -> Forall (fun f => match f with Text t _ => no_space t | FStrings l => List.length l <= 1 /\ Forall no_space l | _ => True end) fs ->
  exists line, printRecord quoted itoa fs = line ++ [c_nl] /\ split c_sp line = map (print_one quoted itoa) fs.
Proof.
  intros quoted itoa fs Nf Ni F. exists (join [c_sp] (map (print_one quoted itoa) fs)). split; [reflexivity|]. apply split_join; [destruct fs; [contradiction|discriminate]|].
  apply Forall_map. eapply Forall_impl; [|exact F]. intros f H. destruct f as [t q|n| |l]; cbn [print_one].
  - destruct (q && contains_byte c_sp t)%bool eqn:E; [|exact H]. exfalso. apply Bool.andb_true_iff in E as (_ & E). apply H. unfold contains_byte in E. apply existsb_exists in E as (x & I & Ex). unfold ceq in Ex. apply Ascii.eqb_eq in Ex as <-. exact I.
  - apply Ni.
  - vm_compute. intuition discriminate.
  - destruct H as (Hl & H). destruct l as [|x [|y l]]; [| |cbn [List.length] in Hl; lia].
    + vm_compute. intuition discriminate.
    + cbn [join]. apply Forall_inv in H. intro I. apply in_app_iff in I as [[I | []] | I]; [discriminate I|]. apply in_app_iff in I as [I | [I | []]]; [contradiction|discriminate I].
Qed.
Print Assumptions C91_columns.
(** ... but not otherwise: these outputs say different things with the same text. *)
Theorem C91_columns_refuted : forall quoted itoa,
  printRecord quoted itoa [FStrings [%"a b"]] = printRecord quoted itoa [FStrings [%"a"; %"b"]] /\
  printRecord quoted itoa [Text %"(missing)" true] = printRecord quoted itoa [FMissing] /\
  printRecord quoted itoa [Text %"[a]" true] = printRecord quoted itoa [FStrings [%"a"]].
Proof. intros. repeat split. Qed.
(** An attribute with one of the names that have a meaning is not shown. *)
Theorem C91_print_refuted : exists s r t, attr_is %"path" (r_args r) (EStr t) /\ cmdPrint s [%"path"] r <> Some [Text (s_value t) true] /\ exists f, cmdPrint s [%"path"] r = Some [f] /\ f <> Text (s_value t) false.
Proof.
  exists (Setting %"p/BUILD" [] %"p" (Types (fun _ => false) (fun _ => false) (fun _ => false)) true true), (ex_call [arg_of %"path" (str %"x")]). eexists. split; [apply attr_is_some; vm_compute; reflexivity|]. split; [intro H; vm_compute in H; discriminate H|]. eexists. split; [vm_compute; reflexivity|]. intro H. vm_compute in H. discriminate H.
Qed.

Definition ex_setting : setting := Setting %"p/BUILD" [] %"p" (Types (beq %"deps") (beq %"shards") (fun a => beq a %"name" || beq a %"out")%bool) true true.
Definition ex_rule : rule := ex_call [arg_of %"name" (str %"n"); arg_of %"deps" (lst [str %":a"; str %"//q:b"; str %"//p:c"]); arg_of %"out" (str %":o"); arg_of %"x" (new_ident_expr %"True")].
Example C91_nontrivial :
  (exists r', cmdSet ex_setting %"deps" [%"//p:z"; %"//q:w"] ex_rule = Changed r' /\ cmdPrint ex_setting [%"deps"; %"out"; %"none"; %"label"] r' = Some [FStrings [%":z"; %"//q:w"]; Text %":o" true; FMissing; Text %"//p:n" false]) /\
  (exists r', cmdRemoveValues ex_setting %"deps" [%"//p:a"; %":c"] ex_rule = Changed r' /\ cmdPrint ex_setting [%"deps"] r' = Some [FStrings [%"//q:b"]]) /\
  (exists r', cmdRemoveValues ex_setting %"deps" [%"//p:a"; %":c"; %"//q:b"] ex_rule = Changed r' /\ cmdPrint ex_setting [%"attrs"; %"kind"] r' = Some [FStrings [%"name"; %"out"; %"x"]; Text %"r" false]) /\
  (exists r', cmdReplace ex_setting %"out" %"//p:o" %"//p:u" ex_rule = Changed r' /\ cmdPrint ex_setting [%"out"] r' = Some [Text %":u" true]) /\
  cmdRemoveIfEqual ex_setting %"x" %"True" ex_rule <> Unchanged /\ cmdRename %"x" %"out" ex_rule = Error /\ once %"deps" (r_args ex_rule) /\
  printRecord (fun b => b) (fun _ => []) [Text %"n" false; FStrings [%"a"]; FMissing] = %"n [a] (missing)" ++ [c_nl].
Proof.
  split; [eexists; split; [vm_compute; reflexivity|vm_compute; reflexivity]|]. split; [eexists; split; [vm_compute; reflexivity|vm_compute; reflexivity]|]. split; [eexists; split; [vm_compute; reflexivity|vm_compute; reflexivity]|]. split; [eexists; split; [vm_compute; reflexivity|vm_compute; reflexivity]|].
  split; [intro H; vm_compute in H; discriminate H|]. split; [vm_compute; reflexivity|]. split; [unfold once; vm_compute; lia|vm_compute; reflexivity].
Qed.
