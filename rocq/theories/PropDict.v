(** C104: buildozer's commands on dictionaries. *)
From Verif Require Import LRTables LRCert Parse.
From Verif Require Import Base BaseProofs Ast ParseFile Quote Labels LabelsProofs PropLabels Rewrite CallSpec RuleApi RuleSpec RuleProofs PropRule EditList EditListSpec EditListProofs EditResolve PropEditList PropResolve EditFile Print RuleCmd PropRuleCmd PropMove DictCmd.
Local Open Scope list_scope.

(** ** What is asked for *)
(** The argument is [k:v]; the key has no colon. *)
Definition asks (a : bytes) (kv : bytes * bytes) : Prop := a = fst kv ++ %":" ++ snd kv /\ ~ In ":"%char (fst kv).
Definition has_dict (attr : bytes) (r : rule) (kvs : list expr) : Prop := exists c p en m, attr_is attr (r_args r) (EDict c p kvs en m).
(** The key has this value in the attribute's dictionary. *)
Definition entry_is (attr : bytes) (r : rule) (k : bytes) (e : expr) : Prop := exists kvs, has_dict attr r kvs /\ dict_is k kvs e.
Definition written (s : setting) (v : bytes) (e : expr) : Prop := exists t, e = EStr t /\ stored s v (s_value t).
Definition last_for {A} (k : bytes) (l : list (bytes * A)) (v : A) : Prop := exists pre post, l = pre ++ (k, v) :: post /\ ~ In k (map fst post).
Definition first_for {A} (k : bytes) (l : list (bytes * A)) (v : A) : Prop := exists pre post, l = pre ++ (k, v) :: post /\ ~ In k (map fst pre).

(** ** Proofs *)
Lemma dict_attr_spec attr r d : dict_attr attr r = Some d <-> exists c p l en m, d = EDict c p l en m /\ attr_is attr (r_args r) (EDict c p l en m).
Proof.
  unfold dict_attr. split.
  - destruct (Attr attr (r_args r)) as [e|] eqn:A; [|discriminate]. destruct e; try discriminate. intro H. injection H as <-. do 5 eexists. split; [reflexivity|]. now apply attr_is_some.
  - intros (c & p & l & en & m & -> & A). apply attr_is_some in A. rewrite A. reflexivity.
Qed.
Lemma dict_new attr r : exists c p en m, dict_or_new attr r = EDict c p (dict_entries (dict_or_new attr r)) en m.
Proof.
  unfold dict_or_new. destruct (dict_attr attr r) as [d|] eqn:D; [apply dict_attr_spec in D as (c & p & l & en & m & -> & _)|]; do 4 eexists; reflexivity.
Qed.
Lemma has_dict_entries attr r kvs : has_dict attr r kvs -> dict_entries (dict_or_new attr r) = kvs.
Proof.
  intros (c & p & en & m & A). unfold dict_or_new. assert (D : dict_attr attr r = Some (EDict c p kvs en m)) by (apply dict_attr_spec; eauto 8). now rewrite D.
Qed.
Lemma entry_spec attr r k e : dict_is k (dict_entries (dict_or_new attr r)) e <-> entry_is attr r k e.
Proof.
  split.
  - intro H. unfold dict_or_new in H. destruct (dict_attr attr r) as [d|] eqn:D; [|inversion H]. apply dict_attr_spec in D as (c & p & l & en & m & -> & A). exists l. split; [do 4 eexists; exact A|exact H].
  - intros (kvs & H & E). now rewrite (has_dict_entries _ _ _ H).
Qed.
Lemma set_has attr kvs r : has_dict attr (set_dict attr (with_entries kvs (dict_or_new attr r)) r) kvs.
Proof.
  destruct (dict_new attr r) as (c & p & en & m & E). rewrite E. exists c, p, en, m. apply attr_is_some. cbn [with_entries set_dict with_args r_args]. apply C33_get_set.
Qed.
Lemma set_entry_is attr kvs r k e : entry_is attr (set_dict attr (with_entries kvs (dict_or_new attr r)) r) k e <-> dict_is k kvs e.
Proof.
  rewrite <- entry_spec. now rewrite (has_dict_entries _ _ _ (set_has attr kvs r)).
Qed.
Lemma dict_args_ok step args l : Forall2 asks args l -> forall kvs, dict_args step args kvs = (true, fold_left (fun kvs p => step kvs (fst p) (snd p)) l kvs).
Proof.
  induction 1 as [|a (k, v) args l (-> & N) F IH]; intro kvs; [reflexivity|]. cbn [fst snd] in *. change (k ++ %":" ++ v) with (k ++ ":"%char :: v). cbn [dict_args fold_left]. rewrite split2_app by exact N. apply IH.
Qed.
Lemma dict_args_bad step args l a post : Forall2 asks args l -> ~ In ":"%char a -> forall kvs, dict_args step (args ++ a :: post) kvs = (false, snd (dict_args step args kvs)).
Proof.
  intros F N. induction F as [|b (k, v) args l (-> & Nk) F IH]; intro kvs.
  - cbn [app dict_args]. now rewrite split2_none.
  - cbn [fst snd] in *. change (k ++ %":" ++ v) with (k ++ ":"%char :: v). rewrite <- app_comm_cons. cbn [dict_args]. rewrite split2_app by exact Nk. apply IH.
Qed.
Lemma get_dict kvs k : match DictionaryGet kvs k with Some e => dict_is k kvs e | None => forall e, ~ dict_is k kvs e end.
Proof.
  destruct (DictionaryGet kvs k) as [e|] eqn:G; [now apply C38_get|]. intros e H. apply C38_get in H. rewrite H in G. discriminate G.
Qed.
Lemma is_fun k kvs a b : dict_is k kvs a -> dict_is k kvs b -> a = b.
Proof. intros A B. apply C38_get in A, B. rewrite A in B. now injection B. Qed.
Lemma set_one kvs key v k e : dict_is k (snd (DictionarySet kvs key (Some v))) e <-> (k = key /\ e = v) \/ (k <> key /\ dict_is k kvs e).
Proof.
  destruct (C38_set_get kvs key v) as (G & O). rewrite <- !(proj1 (C38_get _ _)). split.
  - intro H. destruct (bytes_eq_dec k key) as [->|N]; [left|right; rewrite <- O; auto]. rewrite G in H. injection H as <-. auto.
  - intros [(-> & ->)|(N & H)]; [exact G|]. now rewrite O.
Qed.
Lemma written_expr s v : written s v (getStringExpr s v).
Proof. destruct (string_stored s v) as (tr & w & E & S1). rewrite E. eexists. split; [reflexivity|exact S1]. Qed.
Lemma set_all s l : forall kvs k e, dict_is k (fold_left (fun kvs p => set_entry s kvs (fst p) (snd p)) l kvs) e <->
  (exists v, last_for k l v /\ e = getStringExpr s v) \/ (~ In k (map fst l) /\ dict_is k kvs e).
Proof.
  induction l as [|(k1, v1) l IH]; intros kvs k e; cbn [fold_left fst snd map In].
  - split; [auto|]. intros [(v & (pre & post & E & _) & _)|(_ & H)]; [destruct pre; discriminate E|exact H].
  - rewrite IH. unfold set_entry at 1. rewrite set_one. split.
    + intros [(v & (pre & post & -> & N) & E)|(N & [(-> & ->)|(Nk & H)])].
      * left. exists v. split; auto. exists ((k1, v1) :: pre), post. auto.
      * left. exists v1. split; auto. exists [], l. auto.
      * right. split; auto. intros [E|I]; auto.
    + intros [(v & ([|(k2, v2) pre] & post & E & N) & ->)|(N & H)].
      * cbn [app] in E. injection E as -> -> ->. right. split; auto.
      * cbn [app] in E. injection E as -> -> ->. left. exists v. split; auto. exists pre, post. auto.
      * right. split; [tauto|]. right. split; auto.
Qed.
Lemma add_one s kvs key v k e : dict_is k (add_entry s kvs key v) e <-> dict_is k kvs e \/ (k = key /\ (forall e, ~ dict_is k kvs e) /\ e = getStringExpr s v).
Proof.
  unfold add_entry. pose proof (get_dict kvs key) as G. destruct (DictionaryGet kvs key) as [e0|].
  - split; [auto|]. intros [H|(-> & N & _)]; auto. now apply N in G.
  - rewrite set_one. split.
    + intros [(-> & ->)|(N & H)]; auto.
    + intros [H|(-> & _ & ->)]; auto. right. split; auto. intros ->. now apply G in H.
Qed.
Lemma add_all s l : forall kvs k e, dict_is k (fold_left (fun kvs p => add_entry s kvs (fst p) (snd p)) l kvs) e <->
  dict_is k kvs e \/ ((forall e, ~ dict_is k kvs e) /\ exists v, first_for k l v /\ e = getStringExpr s v).
Proof.
  induction l as [|(k1, v1) l IH]; intros kvs k e; cbn [fold_left fst snd].
  - split; [auto|]. intros [H|(_ & v & (pre & post & E & _) & _)]; [exact H|destruct pre; discriminate E].
  - rewrite IH, add_one. split.
    + intros [[H|(-> & N & ->)]|(N & v & (pre & post & -> & Np) & E)].
      * auto.
      * right. split; auto. exists v1. split; auto. exists [], l. auto.
      * right. split; [intros e' H; apply (N e'), add_one; auto|]. exists v. split; auto. exists ((k1, v1) :: pre), post. split; auto. cbn [map fst In]. intros [->|I]; auto.
        apply (N (getStringExpr s v1)), add_one. right. split; auto. split; auto. intros e' H. apply (N e'), add_one. auto.
    + intros [H|(N & v & ([|(k2, v2) pre] & post & E & Np) & ->)]; auto; cbn [app] in E; injection E as -> -> ->.
      * auto.
      * cbn [map fst In] in Np. right. split; [intros e' H; apply add_one in H as [H|(-> & _)]; [now apply N in H|tauto]|]. exists v. split; auto. exists pre, post. split; auto.
Qed.
(** ** C104 *)
(** dict_set: every key has the last value that is asked for, and the others theirs. *)
Theorem C104_set : forall s attr args l r, Forall2 asks args l -> exists r', cmdDictSet s attr args r = Done r' /\ only attr r r' /\ (exists kvs, has_dict attr r' kvs) /\
  (forall k v, last_for k l v -> exists e, entry_is attr r' k e /\ written s v e) /\
  (forall k, ~ In k (map fst l) -> forall e, entry_is attr r' k e <-> entry_is attr r k e).
Proof.
  intros s attr args l r F. unfold cmdDictSet, dict_cmd. rewrite (dict_args_ok _ _ _ F). eexists. split; [reflexivity|]. split; [apply only_set|]. split; [eexists; apply set_has|]. split.
  - intros k v H. exists (getStringExpr s v). split; [|apply written_expr]. apply set_entry_is, set_all. left. eauto.
  - intros k N e. rewrite set_entry_is, set_all, entry_spec. split; [|auto]. intros [(v & (pre & post & -> & _) & _)|(_ & H)]; auto. exfalso. apply N. rewrite map_app, in_app_iff. right. now left.
Qed.
Print Assumptions C104_set.
(** dict_add: a key that has a value keeps it; the others get the first one that is asked for. *)
Theorem C104_add : forall s attr args l r, Forall2 asks args l -> exists r', cmdDictAdd s attr args r = Done r' /\ only attr r r' /\ (exists kvs, has_dict attr r' kvs) /\
  (forall k e, entry_is attr r k e -> entry_is attr r' k e) /\
  (forall k v, (forall e, ~ entry_is attr r k e) -> first_for k l v -> exists e, entry_is attr r' k e /\ written s v e) /\
  (forall k, ~ In k (map fst l) -> forall e, entry_is attr r' k e -> entry_is attr r k e).
Proof.
  intros s attr args l r F. unfold cmdDictAdd, dict_cmd. rewrite (dict_args_ok _ _ _ F). eexists. split; [reflexivity|]. split; [apply only_set|]. split; [eexists; apply set_has|]. split; [|split].
  - intros k e H. apply set_entry_is, add_all. left. now apply entry_spec.
  - intros k v N H. exists (getStringExpr s v). split; [|apply written_expr]. apply set_entry_is, add_all. right. split; [intros e K; apply (N e), entry_spec, K|]. eauto.
  - intros k N e H. apply set_entry_is, add_all in H as [H|(_ & v & (pre & post & -> & _) & _)]; [now apply entry_spec|]. exfalso. apply N. rewrite map_app, in_app_iff. right. now left.
Qed.
Print Assumptions C104_add.
(** An argument without a colon is an error; but the arguments before it have taken effect, if the attribute is a dictionary. *)
Lemma bad_args step attr args l a post r : Forall2 asks args l -> ~ In ":"%char a ->
  (forall kvs, has_dict attr r kvs -> exists r', dict_cmd step attr (args ++ a :: post) r = Failed r' /\ dict_cmd step attr args r = Done r') /\
  ((forall kvs, ~ has_dict attr r kvs) -> dict_cmd step attr (args ++ a :: post) r = Failed r).
Proof.
  intros F N. unfold dict_cmd. rewrite (dict_args_bad _ _ _ _ _ F N), (dict_args_ok _ _ _ F). cbn [snd]. split.
  - intros kvs (c & p & en & m & A). assert (D : dict_attr attr r = Some (EDict c p kvs en m)) by (apply dict_attr_spec; eauto 8). rewrite D. eexists. split; reflexivity.
  - intros Nd. destruct (dict_attr attr r) as [d|] eqn:D; auto. apply dict_attr_spec in D as (c & p & kvs & en & m & -> & A). exfalso. apply (Nd kvs). do 4 eexists. exact A.
Qed.
Theorem C104_no_colon : forall s attr args l a post r, Forall2 asks args l -> ~ In ":"%char a ->
  forall cmd, In cmd [cmdDictSet; cmdDictAdd] ->
  (forall kvs, has_dict attr r kvs -> exists r', cmd s attr (args ++ a :: post) r = Failed r' /\ cmd s attr args r = Done r') /\
  ((forall kvs, ~ has_dict attr r kvs) -> cmd s attr (args ++ a :: post) r = Failed r).
Proof. intros s attr args l a post r F N cmd [<-|[<-|[]]]; eapply bad_args; eauto. Qed.
Print Assumptions C104_no_colon.
Lemma means_fun v t : means v t -> unquoted_item v = t.
Proof.
  unfold unquoted_item, means. destruct (unquote v) as [[u tr] [e|]].
  - intros [(? & E)|(_ & ->)]; [discriminate E|reflexivity].
  - intros [(? & E)|(N & _)]; [now injection E|]. exfalso. eapply N. reflexivity.
Qed.
Lemma delete_all args keys kvs : Forall2 means args keys -> string_keys kvs ->
  fold_left (fun l k => snd (DictionaryDelete l k)) args kvs = filter (fun kv => negb (existsb (fun k => key_is k kv) keys)) kvs.
Proof.
  intros F. revert kvs. induction F as [|a k args keys M F IH]; intros kvs St; cbn [fold_left existsb].
  - symmetry. clear. induction kvs as [|x l IH]; [reflexivity|]. change (x :: filter (fun _ => true) l = x :: l). f_equal. exact IH.
  - unfold DictionaryDelete at 2. cbn [snd]. rewrite (means_fun _ _ M).
    assert (E : filter (fun kv => has_string_key kv && negb (key_is k kv)) kvs = filter (fun kv => negb (key_is k kv)) kvs) by (apply filter_ext_in; intros x I; destruct (St x I) as (? & ? & ? & ? & ->); reflexivity).
    rewrite E, IH by (intros x I; apply filter_In in I as (I & _); auto). clear. induction kvs as [|x l IH]; auto. cbn [filter]. destruct (key_is k x); cbn [negb orb filter]; [exact IH|]. destruct (existsb (fun k => key_is k x) keys); cbn [negb]; now rewrite IH.
Qed.
(** dict_remove: the entries with these keys are removed, and an attribute that has no entries is removed. *)
Theorem C104_remove : forall attr args keys r, Forall2 means args keys ->
  ((forall kvs, ~ has_dict attr r kvs) -> cmdDictRemove attr args r = Done r) /\
  (forall kvs, has_dict attr r kvs -> string_keys kvs -> exists r' kvs', cmdDictRemove attr args r = Done r' /\ only attr r r' /\
    without (fun x => exists k v, In k keys /\ entry k x v) kvs kvs' /\
    (kvs' <> [] -> has_dict attr r' kvs') /\ (kvs' = [] -> once attr (r_args r) -> no_attr attr (r_args r'))).
Proof.
  intros attr args keys r F. unfold cmdDictRemove. split.
  - intros Nd. destruct (dict_attr attr r) as [d|] eqn:D; auto. apply dict_attr_spec in D as (c & p & kvs & en & m & -> & A). exfalso. apply (Nd kvs). do 4 eexists. exact A.
  - intros kvs H St. pose proof (has_dict_entries _ _ _ H) as En. unfold dict_or_new in En. destruct H as (c & p & en & m & A). assert (D : dict_attr attr r = Some (EDict c p kvs en m)) by (apply dict_attr_spec; eauto 8). rewrite D in *. cbn [dict_entries].
    rewrite (delete_all _ _ _ F St).
    assert (W : without (fun x => exists k v, In k keys /\ entry k x v) kvs (filter (fun kv => negb (existsb (fun k => key_is k kv) keys)) kvs)).
    { apply without_filter. intro x. rewrite existsb_exists. split; [intros (k & I & K); apply key_is_spec in K as (v & K); eauto|intros (k & v & I & K); exists k; split; auto; apply key_is_spec; eauto]. }
    destruct (filter (fun kv => negb (existsb (fun k => key_is k kv) keys)) kvs) as [|x kvs'].
    + eexists. exists []. split; [reflexivity|]. pose proof A as A'. apply attr_is_split in A' as (pre & y & post & E & G & Np). split; [|split; [exact W|split; [intro K; now elim K|intros _ O; apply no_attr_none; now apply once_absent]]].
      unfold only. cbn [with_args r_com r_x r_start r_end r_compact r_multi r_args]. repeat (apply conj; [reflexivity|]). intros k N. now apply C33_delete_others.
    + eexists. exists (x :: kvs'). split; [reflexivity|]. split; [apply only_set|]. split; [exact W|]. split; [intros _|discriminate]. pose proof (set_has attr (x :: kvs') r) as Sh. unfold dict_or_new in Sh. rewrite D in Sh. exact Sh.
Qed.
Print Assumptions C104_remove.
(** dict_replace_if_equal: a value that is the old string (or label, or identifier) becomes the new string. *)
Theorem C104_replace : forall s attr key old new o n r, means old o -> means new n ->
  ((forall kvs, ~ has_dict attr r kvs) -> cmdDictReplaceIfEqual s attr key old new r = Done r) /\
  (forall kvs, has_dict attr r kvs -> no_entry key kvs -> cmdDictReplaceIfEqual s attr key old new r = Failed r) /\
  (forall e, entry_is attr r key e -> ~ equals s o e -> cmdDictReplaceIfEqual s attr key old new r = Done r) /\
  (forall e, entry_is attr r key e -> equals s o e -> exists r', cmdDictReplaceIfEqual s attr key old new r = Done r' /\ only attr r r' /\
     (exists e', entry_is attr r' key e' /\ written s n e') /\ forall k, k <> key -> forall e', entry_is attr r' k e' <-> entry_is attr r k e').
Proof.
  intros s attr key old new o n r Mo Mn. assert (Go : getStringValue old = o) by exact (means_fun _ _ Mo). assert (Gn : getStringValue new = n) by exact (means_fun _ _ Mn).
  unfold cmdDictReplaceIfEqual. rewrite Go, Gn.
  assert (Le : forall t, labels_equal (s_value t) o (pkg s) = true <-> parse_relative (s_value t) (pkg s) = parse_relative o (pkg s)) by (intro t; unfold labels_equal; apply label_eqb_eq).
  split; [|split].
  - intros Nd. destruct (dict_attr attr r) as [d|] eqn:D; auto. apply dict_attr_spec in D as (c & p & kvs & en & m & -> & A). exfalso. apply (Nd kvs). do 4 eexists. exact A.
  - intros kvs (c & p & en & m & A) N. assert (D : dict_attr attr r = Some (EDict c p kvs en m)) by (apply dict_attr_spec; eauto 8). rewrite D. cbn [dict_entries]. apply C38_get in N. now rewrite N.
  - assert (E0 : forall e, entry_is attr r key e -> exists d, dict_attr attr r = Some d /\ dict_or_new attr r = d /\ DictionaryGet (dict_entries d) key = Some e).
    { intros e (kvs & (c & p & en & m & A) & K). assert (D : dict_attr attr r = Some (EDict c p kvs en m)) by (apply dict_attr_spec; eauto 8). exists (EDict c p kvs en m). split; auto. split; [unfold dict_or_new; now rewrite D|]. cbn [dict_entries]. now apply C38_get. }
    split.
    + intros e H N. destruct (E0 e H) as (d & -> & _ & ->). destruct e; auto.
      * destruct (beq (i_name i) o) eqn:E; auto. exfalso. apply N. right. exists i. split; auto. now apply beq_eq.
      * match goal with |- context [labels_equal (s_value ?t) o _] => destruct (labels_equal (s_value t) o (pkg s)) eqn:E; auto; exfalso; apply N; left; exists t; split; auto; now apply Le end.
    + intros e H Q. destruct (E0 e H) as (d & -> & Dn & ->). set (kvs' := snd (DictionarySet (dict_entries d) key (Some (getStringExpr s n)))).
      exists (set_dict attr (with_entries kvs' (dict_or_new attr r)) r). rewrite Dn. split.
      { destruct Q as [(t & -> & Q)|(i & -> & Q)]; [rewrite (proj2 (Le t) Q)|rewrite Q, beq_refl]; reflexivity. }
      split; [apply only_set|]. rewrite <- Dn. split.
      * exists (getStringExpr s n). split; [|apply written_expr]. apply set_entry_is. unfold kvs'. rewrite set_one. auto.
      * intros k N e'. rewrite set_entry_is, <- entry_spec, Dn. unfold kvs'. rewrite set_one. tauto.
Qed.
Print Assumptions C104_replace.
Lemma same_labels_tail pk a b c : same_labels pk a b -> same_labels pk (a ++ c) (b ++ c).
Proof.
  intros (H1 & H2). split; intros x I; apply in_app_iff in I as [I|I]; [apply H1 in I|left; apply in_app_iff; auto|apply H2 in I|left; apply in_app_iff; auto]; setoid_rewrite in_app_iff; firstorder.
Qed.
Lemma values_added s choose val args : forall e v, value choose val e = Some v ->
  exists v', value choose val (fold_left (fun e v => AddValueToList (dwc s) (Some e) (pkg s) (getStringExpr s v) true) args e) = Some v' /\ same_labels (pkg s) (v ++ map (getStringExpr s) args) v'.
Proof.
  induction args as [|a args IH]; intros e v V; cbn [fold_left map].
  - exists v. split; auto. rewrite app_nil_r. apply same_labels_refl.
  - destruct (value_added choose val (dwc s) (pkg s) (getStringExpr s a) true e v V) as (v1 & V1 & S1). destruct (IH _ _ V1) as (v2 & V2 & S2). exists v2. split; auto.
    eapply same_labels_trans; [|exact S2]. change (getStringExpr s a :: map (getStringExpr s) args) with ([getStringExpr s a] ++ map (getStringExpr s) args). rewrite app_assoc. apply same_labels_tail, S1.
Qed.
(** dict_list_add: in every configuration the value of the key has the elements it had and the new ones, and no others. *)
Theorem C104_list_add : forall s attr key args choose val r, exists r' e' items, cmdDictListAdd s attr key args r = Done r' /\ only attr r r' /\ entry_is attr r' key e' /\ Forall2 (written s) args items /\
  (forall e v, entry_is attr r key e -> value choose val e = Some v -> exists v', value choose val e' = Some v' /\ same_labels (pkg s) (v ++ items) v') /\
  ((forall e, ~ entry_is attr r key e) -> exists v', value choose val e' = Some v' /\ same_labels (pkg s) items v') /\
  forall k, k <> key -> forall e, entry_is attr r' k e <-> entry_is attr r k e.
Proof.
  intros s attr key args choose val r. unfold cmdDictListAdd. set (prev := match DictionaryGet _ key with Some e => e | None => _ end). set (new := fold_left _ args prev).
  eexists. exists new, (map (getStringExpr s) args). split; [reflexivity|]. split; [apply only_set|]. split; [apply set_entry_is, set_one; auto|]. split; [induction args; constructor; auto; apply written_expr|].
  split; [|split].
  - intros e v H V. apply entry_spec, C38_get in H. unfold new, prev. rewrite H. now apply values_added.
  - intros N. assert (G : DictionaryGet (dict_entries (dict_or_new attr r)) key = None).
    { pose proof (get_dict (dict_entries (dict_or_new attr r)) key) as K. destruct (DictionaryGet (dict_entries (dict_or_new attr r)) key) as [e|]; auto. apply entry_spec in K. now apply N in K. }
    unfold new, prev. rewrite G. destruct (values_added s choose val args (EList no_com no_pos [] (End no_com no_pos) false) [] eq_refl) as (v' & V & Sm). exists v'. split; [exact V|exact Sm].
  - intros k N e. rewrite set_entry_is, set_one, entry_spec. tauto.
Qed.
Print Assumptions C104_list_add.
Definition ex_setting : setting := Setting %"p/BUILD" [] %"p" (Types (fun _ => false) (fun _ => false) (fun _ => false)) true true.
Definition dict_of (l : list expr) : expr := EDict no_com no_pos l (End no_com no_pos) false.
(** dict_remove also removes all entries whose key is no string. *)
Theorem C104_remove_refuted : exists attr r kvs x, has_dict attr r kvs /\ In x kvs /\ (forall v, ~ entry %"a" x v) /\ forall r' kvs', cmdDictRemove attr [%"a"] r = Done r' -> has_dict attr r' kvs' -> ~ In x kvs'.
Proof.
  exists %"d", (ex_call [arg_of %"d" (dict_of [kv %"a" (str %"x"); EKV no_com (new_ident_expr %"K") no_pos (str %"y"); kv %"b" (str %"z")])]). do 2 eexists. split; [do 4 eexists; apply attr_is_some; vm_compute; reflexivity|]. split; [right; left; reflexivity|].
  split; [intros v (? & ? & ? & E & _); discriminate E|]. intros r' kvs' E (c & p & en & m & A). apply attr_is_some in A. injection E as <-. vm_compute in A. injection A as _ _ <- _ _. intros [K|[]]. discriminate K.
Qed.
Print Assumptions C104_remove_refuted.
(** An attribute that is no dictionary is replaced. *)
Theorem C104_set_refuted : exists attr r e r', attr_is attr (r_args r) e /\ (forall kvs, ~ has_dict attr r kvs) /\ cmdDictSet ex_setting attr [%"k:v"] r = Done r' /\ ~ attr_is attr (r_args r') e.
Proof.
  exists %"d", (ex_call [arg_of %"d" (lst [dict_of []])]). do 2 eexists. split; [apply attr_is_some; vm_compute; reflexivity|]. split; [intros kvs (? & ? & ? & ? & A); apply attr_is_some in A; vm_compute in A; discriminate A|]. split; [vm_compute; reflexivity|].
  intro A. apply attr_is_some in A. vm_compute in A. discriminate A.
Qed.
Print Assumptions C104_set_refuted.
Definition ex_dict : rule := ex_call [arg_of %"name" (str %"n"); arg_of %"d" (dict_of [kv %"a" (str %"//p:x"); kv %"b" (lst [str %"//p:x"]); kv %"c" (new_ident_expr %"K"); kv %"a" (str %"1")])].
Example C104_nontrivial :
  Forall2 asks [%"a://p:y"; %"e:1:2"; %"a:""z"""] [(%"a", %"//p:y"); (%"e", %"1:2"); (%"a", %"""z""")] /\
  (exists r, cmdDictSet ex_setting %"d" [%"a://p:y"; %"e:1:2"; %"a:""z"""] ex_dict = Done r /\ Attr %"d" (r_args r) = Some (dict_of [kv %"a" (str %"z"); kv %"b" (lst [str %"//p:x"]); kv %"c" (new_ident_expr %"K"); kv %"a" (str %"1"); kv %"e" (str %"1:2")])) /\
  (exists r, cmdDictAdd ex_setting %"d" [%"a://p:y"; %"e://p:y"; %"e:""z"""] ex_dict = Done r /\ Attr %"d" (r_args r) = Some (dict_of [kv %"a" (str %"//p:x"); kv %"b" (lst [str %"//p:x"]); kv %"c" (new_ident_expr %"K"); kv %"a" (str %"1"); kv %"e" (str %":y")])) /\
  (exists r, cmdDictRemove %"d" [%"""a"""; %"c"] ex_dict = Done r /\ Attr %"d" (r_args r) = Some (dict_of [kv %"b" (lst [str %"//p:x"])])) /\
  (exists r, cmdDictRemove %"d" [%"a"; %"b"; %"c"] ex_dict = Done r /\ Attr %"d" (r_args r) = None) /\
  (exists r, cmdDictReplaceIfEqual ex_setting %"d" %"a" %":x" %":y" ex_dict = Done r /\ Attr %"d" (r_args r) = Some (dict_of [kv %"a" (str %":y"); kv %"b" (lst [str %"//p:x"]); kv %"c" (new_ident_expr %"K"); kv %"a" (str %"1")])) /\
  (exists r, cmdDictListAdd ex_setting %"d" %"b" [%":x"; %":y"] ex_dict = Done r /\ Attr %"d" (r_args r) = Some (dict_of [kv %"a" (str %"//p:x"); kv %"b" (lst [str %":y"; str %"//p:x"]); kv %"c" (new_ident_expr %"K"); kv %"a" (str %"1")])).
Proof.
  split; [repeat constructor; try (intros K; cbn in K; repeat destruct K as [K|K]; try discriminate K; exact K)|].
  repeat (apply conj); (eexists; split; [vm_compute; reflexivity|vm_compute; reflexivity]).
Qed.
