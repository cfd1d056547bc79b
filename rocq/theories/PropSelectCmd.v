(** C106: set_select. *)
From Verif Require Import LRTables LRCert Parse.
From Verif Require Import Base BaseProofs Ast ParseFile Quote Labels LabelsProofs PropLabels Rewrite CallSpec RuleApi RuleSpec RuleProofs PropRule EditList EditListSpec EditListProofs EditResolve PropEditList PropResolve EditFile Print RuleCmd PropRuleCmd PropMove DictCmd PropDict SelectCmd.
Local Open Scope list_scope.

(** ** What is asked for *)
(** The words of the command: key value key value ... *)
Definition words (l : list (bytes * bytes)) : list bytes := flat_map (fun p => [fst p; snd p]) l.
(** The values that are asked for a key, in order *)
Definition values_for (k : bytes) (l : list (bytes * bytes)) : list bytes := map snd (filter (fun p => beq (fst p) k) l).
(** The different keys, in the order of their first occurrence *)
Inductive distinct : list bytes -> list bytes -> Prop :=
  | ds_nil : distinct [] []
  | ds_new l ks k : distinct l ks -> ~ In k l -> distinct (l ++ [k]) (ks ++ [k])
  | ds_old l ks k : distinct l ks -> In k l -> distinct (l ++ [k]) ks.
(** A call of select with a dictionary of these entries *)
Definition select_of (kvs : list expr) (e : expr) : Prop := exists c i p c' p' en m en' k m', e = ECall c (EIdent i) p [EDict c' p' kvs en m] en' k m' /\ i_name i = %"select".

(** ** Proofs *)
Lemma pairs_words l : in_pairs (words l) = Some l.
Proof. induction l as [|(k, v) l IH]; [reflexivity|]. cbn [words flat_map fst snd app in_pairs]. fold (words l). now rewrite IH. Qed.
Lemma pairs_odd l a : in_pairs (words l ++ [a]) = None.
Proof. induction l as [|(k, v) l IH]; [reflexivity|]. cbn [words flat_map fst snd app in_pairs]. fold (words l). now rewrite IH. Qed.
Lemma distinct_in l ks : distinct l ks -> forall k, In k ks <-> In k l.
Proof.
  induction 1 as [|l ks k D IH N|l ks k D IH I]; intro x; [tauto| |].
  - pose proof (IH x). rewrite !in_app_iff. tauto.
  - pose proof (IH x). rewrite in_app_iff. split; [tauto|]. intros [H0|[<-|[]]]; [tauto|]. now apply IH.
Qed.
Lemma step_keys s attr l : exists ks, distinct (map fst l) ks /\ Forall2 (fun k x => exists v, entry k x v) ks (fold_left (select_step s attr) l []).
Proof.
  induction l as [|(k, v) l (ks & D & F)] using rev_ind; [exists []; split; constructor|]. rewrite fold_left_app, map_app. cbn [fold_left map fst]. set (kvs := fold_left (select_step s attr) l []) in *. cbn [select_step].
  match goal with |- context [DictionarySet kvs k (Some ?e)] => pose proof (C38_set kvs k e) as H; destruct (DictionarySet kvs k (Some e)) as [o kvs'] end. cbn [snd].
  destruct H as [(pre & c & t & p & old & post & E & Ek & _ & -> & _)|(N & _ & x & Ex & ->)].
  - exists ks. rewrite E in F. apply Forall2_app_inv_r in F as (k1 & k2 & F1 & F2 & ->). inversion F2 as [|k0 ? k3 ? (w & c0 & t0 & p0 & E0 & Ek0) F3]; subst. injection E0 as ? ? ? ?. subst. split.
    + apply ds_old; auto. apply (distinct_in _ _ D). rewrite in_app_iff. right. left. reflexivity.
    + apply Forall2_app; auto. constructor; auto. do 4 eexists. eauto.
  - exists (ks ++ [k]). split.
    + apply ds_new; auto. intro I. apply (distinct_in _ _ D) in I. assert (G : exists y w, In y kvs /\ entry k y w).
      { clear -F I. induction F as [|k0 y ks kvs (w & W) F IH]; [contradiction|]. destruct I as [->|I]; [exists y, w; split; auto; now left|]. destruct (IH I) as (y' & w' & I' & W'). exists y', w'. split; auto. now right. }
      destruct G as (y & w & I' & W). exact (N y w I' W).
    + apply Forall2_app; auto. constructor; [eauto|constructor].
Qed.
Lemma add_to_list dw pk item sorted items : exists items', AddValueToList dw (Some (new_list items)) pk item sorted = new_list items' /\ same_labels pk (items ++ [item]) items'.
Proof.
  destruct (value_added (fun _ => None) (fun _ => None) dw pk item sorted (new_list items) items eq_refl) as (v & V & S).
  assert (G : exists items', AddValueToList dw (Some (new_list items)) pk item sorted = new_list items').
  { unfold AddValueToList, new_list, SelectDelete. cbn [map_selects map_first_list].
    assert (R : forall e, e = EList no_com no_pos items (End no_com no_pos) false \/ e = EList no_com no_pos (if sorted then sortedInsert item items else items ++ [item]) (End no_com no_pos) false -> exists items', e = EList no_com no_pos items' (End no_com no_pos) false) by (intros e [-> | ->]; eauto).
    apply R. destruct item; auto. destruct (ListFind _ _ _); auto. }
  destruct G as (items' & E). rewrite E in *. cbn [value new_list] in V. injection V as <-. eauto.
Qed.
Lemma values_snoc k l k1 v1 : values_for k (l ++ [(k1, v1)]) = values_for k l ++ (if beq k1 k then [v1] else []).
Proof. unfold values_for. rewrite filter_app, map_app. cbn [filter fst]. destruct (beq k1 k); reflexivity. Qed.
Lemma values_none k l : ~ In k (map fst l) -> values_for k l = [].
Proof.
  intro N. induction l as [|(k1, v1) l IH]; [reflexivity|]. unfold values_for in *. cbn [filter fst map In] in *. replace (beq k1 k) with false by (symmetry; apply beq_neq; intros ->; tauto). apply IH. tauto.
Qed.
Lemma step_values s attr l :
  let kvs := fold_left (select_step s attr) l [] in
  (forall k, ~ In k (map fst l) -> forall e, ~ dict_is k kvs e) /\
  (IsList (attr_types s) attr = true -> forall k, In k (map fst l) -> exists items, dict_is k kvs (new_list items) /\ same_labels (pkg s) (map (getStringExpr s) (values_for k l)) items) /\
  (IsList (attr_types s) attr = false -> forall k v, last_for k l v -> dict_is k kvs (getStringExpr s v)).
Proof.
  cbv zeta. induction l as [|(k1, v1) l (N & L & V)] using rev_ind.
  - split; [intros k _ e H; inversion H|]. split; [intros _ k []|]. intros _ k v (pre & post & E & _). destruct pre; discriminate E.
  - rewrite fold_left_app, map_app. cbn [fold_left map fst]. set (kvs := fold_left (select_step s attr) l []) in *. cbn [select_step]. split; [|split].
    + intros k Nk e H. rewrite in_app_iff in Nk. apply set_one in H as [(-> & _)|(_ & H)]; [apply Nk; right; left; reflexivity|]. apply (N k) in H; auto.
    + intros T k I. rewrite T. destruct (bytes_eq_dec k k1) as [->|Nk].
      * rewrite values_snoc, beq_refl, map_app. cbn [map].
        assert (G : exists items, match DictionaryGet kvs k1 with Some cur => cur | None => new_list [] end = new_list items /\ same_labels (pkg s) (map (getStringExpr s) (values_for k1 l)) items).
        { destruct (in_dec bytes_eq_dec k1 (map fst l)) as [J|J].
          - destruct (L T k1 J) as (items & H & Sm). apply C38_get in H. rewrite H. eauto.
          - rewrite (values_none _ _ J). pose proof (get_dict kvs k1) as H. destruct (DictionaryGet kvs k1) as [e|]; [now apply (N k1 J) in H|]. exists []. split; auto. apply same_labels_refl. }
        destruct G as (items & -> & Sm). destruct (add_to_list (dwc s) (pkg s) (getStringExpr s v1) (negb (attributeMustNotBeSorted attr)) items) as (items' & -> & S2). exists items'. split; [apply set_one; auto|].
        eapply same_labels_trans; [|exact S2]. now apply same_labels_tail.
      * rewrite values_snoc. replace (beq k1 k) with false by (symmetry; apply beq_neq; auto). rewrite app_nil_r. rewrite in_app_iff in I. destruct I as [I|[E|[]]]; [|now subst]. destruct (L T k I) as (items & H & Sm). exists items. split; auto. apply set_one. auto.
    + intros T k v (pre & post & E & Np). rewrite T. apply set_one. destruct post as [|x post] using rev_ind.
      * apply app_inj_tail in E as (_ & E). injection E as -> ->. auto.
      * clear IHpost. rewrite app_comm_cons, app_assoc in E. apply app_inj_tail in E as (-> & <-). rewrite map_app, in_app_iff in Np. right. split; [intros ->; apply Np; right; left; reflexivity|]. apply V; auto. exists pre, post. auto.
Qed.
(** ** C106 *)
(** The attribute becomes a select with an entry for each key, in the order in which they are named first.
    For list attributes the value is the list of all values for the key (up to order, repetition and the spelling of labels), otherwise it is the last one. *)
Theorem C106_set_select : forall s attr l r, exists r' e kvs ks, cmdSetSelect s attr (words l) r = Some r' /\ only attr r r' /\
  attr_is attr (r_args r') e /\ select_of kvs e /\ distinct (map fst l) ks /\ Forall2 (fun k x => exists v, entry k x v) ks kvs /\
  (IsList (attr_types s) attr = true -> forall k, In k (map fst l) -> exists c p items en m ws, dict_is k kvs (EList c p items en m) /\ Forall2 (written s) (values_for k l) ws /\ same_labels (pkg s) ws items) /\
  (IsList (attr_types s) attr = false -> forall k v, last_for k l v -> exists w, dict_is k kvs w /\ written s v w).
Proof.
  intros s attr l r. unfold cmdSetSelect. rewrite pairs_words. destruct (step_keys s attr l) as (ks & D & F). destruct (step_values s attr l) as (_ & L & V). set (kvs := fold_left (select_step s attr) l []) in *.
  eexists. exists (select_call kvs), kvs, ks. split; [reflexivity|]. split; [apply only_set|]. split; [apply attr_is_some; cbn [with_args r_args]; apply C33_get_set|]. split; [do 10 eexists; split; reflexivity|]. split; auto. split; auto. split.
  - intros T k I. destruct (L T k I) as (items & H & Sm). exists no_com, no_pos, items, (End no_com no_pos), false, (map (getStringExpr s) (values_for k l)). split; auto. split; auto. clear. induction (values_for k l); constructor; auto. apply written_expr.
  - intros T k v H. eexists. split; [apply (V T k v H)|]. apply written_expr.
Qed.
Print Assumptions C106_set_select.
(** A last key without value is an error. *)
Theorem C106_odd : forall s attr l a r, cmdSetSelect s attr (words l ++ [a]) r = None.
Proof. intros. unfold cmdSetSelect. now rewrite pairs_odd. Qed.
Print Assumptions C106_odd.

Definition ex_types (l : bool) : setting := Setting %"p/BUILD" [] %"p" (Types (fun _ => l) (fun _ => false) (fun _ => false)) true true.
Example C106_nontrivial :
  (exists r' e, cmdSetSelect (ex_types true) %"deps" (words [(%":x", %"//p:b"); (%"other", %"c"); (%":x", %"a"); (%":x", %":b")]) (ex_call []) = Some r' /\
     attr_is %"deps" (r_args r') e /\ e = select_call [kv %":x" (lst [str %":b"; str %"a"]); kv %"other" (lst [str %"c"])]) /\
  (exists r' e, cmdSetSelect (ex_types false) %"deps" (words [(%":x", %"b"); (%"other", %"c"); (%":x", %"a")]) (ex_call []) = Some r' /\
     attr_is %"deps" (r_args r') e /\ e = select_call [kv %":x" (str %"a"); kv %"other" (str %"c")]) /\
  distinct [%":x"; %"other"; %":x"] [%":x"; %"other"].
Proof.
  split; [do 2 eexists; split; [reflexivity|]; split; [apply attr_is_some; vm_compute; reflexivity|vm_compute; reflexivity]|].
  split; [do 2 eexists; split; [reflexivity|]; split; [apply attr_is_some; vm_compute; reflexivity|vm_compute; reflexivity]|].
  apply (ds_old [%":x"; %"other"] _ %":x"); [|now left]. apply (ds_new [%":x"] [%":x"] %"other"); [apply (ds_new [] [] %":x"); [constructor|intros []]|intros [H|[]]; discriminate H].
Qed.
