(** C93: buildozer's comment and remove_comment change the comment that they name, and print_comment shows it. *)
From Verif Require Import LRTables LRCert Parse.
From Verif Require Import Base BaseProofs Ast Labels LabelsProofs Rewrite RuleApi RuleSpec RuleProofs PropRule EditList EditListSpec EditListProofs EditResolve PropEditList Lex PrintSource Print Cli RuleCmd PropRuleCmd RuleComment.
Local Open Scope list_scope.

(** ** What is asked for *)
(** The text of a comment as one line: \n ends a line, the lines are put together with spaces. *)
Definition one_line (str t : bytes) : Prop := t = join [c_sp] (map trimSpace (split c_nl (comment_text str))).
(** The value that is named: the first string with this label, unconditional ones first *)
Definition named_value (s : setting) (value : bytes) (e x : expr) (pre post : list expr) : Prop :=
  plain e ++ branches e = pre ++ x :: post /\ spells value (pkg s) x /\ forall y, In y pre -> ~ spells value (pkg s) y.

Lemma trim_sp l : trimSpace (c_sp :: l) = trimSpace l.
Proof. unfold trimSpace. cbn [List.length trim_with]. reflexivity. Qed.
Lemma trim_in x l : In x (trimSpace l) -> In x l.
Proof.
  unfold trimSpace. intro H. apply in_rev in H. destruct (PrintSource.trim_skips trail_space (List.length (trim_with lead_space (List.length l) l)) (rev (trim_with lead_space (List.length l) l))) as (k & E). rewrite E in H.
  assert (H2 : In x (rev (trim_with lead_space (List.length l) l))) by (rewrite <- (firstn_skipn k); apply in_or_app; now right). apply in_rev in H2.
  destruct (PrintSource.trim_skips lead_space (List.length l) l) as (k2 & E2). rewrite E2 in H2. rewrite <- (firstn_skipn k2 l). apply in_or_app. now right.
Qed.
Lemma text_lines str t : one_line str t -> commentsText (comment_lines str) = t.
Proof.
  intros ->. unfold commentsText, comment_lines. rewrite !map_map.
  assert (E : map (fun x => comment_word (Comment no_pos (%"# " ++ x))) (split c_nl (comment_text str)) = map trimSpace (split c_nl (comment_text str))).
  { apply map_ext. intro x. unfold comment_word. cbn [c_tok]. change (%"# " ++ x) with (c_hash :: c_sp :: x). change (ceq c_hash c_hash) with true. cbv iota. apply trim_sp. }
  rewrite E. set (l := map trimSpace _).
  assert (N : Forall (fun p => ~ In c_nl p) l).
  { unfold l. apply Forall_map. eapply Forall_impl; [|apply split_no_sep]. cbn beta. intros p H I. apply H, trim_in, I. }
  clearbody l. rewrite <- (map_id (join [c_sp] l)) at 2. apply map_ext_in. intros x I. destruct (ceq x c_nl) eqn:Ex; auto. exfalso. unfold ceq in Ex. apply Ascii.eqb_eq in Ex as ->.
  induction N as [|p l H N IH]; [destruct I|]. destruct l as [|q l]; [now apply H|]. cbn [join] in I. apply in_app_iff in I as [I | I]; [now apply H|]. destruct I as [I | I]; [discriminate I|]. now apply IH.
Qed.

(** ** C93: the rule *)
Theorem C93_rule : forall str r t, one_line str t ->
  hd [] (cmdPrintCommentRule (cmdCommentRule str r)) = t /\
  tl (cmdPrintCommentRule (cmdCommentRule str r)) = tl (cmdPrintCommentRule r) /\
  r_args (cmdCommentRule str r) = r_args r /\ r_x (cmdCommentRule str r) = r_x r /\
  cmdPrintCommentRule (cmdRemoveCommentRule r) = [[]] /\ r_args (cmdRemoveCommentRule r) = r_args r /\ r_x (cmdRemoveCommentRule r) = r_x r.
Proof. intros str r t H. cbn [cmdCommentRule with_com set_comment r_com r_args r_x c_before c_suffix c_after cmdPrintCommentRule hd tl]. rewrite (text_lines str t H). repeat split. Qed.
Print Assumptions C93_rule.

(** ** C93: a value in a list *)
Section Item.
  Context (f : expr -> expr) (item pkg : bytes).
  Definition first_changed (l l' : list expr) : Prop := exists pre x post, l = pre ++ x :: post /\ l' = pre ++ f x :: post /\ is_item item pkg x = true /\ forall y, In y pre -> is_item item pkg y = false.
  Definition no_item (l : list expr) : Prop := forall y, In y l -> is_item item pkg y = false.
  Lemma fc_left a a' b : first_changed a a' -> first_changed (a ++ b) (a' ++ b).
  Proof. intros (pre & x & post & -> & -> & H). exists pre, x, (post ++ b). rewrite <- !app_assoc. auto. Qed.
  Lemma fc_right a b b' : no_item a -> first_changed b b' -> first_changed (a ++ b) (a ++ b').
  Proof. intros N (pre & x & post & -> & -> & I & H). exists (a ++ pre), x, post. rewrite <- !app_assoc. split; auto. split; auto. split; auto. intros y J. apply in_app_iff in J as [J | J]; auto. Qed.
  Lemma none_app a b : no_item a -> no_item b -> no_item (a ++ b).
  Proof. intros A B y I. apply in_app_iff in I as [I | I]; auto. Qed.
  Lemma map_first_spec l : match map_first f item pkg l with Some l' => first_changed l l' | None => no_item l end.
  Proof.
    induction l as [|x l IH]; cbn [map_first]; [intros y []|]. destruct (is_item item pkg x) eqn:E.
    - exists [], x, l. split; auto. split; auto. split; auto. intros y [].
    - destruct (map_first f item pkg l) as [l'|]; cbn [option_map].
      + apply (fc_right [x] l l'); auto. intros y [<- | []]; auto.
      + intros y [<- | I]; auto.
  Qed.
  Lemma map_in_lists_spec e : match map_in_lists f item pkg e with Some e' => first_changed (List.concat (AllLists e)) (List.concat (AllLists e')) /\ AllSelects e' = AllSelects e | None => no_item (List.concat (AllLists e)) end.
  Proof.
    induction e; try (cbn; intros ? []).
    - cbn [map_in_lists]. pose proof (map_first_spec l) as H. destruct (map_first f item pkg l) as [l'|]; cbn [option_map AllLists List.concat AllSelects]; rewrite ?app_nil_r; auto.
    - cbn [map_in_lists AllLists]. destruct (beq op %"+") eqn:Eo; [|intros ? []]. rewrite concat_app. destruct (map_in_lists f item pkg e1) as [x'|].
      + cbn [AllLists AllSelects]. rewrite Eo, concat_app. destruct IHe1 as (H & ->). split; auto. now apply fc_left.
      + destruct (map_in_lists f item pkg e2) as [y'|]; cbn [option_map].
        * cbn [AllLists AllSelects]. rewrite Eo, concat_app. destruct IHe2 as (H & ->). split; auto. now apply fc_right.
        * now apply none_app.
  Qed.
  Lemma map_in_branches_spec kvs : let lists := fun kvs => List.concat (flat_map (fun kv => opt_list (fun l => l) (branch_list kv)) kvs) in
    match map_in_branches f item pkg kvs with Some kvs' => first_changed (lists kvs) (lists kvs') | None => no_item (lists kvs) end.
  Proof.
    cbv zeta. induction kvs as [|kv kvs IH]; cbn [map_in_branches]; [intros ? []|].
    assert (G : branch_list kv = None -> match option_map (cons kv) (map_in_branches f item pkg kvs) with
       Some kvs' => first_changed (List.concat (flat_map (fun kv => opt_list (fun l => l) (branch_list kv)) (kv :: kvs))) (List.concat (flat_map (fun kv => opt_list (fun l => l) (branch_list kv)) kvs')) | None => no_item (List.concat (flat_map (fun kv => opt_list (fun l => l) (branch_list kv)) (kv :: kvs))) end).
    { intro B. destruct (map_in_branches f item pkg kvs); cbn [option_map flat_map]; rewrite B; cbn [opt_list app]; exact IH. }
    destruct kv; try (apply G; reflexivity). destruct kv2; try (apply G; reflexivity). clear G.
    pose proof (map_first_spec l) as H. destruct (map_first f item pkg l) as [l'|]; cbn [flat_map branch_list opt_list app List.concat].
    - now apply fc_left.
    - destruct (map_in_branches f item pkg kvs) as [k'|]; cbn [option_map flat_map branch_list opt_list app List.concat]; [now apply fc_right|now apply none_app].
  Qed.
  Lemma map_in_selects_spec e : match map_in_selects f item pkg e with
    | Some e' => first_changed (List.concat (flat_map dict_lists (AllSelects e))) (List.concat (flat_map dict_lists (AllSelects e'))) /\ AllLists e' = AllLists e /\ forallb one_dict (AllSelects e') = forallb one_dict (AllSelects e)
    | None => no_item (List.concat (flat_map dict_lists (AllSelects e))) end.
  Proof.
    induction e; try (cbn; intros ? []).
    - cbn [map_in_selects AllSelects]. destruct (is_select e) eqn:Es; [|destruct args as [|[] ?]; intros ? []]. destruct args as [|[] rest]; try (cbn; intros ? []).
      pose proof (map_in_branches_spec l) as H. cbv zeta in H. destruct (map_in_branches f item pkg l) as [k'|]; cbn [option_map AllSelects AllLists]; rewrite ?Es; cbn [flat_map dict_lists]; rewrite ?app_nil_r; auto.
    - cbn [map_in_selects AllSelects]. destruct (beq op %"+") eqn:Eo; [|intros ? []]. rewrite flat_map_app, concat_app. destruct (map_in_selects f item pkg e1) as [x'|].
      + cbn [AllLists AllSelects]. rewrite Eo, flat_map_app, concat_app, !forallb_app. destruct IHe1 as (H & -> & ->). split; auto. now apply fc_left.
      + destruct (map_in_selects f item pkg e2) as [y'|]; cbn [option_map].
        * cbn [AllLists AllSelects]. rewrite Eo, flat_map_app, concat_app, !forallb_app. destruct IHe2 as (H & -> & ->). split; auto. now apply fc_right.
        * now apply none_app.
  Qed.
  Lemma find_changed l l' : (forall x, is_item item pkg (f x) = is_item item pkg x) -> first_changed l l' -> find (is_item item pkg) l' = option_map f (find (is_item item pkg) l).
  Proof.
    intros K (pre & x & post & -> & -> & I & N). assert (F : forall z rest, is_item item pkg z = true -> find (is_item item pkg) (pre ++ z :: rest) = Some z).
    { intros z rest Hz. induction pre as [|y pre IH]; cbn [app find]; [now rewrite Hz|]. rewrite (N y) by now left. apply IH. intros w J. apply N. now right. }
    rewrite !F; auto. now rewrite K.
  Qed.
  Lemma map_item_find e : (forall x, is_item item pkg (f x) = is_item item pkg x) -> listOrSelectFind (map_item f item pkg e) item pkg = option_map f (listOrSelectFind e item pkg).
  Proof.
    intro K. unfold listOrSelectFind, listsFind, map_item, allListsFromSelects. pose proof (map_in_lists_spec e) as H. destruct (map_in_lists f item pkg e) as [e'|].
    - destruct H as (H & ->). apply find_changed; auto. rewrite !concat_app. now apply fc_left.
    - pose proof (map_in_selects_spec e) as H2. destruct (forallb one_dict (AllSelects e)) eqn:Eo.
      + destruct (map_in_selects f item pkg e) as [e'|].
        * destruct H2 as (H2 & -> & ->). apply find_changed; auto. rewrite !concat_app. now apply fc_right.
        * rewrite Eo. assert (Z : find (is_item item pkg) (List.concat (AllLists e ++ flat_map dict_lists (AllSelects e))) = None); [|now rewrite Z].
          destruct (find _ _) as [x|] eqn:E; auto. exfalso. apply find_some in E as (I & E). rewrite concat_app in I. rewrite (none_app _ _ H H2 x I) in E. discriminate E.
      + rewrite Eo, app_nil_r. assert (Z : find (is_item item pkg) (List.concat (AllLists e)) = None); [|now rewrite Z].
        destruct (find _ _) as [x|] eqn:E; auto. exfalso. apply find_some in E as (I & E). rewrite (H x I) in E. discriminate E.
  Qed.
  (** Only this element is changed *)
  Lemma map_item_elements e : Forall simple_select (parts e) -> (first_changed (plain e ++ branches e) (plain (map_item f item pkg e) ++ branches (map_item f item pkg e))) \/ (no_item (plain e ++ branches e) /\ map_item f item pkg e = e).
  Proof.
    intro Sm. apply simple_selects in Sm. rewrite <- !AllLists_plain, <- !AllSelects_branches. unfold map_item. pose proof (map_in_lists_spec e) as H. destruct (map_in_lists f item pkg e) as [e'|].
    - left. destruct H as (H & ->). now apply fc_left.
    - rewrite Sm. pose proof (map_in_selects_spec e) as H2. destruct (map_in_selects f item pkg e) as [e'|].
      + left. destruct H2 as (H2 & -> & _). now apply fc_right.
      + right. split; auto. now apply none_app.
  Qed.
End Item.
Lemma is_item_com g item pkg x : is_item item pkg (map_com g x) = is_item item pkg x.
Proof. unfold map_com. destruct x; reflexivity. Qed.
Lemma item_com (g : comments -> comments) x item pkg : is_item item pkg x = true -> com (map_com g x) = g (com x).
Proof. unfold map_com. destruct x; try discriminate. reflexivity. Qed.

Theorem C93_value : forall eol s attr value str r e t, attr_is attr (r_args r) e -> one_line str t -> (exists x, listOrSelectFind e value (pkg s) = Some x) ->
  (exists x, listOrSelectFind e value (pkg s) = Some x /\
     (** on a line of its own: the comment is replaced, a comment at the end of the line stays; at the end of the line: the other way round *)
     (full_line eol str = true -> cmdPrintCommentValue s attr value (cmdCommentValue eol s attr value str r) = Some [commentsText (comment_lines str ++ c_suffix (com x))]) /\
     (full_line eol str = false -> cmdPrintCommentValue s attr value (cmdCommentValue eol s attr value str r) = Some [commentsText (c_before (com x) ++ comment_lines str)]) /\
     (com x = no_com -> cmdPrintCommentValue s attr value (cmdCommentValue eol s attr value str r) = Some [t])) /\
  cmdPrintCommentValue s attr value (cmdRemoveCommentValue s attr value r) = Some [[]] /\
  (forall k, k <> attr -> Attr k (r_args (cmdCommentValue eol s attr value str r)) = Attr k (r_args r)) /\
  (forall k, k <> attr -> Attr k (r_args (cmdRemoveCommentValue s attr value r)) = Attr k (r_args r)).
Proof.
  intros eol s attr value str r e t A T (x & Fx). apply attr_is_some in A. unfold cmdCommentValue, cmdRemoveCommentValue, edit_value. rewrite A. cbn [with_args r_args].
  assert (P : forall g, cmdPrintCommentValue s attr value (with_args (SetAttr attr (map_item (map_com g) value (pkg s) e) (r_args r)) r) = Some [commentsText (c_before (g (com x)) ++ c_suffix (g (com x)))]).
  { intro g. unfold cmdPrintCommentValue. cbn [with_args r_args]. rewrite (proj1 (C33_get_set attr _ (r_args r))). rewrite map_item_find by apply is_item_com. rewrite Fx. cbn [option_map].
    unfold listOrSelectFind, listsFind in Fx. apply find_some in Fx as (_ & I). now rewrite (item_com g x value (pkg s) I). }
  split; [|split; [|split]].
  - exists x. split; auto. rewrite P. split; [|split].
    + intros ->. reflexivity.
    + intros ->. reflexivity.
    + intro N. rewrite N. destruct (full_line eol str); cbn [set_comment no_com c_before c_suffix c_after app]; rewrite ?app_nil_r; now rewrite (text_lines str t T).
  - now rewrite P.
  - intros k N. now apply C33_get_set.
  - intros k N. now apply C33_get_set.
Qed.
Print Assumptions C93_value.
(** ... and no other element of the list *)
Theorem C93_value_only : forall eol s attr value str r e, attr_is attr (r_args r) e -> Forall simple_select (parts e) ->
  exists e', attr_is attr (r_args (cmdCommentValue eol s attr value str r)) e' /\
    ((exists x pre post, named_value s value e x pre post /\ plain e' ++ branches e' = pre ++ map_com (set_comment (full_line eol str) (comment_lines str)) x :: post) \/
     (forall x, In x (plain e ++ branches e) -> ~ spells value (pkg s) x) /\ e' = e).
Proof.
  intros eol s attr value str r e A Sm. apply attr_is_some in A. unfold cmdCommentValue, edit_value. rewrite A. cbn [with_args r_args]. eexists. split; [apply attr_is_some, C33_get_set|].
  destruct (map_item_elements (map_com (set_comment (full_line eol str) (comment_lines str))) value (pkg s) e Sm) as [(pre & x & post & E & E' & I & N) | (N & E)].
  - left. exists x, pre, post. split; auto. split; auto. split; [now apply is_item_spec|]. intros y J K. apply is_item_spec in K. rewrite (N y J) in K. discriminate K.
  - right. split; auto. intros x J K. apply is_item_spec in K. rewrite (N x J) in K. discriminate K.
Qed.
Print Assumptions C93_value_only.

(** ** C93: an attribute *)
Lemma defn_map attr f l : (forall x, defines attr (f x) = defines attr x) -> AttrDefn attr (map_defn attr f l) = option_map f (AttrDefn attr l).
Proof. intro K. unfold AttrDefn. induction l as [|x l IH]; auto. cbn [map_defn find]. destruct (defines attr x) eqn:D; cbn [find]; rewrite ?K, ?D; auto. Qed.
Lemma defn_other attr f l k : (forall x, attr_key (f x) = attr_key x) -> k <> attr -> Attr k (map_defn attr f l) = Attr k l.
Proof.
  intros K N. unfold Attr, AttrDefn. induction l as [|x l IH]; auto. cbn [map_defn]. destruct (defines attr x) eqn:D; cbn [find].
  - assert (E : defines k x = false). { unfold defines in *. destruct (attr_key x) as [a|]; auto. apply beq_eq in D as ->. now apply beq_neq, not_eq_sym. }
    assert (E' : defines k (f x) = false) by (unfold defines in *; now rewrite K). now rewrite E, E'.
  - destruct (defines k x); auto.
Qed.
Lemma key_set_com c x : match set_com c x with EIdent i => Some (i_name i) | _ => None end = match x with EIdent i => Some (i_name i) | _ => None end.
Proof. destruct x; reflexivity. Qed.
Lemma key_uncomment x : attr_key (uncomment_attr x) = attr_key x.
Proof. destruct x; try reflexivity. cbn [uncomment_attr attr_key]. apply key_set_com. Qed.
Lemma key_comment full l x : attr_key (comment_attr full l x) = attr_key x.
Proof. destruct x; try reflexivity. cbn [comment_attr]. destruct full; cbn [attr_key]; auto. unfold map_com. apply key_set_com. Qed.
Theorem C93_attribute : forall eol attr str r, ~ no_attr attr (r_args r) ->
  cmdPrintCommentAttr attr (cmdRemoveCommentAttr attr r) = Some [[]] /\
  (forall k, k <> attr -> Attr k (r_args (cmdRemoveCommentAttr attr r)) = Attr k (r_args r)) /\
  (forall k, k <> attr -> Attr k (r_args (cmdCommentAttr eol attr str r)) = Attr k (r_args r)) /\
  (** where the new comment is *)
  (exists pre c i p op b v post, r_args r = pre ++ EAssign c (EIdent i) p op b v :: post /\ i_name i = attr /\ no_attr attr pre /\
     r_args (cmdCommentAttr eol attr str r) = pre ++ EAssign c (if full_line eol str then EIdent (Ident (set_comment true (comment_lines str) (i_com i)) (i_pos i) attr) else EIdent i) p op b (if full_line eol str then v else map_com (set_comment false (comment_lines str)) v) :: post) /\
  (** print_comment does not see it there, before the file is written and read again *)
  cmdPrintCommentAttr attr (cmdCommentAttr eol attr str r) = cmdPrintCommentAttr attr r.
Proof.
  intros eol attr str r Ha. destruct (Attr attr (r_args r)) as [v|] eqn:A; [|exfalso; apply Ha; now apply no_attr_none].
  assert (Dd : exists x, AttrDefn attr (r_args r) = Some x) by (unfold Attr in A; destruct (AttrDefn attr (r_args r)); [eauto|discriminate A]). destruct Dd as (x & Dx).
  unfold cmdPrintCommentAttr, cmdRemoveCommentAttr, cmdCommentAttr. cbn [with_args r_args]. split; [|split; [|split; [|split]]].
  - rewrite defn_map, Dx; [|intro y; unfold defines; now rewrite key_uncomment]. cbn [option_map]. unfold AttrDefn in Dx. apply find_some in Dx as (_ & Dx). unfold defines in Dx. destruct x; try discriminate Dx. reflexivity.
  - intros k N. apply defn_other; auto. apply key_uncomment.
  - intros k N. apply defn_other; auto. apply key_comment.
  - apply attr_is_some, attr_is_split in A as (pre & y & post & E & (c & i & p & op & b & -> & Ei) & N). exists pre, c, i, p, op, b, v, post. split; auto. split; auto. split; auto. rewrite E. clear -N Ei.
    induction pre as [|z pre IH]; cbn [app map_defn].
    + assert (Ed : defines attr (EAssign c (EIdent i) p op b v) = true) by (unfold defines; cbn [attr_key]; now rewrite Ei, beq_refl). rewrite Ed. cbn [comment_attr]. destruct (full_line eol str); [|reflexivity]. unfold map_com. cbn [com set_com]. destruct i; cbn in *. now subst.
    + assert (Ed : defines attr z = false). { destruct (defines attr z) eqn:D; auto. exfalso. apply defines_spec in D as (w & G). apply (N z w); [now left|exact G]. } rewrite Ed. f_equal. apply IH. intros y w I. apply N. now right.
  - rewrite defn_map; [|intro y; unfold defines; now rewrite key_comment]. rewrite Dx. cbn [option_map]. destruct x; cbn [comment_attr]; auto. destruct (full_line eol str); reflexivity.
Qed.
Print Assumptions C93_attribute.
(** It shows the comments above the attribute and then the one at the end of its line. *)
Theorem C93_attribute_shown : forall attr r pre c i p op b v post, r_args r = pre ++ EAssign c (EIdent i) p op b v :: post -> i_name i = attr -> no_attr attr pre ->
  cmdPrintCommentAttr attr r = Some [commentsText (c_before c ++ c_suffix c)].
Proof.
  intros attr r pre c i p op b v post E Ei N. unfold cmdPrintCommentAttr, AttrDefn. assert (Ed : defines attr (EAssign c (EIdent i) p op b v) = true) by (unfold defines; cbn [attr_key]; now rewrite Ei, beq_refl).
  rewrite E, find_app_skip; [reflexivity|now apply no_attr_defines|exact Ed].
Qed.
Print Assumptions C93_attribute_shown.
(** So a comment that was just written is not printed. *)
Theorem C93_attribute_refuted : exists attr str r t, ~ no_attr attr (r_args r) /\ one_line str t /\ t <> [] /\ cmdPrintCommentAttr attr (cmdCommentAttr false attr str r) = Some [[]].
Proof.
  exists %"a", %"why", (ex_call [arg_of %"a" (num %"1")]). eexists. split; [|split; [reflexivity|split]].
  - intro N. apply (N (arg_of %"a" (num %"1")) (num %"1")); [now left|]. unfold gives, arg_of. do 5 eexists. split; reflexivity.
  - intro H. vm_compute in H. discriminate H.
  - vm_compute. reflexivity.
Qed.
Example C93_nontrivial :
  cmdPrintCommentRule (cmdCommentRule %"a b\nc" ex_rule) = [%"a b c"] /\ one_line %"a b\nc" %"a b c" /\
  cmdPrintCommentValue ex_setting %"deps" %"//p:a" (cmdCommentValue true ex_setting %"deps" %":a" %"x" ex_rule) = Some [%"x"] /\
  full_line true %"x" = false /\ full_line true %"x\ny" = true /\ ~ no_attr %"deps" (r_args ex_rule).
Proof.
  split; [vm_compute; reflexivity|]. split; [vm_compute; reflexivity|]. split; [vm_compute; reflexivity|]. split; [vm_compute; reflexivity|]. split; [vm_compute; reflexivity|].
  rewrite no_attr_none. vm_compute. discriminate.
Qed.
