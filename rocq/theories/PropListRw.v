(** Properties C10 and C27 for the sorting of string lists in whole files. *)
From Verif Require Import Base BaseProofs Ast Walk WalkSpec WalkProofs WalkGen StrList StrListSpec Rewrite CallSpec CallProofs LabelRwProofs ListRwSpec ListRwProofs PropStrList.

(** C10: the list rewrite of a file changes nothing but the order and multiplicity of strings in
    sortable attributes and in lists marked 'keep sorted'. *)
Theorem C10_file :
  forall w uoff allow strip f,
    walked (lists_sorted strip (w_sortable w uoff allow) (w_denied w) (like_build (file_type f))) [] f
      (sortStringLists w uoff allow strip f).
Proof.
  intros. apply Edit_walked; [apply listsort_height|apply listsort_kind|]. apply listsort_ok.
Qed.
Print Assumptions C10_file.

(** C27: below a node marked 'buildifier: leave-alone' no list is sorted, unless a 'keep sorted'
    comment asks for it there. *)
Theorem C27_lists_kept_partial :
  forall w uoff allow strip ty stk e,
    left_alone stk e -> (forall x, within e x -> ~ marked %"keep sorted" x) ->
    Edit_from (listsort_node w uoff allow strip ty) stk e = e.
Proof.
  intros w uoff allow strip ty stk e H1 H2.
  apply (Edit_id (listsort_node w uoff allow strip ty) (listsort_height w uoff allow strip ty)
    (fun stk e => left_alone stk e /\ forall x, within e x -> ~ marked %"keep sorted" x)); auto.
  clear. intros stk e [H1 H2]. split.
  - destruct (listsort_ok w uoff allow strip ty stk e) as [->|H]; auto. exfalso. destruct e; try contradiction.
    + destruct H as (_ & H & _). contradiction.
    + destruct H as (H & _). apply (H2 _ (within_self _)), H.
    + destruct H as ([H|(x & l0 & -> & H)] & _); [apply (H2 _ (within_self _)), H|].
      apply (H2 x); auto. eapply within_child; [apply within_self|]. left; auto.
    + destruct H as (H & _). apply (H2 _ (within_self _)), H.
  - intros c Hc. split; [apply left_alone_child; auto|]. intros x Hx. apply H2. clear H2.
    induction Hx as [|x y Hx IH Hy]; [eapply within_child; [apply within_self|auto]|eapply within_child; eauto].
Qed.
Print Assumptions C27_lists_kept_partial.
(** The unconditional claim is false in two ways: a 'keep sorted' comment below the marked node
    wins, ... *)
Definition cmt (t : bytes) : comments := Comments [Comment no_pos t] [] [].
Definition strs (l : list bytes) : list expr := map (fun v => EStr (lit v)) l.
Definition no_end : endp := End no_com no_pos.
Definition call (c : comments) (f : bytes) (args : list expr) : expr :=
  ECall c (EIdent (Ident no_com no_pos f)) no_pos args no_end false false.
Definition kwarg (c : comments) (k : bytes) (v : expr) : expr :=
  EAssign c (EIdent (Ident no_com no_pos k)) no_pos %"=" false v.
Theorem C27_keep_sorted_wins_refuted :
  exists e, left_alone [] e /\
    Edit_from (listsort_node (Rewriter None [] [] [] [] [] [] false false) false [] false TypeBuild) [] e <> e.
Proof.
  exists (call (cmt %"# buildifier: leave-alone") %"f" [kwarg no_com %"x" (EList (cmt %"# keep sorted") no_pos (strs [%"b"; %"a"]) no_end false)]).
  split.
  - eexists. split; [left; reflexivity|]. eexists _, _, _. split; [left; reflexivity|].
    instantiate (1 := []). instantiate (1 := %"# "). reflexivity.
  - vm_compute. discriminate.
Qed.
Print Assumptions C27_keep_sorted_wins_refuted.
(** ... and the parts of an attribute are rewritten without looking at their own mark: a marked
    select is sorted when it is an operand of the attribute of an unmarked call. *)
Theorem C27_marked_operand_refuted :
  exists pre sel post, marked %"buildifier: leave-alone" sel /\
    let e := call no_com %"r" [kwarg no_com %"deps" (EBinary no_com pre no_pos %"+" false sel)] in
    let out := listsort_node (Rewriter None [] [] [%"deps"] [] [] [] false false) false [] false TypeBuild [] e in
    out = call no_com %"r" [kwarg no_com %"deps" (EBinary no_com pre no_pos %"+" false post)] /\ post <> sel.
Proof.
  pose (mk := fun l => call (cmt %"# buildifier: leave-alone") %"select"
    [EDict no_com no_pos [EKV no_com (EStr (lit %"c")) no_pos (EList no_com no_pos (strs l) no_end false)] no_end false]).
  exists (EList no_com no_pos (strs [%"a"]) no_end false), (mk [%"y"; %"x"]), (mk [%"x"; %"y"]).
  split; [|split; [vm_compute; reflexivity|discriminate]].
  eexists _, _, _. split; [left; reflexivity|]. instantiate (1 := []). instantiate (1 := %"# "). reflexivity.
Qed.
Print Assumptions C27_marked_operand_refuted.
Example C10_file_nontrivial :
  let f l := EFile no_com (FMeta [] [] [] TypeBuild) [Some (call no_com %"r" [kwarg no_com %"deps" (EList no_com no_pos (strs l) no_end false)])] in
  sortStringLists (Rewriter None [] [] [%"deps"] [] [] [] false false) false [] false (f [%"b"; %":a"; %"b"; %"a"]) =
  f [%"a"; %"b"; %":a"].
Proof. reflexivity. Qed.
