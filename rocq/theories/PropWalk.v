(** Property C28: the tree walker. *)
From Verif Require Import Base BaseProofs Ast Walk WalkSpec WalkProofs.

(** C28: the calls made by WalkInterruptable are, in preorder, exactly the positions of the tree
    that are not below a node for which the callback asked to stop; each call gets the node at
    that position and the nodes above it. *)
Theorem C28_interruptable_preorder :
  forall (stop : expr -> list expr -> bool) (e : expr),
    exists positions : list (list nat),
      StronglySorted path_before positions /\
      (forall p, In p positions <->
         node_at children e p <> None /\
         ~ (exists q i t n, p = q ++ i :: t /\ node_at children e q = Some n /\
                            stop n (above children e q) = true)) /\
      Forall2 (fun p call => node_at children e p = Some (fst call) /\ snd call = above children e p)
        positions (WalkInterruptable stop e).
Proof.
  intros stop e. destruct (visit_good stop e []) as (ps & S1 & I1 & F1). exists ps.
  split; [exact S1|split; [exact I1|exact F1]].
Qed.
Print Assumptions C28_interruptable_preorder.
Theorem C28_walk_preorder :
  forall e : expr,
    exists positions : list (list nat),
      StronglySorted path_before positions /\ NoDup positions /\
      (forall p, In p positions <-> node_at children e p <> None) /\
      Forall2 (fun p call => node_at children e p = Some (fst call) /\ snd call = above children e p)
        positions (Walk e).
Proof.
  intros e. destruct (visit_good (fun _ _ => false) e []) as (ps & S1 & I1 & F1). exists ps.
  split; auto. split; [|split; auto].
  - clear -S1. induction S1 as [|p ps S1 IH Hf]; constructor; auto. intros Hin.
    rewrite Forall_forall in Hf. destruct (Hf p Hin) as [(i & t & H)|(r & i & s & j & t & H1 & H2 & H3)].
    + apply (f_equal (@List.length nat)) in H. rewrite app_length in H; simpl in H; lia.
    + rewrite H1 in H2. apply app_inv_head in H2. injection H2. lia.
  - intros p. rewrite I1. split; [tauto|]. intros H. split; auto. intros (q & i & t & n & _ & _ & H'). discriminate.
Qed.
Print Assumptions C28_walk_preorder.
(** The children of a node are its immediate subexpressions, type annotations excepted. *)
Theorem C28_children :
  forall e x, load_ok e ->
    (In x (children e) -> sub e x) /\ (sub e x -> In x (children e) \/ type_part e x).
Proof. intros e x H. split; [apply children_sub; auto|apply sub_children; auto]. Qed.
Print Assumptions C28_children.
Theorem C28_type_annotations_refuted :
  exists e x, load_ok e /\ sub e x /\ ~ In x (map fst (Walk e)).
Proof.
  exists (ETyped no_com (Ident no_com no_pos %"x") (ELit no_com no_pos %"1")), (ELit no_com no_pos %"1").
  split; [exact I|]. split; [constructor|]. vm_compute. intros [H|[]]. discriminate.
Qed.
Print Assumptions C28_type_annotations_refuted.
(** Rewriting walks: the callback's result is descended into, with itself on the stack. *)
Theorem C28_edit_unfolds :
  forall cb, (forall stk e, height (cb stk e) <= height e) ->
    forall stk e, Edit_from cb stk e = map_children (Edit_from cb (stk ++ [cb stk e])) (cb stk e).
Proof. intros cb H stk e. apply Edit_from_unfold; auto. Qed.
Print Assumptions C28_edit_unfolds.
Example C28_nontrivial :
  let x n := EIdent (Ident no_com no_pos n) in
  let e := EBinary no_com (x %"a") no_pos %"+" false (EParen no_com no_pos (x %"b") (End no_com no_pos) false) in
  map (fun c => (fst c, List.length (snd c))) (Walk e) =
  [(e, 0); (x %"a", 1); (EParen no_com no_pos (x %"b") (End no_com no_pos) false, 1); (x %"b", 2)].
Proof. reflexivity. Qed.
