(** The comment tokens are in the parsed statements, in order. *)
From Verif Require Import Base BaseProofs Ast AttachSpec Lex LexSpec LRTables LRCert Parse LRProofs ParseSpec ParseLex ParseProofs ParseRules ParseStmts ParseSound CommentSpec.
Local Open Scope list_scope.

(** ** Expressions have no comments yet *)
Definition quiet (e : expr) : Prop := in_order_of e = [].
Definition quiet_ids (l : list ident) : Prop := flat_map id_in l = [].
Definition quietv (v : value) : Prop :=
  match v with
  | VNone | VTok _ | VPos _ => True
  | VExpr e | VBlock e _ => quiet e
  | VOpt o => opt_coms in_order_of o = []
  | VList l | VTests l _ | VStmts l _ => flat_map in_order_of l = []
  | VLoads l => flat_map id_in (map fst l) = [] /\ flat_map id_in (map snd l) = []
  end.
Definition quiet_case (r : nat) : Prop := forall f, nth_error actions (r - 1) = Some f ->
  forall vs v, Forall quietv vs -> f vs = Some v -> quietv v.
Ltac split_nil := repeat match goal with H : _ ++ _ = [] |- _ => apply app_eq_nil in H; destruct H end.
Ltac crack H := repeat match type of H with context [match ?x with _ => _ end] =>
  lazymatch x with context [match _ with _ => _ end] => fail | _ => destruct x; try discriminate H end end.
Ltac quiet_tac :=
  let f := fresh in let E := fresh in let vs := fresh in let v := fresh in let Q := fresh in let H := fresh in
  intros f E vs v Q H; cbn [nth_error actions Nat.sub] in E; injection E as <-;
  unfold un, bin, branch, first, first_pos, nothing, nil_list, nil_opt, nil_pos, some_opt, singleton, snoc, first_list, tuple2, typed, option_map, binary, unary, add_tuple in H;
  crack H; injection H as <-;
  repeat match goal with F : Forall _ (_ :: _) |- _ => inversion F; subst; clear F end;
  unfold quietv, quiet, around, end_in, id_in, str_in, end_at in *;
  cbn [in_order_of opt_coms flat_map com c_before c_suffix c_after no_com around app e_com i_com s_com map fst snd] in *;
  unfold around in *; rewrite ?map_app, ?flat_map_app in *;
  repeat match goal with H : _ /\ _ |- _ => destruct H end; split_nil;
  cbn [in_order_of opt_coms flat_map com c_before c_suffix c_after no_com around app e_com i_com s_com map fst snd] in *; unfold end_in, id_in, str_in, around in *; cbn [e_com app c_before c_suffix c_after no_com] in *; split_nil;
  repeat match goal with H : ?x = [] |- _ => rewrite H in * end; auto.
Definition quiet_rules : list nat := seq 15 3 ++ seq 25 124 ++ [4; 5].
Lemma quiet_ok : Forall quiet_case quiet_rules.
Proof. unfold quiet_rules. cbn [seq app]. repeat (apply Forall_cons; [quiet_tac|]). apply Forall_nil. Qed.
