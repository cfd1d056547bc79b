(** Properties C29 (which rewrites run) and C58 (layout rewrites). *)
From Verif Require Import Base BaseProofs Order Ast Walk WalkSpec WalkProofs WalkGen StrList Rewrite CallSpec CallProofs
  Loads LoadsSpec LoadsProofs LoadsOrder Pipeline LayoutSpec PipelineProofs PropLoads.

(** C29: the rewrites that run are documented ones, in the documented order, and exactly those
    the configuration asks for; running them one after the other gives the result, and a file stays
    a file of the same path and type. *)
Fixpoint apply_all (l : list (expr -> option expr)) (f : expr) : option expr :=
  match l with [] => Some f | h :: l' => match h f with Some f' => apply_all l' f' | None => None end end.
Definition rewrite_named srt_loads srt_args g w (n : bytes) (f : expr) : option expr :=
  match find (fun r => beq (rw_name r) n) (rewrites srt_loads srt_args) with
  | Some r => rw_fn r g w f
  | None => None
  end.
Theorem C29_documented :
  forall srt_loads srt_args g w c m l tr f',
    Rewrite srt_loads srt_args g w (EFile c m l) = Some (tr, f') ->
    subseq tr documented_order /\
    (forall n, In n tr <-> In n documented_order /\ should_run (g_disabled g) (w_set w) (f_type m) n) /\
    apply_all (map (rewrite_named srt_loads srt_args g w) tr) (EFile c m l) = Some f' /\
    (exists l', f' = EFile c m l').
Proof.
  intros sl sa g w c m l tr f' H. unfold Rewrite in H.
  destruct (fun K => loop_trace sl sa g w _ (EFile c m l) _ _ (fun r Hr => Hr) K H) as [H1 H2]; [exact I|]. cbn [file_type] in H2.
  split; [rewrite H2, <- (table_names sl sa); apply subseq_filter|].
  split.
  { intros n. rewrite H2, in_map_iff. split.
    - intros (r & <- & Hr). apply filter_In in Hr as [Hr Hx]. apply runs_spec with (a := sl) (b := sa) in Hx; auto. split; auto.
      rewrite <- (table_names sl sa). apply in_map; auto.
    - intros [Hd Hs]. rewrite <- (table_names sl sa), in_map_iff in Hd. destruct Hd as (r & <- & Hr). exists r. split; auto.
      apply filter_In. split; auto. apply runs_spec with (a := sl) (b := sa); auto. }
  split; [|destruct f'; cbn in H1; try contradiction; destruct H1; subst; eauto].
  assert (G : forall table f tr f', is_file f -> (forall r, In r table -> In r (rewrites sl sa)) ->
            rewrite_loop g w table f = Some (tr, f') -> apply_all (map (rewrite_named sl sa g w) tr) f = Some f').
  { clear. induction table as [|r table IH]; intros f tr f' Hf Ht H; cbn [rewrite_loop] in H.
    - injection H as <- <-. reflexivity.
    - destruct (runs g w (file_type f) r).
      + destruct (rw_fn r g w f) as [f1|] eqn:E; [|discriminate].
        destruct (rewrite_loop g w table f1) as [[tr1 f2]|] eqn:L; [|discriminate]. injection H as <- <-.
        cbn [map fst snd apply_all].
        assert (N : rewrite_named sl sa g w (rw_name r) f = rw_fn r g w f).
        { unfold rewrite_named. specialize (Ht r (or_introl eq_refl)). clear -Ht. unfold rewrites in *.
          repeat (destruct Ht as [<-|Ht]; [cbn [find rw_name beq]; vm_compute beq; reflexivity|]); contradiction. }
        rewrite N, E. apply IH; auto.
        * eapply same_file_is, rewrites_same_file; eauto. apply Ht; left; auto.
        * intros; apply Ht; right; auto.
      + apply IH; auto. intros; apply Ht; right; auto. }
  apply (G (rewrites sl sa)); [exact I|auto|exact H].
Qed.
Print Assumptions C29_documented.
(** An explicitly empty set runs nothing. *)
Theorem C29_empty_set :
  forall srt_loads srt_args g w f, w_set w = Some [] -> Rewrite srt_loads srt_args g w f = Some ([], f).
Proof.
  intros sl sa g w f H. unfold Rewrite. generalize (rewrites sl sa) as t.
  induction t as [|r t IH]; cbn [rewrite_loop]; auto. unfold runs. rewrite H, andb_false_r. cbn [mem_bytes orb]. exact IH.
Qed.
Print Assumptions C29_empty_set.
(** No rewrite panics, whatever the file. *)
Theorem C29_no_panic :
  forall srt_loads srt_args g w f, sorts srt_loads -> Rewrite srt_loads srt_args g w f <> None.
Proof.
  intros sl sa g w f Hs. unfold Rewrite.
  assert (P : forall r f, In r (rewrites sl sa) -> rw_fn r g w f <> None).
  { clear -Hs. intros r f Hr. unfold rewrites in Hr.
    repeat (destruct Hr as [<-|Hr]; [cbn [rw_fn]; try discriminate|]); [..|contradiction].
    - apply C16_no_panic.
    - destruct f; try discriminate. cbn [sortLoadStatements]. destruct (is_comment_anywhere _ _); [discriminate|].
      destruct (C20_runs_permuted sl stmts Hs) as (l' & E & _). rewrite E. discriminate. }
  assert (Q : forall t f, (forall r, In r t -> In r (rewrites sl sa)) -> rewrite_loop g w t f <> None).
  { induction t as [|r t IH]; intros f0 Ht; cbn [rewrite_loop]; [discriminate|].
    destruct (runs g w (file_type f0) r); [|apply IH; intros; apply Ht; right; auto].
    destruct (rw_fn r g w f0) as [f1|] eqn:E; [|apply P in E; auto; apply Ht; left; auto].
    specialize (IH f1 (fun r Hr => Ht r (or_intror Hr))). destruct (rewrite_loop g w t f1); [discriminate|]. congruence. }
  apply Q; auto.
Qed.
Print Assumptions C29_no_panic.
Definition plain_rewriter : rewriter := Rewriter None [] [] [] [] [] [] false false.
Definition bzl_file : expr := EFile no_com (FMeta [] [] [] TypeBzl) [Some (EParen no_com no_pos (ELit no_com no_pos %"012") (End no_com no_pos) false)].
Example C29_nontrivial :
  Rewrite (@isort expr) (@isort _) (Env [ %"label" ] [] false) plain_rewriter bzl_file =
  Some ([ %"listsort"; %"loadTop"; %"sameOriginLoad"; %"sortLoadStatements"; %"loadsort"; %"formatdocstrings";
          %"reorderarguments"; %"editoctal"; %"editfloat"; %"collapseEmpty" ],
        EFile no_com (FMeta [] [] [] TypeBzl) [Some (EParen no_com no_pos (ELit no_com no_pos %"0o12") (End no_com no_pos) false)]).
Proof. vm_compute. reflexivity. Qed.

(** C58: the multi-line sum rewrite and the empty-call rewrite only change layout flags, and the
    second changes only those of calls without arguments. *)
Theorem C58_multiplus_layout : forall f, same_but_layout f (fixMultilinePlus f).
Proof. intros f. apply multiplus_sbl. Qed.
Print Assumptions C58_multiplus_layout.
Theorem C58_collapse_layout :
  forall f, walked (fun _ e e1 => e1 = e \/ exists c x p en k m, e = ECall c x p [] en k m /\ e1 = ECall c x p [] en k false)
              [] f (collapseEmpty f).
Proof.
  intros f. apply Edit_walked.
  - intros stk e. destruct e; auto. destruct args; auto.
  - split; intros; eexists; reflexivity.
  - intros stk e. destruct e; auto. destruct args; auto. right. do 6 eexists. split; reflexivity.
Qed.
Print Assumptions C58_collapse_layout.
Definition a_list m := EList no_com no_pos [ELit no_com no_pos %"1"] (End no_com no_pos) m.
Example C58_nontrivial :
  fixMultilinePlus (EBinary no_com (a_list false) no_pos %"+" true (a_list false)) =
  EBinary no_com (a_list false) no_pos %"+" false (a_list true).
Proof. reflexivity. Qed.
