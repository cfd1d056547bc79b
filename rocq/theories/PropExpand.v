(** C108: the files that are found in directories. *)
From Verif Require Import Base BaseProofs Ast Cli Expand.
Local Open Scope list_scope.

(** ** What is asked for *)
Definition no_dir (n : node) : Prop := forall ok es, n <> Dir ok es.
(** From a directory the path leads to what is there; no link is followed. *)
Inductive leads : node -> list bytes -> node -> Prop :=
  | ld_here n : leads n [] n
  | ld_in es nm c p m : In (nm, c) es -> leads c p m -> leads (Dir true es) (nm :: p) m.
(** The same, but no directory .git is entered *)
Inductive leads_outside : node -> list bytes -> node -> Prop :=
  | lo_here n : leads_outside n [] n
  | lo_in es nm c p m : In (nm, c) es -> nm <> %".git" \/ p = [] -> leads_outside c p m -> leads_outside (Dir true es) (nm :: p) m.
Definition one_of (l : list bytes) (x : bytes) : Prop := In x l.
(** The name of a file that buildifier formats *)
Definition starlark_name (n : bytes) : Prop :=
  one_of [%"BUILD"; %"WORKSPACE"] n \/
  (exists x e, n = x ++ %"." ++ e /\ one_of [%"bzl"; %"sky"; %"star"] e) \/
  (exists b x e, n = b ++ %"." ++ x /\ one_of [%"BUILD"; %"WORKSPACE"; %"MODULE"] b /\ one_of [%"bazel"; %"oss"] e /\ exists y, n = y ++ %"." ++ e).
(** No two entries of a directory have the same name. *)
Definition well_named (n : node) : Prop := forall p es, leads n p (Dir true es) -> NoDup (map fst es).
(** Everything outside of .git can be read. *)
Definition readable (n : node) : Prop := forall p m, leads_outside n p m -> m <> Missing /\ forall es, m <> Dir false es.

(** ** Proofs *)
Section Induction.
  Context (P : node -> Prop) (Hm : P Missing) (Hf : P File) (Hl : forall t, P t -> P (Link t)) (Hd : forall ok es, Forall (fun e => P (snd e)) es -> P (Dir ok es)).
  Fixpoint node_induction (n : node) : P n :=
    match n with
    | Missing => Hm
    | File => Hf
    | Link t => Hl t (node_induction t)
    | Dir ok es => Hd ok es ((fix go es : Forall (fun e => P (snd e)) es := match es with [] => Forall_nil _ | e :: es' => Forall_cons _ (node_induction (snd e)) (go es') end) es)
    end.
End Induction.
Lemma ext_none s : ext_from s = None <-> ~ In c_dot s.
Proof.
  induction s as [|c s IH]; [cbn; tauto|]. cbn [ext_from In]. destruct (ext_from s) as [e|].
  - split; [discriminate|]. intro N. exfalso. assert (K : Some e = None) by (apply IH; tauto). discriminate K.
  - destruct (Ascii.eqb_spec c c_dot) as [E|Ne]; split; try discriminate; [intro N; exfalso; apply N; auto| |reflexivity]. intros _ [H|H]; [contradiction|]. now apply (proj1 IH).
Qed.
Lemma ext_some s e : ext_from s = Some e <-> exists x t, s = x ++ e /\ e = c_dot :: t /\ ~ In c_dot t.
Proof.
  revert e. induction s as [|c s IH]; intro e; [cbn; split; [discriminate|intros ([|? ?] & t & E & -> & _); discriminate E]|]. cbn [ext_from]. destruct (ext_from s) as [e'|] eqn:X.
  - split.
    + intro H. injection H as ->. destruct (proj1 (IH e) eq_refl) as (x & t & -> & -> & N). exists (c :: x), t. auto.
    + intros ([|d x] & t & E & -> & N).
      * cbn [app] in E. injection E as -> ->. apply ext_none in N. rewrite N in X. discriminate X.
      * cbn [app] in E. injection E as -> E. apply IH. exists x, t. auto.
  - pose proof (proj1 (ext_none s) X) as N0. destruct (Ascii.eqb_spec c c_dot) as [->|Nc].
    + split; [intro H; injection H as <-; exists [], s; auto|]. intros ([|d x] & t & E & -> & N); cbn [app] in E; [now rewrite E|]. injection E as <- E. exfalso. apply N0. rewrite E. apply in_app_iff. right. now left.
    + split; [discriminate|]. intros ([|d x] & t & E & -> & N); cbn [app] in E; [now injection E|]. injection E as -> E. exfalso. apply N0. rewrite E. apply in_app_iff. right. now left.
Qed.
Lemma file_ext_spec n e : ~ In c_dot e -> (file_ext n = c_dot :: e <-> exists y, n = y ++ %"." ++ e).
Proof.
  intro N. unfold file_ext. split.
  - destruct (ext_from n) as [x|] eqn:X; [|discriminate]. intros ->. apply ext_some in X as (y & t & -> & E & _). exists y. reflexivity.
  - intros (y & ->). replace (ext_from (y ++ %"." ++ e)) with (Some (c_dot :: e)); auto. symmetry. apply ext_some. exists y, e. auto.
Qed.
Lemma existsb_in x l : existsb (beq x) l = true <-> In x l.
Proof. rewrite existsb_exists. split; [intros (y & I & E); apply beq_eq in E; now subst|intro I; exists x; split; auto; apply beq_refl]. Qed.
Lemma starlark_spec n : isStarlarkFile n = true <-> starlark_name n.
Proof.
  unfold isStarlarkFile, starlark_name, one_of.
  assert (A : existsb (beq (file_ext n)) [%".bzl"; %".sky"; %".star"] = true <-> exists x e, n = x ++ %"." ++ e /\ In e [%"bzl"; %"sky"; %"star"]).
  { rewrite existsb_in. split.
    - intros [H|[H|[H|[]]]]; symmetry in H; [apply (file_ext_spec n %"bzl") in H|apply (file_ext_spec n %"sky") in H|apply (file_ext_spec n %"star") in H]; try (vm_compute; intuition discriminate); destruct H as (y & ->); do 2 eexists; (split; [reflexivity|]); cbn; auto.
    - intros (x & e & -> & [<-|[<-|[<-|[]]]]); [left|right; left|right; right; left]; symmetry; [apply (file_ext_spec _ %"bzl")|apply (file_ext_spec _ %"sky")|apply (file_ext_spec _ %"star")]; eauto; vm_compute; intuition discriminate. }
  assert (B : existsb (beq (file_ext n)) [%".bazel"; %".oss"] = true <-> exists e, In e [%"bazel"; %"oss"] /\ exists y, n = y ++ %"." ++ e).
  { rewrite existsb_in. split.
    - intros [H|[H|[]]]; symmetry in H; [apply (file_ext_spec n %"bazel") in H|apply (file_ext_spec n %"oss") in H]; try (vm_compute; intuition discriminate); destruct H as (y & ->); eexists; (split; [|eauto]); cbn; auto.
    - intros (e & [<-|[<-|[]]] & y & ->); [left|right; left]; symmetry; [apply (file_ext_spec _ %"bazel")|apply (file_ext_spec _ %"oss")]; eauto; vm_compute; intuition discriminate. }
  assert (C : has_prefix %"BUILD." n || has_prefix %"WORKSPACE." n || has_prefix %"MODULE." n = true <-> exists b x, n = b ++ %"." ++ x /\ In b [%"BUILD"; %"WORKSPACE"; %"MODULE"]).
  { rewrite !Bool.orb_true_iff, !has_prefix_spec. split.
    - intros [[(t & ->)|(t & ->)]|(t & ->)]; [exists %"BUILD", t|exists %"WORKSPACE", t|exists %"MODULE", t]; (split; [reflexivity|cbn; auto]).
    - intros (b & x & -> & [<-|[<-|[<-|[]]]]); [left; left|left; right|right]; exists x; reflexivity. }
  assert (D : In n [%"BUILD"; %"WORKSPACE"] -> file_ext n = []) by (intros [<-|[<-|[]]]; vm_compute; reflexivity).
  destruct (existsb (beq (file_ext n)) [%".bzl"; %".sky"; %".star"]) eqn:E1; [split; auto; intros _; right; left; now apply A|].
  destruct (existsb (beq (file_ext n)) [%".bazel"; %".oss"]) eqn:E2.
  - rewrite C. split.
    + intros (b & x & E & I). destruct (proj1 B eq_refl) as (e & Ie & y & Ey). right. right. exists b, x, e. eauto.
    + intros [I|[(x & e & E & I)|(b & x & e & E & Ib & _)]]; [|exfalso; assert (K : false = true) by (apply A; eauto); discriminate K|eauto]. exfalso. rewrite (D I) in E2. discriminate E2.
  - rewrite Bool.orb_true_iff, !beq_eq. split.
    + intros [->| ->]; left; cbn; auto.
    + intros [I|[(x & e & E & I)|(b & x & e & E & Ib & Ie & y & Ey)]]; [destruct I as [<-|[<-|[]]]; auto| |]; exfalso.
      * assert (K : false = true) by (apply A; eauto). discriminate K.
      * assert (K : false = true) by (apply B; eauto). discriminate K.
Qed.
(** A file below a directory that is to be formatted: the path to it *)
Definition found (n : node) (p : list bytes) : Prop := exists m pre nm, p = pre ++ [nm] /\ leads_outside n p m /\ no_dir m /\ starlark_name nm.
Lemma not_starlark n : isStarlarkFile n = false <-> ~ starlark_name n.
Proof. rewrite <- starlark_spec. destruct (isStarlarkFile n); split; try discriminate; auto. intro H. now destruct H. Qed.
Lemma found_in_dir es q : (exists nm c p', In (nm, c) es /\ q = nm :: p' /\ ((p' = [] /\ no_dir c /\ starlark_name nm) \/ (nm <> %".git" /\ found c p'))) <-> found (Dir true es) q.
Proof.
  split.
  - intros (nm & c & p' & I & -> & [(-> & N & S)|(Ng & (m & pre & x & -> & L & N & S))]).
    + exists c, [], nm. split; auto. split; auto. eapply lo_in; eauto. constructor.
    + exists m, (nm :: pre), x. split; auto. split; auto. eapply lo_in; eauto.
  - intros (m & pre & x & E & L & N & S). remember (Dir true es) as d eqn:Ed. destruct L as [d|es' nm c p' m I G L']; [destruct pre; discriminate E|]. injection Ed as ->. exists nm, c, p'. split; auto. split; auto.
    destruct pre as [|y pre]; cbn [app] in E; injection E as -> E.
    + subst p'. inversion L'; subst. left. auto.
    + right. destruct G as [G|G]; [|subst p'; destruct pre; discriminate G]. split; auto. exists m, pre, x. auto.
Qed.
Lemma walk_ok n : forall name path, n <> Missing -> (forall es, n <> Dir false es) -> (name <> %".git" -> readable n) ->
  exists l, walk_dir name path n = Some l /\ (forall q, In q l <-> exists p, q = path ++ p /\ ((p = [] /\ no_dir n /\ starlark_name name) \/ (name <> %".git" /\ found n p))) /\ (well_named n -> NoDup l).
Proof.
  induction n as [| |t _|ok es IH] using node_induction; intros name path Nm Nd R; [contradiction| | |].
  1,2: cbn [walk_dir]; eexists; split; [reflexivity|]; split; [|destruct (isStarlarkFile name); repeat constructor; intros []];
    pose proof (starlark_spec name) as S; destruct (isStarlarkFile name); cbn [In]; intro q; split;
    [intros [<-|[]]; exists []; rewrite app_nil_r; split; auto; left; split; auto; split; [intros ? ? K; discriminate K|now apply S]
    |intros (p & -> & [(-> & _)|(_ & (m & pre & x & -> & L & _))]); [left; symmetry; apply app_nil_r|inversion L; subst; destruct pre; discriminate]
    |intros []
    |intros (p & -> & [(-> & _ & K)|(_ & (m & pre & x & -> & L & _))]); [apply S in K; discriminate K|inversion L; subst; destruct pre; discriminate]].
  destruct ok; [|now destruct (Nd es)]. cbn [walk_dir]. unfold skip. destruct (beq name %".git") eqn:G.
  { apply beq_eq in G. exists []. split; auto. split; [|constructor]. intro q. split; [intros []|]. intros (p & _ & [(_ & N & _)|(N & _)]); [now apply (N true es)|contradiction]. }
  apply beq_neq in G. specialize (R G). clear Nm Nd.
  match goal with |- context [?g es] => set (go := g) end.
  assert (K : forall es', incl es' es -> exists l, go es' = Some l /\
     (forall q, In q l <-> exists nm c p', In (nm, c) es' /\ q = path ++ nm :: p' /\ ((p' = [] /\ no_dir c /\ starlark_name nm) \/ (nm <> %".git" /\ found c p'))) /\ (well_named (Dir true es) -> NoDup (map fst es') -> NoDup l)).
  { induction es' as [|(nm, c) es' IH']; intro Inc.
    - exists []. split; auto. split; [|constructor]. intro q. split; [intros []|intros (? & ? & ? & [] & _)].
    - destruct IH' as (b & Eb & Hb & Db); [intros x I; apply Inc; now right|]. assert (I0 : In (nm, c) es) by (apply Inc; now left).
      assert (L0 : forall p m, nm <> %".git" \/ p = [] -> leads_outside c p m -> leads_outside (Dir true es) (nm :: p) m) by (intros; eapply lo_in; eauto).
      destruct (R [nm] c) as (C1 & C2); [apply L0; [auto|constructor]|].
      destruct (proj1 (Forall_forall _ _) IH (nm, c) I0 nm (path ++ [nm])) as (a & Ea & Ha & Da); auto.
      { intros Ng p m L. apply (R (nm :: p) m). apply L0; auto. }
      cbn [snd] in *. exists (a ++ b). split; [unfold go; fold go; cbn [snd] in Ea; rewrite Ea, Eb; reflexivity|]. split.
      + intro q. rewrite in_app_iff, Ha, Hb. split.
        * intros [(p & -> & H)|(nm' & c' & p' & I & -> & H)]; [exists nm, c, p; split; [now left|]; split; auto; now rewrite <- app_assoc|exists nm', c', p'; split; [now right|]; auto].
        * intros (nm' & c' & p' & [E|I] & -> & H); [injection E as -> ->; left; exists p'; split; auto; now rewrite <- app_assoc|right; exists nm', c', p'; auto].
      + intros W D. cbn [map fst] in D. inversion D as [|? ? N D']; subst. assert (Da' : NoDup a) by (apply Da; intros p es0 L; apply (W (nm :: p) es0); econstructor; eauto). specialize (Db W D').
        assert (Dj : forall x, In x a -> ~ In x b).
        { intros x Ia Ib. apply Ha in Ia as (p & -> & _). apply Hb in Ib as (nm' & c' & p' & I & E & _). rewrite <- app_assoc in E. apply app_inv_head in E. injection E as <- _. apply N. apply in_map_iff. exists (nm, c'). auto. }
        clear -Da' Db Dj. induction a as [|x a IH]; auto. cbn [app]. inversion Da'; subst. constructor.
        * rewrite in_app_iff. intros [H|H]; [contradiction|]. apply (Dj x); [now left|auto].
        * apply IH; auto. intros y Iy. apply Dj. now right. }
  destruct (K es) as (l & El & Hl & Dl); [apply incl_refl|]. exists l. split; auto. split.
  - intro q. rewrite Hl. split.
    + intros (nm & c & p' & I & -> & H). exists (nm :: p'). split; auto. right. split; auto. apply found_in_dir. eauto 10.
    + intros (p & -> & [(_ & N & _)|(_ & F)]); [now destruct (N true es)|]. apply found_in_dir in F as (nm & c & p' & I & -> & H). exists nm, c, p'. auto.
  - intro W. apply Dl; auto. apply (W [] es). constructor.
Qed.
Lemma walk_bad n p m : leads_outside n p m -> m = Missing \/ (exists es, m = Dir false es) -> forall name path, p = [] \/ name <> %".git" -> walk_dir name path n = None.
Proof.
  induction 1 as [n|es nm c p m I G L IH]; intros B name path Nn.
  - destruct B as [-> |(es & ->)]; reflexivity.
  - destruct Nn as [Nn|Nn]; [discriminate Nn|]. cbn [walk_dir]. unfold skip. apply beq_neq in Nn. rewrite Nn. match goal with |- ?g es = None => set (go := g) end.
    specialize (IH B nm (path ++ [nm])). assert (W : walk_dir nm (path ++ [nm]) c = None) by (apply IH; tauto). clear IH. induction es as [|(nm', c') es IH]; [destruct I|]. unfold go. fold go. destruct I as [E|I]; [injection E as -> ->; now rewrite W|]. rewrite (IH I). destruct (walk_dir nm' (path ++ [nm']) c'); reflexivity.
Qed.
Lemma no_dir_dec n : no_dir n \/ exists ok es, n = Dir ok es.
Proof. destruct n; try (left; intros ? ? K; discriminate K). right. eauto. Qed.
(** ** C108 *)
(** An argument that can be read: it is there, and if it is a directory everything in it can be read. *)
Definition fine (a : argument) : Prop := stat (a_node a) <> Missing /\ (forall es, a_node a <> Dir false es) /\ (a_base a <> %".git" -> readable (a_node a)) /\ well_named (a_node a).
(** What is found for an argument *)
Inductive expands (a : argument) : list (bytes * list bytes) -> Prop :=
  | ex_file : no_dir (stat (a_node a)) -> expands a [(a_text a, [])]
  | ex_dir es l : a_node a = Dir true es -> a_base a <> %".git" -> NoDup l -> (forall x, In x l <-> exists p, x = (a_text a, p) /\ found (a_node a) p) -> expands a l
  | ex_git es : a_node a = Dir true es -> a_base a = %".git" -> expands a []
  | ex_link t ok es : a_node a = Link t -> stat t = Dir ok es -> ~ starlark_name (a_base a) -> expands a []
  | ex_link_name t ok es : a_node a = Link t -> stat t = Dir ok es -> starlark_name (a_base a) -> expands a [(a_text a, [])].
Lemma expand_one_ok a : fine a -> exists l, expand_one a = Some l /\ expands a l.
Proof.
  intros (Fm & Fd & Fr & Fw). unfold expand_one. destruct (no_dir_dec (stat (a_node a))) as [N|(ok & es & E)].
  - exists [(a_text a, [])]. split; [|now constructor]. destruct (stat (a_node a)); auto; [now destruct Fm|now destruct (N ok entries)].
  - rewrite E. destruct (a_node a) as [| |t|ok' es'] eqn:A; try discriminate E.
    + cbn [walk_dir]. pose proof (starlark_spec (a_base a)) as S. destruct (isStarlarkFile (a_base a)); eexists; (split; [reflexivity|]).
      * eapply ex_link_name; eauto. now apply S.
      * eapply ex_link; eauto. intro K. apply S in K. discriminate K.
    + cbn [stat] in E. injection E as -> ->. destruct ok; [|now destruct (Fd es)].
      destruct (walk_ok (Dir true es) (a_base a) []) as (l & El & Hl & Dl); try discriminate; auto. rewrite El. eexists. split; [reflexivity|].
      destruct (bytes_eq_dec (a_base a) %".git") as [G|G].
      * assert (l = []) as ->. { cbn [walk_dir] in El. unfold skip in El. rewrite G, beq_refl in El. now injection El as <-. } eapply ex_git; eauto.
      * eapply ex_dir; eauto.
        { apply FinFun.Injective_map_NoDup; auto. intros x y H. now injection H. }
        rewrite A. intro x. rewrite in_map_iff. split.
        { intros (p & <- & I). apply Hl in I as (p' & -> & [(_ & N & _)|(_ & F)]); [now destruct (N true es)|]. exists p'. auto. }
        intros (p & -> & F). exists p. split; auto. apply Hl. exists p. auto.
Qed.
Theorem C108_expand : forall args, Forall fine args -> exists ls, ExpandDirectories args = Some (List.concat ls) /\ Forall2 expands args ls.
Proof.
  induction 1 as [|a args F _ (ls & E & H)]; [exists []; split; [reflexivity|constructor]|]. destruct (expand_one_ok a F) as (l & El & Hl). exists (l :: ls). cbn [ExpandDirectories List.concat]. rewrite El, E. split; [reflexivity|now constructor].
Qed.
Print Assumptions C108_expand.
(** If something outside of .git cannot be read there is an error, and no file is formatted. *)
Theorem C108_error : forall args a p m, In a args -> m = Missing \/ (exists es, m = Dir false es) ->
  (stat (a_node a) = m \/ (leads_outside (a_node a) p m /\ ~ no_dir (a_node a) /\ a_base a <> %".git")) -> (forall t, a_node a = Link t -> m = Missing) -> ExpandDirectories args = None.
Proof.
  intros args a p m I B H Hl. assert (E : expand_one a = None).
  { unfold expand_one. destruct H as [H|(L & N & G)].
    - destruct B as [-> |(es & ->)]; [now rewrite H|]. rewrite H. destruct (a_node a) as [| |t|ok' es']; try discriminate H; [specialize (Hl t eq_refl); discriminate Hl|]. cbn [stat] in H. injection H as -> ->. reflexivity.
    - destruct (no_dir_dec (a_node a)) as [N'|(ok & es & A)]; [contradiction|]. rewrite (walk_bad _ _ _ L B) by auto. rewrite A. reflexivity. }
  induction args as [|b args IH]; [destruct I|]. cbn [ExpandDirectories]. destruct I as [->|I]; [now rewrite E|]. rewrite (IH I). destruct (expand_one b); reflexivity.
Qed.
Print Assumptions C108_error.
(** An argument that is a link to a directory: nothing in it is found, without an error. *)
Theorem C108_link_refuted : exists a es, stat (a_node a) = Dir true es /\ found (stat (a_node a)) [%"BUILD"] /\ ExpandDirectories [a] = Some [].
Proof.
  exists (Argument %"link" %"link" (Link (Dir true [(%"BUILD", File)]))). eexists. split; [reflexivity|]. split; [|vm_compute; reflexivity]. exists File, [], %"BUILD". split; auto. split; [eapply lo_in; [left; reflexivity|auto|constructor]|]. split; [intros ? ? K; discriminate K|]. left. now left.
Qed.
Print Assumptions C108_link_refuted.
(** A link to a directory is taken for a file when its name is that of a file. *)
Theorem C108_directory_refuted : exists a, a_node a = Dir true [(%"x.bzl", Link (Dir true []))] /\ fine a /\ ExpandDirectories [a] = Some [(%"d", [%"x.bzl"])].
Proof.
  exists (Argument %"d" %"d" (Dir true [(%"x.bzl", Link (Dir true []))])). split; [reflexivity|]. split; [|vm_compute; reflexivity]. split; [discriminate|]. split; [discriminate|]. split.
  - intros _ p m L. cbn [a_node] in L. inversion L; subst; [split; [discriminate|intros ? K; discriminate K]|]. match goal with H : In _ [_] |- _ => destruct H as [H|[]]; injection H as <- <- end. match goal with H : leads_outside (Link _) _ _ |- _ => inversion H; subst end. split; [discriminate|intros ? K; discriminate K].
  - intros p es L. cbn [a_node] in L. inversion L; subst; [repeat constructor; intros []|]. match goal with H : In _ [_] |- _ => destruct H as [H|[]]; injection H as <- <- end. match goal with H : leads (Link _) _ _ |- _ => inversion H end.
Qed.
Print Assumptions C108_directory_refuted.
Definition ex_tree : node := Dir true [(%".git", Dir true [(%"x.bzl", File)]); (%"BUILD", File); (%"a.txt", File); (%"pkg", Dir true [(%"BUILD.bazel", File); (%"BUILD.oss", Dir true []); (%"MODULE", File); (%"MODULE.bazel", Link File); (%"defs.bzl", File)])].
Example C108_nontrivial : ExpandDirectories [Argument %"src" %"src" ex_tree; Argument %"x" %"x" File; Argument %"y" %"y" (Link File)] =
  Some [(%"src", [%"BUILD"]); (%"src", [%"pkg"; %"BUILD.bazel"]); (%"src", [%"pkg"; %"MODULE.bazel"]); (%"src", [%"pkg"; %"defs.bzl"]); (%"x", []); (%"y", [])] /\
  found ex_tree [%"pkg"; %"MODULE.bazel"] /\ ExpandDirectories [Argument %"x" %"x" File; Argument %"src" %"src" (Dir true [(%"a", Dir false [])])] = None.
Proof.
  split; [vm_compute; reflexivity|]. split; [|vm_compute; reflexivity]. exists (Link File), [%"pkg"], %"MODULE.bazel". split; [reflexivity|]. split; [|split; [intros ? ? K; discriminate K|apply starlark_spec; vm_compute; reflexivity]].
  eapply lo_in; [right; right; right; left; reflexivity|left; discriminate|]. eapply lo_in; [right; right; right; left; reflexivity|now right|]. constructor.
Qed.

(** ** C109: buildozer's //... *)
Definition build_name (n : bytes) : Prop := In n [%"BUILD.bazel"; %"BUILD"; %"BUCK"].
Definition build_file (n : node) (p : list bytes) : Prop := exists m pre nm, p = pre ++ [nm] /\ leads n p m /\ no_dir m /\ build_name nm.
(** How many directories there are *)
Fixpoint dirs (n : node) : nat := match n with Dir _ es => S (fold_right (fun e k => dirs (snd e) + k) 0 es) | _ => 0 end.
Definition dirs_in (l : list (list bytes * node)) : nat := fold_right (fun e k => dirs (snd e) + k) 0 l.
Lemma dirs_app a b : dirs_in (a ++ b) = dirs_in a + dirs_in b.
Proof. induction a as [|x a IH]; [reflexivity|]. unfold dirs_in in *. cbn [app fold_right]. lia. Qed.
Lemma dirs_rev a : dirs_in (rev a) = dirs_in a.
Proof. induction a as [|x a IH]; [reflexivity|]. cbn [rev]. rewrite dirs_app, IH. unfold dirs_in. cbn [fold_right]. lia. Qed.
Lemma dirs_sub path es : dirs_in (sub_dirs path es) = fold_right (fun e k => dirs (snd e) + k) 0 es.
Proof.
  induction es as [|(nm, c) es IH]; [reflexivity|]. unfold sub_dirs in *. cbn [flat_map]. rewrite dirs_app, IH. cbn [fold_right snd fst]. destruct c; cbn [dirs_in fold_right snd dirs]; lia.
Qed.
Lemma build_file_in es q : build_file (Dir true es) q <-> exists nm c p', In (nm, c) es /\ q = nm :: p' /\ ((p' = [] /\ no_dir c /\ build_name nm) \/ build_file c p').
Proof.
  split.
  - intros (m & pre & x & E & L & N & S). remember (Dir true es) as d eqn:Ed. destruct L as [d|es' nm c p' m I L']; [destruct pre; discriminate E|]. injection Ed as ->. exists nm, c, p'. split; auto. split; auto.
    destruct pre as [|y pre]; cbn [app] in E; injection E as -> E.
    + subst p'. inversion L'; subst. left. auto.
    + right. exists m, pre, x. auto.
  - intros (nm & c & p' & I & -> & [(-> & N & S)|(m & pre & x & -> & L & N & S)]).
    + exists c, [], nm. split; auto. split; auto. eapply ld_in; eauto. constructor.
    + exists m, (nm :: pre), x. split; auto. split; auto. eapply ld_in; eauto.
Qed.
Lemma not_below n p : (forall es, n <> Dir true es) -> ~ build_file n p.
Proof. intros N (m & pre & x & -> & L & _). inversion L; subst; [destruct pre; discriminate|]. eapply N; reflexivity. Qed.
Lemma search_spec fuel : forall stack, (forall p n, In (p, n) stack -> exists ok es, n = Dir ok es) -> dirs_in stack <= fuel ->
  exists l, search fuel stack = Some l /\ forall q, In q l <-> exists path n p, In (path, n) stack /\ q = path ++ p /\ build_file n p.
Proof.
  induction fuel as [|fuel IH]; intros [|(path, n) stack] D F.
  1,3: exists []; split; [reflexivity|]; intro q; split; [intros []|intros (? & ? & ? & [] & _)].
  - destruct (D path n (or_introl eq_refl)) as (ok & es & ->). unfold dirs_in in F. cbn [fold_right snd dirs] in F. lia.
  - destruct (D path n (or_introl eq_refl)) as (ok & es & ->). cbn [search]. change (dirs (Dir ok es) + dirs_in stack <= S fuel) in F. cbn [dirs] in F. destruct ok.
    + destruct (IH (rev (sub_dirs path es) ++ stack)) as (l & El & Hl).
      { intros p n I. apply in_app_iff in I as [I|I]; [|apply (D p n); now right]. apply in_rev in I. unfold sub_dirs in I. apply in_flat_map in I as ((nm, c) & _ & I). cbn [snd fst] in I. destruct c; [contradiction..|]. destruct I as [I|[]]. injection I as <- <-. eauto. }
      { rewrite dirs_app, dirs_rev, dirs_sub. lia. }
      rewrite El. eexists. split; [reflexivity|]. intro q. rewrite in_app_iff, Hl. unfold build_files. rewrite in_flat_map. split.
      * intros [((nm, c) & I & K)|(path' & n & p & I & -> & B)].
        -- cbn [snd fst] in K. assert (Q : no_dir c /\ In q (if existsb (beq nm) BuildFileNames then [path ++ [nm]] else [])) by (destruct c; try (split; [intros ? ? E; discriminate E|exact K]); contradiction).
           destruct Q as (Nc & Q). destruct (existsb (beq nm) BuildFileNames) eqn:X; [|contradiction]. apply existsb_in in X. destruct Q as [<-|[]]. exists path, (Dir true es), [nm]. split; [now left|]. split; [reflexivity|]. apply build_file_in. exists nm, c, []. split; [exact I|]. split; [reflexivity|]. left. split; [reflexivity|]. split; [exact Nc|exact X].
        -- apply in_app_iff in I as [I|I]; [|exists path', n, p; split; [now right|auto]]. apply in_rev in I. unfold sub_dirs in I. apply in_flat_map in I as ((nm, c) & I' & I). cbn [snd fst] in I.
           assert (Q : path' = path ++ [nm] /\ n = c) by (destruct c; try contradiction; destruct I as [I|[]]; now injection I as <- <-). destruct Q as (-> & ->).
           exists path, (Dir true es), (nm :: p). split; [now left|]. split; [now rewrite <- app_assoc|]. apply build_file_in. exists nm, c, p. auto.
      * intros (path' & n & p & [E|I] & -> & B); [|right; exists path', n, p; split; auto; apply in_app_iff; now right]. injection E as <- <-. apply build_file_in in B as (nm & c & p' & I & -> & [(-> & Nc & S)|B]).
        -- left. exists (nm, c). split; auto. cbn [snd fst]. apply existsb_in in S. fold BuildFileNames in S. rewrite S. destruct c; try (now left). now destruct (Nc ok entries).
        -- right. destruct c as [| | |ok' es'] eqn:Ec; try (exfalso; revert B; apply not_below; intros ? K; discriminate K).
           exists (path ++ [nm]), c, p'. subst c. split; [|split; [now rewrite <- app_assoc|auto]]. apply in_app_iff. left. apply in_rev. rewrite rev_involutive. unfold sub_dirs. apply in_flat_map. exists (nm, Dir ok' es'). split; auto. now left.
    + destruct (IH stack) as (l & El & Hl); [intros p n I; apply (D p n); now right|lia|]. exists l. split; auto. intro q. rewrite Hl. split.
      * intros (path' & n & p & I & H). exists path', n, p. split; [now right|auto].
      * intros (path' & n & p & [E|I] & H); [|eauto]. injection E as <- <-. destruct H as (_ & H). exfalso. revert H. apply not_below. intros ? K. discriminate K.
Qed.
(** The search ends, and it finds exactly the files with the name of a BUILD file in the directories that can be read; what cannot be read is left out without an error. *)
Theorem C109_find : forall root ok es, stat root = Dir ok es -> exists fuel l, (forall fuel', fuel <= fuel' -> findBuildFiles fuel' root = findBuildFiles fuel root) /\ findBuildFiles fuel root = Some l /\
  forall q, In q l <-> build_file (stat root) q.
Proof.
  intros root ok es E. unfold findBuildFiles. rewrite E.
  assert (M : forall fuel stack l, search fuel stack = Some l -> forall fuel', fuel <= fuel' -> search fuel' stack = Some l).
  { induction fuel as [|fuel IH]; intros [|(path, n) stack] l H fuel' Le; try (destruct fuel'; exact H); [discriminate H|]. destruct fuel' as [|fuel']; [lia|]. cbn [search] in *. destruct n as [| |t|[] es']; try (apply IH; [exact H|lia]).
    destruct (search fuel (rev (sub_dirs path es') ++ stack)) as [x|] eqn:X; [|discriminate H]. rewrite (IH _ _ X fuel') by lia. exact H. }
  destruct (search_spec (dirs (Dir ok es)) [([], Dir ok es)]) as (l & El & Hl).
  { intros p n [I|[]]. injection I as <- <-. eauto. } { unfold dirs_in. cbn [fold_right snd]. lia. }
  exists (dirs (Dir ok es)), l. split; [intros fuel' Le; rewrite El; now apply (M _ _ _ El)|]. split; auto. intro q. rewrite Hl. split.
  - intros (path & n & p & [I|[]] & -> & B). injection I as <- <-. exact B.
  - intro B. exists [], (Dir ok es), q. split; [now left|]. auto.
Qed.
Print Assumptions C109_find.
Example C109_nontrivial : findBuildFiles 9 (Dir true [(%"BUILD", File); (%"a", Dir true [(%"BUILD", File)]); (%"b", Dir true [(%"BUCK", Link File); (%"BUILD", Dir true [(%"BUILD.bazel", File)])]); (%"c", Dir false [(%"BUILD", File)]); (%"d", Link (Dir true [(%"BUILD", File)]))]) =
  Some [[%"BUILD"]; [%"b"; %"BUCK"]; [%"b"; %"BUILD"; %"BUILD.bazel"]; [%"a"; %"BUILD"]].
Proof. vm_compute. reflexivity. Qed.

(** Two directories on the stack: no path goes through both. *)
Definition apart (a b : list bytes * node) : Prop := forall p q, fst a ++ p <> fst b ++ q.
Lemma pairs_app {A} (R : A -> A -> Prop) a b : ForallOrdPairs R a -> ForallOrdPairs R b -> (forall x y, In x a -> In y b -> R x y) -> ForallOrdPairs R (a ++ b).
Proof.
  intros Ha Hb H. induction Ha as [|x a F Ha IH]; [exact Hb|]. cbn [app]. constructor; [|apply IH; intros; apply H; auto; now right].
  apply Forall_app. split; auto. apply Forall_forall. intros y I. apply H; auto. now left.
Qed.
Lemma pairs_rev {A} (R : A -> A -> Prop) a : (forall x y, R x y -> R y x) -> ForallOrdPairs R a -> ForallOrdPairs R (rev a).
Proof.
  intros Sy H. induction H as [|x a F H IH]; [constructor|]. cbn [rev]. apply pairs_app; [exact IH|repeat constructor|]. intros y z I [<-|[]]. apply Sy. apply in_rev in I. rewrite Forall_forall in F. auto.
Qed.
Lemma sub_dir_in path es x : In x (sub_dirs path es) -> exists nm ok l, In (nm, Dir ok l) es /\ x = (path ++ [nm], Dir ok l).
Proof.
  unfold sub_dirs. rewrite in_flat_map. intros ((nm, c) & I & H). cbn [snd fst] in H. destruct c as [| | |ok l]; [contradiction..|]. destruct H as [<-|[]]. eauto.
Qed.
Lemma sub_dirs_apart path es : NoDup (map fst es) -> ForallOrdPairs apart (sub_dirs path es).
Proof.
  induction es as [|(nm, c) es IH]; intro D; [constructor|]. cbn [map fst] in D. inversion D as [|? ? N D']; subst. specialize (IH D'). unfold sub_dirs in *. cbn [flat_map snd fst]. destruct c as [| | |ok l]; [exact IH..|]. cbn [app]. constructor; [|exact IH].
  apply Forall_forall. intros x I. apply sub_dir_in in I as (nm' & ok' & l' & I & ->). intros p q E. cbn [fst] in E. rewrite <- !app_assoc in E. apply app_inv_head in E. injection E as -> _. apply N. apply in_map_iff. exists (nm', Dir ok' l'). auto.
Qed.
Lemma build_files_in path es q : In q (build_files path es) -> exists nm c, In (nm, c) es /\ q = path ++ [nm].
Proof.
  unfold build_files. rewrite in_flat_map. intros ((nm, c) & I & H). exists nm, c. split; auto. cbn [snd fst] in H. assert (K : In q (if existsb (beq nm) BuildFileNames then [path ++ [nm]] else [])) by (destruct c; try exact H; contradiction). destruct (existsb (beq nm) BuildFileNames); [|contradiction]. destruct K as [<-|[]]. reflexivity.
Qed.
Lemma build_files_once path es : NoDup (map fst es) -> NoDup (build_files path es).
Proof.
  induction es as [|(nm, c) es IH]; intro D; [constructor|]. cbn [map fst] in D. inversion D as [|? ? N D']; subst. specialize (IH D'). unfold build_files in *. cbn [flat_map snd fst].
  assert (K : NoDup ((if existsb (beq nm) BuildFileNames then [path ++ [nm]] else []) ++ build_files path es)).
  { destruct (existsb (beq nm) BuildFileNames); [|exact IH]. cbn [app]. constructor; [|exact IH]. intro I. apply build_files_in in I as (nm' & c' & I & E). apply app_inv_head in E. injection E as <-. apply N. apply in_map_iff. exists (nm, c'). auto. }
  destruct c; try exact K. exact IH.
Qed.
Lemma search_once fuel : forall stack, (forall p n, In (p, n) stack -> (exists ok es, n = Dir ok es) /\ well_named n) -> ForallOrdPairs apart stack -> dirs_in stack <= fuel -> forall l, search fuel stack = Some l -> NoDup l.
Proof.
  induction fuel as [|fuel IH]; intros [|(path, n) stack] D A F l H.
  1,3: injection H as <-; constructor.
  - discriminate H.
  - destruct (D path n (or_introl eq_refl)) as ((ok & es & ->) & W). change (dirs (Dir ok es) + dirs_in stack <= S fuel) in F. cbn [dirs] in F. inversion A as [|? ? Fa A']; subst. cbn [search] in H. destruct ok; [|eapply (IH stack); eauto; [intros p n I; apply (D p n); now right|lia]].
    assert (Wd : NoDup (map fst es)) by (apply (W [] es); constructor).
    assert (Ds : forall p n, In (p, n) (rev (sub_dirs path es) ++ stack) -> (exists ok es, n = Dir ok es) /\ well_named n).
    { intros p n I. apply in_app_iff in I as [I|I]; [|apply (D p n); now right]. apply in_rev, sub_dir_in in I as (nm & ok & l' & I & E). injection E as -> ->. split; [eauto|]. intros q es' L. apply (W (nm :: q) es'). econstructor; eauto. }
    assert (Fs : dirs_in (rev (sub_dirs path es) ++ stack) <= fuel) by (rewrite dirs_app, dirs_rev, dirs_sub; lia).
    destruct (search_spec fuel (rev (sub_dirs path es) ++ stack)) as (l' & El & Hl); [intros p n I; now apply Ds in I|exact Fs|]. rewrite El in H. injection H as <-.
    assert (N' : NoDup l').
    { eapply (IH _ Ds); eauto. apply pairs_app; [apply pairs_rev; [intros x y H p q E; exact (H q p (eq_sym E))|now apply sub_dirs_apart]|exact A'|].
      intros x y Ix Iy p q E. apply in_rev, sub_dir_in in Ix as (nm & ok & l'' & _ & ->). cbn [fst] in E. rewrite <- app_assoc in E. rewrite Forall_forall in Fa. exact (Fa y Iy ([nm] ++ p) q E). }
    assert (Dj : forall x, In x (build_files path es) -> ~ In x l').
    { intros x Ix Il. apply build_files_in in Ix as (nm & c & _ & ->). apply Hl in Il as (p' & n & p & I & E & (m & pre & x & -> & _)). apply in_app_iff in I as [I|I].
      - apply in_rev, sub_dir_in in I as (nm' & ok & l'' & _ & Eq). injection Eq as -> ->. rewrite <- app_assoc in E. apply app_inv_head in E. injection E as _ E. destruct pre; discriminate E.
      - rewrite Forall_forall in Fa. exact (Fa _ I [nm] (pre ++ [x]) E). }
    pose proof (build_files_once path es Wd) as Nb. clear -N' Dj Nb. induction (build_files path es) as [|x a IHa]; auto. cbn [app]. inversion Nb; subst. constructor.
    + rewrite in_app_iff. intros [H|H]; [contradiction|]. apply (Dj x); [now left|auto].
    + apply IHa; auto. intros y Iy. apply Dj. now right.
Qed.
Lemma search_more fuel : forall stack l, search fuel stack = Some l -> forall fuel', fuel <= fuel' -> search fuel' stack = Some l.
Proof.
  induction fuel as [|fuel IH]; intros [|(path, n) stack] l H fuel' Le; try (destruct fuel'; exact H); [discriminate H|]. destruct fuel' as [|fuel']; [lia|]. cbn [search] in *. destruct n as [| |t|[] es']; try (apply IH; [exact H|lia]).
  destruct (search fuel (rev (sub_dirs path es') ++ stack)) as [x|] eqn:X; [|discriminate H]. rewrite (IH _ _ X fuel') by lia. exact H.
Qed.
(** No file is found twice. *)
Theorem C109_once : forall root fuel l, well_named (stat root) -> findBuildFiles fuel root = Some l -> NoDup l.
Proof.
  intros root fuel l W H. unfold findBuildFiles in H. destruct (no_dir_dec (stat root)) as [N|D].
  - destruct fuel as [|fuel]; [discriminate H|]. cbn [search] in H. destruct (stat root) as [| |t|ok es]; try (destruct fuel; injection H as <-; constructor). now destruct (N ok es).
  - assert (H' : search (fuel + dirs (stat root)) [([], stat root)] = Some l) by (apply (search_more _ _ _ H); lia). eapply (search_once (fuel + dirs (stat root))); [| | |exact H'].
    + intros p n [I|[]]. injection I as <- <-. auto.
    + repeat constructor.
    + unfold dirs_in. cbn [fold_right snd]. lia.
Qed.
Print Assumptions C109_once.
Example C109_once_nontrivial : well_named (Dir true [(%"BUILD", File); (%"a", Dir true [(%"BUILD", File)])]).
Proof.
  intros p es L. inversion L as [|? nm c q ? I L']; subst; [repeat constructor; cbn; intuition discriminate|]. destruct I as [I|[I|[]]]; injection I as <- <-; inversion L' as [|? nm' c' q' ? I' L'']; subst; [repeat constructor; intros []|]. destruct I' as [I'|[]]; injection I' as <- <-. inversion L''.
Qed.
