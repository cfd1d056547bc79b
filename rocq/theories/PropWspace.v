(** C90: workspaces, packages, and the file that a label is about. *)
From Verif Require Import LRTables LRCert Parse.
From Verif Require Import Base BaseProofs Ast ParseFile Labels LabelsProofs Rewrite CallSpec RuleApi RuleSpec RuleProofs PropRule RulesSpec PropRules Bzlmod Wspace.
Local Open Scope list_scope.

(** ** What is asked for *)
(** An ordinary name in a path, and the absolute path with these names *)
Definition part (s : bytes) : Prop := s <> [] /\ s <> %"." /\ s <> %".." /\ s <> %":\" /\ ~ In c_slash s.
Definition path (l : list bytes) : bytes := join [c_slash] l.
Definition abs (l : list bytes) : bytes := c_slash :: path l.
Definition prefix {A} (a b : list A) : Prop := exists c, b = a ++ c.
(** Of l and the directories above it, except the root of the file system, the first with P *)
Record nearest (P : list bytes -> Prop) (l d : list bytes) : Prop := {
  near_above : prefix d l;
  near_not_root : d <> [];
  near_has : P d;
  near_first : forall d', prefix d d' -> prefix d' l -> P d' -> d' = d }.
Definition regular (sys : system) (l : list bytes) : Prop := exists x, at_path sys (abs l) = Entry true x.
Definition workspace_dir (sys : system) (d : list bytes) : Prop :=
  (exists n, In n [%"WORKSPACE"; %"WORKSPACE.bazel"; %"MODULE.bazel"; %"REPO.bazel"; %".buckconfig"] /\ regular sys (d ++ [n])) \/ at_path sys (abs (d ++ [%"pants"])) = Entry true true.
Definition package_dir (sys : system) (d : list bytes) : Prop := exists n, In n [%"BUILD"; %"BUILD.bazel"] /\ regular sys (d ++ [n]).
(** No error but "not exist" on the way *)
Definition readable (sys : system) (l : list bytes) : Prop := forall d n, prefix d l -> at_path sys (abs (d ++ [n])) <> Failed.

(** ** Paths *)
Lemma part_no_slash l : Forall part l -> Forall (fun p => ~ In c_slash p) l.
Proof. apply Forall_impl. now intros x (_ & _ & _ & _ & H). Qed.
Lemma clean_part l : Forall part l -> forall r out, clean_parts r out l = rev out ++ l.
Proof.
  induction 1 as [|x l (n1 & n2 & n3 & _) F IH]; intros r out; cbn [clean_parts]; [rewrite app_nil_r; auto|].
  rewrite (proj2 (beq_neq x []) n1), (proj2 (beq_neq x %".") n2), (proj2 (beq_neq x %"..") n3). cbn [orb].
  rewrite IH. cbn [rev]. rewrite <- app_assoc. reflexivity.
Qed.
Lemma path_nonempty l : Forall part l -> l <> [] -> path l <> [] /\ has_prefix [c_slash] (path l) = false.
Proof.
  intros F N. destruct F as [|x l (n & _ & _ & _ & ns) F]; [contradiction|]. destruct x as [|a x]; [contradiction|].
  assert (a <> c_slash) by (intros ->; apply ns; left; auto).
  destruct l as [|y l]; unfold path; cbn [join app has_prefix]; (split; [discriminate|]); apply Bool.andb_false_iff; left; apply Ascii.eqb_neq; auto.
Qed.
Lemma path_snoc l1 l2 : l1 <> [] -> l2 <> [] -> path (l1 ++ l2) = path l1 ++ c_slash :: path l2.
Proof.
  intros H1 H2. unfold path. induction l1 as [|x l1 IH]; [contradiction|]. destruct l1 as [|y l1].
  - destruct l2; [contradiction|]. reflexivity.
  - change (join [c_slash] ((x :: y :: l1) ++ l2)) with (x ++ [c_slash] ++ join [c_slash] ((y :: l1) ++ l2)).
    rewrite IH by discriminate. change (join [c_slash] (x :: y :: l1)) with (x ++ [c_slash] ++ join [c_slash] (y :: l1)).
    rewrite <- !app_assoc. reflexivity.
Qed.
Lemma split_path l : Forall part l -> l <> [] -> split c_slash (path l) = l.
Proof. intros F N. apply split_join; auto. now apply part_no_slash. Qed.
Lemma path_inj a b : Forall part a -> Forall part b -> path a = path b -> a = b.
Proof.
  intros A B E. destruct a as [|x a].
  - destruct b as [|y b]; auto. exfalso. destruct (path_nonempty (y :: b) B) as (N & _); [discriminate|]. now rewrite <- E in N.
  - destruct b as [|y b]; [exfalso; destruct (path_nonempty (x :: a) A) as (N & _); [discriminate|]; now rewrite E in N|]. rewrite <- (split_path (x :: a)), <- (split_path (y :: b)), E; auto; discriminate.
Qed.
Lemma clean_path l : Forall part l -> l <> [] -> path_clean (path l) = path l.
Proof.
  intros F N. destruct (path_nonempty l F N) as [N1 N2]. unfold path_clean. rewrite N2, split_path, clean_part; auto. cbn [rev app]. fold (path l). destruct (path l); [contradiction|auto].
Qed.
Lemma split_abs l : Forall part l -> split c_slash (abs l) = [] :: match l with [] => [[]] | _ => l end.
Proof. intro F. unfold abs. cbn [split]. rewrite ascii_eqb_refl. f_equal. destruct l; auto. apply split_path; [auto|discriminate]. Qed.
Lemma parts_abs l : Forall part l -> path_parts (abs l) = l.
Proof.
  intro F. unfold path_parts. rewrite split_abs; auto. unfold abs at 1. cbn [has_prefix]. rewrite ascii_eqb_refl. cbn [andb clean_parts orb beq]. destruct l; [reflexivity|]. now rewrite clean_part.
Qed.
Lemma clean_abs l : Forall part l -> path_clean (abs l) = abs l.
Proof.
  intro F. pose proof (parts_abs l F) as P. unfold path_parts in P. unfold path_clean. rewrite P. unfold abs at 1 2. cbn [has_prefix]. rewrite ascii_eqb_refl. cbn [andb]. fold (path l).
  destruct (path l) eqn:E; unfold abs; now rewrite E.
Qed.
Lemma join_abs a b : Forall part a -> Forall part b -> a <> [] -> path_join (abs a) (path b) = abs (a ++ b).
Proof.
  intros A B N. unfold path_join. unfold abs at 1. destruct b as [|y b]; [cbn [path join]; rewrite (app_nil_r a); apply clean_abs; auto|].
  destruct (path (y :: b)) eqn:E; [exfalso; now apply (path_nonempty (y :: b) B); [discriminate|]|]. rewrite <- E. unfold abs at 1. cbn [app].
  replace (c_slash :: path a ++ c_slash :: path (y :: b)) with (abs (a ++ y :: b)); [apply clean_abs; apply Forall_app; auto|]. unfold abs. rewrite path_snoc; auto. discriminate.
Qed.
Lemma join_path a b : Forall part a -> Forall part b -> path_join (path a) (path b) = path (a ++ b).
Proof.
  intros A B. unfold path_join. destruct a as [|x a].
  - change (path []) with (@nil ascii). cbn [app]. destruct b as [|y b]; auto. destruct (path (y :: b)) eqn:E; [auto|]. rewrite <- E. apply clean_path; [auto|discriminate].
  - destruct (path (x :: a)) eqn:Ea; [exfalso; now apply (path_nonempty (x :: a) A); [discriminate|]|]. rewrite <- Ea. destruct b as [|y b].
    + change (path []) with (@nil ascii). rewrite (app_nil_r (x :: a)). apply clean_path; [auto|discriminate].
    + destruct (path (y :: b)) eqn:Eb; [exfalso; now apply (path_nonempty (y :: b) B); [discriminate|]|]. rewrite <- Eb. change ([c_slash] ++ path (y :: b)) with (c_slash :: path (y :: b)). rewrite <- path_snoc by discriminate. apply clean_path; [apply Forall_app; auto|discriminate].
Qed.
Lemma dir_of p x : ~ In c_slash x -> filepath_dir (p ++ c_slash :: x) = path_clean (p ++ [c_slash]).
Proof.
  intro N. unfold filepath_dir. assert (E : after_last_slash (p ++ c_slash :: x) = x).
  { unfold after_last_slash. rewrite fold_left_app. cbn [fold_left]. rewrite ascii_eqb_refl. fold (after_last_slash x). now apply after_last_slash_none. }
  rewrite E. f_equal. replace (p ++ c_slash :: x) with ((p ++ [c_slash]) ++ x) by now rewrite <- app_assoc. rewrite app_length, PeanoNat.Nat.add_sub, firstn_app, PeanoNat.Nat.sub_diag, firstn_all. cbn [firstn]. now rewrite app_nil_r.
Qed.
Lemma clean_parts_dot r out l : clean_parts r out (l ++ [[]]) = clean_parts r out l.
Proof.
  revert r out. induction l as [|x l IH]; intros r out; [reflexivity|]. cbn [app clean_parts]. destruct (beq x [] || beq x %"."); [apply IH|]. destruct (beq x %".."); [|apply IH]. destruct out as [|y out]; [destruct r; apply IH|]. destruct (beq y %".."); apply IH.
Qed.
Lemma split_snoc c s : split c (s ++ [c]) = split c s ++ [[]].
Proof.
  induction s as [|x s IH]; cbn [app split]; [now rewrite ascii_eqb_refl|]. rewrite IH. destruct (Ascii.eqb x c); auto. destruct (split c s) eqn:E; auto. exfalso. destruct s; cbn [split] in E; [now inversion E|]. destruct (Ascii.eqb a c); [now inversion E|]. destruct (split c s); now inversion E.
Qed.
Lemma clean_slash p : p <> [] -> path_clean (p ++ [c_slash]) = path_clean p.
Proof.
  intro N. unfold path_clean. rewrite split_snoc, clean_parts_dot. destruct p; [contradiction|]. reflexivity.
Qed.
Lemma split_last c s x : ~ In c x -> split c (s ++ c :: x) = split c s ++ [x].
Proof.
  intro N. induction s as [|y s IH]; cbn [app split]; [rewrite ascii_eqb_refl, split_none; auto|]. rewrite IH. destruct (Ascii.eqb y c); auto. destruct (split c s) eqn:E; auto. now apply split_nonempty in E.
Qed.
Lemma clean_dot p : p <> [] -> path_clean (p ++ c_slash :: [c_dot]) = path_clean p.
Proof.
  intro N. unfold path_clean. rewrite split_last by (intros [K | []]; discriminate). replace (clean_parts (has_prefix [c_slash] (p ++ c_slash :: [c_dot])) [] (split c_slash p ++ [[c_dot]])) with (clean_parts (has_prefix [c_slash] (p ++ c_slash :: [c_dot])) [] (split c_slash p)); [destruct p; [contradiction|]; reflexivity|].
  generalize (has_prefix [c_slash] (p ++ c_slash :: [c_dot])) as r, (@nil bytes) as out, (split c_slash p) as l. clear. intros r out l. symmetry. revert r out.
  induction l as [|x l IH]; intros r out; [reflexivity|]. cbn [app clean_parts]. destruct (beq x [] || beq x %"."); [apply IH|]. destruct (beq x %".."); [|apply IH]. destruct out as [|y out]; [destruct r; apply IH|]. destruct (beq y %".."); apply IH.
Qed.
Lemma dir_abs d x : Forall part d -> part x -> filepath_dir (abs (d ++ [x])) = abs d.
Proof.
  intros D (_ & _ & _ & _ & X). destruct d as [|y d].
  - unfold abs. cbn [app]. change (path [x]) with x. change (c_slash :: x) with ([] ++ c_slash :: x). rewrite dir_of; auto.
  - unfold abs. rewrite path_snoc by discriminate. change (path [x]) with x. change (c_slash :: path (y :: d) ++ c_slash :: x) with ((c_slash :: path (y :: d)) ++ c_slash :: x). rewrite dir_of; auto. rewrite clean_slash by discriminate. now apply clean_abs.
Qed.
Lemma dir_path d x : Forall part d -> part x -> filepath_dir (path (d ++ [x])) = match d with [] => %"." | _ => path d end.
Proof.
  intros D (_ & _ & _ & _ & X). destruct d as [|y d].
  - cbn [app]. change (path [x]) with x. unfold filepath_dir. rewrite (after_last_slash_none x X), PeanoNat.Nat.sub_diag. reflexivity.
  - rewrite path_snoc by discriminate. change (path [x]) with x. rewrite dir_of; auto. rewrite clean_slash; [apply clean_path; [auto|discriminate]|]. apply path_nonempty; [auto|discriminate].
Qed.
Lemma rel_abs a b : Forall part a -> Forall part b -> relPath (abs a) (abs (a ++ b)) = Some (path b).
Proof.
  intros A B. assert (AB : Forall part (a ++ b)) by (apply Forall_app; auto). unfold relPath, filepath_rel. rewrite !clean_abs, !parts_abs; auto.
  assert (Hp : forall l, has_prefix [c_slash] (abs l) = true) by (intro; unfold abs; cbn [has_prefix]; now rewrite ascii_eqb_refl). rewrite !Hp. cbn [Bool.eqb].
  destruct (beq (abs a) (abs (a ++ b))) eqn:E.
  - apply beq_eq in E. injection E as E. apply path_inj in E; auto. rewrite <- (app_nil_r a) in E at 1. apply app_inv_head in E. subst b. reflexivity.
  - assert (R : rel_parts a (a ++ b) = Some b) by (clear; induction a as [|x a IH]; [now destruct b|]; cbn [app rel_parts]; now rewrite beq_refl). rewrite R. cbn [option_map]. destruct b as [|y b]; [rewrite app_nil_r, beq_refl in E; now inversion E|]. fold (path (y :: b)).
    destruct (beq (path (y :: b)) %".") eqn:E2; auto. apply beq_eq in E2. exfalso. assert (K : split c_slash (path (y :: b)) = [%"."]) by now rewrite E2. rewrite split_path in K; auto; [|discriminate]. injection K as -> ->. inversion B as [|? ? (_ & K & _) _]. now apply K.
Qed.

(** ** Searching upwards *)
Lemma prefix_antisym {A} (a b : list A) : prefix a b -> prefix b a -> a = b.
Proof. intros (c & ->) (d & E). rewrite <- app_assoc in E. rewrite <- (app_nil_r a) in E at 1. apply app_inv_head in E. symmetry in E. apply app_eq_nil in E as (-> & _). now rewrite app_nil_r. Qed.
Lemma prefix_refl {A} (a : list A) : prefix a a.
Proof. exists []. now rewrite app_nil_r. Qed.
Lemma prefix_trans {A} (a b c : list A) : prefix a b -> prefix b c -> prefix a c.
Proof. intros (x & ->) (y & ->). exists (x ++ y). now rewrite app_assoc. Qed.
Lemma prefix_snoc {A} (a l : list A) x : prefix a (l ++ [x]) -> a = l ++ [x] \/ prefix a l.
Proof.
  intros (c & E). destruct (rev c) as [|y c'] eqn:R.
  - assert (c = []) by (rewrite <- (rev_involutive c), R; reflexivity). subst. rewrite app_nil_r in E. now left.
  - assert (c = rev c' ++ [y]) by (rewrite <- (rev_involutive c), R; reflexivity). subst. rewrite app_assoc in E. apply app_inj_tail in E as (-> & _). right. now exists (rev c').
Qed.
Lemma prefix_parts a l : prefix a l -> Forall part l -> Forall part a.
Proof. intros (c & ->) F. now apply Forall_app in F as (F & _). Qed.
Lemma prefix_total {A} (a b l : list A) : prefix a l -> prefix b l -> prefix a b \/ prefix b a.
Proof.
  revert a b. induction l as [|x l IH]; intros a b (c & Ea) (d & Eb).
  - symmetry in Ea. apply app_eq_nil in Ea as (-> & _). left. now exists b.
  - destruct a as [|y a]; [left; now exists b|]. destruct b as [|z b]; [right; now exists (y :: a)|]. injection Ea as <- Ea. injection Eb as <- Eb.
    destruct (IH a b) as [(e & ->) | (e & ->)]; [now exists c|now exists d|left|right]; now exists e.
Qed.
Definition holds (sys : system) (files : list (bytes * (bool -> bool -> bool))) (d : list bytes) : Prop :=
  exists n check r x, In (n, check) files /\ at_path sys (abs (d ++ [n])) = Entry r x /\ check r x = true.
Lemma stat_abs sys l : stat sys (abs l) = at_path sys (abs l).
Proof. unfold stat, absolute, abs. cbn [has_prefix]. now rewrite ascii_eqb_refl. Qed.
Lemma join_name d n : Forall part d -> part n -> d <> [] -> path_join (abs d) n = abs (d ++ [n]).
Proof. intros D P N. apply (join_abs d [n]); auto. Qed.
Lemma probe_spec sys d : Forall part d -> d <> [] -> forall files, Forall (fun f => part (fst f)) files ->
  match probe sys (abs d) files with Some true => holds sys files d | Some false => ~ holds sys files d | None => exists n, at_path sys (abs (d ++ [n])) = Failed end.
Proof.
  intros D N. induction 1 as [|[n check] files P F IH]; cbn [probe]; [intros (n & ch & r & x & [] & _)|]. cbn [fst] in P. rewrite join_name, stat_abs; auto.
  assert (More : holds sys files d -> holds sys ((n, check) :: files) d) by (intros (n' & ch & r & x & I & H); exists n', ch, r, x; split; auto; now right).
  destruct (at_path sys (abs (d ++ [n]))) as [| |r x] eqn:E.
  - destruct (probe sys (abs d) files) as [[|]|]; auto. intros (n' & ch & r & x & [I | I] & A & B); [injection I as <- <-; rewrite E in A; now inversion A|]. apply IH. exists n', ch, r, x. auto.
  - eauto.
  - destruct (check r x) eqn:C; [exists n, check, r, x; split; [now left|auto]|]. destruct (probe sys (abs d) files) as [[|]|]; auto.
    intros (n' & ch & r' & x' & [I | I] & A & B); [injection I as <- <-; rewrite E in A; injection A as <- <-; rewrite C in B; now inversion B|]. apply IH. exists n', ch, r', x'. auto.
Qed.
Lemma nearest_here (P : list bytes -> Prop) l : l <> [] -> P l -> nearest P l l.
Proof. intros N H. split; auto using prefix_refl. intros d' A B _. now apply prefix_antisym. Qed.
Lemma nearest_up (P : list bytes -> Prop) l x d : ~ P (l ++ [x]) -> (nearest P (l ++ [x]) d <-> nearest P l d).
Proof.
  intro N. split; intros [A B C D]; split; auto.
  - destruct (prefix_snoc _ _ _ A) as [-> | K]; auto. contradiction.
  - intros d' E F G. apply D; auto. apply (prefix_trans _ l); auto. now exists [x].
  - apply (prefix_trans _ l); auto. now exists [x].
  - intros d' E F G. destruct (prefix_snoc _ _ _ F) as [-> | K]; [contradiction|auto].
Qed.
Lemma nearest_unique (P : list bytes -> Prop) l d d' : nearest P l d -> nearest P l d' -> d = d'.
Proof.
  intros [A B C D] [A' B' C' D']. destruct (prefix_total _ _ _ A A') as [K | K]; [symmetry; now apply D|now apply D'].
Qed.
Lemma guard_abs d : Forall part d -> d <> [] -> beq (abs d) [] || beq (abs d) [c_slash] || beq (abs d) [c_dot] || (Nat.eqb (List.length (abs d)) 3 && has_suffix %":\" (abs d)) = false.
Proof.
  intros F N. destruct (path_nonempty d F N) as (N1 & N2). rewrite !Bool.orb_false_iff. repeat split.
  - apply beq_neq. unfold abs. intro E. injection E as E. contradiction.
  - apply Bool.andb_false_iff. destruct (Nat.eqb (List.length (abs d)) 3) eqn:L; auto. right. apply PeanoNat.Nat.eqb_eq in L. destruct (has_suffix %":\" (abs d)) eqn:S1; auto. exfalso. apply has_suffix_spec in S1 as (u & E).
    assert (Lu : List.length u = 1). { rewrite E, app_length in L. cbn in L. lia. } destruct u as [|c [|c' u]]; try (now inversion Lu). unfold abs in E. injection E as _ E.
    assert (K : split c_slash (path d) = [%":\"]) by now rewrite E. rewrite split_path in K; auto. subst d. inversion F as [|? ? (_ & _ & _ & K & _) _]. now apply K.
Qed.
Lemma find_spec sys files : Forall (fun f => part (fst f)) files -> forall l, Forall part l -> forall n, List.length l < n ->
  match find_from n sys files (abs l) with
  | Some p => exists d, p = abs d /\ nearest (holds sys files) l d
  | None => (forall d, ~ nearest (holds sys files) l d) \/ exists d n, prefix d l /\ at_path sys (abs (d ++ [n])) = Failed
  end.
Proof.
  intros Ff l. induction l as [|x l IH] using rev_ind; intros F n L; (destruct n as [|n]; [lia|]); cbn [find_from].
  - replace (beq (abs []) [] || beq (abs []) [c_slash] || beq (abs []) [c_dot] || (Nat.eqb (List.length (abs [])) 3 && has_suffix %":\" (abs []))) with true by reflexivity. left. intros d [(c & E) B _ _]. symmetry in E. apply app_eq_nil in E as (-> & _). now apply B.
  - assert (N : l ++ [x] <> []) by (intro E; apply app_eq_nil in E as (_ & E); now inversion E). rewrite guard_abs; auto.
    apply Forall_app in F as (Fl & Fx). inversion Fx as [|? ? Px _]. subst. pose proof (probe_spec sys (l ++ [x])) as Pr. specialize (Pr ltac:(apply Forall_app; auto) N files Ff).
    destruct (probe sys (abs (l ++ [x])) files) as [[|]|].
    + exists (l ++ [x]). split; auto. now apply nearest_here.
    + rewrite dir_abs; auto. rewrite app_length in L. cbn in L. specialize (IH Fl n ltac:(lia)). destruct (find_from n sys files (abs l)) as [p|].
      * destruct IH as (d & -> & K). exists d. split; auto. now apply nearest_up.
      * destruct IH as [K | (d & m & A & B)]; [left; intro d; rewrite nearest_up; auto|right]. exists d, m. split; auto. apply (prefix_trans _ l); auto. now exists [x].
    + right. destruct Pr as (m & E). exists (l ++ [x]), m. split; auto using prefix_refl.
Qed.
Lemma abs_length l : Forall part l -> List.length l <= List.length (abs l).
Proof.
  unfold abs. cbn [List.length]. induction l as [|x l IH] using rev_ind; intro F; [cbn; lia|]. apply Forall_app in F as (Fl & _). specialize (IH Fl). destruct l as [|y l]; [cbn; lia|]. rewrite path_snoc by discriminate. rewrite !app_length in *. cbn [List.length] in *. lia.
Qed.
Lemma Find_spec sys files l : Forall (fun f => part (fst f)) files -> Forall part l ->
  (forall p, Find sys (abs l) files = Some p -> exists d, p = abs d /\ nearest (holds sys files) l d) /\
  (readable sys l -> (forall d, nearest (holds sys files) l d -> Find sys (abs l) files = Some (abs d)) /\ ((forall d, ~ nearest (holds sys files) l d) -> Find sys (abs l) files = None)).
Proof.
  intros Ff F. unfold Find. pose proof (find_spec sys files Ff l F (S (List.length (abs l)))) as H. pose proof (abs_length l F). specialize (H ltac:(lia)). destruct (find_from _ _ _ _) as [p|].
  - split; [intros q E; injection E as <-; auto|]. intros _. destruct H as (d & -> & K). split; [intros d' K'; now rewrite (nearest_unique _ _ _ _ K K')|]. intro N. exfalso. now apply (N d).
  - split; [intros q E; now inversion E|]. intro R. destruct H as [N | (d & m & A & B)]; [split; auto; intros d K; exfalso; now apply (N d)|]. exfalso. now apply (R d m).
Qed.
Lemma workspace_holds sys d : holds sys repoRootFiles d <-> workspace_dir sys d.
Proof.
  unfold holds, workspace_dir, regular. split.
  - intros (n & ch & r & x & I & A & B). cbn [repoRootFiles In] in I. decompose [or] I; clear I; try contradiction; match goal with K : (_, _) = (n, ch) |- _ => injection K as <- <- end; unfold isFile, isExecutable in B; try (apply Bool.andb_true_iff in B as (-> & ->); right; exact A); subst r; left; eexists; (split; [|exists x; exact A]); cbn [In]; tauto.
  - intros [(n & I & x & A) | A].
    + exists n, isFile, true, x. split; auto. cbn [In] in I. decompose [or] I; try contradiction; subst n; cbn [repoRootFiles In]; tauto.
    + exists %"pants", isExecutable, true, true. split; auto. cbn [repoRootFiles In]. tauto.
Qed.
Lemma package_holds sys d : holds sys packageRootFiles d <-> package_dir sys d.
Proof.
  unfold holds, package_dir, regular. split.
  - intros (n & ch & r & x & I & A & B). cbn [packageRootFiles In] in I. decompose [or] I; clear I; try contradiction; match goal with K : (_, _) = (n, ch) |- _ => injection K as <- <- end; unfold isFile in B; subst r; eexists; (split; [|exists x; exact A]); cbn [In]; tauto.
  - intros (n & I & x & A). exists n, isFile, true, x. split; auto. cbn [In] in I. decompose [or] I; try contradiction; subst n; cbn [packageRootFiles In]; tauto.
Qed.

Lemma nearest_ext (P Q : list bytes -> Prop) l d : (forall x, P x <-> Q x) -> (nearest P l d <-> nearest Q l d).
Proof. intro H. split; intros [A B C D]; split; auto; try (now apply H); intros d' E F G; apply D; auto; now apply H. Qed.
Ltac names := apply Forall_forall; intros (n, ch) I; cbn [repoRootFiles packageRootFiles In] in I; decompose [or] I; clear I; try contradiction;
  match goal with K : (_, _) = (n, ch) |- _ => injection K as <- _ end; cbn [fst]; unfold part; cbn [In B List.map String.list_ascii_of_string]; repeat split; try discriminate; intuition discriminate.
Lemma root_names : Forall (fun f : bytes * (bool -> bool -> bool) => part (fst f)) repoRootFiles.
Proof. names. Qed.
Lemma package_names : Forall (fun f : bytes * (bool -> bool -> bool) => part (fst f)) packageRootFiles.
Proof. names. Qed.
Lemma nearest_exists sys files l d : Forall (fun f => part (fst f)) files -> Forall part l -> readable sys l -> prefix d l -> d <> [] -> holds sys files d -> exists e, nearest (holds sys files) l e.
Proof.
  intros Ff. induction l as [|x l IH] using rev_ind; intros F R P N H.
  - destruct P as (c & E). symmetry in E. apply app_eq_nil in E as (-> & _). contradiction.
  - assert (Nl : l ++ [x] <> []) by (intro E; apply app_eq_nil in E as (_ & E); discriminate). pose proof (probe_spec sys (l ++ [x]) F Nl files Ff) as Pr. destruct (probe sys (abs (l ++ [x])) files) as [[|]|].
    + exists (l ++ [x]). now apply nearest_here.
    + apply Forall_app in F as (Fl & _). destruct (prefix_snoc _ _ _ P) as [-> | K]; [contradiction|]. destruct IH as (e & Ne); auto; [intros e n (u & E); apply R; exists (u ++ [x]); rewrite E; now rewrite <- app_assoc|]. exists e. now apply nearest_up.
    + destruct Pr as (n & E). exfalso. now apply (R (l ++ [x]) n (prefix_refl _)).
Qed.

(** ** C90: Find gives the nearest directory upwards (but not "/") that has such a file. *)
Theorem C90_find : forall sys l, Forall part l ->
  (forall p, Find sys (abs l) repoRootFiles = Some p -> exists d, p = abs d /\ nearest (workspace_dir sys) l d) /\
  (forall p, Find sys (abs l) packageRootFiles = Some p -> exists d, p = abs d /\ nearest (package_dir sys) l d) /\
  (readable sys l ->
    (forall d, nearest (workspace_dir sys) l d -> Find sys (abs l) repoRootFiles = Some (abs d)) /\
    ((forall d, ~ nearest (workspace_dir sys) l d) -> Find sys (abs l) repoRootFiles = None) /\
    (forall d, nearest (package_dir sys) l d -> Find sys (abs l) packageRootFiles = Some (abs d)) /\
    ((forall d, ~ nearest (package_dir sys) l d) -> Find sys (abs l) packageRootFiles = None)).
Proof.
  intros sys l F. destruct (Find_spec sys repoRootFiles l root_names F) as (A & B). destruct (Find_spec sys packageRootFiles l package_names F) as (A' & B').
  pose proof (fun d => nearest_ext _ _ l d (workspace_holds sys)) as W. pose proof (fun d => nearest_ext _ _ l d (package_holds sys)) as P.
  split; [|split].
  - intros p E. destruct (A p E) as (d & -> & K). exists d. split; auto. now apply W.
  - intros p E. destruct (A' p E) as (d & -> & K). exists d. split; auto. now apply P.
  - intro R. destruct (B R) as (B1 & B2). destruct (B' R) as (B3 & B4). repeat apply conj; [intros d K; apply B1; now apply W|intro K; apply B2; intros d K'; now apply (K d), W|intros d K; apply B3; now apply P|intro K; apply B4; intros d K'; now apply (K d), P].
Qed.
Print Assumptions C90_find.
Lemma nearest_dec sys l (files : list (bytes * (bool -> bool -> bool))) : Forall (fun f => part (fst f)) files -> Forall part l -> readable sys l ->
  (exists d, nearest (holds sys files) l d /\ Find sys (abs l) files = Some (abs d)) \/ ((forall d, ~ nearest (holds sys files) l d) /\ Find sys (abs l) files = None).
Proof.
  intros Ff F R. destruct (Find_spec sys files l Ff F) as (A & B). destruct (B R) as (B1 & B2). destruct (Find sys (abs l) files) as [p|] eqn:E.
  - left. destruct (A p eq_refl) as (d & -> & K). eauto.
  - right. split; auto. intros d K. specialize (B1 d K). discriminate.
Qed.
Lemma abs_prefix l r p : Forall part l -> prefix r l -> prefix p l -> r <> [] -> (has_prefix (abs r) (abs p) = true <-> prefix r p).
Proof.
  intros F R P N. split.
  - intro H. destruct (prefix_total _ _ _ R P) as [K | (c & ->)]; auto. apply has_prefix_spec in H as (u & E). destruct c as [|y c]; [rewrite app_nil_r; apply prefix_refl|exfalso].
    destruct p as [|x p].
    + cbn [app] in E. unfold abs in E. injection E as E. symmetry in E. apply app_eq_nil in E as (E & _). assert (Fy : Forall part (y :: c)) by (apply (prefix_parts _ l); auto). destruct (path_nonempty (y :: c) Fy) as (K & _); [discriminate|]. now apply K.
    + unfold abs in E. injection E as E. change (x :: p ++ y :: c) with ((x :: p) ++ y :: c) in E. rewrite path_snoc in E by discriminate. apply (f_equal (@List.length ascii)) in E. rewrite !app_length in E. cbn [List.length] in E. lia.
  - intros (c & ->). apply has_prefix_spec. destruct c as [|y c]; [exists []; now rewrite !app_nil_r|]. exists (c_slash :: path (y :: c)). unfold abs. cbn [app]. f_equal. rewrite path_snoc; auto. discriminate.
Qed.

(** ** C90: the path of a file is split into the nearest workspace, the nearest package in it (or the workspace), and the rest *)
Theorem C90_split : forall sys l f, Forall part l -> part f -> readable sys l ->
  ((forall r, ~ nearest (workspace_dir sys) l r) -> SplitFilePath sys (abs (l ++ [f])) = ([], [], [])) /\
  (forall r, nearest (workspace_dir sys) l r ->
     exists a b, SplitFilePath sys (abs (l ++ [f])) = (abs r, path a, path b) /\ l ++ [f] = r ++ a ++ b /\ nearest (fun d => d = r \/ package_dir sys d) l (r ++ a)).
Proof.
  intros sys l f F Pf R. destruct (C90_find sys l F) as (_ & _ & B). destruct (B R) as (B1 & B2 & B3 & B4). unfold SplitFilePath. rewrite dir_abs; auto. split; [intro K; now rewrite B2|].
  intros r K. rewrite (B1 r K). pose proof K as [Ra Rn _ _].
  assert (Main : forall a, prefix (r ++ a) l -> nearest (fun d => d = r \/ package_dir sys d) l (r ++ a) -> exists a' b, match relPath (abs r) (abs (r ++ a)), relPath (abs (r ++ a)) (abs (l ++ [f])) with Some p, Some q => (abs r, p, q) | _, _ => ([], [], []) end = (abs r, path a', path b) /\ l ++ [f] = r ++ a' ++ b /\ nearest (fun d => d = r \/ package_dir sys d) l (r ++ a')).
  { intros a (c & E) N. subst l. apply Forall_app in F as (Fa & Fc). pose proof Fa as Fa'. apply Forall_app in Fa' as (Fr & Fa'). rewrite rel_abs; auto. rewrite <- app_assoc with (m := c). rewrite rel_abs; auto; [|apply Forall_app; auto]. exists a, (c ++ [f]). split; auto. split; auto. now rewrite <- !app_assoc. }
  assert (Here : (forall d, prefix r d -> prefix d l -> package_dir sys d -> d = r) -> nearest (fun d => d = r \/ package_dir sys d) l (r ++ [])).
  { intro H. rewrite app_nil_r. split; auto. intros d' X Y [-> | Z]; auto. }
  destruct (nearest_dec sys l packageRootFiles package_names F R) as [(p & Np & ->) | (Np & ->)].
  - apply (nearest_ext _ _ l p (package_holds sys)) in Np. pose proof Np as [Pa Pn Ph Pf']. destruct (has_prefix (abs r) (abs p)) eqn:E.
    + apply (abs_prefix l) in E as (a & ->); auto. apply Main; auto. split; auto. intros d' X Y [-> | Z]; [|now apply Pf']. apply prefix_antisym; auto. now exists a.
    + specialize (Main []). rewrite app_nil_r in Main, Here. apply Main; auto. apply Here. intros d X Y Z. destruct (prefix_total p d l Pa Y) as [K1 | K1].
      * rewrite (Pf' d K1 Y Z) in X. apply (abs_prefix l) in X; auto. rewrite E in X. discriminate.
      * assert (X' : prefix r p) by (apply (prefix_trans _ d); auto). apply (abs_prefix l) in X'; auto. rewrite E in X'. discriminate.
  - specialize (Main []). rewrite app_nil_r in Main, Here. apply Main; auto. apply Here. intros d X Y Z. exfalso.
    assert (Nd : d <> []) by (destruct X as (u & ->); intro K1; apply app_eq_nil in K1 as (K1 & _); contradiction).
    apply package_holds in Z. destruct (nearest_exists sys packageRootFiles l d package_names F R Y Nd Z) as (e & Ne). now apply (Np e).
Qed.
Print Assumptions C90_split.

(** The directory that a command works in: the -root_dir, or without one the current directory *)
Definition located (sys : system) (root : bytes) (l : list bytes) : Prop := root = abs l \/ root = [] /\ cwd sys = abs l.
Lemma workspace_root sys root r rel : Forall part (r ++ rel) -> located sys root (r ++ rel) -> readable sys (r ++ rel) -> nearest (workspace_dir sys) (r ++ rel) r -> FindWorkspaceRoot sys root = (abs r, path rel).
Proof.
  intros F L R N. unfold FindWorkspaceRoot.
  assert (W : match root with [] => cwd sys | _ => root end = abs (r ++ rel)) by (destruct L as [-> | (-> & ->)]; reflexivity). rewrite W.
  destruct (C90_find sys _ F) as (_ & _ & B). destruct (B R) as (B1 & _). rewrite (B1 r N). pose proof N as [_ Nr _ _]. destruct rel as [|x rel].
  - rewrite (app_nil_r r), PeanoNat.Nat.eqb_refl. reflexivity.
  - unfold abs. rewrite path_snoc by (auto; discriminate). change (c_slash :: path r ++ c_slash :: path (x :: rel)) with ((c_slash :: path r) ++ c_slash :: path (x :: rel)).
    destruct (PeanoNat.Nat.eqb_spec (List.length ((c_slash :: path r) ++ c_slash :: path (x :: rel))) (List.length (c_slash :: path r))) as [E | _].
    + rewrite app_length in E. cbn [List.length] in E. lia.
    + rewrite skipn_app, skipn_all2 by lia. replace (S (List.length (c_slash :: path r)) - List.length (c_slash :: path r)) with 1 by lia. reflexivity.
Qed.
Lemma regular_abs sys l : IsRegularFile sys (abs l) = true <-> regular sys l.
Proof.
  unfold IsRegularFile, regular. rewrite stat_abs. destruct (at_path sys (abs l)) as [| |[|] x]; split; try discriminate; try (intros (y & E); discriminate); eauto.
Qed.
Lemma regular_path sys w l : cwd sys = abs w -> Forall part w -> w <> [] -> Forall part l -> l <> [] -> IsRegularFile sys (path l) = IsRegularFile sys (abs (w ++ l)).
Proof.
  intros C W N F Nl. destruct (path_nonempty l F Nl) as (N1 & N2). unfold IsRegularFile. rewrite stat_abs. unfold stat, absolute. destruct (path l) as [|a p] eqn:E; [contradiction|]. rewrite <- E in *. rewrite N2, C, join_abs; auto.
Qed.
(** The file for the package in this directory: the first of the three that exists; BUILD, if none does *)
Inductive build_file_of (sys : system) (d : list bytes) : list bytes -> Prop :=
  | bf_bazel : regular sys (d ++ [%"BUILD.bazel"]) -> build_file_of sys d (d ++ [%"BUILD.bazel"])
  | bf_build : ~ regular sys (d ++ [%"BUILD.bazel"]) -> regular sys (d ++ [%"BUILD"]) -> build_file_of sys d (d ++ [%"BUILD"])
  | bf_buck : ~ regular sys (d ++ [%"BUILD.bazel"]) -> ~ regular sys (d ++ [%"BUILD"]) -> regular sys (d ++ [%"BUCK"]) -> build_file_of sys d (d ++ [%"BUCK"])
  | bf_new : ~ regular sys (d ++ [%"BUILD.bazel"]) -> ~ regular sys (d ++ [%"BUILD"]) -> ~ regular sys (d ++ [%"BUCK"]) -> build_file_of sys d (d ++ [%"BUILD"]).
Ltac a_part := unfold part; cbn [In B List.map String.list_ascii_of_string]; repeat split; try discriminate; intuition discriminate.
Lemma part_bazel : part %"BUILD.bazel". Proof. a_part. Qed.
Lemma part_build : part %"BUILD". Proof. a_part. Qed.
Lemma part_buck : part %"BUCK". Proof. a_part. Qed.
Lemma part_workspace : part %"WORKSPACE". Proof. a_part. Qed.
Local Hint Resolve part_bazel part_build part_buck part_workspace : core.
Lemma not_regular sys l : IsRegularFile sys (abs l) = false <-> ~ regular sys l.
Proof. rewrite <- regular_abs. destruct (IsRegularFile sys (abs l)); split; auto; try discriminate. intro H. exfalso. now apply H. Qed.
Lemma build_file_abs sys d : Forall part d -> d <> [] -> exists f, build_file_in sys (abs d) BuildFileNames = abs f /\ build_file_of sys d f.
Proof.
  intros D N. cbn [build_file_in BuildFileNames]. rewrite !join_name; auto.
  destruct (IsRegularFile sys (abs (d ++ [%"BUILD.bazel"]))) eqn:E1; [apply regular_abs in E1; eexists; split; [reflexivity|now constructor]|apply not_regular in E1].
  destruct (IsRegularFile sys (abs (d ++ [%"BUILD"]))) eqn:E2; [apply regular_abs in E2; eexists; split; [reflexivity|now apply bf_build]|apply not_regular in E2].
  destruct (IsRegularFile sys (abs (d ++ [%"BUCK"]))) eqn:E3; [apply regular_abs in E3; eexists; split; [reflexivity|now apply bf_buck]|apply not_regular in E3].
  eexists; split; [reflexivity|now apply bf_new].
Qed.
Lemma build_file_rel sys w d : cwd sys = abs w -> Forall part w -> w <> [] -> Forall part d -> exists f, build_file_in sys (path d) BuildFileNames = path (d ++ [f]) /\ part f /\ build_file_in sys (abs (w ++ d)) BuildFileNames = abs (w ++ d ++ [f]).
Proof.
  intros C W N D. assert (WD : Forall part (w ++ d)) by (apply Forall_app; auto). assert (Nw : w ++ d <> []) by (intro E; apply app_eq_nil in E as (E & _); contradiction).
  assert (J : forall n, part n -> path_join (path d) n = path (d ++ [n])) by (intros n P; apply (join_path d [n]); auto).
  assert (K : forall n, part n -> IsRegularFile sys (path (d ++ [n])) = IsRegularFile sys (abs ((w ++ d) ++ [n]))).
  { intros n P. rewrite <- (app_assoc w d). apply regular_path; auto; [apply Forall_app; auto|]. intro E. apply app_eq_nil in E as (_ & E). discriminate. }
  cbn [build_file_in BuildFileNames]. rewrite !J, !join_name, !K; auto.
  destruct (IsRegularFile sys (abs ((w ++ d) ++ [%"BUILD.bazel"]))); [|destruct (IsRegularFile sys (abs ((w ++ d) ++ [%"BUILD"]))); [|destruct (IsRegularFile sys (abs ((w ++ d) ++ [%"BUCK"])))]];
    rewrite <- (app_assoc w d); eauto.
Qed.
Lemma parse_slashes ps tg : ~ In c_colon ps -> tg <> [] -> parse (%"//" ++ ps ++ c_colon :: tg) = Label [] ps tg.
Proof. intros H H'. unfold parse. change (has_prefix [c_at] (%"//" ++ ps ++ c_colon :: tg)) with false. cbv iota. now apply parse_rest_slashes. Qed.
Lemma no_colon ps : Forall (fun p => ~ In c_colon p) ps -> ~ In c_colon (path ps).
Proof.
  unfold path. induction 1 as [|x l H F IH]; [intros []|]. destruct l; [exact H|]. cbn [join]. rewrite !in_app_iff. cbn [In]. intros [K | [[K | []] | K]]; auto. discriminate.
Qed.

Lemma base_path q x : part x -> path_base (path (q ++ [x])) = x.
Proof.
  intros (N & _ & _ & _ & X). assert (E : exists u, path (q ++ [x]) = u ++ x /\ after_last_slash (u ++ x) = x).
  { destruct q as [|y q]; [exists []; split; auto; now apply after_last_slash_none|]. exists (path (y :: q) ++ [c_slash]). rewrite path_snoc by discriminate. split; [now rewrite <- app_assoc|]. unfold after_last_slash. rewrite <- app_assoc, fold_left_app. cbn [app fold_left]. rewrite ascii_eqb_refl. fold (after_last_slash x). now apply after_last_slash_none. }
  destruct E as (u & -> & E). destruct (rev x) as [|a x'] eqn:Rx; [exfalso; apply N; rewrite <- (rev_involutive x), Rx; reflexivity|]. assert (Ex : x = rev x' ++ [a]) by (rewrite <- (rev_involutive x), Rx; reflexivity).
  assert (Na : a <> c_slash) by (intros ->; apply X; rewrite Ex; apply in_or_app; right; now left).
  assert (Tr : trim_right (Ascii.eqb c_slash) (u ++ x) = u ++ x). { unfold trim_right. rewrite Ex, app_assoc, rev_app_distr. cbn [rev app trim_left]. assert (K : Ascii.eqb c_slash a = false) by (apply Ascii.eqb_neq; auto). rewrite K. cbn [rev]. now rewrite rev_involutive. }
  unfold path_base. rewrite Tr. rewrite E. destruct (u ++ x) eqn:Eu; [apply app_eq_nil in Eu as (_ & Eu); contradiction|]. destruct x; [contradiction|reflexivity].
Qed.

(** ** C90: the file, the package and the rule for a label //package:rule *)
Theorem C90_absolute : forall sys root r rel ps tg,
  Forall part (r ++ rel) -> located sys root (r ++ rel) -> readable sys (r ++ rel) -> nearest (workspace_dir sys) (r ++ rel) r ->
  Forall part ps -> Forall (fun p => ~ In c_colon p) ps -> tg <> [] ->
  let i := InterpretLabelForWorkspaceLocation sys root (%"//" ++ path ps ++ %":" ++ tg) in
  repo i = [] /\ rule i = tg /\
  (~ regular sys (r ++ ps) -> pkg i = path ps /\ exists f, buildFile i = abs f /\ build_file_of sys (r ++ ps) f) /\
  (forall q x, ps = q ++ [x] -> regular sys (r ++ ps) -> buildFile i = abs (r ++ ps) /\ pkg i = match q with [] => %"." | _ => path q end) /\
  (forall q, ps = q ++ [tg] -> InterpretLabelForWorkspaceLocation sys root (%"//" ++ path ps) = i).
Proof.
  intros sys root r rel ps tg F L R N P C T i. pose proof (workspace_root sys root r rel F L R N) as W. apply no_colon in C. pose proof N as [_ Nr _ _]. apply Forall_app in F as (Fr & _).
  assert (Nrp : r ++ ps <> []) by (intro E; apply app_eq_nil in E as (E & _); contradiction). assert (Frp : Forall part (r ++ ps)) by (apply Forall_app; auto).
  assert (Pa : parse (%"//" ++ path ps ++ %":" ++ tg) = Label [] (path ps) tg) by now apply parse_slashes.
  assert (I : i = if IsRegularFile sys (abs (r ++ ps)) then Interpreted (abs (r ++ ps)) [] (filepath_dir (path ps)) tg else Interpreted (build_file_in sys (abs (r ++ ps)) BuildFileNames) [] (path ps) tg).
  { unfold i, InterpretLabelForWorkspaceLocation. rewrite Pa, W. cbn [repository package target beq negb]. rewrite has_prefix_app, join_abs; auto. }
  clearbody i. subst i. destruct (IsRegularFile sys (abs (r ++ ps))) eqn:E; cbn [repo rule pkg buildFile].
  - apply regular_abs in E. split; auto. split; auto. split; [intro K; contradiction|]. split.
    + intros q x -> _. split; auto. apply Forall_app in P as (Q & X). inversion X. now apply dir_path.
    + intros q Hq. assert (Ht : path_base (path ps) = tg) by (subst ps; apply base_path; apply Forall_app in P as (_ & P); now inversion P). unfold InterpretLabelForWorkspaceLocation. unfold parse. change (has_prefix [c_at] (%"//" ++ path ps)) with false. cbv iota. rewrite parse_rest_base, W; auto. cbn [repository package target beq negb]. rewrite has_prefix_app, join_abs; auto. apply regular_abs in E. now rewrite E, Ht.
  - split; auto. split; auto. split; [|split].
    + intros _. split; auto. now apply build_file_abs.
    + intros q x _ K. apply regular_abs in K. rewrite E in K. discriminate.
    + intros q Hq. assert (Ht : path_base (path ps) = tg) by (subst ps; apply base_path; apply Forall_app in P as (_ & P); now inversion P). unfold InterpretLabelForWorkspaceLocation. unfold parse. change (has_prefix [c_at] (%"//" ++ path ps)) with false. cbv iota. rewrite parse_rest_base, W; auto. cbn [repository package target beq negb]. rewrite has_prefix_app, join_abs; auto. now rewrite E, Ht.
Qed.
Print Assumptions C90_absolute.

(** ** C90: in the current directory, a label without // is about the same file, package and rule as the one with the directory spelled out *)
Theorem C90_relative : forall sys r rel ps tg,
  Forall part (r ++ rel) -> cwd sys = abs (r ++ rel) -> readable sys (r ++ rel) -> nearest (workspace_dir sys) (r ++ rel) r -> ~ regular sys (r ++ rel) ->
  Forall part ps -> Forall (fun p => ~ In c_colon p) (rel ++ ps) -> has_prefix [c_at] (path ps) = false -> tg <> [] ->
  let i := InterpretLabelForWorkspaceLocation sys [] (path ps ++ %":" ++ tg) in
  let j := InterpretLabelForWorkspaceLocation sys [] (%"//" ++ path (rel ++ ps) ++ %":" ++ tg) in
  repo i = [] /\ rule i = tg /\ path_join (cwd sys) (buildFile i) = buildFile j /\ pkg i = pkg j /\ rule j = tg.
Proof.
  intros sys r rel ps tg F Cw R N Nreg P C At T i j. pose proof (workspace_root sys [] r rel F (or_intror (conj eq_refl Cw)) R N) as W. pose proof N as [_ Nr _ _].
  pose proof (no_colon _ C) as C1. apply Forall_app in C as (_ & C2). apply no_colon in C2. pose proof F as F'. apply Forall_app in F' as (Fr & Frel).
  assert (Nw : r ++ rel <> []) by (intro E; apply app_eq_nil in E as (E & _); contradiction).
  assert (Frp : Forall part (rel ++ ps)) by (apply Forall_app; auto).
  assert (I : j = if IsRegularFile sys (abs (r ++ rel ++ ps)) then Interpreted (abs (r ++ rel ++ ps)) [] (filepath_dir (path (rel ++ ps))) tg else Interpreted (build_file_in sys (abs (r ++ rel ++ ps)) BuildFileNames) [] (path (rel ++ ps)) tg).
  { unfold j, InterpretLabelForWorkspaceLocation. change (%":" ++ tg) with (c_colon :: tg). rewrite (parse_slashes (path (rel ++ ps)) tg), W; auto. cbn [repository package target beq negb]. rewrite has_prefix_app, join_abs; auto. }
  assert (J : i = if IsRegularFile sys (path ps) then Interpreted (path ps) [] (path_join (path rel) (filepath_dir (path ps))) tg else Interpreted (build_file_in sys (path ps) BuildFileNames) [] (path_join (path rel) (path ps)) tg).
  { assert (Hh : has_prefix %"//" (path ps ++ %":" ++ tg) = false).
    { destruct ps as [|x ps]; [reflexivity|]. destruct (path_nonempty (x :: ps) P) as (K1 & K2); [discriminate|]. destruct (path (x :: ps)) as [|a p]; [contradiction|]. change (Ascii.eqb c_slash a && true = false) in K2. rewrite Bool.andb_true_r in K2. cbn [app]. change (has_prefix %"//" (a :: p ++ %":" ++ tg)) with (Ascii.eqb c_slash a && has_prefix [c_slash] (p ++ %":" ++ tg)). now rewrite K2. }
    assert (Hat : has_prefix [c_at] (path ps ++ %":" ++ tg) = false) by (destruct (path ps) as [|a p]; [reflexivity|exact At]).
    assert (Hparse : parse (path ps ++ %":" ++ tg) = Label [] (path ps) tg).
    { unfold parse. rewrite Hat. unfold parse_rest. change (path ps ++ %":" ++ tg) with (path ps ++ c_colon :: tg). rewrite split2_app; auto.
      assert (Hn : has_prefix %"//" (path ps) = false). { destruct ps as [|x ps]; [reflexivity|]. destruct (path_nonempty (x :: ps) P) as (K1 & K2); [discriminate|]. destruct (path (x :: ps)) as [|a p]; [reflexivity|]. change (Ascii.eqb c_slash a && true = false) in K2. rewrite Bool.andb_true_r in K2. change (Ascii.eqb c_slash a && has_prefix [c_slash] p = false). now rewrite K2. }
      unfold trim_prefix. rewrite Hn. destruct tg; [contradiction|]. reflexivity. }
    unfold i, InterpretLabelForWorkspaceLocation. rewrite Hparse, W, Hh. reflexivity. }
  clearbody i j. subst i j.
  destruct ps as [|x ps _] using rev_ind.
  - change (IsRegularFile sys (path [])) with false. cbv iota. rewrite (app_nil_r rel). apply not_regular in Nreg. rewrite Nreg. cbn [repo rule pkg buildFile].
    destruct (build_file_rel sys (r ++ rel) [] Cw F Nw P) as (f & E1 & Pf & E2). rewrite E1, Cw, join_abs; auto; [|now constructor]. cbn [app] in E2 |- *. rewrite app_nil_r in E2. rewrite E2. split; auto. split; auto. split; auto. split; auto. rewrite join_path; auto. rewrite (app_nil_r rel). auto.
  - assert (Nps : ps ++ [x] <> []) by (intro E; apply app_eq_nil in E as (_ & E); discriminate). apply Forall_app in P as (Pps & Px). inversion Px as [|? ? Pxx _]. subst.
    assert (Pall : Forall part (ps ++ [x])) by (apply Forall_app; auto).
    rewrite (regular_path sys (r ++ rel) (ps ++ [x])), <- (app_assoc r rel); auto. destruct (IsRegularFile sys (abs (r ++ rel ++ ps ++ [x]))); cbn [repo rule pkg buildFile].
    + split; auto. split; auto. split; [rewrite Cw, join_abs, <- app_assoc; auto|]. split; auto. rewrite app_assoc, !dir_path; auto; [|apply Forall_app; auto]. destruct ps as [|y ps].
      * rewrite (app_nil_r rel). destruct rel as [|z rel]; [reflexivity|]. unfold path_join. destruct (path (z :: rel)) as [|a p] eqn:E; [exfalso; now apply (path_nonempty (z :: rel) Frel); [discriminate|]|]. rewrite <- E.
        destruct (path_nonempty (z :: rel) Frel) as (K1 & _); [discriminate|]. change ([c_slash] ++ %".") with (c_slash :: [c_dot]). rewrite clean_dot; auto. apply clean_path; [auto|discriminate].
      * rewrite join_path; auto. destruct rel; reflexivity.
    + split; auto. split; auto. rewrite join_path; auto. destruct (build_file_rel sys (r ++ rel) (ps ++ [x]) Cw F Nw Pall) as (f & E1 & Pf & E2). rewrite E1, Cw, join_abs; auto; [|apply Forall_app; auto]. rewrite <- (app_assoc r rel) in E2. rewrite E2. rewrite <- !app_assoc. auto.
Qed.
Print Assumptions C90_relative.

(** ** C90: the file for a label in another repository *)
(** The rule gives the repository of this name this build file (in a WORKSPACE file in the directory dir) *)
Definition declares (dir : list bytes) (stmts : list (option expr)) (name : bytes) (e : expr) (file : bytes) : Prop :=
  exists x args, call_of e x args /\ name_is (dir_name (abs (dir ++ [%"WORKSPACE"]))) stmts x args name /\ string_attr %"build_file" args file /\ file <> [].
Definition repository_rules (stmts : list (option expr)) : list expr :=
  Rules %"git_repository" stmts ++ Rules %"new_local_repository" stmts ++ Rules %"new_git_repository" stmts ++ Rules %"new_http_archive" stmts.
Lemma lookup_rev_none {V} (k : bytes) (l : list (bytes * V)) : (forall v, ~ In (k, v) l) -> lookup k l = None.
Proof.
  induction l as [|[k' v] l IH]; intro H; auto. cbn [lookup]. destruct (beq k k') eqn:E; [apply beq_eq in E as <-; exfalso; apply (H v); now left|]. apply IH. intros v' K. apply (H v'). now right.
Qed.
Lemma lookup_app {V} (k : bytes) (a b : list (bytes * V)) : lookup k (a ++ b) = match lookup k a with Some v => Some v | None => lookup k b end.
Proof. induction a as [|[k' v] a IH]; auto. cbn [app lookup]. destruct (beq k k'); auto. Qed.
Definition slashes (s : bytes) : bytes := map (fun c => if Ascii.eqb c c_colon then c_slash else c) s.
Lemma flat_flat {A B C} (f : B -> list C) (g : A -> list B) l : flat_map (fun x => flat_map f (g x)) l = flat_map f (flat_map g l).
Proof. induction l as [|x l IH]; auto. cbn [flat_map]. rewrite IH. now rewrite flat_map_app. Qed.
Definition entry_of (dir : list bytes) (stmts : list (option expr)) (r : expr) : list (bytes * bytes) :=
  match callee_args r with
  | Some (x, args) =>
      match AttrString %"build_file" args with
      | [] => []
      | b => [(name_in_file (abs (dir ++ [%"WORKSPACE"])) stmts x args, path_join (abs dir) (colons_to_slashes b))]
      end
  | None => []
  end.
Lemma entry_spec dir stmts name e : (forall b, ~ declares dir stmts name e b) /\ lookup name (rev (entry_of dir stmts e)) = None \/
  exists b, declares dir stmts name e b /\ entry_of dir stmts e = [(name, path_join (abs dir) (slashes b))] /\ (forall b', declares dir stmts name e b' -> b' = b).
Proof.
  unfold entry_of. destruct (callee_args e) as [[x args]|] eqn:E; [|left; split; auto; intros b (x & args & C & _); apply callee_args_spec in C; rewrite E in C; discriminate].
  assert (U : forall b, declares dir stmts name e b <-> name_in_file (abs (dir ++ [%"WORKSPACE"])) stmts x args = name /\ AttrString %"build_file" args = b /\ b <> []).
  { intro b. unfold declares. rewrite name_in_file_is. split.
    - intros (x' & args' & C & Nm & At & Ne). apply callee_args_spec in C. rewrite E in C. injection C as <- <-. split; auto. split; auto. apply AttrString_spec. now left.
    - intros (Nm & At & Ne). exists x, args. split; [now apply callee_args_spec|]. split; auto. split; auto. apply AttrString_spec in At as [K | (K & _)]; [auto|contradiction]. }
  destruct (AttrString %"build_file" args) as [|a b] eqn:Ab; [left; split; auto; intros b K; apply U in K as (_ & <- & K); now apply K|].
  destruct (beq name (name_in_file (abs (dir ++ [%"WORKSPACE"])) stmts x args)) eqn:En.
  - apply beq_eq in En. right. exists (a :: b). split; [apply U; split; auto; split; auto; discriminate|]. split; [now rewrite <- En|]. intros b' K. now apply U in K as (_ & <- & _).
  - left. split; [intros b' K; apply U in K as (K & _); rewrite K, beq_refl in En; discriminate|]. cbn [rev app lookup]. now rewrite En.
Qed.
Lemma entries_spec dir stmts name l :
  ((forall e b, In e l -> ~ declares dir stmts name e b) -> lookup name (rev (flat_map (entry_of dir stmts) l)) = None) /\
  (forall l1 e l2 b, l = l1 ++ e :: l2 -> declares dir stmts name e b -> (forall e' b', In e' l2 -> ~ declares dir stmts name e' b') -> lookup name (rev (flat_map (entry_of dir stmts) l)) = Some (path_join (abs dir) (slashes b))).
Proof.
  assert (H1 : forall l, (forall e b, In e l -> ~ declares dir stmts name e b) -> lookup name (rev (flat_map (entry_of dir stmts) l)) = None).
  { clear l. induction l as [|e l IH]; intro H; auto. cbn [flat_map]. rewrite rev_app_distr, lookup_app, IH; [|intros e' b I; apply H; now right]. destruct (entry_spec dir stmts name e) as [(_ & K) | (b & K & _)]; auto. exfalso. now apply (H e b (or_introl eq_refl)). }
  split; auto. intros l1 e l2 b -> D N. rewrite flat_map_app. cbn [flat_map]. rewrite !rev_app_distr, !lookup_app, (H1 l2 N). destruct (entry_spec dir stmts name e) as [(K & _) | (b' & _ & K & U)]; [exfalso; now apply (K b)|]. rewrite K, (U b D). cbn [rev app lookup]. now rewrite beq_refl.
Qed.
Lemma split_both c a b : split c (a ++ c :: b) = split c a ++ split c b.
Proof.
  induction a as [|y a IH]; cbn [app split]; [now rewrite ascii_eqb_refl|]. rewrite IH. destruct (Ascii.eqb y c); auto. destruct (split c a) eqn:E; auto. now apply split_nonempty in E.
Qed.
Lemma clean_some l : Forall (fun x => part x \/ x = []) l -> forall r out, clean_parts r out l = rev out ++ filter (fun x => negb (beq x [])) l.
Proof.
  induction 1 as [|x l [(n1 & n2 & n3 & _) | ->] F IH]; intros r out; cbn [clean_parts filter]; [now rewrite app_nil_r| |].
  - rewrite (proj2 (beq_neq x []) n1), (proj2 (beq_neq x %".") n2), (proj2 (beq_neq x %"..") n3). cbn [orb negb]. rewrite IH. cbn [rev]. rewrite <- app_assoc. reflexivity.
  - cbn [beq orb negb]. apply IH.
Qed.
Lemma filter_parts l : Forall part l -> filter (fun x => negb (beq x [])) l = l.
Proof. induction 1 as [|x l (n & _) F IH]; auto. cbn [filter]. rewrite (proj2 (beq_neq x []) n). cbn [negb]. now rewrite IH. Qed.
Lemma slashes_id s : ~ In c_colon s -> slashes s = s.
Proof.
  induction s as [|a s IH]; intro H; auto. unfold slashes in *. cbn [map]. rewrite IH; [|intro K; apply H; now right]. destruct (Ascii.eqb a c_colon) eqn:E; auto. apply Ascii.eqb_eq in E as ->. exfalso. apply H. now left.
Qed.
Lemma label_file r ps qs : Forall part r -> r <> [] -> Forall part (ps ++ qs) -> Forall (fun p => ~ In c_colon p) (ps ++ qs) -> path_join (abs r) (slashes (%"//" ++ path ps ++ %":" ++ path qs)) = abs (r ++ ps ++ qs).
Proof.
  intros R N P C. apply Forall_app in P as (P & Q). apply Forall_app in C as (Cp & Cq).
  assert (E : slashes (%"//" ++ path ps ++ %":" ++ path qs) = c_slash :: c_slash :: path ps ++ c_slash :: path qs).
  { unfold slashes. rewrite !map_app. fold (slashes (path ps)). fold (slashes (path qs)). rewrite (slashes_id (path ps)), (slashes_id (path qs)); auto using no_colon. }
  rewrite E.
  assert (J : path_join (abs r) (c_slash :: c_slash :: path ps ++ c_slash :: path qs) = path_clean (abs r ++ c_slash :: c_slash :: c_slash :: path ps ++ c_slash :: path qs)) by reflexivity.
  rewrite J. clear J E. unfold path_clean. assert (Hp : forall s, has_prefix [c_slash] (abs r ++ s) = true) by (intro; unfold abs; cbn [app has_prefix]; now rewrite ascii_eqb_refl). rewrite Hp. clear Hp.
  assert (S3 : split c_slash (abs r ++ c_slash :: c_slash :: c_slash :: path ps ++ c_slash :: path qs) = split c_slash (abs r) ++ [[]; []] ++ split c_slash (path ps) ++ split c_slash (path qs)).
  { rewrite split_both. f_equal. cbn [split]. rewrite !ascii_eqb_refl. cbn [app]. now rewrite split_both. }
  rewrite S3. clear S3.
  assert (S1 : forall l, Forall part l -> Forall (fun x => part x \/ x = []) (split c_slash (path l)) /\ filter (fun x => negb (beq x [])) (split c_slash (path l)) = l).
  { intros l F. destruct l as [|x l]; [split; [constructor; auto|reflexivity]|]. rewrite split_path by (auto; discriminate). split; [apply Forall_forall; intros y I; left; rewrite Forall_forall in F; auto|now apply filter_parts]. }
  assert (S2 : forall l, Forall part l -> Forall (fun x => part x \/ x = []) (split c_slash (abs l)) /\ filter (fun x => negb (beq x [])) (split c_slash (abs l)) = l).
  { intros l F. unfold abs. cbn [split]. rewrite ascii_eqb_refl. destruct (S1 l F) as (A & B). split; [constructor; auto|]. exact B. }
  destruct (S2 r R) as (A1 & B1). destruct (S1 ps P) as (A2 & B2). destruct (S1 qs Q) as (A3 & B3). rewrite clean_some; [|rewrite !Forall_app; repeat (apply conj); auto].
  rewrite !filter_app, B1, B2, B3. change (filter (fun x => negb (beq x [])) [[]; []]) with (@nil bytes). cbn [rev app]. fold (path (r ++ ps ++ qs)).
  destruct (path (r ++ ps ++ qs)) eqn:Ep; [|unfold abs; now rewrite Ep]. destruct (path_nonempty (r ++ ps ++ qs)) as (K & _); [rewrite !Forall_app; auto|intro K; apply app_eq_nil in K as (K & _); contradiction|contradiction].
Qed.

Theorem C90_repository : forall sys root r rel name pk tg,
  Forall part (r ++ rel) -> located sys root (r ++ rel) -> readable sys (r ++ rel) -> nearest (workspace_dir sys) (r ++ rel) r ->
  name <> [] -> ~ In c_slash name -> has_prefix [c_at] name = false -> ~ In c_colon pk -> tg <> [] ->
  let ws := abs (r ++ [%"WORKSPACE"]) in
  let i := InterpretLabelForWorkspaceLocation sys root (%"@" ++ name ++ %"//" ++ pk ++ %":" ++ tg) in
  repo i = name /\ pkg i = pk /\ rule i = tg /\
  (contents sys ws = None -> buildFile i = []) /\
  (forall data, contents sys ws = Some data -> parse_file (FMeta ws [] [] TypeWorkspace) data = None -> buildFile i = []) /\
  (forall data c m stmts, contents sys ws = Some data -> parse_file (FMeta ws [] [] TypeWorkspace) data = Some (EFile c m stmts) ->
     ((forall e f, In e (repository_rules stmts) -> ~ declares r stmts name e f) -> buildFile i = []) /\
     (forall l1 e l2 f, repository_rules stmts = l1 ++ e :: l2 -> declares r stmts name e f -> (forall e' f', In e' l2 -> ~ declares r stmts name e' f') ->
        buildFile i = path_join (abs r) (slashes f) /\
        (forall ps qs, f = %"//" ++ path ps ++ %":" ++ path qs -> Forall part (ps ++ qs) -> Forall (fun p => ~ In c_colon p) (ps ++ qs) -> buildFile i = abs (r ++ ps ++ qs)))).
Proof.
  intros sys root r rel name pk tg F L R N Ne Ns Nat Nc T ws i. pose proof (workspace_root sys root r rel F L R N) as W. pose proof N as [_ Nr _ _]. apply Forall_app in F as (Fr & _).
  assert (Pa : parse (%"@" ++ name ++ %"//" ++ pk ++ %":" ++ tg) = Label name pk tg).
  { change (%"@" ++ name ++ %"//" ++ pk ++ %":" ++ tg) with (c_at :: name ++ %"//" ++ pk ++ c_colon :: tg). unfold parse. rewrite has_prefix_one, ascii_eqb_refl. cbv iota zeta. rewrite trim_left_at; auto.
    change (name ++ %"//" ++ pk ++ c_colon :: tg) with (name ++ c_slash :: c_slash :: pk ++ c_colon :: tg). rewrite split2_app; auto. change (c_slash :: c_slash :: pk ++ c_colon :: tg) with (%"//" ++ pk ++ c_colon :: tg). now apply parse_rest_slashes. }
  assert (I : i = Interpreted (match FindRepoBuildFiles sys (abs r) with Some files => match lookup name files with Some f => f | None => [] end | None => [] end) name pk tg).
  { unfold i, InterpretLabelForWorkspaceLocation. rewrite Pa, W. cbn [repository package target]. rewrite (proj2 (beq_neq name []) Ne). reflexivity. }
  clearbody i. subst i. cbn [repo pkg rule buildFile]. split; auto. split; auto. split; auto.
  unfold FindRepoBuildFiles. rewrite join_name; auto. fold ws. assert (A : absolute sys ws = ws) by (unfold absolute, ws, abs; cbn [has_prefix]; now rewrite ascii_eqb_refl). rewrite A.
  split; [intros ->; auto|]. split; [intros data -> ->; auto|]. intros data c m stmts -> ->.
  rewrite flat_flat. change (flat_map (fun x => Rules x stmts) repo_kinds) with (Rules %"git_repository" stmts ++ Rules %"new_local_repository" stmts ++ Rules %"new_git_repository" stmts ++ Rules %"new_http_archive" stmts ++ []). rewrite app_nil_r. fold (repository_rules stmts).
  change (flat_map _ (repository_rules stmts)) with (flat_map (entry_of r stmts) (repository_rules stmts)). destruct (entries_spec r stmts name (repository_rules stmts)) as (E1 & E2). split; [intro K; now rewrite E1|].
  intros l1 e l2 f E D K. rewrite (E2 l1 e l2 f E D K). split; auto. intros ps qs -> P C. now apply label_file.
Qed.
Print Assumptions C90_repository.


(** ** A tree with these regular files *)
Definition tree (dir : bytes) (files : list bytes) (ws : bytes) : system :=
  System dir (fun p => if mem_bytes p files then Entry true false else Missing) (fun p => if beq p %"/w/WORKSPACE" then Some ws else None).
Lemma tree_readable dir files ws l : readable (tree dir files ws) l.
Proof. intros d n _. cbn [tree at_path]. destruct (mem_bytes (abs (d ++ [n])) files); discriminate. Qed.
Lemma tree_nearest dir files ws l d : Forall part l -> Forall part d -> Find (tree dir files ws) (abs l) repoRootFiles = Some (abs d) -> nearest (workspace_dir (tree dir files ws)) l d.
Proof. intros F D E. destruct (C90_find (tree dir files ws) l F) as (A & _). destruct (A _ E) as (d' & K & N). injection K as K. apply path_inj in K; [now subst|auto|]. apply (prefix_parts _ l); auto. apply N. Qed.
Definition example_ws : bytes := %"new_http_archive(name = ""x"", build_file = ""//third_party:x.BUILD"")" ++ [c_nl].
Definition example_tree : system := tree %"/w/a" [%"/w/WORKSPACE"; %"/w/a/BUILD"; %"/w/a/BUILD.bazel"; %"/w/BUILD"; %"/w/a/lib/rules.bzl"; %"/w/a/defs.bzl"] example_ws.
Lemma example_parts : Forall part [%"w"; %"a"] /\ Forall part [%"lib"] /\ part %"rules.bzl".
Proof. split; [|split]; repeat (apply Forall_cons || apply Forall_nil); a_part. Qed.
Lemma example_nearest : nearest (workspace_dir example_tree) ([%"w"] ++ [%"a"]) [%"w"].
Proof. destruct example_parts as (A & _). apply tree_nearest; [exact A|inversion A; auto|vm_compute; reflexivity]. Qed.
Example C90_example :
  (Forall part ([%"w"] ++ [%"a"]) /\ located example_tree [] ([%"w"] ++ [%"a"]) /\ readable example_tree ([%"w"] ++ [%"a"]) /\ nearest (workspace_dir example_tree) ([%"w"] ++ [%"a"]) [%"w"]) /\
  SplitFilePath example_tree %"/w/a/lib/rules.bzl" = (%"/w", %"a", %"lib/rules.bzl") /\
  InterpretLabelForWorkspaceLocation example_tree [] %"//a:r" = Interpreted %"/w/a/BUILD.bazel" [] %"a" %"r" /\
  InterpretLabelForWorkspaceLocation example_tree [] %":r" = Interpreted %"BUILD.bazel" [] %"a" %"r" /\
  InterpretLabelForWorkspaceLocation example_tree [] %"lib:r" = Interpreted %"lib/BUILD" [] %"a/lib" %"r" /\
  InterpretLabelForWorkspaceLocation example_tree [] %"//a/defs.bzl:r" = Interpreted %"/w/a/defs.bzl" [] %"a" %"r" /\
  InterpretLabelForWorkspaceLocation example_tree [] %"@x//p:r" = Interpreted %"/w/third_party/x.BUILD" %"x" %"p" %"r".
Proof.
  split; [|vm_compute; repeat (apply conj); reflexivity]. destruct example_parts as (A & _). split; [exact A|]. split; [right; split; reflexivity|]. split; [apply tree_readable|apply example_nearest].
Qed.
(** A workspace in the root of the file system is never found. *)
Theorem C90_root_refuted : exists sys, workspace_dir sys [] /\ readable sys [%"a"] /\ FindWorkspaceRoot sys %"/a" = ([], []).
Proof.
  exists (tree %"/a" [%"/WORKSPACE"] []). split; [left; exists %"WORKSPACE"; split; [now left|exists false; reflexivity]|]. split; [apply tree_readable|reflexivity].
Qed.
(** With -root_dir=./foo/bar, Find gives a shorter spelling of the directory, and the rest of the path is cut in the wrong place. *)
Theorem C90_dot_refuted : exists sys, regular sys [%"w"; %"foo"; %"WORKSPACE"] /\ cwd sys = %"/w" /\ FindWorkspaceRoot sys %"./foo/bar" = (%"foo", %"o/bar") /\ FindWorkspaceRoot sys %"foo/bar" = (%"foo", %"bar") /\
  pkg (InterpretLabelForWorkspaceLocation sys %"./foo/bar" %":r") = %"o/bar".
Proof. exists (tree %"/w" [%"/w/foo/WORKSPACE"] []). split; [exists false; reflexivity|]. vm_compute. repeat (apply conj); reflexivity. Qed.
(** A relative label with -root_dir: the package is relative to that directory, but the file is in the current directory. *)
Theorem C90_root_dir_refuted : exists sys root,
  InterpretLabelForWorkspaceLocation sys root %":r" = Interpreted %"BUILD" [] %"p" %"r" /\ regular sys [%"w2"; %"p"; %"BUILD"] /\ regular sys [%"w"; %"BUILD"] /\ cwd sys = %"/w" /\ root = %"/w2/p" /\
  InterpretLabelForWorkspaceLocation sys root %"//p:r" = Interpreted %"/w2/p/BUILD" [] %"p" %"r".
Proof. exists (tree %"/w" [%"/w/BUILD"; %"/w/WORKSPACE"; %"/w2/WORKSPACE"; %"/w2/p/BUILD"] []), %"/w2/p". split; [reflexivity|]. split; [exists false; reflexivity|]. split; [exists false; reflexivity|]. vm_compute. repeat (apply conj); reflexivity. Qed.
(** The package of a file in the root of the workspace is ".", while that of BUILD there is "". *)
Theorem C90_file_package_refuted : exists sys,
  InterpretLabelForWorkspaceLocation sys [] %"//WORKSPACE:r" = Interpreted %"/w/WORKSPACE" [] %"." %"r" /\ InterpretLabelForWorkspaceLocation sys [] %"//:r" = Interpreted %"/w/BUILD" [] [] %"r".
Proof. exists (tree %"/w" [%"/w/WORKSPACE"] []). vm_compute. repeat (apply conj); reflexivity. Qed.
(** A git_repository rule in WORKSPACE.bazel, which Bazel reads, is not found: only a file named WORKSPACE is looked at. *)
Theorem C90_workspace_bazel_refuted : exists sys data, at_path sys %"/w/WORKSPACE.bazel" = Entry true false /\ contents sys %"/w/WORKSPACE.bazel" = Some data /\ data = example_ws /\ FindWorkspaceRoot sys [] = (%"/w", []) /\
  buildFile (InterpretLabelForWorkspaceLocation sys [] %"@x//p:r") = [].
Proof.
  exists (System %"/w" (fun p => if beq p %"/w/WORKSPACE.bazel" then Entry true false else Missing) (fun p => if beq p %"/w/WORKSPACE.bazel" then Some example_ws else None)), example_ws.
  repeat (apply conj); reflexivity.
Qed.
(** Of two rules for one repository the one written first is taken, when its kind comes later in the list. *)
Theorem C90_order_refuted : exists sys ws, contents sys %"/w/WORKSPACE" = Some ws /\
  ws = %"new_http_archive(name = ""x"", build_file = ""1"")" ++ [c_nl] ++ %"git_repository(name = ""x"", build_file = ""2"")" ++ [c_nl] /\
  buildFile (InterpretLabelForWorkspaceLocation sys [] %"@x//p:r") = %"/w/1".
Proof.
  exists (tree %"/w" [%"/w/WORKSPACE"] (%"new_http_archive(name = ""x"", build_file = ""1"")" ++ [c_nl] ++ %"git_repository(name = ""x"", build_file = ""2"")" ++ [c_nl])). eexists. split; [reflexivity|]. split; [reflexivity|]. vm_compute. reflexivity.
Qed.
Print Assumptions C90_example.
