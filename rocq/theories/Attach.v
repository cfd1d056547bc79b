(** Comment assignment, build/lex.go [order], [assignComments].
    Go collects pointers to the nodes and updates their comments in place.  Here a node is named by its
    index in preorder, the comments of all nodes form a list indexed by it, and the updated list is put back
    into the tree. *)
From Verif Require Import Base Ast.

(** A tree of the nodes that [order] visits: span (byte offsets), whether it is a block statement, a file
    or a comment block, comments, and the nodes below it in the order of the visit. *)
Inductive rose := Rose (start stop : Z) (block : bool) (c : comments) (kids : list rose).
Definition rcom (r : rose) : comments := let 'Rose _ _ _ c _ := r in c.
Definition kids (r : rose) : list rose := let 'Rose _ _ _ _ k := r in k.
(** build/lex.go:854-858: nodes that get no suffix comments. *)
Definition is_block (e : expr) : bool :=
  match e with EFile _ _ _ | EDef _ _ _ _ _ _ _ _ _ | EIf _ _ _ _ _ _ | EFor _ _ _ _ _ | ECommentBlock _ _ => true | _ => false end.
Definition node (e : expr) (k : list rose) : rose := Rose (p_byte (start_pos e)) (p_byte (end_pos e)) (is_block e) (com e) k.
(** build/syntax.go:284-286 [Span]. *)
Definition end_node (d : endp) : rose := Rose (p_byte (e_pos d)) (p_byte (pos_add (e_pos d) %")")) false (e_com d) [].
Definition id_node (i : ident) : rose := node (EIdent i) [].
Definition str_node (s : strlit) : rose := node (EStr s) [].
(** build/lex.go:698-838 [order]. *)
Fixpoint skel (e : expr) : rose :=
  node e
    match e with
    | EFile _ _ l => flat_map (opt_list skel) l
    | ECommentBlock _ _ | EIdent _ | EBranch _ _ _ | ELit _ _ _ | EStr _ => []
    | ECall _ x _ l d _ _ => skel x :: map skel l ++ [end_node d]
    | ELoad _ _ m fr to r _ => str_node m :: zip_load id_node to fr ++ [end_node r]
    | ETyped _ _ t => [skel t]
    | EDot _ x _ _ _ => [skel x]
    | EList _ _ l d _ | ESet _ _ l d _ | EDict _ _ l d _ => map skel l ++ [end_node d]
    | EComp _ _ _ b l _ d => skel b :: map skel l ++ [end_node d]
    | EForC _ _ v _ x => [skel v; skel x]
    | EIfC _ _ x => [skel x]
    | EKV _ k _ v => [skel k; skel v]
    | ETuple _ nobr _ l d _ _ => map skel l ++ (if nobr then [] else [end_node d])
    | EUnary _ _ _ x => opt_list skel x
    | EBinary _ x _ _ _ y | EAssign _ x _ _ _ y => [skel x; skel y]
    | ECond _ a _ b _ d => [skel a; skel b; skel d]
    | EParen _ _ x d _ => [skel x; end_node d]
    | ESlice _ x _ a _ b _ d _ => skel x :: opt_list skel a ++ opt_list skel b ++ opt_list skel d
    | EIndex _ x _ y _ => [skel x; skel y]
    | ELambda _ _ ps b => map skel ps ++ map skel b
    | EReturn _ _ x => opt_list skel x
    | EDef _ _ ps b _ _ _ _ _ => map skel ps ++ map skel b
    | EFor _ _ v x b => skel v :: skel x :: map skel b
    | EIf _ _ x t d f => skel x :: map skel t ++ (match f with [] => [] | _ => [end_node d] end) ++ map skel f
    end.
(** The two lists of [order]. *)
Fixpoint preorder (r : rose) : list rose := r :: flat_map preorder (kids r).
Fixpoint size (r : rose) : nat := let 'Rose _ _ _ _ k := r in S (list_sum (map size k)).
(** Indices (in preorder) of the nodes in postorder; [n] is the index of the root. *)
Fixpoint postorder (n : nat) (r : rose) : list nat :=
  let 'Rose _ _ _ _ k := r in
  (fix go (n : nat) (l : list rose) : list nat :=
     match l with [] => [] | x :: l' => postorder n x ++ go (n + size x) l' end) (S n) k ++ [n].

Fixpoint update {A} (i : nat) (f : A -> A) (l : list A) : list A :=
  match l, i with
  | [], _ => []
  | x :: l', O => f x :: l'
  | x :: l', S i' => x :: update i' f l'
  end.
Fixpoint spans {A} (p : A -> bool) (l : list A) : list A * list A :=
  match l with
  | x :: l' => if p x then let (a, b) := spans p l' in (x :: a, b) else ([], l)
  | [] => ([], [])
  end.
Definition add_before (cs : list comment) (c : comments) : comments := Comments (c_before c ++ cs) (c_suffix c) (c_after c).
Definition add_suffix (cs : list comment) (c : comments) : comments := Comments (c_before c) (c_suffix c ++ cs) (c_after c).
Definition add_after (cs : list comment) (c : comments) : comments := Comments (c_before c) (c_suffix c) (c_after c ++ cs).
Definition c_byte (c : comment) : Z := p_byte (c_start c).
Definition r_start (r : rose) : Z := let 'Rose s _ _ _ _ := r in s.
Definition r_stop (r : rose) : Z := let 'Rose _ s _ _ _ := r in s.
Definition r_block (r : rose) : bool := let 'Rose _ _ b _ _ := r in b.
(** build/lex.go:848-877 [assignSuffixComments], the loop over [in.post] backwards; [suffix] is reversed. *)
Fixpoint suffix_loop (pre : list rose) (idx : list nat) (suffix : list comment) (heap : list comments)
  : list comment * list comments :=
  match idx with
  | [] => (suffix, heap)
  | i :: idx' =>
      match nth_error pre i with
      | None => suffix_loop pre idx' suffix heap
      | Some x =>
          if r_block x then suffix_loop pre idx' suffix heap
          else
            let (taken, rest) := spans (fun c => (r_stop x <=? c_byte c)%Z) suffix in
            suffix_loop pre idx' rest (update i (add_suffix taken) heap)
      end
  end.
(** build/lex.go:848-877 [assignSuffixComments]. *)
Definition assignSuffixComments (r : rose) (suffixes : list comment) (heap : list comments) : list comments :=
  let (rest, heap) := suffix_loop (preorder r) (rev (postorder 0 r)) (rev suffixes) heap in
  let heap := map (fun c => Comments (c_before c) (rev (c_suffix c)) (c_after c)) heap in
  update 0 (add_before (rev rest)) heap.
Definition before_less (a b : comment) : bool := (c_byte a <? c_byte b)%Z.
(** build/lex.go:879-898 [assignLineComments], the loop over [in.pre] from index [i] on. *)
Fixpoint line_loop (i : nat) (pre : list rose) (line : list comment) (heap : list comments) : list comment * list comments :=
  match pre with
  | [] => (line, heap)
  | x :: pre' =>
      let (taken, rest) := spans (fun c => (c_byte c <=? r_start x)%Z) line in
      line_loop (S i) pre' rest
        (update i (fun c => Comments (isort before_less (c_before c ++ taken)) (c_suffix c) (c_after c)) heap)
  end.
(** build/lex.go:879-898 [assignLineComments]. *)
Definition assignLineComments (r : rose) (lines : list comment) (heap : list comments) : list comments :=
  let (rest, heap) := line_loop 0 (preorder r) lines heap in
  update 0 (add_after rest) heap.

(** Putting the comments back: first into the tree of nodes ... *)
Fixpoint put (r : rose) (l : list comments) : rose * list comments :=
  let 'Rose s e b c k := r in
  match l with
  | [] => (r, [])
  | c' :: l =>
      let (k', l) := (fix go (k : list rose) (l : list comments) : list rose * list comments :=
        match k with
        | [] => ([], l)
        | x :: k => let (x', l) := put x l in let (k', l) := go k l in (x' :: k', l)
        end) k l in
      (Rose s e b c' k', l)
  end.
(** ... then into the syntax tree. *)
Section Zip.
  Context {A : Type} (f : A -> rose -> A).
  Fixpoint zipw (l : list A) (rs : list rose) : list A :=
    match l, rs with
    | x :: l', r :: rs' => f x r :: zipw l' rs'
    | _, _ => l
    end.
  Definition zipo (o : option A) (rs : list rose) : option A :=
    match o, rs with Some x, r :: _ => Some (f x r) | _, _ => o end.
  Fixpoint zipos (l : list (option A)) (rs : list rose) : list (option A) :=
    match l, rs with
    | Some x :: l', r :: rs' => Some (f x r) :: zipos l' rs'
    | None :: l', _ => None :: zipos l' rs
    | l, _ => l
    end.
End Zip.
Definition refill_end (d : endp) (rs : list rose) : endp :=
  match rs with r :: _ => End (rcom r) (e_pos d) | [] => d end.
Definition refill_id (i : ident) (r : rose) : ident := Ident (rcom r) (i_pos i) (i_name i).
Definition refill_str (s : strlit) (r : rose) : strlit :=
  Str (rcom r) (s_start s) (s_value s) (s_triple s) (s_end s) (s_token s).
(** Every second element: the [To] and [From] names of a load alternate. *)
Fixpoint evens {A} (l : list A) : list A := match l with x :: l' => x :: match l' with _ :: l'' => evens l'' | [] => [] end | [] => [] end.
Definition olen {A} (o : option A) : nat := match o with Some _ => 1 | None => 0 end.
Fixpoint refill (e : expr) (r : rose) : expr :=
  let c := rcom r in
  match e, kids r with
  | EFile _ m l, k => EFile c m (zipos refill l k)
  | ECommentBlock _ a, _ => ECommentBlock c a
  | EIdent i, _ => EIdent (refill_id i r)
  | EBranch _ a b, _ => EBranch c a b
  | ELit _ a b, _ => ELit c a b
  | EStr s, _ => EStr (refill_str s r)
  | ECall _ x a l d g h, k1 :: k => ECall c (refill x k1) a (zipw refill l k) (refill_end d (skipn (List.length l) k)) g h
  | ELoad _ a m fr to d g, k1 :: k =>
      let n := 2 * Nat.min (List.length to) (List.length fr) in
      ELoad c a (refill_str m k1) (zipw refill_id fr (evens (tl (firstn n k)))) (zipw refill_id to (evens (firstn n k))) (refill_end d (skipn n k)) g
  | ETyped _ i t, k1 :: _ => ETyped c i (refill t k1)
  | EDot _ x a b d, k1 :: _ => EDot c (refill x k1) a b d
  | EList _ a l d g, k => EList c a (zipw refill l k) (refill_end d (skipn (List.length l) k)) g
  | ESet _ a l d g, k => ESet c a (zipw refill l k) (refill_end d (skipn (List.length l) k)) g
  | EDict _ a l d g, k => EDict c a (zipw refill l k) (refill_end d (skipn (List.length l) k)) g
  | EComp _ a b x l g d, k1 :: k => EComp c a b (refill x k1) (zipw refill l k) g (refill_end d (skipn (List.length l) k))
  | EForC _ a v b x, k1 :: k2 :: _ => EForC c a (refill v k1) b (refill x k2)
  | EIfC _ a x, k1 :: _ => EIfC c a (refill x k1)
  | EKV _ x a y, k1 :: k2 :: _ => EKV c (refill x k1) a (refill y k2)
  | ETuple _ nobr a l d g h, k => ETuple c nobr a (zipw refill l k) (if nobr then d else refill_end d (skipn (List.length l) k)) g h
  | EUnary _ a b x, k => EUnary c a b (zipo refill x k)
  | EBinary _ x a b d y, k1 :: k2 :: _ => EBinary c (refill x k1) a b d (refill y k2)
  | EAssign _ x a b d y, k1 :: k2 :: _ => EAssign c (refill x k1) a b d (refill y k2)
  | ECond _ x a y b z, k1 :: k2 :: k3 :: _ => ECond c (refill x k1) a (refill y k2) b (refill z k3)
  | EParen _ a x d g, k1 :: k => EParen c a (refill x k1) (refill_end d k) g
  | ESlice _ x a u b v d w g, k1 :: k =>
      ESlice c (refill x k1) a (zipo refill u k) b (zipo refill v (skipn (olen u) k)) d
             (zipo refill w (skipn (olen v) (skipn (olen u) k))) g
  | EIndex _ x a y b, k1 :: k2 :: _ => EIndex c (refill x k1) a (refill y k2) b
  | ELambda _ a ps b, k => ELambda c a (zipw refill ps k) (zipw refill b (skipn (List.length ps) k))
  | EReturn _ a x, k => EReturn c a (zipo refill x k)
  | EDef _ a ps b d g h i j, k => EDef c a (zipw refill ps k) (zipw refill b (skipn (List.length ps) k)) d g h i j
  | EFor _ a v x b, k1 :: k2 :: k => EFor c a (refill v k1) (refill x k2) (zipw refill b k)
  | EIf _ a x t d f, k1 :: k =>
      let k' := skipn (List.length t) k in
      EIf c a (refill x k1) (zipw refill t k)
          (match f with [] => d | _ => refill_end d k' end)
          (zipw refill f (match f with [] => k' | _ => tl k' end))
  | _, _ => e
  end.
(** build/lex.go:841-846 [assignComments]. *)
Definition assignComments (file : expr) (lines suffixes : list comment) : expr :=
  let r := skel file in
  let heap := map rcom (preorder r) in
  let heap := assignSuffixComments r suffixes heap in
  let heap := assignLineComments r lines heap in
  refill file (fst (put r heap)).
