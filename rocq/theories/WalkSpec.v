(** Specification of tree traversal (C28). *)
From Verif Require Import Base Ast.

(** [sub e x]: [x] is written as an immediate subexpression of [e] (a component of the syntax
    of [e], for every construct of the language). *)
Inductive sub : expr -> expr -> Prop :=
  | sub_file c m l x : In (Some x) l -> sub (EFile c m l) x
  | sub_typed c i t : sub (ETyped c i t) (EIdent i)
  | sub_typed_ty c i t : sub (ETyped c i t) t
  | sub_callee c x p l e a b : sub (ECall c x p l e a b) x
  | sub_arg c x p l e a b y : In y l -> sub (ECall c x p l e a b) y
  | sub_dot c x p q n : sub (EDot c x p q n) x
  | sub_comp_body c k p b l m e : sub (EComp c k p b l m e) b
  | sub_comp_clause c k p b l m e y : In y l -> sub (EComp c k p b l m e) y
  | sub_for_vars c p v q x : sub (EForC c p v q x) v
  | sub_for_in c p v q x : sub (EForC c p v q x) x
  | sub_ifc c p x : sub (EIfC c p x) x
  | sub_key c k p v : sub (EKV c k p v) k
  | sub_value c k p v : sub (EKV c k p v) v
  | sub_dict c p l e m y : In y l -> sub (EDict c p l e m) y
  | sub_list c p l e m y : In y l -> sub (EList c p l e m) y
  | sub_set c p l e m y : In y l -> sub (ESet c p l e m) y
  | sub_tuple c n p l e k m y : In y l -> sub (ETuple c n p l e k m) y
  | sub_unary c p o x : sub (EUnary c p o (Some x)) x
  | sub_left c x p o b y : sub (EBinary c x p o b y) x
  | sub_right c x p o b y : sub (EBinary c x p o b y) y
  | sub_lhs c x p o b y : sub (EAssign c x p o b y) x
  | sub_rhs c x p o b y : sub (EAssign c x p o b y) y
  | sub_paren c p x e m : sub (EParen c p x e m) x
  | sub_sliced c x p a q b r d e : sub (ESlice c x p a q b r d e) x
  | sub_from c x p a q b r d e : sub (ESlice c x p (Some a) q b r d e) a
  | sub_to c x p a q b r d e : sub (ESlice c x p a q (Some b) r d e) b
  | sub_step c x p a q b r d e : sub (ESlice c x p a q b r (Some d) e) d
  | sub_indexed c x p y e : sub (EIndex c x p y e) x
  | sub_index c x p y e : sub (EIndex c x p y e) y
  | sub_lparam c p ps b y : In y ps -> sub (ELambda c p ps b) y
  | sub_lbody c p ps b y : In y b -> sub (ELambda c p ps b) y
  | sub_then c a p b q d : sub (ECond c a p b q d) a
  | sub_test c a p b q d : sub (ECond c a p b q d) b
  | sub_else c a p b q d : sub (ECond c a p b q d) d
  | sub_module c p m fr to e k : sub (ELoad c p m fr to e k) (EStr m)
  | sub_load_from c p m fr to e k i : In i fr -> sub (ELoad c p m fr to e k) (EIdent i)
  | sub_load_to c p m fr to e k i : In i to -> sub (ELoad c p m fr to e k) (EIdent i)
  | sub_dparam c p ps b n q k m t y : In y ps -> sub (EDef c p ps b n q k m t) y
  | sub_dbody c p ps b n q k m t y : In y b -> sub (EDef c p ps b n q k m t) y
  | sub_dtype c p ps b n q k m t : sub (EDef c p ps b n q k m (Some t)) t
  | sub_return c p x : sub (EReturn c p (Some x)) x
  | sub_for_stmt_vars c p v x b : sub (EFor c p v x b) v
  | sub_for_stmt_in c p v x b : sub (EFor c p v x b) x
  | sub_for_stmt_body c p v x b y : In y b -> sub (EFor c p v x b) y
  | sub_cond c p x t e f : sub (EIf c p x t e f) x
  | sub_true c p x t e f y : In y t -> sub (EIf c p x t e f) y
  | sub_false c p x t e f y : In y f -> sub (EIf c p x t e f) y.

(** Type annotations. *)
Inductive type_part : expr -> expr -> Prop :=
  | tp_ident c i t : type_part (ETyped c i t) (EIdent i)
  | tp_type c i t : type_part (ETyped c i t) t
  | tp_result c p ps b n q k m t : type_part (EDef c p ps b n q k m (Some t)) t.

(** Load statements have as many local as exported names (parser invariant). *)
Definition load_ok (e : expr) : Prop :=
  match e with ELoad _ _ _ fr to _ _ => List.length fr = List.length to | _ => True end.

(** Paths: which child to take at each step, given the list of children of every node. *)
Section Paths.
  Context (kids : expr -> list expr).
  Fixpoint node_at (e : expr) (p : list nat) : option expr :=
    match p with
    | [] => Some e
    | i :: p' => match nth_error (kids e) i with Some c => node_at c p' | None => None end
    end.
  (** the nodes strictly above position [p], outermost first *)
  Fixpoint above (e : expr) (p : list nat) : list expr :=
    match p with
    | [] => []
    | i :: p' => e :: match nth_error (kids e) i with Some c => above c p' | None => [] end
    end.
End Paths.
(** Preorder: a prefix comes first, otherwise the first different child decides. *)
Definition path_before (p q : list nat) : Prop :=
  (exists i t, q = p ++ i :: t) \/
  (exists r i s j t, p = r ++ i :: s /\ q = r ++ j :: t /\ i < j).

(** A node without its children (their number is kept). *)
Definition blank : expr := EBranch no_com [] no_pos.
Definition shell (e : expr) : expr :=
  match e with
  | ELoad c p m fr to r k =>
      ELoad c p (Str no_com no_pos [] false no_pos [])
        (map (fun _ => Ident no_com no_pos []) fr) (map (fun _ => Ident no_com no_pos []) to) r k
  | _ => map_children (fun _ => blank) e
  end.
(** [walked R stk e e']: [e'] is [e] with every node, from the root down, changed according to
    [R stack node new_node]; the children of the new node are treated likewise, with the new node
    on the stack. *)
Inductive walked (R : list expr -> expr -> expr -> Prop) : list expr -> expr -> expr -> Prop :=
  | walked_node stk e e1 e' :
      R stk e e1 -> shell e1 = shell e' ->
      Forall2 (walked R (stk ++ [e1])) (children e1) (children e') ->
      walked R stk e e'.
