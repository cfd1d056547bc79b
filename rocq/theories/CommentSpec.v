(** Comments in the order of the text (C68). *)
From Verif Require Import Base Ast AttachSpec.
From Verif Require Import Lex.   (* for the token type *)

(** The comments of a tree, those before a node before it, those beside and after it after it. *)
Definition around (c : comments) (l : list comment) : list comment := c_before c ++ l ++ c_suffix c ++ c_after c.
Definition end_in (d : endp) : list comment := around (e_com d) [].
Definition id_in (i : ident) : list comment := around (i_com i) [].
Definition str_in (s : strlit) : list comment := around (s_com s) [].
Fixpoint in_order_of (e : expr) : list comment :=
  around (com e)
  match e with
  | EFile _ _ l => flat_map (opt_coms in_order_of) l
  | ECommentBlock _ _ | EIdent _ | EBranch _ _ _ | ELit _ _ _ | EStr _ => []
  | ECall _ x _ l d _ _ => in_order_of x ++ flat_map in_order_of l ++ end_in d
  | ELoad _ _ m fr to r _ => str_in m ++ flat_map id_in fr ++ flat_map id_in to ++ end_in r
  | ETyped _ i t => id_in i ++ in_order_of t
  | EDot _ x _ _ _ => in_order_of x
  | EList _ _ l d _ | ESet _ _ l d _ | EDict _ _ l d _ | ETuple _ _ _ l d _ _ => flat_map in_order_of l ++ end_in d
  | EComp _ _ _ b l _ d => in_order_of b ++ flat_map in_order_of l ++ end_in d
  | EForC _ _ v _ x => in_order_of v ++ in_order_of x
  | EIfC _ _ x => in_order_of x
  | EKV _ k _ v => in_order_of k ++ in_order_of v
  | EUnary _ _ _ x => opt_coms in_order_of x
  | EBinary _ x _ _ _ y | EAssign _ x _ _ _ y => in_order_of x ++ in_order_of y
  | ECond _ a _ b _ d => in_order_of a ++ in_order_of b ++ in_order_of d
  | EParen _ _ x d _ => in_order_of x ++ end_in d
  | ESlice _ x _ a _ b _ d _ => in_order_of x ++ opt_coms in_order_of a ++ opt_coms in_order_of b ++ opt_coms in_order_of d
  | EIndex _ x _ y _ => in_order_of x ++ in_order_of y
  | ELambda _ _ ps b => flat_map in_order_of ps ++ flat_map in_order_of b
  | EReturn _ _ x => opt_coms in_order_of x
  | EDef _ _ ps b _ _ _ _ ty => flat_map in_order_of ps ++ opt_coms in_order_of ty ++ flat_map in_order_of b
  | EFor _ _ v x b => in_order_of v ++ in_order_of x ++ flat_map in_order_of b
  | EIf _ _ x t d f => in_order_of x ++ flat_map in_order_of t ++ end_in d ++ flat_map in_order_of f
  end.
(** The comment tokens (comments on lines of their own outside brackets). *)
Definition is_comment (t : token) : bool := match t_kind t with KComment => true | _ => false end.
Definition comment_of (t : token) : comment := Comment (t_pos t) (t_tok t).
Definition comment_tokens (ts : list token) : list comment := map comment_of (filter is_comment ts).
(** A comment by its place in the text. *)
Definition place (c : comment) : Z * bytes := (p_byte (c_start c), c_tok c).
(** Comments without text only stand for blank lines. *)
Definition real (c : comment) : bool := match c_tok c with [] => false | _ => true end.
(** The comments of a text: those that are tokens, and those between the tokens. *)
Definition comments_of (ts : list token) (gaps : list (Z * bytes)) : list (Z * bytes) := map place (comment_tokens ts) ++ gaps.
