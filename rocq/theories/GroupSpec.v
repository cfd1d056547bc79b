(** Trees that a tool may build (C70): names are names, operators are operators, every part is of a kind that can stand where
    it stands.  Nothing is said about precedence: the tool does not insert parentheses. *)
From Verif Require Import Base Ast Utf8 Quote Lex LexSpec ParseSpec PrintSpec.

Definition is_word (k : kind) (w : bytes) : Prop := spelled (Tok k no_pos w [] false).
Definition is_name : bytes -> Prop := is_word KIdent.
Definition is_int : bytes -> Prop := is_word KInt.
Definition is_number (w : bytes) : Prop :=
  is_int w \/ (exists a b, w = a ++ %"." ++ b /\ is_int a /\ is_int b) \/ (exists a, w = a ++ %"." /\ is_int a) \/ (exists b, w = %"." ++ b /\ is_int b).
(** A string: either its recorded spelling is not one of its value (it will be spelled anew), or it is one literal. *)
Definition is_string (s : strlit) : Prop := unquote (s_token s) = (s_value s, s_triple s, None) -> scan_string (s_token s) = Some [].

(** Where a node can stand. *)
Inductive role :=
  | Atom        (* a loop variable *)
  | Plain       (* what a clause of a comprehension ranges over, or tests *)
  | Operand     (* of an operator, a call, a subscript, ...; what follows else in a conditional expression *)
  | Value       (* where any expression without top-level commas is fine *)
  | Many        (* where a tuple without parentheses is fine as well *)
  | Target      (* loop variables *)
  | Argument | Formal | TFormal (* arguments, lambda parameters, function parameters *)
  | Entry       (* key: value *)
  | Clause      (* of a comprehension *)
  | Statement.
Inductive class := CPrim | COp | CLambda | CCond | CBare.
Definition fits (r : role) (k : class) : Prop :=
  In k match r with
       | Atom => [CPrim]
       | Plain => [CPrim; COp]
       | Operand => [CPrim; COp; CLambda]
       | Value | Argument => [CPrim; COp; CLambda; CCond]
       | Many | Statement => [CPrim; COp; CLambda; CCond; CBare]
       | Target => [CPrim; CBare]
       | _ => []
       end.
Definition binary_ops : list bytes := %"not in" :: map (fun x => fst (fst x)) binops.
Definition not_lit (e : expr) : Prop := match e with ELit _ _ _ => False | _ => True end.
Definition ident_ok (i : ident) : Prop := is_name (i_name i).
Definition load_ok (f t : ident) : Prop := i_name f = i_name t \/ is_name (i_name t).
Fixpoint built (r : role) (e : expr) : Prop :=
  let block l := code l <> [] /\ all_of (built Statement) l in
  match e with
  | EIdent i => ident_ok i /\ (fits r CPrim \/ In r [Formal; TFormal])
  | ELit _ _ w => is_number w /\ fits r CPrim
  | EStr s => is_string s /\ fits r CPrim
  | EDot _ x _ _ n => fits r CPrim /\ built Operand x /\ not_lit x /\ is_name n
  | EIndex _ x _ y _ => fits r CPrim /\ built Operand x /\ built Many y
  | ESlice _ x _ a _ b _ s _ => fits r CPrim /\ built Operand x /\ if_any (built Many) a /\ if_any (built Value) b /\ if_any (built Value) s
  | ECall _ x _ l _ _ _ => fits r CPrim /\ built Operand x /\ all_of (built Argument) l
  | EList _ _ l _ _ => fits r CPrim /\ all_of (built Value) l
  | ESet _ _ l _ _ => fits r CPrim /\ l <> [] /\ all_of (built Value) l
  | EDict _ _ l _ _ => fits r CPrim /\ all_of (built Entry) l
  | EComp _ curly _ x l _ _ =>
      fits r CPrim /\ built (if curly then Entry else Value) x /\ all_of (built Clause) l /\
      match l with EForC _ _ _ _ _ :: _ => True | _ => False end
  | EForC _ _ v _ x => r = Clause /\ built Target v /\ built Plain x
  | EIfC _ _ x => r = Clause /\ built Plain x
  | EKV _ k _ v => r = Entry /\ built Value k /\ built Value v
  | ETuple _ false _ l _ _ _ => fits r CPrim /\ all_of (built Value) l
  | ETuple _ true _ l _ _ _ =>
      fits r CBare /\ 2 <= List.length l /\
      match r with
      | Target => all_of (built Atom) l
      | _ => match l with x :: l' => built Value x /\ all_of (built Operand) l' | [] => False end
      end
  | EParen _ _ x _ _ => fits r CPrim /\ built Value x
  | EUnary _ _ op (Some x) =>
      (fits r COp /\ In op (map fst unops) /\ built Operand x) \/
      (In op [%"*"; %"**"] /\
       ((r = Argument /\ built Operand x) \/
        match x with
        | EIdent _ => In r [Formal; TFormal] /\ built Formal x
        | ETyped _ _ _ => r = TFormal /\ built TFormal x
        | _ => False
        end))
  | EUnary _ _ op None => op = %"*" /\ In r [Formal; TFormal]
  | EBinary _ x _ op _ y =>
      (fits r COp /\ In op binary_ops /\ built Operand x /\ built Operand y) \/
      (r = Statement /\ In op other_augmented /\ built Many x /\ built Many y)
  | ECond _ x _ y _ z => fits r CCond /\ built Value x /\ built Value y /\ built Operand z
  | ELambda _ _ ps [b] => fits r CLambda /\ all_of (built Formal) ps /\ built Value b
  | ETyped _ i t => r = TFormal /\ ident_ok i /\ built Value t
  | EAssign _ x _ op _ y =>
      (r = Statement /\ In op assign_ops /\ built Many x /\ built Many y) \/
      (op = %"=" /\ built Value y /\
       match x with
       | EIdent i => ident_ok i /\ In r [Argument; Formal; TFormal]
       | ETyped _ _ _ => r = TFormal /\ built TFormal x
       | _ => False
       end)
  | EBranch _ w _ => r = Statement /\ In w [%"pass"; %"break"; %"continue"]
  | EReturn _ _ x => r = Statement /\ if_any (built Many) x
  | ELoad _ _ m fr to _ _ => r = Statement /\ is_string m /\ fr <> [] /\ Forall2 load_ok fr to
  | EDef _ _ ps b n _ _ _ ty => r = Statement /\ is_name n /\ all_of (built TFormal) ps /\ if_any (built Value) ty /\ block b
  | EFor _ _ v x b => r = Statement /\ built Target v /\ built Many x /\ block b
  | EIf _ _ x t _ f => r = Statement /\ built Many x /\ block t /\ (f = [] \/ block f)
  | ECommentBlock _ _ => r = Statement
  | _ => False
  end.
