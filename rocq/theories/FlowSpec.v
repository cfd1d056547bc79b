(** Executions of statements (C55), independent of the analysis: which statements run, and how a block
    ends.  Conditions and iterables are arbitrary, so every branch and any number of iterations may
    happen; every statement may also fail. *)
From Verif Require Import Base Ast Flow.

Inductive outcome :=
  | Completes                     (* control reaches the end of the block *)
  | Returns (value : bool)        (* 'return e' / 'return' *)
  | Fails                         (* fail() or a run-time error *)
  | Breaks | Continues.
(** [fail(...)]. *)
Definition fail_call (s : expr) : Prop :=
  exists c i p args en k m, s = ECall c (EIdent i) p args en k m /\ i_name i = %"fail".
(** Statements after which control simply goes on: neither compound nor a jump. *)
Definition plain (s : expr) : Prop :=
  match s with
  | EReturn _ _ _ | EFor _ _ _ _ _ | EIf _ _ _ _ _ _ => False
  | EBranch _ tok _ => tok = %"pass"
  | _ => ~ fail_call s
  end.
(** [exec i l tr o]: the statements [l], which stand at positions [i], [i+1], ... of their block, run
    with outcome [o]; [tr] lists the locations of the statements that were started, in order.
    [exec1 s tr o]: the same for the inside of one statement. *)
Inductive exec : nat -> list expr -> list loc -> outcome -> Prop :=
  | x_end i : exec i [] [] Completes
  | x_next i s l tr tr' o :
      exec1 s tr Completes -> exec (S i) l tr' o ->
      exec i (s :: l) ([At i] :: map (cons (At i)) tr ++ tr') o
  | x_stop i s l tr o :
      exec1 s tr o -> o <> Completes -> exec i (s :: l) ([At i] :: map (cons (At i)) tr) o
with exec1 : expr -> list loc -> outcome -> Prop :=
  | x_error s : exec1 s [] Fails
  | x_plain s : plain s -> exec1 s [] Completes
  | x_return c p : exec1 (EReturn c p None) [] (Returns false)
  | x_return_value c p e : exec1 (EReturn c p (Some e)) [] (Returns true)
  | x_break c p : exec1 (EBranch c %"break" p) [] Breaks
  | x_continue c p : exec1 (EBranch c %"continue" p) [] Continues
  | x_true c p e tru ep fls tr o :
      exec 0 tru tr o -> exec1 (EIf c p e tru ep fls) (map (cons (Into InTrue)) tr) o
  | x_false c p e tru ep fls tr o :
      exec 0 fls tr o -> exec1 (EIf c p e tru ep fls) (map (cons (Into InFalse)) tr) o
  | x_done c p v x body : exec1 (EFor c p v x body) [] Completes
  | x_again c p v x body tr o tr' o' :
      exec 0 body tr o -> o = Completes \/ o = Continues -> exec1 (EFor c p v x body) tr' o' ->
      exec1 (EFor c p v x body) (map (cons (Into InBody)) tr ++ tr') o'
  | x_broken c p v x body tr :
      exec 0 body tr Breaks -> exec1 (EFor c p v x body) (map (cons (Into InBody)) tr) Completes
  | x_out c p v x body tr o :
      exec 0 body tr o -> (exists b, o = Returns b) \/ o = Fails ->
      exec1 (EFor c p v x body) (map (cons (Into InBody)) tr) o.
(** Running a function body. *)
Definition runs (body : list expr) (tr : list loc) (o : outcome) : Prop := exec 0 body tr o.

(** The statement at a location. *)
Definition branch_of (b : branch) (s : expr) : option (list expr) :=
  match b, s with
  | InBody, EFor _ _ _ _ body => Some body
  | InTrue, EIf _ _ _ tru _ _ => Some tru
  | InFalse, EIf _ _ _ _ _ fls => Some fls
  | _, _ => None
  end.
Fixpoint stmt_at (l : list expr) (p : loc) : option expr :=
  match p with
  | [At i] => nth_error l i
  | At i :: Into b :: p' =>
      match nth_error l i with
      | Some s => match branch_of b s with Some l' => stmt_at l' p' | None => None end
      | None => None
      end
  | _ => None
  end.
(** A location [q] is at or after the reported one in the same block, or inside such a statement. *)
Definition covers (p q : loc) : Prop :=
  exists pre i j rest, p = pre ++ [At i] /\ q = pre ++ At j :: rest /\ i <= j.
(** 'break' and 'continue' stand in loops only. *)
Fixpoint jumps_in_loops (s : expr) : Prop :=
  match s with
  | EBranch _ tok _ => tok = %"pass"
  | EIf _ _ _ tru _ fls =>
      (fix all l := match l with [] => True | x :: l' => jumps_in_loops x /\ all l' end) tru /\
      (fix all l := match l with [] => True | x :: l' => jumps_in_loops x /\ all l' end) fls
  | _ => True
  end.
(** [d] is a statement of [e], at any depth (also inside nested functions). *)
Definition blocks (e : expr) : list expr :=
  match e with
  | EFile _ _ l => flat_map (fun o => match o with Some x => [x] | None => [] end) l
  | EDef _ _ _ b _ _ _ _ _ => b
  | EIf _ _ _ t _ f => t ++ f
  | EFor _ _ _ _ b => b
  | _ => []
  end.
Inductive stmt_in (e : expr) : expr -> Prop :=
  | si_self : stmt_in e e
  | si_sub x d : stmt_in e x -> In d (blocks x) -> stmt_in e d.
(** The statements of a block and of the blocks inside it, nested functions apart. *)
Inductive own_stmt (l : list expr) : expr -> Prop :=
  | own_top x : In x l -> own_stmt l x
  | own_sub x y : own_stmt l x -> (forall c p ps b n co k m ty, x <> EDef c p ps b n co k m ty) -> In y (blocks x) -> own_stmt l y.
(** Does a function with this body return a value somewhere? *)
Definition returns_a_value (body : list expr) : Prop := exists c p e, own_stmt body (EReturn c p (Some e)).
