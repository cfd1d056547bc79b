(** Specification of the load rewrites (C16 - C21). *)
From Verif Require Import Base Ast Labels CallSpec StrListSpec.

Definition is_load (s : option expr) : Prop := exists c p m fr to r k, s = Some (ELoad c p m fr to r k).
(** Statements that may precede loads: nothing, docstrings, comment blocks, workspace(). *)
Inductive neutral : option expr -> Prop :=
  | ne_none : neutral None
  | ne_str s : neutral (Some (EStr s))
  | ne_com c p : neutral (Some (ECommentBlock c p))
  | ne_ws c i p l e k m : i_name i = %"workspace" -> neutral (Some (ECall c (EIdent i) p l e k m)).
(** [loads_first l l']: the leading part of loads and neutral statements stays; of the rest, which
    starts with another statement, the loads come first; both parts keep their order. *)
Inductive pick {A} (P : A -> Prop) : list A -> list A -> list A -> Prop :=
  | pick_nil : pick P [] [] []
  | pick_in x l a b : P x -> pick P l a b -> pick P (x :: l) (x :: a) b
  | pick_out x l a b : ~ P x -> pick P l a b -> pick P (x :: l) a (x :: b).
Definition loads_first (l l' : list (option expr)) : Prop :=
  exists lead rest loads others,
    l = lead ++ rest /\ l' = lead ++ loads ++ others /\
    Forall (fun s => is_load s \/ neutral s) lead /\
    (rest = [] \/ exists s rest', rest = s :: rest' /\ ~ is_load s /\ ~ neutral s) /\
    pick is_load rest loads others.

(** What a load statement binds: (module, exported name, local name). *)
Definition bindings_of (s : option expr) : list (bytes * bytes * bytes) :=
  match s with
  | Some (ELoad _ _ m fr to _ _) => map (fun p => (s_value m, i_name (fst p), i_name (snd p))) (combine fr to)
  | _ => []
  end.
Definition bindings (l : list (option expr)) := flat_map bindings_of l.
Definition loads_module (s : option expr) (m : bytes) : Prop :=
  exists c p ms fr to r k, s = Some (ELoad c p ms fr to r k) /\ s_value ms = m.
Definition exempt (s : option expr) : Prop :=
  exists e, s = Some e /\ marked %"disable=same-origin-load" e.
Definition loads_balanced (s : option expr) : Prop :=
  match s with Some (ELoad _ _ _ fr to _ _) => List.length fr = List.length to | _ => True end.
(** The statement without what it binds. *)
Definition unbound (s : option expr) : option expr :=
  match s with Some (ELoad c p m _ _ r k) => Some (ELoad c p m [] [] r k) | _ => s end.
Definition symbols (s : option expr) : list (ident * ident) :=
  match s with Some (ELoad _ _ _ fr to _ _) => combine fr to | _ => [] end.
Definition stmt_comments (s : option expr) : list comment :=
  match s with
  | Some (ELoad c _ m _ _ r _) =>
      let all c := c_before c ++ c_suffix c ++ c_after c in all c ++ all (s_com m) ++ all (e_com r)
  | _ => []
  end.

(** Chunks: [chunk_perm R l l']: every maximal run of loads (nil statements in between do not
    count) is rearranged according to [R]; everything else stays at its index.  [run]/[run'] are
    the loads of the current run in the old and new list. *)
Inductive chunk_perm (R : list expr -> list expr -> Prop) :
    list expr -> list expr -> list (option expr) -> list (option expr) -> Prop :=
  | cp_end run run' : R run run' -> chunk_perm R run run' [] []
  | cp_nil run run' l l' : chunk_perm R run run' l l' -> chunk_perm R run run' (None :: l) (None :: l')
  | cp_load run run' e e' l l' : is_load (Some e) -> is_load (Some e') ->
      chunk_perm R (run ++ [e]) (run' ++ [e']) l l' -> chunk_perm R run run' (Some e :: l) (Some e' :: l')
  | cp_other run run' e l l' : ~ is_load (Some e) -> R run run' -> chunk_perm R [] [] l l' ->
      chunk_perm R run run' (Some e :: l) (Some e :: l').

(** A sorting function as the Go library specifies it: a rearrangement, sorted whenever the order is
    a strict weak order on the elements. *)
Record sorts {A} (srt : (A -> A -> bool) -> list A -> list A) : Prop := {
  srt_perm : forall lt l, Permutation (srt lt l) l;
  srt_sorted : forall lt l,
    (forall x y, In x l -> In y l -> lt x y = true -> lt y x = false) ->
    (forall x y z, In x l -> In y l -> In z l -> lt x y = false -> lt y z = false -> lt x z = false) ->
    StronglySorted (fun x y => lt y x = false) (srt lt l) }.

(** The order of loads of a set of modules in which no two path components differ only in case. *)
Definition case_consistent (paths : bytes -> Prop) : Prop :=
  forall p q x y, paths p -> paths q -> In x (split c_slash p) -> In y (split c_slash q) ->
    to_lower x = to_lower y -> x = y.

(** Load arguments: unrenamed symbols first, then by local name. *)
Definition unrenamed (p : ident * ident) : Prop := i_name (fst p) = i_name (snd p).
Definition arg_leq (a b : ident * ident) : Prop :=
  (unrenamed a /\ ~ unrenamed b) \/
  ((unrenamed a <-> unrenamed b) /\ (bytes_before (i_name (snd a)) (i_name (snd b)))).

(** Bindings with the identifiers as written (positions and comments included). *)
Definition full_bindings_of (s : option expr) : list (bytes * (ident * ident)) :=
  match s with Some (ELoad _ _ m fr to _ _) => map (pair (s_value m)) (combine fr to) | _ => [] end.
Definition full_bindings (l : list (option expr)) := flat_map full_bindings_of l.
(** [l] has a load of module [m] at index [i], and none before. *)
Definition first_load (l : list (option expr)) (m : bytes) (i : nat) : Prop :=
  (exists s, nth_error l i = Some s /\ loads_module s m) /\
  (forall j s, j < i -> nth_error l j = Some s -> ~ loads_module s m).
(** Statement [s] at index [i] of [l] becomes [s']: the same apart from the symbols it binds, or it
    disappears, being a later load of a module, neither it nor the first load being exempt. *)
Definition merged_stmt (l : list (option expr)) (i : nat) (s s' : option expr) : Prop :=
  (unbound s' = unbound s /\ (is_load s \/ s' = s)) \/
  (s' = None /\ exists m j s0, loads_module s m /\ first_load l m j /\ j < i /\
     nth_error l j = Some s0 /\ ~ exempt s /\ ~ exempt s0).

(** Modules as sorted: relative labels belong to a package that sorts last. *)
Definition sort_label (m : bytes) : label := parse_relative m ["127"%char].
Definition packages_of (ms : list bytes) (p : bytes) : Prop := exists m, In m ms /\ p = package (sort_label m).
Definition targets_of (ms : list bytes) (t : bytes) : Prop := exists m, In m ms /\ t = target (sort_label m).
