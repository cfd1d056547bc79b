(** edit/bzlmod/bzlmod.go: module extensions, use_repo calls and includes in MODULE.bazel files,
    and the use_repo commands of edit/buildozer.go. *)
From Verif Require Import Base Ast Rewrite RuleApi Labels Cli.

(** edit/bzlmod/bzlmod.go:285-302 [parseBooleanKeywordArg]. *)
Definition parseBooleanKeywordArg (arg : expr) (name : bytes) : bool :=
  match arg with
  | EAssign _ (EIdent i) _ _ _ rhs =>
      if beq (i_name i) name
      then match rhs with EIdent v => negb (beq (i_name v) %"False") | _ => true end
      else false
  | _ => false
  end.
(** edit/bzlmod/bzlmod.go:243-281 [parseUseExtension]: None is the result with an empty proxy (an
    identifier is never empty). *)
Record extension := Ext { x_proxy : bytes; x_file : bytes; x_name : bytes; x_dev : bool; x_isolated : bool }.
Definition parseUseExtension (s : option expr) : option extension :=
  match s with
  | Some (EAssign _ (EIdent lhs) _ _ _ (ECall _ (EIdent f) _ (EStr file :: EStr name :: args) _ _ _)) =>
      if beq (i_name f) %"use_extension"
      then Some (Ext (i_name lhs) (s_value file) (s_value name)
                   (existsb (fun a => parseBooleanKeywordArg a %"dev_dependency") args)
                   (existsb (fun a => parseBooleanKeywordArg a %"isolate") args))
      else None
  | _ => None
  end.
(** edit/bzlmod/bzlmod.go:213-225 [getApparentModuleName]. *)
Definition getApparentModuleName (stmts : list (option expr)) : bytes :=
  fold_left (fun acc r =>
    match callee_args r with
    | Some (_, args) =>
        if negb (beq (AttrString %"repo_name" args) []) then AttrString %"repo_name" args
        else if negb (beq (AttrString %"name" args) []) then AttrString %"name" args else acc
    | None => acc
    end) (Rules %"module" stmts) [].
(** edit/bzlmod/bzlmod.go:228-241 [normalizeLabelString]. *)
Definition normalizeLabelString (raw apparent : bytes) : bytes :=
  let l := parse_relative raw [] in
  format (if is_empty (repository l) then Label apparent (package l) (target l) else l).
(** edit/bzlmod/bzlmod.go:30-48 [Proxies]. *)
Definition Proxies (stmts : list (option expr)) (file name : bytes) (dev : bool) : list bytes :=
  let m := getApparentModuleName stmts in
  flat_map (fun s =>
    match parseUseExtension s with
    | Some x =>
        if Bool.eqb (x_dev x) dev && negb (x_isolated x)
           && beq (normalizeLabelString (x_file x) m) (normalizeLabelString file m) && beq (x_name x) name
        then [x_proxy x] else []
    | None => []
    end) stmts.
(** edit/bzlmod/bzlmod.go:57-68 [AllProxies] for a nonempty proxy. *)
Definition AllProxies (stmts : list (option expr)) (proxy : bytes) : list bytes :=
  match find (fun s => match parseUseExtension s with Some x => beq (x_proxy x) proxy | None => false end) stmts with
  | Some s =>
      match parseUseExtension s with
      | Some x => if x_isolated x then [proxy] else Proxies stmts (x_file x) (x_name x) (x_dev x)
      | None => []
      end
  | None => []
  end.
(** edit/bzlmod/bzlmod.go:71-99 [UseRepos]: the calls, given by the indices of their statements. *)
Definition is_use_repo (proxies : list bytes) (s : option expr) : bool :=
  match s with
  | Some (ECall _ (EIdent f) _ (EIdent p :: _) _ _ _) => beq (i_name f) %"use_repo" && mem_bytes (i_name p) proxies
  | _ => false
  end.
Fixpoint indices {A} (p : A -> bool) (i : nat) (l : list A) : list nat :=
  match l with [] => [] | x :: l' => if p x then i :: indices p (S i) l' else indices p (S i) l' end.
Definition UseRepos (stmts : list (option expr)) (proxies : list bytes) : list nat := indices (is_use_repo proxies) 0 stmts.

(** edit/bzlmod/bzlmod.go:304-317 [parseTag]. *)
Definition parseTag (s : option expr) : option bytes :=
  match s with Some (ECall _ (EDot _ (EIdent i) _ _ _) _ _ _ _ _) => Some (i_name i) | _ => None end.
(** edit/bzlmod/bzlmod.go:322-352 [lastProxyUsage]: statement index and proxy of the last usage. *)
Definition usage_proxy (proxies : list bytes) (s : option expr) : option bytes :=
  match parseUseExtension s with
  | Some x => if mem_bytes (x_proxy x) proxies then Some (x_proxy x) else None
  | None => match parseTag s with
            | Some p => if mem_bytes p proxies then Some p else None
            | None => None
            end
  end.
Fixpoint lastProxyUsage (proxies : list bytes) (i : nat) (stmts : list (option expr)) : option (nat * bytes) :=
  match stmts with
  | [] => None
  | s :: l =>
      match lastProxyUsage proxies (S i) l with
      | Some r => Some r
      | None => match usage_proxy proxies s with Some p => Some (i, p) | None => None end
      end
  end.
Definition use_repo_call (proxy : bytes) : expr :=
  ECall no_com (EIdent (Ident no_com no_pos %"use_repo")) no_pos [EIdent (Ident no_com no_pos proxy)]
    (End no_com no_pos) false false.
(** edit/bzlmod/bzlmod.go:104-119 [NewUseRepo]: the new statements and the index of the new call. *)
Definition NewUseRepo (stmts : list (option expr)) (proxies : list bytes) : list (option expr) * option nat :=
  match lastProxyUsage proxies 0 stmts with
  | None => (stmts, None)
  | Some (i, p) => (firstn (S i) stmts ++ Some (use_repo_call p) :: skipn (S i) stmts, Some (S i))
  end.

(** edit/bzlmod/bzlmod.go:197-209 [repoFromUseRepoArg]. *)
Definition repoFromUseRepoArg (arg : expr) : bytes :=
  match arg with
  | EStr s => s_value s
  | EAssign _ _ _ _ _ (EStr s) => s_value s
  | _ => []
  end.
Definition call_list (e : expr) : list expr := match e with ECall _ _ _ l _ _ _ => l | _ => [] end.
Definition set_list (l : list expr) (e : expr) : expr :=
  match e with ECall c x p _ en k m => ECall c x p l en k m | _ => e end.
Definition call_at (stmts : list (option expr)) (i : nat) : option expr :=
  match nth_error stmts i with Some (Some e) => Some e | _ => None end.
Definition call_end (e : expr) : Z := match e with ECall _ _ _ _ en _ _ => p_byte (e_pos en) | _ => 0 end.
(** Assignment to the List of the call at a statement index. *)
Fixpoint update {A} (i : nat) (f : A -> A) (l : list A) : list A :=
  match l, i with
  | [], _ => []
  | x :: l', 0 => f x :: l'
  | x :: l', S i' => x :: update i' f l'
  end.
(** edit/bzlmod/bzlmod.go:185-193 [getLastUseRepo]: the first call with the largest end position. *)
Definition getLastUseRepo (stmts : list (option expr)) (calls : list nat) : option nat :=
  fold_left (fun acc i =>
    match acc with
    | None => Some i
    | Some j =>
        match call_at stmts i, call_at stmts j with
        | Some a, Some b => if (call_end b <? call_end a)%Z then Some i else acc
        | _, _ => acc
        end
    end) calls None.
(** edit/bzlmod/bzlmod.go:122-153 [AddRepoUsages]; None: panic.  The map [seen] is not updated in the
    second loop. *)
Definition seen_repos (stmts : list (option expr)) (calls : list nat) : list bytes :=
  flat_map (fun i => match call_at stmts i with
                     | Some e => map repoFromUseRepoArg (tl (call_list e))
                     | None => [] end) calls.
Definition new_repo (r : bytes) : expr := EStr (Str no_com no_pos r false no_pos []).
Definition AddRepoUsages (stmts : list (option expr)) (calls : list nat) (repos : list bytes) : option (list (option expr)) :=
  match repos with
  | [] => Some stmts
  | _ =>
      match getLastUseRepo stmts calls with
      | None => None
      | Some i =>
          let seen := seen_repos stmts calls in
          let new := map new_repo (filter (fun r => negb (mem_bytes r seen)) repos) in
          Some (update i (option_map (fun e => set_list (call_list e ++ new) e)) stmts)
      end
  end.
(** edit/bzlmod/bzlmod.go:158-187 [RemoveRepoUsages]. *)
Definition remove_repos (repos : list bytes) (e : expr) : expr :=
  match call_list e with
  | [] => e
  | x :: l => set_list (x :: filter (fun a => negb (mem_bytes (repoFromUseRepoArg a) repos)) l) e
  end.
Definition RemoveRepoUsages (stmts : list (option expr)) (calls : list nat) (repos : list bytes) : list (option expr) :=
  match repos with
  | [] => stmts
  | _ => fold_left (fun st i => update i (option_map (remove_repos repos)) st) calls stmts
  end.

(** edit/buildozer.go:834-880 [cmdImplUseRepo]: the arguments have been checked to be at least two. *)
Inductive result (A : Type) := Ok (a : A) | Error | Panic.
Arguments Ok {A} _. Arguments Error {A}. Arguments Panic {A}.
Definition use_repo_on (add : bool) (stmts : list (option expr)) (proxies repos : list bytes) : result (list (option expr)) :=
  match proxies with
  | [] => Error
  | _ =>
      let '(stmts', calls) :=
        match UseRepos stmts proxies with
        | [] => match NewUseRepo stmts proxies with
                | (st, Some i) => (st, Some [i])
                | (st, None) => (st, None)
                end
        | l => (stmts, Some l)
        end in
      match calls with
      | None => match repos with [] => Ok stmts' | _ => Panic end   (* nil call *)
      | Some l =>
          if add then match AddRepoUsages stmts' l repos with Some st => Ok st | None => Panic end
          else Ok (RemoveRepoUsages stmts' l repos)
      end
  end.
Definition cmdImplUseRepo (add : bool) (ty : ftype) (args : list bytes) (stmts : list (option expr)) : result (list (option expr)) :=
  match ty with
  | TypeModule =>
      match args with
      | [] => Panic
      | a0 :: rest0 =>
          let dev_ok :=
            if beq a0 %"dev" then match rest0 with [] => None | a1 :: _ => Some (isExtensionLabel a1) end else Some false in
          match dev_ok with
          | None => Panic
          | Some dev =>
              match (if dev then rest0 else args) with
              | [] => Panic
              | b0 :: rest =>
                  if isExtensionLabel b0
                  then match rest with
                       | [] => Panic
                       | name :: repos => use_repo_on add stmts (Proxies stmts b0 name dev) repos
                       end
                  else use_repo_on add stmts (AllProxies stmts b0) rest
              end
          end
      end
  | _ => Error
  end.

(** ** Includes *)
(** Go's path.Clean (slash-separated paths): components processed left to right; [out] is reversed. *)
Fixpoint clean_parts (rooted : bool) (out l : list bytes) : list bytes :=
  match l with
  | [] => rev out
  | x :: l' =>
      if beq x [] || beq x %"." then clean_parts rooted out l'
      else if beq x %".." then
        match out with
        | y :: out' => if beq y %".." then clean_parts rooted (x :: out) l' else clean_parts rooted out' l'
        | [] => if rooted then clean_parts rooted out l' else clean_parts rooted [x] l'
        end
      else clean_parts rooted (x :: out) l'
  end.
Definition path_clean (p : bytes) : bytes :=
  let rooted := has_prefix [c_slash] p in
  match join [c_slash] (clean_parts rooted [] (split c_slash p)) with
  | [] => if rooted then [c_slash] else %"."
  | s => if rooted then c_slash :: s else s
  end.
(** Go's path.Join of two elements. *)
Definition path_join (a b : bytes) : bytes :=
  match a, b with
  | [], [] => []
  | [], _ => path_clean b
  | _, [] => path_clean a
  | _, _ => path_clean (a ++ [c_slash] ++ b)
  end.
(** edit/bzlmod/bzlmod.go:418-421: the path of an included file. *)
Definition include_path (lab : bytes) : bytes := let l := parse lab in path_join (package l) (target l).

(** edit/bzlmod/bzlmod.go:402-434 [collectApparentNamesAndIncludes]: assignments to the map, in order,
    and labels, in order.  (f.Rules computes names with the implicit-name convention, but only
    ExplicitName is used here.) *)
Definition is_include (x : expr) : bool := match x with EIdent i => beq (i_name i) %"include" | _ => false end.
Definition names_and_includes (stmts : list (option expr)) : list (bytes * bytes) * list bytes :=
  fold_left (fun acc r =>
    match callee_args r with
    | Some (x, args) =>
        match AttrString %"name" args with
        | [] => match is_include x, args with
                | true, [EStr s] => (fst acc, snd acc ++ [s_value s])
                | _, _ => acc
                end
        | n =>
            if beq (kind_of x) %"module" || beq (kind_of x) %"bazel_dep"
            then (fst acc ++ [(n, match AttrString %"repo_name" args with [] => n | rn => rn end)], snd acc)
            else acc
        end
    | None => acc
    end) (Rules [] stmts) ([], []).
(** Lookup in a map filled by a sequence of assignments. *)
Definition last_binding (k : bytes) (l : list (bytes * bytes)) : option bytes := lookup k (rev l).
(** edit/bzlmod/bzlmod.go:372-400 [collectApparentNames]: the loop as a transition system.  State: files
    still to process, files seen (in reverse order of reading), assignments to the map so far. *)
Record cstate := CState { c_todo : list bytes; c_seen : list bytes; c_names : list (bytes * bytes) }.
Definition cstep (reader : bytes -> option (list (option expr))) (s : cstate) : cstate + option (list (bytes * bytes)) :=
  match c_todo s with
  | [] => inr (Some (c_names s))
  | f :: todo =>
      if mem_bytes f (c_seen s) then inl (CState todo (c_seen s) (c_names s))
      else match reader f with
           | None => inr None
           | Some stmts =>
               let (names, incs) := names_and_includes stmts in
               inl (CState (todo ++ map include_path incs) (f :: c_seen s) (c_names s ++ names))
           end
  end.
Fixpoint crun (reader : bytes -> option (list (option expr))) (fuel : nat) (s : cstate)
  : option (list bytes * option (list (bytes * bytes))) :=
  match fuel with
  | 0 => None
  | S n =>
      match cstep reader s with
      | inl s' => crun reader n s'
      | inr r =>
          (* the files read: those seen, and the unreadable one *)
          Some (rev (match r with None => firstn 1 (c_todo s) ++ c_seen s | Some _ => c_seen s end), r)
      end
  end.
Definition collectApparentNames reader (fuel : nat) (path : bytes) := crun reader fuel (CState [path] [] []).
(** edit/bzlmod/bzlmod.go:361-367 [ExtractModuleToApparentNameMapping]: the returned function. *)
Definition apparent_name (r : option (list (bytes * bytes))) (m : bytes) : bytes :=
  match r with
  | None => []
  | Some l => match last_binding m l with Some v => v | None => [] end
  end.
