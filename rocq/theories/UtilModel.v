(** Model of oryx/core/kwargs_util.py, of tie_all/tie_in (primitive.py) and of the dynamic contexts of trace_util.py. *)
From Verif Require Export Dict.

(** ** kwargs_util.py *)
(** Python signatures: parameters with their kind, and whether there is a **kwargs parameter *)
Inductive pkind := PosOnly | PosOrKw | KwOnly.
Record param := mk_param { p_name : string; p_kind : pkind; p_default : bool }.
Record signature := mk_sig { s_params : list param; s_varkw : bool }.
Definition is_kwonly (p : param) : bool := match p_kind p with KwOnly => true | _ => false end.
(** inspect.getfullargspec: positional-only parameters are listed in args like the others; defaults is None when no
    positional parameter has a default *)
Record argspec := mk_argspec { a_args : list string; a_defaults : option nat; a_kwonly : list string; a_varkw : bool }.
Definition getfullargspec (s : signature) : argspec :=
  let pos := filter (fun p => negb (is_kwonly p)) (s_params s) in
  let n := List.length (filter p_default pos) in
  mk_argspec (map p_name pos) (match n with 0 => None | _ => Some n end) (map p_name (filter is_kwonly (s_params s))) (s_varkw s).
(** args[-n:] for n > 0 *)
Definition last_n {X} (n : nat) (l : list X) : list X := skipn (List.length l - n) l.
(** filter_kwargs, kwargs_util.py:41-68 *)
Definition filter_kwargs {X} (s : signature) (kw : list (string * X)) : list (string * X) :=
  let a := getfullargspec s in
  if a_varkw a then kw else
  match a_defaults a with
  | None => []
  | Some n => filter (fun kv => mem (fst kv) (last_n n (a_args a))) kw
  end.
(** check_in_kwargs, kwargs_util.py:71-82 *)
Definition check_in_kwargs (s : signature) (k : string) : bool :=
  let a := getfullargspec s in
  if a_varkw a then true else
  match a_defaults a, a_kwonly a with
  | None, [] => false
  | None, kwonly => mem k kwonly
  | Some n, kwonly => mem k (last_n n (a_args a)) || mem k kwonly
  end.

(** ** tie_all, tie_in: primitive.py:236-274 *)
Section tie.
  Variable V : Type.
  (** pytrees: leaves and internal nodes (tuples, lists, dictionaries, None, registered classes) with static data *)
  Inductive pytree := Leaf (v : V) | Node (data : nat) (l : list pytree).
  Inductive treedef := TLeaf | TNode (data : nat) (l : list treedef).
  (** tree_util.tree_flatten *)
  Fixpoint leaves (t : pytree) : list V := match t with Leaf v => [v] | Node _ l => flat_map leaves l end.
  Fixpoint structure (t : pytree) : treedef := match t with Leaf _ => TLeaf | Node d l => TNode d (map structure l) end.
  (** tree_util.tree_unflatten; None: wrong number of leaves *)
  Fixpoint unflat (t : treedef) (xs : list V) : option (pytree * list V) :=
    match t with
    | TLeaf => match xs with x :: xs' => Some (Leaf x, xs') | [] => None end
    | TNode d l =>
        match (fix go (l : list treedef) (xs : list V) : option (list pytree * list V) :=
                 match l with
                 | [] => Some ([], xs)
                 | t :: l' => match unflat t xs with
                              | Some (p, xs1) => match go l' xs1 with Some (ps, xs2) => Some (p :: ps, xs2) | None => None end
                              | None => None
                              end
                 end) l xs with
        | Some (ps, xs') => Some (Node d ps, xs')
        | None => None
        end
    end.
  Definition unflatten (t : treedef) (xs : list V) : option pytree := match unflat t xs with Some (p, []) => Some p | _ => None end.
  (** tie_all_p.def_impl, primitive.py:238 *)
  Definition tie_all_p (xs : list V) : list V := xs.
  (** tie_all, primitive.py:263-269; the argument tuple is a node *)
  Definition tie_all (args : pytree) : option pytree :=
    if Nat.leb (List.length (leaves args)) 1 then Some args else unflatten (structure args) (tie_all_p (leaves args)).
  (** tie_in, primitive.py:272-274 *)
  Definition tie_in (x y : pytree) : option pytree :=
    match tie_all (Node 0 [x; y]) with Some (Node _ [_; r]) => Some r | _ => None end.
End tie.
Arguments Leaf {V}. Arguments Node {V}.

(** ** new_dynamic_context, get_dynamic_context: trace_util.py:100-127 *)
Section contexts.
  Variable C : Type.
  (** programs using dynamic contexts; trace states are numbers, [InTrace t] is code that JAX runs in trace state t *)
  Inductive cmd :=
  | Get                                   (* get_dynamic_context() *)
  | With (c : C) (body : list cmd)        (* with new_dynamic_context(_, c): body *)
  | InTrace (t : nat) (body : list cmd)
  | Raise
  | Try (body : list cmd).                (* try: body except Exception: pass *)
  (** _thread_local_state.dynamic_contexts: a dictionary of non-empty lists (most recent last) *)
  Definition table := list (nat * list C).
  Fixpoint tget (T : table) (t : nat) : option (list C) := match T with [] => None | (k, l) :: T' => if Nat.eqb t k then Some l else tget T' t end.
  Fixpoint tset (T : table) (t : nat) (l : list C) : table :=
    match T with [] => [(t, l)] | (k, l0) :: T' => if Nat.eqb t k then (t, l) :: T' else (k, l0) :: tset T' t l end.
  Definition tdel (T : table) (t : nat) : table := filter (fun kl => negb (Nat.eqb t (fst kl))) T.
  (** entering: trace_util.py:110-114 *)
  Definition enter (T : table) (t : nat) (c : C) : table := match tget T t with None => tset T t [c] | Some l => tset T t (l ++ [c]) end.
  (** leaving (the finally clause): 117-120 *)
  Definition leave (T : table) (t : nat) : table :=
    match tget T t with
    | None => T
    | Some l => match removelast l with [] => tdel T t | l' => tset T t l' end
    end.
  (** get_dynamic_context: 123-127; None is the ValueError *)
  Definition get (T : table) (t : nat) : option C := match tget T t with None => None | Some l => last (map Some l) None end.
  (** execution in trace state [t]: contexts observed by the executed Gets, whether an exception is propagating, and the table *)
  Fixpoint exec1 (c : cmd) (t : nat) (T : table) {struct c} : list (option C) * bool * table :=
    let exec := (fix exec (l : list cmd) (t : nat) (T : table) : list (option C) * bool * table :=
      match l with
      | [] => ([], true, T)
      | c :: l' => match exec1 c t T with
                   | (o, true, T1) => match exec l' t T1 with (o', b, T2) => (o ++ o', b, T2) end
                   | (o, false, T1) => (o, false, T1)
                   end
      end) in
    match c with
    | Get => match get T t with Some x => ([Some x], true, T) | None => ([None], false, T) end
    | With c body => match exec body t (enter T t c) with (o, b, T') => (o, b, leave T' t) end
    | InTrace t' body => exec body t' T
    | Raise => ([], false, T)
    | Try body => match exec body t T with (o, _, T') => (o, true, T') end
    end.
  Fixpoint exec (l : list cmd) (t : nat) (T : table) : list (option C) * bool * table :=
    match l with
    | [] => ([], true, T)
    | c :: l' => match exec1 c t T with
                 | (o, true, T1) => match exec l' t T1 with (o', b, T2) => (o ++ o', b, T2) end
                 | (o, false, T1) => (o, false, T1)
                 end
    end.
End contexts.
Arguments Get {C}. Arguments With {C}. Arguments InTrace {C}. Arguments Raise {C}. Arguments Try {C}.
