(** Model of stateful functions that initialise and call other stateful functions: [state.init(f, name=n)(key, *args)]
    and [Module.__call__] inside of a function that is itself transformed by [state.init] (function.py:228-295,
    module.py:130-153), and of optix.chain (optix.py:249-261) built from them.

    The staged call_and_update of the inner function and the reaped inner function are sub-programs of the outer one: an
    outer harvest traces through them.

    Simplifications: the inner module has a name (with name=None its variables are sown one by one); an assign that
    changes the shape of a variable leaves the model (TypeErr). *)
From Verif Require Export StateModel.
From Coq Require Import DecimalString DecimalNat.

Section nested.
  Context {AR : Arrays}.
  Variable key0 : tree.                                          (* random.PRNGKey(0), function.py:274-276 *)
  (** does a sow of a value without arrays reach the enclosing harvest?  [sow] binds with the current trace whatever
      its arguments are (harvest.py:253-254, 302-304), so yes; with versions of JAX before 0.4.36 the trace was found
      from the arguments, and such a sow was invisible. *)
  Variable empty_sow : bool.

  (** a function given to state.init: with or without the keyword init_key (function.py:255-263, kwargs_util.py:71-82) *)
  Inductive ufun (A B : Type) := Stateful (f : prog (tree * A) B) | Stateless (f : prog A B).
  Arguments Stateful {A B}. Arguments Stateless {A B}.

  Definition avals_of (M : meta) : list (string * aval) := map (fun e => (fst e, snd (snd e))) M.
  Definition zero_vars (M : meta) : plants := map (fun e => (fst e, zeros (snd (snd e)))) M.

  (** sow of a module (a pytree whose leaves are its variables): module.variable(mod, name) / module.assign(mod, name) *)
  Definition sow_module (tag name : string) (md : mode) (M : meta) : prog plants plants :=
    Seq (Pure (fun vs => inl (Dict vs))) (Seq (Sow tag name md (AD (avals_of M)))
      (Pure (fun t => match t with Dict vs => inl vs | _ => inr TypeErr end))).

  (** function_init with a name, function.py:280-293: the variables are reaped; the module is sown if it has variables *)
  Definition init_in {A B} (name : string) (f : prog (tree * A) B) : res (meta * prog (tree * A) plants) :=
    rb (reapT var_reap f []) (fun rM => rb (call_and_reap var_reap f) (fun r =>
      inl (fst rM, Seq (Seq r (Pure (fun bd => inl (snd bd))))
                       (match fst rM with [] => Pure (fun vs => inl vs) | _ => sow_module VARIABLE name Strict (fst rM) end)))).
  (** FunctionModule.call_and_update inside of a traced function, function.py:189-194.  The staged program depends on the
      structure of the variables only (trace_util.py:57-85). *)
  Definition cau_in {A B} (f : prog (tree * A) B) (M : meta) : res (prog (plants * A) (B * plants)) :=
    rb (cau_program key0 f (zero_vars M)) (fun c => inl (
      Seq (Pure (fun x : plants * A => inl (x, fst x))) (Seq (First plants c)
        (Pure (fun x : (B * plants) * plants =>
           if forallb (haskey (snd x)) (dkeys (snd (fst x))) then inl (fst (fst x), dmerge (snd x) (snd (fst x))) else inr ValueErr))))).
  (** Module.__call__ of a module with a name, module.py:130-153 *)
  Definition assign_module {B} (name : string) (M : meta) : prog (B * plants) B :=
    Seq (Pure (fun x : B * plants => inl (snd x, fst x))) (Seq (First B (sow_module ASSIGN name Clobber M)) (Pure (fun x => inl (snd x)))).
  Definition dunder_call {A B} (name : string) (M : meta) (c : prog (plants * A) (B * plants)) : prog (plants * A) B :=
    match M with
    | [] => if empty_sow then Seq c (assign_module name M) else Seq c (Pure (fun x => inl (fst x)))
    | _ => Seq c (assign_module name M)
    end.
  (** [step = state.init(f, name=n)(key, *args)]; [step( *args)], optix.py:257-258 *)
  Definition init_and_call {A B} (name : string) (u : ufun A B) : res (prog (tree * A) B) :=
    match u with
    | Stateful f =>
        rb (init_in name f) (fun Mi => rb (cau_in f (fst Mi)) (fun c =>
          inl (Seq (Pure (fun kx => inl (kx, snd kx))) (Seq (First A (snd Mi)) (dunder_call name (fst Mi) c)))))
    | Stateless f =>
        inl (Seq (Pure (fun kx : tree * A => inl ([] : plants, snd kx)))
                 (dunder_call name [] (Seq (Pure (fun x : plants * A => inl (snd x, fst x))) (First plants f))))
    end.

  (** optix.chain, optix.py:249-261: [split k n] is random.split *)
  Variable split : tree -> nat -> list tree.
  Fixpoint chain_body {U P} (us : list (string * ufun (U * P) U)) : res (prog (list tree * (U * P)) U) :=
    match us with
    | [] => inl (Pure (fun x => inl (fst (snd x))))
    | (n, u) :: us' =>
        rb (init_and_call n u) (fun p => rb (chain_body us') (fun q => inl (
          Seq (Pure (fun x : list tree * (U * P) => match fst x with k :: ks => inl ((k, snd x), (ks, snd (snd x))) | [] => inr TypeErr end))
            (Seq (First (list tree * P) p)
              (Seq (Pure (fun y : U * (list tree * P) => inl (fst (snd y), (fst y, snd (snd y))))) q)))))
    end.
  Definition chain_of {U P} (us : list (string * ufun (U * P) U)) : res (prog (tree * (U * P)) U) :=
    rb (chain_body us) (fun q => inl (Seq (Pure (fun kx => inl (split (fst kx) (List.length us), snd kx))) q)).
  (** the names: 'update_0', 'update_1', ... for positional arguments, then the keywords (optix.py:253-254) *)
  Definition update_name (i : nat) : string := String.append "update_" (NilEmpty.string_of_uint (Nat.to_uint i)).
  Definition positional {X} (l : list X) : list (string * X) := combine (map update_name (seq 0 (List.length l))) l.
  Definition chain {U P} (args : list (ufun (U * P) U)) (kwargs : list (string * ufun (U * P) U)) : res (prog (tree * (U * P)) U) :=
    chain_of (positional args ++ kwargs).
End nested.
Arguments Stateful {AR A B}. Arguments Stateless {AR A B}.
