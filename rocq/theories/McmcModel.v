(** Model of oryx/experimental/mcmc/kernels.py: random_walk, metropolis, metropolis_hastings, hmc and mala.

    States are pytrees of real arrays (OptixModel.v: no rounding).  Log probabilities are floats with infinities and NaN:
    a target may give -inf.  A program of a random key is a function of the key.  [random.split(key)] gives two keys,
    [random.uniform(key)] a number in [0, 1).  [primitive.tie_in] returns its second argument.
    In metropolis, [st.init(inner_step)(init_key, transition_key, state)(transition_key, state)] is the call of a freshly
    initialised module; [inner] below is the function of (transition_key, state) it computes. *)
From Verif Require Export OptixModel.
From Coq Require Import Reals.
Open Scope R_scope. Open Scope string_scope. Open Scope list_scope.

(** floats: +, unary and binary -, <, following IEEE 754 for infinities and NaN *)
Inductive flt := Fin (r : R) | PInf | MInf | NaN.
Definition xadd (a b : flt) : flt :=
  match a, b with
  | NaN, _ | _, NaN => NaN
  | Fin x, Fin y => Fin (x + y)
  | PInf, MInf | MInf, PInf => NaN
  | PInf, _ | _, PInf => PInf
  | MInf, _ | _, MInf => MInf
  end.
Definition xneg (a : flt) : flt := match a with Fin x => Fin (- x) | PInf => MInf | MInf => PInf | NaN => NaN end.
Definition xsub (a b : flt) : flt := xadd a (xneg b).
Definition xlt (a b : flt) : bool :=
  match a, b with
  | NaN, _ | _, NaN => false
  | Fin x, Fin y => if Rlt_dec x y then true else false
  | _, MInf | PInf, _ => false
  | MInf, _ | _, PInf => true
  end.
(** np.log of a number in [0, 1) *)
Definition xlog (u : R) : flt := if Rlt_dec 0 u then Fin (ln u) else MInf.

(** tree_util.tree_map(lambda n, s: np.where(accept, n, s), next_state, state): the structures have to agree.
    Arrays of different shapes (which np.where would broadcast) are rejected. *)
Fixpoint where_tree (c : bool) (n s : tree) {struct n} : res tree :=
  match n, s with
  | Leaf v, Leaf w => if av_eqb (avalV v) (avalV w) then inl (Leaf (if c then v else w)) else inr TypeErr
  | Dict l, Dict l' =>
      rb ((fix go (l l' : list (string * tree)) {struct l} : res (list (string * tree)) :=
             match l, l' with
             | [], [] => inl []
             | (k, t) :: l, (k', t') :: l' => if String.eqb k k' then rb (where_tree c t t') (fun r => rb (go l l') (fun rs => inl ((k, r) :: rs))) else inr ValueErr
             | _, _ => inr ValueErr
             end) l l') (fun r => inl (Dict r))
  | Stk l, Stk l' =>
      rb ((fix go (l l' : list tree) {struct l} : res (list tree) :=
             match l, l' with
             | [], [] => inl []
             | t :: l, t' :: l' => rb (where_tree c t t') (fun r => rb (go l l') (fun rs => inl (r :: rs)))
             | _, _ => inr ValueErr
             end) l l') (fun r => inl (Stk r))
  | _, _ => inr ValueErr
  end.

Section kernels.
  Variable split : tree -> tree * tree.                          (* random.split(key) *)
  Variable uniform : tree -> R.                                  (* random.uniform(key) *)

  (** metropolis(unnormalized_log_prob, inner_step), kernels.py:63-94, after the split of the key and the draw of u *)
  Definition metropolis_body (log_prob : tree -> flt) (inner : tree -> tree -> res tree) (transition_key : tree) (u : R) (state : tree) : res tree :=
    rb (inner transition_key state) (fun next_state =>
      let log_unclipped_accept_prob := xsub (log_prob next_state) (log_prob state) in
      where_tree (xlt (xlog u) log_unclipped_accept_prob) next_state state).
  Definition metropolis (log_prob : tree -> flt) (inner : tree -> tree -> res tree) (key state : tree) : res tree :=
    metropolis_body log_prob inner (fst (split key)) (uniform (snd (split key))) state.

  (** metropolis_hastings(unnormalized_log_prob, inner_step), kernels.py:97-135.  [inner_log_prob sample arg] is
      ppl.log_prob(inner_step)(sample, arg), log_prob.py:56-73: the first argument is the sample *)
  Definition mh_body (log_prob : tree -> flt) (inner : tree -> tree -> res tree) (inner_log_prob : tree -> tree -> res flt) (transition_key : tree) (u : R) (state : tree) : res tree :=
    rb (inner transition_key state) (fun next_state =>
      rb (inner_log_prob state next_state) (fun forward_transition_log_prob =>
      rb (inner_log_prob next_state state) (fun backward_transition_log_prob =>
        let log_unclipped_accept_prob := xsub (xsub (xadd (log_prob next_state) backward_transition_log_prob) (log_prob state)) forward_transition_log_prob in
        where_tree (xlt (xlog u) log_unclipped_accept_prob) next_state state))).
  Definition metropolis_hastings (log_prob : tree -> flt) (inner : tree -> tree -> res tree) (inner_log_prob : tree -> tree -> res flt) (key state : tree) : res tree :=
    mh_body log_prob inner inner_log_prob (fst (split key)) (uniform (snd (split key))) state.

  Variable av : aval.                                            (* the shapes of the state *)
  Variable normals : tree -> tree.                               (* standard normal samples of shape av, one key per leaf *)
  (** log_prob of a standard normal, and of Normal(loc, scale) *)
  Definition normal_log_prob (loc scale x : R) : R := - ((x - loc) / scale) ^ 2 / 2 - (ln (2 * PI) / 2 + ln scale).

  (** random_walk(scale), kernels.py:43-60, and the log_prob of the program *)
  Definition random_walk (scale : R) (key state : tree) : res tree := emap av (f2 (fun s e => s + scale * e)) [state; normals key].
  Definition random_walk_log_prob (scale : R) (sample state : tree) : res flt :=
    if forallb (fun t => has_aval t av) [sample; state] then
      inl (Fin (fold_right Rplus 0 (map (fun i => normal_log_prob (el state i) scale (el sample i)) (seq 0 (size av)))))
    else inr TypeErr.

  (** hmc(unnormalized_log_prob, num_leapfrog_steps, step_size), kernels.py:138-187.  [grad] is
      jax.grad(unnormalized_log_prob) *)
  Section hmc.
    Variables (log_prob : tree -> flt) (grad : tree -> res tree) (step_size : R).
    (** leapfrog, kernels.py:146-156 *)
    Definition kick (m g : tree) : res tree := emap av (f2 (fun m g => m + 0.5 * step_size * g)) [m; g].
    Definition drift (s m : tree) : res tree := emap av (f2 (fun s m => s + step_size * m)) [s; m].
    Definition leapfrog (carry : tree * tree) : res (tree * tree) :=
      let '(state, momentum) := carry in
      rb (grad state) (fun g => rb (kick momentum g) (fun momentum =>
      rb (drift state momentum) (fun state =>
      rb (grad state) (fun g => rb (kick momentum g) (fun momentum => inl (state, momentum)))))).
    (** lax.scan over np.arange(num_leapfrog_steps), kernels.py:158-159 *)
    Fixpoint leapfrogs (n : nat) (carry : tree * tree) : res (tree * tree) :=
      match n with O => inl carry | S n => rb (leapfrog carry) (leapfrogs n) end.

    (** the tuple (state, momentum), as a pytree *)
    Definition pair_tree (sm : tree * tree) : tree := Dict [("0", fst sm); ("1", snd sm)].
    Definition unpair (t : tree) : res (tree * tree) := match t with Dict [(_, s); (_, m)] => inl (s, m) | _ => inr TypeErr end.
    Definition hmc_inner (n : nat) (_ : tree) (sm : tree) : res tree := rb (unpair sm) (fun sm => rb (leapfrogs n sm) (fun r => inl (pair_tree r))).
    (** ppl.log_prob(momentum_distribution)(momentum), kernels.py:165-182 *)
    Definition momentum_log_prob (m : tree) : R := fold_right Rplus 0 (map (fun i => normal_log_prob 0 1 (el m i)) (seq 0 (size av))).
    Definition hmc_log_prob (sm : tree) : flt := match unpair sm with inl (s, m) => xadd (log_prob s) (Fin (momentum_log_prob m)) | inr _ => NaN end.
    Definition hmc (num_leapfrog_steps : nat) (key state : tree) : res tree :=
      let '(mh_key, momentum_key) := split key in
      rb (metropolis hmc_log_prob (hmc_inner num_leapfrog_steps) mh_key (pair_tree (state, normals momentum_key))) (fun sm =>
      rb (unpair sm) (fun sm => inl (fst sm))).
  End hmc.
  (** mala(unnormalized_log_prob, step_size), kernels.py:190-193 *)
  Definition mala (log_prob : tree -> flt) (grad : tree -> res tree) (step_size : R) : tree -> tree -> res tree := hmc log_prob grad step_size 1.
End kernels.
