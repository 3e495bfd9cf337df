(** Model of oryx/experimental/optimizers/optix.py.

    Arrays hold real numbers (no rounding, no overflow, no NaN) or a random key.  All operations of optix are elementwise,
    so an array is represented by the list of its elements and its shape by their number; broadcasting does not occur.
    An update function is traced for updates of one structure and shape [av]: [tree_map(f, t1, ..., tn)] applies f to the
    i-th elements of t1 ... tn for each i, in the order of the leaves.
    Python booleans and ints that multiply floats are reals.  [primitive.tie_all] and [tie_in] return their last arguments
    unchanged (their only effect is a data dependency), the [key] argument of assign is ignored (module.py:60-81), and an
    init_key of None is not modelled (state.init always passes one). *)
From Verif Require Export StateNestModel.
From Coq Require Import Reals.
Open Scope R_scope.

Inductive rv := Num (l : list R) | Key (k : Z).
Inductive rav := ANum (n : nat) | AKey.
Definition rav_eqb (x y : rav) : bool := match x, y with ANum n, ANum m => Nat.eqb n m | AKey, AKey => true | _, _ => false end.
Lemma rav_eqb_spec x y : rav_eqb x y = true <-> x = y.
Proof. destruct x, y; cbn; try (split; intros; congruence). rewrite Nat.eqb_eq. split; congruence. Qed.
Definition raval (v : rv) : rav := match v with Num l => ANum (List.length l) | Key _ => AKey end.
Definition rzero (a : rav) : rv := match a with ANum n => Num (repeat 0 n) | AKey => Key 0%Z end.
Lemma raval_zero a : raval (rzero a) = a.
Proof. destruct a; cbn; [rewrite repeat_length|]; reflexivity. Qed.
#[global] Instance RealArrays : Arrays := {| V := rv; Av := rav; av_eqb := rav_eqb; av_eqb_spec := rav_eqb_spec; avalV := raval; zeroV := rzero; aval_zero := raval_zero |}.

(** the elements of a tree, in the order of its leaves *)
Fixpoint flat (t : tree) : list R :=
  match t with
  | Leaf (Num l) => l
  | Leaf (Key _) => []
  | Dict l => (fix go (l : list (string * tree)) : list R := match l with [] => [] | kt :: l' => flat (snd kt) ++ go l' end) l
  | Stk l => (fix go (l : list tree) : list R := match l with [] => [] | t :: l' => flat t ++ go l' end) l
  end.
Definition el (t : tree) (i : nat) : R := nth i (flat t) 0.
Fixpoint size (a : aval) : nat :=
  match a with
  | AL (ANum n) => n
  | AL AKey => 0
  | AD l => (fix go (l : list (string * aval)) : nat := match l with [] => 0%nat | ka :: l' => (size (snd ka) + go l')%nat end) l
  | AS n a => n * size a
  end.
(** the tree of shape [a] with the elements f i, f (i+1), ... *)
Fixpoint build (a : aval) (f : nat -> R) (i : nat) : tree :=
  match a with
  | AL (ANum n) => Leaf (Num (map f (seq i n)))
  | AL AKey => Leaf (Key 0%Z)
  | AD l => Dict ((fix go (l : list (string * aval)) (i : nat) : list (string * tree) :=
              match l with [] => [] | ka :: l' => (fst ka, build (snd ka) f i) :: go l' (i + size (snd ka))%nat end) l i)
  | AS n a => Stk ((fix go (n i : nat) : list tree := match n with O => [] | S n => build a f i :: go n (i + size a)%nat end) n i)
  end.
Definition vec (a : aval) (f : nat -> R) : tree := build a f 0.

(** jax.tree_util.tree_map of an elementwise function, over trees of the same structure *)
Definition emap (av : aval) (f : list R -> R) (ts : list tree) : res tree :=
  if forallb (fun t => has_aval t av) ts then inl (vec av (fun i => f (map (fun t => el t i) ts))) else inr TypeErr.
Definition f1 (f : R -> R) (l : list R) : R := f (nth 0 l 0).
Definition f2 (f : R -> R -> R) (l : list R) : R := f (nth 0 l 0) (nth 1 l 0).
Definition f3 (f : R -> R -> R -> R) (l : list R) : R := f (nth 0 l 0) (nth 1 l 0) (nth 2 l 0).

(** scalars *)
Definition A0 : aval := AL (ANum 1).
Definition sc (x : R) : tree := Leaf (Num [x]).
Definition unsc (t : tree) : R := el t 0.

(** [x = state.variable(e, name=n)] and [x = state.assign(e, name=n)], with the variables in scope on the right *)
Definition bindvar {G} (n : string) (av : aval) (e : G -> res tree) : prog G (tree * G) :=
  Seq (Pure (fun g => rb (e g) (fun t => inl (t, g)))) (First G (variable n av)).
Definition bindasg {G} (n : string) (av : aval) (e : G -> res tree) : prog G (tree * G) :=
  Seq (Pure (fun g => rb (e g) (fun t => inl (t, g)))) (First G (assign n av)).

Section optix.
  Variable av : aval.                                            (* the shapes of the updates *)
  Notation IN := (tree * (tree * tree))%type.                    (* (init_key, (updates, params)) *)
  Notation upd := (fun kx : IN => fst (snd kx)).
  Definition zeros_up : tree := vec av (fun _ => 0).             (* tree_map(lambda g: jnp.zeros(g.shape), updates) *)

  (** clip, optix.py:60-66: the function given to tree_map clips the whole of [updates], whatever the leaf g is;
      jnp.clip accepts an array only *)
  Definition jnp_clip (d : R) (t : tree) : res tree :=
    match t with Leaf (Num l) => inl (Leaf (Num (map (fun x => Rmin (Rmax x (- d)) d) l))) | _ => inr TypeErr end.
  Fixpoint map_leaves (f : tree -> res tree) (t : tree) : res tree :=
    match t with
    | Leaf _ => f t
    | Dict l => rb ((fix go (l : list (string * tree)) : res (list (string * tree)) :=
                       match l with [] => inl [] | kt :: l' => rb (map_leaves f (snd kt)) (fun t => rb (go l') (fun r => inl ((fst kt, t) :: r))) end) l) (fun l => inl (Dict l))
    | Stk l => rb ((fix go (l : list tree) : res (list tree) :=
                       match l with [] => inl [] | t :: l' => rb (map_leaves f t) (fun t => rb (go l') (fun r => inl (t :: r))) end) l) (fun l => inl (Stk l))
    end.
  Definition clip (d : R) : prog (tree * tree) tree := Pure (fun up => map_leaves (fun _ => jnp_clip d (fst up)) (fst up)).

  (** global_norm and clip_by_global_norm, optix.py:69-85 *)
  Definition sum_squares (l : list R) : R := fold_right (fun x s => x * x + s) 0 l.
  Definition global_norm (t : tree) : R := sqrt (sum_squares (flat t)).
  Definition clip_by_global_norm (max_norm : R) : prog (tree * tree) tree :=
    Pure (fun up => let g_norm := global_norm (fst up) in
      emap av (f1 (fun t => if Rlt_dec g_norm max_norm then t else t * (max_norm / g_norm))) [fst up]).

  (** trace, optix.py:88-104 *)
  Definition trace (decay : R) (nesterov : bool) : prog IN tree :=
    let f := f2 (fun g t => g + decay * t) in
    Seq (bindvar "trace" av (fun _ : IN => inl zeros_up))
    (Seq (bindasg "trace" av (fun x : tree * IN => emap av f [upd (snd x); fst x]))
      (Pure (fun x : tree * (tree * IN) => if nesterov then emap av f [upd (snd (snd x)); fst x] else inl (fst x)))).

  (** _update_moment, optix.py:107-109 *)
  Definition update_moment (decay : R) (order : nat) : list R -> R := f2 (fun g t => (1 - decay) * g ^ order + decay * t).

  (** scale_by_rms, optix.py:112-127 *)
  Definition scale_by_rms (decay eps : R) : prog IN tree :=
    Seq (bindvar "nu" av (fun _ : IN => inl zeros_up))
    (Seq (bindasg "nu" av (fun x : tree * IN => emap av (update_moment decay 2) [upd (snd x); fst x]))
      (Pure (fun x : tree * (tree * IN) => emap av (f2 (fun g n => g / sqrt (n + eps))) [upd (snd (snd x)); fst x]))).

  (** scale_by_stddev, optix.py:130-148 *)
  Definition scale_by_stddev (decay eps : R) : prog IN tree :=
    Seq (bindvar "mu" av (fun _ : IN => inl zeros_up))
    (Seq (bindvar "nu" av (fun _ : tree * IN => inl zeros_up))
    (Seq (bindasg "mu" av (fun x : tree * (tree * IN) => emap av (update_moment decay 1) [upd (snd (snd x)); fst (snd x)]))
    (Seq (bindasg "nu" av (fun x : tree * (tree * (tree * IN)) => emap av (update_moment decay 2) [upd (snd (snd (snd x))); fst (snd x)]))
      (Pure (fun x : tree * (tree * (tree * (tree * IN))) =>
        emap av (f3 (fun g m n => g / sqrt (n - m ^ 2 + eps))) [upd (snd (snd (snd (snd x)))); fst (snd x); fst x]))))).

  (** scale_by_adam, optix.py:151-172; the exponent [count] is a float, so b ** count is a real power; here it is a
      whole number and the power is that of repeated multiplication *)
  Definition count_of (t : tree) : nat := Z.to_nat (up (unsc t) - 1).
  Definition scale_by_adam (b1 b2 eps : R) : prog IN tree :=
    Seq (bindvar "count" A0 (fun _ : IN => inl (sc 0)))
    (Seq (bindvar "mu" av (fun _ : tree * IN => inl zeros_up))
    (Seq (bindvar "nu" av (fun _ : tree * (tree * IN) => inl zeros_up))
    (Seq (bindasg "mu" av (fun x : tree * (tree * (tree * IN)) => emap av (update_moment b1 1) [upd (snd (snd (snd x))); fst (snd x)]))
    (Seq (bindasg "nu" av (fun x : tree * (tree * (tree * (tree * IN))) => emap av (update_moment b2 2) [upd (snd (snd (snd (snd x)))); fst (snd x)]))
    (Seq (bindasg "count" A0 (fun x : tree * (tree * (tree * (tree * (tree * IN)))) => inl (sc (unsc (fst (snd (snd (snd (snd x))))) + 1))))
      (Pure (fun x : tree * (tree * (tree * (tree * (tree * (tree * IN))))) =>
        let count := count_of (fst x) in let nu := fst (snd x) in let mu := fst (snd (snd x)) in
        rb (emap av (f1 (fun t => t / (1 - b1 ^ count))) [mu]) (fun mu_hat =>
        rb (emap av (f1 (fun t => t / (1 - b2 ^ count))) [nu]) (fun nu_hat =>
          emap av (f2 (fun m v => m / (sqrt v + eps))) [mu_hat; nu_hat]))))))))).

  (** scale, optix.py:175-181 *)
  Definition scale (step_size : R) : prog (tree * tree) tree := Pure (fun up => emap av (f1 (fun g => step_size * g)) [fst up]).

  (** scale_by_schedule, optix.py:184-197 *)
  Definition scale_by_schedule (step_size_fn : R -> R) : prog IN tree :=
    Seq (bindvar "count" A0 (fun _ : IN => inl (sc 0)))
    (Seq (Pure (fun x : tree * IN => rb (emap av (f1 (fun g => step_size_fn (unsc (fst x)) * g)) [upd (snd x)]) (fun u => inl (u, x))))
    (Seq (bindasg "count" A0 (fun x : tree * (tree * IN) => inl (sc (unsc (fst (snd x)) + 1))))
      (Pure (fun x : tree * (tree * (tree * IN)) => inl (fst (snd x)))))).

  (** add_noise, optix.py:200-220: [ksplit] is random.split, [normal k n] the elements of random.normal(k, shape), [leaf_of]
      the leaf that holds the i-th element, and its position in it *)
  Variables (ksplit : Z -> nat -> list Z) (normal : Z -> nat -> R) (leaf_of : nat -> nat * nat) (num_vars : nat).
  Definition AKEY : aval := AL AKey.
  Definition key_of (t : tree) : Z := match t with Leaf (Key k) => k | _ => 0%Z end.
  Definition add_noise (eta : R) (gamma : R) (seed_key : Z) : prog IN tree :=
    Seq (bindvar "count" A0 (fun _ : IN => inl (sc 0)))
    (Seq (bindvar "rng_key" AKEY (fun _ : tree * IN => inl (Leaf (Key seed_key))))
    (Seq (Pure (fun x : tree * (tree * IN) =>
       let variance := eta / Rpower (1 + unsc (fst (snd x))) gamma in
       let all_keys := ksplit (key_of (fst x)) (S num_vars) in
       let noise := vec av (fun i => normal (nth (S (fst (leaf_of i))) all_keys 0%Z) (snd (leaf_of i))) in
       rb (emap av (f2 (fun g n => g + variance * n)) [upd (snd (snd x)); noise]) (fun u => inl ((u, nth 0 all_keys 0%Z), x))))
    (Seq (bindasg "count" A0 (fun x : (tree * Z) * (tree * (tree * IN)) => inl (sc (unsc (fst (snd (snd x))) + 1))))
    (Seq (bindasg "rng_key" AKEY (fun x : tree * ((tree * Z) * (tree * (tree * IN))) => inl (Leaf (Key (snd (fst (snd x)))))))
      (Pure (fun x : tree * (tree * ((tree * Z) * (tree * (tree * IN)))) => inl (fst (fst (snd (snd x)))))))))).

  (** apply_every, optix.py:223-246 *)
  Definition Rmod (x k : R) : R := x - k * IZR (Int_part (x / k)).
  Definition b2r (b : bool) : R := if b then 1 else 0.
  Definition Reqb (x y : R) : bool := if Req_EM_T x y then true else false.
  Definition apply_every (k : nat) : prog IN tree :=
    Seq (bindvar "count" A0 (fun _ : IN => inl (sc 0)))
    (Seq (bindvar "grad_acc" av (fun _ : tree * IN => inl zeros_up))
    (Seq (bindasg "grad_acc" av (fun x : tree * (tree * IN) =>
       let c := Rmod (unsc (fst (snd x))) (INR k) in
       emap av (f2 (fun g ga => b2r (negb (Reqb c 0)) * ga + g)) [upd (snd (snd x)); fst x]))
    (Seq (Pure (fun x : tree * (tree * (tree * IN)) =>
       let c := Rmod (unsc (fst (snd (snd x)))) (INR k) in
       rb (emap av (f1 (fun ga => b2r (Reqb c (INR k - 1)) * ga)) [fst x]) (fun u => inl (u, x))))
    (Seq (bindasg "count" A0 (fun x : tree * (tree * (tree * (tree * IN))) => inl (sc (unsc (fst (snd (snd (snd x)))) + 1))))
      (Pure (fun x : tree * (tree * (tree * (tree * (tree * IN)))) => inl (fst (snd x)))))))).

  (** sgd, noisy_sgd, adam, rmsprop, optix.py:264-282 *)
  Definition sgd (lr momentum : R) (nesterov : bool) : list (ufun (tree * tree) tree) := [Stateful (trace momentum nesterov); Stateless (scale (- lr))].
  Definition noisy_sgd (lr eta gamma : R) (seed_key : Z) : list (ufun (tree * tree) tree) :=
    [Stateful (trace 0 false); Stateless (scale (- lr)); Stateful (add_noise eta gamma seed_key)].
  Definition adam (lr b1 b2 eps : R) : list (ufun (tree * tree) tree) := [Stateful (scale_by_adam b1 b2 eps); Stateless (scale (- lr))].
  Definition rmsprop (lr decay eps : R) (centered : bool) : list (ufun (tree * tree) tree) :=
    if centered then [Stateful (scale_by_stddev decay eps); Stateless (scale (- lr))] else [Stateful (scale_by_rms decay eps); Stateless (scale (- lr))].
  (** apply_updates, optix.py:285-286 *)
  Definition apply_updates (params updates : tree) : res tree := emap av (f2 (fun p u => p + u)) [params; updates].
End optix.
