(** Model of functions that initialise a stateful function, run it in a loop that carries the module, and assign the
    module at the end: mcmc.sample_chain (oryx/experimental/mcmc/kernels.py:196-216) and optix.optimize
    (oryx/experimental/optimizers/optix.py:299-315), and of optix.gradient_descent (optix.py:289-296).

    [primitive.tie_in] and [tie_all] return their last (all) arguments unchanged; callbacks of sample_chain are not
    modelled (with a callback that returns only its own result they add a data dependency). *)
From Verif Require Export StateNestModel.

Section loops.
  Context {AR : Arrays}.
  Variable key0 : tree.                                          (* random.PRNGKey(0), function.py:274-276 *)
  Variable empty_sow : bool.                                     (* see StateNestModel.v *)

  (** the loop: lax.scan with the module and the state in the carry.  [A']: the arguments of the whole function, [prep]
      the inputs of the iterations and the initial state, [arg] the arguments of the module in an iteration *)
  Definition loop {A' X S A : Type} (prep : A' -> list X * S) (arg : X -> S -> A) (n : nat) (c : prog (plants * A) (S * plants)) : prog (plants * A') ((S * list S) * plants) :=
    Seq (Pure (fun x : plants * A' => inl ((fst x, snd (prep (snd x))), fst (prep (snd x)))))
      (Seq (Scan false n
             (Seq (Pure (fun y : (plants * S) * X => inl (fst (fst y), arg (snd y) (snd (fst y)))))
               (Seq c (Pure (fun r : S * plants => inl ((snd r, fst r), fst r))))))
        (Pure (fun r : (plants * S) * list S => inl ((snd (fst r), snd r), fst (fst r))))).
  (** a module without variables: function.py:257-264 *)
  Definition stateless_cau {A B} (f : prog A B) : prog (plants * A) (B * plants) := Seq (Pure (fun x : plants * A => inl (snd x, fst x))) (First plants f).
  Definition looped {A' X S A B' : Type} (name : string) (u : ufun A S) (first : A' -> A) (prep : A' -> list X * S) (arg : X -> S -> A)
    (post : S * list S -> B') (n : nat) : res (prog (tree * A') B') :=
    match u with
    | Stateful f =>
        rb (init_in name f) (fun Mi => rb (cau_in key0 f (fst Mi)) (fun c =>
          inl (Seq (Pure (fun kx : tree * A' => inl ((fst kx, first (snd kx)), snd kx)))
            (Seq (First A' (snd Mi)) (Seq (dunder_call empty_sow name (fst Mi) (loop prep arg n c)) (Pure (fun r => inl (post r))))))))
    | Stateless f =>
        inl (Seq (Pure (fun kx : tree * A' => inl ([] : plants, snd kx)))
          (Seq (dunder_call empty_sow name [] (loop prep arg n (stateless_cau f))) (Pure (fun r => inl (post r)))))
    end.

  Variable split : tree -> nat -> list tree.                     (* random.split *)
  (** sample_chain(kernel_fn, num_steps), kernels.py:196-216: the arguments are (key, state) *)
  Definition sample_chain {S} (kernel_fn : ufun (tree * S) S) (num_steps : nat) : res (prog (tree * (tree * S)) (list S)) :=
    looped "kernel" kernel_fn (fun ks => ks) (fun ks => (split (fst ks) num_steps, snd ks)) (fun k s => (k, s)) snd num_steps.

  (** gradient_descent(update, objective), optix.py:289-296: [grad] is the gradient of the objective, [apply] apply_updates *)
  Definition gradient_descent {P U} (update : prog (tree * (U * P)) U) (grad : P -> res U) (apply : P -> U -> res P) : prog (tree * P) P :=
    Seq (Pure (fun kx : tree * P => rb (grad (snd kx)) (fun u => inl ((fst kx, (u, snd kx)), snd kx))))
      (Seq (First P update) (Pure (fun r : U * P => apply (snd r) (fst r)))).
  (** optimize(objective, update, num_iters), optix.py:299-315 *)
  Definition optimize {P U} (update : prog (tree * (U * P)) U) (grad : P -> res U) (apply : P -> U -> res P) (num_iters : nat) : res (prog (tree * P) P) :=
    looped "opt" (Stateful (gradient_descent update grad apply)) (fun p => p) (fun p => (seq 0 num_iters, p)) (fun _ p => p) fst num_iters.
End loops.
