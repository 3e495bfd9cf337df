(** Model of jax.vmap of a call of an nn layer over examples: the batching rule of layer_cau (oryx/experimental/nn/base.py:406-484).

    The layer is not mapped; every argument is mapped along its first axis, of size n >= 1; the rng argument is absent,
    shared by the examples, or mapped.  Not modelled: mapping the layer itself, arguments without the mapped axis, other
    in_axes, collective operations inside a layer. *)
From Verif Require Export NnModel.

Section nn.
Context {PR : Prng}.

(** the i-th example of a batch; the batch of examples *)
Definition row (x : arr) (i : nat) : arr := mk_arr (tl (sh x)) (fun ix => el x (i :: ix)).
Definition no_arr : arr := mk_arr [] (fun _ => 0%R).
Definition stack (xs : list arr) : arr := mk_arr (List.length xs :: sh (hd no_arr xs)) (fun ix => el (nth (hd 0 ix) xs no_arr) (tl ix)).
Definition same_shape (a b : arr) : bool := if list_eq_dec Nat.eq_dec (sh a) (sh b) then true else false.
Definition same_val (v w : pval) : bool :=
  match v, w with
  | One a, One b => same_shape a b
  | Tup l, Tup m => (List.length l =? List.length m) && forallb (fun p => same_shape (fst p) (snd p)) (combine l m)
  | _, _ => false
  end.
(** the results of the examples as one batch; under a trace a function returns the same structure and shapes for every
    example (a function for which they differ cannot be traced: TypeError) *)
Definition stack_vals (vs : list pval) : nres pval :=
  match vs with
  | [] => inr NValue
  | v :: _ =>
      if forallb (same_val v) vs then
        inl match v with
            | One _ => One (stack (map (fun w => hd no_arr (as_args w)) vs))
            | Tup l => Tup (map (fun j => stack (map (fun w => nth j (as_args w) no_arr) vs)) (seq 0 (List.length l)))
            end
      else inr NType
  end.

(** the rng argument: base.py:421-423.  Splitting a mapped key splits every key *)
Inductive vrng := NoRng | Shared (k : key) | PerExample (ks : nat -> key).
Definition rng_at (r : vrng) (i : nat) : option key := match r with NoRng => None | Shared k => Some k | PerExample ks => Some (ks i) end.
Definition on_rng (f : key -> key) (r : vrng) : vrng := match r with NoRng => NoRng | Shared k => Shared (f k) | PerExample ks => PerExample (fun i => f (ks i)) end.

(** every array of a pytree, with a new first axis of size n *)
Definition lift (n : nat) (a : arr) : arr := mk_arr (n :: sh a) (fun ix => el a (tl ix)).
Fixpoint plift (n : nat) (t : ptree) : ptree := match t with PLeaf a => PLeaf (lift n a) | PNode s l => PNode s (map (plift n) l) end.
Definition lift_params (n : nat) (p : lparams) : lparams := mk_lp (plift n (l_params p)) (plift n (l_state p)) (l_info p).

(** the batching rule: base.py:406-472.  BatchNorm defines _call_and_update_batched (it is the class with the information
    IBatchNorm): it is called on the whole batch and its new layer is taken as not mapped (base.py:448-456); with a mapped
    key the call on the whole batch is itself mapped over the keys (base.py:432-440), the arguments being closed over.
    Pooling defines it as well, but a pooling layer has no arrays, [all([])] is True, and the general case applies.
    General case (base.py:457-471): the call of the layer for every example, where inner layers meet the batching rule again
    (Serial: combinator.py:54-82, which runs the sequence for the output and once more for the update).
    The result: the batch of outputs, and the new layer of every example. *)
Fixpoint vcau (fuel n : nat) (l : layer) (args : list arr) (rng : vrng) (kw : kwargs) {struct fuel} : nres (pval * list layer) :=
  match fuel with
  | 0 => inr NFuel
  | S fuel' =>
      nb (through l) (fun l1 =>
      match l1 with
      | Leaf c p nm =>
          match l_info p with
          | IBatchNorm _ =>
              on1 (fun x => nb (bn_cau_batched p x kw) (fun r =>
                match rng with
                | PerExample _ => inl (One (lift n (fst r)), repeat (Leaf c (lift_params n (snd r)) nm) n)
                | _ => inl (One (fst r), repeat (Leaf c (snd r) nm) n)
                end)) args
          | _ =>
              nb (nmapM (fun i => call_and_update (Leaf c p nm) (map (fun a => row a i) args) (rng_at rng i) kw) (seq 0 n)) (fun rs =>
              nb (stack_vals (map fst rs)) (fun v => inl (v, map snd rs)))
          end
      | Serial ls nm =>
          let run := (fix go (ls : list layer) (v : pval) (rng : vrng) : nres (pval * list (list layer)) :=
            match ls with
            | [] => inl (v, [])
            | l :: ls' =>
                nb (vcau fuel' n l (as_args v) (on_rng (fun k => snd (split2 k)) rng) kw) (fun r =>
                nb (go ls' (fst r) (on_rng (fun k => fst (split2 k)) rng)) (fun r' => inl (fst r', snd r :: snd r')))
            end) ls (Tup args) rng in
          nb run (fun call => nb run (fun upd => inl (fst call, map (fun i => Serial (map (fun news => nth i news l) (snd upd)) nm) (seq 0 n))))
      end)
  end.
(** jax.vmap(layer.call_and_update): the mapped axes must agree *)
Definition vmap_call (n : nat) (l : layer) (args : list arr) (rng : vrng) (kw : kwargs) : nres (pval * list layer) :=
  if forallb (fun a => match sh a with d :: _ => d =? n | [] => false end) args then vcau (depth l) n l args rng kw else inr NValue.
End nn.
