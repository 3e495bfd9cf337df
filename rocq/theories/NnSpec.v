(** Specification for C60-C62 and C48: composition of layers, keys of layers, shapes, moving averages. *)
From Verif Require Export NnModel.

Section spec.
Context {PR : Prng}.

(** every Serial in the layer has at least one child *)
Inductive inhabited : layer -> Prop :=
| Inh_leaf c p n : inhabited (Leaf c p n)
| Inh_serial ls n : ls <> [] -> Forall inhabited ls -> inhabited (Serial ls n).

(** the key of the i-th layer: split i+1 times, going on with the first half and giving away the second *)
Fixpoint key_at (k : key) (i : nat) : key := match i with 0 => snd (split2 k) | S i' => key_at (fst (split2 k)) i' end.

(** the layers ls, given args, return outs and become ls': layer 0 is given args, layer i+1 what layer i returned; layer i is
    given the key rs_i and the keywords kw *)
Definition composed (ls : list layer) (rs : list (option key)) (kw : kwargs) (args : list arr) (outs : list pval) (ls' : list layer) : Prop :=
  List.length outs = List.length ls /\ List.length ls' = List.length ls /\
  forall i l o l', nth_error ls i = Some l -> nth_error outs i = Some o -> nth_error ls' i = Some l' ->
    exists input, match i with 0 => input = args | S j => exists prev, nth_error outs j = Some prev /\ input = as_args prev end /\
    call_and_update l input (nth i rs None) kw = inl (o, l').
Definition last_out (outs : list pval) (out : pval) : Prop := exists os, outs = os ++ [out].

(** the layers other than Serials inside a layer, from left to right, and the keys derived for them *)
Fixpoint leaves (l : layer) : list layer := match l with Leaf _ _ _ => [l] | Serial ls _ => flat_map leaves ls end.
Fixpoint leaf_paths (l : layer) : list (list bool) :=
  match l with
  | Leaf _ _ _ => [[]]
  | Serial ls _ => concat (mapi (fun i ps => map (fun p => repeat true i ++ false :: p) ps) 0 (map leaf_paths ls))
  end.
(** following a path: true is the first half of a split, false the second *)
Fixpoint derive (k : key) (p : list bool) : key := match p with [] => k | b :: p' => derive (if b then fst (split2 k) else snd (split2 k)) p' end.

(** shapes *)
Definition shape_of (v : pval) : specs := match v with One a => SOne (zshape (sh a)) | Tup l => STup (map (fun a => zshape (sh a)) l) end.
Definition shapes (args : list arr) : list spec := map (fun a => zshape (sh a)) args.
End spec.

(** ** exponential averages: after the values ms, in this order, with weight d for the new value *)
Definition ema (d : R) (m0 : R) (ms : list R) : R :=
  ((1 - d) ^ List.length ms * m0 + rsum (mapi (fun i m => d * (1 - d) ^ (List.length ms - 1 - i) * m) 0 ms))%R.
Definition ema_weights (d : R) (n : nat) : list R := ((1 - d) ^ n :: map (fun i => d * (1 - d) ^ (n - 1 - i)) (seq 0 n))%R.
(** the average of f over the examples b and the indices that agree with ix outside ax *)
Definition average (l : list R) : R := (rsum l / INR (List.length l))%R.
