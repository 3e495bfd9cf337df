(** Plates under a named axis (oryx/core/ppl/plate_util.py:40-68).
    The program runs under vmap (or pmap) with a named axis of N instances: every value is a family of values, one for each
    instance, and primitives act on each instance separately, except psum. *)
From Verif Require Export InverseModel.

Section PlateModel.
  Variables V0 W0 : Type.
  Variable z0 : W0.
  Variable add : W0 -> W0 -> W0.
  Definition fam (X : Type) := nat -> X.
  Notation V := (fam V0). Notation W := (fam W0). Notation arrV := (arr V).
  Notation atom := (atom (list nat) arrV). Notation frame := (frame (list nat) arrV).
  Definition fzero : W := fun _ => z0.
  Definition fadd (a b : W) : W := fun j => add (a j) (b j).
  (** lax.psum(x, name): every instance has the sum over all instances *)
  Definition psum (N : nat) (w : W) : W := fun _ => fold_left add (map w (seq 0 N)) z0.
  (** lax.axis_index(name): instance j has the number j (as a value: num j) *)
  Definition axis_index (num : nat -> V0) : prim V W := PDefault V W (fun _ => [mk_arr [] (fun _ j => num j)]).
  (** random.fold_in(key, data), on each instance; a key is modelled as a scalar *)
  Definition fold_in (fold : V0 -> V0 -> V0) : prim V W := PDefault V W (fun l => match l with [k; a] => match a_shape k, a_shape a with [], [] => [mk_arr [] (fun _ j => fold (a_get k [] j) (a_get a [] j))] | _, _ => [] end | _ => [] end).
  (** make_plate: plate_util.py:55-68.  f is a program of a key and more arguments, with the key kf; k0 and ax are new variables. *)
  Definition make_plate (N : nat) (num : nat -> V0) (fold : V0 -> V0 -> V0) (k0 ax kf : nat) (ins outs : list atom) (eqns : list (qn V W)) : jx V W :=
    Jx V W (mk_frame [] (AVar k0 [] :: ins) outs)
      (QPrim V W (axis_index num) [] [AVar ax []] :: QPrim V W (fold_in fold) [AVar k0 []; AVar ax []] [AVar kf []] :: eqns).
End PlateModel.
