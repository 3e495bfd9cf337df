(** Model of oryx/experimental/autoconj: einsum formulas as strings, AddN, and the canonicalization rules. *)
From Verif Require Export EinsumModel.

(** ** Formula strings *)
(** [s.split(c)] for a one-character separator *)
Fixpoint split_on (c : ascii) (s : list ascii) : list (list ascii) :=
  match s with
  | [] => [[]]
  | x :: s' => if Ascii.eqb x c then [] :: split_on c s'
               else match split_on c s' with h :: t => (x :: h) :: t | [] => [[x]] end
  end.
(** [s.split('->')] *)
Fixpoint split_arrow (s : list ascii) : list (list ascii) :=
  match s with
  | [] => [[]]
  | x :: s' =>
      let other := match split_arrow s' with h :: t => (x :: h) :: t | [] => [[x]] end in
      match s' with
      | y :: s'' => if Ascii.eqb x "-" && Ascii.eqb y ">" then [] :: split_arrow s'' else other
      | [] => other
      end
  end.
(** split_einsum_formula, einsum.py:149-152 (unpacking raises ValueError unless there are two parts) *)
Definition split_einsum_formula (s : list ascii) : result formula :=
  match split_arrow s with [i; o] => inl (mk_formula (split_on "," i) o) | _ => inr ValueErr end.
(** reconstitute_einsum_formula, einsum.py:155-159 *)
Fixpoint join (c : ascii) (l : list (list ascii)) : list ascii :=
  match l with [] => [] | [x] => x | x :: l' => x ++ c :: join c l' end.
Definition reconstitute_einsum_formula (f : formula) : list ascii := join "," (fins f) ++ ["-"; ">"]%char ++ fout f.

Definition letter (a : ascii) : bool := if in_dec ascii_dec a einsum_letters then true else false.
Definition clean (f : formula) : bool := forallb (forallb letter) (fins f) && forallb letter (fout f).
(** jnp.einsum(formula, operands).  Simplification: formulas with an explicit output and letters only; formulas with
    blanks, ellipses or implicit output leave the model (ValueErr). *)
Definition einsum_str (K : Type) (k0 k1 : K) (kadd kmul : K -> K -> K) (s : list ascii) (ops : list (array K)) : result (array K) :=
  rb' (split_einsum_formula s) (fun f => if clean f then einsum K k0 k1 kadd kmul f ops else inr ValueErr).

(** compose_einsums, einsum.py:162-238: the formula of the result; its operands are left_args + child_args + right_args *)
Definition compose_einsums (parent : list ascii) (num_left : nat) (child : list ascii) : result (list ascii) :=
  rb' (split_einsum_formula parent) (fun p => rb' (split_einsum_formula child) (fun c =>
    rb' (compose_formula p num_left c) (fun f => inl (reconstitute_einsum_formula f)))).

(** ** AddN.evaluate, addn.py:107-110: functools.reduce(operator.add, operands).  Simplification: adding arrays of
    different shapes (broadcasting) leaves the model. *)
Section addn.
  Variables (K : Type) (k0 : K) (kadd : K -> K -> K).
  Definition add_arrays (a b : array K) : result (array K) :=
    if list_eq_dec Nat.eq_dec (shape a) (shape b) then inl (tabulate (shape a) (fun ix => kadd (get k0 a ix) (get k0 b ix)))
    else inr ValueErr.
  Fixpoint reduce_add (acc : array K) (l : list (array K)) : result (array K) :=
    match l with [] => inl acc | x :: l' => rb' (add_arrays acc x) (fun a => reduce_add a l') end.
  (** reduce() of an empty sequence raises TypeError *)
  Definition addn (l : list (array K)) : result (array K) :=
    match l with [] => inr TypeErr | x :: l' => reduce_add x l' end.
End addn.
