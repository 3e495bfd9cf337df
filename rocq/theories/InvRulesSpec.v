(** Specification for C38: what it means that a rule inverts a function and gives the log-derivative of the inverse. *)
From Verif Require Export InvRulesModel.
From Coq Require Import ZArith.
Open Scope R_scope.

(** the partial function g has derivative d at y: near y it agrees with a function that has *)
Definition has_deriv (g : R -> option R) (y d : R) : Prop := exists h, derivable_pt_lim h y d /\ exists e, 0 < e /\ forall z, Rabs (z - y) < e -> g z = Some (h z).
(** At every x of the domain D: f has a value y there, g takes it back to x, g has a derivative d at y that is not zero,
    and j is log |d| *)
Definition inverts (f g j : R -> option R) (D : R -> Prop) : Prop :=
  forall x, D x -> exists y, f x = Some y /\ g y = Some x /\ exists d, has_deriv g y d /\ d <> 0 /\ j y = Some (ln (Rabs d)).
(** the domains on which the functions are injective with a smooth inverse, and the rules are defined *)
Definition dom (u : unary) (x : R) : Prop :=
  match u with
  | UExp => True | ULog => 0 < x | USin => - PI / 2 < x < PI / 2 | UCos => 0 < x < PI | UExpm1 => True | ULog1p => -1 < x | UNeg => True | USqrt => 0 < x
  | UIntPow n => if Z.eq_dec n 0 then False else if Z.eq_dec n 1 then True else if Z.eq_dec n (-1) then x <> 0 else 0 < x
  | UExpit => True | ULogit => 0 < x < 1 | USoftplus => True
  end.
(** the right operand, given the left one l *)
Definition dom_left (b : binary) (l x : R) : Prop := match b with BPow => 1 < l | BMul => l <> 0 | BDiv => 0 < l /\ 0 < x | _ => True end.
(** the left operand, given the right one r *)
Definition dom_right (b : binary) (r x : R) : Prop := match b with BPow => 0 < r /\ 0 < x | BMul => r <> 0 | BDiv => r <> 0 | _ => True end.
