(** Model of the inverse functions and ILDJs registered in oryx/core/interpreters/inverse/rules.py, over the real numbers.
    Floating point is not modelled: values are real numbers, and [None] stands for NaN and the infinities. *)
From Coq Require Export Reals.
From Coq Require Import ZArith.
Open Scope R_scope.

Definition obind {A B} (x : option A) (f : A -> option B) : option B := match x with Some a => f a | None => None end.
(** jax.numpy functions on reals *)
Definition flog (x : R) : option R := if Rlt_dec 0 x then Some (ln x) else None.
Definition flog1p (x : R) : option R := flog (1 + x).
Definition fexpm1 (x : R) : R := exp x - 1.
Definition fsqrt (x : R) : option R := if Rle_dec 0 x then Some (sqrt x) else None.
Definition fdiv (x y : R) : option R := if Req_EM_T y 0 then None else Some (x / y).
Definition fasin (x : R) : option R := if Rle_dec (-1) x then if Rle_dec x 1 then Some (asin x) else None else None.
Definition facos (x : R) : option R := if Rle_dec (-1) x then if Rle_dec x 1 then Some (acos x) else None else None.
(** lax.pow: the base is positive, or zero with a nonnegative exponent, or negative with an integer exponent *)
Definition fpow (x a : R) : option R :=
  if Rlt_dec 0 x then Some (Rpower x a)
  else if Req_EM_T x 0 then if Rlt_dec 0 a then Some 0 else if Req_EM_T a 0 then Some 1 else None
  else if Req_EM_T a (IZR (Int_part a)) then Some (powerRZ x (Int_part a)) else None.
(** lax.integer_pow *)
Definition fipow (x : R) (n : Z) : option R := if Req_EM_T x 0 then if Z_lt_dec n 0 then None else Some (powerRZ x n) else Some (powerRZ x n).
(** jax.nn.softplus, jax.scipy.special.expit and logit *)
Definition softplus (x : R) : R := ln (1 + exp x).
Definition expit (x : R) : R := / (1 + exp (- x)).
Definition logit (x : R) : option R := obind (fdiv x (1 - x)) flog.

(** ** Unary primitives with a registered inverse: rules.py:55-62 (exp to sqrt), 65-76 (integer_pow), 223-237 and 257-267
    (expit, logit, softplus) *)
Inductive unary := UExp | ULog | USin | UCos | UExpm1 | ULog1p | UNeg | USqrt | UIntPow (n : Z) | UExpit | ULogit | USoftplus.
Definition fwd (u : unary) (x : R) : option R :=
  match u with
  | UExp => Some (exp x) | ULog => flog x | USin => Some (sin x) | UCos => Some (cos x) | UExpm1 => Some (fexpm1 x) | ULog1p => flog1p x
  | UNeg => Some (- x) | USqrt => fsqrt x | UIntPow n => fipow x n | UExpit => Some (expit x) | ULogit => logit x | USoftplus => Some (softplus x)
  end.
(** integer_pow_inverse: rules.py:65-76; [None]: it raises *)
Definition integer_pow_inverse (n : Z) : option (R -> option R) :=
  if Z.eq_dec n 0 then None
  else if Z.eq_dec n 1 then Some (fun z => Some z)
  else if Z.eq_dec n (-1) then Some (fun z => fdiv 1 z)
  else if Z.eq_dec n 2 then Some fsqrt
  else Some (fun z => fpow z (1 / IZR n)).
(** softplus_inv: rules.py:232-233 *)
Definition softplus_inv (y : R) : option R := obind (flog (- fexpm1 (- y))) (fun l => Some (l + y)).
(** the registered inverse functions: rules.py:55-76, 261-267 *)
Definition inv (u : unary) : option (R -> option R) :=
  match u with
  | UExp => Some flog | ULog => Some (fun y => Some (exp y)) | USin => Some fasin | UCos => Some facos | UExpm1 => Some flog1p | ULog1p => Some (fun y => Some (fexpm1 y))
  | UNeg => Some (fun y => Some (- y)) | USqrt => Some (fun y => Some (y * y)) | UIntPow n => integer_pow_inverse n
  | UExpit => Some logit | ULogit => Some (fun y => Some (expit y)) | USoftplus => Some softplus_inv
  end.
(** jax.grad of the inverse functions, by JAX's derivative rules (not part of the repository) *)
Definition grad_inv (u : unary) (y : R) : option R :=
  match u with
  | UExp => fdiv 1 y | ULog => Some (exp y) | USin => obind (fsqrt (1 - y * y)) (fdiv 1) | UCos => obind (fsqrt (1 - y * y)) (fdiv (-1)) | UExpm1 => fdiv 1 (1 + y) | ULog1p => Some (exp y)
  | UNeg => Some (-1) | USqrt => Some (2 * y)
  | UIntPow n => if Z.eq_dec n 0 then None else if Z.eq_dec n 1 then Some 1 else if Z.eq_dec n (-1) then fdiv (-1) (y * y) else if Z.eq_dec n 2 then obind (fsqrt y) (fdiv (1 / 2)) else obind (fpow y (1 / IZR n - 1)) (fun p => Some (1 / IZR n * p))
  | _ => None
  end.
(** expit_ildj, logit_ildj, softplus_ildj: rules.py:223-237 *)
Definition expit_ildj (y : R) : option R := obind (logit y) (fun x => Some (softplus (- x) + softplus x)).
Definition logit_ildj (y : R) : option R := Some (- softplus (- y) - softplus y).
Definition softplus_ildj (y : R) : option R := obind (flog1p (- exp (- y))) (fun l => Some (- l)).
(** what is added to the ILDJ of the output: core.py:254-255 (register_elementwise) and custom_inverse.py:74-77
    (def_inverse_unary) *)
Definition ildj (u : unary) (y : R) : option R :=
  match u with UExpit => expit_ildj y | ULogit => logit_ildj y | USoftplus => softplus_ildj y | _ => obind (grad_inv u y) (fun d => flog (Rabs d)) end.

(** ** Binary primitives: rules.py:79-130 *)
Inductive binary := BPow | BAdd | BSub | BMul | BDiv.
Definition fwd2 (b : binary) (x y : R) : option R := match b with BPow => fpow x y | BAdd => Some (x + y) | BSub => Some (x - y) | BMul => Some (x * y) | BDiv => fdiv x y end.
(** pow_left, add_left, sub_left, mul_left, div_left: the value of the right operand *)
Definition left_val (b : binary) (l z : R) : option R :=
  match b with BPow => obind (flog z) (fun a => obind (flog l) (fun c => fdiv a c)) | BAdd => Some (z - l) | BSub => Some (l - z) | BMul => fdiv z l | BDiv => fdiv l z end.
(** and the term that they add to the ILDJ *)
Definition left_ildj (b : binary) (l z : R) : option R :=
  match b with
  | BPow => obind (flog z) (fun a => obind (obind (flog l) flog) (fun c => Some (- a - c)))
  | BAdd => Some 0 | BSub => Some 0
  | BMul => obind (flog (Rabs l)) (fun a => Some (- a))
  | BDiv => obind (flog l) (fun a => obind (flog z) (fun c => Some (a - 2 * c)))
  end.
(** pow_right, add_right, sub_right, mul_right, div_right: the value of the left operand *)
Definition right_val (b : binary) (r z : R) : option R :=
  match b with BPow => obind (fdiv 1 r) (fun i => fpow z i) | BAdd => Some (z - r) | BSub => Some (z + r) | BMul => fdiv z r | BDiv => Some (z * r) end.
Definition right_ildj (b : binary) (r z : R) : option R :=
  match b with
  | BPow => obind (fdiv 1 r) (fun i => obind (flog z) (fun a => obind (flog r) (fun c => Some ((i - 1) * a - c))))
  | BAdd => Some 0 | BSub => Some 0
  | BMul => obind (flog (Rabs r)) (fun a => Some (- a))
  | BDiv => flog (Rabs r)
  end.
