(** Model of oryx/core/interpreters/inverse/custom_inverse.py: functions whose inverse the user defines with def_inverse_unary, and
    the ILDJ that is computed automatically when the user gives none, over the reals (InvRulesModel) and on top of the inverse
    interpreter (InverseModel: [PCustom], [unary_inverse], [inverse_and_ildj]). *)
From Verif Require Export Constrain.
From Coq Require Import ZArith Lra Lia Permutation.
Open Scope R_scope. Open Scope nat_scope.

(** ** Tracing the inverse of an operation *)
(** What the inverse function registered for an operation is traced to by trace_util.stage (rules.py:55-130, 255-267), when all of
    its operations have a registered inverse themselves.  [None]: asin, acos (rules.py:57-58) have none, softplus_inv
    (rules.py:232-233) uses its argument twice, integer_pow_inverse raises (rules.py:68-69), or the logarithm of a constant is not
    a number (rules.py:84).  [sq]: whether jnp.square (rules.py:62) is traced to integer_pow, as in old releases of JAX, or to
    lax.square_p, which has no registered inverse.  The 1-element arrays of constants are reals. *)
Definition mirror (sq : bool) (o : op) : option (list op) :=
  match o with
  | OU UExp => Some [OU ULog] | OU ULog => Some [OU UExp] | OU UExpm1 => Some [OU ULog1p] | OU ULog1p => Some [OU UExpm1] | OU UNeg => Some [OU UNeg]
  | OU UExpit => Some [OU ULogit] | OU ULogit => Some [OU UExpit]
  | OU USqrt => if sq then Some [OU (UIntPow 2)] else None
  | OU (UIntPow n) =>
      if Z.eq_dec n 0 then None
      else if Z.eq_dec n 1 then Some []
      else if Z.eq_dec n (-1) then Some [OU (UIntPow (-1))]
      else if Z.eq_dec n 2 then Some [OU USqrt]
      else Some [OR BPow (1 / IZR n)]
  | OU USin => None | OU UCos => None | OU USoftplus => None
  | OL BPow l => match flog l with Some c => Some [OU ULog; OR BDiv c] | None => None end
  | OL BAdd l => Some [OR BSub l] | OL BSub l => Some [OL BSub l] | OL BMul l => Some [OR BDiv l] | OL BDiv l => Some [OL BDiv l]
  | OR BPow r => match fdiv 1 r with Some i => Some [OR BPow i] | None => None end
  | OR BAdd r => Some [OR BSub r] | OR BSub r => Some [OR BAdd r] | OR BMul r => Some [OR BDiv r] | OR BDiv r => Some [OR BMul r]
  end.
(** The jaxpr that inverse(f) is staged to, f a composition of operations: core.py:156-195 run on tracers.  Simplified: the
    equations that compute the unused ILDJ are left out (nothing depends on them, and propagate only evaluates them forward). *)
Fixpoint mirrors (sq : bool) (ops : list op) : option (list op) :=
  match ops with
  | [] => Some []
  | o :: ops' => match mirror sq o, mirrors sq ops' with Some m, Some ms => Some (ms ++ m) | _, _ => None end
  end.

(** ** def_inverse_unary: custom_inverse.py:57-80 *)
Notation arrO := (arr (option R)).
(** an elementwise function on arrays *)
Definition lift1 (f : R -> option R) (v : arrO) : arrO := map_arr (fun a => obind a f) v.
Section Custom.
  Variable cord : list (ndslice (option R) (option R)) -> list (ndslice (option R) (option R)).
  Variables (fuel : nat) (ord : oracle) (sq : bool).
  Notation inverse_and_ildj := (inverse_and_ildj (option R) (option R) (Some 0%R) oplus cord fuel ord).
  Definition nans (v : arrO) : arrO := mk_arr (a_shape v) (fun _ => None).
  (** inverse(f) and ildj(f, reduce_ildj=False) at v: core.py:156-202.  Exceptions become NaNs; see C76_auto_returns for when there
      are none. *)
  Definition auto_inverse (ops : list op) (v : arrO) : arrO := match inverse_and_ildj (program (a_shape v) ops) [] [v] with Ok [(x, _)] => x | _ => nans v end.
  Definition auto_ildj (ops : list op) (v : arrO) : arrO := match inverse_and_ildj (program (a_shape v) ops) [] [v] with Ok [(_, j)] => j | _ => nans v end.
  (** f_ildj or ildj(inverse(f_inv_)): line 68 *)
  Definition ildj_of_inverse (f_inv : list op) : option (arrO -> arrO) := option_map auto_ildj (mirrors sq f_inv).
  (** A step of a program: a registered operation, or a call of a function decorated with custom_inverse and then
      - CBoth f f_inv f_ildj: f.def_inverse_unary(f_inv, f_ildj)
      - CInv f f_inv: f.def_inverse_unary(f_inv)
      - CAuto ops: f.def_inverse_unary(), f a composition of operations (f_inv_ = inverse(f), line 67) *)
  Inductive cstep := CPrim (o : op) | CBoth (f f_inv f_ildj : R -> option R) | CInv (f : R -> option R) (f_inv : list op) | CAuto (ops : list op).
  Definition c_link (c : cstep) : option (link (option R) (option R)) :=
    match c with
    | CPrim o => Some (link_R o)
    | CBoth f g j => Some (LC _ _ (map (lift1 f)) (lift1 g) (lift1 j))
    | CInv f g => option_map (fun j => LC _ _ (map (lift1 f)) (lift1 (comp g)) j) (ildj_of_inverse g)
    | CAuto ops => match mirrors sq ops with Some g => option_map (fun j => LC _ _ (map (lift1 (comp ops))) (auto_inverse ops) j) (ildj_of_inverse g) | None => None end
    end.
  Fixpoint c_links (cs : list cstep) : option (list (link (option R) (option R))) :=
    match cs with [] => Some [] | c :: cs' => match c_link c, c_links cs' with Some l, Some ls => Some (l :: ls) | _, _ => None end end.
  (** the jaxpr of x |-> c_n(... c_1(x)) for x of shape sh; a custom function is one equation (custom_inverse.py:53-55) *)
  Definition c_program (sh : list nat) (cs : list cstep) : option (jx (option R) (option R)) := option_map (chain _ _ oplus sh) (c_links cs).
End Custom.

(** ** Specification: the function, and the points at which every step is inside its domain *)
Definition c_fun (c : cstep) : R -> option R := match c with CPrim o => f_op o | CBoth f _ _ => f | CInv f _ => f | CAuto ops => comp ops end.
Fixpoint c_comp (cs : list cstep) (x : R) : option R := match cs with [] => Some x | c :: cs' => obind (c_fun c x) (c_comp cs') end.
(** no integer power below -1 (the ILDJ of pow takes the logarithm of the exponent, rules.py:95) *)
Definition mild (ops : list op) : Prop := forall n, In (OU (UIntPow n)) ops -> (-1 <= n)%Z.
(** CBoth: f_inv undoes f at the point and f_ildj is the log-derivative of f_inv there.  CInv: f_inv undoes f at the point, and its
    operations are in their domains.  CAuto: the operations of f are in their domains. *)
Definition c_dom (c : cstep) (x : R) : Prop :=
  match c with
  | CPrim o => d_op o x
  | CBoth f g j => exists y d, f x = Some y /\ g y = Some x /\ has_deriv g y d /\ d <> 0%R /\ j y = Some (ln (Rabs d))
  | CInv f g => exists y, f x = Some y /\ comp g y = Some x /\ dom_comp g y /\ mild g
  | CAuto ops => dom_comp ops x /\ mild ops
  end.
Fixpoint c_doms (cs : list cstep) (x : R) : Prop := match cs with [] => True | c :: cs' => c_dom c x /\ forall y, c_fun c x = Some y -> c_doms cs' y end.
