(** Specification for progress of canonicalize (oryx/experimental/autoconj/canonicalize.py): which expressions it does not
    reject.  Two causes of exceptions are excluded: asking a call for its shape (jax_rewrite.py:645-649), and running out of
    the 52 letters of einsum formulas (einsum.py:57, 210-213). *)
From Verif Require Import RulesSpec CanonicalizeModel.
Open Scope string_scope. Open Scope list_scope. Open Scope nat_scope.

(** the primitives that become einsums *)
Definition linear_op (c : string) (h : list val) : bool :=
  String.eqb c "Primitive" && match h with
    | [n; _] => match of_str n with Some p => existsb (String.eqb p) ["transpose"; "squeeze"; "reduce_sum"; "dot_general"] | None => false end
    | _ => false end.
(** no call of a jitted function below *)
Fixpoint call_free (v : val) : bool :=
  match v with VNum _ _ => true | VNode c _ ks => negb (String.eqb c "CallPrimitive") && forallb call_free ks | _ => false end.
Section letters.
  Variables (K : Type) (P : prims K).
  Definition rank (v : val) : nat := match ndim_of K P v with inl n => n | inr _ => 0 end.
  (** the different letters of an einsum formula *)
  Definition formula_letters (h : list val) : nat :=
    match h with
    | [VStr s] => match split_einsum_formula s with inl f => List.length (nodup ascii_dec (concat (fins f))) | inr _ => 0 end
    | _ => 0 end.
  (** the letters that a nest of linear operations and einsums needs: the dimensions of all their operands *)
  Fixpoint letters_needed (v : val) : nat :=
    match v with
    | VNode c h ks =>
        if linear_op c h then list_sum (map (fun k => rank k + letters_needed k) ks)
        else if String.eqb c "Einsum" then formula_letters h + list_sum (map letters_needed ks)
        else 0
    | _ => 0
    end.
  Definition acceptable (v : val) : bool :=
    match v with
    | VNode c h ks => (if linear_op c h then forallb call_free ks else true) && Nat.leb (letters_needed v) 52
    | _ => true
    end.
End letters.
(** jax.eval_shape succeeds where binding the primitive does *)
Definition shapes_total {K} (P : prims K) : Prop :=
  (forall p v l a, obind P p v l = inl a -> exists s, oshape P p v (map shape l) = inl s) /\
  (forall p v l r, obindN P p v l = inl r -> exists s, oshapeN P p v (map shape l) = inl s).
