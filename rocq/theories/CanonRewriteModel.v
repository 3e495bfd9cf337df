(** Model of rewriting a JAX function with oryx/experimental/autoconj/canonicalize.py: [rewrite(f, canonicalize)] of
    oryx/experimental/matching/jax_rewrite.py:829-848, on the expressions of CanonicalizeModel.v (variables carry shapes). *)
From Verif Require Export CanonicalizeModel.
Open Scope string_scope.
Open Scope list_scope.
Open Scope nat_scope.

(** ** Jaxprs with the shapes of their constvars and invars (var.aval.shape, jax_rewrite.py:779-787) *)
Definition svar := (string * list nat)%type.
Inductive sjaxpr :=
| SJaxpr (constvars invars : list svar) (eqns : list seqn) (outs : list atom)
with seqn :=
| SPrim (p : string) (params : val) (ins : list atom) (outs : list string)
| SCall (p : string) (params : val) (body : sjaxpr) (ins : list atom) (outs : list string).
(** SCall: a call primitive or pjit whose jaxpr has no constants (with constants see C18) *)

(** the same jaxpr without the shapes *)
Fixpoint forget (j : sjaxpr) : jaxpr :=
  match j with
  | SJaxpr cv iv eqns outs => Jaxpr (map fst cv) (map fst iv) (map (fun q => match q with
      | SPrim p ps ins os => EPrim p ps ins os
      | SCall p ps body ins os => ECall p ps (forget body) ins os end) eqns) outs
  end.

Section rewriting.
  Variables (K : Type) (k0 k1 : K) (kadd kmul : K -> K -> K) (P : prims K).
  Notation arrays := (list (array K)).
  Notation env := (list (string * array K)).
  Notation bind := (bind K k0 kadd kmul P).
  (** binding a primitive with one result, and with several *)
  Definition bind_one (p : string) (ps : val) (ds : arrays) : result (array K) := rb (bind p ps ds) (@arr (array K)).
  Definition bind_many (p : string) (ps : val) (ds : arrays) : result arrays := obindN P p ps ds.

  (** ** Specification: JAX's own execution of the function, with the checks that JAX's typing guarantees (the arrays that
      variables of a jaxpr are bound to have their declared shapes, literals are scalars), and such that every array on the way
      has a number of dimensions that [lim] allows *)
  Variable lim : nat -> bool.
  Definition within_lim (ds : arrays) : bool := forallb (fun a => lim (ndim K a)) ds.
  Definition checked (b : bool) : result unit := if b then inl tt else inr ValueErr.
  Definition sread (V : env) (a : atom) : result (array K) :=
    match a with
    | ALit v => rb (opt TypeErr (lit P v)) (fun a => rb (checked (if list_eq_dec Nat.eq_dec (shape a) [] then true else false)) (fun _ => inl a))
    | AVar x => opt KeyErr (dget V x)
    end.
  Definition swrite (V : env) (os : list string) (rs : arrays) : result env := rb (checked (within_lim rs)) (fun _ => dwrite V os rs).
  Definition sbind (V : env) (vars : list svar) (ds : arrays) : result env :=
    rb (checked (if list_eq_dec (list_eq_dec Nat.eq_dec) (map shape ds) (map snd vars) then true else false)) (fun _ => swrite V (map fst vars) ds).
  Fixpoint srun (j : sjaxpr) (consts args : arrays) {struct j} : result arrays :=
    match j with
    | SJaxpr cv iv eqns outs =>
        rb (sbind [] cv consts) (fun e0 => rb (sbind e0 iv args) (fun e1 =>
          rb ((fix go (eqns : list seqn) (V : env) : result env :=
                 match eqns with
                 | [] => inl V
                 | q :: eqns' =>
                     rb (match q with
                         | SPrim p ps ins os =>
                             rb (rmap (sread V) ins) (fun vs =>
                               if multi P p then rb (bind_many p ps vs) (fun rs => swrite V os rs)
                               else rb (bind_one p ps vs) (fun r => swrite V os [r]))
                         | SCall p ps body ins os =>
                             rb (rmap (sread V) ins) (fun vs => rb (srun body [] vs) (fun rs => swrite V os rs))
                         end) (go eqns')
                 end) eqns e1) (fun e2 => rmap (sread e2) outs)))
    end.

  (** ** jaxpr_to_expressions, jax_rewrite.py:759-811 *)
  Definition SBound (es : list val) (ns : list string) (cs : list val) : val := VNode "BoundExpression" [VSeq KTuple (map str_of ns); VSeq KTuple cs] es.
  Definition svars (l : list svar) : list (string * val) := map (fun x => (fst x, JVar (fst x) (snd x))) l.
  Fixpoint expressions (j : sjaxpr) : result (list val) :=
    match j with
    | SJaxpr cv iv eqns outs =>
        rb ((fix go (eqns : list seqn) (E : list (string * val)) : result (list (string * val)) :=
               match eqns with
               | [] => inl E
               | q :: eqns' =>
                   rb (match q with
                       | SPrim p ps ins os =>
                           rb (rmap (read_env E) ins) (fun ops => bind_outs (multi P p) E os (Primitive p ps ops))
                       | SCall p ps body ins os =>
                           rb (rmap (read_env E) ins) (fun ops => rb (expressions body) (fun es =>
                             match body with SJaxpr _ biv _ _ => bind_outs true E os (CallPrimitive p ps ops (SBound es [] []) (map fst biv)) end))
                       end) (go eqns')
               end) eqns (dmerge (dmerge [] (svars cv)) (svars iv))) (fun E => rmap (read_env E) outs)
    end.
  Notation eval_ := (eval K k0 k1 kadd kmul P (fun _ => true)).
  (** rewrite(f, canonicalize)(args), jax_rewrite.py:829-848 and make_bound_expression 814-826, in the state s of the caches of
      the rules; [j], [consts]: the traced function.  [None]: out of fuel *)
  Definition rewrite_canonicalize (fuel : nat) (s : caches) (j : sjaxpr) (consts : list val) (args : arrays) : option (caches * result (rv (array K))) :=
    match j with
    | SJaxpr cv iv _ _ =>
        match expressions j with
        | inr er => Some (s, inr er)
        | inl es =>
            match canonicalize K P fuel s (SBound es (map fst cv) consts) with
            | None => None
            | Some (s', inr er) => Some (s', inr er)
            | Some (s', inl e) => Some (s', rb (dwrite [] (map fst iv) args) (fun env => eval_ e env))
            end
        end
    end.
End rewriting.
