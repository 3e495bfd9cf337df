(** Model of oryx/experimental/matching/jax_rewrite.py: jaxprs, JAX expressions and their evaluation.

    JAX expressions are Python values ([val], class [Expression]):
      Literal (285-330)          VNode "Literal" [payload] []
      JaxVar (333-383)           VNode "JaxVar" [VStr name] []          (shape and dtype are not modelled)
      Primitive (444-518)        VNode "Primitive" [VStr prim; params] operands
      Part (521-568)             VNode "Part" [VNum KInt index] [operand]
      BoundExpression (572-620)  VNode "BoundExpression" [VDict names payloads] expressions
      CallPrimitive, PjitPrimitive (623-739)
                                 VNode "CallPrimitive" [VStr prim; params; VSeq KTuple names] (operands ++ [expression])
    Array values are an abstract type [D]; [lit] gives the array denoted by a payload (a number or an opaque id).
    Primitives are arbitrary partial functions on arrays. *)
From Verif Require Export RulesSpec.

Definition str_of (s : string) : val := VStr (list_ascii_of_string s).
Definition of_str (v : val) : option string := match v with VStr s => Some (string_of_list_ascii s) | _ => None end.
Definition Literal (v : val) : val := VNode "Literal" [v] [].
Definition JaxVar (x : string) : val := VNode "JaxVar" [str_of x] [].
Definition Primitive (p : string) (params : val) (ops : list val) : val := VNode "Primitive" [str_of p; params] ops.
Definition Part (e : val) (i : nat) : val := VNode "Part" [VNum KInt (Z.of_nat i)] [e].
Definition BoundExpression (es : list val) (ns : list string) (cs : list val) : val :=
  VNode "BoundExpression" [VDict ns cs] es.
Definition CallPrimitive (p : string) (params : val) (ops : list val) (e : val) (ns : list string) : val :=
  VNode "CallPrimitive" [str_of p; params; VSeq KTuple (map str_of ns)] (ops ++ [e]).

(** Jaxprs (jax.core): constvars, invars, equations, outputs.  Variables are named by str(var), as the code does. *)
Inductive atom := ALit (v : val) | AVar (x : string).
Inductive jaxpr :=
| Jaxpr (constvars invars : list string) (eqns : list eqn) (outs : list atom)
with eqn :=
| EPrim (p : string) (params : val) (ins : list atom) (outs : list string)
| ECall (p : string) (params : val) (body : jaxpr) (ins : list atom) (outs : list string)
| EPjit (p : string) (params : val) (body : jaxpr) (consts : list val) (ins : list atom) (outs : list string).

(** [dict(zip(ks, vs, strict=True))] / writing several variables *)
Fixpoint zip_strict {A B} (l : list A) (m : list B) : option (list (A * B)) :=
  match l, m with
  | [], [] => Some []
  | x :: l', y :: m' => option_map (cons (x, y)) (zip_strict l' m')
  | _, _ => None
  end.
Definition rb {A B} (x : result A) (f : A -> result B) : result B := match x with inl a => f a | inr e => inr e end.
Definition dwrite {A} (env : list (string * A)) (xs : list string) (vs : list A) : result (list (string * A)) :=
  match zip_strict xs vs with None => inr ValueErr | Some kv => inl (dmerge env kv) end.
Definition opt {A} (e : err) (x : option A) : result A := match x with Some a => inl a | None => inr e end.
Fixpoint rmap {A B} (f : A -> result B) (l : list A) : result (list B) :=
  match l with [] => inl [] | x :: l' => rb (f x) (fun y => rb (rmap f l') (fun ys => inl (y :: ys))) end.

Section semantics.
  Variable D : Type.
  Variable lit : val -> option D.
  (** does the primitive return several results? *)
  Variable multi : string -> bool.
  Variable bind1 : string -> val -> list D -> result D.
  Variable bindN : string -> val -> list D -> result (list D).

  (** a Python value returned by evaluate: an array or a tuple *)
  Inductive rv := Arr (d : D) | Tup (l : list rv).
  Definition arr (v : rv) : result D := match v with Arr d => inl d | Tup _ => inr TypeErr end.

  (** JAX's own execution of a jaxpr (jax.core.eval_jaxpr): the reference semantics.  call/pjit primitives execute
      their body. *)
  Definition read (env : list (string * D)) (a : atom) : result D :=
    match a with ALit v => opt TypeErr (lit v) | AVar x => opt KeyErr (dget env x) end.
  Fixpoint run (j : jaxpr) (consts args : list D) {struct j} : result (list D) :=
    match j with
    | Jaxpr cv iv eqns outs =>
        rb (dwrite [] cv consts) (fun e0 => rb (dwrite e0 iv args) (fun e1 =>
          rb ((fix go (eqns : list eqn) (env : list (string * D)) : result (list (string * D)) :=
                 match eqns with
                 | [] => inl env
                 | q :: eqns' =>
                     rb (match q with
                         | EPrim p ps ins os =>
                             rb (rmap (read env) ins) (fun vs =>
                               if multi p then rb (bindN p ps vs) (fun rs => dwrite env os rs)
                               else rb (bind1 p ps vs) (fun r => dwrite env os [r]))
                         | ECall p ps body ins os =>
                             rb (rmap (read env) ins) (fun vs => rb (run body [] vs) (fun rs => dwrite env os rs))
                         | EPjit p ps body cs ins os =>
                             rb (rmap (read env) ins) (fun vs =>
                               rb (rmap (fun c => opt TypeErr (lit c)) cs) (fun cvs =>
                                 rb (run body cvs vs) (fun rs => dwrite env os rs)))
                         end) (go eqns')
                 end) eqns e1) (fun e2 => rmap (read e2) outs)))
    end.

  (** evaluate, jax_rewrite.py:221-281 and the evaluate methods 314, 374, 502, 560, 610, 674, 721.
      Binding a call or pjit primitive to the function [f] runs f on the operands. *)
  Fixpoint evaluate (e : val) (env : list (string * D)) {struct e} : result rv :=
    let evs := (fix evs (l : list val) (env : list (string * D)) : result (list rv) :=
                  match l with [] => inl [] | x :: l' => rb (evaluate x env) (fun y => rb (evs l' env) (fun ys => inl (y :: ys))) end) in
    let call := (fix call (l : list val) (acc : list rv) (ns : list string) (env : list (string * D)) : result rv :=
                  match l with
                  | [] => inr TypeErr
                  | [body] => rb (rmap arr acc) (fun args => rb (dwrite [] ns args) (fun sub => evaluate body sub))
                  | x :: l' => rb (evaluate x env) (fun y => call l' (acc ++ [y]) ns env)
                  end) in
    match e with
    | VNum _ _ => rb (opt NotImplErr (lit e)) (fun d => inl (Arr d))
    | VStr _ | VSeq KList _ | VDict _ _ => inr NotImplErr
    | VSeq KTuple l => rb (evs l env) (fun vs => inl (Tup vs))
    | VNode c hdr kids =>
        if String.eqb c "Literal" then
          match hdr, kids with [v], [] => rb (opt TypeErr (lit v)) (fun d => inl (Arr d)) | _, _ => inr TypeErr end
        else if String.eqb c "JaxVar" then
          match hdr, kids with
          | [n], [] => rb (opt TypeErr (of_str n)) (fun x => rb (opt ValueErr (dget env x)) (fun d => inl (Arr d)))
          | _, _ => inr TypeErr
          end
        else if String.eqb c "Primitive" then
          match hdr with
          | [n; ps] => rb (opt TypeErr (of_str n)) (fun p => rb (evs kids env) (fun vs => rb (rmap arr vs) (fun ds =>
              if multi p then rb (bindN p ps ds) (fun rs => inl (Tup (map Arr rs))) else rb (bind1 p ps ds) (fun r => inl (Arr r)))))
          | _ => inr TypeErr
          end
        else if String.eqb c "Part" then
          match hdr, kids with
          | [VNum _ z], [x] => rb (evaluate x env) (fun v =>
              match v with Tup l => opt IndexErr (nth_error l (Z.to_nat z)) | Arr _ => inr TypeErr end)
          | _, _ => inr TypeErr
          end
        else if String.eqb c "BoundExpression" then
          match hdr with
          | [VDict ns cs] => rb (rmap (fun v => opt TypeErr (lit v)) cs) (fun ds => rb (dwrite [] ns ds) (fun cenv =>
              rb (evs kids (dmerge cenv env)) (fun vs => inl (Tup vs))))
          | _ => inr TypeErr
          end
        else if String.eqb c "CallPrimitive" then
          match hdr with
          | [_; _; VSeq KTuple ns] => rb (rmap (fun n => opt TypeErr (of_str n)) ns) (fun names => call kids [] names env)
          | _ => inr TypeErr
          end
        else inr NotImplErr
    end.

  (** the reader of jaxpr_to_expressions, jax_rewrite.py:769-772 *)
  Definition read_env (env : list (string * val)) (a : atom) : result val :=
    match a with ALit v => inl (Literal v) | AVar x => opt KeyErr (dget env x) end.
  Definition bind_outs (multiple : bool) (env : list (string * val)) (os : list string) (out : val) : result (list (string * val)) :=
    if multiple then inl (dmerge env (combine os (map (Part out) (seq 0 (List.length os)))))     (* 806-808 *)
    else match os with o :: _ => inl (dset env o out) | [] => inr IndexErr end.                     (* 810 *)
  (** jaxpr_to_expressions, jax_rewrite.py:759-811.  Call and pjit primitives have multiple results. *)
  Fixpoint jaxpr_to_expressions (j : jaxpr) : result (list val) :=
    match j with
    | Jaxpr cv iv eqns outs =>
        let env0 := dmerge (dmerge [] (map (fun x => (x, JaxVar x)) cv)) (map (fun x => (x, JaxVar x)) iv) in
        rb ((fix go (eqns : list eqn) (env : list (string * val)) : result (list (string * val)) :=
               match eqns with
               | [] => inl env
               | q :: eqns' =>
                   rb (match q with
                       | EPrim p ps ins os =>
                           rb (rmap (read_env env) ins) (fun ops => bind_outs (multi p) env os (Primitive p ps ops))
                       | ECall p ps body ins os =>
                           rb (rmap (read_env env) ins) (fun ops => rb (jaxpr_to_expressions body) (fun es =>
                             match body with Jaxpr _ biv _ _ => bind_outs true env os (CallPrimitive p ps ops (BoundExpression es [] []) biv) end))
                       | EPjit p ps body cs ins os =>
                           rb (rmap (read_env env) ins) (fun ops => rb (jaxpr_to_expressions body) (fun es =>
                             match body with Jaxpr _ biv _ _ => bind_outs true env os (CallPrimitive p ps ops (BoundExpression es [] []) biv) end))
                       end) (go eqns')
               end) eqns env0) (fun env => rmap (read_env env) outs)
    end.

  (** rewrite, jax_rewrite.py:829-848 with make_bound_expression 814-826; [j], [consts] is the traced function
      (JAX's tracer is trusted) and [args] the flat arguments *)
  Definition rewrite (j : jaxpr) (consts : list val) (rule : val -> result val) (args : list D) : result rv :=
    match j with
    | Jaxpr cv iv _ _ =>
        rb (jaxpr_to_expressions j) (fun es =>
          rb (rule (BoundExpression es cv consts)) (fun e =>
            rb (dwrite [] iv args) (fun env => evaluate e env)))
    end.
End semantics.
Arguments Arr {D} _. Arguments Tup {D} _.
