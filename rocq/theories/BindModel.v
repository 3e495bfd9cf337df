(** C79: functions bound to primitives (core/primitive.py): initial_style_bind (custom_inverse, bijectors, distributions,
    nn layers), call_bind (plates), tie_all, and how they are evaluated, staged (core/trace_util.py stage), differentiated
    and batched. *)
From Coq Require Import List ZArith String Bool.
From Verif Require Import UtilModel.
Import ListNotations.
Open Scope string_scope. Open Scope list_scope. Open Scope nat_scope.

(** exceptions, by class: bool() of a tracer; a leaf that is no JAX type; a function without [__name__]; the others *)
Inductive err := Concretization | NotAnArray | NoName | OtherErr (n : nat).
Inductive res (X : Type) := Ret (x : X) | Raise (e : err).
Arguments Ret {X} _. Arguments Raise {X} _.
Definition bnd {X Y} (r : res X) (f : X -> res Y) : res Y := match r with Ret x => f x | Raise e => Raise e end.
Definition rmap {X Y} (f : X -> Y) (r : res X) : res Y := match r with Ret x => Ret (f x) | Raise e => Raise e end.
Fixpoint mapr {X Y} (f : X -> res Y) (l : list X) : res (list Y) :=
  match l with [] => Ret [] | x :: l => bnd (f x) (fun y => bnd (mapr f l) (fun ys => Ret (y :: ys))) end.

(** Python objects that are not arrays: numbers (JAX types) and strings (standing for every other object) *)
Inductive py := PNum (z : Z) | PStr (s : string).
(** bool(p) *)
Definition truth (p : py) : bool := match p with PNum z => negb (Z.eqb z 0) | PStr s => negb (String.eqb s "") end.
Inductive leaf (X : Type) := LV (x : X) | LPy (p : py).
Arguments LV {X} _. Arguments LPy {X} _.

(** JAX primitives and their abstract evaluation rules *)
Class Ops := { op : Type; shape : Type; scalar : shape; absop : op -> list shape -> res (list shape) }.

Section model.
  Context {OP : Ops}.

  (** the shape of a Python literal: core.get_aval, dtypes.canonicalize_dtype *)
  Definition pyshape (p : py) : res shape := match p with PNum _ => Ret scalar | PStr _ => Raise NotAnArray end.

  (** an evaluation level: arrays, JVP tracers over a level, batch tracers over a level, or abstract values *)
  Record alg := { T : Type; av : T -> shape; litA : py -> res T; primA : op -> list T -> res (list T); testA : T -> res bool }.
  (** abstract evaluation: pe.abstract_eval_fun runs a function on shapes *)
  Definition abs_alg : alg := {| T := shape; av := fun s => s; litA := pyshape; primA := absop; testA := fun _ => Raise Concretization |}.
  (** ad.jvp: pairs of a primal and a tangent (None: a symbolic zero), with the JVP rules of the primitives *)
  Definition jvp_alg (A : alg) (jrule : op -> list (T A * option (T A)) -> res (list (T A * option (T A)))) : alg :=
    {| T := T A * option (T A); av := fun x => av A (fst x); litA := fun p => rmap (fun t => (t, None)) (litA A p); primA := jrule; testA := fun x => testA A (fst x) |}.

  (** jaxprs: constants, arguments, outputs of the equations so far, literals; equations with nested bound functions *)
  Inductive atom := JC (i : nat) | JA (i : nat) | JE (n : nat) | JL (p : py).
  Inductive eqn := EqPrim (o : op) (xs : list atom) | EqTie (xs : list atom) | EqBind (es : list eqn) (os : list atom) (nc : nat) (xs : list atom).
  Record jaxpr := { j_eqns : list eqn; j_outs : list atom; j_nc : nat }.

  Definition get {X} (l : list X) (i : nat) : res X := match nth_error l i with Some x => Ret x | None => Raise (OtherErr 0) end.
  Definition rd (A : alg) (cs args outs : list (T A)) (a : atom) : res (T A) :=
    match a with JC i => get cs i | JA i => get args i | JE n => get outs n | JL p => litA A p end.
  Definition rds (A : alg) (cs args outs : list (T A)) (l : list atom) : res (list (T A)) := mapr (rd A cs args outs) l.
  (** jax.core.eval_jaxpr, one equation; tie_all_p: primitive.py:236-260 (impl, lowering, JVP and batching rule: the
      operands); a bound function: InitialStylePrimitive.fun_impl (primitive.py:224-226), which FlatPrimitive also runs
      for abstract evaluation (129-133), JVP (137-143), batching (147-151) and lowering (155-157), on the values of the
      level at hand *)
  Fixpoint ev1 (A : alg) (e : eqn) (cs args outs : list (T A)) {struct e} : res (list (T A)) :=
    match e with
    | EqPrim o xs => bnd (rds A cs args outs xs) (fun ts => primA A o ts)
    | EqTie xs => rds A cs args outs xs
    | EqBind es os nc xs =>
        bnd (rds A cs args outs xs) (fun ts =>
        bnd ((fix go (es : list eqn) (outs : list (T A)) : res (list (T A)) :=
                match es with [] => Ret outs | e :: es => bnd (ev1 A e (firstn nc ts) (skipn nc ts) outs) (fun new => go es (outs ++ new)) end) es [])
            (fun outs' => rds A (firstn nc ts) (skipn nc ts) outs' os))
    end.
  Fixpoint evs (A : alg) (es : list eqn) (cs args outs : list (T A)) : res (list (T A)) :=
    match es with [] => Ret outs | e :: es => bnd (ev1 A e cs args outs) (fun new => evs A es cs args (outs ++ new)) end.
  (** InitialStylePrimitive.fun_impl: split_list(args, [num_consts]); eval_jaxpr(jaxpr, consts, *args) (primitive.py:224-226) *)
  Definition fun_impl (A : alg) (j : jaxpr) (ts : list (T A)) : res (list (T A)) :=
    bnd (evs A (j_eqns j) (firstn (j_nc j) ts) (skipn (j_nc j) ts) []) (fun outs => rds A (firstn (j_nc j) ts) (skipn (j_nc j) ts) outs (j_outs j)).

  (** a level at which Python code runs: an algebra, or a staging trace (with the jaxpr built so far as state) *)
  Record level := { C : Type; St : Type; l_av : C -> shape; l_test : C -> res bool; l_lit : py -> res C;
                    l_prim : op -> list C -> St -> res (list C * St);
                    l_bind : jaxpr -> list C -> St -> res (list C * St);
                    l_tie : list (leaf C) -> St -> res (list (leaf C) * St);
                    l_stages : bool }.
  Definition algL (A : alg) : level :=
    {| C := T A; St := unit; l_av := av A; l_test := testA A; l_lit := litA A;
       l_prim := fun o xs s => rmap (fun ys => (ys, s)) (primA A o xs);
       l_bind := fun j xs s => rmap (fun ys => (ys, s)) (fun_impl A j xs);
       l_tie := fun xs s => Ret (xs, s);
       l_stages := false |}.

  (** tracers of a staging trace over a level: arguments, equation outputs, Python literals, values captured from outside *)
  Inductive tracer (X : Type) := TrArg (i : nat) (s : shape) | TrEqn (n : nat) (s : shape) | TrLit (p : py) (s : shape) | TrOut (x : X).
  Arguments TrArg {X} _ _. Arguments TrEqn {X} _ _. Arguments TrLit {X} _ _. Arguments TrOut {X} _.
  Record frame (X : Type) := { f_eqns : list eqn; f_n : nat; f_consts : list X }.
  Arguments f_eqns {X} _. Arguments f_n {X} _. Arguments f_consts {X} _.
  Definition frame0 (X : Type) : frame X := {| f_eqns := []; f_n := 0; f_consts := [] |}.
  (** the variable of a tracer in the jaxpr being built; a captured value becomes a constant of the jaxpr
      (simplification: one constant per use, where JAX shares the constants that are the same object) *)
  Definition to_atom {X} (t : tracer X) (s : frame X) : atom * frame X :=
    match t with
    | TrArg i _ => (JA i, s) | TrEqn n _ => (JE n, s) | TrLit p _ => (JL p, s)
    | TrOut x => (JC (List.length (f_consts s)), {| f_eqns := f_eqns s; f_n := f_n s; f_consts := f_consts s ++ [x] |})
    end.
  Fixpoint to_atoms {X} (l : list (tracer X)) (s : frame X) : list atom * frame X :=
    match l with [] => ([], s) | t :: l => let (a, s) := to_atom t s in let (r, s) := to_atoms l s in (a :: r, s) end.
  Definition emit {X} (e : eqn) (shs : list shape) (s : frame X) : list (tracer X) * frame X :=
    (map (fun p => TrEqn (fst p) (snd p)) (combine (seq (f_n s) (List.length shs)) shs),
     {| f_eqns := f_eqns s ++ [e]; f_n := f_n s + List.length shs; f_consts := f_consts s |}).
  Definition tr_av (L : level) (t : tracer (C L)) : shape := match t with TrArg _ s | TrEqn _ s | TrLit _ s => s | TrOut x => l_av L x end.
  (** an operand of tie_all under a trace: numbers become literals *)
  Definition tie_leaf {X} (l : leaf (tracer X)) : res (tracer X) := match l with LV t => Ret t | LPy p => rmap (TrLit p) (pyshape p) end.
  (** pe.trace_to_jaxpr_dynamic: every primitive is staged out, with the shapes of its abstract evaluation; bool() of a
      tracer raises, bool() of a captured value is that of the outer level; bound functions stay one equation *)
  Definition traceL (L : level) : level :=
    {| C := tracer (C L); St := frame (C L);
       l_av := tr_av L;
       l_test := fun t => match t with TrArg _ _ | TrEqn _ _ => Raise Concretization | TrLit p _ => Ret (truth p) | TrOut x => l_test L x end;
       l_lit := fun p => rmap (TrLit p) (pyshape p);
       l_prim := fun o xs s => bnd (absop o (map (tr_av L) xs)) (fun shs => let (ats, s) := to_atoms xs s in Ret (emit (EqPrim o ats) shs s));
       l_bind := fun j xs s => bnd (fun_impl abs_alg j (map (tr_av L) xs)) (fun shs => let (ats, s) := to_atoms xs s in Ret (emit (EqBind (j_eqns j) (j_outs j) (j_nc j) ats) shs s));
       l_tie := fun xs s => bnd (mapr tie_leaf xs) (fun ts =>
                let (ats, s) := to_atoms ts s in let (r, s) := emit (EqTie ats) (map (tr_av L) ts) s in Ret (map LV r, s));
       l_stages := true |}.

  (** Python functions over pytrees: variables (arguments first), Python literals, primitives applied to leaves, containers,
      `if`, tie_all, and calls of functions written in place (closures), plain or bound to a primitive *)
  Inductive mark := Plain | Initial | Hop (name : option string).
  Inductive term := TVar (i : nat) | TPy (p : py) | TPrim (o : op) (es : list term) | TNode (d : nat) (es : list term) | TGet (i : nat) (e : term)
    | TIf (c a b : term) | TTie (es : list term) | TCall (m : mark) (body : term) (args kwargs : list term).

  Definition val (L : level) := pytree (leaf (C L)).
  Definition unfl (X : Type) (t : treedef) (l : list (leaf X)) : res (pytree (leaf X)) := match unflatten (leaf X) t l with Some v => Ret v | None => Raise (OtherErr 1) end.
  (** the leaf operand of a primitive; containers are no operands *)
  Definition operand (L : level) (v : val L) : res (C L) :=
    match v with Leaf (LV x) => Ret x | Leaf (LPy p) => l_lit L p | _ => Raise (OtherErr 2) end.
  Definition leaf_c (L : level) (l : leaf (C L)) : res (C L) := match l with LV x => Ret x | LPy p => l_lit L p end.
  (** trace_util.get_shaped_aval (trace_util.py:41-46) *)
  Definition get_shaped_aval (L : level) (l : leaf (C L)) : res shape := match l with LV x => Ret (l_av L x) | LPy p => pyshape p end.
  Fixpoint tmap {X Y} (f : X -> Y) (v : pytree X) : pytree Y := match v with Leaf x => Leaf (f x) | Node d l => Node d (map (tmap f) l) end.
  (** a value of the outer level, seen from inside a staging trace *)
  Definition outer {X} (v : pytree (leaf X)) : pytree (leaf (tracer X)) := tmap (fun l => match l with LV x => LV (TrOut x) | LPy p => LPy p end) v.
  Definition children {X} (v : pytree X) : list (pytree X) := match v with Node _ l => l | _ => [] end.
  Fixpoint arg_tracers {X} (i : nat) (shs : list shape) : list (leaf (tracer X)) := match shs with [] => [] | s :: l => LV (TrArg i s) :: arg_tracers (S i) l end.
  Notation Tup l := (Node 0 l).

  (** stage (trace_util.py:57-80): flatten the arguments, trace the function on their shapes, flatten the results;
      the function [f] is given the pytree of arguments *)
  Definition stage (L : level) (f : val (traceL L) -> St (traceL L) -> res (val (traceL L) * St (traceL L))) (args : val L) : res (jaxpr * treedef * list (C L)) :=
    bnd (mapr (get_shaped_aval L) (leaves _ args)) (fun shs =>
    bnd (unfl _ (structure _ args) (arg_tracers 0 shs)) (fun targs =>
    bnd (f targs (frame0 _)) (fun ys =>
    bnd (mapr (leaf_c (traceL L)) (leaves _ (fst ys))) (fun outs =>
    let (ats, s) := to_atoms outs (snd ys) in
    Ret ({| j_eqns := f_eqns s; j_outs := ats; j_nc := List.length (f_consts s) |}, structure _ (fst ys), f_consts s))))).
  (** prim.bind(consts..., flat_args..., jaxpr, num_consts) and tree_unflatten (primitive.py:203-211) *)
  Definition bind_staged (L : level) (r : jaxpr * treedef * list (C L)) (args : val L) (s : St L) : res (val L * St L) :=
    let '(j, out_tree, consts) := r in
    bnd (mapr (leaf_c L) (leaves _ args)) (fun flat_args =>
    bnd (l_bind L j (consts ++ flat_args) s) (fun outs =>
    bnd (unfl _ out_tree (map LV (fst outs))) (fun v => Ret (v, snd outs)))).

  Fixpoint eval (L : level) (e : term) (env : list (val L)) (s : St L) {struct e} : res (val L * St L) :=
    let evl := fix evl (es : list term) (s : St L) : res (list (val L) * St L) :=
      match es with [] => Ret ([], s) | e :: es => bnd (eval L e env s) (fun r => bnd (evl es (snd r)) (fun q => Ret (fst r :: fst q, snd q))) end in
    match e with
    | TVar i => rmap (fun v => (v, s)) (get env i)
    | TPy p => Ret (Leaf (LPy p), s)
    | TPrim o es => bnd (evl es s) (fun r => bnd (mapr (operand L) (fst r)) (fun xs => bnd (l_prim L o xs (snd r)) (fun q => Ret (Tup (map (fun y => Leaf (LV y)) (fst q)), snd q))))
    | TNode d es => bnd (evl es s) (fun r => Ret (Node d (fst r), snd r))
    | TGet i e => bnd (eval L e env s) (fun r => match fst r with Node _ l => rmap (fun v => (v, snd r)) (get l i) | Leaf _ => Raise (OtherErr 2) end)
    | TIf c a b => bnd (eval L c env s) (fun r =>
        bnd (match fst r with Leaf (LPy p) => Ret (truth p) | Leaf (LV x) => l_test L x | Node _ l => Ret (match l with [] => false | _ => true end) end) (fun t =>
        if t then eval L a env (snd r) else eval L b env (snd r)))
    | TTie es => bnd (evl es s) (fun r =>
        (* tie_all (primitive.py:263-269) *)
        if Nat.leb (List.length (leaves _ (Tup (fst r)))) 1 then Ret (Tup (fst r), snd r)
        else bnd (l_tie L (leaves _ (Tup (fst r))) (snd r)) (fun q => bnd (unfl _ (structure _ (Tup (fst r))) (fst q)) (fun v => Ret (v, snd q))))
    | TCall m body args kwargs =>
        bnd (evl args s) (fun ra => bnd (evl kwargs (snd ra)) (fun rk =>
        let vs := fst ra in let ks := fst rk in let s := snd rk in
        match m with
        | Plain => eval L body (vs ++ ks ++ env) s
        | Initial =>
            (* initial_style_bind (primitive.py:193-215): keyword arguments are closed over *)
            bnd (stage L (fun targs => eval (traceL L) body (children targs ++ map outer ks ++ map outer env)) (Tup vs)) (fun r => bind_staged L r (Tup vs) s)
        | Hop None => Raise NoName
        | Hop (Some _) =>
            (* call_bind (primitive.py:162-190): positional and keyword arguments are flattened together; outside a staging
               trace HigherOrderPrimitive.impl (79-82) runs the function, inside one it is staged *)
            let akw := Tup [Tup vs; Tup ks] in
            let split := fun (X : Type) (v : pytree X) => match v with Node _ [a; k] => children a ++ children k | _ => [] end in
            if l_stages L
            then bnd (stage L (fun targs => eval (traceL L) body (split _ targs ++ map outer env)) akw) (fun r => bind_staged L r akw s)
            else bnd (unfl _ (structure _ akw) (leaves _ akw)) (fun v => bnd (eval L body (split _ v ++ env) s) (fun r =>
                 bnd (unfl _ (structure _ (fst r)) (leaves _ (fst r))) (fun u => Ret (u, snd r))))
        end))
    end.

  (** f(args...) at an evaluation level *)
  Definition run (A : alg) (e : term) (env : list (val (algL A))) : res (val (algL A)) := rmap fst (eval (algL A) e env tt).
  (** jit(f)(args...): stage f on all the arguments, then evaluate the jaxpr *)
  Definition run_jit (A : alg) (e : term) (env : list (val (algL A))) : res (val (algL A)) :=
    bnd (stage (algL A) (fun targs => eval (traceL (algL A)) e (children targs)) (Tup env)) (fun r => rmap fst (bind_staged (algL A) r (Tup env) tt)).
End model.
