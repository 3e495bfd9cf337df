(** Model of oryx/experimental/autoconj/canonicalize.py: the rules and [canonicalize], on JAX expressions (the node
    classes of oryx/experimental/matching/jax_rewrite.py together with Einsum and AddN), and their evaluation.

    Expressions are Python values as in JaxModel.v, except that here a variable carries its declared shape and the
    fields of a node are hashable:
      JaxVar            VNode "JaxVar" [VStr name; VSeq KTuple dimensions] []
      Literal           VNode "Literal" [payload] []
      Primitive         VNode "Primitive" [VStr primitive; params] operands
      Params            VNode "Params" [VSeq KTuple keys; VSeq KTuple values] []
      Part              VNode "Part" [VNum KInt index] [operand]
      BoundExpression   VNode "BoundExpression" [VSeq KTuple names; VSeq KTuple payloads] expressions
      CallPrimitive     VNode "CallPrimitive" [VStr primitive; params; VSeq KTuple names] (operands ++ [expression])
      Einsum            VNode "Einsum" [VStr formula] operands
      AddN              VNode "AddN" [] operands
    Simplifications: dtypes are not modelled; JaxVar and Literal compare structurally (in the code JaxVar compares by
    identity, so the model's caches hit more often). *)
From Verif Require Export JaxModel CanonModel.
Open Scope string_scope.
Open Scope list_scope.
Open Scope nat_scope.

(** ** Fields of nodes *)
(** a tuple of dimensions or axes.  Simplification: negative entries leave the model (lax stores non-negative ones) *)
Definition nat_of (v : val) : option nat :=
  match v with VNum _ z => if Z.ltb z 0 then None else Some (Z.to_nat z) | _ => None end.
Fixpoint omap {A B} (f : A -> option B) (l : list A) : option (list B) :=
  match l with
  | [] => Some []
  | x :: l' => match f x with None => None | Some y => option_map (cons y) (omap f l') end
  end.
Definition nats_of (v : val) : option (list nat) := match v with VSeq KTuple l => omap nat_of l | _ => None end.
Definition strs_of (v : val) : option (list string) := match v with VSeq KTuple l => omap of_str l | _ => None end.
(** ((x_contract, y_contract), (x_batch, y_batch)) *)
Definition dims_of (v : val) : option (list nat * list nat * (list nat * list nat)) :=
  match v with
  | VSeq KTuple [VSeq KTuple [a; b]; VSeq KTuple [c; d]] =>
      match nats_of a, nats_of b, nats_of c, nats_of d with
      | Some xc, Some yc, Some xb, Some yb => Some (xc, yc, (xb, yb))
      | _, _, _, _ => None
      end
  | _ => None
  end.
(** Params.__getitem__, jax_rewrite.py:408-409 *)
Fixpoint assoc (ks vs : list val) (x : list ascii) : option val :=
  match ks, vs with
  | VStr k :: ks', v :: vs' => if list_eqb Ascii.eqb k x then Some v else assoc ks' vs' x
  | _, _ => None
  end.
Definition param (ps : val) (x : string) : option val :=
  match ps with
  | VNode c [VSeq KTuple ks; VSeq KTuple vs] [] =>
      if String.eqb c "Params" then assoc ks vs (list_ascii_of_string x) else None
  | _ => None
  end.

Definition JVar (x : string) (s : list nat) : val :=
  VNode "JaxVar" [str_of x; VSeq KTuple (map (fun n => VNum KInt (Z.of_nat n)) s)] [].
Definition Params (l : list (string * val)) : val :=
  VNode "Params" [VSeq KTuple (map (fun kv => str_of (fst kv)) l); VSeq KTuple (map snd l)] [].
Definition Einsum (formula : list ascii) (ops : list val) : val := VNode "Einsum" [VStr formula] ops.
Definition AddN (ops : list val) : val := VNode "AddN" [] ops.

(** ** Evaluation *)
(** Array payloads and the primitives canonicalize does not know: arbitrary partial functions, with the static shape
    functions that jax.eval_shape uses. *)
Record prims (K : Type) := {
  lit : val -> option (array K);
  multi : string -> bool;
  obind : string -> val -> list (array K) -> result (array K);
  obindN : string -> val -> list (array K) -> result (list (array K));
  oshape : string -> val -> list (list nat) -> result (list nat);
  oshapeN : string -> val -> list (list nat) -> result (list (list nat)) }.
Arguments lit {K}. Arguments multi {K}. Arguments obind {K}. Arguments obindN {K}. Arguments oshape {K}. Arguments oshapeN {K}.
(** Python-equal payloads denote equal arrays, Python-equal parameters give the same primitive, and the static shapes
    are the shapes of the results *)
Record prims_ok {K} (P : prims K) : Prop := {
  lit_same : forall v w, same v w -> lit P v = lit P w;
  obind_same : forall p v w l, same v w -> obind P p v l = obind P p w l;
  obindN_same : forall p v w l, same v w -> obindN P p v l = obindN P p w l;
  oshape_same : forall p v w l, same v w -> oshape P p v l = oshape P p w l;
  oshapeN_same : forall p v w l, same v w -> oshapeN P p v l = oshapeN P p w l;
  obind_shape : forall p v l a s, obind P p v l = inl a -> oshape P p v (map shape l) = inl s -> shape a = s;
  obindN_shape : forall p v l r s, obindN P p v l = inl r -> oshapeN P p v (map shape l) = inl s -> map shape r = s }.

Fixpoint seqr {A} (l : list (result A)) : result (list A) :=
  match l with [] => inl [] | x :: l' => rb x (fun y => rb (seqr l') (fun ys => inl (y :: ys))) end.
Definition nodupn (l : list nat) : bool := if list_eq_dec Nat.eq_dec (nodup Nat.eq_dec l) l then true else false.
Definition known (p : string) : bool :=
  String.eqb p "transpose" || String.eqb p "squeeze" || String.eqb p "reduce_sum" || String.eqb p "dot_general" || String.eqb p "add".

(** params['permutation'] etc. *)
Definition axes_param (ps : val) (x : string) : option (list nat) := match param ps x with Some v => nats_of v | None => None end.
Definition dims_param (ps : val) : option (list nat * list nat * (list nat * list nat)) :=
  match param ps "dimension_numbers" with Some v => dims_of v | None => None end.

Section shapes.
  (** jax.eval_shape of the five primitives that have rules: the shape rules of jax.lax, which are also the checks that
      binding the primitive makes (reference semantics) *)
  Definition size (s : list nat) (i : nat) : nat := nth i s 0.
  Definition transpose_shape (perm s : list nat) : result (list nat) :=
    if Nat.eqb (List.length perm) (List.length s) && forallb (fun i => memn i perm) (seq 0 (List.length s))
    then inl (map (size s) perm) else inr TypeErr.
  Definition squeeze_shape (dims s : list nat) : result (list nat) :=
    if forallb (fun i => Nat.eqb (size s i) 1) dims && nodupn dims
    then inl (map (size s) (kept (List.length s) dims)) else inr ValueErr.
  Definition reduce_sum_shape (axes s : list nat) : result (list nat) :=
    if forallb (fun i => Nat.ltb i (List.length s)) axes && nodupn axes
    then inl (map (size s) (kept (List.length s) axes)) else inr ValueErr.
  Definition dot_shape (xc yc xb yb s t : list nat) : result (list nat) :=
    if Nat.eqb (List.length xc) (List.length yc) && Nat.eqb (List.length xb) (List.length yb)
       && nodupn (xc ++ xb) && nodupn (yc ++ yb)
       && forallb (fun ij => Nat.ltb (fst ij) (List.length s) && Nat.ltb (snd ij) (List.length t)
                             && Nat.eqb (size s (fst ij)) (size t (snd ij))) (combine (xc ++ xb) (yc ++ yb))
    then inl (map (size s) xb ++ map (size s) (free (List.length s) (xc ++ xb)) ++ map (size t) (free (List.length t) (yc ++ yb)))
    else inr TypeErr.
  Definition add_shape (s t : list nat) : result (list nat) := if list_eq_dec Nat.eq_dec s t then inl s else inr TypeErr.
  Definition lax_shape (p : string) (ps : val) (ss : list (list nat)) : result (list nat) :=
    if String.eqb p "transpose" then
      match axes_param ps "permutation", ss with Some perm, [s] => transpose_shape perm s | _, _ => inr TypeErr end
    else if String.eqb p "squeeze" then
      match axes_param ps "dimensions", ss with Some dims, [s] => squeeze_shape dims s | _, _ => inr TypeErr end
    else if String.eqb p "reduce_sum" then
      match axes_param ps "axes", ss with Some axes, [s] => reduce_sum_shape axes s | _, _ => inr TypeErr end
    else if String.eqb p "dot_general" then
      match dims_param ps, ss with Some (xc, yc, (xb, yb)), [s; t] => dot_shape xc yc xb yb s t | _, _ => inr TypeErr end
    else match ss with [s; t] => add_shape s t | _ => inr TypeErr end.
End shapes.

Section evaluation.
  Variables (K : Type) (k0 k1 : K) (kadd kmul : K -> K -> K) (P : prims K).
  Notation arrays := (list (array K)).
  (** binding one of the five primitives: checks, then the value *)
  Definition lax_value (p : string) (ps : val) (ds : arrays) : result (array K) :=
    if String.eqb p "transpose" then
      match axes_param ps "permutation", ds with Some perm, [x] => inl (lax_transpose K k0 perm x) | _, _ => inr TypeErr end
    else if String.eqb p "squeeze" then
      match axes_param ps "dimensions", ds with Some dims, [x] => inl (lax_squeeze K k0 dims x) | _, _ => inr TypeErr end
    else if String.eqb p "reduce_sum" then
      match axes_param ps "axes", ds with Some axes, [x] => inl (lax_reduce_sum K k0 kadd axes x) | _, _ => inr TypeErr end
    else if String.eqb p "dot_general" then
      match dims_param ps, ds with
      | Some (xc, yc, (xb, yb)), [x; y] => inl (lax_dot_general K k0 kadd kmul xc yc xb yb x y)
      | _, _ => inr TypeErr
      end
    else match ds with [x; y] => add_arrays K k0 kadd x y | _ => inr TypeErr end.
  Definition bind (p : string) (ps : val) (ds : arrays) : result (rv (array K)) :=
    if known p then rb (lax_shape p ps (map shape ds)) (fun _ => rb (lax_value p ps ds) (fun a => inl (Arr a)))
    else if multi P p then rb (obindN P p ps ds) (fun rs => inl (Tup (map Arr rs)))
    else rb (obind P p ps ds) (fun a => inl (Arr a)).

  Definition env := list (string * array K).
  (** what an expression denotes: a partial function of the environment *)
  Definition den := env -> result (rv (array K)).
  Definition arrs (fs : list den) (e : env) : result arrays := rb (seqr (map (fun f : den => f e) fs)) (rmap (@arr (array K))).

  (** the evaluate methods: JaxVar jax_rewrite.py:374-377, Literal 314-316, Primitive 502-506, Part 560-561,
      BoundExpression 610-612, CallPrimitive 674-688 and PjitPrimitive 721-739, Einsum einsum.py:138-141,
      AddN addn.py:107-110; [fs] are the denotations of the children.
      Simplifications: binding a variable to an array that does not have the declared shape leaves the model (evaluate
      does not check this, but every shape canonicalize computes is derived from the declared ones); a Literal's payload
      is a scalar (its shape is () whatever the payload, jax_rewrite.py:294-296); binding a call or pjit primitive to a
      function runs the function; operands of AddN have equal shapes. *)
  Definition node (c : string) (h : list val) (fs : list den) : den := fun e =>
    if String.eqb c "JaxVar" then
      match h, fs with
      | [n; sh], [] =>
          rb (opt TypeErr (of_str n)) (fun x => rb (opt TypeErr (nats_of sh)) (fun s => rb (opt ValueErr (dget e x)) (fun a =>
            if list_eq_dec Nat.eq_dec (shape a) s then inl (Arr a) else inr ValueErr)))
      | _, _ => inr TypeErr
      end
    else if String.eqb c "Literal" then
      match h, fs with
      | [v], [] => rb (opt TypeErr (lit P v)) (fun a => if list_eq_dec Nat.eq_dec (shape a) [] then inl (Arr a) else inr ValueErr)
      | _, _ => inr TypeErr
      end
    else if String.eqb c "Primitive" then
      match h with
      | [n; ps] => rb (opt TypeErr (of_str n)) (fun p => rb (arrs fs e) (fun ds => bind p ps ds))
      | _ => inr TypeErr
      end
    else if String.eqb c "Part" then
      match h, fs with
      | [i], [f] => rb (opt TypeErr (nat_of i)) (fun i => rb (f e) (fun v =>
          match v with Tup l => opt IndexErr (nth_error l i) | Arr _ => inr TypeErr end))
      | _, _ => inr TypeErr
      end
    else if String.eqb c "BoundExpression" then
      match h with
      | [ns; VSeq KTuple cs] =>
          rb (opt TypeErr (strs_of ns)) (fun xs => rb (opt TypeErr (omap (lit P) cs)) (fun ds => rb (dwrite [] xs ds) (fun ce =>
            rb (seqr (map (fun f : den => f (dmerge ce e)) fs)) (fun vs => inl (Tup vs)))))
      | _ => inr TypeErr
      end
    else if String.eqb c "CallPrimitive" then
      match h, rev fs with
      | [_; _; ns], body :: ops =>
          rb (opt TypeErr (strs_of ns)) (fun xs => rb (arrs (rev ops) e) (fun ds => rb (dwrite [] xs ds) (fun sub => body sub)))
      | _, _ => inr TypeErr
      end
    else if String.eqb c "Einsum" then
      match h with
      | [VStr s] => rb (arrs fs e) (fun ds => rb (einsum_str K k0 k1 kadd kmul s ds) (fun a => inl (Arr a)))
      | _ => inr TypeErr
      end
    else if String.eqb c "AddN" then
      match h with
      | [] => rb (arrs fs e) (fun ds => rb (addn K k0 kadd ds) (fun a => inl (Arr a)))
      | _ => inr TypeErr
      end
    else inr NotImplErr.

  (** [lim n]: an array with n dimensions is allowed (see the theorems) *)
  Variable lim : nat -> bool.
  Definition chk (f : den) : den := fun e =>
    rb (f e) (fun v => match v with Arr a => if lim (ndim K a) then inl v else inr ValueErr | Tup _ => inl v end).
  (** evaluate, jax_rewrite.py:221-281 *)
  Fixpoint eval (v : val) : den :=
    chk (match v with
         | VNum _ _ => fun _ => rb (opt NotImplErr (lit P v)) (fun a => inl (Arr a))
         | VStr _ | VSeq KList _ | VDict _ _ => fun _ => inr NotImplErr
         | VSeq KTuple l => fun e => rb (seqr (map (fun f : den => f e) (map eval l))) (fun vs => inl (Tup vs))
         | VNode c h kids => node c h (map eval kids)
         end).
End evaluation.

(** ** The shape property of expressions *)
Inductive sv := SArr (s : list nat) | STup (l : list sv).
Definition sarr (v : sv) : result (list nat) := match v with SArr s => inl s | STup _ => inr TypeErr end.
Definition sarrs (ss : list (result sv)) : result (list (list nat)) := rb (seqr ss) (rmap sarr).
(** an array of the given shape, of no interest but for its shape *)
Definition abstract (s : list nat) : array unit := tabulate s (fun _ => tt).
Section shape_of.
  Variables (K : Type) (P : prims K).
  (** Primitive.shape jax_rewrite.py:465-479, JaxVar 352-354, Literal 294-296, Part 539-541, BoundExpression 589-591,
      CallPrimitive 645-649 (always TypeError: the body is a BoundExpression, which cannot be iterated), Einsum
      einsum.py:86-110, AddN addn.py:61-80 *)
  Definition node_shape (c : string) (h : list val) (ss : list (result sv)) : result sv :=
    if String.eqb c "JaxVar" then
      match h with [_; sh] => rb (opt TypeErr (nats_of sh)) (fun s => inl (SArr s)) | _ => inr TypeErr end
    else if String.eqb c "Literal" then inl (SArr [])
    else if String.eqb c "Primitive" then
      match h with
      | [n; ps] => rb (opt TypeErr (of_str n)) (fun p => rb (sarrs ss) (fun ds =>
          if known p then rb (lax_shape p ps ds) (fun s => inl (SArr s))
          else if multi P p then rb (oshapeN P p ps ds) (fun l => inl (STup (map SArr l)))
          else rb (oshape P p ps ds) (fun s => inl (SArr s))))
      | _ => inr TypeErr
      end
    else if String.eqb c "Part" then
      match h, ss with
      | [i], [x] => rb (opt TypeErr (nat_of i)) (fun i => rb x (fun v => match v with STup l => opt IndexErr (nth_error l i) | SArr _ => inr TypeErr end))
      | _, _ => inr TypeErr
      end
    else if String.eqb c "BoundExpression" then rb (seqr ss) (fun l => inl (STup l))
    else if String.eqb c "CallPrimitive" then inr TypeErr
    else if String.eqb c "Einsum" then
      match h with
      | [VStr s] => rb (sarrs ss) (fun ds =>
          rb (einsum_str unit tt tt (fun _ _ => tt) (fun _ _ => tt) s (map abstract ds)) (fun a => inl (SArr (shape a))))
      | _ => inr TypeErr
      end
    else if String.eqb c "AddN" then
      rb (sarrs ss) (fun ds => rb (addn unit tt (fun _ _ => tt) (map abstract ds)) (fun a => inl (SArr (shape a))))
    else inr TypeErr.
  (** Simplification: a bare number has no attribute shape, but it is accepted as an operand by jax.eval_shape; here it
      always has the shape of its payload, so that the model rewrites where the code may raise AttributeError *)
  Fixpoint eshape (v : val) : result sv :=
    match v with
    | VNum _ _ => rb (opt TypeErr (lit P v)) (fun a => inl (SArr (shape a)))
    | VStr _ | VSeq _ _ | VDict _ _ => inr TypeErr
    | VNode c h kids => node_shape c h (map eshape kids)
    end.
  (** len(x.shape) *)
  Definition ndim_of (x : val) : result nat := rb (eshape x) (fun v => rb (sarr v) (fun s => inl (List.length s))).

  (** ** The rules *)
  Definition V (x : string) : pat := PVar (Some x) [].
  Definition ptup (l : list pat) : pat := PSeq KTuple l.
  Definition pstr (s : string) : pat := PStr (list_ascii_of_string s).
  (** Primitive.match, jax_rewrite.py:489-494; Einsum.match, einsum.py:118-124; AddN.match, addn.py:88-93.
      Simplification: fields are matched before operands (Primitive and Einsum match operands first or in between), which
      makes no difference for patterns in which no name occurs twice. *)
  Definition PPrim (p : string) (params : pat) (ops : list pat) : pat := PNode "Primitive" (ptup [pstr p; params]) (ptup ops).
  Definition PEinsum (formula ops : pat) : pat := PNode "Einsum" (ptup [formula]) ops.
  Definition PAddN (ops : pat) : pat := PNode "AddN" (ptup []) ops.

  (** a handler is called with the bindings as keyword arguments *)
  Definition arg (b : bindings) (x : string) : result val := opt TypeErr (dget b x).
  Definition tuple_arg (b : bindings) (x : string) : result (list val) :=
    rb (arg b x) (fun v => match v with VSeq KTuple l => inl l | _ => inr TypeErr end).
  Definition str_arg (b : bindings) (x : string) : result (list ascii) :=
    rb (arg b x) (fun v => match v with VStr s => inl s | _ => inr TypeErr end).

  (** transpose_as_einsum, canonicalize.py:82-91 *)
  Definition transpose_pattern : pat := PPrim "transpose" (V "params") [V "x"].
  Definition transpose_as_einsum : handler := fun b =>
    rb (arg b "x") (fun x => rb (arg b "params") (fun ps => rb (ndim_of x) (fun n =>
      rb (opt KeyErr (axes_param ps "permutation")) (fun perm =>
        rb (transpose_formula n perm) (fun f => inl (Einsum (reconstitute_einsum_formula f) [x])))))).
  (** squeeze_as_einsum, canonicalize.py:94-104 *)
  Definition squeeze_pattern : pat := PPrim "squeeze" (V "params") [V "x"].
  Definition squeeze_as_einsum : handler := fun b =>
    rb (arg b "x") (fun x => rb (arg b "params") (fun ps => rb (ndim_of x) (fun n =>
      rb (opt KeyErr (axes_param ps "dimensions")) (fun dims =>
        rb (drop_formula n dims) (fun f => inl (Einsum (reconstitute_einsum_formula f) [x])))))).
  (** dot_as_einsum, canonicalize.py:107-126 *)
  Definition dot_pattern : pat := PPrim "dot_general" (V "params") [V "x"; V "y"].
  Definition dot_as_einsum : handler := fun b =>
    rb (arg b "x") (fun x => rb (arg b "y") (fun y => rb (arg b "params") (fun ps =>
      rb (opt KeyErr (dims_param ps)) (fun d => rb (ndim_of x) (fun nx => rb (ndim_of y) (fun ny =>
        match d with (xc, yc, (xb, yb)) =>
          rb (dot_formula nx ny xc yc xb yb) (fun f => inl (Einsum (reconstitute_einsum_formula f) [x; y]))
        end)))))).
  (** reduce_sum_as_einsum, canonicalize.py:129-140 *)
  Definition reduce_sum_pattern : pat := PPrim "reduce_sum" (V "params") [V "x"].
  Definition reduce_sum_as_einsum : handler := fun b =>
    rb (arg b "x") (fun x => rb (arg b "params") (fun ps => rb (ndim_of x) (fun n =>
      rb (opt KeyErr (axes_param ps "axes")) (fun axes =>
        rb (drop_formula n axes) (fun f => inl (Einsum (reconstitute_einsum_formula f) [x])))))).
  (** compose_einsums, canonicalize.py:143-154 *)
  Definition compose_pattern : pat :=
    PEinsum (V "parent_formula")
      (ptup [Segment (Some "left_args"); PEinsum (V "child_formula") (ptup [Segment (Some "child_args")]); Segment (Some "right_args")]).
  Definition compose_handler : handler := fun b =>
    rb (str_arg b "parent_formula") (fun p => rb (tuple_arg b "left_args") (fun l => rb (str_arg b "child_formula") (fun c =>
      rb (tuple_arg b "child_args") (fun a => rb (tuple_arg b "right_args") (fun r =>
        rb (compose_einsums p (List.length l) c) (fun f => inl (Einsum f (l ++ a ++ r)))))))).
  (** add_to_addn, canonicalize.py:166-175 *)
  Definition add_pattern : pat :=
    PPrim "add" (PNode "Params" (ptup [ptup []; ptup []]) (ptup [])) [V "x"; V "y"].
  Definition add_to_addn : handler := fun b => rb (arg b "x") (fun x => rb (arg b "y") (fun y => inl (AddN [x; y]))).
  (** addn_of_addn_to_addn, canonicalize.py:178-184 *)
  Definition addn_pattern : pat :=
    PAddN (ptup [Segment (Some "args1"); PAddN (V "child_args"); Segment (Some "args2")]).
  Definition addn_of_addn_to_addn : handler := fun b =>
    rb (tuple_arg b "args1") (fun l => rb (tuple_arg b "child_args") (fun a => rb (tuple_arg b "args2") (fun r =>
      inl (AddN (l ++ a ++ r))))).

  (** every rule object has its own cache; the state holds all seven *)
  Definition caches := nat -> cache.
  Definition at_cache (i : nat) (r : rule cache) : rule caches := fun s e =>
    let out := r (s i) e in ((fun j => if Nat.eqb j i then fst out else s j), snd out).
  (** CANONICALIZATION_RULES, canonicalize.py:157-163, 187-195 *)
  Definition pattern_handlers : list (pat * handler) :=
    [(transpose_pattern, transpose_as_einsum); (dot_pattern, dot_as_einsum); (squeeze_pattern, squeeze_as_einsum);
     (reduce_sum_pattern, reduce_sum_as_einsum); (compose_pattern, compose_handler);
     (add_pattern, add_to_addn); (addn_pattern, addn_of_addn_to_addn)].
  Definition canonicalization_rules : list (rule caches) :=
    map (fun iph => at_cache (fst iph) (make_rule (fst (snd iph)) (snd (snd iph))))
        (combine (seq 0 (List.length pattern_handlers)) pattern_handlers).
  (** canonicalize, canonicalize.py:197 *)
  Definition canonicalize : nat -> caches -> val -> option (caches * result val) := term_rewriter canonicalization_rules.
  Definition fresh : caches := fun _ => [].
End shape_of.
