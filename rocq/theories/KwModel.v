(** Model of keyword arguments of stateful functions: eval_jaxpr_with_kwargs and FunctionModule (oryx/core/state/function.py:
    98-131, 155-195), the rule of layer_cau (oryx/experimental/nn/function.py:34-47) and the part of tracing
    (trace_util.stage) that decides which keyword arguments an equation of the staged jaxpr has.

    Simplifications: the leaves of a layer travel through the jaxpr as one value (flattening them is the identity on the
    layers that call_and_update accepts, C60); consts are ordinary inputs; a caller does not pass the private keyword
    has_rng; the outputs of a layer are one array (a tuple of arrays is several outputs). *)
From Verif Require Export NnModel.

Section kw.
Context {PR : Prng}.

(** ** Keyword dictionaries *)
(** dict(a, **b): function.py:124 *)
Definition kmerge (a b : kwargs) : kwargs :=
  map (fun e => (fst e, match kget (fst e) b with Some v => v | None => snd e end)) a ++
  filter (fun e => match kget (fst e) a with None => true | Some _ => false end) b.
Definition kdel (s : string) (kw : kwargs) : kwargs := filter (fun e => negb (String.eqb s (fst e))) kw.

(** ** Jaxprs *)
(** the values of a jaxpr's variables *)
Inductive jv := JArr (a : arr) | JKey (k : key) | JLayer (l : layer).
Inductive eqn :=
| EPrim (f : list jv -> nres (list jv)) (ins outs : list nat)
    (* any primitive without a kwargs rule and without a jaxpr *)
| ELayer (lv : nat) (rng : option nat) (args : list nat) (kw : kwargs) (outs : list nat) (new : nat)
    (* layer_cau: the layer, the key if has_rng, the arguments; its static keyword arguments; the outputs, the new layer *)
| ECall (bins : list nat) (body : list eqn) (bouts ins outs : list nat)
    (* a call primitive: core_call, nest, ... *)
| EHigher (h : (list jv -> nres (list jv)) -> list jv -> nres (list jv)) (bins : list nat) (body : list eqn) (bouts ins outs : list nat).
    (* pjit, scan, while_loop, cond, custom_jvp, ...: JAX evaluates the jaxpr in its parameters; h: what it does with it *)
Definition env := list (nat * jv).
Fixpoint lookup (e : env) (x : nat) : nres jv := match e with [] => inr NIndex | (y, v) :: e' => if x =? y then inl v else lookup e' x end.
Definition reads (e : env) (xs : list nat) : nres (list jv) := nmapM (lookup e) xs.
(** safe_map(write, ...): different lengths raise ValueError *)
Definition writes (e : env) (xs : list nat) (vs : list jv) : nres env :=
  if List.length xs =? List.length vs then inl (combine xs vs ++ e) else inr NValue.
Definition arrs (vs : list jv) : nres (list arr) := nmapM (fun v => match v with JArr a => inl a | _ => inr NType end) vs.
Definition pval_leaves (v : pval) : list jv := map JArr (as_args v).

(** the layer and arguments of a layer_cau equation *)
Definition layer_in (e : env) (lv : nat) (rng : option nat) (args : list nat) : nres (layer * option key * list arr) :=
  nb (lookup e lv) (fun l => match l with
  | JLayer l =>
      nb (match rng with None => inl None | Some r => nb (lookup e r) (fun k => match k with JKey k => inl (Some k) | _ => inr NType end) end) (fun k =>
      nb (reads e args) (fun vs => nb (arrs vs) (fun xs => inl (l, k, xs))))
  | _ => inr NType end).
Definition layer_out (e : env) (outs : list nat) (new : nat) (r : pval * layer) : nres env := writes e (outs ++ [new]) (pval_leaves (fst r) ++ [JLayer (snd r)]).
(** layer_cau_kwargs_rule, nn/function.py:34-44: the key of the equation takes precedence; otherwise a keyword rng is the key
    (Layer.call_and_update, nn/base.py:244-255, has the parameter rng=None) *)
Definition layer_rule (l : layer) (k : option key) (xs : list arr) (kw : kwargs) : nres (pval * layer) :=
  match k with
  | Some k => call_and_update l xs (Some k) (kdel "rng" kw)
  | None => match kget "rng" kw with
            | Some (KKey k) => call_and_update l xs (Some k) (kdel "rng" kw)
            | Some _ => inr NType
            | None => call_and_update l xs None kw
            end
  end.

(** jax.core.eval_jaxpr: layer_cau's impl (primitive.py:224-226, nn/base.py:244-266) runs the layer with the keyword arguments
    of the equation *)
Fixpoint step (q : eqn) (e : env) {struct q} : nres env :=
  let run := fix run (es : list eqn) (e : env) : nres env := match es with [] => inl e | q :: es' => nb (step q e) (run es') end in
  match q with
  | EPrim f ins outs => nb (reads e ins) (fun vs => nb (f vs) (writes e outs))
  | ELayer l r args kw outs new => nb (layer_in e l r args) (fun i => nb (call_and_update (fst (fst i)) (snd i) (snd (fst i)) kw) (layer_out e outs new))
  | ECall bins body bouts ins outs =>
      nb (reads e ins) (fun vs => nb (nb (writes [] bins vs) (fun e0 => nb (run body e0) (fun e1 => reads e1 bouts))) (writes e outs))
  | EHigher h bins body bouts ins outs =>
      nb (reads e ins) (fun vs => nb (h (fun vs => nb (writes [] bins vs) (fun e0 => nb (run body e0) (fun e1 => reads e1 bouts))) vs) (writes e outs))
  end.
Fixpoint steps (es : list eqn) (e : env) : nres env := match es with [] => inl e | q :: es' => nb (step q e) (steps es') end.
Record jaxpr := mk_jx { jx_in : list nat; jx_eqns : list eqn; jx_out : list nat }.
Definition eval_jaxpr (j : jaxpr) (vs : list jv) : nres (list jv) := nb (writes [] (jx_in j) vs) (fun e => nb (steps (jx_eqns j) e) (fun e => reads e (jx_out j))).

(** eval_jaxpr_with_kwargs, function.py:98-131.  [has_jaxpr]: whether a jax.core.Jaxpr, which is what the call primitives have as
    call_jaxpr (as in effect_handler.py:236-246, propagate.py:297-305), has an attribute jaxpr (function.py:121); it has not
    in the versions of JAX we know, and then evaluating a call primitive raises AttributeError (here NType). *)
Section eval.
Variable has_jaxpr : bool.
Variable kw : kwargs.
Fixpoint kstep (q : eqn) (e : env) {struct q} : nres env :=
  let run := fix run (es : list eqn) (e : env) : nres env := match es with [] => inl e | q :: es' => nb (kstep q e) (run es') end in
  match q with
  | EPrim f ins outs => nb (reads e ins) (fun vs => nb (f vs) (writes e outs))
  | ELayer l r args kw0 outs new => nb (layer_in e l r args) (fun i => nb (layer_rule (fst (fst i)) (snd (fst i)) (snd i) (kmerge kw0 kw)) (layer_out e outs new))
  | ECall bins body bouts ins outs =>
      nb (reads e ins) (fun vs => if has_jaxpr then nb (nb (writes [] bins vs) (fun e0 => nb (run body e0) (fun e1 => reads e1 bouts))) (writes e outs) else inr NType)
  | EHigher h bins body bouts ins outs => step (EHigher h bins body bouts ins outs) e     (* eqn.primitive.bind, function.py:128 *)
  end.
Fixpoint ksteps (es : list eqn) (e : env) : nres env := match es with [] => inl e | q :: es' => nb (kstep q e) (ksteps es') end.
Definition eval_jaxpr_with_kwargs (j : jaxpr) (vs : list jv) : nres (list jv) := nb (writes [] (jx_in j) vs) (fun e => nb (ksteps (jx_eqns j) e) (fun e => reads e (jx_out j))).
End eval.

(** ** Functions and tracing *)
(** what a function passes to a layer as a keyword argument: a constant, or the value of one of its own keyword parameters *)
Inductive source := Const (v : kval) | Param (n : string).
Inductive stmt :=
| SPrim (f : list jv -> nres (list jv)) (ins outs : list nat)
| SLayer (lv : nat) (rng : option nat) (args : list nat) (passed : list (string * source)) (outs : list nat) (new : nat)
    (* layer.call_and_update( *args, rng=rng, **passed) *)
| SCall (bins : list nat) (body : list stmt) (bouts ins outs : list nat)
| SHigher (h : (list jv -> nres (list jv)) -> list jv -> nres (list jv)) (bins : list nat) (body : list stmt) (bouts ins outs : list nat)
| SIf (n : string) (yes no : list stmt).
    (* a Python if on the value of the parameter n *)
Definition truth (v : option kval) : bool := match v with Some (KBool b) => b | Some (KOther n) => negb (n =? 0) | Some (KKey _) => true | None => false end.
(** the value of the parameters: pk *)
Definition passed_kw (pk : kwargs) (ps : list (string * source)) : kwargs :=
  map (fun e => (fst e, match snd e with Const v => v | Param n => match kget n pk with Some v => v | None => KOther 0 end end)) ps.
(** the equations that tracing emits *)
Section trace.
Variable pk : kwargs.
Fixpoint trace (s : stmt) {struct s} : list eqn :=
  let all := fix all (ss : list stmt) : list eqn := match ss with [] => [] | s :: ss' => trace s ++ all ss' end in
  match s with
  | SPrim f ins outs => [EPrim f ins outs]
  | SLayer l r args ps outs new => [ELayer l r args (passed_kw pk ps) outs new]
  | SCall bins body bouts ins outs => [ECall bins (all body) bouts ins outs]
  | SHigher h bins body bouts ins outs => [EHigher h bins (all body) bouts ins outs]
  | SIf n yes no => if truth (kget n pk) then all yes else all no
  end.
Fixpoint traces (ss : list stmt) : list eqn := match ss with [] => [] | s :: ss' => trace s ++ traces ss' end.
End trace.
(** a function f(variables, *args, **defaults) -> (out, assigns), as function_init stages it (function.py:249-279: plant the
    variables, harvest the assigns): its parameters with their defaults, its inputs (the variables first), the number of
    its variables' and arguments' values, the statements and the results; assigned: the names of the assigned variables, whose
    values are the results after the first n_out. *)
Record func := mk_func { f_defaults : kwargs; f_in : list nat; f_body : list stmt; f_out : list nat; f_assigned : list string }.
(** Python: an unknown keyword argument raises TypeError *)
Definition bind_params (f : func) (kw : kwargs) : nres kwargs :=
  if forallb (fun e => match kget (fst e) (f_defaults f) with Some _ => true | None => false end) kw then inl (kmerge (f_defaults f) kw) else inr NType.
Definition stage (f : func) (kw : kwargs) : nres jaxpr := nb (bind_params f kw) (fun pk => inl (mk_jx (f_in f) (traces pk (f_body f)) (f_out f))).

(** ** FunctionModule: function.py:155-195 *)
Record fmod := mk_fmod { m_vars : list (string * jv); m_jaxpr : jaxpr; m_assigned : list string }.
(** function_init for a function whose variables have the given values: function.py:249-293 *)
Definition function_module (f : func) (vars : list (string * jv)) (kw : kwargs) : nres fmod :=
  nb (stage f kw) (fun j => inl (mk_fmod vars j (f_assigned f))).
Fixpoint vget (s : string) (vs : list (string * jv)) : option jv := match vs with [] => None | (t, v) :: vs' => if String.eqb s t then Some v else vget s vs' end.
(** {**variables, **assigns} *)
Definition vmerge (a b : list (string * jv)) : list (string * jv) :=
  map (fun e => (fst e, match vget (fst e) b with Some v => v | None => snd e end)) a ++
  filter (fun e => match vget (fst e) a with None => true | Some _ => false end) b.
(** call_and_update: function.py:183-194; tree_unflatten of the outputs and assigns *)
Definition finish (m : fmod) (outs : list jv) : nres (list jv * fmod) :=
  let n := List.length outs - List.length (m_assigned m) in
  let assigns := combine (m_assigned m) (skipn n outs) in
  if forallb (fun e => match vget (fst e) (m_vars m) with Some _ => true | None => false end) assigns
  then inl (firstn n outs, mk_fmod (vmerge (m_vars m) assigns) (m_jaxpr m) (m_assigned m))
  else inr NValue.
Definition fcau (has_jaxpr : bool) (m : fmod) (args : list jv) (kw : kwargs) : nres (list jv * fmod) :=
  nb (eval_jaxpr_with_kwargs has_jaxpr kw (m_jaxpr m) (map snd (m_vars m) ++ args)) (finish m).
End kw.
