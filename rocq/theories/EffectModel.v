(** Model of oryx/core/ppl/effect_handler.py, on the jaxprs of JaxModel.v.  Primitives with sub-jaxprs other than call
    and pjit (scan, while, cond) are ordinary primitives here, as they are for the code. *)
From Verif Require Export JaxModel.

Section effects.
  Variable D : Type.
  Variable lit : val -> option D.
  Variable multi : string -> bool.
  Variable bind1 : string -> val -> list D -> result D.
  Variable bindN : string -> val -> list D -> result (list D).
  (** the state threaded through the handlers *)
  Variable St : Type.
  (** a handler takes the state, the parameters and the operands and returns (output, new state); the output is a
      list for primitives with multiple results *)
  Definition handler : Type := St -> val -> list D -> result (rv D * St).
  Definition handlers : Type := list (string * handler).

  (** writing the answer, effect_handler.py:208-211 *)
  Definition write_ans (mult : bool) (env : list (string * D)) (os : list string) (ans : rv D) : result (list (string * D)) :=
    if mult then match ans with Tup l => rb (rmap (@arr D) l) (dwrite env os) | Arr _ => inr TypeErr end
    else match os with [] => inr IndexErr | o :: _ => rb (arr D ans) (fun d => inl (dset env o d)) end.
  (** Environment.read, effect_handler.py:149-155 *)
  Definition eread (env : list (string * D)) (a : atom) : result D :=
    match a with ALit v => opt TypeErr (lit v) | AVar x => opt ValueErr (dget env x) end.
  (** eval_jaxpr_with_state, effect_handler.py:164-212.  A call primitive (default_call_interpreter_rule 215-252) and pjit
      (_pjit_effect_handler_rule 262-302) run the interpreter on their body, with no constants, the state being an additional
      input and output. *)
  Fixpoint eval_jaxpr_with_state (h : handlers) (j : jaxpr) (consts args : list D) (s : St) {struct j} : result (list D * St) :=
    match j with
    | Jaxpr cv iv eqns outs =>
        rb (dwrite [] cv consts) (fun e0 => rb (dwrite e0 iv args) (fun e1 =>
          rb ((fix go (eqns : list eqn) (env : list (string * D)) (s : St) : result (list (string * D) * St) :=
                 match eqns with
                 | [] => inl (env, s)
                 | q :: eqns' =>
                     rb (match q with
                         | EPrim p ps ins os =>
                             rb (rmap (eread env) ins) (fun vs =>
                               rb (match dget h p with
                                   | Some hp => hp s ps vs
                                   | None => if multi p then rb (bindN p ps vs) (fun rs => inl (Tup (map Arr rs), s))
                                             else rb (bind1 p ps vs) (fun r => inl (Arr r, s))
                                   end) (fun as_ => rb (write_ans (multi p) env os (fst as_)) (fun env' => inl (env', snd as_))))
                         | ECall p ps body ins os =>
                             rb (rmap (eread env) ins) (fun vs => rb (eval_jaxpr_with_state h body [] vs s) (fun rs =>
                               rb (dwrite env os (fst rs)) (fun env' => inl (env', snd rs))))
                         | EPjit p ps body cs ins os =>
                             rb (rmap (eread env) ins) (fun vs => rb (eval_jaxpr_with_state h body [] vs s) (fun rs =>
                               rb (dwrite env os (fst rs)) (fun env' => inl (env', snd rs))))
                         end) (fun es => go eqns' (fst es) (snd es))
                 end) eqns e1 s) (fun es => rb (rmap (eread (fst es)) outs) (fun vs => inl (vs, snd es)))))
    end.
  (** make_effect_handler(h)(f)(s, *args), effect_handler.py:305-341; [j], [consts] is f traced on args (the tracer is trusted) *)
  Definition make_effect_handler (h : handlers) (j : jaxpr) (consts : list D) (s : St) (args : list D) : result (list D * St) :=
    eval_jaxpr_with_state h j consts args s.
End effects.
