(** Model of oryx/core/state: variable, assign, init and call_and_update of functions (function.py, module.py), lists and
    tuples of modules (registrations.py), flatten/unflatten (function.py, nn/base.py, nn/combinator.py) and serialize.py.

    A stateful function is the program it traces to, with the init key and the arguments as inputs.  Staging a program
    (trace_util.stage, trace_util.py:57-85) and evaluating the staged jaxpr (eval_jaxpr_with_kwargs without keyword
    arguments, function.py:98-131) run the program (C74_no_keywords; call primitives: see has_jaxpr in KwModel). *)
From Verif Require Export HarvestModel.

Section functions.
  Context {AR : Arrays}.
  (** module.py:34-35 *)
  Definition VARIABLE : string := "variable".
  Definition ASSIGN : string := "assign".
  (** variable, module.py:38-57; assign, module.py:60-81 (the key only adds a data dependency, tie_in) *)
  Definition variable (name : string) (av : aval) : prog tree tree := Sow VARIABLE name Strict av.
  Definition assign (name : string) (av : aval) : prog tree tree := Sow ASSIGN name Clobber av.
  Definition var_reap : settings := mk_settings VARIABLE [] None true.
  Definition var_plant : settings := mk_settings VARIABLE [] None false.
  Definition asg : settings := mk_settings ASSIGN [] None false.

  (** FunctionModule, function.py:156-221 *)
  Record fmodule (A B : Type) := mk_fm { fm_vars : plants; fm_cau : prog (plants * A) (B * plants); fm_name : option string }.
  Arguments mk_fm {A B}. Arguments fm_vars {A B}. Arguments fm_cau {A B}. Arguments fm_name {A B}.
  (** FunctionModule.replace, function.py:172-175 *)
  Definition fm_replace {A B} (m : fmodule A B) (vs : plants) : fmodule A B := mk_fm vs (fm_cau m) (fm_name m).
  (** FunctionModule.call_and_update, function.py:189-194 *)
  Definition fm_call_and_update (fuel : nat) {A B} (m : fmodule A B) (x : A) : res (B * fmodule A B) :=
    rb (run fuel (fm_cau m) (fm_vars m, x)) (fun oa =>
      if forallb (haskey (fm_vars m)) (dkeys (snd oa)) then inl (fst oa, fm_replace m (dmerge (fm_vars m) (snd oa))) else inr ValueErr).
  (** call and update, function.py:177-181, api.py:136-142 *)
  Definition fm_call (fuel : nat) {A B} (m : fmodule A B) (x : A) : res B := rb (fm_call_and_update fuel m x) (fun r => inl (fst r)).
  Definition fm_update (fuel : nat) {A B} (m : fmodule A B) (x : A) : res (fmodule A B) := rb (fm_call_and_update fuel m x) (fun r => inl (snd r)).

  (** function_init, function.py:228-295, for a function with an init_key; [key0] is random.PRNGKey(0).  The variables
      returned are re-sown (282-285), which outside of a harvest is the identity. *)
  Definition cau_program {A B} (key0 : tree) (f : prog (tree * A) B) (vars : plants) : res (prog (plants * A) (B * plants)) :=
    rb (plant var_plant f vars) (fun q =>
      rb (harvest asg (Seq (Pure (fun x : plants * A => inl ((key0, snd x), fst x))) q) []) (fun h =>
        inl (Seq (Pure (fun x => inl (x, []))) h))).
  Definition init_vars (fuel : nat) {A B} (f : prog (tree * A) B) (key : tree) (x : A) : res plants :=
    rb (call_and_reap var_reap f) (fun r => rb (run fuel r (key, x)) (fun bd => inl (snd bd))).
  Definition init (fuel : nat) {A B} (key0 : tree) (f : prog (tree * A) B) (name : option string) (key : tree) (x : A) : res (fmodule A B) :=
    rb (init_vars fuel f key x) (fun vars => rb (cau_program key0 f vars) (fun c => inl (mk_fm vars c name))).
  (** ... and without one: function.py:257-264 *)
  Definition init_stateless {A B} (f : prog A B) (name : option string) : fmodule A B :=
    mk_fm [] (Seq (Pure (fun x : plants * A => inl (snd x, fst x))) (First plants f)) name.

  (** flatten / unflatten, function.py:199-212: [zip] stops at the shorter list *)
  Definition fm_flatten {A B} (m : fmodule A B) : list tree * (list string * prog (plants * A) (B * plants) * option string) :=
    (map snd (fm_vars m), (map fst (fm_vars m), fm_cau m, fm_name m)).
  Definition fm_unflatten {A B} (data : list string * prog (plants * A) (B * plants) * option string) (xs : list tree) : fmodule A B :=
    match data with (ks, c, n) => mk_fm (dmerge [] (combine ks xs)) c n end.
End functions.
Arguments mk_fm {AR A B}. Arguments fm_vars {AR A B}. Arguments fm_cau {AR A B}. Arguments fm_name {AR A B}.

(** ** Lists and tuples: registrations.py, for any kind of module with a call_and_update *)
Section objects.
  (** Python values: anything that is not a tuple, and tuples *)
  Inductive pv (V : Type) := PVal (v : V) | PTuple (l : list (pv V)).
  Arguments PVal {V}. Arguments PTuple {V}.
  Variable V M : Type.
  Variable cau_module : M -> list (pv V) -> res (pv V * M).
  Inductive obj := OMod (m : M) | OList (l : list obj) | OTuple (l : list obj).
  (** args are a tuple in Python: a returned tuple becomes the arguments of the next module, anything else its only argument
      (registrations.py:129-130) *)
  Definition as_args (v : pv V) : list (pv V) := match v with PTuple l => l | _ => [v] end.
  (** api.call_and_update: list_call_and_update, registrations.py:123-132, and tuple_call_and_update, 83-89 *)
  Fixpoint call_and_update (o : obj) (args : list (pv V)) : res (pv V * obj) :=
    match o with
    | OMod m => rb (cau_module m args) (fun r => inl (fst r, OMod (snd r)))
    | OList l =>
        rb ((fix go (l : list obj) (args : pv V) : res (pv V * list obj) :=
               match l with
               | [] => inl (args, [])
               | o :: l' => rb (call_and_update o (as_args args)) (fun r => rb (go l' (fst r)) (fun r' => inl (fst r', snd r :: snd r')))
               end) l (PTuple args)) (fun r => inl (fst r, OList (snd r)))
    | OTuple l =>
        rb ((fix go (l : list obj) : res (list (pv V) * list obj) :=
               match l with
               | [] => inl ([], [])
               | o :: l' => rb (call_and_update o args) (fun r => rb (go l') (fun r' => inl (fst r :: fst r', snd r :: snd r')))
               end) l) (fun r => match l with [] => inr ValueErr | _ => inl (PTuple (fst r), OTuple (snd r)) end)
    end.
End objects.
Arguments PVal {V}. Arguments PTuple {V}. Arguments OMod {M}. Arguments OList {M}. Arguments OTuple {M}.
