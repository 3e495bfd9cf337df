(** Model of harvesting functions with custom derivative rules (jax.custom_jvp), undifferentiated and under jax.jvp:
    HarvestTrace.process_custom_jvp_call (harvest.py:425-428), ReapContext.process_custom_jvp_call (586-613) and
    PlantContext.process_custom_jvp_call (1227-1236).

    What JAX does with a custom_jvp call (jax.custom_derivatives, not part of /repo): evaluation calls the function; a
    JVP trace calls the rule on primals and tangents, in the trace that it was created in, and never the function.
    Simplifications: at least one argument of a custom call carries a tangent (JAX calls the function itself if all of
    them are symbolic zeros); custom calls occur in straight-line code, core calls and nests (under jit, scan, while and
    cond JAX stages them out first); tangents have the type of the primal value (JvpHarvestModel.v).
    custom_vjp (615-645) is the same with [fwd] as the function that JAX calls instead; the sows of [bwd] are dropped
    (reap_wrapper_drop_aux); it is not represented separately. *)
From Verif Require Export GradHarvestModel.
Open Scope string_scope. Open Scope list_scope. Open Scope nat_scope.

Section custom.
  Context {AR : Arrays}.
  Notation plants := (list (string * tree)).
  (** [CD p]: a program without custom rules; [CCustom p r]: a function p with the JVP rule r *)
  Inductive cprog : Type -> Type -> Type :=
  | CD {A B} (p : dprog A B) : cprog A B
  | CSeq {A B C} (p : cprog A B) (q : cprog B C) : cprog A C
  | CFirst {A B} (C : Type) (p : cprog A B) : cprog (A * C) (B * C)
  | CNest {A B} (scope : string) (p : cprog A B) : cprog A B
  | CCall {A B} (p : cprog A B) : cprog A B
  | CCustom {A B} (p : prog A B) (r : prog (A * A) (B * B)) : cprog A B.

  (** the function itself, evaluated.  A custom call that is reaped runs [fun] in a context of its own (reap_eval, 588) and
      sows what was reaped again in the current one (600-610): the treatment of a call (569-584). *)
  Fixpoint undiff {A B} (p : cprog A B) : prog A B :=
    match p in cprog A B return prog A B with
    | CD p => primal p
    | CSeq p q => Seq (undiff p) (undiff q)
    | CFirst C p => First C (undiff p)
    | CNest sc p => Nest sc (undiff p)
    | CCall p => Call (undiff p)
    | CCustom p _ => Call p
    end.
  (** jvp of the function: rules take the place of the functions with rules *)
  Fixpoint jvpC {A B} (p : cprog A B) : prog (A * A) (B * B) :=
    match p in cprog A B return prog (A * A) (B * B) with
    | CD p => jvpT p
    | CSeq p q => Seq (jvpC p) (jvpC q)
    | CFirst C p => Seq (Pure (fun x => inl (across x))) (Seq (First (C * C) (jvpC p)) (Pure (fun x => inl (across x))))
    | CNest sc p => Nest sc (jvpC p)
    | CCall p => Call (jvpC p)
    | CCustom _ r => r
    end.

  (** ** jax.jvp(reap(f)): primal and tangent of a dictionary are a pair of dictionaries *)
  (** the values that a rule sows do not carry tangents of the JVP trace: jvp's results for them are zeros *)
  Definition rezero (ns : list string) (d dd : dict) : dict :=
    map (fun e => (fst e, if mem (fst e) ns then (zeros_like (fst (snd e)), snd (snd e))
                          else match dget dd (fst e) with Some t => t | None => (zeros_like (fst (snd e)), snd (snd e)) end)) d.
  Definition inner_in {A} (x : (A * dict) * (A * dict)) : ((A * dict) * (A * dict)) * (dict * dict) :=
    (((fst (fst x), []), (fst (snd x), [])), (snd (fst x), snd (snd x))).
  Definition inner_out {B} (f : dict -> dict -> dict) (x : ((B * dict) * (B * dict)) * (dict * dict)) : (B * dict) * (B * dict) :=
    ((fst (fst (fst x)), f (snd (fst (fst x))) (fst (snd x))), (fst (snd (fst x)), f (snd (snd (fst x))) (snd (snd x)))).
  (** Reaping a custom call under JVP, 592-598: [_jvp_subtrace(jvp, self)] runs the rule in the *current* context; nothing is
      sown again ([fst] is False, 599, 611-612).  A sow_cond in a rule that meets an earlier value of the same name would
      combine it with a tracer of the JVP trace: TypeErr stands for JAX's complaint. *)
  Definition reap_rule (s : settings) {A B} (r : prog (A * A) (B * B)) (M : meta) : res (meta * prog ((A * dict) * (A * dict)) ((B * dict) * (B * dict))) :=
    rb (reapT s r []) (fun r0 =>
      if existsb (fun e => is_cond (fst (snd e)) && haskey M (fst e))%bool (fst r0) then inr TypeErr else
      rb (reapT s r M) (fun r1 => inl (fst r1,
        Seq (Pure (fun x : (A * dict) * (A * dict) => inl (((fst (fst x), fst (snd x)), snd (fst x)), snd (snd x))))
          (Seq (First dict (snd r1))
            (Pure (fun x : ((B * B) * dict) * dict =>
               inl ((fst (fst (fst x)), snd (fst x)), (snd (fst (fst x)), rezero (dkeys (fst r0)) (snd (fst x)) (snd x))))))))).
  Fixpoint jreapT (s : settings) {A B} (p : cprog A B) : meta -> res (meta * prog ((A * dict) * (A * dict)) ((B * dict) * (B * dict))) :=
    match p in cprog A B return meta -> res (meta * prog ((A * dict) * (A * dict)) ((B * dict) * (B * dict))) with
    | CD p => fun M => rb (reapD s p M) (fun r => inl (fst r, jvpT (snd r)))
    | CSeq p q => fun M => rb (jreapT s p M) (fun r => rb (jreapT s q (fst r)) (fun r' => inl (fst r', Seq (snd r) (snd r'))))
    | @CFirst A B C p => fun M => rb (jreapT s p M) (fun r => inl (fst r,
        Seq (Pure (fun x : ((A * C) * dict) * ((A * C) * dict) =>
               inl (((fst (fst (fst x)), snd (fst x)), (fst (fst (snd x)), snd (snd x))), (snd (fst (fst x)), snd (fst (snd x))))))
          (Seq (First (C * C) (snd r))
            (Pure (fun x : ((B * dict) * (B * dict)) * (C * C) =>
               inl (((fst (fst (fst x)), fst (snd x)), snd (fst (fst x))), ((fst (snd (fst x)), snd (snd x)), snd (snd (fst x)))))))))
    | @CNest A B sc p => fun M =>                                                          (* 558-567 *)
        rb (jreapT s p []) (fun r =>
          rb (match fst r with [] => inl M
              | _ => resow_meta s M [(sc, (Strict, AD (map (fun e => (fst e, snd (snd e))) (fst r))))] end) (fun M' =>
            inl (M', Seq (Pure (fun x => inl (inner_in x)))
                      (Seq (First (dict * dict) (Nest sc (snd r)))
                        (Pure (fun x => inl (inner_out (B := B) (fun i d => match fst r with [] => d
                           | _ => resow s [sc] [(sc, (Dict (map (fun e => (fst e, fst (snd e))) i), None))] d end) x)))))))
    | @CCall A B p => fun M =>                                                             (* 569-584 *)
        rb (jreapT s p []) (fun r => rb (resow_meta s M (fst r)) (fun M' =>
          inl (M', Seq (Pure (fun x => inl (inner_in x)))
                    (Seq (First (dict * dict) (Call (snd r)))
                      (Pure (fun x => inl (inner_out (B := B) (fun i d => resow s (dkeys (fst r)) i d) x)))))))
    | CCustom _ r => fun M => reap_rule s r M
    end.
  (** jax.jvp(call_and_reap(f)), 685-752 *)
  Definition jvp_reapC (s : settings) {A B} (p : cprog A B) : res (prog (A * A) ((B * list (string * tree)) * (B * list (string * tree)))) :=
    rb (jreapT s p []) (fun r => inl (Seq (Pure (fun x => inl ((fst x, [] : dict), (snd x, [] : dict))))
      (Seq (snd r) (Pure (fun x => inl ((fst (fst x), final (snd (fst x))), (fst (snd x), final (snd (snd x))))))))).

  (** ** plant(f) *)
  (** [_subtrace(fun, trace.context)], 1229, runs the function in the *current* context: unlike in a call (1201-1225), the
      names planted so far count, and the names planted in the function count afterwards *)
  Fixpoint plantC (s : settings) {A B} (p : cprog A B) : list (string * skel) -> list string -> res (list string * prog (A * plants) B) :=
    match p in cprog A B return list (string * skel) -> list string -> res (list string * prog (A * plants) B) with
    | CD p => plantT s (primal p)
    | CSeq p q => fun sk dn => rb (plantC s p sk dn) (fun r => rb (plantC s q sk (fst r)) (fun r' =>
        inl (fst r', Seq (Pure (fun x => inl ((fst x, snd x), snd x))) (Seq (First plants (snd r)) (snd r')))))
    | CFirst C p => fun sk dn => rb (plantC s p sk dn) (fun r => inl (fst r, Seq (Pure (fun x => inl (swap x))) (First C (snd r))))
    | @CNest A B sc p => fun sk dn =>
        rb (sub_skel (quiet s (undiff p)) sk sc) (fun sk' => rb (plantC s p sk' []) (fun r =>
          inl (dn, Seq (Pure (fun x : A * plants => inl (fst x, sub_plants sk (snd x) sc))) (Nest sc (snd r)))))
    | CCall p => fun sk dn => rb (plantC s p sk []) (fun r => inl (dn, Call (snd r)))
    | CCustom p _ => fun sk dn => rb (plantT s p sk dn) (fun r => inl (fst r, Call (snd r)))
    end.
  Definition plant_C (s : settings) {A B} (p : cprog A B) (pd : plants) : res (prog (A * plants) B) :=
    rb (plantC s p (skels_of pd) []) (fun r => inl (snd r)).
  (** Not modelled: jax.jvp(plant(f)) of custom calls (1230); the rule runs in the current context too. *)
End custom.
