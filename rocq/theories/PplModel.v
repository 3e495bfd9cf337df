(** Model of oryx/core/ppl/transformations.py on top of the harvest model.

    A probabilistic program [f] is given by the program it traces to for given positional arguments (a PRNG key is an
    argument like any other).  Keyword arguments and plates are not modelled. *)
From Verif Require Export HarvestModel.

Section ppl.
  Context {AR : Arrays}.
  (** transformations.py:254 *)
  Definition RV : string := "random_variable".
  (** the settings of harvest calls with only a tag *)
  Definition ppl_settings : settings := mk_settings RV [] None false.
  Definition program (B : Type) : Type := list tree -> res (prog unit B).

  (** random_variable on a value, transformations.py:260-284 *)
  Definition rv_value (name : string) (av : aval) : prog tree tree := Sow RV name Strict av.
  (** random_variable on a function, transformations.py:339-362 *)
  Definition rv_function {A} (name : string) (av : aval) (p : prog A tree) : prog A tree := Seq (Nest name p) (rv_value name av).

  (** trace, transformations.py:390-392 *)
  Definition trace {B} (f : program B) : program (B * plants) := fun args => rb (f args) (call_and_reap ppl_settings).
  (** joint_sample, transformations.py:400-402; harvest.reap is call_and_reap without the output (harvest.py:755-785) *)
  Definition joint_sample {B} (f : program B) : program plants := fun args =>
    rb (f args) (fun p => rb (call_and_reap ppl_settings p) (fun r => inl (Seq r (Pure (fun x => inl (snd x)))))).
  (** block, transformations.py:410-419 *)
  Definition block {B} (f : program B) (names : list string) : program B := fun args =>
    rb (f args) (fun p => rb (plant (mk_settings RV names None false) p []) (fun q => inl (Seq (Pure (fun u => inl (u, []))) q))).
  (** intervene, transformations.py:422-467.  [observations] are the keyword arguments of intervene itself: an
      observation called "f" clashes with its parameter f. *)
  Definition intervene {B} (f : program B) (obs : plants) : program B := fun args =>
    if haskey obs "f" then inr TypeErr else
    rb (f args) (fun p => rb (plant ppl_settings p obs) (fun q => inl (Seq (Pure (fun u => inl (u, obs))) q))).
  (** names may be a single string *)
  Definition names_list (names : string + list string) : list string := match names with inl n => [n] | inr l => l end.
  (** conditional, transformations.py:470-515: args[:-n], args[-n:], dict(zip(names, values, strict=True)) *)
  Definition conditional {B} (f : program B) (names : string + list string) : program B := fun args =>
    let ns := names_list names in
    let n := List.length ns in
    if Nat.eqb n 0 then intervene f [] args else
    let k := (List.length args - n)%nat in
    let vals := skipn k args in
    if Nat.eqb (List.length vals) n then intervene f (dmerge [] (combine ns vals)) (firstn k args) else inr ValueErr.
  (** the re-sown latents of graph_replace, transformations.py:549-553 *)
  Fixpoint sow_each (l : meta) : prog plants plants :=
    match l with
    | [] => Pure (fun d => inl d)
    | (n, (m, av)) :: l' =>
        Seq (Pure (fun d : plants => match dget d n with Some v => inl (v, d) | None => inr KeyErr end))
          (Seq (First plants (Sow RV n Strict av)) (Seq (Pure (fun x : tree * plants => inl (snd x))) (sow_each l')))
    end.
  Fixpoint lookups (outs : list string) (d : plants) : res (list tree) :=
    match outs with
    | [] => inl []
    | o :: outs' => match dget d o with Some v => rb (lookups outs' d) (fun vs => inl (v :: vs)) | None => inr KeyErr end
    end.
  (** graph_replace, transformations.py:518-558, for a list of output names (a single name is the list with one element
      whose only entry is returned).  primitive.tie_in returns its second argument. *)
  Definition graph_replace {B} (f : program B) (ins : string + list string) (outs : list string) : program (list tree) := fun args =>
    rb (conditional f ins args) (fun p => rb (reapT ppl_settings p []) (fun r =>
      if forallb (haskey (fst r)) outs then
        inl (Seq (Pure (fun u => inl (u, [] : dict))) (Seq (snd r) (Seq (Pure (fun x : B * dict => inl (final (snd x), final (snd x))))
               (Seq (First plants (sow_each (filter (fun e => negb (mem (fst e) outs)) (fst r)))) (Pure (fun x : plants * plants => lookups outs (snd x)))))))
      else inr KeyErr)).
End ppl.
