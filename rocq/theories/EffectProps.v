(** C44: effect handlers. *)
From Verif Require Import Dict JaxProofs.
From Verif Require Export EffectModel.

Section spec.
  Variable D : Type.
  Variable lit : val -> option D.
  Variable multi : string -> bool.
  Variable bind1 : string -> val -> list D -> result D.
  Variable bindN : string -> val -> list D -> result (list D).
  Variable St : Type.
  Notation denv := (list (string * D)).

  (** ** Specification *)
  (** a handled occurrence: primitive, parameters, operands, and the output it was given *)
  Definition call : Type := (string * val * list D * rv D)%type.
  (** the variables [os] get the value [out] *)
  Definition assigns (p : string) (env : denv) (os : list string) (out : rv D) (env' : denv) : Prop :=
    if multi p then exists ds, out = Tup (map Arr ds) /\ dwrite env os ds = inl env' else exists d o, out = Arr d /\ os = [o] /\ env' = dset env o d.
  (** [executes H j consts args log outs]: ordinary execution of the jaxpr, bodies of calls and pjits included, gives
      [outs], where the primitives in [H] get the outputs recorded in [log], which lists their executed occurrences in
      program order *)
  Fixpoint executes (H : list string) (j : jaxpr) (consts args : list D) (log : list call) (outs : list D) {struct j} : Prop :=
    match j with
    | Jaxpr cv iv eqns os =>
        exists e0 e1 e2, dwrite [] cv consts = inl e0 /\ dwrite e0 iv args = inl e1 /\ rmap (read D lit e2) os = inl outs /\
          (fix steps (eqns : list eqn) (env : denv) (log : list call) (env2 : denv) : Prop :=
             match eqns with
             | [] => log = [] /\ env2 = env
             | q :: eqns' => exists l1 l2 env', log = l1 ++ l2 /\ steps eqns' env' l2 env2 /\
                 match q with
                 | EPrim p ps ins os => exists vs, rmap (read D lit env) ins = inl vs /\
                     if mem p H then exists out, l1 = [(p, ps, vs, out)] /\ assigns p env os out env'
                     else l1 = [] /\ if multi p then exists rs, bindN p ps vs = inl rs /\ dwrite env os rs = inl env'
                                     else exists r, bind1 p ps vs = inl r /\ dwrite env os [r] = inl env'
                 | ECall p ps body ins os => exists vs rs, rmap (read D lit env) ins = inl vs /\ executes H body [] vs l1 rs /\ dwrite env os rs = inl env'
                 | EPjit p ps body cs ins os => exists vs cvs rs, rmap (read D lit env) ins = inl vs /\ rmap (fun c => opt TypeErr (lit c)) cs = inl cvs /\
                     executes H body cvs vs l1 rs /\ dwrite env os rs = inl env'
                 end
             end) eqns e1 log e2
    end.
  (** the handlers are called once for each occurrence in the log, the state going from one to the next *)
  Fixpoint threads (h : handlers D St) (s : St) (log : list call) (s' : St) : Prop :=
    match log with
    | [] => s' = s
    | (p, ps, vs, out) :: log' => exists hp s1, dget h p = Some hp /\ hp s ps vs = inl (out, s1) /\ threads h s1 log' s'
    end.
  (** every jaxpr JAX produces: an equation of a primitive with a single result has one output variable *)
  Fixpoint wf_jaxpr (j : jaxpr) : Prop :=
    match j with
    | Jaxpr _ _ eqns _ =>
        (fix go (l : list eqn) : Prop :=
           match l with
           | [] => True
           | q :: l' => match q with EPrim p _ _ os => multi p = false -> List.length os = 1 | ECall _ _ b _ _ | EPjit _ _ b _ _ _ => wf_jaxpr b end /\ go l'
           end) eqns
    end.
End spec.
Arguments call D : assert.

Section proofs.
  Variable D : Type.
  Variable lit : val -> option D.
  Variable multi : string -> bool.
  Variable bind1 : string -> val -> list D -> result D.
  Variable bindN : string -> val -> list D -> result (list D).
  Variable St : Type.
  Notation denv := (list (string * D)).
  Notation run := (run D lit multi bind1 bindN).
  Notation eval := (eval_jaxpr_with_state D lit multi bind1 bindN St).
  Notation executes := (executes D lit multi bind1 bindN).
  Notation threads := (threads D St).
  Notation wf := (wf_jaxpr multi).
  Notation handlers := (handlers D St).

  Definition steps (H : list string) := (fix steps (eqns : list eqn) (env : denv) (log : list (call D)) (env2 : denv) : Prop :=
             match eqns with
             | [] => log = [] /\ env2 = env
             | q :: eqns' => exists l1 l2 env', log = l1 ++ l2 /\ steps eqns' env' l2 env2 /\
                 match q with
                 | EPrim p ps ins os => exists vs, rmap (read D lit env) ins = inl vs /\
                     if mem p H then exists out, l1 = [(p, ps, vs, out)] /\ assigns D multi p env os out env'
                     else l1 = [] /\ if multi p then exists rs, bindN p ps vs = inl rs /\ dwrite env os rs = inl env'
                                     else exists r, bind1 p ps vs = inl r /\ dwrite env os [r] = inl env'
                 | ECall p ps body ins os => exists vs rs, rmap (read D lit env) ins = inl vs /\ executes H body [] vs l1 rs /\ dwrite env os rs = inl env'
                 | EPjit p ps body cs ins os => exists vs cvs rs, rmap (read D lit env) ins = inl vs /\ rmap (fun c => opt TypeErr (lit c)) cs = inl cvs /\
                     executes H body cvs vs l1 rs /\ dwrite env os rs = inl env'
                 end
             end).
  Definition eval_eqns (h : handlers) := (fix go (eqns : list eqn) (env : list (string * D)) (s : St) : result (list (string * D) * St) :=
                 match eqns with
                 | [] => inl (env, s)
                 | q :: eqns' =>
                     rb (match q with
                         | EPrim p ps ins os =>
                             rb (rmap (eread D lit env) ins) (fun vs =>
                               rb (match dget h p with
                                   | Some hp => hp s ps vs
                                   | None => if multi p then rb (bindN p ps vs) (fun rs => inl (Tup (map Arr rs), s))
                                             else rb (bind1 p ps vs) (fun r => inl (Arr r, s))
                                   end) (fun as_ => rb (write_ans D (multi p) env os (fst as_)) (fun env' => inl (env', snd as_))))
                         | ECall p ps body ins os =>
                             rb (rmap (eread D lit env) ins) (fun vs => rb (eval h body [] vs s) (fun rs =>
                               rb (dwrite env os (fst rs)) (fun env' => inl (env', snd rs))))
                         | EPjit p ps body cs ins os =>
                             rb (rmap (eread D lit env) ins) (fun vs => rb (eval h body [] vs s) (fun rs =>
                               rb (dwrite env os (fst rs)) (fun env' => inl (env', snd rs))))
                         end) (fun es => go eqns' (fst es) (snd es))
                 end).
  Lemma eval_eq h cv iv eqns outs consts args s : eval h (Jaxpr cv iv eqns outs) consts args s =
    rb (dwrite [] cv consts) (fun e0 => rb (dwrite e0 iv args) (fun e1 => rb (eval_eqns h eqns e1 s) (fun es => rb (rmap (eread D lit (fst es)) outs) (fun vs => inl (vs, snd es))))).
  Proof. reflexivity. Qed.
  Lemma rb_inl {A B} (x : result A) (f : A -> result B) b : rb x f = inl b -> exists a, x = inl a /\ f a = inl b.
  Proof. destruct x; cbn; [eauto|discriminate]. Qed.
  Lemma eread_inl env ins : forall vs, rmap (eread D lit env) ins = inl vs <-> rmap (read D lit env) ins = inl vs.
  Proof.
    assert (K : forall a v, eread D lit env a = inl v <-> read D lit env a = inl v).
    { intros [w|x] v; cbn; [tauto|]. destruct (dget env x); cbn; [tauto|split; discriminate]. }
    induction ins as [|a ins IH]; intros vs; cbn [rmap]; [tauto|]. split; intros Hv; apply rb_inl in Hv as (y & H1 & Hv); apply rb_inl in Hv as (ys & H2 & Hv); apply K in H1; apply IH in H2; rewrite H1, H2; exact Hv.
  Qed.
  Lemma rmap_Arr l ds : rmap (@arr D) l = inl ds -> l = map Arr ds.
  Proof.
    revert ds. induction l as [|[d|t] l IH]; intros ds E; cbn in E; [injection E as <-; reflexivity| |discriminate].
    apply rb_inl in E as (ys & E & E'). injection E' as <-. cbn. f_equal. auto.
  Qed.
  Lemma write_ans_assigns p env os out env' : (multi p = false -> List.length os = 1) ->
    write_ans D (multi p) env os out = inl env' <-> assigns D multi p env os out env'.
  Proof.
    unfold write_ans, assigns. destruct (multi p); intros Hl.
    - split.
      + destruct out as [d|l]; [discriminate|]. intros E. apply rb_inl in E as (ds & E & Ew). exists ds. split; [f_equal; apply rmap_Arr, E|exact Ew].
      + intros (ds & -> & Ew). rewrite rmap_arr. exact Ew.
    - specialize (Hl eq_refl). destruct os as [|o [|]]; try discriminate. split.
      + destruct out as [d|l]; cbn; [intros E; injection E as <-; eauto|discriminate].
      + intros (d & o' & -> & E & ->). injection E as <-. reflexivity.
  Qed.
  Lemma threads_app h l1 : forall s l2 s', threads h s (l1 ++ l2) s' <-> exists s1, threads h s l1 s1 /\ threads h s1 l2 s'.
  Proof.
    induction l1 as [|[[[p ps] vs] out] l1 IH]; intros s l2 s'; cbn [app EffectProps.threads].
    - split; [eauto|intros (s1 & -> & H); exact H].
    - split.
      + intros (hp & s1 & E & E1 & H). apply IH in H as (s2 & H1 & H2). eauto 8.
      + intros (s2 & (hp & s1 & E & E1 & H1) & H2). exists hp, s1. repeat split; auto. apply IH. eauto.
  Qed.
  Lemma mem_dkeys {X} (l : list (string * X)) n : mem n (dkeys l) = match dget l n with Some _ => true | None => false end.
  Proof. unfold mem, dkeys. induction l as [|[k v] l IH]; [reflexivity|]. cbn. destruct (String.eqb n k); [reflexivity|exact IH]. Qed.
  Lemma dwrite1 (env : denv) os r env' : List.length os = 1 -> dwrite env os [r] = inl env' <-> write_ans D false env os (Arr r) = inl env'.
  Proof. destruct os as [|o [|]]; try discriminate. intros _. cbn. tauto. Qed.

  Definition good (h : handlers) (j : jaxpr) : Prop := wf j -> no_nested_consts j -> forall consts args s outs s',
    eval h j consts args s = inl (outs, s') <-> exists log, executes (dkeys h) j consts args log outs /\ threads h s log s'.
  Lemma eqns_good h eqns : Forall (Peqn (good h)) eqns ->
    (fix go (l : list eqn) : Prop :=
           match l with
           | [] => True
           | q :: l' => match q with EPrim p _ _ os => multi p = false -> List.length os = 1 | ECall _ _ b _ _ | EPjit _ _ b _ _ _ => wf b end /\ go l'
           end) eqns ->
    (fix go (l : list eqn) : Prop :=
         match l with
         | [] => True
         | q :: l' => match q with EPrim _ _ _ _ => True | ECall _ _ b _ _ => no_nested_consts b
                               | EPjit _ _ b cs _ _ => cs = [] /\ no_nested_consts b end /\ go l'
         end) eqns ->
    forall env s env2 s', eval_eqns h eqns env s = inl (env2, s') <-> exists log, steps (dkeys h) eqns env log env2 /\ threads h s log s'.
  Proof.
    induction 1 as [|q eqns Hq Hqs IH]; intros Hwf Hn env s env2 s'.
    - cbn. split.
      + intros E. injection E as <- <-. exists []. split; [split; reflexivity|reflexivity].
      + intros (log & [-> ->] & ->). reflexivity.
    - destruct Hwf as [Hw Hwf], Hn as [Hn0 Hn]. specialize (IH Hwf Hn).
      assert (Hhead : forall env1 s1, match q with
                         | EPrim p ps ins os =>
                             rb (rmap (eread D lit env) ins) (fun vs =>
                               rb (match dget h p with
                                   | Some hp => hp s ps vs
                                   | None => if multi p then rb (bindN p ps vs) (fun rs => inl (Tup (map Arr rs), s))
                                             else rb (bind1 p ps vs) (fun r => inl (Arr r, s))
                                   end) (fun as_ => rb (write_ans D (multi p) env os (fst as_)) (fun env' => inl (env', snd as_))))
                         | ECall p ps body ins os =>
                             rb (rmap (eread D lit env) ins) (fun vs => rb (eval h body [] vs s) (fun rs =>
                               rb (dwrite env os (fst rs)) (fun env' => inl (env', snd rs))))
                         | EPjit p ps body cs ins os =>
                             rb (rmap (eread D lit env) ins) (fun vs => rb (eval h body [] vs s) (fun rs =>
                               rb (dwrite env os (fst rs)) (fun env' => inl (env', snd rs))))
                         end = inl (env1, s1) <->
          exists l1, threads h s l1 s1 /\ match q with
                 | EPrim p ps ins os => exists vs, rmap (read D lit env) ins = inl vs /\
                     if mem p (dkeys h) then exists out, l1 = [(p, ps, vs, out)] /\ assigns D multi p env os out env1
                     else l1 = [] /\ if multi p then exists rs, bindN p ps vs = inl rs /\ dwrite env os rs = inl env1
                                     else exists r, bind1 p ps vs = inl r /\ dwrite env os [r] = inl env1
                 | ECall p ps body ins os => exists vs rs, rmap (read D lit env) ins = inl vs /\ executes (dkeys h) body [] vs l1 rs /\ dwrite env os rs = inl env1
                 | EPjit p ps body cs ins os => exists vs cvs rs, rmap (read D lit env) ins = inl vs /\ rmap (fun c => opt TypeErr (lit c)) cs = inl cvs /\
                     executes (dkeys h) body cvs vs l1 rs /\ dwrite env os rs = inl env1
                 end).
      { intros env1 s1. destruct q as [p ps ins os|p ps body ins os|p ps body cs ins os].
        - split.
          + intros E. apply rb_inl in E as (vs & Ev & E). apply eread_inl in Ev. apply rb_inl in E as ([out s2] & Ea & E). apply rb_inl in E as (e' & Ew & E). injection E as <- <-. cbn [fst snd] in *.
            destruct (dget h p) as [hp|] eqn:Eh.
            * exists [(p, ps, vs, out)]. split; [cbn; eauto 6|]. exists vs. split; [exact Ev|]. rewrite mem_dkeys, Eh. exists out. split; [reflexivity|]. apply write_ans_assigns; assumption.
            * exists []. destruct (multi p) eqn:Em.
              { apply rb_inl in Ea as (rs & Eb & Ea). injection Ea as <- <-. split; [reflexivity|]. exists vs. split; [exact Ev|]. rewrite mem_dkeys, Eh. split; [reflexivity|].
                exists rs. split; [exact Eb|]. cbn [write_ans] in Ew. rewrite rmap_arr in Ew. exact Ew. }
              { apply rb_inl in Ea as (r & Eb & Ea). injection Ea as <- <-. split; [reflexivity|]. exists vs. split; [exact Ev|]. rewrite mem_dkeys, Eh. split; [reflexivity|].
                exists r. split; [exact Eb|]. apply dwrite1; auto. }
          + intros (l1 & Ht & vs & Ev & K). rewrite mem_dkeys in K. rewrite (proj2 (eread_inl _ _ _) Ev). cbn [rb]. destruct (dget h p) as [hp|] eqn:Eh.
            * destruct K as (out & -> & K). cbn in Ht. destruct Ht as (hp' & s2 & Eh' & Ehp & ->). rewrite Eh in Eh'. injection Eh' as <-. rewrite Ehp. cbn [rb fst snd].
              rewrite (proj2 (write_ans_assigns _ _ _ _ _ Hw) K). reflexivity.
            * destruct K as [-> K]. cbn in Ht. subst s1. destruct (multi p) eqn:Em.
              { destruct K as (rs & -> & Ed). cbn [rb fst snd write_ans]. rewrite rmap_arr. cbn [rb]. rewrite Ed. reflexivity. }
              { destruct K as (r & -> & Ed). cbn [rb fst snd]. apply dwrite1 in Ed; [|auto]. rewrite Ed. reflexivity. }
        - cbn in Hq. split.
          + intros E. apply rb_inl in E as (vs & Ev & E). apply eread_inl in Ev. apply rb_inl in E as ([rs s2] & Ea & E). apply rb_inl in E as (e' & Ew & E). injection E as <- <-. cbn [fst snd] in *.
            apply (Hq Hw Hn0) in Ea as (log & H1 & H2). exists log. split; [exact H2|]. eauto.
          + intros (l1 & Ht & vs & rs & Ev & K & Ew). rewrite (proj2 (eread_inl _ _ _) Ev). cbn [rb]. assert (Ea : eval h body [] vs s = inl (rs, s1)) by (apply (Hq Hw Hn0); eauto). rewrite Ea. cbn [rb fst snd]. rewrite Ew. reflexivity.
        - cbn in Hq. destruct Hn0 as [-> Hn0]. split.
          + intros E. apply rb_inl in E as (vs & Ev & E). apply eread_inl in Ev. apply rb_inl in E as ([rs s2] & Ea & E). apply rb_inl in E as (e' & Ew & E). injection E as <- <-. cbn [fst snd] in *.
            apply (Hq Hw Hn0) in Ea as (log & H1 & H2). exists log. split; [exact H2|]. exists vs, [], rs. auto.
          + intros (l1 & Ht & vs & cvs & rs & Ev & Ec & K & Ew). cbn in Ec. injection Ec as <-. rewrite (proj2 (eread_inl _ _ _) Ev). cbn [rb].
            assert (Ea : eval h body [] vs s = inl (rs, s1)) by (apply (Hq Hw Hn0); eauto). rewrite Ea. cbn [rb fst snd]. rewrite Ew. reflexivity. }
      split.
      + intros E. change (eval_eqns h (q :: eqns) env s) with (rb (match q with
                         | EPrim p ps ins os =>
                             rb (rmap (eread D lit env) ins) (fun vs =>
                               rb (match dget h p with
                                   | Some hp => hp s ps vs
                                   | None => if multi p then rb (bindN p ps vs) (fun rs => inl (Tup (map Arr rs), s))
                                             else rb (bind1 p ps vs) (fun r => inl (Arr r, s))
                                   end) (fun as_ => rb (write_ans D (multi p) env os (fst as_)) (fun env' => inl (env', snd as_))))
                         | ECall p ps body ins os =>
                             rb (rmap (eread D lit env) ins) (fun vs => rb (eval h body [] vs s) (fun rs =>
                               rb (dwrite env os (fst rs)) (fun env' => inl (env', snd rs))))
                         | EPjit p ps body cs ins os =>
                             rb (rmap (eread D lit env) ins) (fun vs => rb (eval h body [] vs s) (fun rs =>
                               rb (dwrite env os (fst rs)) (fun env' => inl (env', snd rs))))
                         end) (fun es => eval_eqns h eqns (fst es) (snd es))) in E.
        apply rb_inl in E as ([env1 s1] & E1 & E). cbn [fst snd] in E. apply Hhead in E1 as (l1 & Ht1 & K). apply IH in E as (l2 & H2 & Ht2).
        exists (l1 ++ l2). split; [|apply threads_app; eauto]. exists l1, l2, env1. split; [reflexivity|]. split; [exact H2|exact K].
      + intros (log & (l1 & l2 & env1 & -> & H2 & K) & Ht). apply threads_app in Ht as (s1 & Ht1 & Ht2).
        change (rb (match q with
                         | EPrim p ps ins os =>
                             rb (rmap (eread D lit env) ins) (fun vs =>
                               rb (match dget h p with
                                   | Some hp => hp s ps vs
                                   | None => if multi p then rb (bindN p ps vs) (fun rs => inl (Tup (map Arr rs), s))
                                             else rb (bind1 p ps vs) (fun r => inl (Arr r, s))
                                   end) (fun as_ => rb (write_ans D (multi p) env os (fst as_)) (fun env' => inl (env', snd as_))))
                         | ECall p ps body ins os =>
                             rb (rmap (eread D lit env) ins) (fun vs => rb (eval h body [] vs s) (fun rs =>
                               rb (dwrite env os (fst rs)) (fun env' => inl (env', snd rs))))
                         | EPjit p ps body cs ins os =>
                             rb (rmap (eread D lit env) ins) (fun vs => rb (eval h body [] vs s) (fun rs =>
                               rb (dwrite env os (fst rs)) (fun env' => inl (env', snd rs))))
                         end) (fun es => eval_eqns h eqns (fst es) (snd es)) = inl (env2, s')).
        rewrite (proj2 (Hhead env1 s1)) by eauto. cbn [rb fst snd]. apply IH. eauto.
  Qed.

  (** ** C44 *)
  (** interpreting with handlers is ordinary execution in which each executed occurrence of a handled primitive, in
      program order and nested bodies included, is one call of its handler with the current state *)
  Theorem C44_handlers_partial h j consts args s outs s' : wf j -> no_nested_consts j ->
    (make_effect_handler D lit multi bind1 bindN St h j consts s args = inl (outs, s') <->
     exists log, executes (dkeys h) j consts args log outs /\ threads h s log s').
  Proof.
    unfold make_effect_handler. revert consts args s outs s'. induction j as [cv iv eqns os IH] using jaxpr_ind'. intros consts args s outs s' Hw Hn.
    assert (IH' : Forall (Peqn (good h)) eqns). { eapply Forall_impl; [|exact IH]. intros [ | | ]; cbn; unfold good; intros; auto. }
    rewrite eval_eq. split.
    - intros E. apply rb_inl in E as (e0 & E0 & E). apply rb_inl in E as (e1 & E1 & E). apply rb_inl in E as ([e2 s2] & E2 & E). apply rb_inl in E as (vs & Er & E). injection E as <- <-. cbn [fst snd] in *.
      apply eread_inl in Er. apply (eqns_good h eqns IH' Hw Hn) in E2 as (log & H1 & H2). exists log. split; [|exact H2]. exists e0, e1, e2. auto.
    - intros (log & (e0 & e1 & e2 & E0 & E1 & Er & H1) & H2). rewrite E0. cbn [rb]. rewrite E1. cbn [rb]. rewrite (proj2 (eqns_good h eqns IH' Hw Hn e1 s e2 s')) by eauto. cbn [rb fst snd].
      rewrite (proj2 (eread_inl _ _ _) Er). reflexivity.
  Qed.

  (** what [executes] says when the recorded outputs are those of the primitives themselves: it is JAX's execution *)
  Definition natural (c : call D) : Prop :=
    match c with (p, ps, vs, out) => if multi p then exists rs, bindN p ps vs = inl rs /\ out = Tup (map Arr rs) else exists r, bind1 p ps vs = inl r /\ out = Arr r end.
  Definition nat_ok (H : list string) (j : jaxpr) : Prop := wf j -> forall consts args outs,
    run j consts args = inl outs <-> exists log, executes H j consts args log outs /\ Forall natural log.
  Lemma map_Arr_inj (a b : list D) : map Arr a = map Arr b -> a = b.
  Proof. revert b. induction a as [|x a IH]; intros [|y b] E; try discriminate; [reflexivity|]. cbn in E. injection E as -> E. f_equal. auto. Qed.
  Lemma eqns_natural H eqns : Forall (Peqn (nat_ok H)) eqns ->
    (fix go (l : list eqn) : Prop :=
           match l with
           | [] => True
           | q :: l' => match q with EPrim p _ _ os => multi p = false -> List.length os = 1 | ECall _ _ b _ _ | EPjit _ _ b _ _ _ => wf b end /\ go l'
           end) eqns ->
    forall env env2, run_eqns D lit multi bind1 bindN eqns env = inl env2 <-> exists log, steps H eqns env log env2 /\ Forall natural log.
  Proof.
    induction 1 as [|q eqns Hq Hqs IH]; intros Hwf env env2.
    - cbn. split; [intros E; injection E as <-; exists []; split; [split; reflexivity|constructor]|intros (log & [-> ->] & _); reflexivity].
    - destruct Hwf as [Hw Hwf]. specialize (IH Hwf).
      assert (Hstep : forall env1, (match q with
                         | EPrim p ps ins os =>
                             rb (rmap (read D lit env) ins) (fun vs =>
                               if multi p then rb (bindN p ps vs) (fun rs => dwrite env os rs)
                               else rb (bind1 p ps vs) (fun r => dwrite env os [r]))
                         | ECall p ps body ins os =>
                             rb (rmap (read D lit env) ins) (fun vs => rb (run body [] vs) (fun rs => dwrite env os rs))
                         | EPjit p ps body cs ins os =>
                             rb (rmap (read D lit env) ins) (fun vs =>
                               rb (rmap (fun c => opt TypeErr (lit c)) cs) (fun cvs =>
                                 rb (run body cvs vs) (fun rs => dwrite env os rs)))
                         end) = inl env1 <-> exists l1, Forall natural l1 /\ match q with
                 | EPrim p ps ins os => exists vs, rmap (read D lit env) ins = inl vs /\
                     if mem p H then exists out, l1 = [(p, ps, vs, out)] /\ assigns D multi p env os out env1
                     else l1 = [] /\ if multi p then exists rs, bindN p ps vs = inl rs /\ dwrite env os rs = inl env1
                                     else exists r, bind1 p ps vs = inl r /\ dwrite env os [r] = inl env1
                 | ECall p ps body ins os => exists vs rs, rmap (read D lit env) ins = inl vs /\ executes H body [] vs l1 rs /\ dwrite env os rs = inl env1
                 | EPjit p ps body cs ins os => exists vs cvs rs, rmap (read D lit env) ins = inl vs /\ rmap (fun c => opt TypeErr (lit c)) cs = inl cvs /\
                     executes H body cvs vs l1 rs /\ dwrite env os rs = inl env1
                 end).
      { intros env1. destruct q as [p ps ins os|p ps body ins os|p ps body cs ins os].
        - split.
          + intros E. apply rb_inl in E as (vs & Ev & E). destruct (mem p H) eqn:Em.
            * destruct (multi p) eqn:Ep; apply rb_inl in E as (r & Eb & E).
              { exists [(p, ps, vs, Tup (map Arr r))]. split; [constructor; [|constructor]; cbn; rewrite Ep; eauto|]. exists vs. split; [exact Ev|]. eexists. split; [reflexivity|]. unfold assigns. rewrite Ep. eauto. }
              { exists [(p, ps, vs, Arr r)]. split; [constructor; [|constructor]; cbn; rewrite Ep; eauto|]. exists vs. split; [exact Ev|]. eexists. split; [reflexivity|]. unfold assigns. rewrite Ep.
                specialize (Hw eq_refl). destruct os as [|o [|]]; try discriminate. cbn in E. injection E as <-. eauto 6. }
            * exists []. split; [constructor|]. exists vs. split; [exact Ev|]. split; [reflexivity|]. destruct (multi p); apply rb_inl in E as (r & Eb & E); eauto.
          + intros (l1 & Hnat & vs & Ev & K). rewrite Ev. cbn [rb]. destruct (mem p H) eqn:Em.
            * destruct K as (out & -> & K). inversion_clear Hnat as [|? ? Hc _]. cbn in Hc. unfold assigns in K. destruct (multi p) eqn:Ep.
              { destruct Hc as (rs & -> & ->), K as (ds & Ed & K). injection Ed as Ed. apply map_Arr_inj in Ed as ->. exact K. }
              { destruct Hc as (r & -> & ->), K as (d & o & Ed & -> & ->). injection Ed as ->. reflexivity. }
            * destruct K as [_ K]. destruct (multi p); destruct K as (r & -> & K); exact K.
        - cbn in Hq. split.
          + intros E. apply rb_inl in E as (vs & Ev & E). apply rb_inl in E as (rs & Er & E). apply (Hq Hw) in Er as (log & H1 & H2). eauto 8.
          + intros (l1 & Hnat & vs & rs & Ev & K & Ew). rewrite Ev. cbn [rb]. rewrite (proj2 (Hq Hw [] vs rs)) by eauto. exact Ew.
        - cbn in Hq. split.
          + intros E. apply rb_inl in E as (vs & Ev & E). apply rb_inl in E as (cvs & Ec & E). apply rb_inl in E as (rs & Er & E). apply (Hq Hw) in Er as (log & H1 & H2). eauto 10.
          + intros (l1 & Hnat & vs & cvs & rs & Ev & Ec & K & Ew). rewrite Ev. cbn [rb]. rewrite Ec. cbn [rb]. rewrite (proj2 (Hq Hw cvs vs rs)) by eauto. exact Ew. }
      split.
      + intros E. cbn [run_eqns] in E. apply rb_inl in E as (env1 & E1 & E). apply Hstep in E1 as (l1 & Hn1 & K). apply IH in E as (l2 & H2 & Hn2).
        exists (l1 ++ l2). split; [exists l1, l2, env1; split; [reflexivity|]; split; [exact H2|exact K]|apply Forall_app; auto].
      + intros (log & (l1 & l2 & env1 & -> & H2 & K) & Hn). apply Forall_app in Hn as [Hn1 Hn2]. cbn [run_eqns].
        rewrite (proj2 (Hstep env1)) by eauto. cbn [rb]. apply IH. eauto.
  Qed.
  Theorem C44_spec_is_execution H j consts args outs : wf j ->
    (run j consts args = inl outs <-> exists log, executes H j consts args log outs /\ Forall natural log).
  Proof.
    revert consts args outs. induction j as [cv iv eqns os IH] using jaxpr_ind'. intros consts args outs Hw.
    assert (IH' : Forall (Peqn (nat_ok H)) eqns). { eapply Forall_impl; [|exact IH]. intros [ | | ]; cbn; unfold nat_ok; intros; auto. }
    rewrite run_eq. split.
    - intros E. apply rb_inl in E as (e0 & E0 & E). apply rb_inl in E as (e1 & E1 & E). apply rb_inl in E as (e2 & E2 & E). apply (eqns_natural H eqns IH' Hw) in E2 as (log & H1 & H2).
      exists log. split; [|exact H2]. exists e0, e1, e2. auto.
    - intros (log & (e0 & e1 & e2 & E0 & E1 & Er & H1) & H2). rewrite E0. cbn [rb]. rewrite E1. cbn [rb]. rewrite (proj2 (eqns_natural H eqns IH' Hw e1 e2)) by eauto. exact Er.
  Qed.

  (** no handlers: no effect *)
  Theorem C44_no_handlers_partial j consts args s outs s' : wf j -> no_nested_consts j ->
    (make_effect_handler D lit multi bind1 bindN St [] j consts s args = inl (outs, s') <-> run j consts args = inl outs /\ s' = s).
  Proof.
    intros Hw Hn. rewrite (C44_handlers_partial [] j consts args s outs s' Hw Hn), (C44_spec_is_execution [] j consts args outs Hw). split.
    - intros (log & H1 & H2). destruct log as [|[[[p ps] vs] out] log]; [cbn in H2; eauto|]. cbn in H2. destruct H2 as (? & ? & E & _). discriminate.
    - intros [(log & H1 & H2) ->]. exists log. split; [exact H1|]. cut (log = []); [intros ->; reflexivity|]. destruct log as [|c log]; [reflexivity|]. exfalso. 
      assert (K : forall j consts args log outs, executes [] j consts args log outs -> log = []).
      { clear. induction j as [cv iv eqns os IH] using jaxpr_ind'. intros consts args log outs (e0 & e1 & e2 & _ & _ & _ & H). fold (steps []) in H. clear e0 consts args outs. revert e1 log H.
        induction IH as [|q eqns Hq Hqs IH]; intros env log Hst; [apply Hst|]. destruct Hst as (l1 & l2 & env1 & -> & H2 & K). rewrite (IH _ _ H2), app_nil_r.
        destruct q as [p ps ins os'|p ps body ins os'|p ps body cs ins os'].
        - destruct K as (vs & _ & K). apply K.
        - destruct K as (vs & rs & _ & K & _). eapply Hq, K.
        - destruct K as (vs & cvs & rs & _ & _ & K & _). eapply Hq, K. }
      apply K in H1. discriminate.
  Qed.

  (** handlers that execute the primitive and only update the state: the outputs are those of [f] and the state is
      updated once per executed occurrence, in order *)
  Theorem C44_state_only_partial h (upd : string -> St -> val -> list D -> St) j consts args s outs : wf j -> no_nested_consts j ->
    (forall p hp, dget h p = Some hp -> forall s ps vs, hp s ps vs =
       if multi p then rb (bindN p ps vs) (fun rs => inl (Tup (map Arr rs), upd p s ps vs)) else rb (bind1 p ps vs) (fun r => inl (Arr r, upd p s ps vs))) ->
    run j consts args = inl outs ->
    exists log, executes (dkeys h) j consts args log outs /\
      make_effect_handler D lit multi bind1 bindN St h j consts s args = inl (outs, fold_left (fun s c => match c with (p, ps, vs, _) => upd p s ps vs end) log s).
  Proof.
    intros Hw Hn Hh Hr. apply (C44_spec_is_execution (dkeys h) j consts args outs Hw) in Hr as (log & H1 & H2). exists log. split; [exact H1|].
    apply C44_handlers_partial; [assumption..|]. exists log. split; [exact H1|].
    assert (Hin : Forall (fun c => match c with (p, _, _, _) => mem p (dkeys h) = true end) log).
    { clear H2 Hh Hn Hw. revert consts args log outs H1. induction j as [cv iv eqns os IH] using jaxpr_ind'. intros consts args log outs (e0 & e1 & e2 & _ & _ & _ & H). fold (steps (dkeys h)) in H.
      clear e0 consts args outs. revert e1 log H. induction IH as [|q eqns Hq Hqs IH]; intros env log Hst; [destruct Hst as [-> _]; constructor|]. destruct Hst as (l1 & l2 & env1 & -> & H2 & K). apply Forall_app. split; [|eapply IH, H2].
      destruct q as [p ps ins os'|p ps body ins os'|p ps body cs ins os'].
      - destruct K as (vs & _ & K). destruct (mem p (dkeys h)) eqn:Em; [destruct K as (out & -> & _); constructor; [exact Em|constructor]|destruct K as [-> _]; constructor].
      - destruct K as (vs & rs & _ & K & _). eapply Hq, K.
      - destruct K as (vs & cvs & rs & _ & _ & K & _). eapply Hq, K. }
    clear H1. revert s. induction log as [|[[[p ps] vs] out] log IH]; intros s; [reflexivity|]. inversion_clear H2 as [|? ? Hc Hl]. inversion_clear Hin as [|? ? Hp Hin']. cbn [EffectProps.threads fold_left].
    rewrite mem_dkeys in Hp. destruct (dget h p) as [hp|] eqn:Eh; [|discriminate]. exists hp, (upd p s ps vs). split; [exact Eh|]. split; [|apply IH; assumption].
    rewrite (Hh p hp Eh). cbn in Hc. destruct (multi p); destruct Hc as (r & -> & ->); reflexivity.
  Qed.
End proofs.

(** ** Concrete cases *)
From Verif Require Import JaxProps.
(** the state logs the operands; "mul" is handled by adding instead *)
Definition log_mul : handlers Z (list (list Z)) :=
  [("mul", fun s _ vs => match vs with [a; b] => inl (Arr (a + b)%Z, s ++ [vs]) | _ => inr TypeErr end);
   ("divmod", fun s ps vs => rb (zbindN "divmod" ps vs) (fun rs => inl (Tup (map Arr rs), s ++ [vs])))].
Definition eff_jaxpr : jaxpr :=
  Jaxpr ["c"] ["x"; "y"]
    [EPrim "divmod" np [AVar "x"; AVar "y"] ["q"; "r"];
     EPjit "pjit" np (Jaxpr [] ["x"] [EPrim "mul" np [AVar "x"; ALit (VNum KInt 2)] ["z"]] [AVar "z"; AVar "x"]) [] [AVar "r"] ["x"; "_"];
     ECall "core_call" np (Jaxpr [] ["x"] [EPrim "mul" np [AVar "x"; AVar "x"] ["z"]] [AVar "z"]) [AVar "x"] ["u"];
     EPrim "add" np [AVar "u"; AVar "c"] ["w"]]
    [AVar "w"; AVar "q"; AVar "y"].
Theorem C44_nontrivial : wf_jaxpr zmulti eff_jaxpr /\ no_nested_consts eff_jaxpr /\
  run Z zlit zmulti zbind1 zbindN eff_jaxpr [10]%Z [7; 4]%Z = inl [46; 1; 4]%Z /\
  make_effect_handler Z zlit zmulti zbind1 zbindN (list (list Z)) log_mul eff_jaxpr [10]%Z [] [7; 4]%Z = inl ([20; 1; 4]%Z, [[7; 4]; [3; 2]; [5; 5]]%Z).
Proof. split; [cbn; intuition|]. split; [cbn; tauto|]. split; reflexivity. Qed.

(** the full claim is false: a nested pjit with constants makes the interpreter fail (effect_handler.py:243-281 passes
    no constants to the body) *)
Theorem C44_nested_consts_refuted : exists j args outs, wf_jaxpr zmulti j /\
  run Z zlit zmulti zbind1 zbindN j [] args = inl outs /\
  exists e, make_effect_handler Z zlit zmulti zbind1 zbindN unit [] j [] tt args = inr e.
Proof.
  exists (Jaxpr [] ["x"] [EPjit "pjit" np (Jaxpr ["a"] ["b"] [EPrim "add" np [AVar "a"; AVar "b"] ["c"]] [AVar "c"]) [VNum KInt 5] [AVar "x"] ["y"]] [AVar "y"]), [3%Z], [8%Z].
  split; [cbn; tauto|]. split; [reflexivity|]. eexists. reflexivity.
Qed.
(** and a handler given for a call or pjit primitive is never called: the interpreter always enters the body *)
Section ignored.
  Variables (D : Type) (lit : val -> option D) (multi : string -> bool) (bind1 : string -> val -> list D -> result D) (bindN : string -> val -> list D -> result (list D)) (St : Type).
  Fixpoint prims (j : jaxpr) : list string :=
    match j with
    | Jaxpr _ _ eqns _ =>
        (fix go (l : list eqn) : list string :=
           match l with
           | [] => []
           | q :: l' => match q with EPrim p _ _ _ => [p] | ECall _ _ b _ _ | EPjit _ _ b _ _ _ => prims b end ++ go l'
           end) eqns
    end.
  Lemma eval_handlers_ext h h' j : (forall p, In p (prims j) -> dget h p = dget h' p) -> forall consts args s,
    eval_jaxpr_with_state D lit multi bind1 bindN St h j consts args s = eval_jaxpr_with_state D lit multi bind1 bindN St h' j consts args s.
  Proof.
    induction j as [cv iv eqns os IH] using jaxpr_ind'. intros Hp consts args s. rewrite !eval_eq.
    assert (K : forall env s, eval_eqns D lit multi bind1 bindN St h eqns env s = eval_eqns D lit multi bind1 bindN St h' eqns env s).
    { change (forall p, In p (prims (Jaxpr [] [] eqns [])) -> dget h p = dget h' p) in Hp. clear consts args s cv iv os. induction IH as [|q eqns Hq Hqs IH]; intros env s; [reflexivity|]. cbn in Hp.
      assert (Hp' : forall p, In p (prims (Jaxpr [] [] eqns [])) -> dget h p = dget h' p) by (intros p Hi; apply Hp, in_or_app; right; exact Hi). specialize (IH Hp').
      cbn [eval_eqns]. destruct q as [p ps ins os'|p ps body ins os'|p ps body cs ins os'].
      - rewrite <- (Hp p) by (left; reflexivity).
        match goal with |- rb ?a _ = rb ?a _ => destruct a as [[e1 s1]|er] end; [cbn [rb fst snd]; apply IH|reflexivity].
      - cbn in Hq. destruct (rmap (eread D lit env) ins) as [vs|]; [|reflexivity]. cbn [rb]. rewrite Hq by (intros p0 Hi; apply Hp, in_or_app; left; exact Hi).
        match goal with |- rb ?a _ = rb ?a _ => destruct a as [[e1 s1]|er] end; [cbn [rb fst snd]; apply IH|reflexivity].
      - cbn in Hq. destruct (rmap (eread D lit env) ins) as [vs|]; [|reflexivity]. cbn [rb]. rewrite Hq by (intros p0 Hi; apply Hp, in_or_app; left; exact Hi).
        match goal with |- rb ?a _ = rb ?a _ => destruct a as [[e1 s1]|er] end; [cbn [rb fst snd]; apply IH|reflexivity]. }
    destruct (dwrite [] cv consts); [|reflexivity]. cbn [rb]. destruct (dwrite _ iv args); [|reflexivity]. cbn [rb]. rewrite K. reflexivity.
  Qed.
  Theorem C44_call_handlers_ignored name hp h j consts args s : ~ In name (prims j) ->
    make_effect_handler D lit multi bind1 bindN St ((name, hp) :: h) j consts s args = make_effect_handler D lit multi bind1 bindN St h j consts s args.
  Proof.
    intros Hn. unfold make_effect_handler. apply eval_handlers_ext. intros p Hp. cbn. destruct (String.eqb_spec p name) as [->|]; [contradiction|reflexivity].
  Qed.
End ignored.
Print Assumptions C44_handlers_partial.
Print Assumptions C44_state_only_partial.
Print Assumptions C44_call_handlers_ignored.
