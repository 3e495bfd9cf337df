From Verif Require Import Dict JaxModel RulesProofs.

Section jaxpr_ind.
  Variable P : jaxpr -> Prop.
  Definition Peqn (q : eqn) : Prop :=
    match q with EPrim _ _ _ _ => True | ECall _ _ b _ _ => P b | EPjit _ _ b _ _ _ => P b end.
  Hypothesis H : forall cv iv eqns outs, Forall Peqn eqns -> P (Jaxpr cv iv eqns outs).
  Fixpoint jaxpr_ind' (j : jaxpr) : P j :=
    match j with
    | Jaxpr cv iv eqns outs =>
        H cv iv eqns outs
          ((fix go (l : list eqn) : Forall Peqn l :=
              match l with
              | [] => Forall_nil _
              | q :: l' => Forall_cons q
                  (match q return Peqn q with EPrim _ _ _ _ => I | ECall _ _ b _ _ => jaxpr_ind' b | EPjit _ _ b _ _ _ => jaxpr_ind' b end)
                  (go l')
              end) eqns)
    end.
End jaxpr_ind.

(** no pjit equation, at any depth, carries captured constants *)
Fixpoint no_nested_consts (j : jaxpr) : Prop :=
  match j with
  | Jaxpr _ _ eqns _ =>
      (fix go (l : list eqn) : Prop :=
         match l with
         | [] => True
         | q :: l' => match q with EPrim _ _ _ _ => True | ECall _ _ b _ _ => no_nested_consts b
                               | EPjit _ _ b cs _ _ => cs = [] /\ no_nested_consts b end /\ go l'
         end) eqns
  end.

Section proofs.
  Variable D : Type.
  Variable lit : val -> option D.
  Variable multi : string -> bool.
  Variable bind1 : string -> val -> list D -> result D.
  Variable bindN : string -> val -> list D -> result (list D).
  Notation evaluate := (evaluate D lit multi bind1 bindN).
  Notation run := (run D lit multi bind1 bindN).
  Notation read := (read D lit).
  Notation j2e := (jaxpr_to_expressions multi).
  Notation denv := (list (string * D)).

  Definition evs (env : denv) (l : list val) : result (list (rv D)) := rmap (fun x => evaluate x env) l.
  Lemma evs_eq l : forall env,
    (fix evs (l : list val) (env : denv) : result (list (rv D)) :=
       match l with [] => inl [] | x :: l' => rb (evaluate x env) (fun y => rb (evs l' env) (fun ys => inl (y :: ys))) end) l env
    = evs env l.
  Proof. induction l as [|x l IH]; intros env; simpl; [reflexivity|]. rewrite IH. reflexivity. Qed.
  Definition call_run := (fix call (l : list val) (acc : list (rv D)) (ns : list string) (env : denv) : result (rv D) :=
                  match l with
                  | [] => inr TypeErr
                  | [body] => rb (rmap (@arr D) acc) (fun args => rb (dwrite [] ns args) (fun sub => evaluate body sub))
                  | x :: l' => rb (evaluate x env) (fun y => call l' (acc ++ [y]) ns env)
                  end).

  Lemma eval_tuple l env : evaluate (VSeq KTuple l) env = rb (evs env l) (fun vs => inl (Tup vs)).
  Proof. rewrite <- evs_eq. reflexivity. Qed.
  Lemma eval_prim n ps ops env : evaluate (VNode "Primitive" [n; ps] ops) env =
    rb (opt TypeErr (of_str n)) (fun p => rb (evs env ops) (fun vs => rb (rmap (@arr D) vs) (fun ds =>
      if multi p then rb (bindN p ps ds) (fun rs => inl (Tup (map Arr rs))) else rb (bind1 p ps ds) (fun r => inl (Arr r))))).
  Proof. unfold rb at 2. rewrite <- evs_eq. reflexivity. Qed.
  Lemma eval_bound ns cs es env : evaluate (VNode "BoundExpression" [VDict ns cs] es) env =
    rb (rmap (fun v => opt TypeErr (lit v)) cs) (fun ds => rb (dwrite [] ns ds) (fun cenv =>
              rb (evs (dmerge cenv env) es) (fun vs => inl (Tup vs)))).
  Proof. cbn [JaxModel.evaluate]. simpl String.eqb. cbv iota.
    destruct (rmap _ cs); simpl; [|reflexivity]. destruct (dwrite [] ns l); simpl; [|reflexivity].
    rewrite evs_eq. reflexivity. Qed.
  Lemma eval_call a b ns kids env : evaluate (VNode "CallPrimitive" [a; b; VSeq KTuple ns] kids) env =
    rb (rmap (fun n => opt TypeErr (of_str n)) ns) (fun names => call_run kids [] names env).
  Proof. reflexivity. Qed.

  Lemma of_str_of x : of_str (str_of x) = Some x.
  Proof. unfold of_str, str_of. rewrite string_of_list_ascii_of_string. reflexivity. Qed.
  Lemma rmap_of_str ns : rmap (fun n => opt TypeErr (of_str n)) (map str_of ns) = inl ns.
  Proof. induction ns as [|n ns IH]; [reflexivity|]. cbn [map rmap]. rewrite of_str_of. cbn [opt rb]. rewrite IH. reflexivity. Qed.
  Lemma rmap_arr ds : rmap (@arr D) (map Arr ds) = inl ds.
  Proof. induction ds as [|d ds IH]; [reflexivity|]. simpl. rewrite IH. reflexivity. Qed.

  (** *** C17: evaluation refinement is compositional *)
  Definition refines (e e' : val) : Prop := forall env v, evaluate e env = inl v -> evaluate e' env = inl v.
  Lemma evs_refines l l' : Forall2 refines l l' -> forall env vs, evs env l = inl vs -> evs env l' = inl vs.
  Proof.
    induction 1 as [|x y l l' Hxy HF IH]; intros env vs Hv; [assumption|]. unfold evs in *. simpl in *.
    destruct (evaluate x env) as [a|] eqn:Ha; [|discriminate]. rewrite (Hxy _ _ Ha). simpl in *.
    destruct (rmap _ l) as [b|] eqn:Hb; [|discriminate]. rewrite (IH _ _ Hb). assumption.
  Qed.
  Lemma call_refines l l' : Forall2 refines l l' -> forall acc ns env v, call_run l acc ns env = inl v -> call_run l' acc ns env = inl v.
  Proof.
    induction 1 as [|x y l l' Hxy HF IH]; intros acc ns env v Hv; [assumption|].
    destruct HF as [|x2 y2 l l' Hxy2 HF].
    - simpl in *. destruct (rmap _ acc); simpl in *; [|discriminate]. destruct (dwrite [] ns l); simpl in *; [|discriminate]. apply Hxy, Hv.
    - change (rb (evaluate x env) (fun r => call_run (x2 :: l) (acc ++ [r]) ns env) = inl v) in Hv.
      change (rb (evaluate y env) (fun r => call_run (y2 :: l') (acc ++ [r]) ns env) = inl v).
      destruct (evaluate x env) as [a|] eqn:Ha; [|discriminate]. rewrite (Hxy _ _ Ha). cbn [rb] in *. apply IH, Hv.
  Qed.
  Lemma refines_compositional : compositional refines.
  Proof.
    split; [|split].
    - intros v env x Hx. assumption.
    - intros a b c Hab Hbc env v Hv. apply Hbc, Hab, Hv.
    - intros v l HF. destruct v as [k z|s|[] es|ks vs|c hdr ks]; simpl in HF; intros env w Hw; try assumption.
      + simpl with_kids. rewrite eval_tuple in *. destruct (evs env es) as [xs|] eqn:Hx; [|discriminate].
        rewrite (evs_refines _ _ HF _ _ Hx). assumption.
      + simpl with_kids. cbn [JaxModel.evaluate] in *. rewrite !evs_eq in *. fold call_run in *.
        destruct (String.eqb c "Literal").
        { destruct hdr as [|? []]; try discriminate. destruct ks; try discriminate. inversion HF; subst. assumption. }
        destruct (String.eqb c "JaxVar").
        { destruct hdr as [|? []]; try discriminate. destruct ks; try discriminate. inversion HF; subst. assumption. }
        destruct (String.eqb c "Primitive").
        { destruct hdr as [|? [|? []]]; try discriminate. destruct (of_str v) as [p|]; simpl in *; [|discriminate]. try rewrite !evs_eq in *.
          destruct (evs env ks) as [xs|] eqn:Hx; [|discriminate]. rewrite (evs_refines _ _ HF _ _ Hx). assumption. }
        destruct (String.eqb c "Part").
        { destruct hdr as [|[] []]; try discriminate. destruct ks as [|x []]; try discriminate.
          inversion HF as [|? y ? ? Hxy HF']; subst. inversion HF'; subst.
          destruct (evaluate x env) as [a|] eqn:Ha; [|discriminate]. rewrite (Hxy _ _ Ha). assumption. }
        destruct (String.eqb c "BoundExpression").
        { destruct hdr as [|[] []]; try discriminate. destruct (rmap _ vs); simpl in *; [|discriminate].
          destruct (dwrite [] ks0 l0); simpl in *; [|discriminate]. try rewrite !evs_eq in *.
          destruct (evs _ ks) as [xs|] eqn:Hx; [|discriminate]. rewrite (evs_refines _ _ HF _ _ Hx). assumption. }
        destruct (String.eqb c "CallPrimitive"); [|discriminate].
        destruct hdr as [|? [|? [|[| |[]| |] []]]]; try discriminate.
        destruct (rmap _ l0); simpl in *; [|discriminate]. eapply call_refines; eassumption.
  Qed.

  (** *** C16 *)
  Definition run_eqns := (fix go (eqns : list eqn) (env : list (string * D)) : result (list (string * D)) :=
                 match eqns with
                 | [] => inl env
                 | q :: eqns' =>
                     rb (match q with
                         | EPrim p ps ins os =>
                             rb (rmap (read env) ins) (fun vs =>
                               if multi p then rb (bindN p ps vs) (fun rs => dwrite env os rs)
                               else rb (bind1 p ps vs) (fun r => dwrite env os [r]))
                         | ECall p ps body ins os =>
                             rb (rmap (read env) ins) (fun vs => rb (run body [] vs) (fun rs => dwrite env os rs))
                         | EPjit p ps body cs ins os =>
                             rb (rmap (read env) ins) (fun vs =>
                               rb (rmap (fun c => opt TypeErr (lit c)) cs) (fun cvs =>
                                 rb (run body cvs vs) (fun rs => dwrite env os rs)))
                         end) (go eqns')
                 end).
  Lemma run_eq cv iv eqns outs consts args : run (Jaxpr cv iv eqns outs) consts args =
    rb (dwrite [] cv consts) (fun e0 => rb (dwrite e0 iv args) (fun e1 => rb (run_eqns eqns e1) (fun e2 => rmap (read e2) outs))).
  Proof. reflexivity. Qed.
  Definition j2e_eqns := (fix go (eqns : list eqn) (env : list (string * val)) : result (list (string * val)) :=
               match eqns with
               | [] => inl env
               | q :: eqns' =>
                   rb (match q with
                       | EPrim p ps ins os =>
                           rb (rmap (read_env env) ins) (fun ops => bind_outs (multi p) env os (Primitive p ps ops))
                       | ECall p ps body ins os =>
                           rb (rmap (read_env env) ins) (fun ops => rb (j2e body) (fun es =>
                             match body with Jaxpr _ biv _ _ => bind_outs true env os (CallPrimitive p ps ops (BoundExpression es [] []) biv) end))
                       | EPjit p ps body cs ins os =>
                           rb (rmap (read_env env) ins) (fun ops => rb (j2e body) (fun es =>
                             match body with Jaxpr _ biv _ _ => bind_outs true env os (CallPrimitive p ps ops (BoundExpression es [] []) biv) end))
                       end) (go eqns')
               end).
  Definition j2e_step (q : eqn) (E : list (string * val)) : result (list (string * val)) :=
    match q with
                       | EPrim p ps ins os =>
                           rb (rmap (read_env E) ins) (fun ops => bind_outs (multi p) E os (Primitive p ps ops))
                       | ECall p ps body ins os =>
                           rb (rmap (read_env E) ins) (fun ops => rb (j2e body) (fun es =>
                             match body with Jaxpr _ biv _ _ => bind_outs true E os (CallPrimitive p ps ops (BoundExpression es [] []) biv) end))
                       | EPjit p ps body cs ins os =>
                           rb (rmap (read_env E) ins) (fun ops => rb (j2e body) (fun es =>
                             match body with Jaxpr _ biv _ _ => bind_outs true E os (CallPrimitive p ps ops (BoundExpression es [] []) biv) end))
                       end.
  Lemma j2e_cons q eqns E : j2e_eqns (q :: eqns) E = rb (j2e_step q E) (j2e_eqns eqns).
  Proof. reflexivity. Qed.
  Lemma j2e_eq cv iv eqns outs : j2e (Jaxpr cv iv eqns outs) =
    rb (j2e_eqns eqns (dmerge (dmerge [] (map (fun x => (x, JaxVar x)) cv)) (map (fun x => (x, JaxVar x)) iv)))
       (fun env => rmap (read_env env) outs).
  Proof. reflexivity. Qed.

  Definition sim (benv : denv) (E : list (string * val)) (V : denv) : Prop :=
    forall x d, dget V x = Some d -> exists e, dget E x = Some e /\ evaluate e benv = inl (Arr d).
  Lemma sim_dset benv E V x e d : sim benv E V -> evaluate e benv = inl (Arr d) -> sim benv (dset E x e) (dset V x d).
  Proof.
    intros HS He y d' Hy. rewrite dget_dset in Hy. rewrite dget_dset. destruct (String.eqb y x).
    - injection Hy as <-. eauto.
    - apply HS, Hy.
  Qed.
  Lemma sim_dmerge benv lE lV :
    Forall2 (fun (kv : string * val) (kd : string * D) => fst kv = fst kd /\ evaluate (snd kv) benv = inl (Arr (snd kd))) lE lV ->
    forall E V, sim benv E V -> sim benv (dmerge E lE) (dmerge V lV).
  Proof.
    induction 1 as [|[k e] [k' d] lE lV [Hk He] HF IH]; intros E V HS; [assumption|]. simpl in *. subst k'.
    apply IH. apply sim_dset; assumption.
  Qed.
  Lemma read_sim benv E V : sim benv E V -> forall ins vs, rmap (read V) ins = inl vs ->
    exists ops, rmap (read_env E) ins = inl ops /\ evs benv ops = inl (map Arr vs).
  Proof.
    intros HS ins. induction ins as [|a ins IH]; intros vs Hv; simpl in Hv.
    - injection Hv as <-. exists []. split; reflexivity.
    - destruct (read V a) as [d|] eqn:Hd; [|discriminate]. simpl in Hv.
      destruct (rmap (read V) ins) as [ds|] eqn:Hds; [|discriminate]. injection Hv as <-.
      destruct (IH _ eq_refl) as (ops & Ho & Hev).
      assert (Ha : exists e, read_env E a = inl e /\ evaluate e benv = inl (Arr d)).
      { destruct a as [v|x]; simpl in *.
        - exists (Literal v). split; [reflexivity|]. simpl. destruct (lit v); simpl in *; [|discriminate]. injection Hd as <-. reflexivity.
        - destruct (dget V x) as [d'|] eqn:Hx; [|discriminate]. injection Hd as <-. destruct (HS _ _ Hx) as (e & He & Hee).
          exists e. rewrite He. split; [reflexivity|assumption]. }
      destruct Ha as (e & He & Hee). exists (e :: ops). simpl. rewrite He. simpl. rewrite Ho. split; [reflexivity|].
      unfold evs in *. simpl. rewrite Hee. simpl. rewrite Hev. reflexivity.
  Qed.
  Lemma zip_strict_combine {A B} (l : list A) (m : list B) kv : zip_strict l m = Some kv -> kv = combine l m /\ List.length l = List.length m.
  Proof.
    revert m kv. induction l as [|x l IH]; intros [|y m] kv H; simpl in H; try discriminate.
    - injection H as <-. auto.
    - destruct (zip_strict l m) as [kv'|] eqn:E; [|discriminate]. injection H as <-. destruct (IH _ _ E) as [-> Hl].
      simpl. auto.
  Qed.
  Lemma dwrite_inl {A} (env : list (string * A)) xs vs env' : dwrite env xs vs = inl env' ->
    env' = dmerge env (combine xs vs) /\ List.length xs = List.length vs.
  Proof.
    unfold dwrite. destruct (zip_strict xs vs) eqn:E; [|discriminate]. injection 1 as <-.
    apply zip_strict_combine in E as [-> Hl]. auto.
  Qed.
  Lemma zip_strict_some {A B} (l : list A) : forall (m : list B), List.length l = List.length m -> zip_strict l m = Some (combine l m).
  Proof. induction l as [|x l IH]; intros [|y m] H; simpl in *; try discriminate; auto. rewrite IH by congruence. reflexivity. Qed.

  Lemma eval_part out i benv l d : evaluate out benv = inl (Tup l) -> nth_error l i = Some (Arr d) ->
    evaluate (Part out i) benv = inl (Arr d).
  Proof. intros Ho Hn. unfold Part. cbn [JaxModel.evaluate]. simpl String.eqb. cbv iota. rewrite Ho. simpl. rewrite Nat2Z.id, Hn. reflexivity. Qed.

  Lemma parts_sim benv out rs : evaluate out benv = inl (Tup (map Arr rs)) ->
    forall os suf i, List.length os = List.length suf -> (forall j, nth_error rs (i + j) = nth_error suf j) ->
    Forall2 (fun (kv : string * val) (kd : string * D) => fst kv = fst kd /\ evaluate (snd kv) benv = inl (Arr (snd kd)))
      (combine os (map (Part out) (seq i (List.length os)))) (combine os suf).
  Proof.
    intros Ho os. induction os as [|o os IH]; intros [|r suf] i Hl Hn; simpl in *; try discriminate; constructor.
    - simpl. split; [reflexivity|]. apply eval_part with (map Arr rs); [assumption|].
      rewrite nth_error_map. specialize (Hn 0). rewrite Nat.add_0_r in Hn. rewrite Hn. reflexivity.
    - apply IH; [congruence|]. intros j. specialize (Hn (S j)). rewrite <- Nat.add_succ_comm in Hn. exact Hn.
  Qed.
  Lemma multi_sim benv E V V' out rs os : sim benv E V -> evaluate out benv = inl (Tup (map Arr rs)) ->
    dwrite V os rs = inl V' -> exists E', bind_outs true E os out = inl E' /\ sim benv E' V'.
  Proof.
    intros HS Ho Hw. apply dwrite_inl in Hw as [-> Hl]. eexists. split; [reflexivity|].
    apply sim_dmerge; [|assumption]. apply (parts_sim benv out rs Ho os rs 0 Hl). reflexivity.
  Qed.

  Lemma call_run_spec benv ops : forall vs acc ns body, evs benv ops = inl (map Arr vs) ->
    call_run (ops ++ [body]) (map Arr acc) ns benv = rb (dwrite [] ns (acc ++ vs)) (fun sub => evaluate body sub).
  Proof.
    induction ops as [|o ops IH]; intros vs acc ns body Hv; unfold evs in Hv; simpl in Hv.
    - destruct vs; [|discriminate]. simpl. rewrite rmap_arr, app_nil_r. reflexivity.
    - destruct (evaluate o benv) as [y|] eqn:Ho; [|discriminate]. simpl in Hv.
      destruct (rmap _ ops) as [ys|] eqn:Hys; [|discriminate]. injection Hv as Hv. destruct vs as [|v vs]; [discriminate|].
      simpl in Hv. injection Hv as -> ->.
      assert (Hstep : call_run ((o :: ops) ++ [body]) (map Arr acc) ns benv =
                      rb (evaluate o benv) (fun y => call_run (ops ++ [body]) (map Arr acc ++ [y]) ns benv)).
      { simpl app. destruct (ops ++ [body]) eqn:E; [destruct ops; discriminate|]. reflexivity. }
      rewrite Hstep, Ho. simpl. change [Arr v] with (map (@Arr D) [v]). rewrite <- map_app.
      rewrite (IH vs (acc ++ [v]) ns body Hys). rewrite <- app_assoc. reflexivity.
  Qed.

  Definition correct (j : jaxpr) : Prop := no_nested_consts j ->
    match j with
    | Jaxpr cv iv eqns outs =>
        forall consts args e0 e1 res, dwrite [] cv consts = inl e0 -> dwrite e0 iv args = inl e1 -> run j consts args = inl res ->
        forall benv, (forall x d, dget e1 x = Some d -> dget benv x = Some d) ->
        exists es, j2e j = inl es /\ evs benv es = inl (map Arr res)
    end.

  Lemma body_call benv p ps ops vs body cs rs :
    correct body -> no_nested_consts body -> cs = [] -> evs benv ops = inl (map Arr vs) -> run body cs vs = inl rs ->
    exists es, j2e body = inl es /\
      match body with Jaxpr _ biv _ _ => evaluate (CallPrimitive p ps ops (BoundExpression es [] []) biv) benv = inl (Tup (map Arr rs)) end.
  Proof.
    intros Hc Hn -> Hops Hrun. specialize (Hc Hn). destruct body as [cv iv eqns outs].
    assert (Hrun' := Hrun). rewrite run_eq in Hrun'.
    destruct (dwrite [] cv []) as [e0|] eqn:H0; [|discriminate]. simpl in Hrun'.
    destruct (dwrite e0 iv vs) as [e1|] eqn:H1; [|discriminate].
    assert (He0 : e0 = []). { unfold dwrite in H0. destruct cv; simpl in H0; [injection H0 as <-; reflexivity|discriminate]. }
    subst e0. destruct (Hc [] vs [] e1 rs H0 H1 Hrun (dmerge [] e1)) as (es & Hes & Hev).
    { intros x d Hx. apply dwrite_inl in H1 as [-> _]. rewrite dget_dmerge_dict. assumption. }
    exists es. split; [assumption|]. unfold CallPrimitive. rewrite eval_call, rmap_of_str. cbn [rb].
    rewrite (call_run_spec benv ops vs [] iv _ Hops). simpl app. rewrite H1. cbn [rb].
    unfold BoundExpression. rewrite eval_bound. cbn [rmap rb dwrite zip_strict dmerge fold_left]. change (dmerge [] []) with (@nil (string * D)). rewrite Hev. reflexivity.
  Qed.

  Lemma eqns_sim benv eqns : Forall (Peqn correct) eqns ->
    (fix go (l : list eqn) : Prop :=
         match l with
         | [] => True
         | q :: l' => match q with EPrim _ _ _ _ => True | ECall _ _ b _ _ => no_nested_consts b
                               | EPjit _ _ b cs _ _ => cs = [] /\ no_nested_consts b end /\ go l'
         end) eqns ->
    forall E V V', sim benv E V -> run_eqns eqns V = inl V' -> exists E', j2e_eqns eqns E = inl E' /\ sim benv E' V'.
  Proof.
    induction 1 as [|q eqns Hq Hqs IH]; intros Hn E V V' HS Hr.
    - simpl in *. injection Hr as <-. eauto.
    - destruct Hn as [Hnq Hn]. simpl in Hr.
      match type of Hr with rb ?X _ = _ => destruct X as [V1|] eqn:H1; [|discriminate] end. simpl in Hr.
      assert (Hq' : exists E1, j2e_step q E = inl E1 /\ sim benv E1 V1).
      { unfold j2e_step. destruct q as [p ps ins os|p ps body ins os|p ps body cs ins os].
        - destruct (rmap (read V) ins) as [vs|] eqn:Hvs; [|discriminate]. simpl in H1.
          destruct (read_sim benv E V HS ins vs Hvs) as (ops & Ho & Hev). rewrite Ho. cbn [rb].
          assert (Hev' : evaluate (Primitive p ps ops) benv = if multi p then rb (bindN p ps vs) (fun rs => inl (Tup (map Arr rs))) else rb (bind1 p ps vs) (fun r => inl (Arr r))).
          { unfold Primitive. rewrite eval_prim, of_str_of. cbn [rb]. rewrite Hev. cbn [rb]. rewrite rmap_arr. reflexivity. }
          destruct (multi p).
          + destruct (bindN p ps vs) as [rs|]; [|discriminate]. simpl in *. eapply multi_sim; eassumption.
          + destruct (bind1 p ps vs) as [r|]; [|discriminate]. simpl in *. apply dwrite_inl in H1 as [-> Hl].
            destruct os as [|o [|]]; try discriminate. eexists. split; [reflexivity|]. simpl. apply sim_dset; assumption.
        - destruct (rmap (read V) ins) as [vs|] eqn:Hvs; [|discriminate]. simpl in H1.
          destruct (read_sim benv E V HS ins vs Hvs) as (ops & Ho & Hev). rewrite Ho. cbn [rb].
          destruct (run body [] vs) as [rs|] eqn:Hrun; [|discriminate]. simpl in H1.
          destruct (body_call benv p ps ops vs body [] rs Hq Hnq eq_refl Hev Hrun) as (es & Hes & Hcall). rewrite Hes. cbn [rb].
          destruct body. eapply multi_sim; eassumption.
        - destruct Hnq as [-> Hnq]. destruct (rmap (read V) ins) as [vs|] eqn:Hvs; [|discriminate]. simpl in H1.
          destruct (read_sim benv E V HS ins vs Hvs) as (ops & Ho & Hev). rewrite Ho. cbn [rb].
          destruct (run body [] vs) as [rs|] eqn:Hrun; [|discriminate]. simpl in H1.
          destruct (body_call benv p ps ops vs body [] rs Hq Hnq eq_refl Hev Hrun) as (es & Hes & Hcall). rewrite Hes. cbn [rb].
          destruct body. eapply multi_sim; eassumption. }
      destruct Hq' as (E1 & HE1 & HS1). destruct (IH Hn E1 V1 V' HS1 Hr) as (E' & HE' & HS').
      exists E'. split; [|assumption]. rewrite j2e_cons, HE1. exact HE'.
  Qed.
  Lemma dget_vars xs : forall (E : list (string * val)) x, dget (dmerge E (map (fun x => (x, JaxVar x)) xs)) x = if mem x xs then Some (JaxVar x) else dget E x.
  Proof.
    induction xs as [|y xs IH]; intros E x; simpl; [reflexivity|]. change (dmerge E ((y, JaxVar y) :: ?l)) with (dmerge (dset E y (JaxVar y)) l).
    rewrite IH. rewrite dget_dset. unfold mem at 2. simpl. fold (mem x xs). destruct (mem x xs); [now rewrite orb_true_r|].
    destruct (String.eqb_spec x y) as [e|n]; simpl; [now subst|reflexivity].
  Qed.
  Lemma dget_dmerge_in {A} (E : list (string * A)) xs vs x d : List.length xs = List.length vs ->
    dget (dmerge E (combine xs vs)) x = Some d -> mem x xs = true \/ dget E x = Some d.
  Proof.
    revert E vs. induction xs as [|y xs IH]; intros E [|v vs] Hl H; simpl in *; try discriminate; auto.
    change (dmerge E ((y, v) :: combine xs vs)) with (dmerge (dset E y v) (combine xs vs)) in H.
    injection Hl as Hl. destruct (IH _ _ Hl H) as [Hm|Hd].
    - left. unfold mem in *. simpl. rewrite Hm. apply orb_true_r.
    - rewrite dget_dset in Hd. unfold mem. simpl. destruct (String.eqb x y); [auto|]. simpl. auto.
  Qed.
  Lemma all_correct j : correct j.
  Proof.
    induction j as [cv iv eqns outs IH] using jaxpr_ind'. intros Hn consts args e0 e1 res H0 H1 Hrun benv Hb.
    rewrite run_eq, H0 in Hrun. cbn [rb] in Hrun. rewrite H1 in Hrun. cbn [rb] in Hrun.
    destruct (run_eqns eqns e1) as [e2|] eqn:H2; [|discriminate]. cbn [rb] in Hrun.
    rewrite j2e_eq.
    destruct (eqns_sim benv eqns IH Hn (dmerge (dmerge [] (map (fun x => (x, JaxVar x)) cv)) (map (fun x => (x, JaxVar x)) iv)) e1 e2) as (E' & HE' & HS'); [|assumption|].
    - intros x d Hx. rewrite !dget_vars. 
      assert (Hm : mem x iv = true \/ mem x cv = true).
      { apply dwrite_inl in H0 as [-> Hl0]. apply dwrite_inl in H1 as [-> Hl1].
        destruct (dget_dmerge_in _ _ _ _ _ Hl1 Hx) as [Hm|Hm]; [auto|].
        destruct (dget_dmerge_in _ _ _ _ _ Hl0 Hm) as [Hm'|Hm']; [auto|discriminate]. }
      assert (He : evaluate (JaxVar x) benv = inl (Arr d)).
      { unfold JaxVar. cbn [JaxModel.evaluate]. simpl String.eqb. cbv iota. rewrite of_str_of. cbn [opt rb]. rewrite (Hb x d Hx). reflexivity. }
      exists (JaxVar x). split; [|assumption]. destruct (mem x iv); [reflexivity|]. destruct (mem x cv); [reflexivity|]. destruct Hm; discriminate.
    - rewrite HE'. cbn [rb]. apply read_sim with e2; assumption.
  Qed.

  Lemma rewrite_identity j consts cds args res : no_nested_consts j ->
    rmap (fun c => opt TypeErr (lit c)) consts = inl cds -> run j cds args = inl res ->
    rewrite D lit multi bind1 bindN j consts (fun e => inl e) args = inl (Tup (map Arr res)).
  Proof.
    intros Hn Hc Hrun. destruct j as [cv iv eqns outs]. assert (Hr := Hrun). rewrite run_eq in Hr.
    destruct (dwrite [] cv cds) as [e0|] eqn:H0; [|discriminate]. cbn [rb] in Hr.
    destruct (dwrite e0 iv args) as [e1|] eqn:H1; [|discriminate].
    assert (Hsub : exists sub, dwrite [] iv args = inl sub /\ forall x, dget (dmerge e0 sub) x = dget e1 x).
    { apply dwrite_inl in H1 as [-> Hl]. exists (dmerge [] (combine iv args)). split.
      - unfold dwrite. rewrite zip_strict_some by assumption. reflexivity.
      - intros x. apply dget_dmerge_dict. }
    destruct Hsub as (sub & Hsub & Hget).
    destruct (all_correct _ Hn cds args e0 e1 res H0 H1 Hrun (dmerge e0 sub)) as (es & Hes & Hev).
    { intros x d Hx. rewrite Hget. assumption. }
    unfold rewrite. rewrite Hes. cbn [rb]. rewrite Hsub. cbn [rb]. unfold BoundExpression. rewrite eval_bound, Hc. cbn [rb].
    rewrite H0. cbn [rb]. rewrite Hev. reflexivity.
  Qed.

  Lemma rewrite_refine j consts cds args res rule : no_nested_consts j ->
    (forall e e', rule e = inl e' -> refines e e') ->
    rmap (fun c => opt TypeErr (lit c)) consts = inl cds -> run j cds args = inl res ->
    rewrite D lit multi bind1 bindN j consts rule args = inl (Tup (map Arr res)) \/
    (exists er es cv iv eqns outs, j = Jaxpr cv iv eqns outs /\ j2e j = inl es /\ rule (BoundExpression es cv consts) = inr er /\
       rewrite D lit multi bind1 bindN j consts rule args = inr er).
  Proof.
    intros Hn Hr Hc Hrun. assert (Hid := rewrite_identity j consts cds args res Hn Hc Hrun).
    destruct j as [cv iv eqns outs]. unfold rewrite in *.
    destruct (j2e (Jaxpr cv iv eqns outs)) as [es|] eqn:Hes; [|discriminate]. cbn [rb] in Hid |- *.
    destruct (rule (BoundExpression es cv consts)) as [e|er] eqn:Hrule; cbn [rb] in *.
    - left. destruct (dwrite [] iv args) as [env|]; [|discriminate]. cbn [rb] in *. apply (Hr _ _ Hrule), Hid.
    - right. exists er, es, cv, iv, eqns, outs. auto.
  Qed.
End proofs.
