From Verif Require Import Dict JaxModel JaxProofs RulesProofs CanonicalizeProofs CanonicalizeProofs2 CanonicalizeProofs3 CanonRewriteModel.
Open Scope string_scope. Open Scope list_scope. Open Scope nat_scope.

Section sjaxpr_ind.
  Variable Q : sjaxpr -> Prop.
  Definition Qeqn (q : seqn) : Prop := match q with SPrim _ _ _ _ => True | SCall _ _ b _ _ => Q b end.
  Hypothesis H : forall cv iv eqns outs, Forall Qeqn eqns -> Q (SJaxpr cv iv eqns outs).
  Fixpoint sjaxpr_ind' (j : sjaxpr) : Q j :=
    match j with
    | SJaxpr cv iv eqns outs => H cv iv eqns outs
          ((fix go (l : list seqn) : Forall Qeqn l :=
              match l with
              | [] => Forall_nil _
              | q :: l' => Forall_cons q (match q return Qeqn q with SPrim _ _ _ _ => I | SCall _ _ b _ _ => sjaxpr_ind' b end) (go l')
              end) eqns)
    end.
End sjaxpr_ind.

Section proofs.
  Variables (K : Type) (k0 k1 : K) (kadd kmul : K -> K -> K) (P : prims K).
  Hypothesis known_single : forall p, known p = true -> multi P p = false.
  Variable lim : nat -> bool.
  Hypothesis lim0 : lim 0 = true.
  Notation ev := (eval K k0 k1 kadd kmul P lim).
  Notation srun := (srun K k0 kadd kmul P lim). Notation sread := (sread K P). Notation swrite := (swrite K lim). Notation sbind := (sbind K lim).
  Notation bind_one := (bind_one K k0 kadd kmul P). Notation bind_many := (bind_many K P). Notation expressions := (expressions K P).
  Notation denv := (list (string * array K)).
  Notation is_ benv := (fun x d => ev x benv = inl (Arr d)).

  Lemma ev_node c h ks : ev (VNode c h ks) = chk K lim (node K k0 k1 kadd kmul P c h (map ev ks)).
  Proof using. reflexivity. Qed.
  Lemma chk_arr f (e : denv) a : f e = inl (Arr a) -> lim (ndim K a) = true -> chk K lim f e = inl (Arr a).
  Proof using. intros H L. unfold chk. rewrite H. cbn [rb]. rewrite L. reflexivity. Qed.
  Lemma chk_tup f (e : denv) l : f e = inl (Tup l) -> chk K lim f e = inl (Tup l).
  Proof using. intros H. unfold chk. rewrite H. reflexivity. Qed.
  Lemma evals_intro es env ds : Forall2 (is_ env) es ds -> seqr (map (fun f : den K => f env) (map ev es)) = inl (map Arr ds).
  Proof using. induction 1 as [|x d es ds H _ IH]; [reflexivity|]. cbn [map seqr]. rewrite H. cbn [rb]. rewrite IH. reflexivity. Qed.
  Lemma arrs_ev es env ds : Forall2 (is_ env) es ds -> arrs K (map ev es) env = inl ds.
  Proof using. intros H. unfold arrs. rewrite (evals_intro _ _ _ H). cbn [rb]. apply rmap_arr. Qed.
  Lemma ev_var x s benv d : dget benv x = Some d -> shape d = s -> lim (ndim K d) = true -> ev (JVar x s) benv = inl (Arr d).
  Proof using.
    intros Hx Hs Hl. unfold JVar. rewrite ev_node. apply chk_arr; [|exact Hl]. unfold node. cbn [String.eqb Ascii.eqb Bool.eqb map]. rewrite of_str_of. cbn [opt rb].
    assert (E : nats_of (VSeq KTuple (map (fun n => VNum KInt (Z.of_nat n)) s)) = Some s).
    { cbn [nats_of]. clear. induction s as [|n s IH]; [reflexivity|]. cbn [map omap nat_of]. destruct (Z.ltb_spec (Z.of_nat n) 0); [lia|]. rewrite Nat2Z.id, IH. reflexivity. }
    rewrite E. cbn [opt rb]. rewrite Hx. cbn [opt rb]. destruct (list_eq_dec Nat.eq_dec (shape d) s); [reflexivity|contradiction].
  Qed.
  Lemma ev_lit v benv a : lit P v = Some a -> shape a = [] -> ev (Literal v) benv = inl (Arr a).
  Proof using lim0. intros Hv Hs. unfold Literal. rewrite ev_node. apply chk_arr; [|unfold ndim; rewrite Hs; exact lim0]. unfold node. cbn [String.eqb Ascii.eqb Bool.eqb map]. rewrite Hv. cbn [opt rb]. rewrite Hs. reflexivity. Qed.
  Lemma ev_prim p ps ops benv ds : Forall2 (is_ benv) ops ds -> node K k0 k1 kadd kmul P "Primitive" [str_of p; ps] (map ev ops) benv = bind K k0 kadd kmul P p ps ds.
  Proof using. intros H. unfold node. cbn [String.eqb Ascii.eqb Bool.eqb]. rewrite of_str_of. cbn [opt rb]. rewrite (arrs_ev _ _ _ H). reflexivity. Qed.
  Lemma ev_part out i benv l d : ev out benv = inl (Tup l) -> nth_error l i = Some (Arr d) -> lim (ndim K d) = true -> ev (Part out i) benv = inl (Arr d).
  Proof using.
    intros Ho Hn Hl. unfold Part. rewrite ev_node. apply chk_arr; [|exact Hl]. unfold node. cbn [String.eqb Ascii.eqb Bool.eqb map nat_of]. destruct (Z.ltb_spec (Z.of_nat i) 0); [lia|]. cbn [opt rb]. rewrite Ho. cbn [rb]. rewrite Nat2Z.id, Hn. reflexivity.
  Qed.
  Lemma strs_of_map ns : strs_of (VSeq KTuple (map str_of ns)) = Some ns.
  Proof using. cbn [strs_of]. induction ns as [|n ns IH]; [reflexivity|]. cbn [map omap]. rewrite of_str_of, IH. reflexivity. Qed.
  Lemma ev_bound es ns cs cds ce benv rs : omap (lit P) cs = Some cds -> dwrite [] ns cds = inl ce -> Forall2 (is_ (dmerge ce benv)) es rs -> ev (SBound es ns cs) benv = inl (Tup (map Arr rs)).
  Proof using.
    intros Hc Hw H. unfold SBound. rewrite ev_node. apply chk_tup. unfold node. cbn [String.eqb Ascii.eqb Bool.eqb]. rewrite strs_of_map. cbn [opt rb]. rewrite Hc. cbn [opt rb]. rewrite Hw. cbn [rb]. rewrite (evals_intro _ _ _ H). reflexivity.
  Qed.
  Lemma ev_call p ps ops vs body ns sub benv l : Forall2 (is_ benv) ops vs -> dwrite [] ns vs = inl sub -> ev body sub = inl (Tup l) -> ev (CallPrimitive p ps ops body ns) benv = inl (Tup l).
  Proof using.
    intros H Hw Hb. unfold CallPrimitive. rewrite ev_node. apply chk_tup. unfold node. cbn [String.eqb Ascii.eqb Bool.eqb]. rewrite map_app, rev_app_distr. cbn [map rev app]. rewrite strs_of_map. cbn [opt rb]. rewrite rev_involutive, (arrs_ev _ _ _ H). cbn [rb]. rewrite Hw. exact Hb.
  Qed.

  Definition ssim (benv : denv) (E : list (string * val)) (V : denv) : Prop :=
    forall x d, dget V x = Some d -> lim (ndim K d) = true /\ exists e, dget E x = Some e /\ ev e benv = inl (Arr d).
  Lemma ssim_dset benv E V x e d : ssim benv E V -> lim (ndim K d) = true -> ev e benv = inl (Arr d) -> ssim benv (dset E x e) (dset V x d).
  Proof using. intros HS Hl He y d' Hy. rewrite dget_dset in Hy. rewrite dget_dset. destruct (String.eqb y x); [injection Hy as <-; eauto|apply HS, Hy]. Qed.
  Lemma ssim_dmerge benv lE lV :
    Forall2 (fun (kv : string * val) (kd : string * array K) => fst kv = fst kd /\ lim (ndim K (snd kd)) = true /\ ev (snd kv) benv = inl (Arr (snd kd))) lE lV ->
    forall E V, ssim benv E V -> ssim benv (dmerge E lE) (dmerge V lV).
  Proof using. induction 1 as [|[k e] [k' d] lE lV (Hk & Hl & He) HF IH]; intros E V HS; [assumption|]. simpl in *. subst k'. apply IH. apply ssim_dset; assumption. Qed.
  Lemma checked_inl b u : checked b = inl u -> b = true.
  Proof using. destruct b; [reflexivity|discriminate]. Qed.
  Lemma sread_sim benv E V : ssim benv E V -> forall ins vs, rmap (sread V) ins = inl vs -> exists ops, rmap (read_env E) ins = inl ops /\ Forall2 (is_ benv) ops vs.
  Proof using lim0.
    intros HS ins. induction ins as [|a ins IH]; intros vs Hv; cbn [rmap] in Hv; [injection Hv as <-; exists []; split; [reflexivity|constructor]|].
    apply rb_inl in Hv as (d & Hd & Hv). apply rb_inl in Hv as (ds & Hds & Hv). injection Hv as <-. destruct (IH _ Hds) as (ops & Ho & Hev).
    assert (Ha : exists e, read_env E a = inl e /\ ev e benv = inl (Arr d)).
    { destruct a as [v|x]; cbn [CanonRewriteModel.sread read_env] in *.
      - apply rb_inl in Hd as (a & Ha & Hd). apply opt_inl in Ha. apply rb_inl in Hd as (u & Hc & Hd). apply checked_inl in Hc. injection Hd as <-. exists (Literal v). split; [reflexivity|]. apply ev_lit; [exact Ha|]. destruct (list_eq_dec Nat.eq_dec (shape a) []); [assumption|discriminate].
      - apply opt_inl in Hd. destruct (HS _ _ Hd) as (_ & e & He & Hee). exists e. rewrite He. auto. }
    destruct Ha as (e & He & Hee). exists (e :: ops). cbn [rmap]. rewrite He. cbn [rb]. rewrite Ho. split; [reflexivity|constructor; assumption].
  Qed.
  Lemma swrite_inl V os rs V' : swrite V os rs = inl V' -> V' = dmerge V (combine os rs) /\ length os = length rs /\ Forall (fun d => lim (ndim K d) = true) rs /\ dwrite V os rs = inl V'.
  Proof using. unfold CanonRewriteModel.swrite. intros H. apply rb_inl in H as (u & Hc & Hw). apply checked_inl in Hc. pose proof Hw as Hw'. apply dwrite_inl in Hw' as [E Hl]. split; [exact E|]. split; [exact Hl|]. split; [|exact Hw]. apply Forall_forall. unfold within_lim in Hc. rewrite forallb_forall in Hc. exact Hc. Qed.
  Lemma sparts_sim benv out rs : ev out benv = inl (Tup (map Arr rs)) -> Forall (fun d => lim (ndim K d) = true) rs ->
    forall os suf i, length os = length suf -> (forall j, nth_error rs (i + j) = nth_error suf j) ->
    Forall2 (fun (kv : string * val) (kd : string * array K) => fst kv = fst kd /\ lim (ndim K (snd kd)) = true /\ ev (snd kv) benv = inl (Arr (snd kd)))
      (combine os (map (Part out) (seq i (length os)))) (combine os suf).
  Proof using.
    intros Ho HL os. induction os as [|o os IH]; intros [|r suf] i Hl Hn; cbn [length map seq combine] in *; try discriminate; constructor.
    - cbn [fst snd]. pose proof (Hn 0) as H0. rewrite Nat.add_0_r in H0. cbn in H0. assert (L : lim (ndim K r) = true) by (rewrite Forall_forall in HL; apply HL; eapply nth_error_In, H0). split; [reflexivity|]. split; [exact L|]. apply ev_part with (map Arr rs); [exact Ho|rewrite nth_error_map, H0; reflexivity|exact L].
    - apply IH; [congruence|]. intros j. specialize (Hn (S j)). rewrite <- Nat.add_succ_comm in Hn. exact Hn.
  Qed.
  Lemma smulti_sim benv E V V' out rs os : ssim benv E V -> ev out benv = inl (Tup (map Arr rs)) -> swrite V os rs = inl V' -> exists E', bind_outs true E os out = inl E' /\ ssim benv E' V'.
  Proof using. intros HS Ho Hw. apply swrite_inl in Hw as (-> & Hl & HL & _). eexists. split; [reflexivity|]. apply ssim_dmerge; [|assumption]. apply (sparts_sim benv out rs Ho HL os rs 0 Hl). reflexivity. Qed.

  Definition srun_step (q : seqn) (V : denv) : result denv :=
    match q with
    | SPrim p ps ins os => rb (rmap (sread V) ins) (fun vs => if multi P p then rb (bind_many p ps vs) (fun rs => swrite V os rs) else rb (bind_one p ps vs) (fun r => swrite V os [r]))
    | SCall p ps body ins os => rb (rmap (sread V) ins) (fun vs => rb (srun body [] vs) (fun rs => swrite V os rs))
    end.
  Fixpoint srun_eqns (eqns : list seqn) (V : denv) : result denv := match eqns with [] => inl V | q :: eqns' => rb (srun_step q V) (srun_eqns eqns') end.
  Definition ex_step (q : seqn) (E : list (string * val)) : result (list (string * val)) :=
    match q with
    | SPrim p ps ins os => rb (rmap (read_env E) ins) (fun ops => bind_outs (multi P p) E os (Primitive p ps ops))
    | SCall p ps body ins os => rb (rmap (read_env E) ins) (fun ops => rb (expressions body) (fun es => match body with SJaxpr _ biv _ _ => bind_outs true E os (CallPrimitive p ps ops (SBound es [] []) (map fst biv)) end))
    end.
  Fixpoint ex_eqns (eqns : list seqn) (E : list (string * val)) : result (list (string * val)) := match eqns with [] => inl E | q :: eqns' => rb (ex_step q E) (ex_eqns eqns') end.
  Lemma srun_eq cv iv eqns outs consts args : srun (SJaxpr cv iv eqns outs) consts args = rb (sbind [] cv consts) (fun e0 => rb (sbind e0 iv args) (fun e1 => rb (srun_eqns eqns e1) (fun e2 => rmap (sread e2) outs))).
  Proof using. reflexivity. Qed.
  Lemma expressions_eq cv iv eqns outs : expressions (SJaxpr cv iv eqns outs) = rb (ex_eqns eqns (dmerge (dmerge [] (svars cv)) (svars iv))) (fun E => rmap (read_env E) outs).
  Proof using. reflexivity. Qed.

  (** the environment of the variables of a jaxpr *)
  Lemma sbind_inl V vars ds V' : sbind V vars ds = inl V' -> map shape ds = map snd vars /\ swrite V (map fst vars) ds = inl V'.
  Proof using. unfold CanonRewriteModel.sbind. intros H. apply rb_inl in H as (u & Hc & Hw). apply checked_inl in Hc. destruct (list_eq_dec _ _ _) as [E|]; [auto|discriminate]. Qed.
  Definition declared (benv : denv) (E : list (string * val)) (V : denv) : Prop :=
    forall x d, dget V x = Some d -> lim (ndim K d) = true /\ exists s, dget E x = Some (JVar x s) /\ shape d = s.
  Lemma declared_bind vars : forall ds E V, declared [] E V -> map shape ds = map snd vars -> Forall (fun d => lim (ndim K d) = true) ds -> declared [] (dmerge E (svars vars)) (dmerge V (combine (map fst vars) ds)).
  Proof using.
    induction vars as [|[x s] vars IH]; intros [|d ds] E V HD Hs HL; try discriminate; [exact HD|]. cbn [map] in Hs. injection Hs as Hs Hss. inversion HL as [|? ? L1 L2]; subst.
    change (dmerge E (svars ((x, shape d) :: vars))) with (dmerge (dset E x (JVar x (shape d))) (svars vars)). change (dmerge V (combine (map fst ((x, shape d) :: vars)) (d :: ds))) with (dmerge (dset V x d) (combine (map fst vars) ds)).
    apply IH; [|exact Hss|exact L2]. intros y d' Hy. rewrite dget_dset in Hy. rewrite dget_dset. revert Hy. destruct (String.eqb_spec y x) as [->|]; intros Hy; [injection Hy as <-; eauto|apply HD, Hy].
  Qed.

  Definition scorrect (j : sjaxpr) : Prop :=
    match j with
    | SJaxpr cv iv eqns outs =>
        forall consts args e0 e1 res, sbind [] cv consts = inl e0 -> sbind e0 iv args = inl e1 -> srun j consts args = inl res ->
        forall benv, (forall x d, dget e1 x = Some d -> dget benv x = Some d) ->
        exists es, expressions j = inl es /\ Forall2 (is_ benv) es res
    end.
  Lemma sbody_call benv p ps ops vs body rs : scorrect body -> Forall2 (is_ benv) ops vs -> srun body [] vs = inl rs ->
    exists es, expressions body = inl es /\ match body with SJaxpr _ biv _ _ => ev (CallPrimitive p ps ops (SBound es [] []) (map fst biv)) benv = inl (Tup (map Arr rs)) end.
  Proof using.
    intros Hc Hops Hrun. destruct body as [cv iv eqns outs]. pose proof Hrun as Hr. rewrite srun_eq in Hr. apply rb_inl in Hr as (e0 & H0 & Hr). apply rb_inl in Hr as (e1 & H1 & _).
    assert (He0 : e0 = []). { apply sbind_inl in H0 as [Hs H0]. apply swrite_inl in H0 as (-> & Hl & _). destruct cv; [reflexivity|discriminate]. } subst e0.
    pose proof H1 as H1'. apply sbind_inl in H1' as [_ H1']. apply swrite_inl in H1' as (E1 & _ & _ & Hw).
    destruct (Hc [] vs [] e1 rs H0 H1 Hrun (dmerge [] e1)) as (es & Hes & Hev); [intros x d Hx; rewrite E1 in *; rewrite dget_dmerge_dict; exact Hx|].
    exists es. split; [exact Hes|]. eapply ev_call; [exact Hops|exact Hw|]. eapply ev_bound; [reflexivity|reflexivity|exact Hev].
  Qed.
  Lemma seqns_sim benv eqns : Forall (Qeqn scorrect) eqns -> forall E V V', ssim benv E V -> srun_eqns eqns V = inl V' -> exists E', ex_eqns eqns E = inl E' /\ ssim benv E' V'.
  Proof using known_single lim0.
    induction 1 as [|q eqns Hq Hqs IH]; intros E V V' HS Hr; cbn [srun_eqns ex_eqns] in *; [injection Hr as <-; eauto|]. apply rb_inl in Hr as (V1 & H1 & Hr).
    assert (Hq' : exists E1, ex_step q E = inl E1 /\ ssim benv E1 V1).
    { destruct q as [p ps ins os|p ps body ins os]; cbn [ex_step srun_step] in *; apply rb_inl in H1 as (vs & Hvs & H1); destruct (sread_sim benv E V HS ins vs Hvs) as (ops & Ho & Hev); rewrite Ho; cbn [rb].
      - destruct (multi P p) eqn:Em.
        + apply rb_inl in H1 as (rs & Hb & Hw). eapply smulti_sim; [exact HS| |exact Hw]. unfold Primitive. rewrite ev_node. apply chk_tup. rewrite (ev_prim _ _ _ _ _ Hev). unfold bind. destruct (known p) eqn:Ek; [rewrite (known_single p Ek) in Em; discriminate|]. rewrite Em. unfold CanonRewriteModel.bind_many in Hb. rewrite Hb. reflexivity.
        + apply rb_inl in H1 as (r & Hb & Hw). apply swrite_inl in Hw as (-> & Hl & HL & _). destruct os as [|o [|]]; try discriminate. eexists. split; [reflexivity|]. cbn [combine]. inversion HL as [|? ? L1 _]; subst. apply ssim_dset; [exact HS|exact L1|]. unfold Primitive. rewrite ev_node. apply chk_arr; [|exact L1]. rewrite (ev_prim _ _ _ _ _ Hev). unfold CanonRewriteModel.bind_one in Hb. apply rb_inl in Hb as (v & Hv & Ha). rewrite Hv. destruct v; [injection Ha as ->; reflexivity|discriminate].
      - apply rb_inl in H1 as (rs & Hb & Hw). destruct (sbody_call benv p ps ops vs body rs Hq Hev Hb) as (es & Hes & Hcall). rewrite Hes. cbn [rb]. destruct body. eapply smulti_sim; eassumption. }
    destruct Hq' as (E1 & HE1 & HS1). destruct (IH E1 V1 V' HS1 Hr) as (E' & HE' & HS'). exists E'. split; [|exact HS']. rewrite HE1. exact HE'.
  Qed.
  Lemma s_all_correct j : scorrect j.
  Proof using known_single lim0.
    induction j as [cv iv eqns outs IH] using sjaxpr_ind'. intros consts args e0 e1 res H0 H1 Hrun benv Hb.
    rewrite srun_eq, H0 in Hrun. cbn [rb] in Hrun. rewrite H1 in Hrun. cbn [rb] in Hrun. apply rb_inl in Hrun as (e2 & H2 & Hrun). rewrite expressions_eq.
    destruct (seqns_sim benv eqns IH (dmerge (dmerge [] (svars cv)) (svars iv)) e1 e2) as (E' & HE' & HS'); [|exact H2|].
    - apply sbind_inl in H0 as [S0 H0]. apply swrite_inl in H0 as (E0 & _ & L0 & _). apply sbind_inl in H1 as [S1 H1]. apply swrite_inl in H1 as (E1 & _ & L1 & _).
      assert (D : declared [] (dmerge (dmerge [] (svars cv)) (svars iv)) e1) by (rewrite E1, E0; apply declared_bind; [apply declared_bind; [intros x d Hx; discriminate|exact S0|exact L0]|exact S1|exact L1]).
      intros x d Hx. destruct (D x d Hx) as (L & s & He & Hs). split; [exact L|]. exists (JVar x s). split; [exact He|]. apply ev_var; [apply Hb, Hx|exact Hs|exact L].
    - rewrite HE'. cbn [rb]. apply sread_sim with e2; assumption.
  Qed.
  (** the expression of the whole function evaluates to the function *)
  Lemma s_bound j cv iv eqns outs consts cds args res : j = SJaxpr cv iv eqns outs -> omap (lit P) consts = Some cds -> srun j cds args = inl res ->
    exists es env, expressions j = inl es /\ dwrite [] (map fst iv) args = inl env /\ ev (SBound es (map fst cv) consts) env = inl (Tup (map Arr res)).
  Proof using known_single lim0.
    intros Ej Hc Hrun. pose proof Hrun as Hr. pose proof (s_all_correct j) as HC. rewrite Ej in *. rewrite srun_eq in Hr. apply rb_inl in Hr as (e0 & H0 & Hr). apply rb_inl in Hr as (e1 & H1 & _).
    pose proof H0 as B0. apply sbind_inl in B0 as [_ B0]. apply swrite_inl in B0 as (E0 & _ & _ & W0). pose proof H1 as B1. apply sbind_inl in B1 as [_ B1]. apply swrite_inl in B1 as (E1 & L1 & _ & _).
    set (sub := dmerge [] (combine (map fst iv) args)). destruct (HC cds args e0 e1 res H0 H1 Hrun (dmerge e0 sub)) as (es & Hes & Hev).
    { intros x d Hx. unfold sub. rewrite dget_dmerge_dict, <- E1. exact Hx. }
    exists es, sub. split; [exact Hes|]. split; [unfold dwrite; rewrite zip_strict_some by exact L1; reflexivity|]. eapply ev_bound; [exact Hc|exact W0|exact Hev].
  Qed.
End proofs.
