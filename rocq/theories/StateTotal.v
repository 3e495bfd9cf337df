(** When state.init succeeds, and what repeated and skipped assigns do (C45, C46). *)
From Verif Require Import Dict HarvestSpec HarvestProofs HarvestProofs2 HarvestProofs3 HarvestProofs4 HarvestProofs5 HarvestProps HarvestTotal.
From Verif Require Export StateProps.

Section other_tag.
  Context {AR : Arrays}.
  Variables sP s : settings.
  Hypothesis Htag : tag_of sP <> tag_of s.
  Lemma unseen t n : seen s t n = true -> seen sP t n = false.
  Proof. unfold seen. intros H. apply andb_true_iff in H as [H _]. apply String.eqb_eq in H. subst t. destruct (String.eqb_spec (tag_of s) (tag_of sP)); [congruence|reflexivity]. Qed.
  Lemma sites_other {A B} (p : prog A B) : forall pd, sites2 p sP s pd = sites s p [].
  Proof.
    induction p as [A B f|A B C p IHp q IHq|A B C p IHp|t n m av|t n av|A B sc p IHp|A B p IHp|C X Y rv len p IHp|C c p IHp|A B p IHp q IHq]; intros pd; cbn [sites2]; auto.
    - rewrite IHp, IHq. reflexivity.
    - rewrite site_here_nil. unfold site_here. destruct (seen s t n) eqn:E; [|reflexivity]. rewrite (unseen _ _ E). reflexivity.
    - rewrite site_here_nil. unfold site_here. destruct (seen s t n) eqn:E; [|reflexivity]. rewrite (unseen _ _ E). reflexivity.
    - rewrite IHp. reflexivity.
    - rewrite IHp. reflexivity.
    - rewrite IHp. reflexivity.
    - rewrite IHp. reflexivity.
    - rewrite IHp. reflexivity.
  Qed.
  Hypothesis Hex : exclusive sP = false.
  Lemma planted_other {A B} (p : prog A B) : forall sk dn dn' p', plantT sP p sk dn = inl (dn', p') ->
    sites s p' [] = sites s p [] /\ (legal s p' <-> legal s p).
  Proof.
    induction p as [A B f|A B C p IHp q IHq|A B C p IHp|t n m av|t n av|A B sc p IHp|A B p IHp|C X Y rv len p IHp|C c p IHp|A B p IHp q IHq]; intros sk dn dn' p' H; cbn [plantT] in H.
    - injection H as _ <-. cbn. tauto.
    - apply rb_inl in H as ([d1 p1] & H1 & H). apply rb_inl in H as ([d2 q1] & H2 & H). injection H as _ <-. cbn [fst snd sites2 legal] in *.
      destruct (IHp _ _ _ _ H1) as [E1 L1], (IHq _ _ _ _ H2) as [E2 L2]. rewrite E1, E2. tauto.
    - apply rb_inl in H as ([d1 p1] & H1 & H). injection H as _ <-. cbn [fst snd sites2 legal app] in *. destruct (IHp _ _ _ _ H1) as [E1 L1]. tauto.
    - destruct (is_cond m) eqn:Ec; [discriminate|]. rewrite Hex in H.
      destruct (String.eqb_spec t (tag_of sP)) as [->|Hne].
      + assert (Es : seen s (tag_of sP) n = false) by (unfold seen; destruct (String.eqb_spec (tag_of sP) (tag_of s)); [contradiction|reflexivity]).
        assert (K : sites s (Sow (tag_of sP) n m av) [] = []) by (cbn; unfold site_here; rewrite Es; reflexivity). rewrite K. cbn [legal]. rewrite Ec.
        destruct (passes sP n); [destruct (mem n dn); [discriminate|]; destruct (haskey sk n)|]; injection H as _ <-; cbn [sites2 legal app]; try tauto.
        all: rewrite site_here_nil, Es, Ec; tauto.
      + injection H as _ <-. cbn [sites2 legal app]. rewrite !site_here_nil. tauto.
    - rewrite Hex in H. destruct (String.eqb_spec t (tag_of sP)) as [->|Hne].
      + assert (Es : seen s (tag_of sP) n = false) by (unfold seen; destruct (String.eqb_spec (tag_of sP) (tag_of s)); [contradiction|reflexivity]).
        assert (K : sites s (SowCond (tag_of sP) n av) [] = []) by (cbn; unfold site_here; rewrite Es; reflexivity). rewrite K. cbn [legal].
        destruct (passes sP n); [destruct (mem n dn); [discriminate|]; destruct (haskey sk n)|]; injection H as _ <-; cbn [sites2 legal app]; try tauto.
        all: rewrite site_here_nil, Es; tauto.
      + injection H as _ <-. cbn [sites2 legal app]. rewrite !site_here_nil. tauto.
    - apply rb_inl in H as (sk' & H0 & H). apply rb_inl in H as ([d1 p1] & H1 & H). injection H as _ <-. destruct (IHp _ _ _ _ H1) as [E1 L1]. cbn [fst snd sites2 legal app] in *.
      change (sub [] sc) with (@nil (string * tree)). rewrite E1. tauto.
    - apply rb_inl in H as ([d1 p1] & H1 & H). injection H as _ <-. destruct (IHp _ _ _ _ H1) as [E1 L1]. cbn [fst snd sites2 legal app] in *. rewrite E1. tauto.
    - apply rb_inl in H as (r0 & _ & H). cbv zeta in H. destruct (existsb _ _); [discriminate|]. apply rb_inl in H as ([d1 p1] & H1 & H). injection H as _ <-. destruct (IHp _ _ _ _ H1) as [E1 L1].
      cbn [fst snd sites2 legal app] in *.
      change (body_plants (once (sites s p1 [])) []) with (@nil (string * tree)). change (body_plants (once (sites s p [])) []) with (@nil (string * tree)).
      rewrite !E1. split; [reflexivity|]. tauto.
    - apply rb_inl in H as (r0 & _ & H). cbv zeta in H. destruct (existsb _ _); [discriminate|]. apply rb_inl in H as ([d1 p1] & H1 & H). injection H as _ <-. destruct (IHp _ _ _ _ H1) as [E1 L1].
      cbn [fst snd sites2 legal app] in *. rewrite !E1. split; [rewrite app_nil_r; reflexivity|]. tauto.
    - apply rb_inl in H as (r1 & _ & H). apply rb_inl in H as (r2 & _ & H). apply rb_inl in H as (r3 & _ & H). apply rb_inl in H as ([d1 p1] & H1 & H). apply rb_inl in H as ([d2 q1] & H2 & H). injection H as _ <-.
      destruct (IHp _ _ _ _ H1) as [E1 L1], (IHq _ _ _ _ H2) as [E2 L2]. cbn [fst snd sites2 legal app] in *. rewrite !E1, !E2. tauto.
  Qed.
End other_tag.

Section nothing.
  Context {AR : Arrays}.
  Variable s : settings.
  Lemma legal_plantable {A B} (p : prog A B) : legal s p -> plantable s p [] /\ planted_once s p [].
  Proof.
    assert (K : forall A B (p : prog A B), planted_once s p []) by (intros ? ? p0 l1 l2 t n m m' _ _ _ H; discriminate H).
    intros H. split; [|apply K]. revert H.
    induction p as [A B f|A B C p IHp q IHq|A B C p IHp|t n m av|t n av|A B sc p IHp|A B p IHp|C X Y rv len p IHp|C c p IHp|A B p IHp q IHq]; cbn [legal plantable]; intros H; try tauto.
    - split; [discriminate|]. split; [apply IHp, H|apply K].
    - split; [apply IHp, H|apply K].
    - change (scan_skel (once (sites s p [])) []) with (@nil (string * skel)). pose proof (K _ _ p). tauto.
    - pose proof (K _ _ p). tauto.
    - pose proof (K _ _ p). pose proof (K _ _ q). tauto.
  Qed.
  Lemma planted_nothing {A B} (p : prog A B) : forall dn dn' p', plantT s p [] dn = inl (dn', p') ->
    sites s p' [] = sites s p [] /\ (legal s p' <-> legal s p).
  Proof.
    induction p as [A B f|A B C p IHp q IHq|A B C p IHp|t n m av|t n av|A B sc p IHp|A B p IHp|C X Y rv len p IHp|C c p IHp|A B p IHp q IHq]; intros dn dn' p' H; cbn [plantT] in H.
    - injection H as _ <-. cbn. tauto.
    - apply rb_inl in H as ([d1 p1] & H1 & H). apply rb_inl in H as ([d2 q1] & H2 & H). injection H as _ <-. cbn [fst snd sites2 legal] in *.
      destruct (IHp _ _ _ H1) as [E1 L1], (IHq _ _ _ H2) as [E2 L2]. rewrite E1, E2. tauto.
    - apply rb_inl in H as ([d1 p1] & H1 & H). injection H as _ <-. cbn [fst snd sites2 legal app] in *. destruct (IHp _ _ _ H1) as [E1 L1]. tauto.
    - destruct (is_cond m) eqn:Ec; [discriminate|]. change (haskey (@nil (string * skel)) n) with false in H. cbn [sites2 legal]. rewrite site_here_nil. unfold seen.
      destruct (String.eqb t (tag_of s)) eqn:Et; [destruct (passes s n) eqn:Ep; [destruct (mem n dn); [discriminate|]|]|destruct (exclusive s)]; injection H as _ <-; cbn [sites2 legal app andb]; rewrite ?site_here_nil, ?Ec; unfold seen; rewrite ?Et, ?Ep; cbn [andb]; tauto.
    - change (haskey (@nil (string * skel)) n) with false in H. cbn [sites2 legal]. rewrite site_here_nil. unfold seen.
      destruct (String.eqb t (tag_of s)) eqn:Et; [destruct (passes s n) eqn:Ep; [destruct (mem n dn); [discriminate|]|]|destruct (exclusive s)]; injection H as _ <-; cbn [sites2 legal app andb]; rewrite ?site_here_nil; unfold seen; rewrite ?Et, ?Ep; cbn [andb]; tauto.
    - apply rb_inl in H as (sk' & H0 & H). injection H0 as <-. apply rb_inl in H as ([d1 p1] & H1 & H). injection H as _ <-. destruct (IHp _ _ _ H1) as [E1 L1]. cbn [fst snd sites2 legal app] in *.
      change (sub [] sc) with (@nil (string * tree)). rewrite E1. tauto.
    - apply rb_inl in H as ([d1 p1] & H1 & H). injection H as _ <-. destruct (IHp _ _ _ H1) as [E1 L1]. cbn [fst snd sites2 legal app] in *. rewrite E1. tauto.
    - apply rb_inl in H as (r0 & _ & H). cbv zeta in H. destruct (existsb _ _); [discriminate|]. change (scan_skel (fst r0) []) with (@nil (string * skel)) in H.
      apply rb_inl in H as ([d1 p1] & H1 & H). injection H as _ <-. destruct (IHp _ _ _ H1) as [E1 L1].
      cbn [fst snd sites2 legal app] in *. change (body_plants (once (sites s p1 [])) []) with (@nil (string * tree)). change (body_plants (once (sites s p [])) []) with (@nil (string * tree)).
      rewrite !E1. split; [reflexivity|]. tauto.
    - apply rb_inl in H as (r0 & _ & H). cbv zeta in H. destruct (existsb _ _); [discriminate|]. apply rb_inl in H as ([d1 p1] & H1 & H). injection H as _ <-. destruct (IHp _ _ _ H1) as [E1 L1].
      cbn [fst snd sites2 legal app] in *. rewrite !E1. split; [rewrite app_nil_r; reflexivity|]. tauto.
    - apply rb_inl in H as (r1 & _ & H). apply rb_inl in H as (r2 & _ & H). apply rb_inl in H as (r3 & _ & H). apply rb_inl in H as ([d1 p1] & H1 & H). apply rb_inl in H as ([d2 q1] & H2 & H). injection H as _ <-.
      destruct (IHp _ _ _ H1) as [E1 L1], (IHq _ _ _ H2) as [E2 L2]. cbn [fst snd sites2 legal app] in *. rewrite !E1, !E2. tauto.
  Qed.
  (** harvesting without plants succeeds exactly when reaping does *)
  Theorem C33_harvest_nothing_iff {A B} (p : prog A B) : (exists h, harvest s p [] = inl h) <-> legal s p /\ repeats_ok (sites s p []).
  Proof.
    unfold harvest. split.
    - intros [h H]. apply rb_inl in H as (q & Hq & H). unfold plant in Hq. apply rb_inl in Hq as ([dn q1] & Hq & E). injection E as <-. cbn [snd] in H.
      destruct (planted_nothing p _ _ _ Hq) as [Es El]. pose proof (proj1 (C25_reap_succeeds_iff s q1) (ex_intro _ _ H)) as K. rewrite Es in K. tauto.
    - intros [L R]. destruct (proj2 (C31_plant_succeeds_iff s p []) (legal_plantable p L)) as [q Hq]. rewrite Hq. cbn [rb]. apply C25_reap_succeeds_iff.
      unfold plant in Hq. apply rb_inl in Hq as ([dn q1] & Hq & E). injection E as <-. cbn [snd]. destruct (planted_nothing p _ _ _ Hq) as [Es El]. rewrite Es. tauto.
  Qed.
End nothing.

Section init.
  Context {AR : Arrays}.
  (** functions whose state is declared with [variable] and updated with [assign] (which cannot produce a sow_cond) *)
  Fixpoint api_state {A B} (p : prog A B) : Prop :=
    match p with
    | Pure _ | Sow _ _ _ _ => True
    | Seq p q | Cond p q => api_state p /\ api_state q
    | First _ p | Nest _ p | Call p | Scan _ _ p | While _ p => api_state p
    | SowCond t _ _ => t <> VARIABLE /\ t <> ASSIGN
    end.
  (** sow rejects the mode of sow_cond, so a reaped program does not contain it *)
  Lemma reapT_nocond s' s {A B} (p : prog A B) : (tag_of s = VARIABLE \/ tag_of s = ASSIGN) -> api_state p -> forall M r, reapT s' p M = inl r -> nocond s p.
  Proof.
    intros Ht. induction p as [A B f|A B C p IHp q IHq|A B C p IHp|t n m av|t n av|A B sc p IHp|A B p IHp|C X Y rv len p IHp|C c p IHp|A B p IHp q IHq]; cbn [api_state nocond reapT]; intros Ha M r H.
    - exact I.
    - apply rb_inl in H as (r1 & H1 & H). apply rb_inl in H as (r2 & H2 & H). destruct Ha. split; eauto.
    - apply rb_inl in H as (r1 & H1 & H). eauto.
    - intros _. destruct (is_cond m); [discriminate|reflexivity].
    - unfold seen. destruct (String.eqb_spec t (tag_of s)) as [->|]; [|reflexivity]. destruct Ht as [E|E]; rewrite E in Ha; tauto.
    - apply rb_inl in H as (r1 & H1 & H). eauto.
    - apply rb_inl in H as (r1 & H1 & H). eauto.
    - apply rb_inl in H as (r1 & H1 & H). eauto.
    - apply rb_inl in H as (r1 & H1 & H). eauto.
    - apply rb_inl in H as (r1 & H1 & H). apply rb_inl in H as (r2 & H2 & H). destruct Ha. split; eauto.
  Qed.
  Section step.
    Variables (A B : Type) (f : prog (tree * A) B) (key0 : tree) (name : option string) (key : tree) (x0 : A) (fuel0 : nat) (m : fmodule A B).
    Hypothesis Hinit : init fuel0 key0 f name key x0 = inl m.
    Hypothesis Hapi : api_state f.
    Lemma init_nocond : nocond asg f /\ nocond var_reap f.
    Proof.
      destruct (init_cau _ _ _ _ _ _ _ _ _ Hinit) as (_ & _ & Hv). unfold init_vars in Hv. apply rb_inl in Hv as (r & Hr & _). unfold call_and_reap in Hr. apply rb_inl in Hr as (r1 & Hr & _).
      split; eapply reapT_nocond; try exact Hr; try exact Hapi; [right|left]; reflexivity.
    Qed.
    (** one call of a module in any state reachable from the initialised module *)
    Theorem C45_call_and_update fuel vs x : fits (skels_of (fm_vars m)) vs ->
      fm_call_and_update fuel (fm_replace m vs) x =
        rb (exec fuel f vs key0 x) (fun bo =>
          if forallb (fun n => mem n (dkeys vs)) (dkeys (assigned f vs)) then inl (fst bo, fm_replace m (dmerge vs (collect (assigned f vs) (snd bo)))) else inr ValueErr).
    Proof. intros H. apply (C45_call_and_update_partial A B f key0 name key x0 fuel0 m Hinit); [exact H|apply init_nocond]. Qed.
    Theorem C45_new_variables fuel vs x y m' : fits (skels_of (fm_vars m)) vs ->
      fm_call_and_update fuel (fm_replace m vs) x = inl (y, m') ->
      exists o, exec fuel f vs key0 x = inl (y, o) /\ dkeys (fm_vars m') = dkeys vs /\
        forall n, dget (fm_vars m') n = new_value (assigned f vs) o vs n.
    Proof. intros H. apply (C45_new_variables_partial A B f key0 name key x0 fuel0 m Hinit); [exact H|apply init_nocond]. Qed.
    Theorem C46_variables :
      exists y o, sem var_reap fuel0 f [] (key, x0) = inl (y, o) /\ run fuel0 f (key, x0) = inl y /\ NoDup (dkeys (fm_vars m)) /\
      (forall n, In n (dkeys (fm_vars m)) <-> In n (dkeys (sites var_reap f []))) /\
      forall n mo av, dget (once (sites var_reap f [])) n = Some (mo, av) -> dget (fm_vars m) n = Some (match last_eff o n with Some v => v | None => zeros av end).
    Proof. apply (C46_variables_partial fuel0 key0 f name key x0 m Hinit). apply init_nocond. Qed.
    Theorem C46_call_exec fuel x y m' : fm_call_and_update fuel m x = inl (y, m') -> rb (exec fuel f (fm_vars m) key0 x) (fun bo => inl (fst bo)) = inl y.
    Proof. apply (C46_call_exec_partial fuel0 key0 f name key x0 m Hinit). apply init_nocond. Qed.
  End step.

  (** init succeeds: the function declares its variables in the strict or append mode, not twice, runs, and its assigns
      may be repeated *)
  Theorem C46_init_succeeds fuel {A B} key0 (f : prog (tree * A) B) name key x y :
    strictp var_plant f -> lively var_plant f -> legal var_plant f -> repeats_ok (sites var_plant f []) ->
    legal asg f -> repeats_ok (sites asg f []) -> run fuel f (key, x) = inl y ->
    exists m, init fuel key0 f name key x = inl m.
  Proof.
    intros Hs Hv Hl Hr Hl' Hr' Hrun.
    destruct (proj2 (C25_reap_succeeds_iff var_plant f) (conj Hl Hr)) as [r0 E0].
    destruct (excl_call_and_reap VARIABLE [] None false true f r0 E0 Hs) as (r & Er & Erun).
    assert (Hreg : regular var_plant f []) by (split; [apply strictp_tame, Hs|apply no_cond_no_mix, no_clob_no_cond, strictp_sites, Hs]).
    pose proof (call_and_reap_sem var_plant fuel f r0 (key, x) E0 Hreg) as K. rewrite (run_sem_eq var_plant var_plant) in Hrun. apply rb_inl in Hrun as ([b o] & Eo & Hrun). rewrite Eo in K. cbn [rb fst snd] in K.
    set (vars := collect (once (sites var_plant f [])) o) in *.
    destruct (C32_plant_succeeds_partial var_plant (fun _ => eq_refl) f r0 fuel (key, x) _ _ Hs Hv E0 K) as (q & Eq & _).
    unfold init, init_vars. change (mk_settings VARIABLE [] None true) with var_reap in *. rewrite Er. cbn [rb]. rewrite Erun, K. cbn [rb snd]. unfold cau_program. rewrite Eq. cbn [rb].
    unfold plant in Eq. apply rb_inl in Eq as ([dn q1] & Eq & E). injection E as <-. cbn [snd].
    destruct (planted_other var_plant asg ltac:(discriminate) eq_refl f _ _ _ _ Eq) as [Es El].
    match goal with |- exists m, rb (rb (harvest asg ?q2 []) _) _ = _ => destruct (proj2 (C33_harvest_nothing_iff asg q2)) as [h Eh] end; [|rewrite Eh; cbn [rb]; eauto].
    cbn [legal sites2 app]. rewrite Es. tauto.
  Qed.
End init.

(** ** Concrete cases *)
Open Scope Z_scope.
(** def f(x, init_key): n = variable(0, 'n'); assign(n + 1, 'n'); assign(n + x, 'n'); return n *)
Definition ex_twice : prog (tree * Z) Z :=
  Seq (Pure (fun kx : tree * Z => inl (L 0, snd kx)))
   (Seq (First Z (variable "n" A1))
    (Seq (Pure (fun nx : tree * Z => inl (L (HarvestProps.val (fst nx) + 1), nx)))
     (Seq (First (tree * Z) (assign "n" A1))
      (Seq (Pure (fun x : tree * (tree * Z) => inl (L (HarvestProps.val (fst (snd x)) + snd (snd x)), snd x)))
       (Seq (First (tree * Z) (assign "n" A1)) (Pure (fun x : tree * (tree * Z) => inl (HarvestProps.val (fst (snd x)))))))))).
(** assigning twice is allowed, and the last value wins *)
Theorem C45_assign_twice : 
  rb (init 10 (L 0) ex_twice None (L 6) 5) (fun m => rb (outputs 10 m [1; 2; 3]) (fun r => inl (fst r, fm_vars (snd r)))) = inl ([0; 1; 3], [("n", L 6)]).
Proof. vm_compute. reflexivity. Qed.
Example C46_init_succeeds_example : strictp var_plant ex_twice /\ lively var_plant ex_twice /\ legal var_plant ex_twice /\ repeats_ok (sites var_plant ex_twice []) /\
  legal asg ex_twice /\ repeats_ok (sites asg ex_twice []) /\ run 10 ex_twice (L 6, 5) = inl 0 /\ api_state ex_twice.
Proof.
  assert (H : exists r, call_and_reap var_plant ex_twice = inl r) by (eexists; reflexivity). apply C25_reap_succeeds_iff in H as [H1 H2].
  assert (H : exists r, call_and_reap asg ex_twice = inl r) by (eexists; reflexivity). apply C25_reap_succeeds_iff in H as [H3 H4].
  split; [cbn; repeat split; intros; try reflexivity; discriminate|]. split; [cbn; tauto|]. repeat (split; [assumption|]). split; [vm_compute; reflexivity|cbn; tauto].
Qed.
(** "other variables are unchanged" is false for a variable assigned in a loop that is not entered:
    def f(x, init_key): n = variable(7, 'n'); while x > 0: x = assign(x - 1, 'n'); return x *)
Definition ex_skipped : prog (tree * Z) Z :=
  Seq (Pure (fun kx : tree * Z => inl (L 7, snd kx)))
   (Seq (First Z (variable "n" A1))
    (Seq (Pure (fun nx : tree * Z => inl (L (snd nx))))
     (Seq (While (fun t => inl (0 <? HarvestProps.val t)) (Seq (step (fun x => x - 1)) (assign "n" A1)))
       (Pure (fun t => inl (HarvestProps.val t)))))).
Theorem C45_skipped_loop_refuted : api_state ex_skipped /\
  rb (init 10 (L 0) ex_skipped None (L 6) (-1)) (fun m => rb (fm_call_and_update 10 m (-1)) (fun r => inl (fm_vars m, fst r, fm_vars (snd r)))) = inl ([("n", L 7)], -1, [("n", L 0)]).
Proof. split; [cbn; tauto|vm_compute; reflexivity]. Qed.
Print Assumptions C46_init_succeeds.
Print Assumptions C45_call_and_update.
