(** C68: reap, plant and harvest of a vmapped function are those of the function on every example. *)
From Verif Require Export VmapHarvestProps HarvestSucceeds.
Open Scope nat_scope.

Section vmap.
  Context {AR : Arrays}.
  Variable k : nat.
  Hypothesis kpos : 0 < k.

  (** ** Specification *)
  (** reap(f)(a), plant(f)(plants, a) and harvest(f)(plants, a) *)
  Definition reap_call (s : settings) (fuel : nat) {A B} (p : prog A B) (a : A) : res (B * list (string * tree)) :=
    rb (call_and_reap s p) (fun r => run fuel r a).
  Definition plant_call (s : settings) (fuel : nat) {A B} (p : prog A B) (pd : plants) (a : A) : res B :=
    rb (plant s p pd) (fun q => run fuel q (a, pd)).
  Definition harvest_call (s : settings) (fuel : nat) {A B} (p : prog A B) (pd : plants) (a : A) : res (B * list (string * tree)) :=
    rb (harvest s p pd) (fun h => run fuel h (a, pd)).
  (** the batched result: the outputs of the examples in order, and a dictionary whose arrays have a leading axis of length k
      that, indexed at i, gives the dictionary of example i *)
  Definition batched {B} (rs : list (B * list (string * tree))) (r : list B * list (string * tree)) : Prop :=
    fst r = map fst rs /\ leading k (Dict (snd r)) /\ forall i b d, nth_error rs i = Some (b, d) -> take i (Dict (snd r)) = Some (Dict d).
  (** batched plants *)
  Definition batched_plants (PD : plants) (pds : list plants) : Prop :=
    List.length pds = k /\ leading k (Dict PD) /\ forall i pd, nth_error pds i = Some pd -> take i (Dict PD) = Some (Dict pd).

  (** ** Proofs *)
  Lemma PR_body L i {A B} (p : prog A B) sP PD pd : mappable p -> (L = false -> no_append p) -> PR k L i PD pd ->
    PR k L i (body_plants (once (sites2 (vmapT k p) sP sP [])) PD) (body_plants (once (sites2 p sP sP [])) pd).
  Proof.
    intros Hm HL HP. set (M0 := once (sites2 p sP sP [])). set (M0' := once (sites2 (vmapT k p) sP sP [])).
    assert (H0 : MR k L M0 M0'). { apply MR_once. apply (sites_vmap k L sP p Hm (fun E => no_append_plain p (HL E)) sP [] [] i). apply PR_nil. }
    unfold body_plants. assert (N : app_plants M0 pd = [] /\ app_plants M0' PD = []).
    { destruct L.
      - destruct HP as [HP1 HP2]. rewrite (HP2 eq_refl) in *. inversion HP1; subst. split; apply VmapHarvestMain.app_plants_nil; right; reflexivity.
      - assert (N : no_apps M0) by (apply no_apps_once, no_append_sites, HL, eq_refl). split; apply VmapHarvestMain.app_plants_nil; left; [exact N|]. intros n m a Hin. destruct (MR_In k false _ _ n m a H0 Hin) as (a0 & Ha). exact (N n m a0 Ha). }
    destruct N as [-> ->]. cbn [app]. apply PR_clob; assumption.
  Qed.
  Lemma repeats_vmap2 L i {A B} (p : prog A B) s PD pd : mappable p -> (L = false -> scans_plain p) -> PR k L i PD pd -> repeats_ok (sites s p pd) <-> repeats_ok (sites s (vmapT k p) PD).
  Proof. intros H HL HP. apply (repeats_MR k L); [now apply (sites_vmap k L s p H HL s PD pd i)|now apply mappable_no_cond]. Qed.
  Lemma legal_with_vmap L i {A B} (p : prog A B) s : mappable p -> (L = false -> scans_plain p) -> forall PD pd, PR k L i PD pd -> legal_with s p pd <-> legal_with s (vmapT k p) PD.
  Proof.
    induction p as [A B f|A B C p IHp q IHq|A B C p IHp|t n m av|t n av|A B sc p IHp|A B p IHp|C X Y rv len p IHp|C c p IHp|A B p IHp q IHq]; cbn [mappable scans_plain vmapT legal_with sites2 app]; intros Hm HL PD pd HP; try contradiction.
    - tauto.
    - rewrite (IHp (proj1 Hm) (fun E => proj1 (HL E)) PD pd HP), (IHq (proj2 Hm) (fun E => proj2 (HL E)) PD pd HP). tauto.
    - rewrite (IHp Hm HL PD pd HP). tauto.
    - tauto.
    - rewrite (IHp Hm HL _ _ (PR_sub k L i PD pd sc HP)), (repeats_vmap2 L i p s _ _ Hm HL (PR_sub k L i PD pd sc HP)). tauto.
    - rewrite (IHp Hm HL PD pd HP), (repeats_vmap2 L i p s PD pd Hm HL HP). tauto.
    - rewrite app_nil_r. pose proof (PR_body L i p s PD pd Hm HL HP) as HB. pose proof (fun E => no_append_plain p (HL E)) as HL'. cbv zeta. rewrite !app_nil_r.
      set (pd' := body_plants (once (sites s p [])) pd) in *. set (PD' := body_plants (once (sites s (vmapT k p) [])) PD) in *.
      rewrite (IHp Hm HL' PD' pd' HB), (repeats_vmap2 L i p s PD' pd' Hm HL' HB).
      assert (Hst : (forall n m a, In (n, (m, a)) (sites s p pd') -> m <> Strict) <-> (forall n m a, In (n, (m, a)) (sites s (vmapT k p) PD') -> m <> Strict)).
      { pose proof (sites_vmap k L s p Hm HL' s PD' pd' i HB) as HM. split; intros G n m a Hin; [destruct (MR_In k L _ _ n m a HM Hin) as (a0 & Ha)|destruct (MR_In' k L _ _ n m a HM Hin) as (a0 & Ha)]; exact (G n m a0 Ha). }
      rewrite Hst. assert (N1 : is_cond (last_mode (once (sites s p pd'))) = true -> False) by (apply no_last_cond, mappable_no_cond, Hm).
      assert (N2 : is_cond (last_mode (once (sites s (vmapT k p) PD'))) = true -> False) by (apply no_last_cond, mappable_no_cond, mappable_vmap, Hm).
      split; [intros (G1 & G2 & G3 & G4)|intros (_ & ((_ & G1 & _) & G2 & G3 & G4) & _)].
      + split; [exact I|]. split; [|exact I]. split; [tauto|]. split; [exact G2|]. split; [exact G3|]. intros Hc. destruct (N2 Hc).
      + split; [exact G1|]. split; [exact G2|]. split; [exact G3|]. intros Hc. destruct (N1 Hc).
  Qed.
  Lemma sl_dict_inv L i D t : sl k L i (Dict D) t -> exists d, t = Dict d /\ Forall2 (ent k L i) D d.
  Proof. intros H. inversion H; subst. eauto. Qed.
  Lemma plants_PR PD pds i pd : batched_plants PD pds -> nth_error pds i = Some pd -> PR k false i PD pd.
  Proof.
    intros (Hl & Hlead & Ht) Hn. assert (Hi : i < k) by (rewrite <- Hl; apply nth_error_Some; congruence). destruct (take_sl k i (Dict PD) Hlead Hi) as (t & Hs). pose proof (sl_take k i _ _ Hs) as E. rewrite (Ht i pd Hn) in E. injection E as <-. apply sl_dict_inv in Hs as (d & [= <-] & HF). split; [exact HF|discriminate].
  Qed.
  Lemma PR_skels L i PD pd : PR k L i PD pd -> skels_of PD = skels_of pd.
  Proof. intros [H _]. unfold skels_of. induction H as [|e e' PD pd [E1 E2] _ IH]; cbn; [reflexivity|]. rewrite E1, (sl_skel k L i _ _ E2), IH. reflexivity. Qed.
  (** one execution of the examples and of the batch *)
  Section both.
    Context {A B : Type} (p : prog A B) (s : settings) (L : bool).
    Hypothesis Hm : mappable p.
    Hypothesis HL : L = false -> scans_plain p.
    Definition loosely (rs : list (B * list (string * tree))) (r : list B * list (string * tree)) : Prop :=
      fst r = map fst rs /\ forall i b d, nth_error rs i = Some (b, d) -> sl k L i (Dict (snd r)) (Dict d).
    Lemma collected PD (zs : list (A * plants)) fuel : List.length zs = k -> plantsR k L PD zs ->
      agree loosely (mapM (fun z => rb (sem s fuel p (snd z) (fst z)) (fun bo => inl (fst bo, collect (once (sites s p (snd z))) (snd bo)))) zs)
        (rb (sem s fuel (vmapT k p) PD (map fst zs)) (fun bo => inl (fst bo, collect (once (sites s (vmapT k p) PD)) (snd bo)))).
    Proof.
      intros Hk HP. eapply agree_l; [apply (mapM_rb (fun z => sem s fuel p (snd z) (fst z)) (fun z bo => inl (fst bo, collect (once (sites s p (snd z))) (snd bo))))|].
      eapply agree_rb; [apply (sem_vmap k kpos L s s fuel p Hm HL PD zs Hk HP)|]. intros rs [bs O] M _ [E HO]. apply mapM_length in M. rewrite mapM_inl. cbn [agree fst snd] in *. split.
      - cbn [fst]. rewrite map_map. cbn [fst]. rewrite <- (map_map snd fst). rewrite snd_combine by congruence. exact E.
      - intros i b d Hr. apply nth_map_inv in Hr as ([z r] & Hr & Er). apply nth_combine in Hr as [Hz Hr]. cbn [fst snd] in Er. injection Er as -> ->. constructor. cbn [snd].
        apply (OR_collect k L i); [rewrite <- Hk; apply nth_error_Some; congruence|apply MR_once, (sites_vmap k L s p Hm HL s PD (snd z) i), HP, Hz|exact (HO i r Hr)].
    Qed.
  End both.
  Lemma loosely_batched {B} (rs : list (B * list (string * tree))) r : List.length rs = k -> loosely false rs r -> batched rs r.
  Proof.
    intros Hk [E H]. split; [exact E|]. split.
    - apply leading_of; [exact kpos|]. intros i Hi. destruct (nth_ex rs i) as ([b d] & Hr); [lia|]. eexists. exact (H i b d Hr).
    - intros i b d Hr. apply (sl_take k), (H i b d Hr).
  Qed.
  Lemma agree_imp {X Y} (R R' : X -> Y -> Prop) x y : (forall a b, x = inl a -> R a b -> R' a b) -> agree R x y -> agree R' x y.
  Proof. destruct x, y; cbn; auto. Qed.

  (** ** Theorems *)
  (** vmap of the function itself: the model runs the function on every example *)
  Theorem C68_vmap_runs {A B} (p : prog A B) fuel l : mappable p -> List.length l = k ->
    match mapM (run fuel p) l with inl bs => run fuel (vmapT k p) l = inl bs | inr _ => exists e, run fuel (vmapT k p) l = inr e end.
  Proof.
    intros Hm Hl. set (s0 := mk_settings "" [] None false). set (zs := map (fun a => (a, @nil (string * tree))) l).
    assert (H : agree (VmapHarvestSem.good k true) (mapM (fun z => sem2 s0 s0 fuel p (snd z) (fst z)) zs) (sem2 s0 s0 fuel (vmapT k p) [] (map fst zs))).
    { apply (sem_vmap k kpos true s0 s0 fuel p Hm (fun E => False_ind _ (Bool.diff_true_false E)) [] zs); [unfold zs; now rewrite map_length|]. intros i z Hz. apply nth_map_inv in Hz as (a & _ & ->). apply PR_nil. }
    assert (E1 : map fst zs = l) by (unfold zs; rewrite map_map; apply map_id). rewrite E1 in H. unfold zs in H. rewrite mapM_map in H. cbn [fst snd] in H.
    rewrite (run_sem_eq s0 s0 fuel (vmapT k p) l). rewrite (mapM_ext (run fuel p) (fun a => rb (sem2 s0 s0 fuel p [] a) (fun bo => inl (fst bo)))) by (intros a _; apply (run_sem_eq s0 s0 fuel p a)).
    assert (G : agree eq (mapM (fun a => rb (sem2 s0 s0 fuel p [] a) (fun bo => inl (fst bo))) l) (rb (sem2 s0 s0 fuel (vmapT k p) [] l) (fun bo => inl (fst bo)))).
    { eapply agree_l; [apply (mapM_rb (sem2 s0 s0 fuel p []) (fun _ bo => inl (fst bo)))|]. eapply agree_rb; [exact H|]. intros rs [bs O] M _ [E _]. apply mapM_length in M. rewrite mapM_inl. cbn [agree fst] in *. rewrite <- (map_map snd fst). rewrite snd_combine by congruence. symmetry. exact E. }
    clear H. destruct (mapM _ l) as [bs|e], (rb (sem2 s0 s0 fuel (vmapT k p) [] l) _) as [bs'|e']; cbn in G; try contradiction; [congruence|eauto].
  Qed.
  (** vmapping does not change whether a function can be reaped *)
  Theorem C68_reap_raises_iff {A B} (p : prog A B) s : mappable p -> (exists r, call_and_reap s (vmapT k p) = inl r) <-> (exists r, call_and_reap s p = inl r).
  Proof. intros H. rewrite !C25_reap_succeeds_iff, <- (legal_vmap k p s H), <- (repeats_vmap k p s H). tauto. Qed.
  Lemma reap_both {A B} (p : prog A B) s L fuel l : mappable p -> (L = false -> scans_plain p) -> List.length l = k ->
    agree (loosely L) (mapM (reap_call s fuel p) l) (reap_call s fuel (vmapT k p) l).
  Proof.
    intros Hm HL Hl. unfold reap_call. destruct (call_and_reap s p) as [r|e] eqn:E; cbn [rb].
    - destruct (proj2 (C68_reap_raises_iff p s Hm) (ex_intro _ r E)) as [R ER]. rewrite ER. cbn [rb]. rewrite (call_and_reap_sem s fuel (vmapT k p) R l ER (mappable_regular _ s (mappable_vmap k p Hm) [])).
      rewrite (mapM_ext (run fuel r) (fun a => rb (sem s fuel p [] a) (fun bo => inl (fst bo, collect (once (sites s p [])) (snd bo))))) by (intros a _; apply (call_and_reap_sem s fuel p r a E (mappable_regular p s Hm []))).
      set (zs := map (fun a => (a, @nil (string * tree))) l).
      assert (H : agree (loosely L) (mapM (fun z => rb (sem s fuel p (snd z) (fst z)) (fun bo => inl (fst bo, collect (once (sites s p (snd z))) (snd bo)))) zs) (rb (sem s fuel (vmapT k p) [] (map fst zs)) (fun bo => inl (fst bo, collect (once (sites s (vmapT k p) [])) (snd bo))))).
      { apply (collected p s L Hm HL [] zs fuel); [unfold zs; now rewrite map_length|]. intros i z Hz. apply nth_map_inv in Hz as (a & _ & ->). apply PR_nil. }
      assert (E1 : map fst zs = l) by (unfold zs; rewrite map_map; apply map_id). rewrite E1 in H. unfold zs in H. rewrite mapM_map in H. exact H.
    - destruct (call_and_reap s (vmapT k p)) as [R|e'] eqn:ER; [destruct (proj1 (C68_reap_raises_iff p s Hm) (ex_intro _ R ER)) as [r E']; congruence|]. cbn [rb]. destruct (mapM_err (fun _ : A => (inr e : res (B * list (string * tree)))) l) as (e1 & E1); [|rewrite E1; exact I]. destruct l as [|a l]; [cbn in Hl; lia|]. exists a. split; [left; reflexivity|eauto].
  Qed.
  (** reaping the vmapped function gives what reaping the function gives for every example, stacked *)
  Theorem C68_reap_vmap {A B} (p : prog A B) s fuel l : mappable p -> scans_plain p -> List.length l = k ->
    match mapM (reap_call s fuel p) l with
    | inl rs => exists r, reap_call s fuel (vmapT k p) l = inl r /\ batched rs r
    | inr _ => exists e, reap_call s fuel (vmapT k p) l = inr e
    end.
  Proof.
    intros Hm HL Hl. pose proof (reap_both p s false fuel l Hm (fun _ => HL) Hl) as H. destruct (mapM _ l) as [rs|e] eqn:M, (reap_call s fuel (vmapT k p) l) as [r|e']; cbn in H; try contradiction; [|eauto]. exists r. split; [reflexivity|]. apply loosely_batched; [apply mapM_length in M; congruence|exact H].
  Qed.
  (** with sows in append mode inside scans: the batch axis of an array may come after the axes of the scans *)
  Theorem C68_reap_vmap_partial {A B} (p : prog A B) s fuel l : mappable p -> List.length l = k ->
    match mapM (reap_call s fuel p) l with
    | inl rs => exists r, reap_call s fuel (vmapT k p) l = inl r /\ loosely true rs r
    | inr _ => exists e, reap_call s fuel (vmapT k p) l = inr e
    end.
  Proof.
    intros Hm Hl. pose proof (reap_both p s true fuel l Hm (fun E => False_ind _ (Bool.diff_true_false E)) Hl) as H. destruct (mapM _ l) as [rs|e] eqn:M, (reap_call s fuel (vmapT k p) l) as [r|e']; cbn in H; try contradiction; [|eauto]. eauto.
  Qed.
  Lemma nth_combine_ex {X Y} (xs : list X) (ys : list Y) i z : nth_error (combine xs ys) i = Some z -> nth_error ys i = Some (snd z).
  Proof. destruct z as [x y]. intros H. now apply nth_combine in H as [_ H]. Qed.
  (** planting batched values in the vmapped function plants every example's value for this example *)
  Theorem C68_plant_vmap {A B} (p : prog A B) s fuel l PD pds : mappable p -> scans_plain p -> List.length l = k -> batched_plants PD pds ->
    match mapM (fun z => plant_call s fuel p (snd z) (fst z)) (combine l pds) with
    | inl bs => plant_call s fuel (vmapT k p) PD l = inl bs
    | inr _ => exists e, plant_call s fuel (vmapT k p) PD l = inr e
    end.
  Proof.
    intros Hm HL Hl HB. pose proof (proj1 HB) as Hp. set (zs := combine l pds). assert (Hz : List.length zs = k) by (unfold zs; rewrite combine_length; lia).
    assert (HP : plantsR k false PD zs) by (intros i z Hi; apply (plants_PR PD pds); [exact HB|eapply nth_combine_ex; exact Hi]).
    assert (Hs : forall z, In z zs -> (exists q, plant s p (snd z) = inl q) <-> (exists q, plant s (vmapT k p) PD = inl q)).
    { intros z Hin. apply In_nth_error in Hin as (i & Hi). rewrite !C31_plant_succeeds_iff, (PR_skels false i PD (snd z) (HP i z Hi)), <- (plantable_vmap k p s Hm), <- (once_vmap k p s _ Hm). tauto. }
    assert (G : agree eq (mapM (fun z => plant_call s fuel p (snd z) (fst z)) zs) (plant_call s fuel (vmapT k p) PD l)).
    { unfold plant_call. destruct (plant s (vmapT k p) PD) as [Q|e] eqn:EQ; cbn [rb].
      - rewrite (C31_plant_overrides s (vmapT k p) PD Q EQ fuel l). rewrite (mapM_ext _ (fun z => rb (sem s fuel p (snd z) (fst z)) (fun bo => inl (fst bo)))).
        2: { intros z Hin. destruct (proj2 (Hs z Hin) (ex_intro _ Q eq_refl)) as [q Eq]. rewrite Eq. cbn [rb]. apply (C31_plant_overrides s p (snd z) q Eq fuel (fst z)). }
        assert (E1 : map fst zs = l) by (apply fst_combine; congruence). rewrite <- E1. eapply agree_l; [apply (mapM_rb (fun z => sem s fuel p (snd z) (fst z)) (fun _ bo => inl (fst bo)))|].
        eapply agree_rb; [apply (sem_vmap k kpos false s s fuel p Hm (fun _ => HL) PD zs Hz HP)|]. intros rs [bs O] M _ [E _]. apply mapM_length in M. rewrite mapM_inl. cbn [agree fst] in *. rewrite <- (map_map snd fst). rewrite snd_combine by congruence. symmetry. exact E.
      - destruct (mapM_err (fun z => rb (plant s p (snd z)) (fun q => run fuel q (fst z, snd z))) zs) as (e1 & E1); [|rewrite E1; exact I]. destruct (nth_ex zs 0) as (z & Hz0); [lia|]. exists z. pose proof (nth_error_In _ _ Hz0) as Hin. split; [exact Hin|]. destruct (plant s p (snd z)) as [q|e2] eqn:Eq; [|cbn; eauto]. destruct (proj1 (Hs z Hin) (ex_intro _ q Eq)) as [Q HQ]. discriminate. }
    destruct (mapM _ zs) as [bs|e], (plant_call s fuel (vmapT k p) PD l) as [bs'|e']; cbn in G; try contradiction; [congruence|eauto].
  Qed.
  (** harvesting: planting some of the names and reaping the others *)
  Theorem C68_harvest_vmap {A B} (p : prog A B) s fuel l PD pds : mappable p -> scans_plain p -> List.length l = k -> batched_plants PD pds ->
    match mapM (fun z => harvest_call s fuel p (snd z) (fst z)) (combine l pds) with
    | inl rs => exists r, harvest_call s fuel (vmapT k p) PD l = inl r /\ batched rs r
    | inr _ => exists e, harvest_call s fuel (vmapT k p) PD l = inr e
    end.
  Proof.
    intros Hm HL Hl HB. pose proof (proj1 HB) as Hp. set (zs := combine l pds). assert (Hz : List.length zs = k) by (unfold zs; rewrite combine_length; lia).
    assert (HP : plantsR k false PD zs) by (intros i z Hi; apply (plants_PR PD pds); [exact HB|eapply nth_combine_ex; exact Hi]).
    assert (Hs : forall z, In z zs -> (exists q, harvest s p (snd z) = inl q) <-> (exists q, harvest s (vmapT k p) PD = inl q)).
    { intros z Hin. apply In_nth_error in Hin as (i & Hi). rewrite !C33_harvest_succeeds_iff, (PR_skels false i PD (snd z) (HP i z Hi)), <- (plantable_vmap k p s Hm), <- (once_vmap k p s _ Hm), <- (legal_with_vmap false i p s Hm (fun _ => HL) PD (snd z) (HP i z Hi)), <- (repeats_vmap2 false i p s PD (snd z) Hm (fun _ => HL) (HP i z Hi)). tauto. }
    assert (G : agree (loosely false) (mapM (fun z => harvest_call s fuel p (snd z) (fst z)) zs) (harvest_call s fuel (vmapT k p) PD l)).
    { unfold harvest_call. destruct (harvest s (vmapT k p) PD) as [Q|e] eqn:EQ; cbn [rb].
      - rewrite (C33_harvest_partial s (vmapT k p) PD Q EQ (mappable_regular _ s (mappable_vmap k p Hm) PD) fuel l). rewrite (mapM_ext _ (fun z => rb (sem s fuel p (snd z) (fst z)) (fun bo => inl (fst bo, collect (once (sites s p (snd z))) (snd bo))))).
        2: { intros z Hin. destruct (proj2 (Hs z Hin) (ex_intro _ Q eq_refl)) as [q Eq]. rewrite Eq. cbn [rb]. apply (C33_harvest_partial s p (snd z) q Eq (mappable_regular p s Hm (snd z)) fuel (fst z)). }
        assert (E1 : map fst zs = l) by (apply fst_combine; congruence). rewrite <- E1. apply (collected p s false Hm (fun _ => HL) PD zs fuel Hz HP).
      - destruct (mapM_err (fun z => rb (harvest s p (snd z)) (fun q => run fuel q (fst z, snd z))) zs) as (e1 & E1); [|rewrite E1; exact I]. destruct (nth_ex zs 0) as (z & Hz0); [lia|]. exists z. pose proof (nth_error_In _ _ Hz0) as Hin. split; [exact Hin|]. destruct (harvest s p (snd z)) as [q|e2] eqn:Eq; [|cbn; eauto]. destruct (proj1 (Hs z Hin) (ex_intro _ q Eq)) as [Q HQ]. discriminate. }
    destruct (mapM _ zs) as [rs|e] eqn:M, (harvest_call s fuel (vmapT k p) PD l) as [r|e']; cbn in G; try contradiction; [|eauto]. exists r. split; [reflexivity|]. apply loosely_batched; [apply mapM_length in M; congruence|exact G].
  Qed.
End vmap.

(** ** Concrete cases *)
(** x sown as "h"; x+1 sown as "g" in the scope "f"; then a scan with a clobber sow *)
Definition exv_body : prog (tree * Z) (tree * tree) :=
  Seq (Pure (fun cx => inl (L (val (fst cx) + snd cx), tt))) (Seq (First unit (Sow "t" "w" Clobber A1)) (Pure (fun x => inl (fst x, fst x)))).
Definition exv : prog tree (tree * list tree) :=
  Seq (Sow "t" "h" Strict A1) (Seq (step (fun x => x + 1)%Z) (Seq (Nest "f" (Sow "t" "g" Strict A1)) (Seq (Pure (fun t => inl (t, [1; 2; 3]%Z))) (Scan true 3 exv_body)))).
Theorem C68_exv_ok : mappable exv /\ scans_plain exv.
Proof. cbn. tauto. Qed.
Theorem C68_reap_example :
  mapM (reap_call (all "t") 10 exv) [L 4; L 20] = inl [((L 11, [L 11; L 10; L 8]), [("h", L 4); ("f", Dict [("g", L 5)]); ("w", L 11)]); ((L 27, [L 27; L 26; L 24]), [("h", L 20); ("f", Dict [("g", L 21)]); ("w", L 27)])] /\
  reap_call (all "t") 10 (vmapT 2 exv) [L 4; L 20] = inl ([(L 11, [L 11; L 10; L 8]); (L 27, [L 27; L 26; L 24])], [("h", Stk [L 4; L 20]); ("f", Dict [("g", Stk [L 5; L 21])]); ("w", Stk [L 11; L 27])]).
Proof. split; vm_compute; reflexivity. Qed.
Definition exv_plants : plants := [("f", Dict [("g", Stk [L 100; L 200])])].
Theorem C68_plants_ok : batched_plants 2 exv_plants [[("f", Dict [("g", L 100)])]; [("f", Dict [("g", L 200)])]].
Proof.
  split; [reflexivity|]. split; [|intros [|[|[|i]]] pd Hi; try discriminate; injection Hi as <-; reflexivity]. repeat constructor; try discriminate.
Qed.
Theorem C68_harvest_example :
  harvest_call (all "t") 10 (vmapT 2 exv) exv_plants [L 4; L 20] = inl ([(L 106, [L 106; L 105; L 103]); (L 206, [L 206; L 205; L 203])], [("h", Stk [L 4; L 20]); ("w", Stk [L 106; L 206])]).
Proof. vm_compute. reflexivity. Qed.
(** an append sow in a scan: the scan's axis comes before the batch axis *)
Theorem C68_append_axis_refuted : let p := Seq (Pure (fun t => inl (t, [1; 2; 3]%Z))) (Scan false 3 body) in
  mappable p /\ mapM (reap_call (all "t") 10 p) [L 0; L 10] = inl [((L 6, [L 1; L 3; L 6]), [("c", Stk [L 1; L 3; L 6])]); ((L 16, [L 11; L 13; L 16]), [("c", Stk [L 11; L 13; L 16])])] /\
  exists D, reap_call (all "t") 10 (vmapT 2 p) [L 0; L 10] = inl ([(L 6, [L 1; L 3; L 6]); (L 16, [L 11; L 13; L 16])], D) /\ D = [("c", Stk [Stk [L 1; L 11]; Stk [L 3; L 13]; Stk [L 6; L 16]])] /\ take 0 (Dict D) <> Some (Dict [("c", Stk [L 1; L 3; L 6])]).
Proof. cbv zeta. split; [cbn; tauto|]. split; [vm_compute; reflexivity|]. eexists. split; [vm_compute; reflexivity|]. split; [reflexivity|vm_compute; discriminate]. Qed.
(** a while loop with a predicate per example: the example that stops first gets the value of an iteration it does not run *)
Definition countdown : prog tree tree := While (fun t => inl (Z.ltb 0 (val t))) (Seq (step (fun x => x - 1)%Z) (Sow "t" "w" Clobber A1)).
Theorem C68_while_refuted :
  mapM (reap_call (all "t") 10 countdown) [L 1; L 3] = inl [(L 0, [("w", L 0)]); (L 0, [("w", L 0)])] /\
  reap_call (all "t") 10 (vmapT 2 countdown) [L 1; L 3] = inl ([L 0; L 0], [("w", Stk [L (-1); L 0])]).
Proof. split; vm_compute; reflexivity. Qed.
(** a conditional with a predicate per example: strict names raise, clobber names have the value of the True branch *)
Definition branches (m : mode) : prog (bool * tree) tree := Cond (Seq (step (fun x => x + 1)%Z) (Sow "t" "w" m A1)) (Seq (step (fun x => x - 1)%Z) (Sow "t" "w" m A1)).
Theorem C68_cond_refuted :
  mapM (reap_call (all "t") 10 (branches Strict)) [(true, L 1); (false, L 1)] = inl [(L 2, [("w", L 2)]); (L 0, [("w", L 0)])] /\
  (exists e, reap_call (all "t") 10 (vmapT 2 (branches Strict)) [(true, L 1); (false, L 1)] = inr e) /\
  mapM (reap_call (all "t") 10 (branches Clobber)) [(true, L 1); (false, L 1)] = inl [(L 2, [("w", L 2)]); (L 0, [("w", L 0)])] /\
  reap_call (all "t") 10 (vmapT 2 (branches Clobber)) [(true, L 1); (false, L 1)] = inl ([L 2; L 0], [("w", Stk [L 2; L 2])]).
Proof. split; [vm_compute; reflexivity|]. split; [eexists; vm_compute; reflexivity|]. split; vm_compute; reflexivity. Qed.
Print Assumptions C68_reap_vmap.
Print Assumptions C68_harvest_vmap.
Print Assumptions C68_plant_vmap.
Print Assumptions C68_vmap_runs.
