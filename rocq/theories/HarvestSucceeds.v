(** C33: exactly when harvest (planting and reaping at once) raises. *)
From Verif Require Export HarvestTotal.

Section succeeds.
  Context {AR : Arrays}.
  Variable s : settings.
  (** like [legal], for the sows that are not planted *)
  Fixpoint legal_with {A B} (p : prog A B) (pd : plants) : Prop :=
    match p with
    | Pure _ | SowCond _ _ _ => True
    | Sow _ _ m _ => is_cond m = false
    | Seq p q => legal_with p pd /\ legal_with q pd
    | First _ p => legal_with p pd
    | Nest sc p => legal_with p (sub pd sc) /\ repeats_ok (sites s p (sub pd sc))
    | Call p => legal_with p pd /\ repeats_ok (sites s p pd)
    | Scan _ _ p => let pd' := body_plants (once (sites s p [])) pd in
        legal_with p pd' /\ repeats_ok (sites s p pd') /\ (forall n m a, In (n, (m, a)) (sites s p pd') -> m <> Strict) /\
        (is_cond (last_mode (once (sites s p pd'))) = true -> forall n m a, latest (sites s p pd') n = Some (m, a) -> m <> Clobber)
    | While _ p => legal_with p pd /\ repeats_ok (sites s p pd) /\ (forall n m a, In (n, (m, a)) (sites s p pd) -> clobberish m = true)
    | Cond p q => legal_with p pd /\ legal_with q pd /\ repeats_ok (sites s p pd) /\ repeats_ok (sites s q pd) /\ same_sows (sites s p pd) (sites s q pd)
    end.
  Lemma quiet_legal {A B} (p : prog A B) : quiet s p = true -> forall pd pd', legal_with p pd <-> legal_with p pd'.
  Proof.
    induction p as [A B f|A B C p IHp q IHq|A B C p IHp|t n m av|t n av|A B sc p IHp|A B p IHp|C X Y rv len p IHp|C c p IHp|A B p IHp q IHq]; cbn [quiet legal_with]; intros Hq pd pd'; try discriminate; try tauto.
    - apply andb_true_iff in Hq as [Q1 Q2]. rewrite (IHp Q1 pd pd'), (IHq Q2 pd pd'). tauto.
    - now apply IHp.
    - rewrite !(quiet_sites s s p Hq), (IHp Hq pd pd'). tauto.
    - rewrite !(quiet_sites s s p Hq), (IHp Hq pd pd'). tauto.
    - apply andb_true_iff in Hq as [Q1 Q2]. rewrite !(quiet_sites s s p Q1), !(quiet_sites s s q Q2), (IHp Q1 pd pd'), (IHq Q2 pd pd'). tauto.
  Qed.
  Lemma sites_of_planted {A B} (p : prog A B) sk dn dn' p' pd : plantT s p sk dn = inl (dn', p') -> fits sk pd -> sites s p' [] = sites s p pd.
  Proof. intros H Hf. exact (proj1 (plantT_sem s s p (or_introl eq_refl) sk dn dn' p' H pd Hf)). Qed.
  Lemma plantT_legal {A B} (p : prog A B) : forall sk dn dn' p', plantT s p sk dn = inl (dn', p') -> forall pd, fits sk pd -> legal s p' <-> legal_with p pd.
  Proof.
    induction p as [A B f|A B C p IHp q IHq|A B C p IHp|t n m av|t n av|A B sc p IHp|A B p IHp|C X Y rv len p IHp|C c p IHp|A B p IHp q IHq];
      intros sk dn dn' p' H pd Hf; cbn [plantT] in H; cbn [legal_with].
    - injection H as <- <-. cbn. tauto.
    - apply rb_inl in H as ([d1 p1] & H1 & H). apply rb_inl in H as ([d2 q1] & H2 & H). injection H as <- <-. cbn [fst snd legal] in *. rewrite (IHp _ _ _ _ H1 pd Hf), (IHq _ _ _ _ H2 pd Hf). tauto.
    - apply rb_inl in H as ([d1 p1] & H1 & H). injection H as <- <-. cbn [fst snd legal] in *. rewrite (IHp _ _ _ _ H1 pd Hf). tauto.
    - destruct (is_cond m) eqn:Em; [discriminate|]. assert (G : legal s p') by (destruct (String.eqb t (tag_of s)); [destruct (passes s n); [destruct (mem n dn); [discriminate|]; destruct (haskey sk n)|]|destruct (exclusive s)]; injection H as <- <-; cbn; tauto). tauto.
    - assert (G : legal s p') by (destruct (String.eqb t (tag_of s)); [destruct (passes s n); [destruct (mem n dn); [discriminate|]; destruct (haskey sk n)|]|destruct (exclusive s)]; injection H as <- <-; cbn; tauto). tauto.
    - apply rb_inl in H as (sk' & H0 & H). apply rb_inl in H as ([d1 p1] & H1 & H). injection H as <- <-. cbn [fst snd legal] in *.
      destruct (fits_sub _ _ _ _ _ _ Hf H0) as [Hf' E]. destruct (E s) as (E1 & _). rewrite (IHp _ _ _ _ H1 _ Hf'), (sites_of_planted p _ _ _ _ _ H1 Hf'), <- E1.
      assert (G : legal_with p (sub_plants sk pd sc) <-> legal_with p (sub pd sc)).
      { clear - H0 Hf. pose proof (fits_dget _ _ sc Hf) as Hg. unfold sub_skel, sub_plants, sub in *. destruct (dget sk sc) as [[|l]|], (dget pd sc) as [t|]; try discriminate; try tauto.
        - destruct (quiet s p) eqn:Q; [|discriminate]. apply quiet_legal, Q. }
      rewrite G. tauto.
    - apply rb_inl in H as ([d1 p1] & H1 & H). injection H as <- <-. cbn [fst snd legal] in *. rewrite (IHp _ _ _ _ H1 pd Hf), (sites_of_planted p _ _ _ _ _ H1 Hf). tauto.
    - apply rb_inl in H as ([Mb pb] & H0 & H). cbv zeta in H. cbn [fst snd] in H. destruct (existsb _ Mb) in H; [discriminate|].
      apply rb_inl in H as ([d1 p1] & H1 & H). injection H as <- <-. cbn [fst snd legal sites2 app] in *.
      assert (EM := reapT_meta s p _ _ _ H0). change (dmerge [] (sites s p [])) with (once (sites s p [])) in EM. subst Mb.
      rewrite (IHp _ _ _ _ H1 _ (fits_body _ _ _ Hf)), (sites_of_planted p _ _ _ _ _ H1 (fits_body _ _ _ Hf)). tauto.
    - apply rb_inl in H as ([Mb pb] & H0 & H). cbv zeta in H. cbn [fst snd] in H. destruct (existsb _ Mb) in H; [discriminate|].
      apply rb_inl in H as ([d1 p1] & H1 & H). injection H as <- <-. cbn [fst snd legal sites2 app] in *. rewrite (IHp _ _ _ _ H1 pd Hf), (sites_of_planted p _ _ _ _ _ H1 Hf). tauto.
    - apply rb_inl in H as ([M0 p0] & H0 & H). apply rb_inl in H as ([Mq q0] & H0' & H). apply rb_inl in H as ([] & Hcb & H).
      apply rb_inl in H as ([d1 p1] & H1 & H). apply rb_inl in H as ([d2 q1] & H2 & H). injection H as <- <-. cbn [fst snd legal sites2 app] in *.
      rewrite (IHp _ _ _ _ H1 pd Hf), (IHq _ _ _ _ H2 pd Hf), (sites_of_planted p _ _ _ _ _ H1 Hf), (sites_of_planted q _ _ _ _ _ H2 Hf). tauto.
  Qed.
  Theorem C33_harvest_succeeds_iff {A B} (p : prog A B) pd : (exists h, harvest s p pd = inl h) <->
    plantable s p (skels_of pd) /\ planted_once s p (skels_of pd) /\ legal_with p pd /\ repeats_ok (sites s p pd).
  Proof.
    split.
    - intros [h H]. unfold harvest in H. apply rb_inl in H as (q & Hq & H). destruct (proj1 (C31_plant_succeeds_iff s p pd) (ex_intro _ q Hq)) as [P1 P2]. split; [exact P1|]. split; [exact P2|].
      destruct (proj1 (C25_reap_succeeds_iff s q) (ex_intro _ h H)) as [L1 L2]. unfold plant in Hq. apply rb_inl in Hq as ([dn q'] & Hq & E). injection E as <-. cbn [snd] in *.
      rewrite (sites_of_planted p _ _ _ _ _ Hq (fits_skels_of pd)) in L2. split; [|exact L2]. apply (plantT_legal p _ _ _ _ Hq pd (fits_skels_of pd)), L1.
    - intros (P1 & P2 & L1 & L2). destruct (proj2 (C31_plant_succeeds_iff s p pd) (conj P1 P2)) as [q Hq]. unfold harvest. rewrite Hq. cbn [rb]. apply C25_reap_succeeds_iff. unfold plant in Hq. apply rb_inl in Hq as ([dn q'] & Hq & E). injection E as <-. cbn [snd].
      rewrite (sites_of_planted p _ _ _ _ _ Hq (fits_skels_of pd)). split; [|exact L2]. apply (plantT_legal p _ _ _ _ Hq pd (fits_skels_of pd)), L1.
  Qed.
  Theorem C33_harvest_total {A B} (p : prog A B) pd : plantable s p (skels_of pd) -> planted_once s p (skels_of pd) -> legal_with p pd -> repeats_ok (sites s p pd) -> regular s p pd ->
    exists h, harvest s p pd = inl h /\ forall fuel a, run fuel h (a, pd) = rb (sem s fuel p pd a) (fun bo => inl (fst bo, collect (once (sites s p pd)) (snd bo))).
  Proof. intros P1 P2 L1 L2 R. destruct (proj2 (C33_harvest_succeeds_iff p pd) (conj P1 (conj P2 (conj L1 L2)))) as [h H]. exists h. split; [exact H|]. now apply C33_harvest_partial. Qed.
End succeeds.

Example C33_succeeds_example : (exists h, harvest (all "t") ex [("h", L 10); ("f", Dict [])] = inl h) /\
  plantable (all "t") ex (skels_of [("h", L 10); ("f", Dict [])]) /\ planted_once (all "t") ex (skels_of [("h", L 10); ("f", Dict [])]) /\ legal_with (all "t") ex [("h", L 10); ("f", Dict [])] /\ repeats_ok (sites (all "t") ex [("h", L 10); ("f", Dict [])]).
Proof. assert (H : exists h, harvest (all "t") ex [("h", L 10); ("f", Dict [])] = inl h). { assert (E : match harvest (all "t") ex [("h", L 10); ("f", Dict [])] with inl _ => true | inr _ => false end = true) by (vm_compute; reflexivity). destruct (harvest (all "t") ex _) as [h|]; [eauto|discriminate]. } split; [exact H|]. exact (proj1 (C33_harvest_succeeds_iff (all "t") ex _) H). Qed.
Print Assumptions C33_harvest_succeeds_iff.
Print Assumptions C33_harvest_total.
