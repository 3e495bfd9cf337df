(** C27 for plant and harvest: the sows of other tags stay visible to an outer transformation. *)
From Verif Require Export HarvestSucceeds.

Section other.
  Context {AR : Arrays}.
  (** planting one tag changes nothing about the legality of the sows of another *)
  Lemma plantT_legal_other sP s {A B} (p : prog A B) : tag_of s <> tag_of sP -> exclusive sP = false -> forall sk dn dn' p', plantT sP p sk dn = inl (dn', p') -> forall pd, fits sk pd -> legal s p' <-> legal s p.
  Proof.
    intros Ht He. assert (Hs : forall A B (p : prog A B) sk dn dn' p' pd, plantT sP p sk dn = inl (dn', p') -> fits sk pd -> sites s p' [] = sites s p []).
    { intros A' B' p0 sk dn dn' p' pd H Hf. rewrite (proj1 (plantT_sem sP s p0 (or_intror (conj Ht He)) sk dn dn' p' H pd Hf)). apply sites2_other, Ht. }
    induction p as [A B f|A B C p IHp q IHq|A B C p IHp|t n m av|t n av|A B sc p IHp|A B p IHp|C X Y rv len p IHp|C c p IHp|A B p IHp q IHq];
      intros sk dn dn' p' H pd Hf; cbn [plantT] in H; cbn [legal].
    - injection H as <- <-. cbn. tauto.
    - apply rb_inl in H as ([d1 p1] & H1 & H). apply rb_inl in H as ([d2 q1] & H2 & H). injection H as <- <-. cbn [fst snd legal] in *. rewrite (IHp _ _ _ _ H1 pd Hf), (IHq _ _ _ _ H2 pd Hf). tauto.
    - apply rb_inl in H as ([d1 p1] & H1 & H). injection H as <- <-. cbn [fst snd legal] in *. rewrite (IHp _ _ _ _ H1 pd Hf). tauto.
    - destruct (is_cond m) eqn:Em; [discriminate|]. assert (G : legal s p') by (destruct (String.eqb t (tag_of sP)); [destruct (passes sP n); [destruct (mem n dn); [discriminate|]; destruct (haskey sk n)|]|destruct (exclusive sP)]; injection H as <- <-; cbn; tauto). tauto.
    - assert (G : legal s p') by (destruct (String.eqb t (tag_of sP)); [destruct (passes sP n); [destruct (mem n dn); [discriminate|]; destruct (haskey sk n)|]|destruct (exclusive sP)]; injection H as <- <-; cbn; tauto). tauto.
    - apply rb_inl in H as (sk' & H0 & H). apply rb_inl in H as ([d1 p1] & H1 & H). injection H as <- <-. cbn [fst snd legal] in *.
      destruct (fits_sub _ _ _ _ _ _ Hf H0) as [Hf' _]. rewrite (IHp _ _ _ _ H1 _ Hf'), (Hs _ _ p _ _ _ _ _ H1 Hf'). tauto.
    - apply rb_inl in H as ([d1 p1] & H1 & H). injection H as <- <-. cbn [fst snd legal] in *. rewrite (IHp _ _ _ _ H1 pd Hf), (Hs _ _ p _ _ _ _ _ H1 Hf). tauto.
    - apply rb_inl in H as ([Mb pb] & H0 & H). cbv zeta in H. cbn [fst snd] in H. destruct (existsb _ Mb) in H; [discriminate|].
      apply rb_inl in H as ([d1 p1] & H1 & H). injection H as <- <-. cbn [fst snd legal sites2 app] in *.
      assert (EM := reapT_meta sP p _ _ _ H0). change (dmerge [] (sites sP p [])) with (once (sites sP p [])) in EM. subst Mb.
      rewrite (IHp _ _ _ _ H1 _ (fits_body _ _ _ Hf)), (Hs _ _ p _ _ _ _ _ H1 (fits_body _ _ _ Hf)). tauto.
    - apply rb_inl in H as ([Mb pb] & H0 & H). cbv zeta in H. cbn [fst snd] in H. destruct (existsb _ Mb) in H; [discriminate|].
      apply rb_inl in H as ([d1 p1] & H1 & H). injection H as <- <-. cbn [fst snd legal sites2 app] in *. rewrite (IHp _ _ _ _ H1 pd Hf), (Hs _ _ p _ _ _ _ _ H1 Hf). tauto.
    - apply rb_inl in H as ([M0 p0] & H0 & H). apply rb_inl in H as ([Mq q0] & H0' & H). apply rb_inl in H as ([] & Hcb & H).
      apply rb_inl in H as ([d1 p1] & H1 & H). apply rb_inl in H as ([d2 q1] & H2 & H). injection H as <- <-. cbn [fst snd legal sites2 app] in *.
      rewrite (IHp _ _ _ _ H1 pd Hf), (IHq _ _ _ _ H2 pd Hf), (Hs _ _ p _ _ _ _ _ H1 Hf), (Hs _ _ q _ _ _ _ _ H2 Hf). tauto.
  Qed.
  Lemma tame2_other sP s {A B} (p : prog A B) : tag_of s <> tag_of sP -> forall pd, tame s p [] -> tame2 p sP s pd.
  Proof.
    intros Ht. induction p as [A B f|A B C p IHp q IHq|A B C p IHp|t n m av|t n av|A B sc p IHp|A B p IHp|C X Y rv len p IHp|C c p IHp|A B p IHp q IHq]; cbn [tame2]; intros pd H; auto.
    - split; [apply IHp|apply IHq]; apply H.
    - rewrite (sites2_other sP s p Ht). destruct H as [H1 H2]. split; [apply IHp, H1|exact H2].
    - rewrite (sites2_other sP s p Ht). destruct H as [H1 H2]. split; [apply IHp, H1|exact H2].
    - cbv zeta in *. rewrite (sites2_other sP s p Ht). destruct H as [H1 H2]. split; [apply IHp, H1|exact H2].
    - rewrite (sites2_other sP s p Ht). destruct H as [H1 H2]. split; [apply IHp, H1|exact H2].
    - rewrite (sites2_other sP s p Ht), (sites2_other sP s q Ht). destruct H as (H1 & H2 & H3 & H4). auto.
  Qed.
  (** nothing planted: the run does not depend on the tag that is planted *)
  Lemma scan_loop_on {C X Y} (P : X -> Prop) (f g : C * X -> res (C * Y)) : (forall c x, P x -> f (c, x) = g (c, x)) -> forall xs, Forall P xs -> forall c, scan_loop f c xs = scan_loop g c xs.
  Proof. intros H xs F. induction F as [|x xs Hx F IH]; intros c; [reflexivity|]. cbn [scan_loop]. rewrite H by exact Hx. apply rb_ext. intros [c' y]. cbn [fst snd]. rewrite IH. reflexivity. Qed.
  Lemma sem2_nothing sP s {A B} (p : prog A B) : tag_of s <> tag_of sP -> forall fuel a, sem2 sP s fuel p [] a = sem s fuel p [] a.
  Proof.
    intros Ht fuel. induction p as [A B f|A B C p IHp q IHq|A B C p IHp|t n m av|t n av|A B sc p IHp|A B p IHp|C X Y rv len p IHp|C c p IHp|A B p IHp q IHq]; intros a; cbn [sem2].
    - reflexivity.
    - rewrite IHp. apply rb_ext. intros [b o]. cbn [fst snd]. rewrite IHq. reflexivity.
    - rewrite IHp. reflexivity.
    - unfold at_sow. cbn [haskey dget]. rewrite !andb_false_r. reflexivity.
    - unfold at_sow. cbn [haskey dget]. rewrite !andb_false_r. reflexivity.
    - change (sub [] sc) with (@nil (string * tree)). rewrite IHp, (sites2_other sP s p Ht). reflexivity.
    - apply IHp.
    - rewrite !HarvestProofs2.scan_plants_nil. cbn [rb]. destruct a as [c0 xs]. cbn [fst snd]. destruct (Nat.eqb_spec (List.length xs) len) as [El|]; [|reflexivity].
      change (body_plants (once (sites sP p [])) []) with (@nil (string * tree)). change (body_plants (once (sites s p [])) []) with (@nil (string * tree)). rewrite (sites2_other sP s p Ht).
      unfold scan_sem. cbn [fst snd]. destruct (Nat.eqb _ len); [|reflexivity]. f_equal. f_equal. apply scan_loop_on with (P := fun xp => snd xp = []).
      + intros c [x pl] E. cbn [fst snd] in *. subst pl. rewrite IHp. reflexivity.
      + assert (F : Forall (fun xp : X * plants => snd xp = []) (combine xs (repeat [] len))). { subst len. induction xs; cbn; constructor; auto. }
        destruct rv; [apply Forall_rev, F|exact F].
    - rewrite (sites2_other sP s p Ht). f_equal. apply while_loop_ext. intros co. rewrite IHp. reflexivity.
    - destruct (fst a); auto.
  Qed.

  (** an outer reap of another tag succeeds on plant(f) exactly when it does on f, *)
  Theorem C27_plant_legal sP s {A B} (p : prog A B) pd q : tag_of s <> tag_of sP -> exclusive sP = false -> plant sP p pd = inl q ->
    (exists r, call_and_reap s q = inl r) <-> (exists r, call_and_reap s p = inl r).
  Proof.
    intros Ht He H. rewrite !C25_reap_succeeds_iff, (C27_plant_keeps_other_tags sP s p pd q Ht He H). unfold plant in H. apply rb_inl in H as ([dn q'] & H & E). injection E as <-. cbn [snd].
    rewrite (plantT_legal_other sP s p Ht He _ _ _ _ H pd (fits_skels_of pd)). tauto.
  Qed.
  (** and harvest(f) leaves the sows of other tags as plant(f) does: an outer reap returns what harvest(f) returns together with
      the values of the other tag in the run of plant(f) *)
  Theorem C27_harvest_keeps_other_tags s1 s2 {A B} (p : prog A B) pd h : tag_of s2 <> tag_of s1 -> exclusive s1 = false -> harvest s1 p pd = inl h -> (exists r, call_and_reap s2 p = inl r) -> regular s2 p [] ->
    exists q r h2, plant s1 p pd = inl q /\ call_and_reap s2 q = inl r /\ call_and_reap s2 h = inl h2 /\
      forall fuel a, run fuel h2 a = rb (run fuel h a) (fun x => rb (run fuel r a) (fun y => inl (x, snd y))).
  Proof.
    intros Ht He H Hr [T1 T2]. unfold harvest in H. apply rb_inl in H as (q & Hq & H). pose proof (proj2 (C27_plant_legal s1 s2 p pd q Ht He Hq) Hr) as (r & Hr').
    assert (Hreg : regular s2 q []).
    { split; [|rewrite (C27_plant_keeps_other_tags s1 s2 p pd q Ht He Hq); exact T2]. unfold plant in Hq. apply rb_inl in Hq as ([dn q'] & Hq & E). injection E as <-. cbn [snd].
      refine (proj1 (proj2 (plantT_sem s1 s2 p (or_intror (conj Ht He)) _ _ _ _ Hq pd (fits_skels_of pd))) _). apply tame2_other; auto. }
    destruct (C27_other_tags_kept_partial s1 s2 q h r (not_eq_sym Ht) He H Hr' Hreg) as (h2 & H2 & E). exists q, r, h2. auto.
  Qed.
  (** with nothing planted these are the values of the other tag in the run of f *)
  Theorem C27_harvest_nothing s1 s2 {A B} (p : prog A B) h r2 : tag_of s2 <> tag_of s1 -> exclusive s1 = false -> harvest s1 p [] = inl h -> call_and_reap s2 p = inl r2 -> regular s2 p [] ->
    exists h2, call_and_reap s2 h = inl h2 /\
      forall fuel a, run fuel h2 (a, []) = rb (run fuel h (a, [])) (fun x => rb (run fuel r2 a) (fun y => inl (x, snd y))).
  Proof.
    intros Ht He H Hr Hreg. destruct (C27_harvest_keeps_other_tags s1 s2 p [] h Ht He H (ex_intro _ r2 Hr) Hreg) as (q & r & h2 & Hq & Hr' & H2 & E). exists h2. split; [exact H2|]. intros fuel a. rewrite E. apply rb_ext. intros x.
    assert (Es := C27_plant_keeps_other_tags s1 s2 p [] q Ht He Hq). unfold plant in Hq. apply rb_inl in Hq as ([dn q'] & Hq & Eq). injection Eq as <-. cbn [snd] in *.
    destruct (plantT_sem s1 s2 p (or_intror (conj Ht He)) _ _ _ _ Hq [] (fits_skels_of [])) as (_ & K2 & K3). destruct Hreg as [T1 T2].
    rewrite (call_and_reap_sem s2 fuel q' r (a, []) Hr'), (call_and_reap_sem s2 fuel p r2 a Hr); [|split; auto|split; [apply K2, tame2_other; auto|rewrite Es; exact T2]].
    rewrite Es, K3, sem2_nothing by exact Ht. reflexivity.
  Qed.
End other.
Print Assumptions C27_plant_legal.
Print Assumptions C27_harvest_keeps_other_tags.
Print Assumptions C27_harvest_nothing.
