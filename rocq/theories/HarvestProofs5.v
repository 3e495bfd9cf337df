(** Repeated names, planting the reaped values (C25, C32). *)
From Verif Require Export HarvestProofs4.

Section strict.
  Context {AR : Arrays}.
  Variable s : settings.

  Lemma reapT_resow {A B} (p : prog A B) : forall M M' p', reapT s p M = inl (M', p') -> resow_meta s M (sites s p []) = inl M'.
  Proof.
    induction p as [A B f|A B C p IHp q IHq|A B C p IHp|t n m av|t n av|A B sc p IHp|A B p IHp|C X Y rv len p IHp|C c p IHp|A B p IHp q IHq];
      intros M M' p' H; cbn [reapT sites2] in *.
    - injection H as <- <-. reflexivity.
    - apply rb_inl in H as ([M1 p1] & H1 & H). apply rb_inl in H as ([M2 q1] & H2 & H). injection H as <- <-. cbn [fst snd] in *.
      rewrite resow_meta_app. rewrite (IHp _ _ _ H1). cbn [rb]. eapply IHq, H2.
    - apply rb_inl in H as ([M1 p1] & H1 & H). injection H as <- <-. eapply IHp, H1.
    - destruct (is_cond m); [discriminate|]. rewrite site_here_nil. unfold seen. destruct (String.eqb t (tag_of s)); [destruct (passes s n) eqn:Ep|destruct (exclusive s)]; try (injection H as <- <-; reflexivity).
      apply rb_inl in H as (M1 & H1 & H). injection H as <- <-. cbn. rewrite Ep, H1. reflexivity.
    - rewrite site_here_nil. unfold seen. destruct (String.eqb t (tag_of s)); [destruct (passes s n) eqn:Ep|destruct (exclusive s)]; try (injection H as <- <-; reflexivity).
      apply rb_inl in H as (M1 & H1 & H). injection H as <- <-. cbn. rewrite Ep, H1. reflexivity.
    - apply rb_inl in H as ([M1 p1] & H1 & H). apply rb_inl in H as (M2 & H2 & H). injection H as <- <-. cbn [fst snd] in *.
      apply reapT_meta in H1. change (sub [] sc) with (@nil (string * tree)). unfold scope_site. change (dmerge [] (sites s p [])) with (once (sites s p [])) in H1.
      destruct (sites s p []) as [|e l] eqn:E; [subst M1; cbn [once dmerge fold_left] in H2; exact H2|].
      destruct M1 as [|e1 l1]; [symmetry in H1; apply (proj1 (once_nil _)) in H1; discriminate|].
      rewrite <- H1. cbn [resow_meta] in H2. destruct (passes s sc) eqn:Ep; cbn [resow_meta]; [rewrite Ep; exact H2|exact H2].
    - apply rb_inl in H as ([M1 p1] & H1 & H). apply rb_inl in H as (M2 & H2 & H). injection H as <- <-. cbn [fst snd] in *.
      apply reapT_meta in H1. subst M1. exact H2.
    - apply rb_inl in H as ([M1 p1] & H1 & H). cbv zeta in H. destruct (existsb _ _) in H; [discriminate|].
      destruct (is_cond _ && _)%bool in H; [discriminate|]. apply rb_inl in H as (M2 & H2 & H). injection H as <- <-.
      apply reapT_meta in H1. subst M1. exact H2.
    - apply rb_inl in H as ([M1 p1] & H1 & H). cbv zeta in H. destruct (existsb _ _) in H; [discriminate|].
      apply rb_inl in H as (M2 & H2 & H). injection H as <- <-. apply reapT_meta in H1. subst M1. exact H2.
    - apply rb_inl in H as ([M1 p1] & H1 & H). apply rb_inl in H as ([M2 q1] & H2 & H). apply rb_inl in H as (? & _ & H). apply rb_inl in H as (M3 & H3 & H).
      injection H as <- <-. apply reapT_meta in H1. cbn [fst snd] in *. subst M1. exact H3.
  Qed.

  (** a name already present can only be re-sown if both modes are clobber modes *)
  Lemma resow_meta_twice l : all_pass s l -> forall M M' n m1 a1, resow_meta s M l = inl M' -> dget M n = Some (m1, a1) ->
    forall m2 a2, In (n, (m2, a2)) l -> clobberish m1 = true /\ clobberish m2 = true.
  Proof.
    induction l as [|[k [m a]] l IH]; intros Hp M M' n m1 a1 H Hg m2 a2 Hin; [destruct Hin|]. cbn in H. rewrite Hp in H by (simpl; auto).
    apply rb_inl in H as (M1 & H1 & H). pose proof (handle_inl _ _ _ _ _ H1) as ->.
    destruct Hin as [E|Hin].
    - injection E as -> -> ->. unfold handle in H1. rewrite Hg in H1. destruct (clobberish m2 && clobberish m1)%bool eqn:E; [|discriminate]. apply andb_true_iff in E. tauto.
    - destruct (String.eqb_spec n k) as [->|Hn].
      + unfold handle in H1. rewrite Hg in H1. destruct (clobberish m && clobberish m1)%bool eqn:E; [|discriminate]. apply andb_true_iff in E as [E1 E2].
        split; [exact E2|]. eapply (IH (fun j Hj => Hp j (or_intror Hj)) _ _ k m a H); [|exact Hin]. rewrite dget_dset, String.eqb_refl. reflexivity.
      + eapply (IH (fun j Hj => Hp j (or_intror Hj)) _ _ n m1 a1 H); [|exact Hin]. rewrite dget_dset. destruct (String.eqb_spec n k); [contradiction|exact Hg].
  Qed.
  Lemma resow_meta_dup l1 l2 : all_pass s (l1 ++ l2) -> forall M M' n m1 a1 m2 a2, resow_meta s M (l1 ++ (n, (m1, a1)) :: l2) = inl M' -> passes s n = true ->
    In (n, (m2, a2)) l2 -> clobberish m1 = true /\ clobberish m2 = true.
  Proof.
    intros Hp M M' n m1 a1 m2 a2 H Hn Hin. rewrite resow_meta_app in H. apply rb_inl in H as (M1 & H1 & H). cbn in H. rewrite Hn in H.
    apply rb_inl in H as (M2 & H2 & H). apply handle_inl in H2. subst M2. eapply (resow_meta_twice l2); [|exact H| |exact Hin].
    - intros k Hk. apply Hp. unfold dkeys. rewrite map_app. apply in_or_app. right. exact Hk.
    - rewrite dget_dset, String.eqb_refl. reflexivity.
  Qed.

  (** programs whose seen sows are strict or append *)
  Fixpoint strictp {A B} (p : prog A B) : Prop :=
    match p with
    | Pure _ => True
    | Seq p q | Cond p q => strictp p /\ strictp q
    | First _ p | Nest _ p | Call p | Scan _ _ p | While _ p => strictp p
    | Sow t n m _ => seen s t n = true -> clobberish m = false
    | SowCond t n _ => seen s t n = false
    end.
  Definition no_clob (l : meta) : Prop := forall n m a, In (n, (m, a)) l -> clobberish m = false.
  Lemma strictp_sites {A B} (p : prog A B) : strictp p -> forall pd, no_clob (sites s p pd).
  Proof.
    unfold no_clob.
    induction p as [A B f|A B C p IHp q IHq|A B C p IHp|t n m av|t n av|A B sc p IHp|A B p IHp|C X Y rv len p IHp|C c p IHp|A B p IHp q IHq]; cbn [strictp sites2]; intros H pd k m' a Hin.
    - destruct Hin.
    - destruct H. apply in_app_or in Hin as [Hin|Hin]; eauto.
    - eauto.
    - unfold site_here in Hin. destruct (seen s t n); cbn in Hin; [|destruct Hin]. destruct (negb (haskey pd n)); [|destruct Hin]. destruct Hin as [E|[]]. injection E as <- <- <-. auto.
    - unfold site_here in Hin. rewrite H in Hin. destruct Hin.
    - unfold scope_site in Hin. destruct (sites s p (sub pd sc)); [destruct Hin|]. destruct (passes s sc); [|destruct Hin]. destruct Hin as [E|[]]. injection E as _ <- _. reflexivity.
    - apply once_incl in Hin. eauto.
    - cbv zeta in Hin. apply in_app_or in Hin as [Hin|Hin].
      + apply filter_In in Hin as [Hin _]. apply once_incl in Hin. eauto.
      + unfold stack_meta in Hin. apply in_map_iff in Hin as ([k' [m2 a2]] & E & Hin). cbn in E. injection E as <- <- _. apply filter_In in Hin as [Hin _]. apply once_incl in Hin. eauto.
    - apply once_incl in Hin. eauto.
    - destruct H. apply once_incl in Hin. eauto.
  Qed.
  Lemma no_clob_no_cond l : no_clob l -> no_cond l.
  Proof. intros H n m a Hin. apply H in Hin. destruct m; auto; discriminate. Qed.
  Lemma no_cond_no_mix l : no_cond l -> no_mix l.
  Proof. intros H n m1 a1 m2 a2 H1 H2. apply H in H1, H2. congruence. Qed.
  Lemma strictp_tame {A B} (p : prog A B) : strictp p -> forall pd, tame s p pd.
  Proof.
    induction p as [A B f|A B C p IHp q IHq|A B C p IHp|t n m av|t n av|A B sc p IHp|A B p IHp|C X Y rv len p IHp|C c p IHp|A B p IHp q IHq]; cbn [strictp tame2]; intros H pd; auto.
    - destruct H; auto.
    - split; [auto|]. apply no_clob_no_cond, strictp_sites, H.
    - split; [auto|]. apply no_cond_no_mix, no_clob_no_cond, strictp_sites, H.
    - split; [auto|]. left. apply no_clob_no_cond, strictp_sites, H.
    - split; [auto|]. apply no_cond_no_mix, no_clob_no_cond, strictp_sites, H.
    - destruct H. repeat split; auto; apply no_cond_no_mix, no_clob_no_cond, strictp_sites; assumption.
  Qed.
  Lemma resow_meta_nodup l : all_pass s l -> no_clob l -> forall M M', resow_meta s M l = inl M' -> NoDup (dkeys l) /\ forall n, In n (dkeys l) -> dget M n = None.
  Proof.
    induction l as [|[k [m a]] l IH]; intros Hp Hc M M' H; [split; [constructor|intros n []]|].
    pose proof H as H0. cbn in H. rewrite Hp in H by (simpl; auto). apply rb_inl in H as (M1 & H1 & H). pose proof (handle_inl _ _ _ _ _ H1) as ->.
    destruct (IH (fun j Hj => Hp j (or_intror Hj)) (fun n m a Hn => Hc n m a (or_intror Hn)) _ _ H) as [IH1 IH2].
    assert (Hk : dget M k = None).
    { destruct (dget M k) as [[m0 a0]|] eqn:E; [|reflexivity]. unfold handle in H1. rewrite E in H1. rewrite (Hc k m a) in H1 by (simpl; auto). discriminate. }
    split.
    - cbn. constructor; [|exact IH1]. intros Hin. apply IH2 in Hin. rewrite dget_dset, String.eqb_refl in Hin. discriminate.
    - cbn. intros n [<-|Hin]; [exact Hk|]. apply IH2 in Hin. rewrite dget_dset in Hin. destruct (String.eqb_spec n k); [discriminate|exact Hin].
  Qed.
  Lemma once_nodup_id (l : meta) : NoDup (dkeys l) -> once l = l.
  Proof.
    unfold once. assert (K : forall M, NoDup (dkeys (M ++ l)) -> dmerge M l = M ++ l).
    { induction l as [|[k x] l IH]; intros M Hd; [rewrite app_nil_r; reflexivity|]. change (dmerge M ((k, x) :: l)) with (dmerge (dset M k x) l).
      assert (E : dset M k x = M ++ [(k, x)]).
      { unfold dkeys in Hd. rewrite map_app in Hd. cbn in Hd. apply NoDup_remove_2 in Hd. clear IH. assert (Hk : ~ In k (map fst M)) by (intros Hk; apply Hd, in_or_app; auto). clear Hd.
        induction M as [|[j y] M IHM]; [reflexivity|]. cbn in *. destruct (String.eqb_spec k j) as [->|]; [exfalso; auto|]. f_equal. auto. }
      rewrite E, IH; [rewrite <- app_assoc; reflexivity|]. rewrite <- app_assoc. exact Hd. }
    intros Hd. apply (K []). exact Hd.
  Qed.

  (** ** programs without seen sows: planting changes nothing *)
  Hypothesis Hall : forall n, passes s n = true.
  Lemma sites_nil_mute {A B} (p : prog A B) : forall M r, reapT s p M = inl r -> strictp p -> sites s p [] = [] -> mute s p.
  Proof.
    induction p as [A B f|A B C p IHp q IHq|A B C p IHp|t n m av|t n av|A B sc p IHp|A B p IHp|C X Y rv len p IHp|C c p IHp|A B p IHp q IHq]; intros M r H Hs E; cbn [reapT sites2 strictp mute] in *.
    - exact I.
    - apply rb_inl in H as (r1 & H1 & H). apply rb_inl in H as (r2 & H2 & H). apply app_eq_nil in E as [E1 E2]. destruct Hs. eauto.
    - apply rb_inl in H as (r1 & H1 & H). eauto.
    - rewrite site_here_nil in E. destruct (seen s t n); [discriminate|reflexivity].
    - assumption.
    - change (sub [] sc) with (@nil (string * tree)) in E. unfold scope_site in E. rewrite Hall in E. apply rb_inl in H as (r1 & H1 & H). destruct (sites s p []) eqn:E1; [|discriminate]. eauto.
    - apply rb_inl in H as (r1 & H1 & H). apply (proj1 (once_nil _)) in E. eauto.
    - change (body_plants (once (sites s p [])) []) with (@nil (string * tree)) in E. apply rb_inl in H as ([M1 p1] & H1 & H). cbv zeta in *. cbn [fst snd] in H.
      destruct (existsb (fun e => is_strict (fst (snd e))) M1) eqn:Ex; [discriminate|]. apply (IHp _ _ H1 Hs). apply (proj1 (once_nil _)).
      apply reapT_meta in H1. change (dmerge [] (sites s p [])) with (once (sites s p [])) in H1. rewrite <- H1 in *.
      destruct M1 as [|[k [m a]] M1]; [reflexivity|]. exfalso. apply app_eq_nil in E as [_ E]. cbn [existsb fst snd] in Ex. apply orb_false_iff in Ex as [Ex _].
      assert (Hc : clobberish m = false). { eapply (strictp_sites p Hs []), once_incl. rewrite <- H1. left. reflexivity. }
      destruct m; try discriminate Ex; try discriminate Hc. discriminate E.
    - apply rb_inl in H as (r1 & H1 & H). apply (proj1 (once_nil _)) in E. eauto.
    - apply rb_inl in H as ([M1 p1] & H1 & H). apply rb_inl in H as ([M2 q1] & H2 & H). apply rb_inl in H as ([] & Hcb & H). apply (proj1 (once_nil _)) in E. destruct Hs as [Hs1 Hs2].
      split; [eauto|]. apply (IHq _ _ H2 Hs2). apply reapT_meta in H1, H2. cbn [fst snd] in Hcb. change (dmerge [] (sites s q [])) with (once (sites s q [])) in H2. rewrite E in H1. cbn in H1. subst M1.
      unfold check_branches in Hcb. destruct (Nat.eqb_spec (List.length M2) (List.length (@nil (string * (mode * aval))))) as [El|]; [|discriminate].
      destruct M2; [|discriminate]. symmetry in H2. apply (proj1 (once_nil _)) in H2. exact H2.
  Qed.
  Lemma clob_plants_nil (pd : plants) : clob_plants [] pd = [].
  Proof. unfold clob_plants. induction pd as [|x pd IH]; [reflexivity|exact IH]. Qed.
  Lemma app_plants_nil (pd : plants) : app_plants [] pd = [].
  Proof. unfold app_plants. induction pd as [|x pd IH]; [reflexivity|exact IH]. Qed.
  Lemma scan_plants_mute len pd : scan_plants [] len pd = inl (repeat [] len).
  Proof. unfold scan_plants. rewrite app_plants_nil. cbn. f_equal. rewrite clob_plants_nil. induction len; cbn; [reflexivity|]. f_equal. exact IHlen. Qed.
  Lemma while_loop_ext {C} (c : C -> res bool) (f g : C -> res C) : (forall x, f x = g x) -> forall n x, while_loop n c f x = while_loop n c g x.
  Proof.
    intros K n. induction n as [|n IH]; intros x; cbn [while_loop]; apply rb_ext; intros [|]; try reflexivity. rewrite K. apply rb_ext. intros y. apply IH.
  Qed.
  Lemma mute_plants fuel {A B} (p : prog A B) : mute s p -> forall sk dn r, plantT s p sk dn = inl r -> forall D, fits sk D ->
    forall a, sem s fuel p D a = sem s fuel p [] a.
  Proof.
    induction p as [A B f|A B C p IHp q IHq|A B C p IHp|t n m av|t n av|A B sc p IHp|A B p IHp|C X Y rv len p IHp|C c p IHp|A B p IHp q IHq]; cbn [mute plantT sem2]; intros Hm sk dn r H D Hf a.
    - reflexivity.
    - destruct Hm as [Hm1 Hm2]. apply rb_inl in H as (r1 & H1 & H). apply rb_inl in H as (r2 & H2 & H). erewrite IHp by eassumption. apply rb_ext. intros [b o]. erewrite IHq by eassumption. reflexivity.
    - apply rb_inl in H as (r1 & H1 & H). erewrite IHp by eassumption. reflexivity.
    - unfold at_sow. rewrite Hm. reflexivity.
    - unfold at_sow. rewrite Hm. reflexivity.
    - apply rb_inl in H as (sk' & H0 & H). apply rb_inl in H as (r1 & H1 & H). destruct (fits_sub _ _ _ _ _ _ Hf H0) as [Hf' E]. destruct (E s) as (E1 & E2 & E3). rewrite E3.
      change (sub [] sc) with (@nil (string * tree)). cbn [rb]. erewrite IHp by eassumption. apply rb_ext. intros r2. rewrite !mute_sites by assumption. reflexivity.
    - apply rb_inl in H as (r1 & H1 & H). eauto.
    - destruct (Nat.eqb _ _); [|reflexivity]. rewrite !mute_sites by assumption. change (once []) with (@nil (string * (mode * aval))). rewrite !scan_plants_mute. reflexivity.
    - apply rb_inl in H as ([Mb pb] & H0 & H). cbv zeta in H. cbn [fst snd] in H. destruct (existsb _ _); [discriminate|]. apply rb_inl in H as (r1 & H1 & H).
      rewrite !mute_sites by assumption. f_equal.
      apply while_loop_ext. intros x. erewrite IHp by eassumption. reflexivity.
    - destruct Hm as [Hm1 Hm2]. apply rb_inl in H as (r1 & _ & H). apply rb_inl in H as (r2 & _ & H). apply rb_inl in H as (r3 & _ & H). apply rb_inl in H as (r4 & H1 & H). apply rb_inl in H as (r5 & H2 & H).
      destruct (fst a); [eapply IHp|eapply IHq]; eassumption.
  Qed.


  (** reaping a program in an emptier context also succeeds *)
  Definition submeta (M0 M : meta) : Prop := forall n x, dget M0 n = Some x -> dget M n = Some x.
  Lemma submeta_dset M0 M n x : submeta M0 M -> submeta (dset M0 n x) (dset M n x).
  Proof. intros H k y. rewrite !dget_dset. destruct (String.eqb k n); auto. Qed.
  Lemma handle_sub M0 M n m a M' : submeta M0 M -> handle M n m a = inl M' -> exists M0', handle M0 n m a = inl M0' /\ submeta M0' M'.
  Proof.
    intros Hs H. pose proof (handle_inl _ _ _ _ _ H) as ->. exists (dset M0 n (m, a)). split; [|apply submeta_dset, Hs].
    unfold handle in *. destruct (dget M0 n) as [[m0 a0]|] eqn:E; [|reflexivity]. rewrite (Hs _ _ E) in H.
    destruct (clobberish m && clobberish m0)%bool; [|discriminate]. destruct (is_cond m && negb (aval_eqb a a0))%bool; [discriminate|reflexivity].
  Qed.
  Lemma resow_meta_sub l : forall M0 M M', submeta M0 M -> resow_meta s M l = inl M' -> exists M0', resow_meta s M0 l = inl M0' /\ submeta M0' M'.
  Proof.
    induction l as [|[n [m a]] l IH]; intros M0 M M' Hs H; cbn in *; [injection H as <-; eauto|]. apply rb_inl in H as (M1 & H1 & H).
    destruct (passes s n).
    - destruct (handle_sub _ _ _ _ _ _ Hs H1) as (M2 & E & Hs2). rewrite E. cbn [rb]. eapply IH; eassumption.
    - injection H1 as <-. cbn [rb]. eapply IH; eassumption.
  Qed.
  Lemma reapT_sub {A B} (p : prog A B) : forall M0 M M' p', submeta M0 M -> reapT s p M = inl (M', p') -> exists M0', reapT s p M0 = inl (M0', p') /\ submeta M0' M'.
  Proof.
    induction p as [A B f|A B C p IHp q IHq|A B C p IHp|t n m av|t n av|A B sc p IHp|A B p IHp|C X Y rv len p IHp|C c p IHp|A B p IHp q IHq];
      intros M0 M M' p' Hs H; cbn [reapT] in *.
    - injection H as <- <-. eauto.
    - apply rb_inl in H as ([M1 p1] & H1 & H). apply rb_inl in H as ([M2 q1] & H2 & H). injection H as <- <-. cbn [fst snd] in *.
      destruct (IHp _ _ _ _ Hs H1) as (N1 & E1 & S1). destruct (IHq _ _ _ _ S1 H2) as (N2 & E2 & S2). rewrite E1. cbn [rb fst snd]. rewrite E2. cbn [rb fst snd]. eauto.
    - apply rb_inl in H as ([M1 p1] & H1 & H). injection H as <- <-. cbn [fst snd] in *. destruct (IHp _ _ _ _ Hs H1) as (N1 & E1 & S1). rewrite E1. cbn [rb fst snd]. eauto.
    - destruct (is_cond m); [discriminate|]. destruct (String.eqb t (tag_of s)); [destruct (passes s n)|destruct (exclusive s)]; try (injection H as <- <-; eauto).
      apply rb_inl in H as (M1 & H1 & H). injection H as <- <-. destruct (handle_sub _ _ _ _ _ _ Hs H1) as (N1 & E1 & S1). rewrite E1. cbn [rb]. eauto.
    - destruct (String.eqb t (tag_of s)); [destruct (passes s n)|destruct (exclusive s)]; try (injection H as <- <-; eauto).
      apply rb_inl in H as (M1 & H1 & H). injection H as <- <-. destruct (handle_sub _ _ _ _ _ _ Hs H1) as (N1 & E1 & S1). rewrite E1. cbn [rb]. eauto.
    - apply rb_inl in H as ([M1 p1] & H1 & H). apply rb_inl in H as (M2 & H2 & H). injection H as <- <-. rewrite H1. cbn [rb fst snd] in *. destruct M1 as [|e1 M1].
      + injection H2 as <-. cbn [rb]. eauto.
      + destruct (resow_meta_sub _ _ _ _ Hs H2) as (N1 & E1 & S1). rewrite E1. cbn [rb]. eauto.
    - apply rb_inl in H as ([M1 p1] & H1 & H). apply rb_inl in H as (M2 & H2 & H). injection H as <- <-. rewrite H1. cbn [rb fst snd] in *.
      destruct (resow_meta_sub _ _ _ _ Hs H2) as (N1 & E1 & S1). rewrite E1. cbn [rb]. eauto.
    - apply rb_inl in H as ([M1 p1] & H1 & H). cbv zeta in H. rewrite H1. cbn [rb fst snd] in *. cbv zeta. destruct (existsb _ M1); [discriminate|].
      destruct (is_cond _ && _)%bool; [discriminate|]. apply rb_inl in H as (M2 & H2 & H). injection H as <- <-.
      destruct (resow_meta_sub _ _ _ _ Hs H2) as (N1 & E1 & S1). rewrite E1. cbn [rb]. eauto.
    - apply rb_inl in H as ([M1 p1] & H1 & H). cbv zeta in H. rewrite H1. cbn [rb fst snd] in *. cbv zeta. destruct (existsb _ M1); [discriminate|].
      apply rb_inl in H as (M2 & H2 & H). injection H as <- <-.
      destruct (resow_meta_sub _ _ _ _ Hs H2) as (N1 & E1 & S1). rewrite E1. cbn [rb]. eauto.
    - apply rb_inl in H as ([M1 p1] & H1 & H). apply rb_inl in H as ([M2 q1] & H2 & H). apply rb_inl in H as (u & H3 & H). apply rb_inl in H as (M3 & H4 & H). injection H as <- <-.
      rewrite H1. cbn [rb fst snd] in *. rewrite H2. cbn [rb fst snd] in *. rewrite H3. cbn [rb fst snd] in *. destruct (resow_meta_sub _ _ _ _ Hs H4) as (N1 & E1 & S1). rewrite E1. cbn [rb]. eauto.
  Qed.
  Lemma reapT_ok_nil {A B} (p : prog A B) M r : reapT s p M = inl r -> exists r0, reapT s p [] = inl r0.
  Proof. destruct r as [M' p']. intros H. destruct (reapT_sub p [] M M' p') as (N & E & _); [intros n x Hn; discriminate|exact H|]. eauto. Qed.

  (** what T1 says about a successful strict run: every sown name has a value, no other name has *)
  Lemma strict_eff fuel {A B} (p : prog A B) M r a b o : reapT s p M = inl r -> strictp p -> sem s fuel p [] a = inl (b, o) ->
    (forall n m av, In (n, (m, av)) (sites s p []) -> exists v, last_eff o n = Some v /\ has_aval v av = true) /\
    (forall n, ~ In n (dkeys (sites s p [])) -> last_eff o n = None) /\ NoDup (dkeys (sites s p [])).
  Proof.
    intros H Hs E. apply reapT_ok_nil in H as ([M1 p'] & H).
    pose proof (reapT_sem s fuel p _ _ _ _ [] a H (strictp_tame p Hs []) (no_cond_no_mix _ (no_clob_no_cond _ (strictp_sites p Hs []))) (NoDup_nil _) rel_nil) as Hg.
    rewrite E in Hg. match type of Hg with rel_res _ _ ?u => destruct u as [[b' d]|] end; cbn [rel_res] in Hg; [|contradiction]. destruct Hg as [_ (K1 & K2 & K3)]. cbn [snd fst] in *.
    pose proof (reapT_resow p _ _ _ H) as Hres. destruct (resow_meta_nodup _ (sites_pass s p s []) (strictp_sites p Hs []) _ _ Hres) as [Hnd _].
    apply reapT_meta in H. change (dmerge [] (sites s p [])) with (once (sites s p [])) in H. rewrite once_nodup_id in H by exact Hnd. subst M1.
    split; [|split; [|exact Hnd]].
    - intros n m av Hin. assert (Hc : is_cond m = false) by (eapply (no_clob_no_cond _ (strictp_sites p Hs [])); exact Hin).
      apply NoDup_In_dget in Hin; [|exact Hnd]. destruct (K2 _ _ Hin) as ([v pr] & _ & Ha & Hv). cbn in Ha, Hv. rewrite upd_none in Hv.
      destruct pr; [destruct Hv; congruence|]. destruct Hv; eauto.
    - intros n Hn. rewrite <- upd_none. apply K3, dget_None_iff. exact Hn.
  Qed.
  Lemma slices_spec (os : list (list occ)) len pd : List.length os = len -> (forall n t, In (n, t) pd -> t = Stk (map (occ_value n) os)) ->
    slices len pd = inl (map (fun o => map (fun kv => (fst kv, occ_value (fst kv) o)) pd) os).
  Proof.
    intros El. induction pd as [|[n t] pd IH]; intros H; cbn [slices].
    - f_equal. subst len. clear. induction os as [|o os IH]; cbn; [reflexivity|]. f_equal. exact IH.
    - rewrite (H n t) by (simpl; auto). rewrite map_length, El, Nat.eqb_refl. rewrite IH by (intros; apply H; simpl; auto). cbn [rb]. f_equal.
      clear. induction os as [|i l IH]; cbn; [reflexivity|]. f_equal. exact IH.
  Qed.
  Lemma scan_loop_replay {C X X' Y Y'} (f : C * X -> res (C * Y)) (g : C * X' -> res (C * Y')) (h : Y -> Y') (Q : X -> Y -> X' -> Prop) :
    (forall c x c1 y x', f (c, x) = inl (c1, y) -> Q x y x' -> g (c, x') = inl (c1, h y)) ->
    forall xs ys xs' c c', scan_loop f c xs = inl (c', ys) -> Forall2 (fun xy x' => Q (fst xy) (snd xy) x') (combine xs ys) xs' ->
      scan_loop g c xs' = inl (c', map h ys).
  Proof.
    intros Hfg xs. induction xs as [|x xs IH]; intros ys xs' c c' H HF; cbn in H.
    - injection H as <- <-. inversion HF. reflexivity.
    - apply rb_inl in H as ([c1 y] & H1 & H). apply rb_inl in H as ([c2 ys2] & H2 & H). injection H as <- <-. cbn [fst snd] in *.
      cbn in HF. inversion_clear HF as [|? x1 ? xs1 Hq HF']. cbn [scan_loop]. rewrite (Hfg _ _ _ _ _ H1 Hq). cbn [rb fst snd]. rewrite (IH _ _ _ _ H2 HF'). reflexivity.
  Qed.
  Lemma combine_rev_if {X Y} r (a : list X) (b : list Y) : List.length a = List.length b -> combine (rev_if r a) (rev_if r b) = rev_if r (combine a b).
  Proof.
    destruct r; cbn [rev_if]; [|reflexivity]. revert b. induction a as [|x a IH]; intros [|y b] E; try discriminate; [reflexivity|]. cbn in *. injection E as E.
    rewrite <- IH by exact E. assert (E2 : List.length (rev a) = List.length (rev b)) by (rewrite !rev_length; exact E). revert E2. generalize (rev a) (rev b). clear.
    induction l as [|u l IH]; intros [|v m] E; try discriminate; [reflexivity|]. cbn. f_equal. apply IH. cbn in E. congruence.
  Qed.
  Lemma dget_filter_key {X} (f : string -> bool) (l : list (string * X)) n : dget (filter (fun kv => f (fst kv)) l) n = if f n then dget l n else None.
  Proof.
    induction l as [|[k x] l IH]; cbn; [destruct (f n); reflexivity|]. destruct (f k) eqn:Ek; cbn; destruct (String.eqb_spec n k) as [->|Hn].
    - rewrite Ek. reflexivity.
    - exact IH.
    - rewrite IH, Ek. reflexivity.
    - exact IH.
  Qed.
  Lemma dget_app_plants M (pd : plants) n : dget (app_plants M pd) n = match dget M n with Some (m, _) => if is_append m then dget pd n else None | None => None end.
  Proof.
    unfold app_plants. rewrite (dget_filter_key (fun k => match dget M k with Some (m, _) => is_append m | None => false end)). destruct (dget M n) as [[m a]|]; reflexivity.
  Qed.
  Lemma dget_app {X} (l l' : list (string * X)) n : dget (l ++ l') n = match dget l n with Some x => Some x | None => dget l' n end.
  Proof. induction l as [|[k x] l IH]; cbn; [reflexivity|]. destruct (String.eqb n k); [reflexivity|exact IH]. Qed.

  (** plants that cover all the sown names *)
  Definition covers (D : plants) (l : meta) : Prop :=
    forall n m av, In (n, (m, av)) l -> exists t, dget D n = Some t /\ (m = Strict -> has_aval t av = true).
  Lemma has_aval_AD t l : has_aval t (AD l) = true -> exists m, t = Dict m /\ forall n a, dget l n = Some a -> exists u, dget m n = Some u /\ has_aval u a = true.
  Proof.
    destruct t as [v|m|m]; cbn; try discriminate. intros H. exists m. split; [reflexivity|]. revert m H.
    induction l as [|[k a] l IH]; intros [|[k' u] m] H; try discriminate.
    rewrite !andb_true_iff in H. destruct H as [[H1 H2] H3]. apply String.eqb_eq in H1. subst k'. intros n b. cbn. destruct (String.eqb n k).
    - intros E. injection E as <-. eauto.
    - apply IH, H3.
  Qed.
  Lemma scan_body_append p_sites (M : meta) : M = once p_sites -> NoDup (dkeys p_sites) -> no_clob p_sites -> existsb (fun e => is_strict (fst (snd e))) M = false ->
    forall n m a, In (n, (m, a)) p_sites -> m = Append /\ dget M n = Some (m, a).
  Proof.
    intros EM Hnd Hc Hx n m a Hin. rewrite once_nodup_id in EM by exact Hnd. subst M. split; [|apply NoDup_In_dget; assumption].
    assert (Hs : is_strict m = false). { rewrite <- not_true_iff_false in *. intros Hm. apply Hx. apply existsb_exists. exists (n, (m, a)). auto. }
    apply Hc in Hin. destruct m; auto; discriminate.
  Qed.
  Lemma covers_sites {A B} (p : prog A B) : forall M r, reapT s p M = inl r -> strictp p -> forall D, covers D (sites s p []) -> sites s p D = [].
  Proof.
    induction p as [A B f|A B C p IHp q IHq|A B C p IHp|t n m av|t n av|A B sc p IHp|A B p IHp|C X Y rv len p IHp|C c p IHp|A B p IHp q IHq];
      intros M r H Hs D HD; pose proof H as Hreap; cbn [reapT sites2 strictp] in *.
    - reflexivity.
    - apply rb_inl in H as (r1 & H1 & H). apply rb_inl in H as (r2 & H2 & H). destruct Hs as [Hs1 Hs2].
      rewrite (IHp _ _ H1 Hs1) by (intros n m av Hn; apply (HD n m), in_or_app; auto). rewrite (IHq _ _ H2 Hs2) by (intros n m av Hn; apply (HD n m), in_or_app; auto). reflexivity.
    - apply rb_inl in H as (r1 & H1 & H). eauto.
    - rewrite site_here_nil in HD. unfold site_here. destruct (seen s t n); [|reflexivity]. destruct (HD n m av) as (x & Ex & _); [simpl; auto|].
      unfold haskey. rewrite Ex. reflexivity.
    - unfold site_here. rewrite Hs. reflexivity.
    - apply rb_inl in H as ([M1 p1] & H1 & H). change (sub [] sc) with (@nil (string * tree)) in HD. unfold scope_site in HD |- *.
      destruct (sites s p []) as [|e l] eqn:E.
      + rewrite mute_sites; [reflexivity|]. eapply sites_nil_mute; eassumption.
      + rewrite Hall in HD. destruct (HD sc Strict (AD (map (fun e0 : string * (mode * aval) => (fst e0, snd (snd e0))) (once (e :: l))))) as (t & Et & Ha); [simpl; auto|].
        destruct (has_aval_AD _ _ (Ha eq_refl)) as (m & -> & Hm). assert (Esub : sub D sc = m) by (unfold sub; rewrite Et; reflexivity). rewrite Esub.
        rewrite (IHp _ _ H1 Hs m); [reflexivity|]. rewrite <- E in *. intros n m0 av Hin.
        pose proof (reapT_resow p _ _ _ H1) as Hres. destruct (resow_meta_nodup _ (sites_pass s p s []) (strictp_sites p Hs []) _ _ Hres) as [Hnd _].
        destruct (Hm n av) as (u & Eu & Hu); [|eauto]. rewrite (dget_map (fun e0 : string * (mode * aval) => snd (snd e0))), once_nodup_id by exact Hnd.
        rewrite (NoDup_In_dget _ _ _ Hnd Hin). reflexivity.
    - apply rb_inl in H as ([M1 p1] & H1 & H).
      pose proof (reapT_resow p _ _ _ H1) as Hres. destruct (resow_meta_nodup _ (sites_pass s p s []) (strictp_sites p Hs []) _ _ Hres) as [Hnd _].
      rewrite once_nodup_id in HD by exact Hnd. rewrite (IHp _ _ H1 Hs D HD). reflexivity.
    - apply rb_inl in H as ([M1 p1] & H1 & H). cbv zeta in *. cbn [fst snd] in H. destruct (existsb (fun e => is_strict (fst (snd e))) M1) eqn:Ex; [discriminate|].
      change (body_plants (once (sites s p [])) []) with (@nil (string * tree)) in HD.
      pose proof (reapT_resow p _ _ _ H1) as Hres. destruct (resow_meta_nodup _ (sites_pass s p s []) (strictp_sites p Hs []) _ _ Hres) as [Hnd _].
      pose proof (reapT_meta s p _ _ _ H1) as EM. change (dmerge [] (sites s p [])) with (once (sites s p [])) in EM. rewrite <- EM in *.
      rewrite (IHp _ _ H1 Hs); [reflexivity|]. intros n m av Hin. destruct (scan_body_append _ M1 EM Hnd (strictp_sites p Hs []) Ex _ _ _ Hin) as [-> Hg].
      destruct (HD n Append (AS len av)) as (t & Et & _).
      { apply in_or_app. right. unfold stack_meta. apply in_map_iff. exists (n, (Append, av)). split; [reflexivity|]. apply filter_In. split; [apply dget_In, Hg|reflexivity]. }
      exists t. split; [|discriminate]. unfold body_plants. rewrite dget_app, dget_app_plants, Hg. cbn. rewrite Et. reflexivity.
    - apply rb_inl in H as ([M1 p1] & H1 & H).
      pose proof (reapT_resow p _ _ _ H1) as Hres. destruct (resow_meta_nodup _ (sites_pass s p s []) (strictp_sites p Hs []) _ _ Hres) as [Hnd _].
      rewrite once_nodup_id in HD by exact Hnd. rewrite (IHp _ _ H1 Hs D HD). reflexivity.
    - apply rb_inl in H as ([M1 p1] & H1 & H). destruct Hs as [Hs1 Hs2].
      pose proof (reapT_resow p _ _ _ H1) as Hres. destruct (resow_meta_nodup _ (sites_pass s p s []) (strictp_sites p Hs1 []) _ _ Hres) as [Hnd _].
      rewrite once_nodup_id in HD by exact Hnd. rewrite (IHp _ _ H1 Hs1 D HD). reflexivity.
  Qed.

  (** ** planting what was reaped *)
  Lemma Forall2_rev' {X Y} (R : X -> Y -> Prop) l l' : Forall2 R l l' -> Forall2 R (rev l) (rev l').
  Proof. induction 1 as [|x y l l' H HF IH]; cbn; [constructor|]. apply Forall2_app; auto. Qed.
  Lemma filter_none (l : list occ) : filter (in_names []) l = [].
  Proof. induction l as [|x l IH]; [reflexivity|exact IH]. Qed.
  Definition agrees (D : plants) (l : meta) (o : list occ) : Prop := forall n, In n (dkeys l) -> dget D n = last_eff o n.
  Lemma once_keys (l : meta) n : In n (dkeys (once l)) <-> In n (dkeys l).
  Proof. unfold once. rewrite dkeys_dmerge. cbn. tauto. Qed.
  Theorem replay fuel {A B} (p : prog A B) : forall M r, reapT s p M = inl r -> strictp p ->
    forall sk dn r', plantT s p sk dn = inl r' -> forall D, NoDup (dkeys D) -> fits sk D ->
    forall a b o, sem s fuel p [] a = inl (b, o) -> agrees D (sites s p []) o -> sem s fuel p D a = inl (b, []).
  Proof.
    induction p as [A B f|A B C p IHp q IHq|A B C p IHp|t n m av|t n av|A B sc p IHp|A B p IHp|C X Y rv len p IHp|C c p IHp|A B p IHp q IHq];
      intros M r H Hs sk dn r' Hpl D HND Hf a b o Hsem HD; pose proof H as Hreap; pose proof Hs as Hs0; pose proof Hsem as Hsem0; cbn [reapT sites2 strictp plantT sem2] in *.
    - apply rb_inl in Hsem as (y & E & Hsem). injection Hsem as <- <-. rewrite E. reflexivity.
    - apply rb_inl in H as (r1 & H1 & H). apply rb_inl in H as (r2 & H2 & H). destruct Hs as [Hs1 Hs2]. apply rb_inl in Hpl as (u1 & P1 & Hpl). apply rb_inl in Hpl as (u2 & P2 & _).
      apply rb_inl in Hsem as ([b1 o1] & E1 & Hsem). apply rb_inl in Hsem as ([b2 o2] & E2 & Hsem). injection Hsem as <- <-. cbn [fst snd] in *.
      destruct (strict_eff fuel p _ _ _ _ _ H1 Hs1 E1) as (K1 & K2 & K3). destruct (strict_eff fuel q _ _ _ _ _ H2 Hs2 E2) as (J1 & J2 & J3).
      destruct r as [M' p']. pose proof (reapT_resow (Seq p q) M M' p' Hreap) as Hres. cbn [sites2] in Hres.
      destruct (resow_meta_nodup _ (sites_pass s (Seq p q) s []) (strictp_sites (Seq p q) Hs0 []) _ _ Hres) as [Hnd _]. cbn [sites2] in Hnd.
      assert (Hdis : forall n, In n (dkeys (sites s p [])) -> ~ In n (dkeys (sites s q []))).
      { unfold dkeys in *. rewrite map_app in Hnd. clear -Hnd. induction (map fst (sites s p [])) as [|k l IH]; [intros n []|]. cbn in Hnd. inversion_clear Hnd as [|? ? Hk Hnd'].
        intros n [<-|Hn]; [intros K; apply Hk, in_or_app; auto|]. apply IH; assumption. }
      rewrite (IHp _ _ H1 Hs1 _ _ _ P1 D HND Hf _ _ _ E1).
      + cbn [rb fst snd]. rewrite (IHq _ _ H2 Hs2 _ _ _ P2 D HND Hf _ _ _ E2); [reflexivity|].
        intros n Hn. rewrite HD by (unfold dkeys in *; rewrite map_app; apply in_or_app; auto). rewrite last_eff_app.
        apply In_dkeys_dget in Hn as ([m av] & Hn). destruct (J1 n m av (dget_In _ _ _ Hn)) as (v & -> & _). reflexivity.
      + intros n Hn. rewrite HD by (unfold dkeys in *; rewrite map_app; apply in_or_app; auto). rewrite last_eff_app, (J2 n) by (apply Hdis, Hn). reflexivity.
    - apply rb_inl in H as (r1 & H1 & H). apply rb_inl in Hpl as (u1 & P1 & _). apply rb_inl in Hsem as ([b1 o1] & E1 & Hsem). injection Hsem as <- <-. cbn [fst snd] in *.
      rewrite (IHp _ _ H1 Hs _ _ _ P1 D HND Hf _ _ _ E1 HD). reflexivity.
    - destruct (is_cond m); [discriminate|]. rewrite at_sow_nil in Hsem. rewrite site_here_nil in HD. unfold at_sow. apply rb_inl in Hsem as (v & Ev & Hsem). rewrite Ev. cbn [rb].
      assert (v = a /\ has_aval a av = true) as [-> Ha] by (unfold chk in Ev; destruct (has_aval a av); [injection Ev as <-; auto|discriminate]).
      destruct (seen s t n); injection Hsem as <- <-; cbn [andb]; [|reflexivity].
      specialize (HD n (or_introl eq_refl)). rewrite last_eff_one, String.eqb_refl in HD. cbn in HD. unfold haskey, planted, chk. rewrite HD, Ha. reflexivity.
    - rewrite at_sow_nil, Hs in Hsem. unfold at_sow. rewrite Hs. cbn [andb]. apply rb_inl in Hsem as (v & Ev & Hsem). injection Hsem as <- <-. rewrite Ev. reflexivity.
    - apply rb_inl in H as ([M1 p1] & H1 & H). apply rb_inl in Hpl as (sk' & P0 & Hpl). apply rb_inl in Hpl as (u1 & P1 & _).
      change (sub [] sc) with (@nil (string * tree)) in Hsem. cbn [rb] in Hsem. apply rb_inl in Hsem as ([b1 o1] & E1 & Hsem). injection Hsem as <- <-. cbn [fst snd] in *.
      change (sub [] sc) with (@nil (string * tree)) in HD. destruct (fits_sub _ _ _ _ _ _ Hf P0) as [Hf' Esub]. destruct (Esub s) as (Es1 & Es2 & Es3).
      destruct (sites s p []) as [|e l] eqn:E.
      + pose proof (sites_nil_mute p _ _ H1 Hs E) as Hmute. rewrite Es3, (mute_plants fuel p Hmute _ _ _ P1 _ Hf'), E1. cbn [rb fst snd]. rewrite mute_sites by exact Hmute. reflexivity.
      + rewrite <- E in *. assert (Ess : scope_site s sc (sites s p []) = [(sc, (Strict, AD (map (fun e => (fst e, snd (snd e))) (once (sites s p [])))))]).
        { unfold scope_site. rewrite Hall, E. reflexivity. }
        rewrite Ess in HD. specialize (HD sc (or_introl eq_refl)). cbn [map fst] in HD. rewrite last_eff_one, String.eqb_refl in HD. cbn [andb] in HD.
        assert (ED : sub D sc = collect (once (sites s p [])) o1) by (unfold sub; rewrite HD; reflexivity). 
        destruct (strict_eff fuel p _ _ _ _ _ H1 Hs E1) as (K1 & K2 & K3). rewrite once_nodup_id in ED by exact K3.
        assert (Esd : sub_plants sk D sc = sub D sc).
        { unfold sub. rewrite HD. eapply sub_plants_dict; [exact Hf|exact P0|exact HD|]. apply not_true_iff_false. intros Hq. rewrite (quiet_sites s s p Hq) in E. discriminate. }
        rewrite Esd in *.
        assert (Hdg : forall n, In n (dkeys (sites s p [])) -> dget (sub D sc) n = last_eff o1 n).
        { intros n Hn. rewrite ED. unfold collect. rewrite (dget_map (fun e => match last_eff o1 (fst e) with Some v => v | None => zeros (snd (snd e)) end)).
          apply In_dkeys_dget in Hn as ([m av] & Hn). rewrite Hn. cbn. destruct (K1 n m av (dget_In _ _ _ Hn)) as (v & -> & _). reflexivity. }
        assert (HND' : NoDup (dkeys (sub D sc))) by (rewrite ED; unfold dkeys, collect; rewrite map_map; exact K3).
        rewrite (IHp _ _ H1 Hs _ _ _ P1 _ HND' Hf' _ _ _ E1 Hdg). cbn [rb fst snd].
        rewrite (covers_sites p _ _ H1 Hs (sub D sc)); [reflexivity|].
        intros n m av Hin. destruct (K1 n m av Hin) as (v & Ev & Ha). exists v. split; [|auto]. rewrite Hdg; [exact Ev|]. apply (in_map fst) in Hin. exact Hin.
    - apply rb_inl in H as ([M1 p1] & H1 & H). apply rb_inl in Hpl as (u1 & P1 & _). eapply IHp; try eassumption. intros n Hn. apply HD. apply once_keys. exact Hn.
    - (* scan *) apply rb_inl in H as ([M1 p1] & H1 & H). cbv zeta in *. cbn [fst snd] in H. destruct (existsb (fun e => is_strict (fst (snd e))) M1) eqn:Ex; [discriminate|].
      apply rb_inl in Hpl as ([Mb pb] & P0 & Hpl). cbn [fst snd] in Hpl. rewrite H1 in P0. injection P0 as <- <-. rewrite Ex in Hpl. apply rb_inl in Hpl as (u1 & P1 & _).
      change (body_plants (once (sites s p [])) []) with (@nil (string * tree)) in *.
      pose proof (reapT_resow p _ _ _ H1) as Hres. destruct (resow_meta_nodup _ (sites_pass s p s []) (strictp_sites p Hs []) _ _ Hres) as [Hnd _].
      pose proof (reapT_meta s p _ _ _ H1) as EM. change (dmerge [] (sites s p [])) with (once (sites s p [])) in EM. rewrite <- EM in *.
      pose proof (scan_body_append _ M1 EM Hnd (strictp_sites p Hs []) Ex) as Happ.
      assert (EM2 : M1 = sites s p []) by (rewrite EM; apply once_nodup_id, Hnd).
      destruct a as [c0 xs]. cbn [fst snd] in *. destruct (Nat.eqb_spec (List.length xs) len) as [El|]; [|discriminate]. rewrite scan_plants_nil in Hsem. cbn [rb] in Hsem.
      unfold scan_sem in Hsem. cbn [fst snd] in Hsem. rewrite combine_length, repeat_length, El, Nat.min_id, Nat.eqb_refl in Hsem. rewrite rb_assoc in Hsem.
      apply rb_inl in Hsem as ([c1 yos] & E1 & Hsem). cbn [rb fst snd] in Hsem. injection Hsem as <- <-.
      assert (Hlen : List.length yos = len). { apply scan_loop_length in E1. rewrite rev_if_length, combine_length, repeat_length in E1. lia. }
      set (os := map snd (rev_if rv yos)) in *.
      assert (Hlos : List.length os = len) by (unfold os; rewrite map_length, rev_if_length; exact Hlen).
      assert (Hclob : clobbers M1 = []).
      { rewrite EM2. pose proof (strictp_sites p Hs []) as Hc. clear -Hc. unfold clobbers. induction (sites s p []) as [|[k [m a]] l IH]; [reflexivity|]. cbn. rewrite (Hc k m a) by (simpl; auto).
        apply IH. intros n0 m0 a0 Hn. eapply Hc. simpl; eauto. }
      assert (Hres0 : resets M1 = []).
      { rewrite EM2. pose proof (strictp_sites p Hs []) as Hc. clear -Hc. unfold resets. induction (sites s p []) as [|[k [m a]] l IH]; [reflexivity|]. cbn. rewrite (Hc k m a) by (simpl; auto).
        apply IH. intros n0 m0 a0 Hn. eapply Hc. simpl; eauto. }
      rewrite Hclob, Hres0 in HD. cbn [app] in HD.
      assert (HDn : forall n, In n (dkeys (sites s p [])) -> dget D n = Some (Stk (map (occ_value n) os))).
      { intros n Hn. apply In_dkeys_dget in Hn as ([m av] & Hn). apply dget_In in Hn. destruct (Happ _ _ _ Hn) as [-> Hg].
        assert (Hga : dget (appends M1) n = Some (Append, av)) by (apply dget_filter; [rewrite EM2; exact Hnd|auto]).
        rewrite HD; [|rewrite dkeys_stack_meta; eapply dget_In_keys; exact Hga].
        assert (EF : filter (in_names []) (List.concat (rev_if rv os)) = []) by apply filter_none.
        rewrite EF. cbn [app]. rewrite stacks_last by (rewrite EM2; exact Hnd). rewrite Hga. reflexivity. }
      set (P := app_plants M1 D) in *.
      assert (HP : scan_plants M1 len D = inl (map (fun o => map (fun kv => (fst kv, occ_value (fst kv) o)) P) os)).
      { unfold scan_plants. assert (Ecl : clob_plants M1 D = []).
        { unfold clob_plants. clear -Happ EM2. induction D as [|[k t] D IH]; [reflexivity|]. cbn. destruct (dget M1 k) as [[m a]|] eqn:E; [|exact IH].
          rewrite EM2 in E. apply dget_In in E. destruct (Happ _ _ _ E) as [-> _]. exact IH. }
        fold P. rewrite (slices_spec os len P Hlos).
        - cbn [rb]. rewrite Ecl. f_equal. rewrite map_map. apply map_ext. intros o. apply app_nil_r.
        - intros n t Hin. unfold P, app_plants in Hin. apply filter_In in Hin as [Hin Hm]. cbn in Hm. destruct (dget M1 n) as [[m a]|] eqn:E; [|discriminate].
          assert (Hk : dget D n = Some (Stk (map (occ_value n) os))) by (apply HDn; rewrite <- EM2; eapply dget_In_keys; exact E).
          rewrite (NoDup_In_dget _ _ _ HND Hin) in Hk. injection Hk as ->. reflexivity. }
      rewrite HP. cbn [rb]. unfold scan_sem. cbn [fst snd]. rewrite combine_length, map_length, Hlos, El, Nat.min_id, Nat.eqb_refl. rewrite rb_assoc.
      assert (Ecl : clob_plants M1 D = []).
      { unfold clob_plants. clear -Happ EM2. induction D as [|[k t] D IH]; [reflexivity|]. cbn. destruct (dget M1 k) as [[m a]|] eqn:E; [|exact IH].
        rewrite EM2 in E. apply dget_In in E. destruct (Happ _ _ _ E) as [-> _]. exact IH. }
      set (slice := fun o : list occ => map (fun kv : string * tree => (fst kv, occ_value (fst kv) o)) P) in *.
      assert (Hslf : forall o, fits (scan_skel M1 sk) (slice o)).
      { intros o. rewrite <- (app_nil_r (slice o)). unfold scan_skel. apply fits_app.
        - apply fits_leaves. unfold slice. rewrite map_map. cbn [fst]. apply fits_keys.
          apply (fits_filter (fun k => match dget M1 k with Some (m, _) => is_append m | None => false end)), Hf.
        - rewrite <- Ecl. apply (fits_filter (fun k => match dget M1 k with Some (m, _) => clobberish m | None => false end)), Hf. }
      assert (HPn : forall n, In n (dkeys (sites s p [])) -> dget P n = Some (Stk (map (occ_value n) os))).
      { intros n Hn. unfold P. rewrite dget_app_plants. pose proof Hn as Hn'. apply In_dkeys_dget in Hn as ([m av] & Hn). destruct (Happ _ _ _ (dget_In _ _ _ Hn)) as [-> Hg].
        rewrite Hg. cbn. apply HDn, Hn'. }
      match type of E1 with scan_loop ?f ?c ?l = _ => match goal with |- rb (scan_loop ?g ?z ?l') _ = _ =>
        pose proof (scan_loop_replay f g (fun yo : Y * list occ => (fst yo, [])) (fun xp yo xq => xp = (fst xq, []) /\ snd xq = slice (snd yo))) as HL;
        specialize (fun h1 h2 => HL h1 l yos l' c c1 E1 h2) end end.
      match type of HL with ?H1 -> ?H2 -> _ => assert (K1 : H1); [|assert (K2 : H2); [|specialize (HL K1 K2); clear K1 K2]] end.
      { intros c xp c2 [y o] [x' pl] E [-> Epl]. cbn [fst snd] in *. subst pl. apply rb_inl in E as ([[c3 y3] o3] & E & E3). cbn [fst snd] in *. injection E3 as -> -> ->.
        destruct (strict_eff fuel p _ _ _ _ _ H1 Hs E) as (K1 & K2 & K3).
        rewrite (IHp _ _ H1 Hs _ _ _ P1 (slice o)) with (b := (c2, y)) (o := o); [reflexivity| | |exact E|].
        - unfold slice, dkeys. rewrite map_map. cbn [fst]. apply (filter_nodup _ D HND).
        - apply Hslf.
        - intros n Hn. unfold slice. rewrite (dget_map (fun kv => occ_value (fst kv) o)), (HPn n Hn). cbn [fst].
          apply In_dkeys_dget in Hn as ([m av] & Hn). destruct (K1 n m av (dget_In _ _ _ Hn)) as (v & Ev & _). unfold occ_value. rewrite Ev. reflexivity. }
      { rewrite <- (rev_if_concat_id rv yos). rewrite combine_rev_if; [|rewrite rev_if_length, combine_length, repeat_length; lia].
        assert (HF : Forall2 (fun xy x' => fst xy = (fst x', []) /\ snd x' = slice (snd (snd xy))) (combine (combine xs (repeat (@nil (string * tree)) len)) (rev_if rv yos)) (combine xs (map slice os))).
        { unfold os. assert (Hly : List.length (rev_if rv yos) = List.length xs) by (rewrite rev_if_length; lia). rewrite <- El. revert Hly. generalize (rev_if rv yos) as zs. generalize xs as us. clear.
          induction us as [|u us IH]; intros [|z zs] Hl; try discriminate; cbn; constructor; [auto|]. apply IH. cbn in Hl. congruence. }
        destruct rv; cbn [rev_if]; [|exact HF]. apply Forall2_rev'. exact HF. }
      rewrite HL. cbn [rb fst snd].
      assert (ES : sites s p (body_plants M1 D) = []).
      { apply (covers_sites p _ _ H1 Hs). intros n m av Hin. destruct (Happ _ _ _ Hin) as [-> Hg]. exists (Stk (map (occ_value n) os)). split; [|discriminate].
        unfold body_plants. rewrite dget_app. fold P. rewrite HPn; [reflexivity|]. apply (in_map fst) in Hin. exact Hin. }
      rewrite ES. cbn. f_equal. f_equal.
      + f_equal. destruct rv; cbn [rev_if]; rewrite ?map_rev, !map_map; reflexivity.
      + rewrite app_nil_r. apply filter_none.
    - (* while *) apply rb_inl in H as ([M1 p1] & H1 & H). cbv zeta in *. cbn [fst snd] in H. destruct (existsb (fun e => negb (clobberish (fst (snd e)))) M1) eqn:Ex; [discriminate|].
      assert (E : sites s p [] = []).
      { apply (proj1 (once_nil _)). apply reapT_meta in H1. change (dmerge [] (sites s p [])) with (once (sites s p [])) in H1. rewrite <- H1.
        destruct M1 as [|[k [m a1]] M1]; [reflexivity|]. exfalso. cbn [existsb fst snd] in Ex. apply orb_false_iff in Ex as [Ex _].
        assert (Hc : clobberish m = false). { eapply (strictp_sites p Hs []), once_incl. rewrite <- H1. left. reflexivity. } rewrite Hc in Ex. discriminate. }
      pose proof (sites_nil_mute p _ _ H1 Hs E) as Hmute.
      pose proof (mute_sem s s fuel (While c p) Hmute D a) as Hms.
      pose proof (mute_plants fuel (While c p) Hmute sk dn r' Hpl D Hf a) as Hmp. cbn [sem2] in Hmp, Hms. rewrite Hmp in *. rewrite Hsem in *. rewrite (Hms _ _ eq_refl). reflexivity.
    - (* cond *) apply rb_inl in H as ([M1 p1] & H1 & H). apply rb_inl in H as ([M2 q1] & H2 & H). apply rb_inl in H as ([] & Hcb & H). destruct Hs as [Hs1 Hs2].
      apply rb_inl in Hpl as (u1 & _ & Hpl). apply rb_inl in Hpl as (u2 & _ & Hpl). apply rb_inl in Hpl as (u3 & _ & Hpl). apply rb_inl in Hpl as (u4 & P1 & Hpl). apply rb_inl in Hpl as (u5 & P2 & Hpl).
      cbn [fst snd] in *. destruct (fst a).
      + eapply (IHp _ _ H1 Hs1 _ _ _ P1 D HND Hf); [exact Hsem|]. intros n Hn. apply HD. apply once_keys. exact Hn.
      + eapply (IHq _ _ H2 Hs2 _ _ _ P2 D HND Hf); [exact Hsem|]. intros n Hn. apply HD. apply reapT_meta in H1, H2. subst M1 M2.
        destruct (check_branches_spec _ _ (once_nodup _) (once_nodup _) Hcb) as [Hc1 _].
        change (dmerge [] (sites s p [])) with (once (sites s p [])) in Hc1. change (dmerge [] (sites s q [])) with (once (sites s q [])) in Hc1.
        apply (proj2 (once_keys _ _)) in Hn. apply In_dkeys_dget in Hn as (x & Hn). destruct (dget (once (sites s p [])) n) as [y|] eqn:E; [eapply dget_In_keys; exact E|].
        rewrite (Hc1 n E) in Hn. discriminate.
  Qed.
End strict.
