(** When the transformations succeed: planting what was reaped never raises (C32), and exactly when reap raises. *)
From Verif Require Export HarvestProps.

Section total.
  Context {AR : Arrays}.
  Variable s : settings.

  (** every nest whose function sows nothing visible contains no further nest and no scan (see [quiet]): otherwise a
      plant that happens to be called like the scope is looked into as if it were a dictionary *)
  Fixpoint lively {A B} (p : prog A B) : Prop :=
    match p with
    | Pure _ | Sow _ _ _ _ | SowCond _ _ _ => True
    | Seq p q | Cond p q => lively p /\ lively q
    | First _ p | Call p | Scan _ _ p | While _ p => lively p
    | Nest _ p => lively p /\ (sites s p [] = [] -> quiet s p = true)
    end.
  Inductive sk_ok : skel -> aval -> Prop :=
  | ok_AL k a : sk_ok k (AL a)
  | ok_AS k n a : sk_ok k (AS n a)
  | ok_AD l m : (forall n k a, dget l n = Some k -> dget m n = Some a -> sk_ok k a) -> sk_ok (SDict l) (AD m).
  Lemma is_array_ok k a : is_array a = true -> sk_ok k a.
  Proof. destruct a; [constructor|discriminate|constructor]. Qed.
  Lemma skel_ok : forall a t, has_aval t a = true -> sk_ok (skel_of t) a.
  Proof.
    fix IH 1. intros [a|l|n a] t H; [constructor| |constructor].
    destruct t as [v|m|m]; try discriminate. cbn [skel_of]. constructor. revert m H.
    induction l as [|[k a] l IHl]; intros [|[k' u] m] H n x b; try discriminate; cbn in H.
    rewrite !andb_true_iff in H. destruct H as [[H1 H2] H3]. apply String.eqb_eq in H1. subst k'. cbn [map fst snd dget].
    destruct (String.eqb n k); [|apply IHl, H3]. intros E1 E2. injection E1 as <-. injection E2 as <-. apply IH, H2.
  Qed.
  Lemma check_branch_array M0 M1 : check_branch M0 M1 = inl tt -> forall n m a, In (n, (m, a)) M1 -> is_array a = true.
  Proof.
    induction M1 as [|[k [m0 a0]] M1 IH]; intros H n m a Hin; [destruct Hin|]. cbn in H. destruct (dget M0 k) as [[m1 a1]|]; [|discriminate].
    destruct (is_array a0) eqn:E0; [|discriminate]. destruct (is_array a1); [|discriminate]. cbn in H. destruct (aval_eqb a0 a1); [|discriminate].
    destruct (Bool.eqb _ _); [|discriminate]. destruct Hin as [E|Hin]; [injection E as <- <- <-; exact E0|eapply IH; eassumption].
  Qed.

  Hypothesis Hall : forall n, passes s n = true.
  Lemma strict_nodup {A B} (p : prog A B) M r : reapT s p M = inl r -> strictp s p -> NoDup (dkeys (sites s p [])).
  Proof.
    destruct r as [M' p']. intros H Hs. pose proof (reapT_resow s p _ _ _ H) as Hres.
    destruct (resow_meta_nodup s _ (sites_pass s p s []) (strictp_sites s p Hs []) _ _ Hres) as [Hnd _]. exact Hnd.
  Qed.
  Lemma plant_ok {A B} (p : prog A B) : forall M r, reapT s p M = inl r -> strictp s p -> lively p ->
    forall sk dn, (forall n a k, In (n, (Strict, a)) (sites s p []) -> dget sk n = Some k -> sk_ok k a) ->
    (forall n, In n (dkeys (sites s p [])) -> ~ In n dn) ->
    exists dn' p', plantT s p sk dn = inl (dn', p') /\ forall n, In n dn' -> In n dn \/ In n (dkeys (sites s p [])).
  Proof.
    induction p as [A B f|A B C p IHp q IHq|A B C p IHp|t n m av|t n av|A B sc p IHp|A B p IHp|C X Y rv len p IHp|C c p IHp|A B p IHp q IHq];
      intros M r H Hs Hl sk dn Hk Hd; pose proof H as Hreap; pose proof Hs as Hs0; cbn [reapT sites2 strictp plantT lively] in *.
    - eauto.
    - apply rb_inl in H as (r1 & H1 & H). apply rb_inl in H as (r2 & H2 & H). destruct Hs as [Hs1 Hs2], Hl as [Hl1 Hl2].
      pose proof (strict_nodup (Seq p q) _ _ Hreap Hs0) as Hnd. cbn [sites2] in Hnd. unfold dkeys in Hnd, Hd. rewrite map_app in Hnd, Hd.
      destruct (IHp _ _ H1 Hs1 Hl1 sk dn) as (d1 & p1 & E1 & D1).
      { intros n a k Hin. apply Hk, in_or_app. auto. } { intros n Hin. apply Hd, in_or_app. auto. }
      destruct (IHq _ _ H2 Hs2 Hl2 sk d1) as (d2 & q1 & E2 & D2).
      { intros n a k Hin. apply Hk, in_or_app. auto. }
      { intros n Hin Hin1. apply D1 in Hin1 as [Hin1|Hin1]; [eapply Hd; [apply in_or_app; right; exact Hin|exact Hin1]|].
        clear -Hnd Hin Hin1. unfold dkeys in *. induction (map fst (sites s p [])) as [|k l IH]; [destruct Hin1|]. cbn in Hnd. inversion_clear Hnd as [|? ? Hk Hnd'].
        destruct Hin1 as [<-|Hin1]; [apply Hk, in_or_app; auto|auto]. }
      rewrite E1. cbn [rb fst]. rewrite E2. cbn [rb fst]. do 2 eexists. split; [reflexivity|]. intros n Hin. unfold dkeys in *. rewrite map_app.
      apply D2 in Hin as [Hin|Hin]; [apply D1 in Hin as [Hin|Hin]; [auto|right; apply in_or_app; auto]|right; apply in_or_app; auto].
    - apply rb_inl in H as (r1 & H1 & H). destruct (IHp _ _ H1 Hs Hl sk dn Hk Hd) as (d1 & p1 & E1 & D1). rewrite E1. cbn [rb]. eauto.
    - destruct (is_cond m); [discriminate|]. rewrite site_here_nil in *. unfold seen in *. destruct (String.eqb t (tag_of s)); [|destruct (exclusive s); eauto].
      rewrite Hall in *. cbn [andb] in *. destruct (mem n dn) eqn:Em.
      { exfalso. apply mem_In in Em. eapply Hd; [|exact Em]. simpl; auto. }
      destruct (haskey sk n); [|eauto]. do 2 eexists. split; [reflexivity|]. intros k Hin. destruct (clobberish m); [auto|]. destruct Hin as [<-|Hin]; [simpl; auto|auto].
    - unfold seen in *. rewrite Hall in *. destruct (String.eqb t (tag_of s)); [discriminate|]. destruct (exclusive s); eauto.
    - apply rb_inl in H as ([M1 p1] & H1 & H). destruct Hl as [Hl Hq]. change (sub [] sc) with (@nil (string * tree)) in *.
      assert (K : exists sk', sub_skel (quiet s p) sk sc = inl sk' /\ forall n a k, In (n, (Strict, a)) (sites s p []) -> dget sk' n = Some k -> sk_ok k a).
      { unfold sub_skel. destruct (sites s p []) as [|e l] eqn:E.
        - rewrite (Hq eq_refl). destruct (dget sk sc) as [[|l]|]; eexists; (split; [reflexivity|intros ? ? ? []]).
        - unfold scope_site in Hk. rewrite Hall in Hk. rewrite <- E in *. assert (Hnd : NoDup (dkeys (sites s p []))) by (eapply strict_nodup; eassumption).
          rewrite once_nodup_id in Hk by exact Hnd. destruct (dget sk sc) as [k|] eqn:Ek; [|eexists; split; [reflexivity|discriminate]].
          assert (Hok : sk_ok k (AD (map (fun e => (fst e, snd (snd e))) (sites s p [])))) by (eapply Hk; [rewrite E; left; reflexivity|exact Ek]).
          inversion Hok as [| |l0 m0 Hok' E1 E2]. subst k m0. exists l0. split; [reflexivity|]. intros n a k Hin Hg. eapply Hok'; [exact Hg|].
          rewrite (dget_map (fun e0 : string * (mode * aval) => snd (snd e0))). rewrite (NoDup_In_dget _ _ _ Hnd Hin). reflexivity. }
      destruct K as (sk' & -> & K). cbn [rb]. destruct (IHp _ _ H1 Hs Hl sk' [] K) as (d1 & q & E1 & _); [intros n _ []|]. rewrite E1. cbn [rb]. eauto.
    - apply rb_inl in H as ([M1 p1] & H1 & H). rewrite once_nodup_id in * by (eapply strict_nodup; eassumption).
      destruct (IHp _ _ H1 Hs Hl sk [] Hk) as (d1 & q & E1 & _); [intros n _ []|]. rewrite E1. cbn [rb]. eauto.
    - apply rb_inl in H as ([M1 p1] & H1 & H). cbv zeta in *. cbn [fst snd] in H. rewrite H1. cbn [rb fst]. destruct (existsb (fun e => is_strict (fst (snd e))) M1) eqn:Ex; [discriminate|].
      pose proof (strict_nodup p _ _ H1 Hs) as Hnd. pose proof (reapT_meta s p _ _ _ H1) as EM. change (dmerge [] (sites s p [])) with (once (sites s p [])) in EM.
      pose proof (scan_body_append _ M1 EM Hnd (strictp_sites s p Hs []) Ex) as Happ.
      destruct (IHp _ _ H1 Hs Hl (scan_skel M1 sk) []) as (d1 & q & E1 & _); [|intros n _ []|rewrite E1; cbn [rb]; eauto].
      intros n a k Hin. apply Happ in Hin as [E _]. discriminate E.
    - apply rb_inl in H as ([M1 p1] & H1 & H). cbv zeta in *. cbn [fst snd] in H. rewrite H1. cbn [rb fst]. destruct (existsb _ M1) eqn:Ex; [discriminate|].
      rewrite once_nodup_id in * by (eapply strict_nodup; eassumption).
      destruct (IHp _ _ H1 Hs Hl sk [] Hk) as (d1 & q & E1 & _); [intros n _ []|]. rewrite E1. cbn [rb]. eauto.
    - apply rb_inl in H as ([M1 p1] & H1 & H). apply rb_inl in H as ([M2 q1] & H2 & H). apply rb_inl in H as ([] & Hcb & H). destruct Hs as [Hs1 Hs2], Hl as [Hl1 Hl2].
      rewrite H1, H2. cbn [rb fst] in *. rewrite Hcb. cbn [rb].
      rewrite once_nodup_id in * by (eapply strict_nodup; eassumption).
      destruct (IHp _ _ H1 Hs1 Hl1 sk [] Hk) as (d1 & p2 & E1 & _); [intros n _ []|]. rewrite E1. cbn [rb].
      destruct (IHq _ _ H2 Hs2 Hl2 sk []) as (d2 & q2 & E2 & _); [|intros n _ []|rewrite E2; cbn [rb]; eauto].
      pose proof (strict_nodup q _ _ H2 Hs2) as Hnd2.
      intros n a k Hin _. apply is_array_ok. apply reapT_meta in H2. change (dmerge [] (sites s q [])) with (once (sites s q [])) in H2.
      unfold check_branches in Hcb. destruct (Nat.eqb _ _); [|discriminate]. eapply check_branch_array; [exact Hcb|]. rewrite H2, once_nodup_id; [exact Hin|exact Hnd2].
  Qed.
  (** whatever was reaped from a program can be planted back into it *)
  Theorem C32_plant_succeeds_partial {A B} (p : prog A B) r fuel a b d : strictp s p -> lively p ->
    call_and_reap s p = inl r -> run fuel r a = inl (b, d) -> exists p', plant s p d = inl p' /\ run fuel p' (a, d) = inl b /\ run fuel p a = inl b.
  Proof.
    intros Hs Hl H Hrun. assert (K : exists p', plant s p d = inl p').
    { pose proof H as H'. unfold call_and_reap in H'. apply rb_inl in H' as ([M1 p1] & H1 & _).
      assert (Hreg : regular s p []) by (split; [apply strictp_tame, Hs|apply no_cond_no_mix, no_clob_no_cond, strictp_sites, Hs]).
      rewrite (call_and_reap_sem s fuel p r a H Hreg) in Hrun. apply rb_inl in Hrun as ([b' o] & E & Hrun). cbn [fst snd] in Hrun. injection Hrun as <- <-.
      destruct (strict_eff s fuel p _ _ _ _ _ H1 Hs E) as (K1 & K2 & K3). rewrite once_nodup_id by exact K3. unfold plant.
      destruct (plant_ok p _ _ H1 Hs Hl (skels_of (collect (sites s p []) o)) []) as (dn & p2 & Ep & _); [|intros n _ []|rewrite Ep; cbn [rb]; eauto].
      intros n av k Hin Hg. unfold skels_of in Hg. rewrite (dget_map (fun kt : string * tree => skel_of (snd kt))), dget_collect, (NoDup_In_dget _ _ _ K3 Hin) in Hg. cbn in Hg.
      destruct (K1 _ _ _ Hin) as (v & Ev & Ha). rewrite Ev in Hg. injection Hg as <-. apply skel_ok, Ha. }
    destruct K as [p' K]. exists p'. split; [exact K|]. eapply (C32_plant_reaped s p r fuel a b d p'); eassumption.
  Qed.
End total.

(** ** Exactly which programs can be reaped *)
Section legal.
  Context {AR : Arrays}.
  (** the last entry of a name *)
  Definition latest (l : meta) (n : string) : option (mode * aval) := dget (once l) n.
  (** a name may be sown again only if this and the previous sow are clobber or sow_cond, and a sow_cond must have the
      shape of the previous sow *)
  Definition may_follow (y x : mode * aval) : Prop :=
    clobberish (fst y) = true /\ clobberish (fst x) = true /\ (is_cond (fst x) = true -> snd x = snd y).
  Definition repeats_ok (l : meta) : Prop :=
    forall l1 l2 n x y, l = l1 ++ (n, x) :: l2 -> latest l1 n = Some y -> may_follow y x.
  Definition same_sows (l l' : meta) : Prop :=
    (forall n, In n (dkeys l) <-> In n (dkeys l')) /\
    (forall n m a m' a', latest l n = Some (m, a) -> latest l' n = Some (m', a') -> a = a' /\ is_array a = true /\ is_cond m = is_cond m').
  Fixpoint legal (s : settings) {A B} (p : prog A B) : Prop :=
    match p with
    | Pure _ | SowCond _ _ _ => True
    | Sow _ _ m _ => is_cond m = false
    | Seq p q => legal s p /\ legal s q
    | First _ p => legal s p
    | Nest _ p | Call p => legal s p /\ repeats_ok (sites s p [])
    | Scan _ _ p => legal s p /\ repeats_ok (sites s p []) /\ (forall n m a, In (n, (m, a)) (sites s p []) -> m <> Strict) /\
        (is_cond (last_mode (once (sites s p []))) = true -> forall n m a, latest (sites s p []) n = Some (m, a) -> m <> Clobber)
    | While _ p => legal s p /\ repeats_ok (sites s p []) /\ (forall n m a, In (n, (m, a)) (sites s p []) -> clobberish m = true)
    | Cond p q => legal s p /\ legal s q /\ repeats_ok (sites s p []) /\ repeats_ok (sites s q []) /\ same_sows (sites s p []) (sites s q [])
    end.

  Variable s : settings.
  Lemma resow_repeats l : all_pass s l -> forall M0, (exists M', resow_meta s (once M0) l = inl M') <->
    forall l1 l2 n x y, l = l1 ++ (n, x) :: l2 -> latest (M0 ++ l1) n = Some y -> may_follow y x.
  Proof.
    induction l as [|[k [m a]] l IH]; intros Hp M0.
    - split; [|eexists; reflexivity]. intros _ l1 l2 n x y E. destruct l1; discriminate.
    - assert (Hp' : all_pass s l) by (intros j Hj; apply Hp; right; exact Hj). cbn [resow_meta]. rewrite Hp by (left; reflexivity).
      assert (Eset : dset (once M0) k (m, a) = once (M0 ++ [(k, (m, a))])) by (unfold once; rewrite dmerge_app; reflexivity).
      split.
      + intros [M' H]. apply rb_inl in H as (M1 & H1 & H). pose proof (handle_inl _ _ _ _ _ H1) as ->. rewrite Eset in H.
        pose proof (proj1 (IH Hp' _) (ex_intro _ _ H)) as K. intros l1 l2 n x y E Hy. destruct l1 as [|e l1]; cbn in E.
        * injection E as -> <- <-. rewrite app_nil_r in Hy. unfold latest in Hy. unfold handle in H1. rewrite Hy in H1. destruct y as [m0 a0].
          destruct (clobberish m) eqn:E1; [|discriminate]. destruct (clobberish m0) eqn:E2; [|discriminate]. cbn in H1. split; [exact E2|]. split; [exact E1|]. cbn.
          intros Hc. rewrite Hc in H1. cbn in H1. destruct (aval_eqb a a0) eqn:Ea; [|discriminate]. apply aval_eqb_eq, Ea.
        * injection E as <- ->. eapply (K l1); [reflexivity|]. rewrite <- app_assoc. exact Hy.
      + intros K. assert (H1 : handle (once M0) k m a = inl (dset (once M0) k (m, a))).
        { unfold handle. destruct (dget (once M0) k) as [[m0 a0]|] eqn:E; [|reflexivity].
          destruct (K [] l k (m, a) (m0, a0)) as (K1 & K2 & K3); [reflexivity|rewrite app_nil_r; exact E|]. cbn in K1, K2, K3. rewrite K1, K2. cbn.
          destruct (is_cond m); [|reflexivity]. rewrite (K3 eq_refl), aval_eqb_refl. reflexivity. }
        rewrite H1. cbn [rb]. rewrite Eset. apply IH; [exact Hp'|]. intros l1 l2 n x y E Hy. apply (K ((k, (m, a)) :: l1) l2 n x y); [rewrite E; reflexivity|].
        rewrite <- app_assoc in Hy. exact Hy.
  Qed.
  Lemma resow_ok l : all_pass s l -> (exists M', resow_meta s [] l = inl M') <-> repeats_ok l.
  Proof. intros H. apply (resow_repeats l H []). Qed.
  Lemma latest_snoc l k x n : latest (l ++ [(k, x)]) n = if String.eqb n k then Some x else latest l n.
  Proof. unfold latest, once. rewrite dmerge_app. cbn. apply dget_dset. Qed.
  Lemma latest_In l n x : latest l n = Some x -> In (n, x) l.
  Proof. intros H. apply once_incl, dget_In, H. Qed.
  Lemma once_In l n x : In (n, x) (once l) <-> latest l n = Some x.
  Proof. split; [apply NoDup_In_dget, once_nodup|apply dget_In]. Qed.
  Lemma repeats_single l n m a : repeats_ok l -> In (n, (m, a)) l -> clobberish m = false -> latest l n = Some (m, a).
  Proof.
    revert n m a. induction l as [|[k x] l IH] using rev_ind; intros n m a Hr Hin Hc; [destruct Hin|]. rewrite latest_snoc.
    apply in_app_or in Hin as [Hin|[Hin|[]]].
    - assert (Hl : latest l n = Some (m, a)).
      { apply IH; auto. intros l1 l2 n0 x0 y0 E. eapply (Hr l1 (l2 ++ [(k, x)])). rewrite E, <- app_assoc. reflexivity. }
      destruct (String.eqb_spec n k) as [->|]; [|exact Hl]. destruct (Hr l [] k x (m, a) eq_refl Hl) as [K _]. cbn in K. congruence.
    - injection Hin as -> ->. rewrite String.eqb_refl. reflexivity.
  Qed.
  Lemma strict_free l : repeats_ok l -> (existsb (fun e : string * (mode * aval) => is_strict (fst (snd e))) (once l) = false <-> forall n m a, In (n, (m, a)) l -> m <> Strict).
  Proof.
    intros Hr. split.
    - intros H n m a Hin ->. pose proof (repeats_single _ _ _ _ Hr Hin eq_refl) as Hl. rewrite <- not_true_iff_false in H. apply H, existsb_exists. exists (n, (Strict, a)).
      split; [apply once_In, Hl|reflexivity].
    - intros H. apply not_true_iff_false. intros E. apply existsb_exists in E as ([n [m a]] & Hin & E). apply once_incl in Hin. apply H in Hin. destruct m; try discriminate. congruence.
  Qed.
  Lemma clob_only l : repeats_ok l -> (existsb (fun e : string * (mode * aval) => negb (clobberish (fst (snd e)))) (once l) = false <-> forall n m a, In (n, (m, a)) l -> clobberish m = true).
  Proof.
    intros Hr. split.
    - intros H n m a Hin. destruct (clobberish m) eqn:E; [reflexivity|]. pose proof (repeats_single _ _ _ _ Hr Hin E) as Hl. rewrite <- not_true_iff_false in H. exfalso. apply H, existsb_exists. exists (n, (m, a)).
      split; [apply once_In, Hl|cbn; rewrite E; reflexivity].
    - intros H. apply not_true_iff_false. intros E. apply existsb_exists in E as ([n [m a]] & Hin & E). apply once_incl in Hin. apply H in Hin. cbn in E. rewrite Hin in E. discriminate.
  Qed.
  Lemma late_mode l : (is_cond (last_mode (once l)) && existsb (fun e : string * (mode * aval) => negb (is_cond (fst (snd e)))) (clobbers (once l)))%bool = false <->
    (is_cond (last_mode (once l)) = true -> forall n m a, latest l n = Some (m, a) -> m <> Clobber).
  Proof.
    destruct (is_cond (last_mode (once l))); cbn [andb]; [|split; [discriminate|reflexivity]]. split.
    - intros H _ n m a Hl ->. rewrite <- not_true_iff_false in H. apply H, existsb_exists. exists (n, (Clobber, a)). split; [|reflexivity]. apply filter_In. split; [apply once_In, Hl|reflexivity].
    - intros H. apply not_true_iff_false. intros E. apply existsb_exists in E as ([n [m a]] & Hin & E). apply filter_In in Hin as [Hin Hc]. cbn in *. apply once_In in Hin.
      apply (H eq_refl _ _ _ Hin). destruct m; try discriminate; reflexivity.
  Qed.
  Lemma check_branch_ok M0 M1 : check_branch M0 M1 = inl tt <->
    (forall n m a, In (n, (m, a)) M1 -> exists m0, dget M0 n = Some (m0, a) /\ is_array a = true /\ is_cond m = is_cond m0).
  Proof.
    induction M1 as [|[k [m a]] M1 IH]; cbn [check_branch]; [split; [intros _ n m a []|reflexivity]|]. split.
    - intros H. destruct (dget M0 k) as [[m0 a0]|] eqn:E; [|discriminate]. destruct (is_array a) eqn:Ea; [|discriminate]. destruct (is_array a0); [|discriminate]. cbn [andb] in H.
      destruct (aval_eqb a a0) eqn:Eq; [|discriminate]. destruct (Bool.eqb _ _) eqn:Ec; [|discriminate]. apply eqb_prop in Ec. apply aval_eqb_eq in Eq. subst a0.
      intros n m1 a1 [Hin|Hin]; [injection Hin as <- <- <-; eauto|]. apply (proj1 IH H), Hin.
    - intros H. destruct (H k m a (or_introl eq_refl)) as (m0 & E & Ea & Ec). rewrite E, Ea, aval_eqb_refl, Ec. cbn [andb]. rewrite eqb_reflx. apply IH. intros n m1 a1 Hin. apply (H n m1 a1). right. exact Hin.
  Qed.
  Lemma check_branches_ok l l' : check_branches (once l) (once l') = inl tt <-> same_sows l l'.
  Proof.
    assert (Kin : forall l n, In n (dkeys l) <-> exists x, latest l n = Some x).
    { intros l0 n. rewrite <- once_keys. split; [apply In_dkeys_dget|]. intros [x Hx]. eapply dget_In_keys, Hx. }
    unfold check_branches, same_sows. split.
    - intros H. destruct (Nat.eqb_spec (List.length (once l')) (List.length (once l))) as [El|]; [|discriminate]. rewrite check_branch_ok in H.
      assert (Hi : incl (dkeys (once l')) (dkeys (once l))).
      { intros n Hn. apply In_dkeys_dget in Hn as ([m a] & Hn). destruct (H n m a) as (m0 & E & _); [apply dget_In, Hn|]. eapply dget_In_keys, E. }
      assert (Hi' : incl (dkeys (once l)) (dkeys (once l'))).
      { apply NoDup_length_incl; [apply once_nodup| |exact Hi]. unfold dkeys. rewrite !map_length. lia. }
      split; [intros n; rewrite <- (once_keys l), <- (once_keys l'); split; auto|].
      intros n m a m' a' E1 E2. destruct (H n m' a') as (m0 & E & Ea & Ec); [apply once_In, E2|]. unfold latest in E1. rewrite E1 in E. injection E as -> ->. auto.
    - intros [H1 H2]. assert (El : List.length (once l') = List.length (once l)).
      { apply Nat.le_antisymm; rewrite <- (map_length fst (once l)), <- (map_length fst (once l')); apply NoDup_incl_length; try apply once_nodup; intros n Hn; apply (proj2 (once_keys _ n)); apply (proj1 (once_keys _ n)) in Hn; apply H1, Hn. }
      rewrite El, Nat.eqb_refl. apply check_branch_ok. intros n m a Hin. apply once_In in Hin.
      destruct (proj1 (Kin l n)) as [[m0 a0] E]; [apply H1, Kin; eauto|]. destruct (H2 _ _ _ _ _ E Hin) as (-> & Ea & Ec). exists m0. auto.
  Qed.
  Lemma reapT_legal {A B} (p : prog A B) : forall M, (exists r, reapT s p M = inl r) <-> legal s p /\ exists M', resow_meta s M (sites s p []) = inl M'.
  Proof.
    assert (Kres : forall A B (p : prog A B) M, (exists r, reapT s p M = inl r) -> exists M', resow_meta s M (sites s p []) = inl M').
    { intros ? ? p0 M [[M' p'] H]. exists M'. eapply reapT_resow, H. }
    assert (Kbody : forall A B (p : prog A B), (forall M, (exists r, reapT s p M = inl r) <-> legal s p /\ exists M', resow_meta s M (sites s p []) = inl M') ->
      legal s p -> repeats_ok (sites s p []) -> exists p', reapT s p [] = inl (once (sites s p []), p')).
    { intros ? ? p0 IH Hl Hr. destruct (proj2 (IH [])) as [[M' p'] H]; [split; [exact Hl|apply resow_ok; [apply sites_pass|exact Hr]]|]. exists p'. rewrite H. f_equal. f_equal. apply reapT_meta in H. exact H. }
    assert (Kbody' : forall A B (p : prog A B), (forall M, (exists r, reapT s p M = inl r) <-> legal s p /\ exists M', resow_meta s M (sites s p []) = inl M') ->
      forall M' p', reapT s p [] = inl (M', p') -> legal s p /\ repeats_ok (sites s p []) /\ M' = once (sites s p [])).
    { intros ? ? p0 IH M' p' H. destruct (proj1 (IH []) (ex_intro _ _ H)) as [Hl Hr]. split; [exact Hl|]. split; [apply resow_ok in Hr; [exact Hr|apply sites_pass]|]. apply reapT_meta in H. exact H. }
    induction p as [A B f|A B C p IHp q IHq|A B C p IHp|t n m av|t n av|A B sc p IHp|A B p IHp|C X Y rv len p IHp|C c p IHp|A B p IHp q IHq]; intros M.
    - cbn. split; eauto.
    - split.
      + intros Hr. split; [|apply Kres, Hr]. destruct Hr as [r H]. cbn [reapT legal] in *. apply rb_inl in H as (r1 & H1 & H). apply rb_inl in H as (r2 & H2 & H).
        split; [eapply (proj1 (IHp M))|eapply (proj1 (IHq _))]; eauto.
      + intros [[H1 H2] [M' H]]. cbn [reapT sites2] in *. rewrite resow_meta_app in H. apply rb_inl in H as (M1 & R1 & R2).
        destruct (proj2 (IHp M)) as [[M2 p1] E1]; [eauto|]. rewrite E1. cbn [rb fst]. pose proof (reapT_resow s p _ _ _ E1) as E. rewrite R1 in E. injection E as ->.
        destruct (proj2 (IHq M2)) as [[M3 q1] E2]; [eauto|]. rewrite E2. cbn [rb]. eauto.
    - split.
      + intros Hr. split; [|apply Kres, Hr]. destruct Hr as [r H]. cbn [reapT legal] in *. apply rb_inl in H as (r1 & H1 & H). eapply (proj1 (IHp M)). eauto.
      + intros [H1 H2]. cbn [reapT sites2] in *. destruct (proj2 (IHp M)) as [[M2 p1] E1]; [eauto|]. rewrite E1. cbn [rb]. eauto.
    - split.
      + intros Hr. split; [|apply Kres, Hr]. destruct Hr as [r H]. cbn [reapT legal] in *. destruct (is_cond m); [discriminate|reflexivity].
      + intros [H1 [M' H2]]. cbn [reapT sites2 legal] in *. rewrite H1. rewrite site_here_nil in H2. unfold seen in H2. destruct (String.eqb t (tag_of s)); [destruct (passes s n) eqn:Ep|destruct (exclusive s)]; eauto.
        cbn in H2. rewrite Ep in H2. apply rb_inl in H2 as (M1 & -> & _). cbn [rb]. eauto.
    - split.
      + intros Hr. split; [exact I|apply Kres, Hr].
      + intros [H1 [M' H2]]. cbn [reapT sites2 legal] in *. rewrite site_here_nil in H2. unfold seen in H2. destruct (String.eqb t (tag_of s)); [destruct (passes s n) eqn:Ep|destruct (exclusive s)]; eauto.
        cbn in H2. rewrite Ep in H2. apply rb_inl in H2 as (M1 & -> & _). cbn [rb]. eauto.
    - split.
      + intros Hr. split; [|apply Kres, Hr]. destruct Hr as [r H]. cbn [reapT legal] in *. apply rb_inl in H as ([M1 p1] & H1 & H). apply (Kbody' _ _ p IHp) in H1. tauto.
      + intros [[H1 H2] [M' H]]. cbn [reapT sites2 legal] in *. destruct (Kbody _ _ p IHp H1 H2) as [p1 E1]. rewrite E1. cbn [rb fst]. change (sub [] sc) with (@nil (string * tree)) in H.
        unfold scope_site in H. destruct (sites s p []) as [|e l] eqn:Es; [cbn [once dmerge fold_left rb]; eauto|]. rewrite <- Es in *.
        destruct (once (sites s p [])) as [|e1 l1] eqn:Eo; [apply (proj1 (once_nil _)) in Eo; congruence|]. destruct (passes s sc) eqn:Ep.
        * rewrite H. cbn [rb]. eauto.
        * cbn [resow_meta]. rewrite Ep. cbn [rb]. eauto.
    - split.
      + intros Hr. split; [|apply Kres, Hr]. destruct Hr as [r H]. cbn [reapT legal] in *. apply rb_inl in H as ([M1 p1] & H1 & H). apply (Kbody' _ _ p IHp) in H1. tauto.
      + intros [[H1 H2] [M' H]]. cbn [reapT sites2 legal] in *. destruct (Kbody _ _ p IHp H1 H2) as [p1 E1]. rewrite E1. cbn [rb fst]. rewrite H. cbn [rb]. eauto.
    - split.
      + intros Hr. split; [|apply Kres, Hr]. destruct Hr as [r H]. cbn [reapT legal] in *. apply rb_inl in H as ([M1 p1] & H1 & H). cbv zeta in H. cbn [fst snd] in H.
        apply (Kbody' _ _ p IHp) in H1 as (K1 & K2 & ->). destruct (existsb _ (once _)) eqn:Ex in H; [discriminate|].
        destruct (is_cond _ && _)%bool eqn:Ec in H; [discriminate|]. split; [exact K1|]. split; [exact K2|]. split; [apply strict_free; assumption|apply late_mode; exact Ec].
      + intros [(H1 & H2 & H3 & H4) [M' H]]. cbn [reapT sites2 legal] in *. change (body_plants (once (sites s p [])) []) with (@nil (string * tree)) in H.
        destruct (Kbody _ _ p IHp H1 H2) as [p1 E1]. rewrite E1. cbv zeta. cbn [rb fst].
        rewrite (proj2 (strict_free _ H2) H3), (proj2 (late_mode _) H4). cbv zeta in H. rewrite H. cbn [rb]. eauto.
    - split.
      + intros Hr. split; [|apply Kres, Hr]. destruct Hr as [r H]. cbn [reapT legal] in *. apply rb_inl in H as ([M1 p1] & H1 & H). cbv zeta in H. cbn [fst snd] in H.
        apply (Kbody' _ _ p IHp) in H1 as (K1 & K2 & ->). destruct (existsb _ (once _)) eqn:Ex in H; [discriminate|]. split; [exact K1|]. split; [exact K2|]. apply clob_only; assumption.
      + intros [(H1 & H2 & H3) [M' H]]. cbn [reapT sites2 legal] in *. destruct (Kbody _ _ p IHp H1 H2) as [p1 E1]. rewrite E1. cbv zeta. cbn [rb fst].
        rewrite (proj2 (clob_only _ H2) H3), H. cbn [rb]. eauto.
    - split.
      + intros Hr. split; [|apply Kres, Hr]. destruct Hr as [r H]. cbn [reapT legal] in *. apply rb_inl in H as ([M1 p1] & H1 & H). apply rb_inl in H as ([M2 q1] & H2 & H). apply rb_inl in H as ([] & Hcb & H).
        apply (Kbody' _ _ p IHp) in H1 as (K1 & K2 & ->). apply (Kbody' _ _ q IHq) in H2 as (J1 & J2 & ->). cbn [fst] in Hcb. apply check_branches_ok in Hcb. tauto.
      + intros [(H1 & H2 & H3 & H4 & H5) [M' H]]. cbn [reapT sites2 legal] in *. destruct (Kbody _ _ p IHp H1 H3) as [p1 E1]. destruct (Kbody _ _ q IHq H2 H4) as [q1 E2]. rewrite E1. cbn [rb fst]. rewrite E2. cbn [rb fst].
        apply check_branches_ok in H5. rewrite H5. cbn [rb]. rewrite H. cbn [rb]. eauto.
  Qed.
  (** reap raises exactly for the programs described by [legal] and [repeats_ok] *)
  Theorem C25_reap_succeeds_iff {A B} (p : prog A B) : (exists r, call_and_reap s p = inl r) <-> legal s p /\ repeats_ok (sites s p []).
  Proof.
    unfold call_and_reap. rewrite <- (resow_ok _ (sites_pass s p s [])), <- (reapT_legal p []). split.
    - intros [r H]. apply rb_inl in H as (r1 & H & _). eauto.
    - intros [r H]. rewrite H. cbn [rb]. eauto.
  Qed.
End legal.

(** ** Exactly when plant raises *)
Section plantable.
  Context {AR : Arrays}.
  Variable s : settings.
  (** no name that is planted at a strict or append sow is sown again in the same context *)
  Definition planted_once {A B} (p : prog A B) (sk : list (string * skel)) : Prop :=
    forall l1 l2 t n m m', direct p = l1 ++ (t, (n, m)) :: l2 -> seen s t n = true -> In (t, (n, m')) l1 -> haskey sk n = true -> clobberish m' = true.
  Definition sub_dict (sk : list (string * skel)) (sc : string) : list (string * skel) := match dget sk sc with Some (SDict l) => l | _ => [] end.
  Fixpoint plantable {A B} (p : prog A B) (sk : list (string * skel)) : Prop :=
    match p with
    | Pure _ | SowCond _ _ _ => True
    | Sow _ _ m _ => is_cond m = false
    | Seq p q => plantable p sk /\ plantable q sk
    | First _ p => plantable p sk
    | Nest sc p => (dget sk sc = Some SLeaf -> quiet s p = true) /\ plantable p (sub_dict sk sc) /\ planted_once p (sub_dict sk sc)
    | Call p => plantable p sk /\ planted_once p sk
    | Scan _ _ p => legal s p /\ repeats_ok (sites s p []) /\ (forall n m a, In (n, (m, a)) (sites s p []) -> m <> Strict) /\
        plantable p (scan_skel (once (sites s p [])) sk) /\ planted_once p (scan_skel (once (sites s p [])) sk)
    | While _ p => legal s p /\ repeats_ok (sites s p []) /\ (forall n m a, In (n, (m, a)) (sites s p []) -> clobberish m = true) /\ plantable p sk /\ planted_once p sk
    | Cond p q => legal s p /\ legal s q /\ repeats_ok (sites s p []) /\ repeats_ok (sites s q []) /\ same_sows (sites s p []) (sites s q []) /\
        plantable p sk /\ planted_once p sk /\ plantable q sk /\ planted_once q sk
    end.
  (** the names planted by a list of sows *)
  Definition used (sk : list (string * skel)) (l : list (string * (string * mode))) (n : string) : Prop :=
    exists t m, In (t, (n, m)) l /\ seen s t n = true /\ haskey sk n = true /\ clobberish m = false.
  Definition fresh (sk : list (string * skel)) (l : list (string * (string * mode))) (dn : list string) : Prop :=
    forall l1 l2 t n m, l = l1 ++ (t, (n, m)) :: l2 -> seen s t n = true -> ~ In n dn /\ ~ used sk l1 n.
  Lemma used_app sk l l' n : used sk (l ++ l') n <-> used sk l n \/ used sk l' n.
  Proof.
    unfold used. split.
    - intros (t & m & H & K). apply in_app_or in H as [H|H]; [left|right]; eauto.
    - intros [(t & m & H & K)|(t & m & H & K)]; exists t, m; (split; [apply in_or_app; auto|exact K]).
  Qed.
  Lemma fresh_once {A B} (p : prog A B) sk : fresh sk (direct p) [] <-> planted_once p sk.
  Proof.
    unfold fresh, planted_once, used. split.
    - intros H l1 l2 t n m m' E Hs Hin Hk. destruct (H _ _ _ _ _ E Hs) as [_ K]. destruct (clobberish m') eqn:Ec; [reflexivity|]. exfalso. apply K. exists t, m'. auto.
    - intros H l1 l2 t n m E Hs. split; [intros []|]. intros (t' & m' & Hin & Hs' & Hk & Hc).
      assert (t' = t) as -> by (unfold seen in Hs, Hs'; apply andb_true_iff in Hs as [Hs _], Hs' as [Hs' _]; apply String.eqb_eq in Hs, Hs'; congruence).
      rewrite (H _ _ _ _ _ _ E Hs Hin Hk) in Hc. discriminate.
  Qed.
  Lemma app_split {X} (a b l1 l2 : list X) x : a ++ b = l1 ++ x :: l2 ->
    (exists c, a = l1 ++ x :: c) \/ (exists c, l1 = a ++ c /\ b = c ++ x :: l2).
  Proof.
    revert l1. induction a as [|y a IH]; intros l1 E; [right; exists l1; auto|]. destruct l1 as [|z l1]; cbn in E; injection E as <- E.
    - left. exists a. reflexivity.
    - apply IH in E as [[c ->]|(c & -> & E)]; [left; exists c; reflexivity|right; exists c; auto].
  Qed.
  Lemma fresh_app sk l l' dn dn1 : (forall n, In n dn1 <-> In n dn \/ used sk l n) -> fresh sk (l ++ l') dn <-> fresh sk l dn /\ fresh sk l' dn1.
  Proof.
    intros Hd. unfold fresh. split.
    - intros H. split.
      + intros l1 l2 t n m E. apply (H l1 (l2 ++ l') t n m). rewrite E, <- app_assoc. reflexivity.
      + intros l1 l2 t n m E Hs. destruct (H (l ++ l1) l2 t n m) as [K1 K2]; [rewrite E, <- app_assoc; reflexivity|exact Hs|]. rewrite used_app in K2. rewrite Hd. tauto.
    - intros [H1 H2] l1 l2 t n m E Hs. apply app_split in E as [[c E]|(c & -> & E)]; [eapply H1; eassumption|]. destruct (H2 _ _ _ _ _ E Hs) as [K1 K2]. rewrite Hd in K1. rewrite used_app. tauto.
  Qed.
  Lemma fresh_nil sk dn : fresh sk [] dn.
  Proof. intros l1 l2 t n m E. destruct l1; discriminate. Qed.
  Lemma used_nil sk n : ~ used sk [] n.
  Proof. intros (t & m & [] & _). Qed.
  Lemma fresh_one sk t n m dn : fresh sk [(t, (n, m))] dn <-> (seen s t n = true -> ~ In n dn).
  Proof.
    unfold fresh. split.
    - intros H Hs. apply (H [] [] t n m eq_refl Hs).
    - intros H l1 l2 t' n' m' E Hs. destruct l1 as [|e l1]; [|destruct l1; discriminate]. injection E as <- <- <- <-. split; [auto|apply used_nil].
  Qed.
  Lemma plantT_iff {A B} (p : prog A B) : forall sk dn,
    ((exists r, plantT s p sk dn = inl r) <-> plantable p sk /\ fresh sk (direct p) dn) /\
    (forall dn' p', plantT s p sk dn = inl (dn', p') -> forall n, In n dn' <-> In n dn \/ used sk (direct p) n).
  Proof.
    assert (Kn : forall (sk : list (string * skel)) (dn : list string) (n : string), In n dn <-> In n dn \/ used sk [] n) by (intros; pose proof (used_nil sk n); tauto).
    assert (Kin : forall A B (p : prog A B) sk, (forall sk dn, ((exists r, plantT s p sk dn = inl r) <-> plantable p sk /\ fresh sk (direct p) dn) /\
      (forall dn' p', plantT s p sk dn = inl (dn', p') -> forall n, In n dn' <-> In n dn \/ used sk (direct p) n)) ->
      (exists r, plantT s p sk [] = inl r) <-> plantable p sk /\ planted_once p sk).
    { intros ? ? p0 sk IH. rewrite (proj1 (IH sk [])), fresh_once. reflexivity. }
    assert (Kr : forall A B (p : prog A B) r, reapT s p [] = inl r <-> (fst r = once (sites s p []) /\ reapT s p [] = inl r)).
    { intros ? ? p0 [M' p']. split; [|tauto]. intros H. split; [|exact H]. apply reapT_meta in H. exact H. }
    assert (Kl : forall A B (p : prog A B), (exists r, reapT s p [] = inl r) <-> legal s p /\ repeats_ok (sites s p [])).
    { intros ? ? p0. rewrite reapT_legal, resow_ok by apply sites_pass. reflexivity. }
    induction p as [A B f|A B C p IHp q IHq|A B C p IHp|t n m av|t n av|A B sc p IHp|A B p IHp|C X Y rv len p IHp|C c p IHp|A B p IHp q IHq]; intros sk dn; cbn [plantT plantable direct].
    - split; [split; [intros _; split; [exact I|apply fresh_nil]|eauto]|]. intros dn' p' E. injection E as <- <-. apply Kn.
    - split.
      + split.
        * intros [r H]. apply rb_inl in H as ([d1 p1] & H1 & H). apply rb_inl in H as ([d2 q1] & H2 & H).
          pose proof (proj1 (proj1 (IHp sk dn)) (ex_intro _ _ H1)) as [K1 K2]. pose proof (proj1 (proj1 (IHq sk d1)) (ex_intro _ _ H2)) as [J1 J2].
          split; [tauto|]. apply (fresh_app sk _ _ dn d1); [apply (proj2 (IHp sk dn) _ _ H1)|tauto].
        * intros [[K1 K2] F]. destruct (plantT s p sk dn) as [[d1 p1]|e] eqn:E1.
          -- cbn [rb fst snd]. pose proof (proj2 (IHp sk dn) _ _ E1) as Hd. destruct (proj1 (fresh_app sk _ _ dn d1 Hd) F) as [F1 F2].
             destruct (proj2 (proj1 (IHq sk d1)) (conj K2 F2)) as [[d2 q1] E2]. rewrite E2. cbn [rb]. eauto.
          -- exfalso. destruct (proj2 (proj1 (IHp sk dn))) as [r E]; [|rewrite E in E1; discriminate]. split; [exact K1|].
             intros l1 l2 t n m E Hs. apply (F l1 (l2 ++ direct q) t n m); [rewrite E, <- app_assoc; reflexivity|exact Hs].
      + intros dn' p' H. apply rb_inl in H as ([d1 p1] & H1 & H). apply rb_inl in H as ([d2 q1] & H2 & H). injection H as <- _. cbn [fst snd] in *. intros n.
        rewrite (proj2 (IHq sk d1) _ _ H2), (proj2 (IHp sk dn) _ _ H1), used_app. tauto.
    - split.
      + rewrite <- (proj1 (IHp sk dn)). split; [intros [r H]; apply rb_inl in H as (r1 & H1 & H); eauto|intros [r H]; rewrite H; cbn [rb]; eauto].
      + intros dn' p' H. apply rb_inl in H as ([d1 p1] & H1 & H). injection H as <- _. apply (proj2 (IHp sk dn) _ _ H1).
    - rewrite fresh_one. unfold seen. destruct (is_cond m) eqn:Ec; [split; [split; [intros [r H]; discriminate|intros [H _]; discriminate]|discriminate]|].
      assert (Ku : forall k, used sk [(t, (n, m))] k <-> k = n /\ seen s t n = true /\ haskey sk n = true /\ clobberish m = false).
      { intros k. unfold used. split; [intros (t' & m' & [E|[]] & K); injection E as <- <- <-; tauto|]. intros (-> & K). exists t, m. simpl. auto. }
      unfold seen in Ku. destruct (String.eqb t (tag_of s)); [destruct (passes s n) eqn:Ep|]; cbn [andb] in *.
      + destruct (mem n dn) eqn:Em; [split; [split; [intros [r H]; discriminate|intros [_ H]; apply mem_In in Em; destruct (H eq_refl Em)]|discriminate]|].
        assert (Hn : ~ In n dn) by (intros K; apply mem_In in K; congruence).
        destruct (haskey sk n) eqn:Ek; (split; [split; [auto|eauto]|]); intros dn' p' E; injection E as <- _; intros k; rewrite Ku.
        * destruct (clobberish m); cbn [In]; [split; [auto|]; intros [K|(_ & _ & _ & K)]; [exact K|discriminate]|]. split; [intros [<-|K]; auto|]. intros [K|(-> & _)]; auto.
        * split; [auto|]. intros [K|(_ & _ & K & _)]; [exact K|discriminate].
      + split; [split; [intros _; split; [reflexivity|discriminate]|eauto]|]. intros dn' p' E. injection E as <- _. intros k. rewrite Ku. split; [auto|]. intros [K|(_ & K & _)]; [exact K|discriminate].
      + split; [split; [intros _; split; [reflexivity|discriminate]|destruct (exclusive s); eauto]|]. intros dn' p' E. assert (dn' = dn) as -> by (destruct (exclusive s); injection E as <- _; reflexivity).
        intros k. rewrite Ku. split; [auto|]. intros [K|(_ & K & _)]; [exact K|discriminate].
    - rewrite fresh_one. unfold seen.
      assert (Ku : forall k, ~ used sk [(t, (n, CondClobber))] k) by (intros k (t' & m' & [E|[]] & _ & _ & Hc); injection E as <- <- <-; discriminate).
      assert (Ku' : forall k, In k dn <-> In k dn \/ used sk [(t, (n, CondClobber))] k) by (intros k; pose proof (Ku k); tauto).
      destruct (String.eqb t (tag_of s)); [destruct (passes s n) eqn:Ep|]; cbn [andb] in *.
      + destruct (mem n dn) eqn:Em; [split; [split; [intros [r H]; discriminate|intros [_ H]; apply mem_In in Em; destruct (H eq_refl Em)]|discriminate]|].
        assert (Hn : ~ In n dn) by (intros K; apply mem_In in K; congruence).
        destruct (haskey sk n) eqn:Ek; (split; [split; [auto|eauto]|]); intros dn' p' E; injection E as <- _; exact Ku'.
      + split; [split; [intros _; split; [exact I|discriminate]|eauto]|]. intros dn' p' E. injection E as <- _. exact Ku'.
      + split; [split; [intros _; split; [exact I|discriminate]|destruct (exclusive s); eauto]|]. intros dn' p' E. assert (dn' = dn) as -> by (destruct (exclusive s); injection E as <- _; reflexivity). exact Ku'.
    - split.
      + assert (K : (exists r, rb (sub_skel (quiet s p) sk sc) (fun sk' => rb (plantT s p sk' []) (fun r =>
          inl (dn, Seq (Pure (fun x : A * plants => inl (fst x, sub_plants sk (snd x) sc))) (Nest sc (snd r))))) = inl r) <->
          (dget sk sc = Some SLeaf -> quiet s p = true) /\ exists r, plantT s p (sub_dict sk sc) [] = inl r).
        { unfold sub_skel, sub_dict. destruct (dget sk sc) as [[|l]|]; cbn [rb]; [destruct (quiet s p); cbn [rb]| |].
          - split; [intros [r H]; split; [reflexivity|]; apply rb_inl in H as (r1 & H1 & H); eauto|intros [_ [r H]]; rewrite H; cbn [rb]; eauto].
          - split; [intros [r H]; discriminate H|]. intros [H _]. discriminate (H eq_refl).
          - split; [intros [r H]; split; [discriminate|]; apply rb_inl in H as (r1 & H1 & H); eauto|intros [_ [r H]]; rewrite H; cbn [rb]; eauto].
          - split; [intros [r H]; split; [discriminate|]; apply rb_inl in H as (r1 & H1 & H); eauto|intros [_ [r H]]; rewrite H; cbn [rb]; eauto]. }
        rewrite K, (Kin _ _ p _ IHp). pose proof (fresh_nil sk dn). tauto.
      + intros dn' p' H. apply rb_inl in H as (sk' & _ & H). apply rb_inl in H as (r & _ & H). injection H as <- _. apply Kn.
    - split.
      + rewrite <- (Kin _ _ p _ IHp). pose proof (fresh_nil sk dn). split; [intros [r H']; apply rb_inl in H' as (r1 & H1 & H'); eauto|intros [[r H'] _]; rewrite H'; cbn [rb]; eauto].
      + intros dn' p' H. apply rb_inl in H as (r & _ & H). injection H as <- _. apply Kn.
    - split.
      + split.
        * intros [r H]. apply rb_inl in H as (r1 & H1 & H). cbv zeta in H. pose proof (proj1 (Kl _ _ p) (ex_intro _ _ H1)) as [L1 L2]. apply (proj1 (Kr _ _ p r1)) in H1 as [E H1]. rewrite E in H.
          destruct (existsb _ (once _)) eqn:Ex; [discriminate|]. apply rb_inl in H as (r2 & H2 & H). pose proof (proj1 (strict_free _ L2) Ex).
          pose proof (proj1 (Kin _ _ p _ IHp) (ex_intro _ _ H2)). pose proof (fresh_nil sk dn). tauto.
        * intros [(L1 & L2 & L3 & L4) _]. destruct (proj2 (Kl _ _ p) (conj L1 L2)) as [r1 H1]. apply (proj1 (Kr _ _ p r1)) in H1 as [E H1]. rewrite H1. cbn [rb]. cbv zeta. rewrite E.
          rewrite (proj2 (strict_free _ L2) L3). apply (Kin _ _ p _ IHp) in L4 as [r2 H2]. rewrite H2. cbn [rb]. eauto.
      + intros dn' p' H. apply rb_inl in H as (r1 & _ & H). cbv zeta in H. destruct (existsb _ _); [discriminate|]. apply rb_inl in H as (r & _ & H). injection H as <- _. apply Kn.
    - split.
      + split.
        * intros [r H]. apply rb_inl in H as (r1 & H1 & H). cbv zeta in H. pose proof (proj1 (Kl _ _ p) (ex_intro _ _ H1)) as [L1 L2]. apply (proj1 (Kr _ _ p r1)) in H1 as [E H1]. rewrite E in H.
          destruct (existsb _ (once _)) eqn:Ex; [discriminate|]. apply rb_inl in H as (r2 & H2 & H). pose proof (proj1 (clob_only _ L2) Ex).
          pose proof (proj1 (Kin _ _ p _ IHp) (ex_intro _ _ H2)). pose proof (fresh_nil sk dn). tauto.
        * intros [(L1 & L2 & L3 & L4) _]. destruct (proj2 (Kl _ _ p) (conj L1 L2)) as [r1 H1]. apply (proj1 (Kr _ _ p r1)) in H1 as [E H1]. rewrite H1. cbn [rb]. cbv zeta. rewrite E.
          rewrite (proj2 (clob_only _ L2) L3). apply (Kin _ _ p _ IHp) in L4 as [r2 H2]. rewrite H2. cbn [rb]. eauto.
      + intros dn' p' H. apply rb_inl in H as (r1 & _ & H). cbv zeta in H. destruct (existsb _ _); [discriminate|]. apply rb_inl in H as (r & _ & H). injection H as <- _. apply Kn.
    - split.
      + split.
        * intros [r H]. apply rb_inl in H as (r1 & H1 & H). apply rb_inl in H as (r2 & H2 & H). apply rb_inl in H as ([] & Hcb & H).
          pose proof (proj1 (Kl _ _ p) (ex_intro _ _ H1)) as [L1 L2]. apply (proj1 (Kr _ _ p r1)) in H1 as [E H1]. rewrite E in *.
          pose proof (proj1 (Kl _ _ q) (ex_intro _ _ H2)) as [J1 J2]. apply (proj1 (Kr _ _ q r2)) in H2 as [E2 H2]. rewrite E2 in *. apply check_branches_ok in Hcb.
          apply rb_inl in H as (r3 & H3 & H). apply rb_inl in H as (r4 & H4 & H).
          pose proof (proj1 (Kin _ _ p _ IHp) (ex_intro _ _ H3)). pose proof (proj1 (Kin _ _ q _ IHq) (ex_intro _ _ H4)). pose proof (fresh_nil sk dn). tauto.
        * intros [(L1 & L2 & L3 & L4 & L5 & L6 & L7 & L8 & L9) _]. destruct (proj2 (Kl _ _ p) (conj L1 L3)) as [r1 H1]. apply (proj1 (Kr _ _ p r1)) in H1 as [E H1]. rewrite H1.
          destruct (proj2 (Kl _ _ q) (conj L2 L4)) as [r2 H2]. apply (proj1 (Kr _ _ q r2)) in H2 as [E2 H2]. rewrite H2. cbn [rb]. rewrite E, E2. apply check_branches_ok in L5. rewrite L5. cbn [rb].
          destruct (proj2 (Kin _ _ p _ IHp) (conj L6 L7)) as [r3 H3]. destruct (proj2 (Kin _ _ q _ IHq) (conj L8 L9)) as [r4 H4]. rewrite H3, H4. cbn [rb]. eauto.
      + intros dn' p' H. apply rb_inl in H as (r1 & _ & H). apply rb_inl in H as (r2 & _ & H). apply rb_inl in H as (r3 & _ & H). apply rb_inl in H as (r4 & _ & H). apply rb_inl in H as (r5 & _ & H). injection H as <- _. apply Kn.
  Qed.
  Theorem C31_plant_succeeds_iff {A B} (p : prog A B) pd : (exists p', plant s p pd = inl p') <-> plantable p (skels_of pd) /\ planted_once p (skels_of pd).
  Proof.
    rewrite <- fresh_once, <- (proj1 (plantT_iff p (skels_of pd) [])). unfold plant. split.
    - intros [p' H]. apply rb_inl in H as (r & H & _). eauto.
    - intros [r H]. rewrite H. cbn [rb]. eauto.
  Qed.
End plantable.

Section corollaries.
  Context {AR : Arrays}.
  (** the two halves together: a legal program without the mixtures that reap mishandles is reaped, and the result is
      the last effective value of every sown name *)
  Theorem C24_reap_total_partial s {A B} (p : prog A B) : legal s p -> repeats_ok (sites s p []) -> regular s p [] ->
    exists r, call_and_reap s p = inl r /\
      forall fuel a, run fuel r a = rb (sem s fuel p [] a) (fun bo => inl (fst bo, collect (once (sites s p [])) (snd bo))).
  Proof.
    intros Hl Hr Hreg. destruct (proj2 (C25_reap_succeeds_iff s p) (conj Hl Hr)) as [r H]. exists r. split; [exact H|]. intros fuel a. apply (call_and_reap_sem s fuel p r a H Hreg).
  Qed.
  Theorem C31_plant_total s {A B} (p : prog A B) pd : plantable s p (skels_of pd) -> planted_once s p (skels_of pd) ->
    exists p', plant s p pd = inl p' /\ forall fuel a, run fuel p' (a, pd) = rb (sem s fuel p pd a) (fun bo => inl (fst bo)).
  Proof.
    intros Hl Hr. destruct (proj2 (C31_plant_succeeds_iff s p pd) (conj Hl Hr)) as [p' H]. exists p'. split; [exact H|]. intros fuel a. apply (C31_plant_overrides s p pd p' H).
  Qed.
End corollaries.

(** ** Concrete cases *)
Example C25_legal_example : legal (all "t") ex /\ repeats_ok (sites (all "t") ex []) /\ regular (all "t") ex [].
Proof.
  assert (H : exists r, call_and_reap (all "t") ex = inl r) by (eexists; reflexivity). apply C25_reap_succeeds_iff in H as [H1 H2]. split; [exact H1|]. split; [exact H2|].
  split; [apply strictp_tame; cbn; tauto|apply no_cond_no_mix, no_clob_no_cond, strictp_sites; cbn; tauto].
Qed.
Example C25_illegal_example : ~ repeats_ok (sites (all "t") (Seq (Sow "t" "h" Clobber A1) (Seq (Sow "t" "g" Strict A1) (Sow "t" "h" Append A1))) []).
Proof. intros H. destruct (H [("h", (Clobber, A1)); ("g", (Strict, A1))] [] "h" (Append, A1) (Clobber, A1) eq_refl eq_refl) as (_ & K & _). discriminate. Qed.
Example C25_cond_shape_example : ~ repeats_ok (sites (all "t") (Seq (Sow "t" "h" Clobber (AL (2%nat : @Av ZArrays))) (Seq (Pure (fun t => inl (t, true))) (SowCond "t" "h" A1))) []).
Proof. intros H. destruct (H [("h", (Clobber, AL (2%nat : @Av ZArrays)))] [] "h" (CondClobber, A1) (Clobber, AL (2%nat : @Av ZArrays)) eq_refl eq_refl) as (_ & _ & K). discriminate (K eq_refl). Qed.
Example C32_total_example : strictp (all "t") ex /\ lively (all "t") ex /\ (exists r, call_and_reap (all "t") ex = inl r) /\
  do_reap (all "t") ex (L 4) = inl ((L 16, [L 16; L 15; L 13]), [("h", L 5); ("f", Dict [("h", L 10)]); ("c", Stk [L 16; L 15; L 13])]).
Proof. split; [cbn; tauto|]. split; [cbn; repeat split; discriminate|]. split; [eexists; reflexivity|vm_compute; reflexivity]. Qed.
(** without [lively]: a scope without sows that contains another scope and is called like a sown name *)
Theorem C32_silent_scope_refuted :
  let p := Seq (Sow "t" "a" Strict A1) (Nest "a" (Nest "b" (step (fun x => x + 1)))) in
  strictp (all "t") p /\ do_reap (all "t") p (L 4) = inl (L 5, [("a", L 4)]) /\ do_plant (all "t") p [("a", L 4)] (L 4) = inr TypeErr.
Proof. split; [cbn; tauto|]. split; vm_compute; reflexivity. Qed.
Example C31_plantable_example : plantable (all "t") ex (skels_of [("h", L 10); ("f", Dict [])]) /\ planted_once (all "t") ex (skels_of [("h", L 10); ("f", Dict [])]).
Proof. apply (C31_plant_succeeds_iff (all "t") ex [("h", L 10); ("f", Dict [])]). eexists. reflexivity. Qed.
Print Assumptions C32_plant_succeeds_partial.
Print Assumptions C25_reap_succeeds_iff.
Print Assumptions C31_plant_succeeds_iff.
Print Assumptions C24_reap_total_partial.
