(** C78: harvesting functions with custom derivative rules. *)
From Verif Require Export CustomJvpModel GradHarvestMain.
Open Scope string_scope. Open Scope list_scope. Open Scope nat_scope.

Section jreap.
  Context {AR : Arrays}.
  Definition flat {B} (z : (B * dict) * (B * dict)) (w : (B * B) * dict) : Prop := w = ((fst (fst z), fst (snd z)), snd (fst z)).
  Lemma flat_pre {A B C} (x : res A) (y : res B) (R : A -> B -> Prop) (f : A -> C) (Q : C -> B -> Prop) : rel_res R x y -> (forall a b, R a b -> Q (f a) b) -> rel_res Q (rb x (fun a => inl (f a))) y.
  Proof. destruct x, y; cbn; auto. Qed.
  Lemma jreap_rel s {A B} (p : cprog A B) : forall M r, jreapT s p M = inl r -> exists r', reapT s (jvpC p) M = inl r' /\ fst r' = fst r /\
    forall fuel a d da dd, rel_res flat (run fuel (snd r) ((a, d), (da, dd))) (run fuel (snd r') ((a, da), d)).
  Proof.
    induction p as [A B p|A B C p IHp q IHq|A B C p IHp|A B sc p IHp|A B p IHp|A B p r0]; intros M r H; cbn [jreapT jvpC] in *.
    - apply rb_inl in H as (r1 & H1 & H). injection H as <-. cbn [fst snd].
      pose proof (reapD_primal s p M) as Hp. rewrite H1 in Hp. cbn [rb] in Hp.
      destruct (proj2 (reapT_legal s (jvpT p) M)) as [r' Hr'].
      { rewrite jvp_legal, jvp_sites. apply reapT_legal. rewrite Hp. eauto. }
      exists r'. split; [exact Hr'|]. split; [symmetry; exact (jvp_meta p s M _ _ Hp Hr')|]. intros fuel a d da dd.
      pose proof (reap_jvp_run s fuel p M r1 H1 a d da dd) as K. destruct r' as [M' q']. pose proof (run_reapT s fuel (jvpT p) _ _ _ Hr' (a, da) d) as K'. unfold same_out in K'. cbn [snd].
      destruct (run fuel (jvpT (snd r1)) ((a, d), (da, dd))) as [[[y d1] [dy dd1]]|] eqn:E1, (run fuel (jvpT p) (a, da)) as [w|]; cbn [rel_res] in K; try contradiction.
      + unfold under in K. cbn [fst snd] in K. subst w. destruct (run fuel q' (a, da, d)) as [[[y' dy'] d']|] eqn:E2; cbn [rel_res fst] in K'; try contradiction. injection K' as -> ->. cbn [rel_res]. unfold flat. cbn [fst snd].
        apply C70_primal in E1. pose proof (jvp_reap s fuel p M _ _ Hp Hr' (a, da) d _ _ E2) as E3. cbn [fst snd] in E3. rewrite E1 in E3. injection E3 as ->. reflexivity.
      + subst. destruct (run fuel q' (a, da, d)) as [|]; cbn [rel_res] in K'; [contradiction|]. cbn. congruence.
    - apply rb_inl in H as (r1 & H1 & H). apply rb_inl in H as (r2 & H2 & H). injection H as <-. destruct (IHp _ _ H1) as (r1' & G1 & E1 & K1). rewrite <- E1 in H2. destruct (IHq _ _ H2) as (r2' & G2 & E2 & K2).
      cbn [reapT]. rewrite G1. cbn [rb]. rewrite G2. cbn [rb]. eexists. split; [reflexivity|]. cbn [fst snd run]. split; [exact E2|]. intros fuel a d da dd. eapply rel_res_rb; [apply K1|]. intros [[b d1] [db dd1]] w E. unfold flat in E. cbn [fst snd] in E. subst w. apply K2.
    - apply rb_inl in H as (r1 & H1 & H). injection H as <-. destruct (IHp _ _ H1) as (r1' & G1 & E1 & K1). rewrite reapT_Pure_Seq. cbn [reapT]. cbn [rb fst snd]. rewrite G1. cbn [rb fst snd]. eexists. split; [reflexivity|]. split; [exact E1|]. intros fuel [a c] d [da dc] dd. cbn [snd fst run rb across swap].
      specialize (K1 fuel a d da dd). destruct (run fuel (snd r1) (a, d, (da, dd))) as [[[y d'] [dy dd']]|], (run fuel (snd r1') (a, da, d)) as [w|]; cbn in *; try tauto. unfold flat in *. cbn in *. subst w. reflexivity.
    - apply rb_inl in H as (r1 & H1 & H). apply rb_inl in H as (M' & H2 & H). injection H as <-. destruct (IHp _ _ H1) as (r1' & G1 & E1 & K1). cbn [reapT]. rewrite G1. cbn [rb]. rewrite E1, H2. cbn [rb]. eexists. split; [reflexivity|]. split; [reflexivity|]. intros fuel a d da dd. cbn [snd fst run rb].
      specialize (K1 fuel a [] da []). unfold inner_in. cbn [fst snd].
      eapply rel_res_rb; [eapply rel_res_rb; [exact K1|]|].
      { intros z w E. instantiate (1 := fun (z : ((B * dict) * (B * dict)) * (dict * dict)) (w : ((B * B) * dict) * dict) => flat (fst z) (fst w) /\ snd w = d /\ fst (snd z) = d). cbn [rel_res fst snd]. auto. }
      intros [[[y d1] [dy dd1]] [e1 e2]] [w e3] (E & E' & E''). unfold flat in E. cbn [fst snd] in *. subst. cbn. reflexivity.
    - apply rb_inl in H as (r1 & H1 & H). apply rb_inl in H as (M' & H2 & H). injection H as <-. destruct (IHp _ _ H1) as (r1' & G1 & E1 & K1). cbn [reapT]. rewrite G1. cbn [rb]. rewrite E1, H2. cbn [rb]. eexists. split; [reflexivity|]. split; [reflexivity|]. intros fuel a d da dd. cbn [snd fst run rb].
      specialize (K1 fuel a [] da []). unfold inner_in. cbn [fst snd].
      eapply rel_res_rb; [eapply rel_res_rb; [exact K1|]|].
      { intros z w E. instantiate (1 := fun (z : ((B * dict) * (B * dict)) * (dict * dict)) (w : ((B * B) * dict) * dict) => flat (fst z) (fst w) /\ snd w = d /\ fst (snd z) = d). cbn [rel_res fst snd]. auto. }
      intros [[[y d1] [dy dd1]] [e1 e2]] [w e3] (E & E' & E''). unfold flat in E. cbn [fst snd] in *. subst. cbn. reflexivity.
    - unfold reap_rule in H. apply rb_inl in H as (r1 & H1 & H). destruct (existsb _ (fst r1)); [discriminate|]. apply rb_inl in H as (r2 & H2 & H). injection H as <-. exists r2. split; [exact H2|]. split; [reflexivity|]. intros fuel a d da dd. cbn [snd fst run rb].
      destruct (run fuel (snd r2) (a, da, d)) as [[[y dy] d']|]; cbn; [|reflexivity]. reflexivity.
  Qed.
End jreap.

Section untouched.
  Context {AR : Arrays}.
  Lemma store_other d m v pr n : n <> m -> dget (store d m v pr) n = dget d n.
  Proof.
    intros H. apply String.eqb_neq in H. unfold store. destruct pr as [pr|]; [destruct (dget d m) as [[v0 [pr0|]]|]|]; rewrite dget_dset, H; reflexivity.
  Qed.
  Lemma resow_other s ns inner n : ~ In n ns -> forall d, dget (resow s ns inner d) n = dget d n.
  Proof.
    unfold resow. induction ns as [|m ns IH]; intros H d; cbn [fold_left]; [reflexivity|]. rewrite IH by (intros K; apply H; right; exact K).
    destruct (passes s m); [|reflexivity]. destruct (dget inner m) as [[v pr]|]; [|reflexivity]. apply store_other. intros ->. apply H. left. reflexivity.
  Qed.
  Lemma dkeys_app {X} (a b : list (string * X)) : dkeys (a ++ b) = dkeys a ++ dkeys b.
  Proof. apply map_app. Qed.
  Lemma dkeys_stack len M : dkeys (stack_meta len M) = dkeys M.
  Proof. unfold dkeys, stack_meta. rewrite map_map. reflexivity. Qed.
  Lemma site_mine s t n m av : String.eqb t (tag_of s) = true -> passes s n = true -> site_here s s [] t n (m, av) = [(n, (m, av))].
  Proof. intros H1 H2. unfold site_here, seen. rewrite H1, H2. reflexivity. Qed.
  Lemma body_nil M : body_plants M [] = [].
  Proof. unfold body_plants, app_plants, clob_plants. reflexivity. Qed.
  Lemma names_once s {A B} (p : prog A B) r n : reapT s p [] = inl r -> In n (dkeys (fst r)) -> In n (dkeys (sites s p [])).
  Proof. destruct r as [M p']. intros H K. apply reapT_meta in H. cbn [fst] in K. subst M. apply (once_keys (sites s p [])). exact K. Qed.
  Ltac inner_names H1 := match type of H1 with reapT ?s ?p [] = inl ?r => pose proof (fun n => names_once s p r n H1) as Kn end.
  Lemma untouched_reap s fuel {A B} (p : prog A B) n : forall M r, reapT s p M = inl r -> ~ In n (dkeys (sites s p [])) ->
    forall a d y d', run fuel (snd r) (a, d) = inl (y, d') -> dget d' n = dget d n.
  Proof.
    induction p as [A B f|A B C p IHp q IHq|A B C p IHp|t m md av|t m av|A B sc p IHp|A B p IHp|C X Y rv len p IHp|C k p IHp|A B p IHp q IHq]; intros M r H Hn a d y d' R; cbn [reapT] in H; cbn [sites2] in Hn.
    - injection H as <-. cbn in R. destruct (f a); [|discriminate]. injection R as <- <-. reflexivity.
    - apply rb_inl in H as (r1 & H1 & H). apply rb_inl in H as (r2 & H2 & H). injection H as <-. cbn [snd run] in R. apply rb_inl in R as ([b d1] & R1 & R2). rewrite dkeys_app, in_app_iff in Hn.
      rewrite (IHq _ _ H2 ltac:(tauto) _ _ _ _ R2). exact (IHp _ _ H1 ltac:(tauto) _ _ _ _ R1).
    - apply rb_inl in H as (r1 & H1 & H). injection H as <-. cbn [snd run rb swap fst] in R. apply rb_inl in R as ([[b d1] c] & R1 & R2). apply rb_inl in R1 as ([b2 d2] & R1 & R3). injection R3 as <- <- <-. injection R2 as <- <-. exact (IHp _ _ H1 Hn _ _ _ _ R1).
    - destruct (is_cond md); [discriminate|]. destruct (String.eqb t (tag_of s)) eqn:Et; [destruct (passes s m) eqn:Ep; [apply rb_inl in H as (M' & _ & H)|]|destruct (exclusive s)]; injection H as <-; cbn in R; unfold chk in R.
      + rewrite (site_mine s t m md av Et Ep) in Hn. destruct (has_aval a av); cbn in R; [|discriminate]. injection R as <- <-. rewrite dget_dset. destruct (String.eqb_spec n m) as [->|]; [|reflexivity]. destruct Hn. left. reflexivity.
      + destruct (has_aval a av); cbn in R; [|discriminate]. injection R as <- <-. reflexivity.
      + destruct (has_aval a av); cbn in R; [|discriminate]. injection R as <- <-. reflexivity.
      + destruct (is_cond md); [discriminate|]. destruct (has_aval a av); cbn in R; [|discriminate]. injection R as <- <-. reflexivity.
    - destruct (String.eqb t (tag_of s)) eqn:Et; [destruct (passes s m) eqn:Ep; [apply rb_inl in H as (M' & _ & H)|]|destruct (exclusive s)]; injection H as <-; cbn [snd run rb fst] in R; unfold chk in R.
      + rewrite (site_mine s t m CondClobber av Et Ep) in Hn. destruct (has_aval (fst a) av); cbn [rb] in R; [|discriminate]. injection R as <- <-. change (dget (store d m (fst a) (Some (snd a))) n = dget d n). apply store_other. intros ->. apply Hn. left. reflexivity.
      + destruct (has_aval (fst a) av); cbn in R; [|discriminate]. injection R as <- <-. reflexivity.
      + destruct (has_aval (fst a) av); cbn in R; [|discriminate]. injection R as <- <-. reflexivity.
      + destruct (has_aval (fst a) av); cbn in R; [|discriminate]. injection R as <- <-. reflexivity.
    - apply rb_inl in H as (r1 & H1 & H). apply rb_inl in H as (M' & H2 & H). injection H as <-. cbn [snd run rb fst] in R. apply rb_inl in R as ([[b i] d1] & R1 & R2). apply rb_inl in R1 as (z & _ & R1). injection R1 as -> <-. injection R2 as <- <-. cbn [fst snd].
      destruct r1 as [[|e1 M1] p1]; [reflexivity|]. cbn [fst].
      assert (Hs : sites s p [] <> []) by (intros E; apply reapT_meta in H1; rewrite E in H1; discriminate). unfold sub in Hn. cbn [dget] in Hn. unfold scope_site in Hn. destruct (sites s p []) as [|e l] eqn:El; [contradiction|].
      unfold resow. cbn [fold_left]. destruct (passes s sc); [|reflexivity]. cbn [dget]. rewrite String.eqb_refl. apply store_other. intros ->. apply Hn. left. reflexivity.
    - apply rb_inl in H as (r1 & H1 & H). apply rb_inl in H as (M' & H2 & H). injection H as <-. cbn [snd run rb fst] in R. apply rb_inl in R as ([[b i] d1] & R1 & R2). apply rb_inl in R1 as (z & _ & R1). injection R1 as -> <-. injection R2 as <- <-. cbn [fst snd].
      apply resow_other. intros K. apply Hn. apply once_keys. exact (names_once s p r1 n H1 K).
    - apply rb_inl in H as (r1 & H1 & H). cbv zeta in H. destruct (existsb _ (fst r1)) in H; [discriminate|]. destruct (is_cond _ && _)%bool in H; [discriminate|]. apply rb_inl in H as (M' & _ & H). injection H as <-. cbn [snd run rb fst] in R. apply rb_inl in R as (z & R1 & R2). injection R2 as <- <-.
      apply rb_inl in R1 as (z' & _ & R1). injection R1 as <-. cbn [fst snd]. destruct r1 as [M1 p1]. cbv zeta in Hn. rewrite body_nil in Hn. apply reapT_meta in H1. change (dmerge [] (sites s p [])) with (once (sites s p [])) in H1. cbn [fst] in *. rewrite <- H1 in Hn.
      rewrite dkeys_app, dkeys_stack, in_app_iff in Hn. rewrite !resow_other; tauto.
    - apply rb_inl in H as (r1 & H1 & H). cbv zeta in H. destruct (existsb _ (fst r1)) in H; [discriminate|]. apply rb_inl in H as (M' & _ & H). injection H as <-. cbn [snd run rb fst] in R. apply rb_inl in R as (z & R1 & R2). injection R2 as <- <-.
      apply rb_inl in R1 as (z' & _ & R1). injection R1 as <-. cbn [fst snd]. apply resow_other. intros K. apply Hn. apply once_keys. exact (names_once s p r1 n H1 K).
    - apply rb_inl in H as (r1 & H1 & H). apply rb_inl in H as (r2 & H2 & H). apply rb_inl in H as (u & _ & H). apply rb_inl in H as (M' & _ & H). injection H as <-. cbn [snd run rb fst] in R. apply rb_inl in R as (z & R1 & R2). injection R2 as <- <-.
      apply rb_inl in R1 as (z' & _ & R1). injection R1 as <-. cbn [fst snd]. apply resow_other. intros K. apply Hn. apply once_keys. exact (names_once s p r1 n H1 K).
  Qed.
  (** ... and the tangents *)
  Lemma untouched_tangent s fuel {A B} (p : dprog A B) n : forall M r, reapD s p M = inl r -> ~ In n (dkeys (sites s (primal p) [])) ->
    forall a d da dd y d' dy dd', run fuel (jvpT (snd r)) ((a, d), (da, dd)) = inl ((y, d'), (dy, dd')) -> dget d' n = dget d n /\ dget dd' n = dget dd n.
  Proof.
    assert (Kr : forall A B (p : dprog A B) r, reapD s p [] = inl r -> In n (dkeys (fst r)) -> In n (dkeys (sites s (primal p) []))).
    { intros A0 B0 p0 r0 H K. pose proof (reapD_primal s p0 []) as E. rewrite H in E. exact (names_once s (primal p0) _ n E K). }
    induction p as [A B f df|A B C p IHp q IHq|A B C p IHp|t m md av|t m av|A B sc p IHp|A B p IHp|C X Y rv len p IHp|C k p IHp|A B p IHp q IHq]; intros M r H Hn a d da dd y d' dy dd' R; cbn [reapD] in H; cbn [primal sites2] in Hn.
    - injection H as <-. cbn in R. destruct (f a); [|discriminate]. cbn in R. destruct (df a da); [|discriminate]. injection R as <- <- <- <-. auto.
    - apply rb_inl in H as (r1 & H1 & H). apply rb_inl in H as (r2 & H2 & H). injection H as <-. cbn [snd run jvpT] in R. apply rb_inl in R as ([[b d1] [db dd1]] & R1 & R2). rewrite dkeys_app, in_app_iff in Hn.
      destruct (IHq _ _ H2 ltac:(tauto) _ _ _ _ _ _ _ _ R2) as [-> ->]. exact (IHp _ _ H1 ltac:(tauto) _ _ _ _ _ _ _ _ R1).
    - apply rb_inl in H as (r1 & H1 & H). injection H as <-. destruct a as [a c], da as [da dc]. cbn [snd] in R. rewrite run_in, run_out in R. unfold swap in R. cbn [fst snd] in R. rewrite run_first in R. apply rb_inl in R as (z & R1 & R2). apply rb_inl in R1 as ([[b2 d2] [db2 dd2]] & R1 & R3). injection R3 as <-. cbn in R2. injection R2 as <- <- <- <-. exact (IHp _ _ H1 Hn _ _ _ _ _ _ _ _ R1).
    - destruct (is_cond md) eqn:Em; [discriminate|]. destruct (String.eqb t (tag_of s)) eqn:Et; [destruct (passes s m) eqn:Ep; [apply rb_inl in H as (M' & _ & H)|]|destruct (exclusive s)]; injection H as <-; cbn in R; unfold chk in R; rewrite ?Em in R.
      + rewrite (site_mine s t m md av Et Ep) in Hn. destruct (has_aval a av); cbn in R; [|discriminate]. injection R as <- <- <- <-. rewrite !dget_dset. destruct (String.eqb_spec n m) as [->|]; [|auto]. destruct Hn. left. reflexivity.
      + destruct (has_aval a av); cbn in R; [|discriminate]. injection R as <- <- <- <-. auto.
      + destruct (has_aval a av); cbn in R; [|discriminate]. injection R as <- <- <- <-. auto.
      + destruct (has_aval a av); cbn in R; [|discriminate]. injection R as <- <- <- <-. auto.
    - destruct (String.eqb t (tag_of s)) eqn:Et; [destruct (passes s m) eqn:Ep; [apply rb_inl in H as (M' & _ & H)|]|destruct (exclusive s)]; injection H as <-; cbn [snd run jvpT rb fst] in R; unfold chk in R.
      + rewrite (site_mine s t m CondClobber av Et Ep) in Hn. destruct (has_aval (fst a) av); cbn [rb] in R; [|discriminate].
        assert (E : inl (A := (tree * dict) * (tree * dict)) (B := herr) ((fst a, store d m (fst a) (Some (snd a))), (fst da, store dd m (fst da) (Some (snd a)))) = inl ((y, d'), (dy, dd'))) by exact R. clear R.
        remember (store d m (fst a) (Some (snd a))) as e1. remember (store dd m (fst da) (Some (snd a))) as e2. injection E as _ <- _ <-. subst. assert (n <> m) by (intros ->; apply Hn; left; reflexivity). split; apply store_other; assumption.
      + cbn in R. destruct (has_aval (fst a) av); cbn in R; [|discriminate]. injection R as <- <- <- <-. auto.
      + cbn in R. destruct (has_aval (fst a) av); cbn in R; [|discriminate]. injection R as <- <- <- <-. auto.
      + cbn in R. unfold chk in R. destruct (has_aval (fst a) av); cbn in R; [|discriminate]. injection R as <- <- <- <-. auto.
    - apply rb_inl in H as (r1 & H1 & H). apply rb_inl in H as (M' & H2 & H). injection H as <-. cbn [snd] in R. rewrite run_out, run_first in R. apply rb_inl in R as (z & R1 & R2). apply rb_inl in R1 as (z1 & _ & R1). injection R1 as <-. cbn [fst snd] in R2. injection R2 as _ <- _ <-.
      pose proof (reapD_primal s p []) as E. rewrite H1 in E. cbn [rb] in E. destruct r1 as [[|e1 M1] p1]; [auto|]. cbn [fst snd] in *.
      assert (Hs : sites s (primal p) [] <> []) by (intros E0; apply reapT_meta in E; rewrite E0 in E; discriminate). unfold sub in Hn. cbn [dget] in Hn. unfold scope_site in Hn. destruct (sites s (primal p) []) as [|e l] eqn:El; [contradiction|].
      unfold resow. cbn [fold_left]. destruct (passes s sc); [|auto]. cbn [dget]. rewrite String.eqb_refl. assert (n <> sc) by (intros ->; apply Hn; left; reflexivity). split; apply store_other; assumption.
    - apply rb_inl in H as (r1 & H1 & H). apply rb_inl in H as (M' & H2 & H). injection H as <-. cbn [snd] in R. rewrite run_out, run_first in R. apply rb_inl in R as (z & R1 & R2). apply rb_inl in R1 as (z1 & _ & R1). injection R1 as <-. cbn [fst snd] in R2. injection R2 as _ <- _ <-.
      assert (K : ~ In n (dkeys (fst r1))) by (intros K; apply Hn, once_keys; exact (Kr _ _ p r1 H1 K)). split; apply resow_other; exact K.
    - apply rb_inl in H as (r1 & H1 & H). cbv zeta in H. destruct (existsb _ (fst r1)) in H; [discriminate|]. destruct (is_cond _ && _)%bool in H; [discriminate|]. apply rb_inl in H as (M' & _ & H). injection H as <-. cbn [snd] in R. rewrite run_in, run_out in R. destruct a as [c xs], da as [dc dxs]. cbn [fst snd] in R. rewrite run_first in R.
      apply rb_inl in R as (z & R1 & R2). apply rb_inl in R1 as (z1 & _ & R1). injection R1 as <-. cbn [fst snd] in R2. injection R2 as _ <- _ <-.
      pose proof (reapD_primal s p []) as E. rewrite H1 in E. cbn [rb] in E. cbv zeta in Hn. rewrite body_nil in Hn. apply reapT_meta in E. change (dmerge [] (sites s (primal p) [])) with (once (sites s (primal p) [])) in E. rewrite <- E in Hn.
      rewrite dkeys_app, dkeys_stack, in_app_iff in Hn. split; rewrite !resow_other; tauto.
    - apply rb_inl in H as (r1 & H1 & H). cbv zeta in H. destruct (existsb _ (fst r1)) in H; [discriminate|]. apply rb_inl in H as (M' & _ & H). injection H as <-. cbn [snd] in R. rewrite run_in, run_out in R. cbn [fst snd] in R. rewrite run_first in R.
      apply rb_inl in R as (z & R1 & R2). apply rb_inl in R1 as (z1 & _ & R1). injection R1 as <-. cbn [fst snd] in R2. injection R2 as _ <- _ <-.
      assert (K : ~ In n (dkeys (fst r1))) by (intros K; apply Hn, once_keys; exact (Kr _ _ p r1 H1 K)). split; apply resow_other; exact K.
    - apply rb_inl in H as (r1 & H1 & H). apply rb_inl in H as (r2 & H2 & H). apply rb_inl in H as (u & _ & H). apply rb_inl in H as (M' & _ & H). injection H as <-. destruct a as [b a], da as [db da]. cbn [snd] in R. rewrite run_out, run_first in R.
      apply rb_inl in R as (z & R1 & R2). apply rb_inl in R1 as (z1 & _ & R1). injection R1 as <-. cbn [fst snd] in R2. injection R2 as _ <- _ <-.
      assert (K : ~ In n (dkeys (fst r1))) by (intros K; apply Hn, once_keys; exact (Kr _ _ p r1 H1 K)). split; apply resow_other; exact K.
  Qed.
End untouched.

Section zero.
  Context {AR : Arrays}.
  (** the names that carry tangents: those sown outside the rules, and the scopes *)
  Fixpoint dsites (s : settings) {A B} (p : cprog A B) : list string :=
    match p with
    | CD p => dkeys (sites s (primal p) [])
    | CSeq p q => dsites s p ++ dsites s q
    | CFirst _ p => dsites s p
    | CNest sc _ => [sc]
    | CCall p => dsites s p
    | CCustom _ _ => []
    end.
  Definition zentry (e : tree * option bool) : tree * option bool := (zeros_like (fst e), snd e).
  Definition Zd (D : list string) (d dd : dict) : Prop := forall n, ~ In n D -> dget dd n = option_map zentry (dget d n).
  Lemma zeros_like_twice t : zeros_like (zeros_like t) = zeros_like t.
  Proof.
    induction t as [v|l IH|l IH] using tree_ind'; cbn; [rewrite aval_zero; reflexivity| |].
    - f_equal. induction IH as [|x l E _ IHl]; cbn; [reflexivity|]. cbn in E. rewrite E. f_equal. exact IHl.
    - f_equal. induction IH as [|x l E _ IHl]; cbn; [reflexivity|]. rewrite E. f_equal. exact IHl.
  Qed.
  Lemma dget_map_keyed {X Y} (F : string * X -> Y) (l : list (string * X)) n : dget (map (fun e => (fst e, F e)) l) n = option_map (fun x => F (n, x)) (dget l n).
  Proof. induction l as [|[k x] l IH]; cbn; [reflexivity|]. destruct (String.eqb_spec n k) as [->|]; [reflexivity|exact IH]. Qed.
  Lemma store_Z D d dd n v pr v' pr' : Zd D d dd -> (~ In n D -> v' = zeros_like v /\ pr' = pr) -> Zd D (store d n v pr) (store dd n v' pr').
  Proof.
    intros Z H m Hm. destruct (String.eqb_spec m n) as [->|Ne]; [|rewrite !store_other by assumption; apply Z, Hm]. destruct (H Hm) as [-> ->]. unfold store. rewrite (Z n Hm). destruct pr as [pr|].
    - destruct (dget d n) as [[v0 [pr0|]]|]; cbn [option_map zentry fst snd]; rewrite !dget_dset, String.eqb_refl; unfold zentry; cbn; destruct pr; reflexivity.
    - rewrite !dget_dset, String.eqb_refl. reflexivity.
  Qed.
  Lemma resow_Z s D i di ns : Zd D i di -> forall d dd, Zd D d dd -> Zd D (resow s ns i d) (resow s ns di dd).
  Proof.
    intros Zi. unfold resow. induction ns as [|n ns IH]; intros d dd Z; cbn [fold_left]; [exact Z|]. apply IH. destruct (passes s n); [|exact Z].
    destruct (in_dec string_dec n D) as [Hin|Hn].
    - intros m Hm. assert (m <> n) by (intros ->; contradiction). destruct (dget i n) as [[v pr]|], (dget di n) as [[v' pr']|]; rewrite ?store_other by assumption; apply Z, Hm.
    - rewrite (Zi n Hn). destruct (dget i n) as [[v pr]|]; cbn [option_map zentry fst snd]; [|exact Z]. apply store_Z; [exact Z|]. auto.
  Qed.
  Lemma jreap_zero s fuel {A B} (p : cprog A B) : forall M r, jreapT s p M = inl r -> forall D, incl (dsites s p) D ->
    forall a d da dd y d' dy dd', run fuel (snd r) ((a, d), (da, dd)) = inl ((y, d'), (dy, dd')) -> Zd D d dd -> Zd D d' dd'.
  Proof.
    induction p as [A B p|A B C p IHp q IHq|A B C p IHp|A B sc p IHp|A B p IHp|A B p r0]; intros M r H D HD a d da dd y d' dy dd' R Z; cbn [jreapT dsites] in *.
    - apply rb_inl in H as (r1 & H1 & H). injection H as <-. cbn [snd] in R. intros n Hn. destruct (untouched_tangent s fuel p n M r1 H1 (fun K => Hn (HD n K)) _ _ _ _ _ _ _ _ R) as [-> ->]. apply Z, Hn.
    - apply rb_inl in H as (r1 & H1 & H). apply rb_inl in H as (r2 & H2 & H). injection H as <-. cbn [snd run] in R. apply rb_inl in R as ([[b d1] [db dd1]] & R1 & R2).
      eapply (IHq _ _ H2); [|exact R2|]; [intros n K; apply HD, in_or_app; auto|]. eapply (IHp _ _ H1); [|exact R1|exact Z]. intros n K; apply HD, in_or_app; auto.
    - apply rb_inl in H as (r1 & H1 & H). injection H as <-. destruct a as [a c], da as [da dc]. cbn [snd run rb fst] in R. apply rb_inl in R as (z & R1 & R2). apply rb_inl in R1 as ([[b d1] [db dd1]] & R1 & R3). injection R3 as <-. cbn in R2. injection R2 as <- <- <- <-. eapply (IHp _ _ H1); eassumption.
    - apply rb_inl in H as (r1 & H1 & H). apply rb_inl in H as (M' & H2 & H). injection H as <-. cbn [snd run rb fst] in R. apply rb_inl in R as (z & R1 & R2). apply rb_inl in R1 as ([[b i] [db di]] & R1 & R3). injection R3 as <-. match type of R2 with context[inner_out ?F _] => remember F as G eqn:EG end. unfold inner_out, inner_in in R2. cbn [fst snd] in R2. injection R2 as _ <- _ <-. subst G. cbv beta.
      intros n Hn. destruct (fst r1); [apply Z, Hn|]. assert (K : ~ In n [sc]) by (intros K; apply Hn, HD, K). rewrite !String.eqb_refl. assert (n <> sc) by (intros ->; apply K; left; reflexivity). destruct (passes s sc); rewrite ?store_other by assumption; apply Z, Hn.
    - apply rb_inl in H as (r1 & H1 & H). apply rb_inl in H as (M' & H2 & H). injection H as <-. cbn [snd run rb fst] in R. apply rb_inl in R as (z & R1 & R2). apply rb_inl in R1 as ([[b i] [db di]] & R1 & R3). injection R3 as <-. match type of R2 with context[inner_out ?F _] => remember F as G eqn:EG end. unfold inner_out, inner_in in R2. cbn [fst snd] in R2. injection R2 as _ <- _ <-. subst G. cbv beta.
      apply resow_Z; [|exact Z]. eapply (IHp _ _ H1 D HD); [exact R1|]. intros n _. reflexivity.
    - unfold reap_rule in H. apply rb_inl in H as (r1 & H1 & H). destruct (existsb _ (fst r1)); [discriminate|]. apply rb_inl in H as (r2 & H2 & H). injection H as <-. cbn [snd run rb fst] in R. apply rb_inl in R as (z & R1 & R2). apply rb_inl in R1 as ([[b db] d1] & R1 & R3). injection R3 as <-. cbn [fst snd] in R2. injection R2 as _ <- _ <-.
      intros n Hn. unfold rezero. rewrite (dget_map_keyed (fun e => if mem (fst e) (dkeys (fst r1)) then _ else _)). destruct (dget d1 n) as [e|] eqn:E; cbn [option_map fst snd]; [|reflexivity]. destruct (mem n (dkeys (fst r1))) eqn:Em; [reflexivity|].
      assert (K : ~ In n (dkeys (sites s r0 []))).
      { intros K. assert (In n (dkeys (fst r1))). { destruct r1 as [M1 p1]. apply reapT_meta in H1. cbn [fst]. subst M1. apply (once_keys (sites s r0 [])). exact K. } rewrite (proj2 (mem_In _ _) H) in Em. discriminate. }
      pose proof (untouched_reap s fuel r0 n M r2 H2 K _ _ _ _ R1) as U. rewrite E in U. rewrite (Z n Hn), <- U. reflexivity.
  Qed.
End zero.
