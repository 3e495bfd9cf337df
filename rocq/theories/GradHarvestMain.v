(** C75: derivatives of reaped values, and derivatives with respect to planted values. *)
From Verif Require Export GradHarvestPlant JvpHarvestProps.
From Coq Require Import Reals Lra.
Open Scope string_scope. Open Scope list_scope. Open Scope nat_scope.

Section primal.
  Context {AR : Arrays}.
  Lemma reapD_primal s {A B} (p : dprog A B) : forall M, reapT s (primal p) M = rb (reapD s p M) (fun r => inl (fst r, primal (snd r))).
  Proof.
    induction p as [A B f df|A B C p IHp q IHq|A B C p IHp|t n m av|t n av|A B sc p IHp|A B p IHp|C X Y rv len p IHp|C k p IHp|A B p IHp q IHq]; intros M; cbn [primal reapT reapD].
    - reflexivity.
    - rewrite IHp. destruct (reapD s p M) as [r|e]; cbn [rb]; [|reflexivity]. cbn [fst snd]. rewrite IHq. destruct (reapD s q (fst r)) as [r'|e]; reflexivity.
    - rewrite IHp. destruct (reapD s p M) as [r|e]; reflexivity.
    - destruct (is_cond m); [reflexivity|]. destruct (String.eqb t (tag_of s)); [destruct (passes s n); [destruct (handle M n m av)|]|destruct (exclusive s)]; reflexivity.
    - destruct (String.eqb t (tag_of s)); [destruct (passes s n); [destruct (handle M n CondClobber av)|]|destruct (exclusive s)]; reflexivity.
    - rewrite IHp. destruct (reapD s p []) as [r|e]; cbn [rb fst snd]; [|reflexivity]. match goal with |- rb ?x _ = rb (rb ?x _) _ => destruct x end; reflexivity.
    - rewrite IHp. destruct (reapD s p []) as [r|e]; cbn [rb fst snd]; [|reflexivity]. destruct (resow_meta s M (fst r)); reflexivity.
    - rewrite IHp. destruct (reapD s p []) as [r|e]; cbn [rb fst snd]; [|reflexivity]. destruct (existsb _ (fst r)); [reflexivity|]. destruct (is_cond _ && _)%bool; [reflexivity|]. destruct (resow_meta s M _); reflexivity.
    - rewrite IHp. destruct (reapD s p []) as [r|e]; cbn [rb fst snd]; [|reflexivity]. destruct (existsb _ (fst r)); [reflexivity|]. destruct (resow_meta s M _); reflexivity.
    - rewrite IHp, IHq. destruct (reapD s p []) as [r|e]; cbn [rb fst snd]; [|reflexivity]. destruct (reapD s q []) as [r'|e]; cbn [rb fst snd]; [|reflexivity]. destruct (check_branches (fst r) (fst r')); [|reflexivity]. cbn [rb]. destruct (resow_meta s M _); reflexivity.
  Qed.
  Lemma plantD_primal s {A B} (p : dprog A B) : forall sk dn, plantT s (primal p) sk dn = rb (plantD s p sk dn) (fun r => inl (fst r, primal (snd r))).
  Proof.
    induction p as [A B f df|A B C p IHp q IHq|A B C p IHp|t n m av|t n av|A B sc p IHp|A B p IHp|C X Y rv len p IHp|C k p IHp|A B p IHp q IHq]; intros sk dn; cbn [primal plantT plantD].
    - reflexivity.
    - rewrite IHp. destruct (plantD s p sk dn) as [r|e]; cbn [rb]; [|reflexivity]. cbn [fst snd]. rewrite IHq. destruct (plantD s q sk (fst r)) as [r'|e]; reflexivity.
    - rewrite IHp. destruct (plantD s p sk dn) as [r|e]; reflexivity.
    - destruct (is_cond m); [reflexivity|]. destruct (String.eqb t (tag_of s)); [destruct (passes s n); [destruct (mem n dn); [|destruct (haskey sk n)]|]|destruct (exclusive s)]; reflexivity.
    - destruct (String.eqb t (tag_of s)); [destruct (passes s n); [destruct (mem n dn); [|destruct (haskey sk n)]|]|destruct (exclusive s)]; reflexivity.
    - destruct (sub_skel (quiet s (primal p)) sk sc) as [sk'|e]; cbn [rb]; [|reflexivity]. rewrite IHp. destruct (plantD s p sk' []) as [r|e]; reflexivity.
    - rewrite IHp. destruct (plantD s p sk []) as [r|e]; reflexivity.
    - destruct (reapT s (primal p) []) as [rm|e]; cbn [rb]; [|reflexivity]. cbv zeta. destruct (existsb _ (fst rm)); [reflexivity|]. rewrite IHp. destruct (plantD s p _ []) as [r|e]; reflexivity.
    - destruct (reapT s (primal p) []) as [rm|e]; cbn [rb]; [|reflexivity]. destruct (existsb _ (fst rm)); [reflexivity|]. rewrite IHp. destruct (plantD s p _ []) as [r|e]; reflexivity.
    - destruct (reapT s (primal p) []) as [m0|e]; cbn [rb]; [|reflexivity]. destruct (reapT s (primal q) []) as [m1|e]; cbn [rb]; [|reflexivity]. destruct (check_branches (fst m0) (fst m1)); [|reflexivity]. cbn [rb].
      rewrite IHp. destruct (plantD s p _ []) as [r|e]; cbn [rb fst snd]; [|reflexivity]. rewrite IHq. destruct (plantD s q _ []) as [r'|e]; reflexivity.
  Qed.
  (** jax.jvp(reap(f)) etc. raise at trace time exactly when reap(f) etc. do, and their primal programs are reap(f) etc. *)
  Theorem C75_reap_primal s {A B} (f : dprog A B) : call_and_reap s (primal f) = rb (call_and_reapD s f) (fun q => inl (primal q)).
  Proof. unfold call_and_reap, call_and_reapD. rewrite reapD_primal. destruct (reapD s f []); reflexivity. Qed.
  Theorem C75_plant_primal s {A B} (f : dprog A B) pd : plant s (primal f) pd = rb (plant_D s f pd) (fun q => inl (primal q)).
  Proof. unfold plant, plant_D. rewrite plantD_primal. destruct (plantD s f (skels_of pd) []); reflexivity. Qed.
  Theorem C75_harvest_primal s {A B} (f : dprog A B) pd : harvest s (primal f) pd = rb (harvestD s f pd) (fun q => inl (primal q)).
  Proof. unfold harvest, harvestD. rewrite C75_plant_primal. destruct (plant_D s f pd) as [q|]; [|reflexivity]. cbn [rb]. apply C75_reap_primal. Qed.
End primal.

(** ** reaping does not change what jvp computes for the outputs *)
Section under.
  Context {AR : Arrays}.
  Definition under {B D} (z : (B * D) * (B * D)) (w : B * B) : Prop := w = (fst (fst z), fst (snd z)).
  Lemma Move_run {A B} fuel (f : A -> B) x : run fuel (jvpT (Move f)) x = inl (f (fst x), f (snd x)).
  Proof. reflexivity. Qed.
  Lemma run_first {A B C} fuel (p : dprog A B) a c da dc : run fuel (jvpT (DFirst C p)) ((a, c), (da, dc)) = rb (run fuel (jvpT p) (a, da)) (fun z => inl ((fst z, c), (snd z, dc))).
  Proof. cbn [jvpT run rb across fst snd]. destruct (run fuel (jvpT p) (a, da)); reflexivity. Qed.
  Lemma run_in {A B C} fuel (f : A -> B) (q : dprog B C) a da : run fuel (jvpT (DSeq (Move f) q)) (a, da) = run fuel (jvpT q) (f a, f da).
  Proof. reflexivity. Qed.
  Lemma run_out {A B C} fuel (p : dprog A B) (f : B -> C) x : run fuel (jvpT (DSeq p (Move f))) x = rb (run fuel (jvpT p) x) (fun z => inl (f (fst z), f (snd z))).
  Proof. reflexivity. Qed.
  Lemma rel_post {A B C} (R : A -> C -> Prop) (Q : B -> C -> Prop) x y (f : A -> B) : rel_res R x y -> (forall z w, R z w -> Q (f z) w) -> rel_res Q (rb x (fun z => inl (f z))) y.
  Proof. destruct x, y; cbn; auto. Qed.
  Lemma reap_jvp_run s fuel {A B} (p : dprog A B) : forall M r, reapD s p M = inl r -> forall a d da dd, rel_res under (run fuel (jvpT (snd r)) ((a, d), (da, dd))) (run fuel (jvpT p) (a, da)).
  Proof.
    induction p as [A B f df|A B C p IHp q IHq|A B C p IHp|t n m av|t n av|A B sc p IHp|A B p IHp|C X Y rv len p IHp|C k p IHp|A B p IHp q IHq]; intros M r H a d da dd; cbn [reapD] in H.
    - injection H as <-. cbn. destruct (f a) as [y|]; [|reflexivity]. cbn. destruct (df a da); reflexivity.
    - apply rb_inl in H as (r1 & H1 & H). apply rb_inl in H as (r2 & H2 & H). injection H as <-. cbn [snd jvpT run]. eapply rel_res_rb; [exact (IHp _ _ H1 a d da dd)|]. intros [[y d'] [dy dd']] w E. unfold under in E. cbn [fst snd] in E. subst w. exact (IHq _ _ H2 y d' dy dd').
    - apply rb_inl in H as (r1 & H1 & H). injection H as <-. destruct a as [a c], da as [da dc]. cbn [snd jvpT run rb across swap fst snd Move]. specialize (IHp _ _ H1 a d da dd). destruct (run fuel (jvpT (snd r1)) (a, d, (da, dd))) as [[[y d'] [dy dd']]|], (run fuel (jvpT p) (a, da)) as [w|]; cbn in *; try tauto. unfold under in *. cbn in *. subst w. reflexivity.
    - destruct (is_cond m) eqn:Em; [discriminate|]. destruct (String.eqb t (tag_of s)); [destruct (passes s n); [apply rb_inl in H as (M' & _ & H)|]|destruct (exclusive s)]; injection H as <-; cbn; rewrite ?Em; destruct (chk av a); cbn; reflexivity.
    - destruct (String.eqb t (tag_of s)); [destruct (passes s n); [apply rb_inl in H as (M' & _ & H)|]|destruct (exclusive s)]; injection H as <-; cbn; destruct (chk av (fst a)); cbn; reflexivity.
    - apply rb_inl in H as (r1 & H1 & H). apply rb_inl in H as (M' & _ & H). injection H as <-. cbn [snd]. rewrite run_out, run_first. change (jvpT (DNest sc (DSeq (Move (fun a0 : A => (a0, [] : dict))) (snd r1)))) with (Nest sc (jvpT (DSeq (Move (fun a0 : A => (a0, [] : dict))) (snd r1)))). cbn [run]. rewrite run_in. change (run fuel (jvpT (DNest sc p)) (a, da)) with (run fuel (jvpT p) (a, da)). specialize (IHp _ _ H1 a [] da []). apply (rel_post (fun (z : ((B * dict) * dict) * ((B * dict) * dict)) w => w = (fst (fst (fst z)), fst (fst (snd z))))); [apply (rel_post under); [exact IHp|intros z w K; exact K]|intros z w K; exact K].
    - apply rb_inl in H as (r1 & H1 & H). apply rb_inl in H as (M' & _ & H). injection H as <-. cbn [snd]. rewrite run_out, run_first. change (jvpT (DCall (DSeq (Move (fun a0 : A => (a0, [] : dict))) (snd r1)))) with (Call (jvpT (DSeq (Move (fun a0 : A => (a0, [] : dict))) (snd r1)))). cbn [run]. rewrite run_in. change (run fuel (jvpT (DCall p)) (a, da)) with (run fuel (jvpT p) (a, da)). specialize (IHp _ _ H1 a [] da []). apply (rel_post (fun (z : ((B * dict) * dict) * ((B * dict) * dict)) w => w = (fst (fst (fst z)), fst (fst (snd z))))); [apply (rel_post under); [exact IHp|intros z w K; exact K]|intros z w K; exact K].
    - apply rb_inl in H as (r1 & H1 & H). cbv zeta in H. destruct (existsb _ (fst r1)) in H; [discriminate|]. destruct (is_cond _ && _)%bool in H; [discriminate|]. apply rb_inl in H as (M' & _ & H). injection H as <-. destruct a as [c xs], da as [dc dxs]. cbn [snd]. rewrite run_in, run_out. cbn [fst snd]. rewrite run_first.
      apply (rel_post (fun (z : (((C * dict) * list (Y * dict)) * dict) * (((C * dict) * list (Y * dict)) * dict)) w =>
        w = ((fst (fst (fst (fst z))), map fst (snd (fst (fst z)))), (fst (fst (fst (snd z))), map fst (snd (fst (snd z))))))); [|intros z w K; exact K].
      apply (rel_post (fun (z : ((C * dict) * list (Y * dict)) * ((C * dict) * list (Y * dict))) w =>
        w = ((fst (fst (fst z)), map fst (snd (fst z))), (fst (fst (snd z)), map fst (snd (snd z)))))); [|intros z w K; exact K].
      match goal with |- context[DScan rv len ?b] => lazymatch b with p => fail | _ => remember b as bd eqn:Eb end end. cbn [jvpT run fst snd].
      destruct (Nat.eqb (List.length xs) (List.length dxs)); [|reflexivity]. cbn [rb]. unfold scan_sem. cbn [fst snd]. destruct (Nat.eqb (List.length (combine xs dxs)) len); [|reflexivity].
      match goal with |- rel_res _ (rb (rb (scan_loop ?g ?z ?l) _) _) (rb (rb (scan_loop ?f ?c0 ?l) _) _) =>
        pose proof (scan_loop_rel g f (fun c c' => c' = (fst (fst c), fst (snd c))) eq (fun y y' => y' = (fst (fst y), fst (snd y)))) as HL; specialize (fun h1 h2 h3 => HL h1 l l z c0 h2 h3) end.
      match type of HL with ?P -> _ => assert (HP : P) end.
      { intros [[c1 i] [dc1 di]] c' [x dx] x' -> <-. cbn [fst snd across rb]. specialize (IHp _ _ H1 (c1, x) [] (dc1, dx) []). subst bd.
        apply (rel_post (fun (z : ((C * dict) * (Y * dict)) * ((C * dict) * (Y * dict))) (w : (C * C) * (Y * Y)) => w = ((fst (fst (fst z)), fst (fst (snd z))), (fst (snd (fst z)), fst (snd (snd z)))))).
        { change (across (c1, i, (dc1, di), (x, dx))) with ((c1, i, x), (dc1, di, dx)). change (across (c1, dc1, (x, dx))) with ((c1, x), (dc1, dx)). rewrite run_in, run_out. cbn [fst snd]. rewrite run_first. eapply rel_res_rb; [eapply rel_post; [exact IHp|]|].
          - intros z w K. instantiate (1 := fun (z : (((C * Y) * dict) * dict) * (((C * Y) * dict) * dict)) w => w = (fst (fst (fst z)), fst (fst (snd z)))). exact K.
          - intros z w ->. reflexivity. }
        intros z w ->. split; reflexivity. }
      specialize (HL HP eq_refl). match type of HL with ?P -> _ => assert (HP2 : P) end.
      { clear. induction (rev_if rv (combine xs dxs)); constructor; auto. }
      specialize (HL HP2). revert HL. match goal with |- rel_res _ ?u ?v -> _ => destruct u as [[[[c1 d1] [dc1 dd1]] ys]|], v as [[c2 ys2]|] end; cbn [rel_res rb fst snd]; try tauto. intros [-> HF]. cbn [fst snd].
      assert (G : map fst ys2 = map fst (map fst ys) /\ map snd ys2 = map fst (map snd ys)) by (clear -HF; induction HF as [|y y' l l' E _ [I1 I2]]; cbn; [auto|]; subst; cbn; rewrite I1, I2; auto). destruct G as [G1 G2].
      assert (K : forall Z W (f : Z -> W) l, map f (rev_if rv l) = rev_if rv (map f l)) by (intros; destruct rv; cbn; [apply map_rev|reflexivity]). rewrite !K, G1, G2. reflexivity.
    - apply rb_inl in H as (r1 & H1 & H). cbv zeta in H. destruct (existsb _ (fst r1)) in H; [discriminate|]. apply rb_inl in H as (M' & _ & H). injection H as <-. cbn [snd]. rewrite run_in, run_out. cbn [fst snd]. rewrite run_first.
      apply (rel_post (fun (z : ((C * dict) * dict) * ((C * dict) * dict)) w => w = (fst (fst (fst z)), fst (fst (snd z))))); [|intros z w K; exact K]. apply (rel_post under); [|intros z w K; exact K].
      match goal with |- context[DWhile ?k0 ?b] => lazymatch b with p => fail | _ => remember b as bd eqn:Eb end end. cbn [jvpT run fst snd].
      match goal with |- rel_res _ (while_loop _ ?c2 ?g ?z) (while_loop _ ?c1 ?f ?x) =>
        pose proof (while_loop_rel fuel c2 c1 g f under) as HL; specialize (fun h1 h2 => HL h1 h2 z x eq_refl) end.
      apply HL; clear HL; [intros [[x1 i1] [dx1 di1]] ? ->; reflexivity|]. intros [[x1 i1] [dx1 di1]] x' ->. cbn [fst snd]. specialize (IHp _ _ H1 x1 [] dx1 []). subst bd. rewrite run_in, run_out. cbn [fst snd]. rewrite run_first.
      apply (rel_post (fun (z : ((C * dict) * dict) * ((C * dict) * dict)) w => w = (fst (fst (fst z)), fst (fst (snd z))))); [|intros z w K; exact K]. apply (rel_post under); [|intros z w K; exact K]. exact IHp.
    - apply rb_inl in H as (r1 & H1 & H). apply rb_inl in H as (r2 & H2 & H). apply rb_inl in H as (u & _ & H). apply rb_inl in H as (M' & _ & H). injection H as <-. destruct a as [b a], da as [db da]. cbn [snd]. rewrite run_out, run_first.
      apply (rel_post (fun (z : ((B * dict) * dict) * ((B * dict) * dict)) w => w = (fst (fst (fst z)), fst (fst (snd z))))); [|intros z w K; exact K]. apply (rel_post under); [|intros z w K; exact K].
      destruct b; [exact (IHp _ _ H1 a [] da [])|exact (IHq _ _ H2 a [] da [])].
  Qed.
End under.

#[local] Existing Instance RealArrays.
(** ** C75 *)
(** What jax.jvp computes for reap(f) is the derivative: along every curve c through the arguments a with velocity da, the
    outputs and the reaped values have the velocities dy and dd; the outputs and their tangents are those of jax.jvp(f), and the
    primal results are those of reap(f). *)
Theorem C75_reap s fuel {A B} (f : dprog A B) P Q g q : smooth unplanted f P Q -> call_and_reap s (primal f) = inl g -> call_and_reapD s f = inl q ->
  forall c a da y dy d dd, P c a da -> run fuel (jvpT q) (a, da) = inl ((y, d), (dy, dd)) ->
  run fuel g a = inl (y, d) /\ run fuel (jvpT f) (a, da) = inl (y, dy) /\
  exists cy cd, near (fun t => run fuel g (c t) = inl (cy t, cd t)) /\ Q cy y dy /\ tan_named cd d dd.
Proof.
  intros S Hg Hq c a da y dy d dd Hc H. rewrite C75_reap_primal, Hq in Hg. injection Hg as <-. split; [exact (C70_primal fuel q a da _ _ H)|]. unfold call_and_reapD in Hq. apply rb_inl in Hq as (r & Hr & E). injection E as <-. split.
  - rewrite run_in, run_out in H. pose proof (reap_jvp_run s fuel f [] r Hr a [] da []) as G. apply rb_inl in H as (z & Hz & H). rewrite Hz in G. destruct (run fuel (jvpT f) (a, da)) as [w|]; [|destruct G]. cbn [rel_res] in G. unfold under in G. rewrite G. injection H as <- _ <- _. reflexivity.
  - assert (Sq : smooth unplanted (DSeq (Move (fun a => (a, [] : dict))) (DSeq (snd r) (Move (fun x => (fst x, final (snd x)))))) P (tan_pair Q tan_named)).
    { exists (tan_pair P tan_dict). split; [apply smooth_start|]. exists (tan_pair Q tan_dict). split; [exact (reap_smooth s f P Q S [] r Hr)|]. apply smooth_move. intros k [b e] [db de] (k1 & k2 & N & H1 & H2). cbn [fst snd] in *. exists k1, (fun t => final (k2 t)). split; [|split; [exact H1|apply tan_final, H2]].
      eapply near_imp; [exact N|]. intros t A1. rewrite A1. reflexivity. }
    destruct (jvp_tangent fuel _ _ _ Sq _ _ _ _ _ Hc H) as (k & N & k1 & k2 & N2 & H1 & H2). cbn [fst snd] in *. exists k1, k2. split; [|split; assumption]. eapply near2; [exact N|exact N2|]. intros t A1 A2. cbn beta in *. rewrite A1, A2. reflexivity.
Qed.
(** jax.jvp(reap(f)) returns whenever jax.jvp(f) does *)
Theorem C75_reap_defined s fuel {A B} (f : dprog A B) q : call_and_reapD s f = inl q ->
  forall a da y dy, run fuel (jvpT f) (a, da) = inl (y, dy) -> exists d dd, run fuel (jvpT q) (a, da) = inl ((y, d), (dy, dd)).
Proof.
  intros Hq a da y dy H. unfold call_and_reapD in Hq. apply rb_inl in Hq as (r & Hr & E). injection E as <-. rewrite run_in, run_out. pose proof (reap_jvp_run s fuel f [] r Hr a [] da []) as G. rewrite H in G.
  match type of G with rel_res _ ?u _ => destruct u as [[[y1 d1] [dy1 dd1]]|] eqn:Eu end; [|destruct G]. cbn [rel_res] in G. unfold under in G. cbn [fst snd] in G. injection G as -> ->. exists (final d1), (final dd1).
  reflexivity.
Qed.

Lemma skel_tan c v dv : tan_tree c v dv -> near (fun t => skel_of (c t) = skel_of v).
Proof.
  induction 1 as [c g v dv N H|c ds N _ IH|c ds N _ IH] using tan_tree_ind'.
  - eapply near_imp; [exact N|]. intros t A. rewrite A. reflexivity.
  - assert (G : near (fun t => Forall (fun e => skel_of (cu (snd e) t) = skel_of (pt (snd e))) ds)) by (apply (near_Forall (fun e t => skel_of (cu (snd e) t) = skel_of (pt (snd e)))); exact IH).
    eapply near2; [exact N|exact G|]. intros t A K. cbn beta in *. rewrite A. cbn [skel_of]. f_equal. unfold at_keys. rewrite !map_map. cbn [fst snd]. apply map_ext_in. intros e He. rewrite Forall_forall in K. rewrite (K e He). reflexivity.
  - eapply near_imp; [exact N|]. intros t A. rewrite A. reflexivity.
Qed.
Lemma skels_tan D c l dl : tan_plants D c l dl -> near (fun t => skels_of (c t) = skels_of l).
Proof.
  intros (ds & N & -> & _ & H). assert (G : near (fun t => Forall (fun e => skel_of (cu (snd e) t) = skel_of (pt (snd e))) ds)).
  { apply (near_Forall (fun e t => skel_of (cu (snd e) t) = skel_of (pt (snd e)))). eapply Forall_impl; [|exact H]. intros e [He _]. exact (skel_tan _ _ _ He). }
  eapply near2; [exact N|exact G|]. intros t A K. cbn beta in *. rewrite A. unfold skels_of, at_keys. rewrite !map_map. apply map_ext_in. intros e He. cbn [fst snd]. rewrite Forall_forall in K. rewrite (K e He). reflexivity.
Qed.
(** plant(f, plants): the derivative in the arguments and in the planted values *)
Theorem C75_plant s D fuel {A B} (f : dprog A B) P Q pd g q : smooth (planted_in s D) f P Q -> plant s (primal f) pd = inl g -> plant_D s f pd = inl q ->
  forall c a da cp dpd y dy, P c a da -> tan_plants D cp pd dpd -> run fuel (jvpT q) ((a, pd), (da, dpd)) = inl (y, dy) ->
  run fuel g (a, pd) = inl y /\ near (fun t => plant s (primal f) (cp t) = inl g) /\
  exists cy, near (fun t => run fuel g (c t, cp t) = inl (cy t)) /\ Q cy y dy.
Proof.
  intros S Hg Hq c a da cp dpd y dy Hc Hp H. split; [|split].
  - rewrite C75_plant_primal, Hq in Hg. injection Hg as <-. exact (C70_primal fuel q (a, pd) (da, dpd) _ _ H).
  - eapply near_imp; [exact (skels_tan D cp pd dpd Hp)|]. intros t E. unfold plant in *. rewrite E. exact Hg.
  - rewrite C75_plant_primal, Hq in Hg. injection Hg as <-. unfold plant_D in Hq. apply rb_inl in Hq as (r & Hr & E). injection E as <-.
    exact (jvp_tangent fuel _ _ _ (plant_smooth D s f P Q S _ _ r Hr) _ _ _ _ _ (tan_pair_intro P (tan_plants D) c cp a pd da dpd Hc Hp) H).
Qed.
(** harvest(f)(plants, args): outputs and reaped values, in the arguments and in the planted values *)
Theorem C75_harvest s D fuel {A B} (f : dprog A B) P Q pd g q : smooth (planted_in s D) f P Q -> harvest s (primal f) pd = inl g -> harvestD s f pd = inl q ->
  forall c a da cp dpd y dy d dd, P c a da -> tan_plants D cp pd dpd -> run fuel (jvpT q) ((a, pd), (da, dpd)) = inl ((y, d), (dy, dd)) ->
  run fuel g (a, pd) = inl (y, d) /\ near (fun t => harvest s (primal f) (cp t) = inl g) /\
  exists cy cd, near (fun t => run fuel g (c t, cp t) = inl (cy t, cd t)) /\ Q cy y dy /\ tan_named cd d dd.
Proof.
  intros S Hg Hq c a da cp dpd y dy d dd Hc Hp H. split; [|split].
  - rewrite C75_harvest_primal, Hq in Hg. injection Hg as <-. exact (C70_primal fuel q (a, pd) (da, dpd) _ _ H).
  - eapply near_imp; [exact (skels_tan D cp pd dpd Hp)|]. intros t E. unfold harvest, plant in *. rewrite E. exact Hg.
  - rewrite C75_harvest_primal, Hq in Hg. injection Hg as <-. unfold harvestD in Hq. apply rb_inl in Hq as (h & Hh & Hq). unfold plant_D in Hh. apply rb_inl in Hh as (r & Hr & E). injection E as <-.
    pose proof (plant_smooth D s f P Q S _ _ r Hr) as Sp. unfold call_and_reapD in Hq. apply rb_inl in Hq as (r2 & Hr2 & E). injection E as <-.
    assert (Sq : smooth (planted_in s D) (DSeq (Move (fun a => (a, [] : dict))) (DSeq (snd r2) (Move (fun x => (fst x, final (snd x)))))) (tan_pair P (tan_plants D)) (tan_pair Q tan_named)).
    { exists (tan_pair (tan_pair P (tan_plants D)) tan_dict). split; [apply smooth_start|]. exists (tan_pair Q tan_dict). split; [exact (reap_smooth s (snd r) _ _ Sp [] r2 Hr2)|]. apply smooth_move. intros k [b e] [db de] (k1 & k2 & N & H1 & H2). cbn [fst snd] in *. exists k1, (fun t => final (k2 t)). split; [|split; [exact H1|apply tan_final, H2]].
      eapply near_imp; [exact N|]. intros t A1. rewrite A1. reflexivity. }
    destruct (jvp_tangent fuel _ _ _ Sq _ _ _ _ _ (tan_pair_intro P (tan_plants D) c cp a pd da dpd Hc Hp) H) as (k & N & k1 & k2 & N2 & H1 & H2). cbn [fst snd] in *. exists k1, k2. split; [|split; assumption]. eapply near2; [exact N|exact N2|]. intros t A1 A2. cbn beta in *. rewrite A1, A2. reflexivity.
Qed.

(** ** velocities are unique: dd is the derivative of the reaped values *)
Lemma near_map_eq {X Y} (f : X -> R -> Y) (g : X -> R -> Y) : forall l l', near (fun t => map (fun x => f x t) l = map (fun x => g x t) l') -> Forall2 (fun x x' => near (fun t => f x t = g x' t)) l l'.
Proof.
  induction l as [|x l IH]; intros [|x' l'] N; try (pose proof (near_0 _ N); discriminate); [constructor|]. cbn [map] in N. constructor; [|apply IH]; (eapply near_imp; [exact N|]; intros t A; injection A as A1 A2; assumption).
Qed.
Lemma num_unique g g' x dx x' dx' : near (fun t => g t = g' t) -> tan_num g x dx -> tan_num g' x' dx' -> x = x' /\ dx = dx'.
Proof.
  intros N [E1 H1] [E2 H2]. pose proof (near_0 _ N) as N0. cbn beta in N0. split; [congruence|]. apply (uniqueness_limite g' 0 dx dx'); [|exact H2]. intros eps He. destruct (H1 eps He) as [del Hd]. destruct N as (e & He' & N).
  assert (Hm : (0 < Rmin del e)%R) by (apply Rmin_pos; [apply cond_pos|exact He']). exists (mkposreal _ Hm). cbn [pos]. intros h Hh Hl. rewrite <- !N; [|rewrite Rabs_R0; exact He'|rewrite Rplus_0_l; eapply Rlt_le_trans; [exact Hl|apply Rmin_r]]. apply Hd; [exact Hh|]. eapply Rlt_le_trans; [exact Hl|apply Rmin_l].
Qed.
Lemma arr_unique c c' v dv v' dv' : near (fun t => c t = c' t) -> tan_arr c v dv -> tan_arr c' v' dv' -> v = v' /\ dv = dv'.
Proof.
  intros N H H'. unfold tan_arr in *. destruct v as [l|k], dv as [dl|dk], v' as [l'|k'], dv' as [dl'|dk']; try tauto.
  - destruct H as (g & E & ds & Eg & -> & -> & Hd), H' as (g' & E' & ds' & Eg' & -> & -> & Hd').
    assert (NN : near (fun t => map (fun x => cu x t) ds = map (fun x => cu x t) ds')) by (eapply near3; [exact N|eapply near2; [exact E|exact Eg|intros t A B; exact (conj A B)]|eapply near2; [exact E'|exact Eg'|intros t A B; exact (conj A B)]|]; intros t A [B C] [B' C']; cbn beta in *; congruence).
    apply (near_map_eq cu cu) in NN. revert Hd Hd'. clear -NN. induction NN as [|x x' l l' K _ IH]; intros H H'; [auto|]. inversion H; inversion H'; subst. destruct (num_unique _ _ _ _ _ _ K H2 H6) as [E1 E2]. destruct IH as [I1 I2]; [assumption..|]. injection I1 as I1. injection I2 as I2. cbn [map]. rewrite E1, E2, I1, I2. auto.
  - destruct H as (g & E & _), H' as [E' _]. pose proof (near_0 _ E). pose proof (near_0 _ E'). pose proof (near_0 _ N). cbn beta in *. congruence.
  - destruct H as [E _], H' as (g & E' & _). pose proof (near_0 _ E). pose proof (near_0 _ E'). pose proof (near_0 _ N). cbn beta in *. congruence.
  - destruct H as [E ->], H' as [E' ->]. pose proof (near_0 _ E). pose proof (near_0 _ E'). pose proof (near_0 _ N). cbn beta in *. split; congruence.
Qed.
Lemma tree_unique c v dv : tan_tree c v dv -> forall c' v' dv', near (fun t => c t = c' t) -> tan_tree c' v' dv' -> v = v' /\ dv = dv'.
Proof.
  induction 1 as [c g v dv E H|c ds E _ IH|c ds E _ IH] using tan_tree_ind'; intros c' v' dv' N H'.
  - inversion H' as [c0 g' w dw E' K' |c0 es E' K'|c0 es E' K']; subst; try (pose proof (near_0 _ E); pose proof (near_0 _ E'); pose proof (near_0 _ N); cbn beta in *; congruence).
    destruct (arr_unique g g' v dv w dw) as [E1 E2]; try assumption; [|rewrite E1, E2; auto]. eapply near3; [exact N|exact E|exact E'|]. intros t A B C. cbn beta in *. congruence.
  - inversion H' as [c0 g' w dw E' K' |c0 es E' K'|c0 es E' K']; subst; try (pose proof (near_0 _ E); pose proof (near_0 _ E'); pose proof (near_0 _ N); cbn beta in *; congruence).
    assert (NN : near (fun t => map (fun e => (fst e, cu (snd e) t)) ds = map (fun e => (fst e, cu (snd e) t)) es)) by (eapply near3; [exact N|exact E|exact E'|]; intros t A B C; cbn beta in *; unfold at_keys in *; congruence).
    apply (near_map_eq (fun e t => (fst e, cu (snd e) t)) (fun e t => (fst e, cu (snd e) t))) in NN. assert (G : at_keys pt ds = at_keys pt es /\ at_keys ta ds = at_keys ta es); [|destruct G as [-> ->]; auto].
    revert K' IH. clear -NN. induction NN as [|x x' l l' K _ IHN]; intros H' H; [auto|]. inversion H as [|? ? Hx Hl]; inversion H' as [|? ? Hx' Hl']; subst. destruct (Hx (cu (snd x')) (pt (snd x')) (ta (snd x'))) as [E1 E2]; [eapply near_imp; [exact K|]; intros t A; injection A; auto|exact Hx'|].
    pose proof (near_0 _ K) as K0. cbn beta in K0. injection K0 as K0 _. destruct IHN as [I1 I2]; [assumption..|]. unfold at_keys in *. cbn [map]. rewrite E1, E2, K0, I1, I2. auto.
  - inversion H' as [c0 g' w dw E' K' |c0 es E' K'|c0 es E' K']; subst; try (pose proof (near_0 _ E); pose proof (near_0 _ E'); pose proof (near_0 _ N); cbn beta in *; congruence).
    assert (NN : near (fun t => map (fun e => cu e t) ds = map (fun e => cu e t) es)) by (eapply near3; [exact N|exact E|exact E'|]; intros t A B C; cbn beta in *; congruence).
    apply (near_map_eq cu cu) in NN. assert (G : map pt ds = map pt es /\ map ta ds = map ta es); [|destruct G as [-> ->]; auto].
    revert K' IH. clear -NN. induction NN as [|x x' l l' K _ IHN]; intros H' H; [auto|]. inversion H as [|? ? Hx Hl]; inversion H' as [|? ? Hx' Hl']; subst. destruct (Hx (cu x') (pt x') (ta x') K Hx') as [E1 E2]. destruct IHN as [I1 I2]; [assumption..|]. cbn [map]. rewrite E1, E2, I1, I2. auto.
Qed.
Theorem C75_velocity_unique c c' d dd d' dd' : near (fun t => c t = c' t) -> tan_named c d dd -> tan_named c' d' dd' -> d = d' /\ dd = dd'.
Proof.
  intros N (ds & E & -> & -> & H) (es & E' & -> & -> & H').
  assert (NN : near (fun t => map (fun e => (fst e, cu (snd e) t)) ds = map (fun e => (fst e, cu (snd e) t)) es)) by (eapply near3; [exact N|exact E|exact E'|]; intros t A B C; cbn beta in *; unfold at_keys in *; congruence).
  apply (near_map_eq (fun e t => (fst e, cu (snd e) t)) (fun e t => (fst e, cu (snd e) t))) in NN. revert H H'. clear -NN. induction NN as [|x x' l l' K _ IHN]; intros H H'; [auto|]. inversion H as [|? ? Hx Hl]; inversion H' as [|? ? Hx' Hl']; subst.
  destruct (tree_unique _ _ _ Hx (cu (snd x')) (pt (snd x')) (ta (snd x'))) as [E1 E2]; [eapply near_imp; [exact K|]; intros t A; injection A; auto|exact Hx'|].
  pose proof (near_0 _ K) as K0. cbn beta in K0. injection K0 as K0 _. destruct IHN as [I1 I2]; [assumption..|]. unfold at_keys in *. cbn [map]. rewrite E1, E2, K0, I1, I2. auto.
Qed.

(** ** examples: smooth programs exist, and what the theorems say about them *)
Definition rleaf (x : R) : tree := Leaf (Num (x :: nil)).
Definition rstep (g dg : R -> R) : dprog tree tree :=
  DPure (fun v => match v with Leaf (Num (x :: nil)) => inl (rleaf (g x)) | _ => inr TypeErr end)
        (fun v dv => match v, dv with Leaf (Num (x :: nil)), Leaf (Num (dx :: nil)) => inl (rleaf (dg x * dx)%R) | _, _ => inr TypeErr end).
Lemma tan_rleaf c v dv : tan_tree c v dv -> forall x dx, v = rleaf x -> dv = rleaf dx -> exists g, near (fun t => c t = rleaf (g t)) /\ tan_num g x dx.
Proof.
  intros H x dx E E'. inversion H as [c0 g w dw N K |c0 es N K|c0 es N K]; subst; try discriminate. injection H1 as ->. injection H2 as ->. destruct K as (k & Nk & ds & Nd & E1 & E2 & Hd). destruct ds as [|d0 [|? ?]]; try discriminate. injection E1 as ->. injection E2 as ->. inversion Hd; subst.
  exists (cu d0). split; [|assumption]. eapply near3; [exact N|exact Nk|exact Nd|]. intros t A B C. cbn beta in *. rewrite A, B, C. reflexivity.
Qed.
Lemma rleaf_tan g x dx : tan_num g x dx -> tan_tree (fun t => rleaf (g t)) (rleaf x) (rleaf dx).
Proof.
  intros H. apply TanLeaf with (fun t => Num (g t :: nil)); [apply near_all; reflexivity|]. exists (fun t => g t :: nil). split; [apply near_all; reflexivity|]. exists ((g, (x, dx)) :: nil). split; [apply near_all; reflexivity|]. split; [reflexivity|]. split; [reflexivity|]. constructor; [exact H|constructor].
Qed.
Lemma rstep_smooth W g dg : (forall x, derivable_pt_lim g x (dg x)) -> smooth W (rstep g dg) tan_tree tan_tree.
Proof.
  intros Hg c a da b db Hc E E'. destruct a as [[[|x [|? ?]]|k]|l|l]; try discriminate. destruct da as [[[|dx [|? ?]]|k]|l|l]; try discriminate. injection E as <-. injection E' as <-. destruct (tan_rleaf _ _ _ Hc x dx eq_refl eq_refl) as (h & N & E & Hh).
  exists (fun t => rleaf (g (h t))). split; [eapply near_imp; [exact N|]; intros t A; cbn beta in *; rewrite A; reflexivity|]. apply rleaf_tan. split; [rewrite E; reflexivity|]. apply (derivable_pt_lim_comp h g 0 dx (dg x)); [exact Hh|]. rewrite E. apply Hg.
Qed.
Definition square : dprog tree tree := rstep (fun x => x * x)%R (fun x => 2 * x)%R.
Lemma square_smooth W : smooth W square tan_tree tan_tree.
Proof. apply rstep_smooth. intros x. replace (2 * x)%R with (1 * x + x * 1)%R by ring. apply derivable_pt_lim_mult; apply derivable_pt_lim_id. Qed.
Definition sow1 (n : string) (m : mode) : dprog tree tree := DSow "t" n m (AL (ANum 1)).
Lemma sow1_smooth s D n m : smooth (planted_in s D) (sow1 n m) tan_tree tan_tree.
Proof. split; [apply subrel_refl|]. split; [apply subrel_refl|]. intros c v dv (_ & _ & H & _). exact H. Qed.
Lemma sow1_smooth_un n m : smooth unplanted (sow1 n m) tan_tree tan_tree.
Proof. split; [apply subrel_refl|]. split; [apply subrel_refl|]. intros c v dv []. Qed.
(** x |-> (sow(x*x, 'h'))^2, then two iterations of a scan that squares its carry and appends it as 'a' *)
Definition scanex : dprog (tree * list tree) (tree * list tree) := DScan false 2 (DFirst tree (DSeq square (sow1 "a" Append))).
Definition gradex : dprog (tree * list tree) (tree * list tree) :=
  DSeq (DFirst (list tree) (DSeq square (DSeq (sow1 "h" Strict) square))) scanex.
Theorem C75_example_smooth : smooth unplanted gradex (tan_pair tan_tree (tan_list tan_tree)) (tan_pair tan_tree (tan_list tan_tree)) /\
  (forall s D, smooth (planted_in s D) gradex (tan_pair tan_tree (tan_list tan_tree)) (tan_pair tan_tree (tan_list tan_tree))).
Proof.
  assert (G : forall W, (forall n m, smooth W (sow1 n m) tan_tree tan_tree) -> smooth W gradex (tan_pair tan_tree (tan_list tan_tree)) (tan_pair tan_tree (tan_list tan_tree))).
  { intros W HW. exists (tan_pair tan_tree (tan_list tan_tree)). split.
    - apply smooth_first. exists tan_tree. split; [apply square_smooth|]. exists tan_tree. split; [apply HW|apply square_smooth].
    - exists tan_tree, tan_tree, tan_tree. split; [apply subrel_refl|]. split; [|apply subrel_refl]. apply smooth_first. exists tan_tree. split; [apply square_smooth|apply HW]. }
  split; [apply G, sow1_smooth_un|]. intros s D. apply G, sow1_smooth.
Qed.
Definition every (t : string) : settings := mk_settings t [] None false.
(** jax.jvp(reap(f)): h = x^2 with tangent 2 x dx, and so on through the scan *)
Theorem C75_example_reap x dx xs : exists q, call_and_reapD (every "t") gradex = inl q /\ let u := (x * x)%R in let du := (2 * x * dx)%R in let w := (u * u)%R in let dw := (2 * u * du)%R in
  let a1 := (w * w)%R in let da1 := (2 * w * dw)%R in let a2 := (a1 * a1)%R in let da2 := (2 * a1 * da1)%R in
  run 0 (jvpT q) ((rleaf x, [rleaf xs; rleaf xs]), (rleaf dx, [rleaf 0; rleaf 0])) =
    inl (((rleaf a2, [rleaf xs; rleaf xs]), [("h", rleaf u); ("a", Stk [rleaf a1; rleaf a2])]), ((rleaf da2, [rleaf 0; rleaf 0]), [("h", rleaf du); ("a", Stk [rleaf da1; rleaf da2])])).
Proof. eexists. split; reflexivity. Qed.
(** jax.jvp(plant(f)) with a planted h: the tangent of the output is that of the planted value, not of x *)
Theorem C75_example_plant x dx h dh xs : exists q, plant_D (every "t") gradex [("h", rleaf h)] = inl q /\
  let w := (h * h)%R in let dw := (2 * h * dh)%R in let a1 := (w * w)%R in let da1 := (2 * w * dw)%R in let a2 := (a1 * a1)%R in let da2 := (2 * a1 * da1)%R in
  run 0 (jvpT q) (((rleaf x, [rleaf xs; rleaf xs]), [("h", rleaf h)]), ((rleaf dx, [rleaf 0; rleaf 0]), [("h", rleaf dh)])) =
    inl ((rleaf a2, [rleaf xs; rleaf xs]), (rleaf da2, [rleaf 0; rleaf 0])).
Proof. eexists. split; reflexivity. Qed.
Print Assumptions C75_reap. Print Assumptions C75_plant. Print Assumptions C75_harvest. Print Assumptions C75_velocity_unique.
