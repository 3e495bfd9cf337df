(** C80: plant applied to jax.vjp(f): the planted values replace those of the forward pass, the cotangents run through the
    replaced sows as if nothing had been planted (the JVP and transposition rules of sow hand tangents and cotangents on,
    harvest.py:206-217).  So plant(vjp(f)) and vjp(plant(f)) are different gradients. *)
From Verif Require Export VjpPlant.
From Coq Require Import Lia.
Open Scope string_scope. Open Scope list_scope. Open Scope nat_scope.

Section of.
  Context {AR : Arrays} {CT : Cotangents AR}.
  Notation plants := (list (string * tree)).
  Lemma app_plants_nil (pd : plants) : app_plants [] pd = [].
  Proof. unfold app_plants. induction pd as [|e pd IH]; [reflexivity|exact IH]. Qed.
  Lemma sowless_quiet_meta s {A B} (p : prog A B) : sowless p -> exists p', reapT s p [] = inl ([], p').
  Proof. intros H. destruct (sowless_reap s p H []) as (p' & E & _). eauto. Qed.
  (** there is nothing to plant in code that sows nothing *)
  Lemma sowless_plant s {A B} (p : prog A B) : sowless p -> forall sk dn r, plantT s p sk dn = inl r -> fst r = dn /\ forall fuel x pd, run fuel (snd r) (x, pd) = run fuel p x.
  Proof.
    induction p as [A B f|A B C p IHp q IHq|A B C p IHp|t n m av|t n av|A B sc p IHp|A B p IHp|C X Y rv len p IHp|C c p IHp|A B p IHp q IHq]; cbn [sowless]; intros H sk dn r E; try contradiction; cbn [plantT] in E.
    - injection E as <-. split; [reflexivity|]. intros. reflexivity.
    - destruct H as [H1 H2]. apply rb_inl in E as (r1 & E1 & E). apply rb_inl in E as (r2 & E2 & E). injection E as <-. destruct (IHp H1 _ _ _ E1) as [D1 K1]. destruct (IHq H2 _ _ _ E2) as [D2 K2]. cbn [fst snd]. split; [congruence|].
      intros fuel x pd. cbn [run fst snd rb]. rewrite K1. destruct (run fuel p x); cbn [rb fst snd]; [apply K2|reflexivity].
    - apply rb_inl in E as (r1 & E1 & E). injection E as <-. destruct (IHp H _ _ _ E1) as [D1 K1]. cbn [fst snd]. split; [exact D1|]. intros fuel [x c] pd. cbn [run fst snd rb]. unfold swap. cbn [fst snd]. rewrite K1. reflexivity.
    - apply rb_inl in E as (sk' & E0 & E). apply rb_inl in E as (r1 & E1 & E). injection E as <-. destruct (IHp H _ _ _ E1) as [D1 K1]. cbn [fst snd]. split; [reflexivity|]. intros fuel x pd. cbn [run fst snd rb]. apply K1.
    - apply rb_inl in E as (r1 & E1 & E). injection E as <-. destruct (IHp H _ _ _ E1) as [D1 K1]. cbn [fst snd]. split; [reflexivity|]. intros fuel x pd. cbn [run]. apply K1.
    - destruct (sowless_quiet_meta s p H) as (p0 & Em). rewrite Em in E. cbn [rb] in E. cbv zeta in E. cbn [fst existsb] in E. apply rb_inl in E as (r1 & E1 & E). injection E as <-. destruct (IHp H _ _ _ E1) as [D1 K1]. cbn [fst snd]. split; [reflexivity|].
      intros fuel [c xs] pd. cbn [run fst snd rb]. unfold scan_plants. rewrite app_plants_nil. cbn [slices rb].
      destruct (Nat.eqb (List.length xs) len) eqn:El; cbn [rb]; [|unfold scan_sem; cbn [fst snd]; rewrite El; reflexivity]. cbn [fst snd].
      set (ps := map (fun p2 : plants => p2 ++ clob_plants [] pd) (repeat [] len)).
      match goal with |- scan_sem _ _ ?g _ = _ => pose proof (scan_sem_hom rv len (run fuel p) g (fun c => c) (fun y => y) (combine xs ps) xs) as Hh end.
      assert (Lp : List.length xs = List.length ps). { unfold ps. rewrite map_length, repeat_length. apply Nat.eqb_eq, El. }
      match type of Hh with ?P -> _ => assert (HP : P) end.
      { clearbody ps. clear El Hh. revert ps Lp. induction xs as [|x xs IH]; intros [|q ps] Lp; try discriminate; [constructor|]. injection Lp as Lp. cbn [combine]. constructor; [|exact (IH _ Lp)]. intros c1. cbn [fst snd rb]. rewrite K1. destruct (run fuel p (c1, x)) as [[c2 y2]|]; reflexivity. }
      refine (eq_trans (Hh HP c) _). destruct (scan_sem rv len (run fuel p) (c, xs)) as [[c1 ys]|]; cbn [rb fst snd]; [rewrite map_id|]; reflexivity.
    - destruct H as [H1 H2]. apply rb_inl in E as (m0 & _ & E). apply rb_inl in E as (m1 & _ & E). apply rb_inl in E as (u & _ & E). apply rb_inl in E as (r1 & E1 & E). apply rb_inl in E as (r2 & E2 & E). injection E as <-. destruct (IHp H1 _ _ _ E1) as [D1 K1]. destruct (IHq H2 _ _ _ E2) as [D2 K2]. cbn [fst snd]. split; [reflexivity|].
      intros fuel [b x] pd. cbn [run fst snd rb]. destruct b; [apply K1|apply K2].
  Qed.
  (** planting in the forward pass is planting in f *)
  Definition fwd_same (s : settings) {X Y} (p : vprog X Y) : Prop := forall sk dn, match plantT s (fwdT p) sk dn, plantT s (fwdV p) sk dn with
    | inl r, inl r' => fst r = fst r' /\ forall fuel x pd, run fuel (snd r') (x, pd) = rb (run fuel (snd r) (x, pd)) (fun z => inl (fst z))
    | inr e, inr e' => e = e'
    | _, _ => False
    end.
  Lemma fwd_quiet s {X Y} (p : vprog X Y) : quiet s (fwdT p) = quiet s (fwdV p).
  Proof.
    induction p as [X Y f df ft|X Y Z p IHp q IHq|X Y C p IHp|t n m av|X Y sc p IHp|X Y p IHp|X Y p IHp q IHq|C X Y rv len p IHp|X Y R fwd bwd]; cbn [fwdT fwdV quiet resid]; rewrite ?andb_true_r; try reflexivity; try assumption; try (rewrite IHp, IHq; reflexivity).
  Qed.
  Lemma fwd_meta s {X Y} (p : vprog X Y) M : match reapT s (fwdT p) M, reapT s (fwdV p) M with inl r, inl r' => fst r = fst r' | inr e, inr e' => e = e' | _, _ => False end.
  Proof. pose proof (fwd_reap s p M) as K. destruct (reapT s (fwdT p) M), (reapT s (fwdV p) M); try contradiction; [destruct K; assumption|exact K]. Qed.
  Lemma fwd_plant s {X Y} (p : vprog X Y) : fwd_same s p.
  Proof.
    induction p as [X Y f df ft|X Y Z p IHp q IHq|X Y C p IHp|t n m av|X Y sc p IHp|X Y p IHp|X Y p IHp q IHq|C X Y rv len p IHp|X Y R fwd bwd]; intros sk dn; cbn [fwdT fwdV plantT resid].
    - split; [reflexivity|]. intros fuel x pd. cbn [run fst snd]. destruct (f x); reflexivity.
    - specialize (IHp sk dn). destruct (plantT s (fwdT p) sk dn) as [[d1 p1]|], (plantT s (fwdV p) sk dn) as [[d1' p1']|]; cbn [rb]; try contradiction; [|exact IHp]. destruct IHp as [ED Kp]. cbn [fst snd] in *. subst d1'.
      specialize (IHq sk d1). destruct (plantT s (fwdT q) sk d1) as [[d2 q1]|], (plantT s (fwdV q) sk d1) as [[d2' q1']|]; cbn [rb]; try contradiction; [|exact IHq]. destruct IHq as [ED Kq]. cbn [fst snd] in *. subst d2'. split; [reflexivity|].
      intros fuel x pd. cbn [run fst snd rb resid]. rewrite Kp. destruct (run fuel p1 (x, pd)) as [[y r]|]; cbn [rb fst snd]; [|reflexivity]. unfold swap. cbn [fst snd]. rewrite Kq. destruct (run fuel q1 (y, pd)) as [[z r2]|]; reflexivity.
    - specialize (IHp sk dn). destruct (plantT s (fwdT p) sk dn) as [[d1 p1]|], (plantT s (fwdV p) sk dn) as [[d1' p1']|]; cbn [rb]; try contradiction; [|exact IHp]. destruct IHp as [ED Kp]. cbn [fst snd] in *. subst d1'. split; [reflexivity|].
      intros fuel [x c] pd. cbn [run fst snd rb resid]. unfold swap. cbn [fst snd]. rewrite Kp. destruct (run fuel p1 (x, pd)) as [[y r]|]; reflexivity.
    - destruct (is_cond m) eqn:Em; [reflexivity|]. destruct (String.eqb t (tag_of s)); [destruct (passes s n); [destruct (mem n dn); [reflexivity|]; destruct (haskey sk n)|]|destruct (exclusive s)]; cbn [fst snd rb]; (split; [reflexivity|]); intros fuel x pd; cbn [run fst snd rb resid]; rewrite ?Em;
        repeat match goal with |- context [chk ?a ?b] => destruct (chk a b); cbn [rb fst snd] | |- context [planted ?a ?b ?c] => destruct (planted a b c); cbn [rb fst snd] end; reflexivity.
    - rewrite <- fwd_quiet. destruct (sub_skel _ sk sc) as [sk'|]; cbn [rb]; [|reflexivity]. specialize (IHp sk' []). destruct (plantT s (fwdT p) sk' []) as [[d1 p1]|], (plantT s (fwdV p) sk' []) as [[d1' p1']|]; cbn [rb]; try contradiction; [|exact IHp]. destruct IHp as [_ Kp]. cbn [fst snd] in *. split; [reflexivity|].
      intros fuel x pd. cbn [run fst snd rb resid]. apply Kp.
    - specialize (IHp sk []). destruct (plantT s (fwdT p) sk []) as [[d1 p1]|], (plantT s (fwdV p) sk []) as [[d1' p1']|]; cbn [rb]; try contradiction; [|exact IHp]. destruct IHp as [_ Kp]. cbn [fst snd] in *. split; [reflexivity|].
      intros fuel x pd. cbn [run fst snd rb resid]. apply Kp.
    - cbn [reapT rb fst snd]. pose proof (fwd_meta s p []) as Mp. destruct (reapT s (fwdT p) []) as [[M1 z1]|], (reapT s (fwdV p) []) as [[M1' z2]|]; cbn [rb]; try contradiction; [|exact Mp]. cbn [fst snd] in *. subst M1'.
      pose proof (fwd_meta s q []) as Mq. destruct (reapT s (fwdT q) []) as [[M2 z3]|], (reapT s (fwdV q) []) as [[M2' z4]|]; cbn [rb]; try contradiction; [|exact Mq]. cbn [fst snd] in *. subst M2'.
      destruct (check_branches M1 M2); cbn [rb]; [|reflexivity].
      specialize (IHp sk []). destruct (plantT s (fwdT p) sk []) as [[d1 p1]|], (plantT s (fwdV p) sk []) as [[d1' p1']|]; cbn [rb]; try contradiction; [|exact IHp]. destruct IHp as [_ Kp]. cbn [fst snd] in *.
      specialize (IHq sk []). destruct (plantT s (fwdT q) sk []) as [[d2 q1]|], (plantT s (fwdV q) sk []) as [[d2' q1']|]; cbn [rb]; try contradiction; [|exact IHq]. destruct IHq as [_ Kq]. cbn [fst snd] in *. split; [reflexivity|].
      intros fuel [b x] pd. cbn [run fst snd rb resid]. destruct b.
      + rewrite Kp. match goal with |- context [@run ?a ?f ?A ?B p1 ?z] => destruct (@run a f A B p1 z) as [[y r]|] end; reflexivity.
      + rewrite Kq. match goal with |- context [@run ?a ?f ?A ?B q1 ?z] => destruct (@run a f A B q1 z) as [[y r]|] end; reflexivity.
    - cbn [reapT rb fst snd]. pose proof (fwd_meta s p []) as Mp. match goal with |- context [@reapT ?a ?b ?c ?d (fwdT p) []] => set (R1 := @reapT a b c d (fwdT p) []) end. match goal with |- context [@reapT ?a ?b ?c ?d (fwdV p) []] => set (R2 := @reapT a b c d (fwdV p) []) end.
      assert (Mp' : match R1, R2 with inl r, inl r' => fst r = fst r' | inr e, inr e' => e = e' | _, _ => False end) by exact Mp. clearbody R1 R2. clear Mp. rename Mp' into Mp.
      destruct R1 as [[M1 z1]|], R2 as [[M1' z2]|]; cbn [rb]; try contradiction; [|exact Mp]. cbn [fst snd] in *. subst M1'. cbv zeta. cbn [fst snd rb]. destruct (existsb _ _); [reflexivity|].
      specialize (IHp (scan_skel M1 sk) []). match goal with |- context [@plantT ?a ?b ?c ?d (fwdT p) ?e ?g] => set (R1 := @plantT a b c d (fwdT p) e g) end. match goal with |- context [@plantT ?a ?b ?c ?d (fwdV p) ?e ?g] => set (R2 := @plantT a b c d (fwdV p) e g) end.
      assert (IH : match R1, R2 with
        | inl r, inl r' => fst r = fst r' /\ forall fuel x pd, run fuel (snd r') (x, pd) = rb (run fuel (snd r) (x, pd)) (fun z => inl (fst z))
        | inr e, inr e' => e = e' | _, _ => False end) by exact IHp. clearbody R1 R2. clear IHp. rename IH into IHp.
      destruct R1 as [[d1 p1]|], R2 as [[d1' p1']|]; cbn [rb]; try contradiction; [|exact IHp]. destruct IHp as [_ Kp]. cbn [fst snd] in *. split; [reflexivity|].
      intros fuel [c xs] pd. cbn [run fst snd rb]. destruct (Nat.eqb (List.length xs) len); cbn [rb]; [|reflexivity]. destruct (scan_plants M1 len pd) as [ps|]; cbn [rb]; [|reflexivity]. cbn [fst snd].
      match goal with |- scan_sem _ _ ?g1 ?y1 = rb (rb (rb (scan_sem _ _ ?g2 ?y2) ?k3) ?k4) ?k5 =>
        pose proof (scan_sem_hom rv len g2 g1 (fun c => c) fst (snd y1) (snd y1)) as Hh;
        match type of Hh with ?P -> _ => assert (HP : P) end; [|specialize (Hh HP c); clear HP; refine (eq_trans Hh _); set (S2 := scan_sem rv len g2 y2)] end.
      { apply Forall2_same. intros x c0. cbn [fst snd rb]. refine (eq_trans (Kp _ _ _) _). match goal with |- rb ?a ?k = rb (rb (rb ?b ?k1) ?k2) ?k3 => set (U := a); change (rb U k = rb (rb (rb U k1) k2) k3); destruct U as [[[c1 y1] r1]|]; reflexivity end. }
      match goal with |- context [@scan_sem ?a1 ?a2 ?a3 ?a4 ?a5 ?a6 ?a7] => change (@scan_sem a1 a2 a3 a4 a5 a6 a7) with S2 end. clearbody S2. clear Hh. destruct S2 as [[c1 l]|]; reflexivity.
    - destruct (plantT s fwd sk dn) as [[d1 p1]|]; cbn [rb fst snd]; [|reflexivity]. split; [reflexivity|]. intros fuel x pd. cbn [run fst snd rb resid]. destruct (run fuel p1 (x, pd)) as [[y r]|]; reflexivity.
  Qed.
  (** plant(jax.vjp(f)) returns what plant(f) returns (fwd in place of a function with a rule); its pullback is that of f at
      the residuals [r] of the planted forward pass, nothing is planted in it *)
  Theorem C80_plant_of_vjp s {X Y} (f : vprog X Y) pd0 q : quiet_rules f -> plant s (vjpV f) pd0 = inl q ->
    exists h hf, plant s (fwdV f) pd0 = inl h /\ plant s (fwdT f) pd0 = inl hf /\ forall fuel x ct pd,
      run fuel h (x, pd) = rb (run fuel hf (x, pd)) (fun z => inl (fst z)) /\
      run fuel q ((x, ct), pd) = rb (run fuel hf (x, pd)) (fun yr => rb (run fuel (bwdT f) (snd yr, ct)) (fun g => inl (fst yr, g))).
  Proof.
    intros HQ H. unfold plant in *. apply rb_inl in H as (r & H & E). injection E as <-. unfold vjpV in H. cbn [plantT] in H. pose proof (fwd_plant s f (skels_of pd0) []) as K.
    destruct (plantT s (fwdT f) (skels_of pd0) []) as [[d1 p1]|]; cbn [rb] in H; [|discriminate]. destruct (plantT s (fwdV f) (skels_of pd0) []) as [[d2 p2]|]; [|contradiction]. destruct K as [_ K]. cbn [fst snd rb] in *.
    exists p2, p1. split; [reflexivity|]. split; [reflexivity|]. apply rb_inl in H as (r2 & H & E). injection E as <-. apply rb_inl in H as (r3 & H & E). injection E as <-. apply rb_inl in H as (r4 & H & E). injection E as <-. apply rb_inl in H as (r5 & H & E). injection E as <-.
    destruct (sowless_plant s (bwdT f) (bwd_sowless f HQ) _ _ _ H) as [_ KB]. intros fuel x ct pd. split; [apply K|]. cbn [run fst snd rb]. unfold swap. cbn [fst snd].
    destruct (run fuel p1 (x, pd)) as [[y rr]|]; cbn [rb fst snd]; [|reflexivity]. rewrite KB. destruct (run fuel (bwdT f) (rr, ct)) as [g|]; reflexivity.
  Qed.
  Lemma fwd_run fuel {X Y} (p : vprog X Y) : forall x, run fuel (fwdV p) x = rb (run fuel (fwdT p) x) (fun z => inl (fst z)).
  Proof.
    induction p as [X Y f df ft|X Y Z p IHp q IHq|X Y C p IHp|t n m av|X Y sc p IHp|X Y p IHp|X Y p IHp q IHq|C X Y rv len p IHp|X Y R fwd bwd]; intros x; cbn [fwdT fwdV run resid].
    - destruct (f x); reflexivity.
    - rewrite IHp. destruct (run fuel (fwdT p) x) as [[y r]|]; cbn [rb fst snd]; [|reflexivity]. rewrite IHq. destruct (run fuel (fwdT q) y) as [[z r2]|]; reflexivity.
    - destruct x as [x c]. cbn [fst snd]. rewrite IHp. destruct (run fuel (fwdT p) x) as [[y r]|]; reflexivity.
    - destruct (is_cond m); [reflexivity|]. unfold chk. destruct (has_aval x av); reflexivity.
    - apply IHp.
    - apply IHp.
    - destruct x as [b x]. cbn [fst snd]. destruct b; [rewrite IHp; destruct (run fuel (fwdT p) x) as [[y r]|]|rewrite IHq; destruct (run fuel (fwdT q) x) as [[y r]|]]; reflexivity.
    - destruct x as [c xs]. match goal with |- scan_sem _ _ ?g1 ?y1 = rb (rb (scan_sem _ _ ?g2 ?y2) ?k3) ?k4 => pose proof (scan_sem_hom rv len g2 g1 (fun c => c) fst xs xs) as Hh end.
      match type of Hh with ?P -> _ => assert (HP : P) end.
      { apply Forall2_same. intros x c0. cbn [fst snd rb]. refine (eq_trans (IHp _) _). match goal with |- rb ?a ?k = rb (rb ?b ?k1) ?k2 => set (U := a); change (rb U k = rb (rb U k1) k2); destruct U as [[[c1 y1] r1]|]; reflexivity end. }
      refine (eq_trans (Hh HP c) _). match goal with |- rb ?a ?k = rb (rb ?b ?k1) ?k2 => set (U := a); change (rb U k = rb (rb U k1) k2); destruct U as [[c1 l]|]; reflexivity end.
    - destruct (run fuel fwd x) as [[y r]|]; reflexivity.
  Qed.
  (** jax.vjp(plant(f)) returns what plant(f) returns *)
  Theorem C80_plant_value s {X Y} (f : vprog X Y) pd0 q : rule_free f -> plant_V s f pd0 = inl q -> plant s (primal (toD f)) pd0 = inl (fwdV q) /\
    forall fuel x pd ct y g, run fuel (vjpV q) ((x, pd), ct) = inl (y, g) -> run fuel (fwdV q) (x, pd) = inl y.
  Proof.
    intros F H. split.
    - rewrite C75_plant_primal, (C80_plant_is_plant s f pd0 F), H. cbn [rb]. f_equal. unfold plant_V in H. apply rb_inl in H as (r & H & E). injection E as <-. symmetry. apply (proj1 (C80_forward_is_f (snd r) (plantV_rule_free s f F _ _ _ H))).
    - intros fuel x pd ct y g Hr. apply (vjp_inv fuel q (x, pd) ct y g) in Hr as (r & Hr & _).
      pose proof (fwd_run fuel q (x, pd)) as K. rewrite K. cbn [car Prod PlantS] in *. match goal with |- rb ?a _ = _ => set (U := a) end. assert (EU : U = inl (y, r)) by exact Hr. rewrite EU. reflexivity.
  Qed.
End of.
(** x+1 is sown as "g" and squared; g = 10 is planted.  vjp(plant(f)): the output 100 depends on g only, its gradient in g is
    20 and in x zero.  plant(vjp(f)): same output, but the cotangent runs on through the sow: "gradient" 20 in x, which is
    neither the derivative of plant(f) nor, at x = 4, that of f (10) *)
#[local] Existing Instance ZArrays.
Definition sq_of_g : vprog (AR := ZArrays) TreeS TreeS := RevSeq (vstep (fun x => x + 1)%Z (fun _ => 1)%Z) (RevSeq (vsow "g") (vstep (fun x => x * x)%Z (fun x => 2 * x)%Z)).
Theorem C80_plant_order_refuted : quiet_rules sq_of_g /\ rule_free sq_of_g /\
  run 10 (vjpV sq_of_g) (L 4, L 1) = inl (L 25, L 10) /\
  rb (plant_V (all "t") sq_of_g [("g", L 10)]) (fun q => run 10 (vjpV q) ((L 4, [("g", L 10)]), L 1)) = inl (L 100, (L 0, [("g", L 20)])) /\
  rb (plant (all "t") (vjpV sq_of_g) [("g", L 10)]) (fun q => run 10 q ((L 4, L 1), [("g", L 10)])) = inl (L 100, L 20).
Proof. split; [cbn; tauto|]. split; [cbn; tauto|]. repeat split; vm_compute; reflexivity. Qed.
(** a rule's fwd is planted and its bwd used *)
Theorem C80_plant_of_vjp_example : quiet_rules vex /\
  rb (plant (all "t") (vjpV vex) [("g", L 10); ("p", L 2)]) (fun q => run 10 q ((L 4, L 1), [("g", L 10); ("p", L 2)])) = inl (L 6, L 100).
Proof. split; [cbn; tauto|]. vm_compute. reflexivity. Qed.
Print Assumptions C80_plant_of_vjp. Print Assumptions C80_plant_value. Print Assumptions C80_plant_order_refuted. Print Assumptions C80_plant_of_vjp_example.

