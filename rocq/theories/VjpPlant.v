(** Model of jax.vjp (reverse mode, jax.grad) applied to plant(f) and harvest(f): gradients in the arguments and in the planted
    values, and the proofs that they are transposed derivatives. *)
From Verif Require Export VjpMain.
From Coq Require Import Reals Lia.
Open Scope string_scope. Open Scope list_scope. Open Scope nat_scope.

Section plant.
  Context {AR : Arrays} {CT : Cotangents AR}.
  Notation plants := (list (string * tree)).
  (** Cotangents of a dictionary of plants: a formal sum of entries, (n, w) being the cotangent w of plants[n] (and zero for the
      others); a name that does not occur has cotangent zero.  Simplification: JAX adds the entries of one name up. *)
  Fixpoint pdot (t : plants) (c : list (string * tree)) : K :=
    match c with [] => k0 | (n, w) :: c' => kadd (match dget t n with Some v => tdot v w | None => k0 end) (pdot t c') end.
  Definition PlantS : space := Sp plants (list (string * tree)) pdot.
  (** cotangent w of the slice i of a stacked value (no entry: zero; [Stk []]: zero, whatever the value) *)
  Definition at_slice (i : nat) (w : tree) : tree := Stk (repeat (Stk []) i ++ [w]).
  (** transposing [scan_plants] *)
  Definition unslice (M : meta) (i : nat) (e : string * tree) : list (string * tree) :=
    match dget M (fst e) with
    | Some (m, _) => if is_append m then [(fst e, at_slice i (snd e))] else if clobberish m then [e] else []
    | None => []
    end.
  Fixpoint unslices (M : meta) (i : nat) (us : list (list (string * tree))) : list (string * tree) :=
    match us with [] => [] | u :: us' => flat_map (unslice M i) u ++ unslices M (S i) us' end.
  (** plant_function, harvest.py:1264-1272, under jax.vjp: [plantD] (GradHarvestModel.v, same cited lines) with the transposed
      plumbing.  A planted value takes the cotangent of the value it replaces, which gets zero.  Simplification: functions with
      custom_vjp rules are not modelled here (TypeErr). *)
  Fixpoint plantV (s : settings) {X Y} (p : vprog X Y) : list (string * skel) -> list string -> res (list string * vprog (Prod X PlantS) Y) :=
    match p in vprog X Y return list (string * skel) -> list string -> res (list string * vprog (Prod X PlantS) Y) with
    | @RevPure _ _ X Y f df ft => fun sk dn => inl (dn, RevPure (X := Prod X PlantS) (fun x => f (fst x)) (fun x dx => df (fst x) (fst dx))
        (fun x c => rb (ft (fst x) c) (fun g => inl (g, []))))
    | @RevSeq _ _ X Y Z p q => fun sk dn => rb (plantV s p sk dn) (fun r => rb (plantV s q sk (fst r)) (fun r' =>
        inl (fst r', RevSeq (VMove (X := Prod X PlantS) (Y := Prod (Prod X PlantS) PlantS) (fun x => ((fst x, snd x), snd x)) (fun c => inl (fst (fst c), snd (fst c) ++ snd c)))
                       (RevSeq (RevFirst PlantS (snd r)) (snd r')))))
    | @RevFirst _ _ X Y C p => fun sk dn => rb (plantV s p sk dn) (fun r => inl (fst r,
        RevSeq (VMove (X := Prod (Prod X C) PlantS) (Y := Prod (Prod X PlantS) C) swap (fun c => inl (swap c))) (RevFirst C (snd r))))
    | RevSow t n m av => fun sk dn => if is_cond m then inr ValueErr else
        let drop_plants := VMove (X := Prod TreeS PlantS) (Y := TreeS) fst (fun c => inl (c, [])) in
        let checked := RevPure (X := Prod TreeS PlantS) (Y := TreeS) (fun x => chk av (fst x)) (fun _ dx => inl (fst dx)) (fun _ c => inl (c, [])) in
        if String.eqb t (tag_of s) then
          if passes s n then
            if mem n dn then inr ValueErr                                                  (* 1188-1199 *)
            else if haskey sk n then
              inl (if clobberish m then dn else n :: dn,
                   RevPure (X := Prod TreeS PlantS) (Y := TreeS) (fun x => rb (chk av (fst x)) (fun _ => planted av (snd x) n)) (fun _ dx => planted av (snd dx) n)
                     (fun _ c => inl (zeros av, [(n, c)])))
            else inl (dn, RevSeq drop_plants (RevSow t n m av))
          else inl (dn, checked)
        else if exclusive s then inl (dn, checked)
        else inl (dn, RevSeq drop_plants (RevSow t n m av))
    | @RevNest _ _ X Y sc p => fun sk dn =>                                                    (* 1201-1225 *)
        rb (sub_skel (quiet s (primal (toD p))) sk sc) (fun sk' => rb (plantV s p sk' []) (fun r =>
          inl (dn, RevSeq (VMove (X := Prod X PlantS) (Y := Prod X PlantS) (fun x => (fst x, sub_plants sk (snd x) sc))
                             (fun c => inl (fst c, match dget sk sc with Some (SDict _) => map (fun e => (sc, Dict [e])) (snd c) | _ => [] end)))
                     (RevNest sc (snd r)))))
    | @RevCall _ _ X Y p => fun sk dn => rb (plantV s p sk []) (fun r => inl (dn, RevCall (snd r)))
    | @RevScan _ _ C X Y rv len p => fun sk dn =>                                              (* 1330-1407 *)
        rb (reapT s (primal (toD p)) []) (fun rm =>
          let Mb := fst rm in
          if existsb (fun e => is_strict (fst (snd e))) Mb then inr ValueErr
          else rb (plantV s p (scan_skel Mb sk) []) (fun r =>
            let split := fun x : (car C * list (car X)) * plants => if Nat.eqb (List.length (snd (fst x))) len then
                            rb (scan_plants Mb len (snd x)) (fun ps => inl (fst (fst x), combine (snd (fst x)) ps)) else inr TypeErr in
            inl (dn, RevSeq (RevPure (X := Prod (Prod C (ListS X)) PlantS) (Y := Prod C (ListS (Prod X PlantS))) split (fun _ dx => split dx)
                               (fun _ c => if Nat.eqb (List.length (snd c)) len then inl ((fst c, map fst (snd c)), unslices Mb 0 (map snd (snd c))) else inr TypeErr))
                       (RevScan rv len (RevSeq (VMove (X := Prod C (Prod X PlantS)) (Y := Prod (Prod C X) PlantS) (fun x => ((fst x, fst (snd x)), snd (snd x)))
                                                  (fun c => inl (fst (fst c), (snd (fst c), snd c)))) (snd r))))))
    | @RevCond _ _ X Y p q => fun sk dn =>                                                     (* 1457-1495 *)
        rb (reapT s (primal (toD p)) []) (fun m0 => rb (reapT s (primal (toD q)) []) (fun m1 => rb (check_branches (fst m0) (fst m1)) (fun _ =>
          rb (plantV s p sk []) (fun r => rb (plantV s q sk []) (fun r' =>
            inl (dn, RevSeq (VMove (X := Prod (Prod BoolS X) PlantS) (Y := Prod BoolS (Prod X PlantS)) (fun x => (fst (fst x), (snd (fst x), snd x))) (fun c => inl ((fst c, fst (snd c)), snd (snd c))))
                       (RevCond (snd r) (snd r'))))))))
    | RevCustom _ _ _ => fun _ _ => inr TypeErr
    end.
  Definition plant_V (s : settings) {X Y} (p : vprog X Y) (pd : plants) : res (vprog (Prod X PlantS) Y) :=
    rb (plantV s p (skels_of pd) []) (fun r => inl (snd r)).
  (** harvest, harvest.py:1585-1595 *)
  Definition harvestV (s : settings) {X Y} (p : vprog X Y) (pd : plants) : res (vprog (Prod X PlantS) (Prod Y ReapS)) :=
    rb (plant_V s p pd) (call_and_reapV s).

  (** ** plantV is plantD with transposes *)
  Lemma plantV_toD s {X Y} (p : vprog X Y) : rule_free p -> forall sk dn,
    plantD s (toD p) sk dn = rb (plantV s p sk dn) (fun r => inl (fst r, toD (snd r) : dprog (car X * plants) (car Y))).
  Proof.
    induction p as [X Y f df ft|X Y Z p IHp q IHq|X Y C p IHp|t n m av|X Y sc p IHp|X Y p IHp|X Y p IHp q IHq|C X Y rv len p IHp|X Y R fwd bwd]; cbn [rule_free]; intros H sk dn; cbn [toD plantD plantV].
    - reflexivity.
    - destruct H as [H1 H2]. rewrite (IHp H1). destruct (plantV s p sk dn) as [r|]; cbn [rb]; [|reflexivity]. cbn [fst snd]. rewrite (IHq H2). destruct (plantV s q sk (fst r)) as [r2|]; reflexivity.
    - rewrite (IHp H). destruct (plantV s p sk dn) as [r|]; reflexivity.
    - destruct (is_cond m); [reflexivity|]. destruct (String.eqb t (tag_of s)); [destruct (passes s n); [destruct (mem n dn); [reflexivity|destruct (haskey sk n); reflexivity]|reflexivity]|destruct (exclusive s); reflexivity].
    - destruct (sub_skel _ sk sc) as [sk'|]; cbn [rb]; [|reflexivity]. rewrite (IHp H). destruct (plantV s p sk' []) as [r|]; reflexivity.
    - rewrite (IHp H). destruct (plantV s p sk []) as [r|]; reflexivity.
    - destruct H as [H1 H2]. destruct (reapT s (primal (toD p)) []) as [m0|]; cbn [rb]; [|reflexivity]. destruct (reapT s (primal (toD q)) []) as [m1|]; cbn [rb]; [|reflexivity].
      destruct (check_branches (fst m0) (fst m1)); cbn [rb]; [|reflexivity]. rewrite (IHp H1). destruct (plantV s p sk []) as [r|]; cbn [rb]; [|reflexivity]. cbn [fst snd]. rewrite (IHq H2). destruct (plantV s q sk []) as [r'|]; reflexivity.
    - destruct (reapT s (primal (toD p)) []) as [rm|e] eqn:E.
      + set (rm' := reapT s (primal (toD p : dprog (car C * car X) (car C * car Y))) []). assert (E' : rm' = inl rm) by exact E. rewrite E'. cbn [rb]. cbv zeta. destruct (existsb _ _); [reflexivity|]. 
        pose proof (IHp H (scan_skel (fst rm) sk) []) as K. destruct (plantV s p (scan_skel (fst rm) sk) []) as [r|]; cbn [rb] in K.
        * exact (f_equal (fun z => rb z _) K).
        * exact (f_equal (fun z => rb z _) K).
      + set (rm' := reapT s (primal (toD p : dprog (car C * car X) (car C * car Y))) []). assert (E' : rm' = inr e) by exact E. rewrite E'. reflexivity.
    - contradiction.
  Qed.
  Theorem C80_plant_is_plant s {X Y} (f : vprog X Y) pd : rule_free f -> plant_D s (toD f) pd = rb (plant_V s f pd) (fun q => inl (toD q)).
  Proof. intros H. unfold plant_D, plant_V. rewrite (plantV_toD s f H). destruct (plantV s f (skels_of pd) []); reflexivity. Qed.

  Lemma plantV_rule_free s {X Y} (p : vprog X Y) : rule_free p -> forall sk dn r, plantV s p sk dn = inl r -> rule_free (snd r).
  Proof.
    induction p as [X Y f df ft|X Y Z p IHp q IHq|X Y C p IHp|t n m av|X Y sc p IHp|X Y p IHp|X Y p IHp q IHq|C X Y rv len p IHp|X Y R fwd bwd]; cbn [rule_free]; intros HF sk dn r H; cbn [plantV] in H.
    - injection H as <-. exact I.
    - destruct HF as [F1 F2]. apply rb_inl in H as (r1 & H1 & H). apply rb_inl in H as (r2 & H2 & H). injection H as <-. split; [exact I|]. split; [exact (IHp F1 _ _ _ H1)|exact (IHq F2 _ _ _ H2)].
    - apply rb_inl in H as (r1 & H1 & H). injection H as <-. split; [exact I|exact (IHp HF _ _ _ H1)].
    - destruct (is_cond m); [discriminate|]. destruct (String.eqb t (tag_of s)); [destruct (passes s n); [destruct (mem n dn); [discriminate|]; destruct (haskey sk n)|]|destruct (exclusive s)]; injection H as <-; cbn; auto.
    - apply rb_inl in H as (sk' & H1 & H). apply rb_inl in H as (r1 & H2 & H). injection H as <-. split; [exact I|exact (IHp HF _ _ _ H2)].
    - apply rb_inl in H as (r1 & H1 & H). injection H as <-. exact (IHp HF _ _ _ H1).
    - destruct HF as [F1 F2]. apply rb_inl in H as (m0 & _ & H). apply rb_inl in H as (m1 & _ & H). apply rb_inl in H as (u & _ & H). apply rb_inl in H as (r1 & H1 & H). apply rb_inl in H as (r2 & H2 & H). injection H as <-. split; [exact I|]. split; [exact (IHp F1 _ _ _ H1)|exact (IHq F2 _ _ _ H2)].
    - apply rb_inl in H as (rm & _ & H). cbv zeta in H. destruct (existsb _ _); [discriminate|]. apply rb_inl in H as (r1 & H1 & H). injection H as <-. split; [exact I|]. split; [exact I|exact (IHp HF _ _ _ H1)].
    - contradiction.
  Qed.
  Theorem C80_harvest_is_harvest s {X Y} (f : vprog X Y) pd : rule_free f -> harvestD s (toD f) pd = rb (harvestV s f pd) (fun q => inl (toD q)).
  Proof.
    intros H. unfold harvestD, harvestV. rewrite (C80_plant_is_plant s f pd H). destruct (plant_V s f pd) as [q|] eqn:E; [|reflexivity]. cbn [rb]. apply (C80_reap_is_reap s q). unfold plant_V in E. apply rb_inl in E as (r & E & E2). injection E2 as <-. exact (plantV_rule_free s f H _ _ _ E).
  Qed.

  (** ** every step of plant(f) has been given its transpose *)
  Lemma pdot_app t a : forall b, pdot t (a ++ b) = kadd (pdot t a) (pdot t b).
  Proof. induction a as [|[n w] a IH]; intros b; cbn [app pdot]; [symmetry; apply kadd_0|]. rewrite IH, kadd_assoc. reflexivity. Qed.
  Fixpoint tdot_zeros_r (a : aval) : forall v, tdot v (zeros a) = k0.
  Proof.
    destruct a as [x|l|n a]; intros v.
    - destruct v as [v|l|l]; cbn [zeros tdot]; [apply dotV_0r|reflexivity|reflexivity].
    - destruct v as [v|m|m]; cbn [zeros]; [reflexivity| |reflexivity]. rewrite tdot_dict.
      assert (G : forall k w, dget (map (fun ka => (fst ka, zeros (snd ka))) l) k = Some w -> exists a, w = zeros a /\ forall v, tdot v w = k0).
      { intros k. induction l as [|[j a] l IH]; intros w E; [discriminate|]. cbn [map dget fst snd] in E. destruct (String.eqb k j) eqn:Ek; [injection E as <-; exists a; split; [reflexivity|apply tdot_zeros_r]|exact (IH w E)]. }
      revert G. generalize (map (fun ka => (fst ka, zeros (snd ka))) l). induction m as [|[j u] m IH]; intros d G; [reflexivity|]. rewrite ldot_cons, IH.
      + rewrite kadd_0r. unfold at_name. destruct (dget d j) eqn:Ed; [destruct (G _ _ Ed) as (_ & _ & K0); apply K0|reflexivity].
      + intros k w E. rewrite dget_without in E. destruct (String.eqb j k); [discriminate|exact (G k w E)].
    - destruct v as [v|m|m]; cbn [zeros tdot]; [reflexivity|reflexivity|]. revert n. induction m as [|u m IH]; intros [|n]; cbn [repeat]; try reflexivity. rewrite IH, kadd_0r. apply tdot_zeros_r.
  Qed.
  Lemma tdot_nothing v : tdot v (Stk []) = k0.
  Proof. destruct v as [v|l|[|u l]]; reflexivity. Qed.
  Lemma tdot_at_slice i w : forall l, tdot (Stk l) (at_slice i w) = match nth_error l i with Some v => tdot v w | None => k0 end.
  Proof.
    unfold at_slice. cbn [tdot]. induction i as [|i IH]; intros [|v l]; cbn [repeat app nth_error]; try reflexivity.
    - replace (_ l (@nil tree)) with k0 by (destruct l; reflexivity). apply kadd_0r.
    - rewrite (IH l), tdot_nothing. apply kadd_0.
  Qed.
  Lemma pdot_scope t sc c : pdot t (map (fun e => (sc, Dict [e])) c) = pdot (match dget t sc with Some (Dict l) => l | _ => [] end) c.
  Proof.
    induction c as [|[n w] c IH]; cbn [map pdot]; [reflexivity|]. rewrite IH. f_equal. destruct (dget t sc) as [[v|l|l]|]; try reflexivity.
    rewrite tdot_dict. clear IH. induction l as [|[j v] l IHl]; [reflexivity|]. rewrite ldot_cons. cbn [dget]. unfold at_name. cbn [dget].
    rewrite (String.eqb_sym n j). destruct (String.eqb j n) eqn:E.
    - apply String.eqb_eq in E. subst j. unfold without. cbn [filter fst]. rewrite String.eqb_refl. cbn [negb]. rewrite ldot_nil. apply kadd_0r.
    - unfold without. cbn [filter fst]. rewrite E. cbn [negb]. rewrite kadd_0. exact IHl.
  Qed.
  Lemma slices_spec len pd : forall ps, slices len pd = inl ps -> List.length ps = len /\
    forall i p n, nth_error ps i = Some p -> dget p n = match dget pd n with Some (Stk l) => nth_error l i | _ => None end.
  Proof.
    induction pd as [|[k v] pd IH]; intros ps H; cbn [slices] in H.
    - injection H as <-. split; [apply repeat_length|]. intros i p n Hp. apply nth_error_In, repeat_spec in Hp. subst p. reflexivity.
    - destruct v as [v|v|l]; try discriminate. destruct (Nat.eqb (List.length l) len) eqn:El; [|discriminate]. apply Nat.eqb_eq in El. apply rb_inl in H as (ps0 & H & E). injection E as <-. destruct (IH _ H) as [L G]. split; [rewrite map_length, combine_length; lia|].
      clear IH H. assert (L0 : List.length l = List.length ps0) by lia. clear L El. intros i p n Hp.
      assert (K : exists v p0, nth_error l i = Some v /\ nth_error ps0 i = Some p0 /\ p = (k, v) :: p0).
      { clear G. revert ps0 i L0 Hp. induction l as [|v l IH]; intros [|p0 ps0] [|i] L0 Hp; try discriminate; cbn [combine map nth_error fst snd] in Hp.
        - injection Hp as <-. exists v, p0. auto.
        - injection L0 as L0. exact (IH _ _ L0 Hp). }
      destruct K as (v & p0 & K1 & K2 & ->). cbn [dget]. destruct (String.eqb n k); [symmetry; exact K1|exact (G i p0 n K2)].
  Qed.
  Lemma scan_plants_spec M len pd ps : scan_plants M len pd = inl ps -> List.length ps = len /\
    forall i p, nth_error ps i = Some p -> forall e, pdot p [e] = pdot pd (unslice M i e).
  Proof.
    unfold scan_plants. intros H. apply rb_inl in H as (ps0 & H & E). injection E as <-. destruct (slices_spec _ _ _ H) as [L G]. split; [rewrite map_length; exact L|].
    intros i p Hp [n w]. rewrite nth_error_map in Hp. destruct (nth_error ps0 i) as [p0|] eqn:E0; [|discriminate]. injection Hp as <-. cbn [pdot]. rewrite kadd_0r, dget_app_l, (G _ _ n E0). unfold unslice, app_plants, clob_plants. cbn [fst snd].
    rewrite (dget_filter (fun k => match dget M k with Some (m, _) => is_append m | None => false end)), (dget_filter (fun k => match dget M k with Some (m, _) => clobberish m | None => false end)).
    destruct (dget M n) as [[m av]|]; [|reflexivity]. destruct (is_append m) eqn:Ea.
    - assert (Ec : clobberish m = false) by (destruct m; try discriminate; reflexivity). rewrite Ec. cbn [pdot]. rewrite kadd_0r. destruct (dget pd n) as [[v|v|l]|]; try reflexivity. rewrite tdot_at_slice. destruct (nth_error l i); reflexivity.
    - destruct (clobberish m); [|reflexivity]. cbn [pdot]. rewrite kadd_0r. reflexivity.
  Qed.
  Lemma pdot_unslices M pd ps : forall us k, (forall i p, nth_error ps i = Some p -> forall e, pdot p [e] = pdot pd (unslice M (k + i) e)) -> List.length ps = List.length us ->
    pairings PlantS ps us = pdot pd (unslices M k us).
  Proof.
    induction ps as [|p ps IH]; intros [|u us] k H L; try discriminate; [reflexivity|]. injection L as L. cbn [pairings unslices pairing PlantS]. rewrite pdot_app. f_equal.
    - pose proof (H 0 p eq_refl) as G. rewrite Nat.add_0_r in G. clear -G. induction u as [|e u IH]; [reflexivity|]. cbn [flat_map]. rewrite pdot_app, <- IH, <- G. destruct e as [n w]. cbn [pdot]. rewrite kadd_0r. reflexivity.
    - apply IH; [|exact L]. intros i q Hq e. rewrite (H (S i) q Hq e). f_equal. f_equal. lia.
  Qed.
  Lemma plantV_sound s {X Y} (p : vprog X Y) : sound p -> forall sk dn r, plantV s p sk dn = inl r -> sound (snd r).
  Proof.
    induction p as [X Y f df ft|X Y Z p IHp q IHq|X Y C p IHp|t n m av|X Y sc p IHp|X Y p IHp|X Y p IHp q IHq|C X Y rv len p IHp|X Y R fwd bwd]; cbn [sound]; intros HS sk dn r H; cbn [plantV] in H.
    - injection H as <-. cbn [snd sound]. intros x dx ct y dy g _ E1 E2 E3. apply rb_inl in E3 as (g0 & E3 & E). injection E as <-. split; [exact I|]. destruct (HS (fst x) (fst dx) ct y dy g0 I E1 E2 E3) as [_ G]. cbn [pairing Prod PlantS fst snd pdot]. rewrite kadd_0r. exact G.
    - apply rb_inl in H as (r1 & H1 & H). apply rb_inl in H as (r2 & H2 & H). injection H as <-. destruct HS as [S1 S2]. cbn [snd sound VMove]. split; [|split; [exact (IHp S1 _ _ _ H1)|exact (IHq S2 _ _ _ H2)]].
      intros x dx ct y dy g _ E1 E2 E3. injection E2 as <-. injection E3 as <-. split; [exact I|]. cbn [pairing Prod PlantS fst snd]. rewrite pdot_app, kadd_assoc. reflexivity.
    - apply rb_inl in H as (r1 & H1 & H). injection H as <-. cbn [snd sound VMove]. split; [|exact (IHp HS _ _ _ H1)].
      intros x dx ct y dy g _ E1 E2 E3. injection E2 as <-. injection E3 as <-. split; [exact I|]. cbn [pairing Prod PlantS fst snd swap]. rewrite <- !kadd_assoc. f_equal. apply kadd_comm.
    - destruct (is_cond m); [discriminate|].
      assert (G1 : sound (VMove (X := Prod TreeS PlantS) (Y := TreeS) fst (fun c => inl (c, [])))).
      { intros x dx ct y dy g _ E1 E2 E3. injection E2 as <-. injection E3 as <-. split; [exact I|]. cbn [pairing Prod PlantS fst snd pdot]. rewrite kadd_0r. reflexivity. }
      assert (G2 : sound (RevPure (X := Prod TreeS PlantS) (Y := TreeS) (fun x => chk av (fst x)) (fun _ dx => inl (fst dx)) (fun _ c => inl (c, [])))).
      { intros x dx ct y dy g _ E1 E2 E3. injection E2 as <-. injection E3 as <-. split; [exact I|]. cbn [pairing Prod PlantS fst snd pdot]. rewrite kadd_0r. reflexivity. }
      destruct (String.eqb t (tag_of s)).
      + destruct (passes s n); [|injection H as <-; exact G2]. destruct (mem n dn); [discriminate|]. destruct (haskey sk n); injection H as <-; [|split; [exact G1|exact I]].
        cbn [snd sound]. intros x dx ct y dy g _ E1 E2 E3. injection E3 as <-. split; [exact I|]. cbn [pairing Prod PlantS TreeS fst snd pdot]. rewrite tdot_zeros_r, kadd_0, kadd_0r. cbn [car co Prod TreeS PlantS] in *. revert E2. unfold planted. destruct (dget (snd dx) n) as [v|]; [|intros E2; discriminate E2].
        unfold chk. destruct (has_aval v av); intros E2; [|discriminate E2]. injection E2 as <-. reflexivity.
      + destruct (exclusive s); injection H as <-; [exact G2|split; [exact G1|exact I]].
    - apply rb_inl in H as (sk' & H1 & H). apply rb_inl in H as (r1 & H2 & H). injection H as <-. cbn [snd sound VMove]. split; [|exact (IHp HS _ _ _ H2)].
      intros x dx ct y dy g _ E1 E2 E3. injection E2 as <-. injection E3 as <-. split; [exact I|]. cbn [pairing Prod PlantS fst snd]. f_equal. unfold sub_plants. destruct (dget sk sc) as [[|l]|].
      + clear. destruct ct as [c1 c2]. cbn [snd]. induction c2 as [|[n w] c2 IH]; [reflexivity|]. cbn [pdot dget] in *. rewrite IH. apply kadd_0.
      + rewrite pdot_scope. reflexivity.
      + clear. destruct ct as [c1 c2]. cbn [snd]. induction c2 as [|[n w] c2 IH]; [reflexivity|]. cbn [pdot dget] in *. rewrite IH. apply kadd_0.
    - apply rb_inl in H as (r1 & H1 & H). injection H as <-. cbn [snd sound]. exact (IHp HS _ _ _ H1).
    - destruct HS as [S1 S2]. apply rb_inl in H as (m0 & _ & H). apply rb_inl in H as (m1 & _ & H). apply rb_inl in H as (u & _ & H). apply rb_inl in H as (r1 & H1 & H). apply rb_inl in H as (r2 & H2 & H). injection H as <-. cbn [snd sound VMove].
      split; [|split; [exact (IHp S1 _ _ _ H1)|exact (IHq S2 _ _ _ H2)]]. intros x dx ct y dy g _ E1 E2 E3. injection E2 as <-. injection E3 as <-. split; [exact I|]. cbn [pairing Prod PlantS BoolS fst snd]. rewrite !kadd_0. reflexivity.
    - apply rb_inl in H as (rm & _ & H). cbv zeta in H. destruct (existsb _ _); [discriminate|]. apply rb_inl in H as (r1 & H1 & H). injection H as <-. cbn [snd sound VMove]. split; [|split; [|exact (IHp HS _ _ _ H1)]].
      + intros x dx ct y dy g _ E1 E2 E3. cbn [car co Prod ListS PlantS] in *. destruct (Nat.eqb (List.length (snd ct)) len) eqn:Lc; [|discriminate]. injection E3 as <-. destruct (Nat.eqb (List.length (snd (fst dx))) len) eqn:Lx; [|discriminate].
        apply Nat.eqb_eq in Lc, Lx. apply rb_inl in E2 as (ps & E2 & E). injection E as <-. destruct (scan_plants_spec _ _ _ _ E2) as [Lp G]. split; [exact I|]. cbn [pairing Prod ListS PlantS fst snd].
        assert (K0 : pairings (Prod X PlantS) (combine (snd (fst dx)) ps) (snd ct) = kadd (pairings X (snd (fst dx)) (map fst (snd ct))) (pairings PlantS ps (map snd (snd ct)))).
        { clear -Lc Lx Lp. destruct dx as [[dc l] d], ct as [cc c]. cbn [fst snd] in *. assert (L1 : List.length l = List.length ps) by lia. assert (L2 : List.length l = List.length c) by lia. clear -L1 L2. revert ps c L1 L2.
          induction l as [|v l IH]; intros [|p ps] [|[c1 c2] c] L1 L2; try discriminate; [symmetry; apply kadd_0|]. injection L1 as L1. injection L2 as L2. cbn [combine pairings map pairing Prod fst snd]. rewrite (IH _ _ L1 L2), <- !kadd_assoc. f_equal. apply kadd_swap. }
        assert (K1 : pairings PlantS ps (map snd (snd ct)) = pdot (snd dx) (unslices (fst rm) 0 (map snd (snd ct)))).
        { apply pdot_unslices; [exact G|]. rewrite Lp. symmetry. exact (eq_trans (map_length _ _) Lc). }
        refine (eq_trans (f_equal (kadd (pairing C (fst (fst dx)) (fst ct))) K0) _). refine (eq_trans (f_equal (fun z => kadd (pairing C (fst (fst dx)) (fst ct)) (kadd (pairings X (snd (fst dx)) (map fst (snd ct))) z)) K1) _). exact (kadd_assoc _ _ _).
      + intros x dx ct y dy g _ E1 E2 E3. injection E2 as <-. injection E3 as <-. split; [exact I|]. cbn [pairing Prod PlantS fst snd]. rewrite !kadd_assoc. reflexivity.
    - discriminate.
  Qed.
  (** jax.vjp(plant(f))(plants, x): the cotangents of the argument and of the planted values add up to that of the output *)
  Theorem C80_plant_transpose s fuel {X Y} (f : vprog X Y) pd0 q : sound f -> plant_V s f pd0 = inl q -> forall x pd dx dpd ct y dy y' g gp,
    run fuel (jvpT (toD q)) ((x, pd), (dx, dpd)) = inl (y, dy) -> run fuel (vjpV q) ((x, pd), ct) = inl (y', (g, gp)) ->
    y' = y /\ pairing Y dy ct = kadd (pairing X dx g) (pdot dpd gp).
  Proof.
    intros S H x pd dx dpd ct y dy y' g gp H1 H2. unfold plant_V in H. apply rb_inl in H as (r & H & E). injection E as <-. exact (C80_transpose fuel (snd r) (plantV_sound s f S _ _ _ H) (x, pd) (dx, dpd) ct y dy y' (g, gp) H1 H2).
  Qed.
  (** jax.vjp(harvest(f))(plants, x) *)
  Theorem C80_harvest_transpose s fuel {X Y} (f : vprog X Y) pd0 q : sound f -> harvestV s f pd0 = inl q -> forall x pd dx dpd ct cd y dy d dd y' d' g gp,
    run fuel (jvpT (toD q)) ((x, pd), (dx, dpd)) = inl ((y, d), (dy, dd)) -> run fuel (vjpV q) ((x, pd), (ct, cd)) = inl ((y', d'), (g, gp)) ->
    y' = y /\ d' = d /\ kadd (pairing Y dy ct) (ldot dd cd) = kadd (pairing X dx g) (pdot dpd gp).
  Proof.
    intros S H x pd dx dpd ct cd y dy d dd y' d' g gp H1 H2. unfold harvestV, plant_V in H. apply rb_inl in H as (r & H & Hq). apply rb_inl in H as (r0 & H & E). injection E as <-.
    exact (C80_reap_transpose s fuel (snd r0) q (plantV_sound s f S _ _ _ H) Hq (x, pd) (dx, dpd) ct cd y dy d dd y' d' (g, gp) H1 H2).
  Qed.
  (** jax.vjp(lambda x: plant(f)(plants, x)): with fixed plants the gradient in x is that of f with the plants as constants *)
  Definition still (pd : plants) : plants := map (fun e => (fst e, zeros_like (snd e))) pd.
  Lemma tdot_zeros_like t : forall c, tdot (zeros_like t) c = k0.
  Proof.
    induction t as [v|l IH|l IH] using tree_ind'; intros c.
    - destruct c as [c|m|m]; cbn [zeros_like tdot]; [apply dotV_0|reflexivity|reflexivity].
    - destruct c as [c|m|m]; cbn [zeros_like]; [reflexivity| |reflexivity]. rewrite tdot_dict. revert m. induction IH as [|[k v] l Hv IH IHl]; intros m; cbn [map fst snd]; [reflexivity|]. rewrite ldot_cons, IHl, kadd_0r. unfold at_name. destruct (dget m k); [apply Hv|reflexivity].
    - destruct c as [c|m|m]; cbn [zeros_like tdot]; [reflexivity|reflexivity|]. revert m. induction IH as [|v l Hv IH IHl]; intros [|w m]; cbn [map]; try reflexivity. rewrite IHl, kadd_0r. apply Hv.
  Qed.
  Lemma pdot_still pd c : pdot (still pd) c = k0.
  Proof.
    induction c as [|[n w] c IH]; cbn [pdot]; [reflexivity|]. rewrite IH, kadd_0r. clear IH. unfold still. induction pd as [|[k v] pd IHp]; cbn [map dget fst snd]; [reflexivity|]. destruct (String.eqb n k); [apply tdot_zeros_like|exact IHp].
  Qed.
  Theorem C80_plant_fixed s fuel {X Y} (f : vprog X Y) pd0 q : sound f -> plant_V s f pd0 = inl q -> forall x pd dx ct y dy y' g gp,
    run fuel (jvpT (toD q)) ((x, pd), (dx, still pd)) = inl (y, dy) -> run fuel (vjpV q) ((x, pd), ct) = inl (y', (g, gp)) ->
    y' = y /\ pairing Y dy ct = pairing X dx g.
  Proof.
    intros S H x pd dx ct y dy y' g gp H1 H2. destruct (C80_plant_transpose s fuel f pd0 q S H x pd dx (still pd) ct y dy y' g gp H1 H2) as [A B]. split; [exact A|]. rewrite B, pdot_still. apply kadd_0r.
  Qed.
End plant.

Section real.
  #[local] Existing Instance RealArrays.
  Notation plants := (list (string * tree)).
  (** gradients of plant(f) are derivatives: along every curve (c, cp) through the arguments and the plants, with velocities dx
      and dpd, the velocity dy of plant(f)'s output satisfies <dy, ct> = <dx, gradient> + <dpd, gradient in the plants> *)
  Theorem C80_plant_gradient s D fuel {X Y} (f : vprog X Y) P Q pd q h : sound f -> rule_free f -> smooth (planted_in s D) (toD f) P Q ->
    plant_V s f pd = inl q -> plant s (primal (toD f)) pd = inl h ->
    forall c x dx cp dpd ct y dy y' g gp, P c x dx -> tan_plants D cp pd dpd ->
    run fuel (jvpT (toD q)) ((x, pd), (dx, dpd)) = inl (y, dy) -> run fuel (vjpV q) ((x, pd), ct) = inl (y', (g, gp)) ->
    y' = y /\ run fuel h (x, pd) = inl y /\
    (exists cy, near (fun t => run fuel h (c t, cp t) = inl (cy t)) /\ Q cy y dy) /\
    (Rpairing Y dy ct = Rpairing X dx g + pdot (CT := RCotangents) dpd gp)%R.
  Proof.
    intros S F M Hq Hh c x dx cp dpd ct y dy y' g gp Hc Hp H1 H2. destruct (C80_plant_transpose s fuel f pd q S Hq x pd dx dpd ct y dy y' g gp H1 H2) as [E G].
    pose proof (C80_plant_is_plant s f pd F) as K. rewrite Hq in K. cbn [rb] in K. destruct (C75_plant s D fuel (toD f) P Q pd h (toD q) M Hh K c x dx cp dpd y dy Hc Hp H1) as (A & _ & B). auto.
  Qed.
  (** ... and those of harvest(f), whose results are the outputs and the reaped values *)
  Theorem C80_harvest_gradient s D fuel {X Y} (f : vprog X Y) P Q pd q h : sound f -> rule_free f -> smooth (planted_in s D) (toD f) P Q ->
    harvestV s f pd = inl q -> harvest s (primal (toD f)) pd = inl h ->
    forall c x dx cp dpd ct cd y dy d dd y' d' g gp, P c x dx -> tan_plants D cp pd dpd ->
    run fuel (jvpT (toD q)) ((x, pd), (dx, dpd)) = inl ((y, d), (dy, dd)) -> run fuel (vjpV q) ((x, pd), (ct, cd)) = inl ((y', d'), (g, gp)) ->
    y' = y /\ d' = d /\ run fuel h (x, pd) = inl (y, d) /\
    (exists cy cdict, near (fun t => run fuel h (c t, cp t) = inl (cy t, cdict t)) /\ Q cy y dy /\ tan_named cdict d dd) /\
    (Rpairing Y dy ct + ldot (CT := RCotangents) dd cd = Rpairing X dx g + pdot (CT := RCotangents) dpd gp)%R.
  Proof.
    intros S F M Hq Hh c x dx cp dpd ct cd y dy d dd y' d' g gp Hc Hp H1 H2. pose proof (C80_harvest_is_harvest s f pd F) as K. rewrite Hq in K. cbn [rb] in K. destruct (C80_harvest_transpose s fuel f pd q S Hq x pd dx dpd ct cd y dy d dd y' d' g gp H1 H2) as (E1 & E2 & G).
    destruct (C75_harvest s D fuel (toD f) P Q pd h (toD q) M Hh K c x dx cp dpd y dy d dd Hc Hp H1) as (A & _ & B). auto.
  Qed.
  (** x^2 is replaced by a planted h, whose square is replaced in the scope "f" by a planted k: the output does not depend on x
      and h any more; with only h planted, the gradient in h is that of h^2 *)
  Theorem C80_plant_example x h k c : (forall s D, smooth (planted_in s D) (toD rgrad) tan_tree tan_tree) /\
    (exists q, plant_V (every "t") rgrad [("h", rleaf h)] = inl q /\
      run 0 (vjpV q) ((rleaf x, [("h", rleaf h)]), rleaf c) = inl (rleaf (h * h)%R, (rleaf (2 * x * 0)%R, [("h", rleaf (2 * h * c)%R)]))) /\
    (exists q, plant_V (every "t") rgrad [("f", Dict [("h", rleaf k)])] = inl q /\
      run 0 (vjpV q) ((rleaf x, [("f", Dict [("h", rleaf k)])]), rleaf c) = inl (rleaf k, (rleaf (2 * x * (2 * (x * x) * 0))%R, [("f", Dict [("h", rleaf c)])]))).
  Proof.
    split; [|split].
    - intros s D. exists tan_tree. split; [apply square_smooth|]. exists tan_tree. split; [apply (sow1_smooth s D "h" Strict)|]. exists tan_tree. split; [apply square_smooth|apply (sow1_smooth s D "h" Strict)].
    - eexists. split; reflexivity.
    - eexists. split; reflexivity.
  Qed.
End real.
#[local] Existing Instance ZArrays.
(** the scan of C80_scan_example with the carries a planted: the last iteration multiplies a[0] by x[0] *)
Theorem C80_plant_scan_example : 
  rb (plant_V (all "t") (vscan true) [("a", Stk [L 4; L 9])]) (fun q => run 10 (vjpV q) (((L 3, [L 2; L 5]), [("a", Stk [L 4; L 9])]), (L 1, [L 0; L 100]))) =
    inl ((L 8, [L 2; L 5]), ((L 0, [L 4; L 100]), [("a", Stk [L 2]); ("a", Stk [Stk []; L 0])])) /\
  rb (harvestV (all "t") (vscan true) [("a", Stk [L 4; L 9])]) (fun q => run 10 (vjpV q) (((L 3, [L 2; L 5]), [("a", Stk [L 4; L 9])]), ((L 1, [L 0; L 0]), [("z", L 6)]))) =
    inl (((L 8, [L 2; L 5]), [("z", L 8)]), ((L 0, [L 28; L 0]), [("a", Stk [L 14]); ("a", Stk [Stk []; L 0])])).
Proof. split; vm_compute; reflexivity. Qed.
Print Assumptions C80_plant_is_plant. Print Assumptions C80_harvest_is_harvest. Print Assumptions C80_plant_transpose. Print Assumptions C80_harvest_transpose. Print Assumptions C80_plant_fixed.
Print Assumptions C80_plant_gradient. Print Assumptions C80_harvest_gradient. Print Assumptions C80_plant_example. Print Assumptions C80_plant_scan_example.
