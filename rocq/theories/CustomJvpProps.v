(** C78: reap and plant of functions with custom derivative rules. *)
From Verif Require Import CustomJvpProofs.
Open Scope string_scope. Open Scope list_scope. Open Scope nat_scope.

(** ** Specification *)
Section spec.
  Context {AR : Arrays}.
  (** the function with the bodies of its custom functions written in place *)
  Fixpoint inlined {A B} (p : cprog A B) : prog A B :=
    match p in cprog A B return prog A B with
    | CD p => primal p
    | CSeq p q => Seq (inlined p) (inlined q)
    | CFirst C p => First C (inlined p)
    | CNest sc p => Nest sc (inlined p)
    | CCall p => Call (inlined p)
    | CCustom p _ => p
    end.
End spec.

(** ** merging dictionaries *)
Lemma dset_twice {X} (b : list (string * X)) k v w : dset (dset b k w) k v = dset b k v.
Proof. induction b as [|[y u] b IH]; cbn; [rewrite String.eqb_refl; reflexivity|]. destruct (String.eqb_spec k y) as [->|Hn]; cbn; [rewrite String.eqb_refl; reflexivity|]. apply String.eqb_neq in Hn. rewrite Hn, IH. reflexivity. Qed.
Lemma dset_swap {X} (b : list (string * X)) j k u v : j <> k -> In k (dkeys b) -> dset (dset b j u) k v = dset (dset b k v) j u.
Proof.
  intros Hjk. induction b as [|[y w] b IH]; intros Hk; [destruct Hk|]. cbn. destruct (String.eqb_spec j y) as [->|Hj], (String.eqb_spec k y) as [->|Hk'].
  - contradiction.
  - cbn. apply String.eqb_neq in Hk'. rewrite Hk', String.eqb_refl. reflexivity.
  - cbn. apply String.eqb_neq in Hj. rewrite String.eqb_refl, Hj. reflexivity.
  - cbn. apply String.eqb_neq in Hj. pose proof Hk' as Hk2. apply String.eqb_neq in Hk2. rewrite Hj, Hk2. f_equal. apply IH. destruct Hk as [E|Hk]; [cbn in E; congruence|exact Hk].
Qed.
Lemma in_dset {X} (b : list (string * X)) k v n : In n (dkeys b) -> In n (dkeys (dset b k v)).
Proof. induction b as [|[y w] b IH]; intros H; [destruct H|]. cbn. destruct (String.eqb k y); cbn in *; [exact H|]. destruct H as [H|H]; auto. Qed.
Lemma in_dset_same {X} (b : list (string * X)) k v : In k (dkeys (dset b k v)).
Proof. induction b as [|[y w] b IH]; cbn; [auto|]. destruct (String.eqb_spec k y) as [->|]; cbn; auto. Qed.
Lemma dmerge_late {X} (b : list (string * X)) k v : ~ In k (dkeys b) -> forall a, In k (dkeys a) -> dmerge (dset a k v) b = dset (dmerge a b) k v.
Proof.
  unfold dmerge. induction b as [|[j u] b IH]; intros Hn a Ha; cbn [fold_left fst snd]; [reflexivity|]. cbn in Hn. rewrite <- IH; [|tauto|apply in_dset, Ha]. f_equal. symmetry. apply dset_swap; [|exact Ha]. intros ->. tauto.
Qed.
Lemma dmerge_dset {X} (b : list (string * X)) k v : NoDup (dkeys b) -> forall a, dmerge a (dset b k v) = dset (dmerge a b) k v.
Proof.
  unfold dmerge. induction b as [|[j u] b IH]; intros Hnd a; cbn [dset fold_left fst snd]; [reflexivity|]. inversion Hnd as [|? ? Hj Hb]; subst. destruct (String.eqb_spec k j) as [->|Hne].
  - cbn [fold_left fst snd]. rewrite <- (dset_twice a j v u). apply (dmerge_late b j v Hj). apply in_dset_same.
  - cbn [fold_left fst snd]. apply IH, Hb.
Qed.
Lemma dmerge_once {X} (l a : list (string * X)) : dmerge a (dmerge [] l) = dmerge a l.
Proof.
  induction l as [|[k v] l IH] using rev_ind; [reflexivity|]. rewrite !dmerge_app. change (dmerge (dmerge [] l) [(k, v)]) with (dset (dmerge [] l) k v). change (dmerge (dmerge a l) [(k, v)]) with (dset (dmerge a l) k v).
  rewrite dmerge_dset; [rewrite IH; reflexivity|]. apply NoDup_dkeys_dmerge. constructor.
Qed.

Section props.
  Context {AR : Arrays}.
  (** ** 1. differentiated and reaped *)
  (** reaping does not change what jvp computes, errors included *)
  Theorem C78_jvp_outputs s {A B} (f : cprog A B) q : jvp_reapC s f = inl q ->
    forall fuel x dx, match run fuel (jvpC f) (x, dx) with
                      | inl (y, dy) => exists d dd, run fuel q (x, dx) = inl ((y, d), (dy, dd))
                      | inr e => run fuel q (x, dx) = inr e
                      end.
  Proof.
    unfold jvp_reapC. intros H fuel x dx. apply rb_inl in H as (r & H & E). injection E as <-. destruct (jreap_rel s f [] r H) as ([M' p'] & H' & _ & K). specialize (K fuel x [] dx []). pose proof (run_reapT s fuel (jvpC f) _ _ _ H' (x, dx) []) as K'. unfold same_out in K'. cbn [run rb fst snd] in *.
    revert K. match goal with |- rel_res _ ?u ?v -> _ => destruct u as [[[y d] [dy dd]]|] eqn:Eu, v as [w|] eqn:Ev end; cbn [rel_res]; intros K; try contradiction; (destruct (run fuel (jvpC f) (x, dx)) as [[y' dy']|]; cbn [rel_res] in K'; try contradiction).
    - unfold flat in K. cbn [fst snd] in K. subst w. cbn [fst] in K'. injection K' as -> ->. exists (final d), (final dd). first [reflexivity|rewrite Eu; reflexivity].
    - first [rewrite Eu|idtac]; cbn [rb]; congruence.
  Qed.
  (** the primal results are those of reaping the function that jvp runs, in which rules have taken the place of functions *)
  Theorem C78_reaped_values s {A B} (f : cprog A B) q : jvp_reapC s f = inl q -> exists q', call_and_reap s (jvpC f) = inl q' /\
    forall fuel x dx y d dy dd, run fuel q (x, dx) = inl ((y, d), (dy, dd)) -> run fuel q' (x, dx) = inl ((y, dy), d).
  Proof.
    unfold jvp_reapC. intros H. apply rb_inl in H as (r & H & E). injection E as <-. destruct (jreap_rel s f [] r H) as (r' & H' & _ & K). unfold call_and_reap. rewrite H'. cbn [rb]. eexists. split; [reflexivity|]. intros fuel x dx y d dy dd R. specialize (K fuel x [] dx []). cbn [run rb fst snd] in *.
    apply rb_inl in R as ([[y1 d1] [dy1 dd1]] & R1 & R2). injection R2 as -> <- -> <-. match type of K with rel_res _ ?u _ => replace u with (inl (B := herr) ((y, d1), (dy, dd1))) in K by (symmetry; exact R1) end.
    revert K. match goal with |- rel_res _ _ ?v -> _ => destruct v as [w|] eqn:Ev end; cbn [rel_res]; [|contradiction]. intros K. unfold flat in K. cbn [fst snd] in K. subst w.
    first [reflexivity|rewrite Ev; reflexivity].
  Qed.
  (** values that are sown in rules only are reaped with zero tangents *)
  Lemma dget_final d n : dget (final d) n = option_map (fun e => match snd e with Some false => zeros_like (fst e) | _ => fst e end) (dget d n).
  Proof. unfold final. rewrite (dget_map_keyed (fun e => match snd (snd e) with Some false => zeros_like (fst (snd e)) | _ => fst (snd e) end)). reflexivity. Qed.
  Theorem C78_rule_tangents_zero s {A B} (f : cprog A B) q : jvp_reapC s f = inl q ->
    forall fuel x dx y d dy dd, run fuel q (x, dx) = inl ((y, d), (dy, dd)) -> forall n, ~ In n (dsites s f) -> dget dd n = option_map zeros_like (dget d n).
  Proof.
    unfold jvp_reapC. intros H. apply rb_inl in H as (r & H & E). injection E as <-. intros fuel x dx y d dy dd R n Hn. cbn [run rb fst snd] in R.
    apply rb_inl in R as ([[y1 d1] [dy1 dd1]] & R1 & R2). injection R2 as -> <- -> <-.
    pose proof (jreap_zero s fuel f [] r H (dsites s f) (incl_refl _) _ _ _ _ _ _ _ _ R1 (fun m _ => eq_refl) n Hn) as K.
    rewrite !dget_final, K. destruct (dget d1 n) as [[v [[|]|]]|]; cbn; [reflexivity|rewrite zeros_like_twice; reflexivity|reflexivity|reflexivity].
  Qed.
  (** a function without rules: what C75 is about *)
  Theorem C78_without_rules s {A B} (f : dprog A B) : match call_and_reapD s f, jvp_reapC s (CD f) with
    | inl q, inl q' => forall fuel x, run fuel q' x = run fuel (jvpT q) x
    | inr e, inr e' => e = e'
    | _, _ => False
    end.
  Proof.
    unfold call_and_reapD, jvp_reapC. cbn [jreapT]. destruct (reapD s f []) as [r|e]; cbn [rb]; [|reflexivity]. intros fuel [x dx]. cbn [fst snd]. rewrite run_in, run_out. cbn [run rb fst snd].
    destruct (run fuel (jvpT (snd r)) (x, [], (dx, []))); reflexivity.
  Qed.

  (** ** 2. reaped without differentiation: a custom function is as good as its body *)
  Lemma sites_incl s {A B} (p : cprog A B) : forall pd, (forall a, dmerge a (sites s (undiff p) pd) = dmerge a (sites s (inlined p) pd)) /\ incl (sites s (undiff p) pd) (sites s (inlined p) pd).
  Proof.
    induction p as [A B p|A B C p IHp q IHq|A B C p IHp|A B sc p IHp|A B p IHp|A B p r0]; intros pd; cbn [undiff inlined sites2].
    - split; [reflexivity|apply incl_refl].
    - destruct (IHp pd) as [E1 I1], (IHq pd) as [E2 I2]. split; [intros a; rewrite !dmerge_app, E1, E2; reflexivity|]. apply incl_app; [apply incl_appl|apply incl_appr]; assumption.
    - apply IHp.
    - destruct (IHp (sub pd sc)) as [E I0]. assert (G : scope_site s sc (sites s (undiff p) (sub pd sc)) = scope_site s sc (sites s (inlined p) (sub pd sc))).
      { unfold scope_site. pose proof (E []) as E0. change (once (sites s (undiff p) (sub pd sc)) = once (sites s (inlined p) (sub pd sc))) in E0. destruct (sites s (undiff p) (sub pd sc)) as [|e l] eqn:El.
        - symmetry in E0. apply (proj1 (once_nil _)) in E0. rewrite E0. reflexivity.
        - destruct (sites s (inlined p) (sub pd sc)) as [|e' l']; [change (once (e :: l) = []) in E0; apply (proj1 (once_nil _)) in E0; discriminate|]. rewrite E0. reflexivity. }
      rewrite G. split; [reflexivity|apply incl_refl].
    - destruct (IHp pd) as [E I0]. change (dmerge [] (sites s (undiff p) pd)) with (once (sites s (undiff p) pd)) in E. unfold once. rewrite E. split; [reflexivity|apply incl_refl].
    - split; [intros a; apply dmerge_once|apply once_incl].
  Qed.
  Lemma scope_eq s {A B} (p : cprog A B) sc pd : scope_site s sc (sites s (undiff p) pd) = scope_site s sc (sites s (inlined p) pd).
  Proof.
    destruct (sites_incl s p pd) as [E I0]. unfold scope_site. pose proof (E []) as E0. change (once (sites s (undiff p) pd) = once (sites s (inlined p) pd)) in E0. destruct (sites s (undiff p) pd) as [|e l] eqn:El.
    - symmetry in E0. apply (proj1 (once_nil _)) in E0. rewrite E0. reflexivity.
    - destruct (sites s (inlined p) pd) as [|e' l']; [change (once (e :: l) = []) in E0; apply (proj1 (once_nil _)) in E0; discriminate|]. rewrite E0. reflexivity.
  Qed.
  Lemma sem_inlined s fuel {A B} (p : cprog A B) : forall pd x, sem s fuel (undiff p) pd x = sem s fuel (inlined p) pd x.
  Proof.
    induction p as [A B p|A B C p IHp q IHq|A B C p IHp|A B sc p IHp|A B p IHp|A B p r0]; intros pd x; cbn [undiff inlined sem2]; try reflexivity.
    - rewrite IHp. apply rb_ext. intros r. rewrite IHq. reflexivity.
    - rewrite IHp. reflexivity.
    - rewrite IHp, scope_eq. apply rb_ext. intros r. unfold once. rewrite (proj1 (sites_incl s p (sub pd sc))). reflexivity.
    - apply IHp.
  Qed.
  Lemma no_mix_incl l l' : incl l l' -> no_mix l' -> no_mix l.
  Proof. intros I0 H n m1 a1 m2 a2 H1 H2. exact (H n m1 a1 m2 a2 (I0 _ H1) (I0 _ H2)). Qed.
  Lemma tame_inlined s {A B} (p : cprog A B) : forall pd, tame s (inlined p) pd -> no_mix (sites s (inlined p) pd) -> tame s (undiff p) pd.
  Proof.
    induction p as [A B p|A B C p IHp q IHq|A B C p IHp|A B sc p IHp|A B p IHp|A B p r0]; intros pd Ht Hm; cbn [undiff inlined tame2 sites2] in *; auto.
    - destruct Ht as [T1 T2]. split; [apply IHp|apply IHq]; try assumption; (eapply no_mix_incl; [|exact Hm]); [apply incl_appl|apply incl_appr]; apply incl_refl.
    - destruct Ht as [T1 T2]. split; [apply IHp; [exact T1|]|].
      + intros n m1 a1 m2 a2 H1 H2. rewrite (T2 _ _ _ H1), (T2 _ _ _ H2). reflexivity.
      + intros n m a K. exact (T2 n m a (proj2 (sites_incl s p (sub pd sc)) _ K)).
    - destruct Ht as [T1 T2]. split; [apply IHp; assumption|]. eapply no_mix_incl; [apply sites_incl|exact T2].
  Qed.
  Theorem C78_undifferentiated s {A B} (f : cprog A B) q q' : regular s (inlined f) [] -> call_and_reap s (undiff f) = inl q -> call_and_reap s (inlined f) = inl q' ->
    forall fuel x, run fuel q x = run fuel q' x.
  Proof.
    intros [Ht Hm] Hq Hq' fuel x. rewrite (call_and_reap_sem s fuel _ _ x Hq), (call_and_reap_sem s fuel _ _ x Hq'); [|split; assumption|split; [apply tame_inlined; assumption|eapply no_mix_incl; [apply sites_incl|exact Hm]]].
    rewrite sem_inlined. unfold once. rewrite (proj1 (sites_incl s f [])). reflexivity.
  Qed.

  (** ** 3. planted: exactly as if the body of the custom function were written in place, errors included *)
  Lemma quiet_inlined s {A B} (p : cprog A B) : quiet s (undiff p) = quiet s (inlined p).
  Proof. induction p as [A B p|A B C p IHp q IHq|A B C p IHp|A B sc p IHp|A B p IHp|A B p r0]; cbn [undiff inlined quiet]; congruence. Qed.
  Lemma plantC_inlined s {A B} (p : cprog A B) : forall sk dn, rel_res (fun r r' => fst r = fst r' /\ forall fuel x, run fuel (snd r) x = run fuel (snd r') x) (plantC s p sk dn) (plantT s (inlined p) sk dn).
  Proof.
    assert (Hrefl : forall A B (x : res (list string * prog A B)), rel_res (fun r r' => fst r = fst r' /\ forall fuel x, run fuel (snd r) x = run fuel (snd r') x) x x) by (intros ? ? [r|e]; cbn; auto).
    induction p as [A B p|A B C p IHp q IHq|A B C p IHp|A B sc p IHp|A B p IHp|A B p r0]; intros sk dn; cbn [plantC inlined plantT].
    - apply Hrefl.
    - eapply rel_res_rb; [apply IHp|]. intros r r' [E1 K1]. rewrite E1. eapply rel_res_rb; [apply IHq|]. intros r2 r2' [E2 K2]. cbn [rel_res fst snd]. split; [exact E2|]. intros fuel x. cbn [run rb fst snd]. rewrite K1. apply rb_ext. intros z. apply K2.
    - eapply rel_res_rb; [apply IHp|]. intros r r' [E1 K1]. cbn [rel_res fst snd]. split; [exact E1|]. intros fuel x. cbn [run rb fst snd]. rewrite K1. reflexivity.
    - rewrite quiet_inlined. destruct (sub_skel (quiet s (inlined p)) sk sc) as [sk'|e]; cbn [rb]; [|reflexivity]. eapply rel_res_rb; [apply IHp|]. intros r r' [E1 K1]. cbn [rel_res fst snd]. split; [reflexivity|]. intros fuel x. cbn [run rb fst snd]. apply K1.
    - eapply rel_res_rb; [apply IHp|]. intros r r' [E1 K1]. cbn [rel_res fst snd]. split; [reflexivity|]. intros fuel x. cbn [run]. apply K1.
    - destruct (plantT s p sk dn) as [r|e]; cbn [rb rel_res fst snd]; [|reflexivity]. auto.
  Qed.
  Theorem C78_plant_inlines s {A B} (f : cprog A B) pd : match plant_C s f pd, plant s (inlined f) pd with
    | inl q, inl q' => forall fuel x, run fuel q x = run fuel q' x
    | inr e, inr e' => e = e'
    | _, _ => False
    end.
  Proof. unfold plant_C, plant. pose proof (plantC_inlined s f (skels_of pd) []) as K. destruct (plantC s f (skels_of pd) []), (plantT s (inlined f) (skels_of pd) []); cbn in *; tauto. Qed.
  (** ... so the planted values reach the sows of the custom function *)
  Theorem C78_plant_overrides s {A B} (f : cprog A B) pd q : plant_C s f pd = inl q ->
    forall fuel x, run fuel q (x, pd) = rb (sem s fuel (inlined f) pd x) (fun r => inl (fst r)).
  Proof.
    intros H fuel x. pose proof (C78_plant_inlines s f pd) as K. rewrite H in K. destruct (plant s (inlined f) pd) as [q'|] eqn:E; [|contradiction]. rewrite K. exact (C31_plant_overrides s _ pd q' E fuel x).
  Qed.
  (** ... and a name that is planted inside a custom function cannot be sown again after it *)
  Theorem C78_planted_twice_raises s {A B C} (g : prog A B) rule (p : cprog B C) pd n m1 m2 : In (tag_of s, (n, m1)) (direct g) -> In (tag_of s, (n, m2)) (direct (inlined p)) ->
    passes s n = true -> haskey pd n = true -> clobberish m1 = false -> exists e, plant_C s (CSeq (CCustom g rule) p) pd = inr e.
  Proof.
    intros H1 H2 H3 H4 H5. destruct (C31_planted_twice_raises_partial s g (inlined p) pd n m1 m2 H1 H2 H3 H4 H5) as [e E]. pose proof (C78_plant_inlines s (CSeq (CCustom g rule) p) pd) as K. cbn [inlined] in K. rewrite E in K. destruct (plant_C s _ pd); [contradiction|]. eauto.
  Qed.
End props.

(** ** A function of one integer "array": x+1 sown as "g"; then a custom function, which sows its argument as "h" and doubles
    it, and whose rule sows the argument as "h" and the tangent of the result as "dh"; then the square, sown as "k" *)
#[local] Existing Instance ZArrays.
Definition cfun : prog tree tree := Seq (Sow "t" "h" Strict A1) (step (fun x => 2 * x)%Z).
Definition crule : prog (tree * tree) (tree * tree) :=
  Seq (First tree (Seq (Sow "t" "h" Strict A1) (step (fun x => 2 * x)%Z)))
    (Seq (Pure (fun x => inl (snd x, fst x))) (Seq (First tree (Seq (step (fun x => 2 * x)%Z) (Sow "t" "dh" Strict A1))) (Pure (fun x => inl (snd x, fst x))))).
Definition cex : cprog tree tree :=
  CSeq (CD (DSeq (dstep (fun x => x + 1)%Z (fun _ d => d)) (DSow "t" "g" Strict A1)))
    (CSeq (CCustom cfun crule) (CD (DSeq (dstep (fun x => x * x)%Z (fun x d => 2 * x * d)%Z) (DSow "t" "k" Strict A1)))).
Definition do_jvp_reap {A B} (s : settings) (p : cprog A B) (x : A * A) := rb (jvp_reapC s p) (fun r => run 10 r x).
Theorem C78_example :
  do_reap (all "t") (undiff cex) (L 4) = inl (L 100, [("g", L 5); ("h", L 5); ("k", L 100)]) /\
  do_jvp_reap (all "t") cex (L 4, L 3) = inl ((L 100, [("g", L 5); ("h", L 5); ("dh", L 6); ("k", L 100)]), (L 120, [("g", L 3); ("h", L 0); ("dh", L 0); ("k", L 120)])) /\
  run 10 (jvpC cex) (L 4, L 3) = inl (L 100, L 120) /\ regular (all "t") (inlined cex) [] /\
  (exists q, call_and_reap (all "t") (inlined cex) = inl q) /\ rb (plant_C (all "t") cex [("h", L 7)]) (fun q => run 10 q (L 4, [("h", L 7)])) = inl (L 196).
Proof.
  split; [vm_compute; reflexivity|]. split; [vm_compute; reflexivity|]. split; [vm_compute; reflexivity|]. split.
  { split; [cbn; tauto|]. intros n m1 a1 m2 a2 H1 H2. cbn in H1, H2. destruct H1 as [E1|[E1|[E1|[]]]], H2 as [E2|[E2|[E2|[]]]]; congruence. }
  split; [eexists; reflexivity|vm_compute; reflexivity].
Qed.
(** The tangent reaped for "h" is not its derivative (3 at x = 4, dx = 3), and the primal results of jvp(reap(f)) are not those
    of reap(f): here the function sows "h" and its rule nothing *)
Definition csilent : cprog tree tree := CCustom cfun (Pure (fun x => inl (L (2 * val (fst x)), L (2 * val (snd x)))%Z)).
Theorem C78_primal_refuted : do_reap (all "t") (undiff csilent) (L 4) = inl (L 8, [("h", L 4)]) /\
  do_jvp_reap (all "t") csilent (L 4, L 3) = inl ((L 8, []), (L 6, [])).
Proof. split; vm_compute; reflexivity. Qed.
(** a custom function is not treated like a call by plant: a name sown inside and after it cannot be planted *)
Theorem C78_plant_call_refuted :
  do_plant (all "t") (undiff (CSeq (CCustom cfun crule) (CD (DSow "t" "h" Strict A1)))) [("h", L 7)] (L 4) = inl (L 7) /\
  plant_C (all "t") (CSeq (CCustom cfun crule) (CD (DSow "t" "h" Strict A1))) [("h", L 7)] = inr ValueErr.
Proof. split; vm_compute; reflexivity. Qed.
Print Assumptions C78_jvp_outputs. Print Assumptions C78_reaped_values. Print Assumptions C78_rule_tangents_zero. Print Assumptions C78_undifferentiated. Print Assumptions C78_plant_inlines.
