(** C80: gradients (reverse mode) of programs with sows; custom_vjp rules survive reap; gradients of reaped values are the true
    ones. *)
From Verif Require Export VjpProofs.
From Coq Require Import Reals Lra.
Open Scope string_scope. Open Scope list_scope. Open Scope nat_scope.

Section props.
  Context {AR : Arrays} {CT : Cotangents AR}.
  (** ** Specification *)
  (** no custom_vjp function occurs *)
  Fixpoint rule_free {X Y} (p : vprog X Y) : Prop :=
    match p with
    | RevSeq p q | RevCond p q => rule_free p /\ rule_free q
    | RevFirst _ p | RevNest _ p | RevCall p | RevScan _ _ p => rule_free p
    | RevCustom _ _ _ => False
    | RevPure _ _ _ | RevSow _ _ _ _ => True
    end.
  (** the function with the sows, scopes and calls around its steps taken away *)
  Fixpoint bare {X Y} (p : vprog X Y) : vprog X Y :=
    match p in vprog X Y return vprog X Y with
    | RevPure f df ft => RevPure f df ft
    | RevSeq p q => RevSeq (bare p) (bare q)
    | RevFirst C p => RevFirst C (bare p)
    | RevSow t n m av => RevPure (X := TreeS) (Y := TreeS) (fun v => if is_cond m then inr ValueErr else chk av v) (fun _ dv => inl dv) (fun _ c => inl c)
    | RevNest _ p | RevCall p => bare p
    | RevCond p q => RevCond (bare p) (bare q)
    | RevScan rv len p => RevScan rv len (bare p)
    | RevCustom R fwd bwd => RevCustom R fwd bwd
    end.
  (** the function as vjp runs it: fwd in place of a function with a rule *)
  Fixpoint fwdV {X Y} (p : vprog X Y) : prog (car X) (car Y) :=
    match p in vprog X Y return prog (car X) (car Y) with
    | RevPure f _ _ => Pure f
    | RevSeq p q => Seq (fwdV p) (fwdV q)
    | RevFirst C p => First (car C) (fwdV p)
    | RevSow t n m av => Sow t n m av
    | RevNest sc p => Nest sc (fwdV p)
    | RevCall p => Call (fwdV p)
    | RevCond p q => Cond (fwdV p) (fwdV q)
    | @RevScan _ _ C X Y rv len p => Scan rv len (fwdV p : prog (car C * car X) (car C * car Y))
    | @RevCustom _ _ X Y R fwd _ => Seq fwd (Pure (fun z : car Y * R => inl (fst z)))
    end.
  (** bwd of every rule is code without while loops that sows nothing *)
  Fixpoint sowless {A B} (p : prog A B) : Prop :=
    match p with Pure _ => True | Seq p q | Cond p q => sowless p /\ sowless q | First _ p | Nest _ p | Call p | Scan _ _ p => sowless p | _ => False end.
  Fixpoint quiet_rules {X Y} (p : vprog X Y) : Prop :=
    match p with
    | RevSeq p q | RevCond p q => quiet_rules p /\ quiet_rules q
    | RevFirst _ p | RevNest _ p | RevCall p | RevScan _ _ p => quiet_rules p
    | RevCustom _ _ bwd => sowless bwd
    | RevPure _ _ _ | RevSow _ _ _ _ => True
    end.

  (** Loops that simulate each other *)
  Lemma scan_hom {C X Y C' X' Y'} (f : C * X -> res (C * Y)) (f' : C' * X' -> res (C' * Y')) (h : C -> C') (g : Y -> Y') xs' xs :
    Forall2 (fun x' x => forall c, f' (h c, x') = rb (f (c, x)) (fun r => inl (h (fst r), g (snd r)))) xs' xs ->
    forall c, scan_loop f' (h c) xs' = rb (scan_loop f c xs) (fun r => inl (h (fst r), map g (snd r))).
  Proof.
    induction 1 as [|x' x xs' xs Hx _ IH]; intros c; cbn [scan_loop]; [reflexivity|]. rewrite Hx. destruct (f (c, x)) as [[c1 y1]|]; cbn [rb fst snd]; [|reflexivity]. rewrite IH. destruct (scan_loop f c1 xs) as [[c2 ys]|]; reflexivity.
  Qed.
  Lemma rb_pairs {X Y} (u : res (X * Y)) : u = rb u (fun r => inl (fst r, snd r)).
  Proof. destruct u as [[a b]|]; reflexivity. Qed.
  Lemma F2_len {X Y} (R : X -> Y -> Prop) l m : Forall2 R l m -> List.length l = List.length m.
  Proof. induction 1; cbn; congruence. Qed.
  Lemma F2_imp {X Y} (R S : X -> Y -> Prop) l m : Forall2 R l m -> (forall x y, R x y -> S x y) -> Forall2 S l m.
  Proof. induction 1; intros K; constructor; auto. Qed.
  Lemma scan_sem_hom {C X Y C' X' Y'} rv len (f : C * X -> res (C * Y)) (f' : C' * X' -> res (C' * Y')) (h : C -> C') (g : Y -> Y') xs' xs :
    Forall2 (fun x' x => forall c, f' (h c, x') = rb (f (c, x)) (fun r => inl (h (fst r), g (snd r)))) xs' xs ->
    forall c, scan_sem rv len f' (h c, xs') = rb (scan_sem rv len f (c, xs)) (fun r => inl (h (fst r), map g (snd r))).
  Proof.
    intros H c. unfold scan_sem. cbn [fst snd]. rewrite <- (F2_len _ _ _ H). destruct (Nat.eqb _ len); cbn [rb]; [|reflexivity]. rewrite (scan_hom f f' h g _ _ (F2_rev_if _ rv _ _ H)). destruct (scan_loop f c (rev_if rv xs)) as [[c1 ys]|]; cbn [rb fst snd]; [|reflexivity]. rewrite rev_if_map. reflexivity.
  Qed.
  Lemma Forall2_same {X} (R : X -> X -> Prop) l : (forall x, R x x) -> Forall2 R l l.
  Proof. intros H. induction l; constructor; auto. Qed.
  Lemma scan_sem_rel {C C' X X' Y Y'} rv len (f : C * X -> res (C * Y)) (g : C' * X' -> res (C' * Y')) (I : C -> C' -> Prop) (Rx : X -> X' -> Prop) (Ry : Y -> Y' -> Prop) :
    (forall c c' x x', I c c' -> Rx x x' -> rel_res (fun r r' => I (fst r) (fst r') /\ Ry (snd r) (snd r')) (f (c, x)) (g (c', x'))) ->
    forall c c' xs xs', I c c' -> Forall2 Rx xs xs' -> rel_res (fun r r' => I (fst r) (fst r') /\ Forall2 Ry (snd r) (snd r')) (scan_sem rv len f (c, xs)) (scan_sem rv len g (c', xs')).
  Proof.
    intros H c c' xs xs' Hc Hx. unfold scan_sem. cbn [fst snd]. rewrite <- (F2_len _ _ _ Hx). destruct (Nat.eqb _ len); cbn; [|reflexivity].
    eapply rel_res_rb; [exact (scan_loop_rel f g I Rx Ry H _ _ _ _ Hc (F2_rev_if _ rv _ _ Hx))|]. intros r r' [A B]. split; [exact A|]. apply F2_rev_if, B.
  Qed.
  Lemma scan_sem_length {C X Y} rv len (f : C * X -> res (C * Y)) cx r : scan_sem rv len f cx = inl r -> List.length (snd r) = len.
  Proof.
    destruct cx as [c xs]. unfold scan_sem. cbn [fst snd]. destruct (Nat.eqb_spec (List.length xs) len) as [E|]; [|discriminate]. intros H. apply rb_inl in H as (r1 & H & E1). injection E1 as <-. cbn [snd].
    assert (K : forall xs c r, scan_loop f c xs = inl r -> List.length (snd r) = List.length xs). { clear. induction xs as [|x xs IH]; intros c r H; cbn [scan_loop] in H; [injection H as <-; reflexivity|]. apply rb_inl in H as (r1 & _ & H). apply rb_inl in H as (r2 & H & E). injection E as <-. cbn. f_equal. exact (IH _ _ H). }
    specialize (K _ _ _ H). destruct rv; cbn [rev_if] in *; rewrite ?rev_length in *; congruence.
  Qed.
  Lemma Forall2_combine {X Y Z} (R : X -> Y -> Prop) l l' : Forall2 R l l' -> forall m : list Z, Forall2 (fun a b => R (fst a) (fst b) /\ snd a = snd b) (combine l m) (combine l' m).
  Proof. induction 1; intros [|z m]; cbn [combine]; constructor; auto. Qed.

  (** ** 1. vjp does not see sows, scopes and calls: same values, same cotangents, same errors *)
  Definition Same {X Y} (p p' : vprog X Y) : Prop := forall fuel x, match run fuel (fwdT p) x, run fuel (fwdT p') x with
    | inl (y, r), inl (y', r') => y' = y /\ forall ct, run fuel (bwdT p) (r, ct) = run fuel (bwdT p') (r', ct)
    | inr e, inr e' => e = e'
    | _, _ => False
    end.
  Lemma same_bare {X Y} (p : vprog X Y) : Same p (bare p).
  Proof.
    induction p as [X Y f df ft|X Y Z p IHp q IHq|X Y C p IHp|t n m av|X Y sc p IHp|X Y p IHp|X Y p IHp q IHq|C X Y rv len p IHp|X Y R fwd bwd]; intros fuel x; cbn [bare].
    - destruct (run fuel (fwdT (RevPure f df ft)) x) as [[y r]|]; auto.
    - cbn [fwdT bwdT run]. specialize (IHp fuel x). destruct (run fuel (fwdT p) x) as [[y r]|], (run fuel (fwdT (bare p)) x) as [[y' r']|]; cbn [rb]; try contradiction; [|exact IHp]. destruct IHp as [-> IHp]. cbn [fst snd].
      specialize (IHq fuel y). destruct (run fuel (fwdT q) y) as [[z r2]|], (run fuel (fwdT (bare q)) y) as [[z' r2']|]; cbn [rb]; try contradiction; [|exact IHq]. destruct IHq as [-> IHq]. cbn [fst snd]. split; [reflexivity|]. intros ct. rewrite IHq.
      destruct (run fuel (bwdT (bare q)) (r2', ct)) as [cy|]; cbn [rb fst snd]; [apply IHp|reflexivity].
    - cbn [fwdT bwdT run]. specialize (IHp fuel (fst x)). destruct (run fuel (fwdT p) (fst x)) as [[y r]|], (run fuel (fwdT (bare p)) (fst x)) as [[y' r']|]; cbn [rb]; try contradiction; [|exact IHp]. destruct IHp as [-> IHp]. cbn [fst snd]. split; [reflexivity|]. intros ct. cbn [rb fst snd]. rewrite IHp. reflexivity.
    - cbn [fwdT bwdT run]. destruct (is_cond m); cbn [rb]; [reflexivity|]. unfold chk. destruct (has_aval x av); cbn [rb]; [|reflexivity]. split; [reflexivity|]. intros ct. reflexivity.
    - exact (IHp fuel x).
    - exact (IHp fuel x).
    - destruct x as [b x]. cbn [fwdT bwdT resid run fst snd]. destruct b.
      + specialize (IHp fuel x). destruct (run fuel (fwdT p) x) as [[y r]|], (run fuel (fwdT (bare p)) x) as [[y' r']|]; cbn [rb fst snd]; try contradiction; [|exact IHp]. destruct IHp as [-> IHp]. split; [reflexivity|]. intros ct. cbn [rb fst snd]. rewrite IHp. reflexivity.
      + specialize (IHq fuel x). destruct (run fuel (fwdT q) x) as [[y r]|], (run fuel (fwdT (bare q)) x) as [[y' r']|]; cbn [rb fst snd]; try contradiction; [|exact IHq]. destruct IHq as [-> IHq]. split; [reflexivity|]. intros ct. cbn [rb fst snd]. rewrite IHq. reflexivity.
    - set (Ry := fun (a : car Y * resid p) (b : car Y * resid (bare p)) => fst b = fst a /\ forall ct, run fuel (bwdT p) (snd a, ct) = run fuel (bwdT (bare p)) (snd b, ct)).
      set (f1 := run fuel (Seq (fwdT p) (Pure (fun z : (car C * car Y) * resid p => inl (fst (fst z), (snd (fst z), snd z)))))). set (f2 := run fuel (Seq (fwdT (bare p)) (Pure (fun z : (car C * car Y) * resid (bare p) => inl (fst (fst z), (snd (fst z), snd z)))))).
      destruct x as [c xs]. pose (S1 := scan_sem rv len f1 (c, xs)). pose (S2 := scan_sem rv len f2 (c, xs)).
      change (run fuel (fwdT (RevScan rv len p)) (c, xs)) with (rb S1 (fun z => inl ((fst z, map fst (snd z)), map snd (snd z)) : res ((car C * list (car Y)) * list (resid p)))).
      change (run fuel (fwdT (RevScan rv len (bare p))) (c, xs)) with (rb S2 (fun z => inl ((fst z, map fst (snd z)), map snd (snd z)) : res ((car C * list (car Y)) * list (resid (bare p))))).
      assert (K : forall c c' x x', c = c' -> x = x' -> rel_res (fun r r' => fst r = fst r' /\ Ry (snd r) (snd r')) (f1 (c, x)) (f2 (c', x'))).
      { intros c0 ? x0 ? <- <-. unfold f1, f2. cbn [run]. specialize (IHp fuel (c0, x0)). destruct (run fuel (fwdT p) (c0, x0)) as [[[c1 y1] r]|], (run fuel (fwdT (bare p)) (c0, x0)) as [[[c1' y1'] r']|]; cbn; try contradiction; [|exact IHp]. destruct IHp as [E IHp]. injection E as -> ->. split; [reflexivity|]. split; [reflexivity|exact IHp]. }
      pose proof (scan_sem_rel rv len f1 f2 eq eq Ry K c c xs xs eq_refl (Forall2_same _ _ (fun x => eq_refl)) : rel_res _ S1 S2) as G. clear K. clearbody S1 S2.
      destruct S1 as [[c1 l1]|], S2 as [[c2 l2]|]; cbn [rel_res rb fst snd] in *; try contradiction; [|exact G]. destruct G as [<- G]. split.
      + f_equal. clear -G. induction G as [|a b l m [E _] _ IH]; cbn; congruence.
      + intros [cc cys]. cbn [bwdT run fst snd rb].
        assert (L : List.length (map snd l1) = List.length (map snd l2)) by (rewrite !map_length; exact (F2_len _ _ _ G)). rewrite <- L.
        destruct (Nat.eqb (List.length (map snd l1)) (List.length cys)); cbn [rb]; [|reflexivity].
        match goal with |- scan_sem ?b ?n ?g1 (cc, ?xs1) = scan_sem ?b ?n ?g2 (cc, ?xs2) => pose proof (scan_sem_hom b n g2 g1 (fun c => c) (fun y => y) xs1 xs2) as H end.
        refine (eq_trans (H _ cc) _); clear H.
        * assert (G2 : Forall2 (fun r r' => forall ct, run fuel (bwdT p) (r, ct) = run fuel (bwdT (bare p)) (r', ct)) (map snd l1) (map snd l2)). { clear -G. induction G as [|a b l m [_ E] _ IH]; cbn; constructor; auto. }
          refine (F2_imp _ _ _ _ (Forall2_combine _ _ _ G2 cys) _). intros [r a] [r' a'] [E1 E2] c0. cbn [fst snd] in *. subst a'. exact (eq_trans (E1 (c0, a)) (rb_pairs _)).
        * match goal with |- rb ?u _ = _ => destruct u as [[gc gx]|] end; cbn [rb fst snd]; [rewrite map_id; reflexivity|reflexivity].
    - destruct (run fuel (fwdT (RevCustom R fwd bwd)) x) as [[y r]|]; auto.
  Qed.
  Lemma same_vjp {X Y} (p p' : vprog X Y) : Same p p' -> forall fuel z, run fuel (vjpV p) z = run fuel (vjpV p') z.
  Proof.
    intros H fuel [x ct]. unfold vjpV. cbn [run fst snd]. specialize (H fuel x). destruct (run fuel (fwdT p) x) as [[y r]|], (run fuel (fwdT p') x) as [[y' r']|]; cbn [rb fst snd]; try contradiction; [|congruence].
    destruct H as [-> H]. rewrite H. reflexivity.
  Qed.
  Theorem C80_sows_invisible fuel {X Y} (f : vprog X Y) x ct : run fuel (vjpV f) (x, ct) = run fuel (vjpV (bare f)) (x, ct).
  Proof. apply same_vjp, same_bare. Qed.

  (** ** 2. the pullback is the transpose of the derivative *)
  Lemma vjp_inv fuel {X Y} (f : vprog X Y) x ct y g : run fuel (vjpV f) (x, ct) = inl (y, g) -> exists r, run fuel (fwdT f) x = inl (y, r) /\ run fuel (bwdT f) (r, ct) = inl g.
  Proof.
    unfold vjpV. cbn [run fst snd]. intros H. apply rb_inl in H as (w & H1 & H). apply rb_inl in H1 as ([y1 r] & H1 & E). injection E as <-. cbn [rb fst snd] in H. apply rb_inl in H as (w & H2 & H). apply rb_inl in H2 as (g1 & H2 & E). injection E as <-.
    cbn [fst snd] in H. injection H as <- <-. exists r. auto.
  Qed.
  Lemma vjp_intro fuel {X Y} (f : vprog X Y) x ct y g r : run fuel (fwdT f) x = inl (y, r) -> run fuel (bwdT f) (r, ct) = inl g -> run fuel (vjpV f) (x, ct) = inl (y, g).
  Proof. intros H1 H2. unfold vjpV. cbn [run fst snd]. rewrite H1. cbn [rb fst snd]. rewrite H2. reflexivity. Qed.
  Theorem C80_transpose fuel {X Y} (f : vprog X Y) : sound f -> forall x dx ct y dy y' g,
    run fuel (jvpT (toD f)) (x, dx) = inl (y, dy) -> run fuel (vjpV f) (x, ct) = inl (y', g) -> y' = y /\ pairing Y dy ct = pairing X dx g.
  Proof.
    intros S x dx ct y dy y' g H1 H2. apply vjp_inv in H2 as (r & H2 & H3). destruct (sound_adj f S fuel x dx ct y dy y' r g I H1 H2 H3) as (A & _ & B). auto.
  Qed.

  (** ** 3. jax.vjp(reap(f)) *)
  (** only functions with rules can reap a sow_cond *)
  Definition nocond (M : meta) : Prop := existsb (fun e => is_cond (fst (snd e))) M = false.
  Lemma nocond_spec M : nocond M <-> forall e, In e M -> is_cond (fst (snd e)) = false.
  Proof.
    unfold nocond. induction M as [|e M IH]; cbn [existsb In]; [split; [intros _ ? []|reflexivity]|]. rewrite orb_false_iff, IH. split.
    - intros [A B] x [<-|H]; auto.
    - intros H. split; [apply H; auto|intros x Hx; apply H; auto].
  Qed.
  Lemma nocond_nil : nocond [].
  Proof. reflexivity. Qed.
  Lemma nocond_dset M n m a : nocond M -> is_cond m = false -> nocond (dset M n (m, a)).
  Proof.
    unfold nocond. intros H Hm. induction M as [|[k x] M IH]; cbn [dset]; [cbn; rewrite Hm; reflexivity|]. cbn [existsb fst snd] in H. apply orb_false_elim in H as [H1 H2]. destruct (String.eqb n k); cbn [existsb fst snd]; [rewrite Hm; exact H2|rewrite H1; exact (IH H2)].
  Qed.
  Lemma handle_nocond M n m a M' : nocond M -> is_cond m = false -> handle M n m a = inl M' -> nocond M'.
  Proof. intros H Hm E. unfold handle in E. destruct (dget M n) as [[m0 av0]|]; [destruct (_ && _)%bool; [|discriminate]; destruct (_ && _)%bool; [discriminate|]|]; injection E as <-; apply nocond_dset; assumption. Qed.
  Lemma resow_meta_nocond s l : forall M M', nocond M -> nocond l -> resow_meta s M l = inl M' -> nocond M'.
  Proof.
    induction l as [|[n [m av]] l IH]; intros M M' H Hl E; cbn [resow_meta] in E; [congruence|]. unfold nocond in Hl. cbn [existsb fst snd] in Hl. apply orb_false_elim in Hl as [H1 H2]. apply rb_inl in E as (M1 & E1 & E). refine (IH M1 M' _ H2 E). destruct (passes s n); [exact (handle_nocond _ _ _ _ _ H H1 E1)|injection E1 as <-; exact H].
  Qed.
  Lemma reapV_nocond s {X Y} (p : vprog X Y) : rule_free p -> forall M r, nocond M -> reapV s p M = inl r -> nocond (fst r).
  Proof.
    induction p as [X Y f df ft|X Y Z p IHp q IHq|X Y C p IHp|t n m av|X Y sc p IHp|X Y p IHp|X Y p IHp q IHq|C X Y rv len p IHp|X Y R fwd bwd]; cbn [rule_free]; intros HF M r H E; cbn [reapV] in E.
    - injection E as <-. exact H.
    - apply rb_inl in E as (r1 & E1 & E). apply rb_inl in E as (r2 & E2 & E). injection E as <-. destruct HF as [F1 F2]. exact (IHq F2 _ _ (IHp F1 _ _ H E1) E2).
    - apply rb_inl in E as (r1 & E1 & E). injection E as <-. exact (IHp HF _ _ H E1).
    - destruct (is_cond m) eqn:Em; [discriminate|]. destruct (String.eqb t (tag_of s)); [destruct (passes s n); [apply rb_inl in E as (M1 & E1 & E)|]|destruct (exclusive s)]; injection E as <-; try exact H. exact (handle_nocond _ _ _ _ _ H Em E1).
    - apply rb_inl in E as (r1 & E1 & E). apply rb_inl in E as (M1 & E2 & E). injection E as <-. cbn [fst]. destruct (fst r1); [injection E2 as <-; exact H|]. refine (resow_meta_nocond s _ _ _ H _ E2). reflexivity.
    - apply rb_inl in E as (r1 & E1 & E). apply rb_inl in E as (M1 & E2 & E). injection E as <-. exact (resow_meta_nocond s _ _ _ H (IHp HF _ _ nocond_nil E1) E2).
    - destruct HF as [F1 F2]. apply rb_inl in E as (r1 & E1 & E). apply rb_inl in E as (r2 & E2 & E). apply rb_inl in E as (u & E3 & E). apply rb_inl in E as (M1 & E4 & E). injection E as <-. exact (resow_meta_nocond s _ _ _ H (IHp F1 _ _ nocond_nil E1) E4).
    - cbv zeta in E. apply rb_inl in E as (r1 & E1 & E). destruct (existsb _ _); [discriminate|]. destruct (_ && _)%bool; [discriminate|]. destruct (existsb _ _) eqn:Xc; [discriminate|]. apply rb_inl in E as (M1 & E2 & E). injection E as <-. refine (resow_meta_nocond s _ _ _ H _ E2).
      pose proof (proj1 (nocond_spec _) Xc) as K. apply nocond_spec. intros e He. apply in_app_or in He as [He|He]; [apply filter_In in He as [He _]; exact (K e He)|]. unfold stack_meta in He. apply in_map_iff in He as (e0 & <- & He). apply filter_In in He as [He _]. exact (K e0 He).
    - contradiction.
  Qed.
  (** it is reap(f) of C75, given the transposes *)
  Lemma reapV_toD s {X Y} (p : vprog X Y) : rule_free p -> forall M, reapD s (toD p) M = rb (reapV s p M) (fun r => inl (fst r, toD (snd r) : dprog (car X * dict) (car Y * dict))).
  Proof.
    induction p as [X Y f df ft|X Y Z p IHp q IHq|X Y C p IHp|t n m av|X Y sc p IHp|X Y p IHp|X Y p IHp q IHq|C X Y rv len p IHp|X Y R fwd bwd]; cbn [rule_free]; intros H M; cbn [toD reapD reapV].
    - reflexivity.
    - destruct H as [H1 H2]. rewrite (IHp H1). destruct (reapV s p M) as [r|]; cbn [rb]; [|reflexivity]. cbn [fst snd]. rewrite (IHq H2). destruct (reapV s q (fst r)) as [r2|]; reflexivity.
    - rewrite (IHp H). destruct (reapV s p M) as [r|]; reflexivity.
    - destruct (is_cond m); [reflexivity|]. destruct (String.eqb t (tag_of s)); [destruct (passes s n); [destruct (handle M n m av); reflexivity|reflexivity]|destruct (exclusive s); reflexivity].
    - rewrite (IHp H). destruct (reapV s p []) as [r|]; cbn [rb]; [|reflexivity]. cbn [fst snd]. destruct (fst r) as [|e l] eqn:El; cbn [rb]; [reflexivity|]. destruct (resow_meta s M _); reflexivity.
    - rewrite (IHp H). destruct (reapV s p []) as [r|]; cbn [rb]; [|reflexivity]. cbn [fst snd]. destruct (resow_meta s M (fst r)); reflexivity.
    - destruct H as [H1 H2]. rewrite (IHp H1). destruct (reapV s p []) as [r|]; cbn [rb]; [|reflexivity]. cbn [fst snd]. rewrite (IHq H2). destruct (reapV s q []) as [r'|]; cbn [rb]; [|reflexivity]. cbn [fst snd]. destruct (check_branches (fst r) (fst r')); cbn [rb]; [|reflexivity]. destruct (resow_meta s M (fst r)); reflexivity.
    - rewrite (IHp H). destruct (reapV s p []) as [r|] eqn:E; cbn [rb]; [|reflexivity]. cbv zeta. cbn [fst snd]. destruct (existsb (fun e => is_strict (fst (snd e))) (fst r)); [reflexivity|]. destruct (_ && _)%bool; [reflexivity|].
      pose proof (reapV_nocond s p H _ _ nocond_nil E) as K. unfold nocond in K. rewrite K. destruct (resow_meta s M _); reflexivity.
    - contradiction.
  Qed.
  Theorem C80_reap_is_reap s {X Y} (f : vprog X Y) : rule_free f -> call_and_reapD s (toD f) = rb (call_and_reapV s f) (fun q => inl (toD q)).
  Proof. intros H. unfold call_and_reapD, call_and_reapV. rewrite (reapV_toD s f H). destruct (reapV s f []); reflexivity. Qed.
  (** the cotangents of reaped values are accounted for *)
  Lemma Adj_reap s {X Y} (f : vprog X Y) q : sound f -> call_and_reapV s f = inl q -> Adj (Y := Prod Y ReapS) (fun _ => True) q (fun _ => True).
  Proof.
    intros S H. unfold call_and_reapV in H. apply rb_inl in H as (r & H & E). injection E as <-. eapply Adj_seq; [exact Adj_enter|]. eapply Adj_seq; [exact (reapV_adj s f S _ _ H)|].
    apply (Adj_move (X := Prod Y DictS) (Y := Prod Y ReapS)). intros [dy dd] [ct cd] g [_ HP] E. injection E as <-. split; [exact I|]. cbn [fst snd] in *. cbn [pairing Prod ReapS DictS fst snd]. rewrite (final_plain dd HP). reflexivity.
  Qed.
  Theorem C80_reap_transpose s fuel {X Y} (f : vprog X Y) q : sound f -> call_and_reapV s f = inl q -> forall x dx ct cd y dy d dd y' d' g,
    run fuel (jvpT (toD q)) (x, dx) = inl ((y, d), (dy, dd)) -> run fuel (vjpV q) (x, (ct, cd)) = inl ((y', d'), g) ->
    y' = y /\ d' = d /\ kadd (pairing Y dy ct) (ldot dd cd) = pairing X dx g.
  Proof.
    intros S H x dx ct cd y dy d dd y' d' g H1 H2. apply (vjp_inv fuel q x (ct, cd) (y', d') g) in H2 as (r & H2 & H3).
    destruct (Adj_reap s f q S H fuel x dx (ct, cd) (y, d) (dy, dd) (y', d') r g I H1 H2 H3) as (A & _ & B). injection A as -> ->. auto.
  Qed.

  (** ** 4. reaping does not replace rules: where the reaped values are not used, the gradient is that of f, errors included *)
  Ltac align H p := match type of H with match ?u with _ => _ end => match goal with |- context [@run ?a ?f ?A ?B (fwdT p) ?z] => change u with (@run a f A B (fwdT p) z) in H end end.
  Definition Sim {X Y} (p : vprog X Y) (p' : vprog (Prod X DictS) (Prod Y DictS)) : Prop :=
    forall fuel x d, match run fuel (fwdT p') (x, d), run fuel (fwdT p) x with
    | inl (yd, r'), inl (y, r) => fst yd = y /\ forall ct, run fuel (bwdT p') (r', (ct, [])) = rb (run fuel (bwdT p) (r, ct)) (fun g => inl (g, []))
    | inr e, inr e' => e = e'
    | _, _ => False
    end.
  Lemma sim_first {X Y} (p : vprog X Y) : Sim p (RevFirst DictS p).
  Proof.
    intros fuel x d. cbn [fwdT bwdT run fst snd]. destruct (run fuel (fwdT p) x) as [[y r]|]; cbn [rb fst snd]; [|reflexivity]. split; [reflexivity|]. intros ct. reflexivity.
  Qed.
  Lemma sim_inner {X Y} (p : vprog X Y) p' (f : (car Y * dict) * dict -> car Y * dict) (b : co (Prod Y DictS) -> res ((co Y * list (string * tree)) * list (string * tree))) :
    Sim p p' -> (forall z, fst (f z) = fst (fst z)) -> (forall ct, b (ct, []) = inl ((ct, []), [])) ->
    Sim p (RevSeq (RevFirst DictS (RevSeq enter p')) (VMove (X := Prod (Prod Y DictS) DictS) (Y := Prod Y DictS) f b)).
  Proof.
    intros H Hf Hb fuel x d. specialize (H fuel x []). cbn [fwdT bwdT enter VMove run fst snd rb]. align H p'. match type of H with match ?u with _ => _ end => destruct u as [[yd r']|] end.
    - destruct (run fuel (fwdT p) x) as [[y r]|]; [|contradiction]. destruct H as [Hy H]. cbn [rb fst snd]. split; [rewrite Hf; exact Hy|]. intros ct. rewrite Hb. cbn [rb fst snd]. rewrite H. destruct (run fuel (bwdT p) (r, ct)) as [g|]; reflexivity.
    - destruct (run fuel (fwdT p) x) as [[y r]|]; [contradiction|]. exact H.
  Qed.
  Lemma sim_cond {X Y} (p q : vprog X Y) p' q' (f : (car Y * dict) * dict -> car Y * dict) (b : co (Prod Y DictS) -> res ((co Y * list (string * tree)) * list (string * tree))) :
    Sim p p' -> Sim q q' -> (forall z, fst (f z) = fst (fst z)) -> (forall ct, b (ct, []) = inl ((ct, []), [])) ->
    Sim (RevCond p q) (RevSeq (RevFirst DictS (RevCond (RevSeq enter p') (RevSeq enter q'))) (VMove (X := Prod (Prod Y DictS) DictS) (Y := Prod Y DictS) f b)).
  Proof.
    intros H G Hf Hb fuel [c x] d. cbn [fwdT bwdT enter VMove resid run fst snd rb]. destruct c.
    - specialize (H fuel x []). align H p'. match type of H with match ?u with _ => _ end => destruct u as [[yd r']|] end.
      + destruct (run fuel (fwdT p) x) as [[y r]|]; [|contradiction]. destruct H as [Hy H]. cbn [rb fst snd]. split; [rewrite Hf; exact Hy|]. intros ct. rewrite Hb. cbn [rb fst snd]. rewrite H. destruct (run fuel (bwdT p) (r, ct)) as [g|]; reflexivity.
      + destruct (run fuel (fwdT p) x) as [[y r]|]; [contradiction|]. exact H.
    - specialize (G fuel x []). align G q'. match type of G with match ?u with _ => _ end => destruct u as [[yd r']|] end.
      + destruct (run fuel (fwdT q) x) as [[y r]|]; [|contradiction]. destruct G as [Hy G]. cbn [rb fst snd]. split; [rewrite Hf; exact Hy|]. intros ct. rewrite Hb. cbn [rb fst snd]. rewrite G. destruct (run fuel (bwdT q) (r, ct)) as [g|]; reflexivity.
      + destruct (run fuel (fwdT q) x) as [[y r]|]; [contradiction|]. exact G.
  Qed.
  Lemma combine_repeat {X Y} (l : list X) n (a : Y) : List.length l = n -> combine l (repeat a n) = map (fun x => (x, a)) l.
  Proof. intros <-. induction l as [|x l IH]; cbn; congruence. Qed.
  Definition SimB {C X Y} (p : vprog (Prod C X) (Prod C Y)) (body : vprog (Prod (Prod C DictS) X) (Prod (Prod C DictS) (Prod Y DictS))) : Prop :=
    forall fuel c cr x, match run fuel (fwdT body) ((c, cr), x), run fuel (fwdT p) (c, x) with
    | inl (z, r'), inl (y, r) => (fst (fst z) = fst y /\ fst (snd z) = snd y) /\ forall cc cy, run fuel (bwdT body) (r', ((cc, []), (cy, []))) = rb (run fuel (bwdT p) (r, (cc, cy))) (fun g => inl ((fst g, []), snd g))
    | inr e, inr e' => e = e'
    | _, _ => False
    end.
  Lemma sim_body {C X Y} (p : vprog (Prod C X) (Prod C Y)) p1 (f1 : car (Prod (Prod C DictS) X) -> car (Prod (Prod (Prod C X) DictS) DictS)) b1 (f2 : car (Prod (Prod (Prod C Y) DictS) DictS) -> car (Prod (Prod C DictS) (Prod Y DictS))) b2 :
    Sim p p1 -> (forall z, fst (fst (f1 z)) = (fst (fst z), snd z)) -> (forall gc gx, b1 (((gc, gx), []), []) = inl ((gc, []), gx)) ->
    (forall z, fst (fst (f2 z)) = fst (fst (fst z)) /\ fst (snd (f2 z)) = snd (fst (fst z))) -> (forall cc cy, b2 ((cc, []), (cy, [])) = inl (((cc, cy), []), [])) ->
    SimB p (RevSeq (VMove f1 b1) (RevSeq (RevFirst DictS p1) (VMove f2 b2))).
  Proof.
    intros H F1 B1 F2 B2 fuel c cr x. cbn [fwdT bwdT VMove resid run fst snd rb]. specialize (F1 ((c, cr), x)). destruct (f1 ((c, cr), x)) as [[cx d0] d1]. cbn [fst snd] in F1. subst cx. cbn [fst snd].
    specialize (H fuel (c, x) d0). align H p1. match type of H with match ?u with _ => _ end => destruct u as [[yd r']|] end.
    - destruct (run fuel (fwdT p) (c, x)) as [[y r]|]; [|contradiction]. destruct H as [Hy H]. cbn [rb fst snd]. subst y. split; [apply (F2 (yd, d1))|]. intros cc cy. rewrite B2. cbn [rb fst snd]. rewrite H. match goal with |- rb (rb (rb (rb ?u _) _) _) _ = rb ?v _ => change v with u; destruct u as [[gc gx]|] end; cbn [rb fst snd]; [exact (B1 gc gx)|reflexivity].
    - destruct (run fuel (fwdT p) (c, x)) as [[y r]|]; [contradiction|]. exact H.
  Qed.
  Lemma sim_scan {C X Y} rv len (p : vprog (Prod C X) (Prod C Y)) body (f1 : car (Prod (Prod C (ListS X)) DictS) -> car (Prod (Prod (Prod C DictS) (ListS X)) DictS)) b1
    (f2 : car (Prod (Prod (Prod C DictS) (ListS (Prod Y DictS))) DictS) -> car (Prod (Prod C (ListS Y)) DictS)) b2 :
    SimB p body -> (forall z, fst (fst (fst (f1 z))) = fst (fst z) /\ snd (fst (f1 z)) = snd (fst z)) -> (forall gc gx, b1 (((gc, []), gx), []) = inl ((gc, gx), [])) ->
    (forall z, fst (f2 z) = (fst (fst (fst z)), map fst (snd (fst z)))) ->
    (forall cc cys, b2 ((cc, cys), []) = if Nat.eqb (List.length cys) len then inl (((cc, []), map (fun c => (c, [])) cys), []) else inr TypeErr) ->
    Sim (RevScan rv len p) (RevSeq (VMove f1 b1) (RevSeq (RevFirst DictS (RevScan rv len body)) (VMove f2 b2))).
  Proof.
    intros H F1 B1 F2 B2 fuel [c xs] d. cbn [fwdT bwdT VMove resid run fst snd rb]. assert (F1' : forall z, exists cr, fst (f1 z) = ((fst (fst z), cr), snd (fst z))) by (intros z; destruct (F1 z) as [<- <-]; exists (snd (fst (fst (f1 z)))); destruct (f1 z) as [[[? ?] ?] ?]; reflexivity).
    clear F1. destruct (F1' ((c, xs), d)) as [cr F1]. clear F1'. cbn [fst snd] in F1.
    set (f0 := fun a : car (Prod C X) => rb (run fuel (fwdT p) a) (fun z : (car C * car Y) * resid p => inl (fst (fst z), (snd (fst z), snd z)))).
    pose (g0 := fun a : car (Prod (Prod C DictS) X) => rb (run fuel (fwdT body) a) (fun z : ((car C * dict) * (car Y * dict)) * resid body => inl (fst (fst z), (snd (fst z), snd z)))).
    set (S0 := scan_sem rv len f0 (c, xs)). pose (S1 := scan_sem rv len g0 ((c, cr), xs)).
    match goal with |- context [@scan_sem ?a1 ?a2 ?a3 rv len ?g (fst ?w)] => assert (Es : @scan_sem a1 a2 a3 rv len g (fst w) = S1) by (exact (f_equal (scan_sem rv len g0) F1)); rewrite Es; clear Es end.
    set (R := fun (r' : resid body) (r : resid p) => forall cc cy, run fuel (bwdT body) (r', ((cc, []), (cy, []))) = rb (run fuel (bwdT p) (r, (cc, cy))) (fun g => inl ((fst g, []), snd g))).
    set (Ry := fun (a : (car Y * dict) * resid body) (b : car Y * resid p) => fst (fst a) = fst b /\ R (snd a) (snd b)).
    assert (K : forall z c' x x', fst z = c' -> x = x' -> rel_res (fun r r' => fst (fst r) = fst r' /\ Ry (snd r) (snd r')) (g0 (z, x)) (f0 (c', x'))).
    { intros [c' cr'] ? x0 ? <- <-. unfold g0, f0. match goal with |- rel_res _ (rb ?u _) (rb ?v _) => set (U := u); set (V := v) end.
      assert (H' : match U, V with inl (z, r'), inl (y, r) => (fst (fst z) = fst y /\ fst (snd z) = snd y) /\ R r' r | inr e, inr e' => e = e' | _, _ => False end) by exact (H fuel c' cr' x0). clearbody U V. clear H. rename H' into H.
      destruct U as [[[[c1 d2] [y1 d3]] r']|], V as [[[c2 y2] r]|]; cbn in *; try contradiction; [|exact H]. destruct H as [[-> ->] H]. split; [reflexivity|]. split; [reflexivity|exact H]. }
    pose proof (scan_sem_rel rv len g0 f0 (fun z c' => fst z = c') eq Ry K (c, cr) c xs xs eq_refl (Forall2_same _ _ (fun x => eq_refl)) : rel_res _ S1 S0) as G. clear K.
    assert (L0 : match S0 with inl r => List.length (snd r) = len | inr _ => True end) by (destruct S0 eqn:E0; [exact (scan_sem_length rv len f0 _ _ E0)|exact I]).
    clearbody S1 S0. destruct S1 as [[z1 l1]|], S0 as [[c0 l0]|]; cbn [rel_res rb fst snd] in *; try contradiction; [|exact G]. destruct G as [<- G]. split.
    - rewrite F2. cbn [fst snd]. assert (Em : map fst (map fst l1) = map fst l0) by (clear -G; induction G as [|a b l m [E _] _ IH]; [reflexivity|exact (f_equal2 cons E IH)]). exact (f_equal (fun l => (fst z1, l)) Em).
    - intros [cc cys]. cbn [fst snd]. rewrite B2. pose proof (F2_len _ _ _ G) as L1.
      assert (E0 : Nat.eqb (List.length (map snd l0)) (List.length cys) = Nat.eqb (List.length cys) len) by (rewrite map_length, L0; apply Nat.eqb_sym). rewrite E0.
      destruct (Nat.eqb (List.length cys) len) eqn:En; cbn [rb fst snd]; [|reflexivity].
      assert (E1 : Nat.eqb (List.length (map snd l1)) (List.length (map (fun c : co Y => (c, @nil (string * tree))) cys)) = true) by (rewrite !map_length, L1, L0; apply Nat.eqb_sym in En || idtac; apply Nat.eqb_eq in En; apply Nat.eqb_eq; symmetry; exact En).
      match goal with |- context [if Nat.eqb ?u ?v then _ else _] => change (Nat.eqb u v) with (Nat.eqb (List.length (map snd l1)) (List.length (map (fun c : co Y => (c, @nil (string * tree))) cys))) end. rewrite E1. cbn [rb fst snd].
      assert (G2 : Forall2 R (map snd l1) (map snd l0)) by (clear -G; induction G as [|a b l m [_ E] _ IH]; cbn; constructor; auto).
      match goal with |- rb (rb (rb (scan_sem ?b ?n ?g1 _) _) _) _ = rb (scan_sem _ _ ?g2 _) _ => pose proof (scan_sem_hom b n g2 g1 (fun c => (c, [])) (fun y => y) (combine (map snd l1) (map (fun c => (c, [])) cys)) (combine (map snd l0) cys)) as Hh end.
      match type of Hh with ?P -> _ => assert (HP : P) end.
      { clear -G2. revert cys. induction G2 as [|r' r l m Er _ IH]; intros [|cy cys]; cbn [combine map]; constructor; [|apply IH]. intros c0. cbn [fst snd]. exact (Er c0 cy). }
      specialize (Hh HP cc). clear HP.
      match type of Hh with ?a = rb ?b ?kk => match goal with |- rb (rb (rb ?a' ?k1) ?k2) ?k3 = rb ?b' ?k4 =>
        refine (eq_trans (f_equal (fun u => rb (rb (rb u k1) k2) k3) (Hh : a' = rb b' kk)) _); clear Hh; destruct b' as [[gc gx]|] end end; cbn [rb fst snd]; [rewrite map_id; exact (B1 gc gx)|reflexivity].
  Qed.
  Lemma sim_seq {X Y Z} (p : vprog X Y) p1 (q : vprog Y Z) q1 : Sim p p1 -> Sim q q1 -> Sim (RevSeq p q) (RevSeq p1 q1).
  Proof.
    intros A B fuel x d. specialize (A fuel x d). cbn [fwdT bwdT run fst snd rb]. destruct (run fuel (fwdT p1) (x, d)) as [[[y1 d1] r1]|], (run fuel (fwdT p) x) as [[y r]|]; cbn [rb]; try contradiction; [|exact A]. destruct A as [Ey A]. cbn [fst snd] in *. subst y1.
    specialize (B fuel y d1). destruct (run fuel (fwdT q1) (y, d1)) as [[[z1 d2] r2]|], (run fuel (fwdT q) y) as [[z r']|]; cbn [rb]; try contradiction; [|exact B]. destruct B as [Ez B]. cbn [fst snd] in *. split; [exact Ez|]. intros ct. rewrite B.
    destruct (run fuel (bwdT q) (r', ct)) as [cy|]; cbn [rb fst snd]; [|reflexivity]. exact (A cy).
  Qed.
  Lemma sim_reap s {X Y} (p : vprog X Y) : forall M r, reapV s p M = inl r -> Sim p (snd r).
  Proof.
    induction p as [X Y f df ft|X Y Z p IHp q IHq|X Y C p IHp|t n m av|X Y sc p IHp|X Y p IHp|X Y p IHp q IHq|C X Y rv len p IHp|X Y R fwd bwd]; intros M r H; cbn [reapV] in H.
    - injection H as <-. apply sim_first.
    - apply rb_inl in H as (r1 & H1 & H). apply rb_inl in H as (r2 & H2 & H). injection H as <-. exact (sim_seq _ _ _ _ (IHp _ _ H1) (IHq _ _ H2)).
    - apply rb_inl in H as (r1 & H1 & H). injection H as <-. intros fuel [x c] d. specialize (IHp _ _ H1 fuel x d). cbn [fst snd fwdT bwdT VMove run rb swap]. unfold swap. cbn [fst snd].
      align IHp (snd r1). match type of IHp with match ?u with _ => _ end => destruct u as [[[y1 d1] r']|] end; destruct (run fuel (fwdT p) x) as [[y r2]|]; cbn [rb]; try contradiction; [|exact IHp]. destruct IHp as [Ey IHp]. cbn [fst snd rb] in *. subst y1. split; [reflexivity|]. intros [ct cc]. cbn [fst snd rb]. rewrite IHp.
      destruct (run fuel (bwdT p) (r2, ct)) as [g|]; reflexivity.
    - destruct (is_cond m) eqn:Em; [discriminate|].
      assert (K : forall fuel x, run fuel (fwdT (RevSow t n m av)) x = rb (chk av x) (fun v => inl (v, tt))) by (intros; cbn [fwdT run]; rewrite Em; reflexivity).
      destruct (String.eqb t (tag_of s)); [destruct (passes s n); [apply rb_inl in H as (M' & HM & H)|]|destruct (exclusive s)]; injection H as <-; cbn [fst snd].
      + intros fuel x d; rewrite K; cbn [fwdT bwdT VStore run rb fst snd]. unfold chk. destruct (has_aval x av); cbn [rb fst snd]; [|reflexivity]. split; [reflexivity|]. intros ct. reflexivity.
      + intros fuel x d; rewrite K; cbn [fwdT bwdT VId_chk run rb fst snd]. unfold chk. destruct (has_aval x av); cbn [rb fst snd]; [|reflexivity]. split; [reflexivity|]. intros ct. reflexivity.
      + intros fuel x d; rewrite K; cbn [fwdT bwdT VId_chk run rb fst snd]. unfold chk. destruct (has_aval x av); cbn [rb fst snd]; [|reflexivity]. split; [reflexivity|]. intros ct. reflexivity.
      + apply sim_first.
    - apply rb_inl in H as (r1 & H1 & H). apply rb_inl in H as (M' & HM & H). injection H as <-. cbn [snd].
      refine (sim_inner p (snd r1) _ _ (IHp _ _ H1) _ _); [reflexivity|]. intros ct. cbn [fst snd]. destruct (fst r1); [reflexivity|]. destruct (passes s sc); reflexivity.
    - apply rb_inl in H as (r1 & H1 & H). apply rb_inl in H as (M' & HM & H). injection H as <-. cbn [snd].
      refine (sim_inner p (snd r1) _ _ (IHp _ _ H1) _ _); [reflexivity|]. intros ct. reflexivity.
    - apply rb_inl in H as (r1 & H1 & H). apply rb_inl in H as (r2 & H2 & H). apply rb_inl in H as (u & Hu & H). apply rb_inl in H as (M' & HM & H). injection H as <-. cbn [snd].
      refine (sim_cond p q (snd r1) (snd r2) _ _ (IHp _ _ H1) (IHq _ _ H2) _ _); [reflexivity|]. intros ct. reflexivity.
    - cbv zeta in H. apply rb_inl in H as (r1 & H1 & H). destruct (existsb _ _); [discriminate|]. destruct (_ && _)%bool; [discriminate|]. destruct (existsb _ _); [discriminate|]. apply rb_inl in H as (M' & HM & H). injection H as <-. cbn [snd].
      refine (sim_scan rv len p _ _ _ _ _ (sim_body p (snd r1) _ _ _ _ (IHp _ _ H1) _ _ _ _) _ _ _ _); try (intros; first [reflexivity|split; reflexivity]).
      intros cc cys. cbn [fst snd filter]. destruct (Nat.eqb_spec (List.length cys) len) as [El|]; [|reflexivity]. cbn [unstacked rb fst snd]. rewrite (combine_repeat cys len [] El). reflexivity.
    - apply rb_inl in H as (r0 & H0 & H). apply rb_inl in H as ([M1 p1] & H1 & H). apply rb_inl in H as (b & Hb & H). injection H as <-. cbn [fst snd]. intros fuel x d. cbn [fwdT bwdT resid run rb fst snd].
      match goal with |- context [@run ?a ?f ?A ?B p1 ?z] => pose proof (run_reapT s fuel fwd _ _ _ H1 x d : same_out (run fuel fwd x) (@run a f A B p1 z)) as K; unfold same_out in K end. match goal with |- context [@run ?a ?f ?A ?B p1 ?z] => destruct (@run a f A B p1 z) as [[[y1 r1] d1]|] end; destruct (run fuel fwd x) as [[y r]|]; cbn [rel_res rb fst snd] in *; try contradiction; [|congruence].
      injection K as -> ->. split; [reflexivity|]. intros ct. pose proof (C23_reap_outputs s _ _ Hb fuel (r, ct)) as G.
      destruct (run fuel bwd (r, ct)) as [g|]; [destruct G as [d2 G]|]; rewrite G; reflexivity.
  Qed.
  (** the reaped values are thrown away: jax.vjp(lambda x: call_and_reap(f)(x)[0]) *)
  Definition forget {Y : space} : vprog (Prod Y ReapS) Y := VMove (X := Prod Y ReapS) fst (fun ct => inl (ct, [])).
  Theorem C80_rules_kept s fuel {X Y} (f : vprog X Y) q : call_and_reapV s f = inl q -> forall x ct, run fuel (vjpV (RevSeq q forget)) (x, ct) = run fuel (vjpV f) (x, ct).
  Proof.
    intros H x ct. apply same_vjp. clear fuel x ct. unfold call_and_reapV in H. apply rb_inl in H as ([M p'] & H & E). injection E as <-. pose proof (sim_reap s f _ _ H) as S. cbn [snd] in *. intros fuel x. specialize (S fuel x []).
    cbn [fwdT bwdT enter forget VMove run fst snd rb]. align S p'. match type of S with match ?u with _ => _ end => destruct u as [[[y1 d1] r']|] end.
    - destruct (run fuel (fwdT f) x) as [[y r]|]; [|contradiction]. destruct S as [Ey S]. cbn [rb fst snd] in *. subst y1. split; [reflexivity|]. intros ct. cbn [rb fst snd]. rewrite S. destruct (run fuel (bwdT f) (r, ct)) as [g|]; reflexivity.
    - destruct (run fuel (fwdT f) x) as [[y r]|]; [contradiction|]. exact S.
  Qed.

  (** ** 5. reap(jax.vjp(f)): what the forward pass sows, with fwd in place of a function with a rule; cotangents are not sown *)
  Lemma sowless_reap s {A B} (p : prog A B) : sowless p -> forall M, exists p', reapT s p M = inl (M, p') /\ forall fuel x d, run fuel p' (x, d) = rb (run fuel p x) (fun y => inl (y, d)).
  Proof.
    induction p as [A B f|A B C p IHp q IHq|A B C p IHp|t n m av|t n av|A B sc p IHp|A B p IHp|C X Y rv len p IHp|C c p IHp|A B p IHp q IHq]; cbn [sowless]; intros H M; try contradiction; cbn [reapT].
    - eexists. split; [reflexivity|]. intros. reflexivity.
    - destruct H as [H1 H2]. destruct (IHp H1 M) as (p1 & E1 & K1). destruct (IHq H2 M) as (q1 & E2 & K2). rewrite E1. cbn [rb fst snd]. rewrite E2. eexists. split; [reflexivity|]. intros fuel x d. cbn [run fst snd rb]. rewrite K1. destruct (run fuel p x); cbn [rb]; [apply K2|reflexivity].
    - destruct (IHp H M) as (p1 & E1 & K1). rewrite E1. eexists. split; [reflexivity|]. intros fuel [x c] d. cbn [run fst snd rb swap]. unfold swap. cbn [fst snd]. rewrite K1. destruct (run fuel p x); reflexivity.
    - destruct (IHp H []) as (p1 & E1 & K1). rewrite E1. eexists. split; [reflexivity|]. intros fuel x d. cbn [run fst snd rb]. rewrite K1. destruct (run fuel p x); reflexivity.
    - destruct (IHp H []) as (p1 & E1 & K1). rewrite E1. eexists. split; [reflexivity|]. intros fuel x d. cbn [run fst snd rb]. rewrite K1. destruct (run fuel p x); reflexivity.
    - destruct (IHp H []) as (p1 & E1 & K1). rewrite E1. cbv zeta. cbn [rb fst snd existsb clobbers appends filter stack_meta map app resow_meta]. change (is_cond (last_mode [])) with false. cbn [andb rb]. eexists. split; [reflexivity|]. intros fuel [c xs] d. cbn [run fst snd rb].
      match goal with |- context [@scan_sem ?a1 ?a2 ?a3 ?a4 ?a5 ?g1 (?z, xs)] => pose proof (scan_sem_hom rv len (run fuel p) g1 (fun c => (c, [] : dict)) (fun y => (y, [] : dict)) xs xs) as Hh end.
      match type of Hh with ?P -> _ => assert (HP : P) end.
      { apply Forall2_same. intros x c0. cbn [fst snd rb]. rewrite K1. destruct (run fuel p (c0, x)) as [[c1 y1]|]; reflexivity. }
      specialize (Hh HP c). clear HP. match type of Hh with _ = ?b => match goal with |- context [@scan_sem ?a1 ?a2 ?a3 ?a4 ?a5 ?g1 ?z] => assert (Hh' : @scan_sem a1 a2 a3 a4 a5 g1 z = b) by exact Hh; rewrite Hh' end end. clear Hh Hh'. destruct (scan_sem rv len (run fuel p) (c, xs)) as [[c1 ys]|]; cbn [rb fst snd]; [|reflexivity]. rewrite map_map. cbn [fst]. rewrite map_id. reflexivity.
    - destruct H as [H1 H2]. destruct (IHp H1 []) as (p1 & E1 & K1). destruct (IHq H2 []) as (q1 & E2 & K2). rewrite E1. cbn [rb]. rewrite E2. eexists. split; [reflexivity|]. intros fuel [b x] d. cbn [run fst snd rb]. destruct b; [rewrite K1; destruct (run fuel p x)|rewrite K2; destruct (run fuel q x)]; reflexivity.
  Qed.
  Lemma bwd_sowless {X Y} (p : vprog X Y) : quiet_rules p -> sowless (bwdT p).
  Proof. induction p; cbn [quiet_rules bwdT sowless]; tauto. Qed.
  Definition fwd_rel (s : settings) {X Y} (p : vprog X Y) : Prop := forall M, match reapT s (fwdT p) M, reapT s (fwdV p) M with
    | inl r, inl r' => fst r = fst r' /\ forall fuel x d, run fuel (snd r') (x, d) = rb (run fuel (snd r) (x, d)) (fun z => inl (fst (fst z), snd z))
    | inr e, inr e' => e = e'
    | _, _ => False
    end.
  Lemma fwd_reap s {X Y} (p : vprog X Y) : fwd_rel s p.
  Proof.
    induction p as [X Y f df ft|X Y Z p IHp q IHq|X Y C p IHp|t n m av|X Y sc p IHp|X Y p IHp|X Y p IHp q IHq|C X Y rv len p IHp|X Y R fwd bwd]; intros M; cbn [fwdT fwdV reapT resid].
    - cbn [fst snd]. split; [reflexivity|]. intros fuel x d. cbn [run fst snd]. destruct (f x); reflexivity.
    - specialize (IHp M). destruct (reapT s (fwdT p) M) as [[M1 p1]|], (reapT s (fwdV p) M) as [[M1' p1']|]; cbn [rb]; try contradiction; [|exact IHp]. destruct IHp as [EM Kp]. cbn [fst snd] in *. subst M1'.
      specialize (IHq M1). destruct (reapT s (fwdT q) M1) as [[M2 q1]|], (reapT s (fwdV q) M1) as [[M2' q1']|]; cbn [rb]; try contradiction; [|exact IHq]. destruct IHq as [EM Kq]. cbn [fst snd] in *. subst M2'. split; [reflexivity|].
      intros fuel x d. cbn [run fst snd rb resid]. rewrite Kp. destruct (run fuel p1 (x, d)) as [[[y r] d1]|]; cbn [rb fst snd]; [|reflexivity]. unfold swap. cbn [fst snd]. rewrite Kq. destruct (run fuel q1 (y, d1)) as [[[z r2] d2]|]; reflexivity.
    - specialize (IHp M). destruct (reapT s (fwdT p) M) as [[M1 p1]|], (reapT s (fwdV p) M) as [[M1' p1']|]; cbn [rb]; try contradiction; [|exact IHp]. destruct IHp as [EM Kp]. cbn [fst snd] in *. subst M1'. split; [reflexivity|].
      intros fuel [x c] d. cbn [run fst snd rb resid]. unfold swap. cbn [fst snd]. rewrite Kp. destruct (run fuel p1 (x, d)) as [[[y r] d1]|]; reflexivity.
    - destruct (is_cond m) eqn:Em; [reflexivity|]. destruct (String.eqb t (tag_of s)); [destruct (passes s n); [destruct (handle M n m av); cbn [rb]; [|reflexivity]|]|destruct (exclusive s)]; cbn [fst snd rb]; (split; [reflexivity|]); intros fuel x d; cbn [run fst snd rb resid]; rewrite ?Em; unfold chk; destruct (has_aval x av); reflexivity.
    - specialize (IHp []). destruct (reapT s (fwdT p) []) as [[M1 p1]|], (reapT s (fwdV p) []) as [[M1' p1']|]; cbn [rb]; try contradiction; [|exact IHp]. destruct IHp as [EM Kp]. cbn [fst snd] in *. subst M1'.
      destruct (match M1 with [] => _ | _ :: _ => _ end) as [M'|]; cbn [rb fst snd]; [|reflexivity]. split; [reflexivity|]. intros fuel x d. cbn [run fst snd rb resid]. rewrite Kp. match goal with |- context [@run ?a ?f ?A ?B p1 ?z] => destruct (@run a f A B p1 z) as [[[y r] d1]|] end; reflexivity.
    - specialize (IHp []). destruct (reapT s (fwdT p) []) as [[M1 p1]|], (reapT s (fwdV p) []) as [[M1' p1']|]; cbn [rb]; try contradiction; [|exact IHp]. destruct IHp as [EM Kp]. cbn [fst snd] in *. subst M1'.
      destruct (resow_meta s M M1) as [M'|]; cbn [rb fst snd]; [|reflexivity]. split; [reflexivity|]. intros fuel x d. cbn [run fst snd rb resid]. rewrite Kp. match goal with |- context [@run ?a ?f ?A ?B p1 ?z] => destruct (@run a f A B p1 z) as [[[y r] d1]|] end; reflexivity.
    - cbn [rb fst snd]. specialize (IHp []). destruct (reapT s (fwdT p) []) as [[M1 p1]|], (reapT s (fwdV p) []) as [[M1' p1']|]; cbn [rb]; try contradiction; [|exact IHp]. destruct IHp as [EM Kp]. cbn [fst snd] in *. subst M1'.
      specialize (IHq []). destruct (reapT s (fwdT q) []) as [[M2 q1]|], (reapT s (fwdV q) []) as [[M2' q1']|]; cbn [rb]; try contradiction; [|exact IHq]. destruct IHq as [EM Kq]. cbn [fst snd] in *. subst M2'.
      destruct (check_branches M1 M2); cbn [rb]; [|reflexivity]. destruct (resow_meta s M M1) as [M'|]; cbn [rb fst snd]; [|reflexivity]. split; [reflexivity|]. intros fuel [b x] d. cbn [run fst snd rb resid]. destruct b.
      + rewrite Kp. match goal with |- context [@run ?a ?f ?A ?B p1 ?z] => destruct (@run a f A B p1 z) as [[[y r] d1]|] end; reflexivity.
      + rewrite Kq. match goal with |- context [@run ?a ?f ?A ?B q1 ?z] => destruct (@run a f A B q1 z) as [[[y r] d1]|] end; reflexivity.
    - cbn [rb fst snd]. specialize (IHp []). match goal with |- context [@reapT ?a ?b ?c ?d (fwdT p) []] => set (R1 := @reapT a b c d (fwdT p) []) end. match goal with |- context [@reapT ?a ?b ?c ?d (fwdV p) []] => set (R2 := @reapT a b c d (fwdV p) []) end.
      assert (IH : match R1, R2 with
        | inl r, inl r' => fst r = fst r' /\ forall fuel x d, run fuel (snd r') (x, d) = rb (run fuel (snd r) (x, d)) (fun z => inl (fst (fst z), snd z))
        | inr e, inr e' => e = e' | _, _ => False end) by exact IHp. clearbody R1 R2. clear IHp. rename IH into IHp.
      destruct R1 as [[M1 p1]|], R2 as [[M1' p1']|]; cbn [rb]; try contradiction; [|exact IHp]. destruct IHp as [EM Kp]. cbn [fst snd] in *. subst M1'. cbv zeta. cbn [fst snd rb].
      destruct (existsb _ _); [reflexivity|]. destruct (_ && _)%bool; [reflexivity|]. destruct (resow_meta s M _) as [M'|]; cbn [rb fst snd]; [|reflexivity]. split; [reflexivity|]. intros fuel [c xs] d. cbn [run fst snd rb].
      match goal with |- rb (rb (scan_sem _ _ ?g1 _) ?k1) ?k2 = rb (rb (rb (rb (scan_sem _ _ ?g2 ?z2) ?k3) ?k4) ?k5) ?k6 =>
        pose proof (scan_sem_hom rv len g2 g1 (fun c => c) (fun y => (fst (fst y), snd y)) xs xs) as Hh;
        match type of Hh with ?P -> _ => assert (HP : P) end; [|specialize (Hh HP (c, carry0 M1)); clear HP; refine (eq_trans (f_equal (fun u => rb (rb u k1) k2) Hh) _); set (S2 := scan_sem rv len g2 z2)] end.
      { apply Forall2_same. intros x c0. cbn [fst snd rb]. rewrite Kp. match goal with |- context [@run ?a ?f ?A ?B p1 ?z] => destruct (@run a f A B p1 z) as [[[[c1 y1] r1] d1]|] end; reflexivity. }
      try match goal with |- context [@scan_sem ?a1 ?a2 ?a3 ?a4 ?a5 ?a6 ?a7] => change (@scan_sem a1 a2 a3 a4 a5 a6 a7) with S2 end. clearbody S2. clear Hh. destruct S2 as [[[c1 cr1] l]|]; cbn [rb fst snd]; [|reflexivity]. rewrite !map_map. reflexivity.
    - cbn [resid]. destruct (reapT s fwd M) as [[M1 p1]|]; cbn [rb fst snd]; [|reflexivity]. split; [reflexivity|]. intros fuel x d. cbn [run fst snd rb resid]. destruct (run fuel p1 (x, d)) as [[[y r] d1]|]; reflexivity.
  Qed.
  Theorem C80_reap_of_vjp s {X Y} (f : vprog X Y) : quiet_rules f -> match call_and_reap s (vjpV f), call_and_reap s (fwdV f) with
    | inl q, inl q' => forall fuel x ct y g d, run fuel q (x, ct) = inl ((y, g), d) <-> run fuel (vjpV f) (x, ct) = inl (y, g) /\ run fuel q' x = inl (y, d)
    | inr e, inr e' => e = e'
    | _, _ => False
    end.
  Proof.
    intros HQ. unfold call_and_reap, vjpV. cbn [reapT]. pose proof (fwd_reap s f []) as K. destruct (reapT s (fwdT f) []) as [[M p1]|] eqn:E1, (reapT s (fwdV f) []) as [[M' p1']|]; cbn [rb]; try contradiction; [|exact K]. destruct K as [EM K]. cbn [fst snd] in *. subst M'.
    destruct (sowless_reap s (bwdT f) (bwd_sowless f HQ) M) as (b1 & E2 & KB). rewrite E2. cbn [rb fst snd]. intros fuel x ct y g d. cbn [run fst snd rb]. unfold swap. cbn [fst snd]. rewrite K.
    match goal with |- context [@run ?a ?f0 ?A ?B p1 ?z] => pose proof (run_reapT s fuel (fwdT f) _ _ _ E1 x [] : same_out (run fuel (fwdT f) x) (@run a f0 A B p1 z)) as O; unfold same_out in O; destruct (@run a f0 A B p1 z) as [[[y1 r] d1]|] end; destruct (run fuel (fwdT f) x) as [[y2 r2]|]; cbn [rel_res rb fst snd] in *; try contradiction.
    - injection O as -> ->. rewrite KB. destruct (run fuel (bwdT f) (r2, ct)) as [g1|]; cbn [rb fst snd]; [|split; [discriminate|intros [H _]; discriminate]]. split.
      + intros H. injection H as -> -> ->. auto.
      + intros [H1 H2]. injection H1 as -> ->. injection H2 as ->. reflexivity.
    - split; [discriminate|]. intros [H _]. discriminate.
  Qed.
  (** without rules, the forward pass is the function itself *)
  Theorem C80_forward_is_f {X Y} (f : vprog X Y) : rule_free f -> fwdV f = primal (toD f) /\ quiet_rules f.
  Proof.
    induction f as [X Y f df ft|X Y Z p IHp q IHq|X Y C p IHp|t n m av|X Y sc p IHp|X Y p IHp|X Y p IHp q IHq|C X Y rv len p IHp|X Y R fwd bwd]; cbn [rule_free fwdV toD primal quiet_rules]; intros H; try tauto; try contradiction.
    - destruct H as [H1 H2]. destruct (IHp H1) as [-> ?], (IHq H2) as [-> ?]. auto.
    - destruct (IHp H) as [-> ?]. auto.
    - destruct (IHp H) as [-> ?]. auto.
    - destruct (IHp H) as [-> ?]. auto.
    - destruct H as [H1 H2]. destruct (IHp H1) as [-> ?], (IHq H2) as [-> ?]. auto.
    - destruct (IHp H) as [-> ?]. auto.
  Qed.
End props.
