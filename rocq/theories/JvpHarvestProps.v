(** C70: harvesting differentiated functions. *)
From Verif Require Export JvpHarvestModel HarvestSucceeds.
Open Scope string_scope. Open Scope list_scope. Open Scope nat_scope.

Section spec.
  Context {AR : Arrays}.
  (** the function without its sows: a sow is the identity, on tangents too *)
  Fixpoint erase {A B} (p : dprog A B) : dprog A B :=
    match p in dprog A B return dprog A B with
    | DPure f df => DPure f df
    | DSeq p q => DSeq (erase p) (erase q)
    | DFirst C p => DFirst C (erase p)
    | DSow t n m a => DPure (fun v => if is_cond m then inr ValueErr else chk a v) (fun _ dv => inl dv)
    | DSowCond t n a => DPure (fun vp => chk a (fst vp)) (fun _ dvp => inl (fst dvp))
    | DNest sc p => erase p
    | DCall p => erase p
    | DScan rv len p => DScan rv len (erase p)
    | DWhile c p => DWhile c (erase p)
    | DCond p q => DCond (erase p) (erase q)
    end.
End spec.

Section proofs.
  Context {AR : Arrays}.
  (** the sows of jvp(f) are the sows of f *)
  Lemma jvp_sites {A B} (p : dprog A B) : forall sP s pd, sites2 (jvpT p) sP s pd = sites2 (primal p) sP s pd.
  Proof.
    induction p as [A B f df|A B C p IHp q IHq|A B C p IHp|t n m av|t n av|A B sc p IHp|A B p IHp|C X Y rv len p IHp|C c p IHp|A B p IHp q IHq]; intros sP s pd; cbn [jvpT primal sites2]; cbv zeta; cbn [app];
      rewrite ?app_nil_r, ?IHp, ?IHq; try reflexivity.
  Qed.
  Lemma jvp_tame {A B} (p : dprog A B) : forall sP s pd, tame2 (jvpT p) sP s pd <-> tame2 (primal p) sP s pd.
  Proof.
    induction p as [A B f df|A B C p IHp q IHq|A B C p IHp|t n m av|t n av|A B sc p IHp|A B p IHp|C X Y rv len p IHp|C c p IHp|A B p IHp q IHq]; intros sP s pd; cbn [jvpT primal tame2 sites2]; cbv zeta; cbn [app];
      rewrite ?app_nil_r, ?jvp_sites, ?IHp, ?IHq; tauto.
  Qed.
  Lemma jvp_regular {A B} (p : dprog A B) s pd : regular s (jvpT p) pd <-> regular s (primal p) pd.
  Proof. unfold regular2. rewrite jvp_tame, jvp_sites. tauto. Qed.
  Lemma jvp_legal {A B} (p : dprog A B) s : legal s (jvpT p) <-> legal s (primal p).
  Proof.
    induction p as [A B f df|A B C p IHp q IHq|A B C p IHp|t n m av|t n av|A B sc p IHp|A B p IHp|C X Y rv len p IHp|C c p IHp|A B p IHp q IHq]; cbn [jvpT primal legal sites2]; cbn [app];
      rewrite ?app_nil_r, ?jvp_sites, ?IHp, ?IHq; tauto.
  Qed.
  Lemma jvp_legal_with {A B} (p : dprog A B) s : forall pd, legal_with s (jvpT p) pd <-> legal_with s (primal p) pd.
  Proof.
    induction p as [A B f df|A B C p IHp q IHq|A B C p IHp|t n m av|t n av|A B sc p IHp|A B p IHp|C X Y rv len p IHp|C c p IHp|A B p IHp q IHq]; intros pd; cbn [jvpT primal legal_with sites2]; cbv zeta; cbn [app];
      rewrite ?app_nil_r, ?jvp_sites, ?IHp, ?IHq; tauto.
  Qed.
  Lemma jvp_direct {A B} (p : dprog A B) : direct (jvpT p) = direct (primal p).
  Proof.
    induction p as [A B f df|A B C p IHp q IHq|A B C p IHp|t n m av|t n av|A B sc p IHp|A B p IHp|C X Y rv len p IHp|C c p IHp|A B p IHp q IHq]; cbn [jvpT primal direct]; cbn [app];
      rewrite ?app_nil_r, ?IHp, ?IHq; reflexivity.
  Qed.
  Lemma jvp_planted_once {A B} (p : dprog A B) s sk : planted_once s (jvpT p) sk <-> planted_once s (primal p) sk.
  Proof. unfold planted_once. rewrite jvp_direct. tauto. Qed.
  Lemma jvp_quiet {A B} (p : dprog A B) s : quiet s (jvpT p) = quiet s (primal p).
  Proof.
    induction p as [A B f df|A B C p IHp q IHq|A B C p IHp|t n m av|t n av|A B sc p IHp|A B p IHp|C X Y rv len p IHp|C c p IHp|A B p IHp q IHq]; cbn [jvpT primal quiet]; rewrite ?IHp, ?IHq, ?andb_true_r; reflexivity.
  Qed.
  Lemma jvp_plantable {A B} (p : dprog A B) s : forall sk, plantable s (jvpT p) sk <-> plantable s (primal p) sk.
  Proof.
    induction p as [A B f df|A B C p IHp q IHq|A B C p IHp|t n m av|t n av|A B sc p IHp|A B p IHp|C X Y rv len p IHp|C c p IHp|A B p IHp q IHq]; intros sk; cbn [jvpT primal plantable sites2 legal];
      unfold planted_once; cbn [direct app]; rewrite ?app_nil_r, ?jvp_sites, ?IHp, ?IHq, ?jvp_legal, ?jvp_direct, ?jvp_quiet; tauto.
  Qed.

  (** loops *)
  Lemma scan_loop_sim {C X Y C' X' Y'} (RC : C -> C' -> Prop) (RX : X -> X' -> Prop) (RY : Y -> Y' -> Prop) (f : C * X -> res (C * Y)) (g : C' * X' -> res (C' * Y')) :
    (forall c x c' x' r, RC c c' -> RX x x' -> f (c, x) = inl r -> exists r', g (c', x') = inl r' /\ RC (fst r) (fst r') /\ RY (snd r) (snd r')) ->
    forall xs xs' c c' r, Forall2 RX xs xs' -> RC c c' -> scan_loop f c xs = inl r -> exists r', scan_loop g c' xs' = inl r' /\ RC (fst r) (fst r') /\ Forall2 RY (snd r) (snd r').
  Proof.
    intros Hfg. induction xs as [|x xs IH]; intros xs' c c' r Hx Hc H; inversion Hx as [|? x' ? xs'' Rx Rxs]; subst; cbn [scan_loop] in *.
    - injection H as <-. exists (c', []). split; [reflexivity|]. cbn. auto.
    - apply rb_inl in H as (r1 & H1 & H). apply rb_inl in H as (r2 & H2 & H). injection H as <-. destruct (Hfg _ _ _ _ _ Hc Rx H1) as (r1' & G1 & K1 & K2). rewrite G1. cbn [rb].
      destruct (IH _ _ _ _ Rxs K1 H2) as (r2' & G2 & L1 & L2). rewrite G2. cbn [rb]. eexists. split; [reflexivity|]. cbn. auto.
  Qed.
  Lemma F2_rev {X Y} (R : X -> Y -> Prop) l l' : Forall2 R l l' -> Forall2 R (rev l) (rev l').
  Proof. induction 1; cbn; [constructor|]. apply Forall2_app; auto. Qed.
  Lemma F2_rev_if {X Y} (R : X -> Y -> Prop) b l l' : Forall2 R l l' -> Forall2 R (rev_if b l) (rev_if b l').
  Proof. destruct b; cbn; [apply F2_rev|auto]. Qed.
  Lemma scan_sem_sim {C X Y C' X' Y'} (RC : C -> C' -> Prop) (RX : X -> X' -> Prop) (RY : Y -> Y' -> Prop) (f : C * X -> res (C * Y)) (g : C' * X' -> res (C' * Y')) rv len :
    (forall c x c' x' r, RC c c' -> RX x x' -> f (c, x) = inl r -> exists r', g (c', x') = inl r' /\ RC (fst r) (fst r') /\ RY (snd r) (snd r')) ->
    forall cx cx' r, Forall2 RX (snd cx) (snd cx') -> RC (fst cx) (fst cx') -> scan_sem rv len f cx = inl r -> exists r', scan_sem rv len g cx' = inl r' /\ RC (fst r) (fst r') /\ Forall2 RY (snd r) (snd r').
  Proof.
    intros Hfg [c xs] [c' xs'] r Hx Hc H. cbn [fst snd] in *. unfold scan_sem in *. cbn [fst snd] in *. assert (El : List.length xs = List.length xs') by (clear - Hx; induction Hx; cbn; congruence).
    rewrite <- El. destruct (Nat.eqb (List.length xs) len); [|discriminate]. apply rb_inl in H as (r1 & H1 & H). injection H as <-.
    destruct (scan_loop_sim RC RX RY f g Hfg _ _ _ _ _ (F2_rev_if RX rv _ _ Hx) Hc H1) as (r1' & G & K1 & K2). rewrite G. cbn [rb]. eexists. split; [reflexivity|]. cbn [fst snd]. split; [exact K1|]. apply F2_rev_if, K2.
  Qed.
  Lemma while_sim {C C'} (RC : C -> C' -> Prop) (c : C -> res bool) (c' : C' -> res bool) (f : C -> res C) (g : C' -> res C') :
    (forall x x' b, RC x x' -> c x = inl b -> c' x' = inl b) -> (forall x x' r, RC x x' -> f x = inl r -> exists r', g x' = inl r' /\ RC r r') ->
    forall fuel x x' r, RC x x' -> while_loop fuel c f x = inl r -> exists r', while_loop fuel c' g x' = inl r' /\ RC r r'.
  Proof.
    intros Hc Hf. induction fuel as [|fuel IH]; intros x x' r Hx H; cbn [while_loop] in *; apply rb_inl in H as (b & Hb & H); rewrite (Hc _ _ _ Hx Hb); cbn [rb]; destruct b; try discriminate; try (injection H as <-; eauto).
    apply rb_inl in H as (y & Hy & H). destruct (Hf _ _ _ Hx Hy) as (y' & Gy & Ry). rewrite Gy. cbn [rb]. exact (IH _ _ _ Ry H).
  Qed.

  Lemma F2_combine {X Y} (R : X -> Y -> Prop) xs ys : Forall2 R xs ys -> forall z, In z (combine xs ys) -> R (fst z) (snd z).
  Proof. induction 1; cbn; intros z K; [destruct K|]. destruct K as [<-|K]; auto. Qed.
  Lemma combine_fst {X Y} (l : list X) : forall (l' : list Y), List.length l = List.length l' -> map fst (combine l l') = l.
  Proof. induction l as [|x l IH]; intros [|y l'] H; try discriminate; cbn; [reflexivity|]. f_equal. apply IH. injection H as H. exact H. Qed.
  Lemma F2_map_fst {X Y} (l : list (X * Y)) : Forall2 (fun a b => fst a = b) l (map fst l).
  Proof. induction l; cbn; constructor; auto. Qed.
  Lemma F2_plants {X P} (l : list (X * X)) : forall (ps : list P), Forall2 (fun a b => fst (fst a) = fst b /\ snd a = snd b) (combine l ps) (combine (map fst l) ps).
  Proof. induction l as [|x l IH]; intros [|p ps]; cbn; constructor; cbn; auto. Qed.

  (** the run of jvp(f), recording sows: the primal value is that of the run of f, with the same record *)
  Lemma jvp_sem sP s fuel {A B} (p : dprog A B) : forall pd x r o, sem2 sP s fuel (jvpT p) pd x = inl (r, o) -> sem2 sP s fuel (primal p) pd (fst x) = inl (fst r, o).
  Proof.
    induction p as [A B f df|A B C p IHp q IHq|A B C p IHp|t n m av|t n av|A B sc p IHp|A B p IHp|C X Y rv len p IHp|C c p IHp|A B p IHp q IHq]; intros pd x r o H; cbn [jvpT primal sem2] in *.
    - apply rb_inl in H as (r1 & H1 & H). apply rb_inl in H1 as (y & Hy & H1). apply rb_inl in H1 as (dy & Hdy & H1). injection H1 as <-. injection H as <- <-. rewrite Hy. reflexivity.
    - apply rb_inl in H as ([r1 o1] & H1 & H). apply rb_inl in H as ([r2 o2] & H2 & H). injection H as <- <-. apply IHp in H1. cbn [fst snd] in *. rewrite H1. cbn [rb fst snd]. apply IHq in H2. rewrite H2. reflexivity.
    - cbn [rb fst snd] in H. apply rb_inl in H as ([r1 o1] & H1 & H). apply rb_inl in H1 as ([r2 o2] & H1 & H2). injection H as <- <-. apply rb_inl in H1 as ([r3 o3] & H1 & H3). injection H3 as <- <-. injection H2 as <- <-.
      apply IHp in H1. cbn [across fst snd] in *. rewrite H1. cbn. rewrite app_nil_r. reflexivity.
    - destruct (is_cond m); [discriminate|]. apply rb_inl in H as ([r1 o1] & H1 & H). injection H as <- <-. rewrite H1. reflexivity.
    - cbn [rb fst snd] in H. apply rb_inl in H as ([r1 o1] & H1 & H). injection H as <- <-. apply rb_inl in H1 as ([r2 o2] & H1 & H2). injection H2 as <- <-. cbn [fst snd] in *. rewrite H1. reflexivity.
    - apply rb_inl in H as ([r1 o1] & H1 & H). injection H as <- <-. apply IHp in H1. rewrite H1. cbn [rb fst snd]. rewrite jvp_sites. reflexivity.
    - apply IHp in H. exact H.
    - apply rb_inl in H as ([z o0] & H0 & H). apply rb_inl in H0 as (z' & H0 & E). injection E as <- <-. destruct (Nat.eqb (List.length (snd (fst x))) (List.length (snd (snd x)))) eqn:El in H0; [|discriminate]. apply Nat.eqb_eq in El. injection H0 as <-. cbn [fst snd] in H.
      match type of H with context [sites2 ?q sP s] => assert (Hq : forall sP s pd, sites2 q sP s pd = sites2 (primal p) sP s pd) by (intros; cbn [sites2 app]; rewrite app_nil_r; apply jvp_sites) end.
      rewrite !Hq in H. clear Hq. rewrite combine_length, <- El, Nat.min_id in H. destruct (Nat.eqb (List.length (snd (fst x))) len); [|discriminate].
      apply rb_inl in H as ([r1 o1] & H1 & H). injection H as <- <-. apply rb_inl in H1 as ([r2 o2] & H1 & H2). injection H2 as <- <-. apply rb_inl in H1 as (ps & Hps & H1). apply rb_inl in H1 as (cy & H1 & H2). injection H2 as <- <-.
      rewrite Hps. cbn [rb].
      match type of H1 with scan_sem _ _ ?f ?cx = _ => match goal with |- context [scan_sem _ _ ?g ?cx'] =>
        assert (K : exists r', scan_sem rv len g cx' = inl r' /\ fst (fst cy) = fst r' /\ Forall2 (fun (a : (Y * Y) * list occ) (b : Y * list occ) => fst (fst a) = fst b /\ snd a = snd b) (snd cy) (snd r')) end end.
      { eapply (scan_sem_sim (fun (a : C * C) (b : C) => fst a = b) (fun (a : (X * X) * plants) (b : X * plants) => fst (fst a) = fst b /\ snd a = snd b) (fun (a : (Y * Y) * list occ) (b : Y * list occ) => fst (fst a) = fst b /\ snd a = snd b)); [| | |exact H1]; cbn [fst snd].
        - intros c0 [x0 p0] c' [x' p'] r0 Hc [Hx Hp] E. cbn [fst snd rb] in *. subst c' x' p'. apply rb_inl in E as ([y1 o1] & E & E2). injection E2 as <-. apply rb_inl in E as ([y2 o2] & E & E2). injection E2 as <- <-. apply rb_inl in E as ([y3 o3] & E & E2). injection E2 as <- <-.
          apply IHp in E. cbn [across fst snd] in E. rewrite E. cbn [rb fst snd across app]. eexists. split; [reflexivity|]. cbn [fst snd]. rewrite app_nil_r. auto.
        - rewrite <- (combine_fst (snd (fst x)) (snd (snd x)) El) at 2. apply F2_plants.
        - reflexivity. }
      destruct K as (cy' & G & K1 & K2). rewrite G. cbn [rb fst snd app]. f_equal. rewrite app_nil_r, <- K1.
      assert (E1 : map fst (map fst (snd cy)) = map fst (snd cy')) by (clear - K2; induction K2 as [|a b l l' [E _] _ IH]; cbn; [reflexivity|]; rewrite E, IH; reflexivity).
      assert (E2 : map snd (snd cy) = map snd (snd cy')) by (clear - K2; induction K2 as [|a b l l' [_ E] _ IH]; cbn; [reflexivity|]; rewrite E, IH; reflexivity).
      rewrite E1, E2. reflexivity.
    - apply rb_inl in H as ([c1 o1] & H1 & H). injection H as <- <-.
      destruct (while_sim (fun (a : (C * C) * list occ) (b : C * list occ) => fst (fst a) = fst b /\ snd a = snd b) (fun co : (C * C) * list occ => c (fst (fst co))) (fun co : C * list occ => c (fst co))
        (fun co => rb (sem2 sP s fuel (jvpT p) pd (fst co)) (fun r => inl (fst r, snd co ++ snd r))) (fun co => rb (sem2 sP s fuel (primal p) pd (fst co)) (fun r => inl (fst r, snd co ++ snd r))))
        with (3 := conj (eq_refl (fst x)) (eq_refl (@nil occ))) (fuel := fuel) (x := (x, @nil occ)) (x' := (fst x, @nil occ)) (r := (c1, o1)) as ([c2 o2] & G & K1 & K2); auto.
      + intros a b b0 [E _] Hb. rewrite <- E. exact Hb.
      + intros [a oa] [b ob] r [E1 E2] Hr. cbn [fst snd] in *. subst b ob. apply rb_inl in Hr as ([r1 o'] & H & E). injection E as <-. apply IHp in H. rewrite H. cbn [rb fst snd]. eexists. split; [reflexivity|]. auto.
      + rewrite G. cbn [rb fst snd] in *. subst c2 o2. rewrite jvp_sites. reflexivity.
    - cbn [rb fst snd] in H. apply rb_inl in H as ([r1 o1] & H1 & H). injection H as <- <-. cbn [fst snd app] in *. destruct (fst (fst x)); [apply IHp in H1|apply IHq in H1]; exact H1.
  Qed.

  (** reaping, for every program: the metadata of jvp(f) are those of f, and its dictionary that of the run of f *)
  Lemma jvp_meta {A B} (p : dprog A B) s M r r' : reapT s (primal p) M = inl r -> reapT s (jvpT p) M = inl r' -> fst r = fst r'.
  Proof. destruct r as [M1 q], r' as [M2 q']. intros H H'. apply reapT_meta in H, H'. rewrite jvp_sites in H'. cbn [fst]. congruence. Qed.
  Definition on_fst {A D} (a : (A * A) * D) (b : A * D) : Prop := fst (fst a) = fst b /\ snd a = snd b.

  Lemma reapT_First s {A B} C (p : prog A B) M : reapT s (First C p) M = rb (reapT s p M) (fun r => inl (fst r, Seq (Pure (fun x => inl (swap x))) (Seq (First C (snd r)) (Pure (fun x => inl (swap x)))))).
  Proof. reflexivity. Qed.
  Lemma reapT_Pure_Seq s {A B C} (f : A -> res B) (q : prog B C) M : reapT s (Seq (Pure f) q) M = rb (reapT s q M) (fun r => inl (fst r, Seq (First dict (Pure f)) (snd r))).
  Proof. reflexivity. Qed.
  Lemma jvp_reap s fuel {A B} (p : dprog A B) : forall M r r', reapT s (primal p) M = inl r -> reapT s (jvpT p) M = inl r' ->
    forall x d y d', run fuel (snd r') (x, d) = inl (y, d') -> run fuel (snd r) (fst x, d) = inl (fst y, d').
  Proof.
    induction p as [A B f df|A B C p IHp q IHq|A B C p IHp|t n m av|t n av|A B sc p IHp|A B p IHp|C X Y rv len p IHp|C c p IHp|A B p IHp q IHq]; intros M r r' Hr Hr' x d y d' H; cbn [jvpT primal] in *.
    - cbn [reapT] in *. injection Hr as <-. injection Hr' as <-. cbn [snd run fst] in *. apply rb_inl in H as (b & Hb & H). injection H as <- <-. apply rb_inl in Hb as (y & Hy & Hb). apply rb_inl in Hb as (dy & Hdy & Hb). injection Hb as <-. rewrite Hy. reflexivity.
    - cbn [reapT] in *. apply rb_inl in Hr as (r1 & H1 & Hr). apply rb_inl in Hr as (r2 & H2 & Hr). injection Hr as <-. apply rb_inl in Hr' as (r1' & H1' & Hr'). apply rb_inl in Hr' as (r2' & H2' & Hr'). injection Hr' as <-.
      rewrite <- (jvp_meta p s M _ _ H1 H1') in H2'. cbn [snd run] in *. apply rb_inl in H as ([z dz] & Hz & H). rewrite (IHp _ _ _ H1 H1' _ _ _ _ Hz). cbn [rb]. exact (IHq _ _ _ H2 H2' _ _ _ _ H).
    - cbn [reapT] in *. apply rb_inl in Hr as (r1 & H1 & Hr). injection Hr as <-. cbn [rb fst snd] in Hr'. apply rb_inl in Hr' as (r1' & H0 & Hr'). injection Hr' as <-. apply rb_inl in H0 as (r2' & H0 & Hr'). injection Hr' as <-. apply rb_inl in H0 as (r3' & H1' & Hr'). injection Hr' as <-.
      cbn [snd run rb swap across fst] in *. apply rb_inl in H as (z & Hz & H). apply rb_inl in Hz as (z1 & Hz & E1). apply rb_inl in Hz as ([z2 d2] & Hz & E2). injection E2 as <-. injection E1 as <-. injection H as <- <-. cbn [fst snd] in *.
      pose proof (IHp _ _ _ H1 H1' _ _ _ _ Hz) as G. cbn [fst] in G. unfold swap, across. cbn [fst snd]. rewrite G. reflexivity.
    - rewrite reapT_First, Hr in Hr'. cbn [rb] in Hr'. injection Hr' as <-. cbn [snd run rb swap fst] in H. apply rb_inl in H as (z & Hz & H). injection H as <- <-. apply rb_inl in Hz as (z1 & Hz & E). injection E as <-. unfold swap in *. cbn [fst snd] in *. rewrite Hz. destruct z1; reflexivity.
    - rewrite reapT_Pure_Seq, reapT_First, Hr in Hr'. cbn [rb] in Hr'. injection Hr' as <-. cbn [snd run rb swap fst] in H. apply rb_inl in H as (z & Hz & H). injection H as <- <-. apply rb_inl in Hz as (z1 & Hz & E). injection E as <-. unfold swap in *. cbn [fst snd] in *. rewrite Hz. destruct z1; reflexivity.
    - cbn [reapT] in *. apply rb_inl in Hr as (r1 & H1 & Hr). apply rb_inl in Hr' as (r1' & H1' & Hr'). pose proof (jvp_meta p s _ _ _ H1 H1') as Em. rewrite <- Em in Hr'. apply rb_inl in Hr as (M1 & K1 & Hr). apply rb_inl in Hr' as (M1' & K1' & Hr').
      injection Hr as <-. injection Hr' as <-. cbn [snd run rb] in *. apply rb_inl in H as (z & Hz & H). apply rb_inl in Hz as ([z1 d1] & Hz & E). injection E as <-. injection H as <- <-. cbn [fst snd] in *.
      rewrite (IHp _ _ _ H1 H1' _ _ _ _ Hz). cbn [rb fst snd]. reflexivity.
    - cbn [reapT] in *. apply rb_inl in Hr as (r1 & H1 & Hr). apply rb_inl in Hr' as (r1' & H1' & Hr'). pose proof (jvp_meta p s _ _ _ H1 H1') as Em. rewrite <- Em in Hr'. apply rb_inl in Hr as (M1 & K1 & Hr). apply rb_inl in Hr' as (M1' & K1' & Hr').
      injection Hr as <-. injection Hr' as <-. cbn [snd run rb] in *. apply rb_inl in H as (z & Hz & H). apply rb_inl in Hz as ([z1 d1] & Hz & E). injection E as <-. injection H as <- <-. cbn [fst snd] in *.
      rewrite (IHp _ _ _ H1 H1' _ _ _ _ Hz). cbn [rb fst snd]. reflexivity.
    - rewrite reapT_Pure_Seq in Hr'. apply rb_inl in Hr' as (r0 & Hr' & E). injection E as <-. cbn [reapT] in *. cbv zeta in Hr, Hr'. cbn [rb fst snd] in Hr'.
      apply rb_inl in Hr as (r1 & H1 & Hr). apply rb_inl in Hr' as (r2 & Hr' & E). injection E as <-. apply rb_inl in Hr' as (r3 & H0 & Hr'). apply rb_inl in H0 as (r4 & H0 & E). injection E as <-. apply rb_inl in H0 as (r1' & H1' & E). injection E as <-. cbn [fst snd] in Hr'.
      rewrite <- (jvp_meta p s _ _ _ H1 H1') in Hr'. destruct (existsb _ (fst r1)); [discriminate|]. destruct (is_cond (last_mode (fst r1)) && _)%bool; [discriminate|].
      apply rb_inl in Hr as (M1 & K1 & Hr). apply rb_inl in Hr' as (M1' & K1' & Hr'). injection Hr as <-. injection Hr' as <-.
      cbn [snd run rb fst] in *. apply rb_inl in H as (z & Hz & H). apply rb_inl in Hz as (z0 & Hz & E). injection E as <-. destruct (Nat.eqb (List.length (snd (fst x))) (List.length (snd (snd x)))) eqn:El in Hz; [|discriminate]. apply Nat.eqb_eq in El. injection Hz as <-. cbn [fst snd] in H.
      apply rb_inl in H as (w & Hw & H). injection H as <- <-. apply rb_inl in Hw as (w1 & Hw & E). injection E as <-. apply rb_inl in Hw as (cy & Hw & E). injection E as <-. cbn [fst snd] in *.
      match type of Hw with scan_sem _ _ ?f ?cx = _ => match goal with |- context [scan_sem _ _ ?g ?cx'] =>
        assert (K : exists r', scan_sem rv len g cx' = inl r' /\ on_fst (fst cy) (fst r') /\ Forall2 (@on_fst Y dict) (snd cy) (snd r')) end end.
      { eapply (scan_sem_sim (@on_fst C dict) (fun (a : X * X) (b : X) => fst a = b) (@on_fst Y dict)); [| | |exact Hw]; cbn [fst snd].
        - intros [c0 dc] x0 [c' dc'] x' r0 [Hc Hd] Hx E. cbn [fst snd rb across] in *. subst c' dc' x'. apply rb_inl in E as (y1 & E & E2). injection E2 as <-. apply rb_inl in E as ([y2 o2] & E & E2). injection E2 as <-. apply rb_inl in E as ([y3 o3] & E & E2). injection E2 as <- <-.
          apply (IHp _ _ _ H1 H1') in E. unfold across in *. cbn [fst snd] in *. rewrite E. cbn [rb fst snd]. eexists. split; [reflexivity|]. split; split; reflexivity.
        - rewrite <- (combine_fst (snd (fst x)) (snd (snd x)) El) at 2. apply F2_map_fst.
        - split; reflexivity. }
      destruct K as ([[c' dc'] ys'] & G & [K2 K3] & K4). rewrite G. cbn [rb fst snd] in *. f_equal. subst c' dc'.
      assert (E1 : map fst (map fst (snd cy)) = map fst ys') by (clear - K4; induction K4 as [|a b l l' [E _] _ IH]; cbn; [reflexivity|]; rewrite E, IH; reflexivity).
      assert (E2 : map snd (snd cy) = map snd ys') by (clear - K4; induction K4 as [|a b l l' [_ E] _ IH]; cbn; [reflexivity|]; rewrite E, IH; reflexivity).
      rewrite E1, E2. reflexivity.
    - cbn [reapT] in *. apply rb_inl in Hr as (r1 & H1 & Hr). apply rb_inl in Hr' as (r1' & H1' & Hr'). pose proof (jvp_meta p s _ _ _ H1 H1') as Em. cbv zeta in Hr, Hr'. rewrite <- Em in Hr'. destruct (existsb _ (fst r1)); [discriminate|].
      apply rb_inl in Hr as (M1 & K1 & Hr). apply rb_inl in Hr' as (M1' & K1' & Hr'). injection Hr as <-. injection Hr' as <-. cbn [snd run rb] in *. apply rb_inl in H as (z & Hz & H). apply rb_inl in Hz as ([z1 d1] & Hz & E). injection E as <-. injection H as <- <-. cbn [fst snd] in *.
      match goal with |- rb (rb (while_loop _ ?c0 ?f0 ?a0) _) _ = _ => match type of Hz with while_loop _ ?c1 ?f1 ?a1 = _ => 
        destruct (while_sim (@on_fst C dict) c1 c0 f1 f0) with (fuel := fuel) (x := a1) (x' := a0) (r := (z1, d1)) as ([z2 d2] & G & K2 & K3) end end.
      + intros a b b0 [E _] Hb. rewrite <- E. exact Hb.
      + intros [a da] [b db] r0 [E1 E2] Hq. cbn [fst snd rb] in *. subst b db. apply rb_inl in Hq as (w & Hw & Hq). injection Hq as <-. apply rb_inl in Hw as ([w1 dw] & Hw & E). injection E as <-. rewrite (IHp _ _ _ H1 H1' _ _ _ _ Hw). cbn [rb fst snd]. eexists. split; [reflexivity|]. split; reflexivity.
      + split; reflexivity.
      + exact Hz.
      + rewrite G. cbn [rb fst snd] in *. subst z2 d2. reflexivity.
    - rewrite reapT_Pure_Seq in Hr'. cbn [reapT] in *. apply rb_inl in Hr as (r1 & H1 & Hr). apply rb_inl in Hr as (r2 & H2 & Hr). apply rb_inl in Hr' as (r0 & Hr' & E). injection E as <-. apply rb_inl in Hr' as (r1' & H1' & Hr'). apply rb_inl in Hr' as (r2' & H2' & Hr').
      rewrite <- (jvp_meta p s _ _ _ H1 H1'), <- (jvp_meta q s _ _ _ H2 H2') in Hr'. apply rb_inl in Hr as (u & Hu & Hr). apply rb_inl in Hr' as (u' & Hu' & Hr'). apply rb_inl in Hr as (M1 & K1 & Hr). apply rb_inl in Hr' as (M1' & K1' & Hr').
      injection Hr as <-. injection Hr' as <-. cbn [snd run rb fst] in *. apply rb_inl in H as (z & Hz & H). injection H as <- <-. apply rb_inl in Hz as ([z1 d1] & Hz & E). injection E as <-. cbn [fst snd] in *.
      destruct (fst (fst x)); [pose proof (IHp _ _ _ H1 H1' _ _ _ _ Hz) as G|pose proof (IHq _ _ _ H2 H2' _ _ _ _ Hz) as G]; cbn [fst] in G; rewrite G; reflexivity.
  Qed.

  Lemma scan_loop_pw {C X Y} (f g : C * X -> res (C * Y)) : (forall x, f x = g x) -> forall xs c, scan_loop f c xs = scan_loop g c xs.
  Proof. intros E. induction xs as [|x xs IH]; intros c; cbn [scan_loop]; [reflexivity|]. rewrite E. apply rb_ext. intros cy. rewrite IH. reflexivity. Qed.
  Lemma jvp_erase fuel {A B} (p : dprog A B) : forall x, run fuel (jvpT p) x = run fuel (jvpT (erase p)) x.
  Proof.
    induction p as [A B f df|A B C p IHp q IHq|A B C p IHp|t n m av|t n av|A B sc p IHp|A B p IHp|C X Y rv len p IHp|C c p IHp|A B p IHp q IHq]; intros x; cbn [jvpT erase run]; try reflexivity.
    - rewrite IHp. apply rb_ext. intros y. apply IHq.
    - cbn [rb]. rewrite IHp. reflexivity.
    - apply IHp.
    - apply IHp.
    - apply rb_ext. intros z. f_equal. unfold scan_sem. cbn [rb]. destruct (Nat.eqb _ len); [|reflexivity]. f_equal. apply scan_loop_pw. intros y. rewrite IHp. reflexivity.
    - apply while_loop_ext. intros y. apply IHp.
    - cbn [rb fst snd]. destruct (fst (fst x)); [apply IHp|apply IHq].
  Qed.
End proofs.

(** ** The property *)
Section props.
  Context {AR : Arrays}.
  (** sows and nests do not change derivatives *)
  Theorem C70_derivative_ignores_sows fuel {A B} (f : dprog A B) x : run fuel (jvpT f) x = run fuel (jvpT (erase f)) x.
  Proof. apply jvp_erase. Qed.
  (** the first component of jvp(f) is f *)
  Theorem C70_primal fuel {A B} (f : dprog A B) x dx y dy : run fuel (jvpT f) (x, dx) = inl (y, dy) -> run fuel (primal f) x = inl y.
  Proof.
    intros H. pose (s := mk_settings "" [] None false). pose proof (run_sem s s fuel (jvpT f) (x, dx)) as K. pose proof (run_sem s s fuel (primal f) x) as K'.
    rewrite H in K. destruct (sem2 s s fuel (jvpT f) [] (x, dx)) as [[r o]|] eqn:E; cbn in K; [|contradiction]. subst r. apply jvp_sem in E. cbn [fst] in E. rewrite E in K'. destruct (run fuel (primal f) x); cbn in K'; [congruence|contradiction].
  Qed.
  (** reaping, planting and harvesting jvp(f) raise exactly when reaping, planting and harvesting f do *)
  Theorem C70_raises_iff s {A B} (f : dprog A B) pd :
    ((exists r, call_and_reap s (jvpT f) = inl r) <-> exists r, call_and_reap s (primal f) = inl r) /\
    ((exists r, plant s (jvpT f) pd = inl r) <-> exists r, plant s (primal f) pd = inl r) /\
    ((exists r, harvest s (jvpT f) pd = inl r) <-> exists r, harvest s (primal f) pd = inl r).
  Proof.
    rewrite !C25_reap_succeeds_iff, !C31_plant_succeeds_iff, !C33_harvest_succeeds_iff, !jvp_sites, jvp_legal, jvp_plantable, jvp_planted_once, jvp_legal_with. tauto.
  Qed.
  (** reaping jvp(f) gives the output of jvp(f) and what reaping f at the primal point gives *)
  Theorem C70_reap_jvp s {A B} (f : dprog A B) r r' : call_and_reap s (primal f) = inl r -> call_and_reap s (jvpT f) = inl r' ->
    forall fuel x dx y dy d, run fuel r' (x, dx) = inl ((y, dy), d) <-> run fuel (jvpT (erase f)) (x, dx) = inl (y, dy) /\ run fuel r x = inl (y, d).
  Proof.
    intros H H' fuel x dx y dy d. rewrite <- jvp_erase. pose proof (C23_reap_outputs s _ _ H' fuel (x, dx)) as O'.
    assert (G : forall y dy d, run fuel r' (x, dx) = inl ((y, dy), d) -> run fuel r x = inl (y, d)).
    { unfold call_and_reap in H, H'. apply rb_inl in H as (q & Hq & H). apply rb_inl in H' as (q' & Hq' & H'). injection H as <-. injection H' as <-. clear O' y dy d. intros y dy d H. cbn [run rb] in *. apply rb_inl in H as ([z o] & H & E). injection E as -> <-.
      pose proof (jvp_reap s fuel f _ _ _ Hq Hq' _ _ _ _ H) as G. cbn [fst] in G. rewrite G. reflexivity. }
    split.
    - intros K. split; [|eapply G, K]. destruct (run fuel (jvpT f) (x, dx)) as [b|e]; [destruct O' as [d' O']|]; rewrite K in O'; [injection O' as <- <-; reflexivity|discriminate].
    - intros [K1 K2]. rewrite K1 in O'. destruct O' as [d' O']. pose proof (G _ _ _ O') as E. rewrite K2 in E. injection E as <-. exact O'.
  Qed.
  (** planting into jvp(f) plants the primal values: the first component is that of plant(f) *)
  Theorem C70_plant_jvp s {A B} (f : dprog A B) pd q q' : plant s (primal f) pd = inl q -> plant s (jvpT f) pd = inl q' ->
    forall fuel x dx y dy, run fuel q' ((x, dx), pd) = inl (y, dy) -> run fuel q (x, pd) = inl y.
  Proof.
    intros H H' fuel x dx y dy K. rewrite (C31_plant_overrides _ _ _ _ H') in K. rewrite (C31_plant_overrides _ _ _ _ H). apply rb_inl in K as ([r o] & K & E). injection E as ->. apply jvp_sem in K. cbn [fst] in K. rewrite K. reflexivity.
  Qed.
  (** both at once, for programs without the mixtures of modes of C26 and C28 *)
  Theorem C70_harvest_jvp s {A B} (f : dprog A B) pd h h' : regular s (primal f) pd -> harvest s (primal f) pd = inl h -> harvest s (jvpT f) pd = inl h' ->
    forall fuel x dx y dy d, run fuel h' ((x, dx), pd) = inl ((y, dy), d) -> run fuel h (x, pd) = inl (y, d).
  Proof.
    intros Hr H H' fuel x dx y dy d K. rewrite (C33_harvest_partial _ _ _ _ H') in K by (apply jvp_regular, Hr). rewrite (C33_harvest_partial _ _ _ _ H Hr). apply rb_inl in K as ([r o] & K & E). injection E as -> <-. apply jvp_sem in K. cbn [fst] in K. rewrite K. cbn [rb fst snd]. rewrite jvp_sites. reflexivity.
  Qed.
  (** the tangent of a planted value is the tangent of the value it replaces *)
  Theorem C70_planted_tangent s fuel t n m av pd v dv w q : m <> CondClobber -> has_aval v av = true -> has_aval w av = true -> t = tag_of s -> passes s n = true -> dget pd n = Some w ->
    plant s (jvpT (DSow t n m av)) pd = inl q -> run fuel q ((v, dv), pd) = inl (w, dv).
  Proof.
    intros Hm Hv Hw -> Hp Hd H. rewrite (C31_plant_overrides _ _ _ _ H). cbn [jvpT sem2 fst snd]. destruct m; try contradiction; cbn [is_cond]; unfold at_sow, chk, seen, haskey, planted; rewrite Hv; cbn [rb]; rewrite String.eqb_refl, Hp, Hd; cbn [rb andb]; unfold chk; rewrite Hw; reflexivity.
  Qed.
End props.

(** ** A function of one integer "array": the square of x+1, sown as "h", after a loop that appends *)
Definition dstep (f : Z -> Z) (df : Z -> Z -> Z) : dprog tree tree := DPure (fun t => inl (L (f (val t)))) (fun t dt => inl (L (df (val t) (val dt)))).
Definition dbody : dprog (tree * Z) (tree * tree) :=
  DSeq (DPure (fun cx : tree * Z => inl (L (val (fst cx) * snd cx)%Z, tt)) (fun cx dcx => inl (L (val (fst dcx) * snd cx + val (fst cx) * snd dcx)%Z, tt)))
    (DSeq (DFirst unit (DSow "t" "c" Append A1)) (DPure (fun x => inl (fst x, fst x)) (fun _ dx => inl (fst dx, fst dx)))).
Definition dex : dprog tree (tree * list tree) :=
  DSeq (dstep (fun x => x + 1)%Z (fun _ d => d)) (DSeq (DSow "t" "h" Strict A1)
    (DSeq (DNest "f" (DSeq (dstep (fun x => x * x)%Z (fun x d => 2 * x * d)%Z) (DSow "t" "h" Strict A1)))
      (DSeq (DPure (fun t => inl (t, [1; 2; 3]%Z)) (fun _ dt => inl (dt, [0; 0; 0]%Z))) (DScan false 3 dbody)))).
(** the derivative of 6(x+1)^2 at 4, and the values reaped at 4 *)
Theorem C70_example : do_reap (all "t") (jvpT dex) (L 4, L 1) =
    inl (((L 150, [L 25; L 50; L 150]), (L 60, [L 10; L 20; L 60])), [("h", L 5); ("f", Dict [("h", L 25)]); ("c", Stk [L 25; L 50; L 150])]) /\
  do_reap (all "t") (primal dex) (L 4) = inl ((L 150, [L 25; L 50; L 150]), [("h", L 5); ("f", Dict [("h", L 25)]); ("c", Stk [L 25; L 50; L 150])]) /\
  do_harvest (all "t") (jvpT dex) [("h", L 3)] (L 4, L 1) =
    inl (((L 54, [L 9; L 18; L 54]), (L 36, [L 6; L 12; L 36])), [("f", Dict [("h", L 9)]); ("c", Stk [L 9; L 18; L 54])]).
Proof. repeat split; vm_compute; reflexivity. Qed.
(** So planting and differentiating do not commute: with "h" planted the function is constant, its derivative 0, but planting
    into its jvp gives the derivative as if the planted value moved with the value it replaces *)
Definition dconst : dprog tree tree := DSeq (DSow "t" "h" Strict A1) (dstep (fun x => 2 * x)%Z (fun _ d => 2 * d)%Z).
Theorem C70_commute_refuted : (forall z, do_plant (all "t") (primal dconst) [("h", L 5)] (L z) = inl (L 10)) /\ do_plant (all "t") (jvpT dconst) [("h", L 5)] (L 4, L 1) = inl (L 10, L 2).
Proof. split; [intros z|]; vm_compute; reflexivity. Qed.
Print Assumptions C70_reap_jvp.
Print Assumptions C70_harvest_jvp.
Print Assumptions C70_raises_iff.
