(** C52, C55: optimize with the update functions of optix: the parameters after n iterations. *)
From Verif Require Import Dict HarvestSpec HarvestProofs HarvestProofs2 HarvestProofs3 StateProps StateNestProofs StateNestProps OptixProofs OptixProps OptixClosed OptixChain.
From Verif Require Import LoopProps LoopMain.
From Verif Require Export OptixModel.
From Coq Require Import Reals Lra Lia.
Open Scope string_scope. Open Scope list_scope. Open Scope R_scope.
#[local] Existing Instance RealArrays.

Section descent.
  Variables (av : aval) (key0 : tree).
  Notation okt := (fun u : tree => has_aval u av = true).

  (** ** apply_updates(params, updates): new parameters are the sums, leaf by leaf; trees of other structure raise *)
  Theorem C52_apply_updates p u : okt p -> okt u -> exists q, apply_updates av p u = inl q /\ okt q /\ forall i, (i < size av)%nat -> el q i = el p i + el u i.
  Proof. intros Hp Hu. eexists. split; [apply emap_ok; repeat constructor; assumption|]. split; [apply has_vec|]. intros i Hi. rewrite el_vec by exact Hi. reflexivity. Qed.
  Theorem C52_apply_updates_raises p u : ~ okt p \/ ~ okt u -> exists e, apply_updates av p u = inr e.
  Proof.
    intros H. unfold apply_updates, emap. cbn [forallb]. destruct (has_aval p av) eqn:E1, (has_aval u av) eqn:E2; cbn; try (eexists; reflexivity). exfalso. destruct H as [H|H]; apply H; assumption.
  Qed.

  (** ** Specification: theta 0, theta 1, ... are the parameters, G j the gradient at theta j; the step from theta j adds what
      the update function emits for the history of gradients *)
  Definition trajectory (grad : tree -> res tree) (out : nat -> (nat -> R) -> nat -> R) (n : nat) (p0 q : tree) : Prop :=
    exists theta G : nat -> tree, theta 0%nat = p0 /\ theta n = q /\
      forall j, (j < n)%nat -> okt (theta j) /\ grad (theta j) = inl (G j) /\ forall i, (i < size av)%nat -> el (theta (S j)) i = el (theta j) i + out i (fun l => el (G l) i) j.

  Inductive path (grad : tree -> res tree) : tree -> list (tree * tree) -> list tree -> tree -> Prop :=
  | path_nil q : path grad q [] [] q
  | path_cons q g u q1 ps ys q' : okt q -> okt u -> grad q = inl g -> apply_updates av q u = inl q1 -> path grad q1 ps ys q' -> path grad q ((g, q) :: ps) (u :: ys) q'.

  Lemma path_facts grad q ps ys q' : path grad q ps ys q' -> nth 0 (map snd ps ++ [q']) (sc 0) = q /\ List.length ys = List.length ps /\
    forall j, (j < List.length ps)%nat -> let th := fun j => nth j (map snd ps ++ [q']) (sc 0) in
      okt (th j) /\ grad (th j) = inl (fst (nth j ps d0)) /\ forall i, (i < size av)%nat -> el (th (S j)) i = el (th j) i + el (nth j ys (sc 0)) i.
  Proof.
    induction 1 as [q|q g u q1 ps ys q' Hq Hu Hg Ha Hp (I1 & I2 & I3)]; cbn [map app nth List.length snd].
    - split; [reflexivity|]. split; [reflexivity|]. intros j Hj. lia.
    - split; [reflexivity|]. split; [congruence|]. intros [|j] Hj; cbn [nth fst].
      + split; [exact Hq|]. split; [exact Hg|]. intros i Hi. rewrite I1. destruct (C52_apply_updates q u Hq Hu) as (q2 & E & _ & H). rewrite Ha in E. injection E as <-. apply H, Hi.
      + apply I3. lia.
  Qed.

  Section update.
    Variables (f : prog (tree * (tree * tree)) tree) (out : nat -> (nat -> R) -> nat -> R) (grad : tree -> res tree).
    Hypotheses (Hgood : good av key0 (Stateful f) out) (Hnc : nocond asg f).
    Hypothesis Hgrad : forall q, okt q -> exists g, grad q = inl g /\ okt g.

    Definition total (fuel : nat) (m : fmodule (tree * tree) tree) : Prop := forall xs, Forall (typed_in av) xs -> exists ys m', outputs fuel m xs = inl (ys, m') /\ Forall okt ys.
    Lemma total_step fuel m x : total fuel m -> typed_in av x -> exists u m1, fm_call_and_update fuel m x = inl (u, m1) /\ okt u /\ total fuel m1.
    Proof.
      intros H Hx. destruct (H [x] ltac:(constructor; [exact Hx|constructor])) as (ys & m' & E & Ht). cbn [outputs] in E. apply rb_inl in E as ([u m1] & Hc & E). cbn in E. injection E as <- <-. inversion Ht; subst.
      exists u, m1. split; [exact Hc|]. split; [assumption|]. intros xs Hxs. destruct (H (x :: xs) ltac:(constructor; assumption)) as (ys & m' & E & Hy). cbn [outputs] in E. rewrite Hc in E. cbn [rb fst snd] in E. apply rb_inl in E as ([ys' m2] & Ho & E). injection E as <- <-. inversion Hy; subst. eauto.
    Qed.

    Lemma gd_iterates fuel k p0 m : okt p0 -> init fuel key0 (gradient_descent f grad (apply_updates av)) (Some "opt") k p0 = inl m ->
      forall n, exists q states m', iterate fuel (fun _ p => p) m p0 (seq 0 n) = inl ((q, states), m') /\ same_shapes (fm_vars m') (fm_vars m) /\ trajectory grad out n p0 q.
    Proof.
      intros Hp0 Hi n. destruct Hgood as (Hem & Hok & Hst & _).
      destruct (C55_gradient_descent key0 _ _ f grad (apply_updates av) Hok fuel (Some "opt") k p0 m Hi Hnc) as (g0 & mu & Hg0 & Hmu & Ev & Hstep).
      assert (Hg0t : okt g0) by (destruct (Hgrad p0 Hp0) as (g & E & H); congruence).
      destruct (Hem fuel "opt" k (g0, p0) Hg0t) as (mu' & Hmu' & Hout). cbn [init_u] in Hmu'. rewrite Hmu in Hmu'. injection Hmu' as <-.
      assert (Htot : total fuel mu). { intros xs Hxs. destruct (Hout fuel xs Hxs) as (ys & m' & E & _ & Ht & _). eauto. }
      assert (K : forall (xs : list nat) vs q, same_shapes vs (fm_vars mu) -> total fuel (fm_replace mu vs) -> okt q ->
        exists q' states vs' ps ys, iterate fuel (fun _ p => p) (fm_replace m vs) q xs = inl ((q', states), fm_replace m vs') /\ same_shapes vs' (fm_vars mu) /\
          outputs fuel (fm_replace mu vs) ps = inl (ys, fm_replace mu vs') /\ path grad q ps ys q' /\ List.length ps = List.length xs /\ Forall (typed_in av) ps).
      { induction xs as [|x xs IH]; intros vs q Hsh Ht Hq.
        - exists q, [], vs, [], []. split; [reflexivity|]. split; [exact Hsh|]. split; [reflexivity|]. repeat constructor.
        - destruct (Hgrad q Hq) as (g & Hg & Hgt). destruct (total_step fuel _ (g, q) Ht Hgt) as (u & m1 & Hc & Hu & Ht1).
          pose proof (cau_replace _ _ _ _ _ _ Hc) as E1.
          destruct (Hst fuel "opt" k (g0, p0) mu vs (g, q) u m1 Hmu Hsh Hg0t Hgt Hc) as [Hsh1 _].
          destruct (C52_apply_updates q u Hq Hu) as (q1 & Ha & Hq1 & _).
          assert (Hf : fits (skels_of (fm_vars m)) vs) by (rewrite <- Ev; apply same_fits, Hsh).
          assert (Hcm : fm_call_and_update fuel (fm_replace m vs) q = inl (q1, fm_replace m (fm_vars m1))). { apply Hstep; [exact Hf|]. exists g, u, m1. auto. }
          rewrite E1 in Ht1. destruct (IH (fm_vars m1) q1 Hsh1 Ht1 Hq1) as (q' & states & vs' & ps & ys & Hit & Hs' & Ho & Hp & Hl & Hty).
          exists q', (q1 :: states), vs', ((g, q) :: ps), (u :: ys). cbn [iterate]. rewrite Hcm. cbn [rb fst snd]. rewrite Hit. split; [reflexivity|]. split; [exact Hs'|]. split.
          + cbn [outputs]. rewrite Hc. cbn [rb fst snd]. rewrite E1, Ho. reflexivity.
          + split; [econstructor; eassumption|]. split; [cbn; congruence|]. constructor; [exact Hgt|exact Hty]. }
      replace mu with (fm_replace mu (fm_vars mu)) in Htot by (destruct mu; reflexivity).
      destruct (K (seq 0 n) (fm_vars mu) p0 eq_refl Htot Hp0) as (q & states & vs' & ps & ys & Hit & Hs' & Ho & Hp & Hl & Hty). rewrite seq_length in Hl.
      exists q, states, (fm_replace m vs'). split; [|split].
      - rewrite Ev in Hit. replace (fm_replace m (fm_vars m)) with m in Hit by (destruct m; reflexivity). exact Hit.
      - cbn. rewrite <- Ev. exact Hs'.
      - destruct (path_facts _ _ _ _ _ Hp) as (F1 & F2 & F3). destruct (Hout fuel ps Hty) as (ys2 & m2 & Eo & _ & _ & Hel). replace (fm_replace mu (fm_vars mu)) with mu in Ho by (destruct mu; reflexivity). rewrite Ho in Eo. injection Eo as <- _.
        exists (fun j => nth j (map snd ps ++ [q]) (sc 0)), (fun j => fst (nth j ps d0)). split; [exact F1|]. split; [rewrite app_nth2, map_length, Hl, Nat.sub_diag by (rewrite map_length; lia); reflexivity|].
        intros j Hj. destruct (F3 j ltac:(lia)) as (T1 & T2 & T3). split; [exact T1|]. split; [exact T2|]. intros i Hi'. rewrite (T3 i Hi'). f_equal. apply Hel; [lia|exact Hi'].
    Qed.

    (** optimize(objective, update, n)(params): if it returns, the result is the end of the trajectory; and it returns if the first
        step (the trial run of state.init) does *)
    Theorem C52_optimize empty_sow n p : optimize key0 empty_sow f grad (apply_updates av) n = inl p -> forall fuel k p0, okt p0 ->
      (forall q, run fuel p (k, p0) = inl q -> trajectory grad out n p0 q) /\
      (forall m, init fuel key0 (gradient_descent f grad (apply_updates av)) (Some "opt") k p0 = inl m -> exists q, run fuel p (k, p0) = inl q).
    Proof.
      intros Hp fuel k p0 Hp0. assert (Hg : ufun_ok (Stateful (gradient_descent f grad (apply_updates av)))) by (apply gd_plain; apply Hgood).
      destruct (looped_run key0 empty_sow _ _ _ _ _ _ _ _ _ n _ _ _ Hp Hg fuel k p0 (seq_length _ _)) as [H1 H2]. split.
      - intros q H. destruct (H1 _ H) as (m & q1 & m' & Hi & Hit & ->). cbn [fst snd init_u] in *. destruct (gd_iterates fuel k p0 m Hp0 Hi n) as (q & states & m2 & E & _ & Ht). rewrite E in Hit. injection Hit as <- _. exact Ht.
      - intros m Hi. destruct (gd_iterates fuel k p0 m Hp0 Hi n) as (q & states & m2 & E & Hs & _). eexists. eapply H2; [exact Hi|exact E|exact Hs].
    Qed.
  End update.

  (** ** The update functions of optix: optimize never fails *)
  Section total.
    Variables (grad : tree -> res tree) (Hnum : numeric av = true).
    Hypothesis Hgrad : forall q, okt q -> exists g, grad q = inl g /\ okt g.
    (** optimize(objective, update, n)(params) returns the end of the trajectory *)
    Definition optimises (f : prog (tree * (tree * tree)) tree) (out : nat -> (nat -> R) -> nat -> R) : Prop :=
      forall empty_sow n, exists p, optimize key0 empty_sow f grad (apply_updates av) n = inl p /\
        forall fuel k p0, okt p0 -> exists q, run fuel p (k, p0) = inl q /\ trajectory grad out n p0 q.
    Lemma optimises_intro f out vs : good av key0 (Stateful f) out -> nocond asg f ->
      (forall empty_sow n, exists p, optimize key0 empty_sow f grad (apply_updates av) n = inl p) ->
      (exists r, call_and_reap var_reap (gradient_descent f grad (apply_updates av)) = inl r) -> (exists c, cau_program key0 (gradient_descent f grad (apply_updates av)) vs = inl c) ->
      (forall fuel k g p, okt g -> exists u, sem var_reap fuel f [] (k, (g, p)) = inl (u, occs vs) /\ okt u) -> collect (once (sites var_reap f [])) (occs vs) = vs -> optimises f out.
    Proof.
      intros Hgood Hnc Hopt Hr Hc Hs Hco empty_sow n. destruct (Hopt empty_sow n) as (p & Hp). exists p. split; [exact Hp|]. intros fuel k p0 Hp0.
      destruct (C52_optimize f out grad Hgood Hnc Hgrad empty_sow n p Hp fuel k p0 Hp0) as [H1 H2].
      assert (Hi : exists m, init fuel key0 (gradient_descent f grad (apply_updates av)) (Some "opt") k p0 = inl m /\ fm_vars m = vs).
      { apply init_ok; [|exact Hr| | |exact Hc].
        - apply (gd_plain _ _ f grad (apply_updates av)). apply Hgood.
        - destruct (Hgrad p0 Hp0) as (g & Hg & Hgt). destruct (Hs fuel k g p0 Hgt) as (u & Hu & Hut). destruct (C52_apply_updates p0 u Hp0 Hut) as (q & Hq & _). exists q. rewrite gd_sem2, Hg. cbn [rb]. rewrite Hu. cbn [rb fst snd]. rewrite Hq. reflexivity.
        - rewrite gd_sites2. exact Hco. }
      destruct Hi as (m & Hi & _). destruct (H2 m Hi) as (q & Hq). exists q. split; [exact Hq|]. apply H1, Hq.
    Qed.
    Ltac opt_tac Hg vs := apply (optimises_intro _ _ vs Hg); [cbn; repeat split; auto|intros [] n; ok_tac|ok_tac|ok_tac| |reflexivity]; intros fuel k g p Hgt; unfold zeros_up.
    Theorem C52_optimize_trace d nes : optimises (trace av d nes) (fun _ g n => if nes then g n + d * trace_sum d g n else trace_sum d g n).
    Proof. opt_tac (good_trace av key0 Hnum d nes) (tr_store av (fun _ => 0)). unfold trace. cbn [sem2]. destruct nes; eexists; (split; [repeat step1; reflexivity|apply has_vec]). Qed.
    Theorem C52_optimize_rms d eps : optimises (scale_by_rms av d eps) (fun _ g n => g n / sqrt (average d (fun j => g j ^ 2) n + eps)).
    Proof. opt_tac (good_rms av key0 Hnum d eps) (nu_store av (fun _ => 0)). unfold scale_by_rms. cbn [sem2]. eexists; (split; [repeat step1; reflexivity|apply has_vec]). Qed.
    Theorem C52_optimize_stddev d eps : optimises (scale_by_stddev av d eps) (fun _ g n => g n / sqrt (average d (fun j => g j ^ 2) n - average d g n ^ 2 + eps)).
    Proof. opt_tac (good_stddev av key0 Hnum d eps) (mn_store av (fun _ => 0, fun _ => 0)). unfold scale_by_stddev. cbn [sem2]. eexists; (split; [repeat step1; reflexivity|apply has_vec]). Qed.
    Theorem C52_optimize_adam b1 b2 eps : optimises (scale_by_adam av b1 b2 eps)
      (fun _ g n => sum_f_R0 (fun j => weight b1 n j * g j) n / (sqrt (sum_f_R0 (fun j => weight b2 n j * g j ^ 2) n) + eps)).
    Proof. opt_tac (good_adam av key0 Hnum b1 b2 eps) (adam_store av (0, (fun _ => 0, fun _ => 0))). unfold scale_by_adam. cbn [sem2]. eexists; (split; [repeat step1; reflexivity|apply has_vec]). Qed.
    Theorem C52_optimize_schedule h : optimises (scale_by_schedule av h) (fun _ g n => h (INR n) * g n).
    Proof. opt_tac (good_schedule av key0 h) (count_store 0). unfold scale_by_schedule. cbn [sem2]. eexists; (split; [repeat step1; reflexivity|apply has_vec]). Qed.
  End total.

  (** ** With the current JAX (a sow without arrays is bound) an iteration with sgd or adam raises *)
  Lemma optimize_raises es f grad : ufun_ok (Stateful f) -> nocond asg f -> (forall fuel0 name key x0 m, typed_in av x0 -> init fuel0 key0 f name key x0 = inl m -> forall fuel x, exists e, fm_call_and_update fuel m x = inr e) ->
    (forall q g, okt q -> grad q = inl g -> okt g) ->
    forall n p, optimize key0 es f grad (apply_updates av) (S n) = inl p -> forall fuel k p0, okt p0 -> exists e, run fuel p (k, p0) = inr e.
  Proof.
    intros Hu Hnc Hraise Hgrad n p Hp fuel k p0 Hp0. destruct (run fuel p (k, p0)) as [q|e] eqn:E; [|eauto]. exfalso.
    assert (Hg : ufun_ok (Stateful (gradient_descent f grad (apply_updates av)))) by (apply gd_plain; exact Hu).
    destruct (looped_run key0 es _ _ _ _ _ _ _ _ _ (S n) _ _ _ Hp Hg fuel k p0 (seq_length _ _)) as [H1 _]. destruct (H1 _ E) as (m & q1 & m' & Hi & Hit & _). cbn [fst snd init_u seq iterate] in *.
    apply rb_inl in Hit as ([q2 m2] & Hc & _).
    destruct (C55_gradient_descent key0 _ _ f grad (apply_updates av) Hu fuel (Some "opt") k p0 m Hi Hnc) as (g0 & mu & Hg0 & Hmu & Ev & Hstep).
    replace m with (fm_replace m (fm_vars m)) in Hc by (destruct m; reflexivity). apply Hstep in Hc as (g & u & mu' & _ & Hc & _); [|apply fits_skels_of].
    rewrite <- Ev in Hc. replace (fm_replace mu (fm_vars mu)) with mu in Hc by (destruct mu; reflexivity).
    destruct (Hraise fuel _ k (g0, p0) mu (Hgrad _ _ Hp0 Hg0) Hmu fuel (g, p0)) as (e & He). rewrite He in Hc. discriminate Hc.
  Qed.
  Lemma chain_nocond es split (us : list (string * ufun (tree * tree) tree)) f : chain_of key0 es split us = inl f -> Forall (fun nu => ufun_ok (snd nu)) us -> nocond asg f.
  Proof.
    intros Hf Hus. unfold chain_of in Hf. apply rb_inl in Hf as (q0 & Hq & E0). injection E0 as <-. eapply chain_body_ok in Hq as (ds & Hok); [|exact Hus]. apply chain_misc in Hok as (H0 & _); [|exact split]. cbn. auto.
  Qed.
  Section raises.
    Variables (split : tree -> nat -> list tree) (grad : tree -> res tree).
    Hypotheses (Hnum : numeric av = true) (Hgrad : forall q g, okt q -> grad q = inl g -> okt g).
    Theorem C52_optimize_sgd_raises lr mo nes f : chain key0 true split (sgd av lr mo nes) [] = inl f ->
      forall n p, optimize key0 true f grad (apply_updates av) (S n) = inl p -> forall fuel k p0, okt p0 -> exists e, run fuel p (k, p0) = inr e.
    Proof.
      intros Hf. pose proof Hf as Hf2. rewrite sgd_eq, chain2 in Hf2.
      assert (Hus : Forall (fun nu : string * ufun (tree * tree) tree => ufun_ok (snd nu)) [("update_0", Stateful (trace av mo nes)); ("update_1", Stateless (scale av (- lr)))]) by (constructor; [apply (good_trace av key0 Hnum)|constructor; [apply (good_scale av key0)|constructor]]).
      apply optimize_raises; [eapply C55_chains_nest; [exact Hf2|exact Hus]|eapply chain_nocond; [exact Hf2|exact Hus]|exact (C52_sgd_raises av key0 Hnum split lr mo nes f Hf)|exact Hgrad].
    Qed.
    Theorem C52_optimize_adam_raises lr b1 b2 eps f : chain key0 true split (adam av lr b1 b2 eps) [] = inl f ->
      forall n p, optimize key0 true f grad (apply_updates av) (S n) = inl p -> forall fuel k p0, okt p0 -> exists e, run fuel p (k, p0) = inr e.
    Proof.
      intros Hf. pose proof Hf as Hf2. rewrite adam_eq, chain2 in Hf2.
      assert (Hus : Forall (fun nu : string * ufun (tree * tree) tree => ufun_ok (snd nu)) [("update_0", Stateful (scale_by_adam av b1 b2 eps)); ("update_1", Stateless (scale av (- lr)))]) by (constructor; [apply (good_adam av key0 Hnum)|constructor; [apply (good_scale av key0)|constructor]]).
      apply optimize_raises; [eapply C55_chains_nest; [exact Hf2|exact Hus]|eapply chain_nocond; [exact Hf2|exact Hus]|exact (C52_adam_raises av key0 Hnum split lr b1 b2 eps f Hf)|exact Hgrad].
    Qed.
  End raises.
End descent.

(** ** A concrete case: the gradient of -p^2/4 is -p/2; momentum 1; p = 8, 8-4, 4-(4+2), ... *)
Definition ex_grad (q : tree) : res tree := emap A0 (f1 (fun x => - x / 2)) [q].
Lemma ex_grad_ok q : has_aval q A0 = true -> exists g, ex_grad q = inl g /\ has_aval g A0 = true.
Proof. intros H. eexists. split; [apply emap_ok; repeat constructor; exact H|apply has_vec]. Qed.
Lemma C52_optimize_example : forall es, exists p, optimize (@Leaf RealArrays (Key 0%Z)) es (trace A0 1 false) ex_grad (apply_updates A0) 2 = inl p /\
  forall fuel k, exists q, run fuel p (k, sc 8) = inl q /\ el q 0 = -2.
Proof.
  intros es. destruct (C52_optimize_trace A0 (@Leaf RealArrays (Key 0%Z)) ex_grad eq_refl ex_grad_ok 1 false es 2%nat) as (p & Hp & H). exists p. split; [exact Hp|]. intros fuel k. destruct (H fuel k (sc 8) eq_refl) as (q & Hq & th & G & E0 & E2 & Hs). exists q. split; [exact Hq|]. subst q.
  destruct (Hs 0%nat ltac:(lia)) as (T0 & G0 & S0). destruct (Hs 1%nat ltac:(lia)) as (T1 & G1 & S1). specialize (S0 0%nat ltac:(cbn; lia)). specialize (S1 0%nat ltac:(cbn; lia)).
  unfold ex_grad in G0, G1. rewrite emap_ok in G0 by (repeat constructor; exact T0). rewrite emap_ok in G1 by (repeat constructor; exact T1). injection G0 as G0. injection G1 as G1.
  assert (F0 : el (G 0%nat) 0 = - el (th 0%nat) 0 / 2) by (rewrite <- G0, el_vec by (cbn; lia); reflexivity). assert (F1 : el (G 1%nat) 0 = - el (th 1%nat) 0 / 2) by (rewrite <- G1, el_vec by (cbn; lia); reflexivity).
  unfold trace_sum in S0, S1. cbn [sum_f_R0 Nat.sub pow] in S0, S1. rewrite F0 in S0, S1. rewrite F1 in S1. rewrite S1, S0, E0. cbn. lra.
Qed.
Print Assumptions C52_optimize_adam.
Print Assumptions C52_optimize_sgd_raises.
