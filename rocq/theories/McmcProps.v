(** C56, C57: detailed balance and stationarity of metropolis and metropolis_hastings. *)
From Verif Require Import OptixProofs InverseProofs.
From Verif Require Export McmcSpec.
From Verif Require HarvestProofs2.
From Coq Require Import Reals Lra Lia Classical.
From Coquelicot Require Import Coquelicot.
Open Scope R_scope. Open Scope list_scope.
Notation tree_ind' := HarvestProofs2.tree_ind'.

(** ** chances *)
Lemma chance_unique A p q : chance A p -> chance A q -> p = q.
Proof.
  intros (g & Hg & Ig) (h & Hh & Ih). rewrite <- (is_RInt_unique (V := R_CompleteNormedModule) _ _ _ _ Ih). symmetry. apply (is_RInt_unique (V := R_CompleteNormedModule)). eapply is_RInt_ext; [|exact Ig].
  intros u Hu. rewrite Rmin_left, Rmax_right in Hu by lra. destruct (Hg u Hu) as [G1 G0], (Hh u Hu) as [H1 H0].
  destruct (classic (A u)) as [Ha|Ha]; [rewrite G1, H1|rewrite G0, H0]; auto.
Qed.
Lemma chance_ext A B p : (forall u, 0 < u < 1 -> (A u <-> B u)) -> chance A p -> chance B p.
Proof. intros H (g & Hg & Ig). exists g. split; [|exact Ig]. intros u Hu. destruct (Hg u Hu), (H u Hu). split; auto. Qed.
Lemma chance_below a : 0 <= a <= 1 -> chance (fun u => u < a) a.
Proof.
  intros Ha. exists (fun u => if Rlt_dec u a then 1 else 0). split; [intros u _; destruct (Rlt_dec u a); split; tauto|].
  set (g := fun u => if Rlt_dec u a then 1 else 0).
  assert (H1 : is_RInt g 0 a a).
  { apply (is_RInt_ext (fun _ => 1)); [intros u Hu; rewrite Rmin_left, Rmax_right in Hu by lra; unfold g; destruct (Rlt_dec u a); lra|].
    pose proof (is_RInt_const (V := R_NormedModule) 0 a 1) as H. replace (scal (a - 0) (1 : R_NormedModule)) with a in H by (unfold scal; cbn; unfold mult; cbn; lra). exact H. }
  assert (H2 : is_RInt g a 1 0).
  { apply (is_RInt_ext (fun _ => 0)); [intros u Hu; rewrite Rmin_left, Rmax_right in Hu by lra; unfold g; destruct (Rlt_dec u a); lra|].
    pose proof (is_RInt_const (V := R_NormedModule) a 1 0) as H. replace (scal (1 - a) (0 : R_NormedModule)) with 0 in H by (unfold scal; cbn; unfold mult; cbn; lra). exact H. }
  pose proof (is_RInt_Chasles g 0 a 1 a 0 H1 H2) as H. assert (E : @plus R_NormedModule a 0 = a) by (unfold plus; cbn; lra). rewrite E in H. exact H.
Qed.
Lemma chance_true : chance (fun _ => True) 1.
Proof. apply (chance_ext (fun u => u < 1)); [intros u Hu; split; auto; lra|]. apply chance_below. lra. Qed.
Lemma chance_false : chance (fun _ => False) 0.
Proof. apply (chance_ext (fun u => u < 0)); [intros u Hu; split; [lra|tauto]|]. apply chance_below. lra. Qed.
Lemma chance_not A p : chance A p -> chance (fun u => ~ A u) (1 - p).
Proof.
  intros (g & Hg & Ig). exists (fun u => minus 1 (g u)). split.
  - intros u Hu. destruct (Hg u Hu) as [G1 G0]. unfold minus, plus, opp. cbn. split; intros H; [rewrite G0 by auto; lra|].
    destruct (classic (A u)) as [Ha|Ha]; [rewrite G1 by auto; lra|tauto].
  - change (1 - p) with (minus 1 p). apply (is_RInt_minus (V := R_NormedModule)); [|exact Ig].
    pose proof (is_RInt_const (V := R_NormedModule) 0 1 1) as H. replace (scal (1 - 0) (1 : R_NormedModule)) with 1 in H by (unfold scal; cbn; unfold mult; cbn; lra). exact H.
Qed.

(** ** acceptance *)
Definition acc (r : flt) : R := match r with Fin r => Rmin 1 (exp r) | PInf => 1 | _ => 0 end.
Lemma chance_accept r : chance (fun u => xlt (xlog u) r = true) (acc r).
Proof.
  destruct r as [r| | |]; cbn [acc].
  - apply (chance_ext (fun u => u < Rmin 1 (exp r))).
    + intros u Hu. unfold xlog. destruct (Rlt_dec 0 u); [|lra]. cbn. assert (E : ln u < r <-> u < exp r).
      { split; intros H; [rewrite <- (exp_ln u) by lra; apply exp_increasing, H|]. rewrite <- (ln_exp r). apply ln_increasing; lra. }
      destruct (Rlt_dec (ln u) r) as [H|H].
      * split; auto. intros _. apply Rmin_glb_lt; [lra|tauto].
      * split; [|discriminate]. intros H'. exfalso. apply H, E. eapply Rlt_le_trans; [exact H'|apply Rmin_r].
    + apply chance_below. split; [apply Rmin_glb; [lra|left; apply exp_pos]|apply Rmin_l].
  - eapply chance_ext; [|apply chance_true]. intros u Hu. unfold xlog. destruct (Rlt_dec 0 u); [|lra]. cbn. tauto.
  - eapply chance_ext; [|apply chance_false]. intros u Hu. unfold xlog. destruct (Rlt_dec 0 u); [|lra]. cbn. split; [tauto|discriminate].
  - eapply chance_ext; [|apply chance_false]. intros u Hu. unfold xlog. destruct (Rlt_dec 0 u); [|lra]. cbn. split; [tauto|discriminate].
Qed.
Lemma acc_bounds r : 0 <= acc r <= 1.
Proof. destruct r; cbn; try lra. split; [apply Rmin_glb; [lra|left; apply exp_pos]|apply Rmin_l]. Qed.
(** pi(x) min(1, pi(y)/pi(x)) = min(pi(x), pi(y)) *)
Lemma acc_balance a b : is_log a -> is_log b -> dens a * acc (xsub b a) = Rmin (dens a) (dens b).
Proof.
  destruct a as [a| | |], b as [b| | |]; cbn; try tauto; intros _ _; try (pose proof (exp_pos a)); try (pose proof (exp_pos b)).
  - replace (b + - a) with (b - a) by lra. unfold Rminus. rewrite exp_plus, exp_Ropp.
    unfold Rmin. destruct (Rle_dec 1 (exp b * / exp a)) as [H1|H1], (Rle_dec (exp a) (exp b)) as [H2|H2]; try lra.
    + exfalso. apply H2. apply (Rmult_le_compat_r (exp a)) in H1; [|lra]. rewrite Rmult_assoc, Rinv_l in H1 by lra. lra.
    + exfalso. apply H1. apply (Rmult_le_reg_r (exp a)); [lra|]. rewrite Rmult_assoc, Rinv_l by lra. lra.
    + field. lra.
  - rewrite Rmin_right by lra. lra.
  - rewrite Rmin_left by lra. lra.
  - rewrite Rmin_left by lra. lra.
Qed.
Lemma acc_formula a b : dens a <> 0 -> is_log a -> is_log b -> acc (xsub b a) = Rmin 1 (dens b / dens a).
Proof.
  destruct a as [a| | |], b as [b| | |]; cbn; try tauto; intros Ha _ _.
  - f_equal. unfold Rdiv. rewrite exp_plus, exp_Ropp. reflexivity.
  - rewrite Rmin_right; [lra|]. unfold Rdiv. lra.
Qed.

(** ** tree_map of where *)
Lemma where_tree_typed c n : forall s av, has_aval n av = true -> has_aval s av = true -> where_tree c n s = inl (if c then n else s).
Proof.
  induction n as [v|l IH|l IH] using tree_ind'; intros s av Hn Hs.
  - destruct av as [a| |]; try discriminate. destruct s as [w| |]; try discriminate. cbn in *. change (rav_eqb (raval v) a = true) in Hn. change (rav_eqb (raval w) a = true) in Hs. apply rav_eqb_spec in Hn, Hs.
    assert (E : rav_eqb (raval v) (raval w) = true) by (apply rav_eqb_spec; congruence). rewrite E. destruct c; reflexivity.
  - destruct av as [|m|]; try discriminate. destruct s as [|l'|]; try discriminate. cbn in *.
    match goal with |- rb ?g _ = _ => assert (E : g = inl (if c then l else l')) end; [|rewrite E; destruct c; reflexivity].
    revert m l' Hn Hs. induction IH as [|[k t] l Hx Hl IHl]; intros [|[k1 a] m] [|[k2 t'] l'] Hn Hs; try discriminate; [destruct c; reflexivity|].
    apply andb_prop in Hn as [Hn1 Hn]. apply andb_prop in Hn1 as [Hk1 Hn1]. apply andb_prop in Hs as [Hs1 Hs]. apply andb_prop in Hs1 as [Hk2 Hs1].
    apply String.eqb_eq in Hk1 as ->. apply String.eqb_eq in Hk2 as ->. rewrite String.eqb_refl. cbn [snd] in Hx. rewrite (Hx _ _ Hn1 Hs1). cbn [rb]. rewrite (IHl _ _ Hn Hs). cbn. destruct c; reflexivity.
  - destruct av as [| |n a]; try discriminate. destruct s as [| |l']; try discriminate. cbn in *.
    apply andb_prop in Hn as [Hn1 Hn]. apply andb_prop in Hs as [Hs1 Hs]. apply Nat.eqb_eq in Hn1, Hs1. rewrite <- Hn1 in Hs1. clear Hn1 n.
    match goal with |- rb ?g _ = _ => assert (E : g = inl (if c then l else l')) end; [|rewrite E; destruct c; reflexivity].
    revert l' Hs1 Hn Hs. induction IH as [|t l Hx Hl IHl]; intros [|t' l'] Hl' Hn Hs; try discriminate; [destruct c; reflexivity|].
    cbn in Hn, Hs. apply andb_prop in Hn as [Hn1 Hn]. apply andb_prop in Hs as [Hs1 Hs]. rewrite (Hx _ _ Hn1 Hs1). cbn [rb]. rewrite (IHl l'); auto. cbn. destruct c; reflexivity.
Qed.

(** ** a step that accepts or rejects a proposal *)
Lemma rsum_ext {X} (f g : X -> R) l : (forall x, In x l -> f x = g x) -> rsum f l = rsum g l.
Proof. unfold rsum. induction l as [|x l IH]; intros H; [reflexivity|]. cbn. rewrite H, IH; [reflexivity| |left; reflexivity]. intros y Hy. apply H. right. exact Hy. Qed.
Lemma rsum_plus {X} (f g : X -> R) l : rsum (fun x => f x + g x) l = rsum f l + rsum g l.
Proof. unfold rsum. induction l as [|x l IH]; cbn; [lra|]. rewrite IH. lra. Qed.
Lemma rsum_scal {X} c (f : X -> R) l : rsum (fun x => c * f x) l = c * rsum f l.
Proof. unfold rsum. induction l as [|x l IH]; cbn; [lra|]. rewrite IH. lra. Qed.
Lemma rsum_zero {X} (l : list X) : rsum (fun _ => 0) l = 0.
Proof. unfold rsum. induction l as [|x l IH]; cbn; lra. Qed.
Lemma rsum_swap {X Y} (f : X -> Y -> R) l l' : rsum (fun x => rsum (f x) l') l = rsum (fun y => rsum (fun x => f x y) l) l'.
Proof.
  induction l as [|x l IH]; [change (0 = rsum (fun _ : Y => 0) l'); rewrite rsum_zero; reflexivity|].
  change (rsum (f x) l' + rsum (fun x => rsum (f x) l') l = rsum (fun y => f x y + rsum (fun x => f x y) l) l'). rewrite IH, rsum_plus. reflexivity.
Qed.
Lemma rsum_map {X Y} (f : Y -> R) (g : X -> Y) l : rsum f (map g l) = rsum (fun x => f (g x)) l.
Proof. unfold rsum. induction l as [|x l IH]; cbn; congruence. Qed.
Definition isat (z y : tree) : R := if tree_dec z y then 1 else 0.
Lemma rsum_ind z l c : NoDup l -> In z l -> rsum (fun y => isat z y * c) l = c.
Proof.
  induction 1 as [|x l Hx Hl IH]; intros [].
  - subst x. cbn. unfold isat at 1. destruct (tree_dec z z); [|tauto]. change (fold_right (fun x s => isat z x * c + s) 0 l) with (rsum (fun y => isat z y * c) l). rewrite (rsum_ext _ (fun _ => 0)), rsum_zero; [lra|].
    intros y Hy. unfold isat. destruct (tree_dec z y); [subst; tauto|lra].
  - cbn. unfold isat at 1. destruct (tree_dec z x); [subst; tauto|]. change (fold_right (fun x s => isat z x * c + s) 0 l) with (rsum (fun y => isat z y * c) l). rewrite IH by assumption. lra.
Qed.

Section step.
  Variables (av : aval) (W : keys) (inner : tree -> tree -> res tree) (ratio : tree -> tree -> flt) (step : tree -> R -> tree -> res tree).
  Hypothesis Hstep : forall k u x z, has_aval x av = true -> inner k x = inl z -> has_aval z av = true -> step k u x = inl (if xlt (xlog u) (ratio x z) then z else x).

  (** the chance of going from x to y when z is proposed *)
  Lemma chance_step k x y z : has_aval x av = true -> inner k x = inl z -> has_aval z av = true ->
    chance (fun u => step k u x = inl y) (isat z y * acc (ratio x z) + isat x y * (1 - acc (ratio x z))).
  Proof.
    intros Hx Hz Tz. assert (E : forall u, step k u x = inl y <-> (if xlt (xlog u) (ratio x z) then z else x) = y).
    { intros u. rewrite (Hstep k u x z Hx Hz Tz). split; [intros H; injection H; auto|congruence]. }
    pose proof (chance_accept (ratio x z)) as Ha. unfold isat. destruct (tree_dec z y) as [->|Nz], (tree_dec x y) as [->|Nx].
    - replace (1 * acc (ratio y y) + 1 * (1 - acc (ratio y y))) with 1 by lra. eapply chance_ext; [|apply chance_true]. intros u _. rewrite E. destruct (xlt _ _); tauto.
    - replace (1 * acc (ratio x y) + 0 * (1 - acc (ratio x y))) with (acc (ratio x y)) by lra. eapply chance_ext; [|exact Ha]. intros u _. rewrite E. destruct (xlt _ _); split; auto; try discriminate; tauto.
    - replace (0 * acc (ratio y z) + 1 * (1 - acc (ratio y z))) with (1 - acc (ratio y z)) by lra. eapply chance_ext; [|apply chance_not, Ha]. intros u _. cbv beta. rewrite E. destruct (xlt _ _); split; auto; try tauto; try discriminate.
    - replace (0 * acc (ratio x z) + 0 * (1 - acc (ratio x z))) with 0 by lra. eapply chance_ext; [|apply chance_false]. intros u _. rewrite E. destruct (xlt _ _); tauto.
  Qed.

  Definition prob (x y : tree) : R :=
    rsum (fun wk => fst wk * (match inner (snd wk) x with inl z => isat z y * acc (ratio x z) + isat x y * (1 - acc (ratio x z)) | inr _ => 0 end)) W.
  Definition typed_on (x : tree) : Prop := has_aval x av = true /\ forall w k, In (w, k) W -> exists z, inner k x = inl z /\ has_aval z av = true.
  Lemma moves_prob x y : typed_on x -> moves W step x y (prob x y).
  Proof.
    intros [Hx Hz]. unfold prob. exists (map (fun wk => match inner (snd wk) x with inl z => isat z y * acc (ratio x z) + isat x y * (1 - acc (ratio x z)) | inr _ => 0 end) W). split.
    - induction W as [|[w k] l IH]; [constructor|]. cbn [map]. constructor.
      + cbn [snd]. destruct (Hz w k (or_introl eq_refl)) as (z & E & Tz). rewrite E. apply chance_step; assumption.
      + apply IH. intros w' k' H. apply (Hz w' k'). right. exact H.
    - induction W as [|wk l IH]; [reflexivity|]. cbn. f_equal. apply IH. intros w' k' H. apply (Hz w' k'). right. exact H.
  Qed.
  Lemma moves_unique x y p q : moves W step x y p -> moves W step x y q -> p = q.
  Proof.
    intros (ps & Hp & ->) (qs & Hq & ->). assert (ps = qs) as ->; [|reflexivity]. revert qs Hq. induction Hp as [|wk a l ps H Hp IH]; intros qs Hq; inversion Hq; subst; [reflexivity|]. f_equal; [eapply chance_unique; eassumption|auto].
  Qed.
  Lemma prob_other x y : x <> y -> prob x y = proposes W inner x y * acc (ratio x y).
  Proof.
    intros N. unfold prob, proposes. rewrite Rmult_comm, <- rsum_scal. apply rsum_ext. intros [w k] _. cbn [fst snd]. destruct (inner k x) as [z|]; [|lra]. unfold isat.
    destruct (tree_dec x y); [tauto|]. destruct (tree_dec z y) as [->|]; lra.
  Qed.
  Variables (log_prob : tree -> flt) (S : tree -> Prop).
  Hypotheses (Hprop : proposal_on W inner S) (Htyped : forall x, S x -> has_aval x av = true).
  Lemma typed_states x : S x -> typed_on x.
  Proof. intros Hx. destruct Hprop as (_ & _ & Hp). split; [auto|]. intros w k Hk. destruct (Hp x w k Hx Hk) as (z & Hz & E). exists z. auto. Qed.
  Lemma prob_total x F : S x -> NoDup F -> In x F -> (forall w k z, In (w, k) W -> inner k x = inl z -> In z F) -> rsum (fun y => prob x y) F = 1.
  Proof.
    intros Hx Hn Hi HF. destruct Hprop as (Hw & _ & Hp). unfold prob. rewrite rsum_swap. transitivity (rsum fst W); [|exact Hw]. apply rsum_ext. intros [w k] Hk. cbn [fst snd]. destruct (Hp x w k Hx Hk) as (z & Hz & E). rewrite E. rewrite rsum_scal, rsum_plus, !rsum_ind by (auto; apply (HF w k); assumption). cbn [fst]. lra.
  Qed.
  Lemma prob_outside x y : x <> y -> (forall w k, In (w, k) W -> inner k x <> inl y) -> prob x y = 0.
  Proof.
    intros N Ho. unfold prob. rewrite (rsum_ext _ (fun _ => 0)); [apply rsum_zero|]. intros [w k] Hk. cbn [fst snd]. specialize (Ho w k Hk). destruct (inner k x) as [z|]; [|lra]. unfold isat. destruct (tree_dec z y); [congruence|]. destruct (tree_dec x y); [tauto|]. lra.
  Qed.
  Hypothesis Hbal : forall x y, S x -> S y -> x <> y ->
    dens (log_prob x) * (proposes W inner x y * acc (ratio x y)) = dens (log_prob y) * (proposes W inner y x * acc (ratio y x)).
  Lemma prob_balance x y : S x -> S y -> dens (log_prob x) * prob x y = dens (log_prob y) * prob y x.
  Proof. intros Hx Hy. destruct (tree_dec x y) as [->|N]; [reflexivity|]. rewrite !prob_other by auto. auto. Qed.
  Lemma step_reversible x y : S x -> S y -> reversible W step log_prob x y.
  Proof. intros Hx Hy. exists (prob x y), (prob y x). split; [apply moves_prob, typed_states, Hx|]. split; [apply moves_prob, typed_states, Hy|]. apply prob_balance; assumption. Qed.
  Definition next (x : tree) : list tree := nodup tree_dec (x :: flat_map (fun wk => match inner (snd wk) x with inl z => z :: nil | inr _ => nil end) W).
  Lemma next_in x z : In z (next x) <-> z = x \/ exists w k, In (w, k) W /\ inner k x = inl z.
  Proof.
    unfold next. rewrite nodup_In. cbn [In]. rewrite in_flat_map. split.
    - intros [->|([w k] & Hk & Hz)]; [auto|]. right. exists w, k. split; [exact Hk|]. cbn [snd] in Hz. destruct (inner k x) as [z'|]; [|destruct Hz]. destruct Hz as [->|[]]. reflexivity.
    - intros [->|(w & k & Hk & E)]; [auto|]. right. exists (w, k). split; [exact Hk|]. cbn [snd]. rewrite E. left. reflexivity.
  Qed.
  Lemma step_stationary : stationary W step log_prob S.
  Proof.
    exists prob. split; [intros x y Hx Hy; apply moves_prob, typed_states, Hx|]. intros y Hy. exists (next y).
    assert (HS : forall x, In x (next y) -> S x).
    { intros x Hx. apply next_in in Hx as [->|(w & k & Hk & E)]; [exact Hy|]. destruct Hprop as (_ & _ & Hp). destruct (Hp y w k Hy Hk) as (z & Hz & E'). congruence. }
    split; [apply NoDup_nodup|]. split; [exact HS|]. split.
    - intros x Hx Hn. rewrite prob_balance by assumption. rewrite prob_outside; [lra|intros ->; apply Hn, next_in; auto|]. intros w k Hk E. apply Hn, next_in. right. eauto.
    - rewrite (rsum_ext _ (fun x => dens (log_prob y) * prob y x)) by (intros x Hx; apply prob_balance; auto). rewrite rsum_scal, prob_total; [lra|exact Hy|apply NoDup_nodup|apply next_in; auto|]. intros w k z Hk E. apply next_in. right. eauto.
  Qed.
End step.
