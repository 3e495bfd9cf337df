(** C58: reversibility of the leapfrog integrator, and detailed balance of hmc and mala. *)
From Verif Require Import HarvestProofs HarvestProofs3 OptixProofs.
From Verif Require Export McmcMain.
From Coq Require Import Reals Lra Lia.
Open Scope R_scope. Open Scope string_scope. Open Scope list_scope.
#[local] Existing Instance RealArrays.

Section leapfrog.
  Variables (av : aval) (grad : tree -> res tree) (eps : R).
  Hypothesis Hnum : numeric av = true.
  (** the tree with the negated elements *)
  Definition negate (t : tree) : tree := vec av (fun i => - el t i).
  Notation leap := (leapfrog av grad eps). Notation leaps := (leapfrogs av grad eps).
  Notation ok t := (has_aval t av = true).

  Lemma kick_inv m g r : kick av eps m g = inl r -> ok m /\ ok g /\ r = vec av (fun i => el m i + 0.5 * eps * el g i).
  Proof. unfold kick, emap. cbn [forallb]. destruct (has_aval m av), (has_aval g av); try discriminate. intros H. injection H as <-. auto. Qed.
  Lemma drift_inv s m r : drift av eps s m = inl r -> ok s /\ ok m /\ r = vec av (fun i => el s i + eps * el m i).
  Proof. unfold drift, emap. cbn [forallb]. destruct (has_aval s av), (has_aval m av); try discriminate. intros H. injection H as <-. auto. Qed.
  Lemma kick_eq m g r : ok m -> ok g -> ok r -> (forall i, (i < size av)%nat -> el r i = el m i + 0.5 * eps * el g i) -> kick av eps m g = inl r.
  Proof.
    intros Hm Hg Hr H. unfold kick. rewrite emap_ok by (repeat constructor; assumption). f_equal. rewrite <- (vec_el av r Hr Hnum). apply vec_ext. intros i Hi. cbn. symmetry. apply H, Hi.
  Qed.
  Lemma drift_eq s m r : ok s -> ok m -> ok r -> (forall i, (i < size av)%nat -> el r i = el s i + eps * el m i) -> drift av eps s m = inl r.
  Proof.
    intros Hm Hg Hr H. unfold drift. rewrite emap_ok by (repeat constructor; assumption). f_equal. rewrite <- (vec_el av r Hr Hnum). apply vec_ext. intros i Hi. cbn. symmetry. apply H, Hi.
  Qed.
  Lemma el_negate t i : (i < size av)%nat -> el (negate t) i = - el t i.
  Proof. apply el_vec. Qed.
  Lemma ok_negate t : ok (negate t).
  Proof. apply has_vec. Qed.
  Lemma negate_twice t : ok t -> negate (negate t) = t.
  Proof. intros H. rewrite <- (vec_el av t H Hnum) at 2. apply vec_ext. intros i Hi. rewrite el_negate by exact Hi. lra. Qed.
  Lemma leap_typed s m s' m' : leap (s, m) = inl (s', m') -> ok s /\ ok m /\ ok s' /\ ok m'.
  Proof.
    unfold leapfrog. intros H. apply rb_inl in H as (g & Hg & H). apply rb_inl in H as (m1 & H1 & H). apply rb_inl in H as (s1 & H2 & H). apply rb_inl in H as (g1 & Hg1 & H). apply rb_inl in H as (m2 & H3 & H). injection H as <- <-.
    apply kick_inv in H1 as (? & ? & ->). apply drift_inv in H2 as (? & ? & ->). apply kick_inv in H3 as (? & ? & ->). repeat split; auto; apply has_vec.
  Qed.
  (** one step *)
  Lemma leap_reverse s m s' m' : leap (s, m) = inl (s', m') -> leap (s', negate m') = inl (s, negate m).
  Proof.
    unfold leapfrog. intros H. apply rb_inl in H as (g & Hg & H). apply rb_inl in H as (m1 & H1 & H). apply rb_inl in H as (s1 & H2 & H). apply rb_inl in H as (g1 & Hg1 & H). apply rb_inl in H as (m2 & H3 & H). injection H as <- <-.
    rewrite Hg1. cbn [rb]. apply kick_inv in H1 as (Om & Og & E1). apply drift_inv in H2 as (Os & Om1 & E2). apply kick_inv in H3 as (_ & Og1 & E3).
    assert (Os1 : ok s1) by (rewrite E2; apply has_vec).
    rewrite (kick_eq (negate m2) g1 (negate m1)); [|apply ok_negate|exact Og1|apply ok_negate|]; [cbn [rb]|intros i Hi; rewrite !el_negate, E3, el_vec by exact Hi; lra].
    rewrite (drift_eq s1 (negate m1) s); [|exact Os1|apply ok_negate|exact Os|]; [cbn [rb]|intros i Hi; rewrite el_negate, E2, el_vec by exact Hi; lra].
    rewrite Hg. cbn [rb]. rewrite (kick_eq (negate m1) g (negate m)); [reflexivity|apply ok_negate|exact Og|apply ok_negate|]. intros i Hi. rewrite !el_negate, E1, el_vec by exact Hi. lra.
  Qed.
  Lemma leaps_snoc n z : leaps (S n) z = rb (leaps n z) leap.
  Proof.
    revert z. induction n as [|n IH]; intros z; [cbn; destruct (leap z); reflexivity|]. change (leaps (S (S n)) z) with (rb (leap z) (leaps (S n))). change (leaps (S n) z) with (rb (leap z) (leaps n)). rewrite rb_assoc. apply rb_ext. intros z'. apply IH.
  Qed.
  (** C58: n steps, the momentum negated, n steps: back at the start, with the momentum negated *)
  Theorem C58_leapfrog_reversible n s m s' m' : has_aval s av = true -> has_aval m av = true ->
    leaps n (s, m) = inl (s', m') -> leaps n (s', negate m') = inl (s, negate m).
  Proof.
    intros Hs Hm. revert s' m'. induction n as [|n IH]; intros s' m' H; [injection H as <- <-; reflexivity|].
    rewrite leaps_snoc in H. apply rb_inl in H as ([s1 m1] & H1 & H2). cbn [leapfrogs]. rewrite (leap_reverse _ _ _ _ H2). cbn [rb]. apply IH, H1.
  Qed.
  (** so the map is a bijection on its domain *)
  Theorem C58_leapfrog_injective n s m t p z : has_aval s av = true -> has_aval m av = true -> has_aval t av = true -> has_aval p av = true ->
    leaps n (s, m) = inl z -> leaps n (t, p) = inl z -> s = t /\ m = p.
  Proof.
    intros Hs Hm Ht Hp H1 H2. destruct z as [s' m']. apply C58_leapfrog_reversible in H1; auto. apply C58_leapfrog_reversible in H2; auto. rewrite H1 in H2. injection H2 as -> E. split; [reflexivity|].
    rewrite <- (negate_twice m Hm), E. apply negate_twice, Hp.
  Qed.
  Theorem C58_leapfrog_surjective n s' m' s m : has_aval s' av = true -> has_aval m' av = true ->
    leaps n (s', negate m') = inl (s, m) -> leaps n (s, negate m) = inl (s', m').
  Proof. intros Hs Hm H. apply C58_leapfrog_reversible in H; [|exact Hs|apply ok_negate]. rewrite negate_twice in H by exact Hm. exact H. Qed.
  Lemma leaps_typed n s m s' m' : ok s -> ok m -> leaps n (s, m) = inl (s', m') -> ok s' /\ ok m'.
  Proof.
    intros Hs Hm. destruct n as [|n]; [intros H; injection H as <- <-; auto|]. rewrite leaps_snoc. intros H. apply rb_inl in H as ([s1 m1] & _ & H). apply leap_typed in H. tauto.
  Qed.
  (** the steps succeed when the gradient has the shapes of the state *)
  Theorem C58_leapfrog_total n s m : (forall t, ok t -> exists g, grad t = inl g /\ ok g) -> ok s -> ok m -> exists z, leaps n (s, m) = inl z.
  Proof.
    intros Hg. revert s m. induction n as [|n IH]; intros s m Hs Hm; [eexists; reflexivity|]. cbn [leapfrogs]. unfold leapfrog at 1.
    destruct (Hg s Hs) as (g & -> & Og). cbn [rb]. unfold kick. rewrite emap_ok by (repeat constructor; assumption). cbn [rb]. unfold drift. rewrite emap_ok by (repeat constructor; auto; apply has_vec). cbn [rb].
    match goal with |- context [grad ?t] => destruct (Hg t (has_vec _ _)) as (g1 & -> & Og1) end. cbn [rb]. rewrite emap_ok by (repeat constructor; auto; apply has_vec). cbn [rb]. apply IH; apply has_vec.
  Qed.

  (** ** hmc *)
  Variables (log_prob : tree -> flt) (n : nat).
  Hypothesis Hlog : forall x, is_log (log_prob x).
  Let hlp := hmc_log_prob av log_prob.
  Let inner := hmc_inner av grad eps n.
  Definition av2 : aval := AD [("0", av); ("1", av)].
  Lemma pair_typed s m : ok s -> ok m -> has_aval (pair_tree (s, m)) av2 = true.
  Proof. intros H1 H2. cbn. rewrite H1, H2. reflexivity. Qed.
  Lemma hlp_log x : has_aval x av2 = true -> is_log (hlp x).
  Proof.
    intros H. unfold hlp, hmc_log_prob. destruct x as [|l|]; try discriminate. destruct l as [|[k s] [|[k' m] [|? ?]]]; cbn in H; rewrite ?Bool.andb_false_r in H; try discriminate.
    all: try (cbn; pose proof (Hlog s) as L; destruct (log_prob s); cbn in *; tauto).
    destruct p. rewrite !Bool.andb_false_r in H. discriminate.
  Qed.
  (** a standard normal momentum and its negation are equally likely *)
  Lemma momentum_even m : momentum_log_prob av (negate m) = momentum_log_prob av m.
  Proof.
    unfold momentum_log_prob. f_equal. apply map_ext_in. intros i Hi. apply in_seq in Hi. rewrite el_negate by lia. unfold normal_log_prob.
    replace ((- el m i - 0) / 1) with (- ((el m i - 0) / 1)) by (unfold Rdiv; lra). rewrite <- (Rsqr_pow2 (- _)), <- (Rsqr_pow2 ((el m i - _) / _)), <- Rsqr_neg. reflexivity.
  Qed.
  (** the proposal, followed by a negation of the momentum, is its own inverse; metropolis accepts it with probability
      min(1, exp(H' - H)); so each move of the pair (state, momentum) balances its reversed move *)
  Theorem C58_hmc_balance s m s' m' a a' k k' : has_aval s av = true -> has_aval m av = true -> leaps n (s, m) = inl (s', m') ->
    (s, m) <> (s', m') -> (s', negate m') <> (s, negate m) ->
    chance (fun u => metropolis_body hlp inner k u (pair_tree (s, m)) = inl (pair_tree (s', m'))) a ->
    chance (fun u => metropolis_body hlp inner k' u (pair_tree (s', negate m')) = inl (pair_tree (s, negate m))) a' ->
    dens (hlp (pair_tree (s, m))) * a = dens (hlp (pair_tree (s', negate m'))) * a'.
  Proof.
    intros Hs Hm H N N' Ha Ha'. destruct (leaps_typed _ _ _ _ _ Hs Hm H) as [Hs' Hm']. pose proof (C58_leapfrog_reversible _ _ _ _ _ Hs Hm H) as Hr.
    assert (I1 : inner k (pair_tree (s, m)) = inl (pair_tree (s', m'))) by (unfold inner, hmc_inner; cbn [unpair pair_tree fst snd rb]; rewrite H; reflexivity).
    assert (I2 : inner k' (pair_tree (s', negate m')) = inl (pair_tree (s, negate m))) by (unfold inner, hmc_inner; cbn [unpair pair_tree fst snd rb]; rewrite Hr; reflexivity).
    pose proof (chance_step av2 inner (fun x y => xsub (hlp y) (hlp x)) _ (metropolis_step av2 hlp inner) k _ (pair_tree (s', m')) _ (pair_typed _ _ Hs Hm) I1 (pair_typed _ _ Hs' Hm')) as E.
    pose proof (chance_step av2 inner (fun x y => xsub (hlp y) (hlp x)) _ (metropolis_step av2 hlp inner) k' _ (pair_tree (s, negate m)) _ (pair_typed _ _ Hs' (ok_negate _)) I2 (pair_typed _ _ Hs (ok_negate _))) as E'.
    rewrite (chance_unique _ _ _ Ha E), (chance_unique _ _ _ Ha' E'). unfold isat.
    destruct (tree_dec (pair_tree (s', m')) (pair_tree (s', m'))); [|tauto]. destruct (tree_dec (pair_tree (s, negate m)) (pair_tree (s, negate m))); [|tauto].
    destruct (tree_dec (pair_tree (s, m)) _) as [Eq|_]; [unfold pair_tree in Eq; injection Eq as -> ->; tauto|].
    destruct (tree_dec (pair_tree (s', negate m')) _) as [Eq|_]; [unfold pair_tree in Eq; injection Eq as Ea Eb; exfalso; apply N'; congruence|].
    assert (E1 : hlp (pair_tree (s, negate m)) = hlp (pair_tree (s, m))) by (unfold hlp, hmc_log_prob; cbn; rewrite momentum_even; reflexivity).
    assert (E2 : hlp (pair_tree (s', negate m')) = hlp (pair_tree (s', m'))) by (unfold hlp, hmc_log_prob; cbn; rewrite momentum_even; reflexivity).
    rewrite E1, E2. pose proof (acc_balance _ _ (hlp_log _ (pair_typed _ _ Hs Hm)) (hlp_log _ (pair_typed _ _ Hs' Hm'))) as B1. pose proof (acc_balance _ _ (hlp_log _ (pair_typed _ _ Hs' Hm')) (hlp_log _ (pair_typed _ _ Hs Hm))) as B2. rewrite Rmin_comm in B2. rewrite <- B1 in B2. lra.
  Qed.
  Theorem C58_hmc_acceptance s m s' m' k : has_aval s av = true -> has_aval m av = true -> leaps n (s, m) = inl (s', m') -> (s, m) <> (s', m') -> dens (log_prob s) <> 0 ->
    chance (fun u => metropolis_body hlp inner k u (pair_tree (s, m)) = inl (pair_tree (s', m')))
      (Rmin 1 ((dens (log_prob s') * exp (momentum_log_prob av m')) / (dens (log_prob s) * exp (momentum_log_prob av m)))).
  Proof.
    intros Hs Hm H N Hd. destruct (leaps_typed _ _ _ _ _ Hs Hm H) as [Hs' Hm'].
    assert (I1 : inner k (pair_tree (s, m)) = inl (pair_tree (s', m'))) by (unfold inner, hmc_inner; cbn [unpair pair_tree fst snd rb]; rewrite H; reflexivity).
    pose proof (chance_step av2 inner (fun x y => xsub (hlp y) (hlp x)) _ (metropolis_step av2 hlp inner) k _ (pair_tree (s', m')) _ (pair_typed _ _ Hs Hm) I1 (pair_typed _ _ Hs' Hm')) as E.
    assert (D : forall t p, dens (hlp (pair_tree (t, p))) = dens (log_prob t) * exp (momentum_log_prob av p)).
    { intros t p. unfold hlp, hmc_log_prob. cbn. pose proof (Hlog t) as L. destruct (log_prob t); cbn in *; try tauto; [apply exp_plus|lra]. }
    eapply chance_eq; [|exact E]. rewrite <- !D, <- acc_formula.
    - unfold isat. destruct (tree_dec (pair_tree (s', m')) (pair_tree (s', m'))); [|tauto]. destruct (tree_dec (pair_tree (s, m)) _) as [Eq|_]; [unfold pair_tree in Eq; injection Eq as -> ->; tauto|]. ring.
    - rewrite D. pose proof (exp_pos (momentum_log_prob av m)). apply Rmult_integral_contrapositive_currified; lra.
    - apply hlp_log, pair_typed; assumption.
    - apply hlp_log, pair_typed; assumption.
  Qed.
  (** a step of hmc draws a momentum and stays or goes to the end point of the trajectory *)
  Theorem C58_hmc_step split uniform normals key state s1 : has_aval state av = true -> (forall k, has_aval (normals k) av = true) ->
    hmc split uniform av normals log_prob grad eps n key state = inl s1 ->
    exists s' m', leaps n (state, normals (snd (split key))) = inl (s', m') /\ (s1 = s' \/ s1 = state).
  Proof.
    intros Hs Hn H. unfold hmc in H. destruct (split key) as [mh mk]. cbn [fst snd]. apply rb_inl in H as (r & Hr & H). unfold metropolis in Hr.
    pose proof Hr as Hr0. unfold metropolis_body, hmc_inner in Hr. cbn [unpair pair_tree fst snd rb] in Hr. destruct (leaps n (state, normals mk)) as [[s' m']|e] eqn:E; [|discriminate].
    exists s', m'. split; [reflexivity|]. destruct (leaps_typed _ _ _ _ _ Hs (Hn mk) E) as [Hs' Hm'].
    change (metropolis_body hlp inner (fst (split mh)) (uniform (snd (split mh))) (pair_tree (state, normals mk)) = inl r) in Hr0.
    rewrite (metropolis_step av2 hlp inner _ _ _ (pair_tree (s', m')) (pair_typed _ _ Hs (Hn mk))) in Hr0; [| |apply pair_typed; assumption].
    - injection Hr0 as <-. destruct (xlt _ _); cbn in H; injection H as <-; auto.
    - unfold inner, hmc_inner. cbn [unpair pair_tree fst snd rb]. rewrite E. reflexivity.
  Qed.
End leapfrog.
(** mala is hmc with one step *)
Theorem C58_mala_step av grad eps log_prob split uniform normals key state s1 : numeric av = true -> has_aval state av = true -> (forall k, has_aval (normals k) av = true) ->
  mala split uniform av normals log_prob grad eps key state = inl s1 ->
  exists s' m', leapfrog av grad eps (state, normals (snd (split key))) = inl (s', m') /\ (s1 = s' \/ s1 = state).
Proof.
  intros Hn Hs Hm H. destruct (C58_hmc_step av grad eps log_prob 1 split uniform normals key state s1 Hs Hm H) as (s' & m' & E & Hd).
  exists s', m'. cbn [leapfrogs] in E. destruct (leapfrog _ _ _ _) as [[? ?]|]; [|discriminate]. cbn in E. injection E as <- <-. auto.
Qed.
(** a concrete case: the standard normal on two coordinates; the gradient of its log density is -x *)
Definition ex_av : aval := AD [("x", AL (ANum 1)); ("y", AL (ANum 1))].
Lemma C58_example eps n s m : has_aval s ex_av = true -> has_aval m ex_av = true ->
  exists s' m', leapfrogs ex_av (fun x => inl (negate ex_av x)) eps n (s, m) = inl (s', m') /\
    leapfrogs ex_av (fun x => inl (negate ex_av x)) eps n (s', negate ex_av m') = inl (s, negate ex_av m).
Proof.
  intros Hs Hm. destruct (C58_leapfrog_total ex_av (fun x => inl (negate ex_av x)) eps n s m) as [[s' m'] E]; auto; [intros t Ht; eexists; split; [reflexivity|apply ok_negate]|].
  exists s', m'. split; [exact E|]. apply C58_leapfrog_reversible; auto.
Qed.
Print Assumptions C56_stationary.
Print Assumptions C57_detailed_balance_refuted.
Print Assumptions C58_hmc_balance.
