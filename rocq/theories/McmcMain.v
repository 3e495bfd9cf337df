(** C56-C58: metropolis, metropolis_hastings, hmc. *)
From Verif Require Import OptixProofs.
From Verif Require Export McmcProps.
From Coq Require Import Reals Lra Lia Classical.
Open Scope R_scope. Open Scope list_scope.
#[local] Existing Instance RealArrays.

Lemma chance_eq A p q : p = q -> chance A p -> chance A q.
Proof. intros ->. auto. Qed.
(** ** C56: metropolis *)
Section metropolis.
  Variables (av : aval) (log_prob : tree -> flt) (inner : tree -> tree -> res tree).
  Hypothesis Hlog : forall x, is_log (log_prob x).
  Let step := metropolis_body log_prob inner.
  Let ratio x y := xsub (log_prob y) (log_prob x).
  Lemma metropolis_step k u x z : has_aval x av = true -> inner k x = inl z -> has_aval z av = true -> step k u x = inl (if xlt (xlog u) (ratio x z) then z else x).
  Proof. intros Hx Hi Hz. unfold step, metropolis_body. rewrite Hi. cbn [rb]. apply (where_tree_typed _ _ _ av); assumption. Qed.

  (** the step with the uniform number u (0 included): the proposal y if u pi(x) < pi(y), else x *)
  Theorem C56_accepts_iff k u x y : 0 <= u < 1 -> has_aval x av = true -> has_aval y av = true -> inner k x = inl y ->
    (u * dens (log_prob x) < dens (log_prob y) -> step k u x = inl y) /\ (dens (log_prob y) <= u * dens (log_prob x) -> step k u x = inl x).
  Proof.
    intros Hu Hx Hy Hi. rewrite (metropolis_step k u x y Hx Hi Hy). unfold ratio. pose proof (Hlog x) as Lx. pose proof (Hlog y) as Ly. unfold xlog.
    destruct (log_prob x) as [a| | |]; cbn in Lx; try tauto; destruct (log_prob y) as [b| | |]; cbn in Ly; try tauto; cbn [dens xsub xneg xadd].
    - pose proof (exp_pos a) as Pa. pose proof (exp_pos b) as Pb. destruct (Rlt_dec 0 u) as [H0|H0].
      + assert (E : u * exp a = exp (ln u + a)) by (rewrite exp_plus, exp_ln by exact H0; reflexivity). rewrite E. cbn [xlt]. split; intros H.
        * destruct (Rlt_dec (ln u) (b + - a)) as [G|G]; [reflexivity|]. exfalso. apply exp_lt_inv in H. lra.
        * destruct (Rlt_dec (ln u) (b + - a)) as [G|G]; [|reflexivity]. exfalso. assert (exp (ln u + a) < exp b) by (apply exp_increasing; lra). lra.
      + assert (u = 0) by lra. subst u. cbn [xlt]. split; intros H; [reflexivity|lra].
    - pose proof (exp_pos a) as Pa. split; intros H; [exfalso; assert (0 <= u * exp a) by (apply Rmult_le_pos; lra); lra|]. destruct (Rlt_dec 0 u); reflexivity.
    - pose proof (exp_pos b) as Pb. split; intros H; [destruct (Rlt_dec 0 u); reflexivity|lra].
    - split; intros H; [lra|]. destruct (Rlt_dec 0 u); reflexivity.
  Qed.
  (** a proposal y is accepted with probability min(1, pi(y)/pi(x)); otherwise the state stays x *)
  Theorem C56_acceptance k x y : has_aval x av = true -> has_aval y av = true -> inner k x = inl y -> dens (log_prob x) <> 0 -> x <> y ->
    chance (fun u => step k u x = inl y) (Rmin 1 (dens (log_prob y) / dens (log_prob x))) /\
    chance (fun u => step k u x = inl x) (1 - Rmin 1 (dens (log_prob y) / dens (log_prob x))) /\
    forall u, step k u x = inl y \/ step k u x = inl x.
  Proof.
    intros Hx Hy Hi Hd N. pose proof (chance_step av inner ratio step metropolis_step k x) as H. split; [|split].
    - specialize (H y y Hx Hi Hy). unfold isat in H. destruct (tree_dec y y); [|tauto]. destruct (tree_dec x y); [tauto|]. unfold ratio in H. rewrite acc_formula in H by auto. eapply chance_eq; [|exact H]. ring.
    - specialize (H x y Hx Hi Hy). unfold isat in H. destruct (tree_dec x x); [|tauto]. destruct (tree_dec y x); [subst; tauto|]. unfold ratio in H. rewrite acc_formula in H by auto. eapply chance_eq; [|exact H]. ring.
    - intros u. rewrite (metropolis_step k u x y) by assumption. destruct (xlt _ _); auto.
  Qed.
  (** states of probability zero: a proposal of positive probability is always accepted, one of probability zero never *)
  Theorem C56_acceptance_zero k x y : has_aval x av = true -> has_aval y av = true -> inner k x = inl y -> x <> y ->
    dens (log_prob x) = 0 -> chance (fun u => step k u x = inl y) (if Rlt_dec 0 (dens (log_prob y)) then 1 else 0).
  Proof.
    intros Hx Hy Hi N Hd. pose proof (chance_step av inner ratio step metropolis_step k x y y Hx Hi Hy) as H. unfold isat in H. destruct (tree_dec y y); [|tauto]. destruct (tree_dec x y); [tauto|]. unfold ratio in H. pose proof (Hlog x) as Lx. pose proof (Hlog y) as Ly.
    destruct (log_prob x) as [a| | |]; cbn in *; try tauto; [pose proof (exp_pos a); lra|]. destruct (log_prob y) as [b| | |]; cbn in *; try tauto.
    - pose proof (exp_pos b). destruct (Rlt_dec 0 (exp b)); [|lra]. replace (1 * 1 + 0 * (1 - 1)) with 1 in H by lra. exact H.
    - destruct (Rlt_dec 0 0); [lra|]. replace (1 * 0 + 0 * (1 - 0)) with 0 in H by lra. exact H.
  Qed.

  (** on any state space, for a symmetric proposal *)
  Variables (W : keys) (S : tree -> Prop).
  Hypotheses (Hprop : proposal_on W inner S) (Htyped : forall x, S x -> has_aval x av = true)
    (Hsym : forall x y, S x -> S y -> proposes W inner x y = proposes W inner y x).
  Lemma metropolis_balance x y : S x -> S y -> x <> y ->
    dens (log_prob x) * (proposes W inner x y * acc (ratio x y)) = dens (log_prob y) * (proposes W inner y x * acc (ratio y x)).
  Proof.
    intros Hx Hy _. rewrite (Hsym y x) by assumption. unfold ratio. pose proof (acc_balance (log_prob x) (log_prob y) (Hlog x) (Hlog y)) as E1. pose proof (acc_balance (log_prob y) (log_prob x) (Hlog y) (Hlog x)) as E2. rewrite Rmin_comm in E2.
    replace (dens (log_prob x) * (proposes W inner x y * acc (xsub (log_prob y) (log_prob x)))) with (proposes W inner x y * (dens (log_prob x) * acc (xsub (log_prob y) (log_prob x)))) by lra. rewrite E1, <- E2. lra.
  Qed.
  Theorem C56_detailed_balance x y : S x -> S y -> reversible W step log_prob x y.
  Proof. apply (step_reversible av W inner ratio step metropolis_step log_prob S Hprop Htyped metropolis_balance). Qed.
  Theorem C56_stationary : stationary W step log_prob S.
  Proof. apply (step_stationary av W inner ratio step metropolis_step log_prob S Hprop Htyped metropolis_balance). Qed.
End metropolis.

(** the probabilities in [reversible] and [stationary] are determined *)
Theorem C56_probabilities_unique W step x y p q : moves W step x y p -> moves W step x y q -> p = q.
Proof. apply moves_unique. Qed.
(** densities: for every proposal density q with q(x,y) = q(y,x), q times the chance of acceptance balances pi *)
Theorem C56_density_balance av log_prob inner k k' x y a a' q : (forall x, is_log (log_prob x)) -> has_aval x av = true -> has_aval y av = true -> x <> y ->
  inner k x = inl y -> inner k' y = inl x ->
  chance (fun u => metropolis_body log_prob inner k u x = inl y) a -> chance (fun u => metropolis_body log_prob inner k' u y = inl x) a' ->
  dens (log_prob x) * q * a = dens (log_prob y) * q * a'.
Proof.
  intros Hlog Hx Hy N Hk Hk' Ha Ha'.
  pose proof (chance_step av inner (fun x y => xsub (log_prob y) (log_prob x)) _ (metropolis_step av log_prob inner) k x y y Hx Hk Hy) as E.
  pose proof (chance_step av inner (fun x y => xsub (log_prob y) (log_prob x)) _ (metropolis_step av log_prob inner) k' y x x Hy Hk' Hx) as E'.
  unfold isat in E, E'. destruct (tree_dec x x); [|tauto]. destruct (tree_dec y y); [|tauto]. destruct (tree_dec x y); [tauto|]. destruct (tree_dec y x); [subst; tauto|].
  rewrite (chance_unique _ _ _ Ha E), (chance_unique _ _ _ Ha' E').
  pose proof (acc_balance (log_prob x) (log_prob y) (Hlog x) (Hlog y)) as E1. pose proof (acc_balance (log_prob y) (log_prob x) (Hlog y) (Hlog x)) as E2. rewrite Rmin_comm in E2.
  transitivity (q * (dens (log_prob x) * acc (xsub (log_prob y) (log_prob x)))); [lra|]. rewrite E1, <- E2. lra.
Qed.
(** random_walk is symmetric: log q(y | x) = log q(x | y) *)
Theorem C56_random_walk_symmetric av scale x y : random_walk_log_prob av scale x y = random_walk_log_prob av scale y x.
Proof.
  unfold random_walk_log_prob. cbn [forallb]. rewrite !Bool.andb_true_r, (Bool.andb_comm (has_aval y av)). destruct (_ && _)%bool; [|reflexivity]. do 2 f_equal. f_equal. apply map_ext. intros i. unfold normal_log_prob. replace ((el x i - el y i) / scale) with (- ((el y i - el x i) / scale)) by (unfold Rdiv; lra). rewrite <- (Rsqr_pow2 (- _)), <- (Rsqr_pow2 ((el y i - _) / _)), <- Rsqr_neg. reflexivity.
Qed.

(** the step of random_walk adds scale times the noise, never fails, has the density of the noise (log q(y | x) is the sum over
    the elements of log N(noise; 0, 1) - log scale), and the opposite noise leads back *)
Theorem C56_random_walk_step av normals scale k x : has_aval x av = true -> has_aval (normals k) av = true -> exists y, random_walk av normals scale k x = inl y /\ has_aval y av = true /\
  (forall i, (i < size av)%nat -> el y i = el x i + scale * el (normals k) i) /\
  (0 < scale -> random_walk_log_prob av scale y x = inl (Fin (fold_right Rplus 0 (map (fun i => normal_log_prob 0 1 (el (normals k) i) - ln scale) (seq 0 (size av)))))) /\
  (forall k' z, numeric av = true -> has_aval (normals k') av = true -> (forall i, (i < size av)%nat -> el (normals k') i = - el (normals k) i) -> random_walk av normals scale k' y = inl z -> z = x).
Proof.
  intros Hx Hn. assert (E : forall k x, has_aval x av = true -> has_aval (normals k) av = true -> random_walk av normals scale k x = inl (vec av (fun i => el x i + scale * el (normals k) i))) by (intros k1 x1 H1 H2; unfold random_walk; rewrite emap_ok by (repeat constructor; assumption); reflexivity).
  exists (vec av (fun i => el x i + scale * el (normals k) i)). split; [apply E; assumption|]. split; [apply has_vec|]. split; [intros i Hi; rewrite el_vec by exact Hi; reflexivity|]. split.
  - intros Hs. unfold random_walk_log_prob. cbn [forallb]. rewrite has_vec, Hx. cbn [andb]. do 3 f_equal. apply map_ext_in. intros i Hi. apply in_seq in Hi. rewrite el_vec by apply Hi. unfold normal_log_prob. rewrite ln_1. replace ((el x i + scale * el (normals k) i - el x i) / scale) with (el (normals k) i) by (field; apply Rgt_not_eq; exact Hs). replace ((el (normals k) i - 0) / 1) with (el (normals k) i) by field. lra.
  - intros k' z Hnum Hn' Ho Hz. rewrite E in Hz by (try apply has_vec; assumption). injection Hz as <-. rewrite <- (vec_el _ x Hx Hnum). apply vec_ext. intros i Hi. rewrite el_vec by exact Hi. rewrite (Ho i Hi), el_vec by exact Hi. ring.
Qed.

(** ** C57: metropolis_hastings *)
Section hastings.
  Variables (av : aval) (log_prob : tree -> flt) (inner : tree -> tree -> res tree) (lq : tree -> tree -> flt).
  (** [lq sample arg]: the log probability that the proposal goes from arg to sample *)
  Let step := mh_body log_prob inner (fun s x => inl (lq s x)).
  Let ratio x y := xsub (xsub (xadd (log_prob y) (lq y x)) (log_prob x)) (lq x y).
  Lemma mh_step k u x z : has_aval x av = true -> inner k x = inl z -> has_aval z av = true -> step k u x = inl (if xlt (xlog u) (ratio x z) then z else x).
  Proof. intros Hx Hi Hz. unfold step, mh_body. rewrite Hi. cbn [rb]. apply (where_tree_typed _ _ _ av); assumption. Qed.
  (** the acceptance probability of the code: min(1, pi(y) q(x->y) / (pi(x) q(y->x))), the inverse of the
      Metropolis-Hastings correction *)
  Theorem C57_acceptance_inverted k x y a b c d : has_aval x av = true -> has_aval y av = true -> inner k x = inl y -> x <> y ->
    log_prob x = Fin a -> log_prob y = Fin b -> lq y x = Fin c -> lq x y = Fin d ->
    chance (fun u => step k u x = inl y) (Rmin 1 (dens (log_prob y) * dens (lq y x) / (dens (log_prob x) * dens (lq x y)))).
  Proof.
    intros Hx Hy Hi N Ea Eb Ec Ed. pose proof (chance_step av inner ratio step mh_step k x y y Hx Hi Hy) as H. unfold isat in H. destruct (tree_dec y y); [|tauto]. destruct (tree_dec x y); [tauto|].
    unfold ratio in H. rewrite Ea, Eb, Ec, Ed in *. cbn in *. eapply chance_eq; [|exact H].
    rewrite !exp_plus, !exp_Ropp. pose proof (exp_pos a). pose proof (exp_pos d). replace (exp b * exp c / (exp a * exp d)) with (exp b * exp c * / exp a * / exp d) by (field; lra). lra.
  Qed.
  (** for a proposal whose log probabilities are symmetric it is metropolis *)
  Theorem C57_symmetric_is_metropolis_partial k u x : (forall y, inner k x = inl y -> lq x y = lq y x /\ exists q, lq x y = Fin q) -> (forall y, log_prob y <> PInf) ->
    step k u x = metropolis_body log_prob inner k u x.
  Proof.
    intros Hs Hp. unfold step, mh_body, metropolis_body. destruct (inner k x) as [y|e] eqn:E; [|reflexivity]. cbn [rb]. destruct (Hs y eq_refl) as (<- & q & ->). f_equal. f_equal.
    specialize (Hp x) as Px. specialize (Hp y) as Py. destruct (log_prob x) as [a| | |], (log_prob y) as [b| | |]; cbn; try reflexivity; try contradiction. f_equal. lra.
  Qed.
End hastings.

(** ** Concrete chains on two states *)
Definition sA : tree := Leaf (Num [0]). Definition sB : tree := Leaf (Num [1]).
Definition k0 : tree := Leaf (Key 0). Definition k1 : tree := Leaf (Key 1).
Definition two : aval := AL (ANum 1).
Definition half_keys : keys := [(/ 2, k0); (/ 2, k1)].
Lemma sAB : sA <> sB. Proof. unfold sA, sB. intros H. injection H. lra. Qed.
Definition AB (x : tree) : Prop := In x [sA; sB].
Lemma two_typed x : AB x -> has_aval x two = true.
Proof. intros [<-|[<-|[]]]; reflexivity. Qed.
Definition is_k0 (k : tree) : bool := if tree_dec k k0 then true else false.
Lemma is_k0_0 : is_k0 k0 = true. Proof. unfold is_k0. destruct (tree_dec k0 k0); tauto. Qed.
Lemma is_k0_1 : is_k0 k1 = false. Proof. unfold is_k0. destruct (tree_dec k1 k0) as [E|]; [discriminate|reflexivity]. Qed.
Definition other (x : tree) : tree := if tree_dec x sA then sB else sA.
Lemma other_A : other sA = sB. Proof. unfold other. destruct (tree_dec sA sA); tauto. Qed.
Lemma other_B : other sB = sA. Proof. unfold other. destruct (tree_dec sB sA) as [E|]; [symmetry in E; apply sAB in E; tauto|reflexivity]. Qed.
Lemma dec_AA : (if tree_dec sA sA then 1 else 0) = 1. Proof. destruct (tree_dec sA sA); tauto. Qed.
Lemma dec_BB : (if tree_dec sB sB then 1 else 0) = 1. Proof. destruct (tree_dec sB sB); tauto. Qed.
Lemma dec_AB : (if tree_dec sA sB then 1 else 0) = 0. Proof. destruct (tree_dec sA sB) as [E|]; [apply sAB in E; tauto|reflexivity]. Qed.
Lemma dec_BA : (if tree_dec sB sA then 1 else 0) = 0. Proof. destruct (tree_dec sB sA) as [E|]; [symmetry in E; apply sAB in E; tauto|reflexivity]. Qed.
(** a symmetric proposal: move with the first key, stay with the second *)
Definition flip (k x : tree) : res tree := inl (if is_k0 k then other x else x).
(** an asymmetric one: from A always to B, from B to A with the first key only *)
Definition lean (k x : tree) : res tree := inl (if tree_dec x sA then sB else if is_k0 k then sA else sB).
Lemma other_in x : In x [sA; sB] -> In (other x) [sA; sB].
Proof. intros [<-|[<-|[]]]; rewrite ?other_A, ?other_B; cbn; auto. Qed.
Lemma flip_on : proposal_on half_keys flip AB.
Proof.
  split; [cbn; lra|]. split; [intros w k [E|[E|[]]]; injection E as <- <-; lra|].
  intros x w k Hx _. unfold flip. eexists. split; [|reflexivity]. destruct (is_k0 k); [apply other_in|]; assumption.
Qed.
Lemma lean_on : proposal_on half_keys lean AB.
Proof.
  split; [cbn; lra|]. split; [intros w k [E|[E|[]]]; injection E as <- <-; lra|].
  intros x w k Hx _. unfold lean. eexists. split; [|reflexivity]. destruct (tree_dec x sA); [cbn; auto|]. destruct (is_k0 k); cbn; auto.
Qed.
Lemma flip_symmetric x y : AB x -> AB y -> proposes half_keys flip x y = proposes half_keys flip y x.
Proof. unfold AB, proposes, flip, half_keys. cbn [rsum fold_right fst snd]. rewrite is_k0_0, is_k0_1. intros [<-|[<-|[]]] [<-|[<-|[]]]; rewrite ?other_A, ?other_B, ?dec_AA, ?dec_BB, ?dec_AB, ?dec_BA; lra. Qed.
Lemma lean_AB : proposes half_keys lean sA sB = 1 /\ proposes half_keys lean sB sA = / 2.
Proof.
  unfold proposes, lean, half_keys. cbn [rsum fold_right fst snd]. rewrite is_k0_0, is_k0_1. destruct (tree_dec sA sA); [|tauto]. destruct (tree_dec sB sB); [|tauto].
  destruct (tree_dec sB sA) as [E|]; [symmetry in E; apply sAB in E; tauto|]. rewrite dec_AA, dec_BA. lra.
Qed.
(** C56: a target with pi(B) = 2 pi(A), and one with pi(B) = 0 *)
Lemma C56_example : forall l, is_log l -> let lp := fun x => if tree_dec x sA then Fin 0 else l in
  stationary half_keys (metropolis_body lp flip) lp AB.
Proof. intros l Hl lp. apply (C56_stationary two lp flip); [intros x; unfold lp; destruct (tree_dec x sA); [exact I|exact Hl]|apply flip_on|apply two_typed|apply flip_symmetric]. Qed.

(** C57 is false of the code: with the uniform target and the exact log probabilities of the asymmetric proposal, the
    uniform distribution is neither balanced nor stationary *)
Definition lean_lq (sample arg : tree) : flt := if tree_dec arg sA then (if tree_dec sample sB then Fin 0 else MInf) else Fin (ln (/ 2)).
Theorem C57_detailed_balance_refuted : exists W inner lq log_prob S,
  proposal_on W inner S /\ (forall x, S x -> has_aval x two = true) /\
  (forall x y, S x -> S y -> is_log (lq y x) /\ dens (lq y x) = proposes W inner x y) /\
  (forall x, is_log (log_prob x)) /\
  (exists x y, S x /\ S y /\ ~ reversible W (mh_body log_prob inner (fun s x => inl (lq s x))) log_prob x y) /\
  ~ stationary W (mh_body log_prob inner (fun s x => inl (lq s x))) log_prob S.
Proof.
  exists half_keys, lean, lean_lq, (fun _ => Fin 0), AB. split; [apply lean_on|]. split; [apply two_typed|].
  assert (Elq : lean_lq sB sA = Fin 0 /\ lean_lq sA sB = Fin (ln (/ 2)) /\ lean_lq sB sB = Fin (ln (/ 2)) /\ lean_lq sA sA = MInf).
  { unfold lean_lq. destruct (tree_dec sA sA); [|tauto]. destruct (tree_dec sB sB); [|tauto]. destruct (tree_dec sB sA) as [E|]; [symmetry in E; apply sAB in E; tauto|]. destruct (tree_dec sA sB) as [E|]; [apply sAB in E; tauto|]. auto. }
  destruct Elq as (E1 & E2 & E3 & E4). assert (Eh : exp (ln (/ 2)) = / 2) by (apply exp_ln; lra).
  assert (PBB : proposes half_keys lean sB sB = / 2 /\ proposes half_keys lean sA sA = 0).
  { unfold proposes, lean, half_keys. cbn [rsum fold_right fst snd]. rewrite is_k0_0, is_k0_1. destruct (tree_dec sA sA); [|tauto]. destruct (tree_dec sB sB); [|tauto].
    destruct (tree_dec sB sA) as [E|N]; [symmetry in E; apply sAB in E; tauto|]. destruct (tree_dec sB sA) as [E|_]; [tauto|]. destruct (tree_dec sA sB) as [E|_]; [apply sAB in E; tauto|]. rewrite dec_BB. lra. }
  split.
  { unfold AB. intros x y [<-|[<-|[]]] [<-|[<-|[]]]; rewrite ?E1, ?E2, ?E3, ?E4; cbn [is_log dens]; rewrite ?exp_0, ?Eh; (split; [exact I|]); symmetry; try apply lean_AB; apply PBB. }
  split; [exact (fun _ => I)|].
  set (step := mh_body (fun _ => Fin 0) lean (fun s x => inl (lean_lq s x))). set (ratio := fun x y => xsub (xsub (xadd (Fin 0) (lean_lq y x)) (Fin 0)) (lean_lq x y)).
  assert (Hm : forall x y, AB x -> moves half_keys step x y (prob half_keys lean ratio x y)).
  { intros x y Hx. apply (moves_prob two). - intros k u x' z H1 H2 H3. apply (mh_step two (fun _ => Fin 0) lean lean_lq); assumption. - apply (typed_states two half_keys lean AB lean_on two_typed). exact Hx. }
  assert (Pab : prob half_keys lean ratio sA sB = 1).
  { rewrite (prob_other half_keys lean ratio sA sB sAB), (proj1 lean_AB). unfold ratio. rewrite E1, E2. cbn. rewrite Rmin_left; [lra|]. replace (0 + 0 + - 0 + - ln (/ 2)) with (- ln (/ 2)) by lra. rewrite exp_Ropp, Eh. lra. }
  assert (Pba : prob half_keys lean ratio sB sA = / 4).
  { rewrite (prob_other half_keys lean ratio sB sA (not_eq_sym sAB)), (proj2 lean_AB). unfold ratio. rewrite E1, E2. cbn. replace (0 + ln (/ 2) + - 0 + - 0) with (ln (/ 2)) by lra. rewrite Eh, Rmin_right by lra. lra. }
  assert (HA : AB sA) by (cbn; auto). assert (HB : AB sB) by (cbn; auto).
  assert (Nd : NoDup [sA; sB]) by (constructor; [intros [E|[]]; symmetry in E; apply sAB in E; tauto|constructor; [intros []|constructor]]).
  assert (Paa : prob half_keys lean ratio sA sA = 0).
  { pose proof (prob_total half_keys lean ratio AB lean_on sA [sA; sB] HA Nd HA) as H. cbn [rsum fold_right] in H. rewrite Pab in H. enough (prob half_keys lean ratio sA sA + (1 + 0) = 1) by lra. apply H.
    intros w k z Hk Ez. destruct lean_on as (_ & _ & Hp). destruct (Hp sA w k HA Hk) as (z' & Hz' & E'). assert (z' = z) as <- by congruence. exact Hz'. }
  split.
  - exists sA, sB. split; [exact HA|]. split; [exact HB|]. intros (p & p' & Hp & Hp' & E).
    rewrite (moves_unique _ _ _ _ _ _ Hp (Hm sA sB HA)), (moves_unique _ _ _ _ _ _ Hp' (Hm sB sA HB)), Pab, Pba in E. cbn in E. rewrite exp_0 in E. lra.
  - intros (P & HP & H). destruct (H sA HA) as (F & HF & HS & _ & E). cbn [dens] in E. rewrite exp_0 in E.
    assert (EA : P sA sA = 0) by (rewrite (moves_unique _ _ _ _ _ _ (HP sA sA HA HA) (Hm sA sA HA)); exact Paa).
    assert (EB : P sB sA = / 4) by (rewrite (moves_unique _ _ _ _ _ _ (HP sB sA HB HA) (Hm sB sA HB)); exact Pba).
    assert (HL : (List.length F <= 2)%nat) by (apply (NoDup_incl_length HF (l' := [sA; sB])); exact HS).
    destruct F as [|x [|y [|z F]]]; cbn in HL; [cbn in E; lra| | |lia].
    + cbn in E. destruct (HS x (or_introl eq_refl)) as [<-|[<-|[]]]; rewrite ?EA, ?EB in E; lra.
    + cbn in E. inversion HF as [|? ? Hxy _]; subst. destruct (HS x (or_introl eq_refl)) as [<-|[<-|[]]], (HS y (or_intror (or_introl eq_refl))) as [<-|[<-|[]]]; rewrite ?EA, ?EB in E; try lra; apply Hxy; left; reflexivity.
Qed.
