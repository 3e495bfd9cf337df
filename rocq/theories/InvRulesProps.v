(** C38: the registered inverse rules are inverses with the right log-derivative. *)
From Verif Require Export InvRulesSpec.
From Coq Require Import ZArith Lra Lia.
Open Scope R_scope.

Lemma flog_pos x : 0 < x -> flog x = Some (ln x).
Proof. intros H. unfold flog. destruct (Rlt_dec 0 x); [reflexivity|contradiction]. Qed.
Lemma flog_neg x : x <= 0 -> flog x = None.
Proof. intros H. unfold flog. destruct (Rlt_dec 0 x); [lra|reflexivity]. Qed.
Lemma fdiv_nz x y : y <> 0 -> fdiv x y = Some (x / y).
Proof. intros H. unfold fdiv. destruct (Req_EM_T y 0); [contradiction|reflexivity]. Qed.
Lemma fsqrt_pos x : 0 <= x -> fsqrt x = Some (sqrt x).
Proof. intros H. unfold fsqrt. destruct (Rle_dec 0 x); [reflexivity|contradiction]. Qed.
Lemma fpow_pos x a : 0 < x -> fpow x a = Some (Rpower x a).
Proof. intros H. unfold fpow. destruct (Rlt_dec 0 x); [reflexivity|contradiction]. Qed.
Lemma fasin_in x : -1 <= x <= 1 -> fasin x = Some (asin x).
Proof. intros H. unfold fasin. destruct (Rle_dec (-1) x); [|lra]. destruct (Rle_dec x 1); [reflexivity|lra]. Qed.
Lemma facos_in x : -1 <= x <= 1 -> facos x = Some (acos x).
Proof. intros H. unfold facos. destruct (Rle_dec (-1) x); [|lra]. destruct (Rle_dec x 1); [reflexivity|lra]. Qed.
(** agreement near a point *)
Lemma near_pos (g h : R -> option R) y d : 0 < y -> (forall z, 0 < z -> g z = h z) -> has_deriv h y d -> has_deriv g y d.
Proof.
  intros Hy H (k & Hk & e & He & Hz). exists k. split; [exact Hk|]. exists (Rmin e y). split; [apply Rmin_pos; assumption|]. intros z Hzz.
  assert (Rabs (z - y) < e) by (eapply Rlt_le_trans; [exact Hzz|apply Rmin_l]). assert (Rabs (z - y) < y) by (eapply Rlt_le_trans; [exact Hzz|apply Rmin_r]). rewrite H; [apply Hz; assumption|]. apply Rabs_def2 in H1. lra.
Qed.
Lemma near_in a b (g : R -> option R) h y d : a < y < b -> (forall z, a < z < b -> g z = Some (h z)) -> derivable_pt_lim h y d -> has_deriv g y d.
Proof.
  intros Hy H Hk. exists h. split; [exact Hk|]. exists (Rmin (y - a) (b - y)). split; [apply Rmin_pos; lra|]. intros z Hz.
  assert (Rabs (z - y) < y - a) by (eapply Rlt_le_trans; [exact Hz|apply Rmin_l]). assert (Rabs (z - y) < b - y) by (eapply Rlt_le_trans; [exact Hz|apply Rmin_r]).
  apply H. apply Rabs_def2 in H0. apply Rabs_def2 in H1. lra.
Qed.
Lemma near_gt a (g : R -> option R) h y d : a < y -> (forall z, a < z -> g z = Some (h z)) -> derivable_pt_lim h y d -> has_deriv g y d.
Proof. intros Hy H. apply (near_in a (y + 1)); [lra|]. intros z Hz. apply H. lra. Qed.
Lemma near_nz (g : R -> option R) h y d : y <> 0 -> (forall z, z <> 0 -> g z = Some (h z)) -> derivable_pt_lim h y d -> has_deriv g y d.
Proof. intros Hy H. destruct (Rdichotomy _ _ Hy); [apply (near_in (y - 1) 0); [lra|]|apply (near_gt 0); [lra|]]; intros z Hz; apply H; lra. Qed.
Lemma everywhere (h : R -> R) y d : derivable_pt_lim h y d -> has_deriv (fun z => Some (h z)) y d.
Proof. intros H. exists h. split; [exact H|]. exists 1. split; [lra|]. reflexivity. Qed.
Lemma dl_eq h y d d' : d = d' -> derivable_pt_lim h y d -> derivable_pt_lim h y d'. Proof. intros <-. auto. Qed.
Lemma dl_ext f g y d : (forall z, f z = g z) -> derivable_pt_lim f y d -> derivable_pt_lim g y d.
Proof. intros H Hf e He. destruct (Hf e He) as [del Hd]. exists del. intros h Hh Hh2. rewrite <- !H. apply Hd; assumption. Qed.
Lemma dl_id y : derivable_pt_lim (fun z => z) y 1. Proof. apply derivable_pt_lim_id. Qed.
Lemma dl_const c y : derivable_pt_lim (fun _ => c) y 0. Proof. apply derivable_pt_lim_const. Qed.
Lemma dl_comp f g y d d' : derivable_pt_lim f y d -> derivable_pt_lim g (f y) d' -> derivable_pt_lim (fun z => g (f z)) y (d' * d).
Proof. apply derivable_pt_lim_comp. Qed.
Lemma dl_plus f g y d d' : derivable_pt_lim f y d -> derivable_pt_lim g y d' -> derivable_pt_lim (fun z => f z + g z) y (d + d').
Proof. apply derivable_pt_lim_plus. Qed.
Lemma dl_opp f y d : derivable_pt_lim f y d -> derivable_pt_lim (fun z => - f z) y (- d).
Proof. apply derivable_pt_lim_opp. Qed.
Lemma dl_minus f g y d d' : derivable_pt_lim f y d -> derivable_pt_lim g y d' -> derivable_pt_lim (fun z => f z - g z) y (d - d').
Proof. apply derivable_pt_lim_minus. Qed.
Lemma dl_mult f g y d d' : derivable_pt_lim f y d -> derivable_pt_lim g y d' -> derivable_pt_lim (fun z => f z * g z) y (d * g y + f y * d').
Proof. apply derivable_pt_lim_mult. Qed.
Lemma dl_scal a f y d : derivable_pt_lim f y d -> derivable_pt_lim (fun z => a * f z) y (a * d).
Proof. apply derivable_pt_lim_scal. Qed.
Lemma dl_div f g y d d' : derivable_pt_lim f y d -> derivable_pt_lim g y d' -> g y <> 0 -> derivable_pt_lim (fun z => f z / g z) y ((d * g y - d' * f y) / Rsqr (g y)).
Proof. apply derivable_pt_lim_div. Qed.
Lemma dl_exp y : derivable_pt_lim exp y (exp y). Proof. apply derivable_pt_lim_exp. Qed.
Lemma dl_ln y : 0 < y -> derivable_pt_lim ln y (/ y). Proof. apply derivable_pt_lim_ln. Qed.
Lemma exp_nz x : exp x <> 0. Proof. pose proof (exp_pos x). lra. Qed.
Lemma ln_abs_inv y : y <> 0 -> ln (Rabs (/ y)) = - ln (Rabs y).
Proof. intros H. rewrite Rabs_inv. apply ln_Rinv, Rabs_pos_lt, H. Qed.
Lemma flog_abs d : d <> 0 -> flog (Rabs d) = Some (ln (Rabs d)).
Proof. intros H. apply flog_pos, Rabs_pos_lt, H. Qed.
Lemma ln_abs_opp d : ln (Rabs (- d)) = ln (Rabs d). Proof. f_equal. apply Rabs_Ropp. Qed.

Lemma dl_asin y : -1 < y < 1 -> derivable_pt_lim asin y (1 / sqrt (1 - y * y)).
Proof. intros H. change (y * y) with (Rsqr y). rewrite <- (derive_pt_asin y H). unfold derive_pt. destruct (derivable_pt_asin y H) as [l Hl]. exact Hl. Qed.
Lemma dl_acos y : -1 < y < 1 -> derivable_pt_lim acos y (-1 / sqrt (1 - y * y)).
Proof. intros H. change (y * y) with (Rsqr y). rewrite <- (derive_pt_acos y H). unfold derive_pt. destruct (derivable_pt_acos y H) as [l Hl]. exact Hl. Qed.
(** *** the unary rules *)
Lemma grad_ok u y d : grad_inv u y = Some d -> d <> 0 -> match u with UExpit | ULogit | USoftplus => False | _ => True end -> ildj u y = Some (ln (Rabs d)).
Proof. intros H Hd Hu. destruct u; try contradiction; unfold ildj; rewrite H; cbn [obind]; apply flog_abs, Hd. Qed.
Definition inverts_u (u : unary) : Prop := exists g, inv u = Some g /\ inverts (fwd u) g (ildj u) (dom u).
Ltac grad D := exists D; split; [|split; [|apply grad_ok; [cbn [grad_inv]; try reflexivity| |exact I]]].

Lemma c_exp : inverts_u UExp.
Proof.
  exists flog. split; [reflexivity|]. intros x _. exists (exp x). split; [reflexivity|]. split; [rewrite flog_pos, ln_exp by apply exp_pos; reflexivity|]. pose proof (exp_pos x).
  grad (/ exp x); try (apply Rinv_neq_0_compat, exp_nz).
  - apply (near_gt 0 _ ln); [assumption|apply flog_pos|apply dl_ln; assumption].
  - rewrite fdiv_nz by apply exp_nz. f_equal. unfold Rdiv. lra.
Qed.
Lemma c_log : inverts_u ULog.
Proof.
  eexists. split; [reflexivity|]. intros x Hx. cbn in Hx. exists (ln x). split; [apply flog_pos, Hx|]. split; [rewrite exp_ln by exact Hx; reflexivity|].
  grad (exp (ln x)); try apply exp_nz. apply everywhere, dl_exp.
Qed.
Lemma c_sin : inverts_u USin.
Proof.
  eexists. split; [reflexivity|]. intros x Hx. cbn in Hx. exists (sin x). assert (Hc : 0 < cos x) by (apply cos_gt_0; lra). pose proof (sin2_cos2 x) as S1. unfold Rsqr in S1.
  assert (Hs : -1 < sin x < 1) by (split; nra). split; [reflexivity|]. split; [rewrite fasin_in by lra; rewrite asin_sin by lra; reflexivity|].
  assert (E : sqrt (1 - sin x * sin x) = cos x) by (replace (1 - sin x * sin x) with (cos x * cos x) by lra; apply sqrt_square; lra).
  grad (/ cos x); try (apply Rinv_neq_0_compat; lra).
  - apply (near_in (-1) 1 _ asin); [exact Hs|intros z Hz; apply fasin_in; lra|]. eapply dl_eq; [|apply dl_asin; exact Hs]. rewrite E. unfold Rdiv. lra.
  - rewrite fsqrt_pos by nra. cbn [obind]. rewrite E, fdiv_nz by lra. f_equal. unfold Rdiv. lra.
Qed.
Lemma c_cos : inverts_u UCos.
Proof.
  eexists. split; [reflexivity|]. intros x Hx. cbn in Hx. exists (cos x). assert (Hc : 0 < sin x) by (apply sin_gt_0; lra). pose proof (sin2_cos2 x) as S1. unfold Rsqr in S1.
  assert (Hs : -1 < cos x < 1) by (split; nra). split; [reflexivity|]. split; [rewrite facos_in by lra; rewrite acos_cos by lra; reflexivity|].
  assert (E : sqrt (1 - cos x * cos x) = sin x) by (replace (1 - cos x * cos x) with (sin x * sin x) by lra; apply sqrt_square; lra).
  assert (sin x <> 0) by lra. pose proof (Rinv_neq_0_compat _ H) as Hi.
  grad (- / sin x); try lra.
  - apply (near_in (-1) 1 _ acos); [exact Hs|intros z Hz; apply facos_in; lra|]. eapply dl_eq; [|apply dl_acos; exact Hs]. rewrite E. unfold Rdiv. lra.
  - rewrite fsqrt_pos by nra. cbn [obind]. rewrite E, fdiv_nz by lra. f_equal. unfold Rdiv. lra.
Qed.
Lemma c_expm1 : inverts_u UExpm1.
Proof.
  eexists. split; [reflexivity|]. intros x _. exists (exp x - 1). split; [reflexivity|]. unfold flog1p. replace (1 + (exp x - 1)) with (exp x) by lra. pose proof (exp_pos x).
  split; [unfold flog1p; replace (1 + (exp x - 1)) with (exp x) by lra; rewrite flog_pos, ln_exp by assumption; reflexivity|]. grad (/ exp x); try (apply Rinv_neq_0_compat, exp_nz).
  - apply (near_gt (-1) _ (fun z => ln (1 + z))); [lra|intros z Hz; apply flog_pos; lra|]. eapply dl_eq; [|apply (dl_comp (fun z => 1 + z)); [apply dl_plus; [apply dl_const|apply dl_id]|apply dl_ln; lra]]. cbn. replace (1 + (exp x - 1)) with (exp x) by lra. lra.
  - replace (1 + (exp x - 1)) with (exp x) by lra. rewrite fdiv_nz by apply exp_nz. f_equal. unfold Rdiv. lra.
Qed.
Lemma c_log1p : inverts_u ULog1p.
Proof.
  eexists. split; [reflexivity|]. intros x Hx. cbn in Hx. exists (ln (1 + x)). split; [apply flog_pos; lra|]. unfold fexpm1. split; [rewrite exp_ln by lra; f_equal; lra|]. grad (exp (ln (1 + x))); try apply exp_nz.
  apply everywhere. eapply dl_eq; [|apply dl_minus; [apply dl_exp|apply dl_const]]. lra.
Qed.
Lemma c_neg : inverts_u UNeg.
Proof.
  eexists. split; [reflexivity|]. intros x _. exists (- x). split; [reflexivity|]. split; [f_equal; lra|]. grad (-1); try lra. apply everywhere. apply dl_opp, dl_id.
Qed.
Lemma c_sqrt : inverts_u USqrt.
Proof.
  eexists. split; [reflexivity|]. intros x Hx. cbn in Hx. exists (sqrt x). split; [apply fsqrt_pos; lra|]. split; [rewrite sqrt_sqrt by lra; reflexivity|]. pose proof (sqrt_lt_R0 x Hx).
  grad (2 * sqrt x); try lra. apply everywhere. eapply dl_eq; [|apply dl_mult; apply dl_id]. lra.
Qed.
Lemma fipow_pos x n : 0 < x -> fipow x n = Some (Rpower x (IZR n)).
Proof.
  intros H. unfold fipow. destruct (Req_EM_T x 0); [lra|]. f_equal. apply powerRZ_Rpower, H.
Qed.
Lemma dl_pow a y : 0 < y -> derivable_pt_lim (fun z => Rpower z a) y (a * Rpower y (a - 1)).
Proof. intros H. apply derivable_pt_lim_power, H. Qed.
Lemma Rpower_nz x a : Rpower x a <> 0. Proof. unfold Rpower. apply exp_nz. Qed.
Lemma Rpower_pos x a : 0 < Rpower x a. Proof. unfold Rpower. apply exp_pos. Qed.
Lemma pm1 x : powerRZ x (-1) = / x.
Proof. unfold powerRZ. rewrite Pos2Nat.inj_1. cbn. rewrite Rmult_1_r. reflexivity. Qed.
Lemma p2 x : powerRZ x 2 = x * x.
Proof. unfold powerRZ. change (Pos.to_nat 2) with 2%nat. cbn. rewrite Rmult_1_r. reflexivity. Qed.
Lemma c_ipow n : n <> 0%Z -> inverts_u (UIntPow n).
Proof.
  intros Hn. unfold inverts_u, inverts. cbn [inv fwd dom]. unfold integer_pow_inverse. destruct (Z.eq_dec n 0) as [|_]; [contradiction|]. destruct (Z.eq_dec n 1) as [->|N1].
  { eexists. split; [reflexivity|]. intros x _. exists x. split; [unfold fipow; destruct (Req_EM_T x 0); cbn [Z_lt_dec]; try (destruct (Z_lt_dec 1 0); [lia|]); rewrite powerRZ_1; reflexivity|]. split; [reflexivity|]. grad 1; try lra. apply everywhere, dl_id. }
  destruct (Z.eq_dec n (-1)) as [->|N2].
  { eexists. split; [reflexivity|]. intros x Hx. exists (/ x). pose proof (Rinv_neq_0_compat _ Hx). split; [unfold fipow; destruct (Req_EM_T x 0); [contradiction|]; rewrite pm1; reflexivity|]. split; [rewrite fdiv_nz by assumption; f_equal; field; assumption|].
    grad (- (x * x)); try nra.
    - apply (near_nz _ (fun z => 1 / z)); [assumption|intros z Hz; apply fdiv_nz, Hz|]. eapply dl_eq; [|apply dl_div; [apply dl_const|apply dl_id|assumption]]. unfold Rsqr. field. assumption.
    - cbn. rewrite fdiv_nz by nra. f_equal. field. assumption.
  }
  destruct (Z.eq_dec n 2) as [->|N3].
  { eexists. split; [reflexivity|]. intros x Hx. exists (x * x). assert (E : sqrt (x * x) = x) by (apply sqrt_square; lra). split; [unfold fipow; destruct (Req_EM_T x 0); [lra|]; rewrite p2; reflexivity|]. split; [rewrite fsqrt_pos by nra; rewrite E; reflexivity|]. pose proof (Rinv_0_lt_compat x Hx). grad (/ (2 * x)); try (apply Rinv_neq_0_compat; lra).
    - apply (near_gt 0 _ sqrt); [nra|intros z Hz; apply fsqrt_pos; lra|]. eapply dl_eq; [|apply derivable_pt_lim_sqrt; nra]. rewrite E. reflexivity.
    - cbn. rewrite fsqrt_pos by nra. cbn [obind]. rewrite E, fdiv_nz by lra. f_equal. field. lra. }
  assert (Hn' : IZR n <> 0) by (apply not_0_IZR; exact Hn). eexists. split; [reflexivity|]. intros x Hx. exists (Rpower x (IZR n)). split; [apply fipow_pos, Hx|]. pose proof (Rpower_pos x (IZR n)) as Hp.
  split; [rewrite fpow_pos, Rpower_mult by assumption; replace (IZR n * (1 / IZR n)) with 1 by (field; assumption); rewrite Rpower_1 by assumption; reflexivity|].
  grad (1 / IZR n * Rpower (Rpower x (IZR n)) (1 / IZR n - 1)).
  - apply (near_gt 0 _ (fun z => Rpower z (1 / IZR n))); [assumption|intros z Hz; apply fpow_pos, Hz|]. apply dl_pow, Hp.
  - apply Rmult_integral_contrapositive_currified; [unfold Rdiv; rewrite Rmult_1_l; apply Rinv_neq_0_compat, Hn'|apply Rpower_nz].
  - destruct (Z.eq_dec n 0) as [|_]; [contradiction|]. destruct (Z.eq_dec n 1); [contradiction|]. destruct (Z.eq_dec n (-1)); [contradiction|]. destruct (Z.eq_dec n 2); [contradiction|]. rewrite fpow_pos by assumption. reflexivity.
  - apply Rmult_integral_contrapositive_currified; [unfold Rdiv; rewrite Rmult_1_l; apply Rinv_neq_0_compat, Hn'|apply Rpower_nz].
Qed.
Lemma expit_in y : 0 < expit y < 1.
Proof. unfold expit. pose proof (exp_pos (- y)). split; [apply Rinv_0_lt_compat; lra|]. rewrite <- Rinv_1. apply Rinv_lt_contravar; lra. Qed.
Lemma logit_in x : 0 < x < 1 -> logit x = Some (ln (x / (1 - x))).
Proof. intros H. unfold logit. rewrite fdiv_nz by lra. cbn. apply flog_pos. apply Rdiv_lt_0_compat; lra. Qed.
Lemma logit_expit x : expit x / (1 - expit x) = exp x.
Proof. pose proof (exp_pos x). pose proof (exp_pos (- x)). assert (E : exp x * exp (- x) = 1) by (rewrite <- exp_plus, <- exp_0; f_equal; lra). unfold expit. replace (1 - / (1 + exp (- x))) with (exp (- x) / (1 + exp (- x))) by (field; lra). replace (/ (1 + exp (- x)) / (exp (- x) / (1 + exp (- x)))) with (/ exp (- x)) by (field; split; lra). rewrite exp_Ropp, Rinv_inv. reflexivity. Qed.
Lemma expit_logit x : 0 < x < 1 -> expit (ln (x / (1 - x))) = x.
Proof. intros H. assert (0 < x / (1 - x)) by (apply Rdiv_lt_0_compat; lra). unfold expit. rewrite exp_Ropp, exp_ln by assumption. field. lra. Qed.
Lemma dl_logit y : 0 < y < 1 -> derivable_pt_lim (fun z => ln (z / (1 - z))) y (/ (y * (1 - y))).
Proof.
  intros H. assert (0 < y / (1 - y)) by (apply Rdiv_lt_0_compat; lra). eapply dl_eq; [|apply (dl_comp (fun z => z / (1 - z))); [apply dl_div; [apply dl_id|apply dl_minus; [apply dl_const|apply dl_id]|lra]|apply dl_ln; assumption]]. unfold Rsqr. field. lra.
Qed.
Lemma dl_expit y : derivable_pt_lim expit y (expit y * (1 - expit y)).
Proof.
  pose proof (exp_pos (- y)). apply (dl_ext (fun z => 1 / (1 + exp (- z)))); [intros z; unfold expit, Rdiv; lra|].
  eapply dl_eq; [|apply dl_div; [apply dl_const|apply dl_plus; [apply dl_const|apply (dl_comp (fun z => - z)); [apply dl_opp, dl_id|apply dl_exp]]|lra]]. unfold expit, Rsqr. field. lra.
Qed.
Lemma softplus_sum x : softplus (- x) + softplus x = - ln (Rabs (expit x * (1 - expit x))).
Proof.
  pose proof (exp_pos x). pose proof (exp_pos (- x)). pose proof (expit_in x) as He. assert (E : exp x * exp (- x) = 1) by (rewrite <- exp_plus, <- exp_0; f_equal; lra).
  rewrite Rabs_pos_eq by nra. unfold softplus. rewrite <- ln_mult by lra. rewrite <- ln_Rinv by nra. f_equal. unfold expit.
  replace (1 - / (1 + exp (- x))) with (/ (1 + exp x)); [field; split; lra|]. apply (Rmult_eq_reg_l ((1 + exp (- x)) * (1 + exp x))); [|nra]. field_simplify; [|lra|lra]. lra.
Qed.
Lemma c_expit : inverts_u UExpit.
Proof.
  eexists. split; [reflexivity|]. intros x _. exists (expit x). pose proof (expit_in x) as He. split; [reflexivity|]. assert (El : logit (expit x) = Some x) by (rewrite logit_in, logit_expit, ln_exp by assumption; reflexivity). split; [exact El|].
  exists (/ (expit x * (1 - expit x))). assert (N : expit x * (1 - expit x) <> 0) by nra. split; [apply (near_in 0 1 _ (fun z => ln (z / (1 - z)))); [exact He|apply logit_in|apply dl_logit, He]|]. split; [apply Rinv_neq_0_compat, N|].
  cbn. unfold expit_ildj. rewrite El. cbn. rewrite ln_abs_inv, softplus_sum by exact N. reflexivity.
Qed.
Lemma c_logit : inverts_u ULogit.
Proof.
  eexists. split; [reflexivity|]. intros x Hx. cbn in Hx. exists (ln (x / (1 - x))). split; [apply logit_in, Hx|]. split; [rewrite expit_logit by exact Hx; reflexivity|].
  set (y := ln (x / (1 - x))). pose proof (expit_in y) as He. exists (expit y * (1 - expit y)). split; [apply everywhere, dl_expit|]. split; [nra|]. cbn. unfold logit_ildj. f_equal. pose proof (softplus_sum y). lra.
Qed.
Lemma c_softplus : inverts_u USoftplus.
Proof.
  eexists. split; [reflexivity|]. intros x _. exists (softplus x). split; [reflexivity|]. pose proof (exp_pos x) as Hx. assert (Hy : 0 < softplus x) by (unfold softplus; rewrite <- ln_1; apply ln_increasing; lra).
  assert (He : exp (- softplus x) = / (1 + exp x)) by (rewrite exp_Ropp; unfold softplus; rewrite exp_ln by lra; reflexivity).
  assert (G : forall z, 0 < z -> softplus_inv z = Some (ln (1 - exp (- z)) + z)).
  { intros z Hz. unfold softplus_inv, fexpm1. assert (exp (- z) < 1) by (rewrite <- exp_0; apply exp_increasing; lra). replace (- (exp (- z) - 1)) with (1 - exp (- z)) by lra. rewrite flog_pos by lra. reflexivity. }
  assert (H1 : / (1 + exp x) < 1) by (rewrite <- Rinv_1; apply Rinv_lt_contravar; lra). assert (H0 : 0 < / (1 + exp x)) by (apply Rinv_0_lt_compat; lra).
  split.
  - rewrite G by exact Hy. f_equal. rewrite He. unfold softplus. rewrite <- ln_mult by lra. replace ((1 - / (1 + exp x)) * (1 + exp x)) with (exp x) by (field; lra). apply ln_exp.
  - exists (/ (1 - exp (- softplus x))). rewrite He. assert (N : 1 - / (1 + exp x) <> 0) by lra. split; [apply (near_gt 0 _ (fun z => ln (1 - exp (- z)) + z)); [exact Hy|exact G|]|split; [apply Rinv_neq_0_compat, N|]].
    + eapply dl_eq; [|apply dl_plus; [apply (dl_comp (fun z => 1 - exp (- z))); [apply dl_minus; [apply dl_const|apply (dl_comp (fun z => - z)); [apply dl_opp, dl_id|apply dl_exp]]|apply dl_ln; cbn; rewrite He; lra]|apply dl_id]]. cbn. rewrite He. field. split; lra.
    + cbn. unfold softplus_ildj, flog1p. rewrite He. replace (1 + - / (1 + exp x)) with (1 - / (1 + exp x)) by lra. rewrite flog_pos by lra. cbn. rewrite ln_abs_inv by lra. rewrite Rabs_pos_eq by lra. reflexivity.
Qed.
(** C38, unary: for every registered unary primitive but integer_pow with exponent 0 (which has no inverse and raises), the registered
    inverse inverts it on its domain, and the term added to the ILDJ is log|d/dy| of the inverse *)
Theorem C38_unary u : u <> UIntPow 0 -> exists g, inv u = Some g /\ inverts (fwd u) g (ildj u) (dom u).
Proof.
  intros Hu. destruct u; [apply c_exp|apply c_log|apply c_sin|apply c_cos|apply c_expm1|apply c_log1p|apply c_neg|apply c_sqrt|apply c_ipow; congruence|apply c_expit|apply c_logit|apply c_softplus].
Qed.
Theorem C38_zeroth_power : inv (UIntPow 0) = None. Proof. reflexivity. Qed.

(** *** the binary rules *)
Theorem C38_left b l : inverts (fwd2 b l) (left_val b l) (left_ildj b l) (dom_left b l).
Proof.
  intros x Hx. destruct b; cbn in Hx |- *.
  - assert (L : 0 < ln l) by (rewrite <- ln_1; apply ln_increasing; lra). assert (Lp : 0 < l) by lra. exists (Rpower l x). rewrite fpow_pos by exact Lp. split; [reflexivity|]. pose proof (Rpower_pos l x) as P. split.
    + rewrite !flog_pos by assumption. cbn. rewrite fdiv_nz by lra. f_equal. unfold Rpower. rewrite ln_exp. field. lra.
    + exists (/ (Rpower l x * ln l)). split; [apply (near_gt 0 _ (fun z => ln z / ln l)); [exact P|intros z Hz; unfold left_val; rewrite !flog_pos by lra; cbn; apply fdiv_nz; lra|]|split; [apply Rinv_neq_0_compat; nra|]].
      * eapply dl_eq; [|apply dl_div; [apply dl_ln, P|apply dl_const|lra]]. unfold Rsqr. field. lra.
      * rewrite !flog_pos by assumption. cbn. rewrite flog_pos by assumption. cbn. f_equal. rewrite ln_abs_inv by nra. rewrite Rabs_pos_eq by nra. rewrite ln_mult by assumption. lra.
  - exists (l + x). split; [reflexivity|]. split; [f_equal; lra|]. exists 1. split; [apply everywhere; eapply dl_eq; [|apply dl_minus; [apply dl_id|apply dl_const]]; lra|]. split; [lra|]. rewrite Rabs_pos_eq, ln_1 by lra. reflexivity.
  - exists (l - x). split; [reflexivity|]. split; [f_equal; lra|]. exists (-1). split; [apply everywhere; eapply dl_eq; [|apply dl_minus; [apply dl_const|apply dl_id]]; lra|]. split; [lra|]. rewrite <- (ln_abs_opp), Rabs_pos_eq by lra. replace (- -1) with 1 by lra. rewrite ln_1. reflexivity.
  - exists (l * x). split; [reflexivity|]. rewrite fdiv_nz by assumption. split; [f_equal; field; assumption|]. exists (/ l). split; [|split; [apply Rinv_neq_0_compat; assumption|rewrite flog_abs, ln_abs_inv by assumption; reflexivity]].
    exists (fun z => z / l). split; [|exists 1; split; [lra|intros z _; apply fdiv_nz; assumption]]. eapply dl_eq; [|apply dl_div; [apply dl_id|apply dl_const|assumption]]. unfold Rsqr. field. assumption.
  - destruct Hx as [Hl Hx]. assert (P : 0 < l / x) by (apply Rdiv_lt_0_compat; assumption). exists (l / x). rewrite !fdiv_nz by lra. split; [reflexivity|]. split; [f_equal; field; lra|]. exists (- (l / ((l / x) * (l / x)))).
    assert (Q : 0 < l / ((l / x) * (l / x))) by (apply Rdiv_lt_0_compat; [assumption|apply Rmult_lt_0_compat; assumption]). split; [|split; [lra|]].
    + apply (near_gt 0 _ (fun z => l / z)); [assumption|intros z Hz; apply fdiv_nz; lra|]. eapply dl_eq; [|apply dl_div; [apply dl_const|apply dl_id|lra]]. unfold Rsqr. field. lra.
    + rewrite !flog_pos by assumption. cbn. f_equal. rewrite ln_abs_opp, Rabs_pos_eq by lra. unfold Rdiv at 2. rewrite ln_mult; [|assumption|apply Rinv_0_lt_compat; nra]. rewrite ln_Rinv by nra. rewrite ln_mult by assumption. lra.
Qed.
Theorem C38_right b r : inverts (fun x => fwd2 b x r) (right_val b r) (right_ildj b r) (dom_right b r).
Proof.
  intros x Hx. destruct b; cbn in Hx |- *.
  - destruct Hx as [Hr Hx]. exists (Rpower x r). rewrite fpow_pos by assumption. split; [reflexivity|]. pose proof (Rpower_pos x r) as P. rewrite fdiv_nz by lra. cbn. split.
    + rewrite fpow_pos by assumption. f_equal. rewrite Rpower_mult. replace (r * (1 / r)) with 1 by (field; lra). apply Rpower_1. assumption.
    + exists (1 / r * Rpower (Rpower x r) (1 / r - 1)). assert (Q : 0 < 1 / r) by (apply Rdiv_lt_0_compat; lra). pose proof (Rpower_pos (Rpower x r) (1 / r - 1)) as P'. split; [apply (near_gt 0 _ (fun z => Rpower z (1 / r))); [assumption|intros z Hz; unfold right_val; rewrite fdiv_nz by lra; cbn; apply fpow_pos; assumption|apply dl_pow; assumption]|]. split; [nra|].
      rewrite !flog_pos by assumption. cbn. f_equal. rewrite Rabs_pos_eq by nra. rewrite ln_mult by assumption. assert (E : ln (Rpower (Rpower x r) (1 / r - 1)) = (1 / r - 1) * ln (Rpower x r)) by (unfold Rpower at 1; apply ln_exp). rewrite E. replace (ln (1 / r)) with (- ln r) by (unfold Rdiv; rewrite Rmult_1_l, ln_Rinv by assumption; reflexivity). lra.
  - exists (x + r). split; [reflexivity|]. split; [f_equal; lra|]. exists 1. split; [apply everywhere; eapply dl_eq; [|apply dl_minus; [apply dl_id|apply dl_const]]; lra|]. split; [lra|]. rewrite Rabs_pos_eq, ln_1 by lra. reflexivity.
  - exists (x - r). split; [reflexivity|]. split; [f_equal; lra|]. exists 1. split; [apply everywhere; eapply dl_eq; [|apply dl_plus; [apply dl_id|apply dl_const]]; lra|]. split; [lra|]. rewrite Rabs_pos_eq, ln_1 by lra. reflexivity.
  - exists (x * r). split; [reflexivity|]. rewrite fdiv_nz by assumption. split; [f_equal; field; assumption|]. exists (/ r). split; [|split; [apply Rinv_neq_0_compat; assumption|rewrite flog_abs, ln_abs_inv by assumption; reflexivity]].
    exists (fun z => z / r). split; [|exists 1; split; [lra|intros z _; apply fdiv_nz; assumption]]. eapply dl_eq; [|apply dl_div; [apply dl_id|apply dl_const|assumption]]. unfold Rsqr. field. assumption.
  - exists (x / r). rewrite fdiv_nz by assumption. split; [reflexivity|]. split; [f_equal; field; assumption|]. exists r. split; [apply everywhere; eapply dl_eq; [|apply dl_mult; [apply dl_id|apply dl_const]]; lra|]. split; [assumption|]. apply flog_abs; assumption.
Qed.
