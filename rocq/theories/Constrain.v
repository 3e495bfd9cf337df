(** C66: mcmc.constrain. *)
From Verif Require Export InvRulesChain.
From Coq Require Import ZArith Lra Lia Permutation.
Open Scope R_scope. Open Scope nat_scope.

(** ** Model *)
(** real subtraction where either side can be undefined (NaN) *)
Definition ominus (a b : option R) : option R := obind a (fun x => obind b (fun y => Some (x - y)%R)).
(** constrain: oryx/experimental/mcmc/utils.py:30-44.  [J] is the jaxpr that ildj traces the mapping function f to, at the
    argument of the wrapped function; [f] is the function itself.  The ILDJ is one number (core.py:181-182), so that the sum of
    its leaves is that number.  Simplified: one array argument, and one array result. *)
Definition constrain (cord : list (ndslice (option R) (option R)) -> list (ndslice (option R) (option R))) (fuel : nat) (ord : oracle) (J : list nat -> jx (option R) (option R)) (f : arr R -> arr (option R)) (target : arr (option R) -> res (option R)) (xs : arr R) : res (option R) :=
  let mapped := f xs in
  rbind (ildj_of (option R) (option R) (Some 0%R) oplus cord fuel ord (J (a_shape xs)) [] [mapped]) (fun ildjs =>
  rbind (target mapped) (fun lp => Ok (ominus lp ildjs))).

(** ** The primitives are differentiable on their domains, which are open *)
Open Scope R_scope.
Ltac ev := apply everywhere.
Lemma has_deriv_ext f g x d : (forall z, f z = g z) -> has_deriv f x d -> has_deriv g x d.
Proof. intros H (h & Hh & e & He & Hz). exists h. split; [exact Hh|]. exists e. split; [exact He|]. intros z Hzz. rewrite <- H. apply Hz, Hzz. Qed.
Lemma dl_sin x : derivable_pt_lim sin x (cos x). Proof. apply derivable_pt_lim_sin. Qed.
Lemma dl_cos x : derivable_pt_lim cos x (- sin x). Proof. apply derivable_pt_lim_cos. Qed.
Lemma dl_inv y : y <> 0 -> derivable_pt_lim (fun z => / z) y (- / (y * y)).
Proof. intros H. apply (dl_ext (fun z => 1 / z)); [intros z; unfold Rdiv; lra|]. eapply dl_eq; [|apply (dl_div (fun _ => 1) (fun z => z) y 0 1); [apply dl_const|apply dl_id|exact H]]. unfold Rsqr. field. exact H. Qed.
Lemma fwd_unary u x : dom u x -> exists d, has_deriv (fwd u) x d.
Proof.
  destruct u; cbn [dom fwd]; intros H.
  - eexists. ev. apply dl_exp.
  - eexists. apply (near_gt 0 _ ln); [exact H|apply flog_pos|apply dl_ln, H].
  - eexists. ev. apply dl_sin.
  - eexists. ev. apply dl_cos.
  - eexists. ev. unfold fexpm1. apply dl_minus; [apply dl_exp|apply dl_const].
  - eexists. apply (near_gt (-1) _ (fun z => ln (1 + z))); [exact H|intros z Hz; apply flog_pos; lra|]. apply (dl_comp (fun z => 1 + z)); [apply dl_plus; [apply dl_const|apply dl_id]|apply dl_ln; lra].
  - eexists. ev. apply dl_opp, dl_id.
  - eexists. apply (near_gt 0 _ sqrt); [exact H|intros z Hz; apply fsqrt_pos; lra|]. apply derivable_pt_lim_sqrt, H.
  - destruct (Z.eq_dec n 0); [contradiction|]. destruct (Z.eq_dec n 1) as [->|N1]; [|destruct (Z.eq_dec n (-1)) as [->|N2]].
    + exists 1. apply (has_deriv_ext (fun z => Some z)); [|apply (everywhere (fun z => z)), dl_id]. intros z. cbn [fwd]. unfold fipow. rewrite powerRZ_1. destruct (Req_EM_T z 0); [destruct (Z_lt_dec 1 0); [lia|]|]; reflexivity.
    + eexists. apply (near_nz _ (fun z => / z)); [exact H| |apply dl_inv, H]. intros z Hz. cbn [fwd]. unfold fipow. destruct (Req_EM_T z 0); [contradiction|]. f_equal. apply pm1.
    + eexists. apply (near_gt 0 _ (fun z => Rpower z (IZR n))); [exact H|intros z Hz; apply fipow_pos, Hz|apply dl_pow, H].
  - eexists. ev. apply dl_expit.
  - eexists. apply (near_in 0 1 _ (fun z => ln (z / (1 - z)))); [exact H|apply logit_in|apply dl_logit, H].
  - eexists. ev. unfold softplus. apply (dl_comp (fun z => 1 + exp z)); [apply dl_plus; [apply dl_const|apply dl_exp]|apply dl_ln]. pose proof (exp_pos x). lra.
Qed.
Lemma fwd_op o x : d_op o x -> exists d, has_deriv (f_op o) x d.
Proof.
  destruct o as [u|b l|b r]; cbn [d_op f_op]; [apply fwd_unary| |]; destruct b; cbn [dom_left dom_right fwd2]; intros H.
  - eexists. apply (has_deriv_ext (fun z => Some (exp (z * ln l)))); [intros z; cbn [f_op fwd2]; rewrite fpow_pos by lra; reflexivity|]. ev. apply (dl_comp (fun z => z * ln l)); [apply dl_mult; [apply dl_id|apply dl_const]|apply dl_exp].
  - eexists. ev. apply dl_plus; [apply dl_const|apply dl_id].
  - eexists. ev. apply dl_minus; [apply dl_const|apply dl_id].
  - eexists. ev. apply dl_mult; [apply dl_const|apply dl_id].
  - eexists. apply (near_gt 0 _ (fun z => l / z)); [apply H|intros z Hz; apply fdiv_nz; lra|]. apply dl_div; [apply dl_const|apply dl_id|lra].
  - eexists. apply (near_gt 0 _ (fun z => Rpower z r)); [apply H|intros z Hz; apply fpow_pos, Hz|apply dl_pow, H].
  - eexists. ev. apply dl_plus; [apply dl_id|apply dl_const].
  - eexists. ev. apply dl_minus; [apply dl_id|apply dl_const].
  - eexists. ev. apply dl_mult; [apply dl_id|apply dl_const].
  - eexists. apply (has_deriv_ext (fun z => Some (z / r))); [intros z; symmetry; apply fdiv_nz, H|]. ev. apply dl_div; [apply dl_id|apply dl_const|exact H].
Qed.
Definition open_at (D : R -> Prop) (x : R) : Prop := exists e, 0 < e /\ forall z, Rabs (z - x) < e -> D z.
Lemma open_all (D : R -> Prop) x : (forall z, D z) -> open_at D x. Proof. intros H. exists 1. split; [lra|auto]. Qed.
Lemma open_in a b x : a < x < b -> open_at (fun z => a < z < b) x.
Proof.
  intros H. exists (Rmin (x - a) (b - x)). split; [apply Rmin_pos; lra|]. intros z Hz. assert (A : Rabs (z - x) < x - a) by (eapply Rlt_le_trans; [exact Hz|apply Rmin_l]).
  assert (B : Rabs (z - x) < b - x) by (eapply Rlt_le_trans; [exact Hz|apply Rmin_r]). apply Rabs_def2 in A. apply Rabs_def2 in B. lra.
Qed.
Lemma open_gt a x : a < x -> open_at (fun z => a < z) x.
Proof. intros H. destruct (open_in a (x + 1) x) as (e & He & Hz); [lra|]. exists e. split; [exact He|]. intros z Hzz. apply Hz, Hzz. Qed.
Lemma open_nz x : x <> 0 -> open_at (fun z => z <> 0) x.
Proof. intros H. exists (Rabs x). split; [apply Rabs_pos_lt, H|]. intros z Hz ->. rewrite Rminus_0_l, Rabs_Ropp in Hz. lra. Qed.
Lemma open_op o x : d_op o x -> open_at (d_op o) x.
Proof.
  destruct o as [u|b l|b r]; cbn [d_op].
  - destruct u; cbn [dom]; intros H; try (apply open_all; intros; exact I); try (apply open_gt, H); try (apply open_in, H).
    unfold open_at. cbn [d_op dom]. destruct (Z.eq_dec n 0); [contradiction|]. destruct (Z.eq_dec n 1); [apply (open_all (fun _ => True)); intros; exact I|]. destruct (Z.eq_dec n (-1)); [apply open_nz, H|apply open_gt, H].
  - destruct b; cbn [dom_left]; intros H; try (apply open_all; intros; exact H). destruct (open_gt 0 x (proj2 H)) as (e & He & Hz). exists e. split; [exact He|]. intros z Hzz. split; [apply H|apply Hz, Hzz].
  - destruct b; cbn [dom_right]; intros H; try (apply open_all; intros; exact H). destruct (open_gt 0 x (proj2 H)) as (e & He & Hz). exists e. split; [exact He|]. intros z Hzz. split; [apply H|apply Hz, Hzz].
Qed.
Lemma has_deriv_at f x d h : derivable_pt_lim h x d -> (exists e, 0 < e /\ forall z, Rabs (z - x) < e -> f z = Some (h z)) -> f x = Some (h x).
Proof. intros _ (e & He & Hz). apply Hz. rewrite Rminus_eq_0, Rabs_R0. exact He. Qed.
Lemma open_dom ops : forall x, dom_comp ops x -> open_at (dom_comp ops) x.
Proof.
  induction ops as [|o ops IH]; intros x H; [apply open_all; intros; exact I|]. cbn [dom_comp] in H. destruct H as [Ho Hr]. destruct (fwd_op o x Ho) as (d & h & Hh & e1 & He1 & Hz1). destruct (open_op o x Ho) as (e2 & He2 & Hz2).
  assert (Ex : f_op o x = Some (h x)) by (apply Hz1; rewrite Rminus_eq_0, Rabs_R0; exact He1). destruct (IH (h x) (Hr _ Ex)) as (e3 & He3 & Hz3).
  assert (C : continuity_pt h x) by (apply derivable_continuous_pt; exists d; exact Hh). destruct (C e3 He3) as (e4 & He4 & Hz4). exists (Rmin (Rmin e1 e2) e4). split; [repeat apply Rmin_pos; assumption|]. intros z Hz.
  assert (A : Rabs (z - x) < Rmin e1 e2) by (eapply Rlt_le_trans; [exact Hz|apply Rmin_l]). assert (A4 : Rabs (z - x) < e4) by (eapply Rlt_le_trans; [exact Hz|apply Rmin_r]).
  assert (A1 : Rabs (z - x) < e1) by (eapply Rlt_le_trans; [exact A|apply Rmin_l]). assert (A2 : Rabs (z - x) < e2) by (eapply Rlt_le_trans; [exact A|apply Rmin_r]).
  cbn [dom_comp]. split; [apply Hz2, A2|]. intros y Ey. rewrite (Hz1 z A1) in Ey. injection Ey as <-. apply Hz3. destruct (Req_EM_T z x) as [->|N]; [rewrite Rminus_eq_0, Rabs_R0; exact He3|]. apply (Hz4 z). split; [split; [exact I|congruence]|exact A4].
Qed.
Lemma fwd_comp ops : forall x, dom_comp ops x -> exists d, has_deriv (comp ops) x d.
Proof.
  induction ops as [|o ops IH]; intros x H; [exists 1; apply (everywhere (fun z => z)), dl_id|]. cbn [dom_comp] in H. destruct H as [Ho Hr]. destruct (fwd_op o x Ho) as (d & Hd). destruct (op_ok o x Ho) as (v & Ef & _). destruct (IH v (Hr v Ef)) as (d' & Hd').
  exists (d' * d). exact (has_deriv_comp _ _ _ _ _ _ Hd Ef Hd').
Qed.
Lemma deriv_unique f x d d' : has_deriv f x d -> has_deriv f x d' -> d = d'.
Proof.
  intros (h & Hh & e & He & Hz) (h' & Hh' & e' & He' & Hz'). apply (uniqueness_limite h x); [exact Hh|]. intros eps Heps. destruct (Hh' eps Heps) as [del Hdel].
  assert (P : 0 < Rmin del (Rmin e e')) by (repeat apply Rmin_pos; try assumption; apply cond_pos). exists (mkposreal _ P). cbn. intros t Ht Hlt.
  assert (A : Rabs t < del) by (eapply Rlt_le_trans; [exact Hlt|apply Rmin_l]). assert (B : Rabs t < Rmin e e') by (eapply Rlt_le_trans; [exact Hlt|apply Rmin_r]).
  assert (B1 : Rabs t < e) by (eapply Rlt_le_trans; [exact B|apply Rmin_l]). assert (B2 : Rabs t < e') by (eapply Rlt_le_trans; [exact B|apply Rmin_r]).
  assert (E : forall z, Rabs (z - x) < e -> Rabs (z - x) < e' -> h z = h' z). { intros z Z1 Z2. specialize (Hz z Z1). specialize (Hz' z Z2). congruence. }
  rewrite (E (x + t)), (E x); [apply Hdel; assumption| | | |]; try (rewrite Rminus_eq_0, Rabs_R0; assumption); replace (x + t - x) with t by lra; assumption.
Qed.
Lemma inv_deriv f g x y d d' (D : R -> Prop) : open_at D x -> (forall z, D z -> exists w, f z = Some w /\ g w = Some z) -> f x = Some y -> has_deriv f x d' -> has_deriv g y d -> d * d' = 1.
Proof.
  intros (e & He & HD) Hinv Ey Hf Hg. apply (deriv_unique (fun z => obind (f z) g) x); [exact (has_deriv_comp _ _ _ _ _ _ Hf Ey Hg)|]. exists (fun z => z). split; [apply dl_id|]. exists e. split; [exact He|]. intros z Hz. destruct (Hinv z (HD z Hz)) as (w & Ew & Gw). rewrite Ew. exact Gw.
Qed.

(** ** Theorem *)
(** the sum of log |d| *)
Definition log_abs_sum (ds : list R) : R := fold_right (fun d s => ln (Rabs d) + s) 0 ds.
Lemma log_sum_fold ds : forall s, fold_left (fun s d => s + ln (Rabs d)) ds s = s + log_abs_sum ds.
Proof. induction ds as [|d ds IH]; intros s; cbn [fold_left log_abs_sum fold_right]; [unfold log_abs_sum; cbn; ring|]. rewrite IH. unfold log_abs_sum. cbn [fold_right]. ring. Qed.
Lemma flip_derivs ops (xs : arr R) g is_ : (forall x, dom_comp ops x -> exists y, comp ops x = Some y /\ g y = Some x) -> (forall i, In i is_ -> dom_comp ops (a_get xs i)) ->
  forall ds, Forall2 (fun i d => exists y, comp ops (a_get xs i) = Some y /\ has_deriv g y d /\ d <> 0) is_ ds ->
  exists ds', Forall2 (fun i d => has_deriv (comp ops) (a_get xs i) d /\ d <> 0) is_ ds' /\ log_abs_sum ds' = - log_abs_sum ds.
Proof.
  intros Hg Hd ds HF. induction HF as [|i d is_ ds (y & Ey & Hy & Nd) HF IH]; [exists []; split; [constructor|unfold log_abs_sum; cbn [fold_right]; ring]|]. destruct IH as (ds' & Hds' & Es); [intros j Hj; apply Hd; right; exact Hj|].
  assert (Hx : dom_comp ops (a_get xs i)) by (apply Hd; left; reflexivity). destruct (fwd_comp ops _ Hx) as (d' & Hd'). pose proof (inv_deriv (comp ops) g _ y d d' _ (open_dom ops _ Hx) Hg Ey Hd' Hy) as E1.
  assert (Nd' : d' <> 0) by (intros ->; lra). exists (d' :: ds'). split; [constructor; [split; assumption|exact Hds']|]. change (log_abs_sum (d' :: ds')) with (ln (Rabs d') + log_abs_sum ds'). change (log_abs_sum (d :: ds)) with (ln (Rabs d) + log_abs_sum ds). rewrite Es. assert (E2 : d' = / d) by (apply (Rmult_eq_reg_l d); [rewrite E1; symmetry; apply Rinv_r, Nd|exact Nd]).
  rewrite E2, ln_abs_inv by exact Nd. lra.
Qed.
Lemma in_indices sh i : In i (all_indices sh) -> inb sh i.
Proof. apply all_indices_inb. Qed.
Close Scope R_scope.

(** C66: let f be any composition of registered unary primitives and of binary primitives with constants, applied elementwise to
    an array xs of any shape whose elements are inside the domains.  Then constrain(f)(target) at xs is the target at f(xs) plus
    the sum over the elements x of log |f'(x)|, under every schedule and every order of sets: the log density of the random
    variable whose image under f has log density target. *)
Theorem C66_constrain cord ops (xs : arr R) fuel ord target t : (forall l, Permutation l (cord l)) -> perm ord -> ~ In (OU (UIntPow 0)) ops -> (forall i, inb (a_shape xs) i -> dom_comp ops (a_get xs i)) ->
  length ops + length ops * length ops < fuel -> target (map_arr (comp ops) xs) = Ok (Some t) ->
  exists ds, Forall2 (fun i d => has_deriv (comp ops) (a_get xs i) d /\ d <> 0%R) (all_indices (a_shape xs)) ds /\
    constrain cord fuel ord (fun sh => program sh ops) (map_arr (comp ops)) target xs = Ok (Some (t + log_abs_sum ds)%R).
Proof.
  intros Hc Hp Hn Hd Hf Ht. destruct (C39_change_of_variables cord ops xs fuel ord Hc Hp Hn Hd Hf) as (g & ds & v & Hg & HF & _ & _ & El). destruct (flip_derivs ops xs g (all_indices (a_shape xs)) Hg (fun i Hi => Hd i (in_indices _ _ Hi)) ds HF) as (ds' & HF' & Es).
  exists ds'. split; [exact HF'|]. unfold constrain. cbv zeta. rewrite El. cbn [rbind]. rewrite Ht. cbn [rbind ominus obind]. rewrite log_sum_fold, Es. do 2 f_equal. cbv beta. lra.
Qed.
Print Assumptions C66_constrain.

(** The derivatives of a composition *)
Lemma comp_app ops1 ops2 : forall x, comp (ops1 ++ ops2) x = obind (comp ops1 x) (comp ops2).
Proof. induction ops1 as [|o ops1 IH]; intros x; [reflexivity|]. cbn [app comp]. destruct (f_op o x) as [y|]; [apply IH|reflexivity]. Qed.
Lemma dom_app ops1 ops2 : forall x, dom_comp ops1 x -> (forall y, comp ops1 x = Some y -> dom_comp ops2 y) -> dom_comp (ops1 ++ ops2) x.
Proof. induction ops1 as [|o ops1 IH]; intros x H1 H2; [apply H2; reflexivity|]. cbn [app dom_comp] in *. destruct H1 as [Ho Hr]. split; [exact Ho|]. intros y Ey. apply IH; [apply Hr, Ey|]. intros z Ez. apply H2. cbn [comp]. rewrite Ey. exact Ez. Qed.
Lemma log_sums ops1 ops2 (xs ys : arr R) is_ : (forall i, In i is_ -> comp ops1 (a_get xs i) = Some (a_get ys i)) -> forall ds1 ds2 ds,
  Forall2 (fun i d => has_deriv (comp ops1) (a_get xs i) d /\ d <> 0%R) is_ ds1 -> Forall2 (fun i d => has_deriv (comp ops2) (a_get ys i) d /\ d <> 0%R) is_ ds2 ->
  Forall2 (fun i d => has_deriv (comp (ops1 ++ ops2)) (a_get xs i) d /\ d <> 0%R) is_ ds -> log_abs_sum ds = (log_abs_sum ds1 + log_abs_sum ds2)%R.
Proof.
  induction is_ as [|i is_ IH]; intros Hi ds1 ds2 ds H1 H2 H; inversion H1 as [|i1 d1 q1 l1 [A1 B1] C1]; inversion H2 as [|i2 d2 q2 l2 [A2 B2] C2]; inversion H as [|i3 d q3 m [A B] C]; subst; [unfold log_abs_sum; cbn [fold_right]; ring|].
  change (log_abs_sum (d :: m)) with (ln (Rabs d) + log_abs_sum m)%R. change (log_abs_sum (d1 :: l1)) with (ln (Rabs d1) + log_abs_sum l1)%R. change (log_abs_sum (d2 :: l2)) with (ln (Rabs d2) + log_abs_sum l2)%R.
  rewrite (IH (fun j Hj => Hi j (or_intror Hj)) l1 l2 m C1 C2 C). assert (E : d = (d2 * d1)%R).
  { apply (deriv_unique (comp (ops1 ++ ops2)) (a_get xs i)); [exact A|]. apply (has_deriv_ext (fun z => obind (comp ops1 z) (comp ops2))); [intros z; symmetry; apply comp_app|]. exact (has_deriv_comp _ _ _ _ _ _ A1 (Hi i (or_introl eq_refl)) A2). }
  rewrite E, Rabs_mult, ln_mult by (apply Rabs_pos_lt; assumption). ring.
Qed.
(** C66: constraining with a composition is constraining twice: where ys are the values of the first function at xs,
    constrain(f2 after f1)(target) at xs is constrain(f1) at xs of the density that is constrain(f2)(target) at ys. *)
Theorem C66_constrain_compose cord ops1 ops2 (xs ys : arr R) fuel ord target t : (forall l, Permutation l (cord l)) -> perm ord -> ~ In (OU (UIntPow 0)) (ops1 ++ ops2) ->
  a_shape ys = a_shape xs -> (forall i, inb (a_shape xs) i -> dom_comp ops1 (a_get xs i) /\ comp ops1 (a_get xs i) = Some (a_get ys i) /\ dom_comp ops2 (a_get ys i)) ->
  length (ops1 ++ ops2) + length (ops1 ++ ops2) * length (ops1 ++ ops2) < fuel ->
  (forall a b, aeq a b -> target a = target b) -> target (map_arr (comp ops2) ys) = Ok (Some t) ->
  exists r2, constrain cord fuel ord (fun sh => program sh ops2) (map_arr (comp ops2)) target ys = Ok (Some r2) /\ forall target2, target2 (map_arr (comp ops1) xs) = Ok (Some r2) ->
    constrain cord fuel ord (fun sh => program sh (ops1 ++ ops2)) (map_arr (comp (ops1 ++ ops2))) target xs = constrain cord fuel ord (fun sh => program sh ops1) (map_arr (comp ops1)) target2 xs.
Proof.
  intros Hc Hp Hn Hs Hi Hf Hext Ht. rewrite app_length in Hf. assert (N1 : ~ In (OU (UIntPow 0)) ops1) by (intros A; apply Hn, in_or_app; left; exact A). assert (N2 : ~ In (OU (UIntPow 0)) ops2) by (intros A; apply Hn, in_or_app; right; exact A).
  assert (D1 : forall i, inb (a_shape xs) i -> dom_comp ops1 (a_get xs i)) by (intros i J; apply Hi, J). assert (D2 : forall i, inb (a_shape ys) i -> dom_comp ops2 (a_get ys i)) by (rewrite Hs; intros i J; apply Hi, J).
  assert (D : forall i, inb (a_shape xs) i -> dom_comp (ops1 ++ ops2) (a_get xs i)). { intros i J. destruct (Hi i J) as (A & B & C). apply dom_app; [exact A|]. intros y Ey. rewrite B in Ey. injection Ey as <-. exact C. }
  destruct (C66_constrain cord ops2 ys fuel ord target t Hc Hp N2 D2 ltac:(nia) Ht) as (ds2 & F2 & E2). exists (t + log_abs_sum ds2)%R. split; [exact E2|]. intros target2 Ht2.
  destruct (C66_constrain cord ops1 xs fuel ord target2 _ Hc Hp N1 D1 ltac:(nia) Ht2) as (ds1 & F1 & E1). assert (Ht' : target (map_arr (comp (ops1 ++ ops2)) xs) = Ok (Some t)).
  { rewrite <- Ht. apply Hext. split; [cbn; symmetry; exact Hs|]. cbn. intros i J. rewrite comp_app. destruct (Hi i J) as (_ & -> & _). reflexivity. }
  destruct (C66_constrain cord (ops1 ++ ops2) xs fuel ord target t Hc Hp Hn D ltac:(rewrite app_length; nia) Ht') as (ds & F & E). rewrite E, E1. do 2 f_equal. rewrite Hs in F2. rewrite (log_sums ops1 ops2 xs ys _ (fun i J => proj1 (proj2 (Hi i (in_indices _ _ J)))) ds1 ds2 ds F1 F2 F). ring.
Qed.
(** C66: constrain(exp)(target) at xs is the target at exp(xs) plus the sum of the elements of xs *)
Theorem C66_constrain_example cord (xs : arr R) fuel ord target t : (forall l, Permutation l (cord l)) -> perm ord -> 2 < fuel -> target (map_arr (fun x => Some (exp x)) xs) = Ok (Some t) ->
  constrain cord fuel ord (fun sh => program sh [OU UExp]) (map_arr (comp [OU UExp])) target xs = Ok (Some (t + fold_right (fun i s => a_get xs i + s)%R 0%R (all_indices (a_shape xs)))%R).
Proof.
  intros Hc Hp Hf Ht. destruct (C66_constrain cord [OU UExp] xs fuel ord target t Hc Hp) as (ds & F & ->); [intros [A|[]]; discriminate A|intros i _; cbn; auto|cbn; lia|exact Ht|]. do 3 f_equal.
  induction F as [|i d is_ ds [A B] F IH]; [reflexivity|]. change (log_abs_sum (d :: ds)) with (ln (Rabs d) + log_abs_sum ds)%R. cbn [fold_right]. rewrite IH. f_equal. assert (E : d = exp (a_get xs i)) by (apply (deriv_unique (comp [OU UExp]) (a_get xs i)); [exact A|apply everywhere, dl_exp]).
  rewrite E, Rabs_pos_eq by (left; apply exp_pos). apply ln_exp.
Qed.
(** where ildj raises, constrain raises, whatever the target *)
Theorem C66_constrain_raises cord fuel ord J f target xs : ildj_of (option R) (option R) (Some 0%R) oplus cord fuel ord (J (a_shape xs)) [] [f xs] = Err -> constrain cord fuel ord J f target xs = Err.
Proof. intros H. unfold constrain. cbv zeta. rewrite H. reflexivity. Qed.
Print Assumptions C66_constrain_compose.
