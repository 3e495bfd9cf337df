(** Proofs about custom inverses: the mirrored operations. *)
From Verif Require Export CustomInvModel.
From Coq Require Import ZArith Lra Lia Permutation.
Open Scope R_scope.

Lemma inv_comp_app a b : forall y, inv_comp (a ++ b) y = obind (inv_comp b y) (inv_comp a).
Proof. induction a as [|o a IH]; intros y; cbn [app inv_comp]; [destruct (inv_comp b y); reflexivity|]. rewrite IH. destruct (inv_comp b y); reflexivity. Qed.
Lemma comp_app a b : forall x, comp (a ++ b) x = obind (comp a x) (comp b).
Proof. induction a as [|o a IH]; intros x; cbn [app comp]; [reflexivity|]. destruct (f_op o x) as [v|]; [apply IH|reflexivity]. Qed.
Lemma dom_app a b : forall x, dom_comp a x -> (forall y, comp a x = Some y -> dom_comp b y) -> dom_comp (a ++ b) x.
Proof.
  induction a as [|o a IH]; intros x H1 H2; cbn [app dom_comp comp] in *; [apply H2; reflexivity|]. destruct H1 as [Ho Hr]. split; [exact Ho|]. intros y Ey. apply IH; [apply Hr, Ey|]. intros z Ez. apply H2. rewrite Ey. exact Ez.
Qed.
Lemma comp1 o y : comp [o] y = f_op o y.
Proof. cbn [comp]. destruct (f_op o y); reflexivity. Qed.
(** the traced inverse computes the registered inverse *)
Lemma mirror_val sq o m y : mirror sq o = Some m -> comp m y = g_op o y.
Proof.
  intros H. destruct o as [u|b l|b r]; [destruct u|destruct b|destruct b]; cbn [mirror] in H; try discriminate; try (injection H as <-; rewrite comp1; reflexivity).
  - destruct sq; [|discriminate]. injection H as <-. rewrite comp1. cbn. unfold fipow. rewrite p2. destruct (Req_EM_T y 0); [destruct (Z_lt_dec 2 0); [lia|]|]; reflexivity.
  - cbn [g_op inv]. unfold integer_pow_inverse. destruct (Z.eq_dec n 0); [discriminate|]. destruct (Z.eq_dec n 1); [injection H as <-; reflexivity|]. destruct (Z.eq_dec n (-1)).
    + injection H as <-. rewrite comp1. cbn [f_op fwd]. unfold fipow, fdiv. destruct (Req_EM_T y 0); [reflexivity|]. f_equal. rewrite pm1. unfold Rdiv. lra.
    + destruct (Z.eq_dec n 2); injection H as <-; rewrite comp1; reflexivity.
  - destruct (flog l) as [c|] eqn:E; [|discriminate]. injection H as <-. change (comp [OU ULog; OR BDiv c] y) with (obind (flog y) (comp [OR BDiv c])). cbn [g_op left_val]. rewrite E. destruct (flog y); [|reflexivity]. cbn [obind]. rewrite comp1. reflexivity.
  - destruct (fdiv 1 r) as [c|] eqn:E; [|discriminate]. injection H as <-. rewrite comp1. cbn [f_op fwd2 g_op right_val]. rewrite E. reflexivity.
Qed.
Lemma mirrors_val sq ops : forall ms y, mirrors sq ops = Some ms -> comp ms y = inv_comp ops y.
Proof.
  induction ops as [|o ops IH]; intros ms y H; cbn [mirrors] in H; [injection H as <-; reflexivity|]. destruct (mirror sq o) as [m|] eqn:E; [|discriminate]. destruct (mirrors sq ops) as [ms'|] eqn:E'; [|discriminate]. injection H as <-. rewrite comp_app, (IH ms' y eq_refl). cbn [inv_comp]. destruct (inv_comp ops y); [|reflexivity]. cbn [obind]. eapply mirror_val, E.
Qed.
(** and its own inverse is the operation again *)
Lemma inv_comp1 o y : inv_comp [o] y = g_op o y.
Proof. reflexivity. Qed.
Lemma mirror_inv sq o m y : mirror sq o = Some m -> d_op o y -> inv_comp m y = f_op o y.
Proof.
  intros H D. destruct o as [u|b l|b r]; [destruct u|destruct b|destruct b]; cbn [mirror] in H; try discriminate; try (injection H as <-; reflexivity).
  - destruct sq; [|discriminate]. injection H as <-. reflexivity.
  - cbn [d_op dom f_op fwd] in *. destruct (Z.eq_dec n 0); [discriminate|]. destruct (Z.eq_dec n 1) as [->|]; [injection H as <-; cbn [inv_comp]; unfold fipow; rewrite powerRZ_1; destruct (Req_EM_T y 0); [destruct (Z_lt_dec 1 0); [lia|]|]; reflexivity|]. destruct (Z.eq_dec n (-1)) as [->|].
    + injection H as <-. rewrite inv_comp1. cbn [g_op inv integer_pow_inverse]. change (integer_pow_inverse (-1)) with (Some (fun z => fdiv 1 z)). unfold fipow. rewrite fdiv_nz by exact D. destruct (Req_EM_T y 0); [contradiction|]. rewrite pm1. f_equal. unfold Rdiv. lra.
    + destruct (Z.eq_dec n 2) as [->|]; injection H as <-; rewrite inv_comp1.
      * cbn [g_op inv]. unfold fipow. rewrite p2. destruct (Req_EM_T y 0); [lra|reflexivity].
      * cbn [g_op right_val]. assert (N : IZR n <> 0) by (apply not_0_IZR; assumption). rewrite fdiv_nz by (unfold Rdiv; rewrite Rmult_1_l; apply Rinv_neq_0_compat, N). cbn [obind]. rewrite fpow_pos, fipow_pos by exact D. f_equal. f_equal. field. exact N.
  - cbn [d_op dom_left] in D. rewrite flog_pos in H by lra. injection H as <-. change (inv_comp [OU ULog; OR BDiv (ln l)] y) with (Some (exp (y * ln l))). cbn [f_op fwd2]. rewrite fpow_pos by lra. reflexivity.
  - injection H as <-. cbn. f_equal. lra.
  - injection H as <-. cbn. f_equal. lra.
  - cbn [d_op dom_right] in D. rewrite fdiv_nz in H by lra. injection H as <-. rewrite inv_comp1. cbn [g_op right_val f_op fwd2]. rewrite fdiv_nz by (unfold Rdiv; rewrite Rmult_1_l; apply Rinv_neq_0_compat; lra). cbn [obind]. f_equal. field. lra.
Qed.
Lemma mirror_dom sq o m y x : mirror sq o = Some m -> (forall n, o = OU (UIntPow n) -> (-1 <= n)%Z) -> d_op o y -> f_op o y = Some x -> dom_comp m x.
Proof.
  intros H M D E. assert (T : forall o', d_op o' x -> dom_comp [o'] x) by (intros o' Ho; split; [exact Ho|intros; exact I]).
  destruct o as [u|b l|b r]; [destruct u|destruct b|destruct b]; cbn [mirror] in H; cbn [d_op dom dom_left dom_right f_op fwd fwd2] in *; try discriminate; try (injection H as <-; apply T; cbn [d_op dom dom_left dom_right]; try exact I; try exact D).
  - injection E as <-. apply exp_pos.
  - injection E as <-. unfold fexpm1. pose proof (exp_pos y). lra.
  - destruct sq; [|discriminate]. injection H as <-. apply T. cbn. rewrite fsqrt_pos in E by lra. injection E as <-. apply sqrt_lt_R0, D.
  - specialize (M n eq_refl). destruct (Z.eq_dec n 0); [discriminate|]. destruct (Z.eq_dec n 1) as [->|]; [injection H as <-; exact I|]. destruct (Z.eq_dec n (-1)) as [->|].
    + injection H as <-. apply T. cbn. unfold fipow in E. destruct (Req_EM_T y 0); [contradiction|]. rewrite pm1 in E. injection E as <-. apply Rinv_neq_0_compat, D.
    + rewrite fipow_pos in E by exact D. injection E as <-. destruct (Z.eq_dec n 2) as [->|]; injection H as <-; apply T; cbn [d_op dom dom_right]; [apply Rpower_pos|]. split; [|apply Rpower_pos]. unfold Rdiv. rewrite Rmult_1_l. apply Rinv_0_lt_compat. apply IZR_lt. lia.
  - injection E as <-. apply expit_in.
  - rewrite flog_pos in H by lra. injection H as <-. rewrite fpow_pos in E by lra. injection E as <-. cbn [dom_comp d_op dom dom_right f_op fwd]. split; [apply Rpower_pos|]. intros z _. split; [|intros; exact I]. assert (0 < ln l) by (rewrite <- ln_1; apply ln_increasing; lra). lra.
  - rewrite fdiv_nz in E by lra. injection E as <-. split; [apply D|]. apply Rdiv_lt_0_compat; apply D.
  - rewrite fdiv_nz in H by lra. injection H as <-. apply T. cbn. rewrite fpow_pos in E by lra. injection E as <-. split; [|apply Rpower_pos]. unfold Rdiv. rewrite Rmult_1_l. apply Rinv_0_lt_compat, D.
Qed.
Lemma mild_cons o ops : mild (o :: ops) -> (forall n, o = OU (UIntPow n) -> (-1 <= n)%Z) /\ mild ops.
Proof. intros H. split; [intros n ->; apply H; left; reflexivity|]. intros n Hn. apply H. right. exact Hn. Qed.
Lemma mirrors_inv sq ops : forall ms y, mirrors sq ops = Some ms -> dom_comp ops y -> inv_comp ms y = comp ops y.
Proof.
  induction ops as [|o ops IH]; intros ms y H D; cbn [mirrors] in H; [injection H as <-; reflexivity|]. destruct (mirror sq o) as [m|] eqn:E; [|discriminate]. destruct (mirrors sq ops) as [ms'|] eqn:E'; [|discriminate]. injection H as <-.
  destruct D as [Do Dr]. rewrite inv_comp_app. cbn [comp]. rewrite (mirror_inv sq o m y E Do). destruct (f_op o y) as [v|] eqn:Ev; [|reflexivity]. cbn [obind]. apply IH; auto.
Qed.
Lemma mirrors_dom sq ops : forall ms y x, mirrors sq ops = Some ms -> mild ops -> dom_comp ops y -> comp ops y = Some x -> dom_comp ms x /\ comp ms x = Some y.
Proof.
  induction ops as [|o ops IH]; intros ms y x H M D Ex; cbn [mirrors] in H; [injection H as <-; injection Ex as <-; split; [exact I|reflexivity]|]. destruct (mirror sq o) as [m|] eqn:E; [|discriminate]. destruct (mirrors sq ops) as [ms'|] eqn:E'; [|discriminate]. injection H as <-.
  apply mild_cons in M as [Mo M]. destruct D as [Do Dr]. destruct (op_ok o y Do) as (v & Ef & Eg & _). cbn [comp] in Ex. rewrite Ef in Ex. cbn [obind] in Ex. destruct (IH ms' v x eq_refl M (Dr v Ef) Ex) as [A B]. split.
  - apply dom_app; [exact A|]. intros z Ez. rewrite B in Ez. injection Ez as <-. eapply mirror_dom; eassumption.
  - rewrite comp_app, B. cbn [obind]. rewrite (mirror_val sq o m v E). exact Eg.
Qed.
(** the operations of a traced inverse have inverses, and no powers below -1 *)
Lemma mirror_mild sq o m : mirror sq o = Some m -> mild m /\ ~ In (OU (UIntPow 0)) m.
Proof.
  intros H. destruct o as [u|b l|b r]; [destruct u|destruct b|destruct b]; cbn [mirror] in H; try discriminate;
    repeat match type of H with (if ?c then _ else _) = _ => destruct c; try discriminate | match ?c with Some _ => _ | None => _ end = _ => destruct c; try discriminate end;
    injection H as <-; (split; [intros k Hk; cbn in Hk; intuition (try congruence; try lia)|cbn; intuition congruence]).
  all: repeat match goal with X : OU _ = OU _ |- _ => injection X as <- end; lia.
Qed.
Lemma mirrors_mild sq ops : forall ms, mirrors sq ops = Some ms -> mild ms /\ ~ In (OU (UIntPow 0)) ms.
Proof.
  induction ops as [|o ops IH]; intros ms H; cbn [mirrors] in H; [injection H as <-; split; [intros n []|intros []]|]. destruct (mirror sq o) as [m|] eqn:E; [|discriminate]. destruct (mirrors sq ops) as [ms'|] eqn:E'; [|discriminate]. injection H as <-.
  destruct (mirror_mild sq o m E) as [A B]. destruct (IH ms' eq_refl) as [A' B']. split; [intros n Hn; apply in_app_or in Hn as [Hn|Hn]; auto|intros Hn; apply in_app_or in Hn as [Hn|Hn]; auto].
Qed.
Lemma mirrors_ops sq ops ms : mirrors sq ops = Some ms -> ~ In (OU (UIntPow 0)) ops.
Proof.
  revert ms. induction ops as [|o ops IH]; intros ms H; cbn [mirrors] in H; [intros []|]. destruct (mirror sq o) as [m|] eqn:E; [|discriminate]. destruct (mirrors sq ops) as [ms'|] eqn:E'; [|discriminate]. intros [->|Hi]; [discriminate|]. exact (IH ms' eq_refl Hi).
Qed.
(** the log-derivative: (comp ops)'(y) is the derivative of the inverse of the mirrored program at y *)
Lemma mirrors_deriv sq ops ms y : mirrors sq ops = Some ms -> mild ops -> dom_comp ops y -> exists x d, comp ops y = Some x /\ dom_comp ms x /\ comp ms x = Some y /\ has_deriv (comp ops) y d /\ d <> 0 /\ lval ms x = Some (ln (Rabs d)).
Proof.
  intros H M D. destruct (comp_ok ops y D) as (x & Ex & _). destruct (mirrors_dom sq ops ms y x H M D Ex) as [Dm Em]. destruct (comp_ok ms x Dm) as (y' & Ey & Ei & d & Hd & Nd & El). rewrite Em in Ey. injection Ey as <-.
  exists x, d. split; [exact Ex|]. split; [exact Dm|]. split; [exact Em|]. split; [|split; assumption].
  destruct Hd as (h & Hh & e & He & Hz). destruct (open_dom ops y D) as (e' & He' & Hz'). exists h. split; [exact Hh|]. exists (Rmin e e'). split; [apply Rmin_pos; assumption|]. intros z Hzz.
  rewrite <- (mirrors_inv sq ops ms z H); [apply Hz; eapply Rlt_le_trans; [exact Hzz|apply Rmin_l]|apply Hz'; eapply Rlt_le_trans; [exact Hzz|apply Rmin_r]].
Qed.
