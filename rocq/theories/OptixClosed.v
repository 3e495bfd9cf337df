(** C52, C53, C54: closed forms. *)
From Verif Require Import Dict HarvestSpec HarvestProofs HarvestProofs2 HarvestProofs3 StateProps StateNestProofs StateNestProps OptixProofs OptixProps.
From Verif Require Export OptixModel.
From Coq Require Import Reals Lra Lia.
Open Scope string_scope. Open Scope list_scope. Open Scope R_scope.
#[local] Existing Instance RealArrays.

Definition d0 : tree * tree := (sc 0, sc 0).
(** the history of the i-th element of the updates *)
Definition hist (xs : list (tree * tree)) (i : nat) : nat -> R := fun j => el (fst (nth j xs d0)) i.

Section closed.
  Variables (av : aval) (key0 : tree).

  (** [u], initialised by itself on updates of the shapes [av] and called on any sequence of such updates, never fails
      and returns updates of these shapes; the i-th element of its n-th result is [out i g n], where g 0, g 1, ... are the
      i-th elements of the updates it is given *)
  Definition emits (u : ufun (tree * tree) tree) (out : nat -> (nat -> R) -> nat -> R) : Prop :=
    forall fuel0 name key x0, typed_in av x0 -> exists m, init_u key0 fuel0 u name key x0 = inl m /\
      forall fuel xs, Forall (typed_in av) xs -> exists ys m', outputs fuel m xs = inl (ys, m') /\ List.length ys = List.length xs /\
        Forall (fun y => has_aval y av = true) ys /\
        forall n i, (n < List.length xs)%nat -> (i < size av)%nat -> el (nth n ys (sc 0)) i = out i (hist xs i) n.

  Lemma runs_emits {St} f (store : St -> plants) step s0 out : runs_as av key0 f store step s0 -> (forall s x, typed_in av x -> has_aval (fst (step s x)) av = true) ->
    (forall xs n i, (n < List.length xs)%nat -> (i < size av)%nat -> el (fst (step (state_at step s0 xs n) (nth n xs d0))) i = out i (hist xs i) n) ->
    emits (Stateful f) out.
  Proof.
    intros Hr Ht Ho fuel0 name key x0 Hx. destruct (runs_as_outputs av key0 f store step s0 Hr fuel0 (Some name) key x0 Hx) as (m & Hm & H). exists m. split; [exact Hm|].
    intros fuel xs Hxs. rewrite (H fuel xs Hxs). do 2 eexists. split; [reflexivity|]. split; [apply machine_length|]. split.
    - clear - Hxs Ht. generalize s0. induction Hxs as [|x xs H1 H2 IH]; intros s; [constructor|]. cbn. constructor; [apply Ht, H1|]. apply IH.
    - intros n i Hn Hi. rewrite (machine_nth _ _ _ _ d0 (sc 0)) by exact Hn. apply Ho; assumption.
  Qed.

  (** ** trace *)
  Definition trace_sum (d : R) (g : nat -> R) (n : nat) : R := sum_f_R0 (fun j => d ^ (n - j) * g j) n.
  Lemma trace_sum_S d g n : trace_sum d g (S n) = g (S n) + d * trace_sum d g n.
  Proof.
    unfold trace_sum. cbn [sum_f_R0]. rewrite Nat.sub_diag, Rplus_comm. f_equal; [cbn; ring|]. rewrite scal_sum. apply sum_eq. intros j Hj.
    rewrite Nat.sub_succ_l by exact Hj. cbn. ring.
  Qed.
  Lemma trace_state d nes xs i : (i < size av)%nat -> forall n, (n < List.length xs)%nat ->
    state_at (tr_step av d nes) (fun _ => 0) xs (S n) i = trace_sum d (hist xs i) n.
  Proof.
    intros Hi. induction n as [|n IH]; intros Hn; rewrite (state_at_S _ _ _ _ d0) by lia; cbn [tr_step snd].
    - unfold trace_sum, hist. cbn. ring.
    - rewrite trace_sum_S, <- IH by lia. reflexivity.
  Qed.
  Theorem C52_trace d nes : emits (Stateful (trace av d nes)) (fun _ g n => if nes then g n + d * trace_sum d g n else trace_sum d g n).
  Proof.
    eapply runs_emits; [apply trace_runs|intros; apply has_vec|]. intros xs n i Hn Hi. pose proof (trace_state d nes xs i Hi n Hn) as H. rewrite (state_at_S _ _ _ _ d0) in H by exact Hn. cbn [tr_step fst snd] in *.
    rewrite el_vec by exact Hi. destruct nes; rewrite H; reflexivity.
  Qed.

  (** ** scale_by_schedule *)
  Lemma count_state {St} (step : St -> tree * tree -> tree * St) (c : St -> R) s0 : c s0 = 0 -> (forall s x, c (snd (step s x)) = c s + 1) ->
    forall xs n, (n <= List.length xs)%nat -> c (state_at step s0 xs n) = INR n.
  Proof.
    intros H0 Hs xs. induction n as [|n IH]; intros Hn; [destruct xs; exact H0|]. rewrite (state_at_S _ _ _ _ d0), Hs, IH, S_INR by lia. reflexivity.
  Qed.
  Theorem C52_schedule h : emits (Stateful (scale_by_schedule av h)) (fun _ g n => h (INR n) * g n).
  Proof.
    eapply runs_emits; [apply schedule_runs|intros; apply has_vec|]. intros xs n i Hn Hi. cbn [sched_step fst]. rewrite el_vec by exact Hi.
    rewrite (count_state (sched_step av h) (fun c => c) 0) by (auto; lia). reflexivity.
  Qed.
  (** functions without variables *)
  Lemma pure_emits (h : tree * tree -> res tree) out : (forall x, typed_in av x -> exists y, h x = inl y /\ has_aval y av = true /\ forall i, (i < size av)%nat -> el y i = out i (el (fst x) i)) ->
    emits (Stateless (Pure h)) (fun i g n => out i (g n)).
  Proof.
    intros Hh fuel0 name key x0 Hx. exists (init_stateless (Pure h) (Some name)). split; [reflexivity|]. intros fuel xs Hxs.
    assert (E : forall x y, h x = inl y -> fm_call_and_update fuel (init_stateless (Pure h) (Some name)) x = inl (y, init_stateless (Pure h) (Some name))).
    { intros x y Hy. unfold fm_call_and_update, init_stateless. cbn. rewrite Hy. reflexivity. }
    induction Hxs as [|x xs H1 H2 IH].
    - exists [], (init_stateless (Pure h) (Some name)). split; [reflexivity|]. split; [reflexivity|]. split; [constructor|]. cbn. lia.
    - destruct (Hh x H1) as (y & Ey & Hy & Hi). destruct IH as (ys & m' & Eo & Hl & Ht & Hn). exists (y :: ys), m'. cbn [outputs]. rewrite (E x y Ey). cbn [rb fst snd]. rewrite Eo. cbn [rb fst snd].
      split; [reflexivity|]. split; [cbn; congruence|]. split; [constructor; assumption|]. intros [|n] i Hlt His; cbn in Hlt; [apply Hi, His|]. apply (Hn n i); [lia|exact His].
  Qed.
  Theorem C52_scale c : emits (Stateless (scale av c)) (fun _ g n => c * g n).
  Proof.
    apply (pure_emits _ (fun _ x => c * x)). intros x Hx. eexists. split; [apply emap_ok; repeat constructor; exact Hx|]. split; [apply has_vec|]. intros i Hi. rewrite el_vec by exact Hi. reflexivity.
  Qed.

  (** ** the moments: an exponential average *)
  Definition average (b : R) (g : nat -> R) (n : nat) : R := sum_f_R0 (fun j => (1 - b) * b ^ (n - j) * g j) n.
  Lemma average_S b g n : average b g (S n) = (1 - b) * g (S n) + b * average b g n.
  Proof.
    unfold average. cbn [sum_f_R0]. rewrite Nat.sub_diag, Rplus_comm. f_equal; [cbn; ring|]. rewrite scal_sum. apply sum_eq. intros j Hj.
    rewrite Nat.sub_succ_l by exact Hj. cbn. ring.
  Qed.
  Lemma average_const b n : average b (fun _ => 1) n = 1 - b ^ S n.
  Proof. induction n as [|n IH]; [unfold average; cbn; ring|]. rewrite average_S, IH. cbn. ring. Qed.
  Lemma moment_state {St} (step : St -> tree * tree -> tree * St) (c : St -> nat -> R) s0 b k xs i : c s0 i = 0 -> (forall s x, c (snd (step s x)) i = (1 - b) * el (fst x) i ^ k + b * c s i) ->
    forall n, (n < List.length xs)%nat -> c (state_at step s0 xs (S n)) i = average b (fun j => hist xs i j ^ k) n.
  Proof.
    intros H0 Hs. induction n as [|n IH]; intros Hn; rewrite (state_at_S _ _ _ _ d0), Hs by lia.
    - unfold average, hist. cbn [sum_f_R0 Nat.sub state_at]. replace (c (match xs with [] => s0 | _ :: _ => s0 end) i) with 0 by (destruct xs; auto). rewrite ?H0. cbn [pow]. ring.
    - rewrite average_S, <- IH by lia. reflexivity.
  Qed.
  Theorem C52_rms d eps : emits (Stateful (scale_by_rms av d eps)) (fun _ g n => g n / sqrt (average d (fun j => g j ^ 2) n + eps)).
  Proof.
    eapply runs_emits; [apply rms_runs|intros; apply has_vec|]. intros xs n i Hn Hi.
    pose proof (moment_state (rms_step av d eps) (fun s => s) (fun _ => 0) d 2 xs i eq_refl (fun _ _ => eq_refl) n Hn) as H. rewrite (state_at_S _ _ _ _ d0) in H by exact Hn. cbn [rms_step fst snd] in *.
    rewrite el_vec by exact Hi. rewrite H. reflexivity.
  Qed.
  Theorem C52_stddev d eps : emits (Stateful (scale_by_stddev av d eps)) (fun _ g n => g n / sqrt (average d (fun j => g j ^ 2) n - average d g n ^ 2 + eps)).
  Proof.
    eapply runs_emits; [apply stddev_runs|intros; apply has_vec|]. intros xs n i Hn Hi.
    pose proof (moment_state (std_step av d eps) (fun s => snd s) (fun _ => 0, fun _ => 0) d 2 xs i eq_refl (fun _ _ => eq_refl) n Hn) as H2.
    pose proof (moment_state (std_step av d eps) (fun s => fst s) (fun _ => 0, fun _ => 0) d 1 xs i eq_refl (fun _ _ => eq_refl) n Hn) as H1.
    rewrite (state_at_S _ _ _ _ d0) in H1, H2 by exact Hn. cbn [std_step fst snd] in *.
    rewrite el_vec by exact Hi. rewrite H1, H2. unfold hist. do 2 f_equal. f_equal. f_equal. f_equal. unfold average. apply sum_eq. intros. ring.
  Qed.

  (** ** scale_by_adam *)
  Lemma count_of_INR n : count_of (sc (INR n)) = n.
  Proof.
    unfold count_of, unsc, el, sc. cbn [flat nth]. rewrite <- (Nat2Z.id n) at 2. f_equal. rewrite INR_IZR_INZ. rewrite <- (tech_up (IZR (Z.of_nat n)) (Z.of_nat n + 1)); [lia| |]; rewrite plus_IZR; lra.
  Qed.
  (** the bias-corrected average: the weights are (1 - b) b^(n-j) / (1 - b^(n+1)) *)
  Definition weight (b : R) (n j : nat) : R := (1 - b) * b ^ (n - j) / (1 - b ^ S n).
  Lemma weights_sum b n : b ^ S n <> 1 -> sum_f_R0 (weight b n) n = 1.
  Proof.
    intros H. pose proof (average_const b n) as E. unfold average in E. unfold weight, Rdiv. rewrite <- scal_sum.
    replace (sum_f_R0 (fun j => (1 - b) * b ^ (n - j)) n) with (1 - b ^ S n) by (rewrite <- E; apply sum_eq; intros; ring). field. lra.
  Qed.
  Lemma corrected b g n : average b g n / (1 - b ^ S n) = sum_f_R0 (fun j => weight b n j * g j) n.
  Proof. unfold average, weight, Rdiv. rewrite Rmult_comm, scal_sum. apply sum_eq. intros. ring. Qed.
  Theorem C52_adam b1 b2 eps : emits (Stateful (scale_by_adam av b1 b2 eps))
    (fun _ g n => sum_f_R0 (fun j => weight b1 n j * g j) n / (sqrt (sum_f_R0 (fun j => weight b2 n j * g j ^ 2) n) + eps)).
  Proof.
    eapply runs_emits; [apply adam_runs|intros; apply has_vec|]. intros xs n i Hn Hi. set (st := adam_step av b1 b2 eps). set (s0 := (0, (fun _ : nat => 0, fun _ : nat => 0))).
    pose proof (moment_state st (fun s => snd (snd s)) s0 b2 2 xs i eq_refl (fun _ _ => eq_refl) n Hn) as H2.
    pose proof (moment_state st (fun s => fst (snd s)) s0 b1 1 xs i eq_refl (fun _ _ => eq_refl) n Hn) as H1.
    pose proof (count_state st fst s0 eq_refl (fun _ _ => eq_refl) xs (S n) Hn) as H0.
    rewrite (state_at_S _ _ _ _ d0) in H0, H1, H2 by exact Hn. unfold st at 1 in H0. unfold st at 1 in H1. unfold st at 1 in H2. cbn [adam_step fst snd] in *. unfold st at 1. cbn [adam_step fst snd].
    rewrite el_vec by exact Hi. rewrite H0, H1, H2, count_of_INR, !corrected. f_equal. apply sum_eq. intros. ring.
  Qed.

  (** C52: the bias-corrected first moment of adam is an average of the gradients *)
  Theorem C52_adam_weights b n : Rabs b < 1 -> sum_f_R0 (weight b n) n = 1 /\ (0 <= b -> forall j, 0 <= weight b n j).
  Proof.
    intros Hb. assert (Hp : b ^ S n < 1).
    { destruct (Rle_or_lt 0 b) as [H|H].
      - rewrite Rabs_right in Hb by lra. destruct (Req_dec b 0) as [->|Hz]; [cbn; lra|]. apply pow_lt_1_compat; [lra|lia].
      - apply Rle_lt_trans with (Rabs (b ^ S n)); [apply Rle_abs|]. rewrite <- RPow_abs. apply pow_lt_1_compat; [split; [apply Rabs_pos|exact Hb]|lia]. }
    split; [apply weights_sum; lra|]. intros H0 j. rewrite Rabs_right in Hb by lra. unfold weight. apply Rmult_le_pos; [apply Rmult_le_pos; [lra|apply pow_le, H0]|]. left. apply Rinv_0_lt_compat. lra.
  Qed.

  (** ** apply_every *)
  Lemma Rmod_INR n k : (0 < k)%nat -> Rmod (INR n) (INR k) = INR (n mod k)%nat.
  Proof.
    intros Hk. assert (Hk' : 0 < INR k) by (apply lt_0_INR; lia). unfold Rmod.
    assert (E : Int_part (INR n / INR k) = Z.of_nat (n / k)).
    { unfold Int_part. pose proof (Nat.div_mod n k ltac:(lia)) as Hd. pose proof (Nat.mod_upper_bound n k ltac:(lia)) as Hm.
      assert (Hn : INR n = INR k * INR (n / k) + INR (n mod k)) by (rewrite <- mult_INR, <- plus_INR; f_equal; exact Hd).
      assert (Hmk : INR (n mod k) < INR k) by (apply lt_INR; exact Hm). pose proof (pos_INR (n mod k)) as Hm0.
      assert (Hq : INR n / INR k = INR (n / k) + INR (n mod k) / INR k) by (rewrite Hn; field; lra).
      assert (Hr : 0 <= INR (n mod k) / INR k < 1).
      { split; [apply Rmult_le_pos; [exact Hm0|left; apply Rinv_0_lt_compat; exact Hk']|]. apply Rmult_lt_reg_r with (INR k); [exact Hk'|]. unfold Rdiv. rewrite Rmult_assoc, Rinv_l by lra. lra. }
      rewrite <- (tech_up (INR n / INR k) (Z.of_nat (n / k) + 1)); [lia| |]; rewrite plus_IZR, <- INR_IZR_INZ, Hq; lra. }
    rewrite E, <- INR_IZR_INZ, <- mult_INR. pose proof (Nat.div_mod n k ltac:(lia)) as Hd. rewrite Hd at 1. rewrite plus_INR. ring.
  Qed.
  Lemma Reqb_INR a b : Reqb (INR a) (INR b) = Nat.eqb a b.
  Proof. unfold Reqb. destruct (Req_EM_T _ _) as [H|H]; symmetry; [apply Nat.eqb_eq, INR_eq, H|apply Nat.eqb_neq; congruence]. Qed.
  (** g n + g (n-1) + ... + g (n-m) *)
  Definition last_sum (g : nat -> R) (n m : nat) : R := sum_f_R0 (fun j => g (n - j)%nat) m.
  Lemma last_sum_S g n m : last_sum g (S n) (S m) = last_sum g n m + g (S n).
  Proof. unfold last_sum. rewrite decomp_sum by lia. cbn [Nat.pred]. rewrite Nat.sub_0_r. rewrite Rplus_comm. reflexivity. Qed.
  Lemma mod_step n k : (0 < k)%nat -> (S n mod k = 0 \/ S n mod k = S (n mod k))%nat.
  Proof.
    intros Hk. pose proof (Nat.mod_upper_bound n k ltac:(lia)) as Hm. pose proof (Nat.div_mod n k ltac:(lia)) as Hd. destruct (Nat.eq_dec (S (n mod k)) k) as [E|E].
    - left. symmetry. apply (Nat.mod_unique (S n) k (S (n / k)) 0); [lia|]. rewrite Nat.mul_succ_r. lia.
    - right. symmetry. apply (Nat.mod_unique (S n) k (n / k) (S (n mod k))); lia.
  Qed.
  Lemma acc_state k xs i : (0 < k)%nat -> forall n, (n < List.length xs)%nat -> snd (state_at (acc_step av k) (0, fun _ => 0) xs (S n)) i = last_sum (hist xs i) n (n mod k)%nat.
  Proof.
    intros Hk. assert (Hc : forall n, (n <= List.length xs)%nat -> fst (state_at (acc_step av k) (0, fun _ => 0) xs n) = INR n) by (apply (count_state (acc_step av k) fst (0, fun _ : nat => 0)); reflexivity).
    induction n as [|n IH]; intros Hn; rewrite (state_at_S _ _ _ _ d0) by lia; cbn [acc_step fst snd]; rewrite Hc, Rmod_INR by lia; rewrite (Reqb_INR _ 0).
    - rewrite Nat.mod_0_l by lia. unfold last_sum, hist. cbn. ring.
    - rewrite IH by lia. destruct (mod_step n k Hk) as [E|E]; rewrite E.
      + cbn [Nat.eqb negb b2r]. unfold last_sum, hist. cbn. ring.
      + rewrite last_sum_S. cbn [Nat.eqb negb b2r]. unfold hist. ring.
  Qed.
  Theorem C53_apply_every k : (0 < k)%nat -> emits (Stateful (apply_every av k)) (fun _ g n => if Nat.eqb (n mod k) (k - 1) then last_sum g n (k - 1) else 0).
  Proof.
    intros Hk. eapply runs_emits; [apply apply_every_runs|intros; apply has_vec|]. intros xs n i Hn Hi. pose proof (acc_state k xs i Hk n Hn) as H. rewrite (state_at_S _ _ _ _ d0) in H by exact Hn.
    cbn [acc_step fst snd] in *. rewrite el_vec by exact Hi. rewrite H.
    rewrite (count_state (acc_step av k) fst (0, fun _ : nat => 0) eq_refl (fun _ _ => eq_refl)) by lia. rewrite Rmod_INR by lia.
    replace (INR k - 1) with (INR (k - 1)) by (rewrite minus_INR by lia; reflexivity). rewrite Reqb_INR. destruct (Nat.eqb_spec (n mod k) (k - 1)) as [->|]; cbn; ring.
  Qed.
  (** the steps on which it emits are k-1, 2k-1, ... *)
  Lemma C53_steps n k : (0 < k)%nat -> ((n mod k)%nat = (k - 1)%nat <-> exists j, (0 < j)%nat /\ n = (j * k - 1)%nat).
  Proof.
    intros Hk. split.
    - intros H. exists (S (n / k)). split; [lia|]. pose proof (Nat.div_mod n k ltac:(lia)) as Hd. cbn. lia.
    - intros (j & Hj & ->). symmetry. apply (Nat.mod_unique _ k (j - 1) (k - 1)); [lia|]. destruct j; [lia|]. cbn. rewrite Nat.sub_0_r. lia.
  Qed.
  (** k = 0: the remainder by zero is NaN in floats; nothing is claimed *)

  (** ** add_noise *)
  Theorem C52_add_noise ksplit normal leaf_of nv eta gamma seed : 
    let keys := fix keys n := match n with O => seed | S n => nth 0 (ksplit (keys n) (S nv)) 0%Z end in
    emits (Stateful (add_noise av ksplit normal leaf_of nv eta gamma seed))
      (fun i g n => g n + eta / Rpower (1 + INR n) gamma * normal (nth (S (fst (leaf_of i))) (ksplit (keys n) (S nv)) 0%Z) (snd (leaf_of i))).
  Proof.
    intros keys. eapply runs_emits; [apply noise_runs|intros; apply has_vec|]. intros xs n i Hn Hi. set (st := noise_step av ksplit normal leaf_of nv eta gamma).
    assert (Hk : forall n, (n <= List.length xs)%nat -> snd (state_at st (0, seed) xs n) = keys n).
    { induction n0 as [|n0 IH]; intros Hn0; [destruct xs; reflexivity|]. rewrite (state_at_S _ _ _ _ d0) by lia. unfold st at 1. cbn [noise_step snd]. rewrite IH by lia. reflexivity. }
    pose proof (count_state st fst (0, seed) eq_refl (fun _ _ => eq_refl) xs n ltac:(lia)) as Hc. unfold st at 1. cbn [noise_step fst snd]. rewrite el_vec by exact Hi. rewrite Hc, Hk by lia. reflexivity.
  Qed.

  (** ** clip_by_global_norm *)
  Lemma sum_squares_scale c l : sum_squares (map (fun x => x * c) l) = c * c * sum_squares l.
  Proof. induction l as [|x l IH]; cbn; [ring|]. unfold sum_squares in IH. rewrite IH. ring. Qed.
  Lemma sum_squares_pos l : 0 <= sum_squares l.
  Proof. induction l as [|x l IH]; cbn; [lra|]. pose proof (Rle_0_sqr x) as H. unfold Rsqr in H. unfold sum_squares in IH. lra. Qed.
  Lemma flat_vec_el t f : has_aval t av = true -> flat (vec av (fun i => f (el t i))) = map f (flat t).
  Proof.
    intros H. unfold vec. rewrite flat_build. rewrite <- (flat_length t av H). unfold el. generalize (flat t). intros l.
    rewrite <- map_map. f_equal. change (map (fun x => nth x l 0) (seq 0 (List.length l)) = l). clear. induction l as [|x l IH]; [reflexivity|]. cbn [List.length seq map nth]. f_equal. rewrite <- seq_shift, map_map. exact IH.
  Qed.
  Theorem C54_clip_by_global_norm mx fuel u p : has_aval u av = true -> numeric av = true -> 0 < mx ->
    exists y, sem var_reap fuel (clip_by_global_norm av mx) [] (u, p) = inl (y, []) /\ has_aval y av = true /\
      (global_norm u < mx -> y = u) /\
      (mx <= global_norm u -> global_norm y = mx /\ forall i, (i < size av)%nat -> el y i = el u i * (mx / global_norm u)).
  Proof.
    intros Hu Hn Hm. unfold clip_by_global_norm. cbn [sem2 fst]. rewrite emap_ok by (repeat constructor; exact Hu). cbn [rb]. eexists. split; [reflexivity|]. split; [apply has_vec|]. split; intros H.
    - etransitivity; [|apply (vec_el av u Hu Hn)]. apply vec_ext. intros j Hj. unfold f1. cbn. destruct (Rlt_dec _ _); [reflexivity|contradiction].
    - assert (E : vec av (fun i => f1 (fun t => if Rlt_dec (global_norm u) mx then t else t * (mx / global_norm u)) (map (fun t => el t i) [u])) = vec av (fun i => (fun x => x * (mx / global_norm u)) (el u i))).
      { apply vec_ext. intros j Hj. unfold f1. cbn. destruct (Rlt_dec _ _); [lra|reflexivity]. }
      rewrite E. split; [|intros i Hi; rewrite el_vec by exact Hi; reflexivity]. unfold global_norm at 1. rewrite (flat_vec_el u (fun x => x * (mx / global_norm u)) Hu), sum_squares_scale.
      assert (Hg : 0 < global_norm u) by lra. rewrite sqrt_mult; [|apply Rle_0_sqr|apply sum_squares_pos]. fold (global_norm u). rewrite sqrt_square; [field; lra|]. left. apply Rmult_lt_0_compat; [exact Hm|apply Rinv_0_lt_compat, Hg].
  Qed.

  (** ** clip *)
  (** on a single array clip does what it should *)
  Theorem C54_clip_array_partial d n l fuel p : 0 <= d -> List.length l = n ->
    exists l', sem var_reap fuel (clip d) [] (Leaf (Num l), p) = inl (Leaf (Num l'), []) /\ List.length l' = n /\
      forall i, (i < n)%nat -> - d <= nth i l' 0 <= d /\ (- d <= nth i l 0 <= d -> nth i l' 0 = nth i l 0) /\ (nth i l 0 < - d -> nth i l' 0 = - d) /\ (d < nth i l 0 -> nth i l' 0 = d).
  Proof.
    intros Hd <-. eexists. split; [reflexivity|]. split; [apply map_length|]. intros i Hi. set (f := fun x => Rmin (Rmax x (- d)) d).
    rewrite (nth_indep _ 0 (f 0)) by (rewrite map_length; exact Hi). rewrite map_nth. generalize (nth i l 0). intros x. unfold f, Rmin, Rmax.
    repeat destruct (Rle_dec _ _); repeat split; intros; lra.
  Qed.
  (** C54 refuted: on any other tree with at least one array it raises: the whole tree is given to jnp.clip *)
  Fixpoint no_leaf (t : tree) : bool :=
    match t with
    | Leaf _ => false
    | Dict l => (fix go (l : list (string * tree)) : bool := match l with [] => true | kt :: l' => (no_leaf (snd kt) && go l')%bool end) l
    | Stk l => (fix go (l : list tree) : bool := match l with [] => true | t :: l' => (no_leaf t && go l')%bool end) l
    end.
  Lemma map_leaves_none f t : no_leaf t = true -> map_leaves f t = inl t.
  Proof.
    induction t as [v|l IH|l IH] using tree_ind'; intros H; [discriminate|..]; cbn in *.
    - match goal with |- rb ?g _ = _ => assert (E : g = inl l) end; [|rewrite E; reflexivity]. revert H. induction IH as [|[k t] l H1 H2 IHl]; [reflexivity|]. cbn in *. intros H. apply andb_true_iff in H as [Ha Hb]. rewrite (H1 Ha). cbn [rb]. rewrite (IHl Hb). reflexivity.
    - match goal with |- rb ?g _ = _ => assert (E : g = inl l) end; [|rewrite E; reflexivity]. revert H. induction IH as [|t l H1 H2 IHl]; [reflexivity|]. cbn in *. intros H. apply andb_true_iff in H as [Ha Hb]. rewrite (H1 Ha). cbn [rb]. rewrite (IHl Hb). reflexivity.
  Qed.
  Lemma map_leaves_fails f e t : (forall v, f (Leaf v) = inr e) -> no_leaf t = false -> map_leaves f t = inr e.
  Proof.
    intros Hf. induction t as [v|l IH|l IH] using tree_ind'; intros H; [apply Hf|..]; cbn in *.
    - match goal with |- rb ?g _ = _ => assert (E : g = inr e) end; [|rewrite E; reflexivity]. revert H. induction IH as [|[k t] l H1 H2 IHl]; [discriminate|]. cbn in *. intros H. destruct (no_leaf t) eqn:Et.
      + rewrite (map_leaves_none f t Et). cbn [rb]. rewrite (IHl H). reflexivity.
      + rewrite (H1 eq_refl). reflexivity.
    - match goal with |- rb ?g _ = _ => assert (E : g = inr e) end; [|rewrite E; reflexivity]. revert H. induction IH as [|t l H1 H2 IHl]; [discriminate|]. cbn in *. intros H. destruct (no_leaf t) eqn:Et.
      + rewrite (map_leaves_none f t Et). cbn [rb]. rewrite (IHl H). reflexivity.
      + rewrite (H1 eq_refl). reflexivity.
  Qed.
  Theorem C54_clip_tree_raises d t fuel p : no_leaf t = false -> (forall v, t <> Leaf v) -> sem var_reap fuel (clip d) [] (t, p) = inr TypeErr.
  Proof.
    intros Ht Hl. unfold clip. cbn [sem2 fst]. rewrite (map_leaves_fails (fun _ => jnp_clip d t) TypeErr t); [reflexivity|intros _; destruct t; [edestruct Hl; reflexivity|reflexivity|reflexivity]|exact Ht].
  Qed.
End closed.
