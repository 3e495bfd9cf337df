(** C52, C53, C54: the update functions of optix. *)
From Verif Require Import Dict HarvestSpec HarvestProofs HarvestProofs2 HarvestProofs3 HarvestProofs4 HarvestProofs5 HarvestProps StateProps StateNestProofs StateNestProps OptixProofs.
From Verif Require Export OptixModel.
From Coq Require Import Reals Lra Lia.
Open Scope string_scope. Open Scope list_scope. Open Scope R_scope.
#[local] Existing Instance RealArrays.

Definition isok {A} (r : res A) : bool := match r with inl _ => true | inr _ => false end.
Lemma isok_ex {A} (r : res A) : isok r = true -> exists x, r = inl x.
Proof. destruct r; [eauto|discriminate]. Qed.
Ltac ok_tac := apply isok_ex; vm_compute; reflexivity.

(** updates of the right shape *)
Definition typed_in (av : aval) (x : tree * tree) : Prop := has_aval (fst x) av = true.
Lemma planted_ok a pd n w : dget pd n = Some w -> has_aval w a = true -> planted a pd n = inl w.
Proof. unfold planted. intros -> H. apply chk_ok, H. Qed.
Lemma has_sc x : has_aval (sc x) A0 = true.
Proof. reflexivity. Qed.
Ltac has_tac := first [assumption|apply has_vec|apply has_build|apply has_sc|reflexivity].
Ltac emap_tac := rewrite emap_ok by (repeat constructor; has_tac).
Ltac step1 := first
  [ rewrite sem_bindvar by reflexivity | rewrite sem_bindasg | rewrite reap_bindvar | rewrite reap_bindasg
  | progress cbn [rb fst snd app]
  | rewrite chk_ok by has_tac
  | erewrite planted_ok; [|reflexivity|has_tac]
  | emap_tac ].
Ltac el_tac := repeat (rewrite el_vec by assumption).

Section functions.
  Variable av : aval.
  Variables (key0 : tree).

  (** the module of [f] is the state machine [step] on the states [St], stored in the variables as [store] *)
  Definition runs_as {St} (f : prog (tree * (tree * tree)) tree) (store : St -> plants) (step : St -> tree * tree -> tree * St) (s0 : St) : Prop :=
    forall fuel0 name key x0, typed_in av x0 -> exists m, init fuel0 key0 f name key x0 = inl m /\ fm_vars m = store s0 /\ fm_name m = name /\
      forall fuel s x, typed_in av x -> fm_call_and_update fuel (fm_replace m (store s)) x = inl (fst (step s x), fm_replace m (store (snd (step s x)))).
  Lemma runs_as_intro {St} f (store : St -> plants) step s0 : nocond asg f -> (forall s, fits (skels_of (store s0)) (store s)) ->
    (forall fuel0 name key x0, typed_in av x0 -> exists m, init fuel0 key0 f name key x0 = inl m /\ fm_vars m = store s0) ->
    (forall fuel s x, typed_in av x -> exists o, exec fuel f (store s) key0 x = inl (fst (step s x), o) /\
      forallb (fun n => mem n (dkeys (store s))) (dkeys (assigned f (store s))) = true /\
      dmerge (store s) (collect (assigned f (store s)) o) = store (snd (step s x))) ->
    runs_as f store step s0.
  Proof.
    intros Hn Hf Hi He fuel0 name key x0 Hx. destruct (Hi fuel0 name key x0 Hx) as (m & Hm & Hv). exists m. split; [exact Hm|]. split; [exact Hv|]. split.
    - apply init_cau in Hm as (_ & H & _). exact H.
    - intros fuel s x Hxt. eapply (init_machine f key0 step store (typed_in av)); [exact Hm|exact Hv|exact Hn|exact Hf| |exact Hxt]. intros; apply He; assumption.
  Qed.
  Lemma runs_as_outputs {St} f (store : St -> plants) step s0 : runs_as f store step s0 -> forall fuel0 name key x0, typed_in av x0 ->
    exists m, init fuel0 key0 f name key x0 = inl m /\ forall fuel xs, Forall (typed_in av) xs ->
      outputs fuel m xs = inl (fst (machine step s0 xs), fm_replace m (store (snd (machine step s0 xs)))).
  Proof.
    intros H fuel0 name key x0 Hx. destruct (H fuel0 name key x0 Hx) as (m & Hm & Hv & _ & Hs). exists m. split; [exact Hm|]. intros fuel xs Hxs.
    apply (module_machine step store (typed_in av)); auto.
  Qed.

  (** ** trace *)
  Section trace.
    Variables (d : R) (nes : bool).
    Definition tr_store (s : nat -> R) : plants := [("trace", vec av s)].
    Definition tr_step (s : nat -> R) (x : tree * tree) : tree * (nat -> R) :=
      let t := fun i => el (fst x) i + d * s i in (vec av (if nes then (fun i => el (fst x) i + d * t i) else t), t).
    Lemma trace_exec fuel s x : typed_in av x -> exists o, exec fuel (trace av d nes) (tr_store s) key0 x = inl (fst (tr_step s x), o) /\
      forallb (fun n => mem n (dkeys (tr_store s))) (dkeys (assigned (trace av d nes) (tr_store s))) = true /\
      dmerge (tr_store s) (collect (assigned (trace av d nes) (tr_store s)) o) = tr_store (snd (tr_step s x)).
    Proof.
      unfold typed_in. intros Hx. destruct x as [u p]. cbn [fst] in Hx. unfold exec, trace. cbn [sem2].
      exists [("trace", (vec av (snd (tr_step s (u, p))), true))].
      assert (E : forall t, (forall i, (i < size av)%nat -> t i = s i) -> vec av (fun i => f2 (fun g t => g + d * t) (map (fun t0 => el t0 i) [u; vec av t])) = vec av (snd (tr_step s (u, p)))).
      { intros t Ht. apply vec_ext. intros i Hi. unfold f2. cbn. el_tac. rewrite (Ht i Hi). reflexivity. }
      split.
      - repeat step1. rewrite (E s) by auto. destruct nes eqn:En; repeat step1; [|unfold tr_step; rewrite En; reflexivity]. do 2 f_equal. unfold tr_step. rewrite En. cbn [fst]. apply vec_ext. intros i Hi. unfold f2. cbn [map nth]. el_tac. reflexivity.
      - split; reflexivity.
    Qed.
    Lemma trace_init fuel0 name key x0 : typed_in av x0 -> exists m, init fuel0 key0 (trace av d nes) name key x0 = inl m /\ fm_vars m = tr_store (fun _ => 0).
    Proof.
      unfold typed_in. intros Hx. destruct x0 as [u p]. cbn [fst] in Hx. apply init_ok.
      - cbn. repeat split; auto.
      - ok_tac.
      - unfold trace. cbn [sem2]. unfold zeros_up. destruct nes; eexists; repeat step1; reflexivity.
      - reflexivity.
      - ok_tac.
    Qed.
  End trace.

  Ltac fits1 := first [apply Forall2_nil|apply Forall2_cons; [split; [reflexivity|first
    [exists av; split; apply has_vec|exists A0; split; apply has_sc|exists AKEY; split; reflexivity]]|fits1]].
  Ltac fits_tac := intros; apply fits_vec; fits1.
  Ltac init_tac := intros fuel0 name key [u p] Hx; unfold typed_in in Hx; cbn [fst] in Hx; apply init_ok;
    [cbn; repeat split; auto|ok_tac| |reflexivity|ok_tac].
  Ltac ext_tac := apply vec_ext; let i := fresh "i" in let Hi := fresh "Hi" in intros i Hi; unfold update_moment, f1, f2, f3; cbn [map nth]; el_tac; try reflexivity.
  Lemma trace_runs d nes : runs_as (trace av d nes) tr_store (tr_step d nes) (fun _ => 0).
  Proof.
    apply runs_as_intro; [cbn; repeat split; auto|fits_tac|intros; apply trace_init; assumption|intros; apply trace_exec; assumption].
  Qed.

  (** ** scale_by_rms *)
  Definition nu_store (s : nat -> R) : plants := [("nu", vec av s)].
  Definition rms_step (d eps : R) (s : nat -> R) (x : tree * tree) : tree * (nat -> R) :=
    let n := fun i => (1 - d) * el (fst x) i ^ 2 + d * s i in (vec av (fun i => el (fst x) i / sqrt (n i + eps)), n).
  Lemma rms_runs d eps : runs_as (scale_by_rms av d eps) nu_store (rms_step d eps) (fun _ => 0).
  Proof.
    apply runs_as_intro; [cbn; repeat split; auto|fits_tac| |].
    - init_tac. unfold scale_by_rms, zeros_up. cbn [sem2]. eexists. repeat step1. reflexivity.
    - intros fuel s [u p] Hx. unfold typed_in in Hx. cbn [fst] in Hx. unfold exec, scale_by_rms. cbn [sem2].
      exists [("nu", (vec av (snd (rms_step d eps s (u, p))), true))].
      assert (E : vec av (fun i => update_moment d 2 (map (fun t0 => el t0 i) [u; vec av s])) = vec av (snd (rms_step d eps s (u, p)))) by ext_tac.
      split; [|split; reflexivity]. repeat step1. rewrite E. repeat step1. do 2 f_equal. unfold rms_step at 2. cbn [fst]. ext_tac.
  Qed.

  (** ** scale_by_stddev *)
  Definition mn_store (s : (nat -> R) * (nat -> R)) : plants := [("mu", vec av (fst s)); ("nu", vec av (snd s))].
  Definition std_step (d eps : R) (s : (nat -> R) * (nat -> R)) (x : tree * tree) : tree * ((nat -> R) * (nat -> R)) :=
    let m := fun i => (1 - d) * el (fst x) i ^ 1 + d * fst s i in let n := fun i => (1 - d) * el (fst x) i ^ 2 + d * snd s i in
    (vec av (fun i => el (fst x) i / sqrt (n i - m i ^ 2 + eps)), (m, n)).
  Lemma stddev_runs d eps : runs_as (scale_by_stddev av d eps) mn_store (std_step d eps) (fun _ => 0, fun _ => 0).
  Proof.
    apply runs_as_intro; [cbn; repeat split; auto|fits_tac| |].
    - init_tac. unfold scale_by_stddev, zeros_up. cbn [sem2]. eexists. repeat step1. reflexivity.
    - intros fuel [m n] [u p] Hx. unfold typed_in in Hx. cbn [fst] in Hx. unfold exec, scale_by_stddev. cbn [sem2].
      set (m' := fun i => (1 - d) * el u i ^ 1 + d * m i). set (n' := fun i => (1 - d) * el u i ^ 2 + d * n i).
      exists [("mu", (vec av m', true)); ("nu", (vec av n', true))].
      assert (E1 : vec av (fun i => update_moment d 1 (map (fun t0 => el t0 i) [u; vec av m])) = vec av m') by ext_tac.
      assert (E2 : vec av (fun i => update_moment d 2 (map (fun t0 => el t0 i) [u; vec av n])) = vec av n') by ext_tac.
      split; [|split; reflexivity]. repeat step1. rewrite E1, E2. repeat step1. do 2 f_equal. unfold std_step. cbn [fst snd]. ext_tac.
  Qed.

  (** ** scale_by_adam *)
  Definition adam_store (s : R * ((nat -> R) * (nat -> R))) : plants := [("count", sc (fst s)); ("mu", vec av (fst (snd s))); ("nu", vec av (snd (snd s)))].
  Definition adam_step (b1 b2 eps : R) (s : R * ((nat -> R) * (nat -> R))) (x : tree * tree) : tree * (R * ((nat -> R) * (nat -> R))) :=
    let c := fst s + 1 in let m := fun i => (1 - b1) * el (fst x) i ^ 1 + b1 * fst (snd s) i in let n := fun i => (1 - b2) * el (fst x) i ^ 2 + b2 * snd (snd s) i in
    (vec av (fun i => (m i / (1 - b1 ^ count_of (sc c))) / (sqrt (n i / (1 - b2 ^ count_of (sc c))) + eps)), (c, (m, n))).
  Lemma adam_runs b1 b2 eps : runs_as (scale_by_adam av b1 b2 eps) adam_store (adam_step b1 b2 eps) (0, (fun _ => 0, fun _ => 0)).
  Proof.
    apply runs_as_intro; [cbn; repeat split; auto|fits_tac| |].
    - init_tac. unfold scale_by_adam, zeros_up. cbn [sem2]. eexists. repeat step1. reflexivity.
    - intros fuel [c [m n]] [u p] Hx. unfold typed_in in Hx. cbn [fst] in Hx. unfold exec, scale_by_adam. cbn [sem2].
      set (m' := fun i => (1 - b1) * el u i ^ 1 + b1 * m i). set (n' := fun i => (1 - b2) * el u i ^ 2 + b2 * n i).
      exists [("mu", (vec av m', true)); ("nu", (vec av n', true)); ("count", (sc (c + 1), true))].
      assert (E1 : vec av (fun i => update_moment b1 1 (map (fun t0 => el t0 i) [u; vec av m])) = vec av m') by ext_tac.
      assert (E2 : vec av (fun i => update_moment b2 2 (map (fun t0 => el t0 i) [u; vec av n])) = vec av n') by ext_tac.
      split; [|split; reflexivity]. repeat step1. rewrite E1, E2. repeat step1. do 2 f_equal. unfold adam_step. cbn [fst snd]. ext_tac.
  Qed.

  (** ** scale_by_schedule *)
  Definition count_store (c : R) : plants := [("count", sc c)].
  Definition sched_step (h : R -> R) (c : R) (x : tree * tree) : tree * R := (vec av (fun i => h c * el (fst x) i), c + 1).
  Lemma schedule_runs h : runs_as (scale_by_schedule av h) count_store (sched_step h) 0.
  Proof.
    apply runs_as_intro; [cbn; repeat split; auto|fits_tac| |].
    - init_tac. unfold scale_by_schedule, zeros_up. cbn [sem2]. eexists. repeat step1. reflexivity.
    - intros fuel c [u p] Hx. unfold typed_in in Hx. cbn [fst] in Hx. unfold exec, scale_by_schedule. cbn [sem2].
      exists [("count", (sc (c + 1), true))].
      split; [|split; reflexivity]. repeat step1. reflexivity.
  Qed.

  (** ** add_noise *)
  Section noise.
    Variables (ksplit : Z -> nat -> list Z) (normal : Z -> nat -> R) (leaf_of : nat -> nat * nat) (nv : nat).
    Definition noise_store (s : R * Z) : plants := [("count", sc (fst s)); ("rng_key", Leaf (Key (snd s)))].
    Definition noise_step (eta gamma : R) (s : R * Z) (x : tree * tree) : tree * (R * Z) :=
      let ks := ksplit (snd s) (S nv) in
      (vec av (fun i => el (fst x) i + eta / Rpower (1 + fst s) gamma * normal (nth (S (fst (leaf_of i))) ks 0%Z) (snd (leaf_of i))), (fst s + 1, nth 0 ks 0%Z)).
    Lemma noise_runs eta gamma seed : runs_as (add_noise av ksplit normal leaf_of nv eta gamma seed) noise_store (noise_step eta gamma) (0, seed).
    Proof.
      apply runs_as_intro; [cbn; repeat split; auto|fits_tac| |].
      - init_tac. unfold add_noise, zeros_up. cbn [sem2]. eexists. repeat step1. reflexivity.
      - intros fuel [c k] [u p] Hx. unfold typed_in in Hx. cbn [fst] in Hx. unfold exec, add_noise. cbn [sem2].
        exists [("count", (sc (c + 1), true)); ("rng_key", (@Leaf RealArrays (Key (nth 0 (ksplit k (S nv)) 0%Z)), true))].
        split; [|split; reflexivity]. repeat step1. do 2 f_equal. unfold noise_step. cbn [fst snd]. ext_tac.
    Qed.
  End noise.

  (** ** apply_every *)
  Definition acc_store (s : R * (nat -> R)) : plants := [("count", sc (fst s)); ("grad_acc", vec av (snd s))].
  Definition acc_step (k : nat) (s : R * (nat -> R)) (x : tree * tree) : tree * (R * (nat -> R)) :=
    let c := Rmod (fst s) (INR k) in let ga := fun i => b2r (negb (Reqb c 0)) * snd s i + el (fst x) i in
    (vec av (fun i => b2r (Reqb c (INR k - 1)) * ga i), (fst s + 1, ga)).
  Lemma apply_every_runs k : runs_as (apply_every av k) acc_store (acc_step k) (0, fun _ => 0).
  Proof.
    apply runs_as_intro; [cbn; repeat split; auto|fits_tac| |].
    - init_tac. unfold apply_every, zeros_up. cbn [sem2]. eexists. repeat step1. reflexivity.
    - intros fuel [c g] [u p] Hx. unfold typed_in in Hx. cbn [fst] in Hx. unfold exec, apply_every. cbn [sem2].
      set (g' := fun i => b2r (negb (Reqb (Rmod c (INR k)) 0)) * g i + el u i).
      exists [("grad_acc", (vec av g', true)); ("count", (sc (c + 1), true))].
      split; [|split; reflexivity]. repeat step1.
      match goal with |- context [vec av (fun i => f2 ?h (map _ [u; vec av g]))] => assert (E : vec av (fun i => f2 h (map (fun t0 => el t0 i) [u; vec av g])) = vec av g') by (unfold g'; ext_tac) end.
      rewrite E. repeat step1. do 2 f_equal. unfold acc_step. cbn [fst snd]. ext_tac.
  Qed.
End functions.
