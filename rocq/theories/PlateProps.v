(** C71: plates. *)
From Verif Require Export PlateModel InverseLinProps2.
From Coq Require Import ZArith FunctionalExtensionality.

Section Plates.
  Variables V0 W0 : Type.
  Variable z0 : W0.
  Variable add : W0 -> W0 -> W0.
  Hypothesis add_z_l : forall x, add z0 x = x.
  Hypothesis add_z_r : forall x, add x z0 = x.
  Notation V := (fam V0). Notation W := (fam W0). Notation arrV := (arr V).
  Notation fzero := (fzero W0 z0). Notation fadd := (fadd W0 add).
  (** the sum of numbers, and the sum over the instances of the axis *)
  Definition total (l : list W0) : W0 := fold_left add l z0.
  Definition over_axis (N : nat) (f : nat -> W0) : W0 := total (map f (seq 0 N)).
  Variable cord : list (ndslice V W) -> list (ndslice V W).
  Hypothesis cordp : forall l, Permutation l (cord l).

  Lemma sumw_pw ts j : sumw W fzero fadd ts j = total (map (fun t => t j) ts).
  Proof.
    unfold sumw, total. enough (X : forall (s : W), fold_left fadd ts s j = fold_left add (map (fun t => t j) ts) (s j)) by (apply (X fzero)).
    induction ts as [|t ts IH]; intros s; cbn [fold_left map]; [reflexivity|]. rewrite IH. reflexivity.
  Qed.
  Lemma asum_zero sh j : asum W fzero fadd (mk_arr sh (fun _ => fzero)) j = z0.
  Proof.
    unfold asum. cbn [a_get a_shape]. enough (X : forall l (s : W), s j = z0 -> fold_left (fun s _ => fadd s fzero) l s j = z0) by (apply X; reflexivity).
    induction l as [|i l IH]; intros s Hs; cbn [fold_left]; [exact Hs|]. apply IH. unfold PlateModel.fadd, PlateModel.fzero. rewrite Hs. apply add_z_l.
  Qed.
  Lemma ildj_zero (L : nat -> arr W) o j : (forall n av, In (AVar n av) o -> aeq (L n) (mk_arr av (fun _ => fzero))) -> ildj_term V W fzero fadd L o j = z0.
  Proof.
    intros H. unfold ildj_term. enough (X : forall (s : W), s j = z0 -> fold_left (fun s a => match a with AVar n _ => fadd s (asum W fzero fadd (L n)) | _ => s end) o s j = z0) by (apply X; reflexivity).
    induction o as [|a o IH]; intros s Hs; cbn [fold_left]; [exact Hs|]. apply IH; [intros n av Hin; apply (H n av); right; exact Hin|]. destruct a as [n av|l|av]; [|exact Hs|exact Hs]. unfold PlateModel.fadd at 1. rewrite (asum_aeq W fzero fadd _ _ (H n av (or_introl eq_refl))), asum_zero, Hs. apply add_z_l.
  Qed.

  (** C71.  log_prob of plate(f), under an axis of N instances: if it returns, then on every instance it is the sum over the
      instances j of the axis of the log-density of f on instance j (the sum of the terms of the samples of f: those of [lin]). *)
  Theorem C71_plate fuel ord N fr fr' es i cs k args ys rho L Z ts w : perm ord ->
    lin_run V W fzero fadd MLogProb fr [QPlate V W (psum W0 z0 add N) (Jx V W fr' es) i (f_out fr)] cs (k :: args) ys rho L Z [ts] -> clear_of V Z (skipn 1 (f_in fr)) ->
    log_prob V W fzero fadd cord fuel ord (Jx V W fr [QPlate V W (psum W0 z0 add N) (Jx V W fr' es) i (f_out fr)]) cs ys args = Ok w ->
    exists rho' L' Z' vi vo tss, Forall2 (den V rho) i vi /\ Forall2 (den V rho) (f_out fr) vo /\ Forall2 (den V rho') (f_in fr') vi /\ Forall2 (den V rho') (f_out fr') vo /\
      Forall2 (lin V W fzero fadd MLogProb rho' L' Z' (fun _ => False)) es tss /\
      forall inst, w inst = over_axis N (fun j => total (map (fun t => t j) (concat tss))).
  Proof.
    intros Hp HR Hz H. assert (E : w = sumw W fzero fadd (concat [ts])). { eapply C40_log_prob_exact; [exact cordp|exact Hp|exact HR|exact Hz| |exact H]. repeat constructor. }
    destruct HR as (_ & _ & _ & _ & _ & HL & HE). inversion HE as [|? ? ? ? Hq _]; subst. clear HE. cbn [lin] in Hq.
    destruct Hq as (_ & Ho & _ & rho' & L' & Z' & vi & vo & tss & Di & Do & _ & Hfi & Hfo & _ & _ & _ & _ & _ & _ & Hgo & _ & ->).
    exists rho', L', Z', vi, vo, tss. do 4 (split; [assumption|]). split; [apply F2_go, Hgo|]. intros inst. rewrite sumw_pw. cbn [concat app map]. unfold total at 1. cbn [fold_left].
    rewrite ildj_zero, add_z_l, add_z_r.
    - unfold psum, over_axis, total. f_equal. apply map_ext. intros j. apply sumw_pw.
    - intros n av Hin. apply (HL n av Hin). rewrite Forall_forall in Ho. exact (Ho _ Hin).
  Qed.

  (** The keys: in every execution of plate(f) (with arguments vi and outputs vo), f runs, with the same outputs, on the same arguments
      except for the key, which on instance j is fold_in(key, j). *)
  Theorem C71_keys m N num fold k0 ax kf ins outs eqns rho i o : eqn_holds V W m rho (QPlate V W (psum W0 z0 add N) (make_plate V0 W0 N num fold k0 ax kf ins outs eqns) i o) ->
    exists key vi vo rho' key', Forall2 (den V rho) i (key :: vi) /\ Forall2 (den V rho) o vo /\ den V rho' (AVar kf []) key' /\ Forall2 (den V rho') ins vi /\ Forall2 (den V rho') outs vo /\
      all_of (eqn_holds V W m rho') eqns /\ forall j, a_get key' [] j = fold (a_get key [] j) (num j).
  Proof.
    unfold make_plate. cbn [eqn_holds f_const f_in f_out]. intros (vi & vo & Hi & Ho & rho' & _ & Hfi & Hfo & (vi1 & vo1 & Hi1 & Ho1 & [F1 _]) & (vi2 & vo2 & Hi2 & Ho2 & [F2 _]) & Hall).
    inversion Hfi as [|? key ? vi' Dk Hins]; subst. inversion Hi1; subst. inversion Ho1 as [|? va ? ? Da Ho1']; subst. inversion Ho1'; subst. inversion F1 as [|? ? ? ? Fa _]; subst.
    inversion Hi2 as [|? k1 ? ? Dk1 Hi2']; subst. inversion Hi2' as [|? a1 ? ? Da1 Hi2'']; subst. inversion Hi2''; subst. inversion Ho2 as [|? kv ? ? Dkv Ho2']; subst. inversion Ho2'; subst. cbn [den] in Dk1, Da1. rewrite <- (proj2 Dk1), <- (proj2 Da1) in F2. inversion F2 as [|? ? ? ? Fk _]; subst.
    exists key, vi', vo, rho', kv. split; [exact Hi|]. split; [exact Ho|]. split; [exact Dkv|]. split; [exact Hins|]. split; [exact Hfo|]. split; [exact Hall|]. intros j.
    cbn [den] in *. destruct Dk as [[S1 G1] T1], Dk1 as [[S2 G2] T2], Da as [[S3 G3] T3], Da1 as [[S4 G4] T4], Dkv as [[S5 G5] T5], Fa as [S6 G6], Fk as [S7 G7].
    cbn [a_shape] in *. assert (B : inb ([] : list nat) []) by constructor.
    assert (EK : a_get k1 [] = a_get key []). { rewrite <- G2 by (rewrite S2, <- T2; exact B). apply G1. rewrite S1, <- T1. exact B. }
    assert (EA : a_get a1 [] = (fun j => num j)). { rewrite <- G4 by (rewrite S4, <- T4; exact B). rewrite G3 by (rewrite S3, <- T3; exact B). symmetry. apply G6. exact B. }
    rewrite <- (G7 []) by (rewrite S7, <- T5; exact B). cbn [a_get]. unfold fam in *. rewrite EK, EA. reflexivity.
  Qed.
End Plates.

(** *** A plate of a named variable, as in plate(f)(key, m) with f = lambda key, m: random_variable(Normal(m))(key) *)
Section One.
  Variables (V0 W0 : Type) (z0 : W0) (add : W0 -> W0 -> W0).
  Hypothesis add_z_l : forall x, add z0 x = x.
  Hypothesis add_z_r : forall x, add x z0 = x.
  Notation V := (fam V0). Notation W := (fam W0). Notation arrV := (arr V).
  Notation fzero := (fzero W0 z0). Notation fadd := (fadd W0 add).
  Variable cord : list (ndslice V W) -> list (ndslice V W).
  Hypothesis cordp : forall l, Permutation l (cord l).
  Variables (num : nat -> V0) (fold : V0 -> V0 -> V0).
  (** the density of the distribution, of one instance *)
  Variable lp0 : arr V0 -> arr V0 -> W0.
  Hypothesis lp0_proper : forall a a' b b', aeq a a' -> aeq b b' -> lp0 a b = lp0 a' b'.
  Definition inst (j : nat) (a : arrV) : arr V0 := map_arr (fun f => f j) a.
  Definition lpf (ps xs : list arrV) : W := fun j => match ps, xs with [m], [x] => lp0 (inst j m) (inst j x) | _, _ => z0 end.
  Variables (shm shx : list nat) (code : list (qn V W)).
  Definition v (n : nat) (sh : list nat) : atom (list nat) arrV := AVar n sh.
  Definition Jf1 (N : nat) : jx V W := make_plate V0 W0 N num fold 0 3 4 [v 1 shm] [v 2 shx]
    [QSample V W lpf (Jx V W (mk_frame [] [v 0 []; v 1 shm] [v 2 shx]) code) [v 4 []; v 1 shm] [v 2 shx]].
  Definition Jone (N : nat) : jx V W := Jx V W (mk_frame [] [v 0 []; v 1 shm] [v 2 shx]) [QPlate V W (psum W0 z0 add N) (Jf1 N) [v 0 []; v 1 shm] [v 2 shx]].
  (** arbitrary values of the key, the parameter and the sample *)
  Variables (key m x : arrV).
  Hypothesis key_sh : a_shape key = []. Hypothesis m_sh : a_shape m = shm. Hypothesis x_sh : a_shape x = shx.
  Definition kv : arrV := mk_arr [] (fun _ j => fold (a_get key [] j) (num j)).
  Definition rho1 (n : nat) : arrV := match n with 0 => key | 1 => m | 2 => x | 3 => mk_arr [] (fun _ j => num j) | _ => kv end.
  Definition L1 (_ : nat) : arr W := mk_arr shx (fun _ => fzero).
  Definition Z1 (n : nat) : Prop := n = 2.
  Lemma lpf_proper : proper V (fun f g => forall l l', Forall2 aeq l l' -> f l = g l') lpf.
  Proof.
    intros l l' H n n' H'. apply functional_extensionality. intros j. unfold lpf.
    inversion H as [|a b ? ? E H1]; subst; [reflexivity|]. inversion H1; subst; [|reflexivity]. inversion H' as [|c d ? ? E' H2]; subst; [reflexivity|]. inversion H2; subst; [|reflexivity].
    apply lp0_proper; apply InverseProofs.map_aeq; assumption.
  Qed.
  Lemma den1 n : den V rho1 (v n (a_shape (rho1 n))) (rho1 n).
  Proof. split; [apply InverseProofs.aeq_refl|reflexivity]. Qed.
  Lemma kv_sh : a_shape kv = [].
  Proof. reflexivity. Qed.
  Lemma d0 : den V rho1 (v 0 []) key. Proof. pose proof (den1 0) as D. cbn [rho1] in D. rewrite key_sh in D. exact D. Qed.
  Lemma d1 : den V rho1 (v 1 shm) m. Proof. pose proof (den1 1) as D. cbn [rho1] in D. rewrite m_sh in D. exact D. Qed.
  Lemma d2 : den V rho1 (v 2 shx) x. Proof. pose proof (den1 2) as D. cbn [rho1] in D. rewrite x_sh in D. exact D. Qed.
  Lemma d4 : den V rho1 (v 4 []) kv. Proof. pose proof (den1 4) as D. cbn [rho1] in D. rewrite kv_sh in D. exact D. Qed.
  Ltac dens := repeat (apply Forall2_cons; [first [exact d0|exact d1|exact d2|exact d4]|]); apply Forall2_nil.
  Definition sample_terms : list W := [lpf [m] [x]; ildj_term V W fzero fadd L1 [v 2 shx]].
  Lemma lin_one N : lin_run V W fzero fadd MLogProb (mk_frame [] [v 0 []; v 1 shm] [v 2 shx]) [QPlate V W (psum W0 z0 add N) (Jf1 N) [v 0 []; v 1 shm] [v 2 shx]] [] [key; m] [x] rho1 L1 Z1
    [[psum W0 z0 add N (sumw W fzero fadd (concat [[]; []; sample_terms])); ildj_term V W fzero fadd L1 [v 2 shx]]].
  Proof.
    split; [constructor|]. split; [dens|]. split; [dens|]. split; [constructor|]. split; [split|split].
    - intros a b q q' n Ha Hb. destruct a as [|[]]; try discriminate Ha. destruct b as [|[]]; try discriminate Hb. reflexivity.
    - intros q n av [<-|[]] [].
    - intros n av [E|[]] _. injection E as <- <-. apply InverseProofs.aeq_refl.
    - apply Forall2_cons; [|apply Forall2_nil].
      assert (E1 : eqn_holds V W MLogProb rho1 (QPrim V W (axis_index V0 W0 num) [] [AVar 3 []])).
      { exists [], [rho1 3]. split; [constructor|]. split; [repeat constructor|]. split; [repeat constructor|]. intros l l' _. repeat constructor. }
      assert (E2 : eqn_holds V W MLogProb rho1 (QPrim V W (fold_in V0 W0 fold) [AVar 0 []; AVar 3 []] [AVar 4 []])).
      { exists [key; rho1 3], [kv]. split; [apply Forall2_cons; [exact d0|]; apply Forall2_cons; [|constructor]; split; [apply InverseProofs.aeq_refl|reflexivity]|]. split; [apply Forall2_cons; [exact d4|constructor]|]. split; [cbn [rho1 a_shape]; rewrite key_sh; apply Forall2_cons; [apply InverseProofs.aeq_refl|constructor]|].
        intros l l' H. inversion H as [|a b ? ? Ea H1]; subst; [constructor|]. inversion H1 as [|c d ? ? Ec H2]; subst; [constructor|]. inversion H2; subst; [|constructor].
        destruct Ea as [Sa Ga], Ec as [Sc Gc]. rewrite <- Sa, <- Sc. destruct (a_shape a) as [|n sh] eqn:Xa; [|constructor]. destruct (a_shape c) as [|n' sh'] eqn:Xc; [|constructor].
        apply Forall2_cons; [|constructor]. split; [reflexivity|]. intros i _. cbn [a_get]. rewrite (Ga []), (Gc []) by constructor. reflexivity. }
      assert (E3 : eqn_holds V W MLogProb rho1 (QSample V W lpf (Jx V W (mk_frame [] [v 0 []; v 1 shm] [v 2 shx]) code) [v 4 []; v 1 shm] [v 2 shx])).
      { exists [], [kv; m], [x]. split; [dens|]. split; [dens|]. split; [reflexivity|exact I]. }
      cbn [lin Jf1 make_plate f_in f_out f_const]. split.
      { exists [key; m], [x]. split; [dens|]. split; [dens|]. exists rho1. split; [reflexivity|]. split; [dens|]. split; [dens|]. cbn [all_of]. auto. }
      split; [repeat constructor|]. split; [repeat constructor; discriminate|].
      exists rho1, L1, Z1, [key; m], [x], [[]; []; sample_terms]. split; [dens|]. split; [dens|]. split; [reflexivity|]. split; [dens|]. split; [dens|].
      split; [repeat constructor; discriminate|]. split; [repeat constructor; intros []|]. split; [split|].
      { intros a b q q' n Ha Hb. destruct a as [|[|[|[]]]]; try discriminate Ha; injection Ha as <-; cbn [consumes]; try contradiction; intros (_ & _ & a1 & [<-|[]] & Hf); discriminate Hf. }
      { intros q n av [<-|[<-|[<-|[]]]]; cbn [consumes]; try contradiction; intros (_ & _ & a1 & [<-|[]] & Hf); discriminate Hf. }
      split; [repeat constructor|]. split; [apply Forall2_cons; [|constructor]; intros _; split; [reflexivity|]; exists 2, shx; split; reflexivity|]. split; [repeat constructor|]. split.
      { split; [|split; [|split; [|exact I]]].
        - split; [exact E1|]. split; [reflexivity|]. left. split; repeat constructor; discriminate.
        - split; [exact E2|]. split; [reflexivity|]. left. split; repeat constructor; discriminate.
        - split; [exact E3|]. split; [reflexivity|]. split; [repeat constructor|]. split; [exact lpf_proper|]. exists [kv; m], [x]. split; [dens|]. split; [dens|]. reflexivity. }
      split; [|reflexivity]. intros n av [E|[]]. injection E as <- <-. eapply pin_sample; [right; right; left; reflexivity|]. exists shx. left. reflexivity.
  Qed.
  (** log_prob(plate(f))(x, m) on every instance is the sum over the instances j of the density of x_j given m_j *)
  Theorem C71_plate_of_sample fuel ord N w : perm ord -> log_prob V W fzero fadd cord fuel ord (Jone N) [] [x] [m] = Ok w ->
    forall i, w i = over_axis W0 z0 add N (fun j => lp0 (inst j m) (inst j x)).
  Proof.
    intros Hp H i. pose proof (lin_one N) as HR. assert (E : w = sumw W fzero fadd (concat [[psum W0 z0 add N (sumw W fzero fadd (concat [[]; []; sample_terms])); ildj_term V W fzero fadd L1 [v 2 shx]]])).
    { eapply C40_log_prob_exact; [exact cordp|exact Hp|exact HR|repeat constructor; discriminate|repeat constructor|exact H]. }
    assert (ZL : forall j, ildj_term V W fzero fadd L1 [v 2 shx] j = z0). { intros j. apply (ildj_zero V0 W0 z0 add add_z_l). intros n av [F|[]]. injection F as <- <-. apply InverseProofs.aeq_refl. }
    rewrite E, (sumw_pw W0 z0 add). cbn [concat app map]. unfold total. cbn [fold_left]. rewrite ZL, add_z_l, add_z_r. unfold psum, over_axis, total. f_equal. apply map_ext. intros j. rewrite (sumw_pw W0 z0 add). unfold sample_terms. cbn [concat app map]. unfold total. cbn [fold_left]. rewrite ZL, add_z_l, add_z_r. reflexivity.
  Qed.
End One.

(** *** Three instances, x = [4, 6] on instance 0, [5, 7] on instance 1, [6, 8] on instance 2; m = 0 *)
Definition lpz (m x : arr Z) : Z := match a_shape m, a_shape x with [1], [2] => let d := (fun i => a_get x [i] - a_get m [0%nat])%Z in (- (d 0%nat * d 0%nat) - d 1%nat * d 1%nat)%Z | _, _ => 0%Z end.
Definition xz : arr (fam Z) := mk_arr [2] (fun i j => 4 + 2 * Z.of_nat (hd 0%nat i) + Z.of_nat j)%Z.
Definition mz : arr (fam Z) := mk_arr [1] (fun _ _ => 0%Z).
Theorem C71_example : exists w, log_prob (fam Z) (fam Z) (fzero Z 0%Z) (fadd Z Z.add) (fun l => l) 20 (fun _ l => l) (Jone Z Z 0%Z Z.add Z.of_nat Z.add lpz [1] [2] [] 3) [] [xz] [mz] = Ok w /\
  w 0 = (-226)%Z /\ w 1 = (-226)%Z /\ w 2 = (-226)%Z /\ over_axis Z 0%Z Z.add 3 (fun j => lpz (inst Z j mz) (inst Z j xz)) = (-226)%Z.
Proof. eexists. split; [vm_compute; reflexivity|]. repeat split; vm_compute; reflexivity. Qed.
Print Assumptions C71_plate.
Print Assumptions C71_keys.
Print Assumptions C71_plate_of_sample.
