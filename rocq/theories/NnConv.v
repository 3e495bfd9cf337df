(** C72: what the convolutions compute. *)
From Verif Require Import NnPool.
From Verif Require Import NnLayers.
From Verif Require Import NnTotal NnMain NnShape NnProofs NnBatch.
Open Scope string_scope.
Open Scope list_scope.
Open Scope nat_scope.

(** ** Specification *)
(** Conv: windows as in NnPool, outside the image there are zeros; offset u of window i is element a of the image.
    Deconv: s - 1 holes between the elements of the image, [tfront] holes in front; window i starts at i *)
Definition tfront (p : padding) (k s : nat) : nat := match p with VALID => k - 1 | SAME => if k - 1 <? s then k - 1 else (k + s - 1) / 2 end.
Definition meets (transpose : bool) (p : padding) (d k s i u a : nat) : bool := if transpose then i + u =? a * s + tfront p k s else i * s + u =? a + front p d k s.
Definition outputs (transpose : bool) (p : padding) (d k s i : nat) : Prop := if transpose then i < d * s + match p with VALID => k - s | SAME => 0 end else starts p d k s i.
(** the products of the elements of the image and of the kernel that meet in window (i, j), summed over channels and offsets *)
Definition correlation (transpose : bool) (p : padding) (s1 s2 h w fh fw c : nat) (x K : arr) (i j o : nat) : R :=
  sum_to fh (fun u => sum_to fw (fun v => sum_to c (fun ch => sum_to h (fun a => sum_to w (fun b =>
    if meets transpose p h fh s1 i u a && meets transpose p w fw s2 j v b then (el x [a; b; ch] * el K [u; v; ch; o])%R else 0%R))))).

(** ** Proofs *)
Lemma sum_ext n f g : (forall i, i < n -> f i = g i) -> sum_to n f = sum_to n g.
Proof. intros H. unfold sum_to. f_equal. apply map_ext_in. intros i Hi. apply in_seq in Hi. apply H. lia. Qed.
Lemma sum_zero n : sum_to n (fun _ => 0%R) = 0%R.
Proof. unfold sum_to. induction (seq 0 n) as [|x l IH]; [reflexivity|]. cbn [map]. rewrite rsum_cons, IH. lra. Qed.
Lemma sum_S n f : sum_to (S n) f = (sum_to n f + f n)%R.
Proof. unfold sum_to. rewrite seq_S, map_app, rsum_app. cbn. lra. Qed.
Lemma sum_indices n s (f : list nat -> R) : rsum (map f (indices (n :: s))) = sum_to n (fun i => rsum (map (fun ix => f (i :: ix)) (indices s))).
Proof.
  cbn [indices]. unfold sum_to. induction (seq 0 n) as [|i l IH]; [reflexivity|]. cbn [flat_map map]. rewrite map_app, rsum_app, rsum_cons, IH, map_map. reflexivity.
Qed.
Lemma sum_point n (R : nat -> bool) g (o : option nat) : (forall a, o = Some a -> a < n) -> (forall a, a < n -> R a = true <-> o = Some a) ->
  sum_to n (fun a => if R a then g a else 0%R) = match o with Some a => g a | None => 0%R end.
Proof.
  intros Ho HR. destruct o as [a|].
  - specialize (Ho a eq_refl). assert (G : forall m, m <= n -> sum_to m (fun a => if R a then g a else 0%R) = if a <? m then g a else 0%R).
    { induction m as [|m IH]; intros Hm; [reflexivity|]. rewrite sum_S, IH by lia. specialize (HR m ltac:(lia)). destruct (Nat.ltb_spec a m), (Nat.ltb_spec a (S m)); try lia.
      - destruct (R m); [destruct HR as [HR _]; specialize (HR eq_refl); injection HR as HR; lia|lra].
      - assert (a = m) by lia. subst m. rewrite (proj2 HR eq_refl). lra.
      - destruct (R m); [destruct HR as [HR _]; specialize (HR eq_refl); injection HR as HR; lia|lra]. }
    rewrite G by lia. destruct (Nat.ltb_spec a n); [reflexivity|lia].
  - rewrite (sum_ext _ _ (fun _ => 0%R)); [apply sum_zero|]. intros a Ha. specialize (HR a Ha). destruct (R a); [destruct HR as [HR _]; specialize (HR eq_refl); discriminate|reflexivity].
Qed.
Definition at1 (i off s d dl : nat) (p : Z * Z) : option nat :=
  let q := (Z.of_nat (i * s + off) - fst p)%Z in
  if ((0 <=? q)%Z && (q mod Z.of_nat dl =? 0)%Z && (q / Z.of_nat dl <? Z.of_nat d)%Z)%bool then Some (Z.to_nat (q / Z.of_nat dl)) else None.
Lemma at1_spec i off s d dl p lo : 0 < dl -> fst p = Z.of_nat lo -> (forall a, at1 i off s d dl p = Some a -> a < d) /\ forall a, a < d -> (i * s + off =? a * dl + lo) = true <-> at1 i off s d dl p = Some a.
Proof.
  intros Hdl Hp. unfold at1. rewrite Hp. cbv zeta. set (q := (Z.of_nat (i * s + off) - Z.of_nat lo)%Z).
  pose proof (Z.div_mod q (Z.of_nat dl) ltac:(lia)) as Hq.
  destruct (Z.leb_spec 0 q) as [H0|H0]; cbn [andb].
  2: { split; [discriminate|]. intros a Ha. split; [intros E; apply Nat.eqb_eq in E; nia|discriminate]. }
  pose proof (Z.div_pos q (Z.of_nat dl) H0 ltac:(lia)) as Hpos.
  destruct (Z.eqb_spec (q mod Z.of_nat dl) 0) as [H1|H1]; cbn [andb].
  2: { split; [discriminate|]. intros a Ha. split; [|discriminate]. intros E. apply Nat.eqb_eq in E. exfalso. apply H1. replace q with (Z.of_nat a * Z.of_nat dl)%Z by (unfold q; nia). apply Z.mod_mul. lia. }
  destruct (Z.ltb_spec (q / Z.of_nat dl) (Z.of_nat d)) as [H2|H2].
  - split; [intros a [= <-]; lia|]. intros a Ha. split.
    + intros E. apply Nat.eqb_eq in E. f_equal. assert (Eq : q = (Z.of_nat a * Z.of_nat dl)%Z) by (unfold q; nia). rewrite Eq, Z.div_mul by lia. lia.
    + intros [= <-]. apply Nat.eqb_eq. apply Nat2Z.inj. set (t := (q / Z.of_nat dl)%Z) in *. rewrite Nat2Z.inj_add, (Nat2Z.inj_add (Z.to_nat t * dl)), (Nat2Z.inj_mul (Z.to_nat t)), Z2Nat.id by exact Hpos. unfold q in *. nia.
  - split; [discriminate|]. intros a Ha. split; [|discriminate]. intros E. apply Nat.eqb_eq in E. exfalso. assert (Eq : q = (Z.of_nat a * Z.of_nat dl)%Z) by (unfold q; nia). rewrite Eq, Z.div_mul in H2 by lia. lia.
Qed.
Lemma conv2d_val x K n h w c fh fw co st ph pw dil l1 l2 y : sh x = [n; h; w; c] -> sh K = [fh; fw; c; co] -> fst ph = Z.of_nat l1 -> fst pw = Z.of_nat l2 ->
  conv2d x K st ph pw dil = inl y -> exists oh ow, window_dim (dilate h (fst dil)) fh (fst st) ph = inl oh /\ window_dim (dilate w (snd dil)) fw (snd st) pw = inl ow /\ sh y = [n; oh; ow; co] /\
  forall b i j o, el y [b; i; j; o] = sum_to fh (fun u => sum_to fw (fun v => sum_to c (fun ch => sum_to h (fun a => sum_to w (fun d =>
    if (i * fst st + u =? a * fst dil + l1) && (j * snd st + v =? d * snd dil + l2) then (el x [b; a; d; ch] * el K [u; v; ch; o])%R else 0%R))))).
Proof.
  intros Hx HK H1 H2 H. unfold conv2d in H. rewrite Hx, HK, Nat.eqb_refl in H. destruct (Nat.eqb_spec (fst dil) 0) as [|D1]; [discriminate|]. destruct (Nat.eqb_spec (snd dil) 0) as [|D2]; [discriminate|]. cbn [negb orb] in H.
  apply nb_inl in H as (oh & W1 & H). apply nb_inl in H as (ow & W2 & H). exists oh, ow. split; [exact W1|]. split; [exact W2|]. injection H as <-. split; [reflexivity|]. intros b i j o. cbn [el].
  match goal with |- rsum (map ?f ?l) = _ => change l with (indices [fh; fw; c]) end. rewrite sum_indices. apply sum_ext. intros u _. rewrite sum_indices. apply sum_ext. intros v _. rewrite sum_indices. apply sum_ext. intros ch _. cbn [indices map]. rewrite rsum_cons. cbn [rsum fold_right]. rewrite Rplus_0_r.
  destruct (at1_spec i u (fst st) h (fst dil) ph l1 ltac:(lia) H1) as [A1 A2]. destruct (at1_spec j v (snd st) w (snd dil) pw l2 ltac:(lia) H2) as [B1 B2].
  change (match at1 i u (fst st) h (fst dil) ph with Some y => match at1 j v (snd st) w (snd dil) pw with Some z => (el x [b; y; z; ch] * el K [u; v; ch; o])%R | None => 0%R end | None => 0%R end =
    sum_to h (fun a => sum_to w (fun d => if (i * fst st + u =? a * fst dil + l1) && (j * snd st + v =? d * snd dil + l2) then (el x [b; a; d; ch] * el K [u; v; ch; o])%R else 0%R))).
  rewrite (sum_ext _ _ (fun a => if i * fst st + u =? a * fst dil + l1 then match at1 j v (snd st) w (snd dil) pw with Some z => (el x [b; a; z; ch] * el K [u; v; ch; o])%R | None => 0%R end else 0%R)).
  - symmetry. apply (sum_point h (fun a => i * fst st + u =? a * fst dil + l1) (fun a => match at1 j v (snd st) w (snd dil) pw with Some z => (el x [b; a; z; ch] * el K [u; v; ch; o])%R | None => 0%R end)); assumption.
  - intros a Ha. destruct (i * fst st + u =? a * fst dil + l1); cbn [andb]; [|apply sum_zero]. apply (sum_point w (fun d => j * snd st + v =? d * snd dil + l2) (fun z => (el x [b; a; z; ch] * el K [u; v; ch; o])%R)); assumption.
Qed.
Lemma tfront_pad p k s : 0 < k -> 0 < s -> fst (transpose_pads (Z.of_nat k) (Z.of_nat s) p) = Z.of_nat (tfront p k s).
Proof.
  intros Hk Hs. destruct p; cbn [transpose_pads tfront fst].
  - lia.
  - destruct (Nat.ltb_spec (k - 1) s); destruct (Z.gtb_spec (Z.of_nat s) (Z.of_nat k - 1)); try lia.
    rewrite Nat2Z.inj_div, Nat2Z.inj_sub, Nat2Z.inj_add by lia. change (Z.of_nat 1) with 1%Z. change (Z.of_nat 2) with 2%Z.
    set (a := (Z.of_nat k + Z.of_nat s)%Z). replace (- (a - 2))%Z with (2 - a)%Z by lia.
    pose proof (Z.div_mod (2 - a) 2 ltac:(lia)). pose proof (Z.mod_pos_bound (2 - a) 2 ltac:(lia)). pose proof (Z.div_mod (a - 1) 2 ltac:(lia)). pose proof (Z.mod_pos_bound (a - 1) 2 ltac:(lia)). lia.
Qed.
Lemma dilate_one d : dilate d 1 = d.
Proof. destruct d; cbn; lia. Qed.
Lemma outputs_conv p d k s n i : 0 < d -> 0 < k -> 0 < s -> window_dim (dilate d 1) k s (pad_dim p (Z.of_nat d) (Z.of_nat k) (Z.of_nat s)) = inl n -> i < n <-> outputs false p d k s i.
Proof. intros Hd Hk Hs H. rewrite dilate_one in H. cbn [outputs]. eapply starts_fit; eassumption. Qed.
Lemma outputs_deconv p d k s n i : 0 < d -> 0 < k -> 0 < s -> window_dim (dilate d s) k 1 (transpose_pads (Z.of_nat k) (Z.of_nat s) p) = inl n -> i < n <-> outputs true p d k s i.
Proof.
  intros Hd Hk Hs H. apply conv_out_transpose in H; [|lia|exact Hs]. cbn [outputs]. destruct p; cbn [transpose_pads fst snd] in H; [|destruct (Z.gtb_spec (Z.of_nat s) (Z.of_nat k - 1))]; nia.
Qed.

(** Conv without padding: the elements of the image that lie under the kernel *)
Theorem C72_valid s1 s2 h w fh fw c x K i j o : 0 < s1 -> 0 < s2 -> outputs false VALID h fh s1 i -> outputs false VALID w fw s2 j ->
  correlation false VALID s1 s2 h w fh fw c x K i j o = sum_to fh (fun u => sum_to fw (fun v => sum_to c (fun ch => (el x [(i * s1 + u)%nat; (j * s2 + v)%nat; ch] * el K [u; v; ch; o])%R))).
Proof.
  intros H1 H2 Hi Hj. cbn [outputs starts] in Hi, Hj. unfold correlation. apply sum_ext. intros u Hu. apply sum_ext. intros v Hv. apply sum_ext. intros ch Hch. cbn [meets front].
  rewrite (sum_ext _ _ (fun a => if i * s1 + u =? a + 0 then (el x [a; (j * s2 + v)%nat; ch] * el K [u; v; ch; o])%R else 0%R)).
  - rewrite (sum_point h (fun a => i * s1 + u =? a + 0) (fun a => (el x [a; (j * s2 + v)%nat; ch] * el K [u; v; ch; o])%R) (Some (i * s1 + u))); [reflexivity|intros a [= <-]; lia|].
    intros a Ha. rewrite Nat.eqb_eq. split; [intros E; f_equal; lia|intros [= E]; lia].
  - intros a Ha. destruct (i * s1 + u =? a + 0); cbn [andb]; [|apply sum_zero].
    rewrite (sum_point w (fun b => j * s2 + v =? b + 0) (fun b => (el x [a; b; ch] * el K [u; v; ch; o])%R) (Some (j * s2 + v))); [reflexivity|intros b [= <-]; lia|].
    intros b Hb. rewrite Nat.eqb_eq. split; [intros E; f_equal; lia|intros [= E]; lia].
Qed.
Lemma sum_add n f g : sum_to n (fun i => f i + g i)%R = (sum_to n f + sum_to n g)%R.
Proof. induction n as [|n IH]; [cbn; lra|]. rewrite !sum_S, IH. lra. Qed.
Lemma sum_scale n c f : sum_to n (fun i => c * f i)%R = (c * sum_to n f)%R.
Proof. induction n as [|n IH]; [cbn; lra|]. rewrite !sum_S, IH. lra. Qed.
Theorem C72_correlation_linear tr p s1 s2 h w fh fw c (x x' z : arr) K i j o r t : (forall ix, el z ix = r * el x ix + t * el x' ix)%R ->
  correlation tr p s1 s2 h w fh fw c z K i j o = (r * correlation tr p s1 s2 h w fh fw c x K i j o + t * correlation tr p s1 s2 h w fh fw c x' K i j o)%R.
Proof.
  intros Hz. unfold correlation. do 5 (rewrite <- !sum_scale, <- sum_add; apply sum_ext; intros ? _). rewrite Hz. destruct (_ && _); ring.
Qed.
Section nn.
Context {PR : Prng}.
Lemma conv_params tr oc fh fw st pd ki bi b h w c p : inst (ConvLayer tr (Z.of_nat oc) fh fw st pd ki bi b) [zshape [h; w; c]] p ->
  exists K bias, l_params p = PNode "ConvParams" [PLeaf K; bias] /\ sh K = [fh; fw; c; oc] /\ l_info p = IConv (mk_ci (conv_strides st) pd b) /\
    (if b then exists B, bias = PLeaf B /\ sh B = (if oc =? 1 then [] else [oc]) else True).
Proof.
  intros (k0 & p0 & Hi & F1 & _ & F3). cbn [c_init ConvLayer] in Hi. unfold conv_init in Hi. cbn [spec1] in Hi. apply nb_inl in Hi as ([[os ks] bs] & Hinfo & Hi). cbn [fst snd] in Hi. apply nb_inl in Hi as (kernel & Hk & Hi). apply create_ok in Hk.
  unfold conv_info, zshape in Hinfo. cbn [map] in Hinfo. destruct (conv_strides st) as [s1 s2] eqn:Est. injection Hinfo as <- <- <-.
  assert (Hform : exists bias, l_params p0 = PNode "ConvParams" [PLeaf kernel; bias] /\ l_info p0 = IConv (mk_ci (s1, s2) pd b) /\ (if b then exists bb, bias = PLeaf bb /\ zshape (sh bb) = dropwhile1 [1; 1; 1; Z.of_nat oc]%Z else True)).
  { destruct b; [apply nb_inl in Hi as (bb & Hb & Hi); injection Hi as <-; apply create_ok in Hb; eexists; split; [reflexivity|]; split; [reflexivity|]; eauto|injection Hi as <-; eexists; repeat split]. }
  destruct Hform as (bias & Ep & Einfo & Hbias). rewrite Ep in F1. apply form_pair in F1 as (t1 & bias' & Ep' & F1 & F2). apply form_leaf in F1 as (kernel' & -> & K1).
  exists kernel', bias'. split; [exact Ep'|]. split; [apply zshape_inj; rewrite K1, Hk; reflexivity|]. split; [congruence|].
  destruct b; [|exact I]. destruct Hbias as (bb & -> & Eb). apply form_leaf in F2 as (B & -> & SB). exists B. split; [reflexivity|]. rewrite SB. cbn in Eb.
  destruct (Nat.eqb_spec oc 1) as [->|Hne]; [cbn in Eb; destruct (sh bb); [reflexivity|discriminate]|]. destruct (Z.eqb_spec (Z.of_nat oc) 1); [lia|]. apply zshape_inj. exact Eb.
Qed.
(** the layer adds to every output channel the correlation of the image with the kernel, and its bias *)
Theorem C72_convolution tr oc fh fw st pd ki bi b h w c p name rng kw x : let C := ConvLayer tr (Z.of_nat oc) fh fw st pd ki bi b in let (s1, s2) := conv_strides st in
  inst C [zshape [h; w; c]] p -> sh x = [h; w; c] -> 0 < h -> 0 < w -> 0 < fh -> 0 < fw -> 0 < s1 -> 0 < s2 ->
  exists K bias y oh ow, l_params p = PNode "ConvParams" [PLeaf K; bias] /\ sh K = [fh; fw; c; oc] /\ maps C p name rng kw x y /\ sh y = [oh; ow; oc] /\
    (forall i, i < oh <-> outputs tr pd h fh s1 i) /\ (forall j, j < ow <-> outputs tr pd w fw s2 j) /\
    forall i j o, i < oh -> j < ow -> o < oc -> el y [i; j; o] = (correlation tr pd s1 s2 h w fh fw c x K i j o + if b then match bias with PLeaf B => el B (if oc =? 1 then [] else [o]) | _ => 0 end else 0)%R.
Proof.
  intros C. destruct (conv_strides st) as [s1 s2] eqn:Est. intros Hi Hx Hh Hw Hfh Hfw Hs1 Hs2. destruct (conv_params _ _ _ _ _ _ _ _ _ _ _ _ _ Hi) as (K & bias & Ep & SK & Ei & Hb). rewrite Est in Ei. exists K, bias.
  assert (Hx1 : sh (newaxis x) = [1; h; w; c]) by (cbn; now rewrite Hx).
  set (r := if tr then conv2d (newaxis x) K (1, 1) (transpose_pads (Z.of_nat fh) (Z.of_nat s1) pd) (transpose_pads (Z.of_nat fw) (Z.of_nat s2) pd) (s1, s2)
     else conv2d (newaxis x) K (s1, s2) (pad_dim pd (Z.of_nat h) (Z.of_nat fh) (Z.of_nat s1)) (pad_dim pd (Z.of_nat w) (Z.of_nat fw) (Z.of_nat s2)) (1, 1)).
  assert (Hr : exists y oh ow, r = inl y /\ sh y = [1; oh; ow; oc] /\ (forall i, i < oh <-> outputs tr pd h fh s1 i) /\ (forall j, j < ow <-> outputs tr pd w fw s2 j) /\
     forall i j o, el y [0; i; j; o] = correlation tr pd s1 s2 h w fh fw c x K i j o).
  { unfold r. destruct tr.
    - destruct (conv2d_total (newaxis x) K 1 h w c fh fw oc (1, 1) (transpose_pads (Z.of_nat fh) (Z.of_nat s1) pd) (transpose_pads (Z.of_nat fw) (Z.of_nat s2) pd) (s1, s2)) as (y & oh & ow & E & _); cbn [fst snd]; auto using tpads_sum. pose proof E as E'.
      apply (conv2d_val _ _ 1 h w c fh fw oc _ _ _ _ (tfront pd fh s1) (tfront pd fw s2)) in E' as (oh' & ow' & W1 & W2 & Sy & V); auto using tfront_pad. cbn [fst snd] in *. exists y, oh', ow'. split; [exact E|]. split; [exact Sy|].
      split; [intros i; eapply outputs_deconv; eassumption|]. split; [intros i; eapply outputs_deconv; eassumption|]. intros i j o. rewrite V. unfold correlation. cbn [meets]. rewrite !Nat.mul_1_r. reflexivity.
    - destruct (conv2d_total (newaxis x) K 1 h w c fh fw oc (s1, s2) (pad_dim pd (Z.of_nat h) (Z.of_nat fh) (Z.of_nat s1)) (pad_dim pd (Z.of_nat w) (Z.of_nat fw) (Z.of_nat s2)) (1, 1)) as (y & oh & ow & E & _); cbn [fst snd]; auto using pad_sum. pose proof E as E'.
      apply (conv2d_val _ _ 1 h w c fh fw oc _ _ _ _ (front pd h fh s1) (front pd w fw s2)) in E' as (oh' & ow' & W1 & W2 & Sy & V); auto using front_pad. cbn [fst snd] in *. exists y, oh', ow'. split; [exact E|]. split; [exact Sy|].
      split; [intros i; eapply outputs_conv; eassumption|]. split; [intros i; eapply outputs_conv; eassumption|]. intros i j o. rewrite V. unfold correlation. cbn [meets].
      apply sum_ext. intros u _. apply sum_ext. intros v _. apply sum_ext. intros ch _. apply sum_ext. intros a _. apply sum_ext. intros d _. rewrite !Nat.mul_1_r. reflexivity. }
  destruct Hr as (y & oh & ow & Er & Sy & O1 & O2 & V).
  assert (Hz : exists z, (if b then match bias with PLeaf B => zip_arr Rplus y B | PNode _ _ => inr NType end else inl y) = inl z /\ sh z = [1; oh; ow; oc] /\
     forall i j o, i < oh -> j < ow -> o < oc -> el z [0; i; j; o] = (correlation tr pd s1 s2 h w fh fw c x K i j o + if b then match bias with PLeaf B => el B (if oc =? 1 then [] else [o]) | _ => 0 end else 0)%R).
  { destruct b; [|exists y; split; [reflexivity|]; split; [exact Sy|]; intros; rewrite V; lra]. destruct Hb as (B & -> & SB).
    rewrite (zip_eq _ _ _ [1; oh; ow; oc]).
    2: { rewrite Sy, SB. apply bshape_l. destruct (oc =? 1); [constructor|apply (below_last oc [1; oh; ow])]. }
    eexists. split; [reflexivity|]. split; [reflexivity|]. intros i j o Hi' Hj Ho. cbn [el]. rewrite Sy, bix_same by (repeat constructor; lia). rewrite V. f_equal. rewrite SB.
    destruct (Nat.eqb_spec oc 1); [reflexivity|]. cbn. destruct (Nat.eqb_spec oc 1); [lia|reflexivity]. }
  destruct Hz as (z & Ez & Sz & Vz). exists (mk_arr [oh; ow; oc] (fun ix => el z (0 :: ix))), oh, ow. split; [exact Ep|]. split; [exact SK|].
  split; [|split; [reflexivity|split; [exact O1|split; [exact O2|exact Vz]]]].
  unfold maps. rewrite leaf_eq. unfold leaf_step. cbn [c_call c_update C ConvLayer]. unfold conv_call, keep_update, on1. rewrite Hx. cbn [List.length Nat.eqb negb]. unfold conv_batched. rewrite Ep, Ei. rewrite Hx1, SK. cbn [ci_strides ci_padding ci_bias].
  fold r. rewrite Er. cbn [nb]. rewrite Ez. cbn [nb]. unfold index0. rewrite Sz. reflexivity.
Qed.
End nn.

(** ** Examples *)
#[local] Existing Instance Histories.
Lemma ready_inst {PR : Prng} keyed c ss (k : key) : ready keyed c ss -> exists p, inst c ss p.
Proof. intros H. destruct (init_total _ _ _ k H) as (p & E). exists p, k, p. split; [exact E|apply same_form_refl]. Qed.
(** a mean over 2x2 windows of a 3x3 image with padding; a convolution with stride 2; a deconvolution; a dense layer *)
Theorem C72_example (x : arr) : sh x = [3; 3; 1] -> (forall ix, el x ix = 5%R) ->
  (exists p y, inst (Pooling AvgPool [2; 2] None SAME) [zshape [3; 3; 1]] p /\ maps (Pooling AvgPool [2; 2] None SAME) p None None [] x y /\ sh y = [3; 3; 1] /\ el y [2; 2; 0] = 5%R) /\
  (exists p y, inst (Conv (Z.of_nat 2) 3 3 (Some (2, 2)) SAME zero_init zero_init true) [zshape [3; 3; 1]] p /\ maps (Conv (Z.of_nat 2) 3 3 (Some (2, 2)) SAME zero_init zero_init true) p None None [] x y /\ sh y = [2; 2; 2]) /\
  (exists p y, inst (Deconv (Z.of_nat 2) 3 3 (Some (2, 2)) SAME zero_init zero_init false) [zshape [3; 3; 1]] p /\ maps (Deconv (Z.of_nat 2) 3 3 (Some (2, 2)) SAME zero_init zero_init false) p None None [] x y /\ sh y = [6; 6; 2]) /\
  (exists p y, inst (Dense (Z.of_nat 4) zero_init zero_init) [zshape [3; 3; 1]] p /\ maps (Dense (Z.of_nat 4) zero_init zero_init) p None None [] x y /\ sh y = [3; 3; 4]) /\
  exists p y, inst (Dropout (1/2)) [zshape [3; 3; 1]] p /\ maps (Dropout (1/2)) p None (Some []) [] x y /\ sh y = [3; 3; 1].
Proof.
  intros Hx Hv. split; [|split; [|split; [|split]]].
  - destruct (ready_inst (PR := Histories) False (Pooling AvgPool [2; 2] None SAME) [zshape ([3; 3] ++ [1])] []) as (p & Hp); [constructor; cbn; repeat constructor; lia|]. exists p.
    destruct (C72_average_constant [2; 2] None SAME [3; 3] 1 p None None [] x 5) as (y & Hm & Hy); cbn; auto; repeat constructor.
    destruct (C72_pooling AvgPool [2; 2] None SAME [3; 3] 1 p None None [] x) as (y' & dims & Hm' & Sy & L & D & _); cbn; auto; try (repeat constructor; lia). unfold maps in *. rewrite Hm in Hm'. injection Hm' as <-.
    assert (Ed : dims = [3; 3]). { destruct dims as [|a [|b [|]]]; try discriminate. pose proof (fun i => D 0 3 2 1 a i eq_refl eq_refl eq_refl eq_refl) as Da. pose proof (fun i => D 1 3 2 1 b i eq_refl eq_refl eq_refl eq_refl) as Db. cbn in Da, Db.
      assert (a = 3) by (pose proof (Da 2); pose proof (Da 3); lia). assert (b = 3) by (pose proof (Db 2); pose proof (Db 3); lia). congruence. }
    subst dims. exists y. split; [exact Hp|]. split; [exact Hm|]. split; [exact Sy|]. apply Hy. rewrite Sy. repeat constructor.
  - destruct (ready_inst (PR := Histories) False (Conv (Z.of_nat 2) 3 3 (Some (2, 2)) SAME zero_init zero_init true) [zshape [3; 3; 1]] ([] : list bool)) as (p & Hp); [constructor; cbn; lia|]. exists p.
    destruct (C72_convolution false 2 3 3 (Some (2, 2)) SAME zero_init zero_init true 3 3 1 p None None [] x) as (K & bias & y & oh & ow & _ & _ & Hm & Sy & O1 & O2 & _); auto; try lia. exists y. split; [exact Hp|]. split; [exact Hm|]. rewrite Sy.
    cbn [outputs starts] in O1, O2. assert (oh = 2) by (pose proof (O1 1); pose proof (O1 2); lia). assert (ow = 2) by (pose proof (O2 1); pose proof (O2 2); lia). congruence.
  - destruct (ready_inst (PR := Histories) False (Deconv (Z.of_nat 2) 3 3 (Some (2, 2)) SAME zero_init zero_init false) [zshape [3; 3; 1]] ([] : list bool)) as (p & Hp); [constructor; cbn; lia|]. exists p.
    destruct (C72_convolution true 2 3 3 (Some (2, 2)) SAME zero_init zero_init false 3 3 1 p None None [] x) as (K & bias & y & oh & ow & _ & _ & Hm & Sy & O1 & O2 & _); auto; try lia. exists y. split; [exact Hp|]. split; [exact Hm|]. rewrite Sy.
    cbn [outputs] in O1, O2. assert (oh = 6) by (pose proof (O1 5); pose proof (O1 6); lia). assert (ow = 6) by (pose proof (O2 5); pose proof (O2 6); lia). congruence.
  - destruct (ready_inst (PR := Histories) False (Dense (Z.of_nat 4) zero_init zero_init) [zshape ([3; 3] ++ [1])] []) as (p & Hp); [constructor; [discriminate|lia]|]. exists p.
    destruct (C72_dense 1 [3; 3] zero_init zero_init 4 p None None [] x Hp Hx) as (W & b & y & _ & _ & _ & Hm & Sy & _). exists y. split; [exact Hp|]. split; [exact Hm|exact Sy].
  - destruct (ready_inst (PR := Histories) True (Dropout (1/2)) [zshape [3; 3; 1]] ([] : list bool)) as (p & Hp); [constructor; exact I|]. exists p.
    destruct (C72_dropout_training (PR := Histories) (1/2) _ p None [] [] x Hp) as (y & Hm & Sy & _); [discriminate|reflexivity|]. exists y. split; [exact Hp|]. split; [exact Hm|congruence].
Qed.
Print Assumptions C72_convolution.
Print Assumptions C72_pooling.
Print Assumptions C72_example.
