(** C61, continued: the layers one by one, and Serials of them. *)
From Verif Require Export NnShape.

Lemma amem_S j ax : amem (S j) (0 :: map S ax) = amem j ax.
Proof. unfold amem. cbn. induction ax; [reflexivity|]. cbn. rewrite IHax. reflexivity. Qed.
Definition kept (ax : list nat) (i : nat) (s : list nat) : list nat := map snd (filter (fun id => negb (amem (fst id) ax)) (combine (seq i (List.length s)) s)).
Lemma expand_kept ax s : forall i, expand_shape (map (fun j => amem j ax) (seq i (List.length s))) (kept ax i s) = Some (mapi (fun i d => if amem i ax then 1 else d) i s).
Proof.
  unfold kept. induction s as [|d s IH]; intros i; [reflexivity|]. cbn. destruct (amem i ax) eqn:E; cbn; rewrite IH; reflexivity.
Qed.
Lemma ed_eq ax n : map (fun j => amem j (0 :: map S ax)) (seq 0 (S n)) = true :: map (fun j => amem j ax) (seq 0 n).
Proof. cbn [seq map]. f_equal. rewrite <- seq_shift, map_map. apply map_ext. intros j. apply amem_S. Qed.

Section nn.
Context {PR : Prng}.

Lemma mean_var_shape ax x m v : mean_var ax x = inl (m, v) -> sh m = keep_shape ax (sh x) /\ sh v = keep_shape ax (sh x).
Proof.
  unfold mean_var. intros H. apply nb_inl in H as (m' & H1 & H). apply nb_inl in H as (m2 & H2 & H). apply nb_inl in H as (v' & H3 & H). injection H as -> ->.
  assert (E : forall y z, mean_keep ax y = inl z -> sh z = keep_shape ax (sh y)) by (intros y z; unfold mean_keep; destruct (axes_ok ax (sh y)); [intros [= <-]; reflexivity|discriminate]).
  apply E in H1. apply E in H2. cbn in H2. split; [exact H1|]. eapply zip_shape; [exact H3|]. cbn. rewrite H1, H2. apply bshape_l, below_refl.
Qed.
Lemma expand_below ax s a b : sh a = kept ax 0 s -> expand (map (fun j => amem j (0 :: map S ax)) (seq 0 (List.length (1 :: s)))) a = inl b -> below (sh b) (1 :: s) /\ sh b = 1 :: keep_shape ax s.
Proof.
  intros E. cbn [List.length]. rewrite ed_eq. unfold expand. cbn [expand_shape]. rewrite E, expand_kept. cbn [option_map]. intros [= <-]. cbn [sh]. split; [|reflexivity].
  apply below_cons; [now rewrite mapi_length|apply (keep_below ax s)|auto].
Qed.
Lemma bn_batched_shape p i beta gamma mm mv n x y :
  l_params p = PNode n [beta; gamma] -> (bn_center i = true -> exists b, beta = PLeaf b /\ sh b = kept (bn_axis i) 0 (bn_shape i)) ->
  (bn_scale i = true -> exists g, gamma = PLeaf g /\ sh g = kept (bn_axis i) 0 (bn_shape i)) ->
  (exists n', l_state p = PNode n' [PLeaf mm; PLeaf mv]) -> sh mm = keep_shape (bn_axis i) (bn_shape i) -> sh mv = keep_shape (bn_axis i) (bn_shape i) ->
  l_info p = IBatchNorm i -> sh x = 1 :: bn_shape i -> bn_call_batched p false x = inl y -> sh y = sh x.
Proof.
  intros Hp Hb Hg (n' & Hs) Hmm Hmv Hi Hx. unfold bn_call_batched. rewrite Hp, Hs, Hi. cbv zeta. rewrite Hx. intros H.
  apply nb_inl in H as (ob & H1 & H). apply nb_inl in H as (og & H2 & H). cbn [nb fst snd] in H. apply nb_inl in H as (num & H3 & H). apply nb_inl in H as (z & H4 & H).
  assert (Hk : below (keep_shape (bn_axis i) (bn_shape i)) (1 :: bn_shape i)) by (apply (below_tail [1]), keep_below).
  assert (E3 : sh num = 1 :: bn_shape i) by (eapply zip_shape; [exact H3|]; rewrite Hx, Hmm; now apply bshape_l).
  assert (E4 : sh z = 1 :: bn_shape i) by (eapply zip_shape; [exact H4|]; cbn; rewrite E3, Hmv; now apply bshape_l).
  assert (Eb : forall b, ob = Some b -> below (sh b) (1 :: bn_shape i)).
  { intros b ->. destruct (bn_center i); [|discriminate]. destruct (Hb eq_refl) as (b0 & -> & Hb0). apply nb_inl in H1 as (b1 & H1 & E). injection E as <-. now apply (expand_below _ _ _ _ Hb0) in H1 as [H1 _]. }
  assert (Eg : forall b, og = Some b -> below (sh b) (1 :: bn_shape i)).
  { intros b ->. destruct (bn_scale i); [|discriminate]. destruct (Hg eq_refl) as (b0 & -> & Hb0). apply nb_inl in H2 as (b1 & H2 & E). injection E as <-. now apply (expand_below _ _ _ _ Hb0) in H2 as [H2 _]. }
  destruct ob as [b|], og as [g|].
  - apply nb_inl in H as (w & H5 & H). assert (E5 : sh w = 1 :: bn_shape i) by (eapply zip_shape; [exact H5|]; rewrite E4; apply bshape_r, Eg; reflexivity).
    eapply zip_shape; [exact H|]. rewrite E5. apply bshape_l, Eb. reflexivity.
  - eapply zip_shape; [exact H|]. rewrite E4. apply bshape_l, Eb. reflexivity.
  - eapply zip_shape; [exact H|]. rewrite E4. apply bshape_r, Eg. reflexivity.
  - injection H as <-. exact E4.
Qed.
(** what the parameters of an initialised BatchNorm look like *)
Lemma bn_inst ax m e ce sc bi gi s p : inst (BatchNorm ax m e ce sc bi gi) [zshape s] p ->
  exists beta gamma mm mv, let i := mk_bn ax e ce sc (1 - m) s in l_params p = PNode "BatchNormParams" [beta; gamma] /\ l_state p = PNode "BatchNormState" [PLeaf mm; PLeaf mv] /\ l_info p = IBatchNorm i /\
    sh mm = keep_shape ax s /\ sh mv = keep_shape ax s /\ (ce = true -> exists b, beta = PLeaf b /\ sh b = kept ax 0 s) /\ (sc = true -> exists g, gamma = PLeaf g /\ sh g = kept ax 0 s).
Proof.
  intros (k & p0 & H & F1 & F2 & F3). cbn [c_init BatchNorm] in H. unfold bn_init, spec1 in H. apply nb_inl in H as (x0 & H0 & H). apply create_ok, zshape_inj in H0. rewrite H0 in H. fold (kept ax 0 s) in H.
  destruct (splitn k 4) as [|k1 [|k2 [|k3 [|k4 [|]]]]]; try discriminate. injection H as <-. cbn [l_params l_state l_info] in F1, F2, F3.
  apply form_pair in F1 as (beta & gamma & -> & Fb & Fg). apply form_pair in F2 as (mm & mv & E & Fm & Fv). apply form_leaf in Fm as (mm' & -> & Em). apply form_leaf in Fv as (mv' & -> & Ev).
  exists beta, gamma, mm', mv'. cbv zeta. repeat split; auto.
  - intros ->. apply form_leaf in Fb as (b & -> & Eb). eauto.
  - intros ->. apply form_leaf in Fg as (b & -> & Eb). eauto.
Qed.
Lemma bn_update_form ax m e ce sc bi gi s p x axis p' : inst (BatchNorm ax m e ce sc bi gi) [zshape s] p -> keep_shape axis (sh x) = (1 :: keep_shape ax s)%list \/ keep_shape axis (sh x) = keep_shape ax s ->
  bn_update_axis p x axis = inl p' -> same_form p p'.
Proof.
  intros Hi Hx H. destruct (bn_inst _ _ _ _ _ _ _ _ _ Hi) as (beta & gamma & mm & mv & Hp & Hs & Hinfo & Hmm & Hmv & _). unfold bn_update_axis in H. rewrite Hs, Hinfo in H. cbn [bn_decay] in H.
  apply nb_inl in H as ([mean var] & H1 & H). apply mean_var_shape in H1 as [E1 E2]. cbn [fst snd] in H. apply nb_inl in H as (mean0 & H3 & H). apply nb_inl in H as (var0 & H4 & H).
  apply index0_ok in H3 as (n3 & H3). apply index0_ok in H4 as (n4 & H4). apply nb_inl in H as (mm' & H5 & H). apply nb_inl in H as (mv' & H6 & H). injection H as <-.
  assert (Hb : forall a, sh a = keep_shape axis (sh x) -> forall n b, sh a = S n :: sh b -> below (sh b) (keep_shape ax s)).
  { intros a Ea n b Eb. rewrite Ea in Eb. destruct Hx as [Hx|Hx]; rewrite Hx in Eb.
    - injection Eb as _ <-. apply below_refl.
    - rewrite Eb. apply (below_tail [S n]), below_refl. }
  apply nb_inl in H5 as (d5 & H5 & H5'). apply nb_inl in H6 as (d6 & H6 & H6').
  assert (G5 : sh d5 = keep_shape ax s) by (eapply zip_shape; [exact H5|]; rewrite Hmm; apply bshape_l; eapply Hb; [exact E1|exact H3]).
  assert (G6 : sh d6 = keep_shape ax s) by (eapply zip_shape; [exact H6|]; rewrite Hmv; apply bshape_l; eapply Hb; [exact E2|exact H4]).
  assert (G5' : sh mm' = keep_shape ax s) by (eapply zip_shape; [exact H5'|]; cbn; rewrite Hmm, G5; apply bshape_l, below_refl).
  assert (G6' : sh mv' = keep_shape ax s) by (eapply zip_shape; [exact H6'|]; cbn; rewrite Hmv, G6; apply bshape_l, below_refl).
  split; [reflexivity|]. cbn [l_state l_info]. rewrite Hs, Hinfo. split; [|reflexivity]. unfold form. cbn. rewrite Hmm, Hmv, G5', G6'. reflexivity.
Qed.

Lemma shapes_one args s : shapes args = [s] -> exists x, args = [x] /\ zshape (sh x) = s.
Proof. destruct args as [|x [|]]; try discriminate. intros [= <-]. eauto. Qed.
Lemma spec1_ok {A} (f : spec -> nres A) ss a : spec1 f ss = inl a -> exists s, ss = [s] /\ f s = inl a.
Proof. destruct ss as [|s [|]]; try discriminate. eauto. Qed.

(** one call of a standard layer *)
Lemma conv_out_transpose d k s p : (1 <= d)%nat -> forall n, window_dim (dilate d s) k 1 (transpose_pads (Z.of_nat k) (Z.of_nat s) p) = inl n -> (0 < s)%nat ->
  Z.of_nat n = ((Z.of_nat d - 1) * Z.of_nat s - Z.of_nat k + 2 + (fst (transpose_pads (Z.of_nat k) (Z.of_nat s) p) + snd (transpose_pads (Z.of_nat k) (Z.of_nat s) p)))%Z.
Proof.
  intros Hd n H Hs. apply window_dim_spec in H as (H & _ & Hk). rewrite H. unfold stride_dim. change (Z.of_nat 1) with 1%Z. rewrite Z.div_1_r. destruct d as [|d]; [lia|]. cbn [dilate].
  assert (Hsum : (0 <= fst (transpose_pads (Z.of_nat k) (Z.of_nat s) p) + snd (transpose_pads (Z.of_nat k) (Z.of_nat s) p) - Z.of_nat k + 2)%Z).
  { unfold transpose_pads. destruct p; cbn [fst snd]; destruct (Z.of_nat s >? Z.of_nat k - 1)%Z; lia. }
  rewrite Nat2Z.inj_add, Nat2Z.inj_mul. assert (Hm : (0 <= Z.of_nat d * Z.of_nat s)%Z) by lia. replace (Z.of_nat (S d) - 1)%Z with (Z.of_nat d) by lia. lia.
Qed.
Lemma bias_below oc r b : (exists n h w, sh r = [n; h; w; oc]) -> zshape (sh b) = dropwhile1 [1; 1; 1; Z.of_nat oc]%Z -> below (sh b) (sh r).
Proof.
  intros (n & h & w & ->) H. cbn in H. destruct (Z.eqb_spec (Z.of_nat oc) 1) as [E|E].
  - destruct (sh b); [constructor|discriminate].
  - destruct (sh b) as [|d [|]]; try discriminate. cbn in H. injection H as H. assert (d = oc) as -> by lia. apply (below_last oc [n; h; w]).
Qed.
Lemma call_shape c ss p args kw out : standard c ss -> inst c ss p -> shapes args = ss -> c_call c p args kw = inl out -> c_spec c ss = inl (shape_of out).
Proof.
  intros Hst Hi Hs H. destruct Hst.
  - (* Dense *)
    destruct Hi as (k & p0 & Hi & F1 & _). cbn [c_init c_call c_spec Dense] in *. apply spec1_ok in Hi as (s & -> & Hi). apply shapes_one in Hs as (x & -> & Hs). destruct s as [|s0 s1]; [discriminate|]. remember (s0 :: s1) as s eqn:Es.
    apply nb_inl in Hi as (kernel & Hk & Hi). apply nb_inl in Hi as (bias & Hb & Hi). injection Hi as <-. apply create_ok in Hk. apply create_ok in Hb. cbn [l_params] in F1.
    apply form_pair in F1 as (t1 & t2 & E & F1 & F2). apply form_leaf in F1 as (kernel' & -> & K1). apply form_leaf in F2 as (bias' & -> & K2). unfold dense_call, on1 in H. rewrite E in H.
    apply nb_inl in H as (y & H1 & H). apply nb_inl in H as (z & H2 & H). injection H as <-. rewrite <- K1 in Hk. rewrite <- K2 in Hb.
    destruct (sh kernel') as [|a [|o [|]]] eqn:Ek; try discriminate. unfold zshape in Hk. cbn [map] in Hk. injection Hk as Ha Ho. destruct (sh bias') as [|o' [|]] eqn:Eb; try discriminate. cbn in Hb. injection Hb as Hb. assert (o' = o) by lia. subst o'.
    unfold dot in H1. rewrite Ek in H1. destruct (sh x) as [|x0 x1] eqn:Ex; [cbn in Hs; congruence|]. destruct (last (x0 :: x1) 0 =? a); [|discriminate]. injection H1 as <-.
    assert (Ez : sh z = removelast (x0 :: x1) ++ [o]) by (eapply zip_shape; [exact H2|]; cbn [sh]; rewrite Eb; apply bshape_l, below_last).
    unfold dense_spec, spec1. cbn [shape_of]. rewrite Ez, <- Hs, <- Ho. unfold zshape. rewrite map_app, removelast_map. reflexivity.
  - (* Dropout *)
    destruct Hi as (k & p0 & Hi & _). cbn [c_init c_call c_spec Dropout] in *. apply spec1_ok in Hi as (s & -> & Hi). apply shapes_one in Hs as (x & -> & <-). unfold dropout_call, on1 in H. cbn.
    destruct (l_info p); try discriminate. destruct (match kget "training" kw with Some (KBool b) => b | _ => true end); [|injection H as <-; reflexivity].
    destruct (kget "rng" kw) as [[]|]; try discriminate. injection H as <-. reflexivity.
  - (* Activation *)
    destruct Hi as (k & p0 & Hi & _). cbn [c_init c_call c_spec Activation] in *. apply spec1_ok in Hi as (s & -> & Hi). apply shapes_one in Hs as (x & -> & <-). cbn in H. injection H as <-. reflexivity.
  - (* Flatten *)
    destruct Hi as (k & p0 & Hi & _). cbn [c_init c_call c_spec Flatten] in *. apply spec1_ok in Hi as (s & -> & Hi). apply shapes_one in Hs as (x & -> & <-). unfold flatten_call, on1 in H. cbn [flatten_spec spec1 nb] in *.
    apply nb_inl in H as (y & H & E). injection E as <-. unfold reshape in H. destruct (infer (prod (sh x)) _) as [s'|] eqn:Ei; [|discriminate]. injection H as <-. cbn [shape_of sh]. f_equal. f_equal.
    symmetry. eapply infer_shape; [|exact Ei]. constructor; [|constructor]. rewrite prod_z. lia.
  - (* Reshape *)
    destruct Hi as (k & p0 & Hi & _ & _ & F3). cbn [c_init c_call c_spec Reshape] in *. apply spec1_ok in Hi as (s & -> & Hi). injection Hi as <-. apply shapes_one in Hs as (x & -> & <-). unfold reshape_call, on1 in H. rewrite <- F3 in H. cbn [l_info reshape_spec spec1 nb] in H.
    apply nb_inl in H as (y & H & E). injection E as <-. unfold reshape in H. destruct (infer (prod (sh x)) ds) as [s'|] eqn:Ei; [|discriminate]. injection H as <-. cbn. f_equal. f_equal. symmetry. eapply infer_shape; [|exact Ei]. assumption.
  - (* Pooling *)
    destruct Hi as (k0 & p0 & Hi & _ & _ & F3). cbn [c_init c_call c_spec Pooling] in *. apply spec1_ok in Hi as (s & -> & Hi). injection Hi as <-. apply shapes_one in Hs as (x & -> & <-). unfold pool_call, on1 in H. rewrite <- F3 in H. cbn [l_info] in H.
    destruct (Nat.ltb_spec 3 (List.length (sh x))) as [|H3]; [discriminate|]. apply nb_inl in H as (r & H1 & H). apply nb_inl in H as (y & H2 & H). injection H as <-.
    apply pool_shape in H1 as (ps & Hp & Hw). destruct (window_dims_spec _ _ _ _ _ Hw) as (Hr & L1 & L2 & _). cbn in L1, L2. rewrite app_length in L1, L2. cbn in L1, L2.
    rewrite pool_spec_eq by lia. rewrite Hp. cbn [nb]. rewrite Hr. cbn [nb]. apply index0_ok in H2 as (n & ->). reflexivity.
  - (* Conv *)
    destruct Hi as (k0 & p0 & Hi & F1 & _ & F3). cbn [c_init c_call c_spec Conv ConvLayer] in *. unfold conv_init, conv_call, conv_spec in *. apply spec1_ok in Hi as (s & -> & Hi). apply shapes_one in Hs as (x & -> & Hs). cbn [spec1 on1] in *.
    apply nb_inl in Hi as ([[os ks] bs] & Hinfo & Hi). rewrite Hinfo. cbn [nb fst snd] in *. apply nb_inl in Hi as (kernel & Hk & Hi). apply create_ok in Hk.
    destruct (negb (List.length (sh x) =? 3)) eqn:E3; [discriminate|]. apply negb_false_iff, Nat.eqb_eq in E3. destruct (sh x) as [|h [|w [|c [|]]]] eqn:Ex; try discriminate. subst s. unfold conv_info, zshape in Hinfo. cbn [map] in Hinfo. destruct (conv_strides st) as [s1 s2] eqn:Est. injection Hinfo as <- <- <-.
    apply nb_inl in H as (r & H1 & H). apply nb_inl in H as (y & H2 & H). injection H as <-.
    assert (Hform : exists bias, l_params p0 = PNode "ConvParams" [PLeaf kernel; bias] /\ l_info p0 = IConv (mk_ci (s1, s2) pd b) /\ (b = true -> exists bb, bias = PLeaf bb /\ zshape (sh bb) = dropwhile1 [1; 1; 1; oc]%Z)).
    { destruct b; [apply nb_inl in Hi as (bb & Hb & Hi); injection Hi as <-; apply create_ok in Hb; eexists; repeat split; eauto|injection Hi as <-; eexists; repeat split; discriminate]. }
    destruct Hform as (bias & Ep & Einfo & Hbias). rewrite Ep in F1. apply form_pair in F1 as (t1 & bias' & Ep' & F1 & F2). apply form_leaf in F1 as (kernel' & -> & K1). unfold conv_batched in H1. rewrite Ep', <- F3, Einfo in H1.
    change (sh (newaxis x)) with (1 :: sh x) in H1. rewrite Ex in H1. rewrite <- K1 in Hk. destruct (sh kernel') as [|fh' [|fw' [|ci [|co [|]]]]] eqn:Ek; try discriminate. unfold zshape in Hk. cbn [map] in Hk. injection Hk as E1 E2 E4 E5. apply Nat2Z.inj in E1, E2, E4. subst fh' fw' ci. cbn [ci_strides ci_padding ci_bias] in H1.
    apply nb_inl in H1 as (r0 & H1 & Hb). assert (Hr0 : sh r0 = sh r).
    { destruct b; [|injection Hb as <-; reflexivity]. destruct (Hbias eq_refl) as (bb & -> & Ebb). apply form_leaf in F2 as (bb' & -> & Eb'). rewrite <- Eb', <- E5 in Ebb. symmetry. eapply zip_shape; [exact Hb|]. apply bshape_l. eapply bias_below; [|exact Ebb].
      unfold conv2d in H1. change (sh (newaxis x)) with (1 :: sh x) in H1. rewrite Ex, Ek in H1. destruct (_ || _); [discriminate|]. apply nb_inl in H1 as (oh & Hoh & H1). apply nb_inl in H1 as (ow & How & H1). injection H1 as <-. cbn. eauto. }
    unfold conv2d in H1. change (sh (newaxis x)) with (1 :: sh x) in H1. rewrite Ex, Ek in H1. destruct (_ || _); [discriminate|]. cbn [fst snd] in H1. apply nb_inl in H1 as (oh & Hoh & H1). apply nb_inl in H1 as (ow & How & H1). injection H1 as <-. cbn [sh] in Hr0.
    apply index0_ok in H2 as (n & H2). rewrite H2 in Hr0. injection Hr0 as _ Hy. cbn [shape_of]. rewrite <- Hy, <- E5. unfold zshape. cbn [map].
    apply window_dim_spec in Hoh as (Hoh & _). apply window_dim_spec in How as (How & _). rewrite Hoh, How. unfold conv_out. cbn [fst snd].
    assert (Hdl : forall d, dilate d 1 = d) by (intros [|d]; cbn; lia). rewrite !Hdl, !Z.add_assoc. reflexivity.
  - (* Deconv *)
    rename H0 into Hh, H1 into Hw.
    destruct Hi as (k0 & p0 & Hi & F1 & _ & F3). cbn [c_init c_call c_spec Deconv ConvLayer] in *. unfold conv_init, conv_call, conv_spec in *. apply spec1_ok in Hi as (s & Hss & Hi). injection Hss as Hss. apply shapes_one in Hs as (x & -> & Hs). cbn [spec1 on1] in *.
    rewrite <- Hss in Hi. apply nb_inl in Hi as ([[os ks] bs] & Hinfo & Hi). rewrite Hinfo. cbn [nb fst snd] in *. apply nb_inl in Hi as (kernel & Hk & Hi). apply create_ok in Hk.
    destruct (sh x) as [|h' [|w' [|c' [|]]]] eqn:Ex; try discriminate. unfold zshape in Hs. cbn [map] in Hs. injection Hs as <- <- <-. unfold conv_info in Hinfo. destruct (conv_strides st) as [s1 s2] eqn:Est. injection Hinfo as <- <- <-. cbn [List.length Nat.eqb negb] in H.
    apply nb_inl in H as (r & H1 & H). apply nb_inl in H as (y & H2 & H). injection H as <-.
    assert (Hform : exists bias, l_params p0 = PNode "ConvParams" [PLeaf kernel; bias] /\ l_info p0 = IConv (mk_ci (s1, s2) pd b) /\ (b = true -> exists bb, bias = PLeaf bb /\ zshape (sh bb) = dropwhile1 [1; 1; 1; oc]%Z)).
    { destruct b; [apply nb_inl in Hi as (bb & Hb & Hi); injection Hi as <-; apply create_ok in Hb; eexists; repeat split; eauto|injection Hi as <-; eexists; repeat split; discriminate]. }
    destruct Hform as (bias & Ep & Einfo & Hbias). rewrite Ep in F1. apply form_pair in F1 as (t1 & bias' & Ep' & F1 & F2). apply form_leaf in F1 as (kernel' & -> & K1). unfold conv_batched in H1. rewrite Ep', <- F3, Einfo in H1.
    change (sh (newaxis x)) with (1 :: sh x) in H1. rewrite Ex in H1. rewrite <- K1 in Hk. destruct (sh kernel') as [|fh' [|fw' [|ci [|co [|]]]]] eqn:Ek; try discriminate. unfold zshape in Hk. cbn [map] in Hk. injection Hk as E1 E2 E4 E5. apply Nat2Z.inj in E1, E2, E4. subst fh' fw' ci. cbn [ci_strides ci_padding ci_bias] in H1.
    apply nb_inl in H1 as (r0 & H1 & Hb). assert (Hr0 : sh r0 = sh r).
    { destruct b; [|injection Hb as <-; reflexivity]. destruct (Hbias eq_refl) as (bb & -> & Ebb). apply form_leaf in F2 as (bb' & -> & Eb'). rewrite <- Eb', <- E5 in Ebb. symmetry. eapply zip_shape; [exact Hb|]. apply bshape_l. eapply bias_below; [|exact Ebb].
      unfold conv2d in H1. change (sh (newaxis x)) with (1 :: sh x) in H1. rewrite Ex, Ek in H1. destruct (_ || _); [discriminate|]. apply nb_inl in H1 as (oh & Hoh & H1). apply nb_inl in H1 as (ow & How & H1). injection H1 as <-. cbn. eauto. }
    unfold conv2d in H1. change (sh (newaxis x)) with (1 :: sh x) in H1. rewrite Ex, Ek in H1. destruct (Nat.eqb_spec c' c') as [_|]; [|congruence]. cbn [negb orb fst snd] in H1. destruct (Nat.eqb_spec s1 0) as [|Hs1]; [discriminate|]. destruct (Nat.eqb_spec s2 0) as [|Hs2]; [discriminate|]. cbn [negb orb] in H1.
    apply nb_inl in H1 as (oh & Hoh & H1). apply nb_inl in H1 as (ow & How & H1). injection H1 as <-. cbn [sh] in Hr0.
    apply index0_ok in H2 as (n & H2). rewrite H2 in Hr0. injection Hr0 as _ Hy. cbn [shape_of]. rewrite <- Hy, <- E5. unfold zshape. cbn [map].
    apply conv_out_transpose in Hoh; [|lia|lia]. apply conv_out_transpose in How; [|lia|lia]. rewrite Hoh, How. reflexivity.
  - (* BatchNorm *)
    pose proof Hi as (k0 & p0 & Hi' & _). cbn [c_init c_call c_spec BatchNorm] in *. unfold bn_init in Hi'. apply spec1_ok in Hi' as (s & -> & _). apply shapes_one in Hs as (x & -> & <-). apply bn_inst in Hi as (beta & gamma & mm & mv & Hp & Hs & Hinfo & Hmm & Hmv & Hbeta & Hgamma).
    unfold bn_call, on1 in H. rewrite Hinfo in H. cbn [bn_shape] in H. rewrite Nat.eqb_refl in H. cbn [negb] in H. cbn [spec1]. destruct (training_of kw); [injection H as <-; reflexivity|].
    apply nb_inl in H as (r & H1 & H). apply nb_inl in H as (y & H2 & H). injection H as <-. apply (bn_batched_shape p (mk_bn ax e ce sc (1 - m) (sh x)) beta gamma mm mv "BatchNormParams") in H1; eauto.
    apply index0_ok in H2 as (n & H2). rewrite H2 in H1. cbn in H1. injection H1 as _ H1. cbn. rewrite H1. reflexivity.
Qed.
Lemma same_form_refl p : same_form p p.
Proof. repeat split. Qed.
Lemma same_form_trans p q r : same_form p q -> same_form q r -> same_form p r.
Proof. intros (A1 & A2 & A3) (B1 & B2 & B3). repeat split; congruence. Qed.
Lemma update_form c ss p args kw p' : standard c ss -> inst c ss p -> shapes args = ss -> c_update c p args kw = inl p' -> same_form p p'.
Proof.
  intros Hst Hi Hs H. destruct Hst; try (cbn in H; injection H as <-; apply same_form_refl).
  pose proof Hi as (k0 & p0 & Hi' & _). cbn [c_init c_update BatchNorm] in *. unfold bn_init in Hi'. apply spec1_ok in Hi' as (s & -> & _). apply shapes_one in Hs as (x & -> & <-).
  unfold bn_update, on1 in H. destruct (bn_inst _ _ _ _ _ _ _ _ _ Hi) as (beta & gamma & mm & mv & Hp & Hs & Hinfo & _). rewrite Hinfo in H. cbn [bn_axis] in H.
  eapply bn_update_form; [exact Hi|right; reflexivity|exact H].
Qed.

(** ** Serials *)
(** every layer inside is standard for the specs that reach it *)
Fixpoint admissible (t : template) (ss : list spec) {struct t} : Prop :=
  match t with
  | TLeaf c => standard c ss
  | TSerial ts => (fix go (ts : list template) (ss : list spec) {struct ts} : Prop :=
      match ts with [] => True | t :: ts' => admissible t ss /\ forall v, tspec t ss = inl v -> go ts' (as_specs v) end) ts ss
  end.
(** l is an instance of t for inputs of the specs ss *)
Inductive instance : template -> list spec -> layer -> Prop :=
| I_leaf c ss p n : inst c ss p -> instance (TLeaf c) ss (Leaf c p n)
| I_serial ts ss ls n : instances ts ss ls -> instance (TSerial ts) ss (Serial ls n)
with instances : list template -> list spec -> list layer -> Prop :=
| I_nil ss : instances [] ss []
| I_cons t ts ss l ls v : instance t ss l -> tspec t ss = inl v -> instances ts (as_specs v) ls -> instances (t :: ts) ss (l :: ls).
Lemma template_ind' (P : template -> Prop) : (forall c, P (TLeaf c)) -> (forall ts, Forall P ts -> P (TSerial ts)) -> forall t, P t.
Proof.
  intros HL HN. fix IH 1. intros [c|ts]; [apply HL|]. apply HN. induction ts as [|x l IHl]; constructor; [apply IH|exact IHl].
Qed.
Lemma init_instance t : forall name k ss l, init t name (Some k) ss = inl l -> instance t ss l.
Proof.
  induction t as [c|ts IH] using template_ind'; intros name k ss l H.
  - cbn in H. apply nb_inl in H as (x & H & Ht). apply through_ok in Ht as [_ ->]. apply nb_inl in H as (p & H & E). injection E as <-. constructor. exists k, p. split; [exact H|apply same_form_refl].
  - apply C60_init in H as (_ & _ & ls & -> & H). constructor. revert H. generalize (splitn k (List.length ts)), 0. revert ss ls. induction IH as [|t ts Ht _ IHts]; intros ss ls ks i H.
    + inversion H; subst. constructor.
    + inversion H; subst. econstructor; [eapply Ht; eassumption|eassumption|eapply IHts; eassumption].
Qed.
Lemma shape_of_args v : as_specs (shape_of v) = shapes (as_args v).
Proof. destruct v; reflexivity. Qed.
(** calls keep instances and give outputs of the predicted shape *)
Lemma cau_shape t : forall ss l args rng kw out l', instance t ss l -> admissible t ss -> shapes args = ss -> call_and_update l args rng kw = inl (out, l') ->
  (tspec t ss = inl (shape_of out) \/ (exists ts, t = TSerial ts /\ ts = [])) /\ instance t ss l'.
Proof.
  induction t as [c|ts IH] using template_ind'; intros ss l args rng kw out l' Hi Ha Hs H.
  - inversion Hi as [? ? p n Hinst|]; subst. cbn in Ha. rewrite leaf_eq in H. unfold leaf_step in H. apply nb_inl in H as (o & H1 & H). apply nb_inl in H as (p' & H2 & H). injection H as <- <-.
    split; [left; eapply call_shape; eauto|]. constructor. pose proof Hinst as (k & p0 & Hk & Hf). exists k, p0. split; [exact Hk|]. eapply same_form_trans; [exact Hf|]. eapply update_form; eauto.
  - inversion Hi as [|? ? ls n His]; subst. apply serial_ok in H as (Hne & ls' & -> & H). split.
    + left. cbn [tspec admissible] in *.
      set (go := fix go (ts : list template) (v : specs) {struct ts} : nres specs := _). set (ga := fix go (ts : list template) (ss : list spec) {struct ts} : Prop := _) in Ha.
      assert (G : forall ts ls v rng out ls', Forall (fun t => forall ss l args rng kw out l', instance t ss l -> admissible t ss -> shapes args = ss -> call_and_update l args rng kw = inl (out, l') -> (tspec t ss = inl (shape_of out) \/ (exists ts, t = TSerial ts /\ ts = [])) /\ instance t ss l') ts ->
        instances ts (shapes (as_args v)) ls -> ga ts (shapes (as_args v)) -> chain call_and_update kw ls v rng = inl (out, ls') -> go ts (shape_of v) = inl (shape_of out)).
      { clear. induction ts as [|t ts IHts]; intros ls v rng out ls' IH His Ha H; inversion His as [|? ? ? l1 ls1 v1 J1 J2 J3]; subst; [cbn in H; injection H as <- _; reflexivity|].
        inversion IH as [|? ? It Its]; subst. cbn [chain] in H. apply nb_inl in H as ([o l'] & H1 & H). apply nb_inl in H as (r & H2 & H). injection H as <- _. destruct Ha as [Ha1 Ha2].
        destruct (It _ _ _ _ _ _ _ J1 Ha1 eq_refl H1) as [[Ht|(ts0 & -> & ->)] _].
        - cbn [go]. fold go. rewrite shape_of_args. rewrite Ht. cbn [nb]. rewrite J2 in Ht. injection Ht as ->. cbn [fst snd] in *. apply IHts with (ls := ls1) (rng := option_map (fun k => fst (split2 k)) rng) (ls' := snd r); [exact Its|rewrite <- shape_of_args; exact J3|rewrite <- shape_of_args; apply Ha2; exact J2|rewrite H2; now destruct r].
        - inversion J1 as [|? ? lz n J4]; subst. inversion J4; subst. destruct (C60_empty_serial_raises n (as_args v) (option_map (fun k => snd (split2 k)) rng) kw) as (e & He). congruence. }
      change (STup (shapes args)) with (shape_of (Tup args)). eapply G; [exact IH|exact His|exact Ha|exact H].
    + constructor. cbn [admissible] in Ha. set (ga := fix go (ts : list template) (ss : list spec) {struct ts} : Prop := _) in Ha. clear Hi Hne.
      assert (G : forall v, as_args v = args -> chain call_and_update kw ls v rng = inl (out, ls') -> instances ts (shapes (as_args v)) ls'); [|apply (G (Tup args)); [reflexivity|exact H]].
      intros v Ev Hv. rewrite <- Ev in His, Ha. clear H Ev args. revert ls v rng out ls' His Ha Hv. induction IH as [|t ts It _ IHts]; intros ls v rng out ls' His Ha Hv; inversion His as [|? ? ? l1 ls1 v1 J1 J2 J3]; subst; [cbn in Hv; injection Hv as _ <-; constructor|].
      cbn [chain] in Hv. apply nb_inl in Hv as ([o l'] & H5 & Hv). apply nb_inl in Hv as (r & H7 & Hv). injection Hv as <- <-. destruct Ha as [Ha1 Ha2]. cbn [fst snd] in *.
      destruct (It _ _ _ _ _ _ _ J1 Ha1 eq_refl H5) as [[Ht|(ts0 & -> & ->)] Hi'].
      * econstructor; [exact Hi'|exact Ht|]. rewrite J2 in Ht. injection Ht as ->. rewrite shape_of_args in *. eapply IHts; [exact J3|rewrite <- shape_of_args; apply Ha2; exact J2|rewrite H7; rewrite (surjective_pairing r) at 1; reflexivity].
      * inversion J1 as [|? ? lz n0 J4]; subst. inversion J4; subst. destruct (C60_empty_serial_raises n0 (as_args v) (option_map (fun k => snd (split2 k)) rng) kw) as (e & He). congruence.
Qed.

(** ** C61 *)
(** layers reached from a template by initialising it on inputs of the specs ss and calling it on inputs of these specs *)
Inductive reached (t : template) (ss : list spec) : layer -> Prop :=
| R_init name k l : init t name (Some k) ss = inl l -> reached t ss l
| R_call l args rng kw out l' : reached t ss l -> shapes args = ss -> call_and_update l args rng kw = inl (out, l') -> reached t ss l'.
Theorem C61_spec_predicts_shape t ss l args rng kw out l' : reached t ss l -> admissible t ss -> shapes args = ss -> call_and_update l args rng kw = inl (out, l') ->
  tspec t ss = inl (shape_of out).
Proof.
  intros Hr Ha Hs H. assert (Hi : instance t ss l).
  { clear - Hr Ha. induction Hr as [name k l H|l args rng kw out l' Hr IH Hs H]; [eapply init_instance, H|]. eapply cau_shape; eauto. }
  destruct (cau_shape t ss l args rng kw out l' Hi Ha Hs H) as [[E|(ts & -> & ->)] _]; [exact E|]. inversion Hi as [|? ? ls n Hn]; subst. inversion Hn; subst.
  destruct (C60_empty_serial_raises n args rng kw) as (e & He). congruence.
Qed.
(** a template called directly *)
Theorem C61_template_call t k args rng kw out : admissible t (shapes args) -> template_call t (Some k) args rng kw = inl out -> tspec t (shapes args) = inl (shape_of out).
Proof.
  intros Ha H. unfold template_call in H. fold (shapes args) in H. apply nb_inl in H as (l & H1 & H). apply nb_inl in H as ([o l'] & H2 & H). injection H as <-.
  eapply C61_spec_predicts_shape; [eapply R_init, H1|exact Ha|reflexivity|exact H2].
Qed.
(** Reshape with a dimension -1: the spec has the dimension -1, the output does not *)
Theorem C61_reshape_refuted (x : arr) (k : key) rng kw : tspec (TLeaf (Reshape [-1]%Z)) (shapes [x]) = inl (SOne [-1]%Z) /\
  exists out, template_call (TLeaf (Reshape [-1]%Z)) (Some k) [x] rng kw = inl (One out) /\ sh out = [prod (sh x)].
Proof.
  split; [reflexivity|]. unfold template_call. cbn [map init c_init Reshape spec1 nb]. rewrite through_inhabited by constructor. cbn [nb]. rewrite leaf_eq. unfold leaf_step. cbn [c_call Reshape reshape_call on1 l_info reshape_spec spec1 nb].
  unfold reshape, infer. cbn [filter Z.eqb negb fold_right List.length forallb Z.leb orb andb Z.ltb map]. rewrite Z.mod_1_r. cbn [Z.eqb]. change (Z.compare 0 1) with Lt. cbn [nb c_update keep_update fst].
  eexists. split; [reflexivity|]. cbn [sh]. rewrite Z.div_1_r, Nat2Z.id. reflexivity.
Qed.
(** and a layer after it cannot be initialised *)
Theorem C61_reshape_init_refuted ds t ts name k ss : existsb (fun d => d <? 0)%Z ds = true -> exists e, init (TSerial (TLeaf (Reshape ds) :: t :: ts)) name (Some k) ss = inr e.
Proof.
  intros Hd. destruct (init (TSerial (TLeaf (Reshape ds) :: t :: ts)) name (Some k) ss) as [l|e] eqn:E; [|eauto]. exfalso. apply C60_init in E as (_ & _ & ls & _ & H).
  inversion H as [|? ? ? ? ? ? ? v ? H1 H2 H3 H4]; subst. cbn in H2. apply spec1_ok in H2 as (s & -> & E). injection E as <-. cbn in H3. inversion H3 as [|? ? Hf _]; subst.
  apply existsb_exists in Hd as (d & Hin & Hd). rewrite Forall_forall in Hf. specialize (Hf d Hin). lia.
Qed.
(** state.spec of an initialised layer (as opposed to a template) raises for every class whose templates take arguments, and for Serial *)
Theorem C61_layer_spec_refuted l ss : (forall c p n, l = Leaf c p n -> exists d r f w st p oc fh fw ki bi b cst kd,
    c = Dense d ki bi \/ c = Dropout r \/ c = Reshape f \/ c = Pooling kd w st p \/ c = Conv oc fh fw cst p ki bi b \/ c = Deconv oc fh fw cst p ki bi b) -> layer_spec l ss = inr NType.
Proof.
  destruct l as [c p n|ls n]; intros H; [|reflexivity]. destruct (H c p n eq_refl) as (d & r & f & w & st & p' & oc & fh & fw & ki & bi & b & cst & kd & H').
  destruct H' as [-> | [-> | [-> | [-> | [-> | -> ]]]]]; reflexivity.
Qed.

(** no window of the paddings VALID and SAME consists of padding only, so that MaxPooling never returns -inf for finite inputs *)
Lemma window_hits p d w s i : 0 < d -> 0 < w -> 0 < s -> i < nfit (Z.to_nat (Z.of_nat d + fst (pad_dim p (Z.of_nat d) (Z.of_nat w) (Z.of_nat s)) + snd (pad_dim p (Z.of_nat d) (Z.of_nat w) (Z.of_nat s)))) w s ->
  exists o, o < w /\ (0 <= Z.of_nat (i * s + o) - fst (pad_dim p (Z.of_nat d) (Z.of_nat w) (Z.of_nat s)) < Z.of_nat d)%Z.
Proof.
  intros Hd Hw Hs Hi. set (q := pad_dim p (Z.of_nat d) (Z.of_nat w) (Z.of_nat s)) in *.
  assert (Hq : (0 <= fst q)%Z /\ (0 <= snd q)%Z) by (unfold q, pad_dim; destruct p; cbn [fst snd]; [lia|]; set (t := Z.max _ 0); assert (H2 : (0 <= t / 2 <= t)%Z) by (split; [apply Z.div_pos; lia|apply Z.div_le_upper_bound; lia]); lia).
  assert (Hfit : (Z.of_nat i * Z.of_nat s + Z.of_nat w <= Z.of_nat d + fst q + snd q)%Z).
  { pose proof (nfit_spec (Z.to_nat (Z.of_nat d + fst q + snd q)) w s Hs) as Hn. unfold stride_dim in Hn. rewrite Z2Nat.id in Hn by lia. set (D := (Z.of_nat d + fst q + snd q - Z.of_nat w)%Z) in *.
    assert (Hle : (Z.of_nat i <= D / Z.of_nat s)%Z) by lia. pose proof (Z.mul_div_le D (Z.of_nat s) ltac:(lia)). nia. }
  assert (Hlt : (fst q < Z.of_nat w)%Z /\ (Z.of_nat i * Z.of_nat s < Z.of_nat d + fst q)%Z).
  { destruct p; unfold q, pad_dim in *; cbn [fst snd] in *; [lia|]. set (out := ((Z.of_nat d + Z.of_nat s - 1) / Z.of_nat s)%Z) in *.
    assert (Ho : ((out - 1) * Z.of_nat s < Z.of_nat d)%Z) by (pose proof (Z.mul_div_le (Z.of_nat d + Z.of_nat s - 1) (Z.of_nat s) ltac:(lia)); fold out in H; nia).
    set (t := Z.max ((out - 1) * Z.of_nat s + Z.of_nat w - Z.of_nat d) 0) in *. assert (Ht : (t <= Z.of_nat w - 1)%Z) by lia. assert (H2 : (0 <= t / 2 <= t)%Z) by (split; [apply Z.div_pos; lia|apply Z.div_le_upper_bound; lia]). split; lia. }
  exists (Z.to_nat (Z.max 0 (fst q - Z.of_nat i * Z.of_nat s))). rewrite Nat2Z.inj_add, Nat2Z.inj_mul, Z2Nat.id by lia. lia.
Qed.
Theorem C61_windows_never_empty red x ws ss p y ix : reduce_window red x ws ss p = inl y -> Forall (lt 0) (sh x) -> in_bounds (sh y) ix -> exists ps, padtype_to_pads p (zlist (sh x)) (zlist ws) (zlist ss) = inl ps /\ window_elems x ws ss ps ix <> [].
Proof.
  intros H Hx Hix. apply reduce_window_ok in H as (ps & Hp & Hw). exists ps. split; [exact Hp|].
  assert (Hc : exists off pos, in_bounds ws off /\ covered (sh x) ss ps ix off = Some pos).
  { revert Hx Hix Hp Hw. generalize (sh x), (sh y). clear. intros ds r. revert ws ss ps r ix. induction ds as [|d ds IH]; intros [|w ws] [|s ss] ps r ix Hx Hix Hp Hw; try discriminate.
    - cbn in Hp. injection Hp as <-. cbn in Hw. injection Hw as <-. inversion Hix; subst. exists [], []. split; [constructor|reflexivity].
    - cbn in Hp. apply nb_inl in Hp as (ps' & Hp & E). injection E as <-. cbn [window_dims] in Hw. apply nb_inl in Hw as (n & Hn & Hw). apply nb_inl in Hw as (r' & Hw & E). injection E as <-.
      inversion Hx; subst. inversion Hix as [|i ? ix' ? Hi Hix' ]; subst. destruct (IH _ _ _ _ _ H2 Hix' Hp Hw) as (off & pos & Ho & Hc).
      pose proof Hn as Hn'. apply window_dim_spec in Hn' as (_ & Hs & Hw0). unfold window_dim in Hn. destruct (_ || _); [discriminate|]. injection Hn as <-. destruct (window_hits p d w s i H1 Hw0 Hs Hi) as (o & Ho1 & Ho2).
      exists (o :: off), (Z.to_nat (Z.of_nat (i * s + o) - fst (pad_dim p (Z.of_nat d) (Z.of_nat w) (Z.of_nat s))) :: pos). split; [constructor; assumption|]. cbn [covered].
      destruct (Z.leb_spec 0 (Z.of_nat (i * s + o) - fst (pad_dim p (Z.of_nat d) (Z.of_nat w) (Z.of_nat s)))); [|lia]. destruct (Z.ltb_spec (Z.of_nat (i * s + o) - fst (pad_dim p (Z.of_nat d) (Z.of_nat w) (Z.of_nat s))) (Z.of_nat d)); [|lia]. cbn [andb]. rewrite Hc. reflexivity. }
  destruct Hc as (off & pos & Ho & Hc). unfold window_elems. intros E. assert (Hin : In (el x pos) (flat_map (fun off => match covered (sh x) ss ps ix off with Some p => [el x p] | None => [] end) (indices ws))); [|rewrite E in Hin; exact Hin].
  apply in_flat_map. exists off. split; [now apply indices_spec|]. rewrite Hc. left. reflexivity.
Qed.
End nn.

(** ** Examples *)
#[local] Existing Instance Histories.
Definition zero_init {K : Prng} : initialiser := fun _ _ _ => 0%R.
(** a convolutional network: 8x8 images with 3 channels *)
Definition convnet : template :=
  TSerial [TLeaf (Conv 4 3 3 (Some (2, 2)) SAME zero_init zero_init true); TLeaf Relu; TSerial [TLeaf (Pooling AvgPool [2; 2] None VALID); TLeaf (BatchNorm [0; 1] (99/100) (1/100000) true true zero_init zero_init)];
           TLeaf (Deconv 2 3 3 (Some (2, 2)) SAME zero_init zero_init false); TLeaf Flatten; TLeaf (Dense 10 zero_init zero_init); TLeaf Softmax].
Lemma ex_convnet : admissible convnet [[8; 8; 3]%Z] /\ tspec convnet [[8; 8; 3]%Z] = inl (SOne [10]%Z) /\
  exists out, template_call convnet (Some []) [mk_arr [8; 8; 3] (fun _ => 1%R)] None [] = inl (One out).
Proof.
  split; [|split; [vm_compute; reflexivity|]].
  - cbn [admissible convnet]. repeat split; intros; try (match goal with H : tspec _ _ = inl _ |- _ => vm_compute in H; injection H as <- end); cbn [as_specs]; try constructor; try lia; auto.
    vm_compute in H0. injection H0 as <-. vm_compute in H1. injection H1 as <-. cbn [as_specs]. constructor; lia.
  - set (r := template_call _ _ _ _ _). assert (H : match r with inl (One _) => true | _ => false end = true) by (vm_compute; reflexivity). destruct r as [[o|]|]; try discriminate. eauto.
Qed.
(** Deconv on an empty image: the spec says 0 rows, the output has 1 (why S_deconv asks for non-empty images) *)
Lemma ex_deconv_empty : tspec (TLeaf (Deconv 1 3 3 (Some (2, 2)) SAME zero_init zero_init false)) [[0; 4; 1]%Z] = inl (SOne [0; 8; 1]%Z) /\
  exists out, template_call (TLeaf (Deconv 1 3 3 (Some (2, 2)) SAME zero_init zero_init false)) (Some []) [mk_arr [0; 4; 1] (fun _ => 0%R)] None [] = inl (One out) /\ sh out = [1; 8; 1].
Proof.
  split; [vm_compute; reflexivity|]. set (r := template_call _ _ _ _ _). assert (H : match r with inl (One o) => sh o | _ => [] end = [1; 8; 1]) by (vm_compute; reflexivity).
  destruct r as [[o|]|]; try discriminate. eauto.
Qed.
Print Assumptions C61_spec_predicts_shape.
Print Assumptions C61_windows_never_empty.
