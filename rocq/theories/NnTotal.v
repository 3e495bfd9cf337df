(** C61: templates whose hyper-parameters fit the shapes of the inputs can be initialised and called. *)
From Verif Require Import NnBatch.

Section nn.
Context {PR : Prng}.
(** ** Specification: a layer class that fits inputs of the given specs.  [keyed]: there is a key for the layers that draw
    random numbers. *)
Inductive ready (keyed : Prop) : lclass -> list spec -> Prop :=
| Rd_dense d ki bi s : s <> [] -> (0 <= d)%Z -> ready keyed (Dense d ki bi) [zshape s]
| Rd_dropout r s : keyed -> ready keyed (Dropout r) [zshape s]
| Rd_activation f s : ready keyed (Activation f) [zshape s]
| Rd_flatten s : ready keyed Flatten [zshape s]
| Rd_reshape ds s : prod ds = prod s -> ready keyed (Reshape (zshape ds)) [zshape s]                       (* the same number of elements *)
| Rd_pooling kd w st pd s c : List.length s < 3 -> List.length w = List.length s -> List.length (or_ones st w) = List.length w -> Forall (lt 0) w -> Forall (lt 0) (or_ones st w) -> ready keyed (Pooling kd w st pd) [zshape (s ++ [c])]
| Rd_conv oc fh fw st pd ki bi b h w c : (0 <= oc)%Z -> 0 < fh -> 0 < fw -> 0 < fst (conv_strides st) -> 0 < snd (conv_strides st) -> ready keyed (Conv oc fh fw st pd ki bi b) [zshape [h; w; c]]
| Rd_deconv oc fh fw st pd ki bi b h w c : (0 <= oc)%Z -> 0 < fh -> 0 < fw -> 0 < fst (conv_strides st) -> 0 < snd (conv_strides st) -> 0 < h -> 0 < w -> ready keyed (Deconv oc fh fw st pd ki bi b) [zshape [h; w; c]]
| Rd_batchnorm ax m e ce sc bi gi s : NoDup ax -> Forall (fun a => a < List.length s) ax -> In 0 ax -> Forall (lt 0) s -> ready keyed (BatchNorm ax m e ce sc bi gi) [zshape s].
(** every layer of the template fits the specs that reach it, and no Serial is empty *)
Fixpoint fitting (keyed : Prop) (t : template) (ss : list spec) {struct t} : Prop :=
  match t with
  | TLeaf c => ready keyed c ss
  | TSerial ts => ts <> [] /\ (fix go (ts : list template) (ss : list spec) {struct ts} : Prop :=
      match ts with [] => True | t :: ts' => fitting keyed t ss /\ forall v, tspec t ss = inl v -> go ts' (as_specs v) end) ts ss
  end.
(** a key is given, or training is switched off *)
Definition has_key (rng : option key) (kw : kwargs) : Prop := kget "training" kw = Some (KBool false) \/ rng <> None /\ kget "rng" kw = None.

(** ** Proofs *)
Lemma ready_standard K c ss : ready K c ss -> standard c ss.
Proof.
  destruct 1; try constructor; try lia. unfold zshape. apply Forall_forall. intros z Hz. apply in_map_iff in Hz as (n & <- & _). lia.
Qed.
Lemma create_total i k s : Forall (fun d => 0 <= d)%Z s -> exists a, create i k s = inl a.
Proof. intros H. unfold create. replace (forallb (Z.leb 0) s) with true; [eauto|]. symmetry. apply forallb_forall. rewrite Forall_forall in H. intros d Hd. apply Z.leb_le, H, Hd. Qed.
Lemma zshape_pos s : Forall (fun d => 0 <= d)%Z (zshape s).
Proof. apply Forall_forall. intros z Hz. apply in_map_iff in Hz as (n & <- & _). lia. Qed.
Lemma last_pos s d : Forall (fun d => 0 <= d)%Z s -> (0 <= d)%Z -> (0 <= last s d)%Z.
Proof. intros H Hd. induction H as [|x s Hx Hs IH]; [exact Hd|]. destruct s; [exact Hx|exact IH]. Qed.
Lemma dropwhile1_pos s : Forall (fun d => 0 <= d)%Z s -> Forall (fun d => 0 <= d)%Z (dropwhile1 s).
Proof. induction 1 as [|x s Hx Hs IH]; [constructor|]. unfold dropwhile1 in *. destruct (x =? 1)%Z; [exact IH|constructor; assumption]. Qed.
Lemma conv_init_total tr oc fh fw st pd ki bi b h w c k : (0 <= oc)%Z -> exists p, conv_init tr oc fh fw st pd ki bi b k [zshape [h; w; c]] = inl p.
Proof.
  intros Ho. unfold conv_init. cbn [spec1 zshape map]. unfold conv_info. destruct (conv_strides st) as [s1 s2]. cbn [nb fst snd].
  destruct (create_total ki (fst (split2 k)) [Z.of_nat fh; Z.of_nat fw; Z.of_nat c; oc]) as (kernel & ->); [repeat constructor; lia|]. cbn [nb]. destruct b; [|eauto].
  destruct (create_total bi (snd (split2 k)) (dropwhile1 [1; 1; 1; oc]%Z)) as (bias & ->); [apply dropwhile1_pos; repeat constructor; lia|]. cbn [nb]. eauto.
Qed.
Lemma init_total K c ss k : ready K c ss -> exists p, c_init c k ss = inl p.
Proof.
  destruct 1; cbn [c_init Dense Dropout Activation Flatten Reshape Pooling Conv Deconv ConvLayer]; try (cbn; eauto; fail).
  - unfold dense_init, spec1. destruct (zshape s) as [|z0 z1] eqn:E; [destruct s; [congruence|discriminate]|]. rewrite <- E. destruct (create_total ki (fst (split2 k)) [last (zshape s) 0%Z; d]) as (a & ->); [repeat constructor; [apply last_pos; [apply zshape_pos|lia]|assumption]|]. cbn [nb].
    destruct (create_total bi (snd (split2 k)) [d]) as (b & ->); [repeat constructor; assumption|]. cbn [nb]. eauto.
  - apply conv_init_total. assumption.
  - apply conv_init_total. assumption.
  - destruct (C62_total ax m e ce sc bi gi s k None []) as (p0 & _ & H4 & _); auto. exists p0. exact H4.
Qed.
Lemma zip_total f a b : below (sh b) (sh a) -> exists c, zip_arr f a b = inl c /\ sh c = sh a.
Proof. intros H. unfold zip_arr. rewrite (bshape_l _ _ H). eauto. Qed.
Lemma pad_sum p d w s : (0 <= fst (pad_dim p d w s) + snd (pad_dim p d w s))%Z.
Proof. destruct p; cbn; lia. Qed.
Lemma window_dim_total d w s p : 0 < w -> 0 < s -> (0 <= fst p + snd p)%Z -> window_dim d w s p = inl (nfit (Z.to_nat (Z.of_nat d + fst p + snd p)) w s).
Proof.
  intros H1 H2 H3. unfold window_dim. cbv zeta. destruct (Nat.eqb_spec w 0); [lia|]. destruct (Nat.eqb_spec s 0); [lia|]. destruct (Z.ltb_spec (Z.of_nat d + fst p + snd p) 0); [lia|]. reflexivity.
Qed.
Lemma window_dims_total p ds : forall ws ss, List.length ws = List.length ds -> List.length ss = List.length ds -> Forall (lt 0) ws -> Forall (lt 0) ss ->
  exists ps r, padtype_to_pads p (zlist ds) (zlist ws) (zlist ss) = inl ps /\ window_dims ds ws ss ps = inl r.
Proof.
  induction ds as [|d ds IH]; intros [|w ws] [|s ss] L1 L2 F1 F2; try discriminate; [exists [], []; split; reflexivity|]. inversion F1; subst. inversion F2; subst. destruct (IH ws ss) as (ps & r & E1 & E2); auto.
  change (zlist (d :: ds)) with (Z.of_nat d :: zlist ds). change (zlist (w :: ws)) with (Z.of_nat w :: zlist ws). change (zlist (s :: ss)) with (Z.of_nat s :: zlist ss). cbn [padtype_to_pads]. rewrite E1. cbn [nb].
  eexists _, _. split; [reflexivity|]. cbn [window_dims]. rewrite window_dim_total by (auto using pad_sum). cbn [nb]. rewrite E2. reflexivity.
Qed.
Lemma reduce_window_total red x ws ss p : List.length ws = List.length (sh x) -> List.length ss = List.length (sh x) -> Forall (lt 0) ws -> Forall (lt 0) ss -> exists y, reduce_window red x ws ss p = inl y.
Proof. intros L1 L2 F1 F2. destruct (window_dims_total p (sh x) ws ss L1 L2 F1 F2) as (ps & r & E1 & E2). unfold reduce_window. rewrite E1. cbn [nb]. rewrite E2. cbn [nb]. eauto. Qed.
Lemma pool_total kd w st p x s c : sh x = s ++ [c] -> List.length w = List.length s -> List.length (or_ones st w) = List.length w -> Forall (lt 0) w -> Forall (lt 0) (or_ones st w) ->
  exists y s', pool_batched kd (IPool w (1 :: w ++ [1]) (1 :: or_ones st w ++ [1]) p) (newaxis x) = inl y /\ sh y = 1 :: s'.
Proof.
  intros Hx L1 L2 F1 F2. assert (F1' : Forall (lt 0) (1 :: w ++ [1])) by (constructor; [lia|apply Forall_app; split; [exact F1|repeat constructor]]). assert (F2' : Forall (lt 0) (1 :: or_ones st w ++ [1])) by (constructor; [lia|apply Forall_app; split; [exact F2|repeat constructor]]).
  assert (M : forall red, exists y, reduce_window red (newaxis x) (1 :: w ++ [1]) (1 :: or_ones st w ++ [1]) p = inl y).
  { intros red. apply reduce_window_total; auto; change (sh (newaxis x)) with (1 :: sh x); rewrite Hx; cbn [List.length]; rewrite !app_length; cbn [List.length]; lia. }
  assert (H0 : forall red y, reduce_window red (newaxis x) (1 :: w ++ [1]) (1 :: or_ones st w ++ [1]) p = inl y -> exists s', sh y = 1 :: s').
  { intros red y E. apply reduce_window_ok in E as (ps & E1 & E2). change (sh (newaxis x)) with (1 :: sh x) in *. change (zlist (1 :: sh x)) with (1%Z :: zlist (sh x)) in E1. change (zlist (1 :: w ++ [1])) with (1%Z :: zlist (w ++ [1])) in E1. change (zlist (1 :: or_ones st w ++ [1])) with (1%Z :: zlist (or_ones st w ++ [1])) in E1.
    cbn [padtype_to_pads] in E1. apply nb_inl in E1 as (ps' & _ & E1). injection E1 as <-. cbn [window_dims] in E2. destruct (pad_one p 1) as [Hp|]; [|lia]. rewrite Hp in E2. apply nb_inl in E2 as (n & En & E2). apply nb_inl in E2 as (r & _ & E2). injection E2 as <-. vm_compute in En. injection En as <-. eauto. }
  destruct kd; cbn [pool_batched].
  - destruct (M rmax) as (y & E). destruct (H0 _ _ E) as (s' & Es). eauto.
  - destruct (M rsum) as (y & E). destruct (H0 _ _ E) as (s' & Es). eauto.
  - destruct (M rsum) as (outs & E). destruct (H0 _ _ E) as (s' & Es). change (sh (newaxis x)) with (1 :: sh x). cbn [tl]. rewrite Hx. rewrite !removelast_last.
    destruct (reduce_window_total rsum (mk_arr s (fun _ => 1%R)) w (or_ones st w) p) as (sizes & E'); auto; [cbn; congruence|]. rewrite E'. cbn [nb]. rewrite E. cbn [nb].
    destruct (zip_total Rdiv outs (mk_arr (sh sizes ++ [1]) (fun ix => el sizes (removelast ix)))) as (y & -> & Ey); [|exists y, s'; split; [reflexivity|congruence]].
    apply reduce_window_ok in E as (ps & P2 & W2). apply reduce_window_ok in E' as (ps1 & P1 & W1). change (sh (newaxis x)) with (1 :: sh x) in *. cbn [sh] in *. rewrite Hx in *.
    change (zlist (1 :: s ++ [c])) with (1%Z :: zlist (s ++ [c])) in P2. change (zlist (1 :: w ++ [1])) with (1%Z :: zlist (w ++ [1])) in P2. change (zlist (1 :: or_ones st w ++ [1])) with (1%Z :: zlist (or_ones st w ++ [1])) in P2.
    cbn [padtype_to_pads] in P2. apply nb_inl in P2 as (ps2 & P2 & Eps). injection Eps as <-. rewrite !zlist_app in P2. apply pads_snoc in P2 as (ps3 & -> & P3); [|unfold zlist; rewrite !map_length; lia|unfold zlist; rewrite !map_length; lia].
    rewrite P1 in P3. injection P3 as ->. cbn [window_dims] in W2. apply nb_inl in W2 as (n0 & _ & W2). apply nb_inl in W2 as (r & W2 & E2). injection E2 as E2.
    apply padtype_length in P1 as (_ & _ & L4). unfold zlist in L4. rewrite map_length in L4.
    apply dims_snoc in W2 as (r' & n & -> & W2 & _); [|lia|lia|lia]. rewrite W1 in W2. injection W2 as <-. rewrite <- E2. apply (below_tail [n0]). unfold below. rewrite !rev_app_distr. cbn. constructor; [auto|apply bsub_refl].
Qed.
Lemma tpads_sum p k s : 0 < k -> 0 < s -> (0 <= fst (transpose_pads (Z.of_nat k) (Z.of_nat s) p) + snd (transpose_pads (Z.of_nat k) (Z.of_nat s) p))%Z.
Proof. intros Hk Hs. destruct p; cbn [transpose_pads fst snd]; lia. Qed.
Lemma conv2d_total x kernel n h w c fh fw co st ph pw dil : sh x = [n; h; w; c] -> sh kernel = [fh; fw; c; co] -> 0 < fh -> 0 < fw -> 0 < fst st -> 0 < snd st -> 0 < fst dil -> 0 < snd dil -> (0 <= fst ph + snd ph)%Z -> (0 <= fst pw + snd pw)%Z ->
  exists y oh ow, conv2d x kernel st ph pw dil = inl y /\ sh y = [n; oh; ow; co].
Proof.
  intros Hx Hk. intros. unfold conv2d. rewrite Hx, Hk, Nat.eqb_refl. destruct (Nat.eqb_spec (fst dil) 0); [lia|]. destruct (Nat.eqb_spec (snd dil) 0); [lia|]. cbn [negb orb]. rewrite !window_dim_total by assumption. cbn [nb]. eexists _, _, _. split; reflexivity.
Qed.
Lemma conv_total tr oc fh fw st pd ki bi b h w c p x kw : sh x = [h; w; c] -> inst (ConvLayer tr oc fh fw st pd ki bi b) [zshape [h; w; c]] p -> 0 < fh -> 0 < fw -> 0 < fst (conv_strides st) -> 0 < snd (conv_strides st) ->
  exists out, conv_call tr p [x] kw = inl out.
Proof.
  intros Hx Hi Hfh Hfw Hs1 Hs2. destruct Hi as (k0 & p0 & Hi & F1 & _ & F3). cbn [c_init ConvLayer] in Hi. unfold conv_init in Hi. cbn [spec1] in Hi. apply nb_inl in Hi as ([[os ks] bs] & Hinfo & Hi). cbn [fst snd] in Hi. apply nb_inl in Hi as (kernel & Hk & Hi). apply create_ok in Hk.
  unfold conv_info, zshape in Hinfo. cbn [map] in Hinfo. destruct (conv_strides st) as [s1 s2] eqn:Est. cbn [fst snd] in Hs1, Hs2. injection Hinfo as <- <- <-.
  assert (Hform : exists bias, l_params p0 = PNode "ConvParams" [PLeaf kernel; bias] /\ l_info p0 = IConv (mk_ci (s1, s2) pd b) /\ (b = true -> exists bb, bias = PLeaf bb /\ zshape (sh bb) = dropwhile1 [1; 1; 1; oc]%Z)).
  { destruct b; [apply nb_inl in Hi as (bb & Hb & Hi); injection Hi as <-; apply create_ok in Hb; eexists; repeat split; eauto|injection Hi as <-; eexists; repeat split; discriminate]. }
  destruct Hform as (bias & Ep & Einfo & Hbias). rewrite Ep in F1. apply form_pair in F1 as (t1 & bias' & Ep' & F1 & F2). apply form_leaf in F1 as (kernel' & -> & K1).
  unfold conv_call, on1. rewrite Hx. cbn [List.length Nat.eqb negb]. unfold conv_batched. rewrite Ep', <- F3, Einfo. change (sh (newaxis x)) with (1 :: sh x). rewrite Hx. rewrite <- K1 in Hk. destruct (sh kernel') as [|fh' [|fw' [|ci [|co [|]]]]] eqn:Ek; try discriminate.
  unfold zshape in Hk. cbn [map] in Hk. injection Hk as E1 E2 E4 E5. apply Nat2Z.inj in E1, E2, E4. subst fh' fw' ci. cbn [ci_strides ci_padding ci_bias].
  assert (Hx1 : sh (newaxis x) = [1; h; w; c]) by (cbn; now rewrite Hx).
  assert (Hc : exists y oh ow, (if tr then conv2d (newaxis x) kernel' (1, 1) (transpose_pads (Z.of_nat fh) (Z.of_nat s1) pd) (transpose_pads (Z.of_nat fw) (Z.of_nat s2) pd) (s1, s2)
     else conv2d (newaxis x) kernel' (s1, s2) (pad_dim pd (Z.of_nat h) (Z.of_nat fh) (Z.of_nat s1)) (pad_dim pd (Z.of_nat w) (Z.of_nat fw) (Z.of_nat s2)) (1, 1)) = inl y /\ sh y = [1; oh; ow; co]).
  { destruct tr; eapply conv2d_total; eauto; cbn [fst snd]; auto using tpads_sum, pad_sum. }
  destruct Hc as (y & oh & ow & -> & Hy). cbn [nb]. assert (Hz : exists z, (if b then match bias' with PLeaf b0 => zip_arr Rplus y b0 | PNode _ _ => inr NType end else inl y) = inl z /\ sh z = [1; oh; ow; co]).
  { destruct b; [|eauto]. destruct (Hbias eq_refl) as (bb & -> & Ebb). apply form_leaf in F2 as (bb' & -> & Eb'). rewrite <- Eb', <- E5 in Ebb. destruct (zip_total Rplus y bb') as (z & -> & Ez); [eapply bias_below; [|exact Ebb]; eauto|]. exists z. split; [reflexivity|congruence]. }
  destruct Hz as (z & -> & Ez). cbn [nb]. unfold index0. rewrite Ez. cbn [nb]. eauto.
Qed.
Lemma kget_filter s (f : string -> bool) (kw : kwargs) : f s = true -> kget s (filter (fun kv => f (fst kv)) kw) = kget s kw.
Proof. intros H. induction kw as [|[t v] kw IH]; [reflexivity|]. cbn. destruct (f t) eqn:Et; cbn; destruct (String.eqb_spec s t) as [<-|]; auto; congruence. Qed.
Lemma kget_app s (kw : kwargs) t v : kget s (kw ++ [(t, v)]) = match kget s kw with Some w => Some w | None => if String.eqb s t then Some v else None end.
Proof. induction kw as [|[u w] kw IH]; [reflexivity|]. cbn. destruct (String.eqb s u); [reflexivity|exact IH]. Qed.
Definition kw_of (rng : option key) (kw : kwargs) : kwargs := match rng with None => kw | Some k => kw ++ [("rng", KKey k)] end.
Lemma form_nil t : form (tuple []) = form t -> t = tuple [].
Proof. destruct t as [a|n [|u l]]; unfold form; cbn; intros H; try discriminate. injection H as H. unfold tuple. congruence. Qed.
Lemma bn_has_params ax m e ce sc bi gi s p : inst (BatchNorm ax m e ce sc bi gi) [zshape s] p -> has_params ax ce sc s p.
Proof.
  intros (k & p0 & H & F1 & _ & _). destruct (init_val _ _ _ _ _ _ _ _ _ _ H) as ((n & beta & gamma & Hp & Hb & Hg) & _). rewrite Hp in F1. apply form_pair in F1 as (beta' & gamma' & E & Fb & Fg).
  exists n, beta', gamma'. split; [exact E|]. split.
  - destruct ce; [destruct Hb as (b & -> & Sb); apply form_leaf in Fb as (b' & -> & Eb); exists b'; split; congruence|subst beta; now apply form_nil].
  - destruct sc; [destruct Hg as (b & -> & Sb); apply form_leaf in Fg as (b' & -> & Eb); exists b'; split; congruence|subst gamma; now apply form_nil].
Qed.
Lemma call_total K c ss p args rng kw : ready K c ss -> (K -> has_key rng kw) -> inst c ss p -> shapes args = ss -> exists out p', c_call c p args (filter_kwargs (c_sig c) (kw_of rng kw)) = inl out /\ c_update c p args (filter_kwargs (c_usig c) (kw_of rng kw)) = inl p'.
Proof.
  intros Hr HK Hi Hs. destruct Hr; apply shapes_one in Hs as (x & -> & Hs); apply zshape_inj in Hs.
  - (* Dense *)
    destruct Hi as (k & p0 & Hi & F1 & _). cbn [c_init c_call c_update Dense] in *. unfold dense_init, spec1 in Hi. destruct (zshape s) as [|z0 z1] eqn:Ez; [discriminate|]. rewrite <- Ez in Hi.
    apply nb_inl in Hi as (kernel & Hk & Hi). apply nb_inl in Hi as (bias & Hb & Hi). injection Hi as <-. apply create_ok in Hk. apply create_ok in Hb. cbn [l_params] in F1.
    apply form_pair in F1 as (t1 & t2 & E & F1 & F2). apply form_leaf in F1 as (kernel' & -> & K1). apply form_leaf in F2 as (bias' & -> & K2). unfold dense_call, on1. rewrite E. rewrite <- K1 in Hk. rewrite <- K2 in Hb.
    destruct (sh kernel') as [|a [|o [|]]] eqn:Ek; try discriminate. unfold zshape in Hk at 1. cbn [map] in Hk. injection Hk as Ha Ho. destruct (sh bias') as [|o' [|]] eqn:Eb; try discriminate. cbn in Hb. injection Hb as Hb. assert (o' = o) by lia. subst o'.
    assert (Hd : exists y, dot x kernel' = inl y /\ sh y = removelast s ++ [o]).
    { unfold dot. rewrite Ek, Hs. destruct s as [|x0 x1]; [congruence|]. assert (El : last (x0 :: x1) 0 = a). { apply Nat2Z.inj. rewrite Ha. unfold zshape. rewrite <- (last_map Z.of_nat (x0 :: x1) 0) by discriminate. reflexivity. } rewrite El, Nat.eqb_refl. eexists. split; reflexivity. }
    destruct Hd as (y & -> & Hy). cbn [nb]. destruct (zip_total Rplus y bias') as (z & -> & _); [rewrite Hy, Eb; apply below_last|]. cbn [nb]. eexists _, _. split; reflexivity.
  - (* Dropout *)
    destruct Hi as (k & p0 & Hi & _ & _ & F3). cbn [c_init c_call c_update c_sig Dropout] in *. injection Hi as <-. cbn [l_info] in F3. unfold dropout_call, on1. rewrite <- F3.
    assert (Ef : filter_kwargs with_training_rng (kw_of rng kw) = filter (fun kv => mem (fst kv) ["training"; "rng"]) (kw_of rng kw)) by reflexivity. rewrite Ef.
    rewrite !(kget_filter _ (fun s => mem s ["training"; "rng"])) by reflexivity. destruct (HK H) as [Ht|[Hn Ht]].
    + assert (Et : kget "training" (kw_of rng kw) = Some (KBool false)) by (destruct rng; cbn [kw_of]; [rewrite kget_app, Ht; reflexivity|exact Ht]). rewrite Et. eexists _, _. split; reflexivity.
    + destruct rng as [k1|]; [|congruence]. cbn [kw_of]. assert (Er : kget "rng" (kw ++ [("rng", KKey k1)]) = Some (KKey k1)) by (rewrite kget_app, Ht; reflexivity). rewrite Er.
      destruct (match kget "training" (kw ++ [("rng", KKey k1)]) with Some (KBool b) => b | _ => true end); eexists _, _; split; reflexivity.
  - (* Activation *) cbn. eexists _, _. split; reflexivity.
  - (* Flatten *)
    cbn [c_call c_update Flatten]. unfold flatten_call, on1, flatten_spec. cbn [spec1 nb]. unfold reshape, infer. rewrite prod_z.
    assert (E0 : (Z.of_nat (prod (sh x)) =? -1)%Z = false) by (apply Z.eqb_neq; lia). cbn [filter List.length]. assert (E0' : (-1 =? Z.of_nat (prod (sh x)))%Z = false) by (apply Z.eqb_neq; lia). rewrite E0', E0. cbn [negb List.length forallb fold_right].
    assert (E1 : (0 <=? Z.of_nat (prod (sh x)))%Z = true) by (apply Z.leb_le; lia). rewrite E1, Z.mul_1_r, Z.eqb_refl. cbn. eexists _, _. split; reflexivity.
  - (* Reshape *)
    destruct Hi as (k & p0 & Hi & _ & _ & F3). cbn [c_init c_call c_update Reshape] in *. injection Hi as <-. cbn [l_info] in F3. unfold reshape_call, on1, reshape_spec. rewrite <- F3. cbn [spec1 nb]. unfold reshape, infer.
    assert (E1 : filter (Z.eqb (-1)) (zshape ds) = []). { clear. induction ds as [|d ds IH]; [reflexivity|]. cbn [zshape map filter]. destruct (Z.eqb_spec (-1) (Z.of_nat d)); [lia|exact IH]. }
    assert (E2 : filter (fun d => negb (d =? -1)%Z) (zshape ds) = zshape ds). { clear. induction ds as [|d ds IH]; [reflexivity|]. cbn [zshape map filter]. destruct (Z.eqb_spec (Z.of_nat d) (-1)); [lia|]. cbn [negb]. f_equal. exact IH. }
    assert (E3 : forallb (Z.leb 0) (zshape ds) = true) by (apply forallb_forall; intros z Hz; apply in_map_iff in Hz as (n & <- & _); apply Z.leb_le; lia).
    rewrite E1, E2, E3, prod_z. cbn [List.length andb]. rewrite H, Hs, Z.eqb_refl. cbn. eexists _, _. split; reflexivity.
  - (* Pooling *)
    destruct Hi as (k & p0 & Hi & _ & _ & F3). cbn [c_init c_call c_update Pooling] in *. injection Hi as <-. cbn [l_info] in F3. unfold pool_call, on1. rewrite <- F3, Hs, app_length. cbn [List.length]. destruct (Nat.ltb_spec 3 (List.length s + 1)); [lia|].
    destruct (pool_total kd w st pd x s c Hs H0 H1 H2 H3) as (y & s' & -> & Hy). cbn [nb]. unfold index0. rewrite Hy. cbn [nb]. eexists _, _. split; reflexivity.
  - (* Conv *)
    destruct (conv_total false oc fh fw st pd ki bi b h w c p x (filter_kwargs (c_sig (Conv oc fh fw st pd ki bi b)) (kw_of rng kw)) Hs Hi H0 H1 H2 H3) as (out & E). cbn [c_call c_update Conv ConvLayer]. exists out, p. split; [exact E|reflexivity].
  - (* Deconv *)
    destruct (conv_total true oc fh fw st pd ki bi b h w c p x (filter_kwargs (c_sig (Deconv oc fh fw st pd ki bi b)) (kw_of rng kw)) Hs Hi H0 H1 H2 H3) as (out & E). cbn [c_call c_update Deconv ConvLayer]. exists out, p. split; [exact E|reflexivity].
  - (* BatchNorm *)
    pose proof (axes_ok_intro ax s H H0) as Ha. destruct (bn_inst _ _ _ _ _ _ _ _ _ Hi) as (beta & gamma & mm & mv & Hp & Hst & Hinfo & Hmm & Hmv & Hbeta & Hgamma).
    assert (Hss : has_state ax s p mm mv) by (split; auto). destruct (single_update ax m e ce sc s p mm mv x Ha H2 H1 Hss Hinfo Hs) as (p' & mm' & mv' & Hu & _).
    cbn [c_call c_update BatchNorm]. rewrite bn_update_kw, Hu. unfold bn_call, on1. rewrite Hinfo. cbn [bn_shape]. rewrite Hs, Nat.eqb_refl. cbn [negb]. destruct (training_of _); [eexists _, _; split; reflexivity|].
    assert (Hx1 : sh (newaxis x) = 1 :: s) by (cbn; now rewrite Hs). pose proof (bn_has_params _ _ _ _ _ _ _ _ _ Hi) as Hpp.
    destruct (call_val ax m e ce sc s p false mm mv (newaxis x) 1 mm mv) as (out & Ec & So & _); [split; auto|exact Hinfo|exact Hpp|exact Hx1|reflexivity|rewrite Hmm; apply (below_tail [1]), keep_below|rewrite Hmv; apply (below_tail [1]), keep_below|].
    rewrite Ec. cbn [nb]. unfold index0. rewrite So, Hx1. cbn [nb]. eexists _, _. split; reflexivity.
Qed.
Lemma fitting_admissible K t : forall ss, fitting K t ss -> admissible t ss.
Proof.
  induction t as [c|ts IH] using template_ind'; intros ss H; [eapply ready_standard, H|]. cbn [fitting admissible] in *. destruct H as [_ H]. revert ss H. induction IH as [|t ts Ht _ IHts]; intros ss H; [exact I|]. destruct H as [H1 H2]. split; [apply Ht, H1|]. intros v Hv. apply IHts, H2, Hv.
Qed.
Lemma has_key_fst (f : key -> key) rng kw : has_key rng kw -> has_key (option_map f rng) kw.
Proof. intros [H|[H1 H2]]; [left; exact H|right; split; [destruct rng; [discriminate|congruence]|exact H2]]. Qed.
Lemma instance_shape K t ss l args rng kw out l' : instance t ss l -> fitting K t ss -> shapes args = ss -> call_and_update l args rng kw = inl (out, l') -> tspec t ss = inl (shape_of out).
Proof.
  intros Hi Hf Hs H. destruct (cau_shape t ss l args rng kw out l' Hi (fitting_admissible K t ss Hf) Hs H) as [[E|(ts & -> & ->)] _]; [exact E|]. destruct Hf as [Hf _]. congruence.
Qed.
Lemma cau_total K t : forall ss l args rng kw, instance t ss l -> fitting K t ss -> (K -> has_key rng kw) -> shapes args = ss -> exists out l', call_and_update l args rng kw = inl (out, l').
Proof.
  induction t as [c|ts IH] using template_ind'; intros ss l args rng kw Hi Hf Hk Hs.
  - inversion Hi as [? ? p n Hinst|]; subst. rewrite leaf_eq. destruct (call_total K c _ p args rng kw Hf Hk Hinst eq_refl) as (out & p' & H1 & H2). exists out, (Leaf c p' n). change (leaf_step c p n args rng kw) with (nb (c_call c p args (filter_kwargs (c_sig c) (kw_of rng kw))) (fun out => nb (c_update c p args (filter_kwargs (c_usig c) (kw_of rng kw))) (fun p' => inl (out, Leaf c p' n)))). rewrite H1. cbn [nb]. rewrite H2. reflexivity.
  - inversion Hi as [|? ? ls n His]; subst. destruct Hf as [Hne Hf].
    set (ga := fix go (ts : list template) (ss : list spec) {struct ts} : Prop := _) in Hf.
    assert (G : forall ts ls v rng, Forall (fun t => forall ss l args rng kw, instance t ss l -> fitting K t ss -> (K -> has_key rng kw) -> shapes args = ss -> exists out l', call_and_update l args rng kw = inl (out, l')) ts ->
      instances ts (shapes (as_args v)) ls -> ga ts (shapes (as_args v)) -> (K -> has_key rng kw) -> exists out ls', chain call_and_update kw ls v rng = inl (out, ls')).
    { clear - PR. induction ts as [|t ts IHts]; intros ls v rng IH His Ha Hk; inversion His as [|? ? ? l1 ls1 v1 J1 J2 J3]; subst; [cbn; eauto|].
      inversion IH as [|? ? It Its]; subst. destruct Ha as [Ha1 Ha2]. destruct (It _ _ (as_args v) (option_map (fun k => snd (split2 k)) rng) kw J1 Ha1) as (o & l' & H1); [auto using has_key_fst|reflexivity|].
      pose proof (instance_shape K _ _ _ _ _ _ _ _ J1 Ha1 eq_refl H1) as Ht. rewrite J2 in Ht. injection Ht as ->. cbn [chain]. rewrite H1. cbn [nb fst snd]. rewrite shape_of_args in J3.
      destruct (IHts ls1 o (option_map (fun k => fst (split2 k)) rng) Its J3) as (o2 & ls2 & H2); [rewrite <- shape_of_args; apply Ha2, J2|auto using has_key_fst|]. fold (chain call_and_update kw). rewrite H2. cbn [nb]. eauto. }
    destruct (G ts ls (Tup args) rng IH His Hf Hk) as (out & ls' & Hc). exists out, (Serial ls' n). apply serial_ok. split; [inversion His; subst; [congruence|discriminate]|]. eauto.
Qed.
Lemma shapes_nonneg args : Forall (Forall (fun d => 0 <= d)%Z) (shapes args).
Proof. apply Forall_forall. intros s Hs. apply in_map_iff in Hs as (a & <- & _). apply zshape_pos. Qed.
Lemma template_init_total K t : forall args name k, fitting K t (shapes args) -> exists l, init t name (Some k) (shapes args) = inl l.
Proof.
  induction t as [c|ts IH] using template_ind'; intros args name k Hf.
  - destruct (init_total K c (shapes args) k Hf) as (p & H). cbn [init]. rewrite H. cbn [nb]. rewrite through_inhabited by constructor. eauto.
  - destruct Hf as [Hne Hf]. set (ga := fix go (ts : list template) (ss : list spec) {struct ts} : Prop := _) in Hf.
    assert (G : exists ls, inits 0 ts (splitn k (List.length ts)) (shapes args) ls).
    { clear Hne. pose proof (splitn_length k (List.length ts)) as Hl. revert Hl. generalize (splitn k (List.length ts)). generalize 0. revert args Hf. induction IH as [|t ts Ht _ IHts]; intros args Hf i ks Hl; [eexists; constructor|].
      destruct ks as [|k0 ks]; [discriminate|]. injection Hl as Hl. destruct Hf as [H1 H2]. destruct (Ht args (Some (child_name i)) k0 H1) as (l & Hl0).
      destruct (cau_total K t (shapes args) l args None [("training", KBool false)]) as (out & l' & Hc); [eapply init_instance, Hl0|exact H1|intros _; left; reflexivity|reflexivity|].
      pose proof (instance_shape K _ _ _ _ _ _ _ _ (init_instance _ _ _ _ _ Hl0) H1 eq_refl Hc) as Hv. pose proof (H2 _ Hv) as H3. rewrite shape_of_args in H3. destruct (IHts (as_args out) H3 (S i) ks Hl) as (ls & Hls).
      exists (l :: ls). econstructor; [exact Hl0|exact Hv|rewrite shape_of_args; apply shapes_nonneg|rewrite shape_of_args; exact Hls]. }
    destruct G as (ls & G). exists (Serial ls name). apply C60_init. split; [exact Hne|]. split; [apply shapes_nonneg|]. eauto.
Qed.

(** ** C61, progress *)
(** a template that fits the inputs can be initialised, and the layer can be called again and again *)
Theorem C61_init_succeeds keyed t args name k : fitting keyed t (shapes args) -> exists l, init t name (Some k) (shapes args) = inl l.
Proof. apply template_init_total. Qed.
Theorem C61_call_succeeds (keyed : Prop) t l args rng kw : reached t (shapes args) l -> fitting keyed t (shapes args) -> (keyed -> has_key rng kw) ->
  exists out l', call_and_update l args rng kw = inl (out, l') /\ tspec t (shapes args) = inl (shape_of out).
Proof.
  intros Hr Hf Hk. pose proof (fitting_admissible _ _ _ Hf) as Ha. assert (Hi : instance t (shapes args) l).
  { clear - Hr Ha. remember (shapes args) as ss eqn:E. clear E args. induction Hr as [name k l H|l args rng kw out l' Hr IH Hs H]; [eapply init_instance, H|]. eapply cau_shape; eauto. }
  destruct (cau_total keyed t _ l args rng kw Hi Hf Hk eq_refl) as (out & l' & H). exists out, l'. split; [exact H|]. eapply instance_shape; eauto.
Qed.
Theorem C61_template_succeeds (keyed : Prop) t k args rng kw : fitting keyed t (shapes args) -> (keyed -> has_key rng kw) ->
  exists out, template_call t (Some k) args rng kw = inl out /\ tspec t (shapes args) = inl (shape_of out).
Proof.
  intros Hf Hk. destruct (C61_init_succeeds keyed t args None k Hf) as (l & Hl). destruct (C61_call_succeeds keyed t l args rng kw) as (out & l' & H & Ht); [eapply R_init, Hl|exact Hf|exact Hk|].
  exists out. split; [|exact Ht]. unfold template_call. fold (shapes args). rewrite Hl. cbn [nb]. rewrite H. reflexivity.
Qed.
End nn.
#[local] Existing Instance Histories.
(** the convolutional network fits 8x8 images with 3 channels; no layer of it draws random numbers *)
Lemma ex_fitting : fitting False convnet [zshape [8; 8; 3]].
Proof.
  unfold convnet. split; [discriminate|].
  split; [constructor; cbn; lia|]. intros v Hv. vm_compute in Hv. injection Hv as <-. change (as_specs (SOne [4; 4; 4]%Z)) with [zshape [4; 4; 4]].
  split; [constructor|]. intros v Hv. vm_compute in Hv. injection Hv as <-. change (as_specs (SOne [4; 4; 4]%Z)) with [zshape ([4; 4] ++ [4])].
  split.
  { split; [discriminate|]. split; [apply (Rd_pooling _ _ _ _ _ [4; 4] 4); cbn; repeat constructor|]. intros v Hv. vm_compute in Hv. injection Hv as <-. change (as_specs (SOne [3; 3; 4]%Z)) with [zshape [3; 3; 4]]. split; [|intros; exact I].
    apply Rd_batchnorm; [repeat constructor; cbn; intuition discriminate|repeat constructor|left; reflexivity|repeat constructor; lia]. }
  intros v Hv. vm_compute in Hv. injection Hv as <-. change (as_specs (SOne [3; 3; 4]%Z)) with [zshape [3; 3; 4]].
  split; [constructor; cbn; lia|]. intros v Hv. vm_compute in Hv. injection Hv as <-. change (as_specs (SOne [6; 6; 2]%Z)) with [zshape [6; 6; 2]].
  split; [constructor|]. intros v Hv. vm_compute in Hv. injection Hv as <-. change (as_specs (SOne [72]%Z)) with [zshape [72]].
  split; [constructor; [discriminate|lia]|]. intros v Hv. vm_compute in Hv. injection Hv as <-. change (as_specs (SOne [10]%Z)) with [zshape [10]].
  split; [constructor|]. intros; exact I.
Qed.
(** a Dropout layer needs a key unless training is off *)
Lemma ex_fitting_dropout : fitting True (TSerial [TLeaf (Dropout (1/2)); TLeaf (Dense 3 zero_init zero_init)]) [zshape [4]] /\ has_key None [("training", KBool false)] /\ has_key (Some []) [].
Proof.
  split; [|split; [left; reflexivity|right; split; [discriminate|reflexivity]]]. split; [discriminate|]. split; [constructor; exact I|]. intros v Hv. vm_compute in Hv. injection Hv as <-. change (as_specs (SOne [4]%Z)) with [zshape [4]]. split; [constructor; [discriminate|lia]|intros; exact I].
Qed.
Print Assumptions C61_template_succeeds.
