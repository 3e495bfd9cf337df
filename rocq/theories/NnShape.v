(** C61: the spec of a template predicts the shape of the output. *)
From Verif Require Export NnProps.

(** ** windows *)
Lemma filter_lt_length N : forall M i, List.length (filter (fun j => j <? N) (seq i M)) = Nat.min (N - i) M.
Proof.
  induction M as [|M IH]; intros i; [cbn; lia|]. cbn [seq filter]. destruct (Nat.ltb_spec i N); cbn [List.length]; rewrite IH; lia.
Qed.
Lemma nfit_spec d w s : 0 < s -> Z.of_nat (nfit d w s) = stride_dim (Z.of_nat d) (Z.of_nat w) (Z.of_nat s).
Proof.
  intros Hs. unfold nfit, windows. set (N := Z.to_nat (stride_dim (Z.of_nat d) (Z.of_nat w) (Z.of_nat s))).
  assert (HN : Z.of_nat N = stride_dim (Z.of_nat d) (Z.of_nat w) (Z.of_nat s)) by (unfold N, stride_dim; lia).
  assert (Hfit : forall j, (j * s + w <=? d) = (j <? N)).
  { intros j. apply eq_true_iff_eq. rewrite Nat.leb_le, Nat.ltb_lt. unfold stride_dim in HN.
    assert (Hdiv : (Z.of_nat j <= (Z.of_nat d - Z.of_nat w) / Z.of_nat s <-> Z.of_nat s * Z.of_nat j <= Z.of_nat d - Z.of_nat w)%Z).
    { split; intros H; [pose proof (Z.mul_div_le (Z.of_nat d - Z.of_nat w) (Z.of_nat s)); nia|]. apply Z.div_le_lower_bound; lia. }
    assert (Hmul : (Z.of_nat s * Z.of_nat j = Z.of_nat (j * s))%Z) by lia. lia. }
  rewrite (filter_ext _ _ Hfit), filter_lt_length.
  assert (N <= S d); [|lia]. destruct (Nat.le_gt_cases N (S d)) as [|Hgt]; [assumption|]. exfalso.
  assert (H1 : (S d <? N) = true) by (apply Nat.ltb_lt; lia). rewrite <- Hfit in H1. apply Nat.leb_le in H1. nia.
Qed.
Lemma window_dim_spec d w s p n : window_dim d w s p = inl n -> Z.of_nat n = stride_dim (Z.of_nat d + fst p + snd p) (Z.of_nat w) (Z.of_nat s) /\ 0 < s /\ 0 < w.
Proof.
  unfold window_dim. destruct (Nat.eqb_spec w 0); [discriminate|]. destruct (Nat.eqb_spec s 0); [discriminate|]. destruct (Z.ltb_spec (Z.of_nat d + fst p + snd p) 0); [discriminate|].
  cbn [orb]. intros [= <-]. rewrite nfit_spec by lia. rewrite Z2Nat.id by lia. split; [reflexivity|lia].
Qed.
Lemma window_dims_spec ds : forall ws ss ps r, window_dims ds ws ss ps = inl r -> reduce_window_shape (zlist ds) (zlist ws) (zlist ss) ps = inl (zlist r) /\
  List.length ws = List.length ds /\ List.length ss = List.length ds /\ List.length r = List.length ds.
Proof.
  induction ds as [|d ds IH]; intros [|w ws] [|s ss] [|p ps] r H; try discriminate; cbn in H.
  - injection H as <-. auto.
  - apply nb_inl in H as (n & H1 & H). apply nb_inl in H as (r' & H2 & H). injection H as <-. apply IH in H2 as (H2 & H3 & H4 & H5). apply window_dim_spec in H1 as (H1 & _).
    unfold zlist in *. cbn. destruct p as [lo hi]. rewrite H2. cbn in *. rewrite H1. repeat split; congruence.
Qed.

(** ** broadcasting with a smaller shape *)
Inductive bsub : list nat -> list nat -> Prop :=      (* on reversed shapes *)
| Bs_nil a : bsub [] a
| Bs_cons x y a b : (y = x \/ y = 1) -> bsub b a -> bsub (y :: b) (x :: a).
Lemma bshape_rev_nil a : bshape_rev a [] = Some a.
Proof. destruct a; reflexivity. Qed.
Lemma bsub_l a b : bsub b a -> bshape_rev a b = Some a.
Proof.
  induction 1 as [a|x y a b H _ IH]; [apply bshape_rev_nil|]. cbn. rewrite IH. destruct (Nat.eqb_spec x y); [reflexivity|]. destruct (Nat.eqb_spec x 1); [lia|]. destruct (Nat.eqb_spec y 1); [reflexivity|lia].
Qed.
Lemma bsub_r a b : bsub b a -> bshape_rev b a = Some a.
Proof.
  induction 1 as [a|x y a b H _ IH]; [reflexivity|]. cbn. rewrite IH. destruct (Nat.eqb_spec y x); [subst; reflexivity|]. destruct (Nat.eqb_spec y 1); [reflexivity|lia].
Qed.
Definition below (b a : list nat) : Prop := bsub (rev b) (rev a).
Lemma bshape_l a b : below b a -> bshape a b = Some a.
Proof. intros H. unfold bshape. rewrite (bsub_l _ _ H). cbn. now rewrite rev_involutive. Qed.
Lemma bshape_r a b : below b a -> bshape b a = Some a.
Proof. intros H. unfold bshape. rewrite (bsub_r _ _ H). cbn. now rewrite rev_involutive. Qed.
Lemma bsub_refl a : bsub a a.
Proof. induction a; constructor; auto. Qed.
Lemma below_refl a : below a a.
Proof. apply bsub_refl. Qed.
Lemma bsub_app a b c : bsub b a -> bsub b (a ++ c).
Proof. induction 1; cbn; constructor; auto. Qed.
Lemma below_tail c a b : below b a -> below b (c ++ a).
Proof. unfold below. rewrite rev_app_distr. apply bsub_app. Qed.
Lemma below_last o a : below [o] (a ++ [o]).
Proof. unfold below. rewrite rev_app_distr. cbn. constructor; [auto|constructor]. Qed.
Lemma bsub_snoc a b x y : List.length a = List.length b -> bsub b a -> (y = x \/ y = 1) -> bsub (b ++ [y]) (a ++ [x]).
Proof.
  intros Hl H. induction H as [a|x' y' a b Hxy _ IH]; intros Hx; cbn.
  - destruct a; [|discriminate]. constructor; [exact Hx|constructor].
  - constructor; [exact Hxy|]. apply IH; [cbn in Hl; congruence|exact Hx].
Qed.
Lemma below_cons a b x y : List.length a = List.length b -> below b a -> (y = x \/ y = 1) -> below (y :: b) (x :: a).
Proof. intros Hl H Hx. unfold below. cbn. apply bsub_snoc; [now rewrite !rev_length|exact H|exact Hx]. Qed.
Lemma keep_below ax s : below (keep_shape ax s) s.
Proof.
  unfold keep_shape. cut (forall i, below (mapi (fun i d => if amem i ax then 1 else d) i s) s); [auto|]. induction s as [|d s IH]; intros i; [constructor|]. cbn. apply below_cons; [|apply IH|destruct (amem i ax); auto].
  clear. generalize (S i). induction s; intros j; [reflexivity|]. cbn. f_equal. apply IHs.
Qed.
Lemma mapi_length {X Y} (f : nat -> X -> Y) l : forall i, List.length (mapi f i l) = List.length l.
Proof. induction l as [|x l IH]; intros i; [reflexivity|]. cbn. f_equal. apply IH. Qed.

Lemma zshape_inj a b : zshape a = zshape b -> a = b.
Proof. revert b. induction a as [|x a IH]; intros [|y b] H; try discriminate; [reflexivity|]. cbn in H. injection H as H1 H2. f_equal; [lia|apply IH, H2]. Qed.
Lemma to_nat_zshape s : map Z.to_nat (zshape s) = s.
Proof. unfold zshape. rewrite map_map. rewrite <- (map_id s) at 2. apply map_ext. intros; lia. Qed.
Lemma removelast_map {X Y} (f : X -> Y) l : removelast (map f l) = map f (removelast l).
Proof. induction l as [|x l IH]; [reflexivity|]. cbn. destruct l; [reflexivity|]. cbn in *. f_equal. exact IH. Qed.
Lemma last_map {X Y} (f : X -> Y) l d : l <> [] -> last (map f l) (f d) = f (last l d).
Proof. induction l as [|x l IH]; [congruence|]. intros _. cbn. destruct l; [reflexivity|]. apply IH. discriminate. Qed.

Section nn.
Context {PR : Prng}.

(** the same pytree with arrays of the same shapes, and the same static data *)
Definition form (t : ptree) : pdef * list (list nat) := (p_def t, map sh (p_leaves t)).
Definition same_form (p q : lparams) : Prop := form (l_params p) = form (l_params q) /\ form (l_state p) = form (l_state q) /\ l_info p = l_info q.
Lemma form_leaf a t : form (PLeaf a) = form t -> exists b, t = PLeaf b /\ sh b = sh a.
Proof. destruct t; cbn; intros H; [|discriminate]. injection H as H. eauto. Qed.
Lemma form_pair n s t u : form (PNode n [s; t]) = form u -> exists s' t', u = PNode n [s'; t'] /\ form s = form s' /\ form t = form t'.
Proof.
  destruct u as [|n' [|s' [|t' [|]]]]; try discriminate. unfold form. cbn. rewrite !app_nil_r. intros H. injection H as Hn Hs Ht Hl. exists s', t'. split; [congruence|]. rewrite Hs, Ht.
  rewrite !map_app in Hl. assert (Hlen : forall a b, p_def a = p_def b -> List.length (p_leaves a) = List.length (p_leaves b)).
  { clear. induction a as [x|n l IH] using ptree_ind'; intros [y|m k] H; try discriminate; [reflexivity|]. cbn in H. injection H as _ H. cbn. revert k H.
    induction IH as [|a l Ha _ IHl]; intros [|b k] H; try discriminate; [reflexivity|]. cbn in H. injection H as H1 H2. cbn. rewrite !app_length. f_equal; [apply Ha, H1|apply IHl, H2]. }
  apply Hlen in Hs. clear - Hl Hs. assert (Hs' : List.length (map sh (p_leaves s)) = List.length (map sh (p_leaves s'))) by (rewrite !map_length; exact Hs).
  revert Hl Hs'. generalize (map sh (p_leaves s)), (map sh (p_leaves s')), (map sh (p_leaves t)), (map sh (p_leaves t')). clear.
  induction l as [|x l IH]; intros [|y l'] r r' H Hl; try discriminate; [cbn in H; subst; auto|]. cbn in H. injection H as -> H. injection Hl as Hl. destruct (IH _ _ _ H Hl) as [E1 E2]. injection E1 as E1. split; congruence.
Qed.

(** ** the layers to which the theorem applies, with the specs of their inputs *)
Inductive standard : lclass -> list spec -> Prop :=
| S_dense d ki bi ss : standard (Dense d ki bi) ss
| S_dropout r ss : standard (Dropout r) ss
| S_activation f ss : standard (Activation f) ss
| S_flatten ss : standard Flatten ss
| S_reshape ds ss : Forall (fun d => 0 <= d)%Z ds -> standard (Reshape ds) ss                    (* no -1 *)
| S_pooling kd w st pd ss : standard (Pooling kd w st pd) ss
| S_conv oc fh fw st pd ki bi b ss : standard (Conv oc fh fw st pd ki bi b) ss
| S_deconv oc fh fw st pd ki bi b h w c : (1 <= h)%Z -> (1 <= w)%Z -> standard (Deconv oc fh fw st pd ki bi b) [[h; w; c]]     (* not an empty image *)
| S_batchnorm ax m e ce sc bi gi ss : standard (BatchNorm ax m e ce sc bi gi) ss.
(** parameters that c was initialised with for inputs of the specs ss, or that updates made of them *)
Definition inst (c : lclass) (ss : list spec) (p : lparams) : Prop := exists k p0, c_init c k ss = inl p0 /\ same_form p0 p.

Lemma create_ok i k s a : create i k s = inl a -> zshape (sh a) = s.
Proof.
  unfold create. destruct (forallb (Z.leb 0) s) eqn:E; [|discriminate]. intros [= <-]. cbn. unfold zshape. rewrite map_map. rewrite <- (map_id s) at 2. apply map_ext_in. intros d Hd.
  rewrite forallb_forall in E. apply E in Hd. lia.
Qed.
Lemma zip_shape f a b c s : zip_arr f a b = inl c -> bshape (sh a) (sh b) = Some s -> sh c = s.
Proof. unfold zip_arr. intros H E. rewrite E in H. injection H as <-. reflexivity. Qed.
Lemma infer_shape n ds s : Forall (fun d => 0 <= d)%Z ds -> infer n ds = Some s -> zshape s = ds.
Proof.
  intros Hd. unfold infer. replace (filter (Z.eqb (-1)) ds) with (@nil Z).
  - cbn. destruct (_ && _); [|discriminate]. intros [= <-]. unfold zshape. rewrite map_map, <- (map_id ds) at 1. rewrite map_id. rewrite <- (map_id ds) at 2. apply map_ext_in. intros d H. rewrite Forall_forall in Hd. specialize (Hd d H). lia.
  - symmetry. induction Hd as [|d ds Hd _ IH]; [reflexivity|]. cbn. destruct d; try exact IH. lia.
Qed.
Lemma prod_z s : fold_right Z.mul 1%Z (zshape s) = Z.of_nat (prod s).
Proof. induction s as [|d s IH]; [reflexivity|]. cbn [zshape map fold_right prod]. fold (zshape s). rewrite IH. unfold prod. lia. Qed.
Lemma reduce_window_ok red x ws ss p y : reduce_window red x ws ss p = inl y ->
  exists ps, padtype_to_pads p (zlist (sh x)) (zlist ws) (zlist ss) = inl ps /\ window_dims (sh x) ws ss ps = inl (sh y).
Proof.
  unfold reduce_window. intros H. apply nb_inl in H as (ps & H1 & H). apply nb_inl in H as (s & H2 & H). injection H as <-. exists ps. auto.
Qed.
Lemma index0_ok a b : index0 a = inl b -> exists n, sh a = S n :: sh b.
Proof. unfold index0. destruct (sh a) as [|[|n] s]; try discriminate. intros [= <-]. eauto. Qed.
Lemma insert_end {X} (one : X) n l : List.length l = n -> insert1 one n l = l ++ [one].
Proof. intros <-. unfold insert1. rewrite firstn_all, skipn_all. reflexivity. Qed.
Lemma padtype_length p ds : forall ws ss ps, padtype_to_pads p ds ws ss = inl ps -> List.length ws = List.length ds /\ List.length ss = List.length ds /\ List.length ps = List.length ds.
Proof.
  induction ds as [|d ds IH]; intros [|w ws] [|s ss] ps H; try discriminate; cbn in H; [injection H as <-; auto|].
  apply nb_inl in H as (r & H1 & H). injection H as <-. apply IH in H1 as (? & ? & ?). cbn. repeat split; congruence.
Qed.
(** the middle of a window computation *)
Lemma pads_snoc p ds : forall ws ss ps d w s, List.length ws = List.length ds -> List.length ss = List.length ds ->
  padtype_to_pads p (ds ++ [d]) (ws ++ [w]) (ss ++ [s]) = inl ps -> exists ps', ps = ps' ++ [pad_dim p d w s] /\ padtype_to_pads p ds ws ss = inl ps'.
Proof.
  induction ds as [|x ds IH]; intros [|w' ws] [|s' ss] ps d w s H1 H2 H; try discriminate.
  - cbn in H. injection H as <-. exists []. auto.
  - cbn in H. apply nb_inl in H as (r & H & E). injection E as <-. apply IH in H as (ps' & -> & H); [|cbn in *; congruence|cbn in *; congruence]. exists (pad_dim p x w' s' :: ps'). cbn. rewrite H. auto.
Qed.
Lemma dims_snoc ds : forall ws ss ps d w s q r, List.length ws = List.length ds -> List.length ss = List.length ds -> List.length ps = List.length ds ->
  window_dims (ds ++ [d]) (ws ++ [w]) (ss ++ [s]) (ps ++ [q]) = inl r -> exists r' n, r = r' ++ [n] /\ window_dims ds ws ss ps = inl r' /\ window_dim d w s q = inl n.
Proof.
  induction ds as [|x ds IH]; intros [|w' ws] [|s' ss] [|p ps] d w s q r H1 H2 H3 H; try discriminate.
  - cbn in H. apply nb_inl in H as (n & H & E). injection E as <-. exists [], n. auto.
  - cbn in H. apply nb_inl in H as (n & Hn & H). apply nb_inl in H as (r' & H & E). injection E as <-. apply IH in H as (r2 & n2 & -> & H & Hn2); try (cbn in *; congruence).
    exists (n :: r2), n2. cbn. rewrite Hn. cbn. rewrite H. auto.
Qed.
Lemma zlist_app a b : zlist (a ++ b) = zlist a ++ zlist b.
Proof. apply map_app. Qed.
Lemma pad_one p d : pad_dim p d 1 1 = (0, 0)%Z \/ (d < 0)%Z.
Proof.
  destruct p; [left; reflexivity|]. destruct (Z.lt_ge_cases d 0); [right; assumption|left]. unfold pad_dim. replace (d + 1 - 1)%Z with d by lia. rewrite Z.div_1_r. replace (Z.max ((d - 1) * 1 + 1 - d) 0) with 0%Z by lia. reflexivity.
Qed.
Lemma pool_shape kd w st p x y : pool_batched kd (IPool w (1 :: w ++ [1]) (1 :: or_ones st w ++ [1]) p) (newaxis x) = inl y ->
  exists ps, padtype_to_pads p (zlist (1 :: sh x)) (zlist (1 :: w ++ [1])) (zlist (1 :: or_ones st w ++ [1])) = inl ps /\ window_dims (1 :: sh x) (1 :: w ++ [1]) (1 :: or_ones st w ++ [1]) ps = inl (sh y).
Proof.
  destruct kd; cbn [pool_batched]; [apply reduce_window_ok|apply reduce_window_ok|]. intros H. apply nb_inl in H as (sizes & H1 & H). apply nb_inl in H as (outs & H2 & H).
  apply reduce_window_ok in H2 as (ps & P2 & W2). exists ps. split; [exact P2|]. apply reduce_window_ok in H1 as (ps1 & P1 & W1). change (sh (newaxis x)) with (1 :: sh x) in *. cbn [sh tl] in *.
  rewrite W2. f_equal. symmetry. eapply zip_shape; [exact H|]. apply bshape_l. cbn [sh].
  destruct (window_dims_spec _ _ _ _ _ W2) as (_ & L1 & L2 & L3). cbn in L1, L2. rewrite app_length in L1, L2. cbn in L1, L2.
  destruct (exists_last (l := sh x)) as (sp & c & E); [intros E; rewrite E in L1; cbn in L1; lia|]. rewrite E in *. rewrite app_length in L1, L2. cbn in L1, L2.
  rewrite !removelast_last in *. change (zlist (1 :: sp ++ [c])) with (1%Z :: zlist (sp ++ [c])) in P2. change (zlist (1 :: w ++ [1])) with (1%Z :: zlist (w ++ [1])) in P2. change (zlist (1 :: or_ones st w ++ [1])) with (1%Z :: zlist (or_ones st w ++ [1])) in P2.
  cbn [padtype_to_pads] in P2. apply nb_inl in P2 as (ps2 & P2 & Eps). injection Eps as <-. rewrite !zlist_app in P2. apply pads_snoc in P2 as (ps3 & -> & P3); [|unfold zlist; rewrite !map_length; lia|unfold zlist; rewrite !map_length; lia].
  rewrite P1 in P3. injection P3 as ->. cbn [window_dims] in W2. apply nb_inl in W2 as (n0 & _ & W2). apply nb_inl in W2 as (r & W2 & E2). injection E2 as E2.
  apply padtype_length in P1 as (_ & _ & L4). unfold zlist in L4. rewrite map_length in L4.
  apply dims_snoc in W2 as (r' & n & -> & W2 & _); [|lia|lia|lia]. rewrite W1 in W2. injection W2 as <-. rewrite <- E2. apply (below_tail [n0]). unfold below. rewrite !rev_app_distr. cbn. constructor; [auto|apply bsub_refl].
Qed.
Lemma pool_spec_eq w st p s : List.length s <= 3 -> List.length (or_ones st w) = List.length w ->
  pool_spec w st p [zshape s] = nb (padtype_to_pads p (zlist (1 :: s)) (zlist (1 :: w ++ [1])) (zlist (1 :: or_ones st w ++ [1]))) (fun pads =>
    nb (reduce_window_shape (zlist (1 :: s)) (zlist (1 :: w ++ [1])) (zlist (1 :: or_ones st w ++ [1])) pads) (fun out => inl (SOne (tl out)))).
Proof.
  intros H Hl. unfold pool_spec, spec1. unfold zshape. rewrite map_length. destruct (Nat.ltb_spec 3 (List.length s)); [lia|].
  cbv zeta. change (insert1 1%Z 0 (zlist w)) with (1%Z :: zlist w). change (insert1 1%Z 0 (zlist (or_ones st w))) with (1%Z :: zlist (or_ones st w)).
  rewrite !insert_end by (cbn; unfold zlist; rewrite map_length; lia). change (zlist (1 :: s)) with (1%Z :: map Z.of_nat s). change (zlist (1 :: w ++ [1])) with (1%Z :: zlist (w ++ [1])). change (zlist (1 :: or_ones st w ++ [1])) with (1%Z :: zlist (or_ones st w ++ [1])). rewrite !zlist_app. reflexivity.
Qed.
End nn.
