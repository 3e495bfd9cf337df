(** C72: what the layers compute.  Specification and proofs for Dense, Dropout, the activations, Flatten and Reshape;
    pooling and convolutions are in NnPool. *)
From Verif Require Import NnTotal.
From Verif Require Import NnMain NnShape NnProofs NnBatch.
Open Scope string_scope.
Open Scope list_scope.
Open Scope nat_scope.

(** ** Specification *)
(** the elements of an array in row-major order: the last index varies fastest *)
Definition elements (a : arr) : list R := map (el a) (indices (sh a)).
(** sum_{j < n} f j *)
Definition sum_to (n : nat) (f : nat -> R) : R := rsum (map f (seq 0 n)).
Section nn.
Context {PR : Prng}.
(** the layer of class c with parameters p, given x, returns y and is unchanged *)
Definition maps (c : lclass) (p : lparams) (name : option string) (rng : option key) (kw : kwargs) (x y : arr) : Prop :=
  call_and_update (Leaf c p name) [x] rng kw = inl (One y, Leaf c p name).

(** ** Dense *)
Lemma dense_params d s ki bi n p : inst (Dense (Z.of_nat n) ki bi) [zshape (s ++ [d])] p -> exists W b, l_params p = PNode "DenseParams" [PLeaf W; PLeaf b] /\ sh W = [d; n] /\ sh b = [n].
Proof.
  intros (k & p0 & H & Hf & _ & _). cbn [c_init Dense] in H. unfold dense_init in H. cbn [spec1] in H. destruct (zshape (s ++ [d])) as [|z zs] eqn:E; [destruct s; discriminate|]. rewrite <- E in H. clear E z zs.
  apply nb_inl in H as (W & HW & H). apply nb_inl in H as (b & Hb & H). injection H as <-. cbn in Hf.
  apply form_pair in Hf as (W' & b' & -> & FW & Fb). apply form_leaf in FW as (W2 & -> & SW). apply form_leaf in Fb as (b2 & -> & Sb).
  exists W2, b2. split; [reflexivity|]. apply create_ok in HW, Hb. rewrite <- SW in HW. rewrite <- Sb in Hb. unfold zshape in HW at 2. rewrite map_app in HW. cbn [map] in HW. rewrite last_last in HW.
  change [Z.of_nat d; Z.of_nat n] with (zshape [d; n]) in HW. change [Z.of_nat n] with (zshape [n]) in Hb. split; apply zshape_inj; assumption.
Qed.
Theorem C72_dense d s ki bi n p name rng kw x : inst (Dense (Z.of_nat n) ki bi) [zshape (s ++ [d])] p -> sh x = s ++ [d] ->
  exists W b y, l_params p = PNode "DenseParams" [PLeaf W; PLeaf b] /\ sh W = [d; n] /\ sh b = [n] /\
    maps (Dense (Z.of_nat n) ki bi) p name rng kw x y /\ sh y = s ++ [n] /\
    forall ix o, in_bounds s ix -> o < n -> el y (ix ++ [o]) = (sum_to d (fun j => el x (ix ++ [j]) * el W [j; o]) + el b [o])%R.
Proof.
  intros Hi Hx. destruct (dense_params _ _ _ _ _ _ Hi) as (W & b & Hp & HW & Hb). exists W, b.
  assert (Hd : dot x W = inl (mk_arr (s ++ [n]) (fun ix => rsum (map (fun j => el x (removelast ix ++ [j]) * el W [j; last ix 0%nat])%R (seq 0 d))))).
  { unfold dot. rewrite HW, Hx. destruct (s ++ [d]) eqn:E; [destruct s; discriminate|]. rewrite <- E, last_last, removelast_last, Nat.eqb_refl. reflexivity. }
  eexists. split; [exact Hp|]. split; [exact HW|]. split; [exact Hb|]. split; [|split].
  - unfold maps. rewrite leaf_eq. unfold leaf_step. cbn [c_call c_update Dense]. unfold dense_call, keep_update, on1. rewrite Hp, Hd. cbn [nb]. rewrite (zip_eq _ _ _ (s ++ [n])); [reflexivity|]. cbn [sh]. rewrite Hb. apply bshape_l, below_last.
  - reflexivity.
  - intros ix o Hix Ho. cbn [el sh]. rewrite bix_same by (apply Forall2_app; [exact Hix|constructor; [exact Ho|constructor]]).
    rewrite removelast_last, last_last. f_equal. rewrite Hb. unfold bix. rewrite app_length, Nat.add_sub, skipn_app, skipn_all, Nat.sub_diag. cbn.
    destruct (Nat.eqb_spec n 1); [|reflexivity]. subst n. f_equal. f_equal. lia.
Qed.
(** kernel and bias are drawn by the initialisers from the two halves of the key *)
Theorem C72_dense_init d s ki bi n k p : c_init (Dense (Z.of_nat n) ki bi) k [zshape (s ++ [d])] = inl p ->
  l_params p = PNode "DenseParams" [PLeaf (mk_arr [d; n] (ki (fst (split2 k)) [d; n])); PLeaf (mk_arr [n] (bi (snd (split2 k)) [n]))].
Proof.
  intros H. cbn [c_init Dense] in H. unfold dense_init in H. cbn [spec1] in H. destruct (zshape (s ++ [d])) as [|z zs] eqn:E; [destruct s; discriminate|]. rewrite <- E in H. clear E z zs.
  apply nb_inl in H as (W & HW & H). apply nb_inl in H as (b & Hb & H). injection H as <-. cbn.
  unfold zshape in HW. rewrite map_app in HW. cbn [map] in HW. rewrite last_last in HW. unfold create in HW, Hb. destruct (forallb _ _) in HW; [|discriminate]. destruct (forallb _ _) in Hb; [|discriminate].
  injection HW as <-. injection Hb as <-. cbn [map]. rewrite !Nat2Z.id. reflexivity.
Qed.

(** ** Dropout *)
Lemma dropout_info rate ss p : inst (Dropout rate) ss p -> l_info p = IRate rate.
Proof. intros (k & p0 & H & _ & _ & Hi). cbn in H. destruct ss as [|s [|]]; try discriminate. injection H as <-. symmetry. exact Hi. Qed.
Lemma dropout_kw s rng kw : mem s ["training"; "rng"] = true -> kget s (filter_kwargs with_training_rng (kw_of rng kw)) = kget s (kw_of rng kw).
Proof. intros H. change (filter_kwargs with_training_rng (kw_of rng kw)) with (filter (fun kv => mem (fst kv) ["training"; "rng"]) (kw_of rng kw)). apply (kget_filter _ (fun s => mem s ["training"; "rng"])), H. Qed.
Lemma training_kw rng kw : kget "training" (kw_of rng kw) = kget "training" kw.
Proof. destruct rng; [|reflexivity]. cbn [kw_of]. rewrite kget_app. destruct (kget "training" kw); reflexivity. Qed.
Lemma dropout_eq rate p name x rng kw : l_info p = IRate rate -> call_and_update (Leaf (Dropout rate) p name) [x] rng kw =
  if training_of kw then match kget "rng" (kw_of rng kw) with
    | Some (KKey k) => inl (One (mk_arr (sh x) (fun ix => if bernoulli k rate ix then el x ix / rate else 0)%R), Leaf (Dropout rate) p name)
    | _ => inr NValue end
  else inl (One x, Leaf (Dropout rate) p name).
Proof.
  intros Hi. rewrite leaf_eq. unfold leaf_step. change (match rng with None => kw | Some k => kw ++ [("rng", KKey k)] end) with (kw_of rng kw). cbn [c_call c_update c_sig c_usig Dropout]. unfold dropout_call, keep_update, on1. rewrite Hi.
  rewrite !dropout_kw by reflexivity. rewrite training_kw. unfold training_of. destruct (match kget "training" kw with Some (KBool b) => b | _ => true end); [|reflexivity].
  destruct (kget "rng" (kw_of rng kw)) as [[| |]|]; reflexivity.
Qed.
(** evaluation: the identity, whether or not a key is given *)
Theorem C72_dropout_evaluation rate ss p name rng kw x : inst (Dropout rate) ss p -> kget "training" kw = Some (KBool false) -> maps (Dropout rate) p name rng kw x x.
Proof. intros Hi Ht. unfold maps. rewrite (dropout_eq rate) by (eapply dropout_info; exact Hi). unfold training_of. rewrite Ht. reflexivity. Qed.
(** training: an element is kept and divided by the rate, or replaced by zero, as the key says; the rate is the probability to
    keep an element, and the average over the two possibilities is the element *)
Theorem C72_dropout_training rate ss p name k kw x : inst (Dropout rate) ss p -> kget "training" kw <> Some (KBool false) -> kget "rng" kw = None ->
  exists y, maps (Dropout rate) p name (Some k) kw x y /\ sh y = sh x /\
    forall ix, exists kept dropped, el y ix = (if bernoulli k rate ix then kept else dropped) /\ dropped = 0%R /\ (rate <> 0 -> kept * rate = el x ix)%R /\
      (rate <> 0 -> rate * kept + (1 - rate) * dropped = el x ix)%R.
Proof.
  intros Hi Ht Hr. unfold maps. rewrite (dropout_eq rate) by (eapply dropout_info; exact Hi). cbn [kw_of]. rewrite kget_app, Hr. cbn [String.eqb].
  replace (training_of kw) with true by (unfold training_of; destruct (kget "training" kw) as [[[]| |]|]; congruence). cbn.
  eexists. split; [reflexivity|]. split; [reflexivity|]. intros ix. exists (el x ix / rate)%R, 0%R. cbn [el]. split; [reflexivity|]. split; [reflexivity|]. split; intros H; field; exact H.
Qed.
Theorem C72_dropout_needs_key rate ss p name kw x : inst (Dropout rate) ss p -> kget "training" kw <> Some (KBool false) -> kget "rng" kw = None ->
  call_and_update (Leaf (Dropout rate) p name) [x] None kw = inr NValue.
Proof.
  intros Hi Ht Hr. rewrite (dropout_eq rate) by (eapply dropout_info; exact Hi). cbn [kw_of]. rewrite Hr.
  replace (training_of kw) with true by (unfold training_of; destruct (kget "training" kw) as [[[]| |]|]; congruence). reflexivity.
Qed.

(** ** Activations *)
Lemma activation_maps act p name rng kw x : maps (Activation act) p name rng kw x (mk_arr (sh x) (act x)).
Proof. unfold maps. rewrite leaf_eq. reflexivity. Qed.
Theorem C72_relu p name rng kw x : exists y, maps Relu p name rng kw x y /\ sh y = sh x /\ forall ix, (0 <= el x ix -> el y ix = el x ix)%R /\ (el x ix <= 0 -> el y ix = 0)%R.
Proof. eexists. split; [apply activation_maps|]. split; [reflexivity|]. intros ix. cbn [el]. split; intros H; [apply Rmax_left|apply Rmax_right]; lra. Qed.
(** tanh a = (e^a - e^-a) / (e^a + e^-a) *)
Theorem C72_tanh p name rng kw x : exists y, maps Tanh p name rng kw x y /\ sh y = sh x /\ forall ix, (el y ix * (exp (el x ix) + exp (- el x ix)) = exp (el x ix) - exp (- el x ix))%R /\ (-1 < el y ix < 1)%R.
Proof.
  eexists. split; [apply activation_maps|]. split; [reflexivity|]. intros ix. cbn [el]. unfold tanh, sinh, cosh. set (a := el x ix). pose proof (exp_pos a). pose proof (exp_pos (-a)).
  assert (E : (((exp a - exp (- a)) / 2) / ((exp a + exp (- a)) / 2) = (exp a - exp (- a)) / (exp a + exp (- a)))%R) by (field; lra). rewrite E. split; [field; lra|].
  split; [apply Rmult_lt_reg_r with (exp a + exp (- a))%R; [lra|]|apply Rmult_lt_reg_r with (exp a + exp (- a))%R; [lra|]]; unfold Rdiv; rewrite Rmult_assoc, Rinv_l by lra; lra.
Qed.
(** softplus: e^y = 1 + e^x *)
Theorem C72_softplus p name rng kw x : exists y, maps Softplus p name rng kw x y /\ sh y = sh x /\ forall ix, (exp (el y ix) = 1 + exp (el x ix))%R.
Proof. eexists. split; [apply activation_maps|]. split; [reflexivity|]. intros ix. cbn [el]. apply exp_ln. pose proof (exp_pos (el x ix)). lra. Qed.

Lemma rsum_pos {X} (f : X -> R) l : l <> [] -> (forall a, In a l -> 0 < f a)%R -> (0 < rsum (map f l))%R.
Proof.
  destruct l as [|a l]; [congruence|]. intros _ H. cbn [map]. rewrite rsum_cons. pose proof (H a (or_introl eq_refl)).
  assert (0 <= rsum (map f l))%R; [|lra]. assert (H' : forall b, In b l -> (0 < f b)%R) by (intros; apply H; right; assumption). clear - H'.
  induction l as [|b l IH]; [cbn; lra|]. cbn [map]. rewrite rsum_cons. pose proof (H' b (or_introl eq_refl)). assert (0 <= rsum (map f l))%R by (apply IH; intros; apply H'; right; assumption). lra.
Qed.
Lemma last_axis_at x s n ix i : sh x = s ++ [n] -> last_axis x (ix ++ [i]) = map (fun j => el x (ix ++ [j])) (seq 0 n).
Proof. intros H. unfold last_axis. rewrite H, last_last, removelast_last. reflexivity. Qed.
(** softmax over the last axis: positive, summing to one, and in the proportions e^(x_i - x_j).  [C72_softmax_unique]: these
    determine it *)
Theorem C72_softmax p name rng kw s n x : sh x = s ++ [n] -> 0 < n ->
  exists y, maps Softmax p name rng kw x y /\ sh y = sh x /\ forall ix, in_bounds s ix ->
    (forall i, i < n -> (0 < el y (ix ++ [i]))%R) /\ sum_to n (fun i => el y (ix ++ [i])) = 1%R /\
    (forall i j, i < n -> j < n -> el y (ix ++ [i]) = (el y (ix ++ [j]) * exp (el x (ix ++ [i]) - el x (ix ++ [j])))%R).
Proof.
  intros Hx Hn. eexists. split; [apply activation_maps|]. split; [reflexivity|]. intros ix _. cbn [el].
  set (S := rsum (map exp (map (fun j => el x (ix ++ [j])) (seq 0 n)))).
  assert (HS : (0 < S)%R). { unfold S. rewrite map_map. apply rsum_pos; [destruct n; [lia|discriminate]|]. intros. apply exp_pos. }
  split; [|split].
  - intros i Hi. rewrite (last_axis_at x s n) by exact Hx. apply Rdiv_lt_0_compat; [apply exp_pos|exact HS].
  - unfold sum_to. rewrite (map_ext _ (fun i => (/ S) * exp (el x (ix ++ [i])))%R). 2: { intros i. rewrite (last_axis_at x s n) by exact Hx. fold S. unfold Rdiv. apply Rmult_comm. }
    rewrite <- (map_map (fun i => exp (el x (ix ++ [i]))) (fun v => / S * v)%R), rsum_scale. rewrite <- (map_map (fun i => el x (ix ++ [i])) exp). fold S. apply Rinv_l. lra.
  - intros i j Hi Hj. rewrite !(last_axis_at x s n) by exact Hx. fold S. unfold Rminus. rewrite exp_plus, exp_Ropp. pose proof (exp_pos (el x (ix ++ [j]))). field. lra.
Qed.
Theorem C72_softmax_unique n (v a b : nat -> R) : 0 < n -> (forall i, i < n -> (0 < a i)%R) -> (forall i, i < n -> (0 < b i)%R) -> sum_to n a = 1%R -> sum_to n b = 1%R ->
  (forall i j, i < n -> j < n -> a i = (a j * exp (v i - v j))%R) -> (forall i j, i < n -> j < n -> b i = (b j * exp (v i - v j))%R) -> forall i, i < n -> a i = b i.
Proof.
  intros Hn Ha Hb Sa Sb Ra Rb. assert (E : forall c : nat -> R, (forall i j, i < n -> j < n -> c i = (c j * exp (v i - v j))%R) -> forall j, j < n -> sum_to n c = (c j * sum_to n (fun i => exp (v i - v j)))%R).
  { intros c Rc j Hj. unfold sum_to. rewrite <- rsum_scale, map_map. f_equal. apply map_ext_in. intros i Hi. apply in_seq in Hi. apply Rc; lia. }
  intros i Hi. pose proof (E a Ra i Hi) as E1. pose proof (E b Rb i Hi) as E2. rewrite Sa in E1. rewrite Sb in E2. pose proof (Ha i Hi). pose proof (Hb i Hi).
  set (T := sum_to n (fun i0 => exp (v i0 - v i))) in *. assert (T <> 0)%R by (intros E0; rewrite E0 in E1; lra). apply Rmult_eq_reg_r with T; lra.
Qed.
(** LogSoftmax is the logarithm of Softmax *)
Theorem C72_log_softmax p q name rng kw s n x : sh x = s ++ [n] -> 0 < n ->
  exists y z, maps Softmax p name rng kw x y /\ maps LogSoftmax q name rng kw x z /\ sh z = sh y /\ forall ix i, in_bounds s ix -> i < n -> el z (ix ++ [i]) = ln (el y (ix ++ [i])).
Proof.
  intros Hx Hn. eexists _, _. split; [apply activation_maps|]. split; [apply activation_maps|]. split; [reflexivity|]. intros ix i _ Hi. cbn [el].
  rewrite (last_axis_at x s n) by exact Hx. set (S := rsum _). assert (HS : (0 < S)%R). { unfold S. rewrite map_map. apply rsum_pos; [destruct n; [lia|discriminate]|]. intros. apply exp_pos. }
  unfold Rdiv. rewrite ln_mult by (try apply exp_pos; apply Rinv_0_lt_compat; exact HS). rewrite ln_exp, ln_Rinv by exact HS. reflexivity.
Qed.

(** ** Flatten and Reshape *)
Lemma prod_app a b : prod (a ++ b) = prod a * prod b.
Proof. unfold prod. induction a as [|x a IH]; cbn; [lia|rewrite IH; lia]. Qed.
Lemma flat_map_ext_in {X Y} (f g : X -> list Y) l : (forall x, In x l -> f x = g x) -> flat_map f l = flat_map g l.
Proof. intros H. induction l as [|x l IH]; [reflexivity|]. cbn. rewrite H by (left; reflexivity). f_equal. apply IH. intros. apply H. right. assumption. Qed.
Lemma seq_blocks m : forall n a, flat_map (fun i => map (fun j => i * m + j) (seq 0 m)) (seq a n) = seq (a * m) (n * m).
Proof.
  induction n as [|n IH]; intros a; [reflexivity|]. cbn [seq flat_map]. rewrite IH. change (S n * m) with (m + n * m). rewrite seq_app. f_equal.
  - clear. assert (H : forall b k, map (fun j => b + j) (seq k m) = seq (b + k) m). { intros b. induction m as [|m' IH]; intros k; [reflexivity|]. cbn [seq map]. f_equal. rewrite IH. f_equal. lia. } rewrite H. f_equal. lia.
  - f_equal. cbn. lia.
Qed.
Lemma map_flat_map {X Y Z} (g : Y -> Z) (f : X -> list Y) l : map g (flat_map f l) = flat_map (fun x => map g (f x)) l.
Proof. induction l as [|x l IH]; [reflexivity|]. cbn. rewrite map_app, IH. reflexivity. Qed.
Lemma flat_map_map {X Y Z} (f : Y -> list Z) (g : X -> Y) l : flat_map f (map g l) = flat_map (fun x => f (g x)) l.
Proof. induction l as [|x l IH]; [reflexivity|]. cbn. now rewrite IH. Qed.
Lemma ravel_seq s : map (ravel s) (indices s) = seq 0 (prod s).
Proof.
  induction s as [|d s IH]; [reflexivity|]. cbn [indices]. rewrite map_flat_map. rewrite (flat_map_ext_in _ (fun i => map (fun j => i * prod s + j) (seq 0 (prod s)))).
  - rewrite seq_blocks. reflexivity.
  - intros i _. rewrite map_map. rewrite <- IH, map_map. apply map_ext. reflexivity.
Qed.
Lemma unravel_seq s : map (unravel s) (seq 0 (prod s)) = indices s.
Proof.
  induction s as [|d s IH]; [reflexivity|]. cbn [indices]. change (prod (d :: s)) with (d * prod s). change 0 with (0 * prod s) at 1. rewrite <- seq_blocks, map_flat_map.
  apply flat_map_ext_in. intros i _. rewrite map_map, <- IH, map_map. apply map_ext_in. intros j Hj. apply in_seq in Hj. cbn [unravel].
  rewrite Nat.div_add_l, Nat.div_small, Nat.add_0_r by lia. f_equal. f_equal. rewrite Nat.add_comm, Nat.mod_add by lia. apply Nat.mod_small. lia.
Qed.
Lemma infer_prod n ds s : infer n ds = Some s -> prod s = n /\ List.length s = List.length ds /\ forall i d e, nth_error ds i = Some d -> nth_error s i = Some e -> d <> (-1)%Z -> Z.of_nat e = d.
Proof.
  unfold infer. destruct (List.length (filter (Z.eqb (-1)) ds)) as [|[|]] eqn:E; [| |discriminate].
  - intros H. apply length_zero_iff_nil in E. destruct (forallb (Z.leb 0) ds) eqn:E1; [|discriminate]. cbn [andb] in H. destruct (Z.eqb_spec (fold_right Z.mul 1%Z (filter (fun d => negb (d =? -1)%Z) ds)) (Z.of_nat n)) as [E2|]; [|discriminate]. injection H as <-.
    assert (Hpos : Forall (fun d => 0 <= d)%Z ds) by (apply Forall_forall; intros d Hd; apply Z.leb_le; revert d Hd; apply forallb_forall; exact E1).
    assert (Hz : ds = zshape (map Z.to_nat ds)) by (unfold zshape; rewrite map_map; rewrite <- (map_id ds) at 1; apply map_ext_in; intros d Hd; rewrite Forall_forall in Hpos; specialize (Hpos d Hd); lia).
    split; [|split; [now rewrite map_length|]].
    + apply Nat2Z.inj. rewrite <- E2, <- prod_z, <- Hz. f_equal. clear - Hpos. induction Hpos as [|d ds Hd _ IH]; [reflexivity|]. cbn. destruct (Z.eqb_spec d (-1)); [lia|]. cbn. f_equal. exact IH.
    + intros i d e Hd He _. rewrite nth_error_map, Hd in He. injection He as <-. apply nth_error_In in Hd. rewrite Forall_forall in Hpos. specialize (Hpos d Hd). lia.
  - intros H. destruct (forallb (fun d => (0 <=? d) || (d =? -1))%Z ds) eqn:E1; [|discriminate]. cbn [andb] in H. set (K := fold_right Z.mul 1%Z (filter (fun d => negb (d =? -1)%Z) ds)) in *.
    destruct (Z.ltb_spec 0 K) as [HK|]; [|discriminate]. cbn [andb] in H. destruct (Z.eqb_spec (Z.of_nat n mod K) 0) as [E2|]; [|discriminate]. injection H as <-.
    split; [|split; [now rewrite map_length|]].
    + set (q := (Z.of_nat n / K)%Z) in *. assert (Hq : (0 <= q)%Z) by (apply Z.div_pos; lia). assert (Hn : Z.of_nat n = (K * q)%Z) by (apply Z_div_exact_full_2; lia).
      clearbody q. assert (G : forall ds, forallb (fun d => (0 <=? d) || (d =? -1))%Z ds = true -> Z.of_nat (prod (map (fun d => if (d =? -1)%Z then Z.to_nat q else Z.to_nat d) ds)) =
                  (fold_right Z.mul 1 (filter (fun d => negb (d =? -1)%Z) ds) * q ^ Z.of_nat (List.length (filter (Z.eqb (-1)) ds)))%Z).
      { clear - Hq. intros ds. induction ds as [|d ds IH]; intros H; [reflexivity|]. cbn [forallb] in H. apply andb_prop in H as [H1 H2]. specialize (IH H2). cbn [map filter]. change (prod (?a :: ?l)) with (a * prod l). rewrite Nat2Z.inj_mul, IH.
        rewrite (Z.eqb_sym (-1) d). destruct (Z.eqb_spec d (-1)) as [->|Hd]; cbn [negb].
        - cbn [List.length]. rewrite Z2Nat.id by exact Hq. rewrite Nat2Z.inj_succ, Z.pow_succ_r by lia. ring.
        - cbn [orb] in H1. rewrite orb_false_r in H1. apply Z.leb_le in H1. rewrite Z2Nat.id by lia. cbn [fold_right]. ring. }
      apply Nat2Z.inj. rewrite (G _ E1), E. fold K. rewrite Z.pow_1_r. congruence.
    + intros i d e Hd He Hne. rewrite nth_error_map, Hd in He. cbn in He. destruct (Z.eqb_spec d (-1)); [congruence|]. injection He as <-. apply nth_error_In in Hd.
      rewrite forallb_forall in E1. specialize (E1 d Hd). cbn in E1. apply orb_prop in E1 as [E1|E1]; [apply Z.leb_le in E1; lia|apply Z.eqb_eq in E1; congruence].
Qed.
Lemma reshape_elements x ds y : reshape x ds = inl y -> elements y = elements x /\ List.length (sh y) = List.length ds /\ forall i d e, nth_error ds i = Some d -> nth_error (sh y) i = Some e -> d <> (-1)%Z -> Z.of_nat e = d.
Proof.
  unfold reshape. destruct (infer (prod (sh x)) ds) as [s|] eqn:E; [|discriminate]. intros [= <-]. apply infer_prod in E as (E & El & Ed). split; [|split; [exact El|exact Ed]].
  unfold elements. cbn [el sh]. rewrite <- (unravel_seq (sh x)). rewrite <- E, <- ravel_seq. rewrite !map_map. reflexivity.
Qed.
(** Flatten: one dimension, with the elements in row-major order *)
Theorem C72_flatten p name rng kw x : exists y, maps Flatten p name rng kw x y /\ sh y = [prod (sh x)] /\ elements y = elements x.
Proof.
  unfold maps. rewrite leaf_eq. unfold leaf_step. cbn [c_call c_update Flatten]. unfold flatten_call, keep_update, on1, flatten_spec. cbn [spec1 nb]. rewrite prod_z.
  destruct (reshape x [Z.of_nat (prod (sh x))]) as [y|e] eqn:E.
  - cbn [nb]. exists y. split; [reflexivity|]. apply reshape_elements in E as (E1 & E2 & E3). split; [|exact E1]. destruct (sh y) as [|a [|]] eqn:Ey; try discriminate. f_equal. apply Nat2Z.inj. apply (E3 0); [reflexivity|reflexivity|lia].
  - exfalso. unfold reshape, infer in E. cbn [filter] in E. destruct (Z.eqb_spec (-1) (Z.of_nat (prod (sh x)))); [lia|]. destruct (Z.eqb_spec (Z.of_nat (prod (sh x))) (-1)); [lia|]. cbn [negb List.length forallb fold_right] in E.
    rewrite Z.mul_1_r, Z.eqb_refl in E. destruct (Z.leb_spec 0 (Z.of_nat (prod (sh x)))); [discriminate|lia].
Qed.
(** Reshape: the given dimensions (-1: whatever is left), with the elements in row-major order *)
Theorem C72_reshape ds ss p name rng kw x out l' : inst (Reshape ds) ss p -> call_and_update (Leaf (Reshape ds) p name) [x] rng kw = inl (out, l') ->
  exists y, out = One y /\ l' = Leaf (Reshape ds) p name /\ elements y = elements x /\ List.length (sh y) = List.length ds /\
    forall i d e, nth_error ds i = Some d -> nth_error (sh y) i = Some e -> d <> (-1)%Z -> Z.of_nat e = d.
Proof.
  intros (k & p0 & H & _ & _ & Hi) Hc. cbn in H. destruct ss as [|s [|]]; try discriminate. injection H as <-. cbn in Hi.
  rewrite leaf_eq in Hc. unfold leaf_step in Hc. cbn [c_call c_update Reshape] in Hc. unfold reshape_call, keep_update, on1, reshape_spec in Hc. rewrite <- Hi in Hc. cbn [spec1 nb] in Hc.
  destruct (reshape x ds) as [y|e] eqn:E; [|discriminate]. cbn [nb] in Hc. injection Hc as <- <-. exists y. split; [reflexivity|]. split; [reflexivity|]. apply reshape_elements, E.
Qed.
(** arrays of one shape with the same elements in row-major order are the same *)
Theorem C72_elements_determine a b : sh a = sh b -> elements a = elements b -> forall ix, in_bounds (sh a) ix -> el a ix = el b ix.
Proof.
  intros Hs He ix Hix. unfold elements in He. rewrite <- Hs in He. apply indices_spec in Hix. revert He Hix. generalize (indices (sh a)). induction l as [|jx l IH]; intros He []; cbn in He; injection He as He1 He2; [congruence|apply IH; assumption].
Qed.
(** Flatten, then Reshape to the original shape: the identity *)
Theorem C72_flatten_reshape ss p q name name' rng rng' kw kw' x y out l' : inst (Reshape (zshape (sh x))) ss q ->
  maps Flatten p name rng kw x y -> call_and_update (Leaf (Reshape (zshape (sh x))) q name') [y] rng' kw' = inl (out, l') ->
  exists z, out = One z /\ sh z = sh x /\ forall ix, in_bounds (sh x) ix -> el z ix = el x ix.
Proof.
  intros Hi Hf Hr. destruct (C72_flatten p name rng kw x) as (y' & Hf' & Hy & Ey). unfold maps in Hf, Hf'. rewrite Hf in Hf'. injection Hf' as <-.
  destruct (C72_reshape _ _ _ _ _ _ _ _ _ Hi Hr) as (z & -> & _ & Ez & El & Ed). exists z. split; [reflexivity|].
  assert (Hs : sh z = sh x). { apply zshape_inj. unfold zshape in *. rewrite map_length in El. apply (nth_ext _ _ 0%Z 0%Z); [rewrite !map_length; exact El|].
    intros i Hl. rewrite map_length in Hl. destruct (nth_error (sh z) i) as [e|] eqn:Ee; [|apply nth_error_None in Ee; lia]. destruct (nth_error (sh x) i) as [d|] eqn:Edd; [|apply nth_error_None in Edd; lia].
    erewrite nth_error_nth by (rewrite nth_error_map, Ee; reflexivity). erewrite (nth_error_nth (map Z.of_nat (sh x))) by (rewrite nth_error_map, Edd; reflexivity). apply (Ed i); [rewrite nth_error_map, Edd; reflexivity|exact Ee|lia]. }
  split; [exact Hs|]. intros ix Hix. rewrite <- Hs in Hix. apply (C72_elements_determine z x); [exact Hs|congruence|exact Hix].
Qed.
End nn.
