(** C62: batch normalisation. *)
From Verif Require Export NnMain.

(** ** Specification *)
(** the elements of a batch x (examples of shape s along the first dimension) which are averaged for the entry ix of the
    statistics: those of every example at the indices that agree with ix outside the axes ax *)
Definition in_group (ax ix jx : list nat) : bool := forallb (fun i => amem i ax || (nth i jx 0 =? nth i ix 0)) (seq 0 (List.length ix)).
Definition batch_members (ax : list nat) (x : arr) (ix : list nat) : list R := map (el x) (filter (fun jx => in_group ax ix (tl jx)) (indices (sh x))).
(** the same for a single example *)
Definition single_members (ax : list nat) (x : arr) (ix : list nat) : list R := map (el x) (filter (in_group ax ix) (indices (sh x))).
Definition variance (l : list R) : R := average (map (fun v => (v - average l) ^ 2)%R l).
(** what the layer computes from an element, with the scale g, the shift b, the mean m and the variance v *)
Definition normalised (g b m v eps x : R) : R := (g * ((x - m) / sqrt (v + eps)) + b)%R.
(** an index with the axes set to 0, and the entries of an index outside the axes *)
Definition at0 (ax ix : list nat) : list nat := mapi (fun i j => if amem i ax then 0 else j) 0 ix.
Definition off (ax ix : list nat) : list nat := kept ax 0 ix.

(** ** Exponential averages *)
Lemma rsum_cons a l : rsum (a :: l) = (a + rsum l)%R.
Proof. reflexivity. Qed.
Lemma rsum_app a b : rsum (a ++ b) = (rsum a + rsum b)%R.
Proof. induction a as [|x a IH]; cbn [app]; unfold rsum in *; cbn [fold_right]; [ring|]. rewrite IH. ring. Qed.
Lemma rsum_scale c l : rsum (map (fun x => c * x)%R l) = (c * rsum l)%R.
Proof. induction l as [|x l IH]; unfold rsum in *; cbn [map fold_right]; [ring|]. rewrite IH. ring. Qed.
Lemma mapi_app {X Y} (f : nat -> X -> Y) a : forall i b, mapi f i (a ++ b) = mapi f i a ++ mapi f (i + List.length a) b.
Proof. induction a as [|x a IH]; intros i b; cbn; [now rewrite Nat.add_0_r|]. rewrite IH. do 2 f_equal. f_equal. lia. Qed.
Lemma mapi_scale (c : R) (f g : nat -> R -> R) l : forall i, (forall j x, i <= j < i + List.length l -> f j x = (c * g j x)%R) -> mapi f i l = map (fun x => c * x)%R (mapi g i l).
Proof. induction l as [|x l IH]; intros i H; [reflexivity|]. cbn. f_equal; [apply H; cbn; lia|]. apply IH. intros j y Hj. apply H. cbn. lia. Qed.
Lemma ema_snoc d m0 ms m : ema d m0 (ms ++ [m]) = (ema d m0 ms - (ema d m0 ms - m) * d)%R.
Proof.
  unfold ema. rewrite app_length, mapi_app, rsum_app. cbn [List.length mapi rsum fold_right]. replace (List.length ms + 1 - 1 - (0 + List.length ms)) with 0 by lia. rewrite pow_O.
  rewrite (mapi_scale (1 - d) (fun i m => d * (1 - d) ^ (List.length ms + 1 - 1 - i) * m)%R (fun i m => d * (1 - d) ^ (List.length ms - 1 - i) * m)%R).
  - rewrite rsum_scale. replace (List.length ms + 1) with (S (List.length ms)) by lia. cbn [pow]. ring.
  - intros j x Hj. replace (List.length ms + 1 - 1 - j) with (S (List.length ms - 1 - j)) by lia. cbn [pow]. ring.
Qed.
(** the weights of the initial value and of the values seen sum to one, and with 0 <= d <= 1 none is negative *)
Theorem C62_weights_sum d n : rsum (ema_weights d n) = 1%R.
Proof.
  assert (E : rsum (map (fun i => (d * (1 - d) ^ (n - 1 - i))%R) (seq 0 n)) = (1 - (1 - d) ^ n)%R); [|unfold ema_weights; rewrite rsum_cons, E; ring].
  induction n as [|n IH]; [unfold rsum; cbn [seq map fold_right pow]; ring|]. rewrite seq_S, map_app, rsum_app. cbn [map]. rewrite rsum_cons. replace (S n - 1 - (0 + n)) with 0 by lia. rewrite pow_O.
  assert (E : map (fun i => (d * (1 - d) ^ (S n - 1 - i))%R) (seq 0 n) = map (fun x => (1 - d) * x)%R (map (fun i => (d * (1 - d) ^ (n - 1 - i))%R) (seq 0 n))).
  { rewrite map_map. apply map_ext_in. intros i Hi. apply in_seq in Hi. replace (S n - 1 - i) with (S (n - 1 - i)) by lia. cbn [pow]. ring. }
  rewrite E, rsum_scale, IH. change (rsum []) with 0%R. cbn [pow]. ring.
Qed.
Lemma ema_weighted d m0 ms : ema d m0 ms = rsum (map (fun p => fst p * snd p)%R (combine (ema_weights d (List.length ms)) (m0 :: ms))).
Proof.
  unfold ema, ema_weights. cbn [combine map]. rewrite rsum_cons. cbn [fst snd]. f_equal. f_equal. generalize (List.length ms) at 1 2 as N. intros N.
  cut (forall i, mapi (fun i m => (d * (1 - d) ^ (N - 1 - i) * m)%R) i ms = map (fun p => (fst p * snd p)%R) (combine (map (fun i => (d * (1 - d) ^ (N - 1 - i))%R) (seq i (List.length ms))) ms)); [auto|].
  induction ms as [|m ms IH]; intros i; [reflexivity|]. cbn [mapi combine map List.length seq]. f_equal. apply IH.
Qed.

(** ** Counting *)
Lemma indices_length s ix : In ix (indices s) -> List.length ix = List.length s.
Proof. intros H. apply indices_spec in H. induction H; cbn; congruence. Qed.
Lemma filter_map' {X Y} (P : Y -> bool) (f : X -> Y) l : filter P (map f l) = map f (filter (fun x => P (f x)) l).
Proof. induction l as [|x l IH]; [reflexivity|]. cbn. destruct (P (f x)); cbn; now rewrite IH. Qed.
Lemma filter_flat_map {X Y} (P : Y -> bool) (f : X -> list Y) l : filter P (flat_map f l) = flat_map (fun x => filter P (f x)) l.
Proof. induction l as [|x l IH]; [reflexivity|]. cbn. rewrite filter_app, IH. reflexivity. Qed.
Lemma flat_map_const {X Y} (f : X -> list Y) n l : (forall x, In x l -> List.length (f x) = n) -> List.length (flat_map f l) = List.length l * n.
Proof. induction l as [|x l IH]; intros H; [reflexivity|]. cbn. rewrite app_length, (H x) by (cbn; auto). f_equal. apply IH. intros y Hy. apply H. now right. Qed.
Lemma flat_map_one {Y} (f : nat -> list Y) j n : forall i, i <= j < i + n -> (forall x, i <= x < i + n -> x <> j -> f x = []) -> flat_map f (seq i n) = f j.
Proof.
  induction n as [|n IH]; intros i Hj H; [lia|]. cbn. destruct (Nat.eq_dec i j) as [->|Hne].
  - replace (flat_map f (seq (S j) n)) with (@nil Y); [apply app_nil_r|]. symmetry. assert (G : forall x, In x (seq (S j) n) -> f x = []) by (intros x Hx; apply in_seq in Hx; apply H; lia).
    induction (seq (S j) n) as [|y l IHl]; [reflexivity|]. cbn. rewrite G by (cbn; auto). apply IHl. intros x Hx. apply G. now right.
  - rewrite (H i) by lia. cbn. apply IH; [lia|]. intros x Hx. apply H. lia.
Qed.
(** the indices that agree with ix outside the axes: as many as the product of the sizes of the axes *)
Lemma agree_count ax s : forall i ix, in_bounds s ix -> List.length (filter (agree ax i ix) (indices s)) = prod (mapi (fun j d => if amem j ax then d else 1) i s).
Proof.
  induction s as [|d s IH]; intros i ix H; inversion H as [|k d' ix' s' Hk Hr]; subst; [reflexivity|]. cbn [indices mapi prod fold_right]. rewrite filter_flat_map. destruct (amem i ax) eqn:E.
  - rewrite (flat_map_const _ (prod (mapi (fun j d => if amem j ax then d else 1) (S i) s))); [now rewrite seq_length|]. intros x _. rewrite filter_map', map_length. cbn [agree]. rewrite E. cbn [orb andb]. apply IH, Hr.
  - rewrite (flat_map_one _ k); [|lia|].
    2:{ intros x Hx Hne. rewrite filter_map'. cbn [agree]. rewrite E. cbn [orb]. replace (k =? x) with false by (symmetry; apply Nat.eqb_neq; congruence). cbn [andb]. clear IH. induction (indices s) as [|y l IHl]; [reflexivity|exact IHl]. }
    rewrite filter_map', map_length. cbn [agree]. rewrite E, Nat.eqb_refl. cbn [orb andb]. rewrite IH by exact Hr. fold (prod (mapi (fun j d => if amem j ax then d else 1) (S i) s)). lia.
Qed.
Lemma prod_axis a ax s : forall i, i <= a < i + List.length s -> amem a ax = false ->
  prod (mapi (fun j d => if amem j (a :: ax) then d else 1) i s) = nth (a - i) s 0 * prod (mapi (fun j d => if amem j ax then d else 1) i s).
Proof.
  induction s as [|d s IH]; intros i Ha E; cbn [List.length] in Ha; [lia|]. cbn [mapi prod fold_right]. unfold amem at 1. cbn [existsb]. fold (amem i ax). destruct (Nat.eqb_spec i a) as [->|Hne]; cbn [orb].
  - rewrite Nat.sub_diag, E. cbn [nth]. rewrite Nat.mul_1_l. f_equal. unfold prod. f_equal. clear IH Ha. assert (G : a < S a) by lia. revert G. generalize (S a) as i. induction s as [|d' s IHs]; intros i G; [reflexivity|]. cbn. destruct (Nat.eqb_spec i a); [lia|]. cbn. f_equal. apply IHs. lia.
  - fold (prod (mapi (fun j d => if amem j (a :: ax) then d else 1) (S i) s)). rewrite IH by (auto; lia). replace (a - i) with (S (a - S i)) by lia. cbn [nth]. unfold prod. lia.
Qed.
Lemma prod_axes ax s : axes_ok ax s = true -> prod (map (fun i => nth i s 0) ax) = prod (mapi (fun j d => if amem j ax then d else 1) 0 s).
Proof.
  unfold axes_ok. intros H. apply andb_prop in H as [H1 H2]. induction ax as [|a ax IH].
  - cbn [map prod fold_right]. cut (forall i, 1 = prod (mapi (fun j d => if amem j [] then d else 1) i s)); [auto|]. clear. induction s as [|d s IHs]; intros i; [reflexivity|]. cbn [mapi prod fold_right]. fold (prod (mapi (fun j d => if amem j [] then d else 1) (S i) s)). rewrite <- IHs. reflexivity.
  - cbn [forallb] in H1. apply andb_prop in H1 as [Ha H1]. apply Nat.ltb_lt in Ha. cbn [distinct] in H2. apply andb_prop in H2 as [Hn H2]. apply negb_true_iff in Hn. rewrite prod_axis by (auto; lia). rewrite Nat.sub_0_r. cbn [map prod fold_right].
    f_equal. apply IH; auto.
Qed.
Lemma prod_pos s : Forall (lt 0) s -> 0 < prod s.
Proof. induction 1; cbn; [lia|]. fold (prod l). nia. Qed.
Lemma axes_pos ax s : Forall (lt 0) s -> forall i, 0 < prod (mapi (fun j d => if amem j ax then d else 1) i s).
Proof. intros H i. apply prod_pos. revert i. induction H as [|d s Hd Hs IH]; intros i; constructor; auto. destruct (amem i ax); lia. Qed.
(** the code's test for membership of a group is that of the specification *)
Lemma agree_group ax a : forall i b, List.length a = List.length b -> agree ax i a b = forallb (fun j => amem (i + j) ax || (nth j b 0 =? nth j a 0)) (seq 0 (List.length a)).
Proof.
  induction a as [|x a IH]; intros i [|y b] H; try discriminate; [reflexivity|]. cbn [agree List.length seq forallb nth]. rewrite Nat.add_0_r, (Nat.eqb_sym y x). f_equal. injection H as H. rewrite IH by exact H. rewrite <- seq_shift. generalize (seq 0 (List.length a)) as l. induction l as [|j l IHl]; [reflexivity|]. cbn [map forallb nth]. rewrite <- IHl. now replace (i + S j) with (S i + j) by lia.
Qed.

(** ** Statistics *)
Lemma rsum_dev c l : rsum (map (fun v => (v - c) ^ 2)%R l) = (rsum (map (fun v => v * v)%R l) - 2 * c * rsum l + INR (List.length l) * c ^ 2)%R.
Proof. induction l as [|x l IH]; cbn [map]; rewrite ?rsum_cons. - unfold rsum. cbn [fold_right List.length INR]. ring. - rewrite IH. cbn [List.length]. rewrite S_INR. ring. Qed.
Lemma variance_eq l : l <> [] -> variance l = (average (map (fun v => v * v)%R l) - average l * average l)%R.
Proof.
  intros H. unfold variance, average at 1. rewrite rsum_dev, map_length. unfold average. rewrite map_length. assert (INR (List.length l) <> 0%R) by (apply not_0_INR; now destruct l). field. assumption.
Qed.
Lemma keep_in_bounds ax s : Forall (lt 0) s -> forall i ix, in_bounds (mapi (fun i d => if amem i ax then 1 else d) i s) ix -> in_bounds s ix.
Proof.
  induction 1 as [|d s Hd Hs IH]; intros i ix H; cbn [mapi] in H; inversion H; subst; constructor; [destruct (amem i ax); lia|]. eapply IH. eassumption.
Qed.
Lemma squash_same s : forall ix, in_bounds s ix -> squash s ix = ix.
Proof. unfold squash. intros ix H. induction H as [|i d ix s Hi _ IH]; [reflexivity|]. cbn. rewrite IH. f_equal. destruct (Nat.eqb_spec d 1); lia. Qed.
Lemma bounds_length s ix : in_bounds s ix -> List.length ix = List.length s.
Proof. induction 1; cbn; congruence. Qed.
Lemma bix_same s ix : in_bounds s ix -> bix s ix = ix.
Proof. intros H. unfold bix. rewrite (bounds_length _ _ H), Nat.sub_diag. cbn [skipn]. now apply squash_same. Qed.
Lemma zip_eq f a b s : bshape (sh a) (sh b) = Some s -> zip_arr f a b = inl (mk_arr s (fun ix => f (el a (bix (sh a) ix)) (el b (bix (sh b) ix)))).
Proof. unfold zip_arr. now intros ->. Qed.
Lemma mean_var_val ax x : axes_ok ax (sh x) = true -> Forall (lt 0) (sh x) -> exists m v, mean_var ax x = inl (m, v) /\ sh m = keep_shape ax (sh x) /\ sh v = keep_shape ax (sh x) /\
  forall ix, in_bounds (keep_shape ax (sh x)) ix -> let g := map (el x) (filter (agree ax 0 ix) (indices (sh x))) in el m ix = average g /\ el v ix = variance g.
Proof.
  intros Ha Hp. unfold mean_var, mean_keep. cbn [sh emap]. rewrite Ha. cbn [nb]. erewrite zip_eq by (cbn [sh emap]; apply bshape_l, below_refl). cbn [nb]. do 2 eexists. split; [reflexivity|]. cbn [sh]. repeat (split; [reflexivity|]).
  intros ix Hx. cbn [el emap sh]. rewrite (bix_same _ _ Hx). cbv zeta.
  pose proof (agree_count ax (sh x) 0 ix (keep_in_bounds ax (sh x) Hp 0 ix Hx)) as Hc. rewrite <- prod_axes in Hc by exact Ha. rewrite <- Hc. set (F := filter _ _) in *.
  assert (Hne : F <> []). { intros E. rewrite E, prod_axes in Hc by exact Ha. pose proof (axes_pos ax (sh x) Hp 0). cbn in Hc. lia. }
  split.
  - unfold average. now rewrite map_length.
  - rewrite variance_eq by (destruct F; [congruence|discriminate]). unfold average. rewrite !map_length, map_map. reflexivity.
Qed.
Lemma forallb_ext {X} (P Q : X -> bool) l : (forall x, P x = Q x) -> forallb P l = forallb Q l.
Proof. intros H. induction l as [|x l IH]; [reflexivity|]. cbn. now rewrite H, IH. Qed.
Lemma batch_group ax b s ix : in_bounds (keep_shape ax s) ix -> filter (agree (0 :: map S ax) 0 (0 :: ix)) (indices (b :: s)) = filter (fun jx => in_group ax ix (tl jx)) (indices (b :: s)).
Proof.
  intros H. apply filter_ext_in. intros jx Hj. apply indices_length in Hj. destruct jx as [|j jx]; [discriminate|]. cbn [agree tl]. change (amem 0 (0 :: map S ax)) with true. cbn [orb andb].
  assert (E : List.length ix = List.length jx). { apply bounds_length in H. unfold keep_shape in H. rewrite mapi_length in H. cbn in Hj. lia. }
  rewrite agree_group by exact E. unfold in_group. apply forallb_ext. intros k. change (1 + k) with (S k). now rewrite amem_S.
Qed.
Lemma single_group ax s ix : in_bounds (keep_shape ax s) ix -> filter (agree ax 0 ix) (indices s) = filter (in_group ax ix) (indices s).
Proof.
  intros H. apply filter_ext_in. intros jx Hj. apply indices_length in Hj. apply bounds_length in H. unfold keep_shape in H. rewrite mapi_length in H. rewrite agree_group by congruence. reflexivity.
Qed.

(** ** The layer *)
Section nn.
Context {PR : Prng}.

(** a call of the layer: on a batch (the examples along the first dimension) or on one example *)
Inductive event := Batch (x : arr) (kw : kwargs) | Single (x : arr) (rng : option key) (kw : kwargs).
Definition members (ax : list nat) (e : event) (ix : list nat) : list R := match e with Batch x _ => batch_members ax x ix | Single x _ _ => single_members ax x ix end.
(** the layer with the parameters p is called on the events of a history, one after the other, and ends with the parameters p' *)
Inductive history (c : lclass) (name : option string) : lparams -> list event -> lparams -> Prop :=
| H_start p : history c name p [] p
| H_batch p h p1 x kw out p2 : history c name p h p1 -> bn_cau_batched p1 x kw = inl (out, p2) -> history c name p (h ++ [Batch x kw]) p2
| H_single p h p1 x rng kw out p2 : history c name p h p1 -> call_and_update (Leaf c p1 name) [x] rng kw = inl (out, Leaf c p2 name) -> history c name p (h ++ [Single x rng kw]) p2.
(** the shapes of the inputs are those the layer was initialised for; a single example only if its first axis is averaged *)
Definition fits (ax s : list nat) (e : event) : Prop := match e with Batch x _ => exists b, 0 < b /\ sh x = b :: s | Single x _ _ => sh x = s /\ In 0 ax end.

Section one.
Context (ax : list nat) (m e : R) (ce sc : bool) (bi gi : initialiser) (s : list nat).
Let c := BatchNorm ax m e ce sc bi gi.
Let i := mk_bn ax e ce sc (1 - m) s.

(** the state of the layer: moving statistics mm and mv *)
Definition has_state (p : lparams) (mm mv : arr) : Prop := l_state p = PNode "BatchNormState" [PLeaf mm; PLeaf mv] /\ sh mm = keep_shape ax s /\ sh mv = keep_shape ax s.

Lemma step_val (old new : arr) d : sh old = keep_shape ax s -> below (sh new) (keep_shape ax s) ->
  exists r, nb (zip_arr Rminus old new) (fun w => zip_arr Rminus old (emap (fun v => v * d)%R w)) = inl r /\ sh r = keep_shape ax s /\
    forall ix, in_bounds (keep_shape ax s) ix -> el r ix = (el old ix - (el old ix - el new (bix (sh new) ix)) * d)%R.
Proof.
  intros Ho Hn. rewrite (zip_eq _ _ _ (keep_shape ax s)) by (rewrite Ho; now apply bshape_l). cbn [nb]. rewrite (zip_eq _ _ _ (keep_shape ax s)) by (cbn [sh emap]; rewrite Ho; apply bshape_l, below_refl).
  eexists. split; [reflexivity|]. cbn [sh]. split; [reflexivity|]. intros ix Hx. cbn [el emap sh]. rewrite Ho, (bix_same _ _ Hx), (bix_same _ _ Hx). reflexivity.
Qed.
Lemma update_val p mm mv x axis mean var : has_state p mm mv -> l_info p = IBatchNorm i -> mean_var axis x = inl (mean, var) -> forall n K', sh mean = S n :: K' -> sh var = S n :: K' -> below K' (keep_shape ax s) ->
  exists p' mm' mv', bn_update_axis p x axis = inl p' /\ l_params p' = l_params p /\ l_info p' = l_info p /\ has_state p' mm' mv' /\ forall ix, in_bounds (keep_shape ax s) ix ->
    el mm' ix = (el mm ix - (el mm ix - el mean (0%nat :: bix K' ix)) * (1 - m))%R /\ el mv' ix = (el mv ix - (el mv ix - el var (0%nat :: bix K' ix)) * (1 - m))%R.
Proof.
  intros (Hs & Hm & Hv) Hi Hmv n K' Em Ev Hb. unfold bn_update_axis. rewrite Hs, Hi, Hmv. cbn [nb fst snd]. unfold index0. rewrite Em, Ev. cbn [nb bn_decay i].
  destruct (step_val mm (mk_arr K' (fun ix => el mean (0 :: ix))) (1 - m) Hm Hb) as (mm' & Em' & Sm' & Vm'). destruct (step_val mv (mk_arr K' (fun ix => el var (0 :: ix))) (1 - m) Hv Hb) as (mv' & Ev' & Sv' & Vv').
  rewrite Em'. cbn [nb]. rewrite Ev'. cbn [nb]. exists (mk_lp (l_params p) (PNode "BatchNormState" [PLeaf mm'; PLeaf mv']) (IBatchNorm i)), mm', mv'. cbn [l_params l_info l_state]. repeat split; auto.
  - apply (Vm' _ H).
  - apply (Vv' _ H).
Qed.
Lemma axes_batched b : axes_ok ax s = true -> axes_ok (0 :: map S ax) (b :: s) = true.
Proof using ax s. clear c i.
  unfold axes_ok. intros H. apply andb_prop in H as [H1 H2]. apply andb_true_intro. split.
  - cbn [forallb]. apply andb_true_intro. split; [reflexivity|]. rewrite forallb_forall in *. intros j Hj. apply in_map_iff in Hj as (k & <- & Hk). apply H1 in Hk. apply Nat.ltb_lt in Hk. apply Nat.ltb_lt. cbn. lia.
  - cbn [distinct]. apply andb_true_intro. split.
    + apply negb_true_iff. unfold amem. clear. induction ax; [reflexivity|]. cbn. assumption.
    + clear - H2. induction ax as [|a l IH]; [reflexivity|]. cbn [map distinct] in *. apply andb_prop in H2 as [Hn H2]. rewrite IH by exact H2. rewrite andb_true_r. apply negb_true_iff. apply negb_true_iff in Hn. rewrite <- Hn. unfold amem. clear. induction l; [reflexivity|]. cbn [existsb map]. rewrite IHl. reflexivity.
Qed.
Lemma keep_batched b : keep_shape (0 :: map S ax) (b :: s) = 1 :: keep_shape ax s.
Proof using ax s. clear c i.
  unfold keep_shape. cbn [mapi]. change (amem 0 (0 :: map S ax)) with true. f_equal. cut (forall j, mapi (fun i d => if amem i (0 :: map S ax) then 1 else d) (S j) s = mapi (fun i d => if amem i ax then 1 else d) j s); [auto|].
  induction s as [|d t IH]; intros j; [reflexivity|]. cbn [mapi]. rewrite amem_S. f_equal. apply IH.
Qed.
(** one update, from a batch or from a single example *)
Lemma batch_update p mm mv x b : axes_ok ax s = true -> Forall (lt 0) s -> has_state p mm mv -> l_info p = IBatchNorm i -> 0 < b -> sh x = b :: s ->
  exists p' mm' mv', bn_update_batched p x = inl p' /\ l_params p' = l_params p /\ l_info p' = l_info p /\ has_state p' mm' mv' /\ forall ix, in_bounds (keep_shape ax s) ix ->
    el mm' ix = (el mm ix - (el mm ix - average (batch_members ax x ix)) * (1 - m))%R /\ el mv' ix = (el mv ix - (el mv ix - variance (batch_members ax x ix)) * (1 - m))%R.
Proof.
  intros Ha Hp Hst Hi Hb Hx. unfold bn_update_batched. rewrite Hi. cbn [i bn_shape bn_axis]. rewrite Hx. cbn [List.length]. replace (S (List.length s) - List.length s) with 1 by lia.
  cbn [seq app]. replace (map (fun a => a + 1) ax) with (map S ax) by (apply map_ext; intros; lia).
  destruct (mean_var_val (0 :: map S ax) x) as (mean & var & E & Sm & Sv & V); [rewrite Hx; now apply axes_batched|rewrite Hx; now constructor|]. rewrite Hx, keep_batched in Sm, Sv, V.
  destruct (update_val p mm mv x _ mean var Hst Hi E 0 (keep_shape ax s) Sm Sv (below_refl _)) as (p' & mm' & mv' & Eu & Ep & Ei & Hst' & V'). exists p', mm', mv'. split; [exact Eu|]. do 3 (split; [first [assumption|congruence]|]).
  intros ix Hix. destruct (V' ix Hix) as [V1 V2]. rewrite V1, V2, bix_same by exact Hix. destruct (V (0 :: ix)) as [W1 W2]; [constructor; auto|]. rewrite batch_group in W1, W2 by exact Hix. unfold batch_members. rewrite Hx, W1, W2. auto.
Qed.
Lemma single_update p mm mv x : axes_ok ax s = true -> Forall (lt 0) s -> In 0 ax -> has_state p mm mv -> l_info p = IBatchNorm i -> sh x = s ->
  exists p' mm' mv', bn_update p [x] [] = inl p' /\ l_params p' = l_params p /\ l_info p' = l_info p /\ has_state p' mm' mv' /\ forall ix, in_bounds (keep_shape ax s) ix ->
    el mm' ix = (el mm ix - (el mm ix - average (single_members ax x ix)) * (1 - m))%R /\ el mv' ix = (el mv ix - (el mv ix - variance (single_members ax x ix)) * (1 - m))%R.
Proof.
  intros Ha Hp H0 Hst Hi Hx. unfold bn_update, on1. rewrite Hi. cbn [i bn_axis].
  destruct (mean_var_val ax x) as (mean & var & E & Sm & Sv & V); [now rewrite Hx|now rewrite Hx|]. rewrite Hx in Sm, Sv, V.
  assert (Hk : exists K', keep_shape ax s = 1 :: K').
  { destruct s as [|d t]. - unfold axes_ok in Ha. apply andb_prop in Ha as [Ha _]. rewrite forallb_forall in Ha. apply Ha in H0. discriminate. - unfold keep_shape. cbn [mapi]. replace (amem 0 ax) with true; [eauto|]. symmetry. apply existsb_exists. exists 0. auto. }
  destruct Hk as (K' & Hk).
  destruct (update_val p mm mv x _ mean var Hst Hi E 0 K') as (p' & mm' & mv' & Eu & Ep & Ei & Hst' & V'); [congruence|congruence|rewrite Hk; apply (below_tail [1]), below_refl|]. exists p', mm', mv'. split; [exact Eu|]. do 3 (split; [first [assumption|congruence]|]).
  intros ix Hix. destruct (V' ix Hix) as [V1 V2]. rewrite V1, V2. rewrite Hk in Hix. inversion Hix as [|j d ix' K'' Hj Hr]; subst. assert (j = 0) by lia. subst j.
  assert (Eb : bix K' (0 :: ix') = ix'). { unfold bix. cbn [List.length]. rewrite (bounds_length _ _ Hr). replace (S (List.length K') - List.length K') with 1 by lia. cbn [skipn]. now apply squash_same. }
  rewrite Eb. rewrite <- Hk in Hix. destruct (V _ Hix) as [W1 W2]. rewrite single_group in W1, W2 by exact Hix. unfold single_members. rewrite Hx, W1, W2. auto.
Qed.

(** the scale and the shift the layer has for an element *)
Definition gain (p : lparams) (ix : list nat) : R := match l_params p with PNode _ [_; PLeaf g] => el g (off ax ix) | _ => 1%R end.
Definition shift (p : lparams) (ix : list nat) : R := match l_params p with PNode _ [PLeaf b; _] => el b (off ax ix) | _ => 0%R end.
Definition has_params (p : lparams) : Prop := exists n beta gamma, l_params p = PNode n [beta; gamma] /\
  (if ce then exists b, beta = PLeaf b /\ sh b = kept ax 0 s else beta = tuple []) /\ (if sc then exists g, gamma = PLeaf g /\ sh g = kept ax 0 s else gamma = tuple []).

Lemma at0_squash : forall ix, in_bounds s ix -> squash (keep_shape ax s) ix = at0 ax ix.
Proof using ax s. clear c i.
  unfold keep_shape, at0, squash. cut (forall j ix, in_bounds s ix -> map (fun p => if fst p =? 1 then 0 else snd p) (combine (mapi (fun i d => if amem i ax then 1 else d) j s) ix) = mapi (fun i k => if amem i ax then 0 else k) j ix); [auto|].
  induction s as [|d t IH]; intros j ix H; inversion H; subst; [reflexivity|]. cbn [mapi combine map fst snd]. f_equal; [|now apply IH]. destruct (amem j ax); [reflexivity|]. destruct (Nat.eqb_spec d 1); lia.
Qed.
Lemma keep_length : List.length (keep_shape ax s) = List.length s.
Proof using ax s. clear c i. apply mapi_length. Qed.
Lemma bix_keep j ix : in_bounds s ix -> bix (keep_shape ax s) (j :: ix) = at0 ax ix.
Proof using ax s. clear c i.
  intros H. unfold bix. rewrite keep_length. cbn [List.length]. rewrite (bounds_length _ _ H). replace (S (List.length s) - List.length s) with 1 by lia. cbn [skipn]. now apply at0_squash.
Qed.
Lemma bix_keep1 j ix : in_bounds s ix -> bix (1 :: keep_shape ax s) (j :: ix) = 0 :: at0 ax ix.
Proof using ax s. clear c i.
  intros H. unfold bix. cbn [List.length]. rewrite keep_length, (bounds_length _ _ H), Nat.sub_diag. cbn [skipn]. unfold squash. cbn [combine map fst snd Nat.eqb]. f_equal. now apply at0_squash.
Qed.
Lemma expand_off : forall ix, List.length ix = List.length s -> expand_ix (true :: map (fun j => amem j ax) (seq 0 (List.length s))) (0 :: at0 ax ix) = off ax ix.
Proof using ax s. clear c i.
  cbn [expand_ix]. unfold at0, off, kept. intros ix <-. cut (forall j, expand_ix (map (fun j => amem j ax) (seq j (List.length ix))) (mapi (fun i k => if amem i ax then 0 else k) j ix) = map snd (filter (fun id => negb (amem (fst id) ax)) (combine (seq j (List.length ix)) ix))); [auto|].
  induction ix as [|k ix IH]; intros j; [reflexivity|]. cbn [List.length seq map mapi combine filter fst expand_ix]. destruct (amem j ax); cbn [negb map snd]; rewrite IH; reflexivity.
Qed.
Lemma expand_val b a : sh a = kept ax 0 s -> exists r, expand (map (fun j => amem j (0 :: map S ax)) (seq 0 (List.length (b :: s)))) a = inl r /\ sh r = 1 :: keep_shape ax s /\
  forall j ix, in_bounds s ix -> el r (bix (sh r) (j :: ix)) = el a (off ax ix).
Proof using ax s. clear c i.
  intros Ha. cbn [List.length]. rewrite ed_eq. unfold expand. cbn [expand_shape]. rewrite Ha, expand_kept. cbn [option_map]. eexists. split; [reflexivity|]. cbn [sh el]. fold (keep_shape ax s). split; [reflexivity|].
  intros j ix H. rewrite bix_keep1, expand_off by (auto using bounds_length). reflexivity.
Qed.
Lemma full_below b : below (1 :: keep_shape ax s) (b :: s).
Proof. apply below_cons; [unfold keep_shape; now rewrite mapi_length|apply keep_below|auto]. Qed.
(** what _call_batched returns, given the mean and the variance it uses *)
Lemma call_val (p : lparams) (training : bool) (mm mv x : arr) (b : nat) (mean var : arr) : has_state p mm mv -> l_info p = IBatchNorm i -> has_params p -> sh x = b :: s ->
  (if training then mean_var (0 :: map S ax) x else inl (mm, mv)) = inl (mean, var) -> below (sh mean) (b :: s) -> below (sh var) (b :: s) ->
  exists out, bn_call_batched p training x = inl out /\ sh out = sh x /\ forall j ix, j < b -> in_bounds s ix ->
    el out (j :: ix) = normalised (gain p ix) (shift p ix) (el mean (bix (sh mean) (j :: ix))) (el var (bix (sh var) (j :: ix))) e (el x (j :: ix)).
Proof using PR ax m e ce sc s. clear c.
  intros (Hs & _) Hi (n & beta & gamma & Hp & Hb & Hg) Hx Hr Bm Bv. unfold bn_call_batched. rewrite Hp, Hs, Hi. cbn [i bn_axis bn_center bn_scale bn_eps]. rewrite Hr. rewrite Hx.
  assert (Eb : exists ob, (if ce then match beta with PLeaf b0 => nb (expand (map (fun j => amem j (0 :: map S ax)) (seq 0 (List.length (b :: s)))) b0) (fun b1 => inl (Some b1)) | _ => inr NType end else inl None) = inl ob /\
    match ob with None => forall ix, shift p ix = 0%R | Some r => sh r = 1 :: keep_shape ax s /\ forall j ix, in_bounds s ix -> el r (bix (sh r) (j :: ix)) = shift p ix end).
  { unfold shift. rewrite Hp. destruct ce.
    - destruct Hb as (b0 & -> & Sb). destruct (expand_val b b0 Sb) as (r & -> & Sr & Vr). cbn [nb]. exists (Some r). auto.
    - subst beta. exists None. auto. }
  assert (Eg : exists og, (if sc then match gamma with PLeaf b0 => nb (expand (map (fun j => amem j (0 :: map S ax)) (seq 0 (List.length (b :: s)))) b0) (fun b1 => inl (Some b1)) | _ => inr NType end else inl None) = inl og /\
    match og with None => forall ix, gain p ix = 1%R | Some r => sh r = 1 :: keep_shape ax s /\ forall j ix, in_bounds s ix -> el r (bix (sh r) (j :: ix)) = gain p ix end).
  { unfold gain. rewrite Hp. destruct sc.
    - destruct Hg as (b0 & -> & Sb). destruct (expand_val b b0 Sb) as (r & -> & Sr & Vr). cbn [nb]. exists (Some r). auto.
    - subst gamma. exists None. auto. }
  destruct Eb as (ob & -> & Hob). destruct Eg as (og & -> & Hog). cbn [nb fst snd].
  rewrite (zip_eq _ _ _ (b :: s)) by (rewrite Hx; now apply bshape_l). cbn [nb]. rewrite (zip_eq _ _ _ (b :: s)) by (cbn [sh emap]; now apply bshape_l). cbn [nb].
  set (z := mk_arr (b :: s) _).
  assert (Hz : forall j ix, j < b -> in_bounds s ix -> el z (j :: ix) = ((el x (j :: ix) - el mean (bix (sh mean) (j :: ix))) / sqrt (el var (bix (sh var) (j :: ix)) + e))%R).
  { intros j ix Hj Hix. unfold z. cbn [el emap sh]. rewrite (bix_same (b :: s) (j :: ix)) by (constructor; auto). rewrite Hx, (bix_same (b :: s) (j :: ix)) by (constructor; auto). reflexivity. }
  assert (Sz : sh z = b :: s) by reflexivity. clearbody z. unfold normalised.
  destruct ob as [rb|], og as [rg|].
  - destruct Hob as [Sb Vb], Hog as [Sg Vg]. rewrite (zip_eq _ _ _ (b :: s)) by (rewrite Sg, Sz; apply bshape_r, full_below). cbn [nb]. rewrite (zip_eq _ _ _ (b :: s)) by (cbn [sh]; rewrite Sb; apply bshape_l, full_below).
    eexists. split; [reflexivity|]. split; [reflexivity|]. intros j ix Hj Hix. cbn [el sh]. rewrite Vb by exact Hix. rewrite (bix_same (b :: s) (j :: ix)) by (constructor; auto). rewrite Vg by exact Hix. rewrite Sz, (bix_same (b :: s) (j :: ix)) by (constructor; auto). now rewrite Hz.
  - destruct Hob as [Sb Vb]. rewrite (zip_eq _ _ _ (b :: s)) by (rewrite Sb, Sz; apply bshape_l, full_below).
    eexists. split; [reflexivity|]. split; [reflexivity|]. intros j ix Hj Hix. cbn [el sh]. rewrite Vb by exact Hix. rewrite Sz, (bix_same (b :: s) (j :: ix)) by (constructor; auto). rewrite Hz, Hog by auto. ring.
  - destruct Hog as [Sg Vg]. rewrite (zip_eq _ _ _ (b :: s)) by (rewrite Sg, Sz; apply bshape_r, full_below).
    eexists. split; [reflexivity|]. split; [reflexivity|]. intros j ix Hj Hix. cbn [el sh]. rewrite Vg by exact Hix. rewrite Sz, (bix_same (b :: s) (j :: ix)) by (constructor; auto). rewrite Hz, Hob by auto. ring.
  - exists z. split; [reflexivity|]. split; [exact Sz|]. intros j ix Hj Hix. rewrite Hz, Hob, Hog by auto. ring.
Qed.
Lemma init_val k p0 : c_init c k [zshape s] = inl p0 -> has_params p0 /\ l_info p0 = IBatchNorm i /\ exists mm mv, has_state p0 mm mv /\ (forall ix, el mm ix = 0%R) /\ (forall ix, el mv ix = 1%R).
Proof.
  intros H. cbn [c_init c BatchNorm] in H. unfold bn_init, spec1 in H. apply nb_inl in H as (x0 & H0 & H). apply create_ok, zshape_inj in H0. rewrite H0 in H. fold (kept ax 0 s) in H.
  destruct (splitn k 4) as [|k1 [|k2 [|k3 [|k4 [|]]]]]; try discriminate. injection H as <-. split; [|split; [reflexivity|]].
  - do 3 eexists. cbn [l_params]. split; [reflexivity|]. split; [destruct ce|destruct sc]; try reflexivity; eexists; split; reflexivity.
  - do 2 eexists. unfold has_state. cbn [l_state]. split; [split; [reflexivity|split; reflexivity]|split; reflexivity].
Qed.
Lemma training_filter (kw : kwargs) : training_of (filter_kwargs with_training kw) = training_of kw.
Proof.
  unfold training_of. replace (kget "training" (filter_kwargs with_training kw)) with (kget "training" kw); [reflexivity|].
  unfold filter_kwargs, with_training. cbn. induction kw as [|[t v] kw IH]; [reflexivity|]. cbn [kget filter fst]. destruct (String.eqb_spec "training" t) as [<-|Hne].
  - cbn. reflexivity.
  - match goal with |- context [if ?b then _ else _] => destruct b end; [|exact IH]. cbn [kget]. destruct (String.eqb_spec "training" t); [congruence|exact IH].
Qed.
Lemma axes_ok_intro : NoDup ax -> Forall (fun a => a < List.length s) ax -> axes_ok ax s = true.
Proof using ax s. clear c i.
  intros H1 H2. unfold axes_ok. apply andb_true_intro. split.
  - apply forallb_forall. intros a Ha. rewrite Forall_forall in H2. apply Nat.ltb_lt. now apply H2.
  - clear H2. induction H1 as [|a l Ha _ IH]; [reflexivity|]. cbn [distinct]. rewrite IH, andb_true_r. apply negb_true_iff. destruct (amem a l) eqn:E; [|reflexivity]. apply existsb_exists in E as (y & Hy & Ey). apply Nat.eqb_eq in Ey. now subst.
Qed.
Lemma bn_update_kw p x kw : bn_update p [x] kw = bn_update p [x] [].
Proof. reflexivity. Qed.
Lemma history_state name k p0 h p : axes_ok ax s = true -> Forall (lt 0) s -> c_init c k [zshape s] = inl p0 -> history c name p0 h p -> Forall (fits ax s) h ->
  l_params p = l_params p0 /\ l_info p = IBatchNorm i /\ exists mm mv, has_state p mm mv /\ forall ix, in_bounds (keep_shape ax s) ix ->
    el mm ix = ema (1 - m) 0 (map (fun ev => average (members ax ev ix)) h) /\ el mv ix = ema (1 - m) 1 (map (fun ev => variance (members ax ev ix)) h).
Proof.
  intros Ha Hp H0 Hh Hf. destruct (init_val _ _ H0) as (P0 & I0 & mm0 & mv0 & S0 & Vm0 & Vv0).
  induction Hh as [p|p h p1 x kw out p2 Hh IH H|p h p1 x rng kw out p2 Hh IH H].
  - split; [reflexivity|]. split; [exact I0|]. exists mm0, mv0. split; [exact S0|]. intros ix _. rewrite Vm0, Vv0. unfold ema. cbn [map mapi List.length pow]. unfold rsum. cbn [fold_right]. split; ring.
  - apply Forall_app in Hf as [Hf He]. apply Forall_inv in He. destruct He as (b & Hb & Hx). destruct (IH H0 Hf P0 I0 S0) as (Ep & Ei & mm & mv & Hs & V). unfold bn_cau_batched in H. apply nb_inl in H as (out' & _ & H). apply nb_inl in H as (p' & Hu & H). injection H as <- <-.
    destruct (batch_update p1 mm mv x b Ha Hp Hs Ei Hb Hx) as (p3 & mm' & mv' & Hu' & Ep' & Ei' & Hs' & V'). rewrite Hu in Hu'. injection Hu' as <-. split; [congruence|]. split; [congruence|]. exists mm', mv'. split; [exact Hs'|].
    intros ix Hix. destruct (V ix Hix) as [V1 V2]. destruct (V' ix Hix) as [W1 W2]. rewrite !map_app. cbn [map members]. rewrite !ema_snoc, <- V1, <- V2. auto.
  - apply Forall_app in Hf as [Hf He]. apply Forall_inv in He. destruct He as [Hx H1]. destruct (IH H0 Hf P0 I0 S0) as (Ep & Ei & mm & mv & Hs & V). rewrite leaf_eq in H. unfold leaf_step in H. apply nb_inl in H as (out' & _ & H). apply nb_inl in H as (p' & Hu & H). injection H as _ <-.
    cbn [c BatchNorm c_update] in Hu. rewrite bn_update_kw in Hu.
    destruct (single_update p1 mm mv x Ha Hp H1 Hs Ei Hx) as (p3 & mm' & mv' & Hu' & Ep' & Ei' & Hs' & V'). rewrite Hu in Hu'. injection Hu' as <-. split; [congruence|]. split; [congruence|]. exists mm', mv'. split; [exact Hs'|].
    intros ix Hix. destruct (V ix Hix) as [V1 V2]. destruct (V' ix Hix) as [W1 W2]. rewrite !map_app. cbn [map members]. rewrite !ema_snoc, <- V1, <- V2. auto.
Qed.
Lemma at0_bounds ix : in_bounds s ix -> in_bounds (keep_shape ax s) (at0 ax ix).
Proof using ax s. clear c i.
  intros H. unfold keep_shape, at0. cut (forall j, in_bounds (mapi (fun i d => if amem i ax then 1 else d) j s) (mapi (fun i k => if amem i ax then 0 else k) j ix)); [auto|].
  induction H as [|k d ix' t Hk _ IH]; intros j; [constructor|]. cbn [mapi]. constructor; [destruct (amem j ax); lia|apply IH].
Qed.
End one.

(** C62: after any history the moving statistics are exponential averages of the statistics of the inputs *)
Theorem C62_moving_average ax m e ce sc bi gi s k name p0 h p : let c := BatchNorm ax m e ce sc bi gi in
  NoDup ax -> Forall (fun a => a < List.length s) ax -> Forall (lt 0) s ->
  c_init c k [zshape s] = inl p0 -> history c name p0 h p -> Forall (fits ax s) h ->
  exists mm mv, l_state p = PNode "BatchNormState" [PLeaf mm; PLeaf mv] /\ sh mm = keep_shape ax s /\ sh mv = keep_shape ax s /\
  forall ix, in_bounds (keep_shape ax s) ix ->
    el mm ix = ema (1 - m) 0 (map (fun ev => average (members ax ev ix)) h) /\ el mv ix = ema (1 - m) 1 (map (fun ev => variance (members ax ev ix)) h).
Proof.
  intros c Hn Hr Hp H0 Hh Hf. destruct (history_state ax m e ce sc bi gi s name k p0 h p (axes_ok_intro ax s Hn Hr) Hp H0 Hh Hf) as (_ & _ & mm & mv & (Hs & S1 & S2) & V). exists mm, mv. auto.
Qed.
(** every call on an input of the right shape succeeds, in every mode: histories of every length exist.  In evaluation mode the
    layer normalises every element with the moving statistics; nothing else of the batch enters. *)
Theorem C62_evaluation ax m e ce sc bi gi s k name p0 h p x b kw : let c := BatchNorm ax m e ce sc bi gi in
  NoDup ax -> Forall (fun a => a < List.length s) ax -> Forall (lt 0) s ->
  c_init c k [zshape s] = inl p0 -> history c name p0 h p -> Forall (fits ax s) h ->
  0 < b -> sh x = b :: s -> training_of kw = false ->
  exists out p', bn_cau_batched p x kw = inl (out, p') /\ sh out = sh x /\ l_params p' = l_params p /\
  forall j ix, j < b -> in_bounds s ix -> el out (j :: ix) =
    normalised (gain ax p0 ix) (shift ax p0 ix) (ema (1 - m) 0 (map (fun ev => average (members ax ev (at0 ax ix))) h))
      (ema (1 - m) 1 (map (fun ev => variance (members ax ev (at0 ax ix))) h)) e (el x (j :: ix)).
Proof.
  intros c Hn Hr Hp H0 Hh Hf Hb Hx Ht. pose proof (axes_ok_intro ax s Hn Hr) as Ha. destruct (history_state ax m e ce sc bi gi s name k p0 h p Ha Hp H0 Hh Hf) as (Ep & Ei & mm & mv & Hs & V).
  destruct (init_val _ _ _ _ _ _ _ _ _ _ H0) as (P0 & _). assert (Hpp : has_params ax ce sc s p) by (unfold has_params; rewrite Ep; exact P0). destruct Hs as (Hs & S1 & S2).
  destruct (call_val ax m e ce sc s p false mm mv x b mm mv) as (out & Ec & So & Vo); [split; auto|exact Ei|exact Hpp|exact Hx|reflexivity|rewrite S1; apply (below_tail [b]), keep_below|rewrite S2; apply (below_tail [b]), keep_below|].
  destruct (batch_update ax m e ce sc s p mm mv x b Ha Hp (conj Hs (conj S1 S2)) Ei Hb Hx) as (p' & mm' & mv' & Hu & Ep' & _).
  exists out, p'. unfold bn_cau_batched. rewrite training_filter, Ht, Ec. cbn [nb]. rewrite Hu. cbn [nb]. split; [reflexivity|]. split; [exact So|]. split; [exact Ep'|].
  intros j ix Hj Hix. rewrite (Vo j ix Hj Hix), S1, S2, bix_keep by exact Hix. destruct (V (at0 ax ix) (at0_bounds ax s ix Hix)) as [-> ->]. unfold gain, shift. now rewrite Ep.
Qed.
(** the same for one example *)
Theorem C62_evaluation_single ax m e ce sc bi gi s k name p0 h p x rng kw : let c := BatchNorm ax m e ce sc bi gi in
  NoDup ax -> Forall (fun a => a < List.length s) ax -> Forall (lt 0) s ->
  c_init c k [zshape s] = inl p0 -> history c name p0 h p -> Forall (fits ax s) h ->
  In 0 ax -> sh x = s -> kget "training" kw = Some (KBool false) ->
  exists out p', call_and_update (Leaf c p name) [x] rng kw = inl (One out, Leaf c p' name) /\ sh out = sh x /\ l_params p' = l_params p /\
  forall ix, in_bounds s ix -> el out ix =
    normalised (gain ax p0 ix) (shift ax p0 ix) (ema (1 - m) 0 (map (fun ev => average (members ax ev (at0 ax ix))) h))
      (ema (1 - m) 1 (map (fun ev => variance (members ax ev (at0 ax ix))) h)) e (el x ix).
Proof.
  intros c Hn Hr Hp H0 Hh Hf H1 Hx Ht. pose proof (axes_ok_intro ax s Hn Hr) as Ha. destruct (history_state ax m e ce sc bi gi s name k p0 h p Ha Hp H0 Hh Hf) as (Ep & Ei & mm & mv & Hs & V).
  destruct (init_val _ _ _ _ _ _ _ _ _ _ H0) as (P0 & _). assert (Hpp : has_params ax ce sc s p) by (unfold has_params; rewrite Ep; exact P0). destruct Hs as (Hs & S1 & S2).
  assert (Hx1 : sh (newaxis x) = 1 :: s) by (cbn; now rewrite Hx).
  destruct (call_val ax m e ce sc s p false mm mv (newaxis x) 1 mm mv) as (out & Ec & So & Vo); [split; auto|exact Ei|exact Hpp|exact Hx1|reflexivity|rewrite S1; apply (below_tail [1]), keep_below|rewrite S2; apply (below_tail [1]), keep_below|].
  destruct (single_update ax m e ce sc s p mm mv x Ha Hp H1 (conj Hs (conj S1 S2)) Ei Hx) as (p' & mm' & mv' & Hu & Ep' & _).
  exists (mk_arr s (fun ix => el out (0 :: ix))), p'. rewrite leaf_eq. unfold leaf_step. set (kw' := match rng with None => kw | Some k0 => kw ++ [("rng", KKey k0)] end).
  assert (Ht' : training_of (filter_kwargs with_training kw') = false).
  { rewrite training_filter. unfold training_of. replace (kget "training" kw') with (Some (KBool false)); [reflexivity|]. unfold kw'. destruct rng as [r|]; [|now rewrite Ht]. clear kw'. induction kw as [|[t v] kw IH]; [discriminate|]. cbn [kget app] in *. destruct (String.eqb "training" t); [now rewrite Ht|auto]. }
  clearbody kw'. cbn [c_call c_sig c_update c_usig c BatchNorm]. unfold bn_call, on1. rewrite Ei. cbn [bn_shape]. rewrite Hx, Nat.eqb_refl. cbn [negb]. rewrite Ht', Ec. cbn [nb]. unfold index0. rewrite So, Hx1. cbn [nb].
  rewrite bn_update_kw, Hu. cbn [nb sh el]. split; [reflexivity|]. split; [reflexivity|]. split; [exact Ep'|].
  intros ix Hix. rewrite (Vo 0 ix) by auto. rewrite S1, S2, bix_keep by exact Hix. destruct (V (at0 ax ix) (at0_bounds ax s ix Hix)) as [-> ->]. unfold gain, shift. rewrite Ep. reflexivity.
Qed.
(** in training mode a batch is normalised with its own statistics; the moving statistics do not enter *)
Theorem C62_training ax m e ce sc bi gi s k name p0 h p x b kw : let c := BatchNorm ax m e ce sc bi gi in
  NoDup ax -> Forall (fun a => a < List.length s) ax -> Forall (lt 0) s ->
  c_init c k [zshape s] = inl p0 -> history c name p0 h p -> Forall (fits ax s) h ->
  0 < b -> sh x = b :: s -> training_of kw = true ->
  exists out p', bn_cau_batched p x kw = inl (out, p') /\ sh out = sh x /\ l_params p' = l_params p /\
  forall j ix, j < b -> in_bounds s ix -> el out (j :: ix) =
    normalised (gain ax p0 ix) (shift ax p0 ix) (average (batch_members ax x (at0 ax ix))) (variance (batch_members ax x (at0 ax ix))) e (el x (j :: ix)).
Proof.
  intros c Hn Hr Hp H0 Hh Hf Hb Hx Ht. pose proof (axes_ok_intro ax s Hn Hr) as Ha. destruct (history_state ax m e ce sc bi gi s name k p0 h p Ha Hp H0 Hh Hf) as (Ep & Ei & mm & mv & Hs & V).
  destruct (init_val _ _ _ _ _ _ _ _ _ _ H0) as (P0 & _). assert (Hpp : has_params ax ce sc s p) by (unfold has_params; rewrite Ep; exact P0).
  destruct (mean_var_val (0 :: map S ax) x) as (mean & var & E & Sm & Sv & W); [rewrite Hx; now apply axes_batched|rewrite Hx; now constructor|]. rewrite Hx, keep_batched in Sm, Sv, W.
  destruct (call_val ax m e ce sc s p true mm mv x b mean var) as (out & Ec & So & Vo); [exact Hs|exact Ei|exact Hpp|exact Hx|exact E|rewrite Sm; apply full_below|rewrite Sv; apply full_below|].
  destruct (batch_update ax m e ce sc s p mm mv x b Ha Hp Hs Ei Hb Hx) as (p' & mm' & mv' & Hu & Ep' & _).
  exists out, p'. unfold bn_cau_batched. rewrite training_filter, Ht, Ec. cbn [nb]. rewrite Hu. cbn [nb]. split; [reflexivity|]. split; [exact So|]. split; [exact Ep'|].
  intros j ix Hj Hix. rewrite (Vo j ix Hj Hix), Sm, Sv, bix_keep1 by exact Hix. destruct (W (0 :: at0 ax ix)) as [-> ->]; [constructor; [lia|now apply at0_bounds]|]. rewrite batch_group by now apply at0_bounds. unfold batch_members, gain, shift. rewrite Ep, Hx. reflexivity.
Qed.
(** the output for an element does not depend on the other examples of the batch *)
Theorem C62_evaluation_independent ax m e ce sc bi gi s k name p0 h p x y b b' kw kw' j j' : let c := BatchNorm ax m e ce sc bi gi in
  NoDup ax -> Forall (fun a => a < List.length s) ax -> Forall (lt 0) s ->
  c_init c k [zshape s] = inl p0 -> history c name p0 h p -> Forall (fits ax s) h ->
  sh x = b :: s -> sh y = b' :: s -> training_of kw = false -> training_of kw' = false -> j < b -> j' < b' ->
  (forall ix, in_bounds s ix -> el x (j :: ix) = el y (j' :: ix)) ->
  exists o1 q1 o2 q2, bn_cau_batched p x kw = inl (o1, q1) /\ bn_cau_batched p y kw' = inl (o2, q2) /\ forall ix, in_bounds s ix -> el o1 (j :: ix) = el o2 (j' :: ix).
Proof.
  intros c Hn Hr Hp H0 Hh Hf Hx Hy Ht Ht' Hj Hj' He.
  destruct (C62_evaluation ax m e ce sc bi gi s k name p0 h p x b kw Hn Hr Hp H0 Hh Hf) as (o1 & q1 & E1 & _ & _ & V1); [lia|auto|auto|].
  destruct (C62_evaluation ax m e ce sc bi gi s k name p0 h p y b' kw' Hn Hr Hp H0 Hh Hf) as (o2 & q2 & E2 & _ & _ & V2); [lia|auto|auto|].
  exists o1, q1, o2, q2. repeat split; auto. intros ix Hix. rewrite V1, V2, He by auto. reflexivity.
Qed.
(** a layer can be initialised for every shape, and every history of inputs of the right shapes can be run *)
Theorem C62_total ax m e ce sc bi gi s k name h : let c := BatchNorm ax m e ce sc bi gi in
  NoDup ax -> Forall (fun a => a < List.length s) ax -> Forall (lt 0) s -> Forall (fits ax s) h ->
  exists p0 p, c_init c k [zshape s] = inl p0 /\ history c name p0 h p.
Proof.
  intros c Hn Hr Hp Hf. pose proof (axes_ok_intro ax s Hn Hr) as Ha.
  assert (E0 : exists p0, c_init c k [zshape s] = inl p0).
  { cbn [c c_init BatchNorm]. unfold bn_init, spec1, create. replace (forallb (Z.leb 0) (zshape s)) with true; [|symmetry; apply forallb_forall; intros z Hz; apply in_map_iff in Hz as (d & <- & _); apply Z.leb_le; lia]. cbn [nb].
    pose proof (splitn_length k 4) as Hl. destruct (splitn k 4) as [|k1 [|k2 [|k3 [|k4 [|]]]]]; try discriminate. eauto. }
  destruct E0 as (p0 & H0). exists p0. cut (exists p, history c name p0 h p); [intros (p & H); eauto|].
  induction h as [|ev h IH] using rev_ind; [eexists; constructor|]. apply Forall_app in Hf as [Hf He]. apply Forall_inv in He. destruct (IH Hf) as (p & Hh). destruct ev as [x kw|x rng kw].
  - destruct He as (b & Hb & Hx). destruct (training_of kw) eqn:Et.
    + destruct (C62_training ax m e ce sc bi gi s k name p0 h p x b kw Hn Hr Hp H0 Hh Hf Hb Hx Et) as (out & p' & E & _). exists p'. econstructor; eauto.
    + destruct (C62_evaluation ax m e ce sc bi gi s k name p0 h p x b kw Hn Hr Hp H0 Hh Hf Hb Hx Et) as (out & p' & E & _). exists p'. econstructor; eauto.
  - destruct He as [Hx H1]. destruct (history_state ax m e ce sc bi gi s name k p0 h p Ha Hp H0 Hh Hf) as (Ep & Ei & mm & mv & Hs & _). destruct (single_update ax m e ce sc s p mm mv x Ha Hp H1 Hs Ei Hx) as (p' & mm' & mv' & Hu & _).
    destruct (init_val _ _ _ _ _ _ _ _ _ _ H0) as (P0 & _). assert (Hpp : has_params ax ce sc s p) by (unfold has_params; rewrite Ep; exact P0).
    assert (Hx1 : sh (newaxis x) = 1 :: s) by (cbn; now rewrite Hx). destruct Hs as (Hs & S1 & S2).
    destruct (call_val ax m e ce sc s p false mm mv (newaxis x) 1 mm mv) as (out & Ec & So & Vo); [split; auto|exact Ei|exact Hpp|exact Hx1|reflexivity|rewrite S1; apply (below_tail [1]), keep_below|rewrite S2; apply (below_tail [1]), keep_below|].
    exists p'. eapply H_single with (out := if training_of (filter_kwargs with_training (match rng with None => kw | Some k0 => kw ++ [("rng", KKey k0)] end)) then One x else One (mk_arr s (fun ix => el out (0 :: ix)))); [exact Hh|]. rewrite leaf_eq. unfold leaf_step. cbn [c_call c_sig c_update c_usig c BatchNorm]. unfold bn_call, on1. rewrite Ei. cbn [bn_shape]. rewrite Hx, Nat.eqb_refl. cbn [negb].
    destruct (training_of (filter_kwargs with_training _)).
    + cbn [nb]. rewrite bn_update_kw, Hu. reflexivity.
    + rewrite Ec. cbn [nb]. unfold index0. rewrite So, Hx1. cbn [nb]. rewrite bn_update_kw, Hu. reflexivity.
Qed.
(** a single example whose first axis is not averaged: [mean\[0\]] (normalization.py:135) takes the statistics of the first row, and the moving
    statistics of every row are moved towards those *)
Theorem C62_single_refuted m e ce sc bi gi k name (x : arr) kw : let c := BatchNorm [1] m e ce sc bi gi in sh x = [2; 1] ->
  exists p0 out p mm mv, c_init c k [zshape [2; 1]] = inl p0 /\ call_and_update (Leaf c p0 name) [x] None kw = inl (out, Leaf c p name) /\
    l_state p = PNode "BatchNormState" [PLeaf mm; PLeaf mv] /\
    average (single_members [1] x [1; 0]) = el x [1; 0] /\ el mm [1; 0] = ((1 - m) * el x [0; 0]%nat)%R.
Proof.
  intros c Hx. destruct (C62_total [1] m e ce sc bi gi [2; 1] k name []) as (p0 & _ & H0 & _); [repeat constructor; auto|repeat constructor|repeat constructor|constructor|].
  destruct (init_val _ _ _ _ _ _ _ _ _ _ H0) as (P0 & I0 & mm0 & mv0 & S0 & Vm0 & _).
  assert (Ha : axes_ok [1] (sh x) = true) by (rewrite Hx; reflexivity). assert (Hp : Forall (lt 0) (sh x)) by (rewrite Hx; repeat constructor).
  destruct (mean_var_val [1] x Ha Hp) as (mean & var & E & Sm & Sv & V). rewrite Hx in Sm, Sv, V.
  destruct (update_val [1] m e ce sc [2; 1] p0 mm0 mv0 x _ mean var S0 I0 E 1 [1] Sm Sv) as (p & mm & mv & Eu & Ep & Ei & (Es & S1 & S2) & Vu); [apply (below_tail [2] [1] [1]), below_refl|].
  assert (Hx1 : sh (newaxis x) = 1 :: [2; 1]) by (cbn; now rewrite Hx).
  destruct S0 as (Hs & T1 & T2).
  destruct (call_val [1] m e ce sc [2; 1] p0 false mm0 mv0 (newaxis x) 1 mm0 mv0) as (out & Ec & So & _); [split; auto|exact I0|exact P0|exact Hx1|reflexivity|rewrite T1; apply (below_tail [1]), keep_below|rewrite T2; apply (below_tail [1]), keep_below|].
  exists p0, (if training_of (filter_kwargs with_training kw) then One x else One (mk_arr [2; 1] (fun ix => el out (0 :: ix)))), p, mm, mv. split; [exact H0|]. split.
  - rewrite leaf_eq. unfold leaf_step. cbn [c_call c_sig c_update c_usig c BatchNorm]. unfold bn_call, on1. rewrite I0. cbn [bn_shape]. rewrite Hx, Nat.eqb_refl. cbn [negb].
    assert (Eu' : bn_update p0 [x] (filter_kwargs no_kw kw) = inl p) by (unfold bn_update, on1; rewrite I0; exact Eu).
    destruct (training_of (filter_kwargs with_training kw)).
    + cbn [nb]. rewrite Eu'. reflexivity.
    + rewrite Ec. cbn [nb]. unfold index0. rewrite So, Hx1. cbn [nb]. rewrite Eu'. reflexivity.
  - split; [exact Es|]. split.
    + unfold single_members, average. rewrite Hx. cbn. field.
    + destruct (Vu [1; 0]) as [-> _]; [repeat constructor|]. rewrite Vm0. change (bix [1] [1; 0]) with [0]. destruct (V [0; 0]) as [-> _]; [repeat constructor|]. unfold average. cbn. field.
Qed.
End nn.

(** a layer over images of 4x4 pixels and 3 channels, with the default axes: three calls, a batch in training mode, a batch of
    another size in evaluation mode, and a single image *)
Lemma ex_batchnorm (K : Prng) bi gi k (x y z : arr) : sh x = [8; 4; 4; 3] -> sh y = [2; 4; 4; 3] -> sh z = [4; 4; 3] ->
  exists p0 p mm mv, let c := BatchNorm [0; 1] 0.99 0.00001 true true bi gi in
    c_init c k [zshape [4; 4; 3]] = inl p0 /\ history c None p0 [Batch x []; Batch y [("training", KBool false)]; Single z None []] p /\
    l_state p = PNode "BatchNormState" [PLeaf mm; PLeaf mv] /\ List.length (batch_members [0; 1] x [0; 0; 2]) = 128 /\
    forall ch, ch < 3 -> el mm [0; 0; ch] = ema (1 - 0.99) 0 [average (batch_members [0; 1] x [0; 0; ch]); average (batch_members [0; 1] y [0; 0; ch]); average (single_members [0; 1] z [0; 0; ch])].
Proof.
  intros Hx Hy Hz. assert (Hn : NoDup [0; 1]) by (repeat constructor; cbn; intuition lia). assert (Hr : Forall (fun a => a < List.length [4; 4; 3]) [0; 1]) by (repeat constructor). assert (Hp : Forall (lt 0) [4; 4; 3]) by (repeat constructor; lia).
  assert (Hf : Forall (fits [0; 1] [4; 4; 3]) [Batch x []; Batch y [("training", KBool false)]; Single z None []]).
  { constructor; [exists 8; split; [lia|exact Hx]|]. constructor; [exists 2; split; [lia|exact Hy]|]. constructor; [split; [exact Hz|now left]|constructor]. }
  destruct (C62_total [0; 1] 0.99 0.00001 true true bi gi [4; 4; 3] k None _ Hn Hr Hp Hf) as (p0 & p & H0 & Hh).
  destruct (C62_moving_average _ _ _ _ _ _ _ _ _ _ _ _ _ Hn Hr Hp H0 Hh Hf) as (mm & mv & Es & _ & _ & V). exists p0, p, mm, mv. cbv zeta. repeat (split; [assumption|]). split.
  - unfold batch_members. rewrite map_length, Hx. vm_compute. reflexivity.
  - intros ch Hch. destruct (V [0; 0; ch]) as [-> _]; [change (keep_shape [0; 1] [4; 4; 3]) with [1; 1; 3]; constructor; [lia|]; constructor; [lia|]; constructor; [exact Hch|constructor]|]. reflexivity.
Qed.
Print Assumptions C62_evaluation.
