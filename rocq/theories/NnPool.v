(** C72: what the pooling layers and the convolutions compute. *)
From Verif Require Import NnLayers.
From Verif Require Import NnTotal NnMain NnShape NnProofs NnBatch.
Open Scope string_scope.
Open Scope list_scope.
Open Scope nat_scope.

(** ** Specification *)
(** SAME: a window of size w starts at every s-th of d elements, and the elements are padded by as few as needed, half of them
    (rounded down) in front; VALID: windows start at every s-th element as long as they fit *)
Definition front (p : padding) (d w s : nat) : nat := match p with VALID => 0 | SAME => (((d + s - 1) / s - 1) * s + w - d) / 2 end.
Definition starts (p : padding) (d w s i : nat) : Prop := match p with VALID => i * s + w <= d | SAME => i * s < d end.
(** element q is covered by window i *)
Definition in_window (p : padding) (d w s i q : nat) : bool := (i * s <=? q + front p d w s) && (q + front p d w s <? i * s + w).
Fixpoint in_windows (p : padding) (ds ws ss ix pos : list nat) : bool :=
  match ds, ws, ss, ix, pos with
  | d :: ds, w :: ws, s :: ss, i :: ix, q :: pos => in_window p d w s i q && in_windows p ds ws ss ix pos
  | _, _, _, _, _ => true
  end.
(** the positions that window ix covers *)
Definition window (p : padding) (ds ws ss ix : list nat) : list (list nat) := filter (in_windows p ds ws ss ix) (indices ds).

(** ** Windows *)
Fixpoint inz (ds ws ss : list nat) (ps : list (Z * Z)) (ix pos : list nat) {struct ds} : bool :=
  match ds, ws, ss, ps, ix, pos with
  | _ :: ds', w :: ws', s :: ss', p :: ps', i :: ix', q :: pos' => ((Z.of_nat (i * s) - fst p <=? Z.of_nat q) && (Z.of_nat q <? Z.of_nat (i * s) - fst p + Z.of_nat w))%Z && inz ds' ws' ss' ps' ix' pos'
  | _, _, _, _, _, _ => true
  end.
Definition opt_list {X} (o : option X) : list X := match o with Some x => [x] | None => [] end.
Lemma shift_seq {Y} (f : nat -> list Y) (a : Z) d : forall w,
  flat_map (fun o => if ((0 <=? a + Z.of_nat o) && (a + Z.of_nat o <? Z.of_nat d))%Z then f (Z.to_nat (a + Z.of_nat o)) else []) (seq 0 w) =
  flat_map (fun q => if ((a <=? Z.of_nat q) && (Z.of_nat q <? a + Z.of_nat w))%Z then f q else []) (seq 0 d).
Proof.
  assert (G : forall w d, flat_map (fun q => if ((a <=? Z.of_nat q) && (Z.of_nat q <? a + Z.of_nat (S w)))%Z then f q else []) (seq 0 d) =
    flat_map (fun q => if ((a <=? Z.of_nat q) && (Z.of_nat q <? a + Z.of_nat w))%Z then f q else []) (seq 0 d) ++ (if ((0 <=? a + Z.of_nat w) && (a + Z.of_nat w <? Z.of_nat d))%Z then f (Z.to_nat (a + Z.of_nat w)) else [])).
  { clear d. intros w. induction d as [|d IH].
    - cbn [seq flat_map]. destruct (Z.leb_spec 0 (a + Z.of_nat w)), (Z.ltb_spec (a + Z.of_nat w) (Z.of_nat 0)); cbn [andb]; try reflexivity; lia.
    - rewrite seq_S, !flat_map_app, IH. cbn [flat_map Nat.add]. rewrite !app_nil_r, <- !app_assoc.
      destruct (Z.leb_spec 0 (a + Z.of_nat w)), (Z.ltb_spec (a + Z.of_nat w) (Z.of_nat d)), (Z.ltb_spec (a + Z.of_nat w) (Z.of_nat (S d))), (Z.leb_spec a (Z.of_nat d)), (Z.ltb_spec (Z.of_nat d) (a + Z.of_nat (S w))), (Z.ltb_spec (Z.of_nat d) (a + Z.of_nat w)); cbn [andb]; rewrite ?app_nil_r; try reflexivity; try lia.
      replace (Z.to_nat (a + Z.of_nat w)) with d by lia. reflexivity. }
  induction w as [|w IH].
  - cbn [seq flat_map]. symmetry. rewrite (flat_map_ext_in _ (fun _ => [])); [induction (seq 0 d); auto|]. intros q _. destruct (Z.leb_spec a (Z.of_nat q)), (Z.ltb_spec (Z.of_nat q) (a + Z.of_nat 0)); cbn [andb]; try reflexivity; lia.
  - rewrite seq_S, flat_map_app, IH, G. cbn [flat_map Nat.add]. rewrite app_nil_r. reflexivity.
Qed.
Lemma flat_map_filter_cons {X Y} (P : X -> bool) (g : X -> list Y) l : flat_map g (filter P l) = flat_map (fun x => if P x then g x else []) l.
Proof. induction l as [|x l IH]; [reflexivity|]. cbn. destruct (P x); cbn; rewrite IH; reflexivity. Qed.
Lemma cover_filter ds : forall ws ss ps ix, List.length ws = List.length ds -> List.length ss = List.length ds -> List.length ps = List.length ds -> List.length ix = List.length ds ->
  flat_map (fun off => opt_list (covered ds ss ps ix off)) (indices ws) = filter (inz ds ws ss ps ix) (indices ds).
Proof.
  induction ds as [|d ds IH]; intros [|w ws] [|s ss] [|p ps] [|i ix] H1 H2 H3 H4; try discriminate; [reflexivity|]. cbn [List.length] in *.
  specialize (IH ws ss ps ix ltac:(lia) ltac:(lia) ltac:(lia) ltac:(lia)). cbn [indices].
  assert (E : forall w, flat_map (fun off => opt_list (covered (d :: ds) (s :: ss) (p :: ps) (i :: ix) off)) (flat_map (fun o => map (cons o) (indices ws)) (seq 0 w)) =
    flat_map (fun o => if ((0 <=? (Z.of_nat (i * s) - fst p) + Z.of_nat o) && ((Z.of_nat (i * s) - fst p) + Z.of_nat o <? Z.of_nat d))%Z then map (cons (Z.to_nat ((Z.of_nat (i * s) - fst p) + Z.of_nat o))) (filter (inz ds ws ss ps ix) (indices ds)) else []) (seq 0 w)).
  { clear w. intros w. rewrite <- IH. generalize (seq 0 w). induction l as [|o l IHl]; [reflexivity|]. cbn [flat_map]. rewrite flat_map_app, IHl. f_equal. clear.
    rewrite flat_map_map. cbn [covered]. replace (Z.of_nat (i * s + o) - fst p)%Z with (Z.of_nat (i * s) - fst p + Z.of_nat o)%Z by lia. destruct (_ && _); [|cbn [opt_list]; induction (indices ws); auto].
    rewrite map_flat_map. apply flat_map_ext_in. intros off _. destruct (covered ds ss ps ix off); reflexivity. }
  rewrite E, (shift_seq (fun q => map (cons q) (filter (inz ds ws ss ps ix) (indices ds)))). rewrite filter_flat_map. apply flat_map_ext_in. intros q _. rewrite filter_map'. cbn [inz].
  destruct (_ && _); cbn [andb]; [reflexivity|]. symmetry. clear. induction (indices ds) as [|jx l IHl]; [reflexivity|exact IHl].
Qed.
Lemma elems_filter x ws ss ps ix : List.length ws = List.length (sh x) -> List.length ss = List.length (sh x) -> List.length ps = List.length (sh x) -> List.length ix = List.length (sh x) ->
  window_elems x ws ss ps ix = map (el x) (filter (inz (sh x) ws ss ps ix) (indices (sh x))).
Proof.
  intros H1 H2 H3 H4. rewrite <- cover_filter by assumption. unfold window_elems. rewrite map_flat_map. apply flat_map_ext_in. intros off _. destruct (covered (sh x) ss ps ix off); reflexivity.
Qed.
Lemma front_pad p d w s : 0 < d -> 0 < s -> fst (pad_dim p (Z.of_nat d) (Z.of_nat w) (Z.of_nat s)) = Z.of_nat (front p d w s).
Proof.
  intros Hd Hs. destruct p; [reflexivity|]. cbn [pad_dim front fst]. set (o := ((d + s - 1) / s)). assert (Ho : 0 < o) by (apply Nat.div_str_pos; lia).
  assert (E : ((Z.of_nat d + Z.of_nat s - 1) / Z.of_nat s)%Z = Z.of_nat o) by (unfold o; rewrite Nat2Z.inj_div, Nat2Z.inj_sub, Nat2Z.inj_add by lia; reflexivity).
  rewrite E. rewrite Nat2Z.inj_div. f_equal. nia.
Qed.
Lemma inz_windows p ds : forall ws ss ps ix pos, Forall (lt 0) ds -> Forall (lt 0) ss -> padtype_to_pads p (zlist ds) (zlist ws) (zlist ss) = inl ps ->
  inz ds ws ss ps ix pos = in_windows p ds ws ss ix pos.
Proof.
  induction ds as [|d ds IH]; intros [|w ws] [|s ss] ps ix pos Hd Hs H; try discriminate; [reflexivity|]. cbn in H. apply nb_inl in H as (ps' & H & E). injection E as <-. inversion Hd; subst. inversion Hs; subst.
  cbn [inz in_windows]. destruct ix as [|i ix]; [reflexivity|]. destruct pos as [|q pos]; [reflexivity|]. f_equal; [|apply IH; assumption].
  rewrite front_pad by assumption. unfold in_window. set (f := front p d w s). 
  destruct (Z.leb_spec (Z.of_nat (i * s) - Z.of_nat f) (Z.of_nat q)), (Nat.leb_spec (i * s) (q + f)); cbn [andb]; try lia; try reflexivity.
  destruct (Z.ltb_spec (Z.of_nat q) (Z.of_nat (i * s) - Z.of_nat f + Z.of_nat w)), (Nat.ltb_spec (q + f) (i * s + w)); try lia; reflexivity.
Qed.
Lemma starts_fit p d w s i n : 0 < d -> 0 < w -> 0 < s -> window_dim d w s (pad_dim p (Z.of_nat d) (Z.of_nat w) (Z.of_nat s)) = inl n -> i < n <-> starts p d w s i.
Proof.
  intros Hd Hw Hs H. apply window_dim_spec in H as (H & _ & _). unfold stride_dim in H. destruct p; cbn [pad_dim fst snd starts] in *.
  - rewrite !Z.add_0_r in H. set (q := ((Z.of_nat d - Z.of_nat w) / Z.of_nat s)%Z) in *.
    pose proof (Z.mul_div_le (Z.of_nat d - Z.of_nat w) (Z.of_nat s) ltac:(lia)) as A. pose proof (Z.mul_succ_div_gt (Z.of_nat d - Z.of_nat w) (Z.of_nat s) ltac:(lia)) as B. fold q in A, B. split; intros C; nia.
  - set (o := ((Z.of_nat d + Z.of_nat s - 1) / Z.of_nat s)%Z) in *.
    pose proof (Z.mul_div_le (Z.of_nat d + Z.of_nat s - 1) (Z.of_nat s) ltac:(lia)) as A. pose proof (Z.mul_succ_div_gt (Z.of_nat d + Z.of_nat s - 1) (Z.of_nat s) ltac:(lia)) as B. fold o in A, B.
    set (t := Z.max ((o - 1) * Z.of_nat s + Z.of_nat w - Z.of_nat d) 0) in *. replace (Z.of_nat d + t / 2 + (t - t / 2) - Z.of_nat w)%Z with (Z.of_nat d + t - Z.of_nat w)%Z in H by lia.
    assert (Ho : (0 < o)%Z) by nia. assert (Et : (o - 1 <= (Z.of_nat d + t - Z.of_nat w) / Z.of_nat s)%Z) by (apply Z.div_le_lower_bound; lia).
    assert (Eu : ((Z.of_nat d + t - Z.of_nat w) / Z.of_nat s < o)%Z) by (apply Z.div_lt_upper_bound; nia). assert (En : Z.of_nat n = o) by lia. split; intros C; nia.
Qed.
Lemma filter_none {X} (l : list X) : filter (fun _ => false) l = [].
Proof. induction l as [|x l IH]; [reflexivity|exact IH]. Qed.
Lemma filter_snoc c ch sp : forall ws ss ps ix, ch < c -> List.length ws = List.length sp -> List.length ss = List.length sp -> List.length ps = List.length sp -> List.length ix = List.length sp ->
  filter (inz (sp ++ [c]) (ws ++ [1]) (ss ++ [1]) (ps ++ [(0, 0)%Z]) (ix ++ [ch])) (indices (sp ++ [c])) = map (fun pos => pos ++ [ch]) (filter (inz sp ws ss ps ix) (indices sp)).
Proof.
  induction sp as [|d sp IH]; intros [|w ws] [|s ss] [|p ps] [|i ix] Hc H1 H2 H3 H4; try discriminate.
  - cbn [app indices]. rewrite filter_flat_map. rewrite (flat_map_one _ ch c).
    + cbn. replace (ch * 1) with ch by lia. destruct (Z.leb_spec (Z.of_nat ch - 0) (Z.of_nat ch)); [|lia]. destruct (Z.ltb_spec (Z.of_nat ch) (Z.of_nat ch - 0 + 1)); [|lia]. reflexivity.
    + lia.
    + intros q Hq Hne. cbn. replace (ch * 1) with ch by lia. destruct (Z.leb_spec (Z.of_nat ch - 0) (Z.of_nat q)); cbn [andb]; [|reflexivity]. destruct (Z.ltb_spec (Z.of_nat q) (Z.of_nat ch - 0 + 1)); [lia|reflexivity].
  - cbn [List.length] in *. specialize (IH ws ss ps ix Hc ltac:(lia) ltac:(lia) ltac:(lia) ltac:(lia)). cbn [app indices]. rewrite !filter_flat_map, map_flat_map. apply flat_map_ext_in. intros q _.
    rewrite !filter_map', map_map. cbn [inz]. destruct (_ && _); cbn [andb].
    + change (fun x : list nat => inz (sp ++ [c]) (ws ++ [1]) (ss ++ [1]) (ps ++ [(0, 0)%Z]) (ix ++ [ch]) x) with (inz (sp ++ [c]) (ws ++ [1]) (ss ++ [1]) (ps ++ [(0, 0)%Z]) (ix ++ [ch])). rewrite IH, map_map. reflexivity.
    + rewrite !(filter_none (X := list nat)). reflexivity.
Qed.
Lemma filter_image c ch sp ws ss ps ix : ch < c -> List.length ws = List.length sp -> List.length ss = List.length sp -> List.length ps = List.length sp -> List.length ix = List.length sp ->
  filter (inz (1 :: sp ++ [c]) (1 :: ws ++ [1]) (1 :: ss ++ [1]) ((0, 0)%Z :: ps ++ [(0, 0)%Z]) (0 :: ix ++ [ch])) (indices (1 :: sp ++ [c])) = map (fun pos => 0 :: pos ++ [ch]) (filter (inz sp ws ss ps ix) (indices sp)).
Proof.
  intros Hc H1 H2 H3 H4. rewrite <- (map_map (fun pos => pos ++ [ch]) (cons 0)). rewrite <- filter_snoc with (c := c) by assumption. cbn [indices seq flat_map]. rewrite app_nil_r, filter_map'. reflexivity.
Qed.
Lemma window_one c n : window_dim c 1 1 (0, 0)%Z = inl n -> n = c.
Proof. intros H. apply window_dim_spec in H as (H & _). unfold stride_dim in H. cbn [fst snd] in H. change (Z.of_nat 1) with 1%Z in H. rewrite Z.div_1_r in H. lia. Qed.
Lemma pool_window red x ws ss p sp c y : sh x = sp ++ [c] -> List.length ws = List.length sp -> List.length ss = List.length sp -> Forall (lt 0) sp -> Forall (lt 0) ss ->
  reduce_window red (newaxis x) (1 :: ws ++ [1]) (1 :: ss ++ [1]) p = inl y ->
  exists ps dims, padtype_to_pads p (zlist sp) (zlist ws) (zlist ss) = inl ps /\ window_dims sp ws ss ps = inl dims /\ sh y = 1 :: dims ++ [c] /\
    forall ix ch, List.length ix = List.length sp -> ch < c -> el y (0 :: ix ++ [ch]) = red (map (fun pos => el x (pos ++ [ch])) (window p sp ws ss ix)).
Proof.
  intros Hx L1 L2 Hd Hs H. unfold reduce_window in H. change (sh (newaxis x)) with (1 :: sh x) in H. rewrite Hx in H. apply nb_inl in H as (ps0 & P & H). apply nb_inl in H as (s & W & H). injection H as <-.
  change (zlist (1 :: sp ++ [c])) with (1%Z :: zlist (sp ++ [c])) in P. change (zlist (1 :: ws ++ [1])) with (1%Z :: zlist (ws ++ [1])) in P. change (zlist (1 :: ss ++ [1])) with (1%Z :: zlist (ss ++ [1])) in P.
  cbn [padtype_to_pads] in P. apply nb_inl in P as (ps1 & P & E). injection E as <-. rewrite !zlist_app in P. apply pads_snoc in P as (ps & -> & P); [|unfold zlist; rewrite !map_length; assumption|unfold zlist; rewrite !map_length; assumption].
  destruct (pad_one p 1) as [E1|]; [|lia]. rewrite E1 in W. change (Z.of_nat 1) with 1%Z in W. destruct (pad_one p (Z.of_nat c)) as [E2|]; [|lia]. rewrite E2 in W.
  pose proof P as LP. apply padtype_length in LP as (_ & _ & LP). unfold zlist in LP. rewrite map_length in LP.
  cbn [window_dims] in W. apply nb_inl in W as (n0 & N0 & W). apply nb_inl in W as (r & W & E). injection E as <-. apply window_one in N0 as ->.
  apply dims_snoc in W as (dims & n & -> & W & N); [|assumption|assumption|assumption]. apply window_one in N as ->.
  exists ps, dims. split; [exact P|]. split; [exact W|]. split; [reflexivity|]. intros ix ch Hix Hch. cbn [el]. f_equal.
  rewrite E1. change (Z.of_nat 1) with 1%Z. rewrite E2. rewrite elems_filter.
  - change (sh (newaxis x)) with (1 :: sh x). rewrite Hx, filter_image by assumption. rewrite map_map. unfold window.
    rewrite (filter_ext (in_windows p sp ws ss ix) (inz sp ws ss ps ix)) by (intros pos; symmetry; apply inz_windows; assumption). apply map_ext. reflexivity.
  - change (sh (newaxis x)) with (1 :: sh x). rewrite Hx. cbn. rewrite !app_length. cbn. lia.
  - change (sh (newaxis x)) with (1 :: sh x). rewrite Hx. cbn. rewrite !app_length. cbn. lia.
  - change (sh (newaxis x)) with (1 :: sh x). rewrite Hx. cbn. rewrite !app_length. cbn. lia.
  - change (sh (newaxis x)) with (1 :: sh x). rewrite Hx. cbn. rewrite !app_length. cbn. lia.
Qed.
Lemma plain_window red x ws ss p y : List.length ws = List.length (sh x) -> List.length ss = List.length (sh x) -> Forall (lt 0) (sh x) -> Forall (lt 0) ss ->
  reduce_window red x ws ss p = inl y -> exists ps, padtype_to_pads p (zlist (sh x)) (zlist ws) (zlist ss) = inl ps /\ window_dims (sh x) ws ss ps = inl (sh y) /\
    forall ix, List.length ix = List.length (sh x) -> el y ix = red (map (el x) (window p (sh x) ws ss ix)).
Proof.
  intros L1 L2 Hd Hs H. unfold reduce_window in H. apply nb_inl in H as (ps & P & H). apply nb_inl in H as (s & W & H). injection H as <-. exists ps. split; [exact P|]. split; [exact W|]. intros ix Hix. cbn [el].
  pose proof P as LP. apply padtype_length in LP as (_ & _ & LP). unfold zlist in LP. rewrite map_length in LP. rewrite elems_filter by assumption. unfold window.
  rewrite (filter_ext (in_windows p (sh x) ws ss ix) (inz (sh x) ws ss ps ix)) by (intros pos; symmetry; apply inz_windows; assumption). reflexivity.
Qed.
Lemma window_nonempty p sp : forall ws ss ps dims ix, Forall (lt 0) sp -> padtype_to_pads p (zlist sp) (zlist ws) (zlist ss) = inl ps -> window_dims sp ws ss ps = inl dims -> in_bounds dims ix -> window p sp ws ss ix <> [].
Proof.
  intros ws ss ps dims ix Hd P W Hix.
  assert (H : reduce_window rsum (mk_arr sp (fun _ => 0%R)) ws ss p = inl (mk_arr dims (fun ix => rsum (window_elems (mk_arr sp (fun _ => 0%R)) ws ss ps ix)))) by (unfold reduce_window; cbn [sh]; rewrite P; cbn [nb]; rewrite W; reflexivity).
  destruct (C61_windows_never_empty _ _ _ _ _ _ ix H Hd Hix) as (ps' & P' & Hne). cbn [sh] in P'. rewrite P in P'. injection P' as <-. intros E. apply Hne.
  pose proof (window_dims_spec _ _ _ _ _ W) as (_ & L1 & L2 & L3). pose proof (bounds_length _ _ Hix) as Li. pose proof W as W'. pose proof P as LP. apply padtype_length in LP as (_ & _ & LP). unfold zlist in LP. rewrite map_length in LP.
  assert (Hs : Forall (lt 0) ss). { clear - W'. revert ws ss ps dims W'. induction sp as [|d sp IH]; intros [|w ws] [|s ss] [|q ps] dims W; try discriminate; [constructor|]. cbn in W. apply nb_inl in W as (n & N & W). apply nb_inl in W as (r & W & _). apply window_dim_spec in N as (_ & N & _). constructor; [exact N|]. eapply IH; exact W. }
  rewrite elems_filter; cbn [sh]; try congruence.
  - rewrite (filter_ext (inz sp ws ss ps ix) (in_windows p sp ws ss ix)) by (intros pos; apply inz_windows; assumption). unfold window in E. rewrite E. reflexivity.
Qed.

Lemma rmax_spec l : l <> [] -> In (rmax l) l /\ forall v, In v l -> (v <= rmax l)%R.
Proof.
  destruct l as [|a l]; [congruence|]. intros _. cbn [rmax]. assert (G : forall b, In (fold_right Rmax b l) (b :: l) /\ (b <= fold_right Rmax b l)%R /\ forall v, In v l -> (v <= fold_right Rmax b l)%R).
  { clear a. intros b. induction l as [|c l IH]; [cbn; intuition lra|]. cbn [fold_right]. destruct IH as (I1 & I2 & I3). set (m := fold_right Rmax b l) in *. pose proof (Rmax_l c m). pose proof (Rmax_r c m). split; [|split].
    - unfold Rmax. destruct (Rle_dec c m); [|right; left; reflexivity]. destruct I1 as [<-|I1]; [left; reflexivity|right; right; exact I1].
    - lra.
    - intros v [<-|Hv]; [lra|specialize (I3 v Hv); lra]. }
  destruct (G a) as (G1 & G2 & G3). split; [exact G1|]. intros v [<-|Hv]; [exact G2|apply G3, Hv].
Qed.
Lemma rsum_ones {X} (l : list X) : rsum (map (fun _ => 1%R) l) = INR (List.length l).
Proof. induction l as [|x l IH]; [reflexivity|]. cbn [map List.length]. rewrite rsum_cons, IH, S_INR. lra. Qed.
Lemma dims_nth p sp : forall ws ss ps dims, padtype_to_pads p (zlist sp) (zlist ws) (zlist ss) = inl ps -> window_dims sp ws ss ps = inl dims -> Forall (lt 0) sp ->
  forall k d w s n i, nth_error sp k = Some d -> nth_error ws k = Some w -> nth_error ss k = Some s -> nth_error dims k = Some n -> i < n <-> starts p d w s i.
Proof.
  induction sp as [|d0 sp IH]; intros [|w0 ws] [|s0 ss] ps dims P W Hd k d w s n i Kd Kw Ks Kn; try discriminate; [destruct k; discriminate|].
  cbn in P. apply nb_inl in P as (ps' & P & E). injection E as <-. cbn [window_dims] in W. apply nb_inl in W as (n0 & N & W). apply nb_inl in W as (r & W & E). injection E as <-. inversion Hd; subst.
  destruct k as [|k]; cbn in *; [|eapply IH; eassumption]. injection Kd as <-. injection Kw as <-. injection Ks as <-. injection Kn as <-. pose proof N as N'. apply window_dim_spec in N' as (_ & Hs & Hw). apply starts_fit; assumption.
Qed.
Section nn.
Context {PR : Prng}.
Lemma pool_info kd w st pd ss p : inst (Pooling kd w st pd) ss p -> l_info p = IPool w (1 :: w ++ [1]) (1 :: or_ones st w ++ [1]) pd.
Proof. intros (k & p0 & H & _ & _ & Hi). cbn in H. unfold pool_init in H. destruct ss as [|s [|]]; try discriminate. injection H as <-. symmetry. exact Hi. Qed.
(** pooling over the spatial dimensions of an image of shape sp ++ [c]: an output for every window and channel; the maximum, sum
    or mean of the elements of the channel that the window covers.  A window covers at least one element. *)
Theorem C72_pooling kd w st pd sp c p name rng kw x : inst (Pooling kd w st pd) [zshape (sp ++ [c])] p -> sh x = sp ++ [c] -> List.length sp < 3 -> Forall (lt 0) sp ->
  List.length w = List.length sp -> Forall (lt 0) w -> List.length (or_ones st w) = List.length w -> Forall (lt 0) (or_ones st w) ->
  exists y dims, maps (Pooling kd w st pd) p name rng kw x y /\ sh y = dims ++ [c] /\ List.length dims = List.length sp /\
    (forall k d a s n i, nth_error sp k = Some d -> nth_error w k = Some a -> nth_error (or_ones st w) k = Some s -> nth_error dims k = Some n -> i < n <-> starts pd d a s i) /\
    forall ix ch, in_bounds dims ix -> ch < c ->
      let covered := map (fun pos => el x (pos ++ [ch])) (window pd sp w (or_ones st w) ix) in let v := el y (ix ++ [ch]) in
      covered <> [] /\
      match kd with
      | MaxPool => In v covered /\ forall u, In u covered -> (u <= v)%R
      | SumPool => v = rsum covered
      | AvgPool => v = average covered
      end.
Proof.
  intros Hi Hx L3 Hsp Lw Hw Ls Hs. pose proof (pool_info _ _ _ _ _ _ Hi) as Ei. set (ss := or_ones st w) in *.
  destruct (pool_total kd w st pd x sp c Hx Lw Ls Hw Hs) as (y0 & s' & Hy0 & Sy0). fold ss in Hy0.
  assert (G : exists ps dims, padtype_to_pads pd (zlist sp) (zlist w) (zlist ss) = inl ps /\ window_dims sp w ss ps = inl dims /\ sh y0 = 1 :: dims ++ [c] /\
    forall ix ch, in_bounds dims ix -> ch < c -> let cov := map (fun pos => el x (pos ++ [ch])) (window pd sp w ss ix) in
      el y0 (0 :: ix ++ [ch]) = match kd with MaxPool => rmax cov | SumPool => rsum cov | AvgPool => average cov end).
  { destruct kd; cbn [pool_batched] in Hy0.
    - apply (pool_window rmax x w ss pd sp c) in Hy0 as (ps & dims & P & W & S & E); try assumption; [|congruence]. exists ps, dims. split; [exact P|]. split; [exact W|]. split; [exact S|].
      intros ix ch Hix Hch. apply E; [|exact Hch]. apply bounds_length in Hix. apply window_dims_spec in W as (_ & _ & _ & W). congruence.
    - apply (pool_window rsum x w ss pd sp c) in Hy0 as (ps & dims & P & W & S & E); try assumption; [|congruence]. exists ps, dims. split; [exact P|]. split; [exact W|]. split; [exact S|].
      intros ix ch Hix Hch. apply E; [|exact Hch]. apply bounds_length in Hix. apply window_dims_spec in W as (_ & _ & _ & W). congruence.
    - change (sh (newaxis x)) with (1 :: sh x) in Hy0. cbn [tl] in Hy0. rewrite Hx in Hy0. rewrite !removelast_last in Hy0. apply nb_inl in Hy0 as (sizes & H1 & Hy0). apply nb_inl in Hy0 as (outs & H2 & Hy0).
      apply (pool_window rsum x w ss pd sp c) in H2 as (ps & dims & P & W & S & E); try assumption; [|congruence].
      apply plain_window in H1 as (ps1 & P1 & W1 & E1); cbn [sh] in *; try assumption; [|congruence]. rewrite P in P1. injection P1 as <-. rewrite W in W1. injection W1 as W1. cbn [sh] in *.
      exists ps, dims. split; [exact P|]. split; [exact W|].
      assert (Hb : below (sh sizes ++ [1]) (1 :: dims ++ [c])). { rewrite <- W1. apply (below_tail [1]). unfold below. rewrite !rev_app_distr. cbn. constructor; [auto|apply bsub_refl]. }
      rewrite (zip_eq _ _ _ (1 :: dims ++ [c])) in Hy0 by (cbn [sh]; rewrite S; apply bshape_l; exact Hb). injection Hy0 as <-. cbn [sh el]. split; [reflexivity|].
      intros ix ch Hix Hch. cbv zeta. pose proof (bounds_length _ _ Hix) as Li. pose proof W as Wl. apply window_dims_spec in Wl as (_ & _ & _ & Wl).
      assert (B1 : bix (sh outs) (0 :: ix ++ [ch]) = 0 :: ix ++ [ch]). { rewrite S. apply bix_same. constructor; [lia|]. apply Forall2_app; [exact Hix|constructor; [exact Hch|constructor]]. }
      assert (B2 : bix (sh sizes ++ [1]) (0 :: ix ++ [ch]) = ix ++ [0]).
      { unfold bix. rewrite <- W1. cbn [List.length]. rewrite !app_length. cbn [List.length]. replace (1 + (List.length ix + 1) - (List.length dims + 1)) with 1 by lia. replace (Datatypes.S (List.length ix + 1) - (List.length dims + 1)) with 1 by lia. cbn [skipn].
        unfold squash. clear - Hix. unfold in_bounds in Hix. induction Hix as [|i d ix dims H _ IH]; [reflexivity|]. cbn. f_equal; [|exact IH]. destruct (Nat.eqb_spec d 1); lia. }
      rewrite B1, B2, removelast_last. rewrite E by (congruence || exact Hch). rewrite E1 by congruence. rewrite rsum_ones. unfold average. rewrite map_length. reflexivity. }
  destruct G as (ps & dims & P & W & S & E). exists (mk_arr (dims ++ [c]) (fun ix => el y0 (0 :: ix))), dims. split; [|split; [reflexivity|split; [|split]]].
  - unfold maps. rewrite leaf_eq. unfold leaf_step. cbn [c_call c_update Pooling]. unfold pool_call, keep_update, on1. rewrite Hx, app_length. cbn [List.length]. destruct (Nat.ltb_spec 3 (List.length sp + 1)); [lia|].
    rewrite Ei. fold ss. rewrite Hy0. cbn [nb]. unfold index0. rewrite S. reflexivity.
  - apply window_dims_spec in W as (_ & _ & _ & W). exact W.
  - intros k d a s n i. eapply dims_nth; eassumption.
  - intros ix ch Hix Hch. cbv zeta. cbn [el]. pose proof (window_nonempty _ _ _ _ _ _ _ Hsp P W Hix) as Hne.
    assert (Hne' : map (fun pos => el x (pos ++ [ch])) (window pd sp w ss ix) <> []) by (destruct (window pd sp w ss ix); [congruence|discriminate]). split; [exact Hne'|].
    rewrite E by assumption. destruct kd; [apply rmax_spec, Hne'|reflexivity|reflexivity].
Qed.
(** the mean of a constant is the constant, also where the windows reach over the edge *)
Theorem C72_average_constant w st pd sp c p name rng kw x v : inst (Pooling AvgPool w st pd) [zshape (sp ++ [c])] p -> sh x = sp ++ [c] -> List.length sp < 3 -> Forall (lt 0) sp ->
  List.length w = List.length sp -> Forall (lt 0) w -> List.length (or_ones st w) = List.length w -> Forall (lt 0) (or_ones st w) -> (forall ix, el x ix = v) ->
  exists y, maps (Pooling AvgPool w st pd) p name rng kw x y /\ forall ix, in_bounds (sh y) ix -> el y ix = v.
Proof.
  intros Hi Hx L3 Hsp Lw Hw Ls Hs Hv. destruct (C72_pooling AvgPool w st pd sp c p name rng kw x Hi Hx L3 Hsp Lw Hw Ls Hs) as (y & dims & Hm & Sy & _ & _ & E). exists y. split; [exact Hm|].
  intros ix Hix. rewrite Sy in Hix. apply Forall2_app_inv_r in Hix as (a & b & Ha & Hb & ->). inversion Hb as [|ch ? ? ? Hch Hb']; subst. inversion Hb'; subst.
  destruct (E a ch Ha Hch) as (Hne & E'). cbv zeta in E'. rewrite E'. rewrite (map_ext _ (fun _ => v)) by (intros; apply Hv). unfold average. destruct (window pd sp w (or_ones st w) a) as [|q l] eqn:El; [cbn in Hne; congruence|].
  assert (G : forall l : list (list nat), rsum (map (fun _ => v) l) = (INR (List.length l) * v)%R). { clear. induction l as [|x l IH]; [cbn; lra|]. cbn [map List.length]. rewrite rsum_cons, IH, S_INR. lra. }
  rewrite G, map_length. field. cbn [List.length]. rewrite S_INR. pose proof (pos_INR (List.length l)). lra.
Qed.
End nn.
