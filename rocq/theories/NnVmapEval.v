(** C73: evaluating a network that contains BatchNorm layers on a batch; layers depend only on the elements of their inputs. *)
From Verif Require Export NnVmap NnTotal NnLayers.
From Verif Require Import NnPool.

(** ** the same array: the same shape and the same elements *)
Definition aeq (a b : arr) : Prop := sh a = sh b /\ forall ix, in_bounds (sh a) ix -> el a ix = el b ix.
Definition veq {PR : Prng} (v w : pval) : Prop := match v, w with One a, One b => aeq a b | Tup l, Tup m => Forall2 aeq l m | _, _ => False end.

Lemma aeq_refl a : aeq a a.
Proof. split; [reflexivity|auto]. Qed.
Lemma aeq_sym a b : aeq a b -> aeq b a.
Proof. intros [H1 H2]. split; [congruence|]. rewrite <- H1. intros ix H. symmetry. auto. Qed.
Lemma aeq_trans a b c : aeq a b -> aeq b c -> aeq a c.
Proof. intros [H1 H2] [H3 H4]. split; [congruence|]. intros ix H. rewrite H2 by exact H. apply H4. rewrite <- H1. exact H. Qed.

(** ** broadcasting *)
Lemma F2_rev {X Y} (P : X -> Y -> Prop) a b : Forall2 P a b -> Forall2 P (rev a) (rev b).
Proof. induction 1 as [|x y a b H _ IH]; [constructor|]. cbn. apply Forall2_app; [exact IH|constructor; [exact H|constructor]]. Qed.
Lemma bounds_rev s ix : in_bounds s ix <-> in_bounds (rev s) (rev ix).
Proof. unfold in_bounds. split; intros H; apply F2_rev in H; [exact H|]. now rewrite !rev_involutive in H. Qed.
Lemma combine_trunc {X Y} (a : list X) : forall (b c : list Y), List.length b = List.length a -> combine a (b ++ c) = combine a b.
Proof. induction a as [|x a IH]; intros [|y b] c H; try discriminate; [reflexivity|]. cbn. f_equal. apply IH. cbn in H. congruence. Qed.
Lemma combine_snoc {X Y} (a : list X) : forall (b : list Y) x y, List.length b = List.length a -> combine (a ++ [x]) (b ++ [y]) = combine a b ++ [(x, y)].
Proof. induction a as [|x a IH]; intros [|y b] u v H; try discriminate; [reflexivity|]. cbn. f_equal. apply IH. cbn in H. congruence. Qed.
Lemma combine_rev {X Y} (a : list X) : forall (b : list Y), List.length b = List.length a -> combine (rev a) (rev b) = rev (combine a b).
Proof. induction a as [|x a IH]; intros [|y b] H; try discriminate; [reflexivity|]. cbn. cbn in H. rewrite combine_snoc by (rewrite !rev_length; congruence). rewrite IH by congruence. reflexivity. Qed.
Lemma bix_rev s ix : List.length s <= List.length ix -> bix s ix = rev (squash (rev s) (rev ix)).
Proof.
  intros H. unfold bix, squash. rewrite <- (firstn_skipn (List.length ix - List.length s) ix) at 3. assert (Hl : List.length (skipn (List.length ix - List.length s) ix) = List.length s) by (rewrite skipn_length; lia).
  rewrite rev_app_distr, combine_trunc by (rewrite !rev_length; exact Hl). rewrite combine_rev by exact Hl. rewrite map_rev, rev_involutive. reflexivity.
Qed.
Lemma bshape_rev_bounds a : forall b r ix, bshape_rev a b = Some r -> in_bounds r ix -> List.length a <= List.length r /\ List.length b <= List.length r /\ in_bounds a (squash a ix) /\ in_bounds b (squash b ix).
Proof.
  assert (Sq : forall a ix, in_bounds a ix -> in_bounds a (squash a ix)) by (intros; rewrite squash_same; assumption).
  induction a as [|x a IH]; intros [|y b] r ix H Hb.
  - injection H as <-. cbn. repeat split; auto; constructor.
  - injection H as <-. split; [cbn; lia|]. split; [reflexivity|]. split; [constructor|auto].
  - cbn in H. injection H as <-. split; [reflexivity|]. split; [cbn; lia|]. split; [auto|constructor].
  - cbn in H. destruct (bshape_rev a b) as [r'|] eqn:E; [|discriminate]. assert (K : exists z, r = z :: r' /\ (x = z \/ x = 1) /\ (y = z \/ y = 1)).
    { destruct (Nat.eqb_spec x y) as [E1|E1]; [exists x; injection H as H; auto|]. destruct (Nat.eqb_spec x 1) as [E2|E2]; [exists y; injection H as H; auto|]. destruct (Nat.eqb_spec y 1) as [E3|E3]; [exists x; injection H as H; auto|discriminate]. }
    destruct K as (z & -> & Hx & Hy). inversion Hb as [|j z' ix' r'' Hj Hr]; subst. destruct (IH _ _ _ E Hr) as (L1 & L2 & B1 & B2). cbn [List.length squash combine map fst snd].
    repeat split; try lia; constructor; try assumption; [destruct (Nat.eqb_spec x 1)|destruct (Nat.eqb_spec y 1)]; lia.
Qed.
Lemma bshape_bounds a b r ix : bshape a b = Some r -> in_bounds r ix -> in_bounds a (bix a ix) /\ in_bounds b (bix b ix).
Proof.
  unfold bshape. destruct (bshape_rev (rev a) (rev b)) as [r'|] eqn:E; [|discriminate]. cbn. intros [= <-] H. pose proof (bounds_length _ _ H) as Hl. rewrite rev_length in Hl. apply bounds_rev in H. rewrite rev_involutive in H.
  destruct (bshape_rev_bounds _ _ _ _ E H) as (L1 & L2 & B1 & B2). rewrite rev_length in L1, L2. rewrite !bix_rev by lia. split; apply bounds_rev; rewrite rev_involutive; assumption.
Qed.
Lemma zip_aeq f a a' b b' c : aeq a a' -> aeq b b' -> zip_arr f a b = inl c -> exists c', zip_arr f a' b' = inl c' /\ aeq c c'.
Proof.
  intros [Sa Va] [Sb Vb]. unfold zip_arr. rewrite <- Sa, <- Sb. destruct (bshape (sh a) (sh b)) as [s|] eqn:E; [|discriminate]. intros [= <-]. eexists. split; [reflexivity|]. split; [reflexivity|]. cbn. intros ix H.
  destruct (bshape_bounds _ _ _ _ E H) as [B1 B2]. rewrite Va, Vb by assumption. reflexivity.
Qed.

(** ** the operations *)
Lemma bounds_snoc s d ix : in_bounds (s ++ [d]) ix -> exists jx j, ix = jx ++ [j] /\ in_bounds s jx /\ j < d.
Proof.
  intros H. apply Forall2_app_inv_r in H as (jx & l & H1 & H2 & ->). inversion H2 as [|j ? t ? Hj Ht]; subst. inversion Ht; subst. exists jx, j. auto.
Qed.
Lemma newaxis_aeq a b : aeq a b -> aeq (newaxis a) (newaxis b).
Proof. intros [S V]. split; [cbn; congruence|]. cbn. intros ix H. inversion H; subst. cbn. auto. Qed.
Lemma index0_aeq a b c : aeq a b -> index0 a = inl c -> exists d, index0 b = inl d /\ aeq c d.
Proof.
  intros [S V]. unfold index0. rewrite <- S. destruct (sh a) as [|[|n] s]; try discriminate. intros [= <-]. eexists. split; [reflexivity|]. split; [reflexivity|]. cbn. intros ix H. apply V. constructor; [lia|exact H].
Qed.
Lemma dot_aeq x y k z : aeq x y -> dot x k = inl z -> exists w, dot y k = inl w /\ aeq z w.
Proof.
  intros [S V]. unfold dot. destruct (sh k) as [|d [|o [|]]] eqn:Ek; try discriminate. rewrite <- S. destruct (sh x) as [|a s] eqn:Ex.
  - intros [= <-]. eexists. split; [reflexivity|]. split; [reflexivity|]. cbn. intros ix H. rewrite V by constructor. reflexivity.
  - assert (Hne : a :: s <> []) by discriminate. destruct (last (a :: s) 0 =? d) eqn:El; [|discriminate]. apply Nat.eqb_eq in El. intros [= <-]. eexists. split; [reflexivity|]. split; [reflexivity|]. cbn [sh el]. intros ix H.
    change (match s with [] => [] | _ :: _ => a :: removelast s end) with (removelast (a :: s)) in H.
    apply bounds_snoc in H as (jx & j & -> & H & Hj). rewrite !removelast_last. f_equal. apply map_ext_in. intros q Hq. apply in_seq in Hq. rewrite V; [reflexivity|].
    rewrite (app_removelast_last 0 Hne), El. apply Forall2_app; [exact H|constructor; [lia|constructor]].
Qed.
Lemma ravel_lt s : forall ix, in_bounds s ix -> ravel s ix < prod s.
Proof.
  intros ix H. apply indices_spec in H. apply (in_map (ravel s)) in H. rewrite ravel_seq in H. apply in_seq in H. lia.
Qed.
Lemma unravel_bounds s n : n < prod s -> in_bounds s (unravel s n).
Proof. intros H. apply indices_spec. rewrite <- unravel_seq. apply in_map. apply in_seq. lia. Qed.
Lemma reshape_aeq x y ds z : aeq x y -> reshape x ds = inl z -> exists w, reshape y ds = inl w /\ aeq z w.
Proof.
  intros [S V]. unfold reshape. rewrite <- S. destruct (infer (prod (sh x)) ds) as [s|] eqn:E; [|discriminate]. intros [= <-]. eexists. split; [reflexivity|]. split; [reflexivity|]. cbn. intros ix H. apply V, unravel_bounds.
  apply infer_prod in E as [E _]. rewrite <- E. now apply ravel_lt.
Qed.
Lemma covered_bounds ds : forall ss ps ix off p, covered ds ss ps ix off = Some p -> in_bounds ds p.
Proof.
  induction ds as [|d ds IH]; intros [|s ss] [|p ps] [|i ix] [|o off] q H; try discriminate; cbn in H; [injection H as <-; constructor|].
  destruct (_ && _)%bool eqn:E; [|discriminate]. destruct (covered ds ss ps ix off) as [q'|] eqn:Eq; [|discriminate]. injection H as <-. apply IH in Eq. apply andb_prop in E as [E1 E2]. apply Z.leb_le in E1. apply Z.ltb_lt in E2. constructor; [|exact Eq]. lia.
Qed.
Lemma window_aeq red x y ws ss p z : aeq x y -> reduce_window red x ws ss p = inl z -> exists w, reduce_window red y ws ss p = inl w /\ aeq z w.
Proof.
  intros [S V]. unfold reduce_window. rewrite <- S. intros H. apply nb_inl in H as (ps & -> & H). cbn [nb]. apply nb_inl in H as (s & -> & H). injection H as <-. cbn [nb]. eexists. split; [reflexivity|]. split; [reflexivity|].
  intros ix _. cbn [el]. f_equal. unfold window_elems. rewrite <- S. apply flat_map_ext_in. intros off _. destruct (covered (sh x) ss ps ix off) as [q|] eqn:E; [|reflexivity]. rewrite V; [reflexivity|]. eapply covered_bounds, E.
Qed.
Section nn.
Context {PR : Prng}.
Lemma pool_aeq kd i x y z : aeq x y -> pool_batched kd i x = inl z -> exists w, pool_batched kd i y = inl w /\ aeq z w.
Proof.
  intros E. pose proof E as [S _]. unfold pool_batched. destruct i; try discriminate. destruct kd; [now apply window_aeq|now apply window_aeq|]. rewrite <- S. intros H. apply nb_inl in H as (sizes & -> & H). cbn [nb]. apply nb_inl in H as (outs & H1 & H).
  destruct (window_aeq _ _ _ _ _ _ _ E H1) as (outs' & -> & Eo). cbn [nb]. eapply zip_aeq; [exact Eo|apply aeq_refl|exact H].
Qed.
Lemma conv2d_aeq x y k st ph pw dil z : aeq x y -> conv2d x k st ph pw dil = inl z -> exists w, conv2d y k st ph pw dil = inl w /\ aeq z w.
Proof.
  intros [S V]. unfold conv2d. rewrite <- S. destruct (sh x) as [|n [|h [|w [|c [|]]]]] eqn:Ex; try discriminate. destruct (sh k) as [|fh [|fw [|ci [|co [|]]]]] eqn:Ek; try discriminate.
  destruct (negb (c =? ci) || (fst dil =? 0) || (snd dil =? 0)) eqn:Eg; [discriminate|]. intros H. apply nb_inl in H as (oh & -> & H). apply nb_inl in H as (ow & -> & H). cbn [nb]. injection H as <-. eexists. split; [reflexivity|]. split; [reflexivity|].
  apply orb_false_iff in Eg as [Eg D2]. apply orb_false_iff in Eg as [_ D1]. apply Nat.eqb_neq in D1, D2.
  cbn [sh el]. intros ix H. inversion H as [|b ? ix1 ? Hb H1]; subst. inversion H1 as [|i ? ix2 ? Hi H2]; subst. inversion H2 as [|j ? ix3 ? Hj H3]; subst. inversion H3 as [|o ? ix4 ? Ho H4]; subst. inversion H4; subst.
  f_equal. apply map_ext_in. intros off Hoff. apply indices_spec in Hoff. inversion Hoff as [|u ? o1 ? Hu Q1]; subst. inversion Q1 as [|v ? o2 ? Hv Q2]; subst. inversion Q2 as [|q ? o3 ? Hq Q3]; subst. inversion Q3; subst.
  assert (B : forall i off s d dl (p : Z * Z) a, dl <> 0 -> (if ((0 <=? Z.of_nat (i * s + off) - fst p)%Z && ((Z.of_nat (i * s + off) - fst p) mod Z.of_nat dl =? 0)%Z && ((Z.of_nat (i * s + off) - fst p) / Z.of_nat dl <? Z.of_nat d)%Z)%bool
    then Some (Z.to_nat ((Z.of_nat (i * s + off) - fst p) / Z.of_nat dl)) else None) = Some a -> a < d).
  { clear. intros i off s d dl p a Hd Ha. destruct (_ && _ && _)%bool eqn:E; [|discriminate]. injection Ha as <-. apply andb_prop in E as [E E3]. apply andb_prop in E as [E1 _]. apply Z.leb_le in E1. apply Z.ltb_lt in E3.
    assert (0 <= (Z.of_nat (i * s + off) - fst p) / Z.of_nat dl)%Z by (apply Z.div_pos; lia). lia. }
  match goal with |- match ?a with _ => _ end = _ => destruct a as [y1|] eqn:E1; [|reflexivity] end. match goal with |- match ?a with _ => _ end = _ => destruct a as [z1|] eqn:E2; [|reflexivity] end.
  rewrite V; [reflexivity|]. repeat constructor; auto; [eapply (B _ _ _ _ _ _ _ D1), E1|eapply (B _ _ _ _ _ _ _ D2), E2].
Qed.
Lemma conv_aeq tr p x y z : aeq x y -> conv_batched tr p x = inl z -> exists w, conv_batched tr p y = inl w /\ aeq z w.
Proof.
  intros E. pose proof E as [S _]. unfold conv_batched. destruct (l_params p) as [|? [|[kernel|] [|bias [|]]]]; try discriminate. destruct (l_info p) as [| | | | |ci| |]; try discriminate. rewrite <- S. intros H. apply nb_inl in H as (r & H1 & H).
  destruct (sh x) as [|? [|? [|? [|? [|]]]]]; try discriminate. destruct (sh kernel) as [|? [|? [|? [|? [|]]]]]; try discriminate. destruct (ci_strides ci) as [s1 s2]. cbv zeta in *.
  assert (K : forall r', aeq r r' -> exists w, (if ci_bias ci then match bias with PLeaf b => zip_arr Rplus r' b | _ => inr NType end else inl r') = inl w /\ aeq z w).
  { intros r' Er. destruct (ci_bias ci); [|injection H as <-; eauto]. destruct bias; try discriminate. eapply zip_aeq; [exact Er|apply aeq_refl|exact H]. }
  destruct tr; destruct (conv2d_aeq _ _ _ _ _ _ _ _ E H1) as (r' & -> & Er); cbn [nb]; apply K, Er.
Qed.

(** an activation that depends only on the elements of its input *)
Definition local_act (f : arr -> list nat -> R) : Prop := forall x y, aeq x y -> forall ix, in_bounds (sh x) ix -> f x ix = f y ix.
Lemma pointwise_local (g : R -> R) : local_act (fun x ix => g (el x ix)).
Proof. intros x y [_ V] ix H. now rewrite V. Qed.
Lemma last_axis_local x y ix : aeq x y -> in_bounds (sh x) ix -> last_axis x ix = last_axis y ix.
Proof.
  intros [S V] H. unfold last_axis. rewrite <- S. destruct (sh x) as [|a s] eqn:E; [reflexivity|]. assert (Hne : a :: s <> []) by discriminate. pose proof (app_removelast_last 0 Hne) as El. apply map_ext_in. intros j Hj. apply in_seq in Hj. apply V. rewrite El in *.
  rewrite last_last in Hj. apply bounds_snoc in H as (jx & i & -> & H & _). rewrite removelast_last. apply Forall2_app; [exact H|constructor; [lia|constructor]].
Qed.
Lemma softmax_local : local_act (fun x ix => exp (el x ix) / rsum (map exp (last_axis x ix)))%R.
Proof. intros x y E ix H. rewrite (last_axis_local x y ix E H). destruct E as [_ V]. now rewrite V. Qed.
Lemma log_softmax_local : local_act (fun x ix => el x ix - ln (rsum (map exp (last_axis x ix))))%R.
Proof. intros x y E ix H. rewrite (last_axis_local x y ix E H). destruct E as [_ V]. now rewrite V. Qed.

(** a template whose activations are local *)
Fixpoint local (t : template) : Prop :=
  match t with
  | TLeaf c => forall f, c = Activation f -> local_act f
  | TSerial ts => (fix go (ts : list template) : Prop := match ts with [] => True | t :: ts' => local t /\ go ts' end) ts
  end.

(** the library's layers depend only on the elements of their inputs *)
Lemma call_aeq c ss p args args' kw o : standard c ss -> (forall f, c = Activation f -> local_act f) -> (forall ax m e ce sc bi gi, c <> BatchNorm ax m e ce sc bi gi) -> Forall2 aeq args args' -> c_call c p args kw = inl o ->
  exists o', c_call c p args' kw = inl o' /\ veq o o'.
Proof.
  intros Hs Hl Hb Ha H. destruct Hs; cbn [c_call Dense Dropout Activation Flatten Reshape Pooling Conv Deconv ConvLayer] in *.
  - unfold dense_call, on1 in *. inversion Ha as [|x y ? ? Hxy Hr]; subst; [discriminate|]. inversion Hr; subst; [|discriminate]. destruct (l_params p) as [|? [|[kernel|] [|[bias|] [|]]]]; try discriminate. apply nb_inl in H as (z & H1 & H). apply nb_inl in H as (w & H2 & H). injection H as <-.
    destruct (dot_aeq _ _ _ _ Hxy H1) as (z' & -> & Ez). cbn [nb]. destruct (zip_aeq _ _ _ _ _ _ Ez (aeq_refl bias) H2) as (w' & -> & Ew). cbn [nb]. eexists. split; [reflexivity|exact Ew].
  - unfold dropout_call, on1 in *. inversion Ha as [|x y ? ? Hxy Hr]; subst; [discriminate|]. inversion Hr; subst; [|discriminate]. destruct (l_info p); try discriminate. destruct (match kget "training" kw with Some (KBool b) => b | _ => true end).
    + destruct (kget "rng" kw) as [[| |]|]; try discriminate. injection H as <-. eexists. split; [reflexivity|]. destruct Hxy as [S V]. split; [exact S|]. cbn. intros ix Hix. now rewrite V.
    + injection H as <-. eexists. split; [reflexivity|exact Hxy].
  - unfold on1 in *. inversion Ha as [|x y ? ? Hxy Hr]; subst; [discriminate|]. inversion Hr; subst; [|discriminate]. injection H as <-. eexists. split; [reflexivity|]. split; [exact (proj1 Hxy)|]. cbn. apply (Hl f eq_refl), Hxy.
  - unfold flatten_call, on1 in *. inversion Ha as [|x y ? ? Hxy Hr]; subst; [discriminate|]. inversion Hr; subst; [|discriminate]. rewrite <- (proj1 Hxy). apply nb_inl in H as (v & -> & H). cbn [nb]. destruct v; [|discriminate]. apply nb_inl in H as (z & H & E). injection E as <-.
    destruct (reshape_aeq _ _ _ _ Hxy H) as (w & -> & Ew). cbn [nb]. eexists. split; [reflexivity|exact Ew].
  - unfold reshape_call, on1 in *. inversion Ha as [|x y ? ? Hxy Hr]; subst; [discriminate|]. inversion Hr; subst; [|discriminate]. destruct (l_info p); try discriminate. rewrite <- (proj1 Hxy). apply nb_inl in H as (v & -> & H). cbn [nb]. destruct v; [|discriminate]. apply nb_inl in H as (z & H & E). injection E as <-.
    destruct (reshape_aeq _ _ _ _ Hxy H) as (w & -> & Ew). cbn [nb]. eexists. split; [reflexivity|exact Ew].
  - unfold pool_call, on1 in *. inversion Ha as [|x y ? ? Hxy Hr]; subst; [discriminate|]. inversion Hr; subst; [|discriminate]. rewrite <- (proj1 Hxy). destruct (3 <? List.length (sh x)); [discriminate|]. apply nb_inl in H as (r & H1 & H). apply nb_inl in H as (z & H2 & H). injection H as <-.
    destruct (pool_aeq _ _ _ _ _ (newaxis_aeq _ _ Hxy) H1) as (r' & -> & Er). cbn [nb]. destruct (index0_aeq _ _ _ Er H2) as (z' & -> & Ez). cbn [nb]. eexists. split; [reflexivity|exact Ez].
  - unfold conv_call, on1 in *. inversion Ha as [|x y ? ? Hxy Hr]; subst; [discriminate|]. inversion Hr; subst; [|discriminate]. rewrite <- (proj1 Hxy). destruct (negb (List.length (sh x) =? 3)); [discriminate|]. apply nb_inl in H as (r & H1 & H). apply nb_inl in H as (z & H2 & H). injection H as <-.
    destruct (conv_aeq _ _ _ _ _ (newaxis_aeq _ _ Hxy) H1) as (r' & -> & Er). cbn [nb]. destruct (index0_aeq _ _ _ Er H2) as (z' & -> & Ez). cbn [nb]. eexists. split; [reflexivity|exact Ez].
  - unfold conv_call, on1 in *. inversion Ha as [|x y ? ? Hxy Hr]; subst; [discriminate|]. inversion Hr; subst; [|discriminate]. rewrite <- (proj1 Hxy). destruct (negb (List.length (sh x) =? 3)); [discriminate|]. apply nb_inl in H as (r & Q1 & H). apply nb_inl in H as (z & Q2 & H). injection H as <-.
    destruct (conv_aeq _ _ _ _ _ (newaxis_aeq _ _ Hxy) Q1) as (r' & -> & Er). cbn [nb]. destruct (index0_aeq _ _ _ Er Q2) as (z' & -> & Ez). cbn [nb]. eexists. split; [reflexivity|exact Ez].
  - destruct (Hb ax m e ce sc bi gi eq_refl).
Qed.
End nn.
