(** canonicalize: evaluation respects Python equality, is compositional, and agrees with the computed shapes. *)
From Verif Require Import MatcherSpec RulesProofs JaxProofs CanonicalizeModel CanonProofs EinsumProofs EinsumProofs2 EinsumProps.

Lemma rb_inl {A B} (x : result A) (f : A -> result B) b : rb x f = inl b -> exists a, x = inl a /\ f a = inl b.
Proof. destruct x as [a|]; simpl; intros H; [eauto|discriminate]. Qed.
Lemma opt_inl {A} e (x : option A) a : opt e x = inl a -> x = Some a.
Proof. destruct x; simpl; congruence. Qed.

(** ** Python equality *)
Lemma of_str_canon v : of_str (canon v) = of_str v.
Proof. destruct v; reflexivity. Qed.
Lemma nat_of_canon v : nat_of (canon v) = nat_of v.
Proof. destruct v; reflexivity. Qed.
Lemma omap_map {A B} (f : A -> option B) (g : A -> A) l : (forall x, f (g x) = f x) -> omap f (map g l) = omap f l.
Proof. intros H. induction l as [|x l IH]; simpl; [reflexivity|]. rewrite H, IH. reflexivity. Qed.
Lemma nats_of_canon v : nats_of (canon v) = nats_of v.
Proof. destruct v as [| |[]| |]; try reflexivity. apply omap_map, nat_of_canon. Qed.
Lemma strs_of_canon v : strs_of (canon v) = strs_of v.
Proof. destruct v as [| |[]| |]; try reflexivity. apply omap_map, of_str_canon. Qed.
Lemma dims_of_canon v : dims_of (canon v) = dims_of v.
Proof.
  destruct v as [| |[] [|[| |[] [|a [|b [|]]]| |] [|[| |[] [|c [|d [|]]]| |] [|]]]| |]; try reflexivity.
  cbn [canon map dims_of]. rewrite !nats_of_canon. reflexivity.
Qed.
Lemma assoc_canon ks : forall vs x, assoc (map canon ks) (map canon vs) x = option_map canon (assoc ks vs x).
Proof.
  induction ks as [|k ks IH]; intros [|v vs] x; simpl; try reflexivity; destruct k; try reflexivity.
  simpl. destruct (list_eqb Ascii.eqb s x); [reflexivity|apply IH].
Qed.
Lemma param_canon ps x : param (canon ps) x = option_map canon (param ps x).
Proof.
  destruct ps as [| | | |c [|[| |[] ks| |] [|[| |[] vs| |] [|]]] [|]]; try reflexivity.
  cbn [canon map param]. destruct (String.eqb c "Params"); [apply assoc_canon|reflexivity].
Qed.
Lemma axes_param_canon ps x : axes_param (canon ps) x = axes_param ps x.
Proof. unfold axes_param. rewrite param_canon. destruct (param ps x); [apply nats_of_canon|reflexivity]. Qed.
Lemma dims_param_canon ps : dims_param (canon ps) = dims_param ps.
Proof. unfold dims_param. rewrite param_canon. destruct (param ps _); [apply dims_of_canon|reflexivity]. Qed.
Lemma lax_shape_canon p ps ss : lax_shape p (canon ps) ss = lax_shape p ps ss.
Proof. unfold lax_shape. rewrite !axes_param_canon, dims_param_canon. reflexivity. Qed.
Lemma canon_idem v : canon (canon v) = canon v.
Proof.
  induction v using val_ind'; simpl; try reflexivity; rewrite ?map_map; f_equal; apply map_ext_in; intros a Ha; rewrite Forall_forall in *; auto.
Qed.
Lemma same_canon v : same (canon v) v.
Proof. apply py_eq_canon, canon_idem. Qed.

Section eval.
  Variables (K : Type) (k0 k1 : K) (kadd kmul : K -> K -> K) (P : prims K).
  Hypothesis POK : prims_ok P.
  Notation eval := (eval K k0 k1 kadd kmul P).
  Notation node := (node K k0 k1 kadd kmul P).
  Notation lax_value := (lax_value K k0 kadd kmul).
  Notation bind := (bind K k0 kadd kmul P).
  Notation eshape := (eshape K P).
  Notation node_shape := (node_shape K P).
  Notation den := (den K).

  Lemma lax_value_canon p ps ds : lax_value p (canon ps) ds = lax_value p ps ds.
  Proof using. unfold CanonicalizeModel.lax_value. rewrite !axes_param_canon, dims_param_canon. reflexivity. Qed.
  Lemma bind_canon p ps ds : bind p (canon ps) ds = bind p ps ds.
  Proof using POK.
    unfold CanonicalizeModel.bind. rewrite lax_shape_canon, lax_value_canon.
    rewrite (obind_same P POK p _ ps ds (same_canon ps)), (obindN_same P POK p _ ps ds (same_canon ps)). reflexivity.
  Qed.
  Lemma lit_canon v : lit P (canon v) = lit P v.
  Proof using POK. apply (lit_same P POK), same_canon. Qed.
  Lemma rb_ext {A B} (x : result A) (f g : A -> result B) : (forall a, f a = g a) -> rb x f = rb x g.
  Proof using. intros H. destruct x; simpl; auto. Qed.
  Lemma node_canon c h fs e : node c (map canon h) fs e = node c h fs e.
  Proof using POK.
    unfold CanonicalizeModel.node.
    destruct (String.eqb c "JaxVar").
    { destruct h as [|n [|sh [|]]]; try reflexivity. cbn [map]. rewrite of_str_canon, nats_of_canon. reflexivity. }
    destruct (String.eqb c "Literal").
    { destruct h as [|n [|]]; try reflexivity. cbn [map]. rewrite lit_canon. reflexivity. }
    destruct (String.eqb c "Primitive").
    { destruct h as [|n [|ps [|]]]; try reflexivity. cbn [map]. rewrite of_str_canon. apply rb_ext. intros p. apply rb_ext. intros ds. apply bind_canon. }
    destruct (String.eqb c "Part").
    { destruct h as [|n [|]]; try reflexivity. cbn [map]. rewrite nat_of_canon. reflexivity. }
    destruct (String.eqb c "BoundExpression").
    { destruct h as [|n [|[| |[] cs| |] [|]]]; try reflexivity. cbn [map canon]. rewrite strs_of_canon, (omap_map _ _ _ lit_canon). reflexivity. }
    destruct (String.eqb c "CallPrimitive").
    { destruct h as [|n [|q [|r [|]]]]; try reflexivity. cbn [map canon]. rewrite strs_of_canon. reflexivity. }
    destruct (String.eqb c "Einsum").
    { destruct h as [|[] [|]]; reflexivity. }
    destruct (String.eqb c "AddN"); [|reflexivity]. destruct h; reflexivity.
  Qed.

  (** ** Monotonicity *)
  Definition dle (f g : den) : Prop := forall e v, f e = inl v -> g e = inl v.
  Lemma seqr_dle fs gs : Forall2 dle fs gs -> forall e vs, seqr (map (fun f : den => f e) fs) = inl vs -> seqr (map (fun f : den => f e) gs) = inl vs.
  Proof using.
    induction 1 as [|f g fs gs Hfg HF IH]; intros e vs H; [assumption|]. cbn [map seqr] in *.
    apply rb_inl in H as (a & Ha & H). apply rb_inl in H as (l & Hl & H). rewrite (Hfg _ _ Ha). cbn [rb]. rewrite (IH _ _ Hl). assumption.
  Qed.
  Lemma arrs_dle fs gs : Forall2 dle fs gs -> forall e vs, arrs K fs e = inl vs -> arrs K gs e = inl vs.
  Proof using.
    intros HF e vs H. unfold arrs in *. apply rb_inl in H as (l & Hl & H). rewrite (seqr_dle _ _ HF _ _ Hl). assumption.
  Qed.
  Lemma F2_rev {A B} (R : A -> B -> Prop) l m : Forall2 R l m -> Forall2 R (rev l) (rev m).
  Proof using. induction 1; simpl; [constructor|]. apply Forall2_app; auto. Qed.
  Lemma node_dle c h fs gs : Forall2 dle fs gs -> dle (node c h fs) (node c h gs).
  Proof using.
    intros HF e v. unfold CanonicalizeModel.node.
    destruct (String.eqb c "JaxVar").
    { destruct HF; [auto|]. destruct h as [|n [|sh [|]]]; discriminate. }
    destruct (String.eqb c "Literal").
    { destruct HF; [auto|]. destruct h as [|n [|]]; discriminate. }
    destruct (String.eqb c "Primitive").
    { destruct h as [|n [|ps [|]]]; try discriminate. destruct (of_str n); [|discriminate]. cbn [opt rb]. intros H.
      apply rb_inl in H as (ds & Hd & H). rewrite (arrs_dle _ _ HF _ _ Hd). assumption. }
    destruct (String.eqb c "Part").
    { destruct h as [|n [|]]; try discriminate. destruct HF as [|f g fs gs Hfg HF]; [discriminate|]. destruct HF; [|discriminate].
      destruct (nat_of n); [|discriminate]. cbn [opt rb]. intros H. apply rb_inl in H as (w & Hw & H). rewrite (Hfg _ _ Hw). assumption. }
    destruct (String.eqb c "BoundExpression").
    { destruct h as [|n [|[| |[] cs| |] [|]]]; try discriminate. destruct (strs_of n); [|discriminate]. destruct (omap _ cs); [|discriminate].
      cbn [opt rb]. destruct (dwrite [] l l0); [|discriminate]. cbn [rb]. intros H. apply rb_inl in H as (ds & Hd & H).
      rewrite (seqr_dle _ _ HF _ _ Hd). assumption. }
    destruct (String.eqb c "CallPrimitive").
    { destruct h as [|n [|q [|r [|]]]]; try discriminate. apply F2_rev in HF. destruct HF as [|f g fr gr Hfg HF]; [discriminate|].
      destruct (strs_of r); [|discriminate]. cbn [opt rb]. intros H. apply rb_inl in H as (ds & Hd & H).
      rewrite (arrs_dle _ _ (F2_rev _ _ _ HF) _ _ Hd). cbn [rb]. destruct (dwrite [] l ds); [|discriminate]. cbn [rb] in *. auto. }
    destruct (String.eqb c "Einsum").
    { destruct h as [|[] [|]]; try discriminate. intros H. apply rb_inl in H as (ds & Hd & H). rewrite (arrs_dle _ _ HF _ _ Hd). assumption. }
    destruct (String.eqb c "AddN"); [|auto].
    destruct h; [|discriminate]. intros H. apply rb_inl in H as (ds & Hd & H). rewrite (arrs_dle _ _ HF _ _ Hd). assumption.
  Qed.
  Lemma chk_dle lim lim' f g : (forall n, lim n = true -> lim' n = true) -> dle f g -> dle (chk K lim f) (chk K lim' g).
  Proof using.
    intros Hl Hfg e v. unfold chk. intros H. apply rb_inl in H as (w & Hw & H). rewrite (Hfg _ _ Hw). cbn [rb].
    destruct w as [a|]; [|assumption]. destruct (lim (ndim K a)) eqn:E; [|discriminate]. rewrite (Hl _ E). assumption.
  Qed.
  Lemma dle_refl f : dle f f.
  Proof using. intros e v. auto. Qed.
  Lemma eval_lim lim lim' v : (forall n, lim n = true -> lim' n = true) -> dle (eval lim v) (eval lim' v).
  Proof using.
    intros Hl. induction v as [k z|s|[] l IH|ks vs _|c h ks _ IH] using val_ind'; cbn [CanonicalizeModel.eval]; apply chk_dle; auto; try apply dle_refl.
    - intros e v H. apply rb_inl in H as (ws & Hw & H). erewrite seqr_dle; [exact H| |exact Hw].
      clear -IH. induction IH; simpl; constructor; auto.
    - apply node_dle. clear -IH. induction IH; simpl; constructor; auto.
  Qed.

  Lemma node_canon_dle c h fs gs : Forall2 dle fs gs -> dle (node c (map canon h) fs) (node c h gs) /\ dle (node c h fs) (node c (map canon h) gs).
  Proof using POK.
    intros HF. split; intros e v H; [|rewrite node_canon]; (apply (node_dle c h fs gs HF); [rewrite node_canon in H; exact H|..]) || apply (node_dle c h fs gs HF), H.
  Qed.
  Lemma eval_canon lim v : dle (eval lim (canon v)) (eval lim v) /\ dle (eval lim v) (eval lim (canon v)).
  Proof using POK.
    induction v as [k z|s|[] l IH|ks vs _|c h ks _ IH] using val_ind'; cbn [canon CanonicalizeModel.eval]; split; apply chk_dle; auto; try apply dle_refl.
    - change (VNum KInt z) with (canon (VNum k z)). rewrite lit_canon. apply dle_refl.
    - change (VNum KInt z) with (canon (VNum k z)). rewrite lit_canon. apply dle_refl.
    - intros e v H. apply rb_inl in H as (ws & Hw & H). erewrite seqr_dle; [exact H| |exact Hw].
      clear -IH. induction IH as [|x l [? ?] IH]; simpl; constructor; auto.
    - intros e v H. apply rb_inl in H as (ws & Hw & H). erewrite seqr_dle; [exact H| |exact Hw].
      clear -IH. induction IH as [|x l [? ?] IH]; simpl; constructor; auto.
    - apply node_canon_dle. clear -IH. induction IH as [|x l [? ?] IH]; simpl; constructor; auto.
    - apply node_canon_dle. clear -IH. induction IH as [|x l [? ?] IH]; simpl; constructor; auto.
  Qed.
  (** the value of an expression is defined and kept by its replacement *)
  Definition keeps (lim : nat -> bool) (v w : val) : Prop := dle (eval lim v) (eval lim w).
  Lemma keeps_same lim v w : same v w -> keeps lim v w.
  Proof using POK.
    intros H. apply py_eq_canon in H. intros e x Hx. apply eval_canon. rewrite <- H. apply eval_canon. assumption.
  Qed.
  Lemma keeps_compositional lim : compositional (keeps lim).
  Proof using.
    split; [intros v; apply dle_refl|split].
    - intros a b c Hab Hbc e v Hv. apply Hbc, Hab, Hv.
    - intros v l HF. assert (HF' : Forall2 dle (map (eval lim) (kids v)) (map (eval lim) l)).
      { clear -HF. induction HF; simpl; constructor; auto. }
      destruct v as [k z|s|[] es|ks vs|c h ks]; simpl in HF, HF' |- *; try apply dle_refl; unfold keeps; cbn [CanonicalizeModel.eval]; apply chk_dle; auto.
      + intros e w H. apply rb_inl in H as (ws & Hw & H). erewrite seqr_dle; [exact H|exact HF'|exact Hw].
      + apply node_dle. assumption.
  Qed.

  (** ** Shapes *)
  Fixpoint vshape (v : rv (array K)) : sv :=
    match v with Arr a => SArr (shape a) | Tup l => STup (map vshape l) end.
  Definition agrees (f : den) (s : result sv) : Prop := forall e v t, f e = inl v -> s = inl t -> vshape v = t.
  Lemma seqr_agrees fs ss : Forall2 agrees fs ss -> forall e vs ts, seqr (map (fun f : den => f e) fs) = inl vs -> seqr ss = inl ts -> map vshape vs = ts.
  Proof using.
    induction 1 as [|f s fs ss Hfs HF IH]; intros e vs ts H1 H2; cbn [map seqr] in *.
    - injection H1 as <-. injection H2 as <-. reflexivity.
    - apply rb_inl in H1 as (a & Ha & H1). apply rb_inl in H1 as (l & Hl & H1). injection H1 as <-.
      apply rb_inl in H2 as (t & Ht & H2). apply rb_inl in H2 as (m & Hm & H2). injection H2 as <-.
      cbn [map]. f_equal; [eapply Hfs; eassumption|eapply IH; eassumption].
  Qed.
  Lemma rmap_arr_inl (vs : list (rv (array K))) ds : rmap (@arr (array K)) vs = inl ds -> vs = map Arr ds.
  Proof using.
    revert ds. induction vs as [|v vs IH]; intros ds H; cbn [rmap] in H; [injection H as <-; reflexivity|].
    destruct v as [a|]; [|discriminate]. cbn [arr rb] in H. apply rb_inl in H as (l & Hl & H). injection H as <-.
    cbn [map]. f_equal. auto.
  Qed.
  Lemma rmap_sarr_inl ts ss : rmap sarr ts = inl ss -> ts = map SArr ss.
  Proof using.
    revert ss. induction ts as [|v vs IH]; intros ds H; cbn [rmap] in H; [injection H as <-; reflexivity|].
    destruct v as [a|]; [|discriminate]. cbn [sarr rb] in H. apply rb_inl in H as (l & Hl & H). injection H as <-.
    cbn [map]. f_equal. auto.
  Qed.
  Lemma map_SArr_inj l m : map SArr l = map SArr m -> l = m.
  Proof using. revert m. induction l as [|x l IH]; intros [|y m] H; try discriminate; [reflexivity|]. injection H as -> H. f_equal. auto. Qed.
  Lemma arrs_agrees fs ss : Forall2 agrees fs ss -> forall e ds ts, arrs K fs e = inl ds -> sarrs ss = inl ts -> map shape ds = ts.
  Proof using.
    intros HF e ds ts H1 H2. unfold arrs, sarrs in *. apply rb_inl in H1 as (vs & Hv & H1). apply rb_inl in H2 as (l & Hl & H2).
    apply rmap_arr_inl in H1. apply rmap_sarr_inl in H2. pose proof (seqr_agrees _ _ HF _ _ _ Hv Hl) as E. subst vs l.
    rewrite map_map in E. change (map (fun x : array K => SArr (shape x)) ds) with (map (fun x : array K => SArr (shape x)) ds) in E.
    rewrite <- (map_map (@shape K) SArr) in E. apply map_SArr_inj, E.
  Qed.

  Lemma combine_shape {A B} (ins : list (list ascii)) (ops : list (array A)) (ops' : list (array B)) : map shape ops = map shape ops' ->
    Forall2 (fun x y => fst x = fst y /\ shape (snd x) = shape (snd y)) (combine ins ops) (combine ins ops').
  Proof using.
    revert ops ops'. induction ins as [|i ins IH]; intros [|a ops] [|b ops'] H; try discriminate; simpl; constructor; simpl in H.
    - injection H as H _. auto.
    - injection H as _ H. auto.
  Qed.
  Lemma pairs_shape {A B} ins (ops : list (array A)) (ops' : list (array B)) : map shape ops = map shape ops' -> pairs A ins ops = pairs B ins ops'.
  Proof using.
    intros H. unfold pairs. pose proof (combine_shape ins ops ops' H) as HF.
    induction HF as [|x y l m [E1 E2] HF IH]; simpl; [reflexivity|]. rewrite E1, E2, IH. reflexivity.
  Qed.
  Lemma einsum_ok_shape {A B} ins out (ops : list (array A)) (ops' : list (array B)) : map shape ops = map shape ops' -> einsum_ok A ins out ops = einsum_ok B ins out ops'.
  Proof using.
    intros H. unfold einsum_ok. rewrite (pairs_shape ins ops ops' H).
    assert (L : List.length ops = List.length ops') by (rewrite <- (map_length shape ops), H; apply map_length). rewrite L. f_equal. f_equal. f_equal. f_equal.
    pose proof (combine_shape ins ops ops' H) as HF.
    induction HF as [|x y l m [E1 E2] HF IH]; simpl; [reflexivity|]. rewrite E1, E2, IH. reflexivity.
  Qed.
  Lemma einsum_str_shape {A B} a0 a1 aadd amul b0 b1 badd bmul s (ops : list (array A)) (ops' : list (array B)) r r' : map shape ops = map shape ops' ->
    einsum_str A a0 a1 aadd amul s ops = inl r -> einsum_str B b0 b1 badd bmul s ops' = inl r' -> shape r = shape r'.
  Proof using.
    intros H. unfold einsum_str. destruct (split_einsum_formula s) as [f|]; [|discriminate]. cbn [rb']. destruct (clean f); [|discriminate].
    unfold einsum. rewrite (einsum_ok_shape _ _ ops ops' H). destruct (einsum_ok _ _ _ ops'); [|discriminate].
    rewrite (pairs_shape _ ops ops' H). intros H1 H2. injection H1 as <-. injection H2 as <-. reflexivity.
  Qed.
  Lemma map_shape_abstract ss : map shape (map abstract ss) = ss.
  Proof using. induction ss; simpl; congruence. Qed.
  Lemma reduce_add_shape {A} (a0 : A) aadd l : forall acc r, reduce_add A a0 aadd acc l = inl r -> shape r = shape acc.
  Proof using.
    induction l as [|x l IH]; intros acc r H; cbn [reduce_add] in H; [injection H as <-; reflexivity|].
    unfold add_arrays in H. destruct (list_eq_dec _ _ _); [|discriminate]. cbn [rb'] in H. apply IH in H. exact H.
  Qed.
  Lemma addn_shape {A B} (a0 : A) aadd (b0 : B) badd ops ops' r r' : map shape ops = map shape ops' ->
    addn A a0 aadd ops = inl r -> addn B b0 badd ops' = inl r' -> shape r = shape r'.
  Proof using.
    destruct ops as [|x l], ops' as [|y m]; cbn [addn]; try discriminate. intros H H1 H2. injection H as H _.
    apply reduce_add_shape in H1. apply reduce_add_shape in H2. congruence.
  Qed.
  Lemma lax_value_shape p ps ds a s : lax_value p ps ds = inl a -> lax_shape p ps (map shape ds) = inl s -> shape a = s.
  Proof using.
    unfold CanonicalizeModel.lax_value, lax_shape.
    destruct (String.eqb p "transpose").
    { destruct (axes_param ps _); [|discriminate]. destruct ds as [|x []]; try discriminate. intros H; injection H as <-. cbn [map].
      unfold transpose_shape. destruct (_ && _)%bool; [|discriminate]. intros H; injection H as <-. reflexivity. }
    destruct (String.eqb p "squeeze").
    { destruct (axes_param ps _); [|discriminate]. destruct ds as [|x []]; try discriminate. intros H; injection H as <-. cbn [map].
      unfold squeeze_shape. destruct (_ && _)%bool; [|discriminate]. intros H; injection H as <-. reflexivity. }
    destruct (String.eqb p "reduce_sum").
    { destruct (axes_param ps _); [|discriminate]. destruct ds as [|x []]; try discriminate. intros H; injection H as <-. cbn [map].
      unfold reduce_sum_shape. destruct (_ && _)%bool; [|discriminate]. intros H; injection H as <-. reflexivity. }
    destruct (String.eqb p "dot_general").
    { destruct (dims_param ps) as [[[xc yc] [xb yb]]|]; [|discriminate]. destruct ds as [|x [|y []]]; try discriminate. intros H; injection H as <-. cbn [map].
      unfold dot_shape. destruct (_ && _)%bool; [|discriminate]. intros H; injection H as <-. reflexivity. }
    destruct ds as [|x [|y []]]; try discriminate. cbn [map]. unfold add_arrays, add_shape.
    destruct (list_eq_dec _ _ _); [|discriminate]. intros H; injection H as <-. intros H; injection H as <-. reflexivity.
  Qed.
  Lemma node_agrees c h fs ss : Forall2 agrees fs ss -> agrees (node c h fs) (node_shape c h ss).
  Proof using POK.
    intros HF e v t. unfold CanonicalizeModel.node, CanonicalizeModel.node_shape.
    destruct (String.eqb c "JaxVar").
    { destruct h as [|n [|sh [|]]]; try discriminate. destruct HF; [|discriminate]. destruct (of_str n); [|discriminate]. destruct (nats_of sh); [|discriminate].
      cbn [opt rb]. destruct (dget e s); [|discriminate]. cbn [opt rb]. destruct (list_eq_dec _ _ _); [|discriminate].
      intros H; injection H as <-. intros H; injection H as <-. cbn [vshape]. congruence. }
    destruct (String.eqb c "Literal").
    { destruct h as [|n [|]]; try discriminate. destruct HF; [|discriminate]. destruct (lit P n); [|discriminate]. cbn [opt rb].
      destruct (list_eq_dec _ _ _); [|discriminate]. intros H; injection H as <-. intros H; injection H as <-. cbn [vshape]. congruence. }
    destruct (String.eqb c "Primitive").
    { destruct h as [|n [|ps [|]]]; try discriminate. destruct (of_str n) as [p|]; [|discriminate]. cbn [opt rb]. intros H1 H2.
      apply rb_inl in H1 as (ds & Hd & H1). apply rb_inl in H2 as (ts & Ht & H2). pose proof (arrs_agrees _ _ HF _ _ _ Hd Ht) as E. subst ts.
      unfold CanonicalizeModel.bind in H1. destruct (known p).
      - apply rb_inl in H1 as (s & Hs & H1). apply rb_inl in H1 as (a & Ha & H1). injection H1 as <-.
        apply rb_inl in H2 as (s' & Hs' & H2). injection H2 as <-. cbn [vshape]. f_equal. eapply lax_value_shape; eassumption.
      - destruct (multi P p).
        + apply rb_inl in H1 as (rs & Ha & H1). injection H1 as <-. apply rb_inl in H2 as (s' & Hs' & H2). injection H2 as <-.
          cbn [vshape]. f_equal. rewrite map_map. cbn [vshape]. rewrite <- (map_map shape SArr). f_equal. eapply (obindN_shape P POK); eassumption.
        + apply rb_inl in H1 as (rs & Ha & H1). injection H1 as <-. apply rb_inl in H2 as (s' & Hs' & H2). injection H2 as <-.
          cbn [vshape]. f_equal. eapply (obind_shape P POK); eassumption. }
    destruct (String.eqb c "Part").
    { destruct h as [|n [|]]; try discriminate. destruct HF as [|f s fs ss Hfs HF]; [discriminate|]. destruct HF; [|discriminate].
      destruct (nat_of n) as [i|]; [|discriminate]. cbn [opt rb]. intros H1 H2. apply rb_inl in H1 as (w & Hw & H1). apply rb_inl in H2 as (u & Hu & H2).
      pose proof (Hfs _ _ _ Hw Hu) as E. destruct w as [|l]; [discriminate|]. cbn [vshape] in E. subst u. apply opt_inl in H1. apply opt_inl in H2.
      rewrite nth_error_map, H1 in H2. cbn [option_map] in H2. congruence. }
    destruct (String.eqb c "BoundExpression").
    { destruct h as [|n [|[| |[] cs| |] [|]]]; try discriminate. destruct (strs_of n); [|discriminate]. destruct (omap _ cs); [|discriminate].
      cbn [opt rb]. destruct (dwrite [] l l0); [|discriminate]. cbn [rb]. intros H1 H2. apply rb_inl in H1 as (ds & Hd & H1). injection H1 as <-.
      apply rb_inl in H2 as (ts & Ht & H2). injection H2 as <-. cbn [vshape]. f_equal. eapply seqr_agrees; eassumption. }
    destruct (String.eqb c "CallPrimitive"); [discriminate|].
    destruct (String.eqb c "Einsum").
    { destruct h as [|[] [|]]; try discriminate. intros H1 H2. apply rb_inl in H1 as (ds & Hd & H1). apply rb_inl in H2 as (ts & Ht & H2).
      pose proof (arrs_agrees _ _ HF _ _ _ Hd Ht) as E. apply rb_inl in H1 as (a & Ha & H1). injection H1 as <-.
      apply rb_inl in H2 as (b & Hb & H2). injection H2 as <-. cbn [vshape]. f_equal. eapply einsum_str_shape; [|eassumption|eassumption].
      rewrite map_shape_abstract. assumption. }
    destruct (String.eqb c "AddN"); [|discriminate].
    destruct h; [|discriminate]. intros H1 H2. apply rb_inl in H1 as (ds & Hd & H1). apply rb_inl in H2 as (ts & Ht & H2).
    pose proof (arrs_agrees _ _ HF _ _ _ Hd Ht) as E. apply rb_inl in H1 as (a & Ha & H1). injection H1 as <-.
    apply rb_inl in H2 as (b & Hb & H2). injection H2 as <-. cbn [vshape]. f_equal. eapply addn_shape; [|eassumption|eassumption].
    rewrite map_shape_abstract. assumption.
  Qed.
  Lemma chk_inv lim f e v : chk K lim f e = inl v -> f e = inl v /\ forall a, v = Arr a -> lim (ndim K a) = true.
  Proof using.
    unfold chk. intros H. apply rb_inl in H as (w & Hw & H). destruct w as [a|].
    - destruct (lim (ndim K a)) eqn:E; [|discriminate]. injection H as <-. split; [assumption|]. intros b Hb. congruence.
    - injection H as <-. split; [assumption|discriminate].
  Qed.
  Lemma chk_intro lim (f : den) e v : f e = inl v -> (forall a, v = Arr a -> lim (ndim K a) = true) -> chk K lim f e = inl v.
  Proof using. intros H H1. unfold chk. rewrite H. cbn [rb]. destruct v as [a|]; [|reflexivity]. rewrite (H1 a eq_refl). reflexivity. Qed.
  Lemma eval_agrees lim v : agrees (eval lim v) (eshape v).
  Proof using POK.
    induction v as [k z|s|k l IH|ks vs _|c h ks _ IH] using val_ind'; intros e w t H1 H2; cbn [CanonicalizeModel.eval CanonicalizeModel.eshape] in *;
      apply chk_inv in H1 as [H1 _]; try discriminate.
    - apply rb_inl in H1 as (a & Ha & H1). injection H1 as <-. apply opt_inl in Ha. rewrite Ha in H2. cbn [opt rb] in H2. injection H2 as <-. reflexivity.
    - refine (node_agrees c h _ _ _ e w t H1 H2). clear -IH. induction IH; simpl; constructor; auto.
  Qed.
  Lemma ndim_agrees lim x n e a : ndim_of K P x = inl n -> eval lim x e = inl (Arr a) -> n = ndim K a.
  Proof using POK.
    unfold ndim_of. intros H H1. apply rb_inl in H as (s & Hs & H). pose proof (eval_agrees lim x e _ _ H1 Hs) as E. subst s.
    cbn [vshape sarr rb] in H. injection H as <-. reflexivity.
  Qed.
End eval.
