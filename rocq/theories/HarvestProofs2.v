(** The reaped dictionary is the one determined by the executed sows (C24-C29). *)
From Verif Require Export HarvestProofs.

Section trees.
  Context {AR : Arrays}.
  Definition tree_ind' (P : tree -> Prop) (HL : forall v, P (Leaf v)) (HD : forall l, Forall (fun kt => P (snd kt)) l -> P (Dict l))
      (HS : forall l, Forall P l -> P (Stk l)) : forall t, P t :=
    fix F t := match t with
      | Leaf v => HL v
      | Dict l => HD l ((fix G l := match l return Forall (fun kt => P (snd kt)) l with [] => Forall_nil _ | kt :: l' => Forall_cons _ (F (snd kt)) (G l') end) l)
      | Stk l => HS l ((fix G l := match l return Forall P l with [] => Forall_nil _ | t :: l' => Forall_cons _ (F t) (G l') end) l)
      end.
  Definition aval_ind' (P : aval -> Prop) (HL : forall v, P (AL v)) (HD : forall l, Forall (fun kt => P (snd kt)) l -> P (AD l))
      (HS : forall n a, P a -> P (AS n a)) : forall t, P t :=
    fix F t := match t with
      | AL v => HL v
      | AD l => HD l ((fix G l := match l return Forall (fun kt => P (snd kt)) l with [] => Forall_nil _ | kt :: l' => Forall_cons _ (F (snd kt)) (G l') end) l)
      | AS n a => HS n a (F a)
      end.
  Lemma aval_eqb_eq a : forall b, aval_eqb a b = true -> a = b.
  Proof.
    induction a as [v|l IH|n a IH] using aval_ind'; intros [w|m|k b]; cbn; try discriminate.
    - intros H. apply av_eqb_spec in H. congruence.
    - intros H. f_equal. revert m H. induction IH as [|[k a] l Hx Hl IHl]; intros [|[k' b] m]; try discriminate; auto.
      rewrite !andb_true_iff. intros [[H1 H2] H3]. apply String.eqb_eq in H1. apply Hx in H2. apply IHl in H3. cbn in *. congruence.
    - rewrite andb_true_iff. intros [H1 H2]. apply Nat.eqb_eq in H1. apply IH in H2. congruence.
  Qed.
  Lemma zeros_like_aval t : forall a, has_aval t a = true -> zeros_like t = zeros a.
  Proof.
    induction t as [v|l IH|l IH] using tree_ind'; intros [w|m|k b]; cbn; try discriminate.
    - intros H. apply av_eqb_spec in H. congruence.
    - intros H. f_equal. revert m H. induction IH as [|[k a] l Hx Hl IHl]; intros [|[k' b] m]; try discriminate; auto.
      rewrite !andb_true_iff. intros [[H1 H2] H3]. apply String.eqb_eq in H1. apply Hx in H2. apply IHl in H3. cbn in *. congruence.
    - rewrite andb_true_iff. intros [H1 H2]. apply Nat.eqb_eq in H1. f_equal. subst k. induction IH as [|x l Hx Hl IHl]; [reflexivity|].
      cbn in H2. apply andb_true_iff in H2 as [H2 H3]. cbn. f_equal; [auto|]. apply IHl, H3.
  Qed.
  Lemma zeros_has_aval a : has_aval (zeros a) a = true.
  Proof.
    induction a as [v|l IH|n a IH] using aval_ind'; cbn.
    - apply av_eqb_spec, aval_zero.
    - induction IH as [|[k x] l Hx Hl IHl]; [reflexivity|]. cbn. rewrite String.eqb_refl. cbn in Hx. rewrite Hx. exact IHl.
    - rewrite repeat_length, Nat.eqb_refl. cbn. induction n; cbn; [reflexivity|]. rewrite IH. exact IHn.
  Qed.
  Lemma has_aval_dict (l : list (string * tree)) (m : list (string * aval)) :
    Forall2 (fun x y => fst x = fst y /\ has_aval (snd x) (snd y) = true) l m -> has_aval (Dict l) (AD m) = true.
  Proof.
    cbn. induction 1 as [|[k t] [k' a] l m [H1 H2] Hl IH]; [reflexivity|]. cbn in *. subst. rewrite String.eqb_refl, H2. exact IH.
  Qed.
End trees.

Section T1.
  Context {AR : Arrays}.
  Variable s : settings.

  (** what is known of the current dictionary: [lo] the value of the last effective sow *)
  Definition ok_entry (x : mode * aval) (y : tree * option bool) (lo : option tree) : Prop :=
    has_aval (fst y) (snd x) = true /\
    match snd y with
    | None => is_cond (fst x) = false /\ lo = Some (fst y)
    | Some q => is_cond (fst x) = true /\ lo = if q then Some (fst y) else None
    end.
  Definition rel (M : meta) (L : string -> option tree) (d : dict) : Prop :=
    dkeys d = dkeys M /\ (forall n x, dget M n = Some x -> exists y, dget d n = Some y /\ ok_entry x y (L n)) /\
    (forall n, dget M n = None -> L n = None).
  Definition upd (L : string -> option tree) (o : list occ) (n : string) : option tree :=
    match last_eff o n with Some v => Some v | None => L n end.

  Lemma rel_ext M L L' d : (forall n, L n = L' n) -> rel M L d -> rel M L' d.
  Proof.
    intros E (H1 & H2 & H3). split; [assumption|]. split.
    - intros n x Hn. rewrite <- E. apply H2, Hn.
    - intros n Hn. rewrite <- E. apply H3, Hn.
  Qed.
  Lemma last_eff_app o1 o2 n : last_eff (o1 ++ o2) n = match last_eff o2 n with Some v => Some v | None => last_eff o1 n end.
  Proof.
    revert o1. induction o2 as [|e o2 IH] using rev_ind; intros o1; [rewrite app_nil_r; reflexivity|].
    rewrite app_assoc. unfold last_eff in *. rewrite (fold_left_app _ (o1 ++ o2)), (fold_left_app _ o2). cbn.
    destruct (String.eqb (fst e) n && snd (snd e))%bool; [reflexivity|apply IH].
  Qed.
  Lemma upd_app L o1 o2 n : upd L (o1 ++ o2) n = upd (upd L o1) o2 n.
  Proof. unfold upd. rewrite last_eff_app. destruct (last_eff o2 n); reflexivity. Qed.
  Lemma last_eff_one k v b n : last_eff [(k, (v, b))] n = if (String.eqb k n && b)%bool then Some v else None.
  Proof. reflexivity. Qed.
  Lemma upd_none o n : upd (fun _ => None) o n = last_eff o n.
  Proof. unfold upd. destruct (last_eff o n); reflexivity. Qed.
  Lemma last_eff_none o n : (forall e, In e o -> fst e <> n) -> last_eff o n = None.
  Proof.
    induction o as [|e o IH] using rev_ind; intros H; [reflexivity|]. rewrite last_eff_app.
    destruct e as [k [v b]]. rewrite last_eff_one. assert (Hk : k <> n) by (apply (H (k, (v, b))); apply in_or_app; simpl; auto).
    apply String.eqb_neq in Hk. rewrite Hk. cbn. apply IH. intros e He. apply H, in_or_app. auto.
  Qed.

  Definition no_mix_with (M : meta) (n : string) (m : mode) : Prop := forall m0 a0, dget M n = Some (m0, a0) -> is_cond m0 = is_cond m.
  Lemma store_rel M L d n m av v pr M' :
    handle M n m av = inl M' -> no_mix_with M n m -> rel M L d -> has_aval v av = true ->
    is_cond m = (match pr with Some _ => true | None => false end) ->
    rel M' (upd L [(n, (v, match pr with Some q => q | None => true end))]) (store d n v pr).
  Proof.
    intros Hh Hm (H1 & H2 & H3) Hv Hc.
    assert (EM : M' = dset M n (m, av)) by (eapply handle_inl; exact Hh).
    assert (HK : exists y, store d n v pr = dset d n y /\ ok_entry (m, av) y (upd L [(n, (v, match pr with Some q => q | None => true end))] n)).
    { unfold store, upd. rewrite last_eff_one, String.eqb_refl. destruct pr as [q|].
      - destruct (dget d n) as [[v0 pr0]|] eqn:Ed.
        + destruct (dget M n) as [[m0 a0]|] eqn:EMn.
          * destruct (H2 _ _ EMn) as (y & Ey & Hy). rewrite Ed in Ey. injection Ey as <-.
            assert (Hm0 : is_cond m0 = true) by (rewrite <- Hc; eapply Hm; eassumption).
            destruct Hy as [Ha Hy]. cbn in Ha, Hy. destruct pr0 as [q0|]; [|destruct Hy as [Hy _]; congruence].
            destruct Hy as [_ Hy]. eexists. split; [reflexivity|].
            unfold handle in Hh. rewrite EMn in Hh. destruct (clobberish m && clobberish m0)%bool; [|discriminate].
            rewrite Hc in Hh. cbn in Hh. destruct (aval_eqb av a0) eqn:Ea; [|discriminate]. apply aval_eqb_eq in Ea. subst a0.
            split; cbn; [destruct q; assumption|]. split; [assumption|]. destruct q; cbn; [reflexivity|assumption].
          * apply dget_None_iff in EMn. rewrite <- H1 in EMn. apply dget_None_iff in EMn. congruence.
        + eexists. split; [reflexivity|]. split; cbn; [assumption|]. split; [assumption|]. destruct q; [reflexivity|]. 
          apply H3. apply dget_None_iff. rewrite <- H1. apply dget_None_iff, Ed.
      - eexists. split; [reflexivity|]. split; cbn; [assumption|]. split; [assumption|reflexivity]. }
    destruct HK as (y & -> & Hy). subst M'. split; [|split].
    - rewrite !dkeys_dset, H1. reflexivity.
    - intros k x. rewrite !dget_dset. destruct (String.eqb_spec k n) as [->|Hn].
      + intros E. injection E as <-. exists y. auto.
      + intros E. destruct (H2 _ _ E) as (z & Ez & Hz). exists z. split; [assumption|]. unfold upd. rewrite last_eff_one.
        destruct (String.eqb_spec n k) as [->|_]; [congruence|]. exact Hz.
    - intros k. rewrite dget_dset. destruct (String.eqb_spec k n) as [->|Hn]; [discriminate|]. intros E. unfold upd. rewrite last_eff_one.
      destruct (String.eqb_spec n k) as [->|_]; [congruence|]. apply H3, E.
  Qed.

  (** re-sowing: the names of [l] take the inner value, if there is an effective one *)
  Definition over (L Li : string -> option tree) (ns : list string) (n : string) : option tree :=
    if mem n ns then match Li n with Some v => Some v | None => L n end else L n.
  Lemma no_mix_dget M l n m av : no_mix (M ++ (n, (m, av)) :: l) -> no_mix_with M n m.
  Proof.
    intros H m0 a0 E. apply dget_In in E. eapply H; apply in_or_app; [left; exact E|right; simpl; left; reflexivity].
  Qed.
  Lemma In_dset {X} (l : list (string * X)) n x e : In e (dset l n x) -> e = (n, x) \/ In e l.
  Proof.
    induction l as [|[k y] l IH]; simpl; [intros [<-|[]]; auto|]. destruct (String.eqb_spec n k) as [->|Hn]; simpl; [intros [<-|?]; auto|].
    intros [<-|H]; auto. destruct (IH H); auto.
  Qed.
  Lemma no_mix_incl l l' : incl l l' -> no_mix l' -> no_mix l.
  Proof. intros Hi H n m1 a1 m2 a2 H1 H2. eapply H; apply Hi; eassumption. Qed.
  Lemma resow_rel l : all_pass s l -> NoDup (dkeys l) -> forall M M' L d Li di,
    resow_meta s M l = inl M' -> no_mix (M ++ l) -> rel M L d ->
    (forall n x, In (n, x) l -> exists y, dget di n = Some y /\ ok_entry x y (Li n)) ->
    rel M' (over L Li (dkeys l)) (resow s (dkeys l) di d).
  Proof.
    induction l as [|[n [m av]] l IH]; intros Hp Hnd M M' L d Li di H Hm Hr Hi.
    - cbn in H. injection H as <-. exact Hr.
    - cbn [resow_meta] in H. rewrite Hp in H by (simpl; auto). apply rb_inl in H as (M1 & H1 & H).
      destruct (Hi n (m, av)) as (y & Ey & Hy); [simpl; auto|]. destruct y as [v pr]. destruct Hy as [Ha Hy]. cbn in Ha, Hy.
      inversion_clear Hnd as [|? ? Hni Hnd'].
      assert (Hr1 : rel M1 (upd L [(n, (v, match pr with Some q => q | None => true end))]) (store d n v pr)).
      { eapply store_rel; try eassumption; [eapply no_mix_dget; exact Hm|]. destruct pr; tauto. }
      assert (Hm1 : no_mix (M1 ++ l)).
      { apply handle_inl in H1. subst M1. eapply no_mix_incl; [|exact Hm]. intros e He. apply in_app_or in He as [He|He].
        - apply In_dset in He as [->|He]; apply in_or_app; simpl; auto.
        - apply in_or_app; simpl; auto. }
      unfold resow. cbn [dkeys map fold_left fst]. rewrite Hp by (simpl; auto). rewrite Ey.
      eapply rel_ext; [|apply (IH (fun k Hk => Hp k (or_intror Hk)) Hnd' M1 M' _ (store d n v pr) Li di H Hm1 Hr1)].
      + intros k. unfold over. cbn [dkeys map mem existsb fst]. unfold upd. rewrite last_eff_one.
        change (existsb (String.eqb k) (map fst l)) with (mem k (dkeys l)). change (map fst l) with (dkeys l). rewrite (String.eqb_sym k n).
        destruct (String.eqb_spec n k) as [->|Hn]; cbn [orb andb].
        * assert (Hmk : mem k (dkeys l) = false) by (apply mem_not_In; exact Hni). rewrite Hmk.
          destruct pr as [[|]|]; destruct Hy as [_ ->]; reflexivity.
        * reflexivity.
      + intros k x Hk. apply Hi. simpl; auto.
  Qed.

  Lemma once_nodup (l : meta) : NoDup (dkeys (once l)).
  Proof. apply NoDup_dkeys_dmerge. constructor. Qed.
  Lemma In_dmerge {X} (l : list (string * X)) : forall M e, In e (dmerge M l) -> In e M \/ In e l.
  Proof.
    induction l as [|[k x] l IH]; intros M e; [simpl; auto|]. change (dmerge M ((k, x) :: l)) with (dmerge (dset M k x) l).
    intros H. apply IH in H as [H|H]; [|simpl; auto]. apply In_dset in H as [->|H]; simpl; auto.
  Qed.
  Lemma once_incl (l : meta) : incl (once l) l.
  Proof. intros e He. apply In_dmerge in He as [[]|He]. exact He. Qed.
  Lemma rel_nil : rel [] (fun _ => None) [].
  Proof. split; [reflexivity|]. split; [discriminate|reflexivity]. Qed.
  Lemma rel_In M L d : NoDup (dkeys M) -> rel M L d -> forall n x, In (n, x) M -> exists y, dget d n = Some y /\ ok_entry x y (L n).
  Proof. intros Hn (_ & H & _) n x Hi. apply H. apply NoDup_In_dget; assumption. Qed.
  Lemma over_upd M L o d ns n : rel M (upd (fun _ => None) o) d -> (forall k, In k (dkeys M) -> In k ns) -> over L (last_eff o) ns n = upd L o n.
  Proof.
    intros (_ & _ & H) Hi. unfold over, upd. destruct (mem n ns) eqn:E; [reflexivity|]. apply mem_not_In in E.
    assert (Hn : dget M n = None) by (apply dget_None_iff; intros K; apply E, Hi, K). apply H in Hn. rewrite upd_none in Hn. rewrite Hn. reflexivity.
  Qed.

  (** ** loops *)
  Lemma filter_nodup {X} (f : string * X -> bool) l : NoDup (dkeys l) -> NoDup (dkeys (filter f l)).
  Proof.
    induction l as [|[k x] l IH]; cbn; [auto|]. intros H. inversion_clear H as [|? ? Hn Hd]. destruct (f (k, x)); cbn; [|auto].
    constructor; [|auto]. intros Hk. apply Hn. eapply dkeys_filter. exact Hk.
  Qed.
  Lemma dget_filter {X} (f : string * X -> bool) l n x : NoDup (dkeys l) -> dget (filter f l) n = Some x <-> dget l n = Some x /\ f (n, x) = true.
  Proof.
    intros Hd. split.
    - intros H. apply dget_In, filter_In in H as [H1 H2]. split; [apply NoDup_In_dget|]; assumption.
    - intros [H1 H2]. apply NoDup_In_dget; [apply filter_nodup, Hd|]. apply filter_In. split; [apply dget_In|]; assumption.
  Qed.
  Lemma dget_map {X Y} (f : string * X -> Y) l n : dget (map (fun e => (fst e, f e)) l) n = match dget l n with Some x => Some (f (n, x)) | None => None end.
  Proof. induction l as [|[k x] l IH]; cbn; [reflexivity|]. destruct (String.eqb_spec n k) as [->|Hn]; [reflexivity|exact IH]. Qed.
  Lemma resets_last M n : NoDup (dkeys M) ->
    last_eff (resets M) n = match dget M n with Some (m, a) => if (clobberish m && negb (is_cond m))%bool then Some (zeros a) else None | None => None end.
  Proof.
    unfold resets. induction M as [|[k [m a]] M IH] using rev_ind; intros Hd; [reflexivity|].
    unfold dkeys in Hd. rewrite map_app in Hd. cbn in Hd.
    assert (Hk : ~ In k (dkeys M)). { apply NoDup_remove_2 in Hd. rewrite app_nil_r in Hd. exact Hd. }
    assert (Hd' : NoDup (dkeys M)). { apply NoDup_remove_1 in Hd. rewrite app_nil_r in Hd. exact Hd. }
    rewrite filter_app, map_app, last_eff_app, IH by assumption.
    assert (Hg : forall n, dget (M ++ [(k, (m, a))]) n = match dget M n with Some y => Some y | None => if String.eqb n k then Some (m, a) else None end).
    { clear. intros n. induction M as [|[j y] M IH]; cbn; [destruct (String.eqb n k); reflexivity|]. destruct (String.eqb n j); [reflexivity|exact IH]. }
    rewrite Hg. destruct (String.eqb_spec n k) as [->|Hn].
    - assert (Hn : dget M k = None) by (apply dget_None_iff; exact Hk). rewrite Hn. cbn. destruct (clobberish m && negb (is_cond m))%bool; cbn; [|reflexivity].
      unfold last_eff. cbn. rewrite String.eqb_refl. reflexivity.
    - assert (E : last_eff (map (fun e : string * (mode * aval) => (fst e, (zeros (snd (snd e)), true))) (filter (fun e : string * (mode * aval) => (clobberish (fst (snd e)) && negb (is_cond (fst (snd e))))%bool) [(k, (m, a))])) n = None).
      { apply last_eff_none. cbn. destruct (clobberish m && negb (is_cond m))%bool; cbn; [intros e [<-|[]]; cbn; congruence|intros e []]. }
      rewrite E. destruct (dget M n) as [[m' a']|]; reflexivity.
  Qed.
  Lemma clobberish_cond m : is_cond m = true -> clobberish m = true.
  Proof. destruct m; auto; discriminate. Qed.
  Lemma carry0_rel M : NoDup (dkeys M) -> rel (clobbers M) (last_eff (resets M)) (carry0 M).
  Proof.
    intros Hd. unfold carry0. split; [unfold dkeys; rewrite map_map; reflexivity|]. split.
    - intros n [m a] H. rewrite dget_map, H. cbn [fst snd]. eexists. split; [reflexivity|]. apply dget_filter in H; [|assumption]. destruct H as [H Hc]. cbn in Hc.
      rewrite resets_last by assumption. rewrite H, Hc. split; cbn; [apply zeros_has_aval|]. destruct (is_cond m); cbn; auto.
    - intros n H. rewrite resets_last by assumption. destruct (dget M n) as [[m a]|] eqn:E; [|reflexivity].
      destruct (clobberish m) eqn:Ec; [|reflexivity]. exfalso.
      assert (Hx : dget (clobbers M) n = Some (m, a)) by (apply dget_filter; auto). congruence.
  Qed.
  Lemma last_eff_filter M o n : last_eff (filter (in_names M) o) n = if mem n (dkeys M) then last_eff o n else None.
  Proof.
    induction o as [|[k [v b]] o IH] using rev_ind; [destruct (mem n (dkeys M)); reflexivity|].
    rewrite filter_app, !last_eff_app. cbn [filter]. unfold in_names at 1. cbn [fst]. destruct (mem k (dkeys M)) eqn:E.
    - rewrite last_eff_one, IH. destruct (String.eqb_spec k n) as [->|Hn]; [rewrite E; destruct b; reflexivity|]. destruct (mem n (dkeys M)); reflexivity.
    - rewrite IH, last_eff_one. destruct (String.eqb_spec k n) as [->|Hn]; [rewrite E; reflexivity|]. destruct (mem n (dkeys M)); reflexivity.
  Qed.
  Lemma dset_same {X} (l : list (string * X)) k x : dget l k = Some x -> dset l k x = l.
  Proof. induction l as [|[j y] l IH]; cbn; [discriminate|]. destruct (String.eqb_spec k j) as [->|Hn]; [intros H; injection H as <-; reflexivity|]. intros H. rewrite IH; auto. Qed.
  (** one iteration's update of the carried dictionary: [mo] gives the mode used for each entry *)
  Lemma carry_step_rel (mo : string * (mode * aval) -> mode) Mb D o carry L : NoDup (dkeys Mb) ->
    rel Mb (last_eff o) D -> rel (clobbers Mb) L carry ->
    (forall e, In e (clobbers Mb) -> is_cond (mo e) = is_cond (fst (snd e))) ->
    rel (clobbers Mb) (upd L (filter (in_names (clobbers Mb)) o)) (fold_left (fun c e => update_carry (mo e) (fst e) D c) (clobbers Mb) carry).
  Proof.
    intros Hd HD Hc Hmo.
    assert (Hlo : forall n, last_eff (filter (in_names (clobbers Mb)) o) n = if mem n (dkeys (clobbers Mb)) then last_eff o n else None)
      by (intros n; apply last_eff_filter).
    destruct Hc as (Hc1 & Hc2 & Hc3). destruct HD as (HD1 & HD2 & HD3).
    (* entries of a suffix are still to be updated *)
    assert (Hgen : forall l done c, clobbers Mb = done ++ l -> dkeys c = dkeys (clobbers Mb) ->
      (forall n x, dget (clobbers Mb) n = Some x -> exists y, dget c n = Some y /\
          ok_entry x y (if mem n (dkeys done) then match last_eff o n with Some v => Some v | None => L n end else L n)) ->
      forall c', c' = fold_left (fun c e => update_carry (mo e) (fst e) D c) l c -> dkeys c' = dkeys (clobbers Mb) /\
      (forall n x, dget (clobbers Mb) n = Some x -> exists y, dget c' n = Some y /\
          ok_entry x y (match last_eff o n with Some v => Some v | None => L n end))).
    { induction l as [|[k [m a]] l IH]; intros done c El Ek Hx c' ->; cbn [fold_left].
      - rewrite app_nil_r in El. split; [assumption|]. intros n x Hn. destruct (Hx _ _ Hn) as (y & Hy & Ho). exists y. split; [assumption|].
        assert (E : mem n (dkeys done) = true). { apply mem_In. rewrite <- El. eapply dget_In_keys; exact Hn. }
        rewrite E in Ho. exact Ho.
      - assert (Hndc : NoDup (dkeys (clobbers Mb))) by (apply filter_nodup, Hd).
        assert (Hin : In (k, (m, a)) (clobbers Mb)) by (rewrite El; apply in_or_app; simpl; auto).
        assert (Hgc : dget (clobbers Mb) k = Some (m, a)) by (apply NoDup_In_dget; assumption).
        assert (HgM : dget Mb k = Some (m, a)) by (apply dget_filter in Hgc; tauto).
        assert (Hnk : mem k (dkeys done) = false).
        { apply mem_not_In. rewrite El in Hndc. unfold dkeys in Hndc. rewrite map_app in Hndc. cbn in Hndc. apply NoDup_remove_2 in Hndc.
          intros K. apply Hndc, in_or_app. left. exact K. }
        destruct (Hx _ _ Hgc) as ([v0 pr0] & Ev0 & Hv0). rewrite Hnk in Hv0. destruct (HD2 _ _ HgM) as ([v pr] & Ev & Hv).
        assert (Hcd : is_cond (mo (k, (m, a))) = is_cond m) by (apply (Hmo (k, (m, a))), Hin).
        assert (HK : exists y, update_carry (mo (k, (m, a))) (fst (k, (m, a))) D c = dset c k y /\ ok_entry (m, a) y (match last_eff o k with Some v => Some v | None => L k end)).
        { unfold update_carry. cbn [fst]. rewrite Ev, Ev0, Hcd. destruct Hv as [Ha Hv], Hv0 as [Ha0 Hv0]. cbn [fst snd] in *. destruct (is_cond m) eqn:Em.
          - destruct pr as [q|]; [|destruct Hv; discriminate]. destruct Hv as [_ Hv]. rewrite Hv. destruct q.
            + eexists. split; [reflexivity|]. split; cbn; auto.
            + exists (v0, pr0). split; [|split; cbn; [assumption|]; destruct pr0; [rewrite Em; exact Hv0|destruct Hv0; discriminate]].
              symmetry. apply dset_same, Ev0.
          - destruct pr as [q|]; [destruct Hv; discriminate|]. destruct Hv as [_ Hv]. rewrite Hv. destruct pr0; [destruct Hv0; discriminate|].
            eexists. split; [reflexivity|]. split; cbn; auto. }
        destruct HK as (y & -> & Hy).
        apply (IH (done ++ [(k, (m, a))]) (dset c k y)); [rewrite <- app_assoc; exact El| | |reflexivity].
        + rewrite dkeys_dset. assert (E : mem k (dkeys c) = true) by (apply mem_In; eapply dget_In_keys; exact Ev0). rewrite E. exact Ek.
        + intros n x Hn. rewrite dget_dset. unfold dkeys. rewrite map_app. cbn [map fst]. unfold mem. rewrite existsb_app. cbn [existsb]. rewrite orb_false_r.
          fold (dkeys done). fold (mem n (dkeys done)). destruct (String.eqb_spec n k) as [->|Hne].
          * exists y. split; [reflexivity|]. rewrite orb_true_r. rewrite Hgc in Hn. injection Hn as <-. exact Hy.
          * rewrite orb_false_r. apply Hx, Hn. }
    destruct (Hgen (clobbers Mb) [] carry eq_refl Hc1 Hc2 _ eq_refl) as [G1 G2]. split; [exact G1|]. split.
    - intros n x Hn. destruct (G2 _ _ Hn) as (y & Hy & Ho). exists y. split; [assumption|]. unfold upd. rewrite Hlo.
      assert (E : mem n (dkeys (clobbers Mb)) = true) by (apply mem_In; eapply dget_In_keys; exact Hn). rewrite E. exact Ho.
    - intros n Hn. unfold upd. rewrite Hlo. assert (E : mem n (dkeys (clobbers Mb)) = false) by (apply mem_not_In, dget_None_iff, Hn). rewrite E. apply Hc3, Hn.
  Qed.

  Lemma app_assoc4 {X} (a b c : list X) : (a ++ b) ++ c = a ++ b ++ c.
  Proof. symmetry. apply app_assoc. Qed.
  Lemma last_entry_In M e : last_entry M = Some e -> In e M.
  Proof.
    unfold last_entry. assert (H : forall l acc, fold_left (fun acc e => match acc with None => Some e | Some f => if String.ltb (fst f) (fst e) then Some e else Some f end) l acc = Some e -> acc = Some e \/ In e l).
    { induction l as [|x l IH]; intros acc; cbn; [auto|]. intros H. apply IH in H as [H|H]; [|auto]. destruct acc as [f|].
      - destruct (String.ltb (fst f) (fst x)); auto. injection H as ->. auto.
      - injection H as ->. auto. }
    intros He. apply H in He as [He|He]; [discriminate|exact He].
  Qed.
  Lemma last_entry_cons e M : exists x, last_entry (e :: M) = Some x.
  Proof.
    unfold last_entry. cbn [fold_left]. generalize e as x. induction M as [|y M IH]; intros x; cbn; [eauto|].
    destruct (String.ltb (fst x) (fst y)); apply IH.
  Qed.
  Lemma last_mode_no_cond M : no_cond M -> is_cond (last_mode M) = false.
  Proof.
    intros H. unfold last_mode. destruct (last_entry M) as [[n [m a]]|] eqn:E; [|reflexivity]. apply last_entry_In in E. eapply H; exact E.
  Qed.
  Lemma last_mode_all_cond M e : all_cond M -> In e M -> is_cond (last_mode M) = true.
  Proof.
    intros H He. destruct M as [|x M]; [destruct He|]. unfold last_mode. destruct (last_entry_cons x M) as ([n [m a]] & E). rewrite E.
    apply last_entry_In in E. eapply H; exact E.
  Qed.
  Lemma filter_concat {X} (f : X -> bool) (l : list (list X)) : filter f (List.concat l) = List.concat (map (filter f) l).
  Proof. induction l as [|x l IH]; cbn; [reflexivity|]. rewrite filter_app, IH. reflexivity. Qed.

  Lemma stacks_last M os n : NoDup (dkeys M) ->
    last_eff (stacks M os) n = match dget (appends M) n with Some _ => Some (Stk (map (occ_value n) os)) | None => None end.
  Proof.
    intros Hd. unfold stacks. assert (Ha : NoDup (dkeys (appends M))) by (apply filter_nodup, Hd). revert Ha. generalize (appends M) as l. clear.
    induction l as [|[k x] l IH]; intros Hd; cbn [map dget]; [reflexivity|]. inversion_clear Hd as [|? ? Hn Hd'].
    change (?a :: ?b) with ([a] ++ b). rewrite last_eff_app, IH by assumption. cbn [fst]. rewrite last_eff_one, (String.eqb_sym k n).
    destruct (String.eqb_spec n k) as [->|Hne]; cbn; [|destruct (dget l n); reflexivity].
    assert (E : dget l k = None) by (apply dget_None_iff; exact Hn). rewrite E. reflexivity.
  Qed.
  Lemma resow_meta_app M l l' : resow_meta s M (l ++ l') = rb (resow_meta s M l) (fun M1 => resow_meta s M1 l').
  Proof.
    revert M. induction l as [|[n [m av]] l IH]; intros M; [reflexivity|]. cbn [app resow_meta].
    destruct (if passes s n then handle M n m av else inl M); cbn [rb]; [apply IH|reflexivity].
  Qed.
  Lemma dget_stack_meta len M n : dget (stack_meta len M) n = match dget M n with Some x => Some (fst x, AS len (snd x)) | None => None end.
  Proof. unfold stack_meta. rewrite (dget_map (fun e => (fst (snd e), AS len (snd (snd e))))). destruct (dget M n); reflexivity. Qed.
  Lemma check_branch_spec M0 M1 n x : NoDup (dkeys M1) -> check_branch M0 M1 = inl tt -> dget M1 n = Some x ->
    exists m0, dget M0 n = Some (m0, snd x) /\ is_cond (fst x) = is_cond m0.
  Proof.
    induction M1 as [|[k [m av]] M1 IH]; [discriminate|]. intros Hd. inversion_clear Hd as [|? ? Hk Hd'].
    cbn [check_branch dget]. destruct (dget M0 k) as [[m0 av0]|] eqn:E; [|discriminate].
    destruct (is_array av && is_array av0)%bool; [|discriminate]. destruct (aval_eqb av av0) eqn:Ea; [|discriminate].
    destruct (Bool.eqb (is_cond m) (is_cond m0)) eqn:Em; [|discriminate]. intros H. destruct (String.eqb_spec n k) as [->|Hn].
    - intros Hx. injection Hx as <-. exists m0. apply aval_eqb_eq in Ea. subst. split; [assumption|]. apply Bool.eqb_prop, Em.
    - apply IH; assumption.
  Qed.
  Lemma check_branches_spec M0 M1 : NoDup (dkeys M0) -> NoDup (dkeys M1) -> check_branches M0 M1 = inl tt ->
    (forall n, dget M0 n = None -> dget M1 n = None) /\
    (forall n m0 a, dget M0 n = Some (m0, a) -> exists m1, dget M1 n = Some (m1, a) /\ is_cond m1 = is_cond m0).
  Proof.
    unfold check_branches. intros H0 H1 H. destruct (Nat.eqb_spec (List.length M1) (List.length M0)) as [El|]; [|discriminate].
    assert (Hi : forall n, dget M0 n = None -> dget M1 n = None).
    { intros n Hn. destruct (dget M1 n) as [x|] eqn:E; [|reflexivity]. destruct (check_branch_spec _ _ _ _ H1 H E) as (m0 & Hm & _). congruence. }
    split; [assumption|]. intros n m0 a Hn. destruct (dget M1 n) as [x|] eqn:E.
    - destruct (check_branch_spec _ _ _ _ H1 H E) as (m1 & Hm & Hc). rewrite Hn in Hm. injection Hm as <- Ea. exists (fst x). destruct x as [m1 a1]. cbn in *. subst. auto.
    - exfalso. assert (Hincl : incl (dkeys M0) (dkeys M1)).
      { apply NoDup_length_incl; [assumption| |].
        - unfold dkeys. rewrite !map_length. lia.
        - intros k Hk. apply In_dkeys_dget in Hk as (x & Hk). destruct (dget M0 k) eqn:Ek; [eapply dget_In_keys; exact Ek|]. apply Hi in Ek. congruence. }
      apply dget_None_iff in E. apply E, Hincl. eapply dget_In_keys; exact Hn.
  Qed.

  Lemma scan_loop_length {C X Y} (f : C * X -> res (C * Y)) xs : forall c c' ys, scan_loop f c xs = inl (c', ys) -> List.length ys = List.length xs.
  Proof.
    induction xs as [|x xs IH]; intros c c' ys H; cbn in H; [injection H as <- <-; reflexivity|].
    apply rb_inl in H as ([c1 y] & _ & H). apply rb_inl in H as ([c2 ys2] & H2 & H). injection H as <- <-. cbn. f_equal. eapply IH, H2.
  Qed.
  Definition good (M' : meta) L {B} (r : B * list occ) (r' : B * dict) : Prop := fst r' = fst r /\ rel M' (upd L (snd r)) (snd r').
  Lemma good_post {B D W U} (R : U -> W -> Prop) (Q : B * list occ -> B * dict -> Prop) (x : res (B * list occ)) (y : res (B * dict)) (d : D) (f : (B * dict) * D -> res W) (g : B * list occ -> res U) :
    rel_res Q x y -> (forall r r', Q r r' -> rel_res R (g r) (f (r', d))) -> rel_res R (rb x g) (rb (rb y (fun b => inl (b, d))) f).
  Proof. destruct x, y; cbn; try tauto. intros H K. apply K, H. Qed.
  Lemma rb_ret {X} (x : res X) : x = rb x (fun r => inl r).
  Proof. destruct x; reflexivity. Qed.

  Lemma scan_plants_nil M len : scan_plants M len [] = inl (repeat [] len).
  Proof. unfold scan_plants. cbn. f_equal. induction len; cbn; [reflexivity|]. f_equal. exact IHlen. Qed.
  Lemma combine_nil_Forall2 {X} len (xs : list X) : List.length xs = len ->
    Forall2 (fun (xp : X * plants) x => fst xp = x /\ snd xp = []) (combine xs (repeat [] len)) xs.
  Proof. intros <-. induction xs as [|x xs IH]; cbn; constructor; auto. Qed.
  Lemma rev_if_concat_id {X} r (l : list X) : rev_if r (rev_if r l) = l.
  Proof. apply rev_if_invol. Qed.

  Theorem reapT_sem fuel {A B} (p : prog A B) : forall M M' p' L d a,
    reapT s p M = inl (M', p') -> tame s p [] -> no_mix (M ++ sites s p []) -> NoDup (dkeys M) -> rel M L d ->
    rel_res (good M' L) (sem s fuel p [] a) (run fuel p' (a, d)).
  Proof.
    induction p as [A B f|A B C p IHp q IHq|A B C p IHp|t n m av|t n av|A B sc p IHp|A B p IHp|C X Y rv len p IHp|C c p IHp|A B p IHp q IHq];
      intros M M' p' L d a H Ht Hm Hd Hr.
    - cbn [reapT] in H. injection H as <- <-. cbn. destruct (f a); cbn; [|reflexivity]. split; [reflexivity|exact Hr].
    - cbn [reapT sites2] in *. apply rb_inl in H as ([M1 p1] & H1 & H). apply rb_inl in H as ([M2 q1] & H2 & H). injection H as <- <-. cbn [sem2 run fst snd] in *.
      destruct Ht as [Ht1 Ht2].
      assert (EM := reapT_meta s p _ _ _ H1). cbn [fst] in EM.
      eapply rel_res_rb; [eapply (IHp _ _ _ L d a H1); try assumption|].
      + eapply no_mix_incl; [|exact Hm]. intros e He. apply in_app_or in He as [He|He]; apply in_or_app; [auto|]. right. apply in_or_app. auto.
      + intros [b o] [b' d'] [E Hr']. cbn in E. subst b'. cbn [fst snd] in *.
        rewrite (rb_ret (run fuel q1 (b, d'))). eapply rel_res_rb; [eapply (IHq _ _ _ _ d' b H2); try eassumption|].
        * eapply no_mix_incl; [|exact Hm]. intros e He. apply in_app_or in He as [He|He].
          -- rewrite EM in He. apply In_dmerge in He as [He|He]; apply in_or_app; [auto|]. right. apply in_or_app. auto.
          -- apply in_or_app. right. apply in_or_app. auto.
        * rewrite EM. apply NoDup_dkeys_dmerge, Hd.
        * intros [b2 o2] [b2' d2] [E2 Hr2]. split; [exact E2|]. cbn [snd] in *. eapply rel_ext; [|exact Hr2]. intros k. rewrite upd_app. reflexivity.
    - cbn [reapT sites2 tame2] in *. apply rb_inl in H as ([M1 p1] & H1 & H). injection H as <- <-. destruct a as [a c]. cbn [sem2 run rb fst snd swap].
      specialize (IHp _ _ _ L d a H1 Ht Hm Hd Hr). destruct (sem s fuel p [] a) as [[b o]|], (run fuel p1 (a, d)) as [[b' d']|]; cbn in *; try tauto.
      destruct IHp as [E IHp]. cbn in E, IHp. subst b'. split; [reflexivity|exact IHp].
    - cbn [reapT sites2 tame2] in *. destruct (is_cond m) eqn:Em; [discriminate|]. unfold site_here, seen in Hm. cbn [sem2 run]. rewrite Em. unfold at_sow, seen.
      destruct (String.eqb t (tag_of s)) eqn:Et; [destruct (passes s n) eqn:Ep|destruct (exclusive s)]; cbn [andb negb haskey dget] in *.
      + apply rb_inl in H as (M1 & H1 & H). injection H as <- <-. cbn. unfold chk. destruct (has_aval a av) eqn:Ea; cbn [rb rel_res]; [|reflexivity].
        split; [reflexivity|]. cbn [snd]. destruct m.
        4: discriminate.
        all: eapply (store_rel M L d n _ av a None); try eassumption; try reflexivity; eapply no_mix_dget; exact Hm.
      + injection H as <- <-. cbn. unfold chk. destruct (has_aval a av); cbn; [|reflexivity]. split; [reflexivity|exact Hr].
      + injection H as <- <-. cbn. unfold chk. destruct (has_aval a av); cbn; [|reflexivity]. split; [reflexivity|exact Hr].
      + injection H as <- <-. cbn. rewrite Em. unfold chk. destruct (has_aval a av); cbn; [|reflexivity]. split; [reflexivity|exact Hr].
    - cbn [reapT sites2 tame2] in *. unfold site_here, seen in Hm. cbn [sem2 run]. unfold at_sow, seen. destruct a as [a q].
      destruct (String.eqb t (tag_of s)) eqn:Et; [destruct (passes s n) eqn:Ep|destruct (exclusive s)]; cbn [andb negb haskey dget] in *.
      + apply rb_inl in H as (M1 & H1 & H). injection H as <- <-. cbn. unfold chk. destruct (has_aval a av) eqn:Ea; cbn [rb rel_res]; [|reflexivity].
        split; [reflexivity|]. cbn [snd]. eapply (store_rel M L d n CondClobber av a (Some q)); try eassumption; try reflexivity; eapply no_mix_dget; exact Hm.
      + injection H as <- <-. cbn. unfold chk. destruct (has_aval a av); cbn; [|reflexivity]. split; [reflexivity|exact Hr].
      + injection H as <- <-. cbn. unfold chk. destruct (has_aval a av); cbn; [|reflexivity]. split; [reflexivity|exact Hr].
      + injection H as <- <-. cbn. unfold chk. destruct (has_aval a av); cbn; [|reflexivity]. split; [reflexivity|exact Hr].
    - cbn [reapT sites2 tame2] in *. change (sub [] sc) with (@nil (string * tree)) in *. destruct Ht as [Ht Hnc].
      apply rb_inl in H as ([M1 p1] & H1 & H). apply rb_inl in H as (M2 & H2 & H). injection H as <- <-. cbn [fst snd] in *.
      cbn [sem2 run rb fst snd]. change (sub [] sc) with (@nil (string * tree)). cbn [rb].
      assert (EM := reapT_meta s p _ _ _ H1). change (dmerge [] (sites s p [])) with (once (sites s p [])) in EM.
      assert (Hnd : NoDup (dkeys M1)) by (rewrite EM; apply once_nodup).
      eapply good_post; [eapply (IHp _ _ _ _ [] a H1 Ht); [|constructor|apply rel_nil]|].
      { intros n0 m1 a1 m2 a2 I1 I2. apply Hnc in I1, I2. congruence. }
      intros [b o] [b' d'] [E Hr']. cbn [fst snd] in *. subst b'.
      unfold scope_site. destruct M1 as [|e0 M1'] eqn:EM1.
      { symmetry in EM. apply (proj1 (once_nil _)) in EM. rewrite EM. injection H2 as <-. split; [reflexivity|]. exact Hr. }
      destruct (sites s p []) as [|e1 l1] eqn:Es; [discriminate|]. rewrite <- Es in *.
      rewrite <- EM1 in *. clear EM1 e0 M1'. rewrite <- EM.
      cbn [resow_meta rb resow fold_left] in *. rewrite String.eqb_refl in *. destruct (passes s sc) eqn:Ep; [|injection H2 as <-; split; [reflexivity|exact Hr]].
      apply rb_inl in H2 as (M3 & H2 & H3). injection H3 as <-. split; [reflexivity|]. cbn [snd map fst dget].
      assert (Ev : map (fun e => (fst e, fst (snd e))) d' = collect M1 o /\
                   has_aval (Dict (collect M1 o)) (AD (map (fun e => (fst e, snd (snd e))) M1)) = true).
      { destruct Hr' as (K1 & K2 & K3).
        assert (Hin : forall k x, In (k, x) M1 -> exists v, dget d' k = Some (v, None) /\ last_eff o k = Some v /\ has_aval v (snd x) = true).
        { intros k [m av] Hk. destruct (K2 k (m, av)) as ([v pr] & Ev & Ha & Hv); [apply NoDup_In_dget; assumption|]. cbn in Ha, Hv. rewrite upd_none in Hv.
          assert (Hcf : is_cond m = false). { rewrite EM in Hk. apply once_incl in Hk. eapply Hnc; exact Hk. }
          destruct pr as [q|]; [destruct Hv; congruence|]. destruct Hv as [_ Hv]. exists v. auto. }
        split.
        - assert (Hd' : NoDup (dkeys d')) by (rewrite K1; exact Hnd).
          clear -K1 Hin Hd'. unfold collect. revert d' K1 Hin Hd'. induction M1 as [|[k x] M1 IH]; intros [|[k' [v pr]] d'] K1 Hin Hd'; try discriminate; [reflexivity|].
          cbn in K1. injection K1 as -> K1. cbn [map fst snd]. destruct (Hin k x) as (w & G1 & G2 & G3); [simpl; auto|]. cbn in G1. rewrite String.eqb_refl in G1.
          injection G1 as -> ->. rewrite G2. f_equal. inversion_clear Hd' as [|? ? Hnk Hd2]. apply (IH d' K1); [|exact Hd2].
          intros k2 x2 Hk2. destruct (Hin k2 x2) as (w2 & G4 & G5); [simpl; auto|]. exists w2. split; [|exact G5]. cbn in G4.
          destruct (String.eqb_spec k2 k) as [->|]; [|exact G4]. exfalso. apply Hnk. apply (in_map fst) in Hk2. unfold dkeys in *. rewrite K1. exact Hk2.
        - apply has_aval_dict. unfold collect. clear -Hin. induction M1 as [|[k x] M1 IH]; cbn [map]; constructor.
          + cbn. split; [reflexivity|]. destruct (Hin k x) as (w & _ & -> & G3); [simpl; auto|]. exact G3.
          + apply IH. intros k2 x2 Hk2. apply Hin. simpl; auto. }
      destruct Ev as [Ev1 Ev2]. rewrite Ev1. unfold scope_site in Hm. rewrite Es in Hm. rewrite <- Es, Ep, <- EM in Hm.
      eapply (store_rel M L d sc Strict _ _ None); [exact H2| |exact Hr|exact Ev2|reflexivity]. eapply no_mix_dget; exact Hm.
    - cbn [reapT sites2 tame2] in *. destruct Ht as [Ht Hm0]. apply rb_inl in H as ([M1 p1] & H1 & H). apply rb_inl in H as (M2 & H2 & H). injection H as <- <-. cbn [fst snd] in *.
      assert (EM := reapT_meta s p _ _ _ H1). change (dmerge [] (sites s p [])) with (once (sites s p [])) in EM.
      cbn [sem2 run rb fst snd]. rewrite (rb_ret (sem s fuel p [] a)). eapply good_post; [eapply (IHp _ _ _ _ [] a H1 Ht); [exact Hm0|constructor|apply rel_nil]|].
      intros [b o] [b' d'] [E Hr']. cbn [fst snd] in *. subst b'. split; [reflexivity|]. cbn [snd]. rewrite <- EM in Hm.
      assert (Hnd : NoDup (dkeys M1)) by (rewrite EM; apply once_nodup).
      eapply rel_ext; [|eapply (resow_rel M1); try eassumption; [rewrite EM; apply once_pass, sites_pass|apply rel_In; eassumption]].
      intros k. rewrite <- (over_upd M1 L o d' (dkeys M1) k Hr' (fun _ h => h)). unfold over. destruct (mem k (dkeys M1)); [rewrite upd_none|]; reflexivity.
    - (* scan *) cbn [reapT sites2 tame2] in *. change (body_plants (once (sites s p [])) []) with (@nil (string * tree)) in *. destruct Ht as [Ht Hmix]. apply rb_inl in H as ([M1 p1] & H1 & H). cbv zeta in H. cbn [fst snd] in H.
      destruct (existsb (fun e => is_strict (fst (snd e))) M1) eqn:Ex in H; [discriminate|].
      destruct (is_cond (last_mode M1) && _)%bool eqn:Ex2 in H; [discriminate|]. apply rb_inl in H as (M2 & H2 & H). injection H as <- <-.
      assert (EM := reapT_meta s p _ _ _ H1). change (dmerge [] (sites s p [])) with (once (sites s p [])) in EM.
      assert (Hnd : NoDup (dkeys M1)) by (rewrite EM; apply once_nodup). cbv zeta in Hm. rewrite <- EM in Hm.
      assert (Hm0 : no_mix (sites s p [])).
      { intros n0 m1 a1 m2 a2 I1 I2. destruct Hmix as [K|K]; apply K in I1, I2; congruence. }
      assert (Hlm : forall e, In e (clobbers M1) -> is_cond (last_mode M1) = is_cond (fst (snd e))).
      { intros [k [m0 a0]] He. apply filter_In in He as [He _]. cbn [fst snd]. destruct Hmix as [K|K].
        - assert (K' : no_cond M1) by (rewrite EM; intros n0 m1 a1 I1; apply once_incl in I1; eapply K; exact I1).
          rewrite (last_mode_no_cond _ K'). symmetry. eapply K'; exact He.
        - assert (K' : all_cond M1) by (rewrite EM; intros n0 m1 a1 I1; apply once_incl in I1; eapply K; exact I1).
          rewrite (last_mode_all_cond _ _ K' He). symmetry. eapply K'; exact He. }
      destruct a as [c0 xs]. cbn [sem2 run rb fst snd]. change (body_plants (once (sites s p [])) []) with (@nil (string * tree)). rewrite scan_plants_nil, <- EM. cbn [rb]. unfold scan_sem. cbn [fst snd].
      destruct (Nat.eqb_spec (List.length xs) len) as [El|]; [|reflexivity].
      rewrite combine_length, repeat_length, El, Nat.min_id, Nat.eqb_refl.
      match goal with |- rel_res _ (rb (rb (scan_loop ?f ?c ?l) _) _) (rb (rb (rb (scan_loop ?g ?z ?l') _) _) _) =>
        pose proof (scan_loop_hist f g
          (fun h (c : C) (c' : C * dict) => fst c' = c /\ rel (clobbers M1) (last_eff (resets M1 ++ filter (in_names (clobbers M1)) (List.concat h))) (snd c'))
          (fun (xp : X * plants) (x : X) => fst xp = x /\ snd xp = [])
          (fun (yo : Y * list occ) (yd : Y * dict) => fst yd = fst yo /\ rel M1 (last_eff (snd yo)) (snd yd))) as HL;
        specialize (fun h1 h2 h3 => HL h1 l l' [] c z h2 h3) end.
      match type of HL with ?P -> _ => assert (HP : P) end.
      { intros h c [c' cr] [x pl] x' [E Hcr] [Ex1 Epl]. cbn [fst snd] in E, Hcr, Ex1, Epl. subst c' x' pl. cbn [rb fst snd].
        eapply good_post; [eapply (IHp _ _ _ _ [] (c, x) H1 Ht Hm0); [constructor|apply rel_nil]|].
        intros [[c2 y2] o2] [[c2' y2'] d2] [E Hr']. cbn [fst snd] in *. injection E as -> ->. cbn [rel_res fst snd].
        assert (Hr2 : rel M1 (last_eff o2) d2) by (eapply rel_ext; [|exact Hr']; intros k; apply upd_none).
        split; [|split; [reflexivity|exact Hr2]]. split; [reflexivity|]. unfold scan_carry.
        eapply rel_ext; [|exact (carry_step_rel (fun _ => last_mode M1) M1 d2 o2 cr _ Hnd Hr2 Hcr Hlm)].
        intros k. rewrite concat_app, filter_app, app_assoc. cbn [List.concat]. rewrite app_nil_r, (last_eff_app (resets M1 ++ _)). reflexivity. }
      specialize (HL HP). clear HP.
      match type of HL with ?P -> _ => assert (HP : P) end.
      { split; [reflexivity|]. cbn [snd List.concat filter]. rewrite app_nil_r. apply carry0_rel, Hnd. }
      specialize (HL HP). clear HP. specialize (HL (Forall2_rev_if _ rv _ _ (combine_nil_Forall2 len xs El))). revert HL.
      match goal with |- rel_res _ (scan_loop ?f ?c ?l) _ -> _ => assert (HLen : forall c1 ys, scan_loop f c l = inl (c1, ys) -> List.length ys = len) end.
      { intros c1 ys Hs. apply scan_loop_length in Hs. rewrite Hs, rev_if_length, combine_length, repeat_length. lia. }
      revert HLen.
      match goal with |- _ -> rel_res _ ?u ?v -> _ => destruct u as [[c1 yos]|] eqn:Eu, v as [[[c2 cr] yds]|] eqn:Ev end; cbn [rel_res rb fst snd]; try tauto.
      intros HLen [[E Hcr] HF]. specialize (HLen _ _ eq_refl). subst c2. cbn [app] in Hcr. 
      assert (Emap : map fst (rev_if rv yds) = map fst (rev_if rv yos)).
      { rewrite <- !rev_if_map. f_equal. clear -HF. induction HF as [|? ? ? ? [? ?]]; cbn; congruence. }
      split; [cbn; rewrite Emap; reflexivity|]. cbn [snd].
      set (os := map snd (rev_if rv yos)) in *. set (Ds := map snd (rev_if rv yds)) in *.
      assert (Eos : rev_if rv os = map snd yos) by (unfold os; rewrite rev_if_map, rev_if_invol; reflexivity). rewrite Eos.
      assert (HF2 : Forall2 (fun o D => rel M1 (last_eff o) D) os Ds).
      { apply Forall2_rev_if with (r := rv) in HF. unfold os, Ds. clear -HF. induction HF as [|? ? ? ? [? ?]]; cbn; constructor; auto. }
      assert (HDs : List.length os = len) by (unfold os; rewrite map_length, rev_if_length; exact HLen).
      rewrite resow_meta_app in H2. apply rb_inl in H2 as (M3 & H2 & H3).
      assert (Hpc : all_pass s (clobbers M1)) by (intros k Hk; apply dkeys_filter in Hk; rewrite EM in Hk; revert Hk; apply once_pass, sites_pass).
      assert (Hpa : all_pass s (stack_meta len (appends M1))) by (intros k Hk; rewrite dkeys_stack_meta in Hk; apply dkeys_filter in Hk; rewrite EM in Hk; revert Hk; apply once_pass, sites_pass).
      assert (Hr3 : rel M3 (over L (last_eff (resets M1 ++ filter (in_names (clobbers M1)) (List.concat (map snd yos)))) (dkeys (clobbers M1))) (resow s (dkeys (clobbers M1)) cr d)).
      { eapply (resow_rel (clobbers M1)); try eassumption.
        - apply filter_nodup, Hnd.
        - eapply no_mix_incl; [|exact Hm]. intros e He. apply in_app_or in He as [He|He]; apply in_or_app; [auto|]. right. apply in_or_app. auto.
        - apply rel_In; [apply filter_nodup, Hnd|exact Hcr]. }
      assert (Hr4 : rel M2 (over (over L (last_eff (resets M1 ++ filter (in_names (clobbers M1)) (List.concat (map snd yos)))) (dkeys (clobbers M1))) (last_eff (stacks M1 os)) (dkeys (stack_meta len (appends M1))))
                           (resow s (dkeys (stack_meta len (appends M1))) (stacked M1 Ds) (resow s (dkeys (clobbers M1)) cr d))).
      { eapply (resow_rel (stack_meta len (appends M1))); try eassumption.
        - rewrite dkeys_stack_meta. apply filter_nodup, Hnd.
        - apply resow_meta_inl in H2; [|exact Hpc]. subst M3. eapply no_mix_incl; [|exact Hm]. intros e He. apply in_app_or in He as [He|He].
          + apply In_dmerge in He as [He|He]; apply in_or_app; [auto|]. right. apply in_or_app. auto.
          + apply in_or_app; right; apply in_or_app; auto.
        - intros n0 x0 Hin. apply NoDup_In_dget in Hin; [|rewrite dkeys_stack_meta; apply filter_nodup, Hnd]. rewrite dget_stack_meta in Hin.
          destruct (dget (appends M1) n0) as [[m1 a1]|] eqn:Ea; [|discriminate]. injection Hin as <-. unfold stacked.
          rewrite (dget_map (fun e => (Stk (map (fun D => value_of D (fst e)) Ds), None))), Ea. eexists. split; [reflexivity|]. cbn [fst].
          rewrite stacks_last by exact Hnd. rewrite Ea. apply dget_filter in Ea; [|exact Hnd]. destruct Ea as [Ea Eap]. cbn in Eap.
          assert (Hnc : is_cond m1 = false) by (destruct m1; auto; discriminate).
          assert (Hv : map (fun D => value_of D n0) Ds = map (occ_value n0) os /\ forallb (fun t => has_aval t a1) (map (occ_value n0) os) = true).
          { clear -HF2 Ea Hnc. induction HF2 as [|o D os Ds Hh Ht IH]; [auto|]. destruct IH as [IH1 IH2]. destruct Hh as (_ & K & _).
            destruct (K _ _ Ea) as ([v pr] & Hg & Hav & Hv). cbn in Hav, Hv. destruct pr; [destruct Hv; congruence|]. destruct Hv as [_ Hv].
            cbn [map forallb]. unfold value_of at 1. unfold occ_value at 1 3. rewrite Hg, Hv, IH1, Hav. auto. }
          destruct Hv as [Hv1 Hv2]. unfold ok_entry. cbn [fst snd has_aval]. rewrite Hv1, Hv2, map_length, HDs, Nat.eqb_refl. auto. }
      rewrite dkeys_stack_meta in Hr4. eapply rel_ext; [|exact Hr4].
      intros k. rewrite app_assoc, upd_app. unfold over at 1. unfold upd at 1.
      assert (Hover : over L (last_eff (resets M1 ++ filter (in_names (clobbers M1)) (List.concat (map snd yos)))) (dkeys (clobbers M1)) k
                      = upd L (resets M1 ++ filter (in_names (clobbers M1)) (List.concat (map snd yos))) k).
      { unfold over, upd. destruct (mem k (dkeys (clobbers M1))) eqn:Ek; [reflexivity|]. apply mem_not_In in Ek. destruct Hcr as (_ & _ & K).
        cbn [snd] in K. rewrite K by (apply dget_None_iff; exact Ek). reflexivity. }
      rewrite Hover. destruct (mem k (dkeys (appends M1))) eqn:Ek; [reflexivity|].
      rewrite stacks_last by exact Hnd. apply mem_not_In in Ek. apply dget_None_iff in Ek. rewrite Ek. reflexivity.
    - (* while *) cbn [reapT sites2 tame2] in *. destruct Ht as [Ht Hm0]. apply rb_inl in H as ([M1 p1] & H1 & H). cbv zeta in H. cbn [fst snd] in H.
      destruct (existsb _ _) eqn:Ex in H; [discriminate|]. apply rb_inl in H as (M2 & H2 & H). injection H as <- <-.
      assert (EM := reapT_meta s p _ _ _ H1). change (dmerge [] (sites s p [])) with (once (sites s p [])) in EM.
      assert (Hnd : NoDup (dkeys M1)) by (rewrite EM; apply once_nodup).
      assert (Hcl : clobbers M1 = M1).
      { clear -Ex. unfold clobbers. induction M1 as [|e M1 IH]; [reflexivity|]. cbn in *. apply orb_false_iff in Ex as [E1 E2]. apply negb_false_iff in E1. rewrite E1. f_equal. apply IH, E2. }
      cbn [sem2 run rb fst snd]. rewrite <- EM in *.
      match goal with |- rel_res _ (rb (while_loop _ ?c1 ?f ?x) _) (rb (rb (while_loop _ ?c2 ?g ?z) _) _) =>
        pose proof (while_loop_rel fuel c1 c2 f g (fun (co : C * list occ) (x' : C * dict) => fst x' = fst co /\ rel M1 (last_eff (resets M1 ++ snd co)) (snd x'))) as HL;
        specialize (fun h1 h2 h3 => HL h1 h2 x z h3) end.
      match type of HL with ?P -> _ => assert (HP : P) by (intros ? ? [<- _]; reflexivity) end. specialize (HL HP). clear HP.
      match type of HL with ?P -> _ => assert (HP : P) end.
      { intros [c1 o1] [c1' cr] [E Hcr]. cbn [fst snd] in E, Hcr. subst c1'. cbn [rb fst snd].
        eapply good_post; [eapply (IHp _ _ _ _ [] c1 H1 Ht Hm0); [constructor|apply rel_nil]|].
        intros [c2 o2] [c2' d2] [E Hr']. cbn [fst snd] in *. subst c2'. split; [reflexivity|]. cbn [snd]. 
        assert (Hr2 : rel M1 (last_eff o2) d2) by (eapply rel_ext; [|exact Hr']; intros k; apply upd_none).
        assert (Hcr' : rel (clobbers M1) (last_eff (resets M1 ++ o1)) cr) by (rewrite Hcl; exact Hcr).
        pose proof (carry_step_rel (fun e => fst (snd e)) M1 d2 o2 cr _ Hnd Hr2 Hcr' (fun _ _ => eq_refl)) as HS. unfold while_carry. rewrite Hcl in HS at 1.
        eapply rel_ext; [|exact HS]. intros k. unfold upd. rewrite last_eff_filter, app_assoc, (last_eff_app _ o2), Hcl.
        destruct (mem k (dkeys M1)) eqn:Ek; [reflexivity|]. apply mem_not_In in Ek. assert (Hk : last_eff o2 k = None) by (destruct Hr2 as (_ & _ & K); apply K, dget_None_iff, Ek).
        rewrite Hk. reflexivity. }
      specialize (HL HP). clear HP.
      match type of HL with ?P -> _ => assert (HP : P) end.
      { split; [reflexivity|]. cbn [snd]. rewrite app_nil_r. rewrite <- Hcl at 1. apply carry0_rel, Hnd. }
      specialize (HL HP). clear HP. revert HL.
      match goal with |- rel_res _ ?u ?v -> _ => destruct u as [[c1 o1]|], v as [[c2 cr]|] end; cbn [rel_res rb fst snd]; try tauto.
      intros [E Hcr]. subst c2. split; [reflexivity|]. cbn [snd].
      eapply rel_ext; [|eapply (resow_rel M1); try eassumption; [rewrite EM; apply once_pass, sites_pass|apply rel_In; eassumption]].
      intros k. unfold over, upd. destruct (mem k (dkeys M1)) eqn:Ek; [reflexivity|]. apply mem_not_In in Ek.
      assert (Hk : last_eff (resets M1 ++ o1) k = None) by (destruct Hcr as (_ & _ & K); apply K, dget_None_iff, Ek). rewrite Hk. reflexivity.
    - (* cond *) cbn [reapT sites2 tame2] in *. destruct Ht as (Ht1 & Ht2 & Hm1 & Hm2).
      apply rb_inl in H as ([M1 p1] & H1 & H). apply rb_inl in H as ([M2 q1] & H2 & H). apply rb_inl in H as ([] & Hcb & H). apply rb_inl in H as (M3 & H3 & H).
      injection H as <- <-. cbn [fst snd] in *.
      assert (EM := reapT_meta s p _ _ _ H1). change (dmerge [] (sites s p [])) with (once (sites s p [])) in EM.
      assert (EM2 := reapT_meta s q _ _ _ H2). change (dmerge [] (sites s q [])) with (once (sites s q [])) in EM2.
      assert (Hnd : NoDup (dkeys M1)) by (rewrite EM; apply once_nodup).
      assert (Hnd2 : NoDup (dkeys M2)) by (rewrite EM2; apply once_nodup).
      destruct (check_branches_spec _ _ Hnd Hnd2 Hcb) as [Hc1 Hc2]. rewrite <- EM in Hm.
      destruct a as [[|] a]; cbn [sem2 run rb fst snd].
      + rewrite (rb_ret (sem s fuel p [] a)). eapply good_post; [eapply (IHp _ _ _ _ [] a H1 Ht1); [exact Hm1|constructor|apply rel_nil]|].
        intros [b o] [b' d'] [E Hr']. cbn [fst snd] in *. subst b'. split; [reflexivity|]. cbn [snd].
        eapply rel_ext; [|eapply (resow_rel M1); try eassumption; [rewrite EM; apply once_pass, sites_pass|apply rel_In; eassumption]].
        intros k. rewrite <- (over_upd M1 L o d' (dkeys M1) k Hr' (fun _ h => h)). unfold over. destruct (mem k (dkeys M1)); [rewrite upd_none|]; reflexivity.
      + rewrite (rb_ret (sem s fuel q [] a)). eapply good_post; [eapply (IHq _ _ _ _ [] a H2 Ht2); [exact Hm2|constructor|apply rel_nil]|].
        intros [b o] [b' d'] [E Hr']. cbn [fst snd] in *. subst b'. split; [reflexivity|]. cbn [snd].
        eapply rel_ext; [|eapply (resow_rel M1) with (Li := upd (fun _ => None) o); try eassumption; [rewrite EM; apply once_pass, sites_pass|]].
        * intros k. assert (Hin : forall j, In j (dkeys M2) -> In j (dkeys M1)).
          { intros j Hj. destruct (dget M1 j) eqn:Ej; [eapply dget_In_keys; exact Ej|]. apply Hc1, dget_None_iff in Ej. contradiction. }
          rewrite <- (over_upd M2 L o d' (dkeys M1) k Hr' Hin). unfold over. destruct (mem k (dkeys M1)); [rewrite upd_none|]; reflexivity.
        * intros n0 [m0 a0] Hn0. apply NoDup_In_dget in Hn0; [|assumption]. destruct (Hc2 _ _ _ Hn0) as (m1 & Hg & Hcd). destruct Hr' as (_ & K2 & _).
          destruct (K2 _ _ Hg) as (y & Hy & Ho). exists y. split; [exact Hy|]. unfold ok_entry in *. cbn [fst snd] in *. rewrite <- Hcd. exact Ho.
  Qed.

  (** call_and_reap returns the output and the dictionary determined by the occurrences *)
  Lemma final_collect M L d : NoDup (dkeys M) -> rel M L d ->
    final d = map (fun e => (fst e, match L (fst e) with Some v => v | None => zeros (snd (snd e)) end)) M.
  Proof.
    intros Hnd Hr. unfold final. assert (Hd : NoDup (dkeys d)) by (destruct Hr as (-> & _); exact Hnd).
    pose proof (rel_In _ _ _ Hnd Hr) as Hin. destruct Hr as (K1 & _ & _). revert d K1 Hin Hd Hnd.
    induction M as [|[k x] M IH]; intros [|[k' [v pr]] d] K1 Hin Hd Hnd; try discriminate; [reflexivity|].
    cbn in K1. injection K1 as -> K1. cbn [map fst snd]. inversion_clear Hd as [|? ? Hn1 Hd1]. inversion_clear Hnd as [|? ? Hn2 Hd2]. f_equal.
    - f_equal. destruct (Hin k x) as (y & Hg & Ha & Hy); [simpl; auto|]. cbn in Hg. rewrite String.eqb_refl in Hg. injection Hg as <-. cbn in Ha, Hy.
      destruct pr as [[|]|]; destruct Hy as [_ ->]; auto. apply zeros_like_aval, Ha.
    - apply IH; auto. intros n y Hy. destruct (Hin n y) as (z & Hg & Hz); [simpl; auto|]. exists z. split; [|exact Hz]. cbn in Hg.
      destruct (String.eqb_spec n k) as [->|]; [|exact Hg]. exfalso. apply Hn2. apply (in_map fst) in Hy. exact Hy.
  Qed.
  Theorem call_and_reap_sem fuel {A B} (p : prog A B) (r : prog A (B * list (string * tree))) a :
    call_and_reap s p = inl r -> regular s p [] ->
    run fuel r a = rb (sem s fuel p [] a) (fun bo => inl (fst bo, collect (once (sites s p [])) (snd bo))).
  Proof.
    unfold call_and_reap. intros H [Ht Hm]. apply rb_inl in H as ([M p1] & H1 & H). injection H as <-. cbn [run rb fst snd].
    pose proof (reapT_sem fuel p _ _ _ _ [] a H1 Ht Hm (NoDup_nil _) rel_nil) as Hg.
    assert (EM := reapT_meta s p _ _ _ H1). change (dmerge [] (sites s p [])) with (once (sites s p [])) in EM.
    revert Hg. match goal with |- rel_res _ ?u ?v -> rb ?y _ = _ => change y with v; destruct u as [[b o]|], v as [[b' d]|] end; cbn [rel_res rb fst snd]; try tauto; [|intros ->; reflexivity].
    intros [E Hr]. cbn [fst snd] in *. subst b'. f_equal. f_equal.
    rewrite (final_collect M _ d) by (try exact Hr; rewrite EM; apply once_nodup). unfold collect. rewrite EM. apply map_ext. intros e. rewrite upd_none. reflexivity.
  Qed.
End T1.
