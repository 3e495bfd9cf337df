(** The properties of sow/reap/plant/harvest: C23-C33.  Specification: HarvestSpec.v. *)
From Coq Require Import ZArith Permutation.
From Verif Require Export HarvestProofs5.

Section props.
  Context {AR : Arrays}.

  (** ** C23 *)
  Theorem C23_sow_identity fuel t n m av v :
    m <> CondClobber -> has_aval v av = true -> run fuel (Sow t n m av) v = inl v.
  Proof. intros Hm H. cbn. unfold chk. rewrite H. destruct m; try reflexivity. contradiction. Qed.
  Theorem C23_sow_cond_identity fuel t n av v pr : has_aval v av = true -> run fuel (SowCond t n av) (v, pr) = inl v.
  Proof. intros H. cbn. unfold chk. rewrite H. reflexivity. Qed.
  Theorem C23_reap_outputs s {A B} (p : prog A B) r : call_and_reap s p = inl r ->
    forall fuel a, match run fuel p a with
                   | inl b => exists d, run fuel r a = inl (b, d)
                   | inr e => run fuel r a = inr e
                   end.
  Proof.
    unfold call_and_reap. intros H fuel a. apply rb_inl in H as ([M p1] & H1 & H). injection H as <-. cbn [run rb fst snd].
    pose proof (run_reapT s fuel p _ _ _ H1 a []) as K. unfold same_out in K.
    match goal with |- match _ with inl b => exists d, rb ?y _ = _ | _ => _ end => match type of K with rel_res _ ?u ?v => change y with v; destruct u as [b|], v as [[b' d]|] end end; cbn in *; try tauto.
    - subst. eauto.
    - congruence.
  Qed.

  (** ** C24 *)
  Lemma dkeys_collect M o : dkeys (collect M o) = dkeys M.
  Proof. unfold dkeys, collect. rewrite map_map. reflexivity. Qed.
  Lemma dget_collect M o n : dget (collect M o) n = match dget M n with Some (m, av) => Some (match last_eff o n with Some v => v | None => zeros av end) | None => None end.
  Proof. unfold collect. rewrite (dget_map (fun e => match last_eff o (fst e) with Some v => v | None => zeros (snd (snd e)) end)). destruct (dget M n) as [[m av]|]; reflexivity. Qed.
  Theorem C24_reap_exactly_partial s {A B} (p : prog A B) r fuel a b d :
    call_and_reap s p = inl r -> regular s p [] -> run fuel r a = inl (b, d) ->
    exists o, sem s fuel p [] a = inl (b, o) /\ NoDup (dkeys d) /\
      (forall n, In n (dkeys d) <-> In n (dkeys (sites s p []))) /\
      (forall n m av, dget (once (sites s p [])) n = Some (m, av) ->
         dget d n = Some (match last_eff o n with Some v => v | None => zeros av end)).
  Proof.
    intros H Hr Hrun. rewrite (call_and_reap_sem s fuel p r a H Hr) in Hrun. apply rb_inl in Hrun as ([b' o] & E & Hrun). injection Hrun as <- <-.
    exists o. split; [exact E|]. cbn [fst snd]. rewrite dkeys_collect. split; [apply once_nodup|]. split; [intros n; apply once_keys|].
    intros n m av Hn. rewrite dget_collect, Hn. reflexivity.
  Qed.
  (** every recorded name has the tag and passes the filters: membership in [sites] for the basic sow *)
  Theorem C24_filter s t n m av : In n (dkeys (sites s (Sow t n m av) [])) <-> t = tag_of s /\ passes s n = true.
  Proof.
    cbn [sites2]. rewrite site_here_nil. unfold seen. destruct (String.eqb_spec t (tag_of s)) as [->|Hn]; cbn.
    - destruct (passes s n); cbn; intuition discriminate.
    - intuition.
  Qed.
  Theorem C24_allow_block s n : passes s n = true <-> (forall l, allowlist s = Some l -> In n l) /\ ~ In n (blocklist s).
  Proof.
    unfold passes. rewrite andb_true_iff, negb_true_iff. split.
    - intros [H1 H2]. split.
      + intros l E. rewrite E in H1. apply mem_In, H1.
      + intros Hin. apply mem_In in Hin. congruence.
    - intros [H1 H2]. split.
      + destruct (allowlist s); [|reflexivity]. apply mem_In. auto.
      + apply not_true_iff_false. intros E. apply H2, mem_In, E.
  Qed.

  (** ** C25 *)
  Theorem C25_repeated_name_raises s {A B} (p : prog A B) l1 n m1 a1 l2 m2 a2 :
    sites s p [] = l1 ++ (n, (m1, a1)) :: l2 -> In (n, (m2, a2)) l2 ->
    (clobberish m1 = false \/ clobberish m2 = false) -> exists e, call_and_reap s p = inr e.
  Proof.
    intros E Hin Hm. unfold call_and_reap. destruct (reapT s p []) as [[M p']|e] eqn:H; [|eexists; reflexivity]. exfalso.
    pose proof (sites_pass s p s []) as Hp. rewrite E in Hp. apply reapT_resow in H. rewrite E in H.
    destruct (resow_meta_dup s l1 l2) with (M := @nil (string * (mode * aval))) (M' := M) (n := n) (m1 := m1) (a1 := a1) (m2 := m2) (a2 := a2) as [K1 K2].
    - intros k Hk. apply Hp. unfold dkeys in *. rewrite map_app in *. cbn. apply in_app_or in Hk. apply in_or_app. cbn. tauto.
    - exact H.
    - apply Hp. unfold dkeys. rewrite map_app. apply in_or_app. cbn. auto.
    - exact Hin.
    - destruct Hm; congruence.
  Qed.
  (** a program that sows the values vs one after the other under the same name, with modes ms *)
  Fixpoint sow_all (t n : string) (av : aval) (l : list (mode * tree)) : prog unit unit :=
    match l with
    | [] => Pure (fun u => inl u)
    | (m, v) :: l' => Seq (Pure (fun _ => inl v)) (Seq (Sow t n m av) (Seq (Pure (fun _ => inl tt)) (sow_all t n av l')))
    end.
  Lemma sow_all_sites s t n av l : tag_of s = t -> passes s n = true -> sites s (sow_all t n av l) [] = map (fun mv => (n, (fst mv, av))) l.
  Proof.
    intros Ht Hn. induction l as [|[m v] l IH]; [reflexivity|]. cbn [sow_all sites2 app]. rewrite site_here_nil. unfold seen. rewrite <- Ht, String.eqb_refl, Hn. cbn. rewrite <- Ht in IH. rewrite IH. reflexivity.
  Qed.
  Lemma sow_all_sem s t n av l fuel u : tag_of s = t -> passes s n = true -> Forall (fun mv => is_cond (fst mv) = false /\ has_aval (snd mv) av = true) l ->
    sem s fuel (sow_all t n av l) [] u = inl (tt, map (fun mv => (n, (snd mv, true))) l).
  Proof.
    intros Ht Hn H. revert u. induction H as [|[m v] l [Hm Hv] Hl IH]; intros u; [destruct u; reflexivity|]. cbn [sow_all sem2 rb fst snd app] in *. rewrite Hm, at_sow_nil. unfold chk. rewrite Hv. cbn [rb fst snd].
    unfold seen. rewrite <- Ht, String.eqb_refl, Hn. cbn [andb]. rewrite <- Ht in IH. rewrite IH. reflexivity.
  Qed.
  Lemma sow_all_reap s t n av l : tag_of s = t -> passes s n = true -> Forall (fun mv => fst mv = Clobber) l ->
    forall M, (forall m a, dget M n = Some (m, a) -> clobberish m = true) -> exists r, reapT s (sow_all t n av l) M = inl r.
  Proof.
    intros Ht Hn H. induction H as [|[m v] l Hm Hl IH]; intros M HM; [eexists; reflexivity|]. cbn in Hm. subst m. cbn [sow_all reapT rb fst snd is_cond].
    rewrite <- Ht in *. rewrite String.eqb_refl, Hn.
    assert (E : handle M n Clobber av = inl (dset M n (Clobber, av))). { unfold handle. destruct (dget M n) as [[m0 a0]|] eqn:Eg; [|reflexivity]. rewrite (HM _ _ eq_refl). reflexivity. }
    rewrite E. cbn [rb fst snd]. destruct (IH (dset M n (Clobber, av))) as [r Er]; [|rewrite Er; eexists; reflexivity].
    intros m a Hg. rewrite dget_dset, String.eqb_refl in Hg. injection Hg as <- _. reflexivity.
  Qed.
  Lemma sow_all_tame s t n av l pd : tame s (sow_all t n av l) pd.
  Proof. induction l as [|[m v] l IH]; cbn [sow_all tame2]; auto. Qed.
  Lemma last_eff_same (n : string) (l : list tree) d : last_eff (map (fun v => (n, (v, true))) l ++ [(n, (d, true))]) n = Some d.
  Proof. rewrite (last_eff_app (map (fun v => (n, (v, true))) l : list occ)), last_eff_one, String.eqb_refl. reflexivity. Qed.
  Lemma once_same (n : string) (f : mode * tree -> mode * aval) l x : once (map (fun mv => (n, f mv)) l ++ [(n, x)]) = [(n, x)].
  Proof.
    unfold once. rewrite dmerge_app. assert (K : dmerge [] (map (fun mv => (n, f mv)) l) = [] \/ exists y, dmerge [] (map (fun mv => (n, f mv)) l) = [(n, y)]).
    { assert (G : forall M, (M = [] \/ exists y, M = [(n, y)]) -> dmerge M (map (fun mv => (n, f mv)) l) = [] \/ exists y, dmerge M (map (fun mv => (n, f mv)) l) = [(n, y)]).
      { induction l as [|mv l IH]; intros M HM; [exact HM|]. change (dmerge M (map (fun mv => (n, f mv)) (mv :: l))) with (dmerge (dset M n (f mv)) (map (fun mv => (n, f mv)) l)). apply IH.
        right. exists (f mv). destruct HM as [->|[y ->]]; [reflexivity|]. cbn. rewrite String.eqb_refl. reflexivity. }
      apply G. auto. }
    destruct K as [->|[y ->]]; [reflexivity|]. cbn. rewrite String.eqb_refl. reflexivity.
  Qed.
  (** clobber: any number of sows, the last value is kept *)
  Theorem C25_clobber_keeps_last s t n av vs v fuel :
    tag_of s = t -> passes s n = true -> Forall (fun w => has_aval w av = true) (vs ++ [v]) ->
    exists r, call_and_reap s (sow_all t n av (map (fun w => (Clobber, w)) (vs ++ [v]))) = inl r /\ run fuel r tt = inl (tt, [(n, v)]).
  Proof.
    intros Ht Hn Hv. set (l := map (fun w => (Clobber, w)) (vs ++ [v])).
    destruct (sow_all_reap s t n av l Ht Hn) with (M := @nil (string * (mode * aval))) as [rr Er]; [unfold l; apply Forall_map, Forall_forall; reflexivity|discriminate|].
    assert (Hcr : exists r, call_and_reap s (sow_all t n av l) = inl r) by (unfold call_and_reap; rewrite Er; eexists; reflexivity). destruct Hcr as [r Hr].
    exists r. split; [exact Hr|]. rewrite (call_and_reap_sem s fuel _ r tt Hr).
    - rewrite (sow_all_sem s t n av l fuel tt Ht Hn) by (unfold l; apply Forall_map; eapply Forall_impl; [|exact Hv]; cbn; auto). cbn [rb fst snd].
      rewrite (sow_all_sites s t n av l Ht Hn). unfold l. rewrite !map_map. cbn [fst snd]. rewrite !map_app. cbn [map].
      rewrite <- (map_map (fun w => (Clobber, w)) (fun mv => (n, (fst mv, av)))).
      rewrite (once_same n (fun mv => (fst mv, av))). unfold collect. cbn [map fst snd].
      rewrite (last_eff_same n vs v). reflexivity.
    - split; [apply sow_all_tame|]. rewrite (sow_all_sites s t n av l Ht Hn). intros k m1 a1 m2 a2 H1 H2. unfold l in *. rewrite map_map in *. cbn [fst] in *.
      apply in_map_iff in H1 as (? & E1 & _). apply in_map_iff in H2 as (? & E2 & _). injection E1 as _ <- _. injection E2 as _ <- _. reflexivity.
  Qed.
  (** the property's last clause is false: two appends of the same name outside a loop raise *)
  Theorem C25_append_collects_refuted s t n av v w : tag_of s = t -> passes s n = true ->
    call_and_reap s (sow_all t n av [(Append, v); (Append, w)]) = inr ValueErr.
  Proof. intros Ht Hn. unfold call_and_reap. cbn. rewrite <- Ht, String.eqb_refl, Hn. cbn. unfold handle. cbn. rewrite String.eqb_refl. reflexivity. Qed.

  (** ** C26 *)
  Fixpoint sow_conds (t n : string) (av : aval) (l : list (tree * bool)) : prog unit unit :=
    match l with
    | [] => Pure (fun u => inl u)
    | vp :: l' => Seq (Pure (fun _ => inl vp)) (Seq (SowCond t n av) (Seq (Pure (fun _ => inl tt)) (sow_conds t n av l')))
    end.
  Lemma sow_conds_sites s t n av l : tag_of s = t -> passes s n = true -> sites s (sow_conds t n av l) [] = map (fun _ => (n, (CondClobber, av))) l.
  Proof.
    intros Ht Hn. induction l as [|vp l IH]; [reflexivity|]. cbn [sow_conds sites2 app]. rewrite site_here_nil. unfold seen. rewrite <- Ht, String.eqb_refl, Hn. cbn. rewrite <- Ht in IH. rewrite IH. reflexivity.
  Qed.
  Lemma sow_conds_sem s t n av l fuel u : tag_of s = t -> passes s n = true -> Forall (fun vp => has_aval (fst vp) av = true) l ->
    sem s fuel (sow_conds t n av l) [] u = inl (tt, map (fun vp => (n, vp)) l).
  Proof.
    intros Ht Hn H. revert u. induction H as [|[v b] l Hv Hl IH]; intros u; [destruct u; reflexivity|]. cbn [sow_conds sem2 rb fst snd app] in *. rewrite at_sow_nil. unfold chk. rewrite Hv. cbn [rb fst snd].
    unfold seen. rewrite <- Ht, String.eqb_refl, Hn. cbn [andb]. rewrite <- Ht in IH. rewrite IH. reflexivity.
  Qed.
  Lemma sow_conds_reap s t n av l : tag_of s = t -> passes s n = true ->
    forall M, (dget M n = None \/ dget M n = Some (CondClobber, av)) -> exists r, reapT s (sow_conds t n av l) M = inl r.
  Proof.
    intros Ht Hn. induction l as [|[v b] l IH]; intros M HM; [eexists; reflexivity|]. cbn [sow_conds reapT rb fst snd].
    rewrite <- Ht in *. rewrite String.eqb_refl, Hn.
    assert (E : handle M n CondClobber av = inl (dset M n (CondClobber, av))).
    { unfold handle. destruct HM as [->| ->]; [reflexivity|]. cbn. assert (Ea : forall a, aval_eqb a a = true); [|rewrite Ea; reflexivity].
      intros a. induction a as [x|al IHa|k a IHa] using aval_ind'; cbn; [apply av_eqb_spec; reflexivity| |rewrite Nat.eqb_refl, IHa; reflexivity].
      induction IHa as [|[k x] al Hx _ IHl]; [reflexivity|]. rewrite String.eqb_refl. cbn in Hx. rewrite Hx. exact IHl. }
    rewrite E. cbn [rb fst snd]. destruct (IH (dset M n (CondClobber, av))) as [r Er]; [|rewrite Er; eexists; reflexivity].
    right. rewrite dget_dset, String.eqb_refl. reflexivity.
  Qed.
  Lemma sow_conds_tame s t n av l pd : tame s (sow_conds t n av l) pd.
  Proof. induction l as [|vp l IH]; cbn [sow_conds tame2]; auto. Qed.
  Lemma last_conds (n : string) (l : list (tree * bool)) :
    last_eff (map (fun vp => (n, vp)) l) n = fold_left (fun (acc : option tree) (vp : tree * bool) => if snd vp then Some (fst vp) else acc) l None.
  Proof. unfold last_eff. generalize (@None tree). induction l as [|vp l IH]; intros acc; [reflexivity|]. cbn [map fold_left fst snd]. rewrite String.eqb_refl. cbn [andb]. apply IH. Qed.
  Lemma no_more (l : list (tree * bool)) acc : Forall (fun vp => snd vp = false) l -> fold_left (fun (acc : option tree) (vp : tree * bool) => if snd vp then Some (fst vp) else acc) l acc = acc.
  Proof. intros H. revert acc. induction H as [|[v b] l Hb Hl IH]; intros acc; [reflexivity|]. cbn in *. subst b. apply IH. Qed.
  (** [l] is split at its last effective entry *)
  Theorem C26_sow_cond_last_effective_partial s t n av l1 v l2 fuel :
    tag_of s = t -> passes s n = true -> Forall (fun vp => has_aval (fst vp) av = true) (l1 ++ (v, true) :: l2) -> Forall (fun vp => snd vp = false) l2 ->
    exists r, call_and_reap s (sow_conds t n av (l1 ++ (v, true) :: l2)) = inl r /\ run fuel r tt = inl (tt, [(n, v)]).
  Proof.
    intros Ht Hn Hv H2. set (l := l1 ++ (v, true) :: l2) in *.
    destruct (sow_conds_reap s t n av l Ht Hn []) as [rr Er]; [auto|].
    assert (Hcr : exists r, call_and_reap s (sow_conds t n av l) = inl r) by (unfold call_and_reap; rewrite Er; eexists; reflexivity). destruct Hcr as [r Hr].
    exists r. split; [exact Hr|]. rewrite (call_and_reap_sem s fuel _ r tt Hr).
    - rewrite (sow_conds_sem s t n av l fuel tt Ht Hn Hv). cbn [rb fst snd]. rewrite (sow_conds_sites s t n av l Ht Hn). f_equal. f_equal.
      assert (Eo : once (map (fun _ => (n, (CondClobber, av))) l) = [(n, (CondClobber, av))]).
      { assert (E : exists l' x, l = l' ++ [x]). { destruct (exists_last (l := l)) as (l' & x & E); [unfold l; destruct l1; discriminate|eauto]. }
        destruct E as (l' & x & ->). rewrite map_app. cbn [map]. pose proof (once_same n (fun _ => (CondClobber, av)) (map (fun vp => (CondClobber, fst vp)) l') (CondClobber, av)) as K. rewrite map_map in K. exact K. }
      rewrite Eo. unfold collect. cbn [map fst snd].
      assert (El : last_eff (map (fun vp => (n, vp)) l) n = Some v).
      { rewrite last_conds. unfold l. rewrite fold_left_app. cbn [fold_left fst snd]. apply no_more. exact H2. }
      rewrite El. reflexivity.
    - split; [apply sow_conds_tame|]. rewrite (sow_conds_sites s t n av l Ht Hn). intros k m1 a1 m2 a2 K1 K2.
      apply in_map_iff in K1 as (? & E1 & _). apply in_map_iff in K2 as (? & E2 & _). injection E1 as _ <- _. injection E2 as _ <- _. reflexivity.
  Qed.
  Theorem C26_sow_cond_zeros_partial s t n av vp l fuel :
    tag_of s = t -> passes s n = true -> Forall (fun vp => has_aval (fst vp) av = true) (vp :: l) -> Forall (fun vp => snd vp = false) (vp :: l) ->
    exists r, call_and_reap s (sow_conds t n av (vp :: l)) = inl r /\ run fuel r tt = inl (tt, [(n, zeros av)]).
  Proof.
    intros Ht Hn Hv H2. destruct (sow_conds_reap s t n av (vp :: l) Ht Hn []) as [rr Er]; [auto|].
    assert (Hcr : exists r, call_and_reap s (sow_conds t n av (vp :: l)) = inl r) by (unfold call_and_reap; rewrite Er; eexists; reflexivity). destruct Hcr as [r Hr].
    exists r. split; [exact Hr|]. rewrite (call_and_reap_sem s fuel _ r tt Hr).
    - rewrite (sow_conds_sem s t n av _ fuel tt Ht Hn Hv). cbn [rb fst snd]. rewrite (sow_conds_sites s t n av _ Ht Hn). f_equal. f_equal.
      assert (Eo : once (map (fun _ => (n, (CondClobber, av))) (vp :: l)) = [(n, (CondClobber, av))]).
      { destruct (exists_last (l := vp :: l)) as (l' & x & E); [discriminate|]. rewrite E.
        rewrite map_app. cbn [map]. pose proof (once_same n (fun _ => (CondClobber, av)) (map (fun vp => (CondClobber, fst vp)) l') (CondClobber, av)) as K. rewrite map_map in K. exact K. }
      rewrite Eo. unfold collect. cbn [map fst snd].
      assert (En : last_eff (map (fun vp => (n, vp)) (vp :: l)) n = None); [|cbn [map] in En; rewrite En; reflexivity].
      rewrite last_conds. apply no_more. exact H2.
    - split; [apply sow_conds_tame|]. rewrite (sow_conds_sites s t n av _ Ht Hn). intros k m1 a1 m2 a2 K1 K2.
      apply in_map_iff in K1 as (? & E1 & _). apply in_map_iff in K2 as (? & E2 & _). injection E1 as _ <- _. injection E2 as _ <- _. reflexivity.
  Qed.
  (** false after a clobber sow: a later sow_cond whose predicate is False yields zeros instead of the clobber value *)
  Definition clobber_then_cond (t n : string) (av : aval) (v w : tree) (b : bool) : prog unit unit :=
    Seq (Pure (fun _ => inl v)) (Seq (Sow t n Clobber av) (Seq (Pure (fun _ => inl (w, b))) (Seq (SowCond t n av) (Pure (fun _ => inl tt))))).
  Lemma aval_eqb_refl a : aval_eqb a a = true.
  Proof.
    induction a as [x|al IHa|k a IHa] using aval_ind'; cbn; [apply av_eqb_spec; reflexivity| |rewrite Nat.eqb_refl, IHa; reflexivity].
    induction IHa as [|[k x] al Hx _ IHl]; [reflexivity|]. rewrite String.eqb_refl. cbn in Hx. rewrite Hx. exact IHl.
  Qed.
  Theorem C26_after_clobber_refuted s t n av v w fuel :
    tag_of s = t -> passes s n = true -> has_aval v av = true -> has_aval w av = true ->
    exists r, call_and_reap s (clobber_then_cond t n av v w false) = inl r /\ run fuel r tt = inl (tt, [(n, zeros av)]).
  Proof.
    intros Ht Hn Hv Hw. unfold call_and_reap, clobber_then_cond. cbn [reapT rb fst snd is_cond]. rewrite <- Ht, String.eqb_refl, Hn.
    unfold handle. cbn [dget rb fst snd dset]. rewrite String.eqb_refl. cbn [clobberish andb is_cond negb]. rewrite aval_eqb_refl. cbn [negb rb fst snd].
    eexists. split; [reflexivity|]. cbn [run rb fst snd]. unfold chk. rewrite Hv. cbn [rb fst snd]. rewrite Hw. cbn. rewrite !String.eqb_refl. cbn.
    rewrite (zeros_like_aval v av Hv). reflexivity.
  Qed.

  (** ** C27 *)
  (** programs that do not call sow(mode='cond_clobber') (which raises) *)
  Fixpoint ok {A B} (p : prog A B) : Prop :=
    match p with
    | Pure _ | SowCond _ _ _ => True
    | Seq p q | Cond p q => ok p /\ ok q
    | First _ p | Nest _ p | Call p | Scan _ _ p | While _ p => ok p
    | Sow _ _ m _ => is_cond m = false
    end.
  Lemma reapT_ok s {A B} (p : prog A B) : forall M M' p', reapT s p M = inl (M', p') -> ok p'.
  Proof.
    induction p as [A B f|A B C p IHp q IHq|A B C p IHp|t n m av|t n av|A B sc p IHp|A B p IHp|C X Y rv len p IHp|C c p IHp|A B p IHp q IHq]; intros M M' p' H; cbn [reapT] in H.
    - injection H as <- <-. exact I.
    - apply rb_inl in H as ([M1 p1] & H1 & H). apply rb_inl in H as ([M2 q1] & H2 & H). injection H as <- <-. cbn. eauto.
    - apply rb_inl in H as ([M1 p1] & H1 & H). injection H as <- <-. cbn. eauto.
    - destruct (is_cond m) eqn:Em; [discriminate|]. destruct (String.eqb t (tag_of s)); [destruct (passes s n)|destruct (exclusive s)]; try (injection H as <- <-; first [exact I|exact Em]).
      apply rb_inl in H as (M1 & H1 & H). injection H as <- <-. exact I.
    - destruct (String.eqb t (tag_of s)); [destruct (passes s n)|destruct (exclusive s)]; try (injection H as <- <-; exact I).
      apply rb_inl in H as (M1 & H1 & H). injection H as <- <-. exact I.
    - apply rb_inl in H as ([M1 p1] & H1 & H). apply rb_inl in H as (M2 & H2 & H). injection H as <- <-. cbn. eauto.
    - apply rb_inl in H as ([M1 p1] & H1 & H). apply rb_inl in H as (M2 & H2 & H). injection H as <- <-. cbn. eauto.
    - apply rb_inl in H as ([M1 p1] & H1 & H). cbv zeta in H. destruct (existsb _ _) in H; [discriminate|].
      destruct (is_cond _ && _)%bool in H; [discriminate|]. apply rb_inl in H as (M2 & H2 & H). injection H as <- <-. cbn. eauto 10.
    - apply rb_inl in H as ([M1 p1] & H1 & H). cbv zeta in H. destruct (existsb _ _) in H; [discriminate|].
      apply rb_inl in H as (M2 & H2 & H). injection H as <- <-. cbn. eauto 10.
    - apply rb_inl in H as ([M1 p1] & H1 & H). apply rb_inl in H as ([M2 q1] & H2 & H). apply rb_inl in H as (? & _ & H). apply rb_inl in H as (M3 & H3 & H).
      injection H as <- <-. cbn. eauto 10.
  Qed.
  Lemma mute_reap_ok s {A B} (p : prog A B) : ok p -> mute s p -> forall M, exists p', reapT s p M = inl (M, p').
  Proof.
    induction p as [A B f|A B C p IHp q IHq|A B C p IHp|t n m av|t n av|A B sc p IHp|A B p IHp|C X Y rv len p IHp|C c p IHp|A B p IHp q IHq]; cbn [ok mute reapT]; intros Ho Hm M.
    - eauto.
    - destruct Ho as [O1 O2], Hm as [M1 M2]. destruct (IHp O1 M1 M) as [p' E1]. rewrite E1. cbn [rb fst snd]. destruct (IHq O2 M2 M) as [q' E2]. rewrite E2. cbn [rb fst snd]. eauto.
    - destruct (IHp Ho Hm M) as [p' E1]. rewrite E1. cbn [rb fst snd]. eauto.
    - rewrite Ho. unfold seen in Hm. destruct (String.eqb t (tag_of s)); [cbn in Hm; rewrite Hm; eauto|]. destruct (exclusive s); eauto.
    - unfold seen in Hm. destruct (String.eqb t (tag_of s)); [cbn in Hm; rewrite Hm; eauto|]. destruct (exclusive s); eauto.
    - destruct (IHp Ho Hm []) as [p' E1]. rewrite E1. cbn [rb fst snd]. eauto.
    - destruct (IHp Ho Hm []) as [p' E1]. rewrite E1. cbn [rb fst snd resow_meta]. eauto.
    - destruct (IHp Ho Hm []) as [p' E1]. rewrite E1. cbn [rb fst snd resow_meta]. cbv zeta. cbn. eauto.
    - destruct (IHp Ho Hm []) as [p' E1]. rewrite E1. cbn [rb fst snd resow_meta]. cbv zeta. cbn. eauto.
    - destruct Ho as [O1 O2], Hm as [M1 M2]. destruct (IHp O1 M1 []) as [p' E1]. rewrite E1. cbn [rb fst snd]. destruct (IHq O2 M2 []) as [q' E2]. rewrite E2. cbn [rb fst snd]. cbn. eauto.
  Qed.
  Lemma call_and_reap_mute s {A B} (p : prog A B) : ok p -> mute s p -> exists r, call_and_reap s p = inl r /\ forall fuel a, run fuel r a = rb (run fuel p a) (fun b => inl (b, [])).
  Proof.
    intros Ho Hm. destruct (mute_reap_ok s p Ho Hm []) as [p' E]. assert (Hc : exists r, call_and_reap s p = inl r) by (unfold call_and_reap; rewrite E; eexists; reflexivity).
    destruct Hc as [r Hr]. exists r. split; [exact Hr|]. intros fuel a.
    assert (Hreg : regular s p []).
    { split; [|rewrite (mute_sites s s p Hm); intros ? ? ? ? ? []]. clear -Hm. revert Hm. generalize (@nil (string * tree)).
      assert (K : forall A B (p : prog A B), mute s p -> forall pd, tame s p pd).
      { clear. intros A B p. induction p as [A B f|A B C p IHp q IHq|A B C p IHp|t n m av|t n av|A B sc p IHp|A B p IHp|C X Y rv len p IHp|C c p IHp|A B p IHp q IHq]; cbn [mute tame2]; intros Hm pd; auto.
        - destruct Hm; auto.
        - split; auto. rewrite (mute_sites s s p Hm). intros ? ? ? [].
        - split; auto. rewrite (mute_sites s s p Hm). intros ? ? ? ? ? [].
        - split; auto. left. rewrite (mute_sites s s p Hm). intros ? ? ? [].
        - split; auto. rewrite (mute_sites s s p Hm). intros ? ? ? ? ? [].
        - destruct Hm as [H1 H2]. repeat split; auto; [rewrite (mute_sites s s p H1)|rewrite (mute_sites s s q H2)]; intros ? ? ? ? ? []. }
      intros l Hm. apply K, Hm. }
    rewrite (call_and_reap_sem s fuel p r a Hr Hreg), (run_sem_eq s s fuel p a), (mute_sites s s p Hm), rb_assoc. apply rb_ext. intros [b o]. reflexivity.
  Qed.
  Lemma seq_pure_sites s {A B C D} (f : A -> res B) (p : prog B C) (g : C -> res D) pd : sites s (Seq (Pure f) (Seq p (Pure g))) pd = sites s p pd.
  Proof. cbn [sites2 app]. apply app_nil_r. Qed.
  (** the sows of other tags survive a (non-exclusive) reap with the same names and values *)
  Theorem C27_other_tags_kept_partial s1 s2 {A B} (p : prog A B) r1 r2 :
    tag_of s1 <> tag_of s2 -> exclusive s1 = false -> call_and_reap s1 p = inl r1 -> call_and_reap s2 p = inl r2 -> regular s2 p [] ->
    exists r12, call_and_reap s2 r1 = inl r12 /\
      forall fuel a, run fuel r12 a = rb (run fuel r1 a) (fun x => rb (run fuel r2 a) (fun y => inl (x, snd y))).
  Proof.
    intros Ht He H1 H2 Hreg. pose proof H2 as H2'. unfold call_and_reap in H1, H2. apply rb_inl in H1 as ([M1 p1] & R1 & H1). apply rb_inl in H2 as ([M2 p2] & R2 & H2). cbn [fst snd] in *.
    destruct (reapT_keep s1 s2 Ht He p _ _ _ R1) as (K1 & K2 & K3 & K4). destruct (K4 _ _ _ R2) as [q Hq].
    assert (Hc : exists r12, call_and_reap s2 r1 = inl r12). { injection H1 as <-. unfold call_and_reap. cbn [reapT rb fst snd]. rewrite Hq. cbn [rb fst snd]. eexists. reflexivity. }
    destruct Hc as [r12 Hr12]. exists r12. split; [exact Hr12|]. intros fuel a.
    assert (Es : sites s2 r1 [] = sites s2 p []) by (injection H1 as <-; rewrite seq_pure_sites; exact K1).
    assert (Hreg1 : regular s2 r1 []).
    { destruct Hreg as [T1 T2]. split; [injection H1 as <-; cbn [tame2]; auto|]. rewrite Es. exact T2. }
    rewrite (call_and_reap_sem s2 fuel r1 r12 a Hr12 Hreg1), Es.
    rewrite (call_and_reap_sem s2 fuel p r2 a H2' Hreg), (run_sem_eq s2 s2 fuel r1 a), !rb_assoc.
    injection H1 as <-. cbn [sem2 rb fst snd]. specialize (K3 fuel a []). rewrite !rb_assoc.
    match goal with |- rb ?u _ = _ => match type of K3 with rel_res _ ?x ?y => change u with y; destruct x as [[b o]|e], y as [[[b' d] o']|e'] end end; cbn in K3; try contradiction.
    - destruct K3 as [E1 E2]. cbn in E1, E2. subst b' o'. cbn. rewrite app_nil_r. reflexivity.
    - reflexivity.
  Qed.
  (** ... but an exclusive reap, and any reap of the own tag, leaves nothing to be reaped *)
  Theorem C27_exclusive_drops s1 s2 {A B} (p : prog A B) r1 :
    exclusive s1 = true \/ tag_of s2 = tag_of s1 -> call_and_reap s1 p = inl r1 ->
    exists r12, call_and_reap s2 r1 = inl r12 /\ forall fuel a, run fuel r12 a = rb (run fuel r1 a) (fun x => inl (x, [])).
  Proof.
    intros Hd H1. unfold call_and_reap in H1. apply rb_inl in H1 as ([M1 p1] & R1 & H1). injection H1 as <-. cbn [fst snd]. apply call_and_reap_mute.
    - cbn. repeat split; auto. eapply reapT_ok; exact R1.
    - cbn. repeat split; auto. eapply reapT_mute; eassumption.
  Qed.
  (** planting one tag leaves the sows of other tags as they are *)
  Lemma sites2_other sP s {A B} (p : prog A B) : tag_of s <> tag_of sP -> forall pd, sites2 p sP s pd = sites s p [].
  Proof.
    intros Ht. assert (Hn : forall t n, seen s t n = true -> seen sP t n = false).
    { unfold seen. intros t n H. apply andb_true_iff in H as [H _]. apply String.eqb_eq in H. subst t. destruct (String.eqb_spec (tag_of s) (tag_of sP)); [contradiction|reflexivity]. }
    induction p as [A B f|A B C p IHp q IHq|A B C p IHp|t n m av|t n av|A B sc p IHp|A B p IHp|C X Y rv len p IHp|C c p IHp|A B p IHp q IHq]; cbn [sites2]; intros pd.
    - reflexivity.
    - rewrite IHp, IHq. reflexivity.
    - apply IHp.
    - rewrite site_here_nil. unfold site_here. destruct (seen s t n) eqn:E; [|reflexivity]. rewrite (Hn _ _ E). reflexivity.
    - rewrite site_here_nil. unfold site_here. destruct (seen s t n) eqn:E; [|reflexivity]. rewrite (Hn _ _ E). reflexivity.
    - rewrite IHp. reflexivity.
    - rewrite IHp. reflexivity.
    - cbv zeta. rewrite IHp. change (body_plants (once (sites s p [])) []) with (@nil (string * tree)). reflexivity.
    - rewrite IHp. reflexivity.
    - rewrite IHp. reflexivity.
  Qed.
  Theorem C27_plant_keeps_other_tags sP s {A B} (p : prog A B) pd p' :
    tag_of s <> tag_of sP -> exclusive sP = false -> plant sP p pd = inl p' -> sites s p' [] = sites s p [].
  Proof.
    intros Ht He H. unfold plant in H. apply rb_inl in H as ([dn q] & H & E). injection E as <-. cbn [snd].
    destruct (plantT_sem sP s p) with (sk := skels_of pd) (dn := @nil string) (dn' := dn) (p' := q) (pd := pd) as [K _]; [right; auto|exact H|apply fits_skels_of|].
    rewrite K. apply sites2_other, Ht.
  Qed.

  (** ** C28 *)
  (** the iterations of a loop body in execution order: carry, inputs, final carry, outputs, sows per iteration *)
  Inductive iterates {C X Y} (f : C * X -> res ((C * Y) * list occ)) : C -> list X -> C -> list Y -> list (list occ) -> Prop :=
  | it_nil c : iterates f c [] c [] []
  | it_cons c x c1 y o xs c2 ys os : f (c, x) = inl ((c1, y), o) -> iterates f c1 xs c2 ys os -> iterates f c (x :: xs) c2 (y :: ys) (o :: os).
  Theorem C28_reap_scan_partial s {C X Y} rv len (p : prog (C * X) (C * Y)) r fuel c xs c' ys d :
    call_and_reap s (Scan rv len p) = inl r ->
    tame s p [] -> (no_cond (sites s p []) \/ all_cond (sites s p [])) ->
    run fuel r (c, xs) = inl ((c', ys), d) ->
    exists os, iterates (fun cx => sem s fuel p [] cx) c (rev_if rv xs) c' (rev_if rv ys) (rev_if rv os) /\ List.length xs = len /\ List.length os = len /\
      (forall n, In n (dkeys d) <-> In n (dkeys (sites s p []))) /\
      (forall n av, dget (once (sites s p [])) n = Some (Append, av) -> dget d n = Some (Stk (map (occ_value n) os))) /\
      (forall n m av, dget (once (sites s p [])) n = Some (m, av) -> clobberish m = true ->
         dget d n = Some (match last_eff (List.concat (rev_if rv os)) n with Some v => v | None => zeros av end)).
  Proof.
    intros H Ht Hc Hrun. pose proof H as H'. unfold call_and_reap in H'. apply rb_inl in H' as ([Ms ps] & Hs & _). cbn [reapT] in Hs. apply rb_inl in Hs as ([Mb pb] & Hb & Hs). cbv zeta in Hs. cbn [fst snd] in Hs.
    destruct (existsb (fun e => is_strict (fst (snd e))) Mb) eqn:Ex; [discriminate|]. clear Hs Ms ps.
    pose proof (reapT_meta s p _ _ _ Hb) as EM. change (dmerge [] (sites s p [])) with (once (sites s p [])) in EM. subst Mb.
    set (M := once (sites s p [])) in *. assert (HN : NoDup (dkeys M)) by apply once_nodup.
    assert (Esites : sites s (Scan rv len p) [] = clobbers M ++ stack_meta len (appends M)) by reflexivity.
    assert (Hmix : no_mix (sites s (Scan rv len p) [])).
    { rewrite Esites. assert (K : no_cond (clobbers M ++ stack_meta len (appends M)) \/ all_cond (clobbers M ++ stack_meta len (appends M))).
      { assert (G : forall n m a, In (n, (m, a)) (clobbers M ++ stack_meta len (appends M)) -> exists a', In (n, (m, a')) (sites s p [])).
        { intros n m a Hin. apply in_app_or in Hin as [Hin|Hin].
          - apply filter_In in Hin as [Hin _]. apply once_incl in Hin. eauto.
          - apply in_map_iff in Hin as ([k [m0 a0]] & E & Hin). cbn in E. injection E as -> -> _. apply filter_In in Hin as [Hin _]. apply once_incl in Hin. eauto. }
        destruct Hc as [Hc|Hc]; [left|right]; intros n m a Hin; destruct (G _ _ _ Hin) as [a' Hin']; eapply Hc; exact Hin'. }
      intros n m1 a1 m2 a2 K1 K2. destruct K as [K|K]; apply K in K1, K2; congruence. }
    assert (Hreg : regular s (Scan rv len p) []) by (split; [cbn [tame2]; cbv zeta; auto|exact Hmix]).
    rewrite (call_and_reap_sem s fuel _ r _ H Hreg) in Hrun. cbn [sem2 fst snd] in Hrun. cbv zeta in Hrun.
    destruct (Nat.eqb_spec (List.length xs) len) as [El|]; [|discriminate]. rewrite scan_plants_nil in Hrun. cbn [rb] in Hrun.
    change (body_plants (once (sites s p [])) []) with (@nil (string * tree)) in Hrun. fold M in Hrun.
    unfold scan_sem in Hrun. cbn [fst snd] in Hrun. rewrite combine_length, repeat_length, El, Nat.min_id, Nat.eqb_refl in Hrun. rewrite !rb_assoc in Hrun.
    apply rb_inl in Hrun as ([c1 yos] & E1 & Hrun). cbn [rb fst snd] in Hrun. injection Hrun as <- <- <-.
    exists (map snd (rev_if rv yos)).
    assert (Hlen : List.length yos = len). { apply scan_loop_length in E1. rewrite rev_if_length, combine_length, repeat_length in E1. lia. }
    split.
    { rewrite <- !rev_if_map, !rev_if_invol. clear -E1 El. revert E1.
      assert (Er : rev_if rv (combine xs (repeat (@nil (string * tree)) len)) = map (fun x => (x, [])) (rev_if rv xs)).
      { rewrite <- rev_if_map. f_equal. subst len. induction xs as [|x xs IH]; [reflexivity|]. cbn. f_equal. exact IH. }
      rewrite Er. generalize (rev_if rv xs) as us. clear. intros us. revert c yos. induction us as [|u us IH]; intros c yos E; cbn [map scan_loop] in E.
      - injection E as -> <-. constructor.
      - apply rb_inl in E as ([c2 [y o]] & E1 & E). apply rb_inl in E1 as ([[c3 y3] o3] & E1 & E2). cbn [fst snd] in *. injection E2 as -> -> ->.
        apply rb_inl in E as ([c4 yos'] & E3 & E). cbn [fst snd] in *. injection E as -> <-. cbn [map fst snd]. econstructor; [exact E1|]. apply IH, E3. }
    split; [exact El|]. split; [rewrite map_length, rev_if_length; exact Hlen|].
    assert (Hm : forall n m a, dget M n = Some (m, a) -> is_strict m = false).
    { intros n m a Hg. apply not_true_iff_false. intros Hm. rewrite <- not_true_iff_false in Ex. apply Ex, existsb_exists. exists (n, (m, a)). split; [apply dget_In, Hg|exact Hm]. }
    assert (HND2 : NoDup (dkeys (sites s (Scan rv len p) []))).
    { rewrite Esites. unfold dkeys. rewrite map_app. assert (Ek : map fst (stack_meta len (appends M)) = map fst (appends M)) by (unfold stack_meta; rewrite map_map; reflexivity). rewrite Ek.
      clear -HN. unfold clobbers, appends, dkeys in *. induction M as [|[k [m a]] M IH]; [constructor|]. cbn in HN. inversion_clear HN as [|? ? Hk HN']. specialize (IH HN').
      assert (Hout : ~ In k (map fst (filter (fun e => clobberish (fst (snd e))) M) ++ map fst (filter (fun e => is_append (fst (snd e))) M))).
      { intros Hin. apply Hk. apply in_app_or in Hin as [Hin|Hin]; apply in_map_iff in Hin as (e & <- & Hin); apply filter_In in Hin as [Hin _]; apply in_map, Hin. }
      destruct m; cbn; try assumption.
      - eapply Permutation_NoDup; [apply Permutation_middle|]. constructor; assumption.
      - constructor; assumption.
      - constructor; assumption. }
    rewrite Esites in HND2. assert (EO : once (clobbers M ++ stack_meta len (appends M)) = clobbers M ++ stack_meta len (appends M)) by (apply once_nodup_id; exact HND2).
    match goal with |- context [collect ?x] => change x with (once (clobbers M ++ stack_meta len (appends M))) end. rewrite EO.
    assert (Hgd : forall n x, dget M n = Some x -> dget (clobbers M ++ stack_meta len (appends M)) n = Some (if clobberish (fst x) then x else (fst x, AS len (snd x)))).
    { intros n [m a] Hg. rewrite dget_app, dget_stack_meta. destruct (clobberish m) eqn:Em; cbn [fst snd].
      - assert (E : dget (clobbers M) n = Some (m, a)) by (apply dget_filter; auto). rewrite E, Em. reflexivity.
      - assert (E : dget (clobbers M) n = None).
        { destruct (dget (clobbers M) n) as [x|] eqn:E; [|reflexivity]. apply dget_filter in E as [E1' E2]; [|exact HN]. rewrite Hg in E1'. injection E1' as <-. cbn in E2. congruence. }
        assert (E' : dget (appends M) n = Some (m, a)). { apply dget_filter; [exact HN|]. split; [exact Hg|]. specialize (Hm _ _ _ Hg). destruct m; cbn in *; congruence. }
        rewrite E, E', Em. reflexivity. }
    split; [|split].
    - intros n. rewrite dkeys_collect. unfold dkeys at 1. rewrite map_app, in_app_iff.
      assert (Ek : map fst (stack_meta len (appends M)) = map fst (appends M)) by (unfold stack_meta; rewrite map_map; reflexivity). rewrite Ek.
      rewrite <- (once_keys (sites s p [])). fold M. split.
      + intros [Hin|Hin]; apply in_map_iff in Hin as (e & <- & Hin); apply filter_In in Hin as [Hin _]; apply (in_map fst) in Hin; exact Hin.
      + intros Hin. apply In_dkeys_dget in Hin as ([m a] & Hg). pose proof (Hm _ _ _ Hg) as Hst. apply dget_In in Hg.
        destruct m; try discriminate; [right|left|left]; apply in_map_iff; eexists; (split; [|apply filter_In; split; [exact Hg|reflexivity]]); reflexivity.
    - intros n av Hg. rewrite dget_collect, (Hgd _ _ Hg). cbn [fst snd clobberish].
      rewrite !last_eff_app, stacks_last by exact HN. assert (E' : dget (appends M) n = Some (Append, av)) by (apply dget_filter; auto). rewrite E'. reflexivity.
    - intros n m av Hg Hcl. rewrite dget_collect, (Hgd _ _ Hg). cbn [fst snd]. rewrite Hcl.
      rewrite !last_eff_app, stacks_last by exact HN.
      assert (E' : dget (appends M) n = None).
      { destruct (dget (appends M) n) as [x|] eqn:E; [|reflexivity]. apply dget_filter in E as [E1' E2]; [|exact HN]. rewrite Hg in E1'. injection E1' as <-. cbn in E2. destruct m; discriminate. }
      rewrite E'. rewrite last_eff_filter.
      assert (Emem : mem n (dkeys (clobbers M)) = true). { apply mem_In. eapply dget_In_keys. apply dget_filter; [exact HN|]. split; [exact Hg|exact Hcl]. }
      rewrite Emem. f_equal. destruct (last_eff (List.concat (rev_if rv (map snd (rev_if rv yos)))) n); [reflexivity|].
      rewrite resets_last by exact HN. rewrite Hg. destruct (clobberish m && negb (is_cond m))%bool; reflexivity.
  Qed.
  Theorem C28_strict_in_scan_raises s {C X Y} rv len (p : prog (C * X) (C * Y)) n av :
    In (n, (Strict, av)) (once (sites s p [])) -> exists e, call_and_reap s (Scan rv len p) = inr e.
  Proof.
    intros Hin. unfold call_and_reap. cbn [reapT]. destruct (reapT s p []) as [[Mb pb]|e] eqn:E; [|eexists; reflexivity]. cbn [rb fst snd]. cbv zeta.
    pose proof (reapT_meta s p _ _ _ E) as EM. change (dmerge [] (sites s p [])) with (once (sites s p [])) in EM. rewrite <- EM in Hin.
    assert (Ex : existsb (fun e => is_strict (fst (snd e))) Mb = true) by (apply existsb_exists; eexists; split; [exact Hin|reflexivity]). rewrite Ex. eexists; reflexivity.
  Qed.

  (** ** C29 *)
  Inductive loops {C} (c : C -> res bool) (f : C -> res (C * list occ)) : C -> C -> list (list occ) -> Prop :=
  | loop_stop x : c x = inl false -> loops c f x x []
  | loop_step x y z o os : c x = inl true -> f x = inl (y, o) -> loops c f y z os -> loops c f x z (o :: os).
  Theorem C29_reap_while_partial s {C} c (p : prog C C) r fuel x y d :
    call_and_reap s (While c p) = inl r -> tame s p [] -> no_mix (sites s p []) -> run fuel r x = inl (y, d) ->
    exists os, loops c (fun z => sem s fuel p [] z) x y os /\
      (forall n, In n (dkeys d) <-> In n (dkeys (sites s p []))) /\
      (forall n m av, dget (once (sites s p [])) n = Some (m, av) ->
         clobberish m = true /\ dget d n = Some (match last_eff (List.concat os) n with Some v => v | None => zeros av end)).
  Proof.
    intros H Ht Hm Hrun. pose proof H as H'. unfold call_and_reap in H'. apply rb_inl in H' as ([Ms ps] & Hs & _). cbn [reapT] in Hs. apply rb_inl in Hs as ([Mb pb] & Hb & Hs). cbv zeta in Hs. cbn [fst snd] in Hs.
    destruct (existsb (fun e => negb (clobberish (fst (snd e)))) Mb) eqn:Ex; [discriminate|]. clear Hs Ms ps.
    pose proof (reapT_meta s p _ _ _ Hb) as EM. change (dmerge [] (sites s p [])) with (once (sites s p [])) in EM. subst Mb.
    set (M := once (sites s p [])) in *. assert (HN : NoDup (dkeys M)) by apply once_nodup.
    assert (Hreg : regular s (While c p) []).
    { split; [cbn [tame2]; auto|]. cbn [sites2]. eapply no_mix_incl; [apply once_incl|exact Hm]. }
    rewrite (call_and_reap_sem s fuel _ r _ H Hreg) in Hrun. cbn [sem2 sites2] in Hrun. fold M in Hrun.
    rewrite rb_assoc in Hrun. apply rb_inl in Hrun as ([y' o] & E1 & Hrun). cbn [rb fst snd] in Hrun. injection Hrun as <- <-.
    assert (K : forall k u ou, while_loop k (fun co => c (fst co)) (fun co => rb (sem s fuel p [] (fst co)) (fun r => inl (fst r, snd co ++ snd r))) (u, ou) = inl (y', o) ->
      exists os, loops c (fun z => sem s fuel p [] z) u y' os /\ o = ou ++ List.concat os).
    { induction k as [|k IH]; intros u ou E; cbn [while_loop fst snd] in E; destruct (c u) as [[|]|] eqn:Ec; cbn [rb] in E; try discriminate.
      - injection E as <- <-. exists []. split; [constructor; exact Ec|rewrite app_nil_r; reflexivity].
      - apply rb_inl in E as ([v ov] & E2 & E). apply rb_inl in E2 as ([v1 o1] & E2 & E3). cbn [fst snd] in *. injection E3 as -> <-. apply IH in E as (os & L & ->).
        exists (o1 :: os). split; [econstructor; eassumption|]. cbn. rewrite app_assoc. reflexivity.
      - injection E as <- <-. exists []. split; [constructor; exact Ec|rewrite app_nil_r; reflexivity]. }
    apply K in E1 as (os & L & ->). exists os. split; [exact L|].
    match goal with |- context [collect ?x] => change x with (once M) end. rewrite (once_nodup_id M HN). split.
    - intros n. rewrite dkeys_collect. apply once_keys.
    - intros n m av Hg. assert (Hc : clobberish m = true).
      { apply not_false_iff_true. intros Hc. rewrite <- not_true_iff_false in Ex. apply Ex, existsb_exists. exists (n, (m, av)). split; [apply dget_In, Hg|cbn; rewrite Hc; reflexivity]. }
      split; [exact Hc|]. rewrite dget_collect, Hg. cbn [app]. rewrite last_eff_app. destruct (last_eff (List.concat os) n); [reflexivity|]. rewrite resets_last, Hg by exact HN.
      destruct (clobberish m && negb (is_cond m))%bool; reflexivity.
  Qed.
  Theorem C29_while_rejects s {C} c (p : prog C C) n m av :
    In (n, (m, av)) (once (sites s p [])) -> clobberish m = false -> exists e, call_and_reap s (While c p) = inr e.
  Proof.
    intros Hin Hm. unfold call_and_reap. cbn [reapT]. destruct (reapT s p []) as [[Mb pb]|e] eqn:E; [|eexists; reflexivity]. cbn [rb fst snd]. cbv zeta.
    pose proof (reapT_meta s p _ _ _ E) as EM. change (dmerge [] (sites s p [])) with (once (sites s p [])) in EM. rewrite <- EM in Hin.
    assert (Ex : existsb (fun e => negb (clobberish (fst (snd e)))) Mb = true) by (apply existsb_exists; eexists; split; [exact Hin|cbn; rewrite Hm; reflexivity]). rewrite Ex. eexists; reflexivity.
  Qed.
  Theorem C29_reap_cond_partial s {A B} (p q : prog A B) r :
    call_and_reap s (Cond p q) = inl r -> regular s p [] -> regular s q [] ->
    exists rp rq, call_and_reap s p = inl rp /\ call_and_reap s q = inl rq /\
      (forall fuel a, run fuel r (true, a) = run fuel rp a) /\
      (forall fuel a, match run fuel rq a with
                      | inl (b, d) => exists d', run fuel r (false, a) = inl (b, d') /\ forall n, dget d' n = dget d n
                      | inr e => run fuel r (false, a) = inr e
                      end).
  Proof.
    intros H [Tp Mp] [Tq Mq]. pose proof H as H'. unfold call_and_reap in H'. apply rb_inl in H' as ([Ms ps] & Hs & _). cbn [reapT] in Hs.
    apply rb_inl in Hs as ([M1 p1] & H1 & Hs). apply rb_inl in Hs as ([M2 q1] & H2 & Hs). apply rb_inl in Hs as ([] & Hcb & _). cbn [fst snd] in Hcb.
    assert (Cp : exists rp, call_and_reap s p = inl rp) by (unfold call_and_reap; rewrite H1; eexists; reflexivity).
    assert (Cq : exists rq, call_and_reap s q = inl rq) by (unfold call_and_reap; rewrite H2; eexists; reflexivity).
    destruct Cp as [rp Cp], Cq as [rq Cq]. exists rp, rq. split; [exact Cp|]. split; [exact Cq|].
    pose proof (reapT_meta s p _ _ _ H1) as E1. change (dmerge [] (sites s p [])) with (once (sites s p [])) in E1.
    pose proof (reapT_meta s q _ _ _ H2) as E2. change (dmerge [] (sites s q [])) with (once (sites s q [])) in E2. subst M1 M2.
    assert (Hreg : regular s (Cond p q) []).
    { split; [cbn [tame2]; auto|]. cbn [sites2]. eapply no_mix_incl; [apply once_incl|exact Mp]. }
    assert (EO : once (once (sites s p [])) = once (sites s p [])) by (apply once_nodup_id, once_nodup).
    destruct (check_branches_spec _ _ (once_nodup _) (once_nodup _) Hcb) as [K1 K2].
    split; intros fuel a; rewrite (call_and_reap_sem s fuel _ r _ H Hreg); cbn [sem2 sites2 fst snd]; rewrite EO.
    - rewrite (call_and_reap_sem s fuel _ rp _ Cp) by (split; assumption). reflexivity.
    - rewrite (call_and_reap_sem s fuel _ rq _ Cq) by (split; assumption). destruct (sem s fuel q [] a) as [[b o]|e]; cbn [rb fst snd]; [|reflexivity].
      eexists. split; [reflexivity|]. intros n. rewrite !dget_collect. destruct (dget (once (sites s p [])) n) as [[m av]|] eqn:E.
      + destruct (K2 _ _ _ E) as (m1 & -> & _). reflexivity.
      + rewrite (K1 _ E). reflexivity.
  Qed.
  Theorem C29_cond_rejects s {A B} (p q : prog A B) n :
    In n (dkeys (sites s p [])) /\ ~ In n (dkeys (sites s q [])) \/ In n (dkeys (sites s q [])) /\ ~ In n (dkeys (sites s p [])) ->
    exists e, call_and_reap s (Cond p q) = inr e.
  Proof.
    intros Hn. unfold call_and_reap. cbn [reapT]. destruct (reapT s p []) as [[M1 p1]|e] eqn:H1; [|eexists; reflexivity]. cbn [rb fst snd].
    destruct (reapT s q []) as [[M2 q1]|e] eqn:H2; [|eexists; reflexivity]. cbn [rb fst snd].
    destruct (check_branches M1 M2) as [[]|e] eqn:Hcb; [|eexists; reflexivity]. exfalso.
    pose proof (reapT_meta s p _ _ _ H1) as E1. change (dmerge [] (sites s p [])) with (once (sites s p [])) in E1.
    pose proof (reapT_meta s q _ _ _ H2) as E2. change (dmerge [] (sites s q [])) with (once (sites s q [])) in E2. subst M1 M2.
    destruct (check_branches_spec _ _ (once_nodup _) (once_nodup _) Hcb) as [K1 K2]. rewrite <- (once_keys (sites s p [])), <- (once_keys (sites s q [])) in Hn.
    destruct Hn as [[Hi Hn]|[Hi Hn]]; apply In_dkeys_dget in Hi as ([m av] & Hi); apply dget_None_iff in Hn.
    - destruct (K2 _ _ _ Hi) as (m1 & E & _). congruence.
    - rewrite (K1 _ Hn) in Hi. discriminate.
  Qed.

  (** ** C30 *)
  Theorem C30_reap_nest_partial s {A B} sc (p : prog A B) r : passes s sc = true ->
    call_and_reap s p = inl r -> tame s p [] -> no_cond (sites s p []) ->
    exists rn, call_and_reap s (Nest sc p) = inl rn /\
      forall fuel a, run fuel rn a = rb (run fuel r a) (fun bd => inl (fst bd, match snd bd with [] => [] | d => [(sc, Dict d)] end)).
  Proof.
    intros Hsc H Ht Hc. pose proof H as H'. unfold call_and_reap in H'. apply rb_inl in H' as ([M1 p1] & H1 & _).
    assert (Cn : exists rn, call_and_reap s (Nest sc p) = inl rn).
    { unfold call_and_reap. cbn [reapT]. rewrite H1. cbn [rb fst snd]. destruct M1; cbn [resow_meta rb]; [eexists; reflexivity|]. rewrite Hsc. cbn. eexists; reflexivity. }
    destruct Cn as [rn Cn]. exists rn. split; [exact Cn|]. intros fuel a.
    assert (Hreg : regular s (Nest sc p) []).
    { split; [cbn [tame2]; auto|]. cbn [sites2]. change (sub [] sc) with (@nil (string * tree)). unfold scope_site. destruct (sites s p []); [intros ? ? ? ? ? []|]. rewrite Hsc.
      intros k m1 a1 m2 a2 [E1|[]] [E2|[]]. injection E1 as _ <- _. injection E2 as _ <- _. reflexivity. }
    rewrite (call_and_reap_sem s fuel _ rn _ Cn Hreg), (call_and_reap_sem s fuel _ r _ H) by (split; [exact Ht|apply no_cond_no_mix, Hc]).
    cbn [sem2 sites2]. change (sub [] sc) with (@nil (string * tree)). change (sub [] sc) with (@nil (string * tree)). cbn [rb]. rewrite !rb_assoc. apply rb_ext. intros [b o]. cbn [rb fst snd].
    unfold scope_site. destruct (sites s p []) as [|e l] eqn:E; [reflexivity|]. rewrite Hsc. cbn [map fst snd]. rewrite <- E.
    cbn [once dmerge fold_left dset]. unfold collect at 1. cbn [map fst snd]. rewrite last_eff_one, String.eqb_refl. cbn [andb].
    destruct (once (sites s p [])) as [|e1 l1] eqn:E1; [apply (proj1 (once_nil _)) in E1; congruence|]. reflexivity.
  Qed.
  Theorem C30_nest_without_sows s {A B} sc (p : prog A B) r : call_and_reap s p = inl r -> sites s p [] = [] -> tame s p [] ->
    exists rn, call_and_reap s (Nest sc p) = inl rn /\ forall fuel a, run fuel rn a = rb (run fuel p a) (fun b => inl (b, [])).
  Proof.
    intros H E Ht. pose proof H as H'. unfold call_and_reap in H'. apply rb_inl in H' as ([M1 p1] & H1 & _). pose proof (reapT_meta s p _ _ _ H1) as EM. rewrite E in EM. cbn in EM. subst M1.
    assert (Cn : exists rn, call_and_reap s (Nest sc p) = inl rn) by (unfold call_and_reap; cbn [reapT]; rewrite H1; cbn; eexists; reflexivity).
    destruct Cn as [rn Cn]. exists rn. split; [exact Cn|]. intros fuel a.
    rewrite (call_and_reap_sem s fuel _ rn _ Cn), (run_sem_eq s s).
    - cbn [sem2 sites2]. change (sub [] sc) with (@nil (string * tree)). change (sub [] sc) with (@nil (string * tree)). cbn [rb]. rewrite !rb_assoc, E. apply rb_ext. intros [b o]. reflexivity.
    - split; [cbn [tame2]; change (sub [] sc) with (@nil (string * tree)); split; [exact Ht|rewrite E; intros ? ? ? []]|]. cbn [sites2]. change (sub [] sc) with (@nil (string * tree)). rewrite E. intros ? ? ? ? ? [].
  Qed.
  (** planting in a nest is planting the sub-dictionary in its body *)
  Theorem C30_plant_nest s {A B} sc (p : prog A B) pd d p' : dget pd sc = Some (Dict d) -> plant s p d = inl p' ->
    exists pn, plant s (Nest sc p) pd = inl pn /\ forall fuel a, run fuel pn (a, pd) = run fuel p' (a, d).
  Proof.
    unfold plant. intros Hd H. apply rb_inl in H as ([dn q] & H & E). injection E as <-. cbn [plantT].
    assert (Es : sub_skel (quiet s p) (skels_of pd) sc = inl (skels_of d)).
    { unfold sub_skel, skels_of. rewrite (dget_map (fun kt : string * tree => skel_of (snd kt))), Hd. reflexivity. }
    rewrite Es. cbn [rb]. rewrite H. cbn [rb fst snd]. eexists. split; [reflexivity|]. intros fuel a. cbn [run fst snd rb]. unfold sub_plants, skels_of. rewrite (dget_map (fun kt : string * tree => skel_of (snd kt))), Hd. reflexivity.
  Qed.
  Theorem C30_plant_nest_missing s {A B} sc (p : prog A B) pd p' : dget pd sc = None -> plant s p [] = inl p' ->
    exists pn, plant s (Nest sc p) pd = inl pn /\ forall fuel a, run fuel pn (a, pd) = run fuel p' (a, []).
  Proof.
    unfold plant. intros Hd H. apply rb_inl in H as ([dn q] & H & E). injection E as <-. cbn [plantT].
    assert (Es : sub_skel (quiet s p) (skels_of pd) sc = inl []).
    { unfold sub_skel, skels_of. rewrite (dget_map (fun kt : string * tree => skel_of (snd kt))), Hd. reflexivity. }
    rewrite Es. cbn [rb]. change (plantT s p [] []) with (plantT s p (skels_of []) []). rewrite H. cbn [rb fst snd]. eexists. split; [reflexivity|]. intros fuel a. cbn [run fst snd rb]. unfold sub_plants, skels_of. rewrite (dget_map (fun kt : string * tree => skel_of (snd kt))), Hd. reflexivity.
  Qed.
  (** equal names in different scopes do not collide *)
  Theorem C30_scopes_do_not_collide s {A B C} s1 s2 (p : prog A B) (q : prog B C) rp rq : s1 <> s2 ->
    call_and_reap s p = inl rp -> call_and_reap s q = inl rq -> exists r, call_and_reap s (Seq (Nest s1 p) (Nest s2 q)) = inl r.
  Proof.
    intros Hne Hp Hq. unfold call_and_reap in Hp, Hq. apply rb_inl in Hp as ([M1 p1] & H1 & _). apply rb_inl in Hq as ([M2 q1] & H2 & _).
    unfold call_and_reap. cbn [reapT]. rewrite H1. cbn [rb fst snd].
    destruct M1 as [|e1 M1]; [|cbn [resow_meta]; destruct (passes s s1)]; cbn [rb fst snd]; try (unfold handle at 1; cbn [dget dset rb fst snd]); rewrite H2; cbn [rb fst snd];
      destruct M2; try (cbn; eexists; reflexivity); cbn [resow_meta]; destruct (passes s s2); try (cbn; eexists; reflexivity).
    cbn. unfold handle. cbn. destruct (String.eqb_spec s2 s1); [congruence|]. cbn. eexists; reflexivity.
  Qed.

  (** ** C31 *)
  Theorem C31_plant_overrides s {A B} (p : prog A B) pd p' : plant s p pd = inl p' ->
    forall fuel a, run fuel p' (a, pd) = rb (sem s fuel p pd a) (fun bo => inl (fst bo)).
  Proof.
    intros H fuel a. unfold plant in H. apply rb_inl in H as ([dn q] & H & E). injection E as <-. cbn [snd].
    destruct (plantT_sem s s p) with (sk := skels_of pd) (dn := @nil string) (dn' := dn) (p' := q) (pd := pd) as (_ & _ & K); [left; reflexivity|exact H|apply fits_skels_of|].
    rewrite (run_sem_eq s s fuel q (a, pd)), K. reflexivity.
  Qed.
  (** the specification at a sow: a planted name returns the plant, everything else its argument *)
  Theorem C31_at_sow s fuel t n m av pd v : m <> CondClobber -> has_aval v av = true ->
    sem s fuel (Sow t n m av) pd v =
      (if (String.eqb t (tag_of s) && passes s n)%bool then
         match dget pd n with
         | Some w => if has_aval w av then inl (w, []) else inr TypeErr
         | None => inl (v, [(n, (v, true))])
         end
       else inl (v, [])).
  Proof.
    intros Hm Hv. cbn [sem2]. assert (Ec : is_cond m = false) by (destruct m; [reflexivity..|contradiction]). rewrite Ec. unfold at_sow, chk. rewrite Hv. cbn [rb]. unfold seen, haskey, planted, chk.
    destruct (String.eqb t (tag_of s) && passes s n)%bool; [|reflexivity]. cbn [andb]. destruct (dget pd n) as [w|]; [|reflexivity]. destruct (has_aval w av); reflexivity.
  Qed.
  Theorem C31_nothing_planted s {A B} (p : prog A B) p' : plant s p [] = inl p' -> forall fuel a, run fuel p' (a, []) = run fuel p a.
  Proof. intros H fuel a. rewrite (C31_plant_overrides s p [] p' H), (run_sem_eq s s). reflexivity. Qed.
  (** the sows of a program outside nests, calls and control flow *)
  Fixpoint direct {A B} (p : prog A B) : list (string * (string * mode)) :=
    match p with
    | Seq p q => direct p ++ direct q
    | First _ p => direct p
    | Sow t n m _ => [(t, (n, m))]
    | SowCond t n _ => [(t, (n, CondClobber))]
    | _ => []
    end.
  Lemma plantT_direct s {A B} (p : prog A B) : forall sk dn dn' p', plantT s p sk dn = inl (dn', p') -> 
    (forall n, In n dn -> In n dn') /\
    (forall t n m, In (t, (n, m)) (direct p) -> t = tag_of s -> passes s n = true -> ~ In n dn) /\
    (forall t n m, In (t, (n, m)) (direct p) -> t = tag_of s -> passes s n = true -> haskey sk n = true -> clobberish m = false -> In n dn').
  Proof.
    induction p as [A B f|A B C p IHp q IHq|A B C p IHp|t n m av|t n av|A B sc p IHp|A B p IHp|C X Y rv len p IHp|C c p IHp|A B p IHp q IHq]; intros sk dn dn' p' H; cbn [plantT direct] in *.
    - injection H as <- <-. split; [auto|]. split; intros ? ? ? [].
    - apply rb_inl in H as ([d1 p1] & H1 & H). apply rb_inl in H as ([d2 q1] & H2 & H). injection H as <- <-. cbn [fst snd] in *.
      destruct (IHp _ _ _ _ H1) as (P1 & P2 & P3), (IHq _ _ _ _ H2) as (Q1 & Q2 & Q3). split; [auto|]. split.
      + intros t n m Hin Ht Hn. apply in_app_or in Hin as [Hin|Hin]; [eapply P2; eassumption|]. intros Hd. eapply (Q2 _ _ _ Hin Ht Hn). auto.
      + intros t n m Hin Ht Hn Hk Hm. apply in_app_or in Hin as [Hin|Hin]; [apply Q1; eapply P3; eassumption|eapply Q3; eassumption].
    - apply rb_inl in H as ([d1 p1] & H1 & H). injection H as <- <-. eapply IHp, H1.
    - destruct (is_cond m); [discriminate|]. destruct (String.eqb_spec t (tag_of s)) as [->|Hne].
      + destruct (passes s n) eqn:Ep.
        * destruct (mem n dn) eqn:Em; [discriminate|]. assert (Hn : ~ In n dn) by (intros K; apply mem_In in K; congruence).
          destruct (haskey sk n) eqn:Ek; injection H as <- <-.
          -- split; [intros k Hk; destruct (clobberish m); cbn; auto|]. split.
             ++ intros t k m' [E|[]] _ _. injection E as <- <- <-. exact Hn.
             ++ intros t k m' [E|[]] _ _ _ Hm. injection E as <- <- <-. rewrite Hm. cbn. auto.
          -- split; [auto|]. split.
             ++ intros t k m' [E|[]] _ _. injection E as <- <- <-. exact Hn.
             ++ intros t k m' [E|[]] _ _ Hk. injection E as <- <- <-. congruence.
        * injection H as <- <-. split; [auto|]. split; intros t k m' [E|[]]; injection E as <- <- <-; congruence.
      + destruct (exclusive s); injection H as <- <-; (split; [auto|]; split; intros t' k m' [E|[]]; injection E as <- <- <-; congruence).
    - destruct (String.eqb_spec t (tag_of s)) as [->|Hne].
      + destruct (passes s n) eqn:Ep.
        * destruct (mem n dn) eqn:Em; [discriminate|]. assert (Hn : ~ In n dn) by (intros K; apply mem_In in K; congruence).
          destruct (haskey sk n) eqn:Ek; injection H as <- <-; (split; [auto|]; split; intros t k m' [E|[]]; injection E as <- <- <-; [intros _ _; exact Hn|discriminate]).
        * injection H as <- <-. split; [auto|]. split; intros t k m' [E|[]]; injection E as <- <- <-; congruence.
      + destruct (exclusive s); injection H as <- <-; (split; [auto|]; split; intros t' k m' [E|[]]; injection E as <- <- <-; congruence).
    - apply rb_inl in H as (sk' & _ & H). apply rb_inl in H as (r & _ & H). injection H as <- <-. split; [auto|]. split; intros ? ? ? [].
    - apply rb_inl in H as (r & _ & H). injection H as <- <-. split; [auto|]. split; intros ? ? ? [].
    - apply rb_inl in H as (r & _ & H). cbv zeta in H. destruct (existsb _ _); [discriminate|]. apply rb_inl in H as (r' & _ & H). injection H as <- <-. split; [auto|]. split; intros ? ? ? [].
    - apply rb_inl in H as (r & _ & H). cbv zeta in H. destruct (existsb _ _); [discriminate|]. apply rb_inl in H as (r' & _ & H). injection H as <- <-. split; [auto|]. split; intros ? ? ? [].
    - apply rb_inl in H as (r & _ & H). apply rb_inl in H as (r' & _ & H). apply rb_inl in H as (r1 & _ & H). apply rb_inl in H as (r2 & _ & H). apply rb_inl in H as (r3 & _ & H). injection H as <- <-. split; [auto|]. split; intros ? ? ? [].
  Qed.
  (** planting a strict (or append) name that is sown again later in the same scope raises *)
  Theorem C31_planted_twice_raises_partial s {A B C} (p : prog A B) (q : prog B C) pd n m1 m2 :
    In (tag_of s, (n, m1)) (direct p) -> In (tag_of s, (n, m2)) (direct q) -> passes s n = true -> haskey pd n = true -> clobberish m1 = false ->
    exists e, plant s (Seq p q) pd = inr e.
  Proof.
    intros Hp Hq Hn Hk Hm. unfold plant. cbn [plantT]. destruct (plantT s p (skels_of pd) []) as [[d1 p1]|e] eqn:H1; [|eexists; reflexivity]. cbn [rb fst snd].
    destruct (plantT s q (skels_of pd) d1) as [[d2 q1]|e] eqn:H2; [|eexists; reflexivity]. exfalso.
    destruct (plantT_direct s p _ _ _ _ H1) as (_ & _ & P3). destruct (plantT_direct s q _ _ _ _ H2) as (_ & Q2 & _).
    eapply (Q2 _ _ _ Hq eq_refl Hn), P3; try eassumption; [reflexivity|]. rewrite (fits_haskey _ pd); [exact Hk|apply fits_skels_of].
  Qed.

  (** ** C32 *)
  Theorem C32_plant_reaped s {A B} (p : prog A B) r fuel a b d p' :
    (forall n, passes s n = true) -> strictp s p ->
    call_and_reap s p = inl r -> run fuel r a = inl (b, d) -> plant s p d = inl p' ->
    run fuel p' (a, d) = inl b /\ run fuel p a = inl b.
  Proof.
    intros Hall Hs H Hrun Hpl. pose proof H as H'. unfold call_and_reap in H'. apply rb_inl in H' as ([M1 p1] & H1 & _).
    assert (Hreg : regular s p []) by (split; [apply strictp_tame, Hs|apply no_cond_no_mix, no_clob_no_cond, strictp_sites, Hs]).
    rewrite (call_and_reap_sem s fuel p r a H Hreg) in Hrun. apply rb_inl in Hrun as ([b' o] & E & Hrun). cbn [fst snd] in Hrun. injection Hrun as <- <-.
    split; [|rewrite (run_sem_eq s s), E; reflexivity].
    rewrite (C31_plant_overrides s p _ p' Hpl). unfold plant in Hpl. apply rb_inl in Hpl as ([dn q] & Hpl & Eq).
    destruct (strict_eff s fuel p _ _ _ _ _ H1 Hs E) as (K1 & K2 & K3).
    rewrite (replay s Hall fuel p _ _ H1 Hs _ _ _ Hpl) with (b := b') (o := o); [reflexivity| |apply fits_skels_of|exact E|].
    - rewrite dkeys_collect. apply once_nodup.
    - intros n Hn. rewrite dget_collect, once_nodup_id by exact K3. apply In_dkeys_dget in Hn as ([m av] & Hn). rewrite Hn.
      destruct (K1 n m av (dget_In _ _ _ Hn)) as (v & -> & _). reflexivity.
  Qed.

  (** ** C33 *)
  Theorem C33_harvest_partial s {A B} (p : prog A B) pd h : harvest s p pd = inl h -> regular s p pd ->
    forall fuel a, run fuel h (a, pd) = rb (sem s fuel p pd a) (fun bo => inl (fst bo, collect (once (sites s p pd)) (snd bo))).
  Proof.
    intros H [Ht Hm] fuel a. unfold harvest in H. apply rb_inl in H as (q & Hq & H). unfold plant in Hq. apply rb_inl in Hq as ([dn q'] & Hq & E). injection E as <-. cbn [snd] in H.
    destruct (plantT_sem s s p) with (sk := skels_of pd) (dn := @nil string) (dn' := dn) (p' := q') (pd := pd) as (K1 & K2 & K3); [left; reflexivity|exact Hq|apply fits_skels_of|].
    rewrite (call_and_reap_sem s fuel q' h (a, pd) H); [|split; [auto|rewrite K1; exact Hm]]. rewrite K1, K3. reflexivity.
  Qed.
  Theorem C33_harvest_output s {A B} (p : prog A B) pd h p' : harvest s p pd = inl h -> plant s p pd = inl p' ->
    forall fuel a, match run fuel p' (a, pd) with inl b => exists d, run fuel h (a, pd) = inl (b, d) | inr e => run fuel h (a, pd) = inr e end.
  Proof. intros H Hp fuel a. unfold harvest in H. rewrite Hp in H. cbn [rb] in H. apply (C23_reap_outputs s p' h H). Qed.
  (** no planted name of the outer scope is reaped (unless it is a scope that was planted in part) *)
  Theorem C33_not_reaped s t n m av pd : haskey pd n = true -> sites s (Sow t n m av) pd = [].
  Proof. intros H. cbn. unfold site_here. rewrite H. destruct (seen s t n); reflexivity. Qed.
  Lemma harvest_mute s {A B} (p : prog A B) pd h : harvest s p pd = inl h -> ok h /\ mute s h.
  Proof.
    unfold harvest. intros H. apply rb_inl in H as (q & Hq & H). unfold call_and_reap in H. apply rb_inl in H as ([M q'] & H & E). injection E as <-. cbn. repeat split; auto.
    - eapply reapT_ok; exact H.
    - eapply reapT_mute; [right; reflexivity|exact H].
  Qed.
  Theorem C33_nothing_left_to_reap s {A B} (p : prog A B) pd h : harvest s p pd = inl h ->
    exists h', call_and_reap s h = inl h' /\ forall fuel x, run fuel h' x = rb (run fuel h x) (fun b => inl (b, [])).
  Proof. intros H. apply harvest_mute in H as [H1 H2]. apply call_and_reap_mute; assumption. Qed.
  Theorem C33_nothing_left_to_plant s {A B} (p : prog A B) pd h pd' h' : harvest s p pd = inl h -> plant s h pd' = inl h' ->
    forall fuel x, run fuel h' (x, pd') = run fuel h x.
  Proof.
    intros H Hp fuel x. rewrite (C31_plant_overrides s h pd' h' Hp). apply harvest_mute in H as [_ H2]. unfold plant in Hp. apply rb_inl in Hp as ([dn q] & Hp & _).
    rewrite (mute_plants s fuel h H2 _ _ _ Hp pd' (fits_skels_of _) x), (run_sem_eq s s fuel h x). reflexivity.
  Qed.
End props.

(** ** Concrete cases and counterexamples: arrays are lists of integers, the aval is the length *)
Open Scope Z_scope.
#[export] Instance ZArrays : Arrays := {|
  V := list Z; Av := nat; av_eqb := Nat.eqb; av_eqb_spec := Nat.eqb_eq;
  avalV := @List.length Z; zeroV := fun n => repeat 0%Z n; aval_zero := fun n => repeat_length 0%Z n |}.
Definition L (z : Z) : tree := Leaf ([z] : @V ZArrays).
Definition A1 : aval := AL (1%nat : @Av ZArrays).
Definition all (t : string) : settings := mk_settings t [] None false.
Definition val (t : tree) : Z := match t with Leaf [z] => z | _ => 0 end.
Definition do_reap {A B} (s : settings) (p : prog A B) (a : A) := rb (call_and_reap s p) (fun r => run 10 r a).
Definition do_plant {A B} (s : settings) (p : prog A B) (pd : plants) (a : A) := rb (plant s p pd) (fun r => run 10 r (a, pd)).
Definition do_harvest {A B} (s : settings) (p : prog A B) (pd : plants) (a : A) := rb (harvest s p pd) (fun r => run 10 r (a, pd)).

(** x+1 sown as "h"; then nested: (x+1)*2 sown as "h" in scope "f"; then a reversed scan that appends its carry *)
Definition step (f : Z -> Z) : prog tree tree := Pure (fun t => inl (L (f (val t)))).
Definition body : prog (tree * Z) (tree * tree) :=
  Seq (Pure (fun cx => inl (L (val (fst cx) + snd cx), tt)))
    (Seq (First unit (Sow "t" "c" Append A1)) (Pure (fun x => inl (fst x, fst x)))).
Definition ex : prog tree (tree * list tree) :=
  Seq (step (fun x => x + 1)) (Seq (Sow "t" "h" Strict A1)
    (Seq (Nest "f" (Seq (step (fun x => x * 2)) (Sow "t" "h" Strict A1)))
      (Seq (Pure (fun t => inl (t, [1; 2; 3]%Z))) (Scan true 3 body)))).
Example C24_example :
  do_reap (all "t") ex (L 4) =
    inl ((L 16, [L 16; L 15; L 13]), [("h", L 5); ("f", Dict [("h", L 10)]); ("c", Stk [L 16; L 15; L 13])]) /\
  run 10 ex (L 4) = inl (L 16, [L 16; L 15; L 13]) /\
  do_reap (mk_settings "t" ["h"] None false) ex (L 4) = inl ((L 16, [L 16; L 15; L 13]), [("c", Stk [L 16; L 15; L 13])]) /\
  do_reap (all "u") ex (L 4) = inl ((L 16, [L 16; L 15; L 13]), []).
Proof. repeat split; vm_compute; reflexivity. Qed.
Example C24_example_regular : regular (all "t") ex [].
Proof.
  split.
  - cbn. repeat split; auto.
    + intros n m a H. cbn in H. destruct H as [H|[]]. injection H as <- <- <-. reflexivity.
    + left. intros n m a H. cbn in H. destruct H as [H|[]]. injection H as <- <- <-. reflexivity.
  - intros n m1 a1 m2 a2 H1 H2. cbn in H1, H2. destruct H1 as [H1|[H1|[H1|[]]]], H2 as [H2|[H2|[H2|[]]]]; injection H1 as <- <- <-; injection H2; intros; subst; reflexivity.
Qed.
Example C25_example : do_reap (all "t") (Seq (Sow "t" "h" Strict A1) (Sow "t" "h" Clobber A1)) (L 4) = inr ValueErr /\
  do_reap (all "t") (sow_all "t" "h" A1 [(Clobber, L 1); (Clobber, L 2); (Clobber, L 3)]) tt = inl (tt, [("h", L 3)]).
Proof. split; vm_compute; reflexivity. Qed.
Example C26_example : do_reap (all "t") (sow_conds "t" "h" A1 [(L 1, true); (L 2, true); (L 3, false)]) tt = inl (tt, [("h", L 2)]) /\
  do_reap (all "t") (sow_conds "t" "h" A1 [(L 1, false); (L 3, false)]) tt = inl (tt, [("h", L 0)]) /\
  do_reap (all "t") (clobber_then_cond "t" "h" A1 (L 7) (L 8) false) tt = inl (tt, [("h", L 0)]).
Proof. repeat split; vm_compute; reflexivity. Qed.
(** sow_cond below a nest: the predicate is lost, the value is kept even though it did not take effect *)
Theorem C26_nest_refuted : do_reap (all "t") (Nest "f" (sow_conds "t" "h" A1 [(L 7, false)])) tt = inl (tt, [("f", Dict [("h", L 7)])]).
Proof. vm_compute. reflexivity. Qed.
Definition two_tags : prog tree tree := Seq (Sow "t" "h" Strict A1) (Seq (step (fun x => x + 1)) (Sow "u" "h" Strict A1)).
Example C27_example : rb (call_and_reap (all "t") two_tags) (fun r => do_reap (all "u") r (L 4)) = inl ((L 5, [("h", L 4)]), [("h", L 5)]) /\
  rb (call_and_reap (mk_settings "t" [] None true) two_tags) (fun r => do_reap (all "u") r (L 4)) = inl ((L 5, [("h", L 4)]), []).
Proof. split; vm_compute; reflexivity. Qed.
(** C28: mixing modes in one body.  The name "a" is sown with sow_cond (predicate True in every iteration) and "b" with
    clobber: the reaped "a" is zeros.  With the names exchanged the transformation raises. *)
Definition mixed (cn bn : string) : prog (tree * Z) (tree * tree) :=
  Seq (Pure (fun cx => inl (L (val (fst cx) + snd cx), tt)))
    (Seq (First unit (Seq (Pure (fun t => inl (t, true))) (Seq (SowCond "t" cn A1) (Sow "t" bn Clobber A1)))) (Pure (fun x => inl (fst x, fst x)))).
Theorem C28_mixed_modes_refuted :
  do_reap (all "t") (Scan false 2 (mixed "a" "b")) (L 0, [1; 2]%Z) = inl ((L 3, [L 1; L 3]), [("a", L 0); ("b", L 3)]) /\
  do_reap (all "t") (Scan false 2 (mixed "b" "a")) (L 0, [1; 2]%Z) = inr TypeErr.
Proof. split; vm_compute; reflexivity. Qed.
Definition clob_body : prog (tree * Z) (tree * tree) :=
  Seq (Pure (fun cx => inl (L (val (fst cx) + snd cx), tt)))
    (Seq (First unit (Seq (Sow "t" "c" Append A1) (Sow "t" "b" Clobber A1))) (Pure (fun x => inl (fst x, fst x)))).
Example C28_example :
  do_reap (all "t") (Scan true 2 clob_body) (L 0, [1; 5]%Z) = inl ((L 6, [L 6; L 5]), [("b", L 6); ("c", Stk [L 6; L 5])]) /\
  do_reap (all "t") (Scan true 0 clob_body) (L 0, []) = inl ((L 0, []), [("b", L 0); ("c", Stk [])]) /\
  do_reap (all "t") (Scan false 2 (Seq (First Z (Sow "t" "x" Strict A1)) (Pure (fun x => inl x)))) (L 0, [1; 5]%Z) = inr ValueErr.
Proof. repeat split; vm_compute; reflexivity. Qed.
Example C28_example_hyps : tame (all "t") clob_body [] /\ no_cond (sites (all "t") clob_body []).
Proof.
  split; [cbn; tauto|]. intros n m a H. cbn in H. destruct H as [H|[H|[]]]; injection H as <- <- <-; reflexivity.
Qed.
(** C25: a clobber sow followed by a loop that sows the same name but does not run: the value is lost *)
Definition dec : prog tree tree := Seq (step (fun x => x - 1)) (Sow "t" "w" Clobber A1).
Theorem C25_zero_iterations_refuted :
  do_reap (all "t") (Seq (Sow "t" "w" Clobber A1) (While (fun t => inl (5 <? val t)) dec)) (L 3) = inl (L 3, [("w", L 0)]).
Proof. vm_compute. reflexivity. Qed.
Example C29_example :
  do_reap (all "t") (While (fun t => inl (5 <? val t)) dec) (L 8) = inl (L 5, [("w", L 5)]) /\
  do_reap (all "t") (While (fun t => inl (5 <? val t)) dec) (L 3) = inl (L 3, [("w", L 0)]) /\
  do_reap (all "t") (Cond dec (Seq (step (fun x => x * 2)) (Sow "t" "w" Clobber A1))) (false, L 3) = inl (L 6, [("w", L 6)]) /\
  do_reap (all "t") (Cond dec (Sow "t" "v" Clobber A1)) (false, L 3) = inr ValueErr.
Proof. repeat split; vm_compute; reflexivity. Qed.
Example C29_example_hyps : tame (all "t") dec [] /\ no_mix (sites (all "t") dec []).
Proof. split; [cbn; tauto|]. intros n m1 a1 m2 a2 H1 H2. cbn in H1, H2. destruct H1 as [H1|[]], H2 as [H2|[]]. congruence. Qed.
Example C30_example :
  do_reap (all "t") (Nest "f" (Sow "t" "h" Strict A1)) (L 3) = inl (L 3, [("f", Dict [("h", L 3)])]) /\
  do_plant (all "t") (Nest "f" (Seq (Sow "t" "h" Strict A1) (step (fun x => x + 1)))) [("f", Dict [("h", L 7)])] (L 3) = inl (L 8).
Proof. split; vm_compute; reflexivity. Qed.
(** an allowlist that contains the name but not the scope drops the name *)
Example C30_allowlist : do_reap (mk_settings "t" [] (Some ["h"]) false) (Nest "f" (Sow "t" "h" Strict A1)) (L 3) = inl (L 3, []).
Proof. vm_compute. reflexivity. Qed.
Example C31_example :
  do_plant (all "t") ex [("h", L 10); ("c", Stk [L 1; L 2; L 4])] (L 4) = inl (L 1, [L 1; L 2; L 4]) /\
  do_plant (all "t") (Seq (Sow "t" "h" Strict A1) (Sow "t" "h" Strict A1)) [("h", L 10)] (L 4) = inr ValueErr.
Proof. split; vm_compute; reflexivity. Qed.
(** ... but not if one of the two sows is inside a call *)
Theorem C31_planted_twice_refuted :
  do_plant (all "t") (Seq (Call (Sow "t" "h" Strict A1)) (Sow "t" "h" Strict A1)) [("h", L 10)] (L 4) = inl (L 10) /\
  do_reap (all "t") (Seq (Call (Sow "t" "h" Strict A1)) (Sow "t" "h" Strict A1)) (L 4) = inr ValueErr.
Proof. split; vm_compute; reflexivity. Qed.
Example C32_example :
  rb (do_reap (all "t") ex (L 4)) (fun bd => do_plant (all "t") ex (snd bd) (L 4)) = run 10 ex (L 4) /\ strictp (all "t") ex /\ (forall n, passes (all "t") n = true).
Proof. split; [vm_compute; reflexivity|]. split; [cbn; tauto|reflexivity]. Qed.
Example C33_example :
  do_harvest (all "t") ex [("h", L 10)] (L 4) = inl ((L 26, [L 26; L 25; L 23]), [("f", Dict [("h", L 20)]); ("c", Stk [L 26; L 25; L 23])]).
Proof. vm_compute. reflexivity. Qed.
Example C33_example_hyps : regular (all "t") ex [("h", L 10)] /\ regular (all "u") two_tags [].
Proof.
  repeat split; auto.
  - intros n m a H. cbn in H. destruct H as [H|[]]. injection H as <- <- <-. reflexivity.
  - left. intros n m a H. cbn in H. destruct H as [H|[]]. injection H as <- <- <-. reflexivity.
  - intros n m1 a1 m2 a2 H1 H2. cbn in H1, H2. destruct H1 as [H1|[H1|[]]], H2 as [H2|[H2|[]]]; injection H1 as <- <- <-; injection H2; intros; subst; reflexivity.
  - intros n m1 a1 m2 a2 H1 H2. cbn in H1, H2. destruct H1 as [H1|[]], H2 as [H2|[]]; injection H1 as <- <- <-; injection H2; intros; subst; reflexivity.
Qed.

Print Assumptions C23_reap_outputs.
Print Assumptions C24_reap_exactly_partial.
Print Assumptions C25_repeated_name_raises.
Print Assumptions C26_sow_cond_last_effective_partial.
Print Assumptions C27_other_tags_kept_partial.
Print Assumptions C27_exclusive_drops.
Print Assumptions C28_reap_scan_partial.
Print Assumptions C29_reap_while_partial.
Print Assumptions C30_reap_nest_partial.
Print Assumptions C31_plant_overrides.
Print Assumptions C32_plant_reaped.
Print Assumptions C33_harvest_partial.
