(** Error-freedom, soundness and completeness of the matcher. *)
From Verif Require Import MatcherSpec MatcherProofs.
Open Scope list_scope.

Definition tuple_of (o : option val) : list val :=
  match o with Some (VSeq KTuple l) => l | _ => [] end.
Definition accinv (acc : list string) (b : bindings) : Prop :=
  forall a, In a acc -> dget b a = None \/ exists l, dget b a = Some (VSeq KTuple l).

Lemma accinv_dset_notin acc b k v : ~ In k acc -> accinv acc b -> accinv acc (dset b k v).
Proof.
  intros Hk H a Ha. rewrite dget_dset. destruct (String.eqb_spec a k); [congruence|auto].
Qed.
Lemma fold_new_ok acc m : forall nb, accinv acc nb -> exists nb', fold_new acc m nb = inl nb' /\ accinv acc nb'.
Proof.
  induction m as [|[k v] m IH]; simpl; intros nb H; [eauto|].
  destruct (mem k acc) eqn:Hk.
  - apply mem_In in Hk. unfold accumulate_value.
    assert (Hset : forall l, accinv acc (dset nb k (VSeq KTuple l))).
    { intros l a Ha. rewrite dget_dset. destruct (String.eqb a k); eauto. }
    destruct (H k Hk) as [E|[l E]]; rewrite E; apply IH; apply Hset.
  - apply mem_not_In in Hk. apply IH. now apply accinv_dset_notin.
Qed.

Lemma dget_nonacc acc (b : bindings) x :
  dget (filter (fun kv => negb (mem (fst kv) acc)) b) x = if mem x acc then None else dget b x.
Proof. rewrite (dget_filter (fun k => negb (mem k acc))). destruct (mem x acc); reflexivity. Qed.

Lemma fresh_nonacc (l acc : list string) (b : bindings) : incl l acc -> fresh l (filter (fun kv => negb (mem (fst kv) acc)) b).
Proof.
  intros Hi x Hx. rewrite dget_nonacc. apply Hi, mem_In in Hx. now rewrite Hx.
Qed.

Lemma fresh_accinv acc b : fresh acc b -> accinv acc b.
Proof. intros H a Ha. left. auto. Qed.

(** ** (E) no exceptions *)
Definition noerr_ok (p : pat) : Prop := tame p -> forall e b k, NoDup (keys b) -> fresh (specials p) b ->
  (forall b1, M p e b b1 -> snd (k b1) = None) -> snd (pmatch p e b k) = None.

Lemma inner_origin q : forall e b y, In y (fst (pmatch q e b gret)) -> M q e b y.
Proof. intros e b y Hy. apply origin in Hy as (b1 & H1 & H2). simpl in H2. destruct H2 as [<-|[]]. exact H1. Qed.

Lemma am_noerr q acc : noerr_ok q -> tame q -> incl (specials q) acc ->
  forall es b k, NoDup (keys b) -> accinv acc b ->
  (forall m, AM (M q) acc es b m -> snd (k m) = None) ->
  snd (accumulate_match (fun e b => pmatch q e b gret) acc es b k) = None.
Proof.
  intros Hq Ht Hinc es. induction es as [|e es IH]; simpl; intros b k Hnd Ha Hk; [auto|].
  apply gbind_noerr.
  - apply Hq; auto; [now apply NoDup_keys_filter | now apply fresh_nonacc].
  - intros m1 Hm1. apply inner_origin in Hm1.
    destruct (struct_sm_hyp q _ _ _ (NoDup_keys_filter _ b Hnd) Hm1) as (Hn1 & _).
    destruct (fold_new_ok acc m1 b Ha) as (nb & Hf & Hinv). rewrite Hf.
    destruct (fold_new_spec acc m1 Hn1 b nb Hf) as [Hn2 _].
    apply IH; auto. intros m HAM. apply Hk. eauto.
Qed.

Lemma star_noerr q n acc g pl sk es b k : noerr_ok q -> tame q -> incl (specials q) acc ->
  NoDup (keys b) -> fresh (onl n ++ acc) b ->
  (forall b2 rest, SM (M q) n acc pl sk es b b2 rest -> snd (k b2 rest) = None) ->
  snd (star_match (fun e b => pmatch q e b gret) n acc g pl sk es b k) = None.
Proof.
  intros Hq Ht Hinc Hnd Hf Hk. unfold star_match. unfold SM in Hk.
  assert (Hn : match n with Some x => dget b x | None => None end = None).
  { destruct n; [|reflexivity]. apply Hf. simpl; auto. }
  rewrite Hn in Hk |- *. 
  assert (Hacc : accinv acc b). { apply fresh_accinv. intros x Hx. apply Hf, in_app_iff. auto. }
  apply gbind_noerr; [reflexivity|]. intros i Hi. simpl in Hi. apply in_slice_indices in Hi as [Hi1 Hi2].
  apply gbind_noerr.
  - eapply am_noerr; eauto.
  - intros m Hm. apply am_origin with (R := M q) in Hm as (m' & HAM & Hm); [|apply inner_origin].
    simpl in Hm. destruct Hm as [<-|[]]. apply Hk. exists i, m'. auto.
Qed.

Lemma seq_noerr ps : Forall (fun p => noerr_ok p /\ noerr_ok (body p)) ps -> tame_all ps ->
  forall sk es b k, NoDup (keys b) -> fresh (flat_map specials ps) b ->
  (forall b1, Mseq sk ps es b b1 -> snd (k b1) = None) -> snd (seqm sk ps es b k) = None.
Proof.
  induction 1 as [|q ps [Hq Hq'] _ IH]; intros Ht sk es b k Hnd Hf Hk.
  - destruct es; simpl; [|reflexivity]. apply Hk. split; reflexivity.
  - cbn [flat_map] in Hf. destruct (is_star q) eqn:Hs.
    + destruct q as [| | | | | | | |q n acc g pl]; try discriminate. destruct Ht as ((Ht1 & Ht2 & Ht3) & Hd & Ht).
      rewrite seqm_star. apply star_noerr; auto.
      { intros x Hx. apply Hf. cbn [specials]. rewrite !in_app_iff in *. tauto. }
      intros b2 rest HSM.
      destruct (sm_struct (M q) n acc pl sk es b b2 rest (names q) (struct_sm_hyp q) Hnd HSM) as (H1 & _ & H3 & _ & _).
      apply IH; auto.
      * eapply fresh_after; [|exact Hd|].
        -- intros x Hx. apply Hf, in_app_iff. auto.
        -- intros x Hx. apply H3 in Hx as [Hx|Hx]; [auto|]. right. cbn [names]. rewrite !in_app_iff in *. tauto.
      * intros b1 HM. apply Hk. cbn. eauto.
    + rewrite seqm_nonstar by exact Hs. rewrite tame_all_nonstar in Ht by exact Hs. destruct Ht as (Ht1 & Hd & Ht).
      destruct es as [|e1 es]; [reflexivity|]. apply Hq; auto.
      { intros x Hx. apply Hf, in_app_iff. auto. }
      intros b2 HM1. destruct (M_struct q e1 b b2 Hnd HM1) as ((H1 & H2 & H3) & _). apply IH; auto.
      * eapply fresh_after; [|exact Hd|exact H3]. intros x Hx. apply Hf, in_app_iff. auto.
      * intros b1 HM. apply Hk. rewrite Mseq_nonstar by exact Hs. eauto 8.
Qed.

Lemma choice_noerr runs : (forall r, In r runs -> snd r = None) -> snd (choice_match runs) = None.
Proof.
  induction runs as [|[[|y ys] er] rs IH]; simpl; intros H; [reflexivity| |];
    assert (E := H _ (or_introl eq_refl)); simpl in E; subst; [apply IH; auto | reflexivity].
Qed.

Lemma noerr p : noerr_ok p.
Proof.
  induction p using pat_ind'; intros Ht e b k0 Hnd Hf Hk.
  - cbn [pmatch]. destruct (py_eq e (VNum k z)) eqn:E; [|reflexivity]. apply Hk. split; auto.
  - cbn [pmatch]. destruct e; try reflexivity. destruct (str_match s s0) eqn:E; [|reflexivity].
    apply Hk. apply str_match_spec in E. subst. split; auto.
  - rewrite pm_seq. destruct (as_seq e) as [[sk es]|] eqn:E; [|reflexivity].
    refine (seq_noerr l H Ht _ _ _ _ Hnd Hf _). intros b1 HM. apply Hk. apply M_PSeq. eauto.
  - rewrite pm_dict. destruct e as [| | |ks' vs|]; try reflexivity.
    destruct (list_eqb String.eqb ks' ks) eqn:E; [|reflexivity].
    apply (list_eqb_spec String.eqb String.eqb_eq) in E. subst.
    refine (seq_noerr l H Ht _ _ _ _ Hnd Hf _). intros b1 HM. apply Hk. apply M_PDict. eauto.
  - cbn [pmatch]. destruct e as [| | | |c' h' kids]; try reflexivity.
    destruct (String.eqb_spec c c') as [<-|]; [|reflexivity]. destruct Ht as (Ht1 & Ht2 & Hd).
    apply IHp1; auto. { intros x Hx. apply Hf, in_app_iff. auto. }
    intros b2 HM1. destruct (M_struct _ _ _ _ Hnd HM1) as ((H1 & H2 & H3) & _). apply IHp2; auto.
    + eapply fresh_after; [|exact Hd|exact H3]. intros x Hx. apply Hf, in_app_iff. auto.
    + intros b1 HM2. apply Hk. cbn [M]. eauto 8.
  - cbn [pmatch]. cbn [M] in Hk. destruct (forallb (fun r0 => r0 e) r) eqn:Hr; [|reflexivity].
    destruct n as [x|]; [|auto]. destruct (dget b x); [|auto]. destruct (py_eq v e) eqn:E; [auto|reflexivity].
  - cbn [pmatch]. assert (Hp : snd (pmatch p e b gret) = None).
    { apply IHp; auto. }
    destruct (pmatch p e b gret) as [[|y ys] er] eqn:E; simpl in Hp; subst er; [|reflexivity].
    apply Hk. split; auto.
  - rewrite pm_choice. apply choice_noerr. intros r Hr. apply in_map_iff in Hr as (q & <- & Hq).
    rewrite Forall_forall in H. apply tame_PChoice in Ht. rewrite Forall_forall in Ht.
    destruct (Ht q Hq) as [Htq Hdq].
    apply (H q Hq); auto.
    + destruct n; [now apply NoDup_dset | auto].
    + assert (Hfq : fresh (specials q) b).
      { intros x Hx. apply Hf. cbn [specials]. apply in_app_iff. right. apply in_flat_map. eauto. }
      destruct n as [y|]; [|exact Hfq]. intros x Hx. rewrite dget_dset.
      destruct (String.eqb_spec x y); [|auto]. subst. destruct (Hdq y Hx). simpl; auto.
    + intros b1 HM. apply Hk. apply M_PChoice. apply Exists_exists. eauto.
  - destruct Ht.
Qed.

(** ** (B) everything related is reached *)
Definition reach_ok (p : pat) : Prop := tame p -> choice_free p -> forall e b k b1 y,
  NoDup (keys b) -> fresh (specials p) b -> (forall b2, M p e b b2 -> snd (k b2) = None) ->
  M p e b b1 -> In y (fst (k b1)) -> In y (fst (pmatch p e b k)).

Lemma cf_all ps :
  (fix all (l : list pat) : Prop := match l with [] => True | q :: l' => choice_free q /\ all l' end) ps
  <-> Forall choice_free ps.
Proof. induction ps as [|q ps IH]; [split; constructor|]. rewrite Forall_cons_iff, <- IH. reflexivity. Qed.

Lemma am_reach q acc : reach_ok q -> tame q -> choice_free q -> incl (specials q) acc ->
  forall es b k m y, NoDup (keys b) -> accinv acc b ->
  (forall m, AM (M q) acc es b m -> snd (k m) = None) ->
  AM (M q) acc es b m -> In y (fst (k m)) ->
  In y (fst (accumulate_match (fun e b => pmatch q e b gret) acc es b k)).
Proof.
  intros Hq Ht Hc Hinc es. induction es as [|e es IH]; cbn [accumulate_match AM]; intros b k m y Hnd Ha Hk HAM Hy.
  - now subst.
  - destruct HAM as (m1 & nb & Hm1 & Hf & HAM).
    apply gbind_reach with (x := m1).
    + apply noerr; auto; [now apply NoDup_keys_filter | now apply fresh_nonacc].
    + intros m2 Hm2. apply inner_origin in Hm2.
      destruct (struct_sm_hyp q _ _ _ (NoDup_keys_filter _ b Hnd) Hm2) as (Hn1 & _).
      destruct (fold_new_ok acc m2 b Ha) as (nb2 & Hf2 & Hinv). rewrite Hf2.
      destruct (fold_new_spec acc m2 Hn1 b nb2 Hf2) as [Hn2 _].
      apply am_noerr; auto; [apply noerr|]. intros m' HAM'. apply Hk. eauto.
    + apply Hq with (b1 := m1); simpl; auto; [now apply NoDup_keys_filter | now apply fresh_nonacc].
    + destruct (struct_sm_hyp q _ _ _ (NoDup_keys_filter _ b Hnd) Hm1) as (Hn1 & _).
      destruct (fold_new_ok acc m1 b Ha) as (nb2 & Hf2 & Hinv).
      destruct (fold_new_spec acc m1 Hn1 b nb2 Hf2) as [Hn2 _].
      rewrite Hf. assert (nb2 = nb) by congruence. subst nb2.
      apply IH with (m := m); auto. intros m' HAM'. apply Hk. eauto.
Qed.

Lemma star_reach q n acc g pl sk es b k b2 rest y :
  reach_ok q -> tame q -> choice_free q -> incl (specials q) acc ->
  NoDup (keys b) -> fresh (onl n ++ acc) b ->
  (forall b2 rest, SM (M q) n acc pl sk es b b2 rest -> snd (k b2 rest) = None) ->
  SM (M q) n acc pl sk es b b2 rest -> In y (fst (k b2 rest)) ->
  In y (fst (star_match (fun e b => pmatch q e b gret) n acc g pl sk es b k)).
Proof.
  intros Hq Ht Hc Hinc Hnd Hf Hk. unfold star_match. unfold SM in *.
  assert (Hn : match n with Some x => dget b x | None => None end = None).
  { destruct n; [|reflexivity]. apply Hf. simpl; auto. }
  rewrite Hn in Hk |- *.
  assert (Hacc : accinv acc b). { apply fresh_accinv. intros x Hx. apply Hf, in_app_iff. auto. }
  intros (i & m & Hi1 & Hi2 & HAM & -> & ->) Hy.
  assert (Hin : forall j m, In j (slice_indices pl g (List.length es)) ->
      In m (fst (accumulate_match (fun e b => pmatch q e b gret) acc (firstn j es) b gret)) ->
      snd (k (dmerge m (star_bind n b (mk_slice sk (firstn j es)))) (skipn j es)) = None).
  { intros j m0 Hj Hm0. apply in_slice_indices in Hj as [Hj1 Hj2].
    apply am_origin with (R := M q) in Hm0 as (m' & HAM' & Hm'); [|apply inner_origin].
    simpl in Hm'. destruct Hm' as [<-|[]]. apply Hk. exists j, m'. auto. }
  apply gbind_reach with (x := i); [reflexivity| | |].
  - intros j Hj. simpl in Hj. apply gbind_noerr.
    + apply am_noerr; auto; apply noerr.
    + intros m0 Hm0. auto.
  - apply in_slice_indices. auto.
  - apply gbind_reach with (x := m); [| | |exact Hy].
    + apply am_noerr; auto; apply noerr.
    + intros m0 Hm0. apply Hin; auto. apply in_slice_indices. auto.
    + eapply am_reach; eauto; simpl; auto.
Qed.

Lemma noerr_all ps : Forall (fun p => noerr_ok p /\ noerr_ok (body p)) ps.
Proof. apply Forall_forall. intros p _. split; apply noerr. Qed.

Lemma seq_reach ps : Forall (fun p => reach_ok p /\ reach_ok (body p)) ps -> tame_all ps -> Forall choice_free ps ->
  forall sk es b k b1 y, NoDup (keys b) -> fresh (flat_map specials ps) b ->
  (forall b1, Mseq sk ps es b b1 -> snd (k b1) = None) -> 
  Mseq sk ps es b b1 -> In y (fst (k b1)) -> In y (fst (seqm sk ps es b k)).
Proof.
  induction 1 as [|q ps [Hq Hq'] _ IH]; intros Ht Hc sk es b k b1 y Hnd Hf Hk HM Hy.
  - destruct HM as [-> ->]. exact Hy.
  - apply Forall_cons_iff in Hc as [Hc1 Hc]. cbn [flat_map] in Hf. destruct (is_star q) eqn:Hs.
    + destruct q as [| | | | | | | |q n acc g pl]; try discriminate. destruct Ht as ((Ht1 & Ht2 & Ht3) & Hd & Ht).
      rewrite seqm_star. destruct HM as (b2 & rest & HSM & HM).
      assert (Hnext : forall b2 rest, SM (M q) n acc pl sk es b b2 rest ->
          NoDup (keys b2) /\ fresh (flat_map specials ps) b2 /\ (forall b1, Mseq sk ps rest b2 b1 -> snd (k b1) = None)).
      { intros b2' rest' HSM'.
        destruct (sm_struct (M q) n acc pl sk es b b2' rest' (names q) (struct_sm_hyp q) Hnd HSM') as (H1 & _ & H3 & _ & _).
        split; [exact H1|]. split.
        - eapply fresh_after; [|exact Hd|].
          + intros x Hx. apply Hf, in_app_iff. auto.
          + intros x Hx. apply H3 in Hx as [Hx|Hx]; [auto|]. right. cbn [names]. rewrite !in_app_iff in *. tauto.
        - intros b1' HM'. apply Hk. cbn. eauto. }
      apply star_reach with (b2 := b2) (rest := rest); auto.
      * intros x Hx. apply Hf. cbn [specials]. rewrite !in_app_iff in *. tauto.
      * intros b2' rest' HSM'. destruct (Hnext _ _ HSM') as (H1 & H2 & H3). apply seq_noerr; auto. apply noerr_all.
      * destruct (Hnext _ _ HSM) as (H1 & H2 & H3). eapply IH; eauto.
    + rewrite seqm_nonstar by exact Hs. rewrite tame_all_nonstar in Ht by exact Hs. destruct Ht as (Ht1 & Hd & Ht).
      rewrite Mseq_nonstar in HM by exact Hs. destruct HM as (e1 & es' & b2 & -> & HM1 & HM).
      assert (Hnext : forall b2, M q e1 b b2 -> NoDup (keys b2) /\ fresh (flat_map specials ps) b2 /\
           (forall b1, Mseq sk ps es' b2 b1 -> snd (k b1) = None)).
      { intros b2' HM1'. destruct (M_struct q e1 b b2' Hnd HM1') as ((H1 & H2 & H3) & _).
        split; [exact H1|]. split.
        - eapply fresh_after; [|exact Hd|exact H3]. intros x Hx. apply Hf, in_app_iff. auto.
        - intros b1' HM'. apply Hk. rewrite Mseq_nonstar by exact Hs. eauto 8. }
      apply Hq with (b1 := b2); auto.
      * intros x Hx. apply Hf, in_app_iff. auto.
      * intros b2' HM'. destruct (Hnext _ HM') as (H1 & H2 & H3). apply seq_noerr; auto. apply noerr_all.
      * destruct (Hnext _ HM1) as (H1 & H2 & H3). eapply IH; eauto.
Qed.

Lemma reach p : reach_ok p.
Proof.
  induction p using pat_ind'; intros Ht Hc e b k0 b1 y Hnd Hf Hk HM Hy.
  - destruct HM as [HE ->]. cbn [pmatch]. now rewrite HE.
  - destruct HM as [-> ->]. cbn [pmatch]. assert (E : str_match s s = true) by now apply str_match_spec. now rewrite E.
  - rewrite pm_seq. apply M_PSeq in HM as (sk & es & E & HM). rewrite E.
    refine (seq_reach l H Ht (proj1 (cf_all l) Hc) _ _ _ _ b1 y Hnd Hf _ HM Hy).
    intros b2 HM2. apply Hk. apply M_PSeq. eauto.
  - rewrite pm_dict. apply M_PDict in HM as (vs & -> & HM). rewrite (list_eqb_refl _ String.eqb_refl).
    refine (seq_reach l H Ht (proj1 (cf_all l) Hc) _ _ _ _ b1 y Hnd Hf _ HM Hy).
    intros b2 HM2. apply Hk. apply M_PDict. eauto.
  - cbn [pmatch]. destruct HM as (h & kids & b2 & -> & HM1 & HM2). rewrite String.eqb_refl.
    destruct Ht as (Ht1 & Ht2 & Hd). destruct Hc as [Hc1 Hc2].
    assert (Hnext : forall b2, M p1 (VSeq KTuple h) b b2 -> NoDup (keys b2) /\ fresh (specials p2) b2 /\
       forall b1, M p2 (VSeq KTuple kids) b2 b1 -> snd (k0 b1) = None).
    { intros b2' HM1'. destruct (M_struct _ _ _ _ Hnd HM1') as ((H1 & H2 & H3) & _).
      split; [exact H1|]. split.
      - eapply fresh_after; [|exact Hd|exact H3]. intros x Hx. apply Hf, in_app_iff. auto.
      - intros b1' HM'. apply Hk. cbn [M]. eauto 8. }
    apply IHp1 with (b1 := b2); auto.
    + intros x Hx. apply Hf, in_app_iff. auto.
    + intros b2' HM'. destruct (Hnext _ HM') as (H1 & H2 & H3). apply noerr; auto.
    + destruct (Hnext _ HM1) as (H1 & H2 & H3). eapply IHp2; eauto.
  - cbn [pmatch]. destruct HM as [Hr HM]. rewrite Hr.
    destruct n as [x|]; [|now subst]. destruct (dget b x) as [v|]; [|now subst].
    destruct HM as [E ->]. now rewrite E.
  - cbn [pmatch]. destruct HM as [E ->]. now rewrite E.
  - destruct Hc.
  - destruct HM.
Qed.

(** with Choices outside of Stars: success is exact *)
Definition some {A} (g : gen A) : Prop := exists y, In y (fst g).
Definition succ_ok (p : pat) : Prop := tame p -> forall B, scoped true B p -> forall e b k b1,
  NoDup (keys b) -> fresh (specials p) b -> (forall b2, M p e b b2 -> snd (k b2) = None) ->
  M p e b b1 -> some (k b1) -> some (pmatch p e b k).

Lemma seq_succ ps : Forall succ_ok ps -> tame_all ps -> forall B, scoped_all true B ps ->
  forall sk es b k b1, NoDup (keys b) -> fresh (flat_map specials ps) b ->
  (forall b1, Mseq sk ps es b b1 -> snd (k b1) = None) -> 
  Mseq sk ps es b b1 -> some (k b1) -> some (seqm sk ps es b k).
Proof.
  induction 1 as [|q ps Hq _ IH]; intros Ht B Hc sk es b k b1 Hnd Hf Hk HM Hy.
  - destruct HM as [-> ->]. exact Hy.
  - cbn [flat_map] in Hf. destruct (is_star q) eqn:Hs.
    + destruct q as [| | | | | | | |q n acc g pl]; try discriminate. destruct Ht as ((Ht1 & Ht2 & Ht3) & Hd & Ht).
      destruct Hc as [[_ Hc1] Hc]. destruct (Hc1 eq_refl) as [Hcf _].
      rewrite seqm_star. destruct HM as (b2 & rest & HSM & HM).
      assert (Hnext : forall b2 rest, SM (M q) n acc pl sk es b b2 rest ->
          NoDup (keys b2) /\ fresh (flat_map specials ps) b2 /\ (forall b1, Mseq sk ps rest b2 b1 -> snd (k b1) = None)).
      { intros b2' rest' HSM'.
        destruct (sm_struct (M q) n acc pl sk es b b2' rest' (names q) (struct_sm_hyp q) Hnd HSM') as (H1 & _ & H3 & _ & _).
        split; [exact H1|]. split.
        - eapply fresh_after; [|exact Hd|].
          + intros x Hx. apply Hf, in_app_iff. auto.
          + intros x Hx. apply H3 in Hx as [Hx|Hx]; [auto|]. right. cbn [names]. rewrite !in_app_iff in *. tauto.
        - intros b1' HM'. apply Hk. cbn. eauto. }
      destruct (Hnext _ _ HSM) as (H1 & H2 & H3).
      assert (Hsome : some (seqm sk ps rest b2 k)) by (eapply IH; eauto). destruct Hsome as [y Hy'].
      exists y. apply star_reach with (b2 := b2) (rest := rest); auto.
      * apply reach.
      * intros x Hx. apply Hf. cbn [specials]. rewrite !in_app_iff in *. tauto.
      * intros b2' rest' HSM'. destruct (Hnext _ _ HSM') as (H1' & H2' & H3'). apply seq_noerr; auto. apply noerr_all.
    + rewrite seqm_nonstar by exact Hs. rewrite tame_all_nonstar in Ht by exact Hs. destruct Ht as (Ht1 & Hd & Ht).
      rewrite scoped_all_nonstar in Hc by exact Hs. destruct Hc as [Hc1 Hc].
      rewrite Mseq_nonstar in HM by exact Hs. destruct HM as (e1 & es' & b2 & -> & HM1 & HM).
      assert (Hnext : forall b2, M q e1 b b2 -> NoDup (keys b2) /\ fresh (flat_map specials ps) b2 /\
           (forall b1, Mseq sk ps es' b2 b1 -> snd (k b1) = None)).
      { intros b2' HM1'. destruct (M_struct q e1 b b2' Hnd HM1') as ((H1 & H2 & H3) & _).
        split; [exact H1|]. split.
        - eapply fresh_after; [|exact Hd|exact H3]. intros x Hx. apply Hf, in_app_iff. auto.
        - intros b1' HM'. apply Hk. rewrite Mseq_nonstar by exact Hs. eauto 8. }
      eapply Hq with (b1 := b2); eauto.
      * intros x Hx. apply Hf, in_app_iff. auto.
      * intros b2' HM'. destruct (Hnext _ HM') as (H1 & H2 & H3). apply seq_noerr; auto. apply noerr_all.
      * destruct (Hnext _ HM1) as (H1 & H2 & H3). eapply IH; eauto.
Qed.

Lemma choice_some runs r : (forall r, In r runs -> snd r = None) -> In r runs -> some r -> some (choice_match runs).
Proof.
  unfold some. induction runs as [|[[|y ys] er] rs IH]; simpl; intros H Hin Hr; [tauto| |];
    assert (E := H _ (or_introl eq_refl)); simpl in E; subst.
  - destruct Hin as [<-|Hin]; [destruct Hr as [y []]|]. apply IH; auto.
  - exists y. simpl. auto.
Qed.

Lemma succ p : succ_ok p.
Proof.
  induction p using pat_ind'; intros Ht B Hc e b k0 b1 Hnd Hf Hk HM Hy.
  - destruct HM as [HE ->]. cbn [pmatch]. now rewrite HE.
  - destruct HM as [-> ->]. cbn [pmatch]. assert (E : str_match s s = true) by now apply str_match_spec. now rewrite E.
  - rewrite pm_seq. apply M_PSeq in HM as (sk & es & E & HM). rewrite E.
    refine (seq_succ l _ Ht B Hc _ _ _ _ b1 Hnd Hf _ HM Hy).
    { eapply Forall_impl; [|exact H]. intros q Hq. apply Hq. }
    intros b2 HM2. apply Hk. apply M_PSeq. eauto.
  - rewrite pm_dict. apply M_PDict in HM as (vs & -> & HM). rewrite (list_eqb_refl _ String.eqb_refl).
    refine (seq_succ l _ Ht B Hc _ _ _ _ b1 Hnd Hf _ HM Hy).
    { eapply Forall_impl; [|exact H]. intros q Hq. apply Hq. }
    intros b2 HM2. apply Hk. apply M_PDict. eauto.
  - cbn [pmatch]. destruct HM as (h & kids & b2 & -> & HM1 & HM2). rewrite String.eqb_refl.
    destruct Ht as (Ht1 & Ht2 & Hd). destruct Hc as [Hc1 Hc2].
    assert (Hnext : forall b2, M p1 (VSeq KTuple h) b b2 -> NoDup (keys b2) /\ fresh (specials p2) b2 /\
       forall b1, M p2 (VSeq KTuple kids) b2 b1 -> snd (k0 b1) = None).
    { intros b2' HM1'. destruct (M_struct _ _ _ _ Hnd HM1') as ((H1 & H2 & H3) & _).
      split; [exact H1|]. split.
      - eapply fresh_after; [|exact Hd|exact H3]. intros x Hx. apply Hf, in_app_iff. auto.
      - intros b1' HM'. apply Hk. cbn [M]. eauto 8. }
    eapply IHp1 with (b1 := b2); eauto.
    + intros x Hx. apply Hf, in_app_iff. auto.
    + intros b2' HM'. destruct (Hnext _ HM') as (H1 & H2 & H3). apply noerr; auto.
    + destruct (Hnext _ HM1) as (H1 & H2 & H3). eapply IHp2; eauto.
  - cbn [pmatch]. destruct HM as [Hr HM]. rewrite Hr.
    destruct n as [x|]; [|now subst]. destruct (dget b x) as [v|]; [|now subst].
    destruct HM as [E ->]. now rewrite E.
  - cbn [pmatch]. destruct HM as [E ->]. now rewrite E.
  - rewrite pm_choice. apply tame_PChoice in Ht. apply scoped_PChoice in Hc.
    apply M_PChoice in HM. apply Exists_exists in HM as (q & Hq & HM).
    rewrite Forall_forall in H, Ht, Hc.
    assert (Hnd' : NoDup (keys (match n with Some x => dset b x e | None => b end))).
    { destruct n; [now apply NoDup_dset|auto]. }
    assert (Hfr : forall q, In q l -> fresh (specials q) (match n with Some x => dset b x e | None => b end)).
    { intros q' Hq'. destruct (Ht q' Hq') as [_ Hdq].
      assert (Hfq : fresh (specials q') b).
      { intros x Hx. apply Hf. cbn [specials]. apply in_app_iff. right. apply in_flat_map. eauto. }
      destruct n as [y|]; [|exact Hfq]. intros x Hx. rewrite dget_dset.
      destruct (String.eqb_spec x y); [|auto]. subst. destruct (Hdq y Hx). simpl; auto. }
    assert (HkM : forall q, In q l -> forall b2, M q e (match n with Some x => dset b x e | None => b end) b2 -> snd (k0 b2) = None).
    { intros q' Hq' b2 HM2. apply Hk. apply M_PChoice. apply Exists_exists. eauto. }
    apply choice_some with (r := pmatch q e (match n with Some x => dset b x e | None => b end) k0).
    + intros r Hr. apply in_map_iff in Hr as (q' & <- & Hq'). apply noerr; auto. apply (Ht q' Hq'). eauto.
    + apply in_map_iff. eauto.
    + eapply (H q Hq); eauto. apply (Ht q Hq).
  - destruct HM.
Qed.
