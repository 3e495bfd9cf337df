(** Soundness and completeness with respect to [fits]. *)
From Verif Require Import MatcherSpec MatcherProofs MatcherProofs2.
Open Scope list_scope.

Lemma same_refl v : same v v. Proof. apply py_eq_refl. Qed.
Lemma same_sym v w : same v w -> same w v. Proof. unfold same. now rewrite py_eq_sym. Qed.
Lemma same_trans a b c : same a b -> same b c -> same a c. Proof. apply py_eq_trans. Qed.
Lemma same_tuple l m : Forall2 same l m -> same (VSeq KTuple l) (VSeq KTuple m).
Proof.
  intros H. apply py_eq_canon. simpl. f_equal. induction H as [|x y l m Hxy _ IH]; simpl; [reflexivity|].
  apply py_eq_canon in Hxy. congruence.
Qed.

Definition oequiv (o o' : option val) : Prop :=
  match o, o' with Some v, Some w => same v w | None, None => True | _, _ => False end.

Lemma named_cong s s' n e : (forall x, In x (onl n) -> oequiv (s x) (s' x)) -> named s n e -> named s' n e.
Proof.
  destruct n as [x|]; [|auto]. intros H (v & H1 & H2). specialize (H x (or_introl eq_refl)).
  rewrite H1 in H. simpl in H. destruct (s' x) as [w|] eqn:E; [|tauto]. exists w. split; [exact E|].
  eapply same_trans; [apply same_sym|]; eauto.
Qed.
Lemma oequiv_refl o : oequiv o o. Proof. destruct o; simpl; [apply same_refl|exact I]. Qed.

Lemma collect_ext a ss ss' : Forall2 (fun s s' : env => s a = s' a) ss ss' -> collect a ss = collect a ss'.
Proof. induction 1 as [|s s' ss ss' H _ IH]; simpl; [reflexivity|]. now rewrite H, IH. Qed.

Definition patch (acc : list string) (si s : env) : env := fun x => if mem x acc then si x else s x.

Lemma Forall2_map_l {A B C} (R : C -> B -> Prop) (f : A -> C) l m :
  Forall2 R (map f l) m <-> Forall2 (fun a b => R (f a) b) l m.
Proof.
  revert m. induction l as [|x l IH]; simpl; intros [|y m]; split; intros H; inversion H; subst; constructor; auto; now apply IH.
Qed.
Lemma Forall2_impl' {A B} (R R' : A -> B -> Prop) l m :
  (forall a b, R a b -> R' a b) -> Forall2 R l m -> Forall2 R' l m.
Proof. intros H. induction 1; constructor; auto. Qed.

Lemma star_transport (q : pat) (acc : list string) s s' ss seg :
  (forall si ei, fits (patch acc si s) q ei -> fits (patch acc si s') q ei) ->
  (forall si ei, (forall x, ~ In x acc -> si x = s x) -> fits si q ei -> fits (patch acc si s) q ei) ->
  Forall2 (fun si ei => (forall x, ~ In x acc -> si x = s x) /\ fits si q ei) ss seg ->
  Forall2 (fun si ei => (forall x, ~ In x acc -> si x = s' x) /\ fits si q ei) (map (fun si => patch acc si s') ss) seg /\
  forall a, In a acc -> collect a (map (fun si => patch acc si s') ss) = collect a ss.
Proof.
  intros H1 H2 HF. split.
  - apply Forall2_map_l. eapply Forall2_impl'; [|exact HF]. intros si ei [Ha Hb]. simpl. split.
    + intros x Hx. unfold patch. apply mem_not_In in Hx. now rewrite Hx.
    + apply H1. auto.
  - intros a Ha. unfold collect. apply mem_In in Ha. clear - Ha.
    induction ss as [|si ss IH]; simpl; [reflexivity|]. rewrite IH. unfold patch at 1. now rewrite Ha.
Qed.

(** fits only depends on the names of the pattern *)
Definition cong_ok (p : pat) : Prop := forall s s' e,
  (forall x, In x (names p) -> oequiv (s x) (s' x)) -> fits s p e -> fits s' p e.

Lemma seq_cong ps : Forall (fun p => cong_ok p /\ cong_ok (body p)) ps -> forall s s' sk es,
  (forall x, In x (flat_map names ps) -> oequiv (s x) (s' x)) -> fits_seq s sk ps es -> fits_seq s' sk ps es.
Proof.
  induction 1 as [|q ps [Hq Hq'] _ IH]; intros s s' sk es Hs Hfit; [exact Hfit|].
  cbn [flat_map] in Hs. destruct (is_star q) eqn:E.
  - destruct q as [| | | | | | | |q n acc g pl]; try discriminate. simpl in Hq'.
    destruct Hfit as (seg & rest & ss & H1 & H2 & H3 & H4 & H5 & H6).
    assert (Hn : forall x, In x (onl n ++ acc ++ names q) -> oequiv (s x) (s' x)).
    { intros x Hx. apply Hs. apply in_app_iff. left. exact Hx. }
    destruct (star_transport q acc s s' ss seg) as [T1 T2]; auto.
    { intros si ei. apply Hq'. intros x Hx. unfold patch. destruct (mem x acc); [apply oequiv_refl|].
      apply Hn. rewrite !in_app_iff. auto. }
    { intros si ei Ha. apply Hq'. intros x Hx. unfold patch. destruct (mem x acc) eqn:Em; [apply oequiv_refl|].
      apply mem_not_In in Em. rewrite Ha by assumption. apply oequiv_refl. }
    exists seg, rest, (map (fun si => patch acc si s') ss). repeat (split; [assumption|]). split; [|split; [assumption|split]].
    + eapply named_cong; [|exact H3]. intros x Hx. apply Hn. rewrite in_app_iff. auto.
    + intros a Ha. rewrite T2 by assumption. intros Hc. eapply named_cong; [|exact (H5 a Ha Hc)].
      intros x [<-|[]]. apply Hn. rewrite !in_app_iff. auto.
    + eapply IH; [|exact H6]. intros x Hx. apply Hs, in_app_iff. auto.
  - rewrite fits_seq_nonstar in Hfit |- * by exact E. destruct Hfit as (e1 & es' & -> & H1 & H2).
    exists e1, es'. split; [reflexivity|]. split.
    + eapply Hq; [|exact H1]. intros x Hx. apply Hs, in_app_iff. auto.
    + eapply IH; [|exact H2]. intros x Hx. apply Hs, in_app_iff. auto.
Qed.

Lemma fits_cong p : cong_ok p.
Proof.
  induction p using pat_ind'; intros s1 s2 e Hs Hfit.
  - exact Hfit.
  - exact Hfit.
  - rewrite fits_PSeq in *. destruct Hfit as (sk & es & H1 & H2). exists sk, es. split; [exact H1|].
    eapply seq_cong; eauto.
  - rewrite fits_PDict in *. destruct Hfit as (vs & H1 & H2). exists vs. split; [exact H1|].
    eapply seq_cong; eauto.
  - destruct Hfit as (h & kids & -> & H1 & H2). exists h, kids. split; [reflexivity|]. cbn [names] in Hs. split.
    + eapply IHp1; [|exact H1]. intros x Hx. apply Hs, in_app_iff. auto.
    + eapply IHp2; [|exact H2]. intros x Hx. apply Hs, in_app_iff. auto.
  - destruct Hfit as [H1 H2]. split; [exact H1|]. eapply named_cong; eauto.
  - cbn [fits] in *. intros t' Ht' Hfit'.
    apply (Hfit (fun x => match s1 x with Some v => Some v | None => if mem x (names p) then t' x else None end)).
    + intros x v Hx. now rewrite Hx.
    + eapply IHp; [|exact Hfit']. intros x Hx. specialize (Hs x Hx). simpl in Hx.
      apply mem_In in Hx. destruct (s1 x) as [v|].
      * simpl in Hs. destruct (s2 x) as [w|] eqn:E; [|tauto]. rewrite (Ht' _ _ E). simpl. now apply same_sym.
      * rewrite Hx. apply oequiv_refl.
  - apply fits_PChoice in Hfit as [H1 H2]. apply fits_PChoice. cbn [names] in Hs. split.
    + eapply named_cong; [|exact H1]. intros x Hx. apply Hs, in_app_iff. auto.
    + apply Exists_exists in H2 as (q & Hq & H2). apply Exists_exists. exists q. split; [exact Hq|].
      rewrite Forall_forall in H. eapply (H q Hq); [|exact H2]. intros x Hx. apply Hs, in_app_iff. right.
      apply in_flat_map. eauto.
  - exact Hfit.
Qed.

(** fits is preserved by binding more names *)
Definition mono_ok (p : pat) : Prop := forall s s' e, extends s s' -> fits s p e -> fits s' p e.
Lemma named_mono s s' n e : extends s s' -> named s n e -> named s' n e.
Proof. destruct n; [|auto]. intros H (v & H1 & H2). exists v. auto. Qed.

Lemma seq_mono ps : Forall (fun p => mono_ok p /\ mono_ok (body p)) ps -> forall s s' sk es,
  extends s s' -> fits_seq s sk ps es -> fits_seq s' sk ps es.
Proof.
  induction 1 as [|q ps [Hq Hq'] _ IH]; intros s s' sk es Hs Hfit; [exact Hfit|].
  destruct (is_star q) eqn:E.
  - destruct q as [| | | | | | | |q n acc g pl]; try discriminate. simpl in Hq'.
    destruct Hfit as (seg & rest & ss & H1 & H2 & H3 & H4 & H5 & H6).
    destruct (star_transport q acc s s' ss seg) as [T1 T2]; auto.
    { intros si ei. apply Hq'. intros x v. unfold patch. destruct (mem x acc); auto. }
    { intros si ei Ha. apply Hq'. intros x v Hx. unfold patch. destruct (mem x acc) eqn:Em; [auto|].
      apply mem_not_In in Em. now rewrite <- Ha. }
    exists seg, rest, (map (fun si => patch acc si s') ss). repeat (split; [assumption|]). split; [|split; [assumption|split]].
    + eapply named_mono; eauto.
    + intros a Ha. rewrite T2 by assumption. intros Hc. eapply named_mono; eauto.
    + eapply IH; eauto.
  - rewrite fits_seq_nonstar in Hfit |- * by exact E. destruct Hfit as (e1 & es' & -> & H1 & H2).
    exists e1, es'. split; [reflexivity|]. split; [eapply Hq; eauto | eapply IH; eauto].
Qed.
Lemma fits_mono p : mono_ok p.
Proof.
  induction p using pat_ind'; intros s1 s2 e Hs Hfit.
  - exact Hfit.
  - exact Hfit.
  - rewrite fits_PSeq in *. destruct Hfit as (sk & es & H1 & H2). exists sk, es. split; [exact H1|].
    eapply seq_mono; eauto.
  - rewrite fits_PDict in *. destruct Hfit as (vs & H1 & H2). exists vs. split; [exact H1|].
    eapply seq_mono; eauto.
  - destruct Hfit as (h & kids & -> & H1 & H2). exists h, kids. split; [reflexivity|].
    split; [eapply IHp1; eauto | eapply IHp2; eauto].
  - destruct Hfit as [H1 H2]. split; [exact H1|]. eapply named_mono; eauto.
  - cbn [fits] in *. intros t' Ht'. apply Hfit. intros x v Hx. auto.
  - apply fits_PChoice in Hfit as [H1 H2]. apply fits_PChoice. split; [eapply named_mono; eauto|].
    apply Exists_exists in H2 as (q & Hq & H2). apply Exists_exists. exists q. split; [exact Hq|].
    rewrite Forall_forall in H. eapply (H q Hq); eauto.
  - exact Hfit.
Qed.

(** ** joint soundness / completeness *)
Definition sound_ok (p : pat) : Prop := tame p -> forall full B e b b1,
  scoped full B p -> incl B (keys b) -> NoDup (keys b) -> fresh (specials p) b ->
  M p e b b1 -> fits (dget b1) p e.
Definition comp_ok (p : pat) : Prop := tame p -> forall B s e b,
  scoped true B p -> incl B (keys b) -> NoDup (keys b) -> fresh (specials p) b ->
  below (dget b) s -> fits s p e -> exists b1, M p e b b1 /\ below (dget b1) s.

Lemma am_sound q acc : sound_ok q -> tame q -> incl (specials q) acc ->
  forall full B es b m, scoped full B q -> incl B (keys b) -> disjoint B acc -> NoDup (keys b) -> accinv acc b ->
  AM (M q) acc es b m ->
  exists ms : list bindings,
    Forall2 (fun mi ei => fits (dget mi) q ei /\
       (forall x v, ~ In x acc -> dget mi x = Some v -> dget m x = Some v) /\
       (forall x, dget mi x <> None -> dget b x <> None \/ In x (names q))) ms es /\
    (forall x v, ~ In x acc -> dget b x = Some v -> dget m x = Some v) /\
    accinv acc m /\
    forall a, In a acc -> tuple_of (dget m a) = tuple_of (dget b a) ++ collect a (map dget ms).
Proof.
  intros Hq Ht Hinc full B es. induction es as [|e es IH]; cbn [AM]; intros b m Hsc HB HBd Hnd Ha HAM.
  - subst m. exists []. repeat split; auto. intros a _. simpl. now rewrite app_nil_r.
  - destruct HAM as (m1 & nb & Hm1 & Hf & HAM).
    assert (HndF := NoDup_keys_filter (fun kv => negb (mem (fst kv) acc)) b Hnd).
    assert (HfrF := fresh_nonacc (specials q) acc b Hinc).
    assert (HBF : incl B (keys (filter (fun kv => negb (mem (fst kv) acc)) b))).
    { intros x Hx. assert (Hx' := HB x Hx). apply In_dget in Hx' as [v Hv].
      apply dget_Some_In with (v := v). rewrite dget_nonacc. assert (Hn := HBd x Hx). apply mem_not_In in Hn. now rewrite Hn. }
    destruct (struct_sm_hyp q _ _ _ HndF Hm1) as (Hn1 & Hd1 & Hs1).
    assert (He1 := M_ext_tame q Ht _ _ _ HndF HfrF Hm1).
    assert (Hfit1 := Hq Ht full B e _ _ Hsc HBF HndF HfrF Hm1).
    destruct (fold_new_spec acc m1 Hn1 b nb Hf) as [Hn2 Hg]. specialize (Hn2 Hnd).
    destruct (fold_new_ok acc m1 b Ha) as (nb' & Hf' & Hinv). assert (nb' = nb) by congruence. subst nb'.
    assert (Hbnb : forall x v, ~ In x acc -> dget b x = Some v -> dget nb x = Some v).
    { intros x v Hx Hv. rewrite Hg. apply mem_not_In in Hx.
      assert (Hm : dget m1 x = Some v). { apply He1. rewrite dget_nonacc, Hx. exact Hv. }
      rewrite Hm, Hx. reflexivity. }
    assert (HBnb : incl B (keys nb)).
    { intros x Hx. assert (Hx' := HB x Hx). apply In_dget in Hx' as [v Hv].
      apply dget_Some_In with (v := v). apply Hbnb; auto. }
    destruct (IH nb m Hsc HBnb HBd Hn2 Hinv HAM) as (ms & H1 & H2 & H3 & H4).
    assert (Hdom : forall x, dget nb x <> None -> dget b x <> None \/ In x (names q)).
    { intros x Hx. rewrite Hg in Hx. destruct (dget m1 x) eqn:E; [|auto].
      assert (Hx1 : dget m1 x <> None) by congruence. apply Hs1 in Hx1 as [Hx1|Hx1]; [|auto].
      rewrite dget_nonacc in Hx1. destruct (mem x acc); [congruence|auto]. }
    exists (m1 :: ms). split; [|split; [|split; [exact H3|]]].
    + constructor.
      * split; [exact Hfit1|]. split.
        -- intros x v Hx Hv. apply H2; [exact Hx|]. rewrite Hg, Hv. apply mem_not_In in Hx. now rewrite Hx.
        -- intros x Hx. apply Hs1 in Hx as [Hx|Hx]; [|auto]. rewrite dget_nonacc in Hx. destruct (mem x acc); [congruence|auto].
      * eapply Forall2_impl'; [|exact H1]. intros mi ei (K1 & K2 & K3). split; [exact K1|]. split; [exact K2|].
        intros x Hx. apply K3 in Hx as [Hx|Hx]; auto.
    + intros x v Hx Hv. apply H2; auto.
    + intros a Hain. rewrite H4 by assumption. cbn [map]. unfold collect. cbn [flat_map]. rewrite Hg.
      destruct (dget m1 a) as [v|] eqn:E; [|reflexivity].
      assert (Hm := Hain). apply mem_In in Hm. rewrite Hm. simpl. rewrite <- app_assoc. f_equal.
Qed.

Lemma same_Forall2_app l l' m m' : Forall2 same l l' -> Forall2 same m m' -> Forall2 same (l ++ m) (l' ++ m').
Proof. apply Forall2_app. Qed.

Lemma am_complete q acc : comp_ok q -> tame q -> incl (specials q) acc -> incl acc (sure q) ->
  forall B s es ss b (done : string -> list val), scoped true B q -> incl B (keys b) -> disjoint B acc ->
  NoDup (keys b) -> accinv acc b ->
  (forall x v, ~ In x acc -> dget b x = Some v -> exists w, s x = Some w /\ same v w) ->
  (forall a, In a acc -> Forall2 same (tuple_of (dget b a)) (done a)) ->
  Forall2 (fun si ei => (forall x, ~ In x acc -> si x = s x) /\ fits si q ei) ss es ->
  exists m, AM (M q) acc es b m /\ NoDup (keys m) /\ accinv acc m /\
    (forall x v, ~ In x acc -> dget m x = Some v -> exists w, s x = Some w /\ same v w) /\
    (forall a, In a acc -> Forall2 same (tuple_of (dget m a)) (done a ++ collect a ss)).
Proof.
  intros Hq Ht Hinc Hsure B s es. induction es as [|e es IH]; intros ss b done Hsc HB HBd Hnd Ha Hbel Hdone HF.
  - inversion HF; subst. exists b. cbn [AM]. repeat split; auto. intros a Hain. simpl. rewrite app_nil_r. auto.
  - inversion HF as [|si ? ss' ? [Hs1 Hs2] HF']; subst. cbn [AM].
    assert (HndF := NoDup_keys_filter (fun kv => negb (mem (fst kv) acc)) b Hnd).
    assert (HfrF := fresh_nonacc (specials q) acc b Hinc).
    assert (HBF : incl B (keys (filter (fun kv => negb (mem (fst kv) acc)) b))).
    { intros x Hx. assert (Hx' := HB x Hx). apply In_dget in Hx' as [v Hv].
      apply dget_Some_In with (v := v). rewrite dget_nonacc. assert (Hn := HBd x Hx). apply mem_not_In in Hn. now rewrite Hn. }
    destruct (Hq Ht B si e _ Hsc HBF HndF HfrF) as (m1 & Hm1 & Hbel1); [|exact Hs2|].
    { intros x v Hx. rewrite dget_nonacc in Hx. destruct (mem x acc) eqn:E; [discriminate|].
      apply mem_not_In in E. rewrite Hs1 by assumption. auto. }
    destruct (M_struct q _ _ _ HndF Hm1) as ((Hn1 & _ & _) & Hsu).
    assert (He1 := M_ext_tame q Ht _ _ _ HndF HfrF Hm1).
    destruct (fold_new_ok acc m1 b Ha) as (nb & Hf & Hinv).
    destruct (fold_new_spec acc m1 Hn1 b nb Hf) as [Hn2 Hg]. specialize (Hn2 Hnd).
    assert (HBnb : incl B (keys nb)).
    { intros x Hx. assert (Hx' := HB x Hx). apply In_dget in Hx' as [v Hv]. apply dget_Some_In with (v := v).
      rewrite Hg. assert (Hn := HBd x Hx). apply mem_not_In in Hn.
      assert (Hm : dget m1 x = Some v) by (apply He1; rewrite dget_nonacc, Hn; exact Hv). rewrite Hm, Hn. reflexivity. }
    destruct (IH ss' nb (fun a => done a ++ match si a with Some v => [v] | None => [] end) Hsc HBnb HBd Hn2 Hinv)
      as (m & HAM & H1 & H2 & H3 & H4); auto.
    { intros x v Hx Hv. rewrite Hg in Hv. destruct (dget m1 x) as [w|] eqn:E; [|auto].
      assert (Hmx := Hx). apply mem_not_In in Hmx. rewrite Hmx in Hv. injection Hv as ->.
      apply Hbel1 in E as (w & Hw1 & Hw2). rewrite Hs1 in Hw1 by assumption. eauto. }
    { intros a Hain. rewrite Hg. assert (Hma := Hsu a (Hsure a Hain)). apply In_dget in Hma as [v Hv].
      rewrite Hv. assert (Hm := Hain). apply mem_In in Hm. rewrite Hm. simpl.
      apply Hbel1 in Hv as (w & Hw1 & Hw2). rewrite Hw1. apply Forall2_app; [|constructor; [exact Hw2|constructor]].
      apply Hdone in Hain. unfold tuple_of in Hain. exact Hain. }
    exists m. split; [exists m1, nb; auto|]. repeat split; auto.
    intros a Hain. specialize (H4 a Hain). rewrite <- app_assoc in H4. exact H4.
Qed.

Lemma below_ext b b' s : ext b b' -> below (dget b') s -> below (dget b) s.
Proof. intros H1 H2 x v Hx. apply H2. auto. Qed.

Lemma sm_sound q n acc pl sk es b b2 rest full B (b1 : bindings) :
  sound_ok q -> tame q -> incl (specials q) acc -> disjoint (onl n) (acc ++ names q) ->
  scoped full B q -> incl B (keys b) -> NoDup (keys b) -> fresh (onl n ++ acc) b ->
  SM (M q) n acc pl sk es b b2 rest -> ext b2 b1 ->
  exists seg ss, es = seg ++ rest /\ (pl = true -> seg <> []) /\ named (dget b1) n (mk_slice sk seg) /\
    Forall2 (fun si ei => (forall x, ~ In x acc -> si x = dget b1 x) /\ fits si q ei) ss seg /\
    (forall a, In a acc -> collect a ss <> [] -> named (dget b1) (Some a) (VSeq KTuple (collect a ss))).
Proof.
  intros Hq Ht Hinc Hdn Hsc HB Hnd Hf HSM Hext. unfold SM in HSM.
  assert (Hn : match n with Some x => dget b x | None => None end = None).
  { destruct n; [|reflexivity]. apply Hf. simpl; auto. }
  rewrite Hn in HSM. destruct HSM as (i & m & Hi1 & Hi2 & HAM & -> & ->).
  assert (HBd : disjoint B acc).
  { intros x Hx Hxa. apply HB, In_dget in Hx as [v Hv]. rewrite Hf in Hv; [discriminate|]. apply in_app_iff. auto. }
  destruct (am_sound q acc Hq Ht Hinc full B (firstn i es) b m Hsc HB HBd Hnd) as (ms & H1 & H2 & H3 & H4); auto.
  { apply fresh_accinv. intros x Hx. apply Hf, in_app_iff. auto. }
  set (seg := firstn i es) in *.
  assert (Hsb := NoDup_star_bind n b (mk_slice sk seg) Hnd).
  assert (Hb2 : forall x, dget (dmerge m (star_bind n b (mk_slice sk seg))) x =
     match dget (star_bind n b (mk_slice sk seg)) x with Some v => Some v | None => dget m x end).
  { intros x. now apply dget_dmerge. }
  exists seg, (map (fun mi => patch acc (dget mi) (dget b1)) ms).
  split; [symmetry; apply firstn_skipn|]. split; [|split; [|split]].
  - intros Hp E. specialize (Hi2 Hp). unfold seg in E. destruct es; simpl in Hi1; [lia|]. destruct i; [lia|]. discriminate.
  - destruct n as [x|]; [|exact I]. exists (mk_slice sk seg). split; [|apply same_refl]. apply Hext.
    rewrite Hb2, dget_star_bind, String.eqb_refl. reflexivity.
  - apply Forall2_map_l. eapply Forall2_impl'; [|exact H1]. intros mi ei (K1 & K2 & K3). split.
    + intros x Hx. unfold patch. apply mem_not_In in Hx. now rewrite Hx.
    + eapply fits_mono; [|exact K1]. intros x v Hv. unfold patch. destruct (mem x acc) eqn:Em; [exact Hv|].
      apply mem_not_In in Em. apply Hext. rewrite Hb2, dget_star_bind.
      assert (Hbx : match dget b x with Some v0 => Some v0 | None => dget m x end = Some v).
      { specialize (K2 x v Em Hv). destruct (dget b x) as [w|] eqn:E; [|exact K2].
        rewrite <- K2. symmetry. apply H2; auto. }
      destruct n as [y|]; [|exact Hbx]. destruct (String.eqb_spec x y) as [Exy|Hxy]; [|exact Hbx].
      subst y. exfalso. assert (Hx : dget mi x <> None) by congruence. apply K3 in Hx as [Hx|Hx].
      * rewrite Hf in Hx; [congruence|]. simpl; auto.
      * apply (Hdn x); [simpl; auto|]. apply in_app_iff. auto.
  - intros a Ha. 
    assert (Hc : collect a (map (fun mi => patch acc (dget mi) (dget b1)) ms) = collect a (map dget ms)).
    { assert (Hm := Ha). apply mem_In in Hm. clear - Hm. induction ms as [|mi ms IH]; [reflexivity|].
      simpl. unfold collect in *. rewrite IH. unfold patch at 1. now rewrite Hm. }
    rewrite Hc. intros Hne. specialize (H4 a Ha).
    assert (Hba : dget b a = None) by (apply Hf, in_app_iff; auto). rewrite Hba in H4. simpl in H4.
    exists (VSeq KTuple (collect a (map dget ms))). split; [|apply same_refl]. apply Hext.
    rewrite Hb2, dget_star_bind.
    assert (Hma : dget m a = Some (VSeq KTuple (collect a (map dget ms)))).
    { destruct (H3 a Ha) as [E|[l E]]; rewrite E in H4 |- *; simpl in H4; [congruence|]. now rewrite H4. }
    destruct n as [y|]; [|now rewrite Hba].
    destruct (String.eqb_spec a y) as [E|_]; [|now rewrite Hba]. subst y. exfalso. apply (Hdn a); [simpl; auto|].
    apply in_app_iff. auto.
Qed.

Lemma sm_complete q n acc pl sk seg rest ss b s B :
  comp_ok q -> tame q -> incl (specials q) acc -> incl acc (sure q) -> disjoint (onl n) (acc ++ names q) ->
  scoped true B q -> incl B (keys b) -> NoDup (keys b) -> fresh (onl n ++ acc) b -> below (dget b) s ->
  (pl = true -> seg <> []) -> named s n (mk_slice sk seg) ->
  Forall2 (fun si ei => (forall x, ~ In x acc -> si x = s x) /\ fits si q ei) ss seg ->
  (forall a, In a acc -> collect a ss <> [] -> named s (Some a) (VSeq KTuple (collect a ss))) ->
  exists b2, SM (M q) n acc pl sk (seg ++ rest) b b2 rest /\ below (dget b2) s.
Proof.
  intros Hq Ht Hinc Hsure Hdn Hsc HB Hnd Hf Hbel Hpl Hn HF Hacc.
  assert (HBd : disjoint B acc).
  { intros x Hx Hxa. apply HB, In_dget in Hx as [v Hv]. rewrite Hf in Hv; [discriminate|]. apply in_app_iff. auto. }
  destruct (am_complete q acc Hq Ht Hinc Hsure B s seg ss b (fun _ => []) Hsc HB HBd Hnd) as (m & HAM & H1 & H2 & H3 & H4); auto.
  { apply fresh_accinv. intros x Hx. apply Hf, in_app_iff. auto. }
  { intros a Ha. rewrite (Hf a); [constructor|]. apply in_app_iff. auto. }
  exists (dmerge m (star_bind n b (mk_slice sk seg))). split.
  - unfold SM. assert (Hnone : match n with Some x => dget b x | None => None end = None).
    { destruct n; [|reflexivity]. apply Hf. simpl; auto. }
    rewrite Hnone. exists (List.length seg), m.
    rewrite firstn_app, Nat.sub_diag, firstn_all, skipn_app, skipn_all, Nat.sub_diag. simpl. rewrite app_nil_r.
    repeat split; auto.
    + rewrite app_length. lia.
    + intros Hp. apply Hpl in Hp. destruct seg; [congruence|simpl; lia].
  - intros x v Hx. rewrite dget_dmerge in Hx by (now apply NoDup_star_bind). rewrite dget_star_bind in Hx.
    assert (Hcase : match dget b x with Some v => Some v | None => dget m x end = Some v -> exists w, s x = Some w /\ same v w).
    { clear Hx. intros Hx. destruct (dget b x) as [u|] eqn:E; [injection Hx as ->; auto|].
      destruct (in_dec string_dec x acc) as [Ha|Ha]; [|eauto].
      specialize (H4 x Ha). rewrite Hx in H4. simpl in H4.
      destruct (H2 x Ha) as [E2|[l E2]]; rewrite E2 in Hx; [discriminate|]. injection Hx as <-. simpl in H4.
      destruct (collect x ss) as [|c0 cs] eqn:Ec.
      - inversion H4; subst. destruct ss as [|si ss'].
        + (* no element: x was not bound *)
          inversion HF; subst. cbn [AM] in HAM. subst m. congruence.
        + exfalso. inversion HF as [|? e0 ? ? [Hs1 Hs2] HF']; subst.
          (* the first element surely binds x, so the tuple is not empty *)
          cbn [AM] in HAM. destruct HAM as (m1 & nb & Hm1 & Hfn & HAM).
          assert (HndF := NoDup_keys_filter (fun kv => negb (mem (fst kv) acc)) b Hnd).
          destruct (M_struct q _ _ _ HndF Hm1) as ((Hn1 & _ & _) & Hsu).
          destruct (fold_new_spec acc m1 Hn1 b nb Hfn) as [_ Hg].
          assert (Hx1 := Hsu x (Hsure x Ha)). apply In_dget in Hx1 as [u Hu].
          destruct (fold_new_ok acc m1 b (fresh_accinv acc b (fun y Hy => Hf y (proj2 (in_app_iff _ _ _) (or_intror Hy))))) as (nb' & Hf' & Hinv).
          assert (nb' = nb) by congruence. subst nb'.
          assert (Hlen : forall es b0 m0, NoDup (keys b0) -> accinv acc b0 -> AM (M q) acc es b0 m0 ->
                     List.length (tuple_of (dget b0 x)) <= List.length (tuple_of (dget m0 x))).
          { clear - Ht Ha. intros es. induction es as [|e es IH]; cbn [AM]; intros b0 m0 Hnd0 Hi0 H0; [subst; lia|].
            destruct H0 as (m2 & nb2 & Hm2 & Hf2 & HAM2).
            assert (HndF := NoDup_keys_filter (fun kv => negb (mem (fst kv) acc)) b0 Hnd0).
            destruct (M_struct q _ _ _ HndF Hm2) as ((Hn2 & _ & _) & _).
            destruct (fold_new_spec acc m2 Hn2 b0 nb2 Hf2) as [Hnn Hg2].
            destruct (fold_new_ok acc m2 b0 Hi0) as (nb3 & Hf3 & Hi3). assert (nb3 = nb2) by congruence. subst nb3.
            specialize (IH nb2 m0 (Hnn Hnd0) Hi3 HAM2).
            assert (List.length (tuple_of (dget b0 x)) <= List.length (tuple_of (dget nb2 x))); [|lia].
            rewrite Hg2. destruct (dget m2 x); [|lia]. apply mem_In in Ha. rewrite Ha. simpl. rewrite app_length. simpl.
            destruct (dget b0 x) as [[| |[|] | |]|]; simpl; lia. }
          destruct (fold_new_spec acc m1 Hn1 b nb Hfn) as [Hnn _].
          specialize (Hlen _ nb m (Hnn Hnd) Hinv HAM). rewrite E2 in Hlen. simpl in Hlen.
          rewrite Hg, Hu in Hlen. assert (Hm := Ha). apply mem_In in Hm. rewrite Hm in Hlen. simpl in Hlen.
          rewrite app_length in Hlen. simpl in Hlen. lia.
      - assert (Hne : collect x ss <> []) by (rewrite Ec; discriminate).
        destruct (Hacc x Ha Hne) as (w & Hw1 & Hw2). exists w. split; [exact Hw1|].
        eapply same_trans; [|apply same_sym; exact Hw2]. apply same_tuple. rewrite Ec. exact H4. }
    destruct n as [y|]; [|auto]. destruct (String.eqb_spec x y) as [E|_]; [|auto]. subst y.
    injection Hx as <-. destruct Hn as (w & Hw1 & Hw2). exists w. split; [exact Hw1|]. now apply same_sym.
Qed.

Lemma incl_B_after B b b2 su : incl B (keys b) -> domle b b2 -> incl su (keys b2) -> incl (B ++ su) (keys b2).
Proof.
  intros H1 H2 H3. apply incl_app; [|exact H3]. intros x Hx. apply H1, In_dget in Hx as [v Hv].
  assert (Hd : dget b2 x <> None) by (apply H2; congruence). destruct (dget b2 x) eqn:E; [|congruence].
  eapply dget_Some_In; eauto.
Qed.

Lemma seq_sound ps : Forall (fun p => sound_ok p /\ sound_ok (body p)) ps -> tame_all ps ->
  forall full B sk es b b1, scoped_all full B ps -> incl B (keys b) -> NoDup (keys b) -> fresh (flat_map specials ps) b ->
  Mseq sk ps es b b1 -> fits_seq (dget b1) sk ps es.
Proof.
  induction 1 as [|q ps [Hq Hq'] Hall IH]; intros Ht full B sk es b b1 Hsc HB Hnd Hf HM.
  - destruct HM as [-> _]. reflexivity.
  - cbn [flat_map] in Hf. destruct (is_star q) eqn:Hs.
    + destruct q as [| | | | | | | |q n acc g pl]; try discriminate. destruct Ht as ((Ht1 & Ht2 & Ht3) & Hd & Ht).
      destruct Hsc as [[Hsc1 _] Hsc]. destruct HM as (b2 & rest & HSM & HM).
      destruct (sm_struct (M q) n acc pl sk es b b2 rest (names q) (struct_sm_hyp q) Hnd HSM) as (K1 & K2 & K3 & K4 & K5).
      assert (Hf2 : fresh (flat_map specials ps) b2).
      { eapply fresh_after; [|exact Hd|].
        - intros x Hx. apply Hf, in_app_iff. auto.
        - intros x Hx. apply K3 in Hx as [Hx|Hx]; [auto|]. right. cbn [names]. rewrite !in_app_iff in *. tauto. }
      assert (Hext : ext b2 b1).
      { refine (mseq_ext_tame ps _ Ht sk rest b2 b1 K1 Hf2 HM). apply Forall_forall. intros p _. apply M_ext_tame. }
      destruct (sm_sound q n acc pl sk es b b2 rest full B b1) as (seg & ss & H1 & H2 & H3 & H4 & H5); auto.
      { intros x Hx. apply Hf. cbn [specials]. rewrite !in_app_iff in *. tauto. }
      cbn. exists seg, rest, ss. repeat (split; [assumption|]).
      eapply (IH Ht full (B ++ onl n)); [exact Hsc| |exact K1|exact Hf2|exact HM].
      eapply incl_B_after; eauto.
    + rewrite tame_all_nonstar in Ht by exact Hs. destruct Ht as (Ht1 & Hd & Ht).
      rewrite scoped_all_nonstar in Hsc by exact Hs. destruct Hsc as [Hsc1 Hsc].
      rewrite Mseq_nonstar in HM by exact Hs. destruct HM as (e1 & es' & b2 & -> & HM1 & HM).
      destruct (M_struct q e1 b b2 Hnd HM1) as ((K1 & K2 & K3) & K4).
      assert (Hf2 : fresh (flat_map specials ps) b2).
      { eapply fresh_after; [|exact Hd|exact K3]. intros x Hx. apply Hf, in_app_iff. auto. }
      assert (Hext : ext b2 b1).
      { refine (mseq_ext_tame ps _ Ht sk es' b2 b1 K1 Hf2 HM). apply Forall_forall. intros p _. apply M_ext_tame. }
      rewrite fits_seq_nonstar by exact Hs. exists e1, es'. split; [reflexivity|]. split.
      * eapply fits_mono; [exact Hext|]. eapply Hq; eauto. intros x Hx. apply Hf, in_app_iff. auto.
      * eapply (IH Ht full (B ++ sure q)); [exact Hsc| |exact K1|exact Hf2|exact HM]. eapply incl_B_after; eauto.
Qed.

Lemma seq_complete ps : Forall (fun p => comp_ok p /\ comp_ok (body p)) ps -> tame_all ps ->
  forall B s sk es b, scoped_all true B ps -> incl B (keys b) -> NoDup (keys b) -> fresh (flat_map specials ps) b ->
  below (dget b) s -> fits_seq s sk ps es -> exists b1, Mseq sk ps es b b1 /\ below (dget b1) s.
Proof.
  induction 1 as [|q ps [Hq Hq'] Hall IH]; intros Ht B s sk es b Hsc HB Hnd Hf Hbel Hfit.
  - simpl in Hfit. subst. exists b. split; [split; reflexivity|exact Hbel].
  - cbn [flat_map] in Hf. destruct (is_star q) eqn:Hs.
    + destruct q as [| | | | | | | |q n acc g pl]; try discriminate. destruct Ht as ((Ht1 & Ht2 & Ht3) & Hd & Ht).
      destruct Hsc as [[Hsc1 Hsc2] Hsc]. destruct (Hsc2 eq_refl) as [_ Hsure].
      destruct Hfit as (seg & rest & ss & -> & H2 & H3 & H4 & H5 & H6).
      destruct (sm_complete q n acc pl sk seg rest ss b s B) as (b2 & HSM & Hbel2); auto.
      { intros x Hx. apply Hf. cbn [specials]. rewrite !in_app_iff in *. tauto. }
      destruct (sm_struct (M q) n acc pl sk _ b b2 rest (names q) (struct_sm_hyp q) Hnd HSM) as (K1 & K2 & K3 & K4 & K5).
      destruct (IH Ht (B ++ onl n) s sk rest b2 Hsc) as (b1 & HM & Hb1); auto.
      { eapply incl_B_after; eauto. }
      { eapply fresh_after; [|exact Hd|].
        - intros x Hx. apply Hf, in_app_iff. auto.
        - intros x Hx. apply K3 in Hx as [Hx|Hx]; [auto|]. right. cbn [names]. rewrite !in_app_iff in *. tauto. }
      exists b1. split; [|exact Hb1]. cbn. eauto.
    + rewrite tame_all_nonstar in Ht by exact Hs. destruct Ht as (Ht1 & Hd & Ht).
      rewrite scoped_all_nonstar in Hsc by exact Hs. destruct Hsc as [Hsc1 Hsc].
      rewrite fits_seq_nonstar in Hfit by exact Hs. destruct Hfit as (e1 & es' & -> & H1 & H2).
      destruct (Hq Ht1 B s e1 b Hsc1 HB Hnd) as (b2 & HM1 & Hbel2); auto.
      { intros x Hx. apply Hf, in_app_iff. auto. }
      destruct (M_struct q e1 b b2 Hnd HM1) as ((K1 & K2 & K3) & K4).
      destruct (IH Ht (B ++ sure q) s sk es' b2 Hsc) as (b1 & HM & Hb1); auto.
      { eapply incl_B_after; eauto. }
      { eapply fresh_after; [|exact Hd|exact K3]. intros x Hx. apply Hf, in_app_iff. auto. }
      exists b1. split; [|exact Hb1]. rewrite Mseq_nonstar by exact Hs. eauto 8.
Qed.

Lemma scoped_up p : forall B, scoped true B p -> scoped false B p.
Proof.
  assert (Hseq : forall ps, Forall (fun p => (forall B, scoped true B p -> scoped false B p) /\
      (forall B, scoped true B (body p) -> scoped false B (body p))) ps ->
      forall B, scoped_all true B ps -> scoped_all false B ps).
  { induction 1 as [|q ps [Hq Hq'] _ IH]; intros B HB; [exact I|].
    destruct (is_star q) eqn:Hs.
    - destruct q; try discriminate. simpl in Hq'. destruct HB as [[H1 H2] H3]. split; [split; [auto|discriminate]|].
      apply IH. exact H3.
    - rewrite scoped_all_nonstar in HB |- * by exact Hs. destruct HB. auto. }
  induction p using pat_ind'; intros B HB; try exact I.
  - exact (Hseq l H B HB).
  - exact (Hseq l H B HB).
  - destruct HB. split; auto.
  - destruct HB. split; [auto|discriminate].
  - apply scoped_PChoice in HB. apply scoped_PChoice. rewrite Forall_forall in *. auto.
Qed.

Lemma sound_complete p : sound_ok p /\ comp_ok p.
Proof.
  induction p using pat_ind'.
  - split.
    + intros _ full B e b b1 _ _ _ _ HM. destruct HM as [HM _]. exact HM.
    + intros _ B s e b _ _ _ _ Hbel Hfit. exists b. split; [|exact Hbel]. split; [exact Hfit|reflexivity].
  - split.
    + intros _ full B e b b1 _ _ _ _ HM. destruct HM as [HM _]. exact HM.
    + intros _ B s0 e b _ _ _ _ Hbel Hfit. exists b. split; [|exact Hbel]. split; [exact Hfit|reflexivity].
  - split.
    + intros Ht full B e b b1 Hsc HB Hnd Hf HM. apply M_PSeq in HM as (sk & es & H1 & H2). rewrite fits_PSeq.
      exists sk, es. split; [exact H1|]. refine (seq_sound l _ Ht full B _ _ b b1 Hsc HB Hnd Hf H2).
      eapply Forall_impl; [|exact H]. simpl. intros q Hq. destruct Hq as [[? ?] [? ?]]. auto.
    + intros Ht B s e b Hsc HB Hnd Hf Hbel Hfit. rewrite fits_PSeq in Hfit. destruct Hfit as (sk & es & H1 & H2).
      destruct (seq_complete l) with (B := B) (s := s) (sk := sk) (es := es) (b := b) as (b1 & H3 & H4); auto.
      { eapply Forall_impl; [|exact H]. simpl. intros q Hq. destruct Hq as [[? ?] [? ?]]. auto. }
      exists b1. split; [|exact H4]. apply M_PSeq. eauto.
  - split.
    + intros Ht full B e b b1 Hsc HB Hnd Hf HM. apply M_PDict in HM as (vs & H1 & H2). rewrite fits_PDict.
      exists vs. split; [exact H1|]. refine (seq_sound l _ Ht full B _ _ b b1 Hsc HB Hnd Hf H2).
      eapply Forall_impl; [|exact H]. simpl. intros q Hq. destruct Hq as [[? ?] [? ?]]. auto.
    + intros Ht B s e b Hsc HB Hnd Hf Hbel Hfit. rewrite fits_PDict in Hfit. destruct Hfit as (vs & H1 & H2).
      destruct (seq_complete l) with (B := B) (s := s) (sk := SlTuple) (es := vs) (b := b) as (b1 & H3 & H4); auto.
      { eapply Forall_impl; [|exact H]. simpl. intros q Hq. destruct Hq as [[? ?] [? ?]]. auto. }
      exists b1. split; [|exact H4]. apply M_PDict. eauto.
  - destruct IHp1 as [S1 C1], IHp2 as [S2 C2]. split.
    + intros (Ht1 & Ht2 & Hd) full B e b b1 [Hsc1 Hsc2] HB Hnd Hf (h & kids & b2 & -> & HM1 & HM2).
      destruct (M_struct _ _ _ _ Hnd HM1) as ((K1 & K2 & K3) & K4).
      assert (Hf2 : fresh (specials p2) b2).
      { eapply fresh_after; [|exact Hd|exact K3]. intros x Hx. apply Hf, in_app_iff. auto. }
      assert (Hext : ext b2 b1) by (eapply M_ext_tame; eauto).
      exists h, kids. split; [reflexivity|]. split.
      * eapply fits_mono; [exact Hext|]. eapply S1; eauto. intros x Hx. apply Hf, in_app_iff. auto.
      * eapply (S2 Ht2 full (B ++ sure p1)); eauto. eapply incl_B_after; eauto.
    + intros (Ht1 & Ht2 & Hd) B s e b [Hsc1 Hsc2] HB Hnd Hf Hbel (h & kids & -> & F1 & F2).
      assert (Hf1 : fresh (specials p1) b) by (intros x Hx; apply Hf, in_app_iff; auto).
      destruct (C1 Ht1 B s (VSeq KTuple h) b Hsc1 HB Hnd Hf1 Hbel F1) as (b2 & HM1 & Hb2).
      destruct (M_struct _ _ _ _ Hnd HM1) as ((K1 & K2 & K3) & K4).
      destruct (C2 Ht2 (B ++ sure p1) s (VSeq KTuple kids) b2 Hsc2) as (b1 & HM2 & Hb1); auto.
      { eapply incl_B_after; eauto. }
      { eapply fresh_after; [|exact Hd|exact K3]. intros x Hx. apply Hf, in_app_iff. auto. }
      exists b1. split; [|exact Hb1]. cbn [M]. eauto 8.
  - split.
    + intros _ full B e b b1 _ _ _ _ [Hr HM]. split; [now apply Forall_forall; intros x Hx; apply (proj1 (forallb_forall _ _) Hr)|].
      destruct n as [x|]; [|exact I]. destruct (dget b x) as [v|] eqn:E.
      * destruct HM as [HM ->]. exists v. auto.
      * subst b1. exists e. split; [rewrite dget_dset, String.eqb_refl; reflexivity | apply same_refl].
    + intros _ B s e b _ _ _ _ Hbel [Hr Hn].
      assert (Hr' : forallb (fun r0 => r0 e) r = true).
      { apply forallb_forall. intros f Hf'. rewrite Forall_forall in Hr. auto. }
      cbn [M]. destruct n as [x|]; [|exists b; auto]. destruct Hn as (v & H1 & H2).
      destruct (dget b x) as [w|] eqn:E.
      * exists b. split; [|exact Hbel]. split; [exact Hr'|]. split; [|reflexivity].
        apply Hbel in E as (v' & H3 & H4). assert (v' = v) by congruence. subst. exact (same_trans _ _ _ H4 H2).
      * exists (dset b x e). split; [auto|]. intros y u Hy. rewrite dget_dset in Hy.
        destruct (String.eqb_spec y x) as [Eq|]; [|auto]. subst y. injection Hy as <-. exists v. split; [exact H1|]. now apply same_sym.
  - destruct IHp as [S C]. split.
    + intros Ht full B e b b1 [Hsc _] HB Hnd Hf [HM ->]. cbn [fits]. intros s' Hext Hfit.
      assert (Hbel : below (dget b) s') by (intros x v Hx; exists v; split; [auto|apply same_refl]).
      destruct (C Ht B s' e b Hsc HB Hnd Hf Hbel Hfit) as (b2 & HM2 & _).
      assert (Hsome : some (pmatch p e b gret)).
      { eapply (succ p Ht B Hsc); eauto. exists b2. simpl. auto. }
      rewrite HM in Hsome. destruct Hsome as [y []].
    + intros Ht B s e b [Hsc Hnm] HB Hnd Hf Hbel Hfit. specialize (Hnm eq_refl). exists b. split; [|exact Hbel].
      cbn [M]. split; [|reflexivity].
      assert (Hne : snd (pmatch p e b gret) = None) by (apply noerr; auto).
      destruct (pmatch p e b gret) as [[|y ys] er] eqn:E; simpl in Hne; subst er; [reflexivity|]. exfalso.
      assert (HM : M p e b y). { apply inner_origin. rewrite E. simpl. auto. }
      assert (Hfy := S Ht true B e b y Hsc HB Hnd Hf HM).
      cbn [fits] in Hfit. apply (Hfit s); [intros x v Hx; exact Hx|].
      eapply fits_cong; [|exact Hfy]. intros x Hx. apply Hnm, HB, In_dget in Hx as [v Hv].
      rewrite (M_ext_tame p Ht e b y Hnd Hf HM x v Hv). destruct (Hbel _ _ Hv) as (w & Hw1 & Hw2).
      rewrite Hw1. exact Hw2.
  - split.
    + intros Ht full B e b b1 Hsc HB Hnd Hf HM. apply tame_PChoice in Ht. apply scoped_PChoice in Hsc.
      apply M_PChoice in HM. apply Exists_exists in HM as (q & Hq & HM). rewrite Forall_forall in H, Ht, Hsc.
      destruct (Ht q Hq) as [Htq Hdq].
      set (b' := match n with Some x => dset b x e | None => b end) in *.
      assert (Hnd' : NoDup (keys b')) by (unfold b'; destruct n; [now apply NoDup_dset|auto]).
      assert (Hfq : fresh (specials q) b').
      { assert (Hfq : fresh (specials q) b).
        { intros x Hx. apply Hf. cbn [specials]. apply in_app_iff. right. apply in_flat_map. eauto. }
        unfold b'. destruct n as [y|]; [|exact Hfq]. intros x Hx. rewrite dget_dset.
        destruct (String.eqb_spec x y); [|auto]. subst. destruct (Hdq y Hx). simpl; auto. }
      apply fits_PChoice. split.
      * destruct n as [x|]; [|exact I]. exists e. split; [|apply same_refl].
        apply (M_ext_tame q Htq e b' b1 Hnd' Hfq HM). unfold b'. now rewrite dget_dset, String.eqb_refl.
      * apply Exists_exists. exists q. split; [exact Hq|].
        eapply (proj1 (H q Hq) Htq full (B ++ onl n)); eauto.
        intros x Hx. apply in_app_iff in Hx as [Hx|Hx].
        -- unfold b'. destruct n; [apply keys_dset; right|]; auto.
        -- unfold b'. destruct n; simpl in Hx; [|tauto]. destruct Hx as [<-|[]]. apply keys_dset. auto.
    + intros Ht B s e b Hsc HB Hnd Hf Hbel Hfit. apply tame_PChoice in Ht. apply scoped_PChoice in Hsc.
      apply fits_PChoice in Hfit as [Hn Hex]. apply Exists_exists in Hex as (q & Hq & Hfq). rewrite Forall_forall in H, Ht, Hsc.
      destruct (Ht q Hq) as [Htq Hdq].
      set (b' := match n with Some x => dset b x e | None => b end) in *.
      assert (Hnd' : NoDup (keys b')) by (unfold b'; destruct n; [now apply NoDup_dset|auto]).
      assert (Hfr : fresh (specials q) b').
      { assert (Hfr : fresh (specials q) b).
        { intros x Hx. apply Hf. cbn [specials]. apply in_app_iff. right. apply in_flat_map. eauto. }
        unfold b'. destruct n as [y|]; [|exact Hfr]. intros x Hx. rewrite dget_dset.
        destruct (String.eqb_spec x y); [|auto]. subst. destruct (Hdq y Hx). simpl; auto. }
      destruct (proj2 (H q Hq) Htq (B ++ onl n) s e b' (Hsc q Hq)) as (b1 & HM & Hb1); auto.
      * intros x Hx. apply in_app_iff in Hx as [Hx|Hx].
        -- unfold b'. destruct n; [apply keys_dset; right|]; auto.
        -- unfold b'. destruct n; simpl in Hx; [|tauto]. destruct Hx as [<-|[]]. apply keys_dset. auto.
      * intros x v Hx. unfold b' in Hx. destruct n as [y|]; [|auto]. rewrite dget_dset in Hx.
        destruct (String.eqb_spec x y) as [Eq|]; [|auto]. subst y. injection Hx as <-.
        destruct Hn as (w & Hw1 & Hw2). exists w. split; [exact Hw1|now apply same_sym].
      * exists b1. split; [|exact Hb1]. apply M_PChoice. apply Exists_exists. eauto.
  - split.
    + intros [].
    + intros [].
Qed.
