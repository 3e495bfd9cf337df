From Verif Require Import EinsumModel EinsumProofs EinsumProofs2 CanonModel.

(** ** strings *)
Definition plain (s : list ascii) : Prop := ~ In "," %char s /\ ~ In "-"%char s /\ ~ In ">"%char s.
Lemma letter_plain a : letter a = true -> a <> ","%char /\ a <> "-"%char /\ a <> ">"%char.
Proof.
  unfold letter. destruct (in_dec ascii_dec a einsum_letters) as [H|]; [|discriminate]. intros _.
  assert (E : forallb (fun a => negb (Ascii.eqb a "," || Ascii.eqb a "-" || Ascii.eqb a ">")) einsum_letters = true) by reflexivity.
  rewrite forallb_forall in E. specialize (E a H). rewrite negb_true_iff, !orb_false_iff in E. destruct E as [[E1 E2] E3].
  apply Ascii.eqb_neq in E1, E2, E3. auto.
Qed.
Lemma split_on_app c s t : ~ In c s -> split_on c (s ++ c :: t) = s :: split_on c t.
Proof.
  induction s as [|x s IH]; intros H; simpl; [rewrite Ascii.eqb_refl; reflexivity|].
  destruct (Ascii.eqb_spec x c) as [->|]; [exfalso; apply H; left; reflexivity|]. rewrite IH; [reflexivity|]. intros Hx. apply H. right. assumption.
Qed.
Lemma split_on_none c s : ~ In c s -> split_on c s = [s].
Proof.
  induction s as [|x s IH]; intros H; simpl; [reflexivity|].
  destruct (Ascii.eqb_spec x c) as [->|]; [exfalso; apply H; left; reflexivity|]. rewrite IH; [reflexivity|]. intros Hx. apply H. right. assumption.
Qed.
Lemma split_join c l : l <> [] -> (forall s, In s l -> ~ In c s) -> split_on c (join c l) = l.
Proof.
  induction l as [|x l IH]; intros Hne H; [congruence|]. destruct l as [|y l].
  - simpl. apply split_on_none, H. left. reflexivity.
  - change (join c (x :: y :: l)) with (x ++ c :: join c (y :: l)). rewrite split_on_app by (apply H; left; reflexivity). f_equal.
    apply IH; [discriminate|]. intros s Hs. apply H. right. assumption.
Qed.
Lemma split_arrow_app s t : ~ In "-"%char s -> split_arrow (s ++ "-"%char :: ">"%char :: t) = s :: split_arrow t.
Proof.
  induction s as [|x s IH]; intros H; [reflexivity|]. simpl app. cbn [split_arrow]. rewrite IH by (intros Hx; apply H; right; assumption).
  destruct (s ++ "-"%char :: ">"%char :: t) eqn:E; [destruct s; discriminate|].
  destruct (Ascii.eqb_spec x "-") as [->|]; [exfalso; apply H; left; reflexivity|]. reflexivity.
Qed.
Lemma split_arrow_none s : ~ In "-"%char s -> split_arrow s = [s].
Proof.
  induction s as [|x s IH]; intros H; [reflexivity|]. cbn [split_arrow]. rewrite IH by (intros Hx; apply H; right; assumption).
  destruct s; [reflexivity|]. destruct (Ascii.eqb_spec x "-") as [->|]; [exfalso; apply H; left; reflexivity|]. reflexivity.
Qed.
Lemma join_notin a c l : a <> c -> (forall s, In s l -> ~ In a s) -> ~ In a (join c l).
Proof.
  induction l as [|x l IH]; intros Hne H; [intros []|]. destruct l as [|y l].
  - simpl. apply H. left. reflexivity.
  - change (join c (x :: y :: l)) with (x ++ c :: join c (y :: l)). intros Hin. apply in_app_or in Hin as [Hin|[Hin|Hin]].
    + apply (H x); [left; reflexivity|assumption].
    + congruence.
    + apply IH in Hin; auto. intros s Hs. apply H. right. assumption.
Qed.
Lemma formula_roundtrip f : clean f = true -> fins f <> [] -> split_einsum_formula (reconstitute_einsum_formula f) = inl f.
Proof.
  unfold clean. rewrite andb_true_iff, !forallb_forall. intros [H1 H2] Hne.
  assert (Hp : forall s, In s (fins f) -> ~ In ","%char s /\ ~ In "-"%char s).
  { intros s Hs. specialize (H1 s Hs). rewrite forallb_forall in H1. split; intros Hin; apply H1, letter_plain in Hin; tauto. }
  unfold split_einsum_formula, reconstitute_einsum_formula. change (["-"; ">"]%char ++ fout f) with ("-"%char :: ">"%char :: fout f).
  rewrite split_arrow_app by (apply join_notin; [discriminate|]; intros s Hs; apply Hp, Hs).
  rewrite split_arrow_none by (intros Hin; apply H2, letter_plain in Hin; tauto).
  rewrite split_join; [destruct f; reflexivity|assumption|]. intros s Hs. apply Hp, Hs.
Qed.

(** ** compose_formula only uses einsum letters, and succeeds when there are enough *)
#[local] Opaque einsum_letters.
Section alloc.
  Variable U : list key.
  Hypothesis U_small : List.length U <= 52.
  (** A: the keys for which a letter was taken from the iterator *)
  Definition Alloc (st : sstate) : Prop :=
    (forall k a, mget (fst st) k = Some a -> In a einsum_letters) /\ incl (snd st) einsum_letters /\
    exists A, NoDup A /\ incl A U /\ (forall k, In k A -> mget (fst st) k <> None) /\ List.length A + List.length (snd st) = 52.
  Lemma access_ok k st : Alloc st -> (mget (fst st) k <> None \/ In k U) ->
    exists r, access k st = inl r /\ Alloc (snd r) /\ In (fst r) einsum_letters /\ (forall k', mget (fst st) k' <> None -> mget (fst (snd r)) k' <> None) /\
      mget (fst (snd r)) k <> None /\ (forall k', k' <> k -> mget (fst (snd r)) k' = mget (fst st) k').
  Proof.
    intros HAl Hk. pose proof HAl as (Hv & Hl & A & HA & HAU & HAd & Hlen). unfold access. destruct (mget (fst st) k) as [a|] eqn:Hm.
    - exists (a, st). simpl. split; [reflexivity|]. split; [assumption|]. split; [eauto|]. split; [auto|]. split; [rewrite Hm; discriminate|auto].
    - destruct Hk as [Hk|Hk]; [congruence|]. destruct st as [M [|a rem]]; simpl in *.
      + exfalso. assert (Hn : NoDup (k :: A)) by (constructor; [intros Hin; apply HAd in Hin; congruence|assumption]).
        assert (Hi : incl (k :: A) U) by (intros x [<-|Hx]; auto). pose proof (NoDup_incl_length Hn Hi) as Hx. simpl in Hx. lia.
      + exists (a, ((k, a) :: M, rem)). simpl. split; [reflexivity|].
        assert (Ha : In a einsum_letters) by (apply Hl; left; reflexivity).
        split; [split; [|split]|split; [|split; [|split]]].
        * intros k' a' H. simpl in H. destruct (key_dec k' k); [injection H as <-; assumption|eauto].
        * intros x Hx. apply Hl. right. assumption.
        * exists (k :: A). split; [constructor; [intros Hin; apply HAd in Hin; congruence|assumption]|]. split; [intros x [<-|Hx]; auto|]. split.
          { intros x Hx. simpl. destruct (key_dec x k); [discriminate|]. apply HAd. destruct Hx; [congruence|assumption]. }
          { simpl. lia. }
        * assumption.
        * intros k' H. destruct (key_dec k' k); [discriminate|assumption].
        * destruct (key_dec k k); [discriminate|congruence].
        * intros k' Hne. destruct (key_dec k' k); [congruence|reflexivity].
  Qed.
  Lemma access_all_ok mk ls : forall st, Alloc st -> (forall l, In l ls -> mget (fst st) (mk l) <> None \/ In (mk l) U) ->
    exists r, access_all mk ls st = inl r /\ Alloc (snd r) /\ (forall a, In a (fst r) -> In a einsum_letters) /\
      (forall k', mget (fst st) k' <> None -> mget (fst (snd r)) k' <> None) /\
      (forall k', (forall l, In l ls -> k' <> mk l) -> mget (fst (snd r)) k' = mget (fst st) k').
  Proof.
    induction ls as [|l ls IH]; intros st HA Hl; simpl.
    - exists ([], st). simpl. split; [reflexivity|]. split; [assumption|]. split; [intros a []|]. auto.
    - destruct (access_ok (mk l) st HA) as (r1 & H1 & HA1 & Hi1 & Hk1 & Hd1 & Ho1); [apply Hl; left; reflexivity|]. rewrite H1. simpl.
      destruct (IH (snd r1) HA1) as (r2 & H2 & HA2 & Hi2 & Hk2 & Ho2).
      { intros l' Hl'. destruct (Hl l') as [H|H]; [right; assumption| |right; assumption]. left. apply Hk1, H. }
      rewrite H2. simpl. exists (fst r1 :: fst r2, snd r2). simpl. split; [reflexivity|]. split; [assumption|]. split; [|split].
      + intros a [<-|Ha]; auto.
      + auto.
      + intros k' Hk'. rewrite Ho2 by (intros; apply Hk'; right; assumption). apply Ho1. apply Hk'. left. reflexivity.
  Qed.
  Lemma access_alls_ok mk lss : forall st, Alloc st -> (forall l, In l (concat lss) -> mget (fst st) (mk l) <> None \/ In (mk l) U) ->
    exists r, access_alls mk lss st = inl r /\ Alloc (snd r) /\ (forall s a, In s (fst r) -> In a s -> In a einsum_letters) /\
      (forall k', mget (fst st) k' <> None -> mget (fst (snd r)) k' <> None) /\
      (forall k', (forall l, In l (concat lss) -> k' <> mk l) -> mget (fst (snd r)) k' = mget (fst st) k') /\ List.length (fst r) = List.length lss.
  Proof.
    induction lss as [|ls lss IH]; intros st HA Hl; simpl.
    - exists ([], st). simpl. split; [reflexivity|]. split; [assumption|]. split; [intros s a []|]. auto.
    - destruct (access_all_ok mk ls st HA) as (r1 & H1 & HA1 & Hi1 & Hk1 & Ho1); [intros l Hin; apply Hl; simpl; apply in_or_app; auto|]. rewrite H1. simpl.
      destruct (IH (snd r1) HA1) as (r2 & H2 & HA2 & Hi2 & Hk2 & Ho2 & Hlen2).
      { intros l' Hl'. destruct (Hl l') as [H|H]; [simpl; apply in_or_app; auto| |right; assumption]. left. apply Hk1, H. }
      rewrite H2. simpl. exists (fst r1 :: fst r2, snd r2). simpl. split; [reflexivity|]. split; [assumption|]. split; [|split; [|split]].
      + intros s a [<-|Hs] Ha; eauto.
      + auto.
      + intros k' Hk'. rewrite Ho2 by (intros; apply Hk'; simpl; apply in_or_app; auto). apply Ho1. intros; apply Hk'. simpl. apply in_or_app. auto.
      + congruence.
  Qed.
  Lemma link_ok cl : forall st, Alloc st -> NoDup (map fst cl) -> (forall c, In c (map fst cl) -> mget (fst st) (KC c) = None /\ ~ In (KC c) U) ->
    (forall c l, In (c, l) cl -> mget (fst st) (KP l) <> None \/ In (KP l) U) ->
    exists st', link cl st = inl st' /\ Alloc st' /\ (forall c, In c (map fst cl) -> mget (fst st') (KC c) <> None) /\
      (forall k', mget (fst st) k' <> None -> mget (fst st') k' <> None).
  Proof.
    induction cl as [|[c l] cl IH]; intros st HA Hn Hc Hl; simpl.
    - exists st. split; [reflexivity|]. split; [assumption|]. split; [intros ? []|auto].
    - destruct (access_ok (KP l) st HA) as (r1 & H1 & HA1 & Hi1 & Hk1 & Hd1 & Ho1); [apply (Hl c); left; reflexivity|]. rewrite H1. simpl.
      apply NoDup_cons_iff in Hn as [Hcn Hn].
      set (st1 := ((KC c, fst r1) :: fst (snd r1), snd (snd r1))).
      assert (HA2 : Alloc st1).
      { destruct HA1 as (Hv & Hle & A & HA' & HAU & HAd & Hlen). split; [|split; [assumption|]].
        - intros k a H. simpl in H. destruct (key_dec k (KC c)); [injection H as <-; assumption|eauto].
        - exists A. split; [assumption|]. split; [assumption|]. split; [|assumption]. intros k Hk. simpl. destruct (key_dec k (KC c)); [discriminate|auto]. }
      assert (Hsub : forall k', mget (fst (snd r1)) k' <> None -> mget (fst st1) k' <> None).
      { intros k' H. simpl. destruct (key_dec k' (KC c)); [discriminate|assumption]. }
      destruct (IH st1 HA2 Hn) as (st' & H2 & HA3 & Hd3 & Hk3).
      { intros c' Hc'. destruct (Hc c') as [Hc1 Hc2]; [right; assumption|]. split; [|assumption]. simpl.
        destruct (key_dec (KC c') (KC c)) as [e|]; [injection e as ->; contradiction|]. rewrite Ho1 by discriminate. assumption. }
      { intros c' l' Hin. destruct (Hl c' l') as [H|H]; [right; assumption| |right; assumption]. left. apply Hsub, Hk1, H. }
      exists st'. split; [assumption|]. split; [assumption|]. split; [|auto].
      intros c' [E|Hc']; [|auto]. simpl in E. subst c'. apply Hk3. simpl. destruct (key_dec (KC c) (KC c)); [discriminate|congruence].
  Qed.
End alloc.

(** number of different letters of the composed einsum *)
Definition count_letters (parent child : formula) : nat :=
  List.length (nodup ascii_dec (concat (fins parent) ++ fout parent)) +
  List.length (nodup ascii_dec (filter (fun c => if in_dec ascii_dec c (fout child) then false else true) (concat (fins child)))).
Lemma compose_formula_ok parent n child old : nth_error (fins parent) n = Some old -> List.length (fout child) = List.length old ->
  NoDup (fout child) -> count_letters parent child <= 52 ->
  exists f, compose_formula parent n child = inl f /\ clean f = true /\ (fins child <> [] -> fins f <> []).
Proof.
  intros Hnth Hlo Hnd Hcount. unfold compose_formula. rewrite Hnth.
  destruct (Nat.eqb_spec (List.length (fout child)) (List.length old)) as [_|]; [|contradiction].
  set (U := map KP (nodup ascii_dec (concat (fins parent) ++ fout parent)) ++
            map KC (nodup ascii_dec (filter (fun c => if in_dec ascii_dec c (fout child) then false else true) (concat (fins child))))).
  assert (HU : List.length U <= 52) by (unfold U; rewrite app_length, !map_length; exact Hcount).
  assert (HUP : forall l, In l (concat (fins parent) ++ fout parent) -> In (KP l) U).
  { intros l Hl. apply in_or_app. left. apply in_map. apply nodup_In. assumption. }
  assert (HUC : forall c, In c (concat (fins child)) -> ~ In c (fout child) -> In (KC c) U).
  { intros l Hl Hno. apply in_or_app. right. apply in_map. apply nodup_In. apply filter_In. split; [assumption|]. destruct (in_dec ascii_dec l (fout child)); [contradiction|reflexivity]. }
  assert (HUN : forall c, In c (fout child) -> ~ In (KC c) U).
  { intros c Hc Hin. apply in_app_or in Hin as [Hin|Hin]; apply in_map_iff in Hin as (x & E & Hx); [discriminate|]. injection E as ->.
    apply nodup_In in Hx. apply filter_In in Hx as [_ Hx]. destruct (in_dec ascii_dec c (fout child)); [discriminate|contradiction]. }
  assert (HA0 : Alloc U ([], einsum_letters)).
  { split; [simpl; discriminate|]. split; [apply incl_refl|]. exists []. split; [constructor|]. split; [intros ? []|]. split; [intros ? []|exact letters_len]. }
  set (pins := firstn n (fins parent) ++ skipn (S n) (fins parent)).
  assert (Hpins : forall l, In l (concat pins) -> In l (concat (fins parent))).
  { intros l Hl. apply in_concat in Hl as (s & Hs & Hl). apply in_concat. exists s. split; [|assumption]. unfold pins in Hs. apply in_app_or in Hs as [Hs|Hs].
    - rewrite <- (firstn_skipn n (fins parent)). apply in_or_app. auto.
    - rewrite <- (firstn_skipn (S n) (fins parent)). apply in_or_app. auto. }
  destruct (access_alls_ok U HU KP pins _ HA0) as (r1 & H1 & HA1 & Hi1 & Hk1 & Ho1 & Hlen1).
  { intros l Hl. right. apply HUP. apply in_or_app. left. auto. }
  destruct (access_all_ok U HU KP (fout parent) (snd r1) HA1) as (r2 & H2 & HA2 & Hi2 & Hk2 & Ho2).
  { intros l Hl. right. apply HUP. apply in_or_app. auto. }
  assert (Hcl : map fst (combine (fout child) old) = fout child).
  { clear -Hlo. revert old Hlo. induction (fout child); intros [|? ?] E; simpl in *; try discriminate; [reflexivity|]. f_equal. apply IHl. congruence. }
  destruct (link_ok U HU (combine (fout child) old) (snd r2) HA2) as (st3 & H3 & HA3 & Hd3 & Hk3).
  { rewrite Hcl. assumption. }
  { rewrite Hcl. intros c Hc. split; [|auto]. rewrite Ho2 by discriminate. rewrite Ho1 by discriminate. reflexivity. }
  { intros c l Hin. right. apply HUP. apply in_or_app. left. apply in_combine_r in Hin. apply in_concat. exists old. split; [eapply nth_error_In; eassumption|assumption]. }
  destruct (access_alls_ok U HU KC (fins child) st3 HA3) as (r4 & H4 & HA4 & Hi4 & Hk4 & Ho4 & Hlen4).
  { intros c Hc. destruct (in_dec ascii_dec c (fout child)) as [Hi|Hi]; [left; apply Hd3; rewrite Hcl; assumption|right; auto]. }
  fold pins. rewrite H1. cbn [rb']. rewrite H2. cbn [rb']. rewrite H3. cbn [rb']. rewrite H4. cbn [rb'].
  eexists. split; [reflexivity|]. split.
  - unfold clean. simpl fins. simpl fout. assert (Hlet : forall a, In a einsum_letters -> letter a = true).
    { intros a Ha. unfold letter. destruct (in_dec ascii_dec a einsum_letters); [reflexivity|contradiction]. }
    apply andb_true_iff. split.
    + apply forallb_forall. intros s Hs. apply forallb_forall. intros a Ha. apply Hlet. apply in_app_or in Hs as [Hs|Hs].
      * apply (Hi1 s a); [|assumption]. rewrite <- (firstn_skipn n (fst r1)). apply in_or_app. auto.
      * apply in_app_or in Hs as [Hs|Hs]; [eapply Hi4; eassumption|]. apply (Hi1 s a); [|assumption]. rewrite <- (firstn_skipn n (fst r1)). apply in_or_app. auto.
    + apply forallb_forall. intros a Ha. apply Hlet. auto.
  - simpl. intros Hne E. apply app_eq_nil in E as [_ E]. apply app_eq_nil in E as [E _]. destruct (fins child); [congruence|]. rewrite E in Hlen4. discriminate.
Qed.

(** any successful composition is clean *)
Lemma access_letters k st r : (forall k a, mget (fst st) k = Some a -> In a einsum_letters) -> incl (snd st) einsum_letters -> access k st = inl r ->
  (forall k a, mget (fst (snd r)) k = Some a -> In a einsum_letters) /\ incl (snd (snd r)) einsum_letters /\ In (fst r) einsum_letters.
Proof.
  intros Hv Hl H. unfold access in H. destruct (mget (fst st) k) as [a|] eqn:Hm; [injection H as <-; simpl; eauto|].
  destruct st as [M [|a rem]]; simpl in *; [discriminate|]. injection H as <-. simpl.
  assert (Ha : In a einsum_letters) by (apply Hl; left; reflexivity). split; [|split; [|assumption]].
  - intros k' a' H. destruct (key_dec k' k); [injection H as <-; assumption|eauto].
  - intros x Hx. apply Hl. right. assumption.
Qed.
Lemma access_all_letters mk ls : forall st r, (forall k a, mget (fst st) k = Some a -> In a einsum_letters) -> incl (snd st) einsum_letters -> access_all mk ls st = inl r ->
  (forall k a, mget (fst (snd r)) k = Some a -> In a einsum_letters) /\ incl (snd (snd r)) einsum_letters /\ (forall a, In a (fst r) -> In a einsum_letters).
Proof.
  induction ls as [|l ls IH]; intros st r Hv Hl H; simpl in H.
  - injection H as <-. simpl. split; [assumption|]. split; [assumption|intros ? []].
  - destruct (access (mk l) st) as [r1|] eqn:H1; [|discriminate]. simpl in H. destruct (access_all mk ls (snd r1)) as [r2|] eqn:H2; [|discriminate]. injection H as <-.
    destruct (access_letters _ _ _ Hv Hl H1) as (A & B & C). destruct (IH _ _ A B H2) as (A' & B' & C'). simpl. split; [assumption|]. split; [assumption|].
    intros a [<-|Ha]; auto.
Qed.
Lemma access_alls_letters mk lss : forall st r, (forall k a, mget (fst st) k = Some a -> In a einsum_letters) -> incl (snd st) einsum_letters -> access_alls mk lss st = inl r ->
  (forall k a, mget (fst (snd r)) k = Some a -> In a einsum_letters) /\ incl (snd (snd r)) einsum_letters /\ (forall s a, In s (fst r) -> In a s -> In a einsum_letters) /\
  List.length (fst r) = List.length lss.
Proof.
  induction lss as [|l ls IH]; intros st r Hv Hl H; simpl in H.
  - injection H as <-. simpl. split; [assumption|]. split; [assumption|split; [intros ? ? []|reflexivity]].
  - destruct (access_all mk l st) as [r1|] eqn:H1; [|discriminate]. simpl in H. destruct (access_alls mk ls (snd r1)) as [r2|] eqn:H2; [|discriminate]. injection H as <-.
    destruct (access_all_letters _ _ _ _ Hv Hl H1) as (A & B & C). destruct (IH _ _ A B H2) as (A' & B' & C' & D'). simpl. split; [assumption|]. split; [assumption|].
    split; [|congruence]. intros s a [<-|Hs] Ha; eauto.
Qed.
Lemma link_letters cl : forall st st', (forall k a, mget (fst st) k = Some a -> In a einsum_letters) -> incl (snd st) einsum_letters -> link cl st = inl st' ->
  (forall k a, mget (fst st') k = Some a -> In a einsum_letters) /\ incl (snd st') einsum_letters.
Proof.
  induction cl as [|[c l] cl IH]; intros st st' Hv Hl H; simpl in H; [injection H as <-; auto|].
  destruct (access (KP l) st) as [r1|] eqn:H1; [|discriminate]. simpl in H. destruct (access_letters _ _ _ Hv Hl H1) as (A & B & C).
  apply IH in H; simpl; auto. intros k a Hk. destruct (key_dec k (KC c)); [injection Hk as <-; assumption|eauto].
Qed.
Lemma compose_formula_clean parent n child f : compose_formula parent n child = inl f -> clean f = true /\ (fins child <> [] -> fins f <> []).
Proof.
  unfold compose_formula. destruct (nth_error (fins parent) n) as [old|]; [|discriminate].
  destruct (Nat.eqb (List.length (fout child)) (List.length old)); [|discriminate].
  destruct (access_alls KP _ _) as [r1|] eqn:H1; [|discriminate]. cbn [rb'].
  destruct (access_all KP _ _) as [r2|] eqn:H2; [|discriminate]. cbn [rb'].
  destruct (link _ _) as [st3|] eqn:H3; [|discriminate]. cbn [rb'].
  destruct (access_alls KC _ _) as [r4|] eqn:H4; [|discriminate]. cbn [rb']. injection 1 as <-.
  assert (A0 : forall k a, mget (fst (@nil (key * ascii), einsum_letters)) k = Some a -> In a einsum_letters) by (intros k a E; discriminate E).
  assert (B0 : incl (snd (@nil (key * ascii), einsum_letters)) einsum_letters) by apply incl_refl.
  destruct (access_alls_letters _ _ _ _ A0 B0 H1) as (A1 & B1 & C1 & L1).
  destruct (access_all_letters _ _ _ _ A1 B1 H2) as (A2 & B2 & C2).
  destruct (link_letters _ _ _ A2 B2 H3) as (A3 & B3).
  destruct (access_alls_letters _ _ _ _ A3 B3 H4) as (A4 & B4 & C4 & L4).
  assert (Hlet : forall a, In a einsum_letters -> letter a = true).
  { intros a Ha. unfold letter. destruct (in_dec ascii_dec a einsum_letters); [reflexivity|contradiction]. }
  split.
  - unfold clean. simpl fins. simpl fout. apply andb_true_iff. split.
    + apply forallb_forall. intros s Hs. apply forallb_forall. intros a Ha. apply Hlet. apply in_app_or in Hs as [Hs|Hs].
      * apply (C1 s a); [|assumption]. rewrite <- (firstn_skipn n (fst r1)). apply in_or_app. auto.
      * apply in_app_or in Hs as [Hs|Hs]; [eapply C4; eassumption|]. apply (C1 s a); [|assumption]. rewrite <- (firstn_skipn n (fst r1)). apply in_or_app. auto.
    + apply forallb_forall. intros a Ha. apply Hlet. auto.
  - simpl. intros Hne E. apply app_eq_nil in E as [_ E]. apply app_eq_nil in E as [E _]. destruct (fins child); [congruence|]. rewrite E in L4. discriminate.
Qed.
Lemma split_on_ne c s : split_on c s <> [].
Proof. induction s as [|x s IH]; simpl; [discriminate|]. destruct (Ascii.eqb x c); [discriminate|]. destruct (split_on c s); discriminate. Qed.
Lemma split_formula_ne s f : split_einsum_formula s = inl f -> fins f <> [].
Proof.
  unfold split_einsum_formula. destruct (split_arrow s) as [|i [|o []]]; try discriminate. injection 1 as <-. simpl. apply split_on_ne.
Qed.

Section str.
  Variables (K : Type) (k0 k1 : K) (kadd kmul : K -> K -> K).
  Hypothesis SR : semi_ring_theory k0 k1 kadd kmul eq.
  Notation einsum_str := (einsum_str K k0 k1 kadd kmul).
  Theorem compose_str parent child f largs cargs rargs a r :
    einsum_str child cargs = inl a -> einsum_str parent (largs ++ a :: rargs) = inl r ->
    compose_einsums parent (List.length largs) child = inl f -> einsum_str f (largs ++ cargs ++ rargs) = inl r.
  Proof.
    unfold CanonModel.einsum_str, compose_einsums.
    destruct (split_einsum_formula child) as [c|] eqn:Hc; [|discriminate]. destruct (split_einsum_formula parent) as [p|] eqn:Hp; [|discriminate].
    cbn [rb']. destruct (clean c); [|discriminate]. destruct (clean p); [|discriminate].
    intros H1 H2. destruct (compose_formula p (List.length largs) c) as [g|] eqn:Hg; [|discriminate]. cbn [rb']. injection 1 as <-.
    destruct (compose_formula_clean _ _ _ _ Hg) as [Hcl Hne].
    rewrite formula_roundtrip; [|assumption|]. 2: { apply Hne. eapply split_formula_ne; eassumption. }
    cbn [rb']. rewrite Hcl. eapply compose_correct; eauto.
  Qed.
  (** parse/unparse of the formulas produced by the primitive rules *)
  Lemma einsum_str_render f ops : clean f = true -> fins f <> [] -> einsum_str (reconstitute_einsum_formula f) ops = einsum K k0 k1 kadd kmul f ops.
  Proof. intros Hc Hn. unfold CanonModel.einsum_str. rewrite formula_roundtrip by assumption. cbn [rb']. rewrite Hc. reflexivity. Qed.

  (** ** AddN *)
  Notation addn := (addn K k0 kadd).
  Notation reduce_add := (reduce_add K k0 kadd).
  Notation add_arrays := (add_arrays K k0 kadd).
  Definition same_shapes (s : list nat) (l : list (array K)) : Prop := Forall (fun a => shape a = s) l.
  Definition sum_at (l : list (array K)) (ix : list nat) : K := fold_right kadd k0 (map (fun a => get k0 a ix) l).
  Lemma sum_at_app l m ix : sum_at (l ++ m) ix = kadd (sum_at l ix) (sum_at m ix).
  Proof. unfold sum_at. induction l as [|a l IH]; simpl; [symmetry; apply (SRadd_0_l SR)|]. rewrite IH. apply (SRadd_assoc SR). Qed.
  Lemma reduce_add_spec l : forall acc r, reduce_add acc l = inl r ->
    same_shapes (shape acc) l /\ shape r = shape acc /\ (forall ix, in_bounds (shape acc) ix -> get k0 r ix = sum_at (acc :: l) ix) /\
    (l = [] -> r = acc) /\ (l <> [] -> r = tabulate (shape acc) (sum_at (acc :: l))).
  Proof.
    induction l as [|x l IH]; intros acc r H; simpl in H.
    - injection H as <-. split; [constructor|]. split; [reflexivity|]. split; [|split; [auto|congruence]].
      intros ix _. unfold sum_at. simpl. symmetry. apply (add_0_r K k0 k1 kadd kmul SR).
    - unfold CanonModel.add_arrays in H. destruct (list_eq_dec Nat.eq_dec (shape acc) (shape x)) as [E|]; [|discriminate]. cbn [rb'] in H.
      destruct (IH _ _ H) as (Hs & Hr & Hg & Hn & Hn'). simpl shape in *.
      assert (Hg' : forall ix, in_bounds (shape acc) ix -> get k0 r ix = sum_at (acc :: x :: l) ix).
      { intros ix Hix. rewrite Hg by assumption. unfold sum_at. simpl. rewrite get_tabulate by assumption. symmetry. apply (SRadd_assoc SR). }
      split; [constructor; [congruence|assumption]|]. split; [assumption|]. split; [assumption|]. split; [discriminate|]. intros _.
      destruct l as [|y l].
      + rewrite (Hn eq_refl). apply tabulate_ext. intros ix Hix. unfold sum_at. simpl. rewrite (add_0_r K k0 k1 kadd kmul SR). reflexivity.
      + rewrite Hn' by discriminate. apply tabulate_ext. intros ix Hix. unfold sum_at. simpl. rewrite get_tabulate by assumption.
        symmetry. apply (SRadd_assoc SR).
  Qed.
  Lemma reduce_add_intro l : forall acc, same_shapes (shape acc) l -> exists r, reduce_add acc l = inl r.
  Proof.
    induction l as [|x l IH]; intros acc H; simpl; [eauto|]. inversion H; subst. unfold CanonModel.add_arrays.
    destruct (list_eq_dec Nat.eq_dec (shape acc) (shape x)); [|congruence]. cbn [rb']. apply IH. simpl. assumption.
  Qed.
  Lemma addn_value l r : addn l = inl r -> 2 <= List.length l -> exists s, same_shapes s l /\ r = tabulate s (sum_at l).
  Proof.
    destruct l as [|a [|b l]]; simpl; try lia. intros H _. destruct (reduce_add_spec (b :: l) a r H) as (Hs & _ & _ & _ & Hr).
    exists (shape a). split; [constructor; [reflexivity|assumption]|]. apply Hr. discriminate.
  Qed.
  Lemma addn_intro s l : same_shapes s l -> 2 <= List.length l -> addn l = inl (tabulate s (sum_at l)).
  Proof.
    intros Hs Hl. destruct l as [|a [|b l]]; simpl in Hl; try lia. inversion Hs as [|? ? Ha Hs']; subst.
    destruct (reduce_add_intro (b :: l) a Hs') as [r Hr]. change (addn (a :: b :: l)) with (reduce_add a (b :: l)). rewrite Hr. f_equal.
    destruct (reduce_add_spec _ _ _ Hr) as (_ & _ & _ & _ & H). apply H. discriminate.
  Qed.
  (** add_to_addn and addn_of_addn_to_addn, canonicalize.py:176-200 *)
  Theorem add_addn x y : addn [x; y] = add_arrays x y.
  Proof. unfold CanonModel.addn, CanonModel.reduce_add. destruct (add_arrays x y); reflexivity. Qed.
  Theorem addn_of_addn l1 c l2 a r : addn c = inl a -> addn (l1 ++ a :: l2) = inl r -> addn (l1 ++ c ++ l2) = inl r.
  Proof.
    intros Hc Hr. destruct c as [|c1 [|c2 c]].
    - discriminate.
    - simpl in Hc. injection Hc as ->. assumption.
    - destruct (addn_value _ _ Hc) as (s & Hs & Ea); [simpl; lia|].
      destruct (le_lt_dec 2 (List.length (l1 ++ a :: l2))) as [Hl|Hl].
      + destruct (addn_value _ _ Hr Hl) as (s' & Hs' & Er).
        assert (Has : shape a = s') by (unfold same_shapes in Hs'; rewrite Forall_app in Hs'; destruct Hs' as [_ Hs']; inversion Hs'; assumption).
        assert (Hss : s' = s) by (rewrite Ea in Has; simpl in Has; congruence). clear Has. subst s'.
        rewrite (addn_intro s).
        * rewrite Er. f_equal. apply tabulate_ext. intros ix Hix. rewrite !sum_at_app. f_equal.
          change (sum_at (a :: l2) ix) with (kadd (get k0 a ix) (sum_at l2 ix)). f_equal. rewrite Ea, get_tabulate by assumption. reflexivity.
        * unfold same_shapes in *. rewrite Forall_app in Hs' |- *. destruct Hs' as [H1 H2]. inversion H2; subst. split; [assumption|]. rewrite Forall_app. auto.
        * rewrite !app_length. simpl. lia.
      + rewrite app_length in Hl. simpl in Hl. destruct l1 as [|]; [|simpl in Hl; lia]. destruct l2 as [|]; [|simpl in Hl; lia].
        simpl in Hr. injection Hr as <-. simpl app. rewrite app_nil_r. assumption.
  Qed.
End str.
