(** plant overrides exactly the planted sows; harvesting one tag keeps the others (C27, C31, C33). *)
From Verif Require Export HarvestProofs2.

Section plant.
  Context {AR : Arrays}.

  (** sow is the identity: running a program is its recorded execution without plants *)
  Lemma rb_assoc {A B C} (x : res A) (f : A -> res B) (g : B -> res C) : rb (rb x f) g = rb x (fun a => rb (f a) g).
  Proof. destruct x; reflexivity. Qed.
  Lemma rb_ext {A B} (x : res A) (f g : A -> res B) : (forall a, f a = g a) -> rb x f = rb x g.
  Proof. intros H. destruct x; cbn; auto. Qed.
  Lemma run_sem sP s fuel {A B} (p : prog A B) : forall a, rel_res (fun b bo => fst bo = b) (run fuel p a) (sem2 sP s fuel p [] a).
  Proof.
    induction p as [A B f|A B C p IHp q IHq|A B C p IHp|t n m av|t n av|A B sc p IHp|A B p IHp|C X Y rv len p IHp|C c p IHp|A B p IHp q IHq]; intros a; cbn [run sem2].
    - destruct (f a); cbn; auto.
    - eapply rel_res_rb; [apply IHp|]. intros b [b' o] E. cbn in E. subst b'. cbn [fst snd]. specialize (IHq b).
      destruct (run fuel q b), (sem2 sP s fuel q [] b); cbn in *; auto.
    - specialize (IHp (fst a)). destruct (run fuel p (fst a)), (sem2 sP s fuel p [] (fst a)); cbn in *; try tauto. congruence.
    - destruct (is_cond m); [reflexivity|]. unfold at_sow. cbn [haskey dget]. rewrite andb_false_r. destruct (chk av a); cbn; auto.
    - unfold at_sow. cbn [haskey dget]. rewrite andb_false_r. destruct (chk av (fst a)); cbn; auto.
    - change (sub [] sc) with (@nil (string * tree)). specialize (IHp a). destruct (run fuel p a), (sem2 sP s fuel p [] a); cbn in *; auto.
    - apply IHp.
    - rewrite scan_plants_nil. cbn [rb]. unfold scan_sem. destruct a as [c0 xs]. cbn [fst snd].
      destruct (Nat.eqb_spec (List.length xs) len) as [El|]; [|reflexivity].
      rewrite combine_length, repeat_length, El, Nat.min_id, Nat.eqb_refl.
      match goal with |- rel_res _ (rb (scan_loop ?f ?c ?l) _) (rb (rb (scan_loop ?g ?z ?l') _) _) =>
        pose proof (scan_loop_rel g f (fun c c' => c = c') (fun (xp : X * plants) (x : X) => fst xp = x /\ snd xp = []) (fun (yo : Y * list occ) y => fst yo = y)) as HL;
        specialize (fun h1 h2 h3 => HL h1 l' l z c h2 h3) end.
      match type of HL with ?P -> _ => assert (HP : P) end.
      { intros c c' [x pl] x' <- [E1 E2]. cbn [fst snd] in *. subst. specialize (IHp (c, x')).
        destruct (run fuel p (c, x')), (sem2 sP s fuel p [] (c, x')) as [[r o]|]; cbn in *; try tauto; [|auto]. subst. auto. }
      specialize (HL HP eq_refl (Forall2_rev_if _ rv _ _ (combine_nil_Forall2 len xs El))). revert HL.
      match goal with |- rel_res _ ?u ?v -> _ => destruct u as [[c1 yos]|], v as [[c2 ys]|] end; cbn [rel_res rb fst snd]; try tauto; [|auto].
      intros [-> HF]. f_equal. rewrite <- rev_if_map. f_equal. clear -HF. induction HF; cbn; congruence.
    - match goal with |- rel_res _ (while_loop _ ?c1 ?f ?x) (rb (while_loop _ ?c2 ?g ?z) _) =>
        pose proof (while_loop_rel fuel c1 c2 f g (fun x x' => fst x' = x)) as HL; specialize (fun h1 h2 => HL h1 h2 a z eq_refl) end.
      match type of HL with ?P -> _ => assert (HP : P) by (intros ? ? <-; reflexivity) end. specialize (HL HP). clear HP.
      match type of HL with ?P -> _ => assert (HP : P) end.
      { intros x [x' o] E. cbn in E. subst x'. specialize (IHp x). cbn [fst snd]. destruct (run fuel p x), (sem2 sP s fuel p [] x); cbn in *; auto. }
      specialize (HL HP). revert HL. 
      match goal with |- rel_res _ ?u ?v -> _ => destruct u as [c1|], v as [[c2 o]|] end; cbn; auto.
    - destruct (fst a); [apply IHp|apply IHq].
  Qed.
  Corollary run_sem_eq sP s fuel {A B} (p : prog A B) a : run fuel p a = rb (sem2 sP s fuel p [] a) (fun bo => inl (fst bo)).
  Proof. pose proof (run_sem sP s fuel p a) as H. destruct (run fuel p a), (sem2 sP s fuel p [] a); cbn in *; try tauto; congruence. Qed.

  (** structure of the plants *)
  Inductive fit : skel -> tree -> Prop :=
  | fit_leaf t : fit SLeaf t
  | fit_dict l m : Forall2 (fun a b => fst a = fst b /\ fit (snd a) (snd b)) l m -> fit (SDict l) (Dict m).
  Definition fits (sk : list (string * skel)) (pd : plants) : Prop := Forall2 (fun a b => fst a = fst b /\ fit (snd a) (snd b)) sk pd.
  Lemma fit_skel_of t : fit (skel_of t) t.
  Proof.
    induction t as [v|l IH|l IH] using tree_ind'; cbn; constructor. induction IH as [|[k t] l Hx Hl IHl]; cbn; constructor; auto.
  Qed.
  Lemma fits_skels_of pd : fits (skels_of pd) pd.
  Proof. unfold fits, skels_of. induction pd as [|[k t] pd IH]; cbn; constructor; auto. split; [reflexivity|]. apply fit_skel_of. Qed.
  Lemma fits_haskey sk pd n : fits sk pd -> haskey sk n = haskey pd n.
  Proof.
    unfold haskey. induction 1 as [|[k a] [k' b] sk pd [E _] H IH]; [reflexivity|]. cbn in E. subst k'. cbn. destruct (String.eqb n k); [reflexivity|exact IH].
  Qed.
  Lemma fits_dget sk pd n : fits sk pd -> match dget sk n, dget pd n with Some a, Some b => fit a b | None, None => True | _, _ => False end.
  Proof.
    induction 1 as [|[k a] [k' b] sk pd [E Hf] H IH]; [exact I|]. cbn in E, Hf. subst k'. cbn. destruct (String.eqb n k); [exact Hf|exact IH].
  Qed.
  (** a quiet program does not depend on the plants *)
  Lemma quiet_plants sP s {A B} (p : prog A B) : quiet sP p = true -> forall pd pd',
    sites2 p sP s pd = sites2 p sP s pd' /\ (tame2 p sP s pd -> tame2 p sP s pd') /\ (forall fuel a, sem2 sP s fuel p pd a = sem2 sP s fuel p pd' a).
  Proof.
    induction p as [A B f|A B C p IHp q IHq|A B C p IHp|t n m av|t n av|A B sc p IHp|A B p IHp|C X Y rv len p IHp|C c p IHp|A B p IHp q IHq]; cbn [quiet sites2 tame2 sem2]; intros Hq pd pd'; try discriminate.
    - auto.
    - apply andb_true_iff in Hq as [Q1 Q2]. destruct (IHp Q1 pd pd') as (E1 & T1 & S1), (IHq Q2 pd pd') as (E2 & T2 & S2). rewrite E1, E2.
      split; [reflexivity|]. split; [tauto|]. intros fuel a. rewrite S1. apply rb_ext. intros r. rewrite S2. reflexivity.
    - destruct (IHp Hq pd pd') as (E1 & T1 & S1). split; [exact E1|]. split; [exact T1|]. intros fuel a. rewrite S1. reflexivity.
    - apply negb_true_iff in Hq. unfold site_here, at_sow, seen in *. rewrite Hq. cbn. auto.
    - apply negb_true_iff in Hq. unfold site_here, at_sow, seen in *. rewrite Hq. cbn. auto.
    - destruct (IHp Hq pd pd') as (E1 & T1 & S1). rewrite E1. split; [reflexivity|]. split; [tauto|]. exact (fun fuel a => S1 fuel a).
    - destruct (IHp Hq pd pd') as (E1 & T1 & S1). rewrite E1. split; [reflexivity|]. split; [tauto|]. intros fuel a. f_equal.
      match goal with |- while_loop _ _ ?f ?x = while_loop _ _ ?g _ => assert (Efg : forall y, f y = g y) by (intros y; rewrite S1; reflexivity); generalize x end.
      revert Efg. match goal with |- (forall y, ?f y = ?g y) -> _ => generalize f, g end. intros f g Efg x.
      revert x. generalize fuel as k. induction k as [|k IH]; intros x; cbn; apply rb_ext; intros [|]; try reflexivity. rewrite Efg. apply rb_ext. exact IH.
    - apply andb_true_iff in Hq as [Q1 Q2]. destruct (IHp Q1 pd pd') as (E1 & T1 & S1), (IHq Q2 pd pd') as (E2 & T2 & S2). rewrite E1, E2.
      split; [reflexivity|]. split; [tauto|]. intros fuel a. destruct (fst a); [apply S1|apply S2].
  Qed.
  Lemma fits_sub sP {A B} (p : prog A B) sk pd sc sk' : fits sk pd -> sub_skel (quiet sP p) sk sc = inl sk' ->
    fits sk' (sub_plants sk pd sc) /\ forall s,
      sites2 p sP s (sub pd sc) = sites2 p sP s (sub_plants sk pd sc) /\ (tame2 p sP s (sub pd sc) -> tame2 p sP s (sub_plants sk pd sc)) /\
      (forall fuel a, sem2 sP s fuel p (sub pd sc) a = sem2 sP s fuel p (sub_plants sk pd sc) a).
  Proof.
    intros Hf H. pose proof (fits_dget _ _ sc Hf) as Hg. unfold sub_skel, sub_plants in *. unfold sub.
    destruct (dget sk sc) as [[|l]|], (dget pd sc) as [t|]; try discriminate; try tauto.
    - destruct (quiet sP p) eqn:Q; [|discriminate]. injection H as <-. split; [constructor|]. intros s. apply quiet_plants, Q.
    - injection H as <-. inversion_clear Hg as [|? m Hm]. auto.
    - injection H as <-. split; [constructor|auto].
  Qed.
  Lemma sub_plants_dict q sk pd sc sk' l : fits sk pd -> sub_skel q sk sc = inl sk' -> dget pd sc = Some (Dict l) -> q = false -> sub_plants sk pd sc = l.
  Proof.
    intros Hf H Hd ->. pose proof (fits_dget _ _ sc Hf) as Hg. unfold sub_skel, sub_plants in *. rewrite Hd in *.
    destruct (dget sk sc) as [[|m]|]; [discriminate|reflexivity|tauto].
  Qed.
  Lemma quiet_sites sP s {A B} (p : prog A B) : quiet s p = true -> forall pd, sites2 p sP s pd = [].
  Proof.
    induction p as [A B f|A B C p IHp q IHq|A B C p IHp|t n m av|t n av|A B sc p IHp|A B p IHp|C X Y rv len p IHp|C c p IHp|A B p IHp q IHq]; cbn [quiet sites2]; intros Hq pd; try discriminate; auto.
    - apply andb_true_iff in Hq as [Q1 Q2]. rewrite IHp, IHq by assumption. reflexivity.
    - apply negb_true_iff in Hq. unfold site_here, seen. rewrite Hq. reflexivity.
    - apply negb_true_iff in Hq. unfold site_here, seen. rewrite Hq. reflexivity.
    - rewrite IHp by assumption. reflexivity.
    - rewrite IHp by assumption. reflexivity.
    - apply andb_true_iff in Hq as [Q1 Q2]. rewrite IHp by assumption. reflexivity.
  Qed.
  Lemma fits_filter (f : string -> bool) sk pd : fits sk pd -> fits (filter (fun kv : string * skel => f (fst kv)) sk) (filter (fun kv : string * tree => f (fst kv)) pd).
  Proof.
    induction 1 as [|[k a] [k' b] sk pd [E Hf] H IH]; [constructor|]. cbn in E, Hf. subst k'. cbn. destruct (f k); [constructor; auto|exact IH].
  Qed.
  Lemma fits_app a b c d : fits a c -> fits b d -> fits (a ++ b) (c ++ d).
  Proof. apply Forall2_app. Qed.
  Lemma fits_leaves (sk : list (string * skel)) (pd : plants) : map fst sk = map fst pd -> fits (map (fun kv => (fst kv, SLeaf)) sk) pd.
  Proof.
    revert pd. induction sk as [|[k a] sk IH]; intros [|[k' b] pd] E; try discriminate; cbn; constructor.
    - cbn in *. split; [congruence|constructor].
    - apply IH. cbn in E. congruence.
  Qed.
  Lemma fits_keys sk pd : fits sk pd -> map fst sk = map fst pd.
  Proof. induction 1 as [|[k a] [k' b] sk pd [E _] H IH]; cbn in *; congruence. Qed.
  Lemma slices_keys len pd : forall ps, slices len pd = inl ps -> Forall (fun q => map fst q = map fst pd) ps /\ List.length ps = len.
  Proof.
    induction pd as [|[n t] pd IH]; intros ps H; cbn in H.
    - injection H as <-. split; [|apply repeat_length]. apply Forall_forall. intros x Hx. apply repeat_spec in Hx. subst. reflexivity.
    - destruct t as [|?|l]; try discriminate. destruct (Nat.eqb_spec (List.length l) len) as [El|]; [|discriminate].
      apply rb_inl in H as (ps' & H1 & H). injection H as <-. destruct (IH _ H1) as [IH1 IH2]. split.
      + apply Forall_forall. intros x Hx. apply in_map_iff in Hx as ([t q] & <- & Hin). apply in_combine_r in Hin. cbn. f_equal.
        rewrite Forall_forall in IH1. apply IH1, Hin.
      + rewrite map_length, combine_length. lia.
  Qed.
  Lemma fits_scan M sk pd ps len : fits sk pd -> scan_plants M len pd = inl ps ->
    Forall (fits (scan_skel M sk)) ps /\ List.length ps = len.
  Proof.
    intros Hf H. unfold scan_plants in H. apply rb_inl in H as (ps' & H1 & H). injection H as <-. apply slices_keys in H1 as [H1 H2].
    split; [|rewrite map_length; exact H2]. apply Forall_forall. intros q Hq. apply in_map_iff in Hq as (q' & <- & Hq). rewrite Forall_forall in H1. apply H1 in Hq.
    unfold scan_skel. apply fits_app.
    - apply fits_leaves. rewrite Hq. apply fits_keys.
      exact (fits_filter (fun n => match dget M n with Some (m, _) => is_append m | None => false end) _ _ Hf).
    - exact (fits_filter (fun n => match dget M n with Some (m, _) => clobberish m | None => false end) _ _ Hf).
  Qed.
  Lemma fits_body M sk pd : fits sk pd -> fits (scan_skel M sk) (body_plants M pd).
  Proof.
    intros Hf. apply fits_app.
    - apply fits_leaves, fits_keys. exact (fits_filter (fun n => match dget M n with Some (m, _) => is_append m | None => false end) _ _ Hf).
    - exact (fits_filter (fun n => match dget M n with Some (m, _) => clobberish m | None => false end) _ _ Hf).
  Qed.

  (** the recorded sows after planting: those of the same harvest, or those of another tag *)
  Definition rec_ok (sP s : settings) : Prop := s = sP \/ (tag_of s <> tag_of sP /\ exclusive sP = false).
  Lemma rec_drop sP s t n : rec_ok sP s -> String.eqb t (tag_of sP) = true -> passes sP n = false -> seen s t n = false.
  Proof.
    intros [->|[H _]] Et Ep; unfold seen; [rewrite Ep; apply andb_false_r|]. apply String.eqb_eq in Et. subst. 
    destruct (String.eqb_spec (tag_of sP) (tag_of s)); [congruence|reflexivity].
  Qed.
  Lemma rec_excl sP s t n : rec_ok sP s -> String.eqb t (tag_of sP) = false -> exclusive sP = true -> seen s t n = false.
  Proof. intros [->|[_ H]] Et Ex; [unfold seen; rewrite Et; reflexivity|congruence]. Qed.
  Lemma rec_planted sP s t n pd : (seen sP t n && haskey pd n)%bool = true -> forall x, site_here sP s pd t n x = [].
  Proof. intros H x. unfold site_here. rewrite H. cbn. rewrite andb_false_r. reflexivity. Qed.

  Lemma seen_nil (s sP : settings) t n : (seen sP t n && haskey (@nil (string * tree)) n)%bool = false.
  Proof. cbn. apply andb_false_r. Qed.
  Lemma at_sow_nil sP s t n av v e : at_sow sP s [] t n av v e = rb (chk av v) (fun v => inl (v, if seen s t n then [(n, (v, e))] else [])).
  Proof. unfold at_sow. cbn [haskey dget]. rewrite andb_false_r. reflexivity. Qed.
  Lemma site_here_nil sP s t n x : site_here sP s [] t n x = if seen s t n then [(n, x)] else [].
  Proof. unfold site_here. cbn [haskey dget]. rewrite andb_false_r. cbn. rewrite andb_true_r. reflexivity. Qed.

  Theorem plantT_sem sP s {A B} (p : prog A B) : rec_ok sP s -> forall sk dn dn' p', plantT sP p sk dn = inl (dn', p') -> forall pd, fits sk pd ->
    sites s p' [] = sites2 p sP s pd /\ (tame2 p sP s pd -> tame s p' []) /\
    forall fuel a, sem s fuel p' [] (a, pd) = sem2 sP s fuel p pd a.
  Proof.
    intros Hrec.
    induction p as [A B f|A B C p IHp q IHq|A B C p IHp|t n m av|t n av|A B sc p IHp|A B p IHp|C X Y rv len p IHp|C c p IHp|A B p IHp q IHq];
      intros sk dn dn' p' H pd Hf; cbn [plantT] in H.
    - injection H as <- <-. split; [reflexivity|]. split; [exact (fun _ => I)|]. intros fuel a. reflexivity.
    - apply rb_inl in H as ([d1 p1] & H1 & H). apply rb_inl in H as ([d2 q1] & H2 & H). injection H as <- <-. cbn [fst snd] in *.
      destruct (IHp _ _ _ _ H1 _ Hf) as (K1 & K2 & K3). destruct (IHq _ _ _ _ H2 _ Hf) as (J1 & J2 & J3). cbn [sites2 tame2 sem2 fst snd rb app]. split; [|split].
      + rewrite K1, J1. reflexivity.
      + intros [T1 T2]. auto.
      + intros fuel a. rewrite ?rb_assoc. unfold rb at 1. cbn [fst snd]. rewrite K3, ?rb_assoc. apply rb_ext. intros [b o]. cbn [rb fst snd]. rewrite J3, ?rb_assoc. apply rb_ext. intros [b2 o2]. reflexivity.
    - apply rb_inl in H as ([d1 p1] & H1 & H). injection H as <- <-. cbn [fst snd] in *. destruct (IHp _ _ _ _ H1 _ Hf) as (K1 & K2 & K3).
      cbn [sites2 tame2 sem2 fst snd rb app]. split; [exact K1|]. split; [auto|]. intros fuel [a c]. cbn [rb fst snd swap]. rewrite K3, ?rb_assoc. apply rb_ext. reflexivity.
    - destruct (is_cond m) eqn:Em; [discriminate|]. cbn [sites2 tame2 sem2]. unfold at_sow, site_here. assert (Es : seen sP t n = (String.eqb t (tag_of sP) && passes sP n)%bool) by reflexivity. rewrite Es, Em, <- (fits_haskey _ _ n Hf).
      destruct (String.eqb t (tag_of sP)) eqn:Et; [destruct (passes sP n) eqn:Ep|destruct (exclusive sP) eqn:Ee]; cbn [andb].
      + destruct (mem n dn); [discriminate|]. destruct (haskey sk n) eqn:Eh; injection H as <- <-.
        * cbn. rewrite andb_false_r. split; [reflexivity|]. split; [auto|]. intros fuel a. rewrite ?rb_assoc. apply rb_ext. reflexivity.
        * cbn [sites2 tame2 sem2 rb fst snd app]. rewrite Em, site_here_nil. cbn [negb]. rewrite andb_true_r. split; [reflexivity|]. split; [auto|].
          intros fuel a. rewrite at_sow_nil. rewrite ?rb_assoc. apply rb_ext. reflexivity.
      + injection H as <- <-. rewrite (rec_drop _ _ _ _ Hrec Et Ep). cbn. split; [reflexivity|]. split; [auto|]. reflexivity.
      + injection H as <- <-. rewrite (rec_excl _ _ _ n Hrec Et Ee). cbn. split; [reflexivity|]. split; [auto|]. reflexivity.
      + injection H as <- <-. cbn [sites2 tame2 sem2 rb fst snd app]. rewrite Em, site_here_nil. cbn [negb]. rewrite andb_true_r. split; [reflexivity|]. split; [auto|].
          intros fuel a. rewrite at_sow_nil. rewrite ?rb_assoc. apply rb_ext. reflexivity.
    - cbn [sites2 tame2 sem2]. unfold at_sow, site_here. assert (Es : seen sP t n = (String.eqb t (tag_of sP) && passes sP n)%bool) by reflexivity. rewrite Es, <- (fits_haskey _ _ n Hf).
      destruct (String.eqb t (tag_of sP)) eqn:Et; [destruct (passes sP n) eqn:Ep|destruct (exclusive sP) eqn:Ee]; cbn [andb].
      + destruct (mem n dn); [discriminate|]. destruct (haskey sk n) eqn:Eh; injection H as <- <-.
        * cbn. rewrite andb_false_r. split; [reflexivity|]. split; [auto|]. intros fuel a. rewrite ?rb_assoc. apply rb_ext. reflexivity.
        * cbn [sites2 tame2 sem2 rb fst snd app]. rewrite site_here_nil. cbn [negb]. rewrite andb_true_r. split; [reflexivity|]. split; [auto|].
          intros fuel a. rewrite at_sow_nil. rewrite ?rb_assoc. apply rb_ext. reflexivity.
      + injection H as <- <-. rewrite (rec_drop _ _ _ _ Hrec Et Ep). cbn. split; [reflexivity|]. split; [auto|]. reflexivity.
      + injection H as <- <-. rewrite (rec_excl _ _ _ n Hrec Et Ee). cbn. split; [reflexivity|]. split; [auto|]. reflexivity.
      + injection H as <- <-. cbn [sites2 tame2 sem2 rb fst snd app]. rewrite site_here_nil. cbn [negb]. rewrite andb_true_r. split; [reflexivity|]. split; [auto|].
          intros fuel a. rewrite at_sow_nil. rewrite ?rb_assoc. apply rb_ext. reflexivity.
    - apply rb_inl in H as (sk' & H0 & H). apply rb_inl in H as ([d1 p1] & H1 & H). injection H as <- <-. cbn [fst snd] in *.
      destruct (fits_sub _ _ _ _ _ _ Hf H0) as [Hf' E]. destruct (E s) as (E1 & E2 & E3). destruct (IHp _ _ _ _ H1 _ Hf') as (K1 & K2 & K3). cbn [sites2 tame2 sem2 rb fst snd app].
      change (sub [] sc) with (@nil (string * tree)). rewrite ?K1, E1. split; [reflexivity|]. split.
      + intros [T1 T2]. rewrite ?K1. auto.
      + intros fuel a. rewrite E3. cbn [rb fst snd]. rewrite K3, ?rb_assoc. apply rb_ext. intros [b o]. cbn. rewrite ?K1. reflexivity.
    - apply rb_inl in H as ([d1 p1] & H1 & H). injection H as <- <-. cbn [fst snd] in *.
      destruct (IHp _ _ _ _ H1 _ Hf) as (K1 & K2 & K3). cbn [sites2 tame2 sem2]. rewrite ?K1. split; [reflexivity|]. split; [intros [T1 T2]; auto|exact K3].
    - (* scan *) apply rb_inl in H as ([Mb pb] & H0 & H). cbv zeta in H. cbn [fst snd] in H. destruct (existsb _ Mb) in H; [discriminate|].
      apply rb_inl in H as ([d1 p1] & H1 & H). injection H as <- <-. cbn [fst snd] in *.
      assert (EM := reapT_meta sP p _ _ _ H0). change (dmerge [] (sites sP p [])) with (once (sites sP p [])) in EM.
      destruct (IHp _ _ _ _ H1 _ (fits_body Mb _ _ Hf)) as (K1 & K2 & K3). cbn [sites2 tame2 sem2 rb fst snd app]. rewrite <- EM.
      change (body_plants (once (sites s p1 [])) []) with (@nil (string * tree)). rewrite ?K1. split; [reflexivity|]. split.
      + intros [T1 T2]. rewrite ?K1. cbn [sites2 app]. auto.
      + intros fuel [c0 xs]. rewrite ?rb_assoc. cbn [fst snd rb]. destruct (Nat.eqb_spec (List.length xs) len) as [El|]; [|reflexivity].
        rewrite ?rb_assoc. destruct (scan_plants Mb len pd) as [ps|] eqn:Eps; [|reflexivity]. cbn [rb fst snd].
        destruct (fits_scan _ _ _ _ _ Hf Eps) as [Hps Hpl]. rewrite combine_length, Hpl, El, Nat.min_id, Nat.eqb_refl.
        rewrite scan_plants_nil. cbn [rb]. unfold scan_sem. cbn [fst snd]. rewrite !combine_length, Hpl, El, repeat_length, !Nat.min_id, Nat.eqb_refl.
        rewrite ?rb_assoc. cbn [app].
        match goal with |- rb (scan_loop ?f ?c ?l) _ = rb (scan_loop ?g ?z ?l') _ =>
          pose proof (scan_loop_rel f g eq (fun (xp : (X * plants) * plants) xq => xp = (xq, []) /\ fits (scan_skel Mb sk) (snd xq)) eq) as HL;
          specialize (fun h1 h2 h3 => HL h1 l l' c z h2 h3) end.
        match type of HL with ?P -> _ => assert (HP : P) end.
        { intros c c' x [x1 pl] <- [E Hfx]. subst x. cbn [rb fst snd] in *. rewrite ?rb_assoc. destruct (IHp _ _ _ _ H1 _ Hfx) as (L1 & L2 & L3). rewrite L3.
          destruct (sem2 sP s fuel p pl (c, x1)) as [[[r1 r2] o]|]; cbn; auto. }
        specialize (HL HP eq_refl). clear HP. match type of HL with ?P -> _ => assert (HP : P) end.
        { apply Forall2_rev_if. clear -El Hpl Hps. revert xs len El Hpl. induction Hps as [|q ps Hq Hps IH]; intros [|x xs] len El Hpl; subst len; cbn in *; try discriminate; constructor; auto. }
        specialize (HL HP). revert HL. match goal with |- rel_res _ ?u ?v -> _ => destruct u as [[c1 ys1]|], v as [[c2 ys2]|] end; cbn [rel_res rb fst snd]; try tauto; [|congruence].
        intros [-> HF]. assert (ys1 = ys2) by (clear -HF; induction HF; congruence). subst. reflexivity.
    - (* while *) apply rb_inl in H as ([Mb pb] & H0 & H). cbv zeta in H. cbn [fst snd] in H. destruct (existsb _ Mb) in H; [discriminate|].
      apply rb_inl in H as ([d1 p1] & H1 & H). injection H as <- <-. cbn [fst snd] in *.
      destruct (IHp _ _ _ _ H1 _ Hf) as (K1 & K2 & K3). cbn [sites2 tame2 sem2 rb fst snd app]. rewrite app_nil_r, K1. split; [reflexivity|]. split; [intros [T1 T2]; auto|].
      intros fuel a. rewrite ?rb_assoc.
      match goal with |- rb (while_loop _ ?c1 ?f ?x) _ = rb (while_loop _ ?c2 ?g ?z) _ =>
        pose proof (while_loop_rel fuel c1 c2 f g (fun u u' => u = ((fst u', pd), snd u'))) as HL; specialize (fun h1 h2 => HL h1 h2 x z eq_refl) end.
      match type of HL with ?P -> _ => assert (HP : P) by (intros ? ? ->; reflexivity) end. specialize (HL HP). clear HP.
      match type of HL with ?P -> _ => assert (HP : P) end.
      { intros x [x' o] ->. cbn [rb fst snd]. rewrite ?rb_assoc. cbn [rb fst snd]. rewrite ?rb_assoc, K3. destruct (sem2 sP s fuel p pd x') as [[b o2]|]; cbn; auto. }
      specialize (HL HP). revert HL. match goal with |- rel_res _ ?u ?v -> _ => destruct u as [c1|], v as [[c2 o]|] end; cbn [rel_res rb fst snd]; try tauto; [|congruence].
      intros ->. cbn. rewrite app_nil_r. reflexivity.
    - (* cond *) apply rb_inl in H as ([M0 p0] & H0 & H). apply rb_inl in H as ([Mq q0] & H0' & H). apply rb_inl in H as ([] & Hcb & H).
      apply rb_inl in H as ([d1 p1] & H1 & H). apply rb_inl in H as ([d2 q1] & H2 & H). injection H as <- <-. cbn [fst snd] in *.
      destruct (IHp _ _ _ _ H1 _ Hf) as (K1 & K2 & K3). destruct (IHq _ _ _ _ H2 _ Hf) as (J1 & J2 & J3). cbn [sites2 tame2 sem2 rb fst snd app]. rewrite ?K1. split; [reflexivity|]. split.
      + intros (T1 & T2 & T3 & T4). rewrite ?J1. auto 6.
      + intros fuel [[|] a]; cbn [fst snd rb]; [rewrite K3|rewrite J3].
        * destruct (sem2 sP s fuel p pd a) as [[b o]|]; reflexivity.
        * destruct (sem2 sP s fuel q pd a) as [[b o]|]; reflexivity.
  Qed.
End plant.
