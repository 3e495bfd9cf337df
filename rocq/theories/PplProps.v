(** The properties of ppl/transformations.py: C41-C43, C63. *)
From Coq Require Import ZArith.
From Verif Require Export HarvestProps PplModel.

Section spec.
  Context {AR : Arrays}.
  (** ** Specification *)
  (** programs whose random variables are made by [random_variable], i.e. sown in strict mode *)
  Fixpoint rv_strict {A B} (p : prog A B) : Prop :=
    match p with
    | Pure _ => True
    | Seq p q | Cond p q => rv_strict p /\ rv_strict q
    | First _ p | Nest _ p | Call p | Scan _ _ p | While _ p => rv_strict p
    | Sow t n m _ => t = RV -> m = Strict
    | SowCond t n _ => t <> RV
    end.
  (** the program with every random variable named in [obs] replaced by its observed value; observations of a scope are
      dictionaries of observations *)
  Fixpoint fixed (obs : plants) {A B} (p : prog A B) : prog A B :=
    match p with
    | Pure f => Pure f
    | Seq p q => Seq (fixed obs p) (fixed obs q)
    | First C p => First C (fixed obs p)
    | Sow t n m av =>
        if String.eqb t RV then match dget obs n with Some w => Pure (fun v => rb (chk av v) (fun _ => chk av w)) | None => Sow t n m av end
        else Sow t n m av
    | SowCond t n av => SowCond t n av
    | Nest sc p => Nest sc (fixed (match dget obs sc with Some (Dict l) => l | _ => [] end) p)
    | Call p => Call (fixed obs p)
    | Scan r n p => Scan r n (fixed obs p)
    | While c p => While c (fixed obs p)
    | Cond p q => Cond (fixed obs p) (fixed obs q)
    end.
  (** some random variable occurs in the program *)
  Fixpoint latent {A B} (p : prog A B) : bool :=
    match p with
    | Pure _ => false
    | Seq p q | Cond p q => latent p || latent q
    | First _ p | Nest _ p | Call p | Scan _ _ p | While _ p => latent p
    | Sow t _ _ _ | SowCond t _ _ => String.eqb t RV
    end.
  (** scopes that contain random variables *)
  Fixpoint scopes {A B} (p : prog A B) : list string :=
    match p with
    | Pure _ | Sow _ _ _ _ | SowCond _ _ _ => []
    | Seq p q | Cond p q => scopes p ++ scopes q
    | First _ p | Call p | Scan _ _ p | While _ p => scopes p
    | Nest sc p => (if latent p then [sc] else []) ++ scopes p
    end.
End spec.

Section proofs.
  Context {AR : Arrays}.
  Notation PS := ppl_settings.
  Lemma PS_passes n : passes PS n = true. Proof. reflexivity. Qed.
  Lemma PS_seen t n : seen PS t n = String.eqb t RV.
  Proof. unfold seen. cbn. apply andb_true_r. Qed.
  Lemma rv_strictp {A B} (p : prog A B) : rv_strict p -> strictp PS p.
  Proof.
    induction p as [A B f|A B C p IHp q IHq|A B C p IHp|t n m av|t n av|A B sc p IHp|A B p IHp|C X Y rv len p IHp|C c p IHp|A B p IHp q IHq]; cbn [rv_strict strictp]; try tauto.
    - intros H E. rewrite PS_seen in E. apply String.eqb_eq in E. rewrite (H E). reflexivity.
    - intros H. rewrite PS_seen. apply String.eqb_neq, H.
  Qed.
  Lemma rv_regular {A B} (p : prog A B) pd : rv_strict p -> regular PS p pd.
  Proof. intros H%rv_strictp. split; [apply strictp_tame, H|apply no_cond_no_mix, no_clob_no_cond, strictp_sites, H]. Qed.
  Lemma latent_mute {A B} (p : prog A B) : latent p = false <-> mute PS p.
  Proof.
    induction p as [A B f|A B C p IHp q IHq|A B C p IHp|t n m av|t n av|A B sc p IHp|A B p IHp|C X Y rv len p IHp|C c p IHp|A B p IHp q IHq]; cbn [latent mute]; rewrite ?PS_seen, ?orb_false_iff; tauto.
  Qed.
  Lemma mute_fixed {A B} (p : prog A B) : mute PS p -> forall pd, fixed pd p = p.
  Proof.
    induction p as [A B f|A B C p IHp q IHq|A B C p IHp|t n m av|t n av|A B sc p IHp|A B p IHp|C X Y rv len p IHp|C c p IHp|A B p IHp q IHq]; cbn [mute fixed]; intros H pd;
      try (rewrite ?IHp, ?IHq by tauto; reflexivity); try reflexivity.
    rewrite PS_seen in H. rewrite H. reflexivity.
  Qed.
  (** in a successfully planted or reaped program the bodies of scans have no (strict) random variables *)
  Lemma scan_mute {C X Y} (p : prog (C * X) (C * Y)) r : rv_strict p -> reapT PS p [] = inl r -> existsb (fun e => is_strict (fst (snd e))) (fst r) = false -> mute PS p.
  Proof.
    intros Hs H Ex. destruct r as [M q]. cbn [fst] in *. pose proof (reapT_meta PS p _ _ _ H) as EM. change (dmerge [] (sites PS p [])) with (once (sites PS p [])) in EM.
    eapply (sites_nil_mute PS PS_passes p _ _ H (rv_strictp p Hs)). apply once_nil. rewrite <- EM.
    destruct M as [|[n [m a]] M]; [reflexivity|]. exfalso. cbn in Ex. apply orb_false_iff in Ex as [Ex _].
    assert (Hin : In (n, (m, a)) (sites PS p [])) by (apply once_incl; rewrite <- EM; left; reflexivity).
    clear -Hs Hin Ex. assert (K : forall A B (p : prog A B) pd, rv_strict p -> forall n m a, In (n, (m, a)) (sites PS p pd) -> m = Strict).
    { clear. intros A B p. induction p as [A B f|A B C p IHp q IHq|A B C p IHp|t n m av|t n av|A B sc p IHp|A B p IHp|C X Y rv len p IHp|C c p IHp|A B p IHp q IHq]; cbn [rv_strict sites2]; intros pd Hs k mo ao Hin.
      - destruct Hin.
      - apply in_app_or in Hin as [Hin|Hin]; [eapply IHp|eapply IHq]; try eassumption; tauto.
      - eapply IHp; eassumption.
      - unfold site_here in Hin. rewrite PS_seen in Hin. destruct (String.eqb_spec t RV) as [E|]; [|destruct Hin]. cbn in Hin. destruct (haskey pd n); [destruct Hin|]. destruct Hin as [Hin|[]]. injection Hin as <- <- <-. auto.
      - unfold site_here in Hin. rewrite PS_seen in Hin. apply String.eqb_neq in Hs. rewrite Hs in Hin. destruct Hin.
      - unfold scope_site in Hin. destruct (sites2 p PS PS (sub pd sc)); [destruct Hin|]. cbn in Hin. destruct Hin as [Hin|[]]. injection Hin as _ <- _. reflexivity.
      - apply once_incl in Hin. eapply IHp; eassumption.
      - cbv zeta in Hin. apply in_app_or in Hin as [Hin|Hin].
        + apply filter_In in Hin as [Hin _]. apply once_incl in Hin. eapply IHp; eassumption.
        + apply in_map_iff in Hin as ([k1 [m1 a1]] & E & Hin). cbn in E. injection E as _ <- _. apply filter_In in Hin as [Hin _]. apply once_incl in Hin. eapply IHp; eassumption.
      - apply once_incl in Hin. eapply IHp; eassumption.
      - apply once_incl in Hin. eapply IHp; [|eassumption]. tauto. }
    specialize (K _ _ p [] Hs _ _ _ Hin). subst m. discriminate.
  Qed.
  Lemma fixed_sem {A B} (p : prog A B) : rv_strict p -> forall sk dn r, plantT PS p sk dn = inl r -> forall pd, fits sk pd ->
    sites PS (fixed pd p) [] = sites PS p pd /\ rv_strict (fixed pd p) /\ forall fuel a, sem PS fuel (fixed pd p) [] a = sem PS fuel p pd a.
  Proof.
    induction p as [A B f|A B C p IHp q IHq|A B C p IHp|t n m av|t n av|A B sc p IHp|A B p IHp|C X Y rv len p IHp|C c p IHp|A B p IHp q IHq]; cbn [rv_strict plantT fixed sites2 sem2]; intros Hs sk dn r H pd Hf.
    - auto.
    - destruct Hs as [S1 S2]. apply rb_inl in H as (r1 & H1 & H). apply rb_inl in H as (r2 & H2 & H). destruct (IHp S1 _ _ _ H1 _ Hf) as (E1 & T1 & K1), (IHq S2 _ _ _ H2 _ Hf) as (E2 & T2 & K2).
      cbn [sites2 sem2 rv_strict]. rewrite E1, E2. split; [reflexivity|]. split; [auto|]. intros fuel a. rewrite K1. apply rb_ext. intros x. rewrite K2. reflexivity.
    - apply rb_inl in H as (r1 & H1 & H). destruct (IHp Hs _ _ _ H1 _ Hf) as (E1 & T1 & K1). cbn [sites2 sem2 rv_strict]. split; [exact E1|]. split; [exact T1|]. intros fuel a. rewrite K1. reflexivity.
    - unfold site_here, at_sow. rewrite PS_seen. destruct (String.eqb t RV) eqn:Et.
      + unfold haskey, planted. destruct (dget pd n) as [w|] eqn:Eg.
        * cbn. split; [reflexivity|]. split; [exact I|]. intros fuel a. apply String.eqb_eq in Et. rewrite (Hs Et). cbn. destruct (chk av a); cbn; [|reflexivity]. destruct (chk av w); reflexivity.
        * cbn [sites2 sem2 rv_strict andb negb]. rewrite site_here_nil, PS_seen, Et. split; [reflexivity|]. split; [exact Hs|]. intros fuel a. rewrite at_sow_nil, PS_seen, Et. reflexivity.
      + cbn [sites2 sem2 rv_strict andb negb]. rewrite site_here_nil, PS_seen, Et. split; [reflexivity|]. split; [exact Hs|]. intros fuel a. rewrite at_sow_nil, PS_seen, Et. reflexivity.
    - apply String.eqb_neq in Hs as Et. unfold site_here, at_sow. rewrite PS_seen, Et. cbn. auto.
    - apply rb_inl in H as (sk' & H0 & H). apply rb_inl in H as (r1 & H1 & H). destruct (fits_sub _ _ _ _ _ _ Hf H0) as [Hf' Hsub]. destruct (Hsub PS) as (E1 & _ & E3).
      change (match dget pd sc with Some (Dict l) => l | _ => [] end) with (sub pd sc).
      destruct (quiet PS p) eqn:Q.
      + assert (Hm : mute PS p). { clear -Q. induction p as [A B f|A B C p IHp q IHq|A B C p IHp|t n m av|t n av|A B sc p IHp|A B p IHp|C X Y rv len p IHp|C c p IHp|A B p IHp q IHq]; cbn [quiet mute] in *; try discriminate; try (apply andb_true_iff in Q); try tauto; apply negb_true_iff in Q; exact Q. }
        rewrite (mute_fixed p Hm). cbn [sites2 sem2 rv_strict]. rewrite E1, !(mute_sites PS PS p Hm). split; [reflexivity|]. split; [exact Hs|]. intros fuel a. rewrite E3.
        change (sub [] sc) with (@nil (string * tree)). rewrite (mute_plants PS fuel p Hm _ _ _ H1 _ Hf'). apply rb_ext. intros x. rewrite ?(mute_sites PS PS p Hm). reflexivity.
      + assert (Esd : sub_plants sk pd sc = sub pd sc).
        { unfold sub_skel in H0. unfold sub_plants, sub. pose proof (fits_dget _ _ sc Hf) as Hg. destruct (dget sk sc) as [[|l]|], (dget pd sc) as [[]|]; try tauto; try discriminate; inversion Hg. }
        rewrite Esd in *. destruct (IHp Hs _ _ _ H1 _ Hf') as (G1 & T1 & K1). cbn [sites2 sem2 rv_strict]. change (sub [] sc) with (@nil (string * tree)). rewrite G1. split; [reflexivity|]. split; [exact T1|].
        intros fuel a. rewrite K1. apply rb_ext. intros x. rewrite ?G1. reflexivity.
    - apply rb_inl in H as (r1 & H1 & H). destruct (IHp Hs _ _ _ H1 _ Hf) as (E1 & T1 & K1). cbn [sites2 sem2 rv_strict]. rewrite E1. auto.
    - apply rb_inl in H as (rm & H0 & H). cbv zeta in H. destruct (existsb (fun e => is_strict (fst (snd e))) (fst rm)) eqn:Ex; [discriminate|].
      pose proof (scan_mute p rm Hs H0 Ex) as Hm. rewrite (mute_fixed p Hm). cbn [sites2 sem2 rv_strict]. rewrite !(mute_sites PS PS p Hm). split; [reflexivity|]. split; [exact Hs|].
      intros fuel [c xs]. cbn [fst snd]. change (once []) with (@nil (string * (mode * aval))). rewrite !scan_plants_mute. reflexivity.
    - apply rb_inl in H as (rm & H0 & H). cbv zeta in H. destruct (existsb _ _) in H; [discriminate|]. apply rb_inl in H as (r1 & H1 & H). destruct (IHp Hs _ _ _ H1 _ Hf) as (E1 & T1 & K1).
      cbn [sites2 sem2 rv_strict]. rewrite E1. split; [reflexivity|]. split; [exact T1|]. intros fuel a. f_equal. apply while_loop_ext. intros x. rewrite K1. reflexivity.
    - destruct Hs as [S1 S2]. apply rb_inl in H as (m0 & _ & H). apply rb_inl in H as (m1 & _ & H). apply rb_inl in H as (? & _ & H). apply rb_inl in H as (r1 & H1 & H). apply rb_inl in H as (r2 & H2 & H).
      destruct (IHp S1 _ _ _ H1 _ Hf) as (E1 & T1 & K1), (IHq S2 _ _ _ H2 _ Hf) as (E2 & T2 & K2). cbn [sites2 sem2 rv_strict]. rewrite E1. split; [reflexivity|]. split; [auto|].
      intros fuel a. destruct (fst a); [apply K1|apply K2].
  Qed.

  (** ** C41 *)
  (** [intervene(f, **obs)(args)] runs as [f(args)] with the observed variables replaced *)
  Theorem C41_intervene {B} (f : program B) obs args p q :
    f args = inl p -> rv_strict p -> intervene f obs args = inl q ->
    forall fuel, run fuel q tt = run fuel (fixed obs p) tt.
  Proof.
    unfold intervene, plant. intros E Hs H fuel. rewrite E in H. destruct (haskey obs "f"); [discriminate|]. cbn [rb] in H. apply rb_inl in H as (q0 & H & Hq). injection Hq as <-.
    apply rb_inl in H as ([dn q1] & H & E1). injection E1 as <-. cbn [run rb snd].
    destruct (fixed_sem p Hs _ _ _ H obs (fits_skels_of obs)) as (_ & _ & K). destruct (plantT_sem PS PS p (or_introl eq_refl) _ _ _ _ H obs (fits_skels_of obs)) as (_ & _ & G).
    rewrite (run_sem_eq PS PS), (run_sem_eq PS PS fuel (fixed obs p)), K, <- G. reflexivity.
  Qed.
  Lemma intervene_inv {B} (f : program B) obs args p q : f args = inl p -> rv_strict p -> intervene f obs args = inl q ->
    regular PS q [] /\ sites PS q [] = sites PS p obs /\ sites PS (fixed obs p) [] = sites PS p obs /\ rv_strict (fixed obs p) /\
    (forall fuel, sem PS fuel q [] tt = sem PS fuel p obs tt) /\ (forall fuel, sem PS fuel (fixed obs p) [] tt = sem PS fuel p obs tt).
  Proof.
    unfold intervene, plant. intros E Hs H. rewrite E in H. destruct (haskey obs "f"); [discriminate|]. cbn [rb] in H. apply rb_inl in H as (q0 & H & Hq). injection Hq as <-.
    apply rb_inl in H as ([dn q1] & H & E1). injection E1 as <-. cbn [snd]. pose proof (rv_regular p obs Hs) as [T1 T2].
    destruct (fixed_sem p Hs _ _ _ H obs (fits_skels_of obs)) as (K1 & K2 & K). destruct (plantT_sem PS PS p (or_introl eq_refl) _ _ _ _ H obs (fits_skels_of obs)) as (G1 & G2 & G).
    repeat split; auto; cbn [tame2]; auto.
    - cbn [sites2 app]. unfold regular2 in *. rewrite G1. exact T2.
    - intros fuel. cbn [sem2 rb fst snd app]. rewrite G. destruct (sem PS fuel p obs tt) as [[b o]|]; reflexivity.
  Qed.
  (** ... and so does its joint sample *)
  Theorem C41_intervene_joint_sample {B} (f : program B) obs args p r r' :
    f args = inl p -> rv_strict p -> joint_sample (intervene f obs) args = inl r -> joint_sample (fun _ => inl (fixed obs p)) args = inl r' ->
    forall fuel, run fuel r tt = run fuel r' tt.
  Proof.
    intros E Hs H H' fuel. unfold joint_sample in H, H'. apply rb_inl in H as (q & Hq & H). apply rb_inl in H as (c & Hc & H). injection H as <-. cbn [rb] in H'. apply rb_inl in H' as (c' & Hc' & H'). injection H' as <-.
    destruct (intervene_inv f obs args p q E Hs Hq) as (R1 & R2 & R3 & R4 & R5 & R6). cbn [run].
    rewrite (call_and_reap_sem PS fuel q c tt Hc R1), (call_and_reap_sem PS fuel _ c' tt Hc' (rv_regular _ [] R4)), R2, R3, R5, R6. reflexivity.
  Qed.
  Lemma planted_sites {A B} (p : prog A B) : forall sk dn r, plantT PS p sk dn = inl r -> rv_strict p -> forall pd n, In n (dkeys (sites PS p pd)) -> haskey pd n = true -> In n (scopes p).
  Proof.
    induction p as [A B f|A B C p IHp q IHq|A B C p IHp|t n m av|t n av|A B sc p IHp|A B p IHp|C X Y rv len p IHp|C c p IHp|A B p IHp q IHq]; cbn [sites2 scopes rv_strict plantT]; intros sk dn r Hr Hs pd k Hin Hk.
    - destruct Hin.
    - unfold dkeys in Hin. rewrite map_app in Hin. apply rb_inl in Hr as (r1 & H1 & Hr). apply rb_inl in Hr as (r2 & H2 & Hr).
      apply in_or_app. apply in_app_or in Hin as [Hin|Hin]; [left|right].
      + eapply IHp; eauto. tauto.
      + eapply IHq; eauto. tauto.
    - apply rb_inl in Hr as (r1 & H1 & Hr). eauto.
    - unfold site_here in Hin. rewrite PS_seen in Hin. destruct (String.eqb t RV); [|destruct Hin]. cbn in Hin. destruct (haskey pd n) eqn:Eh; [destruct Hin|]. destruct Hin as [Hin|[]]. cbn in Hin. subst k. congruence.
    - unfold site_here in Hin. rewrite PS_seen in Hin. destruct (String.eqb t RV); [|destruct Hin]. cbn in Hin. destruct (haskey pd n) eqn:Eh; [destruct Hin|]. destruct Hin as [Hin|[]]. cbn in Hin. subst k. congruence.
    - apply in_or_app. left. unfold scope_site in Hin. destruct (latent p) eqn:El.
      + destruct (sites2 p PS PS (sub pd sc)); [destruct Hin|]. cbn in Hin. destruct Hin as [<-|[]]. left. reflexivity.
      + apply latent_mute in El. rewrite mute_sites in Hin by exact El. destruct Hin.
    - apply rb_inl in Hr as (r1 & H1 & Hr). apply (once_keys (sites2 p PS PS pd)) in Hin. eauto.
    - apply rb_inl in Hr as (r1 & H1 & Hr). cbv zeta in Hr, Hin. destruct (existsb (fun e => is_strict (fst (snd e))) (fst r1)) eqn:Ex; [discriminate|]. pose proof (scan_mute p r1 Hs H1 Ex) as Hm.
      rewrite !mute_sites in Hin by exact Hm. destruct Hin.
    - apply rb_inl in Hr as (r0 & H0 & Hr). destruct (existsb _ _) in Hr; [discriminate|]. apply rb_inl in Hr as (r1 & H1 & Hr). apply (once_keys (sites2 p PS PS pd)) in Hin. eauto.
    - apply rb_inl in Hr as (m0 & _ & Hr). apply rb_inl in Hr as (m1 & _ & Hr). apply rb_inl in Hr as (? & _ & Hr). apply rb_inl in Hr as (r1 & H1 & Hr).
      apply (once_keys (sites2 p PS PS pd)) in Hin. apply in_or_app. left. eapply IHp; eauto. tauto.
  Qed.
  (** an observed variable (that is not a scope with further variables) does not appear in the joint sample *)
  Theorem C41_not_sampled {B} (f : program B) obs args p r fuel d n :
    f args = inl p -> rv_strict p -> joint_sample (intervene f obs) args = inl r -> run fuel r tt = inl d ->
    haskey obs n = true -> ~ In n (scopes p) -> dget d n = None.
  Proof.
    intros E Hs H Hrun Hk Hsc. unfold joint_sample in H. apply rb_inl in H as (q & Hq & H). apply rb_inl in H as (c & Hc & H). injection H as <-. cbn [run] in Hrun.
    destruct (intervene_inv f obs args p q E Hs Hq) as (R1 & R2 & _). rewrite (call_and_reap_sem PS fuel q c tt Hc R1), R2 in Hrun.
    apply rb_inl in Hrun as ([b d0] & Hrun & Hd). injection Hd as <-. apply rb_inl in Hrun as ([b' o] & _ & Hrun). injection Hrun as <- <-. cbn [fst snd].
    apply dget_None_iff. rewrite dkeys_collect. intros Hin. apply (once_keys (sites2 p PS PS obs)) in Hin. apply Hsc.
    unfold intervene, plant in Hq. rewrite E in Hq. destruct (haskey obs "f"); [discriminate|]. cbn [rb] in Hq. apply rb_inl in Hq as (q0 & Hq & _). apply rb_inl in Hq as (r1 & Hq & _).
    eapply planted_sites; eassumption.
  Qed.
  (** [conditional(f, names)(args..., vals...)] = [intervene(f, **dict(zip(names, vals)))(args...)] *)
  Theorem C41_conditional {B} (f : program B) names args vals : NoDup names -> List.length vals = List.length names ->
    conditional f (inr names) (args ++ vals) = intervene f (combine names vals) args.
  Proof.
    intros Hnd Hl. unfold conditional. cbn [names_list]. destruct names as [|n0 names].
    - destruct vals; [|discriminate]. rewrite app_nil_r. reflexivity.
    - cbv zeta. rewrite app_length, Hl. replace (List.length args + List.length (n0 :: names) - List.length (n0 :: names))%nat with (List.length args) by lia.
      rewrite skipn_app, Nat.sub_diag, skipn_all, skipn_O. cbn [app]. rewrite Hl, Nat.eqb_refl. rewrite firstn_app, Nat.sub_diag, firstn_all, firstn_O, app_nil_r.
      replace (Nat.eqb (List.length (n0 :: names)) 0) with false by reflexivity. f_equal.
      assert (K : forall l : list (string * tree), NoDup (dkeys l) -> dmerge [] l = l).
      { clear. intros l. assert (G : forall a, NoDup (dkeys (a ++ l)) -> dmerge a l = a ++ l).
        { induction l as [|[k v] l IH]; intros a Ha; [cbn; rewrite app_nil_r; reflexivity|]. change (dmerge a ((k, v) :: l)) with (dmerge (dset a k v) l).
          assert (Ek : dset a k v = a ++ [(k, v)]).
          { clear IH. unfold dkeys in Ha. rewrite map_app in Ha. cbn in Ha. apply NoDup_remove_2 in Ha. assert (Hn : ~ In k (map fst a)) by (intros Hn; apply Ha, in_or_app; auto). clear Ha.
            induction a as [|[k' w] a IHa]; [reflexivity|]. cbn in *. destruct (String.eqb_spec k k') as [->|]; [tauto|]. f_equal. apply IHa. tauto. }
          rewrite Ek, IH; rewrite <- app_assoc; [reflexivity|exact Ha]. }
        apply (G []). }
      apply K. unfold dkeys. assert (Ec : map fst (combine (n0 :: names) vals) = n0 :: names).
      { revert Hl. generalize (n0 :: names) as l. clear. intros l. revert vals. induction l as [|x l IH]; intros [|v vals] H; cbn in *; try discriminate; [reflexivity|]. f_equal. apply IH. lia. }
      rewrite Ec. exact Hnd.
  Qed.
  Theorem C41_conditional_string {B} (f : program B) name args v : conditional f (inl name) (args ++ [v]) = intervene f [(name, v)] args.
  Proof. refine (C41_conditional f [name] args [v] _ eq_refl). constructor; [intros []|constructor]. Qed.
  Theorem C41_conditional_missing_values {B} (f : program B) names args : (List.length args < List.length names)%nat -> conditional f (inr names) args = inr ValueErr.
  Proof.
    intros Hl. unfold conditional. cbn [names_list]. cbv zeta. destruct names as [|n0 names]; [cbn in Hl; lia|]. change (Nat.eqb (List.length (n0 :: names)) 0) with false. cbv iota.
    replace (List.length args - List.length (n0 :: names))%nat with 0%nat by lia. cbn [skipn]. destruct (Nat.eqb_spec (List.length args) (List.length (n0 :: names))); [lia|reflexivity].
  Qed.

  (** ** C42 *)
  Theorem C42_trace {B} (f : program B) args p t j : f args = inl p -> trace f args = inl t -> joint_sample f args = inl j ->
    forall fuel, (forall b d, run fuel t tt = inl (b, d) -> run fuel p tt = inl b /\ run fuel j tt = inl d) /\
                 (forall e, run fuel t tt = inr e -> run fuel p tt = inr e /\ run fuel j tt = inr e).
  Proof.
    intros E Ht Hj fuel. unfold trace, joint_sample in *. rewrite E in *. cbn [rb] in *. rewrite Ht in Hj. cbn [rb] in Hj. injection Hj as <-. pose proof (C23_reap_outputs PS p t Ht fuel tt) as K. cbn [run].
    split.
    - intros b d Hb. rewrite Hb in *. destruct (run fuel p tt) as [b'|e]; [|discriminate]. destruct K as [d' K]. injection K as <- <-. auto.
    - intros e He. rewrite He in *. destruct (run fuel p tt) as [b'|e']; [destruct K; discriminate|]. injection K as <-. auto.
  Qed.
  Theorem C42_trace_and_joint_sample_together {B} (f : program B) args : (exists t, trace f args = inl t) <-> (exists j, joint_sample f args = inl j).
  Proof.
    unfold trace, joint_sample. destruct (f args) as [p|e]; cbn [rb]; [|split; intros [? H]; discriminate]. destruct (call_and_reap PS p); cbn [rb]; split; intros [? H]; try discriminate; eauto.
  Qed.
  (** block keeps the output *)
  Theorem C42_block_output {B} (f : program B) names args p q : f args = inl p -> block f names args = inl q -> forall fuel, run fuel q tt = run fuel p tt.
  Proof.
    unfold block. intros E H fuel. rewrite E in H. cbn [rb] in H. apply rb_inl in H as (q0 & H & Hq). injection Hq as <-. cbn [run rb]. apply (C31_nothing_planted _ p q0 H).
  Qed.

  (** the joint sample of a blocked program is that of the program without the blocked names *)
  Definition unblocked (names : list string) (n : string) : bool := negb (mem n names).
  Notation BS names := (mk_settings RV names None false).
  Lemma BS_seen names t n : seen (BS names) t n = (String.eqb t RV && unblocked names n)%bool.
  Proof. reflexivity. Qed.
  (** all sows of the tag pass the filter; scopes with sows are absent *)
  Fixpoint clean (names : list string) {A B} (p : prog A B) : Prop :=
    match p with
    | Pure _ => True
    | Seq p q | Cond p q => clean names p /\ clean names q
    | First _ p | Call p | Scan _ _ p | While _ p => clean names p
    | Nest _ p => mute PS p
    | Sow t n _ _ | SowCond t n _ => t = RV -> unblocked names n = true
    end.
  Lemma clean_seen names t n : (t = RV -> unblocked names n = true) -> seen (BS names) t n = seen PS t n.
  Proof. intros H. rewrite BS_seen, PS_seen. destruct (String.eqb_spec t RV) as [E|]; [rewrite (H E)|]; reflexivity. Qed.
  Lemma mute_BS names {A B} (p : prog A B) : mute PS p -> mute (BS names) p.
  Proof.
    induction p as [A B f|A B C p IHp q IHq|A B C p IHp|t n m av|t n av|A B sc p IHp|A B p IHp|C X Y rv len p IHp|C c p IHp|A B p IHp q IHq]; cbn [mute]; try tauto;
      rewrite PS_seen, BS_seen; intros ->; reflexivity.
  Qed.
  Lemma mute_sem_eq s {A B} (p : prog A B) fuel a : mute s p -> sem s fuel p [] a = rb (run fuel p a) (fun b => inl (b, [])).
  Proof. intros Hm. rewrite (run_sem_eq s s). destruct (sem s fuel p [] a) as [[b o]|] eqn:E; [|reflexivity]. cbn. rewrite (mute_sem s s fuel p Hm _ _ _ _ E). reflexivity. Qed.
  Lemma clean_same names {A B} (p : prog A B) : clean names p -> sites (BS names) p [] = sites PS p [] /\ (tame (BS names) p [] -> tame PS p []) /\
    forall fuel a, sem (BS names) fuel p [] a = sem PS fuel p [] a.
  Proof.
    induction p as [A B f|A B C p IHp q IHq|A B C p IHp|t n m av|t n av|A B sc p IHp|A B p IHp|C X Y rv len p IHp|C c p IHp|A B p IHp q IHq]; cbn [clean sites2 sem2 tame2]; intros H.
    - auto.
    - destruct H as [H1 H2]. destruct (IHp H1) as (E1 & T1 & K1), (IHq H2) as (E2 & T2 & K2). rewrite E1, E2. split; [reflexivity|]. split; [tauto|]. intros fuel a. rewrite K1. apply rb_ext. intros x. rewrite K2. reflexivity.
    - destruct (IHp H) as (E1 & T1 & K1). split; [exact E1|]. split; [exact T1|]. intros fuel a. rewrite K1. reflexivity.
    - rewrite !site_here_nil, (clean_seen names t n H). split; [reflexivity|]. split; [auto|]. intros fuel a. rewrite !at_sow_nil, (clean_seen names t n H). reflexivity.
    - rewrite !site_here_nil, (clean_seen names t n H). split; [reflexivity|]. split; [auto|]. intros fuel a. rewrite !at_sow_nil, (clean_seen names t n H). reflexivity.
    - change (sub [] sc) with (@nil (string * tree)). rewrite !mute_sites by (try apply mute_BS; exact H). split; [reflexivity|]. split.
      + intros _. split; [|repeat intro; cbn in *; contradiction]. clear -H. revert H. generalize (@nil (string * tree)) as pd.
        induction p as [A B f|A B C p IHp q IHq|A B C p IHp|t n m av|t n av|A B sc p IHp|A B p IHp|C X Y rv len p IHp|C c p IHp|A B p IHp q IHq]; cbn [mute tame2]; intros pd Hm; auto;
          try (rewrite !mute_sites by tauto); try (split; [apply IHp; tauto|repeat intro; cbn in *; contradiction]).
        * split; [apply IHp|apply IHq]; tauto.
        * split; [apply IHp; tauto|]. left. repeat intro; cbn in *; contradiction.
        * split; [apply IHp; tauto|]. split; [apply IHq; tauto|]. split; repeat intro; cbn in *; contradiction.
      + intros fuel a. rewrite !mute_sem_eq by (try apply mute_BS; exact H). apply rb_ext. reflexivity.
    - destruct (IHp H) as (E1 & T1 & K1). rewrite E1. split; [reflexivity|]. split; [tauto|]. exact K1.
    - destruct (IHp H) as (E1 & T1 & K1). cbv zeta. change (body_plants (once (sites2 p PS PS [])) []) with (@nil (string * tree)). change (body_plants (once (sites2 p (BS names) (BS names) [])) []) with (@nil (string * tree)).
      rewrite E1. split; [reflexivity|]. split; [tauto|]. intros fuel [c xs]. cbn [fst snd]. destruct (Nat.eqb _ _); [|reflexivity]. rewrite !scan_plants_nil. cbn [rb].
      f_equal. unfold scan_sem. cbn [fst snd]. destruct (Nat.eqb _ _); [|reflexivity]. f_equal.
      assert (G : forall (l : list (X * plants)) c, Forall (fun xp => snd xp = []) l ->
        scan_loop (fun cxp : C * (X * plants) => rb (sem2 (BS names) (BS names) fuel p (snd (snd cxp)) (fst cxp, fst (snd cxp))) (fun r => inl (fst (fst r), (snd (fst r), snd r)))) c l =
        scan_loop (fun cxp : C * (X * plants) => rb (sem2 PS PS fuel p (snd (snd cxp)) (fst cxp, fst (snd cxp))) (fun r => inl (fst (fst r), (snd (fst r), snd r)))) c l).
      { induction l as [|[x q] l IH]; intros c0 HF; [reflexivity|]. inversion_clear HF as [|? ? Hq HF']. cbn in Hq. subst q. cbn [scan_loop fst snd]. rewrite K1. apply rb_ext. intros y. rewrite IH by exact HF'. reflexivity. }
      apply G. assert (G2 : Forall (fun xp : X * plants => snd xp = []) (combine xs (repeat [] len))).
      { apply Forall_forall. intros [x q] Hin. apply in_combine_r, repeat_spec in Hin. exact Hin. }
      unfold rev_if. destruct rv; [apply Forall_rev|]; exact G2.
    - destruct (IHp H) as (E1 & T1 & K1). rewrite E1. split; [reflexivity|]. split; [tauto|]. intros fuel a. f_equal. apply while_loop_ext. intros x. rewrite K1. reflexivity.
    - destruct H as [H1 H2]. destruct (IHp H1) as (E1 & T1 & K1), (IHq H2) as (E2 & T2 & K2). rewrite E1, E2. split; [reflexivity|]. split; [tauto|]. intros fuel a. destruct (fst a); [apply K1|apply K2].
  Qed.
  Lemma plantT_clean names {A B} (p : prog A B) : scopes p = [] -> forall sk dn dn' q, plantT (BS names) p sk dn = inl (dn', q) -> clean names q.
  Proof.
    induction p as [A B f|A B C p IHp q IHq|A B C p IHp|t n m av|t n av|A B sc p IHp|A B p IHp|C X Y rv len p IHp|C c p IHp|A B p IHp q IHq]; cbn [scopes plantT]; intros Hs sk dn dn' r H.
    - injection H as <- <-. exact I.
    - apply app_eq_nil in Hs as [S1 S2]. apply rb_inl in H as ([d1 p1] & H1 & H). apply rb_inl in H as ([d2 p2] & H2 & H). injection H as <- <-. cbn. eauto.
    - apply rb_inl in H as ([d1 p1] & H1 & H). injection H as <- <-. cbn. eauto.
    - destruct (is_cond m); [discriminate|]. change (tag_of (BS names)) with RV in H. change (passes (BS names) n) with (unblocked names n) in H. change (exclusive (BS names)) with false in H.
      destruct (String.eqb_spec t RV) as [->|Hn]; [|injection H as <- <-; cbn; tauto]. destruct (unblocked names n) eqn:Eu; [|injection H as <- <-; exact I].
      destruct (mem n dn); [discriminate|]. destruct (haskey sk n); injection H as <- <-; cbn; auto.
    - change (tag_of (BS names)) with RV in H. change (passes (BS names) n) with (unblocked names n) in H. change (exclusive (BS names)) with false in H.
      destruct (String.eqb_spec t RV) as [->|Hn]; [|injection H as <- <-; cbn; tauto]. destruct (unblocked names n) eqn:Eu; [|injection H as <- <-; exact I].
      destruct (mem n dn); [discriminate|]. destruct (haskey sk n); injection H as <- <-; cbn; auto.
    - apply app_eq_nil in Hs as [S1 S2]. apply rb_inl in H as (sk' & H0 & H). apply rb_inl in H as ([d1 p1] & H1 & H). injection H as <- <-. cbn. split; [exact I|].
      assert (Hm : mute PS p) by (apply latent_mute; destruct (latent p); [discriminate|reflexivity]). clear -H1 Hm. revert sk' d1 H1. generalize (@nil string). 
      induction p as [A B f|A B C p IHp q IHq|A B C p IHp|t n m av|t n av|A B sc p IHp|A B p IHp|C X Y rv len p IHp|C c p IHp|A B p IHp q IHq]; cbn [mute plantT] in *; intros dn sk dn' H.
      + injection H as <- <-. exact I.
      + apply rb_inl in H as ([d1 q1] & H1 & H). apply rb_inl in H as ([d2 q2] & H2 & H). injection H as <- <-. cbn. destruct Hm. eauto.
      + apply rb_inl in H as ([d1 q1] & H1 & H). injection H as <- <-. cbn. eauto.
      + rewrite PS_seen in Hm. destruct (is_cond m); [discriminate|]. change (tag_of (BS names)) with RV in H. rewrite Hm in H. cbn in H. injection H as <- <-. cbn. rewrite PS_seen. auto.
      + rewrite PS_seen in Hm. change (tag_of (BS names)) with RV in H. rewrite Hm in H. cbn in H. injection H as <- <-. cbn. rewrite PS_seen. auto.
      + apply rb_inl in H as (sk' & H0 & H). apply rb_inl in H as ([d1 q1] & H1 & H). injection H as <- <-. cbn. eauto.
      + apply rb_inl in H as ([d1 q1] & H1 & H). injection H as <- <-. cbn. eauto.
      + apply rb_inl in H as ([M0 p0] & H0 & H). cbv zeta in H. destruct (existsb _ _) in H; [discriminate|]. apply rb_inl in H as ([d1 q1] & H1 & H). injection H as <- <-. cbn. eauto.
      + apply rb_inl in H as ([M0 p0] & H0 & H). cbv zeta in H. destruct (existsb _ _) in H; [discriminate|]. apply rb_inl in H as ([d1 q1] & H1 & H). injection H as <- <-. cbn. eauto.
      + apply rb_inl in H as (? & _ & H). apply rb_inl in H as (? & _ & H). apply rb_inl in H as (? & _ & H). apply rb_inl in H as ([d1 q1] & H1 & H). apply rb_inl in H as ([d2 q2] & H2 & H). injection H as <- <-. cbn. destruct Hm. eauto.
    - apply rb_inl in H as ([d1 p1] & H1 & H). injection H as <- <-. cbn. eauto.
    - apply rb_inl in H as ([M0 p0] & H0 & H). cbv zeta in H. destruct (existsb _ _) in H; [discriminate|]. apply rb_inl in H as ([d1 p1] & H1 & H). injection H as <- <-. cbn. eauto.
    - apply rb_inl in H as ([M0 p0] & H0 & H). cbv zeta in H. destruct (existsb _ _) in H; [discriminate|]. apply rb_inl in H as ([d1 p1] & H1 & H). injection H as <- <-. cbn. eauto.
    - apply app_eq_nil in Hs as [S1 S2]. apply rb_inl in H as (? & _ & H). apply rb_inl in H as (? & _ & H). apply rb_inl in H as (? & _ & H). apply rb_inl in H as ([d1 p1] & H1 & H). apply rb_inl in H as ([d2 p2] & H2 & H). injection H as <- <-. cbn. eauto.
  Qed.
  (** reaping with a blocklist is reaping and dropping the blocked names *)
  Definition keep {X} (names : list string) (l : list (string * X)) : list (string * X) := filter (fun e => unblocked names (fst e)) l.
  Lemma keep_app {X} names (a b : list (string * X)) : keep names (a ++ b) = keep names a ++ keep names b.
  Proof. apply filter_app. Qed.
  Lemma keep_dset {X} names (a : list (string * X)) k v : keep names (dset a k v) = if unblocked names k then dset (keep names a) k v else keep names a.
  Proof.
    induction a as [|[k' w] a IH]; cbn; [destruct (unblocked names k); reflexivity|]. destruct (String.eqb_spec k k') as [->|Hn]; cbn.
    - destruct (unblocked names k') eqn:E; [|reflexivity]. cbn. rewrite String.eqb_refl. reflexivity.
    - fold (keep names a). fold (keep names (dset a k v)). rewrite IH. destruct (unblocked names k'), (unblocked names k); try reflexivity. cbn. apply String.eqb_neq in Hn. rewrite Hn. reflexivity.
  Qed.
  Lemma keep_dmerge {X} names (b : list (string * X)) : forall a, keep names (dmerge a b) = dmerge (keep names a) (keep names b).
  Proof.
    induction b as [|[k v] b IH]; intros a; [reflexivity|]. change (dmerge a ((k, v) :: b)) with (dmerge (dset a k v) b). rewrite IH, keep_dset. cbn. destruct (unblocked names k); reflexivity.
  Qed.
  Lemma keep_once names (l : meta) : keep names (once l) = once (keep names l).
  Proof. apply (keep_dmerge names l []). Qed.
  Lemma last_eff_keep names (o : list occ) n : unblocked names n = true -> last_eff (keep names o) n = last_eff o n.
  Proof.
    intros Hn. unfold last_eff. generalize (@None tree). induction o as [|[k [v b]] o IH]; intros acc; [reflexivity|]. cbn [keep filter fst snd fold_left]. unfold keep in *. cbn [filter fst].
    destruct (unblocked names k) eqn:E; cbn [fold_left fst snd]; [apply IH|]. destruct (String.eqb_spec k n) as [->|]; [congruence|]. cbn. apply IH.
  Qed.
  Lemma collect_keep names M o : collect (keep names M) (keep names o) = keep names (collect M o).
  Proof.
    induction M as [|[k [m a]] M IH]; [reflexivity|]. cbn. fold (keep names (collect M o)). destruct (unblocked names k) eqn:E; [|exact IH].
    cbn. rewrite last_eff_keep by exact E. f_equal. exact IH.
  Qed.
  Lemma blocked_sem names {A B} (p : prog A B) : rv_strict p -> scopes p = [] -> forall M r, reapT PS p M = inl r ->
    sites (BS names) p [] = keep names (sites PS p []) /\ forall fuel a, sem (BS names) fuel p [] a = rb (sem PS fuel p [] a) (fun bo => inl (fst bo, keep names (snd bo))).
  Proof.
    induction p as [A B f|A B C p IHp q IHq|A B C p IHp|t n m av|t n av|A B sc p IHp|A B p IHp|C X Y rv len p IHp|C c p IHp|A B p IHp q IHq]; cbn [scopes reapT rv_strict sites2 sem2]; intros Hs Hsc M r H.
    - split; [reflexivity|]. intros fuel a. rewrite rb_assoc. apply rb_ext. reflexivity.
    - apply app_eq_nil in Hsc as [S1 S2]. destruct Hs as [R1 R2]. apply rb_inl in H as (r1 & H1 & H). apply rb_inl in H as (r2 & H2 & H). destruct (IHp R1 S1 _ _ H1) as [E1 K1], (IHq R2 S2 _ _ H2) as [E2 K2].
      rewrite E1, E2, keep_app. split; [reflexivity|]. intros fuel a. rewrite K1, !rb_assoc. apply rb_ext. intros x. cbn [rb fst snd]. rewrite K2, !rb_assoc. apply rb_ext. intros y. cbn. unfold keep. rewrite filter_app. reflexivity.
    - apply rb_inl in H as (r1 & H1 & H). destruct (IHp Hs Hsc _ _ H1) as [E1 K1]. split; [exact E1|]. intros fuel a. rewrite K1, !rb_assoc. apply rb_ext. reflexivity.
    - rewrite !site_here_nil, BS_seen, PS_seen. split; [destruct (String.eqb t RV); cbn; [destruct (unblocked names n)|]; reflexivity|].
      intros fuel a. rewrite !at_sow_nil, BS_seen, PS_seen. destruct (is_cond m); [reflexivity|]. rewrite !rb_assoc. apply rb_ext. intros v. cbn. destruct (String.eqb t RV); cbn; [destruct (unblocked names n)|]; reflexivity.
    - rewrite !site_here_nil, BS_seen, PS_seen. apply String.eqb_neq in Hs. rewrite Hs. split; [reflexivity|]. intros fuel a. rewrite !at_sow_nil, BS_seen, PS_seen, Hs, !rb_assoc. apply rb_ext. reflexivity.
    - apply app_eq_nil in Hsc as [S1 S2]. assert (Hm : mute PS p) by (apply latent_mute; destruct (latent p); [discriminate|reflexivity]). change (sub [] sc) with (@nil (string * tree)).
      rewrite !mute_sites by (try apply mute_BS; exact Hm). split; [reflexivity|]. intros fuel a. rewrite !mute_sem_eq by (try apply mute_BS; exact Hm). rewrite !rb_assoc. apply rb_ext. reflexivity.
    - apply rb_inl in H as (r1 & H1 & H). destruct (IHp Hs Hsc _ _ H1) as [E1 K1]. rewrite E1, keep_once. split; [reflexivity|]. exact K1.
    - apply rb_inl in H as (r1 & H1 & H). cbv zeta in H. destruct (existsb (fun e => is_strict (fst (snd e))) (fst r1)) eqn:Ex; [discriminate|]. pose proof (scan_mute p r1 Hs H1 Ex) as Hm.
      assert (Hms : mute PS (Scan rv len p)) by exact Hm. pose proof (fun fuel a => mute_sem_eq PS (Scan rv len p) fuel a Hms) as G1. pose proof (fun fuel a => mute_sem_eq (BS names) (Scan rv len p) fuel a (mute_BS names _ Hms)) as G2.
      cbn [sem2] in G1, G2. split; [cbv zeta; rewrite !mute_sites by (try apply mute_BS; exact Hm); reflexivity|]. intros fuel a. rewrite G1, G2, rb_assoc. apply rb_ext. reflexivity.
    - apply rb_inl in H as (r1 & H1 & H). cbv zeta in H. destruct (existsb (fun e => negb (clobberish (fst (snd e)))) (fst r1)) eqn:Ex; [discriminate|].
      assert (Hm : mute PS p).
      { destruct r1 as [M1 q1]. cbn [fst] in *. pose proof (reapT_meta PS p _ _ _ H1) as EM. change (dmerge [] (sites PS p [])) with (once (sites PS p [])) in EM.
        eapply (sites_nil_mute PS PS_passes p _ _ H1 (rv_strictp p Hs)). apply once_nil. rewrite <- EM. destruct M1 as [|[n [m a]] M1]; [reflexivity|]. exfalso. cbn in Ex. apply orb_false_iff in Ex as [Ex _].
        assert (Hin : In (n, (m, a)) (sites PS p [])) by (apply once_incl; rewrite <- EM; left; reflexivity). rewrite (strictp_sites PS p (rv_strictp p Hs) [] _ _ _ Hin) in Ex. discriminate. }
      assert (Hms : mute PS (While c p)) by exact Hm. pose proof (fun fuel a => mute_sem_eq PS (While c p) fuel a Hms) as G1. pose proof (fun fuel a => mute_sem_eq (BS names) (While c p) fuel a (mute_BS names _ Hms)) as G2.
      cbn [sem2] in G1, G2. split; [rewrite !mute_sites by (try apply mute_BS; exact Hm); reflexivity|]. intros fuel a. rewrite G1, G2, rb_assoc. apply rb_ext. reflexivity.
    - apply app_eq_nil in Hsc as [S1 S2]. destruct Hs as [R1 R2]. apply rb_inl in H as (r1 & H1 & H). apply rb_inl in H as (r2 & H2 & H). destruct (IHp R1 S1 _ _ H1) as [E1 K1], (IHq R2 S2 _ _ H2) as [E2 K2].
      rewrite E1, keep_once. split; [reflexivity|]. intros fuel a. destruct (fst a); [apply K1|apply K2].
  Qed.
  Theorem C42_block_joint_sample_partial {B} (f : program B) names args p j jb : f args = inl p -> rv_strict p -> scopes p = [] ->
    joint_sample f args = inl j -> joint_sample (block f names) args = inl jb ->
    forall fuel, run fuel jb tt = rb (run fuel j tt) (fun d => inl (filter (fun kv => negb (mem (fst kv) names)) d)).
  Proof.
    intros E Hs Hsc Hj Hb fuel. unfold joint_sample, block in *. rewrite E in *. cbn [rb] in *. apply rb_inl in Hj as (r & Hr & Hj). injection Hj as <-.
    apply rb_inl in Hb as (q & Hq & Hb). apply rb_inl in Hb as (rb_ & Hrb & Hb). injection Hb as <-. apply rb_inl in Hq as (q0 & Hq & Hq'). injection Hq' as <-. unfold plant in Hq. apply rb_inl in Hq as ([dn q1] & Hq & Hq'). injection Hq' as <-. cbn [snd] in *.
    pose proof (plantT_clean names p Hsc _ _ _ _ Hq) as Hc. destruct (clean_same names q1 Hc) as (C1 & C2 & C3).
    destruct (plantT_sem (BS names) (BS names) p (or_introl eq_refl) _ _ _ _ Hq [] (fits_skels_of [])) as (P1 & P2 & P3).
    pose proof Hr as Hr'. unfold call_and_reap in Hr'. apply rb_inl in Hr' as (r0 & Hr0 & _). destruct (blocked_sem names p Hs Hsc _ _ Hr0) as [B1 B2].
    assert (Hst : strictp (BS names) p).
    { clear -Hs. induction p as [A B f|A B C p IHp q IHq|A B C p IHp|t n m av|t n av|A B sc p IHp|A B p IHp|C X Y rv len p IHp|C c p IHp|A B p IHp q IHq]; cbn [rv_strict strictp] in *; try tauto; rewrite BS_seen.
      - intros He. apply andb_true_iff in He as [He _]. apply String.eqb_eq in He. rewrite (Hs He). reflexivity.
      - apply String.eqb_neq in Hs. rewrite Hs. reflexivity. }
    assert (Hreg : regular PS (Seq (Pure (fun u : unit => inl (u, []))) q1) []).
    { split; [cbn [tame2]; split; [exact I|apply C2, P2, strictp_tame, Hst]|]. cbn [sites2 app]. rewrite <- C1, P1. apply no_cond_no_mix, no_clob_no_cond, strictp_sites, Hst. }
    cbn [run]. rewrite (call_and_reap_sem PS fuel _ rb_ tt Hrb Hreg), (call_and_reap_sem PS fuel p r tt Hr (rv_regular p [] Hs)).
    cbn [sem2 sites2 app rb fst snd]. rewrite <- C1, P1, <- C3, P3, B1, B2, !rb_assoc. apply rb_ext. intros [b o]. cbn [rb fst snd app]. rewrite <- keep_once, collect_keep. reflexivity.
  Qed.

  (** ** C43 *)
  Lemma plantT_strict {A B} (p : prog A B) : rv_strict p -> forall sk dn dn' q, plantT PS p sk dn = inl (dn', q) -> rv_strict q.
  Proof.
    induction p as [A B f|A B C p IHp q IHq|A B C p IHp|t n m av|t n av|A B sc p IHp|A B p IHp|C X Y rv len p IHp|C c p IHp|A B p IHp q IHq]; cbn [rv_strict plantT]; intros Hs sk dn dn' r H.
    - injection H as <- <-. exact I.
    - destruct Hs as [S1 S2]. apply rb_inl in H as ([d1 p1] & H1 & H). apply rb_inl in H as ([d2 p2] & H2 & H). injection H as <- <-. cbn. eauto.
    - apply rb_inl in H as ([d1 p1] & H1 & H). injection H as <- <-. cbn. eauto.
    - destruct (is_cond m); [discriminate|]. change (tag_of PS) with RV in H. change (passes PS n) with true in H. change (exclusive PS) with false in H.
      destruct (String.eqb_spec t RV) as [->|Hn]; [|injection H as <- <-; cbn; tauto].
      destruct (mem n dn); [discriminate|]. destruct (haskey sk n); injection H as <- <-; cbn; auto.
    - change (tag_of PS) with RV in H. change (passes PS n) with true in H. change (exclusive PS) with false in H.
      destruct (String.eqb_spec t RV) as [->|Hn]; [tauto|injection H as <- <-; cbn; tauto].
    - apply rb_inl in H as (sk' & H0 & H). apply rb_inl in H as ([d1 p1] & H1 & H). injection H as <- <-. cbn. eauto.
    - apply rb_inl in H as ([d1 p1] & H1 & H). injection H as <- <-. cbn. eauto.
    - apply rb_inl in H as ([M0 p0] & H0 & H). cbv zeta in H. destruct (existsb _ _) in H; [discriminate|]. apply rb_inl in H as ([d1 p1] & H1 & H). injection H as <- <-. cbn. eauto.
    - apply rb_inl in H as ([M0 p0] & H0 & H). cbv zeta in H. destruct (existsb _ _) in H; [discriminate|]. apply rb_inl in H as ([d1 p1] & H1 & H). injection H as <- <-. cbn. eauto.
    - destruct Hs as [S1 S2]. apply rb_inl in H as (? & _ & H). apply rb_inl in H as (? & _ & H). apply rb_inl in H as (? & _ & H). apply rb_inl in H as ([d1 p1] & H1 & H). apply rb_inl in H as ([d2 p2] & H2 & H). injection H as <- <-. cbn. eauto.
  Qed.
  (** every program [f] can be traced to has only strict random variables *)
  Definition rv_program {B} (f : program B) : Prop := forall args p, f args = inl p -> rv_strict p.
  Lemma intervene_program {B} (f : program B) obs : rv_program f -> rv_program (intervene f obs).
  Proof.
    unfold intervene, plant. intros Hf args q H. destruct (haskey obs "f"); [discriminate|]. apply rb_inl in H as (p & Hp & H). apply rb_inl in H as (q0 & H & Hq). injection Hq as <-.
    apply rb_inl in H as ([dn q1] & H & E1). injection E1 as <-. cbn. split; [exact I|]. eapply plantT_strict; [|exact H]. eapply Hf, Hp.
  Qed.
  Lemma conditional_program {B} (f : program B) ins : rv_program f -> rv_program (conditional f ins).
  Proof.
    intros Hf args q H. unfold conditional in H. cbv zeta in H. destruct (Nat.eqb _ 0) in H; [eapply intervene_program; eauto|].
    destruct (Nat.eqb _ _) in H; [eapply intervene_program; eauto|discriminate].
  Qed.
  (** what a reaped strict program returns: a value of the right type for each of its sites, in the order of the sites *)
  Lemma reaped {A B} (p : prog A B) M r c fuel a b d : rv_strict p -> reapT PS p [] = inl (M, r) -> call_and_reap PS p = inl c -> run fuel c a = inl (b, d) ->
    M = sites PS p [] /\ NoDup (dkeys M) /\ dkeys d = dkeys M /\ forall n m av, In (n, (m, av)) M -> exists v, dget d n = Some v /\ has_aval v av = true.
  Proof.
    intros Hs H Hc Hrun. rewrite (call_and_reap_sem PS fuel p c a Hc (rv_regular p [] Hs)) in Hrun. apply rb_inl in Hrun as ([b' o] & E & Hrun). injection Hrun as <- <-. cbn [fst snd].
    destruct (strict_eff PS fuel p _ _ _ _ _ H (rv_strictp p Hs) E) as (K1 & K2 & K3). pose proof (reapT_meta PS p _ _ _ H) as EM. change (dmerge [] (sites PS p [])) with (once (sites PS p [])) in EM.
    pose proof (once_nodup_id _ K3) as Eo. assert (EM' : M = sites PS p []) by (rewrite EM; exact Eo). subst M. rewrite EM'. split; [reflexivity|]. split; [exact K3|].
    split; [apply dkeys_collect|]. intros n m av Hin. destruct (K1 n m av Hin) as (v & Ev & Hv). exists v. split; [|exact Hv]. rewrite dget_collect. rewrite (NoDup_In_dget _ _ _ K3 Hin), Ev. reflexivity.
  Qed.
  Lemma mute_strictp {A B} (r : prog A B) : mute PS r -> strictp PS r.
  Proof.
    induction r as [A B f|A B C p IHp q IHq|A B C p IHp|t n m av|t n av|A B sc p IHp|A B p IHp|C X Y rv len p IHp|C c p IHp|A B p IHp q IHq]; cbn [mute strictp]; try tauto. intros Hm E. congruence.
  Qed.
  Definition typed (d : plants) (l : meta) : Prop := forall n m av, In (n, (m, av)) l -> exists v, dget d n = Some v /\ has_aval v av = true.
  Definition sown (d : plants) (l : meta) : list occ := map (fun e => (fst e, (match dget d (fst e) with Some v => v | None => Dict [] end, true))) l.
  Lemma last_eff_sown d L n m av v : NoDup (dkeys L) -> In (n, (m, av)) L -> dget d n = Some v -> last_eff (sown d L) n = Some v.
  Proof.
    intros HL Hin Ev. induction L as [|[k x] L IH]; [destruct Hin|]. cbn in HL. inversion_clear HL as [|? ? H1 H2].
    etransitivity; [exact (last_eff_app [(k, (match dget d k with Some v => v | None => Dict [] end, true))] (sown d L) n)|]. destruct Hin as [Hin|Hin].
    - injection Hin as -> ->. rewrite last_eff_none; [cbn; rewrite String.eqb_refl, Ev; reflexivity|]. intros e He. apply in_map_iff in He as ([k y] & <- & He). cbn. intros ->. apply H1. apply in_map_iff. exists (n, y). auto.
    - rewrite IH by assumption. reflexivity.
  Qed.
  Lemma sem_sow_each fuel d l : typed d l -> sem PS fuel (sow_each l) [] d = inl (d, sown d l).
  Proof.
    induction l as [|[n [m av]] l IH]; intros H; [reflexivity|]. cbn [sow_each sem2 rb]. destruct (H n m av (or_introl eq_refl)) as (v & Ev & Hv). rewrite Ev. cbn [rb fst snd sem2 app].
    rewrite at_sow_nil, PS_seen, String.eqb_refl. unfold chk. rewrite Hv. cbn [rb fst snd app is_cond]. rewrite IH by (intros ? ? ? Hin; apply (H _ _ _ (or_intror Hin))).
    cbn [rb fst snd app sown map]. rewrite Ev. reflexivity.
  Qed.
  Lemma sites_sow_each l : sites PS (sow_each l) [] = map (fun e => (fst e, (Strict, snd (snd e)))) l.
  Proof. induction l as [|[n [m av]] l IH]; [reflexivity|]. cbn [sow_each sites2 app map fst snd]. rewrite site_here_nil, PS_seen, String.eqb_refl, IH. reflexivity. Qed.
  Lemma sow_each_strict l : rv_strict (sow_each l).
  Proof. induction l as [|[n [m av]] l IH]; cbn; auto. Qed.
  Lemma run_sow_each fuel d l : typed d l -> run fuel (sow_each l) d = inl d.
  Proof. intros H. rewrite (run_sem_eq PS PS), sem_sow_each by exact H. reflexivity. Qed.

  Lemma alist_eq {X} (a b : list (string * X)) : NoDup (dkeys a) -> dkeys a = dkeys b -> (forall n, In n (dkeys a) -> dget a n = dget b n) -> a = b.
  Proof.
    revert b. induction a as [|[k v] a IH]; intros [|[k' v'] b] Hn Hk H; try discriminate; [reflexivity|]. cbn in Hk. injection Hk as -> Hk. inversion_clear Hn as [|? ? Hn1 Hn2].
    pose proof (H k' (or_introl eq_refl)) as H0. cbn in H0. rewrite String.eqb_refl in H0. injection H0 as ->. f_equal. apply IH; [exact Hn2|exact Hk|].
    intros n Hin. pose proof (H n (or_intror Hin)) as H0. cbn in H0. destruct (String.eqb_spec n k') as [->|]; [exfalso; exact (Hn1 Hin)|exact H0].
  Qed.
  Definition others (outs : list string) {X} (l : list (string * X)) := filter (fun e => negb (mem (fst e) outs)) l.

  Lemma graph_replace_inv {B} (f : program B) ins outs args g : rv_program f -> graph_replace f ins outs args = inl g ->
    exists p M r c, conditional f ins args = inl p /\ rv_strict p /\ reapT PS p [] = inl (M, r) /\ call_and_reap PS p = inl c /\ (forall o, In o outs -> haskey M o = true) /\
      g = Seq (Pure (fun u => inl (u, [] : dict))) (Seq r (Seq (Pure (fun x : B * dict => inl (final (snd x), final (snd x))))
               (Seq (First plants (sow_each (filter (fun e => negb (mem (fst e) outs)) M))) (Pure (fun x : plants * plants => lookups outs (snd x)))))).
  Proof.
    intros Hf H. unfold graph_replace in H. apply rb_inl in H as (p & Hp & H). apply rb_inl in H as ([M r] & Hr & H). cbn [fst snd] in H. destruct (forallb (haskey M) outs) eqn:Ef; [|discriminate].
    injection H as <-. exists p, M, r. eexists. split; [exact Hp|]. split; [eapply conditional_program; eassumption|]. split; [exact Hr|]. split; [unfold call_and_reap; rewrite Hr; reflexivity|].
    split; [|reflexivity]. apply forallb_forall. exact Ef.
  Qed.
  Lemma lookups_total outs (d : plants) : (forall o, In o outs -> haskey d o = true) -> exists vs, lookups outs d = inl vs /\ Forall2 (fun o v => dget d o = Some v) outs vs.
  Proof.
    induction outs as [|o outs IH]; intros H; [exists []; split; [reflexivity|constructor]|]. cbn. pose proof (H o (or_introl eq_refl)) as Ho. unfold haskey in Ho. destruct (dget d o) as [v|] eqn:E; [|discriminate].
    destruct IH as (vs & -> & HF); [intros o' Ho'; apply H; right; exact Ho'|]. exists (v :: vs). split; [reflexivity|]. constructor; assumption.
  Qed.
  Lemma haskey_dkeys {X} (l : list (string * X)) n : haskey l n = true <-> In n (dkeys l).
  Proof. unfold haskey. split; [destruct (dget l n) eqn:E; [intros _; eapply dget_In_keys; exact E|discriminate]|]. intros H. apply In_dkeys_dget in H as (v & ->). reflexivity. Qed.

  (** the outputs of [graph_replace(f, ins, outs)] are the values, under the output names, of the joint sample of the
      conditioned program; it fails when that fails *)
  Theorem C43_outputs {B} (f : program B) ins outs args g : rv_program f -> graph_replace f ins outs args = inl g ->
    exists j, joint_sample (conditional f ins) args = inl j /\ forall fuel,
      match run fuel j tt with
      | inl d => exists vs, run fuel g tt = inl vs /\ Forall2 (fun o v => dget d o = Some v) outs vs
      | inr e => run fuel g tt = inr e
      end.
  Proof.
    intros Hf H. destruct (graph_replace_inv f ins outs args g Hf H) as (p & M & r & c & Hp & Hs & Hr & Hc & Ho & ->). unfold joint_sample. rewrite Hp. cbn [rb]. rewrite Hc. cbn [rb]. eexists. split; [reflexivity|].
    intros fuel. pose proof (fun b d => reaped p M r c fuel tt b d Hs Hr Hc) as K. unfold call_and_reap in Hc. rewrite Hr in Hc. cbn [rb] in Hc. injection Hc as <-. cbn [run rb fst snd] in *.
    match goal with |- context [run fuel r ?x] => remember (run fuel r x) as R eqn:ER end. clear ER. destruct R as [[b d0]|e]; cbn [rb fst snd] in *; [|exact eq_refl]. destruct (K b (final d0) eq_refl) as (EM & Hnd & Hk & Ht).
    rewrite run_sow_each by (intros n m av Hin; apply filter_In in Hin as [Hin _]; eapply Ht, Hin). cbn [rb fst snd].
    apply lookups_total. intros o Hin. apply haskey_dkeys. rewrite Hk. apply haskey_dkeys. auto.
  Qed.
  (** its joint sample is that of the conditioned program without the output names *)
  Theorem C43_latents {B} (f : program B) ins outs args jg j : rv_program f ->
    joint_sample (graph_replace f ins outs) args = inl jg -> joint_sample (conditional f ins) args = inl j ->
    forall fuel, run fuel jg tt = rb (run fuel j tt) (fun d => inl (filter (fun kv => negb (mem (fst kv) outs)) d)).
  Proof.
    intros Hf H Hj fuel. unfold joint_sample in H. apply rb_inl in H as (g & Hg & H). apply rb_inl in H as (cg & Hcg & H). injection H as <-.
    destruct (graph_replace_inv f ins outs args g Hf Hg) as (p & M & r & c & Hp & Hs & Hr & Hc & Ho & Eg). unfold joint_sample in Hj. rewrite Hp in Hj. cbn [rb] in Hj. rewrite Hc in Hj. cbn [rb] in Hj. injection Hj as <-.
    pose proof (fun b d => reaped p M r c fuel tt b d Hs Hr Hc) as K.
    assert (Hm : mute PS r) by (eapply (reapT_mute PS PS p); [right; reflexivity|exact Hr]).
    set (L := filter (fun e => negb (mem (fst e) outs)) M) in *.
    assert (Eg1 : sites PS g [] = map (fun e => (fst e, (Strict, snd (snd e)))) L).
    { rewrite Eg. cbn [sites2 app]. rewrite (mute_sites PS PS r Hm), sites_sow_each, app_nil_r. reflexivity. }
    assert (Hgr : regular PS g []).
    { split.
      - rewrite Eg. cbn [tame2]. repeat split; auto; try (apply strictp_tame, rv_strictp, sow_each_strict). apply strictp_tame, mute_strictp, Hm.
      - rewrite Eg1. intros n m1 a1 m2 a2 H1 H2. apply in_map_iff in H1 as (e1 & E1 & _), H2 as (e2 & E2 & _). injection E1 as _ <- _. injection E2 as _ <- _. reflexivity. }
    cbn [run]. rewrite (call_and_reap_sem PS fuel g cg tt Hcg Hgr), Eg1, Eg.
    unfold call_and_reap in Hc. rewrite Hr in Hc. cbn [rb] in Hc. injection Hc as <-. cbn [run sem2 rb fst snd app] in *.
    match goal with |- context [sem2 PS PS fuel r [] ?x] => rewrite (mute_sem_eq PS r fuel x Hm) end.
    match goal with |- context [run fuel r ?x] => remember (run fuel r x) as R eqn:ER end. clear ER. destruct R as [[b d0]|e]; cbn [rb fst snd app] in *; [|exact eq_refl]. destruct (K b (final d0) eq_refl) as (EM & Hnd & Hk & Ht).
    rewrite (sem_sow_each fuel (final d0) L) by (intros n m av Hin; apply filter_In in Hin as [Hin _]; eapply Ht, Hin). cbn [rb fst snd app].
    destruct (lookups_total outs (final d0)) as (vs & Evs & _); [intros o Hin; apply haskey_dkeys; rewrite Hk; apply haskey_dkeys; auto|]. rewrite Evs. cbn [rb fst snd app]. f_equal.
    assert (HL : NoDup (dkeys L)) by (apply filter_nodup, Hnd).
    assert (Hkk : dkeys (map (fun e : string * (mode * aval) => (fst e, (Strict, snd (snd e)))) L) = dkeys L) by (unfold dkeys; rewrite map_map; reflexivity).
    rewrite once_nodup_id by (rewrite Hkk; exact HL). rewrite app_nil_r.
    assert (Hkd : dkeys (filter (fun kv : string * tree => negb (mem (fst kv) outs)) (final d0)) = dkeys L).
    { unfold L. revert Hk. clear. unfold dkeys. generalize (final d0) as D. revert M. induction M as [|[k x] M IH]; intros [|[k' v'] D] Hk; try discriminate; [reflexivity|]. cbn in Hk. injection Hk as -> Hk.
      cbn. destruct (mem k outs); cbn; [apply IH, Hk|f_equal; apply IH, Hk]. }
    apply alist_eq.
    - rewrite dkeys_collect, Hkk. exact HL.
    - rewrite dkeys_collect, Hkk, Hkd. reflexivity.
    - intros n Hin. rewrite dkeys_collect, Hkk in Hin. rewrite dget_collect.
      apply In_dkeys_dget in Hin as ([m av] & Hin). apply dget_In in Hin.
      rewrite (NoDup_In_dget _ n (Strict, av)); [|rewrite Hkk; exact HL|apply in_map_iff; exists (n, (m, av)); auto].
      pose proof Hin as Hin'. apply filter_In in Hin' as [HinM Hout]. destruct (Ht n m av HinM) as (v & Ev & _).
      assert (El : last_eff (sown (final d0) L) n = Some v).
      { eapply last_eff_sown; eassumption. }
      rewrite El. symmetry. apply dget_filter; [unfold dkeys in *; rewrite Hk; exact Hnd|]. split; assumption.
  Qed.
  (** a name that is not a latent variable of the conditioned program cannot be an output *)
  Theorem C43_unknown_output {B} (f : program B) ins outs args p r o : conditional f ins args = inl p -> call_and_reap PS p = inl r -> In o outs -> ~ In o (dkeys (sites PS p [])) -> graph_replace f ins outs args = inr KeyErr.
  Proof.
    intros Hp Hr Ho Hn. unfold graph_replace. rewrite Hp. cbn [rb]. unfold call_and_reap in Hr. apply rb_inl in Hr as ([M q] & Hr & _). rewrite Hr. cbn [rb fst]. destruct (forallb (haskey M) outs) eqn:Ef; [|reflexivity].
    exfalso. rewrite forallb_forall in Ef. specialize (Ef o Ho). apply haskey_dkeys in Ef. apply Hn. apply reapT_meta in Hr. change (dmerge [] (sites PS p [])) with (once (sites PS p [])) in Hr. subst M.
    apply (once_keys (sites PS p [])). exact Ef.
  Qed.
End proofs.

Section rv_functions.
  Context {AR : Arrays}.
  Notation PS := ppl_settings.
  (** ** C63 *)
  (** [random_variable(f, name=...)] with no named variables in [f]: the joint sample is the output under that name *)
  Theorem C63_no_inner_variables name av (p : prog unit tree) j : latent p = false -> joint_sample (fun _ => inl (rv_function name av p)) [] = inl j ->
    forall fuel, run fuel j tt = rb (run fuel p tt) (fun v => rb (chk av v) (fun v => inl [(name, v)])).
  Proof.
    intros Hl Hj fuel. pose proof (proj1 (latent_mute p) Hl) as Hm. unfold joint_sample in Hj. cbn [rb] in Hj. apply rb_inl in Hj as (c & Hc & Hj). injection Hj as <-. cbn [run].
    assert (Hsi : sites PS (rv_function name av p) [] = [(name, (Strict, av))]).
    { unfold rv_function, rv_value. cbn [sites2]. change (sub [] name) with (@nil (string * tree)). rewrite (mute_sites PS PS p Hm). cbn [scope_site app]. rewrite site_here_nil, PS_seen. reflexivity. }
    assert (Hreg : regular PS (rv_function name av p) []).
    { split.
      - unfold rv_function, rv_value. apply strictp_tame. cbn [strictp]. split; [apply mute_strictp, Hm|reflexivity].
      - rewrite Hsi. intros n m1 a1 m2 a2 [H1|[]] [H2|[]]. congruence. }
    rewrite (call_and_reap_sem PS fuel _ c tt Hc Hreg), Hsi. unfold rv_function, rv_value. cbn [sem2]. change (sub [] name) with (@nil (string * tree)). rewrite (mute_sem_eq PS p fuel tt Hm), !rb_assoc.
    destruct (run fuel p tt) as [v|e]; [|reflexivity]. cbn [rb fst snd]. rewrite (mute_sites PS PS p Hm). cbn [rb fst snd is_cond]. rewrite at_sow_nil, PS_seen, String.eqb_refl. unfold chk. destruct (has_aval v av); [|reflexivity].
    cbn [rb fst snd app]. cbn. rewrite String.eqb_refl. reflexivity.
  Qed.
  (** ... but as soon as [f] has named variables (none of which clash with each other) it cannot be sampled jointly, traced or
      used in graph_replace: the scope and the tagged output have the same name *)
  Theorem C63_inner_variables_refuted name av (p : prog unit tree) r : reapT PS p [] = inl r -> sites PS p [] <> [] ->
    joint_sample (fun _ => inl (rv_function name av p)) [] = inr ValueErr /\ trace (fun _ => inl (rv_function name av p)) [] = inr ValueErr.
  Proof.
    intros Hr Hn. assert (K : reapT PS (rv_function name av p) [] = inr ValueErr).
    { unfold rv_function, rv_value. cbn [reapT]. rewrite Hr. cbn [rb]. destruct r as [M q]. pose proof (reapT_meta PS p _ _ _ Hr) as EM. change (dmerge [] (sites PS p [])) with (once (sites PS p [])) in EM.
      cbn [fst]. destruct M as [|e M]; [symmetry in EM; exfalso; apply Hn, once_nil; exact EM|]. cbn. unfold handle. cbn. rewrite String.eqb_refl. reflexivity. }
    unfold joint_sample, trace, call_and_reap. cbn [rb]. rewrite K. auto.
  Qed.
End rv_functions.

(** ** Examples *)
Open Scope Z_scope.
(** z = rv(arg0, "z"); x = rv(z + arg1, "x"); return x * 2 *)
Definition model : program tree := fun args =>
  match args with
  | [a0; a1] => inl (Seq (Pure (fun _ : unit => inl a0)) (Seq (rv_value "z" A1) (Seq (step (fun z => z + HarvestProps.val a1)) (Seq (rv_value "x" A1) (step (fun x => x * 2))))))
  | _ => inr TypeErr
  end.
Definition go {B} (f : program B) (args : list tree) : res B := rb (f args) (fun p => run 10 p tt).
Lemma model_rv : rv_program model.
Proof. intros [|a0 [|a1 [|a2 args]]] p H; cbn in H; try discriminate. injection H as <-. cbn. tauto. Qed.
Example C41_example :
  go (intervene model [("z", L 10)]) [L 1; L 2] = inl (L 24) /\ go (joint_sample (intervene model [("z", L 10)])) [L 1; L 2] = inl [("x", L 12)] /\
  go (conditional model (inr ["z"; "x"])) [L 1; L 2; L 10; L 20] = inl (L 40) /\ go (conditional model (inl "z")) [L 1; L 2; L 10] = inl (L 24) /\
  go (conditional model (inr ["z"; "x"; "y"])) [L 1; L 2] = inr ValueErr.
Proof. repeat split; vm_compute; reflexivity. Qed.
Example C41_example_hyps : exists p q, model [L 1; L 2] = inl p /\ rv_strict p /\ intervene model [("z", L 10)] [L 1; L 2] = inl q /\ ~ In "z" (scopes p).
Proof. do 2 eexists. repeat split; try reflexivity. intros []. Qed.
Example C42_example :
  go (trace model) [L 1; L 2] = inl (L 6, [("z", L 1); ("x", L 3)]) /\ go (joint_sample model) [L 1; L 2] = inl [("z", L 1); ("x", L 3)] /\
  go (block model ["z"]) [L 1; L 2] = inl (L 6) /\ go (joint_sample (block model ["z"])) [L 1; L 2] = inl [("x", L 3)] /\
  go (intervene (block model ["z"]) [("z", L 10)]) [L 1; L 2] = inl (L 6).
Proof. repeat split; vm_compute; reflexivity. Qed.
Example C42_example_hyps : exists p, model [L 1; L 2] = inl p /\ rv_strict p /\ scopes p = [].
Proof. eexists. split; [reflexivity|]. cbn. tauto. Qed.
Example C43_example :
  go (graph_replace model (inl "z") ["x"]) [L 1; L 2; L 10] = inl [L 12] /\ go (graph_replace model (inr []) ["x"]) [L 1; L 2] = inl [L 3] /\
  go (joint_sample (graph_replace model (inr []) ["x"])) [L 1; L 2] = inl [("z", L 1)] /\ go (graph_replace model (inl "z") ["z"]) [L 1; L 2; L 10] = inr KeyErr.
Proof. repeat split; vm_compute; reflexivity. Qed.
(** observations are passed as keyword arguments: a variable called "f" cannot be intervened on or conditioned on *)
Definition model_f : program tree := fun args => inl (Seq (Pure (fun _ : unit => inl (L 1))) (rv_value "f" A1)).
Theorem C41_name_f_refuted :
  go (joint_sample model_f) [] = inl [("f", L 1)] /\ go (intervene model_f [("f", L 2)]) [] = inr TypeErr /\ go (conditional model_f (inl "f")) [L 2] = inr TypeErr.
Proof. repeat split; vm_compute; reflexivity. Qed.
(** block does not remove the names of scopes *)
Definition scoped : program tree := fun args => inl (Seq (Pure (fun _ : unit => inl (L 1))) (Nest "s" (rv_value "z" A1))).
Theorem C42_block_scope_refuted :
  go (joint_sample scoped) [] = inl [("s", Dict [("z", L 1)])] /\ go (joint_sample (block scoped ["s"])) [] = inl [("s", Dict [("z", L 1)])].
Proof. split; vm_compute; reflexivity. Qed.
(** random_variable of a function with a scan cannot be intervened on: plants of the scope is not a dictionary *)
Definition summed : prog unit tree := Seq (Pure (fun _ : unit => inl (L 0, [1; 2; 3]))) (Seq (Scan false 3 (Pure (fun cx : tree * Z => inl (L (HarvestProps.val (fst cx) + snd cx), tt)))) (Pure (fun x => inl (fst x)))).
Theorem C41_scan_in_function_refuted :
  go (joint_sample (fun _ => inl (rv_function "x" A1 summed))) [] = inl [("x", L 6)] /\ exists e, go (intervene (fun _ => inl (rv_function "x" A1 summed)) [("x", L 9)]) [] = inr e.
Proof. split; [vm_compute; reflexivity|]. eexists. vm_compute. reflexivity. Qed.
(** ... but without a scan it can *)
Definition plus_one : prog unit tree := Seq (Pure (fun _ => inl (L 3))) (step (fun x => x + 1)).
Example C63_example :
  go (joint_sample (fun _ => inl (rv_function "x" A1 plus_one))) [] = inl [("x", L 4)] /\ go (intervene (fun _ => inl (rv_function "x" A1 plus_one)) [("x", L 9)]) [] = inl (L 9) /\ latent plus_one = false.
Proof. repeat split; vm_compute; reflexivity. Qed.
Definition inner : prog unit tree := Seq (Pure (fun _ => inl (L 3))) (rv_value "z" A1).
Example C63_inner_hyps : (exists r, reapT ppl_settings inner [] = inl r) /\ sites2 inner ppl_settings ppl_settings [] = [("z", (Strict, A1))] /\ go (fun _ => inl (rv_function "x" A1 inner)) [] = inl (L 3).
Proof. split; [eexists; reflexivity|]. split; [reflexivity|vm_compute; reflexivity]. Qed.

Print Assumptions C41_intervene.
Print Assumptions C42_block_joint_sample_partial.
Print Assumptions C43_outputs.
Print Assumptions C43_latents.
Print Assumptions C63_inner_variables_refuted.
