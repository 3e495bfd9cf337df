(** C55: optix.chain is a pipeline of modules with private variables. *)
From Verif Require Import Dict HarvestSpec HarvestProofs HarvestProofs2 HarvestProofs3 HarvestProofs4 HarvestProofs5 HarvestProps StateProps StateNestProofs.
From Verif Require Export StateNestModel.
From Coq Require Import DecimalString DecimalNat.

Section stages.
  Context {AR : Arrays}.
  Variable key0 : tree.

  Lemma mute_seen s s' {A B} (p : prog A B) : (forall t n, seen s t n = seen s' t n) -> mute s p -> mute s' p.
  Proof. intros E. induction p; cbn [mute]; try rewrite E; tauto. Qed.
  Lemma mute_nocond s {A B} (p : prog A B) : mute s p -> nocond s p.
  Proof. induction p; cbn [mute nocond]; try tauto. intros -> H. discriminate. Qed.
  Lemma mute_strictp s {A B} (p : prog A B) : mute s p -> strictp s p.
  Proof. induction p; cbn [mute strictp]; try tauto. intros -> H. discriminate. Qed.

  (** ** shapes *)
  Lemma skel_aval t : forall a, has_aval t a = true -> skel_of t = skel_of (zeros a).
  Proof.
    induction t as [v|l IH|l IH] using tree_ind'; intros [w|m|k b]; cbn; try discriminate; try reflexivity.
    intros H. f_equal. rewrite map_map. cbn. revert m H. induction IH as [|[k a] l Hx Hl IHl]; intros [|[k' b] m]; try discriminate; auto.
    rewrite !andb_true_iff. intros [[H1 H2] H3]. apply String.eqb_eq in H1. apply Hx in H2. apply IHl in H3. cbn in *. congruence.
  Qed.
  (** the variables [vs] have the names and shapes recorded in [M] *)
  Definition typed (vs : plants) (M : meta) : Prop := has_aval (Dict vs) (AD (avals_of M)) = true.
  Lemma typed_skel vs M : typed vs M -> skels_of vs = skels_of (zero_vars M).
  Proof.
    intros H. apply skel_aval in H. cbn in H. injection H as H. unfold skels_of, zero_vars. rewrite H. unfold avals_of. rewrite !map_map. reflexivity.
  Qed.
  Lemma typed_nil vs : typed vs [] <-> vs = [].
  Proof. unfold typed. cbn. destruct vs as [|[k t] vs]; split; intros H; auto; discriminate. Qed.
  Lemma typed_cons vs x M : typed vs (x :: M) -> vs <> [].
  Proof. intros H ->. discriminate H. Qed.
  Lemma typed_keys vs M : typed vs M -> dkeys vs = dkeys M.
  Proof.
    unfold typed. cbn. revert vs. induction M as [|[k x] M IH]; intros [|[k' t] vs] H; try discriminate; [reflexivity|].
    cbn in H. rewrite !andb_true_iff in H. destruct H as [[H1 H2] H3]. apply String.eqb_eq in H1. change (k' :: dkeys vs = k :: dkeys M). f_equal; [exact H1|apply IH, H3].
  Qed.
  Lemma cau_program_skel {A B} (f : prog (tree * A) B) vs vs' : skels_of vs = skels_of vs' -> cau_program key0 f vs = cau_program key0 f vs'.
  Proof. unfold cau_program, plant. intros ->. reflexivity. Qed.

  (** functions all of whose variables are declared with the mode strict (the default) or append, outside of nest *)
  Definition plain {A B} (f : prog (tree * A) B) : Prop := strictp var_reap f /\ nonest f.

  Lemma strictp_regular s {A B} (p : prog A B) : strictp s p -> regular s p [].
  Proof. intros H. split; [apply strictp_tame, H|apply no_cond_no_mix, no_clob_no_cond, strictp_sites, H]. Qed.
  Lemma init_typed {A B} (f : prog (tree * A) B) M p' : reapT var_reap f [] = inl (M, p') -> strictp var_reap f ->
    forall fuel k x vs, init_vars fuel f k x = inl vs -> typed vs M.
  Proof.
    intros H Hs fuel k x vs Hi. unfold init_vars in Hi. apply rb_inl in Hi as (r & Hr & Hi). apply rb_inl in Hi as ([b d] & Hd & E). injection E as <-. cbn [snd].
    rewrite (call_and_reap_sem var_reap fuel f r (k, x) Hr (strictp_regular _ f Hs)) in Hd. apply rb_inl in Hd as ([b' o] & Ho & E). cbn [fst snd] in E. injection E as <- <-.
    destruct (strict_eff var_reap fuel f [] _ (k, x) b' o H Hs Ho) as (K1 & _ & K3). apply reapT_meta in H. change (dmerge [] (sites var_reap f [])) with (once (sites var_reap f [])) in H.
    rewrite <- H. rewrite once_nodup_id in H by exact K3. rewrite <- H in K1. clear -K1. unfold typed, collect. apply has_aval_dict. unfold avals_of.
    assert (K : forall l, incl l M -> Forall2 (fun x y => fst x = fst y /\ has_aval (snd x) (snd y) = true)
       (map (fun e => (fst e, match last_eff o (fst e) with Some v => v | None => zeros (snd (snd e)) end)) l) (map (fun e => (fst e, snd (snd e))) l)).
    { induction l as [|[n [m a]] l IH]; intros Hi; cbn; constructor.
      - cbn. split; [reflexivity|]. destruct (K1 n m a) as (v & -> & Hv); [apply Hi; simpl; auto|]. exact Hv.
      - apply IH. intros y Hy. apply Hi. simpl. auto. }
    apply K. intros y Hy. exact Hy.
  Qed.

  (** the harvests of the state library *)
  Definition statef (s : settings) : Prop := s = var_reap \/ s = var_plant \/ s = asg.

  Lemma nonest_reapT s {A B} (p : prog A B) : nonest p -> forall M M' p', reapT s p M = inl (M', p') -> nonest p'.
  Proof.
    induction p as [A B f|A B C p IHp q IHq|A B C p IHp|t n m av|t n av|A B sc p IHp|A B p IHp|C X Y rv len p IHp|C c p IHp|A B p IHp q IHq]; intros Hm M M' p' H; cbn [reapT nonest] in *.
    - injection H as <- <-. exact I.
    - apply rb_inl in H as ([M1 p1] & H1 & H). apply rb_inl in H as ([M2 q1] & H2 & H). injection H as <- <-. destruct Hm. cbn. eauto.
    - apply rb_inl in H as ([M1 p1] & H1 & H). injection H as <- <-. cbn. eauto.
    - destruct (is_cond m); [discriminate|]. destruct (String.eqb t (tag_of s)); [destruct (passes s n)|destruct (exclusive s)]; try (injection H as <- <-; exact I).
      apply rb_inl in H as (M1 & H1 & H). injection H as <- <-. exact I.
    - destruct (String.eqb t (tag_of s)); [destruct (passes s n)|destruct (exclusive s)]; try (injection H as <- <-; exact I).
      apply rb_inl in H as (M1 & H1 & H). injection H as <- <-. exact I.
    - destruct Hm.
    - apply rb_inl in H as ([M1 p1] & H1 & H). apply rb_inl in H as (M2 & H2 & H). injection H as <- <-. cbn. eauto.
    - apply rb_inl in H as ([M1 p1] & H1 & H). cbv zeta in H. destruct (existsb _ _) in H; [discriminate|].
      destruct (is_cond _ && _)%bool in H; [discriminate|]. apply rb_inl in H as (M2 & H2 & H). injection H as <- <-. cbn. eauto 10.
    - apply rb_inl in H as ([M1 p1] & H1 & H). cbv zeta in H. destruct (existsb _ _) in H; [discriminate|].
      apply rb_inl in H as (M2 & H2 & H). injection H as <- <-. cbn. eauto 10.
    - apply rb_inl in H as ([M1 p1] & H1 & H). apply rb_inl in H as ([M2 q1] & H2 & H). apply rb_inl in H as (? & _ & H). apply rb_inl in H as (M3 & H3 & H).
      injection H as <- <-. destruct Hm. cbn. eauto 10.
  Qed.
  Lemma nonest_plantT s {A B} (p : prog A B) : nonest p -> forall sk dn dn' p', plantT s p sk dn = inl (dn', p') -> nonest p'.
  Proof.
    induction p as [A B f|A B C p IHp q IHq|A B C p IHp|t n m av|t n av|A B sc p IHp|A B p IHp|C X Y rv len p IHp|C c p IHp|A B p IHp q IHq]; intros Hm sk dn dn' p' H; cbn [plantT nonest] in *.
    - injection H as <- <-. exact I.
    - apply rb_inl in H as ([M1 p1] & H1 & H). apply rb_inl in H as ([M2 q1] & H2 & H). injection H as <- <-. destruct Hm. cbn. eauto.
    - apply rb_inl in H as ([M1 p1] & H1 & H). injection H as <- <-. cbn. eauto.
    - destruct (is_cond m); [discriminate|]. destruct (String.eqb t (tag_of s)); [destruct (passes s n); [destruct (mem n dn); [discriminate|]; destruct (haskey sk n)|]|destruct (exclusive s)]; injection H as <- <-; cbn; auto.
    - destruct (String.eqb t (tag_of s)); [destruct (passes s n); [destruct (mem n dn); [discriminate|]; destruct (haskey sk n)|]|destruct (exclusive s)]; injection H as <- <-; cbn; auto.
    - destruct Hm.
    - apply rb_inl in H as ([M1 p1] & H1 & H). injection H as <- <-. cbn. eauto.
    - apply rb_inl in H as ([M0 p0] & H0 & H). cbv zeta in H. destruct (existsb _ _) in H; [discriminate|]. apply rb_inl in H as ([M1 p1] & H1 & H). injection H as <- <-. cbn. eauto.
    - apply rb_inl in H as ([M0 p0] & H0 & H). cbv zeta in H. destruct (existsb _ _) in H; [discriminate|]. apply rb_inl in H as ([M1 p1] & H1 & H). injection H as <- <-. cbn. eauto 10.
    - apply rb_inl in H as (r1 & _ & H). apply rb_inl in H as (r2 & _ & H). apply rb_inl in H as (r3 & _ & H). apply rb_inl in H as ([M1 p1] & H1 & H). apply rb_inl in H as ([M2 q1] & H2 & H).
      injection H as <- <-. destruct Hm. cbn. eauto 10.
  Qed.

  (** the staged call_and_update of an inner module shows nothing to the harvests around it *)
  Lemma cau_program_silent {A B} (f : prog (tree * A) B) M r c0 : plain f -> reapT var_reap f [] = inl (M, r) -> cau_program key0 f (zero_vars M) = inl c0 ->
    nonest c0 /\ forall s, statef s -> mute s c0.
  Proof.
    intros [Hp Hn] HM H. unfold cau_program in H. apply rb_inl in H as (q & Hq & H). apply rb_inl in H as (h & Hh & E). injection E as <-.
    unfold plant in Hq. apply rb_inl in Hq as ([dn q'] & Hq & E). injection E as <-. cbn [snd] in Hh.
    assert (Hnq : nonest q') by (eapply nonest_plantT; eassumption).
    assert (Hmv : mute var_plant q').
    { destruct (excl_reapT VARIABLE [] None true false f _ _ _ HM) as (p2 & H2).
      eapply plantT_covered; [reflexivity|exact H2|exact Hp|exact Hn|exact Hq|]. intros n Hin.
      apply reapT_meta in HM. change (dmerge [] (sites var_reap f [])) with (once (sites var_reap f [])) in HM.
      unfold var_plant in Hin. rewrite <- (excl_sites VARIABLE [] None true false f) in Hin. apply once_keys in Hin. change (once (sites var_reap f []) ) with (once (sites var_reap f [])) in Hin.
      fold var_reap in Hin. rewrite <- HM in Hin. unfold skels_of. rewrite (haskey_map (fun kt => skel_of (snd kt))). unfold zero_vars. rewrite (haskey_map (fun e => zeros (snd (snd e)))). apply haskey_In, Hin. }
    unfold harvest in Hh. apply rb_inl in Hh as (g & Hg & Hh). unfold plant in Hg. apply rb_inl in Hg as ([dn2 g'] & Hg & E). injection E as <-. cbn [snd] in Hh.
    unfold call_and_reap in Hh. apply rb_inl in Hh as ([M2 g2] & Hh & E). injection E as <-. cbn [snd].
    split.
    - cbn [nonest]. repeat split; auto. eapply nonest_reapT; [|exact Hh]. eapply nonest_plantT; [|exact Hg]. cbn. auto.
    - assert (Hv : mute var_plant g2). { eapply mute_reapT; [|exact Hh]. eapply mute_plantT; [|exact Hg]. cbn. auto. }
      intros s [-> | [-> | -> ]]; cbn [mute]; repeat split; auto.
      + eapply mute_seen; [|exact Hv]. reflexivity.
      + eapply reapT_mute; [right; reflexivity|exact Hh].
  Qed.
  Lemma reap_silent {A B} (f : prog (tree * A) B) r : plain f -> call_and_reap var_reap f = inl r -> nonest r /\ forall s, mute s r.
  Proof.
    intros [_ Hn] H. unfold call_and_reap in H. apply rb_inl in H as ([M p1] & H & E). injection E as <-. cbn [snd]. split.
    - cbn. repeat split; auto. eapply nonest_reapT; eassumption.
    - intros s. cbn. repeat split; auto. exact (reapT_mute var_reap s f (or_introl eq_refl) _ _ _ H).
  Qed.

  (** ** one stage of a chain *)
  Variable empty_sow : bool.
  Definition ufun_ok {A B} (u : ufun A B) : Prop :=
    match u with Stateful f => plain f | Stateless f => nonest f /\ mute var_plant f /\ mute asg f end.
  (** state.init of a function, by itself *)
  Definition init_u (fuel : nat) {A B} (u : ufun A B) (name : string) (k : tree) (x : A) : res (fmodule A B) :=
    match u with Stateful f => init fuel key0 f (Some name) k x | Stateless f => inl (init_stateless f (Some name)) end.

  Definition some_vars (M : meta) : bool := match M with [] => false | _ => true end.
  Definition sow_sem (sP s : settings) (pd : plants) (t n : string) (b : bool) (M : meta) (vs : plants) : res (plants * list occ) :=
    if b then rb (at_sow sP s pd t n (AD (avals_of M)) (Dict vs) true) (fun vo => match fst vo with Dict ws => inl (ws, snd vo) | _ => inr TypeErr end)
    else inl (vs, []).
  Definition site_if (b : bool) (l : meta) : meta := if b then l else [].
  Record stage {A B} (n : string) (u : ufun A B) (p : prog (tree * A) B) (M : meta) (c0 : prog (plants * A) (B * plants)) (iv : nat -> tree -> A -> res plants) : Prop := {
    st_init : forall fuel k x, init_u fuel u n k x = rb (iv fuel k x) (fun vs => inl (mk_fm vs c0 (Some n)));
    st_typed : forall fuel k x vs, iv fuel k x = inl vs -> typed vs M;
    st_sem : forall sP s, statef sP -> statef s -> forall fuel pd k x, sem2 sP s fuel p pd (k, x) =
      rb (iv fuel k x) (fun vs0 => rb (sow_sem sP s pd VARIABLE n (some_vars M) M vs0) (fun wo =>
        rb (fm_call_and_update fuel (mk_fm (fst wo) c0 (Some n)) x) (fun r =>
          rb (sow_sem sP s pd ASSIGN n (some_vars M || empty_sow) M (fm_vars (snd r))) (fun ao => inl (fst r, snd wo ++ snd ao)))));
    st_sites : forall sP s, statef sP -> statef s -> forall pd, sites2 p sP s pd =
      site_if (some_vars M) (site_here sP s pd VARIABLE n (Strict, AD (avals_of M))) ++
      site_if (some_vars M || empty_sow) (site_here sP s pd ASSIGN n (Clobber, AD (avals_of M)));
    st_nocond : nocond asg p;
    st_plain : strictp var_reap p /\ nonest p
  }.
  Lemma sow_module_sem sP s pd t n md M vs fuel : is_cond md = false ->
    sem2 sP s fuel (sow_module t n md M) pd vs = sow_sem sP s pd t n true M vs.
  Proof.
    intros Hm. unfold sow_module, sow_sem. cbn [sem2 rb fst snd app]. rewrite Hm. destruct (at_sow _ _ _ _ _ _ _ _) as [[v o]|e]; [|reflexivity]. cbn [rb fst snd].
    destruct v; cbn [rb]; try reflexivity. rewrite app_nil_r. reflexivity.
  Qed.
  Lemma rb_id {A} (r : res A) : rb r (fun x => inl x) = r.
  Proof. destruct r; reflexivity. Qed.
  Lemma dunder_sem {A B} n M (c : prog (plants * A) (B * plants)) sP s fuel pd ws x : sem2 sP s fuel c pd (ws, x) = rb (run fuel c (ws, x)) (fun b => inl (b, [])) ->
    sem2 sP s fuel (dunder_call empty_sow n M c) pd (ws, x) =
      rb (run fuel c (ws, x)) (fun r => rb (sow_sem sP s pd ASSIGN n (some_vars M || empty_sow) M (snd r)) (fun ao => inl (fst r, snd ao))).
  Proof.
    intros E.
    assert (K : sem2 sP s fuel (Seq c (assign_module n M)) pd (ws, x) =
      rb (run fuel c (ws, x)) (fun r => rb (sow_sem sP s pd ASSIGN n true M (snd r)) (fun ao => inl (fst r, snd ao)))).
    { cbn [sem2]. rewrite E, rb_assoc. apply rb_ext. intros [b ws']. unfold assign_module. cbn [rb fst snd app].
      rewrite <- (sow_module_sem sP s pd ASSIGN n Clobber M ws' fuel eq_refl).
      change (sem2 sP s fuel (Seq (Pure (fun x0 : B * plants => inl (snd x0, fst x0))) (Seq (First B (sow_module ASSIGN n Clobber M)) (Pure (fun x0 => inl (snd x0))))) pd (b, ws'))
        with (rb (rb (rb (sem2 sP s fuel (sow_module ASSIGN n Clobber M) pd ws') (fun r => inl ((fst r, b), snd r))) (fun r => rb (inl (snd (fst r), [] : list occ)) (fun r' => inl (fst r', snd r ++ snd r')))) (fun r' => inl (fst r', [] ++ snd r'))).
      rewrite !rb_assoc. apply rb_ext. intros [v o]. cbn [rb fst snd app]. rewrite app_nil_r. reflexivity. }
    unfold dunder_call. destruct M as [|e M].
    - cbn [some_vars orb]. destruct empty_sow; [exact K|]. cbn [sem2]. rewrite E, rb_assoc. apply rb_ext. intros [b ws']. reflexivity.
    - exact K.
  Qed.
  Lemma cau_in_run {A B} (c0 : prog (plants * A) (B * plants)) n fuel ws x :
    run fuel (Seq (Pure (fun x : plants * A => inl (x, fst x))) (Seq (First plants c0)
        (Pure (fun x : (B * plants) * plants =>
           if forallb (haskey (snd x)) (dkeys (snd (fst x))) then inl (fst (fst x), dmerge (snd x) (snd (fst x))) else inr ValueErr)))) (ws, x) =
    rb (fm_call_and_update fuel (mk_fm ws c0 (Some n)) x) (fun r => inl (fst r, fm_vars (snd r))).
  Proof.
    cbn [run rb fst snd]. unfold fm_call_and_update. cbn [fm_vars fm_cau]. rewrite !rb_assoc. apply rb_ext. intros [b d]. cbn [rb fst snd].
    destruct (forallb _ _); reflexivity.
  Qed.
  Lemma sow_module_sites sP s pd t n md M : sites2 (sow_module t n md M) sP s pd = site_here sP s pd t n (md, AD (avals_of M)).
  Proof. unfold sow_module. cbn [sites2 app]. rewrite app_nil_r. reflexivity. Qed.
  Lemma dunder_sites {A B} n M (c : prog (plants * A) (B * plants)) sP s pd : mute s c -> sites2 (dunder_call empty_sow n M c) sP s pd =
    site_if (some_vars M || empty_sow) (site_here sP s pd ASSIGN n (Clobber, AD (avals_of M))).
  Proof.
    intros Hm.
    assert (K : sites2 (Seq c (assign_module n M : prog (B * plants) B)) sP s pd = site_here sP s pd ASSIGN n (Clobber, AD (avals_of M))).
    { cbn [sites2]. rewrite (mute_sites sP s c Hm). unfold assign_module. cbn [sites2 app]. rewrite app_nil_r. apply sow_module_sites. }
    unfold dunder_call. destruct M as [|e M]; [|exact K]. cbn [some_vars orb]. destruct empty_sow; [exact K|]. cbn [sites2 site_if]. rewrite (mute_sites sP s c Hm). reflexivity.
  Qed.
  Lemma dunder_misc {A B} n M (c : prog (plants * A) (B * plants)) : mute asg c -> mute var_reap c -> nonest c ->
    nocond asg (dunder_call empty_sow n M c) /\ strictp var_reap (dunder_call empty_sow n M c) /\ nonest (dunder_call empty_sow n M c).
  Proof.
    intros H1 H2 H3. apply mute_nocond in H1. apply mute_strictp in H2. unfold dunder_call, assign_module, sow_module.
    destruct M as [|e M]; [destruct empty_sow|]; cbn [nocond strictp nonest]; repeat split; auto; discriminate.
  Qed.
  Lemma silent2 sP s fuel {A B} (p : prog A B) pd a : mute sP p -> mute s p -> sem2 sP s fuel p pd a = rb (run fuel p a) (fun b => inl (b, [])).
  Proof. intros; apply silent_sem; assumption. Qed.
  Lemma dmerge_nil_r {X} (l : list (string * X)) : dmerge l [] = l.
  Proof. reflexivity. Qed.

  Theorem stage_of {A B} n (u : ufun A B) p : init_and_call key0 empty_sow n u = inl p -> ufun_ok u -> exists M c0 iv, stage n u p M c0 iv.
  Proof.
    destruct u as [f|f]; cbn [init_and_call ufun_ok]; intros H Hok.
    - apply rb_inl in H as ([M ri] & Hi & H). apply rb_inl in H as (c & Hc & H). injection H as <-. cbn [fst snd] in *.
      unfold init_in in Hi. apply rb_inl in Hi as ([M0 r0] & HM & Hi). cbn [fst snd] in Hi. apply rb_inl in Hi as (r & Hr & Hi). injection Hi as -> Hri.
      unfold cau_in in Hc. apply rb_inl in Hc as (c0 & Hc0 & Hc). injection Hc as <-.
      destruct (cau_program_silent f M r0 c0 Hok HM Hc0) as [Hnc Hmc]. destruct (reap_silent f r Hok Hr) as [Hnr Hmr].
      pose proof (init_typed f M r0 HM (proj1 Hok)) as Hty.
      exists M, c0, (fun fuel k x => init_vars fuel f k x). constructor.
      + intros fuel k x. cbn [init_u]. unfold init. destruct (init_vars fuel f k x) as [vs|e] eqn:Ev; [|reflexivity]. cbn [rb].
        rewrite (cau_program_skel f vs (zero_vars M) (typed_skel _ _ (Hty _ _ _ _ Ev))), Hc0. reflexivity.
      + exact Hty.
      + intros sP s HsP Hs fuel pd k x. set (c := Seq _ (Seq (First plants c0) _)). cbn [sem2 rb fst snd app].
        assert (Ei : sem2 sP s fuel ri pd (k, x) = rb (init_vars fuel f k x) (fun vs0 => sow_sem sP s pd VARIABLE n (some_vars M) M vs0)).
        { assert (Er : sem2 sP s fuel (Seq r (Pure (fun bd : B * plants => inl (snd bd)))) pd (k, x) = rb (init_vars fuel f k x) (fun vs => inl (vs, []))).
          { rewrite (silent2 sP s fuel _ pd (k, x)); [|cbn; auto|cbn; auto]. unfold init_vars. rewrite Hr. reflexivity. }
          rewrite <- Hri. cbn [sem2 rb fst snd]. cbn [sem2 rb fst snd] in Er. rewrite Er, rb_assoc. apply rb_ext. intros vs. cbn [rb fst snd app].
          destruct M as [|e M']; [reflexivity|]. rewrite sow_module_sem by reflexivity. cbn [some_vars]. destruct (sow_sem _ _ _ _ _ _ _ _) as [[? ?]|?]; reflexivity. }
        rewrite Ei, !rb_assoc. apply rb_ext. intros vs0. apply rb_ext. intros [ws o]. cbn [rb fst snd].
        rewrite (dunder_sem n M c sP s fuel pd ws x).
        * unfold c. rewrite (cau_in_run c0 n), !rb_assoc. apply rb_ext. intros [b m']. cbn [rb fst snd]. rewrite !rb_assoc. apply rb_ext. intros [w' o']. reflexivity.
        * apply silent2; unfold c; cbn; repeat split; auto.
      + intros sP s HsP Hs pd. cbn [sites2 app]. f_equal.
        * rewrite <- Hri. cbn [sites2 app]. rewrite (mute_sites sP s r (Hmr s)). cbn [app]. destruct M as [|e M']; [reflexivity|]. apply sow_module_sites.
        * apply dunder_sites. cbn. repeat split; auto.
      + cbn [nocond]. split; [exact I|]. split.
        * rewrite <- Hri. cbn [nocond]. split; [split; [apply mute_nocond, Hmr|exact I]|]. destruct M as [|e M']; [exact I|]. unfold sow_module. cbn. repeat split; auto; discriminate.
        * apply dunder_misc; cbn; repeat split; auto; apply Hmc; unfold statef; auto.
      + destruct (dunder_misc n M (Seq (Pure (fun x : plants * A => inl (x, fst x))) (Seq (First plants c0)
        (Pure (fun x : (B * plants) * plants =>
           if forallb (haskey (snd x)) (dkeys (snd (fst x))) then inl (fst (fst x), dmerge (snd x) (snd (fst x))) else inr ValueErr))))) as (_ & K1 & K2); [cbn; repeat split; auto; apply Hmc; unfold statef; auto..|].
        cbn [strictp nonest]. rewrite <- Hri. split; (split; [exact I|]); (split; [|assumption]); cbn [strictp nonest].
        * split; [split; [apply mute_strictp, Hmr|exact I]|]. destruct M as [|e M']; [exact I|]. unfold sow_module. cbn. repeat split; auto.
        * split; [auto|]. destruct M as [|e M']; [exact I|]. unfold sow_module. cbn. repeat split; auto.
    - destruct Hok as (Hn & Hv & Ha). assert (Hm : forall s, statef s -> mute s f).
      { intros s [-> | [-> | -> ]]; auto. eapply mute_seen; [|exact Hv]. reflexivity. }
      injection H as <-. set (c0 := Seq (Pure (fun x : plants * A => inl (snd x, fst x))) (First plants f)).
      assert (Hmc : forall s, statef s -> mute s c0) by (intros s Hs; unfold c0; cbn; auto).
      exists [], c0, (fun _ _ _ => inl []). constructor.
      + reflexivity.
      + intros fuel k x vs E. injection E as <-. reflexivity.
      + intros sP s HsP Hs fuel pd k x. cbn [sem2 rb fst snd app]. pose proof (dunder_sem n [] c0 sP s fuel pd [] x) as Ed. unfold dunder_call in Ed. rewrite Ed; clear Ed.
        * cbn [sow_sem some_vars rb fst snd app]. unfold fm_call_and_update. cbn [fm_vars fm_cau]. rewrite !rb_assoc.
          assert (Er : run fuel c0 ([], x) = rb (run fuel f x) (fun b => inl (b, []))) by reflexivity.
          rewrite Er, !rb_assoc. apply rb_ext. intros b. cbn [rb fst snd forallb dkeys map fm_replace fm_vars]. rewrite !rb_assoc. apply rb_ext. intros [v o]. reflexivity.
        * apply silent2; auto.
      + intros sP s HsP Hs pd. cbn [sites2 app some_vars site_if]. apply (dunder_sites n [] c0 sP s pd). auto.
      + cbn [nocond]. split; [exact I|]. apply (dunder_misc n [] c0); [apply Hmc; unfold statef; auto..|]. unfold c0; cbn; auto.
      + destruct (dunder_misc n [] c0) as (_ & K1 & K2); [apply Hmc; unfold statef; auto..|unfold c0; cbn; auto|]. cbn. auto.
  Qed.
End stages.

(** ** C55 *)
Section chain.
  Context {AR : Arrays}.
  Variables (key0 : tree) (empty_sow : bool) (split : tree -> nat -> list tree) (U P : Type).
  (** *** specification: a list of independent modules, each fed with the output of the previous one *)
  Fixpoint pipe_step (fuel : nat) (ms : list (fmodule (U * P) U)) (u : U) (pr : P) : res (U * list (fmodule (U * P) U)) :=
    match ms with
    | [] => inl (u, [])
    | m :: ms' => rb (fm_call_and_update fuel m (u, pr)) (fun r => rb (pipe_step fuel ms' (fst r) pr) (fun r' => inl (fst r', snd r :: snd r')))
    end.
  Fixpoint pipe_outputs (fuel : nat) (ms : list (fmodule (U * P) U)) (xs : list (U * P)) : res (list U * list (fmodule (U * P) U)) :=
    match xs with
    | [] => inl ([], ms)
    | x :: xs' => rb (pipe_step fuel ms (fst x) (snd x)) (fun r => rb (pipe_outputs fuel (snd r) xs') (fun r' => inl (fst r :: fst r', snd r')))
    end.
  (** each module is initialised by itself, with its own key, on the updates that reach it *)
  Fixpoint pipe_init (fuel : nat) (us : list (string * ufun (U * P) U)) (ks : list tree) (u : U) (pr : P) : res (list (fmodule (U * P) U)) :=
    match us, ks with
    | [], _ => inl []
    | (n, f) :: us', k :: ks' => rb (init_u key0 fuel f n k (u, pr)) (fun m => rb (fm_call_and_update fuel m (u, pr)) (fun r =>
        rb (pipe_init fuel us' ks' (fst r) pr) (fun ms => inl (m :: ms))))
    | _, [] => inr TypeErr
    end.
  (** the variables of the chain: one dictionary per module that has variables, under the module's name *)
  Definition pack1 (b : bool) (m : fmodule (U * P) U) : plants :=
    match fm_name m with Some n => match fm_vars m with [] => if b then [(n, Dict [])] else [] | vs => [(n, Dict vs)] end | None => [] end.
  Definition pack (ms : list (fmodule (U * P) U)) : plants := flat_map (pack1 false) ms.

  (** *** proof *)
  Definition sdata := (string * meta * prog (plants * (U * P)) (U * plants))%type.
  Definition glue (p : prog (tree * (U * P)) U) (q : prog (list tree * (U * P)) U) : prog (list tree * (U * P)) U :=
    Seq (Pure (fun x : list tree * (U * P) => match fst x with k :: ks => inl ((k, snd x), (ks, snd (snd x))) | [] => inr TypeErr end))
      (Seq (First (list tree * P) p)
        (Seq (Pure (fun y : U * (list tree * P) => inl (fst (snd y), (fst y, snd (snd y))))) q)).
  Inductive chain_ok : list (string * ufun (U * P) U) -> prog (list tree * (U * P)) U -> list sdata -> Prop :=
  | ck_nil : chain_ok [] (Pure (fun x => inl (fst (snd x)))) []
  | ck_cons n u us p q M c0 iv ds : stage key0 empty_sow n u p M c0 iv -> chain_ok us q ds -> chain_ok ((n, u) :: us) (glue p q) ((n, M, c0) :: ds).
  Lemma chain_body_ok us : forall q, chain_body key0 empty_sow us = inl q -> Forall (fun nu => ufun_ok (snd nu)) us -> exists ds, chain_ok us q ds.
  Proof.
    induction us as [|[n u] us IH]; intros q H Hok; cbn [chain_body] in H.
    - injection H as <-. eexists; constructor.
    - apply rb_inl in H as (p & Hp & H). apply rb_inl in H as (q' & Hq & H). injection H as <-. inversion_clear Hok as [|? ? Hu Hus].
      destruct (stage_of key0 empty_sow n u p Hp Hu) as (M & c0 & iv & Hs). destruct (IH q' Hq Hus) as (ds & Hd). exists ((n, M, c0) :: ds). econstructor; eassumption.
  Qed.
  Definition fits_stage (d : sdata) (m : fmodule (U * P) U) : Prop :=
    m = mk_fm (fm_vars m) (snd d) (Some (fst (fst d))) /\ typed (fm_vars m) (snd (fst d)).
  Definition occs (l : plants) : list occ := map (fun e => (fst e, (snd e, true))) l.
  Definition dsites (md : mode) (b : bool) (ds : list sdata) : meta :=
    flat_map (fun d => site_if (some_vars (snd (fst d)) || b) [(fst (fst d), (md, AD (avals_of (snd (fst d)))))]) ds.
  Definition packs (b : bool) (ms : list (fmodule (U * P) U)) : plants := flat_map (pack1 b) ms.

  Lemma pack1_stage b n M c0 vs : typed vs M -> pack1 b (mk_fm vs c0 (Some n)) = if (some_vars M || b)%bool then [(n, Dict vs)] else [].
  Proof.
    intros Ht. unfold pack1. cbn [fm_name fm_vars]. destruct M as [|e M].
    - apply typed_nil in Ht as ->. destruct b; reflexivity.
    - apply typed_cons in Ht. destruct vs; [contradiction|reflexivity].
  Qed.
  Lemma glue_sem sP s fuel p q pd k ks u pr : sem2 sP s fuel (glue p q) pd (k :: ks, (u, pr)) =
    rb (sem2 sP s fuel p pd (k, (u, pr))) (fun r => rb (sem2 sP s fuel q pd (ks, (fst r, pr))) (fun r' => inl (fst r', snd r ++ snd r'))).
  Proof.
    unfold glue. cbn [sem2 rb fst snd app]. rewrite !rb_assoc. apply rb_ext. intros [b o]. cbn [rb fst snd app]. rewrite !rb_assoc.
    apply rb_ext. intros [b' o']. reflexivity.
  Qed.
  Lemma glue_nil_sem sP s fuel p q pd x : sem2 sP s fuel (glue p q) pd ([], x) = inr TypeErr.
  Proof. reflexivity. Qed.
  Lemma chain_sites_var us q ds : chain_ok us q ds -> sites var_reap q [] = dsites Strict false ds.
  Proof.
    induction 1 as [|n u us p q M c0 iv ds Hs Hd IH]; [reflexivity|]. unfold glue. cbn [sites2 app dsites flat_map fst snd]. rewrite IH.
    rewrite (st_sites _ _ _ _ _ _ _ _ Hs) by (unfold statef; auto). f_equal. rewrite !site_here_nil. cbn. rewrite app_nil_r || idtac. destruct (some_vars M), empty_sow; reflexivity.
  Qed.
  Lemma chain_sites_asg us q ds pd : chain_ok us q ds -> sites2 q var_plant asg pd = dsites Clobber empty_sow ds.
  Proof.
    induction 1 as [|n u us p q M c0 iv ds Hs Hd IH]; [reflexivity|]. unfold glue. cbn [sites2 app dsites flat_map fst snd]. rewrite IH.
    rewrite (st_sites _ _ _ _ _ _ _ _ Hs) by (unfold statef; auto). f_equal. unfold site_here. cbn. destruct (some_vars M), empty_sow; reflexivity.
  Qed.
  Lemma chain_misc us q ds : chain_ok us q ds -> nocond asg q /\ strictp var_reap q /\ nonest q.
  Proof.
    induction 1 as [|n u us p q M c0 iv ds Hs Hd IH]; [cbn; auto|]. destruct Hs as [_ _ _ _ H1 [H2 H3]]. unfold glue. cbn. tauto.
  Qed.
  Lemma chain_reap us q ds : chain_ok us q ds -> forall fuel ks u pr b o, sem2 var_reap var_reap fuel q [] (ks, (u, pr)) = inl (b, o) ->
    exists ms, pipe_init fuel us ks u pr = inl ms /\ o = occs (pack ms) /\ Forall2 fits_stage ds ms.
  Proof.
    induction 1 as [|n f us p q M c0 iv ds Hs Hd IH]; intros fuel ks u pr b o H.
    - cbn in H. injection H as <- <-. exists []. repeat split; constructor.
    - destruct ks as [|k ks]; [rewrite glue_nil_sem in H; discriminate|]. rewrite glue_sem in H. apply rb_inl in H as ([b1 o1] & H1 & H). apply rb_inl in H as ([b2 o2] & H2 & H).
      injection H as <- <-. cbn [fst snd] in *. apply IH in H2 as (ms & E & -> & Hms).
      rewrite (st_sem _ _ _ _ _ _ _ _ Hs) in H1 by (unfold statef; auto). apply rb_inl in H1 as (vs0 & Hv & H1). apply rb_inl in H1 as ([ws o'] & Hw & H1). apply rb_inl in H1 as ([y m'] & Hc & H1). apply rb_inl in H1 as ([w2 o2] & Ha & H1).
      injection H1 as <- <-. cbn [fst snd] in *. pose proof (st_typed _ _ _ _ _ _ _ _ Hs _ _ _ _ Hv) as Ht.
      assert (Ew : ws = vs0 /\ o' = occs (pack1 false (mk_fm vs0 c0 (Some n)))).
      { rewrite (pack1_stage false n M c0 vs0 Ht), orb_false_r. unfold sow_sem in Hw. destruct (some_vars M); [|injection Hw as <- <-; auto]. apply rb_inl in Hw as ([v o''] & Hw & E'). unfold at_sow, chk in Hw. unfold typed in Ht. rewrite Ht in Hw.
        cbn in Hw. injection Hw as <- <-. injection E' as <- <-. auto. }
      destruct Ew as [-> ->].
      assert (Ea : o2 = []).
      { unfold sow_sem in Ha. destruct (some_vars M || empty_sow)%bool; [|injection Ha as <- <-; auto]. apply rb_inl in Ha as ([v o''] & Ha & E'). unfold at_sow in Ha. apply rb_inl in Ha as (v' & _ & Ha). cbn in Ha. injection Ha as <- <-. destruct v'; try discriminate. injection E' as _ <-. reflexivity. }
      subst o2. exists (mk_fm vs0 c0 (Some n) :: ms). cbn [pipe_init]. rewrite (st_init _ _ _ _ _ _ _ _ Hs), Hv. cbn [rb]. rewrite Hc. cbn [rb fst snd]. rewrite E. split; [reflexivity|]. split.
      + cbn [pack flat_map]. unfold occs. rewrite map_app, app_nil_r. reflexivity.
      + constructor; [|exact Hms]. split; [reflexivity|exact Ht].
  Qed.
  Lemma chain_step_sound us q ds : chain_ok us q ds -> forall fuel ms pd ks u pr b o, Forall2 fits_stage ds ms -> (forall n t, In (n, t) (pack ms) -> dget pd n = Some t) ->
    sem2 var_plant asg fuel q pd (ks, (u, pr)) = inl (b, o) ->
    exists ms', pipe_step fuel ms u pr = inl (b, ms') /\ o = occs (packs empty_sow ms') /\ Forall2 fits_stage ds ms'.
  Proof.
    induction 1 as [|n f us p q M c0 iv ds Hs Hd IH]; intros fuel ms pd ks u pr b o Hf Hpd H.
    - inversion Hf; subst. cbn in H. injection H as <- <-. exists []. repeat split; constructor.
    - inversion Hf as [|? m ? ms1 [Em Hm] Hms]; subst. cbn [fst snd] in Em, Hm.
      destruct ks as [|k ks]; [rewrite glue_nil_sem in H; discriminate|]. rewrite glue_sem in H. apply rb_inl in H as ([b1 o1] & H1 & H). apply rb_inl in H as ([b2 o2] & H2 & H).
      injection H as <- <-. cbn [fst snd] in *. apply (IH fuel ms1) in H2 as (ms' & E & -> & Hms'); [|exact Hms|intros n' t Hin; apply Hpd; cbn; apply in_or_app; auto].
      rewrite (st_sem _ _ _ _ _ _ _ _ Hs) in H1 by (unfold statef; auto). apply rb_inl in H1 as (vs0 & Hv & H1). apply rb_inl in H1 as ([ws o'] & Hw & H1). apply rb_inl in H1 as ([y m'] & Hc & H1). apply rb_inl in H1 as ([w2 o2] & Ha & H1).
      injection H1 as <- <-. cbn [fst snd] in *. pose proof (st_typed _ _ _ _ _ _ _ _ Hs _ _ _ _ Hv) as Ht.
      assert (Ew : ws = fm_vars m /\ o' = []).
      { unfold sow_sem in Hw. pose proof (pack1_stage false n M c0 (fm_vars m) Hm) as Ep. rewrite <- Em in Ep. destruct M as [|e M]; cbn [some_vars orb] in *.
        - injection Hw as <- <-. apply typed_nil in Ht. apply typed_nil in Hm. subst. auto.
        - apply rb_inl in Hw as ([v o''] & Hw & E'). unfold at_sow in Hw. apply rb_inl in Hw as (v' & _ & Hw). cbn [andb] in Hw. change (seen var_plant VARIABLE n) with true in Hw.
          assert (Eg : dget pd n = Some (Dict (fm_vars m))) by (apply Hpd; cbn [pack flat_map]; rewrite Ep; simpl; auto). unfold haskey, planted in Hw. rewrite Eg in Hw. cbn [andb] in Hw.
          unfold chk in Hw. unfold typed in Hm. rewrite Hm in Hw. injection Hw as <- <-. injection E' as <- <-. auto. }
      destruct Ew as [-> ->]. rewrite <- Em in Hc.
      assert (Ea : o2 = occs (pack1 empty_sow m') /\ fits_stage (n, M, c0) m').
      { assert (Em' : m' = mk_fm (fm_vars m') c0 (Some n)).
        { rewrite Em in Hc. unfold fm_call_and_update in Hc. apply rb_inl in Hc as ([y' d] & _ & Hc). destruct (forallb _ _); [|discriminate]. injection Hc as _ <-. reflexivity. }
        unfold sow_sem in Ha. destruct (some_vars M || empty_sow)%bool eqn:Eb.
        - apply rb_inl in Ha as ([v o''] & Ha & E'). unfold at_sow, chk in Ha. destruct (has_aval _ _) eqn:Ev; [|discriminate]. cbn in Ha. injection Ha as <- <-. injection E' as <- <-.
          split; [|split; [exact Em'|exact Ev]]. rewrite Em', (pack1_stage empty_sow n M c0 (fm_vars m') Ev), Eb. reflexivity.
        - injection Ha as <- <-. apply orb_false_iff in Eb as [Eb1 Eb2]. destruct M; [|discriminate]. assert (Hm' : typed (fm_vars m') []).
          { apply typed_nil. apply typed_nil in Hm. apply C45_variable_set in Hc as [Hk _]. rewrite Hm in Hk. destruct (fm_vars m'); [reflexivity|discriminate]. }
          split; [|split; [exact Em'|exact Hm']]. rewrite Em', (pack1_stage empty_sow n [] c0 (fm_vars m') Hm'), Eb2. reflexivity. }
      destruct Ea as [-> Hm']. exists (m' :: ms'). cbn [pipe_step]. rewrite Hc. cbn [rb fst snd]. rewrite E. split; [reflexivity|]. split; [|constructor; assumption].
      cbn [packs flat_map]. unfold occs. rewrite map_app. reflexivity.
  Qed.
  (** shapes *)
  Definition same_shapes (vs vs' : plants) : Prop := zeros_like (Dict vs) = zeros_like (Dict vs').
  Lemma zeros_like_inv t : forall a, zeros_like t = zeros a -> has_aval t a = true.
  Proof.
    induction t as [v|l IH|l IH] using tree_ind'; intros [w|m|k b]; cbn; try discriminate.
    - intros H. injection H as H. apply av_eqb_spec. rewrite <- (aval_zero w), <- H, aval_zero. reflexivity.
    - intros H. injection H as H. revert m H. induction IH as [|[k a] l Hx Hl IHl]; intros [|[k' b] m] H; try discriminate; auto. cbn in H. injection H as -> H1 H2. rewrite String.eqb_refl. cbn in Hx. rewrite (Hx _ H1). cbn. apply IHl, H2.
    - intros H. injection H as H. revert k H. induction IH as [|x l Hx Hl IHl]; intros [|k] H; try discriminate; [reflexivity|]. cbn in H. injection H as H1 H2. specialize (IHl _ H2). cbn. rewrite (Hx _ H1). cbn. exact IHl.
  Qed.
  Lemma typed_same vs vs' M : same_shapes vs' vs -> typed vs M -> typed vs' M.
  Proof. intros E H. apply zeros_like_inv. unfold same_shapes in E. rewrite E. apply zeros_like_aval, H. Qed.
  Lemma same_typed vs vs' M : typed vs M -> typed vs' M -> same_shapes vs' vs.
  Proof. intros H H'. unfold same_shapes. rewrite (zeros_like_aval _ _ H), (zeros_like_aval _ _ H'). reflexivity. Qed.

  (** on updates that satisfy [ok], calls keep the shapes of the variables and return such updates, and initialisation does not fail *)
  Definition stable (ok : U -> Prop) (fuel : nat) (us : list (string * ufun (U * P) U)) : Prop :=
    forall n f, In (n, f) us -> forall k x0 m0 vs x y m', init_u key0 fuel f n k x0 = inl m0 -> same_shapes vs (fm_vars m0) -> ok (fst x0) -> ok (fst x) ->
      fm_call_and_update fuel (fm_replace m0 vs) x = inl (y, m') -> same_shapes (fm_vars m') (fm_vars m0) /\ ok y.
  Definition inits (ok : U -> Prop) (fuel : nat) (us : list (string * ufun (U * P) U)) : Prop :=
    forall n f, In (n, f) us -> forall k x, ok (fst x) -> exists m, init_u key0 fuel f n k x = inl m.
  Lemma stage_keeps ok n f us p M c0 iv fuel m u pr y m' : stage key0 empty_sow n f p M c0 iv -> In (n, f) us -> inits ok fuel us -> stable ok fuel us -> ok u ->
    fits_stage (n, M, c0) m -> fm_call_and_update fuel m (u, pr) = inl (y, m') -> fits_stage (n, M, c0) m' /\ ok y.
  Proof.
    intros Hs Hin Hi Hst Hu [Em Hm] Hc. cbn [fst snd] in Em, Hm.
    destruct (Hi n f Hin key0 (u, pr) Hu) as (mi & Emi). pose proof Emi as Emi'. rewrite (st_init _ _ _ _ _ _ _ _ Hs) in Emi'. apply rb_inl in Emi' as (vs0 & Hv & E). injection E as <-.
    pose proof (st_typed _ _ _ _ _ _ _ _ Hs _ _ _ _ Hv) as Ht. rewrite Em in Hc. pose proof (Hst n f Hin key0 (u, pr) _ (fm_vars m) (u, pr) y m' Emi (same_typed _ _ _ Ht Hm) Hu Hu Hc) as [K Ky]. cbn [fm_vars] in K.
    split; [|exact Ky]. split; [|exact (typed_same _ _ _ K Ht)]. unfold fm_call_and_update in Hc. apply rb_inl in Hc as ([y' d] & _ & Hc). destruct (forallb _ _); [|discriminate]. injection Hc as _ <-. reflexivity.
  Qed.

  Lemma chain_reap_complete ok us q ds : chain_ok us q ds -> forall fuel ks u pr ms, inits ok fuel us -> stable ok fuel us -> ok u -> pipe_init fuel us ks u pr = inl ms ->
    exists b, sem2 var_reap var_reap fuel q [] (ks, (u, pr)) = inl (b, occs (pack ms)).
  Proof.
    induction 1 as [|n f us p q M c0 iv ds Hs Hd IH]; intros fuel ks u pr ms Hi Hst Hou H.
    - cbn in H. injection H as <-. exists u. reflexivity.
    - destruct ks as [|k ks]; [discriminate|]. cbn [pipe_init] in H. apply rb_inl in H as (m & Hm & H). apply rb_inl in H as ([y m'] & Hc & H). apply rb_inl in H as (ms1 & H1 & E). injection E as <-. cbn [fst snd] in *.
      rewrite (st_init _ _ _ _ _ _ _ _ Hs) in Hm. apply rb_inl in Hm as (vs0 & Hv & E). injection E as <-. pose proof (st_typed _ _ _ _ _ _ _ _ Hs _ _ _ _ Hv) as Ht.
      destruct (stage_keeps ok n f ((n, f) :: us) p M c0 iv fuel (mk_fm vs0 c0 (Some n)) u pr y m' Hs (or_introl eq_refl) Hi Hst Hou (conj eq_refl Ht) Hc) as [[Em' Ht'] Hoy]. cbn [fst snd] in Em', Ht'.
      destruct (IH fuel ks y pr ms1) as (b & Hb); [intros n' f' Hin; apply Hi; simpl; auto|intros n' f' Hin; apply (Hst n' f'); simpl; auto|exact Hoy|exact H1|]. exists b.
      rewrite glue_sem, (st_sem _ _ _ _ _ _ _ _ Hs), Hv by (unfold statef; auto). cbn [rb].
      assert (Ew : sow_sem var_reap var_reap [] VARIABLE n (some_vars M) M vs0 = inl (vs0, occs (pack1 false (mk_fm vs0 c0 (Some n))))).
      { rewrite (pack1_stage false n M c0 vs0 Ht), orb_false_r. unfold sow_sem. destruct (some_vars M); [|reflexivity]. unfold at_sow, chk. unfold typed in Ht. rewrite Ht. reflexivity. }
      assert (Ea : sow_sem var_reap var_reap [] ASSIGN n (some_vars M || empty_sow) M (fm_vars m') = inl (fm_vars m', [])).
      { unfold sow_sem. destruct (some_vars M || empty_sow)%bool; [|reflexivity]. unfold at_sow, chk. unfold typed in Ht'. rewrite Ht'. reflexivity. }
      rewrite Ew. cbn [rb fst snd]. rewrite Hc. cbn [rb fst snd]. rewrite Ea. cbn [rb fst snd]. rewrite Hb. cbn [rb fst snd pack flat_map]. unfold occs. rewrite map_app, app_nil_r. reflexivity.
  Qed.
  Lemma chain_step_complete ok us q ds : chain_ok us q ds -> forall fuel ms pd ks u pr b ms', Forall2 fits_stage ds ms -> (forall n t, In (n, t) (pack ms) -> dget pd n = Some t) ->
    (List.length us <= List.length ks)%nat -> inits ok fuel us -> stable ok fuel us -> ok u ->
    pipe_step fuel ms u pr = inl (b, ms') -> Forall2 fits_stage ds ms' ->
    sem2 var_plant asg fuel q pd (ks, (u, pr)) = inl (b, occs (packs empty_sow ms')).
  Proof.
    induction 1 as [|n f us p q M c0 iv ds Hs Hd IH]; intros fuel ms pd ks u pr b ms' Hf Hpd Hl Hi Hst Hou H Hf'.
    - inversion Hf; subst. cbn in H. injection H as <- <-. reflexivity.
    - inversion Hf as [|? m ? ms1 [Em Hm] Hms]; subst. inversion Hf' as [|? m' ? ms1' [Em' Hm'] Hms']; subst. cbn [fst snd] in Em, Hm, Em', Hm'.
      destruct ks as [|k ks]; [cbn in Hl; lia|]. cbn [pipe_step] in H. apply rb_inl in H as ([y m0] & Hc & H). apply rb_inl in H as ([y1 ms0] & Hc' & H). injection H as <- E1 E2. cbn [fst snd] in *. subst m0 ms0.
      rewrite glue_sem, (st_sem _ _ _ _ _ _ _ _ Hs) by (unfold statef; auto).
      destruct (Hi n f (or_introl eq_refl) k (u, pr) Hou) as (mi & Emi). rewrite (st_init _ _ _ _ _ _ _ _ Hs) in Emi. apply rb_inl in Emi as (vs0 & Hv & _). rewrite Hv. cbn [rb].
      pose proof (st_typed _ _ _ _ _ _ _ _ Hs _ _ _ _ Hv) as Ht.
      assert (Ew : sow_sem var_plant asg pd VARIABLE n (some_vars M) M vs0 = inl (fm_vars m, [])).
      { unfold sow_sem. pose proof (pack1_stage false n M c0 (fm_vars m) Hm) as Ep. rewrite <- Em in Ep. destruct M as [|e M]; cbn [some_vars orb] in *.
        - apply typed_nil in Ht. apply typed_nil in Hm. subst vs0. rewrite Hm. reflexivity.
        - assert (Eg : dget pd n = Some (Dict (fm_vars m))) by (apply Hpd; cbn [pack flat_map]; rewrite Ep; simpl; auto).
          unfold at_sow, chk. unfold typed in Ht. rewrite Ht. cbn [rb]. change (seen var_plant VARIABLE n) with true. unfold haskey, planted. rewrite Eg. cbn [andb]. unfold chk. unfold typed in Hm. rewrite Hm. reflexivity. }
      rewrite Ew. cbn [rb fst snd]. rewrite <- Em, Hc. cbn [rb fst snd].
      pose proof (stage_keeps ok n f ((n, f) :: us) p M c0 iv fuel m u pr y m' Hs (or_introl eq_refl) Hi Hst Hou (conj Em Hm) Hc) as [_ Hoy].
      assert (Ea : sow_sem var_plant asg pd ASSIGN n (some_vars M || empty_sow) M (fm_vars m') = inl (fm_vars m', occs (pack1 empty_sow m'))).
      { pose proof (pack1_stage empty_sow n M c0 (fm_vars m') Hm') as Ep. rewrite <- Em' in Ep. rewrite Ep. unfold sow_sem. destruct (some_vars M || empty_sow)%bool; [|reflexivity].
        unfold at_sow, chk. unfold typed in Hm'. rewrite Hm'. cbn. reflexivity. }
      rewrite Ea. cbn [rb fst snd]. rewrite (IH fuel ms1 pd ks y pr y1 ms1'); [|exact Hms|intros n' t Hin; apply Hpd; cbn; apply in_or_app; auto|cbn in Hl; lia|intros n' f' Hin; apply Hi; simpl; auto|intros n' f' Hin; apply (Hst n' f'); simpl; auto|exact Hoy|exact Hc'|exact Hms'].
      cbn [rb fst snd packs flat_map app]. unfold occs. rewrite map_app. reflexivity.
  Qed.

  Lemma dmerge_same_keys {X} (b : list (string * X)) : forall a, dkeys a = dkeys b -> NoDup (dkeys b) -> dmerge a b = b.
  Proof.
    assert (K : forall (b a : list (string * X)) k v, ~ In k (dkeys b) -> dmerge ((k, v) :: a) b = (k, v) :: dmerge a b).
    { clear b. induction b as [|[k' v'] b IH]; intros a k v Hn; [reflexivity|]. change (dmerge (dset ((k, v) :: a) k' v') b = (k, v) :: dmerge (dset a k' v') b).
      cbn [dset]. destruct (String.eqb_spec k' k) as [->|Hk]; [exfalso; apply Hn; simpl; auto|]. apply IH. intros Hi. apply Hn. simpl. auto. }
    induction b as [|[k v] b IH]; intros a E Hn; [destruct a; [reflexivity|discriminate]|]. destruct a as [|[k' v'] a]; [discriminate|]. cbn in E. injection E as -> E.
    inversion_clear Hn as [|? ? Hk Hb]. change (dmerge (dset ((k, v') :: a) k v) b = (k, v) :: b). cbn [dset]. rewrite String.eqb_refl, K by exact Hk. f_equal. apply IH; assumption.
  Qed.
  Lemma collect_occs (b : plants) (M : meta) : dkeys M = dkeys b -> NoDup (dkeys b) -> collect M (occs b) = b.
  Proof.
    intros E Hn. unfold collect.
    assert (L : forall b : plants, NoDup (dkeys b) -> forall n t, In (n, t) b -> last_eff (occs b) n = Some t).
    { clear. intros b Hn n t Hin. unfold last_eff. assert (Knot : forall b acc, ~ In n (dkeys b) -> fold_left (fun acc e => if (String.eqb (fst e) n && snd (snd e))%bool then Some (fst (snd e)) else acc) (occs b) acc = acc).
      { clear. induction b as [|[k v] b IH]; intros acc H; [reflexivity|]. cbn. destruct (String.eqb_spec k n) as [->|Hk]; [exfalso; apply H; simpl; auto|]. apply IH. intros Hi. apply H. simpl. auto. }
      generalize (@None tree). induction b as [|[k v] b IH]; intros acc; [destruct Hin|]. inversion_clear Hn as [|? ? Hk Hb]. cbn [occs map fold_left fst snd]. destruct Hin as [Hin|Hin].
      - injection Hin as -> ->. rewrite String.eqb_refl. cbn [andb]. apply Knot, Hk.
      - apply IH; assumption. }
    specialize (L b Hn). revert E L. generalize (occs b). intros o. revert b Hn. induction M as [|[k [m a]] M IH]; intros [|[k' t] b] Hn E L; try discriminate; [reflexivity|].
    cbn in E. injection E as -> E. inversion_clear Hn as [|? ? Hk Hb]. cbn [map fst]. rewrite (L k' t) by (simpl; auto). f_equal. apply IH; [exact Hb|exact E|]. intros n' t' Hi. apply L. simpl. auto.
  Qed.
  Lemma dsites_keys md b ds : forall ms, Forall2 fits_stage ds ms -> dkeys (dsites md b ds) = dkeys (packs b ms).
  Proof.
    induction 1 as [|[[n M] c0] m ds ms [Em Hm] Hms IH]; [reflexivity|]. cbn [dsites packs flat_map fst snd]. unfold dkeys. rewrite !map_app. f_equal; [|exact IH].
    cbn [fst snd] in Em, Hm. rewrite Em, (pack1_stage b n M c0 _ Hm). destruct (_ || _)%bool; reflexivity.
  Qed.
  Lemma pack_skels ds ms ms' : Forall2 fits_stage ds ms -> Forall2 fits_stage ds ms' -> skels_of (pack ms) = skels_of (pack ms').
  Proof.
    assert (K : forall ms, Forall2 fits_stage ds ms -> skels_of (pack ms) = skels_of (flat_map (fun d : sdata => if some_vars (snd (fst d)) then [(fst (fst d), Dict (zero_vars (snd (fst d))))] else []) ds)).
    { clear. induction 1 as [|[[n M] c0] m ds ms [Em Hm] Hms IH]; [reflexivity|]. cbn [pack flat_map fst snd]. unfold skels_of in *. rewrite !map_app. f_equal; [|exact IH].
      cbn [fst snd] in Em, Hm. rewrite Em, (pack1_stage false n M c0 _ Hm), orb_false_r. destruct (some_vars M); [|reflexivity]. cbn. apply typed_skel in Hm. unfold skels_of in Hm. rewrite Hm. reflexivity. }
    intros H H'. rewrite (K ms H), (K ms' H'). reflexivity.
  Qed.
  Lemma packs_pack ds ms ms' : Forall2 fits_stage ds ms -> Forall2 fits_stage ds ms' -> (empty_sow = true -> Forall (fun m => fm_vars m <> []) ms) -> packs empty_sow ms' = pack ms'.
  Proof.
    intros H H' He. destruct empty_sow; [|reflexivity]. specialize (He eq_refl). clear -H H' He. revert ms' H'. induction H as [|[[n M] c0] m ds ms [Em Hm] Hms IH]; intros ms' H'; inversion H' as [|? m' ? ms1 [Em' Hm'] Hms']; subst; [reflexivity|].
    inversion_clear He as [|? ? H1 H2]. cbn [packs pack flat_map]. f_equal; [|apply IH; assumption]. cbn [fst snd] in *. rewrite Em', !(pack1_stage _ n M c0 _ Hm'). destruct M; [|reflexivity]. apply typed_nil in Hm. contradiction.
  Qed.

  Lemma pipe_step_fits ok us q ds : chain_ok us q ds -> forall fuel ms u pr b ms', inits ok fuel us -> stable ok fuel us -> ok u -> Forall2 fits_stage ds ms -> pipe_step fuel ms u pr = inl (b, ms') -> Forall2 fits_stage ds ms' /\ ok b.
  Proof.
    induction 1 as [|n f us p q M c0 iv ds Hs Hd IH]; intros fuel ms u pr b ms' Hi Hst Hou Hf H.
    - inversion Hf; subst. cbn in H. injection H as <- <-. split; [constructor|exact Hou].
    - inversion Hf as [|? m ? ms1 Hm Hms]; subst. cbn [pipe_step] in H. apply rb_inl in H as ([y m0] & Hc & H). apply rb_inl in H as ([y1 ms0] & Hc' & H). injection H as <- <-. cbn [fst snd] in *.
      destruct (stage_keeps ok n f ((n, f) :: us) p M c0 iv fuel m u pr y m0 Hs (or_introl eq_refl) Hi Hst Hou Hm Hc) as [K Ky].
      destruct (IH fuel ms1 y pr y1 ms0) as [K1 K2]; [intros n' f' Hin; apply Hi; simpl; auto|intros n' f' Hin; apply (Hst n' f'); simpl; auto|exact Ky|exact Hms|exact Hc'|]. split; [constructor; assumption|exact K2].
  Qed.

  Lemma chain_step us f q ds name key x0 m fuel0 ms0 : chain_of key0 empty_sow split us = inl f -> chain_body key0 empty_sow us = inl q -> chain_ok us q ds ->
    init fuel0 key0 f name key x0 = inl m -> Forall2 fits_stage ds ms0 -> fm_vars m = pack ms0 -> NoDup (dkeys (pack ms0)) ->
    (empty_sow = true -> Forall (fun m => fm_vars m <> []) ms0) -> forall fuel ms x, Forall2 fits_stage ds ms ->
    (forall y m', fm_call_and_update fuel (fm_replace m (pack ms)) x = inl (y, m') ->
       exists ms', pipe_step fuel ms (fst x) (snd x) = inl (y, ms') /\ m' = fm_replace m (pack ms') /\ Forall2 fits_stage ds ms') /\
    (forall ok y ms', List.length us = List.length (split key0 (List.length us)) -> inits ok fuel us -> stable ok fuel us -> ok (fst x) -> pipe_step fuel ms (fst x) (snd x) = inl (y, ms') ->
       fm_call_and_update fuel (fm_replace m (pack ms)) x = inl (y, fm_replace m (pack ms')) /\ Forall2 fits_stage ds ms').
  Proof.
    intros Hf Hq Hok Hinit Hf0 Hv0 Hnd He fuel ms [u pr] Hms. cbn [fst snd].
    unfold chain_of in Hf. rewrite Hq in Hf. cbn [rb] in Hf. injection Hf as <-.
    set (f := Seq (Pure (fun kx : tree * (U * P) => inl (split (fst kx) (Datatypes.length us), snd kx))) q) in *.
    destruct (chain_misc us q ds Hok) as (Hnc & Hsp & _).
    assert (Hncf : nocond asg f) by (unfold f; cbn; auto).
    assert (Hfit : fits (skels_of (fm_vars m)) (pack ms)) by (rewrite Hv0, (pack_skels ds ms0 ms Hf0 Hms); apply fits_skels_of).
    rewrite (C45_call_and_update_partial _ _ f key0 name key x0 fuel0 m Hinit fuel (pack ms) (u, pr) Hfit Hncf).
    assert (Ea : dkeys (sites2 f var_plant asg (pack ms)) = dkeys (pack ms)).
    { unfold f. cbn [sites2 app]. rewrite (chain_sites_asg us q ds (pack ms) Hok), (dsites_keys Clobber empty_sow ds ms Hms), (packs_pack ds ms0 ms Hf0 Hms He). reflexivity. }
    assert (Ek : forall ms1, Forall2 fits_stage ds ms1 -> dkeys (pack ms1) = dkeys (pack ms0)).
    { intros ms1 H1. change (dkeys (packs false ms1) = dkeys (packs false ms0)). rewrite <- (dsites_keys Strict false ds ms1 H1), <- (dsites_keys Strict false ds ms0 Hf0). reflexivity. }
    assert (Eo : assigned f (pack ms) = sites2 f var_plant asg (pack ms)) by (unfold assigned; apply once_nodup_id; rewrite Ea, (Ek ms Hms); exact Hnd).
    assert (Ef : forallb (fun n => mem n (dkeys (pack ms))) (dkeys (assigned f (pack ms))) = true).
    { rewrite Eo, Ea. apply forallb_forall. intros n Hn. apply mem_In, Hn. }
    rewrite Ef. unfold exec. unfold f at 1 3. cbn [sem2 rb fst snd app].
    assert (Hpd : forall n t, In (n, t) (pack ms) -> dget (pack ms) n = Some t) by (intros n t; apply NoDup_In_dget; rewrite (Ek ms Hms); exact Hnd).
    assert (Em : forall ms', Forall2 fits_stage ds ms' -> dmerge (pack ms) (collect (assigned f (pack ms)) (occs (packs empty_sow ms'))) = pack ms').
    { intros ms' Hms'. rewrite (packs_pack ds ms0 ms' Hf0 Hms' He), Eo, collect_occs.
      - apply dmerge_same_keys; [rewrite (Ek ms Hms), (Ek ms' Hms'); reflexivity|rewrite (Ek ms' Hms'); exact Hnd].
      - rewrite Ea, (Ek ms Hms), (Ek ms' Hms'). reflexivity.
      - rewrite (Ek ms' Hms'). exact Hnd. }
    split.
    - intros y m' H. apply rb_inl in H as ([b o] & H1 & H). cbn [fst snd] in H. injection H as <- <-. apply rb_inl in H1 as ([b1 o1] & H1 & E). cbn [fst snd] in E. injection E as <- <-.
      destruct (chain_step_sound us q ds Hok fuel ms (pack ms) _ u pr b1 o1 Hms Hpd H1) as (ms' & Hp & -> & Hms'). exists ms'. split; [exact Hp|]. split; [|exact Hms']. rewrite (Em ms' Hms'). reflexivity.
    - intros ok y ms' Hl Hi Hst Hou Hp. pose proof (proj1 (pipe_step_fits ok us q ds Hok fuel ms u pr y ms' Hi Hst Hou Hms Hp)) as Hms'. split; [|exact Hms'].
      rewrite (chain_step_complete ok us q ds Hok fuel ms (pack ms) _ u pr y ms' Hms Hpd) by (try assumption; lia). cbn [rb fst snd]. rewrite (Em ms' Hms'). reflexivity.
  Qed.

  (** C55: a chain is a pipeline of modules: its variables are those of the modules, each initialised by itself with its own
      key on the updates that reach it, stored under the modules' names (initialisation fails if two of them have
      variables and share a name); over any sequence of calls its outputs and variables are those of the pipeline, in
      which no module can see the variables of another.  [empty_sow]: with the current JAX, all modules must have
      variables, see C55_stateless_stage_raises.
      Not covered (partial): functions that declare variables inside of nest. *)
  Theorem C55_chain_partial us f : chain_of key0 empty_sow split us = inl f -> Forall (fun nu => ufun_ok (snd nu)) us ->
    forall fuel0 name key x0 m, init fuel0 key0 f name key x0 = inl m ->
    exists ms, pipe_init fuel0 us (split key (List.length us)) (fst x0) (snd x0) = inl ms /\ fm_vars m = pack ms /\ NoDup (dkeys (pack ms)) /\
      ((empty_sow = true -> Forall (fun m => fm_vars m <> []) ms) -> forall fuel xs,
        (forall ys m', outputs fuel m xs = inl (ys, m') -> exists ms', pipe_outputs fuel ms xs = inl (ys, ms') /\ m' = fm_replace m (pack ms')) /\
        (forall ok ys ms', List.length us = List.length (split key0 (List.length us)) -> inits ok fuel us -> stable ok fuel us -> Forall (fun x => ok (fst x)) xs ->
           pipe_outputs fuel ms xs = inl (ys, ms') -> outputs fuel m xs = inl (ys, fm_replace m (pack ms')))).
  Proof.
    intros Hf Hu fuel0 name key x0 m Hinit. pose proof Hf as Hf1. unfold chain_of in Hf1. apply rb_inl in Hf1 as (q & Hq & E). injection E as E.
    destruct (chain_body_ok us q Hq Hu) as (ds & Hok). destruct (chain_misc us q ds Hok) as (Hnc & Hsp & _).
    pose proof Hinit as Hi. apply init_cau in Hi as (_ & _ & Hv). unfold init_vars in Hv. apply rb_inl in Hv as (r & Hr & Hv). apply rb_inl in Hv as ([b d] & Hd & Ed). cbn [snd] in Ed. injection Ed as ->.
    assert (Hspf : strictp var_reap f) by (rewrite <- E; cbn; auto).
    pose proof Hr as Hr0. unfold call_and_reap in Hr0. apply rb_inl in Hr0 as (rp & Hrp & _).
    rewrite (call_and_reap_sem var_reap fuel0 f r (key, x0) Hr (strictp_regular _ f Hspf)) in Hd. apply rb_inl in Hd as ([b' o] & Ho & Ed). cbn [fst snd] in Ed. injection Ed as <- Ed.
    destruct (strict_eff var_reap fuel0 f [] rp (key, x0) b' o Hrp Hspf Ho) as (_ & _ & Hnd).
    rewrite once_nodup_id in Ed by exact Hnd. rewrite <- E in Ho, Ed, Hnd. cbn [sem2 sites2 rb fst snd app] in Ho, Ed, Hnd. apply rb_inl in Ho as ([b1 o1] & Ho & E1). cbn [fst snd] in E1. injection E1 as <- <-.
    rewrite (surjective_pairing x0) in Ho. destruct (chain_reap us q ds Hok fuel0 _ _ _ _ _ Ho) as (ms & Hp & -> & Hms). exists ms. split; [exact Hp|].
    rewrite (chain_sites_var us q ds Hok) in Ed, Hnd. pose proof (dsites_keys Strict false ds ms Hms) as Ek. change (packs false ms) with (pack ms) in Ek. rewrite Ek in Hnd.
    rewrite (collect_occs (pack ms) _ Ek Hnd) in Ed. symmetry in Ed. split; [exact Ed|]. split; [exact Hnd|]. intros He fuel.
    pose proof (chain_step us f q ds name key x0 m fuel0 ms Hf Hq Hok Hinit Hms Ed Hnd He fuel) as Hstep.
    assert (Em : m = fm_replace m (pack ms)) by (destruct m; cbn in *; subst; reflexivity). rewrite Em.
    assert (K : forall ms1 vs, fm_replace (fm_replace m vs) (pack ms1) = fm_replace m (pack ms1)) by reflexivity.
    intros xs. split.
    - revert Hms. clear -Hstep. generalize ms. induction xs as [|x xs IH]; intros ms1 Hms1 ys m' H; cbn [outputs pipe_outputs] in *.
      + injection H as <- <-. eauto.
      + apply rb_inl in H as ([y m1] & H1 & H). cbn [snd] in H. apply rb_inl in H as ([ys' m2] & H2 & H). injection H as <- <-. cbn [fst snd] in *.
        apply (proj1 (Hstep ms1 x Hms1)) in H1 as (ms2 & -> & -> & Hms2). cbn [rb fst snd].
        destruct (IH ms2 Hms2 ys' m2 H2) as (ms3 & -> & ->). cbn [rb fst snd]. eauto.
    - intros ok ys ms' Hl Hi Hst Hxs.
      assert (K' : forall xs ms1 ys ms', Forall (fun x => ok (fst x)) xs -> Forall2 fits_stage ds ms1 -> pipe_outputs fuel ms1 xs = inl (ys, ms') -> outputs fuel (fm_replace m (pack ms1)) xs = inl (ys, fm_replace m (pack ms'))).
      { clear -Hstep Hl Hi Hst. induction xs as [|x xs IH]; intros ms1 ys ms' Hxs Hms1 H; cbn [outputs pipe_outputs] in *.
        - injection H as <- <-. reflexivity.
        - apply rb_inl in H as ([y ms2] & H1 & H). cbn [snd] in H. apply rb_inl in H as ([ys' ms3] & H2 & H). cbn [fst snd] in *. injection H as <- <-. inversion_clear Hxs as [|? ? Hx1 Hx2].
          apply (proj2 (Hstep ms1 x Hms1) ok) in H1 as (E1 & Hms2); [|assumption..]. rewrite E1. cbn [rb fst snd]. rewrite (IH ms2 ys' ms3 Hx2 Hms2 H2). reflexivity. }
      intros H. exact (K' xs ms ys ms' Hxs Hms H).
  Qed.

  (** conversely a chain initialises if the pipeline does and the names differ.  [call_and_reap] and [cau_program] are the
      staging of the chain, which does not depend on values. *)
  Theorem C55_chain_initialises us f : chain_of key0 empty_sow split us = inl f -> Forall (fun nu => ufun_ok (snd nu)) us ->
    (exists r, call_and_reap var_reap f = inl r) ->
    forall ok fuel0 name key x0 ms, inits ok fuel0 us -> stable ok fuel0 us -> ok (fst x0) ->
      pipe_init fuel0 us (split key (List.length us)) (fst x0) (snd x0) = inl ms -> (exists c, cau_program key0 f (pack ms) = inl c) ->
      exists m, init fuel0 key0 f name key x0 = inl m /\ fm_vars m = pack ms.
  Proof.
    intros Hf Hu [r Hr] ok fuel0 name key [u pr] ms Hi Hst Hou Hp [c Hk]. cbn [fst snd] in *. pose proof Hf as Hf1. unfold chain_of in Hf1. apply rb_inl in Hf1 as (q & Hq & E). injection E as E.
    destruct (chain_body_ok us q Hq Hu) as (ds & Hok). destruct (chain_misc us q ds Hok) as (Hnc & Hsp & _).
    assert (Hspf : strictp var_reap f) by (rewrite <- E; cbn; auto).
    pose proof Hr as Hr0. unfold call_and_reap in Hr0. apply rb_inl in Hr0 as (rp & Hrp & _).
    destruct (chain_reap_complete ok us q ds Hok fuel0 _ u pr ms Hi Hst Hou Hp) as (b & Hb).
    assert (Ho : sem var_reap fuel0 f [] (key, (u, pr)) = inl (b, occs (pack ms))) by (rewrite <- E; cbn [sem2 rb fst snd app]; unfold sem in *; rewrite Hb; reflexivity).
    destruct (strict_eff var_reap fuel0 f [] rp _ b _ Hrp Hspf Ho) as (_ & _ & Hnd).
    destruct (chain_reap us q ds Hok fuel0 _ _ _ _ _ Hb) as (ms' & Hp' & _ & Hms). rewrite Hp in Hp'. injection Hp' as <-.
    assert (Ed : collect (once (sites var_reap f [])) (occs (pack ms)) = pack ms).
    { rewrite once_nodup_id by exact Hnd. rewrite <- E in Hnd |- *. cbn [sites2 app] in Hnd |- *. rewrite (chain_sites_var us q ds Hok) in Hnd |- *. pose proof (dsites_keys Strict false ds ms Hms) as Ek. change (packs false ms) with (pack ms) in Ek. rewrite Ek in Hnd.
      apply collect_occs; assumption. }
    unfold init, init_vars. rewrite Hr. cbn [rb]. rewrite (call_and_reap_sem var_reap fuel0 f r (key, (u, pr)) Hr (strictp_regular _ f Hspf)), Ho. cbn [rb fst snd]. rewrite Ed, Hk. cbn [rb]. eauto.
  Qed.

  (** a chain is itself a function that a chain accepts *)
  Theorem C55_chains_nest (us : list (string * ufun (U * P) U)) f : chain_of key0 empty_sow split us = inl f -> Forall (fun nu => ufun_ok (snd nu)) us -> ufun_ok (Stateful f).
  Proof.
    intros Hf Hu. unfold chain_of in Hf. apply rb_inl in Hf as (q & Hq & E). injection E as <-.
    destruct (chain_body_ok us q Hq Hu) as (ds & Hok). destruct (chain_misc us q ds Hok) as (_ & H1 & H2). split; cbn; auto.
  Qed.
  (** ... but with the current JAX every call of a chain one of whose functions has no init_key fails: Module.__call__
      assigns the module under its name, though function_init has declared no variable for it *)
  Theorem C55_stateless_stage_raises (us : list (string * ufun (U * P) U)) f : chain_of key0 empty_sow split us = inl f -> Forall (fun nu => ufun_ok (snd nu)) us -> empty_sow = true ->
    forall fuel0 name key x0 m n g, init fuel0 key0 f name key x0 = inl m -> In (n, Stateless g) us -> ~ In n (dkeys (fm_vars m)) ->
    forall fuel x, exists e, fm_call_and_update fuel m x = inr e.
  Proof.
    intros Hf Hu He fuel0 name key x0 m n g Hi Hin Hn fuel x. unfold chain_of in Hf. apply rb_inl in Hf as (q & Hq & E). injection E as E.
    destruct (chain_body_ok us q Hq Hu) as (ds & Hok). destruct (chain_misc us q ds Hok) as (H0 & H1 & H2).
    assert (Hnc : nocond asg f) by (rewrite <- E; cbn; auto).
    destruct (C45_undeclared_assign_raises _ _ f key0 name key x0 fuel0 m Hi fuel (fm_vars m) x n (fits_skels_of _) Hnc) as (e & He'); [|exact Hn|].
    - rewrite <- E. cbn [sites2 app]. rewrite (chain_sites_asg us q ds _ Hok), He. revert Hin. clear -Hok.
      induction Hok as [|n' u us p q M c0 iv ds Hs Hd IH]; intros Hin; [destruct Hin|]. unfold dsites. cbn [flat_map fst snd]. rewrite orb_true_r. cbn [site_if]. unfold dkeys. rewrite map_app. destruct Hin as [Hin|Hin].
      + injection Hin as -> _. simpl. auto.
      + apply in_or_app. right. apply IH, Hin.
    - exists e. destruct m. exact He'.
  Qed.
End chain.

(** the positional names are distinct *)
Lemma update_name_inj i j : update_name i = update_name j -> i = j.
Proof.
  unfold update_name. intros H. cbn in H. repeat (injection H as H || fail). 
  apply (f_equal NilEmpty.uint_of_string) in H. rewrite !NilEmpty.usu in H. injection H as H. apply Unsigned.to_uint_inj, H.
Qed.
Lemma map_fst_combine {X Y} (l : list X) : forall (l' : list Y), List.length l = List.length l' -> map fst (combine l l') = l.
Proof. induction l as [|x l IH]; intros [|y l'] H; try discriminate; [reflexivity|]. cbn. f_equal. apply IH. injection H as H. exact H. Qed.
Theorem C55_positional_names {X} (l : list X) : NoDup (dkeys (positional l)).
Proof.
  unfold positional, dkeys. rewrite map_fst_combine by (rewrite map_length, seq_length; reflexivity).
  apply FinFun.Injective_map_NoDup; [intros i j; apply update_name_inj|apply seq_NoDup].
Qed.

(** ** Concrete cases *)
(** two counters with the same variable name, def count(u, p, init_key): c = variable(init_key, 'c'); assign(c + u, 'c'); return c,
    and a function without a variable *)
Open Scope Z_scope.
Definition ex_count : prog (tree * (Z * unit)) Z :=
  Seq (Pure (fun kx : tree * (Z * unit) => inl (fst kx, fst (snd kx))))
   (Seq (First Z (variable "c" A1))
    (Seq (Pure (fun cu : tree * Z => inl (L (HarvestProps.val (fst cu) + snd cu), fst cu)))
     (Seq (First tree (assign "c" A1)) (Pure (fun x : tree * tree => inl (HarvestProps.val (snd x))))))).
Definition ex_scale : prog (Z * unit) Z := Pure (fun up => inl (10 * fst up)).
Definition ex_split (k : tree) (n : nat) : list tree := map (fun i => L (100 * HarvestProps.val k + Z.of_nat i)) (seq 0 n).
Example ex_ok : ufun_ok (Stateful ex_count) /\ ufun_ok (Stateless ex_scale).
Proof. cbn. unfold plain. cbn. repeat split; auto; intros; try reflexivity; discriminate. Qed.
Definition ex_chain (es : bool) (args : list (ufun (Z * unit) Z)) kwargs (k : tree) (xs : list (Z * unit)) :=
  rb (chain (L 0) es ex_split args kwargs) (fun f => rb (init 10 (L 0) f None k (0, tt)) (fun m =>
    rb (outputs 10 m xs) (fun r => inl (fm_vars m, fst r, fm_vars (snd r))))).
Lemma C55_example :
  ex_chain true [Stateful ex_count; Stateful ex_count] [] (L 1) [(5, tt); (5, tt); (5, tt)] =
    inl ([("update_0", Dict [("c", L 100)]); ("update_1", Dict [("c", L 101)])], [101; 201; 306],
         [("update_0", Dict [("c", L 115)]); ("update_1", Dict [("c", L 416)])]) /\
  ex_chain false [Stateful ex_count; Stateless ex_scale] [("k", Stateful ex_count)] (L 1) [(5, tt); (5, tt)] =
    inl ([("update_0", Dict [("c", L 100)]); ("k", Dict [("c", L 102)])], [102; 1102], [("update_0", Dict [("c", L 110)]); ("k", Dict [("c", L 2152)])]) /\
  ex_chain true [Stateful ex_count; Stateless ex_scale] [] (L 1) [(5, tt)] = inr ValueErr /\
  ex_chain true [Stateful ex_count] [("update_0", Stateful ex_count)] (L 1) [] = inr ValueErr.
Proof. repeat split; vm_compute; reflexivity. Qed.
Print Assumptions C55_chain_partial.
Print Assumptions C55_stateless_stage_raises.
Print Assumptions C55_positional_names.
