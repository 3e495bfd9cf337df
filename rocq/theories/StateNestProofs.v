(** Sub-programs left silent by a harvest; nested modules. *)
From Verif Require Import Dict HarvestSpec HarvestProofs HarvestProofs2 HarvestProofs3 HarvestProofs4 HarvestProofs5 HarvestProps StateProps.
From Verif Require Export StateNestModel.

Section silent.
  Context {AR : Arrays}.
  (** the transformations for one tag introduce no sows of another *)
  Lemma mute_reapT s s1 {A B} (p : prog A B) : mute s p -> forall M M' p', reapT s1 p M = inl (M', p') -> mute s p'.
  Proof.
    induction p as [A B f|A B C p IHp q IHq|A B C p IHp|t n m av|t n av|A B sc p IHp|A B p IHp|C X Y rv len p IHp|C c p IHp|A B p IHp q IHq]; intros Hm M M' p' H; cbn [reapT mute] in *.
    - injection H as <- <-. exact I.
    - apply rb_inl in H as ([M1 p1] & H1 & H). apply rb_inl in H as ([M2 q1] & H2 & H). injection H as <- <-. destruct Hm. cbn. eauto.
    - apply rb_inl in H as ([M1 p1] & H1 & H). injection H as <- <-. cbn. eauto.
    - destruct (is_cond m); [discriminate|]. destruct (String.eqb t (tag_of s1)); [destruct (passes s1 n)|destruct (exclusive s1)]; try (injection H as <- <-; first [exact I|exact Hm]).
      apply rb_inl in H as (M1 & H1 & H). injection H as <- <-. exact I.
    - destruct (String.eqb t (tag_of s1)); [destruct (passes s1 n)|destruct (exclusive s1)]; try (injection H as <- <-; first [exact I|exact Hm]).
      apply rb_inl in H as (M1 & H1 & H). injection H as <- <-. exact I.
    - apply rb_inl in H as ([M1 p1] & H1 & H). apply rb_inl in H as (M2 & H2 & H). injection H as <- <-. cbn. eauto.
    - apply rb_inl in H as ([M1 p1] & H1 & H). apply rb_inl in H as (M2 & H2 & H). injection H as <- <-. cbn. eauto.
    - apply rb_inl in H as ([M1 p1] & H1 & H). cbv zeta in H. destruct (existsb _ _) in H; [discriminate|].
      destruct (is_cond _ && _)%bool in H; [discriminate|]. apply rb_inl in H as (M2 & H2 & H). injection H as <- <-. cbn. eauto 10.
    - apply rb_inl in H as ([M1 p1] & H1 & H). cbv zeta in H. destruct (existsb _ _) in H; [discriminate|].
      apply rb_inl in H as (M2 & H2 & H). injection H as <- <-. cbn. eauto 10.
    - apply rb_inl in H as ([M1 p1] & H1 & H). apply rb_inl in H as ([M2 q1] & H2 & H). apply rb_inl in H as (? & _ & H). apply rb_inl in H as (M3 & H3 & H).
      injection H as <- <-. destruct Hm. cbn. eauto 10.
  Qed.
  Lemma mute_plantT s s1 {A B} (p : prog A B) : mute s p -> forall sk dn dn' p', plantT s1 p sk dn = inl (dn', p') -> mute s p'.
  Proof.
    induction p as [A B f|A B C p IHp q IHq|A B C p IHp|t n m av|t n av|A B sc p IHp|A B p IHp|C X Y rv len p IHp|C c p IHp|A B p IHp q IHq]; intros Hm sk dn dn' p' H; cbn [plantT mute] in *.
    - injection H as <- <-. exact I.
    - apply rb_inl in H as ([M1 p1] & H1 & H). apply rb_inl in H as ([M2 q1] & H2 & H). injection H as <- <-. destruct Hm. cbn. eauto.
    - apply rb_inl in H as ([M1 p1] & H1 & H). injection H as <- <-. cbn. eauto.
    - destruct (is_cond m); [discriminate|]. destruct (String.eqb t (tag_of s1)); [destruct (passes s1 n); [destruct (mem n dn); [discriminate|]; destruct (haskey sk n)|]|destruct (exclusive s1)]; injection H as <- <-; cbn; auto.
    - destruct (String.eqb t (tag_of s1)); [destruct (passes s1 n); [destruct (mem n dn); [discriminate|]; destruct (haskey sk n)|]|destruct (exclusive s1)]; injection H as <- <-; cbn; auto.
    - apply rb_inl in H as (sk' & H0 & H). apply rb_inl in H as ([M1 p1] & H1 & H). injection H as <- <-. cbn. eauto.
    - apply rb_inl in H as ([M1 p1] & H1 & H). injection H as <- <-. cbn. eauto.
    - apply rb_inl in H as ([M0 p0] & H0 & H). cbv zeta in H. destruct (existsb _ _) in H; [discriminate|]. apply rb_inl in H as ([M1 p1] & H1 & H). injection H as <- <-. cbn. eauto.
    - apply rb_inl in H as ([M0 p0] & H0 & H). cbv zeta in H. destruct (existsb _ _) in H; [discriminate|]. apply rb_inl in H as ([M1 p1] & H1 & H). injection H as <- <-. cbn. eauto 10.
    - apply rb_inl in H as (r1 & _ & H). apply rb_inl in H as (r2 & _ & H). apply rb_inl in H as (r3 & _ & H). apply rb_inl in H as ([M1 p1] & H1 & H). apply rb_inl in H as ([M2 q1] & H2 & H).
      injection H as <- <-. destruct Hm. cbn. eauto 10.
  Qed.
  Lemma mute_sites_pd sP s {A B} (p : prog A B) : mute sP p -> forall pd, sites2 p sP s pd = sites2 p sP s [].
  Proof.
    induction p as [A B f|A B C p IHp q IHq|A B C p IHp|t n m av|t n av|A B sc p IHp|A B p IHp|C X Y rv len p IHp|C c p IHp|A B p IHp q IHq]; cbn [mute sites2]; intros HP pd; auto.
    - destruct HP. rewrite IHp, IHq by assumption. reflexivity.
    - unfold site_here. rewrite HP. reflexivity.
    - unfold site_here. rewrite HP. reflexivity.
    - rewrite (IHp HP (sub pd sc)), (IHp HP (sub [] sc)). reflexivity.
    - rewrite (IHp HP pd). reflexivity.
    - cbv zeta. match goal with |- clobbers (once (sites2 p sP s ?x)) ++ _ = clobbers (once (sites2 p sP s ?y)) ++ _ => rewrite (IHp HP x), (IHp HP y) end. reflexivity.
    - rewrite (IHp HP pd). reflexivity.
    - destruct HP as [H1 H2]. rewrite (IHp H1 pd). reflexivity.
  Qed.
  (** executing a program none of whose sows is seen *)
  Lemma silent_sem sP s fuel {A B} (p : prog A B) : mute sP p -> mute s p -> forall pd a,
    sem2 sP s fuel p pd a = rb (run fuel p a) (fun b => inl (b, [])).
  Proof.
    intros HP Hs pd a.
    assert (E : sem2 sP s fuel p pd a = sem2 sP s fuel p [] a).
    { clear Hs. revert pd a. induction p as [A B f|A B C p IHp q IHq|A B C p IHp|t n m av|t n av|A B sc p IHp|A B p IHp|C X Y rv len p IHp|C c p IHp|A B p IHp q IHq]; cbn [mute sem2] in *; intros pd a.
      - reflexivity.
      - destruct HP as [H1 H2]. rewrite (IHp H1 pd). apply rb_ext. intros [b o]. rewrite (IHq H2 pd). reflexivity.
      - rewrite (IHp HP pd). reflexivity.
      - unfold at_sow. rewrite HP. reflexivity.
      - unfold at_sow. rewrite HP. reflexivity.
      - pose proof (mute_sites_pd sP s p HP) as Es.
        change (sub [] sc) with (@nil (string * tree)). rewrite (IHp HP (sub pd sc)), (Es (sub pd sc)). reflexivity.
      - apply IHp, HP.
      - destruct (Nat.eqb _ _); [|reflexivity]. rewrite !(mute_sites sP sP p HP). change (once []) with (@nil (string * (mode * aval))). rewrite !scan_plants_mute. cbn [rb].
        change (body_plants [] []) with (@nil (string * tree)). rewrite (mute_sites_pd sP s p HP (body_plants [] pd)). reflexivity.
      - rewrite (mute_sites_pd sP s p HP pd). f_equal. apply while_loop_ext. intros x. rewrite (IHp HP pd). reflexivity.
      - destruct HP. destruct (fst a); auto. }
    rewrite E, (run_sem_eq sP s fuel p a), rb_assoc. destruct (sem2 sP s fuel p [] a) as [[b o]|e] eqn:Eo; [|reflexivity]. cbn [rb fst].
    rewrite (mute_sem sP s fuel p Hs [] a b o Eo). reflexivity.
  Qed.

  (** programs without nest *)
  Fixpoint nonest {A B} (p : prog A B) : Prop :=
    match p with
    | Pure _ | Sow _ _ _ _ | SowCond _ _ _ => True
    | Seq p q | Cond p q => nonest p /\ nonest q
    | First _ p | Call p | Scan _ _ p | While _ p => nonest p
    | Nest _ _ => False
    end.
  (** planting all the sown names removes the sows *)
  Lemma haskey_filter {X} (g : string -> bool) (l : list (string * X)) n : haskey (filter (fun kv => g (fst kv)) l) n = (g n && haskey l n)%bool.
  Proof. unfold haskey. rewrite dget_filter_key. destruct (g n); reflexivity. Qed.
  Lemma haskey_app {X} (l l' : list (string * X)) n : haskey (l ++ l') n = (haskey l n || haskey l' n)%bool.
  Proof. unfold haskey. rewrite dget_app. destruct (dget l n); reflexivity. Qed.
  Lemma haskey_map {X Y} (g : string * X -> Y) (l : list (string * X)) n : haskey (map (fun e => (fst e, g e)) l) n = haskey l n.
  Proof. unfold haskey. rewrite dget_map. destruct (dget l n); reflexivity. Qed.
  Lemma plantT_covered s {A B} (p : prog A B) : (forall n, passes s n = true) -> forall M r, reapT s p M = inl r -> strictp s p -> nonest p ->
    forall sk dn dn' p', plantT s p sk dn = inl (dn', p') -> (forall n, In n (dkeys (sites s p [])) -> haskey sk n = true) -> mute s p'.
  Proof.
    intros Hall.
    induction p as [A B f|A B C p IHp q IHq|A B C p IHp|t n m av|t n av|A B sc p IHp|A B p IHp|C X Y rv len p IHp|C c p IHp|A B p IHp q IHq];
      intros M r Hr Hs Hn sk dn dn' p' H Hc; pose proof Hr as Hreap; cbn [reapT plantT strictp nonest sites2] in *.
    - injection H as <- <-. exact I.
    - apply rb_inl in H as ([M1 p1] & H1 & H). apply rb_inl in H as ([M2 q1] & H2 & H). injection H as <- <-. apply rb_inl in Hr as (r1 & R1 & Hr). apply rb_inl in Hr as (r2 & R2 & Hr).
      destruct Hs, Hn. unfold dkeys in Hc. rewrite map_app in Hc. cbn. split; [exact I|]. split.
      + eapply IHp; try eassumption. intros n Hin. apply Hc, in_or_app. auto.
      + eapply IHq; try eassumption. intros n Hin. apply Hc, in_or_app. auto.
    - apply rb_inl in H as ([M1 p1] & H1 & H). injection H as <- <-. apply rb_inl in Hr as (r1 & R1 & Hr). cbn. split; [exact I|]. eapply IHp; eassumption.
    - destruct (is_cond m); [discriminate|]. rewrite site_here_nil in Hc. unfold seen in *. destruct (String.eqb t (tag_of s)) eqn:Et.
      + rewrite Hall in *. destruct (mem n dn); [discriminate|]. rewrite Hc in H by (simpl; auto). injection H as <- <-. exact I.
      + destruct (exclusive s); injection H as <- <-; cbn; [exact I|]. split; [exact I|]. unfold seen. rewrite Et. reflexivity.
    - unfold seen in Hs. rewrite Hall, andb_true_r in Hs. rewrite Hs in H. destruct (exclusive s); injection H as <- <-; cbn; [exact I|]. split; [exact I|]. unfold seen. rewrite Hs. reflexivity.
    - destruct Hn.
    - apply rb_inl in H as ([M1 p1] & H1 & H). injection H as <- <-. apply rb_inl in Hr as (r1 & R1 & Hr). cbn. eapply IHp; try eassumption. intros n Hin. apply Hc, once_keys, Hin.
    - apply rb_inl in H as ([M0 p0] & H0 & H). cbv zeta in H. cbn [fst snd] in H. destruct (existsb _ M0) eqn:Ex in H; [discriminate|]. apply rb_inl in H as ([M1 p1] & H1 & H). injection H as <- <-. cbn. split; [exact I|]. split; [exact I|].
      pose proof (reapT_resow s p _ _ _ H0) as Hres. destruct (resow_meta_nodup s _ (sites_pass s p s []) (strictp_sites s p Hs []) _ _ Hres) as [Hnd _].
      pose proof (reapT_meta s p _ _ _ H0) as EM. change (dmerge [] (sites s p [])) with (once (sites s p [])) in EM.
      eapply IHp; try eassumption. intros n Hin. unfold dkeys in Hin. apply in_map_iff in Hin as ([n' [m a]] & E & Hin). cbn in E. subst n'.
      destruct (scan_body_append _ M0 EM Hnd (strictp_sites s p Hs []) Ex _ _ _ Hin) as [-> Hg].
      cbv zeta in Hc. change (body_plants (once (sites s p [])) []) with (@nil (string * tree)) in Hc. rewrite <- EM in Hc.
      assert (Hk : haskey sk n = true).
      { apply Hc. unfold dkeys. rewrite map_app. apply in_or_app. right. unfold stack_meta. rewrite map_map. cbn. apply in_map_iff. exists (n, (Append, a)). split; [reflexivity|]. apply filter_In. split; [apply dget_In, Hg|reflexivity]. }
      unfold scan_skel. rewrite haskey_app, (haskey_map (fun _ => SLeaf)), (haskey_filter (fun k => match dget M0 k with Some (m, _) => is_append m | None => false end)), Hg, Hk. reflexivity.
    - apply rb_inl in H as ([M0 p0] & H0 & H). cbn [fst snd] in H. destruct (existsb _ _) eqn:Ex in H; [discriminate|]. apply rb_inl in H as ([M1 p1] & H1 & H). injection H as <- <-. cbn. split; [|exact I]. split; [exact I|].
      eapply IHp; try eassumption. intros n Hin. apply Hc, once_keys, Hin.
    - apply rb_inl in H as ([M0 p0] & H0 & H). apply rb_inl in H as ([M0' p0'] & H0' & H). apply rb_inl in H as ([] & Hcb & H). apply rb_inl in H as ([M1 p1] & H1 & H). apply rb_inl in H as ([M2 q1] & H2 & H). injection H as <- <-. cbn [fst snd] in *.
      destruct Hs as [Hs1 Hs2], Hn as [Hn1 Hn2]. cbn. split; [exact I|]. split.
      + eapply IHp; try eassumption. intros n Hin. apply Hc, once_keys, Hin.
      + eapply IHq; try eassumption. intros n Hin. apply Hc.
        pose proof (reapT_meta s p _ _ _ H0) as EM. change (dmerge [] (sites s p [])) with (once (sites s p [])) in EM.
        pose proof (reapT_meta s q _ _ _ H0') as EM'. change (dmerge [] (sites s q [])) with (once (sites s q [])) in EM'.
        assert (N0 : NoDup (dkeys M0)) by (rewrite EM; apply once_nodup). assert (N1 : NoDup (dkeys M0')) by (rewrite EM'; apply once_nodup).
        apply once_keys in Hin. rewrite <- EM' in Hin. rewrite <- EM. apply In_dkeys_dget in Hin as [x Hx].
        unfold check_branches in Hcb. destruct (Nat.eqb _ _); [|discriminate]. pose proof (check_branch_spec M0 M0' n x N1 Hcb Hx) as K.
        destruct K as (y & Hy & _). eapply dget_In_keys, Hy.
  Qed.
End silent.
