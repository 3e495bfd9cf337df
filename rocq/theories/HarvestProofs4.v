(** Harvesting one tag keeps or drops the sows of others (C27, C33). *)
From Verif Require Export HarvestProofs3.

Section tags.
  Context {AR : Arrays}.

  (** no sow of the program is seen by [s] *)
  Fixpoint mute (s : settings) {A B} (p : prog A B) : Prop :=
    match p with
    | Pure _ => True
    | Seq p q | Cond p q => mute s p /\ mute s q
    | First _ p | Nest _ p | Call p | Scan _ _ p | While _ p => mute s p
    | Sow t n _ _ | SowCond t n _ => seen s t n = false
    end.
  Lemma mute_sites sP s {A B} (p : prog A B) : mute s p -> forall pd, sites2 p sP s pd = [].
  Proof.
    induction p as [A B f|A B C p IHp q IHq|A B C p IHp|t n m av|t n av|A B sc p IHp|A B p IHp|C X Y rv len p IHp|C c p IHp|A B p IHp q IHq]; cbn [mute sites2]; intros H pd.
    - reflexivity.
    - destruct H. rewrite IHp, IHq; auto.
    - auto.
    - unfold site_here. rewrite H. reflexivity.
    - unfold site_here. rewrite H. reflexivity.
    - rewrite IHp by assumption. reflexivity.
    - rewrite IHp by assumption. reflexivity.
    - rewrite IHp by assumption. reflexivity.
    - rewrite IHp by assumption. reflexivity.
    - destruct H. rewrite IHp by assumption. reflexivity.
  Qed.
  Lemma mute_sem sP s fuel {A B} (p : prog A B) : mute s p -> forall pd a b o, sem2 sP s fuel p pd a = inl (b, o) -> o = [].
  Proof.
    induction p as [A B f|A B C p IHp q IHq|A B C p IHp|t n m av|t n av|A B sc p IHp|A B p IHp|C X Y rv len p IHp|C c p IHp|A B p IHp q IHq]; cbn [mute sem2]; intros H pd a b o Hs.
    - apply rb_inl in Hs as (y & _ & Hs). injection Hs as _ <-. reflexivity.
    - destruct H as [Hp Hq]. apply rb_inl in Hs as ([b1 o1] & Hs1 & Hs). apply rb_inl in Hs as ([b2 o2] & Hs2 & Hs). injection Hs as _ <-.
      apply IHp in Hs1; [|assumption]. apply IHq in Hs2; [|assumption]. subst. reflexivity.
    - apply rb_inl in Hs as ([b1 o1] & Hs1 & Hs). injection Hs as _ <-. eapply IHp; eassumption.
    - destruct (is_cond m); [discriminate|]. unfold at_sow in Hs. apply rb_inl in Hs as (v & _ & Hs). destruct (seen sP t n && haskey pd n)%bool.
      + apply rb_inl in Hs as (w & _ & Hs). injection Hs as _ <-. reflexivity.
      + rewrite H in Hs. injection Hs as _ <-. reflexivity.
    - unfold at_sow in Hs. apply rb_inl in Hs as (v & _ & Hs). destruct (seen sP t n && haskey pd n)%bool.
      + apply rb_inl in Hs as (w & _ & Hs). injection Hs as _ <-. reflexivity.
      + rewrite H in Hs. injection Hs as _ <-. reflexivity.
    - apply rb_inl in Hs as (r & _ & Hs). rewrite mute_sites in Hs by assumption. cbn in Hs. injection Hs as _ <-. reflexivity.
    - eapply IHp; eassumption.
    - destruct (Nat.eqb _ _); [|discriminate]. apply rb_inl in Hs as (ps & _ & Hs). apply rb_inl in Hs as (r & _ & Hs). rewrite mute_sites in Hs by assumption.
      cbn in Hs. injection Hs as _ <-. induction (List.concat (rev_if rv (map snd (snd r)))) as [|x l IH]; [reflexivity|exact IH].
    - apply rb_inl in Hs as ([c1 o1] & Hs1 & Hs). rewrite mute_sites in Hs by assumption. cbn in Hs. injection Hs as _ <-.
      assert (K : forall n (x : C * list occ), snd x = [] -> forall y, while_loop n (fun co => c (fst co)) (fun co => rb (sem2 sP s fuel p pd (fst co)) (fun r => inl (fst r, snd co ++ snd r))) x = inl y -> snd y = []).
      { induction n as [|n IH]; intros [x1 x2] Hx y; cbn in Hx; subst x2; cbn [while_loop]; destruct (c _) as [[|]|]; cbn [rb]; try discriminate.
        - intros E. injection E as <-. reflexivity.
        - intros E. apply rb_inl in E as (z & E1 & E2). apply rb_inl in E1 as ([z1 z2] & E1 & E3). injection E3 as <-. eapply IH; [|exact E2]. cbn. eapply IHp; eassumption.
        - intros E. injection E as <-. reflexivity. }
      apply (K fuel (a, []) eq_refl (c1, o1) Hs1).
    - destruct H. destruct (fst a); [eapply IHp|eapply IHq]; eassumption.
  Qed.
  (** nothing to reap or to plant in a mute program *)
  Lemma mute_reap s {A B} (p : prog A B) : mute s p -> forall M M' p', reapT s p M = inl (M', p') -> M' = M.
  Proof. intros H M M' p' Hr. apply reapT_meta in Hr. rewrite mute_sites in Hr by assumption. exact Hr. Qed.


  Definition drops (s1 s2 : settings) : Prop := exclusive s1 = true \/ tag_of s2 = tag_of s1.
  Lemma drops_own s1 s2 t n : drops s1 s2 -> String.eqb t (tag_of s1) = false -> exclusive s1 = false -> seen s2 t n = false.
  Proof. intros [H|H] Et Ee; [congruence|]. unfold seen. rewrite H, Et. reflexivity. Qed.
  Lemma reapT_mute s1 s2 {A B} (p : prog A B) : drops s1 s2 -> forall M M' p', reapT s1 p M = inl (M', p') -> mute s2 p'.
  Proof.
    intros Hdr.
    induction p as [A B f|A B C p IHp q IHq|A B C p IHp|t n m av|t n av|A B sc p IHp|A B p IHp|C X Y rv len p IHp|C c p IHp|A B p IHp q IHq]; intros M M' p' H; cbn [reapT] in H.
    - injection H as <- <-. exact I.
    - apply rb_inl in H as ([M1 p1] & H1 & H). apply rb_inl in H as ([M2 q1] & H2 & H). injection H as <- <-. cbn. eauto.
    - apply rb_inl in H as ([M1 p1] & H1 & H). injection H as <- <-. cbn. eauto.
    - destruct (is_cond m); [discriminate|]. destruct (String.eqb t (tag_of s1)) eqn:Et; [destruct (passes s1 n)|destruct (exclusive s1) eqn:Ee]; try (injection H as <- <-; exact I).
      + apply rb_inl in H as (M1 & H1 & H). injection H as <- <-. exact I.
      + injection H as <- <-. cbn. eapply drops_own; eassumption.
    - destruct (String.eqb t (tag_of s1)) eqn:Et; [destruct (passes s1 n)|destruct (exclusive s1) eqn:Ee]; try (injection H as <- <-; exact I).
      + apply rb_inl in H as (M1 & H1 & H). injection H as <- <-. exact I.
      + injection H as <- <-. cbn. eapply drops_own; eassumption.
    - apply rb_inl in H as ([M1 p1] & H1 & H). apply rb_inl in H as (M2 & H2 & H). injection H as <- <-. cbn. eauto.
    - apply rb_inl in H as ([M1 p1] & H1 & H). apply rb_inl in H as (M2 & H2 & H). injection H as <- <-. cbn. eauto.
    - apply rb_inl in H as ([M1 p1] & H1 & H). cbv zeta in H. destruct (existsb _ _) in H; [discriminate|].
      destruct (is_cond _ && _)%bool in H; [discriminate|]. apply rb_inl in H as (M2 & H2 & H). injection H as <- <-. cbn. eauto 6.
    - apply rb_inl in H as ([M1 p1] & H1 & H). cbv zeta in H. destruct (existsb _ _) in H; [discriminate|].
      apply rb_inl in H as (M2 & H2 & H). injection H as <- <-. cbn. eauto 6.
    - apply rb_inl in H as ([M1 p1] & H1 & H). apply rb_inl in H as ([M2 q1] & H2 & H). apply rb_inl in H as (? & _ & H). apply rb_inl in H as (M3 & H3 & H).
      injection H as <- <-. cbn. eauto 8.
  Qed.

  (** other tags are kept *)
  Section keep.
    Variables s1 s2 : settings.
    Hypothesis Htag : tag_of s1 <> tag_of s2.
    Hypothesis Hexcl : exclusive s1 = false.
    Lemma own_unseen t n : String.eqb t (tag_of s1) = true -> seen s2 t n = false.
    Proof. intros E. apply String.eqb_eq in E. subst. unfold seen. destruct (String.eqb_spec (tag_of s1) (tag_of s2)); [contradiction|reflexivity]. Qed.
    Lemma own_tag2 t : String.eqb t (tag_of s1) = true -> String.eqb t (tag_of s2) = false.
    Proof. intros E. apply String.eqb_eq in E. subst. destruct (String.eqb_spec (tag_of s1) (tag_of s2)); [contradiction|reflexivity]. Qed.

    Definition kept {B D} (r : B * list occ) (r' : (B * D) * list occ) : Prop := fst (fst r') = fst r /\ snd r' = snd r.
    Lemma kept_pure {B} (d : dict) (x : res B) : rel_res kept (rb x (fun b => inl (b, []))) (rb (rb x (fun b => inl (b, []))) (fun r => inl ((fst r, d), snd r))).
    Proof. destruct x; cbn; [split; reflexivity|reflexivity]. Qed.
    Lemma kept_post {B D W U} (x : res (B * list occ)) (y : res ((B * D) * list occ)) (R : W -> U -> Prop) g f :
      rel_res kept x y -> (forall b d o, rel_res R (g (b, o)) (f ((b, d), o))) -> rel_res R (rb x g) (rb y f).
    Proof. destruct x as [[b o]|], y as [[[b' d] o']|]; cbn; try tauto. intros [E1 E2] H. cbn in E1, E2. subst. apply H. Qed.
    Lemma reapT_keep {A B} (p : prog A B) : forall M M' p', reapT s1 p M = inl (M', p') ->
      sites s2 p' [] = sites s2 p [] /\ (tame s2 p [] -> tame s2 p' []) /\
      (forall fuel a d, rel_res kept (sem s2 fuel p [] a) (sem s2 fuel p' [] (a, d))) /\
      (forall N N' q, reapT s2 p N = inl (N', q) -> exists q', reapT s2 p' N = inl (N', q')).
    Proof.
      induction p as [A B f|A B C p IHp q IHq|A B C p IHp|t n m av|t n av|A B sc p IHp|A B p IHp|C X Y rv len p IHp|C c p IHp|A B p IHp q IHq]; intros M M' p' H; cbn [reapT] in H.
      - injection H as <- <-. split; [reflexivity|]. split; [auto|]. split.
        + intros fuel a d. cbn. apply kept_pure.
        + intros N N' q Hq. cbn in *. injection Hq as <- _. eauto.
      - apply rb_inl in H as ([M1 p1] & H1 & H). apply rb_inl in H as ([M2 q1] & H2 & H). injection H as <- <-. cbn [fst snd] in *.
        destruct (IHp _ _ _ H1) as (K1 & K2 & K3 & K4). destruct (IHq _ _ _ H2) as (J1 & J2 & J3 & J4). cbn [sites2 tame2]. rewrite K1, J1. split; [reflexivity|]. split; [tauto|]. split.
        + intros fuel a d. cbn [sem2]. eapply kept_post; [apply K3|]. intros b d' o. cbn [fst snd]. eapply kept_post; [apply J3|]. intros b2 d2 o2. cbn. split; reflexivity.
        + intros N N' q' Hq. cbn [reapT] in *. apply rb_inl in Hq as ([N1 r1] & G1 & Hq). apply rb_inl in Hq as ([N2 r2] & G2 & Hq). injection Hq as <- _. cbn [fst snd] in *.
          apply K4 in G1 as (x1 & G1). apply J4 in G2 as (x2 & G2). rewrite G1. cbn [rb fst snd]. rewrite G2. cbn. eauto.
      - apply rb_inl in H as ([M1 p1] & H1 & H). injection H as <- <-. cbn [fst snd] in *. destruct (IHp _ _ _ H1) as (K1 & K2 & K3 & K4). cbn [sites2 tame2 app].
        rewrite app_nil_r. split; [exact K1|]. split; [tauto|]. split.
        + intros fuel [a c] d. cbn [sem2 rb fst snd swap app]. rewrite ?rb_assoc. eapply kept_post; [apply K3|]. intros b d' o. cbn. rewrite app_nil_r. split; reflexivity.
        + intros N N' q' Hq. cbn [reapT] in *. apply rb_inl in Hq as ([N1 r1] & G1 & Hq). injection Hq as <- _. apply K4 in G1 as (x1 & G1). cbn [rb fst snd]. rewrite G1. cbn. eauto.
      - destruct (is_cond m) eqn:Em; [discriminate|]. destruct (String.eqb t (tag_of s1)) eqn:Et; [destruct (passes s1 n) eqn:Ep|rewrite Hexcl in H].
        + apply rb_inl in H as (M1 & H1 & H). injection H as <- <-. cbn [sites2 tame2 sem2 reapT]. rewrite Em, site_here_nil, own_unseen, (own_tag2 _ Et) by assumption.
          split; [reflexivity|]. split; [auto|]. split.
          * intros fuel a d. rewrite at_sow_nil, own_unseen by assumption. cbn. destruct (chk av a); cbn; [split; reflexivity|reflexivity].
          * intros N N' q' Hq. destruct (exclusive s2); injection Hq as <- _; eauto.
        + injection H as <- <-. cbn [sites2 tame2 sem2 reapT]. rewrite Em, site_here_nil, own_unseen, (own_tag2 _ Et) by assumption.
          split; [reflexivity|]. split; [auto|]. split.
          * intros fuel a d. rewrite at_sow_nil, own_unseen by assumption. cbn. destruct (chk av a); cbn; [split; reflexivity|reflexivity].
          * intros N N' q' Hq. cbn. destruct (exclusive s2); injection Hq as <- _; eauto.
        + injection H as <- <-. cbn [sites2 tame2]. split; [reflexivity|]. split; [auto|]. split.
          * intros fuel a d. cbn [sem2 fst snd]. rewrite Em. match goal with |- rel_res _ ?x _ => destruct x end; cbn; [split; reflexivity|reflexivity].
          * intros N N' q' Hq. cbn [reapT] in *. rewrite Em in *. rewrite Hq. cbn. eauto.
      - destruct (String.eqb t (tag_of s1)) eqn:Et; [destruct (passes s1 n) eqn:Ep|rewrite Hexcl in H].
        + apply rb_inl in H as (M1 & H1 & H). injection H as <- <-. cbn [sites2 tame2 sem2 reapT]. rewrite site_here_nil, own_unseen, (own_tag2 _ Et) by assumption.
          split; [reflexivity|]. split; [auto|]. split.
          * intros fuel a d. rewrite at_sow_nil, own_unseen by assumption. cbn. destruct (chk av (fst a)); cbn; [split; reflexivity|reflexivity].
          * intros N N' q' Hq. destruct (exclusive s2); injection Hq as <- _; eauto.
        + injection H as <- <-. cbn [sites2 tame2 sem2 reapT]. rewrite site_here_nil, own_unseen, (own_tag2 _ Et) by assumption.
          split; [reflexivity|]. split; [auto|]. split.
          * intros fuel a d. rewrite at_sow_nil, own_unseen by assumption. cbn. destruct (chk av (fst a)); cbn; [split; reflexivity|reflexivity].
          * intros N N' q' Hq. cbn. destruct (exclusive s2); injection Hq as <- _; eauto.
        + injection H as <- <-. cbn [sites2 tame2]. split; [reflexivity|]. split; [auto|]. split.
          * intros fuel a d. cbn [sem2 fst snd]. match goal with |- rel_res _ ?x _ => destruct x end; cbn; [split; reflexivity|reflexivity].
          * intros N N' q' Hq. cbn [reapT] in *. rewrite Hq. cbn. eauto.
      - apply rb_inl in H as ([M1 p1] & H1 & H). apply rb_inl in H as (M2 & H2 & H). injection H as <- <-. cbn [fst snd] in *.
        destruct (IHp _ _ _ H1) as (K1 & K2 & K3 & K4). cbn [sites2 tame2 app]. change (sub [] sc) with (@nil (string * tree)). rewrite app_nil_r, K1. split; [reflexivity|]. split; [tauto|]. split.
        + intros fuel a d. cbn [sem2 rb fst snd app]. change (sub [] sc) with (@nil (string * tree)). cbn [rb sites2 app]. rewrite ?rb_assoc. eapply kept_post; [apply K3|].
          intros b d' o. cbn. rewrite K1, app_nil_r. split; reflexivity.
        + intros N N' q' Hq. cbn [reapT] in *. apply rb_inl in Hq as ([N1 r1] & G1 & Hq). apply rb_inl in Hq as (N2 & G2 & Hq). injection Hq as <- _. cbn [fst snd] in *.
          apply K4 in G1 as (x1 & G1). cbn [rb fst snd]. rewrite G1. cbn [rb fst snd]. rewrite G2. cbn. eauto.
      - apply rb_inl in H as ([M1 p1] & H1 & H). apply rb_inl in H as (M2 & H2 & H). injection H as <- <-. cbn [fst snd] in *.
        destruct (IHp _ _ _ H1) as (K1 & K2 & K3 & K4). cbn [sites2 tame2 app]. rewrite app_nil_r, K1. split; [reflexivity|]. split; [tauto|]. split.
        + intros fuel a d. cbn [sem2 rb fst snd app]. rewrite ?rb_assoc. rewrite (rb_ret (sem s2 fuel p [] a)). eapply kept_post; [apply K3|].
          intros b d' o. cbn. rewrite app_nil_r. split; reflexivity.
        + intros N N' q' Hq. cbn [reapT] in *. apply rb_inl in Hq as ([N1 r1] & G1 & Hq). apply rb_inl in Hq as (N2 & G2 & Hq). injection Hq as <- _. cbn [fst snd] in *.
          apply K4 in G1 as (x1 & G1). cbn [rb fst snd]. rewrite G1. cbn [rb fst snd]. rewrite G2. cbn. eauto.
      - (* scan *) apply rb_inl in H as ([M1 p1] & H1 & H). cbv zeta in H. cbn [fst snd] in H. destruct (existsb _ _) in H; [discriminate|].
        destruct (is_cond _ && _)%bool in H; [discriminate|]. apply rb_inl in H as (M2 & H2 & H). injection H as <- <-.
        destruct (IHp _ _ _ H1) as (K1 & K2 & K3 & K4). cbn [sites2 tame2 app]. cbv zeta.
        change (body_plants (once (sites s2 p1 [] ++ [])) []) with (@nil (string * tree)). change (body_plants (once (sites s2 p [])) []) with (@nil (string * tree)). rewrite !app_nil_r, K1.
        split; [reflexivity|]. split; [tauto|]. split.
        + intros fuel [c0 xs] d. cbn [sem2 rb fst snd app sites2]. change (body_plants (once (sites s2 p1 [] ++ [])) []) with (@nil (string * tree)).
          change (body_plants (once (sites s2 p [])) []) with (@nil (string * tree)). rewrite !app_nil_r, !scan_plants_nil, K1. cbn [rb].
          destruct (Nat.eqb_spec (List.length xs) len) as [El|]; [|reflexivity]. unfold scan_sem. cbn [fst snd].
          rewrite combine_length, repeat_length, El, Nat.min_id, Nat.eqb_refl. rewrite ?rb_assoc.
          match goal with |- rel_res _ (rb (scan_loop ?f ?c ?l) _) (rb (scan_loop ?g ?z ?l') _) =>
            pose proof (scan_loop_rel f g (fun c c' => fst c' = c) (fun x x' => x = x' /\ snd x = []) (fun (yo : Y * list occ) (yd : (Y * dict) * list occ) => fst (fst yd) = fst yo /\ snd yd = snd yo)) as HL;
            specialize (fun h1 h2 h3 => HL h1 l l' c z h2 h3) end.
          match type of HL with ?P -> _ => assert (HP : P) end.
          { intros c [c' cr] [x pl] x' E [<- E2]. cbn in E, E2. subst c' pl. cbn [rb fst snd]. rewrite ?rb_assoc. eapply kept_post; [apply K3|].
            intros [c1 y1] d' o. cbn. rewrite app_nil_r. auto. }
          specialize (HL HP eq_refl). clear HP. match type of HL with ?P -> _ => assert (HP : P) end.
          { apply Forall2_rev_if. clear. generalize (combine xs (repeat (@nil (string * tree)) len)) (in_combine_r xs (repeat (@nil (string * tree)) len)). intros l Hl.
            assert (K : forall x, In x l -> snd x = []) by (intros [x y] Hx; apply Hl in Hx; apply repeat_spec in Hx; exact Hx). clear Hl.
            induction l as [|x l IH]; constructor; [split; [reflexivity|apply K; simpl; auto]|]. apply IH. intros y Hy. apply K. simpl; auto. }
          specialize (HL HP). clear HP. revert HL.
          match goal with |- rel_res _ ?u ?v -> _ => destruct u as [[c1 yos]|], v as [[[c2 cr] yds]|] end; cbn [rel_res rb fst snd app]; try tauto.
          intros [E HF]. subst c2. cbn. rewrite app_nil_r. 
          assert (E1 : map snd (rev_if rv yds) = map snd (rev_if rv yos)) by (rewrite <- !rev_if_map; f_equal; clear -HF; induction HF as [|? ? ? ? [? ?]]; cbn; congruence).
          assert (E2 : map fst (map fst (rev_if rv yds)) = map fst (rev_if rv yos)) by (rewrite map_map, <- !rev_if_map; f_equal; clear -HF; induction HF as [|? ? ? ? [? ?]]; cbn; congruence).
          split; cbn; [rewrite E2; reflexivity|rewrite E1; reflexivity].
        + intros N N' q' Hq. cbn [reapT] in *. apply rb_inl in Hq as ([N1 r1] & G1 & Hq). cbv zeta in Hq. cbn [fst snd] in Hq.
          destruct (existsb (fun e => is_strict (fst (snd e))) N1) eqn:Ea in Hq; [discriminate|]. destruct (is_cond (last_mode N1) && _)%bool eqn:Eb in Hq; [discriminate|].
          apply rb_inl in Hq as (N2 & G2 & Hq). injection Hq as <- _. apply K4 in G1 as (x1 & G1). cbn [rb fst snd]. rewrite G1. cbn [rb fst snd]. cbv zeta. rewrite Ea, Eb. cbn [rb fst snd]. rewrite G2. cbn. eauto.
      - (* while *) apply rb_inl in H as ([M1 p1] & H1 & H). cbv zeta in H. cbn [fst snd] in H. destruct (existsb _ _) in H; [discriminate|].
        apply rb_inl in H as (M2 & H2 & H). injection H as <- <-.
        destruct (IHp _ _ _ H1) as (K1 & K2 & K3 & K4). cbn [sites2 tame2 app]. rewrite !app_nil_r, K1. split; [reflexivity|]. split; [tauto|]. split.
        + intros fuel a d. cbn [sem2 rb fst snd app sites2]. rewrite !app_nil_r, K1, ?rb_assoc.
          match goal with |- rel_res _ (rb (while_loop _ ?c1 ?f ?x) _) (rb (while_loop _ ?c2 ?g ?z) _) =>
            pose proof (while_loop_rel fuel c1 c2 f g (fun u u' => fst (fst u') = fst u /\ snd u' = snd u)) as HL; specialize (fun h1 h2 => HL h1 h2 x z (conj eq_refl eq_refl)) end.
          match type of HL with ?P -> _ => assert (HP : P) by (intros ? ? [<- _]; reflexivity) end. specialize (HL HP). clear HP.
          match type of HL with ?P -> _ => assert (HP : P) end.
          { intros [c1 o1] [[c2 cr] o2] [E1 E2]. cbn in E1, E2. subst. cbn [rb fst snd]. rewrite ?rb_assoc. eapply kept_post; [apply K3|]. intros b d' o. cbn. rewrite app_nil_r. auto. }
          specialize (HL HP). revert HL. match goal with |- rel_res _ ?u ?v -> _ => destruct u as [[c1 o1]|], v as [[[c2 cr] o2]|] end; cbn [rel_res rb fst snd app]; try tauto.
          intros [E1 E2]. subst. cbn. rewrite app_nil_r. split; reflexivity.
        + intros N N' q' Hq. cbn [reapT] in *. apply rb_inl in Hq as ([N1 r1] & G1 & Hq). cbv zeta in Hq. cbn [fst snd] in Hq.
          destruct (existsb _ N1) eqn:Ea in Hq; [discriminate|].
          apply rb_inl in Hq as (N2 & G2 & Hq). injection Hq as <- _. apply K4 in G1 as (x1 & G1). cbn [rb fst snd]. rewrite G1. cbn [rb fst snd]. cbv zeta. rewrite Ea. cbn [rb fst snd]. rewrite G2. cbn. eauto.
      - (* cond *) apply rb_inl in H as ([M1 p1] & H1 & H). apply rb_inl in H as ([M2 q1] & H2 & H). apply rb_inl in H as ([] & _ & H). apply rb_inl in H as (M3 & H3 & H).
        injection H as <- <-. cbn [fst snd] in *. destruct (IHp _ _ _ H1) as (K1 & K2 & K3 & K4). destruct (IHq _ _ _ H2) as (J1 & J2 & J3 & J4).
        cbn [sites2 tame2 app]. rewrite app_nil_r, K1, J1. split; [reflexivity|]. split; [tauto|]. split.
        + intros fuel [[|] a] d; cbn [sem2 rb fst snd app]; rewrite ?rb_assoc.
          * rewrite (rb_ret (sem s2 fuel p [] a)). eapply kept_post; [apply K3|]. intros b d' o. cbn. rewrite app_nil_r. split; reflexivity.
          * rewrite (rb_ret (sem s2 fuel q [] a)). eapply kept_post; [apply J3|]. intros b d' o. cbn. rewrite app_nil_r. split; reflexivity.
        + intros N N' q' Hq. cbn [reapT] in *. apply rb_inl in Hq as ([N1 r1] & G1 & Hq). apply rb_inl in Hq as ([N2 r2] & G2 & Hq). apply rb_inl in Hq as ([] & G3 & Hq). apply rb_inl in Hq as (N3 & G4 & Hq). injection Hq as <- _. cbn [fst snd] in *.
          apply K4 in G1 as (x1 & G1). apply J4 in G2 as (x2 & G2). cbn [rb fst snd]. rewrite G1. cbn [rb fst snd]. rewrite G2. cbn [rb fst snd]. rewrite G3. cbn [rb]. rewrite G4. cbn. eauto.
    Qed.
  End keep.
End tags.
