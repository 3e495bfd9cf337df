(** block removes exactly the named variables (C42), scopes included. *)
From Verif Require Import Dict HarvestSpec HarvestProofs HarvestProofs2 HarvestProofs3 HarvestProofs4 HarvestProofs5 HarvestProps HarvestTotal.
From Verif Require Export PplTotal.

Local Close Scope Z_scope.
Local Open Scope nat_scope.
Local Open Scope list_scope.
Local Open Scope type_scope.
Section block.
  Context {AR : Arrays}.
  Notation PS := ppl_settings.
  Notation BS names := (mk_settings RV names None false).
  Variable names : list string.
  (** the program without its random variables called one of [names]: their values are just passed on *)
  Fixpoint forget {A B} (p : prog A B) : prog A B :=
    match p in prog A B return prog A B with
    | Pure f => Pure f
    | Seq p q => Seq (forget p) (forget q)
    | First C p => First C (forget p)
    | Sow t n m av => if (String.eqb t RV && mem n names)%bool then Pure (chk av) else Sow t n m av
    | SowCond t n av => if (String.eqb t RV && mem n names)%bool then Pure (fun x => chk av (fst x)) else SowCond t n av
    | Nest sc p => Nest sc (forget p)
    | Call p => Call (forget p)
    | Scan rv len p => Scan rv len (forget p)
    | While c p => While c (forget p)
    | Cond p q => Cond (forget p) (forget q)
    end.
  Lemma BS_passes n : passes (BS names) n = negb (mem n names).
  Proof. reflexivity. Qed.
  Theorem plant_forget {A B} (p : prog A B) : forall dn dn' q, plantT (BS names) p [] dn = inl (dn', q) ->
    sites PS q [] = sites PS (forget p) [] /\ (tame PS (forget p) [] -> tame PS q []) /\ (legal PS q <-> legal PS (forget p)) /\
    forall fuel a, sem PS fuel q [] (a, []) = sem PS fuel (forget p) [] a.
  Proof.
    induction p as [A B f|A B C p IHp q IHq|A B C p IHp|t n m av|t n av|A B sc p IHp|A B p IHp|C X Y rv len p IHp|C c p IHp|A B p IHp q IHq]; intros dn dn' r H; cbn [plantT forget] in *.
    - injection H as <- <-. split; [reflexivity|]. split; [exact (fun _ => I)|]. split; [reflexivity|]. intros fuel a. reflexivity.
    - apply rb_inl in H as ([d1 p1] & H1 & H). apply rb_inl in H as ([d2 q1] & H2 & H). injection H as <- <-. cbn [fst snd] in *.
      destruct (IHp _ _ _ H1) as (K1 & K2 & KL & K3). destruct (IHq _ _ _ H2) as (J1 & J2 & JL & J3). cbn [sites2 tame2 legal sem2 fst snd rb app]. rewrite K1, J1. split; [reflexivity|]. split; [tauto|]. split; [tauto|].
      intros fuel a. rewrite ?rb_assoc. unfold rb at 1. cbn [fst snd]. rewrite K3, ?rb_assoc. apply rb_ext. intros [b o]. cbn [rb fst snd]. rewrite J3, ?rb_assoc. apply rb_ext. intros [b2 o2]. reflexivity.
    - apply rb_inl in H as ([d1 p1] & H1 & H). injection H as <- <-. cbn [fst snd] in *. destruct (IHp _ _ _ H1) as (K1 & K2 & KL & K3).
      cbn [sites2 tame2 legal sem2 fst snd rb app]. split; [exact K1|]. split; [tauto|]. split; [tauto|]. intros fuel [a c]. cbn [rb fst snd swap]. rewrite K3, ?rb_assoc. apply rb_ext. reflexivity.
    - destruct (is_cond m) eqn:Em; [discriminate|]. rewrite BS_passes in H. change (tag_of (BS names)) with RV in H. change (exclusive (BS names)) with false in H.
      destruct (String.eqb t RV) eqn:Et; cbn [andb].
      + destruct (mem n names); cbn [negb] in H.
        * injection H as <- <-. split; [reflexivity|]. split; [exact (fun _ => I)|]. split; [reflexivity|]. intros fuel a. cbn. reflexivity.
        * destruct (mem n dn); [discriminate|]. cbn [haskey dget] in H. injection H as <- <-. cbn [sites2 tame2 legal sem2 rb fst snd app]. split; [reflexivity|]. split; [auto|]. split; [tauto|].
          intros fuel a. rewrite ?at_sow_nil, ?Em, ?rb_assoc. apply rb_ext. reflexivity.
      + injection H as <- <-. cbn [sites2 tame2 legal sem2 rb fst snd app]. split; [reflexivity|]. split; [auto|]. split; [tauto|].
          intros fuel a. rewrite ?at_sow_nil, ?Em, ?rb_assoc. apply rb_ext. reflexivity.
    - rewrite BS_passes in H. change (tag_of (BS names)) with RV in H. change (exclusive (BS names)) with false in H.
      destruct (String.eqb t RV) eqn:Et; cbn [andb].
      + destruct (mem n names); cbn [negb] in H.
        * injection H as <- <-. split; [reflexivity|]. split; [exact (fun _ => I)|]. split; [reflexivity|]. intros fuel a. cbn. reflexivity.
        * destruct (mem n dn); [discriminate|]. cbn [haskey dget] in H. injection H as <- <-. cbn [sites2 tame2 legal sem2 rb fst snd app]. split; [reflexivity|]. split; [auto|]. split; [tauto|].
          intros fuel a. rewrite ?at_sow_nil, ?rb_assoc. apply rb_ext. reflexivity.
      + injection H as <- <-. cbn [sites2 tame2 legal sem2 rb fst snd app]. split; [reflexivity|]. split; [auto|]. split; [tauto|].
          intros fuel a. rewrite ?at_sow_nil, ?rb_assoc. apply rb_ext. reflexivity.
    - apply rb_inl in H as (sk' & H0 & H). apply rb_inl in H as ([d1 p1] & H1 & H). injection H as <- <-. cbn [fst snd] in *.
      assert (sk' = []) by (unfold sub_skel in H0; cbn in H0; congruence). subst sk'.
      destruct (IHp _ _ _ H1) as (K1 & K2 & KL & K3). cbn [sites2 tame2 legal sem2 rb fst snd app].
      change (sub [] sc) with (@nil (string * tree)). rewrite ?K1. split; [reflexivity|]. split; [tauto|]. split; [tauto|].
      intros fuel a. change (sub_plants [] [] sc) with (@nil (string * tree)). cbn [rb fst snd]. rewrite K3, ?rb_assoc. apply rb_ext. intros [b o]. cbn. reflexivity.
    - apply rb_inl in H as ([d1 p1] & H1 & H). injection H as <- <-. cbn [fst snd] in *.
      destruct (IHp _ _ _ H1) as (K1 & K2 & KL & K3). cbn [sites2 tame2 legal sem2]. rewrite ?K1. split; [reflexivity|]. split; [tauto|]. split; [tauto|exact K3].
    - (* scan *) apply rb_inl in H as ([Mb pb] & H0 & H). cbv zeta in H. cbn [fst snd] in H. destruct (existsb _ Mb) in H; [discriminate|].
      apply rb_inl in H as ([d1 p1] & H1 & H). injection H as <- <-. cbn [fst snd] in *.
      assert (Esk : scan_skel Mb [] = []) by (unfold scan_skel; clear; induction Mb; cbn; auto).
      rewrite ?Esk in H1. destruct (IHp _ _ _ H1) as (K1 & K2 & KL & K3). cbn [sites2 tame2 legal sem2 rb fst snd app]. cbv zeta.
      change (body_plants (once (sites PS p1 [])) []) with (@nil (string * tree)). change (body_plants (once (sites PS (forget p) [])) []) with (@nil (string * tree)).
      rewrite ?K1. split; [reflexivity|]. split; [tauto|]. split; [tauto|].
      intros fuel [c0 xs]. rewrite ?rb_assoc. cbn [fst snd rb]. destruct (Nat.eqb_spec (List.length xs) len) as [El|]; [|reflexivity].
      rewrite !scan_plants_nil. cbn [rb fst snd]. unfold scan_sem. cbn [fst snd]. rewrite ?combine_length, ?El, ?repeat_length, ?Nat.min_id, ?Nat.eqb_refl.
      rewrite ?rb_assoc. cbn [app].
      match goal with |- rb (scan_loop ?f ?c ?l) _ = rb (scan_loop ?g ?z ?l') _ =>
        pose proof (scan_loop_rel f g eq (fun (xp : (X * plants) * plants) xq => xp = (xq, []) /\ snd xq = []) eq) as HL;
        specialize (fun h1 h2 h3 => HL h1 l l' c z h2 h3) end.
      match type of HL with ?P -> _ => assert (HP : P) end.
      { intros c c' x [x1 pl] <- [E Hfx]. subst x. cbn [rb fst snd] in *. subst pl. rewrite ?rb_assoc. rewrite K3.
        destruct (sem2 PS PS fuel (forget p) [] (c, x1)) as [[[r1 r2] o]|]; cbn; auto. }
      specialize (HL HP eq_refl). clear HP. match type of HL with ?P -> _ => assert (HP : P) end.
      { apply Forall2_rev_if. clear -El. revert xs El. induction len as [|len IH]; intros [|x xs] El; cbn in *; try discriminate; constructor; auto. }
      specialize (HL HP). revert HL. match goal with |- rel_res _ ?u ?v -> _ => destruct u as [[c1 ys1]|], v as [[c2 ys2]|] end; cbn [rel_res rb fst snd]; try tauto; [|congruence].
      intros [-> HF]. assert (ys1 = ys2) by (clear -HF; induction HF; congruence). subst. reflexivity.
    - (* while *) apply rb_inl in H as ([Mb pb] & H0 & H). cbv zeta in H. cbn [fst snd] in H. destruct (existsb _ Mb) in H; [discriminate|].
      apply rb_inl in H as ([d1 p1] & H1 & H). injection H as <- <-. cbn [fst snd] in *.
      destruct (IHp _ _ _ H1) as (K1 & K2 & KL & K3). cbn [sites2 tame2 legal sem2 rb fst snd app]. rewrite app_nil_r, K1. split; [reflexivity|]. split; [tauto|]. split; [tauto|].
      intros fuel a. rewrite ?rb_assoc.
      match goal with |- rb (while_loop _ ?c1 ?f ?x) _ = rb (while_loop _ ?c2 ?g ?z) _ =>
        pose proof (while_loop_rel fuel c1 c2 f g (fun u u' => u = ((fst u', []), snd u'))) as HL; specialize (fun h1 h2 => HL h1 h2 x z eq_refl) end.
      match type of HL with ?P -> _ => assert (HP : P) by (intros ? ? ->; reflexivity) end. specialize (HL HP). clear HP.
      match type of HL with ?P -> _ => assert (HP : P) end.
      { intros x [x' o] ->. cbn [rb fst snd]. rewrite ?rb_assoc. cbn [rb fst snd]. rewrite ?rb_assoc, K3. destruct (sem2 PS PS fuel (forget p) [] x') as [[b o2]|]; cbn; auto. }
      specialize (HL HP). revert HL. match goal with |- rel_res _ ?u ?v -> _ => destruct u as [c1|], v as [[c2 o]|] end; cbn [rel_res rb fst snd]; try tauto; [|congruence].
      intros ->. cbn. rewrite app_nil_r. reflexivity.
    - (* cond *) apply rb_inl in H as ([M0 p0] & H0 & H). apply rb_inl in H as ([Mq q0] & H0' & H). apply rb_inl in H as ([] & Hcb & H).
      apply rb_inl in H as ([d1 p1] & H1 & H). apply rb_inl in H as ([d2 q1] & H2 & H). injection H as <- <-. cbn [fst snd] in *.
      destruct (IHp _ _ _ H1) as (K1 & K2 & KL & K3). destruct (IHq _ _ _ H2) as (J1 & J2 & JL & J3). cbn [sites2 tame2 legal sem2 rb fst snd app]. rewrite ?K1, ?J1. split; [reflexivity|]. split; [tauto|]. split; [tauto|].
      intros fuel [[|] a]; cbn [fst snd rb]; [rewrite K3|rewrite J3].
        * destruct (sem2 PS PS fuel (forget p) [] a) as [[b o]|]; reflexivity.
        * destruct (sem2 PS PS fuel (forget q) [] a) as [[b o]|]; reflexivity.
  Qed.
  Lemma forget_rv_strict {A B} (p : prog A B) : rv_strict p -> rv_strict (forget p).
  Proof.
    induction p as [A B f|A B C p IHp q IHq|A B C p IHp|t n m av|t n av|A B sc p IHp|A B p IHp|C X Y rv len p IHp|C c p IHp|A B p IHp q IHq]; cbn [rv_strict forget]; try tauto; intros H.
    - destruct (_ && _)%bool; [exact I|exact H].
    - destruct (_ && _)%bool; [exact I|exact H].
  Qed.
  Theorem C42_block_joint_sample {B} (f : program B) args p b : f args = inl p -> rv_strict p -> block f names args = inl b ->
    (forall fuel, run fuel b tt = run fuel p tt) /\
    ((exists jb, joint_sample (block f names) args = inl jb) <-> exists jf, joint_sample (fun _ => inl (forget p)) args = inl jf) /\
    forall jb jf, joint_sample (block f names) args = inl jb -> joint_sample (fun _ => inl (forget p)) args = inl jf ->
      forall fuel, run fuel jb tt = run fuel jf tt.
  Proof.
    intros E Hs Hb. split; [intros fuel; eapply C42_block_output; eassumption|].
    pose proof Hb as Hb'. unfold block in Hb. rewrite E in Hb. cbn [rb] in Hb. apply rb_inl in Hb as (q0 & Hq & Hb). injection Hb as <-. unfold plant in Hq. apply rb_inl in Hq as ([dn q1] & Hq & Hq'). injection Hq' as <-. cbn [snd] in *.
    destruct (plant_forget p _ _ _ Hq) as (P1 & P2 & P3 & P4). pose proof (forget_rv_strict p Hs) as Hs'. split.
    - rewrite (C42_joint_sample_succeeds_iff _ _ _ Hb'), (C42_joint_sample_succeeds_iff (fun _ => inl (forget p)) args (forget p) eq_refl). cbn [legal sites2 app]. rewrite P1. tauto.
    - intros jb jf Hjb Hjf fuel. unfold joint_sample in *. rewrite Hb' in Hjb. cbn [rb] in Hjb, Hjf. apply rb_inl in Hjb as (r1 & H1 & Hjb). apply rb_inl in Hjf as (r2 & H2 & Hjf). injection Hjb as <-. injection Hjf as <-.
      pose proof (rv_regular (forget p) [] Hs') as Hr.
      assert (Hreg : regular PS (Seq (Pure (fun u : unit => inl (u, []))) q1) []).
      { destruct Hr as [T M]. split; [cbn [tame2]; split; [exact I|apply P2, T]|]. cbn [sites2 app]. rewrite P1. exact M. }
      cbn [run]. rewrite (call_and_reap_sem PS fuel _ r1 tt H1 Hreg), (call_and_reap_sem PS fuel _ r2 tt H2 Hr).
      cbn [sem2 sites2 app rb fst snd]. rewrite P1, P4, !rb_assoc. apply rb_ext. intros [b o]. reflexivity.
  Qed.
  (** block succeeds exactly when the program without its blocked names is well-formed where planting looks *)
  Theorem C42_block_succeeds_iff {B} (f : program B) args p : f args = inl p ->
    (exists b, block f names args = inl b) <-> plantable (BS names) p [] /\ planted_once (BS names) p [].
  Proof.
    intros E. rewrite <- (C31_plant_succeeds_iff (BS names) p []). unfold block. rewrite E. cbn [rb]. split.
    - intros [b H]. apply rb_inl in H as (r & H & _). eauto.
    - intros [r H]. rewrite H. cbn [rb]. eauto.
  Qed.
End block.
Print Assumptions C42_block_joint_sample.
(** the scope of [scoped] stays, the variable in it goes *)
Example C42_block_example : exists p b jb, scoped [] = inl p /\ rv_strict p /\ block scoped ["z"] [] = inl b /\ joint_sample (block scoped ["z"]) [] = inl jb /\
  run 0 jb tt = inl [] /\ run 0 b tt = inl (L 1).
Proof. do 3 eexists. split; [reflexivity|]. split; [cbn; tauto|]. split; [reflexivity|]. split; [reflexivity|]. split; vm_compute; reflexivity. Qed.
