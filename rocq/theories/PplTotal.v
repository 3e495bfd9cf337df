(** When intervene, conditional, trace and joint_sample succeed (C41, C42). *)
From Verif Require Import Dict HarvestSpec HarvestProofs HarvestProofs2 HarvestProofs3 HarvestProofs4 HarvestProofs5 HarvestProps HarvestTotal.
From Verif Require Export PplProps.

Lemma NoDup_app_inv {X} (a b : list X) : NoDup (a ++ b) -> NoDup a /\ NoDup b /\ forall x, In x a -> ~ In x b.
Proof.
  induction a as [|k a IH]; cbn; intros H; [split; [constructor|split; [exact H|intros x []]]|]. inversion_clear H as [|? ? Hk Hnd]. apply IH in Hnd as (H1 & H2 & H3).
  split; [constructor; [intros Hi; apply Hk, in_or_app; auto|exact H1]|]. split; [exact H2|]. intros x [<-|Hx] Hb; [apply Hk, in_or_app; auto|eapply H3; eassumption].
Qed.
Lemma NoDup_app_make {X} (a b : list X) : NoDup a -> NoDup b -> (forall x, In x a -> ~ In x b) -> NoDup (a ++ b).
Proof.
  induction a as [|k a IH]; cbn; intros H1 H2 H3; [exact H2|]. inversion_clear H1 as [|? ? Hk Hnd]. constructor; [|apply IH; auto]. intros Hi. apply in_app_or in Hi as [Hi|Hi]; [contradiction|]. eapply H3; [left; reflexivity|exact Hi].
Qed.

Section shaped.
  Context {AR : Arrays}.
  Variable s : settings.
  (** whatever is planted under the name of a scope is a dictionary, or the function of the scope does not look at it *)
  Fixpoint shaped {A B} (p : prog A B) (sk : list (string * skel)) : Prop :=
    match p with
    | Pure _ | Sow _ _ _ _ | SowCond _ _ _ => True
    | Seq p q | Cond p q => shaped p sk /\ shaped q sk
    | First _ p | Call p | While _ p => shaped p sk
    | Scan _ _ p => shaped p (scan_skel (once (sites s p [])) sk)
    | Nest sc p => (dget sk sc = Some SLeaf -> quiet s p = true) /\ shaped p (sub_dict sk sc)
    end.
  Definition direct_names {A B} (p : prog A B) : list string := map (fun e => fst (snd e)) (filter (fun e => seen s (fst e) (fst (snd e))) (direct p)).
  Lemma direct_nodup {A B} (p : prog A B) : incl (direct_names p) (dkeys (sites s p [])) /\ (NoDup (dkeys (sites s p [])) -> NoDup (direct_names p)).
  Proof.
    assert (K0 : forall l, incl (@nil string) l /\ (NoDup l -> NoDup (@nil string))) by (intros l; split; [intros x []|intros _; constructor]).
    induction p as [A B f|A B C p IHp q IHq|A B C p IHp|t n m av|t n av|A B sc p IHp|A B p IHp|C X Y rv len p IHp|C c p IHp|A B p IHp q IHq]; try apply K0.
    - unfold direct_names in *. cbn [direct sites2]. unfold dkeys in *. rewrite filter_app, !map_app. destruct IHp as [I1 N1], IHq as [I2 N2]. split.
      + intros x Hx. apply in_app_or in Hx as [Hx|Hx]; apply in_or_app; auto.
      + intros H. apply NoDup_app_inv in H as (H1 & H2 & H3). apply NoDup_app_make; auto. intros x Hx Hx'. eapply H3; [apply I1, Hx|apply I2, Hx'].
    - exact IHp.
    - unfold direct_names. cbn [direct sites2 filter fst snd]. rewrite site_here_nil. destruct (seen s t n); cbn; [|apply K0]. split; [intros x Hx; exact Hx|auto].
    - unfold direct_names. cbn [direct sites2 filter fst snd]. rewrite site_here_nil. destruct (seen s t n); cbn; [|apply K0]. split; [intros x Hx; exact Hx|auto].
  Qed.
  Lemma nodup_planted_once {A B} (p : prog A B) sk : NoDup (dkeys (sites s p [])) -> planted_once s p sk.
  Proof.
    intros H l1 l2 t n m m' E Hs Hin _. exfalso. apply (proj2 (direct_nodup p)) in H. unfold direct_names in H. rewrite E, filter_app, map_app in H. cbn in H. rewrite Hs in H. cbn in H.
    apply NoDup_remove_2 in H. apply H, in_or_app. left. apply in_map_iff. exists (t, (n, m')). split; [reflexivity|]. apply filter_In. split; [exact Hin|exact Hs].
  Qed.
  Lemma repeats_nodup l : no_clob l -> repeats_ok l -> NoDup (dkeys l).
  Proof.
    induction l as [|[k x] l IH] using rev_ind; intros Hc Hr; [constructor|]. unfold dkeys. rewrite map_app. cbn.
    assert (Hl : NoDup (dkeys l)).
    { apply IH; [intros n m a Hin; eapply Hc, in_or_app; left; exact Hin|]. intros l1 l2 n0 x0 y0 E. eapply (Hr l1 (l2 ++ [(k, x)])). rewrite E, <- app_assoc. reflexivity. }
    apply NoDup_rev in Hl. rewrite <- (rev_involutive (map fst l ++ [k])). apply NoDup_rev. rewrite rev_app_distr. cbn. constructor; [|exact Hl].
    intros Hin. apply in_rev in Hin. apply (proj2 (once_keys l k)) in Hin. apply In_dkeys_dget in Hin as ([m a] & Hg).
    destruct (Hr l [] k x (m, a) eq_refl Hg) as [K _]. cbn in K.
    assert (Hin2 : In (k, (m, a)) (l ++ [(k, x)])) by (apply in_or_app; left; apply once_incl, dget_In, Hg). apply Hc in Hin2. congruence.
  Qed.
  Lemma legal_shaped {A B} (p : prog A B) : strictp s p -> legal s p -> forall sk, shaped p sk -> plantable s p sk.
  Proof.
    assert (K : forall A B (p : prog A B) sk, strictp s p -> repeats_ok (sites s p []) -> planted_once s p sk).
    { intros ? ? p0 sk Hs Hr. apply nodup_planted_once, repeats_nodup; [apply strictp_sites, Hs|exact Hr]. }
    induction p as [A B f|A B C p IHp q IHq|A B C p IHp|t n m av|t n av|A B sc p IHp|A B p IHp|C X Y rv len p IHp|C c p IHp|A B p IHp q IHq]; cbn [strictp legal shaped plantable]; intros Hs Hl sk Hsh; try tauto.
    - destruct Hs, Hl, Hsh. split; auto.
    - auto.
    - destruct Hl, Hsh. split; [assumption|]. split; [apply IHp; assumption|apply K; assumption].
    - destruct Hl. split; [apply IHp; assumption|apply K; assumption].
    - destruct Hl as (L1 & L2 & L3 & L4). split; [exact L1|]. split; [exact L2|]. split; [exact L3|]. split; [apply IHp; assumption|apply K; assumption].
    - destruct Hl as (L1 & L2 & L3). split; [exact L1|]. split; [exact L2|]. split; [exact L3|]. split; [apply IHp; assumption|apply K; assumption].
    - destruct Hs, Hsh, Hl as (L1 & L2 & L3 & L4 & L5). split; [exact L1|]. split; [exact L2|]. split; [exact L3|]. split; [exact L4|]. split; [exact L5|].
      split; [apply IHp; assumption|]. split; [apply K; assumption|]. split; [apply IHq; assumption|apply K; assumption].
  Qed.
End shaped.

Section ppl.
  Context {AR : Arrays}.
  Notation PS := ppl_settings.
  Theorem C42_joint_sample_succeeds_iff {B} (f : program B) args p : f args = inl p ->
    (exists j, joint_sample f args = inl j) <-> legal PS p /\ repeats_ok (sites PS p []).
  Proof.
    intros E. rewrite <- C25_reap_succeeds_iff. unfold joint_sample. rewrite E. cbn [rb]. split; [intros [j H]; apply rb_inl in H as (r & H & _); eauto|intros [r H]; rewrite H; cbn [rb]; eauto].
  Qed.
  Theorem C41_intervene_succeeds_iff {B} (f : program B) obs args p : f args = inl p ->
    (exists q, intervene f obs args = inl q) <-> haskey obs "f" = false /\ plantable PS p (skels_of obs) /\ planted_once PS p (skels_of obs).
  Proof.
    intros E. rewrite <- C31_plant_succeeds_iff. unfold intervene. rewrite E. cbn [rb]. destruct (haskey obs "f").
    - split; [intros [q H]; discriminate|intros [H _]; discriminate].
    - split; [intros [q H]; apply rb_inl in H as (r & H & _); eauto|intros [_ [r H]]; rewrite H; cbn [rb]; eauto].
  Qed.
  (** a program that can be sampled can be intervened on: the observations must not be called "f", and an observation
      with the name of a scope must be a dictionary (unless the scope is a function without scopes and scans) *)
  Theorem C41_intervene_succeeds {B} (f : program B) obs args p j : f args = inl p -> rv_strict p -> joint_sample f args = inl j ->
    haskey obs "f" = false -> shaped PS p (skels_of obs) ->
    exists q, intervene f obs args = inl q /\ forall fuel, run fuel q tt = run fuel (fixed obs p) tt.
  Proof.
    intros E Hrv Hj Hf Hsh. pose proof (rv_strictp p Hrv) as Hs. destruct (proj1 (C42_joint_sample_succeeds_iff f args p E) (ex_intro _ _ Hj)) as [Hl Hr].
    assert (K : exists q0, plant PS p obs = inl q0).
    { apply C31_plant_succeeds_iff. split; [apply legal_shaped; assumption|]. apply nodup_planted_once, repeats_nodup; [apply strictp_sites, Hs|exact Hr]. }
    destruct K as [q0 K]. assert (Hq : intervene f obs args = inl (Seq (Pure (fun u => inl (u, obs))) q0)) by (unfold intervene; rewrite Hf, E; cbn [rb]; rewrite K; reflexivity).
    eexists. split; [exact Hq|]. apply (C41_intervene f obs args p _ E Hrv Hq).
  Qed.
End ppl.

(** ** Concrete cases *)
Open Scope Z_scope.
Example C41_intervene_succeeds_example : exists p j, model [L 1; L 2] = inl p /\ rv_strict p /\ joint_sample model [L 1; L 2] = inl j /\ shaped ppl_settings p (skels_of [("z", L 10)]).
Proof. do 2 eexists. split; [reflexivity|]. split; [cbn; tauto|]. split; [reflexivity|cbn; tauto]. Qed.
(** observing a scope with an array *)
Theorem C41_scope_array_raises : go (joint_sample scoped) [] = inl [("s", Dict [("z", L 1)])] /\ go (intervene scoped [("s", L 3)]) [] = inr TypeErr /\
  go (intervene scoped [("s", Dict [("z", L 3)])]) [] = inl (L 3).
Proof. repeat split; vm_compute; reflexivity. Qed.
Print Assumptions C41_intervene_succeeds.
Print Assumptions C42_joint_sample_succeeds_iff.
