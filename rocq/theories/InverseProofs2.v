(** Soundness of propagation with the inverse rules. *)
From Verif Require Export InverseProofs.

Section Env.
  Variables V W : Type.
  Variable w0 : W.
  Variable wplus : W -> W -> W.
  Variable cord : list (ndslice V W) -> list (ndslice V W).
  Hypothesis cordp : forall l, Permutation l (cord l).
  Notation cell := (cell V W).
  Notation unknown := (unknown V W). Notation new := (new V W w0). Notation join := (join V W cord). Notation cell_lt := (cell_lt V W).
  Notation arrV := (arr V).
  Notation atom := (atom (list nat) arrV). Notation frame := (frame (list nat) arrV). Notation env := (env cell).
  Notation node := (node cell (list nat) arrV tag (option W)).
  Notation csound := (csound V W). Notation okl := (okl V W). Notation den := (den V).
  Notation read := (read unknown new). Notation write := (write unknown new join). Notation writes := (writes unknown new join).

  Definition esound (rho : nat -> arrV) (e : env) : Prop := forall n c, e n = Some c -> csound (rho n) c.
  Lemma read_sound rho e a v : esound rho e -> den rho a v -> csound v (read e a).
  Proof.
    intros He Hd. destruct a as [n av|l|av]; cbn in *.
    - destruct Hd as [Hd ->]. destruct (e n) as [c|] eqn:E; [eapply csound_aeq; [exact Hd|apply He, E]|apply csound_unknown].
    - apply csound_new, Hd.
    - subst av. apply csound_unknown.
  Qed.
  Lemma reads_sound rho e l vs : esound rho e -> Forall2 (den rho) l vs -> Forall2 csound vs (map (read e) l).
  Proof. intros He. induction 1; cbn; constructor; eauto using read_sound. Qed.
  Lemma write_sound rho e a v c : esound rho e -> den rho a v -> is_lit V a \/ csound v c -> esound rho (fst (write e a c)).
  Proof.
    intros He Hd Hc. pose proof (read_sound rho e a v He Hd) as Hr. destruct a as [n av|l|av]; cbn [PropModel.write fst]; try exact He. destruct Hc as [[]|Hc]. intros m c' Hm. unfold upd in Hm. destruct (Nat.eqb_spec m n) as [->|Hn]; [|apply He, Hm]. injection Hm as <-.
    destruct Hd as [Hd _]. eapply csound_aeq; [apply aeq_sym, Hd|]. apply csound_join; assumption.
  Qed.
  Lemma writes_sound rho l : forall e vs cs e' ncs, esound rho e -> Forall2 (den rho) l vs -> okl l vs cs -> writes e l cs = Ok (e', ncs) -> esound rho e'.
  Proof.
    induction l as [|a l IH]; intros e vs cs e' ncs He Hd Ho H; inversion Hd as [|? v ? vs' Ha Hd']; subst; unfold InverseProofs.okl in Ho; cbn [combine] in Ho; inversion Ho as [|? c ? cs' Hc Ho']; subst; cbn in H; [injection H as <- <-; exact He|].
    pose proof (write_sound rho e a v c He Ha Hc) as Hw. destruct (write e a c) as [e1 c1]. destruct (writes e1 l cs') as [[e2 n2]| | |] eqn:E; try discriminate. cbn in H. injection H as <- <-. eapply IH; [exact Hw|exact Hd'|exact Ho'|exact E].
  Qed.
  Lemma writes_len l : forall e cs r, writes e l cs = Ok r -> length cs = length l.
  Proof.
    induction l as [|a l IH]; intros e [|c cs] r H; cbn in H; try discriminate; [reflexivity|]. destruct (write e a c) as [e1 c1]. destruct (writes e1 l cs) as [x| | |] eqn:E; try discriminate. cbn. f_equal. eapply IH, E.
  Qed.
  (** the equation of a node holds of ρ, and its rule is sound *)
  Definition node_ok (rho : nat -> arrV) (nd : node) : Prop :=
    exists vi vo, Forall2 (den rho) (n_ins nd) vi /\ Forall2 (den rho) (n_outs nd) vo /\ forall st, rule_ok V W (n_ins nd) vi vo (n_rule nd st).
  Lemma loop_sound rho ord nodes : Forall (node_ok rho) nodes -> forall fuel stamp e ss q e' ss', esound rho e -> loop unknown new join cell_lt fuel ord stamp nodes e ss q = Ok (e', ss') -> esound rho e'.
  Proof.
    intros HN. induction fuel as [|fuel IH]; intros stamp e ss q e' ss' He H; [discriminate|]. cbn [loop] in H. destruct q as [|i q]; [injection H as <- <-; exact He|].
    destruct (nth_error nodes i) as [nd|] eqn:En; [|discriminate]. apply nth_error_In in En. rewrite Forall_forall in HN. destruct (HN nd En) as (vi & vo & Hi & Ho & Hr). specialize (Hr (1 :: fuel :: stamp)).
    destruct (n_rule nd (1 :: fuel :: stamp) (map (read e) (n_ins nd)) (map (read e) (n_outs nd))) as [[[ic' oc'] st]| | |] eqn:Er; try discriminate. cbn [rbind] in H.
    destruct (writes e (n_ins nd) ic') as [[e1 nic]| | |] eqn:E1; try discriminate. cbn [rbind] in H. destruct (writes e1 (n_outs nd) oc') as [[e2 noc]| | |] eqn:E2; try discriminate. cbn [rbind] in H.
    assert (Ln : length ic' = length (map (read e) (n_ins nd))) by (rewrite map_length; eapply writes_len, E1).
    unfold rule_ok in Hr. specialize (Hr _ _ _ _ _ (reads_sound rho e _ _ He Hi) (reads_sound rho e _ _ He Ho) Er Ln). destruct Hr as [Ei Eo].
    assert (He1 : esound rho e1) by (eapply writes_sound; [exact He|exact Hi|exact Ei|exact E1]). assert (He2 : esound rho e2). { eapply writes_sound; [exact He1|exact Ho| |exact E2]. apply okl_of; [apply F2_length in Ho; exact Ho|exact Eo]. }
    eapply IH; eassumption.
  Qed.
  Lemma init_unknown_sound rho nodes : Forall (node_ok rho) nodes -> forall e, esound rho e -> esound rho (init_unknown unknown new join e nodes).
  Proof.
    intros HN. unfold init_unknown. assert (X : Forall (fun a => exists v, den rho a v) (flat_map n_atoms nodes)).
    { apply Forall_forall. intros a Ha. apply in_flat_map in Ha as (nd & Hnd & Ha). rewrite Forall_forall in HN. destruct (HN nd Hnd) as (vi & vo & Hi & Ho & _). unfold n_atoms in Ha. apply in_app_or in Ha as [Ha|Ha]; [clear Ho; rename Hi into Ho; rename vi into vx|rename vo into vx]; clear -Ho Ha; (induction Ho as [|b v l m Hb Ho IH]; [destruct Ha|]; destruct Ha as [->|Ha]; [exists v; exact Hb|apply IH; assumption]). }
    induction X as [|a l (v & Hv) X IH]; intros e He; cbn [fold_left]; [exact He|]. apply IH. destruct a as [n av|lt|av]; try exact He. eapply write_sound; [exact He|exact Hv|]. right. destruct Hv as [_ ->]. apply csound_unknown.
  Qed.
  Lemma propagate_sound rho m fuel ord stamp fr nodes cc ic oc cs xs ys e s :
    Forall2 (den rho) (f_const fr) cs -> Forall2 (den rho) (f_in fr) xs -> Forall2 (den rho) (f_out fr) ys -> Forall (node_ok rho) nodes ->
    Forall2 csound cs cc -> Forall2 csound xs ic -> Forall2 csound ys oc -> prop V W w0 wplus cord m fuel ord stamp fr nodes cc ic oc = Ok (e, s) -> esound rho e.
  Proof.
    intros Hc Hi Ho HN Sc Si So H. unfold prop, propagate in H. destruct (initial unknown new join fr nodes cc ic oc) as [e0| | |] eqn:E0; try discriminate. cbn [rbind] in H.
    assert (He0 : esound rho e0).
    { unfold initial in E0. destruct (writes _ (f_const fr) cc) as [[e1 n1]| | |] eqn:E1; try discriminate. cbn [rbind] in E0. destruct (writes e1 (f_in fr) ic) as [[e2 n2]| | |] eqn:E2; try discriminate. cbn [rbind] in E0. destruct (writes e2 (f_out fr) oc) as [[e3 n3]| | |] eqn:E3; try discriminate. cbn [rbind] in E0. injection E0 as <-.
      assert (S1 : esound rho e1). { eapply writes_sound; [|exact Hc|apply okl_of; [eapply F2_length, Hc|exact Sc]|exact E1]. intros n c Hn. discriminate. }
      assert (S2 : esound rho e2). { eapply writes_sound; [exact S1|exact Hi|apply okl_of; [eapply F2_length, Hi|exact Si]|exact E2]. }
      assert (S3 : esound rho e3). { eapply writes_sound; [exact S2|exact Ho|apply okl_of; [eapply F2_length, Ho|exact So]|exact E3]. }
      apply init_unknown_sound; assumption. }
    destruct (loop _ _ _ _ _ _ _ _ _ _ _) as [[e1 ss]| | |] eqn:El; try discriminate. cbn [rbind] in H. injection H as <- _. eapply loop_sound; eassumption.
  Qed.

  (** ** Equations *)
  Notation node_of := (InverseModel.node_of V W w0 wplus cord).
  Lemma catch_ok m ia vi vo (r : list cell -> list cell -> result V W) : length ia = length vi -> rule_ok V W ia vi vo r -> rule_ok V W ia vi vo (fun ic oc => catch V W m (r ic oc) ic oc).
  Proof.
    intros Hl Hr ic oc ic' oc' s Hi Ho H Hlen. unfold catch in H. destruct m; [eapply Hr; eassumption|]. destruct (r ic oc) as [[[ic1 oc1] s1]| | |] eqn:E; try discriminate; injection H as <- <- <-; [eapply Hr; eassumption|]. split; [apply okl_of; assumption|exact Ho].
  Qed.
  Lemma initial_rule_ok rho' fuel ord st fr nodes ia vc vi vo : length ia = length (vc ++ vi) -> Forall2 (den rho') (f_const fr) vc -> Forall2 (den rho') (f_in fr) vi -> Forall2 (den rho') (f_out fr) vo -> Forall (node_ok rho') nodes ->
    rule_ok V W ia (vc ++ vi) vo (initial_rule V W w0 wplus cord fuel ord fr nodes st).
  Proof.
    intros Hl Hc Hi Ho HN ic oc ic' oc' s Si So H _. unfold initial_rule in H. destruct (prop _ _ _ _ _ _ _ _ _ _ _ _ _ _) as [[e s1]| | |] eqn:E; try discriminate. cbn [rbind] in H. injection H as <- <- <-.
    pose proof (F2_length _ _ _ Hc) as Lc. assert (Sc : Forall2 csound vc (firstn (length (f_const fr)) ic)). { apply (F2_firstn _ (length (f_const fr))) in Si. rewrite Lc, firstn_app, Nat.sub_diag, firstn_all, firstn_O, app_nil_r in Si. rewrite Lc. exact Si. }
    assert (Sx : Forall2 csound vi (skipn (length (f_const fr)) ic)). { apply (F2_skipn _ (length (f_const fr))) in Si. rewrite Lc, skipn_app, Nat.sub_diag, skipn_all, skipn_O in Si. rewrite Lc. exact Si. }
    assert (He : esound rho' e) by (eapply propagate_sound; eassumption). split; [|apply (reads_sound rho'); assumption]. apply okl_of; [exact Hl|]. apply Forall2_app; [exact Sc|apply (reads_sound rho'); assumption].
  Qed.
  Lemma icall_rule_ok rho' m fuel ord st fr nodes ia vi vo : length ia = length vi -> f_const fr = [] -> Forall2 (den rho') (f_in fr) vi -> Forall2 (den rho') (f_out fr) vo -> Forall (node_ok rho') nodes ->
    rule_ok V W ia vi vo (icall_rule V W w0 wplus cord m fuel ord fr nodes st).
  Proof.
    intros Hl Hc Hi Ho HN ic oc ic' oc' s Si So H _. unfold icall_rule in H. destruct (prop _ _ _ _ _ _ _ _ _ _ _ _ _ _) as [[e s1]| | |] eqn:E; try discriminate. cbn [rbind] in H. injection H as <- <- <-.
    assert (He : esound rho' e). { eapply propagate_sound with (cs := []); try eassumption; [rewrite Hc; constructor|constructor]. } split; [|apply (reads_sound rho'); assumption]. apply okl_of; [exact Hl|apply (reads_sound rho'); assumption].
  Qed.
  Lemma sample_rule_ok nc lp ia vi vo : length ia = length vi -> rule_ok V W ia vi vo (sample_rule V W nc lp).
  Proof.
    intros Hl ic oc ic' oc' s Si So H _. assert (D : okl ia vi ic /\ Forall2 csound vo oc) by (split; [apply okl_of; auto|auto]). unfold sample_rule in H. destruct (kn_all V W _) as [lx|]; [destruct (kn_all V W oc) as [lo|]|]; injection H as <- <- <-; exact D.
  Qed.
  Fixpoint node_of_ok (q0 : qn V W) {struct q0} : forall m rho fuel ord, eqn_holds V W m rho q0 -> node_ok rho (node_of m fuel ord q0).
  Proof.
    assert (L : forall eqns (IH : forall q, In q eqns -> forall m rho fuel ord, eqn_holds V W m rho q -> node_ok rho (node_of m fuel ord q)) m rho fuel ord, all_of (eqn_holds V W m rho) eqns -> Forall (node_ok rho) (map (node_of m fuel ord) eqns)).
    { clear. induction eqns as [|q eqns IHe]; intros IH m rho fuel ord H; cbn in *; [constructor|]. destruct H as [H1 H2]. constructor; [apply IH; auto|]. apply IHe; auto. }
    destruct q0 as [p i o|J i o|J i o|lp J i o|ps J i o]; intros m rho fuel ord H.
    - cbn in H. destruct H as (vi & vo & Hi & Ho & Hp). exists vi, vo. split; [exact Hi|]. split; [exact Ho|]. intros st. cbn [node_of n_ins n_outs n_rule]. apply catch_ok; [eapply F2_length, Hi|]. apply rules_ok; [exact cordp|eapply F2_length, Hi|exact Hp].
    - destruct J as [fr eqns]. cbn [eqn_holds] in H. destruct H as (vi & vo & Hi & Ho & rho' & Hc & Hfi & Hfo & Hall). exists vi, vo. split; [exact Hi|]. split; [exact Ho|]. intros st. cbn [InverseModel.node_of n_ins n_outs n_rule]. eapply (icall_rule_ok rho'); try eassumption; [eapply F2_length, Hi|].
      apply L; [|exact Hall]. clear -node_of_ok. induction eqns as [|q eqns IHe]; intros q' Hq; [destruct Hq|]. destruct Hq as [<-|Hq]; [apply node_of_ok|apply IHe, Hq].
    - destruct J as [fr eqns]. cbn [eqn_holds] in H. destruct H as (vc & vi & vo & Hi & Ho & rho' & Hc & Hfi & Hfo & Hall). exists (vc ++ vi), vo. split; [exact Hi|]. split; [exact Ho|]. intros st. cbn [InverseModel.node_of n_ins n_outs n_rule]. apply (catch_ok m _ _ _ (fun ic oc => initial_rule V W w0 wplus cord fuel ord fr (map (node_of MInverse fuel ord) eqns) st ic oc)); [eapply F2_length, Hi|]. eapply (initial_rule_ok rho'); try eassumption; [eapply F2_length, Hi|].
      apply L; [|exact Hall]. clear -node_of_ok. induction eqns as [|q eqns IHe]; intros q' Hq; [destruct Hq|]. destruct Hq as [<-|Hq]; [apply node_of_ok|apply IHe, Hq].
    - destruct J as [fr eqns]. cbn [eqn_holds] in H. destruct H as (vc & vi & vo & Hi & Ho & Hlc & Hm). exists (vc ++ vi), vo. destruct m; (split; [exact Hi|]; split; [exact Ho|]; intros st; cbn [InverseModel.node_of n_ins n_outs n_rule]).
      + destruct Hm as (rho' & Hc & Hfi & Hfo & Hall). eapply (initial_rule_ok rho'); try eassumption; [eapply F2_length, Hi|].
        apply L; [|exact Hall]. clear -node_of_ok. induction eqns as [|q eqns IHe]; intros q' Hq; [destruct Hq|]. destruct Hq as [<-|Hq]; [apply node_of_ok|apply IHe, Hq].
      + apply sample_rule_ok. eapply F2_length, Hi.
    - destruct J as [fr eqns]. cbn [eqn_holds] in H. destruct H as (vi & vo & Hi & Ho & rho' & Hc & Hfi & Hfo & Hall). exists vi, vo. split; [exact Hi|]. split; [exact Ho|]. intros st. cbn [InverseModel.node_of n_ins n_outs n_rule].
      assert (R : rule_ok V W i vi vo (icall_rule V W w0 wplus cord m fuel ord fr (map (node_of m fuel ord) eqns) st)).
      { eapply (icall_rule_ok rho'); try eassumption; [eapply F2_length, Hi|]. apply L; [|exact Hall]. clear -node_of_ok. induction eqns as [|q eqns IHe]; intros q' Hq; [destruct Hq|]. destruct Hq as [<-|Hq]; [apply node_of_ok|apply IHe, Hq]. }
      destruct m; [exact R|]. intros ic oc ic' oc' s Si So Hr Hlen. unfold plate_rule in Hr. destruct (icall_rule _ _ _ _ _ _ _ _ _ _ _ _ _) as [[[ic1 oc1] s1]| | |] eqn:E; try discriminate. cbn [rbind] in Hr. injection Hr as <- <- _. eapply R; eassumption.
  Qed.
  (** everything that is known at the end of a run is true of every assignment that satisfies the equations *)
  Lemma run_sound rho m fuel ord J cc ic oc cs xs ys e s : match J with Jx _ _ fr eqns => Forall2 (den rho) (f_const fr) cs /\ Forall2 (den rho) (f_in fr) xs /\ Forall2 (den rho) (f_out fr) ys /\ all_of (eqn_holds V W m rho) eqns end ->
    Forall2 csound cs cc -> Forall2 csound xs ic -> Forall2 csound ys oc -> run V W w0 wplus cord m fuel ord J cc ic oc = Ok (e, s) -> esound rho e.
  Proof.
    destruct J as [fr eqns]. intros (Hc & Hi & Ho & Hall) Sc Si So H. eapply propagate_sound; try eassumption. clear -Hall cordp. induction eqns as [|q eqns IH]; cbn in *; [constructor|]. destruct Hall as [H1 H2]. constructor; [apply node_of_ok, H1|apply IH, H2].
  Qed.
End Env.
