(** C39: ildj obeys the change-of-variables formula.  C40: log_prob is the sum of the log-densities of the samples and of their ILDJs. *)
From Verif Require Export InverseLinProofs4 InverseProps.

Section Props.
  Variables V W : Type.
  Variable w0 : W.
  Variable wplus : W -> W -> W.
  Variable cord : list (ndslice V W) -> list (ndslice V W).
  Hypothesis cordp : forall l, Permutation l (cord l).
  Notation arrV := (arr V). Notation arrW := (arr W). Notation qn := (qn V W).
  Notation lin_run := (lin_run V W w0 wplus). Notation ildj_term := (ildj_term V W w0 wplus). Notation sumw := (sumw W w0 wplus).
  Notation inverse_and_ildj := (inverse_and_ildj V W w0 wplus cord). Notation ildj_of := (ildj_of V W w0 wplus cord). Notation log_prob := (log_prob V W w0 wplus cord).
  Notation attached := (attached V W). Notation inz := (inz V). Notation clear_of := (clear_of V). Notation is_call := (is_call V W).

  Lemma kn_new (y : arrV) : kn V W (new V W w0 y) = Some (y, mk_arr (a_shape y) (fun _ => w0)).
  Proof. apply kn_one. reflexivity. Qed.
  Lemma outs_zone rho L (Z : nat -> Prop) fr ys : Forall2 (den V rho) (f_out fr) ys -> (forall n av, In (AVar n av) (f_out fr) -> Z n -> aeq (L n) (mk_arr av (fun _ => w0))) ->
    (forall n av c, In (AVar n av, c) (combine (f_out fr) (map (new V W w0) ys)) -> Z n -> zc V W (L n) c) /\
    (forall n, Z n /\ (exists av, In (AVar n av) (f_out fr)) -> Z n /\ exists av c, In (AVar n av, c) (combine (f_out fr) (map (new V W w0) ys)) /\ kn V W c <> None).
  Proof.
    intros Ho HL. split.
    - intros n av c Hin Hn. apply in_combine_nth in Hin as (k & H1 & H2). rewrite nth_error_map in H2. destruct (nth_error ys k) as [y|] eqn:Ey; [|discriminate]. injection H2 as <-. right. eexists _, _. split; [apply kn_new|]. pose proof (F2_nth _ _ _ _ _ _ Ho H1 Ey) as D. cbn in D. destruct D as [_ <-]. apply aeq_sym, HL; [eapply nth_error_In, H1|exact Hn].
    - intros n (Hn & av & Hin). split; [exact Hn|]. apply In_nth_error in Hin as (k & H1). destruct (F2_nth_l _ _ _ _ _ Ho H1) as (y & Ey & _). exists av, (new V W w0 y). split; [apply in_combine_nth; exists k; rewrite nth_error_map, Ey; auto|]. rewrite kn_new. discriminate.
  Qed.
  Lemma ilist_sum L Z e ins l : zinv V W Z L e -> Forall (inz Z) ins -> kn_all V W (map (read (unknown V W) (new V W w0) e) ins) = Some l -> ildj_sum W w0 wplus (map snd l) = ildj_term L ins.
  Proof.
    intros Hz. unfold ildj_sum, InverseLinSpec.ildj_term. enough (X : forall s l, Forall (inz Z) ins -> kn_all V W (map (read (unknown V W) (new V W w0) e) ins) = Some l -> fold_left (fun s j => wplus s (asum W w0 wplus j)) (map snd l) s = fold_left (fun s a => match a with AVar n _ => wplus s (asum W w0 wplus (L n)) | _ => s end) ins s) by (apply X). clear l. induction ins as [|a ins IH]; intros s l Ha H; cbn in H; [injection H as <-; reflexivity|]. inversion Ha as [|? ? Ha1 Ha2]; subst. destruct a as [n av|t|av]; try destruct Ha1. cbn [InverseLinSpec.inz] in Ha1.
    destruct (kn V W (read (unknown V W) (new V W w0) e (AVar n av))) as [[v j]|] eqn:Ek; [|discriminate]. destruct (kn_all V W _) as [xs|] eqn:Es; [|discriminate]. injection H as <-. cbn [map snd fold_left]. rewrite (IH _ xs Ha2 eq_refl). f_equal. f_equal. apply asum_aeq.
    destruct (zc_read V W w0 Z L e n av Hz Ha1) as [E|(v' & j' & E & A)]; [rewrite (kn_bot V W _ E) in Ek; discriminate|]. rewrite E in Ek. injection Ek as <- <-. exact A.
  Qed.
  Lemma run_zone m fuel ord fr eqns cs xs ys rho L Z tss ic e s : perm ord -> lin_run m fr eqns cs xs ys rho L Z tss -> Forall2 (csound V W) xs ic -> (forall n av c, In (AVar n av, c) (combine (f_in fr) ic) -> Z n -> c_slices c = []) ->
    run V W w0 wplus cord m fuel ord (Jx _ _ fr eqns) (map (new V W w0) cs) ic (map (new V W w0) ys) = Ok (e, s) ->
    esound V W rho e /\ zinv V W Z L e /\
    (m = MLogProb -> forall w, s = Some w -> exists ss tss', w = sumw (concat tss') /\ keeps V W ss 0 eqns tss tss' /\
       forall k q, nth_error eqns k = Some q -> is_call q -> ss k = None -> ~ attached fr q /\ forall n av, In (AVar n av) (n_outs (InverseModel.node_of V W w0 wplus cord m fuel ord q)) -> Z n -> ~ ke V W e n).
  Proof.
    intros Hp (Hc & Hi & Ho & Cc & Hlin & HL & HE) Si Zi H. destruct (outs_zone rho L Z fr ys Ho HL) as [Zo HK].
    destruct (frame_zone V W w0 wplus cord cordp m rho L Z _ fr eqns tss fuel ord [] (map (new V W w0) cs) ic (map (new V W w0) ys) cs xs ys e s Hp HE) as (A & B & _ & D & _); try assumption; try apply news_sound.
    - intros q ts _ Hq. apply (node_zone V W w0 wplus cord cordp); assumption.
    - split; [exact A|]. split; [exact B|exact D].
  Qed.
  Lemma unknowns_in Z ins n av c : In (AVar n av, c) (combine ins (map (fun a => unknown V W (aval_of V a)) ins)) -> (Z n : Prop) -> c_slices c = [].
  Proof. intros Hin _. apply in_combine_r in Hin. apply in_map_iff in Hin as (a & <- & _). reflexivity. Qed.

  (** C39.  For a program of elementwise operations and binary operations with constants (or computed side values), the inputs
      being inverted through them: inverse_and_ildj, if it returns, gives the inputs and the ILDJs of the change-of-variables
      formula, and ildj their sum over inputs and elements; for every schedule. *)
  Theorem C39_ildj fuel ord fr eqns cs xs ys rho L Z tss l : perm ord -> lin_run MInverse fr eqns cs xs ys rho L Z tss -> Forall (inz Z) (f_in fr) ->
    inverse_and_ildj fuel ord (Jx _ _ fr eqns) cs ys = Ok l -> Forall2 aeq (map fst l) xs /\ Forall2 (fun j a => match a with AVar n _ => aeq j (L n) | _ => False end) (map snd l) (f_in fr).
  Proof.
    intros Hp HR Hz H. unfold InverseModel.inverse_and_ildj in H. cbn [j_frame] in H. destruct (run _ _ _ _ _ _ _ _ _ _ _ _) as [[e s]| | |] eqn:E; try discriminate. cbn [rbind] in H. destruct (kn_all V W _) as [l'|] eqn:Ek; [|discriminate]. injection H as ->.
    assert (Hi : Forall2 (den V rho) (f_in fr) xs) by apply HR. destruct (run_zone MInverse fuel ord fr eqns cs xs ys rho L Z tss _ e s Hp HR (unknowns_sound V W rho _ _ Hi) (unknowns_in Z _) E) as (A & B & _). split.
    - eapply csound_kn_all; [|exact Ek]. apply (reads_sound V W w0 rho); assumption.
    - clear -B Hz Ek. revert l Ek. induction (f_in fr) as [|a ins IH]; intros l Ek; [injection Ek as <-; constructor|]. inversion Hz as [|? ? Ha1 Ha2]; subst. destruct a as [n av|t|av]; try destruct Ha1. cbn [InverseLinSpec.inz] in Ha1.
      cbn [map InverseModel.kn_all] in Ek. remember (read (unknown V W) (new V W w0) e (AVar n av)) as c0 eqn:Ec0.
      destruct (kn V W c0) as [[v j]|] eqn:E1; [|discriminate]. destruct (kn_all V W (map _ ins)) as [xs|] eqn:Es; [|discriminate]. injection Ek as <-. cbn [map snd]. constructor; [|apply IH; auto].
      destruct (zc_read V W w0 Z L e n av B Ha1) as [E2|(v' & j' & E2 & A)]; rewrite <- Ec0 in E2; [rewrite (kn_bot V W _ E2) in E1; discriminate|]. rewrite E2 in E1. injection E1 as <- <-. exact A.
  Qed.
  Theorem C39_ildj_sum fuel ord fr eqns cs xs ys rho L Z tss w : perm ord -> lin_run MInverse fr eqns cs xs ys rho L Z tss -> Forall (inz Z) (f_in fr) ->
    ildj_of fuel ord (Jx _ _ fr eqns) cs ys = Ok w -> w = ildj_term L (f_in fr).
  Proof.
    intros Hp HR Hz H. unfold InverseModel.ildj_of, InverseModel.inverse_and_ildj in H. cbn [j_frame] in H. destruct (run _ _ _ _ _ _ _ _ _ _ _ _) as [[e s]| | |] eqn:E; try discriminate. cbn [rbind] in H. destruct (kn_all V W _) as [l|] eqn:Ek; [|discriminate]. cbn [rbind] in H. injection H as <-.
    assert (Hi : Forall2 (den V rho) (f_in fr) xs) by apply HR. destruct (run_zone MInverse fuel ord fr eqns cs xs ys rho L Z tss _ e s Hp HR (unknowns_sound V W rho _ _ Hi) (unknowns_in Z _) E) as (A & B & _).
    apply (ilist_sum L Z e); assumption.
  Qed.

  (** the sum has all terms of every equation, except those of calls that share no variable with the inputs and outputs *)
  Fixpoint terms_but (omit : qn -> Prop) (qs : list qn) (tss tss' : list (list W)) : Prop :=
    match qs, tss, tss' with [], [], [] => True | q :: qs', ts :: tss1, ts' :: tss2 => (ts' = ts \/ ts' = [] /\ omit q) /\ terms_but omit qs' tss1 tss2 | _, _, _ => False end.
  Lemma terms_but_all (omit : qn -> Prop) qs : forall tss tss', Forall (fun q => ~ omit q) qs -> terms_but omit qs tss tss' -> tss' = tss.
  Proof. induction qs as [|q qs IH]; intros [|t tss] [|t' tss'] HF H; cbn in H; try contradiction; [reflexivity|]. inversion HF; subst. destruct H as [[->|[_ ?]] H]; [|contradiction]. f_equal. apply IH; assumption. Qed.
  Theorem C40_log_prob_partial fuel ord fr eqns cs k args ys rho L Z tss w : perm ord -> lin_run MLogProb fr eqns cs (k :: args) ys rho L Z tss -> clear_of Z (skipn 1 (f_in fr)) ->
    log_prob fuel ord (Jx _ _ fr eqns) cs ys args = Ok w ->
    exists tss', w = sumw (concat tss') /\ terms_but (fun q => is_call q /\ ~ attached fr q) eqns tss tss'.
  Proof.
    intros Hp HR Hz H. unfold InverseModel.log_prob in H. cbn [j_frame] in H. destruct (f_in fr) as [|ka ins] eqn:Ei; [discriminate|]. destruct (run _ _ _ _ _ _ _ _ _ _ _ _) as [[e s]| | |] eqn:E; try discriminate. cbn [rbind] in H. destruct s as [w'|]; [|discriminate]. injection H as ->.
    assert (Hi : Forall2 (den V rho) (f_in fr) (k :: args)) by apply HR. rewrite Ei in Hi. inversion Hi as [|? ? ? ? Hk Ha]; subst.
    destruct (run_zone MLogProb fuel ord fr eqns cs (k :: args) ys rho L Z tss (unknown V W (aval_of V ka) :: map (new V W w0) args) e (Some w) Hp HR) as (_ & _ & D); [| |exact E|].
    - constructor; [|apply news_sound]. pose proof (unknowns_sound V W rho [ka] [k] (Forall2_cons _ _ Hk (Forall2_nil _))) as X. inversion X; assumption.
    - intros n av c Hin Hn. rewrite Ei in Hin. destruct Hin as [Hin|Hin]; [injection Hin as _ <-; reflexivity|]. exfalso. cbn [skipn] in Hz. exact (clear_in V W Z ins n av c _ Hz Hin Hn).
    - destruct (D eq_refl w eq_refl) as (ss & tss' & Ew & Hk' & Hun). exists tss'. split; [exact Ew|]. clear -Hk' Hun. assert (X : forall i, (forall j q, nth_error eqns j = Some q -> is_call q -> ss (i + j) = None -> ~ attached fr q) -> keeps V W ss i eqns tss tss' -> terms_but (fun q => is_call q /\ ~ attached fr q) eqns tss tss').
      { clear. revert tss tss'. induction eqns as [|q qs IH]; intros [|t tss] [|t' tss'] i HA H; cbn in H; try contradiction; [exact I|]. destruct H as [Hk H]. split; [|apply (IH tss tss' (S i)); [|exact H]; intros j q' Hj; replace (S i + j) with (i + S j) by lia; apply HA; exact Hj]. destruct Hk as [->|(Hc & -> & Hn)]; [left; reflexivity|right; split; [reflexivity|split; [exact Hc|]]]. apply (HA 0 q eq_refl Hc). rewrite Nat.add_0_r. exact Hn. }
      apply (X 0); [|exact Hk']. intros j q Hj Hc Hn. apply (Hun j q Hj Hc Hn).
  Qed.
  (** no term is missing when every call uses an input or an output of the program *)
  Theorem C40_log_prob_exact fuel ord fr eqns cs k args ys rho L Z tss w : perm ord -> lin_run MLogProb fr eqns cs (k :: args) ys rho L Z tss -> clear_of Z (skipn 1 (f_in fr)) -> Forall (attached fr) eqns ->
    log_prob fuel ord (Jx _ _ fr eqns) cs ys args = Ok w -> w = sumw (concat tss).
  Proof.
    intros Hp HR Hz HA H. destruct (C40_log_prob_partial fuel ord fr eqns cs k args ys rho L Z tss w Hp HR Hz H) as (tss' & -> & HT). apply terms_but_all in HT; [congruence|]. eapply Forall_impl; [|exact HA]. intros q Hq [_ F]. contradiction.
  Qed.
End Props.
