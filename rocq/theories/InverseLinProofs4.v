(** ILDJs and log-densities of linear programs: all equations, and the sum. *)
From Verif Require Export InverseLinProofs3b.

Section Lin4.
  Variables V W : Type.
  Variable w0 : W.
  Variable wplus : W -> W -> W.
  Variable cord : list (ndslice V W) -> list (ndslice V W).
  Hypothesis cordp : forall l, Permutation l (cord l).
  Notation cell := (cell V W).
  Notation unknown := (unknown V W). Notation new := (new V W w0). Notation join := (join V W cord). Notation cell_lt := (cell_lt V W).
  Notation arrV := (arr V). Notation arrW := (arr W).
  Notation atom := (atom (list nat) arrV). Notation frame := (frame (list nat) arrV). Notation env := (env cell).
  Notation node := (node cell (list nat) arrV tag (option W)). Notation qn := (qn V W).
  Notation csound := (csound V W). Notation den := (den V). Notation kn := (kn V W). Notation kn_all := (kn_all V W).
  Notation read := (read unknown new). Notation write := (write unknown new join). Notation writes := (writes unknown new join).
  Notation esound := (esound V W). Notation node_ok := (node_ok V W). Notation inz := (inz V).
  Notation zc := (zc V W). Notation ke := (ke V W). Notation zinv := (zinv V W). Notation zone_ok := (zone_ok V W w0).
  Notation asum := (asum W w0 wplus). Notation red := (red V W w0 wplus). Notation node_of := (InverseModel.node_of V W w0 wplus cord).
  Notation consumes := (consumes V W). Notation lin := (lin V W w0 wplus). Notation ildj_term := (ildj_term V W w0 wplus).
  Notation rules := (rules V W w0 wplus cord). Notation Pq := (Pq V W w0 wplus). Notation attached := (attached V W).

  Lemma forward_zone m Z L K p i o (nd : node) : forward V W Z K p i o -> (forall st ic oc, n_rule nd st ic oc = catch V W m (rules p ic oc) ic oc) ->
    forall st e ic' oc' s, zinv Z L e -> (forall n, K n -> ke e n) -> n_rule nd st (map (read e) i) (map (read e) o) = Ok (ic', oc', s) ->
      (forall n av c, In (AVar n av, c) (combine i ic') -> Z n -> zc (L n) c /\ (kn c <> None -> ke e n)).
  Proof.
    intros (Ho & HF) Hrule st e ic' oc' s Hz HK H n av c Hin Hn. rewrite Hrule in H. apply catch_inv in H. destruct H as [H|(-> & -> & ->)]; [|apply (same_cells V W w0 Z L e i Hz n av c Hin Hn)].
    enough (X : forall a c, In (a, c) (combine i ic') -> inz Z a -> c = read e a). { rewrite (X _ _ Hin Hn). apply (zc_same V W w0 Z L); assumption. }
    assert (Same : forall a c, In (a, c) (combine i (map (read e) i)) -> c = read e a). { intros a c' Ha. apply in_combine_nth in Ha as (k & H1 & H2). rewrite nth_error_map, H1 in H2. injection H2 as <-. reflexivity. }
    clear c Hin Hn. intros a c Hin Ha. destruct HF as [(F & ->)|[(f & x & sh & -> & -> & Kx)|(b & x & sh & c0 & -> & -> & Kx & Nc)]]; cbn [InverseModel.rules] in H.
    - unfold default_rule in H. destruct (forallb _ _); [destruct (kn_all _); injection H as <- _ _; apply Same, Hin|]. destruct (existsb _ _); [|discriminate]. injection H as <- _ _. apply Same, Hin.
    - cbn [map] in H. unfold elem_rule in H. destruct (map (read e) o) as [|o1 [|]]; try discriminate. apply HK in Kx. apply (ke_iff V W w0 e x sh) in Kx as (v & j & Ek). rewrite Ek in H. destruct (kn o1); injection H as <- _ _; apply Same, Hin.
    - cbn [map] in H. unfold bin_rule in H. destruct (map (read e) o) as [|o1 [|]]; try discriminate. apply HK in Kx. apply (ke_iff V W w0 e x sh) in Kx as (v & j & Ek). rewrite Ek in H. destruct (kn o1) as [[v1 j1]|]; [injection H as <- _ _|].
      + destruct Hin as [Hin|[Hin|[]]]; [apply Same; left; exact Hin|]. injection Hin as -> <-. contradiction.
      + destruct (kn (read e c0)) as [[? ?]|]; injection H as <- _ _; apply Same, Hin.
  Qed.

  (** *** The reducer *)
  Lemma reduce_none e ss (nodes : list node) i : reduce (red MLogProb) e ss nodes i None = None.
  Proof. revert i. induction nodes as [|nd nodes IH]; intros i; cbn [reduce]; [reflexivity|]. exact (IH _). Qed.
  Lemma ildj_sum_eq Z L e o : zinv Z L e -> Forall (inz Z) o -> (forall n av, In (AVar n av) o -> ke e n) ->
    fold_left (fun s a => match kn (read e a) with Some (_, j) => wplus s (asum j) | None => s end) o w0 = ildj_term L o.
  Proof.
    intros Hz. unfold InverseLinSpec.ildj_term. enough (X : forall s, Forall (inz Z) o -> (forall n av, In (AVar n av) o -> ke e n) -> fold_left (fun s a => match kn (read e a) with Some (_, j) => wplus s (asum j) | None => s end) o s = fold_left (fun s a => match a with AVar n _ => wplus s (asum (L n)) | _ => s end) o s) by (apply X). induction o as [|a o IH]; intros s Ho Hk; cbn [fold_left]; [reflexivity|]. inversion Ho as [|? ? Ha Ho']; subst. destruct a as [n av|l|av]; try destruct Ha. cbn in Ha.
    assert (X : exists v j, kn (read e (AVar n av)) = Some (v, j) /\ aeq j (L n)). { destruct (zc_read V W w0 Z L e n av Hz Ha) as [E|X]; [|exact X]. exfalso. pose proof (Hk n av (or_introl eq_refl)) as F. apply (ke_read V W w0 e n av) in F. apply F, kn_bot, E. }
    destruct X as (v & j & -> & A). rewrite (asum_aeq W w0 wplus _ _ A). apply IH; [exact Ho'|]. intros m mv Hin. apply (Hk m mv). right. exact Hin.
  Qed.
  Definition is_call (q : qn) : Prop := match q with QCall _ _ _ _ _ => True | _ => False end.
  (** the terms of an equation that the sum has: all, or none if it is a call that was never processed *)
  Definition kept (ss : nat -> option (option W)) (i : nat) (q : qn) (ts ts' : list W) : Prop := ts' = ts \/ is_call q /\ ts' = [] /\ ss i = None.
  Fixpoint keeps (ss : nat -> option (option W)) (i : nat) (qs : list qn) (tss tss' : list (list W)) : Prop :=
    match qs, tss, tss' with [], [], [] => True | q :: qs', ts :: tss1, ts' :: tss2 => kept ss i q ts ts' /\ keeps ss (S i) qs' tss1 tss2 | _, _, _ => False end.
  Lemma reduce_terms Z L e rho K fuel ord ss : zinv Z L e -> forall eqns tss i c w, Forall2 (lin MLogProb rho L Z K) eqns tss ->
    (forall k q ts, nth_error eqns k = Some q -> nth_error tss k = Some ts -> Pq MLogProb L q ts e (ss (i + k))) ->
    reduce (red MLogProb) e ss (map (node_of MLogProb fuel ord) eqns) i (Some c) = Some w ->
    exists tss', w = fold_left wplus (concat tss') c /\ keeps ss i eqns tss tss'.
  Proof.
    intros Hz. induction eqns as [|q eqns IH]; intros tss i c w HL HP H; inversion HL as [|? ts ? tss1 Hq HL']; subst; cbn [map reduce] in H; [injection H as <-; exists []; split; [reflexivity|exact I]|].
    assert (HP' : forall k q' ts', nth_error eqns k = Some q' -> nth_error tss1 k = Some ts' -> Pq MLogProb L q' ts' e (ss (S i + k))). { intros k q' ts' H1 H2. replace (S i + k) with (i + S k) by lia. apply HP; assumption. }
    pose proof (HP 0 q ts eq_refl eq_refl eq_refl) as P0. rewrite Nat.add_0_r in P0.
    assert (Go : forall c' ts', red MLogProb e (node_of MLogProb fuel ord q) (Some c) (ss i) = Some c' -> c' = fold_left wplus ts' c -> kept ss i q ts ts' -> exists tss', w = fold_left wplus (concat tss') c /\ keeps ss i (q :: eqns) (ts :: tss1) tss').
    { intros c' ts' E1 E2 Hk. rewrite E1 in H. destruct (IH tss1 (S i) c' w HL' HP' H) as (tss' & -> & Hks). exists (ts' :: tss'). split; [|split; [exact Hk|exact Hks]]. cbn [concat]. rewrite fold_left_app, <- E2. reflexivity. }
    destruct q as [p qi qo|J qi qo|J qi qo|lp J qi qo|ps J qi qo].
    - cbn in P0. rewrite P0 in *. destruct Hq as (_ & -> & _). apply (Go c []); [reflexivity|reflexivity|left; reflexivity].
    - destruct J as [fr es]. destruct P0 as [P0|[P0|(w' & P0 & Et & _)]].
      + apply (Go c []); [rewrite P0; reflexivity|reflexivity|right; split; [exact I|split; [reflexivity|exact P0]]].
      + rewrite P0 in H. cbn [InverseModel.red] in H. rewrite reduce_none in H. discriminate.
      + apply (Go (wplus c w') [w']); [rewrite P0; reflexivity|reflexivity|left; symmetry; exact Et].
    - destruct J as [fr es]. cbn in P0. rewrite P0 in *. destruct Hq as (_ & -> & _). apply (Go c []); [reflexivity|reflexivity|left; reflexivity].
    - destruct J as [fr es]. destruct P0 as [P0|(w' & P0 & Et & Hk)].
      + rewrite P0 in H. cbn in H. rewrite reduce_none in H. discriminate.
      + destruct Hq as (_ & _ & Hoz & _). eapply (Go _ ts); [|subst ts; reflexivity|left; reflexivity]. rewrite P0. cbn [InverseModel.red InverseModel.node_of is_registered n_prim n_outs]. rewrite (ildj_sum_eq Z L e qo Hz Hoz Hk). subst ts. reflexivity.
    - destruct J as [fr es]. destruct P0 as [P0|[P0|(w' & P0 & Et & Hk)]].
      + rewrite P0 in H. cbn in H. rewrite reduce_none in H. discriminate.
      + rewrite P0 in H. cbn [InverseModel.red] in H. rewrite reduce_none in H. discriminate.
      + destruct Hq as (_ & Hoz & _). eapply (Go _ ts); [|subst ts; reflexivity|left; reflexivity]. rewrite P0. cbn [InverseModel.red InverseModel.node_of is_registered n_prim n_outs]. rewrite (ildj_sum_eq Z L e qo Hz Hoz Hk). subst ts. reflexivity.
  Qed.
  (** if the sum exists, no sample was left out *)
  Lemma reduce_some e fuel ord ss : forall eqns i c w k q, reduce (red MLogProb) e ss (map (node_of MLogProb fuel ord) eqns) i (Some c) = Some w -> nth_error eqns k = Some q ->
    ss (i + k) <> Some None /\ (is_registered V W (node_of MLogProb fuel ord q) = true -> ss (i + k) <> None).
  Proof.
    induction eqns as [|q0 eqns IH]; intros i c w k q H Hk; [destruct k; discriminate|]. cbn [map reduce] in H. destruct (red MLogProb e (node_of MLogProb fuel ord q0) (Some c) (ss i)) as [c'|] eqn:Er.
    - destruct k as [|k]; [injection Hk as ->; rewrite Nat.add_0_r|replace (i + S k) with (S i + k) by lia; apply (IH (S i) c' w k q H Hk)].
      cbn [InverseModel.red] in Er. split; [intros F; rewrite F in Er; discriminate|]. intros Hr F. rewrite F, Hr in Er. discriminate.
    - rewrite reduce_none in H. discriminate.
  Qed.
  Lemma any_in {X} (P : X -> Prop) l : any_of P l <-> exists x, In x l /\ P x.
  Proof.
    induction l as [|x l IH]; cbn; [split; [intros []|intros (? & [] & _)]|]. rewrite IH. split.
    - intros [H|(y & H1 & H2)]; eauto.
    - intros (y & [->|H1] & H2); eauto.
  Qed.
  Lemma kn_all_in l ks c : kn_all l = Some ks -> In c l -> kn c <> None.
  Proof. revert ks. induction l as [|d l IH]; intros ks H Hin; [destruct Hin|]. cbn in H. destruct (kn d) as [x|] eqn:E; [|discriminate]. destruct (kn_all l) as [xs|]; [|discriminate]. destruct Hin as [<-|Hin]; [congruence|eapply IH; [reflexivity|exact Hin]]. Qed.
  Lemma keeps_all ss : forall qs i tss tss', keeps ss i qs tss tss' -> (forall k q, nth_error qs k = Some q -> is_call q -> ss (i + k) <> None) -> tss' = tss.
  Proof.
    induction qs as [|q qs IH]; intros i [|t tss] [|t' tss'] H HA; cbn in H; try contradiction; [reflexivity|]. destruct H as [Hk H]. f_equal.
    - destruct Hk as [->|(Hc & _ & Hn)]; [reflexivity|]. exfalso. apply (HA 0 q eq_refl Hc). rewrite Nat.add_0_r. exact Hn.
    - apply (IH (S i)); [exact H|]. intros k q' Hq. replace (S i + k) with (i + S k) by lia. apply HA, Hq.
  Qed.
  Lemma F2_go m rho L Z K : forall l tl, (fix go (l : list qn) (tl : list (list W)) : Prop := match l, tl with [], [] => True | q' :: l', t :: tl' => lin m rho L Z K q' t /\ go l' tl' | _, _ => False end) l tl -> Forall2 (lin m rho L Z K) l tl.
  Proof. induction l as [|q l IH]; intros [|t tl] H; try contradiction; [constructor|]. destruct H as [H1 H2]. constructor; [exact H1|apply IH, H2]. Qed.
  Lemma lin_holds m rho L Z K q ts : lin m rho L Z K q ts -> eqn_holds V W m rho q.
  Proof. destruct q; intros H; apply H. Qed.

  (** a whole frame, given that its equations behave *)
  Lemma frame_zone m rho L Z K fr eqns tss fuel ord stamp cc ic oc cs xs ys e s : perm ord -> Forall2 (lin m rho L Z K) eqns tss ->
    (forall q ts, In q eqns -> lin m rho L Z K q ts -> zone_ok rho Z L K (consumes Z q) (node_of m fuel ord q) (Pq m L q ts)) -> InverseLinSpec.linear V W Z fr eqns ->
    Forall2 (den rho) (f_const fr) cs -> Forall2 (den rho) (f_in fr) xs -> Forall2 (den rho) (f_out fr) ys -> Forall2 csound cs cc -> Forall2 csound xs ic -> Forall2 csound ys oc ->
    clear_of V Z (f_const fr) -> (forall n av c, In (AVar n av, c) (combine (f_in fr) ic) -> Z n -> c_slices c = []) -> (forall n av c, In (AVar n av, c) (combine (f_out fr) oc) -> Z n -> zc (L n) c) ->
    (forall n, K n -> Z n /\ exists av c, In (AVar n av, c) (combine (f_out fr) oc) /\ kn c <> None) ->
    prop V W w0 wplus cord m fuel ord stamp fr (map (node_of m fuel ord) eqns) cc ic oc = Ok (e, s) ->
    esound rho e /\ zinv Z L e /\
    (forall n av, In (AVar n av) (f_out fr) -> Z n -> ke e n -> exists av c, In (AVar n av, c) (combine (f_out fr) oc) /\ kn c <> None) /\
    (m = MLogProb -> forall w, s = Some w -> exists ss tss', w = sumw W w0 wplus (concat tss') /\ keeps ss 0 eqns tss tss' /\
       forall k q, nth_error eqns k = Some q -> is_call q -> ss k = None -> ~ attached fr q /\ forall n av, In (AVar n av) (n_outs (node_of m fuel ord q)) -> Z n -> ~ ke e n) /\
    (m = MLogProb -> forall w, s = Some w -> Forall (attached fr) eqns -> forall n, pinned V W Z eqns n -> ke e n).
  Proof.
    intros Hp HL HZ [HU HO] Hc Hi Ho Sc Si So Zc Zi Zo HK H.
    pose (C := fun i n => exists q, nth_error eqns i = Some q /\ consumes Z q n). pose (P := fun i e s => forall q ts, nth_error eqns i = Some q -> nth_error tss i = Some ts -> Pq m L q ts e s). pose (Sf := fun i => exists q, nth_error eqns i = Some q /\ is_call q).
    assert (HN : forall i nd, nth_error (map (node_of m fuel ord) eqns) i = Some nd -> node_ok rho nd /\ zone_ok rho Z L K (C i) nd (P i) /\ (Sf i -> forall st ic oc r, n_rule nd st ic oc = Ok r -> snd r <> None)).
    { intros i nd Hn. rewrite nth_error_map in Hn. destruct (nth_error eqns i) as [q|] eqn:Eq; [|discriminate]. injection Hn as <-. destruct (F2_nth_l _ _ _ _ _ HL Eq) as (ts & Et & Hq). split; [apply node_of_ok; [exact cordp|eapply lin_holds, Hq]|]. split.
      - destruct (HZ q ts (nth_error_In _ _ Eq) Hq) as (Z1 & Z2 & Z3 & Z4). split; [intros n (q' & E' & Hcn); apply Z1; congruence|]. split; [intros e1 e2 s1 M Hs q' ts' E1 E2; assert (q' = q) as -> by congruence; assert (ts' = ts) as -> by congruence; apply (Z2 e1 e2 s1 M), Hs; [exact Eq|exact Et]|]. split; [intros e1 q' ts' _ _; apply Pq_none|].
        intros st e1 ic' oc' s1 A1 A2 A3 A4 A5 A6 A7. destruct (Z4 st e1 ic' oc' s1 A1 A2 A3) as (B1 & B2 & B3); [intros n Hcn; apply A4; exists q; auto|exact A5|exact A6|exact A7|]. split; [|split; [exact B2|intros q' ts' E1 E2; assert (q' = q) as -> by congruence; assert (ts' = ts) as -> by congruence; exact B3]].
        intros n av c Hin Hn. destruct (B1 n av c Hin Hn) as [D1 D2]. split; [exact D1|]. intros Hk. destruct (D2 Hk) as [?|[? ?]]; [left; assumption|right; split; [exists q; auto|assumption]].
      - intros (q' & E' & Hcall). assert (q' = q) as -> by congruence. destruct q as [|[fr' es'] qi qo| | |]; try destruct Hcall. intros st ic1 oc1 r Hr. cbn [InverseModel.node_of n_rule] in Hr. unfold icall_rule in Hr. clear H; destruct (prop _ _ _ _ _ _ _ _ _ _ _ _ _ _) as [[e1 s1]| | |]; try discriminate. cbn [rbind] in Hr. injection Hr as <-. discriminate. }
    destruct (prop_zone V W w0 wplus cord cordp rho Z L K C P Sf m fuel ord stamp fr _ cc ic oc cs xs ys e s Hp HN) as (ss & Es & A & B & _ & D & F & G & GI); try eassumption.
    - intros i j n (q & E1 & C1) (q' & E2 & C2). exact (HU i j q q' n E1 E2 C1 C2).
    - intros i nd n av _ (q & E1 & C1). exact (HO q n av (nth_error_In _ _ E1) C1).
    - split; [exact A|]. split; [exact B|]. split; [|split].
      + intros n av Hin Hn Hk. destruct (D n Hn Hk) as [X|(i & nd & _ & q & E1 & C1)]; [exact X|]. exfalso. exact (HO q n av (nth_error_In _ _ E1) C1 Hin).
      + intros -> w ->. symmetry in Es. destruct (reduce_terms Z L e rho K fuel ord ss B eqns tss 0 w0 w HL) as (tss' & Ew & Hks); [|exact Es|].
        * intros k q ts E1 E2. cbn. apply (F k (node_of MLogProb fuel ord q)); [rewrite nth_error_map, E1; reflexivity|exact E1|exact E2].
        * exists ss, tss'. split; [exact Ew|]. split; [exact Hks|]. intros k q E1 Hcall Hn. destruct (G k (node_of MLogProb fuel ord q)) as [G1 G2]; [rewrite nth_error_map, E1; reflexivity|exists q; auto|exact Hn|]. split; [|exact G2].
          intros Hat. destruct q as [|[fr' es'] qi qo| | |]; try destruct Hcall. destruct Hat as (n & av & av' & H1 & H2). apply (G1 n); apply in_flat_map; [exists (AVar n av)|exists (AVar n av')]; (split; [|left; reflexivity]); [unfold frame_atoms; rewrite !in_app_iff in *; tauto|exact H2].
      + intros -> w -> HAt n Hpin. symmetry in Es. induction Hpin as [q n Hq Hs|p i o n n' av' Hq Hcn Hpin IH Hin Hn'].
        * apply In_nth_error in Hq as (k & Eq). destruct (F2_nth_l _ _ _ _ _ HL Eq) as (ts & Et & Hl). destruct (reduce_some e fuel ord ss eqns 0 w0 w k q Es Eq) as [R1 R2]. cbn [Nat.add] in R1, R2.
          assert (Pk : Pq MLogProb L q ts e (ss k)). { apply (F k (node_of MLogProb fuel ord q)); [rewrite nth_error_map, Eq; reflexivity|exact Eq|exact Et]. } specialize (Pk eq_refl).
          destruct q as [|[fr' es'] qi qo| |lp [fr' es'] qi qo|ps [fr' es'] qi qo]; try contradiction.
          -- destruct Pk as [Pk|[Pk|(w' & _ & _ & Pk)]]; [exfalso|contradiction|exact (Pk n Hs)].
             destruct (G k (node_of MLogProb fuel ord (QCall V W (Jx V W fr' es') qi qo))) as [G1 _]; [rewrite nth_error_map, Eq; reflexivity|eexists; split; [exact Eq|exact I]|exact Pk|].
             rewrite Forall_forall in HAt. destruct (HAt _ (nth_error_In _ _ Eq)) as (n1 & av1 & av2 & H1 & H2). apply (G1 n1); apply in_flat_map; [exists (AVar n1 av1)|exists (AVar n1 av2)]; (split; [|left; reflexivity]); [unfold frame_atoms; rewrite !in_app_iff in *; tauto|exact H2].
          -- destruct Pk as [Pk|(w' & _ & _ & Pk)]; [exfalso; exact (R2 eq_refl Pk)|destruct Hs as [av Hs]; exact (Pk _ _ Hs)].
          -- destruct Pk as [Pk|[Pk|(w' & _ & _ & Pk)]]; [exfalso; exact (R2 eq_refl Pk)|contradiction|destruct Hs as [av Hs]; exact (Pk _ _ Hs)].
        * apply In_nth_error in Hq as (k & Eq). apply (GI k (node_of MLogProb fuel ord (QPrim V W p i o)) n n' av'); [rewrite nth_error_map, Eq; reflexivity|eexists; split; [exact Eq|exact Hcn]|exact IH|exact Hin|exact Hn'].
  Qed.
  Lemma sampled_in (q : qn) : forall m rho L Z K ts n, lin m rho L Z K q ts -> sampled V W q n -> Z n.
  Proof.
    revert q. fix IH 1. intros q m rho L Z K ts n HL Hs. destruct q as [|[fr es] qi qo| |lp [fr es] qi qo|ps [fr es] qi qo]; try contradiction.
    - destruct HL as (_ & Ci & rho' & L' & Z' & vi & vo & tss & _ & _ & _ & _ & _ & _ & _ & _ & _ & _ & Hrev & Hgo & _). destruct Hs as (n' & av' & av & Hin & Hs). rewrite Forall_forall in Hrev. apply (Hrev _ Hin). cbn. clear Hin Hrev Ci.
      revert tss Hgo. induction es as [|q es IHe]; intros tss Hgo; [destruct Hs|]. destruct tss as [|t tss]; [destruct Hgo|]. destruct Hgo as [H1 H2]. destruct Hs as [Hs|Hs]; [exact (IH q m rho' L' Z' _ t n' H1 Hs)|exact (IHe Hs tss H2)].
    - destruct HL as (_ & _ & Ho & _). destruct Hs as [av Hs]. rewrite Forall_forall in Ho. exact (Ho _ Hs).
    - destruct HL as (_ & Ho & _). destruct Hs as [av Hs]. rewrite Forall_forall in Ho. exact (Ho _ Hs).
  Qed.
  (** a call or a plate: its body *)
  Lemma call_zone m rho L Z rho' L' Z' vi vo tss fr es qi qo fuel ord st e ic' oc' s : perm ord -> esound rho e -> zinv Z L e -> clear_of V Z qi ->
    Forall2 (den rho) qi vi -> Forall2 (den rho) qo vo -> f_const fr = [] -> Forall2 (den rho') (f_in fr) vi -> Forall2 (den rho') (f_out fr) vo ->
    clear_of V Z' (f_in fr) -> NoDup (f_out fr) -> InverseLinSpec.linear V W Z' fr es -> Forall (attached fr) es ->
    Forall2 (fun a b => match a with AVar n _ => inz Z b -> Z' n /\ exists n' av', b = AVar n' av' /\ L' n = L n' | _ => ~ inz Z b end) (f_out fr) qo ->
    Forall (fun ab => inz Z' (fst ab) -> inz Z (snd ab)) (combine (f_out fr) qo) -> Forall2 (lin m rho' L' Z' (fun _ => False)) es tss ->
    (forall q ts, In q es -> lin m rho' L' Z' (fun _ => False) q ts -> zone_ok rho' Z' L' (fun _ => False) (consumes Z' q) (node_of m fuel ord q) (Pq m L' q ts)) ->
    icall_rule V W w0 wplus cord m fuel ord fr (map (node_of m fuel ord) es) st (map (read e) qi) (map (read e) qo) = Ok (ic', oc', s) ->
    (forall n av c, In (AVar n av, c) (combine qo oc') -> Z n -> zc (L n) c /\ (kn c <> None -> ke e n)) /\
    exists s1, s = Some s1 /\ (m = MLogProb -> forall w, s1 = Some w -> w = sumw W w0 wplus (concat tss) /\ forall n' av' n av, In (AVar n' av', AVar n av) (combine (f_out fr) qo) -> pinned V W Z' es n' -> Z' n' -> ke e n).
  Proof.
    intros Hp He Hz Ci Di Do Hc Hfi Hfo Cf Nd Hlin Hat Hout Hrev Hgo HZ H.
    unfold icall_rule in H. destruct (prop _ _ _ _ _ _ _ _ _ _ _ _ _ _) as [[e1 s1]| | |] eqn:E; try discriminate. cbn [rbind] in H. injection H as <- <- <-.
    assert (Zo : forall n av c, In (AVar n av, c) (combine (f_out fr) (map (read e) qo)) -> Z' n -> exists n' av', Z n' /\ L' n = L n' /\ c = read e (AVar n' av') /\ In (AVar n av, AVar n' av') (combine (f_out fr) qo)).
    { intros n av c Hin Hn. apply in_combine_nth in Hin as (k & H1 & H2). rewrite nth_error_map in H2. destruct (nth_error qo k) as [b|] eqn:Eb; [|discriminate]. injection H2 as <-. assert (Hin : In (AVar n av, b) (combine (f_out fr) qo)) by (apply in_combine_nth; eauto). rewrite Forall_forall in Hrev. specialize (Hrev _ Hin Hn). cbn in Hrev.
      pose proof (F2_nth _ _ _ _ _ _ Hout H1 Eb) as Hr. cbn in Hr. destruct (Hr Hrev) as (_ & n' & av' & -> & EL). exists n', av'. cbn in Hrev. auto. }
    destruct (frame_zone m rho' L' Z' (fun _ => False) fr es tss fuel ord st [] (map (read e) qi) (map (read e) qo) [] vi vo e1 s1 Hp Hgo HZ Hlin) as (A & B & D & F & G); [rewrite Hc; constructor|exact Hfi|exact Hfo|constructor|apply (reads_sound V W w0 rho); assumption|apply (reads_sound V W w0 rho); assumption|rewrite Hc; constructor| | |contradiction|exact E|].
    { intros n av c Hin Hn. exfalso. exact (clear_in V W Z' (f_in fr) n av c _ Cf Hin Hn). }
    { intros n av c Hin Hn. destruct (Zo n av c Hin Hn) as (n' & av' & Hz' & -> & -> & _). apply (zc_read V W w0 Z L); assumption. }
    assert (KO : forall n' av' n av, In (AVar n' av', AVar n av) (combine (f_out fr) qo) -> Z' n' -> ke e1 n' -> ke e n).
    { intros n av n' av' Hin Hz' X2. apply in_combine_nth in Hin as (k & Ea & H1).
      destruct (D n av (nth_error_In _ _ Ea) Hz' X2) as (av3 & c3 & Hin3 & Hk3).
      assert (av3 = av) as ->. { apply in_combine_l in Hin3. apply In_nth_error in Hin3 as (k3 & E3). destruct (F2_nth_l _ _ _ _ _ Hfo E3) as (v3 & _ & D3). destruct (F2_nth_l _ _ _ _ _ Hfo Ea) as (v4 & _ & D4). cbn in D3, D4. destruct D3 as [[S3 _] ->], D4 as [[S4 _] ->]. congruence. }
      apply in_combine_nth in Hin3 as (k3 & E3 & E4). assert (k3 = k) as ->. { apply (proj1 (NoDup_nth_error (f_out fr)) Nd); [apply nth_error_Some; congruence|congruence]. }
      rewrite nth_error_map, H1 in E4. injection E4 as <-. apply (ke_read V W w0 e n' av'). exact Hk3. }
    split.
    - intros n' av' c Hin Hn'. apply in_combine_nth in Hin as (k & H1 & H2). rewrite nth_error_map in H2. destruct (nth_error (f_out fr) k) as [a|] eqn:Ea; [|discriminate]. injection H2 as <-. pose proof (F2_nth _ _ _ _ _ _ Hout Ea H1) as Hr. cbn in Hr.
      destruct a as [n av|l|av]; [|contradiction|contradiction]. destruct (Hr Hn') as (Hz' & n2 & av2 & E2 & EL). injection E2 as <- <-. rewrite <- EL. destruct (zc_same V W w0 Z' L' e1 n av B Hz') as [X1 X2]. split; [exact X1|]. intros Hk. apply (KO n av n' av'); [apply in_combine_nth; eauto|exact Hz'|exact (X2 Hk)].
    - exists s1. split; [reflexivity|]. intros Hm w ->. split.
      + destruct (F Hm w eq_refl) as (ss & tss' & Ew & Hks & Hun). assert (tss' = tss) as ->; [|exact Ew].
        apply (keeps_all ss es 0 _ _ Hks). intros k q Eq Hcall Hn. destruct (Hun k q Eq Hcall Hn) as [Hna _]. apply Hna. rewrite Forall_forall in Hat. apply Hat. eapply nth_error_In, Eq.
      + intros n' av' n av Hin Hpin Hz'. apply (KO n' av' n av Hin Hz'). exact (G Hm w eq_refl Hat n' Hpin).
  Qed.
  Fixpoint node_zone (q : qn) : forall m rho L Z K ts fuel ord, perm ord -> lin m rho L Z K q ts -> zone_ok rho Z L K (consumes Z q) (node_of m fuel ord q) (Pq m L q ts).
  Proof.
    intros m rho L Z K ts fuel ord Hp HL. split; [intros n Hc; destruct q; try destruct Hc; assumption|]. split.
    { intros e e' s M. apply Pq_mono with (Z := Z); [|exact M]. intros n. exact (sampled_in q m rho L Z K ts n HL). }
    split; [intros e; apply Pq_none|]. intros st e ic' oc' s He Hz HK HI H Hli Hlo.
    destruct q as [p qi qo|[fr es] qi qo|[fr es] qi qo|lp [fr es] qi qo|ps [fr es] qi qo]; [| | | |].
    - destruct HL as (HE & _ & Hcase). cbn [InverseModel.node_of n_ins n_outs] in *.
      assert (HR : forall st ic oc, n_rule (node_of m fuel ord (QPrim V W p qi qo)) st ic oc = catch V W m (rules p ic oc) ic oc) by reflexivity.
      assert (Sn : s = None). { rewrite HR in H. apply catch_inv in H as [H|(_ & _ & ->)]; [|reflexivity]. eapply rules_state, H. }
      destruct Hcase as [[Ci Co]|[HS|[HF|HT]]].
      + split; [intros n av c Hin Hn; exfalso; exact (clear_in V W Z qi n av c _ Ci Hin Hn)|]. split; [intros n av c Hin Hn; exfalso; exact (clear_in V W Z qo n av c _ Co Hin Hn)|]. intros _. exact Sn.
      + destruct (step_zone V W w0 wplus cord m rho Z L K p qi qo (node_of m fuel ord (QPrim V W p qi qo)) HE HS eq_refl eq_refl HR st e ic' oc' s He Hz HK HI H) as [A B]. split; [exact A|]. split; [exact B|]. intros _. exact Sn.
      + split; [|split; [|intros _; exact Sn]].
        * intros n av c Hin Hn. destruct (forward_zone m Z L K p qi qo (node_of m fuel ord (QPrim V W p qi qo)) HF HR st e ic' oc' s Hz HK H n av c Hin Hn). auto.
        * intros n av c Hin Hn. exfalso. exact (clear_in V W Z qo n av c _ (proj1 HF) Hin Hn).
      + destruct (through_zone V W w0 wplus cord m rho Z L p qi qo (node_of m fuel ord (QPrim V W p qi qo)) HE HT HR st e ic' oc' s He Hz HI H) as [A B]. split; [exact A|]. split; [exact B|]. intros _. exact Sn.
    - destruct HL as (_ & Ci & rho' & L' & Z' & vi & vo & tss & Di & Do & Hc & Hfi & Hfo & Cf & Nd & Hlin & Hat & Hout & Hrev & Hgo & Et). apply F2_go in Hgo. cbn [InverseModel.node_of n_ins n_outs n_rule] in *.
      assert (HZ : forall q ts, In q es -> lin m rho' L' Z' (fun _ => False) q ts -> zone_ok rho' Z' L' (fun _ => False) (consumes Z' q) (node_of m fuel ord q) (Pq m L' q ts)).
      { clear -node_zone Hp. induction es as [|q es IHe]; intros q' ts' Hq Hl'; [destruct Hq|]. destruct Hq as [<-|Hq]; [apply node_zone; assumption|apply IHe; assumption]. }
      destruct (call_zone m rho L Z rho' L' Z' vi vo tss fr es qi qo fuel ord st e ic' oc' s Hp He Hz Ci Di Do Hc Hfi Hfo Cf Nd Hlin Hat Hout Hrev Hgo HZ H) as (A & s1 & -> & B).
      split; [intros n av c Hin Hn; exfalso; exact (clear_in V W Z qi n av c _ Ci Hin Hn)|]. split; [exact A|].
      intros Hm. right. destruct s1 as [w|]; [right|left; reflexivity]. destruct (B Hm w eq_refl) as [-> B2]. exists (sumw W w0 wplus (concat tss)). split; [reflexivity|]. split; [exact Et|].
      intros n (n' & av' & av & Hin & Hs). apply any_in in Hs as (q & Hq & Hs). apply (B2 n' av' n av Hin); [eapply pin_sample; eassumption|]. apply In_nth_error in Hq as (k & Eq). destruct (F2_nth_l _ _ _ _ _ Hgo Eq) as (t & _ & Hl). exact (sampled_in q m rho' L' Z' _ t n' Hl Hs).
    - destruct HL as (_ & -> & _ & Ci & Co). cbn [InverseModel.node_of n_ins n_outs n_rule] in *. split; [intros n av c Hin Hn; exfalso; exact (clear_in V W Z qi n av c _ Ci Hin Hn)|]. split; [intros n av c Hin Hn; exfalso; exact (clear_in V W Z qo n av c _ Co Hin Hn)|]. intros _.
      apply catch_inv in H as [H|(_ & _ & ->)]; [|reflexivity]. unfold initial_rule in H. destruct (prop _ _ _ _ _ _ _ _ _ _ _ _ _ _) as [[e1 s1]| | |]; try discriminate. cbn in H. injection H as _ _ <-. reflexivity.
    - destruct HL as (_ & -> & Ho & Hlp & vi & vo & Di & Do & Et). cbn [InverseModel.node_of n_ins n_outs n_rule] in *. unfold sample_rule in H.
      assert (X : ic' = map (read e) qi /\ oc' = map (read e) qo). { destruct (kn_all (skipn 1 _)); [destruct (kn_all (map _ qo))|]; injection H as <- <- _; auto. }
      destruct X as [-> ->]. split; [intros n av c Hin Hn; destruct (same_cells V W w0 Z L e qi Hz n av c Hin Hn); auto|]. split; [intros n av c Hin Hn; apply (same_cells V W w0 Z L e qo Hz n av c Hin Hn)|]. intros _.
      destruct (kn_all (skipn 1 _)) as [lx|] eqn:Ex; [|injection H as <-; left; reflexivity]. destruct (kn_all (map (read e) qo)) as [lo|] eqn:Eo; [|injection H as <-; left; reflexivity]. injection H as <-. right. eexists. split; [reflexivity|].
      assert (Sx : Forall2 aeq (vals V W lx) (skipn 1 (skipn (length (f_const fr)) vi))). { eapply csound_kn_all; [|exact Ex]. do 2 apply F2_skipn. apply (reads_sound V W w0 rho); assumption. }
      assert (So : Forall2 aeq (vals V W lo) vo). { eapply csound_kn_all; [|exact Eo]. apply (reads_sound V W w0 rho); assumption. }
      split; [rewrite Et; f_equal; symmetry; apply (Hlp _ _ Sx), So|]. intros n av Hin. apply (ke_read V W w0 e n av). eapply kn_all_in; [exact Eo|]. apply in_map, Hin.
    - destruct HL as (_ & Ho & Ci & rho' & L' & Z' & vi & vo & tss & Di & Do & Hc & Hfi & Hfo & Cf & Nd & Hlin & Hat & Hout & Hrev & Hgo & Hpin & Et). apply F2_go in Hgo. cbn [InverseModel.node_of n_ins n_outs n_rule] in *.
      assert (HZ : forall q ts, In q es -> lin m rho' L' Z' (fun _ => False) q ts -> zone_ok rho' Z' L' (fun _ => False) (consumes Z' q) (node_of m fuel ord q) (Pq m L' q ts)).
      { clear -node_zone Hp. induction es as [|q es IHe]; intros q' ts' Hq Hl'; [destruct Hq|]. destruct Hq as [<-|Hq]; [apply node_zone; assumption|apply IHe; assumption]. }
      assert (X : exists s0, icall_rule V W w0 wplus cord m fuel ord fr (map (node_of m fuel ord) es) st (map (read e) qi) (map (read e) qo) = Ok (ic', oc', s0) /\ (m = MLogProb -> s = match s0 with Some (Some w) => Some (Some (ps w)) | _ => s0 end)).
      { clear -H. destruct m; [exists s; split; [exact H|discriminate]|]. unfold plate_rule in H. destruct (icall_rule _ _ _ _ _ _ _ _ _ _ _ _ _) as [[[ic0 oc0] s0]| | |]; try discriminate. cbn [rbind] in H. injection H as <- <- <-. exists s0. auto. }
      destruct X as (s0 & H0 & Es).
      destruct (call_zone m rho L Z rho' L' Z' vi vo tss fr es qi qo fuel ord st e ic' oc' s0 Hp He Hz Ci Di Do Hc Hfi Hfo Cf Nd Hlin Hat Hout Hrev Hgo HZ H0) as (A & s1 & -> & B).
      split; [intros n av c Hin Hn; exfalso; exact (clear_in V W Z qi n av c _ Ci Hin Hn)|]. split; [exact A|].
      intros Hm. rewrite (Es Hm). right. destruct s1 as [w|]; [right|left; reflexivity]. destruct (B Hm w eq_refl) as [-> B2]. exists (ps (sumw W w0 wplus (concat tss))). split; [reflexivity|]. split; [exact Et|].
      intros n av Hin. apply In_nth_error in Hin as (k & Ek). destruct (F2_nth_r _ _ _ _ _ Hout Ek) as (a & Ea & Hr). assert (Hzn : inz Z (AVar n av)) by (rewrite Forall_forall in Ho; exact (Ho _ (nth_error_In _ _ Ek))).
      destruct a as [n' av'|l|av']; [|contradiction|contradiction]. destruct (Hr Hzn) as (Hz' & _). apply (B2 n' av' n av); [apply in_combine_nth; eauto| |exact Hz']. exact (Hpin n' av' (nth_error_In _ _ Ea)).
  Qed.
End Lin4.
