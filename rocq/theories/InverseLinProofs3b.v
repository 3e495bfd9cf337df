(** ILDJs and log-densities of linear programs: equations that pass the ILDJ on. *)
From Verif Require Export InverseLinProofs3.

Section Lin3b.
  Variables V W : Type.
  Variable w0 : W.
  Variable wplus : W -> W -> W.
  Variable cord : list (ndslice V W) -> list (ndslice V W).
  Hypothesis cordp : forall l, Permutation l (cord l).
  Notation cell := (cell V W).
  Notation unknown := (unknown V W). Notation new := (new V W w0). Notation join := (join V W cord). Notation cell_lt := (cell_lt V W).
  Notation arrV := (arr V). Notation arrW := (arr W).
  Notation atom := (atom (list nat) arrV). Notation frame := (frame (list nat) arrV). Notation env := (env cell).
  Notation node := (node cell (list nat) arrV tag (option W)). Notation qn := (qn V W).
  Notation csound := (csound V W). Notation den := (den V). Notation kn := (kn V W). Notation kn_all := (kn_all V W).
  Notation read := (read unknown new). Notation write := (write unknown new join). Notation writes := (writes unknown new join).
  Notation esound := (esound V W). Notation node_ok := (node_ok V W). Notation inz := (inz V).
  Notation zc := (zc V W). Notation ke := (ke V W). Notation zinv := (zinv V W). Notation zone_ok := (zone_ok V W w0).
  Notation asum := (asum W w0 wplus). Notation red := (red V W w0 wplus). Notation node_of := (InverseModel.node_of V W w0 wplus cord).
  Notation consumes := (consumes V W). Notation lin := (lin V W w0 wplus). Notation ildj_term := (ildj_term V W w0 wplus).
  Notation va := (@AVar (list nat) arrV).
  Notation rules := (rules V W w0 wplus cord).

  (** *** The other equations that pass the ILDJ on *)
  Lemma den_split rho l1 (a : atom) l2 vi : Forall2 (den rho) (l1 ++ a :: l2) vi -> exists v1 v v2, vi = v1 ++ v :: v2 /\ Forall2 (den rho) l1 v1 /\ den rho a v /\ Forall2 (den rho) l2 v2.
  Proof. intros H. apply Forall2_app_inv_l in H as (v1 & v2 & H1 & H2 & ->). inversion H2 as [|? v ? v2' Hv H2']; subst. exists v1, v, v2'. auto. Qed.
  Lemma skipn_map {X Y} (f : X -> Y) (l : list X) k : skipn k (map f l) = map f (skipn k l).
  Proof. revert l. induction k; intros [|x l]; cbn; auto. Qed.
  Lemma skipn_len {X} (l1 l2 : list X) : skipn (length l1) (l1 ++ l2) = l2.
  Proof. induction l1; cbn; auto. Qed.
  Lemma firstn_len {X} (l1 l2 : list X) : firstn (length l1) (l1 ++ l2) = l1.
  Proof. induction l1; cbn; f_equal; auto. Qed.
  Lemma tie_cells_app l1 c l2 m1 d m2 r : length l1 = length m1 -> tie_cells V W cord (l1 ++ c :: l2) (m1 ++ d :: m2) = Ok r -> exists r1 r2, r = r1 ++ join c d :: r2 /\ length r1 = length l1.
  Proof.
    revert m1 r. induction l1 as [|x l1 IH]; intros [|y m1] r Hl H; try discriminate Hl; cbn [app tie_cells] in H.
    - destruct (tie_cells _ _ _ l2 m2) as [q| | |]; try discriminate. cbn in H. injection H as <-. exists [], q. auto.
    - destruct (tie_cells _ _ _ _ _) as [q| | |] eqn:E; try discriminate. cbn in H. injection H as <-. destruct (IH m1 q ltac:(cbn in Hl; lia) E) as (r1 & r2 & -> & Hl'). exists (join x y :: r1), r2. split; [reflexivity|cbn; lia].
  Qed.
  (** only one variable of a list of atoms is in the zone *)
  Lemma one_in Z i1 x sh i2 (r1 : list cell) c r2 n av d : length r1 = length i1 -> clear_of V Z i1 -> clear_of V Z i2 -> In (AVar n av, d) (combine (i1 ++ AVar x sh :: i2) (r1 ++ c :: r2)) -> Z n -> n = x /\ d = c.
  Proof.
    intros Hl C1 C2 Hin Hn. rewrite combine_app2 in Hin by congruence. apply in_app_or in Hin as [Hin|Hin]; [exfalso; exact (clear_in V W Z _ n av d _ C1 Hin Hn)|]. cbn in Hin. destruct Hin as [Hin|Hin]; [injection Hin as <- _ <-; auto|exfalso; exact (clear_in V W Z _ n av d _ C2 Hin Hn)].
  Qed.
  Definition passes_on (rho : nat -> arrV) (Z : nat -> Prop) (L : nat -> arrW) p i o : Prop :=
    forall e ic' oc' s, esound rho e -> zinv Z L e ->
      (forall n, consumes Z (QPrim _ _ p i o) n -> ke e n -> forall n' av', In (va n' av') o -> Z n' -> ke e n') ->
      rules p (map (read e) i) (map (read e) o) = Ok (ic', oc', s) ->
      (forall n av c, In (AVar n av, c) (combine i ic') -> Z n -> zc (L n) c /\ (kn c <> None -> ke e n \/ consumes Z (QPrim _ _ p i o) n /\ forall n' av', In (va n' av') o -> Z n' -> ke e n')) /\
      (forall n av c, In (AVar n av, c) (combine o oc') -> Z n -> zc (L n) c /\ (kn c <> None -> ke e n)).
  Lemma consumes_in (Z : nat -> Prop) p (i o : list atom) n av a : In (AVar n av) i -> Z n -> In a o -> inz Z a -> consumes Z (QPrim _ _ p i o) n.
  Proof. intros H1 H2 H3 H4. split; [exact H2|]. split; [eauto|]. exists a. auto. Qed.
  Lemma copies_zone rho Z L p i o : copies V W L Z p i o -> passes_on rho Z L p i o.
  Proof.
    intros (Hp & x & y & sh & i1 & i2 & o1 & o2 & -> & -> & Hl & Ci1 & Ci2 & Co1 & Co2 & Zx & Zy & HL) e ic' oc' s He Hz HI H.
    assert (HC : consumes Z (QPrim V W p (i1 ++ AVar x sh :: i2) (o1 ++ AVar y sh :: o2)) x) by (apply (consumes_in Z p _ _ x sh (AVar y sh)); [apply in_or_app; right; left; reflexivity|exact Zx|apply in_or_app; right; left; reflexivity|exact Zy]).
    assert (HY : ke e y -> forall n' av', In (va n' av') (o1 ++ AVar y sh :: o2) -> Z n' -> ke e n').
    { intros Ky n' av' Hin Hn. unfold clear_of in Co1, Co2. rewrite Forall_forall in Co1, Co2. apply in_app_or in Hin as [Hin|[Hin|Hin]]; [exfalso; exact (Co1 _ Hin Hn)|injection Hin as <- <-; exact Ky|exfalso; exact (Co2 _ Hin Hn)]. }
    assert (HXY : ke e x -> ke e y). { intros Kx. apply (HI x HC Kx) with (av' := sh); [apply in_or_app; right; left; reflexivity|exact Zy]. }
    assert (HT : tie_rule V W cord (map (read e) (i1 ++ AVar x sh :: i2)) (map (read e) (o1 ++ AVar y sh :: o2)) = Ok (ic', oc', s)).
    { destruct Hp as [->| ->]; cbn [InverseModel.rules] in H; [exact H|]. unfold sow_rule in H. destruct (kn_all (map (read e) (i1 ++ AVar x sh :: i2))) as [l|] eqn:El; [|exact H].
      destruct (forallb _ _) eqn:Ef in H; [exfalso|exact H].
      assert (Kx : ke e x). { apply (ke_read V W w0 e x sh). intros Hk. clear -El Hk. revert l El. induction i1 as [|a i1 IH]; intros l El; cbn [app map InverseModel.kn_all] in El; [change (InverseModel.kn_all V W (read e (AVar x sh) :: map (read e) i2) = Some l) in El; cbn [InverseModel.kn_all] in El; rewrite Hk in El; discriminate|]. destruct (kn (read e a)); [|discriminate]. destruct (kn_all (map (read e) (i1 ++ AVar x sh :: i2))) eqn:E2; [|discriminate]. eapply IH; reflexivity. }
      apply HXY in Kx. apply (ke_read V W w0 e y sh) in Kx. apply (kn_top V W) in Kx. rewrite forallb_forall in Ef. specialize (Ef (read e (AVar y sh))). rewrite Kx in Ef. discriminate Ef. apply in_map, in_or_app. right. left. reflexivity. }
    clear H. unfold tie_rule in HT. destruct (tie_cells _ _ _ _ _) as [l| | |] eqn:Et; try discriminate. cbn in HT. injection HT as <- <- <-.
    rewrite !map_app, !map_cons in Et. destruct (tie_cells_app (map (read e) i1) (read e (AVar x sh)) (map (read e) i2) (map (read e) o1) (read e (AVar y sh)) (map (read e) o2) _ ltac:(rewrite !map_length; exact Hl) Et) as (r1 & r2 & -> & Hr). rewrite map_length in Hr.
    pose proof (zc_read V W w0 Z L e x sh Hz Zx) as Z1. pose proof (zc_read V W w0 Z L e y sh Hz Zy) as Z2.
    pose proof (zc_aeq V W _ _ _ (aeq_sym _ _ HL) Z2) as Z2'. destruct (zc_join V W cord _ _ _ Z1 Z2') as [J1 J2]. split.
    - intros n av c Hin Hn. destruct (one_in Z i1 x sh i2 r1 _ r2 n av c Hr Ci1 Ci2 Hin Hn) as [-> ->]. split; [exact J1|]. intros Hk. apply J2 in Hk as [Hk|Hk]; [left; apply (ke_read V W w0 e x sh), Hk|right]. split; [exact HC|]. apply HY, (ke_read V W w0 e y sh), Hk.
    - intros n av c Hin Hn. destruct (one_in Z o1 y sh o2 r1 _ r2 n av c ltac:(congruence) Co1 Co2 Hin Hn) as [-> ->]. split; [exact (zc_aeq V W _ _ _ HL J1)|]. intros Hk. apply J2 in Hk as [Hk|Hk]; [apply HXY, (ke_read V W w0 e x sh), Hk|apply (ke_read V W w0 e y sh), Hk].
  Qed.
  Lemma custom_zone rho Z L p i o : eqn_holds V W MInverse rho (QPrim _ _ p i o) -> custom V W wplus rho L Z p i o -> passes_on rho Z L p i o.
  Proof.
    intros HE (F & g & h & cs & x & shx & y & shy & -> & -> & -> & Cc & Zx & Zy & Hh & Hs & HL) e ic' oc' s He Hz HI H.
    assert (HC : consumes Z (QPrim V W (PCustom V W (length cs) F (unary_inverse V W wplus g h)) (cs ++ [AVar x shx]) [AVar y shy]) x) by (apply (consumes_in Z _ _ _ x shx (AVar y shy)); [apply in_or_app; right; left; reflexivity|exact Zx|left; reflexivity|exact Zy]).
    destruct HE as (vi & vo & Di & Do & HP). apply den_split in Di as (v1 & vx & v2 & -> & D1 & Dx & D2). destruct Dx as [Ax Sx]. subst shx. inversion D2; subst. inversion Do as [|? vy ? ? Dy Do']; subst. destruct Dy as [Ay Sy]. subst shy. inversion Do'; subst. cbn [prim_holds] in HP.
    destruct HP as (HF & HPr & HInv). assert (Hlen : length cs = length v1) by (clear -D1; induction D1; cbn; congruence). rewrite Hlen, skipn_len in HInv.
    assert (Same : (forall n av c, In (AVar n av, c) (combine (cs ++ [AVar x (a_shape vx) : atom]) (map (read e) (cs ++ [AVar x (a_shape vx)]))) -> Z n -> zc (L n) c /\ (kn c <> None -> ke e n \/ consumes Z (QPrim V W (PCustom V W (length cs) F (unary_inverse V W wplus g h)) (cs ++ [AVar x (a_shape vx)]) [AVar y (a_shape vy)]) n /\ forall n' av', In (va n' av') [AVar y (a_shape vy)] -> Z n' -> ke e n')) /\
      (forall n av c, In (AVar n av, c) (combine [AVar y (a_shape vy) : atom] [read e (AVar y (a_shape vy))]) -> Z n -> zc (L n) c /\ (kn c <> None -> ke e n))).
    { split; intros n av c Hin Hn; [destruct (same_cells V W w0 Z L e _ Hz n av c Hin Hn)|destruct (same_cells V W w0 Z L e [_] Hz n av c Hin Hn)]; auto. }
    cbn [InverseModel.rules] in H. unfold custom_rule in H. rewrite map_app in H. cbn [map] in H. rewrite <- (map_length (read e) cs), firstn_len, skipn_len in H. cbn [InverseModel.kn_all] in H.
    destruct (kn (read e (AVar x (a_shape vx)))) as [[xv xj]|] eqn:Ex; destruct (kn (read e (AVar y (a_shape vy)))) as [[yv yj]|] eqn:Ey; cbn [vals map fst snd option_map] in H.
    - injection H as <- <- <-. rewrite map_app in Same. exact Same.
    - exfalso. assert (Fy : ke e y). { apply (HI x HC) with (av' := a_shape vy); [apply (ke_iff V W w0 e x (a_shape vx)); eauto|left; reflexivity|exact Zy]. } apply (ke_iff V W w0 e y (a_shape vy)) in Fy as (? & ? & Fy). congruence.
    - rewrite Ex in H. cbn [option_map unary_inverse rbind custom_cells] in H. injection H as <- <- <-. destruct Same as [_ Same]. split; [|exact Same].
      intros n av c Hin Hn. destruct (one_in Z cs x (a_shape vx) [] (map (read e) cs) _ [] n av c ltac:(apply map_length) Cc ltac:(constructor) Hin Hn) as [-> ->].
      split; [|intros _; right; split; [exact HC|]; intros n' av' [E|[]] _; injection E as <- <-; apply (ke_iff V W w0 e y (a_shape vy)); eauto].
      assert (Av : aeq yv (rho y)). { destruct (sc_known V W w0 e rho y (a_shape vy) He ltac:(symmetry; apply Ay)) as [_ Ky]. exact (Ky _ _ Ey). }
      destruct (sc_known V W w0 e rho x (a_shape vx) He ltac:(symmetry; apply Ax)) as [Cx _].
      assert (Ag : aeq (g yv) vx). { specialize (HInv [None] [yv] [yj] _ ltac:(repeat constructor) ltac:(constructor; [eapply aeq_trans; [exact Av|exact Ay]|constructor]) eq_refl). inversion HInv; subst; assumption. }
      eapply (zc_aeq V W); [apply aeq_sym, HL|]. right. eexists _, _. change (c_aval (match e x with Some c => c | None => unknown (a_shape vx) end)) with (c_aval (read e (AVar x (a_shape vx)))). rewrite Cx. split; [apply (kn_one V W), Ag|].
      assert (Aj : aeq yj (L y)) by (eapply (L_shape V W w0); eassumption). apply lift2_aeq; [apply Hh, Av|exact Aj|]. left. destruct (Hh _ Av) as [-> _]. rewrite Hs. symmetry. apply Aj.
    - injection H as <- <- <-. rewrite map_app in Same. exact Same.
  Qed.
  Lemma csound_reads rho e l vs : esound rho e -> Forall2 (fun a v => val_of V rho a = Some v) l vs -> forall vi, Forall2 (den rho) l vi -> Forall2 csound vi (map (read e) l) /\ Forall2 aeq vs vi.
  Proof.
    intros He H. induction H as [|a v l vs Hv H IH]; intros vi D; inversion D as [|? v' ? vi' Dv D']; subst; cbn [map]; [split; constructor|]. destruct (IH _ D') as [I1 I2]. split; constructor; auto; [apply (read_sound V W w0 rho); assumption|].
    destruct a as [n av|c|av]; cbn in Hv, Dv; [injection Hv as <-; apply Dv|injection Hv as <-; exact Dv|discriminate].
  Qed.
  Lemma bijector_zone rho Z L p i o : eqn_holds V W MInverse rho (QPrim _ _ p i o) -> bijector V W wplus rho L Z p i o -> passes_on rho Z L p i o.
  Proof.
    intros HE (F & G & J & cs & ps & vs & x & shx & y & shy & -> & -> & -> & Cc & Cp & Zx & Zy & Hvs & HJ & Hs & HL) e ic' oc' s He Hz HI H.
    set (pr := PBijector V W (length cs) (length ps) F G J) in *.
    assert (HC : consumes Z (QPrim V W pr (cs ++ ps ++ [AVar x shx]) [AVar y shy]) x) by (apply (consumes_in Z _ _ _ x shx (AVar y shy)); [apply in_or_app; right; apply in_or_app; right; left; reflexivity|exact Zx|left; reflexivity|exact Zy]).
    destruct HE as (vi & vo & Di & Do & HP). apply Forall2_app_inv_l in Di as (v1 & v2 & D1 & Di & ->). apply Forall2_app_inv_l in Di as (v3 & v4 & D3 & Di & ->). inversion Di as [|? vx ? ? Dx D4]; subst. destruct Dx as [Ax Sx]. subst shx. inversion D4; subst. clear Di D4. inversion Do as [|? vy ? ? Dy Do']; subst. destruct Dy as [Ay Sy]. subst shy. inversion Do'; subst. clear Do Do'. unfold pr in HP; cbn [prim_holds] in HP.
    assert (Hlc : length cs = length v1) by (clear -D1; induction D1; cbn; congruence). assert (Hlp : length ps = length v3) by (clear -D3; induction D3; cbn; congruence).
    destruct HP as (x0 & y0 & E1 & _ & E2 & _ & HFG). rewrite Hlc, Hlp, !skipn_len in E1. injection E1 as <-. injection E2 as <-. rewrite Hlc, Hlp, skipn_len, firstn_len in HFG.
    destruct (csound_reads rho e ps vs He Hvs v3 D3) as [Sp Ap].
    assert (Same : (forall n av c, In (AVar n av, c) (combine (cs ++ ps ++ [AVar x (a_shape vx) : atom]) (map (read e) (cs ++ ps ++ [AVar x (a_shape vx)]))) -> Z n -> zc (L n) c /\ (kn c <> None -> ke e n \/ consumes Z (QPrim V W pr (cs ++ ps ++ [AVar x (a_shape vx)]) [AVar y (a_shape vy)]) n /\ forall n' av', In (va n' av') [AVar y (a_shape vy)] -> Z n' -> ke e n')) /\
      (forall n av c, In (AVar n av, c) (combine [AVar y (a_shape vy) : atom] [read e (AVar y (a_shape vy))]) -> Z n -> zc (L n) c /\ (kn c <> None -> ke e n))).
    { split; intros n av c Hin Hn; [destruct (same_cells V W w0 Z L e _ Hz n av c Hin Hn)|destruct (same_cells V W w0 Z L e [_] Hz n av c Hin Hn)]; auto. }
    unfold pr in H. cbn [InverseModel.rules] in H. unfold bijector_rule in H. rewrite !map_app, !map_cons in H. cbn [map] in H. rewrite <- (map_length (read e) cs), firstn_len, skipn_len, <- (map_length (read e) ps), firstn_len, rev_app_distr in H. rewrite !map_app, !map_cons in Same. cbn [map] in Same.
    destruct (kn_all (map (read e) ps)) as [lb|] eqn:Eb; [|injection H as <- <- <-; exact Same].
    apply (csound_kn_all V W _ _ _ Sp) in Eb. cbn [rev app] in H.
    
    destruct (zc_read V W w0 Z L e x (a_shape vx) Hz Zx) as [Bx|(xv & xj & Ex & Axj)]; destruct (zc_read V W w0 Z L e y (a_shape vy) Hz Zy) as [By|(yv & yj & Ey & Ayj)].
    - unfold bottom in H. rewrite Bx, By in H. discriminate.
    - assert (Nb : bottom V W (read e (AVar y (a_shape vy))) = false). { unfold bottom. destruct (c_slices (read e (AVar y (a_shape vy)))) eqn:E; [|reflexivity]. rewrite (kn_bot V W (read e (AVar y (a_shape vy))) E) in Ey. discriminate. }
      rewrite Nb, Ey in H. unfold bottom in H. rewrite Bx in H. cbn [andb negb] in H. injection H as <- <- <-. split; [|apply Same].
      intros n av c Hin Hn. rewrite !app_assoc in Hin. destruct (one_in Z (cs ++ ps) x (a_shape vx) [] (map (read e) cs ++ map (read e) ps) _ [] n av c ltac:(rewrite !app_length, !map_length; reflexivity) ltac:(apply Forall_app; split; assumption) ltac:(constructor) Hin Hn) as [-> ->].
      split; [|intros _; right; split; [exact HC|]; intros n' av' [E|[]] _; injection E as <- <-; apply (ke_iff V W w0 e y (a_shape vy)); eauto].
      assert (Av : aeq yv (rho y)). { destruct (sc_known V W w0 e rho y (a_shape vy) He ltac:(symmetry; apply Ay)) as [_ Ky]. exact (Ky _ _ Ey). }
      destruct (sc_known V W w0 e rho x (a_shape vx) He ltac:(symmetry; apply Ax)) as [Cx _]. idtac.
      destruct (HFG _ Eb) as [_ HG]. assert (Ag : aeq (G (vals V W lb) yv) vx) by (apply HG; eapply aeq_trans; [exact Av|exact Ay]).
      eapply (zc_aeq V W); [apply aeq_sym, HL|]. right. eexists _, _. change (c_aval (match e x with Some c => c | None => unknown (a_shape vx) end)) with (c_aval (read e (AVar x (a_shape vx)))). rewrite Cx. split; [apply (kn_one V W), Ag|].
      assert (AJ : aeq (J (vals V W lb) yv) (J vs (rho y))). { apply HJ; [|exact Av]. assert (Ap' : Forall2 aeq v3 vs) by (clear -Ap; induction Ap; constructor; auto; apply aeq_sym; assumption). exact (F2_aeq_trans _ _ _ Eb Ap'). }
      apply lift2_aeq; [exact Ayj|exact AJ|]. destruct AJ as [EJ _]. destruct Ayj as [Ej _]. unfold bc. rewrite EJ, Ej. left; symmetry; exact Hs.
    - exfalso. assert (Fy : ke e y). { apply (HI x HC) with (av' := a_shape vy); [apply (ke_iff V W w0 e x (a_shape vx)); eauto|left; reflexivity|exact Zy]. } apply (ke_iff V W w0 e y (a_shape vy)) in Fy as (? & ? & Fy). idtac. rewrite (kn_bot V W (read e (AVar y (a_shape vy))) By) in Fy. discriminate.
    - assert (Nb : bottom V W (read e (AVar y (a_shape vy))) = false). { unfold bottom. destruct (c_slices (read e (AVar y (a_shape vy)))) eqn:E; [|reflexivity]. rewrite (kn_bot V W (read e (AVar y (a_shape vy))) E) in Ey. discriminate. }
      assert (Nx : bottom V W (read e (AVar x (a_shape vx))) = false). { unfold bottom. destruct (c_slices (read e (AVar x (a_shape vx)))) eqn:E; [|reflexivity]. rewrite (kn_bot V W (read e (AVar x (a_shape vx))) E) in Ex. discriminate. }
      rewrite Nb, Nx in H. discriminate.
  Qed.
  Lemma drops_zone rho Z L p i o : eqn_holds V W MInverse rho (QPrim _ _ p i o) -> drops V W w0 L Z p i o -> passes_on rho Z L p i o.
  Proof.
    intros HE (Hp & x & shx & y & shy & -> & -> & Zx & Zy & HLy & HLx) e ic' oc' s He Hz HI H.
    assert (HC : consumes Z (QPrim V W p [AVar x shx] [AVar y shy]) x) by (apply (consumes_in Z _ _ _ x shx (AVar y shy)); [left; reflexivity|exact Zx|left; reflexivity|exact Zy]).
    destruct HE as (vi & vo & Di & Do & HP). inversion Di as [|? vx ? ? Dx D4]; subst. destruct Dx as [Ax Sx]. subst shx. inversion D4; subst. clear Di D4. inversion Do as [|? vy ? ? Dy Do']; subst. destruct Dy as [Ay Sy]. subst shy. inversion Do'; subst. clear Do Do'.
    destruct (sc_known V W w0 e rho y (a_shape vy) He ltac:(symmetry; apply Ay)) as [_ Ky].
    destruct (sc_known V W w0 e rho x (a_shape vx) He ltac:(symmetry; apply Ax)) as [Cx _].
    assert (Same : (forall n av c, In (AVar n av, c) (combine [AVar x (a_shape vx) : atom] [read e (AVar x (a_shape vx))]) -> Z n -> zc (L n) c /\ (kn c <> None -> ke e n \/ consumes Z (QPrim V W p [AVar x (a_shape vx)] [AVar y (a_shape vy)]) n /\ forall n' av', In (va n' av') [AVar y (a_shape vy)] -> Z n' -> ke e n')) /\
      (forall n av c, In (AVar n av, c) (combine [AVar y (a_shape vy) : atom] [read e (AVar y (a_shape vy))]) -> Z n -> zc (L n) c /\ (kn c <> None -> ke e n))).
    { split; intros n av c Hin Hn; destruct (same_cells V W w0 Z L e [_] Hz n av c Hin Hn); auto. }
    assert (Cases : (ic' = [read e (AVar x (a_shape vx))] /\ oc' = [read e (AVar y (a_shape vy))]) \/ (exists yv yj v, kn (read e (AVar y (a_shape vy))) = Some (yv, yj) /\ a_shape v = a_shape vx /\ ic' = [new v] /\ oc' = [read e (AVar y (a_shape vy))])).
    { cbn [map] in H. destruct (kn (read e (AVar x (a_shape vx)))) as [[xv xj]|] eqn:Ex; destruct (kn (read e (AVar y (a_shape vy)))) as [[yv yj]|] eqn:Ey.
      - left. destruct Hp as [[sh ->]|(cv & back & ->)]; cbn [InverseModel.rules] in H; [unfold reshape_rule in H|unfold convert_rule in H]; rewrite Ex, Ey in H; injection H as <- <- <-; auto.
      - exfalso. assert (Fy : ke e y). { apply (HI x HC) with (av' := a_shape vy); [apply (ke_iff V W w0 e x (a_shape vx)); eauto|left; reflexivity|exact Zy]. } apply (ke_iff V W w0 e y (a_shape vy)) in Fy as (? & ? & Fy). congruence.
      - right. exists yv, yj. destruct Hp as [[sh ->]|(cv & back & ->)]; cbn [InverseModel.rules] in H; [unfold reshape_rule in H|unfold convert_rule in H]; rewrite Ex, Ey in H; injection H as <- <- <-; eexists; (split; [reflexivity|]); (split; [|split; reflexivity]); cbn [reshape_arr map_arr a_shape].
        + exact Cx.
        + cbn [prim_holds] in HP. destruct HP as (a & x0 & y0 & _ & E1 & E2 & [E3 _] & _). injection E1 as <-. injection E2 as <-. cbn in E3. rewrite <- E3. destruct (Ky _ _ eq_refl) as [-> _]. apply Ay.
      - left. destruct Hp as [[sh ->]|(cv & back & ->)]; cbn [InverseModel.rules] in H; [unfold reshape_rule in H|unfold convert_rule in H]; rewrite Ex, Ey in H; injection H as <- <- <-; auto. }
    destruct Cases as [[-> ->]|(yv & yj & v & Ey & Sv & -> & ->)]; [exact Same|]. split; [|apply Same].
    intros n av c [Hin|[]] Hn. injection Hin as <- <- <-. split; [|intros _; right; split; [exact HC|]; intros n' av' [E|[]] _; injection E as <- <-; apply (ke_iff V W w0 e y (a_shape vy)); eauto].
    eapply (zc_aeq V W); [apply aeq_sym, HLx|]. right. eexists _, _. split; [apply (kn_one V W); reflexivity|]. rewrite Sv. apply aeq_refl.
  Qed.
  Lemma concatenates_zone rho Z L p i o : eqn_holds V W MInverse rho (QPrim _ _ p i o) -> concatenates V W w0 L Z p i o -> passes_on rho Z L p i o.
  Proof.
    intros HE (d & y & sh & -> & -> & Zy & (a0 & Ha0 & Za0) & HLy & HLx) e ic' oc' s He Hz HI H.
    destruct a0 as [x0 sh0|?|?]; try contradiction Za0. cbn in Za0.
    assert (HC : forall n av, In (AVar n av) i -> Z n -> consumes Z (QPrim V W (PConcat V W d) i [AVar y sh]) n) by (intros n av Hin Hn; apply (consumes_in Z _ _ _ n av (AVar y sh)); [exact Hin|exact Hn|left; reflexivity|exact Zy]).
    destruct HE as (vi & vo & Di & Do & HP). inversion Do as [|? vy ? ? Dy Do']; subst. destruct Dy as [Ay Sy]. subst sh. inversion Do'; subst. clear Do Do'. cbn [prim_holds] in HP. destruct HP as (y0 & E0 & Hne & Hd & Hcat). injection E0 as <-.
    assert (Si : Forall2 csound vi (map (read e) i)) by (apply (reads_sound V W w0 rho); assumption). assert (So : Forall2 csound [vy] [read e (AVar y (a_shape vy))]) by (apply (reads_sound V W w0 rho e [_]); [exact He|constructor; [split; [exact Ay|reflexivity]|constructor]]).
    assert (Hlen : length i = length vi) by (clear -Di; induction Di; cbn; congruence).
    cbn [InverseModel.rules map] in H. unfold concat_rule in H.
    assert (SameO : forall n av c, In (AVar n av, c) (combine [va y (a_shape vy)] [read e (AVar y (a_shape vy))]) -> Z n -> zc (L n) c /\ (kn c <> None -> ke e n)) by (intros n av c Hin Hn; apply (same_cells V W w0 Z L e [_] Hz n av c Hin Hn)).
    assert (SameI : forall n av c, In (AVar n av, c) (combine i (map (read e) i)) -> Z n -> zc (L n) c /\ (kn c <> None -> ke e n \/ consumes Z (QPrim V W (PConcat V W d) i [AVar y (a_shape vy)]) n /\ forall n' av', In (va n' av') [AVar y (a_shape vy)] -> Z n' -> ke e n')).
    { intros n av c Hin Hn. destruct (same_cells V W w0 Z L e i Hz n av c Hin Hn) as [S1 S2]. split; [exact S1|]. intros Hk. left. exact (S2 Hk). }
    destruct (kn_all (map (read e) i)) as [l|] eqn:El.
    - destruct (concat_arr d (vals V W l)) as [a| | |] eqn:Ec; try discriminate. cbn [rbind] in H. injection H as <- <- <-. split; [exact SameI|]. intros n av c [Hin|[]] Hn. injection Hin as <- <- <-.
      assert (K0 : ke e x0). { apply (ke_read V W w0 e x0 sh0). intros Hk. clear -El Hk Ha0. revert l El. induction i as [|b i IH]; intros l El; [destruct Ha0|]. cbn [map InverseModel.kn_all] in El. destruct Ha0 as [->|Ha0]; [rewrite Hk in El; discriminate|]. destruct (kn (read e b)); [|discriminate]. destruct (kn_all (map (read e) i)) eqn:E2; [|discriminate]. eapply IH; [exact Ha0|reflexivity]. }
      split; [|intros _; apply (HI x0 (HC _ _ Ha0 Za0) K0) with (av' := a_shape vy); [left; reflexivity|exact Zy]].
      apply (csound_kn_all V W _ _ _ Si) in El. pose proof (concat_forward d (vals V W l) vi vy a Hne Hd Hcat El Ec) as Hf.
      eapply (zc_aeq V W); [apply aeq_sym, HLy|]. right. eexists _, _. split; [apply (kn_one V W); reflexivity|]. destruct Hf as [Hf _]. rewrite Hf. apply aeq_refl.
    - destruct (kn (read e (AVar y (a_shape vy)))) as [[yv yj]|] eqn:Ey; [|injection H as <- <- <-; split; [exact SameI|exact SameO]].
      destruct (zip3 (map (read e) i) _ _) as [l| | |] eqn:Ez; try discriminate. cbn [rbind] in H. injection H as <- <- <-. split; [|exact SameO].
      assert (Av : aeq yv vy). { destruct (sc_known V W w0 e rho y (a_shape vy) He ltac:(symmetry; apply Ay)) as [_ Ky]. eapply aeq_trans; [exact (Ky _ _ Ey)|exact Ay]. }
      assert (Aj : aeq yj (mk_arr (a_shape vy) (fun _ => w0))) by (eapply aeq_trans; [exact (L_shape V W w0 Z L rho e y (a_shape vy) yv yj Hz Zy He Ey)|exact HLy]).
      assert (X : forall vi ic lo l, Forall2 csound vi ic -> vi <> [] -> concat_of V d lo vi vy -> zip3 ic (split_arr d (sections V W d lo ic) lo yv) (split_arr d (sections V W d lo ic) lo yj) = Ok l ->
        Forall2 (fun c q => fst q = c /\ a_shape (fst (snd q)) = c_aval c /\ aeq (snd (snd q)) (mk_arr (c_aval c) (fun _ => w0))) ic l).
      { clear -Av Aj Hd. intros vi ic lo l Hi. revert lo l. induction Hi as [|x c vi ic Hc Hi IH]; intros lo l Hne Hy Hz; [congruence|]. destruct Hy as (E & G & Hy). pose proof (concat_of_le _ _ _ _ Hy) as Hle.
        assert (P : forall hi, hi = lo + nth d (a_shape x) 0 -> a_shape (piece d lo hi yv) = a_shape x). { intros hi ->. apply (piece_aeq d lo _ yv vy x); auto. }
        assert (Q : forall hi, hi = lo + nth d (a_shape x) 0 -> aeq (piece d lo hi yj) (mk_arr (a_shape x) (fun _ => w0))). { intros hi ->. apply (piece_aeq d lo _ yj (mk_arr (a_shape vy) (fun _ => w0)) (mk_arr (a_shape x) (fun _ => w0))); auto. }
        pose proof (csound_aval V W _ _ Hc) as Ca. destruct Hi as [|x' c' vi ic Hc' Hi].
        - cbn [concat_of] in Hy. cbn [sections split_arr zip3 rbind] in Hz. injection Hz as <-. constructor; [|constructor]. cbn [fst snd]. rewrite Ca. split; [reflexivity|]. split; [apply P; rewrite (proj1 Av); auto|apply Q; rewrite (proj1 Aj); auto].
        - change (sections V W d lo (c :: c' :: ic)) with ((lo + nth d (c_aval c) 0) :: sections V W d (lo + nth d (c_aval c) 0) (c' :: ic)) in Hz. rewrite Ca in Hz. remember (c' :: ic) as ic2 eqn:Eic2. clear Eic2. cbn [split_arr zip3] in Hz. destruct (zip3 ic2 (split_arr d (sections V W d (lo + nth d (a_shape x) 0) ic2) (lo + nth d (a_shape x) 0) yv) (split_arr d (sections V W d (lo + nth d (a_shape x) 0) ic2) (lo + nth d (a_shape x) 0) yj)) as [l'| | |] eqn:Ez; try discriminate. cbn [rbind] in Hz. injection Hz as <-. constructor; [|eapply IH; [discriminate|exact Hy|exact Ez]]. cbn [fst snd]. rewrite Ca. split; [reflexivity|]. split; [apply P; reflexivity|apply Q; reflexivity]. }
      specialize (X vi (map (read e) i) 0 l Si Hne Hcat Ez).
      intros n av c Hin Hn. pose proof (in_combine_l _ _ _ _ Hin) as Hi0. apply in_combine_nth in Hin as (k & H1 & H2). rewrite nth_error_map in H2. destruct (nth_error l k) as [q|] eqn:Eq; [|discriminate]. injection H2 as <-.
      assert (Hk' : nth_error (map (read e) i) k = Some (read e (AVar n av))) by (rewrite nth_error_map, H1; reflexivity). pose proof (F2_nth _ _ _ _ _ _ X Hk' Eq) as (Q1 & Q2 & Q3). cbn beta in Q1, Q2, Q3. rewrite Q1.
      split; [|intros _; right; split; [exact (HC _ _ Hi0 Hn)|]; intros n' av' [E|[]] _; injection E as <- <-; apply (ke_iff V W w0 e y (a_shape vy)); eauto].
      assert (Sav : c_aval (read e (AVar n av)) = av). { destruct (F2_nth_l _ _ _ _ _ Di H1) as (vn & _ & [An Sn]). destruct (sc_known V W w0 e rho n av He ltac:(rewrite Sn; symmetry; apply An)) as [Cn _]. exact Cn. }
      eapply (zc_aeq V W); [apply aeq_sym, (HLx n av Hi0 Hn)|]. right. eexists _, _. split; [apply (kn_one V W); exact Q2|]. rewrite Sav in Q3. exact Q3.
  Qed.
  Lemma through_zone m rho Z L p i o (nd : node) : eqn_holds V W m rho (QPrim _ _ p i o) -> through V W w0 wplus rho L Z p i o -> (forall st ic oc, n_rule nd st ic oc = catch V W m (rules p ic oc) ic oc) ->
    forall st e ic' oc' s, esound rho e -> zinv Z L e ->
      (forall n, consumes Z (QPrim _ _ p i o) n -> ke e n -> forall n' av', In (AVar n' av') o -> Z n' -> ke e n') ->
      n_rule nd st (map (read e) i) (map (read e) o) = Ok (ic', oc', s) ->
      (forall n av c, In (AVar n av, c) (combine i ic') -> Z n -> zc (L n) c /\ (kn c <> None -> ke e n \/ consumes Z (QPrim _ _ p i o) n /\ forall n' av', In (AVar n' av') o -> Z n' -> ke e n')) /\
      (forall n av c, In (AVar n av, c) (combine o oc') -> Z n -> zc (L n) c /\ (kn c <> None -> ke e n)).
  Proof.
    intros HE HT Hrule st e ic' oc' s He Hz HI H. rewrite Hrule in H. apply (catch_inv V W) in H. destruct H as [H|(-> & -> & ->)].
    2: { split; intros n av c Hin Hn; destruct (same_cells V W w0 Z L e _ Hz n av c Hin Hn); auto. }
    assert (HE' : eqn_holds V W MInverse rho (QPrim _ _ p i o)) by exact HE.
    destruct HT as [HT|[HT|[HT|[HT|HT]]]]; [apply (copies_zone rho) in HT|apply (custom_zone rho) in HT|apply (bijector_zone rho) in HT|apply (drops_zone rho) in HT|apply (concatenates_zone rho) in HT]; try exact HE'; exact (HT e ic' oc' s He Hz HI H).
  Qed.
End Lin3b.
