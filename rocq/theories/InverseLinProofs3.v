(** ILDJs and log-densities of linear programs: the equations. *)
From Verif Require Export InverseLinProofs2.

Section Lin3.
  Variables V W : Type.
  Variable w0 : W.
  Variable wplus : W -> W -> W.
  Variable cord : list (ndslice V W) -> list (ndslice V W).
  Hypothesis cordp : forall l, Permutation l (cord l).
  Notation cell := (cell V W).
  Notation unknown := (unknown V W). Notation new := (new V W w0). Notation join := (join V W cord). Notation cell_lt := (cell_lt V W).
  Notation arrV := (arr V). Notation arrW := (arr W).
  Notation atom := (atom (list nat) arrV). Notation frame := (frame (list nat) arrV). Notation env := (env cell).
  Notation node := (node cell (list nat) arrV tag (option W)). Notation qn := (qn V W).
  Notation csound := (csound V W). Notation den := (den V). Notation kn := (kn V W). Notation kn_all := (kn_all V W).
  Notation read := (read unknown new). Notation write := (write unknown new join). Notation writes := (writes unknown new join).
  Notation esound := (esound V W). Notation node_ok := (node_ok V W). Notation inz := (inz V).
  Notation zc := (zc V W). Notation ke := (ke V W). Notation zinv := (zinv V W). Notation zone_ok := (zone_ok V W w0).
  Notation asum := (asum W w0 wplus). Notation red := (red V W w0 wplus). Notation node_of := (InverseModel.node_of V W w0 wplus cord).
  Notation consumes := (consumes V W). Notation lin := (lin V W w0 wplus). Notation ildj_term := (ildj_term V W w0 wplus).
  Notation rules := (rules V W w0 wplus cord).

  Definition Pq (m : mode) (L : nat -> arrW) (q : qn) (ts : list W) (e : env) (s : option (option W)) : Prop := m = MLogProb ->
    match q with
    | QPrim _ _ _ _ _ => s = None
    | QInitial _ _ _ _ _ => s = None
    | QSample _ _ _ _ _ o => s = None \/ exists w, s = Some (Some w) /\ ts = [w; ildj_term L o] /\ forall n av, In (AVar n av) o -> ke e n
    | QCall _ _ _ _ _ => s = None \/ s = Some None \/ exists w, s = Some (Some w) /\ ts = [w] /\ forall n, sampled V W q n -> ke e n
    | QPlate _ _ _ _ _ o => s = None \/ s = Some None \/ exists w, s = Some (Some w) /\ ts = [w; ildj_term L o] /\ forall n av, In (AVar n av) o -> ke e n
    end.
  Lemma Pq_none m L q ts e : Pq m L q ts e None.
  Proof. intros _. destruct q; auto. Qed.
  Lemma Pq_mono m L Z q ts e e' s : (forall n, sampled V W q n -> Z n) -> (forall n, Z n -> ke e n -> ke e' n) -> Pq m L q ts e s -> Pq m L q ts e' s.
  Proof.
    intros HZ M H Hm. specialize (H Hm). destruct q as [|J i o| |lp J i o|ps J i o]; auto.
    - destruct H as [H|[H|(w & H1 & H2 & H3)]]; [left; exact H|right; left; exact H|right; right; exists w; split; [exact H1|split; [exact H2|]]]. intros n Hs. apply M; [exact (HZ n Hs)|exact (H3 n Hs)].
    - destruct H as [H|(w & H1 & H2 & H3)]; [left; exact H|right; exists w; split; [exact H1|split; [exact H2|]]]. intros n av Hin. apply M; [apply HZ; exists av; exact Hin|eapply H3, Hin].
    - destruct H as [H|[H|(w & H1 & H2 & H3)]]; [left; exact H|right; left; exact H|right; right; exists w; split; [exact H1|split; [exact H2|]]]. intros n av Hin. apply M; [apply HZ; exists av; exact Hin|eapply H3, Hin].
  Qed.
  Ltac cases H := repeat (match type of H with context [match ?x with _ => _ end] => destruct x eqn:?; try discriminate end; cbn [rbind] in H).
  Lemma tie_rule_state ic oc ic' oc' s : tie_rule V W cord ic oc = Ok (ic', oc', s) -> s = None.
  Proof. unfold tie_rule. destruct (tie_cells _ _ _ _ _) as [l| | |]; try discriminate. cbn. intros H. injection H as _ _ <-. reflexivity. Qed.
  Lemma rules_state p ic oc ic' oc' s : rules p ic oc = Ok (ic', oc', s) -> s = None.
  Proof.
    destruct p; cbn [InverseModel.rules]; intros H; try (apply tie_rule_state in H; exact H).
    - unfold elem_rule in H. cases H; injection H as _ _ <-; reflexivity.
    - unfold bin_rule in H. cases H; injection H as _ _ <-; reflexivity.
    - unfold default_rule in H. cases H; injection H as _ _ <-; reflexivity.
    - unfold slice_rule in H. cases H; injection H as _ _ <-; reflexivity.
    - unfold concat_rule in H. destruct oc as [|o [|]]; try discriminate. destruct (kn_all ic) as [l|]; [destruct (concat_arr _ _); try discriminate; cbn in H; injection H as _ _ <-; reflexivity|]. destruct (kn o) as [[v j]|]; [destruct (zip3 _ _ _); try discriminate; cbn in H|]; injection H as _ _ <-; reflexivity.
    - unfold reshape_rule in H. cases H; injection H as _ _ <-; reflexivity.
    - unfold convert_rule in H. cases H; injection H as _ _ <-; reflexivity.
    - unfold sow_rule in H. destruct (kn_all ic) as [l|]; [|apply tie_rule_state in H; exact H]. destruct (forallb _ _); [injection H as _ _ <-; reflexivity|apply tie_rule_state in H; exact H].
    - unfold custom_rule in H. destruct (kn_all (skipn nc ic)) as [lx|], (kn_all oc) as [lo|]; try (injection H as _ _ <-; reflexivity). destruct (inv _ _ _) as [[r|]| | |]; try discriminate; cbn [rbind] in H; [destruct (custom_cells _ _ _ _); try discriminate; cbn in H|]; injection H as _ _ <-; reflexivity.
    - unfold bijector_rule in H. destruct (kn_all _) as [lb|]; [|injection H as _ _ <-; reflexivity]. destruct oc as [|o [|]]; try discriminate; destruct (rev _) as [|i ?]; try discriminate. destruct (_ && _); [destruct (kn o) as [[v j]|]; [|discriminate]; injection H as _ _ <-; reflexivity|]. destruct (_ && _); [destruct (kn i) as [[v j]|]; [|discriminate]; injection H as _ _ <-; reflexivity|discriminate].
  Qed.
  Lemma catch_inv m r ic oc ic' oc' s : catch V W m r ic oc = Ok (ic', oc', s) -> r = Ok (ic', oc', s) \/ ic' = ic /\ oc' = oc /\ s = None.
  Proof. unfold catch. destruct m; [left; assumption|]. destruct r as [x| | |]; intros H; try discriminate; [left; exact H|]. injection H as <- <- <-. right. auto. Qed.
  Lemma zc_same Z L e n av : zinv Z L e -> Z n -> zc (L n) (read e (AVar n av)) /\ (kn (read e (AVar n av)) <> None -> ke e n).
  Proof. intros He Hn. split; [apply (zc_read V W w0 Z L); assumption|]. apply ke_read. Qed.
  Lemma kn_one v (j : arrW) av : a_shape v = av -> kn (mk_cell av [nd_new V W v j]) = Some (v, j).
  Proof. intros <-. unfold InverseModel.kn, SliceModel.top. cbn. assert (E : shape_eqb (a_shape v) (a_shape v) = true) by (apply shape_eqb_eq; reflexivity). rewrite E. reflexivity. Qed.
  Lemma kn_shape c v j : kn c = Some (v, j) -> a_shape v = c_aval c.
  Proof. unfold InverseModel.kn, SliceModel.top. destruct (c_slices c) as [|s [|]] eqn:E; try discriminate. destruct (shape_eqb _ _) eqn:Es; [|discriminate]. intros H. injection H as <- <-. apply shape_eqb_eq, Es. Qed.
  Lemma same_cells Z L e l : zinv Z L e -> forall n av c, In (AVar n av, c) (combine l (map (read e) l)) -> Z n -> zc (L n) c /\ (kn c <> None -> ke e n).
  Proof.
    intros He n av c H Hn. assert (c = read e (AVar n av)) as ->; [|apply (zc_same Z L); assumption]. apply in_combine_nth in H as (k & H1 & H2). rewrite nth_error_map, H1 in H2. injection H2 as <-. reflexivity.
  Qed.
  Lemma clear_in Z l n av (c : cell) cs : clear_of V Z l -> In (AVar n av, c) (combine l cs) -> Z n -> False.
  Proof. intros H Hin Hn. apply in_combine_l in Hin. unfold clear_of in H. rewrite Forall_forall in H. exact (H _ Hin Hn). Qed.
  Lemma sc_known e rho n sh : esound rho e -> sh = a_shape (rho n) -> c_aval (read e (AVar n sh)) = sh /\ forall v j, kn (read e (AVar n sh)) = Some (v, j) -> aeq v (rho n).
  Proof.
    intros He ->. assert (S : csound (rho n) (read e (AVar n (a_shape (rho n))))) by (apply (read_sound V W w0 rho); [exact He|split; [apply aeq_refl|reflexivity]]). split; [apply S|]. intros v j Hk. eapply csound_kn; eassumption.
  Qed.
  Lemma ke_iff e n av : ke e n <-> exists v j, kn (read e (AVar n av)) = Some (v, j).
  Proof. rewrite (ke_read V W w0 e n av). destruct (kn _) as [[v j]|]; split; intros H; [eauto|discriminate|congruence|destruct H as (? & ? & ?); discriminate]. Qed.

  (** the inverse of a binary operation: shapes and ILDJ *)
  Lemma bin_new (f : V -> V -> V) (g : V -> V -> W -> W) (cv v vc ry : arrV) (j l : arrW) sh : aeq cv vc -> aeq v ry -> aeq j l -> a_shape ry = sh -> a_shape l = sh -> bc vc ry -> bshape vc ry = sh ->
    zc (lift2 (fun h x => h x) (lift2 g vc ry) l) (mk_cell sh [nd_new V W (lift2 f cv v) (lift2 (fun h x => h x) (lift2 g cv v) j)]).
  Proof.
    intros A B D Es El Hb Hs. right. eexists _, _. split; [apply kn_one|].
    - cbn. unfold bshape in *. destruct A as [-> _], B as [-> _]. exact Hs.
    - apply lift2_aeq; [|exact D|].
      + apply lift2_aeq; [exact A|exact B|]. unfold bc in *. destruct A as [-> _], B as [-> _]. exact Hb.
      + left. cbn. destruct D as [-> _]. unfold bshape in *. destruct A as [-> _], B as [-> _]. congruence.
  Qed.
  Lemma zc_aeq l l' c : aeq l l' -> zc l c -> zc l' c.
  Proof. intros E [H|(v & j & H & A)]; [left; exact H|right; exists v, j; split; [exact H|eapply aeq_trans; eassumption]]. Qed.
  Lemma L_shape Z L rho e n sh v j : zinv Z L e -> Z n -> esound rho e -> kn (read e (AVar n sh)) = Some (v, j) -> aeq j (L n).
  Proof. intros Hz Hn He Hk. destruct (zc_read V W w0 Z L e n sh Hz Hn) as [H|(v' & j' & H & A)]; [rewrite (kn_bot V W _ H) in Hk; discriminate|]. rewrite Hk in H. injection H as <- <-. exact A. Qed.
  Ltac inv_c H := repeat (destruct H as [H|H]; [injection H as <- <- <-|]); try (destruct H; fail).
  Lemma step_zone m rho Z L (K : nat -> Prop) p i o (nd : node) : eqn_holds V W m rho (QPrim _ _ p i o) -> step V W wplus rho L Z p i o -> n_ins nd = i -> n_outs nd = o -> (forall st ic oc, n_rule nd st ic oc = catch V W m (rules p ic oc) ic oc) ->
    forall st e ic' oc' s, esound rho e -> zinv Z L e -> (forall n, K n -> ke e n) ->
      (forall n, consumes Z (QPrim _ _ p i o) n -> ke e n -> forall n' av', In (AVar n' av') o -> Z n' -> ke e n') ->
      n_rule nd st (map (read e) i) (map (read e) o) = Ok (ic', oc', s) ->
      (forall n av c, In (AVar n av, c) (combine i ic') -> Z n -> zc (L n) c /\ (kn c <> None -> ke e n \/ consumes Z (QPrim _ _ p i o) n /\ forall n' av', In (AVar n' av') o -> Z n' -> ke e n')) /\
      (forall n av c, In (AVar n av, c) (combine o oc') -> Z n -> zc (L n) c /\ (kn c <> None -> ke e n)).
  Proof.
    intros HE (x & y & sh & Eo & Rest) _ _ Hrule st e ic' oc' s He Hz _ HI H. rewrite Hrule in H. apply catch_inv in H. destruct H as [H|(-> & -> & ->)].
    2: { split; intros n av c Hin Hn; destruct (same_cells Z L e _ Hz n av c Hin Hn); auto. }
    destruct HE as (vi & vo & Di & Do & HP). subst o. inversion Do as [|? vy ? ? Dy Do']; subst. inversion Do'; subst. clear Do Do'. cbn in Dy. destruct Dy as [Ay Sy]. destruct Rest as (Zy & Zx & Nxy & SL & HS). revert SL. subst sh. intros SL.
    assert (Sy' : a_shape vy = a_shape (rho y)) by (symmetry; apply Ay). destruct (sc_known e rho y (a_shape vy) He Sy') as [Cy Ky].
    destruct HS as [(f & -> & -> & HL)|[(b & c0 & vc & -> & -> & Nc & Dc & HL)|(b & c0 & vc & -> & -> & Nc & Dc & HL)]].
    - (* elementwise *)
      assert (HC : consumes Z (QPrim V W (PElem V W f) [AVar x (a_shape vy)] [AVar y (a_shape vy)]) x). { split; [exact Zx|]. split; [exists (a_shape vy); left; reflexivity|]. eexists. split; [left; reflexivity|exact Zy]. }
      cbn [InverseModel.rules map] in H. unfold elem_rule in H.
      destruct (kn (read e (AVar x (a_shape vy)))) as [[xv xj]|] eqn:Ex; destruct (kn (read e (AVar y (a_shape vy)))) as [[yv yj]|] eqn:Ey.
      + injection H as <- <- <-. split; intros n av c Hin Hn; destruct (same_cells Z L e _ Hz n av c Hin Hn); auto.
      + exfalso. assert (F : ke e y). { apply (HI x HC) with (av' := a_shape vy); [apply (ke_iff e x (a_shape vy)); eauto|left; reflexivity|exact Zy]. } apply (ke_iff e y (a_shape vy)) in F as (? & ? & F). congruence.
      + destruct (e_inv V W f) as [g|]; [|discriminate]. injection H as <- <- <-. split; [|intros n av c Hin Hn; destruct (same_cells Z L e _ Hz n av c Hin Hn); auto]. intros n av c Hin Hn. cbn in Hin. inv_c Hin.
        split; [|intros _; right; split; [exact HC|]; intros n' av' [E|[]] _; injection E as <- <-; apply (ke_iff e y (a_shape vy)); eauto].
        eapply zc_aeq; [apply aeq_sym, HL|]. right. eexists _, _. split; [apply kn_one; cbn; rewrite (kn_shape _ _ _ Ey); reflexivity|].
        apply lift2_aeq; [eapply L_shape; eassumption|apply map_aeq, (Ky _ _ eq_refl)|]. left. cbn. pose proof (L_shape Z L rho e y _ _ _ Hz Zy He Ey) as [-> _]. rewrite SL. destruct (Ky _ _ eq_refl) as [-> _]. exact Sy'.
      + injection H as <- <- <-. split; intros n av c Hin Hn; destruct (same_cells Z L e _ Hz n av c Hin Hn); auto.
    - (* c op x *)
      assert (HC : consumes Z (QPrim V W (PBin V W b) [c0; AVar x (a_shape vy)] [AVar y (a_shape vy)]) x). { split; [exact Zx|]. split; [exists (a_shape vy); right; left; reflexivity|]. eexists. split; [left; reflexivity|exact Zy]. }
      destruct HP as (a1 & a2 & x1 & x2 & y1 & E1 & E2 & E3 & HB & HY & _). injection E1 as <- <-. subst vi. injection E3 as <-. inversion Di as [|? ? ? ? Dc' Di']; subst. inversion Di' as [|? ? ? ? Dx _]; subst. cbn in Dx. destruct Dx as [Ax Sx].
      assert (Bx : bc x1 x2) by exact HB. assert (Exc : aeq vc x1). { clear -Dc Dc'. destruct c0 as [n av|l|av]; cbn in *; [injection Dc as <-; apply Dc'|injection Dc as <-; exact Dc'|discriminate]. }
      assert (Sc : a_shape vc = [] \/ a_shape vc = a_shape vy). { destruct Exc as [-> _]. destruct HY as [HY _]. cbn in HY. unfold bshape in HY. destruct (a_shape x1) eqn:E1; [left; reflexivity|right; congruence]. }
      assert (SB : bc vc (rho y) /\ bshape vc (rho y) = a_shape vy). { unfold bc, bshape. rewrite <- Sy'. destruct Sc as [->|Sc]; [auto|]. split; [left; exact Sc|]. destruct (a_shape vc) eqn:E1; [reflexivity|exact Sc]. }
      assert (Kc : forall v j, kn (read e c0) = Some (v, j) -> aeq v vc). { intros v j Hk. eapply aeq_trans; [eapply csound_kn; [apply (read_sound V W w0 rho e c0 x1 He Dc')|exact Hk]|apply aeq_sym, Exc]. }
      destruct (sc_known e rho x (a_shape vy) He) as [Cx _]; [rewrite Sx; symmetry; apply Ax|].
      assert (Same : forall n av c, In (AVar n av, c) (combine [c0; AVar x (a_shape vy)] [read e c0; read e (AVar x (a_shape vy))]) -> Z n -> zc (L n) c /\ (kn c <> None -> ke e n)). { intros n av c Hin Hn. apply (same_cells Z L e _ Hz n av c Hin Hn). }
      cbn [InverseModel.rules map] in H. unfold bin_rule in H. destruct (kn (read e (AVar y (a_shape vy)))) as [[yv yj]|] eqn:Ey.
      + assert (KY : ke e y) by (apply (ke_iff e y (a_shape vy)); eauto). destruct (kn (read e c0)) as [[lv lj]|] eqn:El.
        * injection H as <- <- <-. split; [|intros n av c Hin Hn; destruct (same_cells Z L e [_] Hz n av c Hin Hn); auto]. intros n av c Hin Hn. destruct Hin as [Hin|[Hin|[]]]; [exfalso; apply Nc; injection Hin as -> _; exact Hn|]. injection Hin as <- <- <-.
          split; [|intros _; right; split; [exact HC|]; intros n' av' [E|[]] _; injection E as <- <-; exact KY].
          eapply zc_aeq; [apply aeq_sym, HL|]. change (match e x with Some c => c | None => unknown (a_shape vy) end) with (read e (AVar x (a_shape vy))); rewrite Cx. apply (bin_new (b_left V W b) (b_left_j V W b)); [apply (Kc _ _ eq_refl)|apply (Ky _ _ eq_refl)|eapply L_shape; eassumption|symmetry; exact Sy'|exact SL|apply SB|apply SB].
        * destruct (kn (read e (AVar x (a_shape vy)))) as [[rv rj]|] eqn:Ex; injection H as <- <- <-; (split; [|intros n av c Hin Hn; destruct (same_cells Z L e [_] Hz n av c Hin Hn); auto]); intros n av c Hin Hn; [|destruct (Same n av c Hin Hn); auto]. destruct Hin as [Hin|[Hin|[]]]; [exfalso; apply Nc; injection Hin as -> _; exact Hn|]. destruct (Same n av c (or_intror (or_introl Hin)) Hn); auto.
      + destruct (kn (read e c0)) as [[lv lj]|] eqn:El; [destruct (kn (read e (AVar x (a_shape vy)))) as [[rv rj]|] eqn:Ex|]; [exfalso|injection H as <- <- <-|injection H as <- <- <-].
        * assert (F : ke e y). { apply (HI x HC) with (av' := a_shape vy); [apply (ke_iff e x (a_shape vy)); eauto|left; reflexivity|exact Zy]. } apply (ke_iff e y (a_shape vy)) in F as (? & ? & F). congruence.
        * split; intros n av c Hin Hn; [destruct (Same n av c Hin Hn)|destruct (same_cells Z L e [_] Hz n av c Hin Hn)]; auto.
        * split; intros n av c Hin Hn; [destruct (Same n av c Hin Hn)|destruct (same_cells Z L e [_] Hz n av c Hin Hn)]; auto.
    - (* x op c *)
      assert (HC : consumes Z (QPrim V W (PBin V W b) [AVar x (a_shape vy); c0] [AVar y (a_shape vy)]) x). { split; [exact Zx|]. split; [exists (a_shape vy); left; reflexivity|]. eexists. split; [left; reflexivity|exact Zy]. }
      destruct HP as (a1 & a2 & x1 & x2 & y1 & E1 & E2 & E3 & HB & HY & _). injection E1 as <- <-. subst vi. injection E3 as <-. inversion Di as [|? ? ? ? Dx Di']; subst. inversion Di' as [|? ? ? ? Dc' _]; subst. cbn in Dx. destruct Dx as [Ax Sx].
      assert (Exc : aeq vc x2). { clear -Dc Dc'. destruct c0 as [n av|l|av]; cbn in *; [injection Dc as <-; apply Dc'|injection Dc as <-; exact Dc'|discriminate]. }
      assert (Sc : a_shape vc = [] \/ a_shape vc = a_shape vy). { destruct Exc as [-> _]. destruct HY as [HY _]. cbn in HY. unfold bshape in HY. destruct HB as [HB|[HB|HB]]; [right; congruence| |left; exact HB]. rewrite HB in HY. right. congruence. }
      assert (SB : bc vc (rho y) /\ bshape vc (rho y) = a_shape vy). { unfold bc, bshape. rewrite <- Sy'. destruct Sc as [->|Sc]; [auto|]. split; [left; exact Sc|]. destruct (a_shape vc) eqn:E1; [reflexivity|exact Sc]. }
      assert (Kc : forall v j, kn (read e c0) = Some (v, j) -> aeq v vc). { intros v j Hk. eapply aeq_trans; [eapply csound_kn; [apply (read_sound V W w0 rho e c0 x2 He Dc')|exact Hk]|apply aeq_sym, Exc]. }
      destruct (sc_known e rho x (a_shape vy) He) as [Cx _]; [rewrite Sx; symmetry; apply Ax|].
      assert (Same : forall n av c, In (AVar n av, c) (combine [AVar x (a_shape vy); c0] [read e (AVar x (a_shape vy)); read e c0]) -> Z n -> zc (L n) c /\ (kn c <> None -> ke e n)). { intros n av c Hin Hn. apply (same_cells Z L e _ Hz n av c Hin Hn). }
      cbn [InverseModel.rules map] in H. unfold bin_rule in H. destruct (kn (read e (AVar y (a_shape vy)))) as [[yv yj]|] eqn:Ey.
      + assert (KY : ke e y) by (apply (ke_iff e y (a_shape vy)); eauto). destruct (kn (read e (AVar x (a_shape vy)))) as [[xv xj]|] eqn:Ex.
        * injection H as <- <- <-. split; [|intros n av c Hin Hn; destruct (same_cells Z L e [_] Hz n av c Hin Hn); auto]. intros n av c Hin Hn. destruct Hin as [Hin|[Hin|[]]]; [|exfalso; apply Nc; injection Hin as -> _; exact Hn]. destruct (Same n av c (or_introl Hin) Hn); auto.
        * destruct (kn (read e c0)) as [[rv rj]|] eqn:Er; injection H as <- <- <-; (split; [|intros n av c Hin Hn; destruct (same_cells Z L e [_] Hz n av c Hin Hn); auto]); intros n av c Hin Hn; [|destruct (Same n av c Hin Hn); auto]. destruct Hin as [Hin|[Hin|[]]]; [|exfalso; apply Nc; injection Hin as -> _; exact Hn]. injection Hin as <- <- <-.
          split; [|intros _; right; split; [exact HC|]; intros n' av' [E|[]] _; injection E as <- <-; exact KY].
          eapply zc_aeq; [apply aeq_sym, HL|]. change (match e x with Some c => c | None => unknown (a_shape vy) end) with (read e (AVar x (a_shape vy))); rewrite Cx. apply (bin_new (b_right V W b) (b_right_j V W b)); [apply (Kc _ _ eq_refl)|apply (Ky _ _ eq_refl)|eapply L_shape; eassumption|symmetry; exact Sy'|exact SL|apply SB|apply SB].
      + destruct (kn (read e (AVar x (a_shape vy)))) as [[lv lj]|] eqn:El; [exfalso|injection H as <- <- <-].
        * assert (F : ke e y). { apply (HI x HC) with (av' := a_shape vy); [apply (ke_iff e x (a_shape vy)); eauto|left; reflexivity|exact Zy]. } apply (ke_iff e y (a_shape vy)) in F as (? & ? & F). congruence.
        * split; intros n av c Hin Hn; [destruct (Same n av c Hin Hn)|destruct (same_cells Z L e [_] Hz n av c Hin Hn)]; auto.
  Qed.
End Lin3.
