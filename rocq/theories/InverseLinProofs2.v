(** ILDJs and log-densities of linear programs: whole runs. *)
From Verif Require Export InverseLinProofs.

Lemma in_combine_nth {A B} (l : list A) (m : list B) a b : In (a, b) (combine l m) <-> exists k, nth_error l k = Some a /\ nth_error m k = Some b.
Proof.
  revert m. induction l as [|x l IH]; intros [|y m]; cbn; (split; [intros H|intros (k & H1 & H2)]); try contradiction; try (destruct k; discriminate).
  - destruct H as [H|H]; [injection H as -> ->; exists 0; auto|]. apply IH in H as (k & ? & ?). exists (S k). auto.
  - destruct k as [|k]; cbn in *; [left; congruence|right; apply IH; exists k; auto].
Qed.
Lemma all_indices_inb sh i : In i (all_indices sh) -> inb sh i.
Proof.
  revert i. induction sh as [|n sh IH]; intros i H; cbn in H; [destruct H as [<-|[]]; constructor|]. apply in_flat_map in H as (x & Hx & H). apply in_map_iff in H as (j & <- & Hj). apply in_seq in Hx. constructor; [lia|apply IH, Hj].
Qed.
Lemma F2_nth {A B} (P : A -> B -> Prop) l m k a b : Forall2 P l m -> nth_error l k = Some a -> nth_error m k = Some b -> P a b.
Proof. intros H. revert k. induction H as [|x y l m Hxy H IH]; intros [|k] Ha Hb; cbn in *; try discriminate; [congruence|eauto]. Qed.
Lemma F2_nth_l {A B} (P : A -> B -> Prop) l m k a : Forall2 P l m -> nth_error l k = Some a -> exists b, nth_error m k = Some b /\ P a b.
Proof. intros H. revert k. induction H as [|x y l m Hxy H IH]; intros [|k] Ha; cbn in *; try discriminate; [exists y; split; congruence|eauto]. Qed.
Lemma F2_nth_r {A B} (P : A -> B -> Prop) l m k b : Forall2 P l m -> nth_error m k = Some b -> exists a, nth_error l k = Some a /\ P a b.
Proof. intros H. revert k. induction H as [|x y l m Hxy H IH]; intros [|k] Ha; cbn in *; try discriminate; [exists x; split; congruence|eauto]. Qed.

Section Lin2.
  Variables V W : Type.
  Variable w0 : W.
  Variable wplus : W -> W -> W.
  Variable cord : list (ndslice V W) -> list (ndslice V W).
  Hypothesis cordp : forall l, Permutation l (cord l).
  Notation cell := (cell V W).
  Notation unknown := (unknown V W). Notation new := (new V W w0). Notation join := (join V W cord). Notation cell_lt := (cell_lt V W).
  Notation arrV := (arr V). Notation arrW := (arr W).
  Notation atom := (atom (list nat) arrV). Notation frame := (frame (list nat) arrV). Notation env := (env cell).
  Notation node := (node cell (list nat) arrV tag (option W)). Notation qn := (qn V W).
  Notation csound := (csound V W). Notation den := (den V). Notation kn := (kn V W). Notation kn_all := (kn_all V W).
  Notation read := (read unknown new). Notation write := (write unknown new join). Notation writes := (writes unknown new join).
  Notation esound := (esound V W). Notation node_ok := (node_ok V W). Notation inz := (inz V).
  Notation zc := (zc V W). Notation ke := (ke V W). Notation zinv := (zinv V W). Notation zone_ok := (zone_ok V W w0).
  Notation asum := (asum W w0 wplus). Notation red := (red V W w0 wplus). Notation node_of := (InverseModel.node_of V W w0 wplus cord).
  Notation consumes := (consumes V W). Notation lin := (lin V W w0 wplus). Notation ildj_term := (ildj_term V W w0 wplus).

  Lemma asum_aeq a b : aeq a b -> asum a = asum b.
  Proof.
    intros [E G]. unfold InverseModel.asum. rewrite <- E. assert (X : forall l s, (forall i, In i l -> a_get a i = a_get b i) -> fold_left (fun s i => wplus s (a_get a i)) l s = fold_left (fun s i => wplus s (a_get b i)) l s).
    { induction l as [|i l IH]; intros s H; cbn; [reflexivity|]. rewrite (H i) by (left; reflexivity). apply IH. intros j Hj. apply H. right. exact Hj. }
    apply X. intros i Hi. apply G, all_indices_inb, Hi.
  Qed.
  Lemma init_unknown_zone Z L (nodes : list node) e : zinv Z L e -> zinv Z L (init_unknown unknown new join e nodes) /\ forall n, ke (init_unknown unknown new join e nodes) n <-> ke e n.
  Proof.
    unfold init_unknown. generalize (flat_map n_atoms nodes). intros l. revert e. induction l as [|a l IH]; intros e He; cbn [fold_left]; [split; [exact He|reflexivity]|].
    set (e1 := match a with AVar _ av => _ | _ => e end). assert (X : zinv Z L e1 /\ forall n, ke e1 n <-> ke e n).
    { subst e1. destruct a as [n av|lt|av]; [|split; [exact He|reflexivity]|split; [exact He|reflexivity]]. cbn [PropModel.write fst].
      assert (J : join (read e (AVar n av)) (unknown av) = read e (AVar n av)) by reflexivity. rewrite J. split.
      - intros m c Hm Em. unfold upd in Em. destruct (Nat.eqb_spec m n) as [->|Hn]; [|apply He; assumption]. injection Em as <-. apply (zc_read V W w0 Z L e n av He Hm).
      - intros m. destruct (Nat.eqb_spec m n) as [->|Hn]; [|unfold InverseLinProofs.ke, upd; destruct (Nat.eqb_spec m n) as [?|_]; [contradiction|reflexivity]]. rewrite (ke_read V W w0 e n av), (ke_read V W w0 _ n av). cbn [PropModel.read]. unfold upd. rewrite Nat.eqb_refl. reflexivity. }
    destruct X as [X1 X2]. destruct (IH e1 X1) as [Y1 Y2]. split; [exact Y1|]. intros n. rewrite Y2. apply X2.
  Qed.
  Lemma writes_clear Z L l e cs e' ncs : clear_of V Z l -> writes e l cs = Ok (e', ncs) -> zinv Z L e -> zinv Z L e' /\ forall n, Z n -> ke e' n -> ke e n.
  Proof.
    intros Hc H He. assert (X : forall n av (c : cell), In (AVar n av, c) (combine l cs) -> ~ Z n). { intros n av c Hin. apply in_combine_l in Hin. unfold clear_of in Hc. rewrite Forall_forall in Hc. exact (Hc _ Hin). }
    destruct (writes_zone V W w0 cord Z L l e cs e' ncs H He) as (A & _ & B & _). { intros n av c Hin Hn. exfalso. exact (X n av c Hin Hn). }
    split; [exact A|]. intros n Hn Hk. destruct (B n Hn Hk) as [?|(av & c & Hin & _)]; [assumption|]. exfalso. exact (X n av c Hin Hn).
  Qed.
  Lemma prop_zone rho Z L K C P (Sf : nat -> Prop) m fuel ord stamp fr nodes cc ic oc cs xs ys e s : perm ord ->
    (forall i nd, nth_error nodes i = Some nd -> node_ok rho nd /\ zone_ok rho Z L K (C i) nd (P i) /\ (Sf i -> forall st ic oc r, n_rule nd st ic oc = Ok r -> snd r <> None)) -> (forall i j n, C i n -> C j n -> i = j) ->
    Forall2 (den rho) (f_const fr) cs -> Forall2 (den rho) (f_in fr) xs -> Forall2 (den rho) (f_out fr) ys -> Forall2 csound cs cc -> Forall2 csound xs ic -> Forall2 csound ys oc ->
    clear_of V Z (f_const fr) -> (forall n av c, In (AVar n av, c) (combine (f_in fr) ic) -> Z n -> c_slices c = []) -> (forall n av c, In (AVar n av, c) (combine (f_out fr) oc) -> Z n -> zc (L n) c) ->
    (forall i nd n av, nth_error nodes i = Some nd -> C i n -> ~ In (AVar n av) (f_out fr)) ->
    (forall n, K n -> Z n /\ exists av c, In (AVar n av, c) (combine (f_out fr) oc) /\ kn c <> None) ->
    prop V W w0 wplus cord m fuel ord stamp fr nodes cc ic oc = Ok (e, s) ->
    exists ss, s = reduce (red m) e ss nodes 0 (Some w0) /\ esound rho e /\ zinv Z L e /\ (forall n, K n -> ke e n) /\
      (forall n, Z n -> ke e n -> (exists av c, In (AVar n av, c) (combine (f_out fr) oc) /\ kn c <> None) \/ exists i nd, nth_error nodes i = Some nd /\ C i n) /\
      (forall i nd, nth_error nodes i = Some nd -> P i e (ss i)) /\
      (forall i nd, nth_error nodes i = Some nd -> Sf i -> ss i = None -> (forall n, In n (vars (frame_atoms fr)) -> ~ In n (vars (n_atoms nd))) /\ forall n av, In (AVar n av) (n_outs nd) -> Z n -> ~ ke e n) /\
      (forall i nd n n' av', nth_error nodes i = Some nd -> C i n -> ke e n -> In (AVar n' av') (n_outs nd) -> Z n' -> ke e n').
  Proof.
    intros Hp HN HU Hc Hi Ho Sc Si So Zc Zi Zo HO HK H. unfold prop, propagate in H. destruct (initial unknown new join fr nodes cc ic oc) as [e0| | |] eqn:E0; try discriminate. cbn [rbind] in H.
    assert (X : esound rho e0 /\ zinv Z L e0 /\ (forall n, Z n -> ke e0 n <-> exists av c, In (AVar n av, c) (combine (f_out fr) oc) /\ kn c <> None)).
    { unfold initial in E0. destruct (writes _ (f_const fr) cc) as [[e1 n1]| | |] eqn:E1; try discriminate. cbn [rbind] in E0. destruct (writes e1 (f_in fr) ic) as [[e2 n2]| | |] eqn:E2; try discriminate. cbn [rbind] in E0. destruct (writes e2 (f_out fr) oc) as [[e3 n3]| | |] eqn:E3; try discriminate. cbn [rbind] in E0. injection E0 as <-.
      assert (S1 : esound rho e1). { eapply writes_sound; [exact cordp| |exact Hc|apply okl_of; [eapply F2_length, Hc|exact Sc]|exact E1]. intros n c Hn. discriminate. }
      assert (S2 : esound rho e2). { eapply writes_sound; [exact cordp|exact S1|exact Hi|apply okl_of; [eapply F2_length, Hi|exact Si]|exact E2]. }
      assert (S3 : esound rho e3). { eapply writes_sound; [exact cordp|exact S2|exact Ho|apply okl_of; [eapply F2_length, Ho|exact So]|exact E3]. }
      destruct (writes_clear Z L _ _ _ _ _ Zc E1) as [Z1 K1]; [intros n c _ Hn; discriminate|].
      destruct (writes_zone V W w0 cord Z L _ _ _ _ _ E2 Z1) as (Z2 & _ & K2 & _ & _). { intros n av c Hin Hn. left. apply (Zi n av c Hin Hn). }
      destruct (writes_zone V W w0 cord Z L _ _ _ _ _ E3 Z2 Zo) as (Z3 & M3 & K3 & _ & _).
      destruct (init_unknown_zone Z L nodes e3 Z3) as [Z4 K4]. split; [apply init_unknown_sound; [exact cordp| |exact S3]; apply Forall_forall; intros nd Hin; apply In_nth_error in Hin as (k & Hk); apply (HN k nd Hk)|]. split; [exact Z4|].
      intros n Hn. rewrite K4. split.
      - intros Hk. destruct (K3 n Hn Hk) as [Hk2|Hk2]; [|exact Hk2]. destruct (K2 n Hn Hk2) as [Hk1|(av & c & Hin & Hkc)]; [|exfalso; apply Hkc, kn_bot, (Zi n av c Hin Hn)]. apply K1 in Hk1; [|exact Hn]. destruct Hk1 as (c & F & _). discriminate.
      - intros (av & c & Hin & Hk). clear -E3 Hin Hk Hn Z2 Zo. revert e2 oc n3 e3 E3 Hin Z2 Zo. induction (f_out fr) as [|a l IH]; intros e2 [|d oc] n3 e3 E3 Hin Z2 Zo; cbn in E3; try discriminate; [destruct Hin|]. destruct (write e2 a d) as [e4 c4] eqn:Ew. destruct (writes e4 l oc) as [[e5 n5]| | |] eqn:E; try discriminate. cbn in E3. injection E3 as <- <-.
        assert (Z4 : zinv Z L e4 /\ (forall m, Z m -> ke e2 m -> ke e4 m) /\ (a = AVar n av -> d = c -> ke e4 n)).
        { destruct (writes_zone V W w0 cord Z L [a] e2 [d] e4 [c4]) as (A & B & _); [cbn; rewrite Ew; reflexivity|exact Z2|intros m mv mc [Em|[]] Hm; injection Em as -> ->; apply (Zo m mv mc); [left; reflexivity|exact Hm]|]. split; [exact A|]. split; [exact B|]. intros -> ->. cbn [PropModel.write] in Ew. injection Ew as <- _. exists (join (read e2 (AVar n av)) c). unfold upd. rewrite Nat.eqb_refl. split; [reflexivity|].
          apply (zc_join V W cord (L n)); [apply (zc_read V W w0 Z L); assumption|apply (Zo n av c); [left; reflexivity|exact Hn]|right; exact Hk]. }
        destruct Z4 as (Z4 & M4 & K4). destruct Hin as [Hin|Hin].
        + injection Hin as -> ->. apply (writes_zone V W w0 cord Z L _ _ _ _ _ E Z4); [|exact Hn|apply K4; reflexivity]. intros m mv mc Hm. apply (Zo m mv mc). right. exact Hm.
        + eapply IH; [exact E|exact Hin|exact Z4|]. intros m mv mc Hm. apply (Zo m mv mc). right. exact Hm. }
    destruct X as (S0 & Z0 & K0). destruct (loop _ _ _ _ _ _ _ _ _ _ _) as [[e1 ss]| | |] eqn:El; try discriminate. cbn [rbind] in H. injection H as <- <-.
    destruct (initial_queue_spec nodes ord stamp fr Hp) as (Q1 & Q2 & Q3).
    destruct (loop_zone V W w0 cord cordp rho Z L K C P Sf (initial_queue ord stamp fr nodes) ord nodes Hp HN HU _ _ _ _ _ _ _ El S0 Z0) as (A & B & D & F & G & G' & GI).
    - intros n Hn. destruct (HK n Hn) as [Hz Hx]. split; [exact Hz|]. apply K0; assumption.
    - exact Q1.
    - exact Q2.
    - intros i nd n n' av' Hi' Hcn Hk _ _. assert (Hn : Z n) by (apply (HN i nd Hi'), Hcn). apply (K0 n Hn) in Hk as (av & c & Hin & _). exfalso. apply (HO i nd n av Hi' Hcn). eapply in_combine_l, Hin.
    - intros i nd Hi'. apply (HN i nd Hi').
    - intros i nd Hi' _ _ Hni. split; [exact Hni|]. intros n av Hin Hz Hk. apply (K0 n Hz) in Hk as (av' & c & Hin' & _). apply in_combine_l in Hin'. apply (Q3 i nd Hi' Hni n).
      + unfold frame_atoms. apply in_flat_map. exists (AVar n av'). split; [|left; reflexivity]. rewrite !in_app_iff. auto.
      + apply in_flat_map. exists (AVar n av). split; [apply in_or_app; right; exact Hin|left; reflexivity].
    - exists ss. split; [reflexivity|]. split; [exact A|]. split; [exact B|]. split; [|split; [|split; [exact G|split; [|exact GI]]]].
      + intros n Hn. destruct (HK n Hn) as [Hz Hx]. apply D; [exact Hz|]. apply K0; assumption.
      + intros n Hn Hk. destruct (F n Hn Hk) as [Hk0|Hk0]; [left; apply (K0 n Hn), Hk0|right; exact Hk0].
      + intros i nd Hi' Hs Hn. destruct (G' i nd Hi' Hs Hn) as [R1 R2]. split; [|exact R2]. intros n Hf. apply (Q3 i nd Hi' R1 n Hf).
  Qed.
End Lin2.
