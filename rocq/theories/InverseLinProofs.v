(** ILDJs and log-densities of linear programs: proofs. *)
From Verif Require Export InverseLinSpec InverseProofs2 PropProofs2.

Lemma bget_aeq' {X} (a b : arr X) i : aeq a b -> (a_shape a <> [] -> inb (a_shape a) i) -> bget a i = bget b i.
Proof. intros [E G] Hi. unfold bget. rewrite <- E. assert (D : a_shape a = [] \/ a_shape a <> []) by (destruct (a_shape a); [left; reflexivity|right; discriminate]). destruct D as [D|D]; [rewrite D; apply G; rewrite D; constructor|]. specialize (G i (Hi D)). destruct (a_shape a); [congruence|exact G]. Qed.
Definition bc {X Y} (a : arr X) (b : arr Y) : Prop := a_shape a = a_shape b \/ a_shape a = [] \/ a_shape b = [].
Lemma bshape_bc {X Y} (a : arr X) (b : arr Y) : bc a b -> (a_shape a <> [] -> bshape a b = a_shape a) /\ (a_shape b <> [] -> bshape a b = a_shape b).
Proof. intros H. unfold bshape. split; intros N; destruct (a_shape a) eqn:E; try congruence. destruct H as [H|[H|H]]; congruence. Qed.
Lemma lift2_aeq {X Y Z} (f : X -> Y -> Z) a a' b b' : aeq a a' -> aeq b b' -> bc a b -> aeq (lift2 f a b) (lift2 f a' b').
Proof.
  intros Ha Hb H. pose proof (bshape_bc a b H) as [S1 S2]. split; cbn [lift2 a_shape a_get]; [unfold bshape; destruct Ha as [-> _], Hb as [-> _]; reflexivity|]. intros i Hi. f_equal; apply bget_aeq'; try assumption; intros N; [rewrite <- S1|rewrite <- S2]; assumption.
Qed.
Lemma map_aeq {X Y} (f : X -> Y) a b : aeq a b -> aeq (map_arr f a) (map_arr f b).
Proof. intros [E G]. split; [exact E|]. cbn. intros i Hi. rewrite G; auto. Qed.

Lemma combine_app2 {A B} (a1 a2 : list A) : forall (b1 b2 : list B), length a1 = length b1 -> combine (a1 ++ a2) (b1 ++ b2) = combine a1 b1 ++ combine a2 b2.
Proof. induction a1 as [|x a1 IH]; intros [|y b1] b2 H; try discriminate; [reflexivity|]. cbn in *. f_equal. apply IH. lia. Qed.

Section Lin.
  Variables V W : Type.
  Variable w0 : W.
  Variable wplus : W -> W -> W.
  Variable cord : list (ndslice V W) -> list (ndslice V W).
  Hypothesis cordp : forall l, Permutation l (cord l).
  Notation cell := (cell V W).
  Notation unknown := (unknown V W). Notation new := (new V W w0). Notation join := (join V W cord). Notation cell_lt := (cell_lt V W).
  Notation arrV := (arr V). Notation arrW := (arr W).
  Notation atom := (atom (list nat) arrV). Notation frame := (frame (list nat) arrV). Notation env := (env cell).
  Notation node := (node cell (list nat) arrV tag (option W)).
  Notation csound := (csound V W). Notation den := (den V). Notation kn := (kn V W). Notation kn_all := (kn_all V W).
  Notation read := (read unknown new). Notation write := (write unknown new join). Notation writes := (writes unknown new join).
  Notation esound := (esound V W). Notation node_ok := (node_ok V W). Notation inz := (inz V).

  Definition zc (l : arrW) (c : cell) : Prop := c_slices c = [] \/ exists v j, kn c = Some (v, j) /\ aeq j l.
  Definition ke (e : env) (n : nat) : Prop := exists c, e n = Some c /\ kn c <> None.
  Definition zinv (Z : nat -> Prop) (L : nat -> arrW) (e : env) : Prop := forall n c, Z n -> e n = Some c -> zc (L n) c.

  Lemma kn_unknown av : kn (unknown av) = None. Proof. reflexivity. Qed.
  Lemma ke_read e n av : ke e n <-> kn (read e (AVar n av)) <> None.
  Proof. unfold ke. cbn. destruct (e n) as [c|]; split; intros H; [destruct H as (c' & E & H); injection E as <-; exact H|exists c; auto|destruct H as (c' & E & _); discriminate|exfalso; apply H, kn_unknown]. Qed.
  Lemma zc_read Z L e n av : zinv Z L e -> Z n -> zc (L n) (read e (AVar n av)).
  Proof. intros H Hn. cbn. destruct (e n) as [c|] eqn:E; [apply H; assumption|left; reflexivity]. Qed.
  Lemma kn_top c : kn c <> None -> top V W c = true.
  Proof. unfold InverseModel.kn. destruct (top V W c); congruence. Qed.
  Lemma kn_bot c : c_slices c = [] -> kn c = None.
  Proof. unfold InverseModel.kn, SliceModel.top. intros ->. reflexivity. Qed.
  Lemma zc_join l c c' : zc l c -> zc l c' -> zc l (join c c') /\ (kn (join c c') <> None <-> kn c <> None \/ kn c' <> None).
  Proof using cord.
    clear w0 wplus cordp.
    intros H H'. unfold SliceModel.join. destruct H' as [E|(v & j & E & A)].
    - assert (T : top V W c' = false) by (unfold SliceModel.top; rewrite E; reflexivity). assert (B : bottom V W c' = true) by (unfold SliceModel.bottom; rewrite E; reflexivity). rewrite T, B. split; [exact H|]. rewrite (kn_bot c' E). intuition congruence.
    - assert (T : top V W c' = true) by (apply kn_top; congruence). rewrite T. split; [right; eauto|]. rewrite E. split; intros; [right|]; discriminate.
  Qed.
  Lemma writes_zone Z L l : forall e cs e' ncs, writes e l cs = Ok (e', ncs) -> zinv Z L e -> (forall n av c, In (AVar n av, c) (combine l cs) -> Z n -> zc (L n) c) ->
    zinv Z L e' /\ (forall n, Z n -> ke e n -> ke e' n) /\ (forall n, Z n -> ke e' n -> ke e n \/ exists av c, In (AVar n av, c) (combine l cs) /\ kn c <> None) /\
    (forall n, Z n -> ke e' n -> ke e n \/ exists av c, In (AVar n av, c) (combine l ncs) /\ kn c <> None) /\ length ncs = length l.
  Proof.
    induction l as [|a l IH]; intros e [|c cs] e' ncs H He Hc; cbn in H; try discriminate; [injection H as <- <-; split; [exact He|]; split; [auto|]; split; [|split; [|reflexivity]]; intros n Hn Hk; left; exact Hk|].
    destruct (write e a c) as [e1 c1] eqn:Ew. destruct (writes e1 l cs) as [[e2 n2]| | |] eqn:E; try discriminate. cbn in H. injection H as <- <-.
    assert (X : zinv Z L e1 /\ (forall n, Z n -> ke e n -> ke e1 n) /\ (forall n, Z n -> ke e1 n -> ke e n \/ exists av, a = AVar n av /\ kn c <> None /\ kn c1 <> None)).
    { destruct a as [n av|lt|av]; cbn [PropModel.write] in Ew; injection Ew as <- <-; [|split; [exact He|split; [auto|intros ? ? Hk; left; exact Hk]]|split; [exact He|split; [auto|intros ? ? Hk; left; exact Hk]]].
      assert (J : Z n -> zc (L n) (join (read e (AVar n av)) c) /\ (kn (join (read e (AVar n av)) c) <> None <-> kn (read e (AVar n av)) <> None \/ kn c <> None)).
      { intros Hn. apply zc_join; [apply (zc_read Z L); assumption|apply (Hc n av c); [left; reflexivity|exact Hn]]. }
      split; [|split].
      - intros m c' Hm Em. unfold upd in Em. destruct (Nat.eqb_spec m n) as [->|Hne]; [injection Em as <-; apply J, Hm|apply He; assumption].
      - intros m Hm (c' & Em & Hk). unfold ke, upd. destruct (Nat.eqb_spec m n) as [->|Hne]; [|exists c'; auto]. eexists. split; [reflexivity|]. apply J; [exact Hm|]. left. cbn. rewrite Em. exact Hk.
      - intros m Hm (c' & Em & Hk). unfold upd in Em. destruct (Nat.eqb_spec m n) as [->|Hne]; [|left; exists c'; auto]. injection Em as <-. pose proof Hk as Hk'. apply J in Hk; [|exact Hm]. destruct Hk as [Hk|Hk]; [left; apply (ke_read e n av); exact Hk|right; exists av; auto]. }
    destruct X as (X1 & X2 & X3). destruct (IH e1 cs e2 n2 E X1) as (Y1 & Y2 & Y3 & Y4 & Y5). { intros n av c' Hin. apply Hc with (av := av). right. exact Hin. }
    split; [exact Y1|]. split; [auto|]. split; [|split; [|cbn; congruence]].
    - intros n Hn Hk. destruct (Y3 n Hn Hk) as [Hk1|(av & c' & Hin & Hk1)]; [|right; exists av, c'; split; [right; exact Hin|exact Hk1]]. destruct (X3 n Hn Hk1) as [?|(av & -> & ? & _)]; [left; assumption|]. right. exists av, c. split; [left; reflexivity|assumption].
    - intros n Hn Hk. destruct (Y4 n Hn Hk) as [Hk1|(av & c' & Hin & Hk1)]; [|right; exists av, c'; split; [right; exact Hin|exact Hk1]]. destruct (X3 n Hn Hk1) as [?|(av & -> & _ & ?)]; [left; assumption|]. right. exists av, c1. split; [left; reflexivity|assumption].
  Qed.

  (** *** One node *)
  Definition zone_ok (rho : nat -> arrV) (Z : nat -> Prop) (L : nat -> arrW) (K C : nat -> Prop) (nd : node) (P : env -> option (option W) -> Prop) : Prop :=
    (forall n, C n -> Z n) /\ (forall e e' s, (forall n, Z n -> ke e n -> ke e' n) -> P e s -> P e' s) /\ (forall e, P e None) /\
    forall st e ic' oc' s, esound rho e -> zinv Z L e -> (forall n, K n -> ke e n) ->
      (forall n, C n -> ke e n -> forall n' av', In (AVar n' av') (n_outs nd) -> Z n' -> ke e n') ->
      n_rule nd st (map (read e) (n_ins nd)) (map (read e) (n_outs nd)) = Ok (ic', oc', s) -> length ic' = length (n_ins nd) -> length oc' = length (n_outs nd) ->
      (forall n av c, In (AVar n av, c) (combine (n_ins nd) ic') -> Z n -> zc (L n) c /\ (kn c <> None -> ke e n \/ C n /\ forall n' av', In (AVar n' av') (n_outs nd) -> Z n' -> ke e n')) /\
      (forall n av c, In (AVar n av, c) (combine (n_outs nd) oc') -> Z n -> zc (L n) c /\ (kn c <> None -> ke e n)) /\
      P e s.
  Lemma lt_bottom c c' : c_slices c = [] -> kn c' <> None -> cell_lt c c' = true.
  Proof.
    intros E K. unfold SliceModel.cell_lt, SliceModel.top, SliceModel.bottom. rewrite E. cbn. destruct (c_slices c') eqn:E'; [|reflexivity]. exfalso. apply K, kn_bot, E'.
  Qed.
  Lemma in_combine3 {A B D} (l : list A) (m : list B) (n : list D) a d (f : A -> B) : m = map f l -> In (a, d) (combine l n) -> In (a, (f a, d)) (combine l (combine m n)).
  Proof. intros ->. revert n. induction l as [|x l IH]; intros [|y n] H; cbn in *; try contradiction. destruct H as [H|H]; [injection H as -> ->; left; reflexivity|right; apply IH, H]. Qed.
  Lemma loop_zone rho Z L K C P (Sf : nat -> Prop) (q0 : list nat) ord nodes : perm ord ->
    (forall i nd, nth_error nodes i = Some nd -> node_ok rho nd /\ zone_ok rho Z L K (C i) nd (P i) /\ (Sf i -> forall st ic oc r, n_rule nd st ic oc = Ok r -> snd r <> None)) -> (forall i j n, C i n -> C j n -> i = j) ->
    forall fuel stamp e ss q e' ss', loop unknown new join cell_lt fuel ord stamp nodes e ss q = Ok (e', ss') ->
    esound rho e -> zinv Z L e -> (forall n, K n -> Z n /\ ke e n) -> NoDup q -> (forall i, In i q -> i < length nodes) ->
    (forall i nd n n' av', nth_error nodes i = Some nd -> C i n -> ke e n -> In (AVar n' av') (n_outs nd) -> Z n' -> ke e n') ->
    (forall i nd, nth_error nodes i = Some nd -> P i e (ss i)) ->
    (forall i nd, nth_error nodes i = Some nd -> Sf i -> ss i = None -> ~ In i q -> ~ In i q0 /\ forall n av, In (AVar n av) (n_outs nd) -> Z n -> ~ ke e n) ->
    esound rho e' /\ zinv Z L e' /\ (forall n, Z n -> ke e n -> ke e' n) /\ (forall n, Z n -> ke e' n -> ke e n \/ exists i nd, nth_error nodes i = Some nd /\ C i n) /\ (forall i nd, nth_error nodes i = Some nd -> P i e' (ss' i)) /\
    (forall i nd, nth_error nodes i = Some nd -> Sf i -> ss' i = None -> ~ In i q0 /\ forall n av, In (AVar n av) (n_outs nd) -> Z n -> ~ ke e' n) /\
    (forall i nd n n' av', nth_error nodes i = Some nd -> C i n -> ke e' n -> In (AVar n' av') (n_outs nd) -> Z n' -> ke e' n').
  Proof.
    intros Hp HN HU. induction fuel as [|fuel IH]; intros stamp e ss q e' ss' H He Hz HK Hd Hb HI HS HQ; [discriminate|]. cbn [loop] in H. destruct q as [|k q]; [injection H as <- <-; split; [exact He|split; [exact Hz|split; [auto|split; [intros n _ Hk; left; exact Hk|split; [exact HS|split; [|exact HI]]]]]]; intros i nd Hi Hs Hn; apply (HQ i nd Hi Hs Hn); intros []|].
    destruct (nth_error nodes k) as [nd|] eqn:En; [|discriminate]. destruct (HN k nd En) as [(vi & vo & Hi & Ho & Hr) [(HC & HM & _ & HZ) HSf]]. specialize (Hr (1 :: fuel :: stamp)).
    destruct (n_rule nd (1 :: fuel :: stamp) (map (read e) (n_ins nd)) (map (read e) (n_outs nd))) as [[[ic' oc'] st]| | |] eqn:Er; try discriminate. cbn [rbind] in H.
    destruct (writes e (n_ins nd) ic') as [[e1 nic]| | |] eqn:E1; try discriminate. cbn [rbind] in H. destruct (writes e1 (n_outs nd) oc') as [[e2 noc]| | |] eqn:E2; try discriminate. cbn [rbind] in H.
    assert (Ln : length ic' = length (map (read e) (n_ins nd))) by (rewrite map_length; eapply writes_len, E1).
    destruct (HZ (1 :: fuel :: stamp) e ic' oc' st He Hz (fun n Hn => proj2 (HK n Hn)) (fun n Hc Hk n' av' Hin Hz' => HI k nd n n' av' En Hc Hk Hin Hz') Er ltac:(eapply writes_len, E1) ltac:(eapply writes_len, E2)) as (Zi & Zo & Zs).
    unfold rule_ok in Hr. specialize (Hr _ _ _ _ _ (reads_sound V W w0 rho e _ _ He Hi) (reads_sound V W w0 rho e _ _ He Ho) Er Ln). destruct Hr as [Ei Eo].
    assert (He1 : esound rho e1) by (eapply writes_sound; [exact cordp|exact He|exact Hi|exact Ei|exact E1]). assert (He2 : esound rho e2). { eapply writes_sound; [exact cordp|exact He1|exact Ho| |exact E2]. apply okl_of; [apply F2_length in Ho; exact Ho|exact Eo]. }
    destruct (writes_zone Z L _ _ _ _ _ E1 Hz (fun n av c Hin Hn => proj1 (Zi n av c Hin Hn))) as (W1 & M1 & N1 & O1 & L1).
    destruct (writes_zone Z L _ _ _ _ _ E2 W1 (fun n av c Hin Hn => proj1 (Zo n av c Hin Hn))) as (W2 & M2 & N2 & O2 & L2).
    assert (M : forall n, Z n -> ke e n -> ke e2 n) by auto.
    assert (N : forall n, Z n -> ke e2 n -> ke e n \/ C k n /\ forall n' av', In (AVar n' av') (n_outs nd) -> Z n' -> ke e n').
    { intros n Hn Hk. destruct (N2 n Hn Hk) as [Hk1|(av & c & Hin & Hk1)]; [|left; apply (Zo n av c Hin Hn), Hk1]. destruct (N1 n Hn Hk1) as [Hk2|(av & c & Hin & Hk2)]; [left; exact Hk2|]. apply (Zi n av c Hin Hn), Hk2. }
    inversion Hd as [|? ? Hk0 Hd']; subst.
    destruct (update_queue_spec cell_lt nodes ord (fuel :: stamp) k (combine (n_atoms nd) (combine (map (read e) (n_ins nd) ++ map (read e) (n_outs nd)) (nic ++ noc))) Hp q Hd' (fun j Hj => Hb j (or_intror Hj))) as (Q1 & Q2 & Q3 & Q4 & _).
    assert (NW : forall n, Z n -> ke e2 n -> ~ ke e n -> exists av c, In (AVar n av, (read e (AVar n av), c)) (combine (n_atoms nd) (combine (map (read e) (n_ins nd) ++ map (read e) (n_outs nd)) (nic ++ noc))) /\ cell_lt (read e (AVar n av)) c = true).
    { intros n Hn Hk2 Hk. assert (X : exists av c, In (AVar n av, c) (combine (n_atoms nd) (nic ++ noc)) /\ kn c <> None).
      { unfold n_atoms. rewrite combine_app2 by (symmetry; exact L1). destruct (O2 n Hn Hk2) as [Hk1|(av & c & Hin & Hc)]; [|exists av, c; split; [apply in_or_app; right; exact Hin|exact Hc]]. destruct (O1 n Hn Hk1) as [?|(av & c & Hin & Hc)]; [contradiction|]. exists av, c. split; [apply in_or_app; left; exact Hin|exact Hc]. }
      destruct X as (av & c & Hin & Hc). exists av, c. split; [apply in_combine3; [unfold n_atoms; rewrite map_app; reflexivity|exact Hin]|]. apply lt_bottom; [|exact Hc]. destruct (zc_read Z L e n av Hz Hn) as [?|(v & j & E & _)]; [assumption|]. exfalso. apply Hk, (ke_read e n av). rewrite E. discriminate. }
    destruct (IH _ _ _ _ _ _ H He2 W2) as (A & B & D & F & G & G').
    - intros n Hn. destruct (HK n Hn). split; auto.
    - exact Q1.
    - exact Q2.
    - intros i nd' n n' av' Hi' Hc Hk Hin Hz'. assert (Hn : Z n). { destruct (HN i nd' Hi') as [_ [(X & _) _]]. apply X, Hc. } destruct (N n Hn Hk) as [Hk1|[Hc' Hk1]]; [apply M; [exact Hz'|]; eapply HI; eassumption|]. assert (i = k) as -> by (eapply HU; eassumption). assert (nd' = nd) as -> by congruence. apply M; [exact Hz'|eapply Hk1; eassumption].
    - intros i nd' Hi'. unfold upd. destruct (Nat.eqb_spec i k) as [->|Hne]; [assert (nd' = nd) as -> by congruence; apply (HM e e2); assumption|]. destruct (HN i nd' Hi') as [_ [(_ & HM' & _) _]]. apply (HM' e e2); [exact M|eapply HS, Hi'].
    - intros i nd' Hi' Hs Hn Hni. unfold upd in Hn. destruct (Nat.eqb_spec i k) as [->|Hne]; [exfalso; apply (HSf Hs _ _ _ _ Er Hn)|].
      assert (Hnq : ~ In i q) by (intros F; apply Hni, Q3, F). destruct (HQ i nd' Hi' Hs Hn ltac:(intros [->|F]; [congruence|contradiction])) as [R1 R2]. split; [exact R1|]. intros n av Hin Hzn Hk2. destruct (NW n Hzn Hk2 (R2 n av Hin Hzn)) as (av' & c & Hin' & Hlt).
      apply Hni, (Q4 _ _ _ i Hin' Hlt); [|exact Hne]. apply neighbors_spec. exists nd'. split; [exact Hi'|]. unfold n_atoms. apply in_flat_map. exists (AVar n av). split; [apply in_or_app; right; exact Hin|left; reflexivity].
    - split; [exact A|]. split; [exact B|]. split; [auto|]. split; [|split; [exact G|exact G']]. intros n Hn Hk. destruct (F n Hn Hk) as [Hk1|Hk1]; [|right; exact Hk1]. destruct (N n Hn Hk1) as [?|[? _]]; [left; assumption|right; exists k, nd; auto].
  Qed.
End Lin.
