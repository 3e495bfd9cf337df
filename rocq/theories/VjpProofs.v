(** C80: reverse-mode differentiation of programs with sows, and of reap.  Proofs. *)
From Verif Require Export VjpModel GradHarvestMain HarvestProofs4.
Open Scope string_scope. Open Scope list_scope. Open Scope nat_scope.

Lemma filter_length_le' {X} (f : X -> bool) l : List.length (filter f l) <= List.length l.
Proof. induction l as [|x l IH]; cbn; [lia|]. destruct (f x); cbn; lia. Qed.
Lemma scan_loop_app {C X Y} (f : C * X -> res (C * Y)) l : forall c m, scan_loop f c (l ++ m) = rb (scan_loop f c l) (fun a => rb (scan_loop f (fst a) m) (fun b => inl (fst b, snd a ++ snd b))).
Proof.
  induction l as [|x l IH]; intros c m; cbn [app scan_loop rb fst snd]; [destruct (scan_loop f c m) as [[? ?]|]; reflexivity|]. destruct (f (c, x)) as [cy|]; cbn [rb]; [|reflexivity]. rewrite IH. destruct (scan_loop f (fst cy) l) as [a|]; cbn [rb fst snd]; [|reflexivity]. destruct (scan_loop f (fst a) m); reflexivity.
Qed.
Section pair.
  Context {AR : Arrays} {CT : Cotangents AR}.
  Lemma kadd_0r a : kadd a k0 = a.
  Proof. rewrite kadd_comm. apply kadd_0. Qed.
  Lemma kadd_swap a b c : kadd a (kadd b c) = kadd b (kadd a c).
  Proof. rewrite !kadd_assoc, (kadd_comm a b). reflexivity. Qed.
  Lemma dget_filter {X} (f : string -> bool) (m : list (string * X)) k : dget (filter (fun e => f (fst e)) m) k = if f k then dget m k else None.
  Proof.
    induction m as [|[n v] m IH]; cbn [filter dget fst]; [destruct (f k); reflexivity|].
    destruct (f n) eqn:E; cbn [dget]; destruct (String.eqb_spec k n) as [->|]; rewrite ?E in *; auto.
  Qed.
  Lemma dget_without {X} n (m : list (string * X)) k : dget (without n m) k = if String.eqb n k then None else dget m k.
  Proof. unfold without. rewrite (dget_filter (fun e => negb (String.eqb n e))). destruct (String.eqb n k); reflexivity. Qed.
  Definition at_name (v : tree) (m : list (string * tree)) (n : string) : K := match dget m n with Some w => tdot v w | None => k0 end.
  Lemma ldot_cons n v l m : ldot ((n, v) :: l) m = kadd (at_name v m n) (ldot l (without n m)).
  Proof. reflexivity. Qed.
  Lemma tdot_dict l m : tdot (Dict l) (Dict m) = ldot l m.
  Proof. revert m. induction l as [|[n v] l IH]; intros m; [reflexivity|]. rewrite ldot_cons, <- IH. reflexivity. Qed.
  Lemma ldot_ext l : forall m m', (forall k, dget m k = dget m' k) -> ldot l m = ldot l m'.
  Proof.
    induction l as [|[n v] l IH]; intros m m' H; [reflexivity|]. rewrite !ldot_cons. unfold at_name. rewrite H. f_equal. apply IH. intros k. rewrite !dget_without, H. reflexivity.
  Qed.
  Lemma ldot_none l : forall m, (forall k, dget m k = None) -> ldot l m = k0.
  Proof.
    induction l as [|[n v] l IH]; intros m H; [reflexivity|]. rewrite ldot_cons. unfold at_name. rewrite H, kadd_0. apply IH. intros k. rewrite dget_without, H. destruct (String.eqb n k); reflexivity.
  Qed.
  Lemma ldot_nil l : ldot l [] = k0.
  Proof. apply ldot_none. reflexivity. Qed.
  Lemma without_comm n k l (m : list (string * tree)) : ldot l (without n (without k m)) = ldot l (without k (without n m)).
  Proof. apply ldot_ext. intros j. rewrite !dget_without. destruct (String.eqb n j), (String.eqb k j); reflexivity. Qed.
  Lemma ldot_dset n v l : forall m, ldot (dset l n v) m = kadd (at_name v m n) (ldot l (without n m)).
  Proof.
    induction l as [|[k w] l IH]; intros m; cbn [dset]; [reflexivity|]. destruct (String.eqb_spec n k) as [->|N].
    - rewrite !ldot_cons. f_equal. unfold at_name. rewrite dget_without, String.eqb_refl, kadd_0. apply ldot_ext. intros j. rewrite !dget_without. destruct (String.eqb k j); reflexivity.
    - rewrite !ldot_cons, IH, kadd_swap. rewrite without_comm. unfold at_name. rewrite !dget_without.
      replace (String.eqb k n) with false by (symmetry; apply String.eqb_neq; congruence). replace (String.eqb n k) with false by (symmetry; apply String.eqb_neq; congruence). reflexivity.
  Qed.
  Lemma ldot_split n v l : dget l n = Some v -> forall m, ldot l m = kadd (at_name v m n) (ldot l (without n m)).
  Proof.
    induction l as [|[k w] l IH]; intros H m; [discriminate|]. cbn [dget] in H. revert H. destruct (String.eqb_spec n k) as [->|N]; intros H.
    - injection H as ->. rewrite !ldot_cons. f_equal. unfold at_name. rewrite dget_without, String.eqb_refl, kadd_0. apply ldot_ext. intros j. rewrite !dget_without. destruct (String.eqb k j); reflexivity.
    - rewrite !ldot_cons, (IH H), kadd_swap. rewrite without_comm. unfold at_name. rewrite !dget_without.
      replace (String.eqb k n) with false by (symmetry; apply String.eqb_neq; congruence). replace (String.eqb n k) with false by (symmetry; apply String.eqb_neq; congruence). reflexivity.
  Qed.
  (** sums of cotangents *)
  Definition has_dict := fix go (l : list (string * tree)) (m : list (string * aval)) : bool :=
           match l, m with
           | [], [] => true
           | (k, t) :: l', (k', a) :: m' => String.eqb k k' && has_aval t a && go l' m'
           | _, _ => false
           end.
  Definition add_dict := fix go (l m : list (string * tree)) : list (string * tree) :=
        match l, m with (n, v) :: l', (_, w) :: m' => (n, tadd v w) :: go l' m' | _, _ => [] end.
  Lemma dget_add n m1 : forall m2 ml, has_dict m1 ml = true -> has_dict m2 ml = true ->
    match dget m1 n, dget m2 n with
    | Some a, Some b => dget (add_dict m1 m2) n = Some (tadd a b) /\ exists av, has_aval a av = true /\ has_aval b av = true
    | None, None => dget (add_dict m1 m2) n = None
    | _, _ => False
    end.
  Proof.
    induction m1 as [|[k1 a] m1 IH]; intros [|[k2 b] m2] [|[k av] ml] H1 H2; cbn [has_dict] in H1, H2; try discriminate; [reflexivity|].
    apply andb_prop in H1 as [H1 G1]. apply andb_prop in H1 as [E1 H1]. apply andb_prop in H2 as [H2 G2]. apply andb_prop in H2 as [E2 H2]. apply String.eqb_eq in E1, E2. subst. cbn [dget add_dict]. destruct (String.eqb n k); [eauto|]. exact (IH _ _ G1 G2).
  Qed.
  Lemma without_add n m1 : forall m2 ml, has_dict m1 ml = true -> has_dict m2 ml = true ->
    without n (add_dict m1 m2) = add_dict (without n m1) (without n m2) /\ has_dict (without n m1) (without n ml) = true /\ has_dict (without n m2) (without n ml) = true.
  Proof.
    induction m1 as [|[k1 a] m1 IH]; intros [|[k2 b] m2] [|[k av] ml] H1 H2; cbn [has_dict] in H1, H2; try discriminate; [cbn; auto|].
    apply andb_prop in H1 as [H1 G1]. apply andb_prop in H1 as [E1 H1]. apply andb_prop in H2 as [H2 G2]. apply andb_prop in H2 as [E2 H2]. apply String.eqb_eq in E1, E2. subst. destruct (IH _ _ G1 G2) as (A & B & C).
    unfold without in *. cbn [filter add_dict fst]. destruct (String.eqb n k); cbn [negb]; [auto|]. cbn [add_dict has_dict]. rewrite A, B, C, H1, H2, String.eqb_refl. auto.
  Qed.
  Lemma ldot_add (l : list (string * tree)) : (forall v, In v (map snd l) -> forall c w av, has_aval c av = true -> has_aval w av = true -> tdot v (tadd c w) = kadd (tdot v c) (tdot v w)) ->
    forall m1 m2 ml, has_dict m1 ml = true -> has_dict m2 ml = true -> ldot l (add_dict m1 m2) = kadd (ldot l m1) (ldot l m2).
  Proof.
    induction l as [|[n v] l IH]; intros H m1 m2 ml H1 H2; [symmetry; apply kadd_0|]. rewrite !ldot_cons. destruct (without_add n _ _ _ H1 H2) as (E & G1 & G2). rewrite E, (IH (fun v Hv => H v (or_intror Hv)) _ _ _ G1 G2).
    pose proof (dget_add n _ _ _ H1 H2) as D. unfold at_name. destruct (dget m1 n) as [a|], (dget m2 n) as [b|]; try contradiction.
    - destruct D as (-> & av & Ha & Hb). rewrite (H v (or_introl eq_refl) _ _ _ Ha Hb). rewrite <- !kadd_assoc. f_equal. apply kadd_swap.
    - rewrite D, !kadd_0. reflexivity.
  Qed.
  Fixpoint tdot_add (v : tree) : forall c w av, has_aval c av = true -> has_aval w av = true -> tdot v (tadd c w) = kadd (tdot v c) (tdot v w).
  Proof.
    destruct v as [v|l|l]; intros c w av H1 H2.
    - destruct c as [c|m|m], w as [w|m'|m'], av; try discriminate; cbn [tdot tadd]; rewrite ?kadd_0; try reflexivity.
      cbn [has_aval] in H1, H2. apply av_eqb_spec in H1, H2. apply dotV_add. congruence.
    - destruct c as [c|m|m], w as [w|m'|m'], av as [a|ml|n a]; try discriminate; try (cbn [tdot tadd]; rewrite ?kadd_0; reflexivity).
      change (tadd (Dict m) (Dict m')) with (Dict (add_dict m m')). rewrite !tdot_dict. apply (ldot_add l) with (ml := ml); [|exact H1|exact H2].
      clear -tdot_add. induction l as [|[n v] l IH]; intros u Hu; [destruct Hu|]. destruct Hu as [<-|Hu]; [exact (tdot_add v)|exact (IH u Hu)].
    - destruct c as [c|m|m], w as [w|m'|m'], av as [a|ml|n a]; try discriminate; try (cbn [tdot tadd]; rewrite ?kadd_0; reflexivity).
      cbn [has_aval] in H1, H2. apply andb_prop in H1 as [N1 H1]. apply andb_prop in H2 as [N2 H2]. apply Nat.eqb_eq in N1, N2. rewrite <- N2 in N1. clear N2.
      cbn [tdot tadd]. revert m m' N1 H1 H2. induction l as [|v l IH]; intros [|c m] [|w m'] N1 H1 H2; try discriminate; try (rewrite ?kadd_0; reflexivity).
      cbn [forallb] in H1, H2. apply andb_prop in H1 as [G1 H1]. apply andb_prop in H2 as [G2 H2]. injection N1 as N1. rewrite (IH _ _ N1 H1 H2), (tdot_add v _ _ _ G1 G2). rewrite <- !kadd_assoc. f_equal. apply kadd_swap.
  Qed.
  Fixpoint tdot_zeros (a : aval) : forall c, tdot (zeros a) c = k0.
  Proof.
    destruct a as [a|l|n a]; intros c.
    - destruct c; cbn [zeros tdot]; [apply dotV_0|reflexivity|reflexivity].
    - destruct c as [c|m|m]; cbn [zeros]; [reflexivity| |reflexivity]. rewrite tdot_dict. revert m. induction l as [|[n a] l IH]; intros m; [reflexivity|]. cbn [map fst snd]. rewrite ldot_cons, IH, kadd_0r. unfold at_name. destruct (dget m n); [apply tdot_zeros|reflexivity].
    - destruct c as [c|m|m]; cbn [zeros tdot]; [reflexivity|reflexivity|]. revert m. induction n as [|n IH]; intros m; [reflexivity|]. cbn [repeat]. destruct m as [|w m]; [reflexivity|]. rewrite (IH m), kadd_0r. apply tdot_zeros.
  Qed.
  Lemma ldot_zeros l : (forall e, In e l -> exists a, snd e = zeros a) -> forall m, ldot l m = k0.
  Proof.
    induction l as [|[n v] l IH]; intros H m; [reflexivity|]. rewrite ldot_cons, (IH (fun e He => H e (or_intror He))), kadd_0r. destruct (H _ (or_introl eq_refl)) as [a E]. cbn in E. subst v. unfold at_name. destruct (dget m n); [apply tdot_zeros|reflexivity].
  Qed.
  Lemma dget_app_l {X} (a b : list (string * X)) k : dget (a ++ b) k = match dget a k with Some v => Some v | None => dget b k end.
  Proof. induction a as [|[n v] a IH]; [reflexivity|]. cbn [app dget]. destruct (String.eqb k n); [reflexivity|exact IH]. Qed.
  Lemma ldot_app l : forall a b, (forall k, dget a k = None \/ dget b k = None) -> ldot l (a ++ b) = kadd (ldot l a) (ldot l b).
  Proof.
    induction l as [|[n v] l IH]; intros a b H; [symmetry; apply kadd_0|]. rewrite !ldot_cons.
    assert (E : ldot l (without n (a ++ b)) = kadd (ldot l (without n a)) (ldot l (without n b))).
    { rewrite <- IH; [apply ldot_ext; intros k; rewrite dget_without, !dget_app_l, !dget_without; destruct (String.eqb n k); reflexivity|]. intros k. rewrite !dget_without. destruct (String.eqb n k); [left; reflexivity|apply H]. }
    rewrite E. assert (G : at_name v (a ++ b) n = kadd (at_name v a n) (at_name v b n)).
    { unfold at_name. rewrite dget_app_l. destruct (H n) as [-> | ->]; [rewrite kadd_0; reflexivity|]. destruct (dget a n); rewrite ?kadd_0r; reflexivity. }
    rewrite G, <- !kadd_assoc. f_equal. apply kadd_swap.
  Qed.
  (** ** sequences *)
  Lemma pairings_app (X : space) l : forall m l2 m2, List.length l = List.length m -> pairings X (l ++ l2) (m ++ m2) = kadd (pairings X l m) (pairings X l2 m2).
  Proof. induction l as [|v l IH]; intros [|w m] l2 m2 H; try discriminate; cbn [app pairings]; [symmetry; apply kadd_0|]. injection H as H. rewrite (IH _ _ _ H), kadd_assoc. reflexivity. Qed.
  Lemma pairings_rev (X : space) l : forall m, List.length l = List.length m -> pairings X (rev l) (rev m) = pairings X l m.
  Proof.
    induction l as [|v l IH]; intros [|w m] H; try discriminate; [reflexivity|]. injection H as H. cbn [rev]. rewrite pairings_app by (rewrite !rev_length; exact H). rewrite (IH _ H). cbn [pairings]. rewrite kadd_0r. apply kadd_comm.
  Qed.
  Lemma pairings_combine (X Y : space) l : forall m n, List.length l = List.length m -> List.length l = List.length n -> pairings (Prod X Y) l (combine m n) = kadd (pairings X (map fst l) m) (pairings Y (map snd l) n).
  Proof.
    induction l as [|v l IH]; intros [|w m] [|u n] H1 H2; try discriminate; [symmetry; apply kadd_0|]. injection H1 as H1. injection H2 as H2. cbn [combine pairings map pairing Prod fst snd]. rewrite (IH _ _ H1 H2), <- !kadd_assoc. f_equal. apply kadd_swap.
  Qed.
  (** ** stacked values *)
  Lemma onto_length n ws : forall us, List.length ws = List.length us -> List.length (onto n ws us) = List.length us.
  Proof. intros us H. unfold onto. rewrite map_length, combine_length, H. apply Nat.min_id. Qed.
  Lemma unstacked_length len c : forall us, unstacked len c = inl us -> List.length us = len.
  Proof.
    induction c as [|[n [w|w|ws]] c IH]; intros us H; cbn [unstacked] in H; try discriminate; [injection H as <-; apply repeat_length|].
    destruct (Nat.eqb_spec (List.length ws) len) as [E|]; [|discriminate]. apply rb_inl in H as (us' & H & E'). injection E' as <-. specialize (IH _ H). rewrite onto_length; congruence.
  Qed.
  Lemma unstacked_without n len c : forall us, unstacked len c = inl us -> unstacked len (without n c) = inl (map (without n) us).
  Proof.
    induction c as [|[k [w|w|ws]] c IH]; intros us H; cbn [unstacked] in H; try discriminate.
    - injection H as <-. cbn [without filter unstacked]. f_equal. clear. induction len as [|len IH]; [reflexivity|]. cbn [repeat map]. f_equal. exact IH.
    - destruct (Nat.eqb_spec (List.length ws) len) as [E|]; [|discriminate]. apply rb_inl in H as (us' & H & E'). injection E' as <-. pose proof (unstacked_length _ _ _ H) as L. specialize (IH _ H). assert (Eq : List.length ws = List.length us') by congruence. clear -IH Eq E.
      unfold without in *. cbn [filter fst]. destruct (String.eqb_spec n k) as [->|N]; cbn [negb].
      + rewrite IH. f_equal. clear -Eq. unfold onto. revert us' Eq. induction ws as [|w ws IH]; intros [|u us] Eq; try discriminate; [reflexivity|]. cbn [combine map fst snd filter]. rewrite String.eqb_refl. cbn [negb]. f_equal. apply IH. injection Eq as Eq. exact Eq.
      + cbn [unstacked]. rewrite E, Nat.eqb_refl, IH. cbn [rb]. f_equal. clear -Eq N. unfold onto. revert us' Eq. induction ws as [|w ws IH]; intros [|u us] Eq; try discriminate; [reflexivity|]. cbn [combine map fst snd filter]. apply String.eqb_neq in N. rewrite N. cbn [negb]. f_equal. apply IH. injection Eq as Eq. exact Eq.
  Qed.
  Lemma stack_one n (Ds : list dict) : (forall D, In D Ds -> haskey D n = true) -> forall ws us, List.length Ds = List.length ws -> List.length Ds = List.length us ->
    pairings DictS Ds (onto n ws us) = kadd (tdot (Stk (map (fun D => value_of D n) Ds)) (Stk ws)) (pairings DictS Ds (map (without n) us)).
  Proof.
    induction Ds as [|D Ds IH]; intros H [|w ws] [|u us] H1 H2; try discriminate; [symmetry; apply kadd_0|]. injection H1 as H1. injection H2 as H2. unfold onto. cbn [combine map fst snd pairings pairing DictS]. change (map (fun wu => (n, fst wu) :: snd wu) (combine ws us)) with (onto n ws us).
    rewrite (IH (fun D' HD => H D' (or_intror HD)) _ _ H1 H2). pose proof (H D (or_introl eq_refl)) as Hn. unfold haskey in Hn. destruct (dget D n) as [[v p]|] eqn:E; [|discriminate].
    assert (E' : dget (strip D) n = Some v). { clear -E. unfold strip. induction D as [|[k [w q]] D IH]; [discriminate|]. cbn [map dget fst snd] in *. destruct (String.eqb n k); [congruence|exact (IH E)]. }
    rewrite (ldot_split n v _ E'). unfold at_name. cbn [dget]. rewrite String.eqb_refl.
    assert (Ew : ldot (strip D) (without n ((n, w) :: u)) = ldot (strip D) (without n u)) by (apply ldot_ext; intros k; rewrite !dget_without; cbn [dget]; rewrite (String.eqb_sym k n); destruct (String.eqb n k); reflexivity).
    assert (Ev : value_of D n = v) by (unfold value_of; rewrite E; reflexivity). rewrite Ew. cbn [map]. rewrite Ev. change (tdot (Stk (v :: map (fun D0 => value_of D0 n) Ds)) (Stk (w :: ws))) with (kadd (tdot v w) (tdot (Stk (map (fun D0 => value_of D0 n) Ds)) (Stk ws))). rewrite <- !kadd_assoc. f_equal. apply kadd_swap.
  Qed.
  Lemma pairings_nil Ds : forall n, pairings DictS Ds (repeat [] n) = k0.
  Proof. induction Ds as [|D Ds IH]; intros [|n]; try reflexivity. cbn [repeat pairings pairing DictS]. rewrite ldot_nil, IH. apply kadd_0. Qed.
  Lemma stacked_pair M (Ds : list dict) : (forall D n, In D Ds -> In n (dkeys (appends M)) -> haskey D n = true) ->
    forall c us, (forall e, In e c -> In (fst e) (dkeys (appends M))) -> unstacked (List.length Ds) c = inl us -> ldot (strip (stacked M Ds)) c = pairings DictS Ds us.
  Proof.
    intros H c. remember (List.length c) as k eqn:Ek. assert (Hk : List.length c <= k) by lia. clear Ek. revert c Hk. induction k as [|k IHk]; intros c Hk us Hc Hu.
    - destruct c; [|cbn in Hk; lia]. injection Hu as <-. rewrite ldot_nil, pairings_nil. reflexivity.
    - destruct c as [|[n [w|w|ws]] c]; cbn [unstacked] in Hu; try discriminate; [injection Hu as <-; rewrite ldot_nil, pairings_nil; reflexivity|].
      destruct (Nat.eqb_spec (List.length ws) (List.length Ds)) as [E|]; [|discriminate]. apply rb_inl in Hu as (us' & Hu & E'). injection E' as <-. pose proof (unstacked_length _ _ _ Hu) as L.
      assert (Hn : In n (dkeys (appends M))) by exact (Hc _ (or_introl eq_refl)).
      rewrite (stack_one n Ds (fun D HD => H D n HD Hn) ws us') by congruence. rewrite <- (IHk (without n c)) with (us := map (without n) us').
      + assert (E' : dget (strip (stacked M Ds)) n = Some (Stk (map (fun D => value_of D n) Ds))).
        { unfold stacked, strip. rewrite map_map. cbn [fst snd]. clear -Hn. induction (appends M) as [|[k x] l IH]; [destruct Hn|]. cbn [map dget fst]. destruct (String.eqb_spec n k) as [->|N]; [reflexivity|]. apply IH. destruct Hn as [Hn|Hn]; [cbn in Hn; congruence|exact Hn]. }
        rewrite (ldot_split n _ _ E'). unfold at_name. cbn [dget]. rewrite String.eqb_refl. f_equal. apply ldot_ext. intros j. rewrite !dget_without. cbn [dget]. rewrite (String.eqb_sym j n). destruct (String.eqb n j); reflexivity.
      + unfold without. cbn [List.length] in Hk. pose proof (filter_length_le' (fun e : string * tree => negb (String.eqb n (fst e))) c). lia.
      + intros e He. apply filter_In in He as [He _]. exact (Hc e (or_intror He)).
      + exact (unstacked_without n _ _ _ Hu).
  Qed.
End pair.

(** ** the pullback is the transpose of jvp *)
Section adj.
  Context {AR : Arrays} {CT : Cotangents AR}.
  (** [Adj P p Q]: for tangents in P: if jvp and vjp both return then with the same value; the tangent of the result is in Q
      and pairs with its cotangent like the tangent of the argument with the cotangent that the pullback returns *)
  Definition Adj {X Y} (P : car X -> Prop) (p : vprog X Y) (Q : car Y -> Prop) : Prop :=
    forall fuel x dx ct y dy y' r g, P dx -> run fuel (jvpT (toD p)) (x, dx) = inl (y, dy) -> run fuel (fwdT p) x = inl (y', r) -> run fuel (bwdT p) (r, ct) = inl g ->
      y' = y /\ Q dy /\ pairing Y dy ct = pairing X dx g.
  Definition elem_ok {X Y} (P : car X -> Prop) (f : car X -> res (car Y)) (df : car X -> car X -> res (car Y)) (ft : car X -> co Y -> res (co X)) (Q : car Y -> Prop) : Prop :=
    forall x dx ct y dy g, P dx -> f x = inl y -> df x dx = inl dy -> ft x ct = inl g -> Q dy /\ pairing Y dy ct = pairing X dx g.
  (** every elementary step has been given its derivative's transpose *)
  Fixpoint sound {X Y} (p : vprog X Y) : Prop :=
    match p with
    | RevPure f df ft => elem_ok (fun _ => True) f df ft (fun _ => True)
    | RevSeq p q | RevCond p q => sound p /\ sound q
    | RevFirst _ p | RevNest _ p | RevCall p | RevScan _ _ p => sound p
    | RevSow _ _ _ _ | RevCustom _ _ _ => True
    end.
  Lemma Adj_pure {X Y} P (f : car X -> res (car Y)) df ft Q : elem_ok P f df ft Q -> Adj P (RevPure f df ft) Q.
  Proof.
    intros H fuel x dx ct y dy y' r g HP H1 H2 H3. cbn [toD jvpT fwdT bwdT run fst snd] in *. apply rb_inl in H1 as (y1 & E1 & H1). apply rb_inl in H1 as (dy1 & E2 & H1). injection H1 as -> ->.
    rewrite E1 in H2. cbn [rb] in H2. injection H2 as <- <-. split; [reflexivity|]. exact (H x dx ct y dy g HP E1 E2 H3).
  Qed.
  Lemma Adj_seq {X Y Z} (P : car X -> Prop) (Q : car Y -> Prop) (S : car Z -> Prop) (p : vprog X Y) (q : vprog Y Z) : Adj P p Q -> Adj Q q S -> Adj P (RevSeq p q) S.
  Proof.
    intros A B fuel x dx ct z dz z' r g HP H1 H2 H3. cbn [toD jvpT fwdT bwdT run fst snd rb] in *. apply rb_inl in H1 as ([y dy] & E1 & H1). apply rb_inl in H2 as ([y' r1] & E2 & H2). cbn [fst snd] in H2.
    apply rb_inl in H2 as (w & E3 & H2). apply rb_inl in E3 as ([z1 r2] & E3 & E4). injection E4 as <-. cbn [fst snd] in H2. injection H2 as <- <-. cbn [fst snd] in H3.
    apply rb_inl in H3 as (w & E5 & H3). apply rb_inl in E5 as (gy & E5 & E6). injection E6 as <-. cbn [fst snd] in H3.
    assert (Ey : y' = y).
    { pose proof (C70_primal fuel (toD p) x dx y dy E1) as K1. clear -E1 E2 K1 E3 A B HP E5 H3 H1. destruct (A fuel x dx gy y dy y' r1 g HP E1 E2 H3) as (G & _). exact G. }
    subst y'. destruct (A fuel x dx gy y dy y r1 g HP E1 E2 H3) as (_ & HQ & G1). destruct (B fuel y dy ct z dz z1 r2 gy HQ H1 E3 E5) as (G & HS & G2). split; [exact G|]. split; [exact HS|]. rewrite G2. exact G1.
  Qed.
  Lemma Adj_first {X Y} (C : space) (P : car X -> Prop) (Q : car Y -> Prop) (S : car C -> Prop) (p : vprog X Y) : Adj P p Q ->
    Adj (X := Prod X C) (Y := Prod Y C) (fun d => P (fst d) /\ S (snd d)) (RevFirst C p) (fun d => Q (fst d) /\ S (snd d)).
  Proof.
    intros A fuel [x c] [dx dc] [ct cc] [y c1] [dy dc1] [y' c2] r g [HP HS] H1 H2 H3. cbn [fst snd] in *. apply (eq_trans (eq_sym (run_first fuel (toD p) x c dx dc))) in H1.
    apply rb_inl in H1 as ([y1 dy1] & E1 & H1). injection H1 as <- <- <- <-. cbn [fwdT bwdT run fst snd rb] in H2, H3. apply rb_inl in H2 as (w & E2 & H2). apply rb_inl in E2 as ([y2 r2] & E2 & E3). injection E3 as <-. cbn [fst snd] in H2. injection H2 as <- <- <-.
    apply rb_inl in H3 as (gx & E4 & H3). injection H3 as <-. destruct (A fuel x dx ct y1 dy1 y2 r2 gx HP E1 E2 E4) as (-> & HQ & G). split; [reflexivity|]. split; [split; assumption|]. cbn [pairing Prod fst snd]. rewrite G. reflexivity.
  Qed.
  Lemma Adj_weak {X Y} (P P' : car X -> Prop) (Q Q' : car Y -> Prop) (p : vprog X Y) : (forall d, P' d -> P d) -> (forall d, Q d -> Q' d) -> Adj P p Q -> Adj P' p Q'.
  Proof. intros HP HQ A fuel x dx ct y dy y' r g H H1 H2 H3. destruct (A fuel x dx ct y dy y' r g (HP _ H) H1 H2 H3) as (G1 & G2 & G3). auto. Qed.
  Lemma Adj_nest {X Y} P Q sc (p : vprog X Y) : Adj P p Q -> Adj P (RevNest sc p) Q.
  Proof. intros A. exact A. Qed.
  Lemma Adj_call {X Y} P Q (p : vprog X Y) : Adj P p Q -> Adj P (RevCall p) Q.
  Proof. intros A. exact A. Qed.
  Lemma Adj_cond {X Y} P Q (p q : vprog X Y) : Adj P p Q -> Adj P q Q -> Adj (X := Prod BoolS X) (fun d => P (snd d)) (RevCond p q) Q.
  Proof.
    intros A B fuel [b x] [db dx] ct y dy y' r g HP H1 H2 H3. cbn [toD jvpT fwdT bwdT resid run fst snd rb] in *. destruct b.
    - apply rb_inl in H2 as ([y1 r1] & E2 & H2). cbn [fst snd] in H2. injection H2 as <- <-. cbn [fst snd rb] in H3. apply rb_inl in H3 as (g1 & E3 & H3). injection H3 as <-.
      destruct (A fuel x dx ct y dy y1 r1 g1 HP H1 E2 E3) as (E & HQ & G). split; [exact E|]. split; [exact HQ|]. cbn [pairing Prod BoolS fst snd]. rewrite kadd_0. exact G.
    - apply rb_inl in H2 as ([y1 r1] & E2 & H2). cbn [fst snd] in H2. injection H2 as <- <-. cbn [fst snd rb] in H3. apply rb_inl in H3 as (g1 & E3 & H3). injection H3 as <-.
      destruct (B fuel x dx ct y dy y1 r1 g1 HP H1 E2 E3) as (E & HQ & G). split; [exact E|]. split; [exact HQ|]. cbn [pairing Prod BoolS fst snd]. rewrite kadd_0. exact G.
  Qed.
  (** scans *)
  Section scans.
    Context (fuel : nat) {C X Y : space} (p : vprog (Prod C X) (Prod C Y)) (Ic : car C -> Prop) (J : car Y -> Prop).
    Hypothesis HA : Adj (X := Prod C X) (Y := Prod C Y) (fun d => Ic (fst d)) p (fun d => Ic (fst d) /\ J (snd d)).
    Definition stepJ (z : (car C * car C) * (car X * car X)) : res ((car C * car C) * (car Y * car Y)) :=
      rb (run fuel (jvpT (toD p : dprog (car C * car X) (car C * car Y))) (across z)) (fun w => inl (across w)).
    Definition stepF (z : car C * car X) : res (car C * (car Y * resid p)) :=
      rb (run fuel (fwdT p) z) (fun w : (car C * car Y) * resid p => inl (fst (fst w), (snd (fst w), snd w))).
    Definition stepB (z : co C * (resid p * co Y)) : res (co C * co X) := run fuel (bwdT p) (fst (snd z), (fst z, snd (snd z))).
    Lemma loop_adj xds : forall c dc c' dc' yds, scan_loop stepJ (c, dc) xds = inl ((c', dc'), yds) -> Ic dc ->
      forall c2 yrs, scan_loop stepF c (map fst xds) = inl (c2, yrs) ->
      forall cys cc gc gxs, List.length cys = List.length xds -> scan_loop stepB cc (rev (combine (map snd yrs) cys)) = inl (gc, gxs) ->
      c2 = c' /\ map fst yrs = map fst yds /\ Ic dc' /\ Forall J (map snd yds) /\ List.length yds = List.length xds /\ List.length gxs = List.length xds /\
      kadd (pairing C dc' cc) (pairings Y (map snd yds) cys) = kadd (pairing C dc gc) (pairings X (map snd xds) (rev gxs)).
    Proof.
      induction xds as [|[x dx] xds IH]; intros c dc c' dc' yds H HI c2 yrs HF cys cc gc gxs Hl HB; cbn [scan_loop map fst snd] in *.
      - injection H as <- <- <-. injection HF as <- <-. destruct cys; [|discriminate]. injection HB as <- <-. cbn. auto 10.
      - apply rb_inl in H as ([[c1 dc1] [y dy]] & H1 & H). apply rb_inl in H as ([[c3 dc3] yds'] & H2 & H). injection H as <- <- <-. cbn [fst snd] in *.
        apply rb_inl in HF as ([c1' [y' r]] & F1 & HF). apply rb_inl in HF as ([c3' yrs'] & F2 & HF). injection HF as <- <-. cbn [fst snd map] in *.
        destruct cys as [|cy cys]; [discriminate|]. injection Hl as Hl. cbn [combine rev] in HB. rewrite scan_loop_app in HB. apply rb_inl in HB as ([g1 gxs1] & B1 & HB). cbn [scan_loop fst snd] in HB. apply rb_inl in HB as (w & B2 & HB). apply rb_inl in B2 as ([gc' gx] & B2 & E). injection E as <-. cbn [fst snd] in HB. injection HB as <- <-.
        apply rb_inl in H1 as ([[c1a y1a] [dc1a dy1a]] & H1 & E). unfold across in E. cbn [fst snd] in E. injection E as <- <- <- <-. apply rb_inl in F1 as ([[c1b y1b] r1] & F1 & E). injection E as <- <- <-.
        destruct (HA fuel (c, x) (dc, dx) (g1, cy) (c1a, y1a) (dc1a, dy1a) (c1b, y1b) r1 (gc', gx) HI H1 F1 B2) as (E & [HI1 HJ] & G). injection E as -> ->. cbn [fst snd] in *.
        destruct (IH _ _ _ _ _ H2 HI1 _ _ F2 cys cc g1 gxs1 Hl B1) as (-> & Ey & HI3 & HJ3 & L1 & L2 & G3). split; [reflexivity|]. split; [f_equal; exact Ey|]. split; [exact HI3|]. split; [constructor; assumption|]. split; [cbn [List.length]; rewrite L1; reflexivity|]. split; [rewrite app_length, L2; cbn; lia|].
        rewrite rev_app_distr. cbn [rev app pairings map snd]. cbn [pairing Prod fst snd] in G. rewrite kadd_swap, G3, (kadd_assoc (pairing C dc gc')), <- G, (kadd_swap), kadd_assoc. reflexivity.
    Qed.
    Lemma map_rev_if {A B} (f : A -> B) b (l : list A) : map f (rev_if b l) = rev_if b (map f l).
    Proof. destruct b; [apply map_rev|reflexivity]. Qed.
    Lemma rev_if_length {A} b (l : list A) : List.length (rev_if b l) = List.length l.
    Proof. destruct b; [apply rev_length|reflexivity]. Qed.
    Lemma combine_rev {A B} (l : list A) : forall m : list B, List.length l = List.length m -> combine (rev l) (rev m) = rev (combine l m).
    Proof.
      induction l as [|a l IH]; intros [|b m] H; try discriminate; [reflexivity|]. injection H as H. cbn [rev combine]. rewrite <- (IH _ H).
      assert (K : forall (u : list A) (v : list B) u2 v2, List.length u = List.length v -> combine (u ++ u2) (v ++ v2) = combine u v ++ combine u2 v2). { clear. induction u as [|a u IH]; intros [|b v] u2 v2 H; try discriminate; [reflexivity|]. cbn. f_equal. apply IH. injection H as H. exact H. }
      apply (K _ _ [a] [b]). rewrite !rev_length. exact H.
    Qed.
    Lemma map_fst_combine {A B} (l : list A) : forall m : list B, List.length l = List.length m -> map fst (combine l m) = l.
    Proof. induction l as [|a l IH]; intros [|b m] H; try discriminate; [reflexivity|]. cbn. f_equal. apply IH. injection H as H. exact H. Qed.
    Lemma map_snd_combine {A B} (l : list A) : forall m : list B, List.length l = List.length m -> map snd (combine l m) = m.
    Proof. induction l as [|a l IH]; intros [|b m] H; try discriminate; [reflexivity|]. cbn. f_equal. apply IH. injection H as H. exact H. Qed.
    Lemma pairings_rev_if (Z : space) b l m : List.length l = List.length m -> pairings Z (rev_if b l) (rev_if b m) = pairings Z l m.
    Proof. intros H. destruct b; [apply pairings_rev, H|reflexivity]. Qed.
    Lemma rev_if_invol {A} b (l : list A) : rev_if b (rev_if b l) = l.
    Proof. destruct b; [apply rev_involutive|reflexivity]. Qed.
    Lemma rev_if_neg {A} b (l : list A) : rev_if (negb b) l = rev (rev_if b l).
    Proof. destruct b; [symmetry; apply rev_involutive|reflexivity]. Qed.
    Lemma combine_rev_if {A B} b (l : list A) (m : list B) : List.length l = List.length m -> combine (rev_if b l) (rev_if b m) = rev_if b (combine l m).
    Proof. intros H. destruct b; [apply combine_rev, H|reflexivity]. Qed.
    Lemma sem_adj rv len c xs dc dxs c' dc' ys dys c2 ys2 rs cc cys gc gxs : Ic dc ->
      run fuel (jvpT (toD (RevScan rv len p))) ((c, xs), (dc, dxs)) = inl ((c', ys), (dc', dys)) ->
      run fuel (fwdT (RevScan rv len p)) (c, xs) = inl ((c2, ys2), rs) -> run fuel (bwdT (RevScan rv len p)) (rs, (cc, cys)) = inl (gc, gxs) ->
      c2 = c' /\ ys2 = ys /\ Ic dc' /\ List.length dys = len /\ Forall J dys /\ kadd (pairing C dc' cc) (pairings Y dys cys) = kadd (pairing C dc gc) (pairings X dxs gxs).
    Proof.
      intros HI H1 H2 H3. cbn [toD jvpT run fst snd] in H1. destruct (Nat.eqb_spec (List.length xs) (List.length dxs)) as [El|]; [|discriminate]. cbn [rb] in H1. apply rb_inl in H1 as ([[c1 dc1] yds] & H1 & E). cbn [fst snd] in E. injection E as <- <- <- <-.
      change (scan_sem rv len stepJ ((c, dc), combine xs dxs) = inl ((c1, dc1), yds)) in H1. unfold scan_sem in H1. cbn [fst snd] in H1. destruct (Nat.eqb_spec (List.length (combine xs dxs)) len) as [Eln|]; [|discriminate]. apply rb_inl in H1 as ([[c3 dc3] yl] & H1 & E). cbn [fst snd] in E. injection E as <- <- <-.
      cbn [fwdT run] in H2. apply rb_inl in H2 as ([c4 yrs] & H2 & E). cbn [fst snd] in E. injection E as <- <- <-. change (scan_sem rv len stepF (c, xs) = inl (c4, yrs)) in H2. unfold scan_sem in H2. cbn [fst snd] in H2. destruct (Nat.eqb_spec (List.length xs) len) as [Elx|]; [|discriminate]. apply rb_inl in H2 as ([c5 yrl] & H2 & E). cbn [fst snd] in E. injection E as <- <-.
      cbn [bwdT run] in H3. apply rb_inl in H3 as (w & H3 & H4). cbn [fst snd] in H3. destruct (Nat.eqb_spec (List.length (map snd (rev_if rv yrl))) (List.length cys)) as [Ec|]; [|discriminate]. injection H3 as <-. change (scan_sem (negb rv) len stepB (cc, combine (map snd (rev_if rv yrl)) cys) = inl (gc, gxs)) in H4. unfold scan_sem in H4. cbn [fst snd] in H4.
      destruct (Nat.eqb_spec (List.length (combine (map snd (rev_if rv yrl)) cys)) len) as [Elb|]; [|discriminate]. apply rb_inl in H4 as ([gc2 gl] & H4 & E). cbn [fst snd] in E. injection E as <- <-.
      assert (Ecy : List.length cys = len) by (rewrite combine_length in Elb; rewrite Ec, Nat.min_id in Elb; exact Elb).
      rewrite map_rev_if in H4, Ec. rewrite <- (rev_if_invol rv cys) in H4. rewrite (combine_rev_if rv (map snd yrl) (rev_if rv cys)) in H4 by (rewrite rev_if_length in Ec; rewrite rev_if_length; exact Ec). rewrite rev_if_neg, rev_if_invol in H4.
      assert (F : scan_loop stepF c (map fst (rev_if rv (combine xs dxs))) = inl (c5, yrl)) by (rewrite map_rev_if, (map_fst_combine xs dxs El); exact H2).
      assert (Lc : List.length (rev_if rv cys) = List.length (rev_if rv (combine xs dxs))) by (rewrite !rev_if_length; congruence).
      destruct (loop_adj _ _ _ _ _ _ H1 HI _ _ F (rev_if rv cys) cc gc2 gl Lc H4) as (-> & Ey & HI3 & HJ & L1 & L2 & G). rewrite !map_rev_if.
      split; [reflexivity|]. split; [rewrite Ey; reflexivity|]. split; [exact HI3|]. rewrite rev_if_length in L1, L2. split; [rewrite rev_if_length, map_length; congruence|]. split.
      { destruct rv; [apply Forall_rev, HJ|exact HJ]. }
      assert (Ly : List.length (map snd yl) = List.length (rev_if rv cys)) by (rewrite map_length, rev_if_length; congruence).
      rewrite <- (rev_if_invol rv cys) at 1. rewrite (pairings_rev_if Y rv _ _ Ly), G. f_equal. rewrite map_rev_if, (map_snd_combine xs dxs El), rev_if_neg.
      assert (Lx : List.length dxs = List.length (rev gl)) by (rewrite rev_length; rewrite combine_length in *; lia).
      destruct rv; cbn [rev_if] in *; [|reflexivity]. exact (eq_trans (f_equal (pairings X (rev dxs)) (eq_sym (rev_involutive (rev gl)))) (pairings_rev X dxs (rev (rev gl)) (eq_trans Lx (eq_sym (rev_length (rev gl)))))) .
    Qed.
  End scans.
  Lemma Adj_scan {C X Y : space} rv len (p : vprog (Prod C X) (Prod C Y)) (Ic : car C -> Prop) (J : car Y -> Prop) :
    Adj (X := Prod C X) (Y := Prod C Y) (fun d => Ic (fst d)) p (fun d => Ic (fst d) /\ J (snd d)) ->
    Adj (X := Prod C (ListS X)) (Y := Prod C (ListS Y)) (fun d => Ic (fst d)) (RevScan rv len p) (fun d => Ic (fst d) /\ List.length (snd d) = len /\ Forall J (snd d)).
  Proof.
    intros HA fuel [c xs] [dc dxs] [cc cys] [c' ys] [dc' dys] [c2 ys2] r [gc gxs] HI H1 H2 H3. destruct (sem_adj fuel p Ic J HA rv len _ _ _ _ _ _ _ _ _ _ _ _ _ _ _ HI H1 H2 H3) as (-> & -> & A & B & D & G). auto 10.
  Qed.
  Lemma Adj_sow t n m av : Adj (fun _ => True) (RevSow t n m av) (fun _ => True).
  Proof.
    intros fuel x dx ct y dy y' r g _ H1 H2 H3. cbn [toD jvpT fwdT bwdT run fst snd rb] in *. destruct (is_cond m); [discriminate|]. unfold chk in *. destruct (has_aval x av); [|discriminate]. cbn [rb] in *.
    injection H1 as <- <-. injection H2 as <- <-. injection H3 as <-. auto.
  Qed.
  Lemma Adj_move {X Y : space} (P : car X -> Prop) (f : car X -> car Y) b (Q : car Y -> Prop) : (forall dx ct g, P dx -> b ct = inl g -> Q (f dx) /\ pairing Y (f dx) ct = pairing X dx g) -> Adj P (VMove f b) Q.
  Proof. intros H. apply Adj_pure. intros x dx ct y dy g HP E1 E2 E3. injection E2 as <-. exact (H dx ct g HP E3). Qed.
  Lemma Adj_custom {X Y} R fwd bwd P Q : Adj P (@RevCustom _ _ X Y R fwd bwd) Q.
  Proof. intros fuel x dx ct y dy y' r g _ H. discriminate. Qed.
  Lemma sound_adj {X Y} (p : vprog X Y) : sound p -> Adj (fun _ => True) p (fun _ => True).
  Proof.
    induction p as [X Y f df ft|X Y Z p IHp q IHq|X Y C p IHp|t n m av|X Y sc p IHp|X Y p IHp|X Y p IHp q IHq|C X Y rv len p IHp|X Y R fwd bwd]; cbn [sound]; intros H.
    - apply Adj_pure. exact H.
    - destruct H as [H1 H2]. eapply Adj_seq; [exact (IHp H1)|exact (IHq H2)].
    - eapply Adj_weak; [| |exact (Adj_first C _ _ (fun _ => True) p (IHp H))]; cbn; tauto.
    - apply Adj_sow.
    - apply Adj_nest, IHp, H.
    - apply Adj_call, IHp, H.
    - destruct H as [H1 H2]. eapply Adj_weak; [| |exact (Adj_cond _ _ _ _ (IHp H1) (IHq H2))]; cbn; tauto.
    - eapply Adj_weak; [| |exact (Adj_scan rv len p (fun _ => True) (fun _ => True) (Adj_weak _ _ _ _ _ (fun _ _ => I) (fun _ _ => conj I I) (IHp H)))]; cbn; tauto.
    - apply Adj_custom.
  Qed.
End adj.

(** ** reap *)
Section reapadj.
  Context {AR : Arrays} {CT : Cotangents AR}.
  Definition plain (d : dict) : Prop := forall e, In e d -> snd (snd e) = None.
  Definition inv (M : meta) (d : dict) : Prop := incl (dkeys M) (dkeys d) /\ plain d.
  Lemma in_dset_iff {A} (a : list (string * A)) n v k : In k (dkeys (dset a n v)) <-> k = n \/ In k (dkeys a).
  Proof.
    induction a as [|[m x] a IH]; cbn [dset]; [cbn; intuition|]. destruct (String.eqb_spec n m) as [->|N]; cbn [dkeys map fst In] in *; [intuition congruence|]. rewrite IH. intuition congruence.
  Qed.
  Lemma dkeys_dset_incl {A B} (a : list (string * A)) (b : list (string * B)) n v w : incl (dkeys a) (dkeys b) -> incl (dkeys (dset a n v)) (dkeys (dset b n w)).
  Proof. intros H k Hk. apply in_dset_iff in Hk. apply in_dset_iff. destruct Hk as [->|Hk]; [left; reflexivity|right; apply H, Hk]. Qed.
  Lemma strip_dset d n v p : strip (dset d n (v, p)) = dset (strip d) n v.
  Proof. induction d as [|[k [w q]] d IH]; [reflexivity|]. cbn [dset strip map fst snd]. destruct (String.eqb n k); cbn [map fst snd]; [reflexivity|]. f_equal. exact IH. Qed.
  Lemma plain_dset d n v : plain d -> plain (dset d n (v, None)).
  Proof.
    intros H e. induction d as [|[k w] d IH]; cbn [dset]; [intros [<-|[]]; reflexivity|]. destruct (String.eqb n k).
    - intros [<-|K]; [reflexivity|]. apply H. right. exact K.
    - intros [<-|K]; [apply H; left; reflexivity|]. apply IH; [|exact K]. intros e' K'. apply H. right. exact K'.
  Qed.
  Lemma plain_dget d n v p : plain d -> dget d n = Some (v, p) -> p = None.
  Proof.
    intros H E. induction d as [|[k w] d IH]; [discriminate|]. cbn [dget] in E. destruct (String.eqb n k); [injection E as ->; exact (H _ (or_introl eq_refl))|]. apply IH; [|exact E]. intros e' K'. apply H. right. exact K'.
  Qed.
  Lemma dget_strip d n : dget (strip d) n = option_map fst (dget d n).
  Proof. induction d as [|[k [w q]] d IH]; [reflexivity|]. cbn [strip map dget fst snd]. destruct (String.eqb n k); [reflexivity|exact IH]. Qed.
  Lemma final_plain d : plain d -> final d = strip d.
  Proof. intros H. unfold final, strip. apply map_ext_in. intros e He. rewrite (H e He). reflexivity. Qed.
  Lemma inv_store M d n v m av M' : inv M d -> handle M n m av = inl M' -> inv M' (store d n v None).
  Proof.
    intros [K H] E. cbn [store]. assert (M' = dset M n (m, av)) as ->.
    { unfold handle in E. destruct (dget M n) as [[m0 av0]|]; [|congruence]. destruct (_ && _)%bool; [|discriminate]. destruct (_ && _)%bool; [discriminate|]. congruence. }
    split; [apply dkeys_dset_incl, K|apply plain_dset, H].
  Qed.
  Lemma resow_inv s l i : plain i -> (forall n, In n (dkeys l) -> haskey i n = true) -> forall M d M', inv M d -> resow_meta s M l = inl M' -> inv M' (resow s (dkeys l) i d).
  Proof.
    intros Hi. unfold resow. induction l as [|[n [m av]] l IH]; intros Hk M d M' H E; cbn [resow_meta dkeys map fold_left fst] in *; [congruence|].
    apply rb_inl in E as (M1 & E1 & E). apply (IH (fun k Hk' => Hk k (or_intror Hk')) M1); [|exact E]. destruct (passes s n); [|congruence].
    specialize (Hk n (or_introl eq_refl)). unfold haskey in Hk. destruct (dget i n) as [[v p]|] eqn:Ei; [|discriminate]. rewrite (plain_dget _ _ _ _ Hi Ei). eapply inv_store; eassumption.
  Qed.
  Lemma mem_cons k n ns : mem k (n :: ns) = (String.eqb k n || mem k ns)%bool.
  Proof. reflexivity. Qed.
  Lemma resow_pair s ns i : plain i -> (forall n, In n ns -> haskey i n = true) -> forall d c,
    ldot (strip (resow s ns i d)) c = kadd (ldot (strip i) (filter (fun e => resown s ns (fst e)) c)) (ldot (strip d) (filter (fun e => negb (resown s ns (fst e))) c)).
  Proof.
    intros Hi. unfold resow. induction ns as [|n ns IH]; intros Hk d c; cbn [fold_left].
    - rewrite (ldot_none (strip i)) by (intros k; rewrite (dget_filter (resown s [])); reflexivity). rewrite kadd_0. apply ldot_ext. intros k. rewrite (dget_filter (fun e => negb (resown s [] e))). reflexivity.
    - rewrite (IH (fun k Hk' => Hk k (or_intror Hk'))). destruct (passes s n) eqn:Ep.
      2:{ assert (E : forall k, resown s (n :: ns) k = resown s ns k). { intros k. unfold resown. rewrite mem_cons. destruct (String.eqb_spec k n) as [->|]; [rewrite Ep, !andb_false_r; reflexivity|reflexivity]. }
          f_equal; apply ldot_ext; intros k; rewrite ?(dget_filter (resown s ns)), ?(dget_filter (resown s (n :: ns))), ?(dget_filter (fun e => negb (resown s ns e))), ?(dget_filter (fun e => negb (resown s (n :: ns) e))), E; reflexivity. }
      specialize (Hk n (or_introl eq_refl)). unfold haskey in Hk. destruct (dget i n) as [[v p]|] eqn:Ei; [|discriminate]. rewrite (plain_dget _ _ _ _ Hi Ei). cbn [store]. rewrite strip_dset, ldot_dset.
      assert (En : resown s (n :: ns) n = true) by (unfold resown; rewrite mem_cons, String.eqb_refl, Ep; reflexivity).
      assert (Eo : forall k, k <> n -> resown s (n :: ns) k = resown s ns k). { intros k N. unfold resown. rewrite mem_cons. apply String.eqb_neq in N. rewrite N. reflexivity. }
      assert (Ei' : dget (strip i) n = Some v) by (rewrite dget_strip, Ei; reflexivity).
      assert (El : ldot (strip d) (without n (filter (fun e => negb (resown s ns (fst e))) c)) = ldot (strip d) (filter (fun e => negb (resown s (n :: ns) (fst e))) c)).
      { apply ldot_ext. intros k. rewrite dget_without, (dget_filter (fun e => negb (resown s ns e))), (dget_filter (fun e => negb (resown s (n :: ns) e))). destruct (String.eqb_spec n k) as [<-|N]; [rewrite En; reflexivity|]. rewrite Eo by congruence. reflexivity. }
      rewrite El, kadd_assoc. f_equal. clear El.
      rewrite (ldot_split n v _ Ei' (filter (fun e => resown s (n :: ns) (fst e)) c)), kadd_comm. unfold at_name. rewrite (dget_filter (fun e => negb (resown s ns e))), (dget_filter (resown s (n :: ns))), En.
      destruct (resown s ns n) eqn:Er; cbn [negb].
      + rewrite kadd_0. rewrite (ldot_split n v _ Ei' (filter (fun e => resown s ns (fst e)) c)). unfold at_name. rewrite (dget_filter (resown s ns)), Er. f_equal. apply ldot_ext. intros k. rewrite !dget_without, (dget_filter (resown s ns)), (dget_filter (resown s (n :: ns))).
        destruct (String.eqb_spec n k) as [<-|N]; [reflexivity|]. rewrite Eo by congruence. reflexivity.
      + f_equal. apply ldot_ext. intros k. rewrite dget_without, (dget_filter (resown s ns)), (dget_filter (resown s (n :: ns))). destruct (String.eqb_spec n k) as [<-|N]; [rewrite Er; reflexivity|]. rewrite Eo by congruence. reflexivity.
  Qed.
  Lemma inv_nil : inv [] [].
  Proof. split; [apply incl_refl|intros e []]. Qed.
  Lemma inv_has M d n : inv M d -> In n (dkeys M) -> haskey d n = true.
  Proof. intros [K _] H. apply K in H. unfold haskey. destruct (dget d n) eqn:E; [reflexivity|]. apply dget_None_iff in E. contradiction. Qed.
  Lemma handle_nodup M n m av M' : NoDup (dkeys M) -> handle M n m av = inl M' -> NoDup (dkeys M').
  Proof.
    intros H E. unfold handle in E. destruct (dget M n) as [[m0 av0]|]; [destruct (_ && _)%bool; [|discriminate]; destruct (_ && _)%bool; [discriminate|]|]; injection E as <-; apply NoDup_dkeys_dset, H.
  Qed.
  Lemma resow_meta_nodup s l : forall M M', NoDup (dkeys M) -> resow_meta s M l = inl M' -> NoDup (dkeys M').
  Proof.
    induction l as [|[n [m av]] l IH]; intros M M' H E; cbn [resow_meta] in E; [congruence|]. apply rb_inl in E as (M1 & E1 & E). refine (IH M1 M' _ E). destruct (passes s n); [eapply handle_nodup; eassumption|congruence].
  Qed.
  Lemma reapT_nodup s {A B} (p : prog A B) : forall M r, NoDup (dkeys M) -> reapT s p M = inl r -> NoDup (dkeys (fst r)).
  Proof.
    induction p as [A B f|A B C p IHp q IHq|A B C p IHp|t n m av|t n av|A B sc p IHp|A B p IHp|C X Y rv len p IHp|C c p IHp|A B p IHp q IHq]; intros M r H E; cbn [reapT] in E; cbv zeta in E.
    - injection E as <-. exact H.
    - apply rb_inl in E as (r1 & E1 & E). apply rb_inl in E as (r2 & E2 & E). injection E as <-. exact (IHq _ _ (IHp _ _ H E1) E2).
    - apply rb_inl in E as (r1 & E1 & E). injection E as <-. exact (IHp _ _ H E1).
    - destruct (is_cond m); [discriminate|]. destruct (String.eqb t (tag_of s)); [destruct (passes s n); [apply rb_inl in E as (M1 & E1 & E)|]|destruct (exclusive s)]; injection E as <-; try exact H. eapply handle_nodup; eassumption.
    - destruct (String.eqb t (tag_of s)); [destruct (passes s n); [apply rb_inl in E as (M1 & E1 & E)|]|destruct (exclusive s)]; injection E as <-; try exact H. eapply handle_nodup; eassumption.
    - apply rb_inl in E as (r1 & E1 & E). apply rb_inl in E as (M1 & E2 & E). injection E as <-. cbn [fst]. destruct (fst r1); [congruence|]. eapply resow_meta_nodup; eassumption.
    - apply rb_inl in E as (r1 & E1 & E). apply rb_inl in E as (M1 & E2 & E). injection E as <-. eapply resow_meta_nodup; eassumption.
    - apply rb_inl in E as (r1 & E1 & E). destruct (existsb _ _); [discriminate|]. destruct (_ && _)%bool; [discriminate|]. apply rb_inl in E as (M1 & E2 & E). injection E as <-. eapply resow_meta_nodup; eassumption.
    - apply rb_inl in E as (r1 & E1 & E). destruct (existsb _ _); [discriminate|]. apply rb_inl in E as (M1 & E2 & E). injection E as <-. eapply resow_meta_nodup; eassumption.
    - apply rb_inl in E as (r1 & E1 & E). apply rb_inl in E as (r2 & E2 & E). apply rb_inl in E as (u & E3 & E). apply rb_inl in E as (M1 & E4 & E). injection E as <-. eapply resow_meta_nodup; eassumption.
  Qed.
  Lemma reapV_nodup s {X Y} (p : vprog X Y) : forall M r, NoDup (dkeys M) -> reapV s p M = inl r -> NoDup (dkeys (fst r)).
  Proof.
    induction p as [X Y f df ft|X Y Z p IHp q IHq|X Y C p IHp|t n m av|X Y sc p IHp|X Y p IHp|X Y p IHp q IHq|C X Y rv len p IHp|X Y R fwd bwd]; intros M r H E; cbn [reapV] in E.
    - injection E as <-. exact H.
    - apply rb_inl in E as (r1 & E1 & E). apply rb_inl in E as (r2 & E2 & E). injection E as <-. exact (IHq _ _ (IHp _ _ H E1) E2).
    - apply rb_inl in E as (r1 & E1 & E). injection E as <-. exact (IHp _ _ H E1).
    - destruct (is_cond m); [discriminate|]. destruct (String.eqb t (tag_of s)); [destruct (passes s n); [apply rb_inl in E as (M1 & E1 & E)|]|destruct (exclusive s)]; injection E as <-; try exact H. eapply handle_nodup; eassumption.
    - apply rb_inl in E as (r1 & E1 & E). apply rb_inl in E as (M1 & E2 & E). injection E as <-. cbn [fst]. destruct (fst r1); [congruence|]. eapply resow_meta_nodup; eassumption.
    - apply rb_inl in E as (r1 & E1 & E). apply rb_inl in E as (M1 & E2 & E). injection E as <-. eapply resow_meta_nodup; eassumption.
    - apply rb_inl in E as (r1 & E1 & E). apply rb_inl in E as (r2 & E2 & E). apply rb_inl in E as (u & E3 & E). apply rb_inl in E as (M1 & E4 & E). injection E as <-. eapply resow_meta_nodup; eassumption.
    - cbv zeta in E. apply rb_inl in E as (r1 & E1 & E). destruct (existsb _ _); [discriminate|]. destruct (_ && _)%bool; [discriminate|]. destruct (existsb _ _); [discriminate|]. apply rb_inl in E as (M1 & E2 & E). injection E as <-. eapply resow_meta_nodup; eassumption.
    - apply rb_inl in E as (r0 & E0 & E). apply rb_inl in E as (r1 & E1 & E). apply rb_inl in E as (b & E2 & E). injection E as <-. exact (reapT_nodup s fwd M r1 H E1).
  Qed.
  Lemma inv_branch M0 M1 d u : NoDup (dkeys M0) -> NoDup (dkeys M1) -> check_branches M0 M1 = inl u -> inv M1 d -> inv M0 d.
  Proof.
    intros H0 H1 E [K P]. destruct u. destruct (check_branches_spec M0 M1 H0 H1 E) as [_ H]. split; [|exact P]. intros n Hn. apply K. apply In_dkeys_dget in Hn as ([m0 a] & Hn). destruct (H n m0 a Hn) as (m1 & G & _). eapply dget_In_keys; exact G.
  Qed.
  Lemma Adj_enter {X : space} : Adj (Y := Prod X DictS) (fun _ => True) (@enter _ _ X) (fun d => inv [] (snd d)).
  Proof. apply (Adj_move (X := X) (Y := Prod X DictS)). intros dx ct g _ E. injection E as <-. split; [exact inv_nil|]. cbn [pairing Prod DictS fst snd strip map ldot]. apply kadd_0r. Qed.
  (** the dictionary that a scan carries *)
  Definition open_all : settings := mk_settings "" [] None false.
  Lemma store_plain_keys s ns i : plain i -> forall d, plain d -> plain (resow s ns i d) /\ incl (dkeys d) (dkeys (resow s ns i d)).
  Proof.
    intros Hi. unfold resow. induction ns as [|n ns IH]; intros d Hd; cbn [fold_left]; [split; [exact Hd|apply incl_refl]|].
    destruct (passes s n); [destruct (dget i n) as [[v p]|] eqn:E|]; [|exact (IH d Hd)|exact (IH d Hd)]. rewrite (plain_dget _ _ _ _ Hi E). cbn [store]. destruct (IH (dset d n (v, None)) (plain_dset _ _ _ Hd)) as [A B]. split; [exact A|]. intros k Hk. apply B, in_dset_iff. right. exact Hk.
  Qed.
  Lemma scan_carry_resow M D : is_cond (last_mode M) = false -> plain D -> (forall n, In n (dkeys (clobbers M)) -> haskey D n = true) ->
    forall carry, plain carry -> (forall n, In n (dkeys (clobbers M)) -> haskey carry n = true) -> scan_carry M D carry = resow open_all (dkeys (clobbers M)) D carry.
  Proof.
    intros Hm HD. unfold scan_carry, resow. induction (clobbers M) as [|[n x] l IH]; intros K carry Hc Kc; cbn [fold_left dkeys map fst]; [reflexivity|].
    unfold update_carry at 2. change (passes open_all n) with true. pose proof (K n (or_introl eq_refl)) as Kn. unfold haskey in Kn. destruct (dget D n) as [[v p]|] eqn:E; [|discriminate]. rewrite (plain_dget _ _ _ _ HD E).
    pose proof (Kc n (or_introl eq_refl)) as Kn'. unfold haskey in Kn'. destruct (dget carry n) as [[v0 p0]|] eqn:E'; [|discriminate]. rewrite (plain_dget _ _ _ _ Hc E'), Hm. cbn [store].
    apply (IH (fun k Hk => K k (or_intror Hk))); [apply plain_dset, Hc|]. intros k Hk. specialize (Kc k (or_intror Hk)). unfold haskey in *. rewrite dget_dset. destruct (String.eqb k n); [reflexivity|exact Kc].
  Qed.
  Lemma last_mode_plain M : existsb (fun e : string * (mode * aval) => is_cond (fst (snd e))) M = false -> is_cond (last_mode M) = false.
  Proof.
    intros H. unfold last_mode. assert (K : forall l acc, (match acc with Some (_, (m, _)) => is_cond m = false | None => True end) -> existsb (fun e : string * (mode * aval) => is_cond (fst (snd e))) l = false ->
      match fold_left (fun acc e => match acc with None => Some e | Some f => if String.ltb (fst f) (fst e) then Some e else Some f end) l acc with Some (_, (m, _)) => is_cond m = false | None => True end).
    { induction l as [|[n [m av]] l IH]; intros acc Ha Hl; cbn [fold_left]; [exact Ha|]. cbn [existsb fst snd] in Hl. apply orb_false_elim in Hl as [H1 H2]. apply IH; [|exact H2]. destruct acc as [[k [m' av']]|]; [|exact H1]. destruct (String.ltb (fst (k, (m', av'))) (fst (n, (m, av)))); [exact H1|exact Ha]. }
    specialize (K M None I H). unfold last_entry. destruct (fold_left _ M None) as [[k [m av]]|]; [exact K|reflexivity].
  Qed.
  Lemma dget_pick ns c k : dget (pick ns c) k = if mem k ns then dget c k else None.
  Proof. unfold pick. apply (dget_filter (fun n => mem n ns)). Qed.
  Lemma in_filter_keys {X} (f : string * X -> bool) (l : list (string * X)) n : In n (dkeys (filter f l)) -> In n (dkeys l).
  Proof. intros H. unfold dkeys in *. apply in_map_iff in H as (e & <- & He). apply filter_In in He as [He _]. apply in_map, He. Qed.
  Lemma mem_In n ns : mem n ns = true <-> In n ns.
  Proof. unfold mem. rewrite existsb_exists. split; [intros (k & Hk & E); apply String.eqb_eq in E; subst; exact Hk|intros H; exists n; split; [exact H|apply String.eqb_refl]]. Qed.
  Lemma clob_append_disjoint M n : NoDup (dkeys M) -> In n (dkeys (clobbers M)) -> In n (dkeys (appends M)) -> False.
  Proof.
    intros H H1 H2. unfold clobbers, appends, dkeys in *. apply in_map_iff in H1 as ([n1 [m1 a1]] & E1 & H1). apply in_map_iff in H2 as ([n2 [m2 a2]] & E2 & H2). cbn in E1, E2. subst n1 n2. apply filter_In in H1 as [H1 C1]. apply filter_In in H2 as [H2 C2].
    assert (E : (n, (m1, a1)) = (n, (m2, a2))). { clear -H H1 H2. induction M as [|[k x] M IH]; [destruct H1|]. inversion_clear H as [|? ? Hk Hd]. destruct H1 as [H1|H1], H2 as [H2|H2]; [congruence| | |exact (IH Hd H1 H2)]; exfalso; apply Hk; [injection H1 as -> _; apply in_map_iff; eexists; split; [|exact H2]|injection H2 as -> _; apply in_map_iff; eexists; split; [|exact H1]]; reflexivity. }
    injection E as -> ->. cbn in C1, C2. destruct m2; discriminate.
  Qed.
  Lemma scan_body_pair M D carry cd cD : NoDup (dkeys M) -> is_cond (last_mode M) = false -> inv M D -> inv (clobbers M) carry ->
    forallb (fun e : string * tree => mem (fst e) (dkeys (appends M))) cD = true ->
    kadd (ldot (strip (scan_carry M D carry)) cd) (ldot (strip D) cD) = kadd (ldot (strip D) (pick (dkeys (clobbers M)) cd ++ cD)) (ldot (strip carry) (drop (dkeys (clobbers M)) cd)) /\ inv (clobbers M) (scan_carry M D carry).
  Proof.
    intros Hn Hm HD HC HF.
    assert (K1 : forall n, In n (dkeys (clobbers M)) -> haskey D n = true) by (intros n Hn'; apply (inv_has _ _ _ HD), (in_filter_keys _ _ _ Hn')).
    assert (K2 : forall n, In n (dkeys (clobbers M)) -> haskey carry n = true) by (intros n; apply (inv_has _ _ _ HC)).
    destruct HD as [HD1 HD2], HC as [HC1 HC2]. rewrite (scan_carry_resow M D Hm HD2 K1 carry HC2 K2). split.
    - rewrite (resow_pair open_all _ D HD2 K1). rewrite ldot_app.
      + assert (E1 : ldot (strip D) (filter (fun e => resown open_all (dkeys (clobbers M)) (fst e)) cd) = ldot (strip D) (pick (dkeys (clobbers M)) cd)).
        { apply ldot_ext. intros k. rewrite dget_pick, (dget_filter (resown open_all (dkeys (clobbers M)))). unfold resown. change (passes open_all k) with true. rewrite andb_true_r. reflexivity. }
        assert (E2 : ldot (strip carry) (filter (fun e => negb (resown open_all (dkeys (clobbers M)) (fst e))) cd) = ldot (strip carry) (drop (dkeys (clobbers M)) cd)).
        { apply ldot_ext. intros k. unfold drop. rewrite (dget_filter (fun n => negb (mem n (dkeys (clobbers M))))), (dget_filter (fun n => negb (resown open_all (dkeys (clobbers M)) n))). unfold resown. change (passes open_all k) with true. rewrite andb_true_r. reflexivity. }
        rewrite E1, E2, <- !kadd_assoc. f_equal. apply kadd_comm.
      + intros k. rewrite dget_pick. destruct (mem k (dkeys (clobbers M))) eqn:Ek; [|left; reflexivity]. right. apply dget_None_iff. intros Hk. unfold dkeys in Hk. apply in_map_iff in Hk as (e & <- & He). rewrite forallb_forall in HF. specialize (HF e He). apply mem_In in Ek, HF. exact (clob_append_disjoint M _ Hn Ek HF).
    - destruct (store_plain_keys open_all (dkeys (clobbers M)) D HD2 carry HC2) as [A B]. split; [|exact A]. intros k Hk. apply B, HC1, Hk.
  Qed.
  Lemma dkeys_stacked M Ds : dkeys (stacked M Ds) = dkeys (appends M).
  Proof. unfold stacked, dkeys. rewrite map_map. reflexivity. Qed.
  Lemma plain_stacked M Ds : plain (stacked M Ds).
  Proof. intros e He. unfold stacked in He. apply in_map_iff in He as (x & <- & _). reflexivity. Qed.
  Lemma inv_carry0 M : existsb (fun e : string * (mode * aval) => is_cond (fst (snd e))) M = false -> inv (clobbers M) (carry0 M).
  Proof.
    intros H. split.
    - unfold carry0, dkeys. rewrite map_map. apply incl_refl.
    - intros e He. unfold carry0 in He. apply in_map_iff in He as (x & <- & Hx). cbn [snd]. apply filter_In in Hx as [Hx _]. destruct (is_cond (fst (snd x))) eqn:E; [|reflexivity]. exfalso. assert (T : existsb (fun e : string * (mode * aval) => is_cond (fst (snd e))) M = true) by (apply existsb_exists; eauto). congruence.
  Qed.
  Lemma carry0_dot M c : ldot (strip (carry0 M)) c = k0.
  Proof. apply ldot_zeros. intros e He. unfold strip, carry0 in He. rewrite map_map in He. apply in_map_iff in He as (x & <- & _). eexists. reflexivity. Qed.
  Lemma reapV_adj s {X Y} (p : vprog X Y) : sound p -> forall M r, reapV s p M = inl r -> Adj (X := Prod X DictS) (Y := Prod Y DictS) (fun d => inv M (snd d)) (snd r) (fun d => inv (fst r) (snd d)).
  Proof.
    induction p as [X Y f df ft|X Y Z p IHp q IHq|X Y C p IHp|t n m av|X Y sc p IHp|X Y p IHp|X Y p IHp q IHq|C X Y rv len p IHp|X Y R fwd bwd]; cbn [sound]; intros HS M r H; cbn [reapV] in H.
    - injection H as <-. eapply Adj_weak; [| |exact (Adj_first DictS (fun _ => True) (fun _ => True) (inv M) _ (Adj_pure _ f df ft _ HS))]; cbn; tauto.
    - apply rb_inl in H as (r1 & H1 & H). apply rb_inl in H as (r2 & H2 & H). injection H as <-. cbn [fst snd]. destruct HS as [S1 S2]. eapply Adj_seq; [exact (IHp S1 _ _ H1)|exact (IHq S2 _ _ H2)].
    - apply rb_inl in H as (r1 & H1 & H). injection H as <-. cbn [fst snd].
      apply (Adj_seq (Y := Prod (Prod X DictS) C) _ (fun d => inv M (snd (fst d)) /\ True)); [|apply (Adj_seq (Y := Prod (Prod Y DictS) C) _ (fun d => inv (fst r1) (snd (fst d)) /\ True))].
      + apply (Adj_move (X := Prod (Prod X C) DictS) (Y := Prod (Prod X DictS) C)). intros [[dx dc] dd] [[cx cd] cc] g HI E. injection E as <-. split; [split; [exact HI|exact I]|]. cbn. rewrite <- !kadd_assoc. f_equal. apply kadd_comm.
      + exact (Adj_first C _ _ (fun _ => True) (snd r1) (IHp HS _ _ H1)).
      + apply (Adj_move (X := Prod (Prod Y DictS) C) (Y := Prod (Prod Y C) DictS)). intros [[dx dd] dc] [[cx cc] cd] g [HI _] E. injection E as <-. split; [exact HI|]. cbn. rewrite <- !kadd_assoc. f_equal. apply kadd_comm.
    - destruct (is_cond m) eqn:Em; [discriminate|]. destruct (String.eqb t (tag_of s)); [destruct (passes s n); [apply rb_inl in H as (M' & HM & H)|]|destruct (exclusive s)]; injection H as <-; cbn [fst snd].
      + apply (Adj_pure (X := Prod TreeS DictS) (Y := Prod TreeS DictS)). intros [v d] [dv dd] [ct cd] [y d1] [dy dd1] g HI E1 E2 E3. cbn [fst snd] in *. injection E2 as <- <-. split; [eapply inv_store; eassumption|].
        cbn [pairing Prod TreeS DictS fst snd store]. rewrite strip_dset, ldot_dset. unfold at_name. destruct (dget cd n) as [w|] eqn:Ew.
        * destruct (has_aval ct av) eqn:A1; [|discriminate]. destruct (has_aval w av) eqn:A2; [|discriminate]. cbn [andb] in E3. injection E3 as <-. cbn [fst snd]. rewrite (tdot_add _ _ _ _ A1 A2). apply kadd_assoc.
        * injection E3 as <-. cbn [fst snd]. rewrite kadd_0. f_equal. apply ldot_ext. intros k. rewrite dget_without. destruct (String.eqb_spec n k) as [<-|]; congruence.
      + eapply Adj_weak; [| |refine (Adj_first DictS (fun _ => True) (fun _ => True) (inv M) _ (Adj_pure _ _ _ _ _ _))]; try (cbn; tauto). intros x dx ct y dy g _ _ E2 E3. injection E2 as <-. injection E3 as <-. auto.
      + eapply Adj_weak; [| |refine (Adj_first DictS (fun _ => True) (fun _ => True) (inv M) _ (Adj_pure _ _ _ _ _ _))]; try (cbn; tauto). intros x dx ct y dy g _ _ E2 E3. injection E2 as <-. injection E3 as <-. auto.
      + eapply Adj_weak; [| |exact (Adj_first DictS _ _ (inv M) _ (Adj_sow t n m av))]; cbn; tauto.
    - apply rb_inl in H as (r1 & H1 & H). apply rb_inl in H as (M' & HM & H). injection H as <-. cbn [fst snd].
      apply (Adj_seq (Y := Prod (Prod Y DictS) DictS) _ (fun d => inv (fst r1) (snd (fst d)) /\ inv M (snd d))).
      + eapply Adj_weak; [| |exact (Adj_first DictS _ _ (inv M) _ (Adj_nest _ _ sc _ (Adj_seq _ _ _ _ _ Adj_enter (IHp HS _ _ H1))))]; cbn; tauto.
      + apply (Adj_move (X := Prod (Prod Y DictS) DictS) (Y := Prod Y DictS)). intros [[dy di] dd] [ct cd] g [HI HD] E. cbn [fst snd] in *. destruct (fst r1) as [|e l] eqn:El.
        * injection HM as <-. injection E as <-. split; [exact HD|]. cbn [pairing Prod DictS fst snd]. rewrite ldot_nil, kadd_0r. reflexivity.
        * pose proof (resow_inv s [(sc, (Strict, AD (map (fun e => (fst e, snd (snd e))) (e :: l))))] [(sc, (Dict (strip di), None))]) as G. cbn [dkeys map fst] in G.
          pose proof (resow_pair s [sc] [(sc, (Dict (strip di), None))]) as G'.
          assert (A1 : plain [(sc, (Dict (strip di), None))]) by (intros e' [<-|[]]; reflexivity).
          assert (A2 : forall n, In n [sc] -> haskey [(sc, (Dict (strip di), @None bool))] n = true) by (intros n [<-|[]]; unfold haskey; cbn; rewrite String.eqb_refl; reflexivity).
          split; [exact (G A1 A2 _ _ _ HD HM)|]. specialize (G' A1 A2). clear G.
          change (kadd (pairing Y dy ct) (ldot (strip (resow s [sc] [(sc, (Dict (strip di), None))] dd)) cd) = kadd (kadd (pairing Y dy (fst (fst g))) (ldot (strip di) (snd (fst g)))) (ldot (strip dd) (snd g))). rewrite G'.
          assert (B : forall k, resown s [sc] k = (String.eqb k sc && passes s sc)%bool). { intros k. unfold resown. rewrite mem_cons. change (mem k []) with false. rewrite orb_false_r. destruct (String.eqb_spec k sc) as [->|]; reflexivity. }
          cbn [strip map fst snd]. rewrite ldot_cons. cbn [ldot]. rewrite kadd_0r. unfold at_name. rewrite (dget_filter (resown s [sc])), B, String.eqb_refl. cbn [andb].
          assert (C0 : forall c, ldot (strip dd) (filter (fun e0 => negb (resown s [sc] (fst e0))) c) = if passes s sc then ldot (strip dd) (without sc c) else ldot (strip dd) c).
          { intros c. destruct (passes s sc) eqn:Ep; apply ldot_ext; intros k; rewrite ?dget_without, (dget_filter (fun e0 => negb (resown s [sc] e0))), B; rewrite (String.eqb_sym k sc); destruct (String.eqb sc k); cbn; rewrite ?Ep; reflexivity. }
          rewrite C0. destruct (passes s sc); [destruct (dget cd sc) as [[w|ci|w]|] eqn:Ec; try discriminate|]; injection E as <-; cbn [fst snd].
          -- rewrite tdot_dict. rewrite kadd_assoc. reflexivity.
          -- rewrite ldot_nil, kadd_0r, kadd_0. f_equal. apply ldot_ext. intros k. rewrite dget_without. destruct (String.eqb_spec sc k) as [<-|]; congruence.
          -- rewrite ldot_nil, kadd_0r, kadd_0. reflexivity.
    - apply rb_inl in H as (r1 & H1 & H). apply rb_inl in H as (M' & HM & H). injection H as <-. cbn [fst snd].
      apply (Adj_seq (Y := Prod (Prod Y DictS) DictS) _ (fun d => inv (fst r1) (snd (fst d)) /\ inv M (snd d))).
      + eapply Adj_weak; [| |exact (Adj_first DictS _ _ (inv M) _ (Adj_call _ _ _ (Adj_seq _ _ _ _ _ Adj_enter (IHp HS _ _ H1))))]; cbn; tauto.
      + apply (Adj_move (X := Prod (Prod Y DictS) DictS) (Y := Prod Y DictS)). intros [[dy di] dd] [ct cd] g [HI HD] E. cbn [fst snd] in *. injection E as <-.
        assert (A2 : forall n, In n (dkeys (fst r1)) -> haskey di n = true) by (intros n; apply inv_has, HI). destruct HI as [HI1 HI2].
        split; [exact (resow_inv s _ _ HI2 A2 _ _ _ HD HM)|].
        change (kadd (pairing Y dy ct) (ldot (strip (resow s (dkeys (fst r1)) di dd)) cd) = kadd (kadd (pairing Y dy ct) (ldot (strip di) (filter (fun e => resown s (dkeys (fst r1)) (fst e)) cd))) (ldot (strip dd) (filter (fun e => negb (resown s (dkeys (fst r1)) (fst e))) cd))). rewrite (resow_pair s _ _ HI2 A2). apply kadd_assoc.
    - destruct HS as [S1 S2]. apply rb_inl in H as (r1 & H1 & H). apply rb_inl in H as (r2 & H2 & H). apply rb_inl in H as (u & Hu & H). apply rb_inl in H as (M' & HM & H). injection H as <-. cbn [fst snd].
      pose proof (reapV_nodup s p [] r1 (NoDup_nil _) H1) as N1. pose proof (reapV_nodup s q [] r2 (NoDup_nil _) H2) as N2.
      apply (Adj_seq (Y := Prod (Prod Y DictS) DictS) _ (fun d => inv (fst r1) (snd (fst d)) /\ inv M (snd d))).
      + eapply Adj_weak; [| |refine (Adj_first (X := Prod BoolS X) DictS (fun _ => True) (fun d : car (Prod Y DictS) => inv (fst r1) (snd d)) (inv M) _ (Adj_weak _ _ _ _ _ _ _ (Adj_cond (fun _ => True) (fun d : car (Prod Y DictS) => inv (fst r1) (snd d)) _ _ _ _)))]; try (cbn; tauto).
        * exact (Adj_seq _ _ _ _ _ Adj_enter (IHp S1 _ _ H1)).
        * eapply Adj_weak; [| |exact (Adj_seq _ _ _ _ _ Adj_enter (IHq S2 _ _ H2))]; [cbn; tauto|]. intros d. apply (inv_branch _ _ _ _ N1 N2 Hu).
      + apply (Adj_move (X := Prod (Prod Y DictS) DictS) (Y := Prod Y DictS)). intros [[dy di] dd] [ct cd] g [HI HD] E. cbn [fst snd] in *. injection E as <-.
        assert (A2 : forall n, In n (dkeys (fst r1)) -> haskey di n = true) by (intros n; apply inv_has, HI). destruct HI as [HI1 HI2].
        split; [exact (resow_inv s _ _ HI2 A2 _ _ _ HD HM)|].
        change (kadd (pairing Y dy ct) (ldot (strip (resow s (dkeys (fst r1)) di dd)) cd) = kadd (kadd (pairing Y dy ct) (ldot (strip di) (filter (fun e => resown s (dkeys (fst r1)) (fst e)) cd))) (ldot (strip dd) (filter (fun e => negb (resown s (dkeys (fst r1)) (fst e))) cd))). rewrite (resow_pair s _ _ HI2 A2). apply kadd_assoc.
    - cbv zeta in H. apply rb_inl in H as (r1 & H1 & H). destruct (existsb _ _) eqn:Xs; [discriminate|]. destruct (_ && _)%bool; [discriminate|]. destruct (existsb (fun e => is_cond (fst (snd e))) (fst r1)) eqn:Xc; [discriminate|]. apply rb_inl in H as (M' & HM & H). injection H as <-. cbn [fst snd].
      pose proof (reapV_nodup s p [] r1 (NoDup_nil _) H1) as N1. pose proof (last_mode_plain _ Xc) as Xm.
      apply (Adj_seq (Y := Prod (Prod (Prod C DictS) (ListS X)) DictS) _ (fun d => inv (clobbers (fst r1)) (snd (fst (fst d))) /\ inv M (snd d))); [|
        apply (Adj_seq (Y := Prod (Prod (Prod C DictS) (ListS (Prod Y DictS))) DictS) _ (fun d => (inv (clobbers (fst r1)) (snd (fst (fst d))) /\ List.length (snd (fst d)) = len /\ Forall (fun e : car (Prod Y DictS) => inv (fst r1) (snd e)) (snd (fst d))) /\ inv M (snd d)))].
      + apply (Adj_move (X := Prod (Prod C (ListS X)) DictS) (Y := Prod (Prod (Prod C DictS) (ListS X)) DictS)). intros [[dc dxs] dd] [[[cc ccar] cxs] cd] g HI E. cbn [fst snd] in *. injection E as <-. split; [split; [exact (inv_carry0 _ Xc)|exact HI]|].
        change (kadd (kadd (kadd (pairing C dc cc) (ldot (strip (carry0 (fst r1))) ccar)) (pairings X dxs cxs)) (ldot (strip dd) cd) = kadd (kadd (pairing C dc cc) (pairings X dxs cxs)) (ldot (strip dd) cd)). rewrite carry0_dot, kadd_0r. reflexivity.
      + eapply Adj_weak; [| |refine (Adj_first (X := Prod (Prod C DictS) (ListS X)) (Y := Prod (Prod C DictS) (ListS (Prod Y DictS))) DictS _ _ (inv M) _ (Adj_scan (C := Prod C DictS) (X := X) (Y := Prod Y DictS) rv len _ (fun d => inv (clobbers (fst r1)) (snd d)) (fun d => inv (fst r1) (snd d)) _))]; [cbn; tauto|cbn; tauto|].
        apply (Adj_seq (Y := Prod (Prod (Prod C X) DictS) DictS) _ (fun d => inv [] (snd (fst d)) /\ inv (clobbers (fst r1)) (snd d))); [|apply (Adj_seq (Y := Prod (Prod (Prod C Y) DictS) DictS) _ (fun d => inv (fst r1) (snd (fst d)) /\ inv (clobbers (fst r1)) (snd d)))].
        * apply (Adj_move (X := Prod (Prod C DictS) X) (Y := Prod (Prod (Prod C X) DictS) DictS)). intros [[dc dcar] dx] [[[cc cx] cD] ccar] g HI E. cbn [fst snd] in *. injection E as <-. split; [split; [exact inv_nil|exact HI]|].
          change (kadd (kadd (kadd (pairing C dc cc) (pairing X dx cx)) k0) (ldot (strip dcar) ccar) = kadd (kadd (pairing C dc cc) (ldot (strip dcar) ccar)) (pairing X dx cx)). rewrite kadd_0r, <- !kadd_assoc. f_equal. apply kadd_comm.
        * exact (Adj_first DictS _ _ (inv (clobbers (fst r1))) (snd r1) (IHp HS _ _ H1)).
        * apply (Adj_move (X := Prod (Prod (Prod C Y) DictS) DictS) (Y := Prod (Prod C DictS) (Prod Y DictS))). intros [[[dc dy] dD] dcar] [[cc ccar] [cy cD]] g [HI HC] E. cbn [fst snd] in *. destruct (forallb _ cD) eqn:EF; [|discriminate]. injection E as <-.
          destruct (scan_body_pair (fst r1) dD dcar ccar cD N1 Xm HI HC EF) as [G GI]. split; [split; [exact GI|exact HI]|].
          change (kadd (kadd (pairing C dc cc) (ldot (strip (scan_carry (fst r1) dD dcar)) ccar)) (kadd (pairing Y dy cy) (ldot (strip dD) cD)) = kadd (kadd (kadd (pairing C dc cc) (pairing Y dy cy)) (ldot (strip dD) (pick (dkeys (clobbers (fst r1))) ccar ++ cD))) (ldot (strip dcar) (drop (dkeys (clobbers (fst r1))) ccar))).
          rewrite <- !kadd_assoc. f_equal. rewrite kadd_swap, G. reflexivity.
      + apply (Adj_move (X := Prod (Prod (Prod C DictS) (ListS (Prod Y DictS))) DictS) (Y := Prod (Prod C (ListS Y)) DictS)). intros [[[dc dcar] dys] dd] [[cc cys] cd] g [[HC [HL HF]] HD] E. cbn [fst snd] in *.
        destruct (Nat.eqb_spec (List.length cys) len) as [El|]; [|discriminate]. apply rb_inl in E as (us & Eu & E). injection E as <-. pose proof (unstacked_length _ _ _ Eu) as Lu.
        rewrite resow_meta_app in HM. apply rb_inl in HM as (M1 & HM1 & HM2).
        assert (K1 : forall n, In n (dkeys (clobbers (fst r1))) -> haskey dcar n = true) by (intros n; apply (inv_has _ _ _ HC)). destruct HC as [HC1 HC2].
        assert (Kd : dkeys (stack_meta len (appends (fst r1))) = dkeys (appends (fst r1))) by (unfold stack_meta, dkeys; rewrite map_map; reflexivity).
        set (Ds := map snd dys : list dict) in *.
        assert (K2 : forall n, In n (dkeys (stack_meta len (appends (fst r1)))) -> haskey (stacked (fst r1) Ds) n = true).
        { intros n Hn. unfold haskey. destruct (dget (stacked (fst r1) Ds) n) eqn:E; [reflexivity|]. apply dget_None_iff in E. rewrite dkeys_stacked, <- Kd in E. contradiction. }
        pose proof (resow_inv s (clobbers (fst r1)) dcar HC2 K1 M dd M1 HD HM1) as G1. pose proof (resow_inv s _ (stacked (fst r1) Ds) (plain_stacked _ _) K2 M1 _ M' G1 HM2) as G2. rewrite Kd in G2, K2. split; [exact G2|].
        set (outer := filter (fun e => negb (resown s (dkeys (appends (fst r1))) (fst e))) cd). set (inner := filter (fun e => resown s (dkeys (appends (fst r1))) (fst e)) cd) in *.
        change (kadd (kadd (pairing C dc cc) (pairings Y (map fst dys) cys)) (ldot (strip (resow s (dkeys (appends (fst r1))) (stacked (fst r1) Ds) (resow s (dkeys (clobbers (fst r1))) dcar dd))) cd) =
          kadd (kadd (kadd (pairing C dc cc) (ldot (strip dcar) (filter (fun e => resown s (dkeys (clobbers (fst r1))) (fst e)) outer))) (pairings (Prod Y DictS) dys (combine cys us))) (ldot (strip dd) (filter (fun e => negb (resown s (dkeys (clobbers (fst r1))) (fst e))) outer))).
        rewrite (resow_pair s _ _ (plain_stacked _ _) K2), (resow_pair s _ _ HC2 K1). fold outer inner.
        assert (EP : pairings (Prod Y DictS) dys (combine cys us) = kadd (pairings Y (map fst dys) cys) (pairings DictS Ds us)).
        { apply (pairings_combine Y DictS dys cys us); [exact (eq_trans HL (eq_sym El))|exact (eq_trans HL (eq_sym Lu))]. }
        refine (eq_trans _ (f_equal (fun k => kadd (kadd (kadd (pairing C dc cc) (ldot (strip dcar) (filter (fun e => resown s (dkeys (clobbers (fst r1))) (fst e)) outer))) k) (ldot (strip dd) (filter (fun e => negb (resown s (dkeys (clobbers (fst r1))) (fst e))) outer))) (eq_sym EP))).
        rewrite (stacked_pair (fst r1) Ds) with (us := us).
        * rewrite <- !kadd_assoc. f_equal. rewrite (kadd_swap (ldot (strip dcar) _)). f_equal. rewrite kadd_swap. reflexivity.
        * intros D n HDn Hn. unfold Ds in HDn. apply in_map_iff in HDn as (e & <- & He). apply (inv_has (fst r1)); [exact (proj1 (Forall_forall _ _) HF e He)|exact (in_filter_keys _ _ _ Hn)].
        * intros e He. unfold inner in He. apply filter_In in He as [_ He]. unfold resown in He. apply andb_prop in He as [He _]. apply mem_In, He.
        * unfold Ds. rewrite map_length. refine (eq_trans _ Eu). f_equal. exact HL.
    - apply rb_inl in H as (r0 & H0 & H). apply rb_inl in H as (r1 & H1 & H). apply rb_inl in H as (b & Hb & H). injection H as <-. cbn [fst snd]. apply Adj_custom.
  Qed.
End reapadj.
