(** C68: reaping and planting under vmap. *)
From Verif Require Export VmapHarvestProofs.
Open Scope nat_scope.

Section vmap.
  Context {AR : Arrays}.
  Variable k : nat.

  (** ** Specification *)
  (** every array of the tree has a leading axis of length k *)
  Inductive leading : tree -> Prop :=
  | Ld_arr l : List.length l = k -> Forall (fun t => forall d, t <> Dict d) l -> leading (Stk l)
  | Ld_dict l : Forall (fun e => leading (snd e)) l -> leading (Dict l).
  (** the programs that the theorems are about: no sow_cond, and no sow in a while loop or conditional with a predicate per
      example (loops and conditionals without sows are [Pure]) *)
  Fixpoint mappable {A B} (p : prog A B) : Prop :=
    match p with
    | Pure _ => True
    | Seq p q => mappable p /\ mappable q
    | First _ p | Nest _ p | Call p | Scan _ _ p => mappable p
    | Sow _ _ m _ => is_cond m = false
    | SowCond _ _ _ | While _ _ | Cond _ _ => False
    end.
  (** no sow in append mode inside a scan *)
  Fixpoint no_append {A B} (p : prog A B) : Prop :=
    match p with
    | Sow _ _ m _ => is_append m = false
    | Seq p q | Cond p q => no_append p /\ no_append q
    | First _ p | Nest _ p | Call p | Scan _ _ p | While _ p => no_append p
    | _ => True
    end.
  Fixpoint scans_plain {A B} (p : prog A B) : Prop :=
    match p with
    | Seq p q | Cond p q => scans_plain p /\ scans_plain q
    | First _ p | Nest _ p | Call p | While _ p => scans_plain p
    | Scan _ _ p => no_append p
    | _ => True
    end.
  (** example i of a batched value, with the batch axis of every array first or, if [L], behind the axes of scans *)
  Inductive sl (L : bool) (i : nat) : tree -> tree -> Prop :=
  | sl_here ts t : List.length ts = k -> nth_error ts i = Some t -> (forall d, t <> Dict d) -> sl L i (Stk ts) t
  | sl_dict Ls ls : Forall2 (fun e e' => fst e = fst e' /\ sl L i (snd e) (snd e')) Ls ls -> sl L i (Dict Ls) (Dict ls)
  | sl_deep Ts ts : L = true -> Forall2 (sl L i) Ts ts -> sl L i (Stk Ts) (Stk ts).

  (** ** Proofs *)
  Lemma sl_ind' (L : bool) (i : nat) (P : tree -> tree -> Prop) :
    (forall ts t, List.length ts = k -> nth_error ts i = Some t -> (forall d, t <> Dict d) -> P (Stk ts) t) ->
    (forall Ls ls, Forall2 (fun e e' => fst e = fst e' /\ P (snd e) (snd e')) Ls ls -> P (Dict Ls) (Dict ls)) ->
    (forall Ts ts, L = true -> Forall2 P Ts ts -> P (Stk Ts) (Stk ts)) -> forall T t, sl L i T t -> P T t.
  Proof.
    intros H1 H2 H3. fix IH 3. intros T t [ts t0 Hl Hn Hd|Ls ls H|Ts ts HL H].
    - apply H1; assumption.
    - apply H2. induction H as [|e e' Ls ls [He Hs] _ IHl]; constructor; [split; [exact He|apply IH, Hs]|exact IHl].
    - apply H3; [exact HL|]. induction H as [|T0 t0 Ts ts Hs _ IHl]; constructor; [apply IH, Hs|exact IHl].
  Qed.
  Lemma sl_take i T t : sl false i T t -> take i T = Some t.
  Proof.
    intros H. induction H as [ts t Hl Hn Hd|Ls ls H|Ts ts HL H] using sl_ind'; [exact Hn| |discriminate]. cbn [take].
    assert (E : (fix go (l : list (string * tree)) : option (list (string * tree)) := match l with [] => Some [] | (n, t) :: l' => match take i t, go l' with Some u, Some r => Some ((n, u) :: r) | _, _ => None end end) Ls = Some ls); [|rewrite E; reflexivity].
    induction H as [|[n e] [n' e'] Ls ls [He Hs] _ IHl]; [reflexivity|]. cbn [fst snd] in *. subst n'. rewrite Hs, IHl. reflexivity.
  Qed.
  Lemma take_sl i T : leading T -> i < k -> exists t, sl false i T t.
  Proof.
    intros H Hi. induction T as [v|l IH|l _] using tree_ind'; inversion H as [? Hl Hd|? Hf]; subst.
    - assert (G : exists ls, Forall2 (fun e e' => fst e = fst e' /\ sl false i (snd e) (snd e')) l ls); [|destruct G as (ls & G); exists (Dict ls); constructor; exact G].
      clear H. induction l as [|[n t] l IHl]; [exists []; constructor|]. inversion IH; subst. inversion Hf; subst. destruct (IHl H2 H4) as (ls & G). cbn [snd] in *. destruct (H1 H3) as (u & Hu). exists ((n, u) :: ls). constructor; [split; [reflexivity|exact Hu]|exact G].
    - destruct (nth_ex l i) as (t & Ht); [lia|]. exists t. constructor; auto. rewrite Forall_forall in Hd. apply Hd. eapply nth_error_In, Ht.
  Qed.
  (** stacking *)
  Lemma stack_ok a : forall ts, List.length ts = k -> Forall (fun t => has_aval t a = true) ts ->
    has_aval (stackA a ts) (batchA k a) = true /\ forall L i t, nth_error ts i = Some t -> sl L i (stackA a ts) t.
  Proof.
    induction a as [x|l IH|n a _] using aval_ind'; intros ts Hk Hf.
    - cbn [stackA batchA has_aval]. rewrite Hk, Nat.eqb_refl. split; [cbn [andb]; apply forallb_forall; rewrite Forall_forall in Hf; exact Hf|]. intros L i t Ht. constructor; auto. rewrite Forall_forall in Hf. specialize (Hf t (nth_error_In _ _ Ht)). intros d ->. discriminate.
    - cbn [stackA batchA].
      set (go := fix go (l : list (string * aval)) (rows : list (list (string * tree))) {struct l} : list (string * tree) := _).
      assert (G : forall rows, List.length rows = k -> Forall (fun r => has_aval (Dict r) (AD l) = true) rows ->
        has_aval (Dict (go l rows)) (AD (map (fun e => (fst e, batchA k (snd e))) l)) = true /\ forall L i r, nth_error rows i = Some r -> Forall2 (fun e e' => fst e = fst e' /\ sl L i (snd e) (snd e')) (go l rows) r).
      { clear Hk Hf ts. induction IH as [|[s a] l Ha _ IHl]; intros rows Hk Hf.
        - split; [reflexivity|]. intros L i r Hr. rewrite Forall_forall in Hf. specialize (Hf r (nth_error_In _ _ Hr)). destruct r as [|[? ?] ?]; [constructor|discriminate].
        - cbn [go]. fold go. cbn [snd] in Ha.
          assert (Hh : Forall (fun t => has_aval t a = true) (map head_item rows) /\ Forall (fun r => has_aval (Dict r) (AD l) = true) (map (@tl _) rows) /\ Forall (fun r => exists t r', r = (s, t) :: r') rows).
          { clear - Hf. induction Hf as [|r rows Hr _ (J1 & J2 & J3)]; [repeat split; constructor|]. destruct r as [|[s' t] r]; [discriminate|]. cbn in Hr. apply andb_true_iff in Hr as [Hr1 Hr2]. apply andb_true_iff in Hr1 as [Hs Hr1]. apply String.eqb_eq in Hs. subst s'. cbn [map head_item tl]. repeat split; constructor; auto; eauto. }
          destruct Hh as (J1 & J2 & J3). destruct (Ha (map head_item rows)) as [G1 G2]; [now rewrite map_length|exact J1|]. destruct (IHl (map (@tl _) rows)) as [G3 G4]; [now rewrite map_length|exact J2|]. split.
          + cbn [map fst snd has_aval]. rewrite String.eqb_refl, G1. cbn [andb]. exact G3.
          + intros L i r Hr. rewrite Forall_forall in J3. destruct (J3 r (nth_error_In _ _ Hr)) as (t & r' & ->). constructor; [split; [reflexivity|]; apply G2; rewrite nth_map, Hr; reflexivity|]. apply G4. rewrite nth_map, Hr. reflexivity. }
      destruct (G (map items ts)) as [G1 G2]; [now rewrite map_length|apply Forall_map; eapply Forall_impl; [|exact Hf]; intros t Ht; destruct t; try discriminate; exact Ht|].
      split; [exact G1|]. intros L i t Ht. rewrite Forall_forall in Hf. pose proof (Hf t (nth_error_In _ _ Ht)) as Hta. destruct t as [|d|]; try discriminate. constructor. apply G2. rewrite nth_map, Ht. reflexivity.
    - cbn [stackA batchA]. split; [|intros L i t Ht; constructor; auto; rewrite Forall_forall in Hf; specialize (Hf t (nth_error_In _ _ Ht)); intros d ->; discriminate].
      change (Nat.eqb (List.length ts) k && forallb (fun t => has_aval t (AS n a)) ts = true)%bool. rewrite Hk, Nat.eqb_refl. cbn [andb]. apply forallb_forall. rewrite Forall_forall in Hf. exact Hf.
  Qed.
  Lemma unstack_ok T ts : List.length ts = k -> (forall i t, nth_error ts i = Some t -> sl false i T t) -> unstack k T = inl ts.
  Proof.
    intros Hk H. unfold unstack. apply mapM_some; [now rewrite seq_length|]. intros i j t Hj Ht. assert (j = i) as ->.
    { assert (Hi : i < k) by (rewrite <- Hk; apply nth_error_Some; congruence). apply (nth_error_nth _ _ 0) in Hj. rewrite seq_nth in Hj by exact Hi. exact (eq_sym Hj). }
    rewrite (sl_take i T t (H i t Ht)). reflexivity.
  Qed.
  (** the shape of a batched value, in terms of the examples *)
  Lemma F2_cons_inv {X Y} (R : X -> Y -> Prop) x l l' : Forall2 R (x :: l) l' -> exists y r, l' = y :: r /\ R x y /\ Forall2 R l r.
  Proof. intros H. inversion H; subst. eauto. Qed.
  Lemma has_aval_batch a : 0 < k -> forall T ts, List.length ts = k -> (forall i t, nth_error ts i = Some t -> sl false i T t) ->
    has_aval T (batchA k a) = true <-> Forall (fun t => has_aval t a = true) ts.
  Proof.
    intros Hpos. assert (Harr : forall a T ts, (forall d, has_aval (Dict d) a = false) -> List.length ts = k -> (forall i t, nth_error ts i = Some t -> sl false i T t) -> has_aval T (AS k a) = true <-> Forall (fun t => has_aval t a = true) ts).
    { clear a. intros a T ts Ha Hk H. destruct T as [v|l|l].
      - exfalso. destruct (nth_ex ts 0) as (t & Ht); [lia|]. specialize (H 0 t Ht). inversion H.
      - split; [discriminate|]. intros Hf. exfalso. destruct (nth_ex ts 0) as (t & Ht); [lia|]. rewrite Forall_forall in Hf. specialize (Hf t (nth_error_In _ _ Ht)). specialize (H 0 t Ht). inversion H; subst. rewrite Ha in Hf. discriminate.
      - assert (Hl : List.length l = k) by (destruct (nth_ex ts 0) as (t & Ht); [lia|]; specialize (H 0 t Ht); inversion H; subst; [assumption|discriminate]).
        assert (E : l = ts). { apply nth_eq; [congruence|]. intros i x y Hx Hy. specialize (H i y Hy). inversion H; subst; [congruence|discriminate]. } subst l.
        cbn [has_aval]. rewrite Hk, Nat.eqb_refl. cbn [andb]. rewrite forallb_forall, Forall_forall. tauto. }
    induction a as [x|l IH|n a _] using aval_ind'; intros T ts Hk H; [apply Harr; auto| |apply Harr; auto].
    cbn [batchA]. destruct T as [v|Ls|Ls].
    - exfalso. destruct (nth_ex ts 0) as (t & Ht); [lia|]. specialize (H 0 t Ht). inversion H.
    - assert (Hd : Forall (fun t => exists ls, t = Dict ls) ts) by (apply Forall_forall; intros t Ht; apply In_nth_error in Ht as (i & Ht); specialize (H i t Ht); inversion H; subst; eauto).
      assert (G : forall Ls rows, List.length rows = k -> (forall i r, nth_error rows i = Some r -> Forall2 (fun e e' => fst e = fst e' /\ sl false i (snd e) (snd e')) Ls r) ->
        has_aval (Dict Ls) (AD (map (fun e => (fst e, batchA k (snd e))) l)) = true <-> Forall (fun r => has_aval (Dict r) (AD l) = true) rows).
      { clear - IH Hpos. induction IH as [|[s a] l Ha _ IHl]; intros Ls rows Hk H.
        - destruct Ls as [|[s' t] Ls].
          + split; [intros _|reflexivity]. apply Forall_forall. intros r Hr. apply In_nth_error in Hr as (i & Hr). specialize (H i r Hr). inversion H; subst. reflexivity.
          + split; [discriminate|]. intros Hf. exfalso. destruct (nth_ex rows 0) as (r & Hr); [lia|]. rewrite Forall_forall in Hf. specialize (Hf r (nth_error_In _ _ Hr)). specialize (H 0 r Hr). apply F2_cons_inv in H as ([? ?] & ? & -> & _). discriminate.
        - destruct Ls as [|[s' T] Ls].
          + split; [discriminate|]. intros Hf. exfalso. destruct (nth_ex rows 0) as (r & Hr); [lia|]. rewrite Forall_forall in Hf. specialize (Hf r (nth_error_In _ _ Hr)). specialize (H 0 r Hr). inversion H; subst. discriminate.
          + assert (J : Forall (fun r => exists t r', r = (s', t) :: r') rows). { apply Forall_forall. intros r Hr. apply In_nth_error in Hr as (i & Hr). specialize (H i r Hr). apply F2_cons_inv in H as ([s2 t] & r' & -> & [E _] & _). cbn in E. subst s2. eauto. }
            assert (J1 : has_aval T (batchA k a) = true <-> Forall (fun t => has_aval t a = true) (map head_item rows)).
            { apply Ha; [now rewrite map_length|]. intros i t Ht. apply nth_map_inv in Ht as (r & Hr & ->). specialize (H i r Hr). apply F2_cons_inv in H as ([s2 t] & r' & -> & [_ E] & _). exact E. }
            assert (J2 : has_aval (Dict Ls) (AD (map (fun e => (fst e, batchA k (snd e))) l)) = true <-> Forall (fun r => has_aval (Dict r) (AD l) = true) (map (@tl _) rows)).
            { apply IHl; [now rewrite map_length|]. intros i t Ht. apply nth_map_inv in Ht as (r & Hr & ->). specialize (H i r Hr). apply F2_cons_inv in H as ([s2 t] & r' & -> & _ & E). exact E. }
            cbn [map fst snd has_aval] in *. rewrite !andb_true_iff, J1, J2. rewrite !Forall_forall in *. split.
            * intros [[Es K1] K2] r Hr. destruct (J r Hr) as (t & r' & ->). cbn [has_aval]. rewrite !andb_true_iff. repeat split.
              -- exact Es.
              -- apply (K1 t). apply in_map_iff. exists ((s', t) :: r'). auto.
              -- apply (K2 r'). apply in_map_iff. exists ((s', t) :: r'). auto.
            * intros K. repeat split.
              -- destruct (nth_ex rows 0) as (r & Hr); [lia|]. specialize (K r (nth_error_In _ _ Hr)). destruct (J r (nth_error_In _ _ Hr)) as (t & r' & ->). cbn [has_aval] in K. rewrite !andb_true_iff in K. tauto.
              -- intros t Ht. apply in_map_iff in Ht as (r & <- & Hr). specialize (K r Hr). destruct (J r Hr) as (t & r' & ->). cbn [has_aval] in K. rewrite !andb_true_iff in K. tauto.
              -- intros q Hq. apply in_map_iff in Hq as (r & <- & Hr). specialize (K r Hr). destruct (J r Hr) as (t & r' & ->). cbn [has_aval] in K. rewrite !andb_true_iff in K. tauto. }
      rewrite (G Ls (map items ts)); [|now rewrite map_length|].
      + rewrite Forall_map. rewrite !Forall_forall in *. split; intros K t Ht; destruct (Hd t Ht) as (ls & ->); exact (K _ Ht).
      + intros i r Hr. apply nth_map_inv in Hr as (t & Ht & ->). rewrite Forall_forall in Hd. destruct (Hd t (nth_error_In _ _ Ht)) as (ls & ->). specialize (H i _ Ht). inversion H; subst. assumption.
    - split; [discriminate|]. intros Hf. exfalso. destruct (nth_ex ts 0) as (t & Ht); [lia|]. rewrite Forall_forall in Hf. specialize (Hf t (nth_error_In _ _ Ht)). specialize (H 0 t Ht). inversion H; subst; [|discriminate]. destruct t; try discriminate. congruence.
  Qed.

  (** *** shapes and metadata *)
  Inductive ab (L : bool) : aval -> aval -> Prop :=
  | ab_here a : ab L a (batchA k a)
  | ab_dict l l' : Forall2 (fun e e' => fst e = fst e' /\ ab L (snd e) (snd e')) l l' -> ab L (AD l) (AD l')
  | ab_deep n a a' : L = true -> ab L a a' -> ab L (AS n a) (AS n a').
  Lemma ab_ind' (L : bool) (P : aval -> aval -> Prop) : (forall a, P a (batchA k a)) ->
    (forall l l', Forall2 (fun e e' => fst e = fst e' /\ P (snd e) (snd e')) l l' -> P (AD l) (AD l')) ->
    (forall n a a', L = true -> P a a' -> P (AS n a) (AS n a')) -> forall a a', ab L a a' -> P a a'.
  Proof.
    intros H1 H2 H3. fix IH 3. intros a a' [b|l l' H|n b b' HL H]; [apply H1| |apply H3; [exact HL|apply IH, H]]. apply H2. induction H as [|e e' l l' [He Hs] _ IHl]; constructor; [split; [exact He|apply IH, Hs]|exact IHl].
  Qed.
  Lemma nth_repeat_lt {X} (x : X) n i : i < n -> nth_error (repeat x n) i = Some x.
  Proof. revert i. induction n as [|n IH]; intros [|i] H; cbn; try lia; [reflexivity|]. apply IH. lia. Qed.
  Lemma zeros_batch L i a : i < k -> sl L i (zeros (batchA k a)) (zeros a).
  Proof.
    intros Hi. induction a as [x|l IH|n a _] using aval_ind'; cbn [batchA zeros].
    - constructor; [apply repeat_length|now apply nth_repeat_lt|discriminate].
    - constructor. rewrite map_map. cbn [fst snd]. induction IH as [|[s a] l Ha _ IHl]; constructor; [split; [reflexivity|exact Ha]|exact IHl].
    - constructor; [apply repeat_length|now apply nth_repeat_lt|discriminate].
  Qed.
  Lemma zeros_ab L i a a' : i < k -> ab L a a' -> sl L i (zeros a') (zeros a).
  Proof.
    intros Hi H. induction H as [a|l l' H|n a a' HL H] using ab_ind'; [now apply zeros_batch| |].
    - cbn [zeros]. constructor. induction H as [|[s a] [s' a'] l l' [He Ha] _ IHl]; constructor; [split; [symmetry; exact He|exact Ha]|exact IHl].
    - cbn [zeros]. apply sl_deep; [exact HL|]. clear -H. induction n; constructor; assumption.
  Qed.
  Definition mr (L : bool) (e e' : string * (mode * aval)) : Prop := fst e = fst e' /\ fst (snd e) = fst (snd e') /\ ab L (snd (snd e)) (snd (snd e')).
  Definition MR (L : bool) : meta -> meta -> Prop := Forall2 (mr L).
  Lemma MR_dset L M M' n x x' : MR L M M' -> mr L (n, x) (n, x') -> MR L (dset M n x) (dset M' n x').
  Proof.
    intros H Hx. induction H as [|[y v] [y' v'] M M' He HT IH]; cbn [dset]; [constructor; [assumption|constructor]|]. destruct He as (E & He). cbn [fst] in E. subst y'. destruct (String.eqb n y) eqn:Ey; [constructor; [|exact HT]; split; [reflexivity|exact (proj2 Hx)]|constructor; [split; [reflexivity|exact He]|exact IH]].
  Qed.
  Lemma MR_once L M M' : MR L M M' -> MR L (once M) (once M').
  Proof.
    unfold once, dmerge. intros H. assert (G : forall D D', MR L D D' -> MR L (fold_left (fun acc kv => dset acc (fst kv) (snd kv)) M D) (fold_left (fun acc kv => dset acc (fst kv) (snd kv)) M' D')); [|apply G; constructor].
    induction H as [|[y v] [y' v'] M M' He _ IH]; intros D D' HD; cbn [fold_left fst snd]; [exact HD|]. apply IH. pose proof He as (E & _). cbn [fst] in E. subst y'. now apply MR_dset.
  Qed.
  Lemma MR_filter L (f : mode -> bool) M M' : MR L M M' -> MR L (filter (fun e => f (fst (snd e))) M) (filter (fun e => f (fst (snd e))) M').
  Proof. induction 1 as [|e e' M M' He _ IH]; cbn; [constructor|]. destruct He as (E1 & E2 & E3). rewrite E2. destruct (f (fst (snd e'))); [constructor; [split; auto|exact IH]|exact IH]. Qed.
  Lemma MR_keys L M M' : MR L M M' -> dkeys M = dkeys M'.
  Proof. induction 1 as [|e e' M M' He _ IH]; [reflexivity|]. unfold dkeys in *. cbn. f_equal; [apply He|exact IH]. Qed.
  Lemma MR_dget L M M' n : MR L M M' -> match dget M n, dget M' n with Some x, Some x' => fst x = fst x' /\ ab L (snd x) (snd x') | None, None => True | _, _ => False end.
  Proof. induction 1 as [|[y v] [y' v'] M M' He _ IH]; cbn; [exact I|]. destruct He as (E & He). cbn in E. subst y'. destruct (String.eqb n y); [exact He|exact IH]. Qed.
  Lemma MR_app L M1 M1' M2 M2' : MR L M1 M1' -> MR L M2 M2' -> MR L (M1 ++ M2) (M1' ++ M2').
  Proof. apply Forall2_app. Qed.
  Lemma MR_nil L M : MR L [] M -> M = [].
  Proof. intros H. now inversion H. Qed.
  Lemma MR_stack L len M M' : L = true -> MR L M M' -> MR L (stack_meta len M) (stack_meta len M').
  Proof. intros HL. induction 1 as [|e e' M M' He _ IH]; cbn; [constructor|]. constructor; [|exact IH]. destruct He as (E1 & E2 & E3). split; [exact E1|]. split; [exact E2|]. cbn [fst snd]. apply ab_deep; assumption. Qed.

  (** *** plants *)
  Definition PR (L : bool) (i : nat) (PD pd : plants) : Prop := Forall2 (fun e e' => fst e = fst e' /\ sl L i (snd e) (snd e')) PD pd /\ (L = true -> PD = []).
  Lemma PR_dget L i PD pd n : PR L i PD pd -> match dget PD n, dget pd n with Some T, Some t => sl L i T t | None, None => True | _, _ => False end.
  Proof. intros [H _]. induction H as [|[y v] [y' v'] PD pd He _ IH]; cbn; [exact I|]. destruct He as (E & He). cbn in E. subst y'. destruct (String.eqb n y); [exact He|exact IH]. Qed.
  Lemma PR_haskey L i PD pd n : PR L i PD pd -> haskey PD n = haskey pd n.
  Proof. intros H. apply (PR_dget _ _ _ _ n) in H. unfold haskey. destruct (dget PD n), (dget pd n); tauto. Qed.
  Lemma PR_sub L i PD pd sc : PR L i PD pd -> PR L i (sub PD sc) (sub pd sc).
  Proof.
    intros H. split; [|intros HL; destruct H as [_ H]; rewrite (H HL); reflexivity]. apply (PR_dget _ _ _ _ sc) in H. unfold sub. destruct (dget PD sc) as [T|], (dget pd sc) as [t|]; try contradiction; [|constructor].
    inversion H as [ts t0 H1 H2 H3|Ls ls H1|Ts ts H1 H2]; subst; [destruct t; [constructor|exfalso; eapply H3; reflexivity|constructor]|exact H1|constructor].
  Qed.
  Lemma PR_filter L i (f : string -> bool) PD pd : PR L i PD pd -> PR L i (filter (fun e => f (fst e)) PD) (filter (fun e => f (fst e)) pd).
  Proof.
    intros [H H0]. split; [|intros HL; rewrite (H0 HL); reflexivity]. clear H0. induction H as [|e e' PD pd He _ IH]; cbn; [constructor|]. destruct He as [E He]. rewrite E. destruct (f (fst e')); [constructor; [split; auto|exact IH]|exact IH].
  Qed.
  Lemma filter_ext' {X} (f g : X -> bool) l : (forall x, f x = g x) -> filter f l = filter g l.
  Proof. intros H. induction l as [|x l IH]; cbn; [reflexivity|]. rewrite H, IH. reflexivity. Qed.
  Lemma PR_clob L i M M' PD pd : MR L M M' -> PR L i PD pd -> PR L i (clob_plants M' PD) (clob_plants M pd).
  Proof.
    intros HM H. unfold clob_plants. rewrite (filter_ext' (fun kv : string * tree => match dget M' (fst kv) with Some (m, _) => clobberish m | None => false end) (fun kv => match dget M (fst kv) with Some (m, _) => clobberish m | None => false end)).
    - apply (PR_filter L i (fun n => match dget M n with Some (m, _) => clobberish m | None => false end)), H.
    - intros [n t]. cbn [fst]. pose proof (MR_dget L M M' n HM) as Hd. destruct (dget M n) as [[m a]|], (dget M' n) as [[m' a']|]; try contradiction; [|reflexivity]. destruct Hd as [E _]. cbn in E. congruence.
  Qed.
  Definition no_apps (M : meta) : Prop := forall n m a, In (n, (m, a)) M -> is_append m = false.
  Lemma app_plants_nil M pd : no_apps M \/ pd = [] -> app_plants M pd = [].
  Proof.
    intros [H| ->]; [|reflexivity]. unfold app_plants. induction pd as [|[n t] pd IH]; cbn; [reflexivity|]. destruct (dget M n) as [[m a]|] eqn:E; [|exact IH]. rewrite (H n m a (dget_In _ _ _ E)). exact IH.
  Qed.
  Lemma appends_nil M : no_apps M -> appends M = [].
  Proof. intros H. unfold appends. induction M as [|[n [m a]] M IH]; cbn; [reflexivity|]. rewrite (H n m a (or_introl eq_refl)). apply IH. intros n' m' a' Hin. apply (H n' m' a'). right. exact Hin. Qed.
  Lemma no_apps_once M : no_apps M -> no_apps (once M).
  Proof. intros H n m a Hin. apply (H n m a). apply (once_incl M). exact Hin. Qed.
  Lemma no_apps_app M M' : no_apps M -> no_apps M' -> no_apps (M ++ M').
  Proof. intros H1 H2 n m a H. apply in_app_or in H as [H|H]; [eapply H1, H|eapply H2, H]. Qed.
  Lemma no_append_sites {A B} (p : prog A B) sP s : no_append p -> forall pd, no_apps (sites2 p sP s pd).
  Proof.
    induction p as [A B f|A B C p IHp q IHq|A B C p IHp|t n m av|t n av|A B sc p IHp|A B p IHp|C X Y rv len p IHp|C c p IHp|A B p IHp q IHq]; cbn [no_append sites2]; intros H pd.
    - intros ? ? ? [].
    - apply no_apps_app; [apply IHp|apply IHq]; apply H.
    - now apply IHp.
    - unfold site_here. destruct (_ && _)%bool; [intros ? ? ? [E|[]]|intros ? ? ? []]. injection E as <- <- <-. exact H.
    - unfold site_here. destruct (_ && _)%bool; [intros ? ? ? [E|[]]|intros ? ? ? []]. injection E as <- <- <-. reflexivity.
    - unfold scope_site. destruct (sites2 p sP s (sub pd sc)); [intros ? ? ? []|]. destruct (passes s sc); [intros ? ? ? [E|[]]|intros ? ? ? []]. injection E as <- <- <-. reflexivity.
    - now apply no_apps_once, IHp.
    - assert (N : no_apps (once (sites2 p sP s (body_plants (once (sites2 p sP sP [])) pd)))) by now apply no_apps_once, IHp. rewrite (appends_nil _ N). cbn. rewrite app_nil_r. intros n m a Hin. unfold clobbers in Hin. apply filter_In in Hin as [Hin _]. eapply N, Hin.
    - now apply no_apps_once, IHp.
    - apply no_apps_once. apply IHp, H.
  Qed.
  Lemma no_append_plain {A B} (p : prog A B) : no_append p -> scans_plain p.
  Proof. induction p as [A B f|A B C p IHp q IHq|A B C p IHp|t n m av|t n av|A B sc p IHp|A B p IHp|C X Y rv len p IHp|C c p IHp|A B p IHp q IHq]; cbn; intros H; auto; destruct H; auto. Qed.

  Lemma MR_site L sP s pd PD t n m a : haskey PD n = haskey pd n -> MR L (site_here sP s pd t n (m, a)) (site_here sP s PD t n (m, batchA k a)).
  Proof. intros H. unfold site_here. rewrite H. destruct (_ && _)%bool; repeat constructor. Qed.
  Lemma sites_vmap L sP {A B} (p : prog A B) : mappable p -> (L = false -> scans_plain p) -> forall s PD pd i, PR L i PD pd -> MR L (sites2 p sP s pd) (sites2 (vmapT k p) sP s PD).
  Proof.
    induction p as [A B f|A B C p IHp q IHq|A B C p IHp|t n m av|t n av|A B sc p IHp|A B p IHp|C X Y rv len p IHp|C c p IHp|A B p IHp q IHq]; cbn [mappable scans_plain vmapT sites2]; intros Hm HL s PD pd i HP; try contradiction.
    - constructor.
    - apply MR_app; [eapply IHp|eapply IHq]; try exact HP; try apply Hm; intros E; apply (HL E).
    - cbn [app]. rewrite app_nil_r. eapply IHp; eauto.
    - cbn [app]. rewrite app_nil_r. apply MR_site. eapply PR_haskey, HP.
    - pose proof (IHp Hm HL s (sub PD sc) (sub pd sc) i (PR_sub _ _ _ _ sc HP)) as H. unfold scope_site. destruct H as [|e e' M M' He HM]; [constructor|]. destruct (passes s sc); [|constructor]. constructor; [|constructor]. split; [reflexivity|]. split; [reflexivity|]. cbn [fst snd]. apply ab_dict.
      assert (G : MR L (once (e :: M)) (once (e' :: M'))) by (apply MR_once; constructor; assumption). clear - G. induction G as [|x y M1 M2 Hx _ IH]; cbn; [constructor|]. constructor; [|exact IH]. destruct Hx as (E1 & _ & E3). cbn. auto.
    - apply MR_once. eapply IHp; eauto.
    - cbn [app]. rewrite !app_nil_r. set (M0 := once (sites2 p sP sP [])). set (M0' := once (sites2 (vmapT k p) sP sP [])).
      assert (HL' : L = false -> scans_plain p) by (intros E; apply no_append_plain, HL, E).
      assert (H0 : MR L M0 M0') by (apply MR_once, (IHp Hm HL' sP [] [] i); split; [constructor|auto]).
      assert (Hb : PR L i (body_plants M0' PD) (body_plants M0 pd)).
      { unfold body_plants. assert (N : app_plants M0 pd = [] /\ app_plants M0' PD = []).
        { destruct L.
          - destruct HP as [HP1 HP2]. rewrite (HP2 eq_refl) in *. inversion HP1; subst. split; apply app_plants_nil; right; reflexivity.
          - assert (N : no_apps M0) by (apply no_apps_once, no_append_sites, HL, eq_refl). split; apply app_plants_nil; left; [exact N|]. intros n m a Hin. clear - N H0 Hin. induction H0 as [|x y M1 M2 Hx _ IH]; [destruct Hin|]. destruct Hin as [->|Hin]; [|apply IH; [intros n' m' a' H; apply (N n' m' a'); right; exact H|exact Hin]].
            destruct x as [n1 [m1 a1]], Hx as (_ & E & _). cbn in E. subst m1. apply (N n1 m a1). left. reflexivity. }
        destruct N as [-> ->]. cbn [app]. apply PR_clob; assumption. }
      assert (HM : MR L (once (sites2 p sP s (body_plants M0 pd))) (once (sites2 (vmapT k p) sP s (body_plants M0' PD)))) by (apply MR_once; eapply IHp; eauto).
      apply MR_app; [exact (MR_filter L clobberish _ _ HM)|]. destruct L.
      + apply MR_stack; [reflexivity|exact (MR_filter true is_append _ _ HM)].
      + assert (N : no_apps (once (sites2 p sP s (body_plants M0 pd)))) by (apply no_apps_once, no_append_sites, HL, eq_refl). pose proof (MR_filter false is_append _ _ HM) as G. change (MR false (appends (once (sites2 p sP s (body_plants M0 pd)))) (appends (once (sites2 (vmapT k p) sP s (body_plants M0' PD))))) in G. rewrite (appends_nil _ N) in *. apply MR_nil in G. rewrite G. constructor.
  Qed.
End vmap.
