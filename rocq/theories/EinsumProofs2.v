(** The lax primitives as einsums. *)
From Verif Require Import EinsumModel EinsumProofs.

Definition lt_ (i : nat) : ascii := nth i einsum_letters "a"%char.
Lemma letters_len : List.length einsum_letters = 52. Proof. reflexivity. Qed.
Lemma lt_inj i j : i < 52 -> j < 52 -> lt_ i = lt_ j -> i = j.
Proof. intros Hi Hj E. apply (proj1 (NoDup_nth einsum_letters "a"%char) letters_NoDup); rewrite ?letters_len; assumption. Qed.
Lemma firstn_letters n : n <= 52 -> firstn n einsum_letters = map lt_ (seq 0 n).
Proof.
  intros H. apply nth_ext with "a"%char (lt_ 0); [rewrite firstn_length, map_length, seq_length, letters_len; lia|].
  intros i Hi. rewrite firstn_length, letters_len in Hi. rewrite (map_nth lt_), seq_nth by lia. unfold lt_. simpl (0 + i).
  rewrite <- (firstn_skipn n einsum_letters) at 2. rewrite app_nth1; [reflexivity|]. rewrite firstn_length, letters_len. lia.
Qed.
Lemma skipn_letters n m : n + m <= 52 -> firstn m (skipn n einsum_letters) = map lt_ (seq n m).
Proof.
  intros H. rewrite firstn_skipn_comm. rewrite firstn_letters by lia. rewrite skipn_map. f_equal.
  rewrite seq_app. rewrite skipn_app, seq_length, Nat.sub_diag. rewrite skipn_all2 by (rewrite seq_length; lia). reflexivity.
Qed.

Section lax.
  Variables (K : Type) (k0 k1 : K) (kadd kmul : K -> K -> K).
  Hypothesis SR : semi_ring_theory k0 k1 kadd kmul eq.
  Notation einsum := (einsum K k0 k1 kadd kmul).
  Notation sumP := (sumL K k0 kadd Nat.eq_dec).
  Notation dimP := (fun (a : array K) (i : nat) => nth i (shape a) 0).

  Definition termP (ins : list (list nat)) (ops : list (array K)) (s : nat -> nat) : K :=
    prod K k1 kmul (map (fun io => get k0 (snd io) (map s (fst io))) (combine ins ops)).
  Lemma termP_ext ins ops : forall s s', (forall l, In l (concat ins) -> s l = s' l) -> termP ins ops s = termP ins ops s'.
  Proof.
    intros s s' H. unfold termP. f_equal. apply map_ext_in. intros [i o] Hio. simpl. f_equal. apply map_ext_in.
    intros l Hl. apply H. apply in_concat. exists i. split; [|assumption]. apply in_combine_l in Hio. assumption.
  Qed.
  Lemma assign_lt ls ix l : l < 52 -> (forall l', In l' ls -> l' < 52) -> assign ascii_dec (map lt_ ls) ix (lt_ l) = assign Nat.eq_dec ls ix l.
  Proof.
    intros Hl. revert ix. induction ls as [|l0 ls IH]; intros [|i ix] H; simpl; try reflexivity. unfold upd.
    destruct (ascii_dec (lt_ l) (lt_ l0)) as [e|ne]; destruct (Nat.eq_dec l l0) as [e'|ne']; try reflexivity.
    - exfalso. apply ne'. apply lt_inj; auto. apply H. left. reflexivity.
    - subst. congruence.
    - apply IH. intros; apply H; right; assumption.
  Qed.

  (** an einsum whose letters are numbered: the sum may be taken over the positions, in any order *)
  Lemma einsum_pos ins out (d : nat -> nat) S ops :
    (forall p, In p (concat ins) -> p < 52) -> Forall2 (fun i o => shape o = map d i) ins ops ->
    NoDup out -> incl out (concat ins) -> NoDup S -> (forall p, In p S <-> In p (concat ins) /\ ~ In p out) ->
    einsum (mk_formula (map (map lt_) ins) (map lt_ out)) ops =
    inl (tabulate (map d out) (fun ix => sumP S d (assign Nat.eq_dec out ix) (termP ins ops))).
  Proof.
    intros Hlt Hs Hn Hi HnS HS.
    pose (dn := fun x => match find (fun p => if ascii_dec (lt_ p) x then true else false) (concat ins) with Some p => d p | None => 0 end).
    assert (Hdn : forall p, In p (concat ins) -> dn (lt_ p) = d p).
    { intros p Hp. unfold dn. destruct (find _ _) as [q|] eqn:Hf.
      - apply find_some in Hf as [Hq E]. destruct (ascii_dec (lt_ q) (lt_ p)) as [e|]; [|discriminate]. f_equal. apply lt_inj; auto.
      - exfalso. pose proof (find_none _ _ Hf p Hp) as E. simpl in E. destruct (ascii_dec (lt_ p) (lt_ p)); [discriminate|congruence]. }
    rewrite (einsum_intro _ _ _ _ _ dn).
    - f_equal. unfold value. simpl fout. simpl fins. rewrite map_map. rewrite (map_ext_in _ d) by (intros; apply Hdn; auto).
      apply tabulate_ext. intros ix Hix.
      assert (Hterm : ext_on K (concat (map (map lt_) ins)) (term K k0 k1 kmul (map (map lt_) ins) ops)) by (intros s s' H; apply term_ext; assumption).
      rewrite (sumL_perm K k0 k1 kadd kmul SR ascii_dec _ (map lt_ S) dn _ _ Hterm).
      2: { apply NoDup_Permutation; [apply NoDup_summed| |].
           - apply NoDup_map_inj; [assumption|]. intros l l' Hl Hl'. apply HS in Hl, Hl'. apply lt_inj; apply Hlt; tauto.
           - intros x. rewrite (summed_In K k0 kadd kmul), <- concat_map, !in_map_iff. split.
             + intros [(p & <- & Hp) Hno]. exists p. split; [reflexivity|]. apply HS. split; [assumption|]. intros Ho. apply Hno. exists p. auto.
             + intros (p & <- & Hp). apply HS in Hp as [Hp Hno]. split; [exists p; auto|]. intros (q & E & Hq). apply Hno.
               rewrite (lt_inj p q); auto. }
      2: apply NoDup_summed.
      rewrite (sumL_cong K k0 kadd ascii_dec _ dn _ (fun t => termP ins ops (fun p => t (lt_ p))) (assign ascii_dec (map lt_ out) ix) (assign ascii_dec (map lt_ out) ix)).
      2: { intros t t' H1 H2. assert (E : forall x, t x = t' x).
           { intros x. destruct (in_dec ascii_dec x (map lt_ S)) as [Hx|Hx]; [apply H1, Hx|]. destruct (H2 x Hx). congruence. }
           transitivity (term K k0 k1 kmul (map (map lt_) ins) ops t').
           - apply term_ext. intros; apply E.
           - unfold termP, term. f_equal. clear. revert ops. induction ins as [|i ins IH]; intros [|o ops]; simpl; try reflexivity.
             rewrite map_map, IH. reflexivity. }
      rewrite (sumL_rename K k0 kadd Nat.eq_dec ascii_dec lt_ (concat ins) (termP ins ops) d dn S).
      + apply sumL_start with (concat ins).
        * intros s s' H. apply termP_ext. assumption.
        * intros l Hl _. apply assign_lt; auto.
      + intros s s' H. apply termP_ext. assumption.
      + intros l l' Hl Hl' E. apply HS in Hl as [Hl _]. apply lt_inj; auto.
      + intros l Hl. apply HS in Hl as [Hl _]. auto.
    - unfold sized. simpl. clear -Hs Hdn. clearbody dn. induction Hs as [|i o ins ops H HF IH]; simpl; constructor.
      + rewrite H, map_map. apply map_ext_in. intros p Hp. symmetry. apply Hdn. simpl. apply in_or_app. auto.
      + apply IH. intros p Hp. apply Hdn. simpl. apply in_or_app. auto.
    - simpl. apply NoDup_map_inj; [assumption|]. intros l l' Hl Hl'. apply lt_inj; auto.
    - simpl. intros x Hx. apply in_map_iff in Hx as (p & <- & Hp). rewrite <- concat_map. apply in_map. auto.
  Qed.
  Lemma letters_at_map n is : (forall i, In i is -> i < n) -> letters_at (map lt_ (seq 0 n)) is = inl (map lt_ is).
  Proof.
    induction is as [|i is IH]; intros H; simpl; [reflexivity|]. unfold nth_letter.
    rewrite nth_error_map. rewrite (nth_error_nth' _ 0) by (rewrite seq_length; apply H; left; reflexivity).
    rewrite seq_nth by (apply H; left; reflexivity). simpl. rewrite IH by (intros; apply H; right; assumption). reflexivity.
  Qed.
  Lemma memn_spec i l : memn i l = true <-> In i l.
  Proof. unfold memn. rewrite existsb_exists. split; [intros (x & H & E); apply Nat.eqb_eq in E; subst; assumption|intros H; exists i; split; [assumption|apply Nat.eqb_refl]]. Qed.
  Lemma memn_false i l : memn i l = false <-> ~ In i l.
  Proof. rewrite <- memn_spec. destruct (memn i l); split; congruence. Qed.
  Lemma map_dim_seq (x : array K) : map (dimP x) (seq 0 (ndim K x)) = shape x.
  Proof.
    unfold ndim. generalize (shape x). clear. intros l. apply nth_ext with 0 0; [rewrite map_length, seq_length; reflexivity|].
    intros i Hi. rewrite map_length, seq_length in Hi.
    rewrite (nth_indep _ 0 (nth 0 l 0)) by (rewrite map_length, seq_length; assumption).
    rewrite (map_nth (fun i => nth i l 0)). rewrite seq_nth by assumption. reflexivity.
  Qed.

  Lemma unary x out S : ndim K x <= 52 -> NoDup out -> (forall i, In i out -> i < ndim K x) ->
    NoDup S -> (forall p, In p S <-> p < ndim K x /\ ~ In p out) ->
    einsum (mk_formula [map lt_ (seq 0 (ndim K x))] (map lt_ out)) [x] =
    inl (tabulate (map (dimP x) out) (fun ix => sumP S (dimP x) (assign Nat.eq_dec out ix) (fun s => get k0 x (map s (seq 0 (ndim K x)))))).
  Proof.
    intros Hx Hn Hb HS1 HS2.
    change ([map lt_ (seq 0 (ndim K x))]) with (map (map lt_) [seq 0 (ndim K x)]).
    rewrite (einsum_pos [seq 0 (ndim K x)] out (dimP x) S [x]).
    - f_equal. apply tabulate_ext. intros ix _. apply sumL_cong. intros t t' H1 H2.
      assert (E : forall p, t p = t' p).
      { intros p. destruct (in_dec Nat.eq_dec p S) as [Hp|Hp]; [apply H1, Hp|]. destruct (H2 p Hp). congruence. }
      unfold termP. simpl. rewrite (mul_1_r K k0 k1 kadd kmul SR). f_equal. apply map_ext. exact E.
    - simpl. rewrite app_nil_r. intros p Hp. apply in_seq in Hp. lia.
    - constructor; [|constructor]. symmetry. apply map_dim_seq.
    - assumption.
    - intros p Hp. simpl. rewrite app_nil_r. apply in_seq. specialize (Hb p Hp). lia.
    - assumption.
    - intros p. rewrite HS2. simpl. rewrite app_nil_r, in_seq. split; intros [H1 H2]; (split; [lia|assumption]).
  Qed.

  Lemma transpose_einsum perm x f : ndim K x <= 52 -> Permutation perm (seq 0 (ndim K x)) ->
    transpose_formula (ndim K x) perm = inl f -> einsum f [x] = inl (lax_transpose K k0 perm x).
  Proof.
    intros Hx Hp Hf. unfold transpose_formula in Hf. rewrite firstn_letters in Hf by assumption.
    assert (Hb : forall i, In i perm -> i < ndim K x).
    { intros i Hi. apply (Permutation_in _ Hp) in Hi. apply in_seq in Hi. lia. }
    rewrite letters_at_map in Hf by assumption. simpl in Hf. injection Hf as <-.
    rewrite (unary x perm []); try assumption.
    - reflexivity.
    - apply (Permutation_NoDup (Permutation_sym Hp)), seq_NoDup.
    - constructor.
    - intros p. split; [intros []|]. intros [H1 H2]. exfalso. apply H2. apply (Permutation_in _ (Permutation_sym Hp)). apply in_seq. lia.
  Qed.
  Lemma transpose_formula_ok n perm : n <= 52 -> (forall i, In i perm -> i < n) -> exists f, transpose_formula n perm = inl f.
  Proof. intros Hn Hb. unfold transpose_formula. rewrite firstn_letters by assumption. rewrite letters_at_map by assumption. simpl. eauto. Qed.

  Lemma kept_In n dims i : In i (kept n dims) <-> i < n /\ ~ In i dims.
  Proof. unfold kept. rewrite filter_In, in_seq, negb_true_iff, memn_false. intuition lia. Qed.
  Lemma drop_formula_eq n dims : n <= 52 -> drop_formula n dims = inl (mk_formula [map lt_ (seq 0 n)] (map lt_ (kept n dims))).
  Proof.
    intros Hn. unfold drop_formula. rewrite firstn_letters by assumption. rewrite letters_at_map; [reflexivity|].
    intros i Hi. apply kept_In in Hi. tauto.
  Qed.
  Lemma reduce_sum_einsum axes x f : ndim K x <= 52 ->
    drop_formula (ndim K x) axes = inl f -> einsum f [x] = inl (lax_reduce_sum K k0 kadd axes x).
  Proof.
    intros Hx Hf. rewrite drop_formula_eq in Hf by assumption. injection Hf as <-.
    rewrite (unary x (kept (ndim K x) axes) (filter (fun i => memn i axes) (seq 0 (ndim K x)))); try assumption.
    - reflexivity.
    - apply NoDup_filter, seq_NoDup.
    - intros i Hi. apply kept_In in Hi. tauto.
    - apply NoDup_filter, seq_NoDup.
    - intros p. rewrite filter_In, in_seq, memn_spec, kept_In. destruct (in_dec Nat.eq_dec p axes); intuition lia.
  Qed.
  Lemma assign_notin {L} (dec : forall x y : L, {x = y} + {x <> y}) ls ix l : ~ In l ls -> assign dec ls ix l = 0.
  Proof.
    revert ix. induction ls as [|l0 ls IH]; intros [|i ix] H; simpl; try reflexivity. rewrite upd_other; [|intros ->; apply H; left; reflexivity].
    apply IH. intros Hx. apply H. right. assumption.
  Qed.
  Lemma sumP_ones S d s F : (forall p, In p S -> d p = 1) -> (forall p, In p S -> s p = 0) ->
    (forall t t', (forall p, t p = t' p) -> F t = F t') -> sumP S d s F = F s.
  Proof.
    intros Hd Hs HF. revert s Hs. induction S as [|p S IH]; intros s Hs; simpl; [reflexivity|].
    rewrite Hd by (simpl; auto). simpl. rewrite (SRadd_0_l SR). rewrite IH.
    - apply HF. intros q. unfold upd. destruct (Nat.eq_dec q p); [subst; symmetry; apply Hs; simpl; auto|reflexivity].
    - intros; apply Hd; simpl; auto.
    - intros q Hq. unfold upd. destruct (Nat.eq_dec q p); [reflexivity|]. apply Hs. simpl. auto.
  Qed.
  Lemma squeeze_einsum dims x f : ndim K x <= 52 -> (forall i, In i dims -> nth i (shape x) 0 = 1) ->
    drop_formula (ndim K x) dims = inl f -> einsum f [x] = inl (lax_squeeze K k0 dims x).
  Proof.
    intros Hx Hd Hf. rewrite (reduce_sum_einsum dims x f Hx Hf). f_equal. unfold lax_reduce_sum, lax_squeeze.
    apply tabulate_ext. intros ix _. rewrite sumP_ones; [reflexivity| | |].
    - intros p Hp. apply filter_In in Hp as [_ Hp]. apply memn_spec in Hp. auto.
    - intros p Hp. apply filter_In in Hp as [_ Hp]. apply memn_spec in Hp. apply assign_notin. intros Hk. apply kept_In in Hk. tauto.
    - intros t t' E. f_equal. apply map_ext. exact E.
  Qed.

  (** dot_general *)
  Definition ypos (nx : nat) (ys xs : list nat) (j : nat) : nat := match pos_of j ys xs with Some i => i | None => nx + j end.
  Lemma pos_of_None j ys xs : List.length ys = List.length xs -> pos_of j ys xs = None <-> ~ In j ys.
  Proof.
    revert xs. induction ys as [|y ys IH]; intros [|x xs] Hl; simpl in *; try discriminate; [tauto|].
    injection Hl as Hl. destruct (Nat.eq_dec j y); [subst; split; [discriminate|intros H; exfalso; apply H; auto]|].
    rewrite (IH _ Hl). split; [intros H [H'|H']; [congruence|tauto]|tauto].
  Qed.
  Lemma pos_of_Some j ys xs i : pos_of j ys xs = Some i -> In i xs /\ In j ys.
  Proof.
    revert xs. induction ys as [|y ys IH]; intros [|x xs]; simpl; try discriminate. destruct (Nat.eq_dec j y); [injection 1 as ->; auto|].
    intros H. apply IH in H. tauto.
  Qed.
  Lemma pos_of_inj j j' ys xs i : NoDup xs -> pos_of j ys xs = Some i -> pos_of j' ys xs = Some i -> j = j'.
  Proof.
    revert xs. induction ys as [|y ys IH]; intros [|x xs] Hn; simpl; try discriminate. inversion Hn; subst.
    destruct (Nat.eq_dec j y), (Nat.eq_dec j' y); try congruence; intros E1 E2.
    - injection E1 as ->. apply pos_of_Some in E2. tauto.
    - injection E2 as ->. apply pos_of_Some in E1. tauto.
    - eapply IH; eassumption.
  Qed.
  Lemma pos_of_surj ys xs i : NoDup ys -> List.length ys = List.length xs -> In i xs -> exists j, In j ys /\ pos_of j ys xs = Some i.
  Proof.
    revert xs. induction ys as [|y ys IH]; intros [|x xs] Hn Hl Hi; simpl in *; try discriminate; [tauto|]. injection Hl as Hl. inversion Hn; subst.
    destruct Hi as [<-|Hi].
    - exists y. destruct (Nat.eq_dec y y); [auto|congruence].
    - destruct (IH _ H2 Hl Hi) as (j & Hj & E). exists j. destruct (Nat.eq_dec j y); [subst; contradiction|auto].
  Qed.
  Lemma set_nth_map (g : nat -> ascii) n off j a : j < n ->
    set_nth (map g (seq off n)) j a = inl (map (fun i => if Nat.eq_dec i (off + j) then a else g i) (seq off n)).
  Proof.
    revert off j. induction n as [|n IH]; intros off j Hj; [lia|]. simpl. destruct j as [|j].
    - rewrite Nat.add_0_r. destruct (Nat.eq_dec off off); [|congruence]. f_equal. f_equal. apply map_ext_in. intros i Hi. apply in_seq in Hi.
      destruct (Nat.eq_dec i off); [lia|reflexivity].
    - rewrite IH by lia. simpl. f_equal. f_equal.
      + destruct (Nat.eq_dec off (off + Datatypes.S j)); [lia|reflexivity].
      + apply map_ext. intros i. rewrite Nat.add_succ_r. reflexivity.
  Qed.
  Lemma share_map nx ny xs ys : (forall i, In i xs -> i < nx) -> (forall j, In j ys -> j < ny) -> NoDup ys -> List.length ys = List.length xs ->
    forall g, share (map lt_ (seq 0 nx)) (map g (seq 0 ny)) (combine xs ys) =
      inl (map (fun j => match pos_of j ys xs with Some i => lt_ i | None => g j end) (seq 0 ny)).
  Proof.
    revert xs. induction ys as [|y ys IH]; intros [|x xs] Hx Hy Hn Hl g; simpl in *; try discriminate; [reflexivity|]. injection Hl as Hl. inversion Hn; subst.
    unfold nth_letter. rewrite nth_error_map. rewrite (nth_error_nth' _ 0) by (rewrite seq_length; auto).
    rewrite seq_nth by auto. simpl. rewrite set_nth_map by auto. simpl.
    rewrite IH; auto. f_equal. apply map_ext. intros j. destruct (Nat.eq_dec j y) as [->|].
    - destruct (pos_of y ys xs) as [i|] eqn:E; [apply pos_of_Some in E; tauto|]. destruct (Nat.eq_dec y y); [reflexivity|congruence].
    - destruct (pos_of j ys xs); [reflexivity|]. reflexivity.
  Qed.
  Lemma assign_app_l {L} (dec : forall x y : L, {x = y} + {x <> y}) l1 l2 ix1 ix2 l : List.length l1 = List.length ix1 -> In l l1 ->
    assign dec (l1 ++ l2) (ix1 ++ ix2) l = assign dec l1 ix1 l.
  Proof.
    revert ix1. induction l1 as [|x l1 IH]; intros [|i ix1] Hl Hi; simpl in *; try discriminate; [tauto|]. injection Hl as Hl. unfold upd.
    destruct (dec l x); [reflexivity|]. apply IH; [assumption|]. destruct Hi; [congruence|assumption].
  Qed.
  Lemma assign_app_r {L} (dec : forall x y : L, {x = y} + {x <> y}) l1 l2 ix1 ix2 l : List.length l1 = List.length ix1 -> ~ In l l1 ->
    assign dec (l1 ++ l2) (ix1 ++ ix2) l = assign dec l2 ix2 l.
  Proof.
    revert ix1. induction l1 as [|x l1 IH]; intros [|i ix1] Hl Hi; simpl in *; try discriminate; [reflexivity|]. injection Hl as Hl. unfold upd.
    destruct (dec l x); [exfalso; subst; apply Hi; auto|]. apply IH; [assumption|]. tauto.
  Qed.
  Lemma assign_shift n ls ix j : assign Nat.eq_dec (map (Nat.add n) ls) ix (n + j) = assign Nat.eq_dec ls ix j.
  Proof.
    revert ix. induction ls as [|l ls IH]; intros [|i ix]; simpl; try reflexivity. unfold upd.
    destruct (Nat.eq_dec (n + j) (n + l)), (Nat.eq_dec j l); try lia; try reflexivity. apply IH.
  Qed.
  Lemma free_In n used i : In i (free n used) <-> i < n /\ ~ In i used.
  Proof. apply kept_In. Qed.
  Lemma filter_map {A B} (g : A -> B) p l : filter p (map g l) = map g (filter (fun x => p (g x)) l).
  Proof. induction l as [|x l IH]; simpl; [reflexivity|]. destruct (p (g x)); simpl; rewrite IH; reflexivity. Qed.

  Lemma dot_einsum xc yc xb yb x y f : ndim K x + ndim K y <= 52 ->
    List.length xc = List.length yc -> List.length xb = List.length yb ->
    NoDup (xc ++ xb) -> NoDup (yc ++ yb) ->
    (forall i j, In (i, j) (combine (xc ++ xb) (yc ++ yb)) -> i < ndim K x /\ j < ndim K y /\ nth i (shape x) 0 = nth j (shape y) 0) ->
    dot_formula (ndim K x) (ndim K y) xc yc xb yb = inl f ->
    einsum f [x; y] = inl (lax_dot_general K k0 kadd kmul xc yc xb yb x y).
  Proof.
    intros Hr Hlc Hlb Hnx Hny Hdims Hf.
    set (nx := ndim K x) in *. set (ny := ndim K y) in *.
    set (xs := xc ++ xb) in *. set (ys := yc ++ yb) in *.
    assert (Hl : List.length ys = List.length xs) by (unfold xs, ys; rewrite !app_length; congruence).
    assert (Hxs : forall i, In i xs -> i < nx).
    { intros i Hi. assert (E : exists j, In (i, j) (combine xs ys)); [|destruct E as [j Hj]; apply (Hdims i j Hj)].
      clear -Hi Hl. clearbody xs ys. revert ys Hl. induction xs as [|a xs IH]; intros [|b ys] Hl; simpl in *; try discriminate; [tauto|].
      injection Hl as Hl. destruct Hi as [<-|Hi]; [exists b; auto|]. destruct (IH Hi ys Hl) as [j Hj]. exists j. auto. }
    assert (Hys : forall j, In j ys -> j < ny).
    { intros j Hj. assert (E : exists i, In (i, j) (combine xs ys)); [|destruct E as [i Hi]; apply (Hdims i j Hi)].
      clear -Hj Hl. clearbody xs ys. revert xs Hl. induction ys as [|b ys IH]; intros [|a xs] Hl; simpl in *; try discriminate; [tauto|].
      injection Hl as Hl. destruct Hj as [<-|Hj]; [exists a; auto|]. destruct (IH Hj xs Hl) as [i Hi]. exists i. auto. }
    assert (Hpd : forall j i, pos_of j ys xs = Some i -> nth j (shape y) 0 = nth i (shape x) 0).
    { intros j i E. symmetry. apply (Hdims i j). clear -E. clearbody xs ys. revert xs E. induction ys as [|b ys IH]; intros [|a xs]; simpl; try discriminate.
      destruct (Nat.eq_dec j b); [injection 1 as ->; left; congruence|right; auto]. }
    unfold dot_formula in Hf. rewrite firstn_letters, skipn_letters in Hf by lia.
    fold xs ys in Hf.
    assert (Hshift : map lt_ (seq nx ny) = map (fun j => lt_ (nx + j)) (seq 0 ny)).
    { clear. rewrite <- (Nat.add_0_r nx) at 1. generalize 0. induction ny as [|m IH]; intros o; simpl; [reflexivity|]. f_equal. rewrite <- IH. f_equal. f_equal. lia. }
    rewrite Hshift in Hf. rewrite share_map in Hf by assumption. simpl in Hf.
    set (yp := map (ypos nx ys xs) (seq 0 ny)).
    assert (Hyl : map (fun j => match pos_of j ys xs with Some i => lt_ i | None => lt_ (nx + j) end) (seq 0 ny) = map lt_ yp).
    { unfold yp. rewrite map_map. apply map_ext. intros j. unfold ypos. destruct (pos_of j ys xs); reflexivity. }
    rewrite Hyl in Hf.
    rewrite letters_at_map in Hf by (intros i Hi; apply Hxs; apply in_or_app; auto). simpl in Hf.
    set (fx := free nx xs) in *. set (fy := free ny ys) in *.
    assert (Hyp52 : forall p, In p yp -> p < nx + ny).
    { intros p Hp. unfold yp in Hp. apply in_map_iff in Hp as (j & <- & Hj). apply in_seq in Hj. unfold ypos. destruct (pos_of j ys xs) as [i|] eqn:E; [|lia].
      apply pos_of_Some in E as [E _]. apply Hxs in E. lia. }
    assert (Hypx : forall i, i < nx -> In i yp <-> In i xs).
    { intros i Hi. unfold yp. rewrite in_map_iff. split.
      - intros (j & E & Hj). unfold ypos in E. destruct (pos_of j ys xs) as [i'|] eqn:E'; [|lia]. subst. apply pos_of_Some in E'. tauto.
      - intros Hx. destruct (pos_of_surj ys xs i Hny Hl Hx) as (j & Hj & E). exists j. split; [unfold ypos; rewrite E; reflexivity|]. apply in_seq. specialize (Hys j Hj). lia. }
    assert (Hox : filter (fun a => negb (mema a (map lt_ yp))) (map lt_ (seq 0 nx)) = map lt_ fx).
    { rewrite filter_map. f_equal. unfold fx, free. apply filter_ext_in. intros i Hi. apply in_seq in Hi. f_equal.
      unfold mema. destruct (in_dec ascii_dec (lt_ i) (map lt_ yp)) as [Hin|Hin].
      - symmetry. apply memn_spec. apply Hypx; [lia|]. apply in_map_iff in Hin as (p & E & Hp). rewrite <- (lt_inj p i); auto; [specialize (Hyp52 p Hp)|]; lia.
      - symmetry. apply memn_false. intros Hx. apply Hin. apply in_map. apply Hypx; [lia|assumption]. }
    assert (Hoy : filter (fun a => negb (mema a (map lt_ (seq 0 nx)))) (map lt_ yp) = map lt_ (map (Nat.add nx) fy)).
    { rewrite filter_map. f_equal. unfold yp, fy, free. rewrite filter_map.
      rewrite (map_ext_in (ypos nx ys xs) (Nat.add nx)).
      - f_equal. apply filter_ext_in. intros j Hj. apply in_seq in Hj. f_equal. unfold mema.
        destruct (in_dec ascii_dec (lt_ (ypos nx ys xs j)) (map lt_ (seq 0 nx))) as [Hin|Hin].
        + symmetry. apply memn_spec. apply in_map_iff in Hin as (p & E & Hp). apply in_seq in Hp.
          assert (Hj' : ypos nx ys xs j < nx + ny) by (apply Hyp52; unfold yp; apply in_map, in_seq; lia).
          apply lt_inj in E; [|lia|lia]. unfold ypos in E. destruct (pos_of j ys xs) eqn:E'; [apply pos_of_Some in E'; tauto|lia].
        + symmetry. apply memn_false. intros Hy. destruct (pos_of j ys xs) as [i|] eqn:E'.
          * apply Hin. unfold ypos. rewrite E'. apply in_map. apply in_seq. apply pos_of_Some in E' as [E' _]. specialize (Hxs i E'). lia.
          * apply pos_of_None in E'; [contradiction|assumption].
      - intros j Hj. apply filter_In in Hj as [Hj1 Hj2]. rewrite negb_true_iff in Hj2. unfold ypos.
        destruct (pos_of j ys xs) as [i|] eqn:E'; [|reflexivity]. exfalso. unfold mema in Hj2.
        destruct (in_dec ascii_dec (lt_ (ypos nx ys xs j)) (map lt_ (seq 0 nx))) as [|Hin]; [discriminate|].
        apply Hin. unfold ypos. rewrite E'. apply in_map. apply in_seq. apply pos_of_Some in E' as [E' _]. specialize (Hxs i E'). lia. }
    rewrite Hox, Hoy, <- !map_app in Hf. injection Hf as <-.
    set (out := xb ++ fx ++ map (Nat.add nx) fy).
    pose (d := fun p => if lt_dec p nx then nth p (shape x) 0 else nth (p - nx) (shape y) 0).
    change ([map lt_ (seq 0 nx); map lt_ yp]) with (map (map lt_) [seq 0 nx; yp]).
    assert (Hconc : forall p, In p (concat [seq 0 nx; yp]) <-> p < nx \/ In p yp).
    { intros p. simpl. rewrite app_nil_r, in_app_iff, in_seq. intuition lia. }
    assert (Hfynx : forall p, In p (map (Nat.add nx) fy) -> nx <= p).
    { intros p Hp. apply in_map_iff in Hp as (j & <- & _). lia. }
    assert (Hfyyp : forall j, In j fy -> In (nx + j) yp).
    { intros j Hj. apply free_In in Hj as [H1 H2]. unfold yp. apply in_map_iff. exists j. split; [|apply in_seq; lia]. unfold ypos.
      destruct (pos_of j ys xs) eqn:E; [apply pos_of_Some in E; tauto|reflexivity]. }
    assert (Hxbnx : forall i, In i xb -> i < nx) by (intros i Hi; apply Hxs; apply in_or_app; auto).
    assert (Hxcnx : forall i, In i xc -> i < nx) by (intros i Hi; apply Hxs; apply in_or_app; auto).
    assert (Hnxb : NoDup xb) by (clear -Hnx; unfold xs in Hnx; induction xc; [assumption|inversion Hnx; auto]).
    assert (Hnxc : NoDup xc) by (clear -Hnx; unfold xs in Hnx; induction xc as [|a l IH]; [constructor|]; inversion Hnx; subst; constructor; [intros H; apply H1; apply in_or_app; auto|auto]).
    assert (Hxcb : forall i, In i xc -> ~ In i xb).
    { clear -Hnx. unfold xs in Hnx. induction xc as [|a l IH]; intros i Hi; [destruct Hi|]. inversion Hnx; subst. destruct Hi as [<-|Hi]; [intros H; apply H1; apply in_or_app; auto|auto]. }
    assert (Hnout : NoDup out).
    { unfold out. apply NoDup_app_disj; [assumption| |].
      - apply NoDup_app_disj.
        + apply NoDup_filter, seq_NoDup.
        + apply NoDup_map_inj; [apply NoDup_filter, seq_NoDup|]. intros; lia.
        + intros p Hp Hp'. apply free_In in Hp as [Hp _]. apply Hfynx in Hp'. lia.
      - intros p Hp Hp'. apply in_app_or in Hp' as [Hp'|Hp'].
        + apply free_In in Hp' as [_ Hp']. apply Hp'. apply in_or_app. auto.
        + apply Hfynx in Hp'. apply Hxbnx in Hp. lia. }
    rewrite (einsum_pos [seq 0 nx; yp] out d xc [x; y]).
    - f_equal. unfold lax_dot_general. fold nx ny. fold xs ys. fold fx fy.
      assert (Hshape : map d out = map (dimP x) xb ++ map (dimP x) fx ++ map (dimP y) fy).
      { unfold out. rewrite !map_app, map_map. f_equal; [|f_equal].
        - apply map_ext_in. intros i Hi. unfold d. destruct (lt_dec i nx); [reflexivity|]. apply Hxbnx in Hi. contradiction.
        - apply map_ext_in. intros i Hi. unfold d. destruct (lt_dec i nx); [reflexivity|]. apply free_In in Hi. tauto.
        - apply map_ext_in. intros i Hi. unfold d. destruct (lt_dec (nx + i) nx); [lia|]. f_equal. lia. }
      rewrite Hshape. apply tabulate_ext. intros ix Hix.
      assert (Hlix : List.length ix = List.length xb + List.length fx + List.length fy).
      { unfold in_bounds in Hix. assert (E : List.length ix = List.length (map (dimP x) xb ++ map (dimP x) fx ++ map (dimP y) fy)) by (clear -Hix; induction Hix; simpl; congruence).
        rewrite E, !app_length, !map_length. lia. }
      set (m := List.length xb + List.length fx) in *.
      set (s0 := assign Nat.eq_dec (xb ++ fx) (firstn m ix)). set (t0 := assign Nat.eq_dec fy (skipn m ix)).
      assert (Hm : List.length (xb ++ fx) = List.length (firstn m ix)) by (rewrite app_length, firstn_length; fold m; lia).
      assert (Hout : out = (xb ++ fx) ++ map (Nat.add nx) fy) by (unfold out; rewrite app_assoc; reflexivity).
      assert (Hsl : forall i, i < nx -> assign Nat.eq_dec out ix i = s0 i).
      { intros i Hi. rewrite Hout, <- (firstn_skipn m ix). destruct (in_dec Nat.eq_dec i (xb ++ fx)) as [Hin|Hin].
        - apply assign_app_l; assumption.
        - rewrite assign_app_r by assumption. unfold s0. rewrite (assign_notin _ (xb ++ fx)) by assumption.
          apply assign_notin. intros Hx. apply Hfynx in Hx. lia. }
      assert (Hsr : forall j, assign Nat.eq_dec out ix (nx + j) = t0 j).
      { intros j. rewrite Hout, <- (firstn_skipn m ix) at 1. rewrite assign_app_r; [apply assign_shift|assumption|].
        intros Hin. apply in_app_or in Hin as [Hin|Hin]; [apply Hxbnx in Hin; lia|apply free_In in Hin; lia]. }
      rewrite (sumL_dims K k0 kadd Nat.eq_dec xc d (dimP x)).
      2: { intros l Hl'. unfold d. destruct (lt_dec l nx); [reflexivity|]. apply Hxcnx in Hl'. contradiction. }
      pose (G := fun (t : nat -> nat) => kmul (get k0 x (map t (seq 0 nx))) (get k0 y (map (fun j => match pos_of j ys xs with Some i => t i | None => t0 j end) (seq 0 ny)))).
      apply sumL_cong. intros t t' H1 H2.
      assert (Ht : forall i, i < nx -> t i = t' i).
      { intros i Hi. destruct (in_dec Nat.eq_dec i xc) as [Hc|Hc]; [apply H1, Hc|]. destruct (H2 i Hc) as [-> ->]. apply Hsl. assumption. }
      unfold termP. simpl. rewrite (mul_1_r K k0 k1 kadd kmul SR). f_equal.
      + f_equal. apply map_ext_in. intros i Hi. apply in_seq in Hi. apply Ht. lia.
      + f_equal. unfold yp. rewrite map_map. apply map_ext_in. intros j Hj. unfold ypos. destruct (pos_of j ys xs) as [i|] eqn:E.
        * apply Ht. apply pos_of_Some in E as [E _]. auto.
        * destruct (H2 (nx + j)) as [-> _]; [intros Hc; apply Hxcnx in Hc; lia|]. apply Hsr.
    - intros p Hp. apply Hconc in Hp as [Hp|Hp]; [lia|]. apply Hyp52 in Hp. lia.
    - constructor; [|constructor; [|constructor]].
      + rewrite <- (map_dim_seq x). fold nx. apply map_ext_in. intros i Hi. apply in_seq in Hi. unfold d. destruct (lt_dec i nx); [reflexivity|lia].
      + rewrite <- (map_dim_seq y). fold ny. unfold yp. rewrite map_map. apply map_ext_in. intros j Hj. unfold ypos, d.
        destruct (pos_of j ys xs) as [i|] eqn:E.
        * rewrite (Hpd j i E). destruct (lt_dec i nx) as [|Hn]; [reflexivity|]. apply pos_of_Some in E as [E _]. apply Hxs in E. contradiction.
        * destruct (lt_dec (nx + j) nx); [lia|]. f_equal. lia.
    - assumption.
    - intros p Hp. apply Hconc. unfold out in Hp. apply in_app_or in Hp as [Hp|Hp]; [left; auto|]. apply in_app_or in Hp as [Hp|Hp].
      + left. apply free_In in Hp. tauto.
      + right. apply in_map_iff in Hp as (j & <- & Hj). auto.
    - assumption.
    - intros p. rewrite Hconc. unfold out. rewrite !in_app_iff. split.
      + intros Hp. split; [left; auto|]. intros [H|[H|H]].
        * apply (Hxcb p); assumption.
        * apply free_In in H as [_ H]. apply H. apply in_or_app. auto.
        * apply Hfynx in H. apply Hxcnx in Hp. lia.
      + intros [[Hp|Hp] Hno].
        * destruct (in_dec Nat.eq_dec p xs) as [Hx|Hx].
          { apply in_app_or in Hx as [Hx|Hx]; [assumption|]. exfalso. apply Hno. auto. }
          { exfalso. apply Hno. right. left. apply free_In. auto. }
        * destruct (lt_dec p nx) as [Hlt|Hge].
          { apply Hypx in Hp; [|assumption]. apply in_app_or in Hp as [Hp|Hp]; [assumption|]. exfalso. apply Hno. auto. }
          { exfalso. apply Hno. right. right. unfold yp in Hp. apply in_map_iff in Hp as (j & E & Hj). apply in_seq in Hj. unfold ypos in E.
            destruct (pos_of j ys xs) as [i|] eqn:E'; [apply pos_of_Some in E' as [E' _]; apply Hxs in E'; lia|].
            apply in_map_iff. exists j. split; [lia|]. apply free_In. split; [lia|]. apply pos_of_None in E'; assumption. }
  Qed.
End lax.
