(** Arrays over a commutative semiring and finite sums over index variables (mathematical background for
    oryx/experimental/autoconj; what numpy/JAX arrays and einsum are).  Floating point is idealised to a commutative
    semiring. *)
From Coq Require Export List Arith Bool Lia Permutation Ring_theory.
Export ListNotations.

(** ** Index sets and arrays *)
Fixpoint indices (shape : list nat) : list (list nat) :=
  match shape with
  | [] => [[]]
  | n :: s => flat_map (fun i => map (cons i) (indices s)) (seq 0 n)
  end.
Definition in_bounds (shape ix : list nat) : Prop := Forall2 lt ix shape.
Lemma indices_spec shape : forall ix, In ix (indices shape) <-> in_bounds shape ix.
Proof.
  unfold in_bounds. induction shape as [|n s IH]; intros ix; simpl.
  - split; [intros [<-|[]]; constructor | intros H; inversion H; auto].
  - rewrite in_flat_map. split.
    + intros (i & Hi & Hx). apply in_seq in Hi. apply in_map_iff in Hx as (jx & <- & Hj). constructor; [lia|]. now apply IH.
    + intros H. inversion H as [|i ? jx ? Hi Hj]; subst. exists i. split; [apply in_seq; lia|]. apply in_map. now apply IH.
Qed.

Record array (K : Type) := mk_array { shape : list nat; data : list K }.
Arguments mk_array {K}. Arguments shape {K}. Arguments data {K}.
Definition tabulate {K} (s : list nat) (f : list nat -> K) : array K := mk_array s (map f (indices s)).
Fixpoint alookup {K} (l : list (list nat * K)) (ix : list nat) (d : K) : K :=
  match l with
  | [] => d
  | (jx, v) :: l' => if list_eq_dec Nat.eq_dec ix jx then v else alookup l' ix d
  end.
Definition get {K} (d : K) (a : array K) (ix : list nat) : K := alookup (combine (indices (shape a)) (data a)) ix d.
Lemma get_tabulate {K} (d : K) s f ix : in_bounds s ix -> get d (tabulate s f) ix = f ix.
Proof.
  intros H. apply indices_spec in H. unfold get, tabulate. simpl. induction (indices s) as [|jx l IH]; simpl in *; [tauto|].
  destruct (list_eq_dec Nat.eq_dec ix jx); [congruence|]. apply IH. destruct H; [congruence|assumption].
Qed.
Lemma tabulate_ext {K} s (f g : list nat -> K) : (forall ix, in_bounds s ix -> f ix = g ix) -> tabulate s f = tabulate s g.
Proof.
  intros H. unfold tabulate. f_equal. apply map_ext_in. intros ix Hx. apply H. now apply indices_spec.
Qed.

(** ** Sums *)
Definition upd {L} (dec : forall x y : L, {x = y} + {x <> y}) (s : L -> nat) (l : L) (i : nat) : L -> nat :=
  fun l' => if dec l' l then i else s l'.
(** assignment of an index list to a list of letters *)
Fixpoint assign {L} (dec : forall x y : L, {x = y} + {x <> y}) (ls : list L) (ix : list nat) : L -> nat :=
  match ls, ix with
  | l :: ls', i :: ix' => upd dec (assign dec ls' ix') l i
  | _, _ => fun _ => 0
  end.

Section sums.
  Variables (K : Type) (k0 k1 : K) (kadd kmul : K -> K -> K).
  Hypothesis SR : semi_ring_theory k0 k1 kadd kmul eq.
  Infix "+!" := kadd (at level 50, left associativity).
  Infix "*!" := kmul (at level 40, left associativity).

  Fixpoint sum_n (n : nat) (f : nat -> K) : K := match n with O => k0 | S m => sum_n m f +! f m end.
  (** sum of F over all assignments of values below [d l] to the letters [ls], starting from [s] *)
  Fixpoint sumL {L} (dec : forall x y : L, {x = y} + {x <> y}) (ls : list L) (d : L -> nat) (s : L -> nat) (F : (L -> nat) -> K) : K :=
    match ls with
    | [] => F s
    | l :: ls' => sum_n (d l) (fun i => sumL dec ls' d (upd dec s l i) F)
    end.
  Definition prod (l : list K) : K := fold_right kmul k1 l.

  Lemma sum_n_ext n f g : (forall i, i < n -> f i = g i) -> sum_n n f = sum_n n g.
  Proof. induction n as [|n IH]; intros H; simpl; [reflexivity|]. rewrite IH by (intros; apply H; lia). rewrite H by lia. reflexivity. Qed.
  Lemma add_0_r x : x +! k0 = x.
  Proof. rewrite (SRadd_comm SR). apply (SRadd_0_l SR). Qed.
  Lemma mul_0_r x : x *! k0 = k0.
  Proof. rewrite (SRmul_comm SR). apply (SRmul_0_l SR). Qed.
  Lemma mul_1_r x : x *! k1 = x.
  Proof. rewrite (SRmul_comm SR). apply (SRmul_1_l SR). Qed.
  Lemma add_4 a b c d : (a +! b) +! (c +! d) = (a +! c) +! (b +! d).
  Proof.
    rewrite <- !(SRadd_assoc SR). f_equal. rewrite !(SRadd_assoc SR). f_equal. apply (SRadd_comm SR).
  Qed.
  Lemma mul_add_r a b c : a *! (b +! c) = a *! b +! a *! c.
  Proof. rewrite (SRmul_comm SR), (SRdistr_l SR), (SRmul_comm SR b), (SRmul_comm SR c). reflexivity. Qed.
  Lemma sum_n_add n f g : sum_n n (fun i => f i +! g i) = sum_n n f +! sum_n n g.
  Proof. induction n as [|n IH]; simpl; [symmetry; apply add_0_r|]. rewrite IH. apply add_4. Qed.
  Lemma sum_n_0 n : sum_n n (fun _ => k0) = k0.
  Proof. induction n as [|n IH]; simpl; [reflexivity|]. rewrite IH. apply add_0_r. Qed.
  Lemma sum_n_mul n a f : sum_n n (fun i => a *! f i) = a *! sum_n n f.
  Proof. induction n as [|n IH]; simpl; [symmetry; apply mul_0_r|]. rewrite IH. symmetry. apply mul_add_r. Qed.
  Lemma sum_n_exch n m f : sum_n n (fun i => sum_n m (fun j => f i j)) = sum_n m (fun j => sum_n n (fun i => f i j)).
  Proof. induction n as [|n IH]; simpl; [symmetry; apply sum_n_0|]. rewrite IH. symmetry. apply sum_n_add. Qed.

  Section letters.
    Context {L : Type} (dec : forall x y : L, {x = y} + {x <> y}).
    Notation sumL := (sumL dec). Notation upd := (upd dec).

    Definition ext_on (S : list L) (F : (L -> nat) -> K) : Prop :=
      forall s s', (forall l, In l S -> s l = s' l) -> F s = F s'.
    Lemma upd_same s l i : upd s l i l = i.
    Proof. unfold Tensor.upd. destruct (dec l l); congruence. Qed.
    Lemma upd_other s l i l' : l' <> l -> upd s l i l' = s l'.
    Proof. unfold Tensor.upd. destruct (dec l' l); congruence. Qed.

    (** changing the summand / the start assignment.  The summand is only used on assignments that are within bounds
        on the summed letters and equal to the start elsewhere. *)
    Lemma sumL_cong ls d (F F' : (L -> nat) -> K) : forall s s',
      (forall t t', (forall l, In l ls -> t l < d l /\ t l = t' l) ->
                    (forall l, ~ In l ls -> t l = s l /\ t' l = s' l) -> F t = F' t') ->
      sumL ls d s F = sumL ls d s' F'.
    Proof.
      induction ls as [|l ls IH]; intros s s' H; simpl.
      - apply H; simpl; tauto.
      - apply sum_n_ext. intros i Hi. apply IH. intros t t' Hin Hout. apply H.
        + intros l' [<-|Hl'].
          * destruct (in_dec dec l ls) as [Hl|Hl]; [apply Hin, Hl|]. destruct (Hout l Hl) as [H1 H2].
            rewrite upd_same in H1, H2. lia.
          * apply Hin, Hl'.
        + intros l' Hl'. destruct (Hout l') as [H1 H2]; [intros ?; apply Hl'; right; assumption|].
          rewrite upd_other in H1, H2 by (intros ->; apply Hl'; left; reflexivity). auto.
    Qed.
    Lemma sumL_dims ls d d' s F : (forall l, In l ls -> d l = d' l) -> sumL ls d s F = sumL ls d' s F.
    Proof.
      revert s. induction ls as [|l ls IH]; intros s H; simpl; [reflexivity|]. rewrite H by (simpl; auto).
      apply sum_n_ext. intros i _. apply IH. intros; apply H; simpl; auto.
    Qed.
    Lemma sumL_start ls d s s' S F : ext_on S F -> (forall l, In l S -> ~ In l ls -> s l = s' l) -> sumL ls d s F = sumL ls d s' F.
    Proof.
      intros HF H. apply sumL_cong. intros t t' Hin Hout. apply HF. intros l Hl.
      destruct (in_dec dec l ls) as [Hi|Hi]; [apply Hin, Hi|]. destruct (Hout l Hi) as [-> ->]. auto.
    Qed.
    Lemma sumL_ext_on ls d S F : ext_on S F -> ext_on (filter (fun l => if in_dec dec l ls then false else true) S) (fun s => sumL ls d s F).
    Proof.
      intros HF s s' H. apply sumL_start with S; [assumption|]. intros l HS Hl. apply H. apply filter_In. split; [assumption|].
      destruct (in_dec dec l ls); [contradiction|reflexivity].
    Qed.
    Lemma sumL_app l1 l2 d F : forall s, sumL (l1 ++ l2) d s F = sumL l1 d s (fun t => sumL l2 d t F).
    Proof. induction l1 as [|l l1 IH]; intros s; simpl; [reflexivity|]. apply sum_n_ext. intros i _. apply IH. Qed.
    Lemma sumL_perm ls ls' d S F : ext_on S F -> Permutation ls ls' -> NoDup ls -> forall s, sumL ls d s F = sumL ls' d s F.
    Proof.
      intros HF HP. induction HP as [|l l1 l2 HP IH|l l' l1|l1 l2 l3 HP1 IH1 HP2 IH2]; intros Hn s.
      - reflexivity.
      - simpl. inversion Hn; subst. apply sum_n_ext. intros i _. apply IH; assumption.
      - simpl. rewrite sum_n_exch. apply sum_n_ext. intros i _. apply sum_n_ext. intros j _.
        apply sumL_start with S; [assumption|]. intros x _ _. unfold Tensor.upd.
        destruct (dec x l), (dec x l'); try reflexivity. subst. inversion Hn as [|? ? Hx]; subst. exfalso. apply Hx. simpl. auto.
      - rewrite IH1 by assumption. apply IH2. eapply Permutation_NoDup; eassumption.
    Qed.
    (** factoring out what does not depend on the summed letters *)
    Lemma sumL_mul ls d s F (G : (L -> nat) -> K) S : ext_on S G -> (forall l, In l S -> ~ In l ls) ->
      sumL ls d s (fun t => G t *! F t) = G s *! sumL ls d s F.
    Proof.
      intros HG HS. revert s. induction ls as [|l ls IH]; intros s; simpl; [reflexivity|].
      rewrite <- sum_n_mul. apply sum_n_ext. intros i _. rewrite IH by (intros l' Hl' Hn; apply (HS l' Hl'); right; assumption).
      f_equal. apply HG. intros l' Hl'. apply upd_other. intros ->. apply (HS l Hl'). left. reflexivity.
    Qed.
    Lemma assign_nth ls ix i l n : NoDup ls -> nth_error ls i = Some l -> nth_error ix i = Some n -> assign dec ls ix l = n.
    Proof.
      revert ix i. induction ls as [|l0 ls IH]; intros ix i Hn Hl Hx; [destruct i; discriminate|].
      inversion Hn; subst. destruct ix as [|n0 ix]; [destruct i; discriminate|]. destruct i as [|i]; simpl in *.
      - injection Hl as ->. injection Hx as ->. apply upd_same.
      - rewrite upd_other; [eapply IH; eassumption|]. intros ->. apply nth_error_In in Hl. contradiction.
    Qed.
    Lemma map_assign ls ix : NoDup ls -> length ls = length ix -> map (assign dec ls ix) ls = ix.
    Proof.
      intros Hn. revert ix. induction ls as [|l ls IH]; intros [|i ix] Hl; simpl in *; try discriminate; [reflexivity|].
      inversion Hn; subst. rewrite upd_same. f_equal. rewrite <- (IH H2 ix) at 2 by congruence.
      apply map_ext_in. intros l' Hl'. apply upd_other. intros ->. contradiction.
    Qed.
    Lemma assign_bounds ls ix d : NoDup ls -> in_bounds (map d ls) ix -> forall l, In l ls -> assign dec ls ix l < d l.
    Proof.
      intros Hn Hb. unfold in_bounds in Hb. revert ix Hb. induction ls as [|l0 ls IH]; intros ix Hb l Hl; [destruct Hl|].
      inversion Hb as [|i ? ix' ? Hi Hix]; subst. inversion Hn; subst. simpl. destruct (dec l l0) as [->|Hne].
      - rewrite upd_same. assumption.
      - rewrite upd_other by assumption. apply IH; try assumption. destruct Hl; [congruence|assumption].
    Qed.
    Lemma ext_on_incl S S' F : incl S S' -> ext_on S F -> ext_on S' F.
    Proof. intros Hi HF s s' H. apply HF. auto. Qed.
  End letters.

  (** renaming letters *)
  Lemma sumL_rename {L L'} (dec : forall x y : L, {x = y} + {x <> y}) (dec' : forall x y : L', {x = y} + {x <> y})
      (m : L -> L') (S : list L) (F : (L -> nat) -> K) (d : L -> nat) (d' : L' -> nat) ls :
    ext_on S F -> (forall l l', In l ls -> In l' S -> m l' = m l -> l' = l) -> (forall l, In l ls -> d' (m l) = d l) ->
    forall t, sumL dec' (map m ls) d' t (fun t => F (fun l => t (m l))) = sumL dec ls d (fun l => t (m l)) F.
  Proof.
    intros HF. induction ls as [|l ls IH]; intros Hinj Hd t; simpl; [reflexivity|].
    rewrite (Hd l) by (simpl; auto). apply sum_n_ext. intros i _.
    rewrite IH by (intros; (eapply Hinj || eapply Hd); simpl; eauto).
    apply sumL_start with S; [assumption|]. intros x Hx Hn. unfold upd.
    destruct (dec' (m x) (m l)) as [e|ne]; destruct (dec x l) as [e'|ne']; try reflexivity.
    - exfalso. apply ne'. eapply Hinj; simpl; eauto.
    - subst. congruence.
  Qed.
  Lemma prod_app a b : prod (a ++ b) = prod a *! prod b.
  Proof.
    unfold prod. induction a as [|x a IH]; simpl; [symmetry; apply (SRmul_1_l SR)|]. rewrite IH. apply (SRmul_assoc SR).
  Qed.
End sums.
