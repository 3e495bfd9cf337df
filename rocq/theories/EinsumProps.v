(** Property theorems C19-C21 (oryx/experimental/autoconj). *)
From Verif Require Import CanonModel CanonProofs EinsumProofs EinsumProofs2.
From Coq Require Import ZArith Ring_theory.
Open Scope string_scope.
Open Scope list_scope.

(** ** C19.  [einsum_str formula operands] is jnp.einsum on a formula string; [compose_einsums p n c] is the formula
    compose_einsums returns for a parent formula p, n left arguments and a child formula c. *)
Theorem C19_compose_einsums_correct :
  forall K k0 k1 kadd kmul, semi_ring_theory k0 k1 kadd kmul eq ->
  forall parent child f (left child_args right : list (array K)) (a r : array K),
    einsum_str K k0 k1 kadd kmul child child_args = inl a ->
    einsum_str K k0 k1 kadd kmul parent (left ++ a :: right) = inl r ->
    compose_einsums parent (List.length left) child = inl f ->
    einsum_str K k0 k1 kadd kmul f (left ++ child_args ++ right) = inl r.
Proof. exact compose_str. Qed.
Print Assumptions C19_compose_einsums_correct.

(** It does return, as long as the two formulas need at most 52 distinct letters together. *)
Theorem C19_compose_einsums_returns :
  forall K k0 k1 kadd kmul parent child p c (left child_args right : list (array K)) (a r : array K),
    split_einsum_formula parent = inl p -> split_einsum_formula child = inl c ->
    einsum_str K k0 k1 kadd kmul child child_args = inl a ->
    einsum_str K k0 k1 kadd kmul parent (left ++ a :: right) = inl r ->
    count_letters p c <= 52 ->
    exists f, compose_einsums parent (List.length left) child = inl f.
Proof.
  intros K k0 k1 kadd kmul parent child p c left cargs right a r Hp Hc Ha Hr Hn.
  unfold einsum_str in Ha, Hr. rewrite Hc in Ha. rewrite Hp in Hr. cbn [rb'] in Ha, Hr.
  destruct (clean c); [|discriminate]. destruct (clean p); [|discriminate].
  unfold einsum in Ha. destruct (einsum_ok K (fins c) (fout c) cargs) eqn:Ec; [|discriminate]. injection Ha as Ha.
  unfold einsum in Hr. destruct (einsum_ok K (fins p) (fout p) (left ++ a :: right)) eqn:Ep; [|discriminate].
  unfold einsum_ok in Ec, Ep. rewrite !andb_true_iff in Ec, Ep.
  destruct Ec as [[[[Ec1 Ec2] Ec3] Ec4] Ec5]. destruct Ep as [[[[Ep1 Ep2] Ep3] Ep4] Ep5].
  apply Nat.eqb_eq in Ep1. rewrite app_length in Ep1. simpl in Ep1.
  destruct (nth_error (fins p) (List.length left)) as [old|] eqn:En; [|apply nth_error_None in En; lia].
  unfold compose_einsums. rewrite Hp, Hc. cbn [rb'].
  assert (Hl : List.length (fout c) = List.length old).
  { rewrite forallb_forall in Ep2. specialize (Ep2 (old, a)). simpl in Ep2.
    assert (Hin : In (old, a) (combine (fins p) (left ++ a :: right))).
    { apply nth_error_split in En as (l1 & l2 & E1 & E2). rewrite E1. rewrite <- E2 in *.
      clear -E2. revert left E2. induction l1 as [|x l1 IH]; intros [|y left] E2; simpl in *; try discriminate; [auto|]. right. apply IH. congruence. }
    apply Ep2 in Hin. apply Nat.eqb_eq in Hin. rewrite Hin, <- Ha. unfold tabulate. simpl. rewrite map_length. reflexivity. }
  assert (Hnd : NoDup (fout c)).
  { unfold nodupb in Ec4. destruct (list_eq_dec ascii_dec (nodup ascii_dec (fout c)) (fout c)) as [E|]; [|discriminate].
    rewrite <- E. apply NoDup_nodup. }
  destruct (compose_formula_ok p (List.length left) c old En Hl Hnd Hn) as (f & Hf & _).
  rewrite Hf. cbn [rb']. eauto.
Qed.
Print Assumptions C19_compose_einsums_returns.

(** Mismatched ranks raise ValueError. *)
Theorem C19_rank_mismatch :
  forall parent child p c num_left old,
    split_einsum_formula parent = inl p -> split_einsum_formula child = inl c ->
    nth_error (fins p) num_left = Some old -> List.length (fout c) <> List.length old ->
    compose_einsums parent num_left child = inr ValueErr.
Proof.
  intros parent child p c n old Hp Hc Hn Hl. unfold compose_einsums. rewrite Hp, Hc. cbn [rb']. unfold compose_formula. rewrite Hn.
  destruct (Nat.eqb_spec (List.length (fout c)) (List.length old)); [contradiction|reflexivity].
Qed.
Print Assumptions C19_rank_mismatch.

(** ** C20 *)
Section C20.
  Variables (K : Type) (k0 k1 : K) (kadd kmul : K -> K -> K).
  (** what the rule puts in place of the primitive: an Einsum with the formula string rendered from [f] *)
  Definition replaced_by (f : result formula) (ops : list (array K)) : result (array K) :=
    rb' f (fun f => einsum_str K k0 k1 kadd kmul (reconstitute_einsum_formula f) ops).
End C20.

Lemma clean_firstn n : forallb letter (firstn n einsum_letters) = true.
Proof.
  apply forallb_forall. intros x Hx. unfold letter. destruct (in_dec ascii_dec x einsum_letters) as [|N]; [reflexivity|].
  exfalso. apply N. rewrite <- (firstn_skipn n einsum_letters). apply in_or_app. auto.
Qed.
Lemma letters_at_incl l is r : letters_at l is = inl r -> incl r l.
Proof.
  revert r. induction is as [|i is IH]; intros r; simpl.
  - intros H; injection H as <-. intros x [].
  - unfold nth_letter. destruct (nth_error l i) eqn:E; [|discriminate]. cbn [rb']. destruct (letters_at l is) as [r'|]; [|discriminate].
    cbn [rb']. intros H; injection H as <-. intros x [<-|Hx]; [eapply nth_error_In; eassumption|]. exact (IH r' eq_refl x Hx).
Qed.
Lemma letter_spec a : letter a = true <-> In a einsum_letters.
Proof. unfold letter. destruct (in_dec ascii_dec a einsum_letters); split; intros; auto; discriminate. Qed.
Lemma forallb_incl {A} (p : A -> bool) l l' : incl l l' -> forallb p l' = true -> forallb p l = true.
Proof. rewrite !forallb_forall. auto. Qed.
Lemma transpose_clean n perm f : transpose_formula n perm = inl f -> clean f = true /\ fins f <> [].
Proof.
  unfold transpose_formula. destruct (letters_at _ perm) as [o|] eqn:E; [|discriminate]. cbn [rb']. intros H; injection H as <-.
  unfold clean. cbn [fins fout forallb]. rewrite clean_firstn. rewrite (forallb_incl _ _ _ (letters_at_incl _ _ _ E) (clean_firstn n)).
  split; [reflexivity|discriminate].
Qed.
Lemma drop_clean n dims f : drop_formula n dims = inl f -> clean f = true /\ fins f <> [].
Proof.
  unfold drop_formula. destruct (letters_at _ _) as [o|] eqn:E; [|discriminate]. cbn [rb']. intros H; injection H as <-.
  unfold clean. cbn [fins fout forallb]. rewrite clean_firstn. rewrite (forallb_incl _ _ _ (letters_at_incl _ _ _ E) (clean_firstn n)).
  split; [reflexivity|discriminate].
Qed.
Lemma set_nth_spec y j a y' : set_nth y j a = inl y' -> List.length y' = List.length y /\ incl y' (a :: y).
Proof.
  revert j y'. induction y as [|b y IH]; intros j y'; simpl; [discriminate|]. destruct j as [|j].
  - intros H; injection H as <-. split; [reflexivity|]. intros x [<-|Hx]; simpl; auto.
  - destruct (set_nth y j a) as [r|] eqn:E; [|discriminate]. cbn [rb']. intros H; injection H as <-.
    destruct (IH j r E) as [H1 H2]. split; [simpl; congruence|]. intros x [<-|Hx]; simpl; auto. destruct (H2 x Hx); simpl; auto.
Qed.
Lemma share_spec x ds : forall y y', share x y ds = inl y' -> List.length y' = List.length y /\ incl y' (x ++ y).
Proof.
  induction ds as [|[i j] ds IH]; intros y y'; simpl.
  - intros H; injection H as <-. split; [reflexivity|]. apply incl_appr, incl_refl.
  - unfold nth_letter. destruct (nth_error x i) eqn:E; [|discriminate]. cbn [rb']. destruct (set_nth y j a) as [y1|] eqn:E1; [|discriminate].
    cbn [rb']. intros H. destruct (IH _ _ H) as [H1 H2]. destruct (set_nth_spec _ _ _ _ E1) as [H3 H4]. split; [congruence|].
    intros z Hz. apply H2, in_app_or in Hz as [Hz|Hz]; [apply in_or_app; auto|]. apply H4 in Hz as [<-|Hz]; apply in_or_app; auto.
    left. eapply nth_error_In; eassumption.
Qed.
Lemma dot_clean nx ny xc yc xb yb f : dot_formula nx ny xc yc xb yb = inl f -> clean f = true /\ fins f <> [].
Proof.
  unfold dot_formula. destruct (share _ _ _) as [y|] eqn:Es; [|discriminate]. cbn [rb'].
  destruct (letters_at _ xb) as [o|] eqn:E; [|discriminate]. cbn [rb']. intros H; injection H as <-.
  assert (Hy : forallb letter y = true).
  { destruct (share_spec _ _ _ _ Es) as [_ Hi]. apply (forallb_incl _ _ _ Hi). rewrite forallb_app, clean_firstn. simpl.
    apply forallb_forall. intros a Ha. apply letter_spec. rewrite <- (firstn_skipn nx einsum_letters). apply in_or_app. right.
    rewrite <- (firstn_skipn ny (skipn nx einsum_letters)). apply in_or_app. auto. }
  unfold clean. cbn [fins fout forallb]. rewrite clean_firstn, Hy, !forallb_app.
  rewrite (forallb_incl _ _ _ (letters_at_incl _ _ _ E) (clean_firstn nx)).
  assert (F : forall (q : ascii -> bool) l, forallb letter l = true -> forallb letter (filter q l) = true).
  { intros q l. apply forallb_incl. intros z Hz. apply filter_In in Hz. tauto. }
  rewrite !F by auto using clean_firstn. split; [reflexivity|discriminate].
Qed.
Lemma replaced_inv K k0 k1 kadd kmul fr ops f : fr = inl f -> clean f = true /\ fins f <> [] ->
  replaced_by K k0 k1 kadd kmul fr ops = einsum K k0 k1 kadd kmul f ops.
Proof. intros -> [Hc Hn]. unfold replaced_by. cbn [rb']. apply einsum_str_render; assumption. Qed.

(** transpose by any permutation of at most 52 dimensions *)
Theorem C20_transpose :
  forall K k0 k1 kadd kmul, semi_ring_theory k0 k1 kadd kmul eq -> forall perm (x : array K),
    ndim K x <= 52 -> Permutation perm (seq 0 (ndim K x)) ->
    replaced_by K k0 k1 kadd kmul (transpose_formula (ndim K x) perm) [x] = inl (lax_transpose K k0 perm x).
Proof.
  intros K k0 k1 kadd kmul SR perm x Hn Hp.
  destruct (transpose_formula_ok (ndim K x) perm Hn) as (f & Hf).
  { intros i Hi. apply (Permutation_in _ Hp) in Hi. apply in_seq in Hi. lia. }
  rewrite (replaced_inv _ _ _ _ _ _ _ f Hf (transpose_clean _ _ _ Hf)). eapply transpose_einsum; eassumption.
Qed.
Print Assumptions C20_transpose.
(** squeeze of any set of dimensions of size 1 *)
Theorem C20_squeeze :
  forall K k0 k1 kadd kmul, semi_ring_theory k0 k1 kadd kmul eq -> forall dims (x : array K),
    ndim K x <= 52 -> (forall i, In i dims -> nth i (shape x) 0 = 1) ->
    replaced_by K k0 k1 kadd kmul (drop_formula (ndim K x) dims) [x] = inl (lax_squeeze K k0 dims x).
Proof.
  intros K k0 k1 kadd kmul SR dims x Hn Hd. pose proof (drop_formula_eq (ndim K x) dims Hn) as Hf.
  rewrite (replaced_inv _ _ _ _ _ _ _ _ Hf (drop_clean _ _ _ Hf)). eapply squeeze_einsum; eassumption.
Qed.
Print Assumptions C20_squeeze.
(** reduce_sum over any set of axes *)
Theorem C20_reduce_sum :
  forall K k0 k1 kadd kmul, semi_ring_theory k0 k1 kadd kmul eq -> forall axes (x : array K),
    ndim K x <= 52 ->
    replaced_by K k0 k1 kadd kmul (drop_formula (ndim K x) axes) [x] = inl (lax_reduce_sum K k0 kadd axes x).
Proof.
  intros K k0 k1 kadd kmul SR axes x Hn. pose proof (drop_formula_eq (ndim K x) axes Hn) as Hf.
  rewrite (replaced_inv _ _ _ _ _ _ _ _ Hf (drop_clean _ _ _ Hf)). eapply reduce_sum_einsum; eassumption.
Qed.
Print Assumptions C20_reduce_sum.
(** ** dot_general: the formula exists *)
Lemma set_nth_ok y j a : j < List.length y -> exists y', set_nth y j a = inl y'.
Proof.
  revert j. induction y as [|b y IH]; intros j Hj; simpl in *; [lia|]. destruct j as [|j]; [eauto|].
  destruct (IH j) as [y' E]; [lia|]. rewrite E. cbn [rb']. eauto.
Qed.
Lemma nth_letter_ok l i : i < List.length l -> exists a, nth_letter l i = inl a.
Proof. intros H. unfold nth_letter. destruct (nth_error l i) eqn:E; [eauto|]. apply nth_error_None in E. lia. Qed.
Lemma share_ok x ds : forall y, (forall i j, In (i, j) ds -> i < List.length x /\ j < List.length y) -> exists y', share x y ds = inl y'.
Proof.
  induction ds as [|[i j] ds IH]; intros y H; [simpl; eauto|]. cbn [share].
  destruct (H i j (or_introl eq_refl)) as [Hi Hj]. destruct (nth_letter_ok x i Hi) as [a Ea]. rewrite Ea. cbn [rb'].
  destruct (set_nth_ok y j a Hj) as [y1 E1]. rewrite E1. cbn [rb']. apply IH. intros i' j' Hin.
  destruct (set_nth_spec _ _ _ _ E1) as [-> _]. apply H. right. assumption.
Qed.
Lemma letters_at_ok l is : (forall i, In i is -> i < List.length l) -> exists r, letters_at l is = inl r.
Proof.
  induction is as [|i is IH]; intros H; [simpl; eauto|]. cbn [letters_at].
  destruct (nth_letter_ok l i) as [a Ea]; [apply H; simpl; auto|]. rewrite Ea. cbn [rb'].
  destruct IH as [r Er]; [intros j Hj; apply H; simpl; auto|]. rewrite Er. cbn [rb']. eauto.
Qed.
Lemma len_x n m : n + m <= 52 -> List.length (firstn n einsum_letters) = n.
Proof. intros H. rewrite firstn_length. change (List.length einsum_letters) with 52. lia. Qed.
Lemma len_y n m : n + m <= 52 -> List.length (firstn m (skipn n einsum_letters)) = m.
Proof. intros H. rewrite firstn_length, skipn_length. change (List.length einsum_letters) with 52. lia. Qed.

(** dot_general with any contracting and batch dimensions *)
Theorem C20_dot_general :
  forall K k0 k1 kadd kmul, semi_ring_theory k0 k1 kadd kmul eq -> forall xc yc xb yb (x y : array K),
    ndim K x + ndim K y <= 52 ->
    List.length xc = List.length yc -> List.length xb = List.length yb -> NoDup (xc ++ xb) -> NoDup (yc ++ yb) ->
    (forall i j, In (i, j) (combine (xc ++ xb) (yc ++ yb)) ->
       i < ndim K x /\ j < ndim K y /\ nth i (shape x) 0 = nth j (shape y) 0) ->
    replaced_by K k0 k1 kadd kmul (dot_formula (ndim K x) (ndim K y) xc yc xb yb) [x; y] =
    inl (lax_dot_general K k0 kadd kmul xc yc xb yb x y).
Proof.
  intros K k0 k1 kadd kmul SR xc yc xb yb x y Hn Hlc Hlb Hx Hy Hd.
  assert (exists f, dot_formula (ndim K x) (ndim K y) xc yc xb yb = inl f) as (f & Hf).
  { unfold dot_formula.
    destruct (share_ok (firstn (ndim K x) einsum_letters) (combine (xc ++ xb) (yc ++ yb)) (firstn (ndim K y) (skipn (ndim K x) einsum_letters))) as [y' E].
    { intros i j Hin. rewrite (len_x _ _ Hn), (len_y _ _ Hn). destruct (Hd i j Hin) as (? & ? & _). auto. }
    rewrite E. cbn [rb'].
    destruct (letters_at_ok (firstn (ndim K x) einsum_letters) xb) as [r Er].
    { intros i Hi. rewrite (len_x _ _ Hn). assert (Hi' : In i (xc ++ xb)) by (apply in_or_app; auto).
      assert (Hll : List.length (xc ++ xb) = List.length (yc ++ yb)) by (rewrite !app_length; lia).
      clear -Hi' Hll Hd. destruct (In_nth _ _ 0 Hi') as (k & Hk & E).
      specialize (Hd i (nth k (yc ++ yb) 0)). apply Hd. rewrite <- E at 1. rewrite <- (combine_nth _ _ k 0 0 Hll).
      apply nth_In. rewrite combine_length. lia. }
    rewrite Er. cbn [rb']. eauto. }
  rewrite (replaced_inv _ _ _ _ _ _ _ _ Hf (dot_clean _ _ _ _ _ _ _ Hf)). eapply dot_einsum; eassumption.
Qed.
Print Assumptions C20_dot_general.

(** Above 52 dimensions the rules do not give a wrong value: no Einsum they build evaluates at all. *)
Theorem C20_too_many_dimensions :
  forall K k0 k1 kadd kmul (x y : array K) perm dims xc yc xb yb,
    (52 < ndim K x ->
       (forall r, replaced_by K k0 k1 kadd kmul (transpose_formula (ndim K x) perm) [x] <> inl r) /\
       (forall r, replaced_by K k0 k1 kadd kmul (drop_formula (ndim K x) dims) [x] <> inl r)) /\
    (52 < ndim K x + ndim K y ->
       forall r, replaced_by K k0 k1 kadd kmul (dot_formula (ndim K x) (ndim K y) xc yc xb yb) [x; y] <> inl r).
Proof.
  assert (R : forall K k0 k1 kadd kmul ins out (ops : list (array K)) r,
    einsum K k0 k1 kadd kmul (mk_formula ins out) ops = inl r ->
    forallb (fun io => Nat.eqb (List.length (fst io)) (List.length (shape (snd io)))) (combine ins ops) = true).
  { intros K k0 k1 kadd kmul ins out ops r H. unfold einsum in H. cbn [fins fout] in H.
    destruct (einsum_ok K ins out ops) eqn:E; [|discriminate]. unfold einsum_ok in E. rewrite !andb_true_iff in E. tauto. }
  intros K k0 k1 kadd kmul x y perm dims xc yc xb yb. split.
  - intros Hn. assert (L : List.length (firstn (ndim K x) einsum_letters) <> ndim K x).
    { rewrite firstn_length. change (List.length einsum_letters) with 52. lia. }
    split; intros r.
    + destruct (transpose_formula (ndim K x) perm) as [f|] eqn:Hf; [|discriminate].
      rewrite (replaced_inv _ _ _ _ _ _ _ f eq_refl (transpose_clean _ _ _ Hf)).
      unfold transpose_formula in Hf. destruct (letters_at _ perm); [|discriminate]. cbn [rb'] in Hf. injection Hf as <-.
      intros H. apply R in H. cbn [combine forallb fst snd] in H. rewrite andb_true_r, Nat.eqb_eq in H. contradiction.
    + destruct (drop_formula (ndim K x) dims) as [f|] eqn:Hf; [|discriminate].
      rewrite (replaced_inv _ _ _ _ _ _ _ f eq_refl (drop_clean _ _ _ Hf)).
      unfold drop_formula in Hf. destruct (letters_at _ _); [|discriminate]. cbn [rb'] in Hf. injection Hf as <-.
      intros H. apply R in H. cbn [combine forallb fst snd] in H. rewrite andb_true_r, Nat.eqb_eq in H. contradiction.
  - intros Hn r. destruct (dot_formula (ndim K x) (ndim K y) xc yc xb yb) as [f|] eqn:Hf; [|discriminate].
    rewrite (replaced_inv _ _ _ _ _ _ _ f eq_refl (dot_clean _ _ _ _ _ _ _ Hf)).
    unfold dot_formula in Hf. destruct (share _ _ _) as [yl|] eqn:Es; [|discriminate]. cbn [rb'] in Hf.
    destruct (letters_at _ xb); [|discriminate]. cbn [rb'] in Hf. injection Hf as <-.
    apply share_spec in Es as [Es _]. rewrite firstn_length, skipn_length in Es. change (List.length einsum_letters) with 52 in Es.
    intros H. apply R in H. cbn [combine forallb fst snd] in H. rewrite !andb_true_iff, !Nat.eqb_eq in H.
    destruct H as (H1 & H2 & _). rewrite firstn_length in H1. change (List.length einsum_letters) with 52 in H1.
    unfold ndim in *. lia.
Qed.
Print Assumptions C20_too_many_dimensions.

(** ** C21 *)
Theorem C21_add_to_addn :
  forall K k0 kadd (x y : array K), addn K k0 kadd [x; y] = add_arrays K k0 kadd x y.
Proof. exact add_addn. Qed.
Print Assumptions C21_add_to_addn.
Theorem C21_addn_of_addn :
  forall K k0 k1 kadd kmul, semi_ring_theory k0 k1 kadd kmul eq ->
  forall (args1 child_args args2 : list (array K)) a r,
    addn K k0 kadd child_args = inl a -> addn K k0 kadd (args1 ++ a :: args2) = inl r ->
    addn K k0 kadd (args1 ++ child_args ++ args2) = inl r.
Proof. exact addn_of_addn. Qed.
Print Assumptions C21_addn_of_addn.

(** ** Concrete non-trivial cases *)
Definition Nsr : semi_ring_theory 0 1 Nat.add Nat.mul eq := natSRth.
Definition A23 : array nat := mk_array [2; 3] [1; 2; 3; 4; 5; 6].
Definition A32 : array nat := mk_array [3; 2] [1; 0; 2; 1; 0; 3].
Definition A2 : array nat := mk_array [2] [7; 9].
Notation estr s ops := (einsum_str nat 0 1 Nat.add Nat.mul (list_ascii_of_string s) ops).
Example C19_example :
  estr "ij,jk->ik" [A23; A32] = inl (mk_array [2; 2] [5; 11; 14; 23]) /\
  estr "a,ab->b" [A2; mk_array [2; 2] [5; 11; 14; 23]] = inl (mk_array [2] [161; 284]) /\
  compose_einsums (list_ascii_of_string "a,ab->b") 1 (list_ascii_of_string "ij,jk->ik") = inl (list_ascii_of_string "a,ac,cb->b") /\
  estr "a,ac,cb->b" [A2; A23; A32] = inl (mk_array [2] [161; 284]) /\
  compose_einsums (list_ascii_of_string "a,ab->b") 0 (list_ascii_of_string "ij,jk->ik") = inr ValueErr.
Proof. repeat split; vm_compute; reflexivity. Qed.
(** the diagonal: a repeated letter in the parent's input *)
Example C19_example_diag :
  compose_einsums (list_ascii_of_string "aa->") 0 (list_ascii_of_string "ij,jk->ik") = inl (list_ascii_of_string "ab,ba->") /\
  estr "ab,ba->" [A23; A32] = inl (mk_array [] [28]).
Proof. split; vm_compute; reflexivity. Qed.
Example C20_example :
  lax_transpose nat 0 [1; 0] A23 = mk_array [3; 2] [1; 4; 2; 5; 3; 6] /\
  lax_reduce_sum nat 0 Nat.add [0] A23 = mk_array [3] [5; 7; 9] /\
  lax_squeeze nat 0 [1] (mk_array [2; 1] [7; 9]) = A2 /\
  lax_dot_general nat 0 Nat.add Nat.mul [1] [0] [] [] A23 A32 = mk_array [2; 2] [5; 11; 14; 23] /\
  replaced_by nat 0 1 Nat.add Nat.mul (dot_formula 2 2 [1] [0] [] []) [A23; A32] = inl (mk_array [2; 2] [5; 11; 14; 23]) /\
  Permutation [1; 0] (seq 0 (ndim nat A23)).
Proof. repeat split; try (vm_compute; reflexivity). apply perm_swap. Qed.
Example C21_example :
  addn nat 0 Nat.add [A2; A2] = inl (mk_array [2] [14; 18]) /\
  addn nat 0 Nat.add [A2; mk_array [2] [14; 18]; A2] = inl (mk_array [2] [28; 36]) /\
  addn nat 0 Nat.add [A2; A2; A2; A2] = inl (mk_array [2] [28; 36]).
Proof. repeat split; vm_compute; reflexivity. Qed.
