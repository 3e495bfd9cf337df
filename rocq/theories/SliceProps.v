(** C34, C35: slices and cells of the inverse interpreter. *)
From Verif Require Export SliceModel.

(** ** Specification *)
(** the index i lies in the box *)
Definition in_box (sl : list slice) (i : list nat) : Prop := Forall2 (fun i s => start s <= i < stop s) i sl.
(** the box is a proper part of an array of shape sh *)
Definition box_in (sh : list nat) (sl : list slice) : Prop := Forall2 (fun n s => start s <= stop s /\ stop s <= n) sh sl.
(** shift an index of the small array into the big one *)
Definition shift (sl : list slice) (i : list nat) : list nat := map (fun p => start (fst p) + snd p) (combine sl i).
(** [a] is the part of the array [A] of shape [sh] in the box [sl] *)
Definition part {V} (sh : list nat) (A : list nat -> V) (sl : list slice) (a : arr V) : Prop :=
  box_in sh sl /\ a_shape a = map (fun s => stop s - start s) sl /\ forall i, inb (a_shape a) i -> a_get a i = A (shift sl i).
(** the NDSlice describes a part of a value and the same part of its ILDJ *)
Definition describes {V W} (sh : list nat) (A : list nat -> V) (J : list nat -> W) (s : ndslice V W) : Prop := part sh A (nd_slices s) (nd_value s) /\ part sh J (nd_slices s) (nd_ildj s).
Definition covers {V W} (s : ndslice V W) (i : list nat) : Prop := in_box (nd_slices s) i.

Lemma F2_length {X Y} (P : X -> Y -> Prop) l m : Forall2 P l m -> length l = length m.
Proof. induction 1; cbn; auto. Qed.
Lemma slice_eqb_eq s o : slice_eqb s o = true <-> s = o.
Proof. destruct s, o. unfold slice_eqb. cbn. rewrite andb_true_iff, !Nat.eqb_eq. split; [intros [-> ->]; reflexivity|intros E; injection E; auto]. Qed.
Lemma list_eqb_eq {X} (eqb : X -> X -> bool) : (forall x y, eqb x y = true <-> x = y) -> forall a b, list_eqb eqb a b = true <-> a = b.
Proof.
  intros He. induction a as [|x a IH]; intros [|y b]; cbn; split; try congruence; try reflexivity.
  - intros E. apply andb_true_iff in E as [E1 E2]. f_equal; [apply He, E1|apply IH, E2].
  - intros E. injection E as -> ->. apply andb_true_iff. split; [apply He; reflexivity|apply IH; reflexivity].
Qed.
Lemma slices_eqb_eq a b : list_eqb slice_eqb a b = true <-> a = b.
Proof. apply list_eqb_eq, slice_eqb_eq. Qed.
Lemma shape_eqb_eq a b : shape_eqb a b = true <-> a = b.
Proof. apply list_eqb_eq, Nat.eqb_eq. Qed.
Definition width (s : slice) : nat := stop s - start s.

Lemma cat_box sh : forall l1 l2 d, slices_can d l1 l2 = true -> d < length l1 -> box_in sh l1 -> box_in sh l2 -> box_in sh (slices_cat d l1 l2).
Proof.
  induction sh as [|n sh IH]; intros l1 l2 d Hc Hd B1 B2; inversion B1 as [|? s1 ? l1' H1 B1']; subst; [cbn in Hd; lia|]. inversion B2 as [|? s2 ? l2' H2 B2']; subst. cbn [slices_can slices_cat length] in *. destruct d as [|d].
  - apply andb_true_iff in Hc as [E _]. apply Nat.eqb_eq in E. constructor; [cbn [start stop fst snd]; unfold start, stop in *; lia|exact B1'].
  - apply andb_true_iff in Hc as [_ Hc]. constructor; [exact H1|]. apply IH; auto. lia.
Qed.
Lemma cat_shape : forall l1 l2 d sh, slices_can d l1 l2 = true -> d < length l1 -> box_in sh l1 -> box_in sh l2 ->
  add_at d (nth d (map width l2) 0) (map width l1) = map width (slices_cat d l1 l2).
Proof.
  induction l1 as [|s1 l1 IH]; intros l2 d sh Hc Hd B1 B2; [cbn in Hd; lia|]. destruct l2 as [|s2 l2]; [cbn in Hc; destruct d; discriminate Hc|]. inversion B1 as [|n ? sh' ? H1 B1']; subst. inversion B2 as [|? ? ? ? H2 B2']; subst. cbn [slices_can slices_cat length map nth add_at] in *. destruct d as [|d]; cbn [map nth add_at].
  - apply andb_true_iff in Hc as [E _]. apply Nat.eqb_eq in E. unfold width, start, stop in *. cbn. f_equal. unfold start, stop. lia.
  - apply andb_true_iff in Hc as [_ Hc]. f_equal. apply (IH l2 d sh'); auto. lia.
Qed.
Lemma cat_index : forall l1 l2 d sh i, slices_can d l1 l2 = true -> d < length l1 -> box_in sh l1 -> box_in sh l2 -> inb (map width (slices_cat d l1 l2)) i ->
  (nth d i 0 < nth d (map width l1) 0 -> inb (map width l1) i /\ shift (slices_cat d l1 l2) i = shift l1 i) /\
  (nth d (map width l1) 0 <= nth d i 0 -> inb (map width l2) (sub_at d (nth d (map width l1) 0) i) /\ shift (slices_cat d l1 l2) i = shift l2 (sub_at d (nth d (map width l1) 0) i)).
Proof.
  induction l1 as [|s1 l1 IH]; intros l2 d sh i Hc Hd B1 B2 Hi; [cbn in Hd; lia|]. destruct l2 as [|s2 l2]; [cbn in Hc; destruct d; discriminate Hc|]. inversion B1 as [|n ? sh' ? H1 B1']; subst. inversion B2 as [|? ? ? ? H2 B2']; subst. cbn [slices_can slices_cat length] in *. destruct d as [|d].
  - apply andb_true_iff in Hc as [E El]. apply Nat.eqb_eq in E. apply slices_eqb_eq in El as <-. cbn [map] in Hi. unfold inb in Hi. inversion Hi as [|x ? i' ? Hx Hi']; subst. cbn [map nth sub_at] in *. unfold width, start, stop in *. cbn [fst snd] in *. split; intros Hlt.
    + split; [constructor; [lia|exact Hi']|]. reflexivity.
    + split; [constructor; [lia|exact Hi']|]. unfold shift. cbn [combine map start fst snd]. f_equal. unfold start. lia.
  - apply andb_true_iff in Hc as [E Hc]. apply slice_eqb_eq in E as <-. cbn [map] in Hi. unfold inb in Hi. inversion Hi as [|x ? i' ? Hx Hi']; subst. cbn [map nth sub_at].
    destruct (IH l2 d sh' i' Hc ltac:(lia) B1' B2' Hi') as [I1 I2]. split; intros Hlt.
    + destruct (I1 Hlt) as [J1 J2]. split; [constructor; assumption|]. unfold shift in *. cbn [combine map]. rewrite J2. reflexivity.
    + destruct (I2 Hlt) as [J1 J2]. split; [constructor; assumption|]. unfold shift in *. cbn [combine map]. rewrite J2. reflexivity.
Qed.
Lemma cat_covers : forall l1 l2 d sh i, slices_can d l1 l2 = true -> d < length l1 -> box_in sh l1 -> box_in sh l2 -> in_box (slices_cat d l1 l2) i <-> in_box l1 i \/ in_box l2 i.
Proof.
  induction l1 as [|s1 l1 IH]; intros l2 d sh i Hc Hd B1 B2; [cbn in Hd; lia|]. destruct l2 as [|s2 l2]; [cbn in Hc; destruct d; discriminate Hc|]. inversion B1 as [|n ? sh' ? H1 B1']; subst. inversion B2 as [|? ? ? ? H2 B2']; subst. cbn [slices_can slices_cat length] in *. destruct d as [|d].
  - apply andb_true_iff in Hc as [E El]. apply Nat.eqb_eq in E. apply slices_eqb_eq in El as <-. unfold in_box. split.
    + intros H. inversion H as [|x ? i' ? Hx Hi]; subst. unfold start, stop in *. cbn [fst snd] in *. destruct (Nat.lt_ge_cases x (snd s1)); [left|right]; constructor; auto; lia.
    + intros [H|H]; inversion H as [|x ? i' ? Hx Hi]; subst; constructor; auto; unfold start, stop in *; cbn [fst snd] in *; lia.
  - apply andb_true_iff in Hc as [E Hc]. apply slice_eqb_eq in E as <-. unfold in_box in *. split.
    + intros H. inversion H as [|x ? i' ? Hx Hi]; subst. apply (IH l2 d sh') in Hi; auto; [|lia]. destruct Hi; [left|right]; constructor; auto.
    + intros [H|H]; inversion H as [|x ? i' ? Hx Hi]; subst; constructor; auto; apply (IH l2 d sh'); auto; lia.
Qed.
Lemma part_cat {V} sh (A : list nat -> V) l1 l2 d a b : slices_can d l1 l2 = true -> d < length l1 -> part sh A l1 a -> part sh A l2 b -> part sh A (slices_cat d l1 l2) (cat d a b).
Proof.
  intros Hc Hd (B1 & S1 & G1) (B2 & S2 & G2). fold width in S1, S2. split; [apply cat_box; assumption|]. split.
  - cbn [cat a_shape]. rewrite S1, S2. eapply cat_shape; eassumption.
  - intros i Hi. cbn [cat a_shape a_get] in *. rewrite S1, S2 in *. change (fun s : slice => stop s - start s) with width in *. erewrite cat_shape in Hi by eassumption. destruct (cat_index l1 l2 d sh i Hc Hd B1 B2 Hi) as [I1 I2].
    destruct (Nat.ltb_spec (nth d i 0) (nth d (map width l1) 0)) as [Hlt|Hge].
    + destruct (I1 Hlt) as [J1 ->]. apply G1, J1.
    + destruct (I2 Hge) as [J1 ->]. apply G2, J1.
Qed.

(** ** C34 *)
Section C34.
  Context {V W : Type}.
  Variables (sh : list nat) (A : list nat -> V) (J : list nat -> W).
  Theorem C34_concatenate (s o : ndslice V W) d : describes sh A J s -> describes sh A J o -> can_concatenate V W s o d = true -> d < length sh ->
    exists r, concatenate V W s o d = Ok r /\ describes sh A J r /\ forall i, covers r i <-> covers s i \/ covers o i.
  Proof.
    intros [P1 Q1] [P2 Q2] Hc Hd. assert (Hl : d < length (nd_slices s)). { destruct P1 as (B & _). clear -B Hd. unfold box_in in B. apply F2_length in B. congruence. }
    exists (cat_nd V W s o d). unfold concatenate. rewrite Hc. apply Nat.ltb_lt in Hl as ->. split; [reflexivity|]. apply Nat.ltb_lt in Hl || idtac.
    assert (Hl : d < length (nd_slices s)). { destruct P1 as (B & _). clear -B Hd. unfold box_in in B. apply F2_length in B. congruence. }
    split; [split; cbn [cat_nd nd_slices nd_value nd_ildj]; apply part_cat; assumption|]. intros i. destruct P1 as (B1 & _), P2 as (B2 & _). apply (cat_covers _ _ d sh); assumption.
  Qed.
  Theorem C34_raises (s o : ndslice V W) d : can_concatenate V W s o d = false -> concatenate V W s o d = Err.
  Proof. unfold concatenate. intros ->. reflexivity. Qed.
  (** what can_concatenate means *)
  Theorem C34_can_concatenate (s o : ndslice V W) d : d < length (nd_slices s) ->
    (can_concatenate V W s o d = true <-> length (nd_slices s) = length (nd_slices o) /\
      forall k x y, nth_error (nd_slices s) k = Some x -> nth_error (nd_slices o) k = Some y -> if Nat.eqb k d then stop x = start y else x = y).
  Proof.
    unfold can_concatenate. generalize (nd_slices s), (nd_slices o). intros l1. revert d. induction l1 as [|s1 l1 IH]; intros d l2 Hd; [cbn in Hd; lia|]. destruct l2 as [|s2 l2]; cbn [slices_can length].
    - split; [discriminate|intros [E _]; discriminate].
    - cbn in Hd. destruct d as [|d]; rewrite andb_true_iff.
      + rewrite Nat.eqb_eq, slices_eqb_eq. split.
        * intros [E <-]. split; [reflexivity|]. intros k x y Hx Hy. destruct k as [|k]; cbn in *; [injection Hx as <-; injection Hy as <-; exact E|congruence].
        * intros [El H]. split; [apply (H 0 s1 s2); reflexivity|]. clear Hd IH. injection El as El. assert (Hk : forall k x y, nth_error l1 k = Some x -> nth_error l2 k = Some y -> x = y) by (intros k; apply (H (S k))). clear H. revert l2 El Hk. induction l1 as [|x l1 IH]; intros [|y l2] El Hk; try discriminate; [reflexivity|]. f_equal; [apply (Hk 0); reflexivity|]. apply IH; [cbn in El; lia|]. intros k. apply (Hk (S k)).
      + rewrite slice_eqb_eq, (IH d l2) by lia. split.
        * intros [-> [El H]]. split; [congruence|]. intros k x y Hx Hy. destruct k as [|k]; cbn in *; [congruence|]. apply (H k); assumption.
        * intros [El H]. split; [apply (H 0 s1 s2); reflexivity|]. split; [lia|]. intros k. apply (H (S k)).
  Qed.
  (** a slice with the shape of the array is the whole array *)
  Theorem C34_full (s : ndslice V W) : describes sh A J s -> a_shape (nd_value s) = sh ->
    forall i, inb sh i -> covers s i /\ a_get (nd_value s) i = A i /\ a_get (nd_ildj s) i = J i.
  Proof.
    intros [(B & S1 & G1) (_ & S2 & G2)] Hs i Hi. rewrite S1 in G1. rewrite S2 in G2. rewrite S1 in Hs.
    assert (K : covers s i /\ shift (nd_slices s) i = i /\ inb (map (fun s => stop s - start s) (nd_slices s)) i).
    { unfold covers. clear G1 G2 S1 S2. revert sh B Hs i Hi. induction (nd_slices s) as [|x l IH]; intros sh' B Hs i Hi; destruct sh' as [|n sh']; try discriminate Hs; try (inversion B; fail).
      - inversion Hi; subst. repeat split; constructor.
      - inversion B as [|? ? ? ? B1 B2]; inversion Hi as [|m ? i' ? I1 I2]; subst. cbn [map] in Hs. injection Hs as E1 E2. destruct (IH sh' B2 E2 i' I2) as (J1 & J2 & J3). split; [constructor; [lia|exact J1]|].
        split; [unfold shift in *; cbn [combine map fst snd]; rewrite J2; f_equal; lia|]. constructor; [lia|exact J3]. }
    destruct K as (K1 & K2 & K3). split; [exact K1|]. rewrite (G1 i K3), (G2 i K3), K2. auto.
  Qed.
  (** NDSlice.new describes the whole array *)
  Theorem C34_new (v : arr V) (j : arr W) : a_shape v = sh -> a_shape j = sh -> (forall i, inb sh i -> a_get v i = A i /\ a_get j i = J i) ->
    describes sh A J (nd_new V W v j) /\ forall i, inb sh i <-> covers (nd_new V W v j) i.
  Proof.
    intros E1 E2 H. assert (B : box_in sh (map (fun n => (0, n)) sh)) by (clear; induction sh; cbn; constructor; auto; cbn; lia).
    assert (S' : map (fun s => stop s - start s) (map (fun n => (0, n)) sh) = sh) by (rewrite map_map; clear; induction sh as [|n l IH]; [reflexivity|]; cbn [map]; rewrite IH; f_equal; cbn; lia).
    assert (X : forall i, inb sh i -> shift (map (fun n => (0, n)) sh) i = i) by (intros i Hi; unfold inb in Hi; clear -Hi; unfold shift; induction Hi; cbn in *; [reflexivity|rewrite IHHi; reflexivity]).
    split.
    - unfold describes, nd_new. cbn [nd_value nd_ildj nd_slices]. rewrite E1. split; (split; [exact B|]; split; [congruence|]; intros i Hi); [rewrite E1 in Hi|rewrite E2 in Hi]; rewrite (X i Hi); apply H, Hi.
    - intros i. unfold covers, nd_new. cbn [nd_slices]. rewrite E1. unfold inb, in_box. clear. revert i. induction sh as [|n l IH]; intros i; split; intros Hi; inversion Hi; subst; constructor; try (apply IH; assumption); cbn in *; lia.
  Qed.
End C34.

(** ** C35 *)
Section C35.
  Context {V W : Type}.
  Variables (sh : list nat) (A : list nat -> V) (J : list nat -> W).
  Notation ndslice := (ndslice V W).
  Notation cell := (cell V W).
  (** the cell describes parts of the array *)
  Definition sound (c : cell) : Prop := c_aval c = sh /\ Forall (describes sh A J) (c_slices c).
  (** the indices known by the cell *)
  Definition known (c : cell) (i : list nat) : Prop := exists s, In s (c_slices c) /\ covers s i.
  (** comparisons of slices of the two cells that hold are containments of boxes *)
  Definition coherent (c o : cell) : Prop := forall s t, In s (c_slices c ++ c_slices o) -> In t (c_slices c ++ c_slices o) -> nd_lt V W s t = true -> forall i, covers s i -> covers t i.
  Variable ord : list ndslice -> list ndslice.
  Hypothesis ordp : forall l, Permutation l (ord l).
  Notation join := (join V W ord).

  Lemma set_add_in l (s x : ndslice) : In x (set_add V W l s) -> In x l \/ x = s.
  Proof using. clear. unfold set_add. destruct (existsb _ l); [auto|]. rewrite in_app_iff. cbn. intuition. Qed.
  Lemma set_union_in (m l : list ndslice) x : In x (set_union V W l m) -> In x l \/ In x m.
  Proof using. clear. revert l. induction m as [|s m IH]; intros l H; [auto|]. cbn in H. apply IH in H as [H|H]; [|right; right; exact H]. apply set_add_in in H as [H| ->]; cbn; auto. Qed.
  Lemma set_add_covers l (s : ndslice) i : (exists x, In x l /\ covers x i) \/ covers s i -> exists x, In x (set_add V W l s) /\ covers x i.
  Proof.
    unfold set_add. destruct (existsb (nd_eqb V W s) l) eqn:E.
    - intros [H|H]; [exact H|]. apply existsb_exists in E as (x & Hx & E). exists x. split; [exact Hx|]. unfold nd_eqb in E. apply slices_eqb_eq in E. unfold covers in *. rewrite <- E. exact H.
    - intros [(x & Hx & H)|H]; [exists x|exists s]; (split; [|exact H]); apply in_or_app; cbn; auto.
  Qed.
  Lemma set_union_covers (m l : list ndslice) i : (exists x, In x l /\ covers x i) \/ (exists x, In x m /\ covers x i) -> exists x, In x (set_union V W l m) /\ covers x i.
  Proof.
    revert l. induction m as [|s m IH]; intros l H; cbn.
    - destruct H as [H|(x & [] & _)]. exact H.
    - apply IH. destruct H as [(x & Hx & H)|(x & [->|Hx] & H)]; [left|left|right; eauto]; apply set_add_covers; eauto.
  Qed.
  Lemma insert_perm (s : ndslice) l : Permutation (s :: l) (insert V W s l).
  Proof. induction l as [|t l IH]; [apply Permutation_refl|]. cbn [insert]. destruct (lex_leb _ _); [apply Permutation_refl|]. etransitivity; [apply perm_swap|]. apply perm_skip, IH. Qed.
  Lemma sort_perm l : Permutation l (sort V W l).
  Proof. induction l as [|s l IH]; [constructor|]. cbn [sort fold_right]. etransitivity; [apply perm_skip, IH|]. apply insert_perm. Qed.
  Lemma find_dim_spec (s o : ndslice) n d : find_dim V W s o n = Some d -> can_concatenate V W s o d = true /\ d < n.
  Proof. unfold find_dim. intros H. apply find_some in H as [H1 H2]. apply in_seq in H1. split; [exact H2|lia]. Qed.
  Lemma cat_nd_ok (s o : ndslice) d : describes sh A J s -> describes sh A J o -> can_concatenate V W s o d = true -> d < length sh ->
    describes sh A J (cat_nd V W s o d) /\ forall i, covers (cat_nd V W s o d) i <-> covers s i \/ covers o i.
  Proof.
    intros H1 H2 Hc Hd. destruct (C34_concatenate sh A J s o d H1 H2 Hc Hd) as (r & Hr & X). unfold concatenate in Hr. rewrite Hc in Hr. destruct (d <? length (nd_slices s)); [|discriminate]. injection Hr as <-. exact X.
  Qed.
  Lemma merge_ok rest : forall active out, describes sh A J active -> Forall (describes sh A J) rest -> Forall (describes sh A J) out ->
    Forall (describes sh A J) (merge V W (length sh) active rest out) /\
    forall i, covers active i \/ (exists x, In x rest /\ covers x i) \/ (exists x, In x out /\ covers x i) -> exists x, In x (merge V W (length sh) active rest out) /\ covers x i.
  Proof.
    induction rest as [|s rest IH]; intros active out Ha Hr Ho; cbn [merge].
    - split.
      + apply Forall_forall. intros x Hx. apply set_add_in in Hx as [Hx| ->]; [|exact Ha]. rewrite Forall_forall in Ho. auto.
      + intros i H. apply set_add_covers. destruct H as [H|[(x & [] & _)|H]]; auto.
    - inversion Hr as [|? ? Hs Hr']; subst. destruct (find_dim V W active s (length sh)) as [d|] eqn:Ef.
      + apply find_dim_spec in Ef as [Hc Hd]. destruct (cat_nd_ok active s d Ha Hs Hc Hd) as [D C]. destruct (IH _ out D Hr' Ho) as [I1 I2]. split; [exact I1|]. intros i H. apply I2. rewrite C.
        destruct H as [H|[(x & [->|Hx] & H)|H]]; eauto.
      + destruct (IH s (set_add V W out active) Hs Hr') as [I1 I2].
        * apply Forall_forall. intros x Hx. apply set_add_in in Hx as [Hx| ->]; [|exact Ha]. rewrite Forall_forall in Ho. auto.
        * split; [exact I1|]. intros i H. apply I2. destruct H as [H|[(x & [->|Hx] & H)|H]]; eauto; right; right; apply set_add_covers; auto.
  Qed.
  Theorem C35_sound (c o : cell) : sound c -> sound o -> sound (join c o).
  Proof.
    intros [E1 F1] [E2 F2]. unfold SliceModel.join. destruct (top V W o); [split; assumption|]. destruct (bottom V W o); [split; assumption|]. destruct (cell_eqb V W c o); [split; assumption|]. destruct (cell_lt V W o c); [split; assumption|]. destruct (cell_lt V W c o); [split; assumption|].
    pose proof (sort_perm (ord (set_union V W (c_slices c) (c_slices o)))) as P. pose proof (ordp (set_union V W (c_slices c) (c_slices o))) as P'.
    assert (F : Forall (describes sh A J) (sort V W (ord (set_union V W (c_slices c) (c_slices o))))).
    { apply Forall_forall. intros x Hx. apply (Permutation_in x (Permutation_sym P)) in Hx. apply (Permutation_in x (Permutation_sym P')) in Hx. apply set_union_in in Hx. rewrite Forall_forall in F1, F2. destruct Hx; auto. }
    destruct (sort V W _) as [|s rest]; [split; assumption|]. inversion F as [|? ? Hs Hr]. split; [exact E1|]. cbn [c_slices]. rewrite E1. apply merge_ok; auto.
  Qed.
  Lemma top_known (c : cell) i : sound c -> top V W c = true -> inb sh i -> known c i.
  Proof.
    intros [E F] Ht Hi. unfold top in Ht. destruct (c_slices c) as [|s [|]] eqn:Es; try discriminate. apply shape_eqb_eq in Ht. inversion F as [|? ? Hd Hdn]. exists s. rewrite Es. split; [left; reflexivity|]. rewrite E in Ht. apply (C34_full sh A J s Hd Ht i Hi).
  Qed.
  Lemma known_inb (c : cell) i : sound c -> known c i -> inb sh i.
  Proof.
    intros [E F] (s & Hs & Hc). rewrite Forall_forall in F. destruct (F s Hs) as [(B & _) _]. unfold covers, in_box, box_in, inb in *. clear -B Hc. revert i Hc. induction B as [|n x sh l Hx B IH]; intros i Hc; inversion Hc; subst; constructor; [lia|]. apply IH. assumption.
  Qed.
  Lemma cell_lt_known (c o : cell) i : (forall s t, In s (c_slices c) -> In t (c_slices o) -> nd_lt V W s t = true -> forall i, covers s i -> covers t i) -> cell_lt V W c o = true -> known c i -> known o i.
  Proof.
    intros H Hl (s & Hs & Hc). unfold cell_lt in Hl. destruct (top V W c || bottom V W o); [discriminate|]. rewrite forallb_forall in Hl. specialize (Hl s Hs). apply existsb_exists in Hl as (t & Ht & Hl). exists t. split; [exact Ht|]. eapply H; eassumption.
  Qed.
  Theorem C35_covers_partial (c o : cell) : sound c -> sound o -> coherent c o -> forall i, known c i \/ known o i -> known (join c o) i.
  Proof.
    intros S1 S2 Hco i Hk. pose proof S1 as [E1 F1]. pose proof S2 as [E2 F2]. unfold SliceModel.join. destruct (top V W o) eqn:Et.
    { destruct Hk as [Hk|Hk]; [|exact Hk]. apply top_known; auto. eapply known_inb; [exact S1|exact Hk]. }
    destruct (bottom V W o) eqn:Eb. { destruct Hk as [Hk|(s & Hs & _)]; [exact Hk|]. unfold bottom in Eb. destruct (c_slices o); [destruct Hs|discriminate]. }
    destruct (cell_eqb V W c o) eqn:Ee.
    { destruct Hk as [Hk|(s & Hs & Hc)]; [exact Hk|]. unfold cell_eqb in Ee. apply andb_true_iff in Ee as [_ Ee]. unfold sub_set in Ee. rewrite forallb_forall in Ee. specialize (Ee s Hs). apply existsb_exists in Ee as (t & Ht & Ee). exists t. split; [exact Ht|]. unfold nd_eqb in Ee. apply slices_eqb_eq in Ee. unfold covers in *. rewrite <- Ee. exact Hc. }
    destruct (cell_lt V W o c) eqn:El1. { destruct Hk as [Hk|Hk]; [exact Hk|]. eapply cell_lt_known; [|exact El1|exact Hk]. intros s t Hs Ht. apply Hco; apply in_or_app; auto. }
    destruct (cell_lt V W c o) eqn:El2. { destruct Hk as [Hk|Hk]; [|exact Hk]. eapply cell_lt_known; [|exact El2|exact Hk]. intros s t Hs Ht. apply Hco; apply in_or_app; auto. }
    pose proof (sort_perm (ord (set_union V W (c_slices c) (c_slices o)))) as P. pose proof (ordp (set_union V W (c_slices c) (c_slices o))) as P'.
    assert (F : Forall (describes sh A J) (sort V W (ord (set_union V W (c_slices c) (c_slices o))))).
    { apply Forall_forall. intros x Hx. apply (Permutation_in x (Permutation_sym P)) in Hx. apply (Permutation_in x (Permutation_sym P')) in Hx. apply set_union_in in Hx. rewrite Forall_forall in F1, F2. destruct Hx; auto. }
    destruct (set_union_covers (c_slices o) (c_slices c) i) as (x & Hx & Hc); [destruct Hk as [(s & ? & ?)|(s & ? & ?)]; [left|right]; eauto|].
    apply (Permutation_in x P') in Hx. apply (Permutation_in x P) in Hx.
    destruct (sort V W _) as [|s rest]; [destruct Hx|]. inversion F as [|? ? Hs Hr]. destruct (merge_ok rest s [] Hs Hr (Forall_nil _)) as [_ M]. unfold known. cbn [c_slices]. rewrite E1. apply M. destruct Hx as [->|Hx]; eauto.
  Qed.
  (** one-dimensional arrays always satisfy the condition *)
  Theorem C35_rank1 (c o : cell) : length sh = 1 -> sound c -> sound o -> sound (join c o) /\ forall i, known c i \/ known o i -> known (join c o) i.
  Proof.
    intros Hr S1 S2. split; [apply C35_sound; assumption|]. apply C35_covers_partial; auto. intros s t Hs Ht Hl i Hc.
    assert (K : forall x, In x (c_slices c ++ c_slices o) -> exists p, nd_slices x = [p]).
    { intros x Hx. assert (D : describes sh A J x). { apply in_app_or in Hx. destruct S1 as [_ F1], S2 as [_ F2]. rewrite Forall_forall in F1, F2. destruct Hx; auto. }
      destruct D as [(B & _) _]. apply F2_length in B. destruct (nd_slices x) as [|p [|]]; cbn in B; try lia. exists p. reflexivity. }
    destruct (K s Hs) as [p Ep], (K t Ht) as [q Eq]. unfold nd_lt in Hl. rewrite Ep, Eq in Hl. cbn [slices_lt orb] in Hl. unfold covers, in_box in *. rewrite Ep in Hc. rewrite Eq. inversion Hc as [|x ? l ? Hx Hn]; subst. inversion Hn; subst. constructor; [|constructor].
    destruct (slice_eqb p q) eqn:Eqb; [discriminate|]. destruct (slice_lt q p); [discriminate|]. unfold slice_lt in Hl. apply orb_true_iff in Hl as [Hl|Hl]; apply andb_true_iff in Hl as [H1 H2]; rewrite ?Nat.ltb_lt, ?Nat.leb_le in *; lia.
  Qed.
  (** nothing is invented *)
  Theorem C35_nothing_invented (c o : cell) i : sound c -> sound o -> known (join c o) i -> known c i \/ known o i.
  Proof.
    intros [E1 F1] [E2 F2]. unfold SliceModel.join. destruct (top V W o); [auto|]. destruct (bottom V W o); [auto|]. destruct (cell_eqb V W c o); [auto|]. destruct (cell_lt V W o c); [auto|]. destruct (cell_lt V W c o); [auto|].
    pose proof (sort_perm (ord (set_union V W (c_slices c) (c_slices o)))) as P. pose proof (ordp (set_union V W (c_slices c) (c_slices o))) as P'.
    assert (G : forall x, In x (sort V W (ord (set_union V W (c_slices c) (c_slices o)))) -> describes sh A J x /\ (In x (c_slices c) \/ In x (c_slices o))).
    { intros x Hx. apply (Permutation_in x (Permutation_sym P)) in Hx. apply (Permutation_in x (Permutation_sym P')) in Hx. apply set_union_in in Hx. rewrite Forall_forall in F1, F2. destruct Hx; auto. }
    destruct (sort V W _) as [|s rest]; [auto|]. unfold known at 1. cbn [c_slices]. rewrite E1.
    assert (M : forall rest active out, describes sh A J active -> Forall (describes sh A J) rest -> forall x, In x (merge V W (length sh) active rest out) -> covers x i -> covers active i \/ (exists y, In y rest /\ covers y i) \/ exists y, In y out /\ covers y i).
    { clear. induction rest as [|s rest IH]; intros active out Ha Hr x Hx Hc; cbn [merge] in Hx.
      - apply set_add_in in Hx as [Hx| ->]; eauto.
      - inversion Hr as [|? ? Hs Hr']; subst. destruct (find_dim V W active s (length sh)) as [d|] eqn:Ef.
        + apply find_dim_spec in Ef as [H1 H2]. destruct (cat_nd_ok active s d Ha Hs H1 H2) as [D C]. destruct (IH _ _ D Hr' x Hx Hc) as [H|[(y & Hy & H)|(y & Hy & H)]].
          * apply C in H as [H|H]; [auto|]. right. left. exists s. split; [left; reflexivity|exact H].
          * right. left. exists y. split; [right; exact Hy|exact H].
          * right. right. eauto.
        + destruct (IH _ _ Hs Hr' x Hx Hc) as [H|[(y & Hy & H)|(y & Hy & H)]].
          * right. left. exists s. split; [left; reflexivity|exact H].
          * right. left. exists y. split; [right; exact Hy|exact H].
          * apply set_add_in in Hy as [Hy| ->]; eauto. }
    intros (x & Hx & Hc). destruct (M rest s [] (proj1 (G s (or_introl eq_refl))) ltac:(apply Forall_forall; intros y Hy; apply G; right; exact Hy) x Hx Hc) as [H|[(y & Hy & H)|(y & [] & _)]].
    - destruct (proj2 (G s (or_introl eq_refl))); [left|right]; exists s; auto.
    - destruct (proj2 (G y (or_intror Hy))); [left|right]; exists y; auto.
  Qed.
End C35.

(** ** Examples and the counterexample *)
(** the array A[i,j] = 10 i + j of shape (3, 3), with ILDJ 100 + A *)
Definition exA (i : list nat) : nat := match i with [a; b] => 10 * a + b | _ => 0 end.
Definition exJ (i : list nat) : nat := 100 + exA i.
Definition ex_part (sl : list slice) : ndslice nat nat :=
  let shp := map (fun s => stop s - start s) sl in mk_nd (mk_arr shp (fun i => exA (shift sl i))) (mk_arr shp (fun i => exJ (shift sl i))) sl.
Lemma ex_describes sl : box_in [3; 3] sl -> describes [3; 3] exA exJ (ex_part sl).
Proof. intros H. split; (split; [exact H|]; split; [reflexivity|]; intros i Hi; reflexivity). Qed.
Definition cell_a : cell nat nat := mk_cell [3; 3] [ex_part [(0, 2); (0, 1)]].
Definition cell_b : cell nat nat := mk_cell [3; 3] [ex_part [(1, 3); (0, 3)]].
Ltac box := unfold box_in; repeat (constructor; [cbn; lia|]); constructor.
(** the slices of rows 0-1, column 0 and of rows 1-2, all columns: joining them loses the element (0, 0) *)
Theorem C35_join_loses_refuted : sound [3; 3] exA exJ cell_a /\ sound [3; 3] exA exJ cell_b /\ known cell_a [0; 0] /\
  join nat nat (fun l => l) cell_a cell_b = cell_b /\ join nat nat (fun l => l) cell_b cell_a = cell_b /\ ~ known cell_b [0; 0].
Proof.
  split; [split; [reflexivity|]; constructor; [apply ex_describes; box|constructor]|]. split; [split; [reflexivity|]; constructor; [apply ex_describes; box|constructor]|]. split.
  - exists (ex_part [(0, 2); (0, 1)]). split; [left; reflexivity|]. unfold covers, in_box. cbn. repeat constructor; cbn; lia.
  - split; [reflexivity|]. split; [reflexivity|]. intros (s & [<-|[]] & Hc). unfold covers, in_box in Hc. cbn in Hc. inversion Hc; subst. cbn in *. lia.
Qed.
(** non-trivial joins that reconstruct the whole array *)
Theorem C35_example : let c := mk_cell [3; 3] [ex_part [(0, 1); (0, 3)]; ex_part [(2, 3); (0, 3)]] in let o := mk_cell [3; 3] [ex_part [(1, 2); (0, 3)]] in
  sound [3; 3] exA exJ c /\ sound [3; 3] exA exJ o /\ coherent c o /\ top nat nat (join nat nat (fun l => rev l) c o) = true.
Proof.
  cbv zeta. split; [split; [reflexivity|]; repeat (constructor; [apply ex_describes; box|]); constructor|]. split; [split; [reflexivity|]; repeat (constructor; [apply ex_describes; box|]); constructor|]. split; [|reflexivity].
  intros s t Hs Ht Hl i Hc. cbn in Hs, Ht. repeat (destruct Hs as [<-|Hs]; [repeat (destruct Ht as [<-|Ht]; [discriminate Hl|]); destruct Ht|]). destruct Hs.
Qed.
Print Assumptions C34_concatenate.
Print Assumptions C35_covers_partial.
Print Assumptions C35_nothing_invented.
