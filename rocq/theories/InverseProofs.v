(** Soundness of the inverse interpreter: every cell holds only parts of the true value. *)
From Verif Require Export InverseSpec.

Lemma aeq_refl {X} (a : arr X) : aeq a a. Proof. split; auto. Qed.
Lemma aeq_sym {X} (a b : arr X) : aeq a b -> aeq b a.
Proof. intros [E G]. split; [auto|]. intros i Hi. rewrite <- E in Hi. symmetry. auto. Qed.
Lemma aeq_trans {X} (a b c : arr X) : aeq a b -> aeq b c -> aeq a c.
Proof. intros [E G] [E' G']. split; [congruence|]. intros i Hi. rewrite G by exact Hi. apply G'. rewrite <- E. exact Hi. Qed.
Lemma F2_aeq_refl {X} (l : list (arr X)) : Forall2 aeq l l. Proof. induction l; constructor; auto using aeq_refl. Qed.
Lemma F2_aeq_sym {X} (l m : list (arr X)) : Forall2 aeq l m -> Forall2 aeq m l. Proof. induction 1; constructor; auto using aeq_sym. Qed.
Lemma F2_aeq_trans {X} (l m n : list (arr X)) : Forall2 aeq l m -> Forall2 aeq m n -> Forall2 aeq l n.
Proof. intros H. revert n. induction H; intros n Hn; inversion Hn; subst; constructor; eauto using aeq_trans. Qed.
Lemma F2_imp {X Y} (P Q : X -> Y -> Prop) l m : (forall x y, P x y -> Q x y) -> Forall2 P l m -> Forall2 Q l m.
Proof. intros H. induction 1; constructor; auto. Qed.
Lemma F2_skipn {X Y} (P : X -> Y -> Prop) n l m : Forall2 P l m -> Forall2 P (skipn n l) (skipn n m).
Proof. intros H. revert n. induction H; intros [|n]; cbn; auto. Qed.
Lemma F2_firstn {X Y} (P : X -> Y -> Prop) n l m : Forall2 P l m -> Forall2 P (firstn n l) (firstn n m).
Proof. intros H. revert n. induction H; intros [|n]; cbn; auto. Qed.
Lemma F2_map_r {X Y Z} (P : X -> Z -> Prop) (f : Y -> Z) l m : Forall2 (fun x y => P x (f y)) l m -> Forall2 P l (map f m).
Proof. induction 1; cbn; auto. Qed.
Lemma F2_map_l {X Y Z} (P : Z -> Y -> Prop) (f : X -> Z) l m : Forall2 (fun x y => P (f x) y) l m -> Forall2 P (map f l) m.
Proof. induction 1; cbn; auto. Qed.
Lemma F2_flip {X Y} (P : X -> Y -> Prop) l m : Forall2 P l m -> Forall2 (fun y x => P x y) m l.
Proof. induction 1; auto. Qed.
Lemma F2_comp {X Y Z} (P : X -> Y -> Prop) (Q : Y -> Z -> Prop) (R : X -> Z -> Prop) l m n : (forall x y z, P x y -> Q y z -> R x z) -> Forall2 P l m -> Forall2 Q m n -> Forall2 R l n.
Proof. intros H H1. revert n. induction H1; intros n H2; inversion H2; subst; constructor; eauto. Qed.

(** ** Boxes *)
Lemma inb_length sh i : inb sh i -> length i = length sh.
Proof. apply F2_length. Qed.
Lemma full_shift : forall sh sl, box_in sh sl -> map (fun s => stop s - start s) sl = sh -> forall i, inb sh i -> shift sl i = i.
Proof.
  induction sh as [|n sh IH]; intros sl B E i Hi; inversion B as [|? s ? sl' Hs B']; subst; inversion Hi as [|x ? i' ? Hx Hi']; subst; [reflexivity|]. cbn [map] in E. injection E as E1 E2.
  unfold shift. cbn [combine map fst snd]. f_equal; [lia|]. apply (IH sl' B'); auto; rewrite ?E2; auto.
Qed.
Lemma part_full {V} sh (A : list nat -> V) sl a : part sh A sl a -> a_shape a = sh -> forall i, inb sh i -> a_get a i = A i.
Proof. intros (B & E & G) Es i Hi. rewrite G by (rewrite Es; exact Hi). f_equal. apply (full_shift sh); auto. congruence. Qed.
Lemma part_whole {V} (a b : arr V) : aeq a b -> part (a_shape b) (a_get b) (map (fun n => (0, n)) (a_shape a)) a.
Proof.
  intros [E G]. rewrite <- E. split; [|split].
  - unfold box_in. clear. induction (a_shape a) as [|n l IH]; cbn; constructor; [unfold start, stop; cbn; lia|exact IH].
  - rewrite map_map. unfold start, stop. cbn. rewrite (map_ext _ (fun n => n)) by (intros; lia). symmetry. apply map_id.
  - intros i Hi. rewrite G by exact Hi. f_equal. symmetry. clear -Hi. unfold inb in Hi. revert i Hi. induction (a_shape a); intros i Hi; inversion Hi; subst; cbn; [reflexivity|]. f_equal. apply IHl. assumption.
Qed.
Lemma add_at_length d n l : length (add_at d n l) = length l.
Proof. revert d. induction l; intros [|d]; cbn; auto. Qed.
Lemma slices_can_length l1 : forall l2 d, slices_can d l1 l2 = true -> length l1 = length l2.
Proof.
  induction l1 as [|s l1 IH]; intros [|t l2] d H; cbn [slices_can] in H; try discriminate; try reflexivity. destruct d; apply andb_true_iff in H as [H1 H2]; cbn; f_equal; [|eapply IH, H2]. apply slices_eqb_eq in H2. congruence.
Qed.
Lemma slices_cat_length l1 : forall l2 d, length l1 = length l2 -> length (slices_cat d l1 l2) = length l1.
Proof. induction l1 as [|s l1 IH]; intros [|t l2] d H; cbn in *; try discriminate; [reflexivity|]. destruct d; cbn; auto. Qed.

(** ** Concatenation *)
Fixpoint bx (d lo hi : nat) (sh : list nat) {struct sh} : list slice := match sh, d with [], _ => [] | _ :: sh', 0 => (lo, hi) :: map (fun n => (0, n)) sh' | n :: sh', S d' => (0, n) :: bx d' lo hi sh' end.
Lemma full_width sh : map (fun s => stop s - start s) (map (fun n => (0, n)) sh) = sh.
Proof. rewrite map_map. unfold start, stop. cbn. rewrite (map_ext _ (fun n => n)) by (intros; lia). apply map_id. Qed.
Lemma full_box sh : box_in sh (map (fun n => (0, n)) sh).
Proof. unfold box_in. induction sh; cbn; constructor; auto. unfold start, stop. cbn. lia. Qed.
Lemma full_shift' sh : forall i, length i = length sh -> shift (map (fun n => (0, n)) sh) i = i.
Proof. unfold shift. induction sh as [|n sh IH]; intros [|x i] E; try discriminate; [reflexivity|]. cbn. f_equal. apply IH. auto. Qed.
Lemma bx_width d lo hi sh : map (fun s => stop s - start s) (bx d lo hi sh) = set_at d (hi - lo) sh.
Proof. revert d. induction sh as [|n sh IH]; intros [|d]; try reflexivity; cbn [bx set_at map]; [rewrite full_width; reflexivity|]. rewrite IH. f_equal. unfold start, stop. cbn. lia. Qed.
Lemma bx_box d lo hi sh : lo <= hi -> hi <= nth d sh 0 -> box_in sh (bx d lo hi sh).
Proof. intros H. revert d. induction sh as [|n sh IH]; intros d Hh; [constructor|]. destruct d; cbn [bx nth] in *; constructor; try apply full_box; try (apply IH; exact Hh); unfold start, stop; cbn; lia. Qed.
Lemma bx_shift d lo hi sh : forall i, length i = length sh -> shift (bx d lo hi sh) i = add_at d lo i.
Proof.
  revert d. induction sh as [|n sh IH]; intros d [|x i] E; try discriminate; [destruct d; reflexivity|]. destruct d; cbn [bx add_at]; unfold shift in *; cbn [combine map fst snd].
  - unfold start. cbn. f_equal; [lia|]. apply full_shift'. auto.
  - f_equal. apply IH. auto.
Qed.
Lemma bx_can d lo mid hi sh : d < length sh -> slices_can d (bx d lo mid sh) (bx d mid hi sh) = true.
Proof.
  revert d. induction sh as [|n sh IH]; intros d Hd; [cbn in Hd; lia|]. destruct d; cbn [bx slices_can].
  - apply andb_true_iff. split; [apply Nat.eqb_refl|]. apply slices_eqb_eq. reflexivity.
  - apply andb_true_iff. split; [apply slice_eqb_eq; reflexivity|]. apply IH. cbn in Hd. lia.
Qed.
Lemma bx_cat d lo mid hi sh : d < length sh -> slices_cat d (bx d lo mid sh) (bx d mid hi sh) = bx d lo hi sh.
Proof. revert d. induction sh as [|n sh IH]; intros d Hd; [cbn in Hd; lia|]. destruct d; cbn [bx slices_cat]; [reflexivity|]. f_equal. apply IH. cbn in Hd. lia. Qed.
Lemma bx_length d lo hi sh : length (bx d lo hi sh) = length sh.
Proof. revert d. induction sh as [|n sh IH]; intros [|d]; cbn; auto. rewrite map_length. reflexivity. Qed.
Lemma set_at_length d n sh : length (set_at d n sh) = length sh.
Proof. revert d. induction sh as [|m sh IH]; intros [|d]; cbn; auto. Qed.
Lemma set_at_nth d sh : set_at d (nth d sh 0) sh = sh.
Proof. revert d. induction sh as [|m sh IH]; intros [|d]; cbn; auto. f_equal. apply IH. Qed.
Lemma inb_add_at d lo n sh : forall i, lo + n <= nth d sh 0 -> inb (set_at d n sh) i -> inb sh (add_at d lo i).
Proof.
  revert d. unfold inb. induction sh as [|m sh IH]; intros d i Hn Hi; [inversion Hi; subst; destruct d; constructor|]. destruct d; cbn [set_at nth] in *; inversion Hi as [|x ? i' ? Hx Hi']; subst; cbn [add_at]; constructor; auto. lia.
Qed.
Section Concat.
  Context {V : Type}.
  Notation arrV := (arr V).
  Lemma concat_of_le d l (y : arrV) lo : concat_of V d lo l y -> lo <= nth d (a_shape y) 0.
  Proof. revert lo. induction l as [|x l IH]; intros lo H; cbn in H; [lia|]. destruct H as (_ & _ & H). apply IH in H. lia. Qed.
  Lemma piece_aeq d lo n (v y x : arrV) : aeq v y -> n = nth d (a_shape x) 0 -> a_shape x = set_at d n (a_shape y) -> (forall i, inb (a_shape x) i -> a_get x i = a_get y (add_at d lo i)) -> lo + n <= nth d (a_shape y) 0 -> aeq (piece d lo (lo + n) v) x.
  Proof.
    intros [E G] -> Es Hx Hle. set (n := nth d (a_shape x) 0) in *. assert (Sh : a_shape (piece d lo (lo + n) v) = a_shape x). { cbn [piece a_shape]. rewrite Es, E. f_equal. lia. }
    split; [exact Sh|]. intros i Hi. rewrite Sh in Hi. rewrite Hx by exact Hi. cbn [piece a_get]. apply G. rewrite E. eapply inb_add_at; [exact Hle|]. rewrite <- Es. exact Hi.
  Qed.
  Lemma concat_forward d (l vi : list arrV) (y a : arrV) : vi <> [] -> d < length (a_shape y) -> concat_of V d 0 vi y -> Forall2 aeq l vi -> concat_arr d l = Ok a -> aeq a y.
  Proof.
    intros Hne Hd Hy Hl Hc. destruct Hl as [|v x l vi Hv Hl]; [congruence|]. cbn [concat_arr] in Hc. injection Hc as <-.
    assert (P : forall v x lo, aeq v x -> a_shape x = set_at d (nth d (a_shape x) 0) (a_shape y) -> (forall i, inb (a_shape x) i -> a_get x i = a_get y (add_at d lo i)) -> lo + nth d (a_shape x) 0 <= nth d (a_shape y) 0 -> part (a_shape y) (a_get y) (bx d lo (lo + nth d (a_shape x) 0) (a_shape y)) v).
    { clear. intros v x lo [E G] Es Hx Hle. split; [apply bx_box; lia|]. split; [rewrite bx_width, E, Es; f_equal; rewrite <- Es; lia|]. intros i Hi. rewrite G by exact Hi. rewrite E in Hi. rewrite Hx by exact Hi. rewrite bx_shift; [reflexivity|]. apply inb_length in Hi. rewrite Hi, Es. apply set_at_length. }
    assert (X : forall l vi lo acc, Forall2 aeq l vi -> concat_of V d lo vi y -> part (a_shape y) (a_get y) (bx d 0 lo (a_shape y)) acc -> aeq (fold_left (cat d) l acc) y).
    { clear -P Hd. intros l vi lo acc Hl. revert lo acc. induction Hl as [|v x l vi Hv Hl IH]; intros lo acc Hy Hp.
      - cbn [concat_of] in Hy. cbn [fold_left]. assert (Es : a_shape acc = a_shape y). { destruct Hp as (_ & Es & _). rewrite Es, bx_width, Hy, Nat.sub_0_r. apply set_at_nth. } split; [exact Es|]. intros i Hi. eapply part_full; [exact Hp|exact Es|]. rewrite <- Es. exact Hi.
      - cbn [concat_of] in Hy. destruct Hy as (Es & Hx & Hy). cbn [fold_left]. pose proof (concat_of_le _ _ _ _ Hy) as Hle. eapply IH; [exact Hy|]. rewrite <- (bx_cat d 0 lo) by exact Hd. apply part_cat; [apply bx_can; exact Hd|rewrite bx_length; exact Hd|exact Hp|]. apply P; auto. }
    cbn [concat_of] in Hy. destruct Hy as (Es & Hx & Hy). pose proof (concat_of_le _ _ _ _ Hy) as Hle. eapply X; [exact Hl|exact Hy|]. cbn [Nat.add]. apply (P v x 0); auto.
  Qed.
End Concat.

(** ** Reshaping *)
Lemma size_cons n sh : size (n :: sh) = n * size sh. Proof. reflexivity. Qed.
Lemma ravel_lt sh : forall i, inb sh i -> ravel sh i < size sh.
Proof. induction sh as [|n sh IH]; intros i Hi; inversion Hi as [|x ? i' ? Hx Hi']; subst; [cbn; lia|]. cbn [ravel]. rewrite size_cons. specialize (IH _ Hi'). nia. Qed.
Lemma unravel_inb sh : forall k, k < size sh -> inb sh (unravel sh k).
Proof.
  unfold inb. induction sh as [|n sh IH]; intros k Hk; [constructor|]. rewrite size_cons in Hk. assert (size sh <> 0) by nia. cbn [unravel]. constructor; [apply Nat.div_lt_upper_bound; lia|]. apply IH. apply Nat.mod_upper_bound. assumption.
Qed.
Lemma ravel_unravel sh : forall k, k < size sh -> ravel sh (unravel sh k) = k.
Proof.
  induction sh as [|n sh IH]; intros k Hk; [cbn in *; lia|]. rewrite size_cons in Hk. assert (size sh <> 0) by nia. cbn [unravel ravel]. rewrite IH by (apply Nat.mod_upper_bound; assumption). rewrite (Nat.div_mod k (size sh)) at 3 by assumption. lia.
Qed.
Lemma unravel_ravel sh : forall i, inb sh i -> unravel sh (ravel sh i) = i.
Proof.
  induction sh as [|n sh IH]; intros i Hi; inversion Hi as [|x ? i' ? Hx Hi']; subst; [reflexivity|]. cbn [ravel unravel]. pose proof (ravel_lt sh i' Hi') as Hr. f_equal.
  - rewrite Nat.add_comm, Nat.div_add by lia. rewrite Nat.div_small by exact Hr. reflexivity.
  - rewrite Nat.add_comm, Nat.mod_add by lia. rewrite Nat.mod_small by exact Hr. apply IH, Hi'.
Qed.
Lemma reshape_aeq {V} sh (a b : arr V) : aeq a b -> size sh = size (a_shape b) -> aeq (reshape_arr sh a) (reshape_arr sh b).
Proof. intros [E G] Hs. split; [reflexivity|]. intros i Hi. cbn in *. rewrite E. apply G. rewrite E. apply unravel_inb. rewrite <- Hs. apply ravel_lt, Hi. Qed.
Lemma reshape_back {V} sh (x : arr V) : size sh = size (a_shape x) -> aeq (reshape_arr (a_shape x) (reshape_arr sh x)) x.
Proof.
  intros Hs. split; [reflexivity|]. intros i Hi. cbn in *. rewrite ravel_unravel by (rewrite Hs; apply ravel_lt, Hi). rewrite unravel_ravel by exact Hi. reflexivity.
Qed.

Section Sound.
  Variables V W : Type.
  Variable w0 : W.
  Variable wplus : W -> W -> W.
  Variable cord : list (ndslice V W) -> list (ndslice V W).
  Hypothesis cordp : forall l, Permutation l (cord l).
  Notation cell := (cell V W). Notation ndslice := (ndslice V W).
  Notation top := (top V W). Notation bottom := (bottom V W). Notation unknown := (unknown V W). Notation new := (new V W w0). Notation nd_new := (nd_new V W).
  Notation join := (join V W cord). Notation cell_lt := (cell_lt V W).
  Notation arrV := (arr V). Notation arrW := (arr W).
  Notation kn := (kn V W). Notation kn_all := (kn_all V W). Notation vals := (vals V W).
  Notation atom := (atom (list nat) arrV). Notation frame := (frame (list nat) arrV). Notation env := (env cell).
  Notation node := (node cell (list nat) arrV tag (option W)).

  (** ** The invariant.  A slice of the wrong rank (from a scalar operand of a binary operation) is harmless: its cell is not top. *)
  Definition slice_ok (A : arrV) (s : ndslice) : Prop :=
    length (a_shape (nd_value s)) = length (nd_slices s) /\ (length (nd_slices s) = length (a_shape A) -> part (a_shape A) (a_get A) (nd_slices s) (nd_value s)).
  Definition csound (A : arrV) (c : cell) : Prop := c_aval c = a_shape A /\ Forall (slice_ok A) (c_slices c).

  Lemma part_aeq (A B a : arrV) sl : aeq A B -> part (a_shape A) (a_get A) sl a -> part (a_shape B) (a_get B) sl a.
  Proof.
    intros [E G] (P1 & P2 & P3). rewrite <- E. split; [exact P1|]. split; [exact P2|]. intros i Hi. rewrite P3 by exact Hi. apply G.
    clear -P1 P2 Hi. rewrite P2 in Hi. clear P2. unfold box_in, inb in *. revert i Hi. induction P1 as [|n s sh sl' Hs B IH]; intros i Hi; inversion Hi; subst; unfold shift; cbn; constructor; [unfold start, stop in *; lia|apply IH; assumption].
  Qed.
  Lemma csound_aeq A B c : aeq A B -> csound A c -> csound B c.
  Proof.
    intros HA [E F]. split; [rewrite E; apply HA|]. eapply Forall_impl; [|exact F]. intros s [L P]. split; [exact L|]. intros Hl. eapply part_aeq; [exact HA|]. apply P. rewrite Hl. symmetry. f_equal. apply HA.
  Qed.
  Lemma csound_unknown A : csound A (unknown (a_shape A)). Proof. split; [reflexivity|constructor]. Qed.
  Lemma slice_ok_new A v j : aeq v A -> slice_ok A (nd_new v j).
  Proof. intros H. split; cbn; [rewrite map_length; reflexivity|]. intros _. apply part_whole, H. Qed.
  Lemma csound_one A v j av : av = a_shape A -> aeq v A -> csound A (mk_cell av [nd_new v j]).
  Proof. intros E H. split; [exact E|]. constructor; [apply slice_ok_new, H|constructor]. Qed.
  Lemma csound_new A v : aeq v A -> csound A (new v).
  Proof. intros H. apply csound_one; [apply H|exact H]. Qed.
  Lemma slice_ok_cat A s o d : slice_ok A s -> slice_ok A o -> can_concatenate V W s o d = true -> d < length (a_shape A) -> slice_ok A (cat_nd V W s o d).
  Proof.
    intros [L1 P1] [L2 P2] Hc Hd. unfold can_concatenate in Hc. pose proof (slices_can_length _ _ _ Hc) as El. split; cbn [cat_nd nd_value nd_slices cat a_shape].
    - rewrite add_at_length, slices_cat_length by exact El. exact L1.
    - rewrite slices_cat_length by exact El. intros Hl. apply part_cat; auto; [lia|]. apply P2. congruence.
  Qed.
  Lemma merge_sound A n : n <= length (a_shape A) -> forall rest active out, slice_ok A active -> Forall (slice_ok A) rest -> Forall (slice_ok A) out -> Forall (slice_ok A) (merge V W n active rest out).
  Proof.
    intros Hn. induction rest as [|s rest IH]; intros active out Ha Hr Ho; cbn [merge].
    - apply Forall_forall. intros x Hx. apply set_add_in in Hx as [Hx| ->]; [|exact Ha]. rewrite Forall_forall in Ho. auto.
    - inversion Hr; subst. destruct (find_dim V W active s n) as [d|] eqn:Ef.
      + apply find_dim_spec in Ef as [H1' H2']. apply IH; auto. apply slice_ok_cat; auto. lia.
      + apply IH; auto. apply Forall_forall. intros x Hx. apply set_add_in in Hx as [Hx| ->]; [|exact Ha]. rewrite Forall_forall in Ho. auto.
  Qed.
  Lemma csound_join A c o : csound A c -> csound A o -> csound A (join c o).
  Proof.
    intros [E1 F1] [E2 F2]. unfold SliceModel.join. destruct (top o); [split; assumption|]. destruct (bottom o); [split; assumption|]. destruct (cell_eqb V W c o); [split; assumption|]. destruct (cell_lt o c); [split; assumption|]. destruct (cell_lt c o); [split; assumption|].
    pose proof (sort_perm (cord (set_union V W (c_slices c) (c_slices o)))) as P. pose proof (cordp (set_union V W (c_slices c) (c_slices o))) as P'.
    assert (F : Forall (slice_ok A) (sort V W (cord (set_union V W (c_slices c) (c_slices o))))).
    { apply Forall_forall. intros x Hx. apply (Permutation_in x (Permutation_sym P)) in Hx. apply (Permutation_in x (Permutation_sym P')) in Hx. apply set_union_in in Hx. rewrite Forall_forall in F1, F2. destruct Hx; auto. }
    destruct (sort V W _) as [|s rest]; [split; assumption|]. inversion F as [|? ? Hs Hr]. split; [exact E1|]. cbn [c_slices]. apply merge_sound; auto. rewrite E1. lia.
  Qed.
  Lemma csound_kn A c v j : csound A c -> kn c = Some (v, j) -> aeq v A.
  Proof.
    intros [E F] H. unfold InverseModel.kn in H. destruct (top c) eqn:Et; [|discriminate]. unfold SliceModel.top in Et. destruct (c_slices c) as [|s [|]] eqn:Es; try discriminate. injection H as <- <-. apply shape_eqb_eq in Et. inversion F as [|? ? [L P] _]; subst.
    assert (Ev : a_shape (nd_value s) = a_shape A) by congruence. specialize (P ltac:(rewrite <- L, Ev; reflexivity)). split; [exact Ev|]. intros i Hi. rewrite Ev in Hi. exact (part_full _ _ _ _ P Ev i Hi).
  Qed.
  Lemma csound_kn_all l A ks : Forall2 csound A l -> kn_all l = Some ks -> Forall2 aeq (vals ks) A.
  Proof.
    intros H. revert ks. induction H as [|A c AA l Hc H IH]; intros ks Hk; cbn in Hk; [injection Hk as <-; constructor|]. destruct (kn c) as [[v j]|] eqn:Ek; [|discriminate]. destruct (kn_all l) as [xs|] eqn:Ea; [|discriminate]. injection Hk as <-. cbn. constructor; [eapply csound_kn; eassumption|apply IH; reflexivity].
  Qed.
  Lemma csound_aval A c : csound A c -> c_aval c = a_shape A. Proof. intros [E _]. exact E. Qed.

  (** ** Rules *)
  Definition okc (p : atom * arrV) (c : cell) : Prop := is_lit V (fst p) \/ csound (snd p) c.
  Definition okl (ia : list atom) (vi : list arrV) (ic : list cell) : Prop := Forall2 okc (combine ia vi) ic.
  Lemma okl_of ia vi ic : length ia = length vi -> Forall2 csound vi ic -> okl ia vi ic.
  Proof. intros Hl H. unfold okl. revert ia Hl. induction H; intros [|a ia] Hl; try discriminate; constructor; auto. right. assumption. Qed.
  Definition rule_ok (ia : list atom) (vi vo : list arrV) (r : list cell -> list cell -> result V W) : Prop :=
    forall ic oc ic' oc' s, Forall2 csound vi ic -> Forall2 csound vo oc -> r ic oc = Ok (ic', oc', s) -> length ic' = length ic -> okl ia vi ic' /\ Forall2 csound vo oc'.

  Lemma bget_aeq (a b : arrV) i : aeq a b -> (a_shape a <> [] -> inb (a_shape a) i) -> bget a i = bget b i.
  Proof. intros [E G] Hi. unfold bget. rewrite <- E. assert (D : a_shape a = [] \/ a_shape a <> []) by (destruct (a_shape a); [left; reflexivity|right; discriminate]). destruct D as [D|D]; [rewrite D; apply G; rewrite D; constructor|]. specialize (G i (Hi D)). destruct (a_shape a); [congruence|exact G]. Qed.
  Lemma bshape_aeq (a a' b b' : arrV) : aeq a a' -> aeq b b' -> bshape a b = bshape a' b'.
  Proof. intros [E _] [E' _]. unfold bshape. rewrite E, E'. reflexivity. Qed.
  Lemma lift2_aeq {Z} (f : V -> V -> Z) (a a' b b' : arrV) : aeq a a' -> aeq b b' -> broadcastable V a b -> aeq (lift2 f a b) (lift2 f a' b').
  Proof.
    intros Ha Hb Hc. split; [apply bshape_aeq; assumption|]. intros i Hi. cbn in *. unfold bshape in Hi. f_equal; apply bget_aeq; auto.
    - intros H. destruct (a_shape a); [congruence|exact Hi].
    - intros H. destruct Hc as [Hc|[Hc|Hc]]; [|rewrite Hc in Hi; exact Hi|congruence]. rewrite Hc in Hi. destruct (a_shape b); [congruence|exact Hi].
  Qed.
  Lemma broadcastable_aeq (a a' b b' : arrV) : aeq a a' -> aeq b b' -> broadcastable V a b -> broadcastable V a' b'.
  Proof. intros [E _] [E' _]. unfold broadcastable. rewrite E, E'. auto. Qed.
  Lemma map_aeq {Z} (f : V -> Z) (a b : arrV) : aeq a b -> aeq (map_arr f a) (map_arr f b).
  Proof. intros [E G]. split; [exact E|]. intros i Hi. cbn in *. rewrite G by exact Hi. reflexivity. Qed.

  Lemma elem_ok e a x y : aeq y (map_arr (e_fwd V W e) x) -> (is_lit V a \/ forall g, e_inv V W e = Some g -> forall i, inb (a_shape x) i -> g (e_fwd V W e (a_get x i)) = a_get x i) ->
    rule_ok [a] [x] [y] (elem_rule V W w0 wplus e).
  Proof.
    intros Hy Hd ic oc ic' oc' s Hi Ho Hr _. inversion Hi as [|? ci ? ? Hci Hi']; subst. inversion Hi'; subst. inversion Ho as [|? co ? ? Hco Ho']; subst. inversion Ho'; subst. cbn [elem_rule] in Hr.
    assert (D : okl [a] [x] [ci] /\ Forall2 csound [y] [co]) by (split; [apply okl_of; auto|auto]).
    destruct (kn ci) as [[v j]|] eqn:Ei, (kn co) as [[v' j']|] eqn:Eo; try (injection Hr as <- <- <-; exact D).
    - injection Hr as <- <- <-. split; [apply D|]. constructor; [|constructor]. apply csound_new. apply (csound_kn _ _ _ _ Hci) in Ei. eapply aeq_trans; [apply map_aeq, Ei|apply aeq_sym, Hy].
    - destruct (e_inv V W e) as [g|] eqn:Eg; [|discriminate]. injection Hr as <- <- <-. split; [|apply D]. unfold okl. cbn [combine]. constructor; [|constructor]. destruct Hd as [Hd|Hd]; [left; exact Hd|right]. cbn [snd].
      apply (csound_kn _ _ _ _ Hco) in Eo. apply csound_one; [rewrite (csound_aval _ _ Hco); apply Hy|]. eapply aeq_trans; [apply map_aeq; eapply aeq_trans; [exact Eo|exact Hy]|]. split; [reflexivity|]. intros i Hin. cbn in *. apply (Hd g eq_refl). exact Hin.
  Qed.
  Lemma bin_ok b a1 a2 x1 x2 y : broadcastable V x1 x2 -> aeq y (lift2 (b_fwd V W b) x1 x2) ->
    (is_lit V a2 \/ forall i, inb (a_shape y) i -> b_left V W b (bget x1 i) (bget y i) = bget x2 i) ->
    (is_lit V a1 \/ forall i, inb (a_shape y) i -> b_right V W b (bget x2 i) (bget y i) = bget x1 i) ->
    rule_ok [a1; a2] [x1; x2] [y] (bin_rule V W w0 b).
  Proof.
    intros Hb Hy Hl Hr ic oc ic' oc' s Hi Ho H _. inversion Hi as [|? c1 ? ? H1 Hi']; subst. inversion Hi' as [|? c2 ? ? H2 Hi'']; subst. inversion Hi''; subst. inversion Ho as [|? co ? ? Hco Ho']; subst. inversion Ho'; subst. cbn [bin_rule] in H.
    assert (D : okl [a1; a2] [x1; x2] [c1; c2] /\ Forall2 csound [y] [co]) by (split; [apply okl_of; auto|auto]).
    (* the recovered operand *)
    assert (R : forall (f : V -> V -> V) (k u : arrV) kv ov jj cu, (k = x1 /\ u = x2 \/ k = x2 /\ u = x1) -> (forall i, inb (a_shape y) i -> f (bget k i) (bget y i) = bget u i) -> aeq kv k -> aeq ov y -> csound u cu ->
      csound u (mk_cell (c_aval cu) [nd_new (lift2 f kv ov) jj])).
    { intros f k u kv ov jj cu Hku Hf Hkv Hov Hcu. split; [apply (csound_aval _ _ Hcu)|]. constructor; [|constructor]. split; [cbn; rewrite map_length; reflexivity|]. cbn [nd_new nd_slices nd_value a_shape]. rewrite map_length. intros Hlen.
      apply part_whole.
      assert (Sy : a_shape y = match a_shape x1 with [] => a_shape x2 | _ => a_shape x1 end).
      { destruct Hy as [E _]. rewrite E. cbn [lift2 a_shape]. unfold bshape. destruct (a_shape x1); reflexivity. }
      assert (Sl : a_shape (lift2 f kv ov) = match a_shape k with [] => a_shape y | _ => a_shape k end). { destruct Hkv as [E1 _], Hov as [E2 _]. cbn [lift2 a_shape]. unfold bshape. rewrite E1, E2. destruct (a_shape k); reflexivity. }
      assert (Su : a_shape (lift2 f kv ov) = a_shape u). { rewrite Sl in Hlen |- *. destruct Hku as [[-> ->]|[-> ->]], Hb as [Hb|[Hb|Hb]]; rewrite ?Sy, ?Hb in *; destruct (a_shape x1), (a_shape x2); cbn in *; congruence. }
      split; [exact Su|]. intros i Hii. rewrite Su in Hii. cbn [lift2 a_get].
      destruct (a_shape u) as [|n0 shu] eqn:Eu.
      - inversion Hii; subst i. assert (Ey : a_shape y = []). { rewrite Sl in Su. destruct (a_shape k); [exact Su|discriminate]. } assert (Ek : a_shape k = []). { rewrite Sl in Su. destruct (a_shape k); [reflexivity|discriminate]. }
        rewrite (bget_aeq kv k) by (auto; destruct Hkv as [Ekv _]; rewrite Ekv, Ek; congruence). rewrite (bget_aeq ov y) by (auto; destruct Hov as [Eov _]; rewrite Eov, Ey; congruence).
        rewrite Hf by (rewrite Ey; constructor). unfold bget. rewrite Eu. reflexivity.
      - assert (Ey : a_shape y = a_shape u). { rewrite Sl in Su. destruct Hku as [[-> ->]|[-> ->]], Hb as [Hb|[Hb|Hb]]; rewrite ?Sy, ?Hb in *; destruct (a_shape x1), (a_shape x2); cbn in *; congruence. }
        rewrite <- Eu, <- Ey in Hii. rewrite (bget_aeq kv k); [| exact Hkv |]. 2:{ intros Hne. destruct Hkv as [Ekv _]. rewrite Ekv in Hne |- *. rewrite Sl in Su. destruct (a_shape k) eqn:Ek; [congruence|]. rewrite Ey, Eu, <- Su in Hii. exact Hii. }
        rewrite (bget_aeq ov y); [|exact Hov|]. 2:{ intros _. destruct Hov as [Eov _]. rewrite Eov. exact Hii. }
        rewrite Hf by exact Hii. unfold bget. rewrite Eu. reflexivity. }
    destruct (kn co) as [[v j]|] eqn:Eo.
    - apply (csound_kn _ _ _ _ Hco) in Eo. destruct (kn c1) as [[lv jl]|] eqn:E1.
      + injection H as <- <- <-. split; [|apply D]. apply (csound_kn _ _ _ _ H1) in E1. constructor; [right; exact H1|]. constructor; [|constructor]. destruct Hl as [Hl|Hl]; [left; exact Hl|right]. cbn [snd]. apply (R (b_left V W b) x1 x2); auto.
      + destruct (kn c2) as [[rv jr]|] eqn:E2.
        * injection H as <- <- <-. split; [|apply D]. apply (csound_kn _ _ _ _ H2) in E2. constructor; [|constructor; [right; exact H2|constructor]]. destruct Hr as [Hr|Hr]; [left; exact Hr|right]. cbn [snd]. apply (R (b_right V W b) x2 x1); auto.
        * injection H as <- <- <-. exact D.
    - destruct (kn c1) as [[lv jl]|] eqn:E1, (kn c2) as [[rv jr]|] eqn:E2; try (injection H as <- <- <-; exact D).
      injection H as <- <- <-. split; [apply D|]. constructor; [|constructor]. apply csound_new. apply (csound_kn _ _ _ _ H1) in E1. apply (csound_kn _ _ _ _ H2) in E2. eapply aeq_trans; [|apply aeq_sym, Hy]. apply lift2_aeq; auto. eapply broadcastable_aeq; [apply aeq_sym, E1|apply aeq_sym, E2|exact Hb].
  Qed.
  Lemma default_ok F ia vi vo : length ia = length vi -> Forall2 aeq (F vi) vo -> proper V (Forall2 aeq) F -> rule_ok ia vi vo (default_rule V W w0 F).
  Proof.
    intros Hlen HF HP ic oc ic' oc' s Hi Ho Hr _. assert (D : okl ia vi ic /\ Forall2 csound vo oc) by (split; [apply okl_of; auto|auto]). unfold default_rule in Hr.
    destruct (forallb bottom oc); [|destruct (existsb bottom oc); [|discriminate]; injection Hr as <- <- <-; exact D].
    destruct (kn_all ic) as [l|] eqn:El; injection Hr as <- <- <-; [|exact D]. split; [apply D|]. apply F2_map_r. apply (csound_kn_all _ _ _ Hi) in El. apply HP in El. pose proof (F2_aeq_trans _ _ _ El HF) as X. clear -X. induction X; constructor; auto. apply csound_new. assumption.
  Qed.
  Lemma slice_rule_ok sl ia x y : length ia = 1 -> box_in (a_shape x) sl -> aeq y (slice_arr sl x) -> rule_ok ia [x] [y] (slice_rule V W w0 sl).
  Proof.
    intros Hlen Hb Hy ic oc ic' oc' s Hi Ho Hr _. inversion Hi as [|? ci ? ? Hci Hi']; subst. inversion Hi'; subst. inversion Ho as [|? co ? ? Hco Ho']; subst. inversion Ho'; subst. cbn [slice_rule] in Hr.
    assert (D : okl ia [x] [ci] /\ Forall2 csound [y] [co]) by (split; [apply okl_of; auto|auto]).
    destruct (kn ci) as [[v j]|] eqn:Ei, (kn co) as [[v' j']|] eqn:Eo; try (injection Hr as <- <- <-; exact D).
    - injection Hr as <- <- <-. split; [apply D|]. constructor; [|constructor]. apply csound_new. apply (csound_kn _ _ _ _ Hci) in Ei. eapply aeq_trans; [|apply aeq_sym, Hy]. destruct Ei as [E G]. split; [reflexivity|]. intros i Hin. cbn in *. apply G.
      rewrite E. clear -Hb Hin. unfold box_in, inb in *. revert i Hin. induction Hb as [|n s0 sh sl Hs Hb IH]; intros i Hin; inversion Hin; subst; cbn; constructor; [unfold start, stop in *; lia|apply IH; assumption].
    - injection Hr as <- <- <-. split; [|apply D]. apply okl_of; [auto|]. constructor; [|constructor]. apply (csound_kn _ _ _ _ Hco) in Eo. pose proof (aeq_trans _ _ _ Eo Hy) as [E G]. cbn in E, G.
      split; [apply (csound_aval _ _ Hci)|]. constructor; [|constructor]. split; cbn [nd_value nd_slices]; [rewrite E, map_length; reflexivity|]. intros _. split; [exact Hb|]. split; [exact E|]. intros i Hin. rewrite G by exact Hin. reflexivity.
  Qed.
  Lemma concat_rule_ok d ia vi y : length ia = length vi -> vi <> [] -> d < length (a_shape y) -> concat_of V d 0 vi y -> rule_ok ia vi [y] (concat_rule V W w0 d).
  Proof.
    intros Hlen Hne Hd Hy ic oc ic' oc' s Hi Ho Hr _. assert (D : okl ia vi ic /\ Forall2 csound [y] oc) by (split; [apply okl_of; auto|auto]).
    inversion Ho as [|? co ? ? Hco Ho']; subst. inversion Ho'; subst. cbn [concat_rule] in Hr.
    destruct (kn_all ic) as [l|] eqn:El.
    - apply (csound_kn_all _ _ _ Hi) in El. destruct (concat_arr d (vals l)) as [a| | |] eqn:Ec; try discriminate. cbn in Hr. injection Hr as <- <- <-. split; [apply D|]. constructor; [|constructor]. apply csound_new. eapply concat_forward; eassumption.
    - destruct (kn co) as [[v j]|] eqn:Eo; [|injection Hr as <- <- <-; exact D]. apply (csound_kn _ _ _ _ Hco) in Eo.
      destruct (zip3 ic _ _) as [l| | |] eqn:Ez; try discriminate. cbn in Hr. injection Hr as <- <- <-. split; [|apply D]. apply okl_of; [exact Hlen|]. apply F2_map_r.
      assert (X : forall vi ic lo l, Forall2 csound vi ic -> vi <> [] -> concat_of V d lo vi y -> zip3 ic (split_arr d (sections V W d lo ic) lo v) (split_arr d (sections V W d lo ic) lo j) = Ok l -> Forall2 (fun x p => csound x (mk_cell (c_aval (fst p)) [nd_new (fst (snd p)) (snd (snd p))])) vi l).
      { clear -Eo Hd. intros vi ic lo l Hi. revert lo l. induction Hi as [|x c vi ic Hc Hi IH]; intros lo l Hne Hy Hz; [congruence|]. destruct Hy as (E & G & Hy). pose proof (concat_of_le _ _ _ _ Hy) as Hle.
        assert (P : forall hi, hi = lo + nth d (a_shape x) 0 -> aeq (piece d lo hi v) x). { intros hi ->. apply (piece_aeq d lo _ v y x); auto. }
        destruct Hi as [|x' c' vi ic Hc' Hi].
        - cbn [concat_of] in Hy. cbn [sections split_arr zip3 rbind] in Hz. injection Hz as <-. constructor; [|constructor]. apply csound_one; [apply (csound_aval _ _ Hc)|]. cbn [fst snd]. apply P. rewrite (proj1 Eo). auto.
        - change (sections V W d lo (c :: c' :: ic)) with ((lo + nth d (c_aval c) 0) :: sections V W d (lo + nth d (c_aval c) 0) (c' :: ic)) in Hz. rewrite (csound_aval _ _ Hc) in Hz. remember (c' :: ic) as ic2 eqn:Eic2. clear Eic2. cbn [split_arr zip3] in Hz. destruct (zip3 ic2 (split_arr d (sections V W d (lo + nth d (a_shape x) 0) ic2) (lo + nth d (a_shape x) 0) v) (split_arr d (sections V W d (lo + nth d (a_shape x) 0) ic2) (lo + nth d (a_shape x) 0) j)) as [l'| | |] eqn:Ez; try discriminate. cbn [rbind] in Hz. injection Hz as <-. constructor; [|eapply IH; [discriminate|exact Hy|exact Ez]]. apply csound_one; [apply (csound_aval _ _ Hc)|]. cbn [fst snd]. apply P. reflexivity. }
      eapply X; eassumption.
  Qed.
  Lemma reshape_rule_ok sh ia x y : length ia = 1 -> size sh = size (a_shape x) -> aeq y (reshape_arr sh x) -> rule_ok ia [x] [y] (reshape_rule V W w0 sh).
  Proof.
    intros Hlen Hs Hy ic oc ic' oc' s Hi Ho Hr _. inversion Hi as [|? ci ? ? Hci Hi']; subst. inversion Hi'; subst. inversion Ho as [|? co ? ? Hco Ho']; subst. inversion Ho'; subst. cbn [reshape_rule] in Hr.
    assert (D : okl ia [x] [ci] /\ Forall2 csound [y] [co]) by (split; [apply okl_of; auto|auto]).
    destruct (kn ci) as [[v j]|] eqn:Ei, (kn co) as [[v' j']|] eqn:Eo; try (injection Hr as <- <- <-; exact D).
    - injection Hr as <- <- <-. split; [apply D|]. constructor; [|constructor]. apply csound_new. apply (csound_kn _ _ _ _ Hci) in Ei. eapply aeq_trans; [|apply aeq_sym, Hy]. apply reshape_aeq; auto.
    - injection Hr as <- <- <-. split; [|apply D]. apply okl_of; [auto|]. constructor; [|constructor]. apply csound_new. apply (csound_kn _ _ _ _ Hco) in Eo. rewrite (csound_aval _ _ Hci). pose proof (aeq_trans _ _ _ Eo Hy) as E.
      eapply aeq_trans; [apply reshape_aeq; [exact E|exact (eq_sym Hs)]|]. apply reshape_back. exact Hs.
  Qed.
  Lemma convert_rule_ok cv back a x y : aeq y (map_arr cv x) -> (is_lit V a \/ forall i, inb (a_shape x) i -> back (cv (a_get x i)) = a_get x i) -> rule_ok [a] [x] [y] (convert_rule V W w0 cv back).
  Proof.
    intros Hy Hd ic oc ic' oc' s Hi Ho Hr _. inversion Hi as [|? ci ? ? Hci Hi']; subst. inversion Hi'; subst. inversion Ho as [|? co ? ? Hco Ho']; subst. inversion Ho'; subst. cbn [convert_rule] in Hr.
    assert (D : okl [a] [x] [ci] /\ Forall2 csound [y] [co]) by (split; [apply okl_of; auto|auto]).
    destruct (kn ci) as [[v j]|] eqn:Ei, (kn co) as [[v' j']|] eqn:Eo; try (injection Hr as <- <- <-; exact D).
    - injection Hr as <- <- <-. split; [apply D|]. constructor; [|constructor]. apply csound_new. apply (csound_kn _ _ _ _ Hci) in Ei. eapply aeq_trans; [apply map_aeq, Ei|apply aeq_sym, Hy].
    - injection Hr as <- <- <-. split; [|apply D]. constructor; [|constructor]. destruct Hd as [Hd|Hd]; [left; exact Hd|right]. cbn [snd].
      apply (csound_kn _ _ _ _ Hco) in Eo. apply csound_new. eapply aeq_trans; [apply map_aeq; eapply aeq_trans; [exact Eo|exact Hy]|]. split; [reflexivity|]. intros i Hin. cbn in *. apply Hd. exact Hin.
  Qed.
  Lemma tie_rule_ok ia vi vo : length ia = length vi -> Forall2 aeq vi vo -> rule_ok ia vi vo (tie_rule V W cord).
  Proof.
    intros Hlen He ic oc ic' oc' s Hi Ho Hr _. unfold tie_rule in Hr. destruct (tie_cells V W cord ic oc) as [l| | |] eqn:Et; try discriminate. cbn in Hr. injection Hr as <- <- <-.
    assert (X : Forall2 csound vi l). { clear Hlen. revert vo oc l He Ho Et. induction Hi as [|x c vi ic Hc Hi IH]; intros vo oc l He Ho Et; inversion He; subst; inversion Ho; subst; cbn in Et; [injection Et as <-; constructor|]. destruct (tie_cells V W cord ic l'0) as [l1| | |] eqn:El; try discriminate. cbn in Et. injection Et as <-. constructor; [|eapply IH; eauto]. apply csound_join; [exact Hc|]. eapply csound_aeq; [apply aeq_sym; eassumption|assumption]. }
    split; [apply okl_of; assumption|]. clear -He X. revert l X. induction He; intros l2 X; inversion X; subst; constructor; auto. eapply csound_aeq; eassumption.
  Qed.
  Lemma sow_rule_ok ia vi vo : length ia = length vi -> Forall2 aeq vi vo -> rule_ok ia vi vo (sow_rule V W w0 cord).
  Proof.
    intros Hlen He ic oc ic' oc' s Hi Ho Hr Hl. unfold sow_rule in Hr. destruct (kn_all ic) as [l|] eqn:El; [|eapply tie_rule_ok; eassumption]. destruct (forallb _ oc); [|eapply tie_rule_ok; eassumption]. injection Hr as <- <- <-. split; [apply okl_of; auto|]. apply F2_map_r. apply (csound_kn_all _ _ _ Hi) in El. pose proof (F2_aeq_trans _ _ _ El He) as X. clear -X. induction X; constructor; auto. apply csound_new. assumption.
  Qed.
  Lemma custom_rule_ok nc F inv ia vi vo : length ia = length vi -> Forall2 aeq (F (skipn nc vi)) vo -> proper V (Forall2 aeq) F ->
    (forall l outs js r, Forall2 (known_part V) l (skipn nc vi) -> Forall2 aeq outs vo -> inv l outs js = Ok (Some r) -> Forall2 (fun o v => match o with Some (x, _) => aeq x v | None => True end) r (skipn nc vi)) ->
    rule_ok ia vi vo (custom_rule V W w0 nc F inv).
  Proof.
    intros Hlen HF HP HI ic oc ic' oc' s Hi Ho Hr _. assert (D : okl ia vi (firstn nc ic ++ skipn nc ic) /\ Forall2 csound vo oc) by (rewrite firstn_skipn; split; [apply okl_of; auto|auto]). unfold custom_rule in Hr.
    pose proof (F2_skipn _ nc _ _ Hi) as Hx. pose proof (F2_firstn _ nc _ _ Hi) as Hcc.
    destruct (kn_all (skipn nc ic)) as [lx|] eqn:Ex, (kn_all oc) as [lo|] eqn:Eo; try (injection Hr as <- <- <-; exact D).
    - injection Hr as <- <- <-. split; [apply D|]. apply F2_map_r. apply (csound_kn_all _ _ _ Hx) in Ex. apply HP in Ex. pose proof (F2_aeq_trans _ _ _ Ex HF) as X. clear -X. induction X; constructor; auto. apply csound_new. assumption.
    - destruct (inv _ _ _) as [r| | |] eqn:Ei; try discriminate. cbn [rbind] in Hr. destruct r as [r|]; [|injection Hr as <- <- <-; exact D]. destruct (custom_cells V W (skipn nc ic) r) as [xc'| | |] eqn:Ecc; try discriminate. cbn [rbind] in Hr. injection Hr as <- <- <-. split; [|apply D].
      apply HI in Ei; [| |eapply csound_kn_all; eassumption]. 2:{ apply F2_map_l. apply F2_flip in Hx. eapply F2_imp; [|exact Hx]. intros c A Hc. cbn in Hc. destruct (kn c) as [[v j]|] eqn:Ek; cbn; [|exact I]. eapply csound_kn; eassumption. }
      apply okl_of; [exact Hlen|]. rewrite <- (firstn_skipn nc vi). apply Forall2_app; [exact Hcc|]. clear -Hx Ei Ecc. revert r xc' Ei Ecc. induction Hx as [|A c AA cs Hc Hx IH]; intros r xc' Ei Ecc; inversion Ei as [|o v r' ? Hov Ei']; subst; cbn in Ecc; [injection Ecc as <-; constructor|].
      destruct o as [[x j]|]; [|discriminate]. destruct (custom_cells V W cs r') as [m| | |] eqn:Em; try discriminate. cbn in Ecc. injection Ecc as <-. constructor; [|eapply IH; eassumption]. apply csound_one; [apply (csound_aval _ _ Hc)|exact Hov].
  Qed.
  Lemma bijector_rule_ok nc nb F G Jf ia vi x y : length ia = length vi -> skipn nb (skipn nc vi) = [x] ->
    (forall bs', Forall2 aeq bs' (firstn nb (skipn nc vi)) -> (forall x', aeq x' x -> aeq (F bs' x') y) /\ forall y', aeq y' y -> aeq (G bs' y') x) ->
    rule_ok ia vi [y] (bijector_rule V W w0 wplus nc nb F G Jf).
  Proof.
    intros Hlen Hx HFG ic oc ic' oc' s Hi Ho Hr Hl. assert (D : okl ia vi (firstn nc ic ++ skipn nc ic) /\ Forall2 csound [y] oc) by (rewrite firstn_skipn; split; [apply okl_of; auto|auto]).
    unfold bijector_rule in Hr. pose proof (F2_skipn _ nc _ _ Hi) as Hf. pose proof (F2_firstn _ nc _ _ Hi) as Hcc. pose proof (F2_firstn _ nb _ _ Hf) as Hbc. pose proof (F2_skipn _ nb _ _ Hf) as Hlast. rewrite Hx in Hlast.
    destruct (kn_all (firstn nb (skipn nc ic))) as [lb|] eqn:Eb; [|injection Hr as <- <- <-; exact D]. apply (csound_kn_all _ _ _ Hbc) in Eb. destruct (HFG _ Eb) as [HF HG].
    inversion Hlast as [|? ci ? ? Hci Hn Ex1 Ex2]; subst. inversion Hn; subst.
    destruct oc as [|co [|]]; try discriminate. assert (Hco : csound y co) by (destruct D as [_ D]; inversion D; assumption).
    assert (Efc : skipn nc ic = firstn nb (skipn nc ic) ++ [ci]) by (rewrite Ex2; symmetry; apply firstn_skipn).
    assert (Er : exists rr, rev (skipn nc ic) = ci :: rr). { rewrite Efc, rev_app_distr. cbn. eexists. reflexivity. } destruct Er as [rr Er]. rewrite Er in Hr.
    destruct (bottom ci && negb (bottom co)).
    - destruct (kn co) as [[v j]|] eqn:Eo; [|discriminate]. injection Hr as <- <- <-. split; [|apply D]. apply (csound_kn _ _ _ _ Hco) in Eo. apply okl_of; [exact Hlen|]. rewrite <- (firstn_skipn nc vi). apply Forall2_app; [exact Hcc|]. rewrite <- (firstn_skipn nb (skipn nc vi)), Hx. apply Forall2_app; [exact Hbc|]. constructor; [|constructor]. apply csound_one; [apply (csound_aval _ _ Hci)|]. apply HG, Eo.
    - destruct (bottom co && negb (bottom ci)); [|discriminate]. destruct (kn ci) as [[v j]|] eqn:Ek; [|discriminate]. injection Hr as <- <- <-. apply (csound_kn _ _ _ _ Hci) in Ek. split; [|constructor; [|constructor]; apply csound_new, HF, Ek].
      assert (Eb0 : firstn nb (skipn nc ic) = []). { rewrite !app_length in Hl. pose proof (firstn_skipn nc ic) as Z. apply (f_equal (@length _)) in Z. rewrite app_length in Z. destruct (firstn nb (skipn nc ic)); [reflexivity|]. cbn [length] in Hl. lia. }
      rewrite Eb0. cbn [app]. apply D.
  Qed.
  Lemma rules_ok p ia vi vo : length ia = length vi -> prim_holds V W p ia vi vo -> rule_ok ia vi vo (rules V W w0 wplus cord p).
  Proof.
    intros Hlen H. destruct p as [e|b|F|sl|d|sh|cv back| | |nc F inv|nc nb F G Jf]; cbn [prim_holds rules] in *.
    - destruct H as (a & x & y & -> & -> & -> & H1 & H2). apply elem_ok; assumption.
    - destruct H as (a1 & a2 & x1 & x2 & y & -> & -> & -> & H1 & H2 & H3 & H4). apply bin_ok; assumption.
    - destruct H as [H1 H2]. apply default_ok; assumption.
    - destruct H as (x & y & -> & -> & H1 & H2). apply slice_rule_ok; assumption.
    - destruct H as (y & -> & H1 & H2 & H3). apply concat_rule_ok; assumption.
    - destruct H as (x & y & -> & -> & H1 & H2). apply reshape_rule_ok; assumption.
    - destruct H as (a & x & y & -> & -> & -> & H1 & H2). apply convert_rule_ok; assumption.
    - apply tie_rule_ok; assumption.
    - apply sow_rule_ok; assumption.
    - destruct H as (H1 & H2 & H3). apply custom_rule_ok; assumption.
    - destruct H as (x & y & H1 & _ & -> & _ & H3). apply (bijector_rule_ok nc nb F G Jf ia vi x y); assumption.
  Qed.
End Sound.
