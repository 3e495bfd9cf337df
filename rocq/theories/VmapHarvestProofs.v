(** Lemmas for C68: a run of the vmapped program is a run of the program on every example. *)
From Verif Require Export VmapHarvestModel HarvestTotal.
Open Scope nat_scope.

Definition agree {A B} (R : A -> B -> Prop) (x : res A) (y : res B) : Prop :=
  match x, y with inl a, inl b => R a b | inr _, inr _ => True | _, _ => False end.
Lemma agree_rb {A B C D} (R : A -> B -> Prop) (S : C -> D -> Prop) x y f g : agree R x y -> (forall a b, x = inl a -> y = inl b -> R a b -> agree S (f a) (g b)) -> agree S (rb x f) (rb y g).
Proof. destruct x, y; cbn; auto; contradiction. Qed.
Lemma agree_l {A B} (R : A -> B -> Prop) x x' y : agree eq x x' -> agree R x' y -> agree R x y.
Proof. destruct x, x', y; cbn; intros; subst; tauto. Qed.
Lemma agree_eq {A} (x : res A) : agree eq x x.
Proof. destruct x; cbn; auto. Qed.
Lemma mapM_ext {A B} (f g : A -> res B) l : (forall a, In a l -> f a = g a) -> mapM f l = mapM g l.
Proof. induction l as [|a l IH]; intros H; [reflexivity|]. cbn. rewrite H by (left; reflexivity). rewrite IH by (intros; apply H; right; assumption). reflexivity. Qed.
Lemma mapM_map {A B C} (f : B -> res C) (g : A -> B) l : mapM f (map g l) = mapM (fun a => f (g a)) l.
Proof. induction l as [|a l IH]; [reflexivity|]. cbn. now rewrite IH. Qed.
Lemma mapM_inl {A B} (f : A -> B) l : mapM (fun a => inl (f a)) l = inl (map f l).
Proof. induction l as [|a l IH]; [reflexivity|]. cbn. now rewrite IH. Qed.
Lemma mapM_length {A B} (f : A -> res B) l : forall r, mapM f l = inl r -> List.length r = List.length l.
Proof. induction l as [|a l IH]; intros r H; cbn in H; [now injection H as <-|]. apply rb_inl in H as (b & _ & H). apply rb_inl in H as (bs & H1 & H). injection H as <-. cbn. f_equal. auto. Qed.
Lemma mapM_nth {A B} (f : A -> res B) l : forall r, mapM f l = inl r -> forall i b, nth_error r i = Some b -> exists a, nth_error l i = Some a /\ f a = inl b.
Proof.
  induction l as [|a l IH]; intros r H; cbn in H; [injection H as <-; intros [|i] b Hb; discriminate|]. apply rb_inl in H as (b & Hb & H). apply rb_inl in H as (bs & H1 & H). injection H as <-.
  intros [|i] c Hc; cbn in *; [injection Hc as <-; eauto|eauto].
Qed.
Lemma mapM_some {A B} (f : A -> res B) l r : List.length r = List.length l -> (forall i a b, nth_error l i = Some a -> nth_error r i = Some b -> f a = inl b) -> mapM f l = inl r.
Proof.
  revert r. induction l as [|a l IH]; intros [|b r] Hl H; try discriminate; [reflexivity|]. cbn. rewrite (H 0 a b eq_refl eq_refl). cbn. rewrite (IH r); [reflexivity|now injection Hl|]. intros i x y Hx Hy. exact (H (S i) x y Hx Hy).
Qed.
Lemma mapM_err {A B} (f : A -> res B) l : (exists a, In a l /\ exists e, f a = inr e) -> exists e, mapM f l = inr e.
Proof.
  induction l as [|a l IH]; intros (x & Hx & e & He); [destruct Hx|]. cbn. destruct (f a) as [b|e'] eqn:E; [|cbn; eauto]. cbn. destruct Hx as [->|Hx]; [congruence|]. destruct IH as (e' & ->); eauto. cbn. eauto.
Qed.
Lemma mapM_rb {A B C} (g : A -> res B) (h : A -> B -> res C) l :
  agree eq (mapM (fun z => rb (g z) (h z)) l) (rb (mapM g l) (fun ys => mapM (fun zy => h (fst zy) (snd zy)) (combine l ys))).
Proof.
  induction l as [|a l IH]; [reflexivity|]. cbn. destruct (g a) as [b|e]; cbn; [|exact I]. destruct (mapM g l) as [ys|e]; cbn in *.
  - destruct (h a b) as [c|e]; cbn; [|exact I]. destruct (mapM _ l) as [r|], (mapM _ (combine l ys)) as [r'|]; cbn in *; try contradiction; try exact I; congruence.
  - destruct (h a b); cbn; [|exact I]. destruct (mapM _ l); cbn in *; auto.
Qed.
Lemma nth_combine {A B} (a : list A) : forall (b : list B) i x y, nth_error (combine a b) i = Some (x, y) <-> nth_error a i = Some x /\ nth_error b i = Some y.
Proof.
  induction a as [|u a IH]; intros [|v b] [|i] x y; cbn; split; try (intros; discriminate); try (intros [? ?]; discriminate).
  - intros [= -> ->]. auto.
  - intros [[= ->] [= ->]]. reflexivity.
  - apply IH.
  - apply IH.
Qed.
Lemma nth_ex {A} (l : list A) i : i < List.length l -> exists x, nth_error l i = Some x.
Proof. intros H. destruct (nth_error l i) eqn:E; [eauto|]. apply nth_error_None in E. lia. Qed.
Lemma nth_eq {A} (l : list A) : forall l', List.length l = List.length l' -> (forall i x y, nth_error l i = Some x -> nth_error l' i = Some y -> x = y) -> l = l'.
Proof. induction l as [|a l IH]; intros [|b l'] Hl H; try discriminate; [reflexivity|]. rewrite (H 0 a b eq_refl eq_refl). f_equal. apply IH; [now injection Hl|]. intros i x y Hx Hy. exact (H (S i) x y Hx Hy). Qed.
Lemma combine_maps {A B} (l : list (A * B)) : combine (map fst l) (map snd l) = l.
Proof. induction l as [|[a b] l IH]; [reflexivity|]. cbn. now rewrite IH. Qed.
Lemma fst_combine {A B} (a : list A) : forall b : list B, List.length a = List.length b -> map fst (combine a b) = a.
Proof. induction a as [|x a IH]; intros [|y b] H; try discriminate; [reflexivity|]. cbn. f_equal. apply IH. now injection H. Qed.
Lemma snd_combine {A B} (a : list A) : forall b : list B, List.length a = List.length b -> map snd (combine a b) = b.
Proof. induction a as [|x a IH]; intros [|y b] H; try discriminate; [reflexivity|]. cbn. f_equal. apply IH. now injection H. Qed.
Lemma nth_map {A B} (f : A -> B) l i : nth_error (map f l) i = option_map f (nth_error l i).
Proof. revert i. induction l as [|a l IH]; intros [|i]; cbn; auto. Qed.
Lemma nth_map_inv {A B} (f : A -> B) l i y : nth_error (map f l) i = Some y -> exists x, nth_error l i = Some x /\ y = f x.
Proof. rewrite nth_map. destruct (nth_error l i); cbn; [|discriminate]. intros [= <-]. eauto. Qed.

(** ** matrices *)
Lemma transp_length {X} m (l : list (list X)) : Forall (fun r => List.length r = m) l -> List.length (transp m l) = m.
Proof. induction 1 as [|r l Hr Hl IH]; cbn; [apply repeat_length|]. rewrite map_length, combine_length. lia. Qed.
Lemma transp_nth {X} m (l : list (list X)) : Forall (fun r => List.length r = m) l -> forall j col, nth_error (transp m l) j = Some col ->
  List.length col = List.length l /\ forall i r x, nth_error l i = Some r -> (nth_error col i = Some x <-> nth_error r j = Some x).
Proof.
  induction 1 as [|r l Hr Hl IH]; intros j col H; cbn in H.
  - apply nth_error_In, repeat_spec in H. subst. split; [reflexivity|]. intros [|i] ? ? [=].
  - apply nth_map_inv in H as ([x c] & H & ->). apply nth_combine in H as [H1 H2]. destruct (IH _ _ H2) as [L1 L2]. cbn [fst snd]. split; [cbn; congruence|].
    intros [|i] r' y Hr'; cbn in *; [injection Hr' as <-; rewrite H1; tauto|now apply L2].
Qed.
Lemma transp_cols {X} m (l : list (list X)) : Forall (fun r => List.length r = m) l -> Forall (fun c => List.length c = List.length l) (transp m l).
Proof. intros H. apply Forall_forall. intros c Hc. apply In_nth_error in Hc as (j & Hj). now apply (transp_nth m l H j c Hj). Qed.
Lemma transp_transp {X} m k (l : list (list X)) : Forall (fun r => List.length r = m) l -> List.length l = k -> transp k (transp m l) = l.
Proof.
  intros H Hk. assert (H2 : Forall (fun c => List.length c = k) (transp m l)) by (rewrite <- Hk; now apply transp_cols).
  apply nth_eq; [rewrite transp_length; auto|]. intros i x y Hx Hy. destruct (transp_nth k _ H2 i x Hx) as [L1 L2]. rewrite transp_length in L1 by exact H. rewrite Forall_forall in H. assert (Ly : List.length y = m) by (apply H; eapply nth_error_In, Hy).
  apply nth_eq; [congruence|]. intros j u v Hu Hv. destruct (nth_ex (transp m l) j) as (col & Hcol); [rewrite transp_length by (apply Forall_forall, H); rewrite <- Ly; apply nth_error_Some; congruence|].
  apply (L2 j col u Hcol) in Hu. assert (H3 : Forall (fun r => List.length r = m) l) by now apply Forall_forall. destruct (transp_nth m l H3 j col Hcol) as [_ L4]. apply (L4 i y u Hy) in Hu. congruence.
Qed.
Lemma nth_rev {X} (l : list X) j x : nth_error (rev l) j = Some x -> nth_error l (List.length l - S j) = Some x.
Proof.
  intros H. assert (Hj : j < List.length l) by (rewrite <- rev_length; apply nth_error_Some; congruence). apply (nth_error_nth _ _ x) in H. rewrite rev_nth in H by exact Hj. rewrite <- H. apply nth_error_nth'. lia.
Qed.
Lemma transp_rev_if {X} (rv : bool) m (l : list (list X)) : Forall (fun r => List.length r = m) l -> transp m (map (rev_if rv) l) = rev_if rv (transp m l).
Proof.
  destruct rv; [|cbn [rev_if]; now rewrite map_id]. change (map (rev_if true) l) with (map (@rev X) l). change (rev_if true (transp m l)) with (rev (transp m l)). intros H. assert (H1 : Forall (fun r => List.length r = m) (map (@rev X) l)) by (apply Forall_map; eapply Forall_impl; [|exact H]; intros r Hr; cbn; now rewrite rev_length).
  apply nth_eq; [rewrite rev_length, !transp_length; auto|]. intros j x y Hx Hy. apply nth_rev in Hy. rewrite transp_length in Hy by exact H. destruct (transp_nth _ _ H1 _ _ Hx) as [L1 L2]. destruct (transp_nth _ _ H _ _ Hy) as [L3 L4]. rewrite map_length in L1.
  assert (Hj : j < m) by (rewrite <- (transp_length m _ H1); apply nth_error_Some; rewrite Hx; discriminate).
  apply nth_eq; [congruence|]. intros i u v Hu Hv. destruct (nth_ex l i) as (r & Hr); [rewrite <- L3; apply nth_error_Some; congruence|]. assert (Hr' : nth_error (map (@rev X) l) i = Some (rev r)) by now rewrite nth_map, Hr.
  apply (L2 i _ u Hr') in Hu. apply (L4 i _ v Hr) in Hv. apply nth_rev in Hu. rewrite Forall_forall in H. rewrite (H r (nth_error_In _ _ Hr)) in Hu. congruence.
Qed.
Lemma transp_map {X Y} (f : X -> Y) m (l : list (list X)) : transp m (map (map f) l) = map (map f) (transp m l).
Proof.
  induction l as [|r l IH]; cbn; [induction m; cbn; congruence|]. rewrite IH. rewrite !map_map. generalize (transp m l). clear. induction r as [|x r IH]; intros [|c l]; cbn; [reflexivity..|]. now rewrite IH.
Qed.
Lemma rev_if_length {X} rv (l : list X) : List.length (rev_if rv l) = List.length l.
Proof. destruct rv; [apply rev_length|reflexivity]. Qed.
Lemma map_rev_if {X Y} (f : X -> Y) rv l : map f (rev_if rv l) = rev_if rv (map f l).
Proof. destruct rv; [apply map_rev|reflexivity]. Qed.
Lemma rev_if_if {X} rv (l : list X) : rev_if rv (rev_if rv l) = l.
Proof. destruct rv; [apply rev_involutive|reflexivity]. Qed.
Lemma F2_rev_if {X Y} (R : X -> Y -> Prop) rv l l' : Forall2 R l l' -> Forall2 R (rev_if rv l) (rev_if rv l').
Proof. destruct rv; [|auto]. cbn. induction 1 as [|x y l l' H1 H2 IH]; cbn; [constructor|]. apply Forall2_app; [exact IH|repeat constructor; exact H1]. Qed.

(** ** loops of the examples side by side *)
Section inter.
  Context {C X Y CB XB YB : Type} (k : nat) (f : C * X -> res (C * Y)) (F : list C * XB -> res (list C * YB)) (Rc : list X -> XB -> Prop) (Ry : list Y -> YB -> Prop).
  Hypothesis step : forall cs col xb, List.length cs = k -> List.length col = k -> Rc col xb ->
    agree (fun rs r => fst r = map fst rs /\ Ry (map snd rs) (snd r)) (mapM f (combine cs col)) (F (cs, xb)).
  Lemma scan_inter cols xbs : Forall2 Rc cols xbs -> Forall (fun c => List.length c = k) cols -> forall cs, List.length cs = k ->
    agree (fun rs r => fst r = map fst rs /\ exists ycols, map snd rs = transp k ycols /\ Forall (fun c => List.length c = k) ycols /\ Forall2 Ry ycols (snd r) /\ List.length ycols = List.length cols)
      (mapM (fun cr => scan_loop f (fst cr) (snd cr)) (combine cs (transp k cols))) (scan_loop F cs xbs).
  Proof.
    induction 1 as [|col xb cols xbs Hr _ IH]; intros Hk cs Hcs.
    - cbn [transp scan_loop]. rewrite (mapM_ext _ (fun cr => inl (fst cr, []))); [|intros [c r] H; apply in_combine_r, repeat_spec in H; subst r; reflexivity]. rewrite mapM_inl. cbn. rewrite !map_map. cbn. split; [symmetry; apply fst_combine; now rewrite repeat_length|].
      exists []. cbn. repeat split; try constructor. clear -Hcs. revert k Hcs. induction cs as [|c cs IH]; intros [|k] H; try discriminate; [reflexivity|]. cbn. f_equal. apply IH. now injection H.
    - pose proof (Forall_inv Hk) as Hc. pose proof (Forall_inv_tail Hk) as Hk'. cbn beta in Hc. pose proof (transp_length _ _ Hk') as Hrows. set (rows := transp k cols) in *.
      assert (E : combine cs (transp k (col :: cols)) = map (fun z => (fst z, fst (snd z) :: snd (snd z))) (combine cs (combine col rows))).
      { cbn [transp]. fold rows. generalize (combine col rows). clear. induction cs as [|c cs IH]; intros [|x l]; cbn; [reflexivity..|]. now rewrite IH. }
      rewrite E, mapM_map. cbn [fst snd scan_loop]. set (zs := combine cs (combine col rows)).
      assert (Lz : List.length zs = k) by (unfold zs; rewrite !combine_length; lia).
      eapply agree_l; [apply (mapM_rb (fun z => f (fst z, fst (snd z))) (fun z cy => rb (scan_loop f (fst cy) (snd (snd z))) (fun r => inl (fst r, snd cy :: snd r))))|].
      assert (E1 : mapM (fun z => f (fst z, fst (snd z))) zs = mapM f (combine cs col)).
      { replace (combine cs col) with (map (fun z => (fst z, fst (snd z))) zs); [now rewrite mapM_map|]. unfold zs. assert (H : List.length cs = List.length col /\ List.length col = List.length rows) by (split; congruence). clearbody rows. clear - H. revert col rows H. induction cs as [|c cs IH]; intros [|x col] [|r rows] [H1 H2]; cbn; try discriminate; [reflexivity|]. rewrite IH; [reflexivity|]. cbn in H1, H2; lia. }
      rewrite E1. eapply agree_rb; [apply (step cs col xb Hcs Hc Hr)|]. intros rs1 [cs1 y1] M1 _ [Hcs1 Hy1]. cbn [fst snd] in *. assert (L1 : List.length rs1 = k) by (apply mapM_length in M1; rewrite combine_length in M1; lia).
      eapply agree_l; [apply (mapM_rb (fun zy => scan_loop f (fst (snd zy)) (snd (snd (fst zy)))) (fun zy r => inl (fst r, snd (snd zy) :: snd r)))|].
      assert (E2 : mapM (fun zy => scan_loop f (fst (snd zy)) (snd (snd (fst zy)))) (combine zs rs1) = mapM (fun cr => scan_loop f (fst cr) (snd cr)) (combine cs1 rows)).
      { rewrite Hcs1. replace (combine (map fst rs1) rows) with (map (fun zy => (fst (snd zy), snd (snd (fst zy)))) (combine zs rs1)); [now rewrite mapM_map|]. unfold zs. assert (H : List.length cs = List.length col /\ List.length col = List.length rows /\ List.length rs1 = List.length cs) by (repeat split; congruence). clearbody rows. clear - H. revert col rows rs1 H. induction cs as [|c cs IH]; intros [|x col] [|r rows] [|r1 rs1] (H1 & H2 & H3); cbn; try discriminate; [reflexivity|]. rewrite IH; [reflexivity|]. cbn in H1, H2, H3; lia. }
      rewrite E2. assert (Lc1 : List.length cs1 = k) by (rewrite Hcs1, map_length; exact L1). eapply agree_rb; [apply (IH Hk' cs1 Lc1)|]. intros rs2 [cs2 ys2] M2 _ (Hcs2 & ycols & Ey & Fy & Ry2 & Ly). cbn [fst snd] in *. rewrite mapM_inl. cbn [agree fst snd].
      assert (L2 : List.length rs2 = k) by (apply mapM_length in M2; rewrite combine_length in M2; lia). rewrite !map_map. cbn [fst snd]. split.
      + rewrite Hcs2. rewrite <- (map_map snd fst). rewrite snd_combine; [reflexivity|]. rewrite combine_length. lia.
      + exists (map snd rs1 :: ycols). cbn [transp]. rewrite <- Ey. split; [|split; [constructor; [now rewrite map_length|exact Fy]|split; [constructor; assumption|cbn; congruence]]].
        clearbody zs. clear - Lz L1 L2. assert (H : List.length zs = List.length rs1 /\ List.length rs1 = List.length rs2) by (split; congruence). clear Lz L1 L2. revert rs1 rs2 H. induction zs as [|z zs IH]; intros [|r1 rs1] [|r2 rs2] [H1 H2]; cbn; try discriminate; [reflexivity|]. rewrite IH; [reflexivity|]. cbn in H1, H2; lia.
  Qed.
End inter.
