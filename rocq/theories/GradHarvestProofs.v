(** C75, proofs: jvp computes tangents; reap and plant keep programs differentiable. *)
From Verif Require Export GradHarvestSpec JvpHarvestProps.
From Coq Require Import Reals Lra.
Open Scope string_scope. Open Scope list_scope. Open Scope nat_scope.
#[local] Existing Instance RealArrays.

(** ** near *)
Lemma near_all (P : R -> Prop) : (forall t, P t) -> near P.
Proof. intros H. exists 1%R. split; [lra|auto]. Qed.
Lemma near_imp (P Q : R -> Prop) : near P -> (forall t, P t -> Q t) -> near Q.
Proof. intros (e & He & H) K. exists e. split; auto. Qed.
Lemma near2 (P Q S : R -> Prop) : near P -> near Q -> (forall t, P t -> Q t -> S t) -> near S.
Proof.
  intros (e & He & H) (e' & He' & H') K. exists (Rmin e e'). split; [apply Rmin_pos; assumption|]. intros t Ht. apply K; [apply H|apply H'].
  - eapply Rlt_le_trans; [exact Ht|apply Rmin_l].
  - eapply Rlt_le_trans; [exact Ht|apply Rmin_r].
Qed.
Lemma near3 (P Q S U : R -> Prop) : near P -> near Q -> near S -> (forall t, P t -> Q t -> S t -> U t) -> near U.
Proof. intros H1 H2 H3 K. apply (near2 (fun t => P t /\ Q t) S); [apply (near2 P Q); auto|exact H3|]. intros t [A B] C. auto. Qed.
Lemma near_0 (P : R -> Prop) : near P -> P 0%R.
Proof. intros (e & He & H). apply H. rewrite Rabs_R0. exact He. Qed.
Lemma subrel_refl {A} (P : tanrel A) : subrel P P.
Proof. intros c a da H. exact H. Qed.
Lemma subrel_trans {A} (P Q S : tanrel A) : subrel P Q -> subrel Q S -> subrel P S.
Proof. intros H K c a da G. apply K, H, G. Qed.
Lemma tan_pair_sub {A B} (P P' : tanrel A) (Q Q' : tanrel B) : subrel P P' -> subrel Q Q' -> subrel (tan_pair P Q) (tan_pair P' Q').
Proof. intros H K c a da (c1 & c2 & E & G1 & G2). exists c1, c2. repeat split; auto. Qed.
Lemma tan_pair_intro {A B} (P : tanrel A) (Q : tanrel B) c1 c2 a b da db : P c1 a da -> Q c2 b db -> tan_pair P Q (fun t => (c1 t, c2 t)) (a, b) (da, db).
Proof. intros H K. exists c1, c2. split; [apply near_all; reflexivity|]. split; assumption. Qed.

Lemma smooth_sub {W : string -> string -> tanrel tree} {A B} (p : dprog A B) : forall P P' Q Q', subrel P' P -> subrel Q Q' -> smooth W p P Q -> smooth W p P' Q'.
Proof.
  induction p as [A B f df|A B C p IHp q IHq|A B C p IHp|t n m av|t n av|A B sc p IHp|A B p IHp|C X Y rv len p IHp|C c p IHp|A B p IHp q IHq]; intros P P' Q Q' HP HQ H; cbn [smooth] in *.
  - intros c a da b db Hc Hf Hd. destruct (H c a da b db (HP _ _ _ Hc) Hf Hd) as (c' & E & G). exists c'. auto.
  - destruct H as (M & H1 & H2). exists M. split; [eapply IHp; [exact HP|apply subrel_refl|exact H1]|eapply IHq; [apply subrel_refl|exact HQ|exact H2]].
  - destruct H as (P1 & Q1 & PC & H1 & H2 & H3). exists P1, Q1, PC. split; [|split]; [eapply subrel_trans; eassumption|exact H2|eapply subrel_trans; eassumption].
  - destruct H as (H1 & H2 & H3). split; [eapply subrel_trans; eassumption|]. split; [eapply subrel_trans; [exact HP|]|]; eapply subrel_trans; eassumption.
  - destruct H as (P1 & H1 & H2 & H3 & H4). exists P1. split; [eapply subrel_trans; eassumption|]. split; [exact H2|]. split; eapply subrel_trans; eassumption.
  - eapply IHp; eassumption.
  - eapply IHp; eassumption.
  - destruct H as (PC & PX & PY & H1 & H2 & H3). exists PC, PX, PY. split; [|split]; [eapply subrel_trans; eassumption|exact H2|eapply subrel_trans; eassumption].
  - destruct H as (I & H1 & H2 & H3 & H4). exists I. split; [eapply subrel_trans; eassumption|]. split; [exact H2|]. split; [exact H3|eapply subrel_trans; eassumption].
  - destruct H as (P1 & H1 & H2 & H3). exists P1. split; [eapply subrel_trans; eassumption|]. split; [eapply IHp|eapply IHq]; try eassumption; apply subrel_refl.
Qed.

(** ** jvp computes tangents *)
Lemma scan_loop_tangent {C X Y} (PC : tanrel C) (PX : tanrel X) (PY : tanrel Y) (f : C * X -> res (C * Y)) (g : (C * C) * (X * X) -> res ((C * C) * (Y * Y))) :
  (forall c a da b db, tan_pair PC PX c a da -> g (across (a, da)) = inl (across (b, db)) -> exists c', near (fun t => f (c t) = inl (c' t)) /\ tan_pair PC PY c' b db) ->
  forall ds c a da r, Forall (holds PX) ds -> PC c a da -> scan_loop g (a, da) (map (fun x => (pt x, ta x)) ds) = inl r ->
    exists c' es, near (fun t => scan_loop f (c t) (map (fun x => cu x t) ds) = inl (c' t, map (fun y => cu y t) es)) /\ PC c' (fst (fst r)) (snd (fst r)) /\ Forall (holds PY) es /\ snd r = map (fun y => (pt y, ta y)) es.
Proof.
  intros Hg. induction ds as [|x ds IH]; intros c a da r Hx Hc H; cbn [map scan_loop] in *.
  - injection H as <-. exists c, []. split; [apply near_all; reflexivity|]. split; [exact Hc|]. split; constructor.
  - inversion Hx as [|? ? Hx1 Hx2]; subst. apply rb_inl in H as ([[b db] [y dy]] & H1 & H). apply rb_inl in H as (r2 & H2 & H). injection H as <-. cbn [fst snd] in *.
    destruct (Hg (fun t => (c t, cu x t)) (a, pt x) (da, ta x) (b, y) (db, dy)) as (c' & E & c1 & c2 & E' & K1 & K2); [apply tan_pair_intro; assumption|exact H1|]. cbn [fst snd] in *.
    destruct (IH c1 b db r2 Hx2 K1 H2) as (c3 & es & E3 & G1 & G2 & G3). exists c3, ((c2, (y, dy)) :: es). split.
    + eapply near3; [exact E|exact E'|exact E3|]. intros t A1 A2 A3. cbn beta in *. rewrite A1. cbn [rb]. rewrite A2. cbn [fst snd]. rewrite A3. reflexivity.
    + cbn [fst snd]. split; [exact G1|]. split; [constructor; [exact K2|exact G2]|]. cbn [map]. rewrite G3. reflexivity.
Qed.
Lemma combine_map {X Y Z} (f : X -> Y) (g : X -> Z) l : combine (map f l) (map g l) = map (fun x => (f x, g x)) l.
Proof. induction l; cbn; congruence. Qed.
Lemma rev_if_map {X Y} (f : X -> Y) b l : rev_if b (map f l) = map f (rev_if b l).
Proof. destruct b; cbn; [rewrite map_rev|]; reflexivity. Qed.
Lemma Forall_rev_if {X} (P : X -> Prop) b l : Forall P l -> Forall P (rev_if b l).
Proof. destruct b; cbn; [apply Forall_rev|auto]. Qed.
Lemma while_tangent {C} (I : tanrel C) (c : C -> res bool) (f : C -> res C) (g : C * C -> res (C * C)) :
  (forall k a da b, I k a da -> c a = inl b -> near (fun t => c (k t) = inl b)) ->
  (forall k a da b db, I k a da -> g (a, da) = inl (b, db) -> exists k', near (fun t => f (k t) = inl (k' t)) /\ I k' b db) ->
  forall fuel k a da b db, I k a da -> while_loop fuel (fun x => c (fst x)) g (a, da) = inl (b, db) -> exists k', near (fun t => while_loop fuel c f (k t) = inl (k' t)) /\ I k' b db.
Proof.
  intros Hc Hg. induction fuel as [|fuel IH]; intros k a da b db Hk H; cbn [while_loop fst] in *; apply rb_inl in H as (bo & Hb & H); pose proof (Hc _ _ _ _ Hk Hb) as N; destruct bo; try discriminate.
  - injection H as <- <-. exists k. split; [|exact Hk]. eapply near_imp; [exact N|]. intros t E. cbn beta in *. rewrite E. reflexivity.
  - apply rb_inl in H as ([a1 da1] & H1 & H). destruct (Hg _ _ _ _ _ Hk H1) as (k1 & E1 & K1). destruct (IH _ _ _ _ _ K1 H) as (k2 & E2 & K2). exists k2. split; [|exact K2].
    eapply near3; [exact N|exact E1|exact E2|]. intros t A1 A2 A3. cbn beta in *. rewrite A1. cbn [rb]. rewrite A2. cbn [rb]. exact A3.
  - injection H as <- <-. exists k. split; [|exact Hk]. eapply near_imp; [exact N|]. intros t E. cbn beta in *. rewrite E. reflexivity.
Qed.

(** ** trees *)
Lemma near_Forall {X} (P : X -> R -> Prop) l : Forall (fun x => near (P x)) l -> near (fun t => Forall (fun x => P x t) l).
Proof. induction 1 as [|x l H _ IH]; [apply near_all; constructor|]. eapply near2; [exact H|exact IH|]. intros t A B. constructor; assumption. Qed.
Section tan_ind.
  Variable Q : tanrel tree.
  Hypothesis HL : forall c g v dv, near (fun t => c t = Leaf (g t)) -> tan_arr g v dv -> Q c (Leaf v) (Leaf dv).
  Hypothesis HD : forall c (ds : list (string * tan3 tree)), near (fun t => c t = Dict (at_keys (fun x => cu x t) ds)) ->
    Forall (fun e => tan_tree (cu (snd e)) (pt (snd e)) (ta (snd e))) ds -> Forall (fun e => Q (cu (snd e)) (pt (snd e)) (ta (snd e))) ds -> Q c (Dict (at_keys pt ds)) (Dict (at_keys ta ds)).
  Hypothesis HS : forall c (ds : list (tan3 tree)), near (fun t => c t = Stk (map (fun x => cu x t) ds)) ->
    Forall (fun x => tan_tree (cu x) (pt x) (ta x)) ds -> Forall (fun x => Q (cu x) (pt x) (ta x)) ds -> Q c (Stk (map pt ds)) (Stk (map ta ds)).
  Fixpoint tan_tree_ind' c v dv (H : tan_tree c v dv) {struct H} : Q c v dv :=
    match H in tan_tree c v dv return Q c v dv with
    | TanLeaf c g v dv H1 H2 => HL c g v dv H1 H2
    | TanDict c ds H1 H2 => HD c ds H1 H2 ((fix go ds (H : Forall (fun e => tan_tree (cu (snd e)) (pt (snd e)) (ta (snd e))) ds) : Forall (fun e => Q (cu (snd e)) (pt (snd e)) (ta (snd e))) ds :=
        match H with Forall_nil _ => Forall_nil _ | Forall_cons e H1 H2 => Forall_cons e (tan_tree_ind' _ _ _ H1) (go _ H2) end) ds H2)
    | TanStk c ds H1 H2 => HS c ds H1 H2 ((fix go ds (H : Forall (fun x => tan_tree (cu x) (pt x) (ta x)) ds) : Forall (fun x => Q (cu x) (pt x) (ta x)) ds :=
        match H with Forall_nil _ => Forall_nil _ | Forall_cons e H1 H2 => Forall_cons e (tan_tree_ind' _ _ _ H1) (go _ H2) end) ds H2)
    end.
End tan_ind.
Lemma tan_arr_aval c v dv : tan_arr c v dv -> near (fun t => raval (c t) = raval v) /\ raval dv = raval v.
Proof.
  unfold tan_arr. destruct v as [l|k], dv as [dl|dk]; try contradiction.
  - intros (g & E & ds & E' & -> & -> & _). split; [|cbn; rewrite !map_length; reflexivity]. eapply near2; [exact E|exact E'|]. intros t A B. cbn beta in *. rewrite A, B. cbn. rewrite !map_length. reflexivity.
  - intros [E ->]. split; [|reflexivity]. eapply near_imp; [exact E|]. intros t A. rewrite A. reflexivity.
Qed.
(** the form of a tree near the point, and of its tangent, is that of the point *)
Lemma has_aval_both c v dv : tan_tree c v dv -> forall av, near (fun t => has_aval (c t) av = has_aval v av) /\ has_aval dv av = has_aval v av.
Proof.
  induction 1 as [c g v dv E H|c ds E _ IH|c ds E _ IH] using tan_tree_ind'; intros av.
  - apply tan_arr_aval in H as [H1 H2]. destruct av as [a|l|n a]; cbn [has_aval]; [|split; [eapply near_imp; [exact E|]; intros t A; rewrite A; reflexivity|reflexivity]..].
    split; [|cbn; rewrite H2; reflexivity]. eapply near2; [exact E|exact H1|]. intros t A B. cbn beta in *. rewrite A. cbn [has_aval avalV RealArrays]. rewrite B. reflexivity.
  - destruct av as [a|l|n a]; [split; [eapply near_imp; [exact E|]; intros t A; rewrite A; reflexivity|reflexivity]| |split; [eapply near_imp; [exact E|]; intros t A; rewrite A; reflexivity|reflexivity]].
    assert (G : near (fun t => has_aval (Dict (at_keys (fun x => cu x t) ds)) (AD l) = has_aval (Dict (at_keys pt ds)) (AD l)) /\ has_aval (Dict (at_keys ta ds)) (AD l) = has_aval (Dict (at_keys pt ds)) (AD l)).
    { clear E. revert l. induction IH as [|[k x] ds H _ IH]; intros l; [split; [apply near_all|]; destruct l; reflexivity|]. destruct l as [|[k' a] l]; [split; [apply near_all|]; reflexivity|].
      destruct (H a) as [H1 H2]. destruct (IH l) as [I1 I2]. cbn [at_keys map has_aval fst snd] in *. split.
      - eapply near2; [exact H1|exact I1|]. intros t A B. cbn beta in *. rewrite A. f_equal. exact B.
      - rewrite H2. f_equal. exact I2. }
    destruct G as [G1 G2]. split; [|exact G2]. eapply near2; [exact E|exact G1|]. intros t A B. cbn beta in *. rewrite A. exact B.
  - destruct av as [a|l|n a]; [split; [eapply near_imp; [exact E|]; intros t A; rewrite A; reflexivity|reflexivity]..|].
    assert (G : near (fun t => forallb (fun x => has_aval x a) (map (fun x => cu x t) ds) = forallb (fun x => has_aval x a) (map pt ds)) /\ forallb (fun x => has_aval x a) (map ta ds) = forallb (fun x => has_aval x a) (map pt ds)).
    { clear E. induction IH as [|x ds H _ [IH1 IH2]]; [split; [apply near_all|]; reflexivity|]. destruct (H a) as [H1 H2]. cbn [map forallb]. split; [|rewrite H2, IH2; reflexivity].
      eapply near2; [exact H1|exact IH1|]. intros t A B. cbn beta in *. rewrite A, B. reflexivity. }
    destruct G as [G1 G2]. cbn [has_aval]. rewrite !map_length. split; [|rewrite G2; reflexivity]. eapply near2; [exact E|exact G1|]. intros t A B. cbn beta in *. rewrite A. cbn [has_aval]. rewrite map_length, B. reflexivity.
Qed.
Lemma has_aval_tan c v dv av : tan_tree c v dv -> near (fun t => has_aval (c t) av = has_aval v av).
Proof. intros H. apply (has_aval_both c v dv H av). Qed.
Lemma tan_const_0 n : tan_list tan_num (fun _ => repeat 0%R n) (repeat 0%R n) (repeat 0%R n).
Proof.
  exists (repeat ((fun _ => 0%R), (0%R, 0%R)) n). assert (E : forall {X Y} (f : X -> Y) x k, map f (repeat x k) = repeat (f x) k) by (intros X Y f x k; induction k; cbn; congruence).
  split; [apply near_all; intros t; rewrite E; reflexivity|]. rewrite !E. split; [reflexivity|]. split; [reflexivity|]. apply Forall_forall. intros x Hx. apply repeat_spec in Hx. subst x. split; [reflexivity|]. apply derivable_pt_lim_const.
Qed.
Lemma tan_zero_arr a : tan_arr (fun _ => rzero a) (rzero a) (rzero a).
Proof. destruct a as [n|]; cbn; [|split; [apply near_all|]; reflexivity]. exists (fun _ => repeat 0%R n). split; [apply near_all; reflexivity|apply tan_const_0]. Qed.
Lemma tan_tree_eq c v dv v' dv' : tan_tree c v dv -> v = v' -> dv = dv' -> tan_tree c v' dv'.
Proof. intros H <- <-. exact H. Qed.
Lemma tan_zeros a : tan_tree (fun _ => zeros a) (zeros a) (zeros a).
Proof.
  induction a as [a|l IH|n a IH] using aval_ind'.
  - apply TanLeaf with (fun _ => rzero a); [apply near_all; reflexivity|apply tan_zero_arr].
  - cbn [zeros]. pose (ds := map (fun ka : string * aval => (fst ka, ((fun _ : R => zeros (snd ka)), (zeros (snd ka), zeros (snd ka))))) l).
    apply (tan_tree_eq _ (Dict (at_keys pt ds)) (Dict (at_keys ta ds))); [|unfold ds, at_keys; rewrite map_map; reflexivity..].
    apply TanDict; [apply near_all; intros t; unfold ds, at_keys; rewrite map_map; reflexivity|]. unfold ds. apply Forall_map. eapply Forall_impl; [|exact IH]. intros ka H. exact H.
  - cbn [zeros]. pose (ds := repeat ((fun _ : R => zeros a), (zeros a, zeros a)) n : list (tan3 tree)). assert (E : forall {X Y} (f : X -> Y) x k, map f (repeat x k) = repeat (f x) k) by (intros X Y f x k; induction k; cbn; congruence).
    apply (tan_tree_eq _ (Stk (map pt ds)) (Stk (map ta ds))); [|unfold ds; rewrite E; reflexivity..].
    apply TanStk; [apply near_all; intros t; unfold ds; rewrite E; reflexivity|]. apply Forall_forall. intros x Hx. apply repeat_spec in Hx. subst x. exact IH.
Qed.
Lemma tan_zeros_like c v dv : tan_tree c v dv -> tan_tree (fun t => zeros_like (c t)) (zeros_like v) (zeros_like dv).
Proof.
  induction 1 as [c g v dv E H|c ds E _ IH|c ds E _ IH] using tan_tree_ind'.
  - apply tan_arr_aval in H as [H1 H2]. cbn [zeros_like]. cbn [avalV RealArrays zeroV]. rewrite H2. apply TanLeaf with (fun _ => rzero (raval v)); [|apply tan_zero_arr]. eapply near2; [exact E|exact H1|]. intros t A B. cbn beta in *. rewrite A. cbn. rewrite B. reflexivity.
  - pose (es := map (fun e : string * tan3 tree => (fst e, ((fun t => zeros_like (cu (snd e) t)), (zeros_like (pt (snd e)), zeros_like (ta (snd e)))))) ds).
    replace (zeros_like (Dict (at_keys pt ds))) with (Dict (at_keys pt es)) by (unfold es, at_keys; cbn; rewrite !map_map; reflexivity).
    replace (zeros_like (Dict (at_keys ta ds))) with (Dict (at_keys ta es)) by (unfold es, at_keys; cbn; rewrite !map_map; reflexivity).
    apply TanDict; [eapply near_imp; [exact E|]; intros t A; cbn beta in *; rewrite A; unfold es, at_keys; cbn; rewrite !map_map; reflexivity|]. unfold es. apply Forall_map. eapply Forall_impl; [|exact IH]. intros ka H. exact H.
  - pose (es := map (fun e : tan3 tree => ((fun t => zeros_like (cu e t)), (zeros_like (pt e), zeros_like (ta e)))) ds).
    replace (zeros_like (Stk (map pt ds))) with (Stk (map pt es)) by (unfold es; cbn; rewrite !map_map; reflexivity).
    replace (zeros_like (Stk (map ta ds))) with (Stk (map ta es)) by (unfold es; cbn; rewrite !map_map; reflexivity).
    apply TanStk; [eapply near_imp; [exact E|]; intros t A; cbn beta in *; rewrite A; unfold es; cbn; rewrite !map_map; reflexivity|]. unfold es. apply Forall_map. eapply Forall_impl; [|exact IH]. intros ka H. exact H.
Qed.

Theorem jvp_tangent {W : string -> string -> tanrel tree} fuel {A B} (p : dprog A B) : forall P Q, smooth W p P Q -> forall c a da b db, P c a da -> run fuel (jvpT p) (a, da) = inl (b, db) ->
  exists c', near (fun t => run fuel (primal p) (c t) = inl (c' t)) /\ Q c' b db.
Proof.
  induction p as [A B f df|A B C p IHp q IHq|A B C p IHp|t n m av|t n av|A B sc p IHp|A B p IHp|C X Y rv len p IHp|C k p IHp|A B p IHp q IHq]; intros P Q S c a da b db Hc H; cbn [smooth jvpT primal run] in *.
  - cbn [fst snd] in H. apply rb_inl in H as (y & Hy & H). apply rb_inl in H as (dy & Hdy & H). injection H as <- <-. exact (S _ _ _ _ _ Hc Hy Hdy).
  - destruct S as (M & S1 & S2). apply rb_inl in H as ([y dy] & H1 & H2). destruct (IHp _ _ S1 _ _ _ _ _ Hc H1) as (c1 & E1 & K1). destruct (IHq _ _ S2 _ _ _ _ _ K1 H2) as (c2 & E2 & K2). exists c2. split; [|exact K2].
    eapply near2; [exact E1|exact E2|]. intros t A1 A2. cbn beta in *. rewrite A1. exact A2.
  - destruct S as (P1 & Q1 & PC & S1 & S2 & S3). cbn [rb across fst snd] in H. apply rb_inl in H as (z & Hz & H). apply rb_inl in Hz as ([y dy] & Hy & E). injection E as <-. injection H as <- <-. cbn [fst snd] in *.
    destruct (S1 _ _ _ Hc) as (c1 & c2 & E & K1 & K2). destruct (IHp _ _ S2 _ _ _ _ _ K1 Hy) as (c3 & E3 & K3). exists (fun t => (c3 t, c2 t)). split; [|apply S3, tan_pair_intro; assumption].
    eapply near2; [exact E|exact E3|]. intros t A1 A2. cbn beta in *. rewrite A1. cbn [fst snd]. rewrite A2. reflexivity.
  - destruct S as (S1 & S2 & _). cbn [fst snd] in H. apply rb_inl in H as (y & Hy & H). injection H as <- <-. destruct (is_cond m); [discriminate|]. unfold chk in Hy. destruct (has_aval a av) eqn:Ha; [|discriminate]. injection Hy as <-.
    exists c. split; [|apply S2, Hc]. eapply near_imp; [apply (has_aval_tan c a da av), S1, Hc|]. intros t' E. cbn beta in E. unfold chk. rewrite E, Ha. reflexivity.
  - destruct S as (P1 & S1 & S2 & S3 & _). cbn [rb fst snd] in H. apply rb_inl in H as (y & Hy & H). injection H as <- <-. cbn [fst snd] in *. unfold chk in Hy. destruct (has_aval (fst a) av) eqn:Ha; [|discriminate]. injection Hy as <-.
    destruct (S1 _ _ _ Hc) as (c1 & c2 & E & K1 & K2). exists c1. split; [|apply S3, K1]. eapply near2; [exact E|apply (has_aval_tan c1 (fst a) (fst da) av), S2, K1|]. intros t' E1 E2. cbn beta in *. rewrite E1. cbn [fst]. unfold chk. rewrite E2, Ha. reflexivity.
  - exact (IHp _ _ S _ _ _ _ _ Hc H).
  - exact (IHp _ _ S _ _ _ _ _ Hc H).
  - destruct S as (PC & PX & PY & S1 & S2 & S3). destruct (S1 _ _ _ Hc) as (c1 & c2 & E & K1 & ds & K2 & K3 & K4 & K5). cbn [fst snd] in *. rewrite K3, K4 in H. rewrite !map_length, Nat.eqb_refl in H. cbn [rb] in H. rewrite combine_map in H.
    apply rb_inl in H as (cy & H & G). injection G as <- <-. unfold scan_sem in H. cbn [fst snd] in H. rewrite map_length in H. destruct (Nat.eqb (List.length ds) len) eqn:El; [|discriminate]. apply rb_inl in H as (r & H & G). injection G as <-. rewrite rev_if_map in H.
    match type of H with scan_loop ?g _ _ = _ => assert (Hg : forall c a da b db, tan_pair PC PX c a da -> g (across (a, da)) = inl (across (b, db)) -> exists c', near (fun t => run fuel (primal p) (c t) = inl (c' t)) /\ tan_pair PC PY c' b db) end.
    { intros k x dx y dy Hk Hg. apply rb_inl in Hg as ([u du] & Hu & Hg). destruct x as [x1 x2], dx as [dx1 dx2], y as [y1 y2], dy as [dy1 dy2], u as [u1 u2], du as [du1 du2]. unfold across in Hg, Hu. cbn [fst snd] in Hg, Hu. injection Hg as <- <- <- <-. exact (IHp _ _ S2 _ _ _ _ _ Hk Hu). }
    destruct (scan_loop_tangent PC PX PY (run fuel (primal p)) _ Hg (rev_if rv ds) c1 (fst a) (fst da) r (Forall_rev_if _ rv _ K5) K1 H) as (c' & es & E' & G1 & G2 & G3).
    exists (fun t => (c' t, map (fun y => cu y t) (rev_if rv es))). split.
    + eapply near3; [exact E|exact K2|exact E'|]. intros t A1 A2 A3. cbn beta in *. rewrite A1. unfold scan_sem. cbn [fst snd]. rewrite A2, map_length, El, rev_if_map, A3. cbn [rb fst snd]. rewrite rev_if_map. reflexivity.
    + apply S3. cbn [fst snd]. rewrite G3, rev_if_map, !map_map. cbn [fst snd]. apply tan_pair_intro; [exact G1|]. exists (rev_if rv es). split; [apply near_all; reflexivity|]. split; [reflexivity|]. split; [reflexivity|]. apply Forall_rev_if, G2.
  - destruct S as (I & S1 & S2 & S3 & S4). destruct (while_tangent I k (run fuel (primal p)) (run fuel (jvpT p)) S2 (IHp _ _ S3) fuel _ _ _ _ _ (S1 _ _ _ Hc) H) as (k' & E & K). exists k'. split; [exact E|apply S4, K].
  - destruct S as (P1 & S1 & S2 & S3). cbn [rb fst snd] in H. destruct (S1 _ _ _ Hc) as (c1 & c2 & E & K1 & K2). unfold tan_bool in K1. destruct (fst a).
    + destruct (IHp _ _ S2 _ _ _ _ _ K2 H) as (c' & E' & K'). exists c'. split; [|exact K']. eapply near3; [exact E|exact K1|exact E'|]. intros t A1 A2 A3. cbn beta in *. rewrite A1. cbn [fst snd]. rewrite A2. exact A3.
    + destruct (IHq _ _ S3 _ _ _ _ _ K2 H) as (c' & E' & K'). exists c'. split; [|exact K']. eapply near3; [exact E|exact K1|exact E'|]. intros t A1 A2 A3. cbn beta in *. rewrite A1. cbn [fst snd]. rewrite A2. exact A3.
Qed.
