(** Proofs about reap: outputs are unchanged (C23), metadata = sites. *)
From Verif Require Export HarvestSpec.

Definition rel_res {A B} (R : A -> B -> Prop) (x : res A) (y : res B) : Prop :=
  match x, y with inl a, inl b => R a b | inr e, inr e' => e = e' | _, _ => False end.
Lemma rel_res_rb {A B A' B'} (R : A -> A' -> Prop) (Q : B -> B' -> Prop) x y f g :
  rel_res R x y -> (forall a a', R a a' -> rel_res Q (f a) (g a')) -> rel_res Q (rb x f) (rb y g).
Proof. destruct x, y; simpl; try tauto; auto. Qed.
Lemma rel_res_mono {A B} (R Q : A -> B -> Prop) x y : (forall a b, R a b -> Q a b) -> rel_res R x y -> rel_res Q x y.
Proof. destruct x, y; simpl; auto. Qed.
Lemma rb_inl {A B} (x : res A) (f : A -> res B) y : rb x f = inl y -> exists a, x = inl a /\ f a = inl y.
Proof. destruct x; simpl; [eauto|discriminate]. Qed.

Section loops.
  Lemma scan_loop_hist {C C' X X' Y Y' O} (f : C * X -> res (C * (Y * O))) (g : C' * X' -> res (C' * Y'))
      (I : list O -> C -> C' -> Prop) (Rx : X -> X' -> Prop) (Ry : Y * O -> Y' -> Prop) :
    (forall h c c' x x', I h c c' -> Rx x x' ->
       rel_res (fun r r' => I (h ++ [snd (snd r)]) (fst r) (fst r') /\ Ry (snd r) (snd r')) (f (c, x)) (g (c', x'))) ->
    forall xs xs' h c c', I h c c' -> Forall2 Rx xs xs' ->
      rel_res (fun r r' => I (h ++ map snd (snd r)) (fst r) (fst r') /\ Forall2 Ry (snd r) (snd r')) (scan_loop f c xs) (scan_loop g c' xs').
  Proof.
    intros Hf xs. induction xs as [|x xs IH]; intros xs' h c c' HI Hx; inversion_clear Hx as [|? x1 ? xs1 Hxx Hxs]; simpl.
    - rewrite app_nil_r. auto.
    - eapply rel_res_rb; [apply Hf; eassumption|]. intros [c1 y1] [c1' y1'] [H1 H2]. simpl in *.
      eapply rel_res_rb; [apply IH; eassumption|]. intros [c2 y2] [c2' y2'] [H3 H4]. simpl in *.
      rewrite <- app_assoc in H3. simpl in H3. auto.
  Qed.
  Lemma scan_loop_rel {C C' X X' Y Y'} (f : C * X -> res (C * Y)) (g : C' * X' -> res (C' * Y'))
      (I : C -> C' -> Prop) (Rx : X -> X' -> Prop) (Ry : Y -> Y' -> Prop) :
    (forall c c' x x', I c c' -> Rx x x' ->
       rel_res (fun r r' => I (fst r) (fst r') /\ Ry (snd r) (snd r')) (f (c, x)) (g (c', x'))) ->
    forall xs xs' c c', I c c' -> Forall2 Rx xs xs' ->
      rel_res (fun r r' => I (fst r) (fst r') /\ Forall2 Ry (snd r) (snd r')) (scan_loop f c xs) (scan_loop g c' xs').
  Proof.
    intros Hf xs. induction xs as [|x xs IH]; intros xs' c c' HI Hx; inversion_clear Hx as [|? x1 ? xs1 Hxx Hxs]; simpl; auto.
    eapply rel_res_rb; [apply Hf; eassumption|]. intros [c1 y1] [c1' y1'] [H1 H2]. simpl in *.
    eapply rel_res_rb; [apply IH; eassumption|]. intros [c2 y2] [c2' y2'] [H3 H4]. simpl in *. auto.
  Qed.
  Lemma while_loop_rel {C C'} fuel (c : C -> res bool) (c' : C' -> res bool) (f : C -> res C) (g : C' -> res C') (I : C -> C' -> Prop) :
    (forall x x', I x x' -> c x = c' x') -> (forall x x', I x x' -> rel_res I (f x) (g x')) ->
    forall x x', I x x' -> rel_res I (while_loop fuel c f x) (while_loop fuel c' g x').
  Proof.
    intros Hc Hf. induction fuel as [|n IH]; intros x x' HI; simpl; rewrite (Hc _ _ HI); destruct (c' x') as [[|]|e]; simpl; auto.
    eapply rel_res_rb; [apply Hf; eassumption|]. intros y y' Hy. apply IH, Hy.
  Qed.
  Lemma Forall2_rev_if {X Y} (R : X -> Y -> Prop) r l m : Forall2 R l m -> Forall2 R (rev_if r l) (rev_if r m).
  Proof. intros H. destruct r; simpl; [|assumption]. induction H; simpl; [constructor|]. apply Forall2_app; [assumption|]. constructor; [assumption|constructor]. Qed.
  Lemma Forall2_diag {X} (R : X -> X -> Prop) l : (forall x, R x x) -> Forall2 R l l.
  Proof. intros H. induction l; constructor; auto. Qed.
  Lemma rev_if_invol {X} r (l : list X) : rev_if r (rev_if r l) = l.
  Proof. destruct r; simpl; [apply rev_involutive|reflexivity]. Qed.
  Lemma rev_if_map {X Y} (f : X -> Y) r l : rev_if r (map f l) = map f (rev_if r l).
  Proof. destruct r; simpl; [symmetry; apply map_rev|reflexivity]. Qed.
  Lemma rev_if_length {X} r (l : list X) : List.length (rev_if r l) = List.length l.
  Proof. destruct r; simpl; [apply rev_length|reflexivity]. Qed.
End loops.

Section reap.
  Context {AR : Arrays}.
  Variable s : settings.

  (** ** C23: the outputs are those of the program *)
  Definition same_out {B D} (x : res B) (y : res (B * D)) : Prop := rel_res (fun b bd => fst bd = b) x y.
  Lemma same_out_post {B D E} (x : res B) (y : res (B * D)) (d : E) (f : (B * D) * E -> res (B * E)) :
    same_out x y -> (forall v, exists w, f (v, d) = inl w /\ fst w = fst v) -> same_out x (rb (rb y (fun b => inl (b, d))) f).
  Proof.
    unfold same_out. destruct x as [b|e], y as [v|e']; cbn; try tauto. intros <- H. destruct (H v) as (w & -> & E1). cbn. assumption.
  Qed.
  Lemma rel_post {B D E W} (R : B -> W -> Prop) (x : res B) (y : res (B * D)) (d : E) (f : (B * D) * E -> res W) :
    same_out x y -> (forall b d', exists w, f ((b, d'), d) = inl w /\ R b w) -> rel_res R x (rb (rb y (fun b => inl (b, d))) f).
  Proof.
    unfold same_out. destruct x as [b|e], y as [[b' d']|e']; cbn; try tauto. intros -> H. destruct (H b d') as (w & -> & E1). cbn. assumption.
  Qed.
  Lemma run_reapT fuel {A B} (p : prog A B) : forall M M' p', reapT s p M = inl (M', p') ->
    forall a d, same_out (run fuel p a) (run fuel p' (a, d)).
  Proof.
    induction p as [A B f|A B C p IHp q IHq|A B C p IHp|t n m av|t n av|A B sc p IHp|A B p IHp|C X Y rv len p IHp|C c p IHp|A B p IHp q IHq];
      intros M M' p' H a d; cbn [reapT] in H.
    - injection H as <- <-. cbn. destruct (f a); cbn; auto.
    - apply rb_inl in H as ([M1 p1] & H1 & H). apply rb_inl in H as ([M2 q1] & H2 & H). injection H as <- <-. cbn [run fst snd] in *.
      eapply rel_res_rb; [exact (IHp _ _ _ H1 a d)|]. intros b [b' d'] E. cbn in E. subst b'. exact (IHq _ _ _ H2 b d').
    - apply rb_inl in H as ([M1 p1] & H1 & H). injection H as <- <-. destruct a as [a c]. cbn. 
      specialize (IHp _ _ _ H1 a d). unfold same_out in *. destruct (run fuel p a), (run fuel p1 (a, d)); cbn in *; try tauto.
      destruct p0 as [b' d']. cbn in *. congruence.
    - destruct (is_cond m) eqn:Em; [discriminate|]. destruct (String.eqb t (tag_of s)); [destruct (passes s n)|destruct (exclusive s)].
      + apply rb_inl in H as (M1 & H1 & H). injection H as <- <-. cbn. rewrite Em. unfold same_out, chk. destruct (has_aval a av); cbn; auto.
      + injection H as <- <-. cbn. rewrite Em. unfold same_out, chk. destruct (has_aval a av); cbn; auto.
      + injection H as <- <-. cbn. rewrite Em. unfold same_out, chk. destruct (has_aval a av); cbn; auto.
      + injection H as <- <-. cbn. rewrite Em. unfold same_out, chk. destruct (has_aval a av); cbn; auto.
    - destruct a as [v pr]. destruct (String.eqb t (tag_of s)); [destruct (passes s n)|destruct (exclusive s)].
      + apply rb_inl in H as (M1 & H1 & H). injection H as <- <-. cbn. unfold same_out, chk. destruct (has_aval v av); cbn; auto.
      + injection H as <- <-. cbn. unfold same_out, chk. destruct (has_aval v av); cbn; auto.
      + injection H as <- <-. cbn. unfold same_out, chk. destruct (has_aval v av); cbn; auto.
      + injection H as <- <-. cbn. unfold same_out, chk. destruct (has_aval v av); cbn; auto.
    - apply rb_inl in H as ([M1 p1] & H1 & H). apply rb_inl in H as (M2 & H2 & H). injection H as <- <-. cbn [run fst snd rb] in *.
      apply same_out_post; [exact (IHp _ _ _ H1 a [])|]. intros v. eexists. split; reflexivity.
    - apply rb_inl in H as ([M1 p1] & H1 & H). apply rb_inl in H as (M2 & H2 & H). injection H as <- <-. cbn [run fst snd rb] in *.
      apply same_out_post; [exact (IHp _ _ _ H1 a [])|]. intros v. eexists. split; reflexivity.
    - apply rb_inl in H as ([M1 p1] & H1 & H). cbv zeta in H. destruct (existsb _ _) in H; [discriminate|].
      destruct (is_cond _ && _)%bool in H; [discriminate|]. apply rb_inl in H as (M2 & H2 & H). injection H as <- <-.
      destruct a as [c0 xs]. cbn [run fst snd rb]. unfold scan_sem. cbn [fst snd].
      destruct (Nat.eqb (List.length xs) len); [|reflexivity].
      match goal with |- same_out (rb (scan_loop ?f _ _) _) (rb (rb (rb (scan_loop ?g (_, ?cr) _) _) _) _) =>
        pose proof (scan_loop_rel f g (fun c c' => fst c' = c) eq (fun y y' => fst y' = y)) as HL end.
      match type of HL with ?P -> _ => assert (HP : P) end.
      { intros c [c' cr] x x' E <-. cbn in E. subst c'. cbn [rb fst snd]. apply rel_post; [exact (IHp _ _ _ H1 (c, x) [])|]. intros [c1 y1] dd. eexists. split; [reflexivity|]. split; reflexivity. }
      specialize (HL HP (rev_if rv xs) (rev_if rv xs) c0 (c0, carry0 M1) eq_refl (Forall2_diag _ _ (fun _ => eq_refl))).
      clear HP. revert HL.
      match goal with |- rel_res _ ?u ?v -> _ => destruct u as [[c1 ys]|], v as [[[c2 cr] yrs]|] end; cbn; try tauto.
      intros [<- H3]. f_equal. rewrite <- rev_if_map. f_equal. clear -H3. induction H3; simpl; congruence.
    - apply rb_inl in H as ([M1 p1] & H1 & H). cbv zeta in H. destruct (existsb _ _) in H; [discriminate|].
      apply rb_inl in H as (M2 & H2 & H). injection H as <- <-. cbn [run fst snd rb].
      match goal with |- same_out (while_loop _ ?c1 ?f _) (rb (rb (while_loop _ ?c2 ?g ?z) _) _) =>
        pose proof (while_loop_rel fuel c1 c2 f g (fun x x' => fst x' = x)) as HL; specialize (fun h1 h2 => HL h1 h2 a z eq_refl) end.
      match type of HL with ?P -> _ => assert (HP : P) by (intros x x' <-; reflexivity) end. specialize (HL HP). clear HP.
      match type of HL with ?P -> _ => assert (HP : P) end.
      { intros x [x' cr] E. cbn in E. subst x'. cbn [rb fst snd]. apply rel_post; [exact (IHp _ _ _ H1 x [])|]. intros c1 dd. eexists. split; reflexivity. }
      specialize (HL HP). clear HP. revert HL.
      match goal with |- rel_res _ ?u ?v -> _ => destruct u as [c1|], v as [[c2 cr]|] end; cbn; auto.
    - apply rb_inl in H as ([M1 p1] & H1 & H). apply rb_inl in H as ([M2 q1] & H2 & H). apply rb_inl in H as (? & _ & H). apply rb_inl in H as (M3 & H3 & H).
      injection H as <- <-. destruct a as [[|] a]; cbn [run fst snd rb] in *.
      + apply same_out_post; [exact (IHp _ _ _ H1 a [])|]. intros v. eexists. split; reflexivity.
      + apply same_out_post; [exact (IHq _ _ _ H2 a [])|]. intros v. eexists. split; reflexivity.
  Qed.

  (** ** Metadata = sites *)
  Lemma handle_inl M n m av M' : handle M n m av = inl M' -> M' = dset M n (m, av).
  Proof.
    unfold handle. destruct (dget M n) as [[m0 av0]|]; [|intros H; injection H as <-; reflexivity].
    destruct (clobberish m && clobberish m0)%bool; [|discriminate].
    destruct (is_cond m && negb (aval_eqb av av0))%bool; [discriminate|]. intros H; injection H as <-; reflexivity.
  Qed.
  Definition all_pass (l : meta) : Prop := forall n, In n (dkeys l) -> passes s n = true.
  Lemma resow_meta_inl l : all_pass l -> forall M M', resow_meta s M l = inl M' -> M' = dmerge M l.
  Proof.
    induction l as [|[n [m av]] l IH]; intros Hp M M' H; simpl in H; [injection H as <-; reflexivity|].
    rewrite Hp in H by (simpl; auto). apply rb_inl in H as (M1 & H1 & H). apply handle_inl in H1. subst.
    apply IH in H; [|intros k Hk; apply Hp; simpl; auto]. exact H.
  Qed.
  Lemma dkeys_dmerge {X} (a b : list (string * X)) n : In n (dkeys (dmerge a b)) <-> In n (dkeys a) \/ In n (dkeys b).
  Proof.
    revert a. induction b as [|[k v] b IH]; intros a; simpl; [tauto|]. change (dmerge a ((k, v) :: b)) with (dmerge (dset a k v) b).
    rewrite IH, dkeys_dset. destruct (mem k (dkeys a)) eqn:E.
    - apply mem_In in E. split; intros [?|?]; auto. destruct H; auto. subst. auto.
    - rewrite in_app_iff. simpl. tauto.
  Qed.
  Lemma dkeys_filter {X} (f : string * X -> bool) l n : In n (dkeys (filter f l)) -> In n (dkeys l).
  Proof. unfold dkeys. rewrite !in_map_iff. intros (x & <- & Hx). apply filter_In in Hx. exists x. tauto. Qed.
  Lemma dkeys_stack_meta len M : dkeys (stack_meta len M) = dkeys M.
  Proof. unfold dkeys, stack_meta. rewrite map_map. reflexivity. Qed.
  Lemma sites_pass {A B} (p : prog A B) sP : forall pd, all_pass (sites2 p sP s pd).
  Proof.
    unfold all_pass.
    induction p as [A B f|A B C p IHp q IHq|A B C p IHp|t n m av|t n av|A B sc p IHp|A B p IHp|C X Y rv len p IHp|C c p IHp|A B p IHp q IHq]; intros pd k; cbn [sites2].
    - intros [].
    - intros Hk. unfold dkeys in Hk. rewrite map_app, in_app_iff in Hk. destruct Hk; [eapply IHp|eapply IHq]; eassumption.
    - apply IHp.
    - unfold site_here. destruct (seen s t n && negb (seen sP t n && haskey pd n))%bool eqn:E; [|intros []].
      intros [<-|[]]. unfold seen in E. rewrite !andb_true_iff in E. cbn [fst]. tauto.
    - unfold site_here. destruct (seen s t n && negb (seen sP t n && haskey pd n))%bool eqn:E; [|intros []].
      intros [<-|[]]. unfold seen in E. rewrite !andb_true_iff in E. cbn [fst]. tauto.
    - unfold scope_site. destruct (sites2 p sP s (sub pd sc)); [intros []|]. destruct (passes s sc) eqn:E; [|intros []]. intros [<-|[]]. assumption.
    - intros Hk. apply dkeys_dmerge in Hk as [[]|Hk]. eapply IHp; eassumption.
    - intros Hk. cbv zeta in Hk. unfold dkeys in Hk. rewrite map_app, in_app_iff in Hk. destruct Hk as [Hk|Hk].
      + apply dkeys_filter, dkeys_dmerge in Hk as [[]|Hk]. eapply IHp; eassumption.
      + unfold stack_meta in Hk. rewrite map_map in Hk. cbn [fst] in Hk.
        apply dkeys_filter, dkeys_dmerge in Hk as [[]|Hk]. eapply IHp; eassumption.
    - intros Hk. apply dkeys_dmerge in Hk as [[]|Hk]. eapply IHp; eassumption.
    - intros Hk. apply dkeys_dmerge in Hk as [[]|Hk]. eapply IHp; eassumption.
  Qed.
  Lemma once_pass l : all_pass l -> all_pass (once l).
  Proof. intros H n Hn. apply dkeys_dmerge in Hn as [[]|Hn]. apply H, Hn. Qed.
  Lemma once_nil l : once l = [] <-> l = [].
  Proof.
    split; [|intros ->; reflexivity]. intros H. destruct l as [|[k v] l]; [reflexivity|]. exfalso.
    assert (Hk : In k (dkeys (once ((k, v) :: l)))) by (apply dkeys_dmerge; right; simpl; auto). rewrite H in Hk. exact Hk.
  Qed.
  Lemma reapT_meta {A B} (p : prog A B) : forall M M' p', reapT s p M = inl (M', p') -> M' = dmerge M (sites s p []).
  Proof.
    induction p as [A B f|A B C p IHp q IHq|A B C p IHp|t n m av|t n av|A B sc p IHp|A B p IHp|C X Y rv len p IHp|C c p IHp|A B p IHp q IHq];
      intros M M' p' H; cbn [reapT sites2] in *.
    - injection H as <- <-. reflexivity.
    - apply rb_inl in H as ([M1 p1] & H1 & H). apply rb_inl in H as ([M2 q1] & H2 & H). injection H as <- <-. cbn [fst snd] in *.
      apply IHp in H1. apply IHq in H2. subst. rewrite dmerge_app. reflexivity.
    - apply rb_inl in H as ([M1 p1] & H1 & H). injection H as <- <-. eapply IHp, H1.
    - destruct (is_cond m); [discriminate|]. unfold site_here, seen. destruct (String.eqb t (tag_of s)); [destruct (passes s n)|destruct (exclusive s)]; try (injection H as <- <-; reflexivity).
      apply rb_inl in H as (M1 & H1 & H). injection H as <- <-. apply handle_inl in H1. subst. reflexivity.
    - unfold site_here, seen. destruct (String.eqb t (tag_of s)); [destruct (passes s n)|destruct (exclusive s)]; try (injection H as <- <-; reflexivity).
      apply rb_inl in H as (M1 & H1 & H). injection H as <- <-. apply handle_inl in H1. subst. reflexivity.
    - apply rb_inl in H as ([M1 p1] & H1 & H). apply rb_inl in H as (M2 & H2 & H). injection H as <- <-. cbn [fst snd] in *.
      apply IHp in H1. unfold scope_site, sub. cbn [dget]. change (dmerge [] (sites s p [])) with (once (sites s p [])) in H1.
      destruct (sites s p []) as [|e l] eqn:E; [subst M1; cbn [once dmerge fold_left] in H2; injection H2 as <-; reflexivity|].
      destruct M1 as [|e1 l1]; [symmetry in H1; apply (proj1 (once_nil _)) in H1; discriminate|].
      rewrite <- H1. unfold resow_meta in H2. destruct (passes s sc); cbn [rb] in H2; [|injection H2 as <-; reflexivity].
      apply rb_inl in H2 as (M3 & H2 & H3). apply handle_inl in H2. subst. injection H3 as <-. reflexivity.
    - apply rb_inl in H as ([M1 p1] & H1 & H). apply rb_inl in H as (M2 & H2 & H). injection H as <- <-. cbn [fst snd] in *.
      apply IHp in H1. subst M1. apply resow_meta_inl in H2; [exact H2|]. apply once_pass, sites_pass.
    - apply rb_inl in H as ([M1 p1] & H1 & H). cbv zeta in H. destruct (existsb _ _) in H; [discriminate|].
      destruct (is_cond _ && _)%bool in H; [discriminate|]. apply rb_inl in H as (M2 & H2 & H). injection H as <- <-.
      apply IHp in H1. subst M1. apply resow_meta_inl in H2; [exact H2|].
      intros k Hk. unfold dkeys in Hk. rewrite map_app, in_app_iff in Hk.
      assert (Hk' : In k (dkeys (once (sites s p [])))).
      { destruct Hk as [Hk|Hk]; [eapply dkeys_filter; exact Hk|]. unfold stack_meta in Hk. rewrite map_map in Hk. cbn [fst] in Hk. eapply dkeys_filter; exact Hk. }
      revert Hk'. apply once_pass, sites_pass.
    - apply rb_inl in H as ([M1 p1] & H1 & H). cbv zeta in H. destruct (existsb _ _) in H; [discriminate|].
      apply rb_inl in H as (M2 & H2 & H). injection H as <- <-. apply IHp in H1. subst M1. apply resow_meta_inl in H2; [exact H2|]. apply once_pass, sites_pass.
    - apply rb_inl in H as ([M1 p1] & H1 & H). apply rb_inl in H as ([M2 q1] & H2 & H). apply rb_inl in H as (? & _ & H). apply rb_inl in H as (M3 & H3 & H).
      injection H as <- <-. apply IHp in H1. cbn [fst snd] in *. subst M1. apply resow_meta_inl in H3; [exact H3|]. apply once_pass, sites_pass.
  Qed.
End reap.
