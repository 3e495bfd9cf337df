(** C75, proofs: planting into a differentiable program gives a program differentiable in its arguments and its plants. *)
From Verif Require Export GradHarvestReap.
From Coq Require Import Reals Lra.
Open Scope string_scope. Open Scope list_scope. Open Scope nat_scope.
#[local] Existing Instance RealArrays.


Section plants.
Variable D : string -> rv -> Prop.
Lemma within_dict n l : within D n (Dict l) <-> Forall (fun e => within D (fst e) (snd e)) l.
Proof. cbn [within]. induction l as [|[k y] l IH]; [split; constructor|]. split; [intros [H1 H2]; constructor; [exact H1|apply IH, H2]|]. intros H. inversion H; subst. split; [assumption|]. apply IH. assumption. Qed.
Lemma within_stk n l : within D n (Stk l) <-> Forall (within D n) l.
Proof. cbn [within]. induction l as [|y l IH]; [split; constructor|]. split; [intros [H1 H2]; constructor; [exact H1|apply IH, H2]|]. intros H. inversion H; subst. split; [assumption|]. apply IH. assumption. Qed.

Notation pds := (list (string * tan3 tree)).
Definition ok_pds (ds : pds) : Prop := Forall (fun e => holds (tan_within D (fst e)) (snd e)) ds.
Lemma named_intro ds : ok_pds ds -> tan_plants D (fun t => at_keys (fun x => cu x t) ds) (at_keys pt ds) (at_keys ta ds).
Proof. intros H. exists ds. split; [apply near_all; reflexivity|]. auto. Qed.
Lemma named_nil : tan_plants D (fun _ => []) [] [].
Proof. apply (named_intro []). constructor. Qed.
Lemma named_near c c' l dl : near (fun t => c t = c' t) -> tan_plants D c' l dl -> tan_plants D c l dl.
Proof. intros N (ds & E & H). exists ds. split; [|exact H]. eapply near2; [exact N|exact E|]. intros t A B. congruence. Qed.
Lemma dget_at {X Y} (f : X -> Y) l n : dget (at_keys f l) n = option_map f (dget l n).
Proof. unfold at_keys. induction l as [|[k v] l IH]; cbn; [reflexivity|]. destruct (String.eqb n k); [reflexivity|exact IH]. Qed.
Lemma ok_dget ds n x : ok_pds ds -> dget ds n = Some x -> holds (tan_within D n) x.
Proof. intros H E. apply dget_In in E. unfold ok_pds in H. rewrite Forall_forall in H. exact (H _ E). Qed.
Lemma filter_at {X Y} (f : X -> Y) (k : string -> bool) (l : list (string * X)) : filter (fun kv => k (fst kv)) (at_keys f l) = at_keys f (filter (fun kv => k (fst kv)) l).
Proof. unfold at_keys. induction l as [|[n v] l IH]; cbn; [reflexivity|]. destruct (k n); cbn; rewrite IH; reflexivity. Qed.
Lemma ok_filter ds k : ok_pds ds -> ok_pds (filter k ds).
Proof. unfold ok_pds. rewrite !Forall_forall. intros H x Hx. apply filter_In in Hx as [Hx _]. exact (H x Hx). Qed.

Lemma tan_stk_inv n x l : holds (tan_within D n) x -> pt x = Stk l -> exists es : list (tan3 tree), near (fun t => cu x t = Stk (map (fun y => cu y t) es)) /\ l = map pt es /\ ta x = Stk (map ta es) /\ Forall (holds (tan_within D n)) es.
Proof.
  unfold holds. intros [H Hw] E. inversion H as [c g v dv N K E1 E2 E3|c ds N K E1 E2 E3|c ds N K E1 E2 E3]; rewrite E in E2; try discriminate. injection E2 as <-. exists ds. split; [exact N|]. split; [reflexivity|]. split; [reflexivity|]. rewrite E in Hw. apply within_stk in Hw. rewrite Forall_map in Hw. rewrite Forall_forall in *. intros y Hy. split; [exact (K y Hy)|exact (Hw y Hy)].
Qed.
Lemma sub_tan sk sc ds : ok_pds ds -> tan_plants D (fun t => sub_plants sk (at_keys (fun x => cu x t) ds) sc) (sub_plants sk (at_keys pt ds) sc) (sub_plants sk (at_keys ta ds) sc).
Proof.
  intros H. unfold sub_plants. rewrite !dget_at. destruct (dget sk sc) as [[|l]|]; [apply named_nil| |apply named_nil].
  destruct (dget ds sc) as [x|] eqn:E; [|eapply named_near; [|apply named_nil]; apply near_all; intros t; rewrite dget_at, E; reflexivity]. cbn [option_map]. pose proof (ok_dget ds sc x H E) as Hx. destruct Hx as [Hx Hw].
  inversion Hx as [c g v dv N K E1 E2 E3|c es N K E1 E2 E3|c es N K E1 E2 E3].
  - eapply named_near; [|apply named_nil]. eapply near_imp; [exact N|]. intros t A. rewrite dget_at, E. cbn [option_map]. rewrite A. reflexivity.
  - eapply named_near; [|apply (named_intro es)]; [|rewrite <- E2 in Hw; apply within_dict in Hw; unfold at_keys in Hw; rewrite Forall_map in Hw; unfold ok_pds; rewrite Forall_forall in *; intros y Hy; split; [exact (K y Hy)|exact (Hw y Hy)]]. eapply near_imp; [exact N|]. intros t A. rewrite dget_at, E. cbn [option_map]. rewrite A. reflexivity.
  - eapply named_near; [|apply named_nil]. eapply near_imp; [exact N|]. intros t A. rewrite dget_at, E. cbn [option_map]. rewrite A. reflexivity.
Qed.
Lemma planted_tan av n ds v dv : ok_pds ds -> planted av (at_keys pt ds) n = inl v -> planted av (at_keys ta ds) n = inl dv -> exists c', near (fun t => planted av (at_keys (fun x => cu x t) ds) n = inl (c' t)) /\ tan_within D n c' v dv.
Proof.
  intros H. unfold planted. rewrite !dget_at. destruct (dget ds n) as [x|] eqn:E; [|discriminate]. cbn [option_map]. pose proof (ok_dget ds n x H E) as Hx. unfold chk. destruct (has_aval (pt x) av) eqn:Ha; [|discriminate]. intros [= <-]. destruct (has_aval (ta x) av); [|discriminate]. intros [= <-].
  exists (cu x). split; [|exact Hx]. eapply near_imp; [apply (has_aval_tan (cu x) (pt x) (ta x) av (proj1 Hx))|]. intros t A. rewrite dget_at, E. cbn [option_map]. rewrite A, Ha. reflexivity.
Qed.
Lemma combine_map2 {X Y X' Y'} (f : X -> X') (g : Y -> Y') : forall l k, combine (map f l) (map g k) = map (fun xy => (f (fst xy), g (snd xy))) (combine l k).
Proof. induction l as [|x l IH]; intros [|y k]; cbn; try reflexivity. rewrite IH. reflexivity. Qed.
Lemma Forall_combine {X Y} (P : X -> Prop) (Q : Y -> Prop) : forall l k, Forall P l -> Forall Q k -> Forall (fun xy => P (fst xy) /\ Q (snd xy)) (combine l k).
Proof. induction l as [|x l IH]; intros [|y k] H K; cbn; try constructor; inversion H; inversion K; subst; auto. Qed.
Lemma map_repeat {X Y} (f : X -> Y) x k : map f (repeat x k) = repeat (f x) k.
Proof. induction k; cbn; congruence. Qed.
Lemma slices_tan len : forall ds ps, ok_pds ds -> slices len (at_keys pt ds) = inl ps -> exists pss : list pds,
  ps = map (at_keys pt) pss /\ slices len (at_keys ta ds) = inl (map (at_keys ta) pss) /\ near (fun t => slices len (at_keys (fun x => cu x t) ds) = inl (map (at_keys (fun x => cu x t)) pss)) /\ Forall ok_pds pss.
Proof.
  induction ds as [|[n x] ds IH]; intros ps H E.
  - cbn in E. injection E as <-. exists (repeat [] len). rewrite !map_repeat. split; [reflexivity|]. split; [reflexivity|]. split; [apply near_all; intros t; rewrite map_repeat; reflexivity|]. apply Forall_forall. intros y Hy. apply repeat_spec in Hy. subst y. constructor.
  - inversion H as [|? ? Hx Hds]; subst. cbn [fst snd] in Hx. cbn [at_keys map fst snd] in E. destruct (pt x) as [| |l] eqn:Ex; cbn [slices] in E; try discriminate. destruct (tan_stk_inv n x l Hx Ex) as (es & N & -> & Et & He). rewrite map_length in E. destruct (Nat.eqb (List.length es) len) eqn:El; [|discriminate].
    apply rb_inl in E as (ps1 & E1 & E). injection E as <-. destruct (IH ps1 Hds E1) as (pss & -> & E2 & N2 & H2). exists (map (fun tp => (n, fst tp) :: snd tp) (combine es pss)). split; [|split; [|split]].
    + rewrite combine_map2, !map_map. reflexivity.
    + cbn [at_keys map fst snd]. rewrite Et. cbn [slices]. rewrite map_length, El. unfold at_keys in E2. rewrite E2. cbn [rb]. rewrite combine_map2, !map_map. reflexivity.
    + eapply near2; [exact N|exact N2|]. intros t A B. cbn beta in *. cbn [at_keys map fst snd]. rewrite A. cbn [slices]. rewrite map_length, El. unfold at_keys in B. rewrite B. cbn [rb]. rewrite combine_map2, !map_map. reflexivity.
    + apply Forall_map. eapply Forall_impl; [|exact (Forall_combine (holds (tan_within D n)) ok_pds es pss He H2)]. intros [y k] [A B]. constructor; assumption.
Qed.
Lemma at_keys_app {X Y} (f : X -> Y) l k : at_keys f (l ++ k) = at_keys f l ++ at_keys f k.
Proof. apply map_app. Qed.
Lemma clob_at {X} (f : X -> tree) M l : clob_plants M (at_keys f l) = at_keys f (filter (fun kv => match dget M (fst kv) with Some (m, _) => clobberish m | None => false end) l).
Proof. apply (filter_at f (fun n => match dget M n with Some (m, _) => clobberish m | None => false end)). Qed.
Lemma app_at {X} (f : X -> tree) M l : app_plants M (at_keys f l) = at_keys f (filter (fun kv => match dget M (fst kv) with Some (m, _) => is_append m | None => false end) l).
Proof. apply (filter_at f (fun n => match dget M n with Some (m, _) => is_append m | None => false end)). Qed.
Lemma scan_plants_tan M len ds ps : ok_pds ds -> scan_plants M len (at_keys pt ds) = inl ps -> exists pss : list pds,
  ps = map (at_keys pt) pss /\ scan_plants M len (at_keys ta ds) = inl (map (at_keys ta) pss) /\ near (fun t => scan_plants M len (at_keys (fun x => cu x t) ds) = inl (map (at_keys (fun x => cu x t)) pss)) /\ Forall ok_pds pss.
Proof.
  intros H E. unfold scan_plants in *. rewrite app_at, clob_at in E. apply rb_inl in E as (ps1 & E1 & E). injection E as <-. destruct (slices_tan len _ ps1 (ok_filter _ _ H) E1) as (pss & -> & E2 & N & H2).
  exists (map (fun p => p ++ filter (fun kv => match dget M (fst kv) with Some (m, _) => clobberish m | None => false end) ds) pss). rewrite !map_map. split; [|split; [|split]].
  - apply map_ext. intros p. rewrite at_keys_app. reflexivity.
  - rewrite app_at, clob_at, E2. cbn [rb]. f_equal. rewrite map_map. apply map_ext. intros p. rewrite at_keys_app. reflexivity.
  - eapply near_imp; [exact N|]. intros t A. cbn beta in *. rewrite app_at, clob_at, A. cbn [rb]. f_equal. rewrite !map_map. apply map_ext. intros p. rewrite at_keys_app. reflexivity.
  - apply Forall_map. eapply Forall_impl; [|exact H2]. intros p Hp. apply Forall_app. split; [exact Hp|apply ok_filter, H].
Qed.


Lemma smooth_move' {W : string -> string -> tanrel tree} {A B} (f : A -> B) (P : tanrel A) (Q : tanrel B) : (forall c a da, P c a da -> exists c', near (fun t => f (c t) = c' t) /\ Q c' (f a) (f da)) -> smooth W (Move f) P Q.
Proof. intros H c a da b db Hc E E'. injection E as <-. injection E' as <-. destruct (H _ _ _ Hc) as (c' & N & K). exists c'. split; [|exact K]. eapply near_imp; [exact N|]. intros t A1. cbn beta in *. rewrite A1. reflexivity. Qed.
Lemma smooth_fst {W : string -> string -> tanrel tree} {A C} (P : tanrel A) (Q : tanrel C) : smooth W (Move (fun x : A * C => fst x)) (tan_pair P Q) P.
Proof. apply smooth_move'. intros c a da H. exact (tan_pair_fst P Q c a da H). Qed.
Lemma smooth_dup {W : string -> string -> tanrel tree} {A C} (P : tanrel A) (Q : tanrel C) : smooth W (Move (fun x : A * C => ((fst x, snd x), snd x))) (tan_pair P Q) (tan_pair (tan_pair P Q) Q).
Proof.
  apply smooth_move. intros c [a d] [da dd] (c1 & c2 & E & H1 & H2). cbn [fst snd] in *. exists (fun t => (c1 t, c2 t)), c2. split; [|split; [apply tan_pair_intro; assumption|exact H2]].
  eapply near_imp; [exact E|]. intros t A1. cbn beta in *. rewrite A1. reflexivity.
Qed.
Lemma smooth_chk {W : string -> string -> tanrel tree} {C} av (P Q : tanrel tree) (R : tanrel C) : subrel P tan_tree -> subrel P Q -> smooth W (DPure (fun x : tree * C => chk av (fst x)) (fun _ dx => inl (fst dx))) (tan_pair P R) Q.
Proof.
  intros H K c a da b db (c1 & c2 & N & H1 & H2) E E'. injection E' as <-. unfold chk in E. destruct (has_aval (fst a) av) eqn:Ha; [|discriminate]. injection E as <-. exists c1. split; [|apply K, H1].
  eapply near2; [exact N|apply (has_aval_tan c1 (fst a) (fst da) av), H, H1|]. intros t A1 A2. cbn beta in *. rewrite A1. cbn [fst]. unfold chk. rewrite A2, Ha. reflexivity.
Qed.
Lemma tan_list_combine {X} (PX : tanrel X) (xs : list (tan3 X)) (pss : list pds) : Forall (holds PX) xs -> Forall ok_pds pss ->
  tan_list (tan_pair PX (tan_plants D)) (fun t => combine (map (fun x => cu x t) xs) (map (at_keys (fun x => cu x t)) pss)) (combine (map pt xs) (map (at_keys pt) pss)) (combine (map ta xs) (map (at_keys ta) pss)).
Proof.
  intros H K. exists (map (fun xp => ((fun t => (cu (fst xp) t, at_keys (fun x => cu x t) (snd xp))), ((pt (fst xp), at_keys pt (snd xp)), (ta (fst xp), at_keys ta (snd xp))))) (combine xs pss)).
  split; [apply near_all; intros t; rewrite combine_map2, map_map; reflexivity|]. split; [rewrite combine_map2, map_map; reflexivity|]. split; [rewrite combine_map2, map_map; reflexivity|].
  apply Forall_map. eapply Forall_impl; [|exact (Forall_combine _ _ xs pss H K)]. intros [x ds] [H1 H2]. unfold holds, cu, pt, ta. cbn [fst snd]. apply (tan_pair_intro PX (tan_plants D) (cu x)); [exact H1|apply named_intro, H2].
Qed.
(** planting keeps programs differentiable, now also in the plants *)
Theorem plant_smooth s {A B} (p : dprog A B) : forall P Q, smooth (planted_in s D) p P Q -> forall sk dn r, plantD s p sk dn = inl r -> smooth (planted_in s D) (snd r) (tan_pair P (tan_plants D)) Q.
Proof.
  induction p as [A B f df|A B C p IHp q IHq|A B C p IHp|t n m av|t n av|A B sc p IHp|A B p IHp|C X Y rv len p IHp|C k p IHp|A B p IHp q IHq]; intros P Q S sk dn r H; cbn [plantD] in H.
  - injection H as <-. cbn [snd]. intros c a da b db (c1 & c2 & N & H1 & H2) E E'. destruct (S _ _ _ _ _ H1 E E') as (c' & N' & K). exists c'. split; [|exact K]. eapply near2; [exact N|exact N'|]. intros t A1 A2. cbn beta in *. rewrite A1. exact A2.
  - destruct S as (R1 & S1 & S2). apply rb_inl in H as (r1 & H1 & H). apply rb_inl in H as (r2 & H2 & H). injection H as <-. cbn [snd]. exists (tan_pair (tan_pair P (tan_plants D)) (tan_plants D)). split; [apply smooth_dup|]. exists (tan_pair R1 (tan_plants D)). split; [apply smooth_first; exact (IHp _ _ S1 _ _ _ H1)|exact (IHq _ _ S2 _ _ _ H2)].
  - destruct S as (P1 & Q1 & PC & S1 & S2 & S3). apply rb_inl in H as (r1 & H1 & H). injection H as <-. cbn [snd]. exists (tan_pair (tan_pair P1 (tan_plants D)) PC). split.
    + eapply (smooth_sub (Move swap)); [apply (tan_pair_sub P (tan_pair P1 PC) (tan_plants D) (tan_plants D)); [exact S1|apply subrel_refl]|apply subrel_refl|apply smooth_swap].
    + eapply (smooth_sub (DFirst C (snd r1))); [apply subrel_refl|exact S3|]. apply smooth_first. exact (IHp _ _ S2 _ _ _ H1).
  - destruct S as (S1 & S2 & SW). destruct (is_cond m); [discriminate|].
    assert (Hsow : smooth (planted_in s D) (DSeq (Move fst) (DSow t n m av)) (tan_pair P (tan_plants D)) Q) by (exists P; split; [apply smooth_fst|split; [exact S1|split; [exact S2|exact SW]]]).
    destruct (String.eqb t (tag_of s)) eqn:Et; [destruct (passes s n) eqn:Ep; [destruct (mem n dn); [discriminate|destruct (haskey sk n)]|]|destruct (exclusive s)]; injection H as <-; cbn [snd]; try exact Hsow; try (apply smooth_chk; assumption).
    cbn [smooth]. intros c [a pd] [da dpd] b db (c1 & c2 & N & H1 & ds & N2 & E1 & E2 & Hds) F F'. cbn [fst snd] in *. subst pd dpd. apply rb_inl in F as (u & Fu & F). unfold chk in Fu. destruct (has_aval a av) eqn:Ha; [|discriminate].
    destruct (planted_tan av n ds b db Hds F F') as (c' & N' & K). exists c'. split; [|apply SW; split; [apply String.eqb_eq, Et|split; [exact Ep|exact K]]].
    eapply near3; [exact N|eapply near2; [exact N2|apply (has_aval_tan c1 a da av), S1, H1|intros t0 A1 A2; exact (conj A1 A2)]|exact N'|]. intros t' A1 [A2 A3] A4. cbn beta in *. rewrite A1. cbn [fst snd]. unfold chk. rewrite A3, Ha. cbn [rb]. rewrite A2. exact A4.
  - destruct S as (P1 & S0 & S1 & S2 & SW).
    assert (Hsow : smooth (planted_in s D) (DSeq (Move fst) (DSowCond t n av)) (tan_pair P (tan_plants D)) Q) by (exists P; split; [apply smooth_fst|exists P1; auto]).
    assert (Hchk : smooth (planted_in s D) (DPure (fun x : (tree * bool) * plants => chk av (fst (fst x))) (fun _ dx => inl (fst (fst dx)))) (tan_pair P (tan_plants D)) Q).
    { intros c a da b db (c1 & c2 & N & H1 & H2) E E'. injection E' as <-. destruct (S0 _ _ _ H1) as (c3 & c4 & N' & H3 & _). unfold chk in E. destruct (has_aval (fst (fst a)) av) eqn:Ha; [|discriminate]. injection E as <-. exists c3. split; [|apply S2, H3].
      eapply near3; [exact N|exact N'|apply (has_aval_tan c3 (fst (fst a)) (fst (fst da)) av), S1, H3|]. intros t' A1 A2 A3. cbn beta in *. rewrite A1. cbn [fst]. rewrite A2. cbn [fst]. unfold chk. rewrite A3, Ha. reflexivity. }
    destruct (String.eqb t (tag_of s)) eqn:Et; [destruct (passes s n) eqn:Ep; [destruct (mem n dn); [discriminate|destruct (haskey sk n)]|]|destruct (exclusive s)]; injection H as <-; cbn [snd]; try exact Hsow; try exact Hchk.
    cbn [smooth]. intros c [a pd] [da dpd] b db (c1 & c2 & N & H1 & ds & N2 & E1 & E2 & Hds) F F'. cbn [fst snd] in *. subst pd dpd. destruct (S0 _ _ _ H1) as (c3 & c4 & N' & H3 & _). apply rb_inl in F as (u & Fu & F). unfold chk in Fu. destruct (has_aval (fst a) av) eqn:Ha; [|discriminate].
    destruct (planted_tan av n ds b db Hds F F') as (c' & N3 & K). exists c'. split; [|apply SW; split; [apply String.eqb_eq, Et|split; [exact Ep|exact K]]].
    eapply near3; [eapply near2; [exact N|exact N'|intros t0 A1 A2; exact (conj A1 A2)]|eapply near2; [exact N2|apply (has_aval_tan c3 (fst a) (fst da) av), S1, H3|intros t0 A1 A2; exact (conj A1 A2)]|exact N3|]. intros t' [A1 A0] [A2 A3] A4. cbn beta in *. rewrite A1. cbn [fst snd]. rewrite A0. cbn [fst snd]. unfold chk. rewrite A3, Ha. cbn [rb]. rewrite A2. exact A4.
  - apply rb_inl in H as (sk' & _ & H). apply rb_inl in H as (r1 & H1 & H). injection H as <-. cbn [snd]. exists (tan_pair P (tan_plants D)). split; [|exact (IHp _ _ S _ _ _ H1)].
    apply smooth_move. intros c [a pd] [da dpd] (c1 & c2 & N & H2 & ds & N2 & E1 & E2 & Hds). cbn [fst snd] in *. subst pd dpd. exists c1, (fun t => sub_plants sk (at_keys (fun x => cu x t) ds) sc). split; [|split; [exact H2|apply sub_tan, Hds]].
    eapply near2; [exact N|exact N2|]. intros t A1 A2. cbn beta in *. rewrite A1. cbn [fst snd]. rewrite A2. reflexivity.
  - apply rb_inl in H as (r1 & H1 & H). injection H as <-. exact (IHp _ _ S _ _ _ H1).
  - destruct S as (PC & PX & PY & S1 & S2 & S3). apply rb_inl in H as (rm & _ & H). cbv zeta in H. destruct (existsb _ (fst rm)) in H; [discriminate|]. apply rb_inl in H as (r1 & H1 & H). injection H as <-. cbn [snd].
    exists (tan_pair PC (tan_list (tan_pair PX (tan_plants D)))). split.
    + intros c [[a xs] pd] [[da dxs] dpd] b db (c1 & c2 & N & H0 & ds & N2 & E1 & E2 & Hds) F F'. cbn [fst snd] in *. subst pd dpd. destruct (S1 _ _ _ H0) as (c3 & c4 & N3 & H3 & es & N4 & E3 & E4 & Hes). cbn [fst snd] in *. subst xs dxs.
      rewrite map_length in F, F'. destruct (Nat.eqb (List.length es) len) eqn:El; [|discriminate]. apply rb_inl in F as (ps & F & G). injection G as <-. apply rb_inl in F' as (dps & F' & G). injection G as <-.
      destruct (scan_plants_tan (fst rm) len ds ps Hds F) as (pss & -> & F2 & N5 & Hpss). rewrite F2 in F'. injection F' as <-.
      exists (fun t => (c3 t, combine (map (fun x => cu x t) es) (map (at_keys (fun x => cu x t)) pss))). split; [|apply (tan_pair_intro PC _ c3); [exact H3|apply tan_list_combine; assumption]].
      eapply near3; [eapply near2; [exact N|exact N3|intros t0 A1 A2; exact (conj A1 A2)]|eapply near2; [exact N2|exact N4|intros t0 A1 A2; exact (conj A1 A2)]|exact N5|]. intros t [A1 A2] [A3 A4] A5. cbn beta in *. rewrite A1. cbn [fst snd]. rewrite A2. cbn [fst snd]. rewrite A4, map_length, El, A3, A5. reflexivity.
    + exists PC, (tan_pair PX (tan_plants D)), PY. split; [apply subrel_refl|]. split; [|exact S3]. exists (tan_pair (tan_pair PC PX) (tan_plants D)). split; [|exact (IHp _ _ S2 _ _ _ H1)].
      apply smooth_move. intros c [a [x pd]] [da [dx dpd]] (c1 & c2 & N & H2 & c3 & c4 & N3 & H3 & H4). cbn [fst snd] in *. exists (fun t => (c1 t, c3 t)), c4. split; [|split; [apply tan_pair_intro; assumption|exact H4]].
      eapply near2; [exact N|exact N3|]. intros t A1 A2. cbn beta in *. rewrite A1. cbn [fst snd]. rewrite A2. reflexivity.
  - destruct S as (I & S1 & S2 & S3 & S4). apply rb_inl in H as (rm & _ & H). destruct (existsb _ (fst rm)) in H; [discriminate|]. apply rb_inl in H as (r1 & H1 & H). injection H as <-. cbn [snd].
    exists (tan_pair I (tan_plants D)). split; [|eapply (smooth_sub (Move _)); [apply subrel_refl|exact S4|apply smooth_fst]].
    exists (tan_pair I (tan_plants D)). split; [apply tan_pair_sub; [exact S1|apply subrel_refl]|]. split; [|split; [|apply subrel_refl]].
    + intros g [a d] [da dd] b (c1 & c2 & E & H0 & H2) Hb. cbn [fst snd] in *. eapply near2; [exact E|exact (S2 _ _ _ _ H0 Hb)|]. intros t A1 A2. cbn beta in *. rewrite A1. exact A2.
    + exists (tan_pair (tan_pair I (tan_plants D)) (tan_plants D)). split; [|apply smooth_first; exact (IHp _ _ S3 _ _ _ H1)].
      apply smooth_move. intros c [a d] [da dd] (c1 & c2 & E & H0 & H2). cbn [fst snd] in *. exists (fun t => (c1 t, c2 t)), c2. split; [|split; [apply tan_pair_intro; assumption|exact H2]]. eapply near_imp; [exact E|]. intros t A1. cbn beta in *. rewrite A1. reflexivity.
  - destruct S as (P1 & S1 & S2 & S3). apply rb_inl in H as (m0 & _ & H). apply rb_inl in H as (m1 & _ & H). apply rb_inl in H as (u & _ & H). apply rb_inl in H as (r1 & H1 & H). apply rb_inl in H as (r2 & H2 & H). injection H as <-. cbn [snd].
    exists (tan_pair tan_bool (tan_pair P1 (tan_plants D))). split; [|exists (tan_pair P1 (tan_plants D)); split; [apply subrel_refl|split; [exact (IHp _ _ S2 _ _ _ H1)|exact (IHq _ _ S3 _ _ _ H2)]]].
    apply smooth_move. intros c [[b a] d] [[db da] dd] (c1 & c2 & E & H0 & H3). cbn [fst snd] in *. destruct (S1 _ _ _ H0) as (c3 & c4 & N & H4 & H5). cbn [fst snd] in *. exists c3, (fun t => (c4 t, c2 t)). split; [|split; [exact H4|apply tan_pair_intro; assumption]].
    eapply near2; [exact E|exact N|]. intros t A1 A2. cbn beta in *. rewrite A1. cbn [fst snd]. rewrite A2. reflexivity.
Qed.
End plants.
