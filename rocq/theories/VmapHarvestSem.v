(** C68: the execution of a vmapped program is the execution of the program on every example. *)
From Verif Require Export VmapHarvestMain.
Open Scope nat_scope.

Section vmap.
  Context {AR : Arrays}.
  Variable k : nat.
  Hypothesis kpos : 0 < k.

  Definition ent (L : bool) (i : nat) (e e' : string * tree) : Prop := fst e = fst e' /\ sl k L i (snd e) (snd e').
  Definition OR (L : bool) (i : nat) : list occ -> list occ -> Prop :=
    Forall2 (fun e e' => fst e = fst e' /\ sl k L i (fst (snd e)) (fst (snd e')) /\ snd (snd e) = snd (snd e')).
  Lemma OR_last L i O o n : OR L i O o -> forall X x, match X, x with Some T, Some t => sl k L i T t | None, None => True | _, _ => False end ->
    match fold_left (fun acc e => if (String.eqb (fst e) n && snd (snd e))%bool then Some (fst (snd e)) else acc) O X, fold_left (fun acc e => if (String.eqb (fst e) n && snd (snd e))%bool then Some (fst (snd e)) else acc) o x with Some T, Some t => sl k L i T t | None, None => True | _, _ => False end.
  Proof.
    induction 1 as [|e e' O o He _ IH]; intros X x HX; cbn [fold_left]; [exact HX|]. apply IH. destruct He as (E1 & E2 & E3). rewrite E1, E3. destruct (_ && _)%bool; [exact E2|exact HX].
  Qed.
  Lemma OR_eff L i O o n : OR L i O o -> match last_eff O n, last_eff o n with Some T, Some t => sl k L i T t | None, None => True | _, _ => False end.
  Proof. intros H. exact (OR_last L i O o n H None None I). Qed.
  Lemma OR_collect L i M M' O o : i < k -> MR k L M M' -> OR L i O o -> Forall2 (ent L i) (collect M' O) (collect M o).
  Proof.
    intros Hi HM HO. induction HM as [|e e' M M' He _ IH]; cbn; constructor; [|exact IH]. destruct He as (E1 & _ & E3). split; [symmetry; exact E1|]. cbn [snd]. rewrite E1. pose proof (OR_eff L i O o (fst e') HO) as H. destruct (last_eff O (fst e')), (last_eff o (fst e')); try contradiction; [exact H|now apply zeros_ab].
  Qed.
  Lemma OR_resets L i M M' : i < k -> MR k L M M' -> OR L i (resets M') (resets M).
  Proof.
    intros Hi HM. unfold resets. induction HM as [|e e' M M' He _ IH]; cbn; [constructor|]. destruct He as (E1 & E2 & E3). rewrite E2. destruct (_ && _)%bool; [|exact IH]. cbn. constructor; [|exact IH]. cbn. split; [symmetry; exact E1|]. split; [now apply zeros_ab|reflexivity].
  Qed.
  Lemma OR_filter L i M M' O o : MR k L M M' -> OR L i O o -> OR L i (filter (in_names M') O) (filter (in_names M) o).
  Proof.
    intros HM. unfold in_names. rewrite (MR_keys k L M M' HM). induction 1 as [|e e' O o He _ IH]; cbn; [constructor|]. pose proof He as (E1 & _). rewrite E1. destruct (mem (fst e') (dkeys M')); [constructor; assumption|exact IH].
  Qed.
  Lemma OR_concat L i Os os : Forall2 (OR L i) Os os -> OR L i (List.concat Os) (List.concat os).
  Proof. induction 1; cbn; [constructor|apply Forall2_app; assumption]. Qed.
  Lemma OR_stacks L i M M' Os os : (L = false -> appends M = []) -> MR k L M M' -> Forall2 (OR L i) Os os -> OR L i (stacks M' Os) (stacks M os).
  Proof.
    intros HL HM HO. unfold stacks. pose proof (MR_filter k L is_append M M' HM) as H. change (MR k L (appends M) (appends M')) in H. destruct L.
    - clear HM HL. induction H as [|e e' N N' He _ IH]; cbn; constructor; [|exact IH]. destruct He as (E1 & _). cbn. split; [symmetry; exact E1|]. split; [|reflexivity]. apply sl_deep; [reflexivity|]. rewrite E1. clear - HO. induction HO as [|O o Os os H _ IH]; cbn; constructor; [|exact IH].
      unfold occ_value. pose proof (OR_eff true i O o (fst e') H) as G. destruct (last_eff O (fst e')), (last_eff o (fst e')); try contradiction; [exact G|repeat constructor].
    - rewrite (HL eq_refl) in *. apply MR_nil in H. rewrite H. constructor.
  Qed.

  Lemma chk_inl a v w : chk a v = inl w -> w = v /\ has_aval v a = true.
  Proof. unfold chk. destruct (has_aval v a); [|discriminate]. intros [= <-]. auto. Qed.
  Lemma mapM_chk a ts ts' : mapM (chk a) ts = inl ts' -> ts' = ts /\ Forall (fun t => has_aval t a = true) ts.
  Proof.
    revert ts'. induction ts as [|t ts IH]; cbn; intros ts' H; [injection H as <-; auto|]. apply rb_inl in H as (b & Hb & H). apply rb_inl in H as (bs & H1 & H). injection H as <-. apply chk_inl in Hb as [-> Hb]. apply IH in H1 as [-> H1]. auto.
  Qed.
  Lemma mapM_chk_ok a ts : Forall (fun t => has_aval t a = true) ts -> mapM (chk a) ts = inl ts.
  Proof. induction 1 as [|t ts H _ IH]; cbn; [reflexivity|]. unfold chk at 1. rewrite H. cbn. rewrite IH. reflexivity. Qed.
  Lemma mapM_fail_chk a ts e : mapM (chk a) ts = inr e -> ~ Forall (fun t => has_aval t a = true) ts.
  Proof. intros H F. rewrite (mapM_chk_ok a ts F) in H. discriminate. Qed.

  Definition good {B} (L : bool) (rs : list (B * list occ)) (bO : list B * list occ) : Prop :=
    fst bO = map fst rs /\ forall i r, nth_error rs i = Some r -> OR L i (snd bO) (snd r).
  Definition plantsR (L : bool) {A} (PD : plants) (zs : list (A * plants)) : Prop := forall i z, nth_error zs i = Some z -> PR k L i PD (snd z).

  Section sem.
    Variables (L : bool) (sP s : settings) (fuel : nat).
    Definition sem_ok {A B} (p : prog A B) : Prop := forall PD (zs : list (A * plants)), List.length zs = k -> plantsR L PD zs ->
      agree (good L) (mapM (fun z => sem2 sP s fuel p (snd z) (fst z)) zs) (sem2 sP s fuel (vmapT k p) PD (map fst zs)).
    Lemma combine_len {X Y} (l : list X) (r : list Y) : List.length r = List.length l -> List.length (combine l r) = List.length l.
    Proof. intros H. rewrite combine_length. lia. Qed.
    Lemma ok_pure {A B} (f : A -> res B) : sem_ok (Pure f).
    Proof.
      intros PD zs Hk HP. cbn [sem2 vmapT]. eapply agree_l; [apply (mapM_rb (fun z => f (fst z)) (fun _ b => inl (b, [])))|]. rewrite mapM_map. eapply agree_rb; [apply agree_eq|]. intros ys ? M _ <-. apply mapM_length in M. rewrite mapM_inl. cbn [agree]. split.
      - cbn [fst]. rewrite map_map. cbn [fst]. now rewrite snd_combine.
      - intros i r Hr. apply nth_map_inv in Hr as (? & _ & ->). constructor.
    Qed.
    Lemma ok_seq {A B C} (p : prog A B) (q : prog B C) : sem_ok p -> sem_ok q -> sem_ok (Seq p q).
    Proof.
      intros IHp IHq PD zs Hk HP. cbn [sem2 vmapT].
      eapply agree_l; [apply (mapM_rb (fun z => sem2 sP s fuel p (snd z) (fst z)) (fun z r => rb (sem2 sP s fuel q (snd z) (fst r)) (fun r' => inl (fst r', snd r ++ snd r'))))|].
      eapply agree_rb; [apply (IHp PD zs Hk HP)|]. intros rs [bs O] M _ [E HO]. cbn [fst snd] in *. apply mapM_length in M.
      eapply agree_l; [apply (mapM_rb (fun zy => sem2 sP s fuel q (snd (fst zy)) (fst (snd zy))) (fun zy r' => inl (fst r', snd (snd zy) ++ snd r')))|].
      set (zs' := map (fun zy => (fst (snd zy), snd (fst zy))) (combine zs rs)).
      assert (E1 : mapM (fun zy => sem2 sP s fuel q (snd (fst zy)) (fst (snd zy))) (combine zs rs) = mapM (fun z => sem2 sP s fuel q (snd z) (fst z)) zs') by (unfold zs'; now rewrite mapM_map).
      assert (E2 : bs = map fst zs'). { unfold zs'. rewrite map_map. cbn [fst]. rewrite <- (map_map snd fst). rewrite snd_combine by congruence. exact E. }
      rewrite E1, E2. eapply agree_rb; [apply (IHq PD zs')|].
      - unfold zs'. rewrite map_length, combine_len; congruence.
      - intros i z Hz. apply nth_map_inv in Hz as ([z0 r] & Hz & ->). apply nth_combine in Hz as [Hz _]. exact (HP i z0 Hz).
      - intros rs2 [cs O2] M2 _ [E3 HO2]. rewrite mapM_inl. cbn [agree fst snd] in *. apply mapM_length in M2. unfold zs' in M2. rewrite map_length in M2. split.
        + cbn [fst]. rewrite map_map. cbn [fst]. rewrite <- (map_map snd fst). rewrite snd_combine by congruence. exact E3.
        + intros i r Hr. apply nth_map_inv in Hr as ([[z r1] r2] & Hr & ->). apply nth_combine in Hr as [Hr Hr2]. apply nth_combine in Hr as [_ Hr1]. cbn [fst snd]. apply Forall2_app; [exact (HO i r1 Hr1)|exact (HO2 i r2 Hr2)].
    Qed.
    Lemma ok_first {A B C} (p : prog A B) : sem_ok p -> sem_ok (First C p).
    Proof.
      intros IHp PD zs Hk HP. cbn [sem2 vmapT]. cbn [rb fst snd app unzip].
      eapply agree_l; [apply (mapM_rb (fun z => sem2 sP s fuel p (snd z) (fst (fst z))) (fun z r => inl ((fst r, snd (fst z)), snd r)))|].
      set (zs' := map (fun z => (fst (fst z), snd z)) zs).
      assert (E1 : mapM (fun z => sem2 sP s fuel p (snd z) (fst (fst z))) zs = mapM (fun z => sem2 sP s fuel p (snd z) (fst z)) zs') by (unfold zs'; now rewrite mapM_map).
      assert (E2 : map fst (map fst zs) = map fst zs') by (unfold zs'; now rewrite !map_map). rewrite E1, E2.
      assert (IH : agree (good L) (mapM (fun z => sem2 sP s fuel p (snd z) (fst z)) zs') (sem2 sP s fuel (vmapT k p) PD (map fst zs'))).
      { apply IHp; [unfold zs'; now rewrite map_length|]. intros i z Hz. apply nth_map_inv in Hz as (z0 & Hz & ->). exact (HP i z0 Hz). }
      destruct (mapM _ zs') as [rs|e] eqn:M, (sem2 _ _ _ _ _ _) as [[bs O]|e']; cbn [rb fst snd app agree] in *; try contradiction; [|exact I]. destruct IH as [E HO]. cbn [fst snd] in *. apply mapM_length in M. unfold zs' in M. rewrite map_length in M.
      rewrite mapM_inl. unfold zip. cbn [fst snd agree]. rewrite app_nil_r. split.
      - cbn [fst]. rewrite map_map. cbn [fst]. rewrite E. clear - M. revert rs M. induction zs as [|z zs IH]; intros [|r rs] H; try discriminate; [reflexivity|]. cbn. rewrite IH; [reflexivity|]. now injection H.
      - intros i r Hr. apply nth_map_inv in Hr as ([z r1] & Hr & ->). apply nth_combine in Hr as [_ Hr]. exact (HO i r1 Hr).
    Qed.
    Lemma ok_sow t n m a : is_cond m = false -> sem_ok (Sow t n m a).
    Proof.
      intros Hm PD zs Hk HP. cbn [sem2 vmapT]. rewrite Hm. unfold at_sow.
      eapply agree_l; [apply (mapM_rb (fun z => chk a (fst z)) (fun z v => if (seen sP t n && haskey (snd z) n)%bool then rb (planted a (snd z) n) (fun w => inl (w, [])) else inl (v, if seen s t n then [(n, (v, true))] else [])))|].
      rewrite <- (mapM_map (chk a) fst). destruct (mapM (chk a) (map fst zs)) as [ts|e] eqn:M; cbn [rb agree]; [|exact I]. apply mapM_chk in M as [-> HF].
      set (ts := map fst zs) in *. assert (Hts : List.length ts = k) by (unfold ts; now rewrite map_length). destruct (stack_ok k a ts Hts HF) as [S1 S2]. cbn [fst snd]. unfold chk at 1. rewrite S1. cbn [rb].
      assert (HK : forall i z, nth_error zs i = Some z -> haskey (snd z) n = haskey PD n) by (intros i z Hz; symmetry; eapply PR_haskey, HP, Hz).
      destruct (seen sP t n && haskey PD n)%bool eqn:E.
      - apply andb_true_iff in E as [E1 E2]. assert (L = false) as EL. { destruct L; [|reflexivity]. exfalso. destruct (nth_ex zs 0) as (z & Hz); [lia|]. destruct (HP 0 z Hz) as [_ H]. rewrite (H eq_refl) in E2. discriminate. }
        unfold haskey in E2. destruct (dget PD n) as [T|] eqn:ET; [|discriminate].
        assert (HG : exists us, List.length us = k /\ (forall i u, nth_error us i = Some u -> sl k false i T u) /\ map (fun z => dget (snd z) n) zs = map Some us).
        { assert (G : forall z, In z zs -> exists u, dget (snd z) n = Some u) by (intros z Hz; apply In_nth_error in Hz as (i & Hz); pose proof (PR_dget k L i PD (snd z) n (HP i z Hz)) as H; rewrite ET in H; destruct (dget (snd z) n); [eauto|contradiction]).
          assert (G2 : exists us, map (fun z => dget (snd z) n) zs = map Some us). { clear - G. induction zs as [|z zs IH]; [exists []; reflexivity|]. destruct IH as (us & E); [intros x Hx; apply G; right; exact Hx|]. destruct (G z (or_introl eq_refl)) as (u & Hu). exists (u :: us). cbn. now rewrite Hu, E. }
          destruct G2 as (us & EU). exists us. split; [|split; [|exact EU]]. { apply (f_equal (@List.length _)) in EU. rewrite !map_length in EU. congruence. }
          intros i u Hu. assert (H : nth_error (map (fun z => dget (snd z) n) zs) i = Some (Some u)) by (rewrite EU, nth_map, Hu; reflexivity). apply nth_map_inv in H as (z & Hz & Ez). pose proof (PR_dget k L i PD (snd z) n (HP i z Hz)) as H. rewrite ET, <- Ez in H. rewrite EL in H. exact H. }
        destruct HG as (us & Lu & Su & Eu).
        rewrite (mapM_ext _ (fun zy => rb (planted a (snd (fst zy)) n) (fun w => inl (w, [])))); [|intros [z v] Hz; apply In_nth_error in Hz as (i & Hz); apply nth_combine in Hz as [Hz _]; cbn [fst snd]; rewrite (HK i z Hz), E1; unfold haskey; now rewrite ET].
        assert (EM : mapM (fun zy => rb (planted a (snd (fst zy)) n) (fun w => inl (w, @nil occ))) (combine zs ts) = mapM (fun u => rb (chk a u) (fun w => inl (w, []))) us).
        { clear - Eu. unfold ts. revert us Eu. induction zs as [|z zs IH]; intros [|u us] H; try discriminate; [reflexivity|]. cbn in H. injection H as H1 H2. cbn [map combine mapM fst snd]. assert (planted a (snd z) n = chk a u) as -> by (unfold planted; now rewrite H1). rewrite (IH us H2). reflexivity. }
        match goal with |- agree _ ?x _ => change x with (mapM (fun zy => rb (planted a (snd (fst zy)) n) (fun w => inl (w, @nil occ))) (combine zs ts)) end. rewrite EM. eapply agree_l; [apply (mapM_rb (chk a) (fun _ w => inl (w, [])))|]. unfold planted. rewrite ET. unfold chk at 2. destruct (has_aval T (batchA k a)) eqn:EA.
        + rewrite (mapM_chk_ok a us) by now apply (has_aval_batch k a kpos T us Lu Su). cbn [rb fst snd]. rewrite (unstack_ok k T us Lu Su). cbn [rb fst snd app]. rewrite mapM_inl. cbn [agree]. split; [cbn; rewrite map_map; cbn; symmetry; now apply snd_combine|]. intros i r Hr. apply nth_map_inv in Hr as (? & _ & ->). constructor.
        + destruct (mapM (chk a) us) as [us'|] eqn:MU; cbn [rb agree]; [|exact I]. exfalso. apply mapM_chk in MU as [_ MU]. apply (has_aval_batch k a kpos T us Lu Su) in MU. congruence.
      - rewrite (mapM_ext _ (fun zy => inl (snd zy, if seen s t n then [(n, (snd zy, true))] else []))); [|intros [z v] Hz; apply In_nth_error in Hz as (i & Hz); apply nth_combine in Hz as [Hz _]; cbn [fst snd]; rewrite (HK i z Hz), E; reflexivity].
        rewrite mapM_inl. cbn [rb fst snd]. rewrite (unstack_ok k _ ts Hts (S2 false)). cbn [rb fst snd app]. rewrite app_nil_r. cbn [agree]. split; [cbn; rewrite map_map; cbn; symmetry; apply snd_combine; congruence|].
        intros i r Hr. apply nth_map_inv in Hr as ([z v] & Hr & ->). apply nth_combine in Hr as [_ Hr]. cbn [fst snd]. destruct (seen s t n); [|constructor]. constructor; [|constructor]. cbn. split; [reflexivity|]. split; [apply S2, Hr|reflexivity].
    Qed.
    Lemma ok_nest {A B} sc (p : prog A B) : mappable p -> (L = false -> scans_plain p) -> sem_ok p -> sem_ok (Nest sc p).
    Proof.
      intros Hm HL IHp PD zs Hk HP. cbn [sem2 vmapT].
      eapply agree_l; [apply (mapM_rb (fun z => sem2 sP s fuel p (sub (snd z) sc) (fst z)) (fun z r => inl (fst r, map (fun e => (fst e, (Dict (collect (once (sites2 p sP s (sub (snd z) sc))) (snd r)), true))) (scope_site s sc (sites2 p sP s (sub (snd z) sc))))))|].
      set (zs' := map (fun z => (fst z, sub (snd z) sc)) zs).
      assert (E1 : mapM (fun z => sem2 sP s fuel p (sub (snd z) sc) (fst z)) zs = mapM (fun z => sem2 sP s fuel p (snd z) (fst z)) zs') by (unfold zs'; now rewrite mapM_map).
      assert (E2 : map fst zs = map fst zs') by (unfold zs'; now rewrite !map_map). rewrite E1, E2.
      eapply agree_rb; [apply (IHp (sub PD sc) zs')|].
      - unfold zs'. now rewrite map_length.
      - intros i z Hz. apply nth_map_inv in Hz as (z0 & Hz & ->). cbn [snd]. apply PR_sub, (HP i z0 Hz).
      - intros rs [bs O] M _ [E HO]. rewrite mapM_inl. cbn [agree fst snd] in *. apply mapM_length in M. unfold zs' in M. rewrite map_length in M. split.
        + cbn [fst]. rewrite map_map. cbn [fst]. rewrite <- (map_map snd fst). rewrite snd_combine by congruence. exact E.
        + intros i r Hr. apply nth_map_inv in Hr as ([z r1] & Hr & ->). apply nth_combine in Hr as [Hz Hr]. cbn [fst snd].
          assert (Hi : i < k) by (rewrite <- Hk; apply nth_error_Some; congruence).
          pose proof (sites_vmap k L sP p Hm HL s (sub PD sc) (sub (snd z) sc) i (PR_sub k L i _ _ sc (HP i z Hz))) as HM.
          pose proof (OR_collect L i _ _ _ _ Hi (MR_once k L _ _ HM) (HO i r1 Hr)) as HC.
          pose proof (MR_keys k L _ _ HM) as HK. destruct HM as [|e e' N N' He HM]; [constructor|]. cbn [scope_site]. destruct (passes s sc); [|constructor]. cbn [map fst snd]. constructor; [|constructor]. cbn [fst snd]. split; [reflexivity|]. split; [|reflexivity]. apply sl_dict. exact HC.
    Qed.

    Lemma map_repeat {X Y} (f : X -> Y) x n : map f (repeat x n) = repeat (f x) n.
    Proof. induction n; cbn; congruence. Qed.
    Lemma scan_plants_nil M len pd : app_plants M pd = [] -> scan_plants M len pd = inl (repeat (clob_plants M pd) len).
    Proof. intros H. unfold scan_plants. rewrite H. cbn [slices rb]. f_equal. rewrite map_repeat. reflexivity. Qed.
    Lemma combine_repeat {X Y} (l : list X) (y : Y) n : List.length l = n -> combine l (repeat y n) = map (fun x => (x, y)) l.
    Proof. revert n. induction l as [|x l IH]; intros [|n] H; try discriminate; [reflexivity|]. cbn. f_equal. apply IH. now injection H. Qed.
    Lemma F2_of_nth {X Y} (R : X -> Y -> Prop) : forall l l', List.length l = List.length l' -> (forall j x y, nth_error l j = Some x -> nth_error l' j = Some y -> R x y) -> Forall2 R l l'.
    Proof. induction l as [|x l IH]; intros [|y l'] Hl H; try discriminate; constructor; [exact (H 0 x y eq_refl eq_refl)|]. apply IH; [now injection Hl|]. intros j u v Hu Hv. exact (H (S j) u v Hu Hv). Qed.
    Lemma F2_nth {X Y} (R : X -> Y -> Prop) l l' : Forall2 R l l' -> forall j x y, nth_error l j = Some x -> nth_error l' j = Some y -> R x y.
    Proof. induction 1 as [|a b l l' H _ IH]; intros [|j] x y Hx Hy; cbn in *; try discriminate; [congruence|eauto]. Qed.
    Lemma F2_len {X Y} (R : X -> Y -> Prop) l l' : Forall2 R l l' -> List.length l = List.length l'.
    Proof. induction 1; cbn; congruence. Qed.
    Lemma transp_rows_rev {X} rv n (l : list (list X)) : Forall (fun r => List.length r = n) l -> transp n (rev_if rv l) = map (rev_if rv) (transp n l).
    Proof.
      intros H. pose proof (transp_transp n (List.length l) l H eq_refl) as E. pose proof (transp_rev_if rv (List.length l) (transp n l) (transp_cols n l H)) as E2. rewrite E in E2.
      rewrite <- E2. apply transp_transp; [|rewrite map_length; now apply transp_length]. apply Forall_map. eapply Forall_impl; [|apply (transp_cols n l H)]. intros r Hr. cbn. now rewrite rev_if_length.
    Qed.
    Lemma ok_scan {C X Y} rv len (p : prog (C * X) (C * Y)) : mappable p -> (L = false -> no_append p) -> sem_ok p -> sem_ok (Scan rv len p).
    Proof.
      intros Hm HL IHp PD zs Hk HP. assert (HL' : L = false -> scans_plain p) by (intros E; apply no_append_plain, HL, E).
      cbn [sem2 vmapT]. cbn [rb fst snd app]. set (l := map fst zs). unfold columns.
      destruct (forallb (fun r => Nat.eqb (List.length r) len) (map snd l)) eqn:EL; cbn [rb fst snd].
      2: { destruct (mapM_err (fun z => if Nat.eqb (List.length (snd (fst z))) len then rb (scan_plants (once (sites2 p sP sP [])) len (snd z)) (fun ps => rb (scan_sem rv len (fun cxp : C * (X * plants) => rb (sem2 sP s fuel p (snd (snd cxp)) (fst cxp, fst (snd cxp))) (fun r => inl (fst (fst r), (snd (fst r), snd r)))) (fst (fst z), combine (snd (fst z)) ps)) (fun cy : C * list (Y * list occ) => inl ((fst cy, map fst (snd cy)), resets (once (sites2 p sP s (body_plants (once (sites2 p sP sP [])) (snd z)))) ++ filter (in_names (clobbers (once (sites2 p sP s (body_plants (once (sites2 p sP sP [])) (snd z)))))) (List.concat (rev_if rv (map snd (snd cy)))) ++ stacks (once (sites2 p sP s (body_plants (once (sites2 p sP sP [])) (snd z)))) (map snd (snd cy))))) else inr TypeErr) zs) as (e & He); [|rewrite He; exact I].
        assert (G : exists r, In r (map snd l) /\ Nat.eqb (List.length r) len = false). { clear - EL. induction (map snd l) as [|r q IH]; [discriminate|]. cbn in EL. destruct (Nat.eqb (List.length r) len) eqn:Er; [|exists r; split; [left; reflexivity|exact Er]]. destruct (IH EL) as (r' & H1 & H2). exists r'. split; [right; exact H1|exact H2]. }
        destruct G as (r & Hr & Hn). unfold l in Hr. rewrite map_map in Hr. apply in_map_iff in Hr as (z & <- & Hz). exists z. split; [exact Hz|]. rewrite Hn. eauto. }
      assert (HR : Forall (fun r => List.length r = len) (map snd l)) by (apply Forall_forall; intros r Hr; rewrite forallb_forall in EL; apply Nat.eqb_eq, EL, Hr). clear EL.
      set (M0 := once (sites2 p sP sP [])). set (M0' := once (sites2 (vmapT k p) sP sP [])).
      cbn [sites2 app]. rewrite !app_nil_r. fold M0'.
      assert (H0 : MR k L M0 M0') by (apply MR_once, (sites_vmap k L sP p Hm HL' sP [] [] 0); split; [constructor|auto]).
      assert (N0 : forall z, In z zs -> app_plants M0 (snd z) = []).
      { intros z Hz. apply app_plants_nil. destruct L eqn:EL2; [right|left; apply no_apps_once, no_append_sites, HL, eq_refl]. apply In_nth_error in Hz as (i & Hz). destruct (HP i z Hz) as [H1 H2]. rewrite (H2 eq_refl) in H1. now inversion H1. }
      assert (N0' : app_plants M0' PD = []).
      { apply app_plants_nil. destruct L eqn:EL2; [right; destruct (nth_ex zs 0) as (z & Hz); [lia|]; destruct (HP 0 z Hz) as [_ H2]; exact (H2 eq_refl)|left].
        assert (N : no_apps M0) by (apply no_apps_once, no_append_sites, HL, eq_refl). intros n m a Hin. clear - N H0 Hin. induction H0 as [|x y M1 M2 Hx _ IH]; [destruct Hin|]. destruct Hin as [->|Hin]; [|apply IH; [intros n' m' a' H; apply (N n' m' a'); right; exact H|exact Hin]].
        destruct x as [n1 [m1 a1]], Hx as (_ & E & _). cbn in E. subst m1. apply (N n1 m a1). left. reflexivity. }
      assert (Hcols : List.length (transp len (map snd l)) = len) by now apply transp_length.
      rewrite Hcols, Nat.eqb_refl. rewrite (scan_plants_nil M0' len PD N0'). cbn [rb].
      set (f := fun cxp : C * (X * plants) => rb (sem2 sP s fuel p (snd (snd cxp)) (fst cxp, fst (snd cxp))) (fun r => inl (fst (fst r), (snd (fst r), snd r)))).
      set (F := fun cxp : list C * (list X * plants) => rb (rb (rb (sem2 sP s fuel (vmapT k p) (snd (snd cxp)) (zip (fst cxp, fst (snd cxp)))) (fun r => inl (unzip (fst r), snd r ++ []))) (fun r' => inl (fst r', [] ++ snd r'))) (fun r => inl (fst (fst r), (snd (fst r), snd r)))).
      set (occs := fun (M : meta) (os : list (list occ)) => resets M ++ filter (in_names (clobbers M)) (List.concat (rev_if rv os)) ++ stacks M os).
      set (Mz := fun pd => once (sites2 p sP s (body_plants M0 pd))). set (MB := once (sites2 (vmapT k p) sP s (body_plants M0' PD))).
      (* the examples *)
      rewrite (mapM_ext _ (fun z => rb (scan_loop f (fst (fst z)) (rev_if rv (map (fun x => (x, clob_plants M0 (snd z))) (snd (fst z))))) (fun r => inl ((fst r, map fst (rev_if rv (snd r))), occs (Mz (snd z)) (map snd (rev_if rv (snd r))))))).
      2: { intros z Hz. assert (Ez : List.length (snd (fst z)) = len) by (rewrite Forall_forall in HR; apply HR; unfold l; rewrite map_map; apply in_map_iff; exists z; auto). rewrite Ez, Nat.eqb_refl. rewrite (scan_plants_nil M0 len (snd z) (N0 z Hz)). cbn [rb]. unfold scan_sem. cbn [fst snd]. rewrite (combine_repeat _ _ len Ez), map_length, Ez, Nat.eqb_refl.
        change (fun cxp : C * (X * plants) => rb (sem2 sP s fuel p (snd (snd cxp)) (fst cxp, fst (snd cxp))) (fun r => inl (fst (fst r), (snd (fst r), snd r)))) with f. destruct (scan_loop f (fst (fst z)) _) as [[c ys]|e]; reflexivity. }
      eapply agree_l; [apply (mapM_rb (fun z => scan_loop f (fst (fst z)) (rev_if rv (map (fun x => (x, clob_plants M0 (snd z))) (snd (fst z))))) (fun z r => inl ((fst r, map fst (rev_if rv (snd r))), occs (Mz (snd z)) (map snd (rev_if rv (snd r))))))|].
      (* the batch *)
      unfold scan_sem. cbn [fst snd]. rewrite (combine_repeat _ _ len Hcols), map_length, Hcols, Nat.eqb_refl.
      match goal with |- agree _ _ (rb (rb (rb (rb (scan_loop ?G _ _) _) _) _) _) => change G with F end.
      set (rows0 := map (fun z => map (fun x => (x, clob_plants M0 (snd z))) (snd (fst z))) zs).
      assert (HR0 : Forall (fun r => List.length r = len) rows0) by (unfold rows0; apply Forall_map; apply Forall_forall; intros z Hz; cbn; rewrite map_length; rewrite Forall_forall in HR; apply HR; unfold l; rewrite map_map; apply in_map_iff; exists z; auto).
      assert (Lr0 : List.length rows0 = k) by (unfold rows0; now rewrite map_length).
      set (cols := rev_if rv (transp len rows0)).
      assert (Ecols : transp k cols = map (rev_if rv) rows0). { unfold cols. rewrite transp_rows_rev; [|rewrite <- Lr0; now apply transp_cols]. f_equal. now apply transp_transp. }
      assert (E1 : mapM (fun z => scan_loop f (fst (fst z)) (rev_if rv (map (fun x => (x, clob_plants M0 (snd z))) (snd (fst z))))) zs = mapM (fun cr => scan_loop f (fst cr) (snd cr)) (combine (map fst l) (transp k cols))).
      { rewrite Ecols. unfold rows0, l. rewrite map_map, map_map. replace (combine (map (fun z => fst (fst z)) zs) (map (fun z => rev_if rv (map (fun x => (x, clob_plants M0 (snd z))) (snd (fst z)))) zs)) with (map (fun z => (fst (fst z), rev_if rv (map (fun x => (x, clob_plants M0 (snd z))) (snd (fst z))))) zs); [now rewrite mapM_map|]. clear. induction zs as [|z zs IH]; cbn; [reflexivity|]. now rewrite IH. }
      rewrite E1.
      set (Rc := fun (col : list (X * plants)) (xb : list X * plants) => fst xb = map fst col /\ forall i x, nth_error col i = Some x -> PR k L i (snd xb) (snd x)).
      set (Ry := fun (ys : list (Y * list occ)) (yb : list Y * list occ) => fst yb = map fst ys /\ forall i y, nth_error ys i = Some y -> OR L i (snd yb) (snd y)).
      assert (Hlen_cols : Forall (fun c => List.length c = k) cols). { unfold cols. assert (G : Forall (fun c => List.length c = k) (transp len rows0)) by (rewrite <- Lr0; now apply transp_cols). destruct rv; [|exact G]. apply Forall_rev, G. }
      assert (Hrc : Forall2 Rc cols (rev_if rv (map (fun x => (x, clob_plants M0' PD)) (transp len (map snd l))))).
      { unfold cols. apply F2_rev_if. assert (Et : transp len (map snd l) = map (map fst) (transp len rows0)). { rewrite <- transp_map. f_equal. unfold rows0, l. rewrite !map_map. apply map_ext. intros z. rewrite map_map. cbn. symmetry. apply map_id. }
        rewrite Et, map_map. apply F2_of_nth; [now rewrite map_length|]. intros j col xb Hcol Hxb. apply nth_map_inv in Hxb as (col' & Hc' & ->). assert (col' = col) as -> by congruence. split; [reflexivity|]. intros i x Hx. cbn [snd].
        destruct (transp_nth len rows0 HR0 j col Hcol) as [Lc Hc]. destruct (nth_ex rows0 i) as (r & Hr); [rewrite <- Lc; apply nth_error_Some; congruence|]. apply (Hc i r x Hr) in Hx. apply nth_map_inv in Hr as (z & Hz & ->). apply nth_map_inv in Hx as (x0 & _ & ->). cbn [snd]. apply PR_clob; [exact H0|exact (HP i z Hz)]. }
      assert (Hstep : forall cs col xb, List.length cs = k -> List.length col = k -> Rc col xb -> agree (fun rs r => fst r = map fst rs /\ Ry (map snd rs) (snd r)) (mapM f (combine cs col)) (F (cs, xb))).
      { intros cs col xb Hcs Hcol [Exb Hxb]. unfold f, F. cbn [fst snd]. unfold zip. cbn [fst snd].
        eapply agree_l; [apply (mapM_rb (fun cxp : C * (X * plants) => sem2 sP s fuel p (snd (snd cxp)) (fst cxp, fst (snd cxp))) (fun _ r => inl (fst (fst r), (snd (fst r), snd r))))|].
        set (zs' := map (fun c : C * (X * plants) => ((fst c, fst (snd c)), snd (snd c))) (combine cs col)).
        assert (E2 : mapM (fun cxp : C * (X * plants) => sem2 sP s fuel p (snd (snd cxp)) (fst cxp, fst (snd cxp))) (combine cs col) = mapM (fun z => sem2 sP s fuel p (snd z) (fst z)) zs') by (unfold zs'; now rewrite mapM_map).
        assert (E3 : combine cs (fst xb) = map fst zs'). { rewrite Exb. unfold zs'. rewrite map_map. cbn. clear. revert col. induction cs as [|c cs IH]; intros [|x col]; cbn; [reflexivity..|]. now rewrite IH. }
        rewrite E2, E3. assert (IH : agree (good L) (mapM (fun z => sem2 sP s fuel p (snd z) (fst z)) zs') (sem2 sP s fuel (vmapT k p) (snd xb) (map fst zs'))).
        { apply IHp; [unfold zs'; rewrite map_length, combine_len; congruence|]. intros i z Hz. apply nth_map_inv in Hz as ([c x] & Hz & ->). apply nth_combine in Hz as [_ Hz]. exact (Hxb i x Hz). }
        destruct (mapM _ zs') as [rs|e] eqn:M, (sem2 _ _ _ _ _ (map fst zs')) as [[bs O]|e']; cbn [rb fst snd app agree] in *; try contradiction; [|exact I]. destruct IH as [E HO]. cbn [fst snd] in *. apply mapM_length in M. unfold zs' in M. rewrite map_length in M.
        rewrite mapM_inl. cbn [agree]. unfold unzip. cbn [fst snd]. rewrite app_nil_r, !map_map. cbn [fst snd]. rewrite <- (map_map snd (fun r => fst (fst r))), <- (map_map snd (fun r => (snd (fst r), snd r))). rewrite snd_combine by congruence. rewrite E, map_map. split; [reflexivity|]. split; [cbn [fst]; now rewrite !map_map|].
        intros i y Hy. apply nth_map_inv in Hy as (r & Hr & ->). exact (HO i r Hr). }
      assert (Lcs : List.length (map fst l) = k) by (unfold l; now rewrite !map_length).
      pose proof (scan_inter k f F Rc Ry Hstep cols _ Hrc Hlen_cols (map fst l) Lcs) as HS.
      destruct (mapM (fun cr => scan_loop f (fst cr) (snd cr)) (combine (map fst l) (transp k cols))) as [rs|e] eqn:M, (scan_loop F (map fst l) _) as [[cs' ybs]|e']; cbn [rb fst snd app agree] in *; try contradiction; [|exact I].
      destruct HS as (Ecs & ycols & Ey & Fy & Ryy & Lyc). apply mapM_length in M. rewrite combine_length, (transp_length k cols Hlen_cols), Lcs, Nat.min_id in M.
      assert (Lrz : List.length rs = List.length zs) by congruence.
      rewrite mapM_inl. cbn [agree]. split.
      - cbn [fst]. rewrite map_map. cbn [fst]. rewrite <- (map_map snd (fun r => (fst r, map fst (rev_if rv (snd r))))). rewrite snd_combine by congruence.
        assert (Eyb : map fst ybs = map (map fst) ycols) by (clear - Ryy; induction Ryy as [|y yb ys ybs Hy _ IH]; cbn; [reflexivity|]; rewrite IH; f_equal; apply Hy).
        rewrite map_rev_if, Eyb, <- map_rev_if, transp_map, (transp_rows_rev rv k ycols Fy), <- Ey, Ecs. rewrite !map_map. clear. induction rs as [|r rs IH]; cbn; [reflexivity|]. now rewrite IH.
      - intros i r Hr. apply nth_map_inv in Hr as ([z r1] & Hr & ->). apply nth_combine in Hr as [Hz Hr]. cbn [fst snd]. rewrite app_nil_r.
        assert (Hi : i < k) by (rewrite <- Hk; apply nth_error_Some; congruence).
        assert (Hb : PR k L i (body_plants M0' PD) (body_plants M0 (snd z))) by (unfold body_plants; rewrite N0', (N0 z (nth_error_In _ _ Hz)); cbn [app]; apply PR_clob; [exact H0|exact (HP i z Hz)]).
        assert (HM : MR k L (Mz (snd z)) MB) by (apply MR_once; apply (sites_vmap k L sP p Hm HL' s _ _ i Hb)).
        assert (Hr1 : nth_error (transp k ycols) i = Some (snd r1)) by (rewrite <- Ey, nth_map, Hr; reflexivity).
        destruct (transp_nth k ycols Fy i _ Hr1) as [Lr1 Hc1].
        assert (HO : Forall2 (OR L i) (map snd ybs) (map snd (snd r1))).
        { apply F2_of_nth; [rewrite !map_length, Lr1; symmetry; apply (F2_len _ _ _ Ryy)|]. intros j O o HO Ho. apply nth_map_inv in HO as (yb & Hyb & ->). apply nth_map_inv in Ho as (y & Hy & ->). destruct (nth_ex ycols j) as (yc & Hyc); [rewrite <- Lr1; apply nth_error_Some; congruence|]. apply (Hc1 j yc y Hyc) in Hy. exact (proj2 (F2_nth Ry _ _ Ryy j yc yb Hyc Hyb) i y Hy). }
        unfold occs. rewrite !map_rev_if, !rev_if_if. apply Forall2_app; [now apply OR_resets|]. apply Forall2_app.
        + apply OR_filter; [exact (MR_filter k L clobberish _ _ HM)|now apply OR_concat].
        + apply OR_stacks; [|exact HM|now apply F2_rev_if]. intros EL. apply appends_nil, no_apps_once, no_append_sites, HL, EL.
    Qed.
    Theorem sem_vmap {A B} (p : prog A B) : mappable p -> (L = false -> scans_plain p) -> sem_ok p.
    Proof.
      induction p as [A B f|A B C p IHp q IHq|A B C p IHp|t n m av|t n av|A B sc p IHp|A B p IHp|C X Y rv len p IHp|C c p IHp|A B p IHp q IHq]; cbn [mappable scans_plain]; intros Hm HL; try contradiction.
      - apply ok_pure.
      - apply ok_seq; [apply IHp|apply IHq]; try apply Hm; intros E; apply (HL E).
      - apply ok_first; auto.
      - now apply ok_sow.
      - apply ok_nest; auto.
      - intros PD zs Hk HP. cbn [sem2 vmapT]. apply IHp; auto.
      - apply ok_scan; auto. apply IHp; [exact Hm|]. intros E. apply no_append_plain, HL, E.
    Qed.
  End sem.
End vmap.
