(** C45-C48: stateful functions, lists and tuples of modules, flatten/unflatten. *)
From Verif Require Import Dict HarvestSpec HarvestProofs HarvestProofs2 HarvestProofs3 HarvestProofs4 HarvestProofs5 HarvestProps.
From Verif Require Export StateModel.

Section functions.
  Context {AR : Arrays}.

  (** programs that do not use sow_cond for the sows seen by [s]; in particular programs that declare variables with
      [variable] and update them with [assign] *)
  Fixpoint nocond (s : settings) {A B} (p : prog A B) : Prop :=
    match p with
    | Pure _ => True
    | Seq p q | Cond p q => nocond s p /\ nocond s q
    | First _ p | Nest _ p | Call p | Scan _ _ p | While _ p => nocond s p
    | Sow t n m _ => seen s t n = true -> is_cond m = false
    | SowCond t n _ => seen s t n = false
    end.
  Lemma nocond_sites sP s {A B} (p : prog A B) : nocond s p -> forall pd, no_cond (sites2 p sP s pd).
  Proof.
    unfold no_cond.
    induction p as [A B f|A B C p IHp q IHq|A B C p IHp|t n m av|t n av|A B sc p IHp|A B p IHp|C X Y rv len p IHp|C c p IHp|A B p IHp q IHq]; cbn [nocond sites2]; intros H pd k m' a Hin.
    - destruct Hin.
    - destruct H. apply in_app_or in Hin as [Hin|Hin]; eauto.
    - eauto.
    - unfold site_here in Hin. destruct (seen s t n); cbn in Hin; [|destruct Hin]. destruct (negb (seen sP t n && haskey pd n)); [|destruct Hin]. destruct Hin as [E|[]]. injection E as <- <- <-. auto.
    - unfold site_here in Hin. rewrite H in Hin. destruct Hin.
    - unfold scope_site in Hin. destruct (sites2 p sP s (sub pd sc)); [destruct Hin|]. destruct (passes s sc); [|destruct Hin]. destruct Hin as [E|[]]. injection E as _ <- _. reflexivity.
    - apply once_incl in Hin. eauto.
    - cbv zeta in Hin. apply in_app_or in Hin as [Hin|Hin].
      + apply filter_In in Hin as [Hin _]. apply once_incl in Hin. eauto.
      + unfold stack_meta in Hin. apply in_map_iff in Hin as ([k' [m2 a2]] & E & Hin). cbn in E. injection E as <- <- _. apply filter_In in Hin as [Hin _]. apply once_incl in Hin. eauto.
    - apply once_incl in Hin. eauto.
    - destruct H. apply once_incl in Hin. eauto.
  Qed.
  Lemma nocond_tame sP s {A B} (p : prog A B) : nocond s p -> forall pd, tame2 p sP s pd.
  Proof.
    induction p as [A B f|A B C p IHp q IHq|A B C p IHp|t n m av|t n av|A B sc p IHp|A B p IHp|C X Y rv len p IHp|C c p IHp|A B p IHp q IHq]; cbn [nocond tame2]; intros H pd; auto.
    - destruct H; auto.
    - split; [auto|]. apply nocond_sites, H.
    - split; [auto|]. apply no_cond_no_mix, nocond_sites, H.
    - split; [auto|]. left. apply nocond_sites, H.
    - split; [auto|]. apply no_cond_no_mix, nocond_sites, H.
    - destruct H. repeat split; auto; apply no_cond_no_mix, nocond_sites; assumption.
  Qed.
  Lemma nocond_regular sP s {A B} (p : prog A B) : nocond s p -> forall pd, regular2 p sP s pd.
  Proof. intros H pd. split; [apply nocond_tame, H|apply no_cond_no_mix, nocond_sites, H]. Qed.

  (** ** Specification: executing [f] with the store [vs] *)
  (** [f] is executed with the variables in [vs] in place of the values it declares; [snd] of the result lists the
      executed assigns in order *)
  Definition exec (fuel : nat) {A B} (f : prog (tree * A) B) (vs : plants) (key : tree) (x : A) : res (B * list occ) :=
    sem2 var_plant asg fuel f vs (key, x).
  (** the names [f] assigns (with their modes and shapes) *)
  Definition assigned {A B} (f : prog (tree * A) B) (vs : plants) : meta := once (sites2 f var_plant asg vs).
  (** the variables after the assigns [o]: the last assigned value; a name of a control-flow construct that is never
      executed gets zeros (see C25, C29) *)
  Definition new_value (M : meta) (o : list occ) (vs : plants) (n : string) : option tree :=
    match dget M n with
    | Some (_, av) => Some (match last_eff o n with Some v => v | None => zeros av end)
    | None => dget vs n
    end.

  Lemma haskey_In {X} (l : list (string * X)) n : haskey l n = true <-> In n (dkeys l).
  Proof.
    unfold haskey. destruct (dget l n) eqn:E.
    - split; [intros _; eapply dget_In_keys, E|reflexivity].
    - apply dget_None_iff in E. split; [discriminate|contradiction].
  Qed.
  Lemma dkeys_dmerge_sub {X} (a b : list (string * X)) : (forall n, In n (dkeys b) -> In n (dkeys a)) -> dkeys (dmerge a b) = dkeys a.
  Proof.
    revert a. induction b as [|[k v] b IH]; intros a H; [reflexivity|]. change (dmerge a ((k, v) :: b)) with (dmerge (dset a k v) b).
    assert (E : dkeys (dset a k v) = dkeys a). { rewrite dkeys_dset. destruct (mem k (dkeys a)) eqn:Em; [reflexivity|]. apply mem_not_In in Em. exfalso. apply Em, H. simpl. auto. }
    rewrite IH; [exact E|]. intros n Hn. rewrite E. apply H. simpl. auto.
  Qed.

  Section step.
    Variables (A B : Type) (f : prog (tree * A) B) (key0 : tree).
    (** the staged call_and_update of [f] executes [f] *)
    Lemma cau_run vs0 c : cau_program key0 f vs0 = inl c -> forall fuel vs x, fits (skels_of vs0) vs -> regular2 f var_plant asg vs ->
      run fuel c (vs, x) = rb (exec fuel f vs key0 x) (fun bo => inl (fst bo, collect (assigned f vs) (snd bo))).
    Proof.
      unfold cau_program. intros H fuel vs x Hf [Ht Hm]. apply rb_inl in H as (q & Hq & H). apply rb_inl in H as (h & Hh & E). injection E as <-.
      unfold plant in Hq. apply rb_inl in Hq as ([dn q'] & Hq & E). injection E as <-. cbn [snd] in Hh. 
      destruct (plantT_sem var_plant asg f) with (sk := skels_of vs0) (dn := @nil string) (dn' := dn) (p' := q') (pd := vs) as (K1 & K2 & K3); [right; split; [discriminate|reflexivity]|exact Hq|exact Hf|].
      cbn [run rb fst snd].
      assert (E : run fuel h ((vs, x), []) = rb (exec fuel f vs key0 x) (fun bo => inl (fst bo, collect (assigned f vs) (snd bo)))).
      { rewrite (C33_harvest_partial asg _ [] h Hh).
        - cbn [sem2 rb fst snd sites2]. rewrite K3, K1. cbn [app]. unfold exec, assigned. rewrite rb_assoc. apply rb_ext. intros [b o]. reflexivity.
        - split; [cbn [tame2]; split; [exact I|auto]|]. cbn [sites2 app]. rewrite K1. exact Hm. }
      exact E.
    Qed.
    Variables (name : option string) (key : tree) (x0 : A) (fuel0 : nat) (m : fmodule A B).
    Hypothesis Hinit : init fuel0 key0 f name key x0 = inl m.
    Lemma init_cau : cau_program key0 f (fm_vars m) = inl (fm_cau m) /\ fm_name m = name /\ init_vars fuel0 f key x0 = inl (fm_vars m).
    Proof.
      unfold init in Hinit. apply rb_inl in Hinit as (vars & H1 & H). apply rb_inl in H as (c & H2 & E). injection E as <-. auto.
    Qed.
    (** C45: one call of a module of [f], in any state [vs] with the variables (and tree structure) of the initialised
        module *)
    Theorem C45_call_and_update_partial fuel vs x : fits (skels_of (fm_vars m)) vs -> nocond asg f ->
      fm_call_and_update fuel (fm_replace m vs) x =
        rb (exec fuel f vs key0 x) (fun bo =>
          if forallb (fun n => mem n (dkeys vs)) (dkeys (assigned f vs)) then inl (fst bo, fm_replace m (dmerge vs (collect (assigned f vs) (snd bo)))) else inr ValueErr).
    Proof.
      intros Hf Hn. destruct init_cau as (Hc & _). unfold fm_call_and_update. cbn [fm_replace fm_cau fm_vars].
      rewrite (cau_run _ _ Hc fuel vs x Hf (nocond_regular _ _ f Hn vs)), rb_assoc. apply rb_ext. intros [b o]. cbn [rb fst snd]. rewrite dkeys_collect.
      assert (E : forall l, forallb (haskey vs) l = forallb (fun n => mem n (dkeys vs)) l).
      { intros l. induction l as [|n l IH]; [reflexivity|]. cbn [forallb]. rewrite IH. f_equal. destruct (haskey vs n) eqn:Eh.
        - symmetry. apply mem_In, haskey_In, Eh.
        - symmetry. apply mem_not_In. intros Hi. apply haskey_In in Hi. congruence. }
      rewrite E. reflexivity.
    Qed.
    (** an assign without a declared variable raises *)
    Theorem C45_undeclared_assign_raises fuel vs x n : fits (skels_of (fm_vars m)) vs -> nocond asg f ->
      In n (dkeys (sites2 f var_plant asg vs)) -> ~ In n (dkeys vs) -> exists e, fm_call_and_update fuel (fm_replace m vs) x = inr e.
    Proof.
      intros Hf Hn Hin Hv. rewrite (C45_call_and_update_partial fuel vs x Hf Hn). destruct (exec fuel f vs key0 x) as [[b o]|e]; [|eexists; reflexivity]. cbn [rb fst snd].
      assert (E : forallb (fun n => mem n (dkeys vs)) (dkeys (assigned f vs)) = false).
      { apply not_true_iff_false. intros Ht. rewrite forallb_forall in Ht. specialize (Ht n). apply Hv, mem_In, Ht. unfold assigned. apply once_keys. exact Hin. }
      rewrite E. eexists; reflexivity.
    Qed.
    (** the updated variables: same names; assigned names hold the last assigned value; the others are unchanged *)
    Theorem C45_new_variables_partial fuel vs x y m' : fits (skels_of (fm_vars m)) vs -> nocond asg f ->
      fm_call_and_update fuel (fm_replace m vs) x = inl (y, m') ->
      exists o, exec fuel f vs key0 x = inl (y, o) /\ dkeys (fm_vars m') = dkeys vs /\
        forall n, dget (fm_vars m') n = new_value (assigned f vs) o vs n.
    Proof.
      intros Hf Hn H. rewrite (C45_call_and_update_partial fuel vs x Hf Hn) in H. apply rb_inl in H as ([b o] & E & H). cbn [fst snd] in H.
      destruct (forallb _ _) eqn:Ef; [|discriminate]. injection H as <- <-. exists o. split; [exact E|]. cbn [fm_replace fm_vars]. split.
      - apply dkeys_dmerge_sub. intros n Hi. rewrite dkeys_collect in Hi. rewrite forallb_forall in Ef. apply mem_In. apply Ef, Hi.
      - intros n. rewrite dget_dmerge_nodup by (rewrite dkeys_collect; apply NoDup_dkeys_dmerge; constructor). unfold new_value. rewrite dget_collect. destruct (dget (assigned f vs) n) as [[mo av]|]; reflexivity.
    Qed.
  End step.

  (** C45, for any module whatsoever: the set (and order) of variables, the function and the name never change, and call
      and update are the projections of call_and_update *)
  Theorem C45_variable_set fuel {A B} (m : fmodule A B) x y m' : fm_call_and_update fuel m x = inl (y, m') ->
    dkeys (fm_vars m') = dkeys (fm_vars m) /\ fm_cau m' = fm_cau m /\ fm_name m' = fm_name m.
  Proof.
    unfold fm_call_and_update. intros H. apply rb_inl in H as ([b d] & E & H). cbn [fst snd] in H. destruct (forallb _ _) eqn:Ef; [|discriminate]. injection H as <- <-. cbn. split; [|auto].
    apply dkeys_dmerge_sub. intros n Hi. rewrite forallb_forall in Ef. apply haskey_In, Ef, Hi.
  Qed.
  Theorem C45_projections fuel {A B} (m : fmodule A B) x y m' :
    fm_call_and_update fuel m x = inl (y, m') -> fm_call fuel m x = inl y /\ fm_update fuel m x = inl m'.
  Proof. unfold fm_call, fm_update. intros ->. split; reflexivity. Qed.

  (** histories: the variables after any sequence of calls are those of executing [f] on a mutable store *)
  Fixpoint outputs (fuel : nat) {A B} (m : fmodule A B) (xs : list A) : res (list B * fmodule A B) :=
    match xs with
    | [] => inl ([], m)
    | x :: xs' => rb (fm_call_and_update fuel m x) (fun r => rb (outputs fuel (snd r) xs') (fun r' => inl (fst r :: fst r', snd r')))
    end.
  Fixpoint store_run (fuel : nat) {A B} (f : prog (tree * A) B) (key0 : tree) (vs : plants) (xs : list A) : res (list B * plants) :=
    match xs with
    | [] => inl ([], vs)
    | x :: xs' => rb (exec fuel f vs key0 x) (fun bo =>
        if forallb (fun n => mem n (dkeys vs)) (dkeys (assigned f vs))
        then rb (store_run fuel f key0 (dmerge vs (collect (assigned f vs) (snd bo))) xs') (fun r => inl (fst bo :: fst r, snd r))
        else inr ValueErr)
    end.
  Definition arrays_only (vs : plants) : Prop := Forall (fun kv => match snd kv with Dict _ => False | _ => True end) vs.
  Lemma fits_arrays vs0 vs : arrays_only vs0 -> dkeys vs = dkeys vs0 -> fits (skels_of vs0) vs.
  Proof.
    unfold fits, skels_of, dkeys, arrays_only. intros H. revert vs. induction H as [|[k t] vs0 Ht Hs IH]; intros [|[k' t'] vs] E; try discriminate; cbn; constructor.
    - cbn in *. split; [congruence|]. destruct t; [constructor|destruct Ht|constructor].
    - apply IH. cbn in E. congruence.
  Qed.
  Theorem C45_history_partial fuel0 {A B} key0 (f : prog (tree * A) B) name key x0 m : init fuel0 key0 f name key x0 = inl m ->
    arrays_only (fm_vars m) -> nocond asg f -> forall fuel xs,
    outputs fuel m xs = rb (store_run fuel f key0 (fm_vars m) xs) (fun r => inl (fst r, fm_replace m (snd r))).
  Proof.
    intros Hi Ha Hn fuel xs. assert (K : forall xs vs, dkeys vs = dkeys (fm_vars m) -> outputs fuel (fm_replace m vs) xs = rb (store_run fuel f key0 vs xs) (fun r => inl (fst r, fm_replace m (snd r)))).
    { clear xs. induction xs as [|x xs IH]; intros vs Hk; [reflexivity|]. cbn [outputs store_run].
      rewrite (C45_call_and_update_partial A B f key0 name key x0 fuel0 m Hi fuel vs x (fits_arrays _ _ Ha Hk) Hn), !rb_assoc. apply rb_ext. intros [b o]. cbn [fst snd].
      destruct (forallb (fun n => mem n (dkeys vs)) (dkeys (assigned f vs))) eqn:Ef; [|reflexivity]. cbn [rb fst snd]. rewrite IH.
      - rewrite !rb_assoc. apply rb_ext. intros [l vs']. reflexivity.
      - rewrite dkeys_dmerge_sub; [exact Hk|]. intros n Hi'. rewrite dkeys_collect in Hi'. rewrite forallb_forall in Ef. apply mem_In. apply Ef, Hi'. }
    specialize (K xs (fm_vars m) eq_refl). destruct m as [vs c nm]. exact K.
  Qed.

  (** whether a harvest is exclusive does not influence what it records *)
  Section exclusive.
    Variables (tg : string) (bl : list string) (al : option (list string)) (e e' : bool).
    Notation s := (mk_settings tg bl al e).
    Notation s' := (mk_settings tg bl al e').
    Lemma excl_resow_meta l : forall M, resow_meta s M l = resow_meta s' M l.
    Proof. induction l as [|[n [m a]] l IH]; intros M; [reflexivity|]. cbn [resow_meta]. change (passes s n) with (passes s' n). apply rb_ext. intros M'. apply IH. Qed.
    Lemma excl_reapT {A B} (p : prog A B) : forall M M' p', reapT s p M = inl (M', p') -> exists p2, reapT s' p M = inl (M', p2).
    Proof.
      induction p as [A B f|A B C p IHp q IHq|A B C p IHp|t n m av|t n av|A B sc p IHp|A B p IHp|C X Y rv len p IHp|C c p IHp|A B p IHp q IHq]; intros M M' p' H; cbn [reapT] in H |- *.
      - injection H as <- _. eauto.
      - apply rb_inl in H as ([M1 p1] & H1 & H). apply rb_inl in H as ([M2 p2] & H2 & H). injection H as <- _. apply IHp in H1 as (q1 & ->). cbn [rb fst snd] in *. apply IHq in H2 as (q2 & ->). cbn [rb fst snd]. eauto.
      - apply rb_inl in H as ([M1 p1] & H1 & H). injection H as <- _. apply IHp in H1 as (q1 & ->). cbn [rb fst snd]. eauto.
      - destruct (is_cond m); [discriminate|]. change (tag_of s') with (tag_of s). change (passes s' n) with (passes s n). destruct (String.eqb t (tag_of s)).
        + destruct (passes s n); [apply rb_inl in H as (M1 & -> & H); injection H as <- _; cbn [rb]; eauto|injection H as <- _; eauto].
        + destruct (exclusive s), (exclusive s'); injection H as <- _; eauto.
      - change (tag_of s') with (tag_of s). change (passes s' n) with (passes s n). destruct (String.eqb t (tag_of s)).
        + destruct (passes s n); [apply rb_inl in H as (M1 & -> & H); injection H as <- _; cbn [rb]; eauto|injection H as <- _; eauto].
        + destruct (exclusive s), (exclusive s'); injection H as <- _; eauto.
      - apply rb_inl in H as ([M1 p1] & H1 & H). apply IHp in H1 as (q1 & ->). cbn [rb fst snd] in *. apply rb_inl in H as (M2 & H2 & H). injection H as <- _.
        destruct M1; [injection H2 as <-; cbn [rb]; eauto|]. rewrite <- excl_resow_meta, H2. cbn [rb]. eauto.
      - apply rb_inl in H as ([M1 p1] & H1 & H). apply IHp in H1 as (q1 & ->). cbn [rb fst snd] in *. apply rb_inl in H as (M2 & H2 & H). injection H as <- _. rewrite <- excl_resow_meta, H2. cbn [rb]. eauto.
      - apply rb_inl in H as ([M1 p1] & H1 & H). apply IHp in H1 as (q1 & ->). cbv zeta in *. cbn [rb fst snd] in *.
        destruct (existsb (fun e => is_strict (fst (snd e))) M1); [discriminate|]. destruct (is_cond (last_mode M1) && _)%bool; [discriminate|].
        apply rb_inl in H as (M2 & H2 & H). injection H as <- _. rewrite <- excl_resow_meta, H2. cbn [rb]. eauto.
      - apply rb_inl in H as ([M1 p1] & H1 & H). apply IHp in H1 as (q1 & ->). cbv zeta in *. cbn [rb fst snd] in *.
        destruct (existsb _ M1); [discriminate|]. apply rb_inl in H as (M2 & H2 & H). injection H as <- _. rewrite <- excl_resow_meta, H2. cbn [rb]. eauto.
      - apply rb_inl in H as ([M1 p1] & H1 & H). apply rb_inl in H as ([M2 p2] & H2 & H). apply rb_inl in H as (u & Hu & H). apply rb_inl in H as (M3 & H3 & H). injection H as <- _.
        apply IHp in H1 as (q1 & ->). apply IHq in H2 as (q2 & ->). cbn [rb fst snd] in *. rewrite Hu. cbn [rb]. rewrite <- excl_resow_meta, H3. cbn [rb]. eauto.
    Qed.
    Lemma excl_sites {A B} (p : prog A B) : forall pd, sites2 p s s pd = sites2 p s' s' pd.
    Proof.
      induction p as [A B f|A B C p IHp q IHq|A B C p IHp|t n m av|t n av|A B sc p IHp|A B p IHp|C X Y rv len p IHp|C c p IHp|A B p IHp q IHq]; intros pd; cbn [sites2]; try reflexivity.
      - rewrite IHp, IHq. reflexivity.
      - apply IHp.
      - rewrite IHp. reflexivity.
      - rewrite IHp. reflexivity.
      - rewrite !IHp. reflexivity.
      - rewrite IHp. reflexivity.
      - rewrite IHp. reflexivity.
    Qed.
    Lemma excl_sem fuel {A B} (p : prog A B) : forall pd a, sem2 s s fuel p pd a = sem2 s' s' fuel p pd a.
    Proof.
      induction p as [A B f|A B C p IHp q IHq|A B C p IHp|t n m av|t n av|A B sc p IHp|A B p IHp|C X Y rv len p IHp|C c p IHp|A B p IHp q IHq]; intros pd a; cbn [sem2]; try reflexivity.
      - rewrite IHp. apply rb_ext. intros r. rewrite IHq. reflexivity.
      - rewrite IHp. reflexivity.
      - rewrite IHp, !excl_sites. reflexivity.
      - apply IHp.
      - rewrite (excl_sites p []). destruct (Nat.eqb _ len); [|reflexivity]. apply rb_ext. intros ps.
        assert (Es : forall cx, scan_sem rv len (fun cxp : C * (X * plants) => rb (sem2 s s fuel p (snd (snd cxp)) (fst cxp, fst (snd cxp))) (fun r => inl (fst (fst r), (snd (fst r), snd r)))) cx =
                    scan_sem rv len (fun cxp : C * (X * plants) => rb (sem2 s' s' fuel p (snd (snd cxp)) (fst cxp, fst (snd cxp))) (fun r => inl (fst (fst r), (snd (fst r), snd r)))) cx).
        { intros cx. unfold scan_sem. destruct (Nat.eqb _ len); [|reflexivity]. f_equal. generalize (rev_if rv (snd cx)) (fst cx). intros l. induction l as [|x l IHl]; intros c; [reflexivity|]. cbn [scan_loop]. rewrite IHp. apply rb_ext. intros cy. rewrite IHl. reflexivity. }
        rewrite Es, excl_sites. reflexivity.
      - rewrite excl_sites. erewrite while_loop_ext; [reflexivity|]. intros co. cbn. rewrite IHp. reflexivity.
      - rewrite IHp, IHq. reflexivity.
    Qed.
    Lemma excl_strictp {A B} (p : prog A B) : strictp s p -> strictp s' p.
    Proof. induction p; cbn [strictp]; tauto. Qed.
    Lemma excl_call_and_reap {A B} (p : prog A B) r : call_and_reap s p = inl r -> strictp s p -> exists r', call_and_reap s' p = inl r' /\ forall fuel a, run fuel r' a = run fuel r a.
    Proof.
      intros H Hs. pose proof H as H0. unfold call_and_reap in H0. apply rb_inl in H0 as ([M p1] & H1 & _). apply excl_reapT in H1 as (p2 & H2).
      assert (Hr : exists r', call_and_reap s' p = inl r') by (unfold call_and_reap; rewrite H2; cbn [rb]; eauto). destruct Hr as [r' Hr]. exists r'. split; [exact Hr|]. intros fuel a.
      assert (R : forall s, strictp s p -> regular s p []) by (intros s1 H1; split; [apply strictp_tame, H1|apply no_cond_no_mix, no_clob_no_cond, strictp_sites, H1]).
      rewrite (call_and_reap_sem _ fuel p r a H (R _ Hs)), (call_and_reap_sem _ fuel p r' a Hr (R _ (excl_strictp p Hs))), excl_sem, excl_sites. reflexivity.
    Qed.
  End exclusive.

  (** ** C46 *)
  (** the variables of an initialised module are the values [f] declares when run with the key *)
  Theorem C46_variables_partial fuel {A B} key0 (f : prog (tree * A) B) name key x m : init fuel key0 f name key x = inl m -> nocond var_reap f ->
    exists y o, sem var_reap fuel f [] (key, x) = inl (y, o) /\ run fuel f (key, x) = inl y /\ NoDup (dkeys (fm_vars m)) /\
      (forall n, In n (dkeys (fm_vars m)) <-> In n (dkeys (sites var_reap f []))) /\
      forall n mo av, dget (once (sites var_reap f [])) n = Some (mo, av) -> dget (fm_vars m) n = Some (match last_eff o n with Some v => v | None => zeros av end).
  Proof.
    intros Hi Hn. apply init_cau in Hi as (_ & _ & Hv). unfold init_vars in Hv. apply rb_inl in Hv as (r & Hr & Hv). apply rb_inl in Hv as ([y d] & Hd & E). injection E as E. cbn in E. subst d.
    destruct (C24_reap_exactly_partial var_reap f r fuel (key, x) y _ Hr (nocond_regular _ _ f Hn []) Hd) as (o & Ho & H1 & H2 & H3). exists y, o. split; [exact Ho|]. split; [|auto].
    rewrite (run_sem_eq var_reap var_reap fuel f), Ho. reflexivity.
  Qed.
  (** m.call(x') is [f] run with those variables in place of the declared ones *)
  Theorem C46_call fuel0 {A B} key0 (f : prog (tree * A) B) name key x0 m q : init fuel0 key0 f name key x0 = inl m -> plant var_plant f (fm_vars m) = inl q ->
    forall fuel x y m', fm_call_and_update fuel m x = inl (y, m') -> run fuel q ((key0, x), fm_vars m) = inl y.
  Proof.
    intros Hi Hp fuel x y m' H. apply init_cau in Hi as (Hc & _). unfold cau_program in Hc. rewrite Hp in Hc. cbn [rb] in Hc. apply rb_inl in Hc as (h & Hh & E). injection E as E.
    unfold fm_call_and_update in H. apply rb_inl in H as ([b d] & Hr & H). cbn [fst snd] in H. destruct (forallb _ _); [|discriminate]. injection H as <- _.
    rewrite <- E in Hr. cbn [run rb fst snd] in Hr. pose proof Hh as Hh'. unfold harvest in Hh'. apply rb_inl in Hh' as (p2 & Hp2 & _).
    pose proof (C33_harvest_output asg _ [] h p2 Hh Hp2 fuel (fm_vars m, x)) as K. rewrite (C31_nothing_planted asg _ p2 Hp2) in K. cbn [run rb fst snd] in K.
    destruct (run fuel q ((key0, x), fm_vars m)) as [b'|e].
    - destruct K as [d' K]. rewrite K in Hr. injection Hr as -> _. reflexivity.
    - rewrite K in Hr. discriminate.
  Qed.
  (** ... as the specification says it: *)
  Theorem C46_call_exec_partial fuel0 {A B} key0 (f : prog (tree * A) B) name key x0 m : init fuel0 key0 f name key x0 = inl m -> nocond asg f ->
    forall fuel x y m', fm_call_and_update fuel m x = inl (y, m') -> rb (exec fuel f (fm_vars m) key0 x) (fun bo => inl (fst bo)) = inl y.
  Proof.
    intros Hi Hn fuel x y m' H. replace m with (fm_replace m (fm_vars m)) in H by (destruct m; reflexivity).
    apply (C45_new_variables_partial A B f key0 name key x0 fuel0 m Hi fuel (fm_vars m) x y m' (fits_skels_of _) Hn) in H as (o & -> & _). reflexivity.
  Qed.
  (** a function that uses its key only to create variables: the module called on the arguments of init returns what the
      function returns *)
  Theorem C46_call_is_the_function_partial fuel {A B} key0 (f : prog (tree * A) B) name key x m y m' : init fuel key0 f name key x = inl m ->
    strictp var_reap f ->
    (forall q, plant var_plant f (fm_vars m) = inl q -> forall k1 k2 x, run fuel q ((k1, x), fm_vars m) = run fuel q ((k2, x), fm_vars m)) ->
    fm_call_and_update fuel m x = inl (y, m') -> run fuel f (key, x) = inl y.
  Proof.
    intros Hi Hs Hk H. pose proof Hi as Hi'. apply init_cau in Hi' as (Hc & _ & Hv). unfold cau_program in Hc. apply rb_inl in Hc as (q & Hq & _).
    pose proof (C46_call fuel key0 f name key x m q Hi Hq fuel x y m' H) as K. rewrite (Hk q Hq key0 key) in K.
    unfold init_vars in Hv. apply rb_inl in Hv as (r & Hr & Hv). apply rb_inl in Hv as ([b d] & Hd & E). injection E as E. cbn in E. subst d.
    destruct (excl_call_and_reap VARIABLE [] None true false f r Hr Hs) as (r' & Hr' & Er). rewrite <- Er in Hd.
    destruct (C32_plant_reaped var_plant f r' fuel (key, x) b (fm_vars m) q) as [K1 K2]; auto.
    rewrite K in K1. injection K1 as <-. exact K2.
  Qed.

  (** stateless functions *)
  Theorem C46_stateless fuel {A B} (f : prog A B) name x :
    fm_vars (init_stateless f name) = [] /\
    fm_call_and_update fuel (init_stateless f name) x = rb (run fuel f x) (fun y => inl (y, init_stateless f name)).
  Proof. split; [reflexivity|]. unfold fm_call_and_update. cbn [init_stateless fm_cau fm_vars run rb fst snd]. rewrite rb_assoc. apply rb_ext. intros y. reflexivity. Qed.

  (** ** C48: function modules *)
  Theorem C48_function_roundtrip {A B} (m : fmodule A B) : NoDup (dkeys (fm_vars m)) ->
    fm_unflatten (snd (fm_flatten m)) (fst (fm_flatten m)) = m.
  Proof.
    destruct m as [vs c n]. cbn. intros H. f_equal.
    assert (E : combine (map fst vs) (map snd vs) = vs) by (clear; induction vs as [|[k t] vs IH]; cbn; [reflexivity|f_equal; exact IH]). rewrite E.
    assert (K : forall a, NoDup (dkeys (a ++ vs)) -> dmerge a vs = a ++ vs).
    { clear. induction vs as [|[k t] vs IH]; intros a H; [rewrite app_nil_r; reflexivity|]. change (dmerge a ((k, t) :: vs)) with (dmerge (dset a k t) vs).
      assert (Hs : dset a k t = a ++ [(k, t)]).
      { assert (Hk : ~ In k (dkeys a)). { unfold dkeys in *. rewrite map_app in H. cbn in H. apply NoDup_remove_2 in H. intros Hi. apply H, in_or_app. auto. }
        clear -Hk. induction a as [|[k' t'] a IH]; [reflexivity|]. cbn in *. destruct (String.eqb_spec k k') as [->|]; [exfalso; auto|]. f_equal. apply IH. tauto. }
      rewrite Hs, IH; [rewrite <- app_assoc; reflexivity|]. rewrite <- app_assoc. exact H. }
    apply (K []). exact H.
  Qed.
  Lemma run_reapT_nodup fuel s {A B} (p : prog A B) r a b d : call_and_reap s p = inl r -> regular s p [] -> run fuel r a = inl (b, d) -> NoDup (dkeys d).
  Proof. intros H Hr Hd. apply (C24_reap_exactly_partial s p r fuel a b d H Hr) in Hd as (o & _ & Hn & _). exact Hn. Qed.
  (** ... in particular every initialised module, before and after any number of updates *)
  Theorem C48_reachable_roundtrip fuel0 {A B} key0 (f : prog (tree * A) B) name key x0 m : init fuel0 key0 f name key x0 = inl m -> nocond var_reap f ->
    forall fuel xs ys m', outputs fuel m xs = inl (ys, m') -> fm_unflatten (snd (fm_flatten m')) (fst (fm_flatten m')) = m'.
  Proof.
    intros Hi Hn fuel xs ys m' H. apply C48_function_roundtrip. apply (C46_variables_partial fuel0 key0 f name key x0 m) in Hi as (y & o & _ & _ & Hd & _); [|exact Hn].
    cut (dkeys (fm_vars m') = dkeys (fm_vars m)); [intros ->; exact Hd|]. clear Hd o Hn y. revert m ys m' H. induction xs as [|x xs IH]; intros m ys m' H; cbn [outputs] in H; [injection H as <- <-; reflexivity|].
    apply rb_inl in H as ([y m1] & H1 & H). apply rb_inl in H as ([ys' m2] & H2 & H). injection H as <- <-. cbn [fst snd] in *. apply IH in H2. apply C45_variable_set in H1 as [H1 _]. congruence.
  Qed.
End functions.

(** ** C47: lists compose, tuples fan out *)
Section objects.
  Variable V M : Type.
  Variable cau_module : M -> list (pv V) -> res (pv V * M).
  Notation cau := (call_and_update V M cau_module).
  Notation rb_inl := HarvestProofs.rb_inl.

  Definition go_list := (fix go (l : list (obj M)) (args : pv V) : res (pv V * list (obj M)) :=
               match l with
               | [] => inl (args, [])
               | o :: l' => rb (cau o (as_args V args)) (fun r => rb (go l' (fst r)) (fun r' => inl (fst r', snd r :: snd r')))
               end).
  Definition go_tuple args := (fix go (l : list (obj M)) : res (list (pv V) * list (obj M)) :=
               match l with
               | [] => inl ([], [])
               | o :: l' => rb (cau o args) (fun r => rb (go l') (fun r' => inl (fst r :: fst r', snd r :: snd r')))
               end).
  Lemma cau_list l args : cau (OList l) args = rb (go_list l (PTuple args)) (fun r => inl (fst r, OList (snd r))).
  Proof. reflexivity. Qed.
  Lemma cau_tuple l args : cau (OTuple l) args = rb (go_tuple args l) (fun r => match l with [] => inr ValueErr | _ => inl (PTuple (fst r), OTuple (snd r)) end).
  Proof. reflexivity. Qed.
  Lemma last_cons {X} (vs : list X) : forall v w, last (w :: vs) v = last vs w.
  Proof. induction vs as [|a vs IH]; intros v w; [reflexivity|]. change (last (w :: a :: vs) v) with (last (a :: vs) v). rewrite IH. symmetry. apply IH. Qed.
  Lemma go_list_spec l : forall v y l', go_list l v = inl (y, l') <->
    exists vs, List.length vs = List.length l /\ List.length l' = List.length l /\ last vs v = y /\
      forall i o, nth_error l i = Some o -> exists u w o', nth_error (v :: vs) i = Some u /\ nth_error vs i = Some w /\ nth_error l' i = Some o' /\ cau o (as_args V u) = inl (w, o').
  Proof.
    induction l as [|o l IH]; intros v y l'.
    - cbn. split.
      + intros E. injection E as <- <-. exists []. repeat split. intros [|i] o E; discriminate.
      + intros (vs & H1 & H2 & H3 & _). destruct vs; [|discriminate]. destruct l'; [|discriminate]. cbn in H3. subst. reflexivity.
    - cbn [go_list]. fold go_list. split.
      + intros H. apply rb_inl in H as ([w o'] & H1 & H). apply rb_inl in H as ([y2 l2] & H2 & H). cbn [fst snd] in *. injection H as <- <-. apply IH in H2 as (vs & L1 & L2 & L3 & K).
        exists (w :: vs). cbn [List.length]. repeat split; [congruence..| |].
        * rewrite last_cons. exact L3.
        * intros [|i] a E; cbn in E; [injection E as <-; cbn; eauto 8|]. destruct (K i a E) as (u & w' & a' & K1 & K2 & K3 & K4). exists u, w', a'. auto.
      + intros (vs & L1 & L2 & L3 & K). destruct vs as [|w vs]; [discriminate|]. destruct l' as [|o' l']; [discriminate|].
        destruct (K 0%nat o eq_refl) as (u & w' & a' & K1 & K2 & K3 & K4). cbn in K1, K2, K3. injection K1 as <-. injection K2 as <-. injection K3 as <-. rewrite K4. cbn [rb fst snd].
        assert (E : go_list l w = inl (y, l')).
        { apply IH. exists vs. cbn in L1, L2. repeat split; [congruence..| |].
          - rewrite last_cons in L3. exact L3.
          - intros i a E. destruct (K (S i) a E) as (u & w' & a' & K1 & K2 & K3 & K5). exists u, w', a'. auto. }
        rewrite E. reflexivity.
  Qed.
  Lemma go_tuple_spec args l : forall ys l', go_tuple args l = inl (ys, l') <->
    List.length ys = List.length l /\ List.length l' = List.length l /\
      forall i o, nth_error l i = Some o -> exists y o', nth_error ys i = Some y /\ nth_error l' i = Some o' /\ cau o args = inl (y, o').
  Proof.
    induction l as [|o l IH]; intros ys l'.
    - cbn. split.
      + intros E. injection E as <- <-. repeat split. intros [|i] o E; discriminate.
      + intros (H1 & H2 & _). destruct ys; [|discriminate]. destruct l'; [|discriminate]. reflexivity.
    - cbn [go_tuple]. fold (go_tuple args). split.
      + intros H. apply rb_inl in H as ([w o'] & H1 & H). apply rb_inl in H as ([y2 l2] & H2 & H). cbn [fst snd] in *. injection H as <- <-. apply IH in H2 as (L1 & L2 & K).
        cbn [List.length]. repeat split; [congruence..|]. intros [|i] a E; cbn in E; [injection E as <-; cbn; eauto|]. exact (K i a E).
      + intros (L1 & L2 & K). destruct ys as [|y ys]; [discriminate|]. destruct l' as [|o' l']; [discriminate|].
        destruct (K 0%nat o eq_refl) as (w' & a' & K2 & K3 & K4). cbn in K2, K3. injection K2 as <-. injection K3 as <-. rewrite K4. cbn [rb fst snd].
        assert (E : go_tuple args l = inl (ys, l')) by (apply IH; cbn in L1, L2; repeat split; [congruence..|intros i a E; exact (K (S i) a E)]). rewrite E. reflexivity.
  Qed.
  (** a list: there are intermediate values, beginning with the arguments and ending with the output, and every module
      is called once, on the value before it, and replaced by its update *)
  Theorem C47_list l args y o : cau (OList l) args = inl (y, o) <->
    exists vs l', o = OList l' /\ List.length vs = List.length l /\ List.length l' = List.length l /\ last vs (PTuple args) = y /\
      forall i m, nth_error l i = Some m -> exists u w m', nth_error (PTuple args :: vs) i = Some u /\ nth_error vs i = Some w /\ nth_error l' i = Some m' /\
        cau m (as_args V u) = inl (w, m').
  Proof.
    rewrite cau_list. split.
    - intros H. apply rb_inl in H as ([y' l'] & H1 & H). injection H as <- <-. apply go_list_spec in H1 as (vs & K). exists vs, l'. cbn [fst snd]. tauto.
    - intros (vs & l' & -> & K). rewrite (proj2 (go_list_spec l (PTuple args) y l')) by eauto. reflexivity.
  Qed.
  (** a tuple: every module is called once on the same arguments *)
  Theorem C47_tuple l args y o : l <> [] -> (cau (OTuple l) args = inl (y, o) <->
    exists ys l', y = PTuple ys /\ o = OTuple l' /\ List.length ys = List.length l /\ List.length l' = List.length l /\
      forall i m, nth_error l i = Some m -> exists yi m', nth_error ys i = Some yi /\ nth_error l' i = Some m' /\ cau m args = inl (yi, m')).
  Proof.
    intros Hl. rewrite cau_tuple. split.
    - intros H. apply rb_inl in H as ([ys l'] & H1 & H). apply go_tuple_spec in H1. destruct l; [contradiction|]. injection H as <- <-. exists ys, l'. cbn [fst snd]. tauto.
    - intros (ys & l' & -> & -> & K). rewrite (proj2 (go_tuple_spec args l ys l')) by tauto. destruct l; [contradiction|]. reflexivity.
  Qed.
  (** the empty cases: an empty list returns its argument tuple, an empty tuple raises *)
  Theorem C47_empty args : cau (OList []) args = inl (PTuple args, OList []) /\ cau (OTuple []) args = inr ValueErr.
  Proof. split; reflexivity. Qed.
  (** concatenation of lists is composition *)
  Theorem C47_append a b args : cau (OList (a ++ b)) args =
    rb (cau (OList a) args) (fun r => rb (go_list b (fst r)) (fun r' => inl (fst r', match snd r with OList a' => OList (a' ++ snd r') | o => o end))).
  Proof.
    rewrite !cau_list. assert (K : forall v, go_list (a ++ b) v = rb (go_list a v) (fun r => rb (go_list b (fst r)) (fun r' => inl (fst r', snd r ++ snd r')))).
    { induction a as [|o a IH]; intros v; cbn [app go_list]; fold go_list.
      - cbn [rb fst snd app]. destruct (go_list b v) as [[y l]|]; reflexivity.
      - rewrite rb_assoc. apply rb_ext. intros r. rewrite IH, !rb_assoc. apply rb_ext. intros r1. cbn [rb fst snd]. rewrite !rb_assoc. apply rb_ext. intros r2. reflexivity. }
    rewrite K, !rb_assoc. apply rb_ext. intros r. cbn [rb fst snd]. rewrite !rb_assoc. apply rb_ext. intros r2. reflexivity.
  Qed.
  (** structure is preserved *)
  Inductive same_shape : obj M -> obj M -> Prop :=
  | ss_mod m m' : same_shape (OMod m) (OMod m')
  | ss_list l l' : Forall2 same_shape l l' -> same_shape (OList l) (OList l')
  | ss_tuple l l' : Forall2 same_shape l l' -> same_shape (OTuple l) (OTuple l').
  Fixpoint obj_size (o : obj M) : nat := match o with OMod _ => 1 | OList l | OTuple l => S (list_sum (map obj_size l)) end.
  Theorem C47_structure o args y o' : cau o args = inl (y, o') -> same_shape o o'.
  Proof.
    remember (obj_size o) as n eqn:En. assert (Hn : (obj_size o <= n)%nat) by lia. clear En. revert o args y o' Hn. induction n as [|n IH]; intros o args y o' Hn H; [destruct o; cbn in Hn; lia|].
    destruct o as [m|l|l].
    - cbn in H. apply rb_inl in H as ([v m'] & _ & H). injection H as <- <-. constructor.
    - rewrite cau_list in H. apply rb_inl in H as ([v l'] & H1 & H). injection H as <- <-. constructor. assert (Hm : (list_sum (map obj_size l) <= n)%nat) by (cbn [obj_size] in Hn; lia). clear Hn. revert H1. generalize (PTuple args : pv V). clear args. revert v l'.
      induction l as [|o l IHl]; intros v l' u H1; cbn [go_list] in H1; fold go_list in H1; [injection H1 as <- <-; constructor|].
      apply rb_inl in H1 as ([w o'] & H1 & H). apply rb_inl in H as ([y2 l2] & H2 & H). cbn [fst snd] in *. injection H as <- <-. unfold list_sum in *. cbn [map fold_right] in Hm. constructor; [eapply IH; [lia|exact H1]|eapply IHl; [lia|exact H2]].
    - rewrite cau_tuple in H. apply rb_inl in H as ([v l'] & H1 & H). assert (E : o' = OTuple l') by (destruct l; [discriminate|injection H as _ <-; reflexivity]). subst o'. constructor. assert (Hm : (list_sum (map obj_size l) <= n)%nat) by (cbn [obj_size] in Hn; lia). clear Hn. clear H. revert v l' H1.
      induction l as [|o l IHl]; intros v l' H1; cbn [go_tuple] in H1; fold (go_tuple args) in H1; [injection H1 as <- <-; constructor|].
      apply rb_inl in H1 as ([w o'] & H1 & H). apply rb_inl in H as ([y2 l2] & H2 & H). cbn [fst snd] in *. injection H as <- <-. unfold list_sum in *. cbn [map fold_right] in Hm. constructor; [eapply IH; [lia|exact H1]|eapply IHl; [lia|exact H2]].
  Qed.
  (** for modules that map a value (not a tuple) to a value, a non-empty list is the composition of their calls *)
  Fixpoint compose (g : M -> V -> V * M) (ms : list M) (x : V) : V * list M :=
    match ms with [] => (x, []) | m :: ms' => (fst (compose g ms' (fst (g m x))), snd (g m x) :: snd (compose g ms' (fst (g m x)))) end.
  Theorem C47_composition (g : M -> V -> V * M) (ms : list M) x : (forall m v, cau_module m [PVal v] = inl (PVal (fst (g m v)), snd (g m v))) -> ms <> [] ->
    cau (OList (map OMod ms)) [PVal x] = inl (PVal (fst (compose g ms x)), OList (map OMod (snd (compose g ms x)))) /\
    fst (compose g ms x) = fold_left (fun v m => fst (g m v)) ms x.
  Proof.
    intros Hg Hne. split.
    - rewrite cau_list. assert (K : forall ms v, go_list (map OMod ms) (PVal v) = inl (PVal (fst (compose g ms v)), map OMod (snd (compose g ms v)))).
      { clear ms x Hne. induction ms as [|m ms IH]; intros v; [reflexivity|]. cbn [map go_list]; fold go_list. cbn [call_and_update as_args]. rewrite Hg. cbn [rb fst snd]. rewrite IH. reflexivity. }
      destruct ms as [|m ms]; [contradiction|]. cbn [map go_list]; fold go_list. cbn [call_and_update as_args]. rewrite Hg. cbn [rb fst snd]. rewrite K. reflexivity.
    - clear Hne. revert x. induction ms as [|m ms IH]; intros x; [reflexivity|]. cbn. apply IH.
  Qed.
End objects.

(** ** Concrete cases *)
Open Scope Z_scope.
(** def f(x, init_key): w = variable(init_key + 1, 'w'); n = variable(0, 'n'); assign(n + 1, 'n'); return w * x *)
Definition ex_f : prog (tree * Z) Z :=
  Seq (Pure (fun kx : tree * Z => inl (L (HarvestProps.val (fst kx) + 1), snd kx)))
   (Seq (First Z (variable "w" A1))
    (Seq (Pure (fun wx : tree * Z => inl (L 0, wx)))
     (Seq (First (tree * Z) (variable "n" A1))
      (Seq (Pure (fun x : tree * (tree * Z) => inl (L (HarvestProps.val (fst x) + 1), snd x)))
       (Seq (First (tree * Z) (assign "n" A1)) (Pure (fun x : tree * (tree * Z) => inl (HarvestProps.val (fst (snd x)) * snd (snd x)))))))))
.
Example ex_f_nocond : nocond asg ex_f /\ nocond var_reap ex_f /\ strictp var_reap ex_f.
Proof. cbn. repeat split; auto; intros; try reflexivity; discriminate. Qed.
Example C45_example : rb (init 10 (L 0) ex_f None (L 6) 5) (fun m => inl (fm_vars m)) = inl [("w", L 7); ("n", L 0)] /\
  rb (init 10 (L 0) ex_f None (L 6) 5) (fun m => rb (outputs 10 m [1; 2; 3]) (fun r => inl (fst r, fm_vars (snd r)))) = inl ([7; 14; 21], [("w", L 7); ("n", L 3)]) /\
  rb (init 10 (L 0) ex_f None (L 6) 5) (fun m => rb (fm_call 10 m 5) (fun y => inl y)) = run 10 ex_f (L 6, 5) /\
  rb (init 10 (L 0) (Seq (Pure (fun kx : tree * Z => inl (fst kx))) (assign "z" A1)) None (L 6) 5) (fun m => fm_call 10 m 5) = inr ValueErr.
Proof. repeat split; vm_compute; reflexivity. Qed.
Example C46_example : forall q, plant var_plant ex_f [("w", L 7); ("n", L 0)] = inl q -> forall k1 k2 x,
  run 10 q ((k1, x), [("w", L 7); ("n", L 0)]) = run 10 q ((k2, x), [("w", L 7); ("n", L 0)]).
Proof. intros q Hq k1 k2 x. cbn in Hq. injection Hq as <-. reflexivity. Qed.
Example C47_example :
  let g (m v : Z) := (v * 10 + m, m + 1) in
  let cau (m : Z) (args : list (pv Z)) : res (pv Z * Z) := match args with [PVal v] => inl (PVal (fst (g m v)), snd (g m v)) | _ => inr TypeErr end in
  call_and_update Z Z cau (OList [OMod 1; OList [OMod 2; OMod 3]; OTuple [OMod 4; OMod 5]]) [PVal 9] =
    inl (PTuple [PVal 91234; PVal 91235], OList [OMod 2; OList [OMod 3; OMod 4]; OTuple [OMod 5; OMod 6]]).
Proof. reflexivity. Qed.
Print Assumptions C45_history_partial.
Print Assumptions C46_call_is_the_function_partial.
Print Assumptions C47_list.
Print Assumptions C48_reachable_roundtrip.
