(** C59: sample_chain returns the iterates of its kernel; and optix.gradient_descent / optix.optimize. *)
From Verif Require Import Dict HarvestSpec HarvestProofs HarvestProofs2 HarvestProofs3 HarvestProofs4 HarvestProofs5 StateProps StateNestProofs StateNestProps.
From Verif Require Export LoopProps.
From Verif Require HarvestProps.
From Coq Require Import Lia ZArith.
Open Scope string_scope. Open Scope list_scope.

(** ** Specification: the states visited when a module is called on each input with the state the last call returned *)
Inductive visits {AR : Arrays} {X S A} (fuel : nat) (arg : X -> S -> A) : fmodule A S -> list X -> S -> list S -> fmodule A S -> Prop :=
| visits_nil m s : visits fuel arg m [] s [] m
| visits_cons m x xs s s1 m1 states m' : fm_call_and_update fuel m (arg x s) = inl (s1, m1) -> visits fuel arg m1 xs s1 states m' ->
    visits fuel arg m (x :: xs) s (s1 :: states) m'.

Section facts.
  Context {AR : Arrays} {X S A : Type} (fuel : nat) (arg : X -> S -> A).
  Lemma last_cons {T} (l : list T) (x d : T) : last (x :: l) d = last l x.
  Proof. revert x d. induction l as [|y l IH]; intros x d; [reflexivity|]. change (last (x :: y :: l) d) with (last (y :: l) d). rewrite !IH. reflexivity. Qed.
  Lemma iterate_visits : forall xs m s q m', iterate fuel arg m s xs = inl (q, m') <-> (visits fuel arg m xs s (snd q) m' /\ fst q = last (snd q) s).
  Proof.
    induction xs as [|x xs IH]; intros m s [s' l] m'; cbn [iterate fst snd].
    - split; [intros H; injection H as <- <- <-; split; constructor|]. intros [H ->]. inversion H; subst. reflexivity.
    - split.
      + intros H. apply rb_inl in H as ([s1 m1] & H1 & H). apply rb_inl in H as ([[s2 l2] m2] & H2 & H). cbn [fst snd] in *. injection H as <- <- <-. apply IH in H2 as [H2 E]. cbn [fst snd] in *. split; [econstructor; eassumption|]. rewrite last_cons. exact E.
      + intros [H ->]. inversion H; subst. match goal with H : fm_call_and_update _ _ _ = _ |- _ => rewrite H end. cbn [rb fst snd].
        match goal with Hv : visits _ _ ?m1 xs ?s1 ?st m' |- _ => assert (E : iterate fuel arg m1 s1 xs = inl ((last st s1, st), m')) by (apply IH; split; [exact Hv|reflexivity]); rewrite E end.
        cbn [rb fst snd]. rewrite last_cons. reflexivity.
  Qed.
  Lemma visits_length m xs s l m' : visits fuel arg m xs s l m' -> List.length l = List.length xs.
  Proof. induction 1; cbn; congruence. Qed.
  Lemma visits_det m xs s l m' : visits fuel arg m xs s l m' -> forall l2 m2, visits fuel arg m xs s l2 m2 -> l2 = l /\ m2 = m'.
  Proof. 
    induction 1 as [m s|m x xs s s1 m1 states m' H1 H2 IH]; intros l2 m2 H3; inversion H3 as [|? ? ? ? s2 m4 states2 ? H4 H5]; subst; auto.
    rewrite H1 in H4. injection H4 as <- <-. destruct (IH _ _ H5) as [-> ->]. auto.
  Qed.
End facts.

(** ** sample_chain *)
Section chain.
  Context {AR : Arrays}.
  Variables (key0 : tree) (empty_sow : bool) (split : tree -> nat -> list tree) (S : Type).
  Hypothesis Hsplit : forall k n, List.length (split k n) = n.
  Variables (kernel : ufun (tree * S) S) (n : nat) (p : prog (tree * (tree * S)) (list S)).
  Hypotheses (Hp : sample_chain key0 empty_sow split kernel n = inl p) (Hk : ufun_ok kernel).

  (** C59, sample_chain(kernel, n)(key, state, init_key=ik) as an ordinary function: the module of the kernel is
      initialised on the arguments, and the result is the list of the n states it visits on the split keys *)
  Theorem C59_sample_chain_partial fuel ik k s states : run fuel p (ik, (k, s)) = inl states ->
    List.length states = n /\
    exists m m', init_u key0 fuel kernel "kernel" ik (k, s) = inl m /\ visits fuel (fun k s => (k, s)) m (split k n) s states m'.
  Proof.
    intros H. destruct (looped_run key0 empty_sow _ _ _ _ _ _ _ _ _ n _ _ _ Hp Hk fuel ik (k, s) (Hsplit _ _)) as [H1 _].
    destruct (H1 _ H) as (m & q & m' & Hi & Hit & ->). cbn [fst snd] in *. apply iterate_visits in Hit as [Hv _]. split; [rewrite (visits_length _ _ _ _ _ _ _ Hv); apply Hsplit|]. exists m, m'. auto.
  Qed.
  (** conversely it succeeds whenever the kernel does, if the kernel keeps the shapes of its state (lax.scan requires it) *)
  Theorem C59_sample_chain_succeeds_partial fuel ik k s m states m' : init_u key0 fuel kernel "kernel" ik (k, s) = inl m ->
    visits fuel (fun k s => (k, s)) m (split k n) s states m' -> same_shapes (fm_vars m') (fm_vars m) -> run fuel p (ik, (k, s)) = inl states.
  Proof.
    intros Hi Hv Hsh. destruct (looped_run key0 empty_sow _ _ _ _ _ _ _ _ _ n _ _ _ Hp Hk fuel ik (k, s) (Hsplit _ _)) as [_ H2].
    rewrite (H2 m (last states s, states) m' Hi); [reflexivity| |exact Hsh]. apply iterate_visits. cbn. auto.
  Qed.

  (** C59, under state.init: the module of sample_chain holds the kernel's variables under the name "kernel"; each call
      continues from them, returns the visited states, and stores the kernel state after step n *)
  Theorem C59_sample_chain_state_partial fuel0 name ik k0 s0 m : init fuel0 key0 p name ik (k0, s0) = inl m ->
    exists mk, init_u key0 fuel0 kernel "kernel" ik (k0, s0) = inl mk /\
      fm_vars m = (match fm_vars mk with [] => [] | vs => [("kernel", Dict vs)] end) /\
      (fm_vars mk <> [] -> forall fuel vs k s, same_shapes vs (fm_vars mk) ->
        (forall states m', fm_call_and_update fuel (fm_replace m [("kernel", Dict vs)]) (k, s) = inl (states, m') ->
           List.length states = n /\
           exists mk', visits fuel (fun k s => (k, s)) (fm_replace mk vs) (split k n) s states mk' /\ m' = fm_replace m [("kernel", Dict (fm_vars mk'))] /\ same_shapes (fm_vars mk') (fm_vars mk)) /\
        (forall states mk', (exists mi, init_u key0 fuel kernel "kernel" key0 (k, s) = inl mi) ->
           visits fuel (fun k s => (k, s)) (fm_replace mk vs) (split k n) s states mk' -> same_shapes (fm_vars mk') (fm_vars mk) ->
           fm_call_and_update fuel (fm_replace m [("kernel", Dict vs)]) (k, s) = inl (states, fm_replace m [("kernel", Dict (fm_vars mk'))]))).
  Proof.
    intros Hi. destruct (looped_state key0 empty_sow _ _ _ _ _ _ _ _ _ n _ _ _ Hp Hk fuel0 name ik (k0, s0) m (Hsplit _ _) Hi) as (mk & H1 & H2 & H3). exists mk. split; [exact H1|]. split; [exact H2|].
    intros Hne fuel vs k s Hsh. destruct (H3 Hne fuel vs (k, s) Hsh (Hsplit _ _)) as [Ha Hb]. cbn [fst snd] in *. split.
    - intros states m' Hc. destruct (Ha _ _ Hc) as (q & mk' & Hit & -> & -> & Hs'). apply iterate_visits in Hit as [Hv _]. split; [rewrite (visits_length _ _ _ _ _ _ _ Hv); apply Hsplit|]. exists mk'. auto.
    - intros states mk' Hm Hv Hs'. apply (Hb (last states s, states) mk' Hm); [|exact Hs']. apply iterate_visits. cbn. auto.
  Qed.

  (** a kernel without variables: under state.init the module has no variables; with a version of JAX whose sow binds on
      the current trace (empty_sow), every call raises, because assign(kernel) sows a name that is no variable *)
  Theorem C59_stateless_kernel_raises f fuel0 name ik a0 m fuel a : kernel = Stateless f -> empty_sow = true ->
    init fuel0 key0 p name ik a0 = inl m -> fm_vars m = [] /\ exists e, fm_call_and_update fuel m a = inr e.
  Proof.
    intros Ek He Hi. destruct a0 as [k0 s0]. assert (Hm : fm_vars m = []).
    { destruct (C59_sample_chain_state_partial _ _ _ _ _ _ Hi) as (mk & Hk' & -> & _). rewrite Ek in Hk'. cbn in Hk'. injection Hk' as <-. reflexivity. }
    split; [exact Hm|]. replace m with (fm_replace m []) by (destruct m; cbn in Hm; rewrite Hm; reflexivity). destruct (lstage_of key0 empty_sow _ _ _ _ _ _ _ _ _ n _ _ _ Hp Hk) as (M & c0 & iv & Hs).
    assert (M = []) as ->.
    { pose proof (ls_init _ _ _ _ _ _ _ _ _ _ _ _ _ _ _ _ _ _ Hs fuel0 ik (k0, s0)) as E. rewrite Ek in E. cbn [init_u] in E. destruct (iv fuel0 ik (k0, s0)) as [vs|] eqn:Ev; [|discriminate]. cbn in E. injection E as <- _. pose proof (ls_typed _ _ _ _ _ _ _ _ _ _ _ _ _ _ _ _ _ _ Hs _ _ _ _ Ev) as Ht. unfold typed in Ht. destruct M; [reflexivity|discriminate]. }
    eapply (C45_undeclared_assign_raises _ _ p key0 name ik (k0, s0) fuel0 m Hi fuel [] a) with (n := "kernel"); [rewrite Hm; constructor|apply (ls_nocond _ _ _ _ _ _ _ _ _ _ _ _ _ _ _ _ _ _ Hs)| |intros []].
    rewrite (ls_sites _ _ _ _ _ _ _ _ _ _ _ _ _ _ _ _ _ _ Hs) by (unfold statef; auto). rewrite He. cbn. auto.
  Qed.
End chain.

(** ** gradient_descent and optimize *)
Section descent.
  Context {AR : Arrays}.
  Variables (key0 : tree) (P U : Type) (update : prog (tree * (U * P)) U) (grad : P -> res U) (apply : P -> U -> res P).
  Hypothesis Hu : ufun_ok (Stateful update).
  Let gd := gradient_descent update grad apply.

  Lemma gd_sem2 sP s fuel pd k q : sem2 sP s fuel gd pd (k, q) = rb (grad q) (fun g => rb (sem2 sP s fuel update pd (k, (g, q))) (fun uo => rb (apply q (fst uo)) (fun q' => inl (q', snd uo)))).
  Proof.
    unfold gd, gradient_descent. cbn [sem2 rb fst snd app]. rewrite ?rb_assoc. apply rb_ext. intros g. cbn [rb fst snd app]. rewrite ?rb_assoc. apply rb_ext. intros [u o]. cbn [rb fst snd app]. rewrite ?rb_assoc. destruct (apply q u); cbn; rewrite ?app_nil_r; reflexivity.
  Qed.
  Lemma gd_sites2 sP s pd : sites2 gd sP s pd = sites2 update sP s pd.
  Proof. unfold gd, gradient_descent. cbn [sites2 app]. apply app_nil_r. Qed.
  Lemma gd_plain : plain gd.
  Proof. destruct Hu as [H1 H2]. unfold gd, gradient_descent, plain. cbn. tauto. Qed.
  Lemma gd_reap r : call_and_reap var_reap gd = inl r -> exists r', call_and_reap var_reap update = inl r'.
  Proof.
    unfold call_and_reap, gd, gradient_descent. intros H. apply rb_inl in H as (x & H & _). cbn [reapT rb fst snd] in H. destruct (reapT var_reap update []) as [[M1 p1]|e]; [|discriminate]. cbn. eauto.
  Qed.
  Lemma gd_cau vs c : cau_program key0 gd vs = inl c -> exists c', cau_program key0 update vs = inl c'.
  Proof.
    unfold cau_program, plant, harvest, call_and_reap, plant. intros H. unfold gd, gradient_descent in H. cbn [plantT rb fst snd] in H.
    destruct (plantT var_plant update (skels_of vs) []) as [[dn q]|e]; [|discriminate]. cbn [rb fst snd] in *. apply rb_inl in H as (h & H & _). apply rb_inl in H as (y & Hy & H). apply rb_inl in Hy as (z & Hz & E). injection E as <-.
    cbn [plantT rb fst snd] in Hz |- *. destruct (plantT asg q (skels_of []) []) as [[dn' q']|e]; [|discriminate]. cbn [rb fst snd] in *. injection Hz as <-. cbn [snd] in H.
    apply rb_inl in H as (w & H & _). cbn [reapT rb fst snd] in H |- *. destruct (reapT asg q' []) as [[M' r']|e]; [|discriminate]. cbn. eauto.
  Qed.
  (** gradient_descent(update, objective): its module is the one of the update function, and a step computes the
      gradient, calls the update function once in that state, and adds the result to the parameters *)
  Theorem C55_gradient_descent fuel0 name key p0 m : init fuel0 key0 gd name key p0 = inl m -> nocond asg update ->
    exists g0 mu, grad p0 = inl g0 /\ init fuel0 key0 update name key (g0, p0) = inl mu /\ fm_vars mu = fm_vars m /\
    forall fuel vs q q' m', fits (skels_of (fm_vars m)) vs ->
      fm_call_and_update fuel (fm_replace m vs) q = inl (q', m') <->
      exists g u mu', grad q = inl g /\ fm_call_and_update fuel (fm_replace mu vs) (g, q) = inl (u, mu') /\ apply q u = inl q' /\ m' = fm_replace m (fm_vars mu').
  Proof.
    intros Hi Hnc. assert (Hm := Hi). apply init_cau in Hm as (Hc & Hn & Hv). destruct (gd_cau _ _ Hc) as [c' Hc'].
    unfold init_vars in Hv. apply rb_inl in Hv as (r & Hr & Hv). apply rb_inl in Hv as ([b d] & Hd & Ed). cbn [snd] in Ed. injection Ed as ->.
    destruct (gd_reap _ Hr) as [r' Hr'].
    rewrite (call_and_reap_sem var_reap fuel0 gd r (key, p0) Hr (strictp_regular _ gd (proj1 gd_plain))) in Hd. apply rb_inl in Hd as ([b' o] & Ho & Ed). cbn [fst snd] in Ed. rewrite gd_sites2 in Ed. injection Ed as <- Ed.
    rewrite gd_sem2 in Ho. apply rb_inl in Ho as (g0 & Hg & Ho). apply rb_inl in Ho as ([u0 o'] & Ho & E). apply rb_inl in E as (q0 & _ & E). injection E as <- <-. cbn [fst snd] in *.
    assert (Hiv : init_vars fuel0 update key (g0, p0) = inl (fm_vars m)).
    { unfold init_vars. rewrite Hr'. cbn [rb]. rewrite (call_and_reap_sem var_reap fuel0 update r' (key, (g0, p0)) Hr' (strictp_regular _ update (proj1 Hu))). rewrite Ho. cbn [rb fst snd]. rewrite <- Ed. reflexivity. }
    assert (Him : init fuel0 key0 update name key (g0, p0) = inl (mk_fm (fm_vars m) c' name)) by (unfold init; rewrite Hiv; cbn [rb]; rewrite Hc'; reflexivity).
    exists g0, (mk_fm (fm_vars m) c' name). split; [exact Hg|]. split; [exact Him|]. split; [reflexivity|]. intros fuel vs q q' m' Hf.
    assert (Hng : nocond asg gd) by (unfold gd, gradient_descent; cbn; tauto).
    rewrite (C45_call_and_update_partial _ _ gd key0 name key p0 fuel0 m Hi fuel vs q Hf Hng).
    setoid_rewrite (fun g => C45_call_and_update_partial _ _ update key0 name key (g0, p0) fuel0 _ Him fuel vs (g, q) Hf Hnc).
    unfold exec, assigned. rewrite gd_sem2, gd_sites2. split.
    - intros H. apply rb_inl in H as ([q1 o1] & H & E). apply rb_inl in H as (g & H1 & H). apply rb_inl in H as ([u o2] & H2 & H). apply rb_inl in H as (q2 & H3 & H). injection H as <- <-. cbn [fst snd] in *.
      destruct (forallb _ _) eqn:Ef; [|discriminate]. injection E as <- <-. exists g, u, (fm_replace (mk_fm (fm_vars m) c' name) (dmerge vs (collect (once (sites2 update var_plant asg vs)) o2))). split; [exact H1|]. rewrite H2. cbn [rb fst snd]. auto.
    - intros (g & u & mu' & H1 & H2 & H3 & ->). rewrite H1. cbn [rb]. apply rb_inl in H2 as ([u1 o2] & H2 & E). rewrite H2. cbn [rb fst snd] in *. destruct (forallb _ _) eqn:Ef; [|discriminate]. injection E as -> <-. rewrite H3. reflexivity.
  Qed.
End descent.

Section fit.
  Context {AR : Arrays}.
  Lemma skel_zeros_like t : skel_of (zeros_like t) = skel_of t.
  Proof. induction t as [v|l IH|l IH] using tree_ind'; cbn; try reflexivity. f_equal. rewrite map_map. induction IH as [|[k t] l Hx Hl IHl]; cbn in *; [reflexivity|]. rewrite Hx, IHl. reflexivity. Qed.
  Lemma same_fits vs vs0 : same_shapes vs vs0 -> fits (skels_of vs0) vs.
  Proof.
    intros E. assert (H : skels_of vs = skels_of vs0).
    { apply (f_equal skel_of) in E. rewrite !skel_zeros_like in E. cbn in E. injection E as E. exact E. }
    rewrite <- H. apply fits_skels_of.
  Qed.
  Lemma replace_replace {A B} (m : fmodule A B) vs vs' : fm_replace (fm_replace m vs) vs' = fm_replace m vs'.
  Proof. reflexivity. Qed.
  Lemma cau_replace {A B} fuel (m : fmodule A B) vs x y m' : fm_call_and_update fuel (fm_replace m vs) x = inl (y, m') -> m' = fm_replace m (fm_vars m').
  Proof. destruct m as [w c nm]. cbn [fm_replace]. intros H. apply cau_same in H. exact H. Qed.
End fit.

(** ** Specification: [n] steps of descent with a module [m] of the update function *)
Inductive descends {AR : Arrays} {P U} (fuel : nat) (grad : P -> res U) (apply : P -> U -> res P) : fmodule (U * P) U -> nat -> P -> P -> fmodule (U * P) U -> Prop :=
| descends_0 m q : descends fuel grad apply m 0 q q m
| descends_S m n q g u m1 q1 q' m' : grad q = inl g -> fm_call_and_update fuel m (g, q) = inl (u, m1) -> apply q u = inl q1 ->
    descends fuel grad apply m1 n q1 q' m' -> descends fuel grad apply m (S n) q q' m'.

Section optimize.
  Context {AR : Arrays}.
  Variables (key0 : tree) (empty_sow : bool) (P U : Type) (update : prog (tree * (U * P)) U) (grad : P -> res U) (apply : P -> U -> res P) (n : nat) (p : prog (tree * P) P).
  Hypotheses (Hu : ufun_ok (Stateful update)) (Hnc : nocond asg update) (Hp : optimize key0 empty_sow update grad apply n = inl p).
  (** the update function keeps the shapes of its variables (lax.scan requires it) *)
  Definition keeps : Prop := forall fuel0 name key x0 mu fuel vs x u m', init fuel0 key0 update name key x0 = inl mu -> same_shapes vs (fm_vars mu) ->
    fm_call_and_update fuel (fm_replace mu vs) x = inl (u, m') -> same_shapes (fm_vars m') (fm_vars mu).
  Hypothesis Hkeep : keeps.

  Lemma descent_visits fuel0 name key p0 m g0 mu : init fuel0 key0 (gradient_descent update grad apply) name key p0 = inl m ->
    init fuel0 key0 update name key (g0, p0) = inl mu -> fm_vars mu = fm_vars m ->
    (forall fuel vs q q' m', fits (skels_of (fm_vars m)) vs ->
      fm_call_and_update fuel (fm_replace m vs) q = inl (q', m') <->
      exists g u mu', grad q = inl g /\ fm_call_and_update fuel (fm_replace mu vs) (g, q) = inl (u, mu') /\ apply q u = inl q' /\ m' = fm_replace m (fm_vars mu')) ->
    forall fuel (xs : list nat) vs q q' vs', same_shapes vs (fm_vars m) ->
    (exists states, visits fuel (fun _ p => p) (fm_replace m vs) xs q states (fm_replace m vs') /\ last states q = q') <->
    descends fuel grad apply (fm_replace mu vs) (List.length xs) q q' (fm_replace mu vs').
  Proof.
    intros Hi Hmu Ev H fuel. induction xs as [|x xs IH]; intros vs q q' vs' Hsh; cbn [List.length].
    - split.
      + intros (states & Hv & E). inversion Hv; subst. cbn. constructor.
      + intros Hd. inversion Hd; subst. exists []. split; [constructor|reflexivity].
    - split.
      + intros (states & Hv & E). inversion Hv as [|? ? ? ? s1 m1 states1 ? Hc Hv1]; subst. rewrite last_cons. apply (H fuel vs q s1 m1 (same_fits _ _ Hsh)) in Hc as (g & u & mu' & Hg & Hc & Ha & ->).
        pose proof (Hkeep _ _ _ _ _ _ _ _ _ _ Hmu (eq_trans Hsh (f_equal _ (f_equal Dict (eq_sym Ev)))) Hc) as Hs'. rewrite Ev in Hs'.
        pose proof (cau_replace _ _ _ _ _ _ Hc) as E1. rewrite E1 in Hc.
        eapply descends_S; [exact Hg|exact Hc|exact Ha|]. apply IH; [exact Hs'|]. exists states1. split; [exact Hv1|reflexivity].
      + intros Hd. inversion Hd as [|? ? ? g u m1 q1 ? ? Hg Hc Ha Hd1]; subst.
        pose proof (Hkeep _ _ _ _ _ _ _ _ _ _ Hmu (eq_trans Hsh (f_equal _ (f_equal Dict (eq_sym Ev)))) Hc) as Hs'. rewrite Ev in Hs'.
        pose proof (cau_replace _ _ _ _ _ _ Hc) as E1. rewrite E1 in Hd1. apply IH in Hd1 as (states1 & Hv1 & E); [|exact Hs'].
        exists (q1 :: states1). split; [|rewrite last_cons; exact E]. econstructor; [|exact Hv1]. apply H; [apply same_fits, Hsh|]. exists g, u, m1. auto.
  Qed.

  (** optimize(objective, update, n)(params, init_key=k): the update function is initialised on the first gradient, and
      the result is the parameters after n steps with its evolving state *)
  Theorem C55_optimize fuel k p0 q : run fuel p (k, p0) = inl q ->
    exists g0 mu mu', grad p0 = inl g0 /\ init fuel key0 update (Some "opt") k (g0, p0) = inl mu /\ descends fuel grad apply mu n p0 q mu'.
  Proof.
    intros H. assert (Hg : ufun_ok (Stateful (gradient_descent update grad apply))) by (apply gd_plain; exact Hu).
    destruct (looped_run key0 empty_sow _ _ _ _ _ _ _ _ _ n _ _ _ Hp Hg fuel k p0 (seq_length _ _)) as [H1 _].
    destruct (H1 _ H) as (m & q1 & m' & Hi & Hit & ->). cbn [fst snd init_u] in *.
    destruct (C55_gradient_descent key0 P U update grad apply Hu fuel (Some "opt") k p0 m Hi Hnc) as (g0 & mu & Hg0 & Hmu & Ev & Hstep).
    assert (Em' : m' = fm_replace m (fm_vars m')) by (destruct m as [w c nm]; apply iterate_same in Hit; exact Hit).
    apply iterate_visits in Hit as [Hv E]. exists g0, mu, (fm_replace mu (fm_vars m')). split; [exact Hg0|]. split; [exact Hmu|].
    pose proof (descent_visits fuel (Some "opt") k p0 m g0 mu Hi Hmu Ev Hstep fuel (seq 0 n) (fm_vars m) p0 (fst q1) (fm_vars m') eq_refl) as [Hd _].
    rewrite seq_length in Hd. replace mu with (fm_replace mu (fm_vars m)) at 1 by (rewrite <- Ev; destruct mu; reflexivity). apply Hd. exists (snd q1). split; [|auto]. rewrite <- Em'. destruct m; exact Hv.
  Qed.
  Theorem C55_optimize_succeeds fuel k p0 q g0 m mu mu' : init fuel key0 (gradient_descent update grad apply) (Some "opt") k p0 = inl m ->
    grad p0 = inl g0 -> init fuel key0 update (Some "opt") k (g0, p0) = inl mu -> descends fuel grad apply mu n p0 q mu' -> run fuel p (k, p0) = inl q.
  Proof.
    intros Hi Hg0 Hmu Hd. assert (Hg : ufun_ok (Stateful (gradient_descent update grad apply))) by (apply gd_plain; exact Hu).
    destruct (looped_run key0 empty_sow _ _ _ _ _ _ _ _ _ n _ _ _ Hp Hg fuel k p0 (seq_length _ _)) as [_ H2].
    destruct (C55_gradient_descent key0 P U update grad apply Hu fuel (Some "opt") k p0 m Hi Hnc) as (g1 & mu1 & Hg1 & Hmu1 & Ev & Hstep).
    assert (g1 = g0) as -> by congruence. assert (mu1 = mu) as -> by congruence.
    assert (K : forall nn vs q0 q2 m2, same_shapes vs (fm_vars mu) -> descends fuel grad apply (fm_replace mu vs) nn q0 q2 m2 -> m2 = fm_replace mu (fm_vars m2) /\ same_shapes (fm_vars m2) (fm_vars mu)).
    { induction nn as [|nn IH]; intros vs q0 q2 m2 Hsh Hd0; inversion Hd0 as [|? ? ? g u m1 q1 ? ? Hg' Hc Ha Hd1]; subst; [split; [reflexivity|exact Hsh]|].
      pose proof (Hkeep _ _ _ _ _ _ _ _ _ _ Hmu Hsh Hc) as Hs'. pose proof (cau_replace _ _ _ _ _ _ Hc) as E1. rewrite E1 in Hd1. eapply IH; eassumption. }
    replace mu with (fm_replace mu (fm_vars mu)) in Hd by (destruct mu; reflexivity). destruct (K n (fm_vars mu) p0 q mu' eq_refl Hd) as [E Hs']. rewrite E in Hd. rewrite Ev in Hd at 1.
    pose proof (descent_visits fuel (Some "opt") k p0 m g0 mu Hi Hmu Ev Hstep fuel (seq 0 n) (fm_vars m) p0 q (fm_vars mu') eq_refl) as [_ Hb]. rewrite seq_length in Hb. destruct (Hb Hd) as (states & Hv & El).
    rewrite (H2 m (q, states) (fm_replace m (fm_vars mu')) Hi); [reflexivity| |cbn; rewrite <- Ev; exact Hs'].
    apply iterate_visits. cbn [fst snd]. split; [|auto]. replace m with (fm_replace m (fm_vars m)) at 1 by (destruct m; reflexivity). exact Hv.
  Qed.
End optimize.

(** ** Concrete cases *)
Import HarvestProps.
Open Scope Z_scope.
(** def kernel(key, s, init_key): c = variable(init_key, name='c'); assign(c + 1, name='c'); return s + key + c *)
Definition ex_kernel : prog (tree * (tree * Z)) Z :=
  Seq (Pure (fun kx : tree * (tree * Z) => inl (fst kx, val (fst (snd kx)) + snd (snd kx))))
   (Seq (First Z (variable "c" A1))
    (Seq (Pure (fun cu : tree * Z => inl (L (val (fst cu) + 1), (snd cu + val (fst cu)))))
     (Seq (First Z (assign "c" A1)) (Pure (fun x : tree * Z => inl (snd x)))))).
Definition ex_plain_kernel : prog (tree * Z) Z := Pure (fun ks => inl (val (fst ks) + snd ks)).
Lemma ex_kernel_ok : ufun_ok (Stateful ex_kernel) /\ ufun_ok (Stateless ex_plain_kernel).
Proof. cbn. unfold plain. cbn. repeat split; auto; intros; try reflexivity; discriminate. Qed.
Lemma ex_split_length k n : List.length (ex_split k n) = n.
Proof. unfold ex_split. rewrite map_length. apply seq_length. Qed.
Lemma C59_example : forall es,
  (* keys 100, 101, 102 of key 1; the counter starts at 7, the init key *)
  rb (sample_chain (L 0) es ex_split (Stateful ex_kernel) 3) (fun p => run 10 p (L 7, (L 1, 5))) = inl [112; 221; 332] /\
  rb (sample_chain (L 0) es ex_split (Stateful ex_kernel) 3) (fun p => rb (init 10 (L 0) p None (L 7) (L 1, 5)) (fun m =>
    rb (outputs 10 m [(L 1, 5); (L 2, 0)]) (fun r => inl (fm_vars m, fst r, fm_vars (snd r))))) =
  inl ([("kernel", Dict [("c", L 7)])], [[112; 221; 332]; [210; 422; 636]], [("kernel", Dict [("c", L 13)])]).
Proof. intros []; vm_compute; auto. Qed.
Lemma C59_plain_example :
  rb (sample_chain (L 0) true ex_split (Stateless ex_plain_kernel) 3) (fun p => run 10 p (L 7, (L 1, 5))) = inl [105; 206; 308] /\
  rb (sample_chain (L 0) true ex_split (Stateless ex_plain_kernel) 3) (fun p => rb (init 10 (L 0) p None (L 7) (L 1, 5)) (fun m => inl (fm_vars m))) = inl [].
Proof. split; vm_compute; reflexivity. Qed.
(** momentum descent: def update(g, p, init_key): c = assign(variable(0, name='c') - g, name='c'); return c *)
Definition ex_momentum : prog (tree * (Z * Z)) Z :=
  Seq (Pure (fun kx : tree * (Z * Z) => inl (L 0, fst (snd kx))))
   (Seq (First Z (variable "c" A1))
    (Seq (Pure (fun cu : tree * Z => inl (L (val (fst cu) - snd cu)))) (Seq (assign "c" A1) (Pure (fun x : tree => inl (val x)))))).
Lemma ex_momentum_ok : ufun_ok (Stateful ex_momentum) /\ nocond asg ex_momentum.
Proof. cbn. unfold plain. cbn. repeat split; auto; intros; try reflexivity; discriminate. Qed.
Lemma ex_momentum_exec fuel t g q : has_aval t A1 = true -> exec fuel ex_momentum [("c", t)] (L 0) (g, q) = inl (val t - g, [("c", (L (val t - g), true))]).
Proof. intros H. unfold exec, ex_momentum, variable, assign. cbn -[has_aval]. unfold at_sow, chk, planted. cbn -[has_aval]. unfold chk. rewrite H. reflexivity. Qed.
Lemma ex_momentum_keeps : keeps (L 0) Z Z ex_momentum.
Proof.
  intros fuel0 name key [g0 p0] mu fuel vs [g q] u m' Hi Hsh Hc.
  assert (Ev : fm_vars mu = [("c", L 0)]).
  { pose proof Hi as H. apply init_cau in H as (_ & _ & H). assert (E : init_vars fuel0 ex_momentum key (g0, p0) = inl [("c", L 0)]) by (vm_compute; reflexivity). rewrite E in H. congruence. }
  assert (Hf : fits (skels_of (fm_vars mu)) vs) by (apply same_fits, Hsh).
  rewrite (C45_call_and_update_partial _ _ ex_momentum (L 0) name key (g0, p0) fuel0 mu Hi fuel vs (g, q) Hf (proj2 ex_momentum_ok)) in Hc. clear Hi Hf.
  rewrite Ev in *. unfold same_shapes in Hsh. destruct vs as [|[n t] [|? ?]]; try discriminate. cbn in Hsh. injection Hsh as -> Ht.
  rewrite ex_momentum_exec in Hc by (apply zeros_like_inv; rewrite Ht; reflexivity). cbn [rb fst snd] in Hc. destruct (forallb _ _); [|discriminate].
  apply (f_equal (fun r => match r with inl (_, m) => fm_vars m | _ => [] end)) in Hc. cbn in Hc. rewrite <- Hc. reflexivity.
Qed.
(** three steps on p^2/2 from 10: p = 10, 0, -10, -10 *)
Lemma C55_optimize_example : forall es,
  rb (optimize (L 0) es ex_momentum (fun p => inl p) (fun p u => inl (p + u)) 3) (fun p => run 10 p (L 1, 10)) = inl (-10).
Proof. intros []; vm_compute; reflexivity. Qed.
Print Assumptions C59_sample_chain_partial.
Print Assumptions C59_sample_chain_state_partial.
Print Assumptions C55_optimize.
