(** Progress of canonicalize (C22, C77): on an expression that evaluates, whose parameters are hashable, that never applies
    a linear primitive to the result of a call and whose nests of linear primitives involve at most 52 dimensions,
    canonicalize returns, and what it returns has the same value.  No bound on the number of dimensions of the arrays is
    assumed beyond that. *)
From Verif Require Import MatcherSpec RulesSpec CanonicalizeModel CanonicalizeProofs CanonicalizeProofs2 CanonicalizeProofs3 CanonicalizeProps CanonRewriteModel CanonRewriteProofs CanonRewrite CanonProgressSpec CanonProgress.
From Coq Require Import Ring_theory ArithRing.
Open Scope string_scope. Open Scope list_scope. Open Scope nat_scope.

(** [acceptable], CanonProgressSpec.v: the operands of transpose, squeeze, reduce_sum and dot_general contain no call, and
    the letters of the einsum formula that the subexpression becomes are at most 52. *)
Theorem C22_canonicalize_returns :
  forall K k0 k1 kadd kmul, semi_ring_theory k0 k1 kadd kmul eq -> forall P : prims K, prims_ok P -> shapes_total P ->
  forall s e env v, reached P s -> hashable e = true -> (forall y, within y e -> acceptable K P y = true) ->
  eval K k0 k1 kadd kmul P any e env = inl v ->
  exists fuel s' e', canonicalize K P fuel s e = Some (s', inl e') /\
    forall env' v', eval K k0 k1 kadd kmul P any e env' = inl v' -> eval K k0 k1 kadd kmul P any e' env' = inl v'.
Proof.
  intros K k0 k1 kadd kmul SR P POK TOT s e env v Hr Hh Ha Hv.
  assert (Hg : all_good K k0 k1 kadd kmul P any s).
  { clear -Hr SR POK TOT. induction Hr as [|s fuel e s' out Hr IH H|s r e s' out Hr IH Hin H].
    - intros j k w [].
    - exact (proj1 (canonicalize_good K k0 k1 kadd kmul P SR POK TOT any fuel s e s' out IH H)).
    - exact (proj1 (rules_good K k0 k1 kadd kmul P SR POK TOT any r e Hin s s' out IH H)). }
  assert (HG : G K k0 k1 kadd kmul P any e) by (split; [exact Hh|split; [exists env, v; exact Hv|apply ready_within; assumption]]).
  destruct (C22_canonicalize_terminates K P s e Hr) as (fuel & [s' out] & H). destruct (canonicalize_alive K k0 k1 kadd kmul P SR POK TOT any fuel s e s' out Hg HG H) as (e' & ->).
  exists fuel, s', e'. split; [exact H|]. destruct (canonicalize_good K k0 k1 kadd kmul P SR POK TOT any fuel s e s' _ Hg H) as [_ HR]. exact (proj1 (HR e' eq_refl HG)).
Qed.
Print Assumptions C22_canonicalize_returns.

(** whenever canonicalize comes to an end on such an expression, it has returned (with the same value) *)
Theorem C22_canonicalize_raises_not :
  forall K k0 k1 kadd kmul, semi_ring_theory k0 k1 kadd kmul eq -> forall P : prims K, prims_ok P -> shapes_total P ->
  forall s e env v fuel s' out, reached P s -> hashable e = true -> (forall y, within y e -> acceptable K P y = true) ->
  eval K k0 k1 kadd kmul P any e env = inl v -> canonicalize K P fuel s e = Some (s', out) ->
  exists e', out = inl e' /\ eval K k0 k1 kadd kmul P any e' env = inl v.
Proof.
  intros K k0 k1 kadd kmul SR P POK TOT s e env v fuel s' out Hr Hh Ha Hv H.
  assert (Hg : all_good K k0 k1 kadd kmul P any s).
  { clear -Hr SR POK TOT. induction Hr as [|s fuel e s' out Hr IH H|s r e s' out Hr IH Hin H].
    - intros j k w [].
    - exact (proj1 (canonicalize_good K k0 k1 kadd kmul P SR POK TOT any fuel s e s' out IH H)).
    - exact (proj1 (rules_good K k0 k1 kadd kmul P SR POK TOT any r e Hin s s' out IH H)). }
  assert (HG : G K k0 k1 kadd kmul P any e) by (split; [exact Hh|split; [exists env, v; exact Hv|apply ready_within; assumption]]).
  destruct (canonicalize_alive K k0 k1 kadd kmul P SR POK TOT any fuel s e s' out Hg HG H) as (e' & ->). exists e'. split; [reflexivity|].
  destruct (canonicalize_good K k0 k1 kadd kmul P SR POK TOT any fuel s e s' _ Hg H) as [_ HR]. apply (proj1 (HR e' eq_refl HG)), Hv.
Qed.
Print Assumptions C22_canonicalize_raises_not.

(** ** C77: the function made by rewriting returns what the original function returns *)
Theorem C77_rewrite_canonicalize_returns :
  forall K k0 k1 kadd kmul, semi_ring_theory k0 k1 kadd kmul eq -> forall P : prims K, prims_ok P -> shapes_total P -> (forall p, known p = true -> multi P p = false) ->
  forall s cv iv eqns outs consts cds args res es, reached P s -> omap (lit P) consts = Some cds ->
  srun K k0 kadd kmul P any (SJaxpr cv iv eqns outs) cds args = inl res ->
  expressions K P (SJaxpr cv iv eqns outs) = inl es -> hashable (SBound es (map fst cv) consts) = true ->
  (forall y, within y (SBound es (map fst cv) consts) -> acceptable K P y = true) ->
  (exists fuel s', rewrite_canonicalize K k0 k1 kadd kmul P fuel s (SJaxpr cv iv eqns outs) consts args = Some (s', inl (Tup (map Arr res)))) /\
  (forall fuel s' out, rewrite_canonicalize K k0 k1 kadd kmul P fuel s (SJaxpr cv iv eqns outs) consts args = Some (s', out) -> out = inl (Tup (map Arr res))).
Proof.
  intros K k0 k1 kadd kmul SR P POK TOT KS s cv iv eqns outs consts cds args res es Hr Hc Hrun Hes Hh Ha.
  destruct (s_bound K k0 k1 kadd kmul P KS any eq_refl _ cv iv eqns outs consts cds args res eq_refl Hc Hrun) as (es' & env & Hes' & Henv & Hev).
  rewrite Hes in Hes'. injection Hes' as <-. unfold rewrite_canonicalize. rewrite Hes. split.
  - destruct (C22_canonicalize_returns K k0 k1 kadd kmul SR P POK TOT s _ env _ Hr Hh Ha Hev) as (fuel & s' & e' & C & Hv). exists fuel, s'. rewrite C, Henv. cbn [rb]. do 2 f_equal. exact (Hv env _ Hev).
  - intros fuel s' out H. destruct (canonicalize K P fuel s (SBound es (map fst cv) consts)) as [[s1 o]|] eqn:C; [|discriminate].
    destruct (C22_canonicalize_raises_not K k0 k1 kadd kmul SR P POK TOT s _ env _ _ _ _ Hr Hh Ha Hev C) as (e' & -> & Hv). injection H as <- <-. rewrite Henv. cbn [rb]. exact Hv.
Qed.
Print Assumptions C77_rewrite_canonicalize_returns.

(** ** The hypotheses are met by the examples of CanonicalizeProps.v and CanonRewrite.v, and acceptability fails for the
    two counterexamples there *)
Fixpoint accepts (n : nat) (v : val) : bool :=
  acceptable nat double v && match n with O => match kids v with [] => true | _ => false end | S n => forallb (accepts n) (kids v) end.
Lemma accepts_within n : forall v, accepts n v = true -> forall y, within y v -> acceptable nat double y = true.
Proof.
  induction n as [|n IH]; intros v H y Hy; cbn [accepts] in H; apply andb_true_iff in H as [H1 H2].
  - destruct (kids v) eqn:E; [|discriminate]. inversion Hy as [|? k Hk Hy']; subst; [exact H1|]. rewrite E in Hk. destruct Hk.
  - inversion Hy as [|? k Hk Hy']; subst; [exact H1|]. rewrite forallb_forall in H2. eapply IH; [apply H2, Hk|exact Hy'].
Qed.
Lemma double_total : shapes_total double.
Proof.
  split; cbn; [|discriminate]. intros _ _ [|x [|x2 l]] r H; try discriminate. cbn [map]. eauto.
Qed.
Theorem C22_returns_example :
  reached double fresh /\ shapes_total double /\ hashable example = true /\ (forall y, within y example -> acceptable nat double y = true) /\ (exists v, neval any example xyz = inl v) /\
  acceptable nat double outer27 = false.
Proof.
  split; [apply reached_fresh|]. split; [exact double_total|]. split; [vm_compute; reflexivity|]. split; [apply (accepts_within 9); vm_compute; reflexivity|]. split; [eexists; vm_compute; reflexivity|vm_compute; reflexivity].
Qed.
(** 40 dimensions are fine for a transpose *)
Definition tr40 : val := Primitive "transpose" (Params [("permutation", ints (rev (seq 0 40)))]) [JVar "x" (repeat 1 40)].
Theorem C22_returns_example_40 :
  hashable tr40 = true /\ (forall y, within y tr40 -> acceptable nat double y = true) /\ neval any tr40 [("x", mk_array (repeat 1 40) [3])] = inl (Arr (mk_array (repeat 1 40) [3])).
Proof. split; [vm_compute; reflexivity|]. split; [apply (accepts_within 9); vm_compute; reflexivity|vm_compute; reflexivity]. Qed.
Theorem C77_returns_example :
  exists es, expressions nat double j_f = inl es /\ hashable (SBound es ["c"] [VNum KInt 7]) = true /\
    (forall y, within y (SBound es ["c"] [VNum KInt 7]) -> acceptable nat double y = true) /\
    nsrun any j_f [mk_array [] [7]] [v3 1 2 3; v3 4 5 6] = inl [mk_array [] [65]; mk_array [] [32]] /\
    exists es', expressions nat double j_g = inl es' /\ ~ (forall y, within y (SBound es' [] []) -> acceptable nat double y = true).
Proof.
  eexists. split; [vm_compute; reflexivity|]. split; [vm_compute; reflexivity|]. split; [apply (accepts_within 12); vm_compute; reflexivity|]. split; [vm_compute; reflexivity|].
  eexists. split; [vm_compute; reflexivity|]. intros H.
  match type of H with forall y, within y ?e -> _ =>
    assert (E : acceptable nat double (nth 0 (kids e) e) = false) by (vm_compute; reflexivity);
    assert (W : within (nth 0 (kids e) e) e) by (apply within_kid with (k := nth 0 (kids e) e); [vm_compute; left; reflexivity|apply within_self])
  end. rewrite (H _ W) in E. discriminate E.
Qed.
