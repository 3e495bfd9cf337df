(** Property theorems C77: rewriting a function with canonicalize, oryx/experimental/matching/jax_rewrite.py:829-848 with
    oryx/experimental/autoconj/canonicalize.py. *)
From Verif Require Import Dict JaxModel JaxProofs RulesProofs MatcherSpec RulesSpec CanonicalizeProofs CanonicalizeProofs2 CanonicalizeProofs3 CanonicalizeModel CanonicalizeProps CanonRewriteModel CanonRewriteProofs.
From Coq Require Import Ring_theory ArithRing.
Open Scope string_scope. Open Scope list_scope. Open Scope nat_scope.

(** ** The specification [srun] is JAX's execution of the jaxpr ([run] of JaxModel.v) with additional checks *)
Section reference.
  Variables (K : Type) (k0 : K) (kadd kmul : K -> K -> K) (P : prims K) (lim : nat -> bool).
  Notation srun := (srun K k0 kadd kmul P lim).
  Notation run_ := (run (array K) (lit P) (multi P) (bind_one K k0 kadd kmul P) (bind_many K P)).
  Lemma sread_run V ins vs : rmap (sread K P V) ins = inl vs -> rmap (read (array K) (lit P) V) ins = inl vs.
  Proof using.
    revert vs. induction ins as [|a ins IH]; intros vs H; cbn [rmap] in *; [exact H|]. apply rb_inl in H as (d & Hd & H). apply rb_inl in H as (ds & Hds & H). rewrite (IH _ Hds).
    assert (E : read (array K) (lit P) V a = inl d). { destruct a as [v|x]; cbn [sread read] in *; [|exact Hd]. apply rb_inl in Hd as (a & Ha & Hd). apply rb_inl in Hd as (u & _ & Hd). injection Hd as <-. exact Ha. }
    rewrite E. exact H.
  Qed.
  Lemma swrite_run V os rs V' : swrite K lim V os rs = inl V' -> dwrite V os rs = inl V'.
  Proof using. intros H. apply swrite_inl in H. apply H. Qed.
  Lemma sbind_run V vars ds V' : sbind K lim V vars ds = inl V' -> dwrite V (map fst vars) ds = inl V'.
  Proof using. intros H. apply sbind_inl in H as [_ H]. apply swrite_run, H. Qed.
  Theorem C77_srun_is_run : forall j consts args res, srun j consts args = inl res -> run_ (forget j) consts args = inl res.
  Proof using.
    intros j. induction j as [cv iv eqns outs IH] using sjaxpr_ind'. intros consts args res H.
    cbn [CanonRewriteModel.srun] in H. cbn [forget run]. apply rb_inl in H as (e0 & H0 & H). apply rb_inl in H as (e1 & H1 & H). apply rb_inl in H as (e2 & H2 & H).
    rewrite (sbind_run _ _ _ _ H0). cbn [rb]. rewrite (sbind_run _ _ _ _ H1). cbn [rb].
    cut (forall V, rb ((fix go (eqns : list seqn) (V : list (string * array K)) : result (list (string * array K)) :=
                 match eqns with
                 | [] => inl V
                 | q :: eqns' =>
                     rb (match q with
                         | SPrim p ps ins os =>
                             rb (rmap (sread K P V) ins) (fun vs =>
                               if multi P p then rb (bind_many K P p ps vs) (fun rs => swrite K lim V os rs)
                               else rb (bind_one K k0 kadd kmul P p ps vs) (fun r => swrite K lim V os [r]))
                         | SCall p ps body ins os =>
                             rb (rmap (sread K P V) ins) (fun vs => rb (srun body [] vs) (fun rs => swrite K lim V os rs))
                         end) (go eqns')
                 end) eqns V) (fun e2 => inl e2) = inl e2 -> 
      ((fix go (eqns : list eqn) (env : list (string * array K)) : result (list (string * array K)) :=
                 match eqns with
                 | [] => inl env
                 | q :: eqns' =>
                     rb (match q with
                         | EPrim p ps ins os =>
                             rb (rmap (read (array K) (lit P) env) ins) (fun vs =>
                               if multi P p then rb (bind_many K P p ps vs) (fun rs => dwrite env os rs)
                               else rb (bind_one K k0 kadd kmul P p ps vs) (fun r => dwrite env os [r]))
                         | ECall p ps body ins os =>
                             rb (rmap (read (array K) (lit P) env) ins) (fun vs => rb (run_ body [] vs) (fun rs => dwrite env os rs))
                         | EPjit p ps body cs ins os =>
                             rb (rmap (read (array K) (lit P) env) ins) (fun vs =>
                               rb (rmap (fun c => opt TypeErr (lit P c)) cs) (fun cvs =>
                                 rb (run_ body cvs vs) (fun rs => dwrite env os rs)))
                         end) (go eqns')
                 end) (map (fun q => match q with SPrim p ps ins os => EPrim p ps ins os | SCall p ps body ins os => ECall p ps (forget body) ins os end) eqns) V) = inl e2).
    { intros G. rewrite (G e1) by (rewrite H2; reflexivity). cbn [rb]. apply sread_run, H. }
    clear H H0 H1 H2 e0 e1. induction IH as [|q eqns Hq Hqs IHe]; intros V H; cbn [map]; [exact H|].
    apply rb_inl in H as (e2' & H & E). injection E as ->. apply rb_inl in H as (V1 & H1 & H).
    assert (S1 : match (match q with SPrim p ps ins os => EPrim p ps ins os | SCall p ps body ins os => ECall p ps (forget body) ins os end) with
                         | EPrim p ps ins os =>
                             rb (rmap (read (array K) (lit P) V) ins) (fun vs =>
                               if multi P p then rb (bind_many K P p ps vs) (fun rs => dwrite V os rs)
                               else rb (bind_one K k0 kadd kmul P p ps vs) (fun r => dwrite V os [r]))
                         | ECall p ps body ins os =>
                             rb (rmap (read (array K) (lit P) V) ins) (fun vs => rb (run_ body [] vs) (fun rs => dwrite V os rs))
                         | EPjit p ps body cs ins os =>
                             rb (rmap (read (array K) (lit P) V) ins) (fun vs =>
                               rb (rmap (fun c => opt TypeErr (lit P c)) cs) (fun cvs =>
                                 rb (run_ body cvs vs) (fun rs => dwrite V os rs)))
                         end = inl V1).
    { destruct q as [p ps ins os|p ps body ins os]; apply rb_inl in H1 as (vs & Hvs & H1); rewrite (sread_run _ _ _ Hvs); cbn [rb].
      - destruct (multi P p); apply rb_inl in H1 as (r & Hr & H1); rewrite Hr; cbn [rb]; apply swrite_run, H1.
      - apply rb_inl in H1 as (r & Hr & H1). rewrite (Hq _ _ _ Hr). cbn [rb]. apply swrite_run, H1. }
    rewrite S1. cbn [rb]. apply IHe. rewrite H. reflexivity.
  Qed.
End reference.
Print Assumptions C77_srun_is_run.

(** ** C77.  If the function evaluates at args to res, with arrays of at most 26 dimensions on the way, then the rewritten
    function returns res, unless canonicalize raises an error. *)
Theorem C77_rewrite_canonicalize_partial :
  forall K k0 k1 kadd kmul, semi_ring_theory k0 k1 kadd kmul eq -> forall P : prims K, prims_ok P -> (forall p, known p = true -> multi P p = false) ->
  forall s fuel j consts cds args res s' out, reached P s -> omap (lit P) consts = Some cds -> srun K k0 kadd kmul P (upto 26) j cds args = inl res ->
  rewrite_canonicalize K k0 k1 kadd kmul P fuel s j consts args = Some (s', out) ->
  out = inl (Tup (map Arr res)) \/
  exists es er, expressions K P j = inl es /\ out = inr er /\
    canonicalize K P fuel s (match j with SJaxpr cv _ _ _ => SBound es (map fst cv) consts end) = Some (s', inr er).
Proof.
  intros K k0 k1 kadd kmul SR P POK KS s fuel j consts cds args res s' out Hr Hc Hrun H. destruct j as [cv iv eqns outs].
  destruct (s_bound K k0 k1 kadd kmul P KS (upto 26) eq_refl _ cv iv eqns outs consts cds args res eq_refl Hc Hrun) as (es & env & Hes & Henv & Hev).
  unfold rewrite_canonicalize in H. rewrite Hes in H. destruct (canonicalize K P fuel s (SBound es (map fst cv) consts)) as [[s1 [e|er]]|] eqn:C; [| |discriminate].
  - injection H as <- <-. left. rewrite Henv. cbn [rb]. exact (C22_canonicalize_keeps_value_partial K k0 k1 kadd kmul SR P POK s fuel _ s1 e Hr C env _ Hev).
  - injection H as <- <-. right. exists es, er. auto.
Qed.
Print Assumptions C77_rewrite_canonicalize_partial.

(** the rewritten function always comes to an end *)
Theorem C77_rewrite_terminates :
  forall K k0 k1 kadd kmul (P : prims K) s j consts args, reached P s -> exists fuel out, rewrite_canonicalize K k0 k1 kadd kmul P fuel s j consts args = Some out.
Proof.
  intros K k0 k1 kadd kmul P s [cv iv eqns outs] consts args Hr. unfold rewrite_canonicalize. destruct (expressions K P (SJaxpr cv iv eqns outs)) as [es|er]; [|exists 0; eauto].
  destruct (C22_canonicalize_terminates K P s (SBound es (map fst cv) consts) Hr) as (fuel & [s' [e|er]] & H); exists fuel; rewrite H; eauto.
Qed.
Print Assumptions C77_rewrite_terminates.

(** ** Concrete instances: the jaxprs of
      f x y = sum_0 (x . transpose y) + jit(double . double) c,   with a constant c,   and
      g x = transpose (jit double x) *)
Definition twice : sjaxpr :=
  SJaxpr [] [("x", [])] [SPrim "double" (Params []) [AVar "x"] ["u"]; SPrim "double" (Params []) [AVar "u"] ["v"]] [AVar "v"].
Definition j_f : sjaxpr :=
  SJaxpr [("c", [])] [("x", [3]); ("y", [3])]
    [SPrim "dot_general" (Params [("dimension_numbers", VSeq KTuple [VSeq KTuple [ints [0]; ints [0]]; VSeq KTuple [ints []; ints []]])]) [AVar "x"; AVar "y"] ["a"];
     SCall "pjit" (Params []) twice [AVar "c"] ["b"];
     SPrim "add" (Params []) [AVar "a"; AVar "b"] ["d"]; SPrim "add" (Params []) [AVar "d"; ALit (VNum KInt 5)] ["e"]]
    [AVar "e"; AVar "a"].
Definition v3 (a b c : nat) : array nat := mk_array [3] [a; b; c].
Notation nrewrite := (rewrite_canonicalize nat 0 1 Nat.add Nat.mul double).
Notation nsrun := (srun nat 0 Nat.add Nat.mul double).
Theorem C77_example :
  nsrun (upto 26) j_f [mk_array [] [7]] [v3 1 2 3; v3 4 5 6] = inl [mk_array [] [65]; mk_array [] [32]] /\
  option_map snd (nrewrite 9 fresh j_f [VNum KInt 7] [v3 1 2 3; v3 4 5 6]) = Some (inl (Tup [Arr (mk_array [] [65]); Arr (mk_array [] [32])])).
Proof. split; vm_compute; reflexivity. Qed.

(** The function obtained for a linear operation on the result of a jitted function raises TypeError at every call, whatever
    the caches: the shape of the result of a call cannot be asked for (jax_rewrite.py:645-649) *)
Definition single : sjaxpr := SJaxpr [] [("x", [2; 3])] [SPrim "double" (Params []) [AVar "x"] ["u"]] [AVar "u"].
Definition j_g : sjaxpr :=
  SJaxpr [] [("x", [2; 3])] [SCall "pjit" (Params []) single [AVar "x"] ["y"]; SPrim "transpose" (Params [("permutation", ints [1; 0])]) [AVar "y"] ["z"]] [AVar "z"].
Theorem C77_rewrite_canonicalize_refuted :
  ~ (forall K k0 k1 kadd kmul, semi_ring_theory k0 k1 kadd kmul eq -> forall P : prims K, prims_ok P -> (forall p, known p = true -> multi P p = false) ->
     forall s fuel j consts cds args res s' out, reached P s -> omap (lit P) consts = Some cds -> srun K k0 kadd kmul P (upto 26) j cds args = inl res ->
     rewrite_canonicalize K k0 k1 kadd kmul P fuel s j consts args = Some (s', out) -> out = inl (Tup (map Arr res))).
Proof.
  intros H.
  assert (E : match nsrun (upto 26) j_g [] [mk_array [2; 3] [1; 2; 3; 4; 5; 6]], nrewrite 9 fresh j_g [] [mk_array [2; 3] [1; 2; 3; 4; 5; 6]] with
              | inl [_], Some (_, inr TypeErr) => true | _, _ => false end = true) by (vm_compute; reflexivity).
  destruct (nsrun (upto 26) j_g [] [mk_array [2; 3] [1; 2; 3; 4; 5; 6]]) as [res|] eqn:R; [|discriminate E].
  destruct (nrewrite 9 fresh j_g [] [mk_array [2; 3] [1; 2; 3; 4; 5; 6]]) as [[s' out]|] eqn:C; [|destruct res as [|? []]; discriminate E].
  specialize (H nat 0 1 Nat.add Nat.mul natSRth double (proj1 double_ok) (fun _ _ => eq_refl) fresh 9 j_g [] [] _ res s' out (reached_fresh double) eq_refl R C).
  rewrite H in E. destruct res as [|? []]; discriminate E.
Qed.
Print Assumptions C77_rewrite_canonicalize_refuted.
