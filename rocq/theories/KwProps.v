(** C74: keyword arguments of a module made from a function reach its layers. *)
From Verif Require Export KwProofs.

Section kw.
Context {PR : Prng}.

Section handing.
Variables (hj : bool) (kw pk0 pk1 : kwargs).
Notation names := (map fst kw).
Hypothesis Hrng : kget "rng" kw = None.
Hypothesis Hoff : forall s, ~ In s names -> kget s pk1 = kget s pk0.
Hypothesis Hon : forall s, In s names -> kget s pk1 = kget s kw.

Lemma unaffected_call bi b bo i o : unaffected names (SCall bi b bo i o) = unaffected_all names b.
Proof. reflexivity. Qed.
Lemma unaffected_higher h bi b bo i o : unaffected names (SHigher h bi b bo i o) = unaffected_all names b.
Proof. reflexivity. Qed.
Lemma unaffected_if n y no : unaffected names (SIf n y no) = (~ In n names /\ unaffected_all names y /\ unaffected_all names no).
Proof. reflexivity. Qed.
Lemma unaffected_traces ss : Forall (fun s => unaffected names s -> trace pk0 s = trace pk1 s) ss -> unaffected_all names ss -> traces pk0 ss = traces pk1 ss.
Proof. induction 1 as [|s ss H _ IH]; intros U; [reflexivity|]. destruct U as [U1 U2]. cbn [traces]. rewrite H, IH by assumption. reflexivity. Qed.
Lemma unaffected_trace s : unaffected names s -> trace pk0 s = trace pk1 s.
Proof.
  induction s as [f i o|l r a ps o n|bi b bo i o IH|h bi b bo i o IH|n y no IHy IHn] using stmt_ind'; intros U.
  - reflexivity.
  - cbn [trace]. do 2 f_equal. unfold passed_kw. apply map_ext_in. intros [s src] Hin. cbn [fst snd]. f_equal. destruct src as [v|m]; [reflexivity|].
    rewrite (Hoff m); [reflexivity|]. exact (U s m Hin).
  - rewrite unaffected_call in U. rewrite !trace_call, (unaffected_traces b IH U). reflexivity.
  - rewrite unaffected_higher in U. rewrite !trace_higher, (unaffected_traces b IH U). reflexivity.
  - rewrite unaffected_if in U. destruct U as (U1 & U2 & U3). rewrite !trace_if, (Hoff n U1), (unaffected_traces y IHy U2), (unaffected_traces no IHn U3). reflexivity.
Qed.
Lemma passes_kw ps : passes names ps -> kmerge (passed_kw pk0 ps) kw = passed_kw pk1 ps.
Proof.
  intros (H1 & H2 & H3). unfold kmerge.
  replace (filter _ kw) with (@nil (string * kval)).
  - rewrite app_nil_r. unfold passed_kw. rewrite map_map. apply map_ext_in. intros [a src] Hin. cbn [fst snd]. f_equal. destruct (in_dec string_dec a names) as [Ia|Ia].
    + rewrite (H2 a src Hin Ia). rewrite (Hon a Ia). destruct (kget a kw) eqn:E; [reflexivity|]. apply kget_some in Ia. congruence.
    + rewrite (kget_none a kw Ia). destruct src as [v|m]; [reflexivity|]. rewrite Hoff; [reflexivity|]. intros Im. apply Ia. rewrite (H3 a m Hin Im). exact Im.
  - symmetry. assert (A : forall l, incl l kw -> filter (fun e : string * kval => match kget (fst e) (passed_kw pk0 ps) with Some _ => false | None => true end) l = []); [|apply A, incl_refl].
    induction l as [|[s v] l IH]; intros I; [reflexivity|]. cbn [filter fst].
    assert (Is : In s names) by (apply in_map_iff; exists (s, v); split; [reflexivity|apply I; left; reflexivity]).
    assert (K : kget s (passed_kw pk0 ps) <> None).
    { apply kget_some. unfold passed_kw. rewrite map_map. apply in_map_iff. exists (s, Param s). split; [reflexivity|apply H1, Is]. }
    destruct (kget s (passed_kw pk0 ps)); [|congruence]. apply IH. intros x Hx. apply I. right. exact Hx.
Qed.
Lemma blind_kw ps : (forall a m, In (a, Param m) ps -> In m names -> In a names) -> forall s, ~ In s names -> kget s (kmerge (passed_kw pk0 ps) kw) = kget s (passed_kw pk1 ps).
Proof.
  intros H s Hs. rewrite kget_kmerge, (kget_none s kw Hs), !kget_passed. destruct (find _ ps) as [[a src]|] eqn:F; [|reflexivity]. cbn. f_equal.
  apply find_some in F as [Hin E]. cbn [fst] in E. apply String.eqb_eq in E. subst a. destruct src as [v|m]; [reflexivity|]. rewrite Hoff; [reflexivity|]. intros Im. apply Hs, (H s m Hin Im).
Qed.
Definition env_ok (D : list nat) (e : env) : Prop := forall x v, In x D -> lookup e x = inl v -> exists l, v = JLayer l /\ blind_layer names l.
Lemma env_ok_nil e : env_ok [] e.
Proof. intros x v []. Qed.
Lemma writes_ok D e xs vs e' : (forall x, In x xs -> ~ In x D) -> writes e xs vs = inl e' -> env_ok D e -> env_ok D e'.
Proof.
  unfold writes. intros Hx H He. destruct (_ =? _); [|discriminate]. injection H as <-. intros x v Hin. replace (lookup (combine xs vs ++ e) x) with (lookup e x); [apply He, Hin|].
  assert (N : ~ In x xs) by (intros I; exact (Hx x I Hin)). clear -N. revert vs. induction xs as [|y xs IH]; intros vs; [reflexivity|]. destruct vs as [|w vs]; [reflexivity|]. cbn [combine app lookup].
  destruct (Nat.eqb_spec x y) as [->|]; [destruct N; left; reflexivity|]. apply IH. intros I. apply N. right. exact I.
Qed.
Lemma layer_in_var e l r a i : layer_in e l r a = inl i -> lookup e l = inl (JLayer (fst (fst i))).
Proof.
  unfold layer_in. intros H. apply nb_inl in H as (v & Hv & H). destruct v; try discriminate. apply nb_inl in H as (k & _ & H). apply nb_inl in H as (vs & _ & H). apply nb_inl in H as (xs & _ & H).
  injection H as <-. exact Hv.
Qed.
Lemma hands_call D bi b bo i o : hands_on names hj D (SCall bi b bo i o) = (hj = true /\ hands_on_all names hj [] b /\ forall x, In x o -> ~ In x D).
Proof. reflexivity. Qed.
Lemma hands_if D n y no : hands_on names hj D (SIf n y no) = (~ In n names /\ hands_on_all names hj D y /\ hands_on_all names hj D no).
Proof. reflexivity. Qed.
Definition good_stmt (s : stmt) : Prop := forall D e, hands_on names hj D s -> env_ok D e ->
  ksteps hj kw (trace pk0 s) e = exec pk1 s e /\ forall e', exec pk1 s e = inl e' -> env_ok D e'.
Lemma good_all ss : Forall good_stmt ss -> forall D e, hands_on_all names hj D ss -> env_ok D e ->
  ksteps hj kw (traces pk0 ss) e = execs pk1 ss e /\ forall e', execs pk1 ss e = inl e' -> env_ok D e'.
Proof.
  induction 1 as [|s ss H _ IH]; intros D e Hh He; [split; [reflexivity|intros e' [= <-]; exact He]|]. destruct Hh as [Hh1 Hh2]. cbn [traces execs]. rewrite ksteps_app.
  destruct (H D e Hh1 He) as [-> Hk]. destruct (exec pk1 s e) as [e1|] eqn:E; [|split; [reflexivity|discriminate]]. cbn [nb]. apply IH; [exact Hh2|]. apply Hk. reflexivity.
Qed.
Lemma handing_on s : good_stmt s.
Proof.
  induction s as [f i o|l r a ps o n|bi b bo i o IH|h bi b bo i o IH|n y no IHy IHn] using stmt_ind'; intros D e Hh He.
  - cbn [trace]. rewrite ksteps_one. split; [reflexivity|]. intros e' H. cbn [exec] in H. apply nb_inl in H as (vs & _ & H). apply nb_inl in H as (ws & _ & H). exact (writes_ok D e o ws e' Hh H He).
  - destruct Hh as (Hp & Hr & Ho). cbn [trace]. rewrite ksteps_one. cbn [kstep exec]. destruct (layer_in e l r a) as [[[lay k] xs]|] eqn:El; [|split; [reflexivity|discriminate]]. cbn [nb fst snd].
    assert (Kr : kget "rng" (kmerge (passed_kw pk0 ps) kw) = None).
    { rewrite kget_kmerge, Hrng, kget_passed. destruct (find _ ps) as [[t src]|] eqn:F; [|reflexivity]. apply find_some in F as [Hin E]. cbn [fst] in E. apply String.eqb_eq in E. subst t. destruct (Hr src Hin). }
    rewrite (rule_plain _ _ _ _ Kr).
    assert (C : call_and_update lay xs k (kmerge (passed_kw pk0 ps) kw) = call_and_update lay xs k (passed_kw pk1 ps)).
    { destruct Hp as [Hp|[HD Hp]]; [rewrite (passes_kw ps Hp); reflexivity|]. apply (blind_cau names); [|apply blind_kw, Hp].
      apply layer_in_var in El. destruct (He l _ HD El) as (l' & E & Hb). cbn in E. injection E as <-. exact Hb. }
    rewrite C. split; [reflexivity|]. intros e' H. apply nb_inl in H as (o' & _ & H). unfold layer_out in H. exact (writes_ok D e _ _ e' Ho H He).
  - rewrite hands_call in Hh. destruct Hh as (Ehj & Hb & Ho). rewrite trace_call, ksteps_one, kstep_call, exec_call, Ehj. split.
    + destruct (reads e i) as [vs|]; [|reflexivity]. cbn [nb]. unfold sub, ssub. destruct (writes [] bi vs) as [e0|]; [|reflexivity]. cbn [nb].
      destruct (good_all b IH [] e0 Hb (env_ok_nil e0)) as [E _]. rewrite Ehj in E. rewrite E. reflexivity.
    + intros e' H. apply nb_inl in H as (vs & _ & H). apply nb_inl in H as (ws & _ & H). exact (writes_ok D e o ws e' Ho H He).
  - destruct Hh as (Hu & Ho). rewrite (unaffected_trace (SHigher h bi b bo i o) Hu). rewrite <- (trace_exec pk1). rewrite trace_higher, ksteps_one, steps_one. split; [reflexivity|].
    intros e' H. rewrite step_higher in H. apply nb_inl in H as (vs & _ & H). apply nb_inl in H as (ws & _ & H). exact (writes_ok D e o ws e' Ho H He).
  - rewrite hands_if in Hh. destruct Hh as (Hn & Hy & Hno). rewrite trace_if, exec_if, (Hoff n Hn). destruct (truth (kget n pk0)); apply good_all; assumption.
Qed.
End handing.

(** ** Evaluation *)
(** evaluating a jaxpr with keyword arguments is evaluating the jaxpr whose layers have them on top of their own *)
Theorem C74_override hj kw j vals : kget "rng" kw = None -> evaluable_all hj (jx_eqns j) ->
  eval_jaxpr_with_kwargs hj kw j vals = eval_jaxpr (mk_jx (jx_in j) (map (override kw) (jx_eqns j)) (jx_out j)) vals.
Proof. intros H1 H2. unfold eval_jaxpr_with_kwargs, eval_jaxpr. cbn. destruct (writes [] (jx_in j) vals); [|reflexivity]. cbn. rewrite ksteps_override by assumption. reflexivity. Qed.
(** without keyword arguments it is JAX's evaluation *)
Theorem C74_no_keywords hj j vals : evaluable_all hj (jx_eqns j) -> eval_jaxpr_with_kwargs hj [] j vals = eval_jaxpr j vals.
Proof.
  intros H. rewrite C74_override by (auto; reflexivity). replace (map (override []) (jx_eqns j)) with (jx_eqns j); [destruct j; reflexivity|].
  generalize (jx_eqns j). induction l as [|q l IH]; [reflexivity|]. cbn. rewrite override_nil, <- IH. reflexivity.
Qed.

(** ** Modules *)
Lemma finish_jaxpr m outs r : finish m outs = inl r -> m_jaxpr (snd r) = m_jaxpr m /\ m_assigned (snd r) = m_assigned m.
Proof. unfold finish. destruct (forallb _ _); [|discriminate]. intros [= <-]. auto. Qed.
Lemma module_jaxpr f kw0 m : module_of f kw0 m -> stage f kw0 = inl (m_jaxpr m) /\ m_assigned m = f_assigned f.
Proof.
  induction 1 as [vars m H|m hj args kw outs m' _ IH H].
  - unfold function_module in H. apply nb_inl in H as (j & Hj & H). injection H as <-. auto.
  - unfold fcau in H. apply nb_inl in H as (r & _ & H). apply finish_jaxpr in H as [H1 H2]. cbn in H1, H2. rewrite H1, H2. exact IH.
Qed.
Lemma kget_declared f (kw : kwargs) : forallb (fun e => match kget (fst e) (f_defaults f) with Some _ => true | None => false end) kw = true <-> (forall n, In n (map fst kw) -> kget n (f_defaults f) <> None).
Proof.
  rewrite forallb_forall. split.
  - intros H n Hn. apply in_map_iff in Hn as ([a v] & <- & Hin). specialize (H _ Hin). cbn in *. destruct (kget a (f_defaults f)); congruence.
  - intros H [a v] Hin. specialize (H a (in_map fst _ _ Hin)). cbn. destruct (kget a (f_defaults f)); congruence.
Qed.
Lemma kmerge_names a b n : In n (map fst (kmerge a b)) <-> In n (map fst a) \/ In n (map fst b).
Proof. rewrite <- !kget_some, kget_kmerge. destruct (kget n b); [|tauto]. split; [right; discriminate|discriminate]. Qed.
(** A module made from a function and called with keyword arguments that the function hands on to its layers does what the
    function itself does when it is called with the keyword arguments of init and, on top of them, those of the call. *)
Theorem C74_keywords f kw0 m hj kw D args : module_of f kw0 m ->
  kget "rng" kw = None -> (forall n, In n (map fst kw) -> kget n (f_defaults f) <> None) ->
  hands_on_all (map fst kw) hj D (f_body f) ->
  (forall x v, In x D -> lookup (combine (f_in f) (map snd (m_vars m) ++ args)) x = inl v -> exists l, v = JLayer l /\ blind_layer (map fst kw) l) ->
  fcau hj m args kw = nb (call_function f (map snd (m_vars m) ++ args) (kmerge kw0 kw)) (finish m).
Proof.
  intros Hm Hr Hd Hh HD. unfold fcau. f_equal. apply module_jaxpr in Hm as [Hj _]. unfold stage in Hj. apply nb_inl in Hj as (pk0 & Hb & Hj). injection Hj as <-.
  unfold call_function, bind_params in *. destruct (forallb _ kw0) eqn:F0; [|discriminate]. injection Hb as <-.
  assert (F : forallb (fun e => match kget (fst e) (f_defaults f) with Some _ => true | None => false end) (kmerge kw0 kw) = true).
  { apply kget_declared. intros n Hn. apply kmerge_names in Hn as [Hn|Hn]; [|exact (Hd n Hn)]. exact (proj1 (kget_declared f kw0) F0 n Hn). }
  rewrite F. cbn [nb]. unfold eval_jaxpr_with_kwargs. cbn [jx_in jx_eqns jx_out]. unfold writes at 1 2. destruct (_ =? _) eqn:L; [|reflexivity]. cbn [nb]. rewrite app_nil_r.
  destruct (good_all hj kw (kmerge (f_defaults f) kw0) (kmerge (f_defaults f) (kmerge kw0 kw)) (f_body f)) with (D := D) (e := combine (f_in f) (map snd (m_vars m) ++ args)) as [E _].
  - apply Forall_forall. intros s _. apply handing_on; [exact Hr| |].
    + intros n Hn. rewrite !kget_kmerge, (kget_none n kw Hn). reflexivity.
    + intros n Hn. rewrite !kget_kmerge. apply kget_some in Hn. destruct (kget n kw); congruence.
  - exact Hh.
  - exact HD.
  - rewrite E. reflexivity.
Qed.
(** the variables of a module: calls keep their names; a variable that the function does not assign keeps its value, an assigned
    one gets the new value; assigning a variable that was not declared is an error *)
Lemma vget_in s vs : vget s vs <> None <-> In s (map fst vs).
Proof.
  induction vs as [|[t v] vs IH]; cbn; [split; [congruence|tauto]|]. destruct (String.eqb_spec s t) as [<-|N]; [split; [left; reflexivity|discriminate]|].
  rewrite IH. split; [right; assumption|intros [E|H]; [congruence|exact H]].
Qed.
Lemma vmerge_names a b : (forall s, In s (map fst b) -> In s (map fst a)) -> vmerge a b = map (fun e => (fst e, match vget (fst e) b with Some v => v | None => snd e end)) a.
Proof.
  intros H. unfold vmerge. replace (filter _ b) with (@nil (string * jv)); [apply app_nil_r|].
  induction b as [|[s v] b IH]; [reflexivity|]. cbn [filter fst]. pose proof (H s (or_introl eq_refl)) as Hs. apply vget_in in Hs. destruct (vget s a); [|congruence].
  assert (A : forall l, incl l ((s, v) :: b) -> filter (fun e : string * jv => match vget (fst e) a with Some _ => false | None => true end) l = []).
  { induction l as [|[t w] l IHl]; intros I; [reflexivity|]. cbn [filter fst]. assert (Ht : vget t a <> None) by (apply vget_in, H, in_map_iff; exists (t, w); split; [reflexivity|apply I; left; reflexivity]).
    destruct (vget t a); [|congruence]. apply IHl. intros x Hx. apply I. right. exact Hx. }
  symmetry. apply A. intros x Hx. right. exact Hx.
Qed.
Lemma vget_map s (g : string -> jv -> jv) vs : vget s (map (fun e => (fst e, g (fst e) (snd e))) vs) = option_map (g s) (vget s vs).
Proof. induction vs as [|[t v] vs IH]; cbn; [reflexivity|]. destruct (String.eqb_spec s t) as [<-|]; [reflexivity|exact IH]. Qed.
Theorem C74_variables hj m args kw outs m' : fcau hj m args kw = inl (outs, m') ->
  map fst (m_vars m') = map fst (m_vars m) /\
  (forall s, ~ In s (m_assigned m) -> vget s (m_vars m') = vget s (m_vars m)) /\
  exists all, eval_jaxpr_with_kwargs hj kw (m_jaxpr m) (map snd (m_vars m) ++ args) = inl all /\
    forall new, all = outs ++ new -> List.length new = List.length (m_assigned m) -> NoDup (m_assigned m) ->
      forall i s v, nth_error (m_assigned m) i = Some s -> nth_error new i = Some v -> vget s (m_vars m') = Some v.
Proof.
  unfold fcau. intros H. apply nb_inl in H as (all & He & H). unfold finish in H. destruct (forallb _ _) eqn:F; [|discriminate]. injection H as <- <-. cbn [m_vars].
  set (assigns := combine (m_assigned m) (skipn (List.length all - List.length (m_assigned m)) all)) in *.
  assert (Hd : forall s, In s (map fst assigns) -> In s (map fst (m_vars m))).
  { intros s Hs. apply in_map_iff in Hs as ([t v] & <- & Hin). rewrite forallb_forall in F. specialize (F _ Hin). cbn [fst] in *. apply vget_in. destruct (vget t (m_vars m)); congruence. }
  rewrite (vmerge_names _ _ Hd). split; [rewrite map_map; reflexivity|]. split.
  - intros s Hs. rewrite (vget_map s (fun s v => match vget s assigns with Some w => w | None => v end)).
    replace (vget s assigns) with (@None jv); [destruct (vget s (m_vars m)); reflexivity|].
    destruct (vget s assigns) eqn:E; [|reflexivity]. destruct Hs. assert (I : In s (map fst assigns)) by (apply vget_in; congruence).
    apply in_map_iff in I as ([t v] & <- & I). apply in_combine_l in I. exact I.
  - exists all. split; [exact He|]. intros new En Ln ND i s v Hs Hv. rewrite (vget_map s (fun s v => match vget s assigns with Some w => w | None => v end)).
    assert (As : vget s assigns = Some v).
    { subst assigns. replace (skipn _ all) with new.
      - clear -Hs Hv ND Ln. revert ND new Ln i Hs Hv. induction (m_assigned m) as [|t l IH]; intros ND new Ln i Hs Hv; [destruct i; discriminate|]. destruct new as [|w new]; [discriminate|].
        inversion ND; subst. destruct i as [|i]; cbn in Hs, Hv |- *; [injection Hs as <-; injection Hv as <-; rewrite String.eqb_refl; reflexivity|].
        destruct (String.eqb_spec s t) as [->|]; [apply nth_error_In in Hs; contradiction|]. apply (IH H2 new ltac:(now injection Ln) i); assumption.
      - apply (app_inv_head (firstn (List.length all - List.length (m_assigned m)) all)). rewrite firstn_skipn. symmetry. exact En. }
    rewrite As. assert (Id : vget s (m_vars m) <> None) by (apply vget_in, Hd, vget_in; congruence). destruct (vget s (m_vars m)); [reflexivity|congruence].
Qed.
Theorem C74_undeclared hj m args kw all s : eval_jaxpr_with_kwargs hj kw (m_jaxpr m) (map snd (m_vars m) ++ args) = inl all ->
  List.length (m_assigned m) <= List.length all -> In s (m_assigned m) -> ~ In s (map fst (m_vars m)) -> fcau hj m args kw = inr NValue.
Proof.
  intros H L Hs Hn. unfold fcau. rewrite H. cbn [nb]. unfold finish. replace (forallb _ _) with false; [reflexivity|]. symmetry. apply not_true_is_false. intros F. rewrite forallb_forall in F.
  apply In_nth_error in Hs as [i Hi]. assert (Li : i < List.length (m_assigned m)) by (apply nth_error_Some; congruence).
  set (new := skipn (List.length all - List.length (m_assigned m)) all) in *. assert (Ln : List.length new = List.length (m_assigned m)) by (subst new; rewrite skipn_length; lia).
  destruct (nth_error new i) as [v|] eqn:Ev; [|apply nth_error_None in Ev; lia].
  assert (Hin : In (s, v) (combine (m_assigned m) new)).
  { clearbody new. clear -Hi Ev. revert new i Hi Ev. induction (m_assigned m) as [|t l IH]; intros new i Hi Ev; [destruct i; discriminate|]. destruct new as [|w new]; [destruct i; discriminate|].
    destruct i as [|i]; cbn in *; [left; congruence|right; exact (IH new i Hi Ev)]. }
  specialize (F _ Hin). cbn in F. apply Hn, vget_in. destruct (vget s (m_vars m)); congruence.
Qed.
End kw.
