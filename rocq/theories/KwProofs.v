(** Proofs about keyword arguments of stateful functions. *)
From Verif Require Export KwSpec.
From Coq Require Import FunctionalExtensionality.

Section kw.
Context {PR : Prng}.

(** ** Dictionaries *)
Lemma kget_some s (kw : kwargs) : kget s kw <> None <-> In s (map fst kw).
Proof.
  induction kw as [|[t v] kw IH]; cbn; [split; [congruence|tauto]|]. destruct (String.eqb_spec s t) as [<-|N]; [split; [left; reflexivity|discriminate]|].
  rewrite IH. split; [right; assumption|intros [E|H]; [congruence|exact H]].
Qed.
Lemma kget_none s (kw : kwargs) : ~ In s (map fst kw) -> kget s kw = None.
Proof. intros H. destruct (kget s kw) eqn:E; [|reflexivity]. destruct H. apply kget_some. congruence. Qed.
Lemma kget_kmerge s a b : kget s (kmerge a b) = match kget s b with Some v => Some v | None => kget s a end.
Proof.
  unfold kmerge. induction a as [|[t v] a IH].
  - cbn. replace (filter _ b) with b; [destruct (kget s b); reflexivity|]. induction b; cbn; congruence.
  - cbn [map app fst snd kget]. destruct (String.eqb_spec s t) as [<-|N]; [destruct (kget s b); reflexivity|].
    replace (kget s a) with (kget s a) by reflexivity. revert IH.
    generalize (map (fun e : string * kval => (fst e, match kget (fst e) b with Some v0 => v0 | None => snd e end)) a). intros m IH.
    rewrite <- IH. clear IH. induction m as [|[u w] m IHm]; cbn [app kget].
    + induction b as [|[u w] b IHb]; cbn [filter fst kget]; [reflexivity|]. destruct (String.eqb_spec u t) as [->|Nu].
      * rewrite IHb. destruct (kget t a); [reflexivity|]. cbn [kget]. destruct (String.eqb_spec s t); [congruence|reflexivity].
      * destruct (kget u a); [exact IHb|]. cbn [kget]. rewrite IHb. reflexivity.
    + rewrite IHm. reflexivity.
Qed.
Lemma kmerge_nil a : kmerge a [] = a.
Proof. unfold kmerge. cbn [filter kget]. rewrite app_nil_r. induction a as [|[s v] a IH]; cbn; congruence. Qed.
Lemma kdel_none s (kw : kwargs) : kget s kw = None -> kdel s kw = kw.
Proof. unfold kdel. induction kw as [|[t v] kw IH]; cbn; [reflexivity|]. destruct (String.eqb s t); [discriminate|]. cbn. intros H. rewrite IH by exact H. reflexivity. Qed.
Lemma kget_passed s pk ps : kget s (passed_kw pk ps) = option_map (fun r => match r with Const v => v | Param n => match kget n pk with Some v => v | None => KOther 0 end end)
  (option_map snd (find (fun e => String.eqb s (fst e)) ps)).
Proof. unfold passed_kw. induction ps as [|[a r] ps IH]; cbn; [reflexivity|]. destruct (String.eqb s a); [reflexivity|exact IH]. Qed.
Lemma rule_plain l k xs kw : kget "rng" kw = None -> layer_rule l k xs kw = call_and_update l xs k kw.
Proof. intros H. unfold layer_rule. rewrite (kdel_none _ _ H), H. destruct k; reflexivity. Qed.

(** ** Induction over nested statements *)
Section eqn_ind.
Variable P : eqn -> Prop.
Hypothesis H1 : forall f i o, P (EPrim f i o).
Hypothesis H2 : forall l r a k o n, P (ELayer l r a k o n).
Hypothesis H3 : forall bi b bo i o, Forall P b -> P (ECall bi b bo i o).
Hypothesis H4 : forall h bi b bo i o, Forall P b -> P (EHigher h bi b bo i o).
Fixpoint eqn_ind' (q : eqn) : P q :=
  let all := fix all (es : list eqn) : Forall P es := match es with [] => Forall_nil _ | q :: es' => Forall_cons _ (eqn_ind' q) (all es') end in
  match q with EPrim f i o => H1 f i o | ELayer l r a k o n => H2 l r a k o n | ECall bi b bo i o => H3 bi b bo i o (all b) | EHigher h bi b bo i o => H4 h bi b bo i o (all b) end.
End eqn_ind.
Section stmt_ind.
Variable P : stmt -> Prop.
Hypothesis H1 : forall f i o, P (SPrim f i o).
Hypothesis H2 : forall l r a k o n, P (SLayer l r a k o n).
Hypothesis H3 : forall bi b bo i o, Forall P b -> P (SCall bi b bo i o).
Hypothesis H4 : forall h bi b bo i o, Forall P b -> P (SHigher h bi b bo i o).
Hypothesis H5 : forall n y no, Forall P y -> Forall P no -> P (SIf n y no).
Fixpoint stmt_ind' (q : stmt) : P q :=
  let all := fix all (es : list stmt) : Forall P es := match es with [] => Forall_nil _ | q :: es' => Forall_cons _ (stmt_ind' q) (all es') end in
  match q with SPrim f i o => H1 f i o | SLayer l r a k o n => H2 l r a k o n | SCall bi b bo i o => H3 bi b bo i o (all b) | SHigher h bi b bo i o => H4 h bi b bo i o (all b)
  | SIf n y no => H5 n y no (all y) (all no) end.
End stmt_ind.

(** ** Evaluation with keyword arguments is evaluation of the jaxpr with them *)
Definition sub (run : list eqn -> env -> nres env) (bins : list nat) (body : list eqn) (bouts : list nat) (vs : list jv) : nres (list jv) :=
  nb (writes [] bins vs) (fun e0 => nb (run body e0) (fun e1 => reads e1 bouts)).
Lemma step_call bins body bouts ins outs e : step (ECall bins body bouts ins outs) e = nb (reads e ins) (fun vs => nb (sub steps bins body bouts vs) (writes e outs)).
Proof. reflexivity. Qed.
Lemma step_higher h bins body bouts ins outs e : step (EHigher h bins body bouts ins outs) e = nb (reads e ins) (fun vs => nb (h (sub steps bins body bouts) vs) (writes e outs)).
Proof. reflexivity. Qed.
Lemma kstep_call hj kw bins body bouts ins outs e : kstep hj kw (ECall bins body bouts ins outs) e =
  nb (reads e ins) (fun vs => if hj then nb (sub (ksteps hj kw) bins body bouts vs) (writes e outs) else inr NType).
Proof. reflexivity. Qed.
Lemma kstep_override hj kw : kget "rng" kw = None -> forall q, evaluable hj q -> forall e, kstep hj kw q e = step (override kw q) e.
Proof.
  intros Hk q. induction q as [f i o|l r a k o n|bi b bo i o IH|h bi b bo i o IH] using eqn_ind'; intros He e; try reflexivity.
  - cbn [kstep override step]. destruct (layer_in e l r a) as [j|]; [|reflexivity]. cbn [nb]. rewrite rule_plain; [reflexivity|]. rewrite kget_kmerge, Hk. exact He.
  - destruct He as [-> He]. rewrite kstep_call. cbn [override]. rewrite step_call. destruct (reads e i) as [vs|]; [|reflexivity]. cbn [nb]. unfold sub.
    destruct (writes [] bi vs) as [e0|]; [|reflexivity]. cbn [nb]. assert (E : ksteps true kw b e0 = steps (map (override kw) b) e0); [|rewrite E; reflexivity].
    clear -IH He. revert e0. induction IH as [|q b H IH IH2]; intros e0; [reflexivity|]. destruct He as [He1 He2]. cbn [ksteps steps map].
    rewrite H by exact He1. destruct (step (override kw q) e0); [|reflexivity]. cbn [nb]. apply IH2, He2.
Qed.
Lemma ksteps_override hj kw es : kget "rng" kw = None -> evaluable_all hj es -> forall e, ksteps hj kw es e = steps (map (override kw) es) e.
Proof.
  intros Hk. induction es as [|q es IH]; intros He e; [reflexivity|]. destruct He as [H1 H2]. cbn [ksteps steps map]. rewrite kstep_override by assumption.
  destruct (step (override kw q) e); [|reflexivity]. apply IH, H2.
Qed.
Lemma override_nil q : override [] q = q.
Proof.
  induction q as [f i o|l r a k o n|bi b bo i o IH|h bi b bo i o IH] using eqn_ind'; try reflexivity.
  - cbn. rewrite kmerge_nil. reflexivity.
  - cbn. f_equal. induction IH; cbn; congruence.
Qed.

(** ** Staging *)
Lemma nb_assoc {A B C} (x : nres A) (f : A -> nres B) (g : B -> nres C) : nb (nb x f) g = nb x (fun a => nb (f a) g).
Proof. destruct x; reflexivity. Qed.
Lemma steps_app a b e : steps (a ++ b) e = nb (steps a e) (steps b).
Proof. revert e. induction a as [|q a IH]; intros e; [reflexivity|]. cbn. destruct (step q e); [apply IH|reflexivity]. Qed.
Lemma ksteps_app hj kw a b e : ksteps hj kw (a ++ b) e = nb (ksteps hj kw a e) (ksteps hj kw b).
Proof. revert e. induction a as [|q a IH]; intros e; [reflexivity|]. cbn. destruct (kstep hj kw q e); [apply IH|reflexivity]. Qed.
Lemma nb_ret {A} (x : nres A) : nb x inl = x.
Proof. destruct x; reflexivity. Qed.
Lemma steps_one q e : steps [q] e = step q e.
Proof. cbn. apply nb_ret. Qed.
Lemma ksteps_one hj kw q e : ksteps hj kw [q] e = kstep hj kw q e.
Proof. cbn. apply nb_ret. Qed.
Lemma trace_call pk bi b bo i o : trace pk (SCall bi b bo i o) = [ECall bi (traces pk b) bo i o].
Proof. reflexivity. Qed.
Lemma trace_higher pk h bi b bo i o : trace pk (SHigher h bi b bo i o) = [EHigher h bi (traces pk b) bo i o].
Proof. reflexivity. Qed.
Lemma trace_if pk n y no : trace pk (SIf n y no) = if truth (kget n pk) then traces pk y else traces pk no.
Proof. reflexivity. Qed.
Definition ssub (run : list stmt -> env -> nres env) (bins : list nat) (body : list stmt) (bouts : list nat) (vs : list jv) : nres (list jv) :=
  nb (writes [] bins vs) (fun e0 => nb (run body e0) (fun e1 => reads e1 bouts)).
Lemma exec_call pk bins body bouts ins outs e : exec pk (SCall bins body bouts ins outs) e = nb (reads e ins) (fun vs => nb (ssub (execs pk) bins body bouts vs) (writes e outs)).
Proof. reflexivity. Qed.
Lemma exec_higher pk h bins body bouts ins outs e : exec pk (SHigher h bins body bouts ins outs) e = nb (reads e ins) (fun vs => nb (h (ssub (execs pk) bins body bouts) vs) (writes e outs)).
Proof. reflexivity. Qed.
Lemma exec_if pk n y no e : exec pk (SIf n y no) e = if truth (kget n pk) then execs pk y e else execs pk no e.
Proof. reflexivity. Qed.
Lemma traces_exec pk ss : Forall (fun s => forall e, steps (trace pk s) e = exec pk s e) ss -> forall e, steps (traces pk ss) e = execs pk ss e.
Proof. induction 1 as [|s ss H _ IH]; intros e; [reflexivity|]. cbn [traces execs]. rewrite steps_app, H. destruct (exec pk s e); [apply IH|reflexivity]. Qed.
Lemma trace_exec pk s : forall e, steps (trace pk s) e = exec pk s e.
Proof.
  induction s as [f i o|l r a k o n|bi b bo i o IH|h bi b bo i o IH|n y no IHy IHn] using stmt_ind'; intros e.
  - cbn. apply nb_ret.
  - cbn [trace]. rewrite steps_one. reflexivity.
  - rewrite trace_call, steps_one, step_call, exec_call. unfold sub, ssub. destruct (reads e i) as [vs|]; [|reflexivity]. cbn [nb]. destruct (writes [] bi vs); [|reflexivity]. cbn [nb].
    rewrite traces_exec by exact IH. reflexivity.
  - rewrite trace_higher, steps_one, step_higher, exec_higher. replace (sub steps bi (traces pk b) bo) with (ssub (execs pk) bi b bo); [reflexivity|].
    apply functional_extensionality. intros vs. unfold sub, ssub. destruct (writes [] bi vs); [|reflexivity]. cbn [nb]. rewrite traces_exec by exact IH. reflexivity.
  - rewrite trace_if, exec_if. destruct (truth (kget n pk)); apply traces_exec; assumption.
Qed.

(** ** Blind layers *)
Lemma blind_cau names l : blind_layer names l -> forall args rng kw kw', (forall s, ~ In s names -> kget s kw = kget s kw') -> call_and_update l args rng kw = call_and_update l args rng kw'.
Proof.
  assert (G : forall n l, depth l <= n -> blind_layer names l -> forall args rng kw kw', (forall s, ~ In s names -> kget s kw = kget s kw') -> call_and_update l args rng kw = call_and_update l args rng kw').
  2: intros H; apply (G (depth l) l); [reflexivity|exact H].
  clear l. induction n as [|n IH]; intros l Hd Hb args rng kw kw' E; [pose proof (depth_pos l); lia|]. rewrite !cau_eq. destruct (through l) as [l1|]; [|reflexivity]. cbn [nb]. destruct Hb as [c p nm Hc|ls nm Hl].
  - unfold leaf_step. set (k1 := match rng with None => kw | Some k => kw ++ [("rng", KKey k)] end). set (k2 := match rng with None => kw' | Some k => kw' ++ [("rng", KKey k)] end).
    assert (E' : forall s, ~ In s names -> kget s k1 = kget s k2).
    { intros s Hs. subst k1 k2. destruct rng; [|now apply E]. assert (A : forall q : kwargs, kget s (q ++ [("rng", KKey k)]) = match kget s q with Some w => Some w | None => if String.eqb s "rng" then Some (KKey k) else None end).
      { induction q as [|[t v] q IHq]; [reflexivity|]. cbn [app kget]. destruct (String.eqb s t); [reflexivity|exact IHq]. }
      rewrite !A, (E s Hs). reflexivity. }
    destruct (Hc p args k1 k2 E') as [-> ->]. reflexivity.
  - assert (C : forall v r, chain call_and_update kw ls v r = chain call_and_update kw' ls v r); [|rewrite C; reflexivity].
    cbn [depth] in Hd. assert (Hd' : forall l, In l ls -> depth l <= n) by (intros l Hin; apply depth_child in Hin; lia). clear Hd.
    induction ls as [|l ls IHl]; intros v r; [reflexivity|]. inversion Hl; subst. cbn [chain].
    rewrite (IH l (Hd' l (or_introl eq_refl)) H1 (as_args v) (option_map (fun k => snd (split2 k)) r) kw kw' E).
    destruct (call_and_update l (as_args v) _ kw') as [o|]; [|reflexivity]. cbn [nb]. rewrite IHl; [reflexivity|assumption|]. intros; apply Hd'; right; assumption.
Qed.
End kw.
