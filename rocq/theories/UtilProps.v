(** C49-C51. *)
From Coq Require Import Lia.
From Verif Require Export UtilModel.

(** ** C49 *)
(** Specification: Python accepts the keyword [k] for a signature *)
Definition accepts (s : signature) (k : string) : Prop :=
  s_varkw s = true \/ exists p, In p (s_params s) /\ p_name p = k /\ p_kind p <> PosOnly.
(** [k] is a positional parameter with a default *)
Definition optional (s : signature) (k : string) : Prop := exists p, In p (s_params s) /\ p_name p = k /\ p_kind p <> KwOnly /\ p_default p = true.
Definition keyword_only (s : signature) (k : string) : Prop := exists p, In p (s_params s) /\ p_name p = k /\ p_kind p = KwOnly.
(** Python's rule: among positional parameters those with defaults come last *)
Definition valid (s : signature) : Prop :=
  exists a b, filter (fun p => negb (is_kwonly p)) (s_params s) = a ++ b /\ Forall (fun p => p_default p = false) a /\ Forall (fun p => p_default p = true) b.

Lemma last_n_app {X} (a b : list X) : last_n (List.length b) (a ++ b) = b.
Proof. unfold last_n. rewrite app_length. replace (List.length a + List.length b - List.length b) with (List.length a) by lia. rewrite skipn_app, skipn_all, Nat.sub_diag. reflexivity. Qed.
Lemma filter_all {X} (f : X -> bool) l : Forall (fun x => f x = true) l -> filter f l = l.
Proof. induction 1 as [|x l H Hl IH]; [reflexivity|]. cbn. rewrite H, IH. reflexivity. Qed.
Lemma filter_no {X} (f : X -> bool) l : Forall (fun x => f x = false) l -> filter f l = [].
Proof. induction 1 as [|x l H Hl IH]; [reflexivity|]. cbn. rewrite H, IH. reflexivity. Qed.
(** the names with defaults, as the code computes them *)
Definition optionals (s : signature) : list string := match a_defaults (getfullargspec s) with None => [] | Some n => last_n n (a_args (getfullargspec s)) end.
Lemma optionals_spec s k : valid s -> In k (optionals s) <-> optional s k.
Proof.
  intros (a & b & E & Ha & Hb). unfold optionals, getfullargspec. rewrite E. cbn [a_defaults a_args]. rewrite filter_app, (filter_no _ a Ha), (filter_all _ b Hb). cbn [app].
  assert (Ek : In k (map p_name b) <-> optional s k).
  { rewrite in_map_iff. split.
    - intros (p & <- & Hp). exists p. assert (Hi : In p (filter (fun p => negb (is_kwonly p)) (s_params s))) by (rewrite E; apply in_or_app; auto). apply filter_In in Hi as [Hi Hk]. split; [exact Hi|]. split; [reflexivity|].
      rewrite Forall_forall in Hb. split; [|auto]. unfold is_kwonly in Hk. intros F. rewrite F in Hk. discriminate.
    - intros (p & Hi & <- & Hk & Hd). exists p. split; [reflexivity|]. assert (Hf : In p (a ++ b)). { rewrite <- E. apply filter_In. split; [exact Hi|]. unfold is_kwonly. destruct (p_kind p); auto. }
      apply in_app_or in Hf as [Hf|Hf]; [|exact Hf]. rewrite Forall_forall in Ha. rewrite (Ha p Hf) in Hd. discriminate. }
  destruct b as [|p b].
  - exact Ek.
  - change (List.length (p :: b)) with (S (List.length b)). cbv iota beta. rewrite map_app. change (S (List.length b)) with (List.length (p :: b)). rewrite <- (map_length p_name (p :: b)), last_n_app. exact Ek.
Qed.
(** what filter_kwargs keeps: the keywords that are positional parameters with a default (or everything) *)
Theorem C49_filter_kwargs {X} s (kw : list (string * X)) kv : valid s ->
  In kv (filter_kwargs s kw) <-> In kv kw /\ (s_varkw s = true \/ optional s (fst kv)).
Proof.
  intros Hv. unfold filter_kwargs. change (a_varkw (getfullargspec s)) with (s_varkw s). destruct (s_varkw s); [intuition|]. pose proof (optionals_spec s (fst kv) Hv) as K. unfold optionals in K.
  destruct (a_defaults (getfullargspec s)) as [n|].
  - rewrite filter_In, mem_In, K. intuition discriminate.
  - rewrite <- K. cbn. intuition discriminate.
Qed.
(** the entries keep their order and are not duplicated: the result is a sub-dictionary *)
Theorem C49_subdictionary {X} s (kw : list (string * X)) : exists f, filter_kwargs s kw = filter f kw.
Proof.
  unfold filter_kwargs. destruct (a_varkw _); [exists (fun _ => true); symmetry; apply filter_all, Forall_forall; reflexivity|]. destruct (a_defaults _); [eexists; reflexivity|].
  exists (fun _ => false). symmetry. apply filter_no, Forall_forall. reflexivity.
Qed.
(** no unexpected keyword, unless a positional-only parameter has a default *)
Theorem C49_no_unexpected_keyword_partial {X} s (kw : list (string * X)) k v : valid s ->
  (forall p, In p (s_params s) -> p_kind p = PosOnly -> p_default p = false) -> In (k, v) (filter_kwargs s kw) -> accepts s k.
Proof.
  intros Hv Hp H. apply C49_filter_kwargs in H as [_ H]; [|exact Hv]. cbn [fst] in H. destruct H as [H|(p & Hi & <- & Hk & Hd)]; [left; exact H|]. right. exists p. split; [exact Hi|]. split; [reflexivity|]. intros F. apply (Hp p Hi) in F. congruence.
Qed.
(** check_in_kwargs *)
Theorem C49_check_in_kwargs s k : valid s -> check_in_kwargs s k = true <-> s_varkw s = true \/ optional s k \/ keyword_only s k.
Proof.
  intros Hv. unfold check_in_kwargs. change (a_varkw (getfullargspec s)) with (s_varkw s). destruct (s_varkw s); [intuition|]. pose proof (optionals_spec s k Hv) as K. unfold optionals in K.
  assert (Kk : In k (a_kwonly (getfullargspec s)) <-> keyword_only s k).
  { unfold getfullargspec, keyword_only. cbn [a_kwonly]. rewrite in_map_iff. split; intros (p & H1 & H2).
    - apply filter_In in H2 as [H2 H3]. exists p. unfold is_kwonly in H3. destruct (p_kind p) eqn:E; try discriminate. auto.
    - destruct H2 as [H2 H3]. exists p. split; [exact H2|]. apply filter_In. split; [exact H1|]. unfold is_kwonly. rewrite H3. reflexivity. }
  rewrite <- K, <- Kk. destruct (a_defaults (getfullargspec s)) as [n|].
  - rewrite orb_true_iff, !mem_In. intuition discriminate.
  - destruct (a_kwonly (getfullargspec s)); [cbn; intuition discriminate|]. rewrite mem_In. split; [auto|intros [H|[H|H]]; [discriminate|contradiction|exact H]].
Qed.
(** without keyword-only parameters the two agree *)
Theorem C49_agree_partial {X} s (kw : list (string * X)) k v : valid s -> (forall p, In p (s_params s) -> p_kind p <> KwOnly) -> In (k, v) kw ->
  (check_in_kwargs s k = true <-> In (k, v) (filter_kwargs s kw)).
Proof.
  intros Hv Hk Hi. rewrite C49_check_in_kwargs, C49_filter_kwargs by exact Hv. cbn [fst]. split; [|tauto]. intros [H|[H|(p & Hp & _ & F)]]; auto. exfalso. exact (Hk p Hp F).
Qed.
(** False in general.  def f(x, *, training): the accepted keyword "training" is lost although check_in_kwargs is True;
    def f(x, /, y=0): fine; def f(x=0, /): "x" is kept although Python rejects it *)
Definition sig_kwonly : signature := mk_sig [mk_param "x" PosOrKw false; mk_param "y" PosOrKw true; mk_param "training" KwOnly true] false.
Definition sig_posonly : signature := mk_sig [mk_param "x" PosOnly true] false.
Theorem C49_keyword_only_refuted : valid sig_kwonly /\ accepts sig_kwonly "training" /\ check_in_kwargs sig_kwonly "training" = true /\
  filter_kwargs sig_kwonly [("y", 1); ("training", 2); ("z", 3)] = [("y", 1)].
Proof.
  split; [exists [mk_param "x" PosOrKw false], [mk_param "y" PosOrKw true]; repeat split; repeat constructor|]. split; [|split; reflexivity].
  right. exists (mk_param "training" KwOnly true). cbn. repeat split; auto. discriminate.
Qed.
Theorem C49_positional_only_refuted : valid sig_posonly /\ ~ accepts sig_posonly "x" /\ filter_kwargs sig_posonly [("x", 1)] = [("x", 1)].
Proof.
  split; [exists [], [mk_param "x" PosOnly true]; repeat split; repeat constructor|]. split; [|reflexivity].
  intros [H|(p & [<-|[]] & _ & H)]; [discriminate|]. apply H. reflexivity.
Qed.

(** ** C50 *)
Section tie.
  Variable V : Type.
  Fixpoint psize (t : pytree V) : nat := match t with Leaf _ => 1 | Node _ l => S (fold_right (fun t n => psize t + n) 0 l) end.
  Lemma unflat_leaves (t : pytree V) : forall rest, unflat V (structure V t) (leaves V t ++ rest) = Some (t, rest).
  Proof.
    remember (psize t) as n eqn:En. assert (Hn : psize t <= n) by lia. clear En. revert t Hn. induction n as [|n IH]; intros t Hn rest; [destruct t; cbn in Hn; lia|].
    destruct t as [v|d l]; [reflexivity|]. cbn [structure leaves unflat psize] in *.
    assert (K : forall l, fold_right (fun t n => psize t + n) 0 l <= n ->
      (fix go (l : list treedef) (xs : list V) : option (list (pytree V) * list V) :=
                 match l with
                 | [] => Some ([], xs)
                 | t :: l' => match unflat V t xs with
                              | Some (p, xs1) => match go l' xs1 with Some (ps, xs2) => Some (p :: ps, xs2) | None => None end
                              | None => None
                              end
                 end) (map (structure V) l) (flat_map (leaves V) l ++ rest) = Some (l, rest)).
    { clear -IH. induction l as [|t l IHl]; intros H; [reflexivity|]. cbn [fold_right map flat_map] in *. rewrite <- app_assoc, IH by lia. rewrite IHl by lia. reflexivity. }
    rewrite K by lia. reflexivity.
  Qed.
  Theorem C50_tie_all (args : pytree V) : tie_all V args = Some args.
  Proof.
    unfold tie_all, tie_all_p, unflatten. destruct (Nat.leb _ 1); [reflexivity|]. rewrite <- (app_nil_r (leaves V args)), unflat_leaves. reflexivity.
  Qed.
  Theorem C50_tie_in (x y : pytree V) : tie_in V x y = Some y.
  Proof. unfold tie_in. rewrite C50_tie_all. reflexivity. Qed.
End tie.
Example C50_example : tie_in nat (Node 3 []) (Node 1 [Leaf 5; Node 2 []; Node 4 [Leaf 6]]) = Some (Node 1 [Leaf 5; Node 2 []; Node 4 [Leaf 6]]).
Proof. reflexivity. Qed.

(** ** C51 *)
Section contexts.
  Variable C : Type.
  Notation table := (table C).
  (** Specification: lexical scoping.  [env t] lists the contexts entered for trace state [t] and not yet exited, the
      innermost first. *)
  Definition upd (env : nat -> list C) (t : nat) (l : list C) : nat -> list C := fun t' => if Nat.eqb t' t then l else env t'.
  Fixpoint spec1 (c : cmd C) (t : nat) (env : nat -> list C) {struct c} : list (option C) * bool :=
    let spec := (fix spec (l : list (cmd C)) (t : nat) (env : nat -> list C) : list (option C) * bool :=
      match l with
      | [] => ([], true)
      | c :: l' => match spec1 c t env with
                   | (o, true) => match spec l' t env with (o', b) => (o ++ o', b) end
                   | (o, false) => (o, false)
                   end
      end) in
    match c with
    | Get => match env t with x :: _ => ([Some x], true) | [] => ([None], false) end
    | With x body => spec body t (upd env t (x :: env t))
    | InTrace t' body => spec body t' env
    | Raise => ([], false)
    | Try body => match spec body t env with (o, _) => (o, true) end
    end.
  Fixpoint spec (l : list (cmd C)) (t : nat) (env : nat -> list C) : list (option C) * bool :=
    match l with
    | [] => ([], true)
    | c :: l' => match spec1 c t env with
                 | (o, true) => match spec l' t env with (o', b) => (o ++ o', b) end
                 | (o, false) => (o, false)
                 end
    end.
  (** the table holds exactly the non-empty stacks of [env] *)
  Definition models (T : table) (env : nat -> list C) : Prop := forall t, tget C T t = match env t with [] => None | l => Some (rev l) end.

  Fixpoint csize (c : cmd C) : nat := match c with Get | Raise => 1 | With _ l | InTrace _ l | Try l => S (fold_right (fun c n => csize c + n) 0 l) end.
  Definition lsize (l : list (cmd C)) : nat := fold_right (fun c n => csize c + n) 0 l.
  Lemma tget_tset T t l u : tget C (tset C T t l) u = if Nat.eqb u t then Some l else tget C T u.
  Proof.
    induction T as [|[k l0] T IH]; cbn; [reflexivity|]. destruct (Nat.eqb_spec t k) as [->|Hk]; cbn.
    - destruct (Nat.eqb u k); reflexivity.
    - rewrite IH. destruct (Nat.eqb_spec u k) as [Eu|Hu], (Nat.eqb_spec u t) as [Et|Ht]; try reflexivity. congruence.
  Qed.
  (** the finally clause undoes the entry exactly *)
  Lemma tset_tset T t l l' : tset C (tset C T t l) t l' = tset C T t l'.
  Proof. induction T as [|[k l0] T IH]; cbn; [rewrite Nat.eqb_refl; reflexivity|]. destruct (Nat.eqb t k) eqn:E; cbn; [rewrite Nat.eqb_refl; reflexivity|]. rewrite E, IH. reflexivity. Qed.
  Lemma tset_same T t l : tget C T t = Some l -> tset C T t l = T.
  Proof. induction T as [|[k l0] T IH]; cbn; [discriminate|]. destruct (Nat.eqb_spec t k) as [->|]; intros E; [congruence|]. rewrite IH by exact E. reflexivity. Qed.
  Lemma tdel_tset T t l : tget C T t = None -> tdel C (tset C T t l) t = T.
  Proof.
    unfold tdel. induction T as [|[k l0] T IH]; cbn; [rewrite Nat.eqb_refl; reflexivity|]. destruct (Nat.eqb t k) eqn:E; [discriminate|]. intros H. cbn. rewrite E. cbn. rewrite IH by exact H. reflexivity.
  Qed.
  Lemma leave_enter T t c : (forall l, tget C T t = Some l -> l <> []) -> leave C (enter C T t c) t = T.
  Proof.
    unfold leave, enter. intros Hne. destruct (tget C T t) as [l|] eqn:E.
    - rewrite tget_tset, Nat.eqb_refl, removelast_last. specialize (Hne l eq_refl). destruct l as [|x l]; [contradiction|]. rewrite tset_tset, tset_same; [reflexivity|exact E].
    - rewrite tget_tset, Nat.eqb_refl. cbn. apply tdel_tset, E.
  Qed.
  Lemma enter_models T env t c : models T env -> models (enter C T t c) (upd env t (c :: env t)).
  Proof.
    intros H u. unfold enter, upd. rewrite (H t). destruct (env t) as [|x l] eqn:E; rewrite tget_tset; destruct (Nat.eqb_spec u t) as [->|]; try apply H; cbn; reflexivity.
  Qed.
  Lemma last_rev (l : list C) x d : last (map Some (rev (x :: l))) d = Some x.
  Proof. cbn [rev]. rewrite map_app. cbn. apply last_last. Qed.
  Lemma models_ne T env t l : models T env -> tget C T t = Some l -> l <> [].
  Proof. intros H E. rewrite (H t) in E. destruct (env t) as [|x l0]; [discriminate|]. injection E as <-. cbn. intros F. apply app_eq_nil in F as [_ F]. discriminate. Qed.
  Definition inner_exec := (fix exec (l : list (cmd C)) (t : nat) (T : table) : list (option C) * bool * table :=
      match l with
      | [] => ([], true, T)
      | c :: l' => match exec1 C c t T with
                   | (o, true, T1) => match exec l' t T1 with (o', b, T2) => (o ++ o', b, T2) end
                   | (o, false, T1) => (o, false, T1)
                   end
      end).
  Lemma inner_exec_eq l : forall t T, inner_exec l t T = exec C l t T.
  Proof. induction l as [|c l IH]; intros t T; [reflexivity|]. cbn. destruct (exec1 C c t T) as [[o []] T1]; [rewrite IH|]; reflexivity. Qed.
  Definition inner_spec := (fix spec (l : list (cmd C)) (t : nat) (env : nat -> list C) : list (option C) * bool :=
      match l with
      | [] => ([], true)
      | c :: l' => match spec1 c t env with
                   | (o, true) => match spec l' t env with (o', b) => (o ++ o', b) end
                   | (o, false) => (o, false)
                   end
      end).
  Lemma inner_spec_eq l : forall t env, inner_spec l t env = spec l t env.
  Proof. induction l as [|c l IH]; intros t env; [reflexivity|]. cbn. destruct (spec1 c t env) as [o []]; [rewrite IH|]; reflexivity. Qed.
  Lemma exec_ok n : (forall c, csize c <= n -> forall t T env, models T env -> exec1 C c t T = (spec1 c t env, T)) /\
                    (forall l, lsize l <= n -> forall t T env, models T env -> exec C l t T = (spec l t env, T)).
  Proof.
    assert (K : forall n, (forall c, csize c <= n -> forall t T env, models T env -> exec1 C c t T = (spec1 c t env, T)) ->
                    (forall l, lsize l <= n -> forall t T env, models T env -> exec C l t T = (spec l t env, T))).
    { clear n. intros n Hc l. induction l as [|c l IH]; intros Hl t T env Hm; [reflexivity|]. cbn [lsize fold_right] in Hl. change (fold_right (fun c n => csize c + n) 0 l) with (lsize l) in Hl.
      cbn [exec spec]. rewrite (Hc c ltac:(lia) t T env Hm). destruct (spec1 c t env) as [o []]; [|reflexivity]. rewrite (IH ltac:(lia) t T env Hm). destruct (spec l t env); reflexivity. }
    induction n as [|n [IHc IHl]].
    - assert (H0 : forall c, csize c <= 0 -> forall t T env, models T env -> exec1 C c t T = (spec1 c t env, T)) by (intros c Hc; destruct c; cbn in Hc; lia). split; [exact H0|apply K, H0].
    - assert (Hc : forall c, csize c <= S n -> forall t T env, models T env -> exec1 C c t T = (spec1 c t env, T)).
      { intros c Hc t T env Hm. destruct c as [|x body|t' body| |body]; cbn [csize] in Hc; cbn [exec1 spec1]; cbv zeta; try (change (fold_right (fun c n => csize c + n) 0 body) with (lsize body) in Hc; fold inner_exec; fold inner_spec; rewrite inner_exec_eq, inner_spec_eq).
        - unfold get. rewrite (Hm t). destruct (env t) as [|x l]; [reflexivity|]. rewrite last_rev. reflexivity.
        - rewrite (IHl body ltac:(lia) t _ _ (enter_models _ _ t x Hm)). destruct (spec body t _) as [o b]. rewrite leave_enter; [reflexivity|]. intros l. apply (models_ne T env t l Hm).
        - apply IHl; [lia|exact Hm].
        - reflexivity.
        - rewrite (IHl body ltac:(lia) t T env Hm). destruct (spec body t env) as [o b]. reflexivity. }
      split; [exact Hc|apply K, Hc].
  Qed.
  (** C51: every program observes the lexically innermost context of its trace state (None is the ValueError), raises when
      there is none, and leaves the table as it was, whether it ends normally or by an exception *)
  Theorem C51_dynamic_contexts l t T env : models T env -> exec C l t T = (spec l t env, T).
  Proof. apply (exec_ok (lsize l)). lia. Qed.
  Theorem C51_fresh l t : exec C l t [] = (spec l t (fun _ => []), []).
  Proof. apply C51_dynamic_contexts. intros u. reflexivity. Qed.
  (** contexts of other trace states do not matter: code that stays in trace state [t] only depends on the contexts of [t] *)
  Fixpoint stays (c : cmd C) : Prop := match c with Get | Raise => True | With _ l | Try l => fold_right (fun c P => stays c /\ P) True l | InTrace _ _ => False end.
  Theorem C51_isolation l t T T' env env' : models T env -> models T' env' -> env t = env' t -> fold_right (fun c P => stays c /\ P) True l ->
    fst (exec C l t T) = fst (exec C l t T').
  Proof.
    intros H H' E Hs. rewrite (C51_dynamic_contexts l t T env H), (C51_dynamic_contexts l t T' env' H'). cbn [fst]. clear H H' T T'.
    remember (lsize l) as n eqn:En. assert (Hn : lsize l <= n) by lia. clear En. revert l env env' E Hs Hn. induction n as [n IHn] using lt_wf_ind. intros l env env' E Hs Hn.
    destruct l as [|c l]; [reflexivity|]. cbn [fold_right] in Hs. destruct Hs as [Hc Hs]. cbn [spec]. cbn [lsize fold_right] in Hn. change (fold_right (fun c n => csize c + n) 0 l) with (lsize l) in Hn.
    assert (Hpos : 1 <= csize c) by (destruct c; cbn; lia).
    assert (E1 : spec1 c t env = spec1 c t env').
    { destruct c as [|x body|t' body| |body]; cbn [spec1 stays csize] in *; cbv zeta; try (fold inner_spec; rewrite !inner_spec_eq); try (change (fold_right (fun c n => csize c + n) 0 body) with (lsize body) in Hn).
      - rewrite E. reflexivity.
      - apply (IHn (lsize body)); [lia|unfold upd; rewrite Nat.eqb_refl, E; reflexivity|exact Hc|lia].
      - destruct Hc.
      - reflexivity.
      - rewrite (IHn (lsize body) ltac:(lia) body env env' E Hc ltac:(lia)). reflexivity. }
    rewrite E1. destruct (spec1 c t env') as [o []]; [|reflexivity]. rewrite (IHn (lsize l) ltac:(lia) l env env' E Hs ltac:(lia)). reflexivity.
  Qed.
End contexts.
Example C51_example : exec nat [With 1 [Get; InTrace 7 [Try [Get]; With 2 [Get; With 3 [Get]; Get; Try [With 4 [Get; Raise]]; Get]]; Get; With 5 [Get; Raise]; Get]] 0 [] =
  ([Some 1; None; Some 2; Some 3; Some 2; Some 4; Some 2; Some 1; Some 5], false, []).
Proof. reflexivity. Qed.
Print Assumptions C49_filter_kwargs.
Print Assumptions C49_check_in_kwargs.
Print Assumptions C50_tie_in.
Print Assumptions C51_isolation.
