(** C79: binding a function to a primitive does not change what it computes. *)
From Coq Require Import List ZArith String Bool Lia.
From Verif Require Import UtilModel UtilProps BindModel BindProofs.
Import ListNotations.
Open Scope string_scope. Open Scope list_scope. Open Scope nat_scope.
Arguments R {OP A L} _ _ _ _. Arguments ok {OP A L} _ _.

(** ** Specification *)
Section spec.
  Context {OP : Ops}.
  (** the program without primitives bound to functions: marked calls are plain calls, tie_all is the tuple of its arguments *)
  Fixpoint unmarked (e : term) : term :=
    match e with
    | TVar i => TVar i | TPy p => TPy p
    | TPrim o es => TPrim o (map unmarked es)
    | TNode d es => TNode d (map unmarked es)
    | TGet i e => TGet i (unmarked e)
    | TIf c a b => TIf (unmarked c) (unmarked a) (unmarked b)
    | TTie es => TNode 0 (map unmarked es)
    | TCall _ body args kwargs => TCall Plain (unmarked body) (map unmarked args) (map unmarked kwargs)
    end.
  (** variables: (known to hold a Python number or object, known not to hold objects that are no arrays) *)
  Definition kind := (bool * bool)%type.
  Definition kind_of (cx : list kind) (e : term) : kind :=
    match e with TPy (PNum _) => (true, true) | TPy (PStr _) => (true, false) | TVar i => nth i cx (false, true) | _ => (false, true) end.
  Definition is_ref (e : term) : bool := match e with TPy _ | TVar _ => true | _ => false end.
  (** what a program does not do, when the flag is false: branch on anything but Python values (those it mentions, and the
      keyword arguments of initial_style_bind); use objects that are no arrays, except as keyword arguments and conditions;
      bind functions without a name to call primitives *)
  Fixpoint within (ifs strs unnamed : bool) (cx : list kind) (e : term) : bool :=
    match e with
    | TVar i => strs || snd (nth i cx (false, true))
    | TPy p => match p with PNum _ => true | PStr _ => strs end
    | TPrim _ es | TNode _ es | TTie es => forallb (within ifs strs unnamed cx) es
    | TGet _ e => within ifs strs unnamed cx e
    | TIf c a b => (ifs || fst (kind_of cx c)) && (is_ref c || within ifs strs unnamed cx c) && within ifs strs unnamed cx a && within ifs strs unnamed cx b
    | TCall Plain body args kwargs =>
        forallb (fun e => is_ref e || within ifs strs unnamed cx e) args && forallb (fun e => is_ref e || within ifs strs unnamed cx e) kwargs
        && within ifs strs unnamed (map (kind_of cx) args ++ map (kind_of cx) kwargs ++ cx) body
    | TCall Initial body args kwargs =>
        forallb (within ifs strs unnamed cx) args && forallb (fun e => is_ref e || within ifs strs unnamed cx e) kwargs
        && within ifs strs unnamed (map (fun _ => (false, true)) args ++ map (kind_of cx) kwargs ++ cx) body
    | TCall (Hop name) body args kwargs =>
        match name with None => unnamed | _ => true end
        && forallb (within ifs strs unnamed cx) args && forallb (within ifs strs unnamed cx) kwargs
        && within ifs strs unnamed (map (fun _ => (false, true)) args ++ map (fun _ => (false, true)) kwargs ++ cx) body
    end.
  Definition no_objects {X} (v : pytree (leaf X)) : Prop := forall st, ~ In (LPy (PStr st)) (leaves _ v).
  Definition lmap {X Y} (h : X -> Y) (l : leaf X) : leaf Y := match l with LV x => LV (h x) | LPy p => LPy p end.
  (** a pytree of another level, seen through a map of its arrays *)
  Definition through {A B : alg} (h : T B -> T A) (v : val (algL B)) : val (algL A) := tmap (lmap h) v.
  (** the same pytree, up to Python numbers having become arrays *)
  Definition same_leaf (A : alg) (l m : leaf (T A)) : Prop := l = m \/ exists p t, m = LPy p /\ litA A p = Ret t /\ l = LV t.
  Definition same (A : alg) (v u : val (algL A)) : Prop := structure _ v = structure _ u /\ Forall2 (same_leaf A) (leaves _ v) (leaves _ u).
End spec.

Section props.
  Context {OP : Ops}.
  Section tind.
    Variable P : term -> Prop.
    Hypothesis H1 : forall i, P (TVar i).
    Hypothesis H2 : forall p, P (TPy p).
    Hypothesis H3 : forall o es, Forall P es -> P (TPrim o es).
    Hypothesis H4 : forall d es, Forall P es -> P (TNode d es).
    Hypothesis H5 : forall i e, P e -> P (TGet i e).
    Hypothesis H6 : forall c a b, P c -> P a -> P b -> P (TIf c a b).
    Hypothesis H7 : forall es, Forall P es -> P (TTie es).
    Hypothesis H8 : forall m b args kwargs, P b -> Forall P args -> Forall P kwargs -> P (TCall m b args kwargs).
    Fixpoint tind (e : term) : P e :=
      let all := fix go (l : list term) : Forall P l := match l with [] => Forall_nil _ | e :: l => Forall_cons _ (tind e) (go l) end in
      match e with
      | TVar i => H1 i | TPy p => H2 p | TPrim o es => H3 o es (all es) | TNode d es => H4 d es (all es) | TGet i e => H5 i e (tind e)
      | TIf c a b => H6 c a b (tind c) (tind a) (tind b) | TTie es => H7 es (all es) | TCall m b args kwargs => H8 m b args kwargs (tind b) (all args) (all kwargs)
      end.
  End tind.

  Variable A : alg.
  Hypothesis HA : valid A.
  Variables ifs strs unnamed : bool.
  Notation U := (val (algL A)).
  Notation inside := (within ifs strs unnamed).
  (** the values of the variables are of their kinds *)
  Definition kinds1 {X} (cx : list kind) (env : list (pytree (leaf X))) : Prop := Forall2 (fun k v => fst k = true -> exists p, v = Leaf (LPy p)) cx env.
  Definition kinds2 {X} (cx : list kind) (env : list (pytree (leaf X))) : Prop := Forall2 (fun k v => strs = false -> snd k = true -> no_objects v) cx env.
  Definition excused (e : err) : Prop := (ifs = true /\ e = Concretization) \/ (strs = true /\ e = NotAnArray) \/ (unnamed = true /\ e = NoName).
  Definition le {L} (sm : sim A L) (s s' : St L) : Prop := forall x t, R sm s x t -> R sm s' x t.
  Definition post {L} (sm : sim A L) (s : St L) (r : res (val L * St L)) (g : res (U * unit)) : Prop :=
    match r with
    | Ret (y, s') => exists u, g = Ret (u, tt) /\ treeR A (R sm s') y u /\ ok sm s' /\ le sm s s' /\ (strs = false -> no_objects u)
    | Raise e => excused e \/ g = Raise e
    end.
  Definition postk {L} (sm : sim A L) (s : St L) (k : kind) (r : res (val L * St L)) (g : res (U * unit)) : Prop :=
    match r with
    | Ret (y, s') => exists u, g = Ret (u, tt) /\ treeR A (R sm s') y u /\ ok sm s' /\ le sm s s' /\ (fst k = true -> exists p, y = Leaf (LPy p)) /\ (strs = false -> snd k = true -> no_objects u)
    | Raise e => excused e \/ g = Raise e
    end.
  Definition posts {L} (sm : sim A L) (s : St L) (ks : list kind) (r : res (list (val L) * St L)) (g : res (list U * unit)) : Prop :=
    match r with
    | Ret (ys, s') => exists us, g = Ret (us, tt) /\ Forall2 (treeR A (R sm s')) ys us /\ ok sm s' /\ le sm s s' /\ kinds1 ks ys /\ kinds2 ks us
    | Raise e => excused e \/ g = Raise e
    end.
  Definition evlist (L : level) (env : list (val L)) := fix evl (es : list term) (s : St L) : res (list (val L) * St L) :=
    match es with [] => Ret ([], s) | e :: es => bnd (eval L e env s) (fun r => bnd (evl es (snd r)) (fun q => Ret (fst r :: fst q, snd q))) end.

  (** *** trees *)
  Lemma leafR_imp {X} (P Q : X -> T A -> Prop) l m : (forall x t, P x t -> Q x t) -> leafR A P l m -> leafR A Q l m.
  Proof. intros H. destruct l, m; cbn; auto. intros (t & H1 & H2). eauto. Qed.
  Lemma treeR_imp {X} (P Q : X -> T A -> Prop) v u : (forall x t, P x t -> Q x t) -> treeR A P v u -> treeR A Q v u.
  Proof. intros H [E F]. split; [exact E|]. revert F. apply F2_imp. intros l m. apply leafR_imp, H. Qed.
  Lemma treesR_imp {X} (P Q : X -> T A -> Prop) l m : (forall x t, P x t -> Q x t) -> Forall2 (treeR A P) l m -> Forall2 (treeR A Q) l m.
  Proof. intros H. apply F2_imp. intros v u. apply treeR_imp, H. Qed.
  Lemma treeR_node {X} (P : X -> T A -> Prop) d l m : Forall2 (treeR A P) l m -> treeR A P (Node d l) (Node d m).
  Proof. intros H. unfold treeR. cbn. induction H as [|v u l m [E F] _ [E' F']]; cbn; [auto|]. split; [injection E' as E'; rewrite E, E'; reflexivity|]. apply Forall2_app; assumption. Qed.
  Lemma treeR_node_inv {X} (P : X -> T A -> Prop) d l u : treeR A P (Node d l) u -> exists m, u = Node d m /\ Forall2 (treeR A P) l m.
  Proof.
    intros [E F]. destruct u as [x|d' m]; [discriminate|]. cbn in *. injection E as <- E. exists m. split; [reflexivity|]. revert m E F. induction l as [|v l IH]; intros [|u m] E F; try discriminate; [constructor|].
    injection E as E1 E2. cbn in F. apply Forall2_app_inv_l in F. destruct F as (a & b & F1 & F2 & E).
    pose proof (F2_len _ _ _ F1) as Ha. rewrite (structure_len v u E1) in Ha. apply app_len_inj in E; [|exact Ha]. destruct E as [<- <-]. constructor; [split; assumption|]. apply IH; assumption.
  Qed.
  Lemma treeR_leaf_inv {X} (P : X -> T A -> Prop) a u : treeR A P (Leaf a) u -> exists b, u = Leaf b /\ leafR A P a b.
  Proof. intros [E F]. destruct u as [x|d' m]; [|discriminate]. cbn in F. inversion F; subst. eauto. Qed.
  Lemma tmap_shape {X Y} (f : X -> Y) v : structure _ (tmap f v) = structure _ v /\ leaves _ (tmap f v) = map f (leaves _ v).
  Proof.
    induction v as [x|d l IH] using ptind; cbn; [auto|]. rewrite map_map. split.
    - f_equal. induction IH as [|v l [E _] _ IHl]; cbn; [reflexivity|]. rewrite E, IHl. reflexivity.
    - induction IH as [|v l [_ E] _ IHl]; cbn; [reflexivity|]. rewrite E, IHl, map_app. reflexivity.
  Qed.
  Lemma treeR_outer0 {X} (P : X -> T A -> Prop) (Q : tracer X -> T A -> Prop) v u : (forall x t, P x t -> Q (TrOut x) t) -> treeR A P v u -> treeR A Q (outer v) u.
  Proof.
    intros H [E F]. destruct (tmap_shape (fun l : leaf X => match l with LV x => LV (TrOut x) | LPy p => LPy p end) v) as [E1 E2]. split; unfold outer; [rewrite E1; exact E|]. rewrite E2. apply F2_map_l. revert F. apply F2_imp.
    intros [x|p] [t|q]; cbn; auto. intros (t & H1 & H2). eauto.
  Qed.
  Lemma treeR_outer {L} (sm : sim A L) s ts st v u : treeR A (R sm s) v u -> treeR A (R (sim_trace A HA L sm s ts) st) (outer v) u.
  Proof. apply (treeR_outer0 (R sm s) (R (sim_trace A HA L sm s ts) st)). intros x t H. exact H. Qed.
  Lemma treesR_outer {L} (sm : sim A L) s ts st l m : Forall2 (treeR A (R sm s)) l m -> Forall2 (treeR A (R (sim_trace A HA L sm s ts) st)) (map outer l) m.
  Proof. intros H. apply F2_map_l. revert H. apply F2_imp. intros v u. apply treeR_outer. Qed.
  Lemma no_obj_node {X} d (l : list (pytree (leaf X))) : no_objects (Node d l) <-> Forall no_objects l.
  Proof. unfold no_objects. cbn. rewrite Forall_forall. split; [intros H v Hv st Hs; apply (H st), in_flat_map; eauto|]. intros H st Hs. apply in_flat_map in Hs. destruct Hs as (v & Hv & Hs). apply (H v Hv st Hs). Qed.

  (** *** staging and binding *)
  Definition conv (m : leaf (T A)) (t : T A) : Prop := m = LV t \/ exists p, m = LPy p /\ litA A p = Ret t.
  Lemma str_excused (u : U) e : (strs = false -> no_objects u) -> e = NotAnArray -> (exists st, In (LPy (PStr st)) (leaves _ u)) -> excused e.
  Proof. intros H -> [st Hst]. unfold excused. destruct strs; [auto|]. destruct (H eq_refl st Hst). Qed.
  Lemma convert {L} (sm : sim A L) s ls ms : Forall2 (leafR A (R sm s)) ls ms ->
    match mapr (leaf_c L) ls with
    | Ret xs => exists ts, Forall2 (R sm s) xs ts /\ Forall2 conv ms ts /\ mapr (get_shaped_aval L) ls = Ret (map (av A) ts)
    | Raise e => e = NotAnArray /\ (exists st, In (LPy (PStr st)) ms) /\ mapr (get_shaped_aval L) ls = Raise NotAnArray
    end.
  Proof.
    induction 1 as [|l m ls ms Hl _ IH]; cbn; [exists []; auto|].
    destruct l as [x|p]; cbn.
    - assert (Ht : exists t, R sm s x t /\ conv m t). { destruct m as [t|q]; cbn in Hl; [exists t; split; [exact Hl|left; reflexivity]|]. destruct Hl as (t & H1 & H2). exists t. split; [exact H2|right; eauto]. }
      destruct Ht as (t & Hx & Hm). rewrite (s_av A L sm s x t Hx). destruct (mapr (leaf_c L) ls); cbn.
      + destruct IH as (ts & H1 & H2 & ->). exists (t :: ts). cbn. auto.
      + destruct IH as (-> & [st Hst] & ->). cbn. eauto 6.
    - destruct m as [t|q]; cbn in Hl; [contradiction|]. subst q. pose proof (v_lit A HA p) as Hp. pose proof (s_lit A L sm s p) as Hs. rewrite <- Hp. destruct (litA A p) as [t|e] eqn:Et, (l_lit L p) as [x|e'] eqn:Ex; try contradiction; cbn.
      + destruct (mapr (leaf_c L) ls); cbn.
        * destruct IH as (ts & H1 & H2 & ->). exists (t :: ts). cbn. split; [auto|]. split; [constructor; [right; eauto|exact H2]|reflexivity].
        * destruct IH as (-> & [st Hst] & ->). cbn. eauto 6.
      + subst e'. destruct p as [z|st]; cbn in Hp; [discriminate|]. injection Hp as ->. eauto 6.
  Qed.
  Lemma arg_tracers_len {X} i shs : List.length (arg_tracers (X := X) i shs) = List.length shs.
  Proof. revert i. induction shs; intros i; cbn; auto. Qed.
  Lemma stage_post {L} (sm : sim A L) s (args : val L) (targs : U) f g : ok sm s -> treeR A (R sm s) args targs -> (strs = false -> no_objects targs) ->
    (forall ts a', treeR A (R (sim_trace A HA L sm s ts) (frame0 _)) a' targs -> post (sim_trace A HA L sm s ts) (frame0 _) (f a' (frame0 _)) g) ->
    post sm s (bnd (stage L f args) (fun r => bind_staged L r args s)) g.
  Proof.
    intros Hok HT Hns Hf. unfold stage. destruct HT as [Hst HF]. pose proof (convert sm s _ _ HF) as Hc. destruct (mapr (leaf_c L) (leaves _ args)) as [xs|e] eqn:Exs.
    2:{ destruct Hc as (_ & He & ->). cbn. left. exact (str_excused _ _ Hns eq_refl He). }
    destruct Hc as (ts & Hxs & Hms & ->). cbn [bnd].
    destruct (unfl_ok args (arg_tracers (X := C L) 0 (map (av A) ts))) as (a' & Ea & Ea1 & Ea2); [rewrite arg_tracers_len, map_length, <- (F2_len _ _ _ Hms); symmetry; exact (F2_len _ _ _ HF)|].
    rewrite Ea. cbn [bnd].
    assert (Ha : treeR A (R (sim_trace A HA L sm s ts) (frame0 _)) a' targs).
    { split; [exact (eq_trans Ea2 Hst)|]. refine (eq_ind_r (fun l => Forall2 (leafR A (R (sim_trace A HA L sm s ts) (frame0 _))) l (leaves _ targs)) _ Ea1). clear -Hms. assert (K : forall k ms us, Forall2 conv ms us -> (forall i, nth_error us i = nth_error ts (k + i)) -> Forall2 (leafR A (R (sim_trace A HA L sm s ts) (frame0 _))) (arg_tracers k (map (av A) us)) ms).
      { intros k ms us H. revert k. induction H as [|m u ms us Hm _ IH]; intros k Hk; cbn; constructor.
        - assert (Hu : R (sim_trace A HA L sm s ts) (frame0 _) (TrArg k (av A u)) u). { cbn. split; [|reflexivity]. specialize (Hk 0). cbn in Hk. rewrite Nat.add_0_r in Hk. congruence. }
          destruct Hm as [->|(p & -> & Hp)]; cbn; [exact Hu|]. exists u. split; [exact Hp|exact Hu].
        - apply IH. intros i. specialize (Hk (S i)). cbn in Hk. rewrite Hk. f_equal. lia. }
      apply (K 0 _ ts Hms). reflexivity. }
    specialize (Hf ts a' Ha). destruct (f a' (frame0 _)) as [[y st]|e] eqn:Ef; cbn [bnd fst snd]; [|exact Hf].
    destruct Hf as (u & Eg & [Hsu HFu] & (cts & outs & Hcts & Hevs & Hn) & _ & Hnu).
    pose proof (convert (sim_trace A HA L sm s ts) st _ _ HFu) as Hc. destruct (mapr (leaf_c (traceL L)) (leaves _ y)) as [ots|e] eqn:Eo.
    2:{ destruct Hc as (-> & He & _). cbn. left. exact (str_excused _ _ Hnu eq_refl He). }
    destruct Hc as (us & Hots & Hus & _). cbn [bnd]. destruct (to_atoms ots st) as [ats st1] eqn:Ea3.
    destruct (to_atoms_ok A L sm s ts ots st ats st1 cts outs us Ea3 Hots Hcts Hevs) as (F1 & F2 & cts' & F3 & F4).
    cbn [bnd]. unfold bind_staged. rewrite Exs. cbn [bnd]. set (j := {| j_eqns := f_eqns st1; j_outs := ats; j_nc := List.length (f_consts st1) |}).
    assert (Hj : fun_impl A j ((cts ++ cts') ++ ts) = Ret us).
    { unfold fun_impl. cbn [j_eqns j_outs j_nc j]. rewrite (F2_len _ _ _ F3), firstn_app, skipn_app, firstn_all, skipn_all, Nat.sub_diag. cbn [firstn skipn]. rewrite app_nil_r. cbn [List.app]. rewrite F1, (evs_more _ _ _ cts' _ _ _ Hevs). cbn [bnd]. exact F4. }
    pose proof (s_bind A L sm j s (f_consts st1 ++ xs) ((cts ++ cts') ++ ts) Hok (Forall2_app F3 Hxs)) as Hb. rewrite Hj in Hb. destruct (l_bind L j (f_consts st1 ++ xs) s) as [[ys s']|e]; [|contradiction]. destruct Hb as (Hys & Hok' & Hle). cbn [bnd fst snd].
    destruct (unfl_ok y (map (LV (X := C L)) ys)) as (w & Ew & Ew1 & Ew2); [rewrite map_length, (F2_len _ _ _ Hys), <- (F2_len _ _ _ Hus); symmetry; exact (F2_len _ _ _ HFu)|].
    rewrite Ew. cbn. exists u. split; [exact Eg|]. split; [|auto]. split; [rewrite Ew2; exact Hsu|]. rewrite Ew1. apply F2_map_l. clear -Hys Hus. revert ys Hys. induction Hus as [|m t ms us Hm _ IH]; intros ys Hys; inversion Hys; subst; constructor; auto.
    destruct Hm as [->|(p & -> & Hp)]; cbn; eauto.
  Qed.

  Lemma get_post {X Y} (P : X -> Y -> Prop) l m i : Forall2 P l m -> (exists v w, get l i = Ret v /\ get m i = Ret w /\ P v w /\ In w m) \/ (exists e, get l i = Raise e /\ get m i = Raise e).
  Proof. intros H. pose proof (F2_nth _ _ _ i H) as Hi. unfold get. destruct (nth_error l i) as [v|], (nth_error m i) as [w|] eqn:E; try contradiction; [left; exists v, w|right; eauto]. split; [reflexivity|]. split; [reflexivity|]. split; [exact Hi|]. eapply nth_error_In, E. Qed.
  (** *** the simulation *)
  Definition good (e : term) : Prop := forall cx, inside cx e = true -> forall L (sm : sim A L) s (env : list (val L)) (tenv : list U), ok sm s -> Forall2 (treeR A (R sm s)) env tenv -> kinds1 cx env -> kinds2 cx tenv ->
    post sm s (eval L e env s) (eval (algL A) (unmarked e) tenv tt).
  Lemma F2_nth_d {X Y} (P : X -> Y -> Prop) l m i d : Forall2 P l m -> forall y, nth_error m i = Some y -> P (nth i l d) y.
  Proof. intros H. revert i. induction H as [|x z l m Hx _ IH]; intros [|i] y E; cbn in *; try discriminate; [injection E as <-; exact Hx|exact (IH i y E)]. Qed.
  Lemma var_post L (sm : sim A L) s i cx (env : list (val L)) (tenv : list U) : ok sm s -> Forall2 (treeR A (R sm s)) env tenv -> kinds1 cx env -> kinds2 cx tenv ->
    postk sm s (nth i cx (false, true)) (eval L (TVar i) env s) (eval (algL A) (TVar i) tenv tt).
  Proof.
    intros Hok Henv H1 H2. cbn [eval]. unfold get. pose proof (F2_nth (X := val L) (Y := U) _ _ _ i Henv) as Hi. destruct (nth_error env i) as [v|] eqn:Ev, (nth_error tenv i) as [u|] eqn:Eu; try contradiction; cbn [rmap postk]; [|right; reflexivity].
    exists u. split; [reflexivity|]. split; [exact Hi|]. split; [exact Hok|]. split; [intros x t; auto|]. split; [exact (F2_nth_d _ _ _ i (false, true) H1 v Ev)|exact (F2_nth_d _ _ _ i (false, true) H2 u Eu)].
  Qed.
  Lemma inside_kind cx e : inside cx e = true -> strs = false -> snd (kind_of cx e) = true.
  Proof. destruct e as [i|[z|st]| | | | | |]; cbn; auto; intros H E; rewrite E in H; [exact H|discriminate]. Qed.
  Lemma one_post e cx : good e -> is_ref e || inside cx e = true -> forall L (sm : sim A L) s (env : list (val L)) (tenv : list U), ok sm s -> Forall2 (treeR A (R sm s)) env tenv -> kinds1 cx env -> kinds2 cx tenv ->
    postk sm s (kind_of cx e) (eval L e env s) (eval (algL A) (unmarked e) tenv tt).
  Proof.
    intros He Hin L sm s env tenv Hok Henv H1 H2. destruct (is_ref e) eqn:Er.
    - destruct e as [i|p| | | | | |]; try discriminate; [apply var_post; assumption|]. cbn [eval unmarked postk]. exists (Leaf (LPy p)). split; [reflexivity|]. split; [split; [reflexivity|constructor; [reflexivity|constructor]]|]. split; [exact Hok|]. split; [intros x t; auto|].
      split; [intros _; eauto|]. destruct p; cbn; [|discriminate]. intros _ _ st [H|[]]. discriminate.
    - cbn in Hin. specialize (He cx Hin L sm s env tenv Hok Henv H1 H2). destruct (eval L e env s) as [[y s']|er]; [|exact He]. destruct He as (u & H3 & H4 & H5 & H6 & H7). exists u. split; [exact H3|]. split; [exact H4|]. split; [exact H5|]. split; [exact H6|].
      split; [destruct e; cbn in *; discriminate|]. auto.
  Qed.
  Lemma evlist_post es cx : Forall good es -> forallb (fun e => is_ref e || inside cx e) es = true -> forall L (sm : sim A L) s (env : list (val L)) (tenv : list U), ok sm s -> Forall2 (treeR A (R sm s)) env tenv -> kinds1 cx env -> kinds2 cx tenv ->
    posts sm s (map (kind_of cx) es) (evlist L env es s) (evlist (algL A) tenv (map unmarked es) tt).
  Proof.
    induction 1 as [|e es He _ IH]; intros Hb L sm s env tenv Hok Henv Hk1 Hk2; cbn [evlist map]; [exists []; split; [reflexivity|]; split; [constructor|]; split; [exact Hok|]; split; [intros x t; auto|]; split; constructor|]. cbn [forallb] in Hb. apply andb_prop in Hb. destruct Hb as [Hb1 Hb2].
    pose proof (one_post e cx He Hb1 L sm s env tenv Hok Henv Hk1 Hk2) as H1. destruct (eval L e env s) as [[y s1]|er]; cbn [bnd fst snd].
    2:{ destruct H1 as [H1|H1]; [left; exact H1|]. rewrite H1. right. reflexivity. }
    destruct H1 as (u & -> & Hu & Hok1 & Hle1 & Hp1 & Hp2). cbn [bnd fst snd].
    specialize (IH Hb2 L sm s1 env tenv Hok1 (treesR_imp _ _ _ _ Hle1 Henv) Hk1 Hk2). destruct (evlist L env es s1) as [[ys s2]|er]; cbn [bnd fst snd].
    2:{ destruct IH as [IH|IH]; [left; exact IH|]. rewrite IH. right. reflexivity. }
    destruct IH as (us & -> & Hus & Hok2 & Hle2 & Hq1 & Hq2). cbn. exists (u :: us). split; [reflexivity|]. split; [constructor; [exact (treeR_imp _ _ _ _ Hle2 Hu)|exact Hus]|]. split; [exact Hok2|]. split; [intros x t H; apply Hle2, Hle1, H|]. split; constructor; auto.
  Qed.
  Lemma inside_refs cx es : forallb (inside cx) es = true -> forallb (fun e => is_ref e || inside cx e) es = true.
  Proof. rewrite !forallb_forall. intros H e He. rewrite (H e He). apply orb_true_r. Qed.
  Lemma inside_objects cx es us : forallb (inside cx) es = true -> kinds2 (X := T A) (map (kind_of cx) es) us -> strs = false -> Forall no_objects us.
  Proof. intros H Hk E. revert us Hk. induction es as [|e es IH]; intros us Hk; inversion Hk as [|? u ? us' Hu Hus]; subst; constructor; cbn in H; apply andb_prop in H; destruct H as [H1 H2]; [apply Hu; [exact E|apply inside_kind; assumption]|apply IH; assumption]. Qed.
  Lemma kinds1_any {X} (l : list term) (env : list (pytree (leaf X))) : List.length env = List.length l -> kinds1 (map (fun _ => (false, true)) l) env.
  Proof. revert env. induction l as [|e l IH]; intros [|v env] H; try discriminate; constructor; [discriminate|]. apply IH. cbn in H. lia. Qed.
  Lemma kinds2_any {X} (l : list term) (env : list (pytree (leaf X))) : List.length env = List.length l -> (strs = false -> Forall no_objects env) -> kinds2 (map (fun _ => (false, true)) l) env.
  Proof. revert env. induction l as [|e l IH]; intros [|v env] H Hn; try discriminate; constructor; [intros E _; specialize (Hn E); inversion Hn; assumption|]. apply IH; [cbn in H; lia|]. intros E. specialize (Hn E). inversion Hn. assumption. Qed.
  Lemma kinds1_outer {X} cx (env : list (pytree (leaf X))) : kinds1 cx env -> kinds1 cx (map outer env).
  Proof. induction 1 as [|k v cx env Hk _ IH]; constructor; [|exact IH]. intros E. destruct (Hk E) as [p ->]. exists p. reflexivity. Qed.
  Lemma operands_post {L} (sm : sim A L) s vs us : Forall2 (treeR A (R sm s)) vs us ->
    match mapr (operand L) vs, mapr (operand (algL A)) us with Ret xs, Ret ts => Forall2 (R sm s) xs ts | Raise e, Raise e' => e = e' | _, _ => False end.
  Proof.
    induction 1 as [|v u vs us Hv _ IH]; cbn [mapr]; [constructor|].
    destruct v as [l|d l]; [apply treeR_leaf_inv in Hv; destruct Hv as (b & -> & Hl)|apply treeR_node_inv in Hv; destruct Hv as (m & -> & _); reflexivity].
    assert (K : match operand L (Leaf l), operand (algL A) (Leaf b) with Ret x, Ret t => R sm s x t | Raise e, Raise e' => e = e' | _, _ => False end).
    { destruct l as [x|p], b as [t|q]; cbn in Hl; try contradiction; cbn; [exact Hl| |subst q; apply (s_lit A L sm)]. destruct Hl as (t & -> & Hx). exact Hx. }
    destruct (operand L (Leaf l)), (operand (algL A) (Leaf b)); cbn [bnd]; try contradiction; [|exact K].
    destruct (mapr (operand L) vs), (mapr (operand (algL A)) us); cbn [bnd]; try contradiction; [constructor; assumption|exact IH].
  Qed.
  Lemma post_le {L} (sm : sim A L) s s1 r g : le sm s s1 -> post sm s1 r g -> post sm s r g.
  Proof. intros H. destruct r as [[y s']|e]; cbn; [|auto]. intros (u & H1 & H2 & H3 & H4 & H5). exists u. repeat split; auto; try apply H2. intros x t Hx. apply H4, H, Hx. Qed.
  Lemma treeR_children {X} (P : X -> T A -> Prop) v d us : treeR A P v (Node d us) -> Forall2 (treeR A P) (children v) us.
  Proof. intros H. destruct v as [x|d' l]; [apply treeR_leaf_inv in H; destruct H as (b & E & _); discriminate|]. apply treeR_node_inv in H. destruct H as (m & E & H). injection E as _ <-. exact H. Qed.
  Lemma simulation e : good e.
  Proof using HA.
    induction e as [i|p|o es IH|d es IH|i e IH|c a b IHc IHa IHb|es IH|m body args kwargs IHb IHa IHk] using tind; intros cx Hin L sm s env tenv Hok Henv Hk1 Hk2.
    - pose proof (var_post L sm s i cx env tenv Hok Henv Hk1 Hk2) as H. change (eval (algL A) (unmarked (TVar i)) tenv tt) with (eval (algL A) (TVar i) tenv tt). destruct (eval L (TVar i) env s) as [[y s']|er]; [|exact H]. destruct H as (u & H3 & H4 & H5 & H6 & _ & H7). exists u. split; [exact H3|]. split; [exact H4|]. split; [exact H5|]. split; [exact H6|]. intros E. apply (H7 E). cbn in Hin. rewrite E in Hin. exact Hin.
    - cbn in *. exists (Leaf (LPy p)). split; [reflexivity|]. split; [split; [reflexivity|constructor; [reflexivity|constructor]]|]. split; [exact Hok|]. split; [intros x t; auto|]. intros E st [H|[]]. injection H as ->. congruence.
    - change (eval L (TPrim o es) env s) with (bnd (evlist L env es s) (fun r => bnd (mapr (operand L) (fst r)) (fun xs => bnd (l_prim L o xs (snd r)) (fun q => Ret (Node 0 (map (fun y => Leaf (LV y)) (fst q)), snd q))))).
      change (eval (algL A) (unmarked (TPrim o es)) tenv tt) with (bnd (evlist (algL A) tenv (map unmarked es) tt) (fun r => bnd (mapr (operand (algL A)) (fst r)) (fun xs => bnd (l_prim (algL A) o xs (snd r)) (fun q => Ret (Node 0 (map (fun y => Leaf (LV y)) (fst q)), snd q))))).
      pose proof (evlist_post es cx IH (inside_refs cx es Hin) L sm s env tenv Hok Henv Hk1 Hk2) as He. destruct (evlist L env es s) as [[vs s1]|e]; cbn [bnd fst snd].
      2:{ destruct He as [He|He]; [left; exact He|]. rewrite He. right. reflexivity. }
      destruct He as (us & -> & Hus & Hok1 & Hle1 & _). cbn [bnd fst snd]. pose proof (operands_post sm s1 _ _ Hus) as Ho.
      destruct (mapr (operand L) vs) as [xs|e], (mapr (operand (algL A)) us) as [ts|e']; cbn [bnd]; try contradiction; [|right; rewrite Ho; reflexivity].
      pose proof (s_prim A L sm o s1 xs ts Hok1 Ho) as Hp. destruct (l_prim L o xs s1) as [[ys s2]|e]; cbn [bnd l_prim algL] in *; [|cbn; destruct (primA A o ts); [contradiction|subst e; right; reflexivity]].
      destruct (primA A o ts) as [zs|]; [|contradiction]. destruct Hp as (Hys & Hok2 & Hle2). cbn. eexists. split; [reflexivity|]. split.
      + apply treeR_node. clear -Hys. induction Hys; cbn; constructor; auto. split; [reflexivity|]. constructor; [assumption|constructor].
      + split; [exact Hok2|]. split; [intros x t H; apply Hle2, Hle1, H|]. intros _ st Hst. cbn in Hst. apply in_flat_map in Hst. destruct Hst as (v & Hv & Hst). apply in_map_iff in Hv. destruct Hv as (z & <- & _). destruct Hst as [Hst|[]]. discriminate.
    - change (eval L (TNode d es) env s) with (bnd (evlist L env es s) (fun r => Ret (Node d (fst r), snd r))).
      change (eval (algL A) (unmarked (TNode d es)) tenv tt) with (bnd (evlist (algL A) tenv (map unmarked es) tt) (fun r => Ret (Node d (fst r), snd r))).
      pose proof (evlist_post es cx IH (inside_refs cx es Hin) L sm s env tenv Hok Henv Hk1 Hk2) as He. destruct (evlist L env es s) as [[vs s1]|e]; cbn [bnd fst snd].
      2:{ destruct He as [He|He]; [left; exact He|]. rewrite He. right. reflexivity. }
      destruct He as (us & -> & Hus & Hok1 & Hle1 & _ & Hn1). pose proof (inside_objects _ _ _ Hin Hn1) as Hn1'. clear Hn1. rename Hn1' into Hn1. cbn. eexists. split; [reflexivity|]. split; [apply treeR_node, Hus|]. split; [exact Hok1|]. split; [exact Hle1|]. intros E. apply no_obj_node, Hn1, E.
    - cbn [eval unmarked]. specialize (IH cx Hin L sm s env tenv Hok Henv Hk1 Hk2). destruct (eval L e env s) as [[v s1]|er]; cbn [bnd fst snd].
      2:{ destruct IH as [He|He]; [left; exact He|]. rewrite He. right. reflexivity. }
      destruct IH as (u & -> & Hu & Hok1 & Hle1 & Hn1). cbn [bnd fst snd]. destruct v as [l|d l]; [apply treeR_leaf_inv in Hu; destruct Hu as (b & -> & _); cbn; right; reflexivity|].
      apply treeR_node_inv in Hu. destruct Hu as (m & -> & Hm). destruct (@get_post (pytree (leaf (C L))) (pytree (leaf (C (algL A)))) _ l m i Hm) as [(v & w & Ev & Ew & Hi & HIn)|(e' & Ev & Ew)].
      + rewrite Ev. cbn [rmap post]. exists w. split; [exact (f_equal (rmap (fun v : U => (v, tt))) Ew)|]. split; [exact Hi|]. split; [exact Hok1|]. split; [exact Hle1|]. intros E. specialize (Hn1 E). apply no_obj_node in Hn1. rewrite Forall_forall in Hn1. apply Hn1, HIn.
      + rewrite Ev. cbn [rmap post]. right. exact (f_equal (rmap (fun v : U => (v, tt))) Ew).
    - cbn in Hin. apply andb_prop in Hin. destruct Hin as [Hin Hb]. apply andb_prop in Hin. destruct Hin as [Hin Ha]. apply andb_prop in Hin. destruct Hin as [Hifs Hc].
      cbn [eval unmarked]. pose proof (one_post c cx IHc Hc L sm s env tenv Hok Henv Hk1 Hk2) as H1. destruct (eval L c env s) as [[v s1]|er]; cbn [bnd fst snd].
      2:{ destruct H1 as [He|He]; [left; exact He|]. rewrite He. right. reflexivity. }
      destruct H1 as (u & -> & Hu & Hok1 & Hle1 & Hst & _). cbn [bnd fst snd].
      assert (K : forall t, post sm s (if t : bool then eval L a env s1 else eval L b env s1) (if t then eval (algL A) (unmarked a) tenv tt else eval (algL A) (unmarked b) tenv tt)).
      { intros [|]; apply (post_le sm s s1 _ _ Hle1); [apply (IHa cx)|apply (IHb cx)]; auto; exact (treesR_imp _ _ _ _ Hle1 Henv). }
      destruct v as [l|d l]; [apply treeR_leaf_inv in Hu; destruct Hu as (q & -> & Hq)|apply treeR_node_inv in Hu; destruct Hu as (m & -> & Hm)].
      + assert (Hx : forall x, l = LV x -> ifs = true). { intros x ->. destruct ifs; [reflexivity|]. cbn in Hifs. destruct (Hst Hifs) as [p E]. discriminate. }
        destruct l as [x|p], q as [t|p']; cbn in Hq; try contradiction; cbn [l_test algL].
        * destruct (s_test A L sm s1 x t Hq) as [E|E]; rewrite E; cbn [bnd]; [left; left; eauto|]. destruct (testA A t) as [r|er]; cbn [bnd]; [apply K|right; reflexivity].
        * destruct Hq as (t & Hp & Hxt). destruct (s_test A L sm s1 x t Hxt) as [E|E]; rewrite E; cbn [bnd]; [left; left; eauto|]. rewrite (v_test A HA p' t Hp). cbn [bnd]. apply K.
        * subst p'. cbn [bnd]. apply K.
      + cbn [bnd]. inversion Hm; subst; [exact (K false)|exact (K true)].
    - change (unmarked (TTie es)) with (TNode 0 (map unmarked es)).
      change (eval L (TTie es) env s) with (bnd (evlist L env es s) (fun r =>
        if Nat.leb (List.length (leaves _ (Node 0 (fst r)))) 1 then Ret (Node 0 (fst r), snd r)
        else bnd (l_tie L (leaves _ (Node 0 (fst r))) (snd r)) (fun q => bnd (unfl _ (structure _ (Node 0 (fst r))) (fst q)) (fun v => Ret (v, snd q))))).
      change (eval (algL A) (TNode 0 (map unmarked es)) tenv tt) with (bnd (evlist (algL A) tenv (map unmarked es) tt) (fun r => Ret (Node 0 (fst r), snd r))).
      pose proof (evlist_post es cx IH (inside_refs cx es Hin) L sm s env tenv Hok Henv Hk1 Hk2) as He. destruct (evlist L env es s) as [[vs s1]|e]; cbn [bnd fst snd].
      2:{ destruct He as [He|He]; [left; exact He|]. rewrite He. right. reflexivity. }
      destruct He as (us & -> & Hus & Hok1 & Hle1 & _ & Hn1). pose proof (inside_objects _ _ _ Hin Hn1) as Hn1'. clear Hn1. rename Hn1' into Hn1. cbn [bnd fst snd]. pose proof (treeR_node _ 0 _ _ Hus) as Ht.
      assert (Hn2 : strs = false -> no_objects (Node 0 us)) by (intros E; apply no_obj_node, Hn1, E).
      destruct (Nat.leb _ 1); [cbn; eexists; split; [reflexivity|]; auto|].
      destruct Ht as [Hst HF]. pose proof (s_tie A L sm s1 _ _ Hok1 HF) as Hti. destruct (l_tie L (leaves _ (Node 0 vs)) s1) as [[ls s2]|e]; cbn [bnd fst snd].
      2:{ destruct Hti as [E He]. left. exact (str_excused _ _ Hn2 E He). }
      destruct Hti as (Hls & Hok2 & Hle2). destruct (unfl_ok (Node 0 vs) ls) as (w & Ew & Ew1 & Ew2); [rewrite (F2_len _ _ _ Hls); symmetry; exact (F2_len _ _ _ HF)|]. rewrite Ew. cbn [bnd post]. eexists. split; [reflexivity|].
      split; [split; [rewrite Ew2; exact Hst|rewrite Ew1; exact Hls]|]. split; [exact Hok2|]. split; [intros x t H; apply Hle2, Hle1, H|exact Hn2].
    - assert (Hargs : forallb (fun e => is_ref e || inside cx e) args = true /\ forallb (fun e => is_ref e || inside cx e) kwargs = true).
      { destruct m as [| |nm]; cbn in Hin; apply andb_prop in Hin; destruct Hin as [Hin _]; apply andb_prop in Hin; destruct Hin as [Hin1 Hin2]; [auto|auto using inside_refs|]. apply andb_prop in Hin1. destruct Hin1 as [_ Hin1]. auto using inside_refs. }
      destruct Hargs as [Ha Hk].
      change (eval (algL A) (unmarked (TCall m body args kwargs)) tenv tt) with
        (bnd (evlist (algL A) tenv (map unmarked args) tt) (fun ra => bnd (evlist (algL A) tenv (map unmarked kwargs) (snd ra)) (fun rk => eval (algL A) (unmarked body) (fst ra ++ fst rk ++ tenv) (snd rk)))).
      set (rest := fun (vs ks : list (val L)) (s : St L) => match m with
        | Plain => eval L body (vs ++ ks ++ env) s
        | Initial => bnd (stage L (fun targs => eval (traceL L) body (children targs ++ map outer ks ++ map outer env)) (Node 0 vs)) (fun r => bind_staged L r (Node 0 vs) s)
        | Hop None => Raise NoName
        | Hop (Some _) =>
            let akw := Node 0 [Node 0 vs; Node 0 ks] in
            let split := fun (X : Type) (v : pytree X) => match v with Node _ [a; k] => children a ++ children k | _ => [] end in
            if l_stages L
            then bnd (stage L (fun targs => eval (traceL L) body (split _ targs ++ map outer env)) akw) (fun r => bind_staged L r akw s)
            else bnd (unfl _ (structure _ akw) (leaves _ akw)) (fun v => bnd (eval L body (split _ v ++ env) s) (fun r =>
                 bnd (unfl _ (structure _ (fst r)) (leaves _ (fst r))) (fun u => Ret (u, snd r))))
        end).
      change (eval L (TCall m body args kwargs) env s) with (bnd (evlist L env args s) (fun ra => bnd (evlist L env kwargs (snd ra)) (fun rk => rest (fst ra) (fst rk) (snd rk)))).
      pose proof (evlist_post args cx IHa Ha L sm s env tenv Hok Henv Hk1 Hk2) as He. destruct (evlist L env args s) as [[vs s1]|e]; cbn [bnd fst snd].
      2:{ destruct He as [He|He]; [left; exact He|]. rewrite He. right. reflexivity. }
      destruct He as (us & -> & Hus & Hok1 & Hle1 & Ha1 & Ha2). cbn [bnd fst snd]. pose proof (treesR_imp _ _ _ _ Hle1 Henv) as Henv1.
      pose proof (evlist_post kwargs cx IHk Hk L sm s1 env tenv Hok1 Henv1 Hk1 Hk2) as He. destruct (evlist L env kwargs s1) as [[ks s2]|e]; cbn [bnd fst snd].
      2:{ destruct He as [He|He]; [left; exact He|]. rewrite He. right. reflexivity. }
      destruct He as (ws & -> & Hws & Hok2 & Hle2 & Hw1 & Hw2). cbn [bnd fst snd]. pose proof (treesR_imp _ _ _ _ Hle2 Henv1) as Henv2. pose proof (treesR_imp _ _ _ _ Hle2 Hus) as Hus2.
      assert (Hle : le sm s s2) by (intros x t H; apply Hle2, Hle1, H). apply (post_le sm s s2 _ _ Hle). clear Hle Hle1 Hle2 Hus Henv Henv1 Hok Hok1.
      assert (Hla : List.length vs = List.length args) by (pose proof (F2_len _ _ _ Ha1) as E; rewrite map_length in E; auto).
      assert (Hlk : List.length ks = List.length kwargs) by (pose proof (F2_len _ _ _ Hw1) as E; rewrite map_length in E; auto).
      pose proof (F2_len _ _ _ Hus2) as Hlu. pose proof (F2_len _ _ _ Hws) as Hlw.
      unfold rest. clear rest. destruct m as [| |nm]; cbn in Hin; apply andb_prop in Hin; destruct Hin as [Hin Hb]; apply andb_prop in Hin; destruct Hin as [Hia Hik].
      + apply (IHb _ Hb); [exact Hok2| | |]; repeat (apply Forall2_app; [assumption|]); assumption.
      + pose proof (inside_objects _ _ _ Hia Ha2) as Hn1. apply (stage_post sm s2 (Node 0 vs) (Node 0 us)); [exact Hok2|apply treeR_node, Hus2|intros E; apply no_obj_node, Hn1, E|].
        intros ts a' Ha'. pose proof (treeR_children _ _ _ _ Ha') as Hch. pose proof (F2_len _ _ _ Hch) as Hlc. apply (IHb _ Hb); [apply okt0| | |].
        * apply Forall2_app; [exact Hch|]. apply Forall2_app; apply treesR_outer; assumption.
        * apply Forall2_app; [apply kinds1_any; exact (eq_trans Hlc (eq_trans (eq_sym Hlu) Hla))|]. apply Forall2_app; apply kinds1_outer; assumption.
        * apply Forall2_app; [apply kinds2_any; [exact (eq_trans (eq_sym Hlu) Hla)|exact Hn1]|]. apply Forall2_app; assumption.
      + apply andb_prop in Hia. destruct Hia as [Hm Hia]. destruct nm as [nm|]; [|left; unfold excused; auto].
        pose proof (inside_objects _ _ _ Hia Ha2) as Hn1. pose proof (inside_objects _ _ _ Hik Hw2) as Hn2. cbv zeta. set (akw := Node 0 [Node 0 vs; Node 0 ks]).
        assert (Hk2b : kinds2 (map (fun _ : term => (false, true)) args ++ map (fun _ : term => (false, true)) kwargs ++ cx) (us ++ ws ++ tenv)).
        { apply Forall2_app; [apply kinds2_any; [exact (eq_trans (eq_sym Hlu) Hla)|exact Hn1]|]. apply Forall2_app; [apply kinds2_any; [exact (eq_trans (eq_sym Hlw) Hlk)|exact Hn2]|exact Hk2]. }
        destruct (l_stages L).
        * apply (stage_post sm s2 akw (Node 0 [Node 0 us; Node 0 ws])); [exact Hok2| | |].
          -- apply treeR_node. constructor; [apply treeR_node, Hus2|]. constructor; [apply treeR_node, Hws|constructor].
          -- intros E. apply no_obj_node. constructor; [apply no_obj_node, Hn1, E|]. constructor; [apply no_obj_node, Hn2, E|constructor].
          -- intros ts a' Ha'.
             pose proof (treeR_children _ _ _ _ Ha') as Hch. destruct a' as [x|d' l']; [apply treeR_leaf_inv in Ha'; destruct Ha' as (b & E & _); discriminate|]. cbn in Hch. inversion Hch as [|x1 ? l1 ? Hx1 Hl1]; subst. inversion Hl1 as [|x2 ? l2 ? Hx2 Hl2]; subst. inversion Hl2; subst.
             pose proof (treeR_children _ _ _ _ Hx1) as Hc1. pose proof (treeR_children _ _ _ _ Hx2) as Hc2. pose proof (F2_len _ _ _ Hc1) as Hlc1. pose proof (F2_len _ _ _ Hc2) as Hlc2. rewrite <- app_assoc. apply (IHb _ Hb); [apply okt0| | |exact Hk2b].
             ++ apply Forall2_app; [exact Hc1|]. apply Forall2_app; [exact Hc2|apply treesR_outer; assumption].
             ++ apply Forall2_app; [apply kinds1_any; exact (eq_trans Hlc1 (eq_trans (eq_sym Hlu) Hla))|]. apply Forall2_app; [apply kinds1_any; exact (eq_trans Hlc2 (eq_trans (eq_sym Hlw) Hlk))|apply kinds1_outer; assumption].
        * rewrite unfl_same. cbn [bnd akw children]. rewrite <- app_assoc.
          assert (Hbd : post sm s2 (eval L body (vs ++ ks ++ env) s2) (eval (algL A) (unmarked body) (us ++ ws ++ tenv) tt)).
          { apply (IHb _ Hb); [exact Hok2| | |exact Hk2b]; [repeat (apply Forall2_app; [assumption|]); assumption|]. apply Forall2_app; [apply kinds1_any; exact Hla|]. apply Forall2_app; [apply kinds1_any; exact Hlk|assumption]. }
          assert (K : forall (r : res (val L * St L)) g, post sm s2 r g -> post sm s2 (bnd r (fun r => bnd (unfl _ (structure _ (fst r)) (leaves _ (fst r))) (fun u => Ret (u, snd r)))) g).
          { intros [[y s3]|e] g Hr; cbn [bnd fst snd]; [|exact Hr]. rewrite unfl_same. exact Hr. }
          exact (K _ _ Hbd).
  Qed.
End props.

Section theorems.
  Context {OP : Ops}.
  Lemma within_all e : forall cx, within true true true cx e = true.
  Proof.
    induction e as [i|p|o es IH|d es IH|i e IH|c a b IHc IHa IHb|es IH|m b args kwargs IHb IHa IHk] using tind; intros cx; cbn; auto.
    - destruct p; reflexivity.
    - apply forallb_forall. rewrite Forall_forall in IH. auto.
    - apply forallb_forall. rewrite Forall_forall in IH. auto.
    - rewrite IHc, IHa, IHb, orb_true_r. reflexivity.
    - apply forallb_forall. rewrite Forall_forall in IH. auto.
    - rewrite Forall_forall in IHa, IHk.
      assert (K1 : forall l, (forall x, In x l -> forall cx, within true true true cx x = true) -> forallb (within true true true cx) l = true) by (intros l H; apply forallb_forall; auto).
      assert (K2 : forall l, (forall x, In x l -> forall cx, within true true true cx x = true) -> forallb (fun e => is_ref e || within true true true cx e) l = true) by (intros l H; apply forallb_forall; intros x Hx; rewrite (H x Hx), orb_true_r; reflexivity).
      destruct m as [| |[nm|]]; rewrite ?(K1 args IHa), ?(K1 kwargs IHk), ?(K2 args IHa), ?(K2 kwargs IHk), ?IHb; reflexivity.
  Qed.
  Definition unknown {X} (env : list X) : list kind := map (fun _ => (false, true)) env.
  Lemma kinds1_unknown {X} (env : list (pytree (leaf X))) : kinds1 (unknown env) env.
  Proof. unfold unknown, kinds1. induction env; constructor; [discriminate|assumption]. Qed.
  Lemma kinds2_unknown {X} strs (cx0 : list X) (env : list (pytree (leaf X))) : strs = true \/ Forall no_objects env -> kinds2 strs (unknown env) env.
  Proof. unfold unknown, kinds2. intros H. induction env; constructor; [intros E _; destruct H as [H|H]; [congruence|inversion H; assumption]|]. apply IHenv. destruct H as [H|H]; [auto|right; inversion H; assumption]. Qed.

  (** evaluation at a level [B] that maps to [A] by [h] *)
  Section level.
  Variables (A B : alg) (h : T B -> T A).
  Hypothesis HA : valid A.
  Hypothesis HB : hom A B h.
  Lemma through_rel v : treeR A (fun x t => h x = t) v (through (A := A) (B := B) h v).
  Proof. destruct (tmap_shape (lmap h) v) as [E1 E2]. unfold through. split; [rewrite E1; reflexivity|]. rewrite E2. clear E1 E2. induction (leaves (leaf (T B)) v) as [|[x|p] l IH]; cbn; [constructor|constructor; [reflexivity|exact IH]|constructor; [reflexivity|exact IH]]. Qed.
  Lemma rel_same v u : treeR A (fun x t => h x = t) v u -> same A (through (A := A) (B := B) h v) u.
  Proof. intros [E F]. destruct (tmap_shape (lmap h) v) as [E1 E2]. split; [exact (eq_trans E1 E)|]. refine (eq_ind_r (fun l => Forall2 (same_leaf A) l (leaves _ u)) _ E2). apply F2_map_l. revert F. apply F2_imp. intros [x|p] [t|q]; cbn; try contradiction; [intros ->; left; reflexivity| |intros ->; left; reflexivity]. intros (t & Hp & <-). right. eauto. Qed.
  Lemma throughs_rel env : Forall2 (treeR A (fun x t => h x = t)) env (map (through (A := A) (B := B) h) env).
  Proof. induction env as [|v env IH]; constructor; [apply through_rel|exact IH]. Qed.
  Lemma through_objects v : no_objects v -> no_objects (through (A := A) (B := B) h v).
  Proof. intros H st Hst. pose proof (eq_ind _ (fun l => In (LPy (PStr st)) l) Hst _ (proj2 (tmap_shape (lmap h) v))) as Hst'. clear Hst. apply in_map_iff in Hst'. rename Hst' into Hst. destruct Hst as ([x|p] & E & Hin); [discriminate|]. injection E as ->. exact (H st Hin). Qed.
  Lemma throughs_kinds2 strs env : strs = true \/ Forall no_objects env -> kinds2 strs (unknown env) (map (through (A := A) (B := B) h) env).
  Proof.
    intros H. induction env as [|v env IH]; cbn; constructor.
    - intros E _. destruct H as [H|H]; [congruence|]. inversion H; subst. apply through_objects. assumption.
    - apply IH. destruct H as [H|H]; [auto|right; inversion H; assumption].
  Qed.
  Definition agree (r : res (val (algL B))) (g : res (val (algL A))) : Prop :=
    match r, g with Ret y, Ret u => same A (through (A := A) (B := B) h y) u | Raise e, Raise e' => e = e' | _, _ => False end.
  Definition may_refuse (r : res (val (algL B))) (g : res (val (algL A))) : Prop :=
    match r with Raise e => e = Concretization \/ e = NotAnArray \/ e = NoName \/ g = Raise e | Ret y => exists u, g = Ret u /\ same A (through (A := A) (B := B) h y) u end.
  Lemma post_run i st un (s : St (algL B)) r g : post A i st un (sim_hom A B h HB) s r g ->
    (match rmap fst r with Ret y => exists u, rmap fst g = Ret u /\ same A (through (A := A) (B := B) h y) u | Raise e => excused i st un e \/ rmap fst g = Raise e end).
  Proof. destruct r as [[y s']|e]; cbn; [intros (u & -> & Hu & _); exists u; split; [reflexivity|apply rel_same, Hu]|]. intros [He| ->]; auto. Qed.
  Lemma run_post i st un e env : within i st un (unknown env) e = true -> st = true \/ Forall no_objects env ->
    (match run B e env with Ret y => exists u, run A (unmarked e) (map (through (A := A) (B := B) h) env) = Ret u /\ same A (through (A := A) (B := B) h y) u | Raise e0 => excused i st un e0 \/ run A (unmarked e) (map (through (A := A) (B := B) h) env) = Raise e0 end).
  Proof using HA HB. intros Hin Hns. apply (post_run i st un tt). apply (simulation A HA i st un e (unknown env) Hin (algL B) (sim_hom A B h HB)); [exact I|apply throughs_rel|apply kinds1_unknown|apply throughs_kinds2, Hns]. Qed.
  Lemma jit_post i st un e env : within i st un (unknown env) e = true -> st = true \/ Forall no_objects env ->
    (match run_jit B e env with Ret y => exists u, run A (unmarked e) (map (through (A := A) (B := B) h) env) = Ret u /\ same A (through (A := A) (B := B) h y) u | Raise e0 => excused i st un e0 \/ run A (unmarked e) (map (through (A := A) (B := B) h) env) = Raise e0 end).
  Proof using HA HB.
    intros Hin Hns. unfold run_jit.
    assert (E : forall (r : res (jaxpr * treedef * list (T B))), bnd r (fun r => rmap fst (bind_staged (algL B) r (Node 0 env) tt)) = rmap fst (bnd r (fun r => bind_staged (algL B) r (Node 0 env) tt))) by (intros [r|e0]; reflexivity).
    rewrite E. clear E. apply (post_run i st un tt). apply (stage_post A HA i st un (sim_hom A B h HB) tt (Node 0 env) (Node 0 (map (through (A := A) (B := B) h) env))); [exact I|apply treeR_node, throughs_rel| |].
    - intros E. apply no_obj_node. destruct Hns as [Hns|Hns]; [congruence|]. clear -Hns. induction Hns; constructor; [apply through_objects|]; assumption.
    - intros ts a' Ha'. pose proof (treeR_children _ _ _ _ _ Ha') as Hch. apply (simulation A HA i st un e (unknown env) Hin); [apply okt0|exact Hch| |apply throughs_kinds2, Hns].
      pose proof (F2_len _ _ _ Hch) as Hl. rewrite map_length in Hl. clear -Hl. revert Hl. generalize (children a'). unfold unknown. induction env as [|v env IH]; intros [|w l] Hl; try discriminate; constructor; [discriminate|]. apply IH. cbn in Hl. injection Hl as Hl. exact Hl.
  Qed.
  Lemma excused_all e : excused true true true e -> e = Concretization \/ e = NotAnArray \/ e = NoName.
  Proof. unfold excused. intuition. Qed.
  Lemma excused_none e : ~ excused false false false e.
  Proof. unfold excused. intros [[H _]|[[H _]|[H _]]]; discriminate. Qed.
  Theorem C79_level e env : may_refuse (run B e env) (run A (unmarked e) (map (through (A := A) (B := B) h) env)).
  Proof using HA HB. pose proof (run_post true true true e env (within_all e _) (or_introl eq_refl)) as H. unfold may_refuse. destruct (run B e env); [exact H|]. destruct H as [H|H]; [apply excused_all in H; tauto|auto]. Qed.
  Theorem C79_level_jit e env : may_refuse (run_jit B e env) (run A (unmarked e) (map (through (A := A) (B := B) h) env)).
  Proof using HA HB. pose proof (jit_post true true true e env (within_all e _) (or_introl eq_refl)) as H. unfold may_refuse. destruct (run_jit B e env); [exact H|]. destruct H as [H|H]; [apply excused_all in H; tauto|auto]. Qed.
  Theorem C79_level_exact e env : within false false false (unknown env) e = true -> Forall no_objects env -> agree (run B e env) (run A (unmarked e) (map (through (A := A) (B := B) h) env)).
  Proof using HA HB. intros Hin Hns. pose proof (run_post false false false e env Hin (or_intror Hns)) as H. unfold agree. destruct (run B e env); [destruct H as (u & -> & H); exact H|]. destruct H as [H| ->]; [destruct (excused_none _ H)|reflexivity]. Qed.
  Theorem C79_level_jit_exact e env : within false false false (unknown env) e = true -> Forall no_objects env -> agree (run_jit B e env) (run A (unmarked e) (map (through (A := A) (B := B) h) env)).
  Proof using HA HB. intros Hin Hns. pose proof (jit_post false false false e env Hin (or_intror Hns)) as H. unfold agree. destruct (run_jit B e env); [destruct H as (u & -> & H); exact H|]. destruct H as [H| ->]; [destruct (excused_none _ H)|reflexivity]. Qed.
  End level.

  (** ** the properties *)
  Section here.
  Variable A : alg.
  Hypothesis HA : valid A.
  Lemma hom_id : hom A A (fun x => x).
  Proof. constructor; auto; [intros p; destruct (litA A p); reflexivity|]. intros o xs. rewrite map_id. destruct (primA A o xs); cbn; [rewrite map_id|]; reflexivity. Qed.
  Lemma tmap_id {X} (f : X -> X) v : (forall x, f x = x) -> tmap f v = v.
  Proof. intros H. induction v as [x|d l IH] using ptind; cbn; [rewrite H; reflexivity|]. f_equal. induction IH as [|v l Hv _ IHl]; cbn; [reflexivity|]. rewrite Hv, IHl. reflexivity. Qed.
  Lemma through_id v : through (A := A) (B := A) (fun x => x) v = v.
  Proof. apply tmap_id. intros [x|p]; reflexivity. Qed.
  Lemma throughs_id env : map (through (A := A) (B := A) (fun x => x)) env = env.
  Proof. induction env as [|v env IH]; cbn; [reflexivity|]. rewrite through_id, IH. reflexivity. Qed.
  (** a program with primitives bound to functions returns what the program without them returns; it may instead refuse to
      be staged: a branch on an argument, an argument or result that is no array, a function without a name *)
  Theorem C79_transparent e env :
    match run A e env with
    | Ret y => exists u, run A (unmarked e) env = Ret u /\ same A y u
    | Raise er => er = Concretization \/ er = NotAnArray \/ er = NoName \/ run A (unmarked e) env = Raise er
    end.
  Proof using HA. pose proof (C79_level A A _ HA hom_id e env) as H. rewrite throughs_id in H. unfold may_refuse in H. destruct (run A e env); [|exact H]. rewrite through_id in H. exact H. Qed.
  Theorem C79_jit e env :
    match run_jit A e env with
    | Ret y => exists u, run A (unmarked e) env = Ret u /\ same A y u
    | Raise er => er = Concretization \/ er = NotAnArray \/ er = NoName \/ run A (unmarked e) env = Raise er
    end.
  Proof using HA. pose proof (C79_level_jit A A _ HA hom_id e env) as H. rewrite throughs_id in H. unfold may_refuse in H. destruct (run_jit A e env); [|exact H]. rewrite through_id in H. exact H. Qed.
  (** without such a reason to refuse, the two agree, exceptions included, eagerly and under jit *)
  Theorem C79_exact e env : within false false false (unknown env) e = true -> Forall no_objects env ->
    match run A e env, run A (unmarked e) env with Ret y, Ret u => same A y u | Raise er, Raise er' => er = er' | _, _ => False end.
  Proof using HA. intros H1 H2. pose proof (C79_level_exact A A _ HA hom_id e env H1 H2) as H. rewrite throughs_id in H. unfold agree in H. destruct (run A e env), (run A (unmarked e) env); try exact H. rewrite through_id in H. exact H. Qed.
  Theorem C79_jit_exact e env : within false false false (unknown env) e = true -> Forall no_objects env ->
    match run_jit A e env, run A (unmarked e) env with Ret y, Ret u => same A y u | Raise er, Raise er' => er = er' | _, _ => False end.
  Proof using HA. intros H1 H2. pose proof (C79_level_jit_exact A A _ HA hom_id e env H1 H2) as H. rewrite throughs_id in H. unfold agree in H. destruct (run_jit A e env), (run A (unmarked e) env); try exact H. rewrite through_id in H. exact H. Qed.
  (** *** differentiated: the derivative is that of the function, the primal outputs are its outputs *)
  Variable rule : op -> list (T A * option (T A)) -> res (list (T A * option (T A))).
  Hypothesis Hrule : forall o xs, rmap (map fst) (rule o xs) = primA A o (map fst xs).
  Lemma hom_jvp : hom A (jvp_alg A rule) fst.
  Proof using Hrule. constructor; cbn; auto. intros p. destruct (litA A p); reflexivity. Qed.
  Lemma valid_jvp : valid (jvp_alg A rule).
  Proof using HA Hrule.
    constructor; cbn.
    - intros o xs. transitivity (absop o (map (av A) (map fst xs))); [|rewrite map_map; reflexivity]. rewrite <- (v_prim A HA o), <- Hrule. destruct (rule o xs); cbn; [rewrite map_map|]; reflexivity.
    - intros p. rewrite <- (v_lit A HA). destruct (litA A p); reflexivity.
    - intros p t. destruct (litA A p) as [t'|] eqn:E; cbn; [|discriminate]. intros H. injection H as <-. cbn. apply (v_test A HA p), E.
  Qed.
  End here.
  Theorem C79_jvp A rule (HA : valid A) (Hrule : forall o xs, rmap (map fst) (rule o xs) = primA A o (map fst xs)) e env :
    within false false false (unknown env) e = true -> Forall no_objects env ->
    match run (jvp_alg A rule) e env, run (jvp_alg A rule) (unmarked e) env with Ret y, Ret u => same (jvp_alg A rule) y u | Raise er, Raise er' => er = er' | _, _ => False end.
  Proof. apply C79_exact, valid_jvp; assumption. Qed.
  Theorem C79_jvp_primal A rule (HA : valid A) (Hrule : forall o xs, rmap (map fst) (rule o xs) = primA A o (map fst xs)) e env :
    within false false false (unknown env) e = true -> Forall no_objects env ->
    match run (jvp_alg A rule) e env, run A (unmarked e) (map (through (A := A) (B := jvp_alg A rule) fst) env) with
    | Ret y, Ret u => same A (through (A := A) (B := jvp_alg A rule) fst y) u | Raise er, Raise er' => er = er' | _, _ => False end.
  Proof. apply (C79_level_exact A (jvp_alg A rule) fst HA (hom_jvp A rule Hrule)). Qed.
  (** *** batched: example [i] of the batched program is the program on example [i] *)
  Theorem C79_vmap A B (example : nat -> T B -> T A) (HA : valid A) i (HB : hom A B (example i)) e env :
    within false false false (unknown env) e = true -> Forall no_objects env ->
    match run B e env, run A (unmarked e) (map (through (A := A) (B := B) (example i)) env) with
    | Ret y, Ret u => same A (through (A := A) (B := B) (example i) y) u | Raise er, Raise er' => er = er' | _, _ => False end.
  Proof. apply (C79_level_exact A B (example i) HA HB). Qed.
End theorems.

(** ** examples: vectors of integers *)
  Inductive vop := Add | Mul | Dup.
  Definition vshape (o : vop) (l : list nat) : res (list nat) :=
    match o, l with Add, [a; b] | Mul, [a; b] => if Nat.eqb a b then Ret [a] else Raise (OtherErr 9) | Dup, [a] => Ret [a; a] | _, _ => Raise (OtherErr 8) end.
  #[global] Instance VO : Ops := {| op := vop; shape := nat; scalar := 1; absop := vshape |}.
  Definition zip (f : Z -> Z -> Z) (a b : list Z) := map (fun p => f (fst p) (snd p)) (combine a b).
  Definition vprim (o : vop) (l : list (list Z)) : res (list (list Z)) :=
    match o, l with Add, [a; b] => if Nat.eqb (List.length a) (List.length b) then Ret [zip Z.add a b] else Raise (OtherErr 9)
                  | Mul, [a; b] => if Nat.eqb (List.length a) (List.length b) then Ret [zip Z.mul a b] else Raise (OtherErr 9)
                  | Dup, [a] => Ret [a; a] | _, _ => Raise (OtherErr 8) end.
  Definition vlit (p : py) : res (list Z) := match p with PNum z => Ret [z] | PStr _ => Raise NotAnArray end.
  Definition vtest (t : list Z) : res bool := match t with [z] => Ret (negb (Z.eqb z 0)) | _ => Raise (OtherErr 7) end.
  Definition VA : alg := {| T := list Z; av := @List.length Z; litA := vlit; primA := vprim; testA := vtest |}.
  Lemma zip_len f a b : List.length a = List.length b -> List.length (zip f a b) = List.length a.
  Proof. intros H. unfold zip. rewrite map_length, combine_length. lia. Qed.
  Lemma VA_valid : valid VA.
  Proof.
    constructor.
    - intros o xs. destruct o; destruct xs as [|a [|b [|? ?]]]; cbn; try reflexivity; destruct (Nat.eqb_spec (List.length a) (List.length b)) as [E|]; cbn; rewrite ?zip_len by exact E; reflexivity.
    - intros [z|st]; reflexivity.
    - intros [z|st] t H; cbn in H; [|discriminate]. injection H as <-. reflexivity.
  Qed.
  (** JVP rules *)
  Definition tan (p : list Z) (t : option (list Z)) : list Z := match t with Some t => t | None => map (fun _ => 0%Z) p end.
  Definition vjvp (o : vop) (l : list (list Z * option (list Z))) : res (list (list Z * option (list Z))) :=
    match o, l with
    | Add, [(a, da); (b, db)] => if Nat.eqb (List.length a) (List.length b) then Ret [(zip Z.add a b, Some (zip Z.add (tan a da) (tan b db)))] else Raise (OtherErr 9)
    | Mul, [(a, da); (b, db)] => if Nat.eqb (List.length a) (List.length b) then Ret [(zip Z.mul a b, Some (zip Z.add (zip Z.mul (tan a da) b) (zip Z.mul a (tan b db))))] else Raise (OtherErr 9)
    | Dup, [a] => Ret [a; a] | _, _ => Raise (OtherErr 8)
    end.
  Lemma vjvp_ok o xs : rmap (map fst) (vjvp o xs) = primA VA o (map fst xs).
  Proof. destruct o; destruct xs as [|[a da] [|[b db] [|? ?]]]; cbn; try reflexivity; destruct (Nat.eqb (List.length a) (List.length b)); reflexivity. Qed.
  (** a batch of two examples of the same shape *)
  Definition PA : alg := {| T := {p : list Z * list Z | List.length (fst p) = List.length (snd p)}; av := fun x => List.length (fst (proj1_sig x)); litA := fun p => match p with PNum z => Ret (exist _ ([z], [z]) eq_refl) | PStr _ => Raise NotAnArray end;
    primA := fun o l => match o, l with
      | Add, [a; b] => match Nat.eq_dec (List.length (fst (proj1_sig a))) (List.length (fst (proj1_sig b))) with
                       | left E => Ret [exist _ (zip Z.add (fst (proj1_sig a)) (fst (proj1_sig b)), zip Z.add (snd (proj1_sig a)) (snd (proj1_sig b)))
                           (eq_trans (zip_len _ _ _ E) (eq_trans (proj2_sig a) (eq_sym (zip_len _ _ _ (eq_trans (eq_sym (proj2_sig a)) (eq_trans E (proj2_sig b)))))))]
                       | right _ => Raise (OtherErr 9) end
      | Mul, [a; b] => match Nat.eq_dec (List.length (fst (proj1_sig a))) (List.length (fst (proj1_sig b))) with
                       | left E => Ret [exist _ (zip Z.mul (fst (proj1_sig a)) (fst (proj1_sig b)), zip Z.mul (snd (proj1_sig a)) (snd (proj1_sig b)))
                           (eq_trans (zip_len _ _ _ E) (eq_trans (proj2_sig a) (eq_sym (zip_len _ _ _ (eq_trans (eq_sym (proj2_sig a)) (eq_trans E (proj2_sig b)))))))]
                       | right _ => Raise (OtherErr 9) end
      | Dup, [a] => Ret [a; a] | _, _ => Raise (OtherErr 8) end;
    testA := fun _ => Raise Concretization |}.
  Definition pick (i : nat) (x : T PA) : T VA := if Nat.eqb i 0 then fst (proj1_sig x) else snd (proj1_sig x).
  Lemma PA_hom i : hom VA PA (pick i).
  Proof.
    constructor.
    - intros [p E]. unfold pick. destruct (Nat.eqb i 0); cbn; congruence.
    - intros [z|st]; cbn; [|reflexivity]. unfold pick. destruct (Nat.eqb i 0); reflexivity.
    - intros o xs. destruct o; destruct xs as [|[a Ea] [|[b Eb] [|? ?]]]; cbn; try reflexivity;
        destruct (Nat.eq_dec (List.length (fst a)) (List.length (fst b))) as [E|E]; unfold pick; destruct (Nat.eqb i 0); cbn;
        try (rewrite E, Nat.eqb_refl; reflexivity); try (assert (E2 : List.length (snd a) = List.length (snd b)) by congruence; rewrite E2, Nat.eqb_refl; reflexivity);
        try (apply Nat.eqb_neq in E; rewrite E; reflexivity); (assert (E2 : List.length (snd a) <> List.length (snd b)) by congruence; apply Nat.eqb_neq in E2; rewrite E2; reflexivity).
    - intros x. left. reflexivity.
  Qed.
  (** direction-dependent function, as bijectors: if direction: x * c else x + c, with c captured, called by keyword *)
  Definition biject (d : term) : term := TCall Initial (TIf (TVar 1) (TGet 0 (TPrim Mul [TVar 0; TVar 4])) (TGet 0 (TPrim Add [TVar 0; TVar 4]))) [TVar 1] [d].
  (** inside a custom inverse of a plate, tied to its input *)
  Definition prog1 : term := TCall (Hop (Some "plate")) (TCall Initial (TTie [biject (TPy (PStr "forward")); TVar 0]) [TVar 0] []) [TVar 0; TVar 1] [].
  Definition vec (l : list Z) : pytree (leaf (list Z)) := Leaf (LV l).
  Example prog1_runs : within false false false (unknown [vec [2; 3]%Z; vec [5; 7]%Z]) prog1 = true /\ Forall no_objects [vec [2; 3]%Z; vec [5; 7]%Z] /\
    run VA prog1 [vec [2; 3]%Z; vec [5; 7]%Z] = Ret (Node 0 [Leaf (LV [10; 21]%Z); Leaf (LV [2; 3]%Z)]) /\
    run_jit VA prog1 [vec [2; 3]%Z; vec [5; 7]%Z] = Ret (Node 0 [Leaf (LV [10; 21]%Z); Leaf (LV [2; 3]%Z)]) /\
    run (jvp_alg VA vjvp) prog1 [Leaf (LV ([2; 3], Some [1; 0])%Z); Leaf (LV ([5; 7], None)%Z)] = Ret (Node 0 [Leaf (LV ([10; 21], Some [5; 0])%Z); Leaf (LV ([2; 3], Some [1; 0])%Z)]).
  Proof. split; [reflexivity|]. split; [repeat constructor; intros st [H|[]]; discriminate|]. repeat split. Qed.

(** what keeps the general statement from being an equality: bound functions are staged *)
(** a function that branches on a Python argument works, marked it works with the argument as keyword only, and in a plate
    (call_bind) eagerly but not under jit *)
Definition gate (m : mark) (args kwargs : list term) : term := TCall m (TIf (TVar 0) (TPy (PNum 1)) (TPy (PNum 2))) args kwargs.
Theorem C79_branch_refuted :
  run VA (gate Plain [TPy (PNum 1)] []) [] = Ret (Leaf (LPy (PNum 1))) /\
  run VA (gate Initial [TPy (PNum 1)] []) [] = Raise Concretization /\
  run VA (gate Initial [] [TPy (PNum 1)]) [] = Ret (Leaf (LV [1%Z])) /\
  run VA (gate (Hop (Some "f")) [] [TPy (PNum 1)]) [] = Ret (Leaf (LPy (PNum 1))) /\
  run_jit VA (gate (Hop (Some "f")) [] [TPy (PNum 1)]) [] = Raise Concretization /\
  run_jit VA (gate Plain [] [TPy (PNum 1)]) [] = Ret (Leaf (LV [1%Z])).
Proof. repeat split. Qed.
(** objects that are no arrays are accepted as keyword arguments of initial_style_bind, not as arguments; call_bind needs a name *)
Theorem C79_objects_refuted :
  run VA (gate Plain [TPy (PStr "a")] []) [] = Ret (Leaf (LPy (PNum 1))) /\
  run VA (gate Initial [TPy (PStr "a")] []) [] = Raise NotAnArray /\
  run VA (gate Initial [] [TPy (PStr "a")]) [] = Ret (Leaf (LV [1%Z])) /\
  run VA (gate (Hop None) [TPy (PStr "a")] []) [] = Raise NoName.
Proof. repeat split. Qed.
