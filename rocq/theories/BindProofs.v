(** C79: proofs.  A staging trace over a level that simulates an algebra simulates it too. *)
From Coq Require Import List ZArith String Bool Lia.
From Verif Require Import UtilModel UtilProps BindModel.
Import ListNotations.
Open Scope string_scope. Open Scope list_scope. Open Scope nat_scope.
Arguments TrArg {OP X} _ _. Arguments TrEqn {OP X} _ _. Arguments TrLit {OP X} _ _. Arguments TrOut {OP X} _.
Arguments f_eqns {OP X} _. Arguments f_n {OP X} _. Arguments f_consts {OP X} _.

Lemma F2_len {X Y} (P : X -> Y -> Prop) l m : Forall2 P l m -> List.length l = List.length m.
Proof. induction 1; cbn; congruence. Qed.
Lemma F2_imp {X Y} (P Q : X -> Y -> Prop) l m : (forall x y, P x y -> Q x y) -> Forall2 P l m -> Forall2 Q l m.
Proof. intros H. induction 1; constructor; auto. Qed.
Lemma F2_eq {X} (l m : list X) : Forall2 (fun x t => x = t) l m -> l = m.
Proof. induction 1; congruence. Qed.
Lemma F2_fun {X Y} (P : X -> Y -> Prop) l : (forall x y z, P x y -> P x z -> y = z) -> forall m k, Forall2 P l m -> Forall2 P l k -> m = k.
Proof. intros H. induction l as [|x l IH]; intros m k Hm Hk; inversion Hm; inversion Hk; subst; [reflexivity|]. f_equal; eauto. Qed.
Lemma F2_nth {X Y} (P : X -> Y -> Prop) l m i : Forall2 P l m -> match nth_error l i, nth_error m i with Some x, Some y => P x y | None, None => True | _, _ => False end.
Proof. intros H. revert i. induction H; intros [|i]; cbn; auto. apply IHForall2. Qed.
Lemma F2_map_l {X Y Z} (P : Z -> Y -> Prop) (f : X -> Z) l m : Forall2 (fun x => P (f x)) l m -> Forall2 P (map f l) m.
Proof. induction 1; constructor; auto. Qed.
Lemma F2_split {X Y} (P : X -> Y -> Prop) a b m : Forall2 P (a ++ b) m -> exists m1 m2, m = m1 ++ m2 /\ Forall2 P a m1 /\ Forall2 P b m2.
Proof. intros H. apply Forall2_app_inv_l in H. destruct H as (m1 & m2 & H1 & H2 & ->). eauto. Qed.
Lemma app_len_inj {X} (a b c d : list X) : List.length a = List.length c -> a ++ b = c ++ d -> a = c /\ b = d.
Proof. revert c. induction a as [|x a IH]; intros [|y c] H E; cbn in *; try discriminate; [auto|]. injection E as -> E. destruct (IH c); [lia|exact E|]. subst. auto. Qed.
Lemma mapr_app {X Y} (f : X -> res Y) l m : mapr f (l ++ m) = bnd (mapr f l) (fun a => bnd (mapr f m) (fun b => Ret (a ++ b))).
Proof. induction l as [|x l IH]; cbn; [destruct (mapr f m); reflexivity|]. destruct (f x); cbn; [|reflexivity]. rewrite IH. destruct (mapr f l); cbn; [|reflexivity]. destruct (mapr f m); reflexivity. Qed.
Lemma rmap_mapr {X Y Z} (f : X -> res Y) (g : Y -> Z) l : rmap (map g) (mapr f l) = mapr (fun x => rmap g (f x)) l.
Proof. induction l as [|x l IH]; cbn; [reflexivity|]. rewrite <- IH. destruct (f x); cbn; [|reflexivity]. destruct (mapr f l); reflexivity. Qed.
Lemma mapr_ext {X Y} (f g : X -> res Y) l : (forall x, f x = g x) -> mapr f l = mapr g l.
Proof. intros H. induction l as [|x l IH]; cbn; [reflexivity|]. rewrite H, IH. reflexivity. Qed.
Lemma rmap_bnd {X Y Z} (r : res X) (f : X -> res Y) (g : Y -> Z) : rmap g (bnd r f) = bnd r (fun x => rmap g (f x)).
Proof. destruct r; reflexivity. Qed.

(** pytrees *)
Section ptind.
  Context {X : Type} (P : pytree X -> Prop) (HL : forall v, P (Leaf v)) (HN : forall d l, Forall P l -> P (Node d l)).
  Fixpoint ptind (v : pytree X) : P v :=
    match v with Leaf x => HL x | Node d l => HN d l ((fix go (l : list (pytree X)) : Forall P l := match l with [] => Forall_nil _ | v :: l => Forall_cons _ (ptind v) (go l) end) l) end.
End ptind.
Definition unflats (V : Type) := fix go (l : list treedef) (xs : list V) : option (list (pytree V) * list V) :=
  match l with
  | [] => Some ([], xs)
  | t :: l' => match unflat V t xs with
               | Some (p, xs1) => match go l' xs1 with Some (ps, xs2) => Some (p :: ps, xs2) | None => None end
               | None => None
               end
  end.
Lemma unflat_node V d l xs : unflat V (UtilModel.TNode d l) xs = match unflats V l xs with Some (ps, xs') => Some (Node d ps, xs') | None => None end.
Proof. reflexivity. Qed.
Lemma unflat_ok {X Y} (v : pytree X) : forall (l rest : list Y), List.length l = List.length (leaves X v) ->
  exists w, unflat Y (structure X v) (l ++ rest) = Some (w, rest) /\ leaves Y w = l /\ structure Y w = structure X v.
Proof.
  induction v as [x|d vs IH] using ptind; intros l rest H.
  - destruct l as [|y [|? l]]; try discriminate H. exists (Leaf y). auto.
  - cbn [leaves structure] in *. rewrite unflat_node.
    assert (K : exists ws, unflats Y (map (structure X) vs) (l ++ rest) = Some (ws, rest) /\ flat_map (leaves Y) ws = l /\ map (structure Y) ws = map (structure X) vs).
    { revert l H. induction IH as [|v vs Hv _ IHvs]; intros l H; cbn in *; [destruct l; [|discriminate]; exists []; auto|].
      rewrite app_length in H. destruct (Hv (firstn (List.length (leaves X v)) l) (skipn (List.length (leaves X v)) l ++ rest)) as (w & E1 & E2 & E3); [rewrite firstn_length; lia|].
      rewrite app_assoc, firstn_skipn in E1. rewrite E1. destruct (IHvs (skipn (List.length (leaves X v)) l)) as (ws & F1 & F2 & F3); [rewrite skipn_length; lia|].
      rewrite F1. exists (w :: ws). cbn. rewrite E2, F2, E3, F3, firstn_skipn. auto. }
    destruct K as (ws & -> & <- & E). exists (Node d ws). cbn. rewrite E. auto.
Qed.
Lemma unfl_ok {X Y} (v : pytree X) (l : list (leaf Y)) : List.length l = List.length (leaves X v) ->
  exists w, unfl Y (structure X v) l = Ret w /\ leaves _ w = l /\ structure _ w = structure X v.
Proof. intros H. destruct (unflat_ok v l [] H) as (w & E & F). exists w. unfold unfl, unflatten. rewrite app_nil_r in E. rewrite E. auto. Qed.
Lemma unfl_same {X} (v : pytree (leaf X)) : unfl X (structure _ v) (leaves _ v) = Ret v.
Proof. unfold unfl, unflatten. rewrite <- (app_nil_r (leaves _ v)), unflat_leaves. reflexivity. Qed.
Lemma structure_len {X Y} (v : pytree X) : forall u : pytree Y, structure X v = structure Y u -> List.length (leaves X v) = List.length (leaves Y u).
Proof.
  induction v as [x|d l IH] using ptind; intros [y|d' m] E; cbn in *; try discriminate; [reflexivity|]. injection E as _ E. revert m E. induction IH as [|v l Hv _ IHl]; intros [|u m] E; try discriminate; [reflexivity|].
  injection E as E1 E2. cbn. rewrite !app_length. f_equal; auto.
Qed.

Section proofs.
  Context {OP : Ops}.
  (** the rules of a level agree with abstract evaluation, and bool() of an array made from a number with bool() of it *)
  Record valid (A : alg) : Prop := { v_prim : forall o xs, rmap (map (av A)) (primA A o xs) = absop o (map (av A) xs);
                                     v_lit : forall p, rmap (av A) (litA A p) = pyshape p;
                                     v_test : forall p t, litA A p = Ret t -> testA A t = Ret (truth p) }.

  Definition gol (B : alg) cs args := fix go (es : list eqn) (outs : list (T B)) : res (list (T B)) :=
    match es with [] => Ret outs | e :: es => bnd (ev1 B e cs args outs) (fun new => go es (outs ++ new)) end.
  Lemma gol_evs (B : alg) cs args es outs : gol B cs args es outs = evs B es cs args outs.
  Proof. revert outs. induction es as [|e es IH]; intros outs; cbn; [reflexivity|]. destruct (ev1 B e cs args outs); cbn; [apply IH|reflexivity]. Qed.
  Lemma ev1_bind (B : alg) es os nc xs cs args outs : ev1 B (EqBind es os nc xs) cs args outs = bnd (rds B cs args outs xs) (fun ts => fun_impl B {| j_eqns := es; j_outs := os; j_nc := nc |} ts).
  Proof. unfold fun_impl. cbn [j_eqns j_outs j_nc]. change (ev1 B (EqBind es os nc xs) cs args outs) with (bnd (rds B cs args outs xs) (fun ts => bnd (gol B (firstn nc ts) (skipn nc ts) es []) (fun outs' => rds B (firstn nc ts) (skipn nc ts) outs' os))). destruct (rds B cs args outs xs); cbn [bnd]; [|reflexivity]. rewrite gol_evs. reflexivity. Qed.
  Section eqnind.
    Variable P : eqn -> Prop.
    Hypothesis HP : forall o xs, P (EqPrim o xs).
    Hypothesis HT : forall xs, P (EqTie xs).
    Hypothesis HB : forall es os nc xs, Forall P es -> P (EqBind es os nc xs).
    Fixpoint eqnind (e : eqn) : P e := match e with EqPrim o xs => HP o xs | EqTie xs => HT xs | EqBind es os nc xs => HB es os nc xs ((fix go (l : list eqn) : Forall P l := match l with [] => Forall_nil _ | e :: l => Forall_cons _ (eqnind e) (go l) end) es) end.
  End eqnind.
  Lemma get_map {X Y} (f : X -> Y) l i : rmap f (get l i) = get (map f l) i.
  Proof. unfold get. rewrite nth_error_map. destruct (nth_error l i); reflexivity. Qed.
  Lemma bnd_abs {X Y X' Y'} (f : X -> X') (g : Y -> Y') (r : res X) r' k k' : rmap f r = r' -> (forall x, rmap g (k x) = k' (f x)) -> rmap g (bnd r k) = bnd r' k'.
  Proof. intros <- H. destruct r; cbn; [apply H|reflexivity]. Qed.
  (** evaluating a jaxpr commutes with maps between levels *)
  Section hom.
  Variables B A : alg.
  Variable h : T B -> T A.
  Hypothesis Hlit : forall p, rmap h (litA B p) = litA A p.
  Hypothesis Hprim : forall o xs, rmap (map h) (primA B o xs) = primA A o (map h xs).
  Lemma rd_hom cs args outs a : rmap h (rd B cs args outs a) = rd A (map h cs) (map h args) (map h outs) a.
  Proof using Hlit. destruct a; cbn; try apply get_map. apply Hlit. Qed.
  Lemma rds_hom cs args outs l : rmap (map h) (rds B cs args outs l) = rds A (map h cs) (map h args) (map h outs) l.
  Proof using Hlit. unfold rds. rewrite rmap_mapr. apply mapr_ext. intros a. apply rd_hom. Qed.
  Definition hom_ok (e : eqn) : Prop := forall cs args outs, rmap (map h) (ev1 B e cs args outs) = ev1 A e (map h cs) (map h args) (map h outs).
  Lemma evs_hom0 es : Forall hom_ok es -> forall cs args outs, rmap (map h) (evs B es cs args outs) = evs A es (map h cs) (map h args) (map h outs).
  Proof. intros H cs args. induction H as [|e es He _ IH]; intros outs; cbn; [reflexivity|]. eapply bnd_abs; [apply He|]. intros new. rewrite IH, map_app. reflexivity. Qed.
  Lemma fun_impl_hom0 j : Forall hom_ok (j_eqns j) -> forall ts, rmap (map h) (fun_impl B j ts) = fun_impl A j (map h ts).
  Proof using Hlit. intros H ts. unfold fun_impl. eapply bnd_abs; [rewrite firstn_map, skipn_map; apply (evs_hom0 _ H _ _ [])|]. intros outs. rewrite rds_hom, firstn_map, skipn_map. reflexivity. Qed.
  Lemma ev1_hom e : hom_ok e.
  Proof using Hlit Hprim.
    induction e as [o xs|xs|es os nc xs IH] using eqnind; intros cs args outs.
    - cbn. eapply bnd_abs; [apply rds_hom|]. intros ts. apply Hprim.
    - apply rds_hom.
    - rewrite !ev1_bind. eapply bnd_abs; [apply rds_hom|]. intros ts. apply (fun_impl_hom0 {| j_eqns := es; j_outs := os; j_nc := nc |}). exact IH.
  Qed.
  Lemma fun_impl_hom j ts : rmap (map h) (fun_impl B j ts) = fun_impl A j (map h ts).
  Proof using Hlit Hprim. apply fun_impl_hom0. apply Forall_forall. intros e _. apply ev1_hom. Qed.
  End hom.

  Section alg.
  Variable A : alg.
  Hypothesis HA : valid A.
  Lemma fun_impl_abs j ts : rmap (map (av A)) (fun_impl A j ts) = fun_impl abs_alg j (map (av A) ts).
  Proof using HA. apply (fun_impl_hom A abs_alg (av A) (v_lit A HA) (v_prim A HA)). Qed.

  (** more constants and more outputs do not change what was read *)
  Lemma get_more {X} (l l' : list X) i t : get l i = Ret t -> get (l ++ l') i = Ret t.
  Proof. unfold get. destruct (nth_error l i) eqn:E; intros H; inversion H; subst. rewrite nth_error_app1; [rewrite E; reflexivity|]. apply nth_error_Some. congruence. Qed.
  Lemma rd_more cs cs' args outs outs' a t : rd A cs args outs a = Ret t -> rd A (cs ++ cs') args (outs ++ outs') a = Ret t.
  Proof. destruct a; cbn; auto using get_more. Qed.
  Lemma rds_more cs cs' args outs outs' l : forall ts, rds A cs args outs l = Ret ts -> rds A (cs ++ cs') args (outs ++ outs') l = Ret ts.
  Proof.
    unfold rds. induction l as [|a l IH]; intros ts; cbn; [auto|]. destruct (rd A cs args outs a) eqn:E; cbn; [|discriminate]. rewrite (rd_more _ cs' _ _ outs' _ _ E). cbn.
    destruct (mapr (rd A cs args outs) l) eqn:E'; cbn; [|discriminate]. rewrite (IH _ eq_refl). auto.
  Qed.
  Lemma ev1_more e cs cs' args outs us : ev1 A e cs args outs = Ret us -> ev1 A e (cs ++ cs') args outs = Ret us.
  Proof.
    destruct e as [o xs|xs|es os nc xs]; [cbn|cbn|rewrite !ev1_bind].
    - destruct (rds A cs args outs xs) eqn:E; cbn; [|discriminate]. pose proof (rds_more _ cs' _ _ [] _ _ E) as E'; rewrite app_nil_r in E'; rewrite E'. auto.
    - intros E. rewrite <- (app_nil_r outs). apply rds_more, E.
    - destruct (rds A cs args outs xs) eqn:E; cbn [bnd]; [|discriminate]. pose proof (rds_more _ cs' _ _ [] _ _ E) as E'; rewrite app_nil_r in E'; rewrite E'. auto.
  Qed.
  Lemma evs_more es cs cs' args : forall outs us, evs A es cs args outs = Ret us -> evs A es (cs ++ cs') args outs = Ret us.
  Proof. induction es as [|e es IH]; intros outs us; cbn; [auto|]. destruct (ev1 A e cs args outs) eqn:E; cbn; [|discriminate]. rewrite (ev1_more _ _ cs' _ _ _ E). cbn. apply IH. Qed.
  Lemma evs_app es1 es2 cs args : forall outs, evs A (es1 ++ es2) cs args outs = bnd (evs A es1 cs args outs) (fun o => evs A es2 cs args o).
  Proof. induction es1 as [|e es IH]; intros outs; cbn; [reflexivity|]. destruct (ev1 A e cs args outs); cbn; [apply IH|reflexivity]. Qed.

  (** ** levels that simulate the algebra *)
  Definition leafR {X} (R : X -> T A -> Prop) (l : leaf X) (m : leaf (T A)) : Prop :=
    match l, m with LV x, LV t => R x t | LPy p, LPy q => p = q | LV x, LPy p => exists t, litA A p = Ret t /\ R x t | LPy _, LV _ => False end.
  Definition treeR {X} (R : X -> T A -> Prop) (v : pytree (leaf X)) (u : pytree (leaf (T A))) : Prop :=
    structure _ v = structure _ u /\ Forall2 (leafR R) (leaves _ v) (leaves _ u).
  Record sim (L : level) := {
    R : St L -> C L -> T A -> Prop;
    ok : St L -> Prop;
    s_fun : forall s x t t', R s x t -> R s x t' -> t = t';
    s_av : forall s x t, R s x t -> l_av L x = av A t;
    s_test : forall s x t, R s x t -> l_test L x = Raise Concretization \/ l_test L x = testA A t;
    s_lit : forall s p, match l_lit L p, litA A p with Ret x, Ret t => R s x t | Raise e, Raise e' => e = e' | _, _ => False end;
    s_prim : forall o s xs ts, ok s -> Forall2 (R s) xs ts ->
      match l_prim L o xs s, primA A o ts with
      | Ret (ys, s'), Ret us => Forall2 (R s') ys us /\ ok s' /\ (forall x t, R s x t -> R s' x t)
      | Raise e, Raise e' => e = e' | _, _ => False end;
    s_bind : forall j s xs ts, ok s -> Forall2 (R s) xs ts ->
      match l_bind L j xs s, fun_impl A j ts with
      | Ret (ys, s'), Ret us => Forall2 (R s') ys us /\ ok s' /\ (forall x t, R s x t -> R s' x t)
      | Raise e, Raise e' => e = e' | _, _ => False end;
    s_tie : forall s ls ms, ok s -> Forall2 (leafR (R s)) ls ms ->
      match l_tie L ls s with
      | Ret (ls', s') => Forall2 (leafR (R s')) ls' ms /\ ok s' /\ (forall x t, R s x t -> R s' x t)
      | Raise e => e = NotAnArray /\ exists st, In (LPy (PStr st)) ms
      end }.
  Arguments R {L} _ _ _ _. Arguments ok {L} _ _.

  (** a level that maps to the algebra: the primals of JVP tracers, an example of a batch *)
  Record hom (B : alg) (h : T B -> T A) : Prop := { h_av : forall x, av A (h x) = av B x;
    h_lit : forall p, rmap h (litA B p) = litA A p;
    h_prim : forall o xs, rmap (map h) (primA B o xs) = primA A o (map h xs);
    h_test : forall x, testA B x = Raise Concretization \/ testA B x = testA A (h x) }.
  Lemma F2_h {X Y} (h : X -> Y) xs ts : Forall2 (fun x t => h x = t) xs ts -> ts = map h xs.
  Proof. induction 1; cbn; congruence. Qed.
  Lemma F2_h2 {X Y} (h : X -> Y) xs : Forall2 (fun x t => h x = t) xs (map h xs).
  Proof. induction xs; constructor; auto. Qed.
  Definition sim_hom (B : alg) (h : T B -> T A) (Hh : hom B h) : sim (algL B).
  Proof.
    refine {| R := fun (_ : St (algL B)) (x : C (algL B)) (t : T A) => h x = t; ok := fun _ => True |}.
    - intros s x t t' <- <-. reflexivity.
    - intros s x t <-. symmetry. apply (h_av B h Hh).
    - intros s x t <-. apply (h_test B h Hh).
    - intros s p. cbn. rewrite <- (h_lit B h Hh). destruct (litA B p); reflexivity.
    - intros o s xs ts _ H. apply (F2_h (X := T B)) in H. subst ts. cbn. rewrite <- (h_prim B h Hh). destruct (primA B o xs) as [us|e]; cbn; [|reflexivity]. split; [apply F2_h2|auto].
    - intros j s xs ts _ H. apply (F2_h (X := T B)) in H. subst ts. cbn. rewrite <- (fun_impl_hom B A h (h_lit B h Hh) (h_prim B h Hh)). destruct (fun_impl B j xs) as [us|e]; cbn; [|reflexivity]. split; [apply F2_h2|auto].
    - intros s ls ms _ H. cbn. auto.
  Defined.

  Section trace.
  Variable L : level.
  Variable sm : sim L.
  Variable sL : St L.
  Hypothesis HsL : ok sm sL.
  Variable args : list (T A).
  Definition Rt (st : frame (C L)) (t : tracer (C L)) (v : T A) : Prop :=
    match t with
    | TrArg i s => nth_error args i = Some v /\ av A v = s
    | TrLit p s => litA A p = Ret v /\ av A v = s
    | TrOut x => R sm sL x v
    | TrEqn n s => exists cts outs, Forall2 (R sm sL) (f_consts st) cts /\ evs A (f_eqns st) cts args [] = Ret outs /\ nth_error outs n = Some v /\ av A v = s
    end.
  Definition okt (st : frame (C L)) : Prop := exists cts outs, Forall2 (R sm sL) (f_consts st) cts /\ evs A (f_eqns st) cts args [] = Ret outs /\ List.length outs = f_n st.
  Lemma Rt_fun s x t t' : Rt s x t -> Rt s x t' -> t = t'.
  Proof.
    destruct x as [i sh|n sh|p sh|x]; cbn; [intros [? ?] [? ?]; congruence| |intros [? ?] [? ?]; congruence|apply (s_fun L sm)].
    intros (cts & outs & H1 & H2 & H3 & _) (cts' & outs' & H1' & H2' & H3' & _). rewrite (F2_fun _ _ (s_fun L sm sL) _ _ H1' H1) in H2'. congruence.
  Qed.
  Lemma Rt_av s x t : Rt s x t -> tr_av L x = av A t.
  Proof. destruct x as [i sh|n sh|p sh|x]; cbn; [intros [_ <-]; reflexivity|intros (cts & outs & _ & _ & _ & <-); reflexivity|intros [_ <-]; reflexivity|apply (s_av L sm)]. Qed.
  Lemma Rt_avs s xs ts : Forall2 (Rt s) xs ts -> map (tr_av L) xs = map (av A) ts.
  Proof. induction 1; cbn; [reflexivity|]. f_equal; [eapply Rt_av; eassumption|assumption]. Qed.
  (** atoms read what the tracers denote *)
  Lemma to_atoms_ok xs : forall st ats st1 cts outs ts, to_atoms xs st = (ats, st1) -> Forall2 (Rt st) xs ts ->
    Forall2 (R sm sL) (f_consts st) cts -> evs A (f_eqns st) cts args [] = Ret outs ->
    f_eqns st1 = f_eqns st /\ f_n st1 = f_n st /\ exists cts', Forall2 (R sm sL) (f_consts st1) (cts ++ cts') /\ rds A (cts ++ cts') args outs ats = Ret ts.
  Proof.
    induction xs as [|x xs IH]; intros st ats st1 cts outs ts E HR Hc He.
    - cbn in E. injection E as <- <-. inversion HR; subst. split; [reflexivity|]. split; [reflexivity|]. exists []. rewrite app_nil_r. auto.
    - cbn in E. inversion HR as [|? t ? ts' Hx Hxs]; subst. destruct (to_atom x st) as [a st0] eqn:E0. destruct (to_atoms xs st0) as [r st2] eqn:E1. injection E as <- <-.
      destruct x as [i sh|n sh|p sh|x]; cbn in E0; injection E0 as <- <-.
      + destruct (IH _ _ _ _ _ _ E1 Hxs Hc He) as (F1 & F2 & cts' & F3 & F4). split; [exact F1|]. split; [exact F2|]. exists cts'. split; [exact F3|]. cbn in Hx. destruct Hx as [Hx _]. unfold rds in *. cbn. unfold get at 1. rewrite Hx. cbn. rewrite F4. reflexivity.
      + destruct (IH _ _ _ _ _ _ E1 Hxs Hc He) as (F1 & F2 & cts' & F3 & F4). split; [exact F1|]. split; [exact F2|]. exists cts'. split; [exact F3|]. cbn in Hx. destruct Hx as (c2 & o2 & G1 & G2 & G3 & _). rewrite (F2_fun _ _ (s_fun L sm sL) _ _ G1 Hc) in G2. rewrite He in G2. injection G2 as <-. unfold rds in *. cbn. unfold get at 1. rewrite G3. cbn. rewrite F4. reflexivity.
      + destruct (IH _ _ _ _ _ _ E1 Hxs Hc He) as (F1 & F2 & cts' & F3 & F4). split; [exact F1|]. split; [exact F2|]. exists cts'. split; [exact F3|]. cbn in Hx. destruct Hx as [Hx _]. unfold rds in *. cbn. rewrite Hx. cbn. rewrite F4. reflexivity.
      + cbn in Hx. assert (HR2 : Forall2 (Rt {| f_eqns := f_eqns st; f_n := f_n st; f_consts := f_consts st ++ [x] |}) xs ts').
        { revert Hxs. apply F2_imp. intros y v. destruct y as [i sh|n sh|p sh|y]; cbn; auto. intros (c2 & o2 & G1 & G2 & G3 & G4). exists (c2 ++ [t]), o2. split; [apply Forall2_app; auto|]. split; [apply evs_more, G2|]. auto. }
        destruct (IH _ _ _ (cts ++ [t]) outs _ E1 HR2) as (F1 & F2 & cts' & F3 & F4); [apply Forall2_app; auto|apply evs_more, He|].
        split; [exact F1|]. split; [exact F2|]. exists (t :: cts'). rewrite <- app_assoc in F3, F4. split; [exact F3|]. unfold rds in *. cbn. unfold get at 1. rewrite (F2_len _ _ _ Hc), nth_error_app2, Nat.sub_diag by lia. cbn. cbn in F4. rewrite F4. reflexivity.
  Qed.
  Lemma emit_ok xs st ats st1 ts e us : okt st -> to_atoms xs st = (ats, st1) -> Forall2 (Rt st) xs ts ->
    (forall cs outs, rds A cs args outs ats = Ret ts -> ev1 A e cs args outs = Ret us) ->
    let (r, st2) := emit e (map (av A) us) st1 in Forall2 (Rt st2) r us /\ okt st2 /\ (forall x t, Rt st x t -> Rt st2 x t).
  Proof.
    intros (cts & outs & Hc & He & Hn) E HR Hev. destruct (to_atoms_ok _ _ _ _ _ _ _ E HR Hc He) as (F1 & F2 & cts' & F3 & F4).
    unfold emit. rewrite F1, F2, map_length.
    assert (HE : evs A (f_eqns st ++ [e]) (cts ++ cts') args [] = Ret (outs ++ us)).
    { rewrite evs_app, (evs_more _ _ cts' _ _ _ He). cbn. rewrite (Hev _ _ F4). reflexivity. }
    split; [|split].
    - assert (K : forall k us0, (forall i, nth_error us0 i = nth_error (outs ++ us) (k + i)) ->
        Forall2 (Rt {| f_eqns := f_eqns st ++ [e]; f_n := f_n st + List.length us; f_consts := f_consts st1 |}) (map (fun p => TrEqn (fst p) (snd p)) (combine (seq k (List.length us0)) (map (av A) us0))) us0).
      { intros k us0. revert k. induction us0 as [|u us0 IHu]; intros k Hk; cbn; [constructor|]. constructor.
        - cbn. exists (cts ++ cts'), (outs ++ us). split; [exact F3|]. split; [exact HE|]. split; [|reflexivity]. specialize (Hk 0). cbn in Hk. rewrite Nat.add_0_r in Hk. congruence.
        - apply IHu. intros i. specialize (Hk (S i)). cbn in Hk. rewrite Hk. f_equal. lia. }
      rewrite <- Hn. rewrite <- Hn in K. apply K. intros i. rewrite nth_error_app2 by lia. f_equal. lia.
    - exists (cts ++ cts'), (outs ++ us). cbn. split; [exact F3|]. split; [exact HE|]. rewrite app_length. lia.
    - intros x t. destruct x as [i sh|n sh|p sh|x]; cbn; auto. intros (c2 & o2 & G1 & G2 & G3 & G4). rewrite (F2_fun _ _ (s_fun L sm sL) _ _ G1 Hc) in G2. rewrite He in G2. injection G2 as <-.
      exists (cts ++ cts'), (outs ++ us). split; [exact F3|]. split; [exact HE|]. split; [|exact G4]. rewrite nth_error_app1; [exact G3|]. apply nth_error_Some. congruence.
  Qed.

  Definition sim_trace : sim (traceL L).
  Proof using sm HA sL args.
    refine {| R := Rt : St (traceL L) -> C (traceL L) -> T A -> Prop; ok := okt : St (traceL L) -> Prop |}.
    - exact Rt_fun.
    - exact Rt_av.
    - intros s x t. destruct x as [i sh|n sh|p sh|x]; cbn; auto; [|apply (s_test L sm)]. intros [H _]. right. symmetry. apply (v_test A HA), H.
    - intros s p. cbn. rewrite <- (v_lit A HA p). destruct (litA A p) eqn:E; cbn; auto.
    - intros o s xs ts Hok HR. cbn. rewrite (Rt_avs _ _ _ HR), <- (v_prim A HA). destruct (primA A o ts) as [us|e] eqn:E; cbn; [|reflexivity]. destruct (to_atoms xs s) as [ats s1] eqn:Ea.
      apply (emit_ok xs s ats s1 ts (EqPrim o ats) us Hok Ea HR). intros cs outs H. cbn. rewrite H. exact E.
    - intros j s xs ts Hok HR. cbn. rewrite (Rt_avs _ _ _ HR), <- fun_impl_abs. destruct (fun_impl A j ts) as [us|e] eqn:E; cbn; [|reflexivity]. destruct (to_atoms xs s) as [ats s1] eqn:Ea.
      apply (emit_ok xs s ats s1 ts (EqBind (j_eqns j) (j_outs j) (j_nc j) ats) us Hok Ea HR). intros cs outs H. rewrite ev1_bind, H. cbn [bnd]. destruct j. exact E.
    - intros s ls ms Hok HR. cbn [l_tie traceL].
      assert (K : match mapr tie_leaf ls with
                  | Ret ts => exists us, Forall2 (Rt s) ts us /\ Forall2 (fun m u => m = LV u \/ exists p, m = LPy p /\ litA A p = Ret u) ms us
                  | Raise e => e = NotAnArray /\ exists st, In (LPy (PStr st)) ms end).
      { induction HR as [|l m ls ms Hl _ IH]; cbn; [exists []; auto|].
        destruct l as [x|p], m as [t|q]; cbn in Hl; try contradiction; cbn.
        - destruct (mapr tie_leaf ls); cbn; [destruct IH as (us & H1 & H2); exists (t :: us); auto|]. destruct IH as [-> [st Hst]]. eauto.
        - destruct Hl as (t & Hl & Hx). destruct (mapr tie_leaf ls); cbn; [destruct IH as (us & H1 & H2); exists (t :: us); split; constructor; eauto|]. destruct IH as [-> [st Hst]]. eauto.
        - subst q. pose proof (v_lit A HA p) as Hp. destruct p as [z|st]; cbn in *; [|eauto]. destruct (litA A (PNum z)) as [t|] eqn:Et; cbn in Hp; [|discriminate]. injection Hp as Hp.
          destruct (mapr tie_leaf ls); cbn; [destruct IH as (us & H1 & H2); exists (t :: us); split; constructor; eauto; cbn; auto|]. destruct IH as [-> [st Hst]]. eauto. }
      destruct (mapr tie_leaf ls) as [ts|e]; cbn [bnd]; [|exact K]. destruct K as (us & H1 & H2). destruct (to_atoms ts s) as [ats s1] eqn:Ea. rewrite (Rt_avs _ _ _ H1).
      pose proof (emit_ok ts s ats s1 us (EqTie ats) us Hok Ea H1 (fun cs outs H => H)) as HE. destruct (emit (EqTie ats) (map (av A) us) s1) as [r s2]. destruct HE as (H3 & H4 & H5). split; [|auto].
      clear -H2 H3. revert r H3. induction H2 as [|m u ms us Hm _ IH]; intros r H3; inversion H3; subst; cbn; constructor; auto. destruct Hm as [->|(p & -> & Hp)]; cbn; eauto.
  Defined.
  Lemma okt0 : okt (frame0 (C L)).
  Proof. exists [], []. cbn. auto. Qed.
  End trace.
  End alg.
End proofs.
