(** Progress of canonicalize: it does not raise on acceptable expressions that evaluate. *)
From Verif Require Import MatcherSpec MatcherProofs4 MatcherProps RulesProofs JaxProofs CanonicalizeModel CanonProofs EinsumProofs EinsumProofs2 EinsumProps CanonicalizeProofs CanonicalizeProofs2 CanonicalizeProofs3 CanonicalizeProofs4 CanonProgressSpec.
Open Scope string_scope. Open Scope list_scope. Open Scope nat_scope.

(** ** Rules that do not raise on good expressions *)
Section alive.
  Context {S : Type} (Inv : S -> Prop) (G : val -> Prop) (R : val -> val -> Prop).
  Definition alive (r : rule S) (e : val) : Prop := forall s, Inv s -> G e -> exists s' e', r s e = (s', inl e').
  Hypothesis G_kids : forall v k, G v -> In k (kids v) -> G k.
  Hypothesis G_registered : forall v, G v -> match v with VSeq KList _ | VDict _ _ => False | _ => True end.
  Hypothesis R_G : forall a b, R a b -> G a -> G b.
  Hypothesis R_comp : compositional R.
  Lemma mapM_alive (f : rule S) l : Forall (meets Inv R f) l -> Forall (alive f) l -> Forall G l -> forall s, Inv s -> exists s' l', mapM f s l = (s', inl l').
  Proof using.
    induction l as [|x l IH]; intros HM HA HG s Hs; cbn [mapM]; [eauto|]. inversion HM as [|? ? M1 M2]; inversion HA as [|? ? A1 A2]; inversion HG as [|? ? G1 G2]; subst.
    destruct (A1 s Hs G1) as (s1 & y & E). pose proof (proj1 (M1 _ _ _ Hs E)) as Hs1. rewrite E. cbn [rbind]. destruct (IH M2 A2 G2 s1 Hs1) as (s2 & ys & E2). fold (mapM f). rewrite E2. cbn [rbind]. eauto.
  Qed.
  Lemma rule_list_alive (rs : list (rule S)) : (forall r e, In r rs -> meets Inv R r e) -> (forall r e, In r rs -> alive r e) -> forall e, alive (rule_list rs) e.
  Proof using.
    induction rs as [|r rs IH]; intros HM HA e s Hs HG; cbn [rule_list]; [unfold rret; eauto|].
    destruct (HA r e (or_introl eq_refl) s Hs HG) as (s1 & x & E). pose proof (proj1 (HM r e (or_introl eq_refl) _ _ _ Hs E)) as Hs1. rewrite E. cbn [rbind].
    destruct (negb (py_eq x e)); [unfold rret; eauto|]. apply IH; [|  |exact Hs1|exact HG]; intros; [apply HM|apply HA]; right; assumption.
  Qed.
  Lemma bottom_up_alive (r : rule S) : (forall e, meets Inv R r e) -> (forall e, alive r e) -> forall e, alive (bottom_up r) e.
  Proof using G_kids G_registered R_G R_comp.
    intros HM HA. assert (HB : forall e, meets Inv R (bottom_up r) e).
    { apply (bottom_up_meets Inv R R); [exact HM|]. destruct R_comp as (_ & Ht & Hc). eauto. }
    induction e as [v IH] using kids_ind. intros s Hs HG. rewrite bottom_up_eq. unfold rewrite_subexpressions.
    assert (HK : Forall G (kids v)) by (apply Forall_forall; intros k Hk; eapply G_kids; eassumption).
    assert (T : exists s1 l, tree_map v (bottom_up r) s = (s1, inl (with_kids v l)) /\ Inv s1 /\ Forall2 R (kids v) l).
    { assert (HKM : Forall (meets Inv R (bottom_up r)) (kids v)) by (apply Forall_forall; intros k _; apply HB).
      destruct (mapM_alive (bottom_up r) (kids v) HKM IH HK s Hs) as (s1 & l & E). pose proof (mapM_meets Inv R (bottom_up r) _ HKM _ _ _ Hs E) as [Hs1 HF]. specialize (HF l eq_refl).
      exists s1, l. split; [|auto]. specialize (G_registered v HG). destruct v as [k z|t|[] es|ks vs|c h k]; cbn [tree_map kids with_kids] in *; try contradiction.
      - injection E as <- <-. reflexivity.
      - injection E as <- <-. reflexivity.
      - rewrite E. reflexivity.
      - rewrite E. reflexivity. }
    destruct T as (s1 & l & E & Hs1 & HF). rewrite E. cbn [rbind]. apply HA; [exact Hs1|]. eapply R_G; [apply R_comp, HF|exact HG].
  Qed.
  Lemma iterated_alive (r : rule S) : (forall e, meets Inv R r e) -> (forall e, alive r e) -> forall fuel s e s' out, Inv s -> G e -> iterated r fuel s e = Some (s', out) -> exists e', out = inl e'.
  Proof using R_G.
    intros HM HA. induction fuel as [|fuel IH]; intros s e s' out Hs HG H; cbn [iterated] in H; [discriminate|].
    destruct (HA e s Hs HG) as (s1 & x & E). rewrite E in H. destruct (HM e s s1 _ Hs E) as [Hs1 HR]. destruct (py_eq e x); [injection H as <- <-; eauto|].
    eapply IH; [exact Hs1| |exact H]. eapply R_G; [apply HR; reflexivity|exact HG].
  Qed.
  Lemma term_rewriter_alive (rs : list (rule S)) : (forall r e, In r rs -> meets Inv R r e) -> (forall r e, In r rs -> alive r e) ->
    forall fuel s e s' out, Inv s -> G e -> term_rewriter rs fuel s e = Some (s', out) -> exists e', out = inl e'.
  Proof using G_kids G_registered R_G R_comp.
    intros HM HA. destruct R_comp as (Hr & Ht & Hc). assert (HL : forall e, meets Inv R (rule_list rs) e) by (apply rule_list_meets; auto).
    apply iterated_alive; [apply (bottom_up_meets Inv R R); [exact HL|eauto]|]. apply bottom_up_alive; [exact HL|]. apply rule_list_alive; assumption.
  Qed.
End alive.

(** ** Everything is invariant under Python equality *)
Lemma F_map_eq {A B} (f g : A -> B) l : Forall (fun x => f x = g x) l -> map f l = map g l.
Proof. induction 1; simpl; congruence. Qed.
Lemma forallb_map_eq {A} (f : A -> bool) (g : A -> A) l : Forall (fun x => f (g x) = f x) l -> forallb f (map g l) = forallb f l.
Proof. induction 1; simpl; congruence. Qed.
Lemma hashable_canon v : hashable (canon v) = hashable v.
Proof. induction v as [k z|s|[] l IH|ks vs IH|c h ks IHh IH] using val_ind'; cbn [canon hashable]; try reflexivity; rewrite ?(forallb_map_eq _ _ _ IH), ?(forallb_map_eq _ _ _ IHh); reflexivity. Qed.
Lemma call_free_canon v : call_free (canon v) = call_free v.
Proof. induction v as [k z|s|k l IH|ks vs IH|c h ks IHh IH] using val_ind'; cbn [canon call_free]; try reflexivity. rewrite (forallb_map_eq _ _ _ IH). reflexivity. Qed.
Lemma linear_op_canon c h : linear_op c (map canon h) = linear_op c h.
Proof. unfold linear_op. destruct h as [|n [|ps [|]]]; cbn [map]; try reflexivity. rewrite of_str_canon. reflexivity. Qed.
Section canons.
  Variables (K : Type) (P : prims K).
  Hypothesis POK : prims_ok P.
  Lemma node_shape_canon c h ss : node_shape K P c (map canon h) ss = node_shape K P c h ss.
  Proof using POK.
    unfold node_shape.
    destruct (String.eqb c "JaxVar"). { destruct h as [|n [|sh [|]]]; try reflexivity. cbn [map]. rewrite nats_of_canon. reflexivity. }
    destruct (String.eqb c "Literal"); [reflexivity|].
    destruct (String.eqb c "Primitive").
    { destruct h as [|n [|ps [|]]]; try reflexivity. cbn [map]. rewrite of_str_canon. apply rb_ext. intros p. apply rb_ext. intros ds. rewrite lax_shape_canon.
      rewrite (oshape_same P POK p _ ps ds (same_canon ps)), (oshapeN_same P POK p _ ps ds (same_canon ps)). reflexivity. }
    destruct (String.eqb c "Part"). { destruct h as [|n [|]]; try reflexivity. cbn [map]. rewrite nat_of_canon. reflexivity. }
    destruct (String.eqb c "BoundExpression"); [reflexivity|]. destruct (String.eqb c "CallPrimitive"); [reflexivity|].
    destruct (String.eqb c "Einsum"). { destruct h as [|[] [|]]; reflexivity. }
    reflexivity.
  Qed.
  Lemma eshape_canon v : eshape K P (canon v) = eshape K P v.
  Proof using POK.
    induction v as [k z|s|k l IH|ks vs IH|c h ks IHh IH] using val_ind'; try reflexivity.
    - cbn [canon eshape]. change (VNum KInt z) with (canon (VNum k z)). rewrite (lit_canon K P POK). reflexivity.
    - cbn [canon eshape]. rewrite node_shape_canon, map_map. f_equal. apply F_map_eq. exact IH.
  Qed.
  Lemma ndim_of_canon v : ndim_of K P (canon v) = ndim_of K P v.
  Proof using POK. unfold ndim_of. rewrite eshape_canon. reflexivity. Qed.
  Lemma rank_canon v : rank K P (canon v) = rank K P v.
  Proof using POK. unfold rank. rewrite ndim_of_canon. reflexivity. Qed.
  Lemma formula_letters_canon h : formula_letters (map canon h) = formula_letters h.
  Proof using. destruct h as [|[] [|]]; reflexivity. Qed.
  Lemma needed_canon v : letters_needed K P (canon v) = letters_needed K P v.
  Proof using POK.
    induction v as [k z|s|k l IH|ks vs IH|c h ks IHh IH] using val_ind'; try reflexivity. cbn [canon letters_needed]. rewrite linear_op_canon, formula_letters_canon, !map_map.
    assert (E1 : map (fun x => rank K P (canon x) + letters_needed K P (canon x)) ks = map (fun k => rank K P k + letters_needed K P k) ks) by (apply F_map_eq; eapply Forall_impl; [|exact IH]; cbn; intros a Ha; rewrite Ha, rank_canon; reflexivity).
    assert (E2 : map (fun x => letters_needed K P (canon x)) ks = map (letters_needed K P) ks) by (apply F_map_eq; exact IH). rewrite E1, E2. reflexivity.
  Qed.
  Lemma acceptable_canon v : acceptable K P (canon v) = acceptable K P v.
  Proof using POK.
    destruct v as [k z|s|k l|ks vs|c h ks]; try reflexivity. unfold acceptable. rewrite needed_canon. cbn [canon]. rewrite linear_op_canon.
    rewrite (forallb_map_eq call_free canon ks); [reflexivity|]. apply Forall_forall. intros; apply call_free_canon.
  Qed.
  (** acceptable throughout *)
  Fixpoint ready (v : val) : bool :=
    acceptable K P v && match v with
      | VNum _ _ | VStr _ => true | VSeq KTuple l => forallb ready l | VSeq KList _ | VDict _ _ => false
      | VNode c h ks => forallb ready ks end.
  Lemma ready_canon v : ready (canon v) = ready v.
  Proof using POK.
    induction v as [k z|s|[] l IH|ks vs IH|c h ks IHh IH] using val_ind'; try reflexivity.
    - cbn [canon ready acceptable]. rewrite (forallb_map_eq _ _ _ IH). reflexivity.
    - change (ready (canon (VNode c h ks))) with (acceptable K P (canon (VNode c h ks)) && forallb ready (map canon ks)). rewrite acceptable_canon, (forallb_map_eq _ _ _ IH). reflexivity.
  Qed.
  Lemma ready_within v : hashable v = true -> (forall y, within y v -> acceptable K P y = true) -> ready v = true.
  Proof using.
    induction v as [k z|s|[] l IH|ks vs IH|c h ks IHh IH] using val_ind'; intros Hh Ha; try reflexivity; try discriminate.
    - change (forallb ready l = true). cbn [hashable] in Hh. rewrite forallb_forall in Hh |- *. rewrite Forall_forall in IH. intros x Hx. apply IH; [exact Hx|auto|]. intros y Hy. apply Ha. eapply within_kid; [exact Hx|exact Hy].
    - change (acceptable K P (VNode c h ks) && forallb ready ks = true). rewrite (Ha _ (within_self _)). cbn [andb hashable] in *. apply andb_true_iff in Hh as [_ Hh]. rewrite forallb_forall in Hh |- *. rewrite Forall_forall in IH.
      intros x Hx. apply IH; [exact Hx|auto|]. intros y Hy. apply Ha. eapply within_kid; [exact Hx|exact Hy].
  Qed.
  Lemma ready_node c h ks : ready (VNode c h ks) = acceptable K P (VNode c h ks) && forallb ready ks.
  Proof using. reflexivity. Qed.
End canons.

Section progress.
  Variables (K : Type) (k0 k1 : K) (kadd kmul : K -> K -> K) (P : prims K).
  Hypothesis SR : semi_ring_theory k0 k1 kadd kmul eq.
  Hypothesis POK : prims_ok P.
  Hypothesis TOT : shapes_total P.
  Variable lim : nat -> bool.
  Notation eval := (eval K k0 k1 kadd kmul P lim).
  Notation keeps := (keeps K k0 k1 kadd kmul P lim).
  Notation estr := (einsum_str K k0 k1 kadd kmul).
  Notation eshape := (eshape K P). Notation needed := (letters_needed K P). Notation ready := (ready K P). Notation rank := (rank K P).
  Notation den := (den K).

  (** *** A call-free expression that evaluates has a shape *)
  Definition shaped (f : den) (s : result sv) : Prop := forall e v, f e = inl v -> exists t, s = inl t.
  Lemma seqr_shaped fs ss : Forall2 shaped fs ss -> forall e vs, seqr (map (fun f : den => f e) fs) = inl vs -> exists ts, seqr ss = inl ts.
  Proof using.
    induction 1 as [|f s fs ss H HF IH]; intros e vs Hv; cbn [map seqr] in *; [eauto|]. apply rb_inl in Hv as (v & H1 & Hv). apply rb_inl in Hv as (l & H2 & Hv).
    destruct (H e v H1) as (t & ->). cbn [rb]. destruct (IH e l H2) as (ts & ->). cbn [rb]. eauto.
  Qed.
  Lemma rmap_sarr_map ss : rmap sarr (map SArr ss) = inl ss.
  Proof using. induction ss as [|s ss IH]; cbn [map rmap]; [reflexivity|]. cbn [sarr rb]. rewrite IH. reflexivity. Qed.
  Lemma vshape_arrs ds : map (vshape K) (map Arr ds) = map SArr (map shape ds).
  Proof using. rewrite !map_map. reflexivity. Qed.
  Lemma arrs_shaped fs ss : Forall2 shaped fs ss -> Forall2 (agrees K) fs ss -> forall e ds, arrs K fs e = inl ds -> sarrs ss = inl (map shape ds).
  Proof using.
    intros HF HA e ds H. unfold arrs in H. apply rb_inl in H as (vs & Hv & H). apply rmap_arr_inl in H. subst vs. destruct (seqr_shaped _ _ HF _ _ Hv) as (ts & Ht).
    pose proof (seqr_agrees K _ _ HA _ _ _ Hv Ht) as E. unfold sarrs. rewrite Ht. cbn [rb]. rewrite <- E, vshape_arrs. apply rmap_sarr_map.
  Qed.
  Lemma einsum_str_ok s (ds : list (array K)) a : estr s ds = inl a -> exists b, einsum_str unit tt tt (fun _ _ => tt) (fun _ _ => tt) s (map abstract (map shape ds)) = inl b.
  Proof using.
    unfold einsum_str. destruct (split_einsum_formula s) as [f|]; [|discriminate]. cbn [rb']. destruct (clean f); [|discriminate]. unfold einsum.
    rewrite (einsum_ok_shape (fins f) (fout f) ds (map abstract (map shape ds))) by (rewrite map_shape_abstract; reflexivity).
    destruct (einsum_ok unit _ _ _); [eauto|discriminate].
  Qed.
  Lemma reduce_add_ok (l : list (array K)) : forall (acc r : array K) acc', shape acc' = shape acc -> reduce_add K k0 kadd acc l = inl r -> exists r', reduce_add unit tt (fun _ _ => tt) acc' (map abstract (map shape l)) = inl r'.
  Proof using.
    induction l as [|x l IH]; intros acc r acc' Hs H; cbn [reduce_add map] in *; [eauto|]. unfold add_arrays in *. cbn [abstract tabulate shape] in *. rewrite Hs.
    destruct (list_eq_dec Nat.eq_dec (shape acc) (shape x)); [|discriminate]. cbn [rb'] in *. eapply IH; [|exact H]. reflexivity.
  Qed.
  Lemma addn_ok (ds : list (array K)) a : addn K k0 kadd ds = inl a -> exists b, addn unit tt (fun _ _ => tt) (map abstract (map shape ds)) = inl b.
  Proof using. unfold addn. destruct ds as [|d ds]; [discriminate|]. cbn [map]. apply reduce_add_ok. reflexivity. Qed.
  Lemma node_shaped c h fs ss : String.eqb c "CallPrimitive" = false -> Forall2 shaped fs ss -> Forall2 (agrees K) fs ss -> shaped (node K k0 k1 kadd kmul P c h fs) (node_shape K P c h ss).
  Proof using POK TOT.
    intros HC HF HA e v H. pose proof (node_agrees K k0 k1 kadd kmul P POK c h fs ss HA e v) as _. unfold node, node_shape in *.
    destruct (String.eqb c "JaxVar").
    { destruct h as [|n [|sh [|]]]; try discriminate. destruct fs; [|discriminate]. destruct (of_str n); [|discriminate]. destruct (nats_of sh); [|discriminate]. cbn [opt rb]. eauto. }
    destruct (String.eqb c "Literal"); [eauto|].
    destruct (String.eqb c "Primitive").
    { destruct h as [|n [|ps [|]]]; try discriminate. destruct (of_str n) as [p|]; [|discriminate]. cbn [opt rb] in *. apply rb_inl in H as (ds & Hd & H). rewrite (arrs_shaped _ _ HF HA _ _ Hd). cbn [rb].
      unfold bind in H. destruct (known p); [apply rb_inl in H as (s & -> & H); cbn [rb]; eauto|]. destruct (multi P p); apply rb_inl in H as (r & Hr & H).
      - destruct (proj2 TOT _ _ _ _ Hr) as (s & ->). cbn [rb]. eauto.
      - destruct (proj1 TOT _ _ _ _ Hr) as (s & ->). cbn [rb]. eauto. }
    destruct (String.eqb c "Part").
    { destruct h as [|n [|]]; try discriminate. destruct HF as [|f s fs ss Hfs HF]; [discriminate|]. destruct HF; [|discriminate]. destruct (nat_of n) as [i|]; [|discriminate]. cbn [opt rb] in *.
      apply rb_inl in H as (w & Hw & H). destruct (Hfs _ _ Hw) as (t & ->). inversion HA as [|? ? ? ? HA1 _]; subst. pose proof (HA1 _ _ _ Hw eq_refl) as E. cbn [rb]. destruct w as [|l]; [discriminate|]. cbn [vshape] in E. subst t.
      apply opt_inl in H. rewrite nth_error_map, H. cbn [option_map opt]. eauto. }
    destruct (String.eqb c "BoundExpression").
    { destruct h as [|n [|[| |[] cs| |] [|]]]; try discriminate. destruct (strs_of n); [|discriminate]. destruct (omap _ cs); [|discriminate]. cbn [opt rb] in H. destruct (dwrite [] l l0); [|discriminate]. cbn [rb] in H.
      apply rb_inl in H as (vs & Hv & H). destruct (seqr_shaped _ _ HF _ _ Hv) as (ts & ->). cbn [rb]. eauto. }
    rewrite HC in *. destruct (String.eqb c "Einsum").
    { destruct h as [|[] [|]]; try discriminate. apply rb_inl in H as (ds & Hd & H). rewrite (arrs_shaped _ _ HF HA _ _ Hd). cbn [rb]. apply rb_inl in H as (a & Ha & H). destruct (einsum_str_ok _ _ _ Ha) as (b & ->). cbn [rb]. eauto. }
    destruct (String.eqb c "AddN"); [|discriminate]. destruct h; [|discriminate]. apply rb_inl in H as (ds & Hd & H). rewrite (arrs_shaped _ _ HF HA _ _ Hd). cbn [rb]. apply rb_inl in H as (a & Ha & H). destruct (addn_ok _ _ Ha) as (b & ->). cbn [rb]. eauto.
  Qed.
  Lemma eval_shaped v : call_free v = true -> shaped (eval v) (eshape v).
  Proof using POK TOT.
    induction v as [k z|s|k l IH|ks vs _|c h ks _ IH] using val_ind'; intros HC e w H; cbn [call_free] in HC; try discriminate.
    - cbn [CanonicalizeModel.eval CanonicalizeModel.eshape] in *. apply chk_inv in H as [H _]. apply rb_inl in H as (a & Ha & _). apply opt_inl in Ha. rewrite Ha. cbn [opt rb]. eauto.
    - cbn [CanonicalizeModel.eval] in H. apply chk_inv in H as [H _]. apply andb_true_iff in HC as [HC HK]. rewrite forallb_forall in HK. rewrite Forall_forall in IH. cbn [CanonicalizeModel.eshape].
      eapply node_shaped; [now apply negb_true_iff| | |exact H].
      + clear -IH HK. induction ks as [|x ks IHk]; cbn [map]; constructor; [apply IH; [now left|apply HK; now left]|]. apply IHk; intros; [apply IH|apply HK]; try (right; assumption). assumption.
      + clear -POK. induction ks; cbn [map]; constructor; [apply eval_agrees; assumption|assumption].
  Qed.
  Lemma ndim_ok x e d : call_free x = true -> eval x e = inl (Arr d) -> ndim_of K P x = inl (ndim K d).
  Proof using POK TOT. intros HC H. destruct (eval_shaped x HC e _ H) as (t & Ht). unfold ndim_of. rewrite Ht. pose proof (eval_agrees K k0 k1 kadd kmul P POK lim x e _ _ H Ht) as <-. reflexivity. Qed.

  (** *** Good expressions *)
  Definition evaluates (v : val) : Prop := exists e w, eval v e = inl w.
  Definition G (v : val) : Prop := hashable v = true /\ evaluates v /\ ready v = true.
  Definition step (a b : val) : Prop := keeps a b /\ G b /\ (call_free a = true -> call_free b = true) /\ needed b <= needed a.
  Definition R (a b : val) : Prop := G a -> step a b.
  Lemma seqr_in {A} (l : list (result A)) vs x : seqr l = inl vs -> In x l -> exists v, x = inl v.
  Proof using.
    revert vs. induction l as [|y l IH]; intros vs H Hin; [destruct Hin|]. cbn [seqr] in H. apply rb_inl in H as (v & -> & H). apply rb_inl in H as (vs' & H & _). destruct Hin as [<-|Hin]; eauto.
  Qed.
  Lemma eval_seq ks env vs k : seqr (map (fun f : den => f env) (map eval ks)) = inl vs -> In k ks -> evaluates k.
  Proof using. intros H Hk. destruct (seqr_in _ _ (eval k env) H) as (v & Hv); [|exists env, v; exact Hv]. rewrite map_map. apply in_map_iff. eauto. Qed.
  Lemma eval_arrs ks env ds k : arrs K (map eval ks) env = inl ds -> In k ks -> evaluates k.
  Proof using. unfold arrs. intros H. apply rb_inl in H as (vs & H & _). eapply eval_seq. exact H. Qed.
  Lemma evaluates_kids v k : evaluates v -> In k (kids v) -> evaluates k.
  Proof using.
    intros (e & w & H) Hk. destruct v as [n z|s|[] l|ks vs|c h ks]; cbn [kids] in Hk; try (destruct Hk; fail); cbn [CanonicalizeModel.eval] in H; apply chk_inv in H as [H _].
    - apply rb_inl in H as (ws & Hw & _). eapply eval_seq; eassumption.
    - discriminate.
    - unfold node in H.
      destruct (String.eqb c "JaxVar"). { destruct h as [|n [|sh [|]]]; try discriminate. destruct ks; [destruct Hk|discriminate]. }
      destruct (String.eqb c "Literal"). { destruct h as [|n [|]]; try discriminate. destruct ks; [destruct Hk|discriminate]. }
      destruct (String.eqb c "Primitive"). { destruct h as [|n [|ps [|]]]; try discriminate. apply rb_inl in H as (p & _ & H). apply rb_inl in H as (ds & H & _). eapply eval_arrs; eassumption. }
      destruct (String.eqb c "Part"). { destruct h as [|n [|]]; try discriminate. destruct ks as [|x [|]]; try discriminate. cbn [map] in H. destruct Hk as [<-|[]]. apply rb_inl in H as (i & _ & H). apply rb_inl in H as (u & H & _). exists e, u. exact H. }
      destruct (String.eqb c "BoundExpression"). { destruct h as [|n [|[| |[] cs| |] [|]]]; try discriminate. apply rb_inl in H as (xs & _ & H). apply rb_inl in H as (ds & _ & H). apply rb_inl in H as (ce & _ & H). apply rb_inl in H as (vs & H & _). eapply eval_seq; eassumption. }
      destruct (String.eqb c "CallPrimitive").
      { destruct h as [|n [|q [|r [|]]]]; try discriminate. rewrite <- map_rev in H. destruct (rev ks) as [|b ops] eqn:Er; [discriminate|]. cbn [map] in H. apply rb_inl in H as (xs & _ & H). apply rb_inl in H as (ds & Ha & H). apply rb_inl in H as (sub & _ & H).
        apply in_rev in Hk. rewrite Er in Hk. destruct Hk as [<-|Hk]; [exists sub, w; exact H|]. rewrite <- map_rev in Ha. eapply eval_arrs; [exact Ha|]. apply in_rev. rewrite rev_involutive. exact Hk. }
      destruct (String.eqb c "Einsum"). { destruct h as [|[] [|]]; try discriminate. apply rb_inl in H as (ds & H & _). eapply eval_arrs; eassumption. }
      destruct (String.eqb c "AddN"); [|discriminate]. destruct h; [|discriminate]. apply rb_inl in H as (ds & H & _). eapply eval_arrs; eassumption.
  Qed.
  Lemma ready_kids v k : ready v = true -> In k (kids v) -> ready k = true.
  Proof using.
    intros H Hk. destruct v as [n z|s|[] l|ks vs|c h ks]; cbn [kids] in Hk; try (destruct Hk; fail).
    - change (forallb ready l = true) in H. rewrite forallb_forall in H. auto.
    - discriminate.
    - rewrite ready_node in H. apply andb_true_iff in H as [_ H]. rewrite forallb_forall in H. auto.
  Qed.
  Lemma hashable_kids v k : hashable v = true -> In k (kids v) -> hashable k = true.
  Proof using.
    intros H Hk. destruct v as [n z|s|[] l|ks vs|c h ks]; cbn [kids hashable] in *; try (destruct Hk; fail); try discriminate.
    - rewrite forallb_forall in H. auto.
    - apply andb_true_iff in H as [_ H]. rewrite forallb_forall in H. auto.
  Qed.
  Lemma G_kids v k : G v -> In k (kids v) -> G k.
  Proof using. intros (H1 & H2 & H3) Hk. split; [eapply hashable_kids; eassumption|]. split; [eapply evaluates_kids; eassumption|eapply ready_kids; eassumption]. Qed.
  Lemma G_registered v : G v -> match v with VSeq KList _ | VDict _ _ => False | _ => True end.
  Proof using. intros (H & _). destruct v as [| |[]| |]; try exact I; discriminate. Qed.
  Lemma keeps_evaluates a b : keeps a b -> evaluates a -> evaluates b.
  Proof using. intros H (e & w & Hw). exists e, w. apply H, Hw. Qed.
  Lemma G_same a b : same a b -> G a -> G b.
  Proof using POK.
    intros H (H1 & H2 & H3). pose proof (canon_same _ _ H) as E. split; [|split].
    - rewrite <- hashable_canon, <- E, hashable_canon. exact H1.
    - eapply keeps_evaluates; [apply keeps_same; eassumption|exact H2].
    - rewrite <- (ready_canon K P POK), <- E, (ready_canon K P POK). exact H3.
  Qed.
  Lemma keeps_tr a b c : keeps a b -> keeps b c -> keeps a c.
  Proof using. intros H1 H2. exact (proj1 (proj2 (keeps_compositional K k0 k1 kadd kmul P lim)) a b c H1 H2). Qed.
  Lemma step_same a b c : same a b -> step b c -> step a c.
  Proof using POK.
    intros H (HK & H1 & H2 & H3). pose proof (canon_same _ _ H) as E. split; [eapply keeps_tr; [apply keeps_same; eassumption|exact HK]|]. split; [exact H1|]. split.
    - intros Hc. apply H2. rewrite <- call_free_canon, <- E, call_free_canon. exact Hc.
    - rewrite <- (needed_canon K P POK a), E, (needed_canon K P POK b). exact H3.
  Qed.
  Lemma R_same a b c : same a b -> R b c -> R a c.
  Proof using POK. intros H HR Ha. eapply step_same; [exact H|]. apply HR. eapply G_same; eassumption. Qed.
  Lemma R_refl v : R v v.
  Proof using. intros HG. split; [apply dle_refl|]. auto. Qed.
  Lemma R_trans a b c : R a b -> R b c -> R a c.
  Proof using.
    intros H1 H2 Ha. destruct (H1 Ha) as (K1 & Gb & C1 & N1). destruct (H2 Gb) as (K2 & Gc & C2 & N2). split; [eapply keeps_tr; eassumption|]. split; [exact Gc|]. split; [auto|lia].
  Qed.
  Lemma R_rank a b : R a b -> G a -> call_free a = true -> rank b = rank a.
  Proof using POK TOT.
    intros HR HG HC. destruct (HR HG) as (HK & HGb & HCb & _). specialize (HCb HC). destruct HG as (_ & (e & w & Hw) & _). pose proof (HK e w Hw) as Hw'.
    unfold CanonProgressSpec.rank, ndim_of. destruct (eval_shaped a HC e w Hw) as (t & Ht). destruct (eval_shaped b HCb e w Hw') as (t' & Ht'). rewrite Ht, Ht'.
    rewrite <- (eval_agrees K k0 k1 kadd kmul P POK lim a e w t Hw Ht), <- (eval_agrees K k0 k1 kadd kmul P POK lim b e w t' Hw' Ht'). reflexivity.
  Qed.
  Lemma R_compositional : compositional R.
  Proof using POK TOT.
    split; [exact R_refl|]. split; [exact R_trans|]. intros v l HF HG.
    assert (HGk : Forall G (kids v)) by (apply Forall_forall; intros k Hk; eapply G_kids; eassumption).
    assert (HKs : keeps v (with_kids v l)). { apply keeps_compositional. clear -HF HGk. induction HF as [|x y lx ly H HF IH]; inversion HGk as [|? ? Hx HGl]; subst; constructor; [exact (proj1 (H Hx))|auto]. }
    split; [exact HKs|].
    assert (HGl : Forall G l). { clear -HF HGk. induction HF as [|x y lx ly H HF IH]; inversion HGk; subst; constructor; [apply H; assumption|auto]. }
    assert (HC : forallb call_free (kids v) = true -> forallb call_free l = true).
    { clear -HF HGk. induction HF as [|x y lx ly H HF IH]; inversion HGk as [|? ? Hx ?]; subst; cbn [forallb]; [auto|]. rewrite !andb_true_iff. intros [H1 H2]. split; [apply H; assumption|auto]. }
    assert (HN1 : list_sum (map needed l) <= list_sum (map needed (kids v))).
    { clear -HF HGk. induction HF as [|x y lx ly H HF IH]; inversion HGk as [|? ? Hx HGl]; subst; [reflexivity|]. specialize (IH HGl). destruct (H Hx) as (_ & _ & _ & Hle). change (needed y + list_sum (map needed ly) <= needed x + list_sum (map needed lx)). lia. }
    assert (HN2 : forallb call_free (kids v) = true -> list_sum (map (fun k => rank k + needed k) l) <= list_sum (map (fun k => rank k + needed k) (kids v))).
    { clear -HF HGk POK TOT. induction HF as [|x y lx ly Hxy HF IH]; inversion HGk as [|? ? Hx HGl]; subst; [reflexivity|]. cbn [forallb]. rewrite andb_true_iff. intros [H1 H2]. specialize (IH HGl H2). pose proof (R_rank _ _ Hxy Hx H1) as Er. destruct (Hxy Hx) as (_ & _ & _ & Hle).
      change ((rank y + needed y) + list_sum (map (fun k => rank k + needed k) ly) <= (rank x + needed x) + list_sum (map (fun k => rank k + needed k) lx)). lia. }
    assert (HH : forallb hashable l = true) by (apply forallb_forall; rewrite Forall_forall in HGl; intros x Hx; apply HGl, Hx).
    assert (HR : forallb ready l = true) by (apply forallb_forall; rewrite Forall_forall in HGl; intros x Hx; apply HGl, Hx).
    pose proof HG as (Hh & He & Hr). destruct v as [n z|s|[] es|ks vs|c h ks]; cbn [with_kids kids] in *; try (split; [exact HG|split; [auto|reflexivity]]; fail).
    - split; [|split; [intros E; discriminate|reflexivity]]. split; [exact HH|]. split; [eapply keeps_evaluates; eassumption|exact HR].
    - assert (HNN : needed (VNode c h l) <= needed (VNode c h ks)).
      { cbn [letters_needed]. rewrite ready_node in Hr. apply andb_true_iff in Hr as [Hr _]. unfold acceptable in Hr. apply andb_true_iff in Hr as [Hr _]. destruct (linear_op c h); [apply HN2, Hr|]. destruct (String.eqb c "Einsum"); [lia|reflexivity]. }
      split; [|split].
      + split; [|split; [eapply keeps_evaluates; eassumption|]].
        * cbn [hashable] in *. apply andb_true_iff in Hh as [Hh _]. rewrite Hh, HH. reflexivity.
        * rewrite ready_node in *. apply andb_true_iff in Hr as [Hr _]. rewrite HR, andb_true_r. unfold acceptable in *. apply andb_true_iff in Hr as [Hr1 Hr2]. apply Nat.leb_le in Hr2. apply andb_true_iff. split; [|apply Nat.leb_le; lia]. destruct (linear_op c h); [apply HC, Hr1|reflexivity].
      + cbn [call_free]. rewrite !andb_true_iff. intros [H1 H2]. split; [exact H1|apply HC, H2].
      + exact HNN.
  Qed.

  (** *** The linear primitives *)
  Lemma sum_split l : list_sum (map (fun k => rank k + needed k) l) = list_sum (map rank l) + list_sum (map needed l).
  Proof using. induction l as [|x l IH]; [reflexivity|]. change (rank x + needed x + list_sum (map (fun k => rank k + needed k) l) = (rank x + list_sum (map rank l)) + (needed x + list_sum (map needed l))). lia. Qed.
  Definition islin (p : string) : Prop := In p ["transpose"; "squeeze"; "reduce_sum"; "dot_general"].
  Lemma islin_op p ps : islin p -> linear_op "Primitive" [str_of p; ps] = true.
  Proof using. intros [<-|[<-|[<-|[<-|[]]]]]; reflexivity. Qed.
  Lemma islin_known p : islin p -> known p = true.
  Proof using. intros [<-|[<-|[<-|[<-|[]]]]]; reflexivity. Qed.
  Lemma linear_facts p ps ops : islin p -> G (Primitive p ps ops) ->
    exists ds s, lax_shape p ps (map shape ds) = inl s /\ Forall2 (fun x d => ndim_of K P x = inl (ndim K d)) ops ds /\ list_sum (map rank ops) + list_sum (map needed ops) <= 52 /\
      forallb call_free ops = true /\ list_sum (map (fun d => ndim K d) ds) = list_sum (map rank ops).
  Proof using POK TOT.
    intros Hp (Hh & (env & w & He) & Hr). apply eval_prim_inv in He as (ds & a & s & Hd & Hs & _ & _ & _); [|apply islin_known, Hp].
    unfold Primitive in Hr. rewrite ready_node in Hr. apply andb_true_iff in Hr as [Hr _]. unfold acceptable in Hr. cbn [letters_needed] in Hr. rewrite (islin_op _ _ Hp) in Hr. apply andb_true_iff in Hr as [HC HN]. apply Nat.leb_le in HN. rewrite sum_split in HN.
    exists ds, s. split; [exact Hs|]. enough (HF : Forall2 (fun x d => ndim_of K P x = inl (ndim K d)) ops ds).
    { split; [exact HF|]. split; [exact HN|]. split; [exact HC|]. clear -HF. induction HF as [|x d ops ds H HF IH]; [reflexivity|]. change (ndim K d + list_sum (map (fun d => ndim K d) ds) = rank x + list_sum (map rank ops)). rewrite IH. unfold CanonProgressSpec.rank. rewrite H. reflexivity. }
    clear -Hd HC POK TOT. induction Hd as [|x d ops ds H HF IH]; [constructor|]. cbn [forallb] in HC. apply andb_true_iff in HC as [HC1 HC2]. constructor; [eapply ndim_ok; eassumption|auto].
  Qed.
  Lemma step_linear p ps ops f : islin p -> G (Primitive p ps ops) -> clean f = true /\ fins f <> [] -> List.length (nodup ascii_dec (concat (fins f))) <= list_sum (map rank ops) ->
    keeps (Primitive p ps ops) (Einsum (reconstitute_einsum_formula f) ops) -> step (Primitive p ps ops) (Einsum (reconstitute_einsum_formula f) ops).
  Proof using.
    intros Hp HG [Hc Hn] Hl HK. pose proof HG as (Hh & He & Hr). unfold Primitive, Einsum in *. rewrite ready_node in Hr. apply andb_true_iff in Hr as [Hr Hrk]. unfold acceptable in Hr.
    assert (HN : needed (VNode "Einsum" [VStr (reconstitute_einsum_formula f)] ops) <= needed (VNode "Primitive" [str_of p; ps] ops)).
    { cbn [letters_needed]. rewrite (islin_op _ _ Hp), sum_split. change (linear_op "Einsum" [VStr (reconstitute_einsum_formula f)]) with false. change (String.eqb "Einsum" "Einsum") with true. cbn [formula_letters]. rewrite (formula_roundtrip f Hc Hn). lia. }
    apply andb_true_iff in Hr as [_ Hr]. apply Nat.leb_le in Hr. split; [exact HK|]. split; [|split; [|exact HN]].
    - split; [|split; [eapply keeps_evaluates; eassumption|]].
      + cbn [hashable] in *. apply andb_true_iff in Hh as [_ Hh]. rewrite Hh. reflexivity.
      + rewrite ready_node, Hrk, andb_true_r. unfold acceptable. change (linear_op "Einsum" [VStr (reconstitute_einsum_formula f)]) with false. apply Nat.leb_le. lia.
    - cbn [call_free]. rewrite !andb_true_iff. intros [_ H]. split; [reflexivity|exact H].
  Qed.
  Lemma nodup_length l : List.length (nodup ascii_dec l) <= List.length l.
  Proof using. induction l as [|x l IH]; cbn [nodup List.length]; [lia|]. destruct (in_dec ascii_dec x l); cbn [List.length]; lia. Qed.
  Lemma nodup_incl l m : incl l m -> List.length (nodup ascii_dec l) <= List.length m.
  Proof using. intros H. apply NoDup_incl_length; [apply NoDup_nodup|]. intros x Hx. apply H. eapply nodup_In. exact Hx. Qed.
  Lemma firstn_le {A} n (l : list A) : List.length (firstn n l) <= n.
  Proof using. rewrite firstn_length. lia. Qed.

  Lemma good_transpose ps x : G (Primitive "transpose" ps [x]) -> exists n perm f, ndim_of K P x = inl n /\ axes_param ps "permutation" = Some perm /\ transpose_formula n perm = inl f /\
    step (Primitive "transpose" ps [x]) (Einsum (reconstitute_einsum_formula f) [x]).
  Proof using SR POK TOT.
    intros HG. destruct (linear_facts "transpose" ps [x] ltac:(cbn; auto) HG) as (ds & s & Hs & HF & HN & HC & Hsum). apply F2_1 in HF as (d0 & -> & Hn).
    assert (Hle : ndim K d0 <= 52) by (cbn in Hsum, HN; lia). assert (Hrk : ndim K d0 <= list_sum (map rank [x])) by (cbn in Hsum |- *; lia).
    unfold lax_shape in Hs. cbn [String.eqb Ascii.eqb Bool.eqb map] in Hs. destruct (axes_param ps "permutation") as [perm|] eqn:Hp; [|discriminate]. unfold transpose_shape in Hs. destruct (_ && _)%bool eqn:E in Hs; [|discriminate]. clear Hs.
    assert (Hf : exists f, transpose_formula (ndim K d0) perm = inl f).
    { apply perm_ok in E. unfold transpose_formula. destruct (letters_at_ok (firstn (ndim K d0) einsum_letters) perm) as (o & ->); [|cbn [rb']; eauto]. intros i Hi. rewrite (len_x _ 0) by lia. apply (Permutation_in _ E), in_seq in Hi. unfold ndim in *. lia. }
    destruct Hf as (f & Hf). exists (ndim K d0), perm, f. split; [exact Hn|]. split; [reflexivity|]. split; [exact Hf|].
    apply step_linear; [cbn; auto|exact HG|eapply transpose_clean; exact Hf| |].
    - unfold transpose_formula in Hf. destruct (letters_at _ _); [|discriminate]. injection Hf as <-. cbn [fins concat]. rewrite app_nil_r. etransitivity; [apply nodup_length|]. etransitivity; [apply firstn_le|exact Hrk].
    - intros env v H. apply eval_prim_inv in H as (ds & a & s' & Hd & Hs & Ha & -> & Hl); [|reflexivity].
      apply F2_1 in Hd as (d & -> & Hd). pose proof (ndim_agrees _ _ _ _ _ _ POK _ _ _ _ _ Hn Hd) as En. rewrite En in Hf, Hle.
      unfold lax_shape in Hs. unfold lax_value in Ha. cbn [String.eqb Ascii.eqb Bool.eqb map] in Hs, Ha. rewrite Hp in Hs, Ha.
      unfold transpose_shape in Hs. destruct (_ && _)%bool eqn:E' in Hs; [|discriminate]. apply perm_ok in E'. injection Ha as <-.
      apply eval_einsum_intro with (ds := [d]); [repeat constructor; assumption| |assumption].
      pose proof (C20_transpose K k0 k1 kadd kmul SR perm d Hle E') as HC'. unfold replaced_by in HC'. rewrite Hf in HC'. exact HC'.
  Qed.
  Lemma drop_ok n dims : n <= 52 -> exists f, drop_formula n dims = inl f.
  Proof using.
    intros Hle. unfold drop_formula. destruct (letters_at_ok (firstn n einsum_letters) (filter (fun i => negb (memn i dims)) (seq 0 n))) as (o & ->); [|cbn [rb']; eauto].
    intros i Hi. rewrite (len_x _ 0) by lia. apply filter_In in Hi as [Hi _]. apply in_seq in Hi. lia.
  Qed.
  Lemma drop_letters n dims f : drop_formula n dims = inl f -> List.length (nodup ascii_dec (concat (fins f))) <= n.
  Proof using. unfold drop_formula. destruct (letters_at _ _); [|discriminate]. cbn [rb']. intros H. injection H as <-. cbn [fins concat]. rewrite app_nil_r. etransitivity; [apply nodup_length|]. apply firstn_le. Qed.
  Lemma good_squeeze ps x : G (Primitive "squeeze" ps [x]) -> exists n dims f, ndim_of K P x = inl n /\ axes_param ps "dimensions" = Some dims /\ drop_formula n dims = inl f /\
    step (Primitive "squeeze" ps [x]) (Einsum (reconstitute_einsum_formula f) [x]).
  Proof using SR POK TOT.
    intros HG. destruct (linear_facts "squeeze" ps [x] ltac:(cbn; auto) HG) as (ds & s & Hs & HF & HN & HC & Hsum). apply F2_1 in HF as (d0 & -> & Hn).
    assert (Hle : ndim K d0 <= 52) by (cbn in Hsum, HN; lia). assert (Hrk : ndim K d0 <= list_sum (map rank [x])) by (cbn in Hsum |- *; lia).
    unfold lax_shape in Hs. cbn [String.eqb Ascii.eqb Bool.eqb map] in Hs. destruct (axes_param ps "dimensions") as [dims|] eqn:Hp; [|discriminate]. clear Hs.
    destruct (drop_ok (ndim K d0) dims Hle) as (f & Hf). exists (ndim K d0), dims, f. split; [exact Hn|]. split; [reflexivity|]. split; [exact Hf|].
    apply step_linear; [cbn; auto|exact HG|eapply drop_clean; exact Hf|etransitivity; [eapply drop_letters; exact Hf|exact Hrk]|].
    intros env v H. apply eval_prim_inv in H as (ds & a & s' & Hd & Hs & Ha & -> & Hl); [|reflexivity].
    apply F2_1 in Hd as (d & -> & Hd). pose proof (ndim_agrees _ _ _ _ _ _ POK _ _ _ _ _ Hn Hd) as En. rewrite En in Hf, Hle.
    unfold lax_shape in Hs. unfold lax_value in Ha. cbn [String.eqb Ascii.eqb Bool.eqb map] in Hs, Ha. rewrite Hp in Hs, Ha.
    unfold squeeze_shape in Hs. destruct (_ && _)%bool eqn:E in Hs; [|discriminate]. apply andb_true_iff in E as [E _]. rewrite forallb_forall in E. injection Ha as <-.
    apply eval_einsum_intro with (ds := [d]); [repeat constructor; assumption| |assumption].
    pose proof (C20_squeeze K k0 k1 kadd kmul SR dims d Hle) as HC'. unfold replaced_by in HC'. rewrite Hf in HC'. apply HC'.
    intros i Hi. apply Nat.eqb_eq, E, Hi.
  Qed.
  Lemma good_reduce_sum ps x : G (Primitive "reduce_sum" ps [x]) -> exists n axes f, ndim_of K P x = inl n /\ axes_param ps "axes" = Some axes /\ drop_formula n axes = inl f /\
    step (Primitive "reduce_sum" ps [x]) (Einsum (reconstitute_einsum_formula f) [x]).
  Proof using SR POK TOT.
    intros HG. destruct (linear_facts "reduce_sum" ps [x] ltac:(cbn; auto) HG) as (ds & s & Hs & HF & HN & HC & Hsum). apply F2_1 in HF as (d0 & -> & Hn).
    assert (Hle : ndim K d0 <= 52) by (cbn in Hsum, HN; lia). assert (Hrk : ndim K d0 <= list_sum (map rank [x])) by (cbn in Hsum |- *; lia).
    unfold lax_shape in Hs. cbn [String.eqb Ascii.eqb Bool.eqb map] in Hs. destruct (axes_param ps "axes") as [dims|] eqn:Hp; [|discriminate]. clear Hs.
    destruct (drop_ok (ndim K d0) dims Hle) as (f & Hf). exists (ndim K d0), dims, f. split; [exact Hn|]. split; [reflexivity|]. split; [exact Hf|].
    apply step_linear; [cbn; auto|exact HG|eapply drop_clean; exact Hf|etransitivity; [eapply drop_letters; exact Hf|exact Hrk]|].
    intros env v H. apply eval_prim_inv in H as (ds & a & s' & Hd & Hs & Ha & -> & Hl); [|reflexivity].
    apply F2_1 in Hd as (d & -> & Hd). pose proof (ndim_agrees _ _ _ _ _ _ POK _ _ _ _ _ Hn Hd) as En. rewrite En in Hf, Hle.
    unfold lax_shape in Hs. unfold lax_value in Ha. cbn [String.eqb Ascii.eqb Bool.eqb map] in Hs, Ha. rewrite Hp in Hs, Ha. injection Ha as <-.
    apply eval_einsum_intro with (ds := [d]); [repeat constructor; assumption| |assumption].
    pose proof (C20_reduce_sum K k0 k1 kadd kmul SR dims d Hle) as HC'. unfold replaced_by in HC'. rewrite Hf in HC'. exact HC'.
  Qed.
  Lemma good_dot ps x y : G (Primitive "dot_general" ps [x; y]) -> exists nx ny xc yc xb yb f, ndim_of K P x = inl nx /\ ndim_of K P y = inl ny /\ dims_param ps = Some (xc, yc, (xb, yb)) /\
    dot_formula nx ny xc yc xb yb = inl f /\ step (Primitive "dot_general" ps [x; y]) (Einsum (reconstitute_einsum_formula f) [x; y]).
  Proof using SR POK TOT.
    intros HG. destruct (linear_facts "dot_general" ps [x; y] ltac:(cbn; auto) HG) as (ds & s & Hs & HF & HN & HC & Hsum). apply F2_2 in HF as (d0 & d1 & -> & Hn & Hm).
    assert (Hle : ndim K d0 + ndim K d1 <= 52) by (cbn in Hsum, HN; lia). assert (Hrk : ndim K d0 + ndim K d1 <= list_sum (map rank [x; y])) by (cbn in Hsum |- *; lia).
    unfold lax_shape in Hs. cbn [String.eqb Ascii.eqb Bool.eqb map] in Hs. destruct (dims_param ps) as [[[xc yc] [xb yb]]|] eqn:Hp; [|discriminate].
    unfold dot_shape in Hs. destruct (_ && _)%bool eqn:E in Hs; [|discriminate]. rewrite !andb_true_iff in E. destruct E as [[[[E1 E2] _] _] E5]. clear Hs. apply Nat.eqb_eq in E1, E2. rewrite forallb_forall in E5.
    assert (Hin : forall i j, In (i, j) (combine (xc ++ xb) (yc ++ yb)) -> i < ndim K d0 /\ j < ndim K d1).
    { intros i j Hij. apply E5 in Hij. cbn [fst snd] in Hij. rewrite !andb_true_iff in Hij. destruct Hij as [[H1 H2] _]. apply Nat.ltb_lt in H1, H2. auto. }
    assert (Hf : exists f, dot_formula (ndim K d0) (ndim K d1) xc yc xb yb = inl f).
    { unfold dot_formula. destruct (share_ok (firstn (ndim K d0) einsum_letters) (combine (xc ++ xb) (yc ++ yb)) (firstn (ndim K d1) (skipn (ndim K d0) einsum_letters))) as (y' & ->).
      { intros i j Hij. rewrite (len_x _ (ndim K d1)), len_y by lia. apply Hin, Hij. }
      cbn [rb']. destruct (letters_at_ok (firstn (ndim K d0) einsum_letters) xb) as (o & ->); [|cbn [rb']; eauto].
      intros i Hi. rewrite (len_x _ (ndim K d1)) by lia. assert (Hix : In i (xc ++ xb)) by (apply in_or_app; auto). assert (Hlen : List.length (xc ++ xb) = List.length (yc ++ yb)) by (rewrite !app_length; lia).
      apply In_nth with (d := 0) in Hix as (k & Hk & <-). apply (Hin _ (nth k (yc ++ yb) 0)). rewrite <- combine_nth by exact Hlen. apply nth_In. rewrite combine_length. lia. }
    destruct Hf as (f & Hf). exists (ndim K d0), (ndim K d1), xc, yc, xb, yb, f. split; [exact Hn|]. split; [exact Hm|]. split; [reflexivity|]. split; [exact Hf|].
    apply step_linear; [cbn; auto|exact HG|eapply dot_clean; exact Hf| |].
    - etransitivity; [|exact Hrk]. unfold dot_formula in Hf. destruct (share _ _ _) as [y'|] eqn:Esh; [|discriminate]. cbn [rb'] in Hf. destruct (letters_at _ _); [|discriminate]. injection Hf as <-. cbn [fins concat]. rewrite app_nil_r.
      etransitivity; [apply (nodup_incl _ (firstn (ndim K d0) einsum_letters ++ firstn (ndim K d1) (skipn (ndim K d0) einsum_letters)))|].
      { intros a Ha. apply in_app_or in Ha as [Ha|Ha]; [apply in_or_app; auto|]. apply (proj2 (share_spec _ _ _ _ Esh)). exact Ha. }
      rewrite app_length. pose proof (firstn_le (ndim K d0) einsum_letters). pose proof (firstn_le (ndim K d1) (skipn (ndim K d0) einsum_letters)). lia.
    - intros env v H. apply eval_prim_inv in H as (ds & a & s' & Hd & Hs & Ha & -> & Hl); [|reflexivity].
      apply F2_2 in Hd as (d & d' & -> & Hd & Hd').
      pose proof (ndim_agrees _ _ _ _ _ _ POK _ _ _ _ _ Hn Hd) as En. pose proof (ndim_agrees _ _ _ _ _ _ POK _ _ _ _ _ Hm Hd') as Em. rewrite En, Em in Hf, Hle. clear E1 E2 E5 Hin.
      unfold lax_shape in Hs. unfold lax_value in Ha. cbn [String.eqb Ascii.eqb Bool.eqb map] in Hs, Ha. rewrite Hp in Hs, Ha.
      unfold dot_shape in Hs. destruct (_ && _)%bool eqn:E in Hs; [|discriminate]. rewrite !andb_true_iff in E. destruct E as [[[[E1 E2] E3] E4] E5].
      apply Nat.eqb_eq in E1, E2. apply nodupn_NoDup in E3, E4. rewrite forallb_forall in E5. injection Ha as <-.
      apply eval_einsum_intro with (ds := [d; d']); [repeat constructor; assumption| |assumption].
      pose proof (C20_dot_general K k0 k1 kadd kmul SR xc yc xb yb d d' Hle E1 E2 E3 E4) as HC'. unfold replaced_by in HC'. rewrite Hf in HC'. apply HC'.
      intros i j Hij. apply E5 in Hij. cbn [fst snd] in Hij. rewrite !andb_true_iff in Hij. destruct Hij as [[H1 H2] H3].
      apply Nat.ltb_lt in H1, H2. apply Nat.eqb_eq in H3. unfold ndim. auto.
  Qed.

  (** *** Einsums of einsums *)
  Definition fl (s : list ascii) : nat := formula_letters [VStr s].
  Lemma list_sum_app_map (g : val -> nat) l m : list_sum (map g (l ++ m)) = list_sum (map g l) + list_sum (map g m).
  Proof using. rewrite map_app, list_sum_app. reflexivity. Qed.
  Lemma estr_facts s ds a : estr s ds = inl a -> exists f, split_einsum_formula s = inl f /\ clean f = true /\ NoDup (fout f) /\ incl (fout f) (concat (fins f)).
  Proof using.
    unfold einsum_str. destruct (split_einsum_formula s) as [f|]; [|discriminate]. cbn [rb']. destruct (clean f) eqn:Hc; [|discriminate]. unfold einsum. destruct (einsum_ok _ _ _ _) eqn:E; [|discriminate]. intros _.
    unfold einsum_ok in E. rewrite !andb_true_iff in E. destruct E as [[_ E4] E5]. exists f. split; [reflexivity|]. split; [exact Hc|]. split.
    - unfold nodupb in E4. destruct (list_eq_dec ascii_dec _ _) as [E|]; [|discriminate]. rewrite <- E. apply NoDup_nodup.
    - rewrite forallb_forall in E5. intros l Hl. specialize (E5 l Hl). destruct (in_dec ascii_dec l (concat (fins f))); [assumption|discriminate].
  Qed.
  Lemma fl_eq s f : split_einsum_formula s = inl f -> fl s = List.length (nodup ascii_dec (concat (fins f))).
  Proof using. intros H. unfold fl, formula_letters. rewrite H. reflexivity. Qed.
  Lemma count_le s t p c : split_einsum_formula s = inl p -> split_einsum_formula t = inl c -> incl (fout p) (concat (fins p)) -> count_letters p c <= fl s + fl t.
  Proof using.
    intros Hp Hc Hi. rewrite (fl_eq _ _ Hp), (fl_eq _ _ Hc). unfold count_letters. apply Nat.add_le_mono; apply nodup_incl; intros x Hx; apply nodup_In.
    - apply in_app_or in Hx as [Hx|Hx]; auto.
    - apply filter_In in Hx. tauto.
  Qed.
  Lemma concat_map_incl (m : ascii -> ascii) ls : incl (concat (map (map m) ls)) (map m (concat ls)).
  Proof using. rewrite concat_map. apply incl_refl. Qed.
  Lemma composed_letters p n c s t f : split_einsum_formula s = inl p -> split_einsum_formula t = inl c -> NoDup (fout c) -> compose_einsums s n t = inl f -> fl f <= fl s + fl t.
  Proof using.
    intros Hp Hc Hnd H. rewrite (fl_eq _ _ Hp), (fl_eq _ _ Hc). unfold compose_einsums in H. rewrite Hp, Hc in H. cbn [rb'] in H. destruct (compose_formula p n c) as [g|] eqn:Hg; [|discriminate]. injection H as <-.
    destruct (compose_formula_clean _ _ _ _ Hg) as [Hcl Hne]. specialize (Hne (split_formula_ne _ _ Hc)). rewrite (fl_eq _ g (formula_roundtrip g Hcl Hne)).
    destruct (compose_formula_inv _ _ _ _ Hnd Hg) as (left & old & right & mp & mc & Hpin & _ & _ & Hfin & _).
    etransitivity; [apply (nodup_incl _ (map mp (nodup ascii_dec (concat (fins p))) ++ map mc (nodup ascii_dec (concat (fins c)))))|rewrite app_length, !map_length; reflexivity].
    rewrite Hfin, Hpin, !concat_app. cbn [concat]. intros x Hx. apply in_or_app. apply in_app_or in Hx as [Hx|Hx]; [left|apply in_app_or in Hx as [Hx|Hx]; [right|left]].
    - apply concat_map_incl, in_map_iff in Hx as (y & <- & Hy). apply in_map, nodup_In, in_or_app. auto.
    - apply concat_map_incl, in_map_iff in Hx as (y & <- & Hy). apply in_map, nodup_In. exact Hy.
    - apply concat_map_incl, in_map_iff in Hx as (y & <- & Hy). apply in_map, nodup_In, in_or_app. right. apply in_or_app. auto.
  Qed.
  Lemma needed_einsum s ops : needed (Einsum s ops) = fl s + list_sum (map needed ops).
  Proof using. reflexivity. Qed.
  Lemma ready_einsum s ops : ready (Einsum s ops) = Nat.leb (needed (Einsum s ops)) 52 && forallb ready ops.
  Proof using. reflexivity. Qed.
  Lemma good_compose s l t a r : G (Einsum s (l ++ Einsum t a :: r)) -> exists f, compose_einsums s (List.length l) t = inl f /\ step (Einsum s (l ++ Einsum t a :: r)) (Einsum f (l ++ a ++ r)).
  Proof using SR.
    intros HG. pose proof HG as (Hh & (env & w & He) & Hr). pose proof He as He'. apply eval_einsum_inv in He as (s' & ds & b & E & Hd & Hb & _ & _). injection E as <-.
    apply F2_app_inv in Hd as (dl & dc & dr & -> & H1 & H2 & H3). apply eval_einsum_inv in H2 as (t' & da & b' & E & Hda & Hc & E' & _). injection E as <-. injection E' as <-.
    destruct (estr_facts _ _ _ Hb) as (p & Hp & _ & _ & Hpi). destruct (estr_facts _ _ _ Hc) as (c & Hcf & _ & Hcn & _).
    rewrite ready_einsum in Hr. apply andb_true_iff in Hr as [HN Hrk]. apply Nat.leb_le in HN. pose proof HN as HN0. rewrite needed_einsum, list_sum_app_map in HN. cbn [map] in HN. change (list_sum (needed (Einsum t a) :: map needed r)) with (needed (Einsum t a) + list_sum (map needed r)) in HN. rewrite needed_einsum in HN.
    assert (Hf : exists f, compose_einsums s (List.length l) t = inl f).
    { rewrite (F2_len _ _ _ H1). eapply C19_compose_einsums_returns; [exact Hp|exact Hcf|exact Hc|exact Hb|]. pose proof (count_le _ _ _ _ Hp Hcf Hpi). lia. }
    destruct Hf as (f & Hf). exists f. split; [exact Hf|]. pose proof (composed_letters _ _ _ _ _ _ Hp Hcf Hcn Hf) as Hle.
    assert (HK : keeps (Einsum s (l ++ Einsum t a :: r)) (Einsum f (l ++ a ++ r))) by (apply keeps_compose; assumption).
    assert (HNN : needed (Einsum f (l ++ a ++ r)) <= needed (Einsum s (l ++ Einsum t a :: r))).
    { rewrite !needed_einsum, !list_sum_app_map. cbn [map]. change (list_sum (needed (Einsum t a) :: map needed r)) with (needed (Einsum t a) + list_sum (map needed r)). rewrite needed_einsum. lia. }
    split; [exact HK|]. split; [|split; [|exact HNN]].
    - split; [|split; [eapply keeps_evaluates; [exact HK|exists env, w; exact He']|]].
      + unfold Einsum in *. cbn [hashable] in *. rewrite !forallb_app in *. cbn [forallb hashable] in Hh. rewrite !andb_true_iff in *. tauto.
      + rewrite ready_einsum. apply andb_true_iff. split.
        * apply Nat.leb_le. lia.
        * rewrite forallb_app in *. cbn [forallb] in Hrk. rewrite ready_einsum in Hrk. rewrite forallb_app. rewrite !andb_true_iff in *. tauto.
    - unfold Einsum. cbn [call_free]. rewrite !forallb_app. cbn [forallb call_free]. rewrite !andb_true_iff. tauto.
  Qed.

  (** *** Sums *)
  Lemma ready_addn ops : ready (AddN ops) = forallb ready ops.
  Proof using. reflexivity. Qed.
  Lemma good_add ps x y : G (Primitive "add" ps [x; y]) -> step (Primitive "add" ps [x; y]) (AddN [x; y]).
  Proof using.
    intros (Hh & He & Hr). pose proof (keeps_add K k0 k1 kadd kmul P lim ps x y) as HK. split; [exact HK|]. split; [|split].
    - split; [|split; [eapply keeps_evaluates; eassumption|]].
      + unfold Primitive, AddN in *. cbn [hashable forallb] in *. rewrite !andb_true_iff in *. tauto.
      + rewrite ready_addn. unfold Primitive in Hr. rewrite ready_node in Hr. apply andb_true_iff in Hr as [_ Hr]. exact Hr.
    - unfold Primitive, AddN. cbn [call_free forallb]. rewrite !andb_true_iff. intros [_ H]. split; [reflexivity|exact H].
    - apply Nat.le_0_l.
  Qed.
  Lemma good_addn l a r : G (AddN (l ++ AddN a :: r)) -> step (AddN (l ++ AddN a :: r)) (AddN (l ++ a ++ r)).
  Proof using SR.
    intros (Hh & He & Hr). pose proof (keeps_addn K k0 k1 kadd kmul P SR lim l a r) as HK. split; [exact HK|]. split; [|split].
    - split; [|split; [eapply keeps_evaluates; eassumption|]].
      + unfold AddN in *. cbn [hashable] in *. rewrite !forallb_app in *. cbn [forallb hashable] in Hh. rewrite !andb_true_iff in *. tauto.
      + rewrite ready_addn in *. rewrite !forallb_app in *. cbn [forallb] in Hr. rewrite ready_addn in Hr. rewrite !andb_true_iff in *. tauto.
    - unfold AddN. cbn [call_free]. rewrite !forallb_app. cbn [forallb call_free]. rewrite !andb_true_iff. tauto.
    - reflexivity.
  Qed.

  (** *** The rules *)
  Lemma handlers_good p h e b : In (p, h) (pattern_handlers K P) -> match_ p e = inl b -> G e -> exists w, h b = inl w /\ step e w.
  Proof using SR POK TOT.
    intros Hin Hm HG. destruct (patterns_ok _ _ _ _ Hin) as [Ht Hs]. pose proof (match_fits _ _ _ Ht Hs Hm) as Hf. clear Hm Ht Hs.
    cbn [pattern_handlers In] in Hin.
    destruct Hin as [E|[E|[E|[E|[E|[E|[E|[]]]]]]]]; injection E as <- <-.
    - apply prim1_bound in Hf as (ps & x & Hps & Hx & He). destruct (good_transpose ps x (G_same _ _ He HG)) as (n & perm & f & Hn & Hp & Hf & Hst).
      unfold transpose_as_einsum, arg. rewrite Hx, Hps. cbn [opt rb]. rewrite Hn. cbn [rb]. rewrite Hp. cbn [opt rb]. rewrite Hf. cbn [rb]. eexists. split; [reflexivity|]. eapply step_same; eassumption.
    - apply prim2_bound in Hf as (ps & x & y & Hps & Hx & Hy & He). destruct (good_dot ps x y (G_same _ _ He HG)) as (nx & ny & xc & yc & xb & yb & f & Hn & Hm & Hp & Hf & Hst).
      unfold dot_as_einsum, arg. rewrite Hx, Hy, Hps. cbn [opt rb]. rewrite Hp. cbn [opt rb]. rewrite Hn, Hm. cbn [rb]. rewrite Hf. cbn [rb]. eexists. split; [reflexivity|]. eapply step_same; eassumption.
    - apply prim1_bound in Hf as (ps & x & Hps & Hx & He). destruct (good_squeeze ps x (G_same _ _ He HG)) as (n & perm & f & Hn & Hp & Hf & Hst).
      unfold squeeze_as_einsum, arg. rewrite Hx, Hps. cbn [opt rb]. rewrite Hn. cbn [rb]. rewrite Hp. cbn [opt rb]. rewrite Hf. cbn [rb]. eexists. split; [reflexivity|]. eapply step_same; eassumption.
    - apply prim1_bound in Hf as (ps & x & Hps & Hx & He). destruct (good_reduce_sum ps x (G_same _ _ He HG)) as (n & perm & f & Hn & Hp & Hf & Hst).
      unfold reduce_sum_as_einsum, arg. rewrite Hx, Hps. cbn [opt rb]. rewrite Hn. cbn [rb]. rewrite Hp. cbn [opt rb]. rewrite Hf. cbn [rb]. eexists. split; [reflexivity|]. eapply step_same; eassumption.
    - apply compose_bound in Hf as (p & l & c & a & r & Hp & Hl & Hc & Ha & Hr & He). pose proof (G_same _ _ He HG) as HG'.
      assert (Hstr : exists s t, p = VStr s /\ c = VStr t).
      { destruct HG' as (_ & (env & w & Hw) & _). apply eval_einsum_inv in Hw as (s & ds & b' & -> & Hd & _). apply F2_app_inv in Hd as (_ & dc & _ & _ & _ & H2 & _). apply eval_einsum_inv in H2 as (t & _ & _ & -> & _). eauto. }
      destruct Hstr as (s & t & -> & ->). destruct (good_compose s l t a r HG') as (f & Hf & Hst).
      unfold compose_handler, tuple_arg, str_arg, arg. rewrite Hp, Hl, Hc, Ha, Hr. cbn [opt rb]. rewrite Hf. cbn [rb]. eexists. split; [reflexivity|]. eapply step_same; eassumption.
    - apply add_bound in Hf as (ps & x & y & Hx & Hy & He). unfold add_to_addn, arg. rewrite Hx, Hy. cbn [opt rb]. eexists. split; [reflexivity|].
      eapply step_same; [exact He|]. apply good_add. eapply G_same; eassumption.
    - apply addn_bound in Hf as (l & a & r & Hl & Ha & Hr & He). unfold addn_of_addn_to_addn, tuple_arg, arg. rewrite Hl, Ha, Hr. cbn [opt rb]. eexists. split; [reflexivity|].
      eapply step_same; [exact He|]. apply good_addn. eapply G_same; eassumption.
  Qed.
  Lemma body_good p h e : In (p, h) (pattern_handlers K P) -> G e -> exists w, rule_body p h e = inl w /\ step e w.
  Proof using SR POK TOT.
    intros Hin HG. unfold rule_body. destruct (match_ p e) as [b|er] eqn:Hm.
    - destruct (handlers_good _ _ _ _ Hin Hm HG) as (w & Hw & Hs). rewrite Hw. eauto.
    - destruct (patterns_ok _ _ _ _ Hin) as [Ht _]. destruct (patterns_full _ _ _ _ Hin) as [_ Hst]. destruct (match_agree p e Hst) as (_ & _ & _ & _ & Her).
      assert (er = MatchErr) as ->.
      { assert (D : er = MatchErr \/ er <> MatchErr) by (destruct er; auto; right; discriminate). destruct D as [D|D]; [exact D|]. apply (Her er D) in Hm. pose proof (match_no_error p e Ht) as Hn. rewrite Hm in Hn. discriminate. }
      exists e. split; [reflexivity|]. apply R_refl, HG.
  Qed.
  Definition all_good (s : caches) : Prop := forall j : nat, cache_meets R (s j).
  Lemma rules_good r e : In r (canonicalization_rules K P) -> meets all_good R r e.
  Proof using SR POK TOT.
    intros H. unfold canonicalization_rules in H. apply in_map_iff in H as ([i [p h]] & <- & Hin). cbn [fst snd].
    apply in_combine_r in Hin. apply (at_cache_meets (fun _ => R)). apply make_rule_meets; [exact R_same|].
    intros e' w Hb HG. destruct (body_good _ _ _ Hin HG) as (w' & Hw & Hs). rewrite Hw in Hb. injection Hb as <-. exact Hs.
  Qed.
  Lemma rules_alive r e : In r (canonicalization_rules K P) -> alive all_good G r e.
  Proof using SR POK TOT.
    intros H s Hs HG. unfold canonicalization_rules in H. apply in_map_iff in H as ([i [p h]] & <- & Hin). cbn [fst snd]. apply in_combine_r in Hin. unfold at_cache, make_rule. rewrite (proj1 HG).
    destruct (lookup (s i) e); [cbn [fst snd]; eauto|]. destruct (body_good _ _ _ Hin HG) as (w & -> & _). cbn [fst snd]. eauto.
  Qed.
  Lemma canonicalize_good fuel s e s' out : all_good s -> canonicalize K P fuel s e = Some (s', out) -> all_good s' /\ forall e', out = inl e' -> R e e'.
  Proof using SR POK TOT. apply term_rewriter_meets; [apply R_compositional|]. intros r x. apply rules_good. Qed.
  Lemma canonicalize_alive fuel s e s' out : all_good s -> G e -> canonicalize K P fuel s e = Some (s', out) -> exists e', out = inl e'.
  Proof using SR POK TOT.
    apply (term_rewriter_alive all_good G R); [exact G_kids|exact G_registered| |exact R_compositional|intros; apply rules_good; assumption|intros; apply rules_alive; assumption].
    intros a b HR Ha. apply HR, Ha.
  Qed.
End progress.
