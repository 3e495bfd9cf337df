(** canonicalize: termination and normal form. *)
From Verif Require Import MatcherSpec MatcherProps RulesProofs JaxProofs CanonicalizeModel CanonicalizeProofs CanonicalizeProofs2 CanonicalizeProofs3.

(** ** A size that every rule decreases *)
Fixpoint weight (v : val) : nat :=
  match v with
  | VNum _ _ | VStr _ | VSeq KList _ => 1
  | VSeq KTuple l | VDict _ l => S (list_sum (map weight l))
  | VNode c _ k => (if String.eqb c "Primitive" then 2 else 1) + list_sum (map weight k)
  end.
Lemma weight_canon v : weight (canon v) = weight v.
Proof.
  assert (E : forall l, Forall (fun v => weight (canon v) = weight v) l -> map weight (map canon l) = map weight l).
  { induction 1; simpl; congruence. }
  induction v as [k z|s|[] l IH|ks vs IH|c h ks _ IH] using val_ind'; simpl; try reflexivity; rewrite (E _ IH); reflexivity.
Qed.
Lemma weight_same a b : same a b -> weight a = weight b.
Proof. intros H. apply py_eq_canon in H. rewrite <- weight_canon, H. apply weight_canon. Qed.
Lemma weight_size_like : size_like weight.
Proof.
  split; [apply weight_same|]. intros v l HF.
  assert (Hs : list_sum (map weight l) <= list_sum (map weight (kids v)) /\
    (Exists (fun wk => weight (fst wk) < weight (snd wk)) (combine l (kids v)) -> list_sum (map weight l) < list_sum (map weight (kids v)))).
  { induction HF as [|x y lx ly Hxy HF [IH1 IH2]]; simpl; [split; [lia|intros H; inversion H]|]. split; [lia|].
    intros H. inversion H as [? ? H1|? ? H1]; subst; [simpl in H1; lia|]. specialize (IH2 H1). lia. }
  destruct Hs as [H1 H2].
  destruct v as [k z|s|[] es|ks vs|c h ks]; simpl in *; (split; [try (destruct (String.eqb c "Primitive")); lia|]);
    try (intros H; specialize (H2 H); try (destruct (String.eqb c "Primitive")); lia); intros H; destruct l; inversion H.
Qed.
Section shrink.
  Variables (K : Type) (P : prims K).
  Lemma weight_app l m : list_sum (map weight (l ++ m)) = list_sum (map weight l) + list_sum (map weight m).
  Proof using. rewrite map_app, list_sum_app. reflexivity. Qed.
  Lemma handlers_shrink p h e b w : In (p, h) (pattern_handlers K P) -> match_ p e = inl b -> h b = inl w -> weight w < weight e.
  Proof using.
    intros Hin Hm Hw. destruct (patterns_ok _ _ _ _ Hin) as [Ht Hs]. pose proof (match_fits _ _ _ Ht Hs Hm) as Hf. clear Hm Ht Hs.
    cbn [pattern_handlers In] in Hin.
    destruct Hin as [E|[E|[E|[E|[E|[E|[E|[]]]]]]]]; injection E as <- <-.
    - apply prim1_bound in Hf as (ps & x & Hps & Hx & He). unfold transpose_as_einsum, arg in Hw. rewrite Hx, Hps in Hw. cbn [opt rb] in Hw.
      apply rb_inl in Hw as (n & Hn & Hw). apply rb_inl in Hw as (perm & Hp & Hw). apply rb_inl in Hw as (f & Hf & Hw). injection Hw as <-.
      rewrite (weight_same _ _ He). simpl. lia.
    - apply prim2_bound in Hf as (ps & x & y & Hps & Hx & Hy & He). unfold dot_as_einsum, arg in Hw. rewrite Hx, Hy, Hps in Hw. cbn [opt rb] in Hw.
      apply rb_inl in Hw as (d & Hp & Hw). apply rb_inl in Hw as (nx & Hn & Hw). apply rb_inl in Hw as (ny & Hm & Hw).
      destruct d as [[xc yc] [xb yb]]. apply rb_inl in Hw as (f & Hf & Hw). injection Hw as <-.
      rewrite (weight_same _ _ He). simpl. lia.
    - apply prim1_bound in Hf as (ps & x & Hps & Hx & He). unfold squeeze_as_einsum, arg in Hw. rewrite Hx, Hps in Hw. cbn [opt rb] in Hw.
      apply rb_inl in Hw as (n & Hn & Hw). apply rb_inl in Hw as (perm & Hp & Hw). apply rb_inl in Hw as (f & Hf & Hw). injection Hw as <-.
      rewrite (weight_same _ _ He). simpl. lia.
    - apply prim1_bound in Hf as (ps & x & Hps & Hx & He). unfold reduce_sum_as_einsum, arg in Hw. rewrite Hx, Hps in Hw. cbn [opt rb] in Hw.
      apply rb_inl in Hw as (n & Hn & Hw). apply rb_inl in Hw as (perm & Hp & Hw). apply rb_inl in Hw as (f & Hf & Hw). injection Hw as <-.
      rewrite (weight_same _ _ He). simpl. lia.
    - apply compose_bound in Hf as (p & l & c & a & r & Hp & Hl & Hc & Ha & Hr & He).
      unfold compose_handler, tuple_arg, str_arg, arg in Hw. rewrite Hp, Hl, Hc, Ha, Hr in Hw. cbn [opt rb] in Hw.
      destruct p as [|p| | |]; try discriminate. destruct c as [|c| | |]; try discriminate. cbn [rb] in Hw.
      apply rb_inl in Hw as (f & Hf & Hw). injection Hw as <-.
      rewrite (weight_same _ _ He). cbn [weight Einsum]. rewrite !weight_app. simpl. lia.
    - apply add_bound in Hf as (ps & x & y & Hx & Hy & He). unfold add_to_addn, arg in Hw. rewrite Hx, Hy in Hw. cbn [opt rb] in Hw. injection Hw as <-.
      rewrite (weight_same _ _ He). simpl. lia.
    - apply addn_bound in Hf as (l & a & r & Hl & Ha & Hr & He). unfold addn_of_addn_to_addn, tuple_arg, arg in Hw. rewrite Hl, Ha, Hr in Hw. cbn [opt rb] in Hw. injection Hw as <-.
      rewrite (weight_same _ _ He). cbn [weight AddN]. rewrite !weight_app. simpl. lia.
  Qed.
  Notation shrinks := (shrinks weight).
  Lemma shrinks_same (N : val -> Prop) a b c : (forall v w, same v w -> N v -> N w) -> same a b -> shrinks N b c -> shrinks N a c.
  Proof using.
    intros HN H [[H1 H2]|H1]; [left|right; rewrite (weight_same _ _ H); assumption]. assert (H' : same b a) by (unfold same in *; rewrite py_eq_sym; assumption).
    split; [|eapply HN; eassumption]. eapply py_eq_trans; eassumption.
  Qed.
  (** rule i is settled on e *)
  Variable Ns : nat -> val -> Prop.
  Hypothesis Ns_same : forall i v w, same v w -> Ns i v -> Ns i w.
  Hypothesis Ns_settled : forall i p h e, In (i, (p, h)) (combine (seq 0 7) (pattern_handlers K P)) ->
    match_ p e = inr MatchErr \/ (exists b, match_ p e = inl b /\ h b = inr MatchErr) -> Ns i e.
  Definition all_shrink (s : caches) : Prop := forall j : nat, cache_meets (shrinks (Ns j)) (s j).
  Lemma rules_shrink i p h e : In (i, (p, h)) (combine (seq 0 7) (pattern_handlers K P)) ->
    meets all_shrink (shrinks (Ns i)) (at_cache i (make_rule p h)) e.
  Proof using Ns_same Ns_settled.
    intros Hin. apply (at_cache_meets (fun i => shrinks (Ns i))). apply make_rule_meets.
    - intros a b c. apply shrinks_same. apply Ns_same.
    - intros x w H. unfold rule_body in H. destruct (match_ p x) as [b|er] eqn:Hm.
      + destruct (h b) as [v|er] eqn:Hh.
        * injection H as <-. right. eapply handlers_shrink; [eapply in_combine_r; eassumption|eassumption..].
        * destruct er; try discriminate. injection H as <-. left. split; [apply py_eq_refl|]. eapply Ns_settled; [eassumption|]. right. eauto.
      + destruct er; try discriminate. injection H as <-. left. split; [apply py_eq_refl|]. eapply Ns_settled; [eassumption|]. left. assumption.
  Qed.
  Definition canonical_for (e : val) : Prop := forall x i p h, within x e -> In (i, (p, h)) (combine (seq 0 7) (pattern_handlers K P)) -> Ns i x.
  Lemma canonicalize_shrinks :
    (forall s e, all_shrink s -> exists fuel out, canonicalize K P fuel s e = Some out) /\
    (forall fuel s e s' e', all_shrink s -> canonicalize K P fuel s e = Some (s', inl e') -> canonical_for e') /\
    (forall fuel s e s' out, all_shrink s -> canonicalize K P fuel s e = Some (s', out) -> all_shrink s').
  Proof using Ns_same Ns_settled.
    set (rns := map (fun iph => (at_cache (fst iph) (make_rule (fst (snd iph)) (snd (snd iph))), Ns (fst iph))) (combine (seq 0 7) (pattern_handlers K P))).
    assert (Hrl : forall e, meets all_shrink (settles weight (fun x => forall r N, In (r, N) rns -> N x)) (rule_list (map fst rns)) e).
    { apply (rule_list_shrinks all_shrink weight weight_size_like). intros r N e Hin. unfold rns in Hin. apply in_map_iff in Hin as ([i [p h]] & E & Hin).
      cbn [fst snd] in E. injection E as <- <-. apply rules_shrink. assumption. }
    pose proof (bottom_up_shrinks all_shrink weight weight_size_like _ _ Hrl) as Hbu.
    assert (E : map fst rns = canonicalization_rules K P).
    { unfold rns, canonicalization_rules. rewrite map_map. reflexivity. }
    rewrite E in Hbu. destruct (iterated_shrinks all_shrink weight weight_size_like _ _ Hbu) as [H1 H2]. unfold canonicalize, term_rewriter. split; [exact H1|]. split.
    - intros fuel s e s' e' Hs H x i p h Hx Hin. apply (H2 _ _ _ _ _ Hs H x Hx (at_cache i (make_rule p h)) (Ns i)). unfold rns. apply in_map_iff.
      exists (i, (p, h)). split; [reflexivity|assumption].
    - intros fuel s e s' out Hs H. eapply (iterated_meets all_shrink (fun _ _ => True)); [auto| |exact Hs|exact H].
      intros e0 s0 s0' o Hs0 H0. destruct (Hbu e0 s0 s0' o Hs0 H0) as [Hx _]. auto.
  Qed.
  Lemma rule_calls_shrink r s e s' out : In r (canonicalization_rules K P) -> all_shrink s -> r s e = (s', out) -> all_shrink s'.
  Proof using Ns_same Ns_settled.
    intros H. unfold canonicalization_rules in H. apply in_map_iff in H as ([i [p h]] & <- & Hin). cbn [fst snd]. intros Hs Hr.
    exact (proj1 (rules_shrink i p h e Hin s s' out Hs Hr)).
  Qed.
End shrink.

(** ** Redexes *)
Definition redex (i : nat) (y : val) : Prop :=
  match i with
  | 0 => exists ps x, y = Primitive "transpose" ps [x]
  | 1 => exists ps x x', y = Primitive "dot_general" ps [x; x']
  | 2 => exists ps x, y = Primitive "squeeze" ps [x]
  | 3 => exists ps x, y = Primitive "reduce_sum" ps [x]
  | 4 => exists p l c a r, y = VNode "Einsum" [p] (l ++ VNode "Einsum" [c] a :: r)
  | 5 => exists x x', y = Primitive "add" (Params []) [x; x']
  | 6 => exists l a r, y = AddN (l ++ AddN a :: r)
  | _ => False
  end.
Lemma same_node_inv c h k w : same (VNode c h k) w -> exists h' k', w = VNode c h' k' /\ map canon h = map canon h' /\ map canon k = map canon k'.
Proof. intros H. apply py_eq_canon in H. destruct w; simpl in H; try discriminate. injection H as -> H1 H2. eauto. Qed.
Lemma map_canon_app l1 l2 m : map canon (l1 ++ l2) = map canon m -> exists m1 m2, m = m1 ++ m2 /\ map canon l1 = map canon m1 /\ map canon l2 = map canon m2.
Proof.
  revert m. induction l1 as [|x l1 IH]; intros m H; simpl in H.
  - exists [], m. auto.
  - destruct m as [|y m]; [discriminate|]. simpl in H. injection H as H1 H2. destruct (IH m H2) as (m1 & m2 & -> & H3 & H4).
    exists (y :: m1), m2. simpl. repeat split; congruence.
Qed.
Lemma canon_sym_same a b : canon a = canon b -> same a b.
Proof. apply py_eq_canon. Qed.
Lemma str_canon s v : canon (VStr s) = canon v -> v = VStr s.
Proof. destruct v; simpl; congruence. Qed.
Lemma redex_same i v w : same v w -> redex i v -> redex i w.
Proof.
  intros Hs. destruct i as [|[|[|[|[|[|[|]]]]]]]; cbn [redex].
  1,3,4: intros (ps & x & ->); apply same_node_inv in Hs as (h & k & -> & H1 & H2);
     destruct h as [|n [|q []]]; try discriminate; destruct k as [|y []]; try discriminate; injection H1 as H1 _;
     apply (str_canon _ n) in H1; subst n; exists q, y; reflexivity.
  - intros (ps & x & x' & ->). apply same_node_inv in Hs as (h & k & -> & H1 & H2).
    destruct h as [|n [|q []]]; try discriminate; destruct k as [|y [|y' []]]; try discriminate. injection H1 as H1 _.
    apply (str_canon _ n) in H1; subst n. exists q, y, y'. reflexivity.
  - intros (p & l & c & a & r & ->). apply same_node_inv in Hs as (h & k & -> & H1 & H2). destruct h as [|n []]; try discriminate.
    apply map_canon_app in H2 as (m1 & m2 & -> & _ & H3). destruct m2 as [|y m2]; [discriminate|]. injection H3 as H3 _.
    change (canon (VNode "Einsum" [c] a) = canon y) in H3. apply canon_sym_same, same_node_inv in H3 as (h & k & -> & H4 & H5). destruct h as [|n' []]; try discriminate.
    do 5 eexists. reflexivity.
  - intros (x & x' & ->). apply same_node_inv in Hs as (h & k & -> & H1 & H2).
    destruct h as [|n [|q []]]; try discriminate; destruct k as [|y [|y' []]]; try discriminate. injection H1 as H1 H3.
    apply (str_canon _ n) in H1; subst n. change (canon (Params []) = canon q) in H3. apply canon_sym_same, same_node_inv in H3 as (h & k & -> & H4 & H5).
    destruct k; [|discriminate]. destruct h as [|u [|v []]]; try discriminate. injection H4 as H6 H7.
    destruct u as [| |[] [|]| |]; try discriminate. destruct v as [| |[] [|]| |]; try discriminate. exists y, y'. reflexivity.
  - intros (l & a & r & ->). apply same_node_inv in Hs as (h & k & -> & H1 & H2). destruct h; try discriminate.
    apply map_canon_app in H2 as (m1 & m2 & -> & _ & H3). destruct m2 as [|y m2]; [discriminate|]. injection H3 as H3 _.
    change (canon (VNode "AddN" [] a) = canon y) in H3. apply canon_sym_same, same_node_inv in H3 as (h & k & -> & H4 & H5). destruct h; try discriminate.
    do 3 eexists. reflexivity.
  - intros [].
Qed.
Lemma complete p y s : tame p -> scoped true [] p -> is_star p = false -> fits s p y -> exists b, match_ p y = inl b.
Proof.
  intros Ht Hs Hst Hf. destruct (C03_match_complete_partial p y s Ht Hs Hf) as (_ & [b Hb] & _). unfold match_all, match_ in *. rewrite Hst in *.
  destruct (pmatch p y [] gret) as [[|b' l] er]; [destruct Hb|]. eauto.
Qed.
Lemma fits_V s x v : s x = Some v -> fits s (CanonicalizeModel.V x) v.
Proof. intros H. split; [constructor|]. exists v. split; [assumption|apply py_eq_refl]. Qed.
Lemma fits_V1 s x v : s x = Some v -> fits s (CanonicalizeModel.ptup [CanonicalizeModel.V x]) (VSeq KTuple [v]).
Proof. intros H. exists SlTuple, [v]. split; [reflexivity|]. exists v, []. split; [reflexivity|]. split; [apply fits_V; assumption|reflexivity]. Qed.
Lemma fits_V2 s x v y w : s x = Some v -> s y = Some w -> fits s (CanonicalizeModel.ptup [CanonicalizeModel.V x; CanonicalizeModel.V y]) (VSeq KTuple [v; w]).
Proof.
  intros H H1. exists SlTuple, [v; w]. split; [reflexivity|]. exists v, [w]. split; [reflexivity|]. split; [apply fits_V; assumption|].
  exists w, []. split; [reflexivity|]. split; [apply fits_V; assumption|reflexivity].
Qed.
Lemma fits_prim s p pp ps xs ops : is_star pp = false -> fits s pp ps -> fits s (CanonicalizeModel.ptup xs) (VSeq KTuple ops) -> fits s (PPrim p pp xs) (Primitive p ps ops).
Proof.
  intros Hp H1 H2. exists [str_of p; ps], ops. split; [reflexivity|]. split; [|assumption]. exists SlTuple, [str_of p; ps]. split; [reflexivity|].
  exists (str_of p), [ps]. split; [reflexivity|]. split; [reflexivity|]. destruct pp; try discriminate Hp; (exists ps, []; split; [reflexivity|]; split; [exact H1|reflexivity]).
Qed.
Lemma any_env (s : MatcherSpec.env) (seg : list val) : exists ss : list MatcherSpec.env, Forall2 (fun si ei => (forall x, ~ In x [] -> si x = s x) /\ fits si Dot ei) ss seg.
Proof.
  exists (map (fun _ => s) seg). induction seg; simpl; constructor; [|assumption]. split; [reflexivity|]. split; [constructor|exact I].
Qed.
Lemma fits_seg s x y q l v r : is_star q = false -> s x = Some (VSeq KTuple l) -> s y = Some (VSeq KTuple r) -> fits s q v ->
  fits s (CanonicalizeModel.ptup [Segment (Some x); q; Segment (Some y)]) (VSeq KTuple (l ++ v :: r)).
Proof.
  intros Hq Hx Hy Hv. exists SlTuple, (l ++ v :: r). split; [reflexivity|]. destruct (any_env s l) as [ss Hss]. exists l, (v :: r), ss.
  split; [reflexivity|]. split; [discriminate|]. split; [exists (VSeq KTuple l); split; [assumption|apply py_eq_refl]|]. split; [exact Hss|]. split; [intros a []|].
  destruct (any_env s r) as [ss' Hss'].
  destruct q; try discriminate Hq; (exists v, r; split; [reflexivity|]; split; [exact Hv|]; exists r, [], ss'; split; [symmetry; apply app_nil_r|];
    split; [discriminate|]; split; [exists (VSeq KTuple r); split; [assumption|apply py_eq_refl]|]; split; [exact Hss'|]; split; [intros a []|reflexivity]).
Qed.
Lemma fits_seg1 s x l : s x = Some (VSeq KTuple l) -> fits s (CanonicalizeModel.ptup [Segment (Some x)]) (VSeq KTuple l).
Proof.
  intros Hx. exists SlTuple, l. split; [reflexivity|]. destruct (any_env s l) as [ss Hss]. exists l, [], ss. split; [symmetry; apply app_nil_r|].
  split; [discriminate|]. split; [exists (VSeq KTuple l); split; [assumption|apply py_eq_refl]|]. split; [exact Hss|]. split; [intros a []|reflexivity].
Qed.
Lemma fits_einsum s fx f kp ks : s fx = Some f -> fits s kp (VSeq KTuple ks) -> fits s (PEinsum (CanonicalizeModel.V fx) kp) (VNode "Einsum" [f] ks).
Proof. intros H1 H2. exists [f], ks. split; [reflexivity|]. split; [|exact H2]. apply fits_V1. assumption. Qed.
Lemma fits_addn s kp ks : fits s kp (VSeq KTuple ks) -> fits s (PAddN kp) (AddN ks).
Proof. intros H2. exists [], ks. split; [reflexivity|]. split; [|exact H2]. exists SlTuple, []. split; reflexivity. Qed.
Lemma patterns_full p h K (P : prims K) : In (p, h) (pattern_handlers K P) -> scoped true [] p /\ is_star p = false.
Proof.
  intros H. unfold pattern_handlers in H. cbn in H. unfold disjoint, incl in *.
  repeat (destruct H as [H|H]; [injection H as <- _; cbn; unfold disjoint, incl; cbn; repeat split; try tauto; intros; intuition (subst; try discriminate)|]).
  destruct H.
Qed.
Lemma redex_matches K (P : prims K) i p h y : In (i, (p, h)) (combine (seq 0 7) (pattern_handlers K P)) -> redex i y -> exists b, match_ p y = inl b.
Proof.
  intros Hin Hr. destruct (patterns_ok p h K P (in_combine_r _ _ _ _ Hin)) as [Ht _]. destruct (patterns_full p h K P (in_combine_r _ _ _ _ Hin)) as [Hs Hst].
  enough (exists s, fits s p y) as [s Hf] by (eapply complete; eassumption). clear Ht Hs Hst.
  cbn [combine seq pattern_handlers In] in Hin.
  destruct Hin as [E|[E|[E|[E|[E|[E|[E|[]]]]]]]]; injection E as <- <- <-; cbn [redex] in Hr.
  - destruct Hr as (ps & x & ->). exists (dget [("params", ps); ("x", x)]). apply fits_prim; [reflexivity|apply fits_V; reflexivity|apply fits_V1; reflexivity].
  - destruct Hr as (ps & x & x' & ->). exists (dget [("params", ps); ("x", x); ("y", x')]). apply fits_prim; [reflexivity|apply fits_V; reflexivity|apply fits_V2; reflexivity].
  - destruct Hr as (ps & x & ->). exists (dget [("params", ps); ("x", x)]). apply fits_prim; [reflexivity|apply fits_V; reflexivity|apply fits_V1; reflexivity].
  - destruct Hr as (ps & x & ->). exists (dget [("params", ps); ("x", x)]). apply fits_prim; [reflexivity|apply fits_V; reflexivity|apply fits_V1; reflexivity].
  - destruct Hr as (p & l & c & a & r & ->).
    exists (dget [("parent_formula", p); ("left_args", VSeq KTuple l); ("child_formula", c); ("child_args", VSeq KTuple a); ("right_args", VSeq KTuple r)]).
    apply fits_einsum; [reflexivity|]. apply fits_seg; [reflexivity..|]. apply fits_einsum; [reflexivity|]. apply fits_seg1. reflexivity.
  - destruct Hr as (x & x' & ->). exists (dget [("x", x); ("y", x')]). apply fits_prim; [reflexivity| |apply fits_V2; reflexivity].
    eexists _, _. split; [reflexivity|]. split.
    + eexists SlTuple, _. split; [reflexivity|]. eexists _, _. split; [reflexivity|]. split; [exists SlTuple, []; split; reflexivity|].
      eexists _, _. split; [reflexivity|]. split; [exists SlTuple, []; split; reflexivity|reflexivity].
    + exists SlTuple, []. split; reflexivity.
  - destruct Hr as (l & a & r & ->). exists (dget [("args1", VSeq KTuple l); ("child_args", VSeq KTuple a); ("args2", VSeq KTuple r)]).
    apply fits_addn. apply fits_seg; [reflexivity..|]. apply fits_addn. apply fits_V. reflexivity.
Qed.

(** ** The handlers do not raise MatchError themselves *)
Definition nm {A} (x : result A) : Prop := x <> inr MatchErr.
Lemma nm_rb {A B} (x : result A) (f : A -> result B) : nm x -> (forall a, nm (f a)) -> nm (rb x f).
Proof. unfold nm. destruct x; simpl; auto. intros H _ E. injection E as ->. auto. Qed.
Lemma nm_rb' {A B} (x : result A) (f : A -> result B) : nm x -> (forall a, nm (f a)) -> nm (rb' x f).
Proof. apply nm_rb. Qed.
Lemma nm_opt {A} e (x : option A) : e <> MatchErr -> nm (opt e x).
Proof. unfold nm. destruct x; simpl; congruence. Qed.
Lemma nm_inl {A} (a : A) : nm (inl a).
Proof. discriminate. Qed.
Lemma nm_seqr {A} (l : list (result A)) : Forall nm l -> nm (seqr l).
Proof. induction 1; cbn [seqr]; [apply nm_inl|]. apply nm_rb; [assumption|]. intros a. apply nm_rb; [assumption|]. intros; apply nm_inl. Qed.
Lemma nm_rmap {A B} (f : A -> result B) l : (forall a, nm (f a)) -> nm (rmap f l).
Proof. intros H. induction l; cbn [rmap]; [apply nm_inl|]. apply nm_rb; [auto|]. intros b. apply nm_rb; [assumption|]. intros; apply nm_inl. Qed.
Lemma nm_sarrs ss : Forall nm ss -> nm (sarrs ss).
Proof. intros H. apply nm_rb; [apply nm_seqr; assumption|]. intros l. apply nm_rmap. intros []; discriminate. Qed.
Lemma nm_letters_at l is : nm (letters_at l is).
Proof.
  induction is; cbn [letters_at]; [apply nm_inl|]. apply nm_rb'; [unfold nth_letter; destruct (nth_error l a); discriminate|].
  intros b. apply nm_rb'; [assumption|]. intros; apply nm_inl.
Qed.
Lemma nm_set_nth l : forall i a, nm (set_nth l i a).
Proof. induction l; intros [|i] b; cbn [set_nth]; try discriminate. apply nm_rb'; [apply IHl|intros; apply nm_inl]. Qed.
Lemma nm_share x ds : forall y, nm (share x y ds).
Proof.
  induction ds as [|[i j] ds IH]; intros y; cbn [share]; [apply nm_inl|]. apply nm_rb'; [unfold nth_letter; destruct (nth_error x i); discriminate|].
  intros a. apply nm_rb'; [apply nm_set_nth|auto].
Qed.
Lemma nm_access k st : nm (access k st).
Proof. unfold access. destruct (mget _ _); [apply nm_inl|]. destruct (snd st); discriminate. Qed.
Lemma nm_access_all mk ls : forall st, nm (access_all mk ls st).
Proof. induction ls; intros st; cbn [access_all]; [apply nm_inl|]. apply nm_rb'; [apply nm_access|]. intros r. apply nm_rb'; [auto|]. intros; apply nm_inl. Qed.
Lemma nm_access_alls mk ls : forall st, nm (access_alls mk ls st).
Proof. induction ls; intros st; cbn [access_alls]; [apply nm_inl|]. apply nm_rb'; [apply nm_access_all|]. intros r. apply nm_rb'; [auto|]. intros; apply nm_inl. Qed.
Lemma nm_link cl : forall st, nm (link cl st).
Proof. induction cl as [|[c l] cl IH]; intros st; cbn [link]; [apply nm_inl|]. apply nm_rb'; [apply nm_access|]. intros; apply IH. Qed.
Lemma nm_compose p n c : nm (compose_einsums p n c).
Proof.
  unfold compose_einsums, split_einsum_formula. apply nm_rb'; [destruct (split_arrow p) as [|? [|? []]]; discriminate|]. intros f.
  apply nm_rb'; [destruct (split_arrow c) as [|? [|? []]]; discriminate|]. intros g. apply nm_rb'; [|intros; apply nm_inl].
  unfold compose_formula. destruct (nth_error _ _); [|discriminate]. destruct (Nat.eqb _ _); [|discriminate].
  apply nm_rb'; [apply nm_access_alls|]. intros r1. apply nm_rb'; [apply nm_access_all|]. intros r2. apply nm_rb'; [apply nm_link|]. intros r3.
  apply nm_rb'; [apply nm_access_alls|]. intros; apply nm_inl.
Qed.
Lemma nm_einsum_str K k0 k1 kadd kmul s ops : nm (einsum_str K k0 k1 kadd kmul s ops).
Proof.
  unfold einsum_str, split_einsum_formula. apply nm_rb'; [destruct (split_arrow s) as [|? [|? []]]; discriminate|]. intros f.
  destruct (clean f); [|discriminate]. unfold einsum. destruct (einsum_ok _ _ _ _); discriminate.
Qed.
Lemma nm_addn K k0 kadd ops : nm (addn K k0 kadd ops).
Proof.
  destruct ops as [|x l]; cbn [addn]; [discriminate|]. revert x. induction l; intros x; cbn [reduce_add]; [apply nm_inl|]. apply nm_rb'; [|auto].
  unfold add_arrays. destruct (list_eq_dec _ _ _); discriminate.
Qed.
Lemma nm_lax_shape p ps ss : nm (lax_shape p ps ss).
Proof.
  unfold lax_shape, transpose_shape, squeeze_shape, reduce_sum_shape, dot_shape, add_shape. destruct (String.eqb p "transpose").
  { destruct (axes_param _ _); [|discriminate]. destruct ss as [|? []]; try discriminate. destruct (_ && _)%bool; discriminate. }
  destruct (String.eqb p "squeeze").
  { destruct (axes_param _ _); [|discriminate]. destruct ss as [|? []]; try discriminate. destruct (_ && _)%bool; discriminate. }
  destruct (String.eqb p "reduce_sum").
  { destruct (axes_param _ _); [|discriminate]. destruct ss as [|? []]; try discriminate. destruct (_ && _)%bool; discriminate. }
  destruct (String.eqb p "dot_general").
  { destruct (dims_param _) as [[[? ?] [? ?]]|]; [|discriminate]. destruct ss as [|? [|? []]]; try discriminate. destruct (_ && _)%bool; discriminate. }
  destruct ss as [|? [|? []]]; try discriminate. destruct (list_eq_dec _ _ _); discriminate.
Qed.
Section nm.
  Variables (K : Type) (P : prims K).
  Hypothesis H1 : forall p v l, nm (oshape P p v l).
  Hypothesis HN : forall p v l, nm (oshapeN P p v l).
  Lemma nm_eshape v : nm (eshape K P v).
  Proof using H1 HN.
    induction v as [k z|s|k l IH|ks vs _|c h ks _ IH] using val_ind'; cbn [eshape]; try discriminate.
    - apply nm_rb; [apply nm_opt; discriminate|]. intros; apply nm_inl.
    - assert (HF : Forall nm (map (eshape K P) ks)) by (clear -IH; induction IH; simpl; constructor; auto).
      unfold node_shape.
      destruct (String.eqb c "JaxVar").
      { destruct h as [|? [|? []]]; try discriminate. apply nm_rb; [apply nm_opt; discriminate|intros; apply nm_inl]. }
      destruct (String.eqb c "Literal"); [discriminate|].
      destruct (String.eqb c "Primitive").
      { destruct h as [|? [|? []]]; try discriminate. apply nm_rb; [apply nm_opt; discriminate|]. intros p. apply nm_rb; [apply nm_sarrs; assumption|]. intros ds.
        destruct (known p); [apply nm_rb; [apply nm_lax_shape|intros; apply nm_inl]|]. destruct (multi P p); (apply nm_rb; [auto|intros; apply nm_inl]). }
      destruct (String.eqb c "Part").
      { destruct h as [|? []]; try discriminate. destruct HF as [|? ? ? HF]; [discriminate|]. destruct HF; [|discriminate]. apply nm_rb; [apply nm_opt; discriminate|].
        intros i. apply nm_rb; [assumption|]. intros [|t]; [discriminate|apply nm_opt; discriminate]. }
      destruct (String.eqb c "BoundExpression"); [apply nm_rb; [apply nm_seqr; assumption|intros; apply nm_inl]|].
      destruct (String.eqb c "CallPrimitive"); [discriminate|].
      destruct (String.eqb c "Einsum").
      { destruct h as [|[] []]; try discriminate. apply nm_rb; [apply nm_sarrs; assumption|]. intros ds. apply nm_rb; [apply nm_einsum_str|intros; apply nm_inl]. }
      destruct (String.eqb c "AddN"); [|discriminate].
      apply nm_rb; [apply nm_sarrs; assumption|]. intros ds. apply nm_rb; [apply nm_addn|intros; apply nm_inl].
  Qed.
  Lemma nm_ndim x : nm (ndim_of K P x).
  Proof using H1 HN. apply nm_rb; [apply nm_eshape|]. intros []; [|discriminate]. apply nm_inl. Qed.
  Lemma nm_arg b x : nm (arg b x).
  Proof using. apply nm_opt. discriminate. Qed.
  Lemma nm_tuple_arg b x : nm (tuple_arg b x).
  Proof using. apply nm_rb; [apply nm_arg|]. intros [| |[]| |]; discriminate. Qed.
  Lemma nm_str_arg b x : nm (str_arg b x).
  Proof using. apply nm_rb; [apply nm_arg|]. intros [| |[]| |]; discriminate. Qed.
  Lemma nm_handlers p h b : In (p, h) (pattern_handlers K P) -> nm (h b).
  Proof using H1 HN.
    intros Hin. cbn [pattern_handlers In] in Hin.
    destruct Hin as [E|[E|[E|[E|[E|[E|[E|[]]]]]]]]; injection E as <- <-;
      unfold transpose_as_einsum, dot_as_einsum, squeeze_as_einsum, reduce_sum_as_einsum, compose_handler, add_to_addn, addn_of_addn_to_addn, transpose_formula, drop_formula;
      repeat (first [apply nm_inl|apply nm_letters_at|apply nm_tuple_arg|apply nm_str_arg|apply nm_arg|apply nm_ndim|apply nm_compose|apply nm_share|apply nm_opt; discriminate
        |apply nm_rb; [|intros]|apply nm_rb'; [|intros]]).
    destruct a2 as [[? ?] [? ?]]. apply nm_rb; [|intros; apply nm_inl]. unfold dot_formula. apply nm_rb'; [apply nm_share|]. intros. apply nm_rb'; [apply nm_letters_at|]. intros; apply nm_inl.
  Qed.
End nm.
