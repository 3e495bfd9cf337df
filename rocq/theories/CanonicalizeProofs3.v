(** canonicalize: invariants of the rule caches, term rewriting with cached rules, termination and normal forms. *)
From Verif Require Import MatcherSpec MatcherProps RulesProofs JaxProofs CanonicalizeModel CanonicalizeProofs CanonicalizeProofs2.

(** ** Rules with an invariant on their state *)
Definition meets {S} (Inv : S -> Prop) (Q : val -> val -> Prop) (r : rule S) (e : val) : Prop :=
  forall s s' out, Inv s -> r s e = (s', out) -> Inv s' /\ forall e', out = inl e' -> Q e e'.
Section inv.
  Context {S : Type} (Inv : S -> Prop).
  Lemma mapM_meets Q (f : rule S) l : Forall (meets Inv Q f) l ->
    forall s s' out, Inv s -> mapM f s l = (s', out) -> Inv s' /\ forall l', out = inl l' -> Forall2 Q l l'.
  Proof.
    induction 1 as [|x l Hx Hl IH]; intros s s' out Hs H; cbn [mapM] in H.
    - injection H as <- <-. split; [assumption|]. intros l' E. injection E as <-. constructor.
    - destruct (f s x) as [s1 o1] eqn:E1. destruct (Hx s s1 o1 Hs E1) as [Hs1 Hq]. destruct o1 as [y|er].
      + cbn [rbind] in H. fold (mapM f) in H. destruct (mapM f s1 l) as [s2 o2] eqn:E2. destruct (IH s1 s2 o2 Hs1 E2) as [Hs2 Hq2]. destruct o2 as [ys|er].
        * cbn [rbind] in H. injection H as <- <-. split; [assumption|]. intros l' E. injection E as <-. constructor; auto.
        * cbn [rbind] in H. injection H as <- <-. split; [assumption|discriminate].
      + cbn [rbind] in H. injection H as <- <-. split; [assumption|discriminate].
  Qed.
  Lemma tree_map_meets Q (f : rule S) v : Forall (meets Inv Q f) (kids v) ->
    forall s s' out, Inv s -> tree_map v f s = (s', out) -> Inv s' /\ forall w, out = inl w -> exists l, w = with_kids v l /\ Forall2 Q (kids v) l.
  Proof.
    intros HF s s' out Hs H.
    assert (T : forall mk, (forall l, mk l = with_kids v l) -> rbind (mapM f s (kids v)) (fun s' l' => rret s' (mk l')) = (s', out) ->
      Inv s' /\ forall w, out = inl w -> exists l, w = with_kids v l /\ Forall2 Q (kids v) l).
    { intros mk Hmk H'. destruct (mapM f s (kids v)) as [s1 o1] eqn:E1. destruct (mapM_meets Q f _ HF s s1 o1 Hs E1) as [H1 H2].
      destruct o1 as [l|er]; cbn [rbind rret] in H'; injection H' as <- <-; (split; [assumption|]); [|discriminate].
      intros w E. injection E as <-. exists l. auto. }
    assert (N : with_kids v [] = v -> kids v = [] -> (s', out) = (s, inl v) -> Inv s' /\ forall w, out = inl w -> exists l, w = with_kids v l /\ Forall2 Q (kids v) l).
    { intros H1 H2 H3. injection H3 as -> ->. split; [assumption|]. intros w E. injection E as <-. exists []. rewrite H1, H2. auto. }
    destruct v as [k z|t|[] l|ks vs|c h k]; cbn [tree_map rret] in H.
    - apply N; auto. - apply N; auto.
    - exact (T (VSeq KTuple) (fun _ => eq_refl) H).
    - injection H as <- <-. split; [assumption|discriminate].
    - exact (T (VDict ks) (fun _ => eq_refl) H).
    - exact (T (VNode c h) (fun _ => eq_refl) H).
  Qed.
  Lemma bottom_up_meets Q0 Q (r : rule S) : (forall e, meets Inv Q0 r e) ->
    (forall v l e', Forall2 Q (kids v) l -> Q0 (with_kids v l) e' -> Q v e') -> forall e, meets Inv Q (bottom_up r) e.
  Proof.
    intros Hr HQ. induction e as [v IH] using kids_ind. intros s s' out Hs H. rewrite bottom_up_eq in H. unfold rewrite_subexpressions in H.
    destruct (tree_map v (bottom_up r) s) as [s1 o1] eqn:E1. destruct (tree_map_meets Q _ v IH s s1 o1 Hs E1) as [Hs1 H1].
    destruct o1 as [w|er]; cbn [rbind] in H.
    - destruct (H1 w eq_refl) as (l & -> & Hl). destruct (Hr _ s1 s' out Hs1 H) as [Hs' H2]. split; [assumption|]. eauto.
    - injection H as <- <-. split; [assumption|discriminate].
  Qed.
  Lemma rule_list_meets (R : val -> val -> Prop) (rs : list (rule S)) : (forall v, R v v) ->
    (forall r e, In r rs -> meets Inv R r e) -> forall e, meets Inv R (rule_list rs) e.
  Proof.
    intros Hrefl. induction rs as [|r rs IH]; intros Hr e s s' out Hs H; cbn [rule_list] in H.
    - injection H as <- <-. split; [assumption|]. intros e' E. injection E as <-. apply Hrefl.
    - destruct (r s e) as [s1 o1] eqn:E1. destruct (Hr r e (or_introl eq_refl) s s1 o1 Hs E1) as [Hs1 H1]. destruct o1 as [x|er]; cbn [rbind] in H.
      + destruct (negb (py_eq x e)).
        * injection H as <- <-. auto.
        * eapply IH; [|exact Hs1|exact H]. intros; apply Hr; right; assumption.
      + injection H as <- <-. auto.
  Qed.
  Lemma iterated_meets (R : val -> val -> Prop) (r : rule S) : (forall a b c, R a b -> R b c -> R a c) -> (forall e, meets Inv R r e) ->
    forall fuel s e s' out, Inv s -> iterated r fuel s e = Some (s', out) -> Inv s' /\ forall e', out = inl e' -> R e e'.
  Proof.
    intros Ht Hr. induction fuel as [|fuel IH]; intros s e s' out Hs H; cbn [iterated] in H; [discriminate|].
    destruct (r s e) as [s1 o1] eqn:E1. destruct (Hr e s s1 o1 Hs E1) as [Hs1 H1]. destruct o1 as [x|er].
    - destruct (py_eq e x).
      + injection H as <- <-. auto.
      + destruct (IH s1 x s' out Hs1 H) as [H2 H3]. split; [assumption|]. intros e' E. eapply Ht; [apply H1; reflexivity|auto].
    - injection H as <- <-. auto.
  Qed.
  Lemma term_rewriter_meets (R : val -> val -> Prop) (rs : list (rule S)) : compositional R -> (forall r e, In r rs -> meets Inv R r e) ->
    forall fuel s e s' out, Inv s -> term_rewriter rs fuel s e = Some (s', out) -> Inv s' /\ forall e', out = inl e' -> R e e'.
  Proof.
    intros (H1 & H2 & H3) Hr. apply iterated_meets; [assumption|]. apply (bottom_up_meets R R); [apply rule_list_meets; auto|]. eauto.
  Qed.

  (** shrinking rules *)
  Variable mu : val -> nat.
  Hypothesis Hmu : size_like mu.
  Definition shrinks (N : val -> Prop) (e e' : val) : Prop := (same e' e /\ N e) \/ mu e' < mu e.
  Definition settles (N : val -> Prop) (e e' : val) : Prop := (e' = e /\ N e) \/ mu e' < mu e.
  Lemma rule_list_shrinks (rns : list (rule S * (val -> Prop))) : (forall r N e, In (r, N) rns -> meets Inv (shrinks N) r e) ->
    forall e, meets Inv (settles (fun x => forall r N, In (r, N) rns -> N x)) (rule_list (map fst rns)) e.
  Proof using Hmu.
    induction rns as [|[r N] rns IH]; intros Hr e s s' out Hs H; cbn [map fst rule_list] in H.
    - injection H as <- <-. split; [assumption|]. intros e' E. injection E as <-. left. split; [reflexivity|]. intros r N [].
    - destruct (r s e) as [s1 o1] eqn:E1. destruct (Hr r N e (or_introl eq_refl) s s1 o1 Hs E1) as [Hs1 H1]. destruct o1 as [x|er]; cbn [rbind] in H.
      + specialize (H1 x eq_refl). destruct (py_eq x e) eqn:E; cbn [negb] in H.
        * destruct (IH (fun r' N' e' Hin => Hr r' N' e' (or_intror Hin)) e s1 s' out Hs1 H) as [Hs' H2]. split; [assumption|].
          intros e' Ee. destruct (H2 e' Ee) as [[-> Hn]|Hlt]; [|right; assumption].
          destruct H1 as [[_ HN]|Hlt].
          -- left. split; [reflexivity|]. intros r' N' [E'|Hin]; [injection E' as <- <-; assumption|exact (Hn r' N' Hin)].
          -- destruct Hmu as [Hsame _]. rewrite (Hsame _ _ E) in Hlt. lia.
        * injection H as <- <-. split; [assumption|]. intros e' Ee. injection Ee as <-. right. destruct H1 as [[Hc _]|Hlt]; [|assumption].
          unfold same in Hc. congruence.
      + injection H as <- <-. split; [assumption|discriminate].
  Qed.
  Lemma bottom_up_shrinks (N : val -> Prop) (r : rule S) : (forall e, meets Inv (settles N) r e) ->
    forall e, meets Inv (settles (fun e => forall x, within x e -> N x)) (bottom_up r) e.
  Proof using Hmu.
    intros Hr. apply (bottom_up_meets (settles N)); [assumption|]. intros v l e' HF H0. destruct Hmu as [Hsame Hw].
    assert (Hk : (l = kids v /\ forall k, In k (kids v) -> forall x, within x k -> N x) \/
               (Forall2 (fun w k => mu w <= mu k) l (kids v) /\ Exists (fun wk => mu (fst wk) < mu (snd wk)) (combine l (kids v)))).
    { clear -HF. induction HF as [|x y lx ly Hxy HF IH].
      - left. split; [reflexivity|intros k []].
      - destruct Hxy as [[-> Hun]|Hlt].
        + destruct IH as [[-> Hall]|[H1 H2]].
          * left. split; [reflexivity|]. intros k [<-|Hin]; auto. intros z Hz. eapply Hall; eassumption.
          * right. split; [constructor; auto|]. apply Exists_cons_tl. assumption.
        + right. split; [|apply Exists_cons_hd; assumption]. constructor; [lia|].
          destruct IH as [[-> Hall]|[H1 H2]]; [|assumption]. clear. induction lx; constructor; auto. }
    destruct Hk as [[-> Hall]|[HF' HE]].
    - rewrite with_kids_self in H0. destruct H0 as [[-> Hn]|Hlt]; [left|right; assumption]. split; [reflexivity|].
      intros x Hx. inversion Hx as [|? k Hk Hx']; subst; [assumption|]. eapply Hall; eassumption.
    - right. destruct (Hw v l HF') as [_ Hlt]. specialize (Hlt HE). destruct H0 as [[-> _]|Hlt']; lia.
  Qed.
  Lemma iterated_shrinks N (r : rule S) : (forall e, meets Inv (settles N) r e) ->
    (forall s e, Inv s -> exists fuel out, iterated r fuel s e = Some out) /\
    (forall fuel s e s' e', Inv s -> iterated r fuel s e = Some (s', inl e') -> N e').
  Proof using Hmu.
    intros Hr. destruct Hmu as [Hsame _]. split.
    - intros s e. remember (mu e) as n eqn:Hn. revert s e Hn. induction n as [n IH] using lt_wf_ind. intros s e -> Hs.
      destruct (r s e) as [s1 [e1|er]] eqn:Hb.
      + destruct (Hr e s s1 _ Hs Hb) as [Hs1 H1]. destruct (py_eq e e1) eqn:He.
        * exists 1, (s1, inl e1). cbn [iterated]. rewrite Hb, He. reflexivity.
        * destruct (H1 e1 eq_refl) as [[-> _]|Hlt]; [rewrite py_eq_refl in He; discriminate|].
          destruct (IH (mu e1) Hlt s1 e1 eq_refl Hs1) as (fuel & out & Ho). exists (Datatypes.S fuel), out. cbn [iterated]. rewrite Hb, He. assumption.
      + exists 1, (s1, inr er). cbn [iterated]. rewrite Hb. reflexivity.
    - induction fuel as [|fuel IH]; intros s e s' e' Hs H; cbn [iterated] in H; [discriminate|].
      destruct (r s e) as [s1 [e1|er]] eqn:Hb; [|discriminate]. destruct (Hr e s s1 _ Hs Hb) as [Hs1 H1]. destruct (py_eq e e1) eqn:He.
      + injection H as <- <-. destruct (H1 e1 eq_refl) as [[-> Hn]|Hlt]; [assumption|]. rewrite (Hsame _ _ He) in Hlt. lia.
      + eapply IH; eassumption.
  Qed.
End inv.

(** ** The caches *)
Definition cache_meets (Q : val -> val -> Prop) (c : cache) : Prop := forall k w, In (k, w) c -> Q k w.
Lemma make_rule_meets (Q : val -> val -> Prop) p h : (forall a b c, same a b -> Q b c -> Q a c) -> (forall e w, rule_body p h e = inl w -> Q e w) ->
  forall e, meets (cache_meets Q) Q (make_rule p h) e.
Proof.
  intros Hsame Hb e c c' out Hc H. unfold make_rule in H. destruct (hashable e); [|injection H as <- <-; split; [assumption|discriminate]].
  destruct (lookup c e) as [v|] eqn:Hl.
  - injection H as <- <-. split; [assumption|]. intros e' E. injection E as <-. apply lookup_in in Hl as (k & H1 & H2).
    eapply Hsame; [|apply Hc; eassumption]. apply key_eq_same in H2. unfold same in *. rewrite py_eq_sym. assumption.
  - destruct (rule_body p h e) as [v|er] eqn:Hr; injection H as <- <-.
    + split; [|intros e' E; injection E as <-; auto]. intros k w Hin. apply in_app_or in Hin as [Hin|[Hin|[]]]; [auto|]. injection Hin as <- <-. auto.
    + split; [assumption|discriminate].
Qed.
Lemma at_cache_meets (Qs : nat -> val -> val -> Prop) i r e : meets (cache_meets (Qs i)) (Qs i) r e ->
  meets (fun s : caches => forall j, cache_meets (Qs j) (s j)) (Qs i) (at_cache i r) e.
Proof.
  intros Hr s s' out Hs H. unfold at_cache in H. destruct (r (s i) e) as [c o] eqn:E. cbn [fst snd] in H. injection H as <- <-.
  destruct (Hr _ _ _ (Hs i) E) as [H1 H2]. split; [|assumption]. intros j. destruct (Nat.eqb_spec j i) as [->|]; auto.
Qed.

(** ** Values *)
Section value.
  Variables (K : Type) (k0 k1 : K) (kadd kmul : K -> K -> K) (P : prims K).
  Hypothesis SR : semi_ring_theory k0 k1 kadd kmul eq.
  Hypothesis POK : prims_ok P.
  Variable lim : nat -> bool.
  Hypothesis LIM : forall n, lim n = true -> n <= 26.
  Notation keeps := (keeps K k0 k1 kadd kmul P lim).
  Definition all_keep (s : caches) : Prop := forall j : nat, cache_meets keeps (s j).
  Lemma body_keeps p h e w : In (p, h) (pattern_handlers K P) -> rule_body p h e = inl w -> keeps e w.
  Proof using SR POK LIM.
    intros Hin H. unfold rule_body in H. destruct (match_ p e) as [b|er] eqn:Hm.
    - destruct (h b) as [v|er] eqn:Hh.
      + injection H as <-. eapply handlers_keep; eassumption.
      + destruct er; try discriminate. injection H as <-. apply dle_refl.
    - destruct er; try discriminate. injection H as <-. apply dle_refl.
  Qed.
  Lemma rules_keep r e : In r (canonicalization_rules K P) -> meets all_keep keeps r e.
  Proof using SR POK LIM.
    intros H. unfold canonicalization_rules in H. apply in_map_iff in H as ([i [p h]] & <- & Hin). cbn [fst snd].
    apply in_combine_r in Hin. apply (at_cache_meets (fun _ => keeps)). apply make_rule_meets.
    - intros a b c Hab Hbc. eapply keeps_trans; [apply keeps_same; eassumption|assumption].
    - intros e' w. apply body_keeps. assumption.
  Qed.
  Lemma canonicalize_keeps fuel s e s' out : all_keep s -> canonicalize K P fuel s e = Some (s', out) -> all_keep s' /\ forall e', out = inl e' -> keeps e e'.
  Proof using SR POK LIM. apply term_rewriter_meets; [apply keeps_compositional|]. intros r x. apply rules_keep. Qed.
End value.
