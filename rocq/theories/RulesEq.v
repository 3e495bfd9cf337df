(** C10, C12 and C14 for rules made by [make_rule], with their caches: a rule whose pattern and handler cannot tell equal
    expressions apart gives the same answer up to ==, whatever was rewritten before. *)
From Verif Require Import MatcherSpec MatcherProofs RulesSpec RulesProofs MatcherEq RulesProps.
Open Scope string_scope. Open Scope list_scope. Open Scope nat_scope.

(** ** Specification *)
(** two dictionaries with the same keys, in the same order, and equal values *)
Definition same_bindings (b b' : bindings) : Prop := Forall2 (fun x y => fst x = fst y /\ same (snd x) (snd y)) b b'.
(** equal values, or the same exception *)
Definition same_answer (r r' : result val) : Prop :=
  match r, r' with inl a, inl b => same a b | inr e, inr e' => e = e' | _, _ => False end.
(** a handler that does not distinguish equal arguments *)
Definition respectful (h : handler) : Prop := forall b b', same_bindings b b' -> same_answer (h b) (h b').
(** several rules made by [make_rule], each with its own cache; the state maps the number of a rule to its cache *)
Definition slot (i : nat) (r : rule cache) : rule (nat -> cache) := fun cs e =>
  let (c', out) := r (cs i) e in ((fun j => if Nat.eqb j i then c' else cs j), out).
Fixpoint made_from (i : nat) (phs : list (pat * handler)) : list (rule (nat -> cache)) :=
  match phs with [] => [] | (p, h) :: r => slot i (make_rule p h) :: made_from (S i) r end.
Definition made := made_from 0.
Definition no_caches : nat -> cache := fun _ => [].

(** ** Proofs *)
Lemma same_sym a b : same a b -> same b a. Proof. unfold same. rewrite py_eq_sym. auto. Qed.
Lemma same_trans a b c : same a b -> same b c -> same a c. Proof. apply py_eq_trans. Qed.
Lemma same_refl a : same a a. Proof. apply py_eq_refl. Qed.
Lemma answer_sym r r' : same_answer r r' -> same_answer r' r.
Proof. destruct r, r'; simpl; auto using same_sym. Qed.
Lemma answer_trans a b c : same_answer a b -> same_answer b c -> same_answer a c.
Proof. destruct a, b, c; simpl; try tauto; try congruence. apply same_trans. Qed.
Lemma answer_refl a : same_answer a a. Proof. destruct a; simpl; auto using same_refl. Qed.
Lemma cb_same b b' : cb b = cb b' -> same_bindings b b'.
Proof.
  revert b'. induction b as [|[x v] b IH]; intros [|[y w] b'] H; try discriminate; constructor.
  - injection H as Hx Hv _. cbn [fst snd]. split; [exact Hx|apply py_eq_canon, Hv].
  - apply IH. injection H as _ _ H. exact H.
Qed.
Lemma match_all_canon p e : blind p -> match_all p (canon e) = gm (match_all p e).
Proof. intros H. unfold match_all. destruct (is_star p); [reflexivity|]. apply (blind_natural p H e [] gret gret gret_natural). Qed.
Lemma match_canon p e : blind p -> match_ p (canon e) = match match_ p e with inl b => inl (cb b) | inr er => inr er end.
Proof.
  intros H. unfold match_. destruct (is_star p); [reflexivity|].
  pose proof (blind_natural p H e [] gret gret gret_natural) as G. cbn [cb map] in G. rewrite G. destruct (pmatch p e [] gret) as [[|y ys] [er|]]; reflexivity.
Qed.
Lemma rule_body_same p h e e' : blind p -> respectful h -> same e e' -> same_answer (rule_body p h e) (rule_body p h e').
Proof.
  intros Hp Hh Hs. apply py_eq_canon in Hs. pose proof (match_canon p e Hp) as H1. pose proof (match_canon p e' Hp) as H2.
  assert (Hee : same e e') by (apply py_eq_canon, Hs). rewrite Hs in H1. rewrite H1 in H2. unfold rule_body.
  destruct (match_ p e) as [b|er], (match_ p e') as [b'|er']; try discriminate.
  - injection H2 as Hb. specialize (Hh _ _ (cb_same _ _ Hb)). destruct (h b) as [v|er], (h b') as [v'|er']; simpl in Hh; try contradiction; [exact Hh|].
    subst er'. destruct er; simpl; auto.
  - injection H2 as <-. destruct er; simpl; auto.
Qed.
Lemma hashable_canon e : hashable (canon e) = hashable e.
Proof.
  induction e as [| |[] l IH|ks vs IH|c h k IHh IHk] using val_ind'; simpl; try reflexivity.
  - induction IH as [|x l Hx Hl IHl]; simpl; [reflexivity|]. rewrite Hx, IHl. reflexivity.
  - f_equal; [induction IHh as [|x l Hx Hl IHl]|induction IHk as [|x l Hx Hl IHl]]; simpl; try reflexivity; rewrite Hx, IHl; reflexivity.
Qed.
Lemma hashable_same e e' : same e e' -> hashable e = hashable e'.
Proof. intros H. apply py_eq_canon in H. rewrite <- (hashable_canon e), H. apply hashable_canon. Qed.

(** the caches hold answers of the rules *)
Definition true_cache (p : pat) (h : handler) (c : cache) : Prop := forall k w, In (k, w) c -> hashable k = true /\ rule_body p h k = inl w.
Lemma make_rule_true p h c e : true_cache p h c -> true_cache p h (fst (make_rule p h c e)) /\
  (snd (make_rule p h c e) = (if hashable e then rule_body p h e else inr TypeErr) \/
   hashable e = true /\ exists e', same e' e /\ snd (make_rule p h c e) = rule_body p h e').
Proof.
  intros Hc. unfold make_rule. destruct (hashable e) eqn:Hh; [|split; [exact Hc|left; reflexivity]].
  destruct (lookup c e) as [v|] eqn:Hl.
  - split; [exact Hc|]. right. split; [reflexivity|]. destruct (lookup_in _ _ _ Hl) as (k & H1 & H2). exists k. split; [apply key_eq_same, H2|].
    symmetry. apply Hc, H1.
  - destruct (rule_body p h e) as [v|er] eqn:Hb; cbn [fst snd]; (split; [|left; reflexivity]); [|exact Hc].
    intros k w H. apply in_app_or in H as [H|[H|[]]]; [apply Hc, H|]. injection H as <- <-. auto.
Qed.
Lemma make_rule_answer p h c e : blind p -> respectful h -> true_cache p h c ->
  same_answer (snd (make_rule p h c e)) (if hashable e then rule_body p h e else inr TypeErr).
Proof.
  intros Hp Hr Hc. destruct (make_rule_true p h c e Hc) as [_ [->|(Hh & e' & Hs & ->)]]; [apply answer_refl|].
  rewrite Hh. apply rule_body_same; assumption.
Qed.
Lemma calls_true p h es : forall c, true_cache p h c -> true_cache p h (calls (make_rule p h) c es).
Proof. induction es as [|e es IH]; intros c Hc; simpl; [exact Hc|]. apply IH, make_rule_true, Hc. Qed.
Lemma true_nil p h : true_cache p h []. Proof. intros k w []. Qed.
Lemma fresh_answer p h e : stateful (make_rule p h) [] e = if hashable e then rule_body p h e else inr TypeErr.
Proof. unfold stateful, make_rule. destruct (hashable e); [|reflexivity]. cbn [lookup]. destruct (rule_body p h e); reflexivity. Qed.

(** ** Matching does not distinguish equal expressions *)
Theorem C10_matching_respects_equality : forall p e e', blind p -> same e e' ->
  snd (match_all p e) = snd (match_all p e') /\ Forall2 same_bindings (fst (match_all p e)) (fst (match_all p e')).
Proof.
  intros p e e' Hp Hs. apply py_eq_canon in Hs. pose proof (match_all_canon p e Hp) as H1. pose proof (match_all_canon p e' Hp) as H2.
  rewrite Hs in H1. rewrite H1 in H2. destruct (match_all p e) as [l o], (match_all p e') as [l' o']. unfold gm in H2. cbn [fst snd] in *.
  injection H2 as H2 ->. split; [reflexivity|]. clear -H2. revert l' H2. induction l as [|b l IH]; intros [|b' l'] H; try discriminate; constructor.
  - injection H as H _. apply cb_same, H.
  - injection H as _ H. apply IH, H.
Qed.
Print Assumptions C10_matching_respects_equality.

(** C10, for every history: the answer is that of a fresh rule up to == *)
Theorem C10_cache_invisible_up_to_equality : forall p h, blind p -> respectful h -> forall history e,
  same_answer (stateful (make_rule p h) (calls (make_rule p h) [] history) e) (stateful (make_rule p h) [] e).
Proof.
  intros p h Hp Hh hist e. rewrite fresh_answer. apply make_rule_answer; auto. apply calls_true, true_nil.
Qed.
Print Assumptions C10_cache_invisible_up_to_equality.
(** and equal expressions have equal answers, whatever the two histories *)
Theorem C10_equal_expressions : forall p h, blind p -> respectful h -> forall history history' e e', same e e' ->
  same_answer (stateful (make_rule p h) (calls (make_rule p h) [] history) e) (stateful (make_rule p h) (calls (make_rule p h) [] history') e').
Proof.
  intros p h Hp Hh hist hist' e e' Hs. eapply answer_trans; [apply C10_cache_invisible_up_to_equality; assumption|].
  eapply answer_trans; [|apply answer_sym, C10_cache_invisible_up_to_equality; assumption].
  rewrite !fresh_answer, (hashable_same e e' Hs). destruct (hashable e'); [apply rule_body_same; assumption|apply answer_refl].
Qed.
Print Assumptions C10_equal_expressions.

(** C12 for a rule made by [make_rule], already used or not: what iterated returns is left alone by the rule from then on *)
Lemma iterated_made p h : blind p -> respectful h -> forall fuel c e c' x, true_cache p h c ->
  iterated (make_rule p h) fuel c e = Some (c', inl x) -> same_answer (inl x) (if hashable x then rule_body p h x else inr TypeErr).
Proof.
  intros Hp Hh fuel. induction fuel as [|fuel IH]; intros c e c' x Hc H; cbn [iterated] in H; [discriminate|].
  destruct (make_rule_true p h c e Hc) as [Hc1 _]. pose proof (make_rule_answer p h c e Hp Hh Hc) as Ha.
  destruct (make_rule p h c e) as [c1 [e1|er]]; [|discriminate]. cbn [fst snd] in *. destruct (py_eq e e1) eqn:He.
  - injection H as <- <-. rewrite (hashable_same e e1 He) in Ha. destruct (hashable e1); [|exact Ha].
    eapply answer_trans; [exact Ha|]. apply rule_body_same; assumption.
  - eapply IH; eassumption.
Qed.
Theorem C12_made_rule_fixed_point : forall p h, blind p -> respectful h -> forall history fuel e c x,
  iterated (make_rule p h) fuel (calls (make_rule p h) [] history) e = Some (c, inl x) ->
  forall later, exists y, stateful (make_rule p h) (calls (make_rule p h) [] later) x = inl y /\ same y x.
Proof.
  intros p h Hp Hh hist fuel e c x H later. apply iterated_made in H; [|assumption..|apply calls_true, true_nil].
  rewrite <- fresh_answer in H. pose proof (C10_cache_invisible_up_to_equality p h Hp Hh later x) as G.
  pose proof (answer_trans _ _ _ G (answer_sym _ _ H)) as K. destruct (stateful _ (calls _ _ later) x) as [y|]; [|contradiction]. exists y. split; [reflexivity|exact K].
Qed.
Print Assumptions C12_made_rule_fixed_point.

(** ** C14 with caches *)
Section inv.
  Variable S : Type.
  Variable Inv : S -> Prop.
  Variable mu : val -> nat.
  Variable rs : list (rule S).
  Hypothesis Hmu : size_like mu.
  Hypothesis Hinv : forall r s e, In r rs -> Inv s -> Inv (fst (r s e)).
  Hypothesis Hd : forall r s e s' e', In r rs -> Inv s -> r s e = (s', inl e') -> same e' e \/ mu e' < mu e.
  Definition quiet (l : list (rule S)) (e : val) : Prop := forall r, In r l -> exists s s' e', Inv s /\ r s e = (s', inl e') /\ same e' e.
  Lemma rl_dec l : incl l rs -> forall s e s' o, Inv s -> rule_list l s e = (s', o) ->
    Inv s' /\ forall e', o = inl e' -> (e' = e /\ quiet l e) \/ mu e' < mu e.
  Proof using Hinv Hd.
    induction l as [|r l IH]; intros Hl s e s' o Hs H; cbn [rule_list] in H.
    - injection H as <- <-. split; [exact Hs|]. intros e' H; injection H as <-. left. split; [reflexivity|]. intros r [].
    - assert (Hr : In r rs) by (apply Hl; left; reflexivity). pose proof (Hinv r s e Hr Hs) as Hs1.
      destruct (r s e) as [s1 [x|er]] eqn:Hx; cbn [rbind fst] in *.
      + destruct (py_eq x e) eqn:He; cbn [negb] in H.
        * destruct (IH (fun a Ha => Hl a (or_intror Ha)) s1 e s' o Hs1 H) as [H1 H2]. split; [exact H1|]. intros e' Ho.
          destruct (H2 e' Ho) as [[-> Hq]|Hlt]; [left|right; exact Hlt]. split; [reflexivity|]. intros r' [<-|Hin]; [|apply Hq, Hin]. exists s, s1, x. auto.
        * injection H as <- <-. split; [exact Hs1|]. intros e' Ho; injection Ho as <-. right. destruct (Hd r s e s1 x Hr Hs Hx) as [Hsm|Hlt]; [|exact Hlt].
          unfold same in Hsm. congruence.
      + injection H as <- <-. split; [exact Hs1|]. discriminate.
  Qed.
  Lemma bu_dec e : forall s s' o, Inv s -> bottom_up (rule_list rs) s e = (s', o) ->
    Inv s' /\ forall e', o = inl e' -> (e' = e /\ forall x, within x e -> quiet rs x) \/ mu e' < mu e.
  Proof using Hinv Hd Hmu.
    destruct Hmu as [Hsame Hm]. induction e as [v IH] using kids_ind. intros s s' o Hs H.
    rewrite bottom_up_eq in H. unfold rewrite_subexpressions in H.
    assert (HM : forall s l1 s1 o1, Inv s -> Forall (fun e => forall s s' o, Inv s -> bottom_up (rule_list rs) s e = (s', o) ->
               Inv s' /\ forall e', o = inl e' -> (e' = e /\ forall x, within x e -> quiet rs x) \/ mu e' < mu e) l1 ->
             mapM (bottom_up (rule_list rs)) s l1 = (s1, o1) -> Inv s1 /\ forall l, o1 = inl l ->
             (l = l1 /\ forall k, In k l1 -> forall x, within x k -> quiet rs x) \/
             (Forall2 (fun w k => mu w <= mu k) l l1 /\ Exists (fun wk => mu (fst wk) < mu (snd wk)) (combine l l1))).
    { clear. intros s l1. revert s. induction l1 as [|x l1 IHl]; intros s s1 o1 Hs HF H.
      - injection H as <- <-. split; [exact Hs|]. intros l Hl; injection Hl as <-. left. split; [reflexivity|intros k []].
      - inversion HF as [|? ? Hx Hl1]; subst. cbn [mapM] in H. destruct (bottom_up (rule_list rs) s x) as [s2 [y|er]] eqn:Hy; cbn [rbind] in H.
        2:{ injection H as <- <-. split; [apply (Hx _ _ _ Hs Hy)|discriminate]. }
        destruct (Hx _ _ _ Hs Hy) as [Hs2 Hy2]. specialize (Hy2 y eq_refl).
        destruct (mapM (bottom_up (rule_list rs)) s2 l1) as [s3 [ys|er]] eqn:Hys; cbn [rbind] in H; injection H as <- <-.
        2:{ split; [apply (IHl _ _ _ Hs2 Hl1 Hys)|discriminate]. }
        destruct (IHl _ _ _ Hs2 Hl1 Hys) as [Hs3 Hl2]. split; [exact Hs3|]. intros l Hl; injection Hl as <-. specialize (Hl2 ys eq_refl).
        destruct Hy2 as [[-> Hun]|Hlt].
        + destruct Hl2 as [[-> Hall]|[H1 H2]].
          * left. split; [reflexivity|]. intros k [<-|Hin]; auto. intros z Hz. eapply Hall; eassumption.
          * right. split; [constructor; auto|]. apply Exists_cons_tl. assumption.
        + right. split; [|apply Exists_cons_hd; assumption]. constructor; [lia|].
          destruct Hl2 as [[-> Hall]|[H1 H2]]; [|assumption].
          clear. induction l1; constructor; auto. }
    assert (HT : forall s1 o1, tree_map v (bottom_up (rule_list rs)) s = (s1, o1) -> Inv s1 /\ forall w, o1 = inl w -> exists l, w = with_kids v l /\
             ((l = kids v /\ forall k, In k (kids v) -> forall x, within x k -> quiet rs x) \/
             (Forall2 (fun w k => mu w <= mu k) l (kids v) /\ Exists (fun wk => mu (fst wk) < mu (snd wk)) (combine l (kids v))))).
    { intros s1 o1 Ht. destruct v as [k z|t|[] l|ks vs|c h k]; cbn [tree_map] in Ht.
      1,2: injection Ht as <- <-; (split; [exact Hs|]); intros w Hw; injection Hw as <-; exists []; (split; [reflexivity|]); left; split; [reflexivity|intros ? []].
      2: injection Ht as <- <-; (split; [exact Hs|discriminate]).
      all: match type of Ht with rbind (mapM ?f ?s ?l) _ = _ => destruct (mapM f s l) as [s2 [ys|er]] eqn:Hys end; cbn [rbind rret] in Ht; injection Ht as <- <-;
        destruct (HM _ _ _ _ Hs IH Hys) as [H1 H2]; (split; [exact H1|]); intros w Hw; try discriminate; injection Hw as <-; exists ys; (split; [reflexivity|]); apply H2; reflexivity. }
    destruct (tree_map v (bottom_up (rule_list rs)) s) as [s1 [w|er]] eqn:Hw; cbn [rbind] in H.
    2:{ injection H as <- <-. split; [apply (HT _ _ eq_refl)|discriminate]. }
    destruct (HT _ _ eq_refl) as [Hs1 Hw1]. destruct (Hw1 w eq_refl) as (l & -> & Hl). clear HT HM Hw1.
    destruct (rl_dec rs (fun a Ha => Ha) s1 _ s' o Hs1 H) as [Hs' Ho]. split; [exact Hs'|]. intros e' He'. specialize (Ho e' He').
    destruct Hl as [[-> Hall]|[HF HE]].
    - rewrite with_kids_self in Ho. destruct Ho as [[-> Hu]|Hlt]; [left|right; assumption].
      split; [reflexivity|]. intros x Hx. inversion Hx as [|? k Hk Hx']; subst; [assumption|]. eapply Hall; eassumption.
    - right. destruct (Hm v l HF) as [_ Hlt]. specialize (Hlt HE). destruct Ho as [[-> _]|Hlt']; lia.
  Qed.
  Lemma tr_normal fuel : forall s e s' x, Inv s -> term_rewriter rs fuel s e = Some (s', inl x) -> forall y, within y x -> quiet rs y.
  Proof using Hinv Hd Hmu.
    unfold term_rewriter. induction fuel as [|fuel IH]; intros s e s' x Hs H; cbn [iterated] in H; [discriminate|].
    destruct (bottom_up (rule_list rs) s e) as [s1 o] eqn:Hb. destruct (bu_dec _ _ _ _ Hs Hb) as [Hs1 Ho]. destruct o as [e1|er]; [|discriminate].
    specialize (Ho e1 eq_refl). destruct (py_eq e e1) eqn:He.
    - injection H as <- <-. destruct Ho as [[-> Hu]|Hlt]; [exact Hu|]. destruct Hmu as [Hsame _]. rewrite (Hsame e e1 He) in Hlt. lia.
    - eapply IH; eassumption.
  Qed.
  Lemma tr_terminates s e : Inv s -> exists fuel out, term_rewriter rs fuel s e = Some out.
  Proof using Hinv Hd Hmu.
    remember (mu e) as n eqn:Hn. revert s e Hn. induction n as [n IH] using lt_wf_ind. intros s e -> Hs.
    destruct (bottom_up (rule_list rs) s e) as [s1 o] eqn:Hb. destruct (bu_dec _ _ _ _ Hs Hb) as [Hs1 Ho]. destruct o as [e1|er].
    - specialize (Ho e1 eq_refl). destruct (py_eq e e1) eqn:He.
      + exists 1, (s1, inl e1). unfold term_rewriter. cbn [iterated]. rewrite Hb, He. reflexivity.
      + destruct Ho as [[-> _]|Hlt]; [rewrite py_eq_refl in He; discriminate|].
        destruct (IH (mu e1) Hlt s1 e1 eq_refl Hs1) as (fuel & out & Hf). exists (Datatypes.S fuel), out.
        unfold term_rewriter in *. cbn [iterated]. rewrite Hb, He. assumption.
    - exists 1, (s1, inr er). unfold term_rewriter. cbn [iterated]. rewrite Hb. reflexivity.
  Qed.
End inv.
Section inv_rel.
  Variable S : Type.
  Variable Inv : S -> Prop.
  Variable rs : list (rule S).
  Hypothesis Hinv : forall r s e, In r rs -> Inv s -> Inv (fst (r s e)).
  Variable R : val -> val -> Prop.
  Hypothesis HrsR : forall r s e s' e', In r rs -> Inv s -> r s e = (s', inl e') -> R e e'.
  Hypothesis HR : compositional R.
  Lemma rl_rel l : incl l rs -> forall s e s' o, Inv s -> rule_list l s e = (s', o) -> Inv s' /\ forall e', o = inl e' -> R e e'.
  Proof using Hinv HrsR HR.
    induction l as [|r l IH]; intros Hl s e s' o Hs H; cbn [rule_list] in H.
    - injection H as <- <-. split; [exact Hs|]. intros e' H; injection H as <-. apply HR.
    - assert (Hr : In r rs) by (apply Hl; left; reflexivity). pose proof (Hinv r s e Hr Hs) as Hs1.
      destruct (r s e) as [s1 [x|er]] eqn:Hx; cbn [rbind fst] in *.
      + destruct (py_eq x e); cbn [negb] in H; [apply (IH (fun a Ha => Hl a (or_intror Ha)) s1 e s' o Hs1 H)|].
        injection H as <- <-. split; [exact Hs1|]. intros e' Ho; injection Ho as <-. exact (HrsR r s e s1 x Hr Hs Hx).
      + injection H as <- <-. split; [exact Hs1|]. discriminate.
  Qed.
  Lemma bu_rel e : forall s s' o, Inv s -> bottom_up (rule_list rs) s e = (s', o) -> Inv s' /\ forall e', o = inl e' -> R e e'.
  Proof using Hinv HrsR HR.
    induction e as [v IH] using kids_ind. intros s s' o Hs H. rewrite bottom_up_eq in H. unfold rewrite_subexpressions in H.
    assert (HM : forall s l1 s1 o1, Inv s -> Forall (fun e => forall s s' o, Inv s -> bottom_up (rule_list rs) s e = (s', o) -> Inv s' /\ forall e', o = inl e' -> R e e') l1 ->
             mapM (bottom_up (rule_list rs)) s l1 = (s1, o1) -> Inv s1 /\ forall l, o1 = inl l -> Forall2 R l1 l).
    { clear. intros s l1. revert s. induction l1 as [|x l1 IHl]; intros s s1 o1 Hs HF H.
      - injection H as <- <-. split; [exact Hs|]. intros l Hl; injection Hl as <-. constructor.
      - inversion HF as [|? ? Hx Hl1]; subst. cbn [mapM] in H. destruct (bottom_up (rule_list rs) s x) as [s2 [y|er]] eqn:Hy; cbn [rbind] in H.
        2:{ injection H as <- <-. split; [apply (Hx _ _ _ Hs Hy)|discriminate]. }
        destruct (Hx _ _ _ Hs Hy) as [Hs2 Hy2]. specialize (Hy2 y eq_refl).
        destruct (mapM (bottom_up (rule_list rs)) s2 l1) as [s3 [ys|er]] eqn:Hys; cbn [rbind] in H; injection H as <- <-.
        2:{ split; [apply (IHl _ _ _ Hs2 Hl1 Hys)|discriminate]. }
        destruct (IHl _ _ _ Hs2 Hl1 Hys) as [Hs3 Hl2]. split; [exact Hs3|]. intros l Hl; injection Hl as <-. constructor; [exact Hy2|apply Hl2; reflexivity]. }
    assert (HT : forall s1 o1, tree_map v (bottom_up (rule_list rs)) s = (s1, o1) -> Inv s1 /\ forall w, o1 = inl w -> R v w).
    { intros s1 o1 Ht. destruct HR as (H1 & H2 & H3). destruct v as [k z|t|[] l|ks vs|c h k]; cbn [tree_map] in Ht.
      1,2: injection Ht as <- <-; (split; [exact Hs|]); intros w Hw; injection Hw as <-; apply H1.
      2: injection Ht as <- <-; (split; [exact Hs|discriminate]).
      all: match type of Ht with rbind (mapM ?f ?s ?l) _ = _ => destruct (mapM f s l) as [s2 [ys|er]] eqn:Hys end; cbn [rbind rret] in Ht; injection Ht as <- <-;
        destruct (HM _ _ _ _ Hs IH Hys) as [H4 H5]; (split; [exact H4|]); intros w Hw; try discriminate; injection Hw as <-; specialize (H5 ys eq_refl);
        match goal with |- R ?v0 _ => exact (H3 v0 ys H5) end. }
    destruct (tree_map v (bottom_up (rule_list rs)) s) as [s1 [w|er]] eqn:Hw; cbn [rbind] in H.
    2:{ injection H as <- <-. split; [apply (HT _ _ eq_refl)|discriminate]. }
    destruct (HT _ _ eq_refl) as [Hs1 Hw1]. specialize (Hw1 w eq_refl).
    destruct (rl_rel rs (fun a Ha => Ha) s1 _ s' o Hs1 H) as [Hs' Ho]. split; [exact Hs'|]. intros e' He'. destruct HR as (_ & Ht & _).
    eapply Ht; [exact Hw1|apply Ho, He'].
  Qed.
  Lemma tr_rel fuel : forall s e s' x, Inv s -> term_rewriter rs fuel s e = Some (s', inl x) -> R e x.
  Proof using Hinv HrsR HR.
    unfold term_rewriter. induction fuel as [|fuel IH]; intros s e s' x Hs H; cbn [iterated] in H; [discriminate|].
    destruct (bottom_up (rule_list rs) s e) as [s1 o] eqn:Hb. destruct (bu_rel _ _ _ _ Hs Hb) as [Hs1 Ho]. destruct o as [e1|er]; [|discriminate].
    specialize (Ho e1 eq_refl). destruct (py_eq e e1).
    - injection H as <- <-. exact Ho.
    - destruct HR as (_ & Ht & _). eapply Ht; [exact Ho|]. eapply IH; eassumption.
  Qed.
End inv_rel.

Definition caches_ok (phs : list (pat * handler)) (cs : nat -> cache) : Prop := forall i p h, nth_error phs i = Some (p, h) -> true_cache p h (cs i).
Lemma made_in phs : forall i r, In r (made_from i phs) <-> exists j p h, nth_error phs j = Some (p, h) /\ r = slot (i + j) (make_rule p h).
Proof.
  induction phs as [|[p h] phs IH]; intros i r; cbn [made_from In].
  - split; [intros []|]. intros (j & p & h & H & _). destruct j; discriminate.
  - rewrite IH. split.
    + intros [<-|(j & q & g & H & ->)]; [exists 0, p, h; rewrite Nat.add_0_r; auto|]. exists (S j), q, g. split; [exact H|]. f_equal. lia.
    + intros (j & q & g & H & ->). destruct j as [|j]; [left; injection H as -> ->; rewrite Nat.add_0_r; reflexivity|]. right. exists j, q, g. split; [exact H|]. f_equal. lia.
Qed.
Lemma caches_ok_step phs r s e : In r (made phs) -> caches_ok phs s -> caches_ok phs (fst (r s e)).
Proof.
  intros Hr Hs. apply made_in in Hr as (j & q & g & Hj & ->). cbn [plus]. unfold slot.
  pose proof (make_rule_true q g (s j) e (Hs j q g Hj)) as [Ht _]. destruct (make_rule q g (s j) e) as [c1 o]. cbn [fst] in *.
  intros i p0 h0 Hi. destruct (Nat.eqb_spec i j) as [->|Hne]; [|apply Hs, Hi]. rewrite Hj in Hi. injection Hi as -> ->. exact Ht.
Qed.
Lemma made_answer phs r s e s' e' : In r (made phs) -> caches_ok phs s -> r s e = (s', inl e') ->
  exists p h e1, In (p, h) phs /\ same e1 e /\ rule_body p h e1 = inl e'.
Proof.
  intros Hr Hs Hre. apply made_in in Hr as (j & q & g & Hj & ->). cbn [plus] in Hre. unfold slot in Hre.
  pose proof (make_rule_true q g (s j) e (Hs j q g Hj)) as [_ Ha]. destruct (make_rule q g (s j) e) as [c1 o]. cbn [snd] in Ha. injection Hre as _ ->.
  exists q, g. destruct Ha as [Ha|(Hh & e1 & Hs1 & Ha)].
  - exists e. destruct (hashable e); [|discriminate]. split; [exact (nth_error_In _ _ Hj)|]. split; [apply same_refl|symmetry; exact Ha].
  - exists e1. split; [exact (nth_error_In _ _ Hj)|]. auto.
Qed.
Lemma caches_ok_used phs before : caches_ok phs (fun i => match nth_error phs i with Some (p, h) => calls (make_rule p h) [] (before i) | None => [] end).
Proof. intros i q g Hi. rewrite Hi. apply calls_true, true_nil. Qed.

(** C15 for rules made by [make_rule], with their caches, fresh or already used: an equivalence-compatible meaning that every
    handler keeps is kept by term_rewriter, although equal expressions share cache entries *)
Theorem C15_made_rules_meaning : forall (R : val -> val -> Prop) (phs : list (pat * handler)), compositional R -> (forall a b, same a b -> R a b) ->
  (forall p h, In (p, h) phs -> forall e x, rule_body p h e = inl x -> R e x) ->
  forall (before : nat -> list val) fuel e cs x,
  term_rewriter (made phs) fuel (fun i => match nth_error phs i with Some (p, h) => calls (make_rule p h) [] (before i) | None => [] end) e = Some (cs, inl x) -> R e x.
Proof.
  intros R phs HR Hsame Hphs before fuel e cs x H.
  eapply (tr_rel (nat -> cache) (caches_ok phs) (made phs)); [apply caches_ok_step| |exact HR|apply caches_ok_used|exact H].
  intros r s e0 s' e' Hr Hs Hre. destruct (made_answer _ _ _ _ _ _ Hr Hs Hre) as (p & h & e1 & Hin & H1 & H2).
  destruct HR as (_ & Ht & _). eapply Ht; [apply Hsame, same_sym, H1|]. eapply Hphs; eassumption.
Qed.
Print Assumptions C15_made_rules_meaning.
(** ... and it terminates when every handler that changes an expression makes it smaller *)
Theorem C15_made_rules_terminates : forall (mu : val -> nat) (phs : list (pat * handler)), size_like mu ->
  (forall p h, In (p, h) phs -> forall e x, rule_body p h e = inl x -> same x e \/ mu x < mu e) ->
  forall (before : nat -> list val) e, exists fuel out,
  term_rewriter (made phs) fuel (fun i => match nth_error phs i with Some (p, h) => calls (make_rule p h) [] (before i) | None => [] end) e = Some out.
Proof.
  intros mu phs Hmu Hphs before e. eapply (tr_terminates (nat -> cache) (caches_ok phs) mu (made phs) Hmu); [apply caches_ok_step| |apply caches_ok_used].
  intros r s e0 s' e' Hr Hs Hre. destruct (made_answer _ _ _ _ _ _ Hr Hs Hre) as (p & h & e1 & Hin & H1 & H2).
  destruct (Hphs p h Hin _ _ H2) as [Hsm|Hlt]; [left; eapply same_trans; eassumption|right]. destruct Hmu as [Hsame _]. rewrite <- (Hsame _ _ H1). exact Hlt.
Qed.
Print Assumptions C15_made_rules_terminates.

(** C14 for rules made by [make_rule], with their caches, fresh or already used: if term_rewriter returns x, none of the rules
    changes any subexpression of x, whatever each rule was called on before.  [phs]: the patterns and handlers, [before]:
    the expressions each rule was called on before *)
Theorem C14_made_rules : forall (mu : val -> nat) (phs : list (pat * handler)), size_like mu ->
  (forall p h, In (p, h) phs -> blind p /\ respectful h /\ forall e x, rule_body p h e = inl x -> same x e \/ mu x < mu e) ->
  forall (before : nat -> list val) fuel e cs x,
  term_rewriter (made phs) fuel (fun i => match nth_error phs i with Some (p, h) => calls (make_rule p h) [] (before i) | None => [] end) e = Some (cs, inl x) ->
  forall y, within y x -> forall p h, In (p, h) phs -> forall later,
    exists z, stateful (make_rule p h) (calls (make_rule p h) [] later) y = inl z /\ same z y.
Proof.
  intros mu phs Hmu Hphs before fuel e cs x H y Hy p h Hin later.
  assert (HQ : quiet (nat -> cache) (caches_ok phs) (made phs) y).
  { eapply (tr_normal (nat -> cache) (caches_ok phs) mu (made phs) Hmu); [| | |exact H|exact Hy].
    - apply caches_ok_step.
    - intros r s e0 s' e' Hr Hs Hre. destruct (made_answer _ _ _ _ _ _ Hr Hs Hre) as (p0 & h0 & e1 & Hin0 & H1 & H2).
      destruct (Hphs p0 h0 Hin0) as (_ & _ & Hdec). destruct (Hdec _ _ H2) as [Hsm|Hlt]; [left; eapply same_trans; eassumption|right].
      destruct Hmu as [Hsame _]. rewrite <- (Hsame _ _ H1). exact Hlt.
    - apply caches_ok_used. }
  apply In_nth_error in Hin as [j Hj]. destruct (Hphs p h (nth_error_In _ _ Hj)) as (Hp & Hh & _).
  destruct (HQ (slot j (make_rule p h))) as (s & s' & z & Hs & Hz & Hsz); [apply made_in; exists j, p, h; auto|].
  unfold slot in Hz. pose proof (make_rule_answer p h (s j) y Hp Hh (Hs j p h Hj)) as Ha. destruct (make_rule p h (s j) y) as [c1 o]. cbn [snd] in Ha.
  injection Hz as _ ->. rewrite <- fresh_answer in Ha. pose proof (C10_cache_invisible_up_to_equality p h Hp Hh later y) as G.
  pose proof (answer_trans _ _ _ G (answer_sym _ _ Ha)) as K. destruct (stateful _ (calls _ _ later) y) as [w|]; [|contradiction].
  exists w. split; [reflexivity|]. eapply same_trans; [exact K|exact Hsz].
Qed.
Print Assumptions C14_made_rules.

(** ** Witness: the documented rule "positive a -> a - 1" (rules.py:245-252), on ints, floats and bools alike *)
Definition positive (v : val) : bool := match v with VNum _ z => Z.ltb 0 z | _ => false end.
Definition dec_pat : pat := PVar (Some "a") [positive].
Definition dec_handler : handler := fun b => match dget b "a" with Some (VNum k z) => inl (VNum k (z - 1)) | _ => inr TypeErr end.
Lemma dec_blind : blind dec_pat.
Proof.
  intros r [<-|[]] a b H. apply py_eq_canon in H. destruct a, b; try discriminate; try reflexivity. injection H as ->. reflexivity.
Qed.
Lemma same_dget b b' x : same_bindings b b' -> match dget b x, dget b' x with Some v, Some w => same v w | None, None => True | _, _ => False end.
Proof. induction 1 as [|[y v] [z w] b b' [H1 H2] HF IH]; simpl; auto. cbn [fst snd] in *. subst z. destruct (String.eqb x y); assumption. Qed.
Lemma dec_respectful : respectful dec_handler.
Proof.
  intros b b' H. pose proof (same_dget b b' "a" H) as G. unfold dec_handler. destruct (dget b "a") as [v|], (dget b' "a") as [w|]; try contradiction; [|reflexivity].
  apply py_eq_canon in G. destruct v, w; try discriminate; try reflexivity. injection G as ->. unfold same_answer, same. cbn [py_eq]. apply Z.eqb_refl.
Qed.
Lemma dec_decreases e x : rule_body dec_pat dec_handler e = inl x -> same x e \/ total_pos x < total_pos e.
Proof.
  intros H. unfold rule_body, match_, dec_pat, dec_handler in H. cbn [is_star pmatch forallb] in H. rewrite Bool.andb_true_r in H.
  destruct (positive e) eqn:Hp; cbn in H; [|injection H as <-; left; apply same_refl].
  destruct e as [k z| | | |]; try discriminate. injection H as <-. right. cbn in *. apply Z.ltb_lt in Hp. lia.
Qed.
Theorem C10_C12_C14_nontrivial : blind dec_pat /\ respectful dec_handler /\ size_like total_pos /\
  (forall e x, rule_body dec_pat dec_handler e = inl x -> same x e \/ total_pos x < total_pos e) /\
  (* called on (2,) before, the rule answers (2.0,) with the cached (2,): equal, but not the same object *)
  stateful (make_rule dec_pat dec_handler) (calls (make_rule dec_pat dec_handler) [] [tup [num 2]]) (tup [flt 2]) = inl (tup [num 2]) /\
  stateful (make_rule dec_pat dec_handler) [] (tup [flt 2]) = inl (tup [flt 2]) /\
  (exists c, iterated (make_rule dec_pat dec_handler) 4 [] (flt 3) = Some (c, inl (flt 0))) /\
  exists cs, term_rewriter (made [(dec_pat, dec_handler)]) 4 no_caches (tup [num 3; tup [flt 2; num 1]]) = Some (cs, inl (tup [num 0; tup [flt 0; num 0]])).
Proof.
  split; [exact dec_blind|]. split; [exact dec_respectful|]. split; [apply C14_C15_nontrivial|]. split; [exact dec_decreases|].
  split; [reflexivity|]. split; [reflexivity|]. split; [eexists; reflexivity|]. eexists. reflexivity.
Qed.
Print Assumptions C10_C12_C14_nontrivial.

(** Without [blind], C14 fails even for decreasing rules, because of the caches: with the rule "(x,) with a positive float x
    -> 0", term_rewriter returns ((1,), (1.0,)) unchanged, but a rule that has not seen (1,) changes (1.0,) *)
Definition pos_float (v : val) : bool := is_float v && positive v.
Definition float_pat : pat := PSeq KTuple [PVar (Some "x") [pos_float]].
Definition zero_handler : handler := fun _ => inl (num 0).
Theorem C14_cached_refuted : size_like total_pos /\ respectful zero_handler /\
  (forall e x, rule_body float_pat zero_handler e = inl x -> same x e \/ total_pos x < total_pos e) /\
  let x := tup [tup [num 1]; tup [flt 1]] in
  (exists cs, term_rewriter (made [(float_pat, zero_handler)]) 1 no_caches x = Some (cs, inl x)) /\
  within (tup [flt 1]) x /\ stateful (make_rule float_pat zero_handler) [] (tup [flt 1]) = inl (num 0) /\ ~ same (num 0) (tup [flt 1]).
Proof.
  split; [apply C14_C15_nontrivial|]. split; [intros b b' _; apply same_refl|]. split; [|].
  - intros e x H. unfold rule_body, match_, float_pat, zero_handler in H. cbn [is_star] in H. rewrite pm_seq in H.
    destruct (as_seq e) as [[sk es]|] eqn:He; [|injection H as <-; left; apply same_refl].
    destruct es as [|y [|y' es]]; [injection H as <-; left; apply same_refl| |].
    2:{ rewrite seqm_nonstar in H by reflexivity. cbn [pmatch forallb] in H. destruct (pos_float y); cbn in H; injection H as <-; left; apply same_refl. }
    rewrite seqm_nonstar in H by reflexivity. cbn [pmatch forallb] in H. rewrite Bool.andb_true_r in H.
    destruct (pos_float y) eqn:Hp; cbn in H; injection H as <-; [|left; apply same_refl]. right.
    unfold pos_float in Hp. apply Bool.andb_true_iff in Hp as [Hf Hp]. destruct y as [[] z| | | |]; try discriminate.
    cbn in Hp. apply Z.ltb_lt in Hp.
    destruct e as [k0 z0|t|[] l|ks vs|c h k]; cbn [as_seq] in He; try discriminate.
    + destruct t as [|c t]; [discriminate|]. injection He as _ He _. discriminate.
    + injection He as _ ->. cbn. lia.
    + injection He as _ ->. cbn. lia.
  - cbn zeta. split; [eexists; reflexivity|]. split; [apply within_kid with (tup [flt 1]); [right; left; reflexivity|constructor]|].
    split; [reflexivity|discriminate].
Qed.
Print Assumptions C14_cached_refuted.
