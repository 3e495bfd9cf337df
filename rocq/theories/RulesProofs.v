From Verif Require Import RulesSpec.

(** ** make_rule *)
Lemma hashable_iff e : hashable e = false <-> has_mutable e.
Proof.
  induction e as [k z|s|k l IH|ks vs IH|c h k IHh IHk] using val_ind'; cbn [hashable].
  - split; [discriminate|]. intros H. inversion H.
  - split; [discriminate|]. intros H. inversion H.
  - destruct k; [|split; [constructor|reflexivity]]. rewrite Forall_forall in IH. split.
    + intros H. assert (E : exists x, In x l /\ hashable x = false). { clear IH. induction l as [|x l IH]; [discriminate|]. cbn in H. destruct (hashable x) eqn:Ex; [|exists x; cbn; auto]. destruct (IH H) as (y & Hy & E). exists y. cbn. auto. }
      destruct E as (x & Hx & E). apply HM_tuple with x; [exact Hx|]. apply (IH x Hx), E.
    + intros H. inversion H as [| |l' x Hx Hm| |]; subst. apply (IH x Hx) in Hm. destruct (forallb hashable l) eqn:E; [|reflexivity]. rewrite forallb_forall in E. rewrite (E x Hx) in Hm. discriminate.
  - split; [constructor|reflexivity].
  - rewrite Forall_forall in IHh, IHk. assert (W : forall l, forallb hashable l = false -> exists x, In x l /\ hashable x = false). { induction l as [|x l IH]; [discriminate|]. cbn. intros H. destruct (hashable x) eqn:Ex; [|exists x; cbn; auto]. destruct (IH H) as (y & Hy & E). exists y. cbn. auto. }
    split.
    + intros H. apply Bool.andb_false_iff in H as [H|H]; apply W in H as (x & Hx & E); [apply HM_field with x|apply HM_child with x]; try exact Hx; [apply (IHh x Hx), E|apply (IHk x Hx), E].
    + intros H. apply Bool.andb_false_iff. inversion H as [| | |c' h' k' x Hx Hm|c' h' k' x Hx Hm]; subst; [left; apply (IHh x Hx) in Hm; destruct (forallb hashable h) eqn:E|right; apply (IHk x Hx) in Hm; destruct (forallb hashable k) eqn:E]; try reflexivity; rewrite forallb_forall in E; rewrite (E x Hx) in Hm; discriminate.
Qed.
Lemma hashable_no e : ~ has_mutable e -> hashable e = true.
Proof. intros H. destruct (hashable e) eqn:E; [reflexivity|]. apply hashable_iff in E. contradiction. Qed.
Lemma make_rule_fresh p h e : hashable e = true -> stateful (make_rule p h) [] e = rule_body p h e.
Proof.
  intros He. unfold stateful, make_rule. rewrite He. simpl. destruct (rule_body p h e); reflexivity.
Qed.
Lemma rule_spec p h e : hashable e = true ->
  (forall b, match_ p e = inl b -> forall v, h b = inl v -> stateful (make_rule p h) [] e = inl v) /\
  (forall b er, match_ p e = inl b -> h b = inr er -> er <> MatchErr -> stateful (make_rule p h) [] e = inr er) /\
  (match_ p e = inr MatchErr -> stateful (make_rule p h) [] e = inl e) /\
  (forall er, match_ p e = inr er -> er <> MatchErr -> stateful (make_rule p h) [] e = inr er).
Proof.
  intros He. rewrite make_rule_fresh by assumption. unfold rule_body. repeat split.
  - intros b -> v ->. reflexivity.
  - intros b er -> -> Hne. destruct er; try reflexivity. congruence.
  - intros ->. reflexivity.
  - intros er -> Hne. destruct er; try reflexivity. congruence.
Qed.

Definition cache_inv (p : pat) (h : handler) (hist : list val) (c : cache) : Prop :=
  forall k w, In (k, w) c -> In k hist /\ rule_body p h k = inl w.
Lemma lookup_in c e w : lookup c e = Some w -> exists k, In (k, w) c /\ key_eq k e = true.
Proof.
  induction c as [|[k v] c IH]; simpl; [discriminate|].
  destruct (key_eq k e) eqn:Hk.
  - injection 1 as <-. exists k. auto.
  - intros H. destruct (IH H) as (k' & H1 & H2). exists k'. auto.
Qed.
Lemma key_eq_same a b : key_eq a b = true -> same a b.
Proof. unfold key_eq, same. rewrite andb_true_iff. tauto. Qed.

Lemma calls_inv p h es : forall hist c, cache_inv p h hist c -> cache_inv p h (hist ++ es) (calls (make_rule p h) c es).
Proof.
  induction es as [|e es IH]; intros hist c Hc; simpl.
  - rewrite app_nil_r. assumption.
  - replace (hist ++ e :: es) with ((hist ++ [e]) ++ es) by (rewrite <- app_assoc; reflexivity).
    apply IH. unfold make_rule. intros k w Hkw.
    assert (Hw : In (k, w) c -> In k (hist ++ [e]) /\ rule_body p h k = inl w).
    { intros H. destruct (Hc k w H). split; [apply in_or_app; auto | assumption]. }
    destruct (hashable e); [|auto].
    destruct (lookup c e); [auto|].
    destruct (rule_body p h e) eqn:Hb; [|auto].
    simpl in Hkw. apply in_app_or in Hkw as [H|[H|[]]]; [auto|].
    injection H as <- <-. split; [apply in_or_app; simpl; auto | assumption].
Qed.

Lemma cached_call p h hist e : hashable e = true ->
  stateful (make_rule p h) (calls (make_rule p h) [] hist) e = stateful (make_rule p h) [] e \/
  exists e', In e' hist /\ same e' e /\
    stateful (make_rule p h) (calls (make_rule p h) [] hist) e = rule_body p h e'.
Proof.
  intros He. rewrite make_rule_fresh by assumption.
  assert (Hinv : cache_inv p h ([] ++ hist) (calls (make_rule p h) [] hist)) by (apply calls_inv; intros ? ? []).
  set (c := calls _ _ _) in *. unfold stateful, make_rule. rewrite He.
  destruct (lookup c e) eqn:Hl.
  - destruct (lookup_in _ _ _ Hl) as (k & H1 & H2). right. exists k. destruct (Hinv _ _ H1) as [H3 H4].
    repeat split; [assumption | now apply key_eq_same | simpl; congruence].
  - left. destruct (rule_body p h e); reflexivity.
Qed.
Lemma cache_invisible p h hist e :
  (forall e', In e' hist -> same e' e -> e' = e) ->
  stateful (make_rule p h) (calls (make_rule p h) [] hist) e = stateful (make_rule p h) [] e.
Proof.
  intros Hd. destruct (hashable e) eqn:He.
  - destruct (cached_call p h hist e He) as [H|(e' & H1 & H2 & H3)]; [assumption|].
    rewrite (Hd e' H1 H2) in H3. rewrite make_rule_fresh; assumption.
  - unfold stateful, make_rule. rewrite He. reflexivity.
Qed.

(** ** rule_list, in_order *)
Lemma rule_list_first rs e i f :
  nth_error rs i = Some f -> 
  (forall j g, j < i -> nth_error rs j = Some g -> exists x, g e = inl x /\ same x e) ->
  (forall x, f e = inl x -> ~ same x e -> stateful (rule_list (map pure rs)) tt e = inl x) /\
  (forall er, f e = inr er -> stateful (rule_list (map pure rs)) tt e = inr er).
Proof.
  revert i. unfold stateful. induction rs as [|g rs IH]; intros i Hi Hj; [destruct i; discriminate|].
  destruct i as [|i]; simpl in Hi.
  - injection Hi as ->. simpl. unfold pure at 1. split.
    + intros x -> Hx. simpl. unfold same in Hx. destruct (py_eq x e); [congruence|reflexivity].
    + intros er ->. reflexivity.
  - destruct (Hj 0 g) as (x & Hx & Hs); [lia|reflexivity|].
    assert (Hrl : rule_list (map pure (g :: rs)) tt e = rule_list (map pure rs) tt e).
    { simpl. unfold pure at 1. rewrite Hx. simpl. unfold same in Hs. rewrite Hs. reflexivity. }
    rewrite Hrl. apply (IH i Hi). intros j g' Hlt Hg'. apply (Hj (S j) g'); [lia|assumption].
Qed.
Lemma rule_list_none rs e :
  (forall g, In g rs -> exists x, g e = inl x /\ same x e) -> stateful (rule_list (map pure rs)) tt e = inl e.
Proof.
  unfold stateful. induction rs as [|g rs IH]; intros H; [reflexivity|].
  destruct (H g) as (x & Hx & Hs); [simpl; auto|]. simpl. unfold pure at 1. rewrite Hx. simpl.
  unfold same in Hs. rewrite Hs. apply IH. intros; apply H; simpl; auto.
Qed.
Lemma in_order_cons f rs e :
  stateful (in_order (map pure (f :: rs))) tt e =
  match f e with inl x => stateful (in_order (map pure rs)) tt x | inr er => inr er end.
Proof. unfold stateful. simpl. unfold pure at 1. destruct (f e); reflexivity. Qed.
Lemma in_order_fold gs e : stateful (in_order (map total gs)) tt e = inl (fold_left (fun x g => g x) gs e).
Proof.
  revert e. unfold stateful. induction gs as [|g gs IH]; intros e; simpl; [reflexivity|]. apply IH.
Qed.

(** ** iterated *)
Lemma steps_snoc f n : forall e p x, steps f n e p -> f p = inl x -> steps f (S n) e x.
Proof.
  induction n as [|n IH]; intros e p x H Hx; simpl in *.
  - subst. exists x. auto.
  - destruct H as (y & Hy & H). exists y. split; [assumption|]. apply (IH _ _ _ H Hx).
Qed.
Lemma iterated_sound f fuel : forall e x,
  iterated (pure f) fuel tt e = Some (tt, inl x) ->
  exists n p, n < fuel /\ steps f n e p /\ f p = inl x /\ same p x /\
              forall m q y, m < n -> steps f m e q -> f q = inl y -> ~ same q y.
Proof.
  induction fuel as [|fuel IH]; intros e x H; simpl in H; [discriminate|].
  unfold pure at 1 in H. destruct (f e) as [y|er] eqn:Hf; [|discriminate].
  destruct (py_eq e y) eqn:He.
  - injection H as <-. exists 0, e. repeat split; auto; try lia.
  - destruct (IH _ _ H) as (n & p & Hn & Hs & Hp & Hsame & Hmin). exists (S n), p.
    split; [lia|]. split; [simpl; eauto|]. split; [assumption|]. split; [assumption|].
    intros [|m] q z Hm Hst Hz.
    + simpl in Hst. subst q. rewrite Hf in Hz. injection Hz as <-. unfold same. congruence.
    + simpl in Hst. destruct Hst as (y' & Hy' & Hst). rewrite Hf in Hy'. injection Hy' as <-.
      apply (Hmin m q z); [lia|assumption|assumption].
Qed.
Lemma iterated_complete f n : forall e p x,
  steps f n e p -> f p = inl x -> same p x ->
  exists fuel m q y, m <= n /\ steps f m e q /\ f q = inl y /\ same q y /\
    forall fuel', fuel <= fuel' -> iterated (pure f) fuel' tt e = Some (tt, inl y).
Proof.
  induction n as [|n IH]; intros e p x Hs Hp Hsame.
  - simpl in Hs. subst p. exists 1, 0, e, x. repeat split; auto.
    intros [|fuel'] Hle; [lia|]. simpl. unfold pure at 1. rewrite Hp. unfold same in Hsame. rewrite Hsame. reflexivity.
  - simpl in Hs. destruct Hs as (y & Hy & Hs). destruct (py_eq e y) eqn:He.
    + exists 1, 0, e, y. repeat split; auto; [lia|].
      intros [|fuel'] Hle; [lia|]. simpl. unfold pure at 1. rewrite Hy, He. reflexivity.
    + destruct (IH y p x Hs Hp Hsame) as (fuel & m & q & z & Hm & Hq & Hz & Hqz & Hf).
      exists (S fuel), (S m), q, z. repeat split; auto; [lia|simpl; eauto|].
      intros [|fuel'] Hle; [lia|]. simpl. unfold pure at 1. rewrite Hy, He. apply Hf. lia.
Qed.
Lemma iterated_mono {S} (r : rule S) fuel : forall fuel' s e out,
  iterated r fuel s e = Some out -> fuel <= fuel' -> iterated r fuel' s e = Some out.
Proof.
  induction fuel as [|fuel IH]; intros fuel' s e out H Hle; simpl in H; [discriminate|].
  destruct fuel' as [|fuel']; [lia|]. simpl. destruct (r s e) as [s' [e'|er]]; [|assumption].
  destruct (py_eq e e'); [assumption|]. apply IH; [assumption|lia].
Qed.
Lemma iterated_diverges f e :
  (forall n p x, steps f n e p -> f p = inl x -> ~ same p x) ->
  forall fuel x, iterated (pure f) fuel tt e <> Some (tt, inl x).
Proof.
  intros H fuel x Hx. destruct (iterated_sound _ _ _ _ Hx) as (n & p & _ & Hs & Hp & Hsame & _).
  exact (H n p x Hs Hp Hsame).
Qed.
Lemma iterated_fixed f e x :
  (forall a b, same a b -> forall y z, f a = inl y -> f b = inl z -> same y z) -> (forall a, exists y, f a = inl y) ->
  forall fuel, iterated (pure f) fuel tt e = Some (tt, inl x) -> exists y, f x = inl y /\ same y x.
Proof.
  intros Hr Ht fuel H. destruct (iterated_sound _ _ _ _ H) as (n & p & _ & _ & Hp & Hsame & _).
  destruct (Ht x) as [y Hy]. exists y. split; [assumption|].
  specialize (Hr p x Hsame x y Hp Hy). unfold same in *. rewrite py_eq_sym. assumption.
Qed.

(** ** Traversals *)
Lemma registered_all l :
  (fix all l := match l with [] => True | x :: l' => registered x /\ all l' end) l <-> Forall registered l.
Proof.
  induction l as [|x l IH]; split; intros H; auto.
  - destruct H. constructor; [assumption|]. now apply IH.
  - inversion H; subst. split; [assumption|]. now apply IH.
Qed.
Lemma registered_kids v : registered v -> Forall registered (kids v).
Proof. destruct v as [| |[]| |]; simpl; intros H; try (now constructor); try contradiction; now apply registered_all in H. Qed.
Lemma with_kids_self v : with_kids v (kids v) = v.
Proof. destruct v as [| |[]| |]; reflexivity. Qed.
Lemma kids_ind (P : val -> Prop) : (forall v, Forall P (kids v) -> P v) -> forall v, P v.
Proof.
  intros H v. induction v using val_ind'; apply H; simpl; auto. destruct k; auto.
Qed.
Lemma tree_map_registered {S} v (f : rule S) s : registered v ->
  tree_map v f s = rbind (mapM f s (kids v)) (fun s' l => (s', inl (with_kids v l))).
Proof. destruct v as [| |[]| |]; simpl; intros H; try reflexivity. contradiction. Qed.
Lemma tree_map_inl {S} v (f : rule S) s s' w : tree_map v f s = (s', inl w) ->
  exists l, mapM f s (kids v) = (s', inl l) /\ w = with_kids v l.
Proof.
  destruct v as [| |[]| |]; simpl; intros H; try discriminate;
    try (injection H as <- <-; exists []; auto);
    unfold rbind, rret in H; destruct (mapM f s _) as [s1 [l'|]] eqn:Hm; try discriminate; injection H as <- <-; exists l'; auto.
Qed.
Lemma mapM_inl {S} (f : rule S) l : forall s s' l', mapM f s l = (s', inl l') ->
  Forall2 (fun x y => exists s1 s2, f s1 x = (s2, inl y)) l l'.
Proof.
  induction l as [|x l IH]; intros s s' l' H; simpl in H.
  - injection H as <- <-. constructor.
  - destruct (f s x) as [s1 [y|]] eqn:Hf; simpl in H; [|discriminate].
    destruct (mapM f s1 l) as [s2 [ys|]] eqn:Hm; simpl in H; [|discriminate].
    injection H as <- <-. constructor; [eauto|]. eapply IH; eassumption.
Qed.

(** logging traversals with a rule that changes nothing *)
Lemma mapM_log_id (f : rule (list val)) (ord : val -> list val) l :
  Forall (fun v => forall log, f log v = (log ++ ord v, inl v)) l ->
  forall log, mapM f log l = (log ++ flat_map ord l, inl l).
Proof.
  induction 1 as [|x l Hx Hl IH]; intros log; simpl.
  - rewrite app_nil_r. reflexivity.
  - rewrite Hx. simpl. rewrite IH. simpl. rewrite <- app_assoc. reflexivity.
Qed.
Lemma bottom_up_postorder v : registered v -> forall log,
  bottom_up (logging (fun e => e)) log v = (log ++ postorder v, inl v).
Proof.
  induction v as [v IH] using kids_ind. intros Hr log. rewrite bottom_up_eq. unfold rewrite_subexpressions.
  rewrite tree_map_registered by assumption.
  rewrite (mapM_log_id _ postorder).
  - simpl. unfold logging. rewrite with_kids_self. rewrite <- app_assoc.
    destruct v as [| |[]| |]; try reflexivity.
  - apply registered_kids in Hr. rewrite Forall_forall in *. intros x Hx log'. apply IH; auto.
Qed.

Lemma Forall_mapM_total (f : rule unit) (R : val -> val -> Prop) l :
  Forall (fun v => exists w, f tt v = (tt, inl w) /\ R v w) l ->
  exists l', mapM f tt l = (tt, inl l') /\ Forall2 R l l'.
Proof.
  induction 1 as [|x l (w & Hw & HR) Hl (l' & Hm & HF)]; simpl.
  - exists []. auto.
  - exists (w :: l'). rewrite Hw. simpl. rewrite Hm. simpl. auto.
Qed.
Lemma bottom_up_total g v : registered v ->
  exists w, bottom_up (total g) tt v = (tt, inl w) /\ rewritten_up g v w.
Proof.
  induction v as [v IH] using kids_ind. intros Hr. rewrite bottom_up_eq. unfold rewrite_subexpressions.
  rewrite tree_map_registered by assumption.
  destruct (Forall_mapM_total (bottom_up (total g)) (rewritten_up g) (kids v)) as (l' & Hm & HF).
  - apply registered_kids in Hr. rewrite Forall_forall in *. intros x Hx. apply IH; auto.
  - rewrite Hm. simpl. unfold total. eexists. split; [reflexivity|]. constructor. assumption.
Qed.
Lemma rewritten_up_det g v : forall w w', rewritten_up g v w -> rewritten_up g v w' -> w = w'.
Proof.
  induction v as [v IH] using kids_ind. intros w w' H H'. inversion H as [? ws HF]; inversion H' as [? ws' HF']; subst.
  f_equal. f_equal. clear H H'. revert ws ws' HF HF'. induction IH as [|x l Hx Hl IHl]; intros ws ws' HF HF';
    inversion HF; inversion HF'; subst; [reflexivity|]. f_equal; auto.
Qed.

(** number of calls *)
Lemma mapM_count (f : rule (list val)) l (n : val -> nat) :
  Forall (fun v => forall log, exists log' w, f log v = (log', inl w) /\ List.length log' = List.length log + n v) l ->
  forall log, exists log' l', mapM f log l = (log', inl l') /\ List.length log' = List.length log + list_sum (map n l).
Proof.
  induction 1 as [|x l Hx Hl IH]; intros log; simpl.
  - exists log, []. split; [reflexivity|lia].
  - destruct (Hx log) as (log1 & w & H1 & Hn1). rewrite H1. simpl.
    destruct (IH log1) as (log2 & l' & H2 & Hn2). rewrite H2. simpl. exists log2, (w :: l'). split; [reflexivity|lia].
Qed.
Lemma length_flat_map {A B} (f : A -> list B) l : List.length (flat_map f l) = list_sum (map (fun x => List.length (f x)) l).
Proof. induction l; simpl; auto. rewrite app_length. lia. Qed.
Lemma bottom_up_count g v : registered v -> forall log,
  exists log' w, bottom_up (logging g) log v = (log', inl w) /\ List.length log' = List.length log + List.length (postorder v).
Proof.
  induction v as [v IH] using kids_ind. intros Hr log. rewrite bottom_up_eq. unfold rewrite_subexpressions.
  rewrite tree_map_registered by assumption.
  destruct (mapM_count (bottom_up (logging g)) (kids v) (fun v => List.length (postorder v))) with (log := log) as (log' & l' & Hm & Hn).
  - apply registered_kids in Hr. rewrite Forall_forall in *. intros x Hx. apply IH; auto.
  - rewrite Hm. simpl. unfold logging. eexists _, _. split; [reflexivity|]. rewrite app_length, Hn.
    assert (He : List.length (postorder v) = list_sum (map (fun v => List.length (postorder v)) (kids v)) + 1).
    { destruct v as [| |[]| |]; simpl; try reflexivity; rewrite app_length, length_flat_map; reflexivity. }
    simpl. lia.
Qed.

Lemma mapM_logging g l : forall log, mapM (logging g) log l = (log ++ l, inl (map g l)).
Proof.
  induction l as [|x l IH]; intros log; simpl; [now rewrite app_nil_r|].
  rewrite IH. simpl. rewrite <- app_assoc. reflexivity.
Qed.
Lemma rewrite_subexpressions_kids g v log : registered v ->
  rewrite_subexpressions (logging g) log v = (log ++ kids v, inl (with_kids v (map g (kids v)))).
Proof.
  intros Hr. unfold rewrite_subexpressions. rewrite tree_map_registered by assumption.
  rewrite mapM_logging. reflexivity.
Qed.

(** top_down *)
Definition lift_kids {S} (v : val) (x : option (S * result (list val))) : option (S * result val) :=
  match x with
  | None => None
  | Some (s2, inr er) => Some (s2, inr er)
  | Some (s2, inl l) => Some (s2, inl (with_kids v l))
  end.
Definition is_list (v : val) : bool := match v with VSeq KList _ => true | _ => false end.
Lemma top_down_eq {S} (r : rule S) n s e :
  top_down r (Datatypes.S n) s e =
  match r s e with
  | (s1, inr er) => Some (s1, inr er)
  | (s1, inl e1) => if is_list e1 then Some (s1, inr NotImplErr) else lift_kids e1 (omapM (top_down r n) s1 (kids e1))
  end.
Proof.
  cbn [top_down]. destruct (r s e) as [s1 [e1|]]; [|reflexivity]. destruct e1 as [| |[]| |]; reflexivity.
Qed.
Lemma top_down_sound g n : forall v w, top_down (total g) n tt v = Some (tt, inl w) -> rewritten_down g v w.
Proof.
  induction n as [|n IH]; intros v w H; [discriminate|]. rewrite top_down_eq in H. unfold total at 1 in H.
  destruct (is_list (g v)); [discriminate|]. unfold lift_kids in H.
  destruct (omapM _ tt (kids (g v))) as [[[] [l|]]|] eqn:Hm; try discriminate. injection H as <-. constructor.
  revert l Hm. generalize (kids (g v)). intros ks. induction ks as [|x ks IHk]; intros l Hm; simpl in Hm.
  - injection Hm as <-. constructor.
  - destruct (top_down (total g) n tt x) as [[[] [y|]]|] eqn:Hx; try discriminate.
    destruct (omapM (top_down (total g) n) tt ks) as [[[] [ys|]]|] eqn:Hks; try discriminate.
    injection Hm as <-. constructor; auto.
Qed.
Lemma omapM_mono {S} (f f' : S -> val -> option (S * result val)) l :
  (forall s v out, f s v = Some out -> f' s v = Some out) ->
  forall s out, omapM f s l = Some out -> omapM f' s l = Some out.
Proof.
  intros Hf. induction l as [|x l IH]; intros s out H; simpl in *; [assumption|].
  destruct (f s x) as [[s1 [y|]]|] eqn:Hx; try discriminate; rewrite (Hf _ _ _ Hx); [|assumption].
  destruct (omapM f s1 l) as [[s2 [ys|]]|] eqn:Hl; try discriminate; rewrite (IH _ _ Hl); assumption.
Qed.
Lemma top_down_mono {S} (r : rule S) n : forall m s v out, n <= m -> top_down r n s v = Some out -> top_down r m s v = Some out.
Proof.
  induction n as [|n IH]; intros m s v out Hle H; [discriminate|]. destruct m as [|m]; [lia|].
  rewrite top_down_eq in *. destruct (r s v) as [s1 [e1|]]; [|assumption]. destruct (is_list e1); [assumption|].
  unfold lift_kids in *. destruct (omapM (top_down r n) s1 (kids e1)) as [o|] eqn:Hm; [|discriminate].
  rewrite (omapM_mono _ (top_down r m) _ (fun s v out => IH m s v out ltac:(lia)) _ _ Hm). assumption.
Qed.
Lemma is_list_with_kids v l : is_list (with_kids v l) = is_list v.
Proof. destruct v as [| |[]| |]; reflexivity. Qed.
Lemma kids_with_kids v l : registered (with_kids v l) -> List.length l = List.length (kids v) -> kids (with_kids v l) = l.
Proof. destruct v as [| |[]| |]; simpl; intros; try (destruct l; [reflexivity|discriminate]); reflexivity. Qed.
Lemma Forall2_len {A B} (R : A -> B -> Prop) l m : Forall2 R l m -> List.length l = List.length m.
Proof. induction 1; simpl; congruence. Qed.
Lemma rewritten_down_ind' g (P : val -> val -> Prop) :
  (forall v ws, Forall2 (fun a b => rewritten_down g a b /\ P a b) (kids (g v)) ws -> P v (with_kids (g v) ws)) ->
  forall v w, rewritten_down g v w -> P v w.
Proof.
  intros H. fix IH 3. intros v w [v' ws HF]. apply H.
  induction HF as [|a b la lb Hab HF IHF]; constructor; auto.
Qed.
Lemma top_down_complete g v w : rewritten_down g v w -> registered w ->
  exists n, top_down (total g) n tt v = Some (tt, inl w).
Proof.
  revert v w. apply (rewritten_down_ind' g (fun v w => registered w -> exists n, top_down (total g) n tt v = Some (tt, inl w))).
  intros v ws HF Hr.
  assert (Hl : is_list (g v) = false). { rewrite <- (is_list_with_kids _ ws). destruct (with_kids (g v) ws) as [| |[]| |]; simpl in *; tauto. }
  assert (Hks : Forall registered ws).
  { rewrite <- (kids_with_kids (g v) ws Hr); [now apply registered_kids|]. symmetry. eapply Forall2_len; eassumption. }
  assert (Hn : exists n, omapM (top_down (total g) n) tt (kids (g v)) = Some (tt, inl ws)).
  { clear Hr Hl. induction HF as [|a b la lb [_ Hab] HF IHF]; [exists 0; reflexivity|].
    inversion Hks as [|? ? Hb Hlb]; subst. destruct (Hab Hb) as [n1 H1]. destruct (IHF Hlb) as [n2 H2].
    exists (n1 + n2). simpl. rewrite (top_down_mono _ n1 (n1 + n2) _ _ _ ltac:(lia) H1).
    rewrite (omapM_mono _ (top_down (total g) (n1 + n2)) _ (fun s v out => top_down_mono _ n2 (n1+n2) s v out ltac:(lia)) _ _ H2). reflexivity. }
  destruct Hn as [n Hn]. exists (S n). rewrite top_down_eq. unfold total at 1. rewrite Hl, Hn. reflexivity.
Qed.
Lemma omapM_log_id (f : list val -> val -> option (list val * result val)) (ord : val -> list val) l :
  Forall (fun v => forall log, f log v = Some (log ++ ord v, inl v)) l ->
  forall log, omapM f log l = Some (log ++ flat_map ord l, inl l).
Proof.
  induction 1 as [|x l Hx Hl IH]; intros log; simpl.
  - rewrite app_nil_r. reflexivity.
  - rewrite Hx, IH. rewrite <- app_assoc. reflexivity.
Qed.
Lemma top_down_preorder v : registered v -> exists n, forall m log, n <= m ->
  top_down (logging (fun e => e)) m log v = Some (log ++ preorder v, inl v).
Proof.
  induction v as [v IH] using kids_ind. intros Hr.
  assert (Hn : exists n, forall m, n <= m -> Forall (fun v => forall log, top_down (logging (fun e => e)) m log v = Some (log ++ preorder v, inl v)) (kids v)).
  { apply registered_kids in Hr. induction IH as [|x l Hx Hl IHl]; [exists 0; constructor|].
    inversion Hr; subst. destruct (Hx H1) as [n1 H1']. destruct (IHl H2) as [n2 H2']. exists (n1 + n2). intros m Hm.
    constructor; [intros; apply H1'; lia | apply H2'; lia]. }
  destruct Hn as [n Hn]. exists (S n). intros [|m] log Hm; [lia|]. rewrite top_down_eq. unfold logging at 1.
  replace (is_list v) with false by (destruct v as [| |[]| |]; simpl in *; tauto).
  rewrite (omapM_log_id _ preorder) by (apply Hn; lia). simpl. rewrite with_kids_self, <- app_assoc.
  destruct v as [| |[]| |]; simpl in *; try contradiction; reflexivity.
Qed.

(** ** term_rewriter: meaning, termination, normal forms *)
Lemma rule_list_rel {S} (R : val -> val -> Prop) (rs : list (rule S)) : (forall v, R v v) ->
  (forall r s e s' e', In r rs -> r s e = (s', inl e') -> R e e') ->
  forall s e s' e', rule_list rs s e = (s', inl e') -> R e e'.
Proof.
  intros Hrefl. induction rs as [|r rs IH]; intros Hr s e s' e' H; simpl in H.
  - injection H as <- <-. apply Hrefl.
  - destruct (r s e) as [s1 [x|]] eqn:Hx; [|discriminate]. cbn [rbind] in H.
    destruct (negb (py_eq x e)).
    + injection H as <- <-. eapply Hr; [left; reflexivity|eassumption].
    + eapply IH; [|eassumption]. intros r' s2 e2 s3 e3 Hin. apply Hr. right. assumption.
Qed.
Lemma bottom_up_rel {S} (R : val -> val -> Prop) (r : rule S) : compositional R ->
  (forall s e s' e', r s e = (s', inl e') -> R e e') ->
  forall e s s' e', bottom_up r s e = (s', inl e') -> R e e'.
Proof.
  intros (Hrefl & Htrans & Hcong) Hr. induction e as [v IH] using kids_ind. intros s s' e' H.
  rewrite bottom_up_eq in H. unfold rewrite_subexpressions in H.
  destruct (tree_map v (bottom_up r) s) as [s1 [w|]] eqn:Hw; [|discriminate]. simpl in H.
  destruct (tree_map_inl _ _ _ _ _ Hw) as (l & Hl & ->). apply mapM_inl in Hl.
  apply Htrans with (with_kids v l); [|eapply Hr; eassumption]. apply Hcong.
  clear -IH Hl. induction Hl as [|x y lx ly (s1 & s2 & Hxy) Hl IHl]; constructor; inversion IH; subst; eauto.
Qed.
Lemma iterated_rel {S} (R : val -> val -> Prop) (r : rule S) : (forall v, R v v) -> (forall a b c, R a b -> R b c -> R a c) ->
  (forall s e s' e', r s e = (s', inl e') -> R e e') ->
  forall fuel s e s' e', iterated r fuel s e = Some (s', inl e') -> R e e'.
Proof.
  intros Hrefl Htrans Hr fuel. induction fuel as [|fuel IH]; intros s e s' e' H; simpl in H; [discriminate|].
  destruct (r s e) as [s1 [x|]] eqn:Hx; [|discriminate]. destruct (py_eq e x).
  - injection H as <- <-. eapply Hr; eassumption.
  - eapply Htrans; [eapply Hr; eassumption|]. eapply IH; eassumption.
Qed.
Lemma term_rewriter_rel {S} (R : val -> val -> Prop) (rs : list (rule S)) : compositional R ->
  (forall r s e s' e', In r rs -> r s e = (s', inl e') -> R e e') ->
  forall fuel s e s' e', term_rewriter rs fuel s e = Some (s', inl e') -> R e e'.
Proof.
  intros HR Hrs. destruct HR as (H1 & H2 & H3). apply iterated_rel; auto.
  intros s e s' e'. apply bottom_up_rel; [repeat split; auto|]. apply rule_list_rel; auto.
Qed.

Definition decreasing {S} (mu : val -> nat) (rs : list (rule S)) : Prop :=
  forall r s e s' e', In r rs -> r s e = (s', inl e') -> same e' e \/ mu e' < mu e.
Definition unchanged {S} (rs : list (rule S)) (e : val) : Prop :=
  forall r, In r rs -> exists s s' e', r s e = (s', inl e') /\ same e' e.

Lemma rule_list_dec {S} mu (rs : list (rule S)) : decreasing mu rs ->
  forall s e s' e', rule_list rs s e = (s', inl e') -> (e' = e /\ unchanged rs e) \/ mu e' < mu e.
Proof.
  induction rs as [|r rs IH]; intros Hd s e s' e' H; cbn [rule_list] in H.
  - injection H as <- <-. left. split; [reflexivity|]. intros r [].
  - destruct (r s e) as [s1 [x|]] eqn:Hx; [|discriminate]. cbn [rbind] in H.
    destruct (py_eq x e) eqn:He; simpl in H.
    + destruct (IH (fun r' s2 e2 s3 e3 Hin => Hd r' s2 e2 s3 e3 (or_intror Hin)) _ _ _ _ H) as [[-> Hu]|Hlt]; [left|right; assumption].
      split; [reflexivity|]. intros r' [<-|Hin]; [|auto]. exists s, s1, x. auto.
    + injection H as <- <-. right. destruct (Hd r s e s1 x) as [Hs|Hlt]; [left; reflexivity|assumption| |assumption].
      unfold same in Hs. congruence.
Qed.
Lemma bottom_up_dec {S} mu (rs : list (rule S)) : size_like mu -> decreasing mu rs ->
  forall e s s' e', bottom_up (rule_list rs) s e = (s', inl e') ->
    (e' = e /\ forall x, within x e -> unchanged rs x) \/ mu e' < mu e.
Proof.
  intros [Hsame Hmu] Hd. induction e as [v IH] using kids_ind. intros s s' e' H.
  rewrite bottom_up_eq in H. unfold rewrite_subexpressions in H.
  destruct (tree_map v _ s) as [s1 [w|]] eqn:Hw; [|discriminate]. simpl in H.
  destruct (tree_map_inl _ _ _ _ _ Hw) as (l & Hl & ->). apply mapM_inl in Hl.
  assert (Hk : (l = kids v /\ forall k, In k (kids v) -> forall x, within x k -> unchanged rs x) \/
               (Forall2 (fun w k => mu w <= mu k) l (kids v) /\ Exists (fun wk => mu (fst wk) < mu (snd wk)) (combine l (kids v)))).
  { clear -IH Hl. induction Hl as [|x y lx ly (s1 & s2 & Hxy) Hl IHl].
    - left. split; [reflexivity|intros k []].
    - inversion IH as [|? ? Hx Hlx]; subst. specialize (IHl Hlx). destruct (Hx _ _ _ Hxy) as [[-> Hun]|Hlt].
      + destruct IHl as [[-> Hall]|[H1 H2]].
        * left. split; [reflexivity|]. intros k [<-|Hin]; auto. intros z Hz. eapply Hall; eassumption.
        * right. split; [constructor; auto|]. apply Exists_cons_tl. assumption.
      + right. split; [|apply Exists_cons_hd; assumption]. constructor; [lia|].
        destruct IHl as [[-> Hall]|[H1 H2]]; [|assumption].
        clear. induction lx; constructor; auto. }
  destruct Hk as [[-> Hall]|[HF HE]].
  - rewrite with_kids_self in H. destruct (rule_list_dec mu rs Hd _ _ _ _ H) as [[-> Hu]|Hlt]; [left|right; assumption].
    split; [reflexivity|]. intros x Hx. inversion Hx as [|? k Hk Hx']; subst; [assumption|]. eapply Hall; eassumption.
  - right. destruct (Hmu v l HF) as [_ Hlt]. specialize (Hlt HE).
    destruct (rule_list_dec mu rs Hd _ _ _ _ H) as [[-> _]|Hlt']; lia.
Qed.
Lemma term_rewriter_normal {S} mu (rs : list (rule S)) : size_like mu -> decreasing mu rs ->
  forall fuel s e s' x, term_rewriter rs fuel s e = Some (s', inl x) -> forall y, within y x -> unchanged rs y.
Proof.
  intros Hmu Hd fuel. unfold term_rewriter. induction fuel as [|fuel IH]; intros s e s' x H; cbn [iterated] in H; [discriminate|].
  destruct (bottom_up (rule_list rs) s e) as [s1 [e1|]] eqn:Hb; [|discriminate].
  destruct (py_eq e e1) eqn:He.
  - injection H as <- <-. destruct (bottom_up_dec mu rs Hmu Hd _ _ _ _ Hb) as [[-> Hu]|Hlt]; [assumption|].
    destruct Hmu as [Hsame _]. rewrite (Hsame e e1 He) in Hlt. lia.
  - eapply IH. eassumption.
Qed.
Lemma term_rewriter_terminates {S} mu (rs : list (rule S)) : size_like mu -> decreasing mu rs ->
  forall s e, exists fuel out, term_rewriter rs fuel s e = Some out.
Proof.
  intros Hmu Hd s e. remember (mu e) as n eqn:Hn. revert s e Hn.
  induction n as [n IH] using lt_wf_ind. intros s e ->.
  destruct (bottom_up (rule_list rs) s e) as [s1 [e1|er]] eqn:Hb.
  - destruct (bottom_up_dec mu rs Hmu Hd _ _ _ _ Hb) as [[-> _]|Hlt].
    + exists 1, (s1, inl e). unfold term_rewriter. cbn [iterated]. rewrite Hb, py_eq_refl. reflexivity.
    + destruct (py_eq e e1) eqn:He.
      * exists 1, (s1, inl e1). unfold term_rewriter. cbn [iterated]. rewrite Hb, He. reflexivity.
      * destruct (IH (mu e1) Hlt s1 e1 eq_refl) as (fuel & out & Ho). exists (Datatypes.S fuel), out.
        unfold term_rewriter in *. cbn [iterated]. rewrite Hb, He. assumption.
  - exists 1, (s1, inr er). unfold term_rewriter. cbn [iterated]. rewrite Hb. reflexivity.
Qed.
