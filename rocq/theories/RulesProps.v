(** Property theorems C09-C15 (oryx/experimental/matching/rules.py). *)
From Verif Require Import RulesSpec RulesProofs.

Definition num (z : Z) : val := VNum KInt z.
Definition flt (z : Z) : val := VNum KFloat z.
Definition tup (l : list val) : val := VSeq KTuple l.
Definition V (x : string) : pat := PVar (Some x) [].
Definition is_float (v : val) : bool := match v with VNum KFloat _ => true | _ => false end.
Definition get (b : bindings) (x : string) : result val := match dget b x with Some v => inl v | None => inr TypeErr end.

(** C09 for a rule that was not called before.  Full statement: also for expressions that contain dicts; false,
    next theorem.  [MatchErr] raised by the handler itself counts as "no match" (third clause of the body). *)
Theorem C09_make_rule_partial : forall p h e, ~ has_mutable e ->
  (forall b, match_ p e = inl b -> forall v, h b = inl v -> stateful (make_rule p h) [] e = inl v) /\
  (forall b er, match_ p e = inl b -> h b = inr er -> er <> MatchErr -> stateful (make_rule p h) [] e = inr er) /\
  (match_ p e = inr MatchErr -> stateful (make_rule p h) [] e = inl e) /\
  (forall er, match_ p e = inr er -> er <> MatchErr -> stateful (make_rule p h) [] e = inr er).
Proof. intros p h e H. apply rule_spec, hashable_no, H. Qed.
Print Assumptions C09_make_rule_partial.
(** and exactly the expressions with a list or a dict in them, or whose match or handler raises, make it raise: on the former
    every rule made by make_rule raises TypeError, whatever was called before *)
Theorem C09_mutable_raises : forall p h history e, has_mutable e ->
  stateful (make_rule p h) (calls (make_rule p h) [] history) e = inr TypeErr.
Proof. intros p h hist e H. apply hashable_iff in H. unfold stateful, make_rule. rewrite H. reflexivity. Qed.
Example C09_mutable_nontrivial : has_mutable (VNode "Literal" [tup [num 1; VSeq KList [num 2]]] []) /\ ~ has_mutable (VNode "Literal" [tup [num 1]] [num 2]).
Proof. split; [apply hashable_iff; reflexivity|]. intros H. apply hashable_iff in H. discriminate. Qed.
(** every rule made by make_rule raises TypeError on a dict, although dicts are registered tree nodes *)
Theorem C09_dict_refuted : exists p h e b v, registered e /\
  match_ p e = inl b /\ h b = inl v /\ stateful (make_rule p h) [] e = inr TypeErr.
Proof.
  exists (PDict ["a"] [V "x"]), (fun b => get b "x"), (VDict ["a"] [num 1]), [("x", num 1)], (num 1).
  repeat split.
Qed.
Print Assumptions C09_dict_refuted.
Example C09_nontrivial : stateful (make_rule (PSeq KTuple [V "x"; V "y"]) (fun b => get b "y")) [] (tup [num 1; num 2]) = inl (num 2) /\
  stateful (make_rule (PSeq KTuple [V "x"; V "y"]) (fun b => get b "y")) [] (tup [num 1]) = inl (tup [num 1]).
Proof. split; reflexivity. Qed.

(** C10.  Full statement: without the hypothesis on the history.  It is false (next theorem). *)
Theorem C10_cache_invisible_partial : forall p h history e,
  (forall e', In e' history -> same e' e -> e' = e) ->
  stateful (make_rule p h) (calls (make_rule p h) [] history) e = stateful (make_rule p h) [] e.
Proof. exact cache_invisible. Qed.
Print Assumptions C10_cache_invisible_partial.
(** without the hypothesis: the answer is the fresh answer for e or for an equal expression called before *)
Theorem C10_cached_answer : forall p h history e, ~ has_mutable e ->
  stateful (make_rule p h) (calls (make_rule p h) [] history) e = stateful (make_rule p h) [] e \/
  exists e', In e' history /\ same e' e /\
    stateful (make_rule p h) (calls (make_rule p h) [] history) e = rule_body p h e'.
Proof. intros p h hist e H. apply cached_call, hashable_no, H. Qed.
Print Assumptions C10_cached_answer.
(** a bare int or string is never taken for anything else that was rewritten before (True == 1 == 1.0, but they have other keys) *)
Theorem C10_scalars : forall p h history e, (exists n, e = num n) \/ (exists t, e = VStr t) ->
  stateful (make_rule p h) (calls (make_rule p h) [] history) e = stateful (make_rule p h) [] e.
Proof.
  intros p h hist e He. assert (Hh : hashable e = true) by (destruct He as [[n ->]|[t ->]]; reflexivity).
  rewrite make_rule_fresh by exact Hh. assert (Hinv : cache_inv p h ([] ++ hist) (calls (make_rule p h) [] hist)) by (apply calls_inv; intros ? ? []).
  set (c := calls _ _ _) in *. unfold stateful, make_rule. rewrite Hh. destruct (lookup c e) eqn:Hl; [|destruct (rule_body p h e); reflexivity].
  destruct (lookup_in _ _ _ Hl) as (k & H1 & H2). destruct (Hinv _ _ H1) as [_ H4]. assert (k = e); [|subst; simpl; congruence].
  unfold key_eq in H2. apply Bool.andb_true_iff in H2 as [H2 H3]. destruct He as [[n ->]|[t ->]].
  - destruct k as [[] z| | | |]; try discriminate. cbn in H3. apply Z.eqb_eq in H3. subst. reflexivity.
  - destruct k as [[] z|s| | |]; try discriminate. cbn in H3. f_equal. clear -H3. revert t H3. induction s as [|a s IH]; intros [|b t] H; try discriminate; [reflexivity|]. cbn in H. apply Bool.andb_true_iff in H as [H1 H2]. apply Ascii.eqb_eq in H1. subst. f_equal. apply IH, H2.
Qed.
Print Assumptions C10_scalars.
(** rule on (float,): called first on (1,), it then leaves (1.0,) alone (returning (1,)) *)
Theorem C10_cache_visible_refuted : exists p h history e,
  stateful (make_rule p h) (calls (make_rule p h) [] history) e <> stateful (make_rule p h) [] e.
Proof.
  exists (PSeq KTuple [PVar (Some "x") [is_float]]), (fun _ => inl (num 7)), [tup [num 1]], (tup [flt 1]).
  vm_compute. discriminate.
Qed.
Print Assumptions C10_cache_visible_refuted.
Example C10_nontrivial : forall e', In e' [tup [num 1]; num 2; tup [num 3]] -> same e' (tup [num 3]) -> e' = tup [num 3].
Proof. intros e' [<-|[<-|[<-|[]]]] H; try reflexivity; discriminate. Qed.

(** C11 *)
Theorem C11_rule_list_first : forall rs e i f, nth_error rs i = Some f ->
  (forall j g, j < i -> nth_error rs j = Some g -> exists x, g e = inl x /\ same x e) ->
  (forall x, f e = inl x -> ~ same x e -> stateful (rule_list (map pure rs)) tt e = inl x) /\
  (forall er, f e = inr er -> stateful (rule_list (map pure rs)) tt e = inr er).
Proof. exact rule_list_first. Qed.
Print Assumptions C11_rule_list_first.
Theorem C11_rule_list_none : forall rs e,
  (forall g, In g rs -> exists x, g e = inl x /\ same x e) -> stateful (rule_list (map pure rs)) tt e = inl e.
Proof. exact rule_list_none. Qed.
Print Assumptions C11_rule_list_none.
Theorem C11_in_order : forall gs e, stateful (in_order (map total gs)) tt e = inl (fold_left (fun x g => g x) gs e).
Proof. exact in_order_fold. Qed.
Print Assumptions C11_in_order.
Theorem C11_in_order_errors : forall f rs e, stateful (in_order (map pure (f :: rs))) tt e =
  match f e with inl x => stateful (in_order (map pure rs)) tt x | inr er => inr er end.
Proof. exact in_order_cons. Qed.
Print Assumptions C11_in_order_errors.
Example C11_nontrivial : 
  let f v := match v with VNum k z => inl (VNum k (z + 1)) | _ => inl v end in
  stateful (rule_list (map pure [(fun v => inl v); f; (fun _ => inr TypeErr)])) tt (num 1) = inl (num 2).
Proof. reflexivity. Qed.

(** C12.  What a terminating run returns: the first repetition (up to ==). *)
Theorem C12_iterated_sound : forall f fuel e x,
  iterated (pure f) fuel tt e = Some (tt, inl x) ->
  exists n p, n < fuel /\ steps f n e p /\ f p = inl x /\ same p x /\
              forall m q y, m < n -> steps f m e q -> f q = inl y -> ~ same q y.
Proof. exact iterated_sound. Qed.
Print Assumptions C12_iterated_sound.
Theorem C12_iterated_complete : forall f n e p x, steps f n e p -> f p = inl x -> same p x ->
  exists fuel m q y, m <= n /\ steps f m e q /\ f q = inl y /\ same q y /\
    forall fuel', fuel <= fuel' -> iterated (pure f) fuel' tt e = Some (tt, inl y).
Proof. exact iterated_complete. Qed.
Print Assumptions C12_iterated_complete.
Theorem C12_iterated_diverges : forall f e,
  (forall n p x, steps f n e p -> f p = inl x -> ~ same p x) ->
  forall fuel x, iterated (pure f) fuel tt e <> Some (tt, inl x).
Proof. exact iterated_diverges. Qed.
Print Assumptions C12_iterated_diverges.
(** the result is a fixed point, for rules that do not distinguish equal expressions (full statement: for all
    rules; false, next theorem) *)
Theorem C12_fixed_point_partial : forall f e x,
  (forall a b, same a b -> forall y z, f a = inl y -> f b = inl z -> same y z) -> (forall a, exists y, f a = inl y) ->
  forall fuel, iterated (pure f) fuel tt e = Some (tt, inl x) -> exists y, f x = inl y /\ same y x.
Proof. exact iterated_fixed. Qed.
Print Assumptions C12_fixed_point_partial.
(** 1.0 -> 1 -> 2: iterated returns 1 *)
Theorem C12_fixed_point_refuted : exists f e x,
  iterated (pure f) 1 tt e = Some (tt, inl x) /\ exists y, f x = inl y /\ ~ same y x.
Proof.
  exists (fun v => match v with VNum KFloat z => inl (num z) | VNum _ 1 => inl (num 2) | _ => inl v end), (flt 1), (num 1).
  split; [reflexivity|]. exists (num 2). split; [reflexivity|discriminate].
Qed.
Print Assumptions C12_fixed_point_refuted.
Example C12_nontrivial :
  let f v := match v with VNum k z => inl (VNum k (Z.max 0 (z - 1))) | _ => inl v end in
  iterated (pure f) 5 tt (num 3) = Some (tt, inl (num 0)).
Proof. reflexivity. Qed.

(** C13 *)
Theorem C13_bottom_up_visits_each_node_once_children_first : forall v, registered v -> forall log,
  bottom_up (logging (fun e => e)) log v = (log ++ postorder v, inl v).
Proof. exact bottom_up_postorder. Qed.
Print Assumptions C13_bottom_up_visits_each_node_once_children_first.
Theorem C13_bottom_up_number_of_calls : forall g v, registered v -> forall log,
  exists log' w, bottom_up (logging g) log v = (log', inl w) /\ List.length log' = List.length log + List.length (postorder v).
Proof. exact bottom_up_count. Qed.
Print Assumptions C13_bottom_up_number_of_calls.
Theorem C13_bottom_up_result : forall g v, registered v ->
  exists w, bottom_up (total g) tt v = (tt, inl w) /\ rewritten_up g v w.
Proof. exact bottom_up_total. Qed.
Print Assumptions C13_bottom_up_result.
Theorem C13_bottom_up_result_unique : forall g v w w', rewritten_up g v w -> rewritten_up g v w' -> w = w'.
Proof. exact rewritten_up_det. Qed.
Print Assumptions C13_bottom_up_result_unique.
Theorem C13_rewrite_subexpressions : forall g v log, registered v ->
  rewrite_subexpressions (logging g) log v = (log ++ kids v, inl (with_kids v (map g (kids v)))).
Proof. exact rewrite_subexpressions_kids. Qed.
Print Assumptions C13_rewrite_subexpressions.
Theorem C13_top_down_sound : forall g n v w, top_down (total g) n tt v = Some (tt, inl w) -> rewritten_down g v w.
Proof. exact top_down_sound. Qed.
Print Assumptions C13_top_down_sound.
Theorem C13_top_down_complete : forall g v w, rewritten_down g v w -> registered w ->
  exists n, top_down (total g) n tt v = Some (tt, inl w).
Proof. exact top_down_complete. Qed.
Print Assumptions C13_top_down_complete.
Theorem C13_top_down_visits_each_node_once_parents_first : forall v, registered v -> exists n, forall m log, n <= m ->
  top_down (logging (fun e => e)) m log v = Some (log ++ preorder v, inl v).
Proof. exact top_down_preorder. Qed.
Print Assumptions C13_top_down_visits_each_node_once_parents_first.
Example C13_nontrivial : registered (VDict ["a"] [tup [num 1; VNode "Primitive" [] [num 2]]]) /\
  postorder (VDict ["a"] [tup [num 1; num 2]]) = [num 1; num 2; tup [num 1; num 2]; VDict ["a"] [tup [num 1; num 2]]].
Proof. split; [cbn; tauto|reflexivity]. Qed.

(** C14.  Full statement: without [size_like]/[decreasing].  False (next theorem). *)
Theorem C14_normal_form_partial : forall (mu : val -> nat) (fs : list (val -> result val)), size_like mu ->
  (forall f e x, In f fs -> f e = inl x -> same x e \/ mu x < mu e) ->
  forall fuel e x, term_rewriter (map pure fs) fuel tt e = Some (tt, inl x) ->
  forall y, within y x -> forall f, In f fs -> exists z, f y = inl z /\ same z y.
Proof.
  intros mu fs Hmu Hd fuel e x H y Hy f Hf.
  destruct (term_rewriter_normal mu (map pure fs) Hmu) with (fuel := fuel) (s := tt) (e := e) (s' := tt) (x := x) (y := y) (r := pure f)
    as (s & s' & z & Hz & Hs); auto.
  - intros r s1 e1 s2 e2 Hin Hr. apply in_map_iff in Hin as (g & <- & Hg). unfold pure in Hr. injection Hr as _ Hr. eauto.
  - apply in_map. assumption.
  - unfold pure in Hz. injection Hz as _ Hz. eauto.
Qed.
Print Assumptions C14_normal_form_partial.
(** rules 1 -> 2 and (2,) -> (1,): the result (1,) is returned although 1 can be rewritten *)
Theorem C14_normal_form_refuted : exists fs fuel e x y f z,
  term_rewriter (map pure fs) fuel tt e = Some (tt, inl x) /\ within y x /\ In f fs /\ f y = inl z /\ ~ same z y.
Proof.
  pose (f := fun v => if py_eq v (num 1) then inl (num 2) else inl v : result val).
  pose (g := fun v => if py_eq v (tup [num 2]) then inl (tup [num 1]) else inl v : result val).
  exists [f; g], 1, (tup [num 1]), (tup [num 1]), (num 1), f, (num 2).
  split; [reflexivity|]. split; [apply within_kid with (num 1); [left; reflexivity|constructor]|].
  split; [left; reflexivity|]. split; [reflexivity|discriminate].
Qed.
Print Assumptions C14_normal_form_refuted.

(** C15 (for rules with or without internal state, such as caches) *)
Theorem C15_meaning_preserved : forall S (R : val -> val -> Prop) (rs : list (rule S)), compositional R ->
  (forall r s e s' e', In r rs -> r s e = (s', inl e') -> R e e') ->
  forall fuel s e s' e', term_rewriter rs fuel s e = Some (s', inl e') -> R e e'.
Proof. intros S. exact term_rewriter_rel. Qed.
Print Assumptions C15_meaning_preserved.
Theorem C15_terminates : forall S (mu : val -> nat) (rs : list (rule S)), size_like mu ->
  (forall r s e s' e', In r rs -> r s e = (s', inl e') -> same e' e \/ mu e' < mu e) ->
  forall s e, exists fuel out, term_rewriter rs fuel s e = Some out.
Proof. intros S. exact term_rewriter_terminates. Qed.
Print Assumptions C15_terminates.

(** Witness for C14/C15: the sum of all positive integers in the expression is size-like, and the documented rule
    "positive a -> a - 1" (rules.py:245-252) decreases it. *)
Fixpoint total_pos (v : val) : nat :=
  match v with
  | VNum _ z => Z.to_nat z
  | VStr _ => 0
  | VSeq _ l => list_sum (map total_pos l)
  | VDict _ l => list_sum (map total_pos l)
  | VNode _ _ l => list_sum (map total_pos l)
  end.
Definition dec_rule (v : val) : result val :=
  match v with VNum KInt z => if Z.ltb 0 z then inl (num (z - 1)) else inl v | _ => inl v end.
Lemma total_pos_canon v : total_pos (canon v) = total_pos v.
Proof.
  induction v using val_ind'; simpl; auto; rewrite map_map; f_equal; apply map_ext_Forall; assumption.
Qed.
Lemma sum_le l : forall m, Forall2 (fun w k => total_pos w <= total_pos k) l m ->
  list_sum (map total_pos l) <= list_sum (map total_pos m) /\
  (Exists (fun wk => total_pos (fst wk) < total_pos (snd wk)) (combine l m) -> list_sum (map total_pos l) < list_sum (map total_pos m)).
Proof.
  induction 1 as [|w k l m Hwk HF [IH1 IH2]]; simpl.
  - split; [lia|]. intros H; inversion H.
  - split; [lia|]. intros H. inversion H as [? ? Hlt|? ? Hex]; subst; simpl in *; [lia|]. specialize (IH2 Hex). lia.
Qed.
Example C14_C15_nontrivial : size_like total_pos /\
  (forall e x, dec_rule e = inl x -> same x e \/ total_pos x < total_pos e) /\
  term_rewriter (map pure [dec_rule]) 9 tt (tup [tup [num 1; num 2]; num 3]) = Some (tt, inl (tup [tup [num 0; num 0]; num 0])).
Proof.
  split; [split|split; [|reflexivity]].
  - intros a b H. unfold same in H. rewrite py_eq_canon in H. rewrite <- (total_pos_canon a), H, total_pos_canon. reflexivity.
  - intros v l HF.
    destruct v as [k z|s|[] l'|ks vs|c h k]; simpl in *; try (inversion HF; subst; split; [lia|intros H; inversion H]); apply sum_le; assumption.
  - intros e x H. unfold dec_rule in H. destruct e as [[] z| | | |]; try (injection H as <-; left; apply py_eq_refl).
    destruct (Z.ltb_spec 0 z); injection H as <-; [right; cbn; lia|left; apply py_eq_refl].
Qed.
Example C15_meaning_nontrivial : compositional (fun a b => total_pos b <= total_pos a).
Proof.
  repeat split; try (intros; lia). intros v l HF.
  destruct C14_C15_nontrivial as [[_ H] _]. apply H. clear -HF. induction HF; constructor; auto.
Qed.
