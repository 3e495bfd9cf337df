(** Property theorems C22 and C65 (oryx/experimental/autoconj/canonicalize.py). *)
From Verif Require Import MatcherSpec RulesSpec CanonicalizeModel CanonicalizeProofs CanonicalizeProofs2 CanonicalizeProofs3 CanonicalizeProofs4.
From Coq Require Import Ring_theory ArithRing.

(** The states of the rule caches that a program can bring about: initially empty, then any calls, successful or not, of
    canonicalize and of the individual rules. *)
Inductive reached {K} (P : prims K) : caches -> Prop :=
| reached_fresh : reached P fresh
| reached_canonicalize : forall s fuel e s' out, reached P s -> canonicalize K P fuel s e = Some (s', out) -> reached P s'
| reached_rule : forall s r e s' out, reached P s -> In r (canonicalization_rules K P) -> r s e = (s', out) -> reached P s'.

(** ** C22.  [eval K k0 k1 kadd kmul P lim e env]: the value of e in env, provided that every array computed on the way has
    a number of dimensions allowed by [lim].
    Full statement: with [any] also in the hypothesis.  It is false (next theorem): the rules name the dimensions of
    their operands by the first letters of the alphabet, of which there are 52. *)
Definition any (n : nat) : bool := true.
Definition upto (m n : nat) : bool := Nat.leb n m.
Theorem C22_canonicalize_keeps_value_partial :
  forall K k0 k1 kadd kmul, semi_ring_theory k0 k1 kadd kmul eq -> forall P : prims K, prims_ok P ->
  forall s fuel e s' e', reached P s -> canonicalize K P fuel s e = Some (s', inl e') ->
  forall env v, eval K k0 k1 kadd kmul P (upto 26) e env = inl v -> eval K k0 k1 kadd kmul P any e' env = inl v.
Proof.
  intros K k0 k1 kadd kmul SR P POK s fuel e s' e' Hr H env v Hv.
  assert (LIM : forall n, upto 26 n = true -> n <= 26) by (intros n; apply Nat.leb_le).
  assert (Hk : all_keep K k0 k1 kadd kmul P (upto 26) s).
  { clear -Hr SR POK LIM. induction Hr as [|s fuel e s' out Hr IH H|s r e s' out Hr IH Hin H].
    - intros j k w [].
    - exact (proj1 (canonicalize_keeps K k0 k1 kadd kmul P SR POK (upto 26) LIM fuel s e s' out IH H)).
    - exact (proj1 (rules_keep K k0 k1 kadd kmul P SR POK (upto 26) LIM r e Hin s s' out IH H)). }
  destruct (canonicalize_keeps K k0 k1 kadd kmul P SR POK (upto 26) LIM fuel s e s' _ Hk H) as [_ H1].
  apply (eval_lim K k0 k1 kadd kmul P (upto 26) any e' (fun _ _ => eq_refl)). apply (H1 e' eq_refl). assumption.
Qed.
Print Assumptions C22_canonicalize_keeps_value_partial.

(** it always comes to an end, by returning or by raising *)
Theorem C22_canonicalize_terminates :
  forall K (P : prims K) s e, reached P s -> exists fuel out, canonicalize K P fuel s e = Some out.
Proof.
  intros K P s e Hr.
  assert (Hs : all_shrink (fun _ _ => True) s).
  { induction Hr as [|s fuel e' s' out Hr IH H|s r e' s' out Hr IH Hin H].
    - intros j k w [].
    - eapply (canonicalize_shrinks K P (fun _ _ => True)); [auto|auto|exact IH|exact H].
    - eapply (rule_calls_shrink K P (fun _ _ => True)); [auto|auto|exact Hin|exact IH|exact H]. }
  exact (proj1 (canonicalize_shrinks K P (fun _ _ => True) (fun _ _ _ _ _ => I) (fun _ _ _ _ _ _ => I)) s e Hs).
Qed.
Print Assumptions C22_canonicalize_terminates.

(** ** C65: no subexpression y of the result is a transpose, squeeze, reduce_sum or dot_general, a plain addition, an
    Einsum with an Einsum among its operands or an AddN with an AddN among its operands. *)
Definition canonical_form (y : val) : Prop :=
  (forall p ps x, In p ["transpose"; "squeeze"; "reduce_sum"] -> y <> Primitive p ps [x]) /\
  (forall ps x x', y <> Primitive "dot_general" ps [x; x']) /\
  (forall x x', y <> Primitive "add" (Params []) [x; x']) /\
  (forall parent ops child args, y = VNode "Einsum" [parent] ops -> ~ In (VNode "Einsum" [child] args) ops) /\
  (forall ops args, y = AddN ops -> ~ In (AddN args) ops).
(** the shape rules of the other primitives do not raise the matcher's MatchError *)
Definition shapes_raise_no_match_error {K} (P : prims K) : Prop :=
  (forall p v l, oshape P p v l <> inr MatchErr) /\ (forall p v l, oshapeN P p v l <> inr MatchErr).
Theorem C65_canonical_form :
  forall K (P : prims K), shapes_raise_no_match_error P ->
  forall s fuel e s' e', reached P s -> canonicalize K P fuel s e = Some (s', inl e') ->
  forall y, within y e' -> canonical_form y.
Proof.
  intros K P [H1 HN] s fuel e s' e' Hr H y Hy. set (Ns := fun i v => ~ redex i v).
  assert (A1 : forall i v w, same v w -> Ns i v -> Ns i w).
  { intros i v w Hs Hn Hw. apply Hn. eapply redex_same; [|exact Hw]. unfold same in *. rewrite py_eq_sym. assumption. }
  assert (A2 : forall i p h e, In (i, (p, h)) (combine (seq 0 7) (pattern_handlers K P)) ->
    match_ p e = inr MatchErr \/ (exists b, match_ p e = inl b /\ h b = inr MatchErr) -> Ns i e).
  { intros i p h x Hin Hm Hx. destruct (redex_matches K P i p h x Hin Hx) as [b Hb]. destruct Hm as [Hm|(b' & _ & Hh)]; [congruence|].
    exact (nm_handlers K P H1 HN p h b' (in_combine_r _ _ _ _ Hin) Hh). }
  assert (Hs : all_shrink Ns s).
  { clear -Hr A1 A2. induction Hr as [|s fuel e s' out Hr IH H|s r e s' out Hr IH Hin H].
    - intros j k w [].
    - eapply (canonicalize_shrinks K P Ns A1 A2); [exact IH|exact H].
    - eapply (rule_calls_shrink K P Ns A1 A2); [exact Hin|exact IH|exact H]. }
  pose proof (proj1 (proj2 (canonicalize_shrinks K P Ns A1 A2)) fuel s e s' e' Hs H) as Hc.
  assert (N : forall i, i < 7 -> ~ redex i y).
  { intros i Hi. destruct (nth_error (combine (seq 0 7) (pattern_handlers K P)) i) as [[j [p h]]|] eqn:E.
    - assert (j = i). { do 7 (destruct i as [|i]; [cbn in E; injection E as <- _; reflexivity|]). lia. } subst j.
      exact (Hc y i p h Hy (nth_error_In _ _ E)).
    - apply nth_error_None in E. cbn in E. lia. }
  split; [|split; [|split; [|split]]].
  - intros p ps x Hp ->. destruct Hp as [<-|[<-|[<-|[]]]].
    + apply (N 0 ltac:(lia)). cbn. eauto.
    + apply (N 2 ltac:(lia)). cbn. eauto.
    + apply (N 3 ltac:(lia)). cbn. eauto.
  - intros ps x x' ->. apply (N 1 ltac:(lia)). cbn. eauto.
  - intros x x' ->. apply (N 5 ltac:(lia)). cbn. eauto.
  - intros p ops c a -> Hin. apply in_split in Hin as (l & r & ->). apply (N 4 ltac:(lia)). cbn. eauto 10.
  - intros ops a -> Hin. apply in_split in Hin as (l & r & ->). apply (N 6 ltac:(lia)). cbn. eauto 10.
Qed.
Print Assumptions C65_canonical_form.

(** ** Concrete instance: natural numbers, one opaque primitive neg-like "double" *)
Definition double : prims nat := {|
  lit := fun v => match v with VNum _ z => Some (mk_array [] [Z.to_nat z]) | _ => None end;
  multi := fun _ => false;
  obind := fun p _ l => match l with [x] => inl (tabulate (shape x) (fun ix => 2 * get 0 x ix)) | _ => inr TypeErr end;
  obindN := fun _ _ _ => inr TypeErr;
  oshape := fun p _ l => match l with [s] => inl s | _ => inr TypeErr end;
  oshapeN := fun _ _ _ => inr TypeErr |}.
Lemma double_ok : prims_ok double /\ shapes_raise_no_match_error double.
Proof.
  split; [split|split]; cbn; try reflexivity; try discriminate.
  - intros v w H. apply py_eq_canon in H. destruct v, w; simpl in H; try discriminate; try reflexivity. congruence.
  - intros _ _ [|x [|x' l]] a s H1 H2; try discriminate. injection H1 as <-. injection H2 as <-. reflexivity.
  - intros _ _ [|x []]; discriminate.
Qed.
Definition ints (l : list nat) : val := VSeq KTuple (map (fun n => VNum KInt (Z.of_nat n)) l).
Definition px : val := JVar "x" [2; 3].
Definition py : val := JVar "y" [2; 3].
Definition pz : val := JVar "z" [2].
Definition neval lim := eval nat 0 1 Nat.add Nat.mul double lim.
(** sum_0 (x . transpose (double y)) + (z + z) *)
Definition example : val :=
  Primitive "add" (Params [])
    [Primitive "reduce_sum" (Params [("axes", ints [0])])
       [Primitive "dot_general" (Params [("dimension_numbers", VSeq KTuple [VSeq KTuple [ints [1]; ints [0]]; VSeq KTuple [ints []; ints []]])])
          [px; Primitive "transpose" (Params [("permutation", ints [1; 0])]) [Primitive "double" (Params []) [py]]]];
     Primitive "add" (Params []) [pz; pz]].
Definition xyz : list (string * array nat) :=
  [("x", mk_array [2; 3] [1; 2; 3; 4; 5; 6]); ("y", mk_array [2; 3] [1; 0; 2; 0; 1; 1]); ("z", mk_array [2] [10; 20])].
Definition result_of (e : val) : option val :=
  match canonicalize nat double 9 fresh e with Some (_, inl e') => Some e' | _ => None end.
Definition example_result : val :=
  AddN [VNode "Einsum" [VStr (list_ascii_of_string "bc,ac->a")] [px; Primitive "double" (Params []) [py]]; pz; pz].
Example C22_example :
  result_of example = Some example_result /\
  neval (upto 26) example xyz = inl (Arr (mk_array [2] [66; 72])) /\
  neval any example_result xyz = inl (Arr (mk_array [2] [66; 72])).
Proof. split; [|split]; vm_compute; reflexivity. Qed.

(** a second call, in the caches left behind by the first: the result comes out of the caches *)
Example C22_example_again :
  exists s, reached double s /\ (exists k w, In (k, w) (s 0)) /\
    match canonicalize nat double 9 s example with Some (_, inl e') => Some e' | _ => None end = Some example_result.
Proof.
  assert (H : match canonicalize nat double 9 fresh example with
              | Some (s, _) => match s 0 with [] => false | _ => true end = true /\
                  match canonicalize nat double 9 s example with Some (_, inl e') => Some e' | _ => None end = Some example_result
              | None => False end) by (vm_compute; split; reflexivity).
  destruct (canonicalize nat double 9 fresh example) as [[s out]|] eqn:E; [|destruct H].
  exists s. split; [eapply reached_canonicalize; [apply reached_fresh|exact E]|].
  destruct H as [H1 H2]. split; [|exact H2].
  destruct (s 0) as [|[k w] l]; [discriminate|]. exists k, w. now left.
Qed.

(** the unrestricted statement is false: the outer product of two arrays of 27 dimensions *)
Definition ones27 : list nat := repeat 1 27.
Definition no_dims : val := Params [("dimension_numbers", VSeq KTuple [VSeq KTuple [ints []; ints []]; VSeq KTuple [ints []; ints []]])].
Definition outer27 : val := Primitive "dot_general" no_dims [JVar "x" ones27; JVar "y" ones27].
Definition xy27 : list (string * array nat) := [("x", mk_array ones27 [3]); ("y", mk_array ones27 [5])].
Theorem C22_canonicalize_keeps_value_refuted :
  ~ (forall K k0 k1 kadd kmul, semi_ring_theory k0 k1 kadd kmul eq -> forall P : prims K, prims_ok P ->
     forall s fuel e s' e', reached P s -> canonicalize K P fuel s e = Some (s', inl e') ->
     forall env v, eval K k0 k1 kadd kmul P any e env = inl v -> eval K k0 k1 kadd kmul P any e' env = inl v).
Proof.
  intros H.
  assert (E : match canonicalize nat double 9 fresh outer27 with
              | Some (s, inl e') =>
                  match neval any outer27 xy27, neval any e' xy27 with inl _, inr _ => true | _, _ => false end
              | _ => false end = true) by (vm_compute; reflexivity).
  destruct (canonicalize nat double 9 fresh outer27) as [[s [e'|]]|] eqn:C; [|discriminate E|discriminate E].
  specialize (H nat 0 1 Nat.add Nat.mul natSRth double (proj1 double_ok) fresh 9 outer27 s e' (reached_fresh double) C xy27).
  change (eval nat 0 1 Nat.add Nat.mul double any) with (neval any) in H.
  destruct (neval any outer27 xy27) as [v|]; [|discriminate E]. specialize (H v eq_refl). rewrite H in E. discriminate E.
Qed.
Print Assumptions C22_canonicalize_keeps_value_refuted.

(** C65 at the example: the hypotheses are met, and the input is not in canonical form *)
Example C65_example :
  reached double fresh /\ shapes_raise_no_match_error double /\ ~ canonical_form example /\
  (forall y, within y example_result -> canonical_form y).
Proof.
  split; [apply reached_fresh|]. split; [apply double_ok|]. split.
  - intros (_ & _ & H & _). eapply H. reflexivity.
  - destruct (canonicalize nat double 9 fresh example) as [[s [e'|]]|] eqn:C;
      pose proof (proj1 C22_example) as R; unfold result_of in R; rewrite C in R; [|discriminate R|discriminate R].
    injection R as ->. exact (C65_canonical_form nat double (proj2 double_ok) fresh 9 example s _ (reached_fresh double) C).
Qed.
