(** Property theorems C16-C18 (oryx/experimental/matching/jax_rewrite.py). *)
From Verif Require Import JaxModel JaxProofs RulesProofs.

(** C16.  [run] is JAX's execution of the traced function; [rewrite] is oryx's.  Full statement: without
    [no_nested_consts], see C18.  Errors of [run] are not reproduced (dead equations are never evaluated). *)
Theorem C16_rewrite_identity_partial :
  forall D lit multi bind1 bindN (j : jaxpr) consts (cds args res : list D), no_nested_consts j ->
    rmap (fun c => opt TypeErr (lit c)) consts = inl cds ->
    run D lit multi bind1 bindN j cds args = inl res ->
    rewrite D lit multi bind1 bindN j consts (fun e => inl e) args = inl (Tup (map Arr res)).
Proof. exact rewrite_identity. Qed.
Print Assumptions C16_rewrite_identity_partial.

(** C17: an expression rule that never changes a defined value, possibly a term_rewriter call that returned *)
Theorem C17_rewrite_preserves_partial :
  forall D lit multi bind1 bindN j consts (cds args res : list D) rule, no_nested_consts j ->
    (forall e e' env v, rule e = inl e' ->
       evaluate D lit multi bind1 bindN e env = inl v -> evaluate D lit multi bind1 bindN e' env = inl v) ->
    rmap (fun c => opt TypeErr (lit c)) consts = inl cds -> run D lit multi bind1 bindN j cds args = inl res ->
    rewrite D lit multi bind1 bindN j consts rule args = inl (Tup (map Arr res)) \/
    (exists er es cv iv eqns outs, j = Jaxpr cv iv eqns outs /\ jaxpr_to_expressions multi j = inl es /\
       rule (BoundExpression es cv consts) = inr er /\
       rewrite D lit multi bind1 bindN j consts rule args = inr er).
Proof.
  intros D lit multi bind1 bindN j consts cds args res rule Hn Hr. apply rewrite_refine; [assumption|].
  intros e e' He env v Hv. eapply Hr; eassumption.
Qed.
Print Assumptions C17_rewrite_preserves_partial.
Theorem C17_lifted_rules_preserve :
  forall D lit multi bind1 bindN S (rs : list (rule S)),
    (forall r s e s' e', In r rs -> r s e = (s', inl e') ->
       forall env v, evaluate D lit multi bind1 bindN e env = inl v -> evaluate D lit multi bind1 bindN e' env = inl v) ->
    (forall fuel s e s' e', term_rewriter rs fuel s e = Some (s', inl e') ->
       forall env v, evaluate D lit multi bind1 bindN e env = inl v -> evaluate D lit multi bind1 bindN e' env = inl v) /\
    (forall r s e s' e', In r rs -> bottom_up r s e = (s', inl e') ->
       forall env v, evaluate D lit multi bind1 bindN e env = inl v -> evaluate D lit multi bind1 bindN e' env = inl v).
Proof.
  intros D lit multi bind1 bindN S rs Hrs. split.
  - intros fuel s e s' e' H.
    exact (term_rewriter_rel (refines D lit multi bind1 bindN) rs (refines_compositional D lit multi bind1 bindN) Hrs fuel s e s' e' H).
  - intros r s e s' e' Hin H.
    exact (bottom_up_rel (refines D lit multi bind1 bindN) r (refines_compositional D lit multi bind1 bindN) (fun s1 e1 s2 e2 => Hrs r s1 e1 s2 e2 Hin) e s s' e' H).
Qed.
Print Assumptions C17_lifted_rules_preserve.

(** ** Concrete instance: integers, add, mul and a two-output divmod *)
Definition zlit (v : val) : option Z := match v with VNum _ z => Some z | _ => None end.
Definition zmulti (p : string) : bool := String.eqb p "divmod".
Definition zbind1 (p : string) (_ : val) (l : list Z) : result Z :=
  match l with
  | [a; b] => if String.eqb p "add" then inl (a + b)%Z else if String.eqb p "mul" then inl (a * b)%Z else inr TypeErr
  | _ => inr TypeErr
  end.
Definition zbindN (p : string) (_ : val) (l : list Z) : result (list Z) :=
  match l with [a; b] => inl [Z.div a b; Z.modulo a b] | _ => inr TypeErr end.
Definition np : val := VDict [] [].
(** x, y -> let (q, r) = divmod(x, y) in pjit(\x. x + q' ) with a shadowed name x *)
Definition example_jaxpr : jaxpr :=
  Jaxpr ["c"] ["x"; "y"]
    [EPrim "divmod" np [AVar "x"; AVar "y"] ["q"; "r"];
     EPjit "pjit" np (Jaxpr [] ["x"] [EPrim "add" np [AVar "x"; ALit (VNum KInt 1)] ["z"]] [AVar "z"; AVar "x"]) [] [AVar "r"] ["x"; "_"];
     EPrim "mul" np [AVar "x"; AVar "c"] ["w"]]
    [AVar "w"; AVar "q"; AVar "y"].
Example C16_nontrivial : no_nested_consts example_jaxpr /\
  run Z zlit zmulti zbind1 zbindN example_jaxpr [10]%Z [7; 4]%Z = inl [40; 1; 4]%Z.
Proof. split; [cbn; tauto|reflexivity]. Qed.
(** x * 1 -> x for variables x *)
Definition unit_mul : rule unit := fun s e =>
  match e with
  | VNode c hdr [VNode d n k; l] =>
      if String.eqb c "Primitive" && String.eqb d "JaxVar" then
        match hdr with
        | [p; _] => if py_eq p (str_of "mul") && match l with VNode t [VNum KInt 1] [] => String.eqb t "Literal" | _ => false end
                    then (s, inl (VNode d n k)) else (s, inl e)
        | _ => (s, inl e)
        end
      else (s, inl e)
  | _ => (s, inl e)
  end.
Example C17_nontrivial : forall s e s' e', unit_mul s e = (s', inl e') ->
  forall env v, evaluate Z zlit zmulti zbind1 zbindN e env = inl v -> evaluate Z zlit zmulti zbind1 zbindN e' env = inl v.
Proof.
  intros s e s' e' H env v Hv.
  assert (Hid : unit_mul s e = (s, inl e) -> e' = e) by congruence.
  destruct e as [| | | |c hdr [|[| | | |d n k] [|l [|]]]]; try (rewrite (Hid eq_refl); assumption). clear Hid.
  unfold unit_mul in H. destruct (String.eqb_spec c "Primitive") as [->|]; [|simpl in H; congruence].
  destruct (String.eqb_spec d "JaxVar") as [->|]; [|simpl in H; congruence]. cbn [andb] in H.
  destruct hdr as [|p [|q []]]; try congruence.
  destruct (py_eq p (str_of "mul")) eqn:Hp; [|simpl in H; congruence]. cbn [andb] in H.
  match type of H with (if ?b then _ else _) = _ => destruct b eqn:Hl end; [|congruence]. injection H as <- <-.
  assert (p = str_of "mul") as ->. { apply py_eq_canon in Hp. destruct p; simpl in Hp; try discriminate. injection Hp as ->. reflexivity. }
  assert (l = Literal (VNum KInt 1)) as ->.
  { destruct l as [| | | |t [|[[] [|[]|]| | | |] []] []]; try discriminate. apply String.eqb_eq in Hl. subst. reflexivity. }
  rewrite eval_prim in Hv. change (of_str (str_of "mul")) with (Some "mul") in Hv. cbn [opt rb] in Hv.
  unfold evs in Hv. cbn [rmap] in Hv. destruct (evaluate _ _ _ _ _ (VNode "JaxVar" n k) env) as [x|] eqn:Hx; [|discriminate].
  cbn in Hv. destruct x as [z|]; [|discriminate]. cbn in Hv. rewrite Z.mul_1_r in Hv. assumption.
Qed.
Example C17_nontrivial_fires : stateful unit_mul tt (Primitive "mul" np [JaxVar "x"; Literal (VNum KInt 1)]) = inl (JaxVar "x").
Proof. reflexivity. Qed.

(** C18 is false: the constants of a nested pjit are dropped (jax_rewrite.py:797-800) and evaluation raises
    ValueError("Cannot find name") *)
Theorem C18_nested_consts_refuted : exists D lit multi bind1 bindN j consts cds args res,
  rmap (fun c => opt TypeErr (lit c)) consts = inl cds /\
  run D lit multi bind1 bindN j cds args = inl res /\
  rewrite D lit multi bind1 bindN j consts (fun e => inl e) args = inr ValueErr.
Proof.
  exists Z, zlit, zmulti, zbind1, zbindN,
    (Jaxpr [] ["x"] [EPjit "pjit" np (Jaxpr ["a"] ["b"] [EPrim "add" np [AVar "a"; AVar "b"] ["c"]] [AVar "c"]) [VNum KInt 5] [AVar "x"] ["y"]] [AVar "y"]),
    [], [], [3%Z], [8%Z].
  repeat split.
Qed.
Print Assumptions C18_nested_consts_refuted.
