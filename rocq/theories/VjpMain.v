(** C80: gradients of reaped values are derivatives (real arrays), and examples. *)
From Verif Require Export VjpProps.
From Coq Require Import Reals Lra Lia.
Open Scope string_scope. Open Scope list_scope. Open Scope nat_scope.

(** ** Cotangents: elementwise sums and scalar products *)
Section elems.
  Context {X : Type} (z : X) (add mul : X -> X -> X).
  Fixpoint sums (a b : list X) : list X := match a, b with x :: a', y :: b' => add x y :: sums a' b' | _, _ => [] end.
  Fixpoint scalar_product (a b : list X) : X := match a, b with x :: a', y :: b' => add (mul x y) (scalar_product a' b') | _, _ => z end.
  Hypothesis add_comm : forall a b, add a b = add b a.
  Hypothesis add_assoc : forall a b c, add a (add b c) = add (add a b) c.
  Hypothesis add_0 : forall a, add z a = a.
  Hypothesis distr : forall a b c, mul a (add b c) = add (mul a b) (mul a c).
  Lemma product_sums v : forall c c', List.length c = List.length c' -> scalar_product v (sums c c') = add (scalar_product v c) (scalar_product v c').
  Proof.
    induction v as [|x v IH]; intros [|y c] [|y' c'] H; try discriminate; cbn [scalar_product sums]; try (rewrite add_0; reflexivity).
    injection H as H. rewrite (IH _ _ H), distr, !add_assoc. f_equal. rewrite <- !add_assoc. f_equal. apply add_comm.
  Qed.
  Hypothesis mul_0 : forall a, mul z a = z.
  Lemma product_zeros n : forall c, scalar_product (repeat z n) c = z.
  Proof. induction n as [|n IH]; intros [|y c]; cbn [repeat scalar_product]; try reflexivity. rewrite IH, mul_0. apply add_0. Qed.
  Hypothesis mul_0r : forall a, mul a z = z.
  Lemma product_zeros_r n : forall v, scalar_product v (repeat z n) = z.
  Proof. induction n as [|n IH]; intros [|y c]; cbn [repeat scalar_product]; try reflexivity. rewrite IH, mul_0r. apply add_0. Qed.
End elems.
#[export] Instance ZCotangents : Cotangents ZArrays.
Proof.
  refine {| K := Z; k0 := 0%Z; kadd := Z.add; addV := (sums Z.add : @V ZArrays -> @V ZArrays -> @V ZArrays); dotV := (scalar_product 0%Z Z.add Z.mul : @V ZArrays -> @V ZArrays -> Z) |}.
  - intros. lia.
  - intros. lia.
  - intros. lia.
  - intros v c c' H. apply product_sums; [intros; ring|intros; ring|intros; ring|intros; ring|exact H].
  - intros a c. apply product_zeros; intros; ring.
  - intros v a. apply product_zeros_r; intros; ring.
Defined.
(** random keys have no tangents *)
Definition radd (a b : rv) : rv := match a, b with Num l, Num m => Num (sums Rplus l m) | _, _ => a end.
Definition rdot (a b : rv) : R := match a, b with Num l, Num m => scalar_product 0%R Rplus Rmult l m | _, _ => 0%R end.
#[export] Instance RCotangents : Cotangents RealArrays.
Proof.
  refine {| K := R; k0 := 0%R; kadd := Rplus; addV := (radd : @V RealArrays -> @V RealArrays -> @V RealArrays); dotV := (rdot : @V RealArrays -> @V RealArrays -> R) |}.
  - intros. ring.
  - intros. ring.
  - intros. ring.
  - intros [v|v] [c|c] [c'|c'] H; try discriminate; cbn [radd rdot]; try ring. injection H as H. apply product_sums; [intros; ring|intros; ring|intros; ring|intros; ring|exact H].
  - intros [n|] [c|c]; cbn [zeroV RealArrays rzero rdot]; try reflexivity. apply product_zeros; intros; ring.
  - intros [v|v] [n|]; cbn [zeroV RealArrays rzero rdot]; try reflexivity. apply product_zeros_r; intros; ring.
Defined.

Section real.
  #[local] Existing Instance RealArrays.
  Definition Rpairing (X : @space RealArrays RCotangents) : car X -> co X -> R := @pairing RealArrays RCotangents X.
  (** ** jax.grad: along every curve through x with velocity dx, the velocity dy of f's result satisfies <dy, ct> = <dx, vjp f x ct> *)
  Theorem C80_gradient fuel {X Y} (f : vprog X Y) P Q : sound f -> smooth unplanted (toD f) P Q ->
    forall c x dx ct y dy y' g, P c x dx -> run fuel (jvpT (toD f)) (x, dx) = inl (y, dy) -> run fuel (vjpV f) (x, ct) = inl (y', g) ->
    y' = y /\ (exists cy, near (fun t => run fuel (primal (toD f)) (c t) = inl (cy t)) /\ Q cy y dy) /\ Rpairing Y dy ct = Rpairing X dx g.
  Proof.
    intros S M c x dx ct y dy y' g Hc H1 H2. destruct (C80_transpose fuel f S x dx ct y dy y' g H1 H2) as [E G]. split; [exact E|]. split; [|exact G]. exact (jvp_tangent fuel _ _ _ M _ _ _ _ _ Hc H1).
  Qed.
  (** gradients of outputs and reaped values, jax.vjp(reap(f)): d(outputs).ct + d(reaped values).cd = dx.gradient, where dy and
      dd are the velocities of what reap(f) returns along the curve *)
  Theorem C80_reap_gradient s fuel {X Y} (f : vprog X Y) P Q q h : sound f -> rule_free f -> smooth unplanted (toD f) P Q ->
    call_and_reapV s f = inl q -> call_and_reap s (primal (toD f)) = inl h ->
    forall c x dx ct cd y dy d dd y' d' g, P c x dx -> run fuel (jvpT (toD q)) (x, dx) = inl ((y, d), (dy, dd)) -> run fuel (vjpV q) (x, (ct, cd)) = inl ((y', d'), g) ->
    y' = y /\ d' = d /\ run fuel h x = inl (y, d) /\
    (exists cy cdict, near (fun t => run fuel h (c t) = inl (cy t, cdict t)) /\ Q cy y dy /\ tan_named cdict d dd) /\
    (Rpairing Y dy ct + ldot (CT := RCotangents) dd cd = Rpairing X dx g)%R.
  Proof.
    intros S F M Hq Hh c x dx ct cd y dy d dd y' d' g Hc H1 H2. destruct (C80_reap_transpose s fuel f q S Hq x dx ct cd y dy d dd y' d' g H1 H2) as (E1 & E2 & G).
    pose proof (C80_reap_is_reap s f F) as K. rewrite Hq in K. cbn [rb] in K. destruct (C75_reap s fuel (toD f) P Q h (toD q) M Hh K c x dx y dy d dd Hc H1) as (A & _ & B). auto.
  Qed.
End real.

(** ** Examples *)
Section rexample.
  #[local] Existing Instance RealArrays.
(** a derivative that is scaled by its slope is its own transpose *)
Definition rvstep (g dg : R -> R) : @vprog RealArrays RCotangents (TreeS) (TreeS) :=
  RevPure (X := TreeS) (Y := TreeS)
    (fun v => match v with Leaf (Num (x :: nil)) => inl (rleaf (g x)) | _ => inr TypeErr end)
    (fun v dv => match v, dv with Leaf (Num (x :: nil)), Leaf (Num (dx :: nil)) => inl (rleaf (dg x * dx)%R) | _, _ => inr TypeErr end)
    (fun v ct => match v, ct with Leaf (Num (x :: nil)), Leaf (Num (c :: nil)) => inl (rleaf (dg x * c)%R) | _, _ => inr TypeErr end).
  Lemma rvstep_sound g dg : sound (rvstep g dg).
  Proof.
    intros v dv ct y dy gr _ E1 E2 E3. destruct v as [[[|x [|? ?]]|k]|l|l]; try discriminate. destruct dv as [[[|dx [|? ?]]|k]|l|l]; try discriminate. destruct ct as [[[|c [|? ?]]|k]|l|l]; try discriminate.
    injection E1 as <-. injection E2 as <-. injection E3 as <-. split; [exact I|]. cbn. ring.
  Qed.
  (** x^2 sown as "h", then squared and sown as "h" in the scope "f" *)
  Definition rsq := rvstep (fun x => x * x)%R (fun x => 2 * x)%R.
  Definition rsow (n : string) : @vprog RealArrays RCotangents TreeS TreeS := RevSow "t" n Strict (AL (ANum 1)).
  Definition rgrad : vprog TreeS TreeS := RevSeq rsq (RevSeq (rsow "h") (RevNest "f" (RevCall (RevSeq rsq (rsow "h"))))).
  Theorem C80_example_sound : sound rgrad /\ rule_free rgrad /\ smooth unplanted (toD rgrad) tan_tree tan_tree.
  Proof.
    split; [|split].
    - split; [apply rvstep_sound|]. split; [exact I|]. split; [apply rvstep_sound|exact I].
    - cbn. auto.
    - exists tan_tree. split; [apply square_smooth|]. exists tan_tree. split; [apply (sow1_smooth_un "h" Strict)|]. exists tan_tree. split; [apply square_smooth|apply (sow1_smooth_un "h" Strict)].
  Qed.
  (** the gradient of a f(x) + b h(x) + e f/h(x) where h = x^2 and f = f/h = x^4 *)
  Theorem C80_example_grad x a b e dx : exists q h, call_and_reapV (every "t") rgrad = inl q /\ call_and_reap (every "t") (primal (toD rgrad)) = inl h /\
    let u := (x * x)%R in let w := (u * u)%R in
    run 0 (vjpV q) (rleaf x, (rleaf a, [("f", Dict [("h", rleaf e)]); ("h", rleaf b)])) = inl ((rleaf w, [("h", rleaf u); ("f", Dict [("h", rleaf w)])]), rleaf (2 * x * ((2 * u * (a + e)) + b))%R) /\
    run 0 (jvpT (toD q)) (rleaf x, rleaf dx) = inl ((rleaf w, [("h", rleaf u); ("f", Dict [("h", rleaf w)])]),
      (rleaf (2 * u * (2 * x * dx))%R, [("h", rleaf (2 * x * dx)%R); ("f", Dict [("h", rleaf (2 * u * (2 * x * dx))%R)])])).
  Proof. eexists. eexists. split; [reflexivity|]. split; [reflexivity|]. split; reflexivity. Qed.
End rexample.

(** integers: x+1 sown as "g"; its square sown as "h" in the scope "blk"; then a function with a rule: fwd sows its argument
    as "p" and triples it, bwd multiplies by 5 (no derivative of tripling, so that one sees that it is used) *)
#[local] Existing Instance ZArrays.
Definition vstep (f df : Z -> Z) : vprog (AR := ZArrays) TreeS TreeS :=
  RevPure (X := TreeS) (Y := TreeS)
    (fun v => match v with Leaf (x :: nil) => inl (L (f x)) | _ => inr TypeErr end)
    (fun v dv => match v, dv with Leaf (x :: nil), Leaf (dx :: nil) => inl (L (df x * dx)%Z) | _, _ => inr TypeErr end)
    (fun v ct => match v, ct with Leaf (x :: nil), Leaf (c :: nil) => inl (L (df x * c)%Z) | _, _ => inr TypeErr end).
Lemma vstep_sound f df : sound (vstep f df).
Proof.
  intros v dv ct y dy gr _ E1 E2 E3. destruct v as [[|x [|? ?]]|l|l]; try discriminate. destruct dv as [[|dx [|? ?]]|l|l]; try discriminate. destruct ct as [[|c [|? ?]]|l|l]; try discriminate.
  injection E1 as <-. injection E2 as <-. injection E3 as <-. split; [exact I|]. cbn. rewrite !Z.add_0_r. ring.
Qed.
Definition vsow (n : string) : vprog (AR := ZArrays) TreeS TreeS := RevSow "t" n Strict HarvestProps.A1.
Definition tripled : prog tree (tree * tree) := Seq (Sow "t" "p" Strict HarvestProps.A1) (Pure (fun v => inl (L (3 * HarvestProps.val v), v))).
Definition times5 : prog (tree * tree) tree := Pure (fun z => inl (L (5 * HarvestProps.val (snd z)))).
Definition vex : vprog (AR := ZArrays) TreeS TreeS :=
  RevSeq (vstep (fun x => x + 1)%Z (fun _ => 1)%Z) (RevSeq (vsow "g") (RevSeq (RevNest "blk" (RevSeq (vstep (fun x => x * x)%Z (fun x => 2 * x)%Z) (vsow "h"))) (RevCustom (X := TreeS) (Y := TreeS) tree tripled times5))).
Definition do_reap_vjp (p : vprog TreeS TreeS) (x ct : tree) := rb (call_and_reap (all "t") (vjpV p)) (fun q => run 10 q (x, ct)).
Definition do_vjp_reap (p : vprog TreeS TreeS) (x ct : tree) (cd : list (string * tree)) := rb (call_and_reapV (all "t") p) (fun q => run 10 (vjpV q) (x, (ct, cd))).
Theorem C80_example : sound vex /\ quiet_rules vex /\
  run 10 (vjpV vex) (L 4, L 1) = inl (L 75, L 50) /\
  do_reap_vjp vex (L 4) (L 1) = inl ((L 75, L 50), [("g", L 5); ("blk", Dict [("h", L 25)]); ("p", L 25)]) /\
  do_vjp_reap vex (L 4) (L 1) [] = inl ((L 75, [("g", L 5); ("blk", Dict [("h", L 25)]); ("p", L 25)]), L 50) /\
  do_vjp_reap vex (L 4) (L 1) [("g", L 7); ("blk", Dict [("h", L 2)])] = inl ((L 75, [("g", L 5); ("blk", Dict [("h", L 25)]); ("p", L 25)]), L 77).
Proof. split; [split; [apply vstep_sound|]; split; [exact I|]; split; [split; [apply vstep_sound|exact I]|exact I]|]. split; [cbn; tauto|]. repeat split; vm_compute; reflexivity. Qed.
(** a cond whose branches both sow "b": its argument and then doubles it; its square *)
Definition vbranches : vprog (AR := ZArrays) (Prod BoolS TreeS) TreeS :=
  RevCond (RevSeq (vsow "b") (vstep (fun x => 2 * x)%Z (fun _ => 2)%Z)) (RevSeq (vstep (fun x => x * x)%Z (fun x => 2 * x)%Z) (vsow "b")).
Theorem C80_cond_example : sound vbranches /\ quiet_rules vbranches /\
  rb (call_and_reapV (all "t") vbranches) (fun q => run 10 (vjpV q) ((true, L 4), (L 1, [("b", L 10)]))) = inl ((L 8, [("b", L 4)]), (tt, L 12)) /\
  rb (call_and_reapV (all "t") vbranches) (fun q => run 10 (vjpV q) ((false, L 4), (L 1, [("b", L 10)]))) = inl ((L 16, [("b", L 16)]), (tt, L 88)) /\
  rb (call_and_reap (all "t") (vjpV vbranches)) (fun q => run 10 q ((false, L 4), L 1)) = inl ((L 16, (tt, L 8)), [("b", L 16)]).
Proof. split; [split; (split; [first [exact I|apply vstep_sound]|first [exact I|apply vstep_sound]])|]. split; [cbn; tauto|]. repeat split; vm_compute; reflexivity. Qed.
(** a scan from the last index to the first: it sows its carry as "a" (append), multiplies it by x and sows the product as "z"
    (clobber) *)
Definition vmul : vprog (AR := ZArrays) (Prod TreeS TreeS) (Prod TreeS TreeS) :=
  RevPure (X := Prod TreeS TreeS) (Y := Prod TreeS TreeS)
    (fun v => match v with (Leaf (c :: nil), Leaf (x :: nil)) => inl (L (c * x)%Z, L x) | _ => inr TypeErr end)
    (fun v dv => match v, dv with (Leaf (c :: nil), Leaf (x :: nil)), (Leaf (dc :: nil), Leaf (dx :: nil)) => inl (L (x * dc + c * dx)%Z, L dx) | _, _ => inr TypeErr end)
    (fun v ct => match v, ct with (Leaf (c :: nil), Leaf (x :: nil)), (Leaf (a :: nil), Leaf (b :: nil)) => inl (L (x * a)%Z, L (c * a + b)%Z) | _, _ => inr TypeErr end).
Lemma vmul_sound : sound vmul.
Proof.
  intros v dv ct y dy gr _ E1 E2 E3. destruct v as [[[|c [|? ?]]|l|l] [[|x [|? ?]]|l'|l']]; try discriminate. destruct dv as [[[|dc [|? ?]]|l|l] [[|dx [|? ?]]|l'|l']]; try discriminate. destruct ct as [[[|a [|? ?]]|l|l] [[|b [|? ?]]|l'|l']]; try discriminate.
  injection E1 as <-. injection E2 as <-. injection E3 as <-. split; [exact I|]. cbn. rewrite !Z.add_0_r. ring.
Qed.
Definition vscan (rv : bool) : vprog (AR := ZArrays) (Prod TreeS (ListS TreeS)) (Prod TreeS (ListS TreeS)) :=
  RevScan rv 2 (RevSeq (RevFirst TreeS (RevSow "t" "a" Append HarvestProps.A1)) (RevSeq vmul (RevFirst TreeS (RevSow "t" "z" Clobber HarvestProps.A1)))).
(** with c = 3 and x = [2, 5], run backwards: a = [15, 3], z = 30 and the gradient of 8 z + 10 a[0] + 100 a[1], where
    a[0] = c x[1], a[1] = c and z = c x[1] x[0] *)
Theorem C80_scan_example : sound (vscan true) /\ quiet_rules (vscan true) /\
  rb (call_and_reapV (all "t") (vscan true)) (fun q => run 10 (vjpV q) ((L 3, [L 2; L 5]), ((L 1, [L 0; L 0]), [("z", L 7); ("a", Stk [L 10; L 100])]))) =
    inl (((L 30, [L 2; L 5]), [("z", L 30); ("a", Stk [L 15; L 3])]), (L 230, [L 120; L 78])) /\
  rb (call_and_reap (all "t") (vjpV (vscan true))) (fun q => run 10 q ((L 3, [L 2; L 5]), (L 1, [L 0; L 0]))) =
    inl (((L 30, [L 2; L 5]), (L 10, [L 15; L 6])), [("z", L 30); ("a", Stk [L 15; L 3])]) /\
  rb (call_and_reapV (all "t") (vscan false)) (fun q => run 10 (vjpV q) ((L 3, [L 2; L 5]), ((L 1, [L 0; L 0]), [("a", Stk [L 10; L 100])]))) =
    inl (((L 30, [L 2; L 5]), [("z", L 30); ("a", Stk [L 3; L 6])]), (L 220, [L 315; L 6])).
Proof. split; [split; [exact I|]; split; [exact vmul_sound|exact I]|]. split; [cbn; tauto|]. repeat split; vm_compute; reflexivity. Qed.
(** ** Limits *)
(** what the fwd of a rule sows is reaped, but it has no gradient: the cotangent 1 for "p" = (x+1)^2 gives 0 instead of the
    2(x+1) = 10 that the same value gets when it is sown just before the function *)
Theorem C80_fwd_values_refuted : do_vjp_reap vex (L 4) (L 0) [("p", L 1)] = inl ((L 75, [("g", L 5); ("blk", Dict [("h", L 25)]); ("p", L 25)]), L 0) /\
  do_vjp_reap (RevSeq (vstep (fun x => x + 1)%Z (fun _ => 1)%Z) (RevSeq (vstep (fun x => x * x)%Z (fun x => 2 * x)%Z) (vsow "p"))) (L 4) (L 0) [("p", L 1)] = inl ((L 25, [("p", L 25)]), L 10).
Proof. split; vm_compute; reflexivity. Qed.
(** what bwd sows is reaped by reap(vjp(f)), but not by vjp(reap(f)) *)
Definition loud : vprog (AR := ZArrays) TreeS TreeS := RevCustom (X := TreeS) (Y := TreeS) tree tripled (Seq times5 (Sow "t" "b" Strict HarvestProps.A1)).
Theorem C80_bwd_sows_refuted : do_reap_vjp loud (L 4) (L 1) = inl ((L 12, L 5), [("p", L 4); ("b", L 5)]) /\
  do_vjp_reap loud (L 4) (L 1) [] = inl ((L 12, [("p", L 4)]), L 5) /\ ~ quiet_rules loud.
Proof. split; [vm_compute; reflexivity|]. split; [vm_compute; reflexivity|]. cbn. tauto. Qed.
Print Assumptions C80_sows_invisible. Print Assumptions C80_transpose. Print Assumptions C80_reap_is_reap. Print Assumptions C80_reap_transpose. Print Assumptions C80_rules_kept. Print Assumptions C80_reap_of_vjp.
Print Assumptions C80_gradient. Print Assumptions C80_reap_gradient. Print Assumptions C80_example_grad.
