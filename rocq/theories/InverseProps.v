(** C37: inverse undoes the function. *)
From Verif Require Export InverseProofs2.
From Coq Require Import ZArith.

Section C37.
  Variables V W : Type.
  Variable w0 : W.
  Variable wplus : W -> W -> W.
  Variable cord : list (ndslice V W) -> list (ndslice V W).
  Hypothesis cordp : forall l, Permutation l (cord l).
  Notation inverse := (inverse V W w0 wplus cord). Notation maps := (maps V W).

  Lemma unknowns_sound rho ins xs : Forall2 (den V rho) ins xs -> Forall2 (csound V W) xs (map (fun a => unknown V W (aval_of V a)) ins).
  Proof.
    induction 1 as [|a x ins xs Ha H IH]; cbn [map]; constructor; [|exact IH]. assert (E : aval_of V a = a_shape x) by (destruct a; cbn in *; [apply Ha|apply Ha|exact Ha]). rewrite E. apply csound_unknown.
  Qed.
  Lemma news_sound (xs : list (arr V)) : Forall2 (csound V W) xs (map (new V W w0) xs).
  Proof. induction xs; cbn; constructor; auto. apply csound_new, aeq_refl. Qed.
  (** C37: whatever input the program maps to the outputs ys (inside the domains of the inverses), that is what
      inverse(f)(ys) returns if it returns; for every schedule and every order of sets *)
  Theorem C37_inverse fuel ord J cs xs ys rs : maps MInverse J cs xs ys -> inverse fuel ord J cs ys = Ok rs -> Forall2 aeq rs xs.
  Proof.
    destruct J as [fr eqns]. intros (rho & Hc & Hi & Ho & Hall) H. unfold InverseModel.inverse, inverse_and_ildj in H. cbn [j_frame] in H.
    destruct (run _ _ _ _ _ _ _ _ _ _ _ _) as [[e s]| | |] eqn:E; try discriminate. cbn [rbind] in H. destruct (kn_all _ _ _) as [l|] eqn:Ek; [|discriminate]. cbn [rbind] in H. injection H as <-.
    eapply csound_kn_all; [|exact Ek]. apply (reads_sound V W w0 rho); [|exact Hi].
    eapply (run_sound V W w0 wplus cord cordp rho) with (J := Jx _ _ fr eqns); [split; [exact Hc|split; [exact Hi|split; [exact Ho|exact Hall]]]|apply news_sound|eapply unknowns_sound, Hi|apply news_sound|exact E].
  Qed.
  (** an input that the outputs do not determine is never returned *)
  Theorem C37_undetermined fuel ord J cs xs xs' ys : maps MInverse J cs xs ys -> maps MInverse J cs xs' ys -> ~ Forall2 aeq xs xs' -> forall rs, inverse fuel ord J cs ys <> Ok rs.
  Proof.
    intros H H' N rs E. apply N. pose proof (C37_inverse _ _ _ _ _ _ _ H E) as A. pose proof (C37_inverse _ _ _ _ _ _ _ H' E) as B. clear -A B. revert xs' B. induction A as [|r x rs xs R A IH]; intros xs' B; inversion B as [|? x' ? ? R' B']; subst; constructor; [|apply IH; assumption]. eapply aeq_trans; [apply aeq_sym, R|exact R'].
  Qed.
End C37.

(** ** Examples over the integers *)
Definition Zaddop : binop Z Z := mk_bin Z Z Z.add (fun l o => Z.sub o l) (fun _ _ j => j) (fun r o => Z.sub o r) (fun _ _ j => j).
Definition Znegop : elem Z Z := mk_elem Z Z Z.opp (Some Z.opp) (fun _ => 0%Z).
Definition idc (l : list (ndslice Z Z)) := l.
Lemma idcp l : Permutation l (idc l). Proof. apply Permutation_refl. Qed.
Definition vec (l : list Z) : arr Z := mk_arr [length l] (fun i => nth (nth 0 i 0) l 0%Z).
Definition sc (z : Z) : arr Z := mk_arr [] (fun _ => z).
Definition vv (n k : nat) : atom (list nat) (arr Z) := AVar n [k].
Definition lit (z : Z) : atom (list nat) (arr Z) := ALit (sc z).
Definition inverseZ := inverse Z Z 0%Z Z.add idc.
(** def g(x): return -x;
    def f(x):                       # x : int[4]
      a, b = x[:2], x[2:]
      c = g(b) + 5
      s = cos(x)                    # a forward computation, not used
      return concatenate([c, a + c]) *)
Definition Jg : jx Z Z := Jx Z Z (mk_frame [] [vv 0 2] [vv 1 2]) [QPrim Z Z (PElem Z Z Znegop) [vv 0 2] [vv 1 2]].
Definition Jf : jx Z Z := Jx Z Z (mk_frame [] [vv 0 4] [vv 6 4])
  [QPrim Z Z (PSlice Z Z [(0, 2)]) [vv 0 4] [vv 1 2];
   QPrim Z Z (PSlice Z Z [(2, 4)]) [vv 0 4] [vv 2 2];
   QCall Z Z Jg [vv 2 2] [vv 3 2];
   QPrim Z Z (PBin Z Z Zaddop) [vv 3 2; lit 5] [vv 4 2];
   QPrim Z Z (PDefault Z Z (fun l => map (map_arr (fun z => Z.mul z z)) l)) [vv 0 4] [vv 7 4];
   QPrim Z Z (PBin Z Z Zaddop) [vv 1 2; vv 4 2] [vv 5 2];
   QPrim Z Z (PConcat Z Z 0) [vv 4 2; vv 5 2] [vv 6 4]].
Definition show (r : res (list (arr Z))) : res (list (list Z)) := rbind r (fun l => Ok (map (fun a => map (a_get a) (all_indices (a_shape a))) l)).
Lemma inb1 n i : inb [n] i -> exists k, i = [k] /\ k < n.
Proof. intros H. inversion H as [|k ? l ? Hk Hl]; subst. inversion Hl; subst. eauto. Qed.
Lemma inb0 i : inb [] i -> i = [].
Proof. intros H. inversion H. reflexivity. Qed.
Ltac pick k Hk := first [reflexivity|exfalso; cbn in *; lia|destruct k as [|k]; [reflexivity|pick k Hk]].
Ltac vaeq := split; [reflexivity|]; let i := fresh "i" in let H := fresh "H" in intros i H; first [apply inb1 in H as (? & -> & ?)|apply inb0 in H; subst i; reflexivity]; match goal with k : nat |- _ => pick k tt end.
Ltac vden := first [split; [vaeq|reflexivity]|vaeq|reflexivity].
Ltac F2 tac := repeat (apply Forall2_cons; [tac|]); apply Forall2_nil.
Definition rho_f (n : nat) : arr Z := nth n [vec [10; 30; 3; 4]; vec [10; 30]; vec [3; 4]; vec [-3; -4]; vec [2; 1]; vec [12; 31]; vec [2; 1; 12; 31]; vec [100; 900; 9; 16]]%Z (sc 0).
Definition rho_g (n : nat) : arr Z := nth n [vec [3; 4]; vec [-3; -4]]%Z (sc 0).
Lemma Zadd_left i (x1 x2 y : arr Z) : bget y i = Z.add (bget x1 i) (bget x2 i) -> b_left Z Z Zaddop (bget x1 i) (bget y i) = bget x2 i.
Proof. cbn. intros ->. apply Z.add_simpl_l. Qed.
Lemma Zadd_right i (x1 x2 y : arr Z) : bget y i = Z.add (bget x1 i) (bget x2 i) -> b_right Z Z Zaddop (bget x2 i) (bget y i) = bget x1 i.
Proof. cbn. intros ->. apply Z.add_simpl_r. Qed.
Lemma sq_proper : proper Z (Forall2 aeq) (fun l => map (map_arr (fun z => Z.mul z z)) l).
Proof. intros l l' H. induction H as [|a b l l' [E G] H IH]; cbn; constructor; [|exact IH]. split; [exact E|]. cbn. intros i Hi. rewrite G by exact Hi. reflexivity. Qed.
Theorem C37_example : maps Z Z MInverse Jf [] [vec [10; 30; 3; 4]%Z] [vec [2; 1; 12; 31]%Z] /\
  show (inverseZ 50 (fun _ l => l) Jf [] [vec [2; 1; 12; 31]%Z]) = Ok [[10; 30; 3; 4]%Z] /\
  show (inverseZ 50 (fun _ l => rev l) Jf [] [vec [2; 1; 12; 31]%Z]) = Ok [[10; 30; 3; 4]%Z].
Proof.
  split; [|split; vm_compute; reflexivity]. exists rho_f. split; [constructor|]. split; [F2 vden|]. split; [F2 vden|]. cbn [all_of].
  repeat split.
  - exists [rho_f 0], [rho_f 1]. split; [F2 vden|]. split; [F2 vden|]. exists (rho_f 0), (rho_f 1). split; [reflexivity|]. split; [reflexivity|]. split; [apply Forall2_cons; [cbn; lia|constructor]|]. vaeq.
  - exists [rho_f 0], [rho_f 2]. split; [F2 vden|]. split; [F2 vden|]. exists (rho_f 0), (rho_f 2). split; [reflexivity|]. split; [reflexivity|]. split; [apply Forall2_cons; [cbn; lia|constructor]|]. vaeq.
  - exists [rho_f 2], [rho_f 3]. split; [F2 vden|]. split; [F2 vden|]. exists rho_g. split; [reflexivity|]. split; [F2 vden|]. split; [F2 vden|]. cbn [all_of]. split; [|exact I].
    exists [rho_g 0], [rho_g 1]. split; [F2 vden|]. split; [F2 vden|]. exists (vv 0 2), (rho_g 0), (rho_g 1). do 3 (split; [reflexivity|]). split; [vaeq|]. right. intros g Hg. injection Hg as <-. intros i _. apply Z.opp_involutive.
  - exists [rho_f 3; sc 5%Z], [rho_f 4]. split; [F2 vden|]. split; [F2 vden|]. exists (vv 3 2), (lit 5), (rho_f 3), (sc 5%Z), (rho_f 4). do 3 (split; [reflexivity|]). split; [right; right; reflexivity|]. split; [vaeq|]. split; [left; exact I|]. right. intros i Hi. apply Zadd_right. apply inb1 in Hi as (k & -> & Hk). pick k Hk.
  - exists [rho_f 0], [rho_f 7]. split; [F2 vden|]. split; [F2 vden|]. split; [F2 vaeq|exact sq_proper].
  - exists [rho_f 1; rho_f 4], [rho_f 5]. split; [F2 vden|]. split; [F2 vden|]. exists (vv 1 2), (vv 4 2), (rho_f 1), (rho_f 4), (rho_f 5). do 3 (split; [reflexivity|]). split; [left; reflexivity|]. split; [vaeq|]. split; right; intros i Hi; [apply Zadd_left|apply Zadd_right]; apply inb1 in Hi as (k & -> & Hk); pick k Hk.
  - exists [rho_f 4; rho_f 5], [rho_f 6]. split; [F2 vden|]. split; [F2 vden|]. exists (rho_f 6). split; [reflexivity|]. split; [discriminate|]. split; [cbn; lia|]. cbn [concat_of]. split; [reflexivity|]. split; [intros i Hi; apply inb1 in Hi as (k & -> & Hk); pick k Hk|]. split; [reflexivity|]. split; [intros i Hi; apply inb1 in Hi as (k & -> & Hk); pick k Hk|reflexivity].
Qed.
(** an input that is not determined: f(x) = x[:2] with x : int[3] *)
Definition Jh : jx Z Z := Jx Z Z (mk_frame [] [vv 0 3] [vv 1 2]) [QPrim Z Z (PSlice Z Z [(0, 2)]) [vv 0 3] [vv 1 2]].
Lemma maps_h z : maps Z Z MInverse Jh [] [vec [4; 5; z]%Z] [vec [4; 5]%Z].
Proof.
  exists (fun n => match n with 0 => vec [4; 5; z]%Z | _ => vec [4; 5]%Z end). split; [constructor|]. split; [F2 vden|]. split; [F2 vden|]. cbn [all_of]. split; [|exact I].
  exists [vec [4; 5; z]%Z], [vec [4; 5]%Z]. split; [F2 vden|]. split; [F2 vden|]. eexists _, _. split; [reflexivity|]. split; [reflexivity|]. split; [apply Forall2_cons; [cbn; lia|constructor]|]. vaeq.
Qed.
Theorem C37_undetermined_example : (forall fuel ord rs, inverseZ fuel ord Jh [] [vec [4; 5]%Z] <> Ok rs) /\ inverseZ 10 (fun _ l => l) Jh [] [vec [4; 5]%Z] = Err.
Proof.
  split; [|vm_compute; reflexivity]. intros fuel ord. apply (C37_undetermined Z Z 0%Z Z.add idc idcp) with (xs := [vec [4; 5; 6]%Z]) (xs' := [vec [4; 5; 7]%Z]); try apply maps_h.
  intros H. inversion H as [|? ? ? ? [_ G] _]; subst. specialize (G [2] ltac:(repeat constructor)). discriminate.
Qed.

(** ** C64: whether inverse succeeds must not depend on the order of sets.  Refuted: a bijector b (here x + 3) under
    another operation, f(x) = -b(x).  If the equation of the bijector comes out of the set first, its rule fails with an
    UnboundLocalError although the other order gives the inverse. *)
Definition Jb : jx Z Z := Jx Z Z (mk_frame [] [vv 0 2] [vv 2 2])
  [QPrim Z Z (PBijector Z Z 0 1 (fun bs x => lift2 Z.add (nth 0 bs (sc 0)) x) (fun bs y => lift2 (fun b z => Z.sub z b) (nth 0 bs (sc 0)) y) (fun _ y => map_arr (fun _ => 0%Z) y)) [lit 3; vv 0 2] [vv 1 2];
   QPrim Z Z (PElem Z Z Znegop) [vv 1 2] [vv 2 2]].
Theorem C64_order_dependent_refuted : show (inverseZ 10 (fun _ l => l) Jb [] [vec [-4; -5]%Z]) = Ok [[1; 2]%Z] /\ inverseZ 10 (fun _ l => rev l) Jb [] [vec [-4; -5]%Z] = Err.
Proof. split; vm_compute; reflexivity. Qed.
(** A custom inverse that gives None for an input it cannot determine (which the code intends to allow) makes inverse
    fail, although the other input would be determined and the None one is given by another output *)
Definition Jn : jx Z Z := Jx Z Z (mk_frame [] [vv 0 1; vv 1 1] [vv 2 1; vv 1 1])
  [QPrim Z Z (PCustom Z Z 0 (fun l => match l with [x; y] => [lift2 Z.add x y] | _ => [] end)
     (fun ins outs js => match ins, outs, js with [None; Some y], [o], [j] => Ok (Some [Some (lift2 Z.sub o y, j); None]) | _, _, _ => Ok None end)) [vv 0 1; vv 1 1] [vv 2 1]].
Theorem C37_custom_none_fails : forall ord, (forall s, ord s [0] = [0]) -> inverseZ 10 ord Jn [] [vec [7]%Z; vec [3]%Z] = Err.
Proof. intros ord H. vm_compute in *. rewrite H. reflexivity. Qed.
Print Assumptions C37_inverse.
Print Assumptions C37_undetermined.
