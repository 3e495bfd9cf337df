(** C39 and C40: programs that meet the hypotheses, and programs on which the English claims fail. *)
From Verif Require Export InverseLinProps.
From Coq Require Import ZArith.

(** ** Primitives over the integers.  The ILDJ of doubling is a constant, here -1. *)
Definition Zdouble : elem Z Z := mk_elem Z Z (fun z => 2 * z)%Z (Some (fun z => z / 2)%Z) (fun _ => -1)%Z.
Definition ildjZ := ildj_of Z Z 0%Z Z.add idc.
Definition log_probZ := log_prob Z Z 0%Z Z.add idc.
Lemma idperm : perm (fun _ l => l). Proof. intros s l. apply Permutation_refl. Qed.
Lemma revperm : perm (fun _ l => rev l). Proof. intros s l. apply Permutation_rev. Qed.

(** *** f(x) = 3 + 2 * (2 * x), x : int[2] *)
Definition frl := mk_frame [] [vv 0 2] [vv 3 2].
Definition eql := [QPrim Z Z (PElem Z Z Zdouble) [vv 0 2] [vv 1 2]; QPrim Z Z (PElem Z Z Zdouble) [vv 1 2] [vv 2 2]; QPrim Z Z (PBin Z Z Zaddop) [lit 3; vv 2 2] [vv 3 2]].
Definition rho_l (n : nat) : arr Z := nth n [vec [5; 6]; vec [10; 12]; vec [20; 24]; vec [23; 27]]%Z (sc 0).
Definition L_l (n : nat) : arr Z := nth n [vec [-2; -2]; vec [-1; -1]; vec [0; 0]; vec [0; 0]]%Z (sc 0).
Ltac vv1 := let i := fresh "i" in let Hi := fresh "Hi" in intros i Hi; apply inb1 in Hi as (?k & -> & ?); match goal with k : nat |- _ => pick k tt end.
Lemma lin_l : lin_run Z Z 0%Z Z.add MInverse frl eql [] [rho_l 0] [rho_l 3] rho_l L_l (fun n => n < 4) [[]; []; []].
Proof.
  split; [constructor|]. split; [F2 vden|]. split; [F2 vden|]. split; [constructor|]. split; [split|split].
  - intros i j q q' n Hi Hj. destruct i as [|[|[|[]]]]; try discriminate Hi; injection Hi as <-; (destruct j as [|[|[|[]]]]; try discriminate Hj; injection Hj as <-; try reflexivity); cbn; intros (_ & (? & H1) & _) (_ & (? & H2) & _); exfalso; unfold vv, lit in *; intuition congruence.
  - intros q n av [<-|[<-|[<-|[]]]]; cbn; intros (_ & (? & H1) & _) H2; unfold vv, lit in *; intuition congruence.
  - intros n av [H|[]] _. injection H as <- <-. vaeq.
  - repeat (apply Forall2_cons; [cbn [lin]|]); try apply Forall2_nil; (split; [|split; [reflexivity|right; left]]).
    + exists [rho_l 0], [rho_l 1]. split; [F2 vden|]. split; [F2 vden|]. exists (vv 0 2), (rho_l 0), (rho_l 1). do 3 (split; [reflexivity|]). split; [vaeq|]. right. intros g Hg. injection Hg as <-. vv1.
    + exists 0, 1, [2]. split; [reflexivity|]. do 2 (split; [lia|]). split; [discriminate|]. split; [reflexivity|]. left. exists Zdouble. do 2 (split; [reflexivity|]). vaeq.
    + exists [rho_l 1], [rho_l 2]. split; [F2 vden|]. split; [F2 vden|]. exists (vv 1 2), (rho_l 1), (rho_l 2). do 3 (split; [reflexivity|]). split; [vaeq|]. right. intros g Hg. injection Hg as <-. vv1.
    + exists 1, 2, [2]. split; [reflexivity|]. do 2 (split; [lia|]). split; [discriminate|]. split; [reflexivity|]. left. exists Zdouble. do 2 (split; [reflexivity|]). vaeq.
    + exists [sc 3%Z; rho_l 2], [rho_l 3]. split; [F2 vden|]. split; [F2 vden|]. exists (lit 3), (vv 2 2), (sc 3%Z), (rho_l 2), (rho_l 3). do 3 (split; [reflexivity|]). split; [right; left; reflexivity|]. split; [vaeq|]. split; [right; vv1|left; exact I].
    + exists 2, 3, [2]. split; [reflexivity|]. do 2 (split; [lia|]). split; [discriminate|]. split; [reflexivity|]. right. left. exists Zaddop, (lit 3), (sc 3%Z). do 2 (split; [reflexivity|]). split; [exact (fun x => x)|]. split; [reflexivity|]. vaeq.
Qed.
(** the hypotheses of C39 hold of it, it returns under two schedules, and the ILDJ is -2 per element *)
Theorem C39_example : lin_run Z Z 0%Z Z.add MInverse frl eql [] [rho_l 0] [rho_l 3] rho_l L_l (fun n => n < 4) [[]; []; []] /\ Forall (inz Z (fun n => n < 4)) (f_in frl) /\
  ildjZ 20 (fun _ l => l) (Jx _ _ frl eql) [] [rho_l 3] = Ok (-4)%Z /\ ildjZ 20 (fun _ l => rev l) (Jx _ _ frl eql) [] [rho_l 3] = Ok (-4)%Z /\ ildj_term Z Z 0%Z Z.add L_l (f_in frl) = (-4)%Z.
Proof. split; [exact lin_l|]. split; [repeat constructor; cbn; lia|]. repeat split; vm_compute; reflexivity. Qed.

Definition keyv (n : nat) : atom (list nat) (arr Z) := AVar n [].
(** *** The same doublings by a custom inverse and by a bijector, then sow and a conversion: f(x) = convert(sow(bij(cust(x)))) of a scalar *)
Definition custF (l : list (arr Z)) : list (arr Z) := map (map_arr (fun z => 2 * z)%Z) l.
Definition halve (y : arr Z) : arr Z := map_arr (fun z => z / 2)%Z y.
Definition minus1 (y : arr Z) : arr Z := map_arr (fun _ => -1)%Z y.
Definition custp : prim Z Z := PCustom Z Z 0 custF (unary_inverse Z Z Z.add halve minus1).
Definition bijp : prim Z Z := PBijector Z Z 0 0 (fun _ x => map_arr (fun z => 2 * z)%Z x) (fun _ y => halve y) (fun _ y => minus1 y).
Definition frt := mk_frame [] [keyv 0] [keyv 4].
Definition eqt := [QPrim Z Z custp [keyv 0] [keyv 1]; QPrim Z Z bijp [keyv 1] [keyv 2]; QPrim Z Z (PSow Z Z) [keyv 2] [keyv 3]; QPrim Z Z (PConvert Z Z (fun z => z) (fun z => z)) [keyv 3] [keyv 4]].
Definition rho_t (n : nat) : arr Z := nth n [sc 5; sc 10; sc 20; sc 20; sc 20]%Z (sc 0).
Definition L_t (n : nat) : arr Z := nth n [sc (-2); sc (-1); sc 0; sc 0; sc 0]%Z (sc 0).
Lemma halve_dbl x n : x = rho_t 0 \/ x = rho_t 1 -> forall o, aeq o (map_arr (fun z => 2 * z)%Z x) -> n = 0 -> aeq (halve o) x.
Proof.
  intros _ o E _. eapply InverseProofs.aeq_trans; [apply InverseProofs.map_aeq; exact E|]. split; [reflexivity|]. intros i _. cbn [a_get map_arr]. rewrite Z.mul_comm. apply Z.div_mul. discriminate.
Qed.
Lemma lin_t : lin_run Z Z 0%Z Z.add MInverse frt eqt [] [rho_t 0] [rho_t 4] rho_t L_t (fun n => n < 5) [[]; []; []; []].
Proof.
  split; [constructor|]. split; [F2 vden|]. split; [F2 vden|]. split; [constructor|]. split; [split|split].
  - intros i j q q' n Hi Hj. destruct i as [|[|[|[|[]]]]]; try discriminate Hi; injection Hi as <-; (destruct j as [|[|[|[|[]]]]]; try discriminate Hj; injection Hj as <-; try reflexivity); cbn; intros (_ & (? & H1) & _) (_ & (? & H2) & _); exfalso; unfold keyv, lit in *; intuition congruence.
  - intros q n av [<-|[<-|[<-|[<-|[]]]]]; cbn; intros (_ & (? & H1) & _) H2; unfold keyv, lit in *; intuition congruence.
  - intros n av [H|[]] _. injection H as <- <-. vaeq.
  - repeat (apply Forall2_cons; [cbn [lin]|]); try apply Forall2_nil; (split; [|split; [reflexivity|right; right; right]]).
    + exists [rho_t 0], [rho_t 1]. split; [F2 vden|]. split; [F2 vden|]. cbn [prim_holds custp skipn]. split; [F2 vaeq|]. split.
      * intros l l' H. unfold custF. induction H; constructor; [apply InverseProofs.map_aeq; assumption|assumption].
      * intros l outs js r Hl Ho E. unfold unary_inverse in E. destruct l as [|[?|] [|]]; try discriminate E. destruct outs as [|y [|]]; try discriminate E. destruct js as [|j [|]]; try discriminate E. injection E as <-.
        constructor; [|constructor]. inversion Ho as [|? ? ? ? E1 _]; subst. refine (halve_dbl _ 0 (or_introl eq_refl) _ _ eq_refl). eapply InverseProofs.aeq_trans; [exact E1|vaeq].
    + right. left. exists custF, halve, minus1, [], 0, [], 1, []. do 3 (split; [reflexivity|]). split; [constructor|]. do 2 (split; [lia|]). split; [intros v E; apply InverseProofs.map_aeq; exact E|]. split; [reflexivity|vaeq].
    + exists [rho_t 1], [rho_t 2]. split; [F2 vden|]. split; [F2 vden|]. exists (rho_t 1), (rho_t 2). split; [reflexivity|]. split; [cbn; lia|]. split; [reflexivity|]. split; [vaeq|]. intros bs _. split.
      * intros x' E. eapply InverseProofs.aeq_trans; [apply InverseProofs.map_aeq; exact E|vaeq].
      * intros y' E. refine (halve_dbl _ 0 (or_intror eq_refl) _ _ eq_refl). eapply InverseProofs.aeq_trans; [exact E|vaeq].
    + right. right. left. exists (fun _ x => map_arr (fun z => 2 * z)%Z x), (fun _ y => halve y), (fun _ y => minus1 y), [], [], [], 1, [], 2, []. do 3 (split; [reflexivity|]). do 2 (split; [constructor|]). do 2 (split; [lia|]). split; [constructor|].
      split; [intros _ v _ E; apply InverseProofs.map_aeq; exact E|]. split; [reflexivity|vaeq].
    + exists [rho_t 2], [rho_t 3]. split; [F2 vden|]. split; [F2 vden|]. cbn [prim_holds]. F2 vaeq.
    + left. split; [right; reflexivity|]. exists 2, 3, [], [], [], [], []. do 3 (split; [reflexivity|]). do 4 (split; [constructor|]). do 2 (split; [lia|]). vaeq.
    + exists [rho_t 3], [rho_t 4]. split; [F2 vden|]. split; [F2 vden|]. exists (keyv 3), (rho_t 3), (rho_t 4). do 3 (split; [reflexivity|]). split; [vaeq|]. right. intros i _. reflexivity.
    + right. right. right. left. split; [right; eexists _, _; reflexivity|]. exists 3, [], 4, []. do 2 (split; [reflexivity|]). do 2 (split; [lia|]). split; vaeq.
Qed.
Theorem C39_through_example : lin_run Z Z 0%Z Z.add MInverse frt eqt [] [rho_t 0] [rho_t 4] rho_t L_t (fun n => n < 5) [[]; []; []; []] /\ Forall (inz Z (fun n => n < 5)) (f_in frt) /\
  ildjZ 20 (fun _ l => l) (Jx _ _ frt eqt) [] [rho_t 4] = Ok (-2)%Z /\ ildjZ 20 (fun _ l => rev l) (Jx _ _ frt eqt) [] [rho_t 4] = Ok (-2)%Z /\ ildj_term Z Z 0%Z Z.add L_t (f_in frt) = (-2)%Z.
Proof. split; [exact lin_t|]. split; [repeat constructor; cbn; lia|]. repeat split; vm_compute; reflexivity. Qed.

(** ** C39 fails across shape-only operations and conversions: the rules of reshape and convert_element_type make a fresh cell and drop
    the ILDJ.  f(x) = 2 * reshape(x), against g(x) = reshape(2 * x), which is the same function. *)
Definition vm (n k l : nat) : atom (list nat) (arr Z) := AVar n [k; l].
Definition Jr1 : jx Z Z := Jx _ _ (mk_frame [] [vv 0 4] [vm 2 2 2]) [QPrim Z Z (PReshape Z Z [2; 2]) [vv 0 4] [vm 1 2 2]; QPrim Z Z (PElem Z Z Zdouble) [vm 1 2 2] [vm 2 2 2]].
Definition Jr2 : jx Z Z := Jx _ _ (mk_frame [] [vv 0 4] [vm 2 2 2]) [QPrim Z Z (PElem Z Z Zdouble) [vv 0 4] [vv 1 4]; QPrim Z Z (PReshape Z Z [2; 2]) [vv 1 4] [vm 2 2 2]].
Definition out22 : arr Z := reshape_arr [2; 2] (vec [2; 4; 6; 8]%Z).
Theorem C39_reshape_refuted : show (inverseZ 10 (fun _ l => l) Jr1 [] [out22]) = Ok [[1; 2; 3; 4]%Z] /\ show (inverseZ 10 (fun _ l => l) Jr2 [] [out22]) = Ok [[1; 2; 3; 4]%Z] /\
  ildjZ 10 (fun _ l => l) Jr2 [] [out22] = Ok (-4)%Z /\ ildjZ 10 (fun _ l => l) Jr1 [] [out22] = Ok 0%Z.
Proof. repeat split; vm_compute; reflexivity. Qed.
Definition Jv1 : jx Z Z := Jx _ _ (mk_frame [] [vv 0 4] [vv 2 4]) [QPrim Z Z (PConvert Z Z (fun z => z) (fun z => z)) [vv 0 4] [vv 1 4]; QPrim Z Z (PElem Z Z Zdouble) [vv 1 4] [vv 2 4]].
Theorem C39_convert_refuted : show (inverseZ 10 (fun _ l => l) Jv1 [] [vec [2; 4; 6; 8]%Z]) = Ok [[1; 2; 3; 4]%Z] /\ ildjZ 10 (fun _ l => l) Jv1 [] [vec [2; 4; 6; 8]%Z] = Ok 0%Z.
Proof. repeat split; vm_compute; reflexivity. Qed.
(** A bijector's log-determinant of the whole array (a scalar; bijector_extensions.py:64 asks for np.ndim(val) event
    dimensions) is added to every element and then summed over them: it counts as often as there are elements *)
Definition dblbij : prim Z Z := PBijector Z Z 0 0 (fun _ x => map_arr (fun z => 2 * z)%Z x) (fun _ y => map_arr (fun z => z / 2)%Z y) (fun _ y => sc (- Z.of_nat (size (a_shape y)))).
Definition Jbij : jx Z Z := Jx _ _ (mk_frame [] [vv 0 4] [vv 1 4]) [QPrim Z Z dblbij [vv 0 4] [vv 1 4]].
Definition Jdbl : jx Z Z := Jx _ _ (mk_frame [] [vv 0 4] [vv 1 4]) [QPrim Z Z (PElem Z Z Zdouble) [vv 0 4] [vv 1 4]].
Theorem C39_bijector_refuted : ildjZ 10 (fun _ l => l) Jdbl [] [vec [2; 4; 6; 8]%Z] = Ok (-4)%Z /\ ildjZ 10 (fun _ l => l) Jbij [] [vec [2; 4; 6; 8]%Z] = Ok (-16)%Z /\
  show (inverseZ 10 (fun _ l => l) Jbij [] [vec [2; 4; 6; 8]%Z]) = Ok [[1; 2; 3; 4]%Z].
Proof. repeat split; vm_compute; reflexivity. Qed.

(** ** log_prob.  A distribution with density exp(-(x-m)^2) per element; its sampling code is irrelevant to log_prob. *)
Definition lpn (ps xs : list (arr Z)) : Z := match ps, xs with [m], [x] => if list_eq_dec Nat.eq_dec (a_shape x) (a_shape m) then asum Z 0%Z Z.add (map_arr (fun z => - (z * z))%Z (lift2 Z.sub x m)) else 0%Z | _, _ => 0%Z end.
Definition Jcode : jx Z Z := Jx _ _ (mk_frame [] [keyv 0; vv 1 2] [vv 2 2]) [QPrim Z Z (PDefault Z Z (fun _ => [vec [0; 0]%Z])) [keyv 0; vv 1 2] [vv 2 2]].
(** random_variable(Normal(m), name=...)(key): a nest call around the sample *)
Definition frn := mk_frame [] [keyv 0; vv 1 2] [vv 2 2].
Definition Jnamed : jx Z Z := Jx _ _ frn [QSample Z Z lpn Jcode [keyv 0; vv 1 2] [vv 2 2]].
(** def f(key, m): return 2 * random_variable(Normal(m), name='z')(key) + 3 *)
Definition frp := mk_frame [] [keyv 0; vv 1 2] [vv 4 2].
Definition eqp := [QCall Z Z Jnamed [keyv 0; vv 1 2] [vv 2 2]; QPrim Z Z (PElem Z Z Zdouble) [vv 2 2] [vv 3 2]; QPrim Z Z (PBin Z Z Zaddop) [vv 3 2; lit 3] [vv 4 2]].
Definition rho_p (n : nat) : arr Z := nth n [sc 7; vec [1; 1]; vec [3; 5]; vec [6; 10]; vec [9; 13]]%Z (sc 0).
Definition L_p (n : nat) : arr Z := nth n [sc 0; vec [0; 0]; vec [-1; -1]; vec [0; 0]; vec [0; 0]]%Z (sc 0).
Definition Z_p (n : nat) : Prop := n = 2 \/ n = 3 \/ n = 4.
Lemma lpn_proper : proper Z (fun f g => forall l l', Forall2 aeq l l' -> f l = g l') lpn.
Proof.
  intros l l' H m m' H'. inversion H as [|a b ? ? E H1]; subst; [reflexivity|]. inversion H1; subst; [|reflexivity]. inversion H' as [|x y ? ? E' H2]; subst; [reflexivity|]. inversion H2; subst; [|reflexivity]. cbn [lpn].
  destruct E as [S1 E]. destruct E' as [S2 E']. destruct (list_eq_dec _ (a_shape x) (a_shape a)) as [e|n], (list_eq_dec _ (a_shape y) (a_shape b)) as [e'|n']; try congruence.
  apply asum_aeq, InverseProofs.map_aeq, InverseProofs.lift2_aeq; [split; assumption|split; assumption|left; exact e].
Qed.
Lemma lin_p : lin_run Z Z 0%Z Z.add MLogProb frp eqp [] [sc 7%Z; rho_p 1] [rho_p 4] rho_p L_p Z_p [[(-22)%Z]; []; []].
Proof.
  split; [constructor|]. split; [F2 vden|]. split; [F2 vden|]. split; [constructor|]. split; [split|split].
  - intros i j q q' n Hi Hj. destruct i as [|[|[|[]]]]; try discriminate Hi; injection Hi as <-; (destruct j as [|[|[|[]]]]; try discriminate Hj; injection Hj as <-; try reflexivity); cbn; try contradiction; intros (_ & (? & H1) & _) (_ & (? & H2) & _); exfalso; unfold vv, lit in *; intuition congruence.
  - intros q n av [<-|[<-|[<-|[]]]]; cbn; try contradiction; intros (_ & (? & H1) & _) H2; unfold vv, lit in *; intuition congruence.
  - intros n av [H|[]] _. injection H as <- <-. vaeq.
  - assert (HS : eqn_holds Z Z MLogProb rho_p (QSample Z Z lpn Jcode [keyv 0; vv 1 2] [vv 2 2])).
    { exists [], [rho_p 0; rho_p 1], [rho_p 2]. split; [F2 vden|]. split; [F2 vden|]. split; reflexivity || exact I. }
    apply Forall2_cons; [|apply Forall2_cons; [|apply Forall2_cons; [|apply Forall2_nil]]].
    + split.
      * exists [rho_p 0; rho_p 1], [rho_p 2]. split; [F2 vden|]. split; [F2 vden|]. exists rho_p. split; [reflexivity|]. split; [F2 vden|]. split; [F2 vden|]. split; [exact HS|exact I].
      * split; [repeat constructor; intros [|[|]]; discriminate|]. exists rho_p, L_p, (fun n => n = 2), [rho_p 0; rho_p 1], [rho_p 2], [[(-20)%Z; (-2)%Z]]. split; [F2 vden|]. split; [F2 vden|]. split; [reflexivity|]. split; [F2 vden|]. split; [F2 vden|].
        split; [repeat constructor; discriminate|]. split; [repeat constructor; intros []|]. split; [split|].
        { intros i j q q' n Hi Hj. destruct i as [|[]]; try discriminate Hi. destruct j as [|[]]; try discriminate Hj. reflexivity. }
        { intros q n av [<-|[]]. cbn. contradiction. }
        split; [repeat constructor|]. split; [F2 ltac:(intros _; split; [reflexivity|exists 2, [2]; split; reflexivity])|]. split; [repeat constructor|]. split; [|reflexivity]. split; [|exact I]. cbn [lin].
        split; [exact HS|]. split; [reflexivity|]. split; [repeat constructor|]. split; [exact lpn_proper|]. exists [rho_p 0; rho_p 1], [rho_p 2]. split; [F2 vden|]. split; [F2 vden|]. vm_compute. reflexivity.
    + cbn [lin]. split; [|split; [reflexivity|right; left]].
      * exists [rho_p 2], [rho_p 3]. split; [F2 vden|]. split; [F2 vden|]. exists (vv 2 2), (rho_p 2), (rho_p 3). do 3 (split; [reflexivity|]). split; [vaeq|]. right. intros g Hg. injection Hg as <-. vv1.
      * exists 2, 3, [2]. split; [reflexivity|]. do 2 (split; [unfold Z_p; lia|]). split; [discriminate|]. split; [reflexivity|]. left. exists Zdouble. do 2 (split; [reflexivity|]). vaeq.
    + cbn [lin]. split; [|split; [reflexivity|right; left]].
      * exists [rho_p 3; sc 3%Z], [rho_p 4]. split; [F2 vden|]. split; [F2 vden|]. exists (vv 3 2), (lit 3), (rho_p 3), (sc 3%Z), (rho_p 4). do 3 (split; [reflexivity|]). split; [right; right; reflexivity|]. split; [vaeq|]. split; [left; exact I|right; vv1].
      * exists 3, 4, [2]. split; [reflexivity|]. do 2 (split; [unfold Z_p; lia|]). split; [discriminate|]. split; [reflexivity|]. right. right. exists Zaddop, (lit 3), (sc 3%Z). do 2 (split; [reflexivity|]). split; [exact (fun x => x)|]. split; [reflexivity|]. vaeq.
Qed.
(** the hypotheses of C40_log_prob_exact hold of f; log_prob(f)([9, 13], [1, 1]) is the log-density (-(3-1)^2 - (5-1)^2) of the sample 
    and its ILDJ (-1 for each element) *)
Theorem C40_example : lin_run Z Z 0%Z Z.add MLogProb frp eqp [] [sc 7%Z; rho_p 1] [rho_p 4] rho_p L_p Z_p [[(-22)%Z]; []; []] /\ clear_of Z Z_p (skipn 1 (f_in frp)) /\ Forall (attached Z Z frp) eqp /\
  log_probZ 20 (fun _ l => l) (Jx _ _ frp eqp) [] [rho_p 4] [rho_p 1] = Ok (-22)%Z /\ log_probZ 20 (fun _ l => rev l) (Jx _ _ frp eqp) [] [rho_p 4] [rho_p 1] = Ok (-22)%Z.
Proof.
  split; [exact lin_p|]. split; [repeat constructor; intros [|[|]]; discriminate|]. split; [|split; vm_compute; reflexivity]. repeat constructor. exists 0, [], []. split; [left; reflexivity|left; reflexivity].
Qed.

(** ** Samples that log_prob omits without an error *)
(** A named variable (a call) whose key comes from split and whose value passes through an operation that is not inverted:
    def f(key, m): k1, _ = split(key); return abs(random_variable(Normal(m), name='z')(k1)) *)
Definition absF (l : list (arr Z)) : list (arr Z) := map (map_arr Z.abs) l.
Definition splitF (l : list (arr Z)) : list (arr Z) := match l with k :: _ => [k; k] | [] => [] end.
Definition Jsplit (sample : qn Z Z) : jx Z Z := Jx _ _ (mk_frame [] [keyv 0] [vv 4 2]) [QPrim Z Z (PDefault Z Z splitF) [keyv 0] [keyv 1; keyv 2]; sample; QPrim Z Z (PDefault Z Z absF) [vv 3 2] [vv 4 2]].
Definition Jstd : jx Z Z := Jx _ _ (mk_frame [] [keyv 0] [vv 2 2]) [QSample Z Z lpn Jcode [keyv 0; ALit (vec [0; 0]%Z)] [vv 2 2]].
(** For the sample itself the error is raised; inside a call it is not, and the result is 0 for every output *)
Theorem C40_unreached_call_refuted a b :
  log_probZ 10 (fun _ l => l) (Jsplit (QSample Z Z lpn Jcode [keyv 1; ALit (vec [0; 0]%Z)] [vv 3 2])) [] [vec [a; b]] [] = Err /\
  log_probZ 10 (fun _ l => l) (Jsplit (QCall Z Z Jstd [keyv 1] [vv 3 2])) [] [vec [a; b]] [] = Ok 0%Z.
Proof. split; vm_compute; reflexivity. Qed.
(** A sample inside an initial-style primitive without a log_prob rule *)
Definition Jinit : jx Z Z := Jx _ _ (mk_frame [] [keyv 0] [vv 3 2]) [QInitial Z Z Jstd [keyv 0] [vv 3 2]].
Theorem C40_initial_style_refuted a b : log_probZ 10 (fun _ l => l) Jinit [] [vec [a; b]] [] = Ok 0%Z.
Proof. vm_compute. reflexivity. Qed.
(** A plate: the ILDJ of its samples is counted inside and once more outside.  Both programs are 2 * Normal(0). *)
Definition Jplate : jx Z Z := Jx _ _ (mk_frame [] [keyv 0] [vv 4 2]) [QPlate Z Z (fun w => w) Jstd [keyv 0] [vv 3 2]; QPrim Z Z (PElem Z Z Zdouble) [vv 3 2] [vv 4 2]].
Definition Jnoplate : jx Z Z := Jx _ _ (mk_frame [] [keyv 0] [vv 4 2]) [QCall Z Z Jstd [keyv 0] [vv 3 2]; QPrim Z Z (PElem Z Z Zdouble) [vv 3 2] [vv 4 2]].
Theorem C40_plate_refuted : log_probZ 10 (fun _ l => l) Jnoplate [] [vec [4; 6]%Z] [] = Ok (-15)%Z /\ log_probZ 10 (fun _ l => l) Jplate [] [vec [4; 6]%Z] [] = Ok (-17)%Z.
Proof. split; vm_compute; reflexivity. Qed.
Print Assumptions C40_log_prob_exact.
