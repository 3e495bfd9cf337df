(** C76: custom inverses, alone and inside compositions. *)
From Verif Require Export CustomInvProofs CustomInvRule.
From Coq Require Import ZArith Lra Lia Permutation.
Open Scope R_scope. Open Scope nat_scope.

(** ** Chains of operations and custom functions *)
(** a custom function f with the array functions I and J of its rule, which at the points of interest are the elementwise
    functions g and j *)
Inductive kstep := KO (o : op) | KC (f g j : R -> option R) (I J : arrO -> arrO).
Definition kf (k : kstep) : R -> option R := match k with KO o => f_op o | KC f _ _ _ _ => f end.
Definition kg (k : kstep) : R -> option R := match k with KO o => g_op o | KC _ g _ _ _ => g end.
Definition kj (k : kstep) : R -> option R := match k with KO o => j_op o | KC _ _ j _ _ => j end.
Definition kd (k : kstep) (x : R) : Prop := match k with KO o => d_op o x | KC f g j _ _ => exists y d, f x = Some y /\ g y = Some x /\ has_deriv g y d /\ d <> 0%R /\ j y = Some (ln (Rabs d)) end.
Definition k_link (k : kstep) : link (option R) (option R) := match k with KO o => link_R o | KC f _ _ I0 J0 => LC _ _ (map (lift1 f)) I0 J0 end.
Fixpoint k_comp (ks : list kstep) (x : R) : option R := match ks with [] => Some x | k :: ks' => obind (kf k x) (k_comp ks') end.
Fixpoint k_doms (ks : list kstep) (x : R) : Prop := match ks with [] => True | k :: ks' => kd k x /\ forall y, kf k x = Some y -> k_doms ks' y end.
Fixpoint k_inv (ks : list kstep) (y : R) : option R := match ks with [] => Some y | k :: ks' => obind (k_inv ks' y) (kg k) end.
Fixpoint k_lval (ks : list kstep) (x : R) : option R := match ks with [] => Some 0%R | k :: ks' => obind (kf k x) (fun y => oplus (k_lval ks' y) (kj k y)) end.
Lemma k_ok k x : kd k x -> exists y, kf k x = Some y /\ kg k y = Some x /\ exists d, has_deriv (kg k) y d /\ d <> 0%R /\ kj k y = Some (ln (Rabs d)).
Proof. destruct k as [o|f g j I0 J0]; [apply op_ok|]. intros (y & d & H1 & H2 & H3 & H4 & H5). exists y. split; [exact H1|]. split; [exact H2|]. exists d. auto. Qed.
Lemma k_comp_ok ks : forall x, k_doms ks x -> exists y, k_comp ks x = Some y /\ k_inv ks y = Some x /\ exists d, has_deriv (k_inv ks) y d /\ d <> 0%R /\ k_lval ks x = Some (ln (Rabs d)).
Proof.
  induction ks as [|o ops IH]; intros x H; cbn [k_comp k_doms] in *.
  - exists x. split; [reflexivity|]. split; [reflexivity|]. exists 1%R. split; [apply (everywhere (fun z => z)), dl_id|]. split; [lra|]. cbn. rewrite Rabs_R1, ln_1. reflexivity.
  - destruct H as [Ho Hr]. destruct (k_ok o x Ho) as (v & Ef & Eg & d & Hd & Nd & Ej). rewrite Ef. cbn [obind]. destruct (IH v (Hr v Ef)) as (y & Ec & Ei & d' & Hd' & Nd' & El). exists y. split; [exact Ec|]. cbn [k_inv]. rewrite Ei. split; [exact Eg|].
    exists (d * d')%R. split; [exact (has_deriv_comp _ _ _ _ _ _ Hd' Ei Hd)|]. split; [apply Rmult_integral_contrapositive_currified; assumption|]. cbn [k_lval]. rewrite Ef. cbn [obind]. rewrite El, Ej. cbn. f_equal. rewrite Rabs_mult, ln_mult by (apply Rabs_pos_lt; assumption). lra.
Qed.
Lemma k_dom_at ops : forall x i o, k_doms ops x -> nth_error ops i = Some o -> exists v, k_comp (firstn i ops) x = Some v /\ kd o v.
Proof.
  induction ops as [|o' ops IH]; intros x [|i] o H E; try discriminate; cbn in *; [injection E as <-; exists x; split; [reflexivity|apply H]|]. destruct H as [Ho Hr]. destruct (k_ok o' x Ho) as (v & Ef & _). rewrite Ef. cbn. apply IH; [apply Hr, Ef|exact E].
Qed.
Lemma k_comp_snoc ops : forall x i o, nth_error ops i = Some o -> k_comp (firstn (S i) ops) x = obind (k_comp (firstn i ops) x) (kf o).
Proof. induction ops as [|o' ops IH]; intros x [|i] o E; try discriminate; [injection E as <-; cbn; destruct (kf o' x); reflexivity|]. cbn [nth_error] in E. change (k_comp (firstn (S (S i)) (o' :: ops)) x) with (obind (kf o' x) (k_comp (firstn (S i) ops))). cbn [firstn k_comp]. destruct (kf o' x) as [v|]; [|reflexivity]. cbn [obind]. apply IH, E. Qed.
Lemma oplus_comm a b : oplus a b = oplus b a.
Proof. destruct a, b; cbn; try reflexivity. f_equal. lra. Qed.

Section Program.
  Variable cord : list (ndslice (option R) (option R)) -> list (ndslice (option R) (option R)).
  Hypothesis cordp : forall l, Permutation l (cord l).
  Variables (ops : list kstep) (xs : arr R) (ys : arrO).
  Notation sh := (a_shape xs). Notation n := (length ops).
  Hypothesis Hdom : forall i, inb sh i -> k_doms ops (a_get xs i).
  Hypothesis Hys : aeq ys (map_arr (k_comp ops) xs).
  Definition rho_K (k : nat) : arrO := map_arr (k_comp (firstn k ops)) xs.
  Definition L_K (k : nat) : arrO := map_arr (fun x => obind (k_comp (firstn k ops) x) (k_lval (skipn k ops))) xs.
  (** the array functions of a custom function are the elementwise ones, at the values that occur *)
  Hypothesis Hcus : forall k f g j I J, nth_error ops k = Some (KC f g j I J) -> forall v, aeq v (rho_K (S k)) -> aeq (I v) (lift1 g (rho_K (S k))) /\ aeq (J v) (lift1 j (rho_K (S k))).
  Lemma kL_step k o x : nth_error ops k = Some o -> obind (k_comp (firstn k ops) x) (k_lval (skipn k ops)) = oplus (obind (k_comp (firstn (S k) ops) x) (k_lval (skipn (S k) ops))) (obind (k_comp (firstn (S k) ops) x) (kj o)).
  Proof using. intros E. rewrite (k_comp_snoc ops x k o E), (skipn_nth ops k o E). destruct (k_comp (firstn k ops) x) as [v|]; [|reflexivity]. cbn [obind k_lval]. destruct (kf o v) as [y|]; reflexivity. Qed.
  Lemma eqn_K k o : nth_error ops k = Some o -> lin (option R) (option R) (Some 0%R) oplus MInverse rho_K L_K (fun m => m <= n) (fun m => m <= n /\ exists av, In (AVar m av) [AVar n sh : atom (list nat) (arr (option R))]) (link_eqn _ _ oplus sh k (k_link o)) [].
  Proof using Hdom Hcus.
    intros E. assert (Hk : k < n) by (apply nth_error_Some; congruence). assert (D : forall i, inb sh i -> exists v, k_comp (firstn k ops) (a_get xs i) = Some v /\ kd o v) by (intros i Hi; apply k_dom_at; [apply Hdom, Hi|exact E]).
    assert (Dk : forall j, Forall2 (den _ rho_K) [AVar j sh] [rho_K j]) by (intros j; constructor; [split; [apply aeq_refl|reflexivity]|constructor]).
    assert (LS : forall i, inb sh i -> a_get (L_K k) i = oplus (a_get (L_K (S k)) i) (obind (a_get (rho_K (S k)) i) (kj o))) by (intros i Hi; apply (kL_step k o), E).
    assert (RS : forall i, a_get (rho_K (S k)) i = obind (a_get (rho_K k) i) (kf o)) by (intros i; apply (k_comp_snoc ops (a_get xs i) k o E)).
    assert (GS : forall i, inb sh i -> obind (a_get (rho_K (S k)) i) (kg o) = a_get (rho_K k) i) by (intros i Hi; rewrite RS; change (a_get (rho_K k) i) with (k_comp (firstn k ops) (a_get xs i)); destruct (D i Hi) as (v & Ev & Hv); rewrite Ev; destruct (k_ok _ _ Hv) as (y & Ef & Eg & _); cbn [obind]; rewrite Ef; exact Eg).
    destruct o as [[u|b c|b c]|f g j I0 J0]; cbn [k_link link_R link_eqn lin kf kg kj f_op g_op j_op] in *.
    - split; [|split; [reflexivity|right; left]].
      + exists [rho_K k], [rho_K (S k)]. split; [apply Dk|]. split; [apply Dk|]. exists (AVar k sh), (rho_K k), (rho_K (S k)). do 3 (split; [reflexivity|]). split; [split; [reflexivity|]; intros i Hi; apply RS|]. right. intros h Hh i Hi. cbn in Hh. destruct (inv u) as [h'|] eqn:Ei; [|discriminate]. injection Hh as <-. cbn [elem_R e_fwd]. change (fwd u) with (f_op (OU u)). rewrite <- RS, <- (GS i Hi). destruct (a_get (rho_K (S k)) i) as [z|]; [|reflexivity]. cbn [obind g_op]. rewrite Ei. reflexivity.
      + exists k, (S k), sh. split; [reflexivity|]. do 2 (split; [lia|]). split; [lia|]. split; [reflexivity|]. left. exists (elem_R u). do 2 (split; [reflexivity|]). split; [unfold L_K, lift2, bshape; cbn; destruct sh; reflexivity|]. intros i Hi. rewrite (LS i Hi). cbn [lift2 a_get]. rewrite !bget_in by exact Hi. reflexivity.
    - split; [|split; [reflexivity|right; left]].
      + exists [litR c; rho_K k], [rho_K (S k)]. split; [constructor; [apply aeq_refl|apply Dk]|]. split; [apply Dk|]. exists (ALit (litR c)), (AVar k sh), (litR c), (rho_K k), (rho_K (S k)). do 3 (split; [reflexivity|]). split; [right; left; reflexivity|]. split; [split; [reflexivity|]; intros i Hi; cbn [lift2 a_get]; rewrite (bget_in (rho_K k)) by exact Hi; apply RS|]. split; [right|left; exact I].
        intros i Hi. rewrite (bget_in (rho_K (S k))), (bget_in (rho_K k)) by exact Hi. apply GS, Hi.
      + exists k, (S k), sh. split; [reflexivity|]. do 2 (split; [lia|]). split; [lia|]. split; [reflexivity|]. right. left. exists (bin_R b), (ALit (litR c)), (litR c). do 2 (split; [reflexivity|]). split; [exact (fun x => x)|]. split; [reflexivity|]. split; [unfold L_K, lift2, bshape; cbn; destruct sh; reflexivity|]. intros i Hi. rewrite (LS i Hi). cbn [lift2 a_get bshape]. rewrite (bget_in (L_K (S k))) by exact Hi.
        rewrite (bget_in (lift2 _ (litR c) (rho_K (S k)))) by exact Hi. cbn [lift2 a_get]. rewrite (bget_in (rho_K (S k))) by exact Hi. reflexivity.
    - split; [|split; [reflexivity|right; left]].
      + exists [rho_K k; litR c], [rho_K (S k)]. split; [constructor; [split; [apply aeq_refl|reflexivity]|constructor; [apply aeq_refl|constructor]]|]. split; [apply Dk|]. exists (AVar k sh), (ALit (litR c)), (rho_K k), (litR c), (rho_K (S k)). do 3 (split; [reflexivity|]). split; [right; right; reflexivity|]. split; [split; [unfold lift2, bshape; cbn; destruct sh; reflexivity|]; intros i Hi; cbn [lift2 a_get]; rewrite (bget_in (rho_K k)) by exact Hi; rewrite RS; destruct (a_get (rho_K k) i); reflexivity|]. split; [left; exact I|right].
        intros i Hi. rewrite (bget_in (rho_K (S k))), (bget_in (rho_K k)) by exact Hi. apply GS, Hi.
      + exists k, (S k), sh. split; [reflexivity|]. do 2 (split; [lia|]). split; [lia|]. split; [reflexivity|]. right. right. exists (bin_R b), (ALit (litR c)), (litR c). do 2 (split; [reflexivity|]). split; [exact (fun x => x)|]. split; [reflexivity|]. split; [unfold L_K, lift2, bshape; cbn; destruct sh; reflexivity|]. intros i Hi. rewrite (LS i Hi). cbn [lift2 a_get bshape]. rewrite (bget_in (L_K (S k))) by exact Hi.
        rewrite (bget_in (lift2 _ (litR c) (rho_K (S k)))) by exact Hi. cbn [lift2 a_get]. rewrite (bget_in (rho_K (S k))) by exact Hi. reflexivity.
    - specialize (Hcus k f g j I0 J0 E). split; [|split; [reflexivity|right; right; right; right; left]].
      + exists [rho_K k], [rho_K (S k)]. split; [apply Dk|]. split; [apply Dk|]. cbn [prim_holds skipn]. split; [constructor; [split; [reflexivity|intros i Hi; symmetry; apply RS]|constructor]|]. split.
        * intros l l' HL. induction HL as [|a a' l l' Ha _ IHl]; [constructor|]. constructor; [|exact IHl]. destruct Ha as [Ha1 Ha2]. split; [exact Ha1|]. intros i Hi. cbn. f_equal. apply Ha2, Hi.
        * intros l outs js r Hl Ho Hr. unfold unary_inverse in Hr. destruct l as [|[a|] [|]]; try discriminate. destruct outs as [|v [|]]; try discriminate. destruct js as [|jj [|]]; try discriminate. injection Hr as <-. inversion Ho as [|? ? ? ? Hv _]; subst. constructor; [|constructor]. destruct (Hcus v Hv) as [HI _]. eapply aeq_trans; [exact HI|]. split; [reflexivity|]. intros i Hi. cbn. apply GS, Hi.
      + destruct (Hcus _ (aeq_refl (rho_K (S k)))) as [_ [HJ1 HJ2]]. exists (map (lift1 f)), I0, J0, [], k, sh, (S k), sh. do 3 (split; [reflexivity|]). split; [constructor|]. do 2 (split; [lia|]). split; [intros v Hv; eapply aeq_trans; [apply Hcus, Hv|apply aeq_sym, Hcus, aeq_refl]|]. split; [exact HJ1|]. split; [unfold lift2, bshape; cbn [a_shape]; rewrite HJ1; cbn; destruct sh; reflexivity|].
        intros i Hi. rewrite (LS i Hi). cbn [lift2 a_get]. rewrite (bget_in (J0 _)), (bget_in (L_K (S k))) by (rewrite ?HJ1; exact Hi). rewrite HJ2 by (rewrite HJ1; exact Hi). cbn [lift1 map_arr a_get]. apply oplus_comm.
  Qed.
  Notation inverse := (inverse (option R) (option R) (Some 0%R) oplus cord). Notation ildj_of := (ildj_of (option R) (option R) (Some 0%R) oplus cord). Notation inverse_and_ildj := (inverse_and_ildj (option R) (option R) (Some 0%R) oplus cord).
  Notation fr := (chain_frame (option R) (option R) sh (map k_link ops)). Notation eqns := (chain_eqns (option R) (option R) oplus sh 0 (map k_link ops)).
  Lemma k_eqns_nth i q : nth_error eqns i = Some q -> exists o, nth_error ops i = Some o /\ q = link_eqn _ _ oplus sh i (k_link o).
  Proof using. rewrite chain_nth, nth_error_map. destruct (nth_error ops i) as [o|]; [|discriminate]. intros E. injection E as <-. eauto. Qed.
  Lemma k_consumes Z i o m : consumes (option R) (option R) Z (link_eqn _ _ oplus sh i (k_link o)) m -> m = i.
  Proof using. clear Hys ys Hcus Hdom cordp. destruct o as [[]|]; cbn; intros (_ & (av & H) & _); intuition congruence. Qed.
  Lemma k_lin : lin_run (option R) (option R) (Some 0%R) oplus MInverse fr eqns [] [map_arr Some xs] [ys] rho_K L_K (fun m => m <= n) (repeat [] n).
  Proof using Hdom Hcus Hys.
    unfold chain_frame. rewrite map_length. split; [constructor|]. split; [constructor; [split; [split; reflexivity|reflexivity]|constructor]|]. split; [constructor; [split; [|symmetry; apply Hys]|constructor]|split; [constructor|split; [split|split]]].
    - apply aeq_sym. eapply aeq_trans; [exact Hys|]. split; [reflexivity|]. intros i Hi. cbn. rewrite firstn_all. reflexivity.
    - intros i j q q' m Hi Hj Hc Hc'. apply k_eqns_nth in Hi as (o & _ & ->). apply k_eqns_nth in Hj as (o' & _ & ->). apply k_consumes in Hc, Hc'. congruence.
    - intros q m av Hin Hc [Ho|[]]. apply In_nth_error in Hin as (i & Hi). apply k_eqns_nth in Hi as (o & Ei & ->). apply k_consumes in Hc. injection Ho as Ho _. assert (i < n) by (apply nth_error_Some; congruence). lia.
    - intros m av [Ho|[]] _. injection Ho as <- <-. split; [reflexivity|]. intros i Hi. unfold L_K. cbn. rewrite firstn_all, skipn_all. destruct (k_comp_ok ops _ (Hdom i Hi)) as (y & -> & _). reflexivity.
    - apply F2_of_nth; [rewrite chain_length, map_length, repeat_length; reflexivity|]. intros i q ts Hq Ht. apply k_eqns_nth in Hq as (o & Eo & ->). assert (ts = []) by (apply nth_error_In in Ht; apply repeat_spec in Ht; exact Ht). subst ts. apply eqn_K, Eo.
  Qed.
  Lemma k_Z_in : Forall (inz (option R) (fun m => m <= n)) (f_in fr). Proof using. repeat constructor. cbn. lia. Qed.
  Lemma k_returns fuel ord : perm ord -> Forall (link_ok (option R) (option R) sh) (map k_link ops) -> n + n * n < fuel ->
    exists v j, inverse_and_ildj fuel ord (chain _ _ oplus sh (map k_link ops)) [] [ys] = Ok [(v, j)] /\ aeq v (map_arr Some xs) /\ aeq j (map_arr (k_lval ops) xs).
  Proof using Hdom Hcus Hys cordp.
    intros Hp Hl Hf. destruct (C37_chain_returns (option R) (option R) (Some 0%R) oplus cord sh (map k_link ops) fuel ord ys Hp Hl (proj1 Hys) ltac:(rewrite map_length; exact Hf)) as (v & j & E). exists v, j. split; [exact E|].
    destruct (C39_ildj (option R) (option R) (Some 0%R) oplus cord cordp fuel ord fr eqns [] [map_arr Some xs] [ys] rho_K L_K (fun m => m <= n) (repeat [] n) [(v, j)] Hp k_lin k_Z_in E) as [Hv Hj].
    split; [inversion Hv; assumption|]. inversion Hj as [|? ? ? ? Ha _]; subst. exact Ha.
  Qed.
End Program.

(** ** The automatic ILDJ *)
Lemma k_ops_comp ops x : k_comp (map KO ops) x = comp ops x.
Proof. revert x. induction ops as [|o ops IH]; intros x; [reflexivity|]. cbn. destruct (f_op o x); [apply IH|reflexivity]. Qed.
Lemma k_ops_lval ops x : k_lval (map KO ops) x = lval ops x.
Proof. revert x. induction ops as [|o ops IH]; intros x; [reflexivity|]. cbn. destruct (f_op o x); [cbn; rewrite IH; reflexivity|reflexivity]. Qed.
Lemma k_ops_doms ops x : dom_comp ops x -> k_doms (map KO ops) x.
Proof. revert x. induction ops as [|o ops IH]; intros x H; [exact I|]. destruct H as [Ho Hr]. split; [exact Ho|]. intros y Hy. apply IH, Hr, Hy. Qed.
Lemma k_ops_link ops : map k_link (map KO ops) = map link_R ops.
Proof. rewrite map_map. reflexivity. Qed.
Lemma ops_ok sh ops : ~ In (OU (UIntPow 0)) ops -> Forall (link_ok (option R) (option R) sh) (map link_R ops).
Proof. intros H. apply (links_ok ops (mk_arr sh (fun _ => 0%R)) H). Qed.
Section Auto.
  Variable cord : list (ndslice (option R) (option R)) -> list (ndslice (option R) (option R)).
  Hypothesis cordp : forall l, Permutation l (cord l).
  Variables (fuel : nat) (ord : oracle).
  Hypothesis Hp : perm ord.
  Notation inverse_and_ildj := (inverse_and_ildj (option R) (option R) (Some 0%R) oplus cord fuel ord).
  Lemma auto_run ops v : ~ In (OU (UIntPow 0)) ops -> length ops + length ops * length ops < fuel -> exists x j, inverse_and_ildj (program (a_shape v) ops) [] [v] = Ok [(x, j)] /\ a_shape x = a_shape v.
  Proof using Hp. intros H Hf. apply (chain_returns' (option R) (option R) (Some 0%R) oplus cord (a_shape v) fuel ord (map link_R ops) Hp (ops_ok _ ops H) v eq_refl). rewrite map_length. exact Hf. Qed.
  Lemma auto_inverse_shape ops v : ~ In (OU (UIntPow 0)) ops -> length ops + length ops * length ops < fuel -> a_shape (auto_inverse cord fuel ord ops v) = a_shape v.
  Proof using Hp. intros H Hf. destruct (auto_run ops v H Hf) as (x & j & E & Ex). unfold auto_inverse. rewrite E. exact Ex. Qed.
  Lemma auto_ok ops (xs : arr R) v : ~ In (OU (UIntPow 0)) ops -> length ops + length ops * length ops < fuel -> (forall i, inb (a_shape xs) i -> dom_comp ops (a_get xs i)) -> aeq v (map_arr (comp ops) xs) ->
    aeq (auto_inverse cord fuel ord ops v) (map_arr Some xs) /\ aeq (auto_ildj cord fuel ord ops v) (map_arr (lval ops) xs).
  Proof using Hp cordp.
    intros H Hf D Hv. assert (Hv' : aeq v (map_arr (k_comp (map KO ops)) xs)) by (eapply aeq_trans; [exact Hv|]; split; [reflexivity|]; intros i _; cbn; symmetry; apply k_ops_comp).
    destruct (k_returns cord cordp (map KO ops) xs v (fun i Hi => k_ops_doms _ _ (D i Hi)) Hv') with (fuel := fuel) (ord := ord) as (x & j & E & Ex & Ej).
    - intros k f g j I0 J0 E. exfalso. rewrite nth_error_map in E. destruct (nth_error ops k); discriminate.
    - exact Hp.
    - rewrite k_ops_link. apply ops_ok, H.
    - rewrite map_length. exact Hf.
    - rewrite k_ops_link in E. assert (Es : a_shape v = a_shape xs) by apply Hv. unfold auto_inverse, auto_ildj. rewrite Es. unfold program. rewrite E. split; [exact Ex|]. eapply aeq_trans; [exact Ej|]. split; [reflexivity|]. intros i _. cbn. apply k_ops_lval.
  Qed.
  (** C76: f.def_inverse_unary(f_inv), f_inv a composition of registered operations whose inverses are registered too: at every
      array whose elements are in the domain of f_inv the automatic ILDJ is log |f_inv'|, elementwise, under every schedule and
      order of sets. *)
  Theorem C76_automatic_ildj sq f_inv J (ys : arr R) (v : arrO) : ildj_of_inverse cord fuel ord sq f_inv = Some J -> mild f_inv -> 2 * length f_inv + 4 * (length f_inv * length f_inv) < fuel ->
    (forall i, inb (a_shape ys) i -> dom_comp f_inv (a_get ys i)) -> aeq v (map_arr Some ys) ->
    a_shape (J v) = a_shape ys /\ forall i, inb (a_shape ys) i -> exists d, has_deriv (comp f_inv) (a_get ys i) d /\ d <> 0%R /\ a_get (J v) i = Some (ln (Rabs d)).
  Proof using Hp cordp.
    intros EJ M Hf D Hv. unfold ildj_of_inverse in EJ. destruct (mirrors sq f_inv) as [ms|] eqn:Em; [|discriminate]. injection EJ as <-.
    assert (Lm : length ms <= 2 * length f_inv).
    { clear -Em. revert ms Em. induction f_inv as [|o ops IH]; intros ms H; cbn [mirrors] in H; [injection H as <-; apply le_n|]. destruct (mirror sq o) as [m|] eqn:E; [|discriminate]. destruct (mirrors sq ops) as [ms'|]; [|discriminate]. injection H as <-. specialize (IH ms' eq_refl). rewrite app_length. cbn [length].
      assert (length m <= 2); [|lia]. clear -E. destruct o as [u|b l|b r]; [destruct u|destruct b|destruct b]; cbn [mirror] in E; try discriminate; repeat match type of E with (if ?c then _ else _) = _ => destruct c; try discriminate | match ?c with Some _ => _ | None => _ end = _ => destruct c; try discriminate end; injection E as <-; cbn; lia. }
    set (xs := mk_arr (a_shape ys) (fun i => match comp f_inv (a_get ys i) with Some x => x | None => 0%R end) : arr R).
    assert (X : forall i, inb (a_shape ys) i -> exists d, dom_comp ms (a_get xs i) /\ comp ms (a_get xs i) = Some (a_get ys i) /\ has_deriv (comp f_inv) (a_get ys i) d /\ d <> 0%R /\ lval ms (a_get xs i) = Some (ln (Rabs d))).
    { intros i Hi. destruct (mirrors_deriv sq f_inv ms (a_get ys i) Em M (D i Hi)) as (x & d & E1 & E2 & E3 & E4 & E5 & E6). exists d. unfold xs. cbn [a_get]. rewrite E1. auto. }
    destruct (auto_ok ms xs v) as [_ HJ].
    - apply (mirrors_mild sq f_inv ms Em).
    - nia.
    - intros i Hi. destruct (X i Hi) as (d & H1 & _). exact H1.
    - eapply aeq_trans; [exact Hv|]. split; [reflexivity|]. intros i Hi. cbn. destruct (X i Hi) as (d & _ & H2 & _). symmetry. exact H2.
    - destruct HJ as [HJ1 HJ2]. split; [exact HJ1|]. intros i Hi. destruct (X i Hi) as (d & _ & _ & H3 & H4 & H5). exists d. split; [exact H3|]. split; [exact H4|]. rewrite HJ2 by (rewrite HJ1; exact Hi). exact H5.
  Qed.
End Auto.

(** ** Programs with custom functions *)
Lemma mirrors_length sq ops : forall ms, mirrors sq ops = Some ms -> length ms <= 2 * length ops.
Proof.
  induction ops as [|o ops IH]; intros ms H; cbn [mirrors] in H; [injection H as <-; apply le_n|]. destruct (mirror sq o) as [m|] eqn:E; [|discriminate]. destruct (mirrors sq ops) as [ms'|]; [|discriminate]. injection H as <-. specialize (IH ms' eq_refl). rewrite app_length. cbn [length].
  assert (length m <= 2); [|lia]. clear -E. destruct o as [u|b l|b r]; [destruct u|destruct b|destruct b]; cbn [mirror] in E; try discriminate; repeat match type of E with (if ?c then _ else _) = _ => destruct c; try discriminate | match ?c with Some _ => _ | None => _ end = _ => destruct c; try discriminate end; injection E as <-; cbn; lia.
Qed.
(** enough steps for the runs of propagate inside the rules *)
Definition c_fuel (fuel : nat) (c : cstep) : Prop :=
  match c with CInv _ g => 2 * length g + 4 * (length g * length g) < fuel | CAuto ops => 4 * length ops + 16 * (length ops * length ops) < fuel | _ => True end.
Section Steps.
  Variable cord : list (ndslice (option R) (option R)) -> list (ndslice (option R) (option R)).
  Hypothesis cordp : forall l, Permutation l (cord l).
  Variables (fuel : nat) (ord : oracle) (sq : bool).
  Hypothesis Hp : perm ord.
  Definition c_rel (sh : list nat) (c : cstep) (k : kstep) : Prop :=
    c_link cord fuel ord sq c = Some (k_link k) /\ kf k = c_fun c /\ (forall x, c_dom c x -> kd k x) /\ link_ok (option R) (option R) sh (k_link k) /\
    match k with KC f g j I0 J0 => forall xs v, (forall i, inb (a_shape xs) i -> c_dom c (a_get xs i)) -> aeq v (map_arr f xs) -> aeq (I0 v) (lift1 g (map_arr f xs)) /\ aeq (J0 v) (lift1 j (map_arr f xs)) | _ => True end.
  Lemma lift1_aeq f v v' : aeq v v' -> aeq (lift1 f v) (lift1 f v').
  Proof using. intros [H1 H2]. split; [exact H1|]. intros i Hi. cbn. f_equal. apply H2, Hi. Qed.
  Lemma auto_cus g ms f (xs : arr R) v : mirrors sq g = Some ms -> length ms + length ms * length ms < fuel -> (forall i, inb (a_shape xs) i -> mild g /\ exists y, f (a_get xs i) = Some y /\ dom_comp g y /\ comp g y = Some (a_get xs i)) ->
    aeq v (map_arr f xs) -> aeq (auto_ildj cord fuel ord ms v) (lift1 (fun y => obind (comp g y) (lval ms)) (map_arr f xs)).
  Proof using Hp cordp.
    intros Em Hf D Hv. assert (X : forall i, inb (a_shape xs) i -> exists y, f (a_get xs i) = Some y /\ comp g y = Some (a_get xs i) /\ dom_comp ms (a_get xs i) /\ comp ms (a_get xs i) = Some y).
    { intros i Hi. destruct (D i Hi) as (M & y & E1 & E2 & E3). destruct (mirrors_dom sq g ms y _ Em M E2 E3) as [A B]. exists y. auto. }
    destruct (auto_ok cord cordp fuel ord Hp ms xs v) as [_ HJ]; [apply (mirrors_mild sq g ms Em)|exact Hf|intros i Hi; destruct (X i Hi) as (y & _ & _ & H & _); exact H| |].
    - eapply aeq_trans; [exact Hv|]. split; [reflexivity|]. intros i Hi. cbn. destruct (X i Hi) as (y & E1 & _ & _ & E4). congruence.
    - eapply aeq_trans; [exact HJ|]. split; [reflexivity|]. intros i Hi. cbn. destruct (X i Hi) as (y & E1 & E2 & _ & _). rewrite E1. cbn [obind]. rewrite E2. reflexivity.
  Qed.
  Lemma c_rel_ex sh c l : c_link cord fuel ord sq c = Some l -> c <> CPrim (OU (UIntPow 0)) -> c_fuel fuel c -> exists k, k_link k = l /\ c_rel sh c k.
  Proof using Hp cordp.
    intros E N Fu. destruct c as [o|f g j|f g|ops]; cbn [c_link] in E.
    - injection E as <-. exists (KO o). split; [reflexivity|]. split; [reflexivity|]. split; [reflexivity|]. split; [auto|]. split; [|exact I]. assert (F : Forall (link_ok (option R) (option R) sh) (map link_R [o])) by (apply ops_ok; intros [Ho|[]]; apply N; congruence). inversion F; assumption.
    - injection E as <-. exists (KC f g j (lift1 g) (lift1 j)). split; [reflexivity|]. split; [reflexivity|]. split; [reflexivity|]. split; [auto|]. split; [intros v Hv; exact Hv|]. intros xs v _ Hv. split; apply lift1_aeq, Hv.
    - unfold ildj_of_inverse in E. destruct (mirrors sq g) as [ms|] eqn:Em; [|discriminate]. injection E as <-. pose proof (mirrors_length sq g ms Em) as Lm.
      exists (KC f (comp g) (fun y => obind (comp g y) (lval ms)) (lift1 (comp g)) (auto_ildj cord fuel ord ms)). split; [reflexivity|]. split; [cbn [c_link]; unfold ildj_of_inverse; rewrite Em; reflexivity|]. split; [reflexivity|]. split; [|split; [intros v Hv; exact Hv|]].
      + intros x (y & E1 & E2 & E3 & E4). destruct (mirrors_deriv sq g ms y Em E4 E3) as (x' & d & F1 & F2 & F3 & F4 & F5 & F6). rewrite E2 in F1. injection F1 as <-. exists y, d. split; [exact E1|]. split; [exact E2|]. split; [exact F4|]. split; [exact F5|]. rewrite E2. exact F6.
      + intros xs v D Hv. split; [apply lift1_aeq, Hv|]. apply auto_cus; [exact Em|cbn [c_fuel] in Fu; nia| |exact Hv]. intros i Hi. destruct (D i Hi) as (y & E1 & E2 & E3 & E4). split; [exact E4|]. eauto.
    - destruct (mirrors sq ops) as [g|] eqn:Eg; [|discriminate]. unfold ildj_of_inverse in E. destruct (mirrors sq g) as [ms|] eqn:Em; [|discriminate]. injection E as <-. pose proof (mirrors_length sq ops g Eg) as Lg. pose proof (mirrors_length sq g ms Em) as Lm. pose proof (mirrors_ops sq ops g Eg) as No. destruct (mirrors_mild sq ops g Eg) as [Mg _]. cbn [c_fuel] in Fu.
      assert (P : forall x, c_dom (CAuto ops) x -> exists y, comp ops x = Some y /\ dom_comp g y /\ comp g y = Some x) by (intros x [D M]; destruct (comp_ok ops x D) as (y & Ey & _); destruct (mirrors_dom sq ops g x y Eg M D Ey) as [A B]; eauto).
      exists (KC (comp ops) (comp g) (fun y => obind (comp g y) (lval ms)) (auto_inverse cord fuel ord ops) (auto_ildj cord fuel ord ms)). split; [reflexivity|]. split; [cbn [c_link]; rewrite Eg; unfold ildj_of_inverse; rewrite Em; reflexivity|]. split; [reflexivity|]. split; [|split].
      + intros x Hx. destruct (P x Hx) as (y & E1 & E2 & E3). destruct (mirrors_deriv sq g ms y Em Mg E2) as (x' & d & F1 & F2 & F3 & F4 & F5 & F6). rewrite E3 in F1. injection F1 as <-. exists y, d. split; [exact E1|]. split; [exact E3|]. split; [exact F4|]. split; [exact F5|]. rewrite E3. exact F6.
      + intros v Hv. cbn [k_link link_ok]. rewrite auto_inverse_shape; [exact Hv|exact Hp|exact No|nia].
      + intros xs v D Hv. split.
        * destruct (auto_ok cord cordp fuel ord Hp ops xs v) as [HI _]; [exact No|nia|intros i Hi; apply (D i Hi)|exact Hv|]. eapply aeq_trans; [exact HI|]. split; [reflexivity|]. intros i Hi. cbn. destruct (P _ (D i Hi)) as (y & E1 & E2 & E3). rewrite E1. cbn [obind]. symmetry. exact E3.
        * apply auto_cus; [exact Em|nia| |exact Hv]. intros i Hi. split; [exact Mg|]. apply P, D, Hi.
  Qed.
  Lemma c_rels sh cs : forall ls, c_links cord fuel ord sq cs = Some ls -> ~ In (CPrim (OU (UIntPow 0))) cs -> Forall (c_fuel fuel) cs -> exists ks, map k_link ks = ls /\ Forall2 (c_rel sh) cs ks.
  Proof using Hp cordp.
    induction cs as [|c cs IH]; intros ls E N Fu; cbn [c_links] in E; [injection E as <-; exists []; split; constructor|]. destruct (c_link cord fuel ord sq c) as [l|] eqn:El; [|discriminate]. destruct (c_links cord fuel ord sq cs) as [ls'|] eqn:Els; [|discriminate]. injection E as <-. inversion Fu as [|? ? Fc Fs]; subst.
    destruct (c_rel_ex sh c l El) as (k & Ek & Rk); [intros ->; apply N; left; reflexivity|exact Fc|]. destruct (IH ls' eq_refl) as (ks & Eks & Rks); [intros Hi; apply N; right; exact Hi|exact Fs|]. exists (k :: ks). split; [cbn; congruence|constructor; assumption].
  Qed.
  Lemma c_rel_comp sh cs ks : Forall2 (c_rel sh) cs ks -> forall x, k_comp ks x = c_comp cs x.
  Proof using. induction 1 as [|c k cs ks Hk _ IH]; intros x; [reflexivity|]. cbn. destruct Hk as (_ & -> & _). destruct (c_fun c x); [apply IH|reflexivity]. Qed.
  Lemma c_rel_doms sh cs ks : Forall2 (c_rel sh) cs ks -> forall x, c_doms cs x -> k_doms ks x.
  Proof using. induction 1 as [|c k cs ks Hk _ IH]; intros x H; [exact I|]. destruct H as [H1 H2]. destruct Hk as (_ & Ef & Hd & _). split; [apply Hd, H1|]. intros y Hy. apply IH, H2. rewrite <- Ef. exact Hy. Qed.
  Lemma c_rel_at sh cs ks : Forall2 (c_rel sh) cs ks -> forall i c k x v, nth_error cs i = Some c -> nth_error ks i = Some k -> c_doms cs x -> k_comp (firstn i ks) x = Some v -> c_dom c v.
  Proof using.
    induction 1 as [|c0 k0 cs ks Hk _ IH]; intros [|i] c k x v Ec Ek D Ev; try discriminate.
    - injection Ec as <-. injection Ev as <-. apply D.
    - cbn [nth_error firstn k_comp] in *. destruct Hk as (_ & Ef & _). destruct D as [_ D]. destruct (kf k0 x) as [w|] eqn:Ew; [|discriminate]. cbn [obind] in Ev. rewrite Ef in Ew. exact (IH i c k w v Ec Ek (D w Ew) Ev).
  Qed.
  Lemma F2_nth {A B} (P : A -> B -> Prop) l m : Forall2 P l m -> forall i b, nth_error m i = Some b -> exists a, nth_error l i = Some a /\ P a b.
  Proof using. clear. induction 1 as [|a b l m H _ IH]; intros [|i] b' E; try discriminate; [injection E as <-; exists a; auto|]. apply (IH i b' E). Qed.
  Lemma c_run cs ks (xs : arr R) ys : Forall2 (c_rel (a_shape xs)) cs ks -> (forall i, inb (a_shape xs) i -> c_doms cs (a_get xs i)) -> aeq ys (map_arr (c_comp cs) xs) -> length cs + length cs * length cs < fuel ->
    exists v j, inverse_and_ildj (option R) (option R) (Some 0%R) oplus cord fuel ord (chain _ _ oplus (a_shape xs) (map k_link ks)) [] [ys] = Ok [(v, j)] /\ aeq v (map_arr Some xs) /\ aeq j (map_arr (k_lval ks) xs).
  Proof using Hp cordp.
    intros HR D Hy Hf. assert (Lk : length ks = length cs) by (clear -HR; induction HR; cbn; congruence). apply (k_returns cord cordp).
    - intros i Hi. eapply c_rel_doms; [exact HR|]. apply D, Hi.
    - eapply aeq_trans; [exact Hy|]. split; [reflexivity|]. intros i _. cbn. symmetry. eapply c_rel_comp, HR.
    - intros k f g j I0 J0 Ek v Hv. destruct (F2_nth _ _ _ HR k _ Ek) as (c & Ec & Rc). destruct Rc as (_ & _ & _ & _ & Cus).
      set (xk := mk_arr (a_shape xs) (fun i => match k_comp (firstn k ks) (a_get xs i) with Some x => x | None => 0%R end) : arr R).
      assert (X : forall i, inb (a_shape xs) i -> k_comp (firstn k ks) (a_get xs i) = Some (a_get xk i)).
      { intros i Hi. destruct (k_dom_at ks (a_get xs i) k _ (c_rel_doms _ _ _ HR _ (D i Hi)) Ek) as (w & Ew & _). unfold xk. cbn. rewrite Ew. reflexivity. }
      assert (A : aeq (rho_K ks xs (S k)) (map_arr f xk)) by (split; [reflexivity|]; intros i Hi; cbn [rho_K map_arr a_get]; rewrite (k_comp_snoc ks _ k _ Ek), (X i Hi); reflexivity).
      destruct (Cus xk v) as [CI CJ]; [|eapply aeq_trans; [exact Hv|exact A]|].
      + intros i Hi. eapply c_rel_at; [exact HR|exact Ec|exact Ek|apply (D i Hi)|apply (X i Hi)].
      + split; (eapply aeq_trans; [first [exact CI|exact CJ]|]; apply lift1_aeq, aeq_sym, A).
    - exact Hp.
    - clear -HR. induction HR as [|c k cs ks Hk _ IH]; cbn; constructor; [apply Hk|exact IH].
    - rewrite Lk. exact Hf.
  Qed.
  Notation inverse := (inverse (option R) (option R) (Some 0%R) oplus cord). Notation ildj_of := (ildj_of (option R) (option R) (Some 0%R) oplus cord).
  (** C76: let f be any composition of registered operations and custom functions (with f_inv and f_ildj, with f_inv only, or with
      neither), applied elementwise to an array xs of any shape whose elements are inside the domains.  Then inverse(f) and ildj(f)
      return at f(xs), under every schedule and every order of sets; inverse gives xs, and ildj the sum over the elements of
      log |d|, d the derivative at f(x) of a function g that inverts f on the whole domain. *)
  Theorem C76_change_of_variables cs J (xs : arr R) : c_program cord fuel ord sq (a_shape xs) cs = Some J -> ~ In (CPrim (OU (UIntPow 0))) cs -> (forall i, inb (a_shape xs) i -> c_doms cs (a_get xs i)) ->
    length cs + length cs * length cs < fuel -> Forall (c_fuel fuel) cs ->
    exists g ds v, (forall x, c_doms cs x -> exists y, c_comp cs x = Some y /\ g y = Some x) /\
      Forall2 (fun i d => exists y, c_comp cs (a_get xs i) = Some y /\ has_deriv g y d /\ d <> 0%R) (all_indices (a_shape xs)) ds /\
      inverse fuel ord J [] [map_arr (c_comp cs) xs] = Ok [v] /\ aeq v (map_arr Some xs) /\
      ildj_of fuel ord J [] [map_arr (c_comp cs) xs] = Ok (Some (fold_left (fun s d => s + ln (Rabs d))%R ds 0%R)).
  Proof using Hp cordp.
    intros EJ N D Hf Fu. unfold c_program in EJ. destruct (c_links cord fuel ord sq cs) as [ls|] eqn:El; [|discriminate]. injection EJ as <-. destruct (c_rels (a_shape xs) cs ls El N Fu) as (ks & <- & HR).
    destruct (c_run cs ks xs _ HR D (aeq_refl _) Hf) as (v & j & E & Ev & Ej).
    assert (HD : exists ds, Forall2 (fun i d => exists y, c_comp cs (a_get xs i) = Some y /\ has_deriv (k_inv ks) y d /\ d <> 0%R) (all_indices (a_shape xs)) ds /\ Forall2 (fun i d => a_get (map_arr (k_lval ks) xs) i = Some (ln (Rabs d))) (all_indices (a_shape xs)) ds).
    { assert (A := all_indices_inb (a_shape xs)). induction (all_indices (a_shape xs)) as [|i is_ IH]; [exists []; split; constructor|]. destruct IH as (ds & H1 & H2); [intros i' Hi; apply A; right; exact Hi|]. destruct (k_comp_ok ks _ (c_rel_doms _ _ _ HR _ (D i (A i (or_introl eq_refl))))) as (y & E1 & E2 & d & E3 & E4 & E5). exists (d :: ds). split; constructor; try assumption. exists y. split; [rewrite <- (c_rel_comp _ _ _ HR); exact E1|auto]. }
    destruct HD as (ds & H1 & H2). exists (k_inv ks), ds, v. split; [|split; [exact H1|split; [|split; [exact Ev|]]]].
    - intros x Hx. destruct (k_comp_ok ks x (c_rel_doms _ _ _ HR _ Hx)) as (y & E1 & E2 & _). exists y. rewrite <- (c_rel_comp _ _ _ HR). auto.
    - unfold InverseModel.inverse. rewrite E. reflexivity.
    - unfold InverseModel.ildj_of. rewrite E. cbn [rbind]. f_equal. cbn [ildj_sum map snd fold_left]. unfold asum. destruct Ej as [Ej1 Ej2]. cbn [map_arr a_shape] in Ej1. rewrite Ej1.
      assert (S : fold_left (fun s i => oplus s (a_get j i)) (all_indices (a_shape xs)) (Some 0%R) = fold_left (fun s i => oplus s (a_get (map_arr (k_lval ks) xs) i)) (all_indices (a_shape xs)) (Some 0%R)).
      { clear H1 H2. assert (A := all_indices_inb (a_shape xs)). generalize (Some 0%R). induction (all_indices (a_shape xs)) as [|i is_ IH]; intros s; [reflexivity|]. cbn [fold_left]. rewrite (Ej2 i) by (rewrite Ej1; apply A; left; reflexivity). apply IH. intros i' Hi. apply A. right. exact Hi. }
      rewrite S, (osum _ ds _ H2). cbn. f_equal. apply Rplus_0_l.
  Qed.
End Steps.

(** def_inverse_unary(f_inv, f_ildj) overrides whatever the automatic inverse would be, also when f_inv is no inverse of f: at
    every y, inverse(f)(y) is f_inv(y) and ildj(f)(y) is f_ildj(y) *)
Theorem C76_unary_override (V W : Type) (w0 : W) (wplus : W -> W -> W) cord sh osh F (f_inv : arr V -> arr V) (f_ildj : arr V -> arr W) fuel ord (y : arr V) : perm ord -> a_shape y = osh -> a_shape (f_inv y) = sh -> 1 < fuel ->
  inverse_and_ildj V W w0 wplus cord fuel ord (one V W [] [] sh osh F (unary_inverse V W wplus f_inv f_ildj)) [] [y] = Ok [(f_inv y, lift2 wplus (f_ildj y) (mk_arr osh (fun _ => w0)))].
Proof. intros Hp Hy Hi Hf. apply (C76_rule_used V W w0 wplus cord [] [] sh osh F _ fuel ord y Hp Hy [] _ _ []); try reflexivity; assumption. Qed.
(** The automatic ILDJ never raises when the inverse of f_inv can be traced to registered operations *)
Theorem C76_auto_returns cord fuel ord sq f_inv ms (v : arrO) : perm ord -> mirrors sq f_inv = Some ms -> 2 * length f_inv + 4 * (length f_inv * length f_inv) < fuel ->
  exists x j, inverse_and_ildj (option R) (option R) (Some 0%R) oplus cord fuel ord (program (a_shape v) ms) [] [v] = Ok [(x, j)].
Proof. intros Hp Em Hf. pose proof (mirrors_length sq f_inv ms Em). destruct (auto_run cord fuel ord Hp ms v) as (x & j & E & _); [apply (mirrors_mild sq f_inv ms Em)|nia|eauto]. Qed.
(** what is traced is the registered inverse *)
Theorem C76_traced sq ops ms y : mirrors sq ops = Some ms -> comp ms y = inv_comp ops y.
Proof. apply mirrors_val. Qed.
(** The automatic ILDJ raises NotImplementedError for f_inv = sin and f_inv = cos (asin and acos have no registered inverse), at
    every array, although both can be inverted and ildj(sin) is defined *)
Definition asin_jaxpr (sh : list nat) : jx (option R) (option R) := one_prim _ _ [] [] sh sh (PDefault _ _ (map (lift1 fasin))).
Definition acos_jaxpr (sh : list nat) : jx (option R) (option R) := one_prim _ _ [] [] sh sh (PDefault _ _ (map (lift1 facos))).
Theorem C76_sin_refuted cord fuel ord (v : arrO) : perm ord -> 1 < fuel ->
  inverse_and_ildj (option R) (option R) (Some 0%R) oplus cord fuel ord (asin_jaxpr (a_shape v)) [] [v] = NotImpl /\ inverse_and_ildj (option R) (option R) (Some 0%R) oplus cord fuel ord (acos_jaxpr (a_shape v)) [] [v] = NotImpl.
Proof. intros Hp Hf. split; (apply C76_unregistered; [exact Hp|reflexivity|exact Hf]). Qed.
(** and it is NaN for f_inv(x) = x ** n with n < -1, at every x > 0 *)
Theorem C76_negative_power_refuted sq n ms x : (n < -1)%Z -> (0 < x)%R -> mirrors sq [OU (UIntPow n)] = Some ms -> exists y, comp [OU (UIntPow n)] y = Some x /\ (0 < y)%R /\ comp ms x = Some y /\ (exists d, has_deriv (comp [OU (UIntPow n)]) y d /\ d <> 0%R) /\ lval ms x = None.
Proof.
  intros Hn Hx Em. assert (Nz : IZR n <> 0%R) by (apply not_0_IZR; lia). cbn [mirrors mirror] in Em. destruct (Z.eq_dec n 0); [lia|]. destruct (Z.eq_dec n 1); [lia|]. destruct (Z.eq_dec n (-1)); [lia|]. destruct (Z.eq_dec n 2); [lia|]. injection Em as <-. cbn [app].
  exists (Rpower x (1 / IZR n)). assert (Py := Rpower_pos x (1 / IZR n)). split; [|split; [exact Py|split; [|split]]].
  - rewrite comp1. cbn [f_op fwd]. rewrite fipow_pos by exact Py. f_equal. rewrite Rpower_mult. replace (1 / IZR n * IZR n)%R with 1%R by (field; exact Nz). apply Rpower_1, Hx.
  - rewrite comp1. cbn [f_op fwd2]. apply fpow_pos, Hx.
  - exists (IZR n * Rpower (Rpower x (1 / IZR n)) (IZR n - 1))%R. split; [|apply Rmult_integral_contrapositive_currified; [exact Nz|apply Rpower_nz]]. apply (near_gt 0 _ (fun z => Rpower z (IZR n))); [exact Py| |apply dl_pow, Py]. intros z Hz. rewrite comp1. cbn [f_op fwd]. apply fipow_pos, Hz.
  - cbn [lval f_op fwd2]. rewrite fpow_pos by exact Hx. cbn [obind j_op right_ildj]. assert (L : (1 / IZR n < 0)%R) by (unfold Rdiv; rewrite Rmult_1_l; apply Rinv_lt_0_compat, IZR_lt; lia). rewrite (fdiv_nz 1) by lra. cbn [obind]. rewrite flog_pos by exact Py. cbn [obind]. rewrite flog_neg by lra. reflexivity.
Qed.
(** x |-> 2 * softplus(x) + 1 with softplus a custom function: f_inv(y) = log(exp(y) - 1) is given, its ILDJ is computed.  Then
    exp(.) as a custom function with no definitions.  Every real number is in the domain. *)
Definition softplus_c : cstep := CInv (fun x => Some (softplus x)) [OU UExpm1; OU ULog].
Definition example_c : list cstep := [softplus_c; CPrim (OL BMul 2); CPrim (OR BAdd 1); CAuto [OU UExp]].
Theorem C76_example_domain x : c_doms example_c x.
Proof.
  assert (P : (0 < exp (softplus x) - 1)%R) by (unfold softplus; pose proof (exp_pos x); rewrite exp_ln by lra; lra). cbn. split.
  - exists (softplus x). split; [reflexivity|]. unfold fexpm1. rewrite flog_pos by exact P. cbn. split; [f_equal; unfold softplus; pose proof (exp_pos x); rewrite exp_ln by lra; replace (1 + exp x - 1)%R with (exp x) by lra; apply ln_exp|]. split; [|intros n [H|[H|[]]]; discriminate]. split; [exact I|]. intros y Hy. injection Hy as <-. split; [exact P|auto].
  - intros y Hy. injection Hy as <-. split; [lra|]. intros y Hy. injection Hy as <-. split; [exact I|]. intros y Hy. injection Hy as <-. split; [|intros; exact I]. split; [split; [exact I|intros; exact I]|]. intros n [H|[]]. discriminate.
Qed.
Theorem C76_example_program cord fuel ord sq sh : exists J, c_program cord fuel ord sq sh example_c = Some J.
Proof. eexists. reflexivity. Qed.
Print Assumptions C76_change_of_variables.
Print Assumptions C76_automatic_ildj.
Print Assumptions C76_unary_override.
Print Assumptions C76_sin_refuted.
Print Assumptions C76_negative_power_refuted.
Print Assumptions C76_example_domain.
