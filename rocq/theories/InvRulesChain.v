(** C39 over the reals: the ILDJ of a composition of registered primitives is log |(f^-1)'| at the output. *)
From Verif Require Export InverseChain InvRulesProps.
From Coq Require Import ZArith Lra Lia.
Open Scope R_scope. Open Scope nat_scope.

(** ** Compositions *)
(** one operation: a unary primitive, or a binary primitive with a constant left or right operand *)
Inductive op := OU (u : unary) | OL (b : binary) (l : R) | OR (b : binary) (r : R).
Definition f_op (o : op) (x : R) : option R := match o with OU u => fwd u x | OL b l => fwd2 b l x | OR b r => fwd2 b x r end.
Definition d_op (o : op) (x : R) : Prop := match o with OU u => dom u x | OL b l => dom_left b l x | OR b r => dom_right b r x end.
(** the function f(x) = op_n(... op_1(x)) *)
Fixpoint comp (ops : list op) (x : R) : option R := match ops with [] => Some x | o :: ops' => obind (f_op o x) (comp ops') end.
(** the points at which every operation is inside its domain *)
Fixpoint dom_comp (ops : list op) (x : R) : Prop := match ops with [] => True | o :: ops' => d_op o x /\ forall y, f_op o x = Some y -> dom_comp ops' y end.

(** ** The same as a program: elements of arrays are reals or NaN *)
Definition oplus (a b : option R) : option R := obind a (fun x => obind b (fun y => Some (x + y)%R)).
Definition elem_R (u : unary) : elem (option R) (option R) := mk_elem _ _ (fun x => obind x (fwd u)) (option_map (fun g x => obind x g) (inv u)) (fun y => obind y (ildj u)).
Definition bin_R (b : binary) : binop (option R) (option R) :=
  mk_bin _ _ (fun x y => obind x (fun x => obind y (fwd2 b x)))
    (fun l z => obind l (fun l => obind z (left_val b l))) (fun l z j => oplus j (obind l (fun l => obind z (left_ildj b l))))
    (fun r z => obind r (fun r => obind z (right_val b r))) (fun r z j => oplus j (obind r (fun r => obind z (right_ildj b r)))).
Definition litR (c : R) : arr (option R) := mk_arr [] (fun _ => Some c).
Definition link_R (o : op) : link (option R) (option R) := match o with OU u => LU _ _ (elem_R u) | OL b l => LL _ _ (bin_R b) (litR l) | OR b r => LR _ _ (bin_R b) (litR r) end.
Definition program (sh : list nat) (ops : list op) : jx (option R) (option R) := chain _ _ oplus sh (map link_R ops).

(** ** Calculus *)
Definition g_op (o : op) (y : R) : option R := match o with OU u => match inv u with Some g => g y | None => None end | OL b l => left_val b l y | OR b r => right_val b r y end.
Definition j_op (o : op) (y : R) : option R := match o with OU u => ildj u y | OL b l => left_ildj b l y | OR b r => right_ildj b r y end.
Fixpoint inv_comp (ops : list op) (y : R) : option R := match ops with [] => Some y | o :: ops' => obind (inv_comp ops' y) (g_op o) end.
Fixpoint lval (ops : list op) (x : R) : option R := match ops with [] => Some 0%R | o :: ops' => obind (f_op o x) (fun y => oplus (lval ops' y) (j_op o y)) end.
Lemma op_ok o x : d_op o x -> exists y, f_op o x = Some y /\ g_op o y = Some x /\ exists d, has_deriv (g_op o) y d /\ d <> 0%R /\ j_op o y = Some (ln (Rabs d)).
Proof.
  destruct o as [u|b l|b r]; cbn [d_op f_op]; intros H.
  - assert (N : u <> UIntPow 0) by (intros ->; cbn in H; exact H). destruct (C38_unary u N) as (g & Eg & I). destruct (I x H) as (y & E1 & E2 & d & E3 & E4). exists y. split; [exact E1|]. cbn [g_op]. rewrite Eg. split; [exact E2|]. exists d. split; [|exact E4]. destruct E3 as (h & Hh & e & He & Hz). exists h. split; [exact Hh|]. exists e. split; [exact He|]. intros z Hzz. cbn [g_op]. rewrite Eg. apply Hz, Hzz.
  - apply (C38_left b l x H).
  - apply (C38_right b r x H).
Qed.
Lemma has_deriv_comp g1 g2 y v d1 d2 : has_deriv g1 y d1 -> g1 y = Some v -> has_deriv g2 v d2 -> has_deriv (fun z => obind (g1 z) g2) y (d2 * d1)%R.
Proof.
  intros (h1 & H1 & e1 & P1 & Z1) Ev (h2 & H2 & e2 & P2 & Z2). exists (fun z => h2 (h1 z)).
  assert (Ey : h1 y = v). { specialize (Z1 y). rewrite Rminus_eq_0, Rabs_R0 in Z1. specialize (Z1 P1). congruence. }
  split; [apply dl_comp; [exact H1|rewrite Ey; exact H2]|].
  assert (C : continuity_pt h1 y) by (apply derivable_continuous_pt; exists d1; exact H1). destruct (C e2 P2) as (dl & Pd & Hd). exists (Rmin e1 dl). split; [apply Rmin_pos; assumption|]. intros z Hz.
  assert (A : (Rabs (z - y) < e1)%R) by (eapply Rlt_le_trans; [exact Hz|apply Rmin_l]). assert (B : (Rabs (z - y) < dl)%R) by (eapply Rlt_le_trans; [exact Hz|apply Rmin_r]). rewrite (Z1 z A). cbn. apply Z2. rewrite <- Ey.
  destruct (Req_EM_T z y) as [->|N]; [rewrite Rminus_eq_0, Rabs_R0; exact P2|]. apply (Hd z). split; [split; [exact I|congruence]|exact B].
Qed.
Lemma comp_ok ops : forall x, dom_comp ops x -> exists y, comp ops x = Some y /\ inv_comp ops y = Some x /\ exists d, has_deriv (inv_comp ops) y d /\ d <> 0%R /\ lval ops x = Some (ln (Rabs d)).
Proof.
  induction ops as [|o ops IH]; intros x H; cbn [comp dom_comp] in *.
  - exists x. split; [reflexivity|]. split; [reflexivity|]. exists 1%R. split; [apply (everywhere (fun z => z)), dl_id|]. split; [lra|]. cbn. rewrite Rabs_R1, ln_1. reflexivity.
  - destruct H as [Ho Hr]. destruct (op_ok o x Ho) as (v & Ef & Eg & d & Hd & Nd & Ej). rewrite Ef. cbn [obind]. destruct (IH v (Hr v Ef)) as (y & Ec & Ei & d' & Hd' & Nd' & El). exists y. split; [exact Ec|]. cbn [inv_comp]. rewrite Ei. split; [exact Eg|].
    exists (d * d')%R. split; [exact (has_deriv_comp _ _ _ _ _ _ Hd' Ei Hd)|]. split; [apply Rmult_integral_contrapositive_currified; assumption|]. cbn [lval]. rewrite Ef. cbn [obind]. rewrite El, Ej. cbn. f_equal. rewrite Rabs_mult, ln_mult by (apply Rabs_pos_lt; assumption). lra.
Qed.
Lemma dom_at ops : forall x i o, dom_comp ops x -> nth_error ops i = Some o -> exists v, comp (firstn i ops) x = Some v /\ d_op o v.
Proof.
  induction ops as [|o' ops IH]; intros x [|i] o H E; try discriminate; cbn in *; [injection E as <-; exists x; split; [reflexivity|apply H]|]. destruct H as [Ho Hr]. destruct (op_ok o' x Ho) as (v & Ef & _). rewrite Ef. cbn. apply IH; [apply Hr, Ef|exact E].
Qed.
Lemma comp_snoc ops : forall x i o, nth_error ops i = Some o -> comp (firstn (S i) ops) x = obind (comp (firstn i ops) x) (f_op o).
Proof. induction ops as [|o' ops IH]; intros x [|i] o E; try discriminate; [injection E as <-; cbn; destruct (f_op o' x); reflexivity|]. cbn [nth_error] in E. change (comp (firstn (S (S i)) (o' :: ops)) x) with (obind (f_op o' x) (comp (firstn (S i) ops))). cbn [firstn comp]. destruct (f_op o' x) as [v|]; [|reflexivity]. cbn [obind]. apply IH, E. Qed.
Lemma skipn_nth {X} (l : list X) : forall i o, nth_error l i = Some o -> skipn i l = o :: skipn (S i) l.
Proof. induction l as [|x l IH]; intros [|i] o E; try discriminate; [injection E as <-; reflexivity|]. cbn [nth_error] in E. change (skipn (S i) (x :: l)) with (skipn i l). rewrite (IH i o E). reflexivity. Qed.

(** ** The program *)
Section Program.
  Variable cord : list (ndslice (option R) (option R)) -> list (ndslice (option R) (option R)).
  Hypothesis cordp : forall l, Permutation l (cord l).
  Variables (ops : list op) (xs : arr R).
  Notation sh := (a_shape xs). Notation n := (length ops).
  Hypothesis Hdom : forall i, inb sh i -> dom_comp ops (a_get xs i).
  Definition rho_R (k : nat) : arr (option R) := map_arr (comp (firstn k ops)) xs.
  Definition L_R (k : nat) : arr (option R) := map_arr (fun x => obind (comp (firstn k ops) x) (lval (skipn k ops))) xs.
  Lemma bget_in {X} (a : arr X) i : inb (a_shape a) i -> bget a i = a_get a i.
  Proof using. clear. unfold bget. destruct (a_shape a) eqn:E; [|reflexivity]. intros H. inversion H. reflexivity. Qed.
  Lemma L_step k o x : nth_error ops k = Some o -> obind (comp (firstn k ops) x) (lval (skipn k ops)) = oplus (obind (comp (firstn (S k) ops) x) (lval (skipn (S k) ops))) (obind (comp (firstn (S k) ops) x) (j_op o)).
  Proof using. intros E. rewrite (comp_snoc ops x k o E), (skipn_nth ops k o E). destruct (comp (firstn k ops) x) as [v|]; [|reflexivity]. cbn [obind lval]. destruct (f_op o v) as [y|]; reflexivity. Qed.
  Lemma den_rho k v : a_shape v = sh -> aeq (rho_R k) v -> den _ rho_R (AVar k sh) v.
  Proof using. intros E H. split; [exact H|symmetry; exact E]. Qed.
  Lemma eqn_R k o : nth_error ops k = Some o -> lin (option R) (option R) (Some 0%R) oplus MInverse rho_R L_R (fun m => m <= n) (fun m => m <= n /\ exists av, In (AVar m av) [AVar n sh : atom (list nat) (arr (option R))]) (link_eqn _ _ oplus sh k (link_R o)) [].
  Proof using Hdom.
    intros E. assert (Hk : k < n) by (apply nth_error_Some; congruence). assert (D : forall i, inb sh i -> exists v, comp (firstn k ops) (a_get xs i) = Some v /\ d_op o v) by (intros i Hi; apply dom_at; [apply Hdom, Hi|exact E]).
    assert (Dk : forall j, Forall2 (den _ rho_R) [AVar j sh] [rho_R j]) by (intros j; constructor; [split; [apply aeq_refl|reflexivity]|constructor]).
    assert (LS : forall i, inb sh i -> a_get (L_R k) i = oplus (a_get (L_R (S k)) i) (obind (a_get (rho_R (S k)) i) (j_op o))) by (intros i Hi; apply (L_step k o), E).
    assert (RS : forall i, a_get (rho_R (S k)) i = obind (a_get (rho_R k) i) (f_op o)) by (intros i; apply (comp_snoc ops (a_get xs i) k o E)).
    destruct o as [u|b c|b c]; cbn [link_R link_eqn lin]; (split; [|split; [reflexivity|right; left]]).
    - exists [rho_R k], [rho_R (S k)]. split; [apply Dk|]. split; [apply Dk|]. exists (AVar k sh), (rho_R k), (rho_R (S k)). do 3 (split; [reflexivity|]). split; [split; [reflexivity|]; intros i Hi; apply RS|]. right. intros g Hg i Hi. cbn in Hg. destruct (inv u) as [g'|] eqn:Ei; [|discriminate]. injection Hg as <-. destruct (D i Hi) as (v & Ev & Hv). change (a_get (rho_R k) i) with (comp (firstn k ops) (a_get xs i)). rewrite Ev. destruct (op_ok _ _ Hv) as (y & Ef & Eg & _). cbn [f_op g_op] in Ef, Eg. rewrite Ei in Eg. cbn [elem_R e_fwd obind]. rewrite Ef. exact Eg.
    - exists k, (S k), sh. split; [reflexivity|]. do 2 (split; [lia|]). split; [lia|]. split; [reflexivity|]. left. exists (elem_R u). do 2 (split; [reflexivity|]). split; [unfold L_R, lift2, bshape; cbn; destruct sh; reflexivity|]. intros i Hi. rewrite (LS i Hi). cbn [lift2 a_get]. rewrite !bget_in by exact Hi. reflexivity.
    - exists [litR c; rho_R k], [rho_R (S k)]. split; [constructor; [apply aeq_refl|apply Dk]|]. split; [apply Dk|]. exists (ALit (litR c)), (AVar k sh), (litR c), (rho_R k), (rho_R (S k)). do 3 (split; [reflexivity|]). split; [right; left; reflexivity|]. split; [split; [reflexivity|]; intros i Hi; cbn [lift2 a_get]; rewrite (bget_in (rho_R k)) by exact Hi; apply RS|]. split; [right|left; exact I].
      intros i Hi. rewrite (bget_in (rho_R (S k))), (bget_in (rho_R k)) by exact Hi. rewrite RS. destruct (D i Hi) as (v & Ev & Hv). change (a_get (rho_R k) i) with (comp (firstn k ops) (a_get xs i)). rewrite Ev. destruct (op_ok _ _ Hv) as (y & Ef & Eg & _). cbn [obind]. rewrite Ef. exact Eg.
    - exists k, (S k), sh. split; [reflexivity|]. do 2 (split; [lia|]). split; [lia|]. split; [reflexivity|]. right. left. exists (bin_R b), (ALit (litR c)), (litR c). do 2 (split; [reflexivity|]). split; [exact (fun x => x)|]. split; [reflexivity|]. split; [unfold L_R, lift2, bshape; cbn; destruct sh; reflexivity|]. intros i Hi. rewrite (LS i Hi). cbn [lift2 a_get bshape]. rewrite (bget_in (L_R (S k))) by exact Hi.
      rewrite (bget_in (lift2 _ (litR c) (rho_R (S k)))) by exact Hi. cbn [lift2 a_get]. rewrite (bget_in (rho_R (S k))) by exact Hi. reflexivity.
    - exists [rho_R k; litR c], [rho_R (S k)]. split; [constructor; [split; [apply aeq_refl|reflexivity]|constructor; [apply aeq_refl|constructor]]|]. split; [apply Dk|]. exists (AVar k sh), (ALit (litR c)), (rho_R k), (litR c), (rho_R (S k)). do 3 (split; [reflexivity|]). split; [right; right; reflexivity|]. split; [split; [unfold lift2, bshape; cbn; destruct sh; reflexivity|]; intros i Hi; cbn [lift2 a_get]; rewrite (bget_in (rho_R k)) by exact Hi; rewrite RS; destruct (a_get (rho_R k) i); reflexivity|]. split; [left; exact I|right].
      intros i Hi. rewrite (bget_in (rho_R (S k))), (bget_in (rho_R k)) by exact Hi. rewrite RS. destruct (D i Hi) as (v & Ev & Hv). change (a_get (rho_R k) i) with (comp (firstn k ops) (a_get xs i)). rewrite Ev. destruct (op_ok _ _ Hv) as (y & Ef & Eg & _). cbn [obind]. rewrite Ef. exact Eg.
    - exists k, (S k), sh. split; [reflexivity|]. do 2 (split; [lia|]). split; [lia|]. split; [reflexivity|]. right. right. exists (bin_R b), (ALit (litR c)), (litR c). do 2 (split; [reflexivity|]). split; [exact (fun x => x)|]. split; [reflexivity|]. split; [unfold L_R, lift2, bshape; cbn; destruct sh; reflexivity|]. intros i Hi. rewrite (LS i Hi). cbn [lift2 a_get bshape]. rewrite (bget_in (L_R (S k))) by exact Hi.
      rewrite (bget_in (lift2 _ (litR c) (rho_R (S k)))) by exact Hi. cbn [lift2 a_get]. rewrite (bget_in (rho_R (S k))) by exact Hi. reflexivity.
  Qed.
  Lemma F2_of_nth {A B} (P : A -> B -> Prop) (l : list A) : forall m, length l = length m -> (forall i a b, nth_error l i = Some a -> nth_error m i = Some b -> P a b) -> Forall2 P l m.
  Proof using. clear. induction l as [|a l IH]; intros [|b m] HL H; try discriminate; constructor; [apply (H 0); reflexivity|]. apply IH; [injection HL; auto|]. intros i. apply (H (S i)). Qed.
  Notation lin_run := (lin_run (option R) (option R) (Some 0%R) oplus).
  Notation inverse := (inverse (option R) (option R) (Some 0%R) oplus cord). Notation ildj_of := (ildj_of (option R) (option R) (Some 0%R) oplus cord). Notation inverse_and_ildj := (inverse_and_ildj (option R) (option R) (Some 0%R) oplus cord).
  Notation fr := (chain_frame (option R) (option R) sh (map link_R ops)). Notation eqns := (chain_eqns (option R) (option R) oplus sh 0 (map link_R ops)).
  Lemma eqns_nth i q : nth_error eqns i = Some q -> exists o, nth_error ops i = Some o /\ q = link_eqn _ _ oplus sh i (link_R o).
  Proof using. rewrite chain_nth, nth_error_map. destruct (nth_error ops i) as [o|]; [|discriminate]. intros E. injection E as <-. eauto. Qed.
  Lemma consumes_i Z i o m : consumes (option R) (option R) Z (link_eqn _ _ oplus sh i (link_R o)) m -> m = i.
  Proof using. destruct o; cbn; intros (_ & (av & H) & _); intuition congruence. Qed.
  Lemma program_lin : lin_run MInverse fr eqns [] [map_arr Some xs] [map_arr (comp ops) xs] rho_R L_R (fun m => m <= n) (repeat [] n).
  Proof using Hdom.
    unfold chain_frame. rewrite map_length. split; [constructor|]. split; [constructor; [split; [split; reflexivity|reflexivity]|constructor]|]. split; [constructor; [split; [split; [reflexivity|]|reflexivity]|constructor]|split; [constructor|split; [split|split]]].
    - intros i Hi. cbn. rewrite firstn_all. reflexivity.
    - intros i j q q' m Hi Hj Hc Hc'. apply eqns_nth in Hi as (o & _ & ->). apply eqns_nth in Hj as (o' & _ & ->). apply consumes_i in Hc, Hc'. congruence.
    - intros q m av Hin Hc [Ho|[]]. apply In_nth_error in Hin as (i & Hi). apply eqns_nth in Hi as (o & Ei & ->). apply consumes_i in Hc. injection Ho as Ho _. assert (i < n) by (apply nth_error_Some; congruence). lia.
    - intros m av [Ho|[]] _. injection Ho as <- <-. split; [reflexivity|]. intros i Hi. unfold L_R. cbn. rewrite firstn_all, skipn_all. destruct (comp_ok ops _ (Hdom i Hi)) as (y & -> & _). reflexivity.
    - apply F2_of_nth; [rewrite chain_length, map_length, repeat_length; reflexivity|]. intros i q ts Hq Ht. apply eqns_nth in Hq as (o & Eo & ->). assert (ts = []) by (apply nth_error_In in Ht; apply repeat_spec in Ht; exact Ht). subst ts. apply eqn_R, Eo.
  Qed.
  Lemma Z_in : Forall (inz (option R) (fun m => m <= n)) (f_in fr). Proof using. repeat constructor. cbn. lia. Qed.
  Lemma links_ok : ~ In (OU (UIntPow 0)) ops -> Forall (link_ok (option R) (option R) sh) (map link_R ops).
  Proof using. intros H. apply Forall_forall. intros l Hl. apply in_map_iff in Hl as (o & <- & Ho). destruct o as [u|b c|b c]; cbn; try (left; reflexivity). intros E. assert (N : u <> UIntPow 0) by congruence. destruct (C38_unary u N) as (g & Eg & _). rewrite Eg in E. discriminate. Qed.
  Lemma osum L (ds : list R) is_ : Forall2 (fun i d => a_get L i = Some (ln (Rabs d))) is_ ds -> forall s, fold_left (fun s i => oplus s (a_get L i)) is_ (Some s) = Some (fold_left (fun s d => s + ln (Rabs d))%R ds s).
  Proof using. clear. induction 1 as [|i d is_ ds H _ IH]; intros s; [reflexivity|]. cbn [fold_left]. rewrite H. cbn [oplus obind]. apply IH. Qed.
  Lemma derivs is_ : (forall i, In i is_ -> inb sh i) -> exists ds, Forall2 (fun i d => exists y, comp ops (a_get xs i) = Some y /\ has_deriv (inv_comp ops) y d /\ d <> 0%R) is_ ds /\ Forall2 (fun i d => a_get (L_R 0) i = Some (ln (Rabs d))) is_ ds.
  Proof using Hdom.
    induction is_ as [|i is_ IH]; intros H; [exists []; split; constructor|]. destruct IH as (ds & A & B); [intros j Hj; apply H; right; exact Hj|]. destruct (comp_ok ops _ (Hdom i (H i (or_introl eq_refl)))) as (y & E1 & E2 & d & E3 & E4 & E5). exists (d :: ds). split; constructor; try assumption; eauto.
  Qed.
  Theorem program_ildj fuel ord : perm ord -> ~ In (OU (UIntPow 0)) ops -> n + n * n < fuel ->
    exists g ds v, (forall x, dom_comp ops x -> exists y, comp ops x = Some y /\ g y = Some x) /\
      Forall2 (fun i d => exists y, comp ops (a_get xs i) = Some y /\ has_deriv g y d /\ d <> 0%R) (all_indices sh) ds /\
      inverse fuel ord (program sh ops) [] [map_arr (comp ops) xs] = Ok [v] /\ aeq v (map_arr Some xs) /\
      ildj_of fuel ord (program sh ops) [] [map_arr (comp ops) xs] = Ok (Some (fold_left (fun s d => s + ln (Rabs d))%R ds 0%R)).
  Proof using Hdom cordp.
    intros Hp Hz Hf. destruct (derivs (all_indices sh) (all_indices_inb sh)) as (ds & HA & HB).
    destruct (C37_chain_returns (option R) (option R) (Some 0%R) oplus cord sh (map link_R ops) fuel ord (map_arr (comp ops) xs) Hp (links_ok Hz) eq_refl ltac:(rewrite map_length; exact Hf)) as (v & j & E).
    destruct (C39_ildj (option R) (option R) (Some 0%R) oplus cord cordp fuel ord fr eqns [] [map_arr Some xs] [map_arr (comp ops) xs] rho_R L_R (fun m => m <= n) (repeat [] n) [(v, j)] Hp program_lin Z_in E) as [Hv Hj].
    assert (Es : ildj_of fuel ord (program sh ops) [] [map_arr (comp ops) xs] = Ok (ildj_sum (option R) (Some 0%R) oplus [j])) by (unfold InverseModel.ildj_of; unfold program; rewrite E; reflexivity).
    exists (inv_comp ops), ds, v. split; [intros x Hx; destruct (comp_ok ops x Hx) as (y & E1 & E2 & _); eauto|]. split; [exact HA|]. split; [unfold InverseModel.inverse, program; rewrite E; reflexivity|]. split; [inversion Hv; assumption|].
    pose proof (C39_ildj_sum (option R) (option R) (Some 0%R) oplus cord cordp fuel ord fr eqns [] [map_arr Some xs] [map_arr (comp ops) xs] rho_R L_R (fun m => m <= n) (repeat [] n) _ Hp program_lin Z_in Es) as E'. rewrite Es, E'. f_equal. unfold ildj_term. cbn [chain_frame f_in fold_left]. unfold asum. change (a_shape (L_R 0)) with sh. rewrite (osum (L_R 0) ds _ HB). cbn. f_equal. apply Rplus_0_l.
  Qed.
End Program.

(** C39: let f be any composition of registered unary primitives and of binary primitives with constants, applied elementwise to
    an array xs of any shape whose elements are inside the domains.  Then inverse(f) and ildj(f) return at f(xs), under every
    schedule and every order of sets; inverse gives xs, and ildj the sum over the elements of log |d|, d the derivative at f(x)
    of a function g that inverts f on the whole domain. *)
Theorem C39_change_of_variables cord ops (xs : arr R) fuel ord : (forall l, Permutation l (cord l)) -> perm ord -> ~ In (OU (UIntPow 0)) ops -> (forall i, inb (a_shape xs) i -> dom_comp ops (a_get xs i)) ->
  length ops + length ops * length ops < fuel ->
  exists g ds v, (forall x, dom_comp ops x -> exists y, comp ops x = Some y /\ g y = Some x) /\
    Forall2 (fun i d => exists y, comp ops (a_get xs i) = Some y /\ has_deriv g y d /\ d <> 0%R) (all_indices (a_shape xs)) ds /\
    inverse (option R) (option R) (Some 0%R) oplus cord fuel ord (program (a_shape xs) ops) [] [map_arr (comp ops) xs] = Ok [v] /\ aeq v (map_arr Some xs) /\
    ildj_of (option R) (option R) (Some 0%R) oplus cord fuel ord (program (a_shape xs) ops) [] [map_arr (comp ops) xs] = Ok (Some (fold_left (fun s d => s + ln (Rabs d))%R ds 0%R)).
Proof. intros. apply program_ildj; assumption. Qed.
(** f(x) = log(1 + 2 exp(x)): every real number is in its domain *)
Theorem C39_reals_nontrivial : forall x, dom_comp [OU UExp; OL BMul 2; OU ULog1p] x.
Proof.
  intros x. cbn. split; [exact I|]. intros y Ey. injection Ey as <-. split; [lra|]. intros z Ez. injection Ez as <-. split; [|auto]. pose proof (exp_pos x). lra.
Qed.

(** ** Where C38 fails: the ILDJ is NaN although the inverse is right and has a nonzero derivative *)
Definition bad_ildj (f g j : R -> option R) (x : R) : Prop := exists y, f x = Some y /\ g y = Some x /\ (exists d, has_deriv g y d /\ d <> 0%R) /\ j y = None.
(** c / x with c < 0 (div_left takes log(c) instead of log|c|) *)
Theorem C38_div_left_refuted l x : (l < 0)%R -> x <> 0%R -> bad_ildj (fwd2 BDiv l) (left_val BDiv l) (left_ildj BDiv l) x.
Proof.
  intros Hl Hx. exists (l / x)%R. cbn. rewrite fdiv_nz by exact Hx. split; [reflexivity|]. assert (N : (l / x)%R <> 0%R) by (unfold Rdiv; apply Rmult_integral_contrapositive_currified; [lra|apply Rinv_neq_0_compat, Hx]). rewrite fdiv_nz by exact N. split; [f_equal; field; lra|]. split.
  - exists (- (l / ((l / x) * (l / x))))%R. split; [|apply Ropp_neq_0_compat; unfold Rdiv at 1; apply Rmult_integral_contrapositive_currified; [lra|apply Rinv_neq_0_compat; apply Rmult_integral_contrapositive_currified; exact N]].
    apply (near_nz _ (fun z => l / z)%R); [exact N|intros z Hz; apply fdiv_nz; exact Hz|]. eapply dl_eq; [|apply dl_div; [apply dl_const|apply dl_id|exact N]]. unfold Rsqr. field. lra.
  - rewrite flog_neg by lra. reflexivity.
Qed.
(** c ^ x with 0 < c < 1 (log(log(c))) *)
Theorem C38_pow_left_refuted l x : (0 < l < 1)%R -> bad_ildj (fwd2 BPow l) (left_val BPow l) (left_ildj BPow l) x.
Proof.
  intros Hl. assert (L : (ln l < 0)%R) by (rewrite <- ln_1; apply ln_increasing; lra). exists (Rpower l x). cbn. rewrite fpow_pos by lra. split; [reflexivity|]. pose proof (Rpower_pos l x) as P. rewrite !flog_pos by lra. cbn. rewrite fdiv_nz by lra. split; [f_equal; unfold Rpower; rewrite ln_exp; field; lra|]. split.
  - exists (/ (Rpower l x * ln l))%R. split; [|apply Rinv_neq_0_compat, Rmult_integral_contrapositive_currified; lra]. apply (near_gt 0 _ (fun z => ln z / ln l)%R); [exact P|intros z Hz; unfold left_val; rewrite !flog_pos by lra; cbn; apply fdiv_nz; lra|]. eapply dl_eq; [|apply dl_div; [apply dl_ln, P|apply dl_const|lra]]. unfold Rsqr. field. lra.
  - rewrite flog_neg by lra. reflexivity.
Qed.
(** x ^ c with c < 0 (log(c)) *)
Theorem C38_pow_right_refuted r x : (r < 0)%R -> (0 < x)%R -> bad_ildj (fun x => fwd2 BPow x r) (right_val BPow r) (right_ildj BPow r) x.
Proof.
  intros Hr Hx. exists (Rpower x r). cbn. rewrite fpow_pos by exact Hx. split; [reflexivity|]. pose proof (Rpower_pos x r) as P. rewrite fdiv_nz by lra. cbn. split; [rewrite fpow_pos by exact P; f_equal; rewrite Rpower_mult; replace (r * (1 / r))%R with 1%R by (field; lra); apply Rpower_1; exact Hx|]. split.
  - exists (1 / r * Rpower (Rpower x r) (1 / r - 1))%R. split; [apply (near_gt 0 _ (fun z => Rpower z (1 / r))); [exact P|intros z Hz; unfold right_val; rewrite fdiv_nz by lra; cbn; apply fpow_pos; exact Hz|apply dl_pow; exact P]|]. apply Rmult_integral_contrapositive_currified; [unfold Rdiv; rewrite Rmult_1_l; apply Rinv_neq_0_compat; lra|apply Rpower_nz].
  - rewrite flog_pos by exact P. cbn. rewrite flog_neg by lra. reflexivity.
Qed.
(** x ^ 3 with x < 0: the cube is injective, but its inverse is computed as pow(z, 1/3), NaN for z < 0 *)
Theorem C38_odd_power_refuted x : (x < 0)%R -> exists y g, fwd (UIntPow 3) x = Some y /\ inv (UIntPow 3) = Some g /\ g y = None.
Proof.
  intros Hx. exists (powerRZ x 3). eexists. split; [unfold fwd, fipow; destruct (Req_EM_T x 0); [lra|reflexivity]|]. split; [reflexivity|]. assert (E : powerRZ x 3 = (x * (x * x))%R) by (unfold powerRZ; change (Pos.to_nat 3) with 3; cbn; lra). rewrite E. assert (S1 : (0 < x * x)%R) by nra. unfold fpow. destruct (Rlt_dec 0 (x * (x * x))); [exfalso; nra|]. destruct (Req_EM_T (x * (x * x)) 0) as [e|_]; [exfalso; nra|].
  destruct (Req_EM_T (1 / 3) (IZR (Int_part (1 / 3)))) as [e|_]; [|reflexivity]. exfalso. assert (Q : IZR (3 * Int_part (1 / 3)) = IZR 1) by (rewrite mult_IZR, <- e; lra). apply eq_IZR in Q. lia.
Qed.
Print Assumptions C39_change_of_variables.
Print Assumptions C38_unary.
