(** C73: networks with BatchNorm mapped over a batch. *)
From Verif Require Export NnVmapEval.

Section nn.
Context {PR : Prng}.

(** the key is not mapped over the examples *)
Definition calm (r : vrng) : Prop := match r with PerExample _ => False | _ => True end.
Definition led (n : nat) (args : list arr) : Prop := Forall (fun a => exists s, sh a = n :: s) args.
(** the specs of one example *)
Definition row_shapes (args : list arr) : list spec := map (fun a => zshape (tl (sh a))) args.
Lemma row_shapes_at args i : shapes (map (fun a => row a i) args) = row_shapes args.
Proof. unfold shapes, row_shapes. rewrite map_map. reflexivity. Qed.

Lemma class_cases c ss p : standard c ss -> inst c ss p -> (exists ax m e ce sc bi gi, c = BatchNorm ax m e ce sc bi gi) \/
  ((forall b, l_info p <> IBatchNorm b) /\ forall ax m e ce sc bi gi, c <> BatchNorm ax m e ce sc bi gi).
Proof.
  intros Hs (k & p0 & H & _ & _ & Hi). destruct Hs; [right|right|right|right|right|right|right|right|left; eauto 10]; rewrite <- Hi; (split; [|intros ax m e ce sc bi' gi E; apply (f_equal c_sig) in E; discriminate]); intros bb.
  - cbn in H. unfold dense_init in H. apply spec1_ok in H as (s & _ & H). destruct s; [discriminate|]. apply nb_inl in H as (? & _ & H). apply nb_inl in H as (? & _ & H). injection H as <-. discriminate.
  - cbn in H. apply spec1_ok in H as (s & _ & H). injection H as <-. discriminate.
  - cbn in H. apply spec1_ok in H as (s & _ & H). injection H as <-. discriminate.
  - cbn in H. apply spec1_ok in H as (s & _ & H). injection H as <-. discriminate.
  - cbn in H. apply spec1_ok in H as (s & _ & H). injection H as <-. discriminate.
  - cbn in H. unfold pool_init in H. apply spec1_ok in H as (s & _ & H). injection H as <-. discriminate.
  - cbn in H. unfold conv_init in H. apply spec1_ok in H as (s & _ & H). apply nb_inl in H as (? & _ & H). apply nb_inl in H as (? & _ & H). destruct b; [apply nb_inl in H as (? & _ & H)|]; injection H as <-; discriminate.
  - cbn [c_init Deconv ConvLayer] in H. unfold conv_init in H. apply spec1_ok in H as (s & _ & H). apply nb_inl in H as (? & _ & H). apply nb_inl in H as (? & _ & H). destruct b; [apply nb_inl in H as (? & _ & H)|]; injection H as <-; discriminate.
Qed.

(** ** BatchNorm on a batch *)
Section bn.
Variables (ax : list nat) (m e : R) (ce sc : bool) (bi gi : initialiser) (s : list nat).
Let c := BatchNorm ax m e ce sc bi gi.
Let info := mk_bn ax e ce sc (1 - m) s.
Lemma bn_parts p : inst c [zshape s] p -> exists mm mv, has_state ax s p mm mv /\ l_info p = IBatchNorm info /\ has_params ax ce sc s p.
Proof.
  intros H. pose proof (bn_has_params _ _ _ _ _ _ _ _ _ H) as Hp. apply bn_inst in H as (beta & gamma & mm & mv & _ & Hs & Hi & Hmm & Hmv & _). exists mm, mv. split; [split; auto|]. auto.
Qed.
Lemma bn_batch_call p n x training out : inst c [zshape s] p -> sh x = n :: s -> bn_call_batched p training x = inl out -> sh out = n :: s.
Proof.
  intros Hi Hx H. destruct (bn_parts p Hi) as (mm & mv & Hst & Hinfo & Hpp). assert (M : exists mean var, (if training then mean_var (0 :: map S ax) x else inl (mm, mv)) = inl (mean, var)).
  { pose proof H as H'. unfold bn_call_batched in H'. destruct Hst as (Hst & _). rewrite Hst, Hinfo in H'. destruct (l_params p) as [|? [|? [|? [|]]]]; try discriminate. cbn [info bn_axis] in H'.
    apply nb_inl in H' as (? & _ & H'). apply nb_inl in H' as (? & _ & H'). apply nb_inl in H' as ([mean var] & H' & _). eauto. }
  destruct M as (mean & var & M). assert (B : below (sh mean) (n :: s) /\ below (sh var) (n :: s)).
  { destruct training.
    - apply mean_var_shape in M as [E1 E2]. rewrite E1, E2, Hx, keep_batched. split; apply full_below.
    - injection M as <- <-. destruct Hst as (_ & -> & ->). split; apply (below_tail [n]), keep_below. }
  destruct B as [B1 B2]. destruct (call_val ax m e ce sc s p training mm mv x n mean var Hst Hinfo Hpp Hx M B1 B2) as (out' & E & S & _). rewrite E in H. injection H as <-. congruence.
Qed.
Lemma bn_batch_form p n x p' : inst c [zshape s] p -> sh x = n :: s -> bn_update_batched p x = inl p' -> inst c [zshape s] p'.
Proof.
  intros Hi Hx H. destruct (bn_parts p Hi) as (mm & mv & _ & Hinfo & _). unfold bn_update_batched in H. rewrite Hinfo in H. cbn [info bn_shape bn_axis] in H. rewrite Hx in H. cbn [List.length] in H. replace (S (List.length s) - List.length s) with 1 in H by lia.
  cbn [seq app] in H. replace (map (fun a => a + 1) ax) with (map S ax) in H by (apply map_ext; intros; lia). pose proof Hi as (k & p0 & Hk & Hf). exists k, p0. split; [exact Hk|]. eapply same_form_trans; [exact Hf|].
  eapply bn_update_form; [exact Hi| |exact H]. left. rewrite Hx. apply keep_batched.
Qed.
(** one example of a batch that is evaluated, and the example alone *)
Lemma bn_row p n x out i y kw o : inst c [zshape s] p -> sh x = n :: s -> bn_call_batched p false x = inl out -> i < n -> aeq (row x i) y -> training_of kw = false -> bn_call p [y] kw = inl o -> veq (One (row out i)) o.
Proof.
  intros Hi Hx H Hn [Sy Vy] Ht Ho. destruct (bn_parts p Hi) as (mm & mv & Hst & Hinfo & Hpp). cbn [row sh] in Sy, Vy. rewrite Hx in Sy, Vy. cbn [tl] in Sy, Vy.
  assert (B : forall b, below (sh mm) (b :: s) /\ below (sh mv) (b :: s)). { intros b. destruct Hst as (_ & -> & ->). split; apply (below_tail [b]), keep_below. }
  destruct (call_val ax m e ce sc s p false mm mv x n mm mv Hst Hinfo Hpp Hx eq_refl (proj1 (B n)) (proj2 (B n))) as (out' & E & So & Vo). rewrite E in H. injection H as ->.
  unfold bn_call, on1 in Ho. rewrite Hinfo in Ho. cbn [info bn_shape] in Ho. rewrite <- Sy, Nat.eqb_refl, Ht in Ho. cbn [negb] in Ho. apply nb_inl in Ho as (r & Hr & Ho). apply nb_inl in Ho as (z & Hz & Ho). injection Ho as <-.
  assert (Hy : sh (newaxis y) = 1 :: s) by (cbn; congruence).
  destruct (call_val ax m e ce sc s p false mm mv (newaxis y) 1 mm mv Hst Hinfo Hpp Hy eq_refl (proj1 (B 1)) (proj2 (B 1))) as (r' & Er & Sr & Vr). rewrite Er in Hr. injection Hr as ->.
  unfold index0 in Hz. rewrite Sr, Hy in Hz. injection Hz as <-. split; [cbn; rewrite So, Hx; reflexivity|]. cbn [row sh el]. rewrite So, Hx. cbn [tl]. intros ix Hix. rewrite Vo, Vr by (auto; lia).
  destruct Hst as (_ & Sm & Sv). rewrite Sm, Sv, !bix_keep by exact Hix. cbn [newaxis el tl]. rewrite <- Vy by exact Hix. reflexivity.
Qed.
(** success *)
Lemma bn_batch_total p n x kw : inst c [zshape s] p -> sh x = n :: s -> 0 < n -> NoDup ax -> Forall (fun a => a < List.length s) ax -> Forall (lt 0) s -> exists r, bn_cau_batched p x kw = inl r.
Proof.
  intros Hi Hx Hn H1 H2 H3. destruct (bn_parts p Hi) as (mm & mv & Hst & Hinfo & Hpp). pose proof (axes_ok_intro ax s H1 H2) as Ha.
  destruct (batch_update ax m e ce sc s p mm mv x n Ha H3 Hst Hinfo Hn Hx) as (p' & ? & ? & Hu & _). unfold bn_cau_batched. rewrite Hu.
  assert (M : exists mean var, (if training_of (filter_kwargs with_training kw) then mean_var (0 :: map S ax) x else inl (mm, mv)) = inl (mean, var) /\ below (sh mean) (n :: s) /\ below (sh var) (n :: s)).
  { destruct (training_of _).
    - destruct (mean_var_val (0 :: map S ax) x) as (mean & var & E & S1 & S2 & _); [rewrite Hx; now apply axes_batched|rewrite Hx; now constructor|]. exists mean, var. split; [exact E|]. rewrite S1, S2, Hx, keep_batched. split; apply full_below.
    - exists mm, mv. split; [reflexivity|]. destruct Hst as (_ & -> & ->). split; apply (below_tail [n]), keep_below. }
  destruct M as (mean & var & M & B1 & B2). destruct (call_val ax m e ce sc s p _ mm mv x n mean var Hst Hinfo Hpp Hx M B1 B2) as (out & -> & _). cbn [nb]. eauto.
Qed.
End bn.

(** ** shapes of mapped calls *)
Lemma led_example v i j : shape_of (example i v) = shape_of (example j v).
Proof. destruct v as [a|l]; cbn; [reflexivity|]. rewrite !map_map. reflexivity. Qed.
Lemma example_shapes v i : shapes (as_args (example i v)) = row_shapes (as_args v).
Proof. rewrite example_args. apply row_shapes_at. Qed.
Lemma stack_led vs v : stack_vals vs = inl v -> led (List.length vs) (as_args v).
Proof.
  unfold stack_vals. destruct vs as [|v0 vs']; [discriminate|]. remember (v0 :: vs') as vs. destruct (forallb (same_val v0) vs); [|discriminate]. intros [= <-]. clear. unfold led. destruct v0 as [a|l]; cbn [as_args].
  - constructor; [|constructor]. cbn [stack sh]. rewrite map_length. eauto.
  - apply Forall_forall. intros x Hx. apply in_map_iff in Hx as (j & <- & _). cbn [stack sh]. rewrite map_length. eauto.
Qed.
Lemma repeat_nth {X} (x d : X) n i : i < n -> nth i (repeat x n) d = x.
Proof. revert i. induction n as [|n IH]; intros [|i] H; try lia; [reflexivity|]. cbn. apply IH. lia. Qed.
Lemma vleaf_bn n c p nm args rng kw r b : l_info p = IBatchNorm b -> calm rng -> vleaf n c p nm args rng kw = inl r -> exists x out p', args = [x] /\ bn_call_batched p (training_of kw) x = inl out /\ bn_update_batched p x = inl p' /\ r = (One out, repeat (Leaf c p' nm) n).
Proof.
  intros Hi Hc H. unfold vleaf in H. rewrite Hi in H. unfold on1 in H. destruct args as [|x [|]]; try discriminate. apply nb_inl in H as ([out p'] & H1 & H). unfold bn_cau_batched in H1. rewrite training_filter in H1. apply nb_inl in H1 as (o & H1 & H2). apply nb_inl in H2 as (q & H2 & E). injection E as -> ->.
  exists x, out, p'. destruct rng; [|  |contradiction]; injection H as <-; auto.
Qed.
Lemma vc_shape n t : forall l args rng kw out news, 0 < n -> instance t (row_shapes args) l -> admissible t (row_shapes args) -> calm rng -> led n args -> vc n l args rng kw = inl (out, news) ->
  led n (as_args out) /\ List.length news = n /\ Forall (instance t (row_shapes args)) news /\ forall i, tspec t (row_shapes args) = inl (shape_of (example i out)).
Proof.
  induction t as [c|ts IH] using template_ind'; intros l args rng kw out news Hn Hi Ha Hr Hl H.
  - inversion Hi as [? ? p nm Hinst E1 E2 E3|]; subst. rewrite vc_eq, through_inhabited in H by constructor. cbn [nb] in H. cbn [admissible] in Ha. destruct (class_cases c _ p Ha Hinst) as [(ax & m & e & ce & sc & bi & gi & ->)|[Hinfo Hnb]].
    + pose proof Hinst as (k0 & p0 & Hk0 & _). cbn [c_init BatchNorm] in Hk0. unfold bn_init in Hk0. apply spec1_ok in Hk0 as (sp & Esp & _). destruct args as [|x [|]]; try discriminate. inversion Hl as [|? ? (s & Hx) _]; subst. cbn [row_shapes map] in *. rewrite Hx in *. cbn [tl] in *.
      destruct (bn_parts _ _ _ _ _ _ _ _ p Hinst) as (mm & mv & _ & Hinfo & _). apply (vleaf_bn _ _ _ _ _ _ _ _ _ Hinfo Hr) in H as (x' & o & p' & Ex & H1 & H2 & E). injection Ex as <-. injection E as -> ->.
      pose proof (bn_batch_call _ _ _ _ _ _ _ _ p n x _ o Hinst Hx H1) as So. split; [constructor; [eauto|constructor]|]. split; [apply repeat_length|]. split.
      * apply Forall_forall. intros l' Hl'. apply repeat_spec in Hl' as ->. constructor. exact (bn_batch_form _ _ _ _ _ _ _ _ p n x p' Hinst Hx H2).
      * intros i. cbn. rewrite So. reflexivity.
    + assert (Hp : plain (Leaf c p nm)) by (now constructor). assert (Hvc : vc n (Leaf c p nm) args rng kw = inl (out, news)) by (rewrite vc_eq, through_inhabited by constructor; exact H). destruct (vc_examples _ _ _ _ _ _ _ Hp Hvc) as [Hlen Hex].
      assert (G : forall i, i < n -> exists new, nth_error news i = Some new /\ instance (TLeaf c) (row_shapes args) new /\ tspec (TLeaf c) (row_shapes args) = inl (shape_of (example i out))).
      { intros i Hlt. destruct (Hex i Hlt) as (new & E1 & E2). exists new. split; [exact E1|]. destruct (cau_shape (TLeaf c) (row_shapes args) _ _ _ _ _ _ Hi Ha (row_shapes_at args i) E2) as [[T|(? & ? & _)] I]; [auto|discriminate]. }
      split; [|split; [exact Hlen|split]].
      * rewrite (vleaf_plain _ _ _ _ _ _ _ Hinfo) in H. apply nb_inl in H as (rs & H1 & H). apply nb_inl in H as (v & H2 & H). injection H as -> _. apply stack_led in H2. rewrite map_length in H2. destruct (nmapM_nth _ _ _ H1) as [Hl1 _]. rewrite seq_length in Hl1. rewrite Hl1 in H2. exact H2.
      * apply Forall_forall. intros new Hin. apply In_nth_error in Hin as (i & Hin). destruct (G i) as (new' & E1 & I & _); [rewrite <- Hlen; apply nth_error_Some; congruence|]. rewrite E1 in Hin. injection Hin as <-. exact I.
      * intros i. destruct (G 0 Hn) as (_ & _ & _ & T). rewrite T. f_equal. apply led_example.
  - inversion Hi as [|? ? ls nm His]; subst. rewrite vc_eq in H. apply nb_inl in H as (l1 & Ht & H). apply through_ok in Ht as [Hin _]. apply nb_inl in H as ([o css] & H & E). injection E as <- <-. cbn [fst snd]. cbn [admissible tspec] in *.
    set (ga := fix go (ts : list template) (ss : list spec) {struct ts} : Prop := _) in Ha. set (go := fix go (ts : list template) (v : specs) {struct ts} : nres specs := _).
    assert (G : forall v rng o css, calm rng -> led n (as_args v) -> instances ts (row_shapes (as_args v)) ls -> ga ts (row_shapes (as_args v)) -> vchain (vc n) kw ls v rng = inl (o, css) ->
      led n (as_args o) /\ (forall i d, i < n -> instances ts (row_shapes (as_args v)) (map (fun news => nth i news d) css)) /\ forall i, go ts (shape_of (example i v)) = inl (shape_of (example i o))).
    { clear - IH Hn. revert ls. induction IH as [|t ts Ht _ IHts]; intros ls v rng o css Hr Hl His Ha H; inversion His as [|? ? ? l1 ls1 v1 J1 J2 J3]; subst.
      - cbn in H. injection H as <- <-. split; [exact Hl|]. split; [constructor|reflexivity].
      - destruct Ha as [Ha1 Ha2]. cbn [vchain] in H. apply nb_inl in H as ([o1 n1] & H1 & H). apply nb_inl in H as ([o2 n2] & H2 & H). injection H as <- <-. cbn [fst snd] in *.
        assert (Hr' : forall f, calm (on_rng f rng)) by (intros; destruct rng; exact Hr).
        destruct (Ht _ _ _ _ _ _ Hn J1 Ha1 (Hr' _) Hl H1) as (L1 & Hlen & F1 & T1). pose proof (T1 0) as T0. rewrite J2 in T0. injection T0 as ->. rewrite shape_of_args, example_shapes in *.
        destruct (IHts ls1 o1 _ o2 n2 (Hr' (fun k => fst (split2 k))) L1 J3) as (L2 & F2 & T2); [specialize (Ha2 _ J2); rewrite shape_of_args, example_shapes in Ha2; exact Ha2|exact H2|]. split; [exact L2|]. split.
        + intros i d Hlt. cbn [map]. econstructor; [|exact J2|].
          * rewrite Forall_forall in F1. apply F1. apply nth_In. lia.
          * rewrite shape_of_args, example_shapes. apply F2, Hlt.
        + intros i. cbn [go]. fold go. rewrite shape_of_args, example_shapes, (T1 i). cbn [nb]. apply T2. }
    destruct (G (Tup args) rng o css Hr Hl His Ha H) as (L & F & T). split; [exact L|]. split; [now rewrite map_length, seq_length|]. split.
    + apply Forall_forall. intros l' Hl'. apply in_map_iff in Hl' as (i & <- & Hi'). apply in_seq in Hi'. constructor. apply F. lia.
    + intros i. rewrite <- T. cbn [example shape_of]. rewrite map_map. reflexivity.
Qed.

(** layers made from a template by initialising it for one example, calling it on examples, and calling it on batches *)
Inductive trained (t : template) (ss : list spec) : layer -> Prop :=
| Tr_init name k l : init t name (Some k) ss = inl l -> trained t ss l
| Tr_call l args rng kw out l' : trained t ss l -> shapes args = ss -> call_and_update l args rng kw = inl (out, l') -> trained t ss l'
| Tr_batch n l args rng kw out news l' : trained t ss l -> 0 < n -> row_shapes args = ss -> calm rng -> vmap_call n l args rng kw = inl (out, news) -> In l' news -> trained t ss l'.
Lemma trained_instance t ss l : admissible t ss -> trained t ss l -> instance t ss l.
Proof.
  intros Ha. induction 1 as [name k l H|l args rng kw out l' _ IH Hs H|n l args rng kw out news l' _ IH Hn Hs Hr H Hin]; [eapply init_instance, H|eapply cau_shape; eauto|].
  subst ss. apply vmap_vc in H as [Hl H]. destruct (vc_shape n t l args rng kw out news Hn IH Ha Hr Hl H) as (_ & _ & F & _). rewrite Forall_forall in F. auto.
Qed.

(** ** evaluation *)
Lemma vc_eval n t : forall l args rng kw out news, 0 < n -> instance t (row_shapes args) l -> admissible t (row_shapes args) -> local t -> calm rng -> training_of kw = false -> led n args -> vc n l args rng kw = inl (out, news) ->
  forall i ys o l', i < n -> Forall2 aeq (map (fun a => row a i) args) ys -> call_and_update l ys (rng_at rng i) kw = inl (o, l') -> veq (example i out) o.
Proof.
  induction t as [c|ts IH] using template_ind'; intros l args rng kw out news Hn Hi Ha Hloc Hr Htr Hl H i ys o l' Hlt Hys Hs.
  - inversion Hi as [? ? p nm Hinst E1 E2 E3|]; subst. rewrite vc_eq, through_inhabited in H by constructor. cbn [nb] in H. cbn [admissible] in Ha. rewrite leaf_eq in Hs. unfold leaf_step in Hs. apply nb_inl in Hs as (o1 & H1 & Hs). apply nb_inl in Hs as (p1 & _ & Hs). injection Hs as -> _.
    change (match rng_at rng i with None => kw | Some k => kw ++ [("rng", KKey k)] end) with (kw_of (rng_at rng i) kw) in H1.
    destruct (class_cases c _ p Ha Hinst) as [(ax & m & e & ce & sc & bi & gi & ->)|[Hinfo Hnb]].
    + pose proof Hinst as (k0 & p0 & Hk0 & _). cbn [c_init BatchNorm] in Hk0. unfold bn_init in Hk0. apply spec1_ok in Hk0 as (sp & Esp & _). destruct args as [|x [|]]; try discriminate. inversion Hl as [|? ? (s & Hx) _]; subst. cbn [row_shapes map] in *. rewrite Hx in *. cbn [tl] in *.
      destruct (bn_parts _ _ _ _ _ _ _ _ p Hinst) as (mm & mv & _ & Hinfo & _). apply (vleaf_bn _ _ _ _ _ _ _ _ _ Hinfo Hr) in H as (x' & ob & p' & Ex & Q1 & Q2 & E). injection Ex as <-. injection E as -> ->. rewrite Htr in Q1.
      inversion Hys as [|? y ? ? Hxy Hr']; subst. inversion Hr'; subst. cbn [example c_call c_sig BatchNorm] in *. eapply bn_row; [exact Hinst|exact Hx|exact Q1|exact Hlt|exact Hxy| |exact H1].
      rewrite training_filter. unfold training_of in *. rewrite training_kw. exact Htr.
    + assert (Hvc : vc n (Leaf c p nm) args rng kw = inl (out, news)) by (rewrite vc_eq, through_inhabited by constructor; exact H). assert (Hp : plain (Leaf c p nm)) by (now constructor).
      destruct (vc_examples _ _ _ _ _ _ _ Hp Hvc) as [_ Hex]. destruct (Hex i Hlt) as (new & _ & E2). rewrite own_key_at, leaf_eq in E2. unfold leaf_step in E2. apply nb_inl in E2 as (o2 & H2 & E2). apply nb_inl in E2 as (p2 & _ & E2). injection E2 as -> _.
      change (match rng_at rng i with None => kw | Some k => kw ++ [("rng", KKey k)] end) with (kw_of (rng_at rng i) kw) in H2.
      destruct (call_aeq c _ p _ ys _ _ Ha Hloc Hnb Hys H2) as (o' & H3 & Hv). rewrite H3 in H1. injection H1 as <-. exact Hv.
  - inversion Hi as [|? ? ls nm His]; subst. rewrite vc_eq in H. apply nb_inl in H as (l1 & Ht & H). apply nb_inl in H as ([ob css] & H & E). injection E as <- <-. cbn [fst snd]. cbn [admissible local] in *. clear Ht l1.
    set (ga := fix go (ts : list template) (ss : list spec) {struct ts} : Prop := _) in Ha. set (gl := fix go (ts : list template) : Prop := _) in Hloc. apply serial_ok in Hs as (_ & ls' & _ & Hs).
    assert (G : forall v w rng ob css o ls', calm rng -> led n (as_args v) -> instances ts (row_shapes (as_args v)) ls -> ga ts (row_shapes (as_args v)) -> gl ts -> vchain (vc n) kw ls v rng = inl (ob, css) ->
      veq (example i v) w -> chain call_and_update kw ls w (rng_at rng i) = inl (o, ls') -> veq (example i ob) o).
    { clear - IH Hn Hlt Htr. revert ls. induction IH as [|t ts Ht _ IHts]; intros ls v w rng ob css o ls' Hr Hl His Ha Hloc H Hv Hc; inversion His as [|? ? ? l1 ls1 v1 J1 J2 J3]; subst.
      - cbn in H, Hc. injection H as <- _. injection Hc as <- _. exact Hv.
      - destruct Ha as [Ha1 Ha2]. destruct Hloc as [Hloc1 Hloc2]. cbn [vchain chain] in H, Hc. apply nb_inl in H as ([o1 n1] & H1 & H). apply nb_inl in H as ([o2 n2] & H2 & H). injection H as <- <-. apply nb_inl in Hc as ([q1 m1] & C1 & Hc). apply nb_inl in Hc as ([q2 m2] & C2 & Hc). injection Hc as <- <-. cbn [fst snd] in *.
        assert (Hr' : forall f, calm (on_rng f rng)) by (intros; destruct rng; exact Hr). rewrite <- !rng_at_map in C1, C2.
        destruct (vc_shape n t l1 (as_args v) _ kw o1 n1 Hn J1 Ha1 (Hr' _) Hl H1) as (L1 & _ & _ & T1). pose proof (T1 0) as T0. rewrite J2 in T0. injection T0 as ->. rewrite shape_of_args, example_shapes in *.
        assert (Hys : Forall2 aeq (map (fun a => row a i) (as_args v)) (as_args w)). { rewrite <- example_args. clear - Hv. destruct (example i v), w; cbn in *; try contradiction; auto. }
        pose proof (Ht l1 (as_args v) _ kw o1 n1 Hn J1 Ha1 Hloc1 (Hr' _) Htr Hl H1 i (as_args w) q1 m1 Hlt Hys C1) as V1.
        eapply (IHts ls1 o1 q1 _ o2 n2 q2 m2 (Hr' (fun k => fst (split2 k))) L1 J3); [specialize (Ha2 _ J2); rewrite shape_of_args, example_shapes in Ha2; exact Ha2|exact Hloc2|exact H2|exact V1|exact C2]. }
    eapply (G (Tup args) (Tup ys)); [exact Hr|exact Hl|exact His|exact Ha|exact Hloc|exact H|exact Hys|exact Hs].
Qed.
(** evaluating a trained network on a batch: every example gets what it gets alone *)
Theorem C73_evaluation n t ss l args rng kw out news i o l' : 0 < n -> trained t ss l -> admissible t ss -> local t -> calm rng -> kget "training" kw = Some (KBool false) -> row_shapes args = ss ->
  vmap_call n l args rng kw = inl (out, news) -> i < n -> call_and_update l (map (fun a => row a i) args) (own_key rng i) kw = inl (o, l') -> veq (example i out) o.
Proof.
  intros Hn Htr Ha Hloc Hr Hk <- H Hlt Hs. apply vmap_vc in H as [Hl H]. eapply vc_eval; [exact Hn|exact (trained_instance _ _ _ Ha Htr)|exact Ha|exact Hloc|exact Hr| |exact Hl|exact H|exact Hlt| |exact Hs].
  - unfold training_of. rewrite Hk. reflexivity.
  - clear. induction args; constructor; [apply aeq_refl|assumption].
Qed.

(** ** success: a network that fits its inputs can be called on any batch of at least one example *)
Lemma vc_ok n K t : forall l args rng kw, 0 < n -> instance t (row_shapes args) l -> fitting K t (row_shapes args) -> (K -> forall i, i < n -> has_key (rng_at rng i) kw) -> calm rng -> led n args -> exists r, vc n l args rng kw = inl r.
Proof.
  induction t as [c|ts IH] using template_ind'; intros l args rng kw Hn Hi Hf Hk Hr Hl.
  - pose proof (fitting_admissible _ _ _ Hf) as Ha. inversion Hi as [? ? p nm Hinst E1 E2 E3|]; subst. destruct (class_cases c _ p Ha Hinst) as [(ax & m & e & ce & sc & bi & gi & ->)|[Hinfo Hnb]].
    + pose proof Hinst as (k0 & p0 & Hk0 & _). pose proof Hk0 as Hk1. cbn [c_init BatchNorm] in Hk1. unfold bn_init in Hk1. apply spec1_ok in Hk1 as (sp & Esp & _). destruct args as [|x [|]]; try discriminate. inversion Hl as [|? ? (s & Hx) _]; subst. cbn [row_shapes map] in *. rewrite Hx in *. cbn [tl] in *.
      destruct (bn_parts _ _ _ _ _ _ _ _ p Hinst) as (mm & mv & _ & Hinfo & _). rewrite vc_eq, through_inhabited by constructor. cbn [nb]. unfold vleaf. rewrite Hinfo. unfold on1.
      assert (B : NoDup ax /\ Forall (fun a => a < List.length s) ax /\ Forall (lt 0) s).
      { cbn [fitting] in Hf. clear - Hf Hk0. remember (BatchNorm ax m e ce sc bi gi) as c eqn:Ec. remember [zshape s] as ss eqn:Es. destruct Hf; try (apply (f_equal c_sig) in Ec; discriminate).
        injection Es as Es. apply zshape_inj in Es as ->. pose proof Hk0 as Hk1. rewrite Ec in Hk1. destruct (init_val _ _ _ _ _ _ _ _ _ _ Hk0) as (_ & I0 & _). destruct (init_val _ _ _ _ _ _ _ _ _ _ Hk1) as (_ & I1 & _). rewrite I0 in I1. injection I1 as -> _ _ _ _. auto. }
      destruct B as (B1 & B2 & B3). destruct (bn_batch_total ax m e ce sc bi gi s p n x kw Hinst Hx Hn B1 B2 B3) as (r & ->). cbn [nb]. destruct rng; eauto.
    + apply (vc_total n (TLeaf c) (row_shapes args) (Leaf c p nm) args rng kw Hn Hi Ha); [now constructor|intros; apply row_shapes_at|]. intros i Hlt. destruct (cau_total K (TLeaf c) (row_shapes args) (Leaf c p nm) (map (fun a => row a i) args) (rng_at rng i) kw Hi Hf) as (o & l' & E); [intros k; now apply Hk|apply row_shapes_at|eauto].
  - inversion Hi as [|? ? ls nm His]; subst. cbn [fitting] in Hf. destruct Hf as [Hne Hf]. set (ga := fix go (ts : list template) (ss : list spec) {struct ts} : Prop := _) in Hf.
    assert (G : forall v rng, calm rng -> led n (as_args v) -> instances ts (row_shapes (as_args v)) ls -> ga ts (row_shapes (as_args v)) -> (K -> forall i, i < n -> has_key (rng_at rng i) kw) -> Forall inhabited ls /\ exists r, vchain (vc n) kw ls v rng = inl r).
    { clear - IH Hn. revert ls. induction IH as [|t ts Ht _ IHts]; intros ls v rng Hr Hl His Ha Hk; inversion His as [|? ? ? l1 ls1 v1 J1 J2 J3]; subst; [split; [constructor|cbn; eauto]|]. destruct Ha as [Ha1 Ha2].
      assert (Hr' : forall f, calm (on_rng f rng)) by (intros; destruct rng; exact Hr). assert (Hk' : forall f, K -> forall i, i < n -> has_key (rng_at (on_rng f rng) i) kw) by (intros f k i Hlt; rewrite rng_at_map; apply has_key_fst, Hk; assumption).
      destruct (Ht l1 (as_args v) _ kw Hn J1 Ha1 (Hk' (fun k => snd (split2 k))) (Hr' _) Hl) as ([o1 n1] & H1).
      destruct (vc_shape n t l1 (as_args v) _ kw o1 n1 Hn J1 (fitting_admissible _ _ _ Ha1) (Hr' _) Hl H1) as (L1 & _ & _ & T1). pose proof (T1 0) as T0. rewrite J2 in T0. injection T0 as ->. rewrite shape_of_args, example_shapes in *.
      destruct (IHts ls1 o1 _ (Hr' (fun k => fst (split2 k))) L1 J3) as (I1 & r2 & H2); [specialize (Ha2 _ J2); rewrite shape_of_args, example_shapes in Ha2; exact Ha2|apply Hk'|].
      split; [constructor; [exact (vc_inhabited _ _ _ _ _ _ H1)|exact I1]|]. cbn [vchain]. rewrite H1. cbn [nb fst snd]. rewrite H2. cbn [nb]. eauto. }
    destruct (G (Tup args) rng Hr Hl His Hf Hk) as (Hin & r & E). rewrite vc_eq, through_inhabited by (constructor; [intros ->; inversion His; congruence|exact Hin]). cbn [nb]. rewrite E. cbn [nb]. eauto.
Qed.
Theorem C73_batch_succeeds (keyed : Prop) n t ss l args rng kw : 0 < n -> trained t ss l -> fitting keyed t ss -> (keyed -> forall i, i < n -> has_key (own_key rng i) kw) -> calm rng ->
  Forall (fun a => exists s, sh a = n :: s) args -> row_shapes args = ss -> exists out news, vmap_call n l args rng kw = inl (out, news).
Proof.
  intros Hn Htr Hf Hk Hr Hl <-. destruct (vc_ok n keyed t l args rng kw Hn) as ([o ls] & E); auto; [apply trained_instance; [now apply (fitting_admissible keyed)|exact Htr]|]. exists o, ls. apply vmap_vc. auto.
Qed.
(** the shapes of a batch: those the spec predicts for one example, with the number of examples in front *)
Theorem C73_batch_shape n t ss l args rng kw out news : 0 < n -> trained t ss l -> admissible t ss -> calm rng -> row_shapes args = ss -> vmap_call n l args rng kw = inl (out, news) ->
  Forall (fun a => exists s, sh a = n :: s) (as_args out) /\ forall i, tspec t ss = inl (shape_of (example i out)).
Proof.
  intros Hn Htr Ha Hr <- H. apply vmap_vc in H as [Hl H]. destruct (vc_shape n t l args rng kw out news Hn (trained_instance _ _ _ Ha Htr) Ha Hr Hl H) as (L & _ & _ & T). auto.
Qed.

(** ** BatchNorm with a key for every example *)
(** without a mapped key: the layer is called once, on the whole batch (C62 describes this call) *)
Theorem C73_batchnorm n ax m e ce sc bi gi s p name x rng kw : let c := BatchNorm ax m e ce sc bi gi in inst c [zshape s] p -> sh x = n :: s -> calm rng ->
  vmap_call n (Leaf c p name) [x] rng kw = nb (bn_cau_batched p x kw) (fun r => inl (One (fst r), repeat (Leaf c (snd r) name) n)).
Proof.
  intros c Hi Hx Hr. destruct (bn_parts _ _ _ _ _ _ _ _ p Hi) as (mm & mv & _ & Hinfo & _). unfold vmap_call. cbn [forallb]. rewrite Hx, Nat.eqb_refl. cbn [andb]. change (vcau (depth (Leaf c p name)) n (Leaf c p name) [x] rng kw) with (vc n (Leaf c p name) [x] rng kw).
  rewrite vc_eq, through_inhabited by constructor. cbn [nb]. unfold vleaf. rewrite Hinfo. cbn [on1]. destruct rng; [reflexivity|reflexivity|contradiction].
Qed.
(** with a mapped key every example is given the outputs of the whole batch: an array with one dimension too many *)
Theorem C73_mapped_key_refuted n ax m e ce sc bi gi s p name x ks kw : let c := BatchNorm ax m e ce sc bi gi in inst c [zshape s] p -> sh x = n :: s -> 0 < n -> NoDup ax -> Forall (fun a => a < List.length s) ax -> Forall (lt 0) s ->
  exists y news b news', vmap_call n (Leaf c p name) [x] (PerExample ks) kw = inl (One y, news) /\ vmap_call n (Leaf c p name) [x] NoRng kw = inl (One b, news') /\
    sh y = n :: n :: s /\ (forall i, row y i = b) /\ c_spec c [zshape s] = inl (SOne (zshape s)) /\ forall i, shape_of (example i (One y)) = SOne (zshape (n :: s)).
Proof.
  intros c Hi Hx Hn H1 H2 H3. destruct (bn_batch_total ax m e ce sc bi gi s p n x kw Hi Hx Hn H1 H2 H3) as ([b p'] & E). pose proof E as E'. unfold bn_cau_batched in E'. apply nb_inl in E' as (b' & Eb & E'). apply nb_inl in E' as (p'' & _ & E'). injection E' as -> ->.
  pose proof (bn_batch_call _ _ _ _ _ _ _ _ p n x _ b Hi Hx Eb) as Sb.
  exists (lift n b), (repeat (Leaf c (lift_params n p') name) n), b, (repeat (Leaf c p' name) n). split; [|split; [|split; [|split; [|split; [reflexivity|]]]]].
  - destruct (bn_parts _ _ _ _ _ _ _ _ p Hi) as (mm & mv & _ & Hinfo & _). unfold vmap_call. cbn [forallb]. rewrite Hx, Nat.eqb_refl. cbn [andb]. change (vcau (depth (Leaf c p name)) n (Leaf c p name) [x] (PerExample ks) kw) with (vc n (Leaf c p name) [x] (PerExample ks) kw).
    rewrite vc_eq, through_inhabited by constructor. cbn [nb]. unfold vleaf. rewrite Hinfo. cbn [on1]. rewrite E. reflexivity.
  - unfold c. rewrite C73_batchnorm with (s := s); [rewrite E; reflexivity|exact Hi|exact Hx|exact I].
  - cbn. rewrite Sb. reflexivity.
  - intros i. unfold row, lift. cbn [sh el tl]. destruct b. reflexivity.
  - intros i. cbn. rewrite Sb. reflexivity.
Qed.
(** in training mode the examples of a batch are not independent: alone, an example is returned unchanged *)
Theorem C73_training_refuted (k : key) bi gi name : let c := BatchNorm [0] (9 / 10) 1 false false bi gi in exists p (x : arr) out news l', c_init c k [zshape [1]] = inl p /\ sh x = [2; 1] /\
  vmap_call 2 (Leaf c p name) [x] NoRng [] = inl (One out, news) /\ call_and_update (Leaf c p name) [row x 0] None [] = inl (One (row x 0), l') /\ ~ veq (example 0 (One out)) (One (row x 0)).
Proof.
  intros c. set (x := mk_arr [2; 1] (fun ix => if (hd 0 ix =? 0)%nat then 0%R else 2%R)). assert (Hp : exists p, c_init c k [zshape [1]] = inl p).
  { cbn [c c_init BatchNorm]. unfold bn_init, spec1. cbn. pose proof (splitn_length k 4) as Hl. destruct (splitn k 4) as [|k1 [|k2 [|k3 [|k4 [|]]]]]; try discriminate. eauto. }
  destruct Hp as (p & Hp). assert (Hi : inst c [zshape [1]] p) by (exists k, p; split; [exact Hp|apply same_form_refl]).
  assert (F1 : NoDup [0]) by (repeat constructor; intros []). assert (F2 : Forall (fun a => a < List.length [1]) [0]) by (repeat constructor). assert (F3 : Forall (lt 0) [1]) by (repeat constructor).
  destruct (C62_training [0] (9 / 10) 1 false false bi gi [1] k name p [] p x 2 [] F1 F2 F3 Hp (H_start c name p)) as (out & p' & E & So & _ & V); [constructor|lia|reflexivity|reflexivity|].
  destruct (bn_parts _ _ _ _ _ _ _ _ p Hi) as (mm & mv & Hst & Hinfo & Hpp). pose proof (axes_ok_intro [0] [1] F1 F2) as Ha.
  destruct (single_update [0] (9 / 10) 1 false false [1] p mm mv (row x 0) Ha F3 (or_introl eq_refl) Hst Hinfo eq_refl) as (q & ? & ? & Hu & _).
  exists p, x, out, (repeat (Leaf c p' name) 2), (Leaf c q name). split; [exact Hp|]. split; [reflexivity|]. split; [unfold c; rewrite C73_batchnorm with (s := [1]); [rewrite E; reflexivity|exact Hi|reflexivity|exact I]|]. split.
  - rewrite leaf_eq. unfold leaf_step. cbn [c c_call c_update BatchNorm c_sig c_usig]. rewrite bn_update_kw, Hu. unfold bn_call, on1. rewrite Hinfo. reflexivity.
  - intros [_ Vv]. cbn [row sh el] in Vv. rewrite So in Vv. assert (B : in_bounds [1] [0]) by (repeat constructor). specialize (Vv [0] B). rewrite (V 0 [0]) in Vv by (auto; lia). destruct (bn_has_params _ _ _ _ _ _ _ _ _ Hi) as (nn & beta & gamma & Hpar & Hb & Hg). cbn in Hb, Hg. subst beta gamma.
    unfold gain, shift in Vv. rewrite Hpar in Vv. unfold normalised, average, variance, batch_members in Vv. cbn in Vv. unfold average in Vv. cbn in Vv. clear - Vv.
    replace ((0 + (2 + 0)) / (1 + 1))%R with 1%R in Vv by lra. replace (((0 - 1) * ((0 - 1) * 1) + ((2 - 1) * ((2 - 1) * 1) + 0)) / (1 + 1) + 1)%R with 2%R in Vv by lra.
    assert (H2 : (0 < sqrt 2)%R) by (apply sqrt_lt_R0; lra). assert (Q : (1 / sqrt 2 <> 0)%R) by (apply Rgt_not_eq, Rdiv_lt_0_compat; lra). unfold Rdiv in *. lra.
Qed.
End nn.

(** ** Example: a convolutional network with a BatchNorm layer, on a batch of any size *)
#[local] Existing Instance Histories.
Lemma ex_local : local convnet.
Proof.
  assert (E : forall f g : arr -> list nat -> R, Activation f = Activation g -> (local_act f -> local_act g)).
  { intros f g E Hf x y Hxy ix Hix. assert (K : forall z, f z = g z). { intros z. apply (f_equal (fun c => c_call c (mk_lp (tuple []) (tuple []) INone) [z] [])) in E. cbn in E. injection E as E. exact E. } rewrite <- !K. now apply Hf. }
  assert (N : forall c f, c = Activation f -> c_bare_spec c [[2; 2]%Z] = inl (SOne [2; 2]%Z)) by (intros c f ->; reflexivity).
  assert (B : forall c f, c = Activation f -> c_sig c = no_kw) by (intros c f ->; reflexivity).
  cbn [local convnet].
  split; [intros f Hf; apply N in Hf; discriminate Hf|].
  split; [intros f Hf; refine (E _ _ Hf _); apply (pointwise_local (fun z => Rmax z 0))|].
  split; [split; [intros f Hf; apply N in Hf; discriminate Hf|split; [intros f Hf; apply B in Hf; discriminate Hf|exact I]]|].
  split; [intros f Hf; apply N in Hf; discriminate Hf|].
  split; [intros f Hf; apply N in Hf; discriminate Hf|].
  split; [intros f Hf; apply N in Hf; discriminate Hf|].
  split; [intros f Hf; refine (E _ _ Hf _); apply softmax_local|exact I].
Qed.
(** evaluated on a batch of any size, every example is given what it is given alone *)
Lemma ex_batch n (x : arr) : 0 < n -> sh x = [n; 8; 8; 3] -> exists l out news, init convnet None (Some []) [zshape [8; 8; 3]] = inl l /\
  vmap_call n l [x] NoRng [("training", KBool false)] = inl (out, news) /\ (forall i, shape_of (example i out) = SOne [10%Z]) /\
  forall i, i < n -> exists o l', call_and_update l [row x i] None [("training", KBool false)] = inl (o, l') /\ veq (example i out) o.
Proof.
  intros Hn Hx. pose proof ex_fitting as Hf. assert (Sx : forall i, shapes [row x i] = [zshape [8; 8; 3]]) by (intros i; unfold shapes; cbn [map row sh]; rewrite Hx; reflexivity).
  assert (Rx : row_shapes [x] = [zshape [8; 8; 3]]) by (unfold row_shapes; cbn [map]; rewrite Hx; reflexivity).
  destruct (C61_init_succeeds False convnet [row x 0] None []) as (l & Hl); [rewrite Sx; exact Hf|]. rewrite Sx in Hl.
  assert (Ht : trained convnet [zshape [8; 8; 3]] l) by (eapply Tr_init; exact Hl).
  destruct (C73_batch_succeeds False n convnet _ l [x] NoRng [("training", KBool false)] Hn Ht Hf) as (out & news & H); [intros []|exact I|repeat constructor; eauto|exact Rx|].
  exists l, out, news. split; [exact Hl|]. split; [exact H|]. pose proof (fitting_admissible _ _ _ Hf) as Ha. split.
  - intros i. destruct (C73_batch_shape n convnet _ l [x] NoRng _ out news Hn Ht Ha I Rx H) as [_ T]. specialize (T i). vm_compute in T. injection T as T. symmetry. exact T.
  - intros i Hi. destruct (C61_call_succeeds False convnet l [row x i] None [("training", KBool false)]) as (o & l' & E & _); [rewrite Sx; eapply R_init; exact Hl|rewrite Sx; exact Hf|intros []|].
    exists o, l'. split; [exact E|]. exact (C73_evaluation n convnet _ l [x] NoRng [("training", KBool false)] out news i o l' Hn Ht Ha ex_local I eq_refl Rx H Hi E).
Qed.
Print Assumptions C73_examples.
Print Assumptions C73_succeeds.
Print Assumptions C73_evaluation.
Print Assumptions C73_batch_succeeds.
Print Assumptions C73_batch_shape.
Print Assumptions C73_mapped_key_refuted.
Print Assumptions C73_training_refuted.
