(** canonicalize: every rule keeps the value of the expression it rewrites. *)
From Verif Require Import MatcherSpec MatcherProofs3 MatcherProps RulesProofs JaxProofs CanonicalizeModel CanonProofs EinsumProofs EinsumProofs2 EinsumProps CanonicalizeProofs.

(** ** What a successful match says *)
Lemma match_fits p e b : tame p -> scoped false [] p -> match_ p e = inl b -> fits (dget b) p e.
Proof.
  intros Ht Hs H. apply C02_match_sound_partial; [assumption..|]. unfold match_, match_all in *. destruct (is_star p); [discriminate|].
  destruct (pmatch p e [] gret) as [[|y l] [er|]]; try discriminate; injection H as <-; left; reflexivity.
Qed.
Lemma same_str v s : same v (VStr s) -> v = VStr s.
Proof. intros H. apply py_eq_canon in H. destruct v; simpl in H; try discriminate. congruence. Qed.
Lemma same_tuple v l : same v (VSeq KTuple l) -> exists l', v = VSeq KTuple l' /\ map canon l' = map canon l.
Proof. intros H. apply py_eq_canon in H. destruct v as [| |k m| |]; simpl in H; try discriminate. injection H as -> H. eauto. Qed.
Lemma inv_prim s p pp xs e : is_star pp = false -> fits s (PPrim p pp xs) e ->
  exists ps ops, e = VNode "Primitive" [str_of p; ps] ops /\ fits s pp ps /\ fits s (CanonicalizeModel.ptup xs) (VSeq KTuple ops).
Proof.
  intros Hp (h & ks & -> & (sk & es & E & Hf) & H). cbn [as_seq] in E. injection E as <- <-. cbn in Hf.
  destruct Hf as (e1 & es' & -> & -> & Hf). destruct pp; try discriminate Hp;
    destruct Hf as (e2 & es2 & -> & Hf & ->); exists e2, ks; (split; [reflexivity|]); split; assumption.
Qed.
Lemma inv_V1 s x l : fits s (CanonicalizeModel.ptup [CanonicalizeModel.V x]) (VSeq KTuple l) -> exists v w, l = [v] /\ s x = Some w /\ same w v.
Proof.
  intros (sk & es & E & H). cbn [as_seq] in E. injection E as <- <-. cbn in H. destruct H as (v & es' & -> & [_ (w & H1 & H2)] & ->). eauto.
Qed.
Lemma inv_V2 s x y l : fits s (CanonicalizeModel.ptup [CanonicalizeModel.V x; CanonicalizeModel.V y]) (VSeq KTuple l) ->
  exists v w v' w', l = [v; v'] /\ s x = Some w /\ same w v /\ s y = Some w' /\ same w' v'.
Proof.
  intros (sk & es & E & H). cbn [as_seq] in E. injection E as <- <-. cbn in H.
  destruct H as (v & es' & -> & [_ (w & H1 & H2)] & (v' & es2 & -> & [_ (w' & H3 & H4)] & ->)). do 4 eexists. eauto.
Qed.
Lemma same_node c h k h' k' : map canon h = map canon h' -> map canon k = map canon k' -> same (VNode c h k) (VNode c h' k').
Proof. intros H1 H2. apply py_eq_canon. simpl. congruence. Qed.
Lemma canon_same v w : same v w -> canon v = canon w.
Proof. apply py_eq_canon. Qed.

(** reconstructing the matched expression from the bindings *)
Lemma prim1_bound s p e : fits s (PPrim p (CanonicalizeModel.V "params") [CanonicalizeModel.V "x"]) e ->
  exists ps x, s "params" = Some ps /\ s "x" = Some x /\ same e (Primitive p ps [x]).
Proof.
  intros H. apply inv_prim in H as (ps & ops & -> & [_ (ps' & H1 & H2)] & H); [|reflexivity]. apply inv_V1 in H as (v & w & -> & H3 & H4).
  exists ps', w. repeat split; try assumption. apply same_node; cbn [map]; rewrite ?(canon_same _ _ H2), ?(canon_same _ _ H4); reflexivity.
Qed.
Lemma prim2_bound s p e : fits s (PPrim p (CanonicalizeModel.V "params") [CanonicalizeModel.V "x"; CanonicalizeModel.V "y"]) e ->
  exists ps x y, s "params" = Some ps /\ s "x" = Some x /\ s "y" = Some y /\ same e (Primitive p ps [x; y]).
Proof.
  intros H. apply inv_prim in H as (ps & ops & -> & [_ (ps' & H1 & H2)] & H); [|reflexivity]. apply inv_V2 in H as (v & w & v' & w' & -> & H3 & H4 & H5 & H6).
  exists ps', w, w'. repeat split; try assumption. apply same_node; cbn [map]; rewrite ?(canon_same _ _ H2), ?(canon_same _ _ H4), ?(canon_same _ _ H6); reflexivity.
Qed.
Lemma add_bound s e : fits s add_pattern e ->
  exists ps x y, s "x" = Some x /\ s "y" = Some y /\ same e (Primitive "add" ps [x; y]).
Proof.
  intros H. apply inv_prim in H as (ps & ops & -> & _ & H); [|reflexivity]. apply inv_V2 in H as (v & w & v' & w' & -> & H3 & H4 & H5 & H6).
  exists ps, w, w'. repeat split; try assumption. apply same_node; cbn [map]; rewrite ?(canon_same _ _ H4), ?(canon_same _ _ H6); reflexivity.
Qed.
Lemma inv_einsum s e fx kp : fits s (PEinsum (CanonicalizeModel.V fx) kp) e ->
  exists f f' ks, e = VNode "Einsum" [f] ks /\ s fx = Some f' /\ same f' f /\ fits s kp (VSeq KTuple ks).
Proof.
  intros (h & ks & -> & (sk & es & E & Hf) & H). cbn [as_seq] in E. injection E as <- <-. cbn in Hf.
  destruct Hf as (e1 & es' & -> & [_ (w & H1 & H2)] & ->). eauto 10.
Qed.
Lemma inv_addn s e kp : fits s (PAddN kp) e -> exists ks, e = AddN ks /\ fits s kp (VSeq KTuple ks).
Proof.
  intros (h & ks & -> & (sk & es & E & Hf) & H). cbn [as_seq] in E. injection E as <- <-. cbn in Hf. subst. eauto.
Qed.
Lemma inv_seg s x y q l : is_star q = false ->
  fits s (CanonicalizeModel.ptup [Segment (Some x); q; Segment (Some y)]) (VSeq KTuple l) ->
  exists l1 v l2 w1 w2, l = l1 ++ v :: l2 /\ fits s q v /\ s x = Some (VSeq KTuple w1) /\ s y = Some (VSeq KTuple w2) /\
    map canon w1 = map canon l1 /\ map canon w2 = map canon l2.
Proof.
  intros Hq (sk & es & E & H). cbn [as_seq] in E. injection E as <- <-.
  assert (H' : exists seg rest, l = seg ++ rest /\ named s (Some x) (VSeq KTuple seg) /\ exists v l2 seg2, rest = v :: l2 /\ fits s q v /\ l2 = seg2 ++ [] /\ named s (Some y) (VSeq KTuple seg2)).
  { destruct H as (seg & rest & ss & H1 & _ & H2 & _ & _ & H3). exists seg, rest. split; [exact H1|]. split; [exact H2|].
    destruct q; try discriminate Hq; destruct H3 as (v & l2 & -> & H4 & (seg2 & rest2 & ss2 & H5 & _ & H6 & _ & _ & ->)); exists v, l2, seg2; auto. }
  destruct H' as (seg & rest & -> & (w1 & H1 & H2) & v & l2 & seg2 & -> & H3 & -> & (w2 & H4 & H5)).
  apply same_tuple in H2 as (w1' & -> & H2). apply same_tuple in H5 as (w2' & -> & H5). rewrite app_nil_r.
  do 5 eexists. eauto 10.
Qed.
Lemma inv_seg1 s x l : fits s (CanonicalizeModel.ptup [Segment (Some x)]) (VSeq KTuple l) ->
  exists w, s x = Some (VSeq KTuple w) /\ map canon w = map canon l.
Proof.
  intros (sk & es & E & (seg & rest & ss & H1 & _ & (w & H2 & H3) & _ & _ & ->)). cbn [as_seq] in E. injection E as <- <-.
  rewrite app_nil_r in H1. subst seg. apply same_tuple in H3 as (w' & -> & H3). eauto.
Qed.
Lemma compose_bound s e : fits s compose_pattern e ->
  exists p l c a r, s "parent_formula" = Some p /\ s "left_args" = Some (VSeq KTuple l) /\ s "child_formula" = Some c /\
    s "child_args" = Some (VSeq KTuple a) /\ s "right_args" = Some (VSeq KTuple r) /\
    same e (VNode "Einsum" [p] (l ++ VNode "Einsum" [c] a :: r)).
Proof.
  intros H. apply inv_einsum in H as (f & f' & ks & -> & H1 & H2 & H). apply inv_seg in H as (l1 & v & l2 & w1 & w2 & -> & Hv & H3 & H4 & H5 & H6); [|reflexivity].
  apply inv_einsum in Hv as (c & c' & ka & -> & H7 & H8 & Hv). apply inv_seg1 in Hv as (wa & H9 & H10).
  exists f', w1, c', wa, w2. repeat split; try assumption. apply same_node; cbn [map]; [rewrite (canon_same _ _ H2); reflexivity|].
  rewrite !map_app. cbn [map canon]. rewrite H5, H6, H10, (canon_same _ _ H8). reflexivity.
Qed.
Lemma addn_bound s e : fits s addn_pattern e ->
  exists l a r, s "args1" = Some (VSeq KTuple l) /\ s "child_args" = Some (VSeq KTuple a) /\ s "args2" = Some (VSeq KTuple r) /\
    same e (AddN (l ++ AddN a :: r)).
Proof.
  intros H. apply inv_addn in H as (ks & -> & H). apply inv_seg in H as (l1 & v & l2 & w1 & w2 & -> & Hv & H3 & H4 & H5 & H6); [|reflexivity].
  apply inv_addn in Hv as (ka & -> & [_ (wa & H7 & H8)]). apply same_tuple in H8 as (wa' & -> & H8).
  exists w1, wa', w2. repeat split; try assumption. apply same_node; cbn [map]; [reflexivity|].
  rewrite !map_app. cbn [map canon AddN]. rewrite H5, H6, H8. reflexivity.
Qed.
Lemma patterns_ok p h K (P : prims K) : In (p, h) (pattern_handlers K P) -> tame p /\ scoped false [] p.
Proof.
  intros H. unfold pattern_handlers in H. cbn in H. unfold disjoint, incl in *.
  repeat (destruct H as [H|H]; [injection H as <- _; cbn; unfold disjoint, incl; cbn; repeat split; try tauto; intros; intuition (subst; try discriminate)|]).
  destruct H.
Qed.

Section rules.
  Variables (K : Type) (k0 k1 : K) (kadd kmul : K -> K -> K) (P : prims K).
  Hypothesis SR : semi_ring_theory k0 k1 kadd kmul eq.
  Hypothesis POK : prims_ok P.
  Variable lim : nat -> bool.
  Hypothesis LIM : forall n, lim n = true -> n <= 26.
  Notation eval := (eval K k0 k1 kadd kmul P lim).
  Notation keeps := (keeps K k0 k1 kadd kmul P lim).
  Notation estr := (einsum_str K k0 k1 kadd kmul).

  Lemma eval_small x e a : eval x e = inl (Arr a) -> ndim K a <= 26.
  Proof using LIM. intros H. apply LIM. destruct x; cbn [CanonicalizeModel.eval] in H; apply chk_inv in H as [_ H]; auto. Qed.
  Lemma arrs_inv es env ds : arrs K (map eval es) env = inl ds -> Forall2 (fun x d => eval x env = inl (Arr d)) es ds.
  Proof using.
    unfold arrs. intros H. apply rb_inl in H as (vs & Hv & H). apply rmap_arr_inl in H. subst vs. revert ds Hv.
    induction es as [|x es IH]; intros ds Hv; cbn [map seqr] in Hv; [destruct ds; [constructor|discriminate]|].
    apply rb_inl in Hv as (a & Ha & Hv). apply rb_inl in Hv as (l & Hl & Hv). destruct ds as [|d ds]; [discriminate|].
    cbn [map] in Hv. injection Hv as -> ->. constructor; auto.
  Qed.
  Lemma arrs_intro es env ds : Forall2 (fun x d => eval x env = inl (Arr d)) es ds -> arrs K (map eval es) env = inl ds.
  Proof using.
    intros H. unfold arrs. enough (E : seqr (map (fun f : den K => f env) (map eval es)) = inl (map Arr ds)).
    { rewrite E. cbn [rb]. clear. induction ds as [|d ds IH]; cbn [map rmap]; [reflexivity|]. cbn [arr rb]. rewrite IH. reflexivity. }
    induction H as [|x d es ds Hx H IH]; cbn [map seqr]; [reflexivity|]. rewrite Hx. cbn [rb]. rewrite IH. reflexivity.
  Qed.

  (** evaluation of the nodes that the rules consume and produce *)
  Lemma eval_prim_inv p ps ops env v : known p = true -> eval (Primitive p ps ops) env = inl v ->
    exists ds a s, Forall2 (fun x d => eval x env = inl (Arr d)) ops ds /\ lax_shape p ps (map shape ds) = inl s /\
      lax_value K k0 kadd kmul p ps ds = inl a /\ v = Arr a /\ lim (ndim K a) = true.
  Proof using.
    intros Hk H. unfold Primitive in H. cbn [CanonicalizeModel.eval] in H. apply chk_inv in H as [H Hl]. unfold node in H. cbn [String.eqb Ascii.eqb Bool.eqb] in H.
    change (of_str (str_of p)) with (Some (string_of_list_ascii (list_ascii_of_string p))) in H. rewrite string_of_list_ascii_of_string in H. cbn [opt rb] in H.
    apply rb_inl in H as (ds & Hd & H). apply arrs_inv in Hd. unfold bind in H. rewrite Hk in H.
    apply rb_inl in H as (s & Hs & H). apply rb_inl in H as (a & Ha & H). injection H as <-. exists ds, a, s. auto 10.
  Qed.
  Lemma eval_einsum_inv f ops env v : eval (VNode "Einsum" [f] ops) env = inl v ->
    exists s ds a, f = VStr s /\ Forall2 (fun x d => eval x env = inl (Arr d)) ops ds /\ estr s ds = inl a /\ v = Arr a /\ lim (ndim K a) = true.
  Proof using.
    intros H. cbn [CanonicalizeModel.eval] in H. apply chk_inv in H as [H Hl]. unfold node in H. cbn [String.eqb Ascii.eqb Bool.eqb] in H.
    destruct f; try discriminate. apply rb_inl in H as (ds & Hd & H). apply arrs_inv in Hd. apply rb_inl in H as (a & Ha & H). injection H as <-.
    exists s, ds, a. auto 10.
  Qed.
  Lemma eval_einsum_intro s ops env ds a : Forall2 (fun x d => eval x env = inl (Arr d)) ops ds -> estr s ds = inl a -> lim (ndim K a) = true ->
    eval (Einsum s ops) env = inl (Arr a).
  Proof using.
    intros Hd Ha Hl. unfold Einsum. cbn [CanonicalizeModel.eval]. apply chk_intro; [|intros b Hb; injection Hb as <-; assumption].
    unfold node. cbn [String.eqb Ascii.eqb Bool.eqb]. rewrite (arrs_intro _ _ _ Hd). cbn [rb]. rewrite Ha. reflexivity.
  Qed.
  Lemma eval_addn_inv ops env v : eval (AddN ops) env = inl v ->
    exists ds a, Forall2 (fun x d => eval x env = inl (Arr d)) ops ds /\ addn K k0 kadd ds = inl a /\ v = Arr a /\ lim (ndim K a) = true.
  Proof using.
    intros H. unfold AddN in H. cbn [CanonicalizeModel.eval] in H. apply chk_inv in H as [H Hl]. unfold node in H. cbn [String.eqb Ascii.eqb Bool.eqb] in H.
    apply rb_inl in H as (ds & Hd & H). apply arrs_inv in Hd. apply rb_inl in H as (a & Ha & H). injection H as <-. exists ds, a. auto 10.
  Qed.
  Lemma eval_addn_intro ops env ds a : Forall2 (fun x d => eval x env = inl (Arr d)) ops ds -> addn K k0 kadd ds = inl a -> lim (ndim K a) = true ->
    eval (AddN ops) env = inl (Arr a).
  Proof using.
    intros Hd Ha Hl. unfold AddN. cbn [CanonicalizeModel.eval]. apply chk_intro; [|intros b Hb; injection Hb as <-; assumption].
    unfold node. cbn [String.eqb Ascii.eqb Bool.eqb]. rewrite (arrs_intro _ _ _ Hd). cbn [rb]. rewrite Ha. reflexivity.
  Qed.
  Lemma F2_1 {A B} (R : A -> B -> Prop) x l : Forall2 R [x] l -> exists y, l = [y] /\ R x y.
  Proof using. intros H. inversion H as [|? y ? ? H1 H2]; subst. inversion H2; subst. eauto. Qed.
  Lemma F2_2 {A B} (R : A -> B -> Prop) x x' l : Forall2 R [x; x'] l -> exists y y', l = [y; y'] /\ R x y /\ R x' y'.
  Proof using. intros H. inversion H as [|? y ? ? H1 H2]; subst. apply F2_1 in H2 as (y' & -> & H2). eauto. Qed.

  Lemma nodupn_NoDup l : nodupn l = true -> NoDup l.
  Proof using. unfold nodupn. destruct (list_eq_dec _ _ _) as [E|]; [|discriminate]. intros _. rewrite <- E. apply NoDup_nodup. Qed.
  Lemma memn_In i l : memn i l = true <-> In i l.
  Proof using.
    unfold memn. rewrite existsb_exists. split; [intros (j & H1 & H2); apply Nat.eqb_eq in H2; congruence|].
    intros H. exists i. split; [assumption|apply Nat.eqb_refl].
  Qed.
  Lemma perm_ok perm n : Nat.eqb (List.length perm) n && forallb (fun i => memn i perm) (seq 0 n) = true -> Permutation perm (seq 0 n).
  Proof using.
    intros H. apply andb_true_iff in H as [H1 H2]. apply Nat.eqb_eq in H1. rewrite forallb_forall in H2. apply Permutation_sym.
    apply NoDup_Permutation_bis; [apply seq_NoDup|rewrite seq_length; lia|]. intros i Hi. apply memn_In, H2, Hi.
  Qed.

  Lemma keeps_transpose ps x n perm f : ndim_of K P x = inl n -> axes_param ps "permutation" = Some perm -> transpose_formula n perm = inl f ->
    keeps (Primitive "transpose" ps [x]) (Einsum (reconstitute_einsum_formula f) [x]).
  Proof using SR POK LIM.
    intros Hn Hp Hf env v H. apply eval_prim_inv in H as (ds & a & s & Hd & Hs & Ha & -> & Hl); [|reflexivity].
    apply F2_1 in Hd as (d & -> & Hd). pose proof (ndim_agrees _ _ _ _ _ _ POK _ _ _ _ _ Hn Hd) as ->. pose proof (eval_small _ _ _ Hd) as Hsm.
    unfold lax_shape in Hs. unfold lax_value in Ha. cbn [String.eqb Ascii.eqb Bool.eqb map] in Hs, Ha. rewrite Hp in Hs, Ha.
    unfold transpose_shape in Hs. destruct (_ && _)%bool eqn:E in Hs; [|discriminate]. apply perm_ok in E. injection Ha as <-.
    apply eval_einsum_intro with (ds := [d]); [repeat constructor; assumption| |assumption].
    pose proof (C20_transpose K k0 k1 kadd kmul SR perm d ltac:(lia) E) as HC. unfold replaced_by in HC. rewrite Hf in HC. exact HC.
  Qed.
  Lemma keeps_squeeze ps x n dims f : ndim_of K P x = inl n -> axes_param ps "dimensions" = Some dims -> drop_formula n dims = inl f ->
    keeps (Primitive "squeeze" ps [x]) (Einsum (reconstitute_einsum_formula f) [x]).
  Proof using SR POK LIM.
    intros Hn Hp Hf env v H. apply eval_prim_inv in H as (ds & a & s & Hd & Hs & Ha & -> & Hl); [|reflexivity].
    apply F2_1 in Hd as (d & -> & Hd). pose proof (ndim_agrees _ _ _ _ _ _ POK _ _ _ _ _ Hn Hd) as ->. pose proof (eval_small _ _ _ Hd) as Hsm.
    unfold lax_shape in Hs. unfold lax_value in Ha. cbn [String.eqb Ascii.eqb Bool.eqb map] in Hs, Ha. rewrite Hp in Hs, Ha.
    unfold squeeze_shape in Hs. destruct (_ && _)%bool eqn:E in Hs; [|discriminate]. apply andb_true_iff in E as [E _]. rewrite forallb_forall in E. injection Ha as <-.
    apply eval_einsum_intro with (ds := [d]); [repeat constructor; assumption| |assumption].
    pose proof (C20_squeeze K k0 k1 kadd kmul SR dims d ltac:(lia)) as HC. unfold replaced_by in HC. rewrite Hf in HC. apply HC.
    intros i Hi. apply Nat.eqb_eq, E, Hi.
  Qed.
  Lemma keeps_reduce_sum ps x n axes f : ndim_of K P x = inl n -> axes_param ps "axes" = Some axes -> drop_formula n axes = inl f ->
    keeps (Primitive "reduce_sum" ps [x]) (Einsum (reconstitute_einsum_formula f) [x]).
  Proof using SR POK LIM.
    intros Hn Hp Hf env v H. apply eval_prim_inv in H as (ds & a & s & Hd & Hs & Ha & -> & Hl); [|reflexivity].
    apply F2_1 in Hd as (d & -> & Hd). pose proof (ndim_agrees _ _ _ _ _ _ POK _ _ _ _ _ Hn Hd) as ->. pose proof (eval_small _ _ _ Hd) as Hsm.
    unfold lax_shape in Hs. unfold lax_value in Ha. cbn [String.eqb Ascii.eqb Bool.eqb map] in Hs, Ha. rewrite Hp in Hs, Ha. injection Ha as <-.
    apply eval_einsum_intro with (ds := [d]); [repeat constructor; assumption| |assumption].
    pose proof (C20_reduce_sum K k0 k1 kadd kmul SR axes d ltac:(lia)) as HC. unfold replaced_by in HC. rewrite Hf in HC. exact HC.
  Qed.
  Lemma keeps_dot ps x y nx ny xc yc xb yb f : ndim_of K P x = inl nx -> ndim_of K P y = inl ny -> dims_param ps = Some (xc, yc, (xb, yb)) ->
    dot_formula nx ny xc yc xb yb = inl f -> keeps (Primitive "dot_general" ps [x; y]) (Einsum (reconstitute_einsum_formula f) [x; y]).
  Proof using SR POK LIM.
    intros Hn Hm Hp Hf env v H. apply eval_prim_inv in H as (ds & a & s & Hd & Hs & Ha & -> & Hl); [|reflexivity].
    apply F2_2 in Hd as (d & d' & -> & Hd & Hd').
    pose proof (ndim_agrees _ _ _ _ _ _ POK _ _ _ _ _ Hn Hd) as ->. pose proof (eval_small _ _ _ Hd) as Hsm.
    pose proof (ndim_agrees _ _ _ _ _ _ POK _ _ _ _ _ Hm Hd') as ->. pose proof (eval_small _ _ _ Hd') as Hsm'.
    unfold lax_shape in Hs. unfold lax_value in Ha. cbn [String.eqb Ascii.eqb Bool.eqb map] in Hs, Ha. rewrite Hp in Hs, Ha.
    unfold dot_shape in Hs. destruct (_ && _)%bool eqn:E in Hs; [|discriminate]. rewrite !andb_true_iff in E. destruct E as [[[[E1 E2] E3] E4] E5].
    apply Nat.eqb_eq in E1, E2. apply nodupn_NoDup in E3, E4. rewrite forallb_forall in E5. injection Ha as <-.
    apply eval_einsum_intro with (ds := [d; d']); [repeat constructor; assumption| |assumption].
    pose proof (C20_dot_general K k0 k1 kadd kmul SR xc yc xb yb d d' ltac:(lia) E1 E2 E3 E4) as HC. unfold replaced_by in HC. rewrite Hf in HC. apply HC.
    intros i j Hij. apply E5 in Hij. cbn [fst snd] in Hij. rewrite !andb_true_iff in Hij. destruct Hij as [[H1 H2] H3].
    apply Nat.ltb_lt in H1, H2. apply Nat.eqb_eq in H3. unfold ndim. auto.
  Qed.
  Lemma F2_app_inv {A B} (R : A -> B -> Prop) l1 x l2 m : Forall2 R (l1 ++ x :: l2) m ->
    exists m1 y m2, m = m1 ++ y :: m2 /\ Forall2 R l1 m1 /\ R x y /\ Forall2 R l2 m2.
  Proof using.
    intros H. apply Forall2_app_inv_l in H as (m1 & m2 & H1 & H2 & ->). inversion H2 as [|? y ? m2' H3 H4]; subst. exists m1, y, m2'. auto.
  Qed.
  Lemma F2_len {A B} (R : A -> B -> Prop) l m : Forall2 R l m -> List.length l = List.length m.
  Proof using. induction 1; simpl; congruence. Qed.
  Lemma keeps_compose p l c a r f : compose_einsums p (List.length l) c = inl f ->
    keeps (Einsum p (l ++ Einsum c a :: r)) (Einsum f (l ++ a ++ r)).
  Proof using SR.
    intros Hf env v H. apply eval_einsum_inv in H as (s & ds & b & E & Hd & Ha & -> & Hl). injection E as <-.
    apply F2_app_inv in Hd as (dl & dc & dr & -> & H1 & H2 & H3).
    apply eval_einsum_inv in H2 as (s & da & b' & E & Hda & Hc & E' & _). injection E as <-. injection E' as <-.
    apply eval_einsum_intro with (ds := dl ++ da ++ dr); [repeat apply Forall2_app; assumption| |assumption].
    rewrite (F2_len _ _ _ H1) in Hf. eapply C19_compose_einsums_correct; eassumption.
  Qed.
  Lemma keeps_add ps x y : keeps (Primitive "add" ps [x; y]) (AddN [x; y]).
  Proof using.
    intros env v H. apply eval_prim_inv in H as (ds & a & s & Hd & Hs & Ha & -> & Hl); [|reflexivity].
    apply F2_2 in Hd as (d & d' & -> & Hd & Hd'). unfold lax_value in Ha. cbn [String.eqb Ascii.eqb Bool.eqb] in Ha.
    apply eval_addn_intro with (ds := [d; d']); [repeat constructor; assumption| |assumption]. rewrite C21_add_to_addn. assumption.
  Qed.
  Lemma keeps_addn l a r : keeps (AddN (l ++ AddN a :: r)) (AddN (l ++ a ++ r)).
  Proof using SR.
    intros env v H. apply eval_addn_inv in H as (ds & b & Hd & Ha & -> & Hl).
    apply F2_app_inv in Hd as (dl & dc & dr & -> & H1 & H2 & H3).
    apply eval_addn_inv in H2 as (da & b' & Hda & Hc & E' & _). injection E' as <-.
    apply eval_addn_intro with (ds := dl ++ da ++ dr); [repeat apply Forall2_app; assumption| |assumption].
    eapply C21_addn_of_addn; eassumption.
  Qed.

  (** ** A handler's result keeps the value of the matched expression *)
  Lemma arg_inv b x v : arg b x = inl v -> dget b x = Some v.
  Proof using. apply opt_inl. Qed.
  Lemma keeps_trans a b c : keeps a b -> keeps b c -> keeps a c.
  Proof using. intros H1 H2. exact (proj1 (proj2 (keeps_compositional K k0 k1 kadd kmul P lim)) a b c H1 H2). Qed.
  Lemma handlers_keep p h e b w : In (p, h) (pattern_handlers K P) -> match_ p e = inl b -> h b = inl w -> keeps e w.
  Proof using SR POK LIM.
    intros Hin Hm Hw. destruct (patterns_ok _ _ _ _ Hin) as [Ht Hs]. pose proof (match_fits _ _ _ Ht Hs Hm) as Hf. clear Hm Ht Hs.
    cbn [pattern_handlers In] in Hin.
    destruct Hin as [E|[E|[E|[E|[E|[E|[E|[]]]]]]]]; injection E as <- <-.
    - apply prim1_bound in Hf as (ps & x & Hps & Hx & He). unfold transpose_as_einsum, arg in Hw. rewrite Hx, Hps in Hw. cbn [opt rb] in Hw.
      apply rb_inl in Hw as (n & Hn & Hw). apply rb_inl in Hw as (perm & Hp & Hw). apply opt_inl in Hp. apply rb_inl in Hw as (f & Hf & Hw). injection Hw as <-.
      eapply keeps_trans; [apply keeps_same; eassumption|]. eapply keeps_transpose; eassumption.
    - apply prim2_bound in Hf as (ps & x & y & Hps & Hx & Hy & He). unfold dot_as_einsum, arg in Hw. rewrite Hx, Hy, Hps in Hw. cbn [opt rb] in Hw.
      apply rb_inl in Hw as (d & Hp & Hw). apply opt_inl in Hp. apply rb_inl in Hw as (nx & Hn & Hw). apply rb_inl in Hw as (ny & Hm & Hw).
      destruct d as [[xc yc] [xb yb]]. apply rb_inl in Hw as (f & Hf & Hw). injection Hw as <-.
      eapply keeps_trans; [apply keeps_same; eassumption|]. eapply keeps_dot; eassumption.
    - apply prim1_bound in Hf as (ps & x & Hps & Hx & He). unfold squeeze_as_einsum, arg in Hw. rewrite Hx, Hps in Hw. cbn [opt rb] in Hw.
      apply rb_inl in Hw as (n & Hn & Hw). apply rb_inl in Hw as (perm & Hp & Hw). apply opt_inl in Hp. apply rb_inl in Hw as (f & Hf & Hw). injection Hw as <-.
      eapply keeps_trans; [apply keeps_same; eassumption|]. eapply keeps_squeeze; eassumption.
    - apply prim1_bound in Hf as (ps & x & Hps & Hx & He). unfold reduce_sum_as_einsum, arg in Hw. rewrite Hx, Hps in Hw. cbn [opt rb] in Hw.
      apply rb_inl in Hw as (n & Hn & Hw). apply rb_inl in Hw as (perm & Hp & Hw). apply opt_inl in Hp. apply rb_inl in Hw as (f & Hf & Hw). injection Hw as <-.
      eapply keeps_trans; [apply keeps_same; eassumption|]. eapply keeps_reduce_sum; eassumption.
    - apply compose_bound in Hf as (p & l & c & a & r & Hp & Hl & Hc & Ha & Hr & He).
      unfold compose_handler, tuple_arg, str_arg, arg in Hw. rewrite Hp, Hl, Hc, Ha, Hr in Hw. cbn [opt rb] in Hw.
      destruct p as [|p| | |]; try discriminate. destruct c as [|c| | |]; try discriminate. cbn [rb] in Hw.
      apply rb_inl in Hw as (f & Hf & Hw). injection Hw as <-.
      eapply keeps_trans; [apply keeps_same; eassumption|]. eapply keeps_compose; eassumption.
    - apply add_bound in Hf as (ps & x & y & Hx & Hy & He). unfold add_to_addn, arg in Hw. rewrite Hx, Hy in Hw. cbn [opt rb] in Hw. injection Hw as <-.
      eapply keeps_trans; [apply keeps_same; eassumption|]. apply keeps_add.
    - apply addn_bound in Hf as (l & a & r & Hl & Ha & Hr & He). unfold addn_of_addn_to_addn, tuple_arg, arg in Hw. rewrite Hl, Ha, Hr in Hw. cbn [opt rb] in Hw. injection Hw as <-.
      eapply keeps_trans; [apply keeps_same; eassumption|]. apply keeps_addn.
  Qed.
End rules.
