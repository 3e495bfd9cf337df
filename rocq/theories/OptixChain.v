(** C52: sgd, noisy_sgd, adam, rmsprop: chains of the functions of OptixClosed.v. *)
From Verif Require Import Dict HarvestSpec HarvestProofs HarvestProofs2 HarvestProofs3 StateProps StateNestProofs StateNestProps OptixProofs OptixProps OptixClosed.
From Verif Require Export OptixModel.
From Coq Require Import Reals Lra Lia.
Open Scope string_scope. Open Scope list_scope. Open Scope R_scope.
#[local] Existing Instance RealArrays.

Definition outfun := nat -> (nat -> R) -> nat -> R.
(** the n-th output depends on the first n updates only *)
Definition causal (out : outfun) : Prop := forall i g g' n, (forall j, (j <= n)%nat -> g j = g' j) -> out i g n = out i g' n.
Fixpoint pipe_out (outs : list outfun) : outfun := match outs with [] => fun _ g n => g n | out :: outs' => fun i g n => pipe_out outs' i (fun j => out i g j) n end.
Lemma pipe_causal outs : Forall causal outs -> causal (pipe_out outs).
Proof.
  induction 1 as [|out outs H1 H2 IH]; intros i g g' n H; cbn; [apply H; lia|]. apply IH. intros j Hj. apply H1. intros k Hk. apply H. lia.
Qed.

Section chains.
  Variables (av : aval) (key0 : tree) (Hnum : numeric av = true).
  Notation okt := (fun u : tree => has_aval u av = true).
  Definition stable1 (u : ufun (tree * tree) tree) : Prop := forall fuel n k x0 m0 vs x y m', init_u key0 fuel u n k x0 = inl m0 -> same_shapes vs (fm_vars m0) ->
    typed_in av x0 -> typed_in av x -> fm_call_and_update fuel (fm_replace m0 vs) x = inl (y, m') -> same_shapes (fm_vars m') (fm_vars m0) /\ okt y.
  Definition good (u : ufun (tree * tree) tree) (out : outfun) : Prop := emits av key0 u out /\ ufun_ok u /\ stable1 u /\ causal out.

  Lemma runs_stable {St} f (store : St -> plants) step s0 : runs_as av key0 f store step s0 -> (forall s x, typed_in av x -> okt (fst (step s x))) ->
    (forall s, same_shapes (store s) (store s0)) -> (forall vs, same_shapes vs (store s0) -> exists s, vs = store s) -> stable1 (Stateful f).
  Proof.
    intros Hr Ht Hs Hx fuel n k x0 m0 vs x y m' Hi Hv Hx0 Hx1 Hc. cbn [init_u] in Hi. destruct (Hr fuel (Some n) k x0 Hx0) as (m & Hm & Em & _ & H). rewrite Hm in Hi. injection Hi as <-.
    rewrite Em in *. destruct (Hx vs Hv) as (s & ->). rewrite (H fuel s x Hx1) in Hc. injection Hc as <- <-. cbn [fm_vars fm_replace]. split; [apply Hs|apply Ht, Hx1].
  Qed.
  Lemma pure_stable h : (forall x y, typed_in av x -> h x = inl y -> okt y) -> stable1 (Stateless (Pure h)).
  Proof.
    intros Hh fuel n k x0 m0 vs x y m' Hi Hv _ Hx Hc. injection Hi as <-. cbn [init_stateless fm_vars] in *. 
    unfold fm_call_and_update, fm_replace in Hc. cbn in Hc. destruct (h x) as [y'|] eqn:E; [|discriminate]. cbn in Hc.
    assert (Ev : vs = []) by (destruct vs as [|[? ?] ?]; [reflexivity|discriminate]). subst vs. cbn in Hc. injection Hc as <- <-. split; [reflexivity|]. eapply Hh; eassumption.
  Qed.
  (** dictionaries of the right shapes *)
  Lemma shapes_cons (n : string) t vs vs' : same_shapes vs' ((n, t) :: vs) -> exists t' ws, vs' = (n, t') :: ws /\ zeros_like t' = zeros_like t /\ same_shapes ws vs.
  Proof.
    unfold same_shapes. destruct vs' as [|[n' t'] ws]; cbn; [discriminate|]. intros H. injection H as -> H1 H2. exists t', ws. split; [reflexivity|]. split; [exact H1|]. cbn. rewrite H2. reflexivity.
  Qed.
  Lemma shapes_nil vs' : same_shapes vs' [] -> vs' = [].
  Proof. unfold same_shapes. destruct vs' as [|[n' t'] ws]; cbn; [auto|discriminate]. Qed.
  Lemma like_vec t f : zeros_like t = zeros_like (vec av f) -> t = vec av (el t).
  Proof. intros H. symmetry. apply vec_el; [|exact Hnum]. apply zeros_like_inv. rewrite H. apply zeros_like_aval, has_vec. Qed.
  Lemma like_sc t c : zeros_like t = zeros_like (sc c) -> t = sc (unsc t).
  Proof.
    intros H. assert (E : has_aval t A0 = true) by (apply zeros_like_inv; rewrite H; reflexivity). destruct t as [[[|x [|? ?]]|]|l|l]; try discriminate. reflexivity.
  Qed.
  Lemma like_key t k : zeros_like t = zeros_like (Leaf (Key k)) -> exists k', t = Leaf (Key k').
  Proof. intros H. assert (E : has_aval t AKEY = true) by (apply zeros_like_inv; rewrite H; reflexivity). destruct t as [[l|k']|l|l]; try discriminate. eauto. Qed.
  Lemma vec_like f g : zeros_like (vec av f) = zeros_like (vec av g).
  Proof. rewrite !(zeros_like_aval _ av) by apply has_vec. reflexivity. Qed.
  Ltac shp := repeat match goal with
    | H : same_shapes _ (_ :: _) |- _ => apply shapes_cons in H as (? & ? & -> & ? & H)
    | H : same_shapes _ [] |- _ => apply shapes_nil in H; subst
    | H : zeros_like ?t = zeros_like (vec av _) |- _ => apply like_vec in H
    | H : zeros_like ?t = zeros_like (sc _) |- _ => apply like_sc in H
    | H : zeros_like ?t = zeros_like (Leaf (Key _)) |- _ => apply like_key in H as (? & ->) end.
  Lemma shapes_intro (n : string) t t' vs ws : zeros_like t' = zeros_like t -> same_shapes ws vs -> same_shapes ((n, t') :: ws) ((n, t) :: vs).
  Proof. unfold same_shapes. cbn. intros -> H. injection H as ->. reflexivity. Qed.
  Ltac same_tac := intros; repeat (apply shapes_intro; [first [apply vec_like|reflexivity]|]); reflexivity.
  Ltac plain_tac := unfold ufun_ok, plain; cbn; repeat split; auto.

  Lemma causal_sum (w : nat -> nat -> R) (h : R -> R) : causal (fun _ g n => sum_f_R0 (fun j => w n j * h (g j)) n).
  Proof. intros i g g' n H. apply sum_eq. intros j Hj. rewrite (H j Hj). reflexivity. Qed.
  Lemma good_trace d nes : good (Stateful (trace av d nes)) (fun _ g n => if nes then g n + d * trace_sum d g n else trace_sum d g n).
  Proof.
    split; [apply C52_trace|]. split; [plain_tac|]. split.
    - eapply runs_stable; [apply trace_runs|intros; apply has_vec|same_tac|]. unfold tr_store. intros vs H. shp. eexists. f_equal. f_equal. eassumption.
    - intros i g g' n H. assert (E : trace_sum d g n = trace_sum d g' n) by (apply (causal_sum (fun n j => d ^ (n - j)) (fun x => x) i g g' n H)). rewrite E, (H n (le_n n)). reflexivity.
  Qed.
  Lemma good_scale c : good (Stateless (scale av c)) (fun _ g n => c * g n).
  Proof.
    split; [apply C52_scale|]. split; [plain_tac|]. split.
    - apply pure_stable. intros x y Hx. unfold emap. destruct (forallb _ _); [|discriminate]. intros E. injection E as <-. apply has_vec.
    - intros i g g' n H. rewrite (H n (le_n n)). reflexivity.
  Qed.
  Lemma causal_average b k : causal (fun _ g n => average b (fun j => g j ^ k) n).
  Proof. apply (causal_sum (fun n j => (1 - b) * b ^ (n - j)) (fun x => x ^ k)). Qed.
  Lemma good_rms d eps : good (Stateful (scale_by_rms av d eps)) (fun _ g n => g n / sqrt (average d (fun j => g j ^ 2) n + eps)).
  Proof.
    split; [apply C52_rms|]. split; [plain_tac|]. split.
    - eapply runs_stable; [apply rms_runs|intros; apply has_vec|same_tac|]. unfold nu_store. intros vs H. shp. eexists. f_equal. f_equal. eassumption.
    - intros i g g' n H. rewrite (causal_average d 2 i g g' n H), (H n (le_n n)). reflexivity.
  Qed.
  Lemma good_stddev d eps : good (Stateful (scale_by_stddev av d eps)) (fun _ g n => g n / sqrt (average d (fun j => g j ^ 2) n - average d g n ^ 2 + eps)).
  Proof.
    split; [apply C52_stddev|]. split; [plain_tac|]. split.
    - eapply runs_stable; [apply stddev_runs|intros; apply has_vec|same_tac|]. unfold mn_store. intros vs H. shp. exists (el x, el x1). cbn [fst snd]. congruence.
    - intros i g g' n H. rewrite (causal_average d 2 i g g' n H), (H n (le_n n)), (causal_sum (fun n j => (1 - d) * d ^ (n - j)) (fun x => x) i g g' n H : average d g n = average d g' n). reflexivity.
  Qed.
  Lemma good_adam b1 b2 eps : good (Stateful (scale_by_adam av b1 b2 eps))
    (fun _ g n => sum_f_R0 (fun j => weight b1 n j * g j) n / (sqrt (sum_f_R0 (fun j => weight b2 n j * g j ^ 2) n) + eps)).
  Proof.
    split; [apply C52_adam|]. split; [plain_tac|]. split.
    - eapply runs_stable; [apply adam_runs|intros; apply has_vec|same_tac|]. unfold adam_store. intros vs H. shp. match goal with |- exists s, [(_, ?a); (_, ?b); (_, ?c)] = _ => exists (unsc a, (el b, el c)) end. cbn [fst snd]. congruence.
    - intros i g g' n H. rewrite (causal_sum (weight b1) (fun x => x) i g g' n H), (causal_sum (weight b2) (fun x => x ^ 2) i g g' n H). reflexivity.
  Qed.
  Lemma good_noise ksplit normal leaf_of nv eta gamma seed :
    let keys := fix keys n := match n with O => seed | S n => nth 0 (ksplit (keys n) (S nv)) 0%Z end in
    good (Stateful (add_noise av ksplit normal leaf_of nv eta gamma seed))
      (fun i g n => g n + eta / Rpower (1 + INR n) gamma * normal (nth (S (fst (leaf_of i))) (ksplit (keys n) (S nv)) 0%Z) (snd (leaf_of i))).
  Proof.
    intros keys. split; [apply C52_add_noise|]. split; [plain_tac|]. split.
    - eapply runs_stable; [apply noise_runs|intros; apply has_vec|same_tac|]. unfold noise_store. intros vs H. shp. match goal with |- exists s, [(_, ?a); (_, Leaf (Key ?b))] = _ => exists (unsc a, b) end. cbn [fst snd]. congruence.
    - intros i g g' n H. rewrite (H n (le_n n)). reflexivity.
  Qed.
  Lemma good_schedule h : good (Stateful (scale_by_schedule av h)) (fun _ g n => h (INR n) * g n).
  Proof.
    split; [apply C52_schedule|]. split; [plain_tac|]. split.
    - eapply runs_stable; [apply schedule_runs|intros; apply has_vec|same_tac|]. unfold count_store. intros vs H. shp. eexists. f_equal. f_equal. eassumption.
    - intros i g g' n H. rewrite (H n (le_n n)). reflexivity.
  Qed.
  Lemma good_apply_every k : (0 < k)%nat -> good (Stateful (apply_every av k)) (fun _ g n => if Nat.eqb (n mod k) (k - 1) then last_sum g n (k - 1) else 0).
  Proof.
    intros Hk. split; [apply C53_apply_every, Hk|]. split; [plain_tac|]. split.
    - eapply runs_stable; [apply apply_every_runs|intros; apply has_vec|same_tac|]. unfold acc_store. intros vs H. shp. match goal with |- exists s, [(_, ?a); (_, ?b)] = _ => exists (unsc a, el b) end. cbn [fst snd]. congruence.
    - intros i g g' n H. destruct (Nat.eqb _ _); [|reflexivity]. apply sum_eq. intros j Hj. apply H. lia.
  Qed.

  (** ** pipelines *)
  Lemma hist_combine ys (ps : list tree) i j : (j < List.length ys)%nat -> List.length ps = List.length ys -> hist (combine ys ps) i j = el (nth j ys (sc 0)) i.
  Proof. intros H H1. unfold hist, d0. rewrite combine_nth by auto. reflexivity. Qed.
  Lemma pipe_outputs_cons fuel m ms : forall xs ys m' zs ms', outputs fuel m xs = inl (ys, m') -> pipe_outputs tree tree fuel ms (combine ys (map snd xs)) = inl (zs, ms') ->
    pipe_outputs tree tree fuel (m :: ms) xs = inl (zs, m' :: ms').
  Proof.
    intros xs. revert m ms. induction xs as [|x xs IH]; intros m ms ys m' zs ms' H1 H2.
    - cbn in H1. injection H1 as <- <-. cbn in H2. injection H2 as <- <-. reflexivity.
    - cbn [outputs] in H1. apply rb_inl in H1 as ([y m1] & Hc & H1). cbn [snd] in H1. apply rb_inl in H1 as ([ys' m2] & Ho & E). cbn [fst snd] in E. injection E as <- <-.
      cbn [map combine pipe_outputs fst snd] in H2. apply rb_inl in H2 as ([z ms1] & Hp & H2). cbn [snd] in H2. apply rb_inl in H2 as ([zs' ms2] & Ho2 & E). cbn [fst snd] in E. injection E as <- <-.
      cbn [pipe_outputs pipe_step]. rewrite <- surjective_pairing, Hc. cbn [rb fst snd]. rewrite Hp. cbn [rb fst snd]. rewrite (IH _ _ _ _ _ _ Ho Ho2). reflexivity.
  Qed.
  Lemma pipe_good us outs : Forall2 (fun nu out => good (snd nu) out) us outs -> forall fuel0 ks u pr, okt u -> (List.length us <= List.length ks)%nat ->
    exists ms, pipe_init key0 tree tree fuel0 us ks u pr = inl ms /\
      forall fuel xs, Forall (typed_in av) xs -> exists ys ms', pipe_outputs tree tree fuel ms xs = inl (ys, ms') /\ List.length ys = List.length xs /\ Forall okt ys /\
        forall n i, (n < List.length xs)%nat -> (i < size av)%nat -> el (nth n ys (sc 0)) i = pipe_out outs i (hist xs i) n.
  Proof.
    induction 1 as [|[n f] out us outs (He & Hu & Hs & Hc) Hr IH]; intros fuel0 ks u pr Hu0 Hl.
    - exists []. split; [reflexivity|]. intros fuel xs Hxs. exists (map fst xs), []. split; [|split; [apply map_length|split]].
      + clear. induction xs as [|x xs IH]; [reflexivity|]. cbn [pipe_outputs pipe_step rb fst snd map]. rewrite IH. reflexivity.
      + induction Hxs; constructor; assumption.
      + intros k i Hk Hi. cbn [pipe_out]. unfold hist. rewrite (nth_indep _ (sc 0) (fst d0)) by (rewrite map_length; exact Hk). rewrite map_nth. reflexivity.
    - destruct ks as [|k ks]; [cbn in Hl; lia|]. cbn [snd] in *. destruct (He fuel0 n k (u, pr) Hu0) as (m & Hm & Ho).
      destruct (Ho fuel0 [(u, pr)]) as (ys0 & m0 & E0 & L0 & T0 & _); [repeat constructor; exact Hu0|]. cbn [outputs] in E0. apply rb_inl in E0 as ([y m1] & Hcall & E0). cbn [rb fst snd] in E0. injection E0 as <- <-. inversion_clear T0 as [|? ? Ty _].
      destruct (IH fuel0 ks y pr Ty) as (ms & Ems & Hp); [cbn in Hl; lia|]. exists (m :: ms). cbn [pipe_init]. rewrite Hm. cbn [rb]. rewrite Hcall. cbn [rb fst snd]. rewrite Ems. split; [reflexivity|].
      intros fuel xs Hxs. destruct (Ho fuel xs Hxs) as (ys & m' & Eo & Hly & Hty & Hey).
      assert (Hlp : List.length (map snd xs) = List.length ys) by (rewrite map_length; auto).
      assert (Hlc : List.length (combine ys (map snd xs)) = List.length xs) by (rewrite combine_length, Hlp, Nat.min_id; auto).
      assert (Hxs' : Forall (typed_in av) (combine ys (map snd xs))).
      { apply Forall_forall. intros [a b] Hin. apply in_combine_l in Hin. rewrite Forall_forall in Hty. exact (Hty _ Hin). }
      destruct (Hp fuel _ Hxs') as (zs & ms' & Ez & Hlz & Htz & Hez). exists zs, (m' :: ms'). split; [eapply pipe_outputs_cons; eassumption|]. split; [congruence|]. split; [exact Htz|].
      intros j i Hj Hi. rewrite (Hez j i) by (auto; lia). cbn [pipe_out]. apply pipe_causal.
      + clear - Hr. induction Hr as [|? ? ? ? H]; constructor; [apply H|assumption].
      + intros j' Hj'. rewrite hist_combine by (auto; lia). apply Hey; [lia|exact Hi].
  Qed.
  (** a chain of such functions emits what the pipeline emits *)
  Theorem chain_emits es split us outs f : chain_of key0 es split us = inl f -> Forall2 (fun nu out => good (snd nu) out) us outs ->
    (forall k n, List.length (split k n) = n) -> (exists r, call_and_reap var_reap f = inl r) ->
    (forall fuel0 ks u pr ms, okt u -> pipe_init key0 tree tree fuel0 us ks u pr = inl ms ->
       (exists c, cau_program key0 f (pack tree tree ms) = inl c) /\ (es = true -> Forall (fun m => fm_vars m <> []) ms)) ->
    emits av key0 (Stateful f) (pipe_out outs).
  Proof.
    intros Hf Hg Hsp Hr Hst fuel0 name key [u pr] Hx. unfold typed_in in Hx. cbn [fst] in Hx. cbn [init_u].
    assert (Hok : Forall (fun nu : string * ufun (tree * tree) tree => ufun_ok (snd nu)) us) by (clear - Hg; induction Hg as [|? ? ? ? H]; constructor; [apply H|assumption]).
    assert (Hin : forall nu, In nu us -> exists out, good (snd nu) out) by (clear - Hg; induction Hg as [|? ? ? ? H]; [intros ? []|]; intros nu [<-|Hin]; eauto).
    assert (Hi : forall fuel, inits key0 tree tree okt fuel us).
    { intros fuel n h Hn k x Hx'. destruct (Hin _ Hn) as (out & He & _). destruct (He fuel n k x Hx') as (m & Hm & _). eauto. }
    assert (Hs : forall fuel, stable key0 tree tree okt fuel us).
    { intros fuel n h Hn k x0 m0 vs x y m' H1 H2 H3 H4 H5. destruct (Hin _ Hn) as (out & _ & _ & Hs & _). eapply Hs; eassumption. }
    destruct (pipe_good us outs Hg fuel0 (split key (List.length us)) u pr Hx) as (ms & Hp & Ho); [rewrite Hsp; lia|].
    destruct (Hst _ _ _ _ _ Hx Hp) as [Hc He].
    destruct (C55_chain_initialises key0 es split tree tree us f Hf Hok Hr okt fuel0 (Some name) key (u, pr) ms (Hi fuel0) (Hs fuel0) Hx Hp Hc) as (m & Hm & Hv).
    exists m. split; [exact Hm|]. intros fuel xs Hxs.
    destruct (C55_chain_partial key0 es split tree tree us f Hf Hok fuel0 (Some name) key (u, pr) m Hm) as (ms1 & Hp1 & _ & _ & H). cbn [fst snd] in Hp1. rewrite Hp in Hp1. injection Hp1 as <-.
    destruct (Ho fuel xs Hxs) as (ys & ms' & Ey & Hl & Ht & Hel). exists ys, (fm_replace m (pack tree tree ms')). split; [|auto].
    apply (proj2 (H He fuel xs) okt); [rewrite Hsp; reflexivity|apply Hi|apply Hs| |exact Ey]. eapply Forall_impl; [|exact Hxs]. intros x Hx'. exact Hx'.
  Qed.

  Variable split : tree -> nat -> list tree.
  Hypothesis split_length : forall k n, List.length (split k n) = n.
  Ltac names := unfold chain, positional; cbn [map combine seq List.length app].
  Lemma runs_vars {St} f (store : St -> plants) step s0 fuel n k x m : runs_as av key0 f store step s0 -> typed_in av x -> init_u key0 fuel (Stateful f) n k x = inl m -> fm_vars m = store s0 /\ fm_name m = Some n.
  Proof. intros H Hx Hm. cbn [init_u] in Hm. destruct (H fuel (Some n) k x Hx) as (m1 & E & Ev & En & _). rewrite E in Hm. injection Hm as <-. auto. Qed.
  Lemma static {A B} (r : res A) (f : A) (g : A -> res B) : r = inl f -> isok (rb r g) = true -> exists c, g f = inl c.
  Proof. intros -> H. apply isok_ex, H. Qed.
  Lemma pipe_inv h out n us fuel ks u pr ms : good h out -> okt u -> pipe_init key0 tree tree fuel ((n, h) :: us) ks u pr = inl ms ->
    exists k ks' m ms' y, init_u key0 fuel h n k (u, pr) = inl m /\ ms = m :: ms' /\ okt y /\ pipe_init key0 tree tree fuel us ks' y pr = inl ms'.
  Proof.
    intros (He & _) Hu H. destruct ks as [|k ks]; [discriminate|]. cbn [pipe_init] in H. apply rb_inl in H as (m & Hm & H). apply rb_inl in H as ([y m'] & Hc & H). apply rb_inl in H as (ms1 & H1 & E). injection E as <-.
    exists k, ks, m, ms1, y. split; [exact Hm|]. split; [reflexivity|]. split; [|exact H1].
    destruct (He fuel n k (u, pr) Hu) as (m1 & Hm1 & Ho). rewrite Hm in Hm1. injection Hm1 as <-. destruct (Ho fuel [(u, pr)]) as (ys & m2 & Eo & _ & Ht & _); [repeat constructor; exact Hu|].
    cbn [outputs] in Eo. rewrite Hc in Eo. cbn in Eo. injection Eo as <- _. inversion_clear Ht. assumption.
  Qed.
  Lemma stateless_vars h fuel n k x m : init_u key0 fuel (Stateless h : ufun (tree * tree) tree) n k x = inl m -> fm_vars m = [] /\ fm_name m = Some n.
  Proof. intros H. injection H as <-. auto. Qed.

  Ltac statics Hf Hst := eapply (static _ _ Hst Hf); vm_compute; reflexivity.
  Ltac open_pipe Hp Hu :=
    let k := fresh "k" in let ks := fresh "ks" in let m := fresh "m" in let ms := fresh "ms" in let y := fresh "y" in let Hi := fresh "Hi" in let Hy := fresh "Hy" in let Hp' := fresh "Hp" in
    match type of Hp with
    | pipe_init _ _ _ _ ((_, Stateful (trace _ _ _)) :: _) _ _ _ = _ => eapply pipe_inv in Hp as (k & ks & m & ms & y & Hi & -> & Hy & Hp'); [|apply good_trace|exact Hu]; eapply runs_vars in Hi as [? ?]; [|apply trace_runs|exact Hu]
    | pipe_init _ _ _ _ ((_, Stateful (scale_by_rms _ _ _)) :: _) _ _ _ = _ => eapply pipe_inv in Hp as (k & ks & m & ms & y & Hi & -> & Hy & Hp'); [|apply good_rms|exact Hu]; eapply runs_vars in Hi as [? ?]; [|apply rms_runs|exact Hu]
    | pipe_init _ _ _ _ ((_, Stateful (scale_by_stddev _ _ _)) :: _) _ _ _ = _ => eapply pipe_inv in Hp as (k & ks & m & ms & y & Hi & -> & Hy & Hp'); [|apply good_stddev|exact Hu]; eapply runs_vars in Hi as [? ?]; [|apply stddev_runs|exact Hu]
    | pipe_init _ _ _ _ ((_, Stateful (scale_by_adam _ _ _ _)) :: _) _ _ _ = _ => eapply pipe_inv in Hp as (k & ks & m & ms & y & Hi & -> & Hy & Hp'); [|apply good_adam|exact Hu]; eapply runs_vars in Hi as [? ?]; [|apply adam_runs|exact Hu]
    | pipe_init _ _ _ _ ((_, Stateful (add_noise _ _ _ _ _ _ _ _)) :: _) _ _ _ = _ => eapply pipe_inv in Hp as (k & ks & m & ms & y & Hi & -> & Hy & Hp'); [|apply good_noise|exact Hu]; eapply runs_vars in Hi as [? ?]; [|apply noise_runs|exact Hu]
    | pipe_init _ _ _ _ ((_, Stateless (scale _ _)) :: _) _ _ _ = _ => eapply pipe_inv in Hp as (k & ks & m & ms & y & Hi & -> & Hy & Hp'); [|apply good_scale|exact Hu]; apply stateless_vars in Hi as [? ?]
    | pipe_init _ _ _ _ [] _ _ _ = _ => injection Hp as <-
    end.
  Ltac packed := unfold pack; cbn [flat_map app]; unfold pack1;
    repeat match goal with H : fm_name ?m = _ |- _ => rewrite H; clear H end; repeat match goal with H : fm_vars ?m = _ |- _ => rewrite H; clear H end.

  Lemma gcons (n : string) u out (us : list (string * ufun (tree * tree) tree)) outs : good u out -> Forall2 (fun nu out => good (snd nu) out) us outs -> Forall2 (fun nu out => good (snd nu) out) ((n, u) :: us) (out :: outs).
  Proof. intros; constructor; assumption. Qed.
  Lemma pos2 {X} (a b : X) : positional [a; b] ++ [] = [("update_0", a); ("update_1", b)].
  Proof. reflexivity. Qed.
  Lemma pos3 {X} (a b c : X) : positional [a; b; c] ++ [] = [("update_0", a); ("update_1", b); ("update_2", c)].
  Proof. reflexivity. Qed.
  Lemma chain2 es a b : chain key0 es split [a; b] [] = chain_of (U := tree) (P := tree) key0 es split [("update_0", a); ("update_1", b)].
  Proof. unfold chain. rewrite pos2. reflexivity. Qed.
  Lemma chain3 es a b c : chain key0 es split [a; b; c] [] = chain_of (U := tree) (P := tree) key0 es split [("update_0", a); ("update_1", b); ("update_2", c)].
  Proof. unfold chain. rewrite pos3. reflexivity. Qed.
  Lemma sgd_eq lr mo nes : sgd av lr mo nes = [Stateful (trace av mo nes); Stateless (scale av (- lr))].
  Proof. reflexivity. Qed.
  Lemma adam_eq lr b1 b2 eps : adam av lr b1 b2 eps = [Stateful (scale_by_adam av b1 b2 eps); Stateless (scale av (- lr))].
  Proof. reflexivity. Qed.
  Lemma rmsprop_eq lr d eps (centered : bool) : rmsprop av lr d eps centered = [Stateful (if centered then scale_by_stddev av d eps else scale_by_rms av d eps); Stateless (scale av (- lr))].
  Proof. destruct centered; reflexivity. Qed.
  Ltac two Hf g1 g2 := rewrite chain2 in Hf; refine (chain_emits false split _ _ _ Hf (gcons "update_0" _ _ _ _ g1 (gcons "update_1" _ _ _ _ g2 (Forall2_nil _))) split_length _ _);
    [statics Hf (call_and_reap var_reap (A := tree * (tree * tree)) (B := tree))
    |let Hp := fresh "Hp" in let Hu := fresh "Hu" in intros fuel0 ks u pr ms Hu Hp; split; [|discriminate]; 
     open_pipe Hp Hu; match goal with H : pipe_init _ _ _ _ _ _ ?y _ = _, Hy : has_aval ?y _ = true |- _ => open_pipe H Hy end; 
     match goal with H : pipe_init _ _ _ _ _ _ ?y _ = _, Hy : has_aval ?y _ = true |- _ => open_pipe H Hy end; packed; cbn [app]; eapply (static _ _ (fun f => cau_program key0 f _) Hf); vm_compute; reflexivity].
  (** the functions of optix.py:264-282, with the versions of JAX in which a sow of a value without arrays is invisible *)
  Theorem C52_sgd_partial lr mo nes f : chain key0 false split (sgd av lr mo nes) [] = inl f ->
    emits av key0 (Stateful f) (fun _ g n => - lr * (if nes then g n + mo * trace_sum mo g n else trace_sum mo g n)).
  Proof. intros Hf. rewrite sgd_eq in Hf. two Hf (good_trace mo nes) (good_scale (-lr)). Qed.
  Theorem C52_adam_optimizer_partial lr b1 b2 eps f : chain key0 false split (adam av lr b1 b2 eps) [] = inl f ->
    emits av key0 (Stateful f) (fun _ g n => - lr * (sum_f_R0 (fun j => weight b1 n j * g j) n / (sqrt (sum_f_R0 (fun j => weight b2 n j * g j ^ 2) n) + eps))).
  Proof. intros Hf. rewrite adam_eq in Hf. two Hf (good_adam b1 b2 eps) (good_scale (-lr)). Qed.
  Theorem C52_rmsprop_partial lr d eps (centered : bool) f : chain key0 false split (rmsprop av lr d eps centered) [] = inl f ->
    emits av key0 (Stateful f) (fun _ g n => - lr * (g n / sqrt (average d (fun j => g j ^ 2) n - (if centered then average d g n ^ 2 else 0) + eps))).
  Proof.
    intros Hf. rewrite rmsprop_eq in Hf. destruct centered.
    - two Hf (good_stddev d eps) (good_scale (-lr)).
    - assert (H : emits av key0 (Stateful f) (fun _ g n => - lr * (g n / sqrt (average d (fun j => g j ^ 2) n + eps)))) by (two Hf (good_rms d eps) (good_scale (-lr))).
      intros fuel0 name key x0 Hx. destruct (H fuel0 name key x0 Hx) as (m & Hm & Ho). exists m. split; [exact Hm|]. intros fuel xs Hxs. destruct (Ho fuel xs Hxs) as (ys & m' & E & Hl & Ht & He). exists ys, m'. repeat (split; [assumption|]).
      intros n i Hn Hi. rewrite (He n i Hn Hi). rewrite Rminus_0_r. reflexivity.
  Qed.
  Section noisy.
    Variables (ksplit : Z -> nat -> list Z) (normal : Z -> nat -> R) (leaf_of : nat -> nat * nat) (nv : nat).
    Theorem C52_noisy_sgd_partial lr eta gamma seed f : chain key0 false split (noisy_sgd av ksplit normal leaf_of nv lr eta gamma seed) [] = inl f ->
      let keys := fix keys n := match n with O => seed | S n => nth 0 (ksplit (keys n) (S nv)) 0%Z end in
      emits av key0 (Stateful f) (fun i g n => - lr * g n + eta / Rpower (1 + INR n) gamma * normal (nth (S (fst (leaf_of i))) (ksplit (keys n) (S nv)) 0%Z) (snd (leaf_of i))).
    Proof.
      intros Hf keys. assert (H : emits av key0 (Stateful f) (fun i g n => - lr * trace_sum 0 g n + eta / Rpower (1 + INR n) gamma * normal (nth (S (fst (leaf_of i))) (ksplit (keys n) (S nv)) 0%Z) (snd (leaf_of i)))).
      { change (noisy_sgd av ksplit normal leaf_of nv lr eta gamma seed) with [Stateful (trace av 0 false); Stateless (scale av (- lr)); Stateful (add_noise av ksplit normal leaf_of nv eta gamma seed)] in Hf. rewrite chain3 in Hf.
        refine (chain_emits false split _ _ _ Hf (gcons "update_0" _ _ _ _ (good_trace 0 false) (gcons "update_1" _ _ _ _ (good_scale (-lr)) (gcons "update_2" _ _ _ _ (good_noise ksplit normal leaf_of nv eta gamma seed) (Forall2_nil _)))) split_length _ _).
        - statics Hf (call_and_reap var_reap (A := tree * (tree * tree)) (B := tree)).
        - intros fuel0 ks u pr ms Hu Hp. split; [|discriminate]. open_pipe Hp Hu.
          do 3 match goal with H : pipe_init _ _ _ _ _ _ ?y _ = _, Hy : has_aval ?y _ = true |- _ => open_pipe H Hy end. packed. cbn [app]. eapply (static _ _ (fun f => cau_program key0 f _) Hf); vm_compute; reflexivity. }
      intros fuel0 name key x0 Hx. destruct (H fuel0 name key x0 Hx) as (m & Hm & Ho). exists m. split; [exact Hm|]. intros fuel xs Hxs. destruct (Ho fuel xs Hxs) as (ys & m' & E & Hl & Ht & He). exists ys, m'. repeat (split; [assumption|]).
      intros n i Hn Hi. rewrite (He n i Hn Hi). f_equal. f_equal. destruct n; [unfold trace_sum; cbn; ring|]. rewrite trace_sum_S. ring.
    Qed.
  End noisy.

  (** with the current JAX none of them can be called: scale has no variables *)
  Lemma stateless_raises lr h out us f : chain_of key0 true split ((("update_0", h) :: ("update_1", Stateless (scale av (- lr))) :: us)) = inl f ->
    good h out -> Forall (fun nu => ufun_ok (snd nu) /\ fst nu <> "update_1") us ->
    forall fuel0 name key x0 m, typed_in av x0 -> init fuel0 key0 f name key x0 = inl m -> forall fuel x, exists e, fm_call_and_update fuel m x = inr e.
  Proof.
    intros Hf Hg Hus fuel0 name key x0 m Hx Hm.
    assert (Hu : Forall (fun nu : string * ufun (tree * tree) tree => ufun_ok (snd nu)) (("update_0", h) :: ("update_1", Stateless (scale av (- lr))) :: us)).
    { constructor; [apply Hg|]. constructor; [apply (good_scale (-lr))|]. eapply Forall_impl; [|exact Hus]. intros nu H. apply H. }
    eapply (C55_stateless_stage_raises key0 true split tree tree _ f Hf Hu eq_refl fuel0 name key x0 m "update_1"); [exact Hm|simpl; auto|].
    destruct (C55_chain_partial key0 true split tree tree _ f Hf Hu fuel0 name key x0 m Hm) as (ms & Hp & -> & _ & _).
    intros Hin. eapply pipe_inv in Hp as (k & ks & m1 & ms1 & y & Hi & -> & Hy & Hp); [|exact Hg|exact Hx]. eapply pipe_inv in Hp as (k2 & ks2 & m2 & ms2 & y2 & Hi2 & -> & Hy2 & Hp); [|apply good_scale|exact Hy].
    apply stateless_vars in Hi2 as [E1 E2]. unfold pack in Hin. cbn [flat_map] in Hin. unfold dkeys in Hin. rewrite !map_app in Hin. apply in_app_or in Hin as [Hin|Hin].
    - assert (En : fm_name m1 = Some "update_0").
      { destruct h as [h|h]; cbn [init_u] in Hi; [apply init_cau in Hi as (_ & H & _); exact H|injection Hi as <-; reflexivity]. }
      unfold pack1 in Hin. rewrite En in Hin. destruct (fm_vars m1); cbn in Hin; [tauto|]. destruct Hin as [Hin|[]]. discriminate.
    - apply in_app_or in Hin as [Hin|Hin]; [unfold pack1 in Hin; rewrite E1, E2 in Hin; destruct Hin|].
      clear - Hin Hp Hus. revert y2 ks2 ms2 Hp Hin. induction Hus as [|[n u] us [_ Hn] Hus IH]; intros y ks ms Hp Hin.
      + destruct ks; cbn in Hp; injection Hp as <-; destruct Hin.
      + destruct ks as [|k ks]; [discriminate|]. cbn [pipe_init] in Hp. apply rb_inl in Hp as (m & Hm & H). apply rb_inl in H as ([y' m'] & Hc & H). apply rb_inl in H as (ms1 & H1 & E). injection E as <-.
        cbn [flat_map] in Hin. rewrite map_app in Hin. apply in_app_or in Hin as [Hin|Hin]; [|eapply IH; eassumption].
        assert (En : fm_name m = Some n).
        { destruct u as [u|u]; cbn [init_u] in Hm; [apply init_cau in Hm as (_ & H & _); exact H|injection Hm as <-; reflexivity]. }
        unfold pack1 in Hin. rewrite En in Hin. destruct (fm_vars m); cbn in Hin; [tauto|]. destruct Hin as [Hin|[]]. cbn in Hn. congruence.
  Qed.
  Theorem C52_sgd_raises lr mo nes f : chain key0 true split (sgd av lr mo nes) [] = inl f ->
    forall fuel0 name key x0 m, typed_in av x0 -> init fuel0 key0 f name key x0 = inl m -> forall fuel x, exists e, fm_call_and_update fuel m x = inr e.
  Proof. intros Hf. rewrite sgd_eq, chain2 in Hf. eapply stateless_raises; [exact Hf|apply good_trace|constructor]. Qed.
  Theorem C52_adam_raises lr b1 b2 eps f : chain key0 true split (adam av lr b1 b2 eps) [] = inl f ->
    forall fuel0 name key x0 m, typed_in av x0 -> init fuel0 key0 f name key x0 = inl m -> forall fuel x, exists e, fm_call_and_update fuel m x = inr e.
  Proof. intros Hf. rewrite adam_eq, chain2 in Hf. eapply stateless_raises; [exact Hf|apply good_adam|constructor]. Qed.
End chains.

(** ** Concrete cases: one array of one element and one of two; the hypotheses are met *)
Definition ex_av : aval := AD [("w", AL (ANum 2)); ("b", AL (ANum 1))].
Definition ex_split (k : tree) (n : nat) : list tree := repeat k n.
Lemma C52_example : numeric ex_av = true /\ (forall k n, List.length (ex_split k n) = n) /\ typed_in ex_av (Dict [("w", Leaf (Num [1; 2])); ("b", Leaf (Num [3]))], sc 0) /\
  (exists f, chain (Leaf (Key 0%Z)) false ex_split (sgd ex_av (1/10) (9/10) true) [] = inl f) /\
  (exists f, chain (Leaf (Key 0%Z)) true ex_split (adam ex_av (1/10) (9/10) (999/1000) (1/100)) [] = inl f) /\
  (exists m, rb (chain (Leaf (Key 0%Z)) true ex_split (sgd ex_av (1/10) (9/10) true) []) (fun f =>
     init 0 (Leaf (Key 0%Z)) f None (Leaf (Key 1%Z)) (Dict [("w", Leaf (Num [1; 2])); ("b", Leaf (Num [3]))], sc 0)) = inl m).
Proof.
  split; [reflexivity|]. split; [intros; apply repeat_length|]. split; [reflexivity|]. split; [apply isok_ex; vm_compute; reflexivity|]. split; [apply isok_ex; vm_compute; reflexivity|].
  apply isok_ex. vm_compute. reflexivity.
Qed.
(** a trace with decay 1/2: 1, 1 + 1/2, 1 + 1/2 + 1/4 *)
Lemma C52_trace_example : trace_sum (1/2) (fun _ => 1) 2 = 7/4.
Proof. unfold trace_sum. cbn. lra. Qed.
