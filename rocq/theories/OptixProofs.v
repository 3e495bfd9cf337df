(** Evaluating the update functions of optix. *)
From Verif Require Import Dict HarvestSpec HarvestProofs HarvestProofs2 HarvestProofs3 HarvestProofs4 HarvestProofs5 HarvestProps StateProps StateNestProofs StateNestProps.
From Verif Require Export OptixModel.
From Coq Require Import Reals Lra Lia.
Open Scope R_scope.

(** ** vectors *)
Lemma flat_build a : forall f i, flat (build a f i) = map f (seq i (size a)).
Proof.
  induction a as [[n|]|l IH|n a IH] using aval_ind'; intros f i; cbn [build flat size]; try reflexivity.
  - revert i. induction IH as [|[k a] l Ha Hl IHl]; intros i; [reflexivity|]. cbn [fst snd] in *. rewrite Ha, IHl, seq_app, map_app. reflexivity.
  - revert i. induction n as [|n IHn]; intros i; [reflexivity|]. rewrite IH, IHn. cbn [Nat.mul]. rewrite seq_app, map_app. reflexivity.
Qed.
Lemma has_build a : forall f i, has_aval (build a f i) a = true.
Proof.
  induction a as [[n|]|l IH|n a IH] using aval_ind'; intros f i; cbn [build has_aval].
  - apply av_eqb_spec. cbn. rewrite map_length, seq_length. reflexivity.
  - reflexivity.
  - revert i. induction IH as [|[k a] l Ha Hl IHl]; intros i; [reflexivity|]. cbn [fst snd] in *. rewrite String.eqb_refl, Ha, IHl. reflexivity.
  - apply andb_true_iff. split.
    + apply Nat.eqb_eq. revert i. induction n as [|n IHn]; intros i; [reflexivity|]. cbn. f_equal. apply IHn.
    + revert i. induction n as [|n IHn]; intros i; [reflexivity|]. cbn [forallb]. rewrite IH. apply IHn.
Qed.
Lemma has_vec a f : has_aval (vec a f) a = true.
Proof. apply has_build. Qed.
Lemma el_vec a f i : (i < size a)%nat -> el (vec a f) i = f i.
Proof. intros H. unfold el, vec. rewrite flat_build. rewrite (nth_indep _ 0 (f 0%nat)) by (rewrite map_length, seq_length; exact H). rewrite map_nth, seq_nth by exact H. reflexivity. Qed.
Lemma build_ext a : forall f g i, (forall j, (i <= j < i + size a)%nat -> f j = g j) -> build a f i = build a g i.
Proof.
  induction a as [[n|]|l IH|n a IH] using aval_ind'; intros f g i H; cbn [build size] in *; try reflexivity.
  - do 2 f_equal. apply map_ext_in. intros j Hj. apply in_seq in Hj. apply H. lia.
  - f_equal. revert i H. induction IH as [|[k a] l Ha Hl IHl]; intros i H; [reflexivity|]. cbn [fst snd] in *. f_equal; [f_equal; apply Ha; intros j Hj; apply H; lia|]. apply IHl. intros j Hj. apply H. lia.
  - f_equal. revert i H. induction n as [|n IHn]; intros i H; [reflexivity|]. f_equal; [apply IH; intros j Hj; apply H; lia|]. apply IHn. intros j Hj. apply H. lia.
Qed.
Lemma vec_ext a f g : (forall j, (j < size a)%nat -> f j = g j) -> vec a f = vec a g.
Proof. intros H. apply build_ext. intros j Hj. apply H. lia. Qed.
(** shapes without keys *)
Fixpoint numeric (a : aval) : bool :=
  match a with
  | AL (ANum _) => true
  | AL AKey => false
  | AD l => (fix go (l : list (string * aval)) : bool := match l with [] => true | ka :: l' => numeric (snd ka) && go l' end) l
  | AS _ a => numeric a
  end.
Lemma flat_length t : forall a, has_aval t a = true -> List.length (flat t) = size a.
Proof.
  induction t as [v|l IH|l IH] using tree_ind'; intros [w|m|k b] H; try discriminate; cbn [has_aval flat size] in *.
  - apply av_eqb_spec in H. subst w. destruct v; reflexivity.
  - revert m H. induction IH as [|[k a] l Hx Hl IHl]; intros [|[k' b] m] H; try discriminate; [reflexivity|]. rewrite !andb_true_iff in H. destruct H as [[H1 H2] H3]. cbn [fst snd] in *. rewrite app_length, (Hx _ H2), (IHl _ H3). reflexivity.
  - apply andb_true_iff in H as [H1 H2]. apply Nat.eqb_eq in H1. subst k. induction IH as [|x l Hx Hl IHl]; [reflexivity|]. cbn [forallb] in H2. apply andb_true_iff in H2 as [H2 H3]. cbn. rewrite app_length, (Hx _ H2), (IHl H3). reflexivity.
Qed.
Lemma build_flat t : forall a, has_aval t a = true -> numeric a = true -> forall f i, (forall j, (j < size a)%nat -> f (i + j)%nat = nth j (flat t) 0) -> build a f i = t.
Proof.
  induction t as [v|l IH|l IH] using tree_ind'; intros [w|m|k b] H Hn f i Hf; try discriminate; cbn [has_aval flat size build numeric] in *.
  - apply av_eqb_spec in H. subst w. destruct v as [l|]; [|discriminate]. cbn in *. do 2 f_equal. apply nth_ext with (d := 0) (d' := 0); rewrite map_length, seq_length; [reflexivity|].
    intros j Hj. rewrite <- (Hf j Hj). rewrite (nth_indep _ 0 (f 0%nat)) by (rewrite map_length, seq_length; exact Hj). rewrite map_nth, seq_nth by exact Hj. reflexivity.
  - f_equal. revert m i H Hn Hf. induction IH as [|[k a] l Hx Hl IHl]; intros [|[k' b] m] i H Hn Hf; try discriminate; [reflexivity|]. rewrite !andb_true_iff in H. destruct H as [[H1 H2] H3]. cbn [fst snd] in *.
    apply andb_true_iff in Hn as [Hn1 Hn2]. apply String.eqb_eq in H1. subst k'. pose proof (flat_length a b H2) as Hlen. f_equal; [f_equal|].
    + apply Hx; [exact H2|exact Hn1|]. intros j Hj. rewrite Hf by lia. apply app_nth1. lia.
    + apply IHl; [exact H3|exact Hn2|]. intros j Hj. rewrite <- Nat.add_assoc, Hf by lia. rewrite app_nth2 by lia. f_equal. lia.
  - apply andb_true_iff in H as [H1 H2]. apply Nat.eqb_eq in H1. subst k. f_equal. revert i Hf. induction IH as [|x l Hx Hl IHl]; intros i Hf; [reflexivity|]. cbn [forallb] in H2. apply andb_true_iff in H2 as [H2 H3].
    cbn [List.length Nat.mul] in Hf |- *. pose proof (flat_length x b H2) as Hlen. f_equal.
    + apply Hx; [exact H2|exact Hn|]. intros j Hj. rewrite Hf by lia. apply app_nth1. lia.
    + apply IHl; [exact H3|]. intros j Hj. rewrite <- Nat.add_assoc, Hf by lia. rewrite app_nth2 by lia. f_equal. lia.
Qed.
Lemma vec_el a t : has_aval t a = true -> numeric a = true -> vec a (el t) = t.
Proof. intros H Hn. apply build_flat; auto. Qed.
Lemma emap_ok a f ts : Forall (fun t => has_aval t a = true) ts -> emap a f ts = inl (vec a (fun i => f (map (fun t => el t i) ts))).
Proof. intros H. unfold emap. replace (forallb _ ts) with true; [reflexivity|]. symmetry. apply forallb_forall. apply Forall_forall. exact H. Qed.

(** ** executing variable and assign *)
Lemma sem_bindvar {G} fuel n a (e : G -> res tree) pd g : haskey pd n = true ->
  sem2 var_plant asg fuel (bindvar n a e) pd g = rb (e g) (fun t => rb (chk a t) (fun _ => rb (planted a pd n) (fun w => inl ((w, g), [])))).
Proof.
  intros H. unfold bindvar, variable. cbn [sem2]. rewrite !rb_assoc. apply rb_ext. intros t. cbn [rb fst snd is_cond]. unfold at_sow. rewrite H. cbn [andb].
  change (seen var_plant VARIABLE n) with true. cbn [andb]. rewrite !rb_assoc. apply rb_ext. intros t'. cbn [rb fst snd]. destruct (planted a pd n) as [w|e']; reflexivity.
Qed.
Lemma sem_bindasg {G} fuel n a (e : G -> res tree) pd g :
  sem2 var_plant asg fuel (bindasg n a e) pd g = rb (e g) (fun t => rb (chk a t) (fun t' => inl ((t', g), [(n, (t', true))]))).
Proof.
  unfold bindasg, assign. cbn [sem2]. rewrite !rb_assoc. apply rb_ext. intros t. cbn [rb fst snd is_cond]. unfold at_sow.
  change (seen var_plant ASSIGN n) with false. change (seen asg ASSIGN n) with true. cbn [andb]. rewrite !rb_assoc. apply rb_ext. intros t'. reflexivity.
Qed.
Lemma reap_bindvar {G} fuel n a (e : G -> res tree) g :
  sem var_reap fuel (bindvar n a e) [] g = rb (e g) (fun t => rb (chk a t) (fun t' => inl ((t', g), [(n, (t', true))]))).
Proof.
  unfold bindvar, variable. cbn [sem2]. rewrite !rb_assoc. apply rb_ext. intros t. cbn [rb fst snd is_cond]. unfold at_sow. cbn [haskey dget].
  change (seen var_reap VARIABLE n) with true. cbn [andb]. rewrite !rb_assoc. apply rb_ext. intros t'. reflexivity.
Qed.
Lemma reap_bindasg {G} fuel n a (e : G -> res tree) g :
  sem var_reap fuel (bindasg n a e) [] g = rb (e g) (fun t => rb (chk a t) (fun t' => inl ((t', g), []))).
Proof.
  unfold bindasg, assign. cbn [sem2]. rewrite !rb_assoc. apply rb_ext. intros t. cbn [rb fst snd is_cond]. unfold at_sow.
  change (seen var_reap ASSIGN n) with false. cbn [andb]. rewrite !rb_assoc. apply rb_ext. intros t'. reflexivity.
Qed.
Lemma chk_ok a t : has_aval t a = true -> chk a t = inl t.
Proof. intros H. unfold chk. rewrite H. reflexivity. Qed.

(** ** modules as state machines *)
Section machine.
  Variables (A B St : Type) (step : St -> A -> B * St).
  Fixpoint machine (s : St) (xs : list A) : list B * St :=
    match xs with [] => ([], s) | x :: xs' => let r := step s x in let r' := machine (snd r) xs' in (fst r :: fst r', snd r') end.
  (** the state before step n, from the first n inputs *)
  Fixpoint state_at (s : St) (xs : list A) (n : nat) {struct n} : St :=
    match n, xs with S n', x :: xs' => state_at (snd (step s x)) xs' n' | _, _ => s end.
  Lemma state_at_S d : forall n s xs, (n < List.length xs)%nat -> state_at s xs (S n) = snd (step (state_at s xs n) (nth n xs d)).
  Proof.
    induction n as [|n IH]; intros s [|x xs] H; cbn in H; try lia; [reflexivity|]. change (state_at (snd (step s x)) xs (S n) = snd (step (state_at (snd (step s x)) xs n) (nth n xs d))). apply IH. lia.
  Qed.
  Lemma machine_length xs : forall s, List.length (fst (machine s xs)) = List.length xs.
  Proof. induction xs as [|x xs IH]; intros s; [reflexivity|]. cbn. rewrite IH. reflexivity. Qed.
  Lemma machine_nth d d' : forall n s xs, (n < List.length xs)%nat -> nth n (fst (machine s xs)) d' = fst (step (state_at s xs n) (nth n xs d)).
  Proof.
    induction n as [|n IH]; intros s [|x xs] H; cbn in H; try lia; [reflexivity|]. cbn [machine fst snd nth state_at]. apply IH. lia.
  Qed.
End machine.
Arguments machine {A B St}. Arguments state_at {A B St}.

Lemma module_machine {AR : Arrays} {A B St} (step : St -> A -> B * St) (store : St -> plants) (ok : A -> Prop) (m : fmodule A B) fuel :
  (forall s x, ok x -> fm_call_and_update fuel (fm_replace m (store s)) x = inl (fst (step s x), fm_replace m (store (snd (step s x))))) ->
  forall s xs, Forall ok xs -> fm_vars m = store s -> outputs fuel m xs = inl (fst (machine step s xs), fm_replace m (store (snd (machine step s xs)))).
Proof.
  intros Hs s xs Hx Hm. assert (K : forall xs s, Forall ok xs -> outputs fuel (fm_replace m (store s)) xs = inl (fst (machine step s xs), fm_replace m (store (snd (machine step s xs))))).
  { clear s xs Hx Hm. induction xs as [|x xs IH]; intros s Hx; [reflexivity|]. inversion_clear Hx. cbn [outputs machine fst snd]. rewrite Hs by assumption. cbn [rb fst snd].
    change (fm_replace m (store (snd (step s x)))) with (fm_replace m (store (snd (step s x)))). rewrite IH by assumption. reflexivity. }
  rewrite <- (K xs s Hx). f_equal. destruct m; cbn in *; subst; reflexivity.
Qed.
(** a module made by state.init is such a machine if executing the function is *)
Lemma init_machine {A B St} (f : prog (tree * A) B) key0 (step : St -> A -> B * St) (store : St -> plants) (ok : A -> Prop) fuel0 name key x0 m s0 :
  init fuel0 key0 f name key x0 = inl m -> fm_vars m = store s0 -> nocond asg f -> (forall s, fits (skels_of (store s0)) (store s)) ->
  forall fuel, (forall s x, ok x -> exists o, exec fuel f (store s) key0 x = inl (fst (step s x), o) /\
     forallb (fun n => mem n (dkeys (store s))) (dkeys (assigned f (store s))) = true /\
     dmerge (store s) (collect (assigned f (store s)) o) = store (snd (step s x))) ->
  forall s x, ok x -> fm_call_and_update fuel (fm_replace m (store s)) x = inl (fst (step s x), fm_replace m (store (snd (step s x)))).
Proof.
  intros Hi Hv Hn Hf fuel Hs s x Hx. destruct (Hs s x Hx) as (o & E1 & E2 & E3).
  rewrite (C45_call_and_update_partial A B f key0 name key x0 fuel0 m Hi fuel (store s) x), E1; [|rewrite Hv; apply Hf|exact Hn]. cbn [rb fst snd]. rewrite E2, E3. reflexivity.
Qed.
(** initialising *)
Lemma init_ok {A B} (f : prog (tree * A) B) key0 fuel name key x vs : strictp var_reap f -> (exists r, call_and_reap var_reap f = inl r) ->
  (exists b, sem var_reap fuel f [] (key, x) = inl (b, occs vs)) -> collect (once (sites var_reap f [])) (occs vs) = vs -> (exists c, cau_program key0 f vs = inl c) ->
  exists m, init fuel key0 f name key x = inl m /\ fm_vars m = vs.
Proof.
  intros Hs [r Hr] [b Ho] Hc [c Hk]. unfold init, init_vars. rewrite Hr. cbn [rb]. rewrite (call_and_reap_sem var_reap fuel f r (key, x) Hr (strictp_regular _ f Hs)), Ho. cbn [rb fst snd]. rewrite Hc, Hk. cbn [rb]. eauto.
Qed.
Lemma fits_vec (l l' : plants) : Forall2 (fun x y => fst x = fst y /\ exists av, has_aval (snd x) av = true /\ has_aval (snd y) av = true) l l' -> fits (skels_of l) l'.
Proof.
  intros H. replace (skels_of l) with (skels_of l'); [apply fits_skels_of|]. unfold skels_of. induction H as [|[k t] [k' t'] l l' [E (av & H1 & H2)] Hl IH]; [reflexivity|]. cbn in *. f_equal; [|exact IH]. subst k'. f_equal.
  rewrite (skel_aval _ _ H1), (skel_aval _ _ H2). reflexivity.
Qed.
