(** C74: where keyword arguments of a module do not do what the function would do, and an example. *)
From Verif Require Export KwProps NnTotal NnLayers.
From Coq Require Import Lra.
Open Scope string_scope. Open Scope list_scope. Open Scope nat_scope.

Section kw.
Context {PR : Prng}.

(** the layers of the library that take no keyword arguments do not look at any *)
Lemma blind_dense names d ki bi : blind names (Dense d ki bi).
Proof. intros p args kw kw' _. split; reflexivity. Qed.
Lemma blind_activation names act : blind names (Activation act).
Proof. intros p args kw kw' _. split; reflexivity. Qed.
(** Dropout looks at training and rng only *)
Lemma blind_dropout names rate : ~ In "training" names -> ~ In "rng" names -> blind names (Dropout rate).
Proof.
  intros H1 H2 p args kw kw' H. split; [|reflexivity]. cbn [c_call c_sig Dropout]. unfold dropout_call.
  assert (E : forall s, mem s ["training"; "rng"] = true -> forall q : kwargs, kget s (filter_kwargs with_training_rng q) = kget s q).
  { intros s Hs q. change (filter_kwargs with_training_rng q) with (filter (fun kv => mem (fst kv) ["training"; "rng"]) q). apply (kget_filter _ (fun s => mem s ["training"; "rng"])), Hs. }
  rewrite !E by reflexivity. rewrite (H "training" H1), (H "rng" H2). reflexivity.
Qed.

(** a Dropout layer *)
Definition drop (rate : R) : layer := Leaf (Dropout rate) (mk_lp (tuple []) (tuple []) (IRate rate)) None.
Lemma drop_training rate x k kw : training_of kw = true -> kget "rng" kw = None ->
  call_and_update (drop rate) [x] (Some k) kw = inl (One (mk_arr (sh x) (fun ix => if bernoulli k rate ix then el x ix / rate else 0)%R), drop rate).
Proof. intros H1 H2. unfold drop. rewrite (dropout_eq rate (mk_lp (tuple []) (tuple []) (IRate rate)) None x (Some k) kw eq_refl), H1. cbn [kw_of]. rewrite kget_app, H2. reflexivity. Qed.
Lemma drop_evaluation rate x k kw : training_of kw = false -> call_and_update (drop rate) [x] k kw = inl (One x, drop rate).
Proof. intros H1. unfold drop. rewrite (dropout_eq rate (mk_lp (tuple []) (tuple []) (IRate rate)) None x k kw eq_refl), H1. reflexivity. Qed.

(** f(x, key, training=True): Dropout inside jax.jit *)
Definition dropout_body (src : source) : list stmt := [SLayer 0 (Some 1) [2] [("training", src)] [3] 4].
Definition jitted : func := mk_func [("training", KBool true)] [0; 1; 2] [SHigher (fun g vs => g vs) [0; 1; 2] (dropout_body (Param "training")) [3; 4] [0; 1; 2] [5; 6]] [5; 6] ["dropout"].
(** def f(x, key, training=True): return dropout(x, rng=key) if training else x *)
Definition branching : func := mk_func [("training", KBool true)] [0; 1; 2] [SIf "training" (dropout_body (Const (KBool true))) [SPrim inl [2; 0] [3; 4]]] [3; 4] ["dropout"].
(** a layer that the function always evaluates with training=False *)
Definition frozen : func := mk_func [("training", KBool true)] [0; 1; 2] (dropout_body (Const (KBool false))) [3; 4] ["dropout"].
(** the function without a keyword parameter *)
Definition closed : func := mk_func [] [0; 1; 2] (dropout_body (Const (KBool true))) [3; 4] ["dropout"].
Definition dropped (k : key) (rate : R) (x : arr) : arr := mk_arr (sh x) (fun ix => if bernoulli k rate ix then el x ix / rate else 0)%R.

(** inside jit (as inside scan, while_loop, cond, custom_jvp, ...) the layers do not see training=False *)
Theorem C74_jit_refuted hj rate k x : exists m, module_of jitted [] m /\ m_vars m = [("dropout", JLayer (drop rate))] /\
  call_function jitted [JLayer (drop rate); JKey k; JArr x] [("training", KBool false)] = inl [JArr x; JLayer (drop rate)] /\
  fcau hj m [JKey k; JArr x] [("training", KBool false)] = inl ([JArr (dropped k rate x)], m).
Proof.
  eexists. split; [apply (M_init _ _ [("dropout", JLayer (drop rate))]); reflexivity|]. split; [reflexivity|]. split.
  - unfold call_function. cbn -[call_and_update drop]. rewrite drop_evaluation by reflexivity. reflexivity.
  - unfold fcau, eval_jaxpr_with_kwargs. cbn -[call_and_update drop finish]. rewrite drop_training by reflexivity. reflexivity.
Qed.
(** Python's control flow is that of init *)
Theorem C74_branch_refuted hj rate k x : exists m, module_of branching [] m /\ m_vars m = [("dropout", JLayer (drop rate))] /\
  call_function branching [JLayer (drop rate); JKey k; JArr x] [("training", KBool false)] = inl [JArr x; JLayer (drop rate)] /\
  forall kw, kget "training" kw = None -> kget "rng" kw = None -> fcau hj m [JKey k; JArr x] kw = inl ([JArr (dropped k rate x)], m).
Proof.
  exists (mk_fmod [("dropout", JLayer (drop rate))] (mk_jx [0; 1; 2] [ELayer 0 (Some 1) [2] [("training", KBool true)] [3] 4] [3; 4]) ["dropout"]). split; [apply (M_init _ _ [("dropout", JLayer (drop rate))]); reflexivity|]. split; [reflexivity|]. split.
  - reflexivity.
  - intros kw H1 H2. unfold fcau, eval_jaxpr_with_kwargs. cbn -[call_and_update drop finish layer_rule kmerge]. rewrite rule_plain by (rewrite kget_kmerge, H2; reflexivity).
    rewrite drop_training; [reflexivity| |rewrite kget_kmerge, H2; reflexivity]. unfold training_of. rewrite kget_kmerge, H1. reflexivity.
Qed.
(** a layer that the function calls with training=False is overridden by training=True *)
Theorem C74_constant_refuted hj rate k x : exists m, module_of frozen [] m /\ m_vars m = [("dropout", JLayer (drop rate))] /\
  call_function frozen [JLayer (drop rate); JKey k; JArr x] [("training", KBool true)] = inl [JArr x; JLayer (drop rate)] /\
  fcau hj m [JKey k; JArr x] [("training", KBool true)] = inl ([JArr (dropped k rate x)], m).
Proof.
  eexists. split; [apply (M_init _ _ [("dropout", JLayer (drop rate))]); reflexivity|]. split; [reflexivity|]. split.
  - unfold call_function. cbn -[call_and_update drop]. rewrite drop_evaluation by reflexivity. reflexivity.
  - unfold fcau, eval_jaxpr_with_kwargs. cbn -[call_and_update drop finish layer_rule]. rewrite rule_plain by reflexivity. rewrite drop_training by reflexivity. reflexivity.
Qed.
(** keyword arguments that the function does not have: the function raises TypeError, the module gives them to the layers *)
Theorem C74_unknown_keyword hj rate k x : exists m, module_of closed [] m /\ m_vars m = [("dropout", JLayer (drop rate))] /\
  call_function closed [JLayer (drop rate); JKey k; JArr x] [("training", KBool false)] = inr NType /\
  fcau hj m [JKey k; JArr x] [("training", KBool false)] = inl ([JArr x], m).
Proof.
  eexists. split; [apply (M_init _ _ [("dropout", JLayer (drop rate))]); reflexivity|]. split; [reflexivity|]. split; [reflexivity|].
  unfold fcau, eval_jaxpr_with_kwargs. cbn -[call_and_update drop finish layer_rule]. rewrite rule_plain by reflexivity. rewrite drop_evaluation by reflexivity. reflexivity.
Qed.
(** two Dropouts called without keys, in a module called with rng=key: both get this key, and so the same mask; a Serial of the
    two gives them different keys (C60_keys_distinct) *)
Definition two_drops : func := mk_func [] [0; 1; 2; 3] [SLayer 0 None [2] [("training", Const (KBool true))] [4] 5; SLayer 1 None [3] [("training", Const (KBool true))] [6] 7] [4; 6; 5; 7] ["a"; "b"].
Theorem C74_shared_key hj rate k x y : exists m, module_of two_drops [] m /\ m_vars m = [("a", JLayer (drop rate)); ("b", JLayer (drop rate))] /\
  fcau hj m [JArr x; JArr y] [("rng", KKey k)] = inl ([JArr (dropped k rate x); JArr (dropped k rate y)], m).
Proof.
  eexists. split; [apply (M_init _ _ [("a", JLayer (drop rate)); ("b", JLayer (drop rate))]); reflexivity|]. split; [reflexivity|].
  unfold fcau, eval_jaxpr_with_kwargs. cbn -[call_and_update drop finish]. rewrite !drop_training by reflexivity. cbn -[call_and_update drop finish]. rewrite !drop_training by reflexivity. reflexivity.
Qed.
(** a call primitive (core_call, nest) in the jaxpr: where a Jaxpr has no attribute jaxpr, the module cannot be called *)
Theorem C74_call_primitive kw bins body bouts ins outs pre post e e1 vs j vals : jx_eqns j = pre ++ ECall bins body bouts ins outs :: post ->
  writes [] (jx_in j) vals = inl e -> ksteps false kw pre e = inl e1 -> reads e1 ins = inl vs -> eval_jaxpr_with_kwargs false kw j vals = inr NType.
Proof.
  intros Hj He Hp Hr. unfold eval_jaxpr_with_kwargs. rewrite He, Hj. cbn [nb]. rewrite ksteps_app, Hp. cbn [nb ksteps]. rewrite kstep_call, Hr. reflexivity.
Qed.
End kw.

(** ** Example: f(x, key, training=True) calls Relu, without keywords, and Dropout, handing training on *)
#[local] Existing Instance Histories.
Definition net : func := mk_func [("training", KBool true)] [0; 1; 2; 3]
  [SLayer 0 None [3] [] [4] 5; SPrim (fun vs => match vs with [JArr a] => inl [JArr (emap (fun r => r + 1)%R a)] | _ => inr NType end) [4] [6];
   SLayer 1 (Some 2) [6] [("training", Param "training")] [7] 8] [7; 5; 8] ["relu"; "dropout"].
Definition relu_layer : layer := Leaf Relu (mk_lp (tuple []) (tuple []) INone) None.
Lemma C74_example : exists m, module_of net [] m /\ m_vars m = [("relu", JLayer relu_layer); ("dropout", JLayer (drop (1/2)))] /\
  let kw := [("training", KBool false)] in
  kget "rng" kw = None /\ (forall n, In n (map fst kw) -> kget n (f_defaults net) <> None) /\ hands_on_all (map fst kw) false [0] (f_body net) /\
  (forall x v, In x [0] -> lookup (combine (f_in net) (map snd (m_vars m) ++ [JKey []; JArr (scalar 3)])) x = inl v -> exists l, v = JLayer l /\ blind_layer (map fst kw) l) /\
  (exists a, fcau false m [JKey []; JArr (scalar 3)] kw = inl ([JArr a], m) /\ sh a = [] /\ el a [] = 4%R) /\
  (exists a, fcau false m [JKey []; JArr (scalar 3)] [] = inl ([JArr a], m) /\ sh a = [] /\ el a [] = 8%R).
Proof.
  eexists. split; [apply (M_init _ _ [("relu", JLayer relu_layer); ("dropout", JLayer (drop (1/2)))]); reflexivity|]. split; [reflexivity|]. cbv zeta. split; [reflexivity|].
  split; [intros n [<-|[]]; discriminate|]. split; [|split; [|split]].
  - cbn [hands_on_all all_of f_body net hands_on map fst]. split; [split; [right; split; [left; reflexivity|intros a m []]|split; [intros s []|]]|split; [|split; [|exact I]]].
    + intros x [<-|[<-|[]]] [E|[]]; discriminate.
    + intros x [<-|[]] [E|[]]; discriminate.
    + split; [left|split].
      * split; [intros n [<-|[]]; left; reflexivity|]. split; [intros a s [E|[]] _; injection E as <- <-; reflexivity|intros a m [E|[]] _; injection E as <- <-; reflexivity].
      * intros s [E|[]]. discriminate.
      * intros x [<-|[<-|[]]] [E|[]]; discriminate.
  - intros x v [<-|[]] H. injection H as <-. exists relu_layer. split; [reflexivity|]. constructor. apply blind_activation.
  - exists (emap (fun r => r + 1)%R (mk_arr [] (fun ix => Rmax (el (scalar 3) ix) 0))). split; [reflexivity|]. split; [reflexivity|]. cbn. rewrite Rmax_left by lra. lra.
  - exists (dropped (PR := Histories) [] (1/2) (emap (fun r => r + 1)%R (mk_arr [] (fun ix => Rmax (el (scalar 3) ix) 0)))). split; [reflexivity|]. split; [reflexivity|]. cbn. rewrite Rmax_left by lra. lra.
Qed.
Print Assumptions C74_keywords.
Print Assumptions C74_no_keywords.
Print Assumptions C74_variables.
Print Assumptions C74_jit_refuted.
Print Assumptions C74_example.
