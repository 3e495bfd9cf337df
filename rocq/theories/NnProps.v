(** C48 (layers) and C60: flattening of layers and Serial. *)
From Verif Require Export NnProofs.

Section nn.
Context {PR : Prng}.

(** ** C48: layers round-trip *)
(** a layer in which no Serial is empty is rebuilt exactly from its leaves and its static data; one with an empty Serial cannot be flattened *)
Theorem C48_layer_roundtrip l : inhabited l -> exists xs td, tree_flatten l = inl (xs, td) /\ tree_unflatten td xs = inl l.
Proof.
  intros H. pose proof (through_inhabited l H) as Ht. unfold through in Ht. apply nb_inl in Ht as ([xs td] & H1 & H2). eauto.
Qed.
Theorem C48_layer_roundtrip_call l xs td l' : tree_flatten l = inl (xs, td) -> tree_unflatten td xs = inl l' ->
  l' = l /\ name_of l' = name_of l /\ state_of l' = state_of l /\ forall args rng kw, call_and_update l' args rng kw = call_and_update l args rng kw.
Proof.
  intros H1 H2. assert (H : through l = inl l') by (unfold through; rewrite H1; exact H2). apply through_ok in H as [_ ->]. auto.
Qed.
Theorem C48_empty_serial_refuted l : ~ inhabited l -> exists e, tree_flatten l = inr e.
Proof.
  intros H. destruct (tree_flatten l) as [[xs td]|e] eqn:E; [|eauto]. destruct H. unfold tree_flatten in E. apply nb_inl in E as (r & E & _). apply flatten_inhabited. eauto.
Qed.

(** ** C60 *)
(** calling a Serial is composing its layers from left to right: layer 0 gets the arguments, layer i+1 what layer i returned,
    layer i the i-th derived key; the result is the last output; and every layer is updated by that one call *)
Theorem C60_serial ls name args rng kw out new :
  call_and_update (Serial ls name) args rng kw = inl (out, new) <->
  ls <> [] /\ exists outs ls', composed ls (map (fun i => option_map (fun k => key_at k i) rng) (seq 0 (List.length ls))) kw args outs ls' /\
    last_out outs out /\ new = Serial ls' name.
Proof.
  rewrite serial_ok. split.
  - intros (Hne & ls' & -> & H). split; [exact Hne|]. rewrite chain_kchain in H. apply kchain_composed in H as (outs & Hc & Hl); [|exact Hne]. exists outs, ls'. auto.
  - intros (Hne & outs & ls' & Hc & Hl & ->). split; [exact Hne|]. exists ls'. split; [reflexivity|]. rewrite chain_kchain. apply kchain_composed; [exact Hne|]. exists outs. auto.
Qed.
(** the keyword arguments reach a layer unless its method does not take them, and the key arrives as rng *)
Theorem C60_leaf c p n args rng kw out new :
  call_and_update (Leaf c p n) args rng kw = inl (out, new) <->
  exists p', new = Leaf c p' n /\
    c_call c p args (filter_kwargs (c_sig c) (kw ++ match rng with None => [] | Some k => [("rng", KKey k)] end)) = inl out /\
    c_update c p args (filter_kwargs (c_usig c) (kw ++ match rng with None => [] | Some k => [("rng", KKey k)] end)) = inl p'.
Proof.
  rewrite leaf_eq. unfold leaf_step. replace (match rng with None => kw | Some k => kw ++ [("rng", KKey k)] end) with (kw ++ match rng with None => [] | Some k => [("rng", KKey k)] end) by (destruct rng; [reflexivity|apply app_nil_r]).
  split.
  - intros H. apply nb_inl in H as (o & H1 & H). apply nb_inl in H as (p' & H2 & H). injection H as <- <-. eauto.
  - intros (p' & -> & H1 & H2). rewrite H1. cbn [nb]. rewrite H2. reflexivity.
Qed.
Theorem C60_empty_serial_raises name args rng kw : exists e, call_and_update (Serial [] name) args rng kw = inr e.
Proof.
  destruct (call_and_update (Serial [] name) args rng kw) as [[o l]|e] eqn:E; [|eauto]. apply C60_serial in E as [H _]. congruence.
Qed.

(** *** nested Serials *)
Lemma leaves_ne l : inhabited l -> leaves l <> [].
Proof.
  induction l as [c p n|ls n IH] using layer_ind'; intros H; [discriminate|]. inversion H as [|? ? Hne Hf]; subst. destruct ls as [|l ls]; [congruence|].
  inversion IH; subst. inversion Hf; subst. cbn. intros E. apply app_eq_nil in E as [E _]. now apply H2 in E.
Qed.
Definition flat (r : pval * layer) : pval * list layer := (fst r, leaves (snd r)).
Definition fmap {A B} (f : A -> B) (x : nres A) : nres B := nb x (fun a => inl (f a)).
Definition leaf_keys (l : layer) (rng : option key) : list (option key) := map (fun p => option_map (fun k => derive k p) rng) (leaf_paths l).
Lemma paths_length l : List.length (leaf_paths l) = List.length (leaves l).
Proof.
  induction l as [c p n|ls n IH] using layer_ind'; [reflexivity|]. cbn. generalize 0 as i. induction IH as [|l ls Hl _ IHl]; intros i; [reflexivity|].
  cbn. rewrite !app_length, map_length, Hl, IHl. reflexivity.
Qed.
Lemma derive_child k i p : derive k (repeat true i ++ false :: p) = derive (key_at k i) p.
Proof. revert k. induction i as [|i IH]; intros k; [reflexivity|]. cbn. apply IH. Qed.
Lemma leaf_keys_serial ls n rng : leaf_keys (Serial ls n) rng = flat_map (fun lr => leaf_keys (fst lr) (snd lr)) (combine ls (keys_of rng (List.length ls))).
Proof.
  unfold leaf_keys, keys_of. cbn [leaf_paths]. generalize 0 as i. induction ls as [|l ls IH]; intros i; [reflexivity|]. cbn. rewrite map_app, IH, map_map. f_equal. apply map_ext.
  intros p. destruct rng as [k|]; [cbn; rewrite derive_child; reflexivity|reflexivity].
Qed.
Lemma kchain_flat kw ls : Forall (fun l => forall v rng, fmap flat (call_and_update l (as_args v) rng kw) = kchain kw (leaves l) (leaf_keys l rng) v) ls ->
  forall rs v, List.length rs = List.length ls -> fmap (fun r => (fst r, flat_map leaves (snd r))) (kchain kw ls rs v) =
    kchain kw (flat_map leaves ls) (flat_map (fun lr => leaf_keys (fst lr) (snd lr)) (combine ls rs)) v.
Proof.
  induction 1 as [|l ls Hl _ IH]; intros rs v Hlen; [reflexivity|]. destruct rs as [|r rs]; [discriminate|]. injection Hlen as Hlen. cbn [flat_map combine fst snd kchain hd tl].
  rewrite kchain_app by (unfold leaf_keys; rewrite map_length; apply paths_length). rewrite <- Hl. unfold fmap, flat.
  destruct (call_and_update l (as_args v) r kw) as [x|]; [|reflexivity]. cbn. rewrite <- IH by exact Hlen. unfold fmap. destruct (kchain kw ls rs (fst x)) as [y|]; reflexivity.
Qed.
Lemma cau_flat l kw : inhabited l -> forall v rng, fmap flat (call_and_update l (as_args v) rng kw) = kchain kw (leaves l) (leaf_keys l rng) v.
Proof.
  induction l as [c p n|ls n IH] using layer_ind'; intros H v rng.
  - unfold leaf_keys. cbn [leaves leaf_paths map kchain hd tl derive]. replace (option_map (fun k => k) rng) with rng by (destruct rng; reflexivity). rewrite leaf_eq. unfold leaf_step. destruct (c_call c p (as_args v) _); [|reflexivity]. cbn. destruct (c_update c p (as_args v) _); reflexivity.
  - inversion H as [|? ? Hne Hf]; subst. rewrite leaf_keys_serial. cbn [leaves]. rewrite <- kchain_flat; [|rewrite Forall_forall in *; intros l Hl; apply IH; auto|unfold keys_of; rewrite map_length, seq_length; reflexivity].
    rewrite (kchain_args kw ls _ v (Tup (as_args v)) Hne eq_refl). rewrite <- chain_kchain, cau_eq, through_inhabited by exact H. cbn [nb]. unfold fmap.
    destruct (chain call_and_update kw ls (Tup (as_args v)) rng) as [r|] eqn:E; [|reflexivity]. cbn [nb fst snd]. apply chain_inhabited in E as (_ & H2 & H3).
    rewrite through_inhabited; [reflexivity|]. constructor; [|exact H2]. intros E0. rewrite E0 in H3. destruct ls; [congruence|discriminate].
Qed.
(** a nest of Serials of any depth computes what its layers compute one after the other, each with its own derived key, and the
    layers inside it become what these calls return *)
Theorem C60_nested l args rng kw out new : inhabited l -> call_and_update l args rng kw = inl (out, new) ->
  exists outs, composed (leaves l) (map (fun p => option_map (fun k => derive k p) rng) (leaf_paths l)) kw args outs (leaves new) /\ last_out outs out.
Proof.
  intros H E. pose proof (cau_flat l kw H (Tup args) rng) as Hf. cbn [as_args] in Hf. rewrite E in Hf. unfold fmap, flat in Hf. cbn in Hf. symmetry in Hf.
  apply kchain_composed in Hf; [exact Hf|now apply leaves_ne].
Qed.
Theorem C60_nested_succeeds l args rng kw outs ls' out : inhabited l ->
  composed (leaves l) (map (fun p => option_map (fun k => derive k p) rng) (leaf_paths l)) kw args outs ls' -> last_out outs out ->
  exists new, call_and_update l args rng kw = inl (out, new) /\ leaves new = ls'.
Proof.
  intros H Hc Hl. pose proof (cau_flat l kw H (Tup args) rng) as Hf. cbn [as_args] in Hf.
  assert (Hk : kchain kw (leaves l) (leaf_keys l rng) (Tup args) = inl (out, ls')) by (apply kchain_composed; [now apply leaves_ne|eauto]).
  rewrite Hk in Hf. unfold fmap in Hf. apply nb_inl in Hf as ([o new] & E & Hf). unfold flat in Hf. cbn in Hf. injection Hf as -> <-. eauto.
Qed.
(** how Serials are nested does not matter when there is no key: the same layers give the same output and the same new layers *)
Theorem C60_associative l m args kw out new : inhabited l -> inhabited m -> leaves l = leaves m -> call_and_update l args None kw = inl (out, new) ->
  exists new', call_and_update m args None kw = inl (out, new') /\ leaves new' = leaves new.
Proof.
  intros Hl Hm E H. destruct (C60_nested l args None kw out new Hl H) as (outs & Hc & Ho). apply (C60_nested_succeeds m args None kw outs (leaves new) out Hm); [|exact Ho].
  rewrite <- E. replace (map _ (leaf_paths m)) with (map (fun p => option_map (fun k => derive k p) None) (leaf_paths l)); [exact Hc|].
  assert (Hlen : List.length (leaf_paths l) = List.length (leaf_paths m)) by (rewrite !paths_length, E; reflexivity). cbn. clear - Hlen. revert Hlen. generalize (leaf_paths l), (leaf_paths m).
  induction l0 as [|a l0 IH]; intros [|b l1] H; try discriminate; [reflexivity|]. cbn. f_equal. apply IH. cbn in H. congruence.
Qed.
(** no two layers of a nest are given the same key, as long as splitting k never yields the same key twice *)
Lemma path_child i j p q : repeat true i ++ false :: p = repeat true j ++ false :: q -> i = j /\ p = q.
Proof.
  revert j. induction i as [|i IH]; intros [|j] H; cbn in H; [injection H as ->; auto|discriminate|discriminate|]. injection H as H. apply IH in H as [-> ->]. auto.
Qed.
Lemma NoDup_app_intro {X} (a b : list X) : NoDup a -> NoDup b -> (forall x, In x a -> ~ In x b) -> NoDup (a ++ b).
Proof.
  induction 1 as [|x a Hx _ IH]; intros Hb Hd; [exact Hb|]. cbn. constructor.
  - rewrite in_app_iff. intros [H|H]; [auto|]. eapply Hd; [left; reflexivity|exact H].
  - apply IH; [exact Hb|]. intros y Hy. apply Hd. right. exact Hy.
Qed.
Lemma paths_nodup l : NoDup (leaf_paths l).
Proof.
  induction l as [c p n|ls n IH] using layer_ind'; [repeat constructor; intros []|]. cbn. 
  assert (H : forall i, NoDup (concat (mapi (fun i ps => map (fun p => repeat true i ++ false :: p) ps) i (map leaf_paths ls))) /\
    forall q, In q (concat (mapi (fun i ps => map (fun p => repeat true i ++ false :: p) ps) i (map leaf_paths ls))) -> exists j p, i <= j /\ q = repeat true j ++ false :: p); [|apply (H 0)].
  induction IH as [|l ls Hl _ IHl]; intros i; cbn; [split; [constructor|intros q []]|]. destruct (IHl (S i)) as [Hd Hq]. split.
  - apply NoDup_app_intro; [|exact Hd|].
    + clear - Hl. induction Hl as [|x xs Hx _ IH]; cbn; constructor; [|exact IH]. rewrite in_map_iff. intros (y & E & Hy). apply path_child in E as [_ ->]. contradiction.
    + intros x Hx Hx2. apply Hq in Hx2 as (j & p & Hj & ->). apply in_map_iff in Hx as (p' & E & _). apply path_child in E as [-> _]. lia.
  - intros q H. apply in_app_or in H as [H|H].
    + apply in_map_iff in H as (p & <- & _). exists i, p. auto.
    + apply Hq in H as (j & p & Hj & ->). exists j, p. split; [lia|reflexivity].
Qed.
Theorem C60_keys_distinct l k : (forall p q, derive k p = derive k q -> p = q) -> NoDup (map (derive k) (leaf_paths l)) /\ ~ In k (map (derive k) (leaf_paths l)) \/ exists c p n, l = Leaf c p n.
Proof.
  intros Hinj. destruct l as [c p n|ls n]; [right; eauto|]. left. split.
  - pose proof (paths_nodup (Serial ls n)) as H. induction H as [|x xs Hx _ IH]; cbn; constructor; [|exact IH]. rewrite in_map_iff. intros (y & E & Hy). apply Hinj in E as ->. contradiction.
  - rewrite in_map_iff. intros (p & E & Hp). change k with (derive k []) in E at 2. apply Hinj in E as ->. cbn in Hp. revert Hp. generalize 0. induction ls as [|l ls IH]; intros i H; [exact H|].
    cbn in H. apply in_app_or in H as [H|H]; [|exact (IH _ H)]. apply in_map_iff in H as (p & E & _). destruct i; discriminate.
Qed.

(** *** templates: init and >> *)
Lemma ones_ok ss ss' : ones ss = inl ss' -> ss' = ss.
Proof. unfold ones. destruct (forallb (forallb (Z.leb 0)) ss); congruence. Qed.
Lemma ones_zshape l : ones (shapes l) = inl (shapes l).
Proof.
  unfold ones, shapes. replace (forallb (forallb (Z.leb 0)) (map (fun a => zshape (sh a)) l)) with true; [reflexivity|]. symmetry. apply forallb_forall. intros s Hs. apply in_map_iff in Hs as (a & <- & _).
  apply forallb_forall. intros z Hz. apply in_map_iff in Hz as (n & <- & _). apply Z.leb_le. lia.
Qed.
(** what initialising a list of templates gives: layer i is initialised with the i-th key, the name layers_i and the specs of
    the output of the template before it *)
Inductive inits : nat -> list template -> list key -> list spec -> list layer -> Prop :=
| Inits_nil i ks ss : inits i [] ks ss []
| Inits_cons i t ts k ks ss l v ls : init t (Some (child_name i)) (Some k) ss = inl l -> tspec t ss = inl v -> Forall (Forall (fun d => 0 <= d)%Z) (as_specs v) ->
    inits (S i) ts ks (as_specs v) ls -> inits i (t :: ts) (k :: ks) ss (l :: ls).
Lemma ones_iff ss : ones ss = inl ss <-> Forall (Forall (fun d => 0 <= d)%Z) ss.
Proof.
  unfold ones. destruct (forallb (forallb (Z.leb 0)) ss) eqn:E.
  - split; [|reflexivity]. intros _. rewrite forallb_forall in E. apply Forall_forall. intros s Hs. apply E in Hs. rewrite forallb_forall in Hs. apply Forall_forall. intros d Hd. apply Z.leb_le. auto.
  - split; [discriminate|]. intros H. assert (E' : forallb (forallb (Z.leb 0)) ss = true); [|congruence]. apply forallb_forall. intros s Hs. rewrite Forall_forall in H. specialize (H s Hs).
    apply forallb_forall. rewrite Forall_forall in H. intros d Hd. apply Z.leb_le. auto.
Qed.
Lemma init_inhabited t name k ss l : init t name k ss = inl l -> inhabited l.
Proof. destruct t, k; cbn; intros H; try discriminate; apply nb_inl in H as (x & _ & H); apply through_ok in H as [H ->]; exact H. Qed.
Lemma inits_inhabited i ts ks ss ls : inits i ts ks ss ls -> Forall inhabited ls.
Proof. induction 1; constructor; [eapply init_inhabited; eassumption|assumption]. Qed.
Theorem C60_init ts name k ss l : init (TSerial ts) name (Some k) ss = inl l <->
  ts <> [] /\ Forall (Forall (fun d => 0 <= d)%Z) ss /\ exists ls, l = Serial ls name /\ inits 0 ts (splitn k (List.length ts)) ss ls.
Proof.
  cbn. set (go := fix go (ts : list template) (ks : list key) (i : nat) (ss : list spec) {struct ts} : nres (list layer) := _).
  assert (Hgo : forall ts ks i ss ls, List.length ks = List.length ts -> (go ts ks i ss = inl ls <-> inits i ts ks ss ls)).
  { clear. induction ts as [|t ts IH]; intros ks i ss ls Hlen.
    - cbn. split; [intros [= <-]; constructor|intros H; inversion H; reflexivity].
    - destruct ks as [|k ks]; [discriminate|]. injection Hlen as Hlen. cbn. split.
      + intros H. apply nb_inl in H as (l & H1 & H). apply nb_inl in H as (v & H2 & H). apply nb_inl in H as (ss' & H3 & H). pose proof (ones_ok _ _ H3) as ->. apply nb_inl in H as (ls' & H4 & H). injection H as <-.
        econstructor; [exact H1|exact H2|now apply ones_iff|apply IH; assumption].
      + intros H. inversion H as [|? ? ? ? ? ? l v ls0 Q1 Q2 Q3 Q4]; subst. change (nb (init t (Some (child_name i)) (Some k) ss) (fun l0 => nb (tspec t ss) (fun v0 => nb (ones (as_specs v0)) (fun ss' => nb (go ts ks (S i) ss') (fun ls => inl (l0 :: ls))))) = inl (l :: ls0)). rewrite Q1. cbn [nb]. rewrite Q2. cbn [nb]. rewrite (proj2 (ones_iff _) Q3). cbn [nb]. apply IH in Q4; [|exact Hlen]. rewrite Q4. reflexivity. }
  split.
  - intros H. apply nb_inl in H as (x & H & Ht). apply through_ok in Ht as [Hi ->]. apply nb_inl in H as (ss' & H1 & H). pose proof (ones_ok _ _ H1) as ->. apply nb_inl in H as (ls & H2 & H). injection H as <-.
    inversion Hi as [|? ? Hne _]; subst. apply Hgo in H2; [|apply splitn_length]. repeat split; [|now apply ones_iff|exists ls; auto].
    intros ->. inversion H2; subst. congruence.
  - intros (Hne & Hs & ls & -> & H). rewrite (proj2 (ones_iff _) Hs). cbn. pose proof (inits_inhabited _ _ _ _ _ H) as Hin. rewrite (proj2 (Hgo _ _ _ _ _ (splitn_length _ _)) H). cbn.
    apply through_inhabited. constructor; [|exact Hin]. intros ->. inversion H; subst; congruence.
Qed.
Theorem C60_init_without_key_raises t name ss : init t name None ss = inr NValue.
Proof. destruct t; reflexivity. Qed.
(** a >> b called on args: a is initialised on the shapes of the arguments, b on the spec of a's output; then b is applied to
    the output of a *)
Theorem C60_rshift a b k args rng kw out : template_call (compose a b) (Some k) args rng kw = inl out <->
  exists ka kb la lb va oa la' lb', splitn k 2 = [ka; kb] /\
    init a (Some "layers_0") (Some ka) (shapes args) = inl la /\ tspec a (shapes args) = inl va /\ Forall (Forall (fun d => 0 <= d)%Z) (as_specs va) /\
    init b (Some "layers_1") (Some kb) (as_specs va) = inl lb /\ (exists vb, tspec b (as_specs va) = inl vb /\ Forall (Forall (fun d => 0 <= d)%Z) (as_specs vb)) /\
    call_and_update la args (option_map (fun k => snd (split2 k)) rng) kw = inl (oa, la') /\
    call_and_update lb (as_args oa) (option_map (fun k => snd (split2 (fst (split2 k)))) rng) kw = inl (out, lb').
Proof.
  unfold template_call, compose. fold (shapes args). split.
  - intros H. apply nb_inl in H as (l & Hi & H). apply nb_inl in H as ([o l'] & Hc & H). injection H as <-. apply C60_init in Hi as (_ & _ & ls & -> & Hi). cbn in Hi.
    apply serial_ok in Hc as (_ & ls' & _ & Hc). pose proof (splitn_length k 2) as Hl. destruct (splitn k 2) as [|ka [|kb [|]]] eqn:E2; try discriminate.
    inversion Hi as [|? ? ? ? ? ? la va ? H1 H2 H3 H4]; subst. inversion H4 as [|? ? ? ? ? ? lb vb ? H5 H6 H7 H8]; subst. inversion H8; subst.
    cbn [chain as_args] in Hc. apply nb_inl in Hc as ([oa la'] & Ha & Hc). apply nb_inl in Hc as (r & Hc & Hx). apply nb_inl in Hc as ([ob lb'] & Hb & Hc). injection Hc as <-. injection Hx as <- _. cbn [fst snd] in *.
    exists ka, kb, la, lb, va, oa, la', lb'. repeat split; auto; [eauto|]. destruct rng; exact Hb.
  - intros (ka & kb & la & lb & va & oa & la' & lb' & E & H1 & H2 & H3 & H4 & (vb & H5 & H6) & H7 & H8).
    assert (Hi : init (TSerial [a; b]) None (Some k) (shapes args) = inl (Serial [la; lb] None)).
    { apply C60_init. split; [discriminate|]. split; [apply ones_iff, ones_zshape|]. exists [la; lb]. split; [reflexivity|]. cbn. rewrite E. econstructor; [exact H1|exact H2|exact H3|]. econstructor; [exact H4|exact H5|exact H6|constructor]. }
    rewrite Hi. cbn [nb]. assert (Hc : call_and_update (Serial [la; lb] None) args rng kw = inl (out, Serial [la'; lb'] None)); [|rewrite Hc; reflexivity].
    apply serial_ok. split; [discriminate|]. exists [la'; lb']. split; [reflexivity|]. cbn [chain as_args]. rewrite H7. cbn [nb fst snd].
    replace (option_map (fun k0 => snd (split2 k0)) (option_map (fun k0 => fst (split2 k0)) rng)) with (option_map (fun k => snd (split2 (fst (split2 k)))) rng) by (destruct rng; reflexivity).
    rewrite H8. reflexivity.
Qed.
(** the spec of a >> b *)
Theorem C60_rshift_spec a b ss : tspec (compose a b) ss = nb (tspec a ss) (fun v => tspec b (as_specs v)).
Proof. cbn. destruct (tspec a ss); [|reflexivity]. cbn. destruct (tspec b (as_specs s)); reflexivity. Qed.
End nn.

(** ** Examples *)
(** keys that are histories of splits *)
#[local] Instance Histories : Prng := {
  key := list bool; split2 := fun k => (k ++ [true], k ++ [false])%list; splitn := fun k n => map (fun i => k ++ repeat true i ++ [false])%list (seq 0 n);
  splitn_length := fun k n => eq_trans (map_length _ _) (seq_length n 0); bernoulli := fun k r ix => Nat.even (List.length k) }.
(** the hypothesis of C60_keys_distinct holds for them *)
Lemma derive_history (k : list bool) p : derive k p = (k ++ p)%list.
Proof. revert k. induction p as [|b p IH]; intros k; [symmetry; apply app_nil_r|]. cbn. destruct b; rewrite IH, <- app_assoc; reflexivity. Qed.
Lemma ex_no_collisions k p q : derive k p = derive k q -> p = q.
Proof. rewrite !derive_history. apply app_inv_head. Qed.
(** a Serial of three: adding one, a nested Serial of doubling and of a layer that counts its calls, and a layer that needs a key *)
Definition scalar (x : R) : arr := mk_arr [] (fun _ => x).
Definition simple (f : R -> R) : lclass :=
  mk_class no_kw (fun p args kw => on1 (fun x => inl (One (emap f x))) args) any_kw keep_update (fun _ _ => inl (mk_lp (tuple []) (tuple []) INone)) (spec1 (fun s => inl (SOne s))) (spec1 (fun s => inl (SOne s))).
Definition counting : lclass :=
  mk_class no_kw (fun p args kw => on1 (fun x => inl (One x)) args) any_kw
    (fun p _ _ => match l_state p with PLeaf c => inl (mk_lp (l_params p) (PLeaf (emap (fun n => n + 1)%R c)) (l_info p)) | _ => inr NType end)
    (fun _ _ => inl (mk_lp (tuple []) (PLeaf (scalar 0)) INone)) (spec1 (fun s => inl (SOne s))) (spec1 (fun s => inl (SOne s))).
Definition ex_layer : template := TSerial [TLeaf (simple (fun x => x + 1)%R); TSerial [TLeaf (simple (fun x => 2 * x)%R); TLeaf counting]; TLeaf (Dropout (1/2))].
Lemma ex_serial : exists l l', init ex_layer None (Some []) [[]] = inl l /\ inhabited l /\
  call_and_update l [scalar 3] (Some []) [("training", KBool true)] = inl (One (mk_arr [] (fun _ => if false then 2 * (3 + 1) / (1 / 2) else 0)%R), l') /\
  nth_error (leaves l') 2 = Some (Leaf counting (mk_lp (tuple []) (PLeaf (mk_arr [] (fun _ => 0 + 1)%R)) INone) (Some "layers_1")) /\
  map (derive []) (leaf_paths l) = [[false]; [true; false; false]; [true; false; true; false]; [true; true; false]].
Proof.
  eexists. eexists. split; [vm_compute; reflexivity|]. split; [repeat (constructor; try discriminate)|]. split; [vm_compute; reflexivity|]. split; reflexivity.
Qed.
Print Assumptions C60_serial.
Print Assumptions C60_rshift.
Print Assumptions C60_nested.
Print Assumptions C48_layer_roundtrip.
