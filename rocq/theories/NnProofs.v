(** Lemmas on layers: flattening, call_and_update of Serials. *)
From Verif Require Export NnSpec.

Lemma nb_inl {A B} (x : nres A) (f : A -> nres B) b : nb x f = inl b -> exists a, x = inl a /\ f a = inl b.
Proof. destruct x; [eauto|discriminate]. Qed.
Lemma nmapM_ok {A B} (f : A -> nres B) l bs : nmapM f l = inl bs <-> Forall2 (fun a b => f a = inl b) l bs.
Proof.
  revert bs. induction l as [|a l IH]; intros bs; cbn; [split; [intros [= <-]; constructor|intros H; inversion H; reflexivity]|].
  split.
  - intros H. apply nb_inl in H as (b & Hb & H). apply nb_inl in H as (bs' & Hbs & H). injection H as <-. constructor; [exact Hb|now apply IH].
  - intros H. inversion H; subst. rewrite H2. cbn. apply IH in H4. rewrite H4. reflexivity.
Qed.

Lemma ptree_ind' (P : ptree -> Prop) : (forall a, P (PLeaf a)) -> (forall t l, Forall P l -> P (PNode t l)) -> forall t, P t.
Proof.
  intros HL HN. fix IH 1. intros [a|t l]; [apply HL|]. apply HN. induction l as [|x l IHl]; constructor; [apply IH|exact IHl].
Qed.
Lemma p_build_leaves t : forall r, p_build (p_def t) (p_leaves t ++ r) = Some (t, r).
Proof.
  induction t as [a|s l IH] using ptree_ind'; intros r; [reflexivity|]. cbn [p_def p_leaves p_build].
  set (go := fix go (l : list pdef) (xs : list arr) {struct l} : option (list ptree * list arr) := _).
  assert (H : go (map p_def l) (flat_map p_leaves l ++ r) = Some (l, r)); [|rewrite H; reflexivity].
  revert r. induction IH as [|t l Ht _ IHl]; intros r; [reflexivity|]. cbn. rewrite <- app_assoc, Ht. fold go. rewrite IHl. reflexivity.
Qed.

Section nn.
Context {PR : Prng}.

Lemma layer_ind' (P : layer -> Prop) : (forall c p n, P (Leaf c p n)) -> (forall ls n, Forall P ls -> P (Serial ls n)) -> forall l, P l.
Proof.
  intros HL HN. fix IH 1. intros [c p n|ls n]; [apply HL|]. apply HN. induction ls as [|x l IHl]; constructor; [apply IH|exact IHl].
Qed.

Lemma flatten_inhabited l : (exists r, flatten l = inl r) <-> inhabited l.
Proof.
  induction l as [c p n|ls n IH] using layer_ind'.
  - split; [constructor|cbn; eauto].
  - cbn. split.
    + intros (r & H). apply nb_inl in H as (xd & Hm & H). apply nmapM_ok in Hm. destruct Hm as [|x y l l' Hx Hm]; [discriminate|]. constructor; [discriminate|].
      clear H. inversion IH as [|? ? Hi1 Hi2]; subst. constructor; [apply Hi1; eauto|]. clear - Hm Hi2.
      induction Hm as [|a b l l' Ha _ IHm]; [constructor|]. inversion Hi2; subst. constructor; [apply H1; eauto|auto].
    + intros H. inversion H as [|? ? Hne Hf]; subst.
      assert (Hx : exists xd, nmapM flatten ls = inl xd).
      { clear Hne H. induction IH as [|a l Ha _ IHl]; [cbn; eauto|]. inversion Hf; subst. destruct (IHl H2) as (xd & Hxd). destruct (proj2 Ha H1) as (x & Hx). cbn. rewrite Hx. cbn. rewrite Hxd. cbn. eauto. }
      destruct Hx as (xd & Hxd). rewrite Hxd. cbn. apply nmapM_ok in Hxd. destruct Hxd; [congruence|]. eauto.
Qed.
Lemma unflatten_flatten l : forall x d, flatten l = inl (x, d) -> unflatten (cls_of l) d x = inl l.
Proof.
  induction l as [c [p s i] n|ls n IH] using layer_ind'; intros x d H; cbn in H.
  - injection H as <- <-. reflexivity.
  - apply nb_inl in H as (xd & Hm & H). apply nmapM_ok in Hm.
    assert (E : (x, d) = (tuple (map fst xd), DSer (map cls_of ls) (map snd xd) n)) by (destruct xd; congruence). injection E as -> ->. clear H.
    cbn. set (go := fix go (cs : list cls) (ds : list ldata) (xs : list ptree) {struct ds} : nres (list layer) := _).
    assert (Hg : go (map cls_of ls) (map snd xd) (map fst xd) = inl ls); [|rewrite Hg; reflexivity].
    induction Hm as [|a [x d] l l' Ha _ IHm]; [reflexivity|]. inversion IH; subst. cbn. rewrite (H1 _ _ Ha). cbn. fold go. rewrite (IHm H2). reflexivity.
Qed.
Lemma through_inhabited l : inhabited l -> through l = inl l.
Proof.
  intros H. apply flatten_inhabited in H as ([x d] & H). unfold through, tree_flatten. rewrite H. cbn. unfold tree_unflatten. cbn.
  rewrite <- (app_nil_r (p_leaves x)), p_build_leaves. now apply unflatten_flatten.
Qed.
Lemma through_ok l l' : through l = inl l' -> inhabited l /\ l' = l.
Proof.
  intros H. assert (Hi : inhabited l).
  { apply flatten_inhabited. unfold through, tree_flatten in H. apply nb_inl in H as (r & H & _). apply nb_inl in H as (r' & H & _). eauto. }
  split; [exact Hi|]. rewrite (through_inhabited l Hi) in H. congruence.
Qed.
Lemma through_err l : ~ inhabited l -> exists e, through l = inr e.
Proof. intros H. destruct (through l) as [l'|e] eqn:E; [|eauto]. destruct H. eapply through_ok, E. Qed.

(** ** call_and_update *)
Definition chain (f : layer -> list arr -> option key -> kwargs -> nres (pval * layer)) (kw : kwargs) : list layer -> pval -> option key -> nres (pval * list layer) :=
  fix go (ls : list layer) (v : pval) (rng : option key) : nres (pval * list layer) :=
    match ls with
    | [] => inl (v, [])
    | l :: ls' =>
        nb (f l (as_args v) (option_map (fun k => snd (split2 k)) rng) kw) (fun r =>
        nb (go ls' (fst r) (option_map (fun k => fst (split2 k)) rng)) (fun r' => inl (fst r', snd r :: snd r')))
    end.
Definition leaf_step (c : lclass) (p : lparams) (n : option string) (args : list arr) (rng : option key) (kw : kwargs) : nres (pval * layer) :=
  let kw' := match rng with None => kw | Some k => kw ++ [("rng", KKey k)] end in
  nb (c_call c p args (filter_kwargs (c_sig c) kw')) (fun out =>
  nb (c_update c p args (filter_kwargs (c_usig c) kw')) (fun p' => inl (out, Leaf c p' n))).
Lemma cau_S fuel l args rng kw : cau (S fuel) l args rng kw =
  nb (through l) (fun l1 => nb (match l1 with
    | Leaf c p n => leaf_step c p n args rng kw
    | Serial ls n => nb (chain (cau fuel) kw ls (Tup args) rng) (fun call => nb (chain (cau fuel) kw ls (Tup args) rng) (fun upd => inl (fst call, Serial (snd upd) n)))
    end) (fun r => nb (through (snd r)) (fun l2 => inl (fst r, l2)))).
Proof. reflexivity. Qed.
Lemma chain_ext f g kw ls : (forall l a r, In l ls -> f l a r kw = g l a r kw) -> forall v rng, chain f kw ls v rng = chain g kw ls v rng.
Proof.
  induction ls as [|l ls IH]; intros H v rng; [reflexivity|]. cbn. rewrite H by (left; reflexivity). destruct (g l (as_args v) _ kw) as [r|]; [|reflexivity].
  cbn. rewrite IH; [reflexivity|]. intros. apply H. right. assumption.
Qed.
Lemma depth_child l ls : In l ls -> depth l <= fold_right Nat.max 0 (map depth ls).
Proof. induction ls as [|x ls IH]; intros []; cbn; [subst; lia|]. specialize (IH H). lia. Qed.
Lemma depth_pos l : 0 < depth l.
Proof. destruct l; cbn; lia. Qed.
(** enough fuel *)
Lemma cau_fuel n : forall m l args rng kw, depth l <= n -> depth l <= m -> cau n l args rng kw = cau m l args rng kw.
Proof.
  induction n as [|n IH]; intros m l args rng kw Hn Hm; [pose proof (depth_pos l); lia|]. destruct m as [|m]; [pose proof (depth_pos l); lia|].
  rewrite !cau_S. destruct (through l) as [l1|e] eqn:E; [|reflexivity]. apply through_ok in E as [_ ->]. cbn [nb].
  destruct l as [c p nm|ls nm]; [reflexivity|]. cbn in Hn, Hm.
  rewrite (chain_ext (cau n) (cau m)); [reflexivity|]. intros l a r Hl. apply depth_child in Hl. apply IH; lia.
Qed.
Lemma cau_eq l args rng kw : call_and_update l args rng kw = nb (through l) (fun _ => nb (match l with
    | Leaf c p n => leaf_step c p n args rng kw
    | Serial ls n => nb (chain call_and_update kw ls (Tup args) rng) (fun r => inl (fst r, Serial (snd r) n))
    end) (fun r => nb (through (snd r)) (fun l2 => inl (fst r, l2)))).
Proof.
  unfold call_and_update at 1. destruct (depth l) eqn:Ed; [pose proof (depth_pos l); lia|]. rewrite cau_S. destruct (through l) as [l1|e] eqn:E; [|reflexivity].
  apply through_ok in E as [_ ->]. cbn [nb]. destruct l as [c p nm|ls nm]; [reflexivity|]. cbn in Ed.
  rewrite (chain_ext (cau n) call_and_update); [destruct (chain call_and_update kw ls (Tup args) rng); reflexivity|].
  intros l a r Hl. apply depth_child in Hl. apply cau_fuel; [lia|reflexivity].
Qed.
Lemma cau_inhabited l args rng kw o l' : call_and_update l args rng kw = inl (o, l') -> inhabited l /\ inhabited l'.
Proof.
  rewrite cau_eq. intros H. apply nb_inl in H as (l1 & H1 & H). apply through_ok in H1 as [H1 _]. split; [exact H1|].
  apply nb_inl in H as (r & _ & H). apply nb_inl in H as (l2 & H2 & H). apply through_ok in H2 as [H2 ->]. injection H as _ <-. exact H2.
Qed.
Lemma chain_inhabited kw ls : forall v rng r, chain call_and_update kw ls v rng = inl r -> Forall inhabited ls /\ Forall inhabited (snd r) /\ List.length (snd r) = List.length ls.
Proof.
  induction ls as [|l ls IH]; intros v rng r H; [injection H as <-; cbn; auto|]. cbn [chain] in H.
  apply nb_inl in H as ([o l'] & H1 & H). apply nb_inl in H as (r' & H2 & H). injection H as <-. apply cau_inhabited in H1 as [H1 H1']. apply IH in H2 as (H2 & H3 & H4).
  cbn. repeat split; try constructor; auto.
Qed.
Lemma serial_eq ls n args rng kw : call_and_update (Serial ls n) args rng kw = match ls with [] => call_and_update (Serial [] n) args rng kw | _ =>
    match chain call_and_update kw ls (Tup args) rng with
    | inl r => inl (fst r, Serial (snd r) n)
    | inr e => call_and_update (Serial ls n) args rng kw
    end end.
Proof.
  destruct ls as [|l0 ls0]; [reflexivity|]. set (ls := l0 :: ls0). destruct (chain call_and_update kw ls (Tup args) rng) as [r|] eqn:E; [|reflexivity].
  destruct (chain_inhabited _ _ _ _ _ E) as (H1 & H2 & H3). rewrite cau_eq, through_inhabited by (constructor; [discriminate|exact H1]). cbn [nb]. rewrite E. cbn [nb fst snd].
  rewrite through_inhabited; [reflexivity|]. constructor; [|exact H2]. intros E0. rewrite E0 in H3. discriminate.
Qed.
Lemma serial_ok ls n args rng kw out l' : call_and_update (Serial ls n) args rng kw = inl (out, l') <->
  ls <> [] /\ exists ls', l' = Serial ls' n /\ chain call_and_update kw ls (Tup args) rng = inl (out, ls').
Proof.
  split.
  - intros H. pose proof H as Hi. apply cau_inhabited in Hi as [Hi _]. inversion Hi as [|? ? Hne _]; subst. split; [exact Hne|].
    rewrite cau_eq in H. apply nb_inl in H as (l1 & H1 & H). apply nb_inl in H as (r & H2 & H). apply nb_inl in H2 as (r' & H2 & E). injection E as <-. cbn in H.
    apply nb_inl in H as (l2 & H3 & H). apply through_ok in H3 as [_ ->]. injection H as <- <-. exists (snd r'). split; [reflexivity|]. rewrite H2. now destruct r'.
  - intros (Hne & ls' & -> & E). rewrite serial_eq, E. destruct ls; [congruence|reflexivity].
Qed.
Lemma leaf_eq c p n args rng kw : call_and_update (Leaf c p n) args rng kw = leaf_step c p n args rng kw.
Proof.
  rewrite cau_eq, through_inhabited by constructor. cbn [nb]. unfold leaf_step. destruct (c_call c p args _); [|reflexivity]. cbn [nb]. destruct (c_update c p args _); [|reflexivity].
  cbn [nb snd fst]. rewrite through_inhabited by constructor. reflexivity.
Qed.

(** ** chains with given keys *)
Fixpoint kchain (kw : kwargs) (ls : list layer) (rs : list (option key)) (v : pval) {struct ls} : nres (pval * list layer) :=
  match ls with
  | [] => inl (v, [])
  | l :: ls' => nb (call_and_update l (as_args v) (hd None rs) kw) (fun r => nb (kchain kw ls' (tl rs) (fst r)) (fun r' => inl (fst r', snd r :: snd r')))
  end.
Definition keys_of (rng : option key) (n : nat) : list (option key) := map (fun i => option_map (fun k => key_at k i) rng) (seq 0 n).
Lemma keys_of_S rng n : keys_of rng (S n) = option_map (fun k => snd (split2 k)) rng :: keys_of (option_map (fun k => fst (split2 k)) rng) n.
Proof. unfold keys_of. cbn [seq map]. f_equal. rewrite <- seq_shift, map_map. apply map_ext. intros i. destruct rng; reflexivity. Qed.
Lemma chain_kchain kw ls : forall v rng, chain call_and_update kw ls v rng = kchain kw ls (keys_of rng (List.length ls)) v.
Proof.
  induction ls as [|l ls IH]; intros v rng; [reflexivity|]. cbn [List.length]. rewrite keys_of_S. cbn. destruct (call_and_update l _ _ kw); [|reflexivity]. cbn. rewrite IH. reflexivity.
Qed.
Lemma kchain_app kw a : forall b rs1 rs2 v, List.length rs1 = List.length a -> kchain kw (a ++ b) (rs1 ++ rs2) v =
  nb (kchain kw a rs1 v) (fun r => nb (kchain kw b rs2 (fst r)) (fun r' => inl (fst r', snd r ++ snd r'))).
Proof.
  induction a as [|l a IH]; intros b rs1 rs2 v H.
  - destruct rs1; [|discriminate]. cbn. destruct (kchain kw b rs2 v) as [[]|]; reflexivity.
  - destruct rs1 as [|r rs1]; [discriminate|]. injection H as H. cbn. destruct (call_and_update l (as_args v) r kw) as [x|]; [|reflexivity]. cbn. rewrite IH by exact H.
    destruct (kchain kw a rs1 (fst x)) as [y|]; [|reflexivity]. cbn. destruct (kchain kw b rs2 (fst y)) as [z|]; reflexivity.
Qed.
Lemma kchain_args kw ls : forall rs v w, ls <> [] -> as_args v = as_args w -> kchain kw ls rs v = kchain kw ls rs w.
Proof. intros rs v w Hne H. destruct ls; [congruence|]. cbn. rewrite H. reflexivity. Qed.
Lemma kchain_length kw ls : forall rs v r, kchain kw ls rs v = inl r -> List.length (snd r) = List.length ls.
Proof.
  induction ls as [|l ls IH]; intros rs v r H; cbn in H; [injection H as <-; reflexivity|].
  apply nb_inl in H as (x & _ & H). apply nb_inl in H as (y & Hy & H). injection H as <-. cbn. f_equal. eapply IH, Hy.
Qed.
(** the outputs of a chain *)
Lemma kchain_composed kw ls : forall rs args out ls', ls <> [] -> (kchain kw ls rs (Tup args) = inl (out, ls') <-> exists outs, composed ls rs kw args outs ls' /\ last_out outs out).
Proof.
  induction ls as [|l ls IH]; intros rs args out ls' Hne; [congruence|]. clear Hne. destruct ls as [|l2 ls].
  - cbn. split.
    + intros H. apply nb_inl in H as ([o l'] & H & E). injection E as -> <-. exists [out]. split; [|exists []; reflexivity]. repeat split; [].
      intros i l0 o0 l0' H1 H2 H3. destruct i as [|[|i]]; [|discriminate|discriminate]. injection H1 as <-. injection H2 as <-. injection H3 as <-. exists args. split; [reflexivity|]. cbn. destruct rs; exact H.
    + intros (outs & (Hl1 & Hl2 & Hc) & os & ->). destruct ls' as [|l' [|]]; try discriminate. destruct os as [|? os]; [|rewrite app_length in Hl1; cbn in Hl1; lia]. cbn in Hc.
      destruct (Hc 0 _ _ _ eq_refl eq_refl eq_refl) as (input & -> & H). cbn in H. replace (hd None rs) with (nth 0 rs None) by (destruct rs; reflexivity). rewrite H. reflexivity.
  - remember (l2 :: ls) as ls2. assert (Hne : ls2 <> []) by (subst; discriminate). cbn [kchain]. split.
    + intros H. apply nb_inl in H as ([o l'] & H & E). apply nb_inl in E as ([out' ls''] & Ht & E). injection E as <- <-. cbn [fst snd as_args] in *.
      rewrite (kchain_args kw ls2 (tl rs) o (Tup (as_args o)) Hne eq_refl) in Ht. apply IH in Ht as (outs & (Hl1 & Hl2 & Hc) & os & ->); [|exact Hne].
      exists (o :: os ++ [out']). split; [|exists (o :: os); reflexivity]. split; [cbn; congruence|]. split; [cbn; congruence|].
      intros i l0 o0 l0' H1 H2 H3. destruct i as [|i].
      * injection H1 as <-. injection H2 as <-. injection H3 as <-. exists args. split; [reflexivity|]. destruct rs; exact H.
      * destruct (Hc i _ _ _ H1 H2 H3) as (input & Hi & He). exists input. split.
        -- destruct i as [|i]; [exists o; split; [reflexivity|exact Hi]|exact Hi].
        -- replace (nth (S i) rs None) with (nth i (tl rs) None) by (destruct rs; [destruct i|]; reflexivity). exact He.
    + intros (outs & (Hl1 & Hl2 & Hc) & os & ->). destruct ls' as [|l' ls']; [discriminate|]. destruct os as [|o os]; [subst ls2; cbn in Hl1; lia|].
      destruct (Hc 0 _ _ _ eq_refl eq_refl eq_refl) as (input & -> & H). replace (hd None rs) with (nth 0 rs None) by (destruct rs; reflexivity). cbn [as_args]. rewrite H. cbn [nb fst snd].
      rewrite (kchain_args kw ls2 (tl rs) o (Tup (as_args o)) Hne eq_refl).
      assert (Ht : kchain kw ls2 (tl rs) (Tup (as_args o)) = inl (out, ls')); [|rewrite Ht; reflexivity].
      apply IH; [exact Hne|]. exists (os ++ [out]). split; [|exists os; reflexivity]. cbn in Hl1, Hl2. split; [congruence|]. split; [congruence|].
      intros i l0 o0 l0' H1 H2 H3. destruct (Hc (S i) _ _ _ H1 H2 H3) as (input & (prev & Hp & ->) & He). exists (as_args prev). split.
      * destruct i as [|i]; [injection Hp as ->; reflexivity|]. exists prev. split; [exact Hp|reflexivity].
      * replace (nth i (tl rs) None) with (nth (S i) rs None) by (destruct rs; [destruct i|]; reflexivity). exact He.
Qed.
End nn.
