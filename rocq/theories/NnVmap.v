(** C73: a layer mapped over examples computes for every example what the layer computes for it alone. *)
From Verif Require Export NnVmapModel NnBatch.

Section nn.
Context {PR : Prng}.

(** the i-th example of a value *)
Definition example (i : nat) (v : pval) : pval := match v with One a => One (row a i) | Tup l => Tup (map (fun a => row a i) l) end.
(** the key of the i-th example: its own of mapped keys, the one key otherwise *)
Definition own_key (r : vrng) (i : nat) : option key := match r with NoRng => None | Shared k => Some k | PerExample ks => Some (ks i) end.
(** no layer inside uses a rule of its own for batches *)
Inductive plain : layer -> Prop :=
| Pl_leaf c p n : (forall b, l_info p <> IBatchNorm b) -> plain (Leaf c p n)
| Pl_serial ls n : Forall plain ls -> plain (Serial ls n).

Lemma example_args i v : as_args (example i v) = map (fun a => row a i) (as_args v).
Proof. destruct v; reflexivity. Qed.
Lemma same_shape_iff a b : same_shape a b = true <-> sh a = sh b.
Proof. unfold same_shape. destruct (list_eq_dec Nat.eq_dec (sh a) (sh b)); split; congruence. Qed.
Lemma stack_row xs i : (forall x, In x xs -> sh (hd no_arr xs) = sh x) -> i < List.length xs -> row (stack xs) i = nth i xs no_arr.
Proof.
  intros H Hi. unfold row, stack. cbn [sh el tl hd]. rewrite (H (nth i xs no_arr)) by (now apply nth_In). destruct (nth i xs no_arr). reflexivity.
Qed.
Lemma same_val_one a w : same_val (One a) w = true -> exists b, w = One b /\ sh a = sh b.
Proof. destruct w as [b|]; cbn; [|discriminate]. intros H. apply same_shape_iff in H. eauto. Qed.
Lemma same_val_tup l w : same_val (Tup l) w = true -> exists m, w = Tup m /\ map sh l = map sh m.
Proof.
  destruct w as [|m]; cbn; [discriminate|]. intros H. apply andb_prop in H as [H1 H2]. apply Nat.eqb_eq in H1. exists m. split; [reflexivity|].
  revert m H1 H2. induction l as [|a l IH]; intros [|b m] H1 H2; try discriminate; [reflexivity|]. cbn in H2. apply andb_prop in H2 as [H2 H3]. apply same_shape_iff in H2. cbn. f_equal; [exact H2|]. apply IH; [cbn in H1; congruence|exact H3].
Qed.
Lemma nth_sh (l m : list arr) j : map sh l = map sh m -> sh (nth j l no_arr) = sh (nth j m no_arr).
Proof. intros H. rewrite <- !(map_nth sh), H. reflexivity. Qed.
Lemma nth_map {A B} (f : A -> B) l i w d : nth_error l i = Some w -> nth i (map f l) d = f w.
Proof. intros H. apply nth_error_nth. now apply map_nth_error. Qed.
Lemma stack_vals_row vs v : stack_vals vs = inl v -> forall i w, nth_error vs i = Some w -> example i v = w.
Proof.
  unfold stack_vals. destruct vs as [|v0 vs']; [discriminate|]. remember (v0 :: vs') as vs eqn:Evs. destruct (forallb (same_val v0) vs) eqn:E; [|discriminate]. intros [= <-] i w Hw.
  rewrite forallb_forall in E. assert (Hi : i < List.length vs) by (apply nth_error_Some; congruence). pose proof (E w (nth_error_In _ _ Hw)) as Ew. destruct v0 as [a|l].
  - apply same_val_one in Ew as (b & -> & Eb). cbn [example]. f_equal. rewrite stack_row.
    + rewrite (nth_map (fun w => hd no_arr (as_args w)) _ _ _ _ Hw). reflexivity.
    + intros x Hx. apply in_map_iff in Hx as (w & <- & Hin). apply E, same_val_one in Hin as (b' & -> & E'). rewrite Evs. exact E'.
    + now rewrite map_length.
  - apply same_val_tup in Ew as (m & -> & Em). cbn [example]. f_equal. rewrite map_map.
    rewrite (map_ext_in _ (fun j => nth j m no_arr)).
    + assert (Hl : List.length l = List.length m) by (rewrite <- (map_length sh l), Em; apply map_length). rewrite Hl. clear. apply nth_ext with (d := no_arr) (d' := no_arr); [now rewrite map_length, seq_length|].
      intros j Hj. rewrite map_length, seq_length in Hj. rewrite (nth_map (fun j => nth j m no_arr) _ _ j); [reflexivity|]. rewrite (nth_error_nth' _ 0) by (now rewrite seq_length). f_equal. now rewrite seq_nth.
    + intros j Hj. rewrite stack_row.
      * rewrite (nth_map (fun w => nth j (as_args w) no_arr) _ _ _ _ Hw). reflexivity.
      * intros x Hx. apply in_map_iff in Hx as (w & <- & Hin). apply E, same_val_tup in Hin as (m' & -> & E'). rewrite Evs. cbn [map hd as_args]. now apply nth_sh.
      * now rewrite map_length.
Qed.
Lemma stack_vals_ok vs sp : vs <> [] -> (forall w, In w vs -> shape_of w = sp) -> exists v, stack_vals vs = inl v.
Proof.
  intros Hne H. unfold stack_vals. destruct vs as [|v0 vs']; [congruence|]. replace (forallb (same_val v0) (v0 :: vs')) with true; [eauto|]. symmetry. apply forallb_forall. intros w Hw.
  pose proof (H v0 (or_introl eq_refl)) as E. rewrite <- (H w Hw) in E. destruct v0 as [a|l], w as [b|m]; cbn in E; try discriminate.
  - injection E as E. apply zshape_inj in E. now apply same_shape_iff.
  - injection E as E. cbn. apply andb_true_intro. split.
    + apply Nat.eqb_eq. rewrite <- (map_length (fun a => zshape (sh a)) l), E. apply map_length.
    + apply forallb_forall. intros [a b] Hp. cbn [fst snd]. apply same_shape_iff, zshape_inj. clear Hw H. revert m E Hp. clear. induction l as [|x l IH]; intros [|y m] E Hp; try contradiction. cbn in E. injection E as E1 E2. destruct Hp as [[= <- <-]|Hp]; [exact E1|eapply IH; eauto].
Qed.
Lemma nmapM_nth {A B} (f : A -> nres B) l : forall r, nmapM f l = inl r -> List.length r = List.length l /\ forall i a, nth_error l i = Some a -> exists b, nth_error r i = Some b /\ f a = inl b.
Proof.
  induction l as [|a l IH]; intros r H; cbn in H; [injection H as <-; split; [reflexivity|intros []; discriminate]|].
  apply nb_inl in H as (b & H1 & H). apply nb_inl in H as (bs & H2 & H). injection H as <-. apply IH in H2 as [H2 H3]. split; [cbn; congruence|]. intros [|i] x Hx; [injection Hx as <-; cbn; eauto|apply H3; exact Hx].
Qed.
Lemma nmapM_total {A B} (f : A -> nres B) l : (forall a, In a l -> exists b, f a = inl b) -> exists r, nmapM f l = inl r.
Proof.
  induction l as [|a l IH]; intros H; cbn; [eauto|]. destruct (H a (or_introl eq_refl)) as (b & ->). cbn. destruct IH as (r & ->); [intros; apply H; now right|]. cbn. eauto.
Qed.
Lemma seq_nth_error n i : i < n -> nth_error (seq 0 n) i = Some i.
Proof. intros H. rewrite (nth_error_nth' _ 0) by (now rewrite seq_length). f_equal. rewrite seq_nth by exact H. reflexivity. Qed.
Lemma rng_at_map f r i : rng_at (on_rng f r) i = option_map f (rng_at r i).
Proof. destruct r; reflexivity. Qed.

(** ** equations *)
Definition vchain (f : layer -> list arr -> vrng -> kwargs -> nres (pval * list layer)) (kw : kwargs) : list layer -> pval -> vrng -> nres (pval * list (list layer)) :=
  fix go (ls : list layer) (v : pval) (rng : vrng) : nres (pval * list (list layer)) :=
    match ls with
    | [] => inl (v, [])
    | l :: ls' =>
        nb (f l (as_args v) (on_rng (fun k => snd (split2 k)) rng) kw) (fun r =>
        nb (go ls' (fst r) (on_rng (fun k => fst (split2 k)) rng)) (fun r' => inl (fst r', snd r :: snd r')))
    end.
Definition vleaf (n : nat) (c : lclass) (p : lparams) (nm : option string) (args : list arr) (rng : vrng) (kw : kwargs) : nres (pval * list layer) :=
  match l_info p with
  | IBatchNorm _ =>
      on1 (fun x => nb (bn_cau_batched p x kw) (fun r =>
        match rng with
        | PerExample _ => inl (One (lift n (fst r)), repeat (Leaf c (lift_params n (snd r)) nm) n)
        | _ => inl (One (fst r), repeat (Leaf c (snd r) nm) n)
        end)) args
  | _ =>
      nb (nmapM (fun i => call_and_update (Leaf c p nm) (map (fun a => row a i) args) (rng_at rng i) kw) (seq 0 n)) (fun rs =>
      nb (stack_vals (map fst rs)) (fun v => inl (v, map snd rs)))
  end.
Lemma vcau_S fuel n l args rng kw : vcau (S fuel) n l args rng kw =
  nb (through l) (fun l1 => match l1 with
    | Leaf c p nm => vleaf n c p nm args rng kw
    | Serial ls nm => nb (vchain (vcau fuel n) kw ls (Tup args) rng) (fun call => nb (vchain (vcau fuel n) kw ls (Tup args) rng) (fun upd =>
        inl (fst call, map (fun i => Serial (map (fun news => nth i news l) (snd upd)) nm) (seq 0 n))))
    end).
Proof. reflexivity. Qed.
Lemma vchain_ext f g kw ls : (forall l a r, In l ls -> f l a r kw = g l a r kw) -> forall v rng, vchain f kw ls v rng = vchain g kw ls v rng.
Proof.
  induction ls as [|l ls IH]; intros H v rng; [reflexivity|]. cbn. rewrite H by (left; reflexivity). destruct (g l (as_args v) _ kw) as [r|]; [|reflexivity].
  cbn. rewrite IH; [reflexivity|]. intros. apply H. right. assumption.
Qed.
Lemma vcau_fuel n0 f : forall g l args rng kw, depth l <= f -> depth l <= g -> vcau f n0 l args rng kw = vcau g n0 l args rng kw.
Proof.
  induction f as [|f IH]; intros g l args rng kw Hn Hm; [pose proof (depth_pos l); lia|]. destruct g as [|g]; [pose proof (depth_pos l); lia|].
  rewrite !vcau_S. destruct (through l) as [l1|e] eqn:E; [|reflexivity]. apply through_ok in E as [_ ->]. cbn [nb].
  destruct l as [c p nm|ls nm]; [reflexivity|]. cbn in Hn, Hm.
  rewrite (vchain_ext (vcau f n0) (vcau g n0)); [reflexivity|]. intros l a r Hl. apply depth_child in Hl. apply IH; lia.
Qed.
Definition vc (n : nat) (l : layer) (args : list arr) (rng : vrng) (kw : kwargs) := vcau (depth l) n l args rng kw.
Lemma vc_eq n l args rng kw : vc n l args rng kw = nb (through l) (fun _ => match l with
    | Leaf c p nm => vleaf n c p nm args rng kw
    | Serial ls nm => nb (vchain (vc n) kw ls (Tup args) rng) (fun r => inl (fst r, map (fun i => Serial (map (fun news => nth i news l) (snd r)) nm) (seq 0 n)))
    end).
Proof.
  unfold vc at 1. destruct (depth l) eqn:Ed; [pose proof (depth_pos l); lia|]. rewrite vcau_S. destruct (through l) as [l1|e] eqn:E; [|reflexivity].
  apply through_ok in E as [_ ->]. cbn [nb]. destruct l as [c p nm|ls nm]; [reflexivity|]. cbn in Ed.
  rewrite (vchain_ext (vcau n0 n) (vc n)); [destruct (vchain (vc n) kw ls (Tup args) rng); reflexivity|].
  intros l a r Hl. apply depth_child in Hl. apply vcau_fuel; [lia|reflexivity].
Qed.
Lemma vc_inhabited n l args rng kw r : vc n l args rng kw = inl r -> inhabited l.
Proof. rewrite vc_eq. intros H. apply nb_inl in H as (l1 & H & _). now apply through_ok in H as [H _]. Qed.
Lemma vmap_vc n l args rng kw r : vmap_call n l args rng kw = inl r <-> Forall (fun a => exists s, sh a = n :: s) args /\ vc n l args rng kw = inl r.
Proof.
  unfold vmap_call. destruct (forallb _ args) eqn:E.
  - split; [|intros [_ H]; exact H]. intros H. split; [|exact H]. rewrite forallb_forall in E. apply Forall_forall. intros a Ha. apply E in Ha. destruct (sh a) as [|d s]; [discriminate|]. apply Nat.eqb_eq in Ha as ->. eauto.
  - split; [discriminate|]. intros [H _]. assert (F : forallb (fun a => match sh a with d :: _ => d =? n | [] => false end) args = true); [|congruence].
    apply forallb_forall. rewrite Forall_forall in H. intros a Ha. apply H in Ha as (s & ->). apply Nat.eqb_refl.
Qed.
Lemma vleaf_plain n c p nm args rng kw : (forall b, l_info p <> IBatchNorm b) -> vleaf n c p nm args rng kw =
  nb (nmapM (fun i => call_and_update (Leaf c p nm) (map (fun a => row a i) args) (rng_at rng i) kw) (seq 0 n)) (fun rs => nb (stack_vals (map fst rs)) (fun v => inl (v, map snd rs))).
Proof. intros H. unfold vleaf. destruct (l_info p); try reflexivity. destruct (H b eq_refl). Qed.

(** ** C73 without batch rules *)
Definition per_example (n : nat) (l : layer) (args : list arr) (rng : vrng) (kw : kwargs) (out : pval) (news : list layer) : Prop :=
  List.length news = n /\ forall i, i < n -> exists new, nth_error news i = Some new /\
    call_and_update l (map (fun a => row a i) args) (own_key rng i) kw = inl (example i out, new).
Lemma own_key_at r i : own_key r i = rng_at r i.
Proof. reflexivity. Qed.
Lemma vc_examples n l : forall args rng kw out news, plain l -> vc n l args rng kw = inl (out, news) -> per_example n l args rng kw out news.
Proof.
  induction l as [c p nm|ls nm IH] using layer_ind'; intros args rng kw out news Hp H; rewrite vc_eq in H; apply nb_inl in H as (l1 & Ht & H).
  - inversion Hp as [? ? ? Hi|]; subst. rewrite (vleaf_plain _ _ _ _ _ _ _ Hi) in H. apply nb_inl in H as (rs & H1 & H). apply nb_inl in H as (v & H2 & H). injection H as -> <-.
    destruct (nmapM_nth _ _ _ H1) as [Hl Hn]. rewrite seq_length in Hl. split; [now rewrite map_length|]. intros i Hlt. destruct (Hn i i (seq_nth_error n i Hlt)) as ([o new] & Hr & E).
    exists new. split; [rewrite nth_error_map, Hr; reflexivity|]. rewrite own_key_at, E. f_equal. f_equal. symmetry. eapply stack_vals_row; [exact H2|]. rewrite nth_error_map, Hr. reflexivity.
  - inversion Hp as [|? ? Hps]; subst. apply nb_inl in H as ([o css] & H & E). injection E as <- <-. split; [now rewrite map_length, seq_length|]. intros i Hlt.
    exists (Serial (map (fun news => nth i news (Serial ls nm)) css) nm). split; [rewrite nth_error_map, seq_nth_error by exact Hlt; reflexivity|]. rewrite own_key_at. apply serial_ok.
    assert (Hne : ls <> []) by (apply through_ok in Ht as [Ht _]; inversion Ht; assumption). clear Ht.
    split; [exact Hne|]. exists (map (fun news => nth i news (Serial ls nm)) css). split; [reflexivity|]. cbn [fst].
    replace (Tup (map (fun a => row a i) args)) with (example i (Tup args)) by reflexivity. generalize (Serial ls nm) as d. intros d. clear Hp Hne. revert H. generalize (Tup args) as v. revert rng o css Hps. clear l1 args.
    induction IH as [|l ls Hl _ IHls]; intros rng o css Hps v H; cbn [vchain] in H.
    + injection H as <- <-. reflexivity.
    + inversion Hps as [|? ? P1 P2]; subst. apply nb_inl in H as ([o1 n1] & H1 & H). apply nb_inl in H as ([o2 n2] & H2 & H). injection H as <- <-. cbn [fst snd] in *.
      destruct (Hl _ _ _ _ _ P1 H1) as [Hlen Hex]. destruct (Hex i Hlt) as (new & Hn & E). cbn [chain]. rewrite own_key_at in E. rewrite example_args. rewrite <- rng_at_map, E. cbn [nb fst snd map].
      specialize (IHls _ _ _ P2 _ H2). rewrite rng_at_map in IHls. rewrite IHls. cbn [nb fst snd]. rewrite (nth_error_nth _ _ d Hn). reflexivity.
Qed.
Theorem C73_examples n l args rng kw out news : plain l -> vmap_call n l args rng kw = inl (out, news) -> per_example n l args rng kw out news.
Proof. intros Hp H. apply vmap_vc in H as [_ H]. now apply vc_examples. Qed.

(** the call succeeds as soon as it does for every example: for the layers of the library, initialised for one example *)
Lemma vc_total n t : forall ss l args rng kw, 0 < n -> instance t ss l -> admissible t ss -> plain l -> (forall i, i < n -> shapes (map (fun a => row a i) args) = ss) ->
  (forall i, i < n -> exists r, call_and_update l (map (fun a => row a i) args) (rng_at rng i) kw = inl r) -> exists r, vc n l args rng kw = inl r.
Proof.
  induction t as [c|ts IH] using template_ind'; intros ss l args rng kw Hn Hi Ha Hp Hs Hc.
  - inversion Hi as [? ? p nm Hinst|]; subst. inversion Hp as [? ? ? Hinfo|]; subst. rewrite vc_eq, through_inhabited by constructor. cbn [nb]. rewrite (vleaf_plain _ _ _ _ _ _ _ Hinfo).
    destruct (nmapM_total (fun i => call_and_update (Leaf c p nm) (map (fun a => row a i) args) (rng_at rng i) kw) (seq 0 n)) as (rs & E). { intros i Hin. apply in_seq in Hin. apply Hc. lia. }
    rewrite E. cbn [nb]. destruct (nmapM_nth _ _ _ E) as [Hl Hnth]. rewrite seq_length in Hl.
    destruct (c_spec c ss) as [sp|e] eqn:Esp.
    + destruct (stack_vals_ok (map fst rs) sp) as (v & ->).
      * destruct rs; [cbn in Hl; lia|discriminate].
      * intros w Hw. apply in_map_iff in Hw as ([o new] & <- & Hin). apply In_nth_error in Hin as (i & Hin). assert (Hlt : i < n) by (rewrite <- Hl; apply nth_error_Some; congruence).
        destruct (Hnth i i (seq_nth_error n i Hlt)) as (r & Hr & Er). rewrite Hin in Hr. injection Hr as <-. destruct (cau_shape _ _ _ _ _ _ _ _ Hi Ha (Hs i Hlt) Er) as [[T|(? & ? & ?)] _]; [|discriminate]. cbn in T. rewrite Esp in T. injection T as T. symmetry. exact T.
      * cbn [nb]. eauto.
    + exfalso. destruct (Hc 0 Hn) as ([o new] & E0). destruct (cau_shape _ _ _ _ _ _ _ _ Hi Ha (Hs 0 Hn) E0) as [[T|(? & ? & ?)] _]; [|discriminate]. cbn in T. congruence.
  - inversion Hi as [|? ? ls nm His]; subst. inversion Hp as [|? ? Hps]; subst. assert (Hin : inhabited (Serial ls nm)). { destruct (Hc 0 Hn) as ([o new] & E0). apply cau_inhabited in E0 as [E0 _]. exact E0. }
    rewrite vc_eq, through_inhabited by exact Hin. cbn [nb].
    assert (G : exists r, vchain (vc n) kw ls (Tup args) rng = inl r); [|destruct G as (r & ->); cbn [nb]; eauto].
    assert (Hch : forall i, i < n -> exists r, chain call_and_update kw ls (example i (Tup args)) (rng_at rng i) = inl r).
    { intros i Hlt. destruct (Hc i Hlt) as ([o new] & E). apply serial_ok in E as (_ & ls' & _ & E). eauto. }
    assert (Hsv : forall i, i < n -> shapes (as_args (example i (Tup args))) = ss) by exact Hs. cbn [admissible] in Ha. set (ga := fix go (ts : list template) (ss : list spec) {struct ts} : Prop := _) in Ha.
    clear Hi Hp Hs Hc Hin. revert Hch Hsv. generalize (Tup args) as v. clear args. revert rng ss ls His Hps Ha.
    induction IH as [|t ts Ht _ IHts]; intros rng ss ls His Hps Ha v Hch Hsv; inversion His as [|? ? ? l1 ls1 v1 J1 J2 J3]; subst; [cbn; eauto|]. inversion Hps as [|? ? P1 P2]; subst. destruct Ha as [Ha1 Ha2].
    cbn [vchain]. assert (H1 : exists r, vc n l1 (as_args v) (on_rng (fun k => snd (split2 k)) rng) kw = inl r).
    { eapply Ht; [exact Hn|exact J1|exact Ha1|exact P1| |].
      - intros i Hlt. rewrite <- example_args. apply Hsv, Hlt.
      - intros i Hlt. destruct (Hch i Hlt) as (r & E). cbn [chain] in E. apply nb_inl in E as (r1 & E & _). rewrite example_args in E. rewrite rng_at_map. eauto. }
    destruct H1 as ([o1 n1] & H1). rewrite H1. cbn [nb fst snd]. destruct (vc_examples _ _ _ _ _ _ _ P1 H1) as [_ Hex].
    destruct (IHts (on_rng (fun k => fst (split2 k)) rng) (as_specs v1) ls1 J3 P2 (Ha2 _ J2) o1) as (r2 & H2).
    + intros i Hlt. destruct (Hch i Hlt) as (r & E). cbn [chain] in E. apply nb_inl in E as (r1 & E1 & E). apply nb_inl in E as (r2 & E2 & _). destruct (Hex i Hlt) as (new & _ & E3).
      rewrite own_key_at, rng_at_map in E3. rewrite example_args in E1. rewrite E3 in E1. injection E1 as <-. rewrite rng_at_map. eauto.
    + intros i Hlt. destruct (Hex i Hlt) as (new & _ & E3). rewrite own_key_at in E3. rewrite <- example_args in E3. destruct (cau_shape _ _ _ _ _ _ _ _ J1 Ha1 (Hsv i Hlt) E3) as [[T|(tz & -> & ->)] _].
      * rewrite J2 in T. injection T as ->. symmetry. apply shape_of_args.
      * inversion J1 as [|? ? lz nz J4]; subst. inversion J4; subst. destruct (C60_empty_serial_raises nz (as_args (example i v)) (rng_at (on_rng (fun k => snd (split2 k)) rng) i) kw) as (e & He). congruence.
    + rewrite H2. cbn [nb]. eauto.
Qed.
Theorem C73_succeeds n t ss l args rng kw : 0 < n -> reached t ss l -> admissible t ss -> plain l -> Forall (fun a => exists s, sh a = n :: s) args -> shapes (map (fun a => row a 0) args) = ss ->
  (forall i, i < n -> exists r, call_and_update l (map (fun a => row a i) args) (own_key rng i) kw = inl r) -> exists out news, vmap_call n l args rng kw = inl (out, news).
Proof.
  intros Hn Hr Ha Hp Hs Hss Hc. assert (Hi : instance t ss l).
  { clear - Hr Ha. induction Hr as [name k l H|l args rng kw out l' Hr IH Hs H]; [eapply init_instance, H|]. eapply cau_shape; eauto. }
  destruct (vc_total n t ss l args rng kw Hn Hi Ha Hp) as ([o ls] & E); [|exact Hc|exists o, ls; apply vmap_vc; auto].
  intros i _. rewrite <- Hss. unfold shapes. rewrite !map_map. reflexivity.
Qed.
End nn.
