From Verif Require Import EinsumModel.

(** ** jnp.einsum in terms of a size function *)
Section einsum.
  Variables (K : Type) (k0 k1 : K) (kadd kmul : K -> K -> K).
  Notation einsum := (einsum K k0 k1 kadd kmul).
  Notation term := (term K k0 k1 kmul).
  Notation sumA := (sumL K k0 kadd ascii_dec).
  Definition sized (d : ascii -> nat) (ins : list (list ascii)) (ops : list (array K)) : Prop :=
    Forall2 (fun i o => shape o = map d i) ins ops.
  Definition value (d : ascii -> nat) (f : formula) (ops : list (array K)) : array K :=
    tabulate (map d (fout f)) (fun ix => sumA (summed (fins f) (fout f)) d (assign ascii_dec (fout f) ix) (term (fins f) ops)).

  Lemma dim_of_uniform d ps l : (forall x n, In (x, n) ps -> n = d x) -> In l (map fst ps) -> dim_of ps l = d l.
  Proof.
    induction ps as [|[x n] ps IH]; simpl; intros H Hl; [tauto|]. destruct (ascii_dec l x) as [->|Hne].
    - apply H. auto.
    - apply IH; [intros; apply H; auto|]. destruct Hl; [congruence|assumption].
  Qed.
  Lemma pairs_sized d ins ops : sized d ins ops -> (forall x n, In (x, n) (pairs K ins ops) -> n = d x) /\ map fst (pairs K ins ops) = concat ins.
  Proof.
    intros H. unfold pairs. induction H as [|i o ins ops Hio HF [IH1 IH2]]; simpl; [split; [intros ? ? []|reflexivity]|].
    rewrite Hio. split.
    - intros x n Hx. apply in_app_or in Hx as [Hx|Hx]; [|apply IH1, Hx].
      clear -Hx. induction i as [|l i IH]; simpl in Hx; [tauto|]. destruct Hx as [E|Hx]; [congruence|auto].
    - rewrite map_app, IH2. f_equal. clear. induction i as [|l i IH]; simpl; [reflexivity|]. f_equal. assumption.
  Qed.
  Lemma summed_In ins out l : In l (summed ins out) <-> In l (concat ins) /\ ~ In l out.
  Proof.
    unfold summed, letters. rewrite filter_In, nodup_In. destruct (in_dec ascii_dec l out); intuition congruence.
  Qed.
  Lemma NoDup_summed ins out : NoDup (summed ins out).
  Proof. apply NoDup_filter, NoDup_nodup. Qed.
  Lemma nodupb_spec l : nodupb l = true <-> NoDup l.
  Proof.
    unfold nodupb. destruct (list_eq_dec ascii_dec (nodup ascii_dec l) l) as [e|n]; split; try congruence; intros H.
    - rewrite <- e. apply NoDup_nodup.
    - exfalso. apply n. apply nodup_fixed_point. assumption.
  Qed.

  Lemma einsum_intro d f ops : sized d (fins f) ops -> NoDup (fout f) -> incl (fout f) (concat (fins f)) -> einsum f ops = inl (value d f ops).
  Proof.
    intros Hs Hn Hi. destruct (pairs_sized _ _ _ Hs) as [Hp Hk].
    assert (Hd : forall l, In l (concat (fins f)) -> dim_of (pairs K (fins f) ops) l = d l).
    { intros l Hl. apply dim_of_uniform; [assumption|]. rewrite Hk. assumption. }
    assert (Hok : einsum_ok K (fins f) (fout f) ops = true).
    { unfold einsum_ok. rewrite !andb_true_iff. repeat split.
      - apply Nat.eqb_eq. clear -Hs. induction Hs; simpl; congruence.
      - apply forallb_forall. intros [i o] Hio. apply Nat.eqb_eq. simpl. clear -Hs Hio.
        induction Hs as [|i' o' ins ops H HF IH]; simpl in Hio; [tauto|]. destruct Hio as [E|Hio]; [|auto].
        injection E as -> ->. rewrite H, map_length. reflexivity.
      - apply forallb_forall. intros [l n] Hln. simpl. apply Nat.eqb_eq. rewrite (Hp l n Hln). apply Hd. rewrite <- Hk.
        apply (in_map fst) in Hln. exact Hln.
      - apply nodupb_spec. assumption.
      - apply forallb_forall. intros l Hl. destruct (in_dec ascii_dec l (concat (fins f))); [reflexivity|]. exfalso. auto. }
    unfold EinsumModel.einsum. rewrite Hok. f_equal. unfold value.
    rewrite (map_ext_in _ d) by (intros l Hl; apply Hd, Hi, Hl).
    apply tabulate_ext. intros ix _. apply sumL_dims. intros l Hl. apply summed_In in Hl as [Hl _]. apply Hd, Hl.
  Qed.
  Lemma einsum_inv f ops a : einsum f ops = inl a ->
    exists d, sized d (fins f) ops /\ NoDup (fout f) /\ incl (fout f) (concat (fins f)) /\ a = value d f ops.
  Proof.
    unfold EinsumModel.einsum. destruct (einsum_ok K (fins f) (fout f) ops) eqn:Hok; [|discriminate]. injection 1 as <-.
    exists (dim_of (pairs K (fins f) ops)). unfold einsum_ok in Hok. rewrite !andb_true_iff in Hok.
    destruct Hok as [[[[H1 H2] H3] H4] H5]. split; [|split; [now apply nodupb_spec|split; [|reflexivity]]].
    - apply Nat.eqb_eq in H1. rewrite forallb_forall in H2, H3. unfold sized.
      set (d := dim_of _) in *. clearbody d. unfold pairs in H3. clear H4 H5.
      revert ops H1 H2 H3. induction (fins f) as [|i ins IH]; intros [|o ops] H1 H2 H3; simpl in *; try discriminate; constructor.
      + assert (Hl : List.length i = List.length (shape o)) by (apply Nat.eqb_eq, (H2 (i, o)); auto).
        assert (Hp : forall l n, In (l, n) (combine i (shape o)) -> d l = n).
        { intros l n Hln. apply Nat.eqb_eq, (H3 (l, n)). apply in_or_app. auto. }
        clear -Hl Hp. revert Hl Hp. generalize (shape o). induction i as [|l i IH]; intros [|n s] Hl Hp; simpl in *; try discriminate; [reflexivity|].
        rewrite (Hp l n) by auto. f_equal. apply IH; [congruence|]. intros; apply Hp; auto.
      + apply IH; [congruence|auto|]. intros x Hx. apply H3. apply in_or_app. auto.
    - rewrite forallb_forall in H5. intros l Hl. specialize (H5 l Hl). destruct (in_dec ascii_dec l (concat (fins f))); [assumption|discriminate].
  Qed.
  Lemma sized_app d i1 i2 o1 o2 : List.length i1 = List.length o1 -> sized d (i1 ++ i2) (o1 ++ o2) <-> sized d i1 o1 /\ sized d i2 o2.
  Proof.
    unfold sized. revert o1. induction i1 as [|i i1 IH]; intros [|o o1] Hl; simpl in *; try discriminate.
    - split; [intros; split; [constructor|assumption]|tauto].
    - injection Hl as Hl. specialize (IH _ Hl). split.
      + intros H. inversion H; subst. apply IH in H5 as [H1 H2]. split; [constructor|]; assumption.
      + intros [H1 H2]. inversion H1; subst. constructor; [assumption|]. apply IH. auto.
  Qed.
  Lemma sized_len d ins ops : sized d ins ops -> List.length ins = List.length ops.
  Proof. induction 1; simpl; congruence. Qed.
  Lemma term_ext ins ops : forall s s', (forall l, In l (concat ins) -> s l = s' l) -> term ins ops s = term ins ops s'.
  Proof.
    intros s s' H. unfold EinsumModel.term. f_equal. apply map_ext_in. intros [i o] Hio. simpl. f_equal. apply map_ext_in.
    intros l Hl. apply H. apply in_concat. exists i. split; [|assumption]. apply in_combine_l in Hio. assumption.
  Qed.
  Lemma term_rename (m : ascii -> ascii) ins ops s : term (map (map m) ins) ops s = term ins ops (fun l => s (m l)).
  Proof.
    unfold EinsumModel.term. f_equal. revert ops. induction ins as [|i ins IH]; intros [|o ops]; simpl; try reflexivity.
    rewrite map_map, IH. reflexivity.
  Qed.
End einsum.

(** ** The substitution made by compose_einsums *)
Definition extM (M M' : smap) : Prop := forall k a, mget M k = Some a -> mget M' k = Some a.
Lemma extM_refl M : extM M M. Proof. intros k a H; exact H. Qed.
Lemma extM_trans A B C : extM A B -> extM B C -> extM A C. Proof. intros H1 H2 k a H. auto. Qed.
Lemma mget_In M k a : mget M k = Some a -> In (k, a) M.
Proof. induction M as [|[k' a'] M IH]; simpl; [discriminate|]. destruct (key_dec k k'); [injection 1 as ->; subst; auto|auto]. Qed.

Section subst.
  Variable cl : list (ascii * ascii).     (* child output letter, parent letter *)
  Hypothesis cl_nodup : NoDup (map fst cl).
  Definition root (k : key) : key :=
    match k with
    | KP l => KP l
    | KC c => match find (fun p => if ascii_dec (fst p) c then true else false) cl with Some (_, l) => KP l | None => KC c end
    end.
  Lemma root_link c l : In (c, l) cl -> root (KC c) = KP l.
  Proof.
    intros H. simpl. revert H cl_nodup. induction cl as [|[c' l'] r IH]; simpl; [tauto|]. intros [E|H] Hn.
    - injection E as -> ->. destruct (ascii_dec c c); [reflexivity|congruence].
    - inversion Hn; subst. destruct (ascii_dec c' c) as [->|]; [|auto]. exfalso. apply H2. apply (in_map fst) in H. exact H.
  Qed.
  Lemma root_free c : ~ In c (map fst cl) -> root (KC c) = KC c.
  Proof.
    intros H. simpl. induction cl as [|[c' l'] r IH]; simpl; [reflexivity|]. destruct (ascii_dec c' c) as [->|Hne].
    - exfalso. apply H. left. reflexivity.
    - apply IH; [inversion cl_nodup; assumption|]. intros Hx. apply H. right. assumption.
  Qed.

  Definition Inv (st : sstate) : Prop :=
    NoDup (snd st) /\ (forall k a, mget (fst st) k = Some a -> ~ In a (snd st)) /\
    (forall k k' a, mget (fst st) k = Some a -> mget (fst st) k' = Some a -> root k = root k').

  Lemma access_inv k st r : Inv st -> access k st = inl r ->
    Inv (snd r) /\ extM (fst st) (fst (snd r)) /\ mget (fst (snd r)) k = Some (fst r).
  Proof.
    intros (Hn & Hr & Hroot) H. unfold access in H. destruct (mget (fst st) k) as [a|] eqn:Hk.
    - injection H as <-. simpl. split; [repeat split; assumption|]. split; [apply extM_refl|assumption].
    - destruct st as [M [|a rem]]; simpl in *; [discriminate|]. injection H as <-. simpl.
      assert (Hext : extM M ((k, a) :: M)). { intros k' a' H'. simpl. destruct (key_dec k' k); [congruence|assumption]. }
      inversion Hn as [|? ? Ha Hn']; subst. split; [|split; [assumption|destruct (key_dec k k); congruence]].
      split; [assumption|]. split.
      + intros k' a' H'. simpl in H'. destruct (key_dec k' k); [injection H' as <-; assumption|].
        intros Hin. apply (Hr _ _ H'). right. assumption.
      + intros k1 k2 a' H1 H2. simpl in H1, H2. destruct (key_dec k1 k), (key_dec k2 k); subst; try congruence.
        * injection H1 as <-. exfalso. apply (Hr _ _ H2). left. reflexivity.
        * injection H2 as <-. exfalso. apply (Hr _ _ H1). left. reflexivity.
        * eapply Hroot; eassumption.
  Qed.
  Lemma access_all_inv mk ls : forall st r, Inv st -> access_all mk ls st = inl r ->
    Inv (snd r) /\ extM (fst st) (fst (snd r)) /\ Forall2 (fun l a => mget (fst (snd r)) (mk l) = Some a) ls (fst r).
  Proof.
    induction ls as [|l ls IH]; intros st r HI H; simpl in H.
    - injection H as <-. simpl. split; [assumption|]. split; [apply extM_refl|constructor].
    - destruct (access (mk l) st) as [r1|] eqn:H1; [|discriminate]. simpl in H.
      destruct (access_all mk ls (snd r1)) as [r2|] eqn:H2; [|discriminate]. injection H as <-. simpl.
      destruct (access_inv _ _ _ HI H1) as (HI1 & HE1 & Hg1). destruct (IH _ _ HI1 H2) as (HI2 & HE2 & HF).
      split; [assumption|]. split; [eapply extM_trans; eassumption|]. constructor; [apply HE2, Hg1|assumption].
  Qed.
  Lemma access_alls_inv mk lss : forall st r, Inv st -> access_alls mk lss st = inl r ->
    Inv (snd r) /\ extM (fst st) (fst (snd r)) /\ Forall2 (Forall2 (fun l a => mget (fst (snd r)) (mk l) = Some a)) lss (fst r).
  Proof.
    induction lss as [|ls lss IH]; intros st r HI H; simpl in H.
    - injection H as <-. simpl. split; [assumption|]. split; [apply extM_refl|constructor].
    - destruct (access_all mk ls st) as [r1|] eqn:H1; [|discriminate]. simpl in H.
      destruct (access_alls mk lss (snd r1)) as [r2|] eqn:H2; [|discriminate]. injection H as <-. simpl.
      destruct (access_all_inv _ _ _ _ HI H1) as (HI1 & HE1 & Hg1). destruct (IH _ _ HI1 H2) as (HI2 & HE2 & HF).
      split; [assumption|]. split; [eapply extM_trans; eassumption|]. constructor; [|assumption].
      clear -Hg1 HE2. induction Hg1; constructor; auto.
  Qed.
  Lemma link_inv l : forall pre st st', cl = pre ++ l -> Inv st -> (forall c, In c (map fst l) -> mget (fst st) (KC c) = None) ->
    link l st = inl st' ->
    Inv st' /\ extM (fst st) (fst st') /\
    (forall c p, In (c, p) l -> exists a, mget (fst st') (KC c) = Some a /\ mget (fst st') (KP p) = Some a).
  Proof.
    induction l as [|[c p] l IH]; intros pre st st' Hcl HI Hnone H; simpl in H.
    - injection H as <-. split; [assumption|]. split; [apply extM_refl|intros ? ? []].
    - destruct (access (KP p) st) as [r|] eqn:H1; [|discriminate]. simpl in H.
      destruct (access_inv _ _ _ HI H1) as ((Hn & Hr & Hroot) & HE1 & Hg).
      assert (HnodupL : NoDup (map fst ((c, p) :: l))).
      { rewrite Hcl in cl_nodup. rewrite map_app in cl_nodup. clear -cl_nodup. induction (map fst pre) as [|x xs IH]; [assumption|].
        apply IH. inversion cl_nodup; assumption. }
      assert (Hkc : forall c', In c' (map fst ((c, p) :: l)) -> mget (fst (snd r)) (KC c') = None).
      { intros c' Hc'. unfold access in H1. specialize (Hnone c' Hc'). destruct (mget (fst st) (KP p)); [injection H1 as <-; exact Hnone|].
        destruct (snd st); [discriminate|]. injection H1 as <-. simpl. destruct (key_dec (KC c') (KP p)); [discriminate|assumption]. }
      assert (Hext : extM (fst (snd r)) ((KC c, fst r) :: fst (snd r))).
      { intros k a Hk. simpl. destruct (key_dec k (KC c)) as [->|]; [|assumption]. rewrite (Hkc c) in Hk by (left; reflexivity). discriminate. }
      assert (Hrc : root (KC c) = root (KP p)).
      { rewrite (root_link c p); [reflexivity|]. rewrite Hcl. apply in_or_app. right. left. reflexivity. }
      assert (HI2 : Inv ((KC c, fst r) :: fst (snd r), snd (snd r))).
      { split; [assumption|]. split.
        - intros k a Hk. simpl in Hk. destruct (key_dec k (KC c)); [injection Hk as <-|]; [eapply Hr, Hg|eapply Hr, Hk].
        - intros k1 k2 a Hk1 Hk2. simpl in Hk1, Hk2. destruct (key_dec k1 (KC c)), (key_dec k2 (KC c)); subst; try reflexivity.
          + injection Hk1 as <-. rewrite Hrc. eapply Hroot; eassumption.
          + injection Hk2 as <-. rewrite Hrc. eapply Hroot; eassumption.
          + eapply Hroot; eassumption. }
      apply NoDup_cons_iff in HnodupL as [Hcn Hnl].
      assert (Hcl2 : cl = (pre ++ [(c, p)]) ++ l) by (rewrite <- app_assoc; exact Hcl).
      assert (Hnone2 : forall c', In c' (map fst l) -> mget ((KC c, fst r) :: fst (snd r)) (KC c') = None).
      { intros c' Hc'. simpl. destruct (key_dec (KC c') (KC c)) as [e|]; [injection e as ->; contradiction|]. apply Hkc. right. assumption. }
      destruct (IH (pre ++ [(c, p)]) _ _ Hcl2 HI2 Hnone2 H) as (HI3 & HE3 & Hl3).
      split; [assumption|]. split; [eapply extM_trans; [exact HE1|eapply extM_trans; [exact Hext|exact HE3]]|].
      intros c' p' [E|Hin]; [|auto]. injection E as <- <-. exists (fst r). split.
      + apply HE3. simpl. destruct (key_dec (KC c) (KC c)); congruence.
      + apply HE3, Hext, Hg.
  Qed.
End subst.
Lemma letters_NoDup : NoDup einsum_letters.
Proof.
  assert (H : nodup ascii_dec einsum_letters = einsum_letters) by (vm_compute; reflexivity).
  rewrite <- H. apply NoDup_nodup.
Qed.

Lemma Forall2_map_fun (M : smap) (mk : ascii -> key) d ls r :
  Forall2 (fun l a => mget M (mk l) = Some a) ls r ->
  r = map (fun l => match mget M (mk l) with Some a => a | None => d end) ls /\ (forall l, In l ls -> mget M (mk l) <> None).
Proof.
  induction 1 as [|l a ls r H HF [-> IH]]; simpl; [split; [reflexivity|intros ? []]|]. rewrite H. split; [reflexivity|].
  intros l' [<-|Hl]; [congruence|auto].
Qed.
Lemma Forall2_maps_fun (M : smap) (mk : ascii -> key) d lss rs :
  Forall2 (Forall2 (fun l a => mget M (mk l) = Some a)) lss rs ->
  rs = map (map (fun l => match mget M (mk l) with Some a => a | None => d end)) lss /\ (forall l, In l (concat lss) -> mget M (mk l) <> None).
Proof.
  induction 1 as [|ls r lss rs H HF [-> IH]]; simpl; [split; [reflexivity|intros ? []]|].
  destruct (Forall2_map_fun _ _ d _ _ H) as [-> H2]. split; [reflexivity|]. intros l Hl. apply in_app_or in Hl as [Hl|Hl]; auto.
Qed.

(** what compose_formula returns *)
Lemma compose_formula_inv parent n child f : NoDup (fout child) -> compose_formula parent n child = inl f ->
  exists left old right (mp mc : ascii -> ascii),
    fins parent = left ++ old :: right /\ List.length left = n /\ List.length old = List.length (fout child) /\
    fins f = map (map mp) left ++ map (map mc) (fins child) ++ map (map mp) right /\ fout f = map mp (fout parent) /\
    (forall l l', In l (concat (fins parent) ++ fout parent) -> In l' (concat (fins parent) ++ fout parent) -> mp l = mp l' -> l = l') /\
    (forall c l, In (c, l) (combine (fout child) old) -> In c (concat (fins child)) -> mc c = mp l) /\
    (forall c l, In c (concat (fins child)) -> ~ In c (fout child) -> In l (concat (fins parent) ++ fout parent) -> mc c <> mp l) /\
    (forall c c', In c (concat (fins child)) -> ~ In c (fout child) -> In c' (concat (fins child)) -> mc c' = mc c -> c' = c).
Proof.
  intros Hnd H. unfold compose_formula in H.
  destruct (nth_error (fins parent) n) as [old|] eqn:Hnth; [|discriminate].
  destruct (nth_error_split _ _ Hnth) as (left & right & Hsplit & Hlen).
  destruct (Nat.eqb_spec (List.length (fout child)) (List.length old)) as [Hlo|]; [|discriminate].
  assert (Hpins : firstn n (fins parent) ++ skipn (S n) (fins parent) = left ++ right).
  { rewrite Hsplit, <- Hlen. clear. induction left as [|x left IH]; simpl; [reflexivity|]. f_equal. exact IH. }
  rewrite Hpins in H.
  set (cl := combine (fout child) old) in *.
  assert (Hcl : map fst cl = fout child). { unfold cl. clear -Hlo. revert old Hlo. induction (fout child); intros [|? ?] E; simpl in *; try discriminate; [reflexivity|]. f_equal. apply IHl. congruence. }
  assert (Hcl_nd : NoDup (map fst cl)) by (rewrite Hcl; assumption).
  assert (HI0 : Inv cl ([], einsum_letters)).
  { split; [apply letters_NoDup|]. split; simpl; intros; discriminate. }
  destruct (access_alls KP (left ++ right) ([], einsum_letters)) as [[ins1 st1]|] eqn:H1; [|discriminate]. simpl in H.
  destruct (access_all KP (fout parent) st1) as [[out st2]|] eqn:H2; [|discriminate]. simpl in H.
  destruct (link cl st2) as [st3|] eqn:H3; [|discriminate]. simpl in H.
  destruct (access_alls KC (fins child) st3) as [[ins4 st4]|] eqn:H4; [|discriminate]. simpl in H. injection H as <-. simpl.
  destruct (access_alls_inv cl KP _ _ _ HI0 H1) as (HI1 & HE1 & HF1). simpl in *.
  destruct (access_all_inv cl KP _ _ _ HI1 H2) as (HI2 & HE2 & HF2). simpl in *.
  assert (Hkc : forall c, mget (fst st2) (KC c) = None).
  { assert (Hacc : forall l st r c, mget (fst st) (KC c) = None -> access (KP l) st = inl r -> mget (fst (snd r)) (KC c) = None).
    { intros l st r c Hn Ha. unfold access in Ha. destruct (mget (fst st) (KP l)); [injection Ha as <-; assumption|].
      destruct (snd st); [discriminate|]. injection Ha as <-. simpl. destruct (key_dec (KC c) (KP l)); [discriminate|assumption]. }
    assert (Hall : forall ls st r c, mget (fst st) (KC c) = None -> access_all KP ls st = inl r -> mget (fst (snd r)) (KC c) = None).
    { induction ls as [|l ls IH]; intros st r c Hn Ha; simpl in Ha; [injection Ha as <-; assumption|].
      destruct (access (KP l) st) as [r1|] eqn:E1; [|discriminate]. simpl in Ha. destruct (access_all KP ls (snd r1)) as [r2|] eqn:E2; [|discriminate].
      injection Ha as <-. simpl. eapply IH; [|eassumption]. eapply Hacc; eassumption. }
    assert (Halls : forall lss st r c, mget (fst st) (KC c) = None -> access_alls KP lss st = inl r -> mget (fst (snd r)) (KC c) = None).
    { induction lss as [|ls lss IH]; intros st r c Hn Ha; simpl in Ha; [injection Ha as <-; assumption|].
      destruct (access_all KP ls st) as [r1|] eqn:E1; [|discriminate]. simpl in Ha. destruct (access_alls KP lss (snd r1)) as [r2|] eqn:E2; [|discriminate].
      injection Ha as <-. simpl. eapply IH; [|eassumption]. eapply Hall; eassumption. }
    intros c. apply (Hall (fout parent) st1 (out, st2) c); [|assumption].
    apply (Halls (left ++ right) ([], einsum_letters) (ins1, st1) c); [reflexivity|assumption]. }
  destruct (link_inv cl Hcl_nd cl [] st2 st3 eq_refl HI2 (fun c _ => Hkc c) H3) as (HI3 & HE3 & HL3).
  destruct (access_alls_inv cl KC _ _ _ HI3 H4) as (HI4 & HE4 & HF4). simpl in *.
  set (M := fst st4) in *.
  pose (dummy := "a"%char).
  pose (mp := fun l => match mget M (KP l) with Some a => a | None => dummy end).
  pose (mc := fun l => match mget M (KC l) with Some a => a | None => dummy end).
  assert (HE24 : extM (fst st2) M) by (eapply extM_trans; eassumption).
  assert (HE14 : extM (fst st1) M) by (eapply extM_trans; eassumption).
  assert (HF1' : Forall2 (Forall2 (fun l a => mget M (KP l) = Some a)) (left ++ right) ins1).
  { clear -HF1 HE14. induction HF1 as [|ls r lss rs H HF IH]; constructor; [|assumption]. induction H; constructor; auto. }
  assert (HF2' : Forall2 (fun l a => mget M (KP l) = Some a) (fout parent) out).
  { clear -HF2 HE24. induction HF2; constructor; auto. }
  destruct (Forall2_maps_fun M KP dummy _ _ HF1') as [E1 D1]. destruct (Forall2_map_fun M KP dummy _ _ HF2') as [E2 D2].
  destruct (Forall2_maps_fun M KC dummy _ _ HF4) as [E4 D4]. fold mp in E1, E2. fold mc in E4.
  assert (Dold : forall l, In l old -> mget M (KP l) <> None).
  { intros l Hl. assert (Hin : exists c, In (c, l) cl).
    { unfold cl. clear -Hl Hlo. revert Hl Hlo. generalize (fout child). induction old as [|x old IH]; intros [|c cs] Hl Hlo; simpl in *; try discriminate; [tauto|].
      destruct Hl as [<-|Hl]; [exists c; auto|]. destruct (IH cs Hl) as [c' Hc']; [congruence|]. exists c'. auto. }
    destruct Hin as [c Hc]. destruct (HL3 c l Hc) as (a & _ & Ha). rewrite (HE4 _ _ Ha). discriminate. }
  assert (DP : forall l, In l (concat (fins parent) ++ fout parent) -> exists a, mget M (KP l) = Some a /\ mp l = a).
  { intros l Hl. assert (Hne : mget M (KP l) <> None).
    { apply in_app_or in Hl as [Hl|Hl]; [|auto]. rewrite Hsplit, concat_app in Hl. simpl in Hl.
      apply in_app_or in Hl as [Hl|Hl]; [apply D1; rewrite concat_app; apply in_or_app; auto|].
      apply in_app_or in Hl as [Hl|Hl]; [auto|]. apply D1. rewrite concat_app. apply in_or_app. auto. }
    unfold mp. destruct (mget M (KP l)) as [a|]; [|congruence]. exists a. auto. }
  assert (DC : forall c, In c (concat (fins child)) -> exists a, mget M (KC c) = Some a /\ mc c = a).
  { intros c Hc. specialize (D4 c Hc). unfold mc. destruct (mget M (KC c)) as [a|]; [|congruence]. exists a. auto. }
  destruct HI4 as (_ & _ & Hroot).
  exists left, old, right, mp, mc. split; [assumption|]. split; [assumption|]. split; [congruence|]. split.
  { rewrite E1, map_app. rewrite firstn_app, skipn_app, map_length, Hlen, Nat.sub_diag. simpl.
    rewrite firstn_all2, skipn_all2 by (rewrite map_length; lia). rewrite app_nil_r. simpl. rewrite E4. reflexivity. }
  split; [assumption|]. split; [|split; [|split]].
  - intros l l' Hl Hl' Heq. destruct (DP l Hl) as (a & Ha & E). destruct (DP l' Hl') as (a' & Ha' & E').
    assert (Haa : a' = a) by congruence. rewrite Haa in Ha'. specialize (Hroot _ _ _ Ha Ha'). simpl in Hroot. congruence.
  - intros c l Hcl' Hc. destruct (HL3 c l Hcl') as (a & Ha & Ha'). unfold mc, mp. rewrite (HE4 _ _ Ha), (HE4 _ _ Ha'). reflexivity.
  - intros c l Hc Hco Hl Heq. destruct (DC c Hc) as (a & Ha & E). destruct (DP l Hl) as (a' & Ha' & E').
    assert (Haa : a' = a) by congruence. rewrite Haa in Ha'. specialize (Hroot _ _ _ Ha Ha'). rewrite (root_free cl Hcl_nd c) in Hroot by (rewrite Hcl; assumption).
    simpl in Hroot. discriminate.
  - intros c c' Hc Hco Hc' Heq. destruct (DC c Hc) as (a & Ha & E). destruct (DC c' Hc') as (a' & Ha' & E').
    assert (Haa : a' = a) by congruence. rewrite Haa in Ha'. specialize (Hroot _ _ _ Ha Ha'). rewrite (root_free cl Hcl_nd c) in Hroot by (rewrite Hcl; assumption).
    destruct (in_dec ascii_dec c' (map fst cl)) as [Hi|Hi].
    + apply in_map_iff in Hi as ([c0 l0] & E0 & Hi). simpl in E0. subst c0. rewrite (root_link cl Hcl_nd c' l0 Hi) in Hroot. discriminate.
    + rewrite (root_free cl Hcl_nd c' Hi) in Hroot. congruence.
Qed.

(** ** Composition *)
Section compose.
  Variables (K : Type) (k0 k1 : K) (kadd kmul : K -> K -> K).
  Hypothesis SR : semi_ring_theory k0 k1 kadd kmul eq.
  Notation einsum := (einsum K k0 k1 kadd kmul).
  Notation term := (term K k0 k1 kmul).
  Notation sumA := (sumL K k0 kadd ascii_dec).
  Notation value := (value K k0 k1 kadd kmul).
  Notation sized := (sized K).

  Lemma combine_app' {A B} (a1 a2 : list A) (b1 b2 : list B) : List.length a1 = List.length b1 ->
    combine (a1 ++ a2) (b1 ++ b2) = combine a1 b1 ++ combine a2 b2.
  Proof. revert b1. induction a1 as [|x a1 IH]; intros [|y b1] H; simpl in *; try discriminate; [reflexivity|]. f_equal. apply IH. congruence. Qed.
  Lemma term_app i1 i2 o1 o2 s : List.length i1 = List.length o1 -> term (i1 ++ i2) (o1 ++ o2) s = kmul (term i1 o1 s) (term i2 o2 s).
  Proof. intros H. unfold EinsumModel.term. rewrite combine_app' by assumption. rewrite map_app. exact (prod_app K k0 k1 kadd kmul SR _ _). Qed.
  Lemma assign_map (m : ascii -> ascii) ls ix l : (forall l', In l' ls -> m l' = m l -> l' = l) ->
    assign ascii_dec (map m ls) ix (m l) = assign ascii_dec ls ix l.
  Proof.
    revert ix. induction ls as [|l0 ls IH]; intros [|i ix] H; simpl; try reflexivity. unfold upd.
    destruct (ascii_dec (m l) (m l0)) as [e|ne]; destruct (ascii_dec l l0) as [e'|ne']; try reflexivity.
    - exfalso. apply ne'. symmetry. apply H; [left; reflexivity|congruence].
    - subst. congruence.
    - apply IH. intros; apply H; [right|]; assumption.
  Qed.
  Lemma NoDup_map_inj {A B} (m : A -> B) ls : NoDup ls -> (forall l l', In l ls -> In l' ls -> m l = m l' -> l = l') -> NoDup (map m ls).
  Proof.
    induction 1 as [|l ls Hl Hn IH]; intros Hinj; simpl; constructor.
    - intros Hx. apply in_map_iff in Hx as (l' & E & Hl'). apply Hl. rewrite (Hinj l l'); simpl; auto.
    - apply IH. intros; apply Hinj; simpl; auto.
  Qed.
  Lemma NoDup_app_disj {A} (a b : list A) : NoDup a -> NoDup b -> (forall x, In x a -> ~ In x b) -> NoDup (a ++ b).
  Proof.
    induction 1 as [|x a Hx Hn IH]; intros Hb Hd; simpl; [assumption|]. constructor.
    - intros H. apply in_app_or in H as [H|H]; [contradiction|]. apply (Hd x); simpl; auto.
    - apply IH; [assumption|]. intros y Hy. apply Hd. simpl. auto.
  Qed.
  Lemma sized_map d dn (m : ascii -> ascii) ins ops : sized d ins ops -> (forall l, In l (concat ins) -> dn (m l) = d l) -> sized dn (map (map m) ins) ops.
  Proof.
    unfold EinsumProofs.sized. induction 1 as [|i o ins ops H HF IH]; intros Hd; simpl; constructor.
    - rewrite H, map_map. apply map_ext_in. intros l Hl. symmetry. apply Hd. simpl. apply in_or_app. auto.
    - apply IH. intros l Hl. apply Hd. simpl. apply in_or_app. auto.
  Qed.

  Theorem compose_correct parent n child f largs cargs rargs a r :
    List.length largs = n ->
    einsum child cargs = inl a ->
    einsum parent (largs ++ a :: rargs) = inl r ->
    compose_formula parent n child = inl f ->
    einsum f (largs ++ cargs ++ rargs) = inl r.
  Proof.
    intros Hlargs Hc Hp Hf.
    destruct (einsum_inv _ _ _ _ _ _ _ _ Hc) as (dc & Hsc & Hndc & Hinc & Ea).
    destruct (einsum_inv _ _ _ _ _ _ _ _ Hp) as (dp & Hsp & Hndp & Hinp & Er).
    destruct (compose_formula_inv _ _ _ _ Hndc Hf) as (left & old & right & mp & mc & Hpin & Hlen & Hlo & Hfin & Hfout & Hinj & Hlink & Hdisj & Hinjc).
    set (PL := concat (fins parent) ++ fout parent) in *.
    set (cout := fout child) in *. set (pout := fout parent) in *.
    (* sizes *)
    assert (HlL : List.length left = List.length largs) by congruence.
    rewrite Hpin in Hsp. destruct (proj1 (sized_app K k0 kadd kmul dp left (old :: right) largs (a :: rargs) HlL) Hsp) as [HsL Hsr].
    assert (Hsa : shape a = map dp old) by (inversion Hsr; assumption).
    assert (HsR : sized dp right rargs) by (inversion Hsr; assumption). clear Hsr.
    rewrite Ea in Hsa.
    assert (Hdcl : forall c l, In (c, l) (combine cout old) -> dc c = dp l).
    { simpl in Hsa. clear -Hsa. fold cout in Hsa. revert old Hsa. induction cout as [|c cs IH]; intros [|l ls] E; simpl in *; try discriminate; try tauto.
      injection E as E1 E2. intros c' l' [E|Hin]; [congruence|eauto]. }
    assert (HoldPL : forall l, In l old -> In l PL).
    { intros l Hl. unfold PL. rewrite Hpin, concat_app. simpl. apply in_or_app. left. apply in_or_app. right. apply in_or_app. auto. }
    assert (HlPL : forall l, In l (concat left) -> In l PL).
    { intros l Hl. unfold PL. rewrite Hpin, concat_app. simpl. apply in_or_app. left. apply in_or_app. auto. }
    assert (HrPL : forall l, In l (concat right) -> In l PL).
    { intros l Hl. unfold PL. rewrite Hpin, concat_app. simpl. apply in_or_app. left. apply in_or_app. right. apply in_or_app. auto. }
    assert (HpoPL : forall l, In l pout -> In l PL) by (intros; apply in_or_app; auto).
    assert (Hcold : forall l, In l old -> exists c, In (c, l) (combine cout old) /\ In c cout).
    { clear -Hlo. fold cout in Hlo. revert old Hlo. induction cout as [|c cs IH]; intros [|l ls] E; simpl in *; try discriminate; try tauto.
      intros l' [<-|Hl]; [exists c; auto|]. destruct (IH ls) with (l := l') as (c' & H1 & H2); [congruence|assumption|]. exists c'. auto. }
    assert (Holdc : forall c, In c cout -> exists l, In (c, l) (combine cout old) /\ In l old).
    { clear -Hlo. fold cout in Hlo. revert old Hlo. induction cout as [|c cs IH]; intros [|l ls] E; simpl in *; try discriminate; try tauto.
      intros c' [<-|Hl]; [exists l; auto|]. destruct (IH ls) with (c := c') as (l' & H1 & H2); [congruence|assumption|]. exists l'. auto. }
    pose (dn := fun x => match find (fun l => if ascii_dec (mp l) x then true else false) PL with
                         | Some l => dp l
                         | None => match find (fun c => if ascii_dec (mc c) x then true else false) (concat (fins child)) with
                                   | Some c => dc c | None => 0 end end).
    assert (Hdnp : forall l, In l PL -> dn (mp l) = dp l).
    { intros l Hl. unfold dn. destruct (find _ PL) as [l'|] eqn:Hfd.
      - apply find_some in Hfd as [Hl' E]. destruct (ascii_dec (mp l') (mp l)) as [e|]; [|discriminate]. f_equal. apply Hinj; assumption.
      - exfalso. pose proof (find_none _ _ Hfd l Hl) as E. simpl in E. destruct (ascii_dec (mp l) (mp l)); [discriminate|congruence]. }
    assert (Hdnc : forall c, In c (concat (fins child)) -> dn (mc c) = dc c).
    { intros c Hcc. destruct (in_dec ascii_dec c cout) as [Hi|Hi].
      - destruct (Holdc c Hi) as (l & Hcl & Hl). rewrite (Hlink c l Hcl Hcc), (Hdcl c l Hcl). apply Hdnp. auto.
      - unfold dn. destruct (find _ PL) as [l'|] eqn:Hfd.
        + apply find_some in Hfd as [Hl' E]. destruct (ascii_dec (mp l') (mc c)) as [e|]; [|discriminate]. exfalso. apply (Hdisj c l'); auto.
        + destruct (find _ (concat (fins child))) as [c'|] eqn:Hfc.
          * apply find_some in Hfc as [Hc' E]. destruct (ascii_dec (mc c') (mc c)) as [e|]; [|discriminate]. f_equal. apply Hinjc; assumption.
          * exfalso. pose proof (find_none _ _ Hfc c Hcc) as E. simpl in E. destruct (ascii_dec (mc c) (mc c)); [discriminate|congruence]. }
    assert (Hfl : forall x, In x (concat (fins f)) <-> (exists l, In l (concat left ++ concat right) /\ x = mp l) \/ (exists c, In c (concat (fins child)) /\ x = mc c)).
    { intros x. rewrite Hfin, !concat_app, !in_app_iff, <- !concat_map, !in_map_iff.
      split.
      - intros [(l & E & H)|[(l & E & H)|(l & E & H)]]; [left|right|left]; exists l; rewrite ?in_app_iff; auto.
      - intros [(l & H & E)|(l & H & E)]; rewrite ?in_app_iff in H; [destruct H as [H|H]; [left|right; right]|right; left]; exists l; auto. }
    assert (Hnin : forall l, In l (concat (fins parent)) -> In (mp l) (concat (fins f))).
    { intros l Hl. apply Hfl. rewrite Hpin, concat_app in Hl. simpl in Hl. apply in_app_or in Hl as [Hl|Hl]; [left; exists l; rewrite in_app_iff; auto|].
      apply in_app_or in Hl as [Hl|Hl]; [|left; exists l; rewrite in_app_iff; auto].
      destruct (Hcold l Hl) as (c & Hcl & Hcc). right. exists c. split; [auto|]. symmetry. auto. }
    assert (HsN : sized dn (fins f) (largs ++ cargs ++ rargs)).
    { rewrite Hfin.
      assert (Hlc : List.length (fins child) = List.length cargs) by (eapply sized_len; eassumption).
      apply (proj2 (sized_app K k0 kadd kmul dn (map (map mp) left) _ largs (cargs ++ rargs) ltac:(rewrite map_length; exact HlL))).
      split; [apply sized_map with dp; auto|].
      apply (proj2 (sized_app K k0 kadd kmul dn (map (map mc) (fins child)) _ cargs rargs ltac:(rewrite map_length; exact Hlc))).
      split; [apply sized_map with dc; auto|apply sized_map with dp; auto]. }
    rewrite (einsum_intro _ _ _ _ _ dn).
    2: exact HsN.
    2: { rewrite Hfout. apply NoDup_map_inj; [assumption|]. intros; apply Hinj; auto. }
    2: { rewrite Hfout. intros x Hx. apply in_map_iff in Hx as (l & <- & Hl). auto. }
    f_equal. rewrite Er. unfold EinsumProofs.value. rewrite Hfout, map_map.
    rewrite (map_ext_in _ dp) by (intros; apply Hdnp; auto). fold pout.
    apply tabulate_ext. intros ix Hix.
    set (Psum := summed (fins parent) pout). set (Csum := summed (fins child) cout).
    assert (HPnd : NoDup Psum) by apply NoDup_summed. assert (HCnd : NoDup Csum) by apply NoDup_summed.
    assert (HPs : forall l, In l Psum <-> In l (concat (fins parent)) /\ ~ In l pout) by (intros l; exact (summed_In K k0 kadd kmul _ _ _)).
    assert (HCs : forall l, In l Csum <-> In l (concat (fins child)) /\ ~ In l cout) by (intros l; exact (summed_In K k0 kadd kmul _ _ _)).
    assert (HPsum : forall l, In l Psum -> In l PL) by (intros l Hl; apply HPs in Hl as [Hl _]; apply in_or_app; auto).
    assert (HCsum : forall l, In l Csum -> In l (concat (fins child)) /\ ~ In l cout) by (intros l; apply HCs).
        assert (Hperm : Permutation (summed (fins f) (map mp pout)) (map mp Psum ++ map mc Csum)).
    { apply NoDup_Permutation.
      - apply NoDup_summed.
      - apply NoDup_app_disj.
        + apply NoDup_map_inj; [assumption|auto].
        + apply NoDup_map_inj; [assumption|]. intros l l' Hl Hl' E. apply HCsum in Hl, Hl'. apply Hinjc; tauto.
        + intros x Hx Hy. apply in_map_iff in Hx as (l & <- & Hl). apply in_map_iff in Hy as (c & E & Hcs). apply HCsum in Hcs as [H1 H2].
          apply (Hdisj c l); auto.
      - intros x. rewrite (summed_In K k0 kadd kmul), in_app_iff, Hfl, !in_map_iff. split.
        + intros [[(l & Hl & ->)|(c & Hcc & ->)] Hno].
          * left. exists l. split; [reflexivity|]. apply HPs. split.
            { rewrite Hpin, concat_app. simpl. rewrite !in_app_iff in *. tauto. }
            { intros Hlo'. apply Hno. exists l. auto. }
          * destruct (in_dec ascii_dec c cout) as [Hi|Hi].
            { destruct (Holdc c Hi) as (l & Hcl & Hl). left. exists l. split; [symmetry; auto|]. apply HPs. split.
              - rewrite Hpin, concat_app. simpl. rewrite !in_app_iff. auto.
              - intros Hlo'. apply Hno. exists l. split; [symmetry; auto|assumption]. }
            { right. exists c. split; [reflexivity|]. apply HCs. auto. }
        + intros [(l & <- & Hl)|(c & <- & Hcs)].
          * pose proof Hl as Hl2. apply HPs in Hl as [Hl Hno]. split; [apply Hfl, Hnin, Hl|].
            intros (l' & E & Hl'). apply Hno. rewrite <- (Hinj l' l); auto.
          * apply HCsum in Hcs as [H1 H2]. split; [right; exists c; auto|]. intros (l' & E & Hl'). apply (Hdisj c l'); auto. }
    assert (HextF : ext_on K (concat (fins f)) (term (fins f) (largs ++ cargs ++ rargs))) by (intros s s' H; apply term_ext; assumption).
    rewrite (sumL_perm K k0 k1 kadd kmul SR ascii_dec _ _ dn _ _ HextF Hperm (NoDup_summed _ _)).
    rewrite sumL_app.
    set (s0 := assign ascii_dec (map mp pout) ix).
    assert (Hs0 : forall l, In l PL -> s0 (mp l) = assign ascii_dec pout ix l).
    { intros l Hl. apply assign_map. intros l' Hl' E. apply Hinj; auto. }
    assert (Hinner : forall t, (forall l, In l old -> t (mp l) < dp l) ->
      sumA (map mc Csum) dn t (term (fins f) (largs ++ cargs ++ rargs)) =
      term (fins parent) (largs ++ a :: rargs) (fun l => t (mp l))).
    { intros t Ht.
      assert (Hsplit : forall u, term (fins f) (largs ++ cargs ++ rargs) u =
        kmul (kmul (term left largs (fun l => u (mp l))) (term right rargs (fun l => u (mp l)))) (term (fins child) cargs (fun c => u (mc c)))).
      { intros u. rewrite Hfin. rewrite term_app by (rewrite map_length; exact HlL).
        rewrite term_app by (rewrite map_length; eapply sized_len; eassumption).
        rewrite !term_rename. rewrite <- (SRmul_assoc SR). f_equal. apply (SRmul_comm SR). }
      rewrite (sumL_cong K k0 kadd ascii_dec _ dn _ (fun u => kmul (kmul (term left largs (fun l => u (mp l))) (term right rargs (fun l => u (mp l)))) (term (fins child) cargs (fun c => u (mc c)))) t t).
      2: { intros u u' H1 H2. rewrite Hsplit. assert (E : forall x, u x = u' x).
           { intros x. destruct (in_dec ascii_dec x (map mc Csum)) as [Hx|Hx]; [apply H1, Hx|]. destruct (H2 x Hx). congruence. }
           f_equal; [f_equal|]; apply term_ext; intros; apply E. }
      rewrite (sumL_mul K k0 k1 kadd kmul SR ascii_dec _ dn t (fun u => term (fins child) cargs (fun c => u (mc c)))
        (fun u => kmul (term left largs (fun l => u (mp l))) (term right rargs (fun l => u (mp l)))) (map mp (concat left ++ concat right))).
      2: { intros u u' H. f_equal; apply term_ext; intros l Hl; apply H; apply in_map; apply in_or_app; auto. }
      2: { intros x Hx Hx2. apply in_map_iff in Hx as (l & <- & Hl). apply in_map_iff in Hx2 as (c & E & Hcs). apply HCsum in Hcs as [H1 H2].
           apply (Hdisj c l); auto. apply in_app_or in Hl as [Hl|Hl]; auto. }
      rewrite (sumL_rename K k0 kadd ascii_dec ascii_dec mc (concat (fins child)) (term (fins child) cargs) dc dn Csum).
      2: { intros s s' H. apply term_ext. assumption. }
      2: { intros l l' Hl Hl' E. apply HCsum in Hl as [H1 H2]. apply Hinjc; auto. }
      2: { intros l Hl. apply HCsum in Hl as [H1 H2]. auto. }
      rewrite Hpin. rewrite term_app by exact HlL.
      assert (Hcons : term (old :: right) (a :: rargs) (fun l => t (mp l)) = kmul (get k0 a (map (fun l => t (mp l)) old)) (term right rargs (fun l => t (mp l)))) by reflexivity.
      rewrite Hcons. rewrite <- (SRmul_assoc SR). f_equal. rewrite (SRmul_comm SR). f_equal.
      rewrite Ea. unfold EinsumProofs.value. rewrite get_tabulate.
      - apply sumL_start with (concat (fins child)).
        { intros s s' H. apply term_ext. assumption. }
        intros c Hcc Hns. assert (Hi : In c cout).
        { destruct (in_dec ascii_dec c cout) as [|Hi]; [assumption|]. exfalso. apply Hns. apply HCs. auto. }
        apply In_nth_error in Hi as [i Hi]. fold cout.
        destruct (nth_error old i) as [l|] eqn:Hil.
        2: { exfalso. apply nth_error_None in Hil. assert (i < List.length cout) by (apply nth_error_Some; congruence). unfold cout in *. lia. }
        rewrite (assign_nth ascii_dec cout _ i c (t (mp l))); [|assumption|assumption|].
        + f_equal. apply Hlink; [|assumption]. clear -Hi Hil. revert i old Hi Hil. induction cout as [|x cs IH]; intros [|i] [|y ys] H1 H2; simpl in *; try discriminate.
          * left. congruence.
          * right. eauto.
        + rewrite nth_error_map, Hil. reflexivity.
      - unfold in_bounds. simpl in Hsa. fold cout in Hsa. fold cout. rewrite Hsa. clear -Ht. induction old as [|l ls IH]; simpl; constructor.
        + apply Ht. simpl. auto.
        + apply IH. intros; apply Ht; simpl; auto. }
    rewrite (sumL_cong K k0 kadd ascii_dec _ dn _ (fun t => term (fins parent) (largs ++ a :: rargs) (fun l => t (mp l))) s0 s0).
    2: { intros t t' H1 H2. rewrite Hinner.
         - apply term_ext. intros l _. destruct (in_dec ascii_dec (mp l) (map mp Psum)) as [Hx|Hx]; [apply H1, Hx|]. destruct (H2 _ Hx). congruence.
         - intros l Hl. destruct (in_dec ascii_dec (mp l) (map mp Psum)) as [Hx|Hx].
           + destruct (H1 _ Hx) as [Hlt _]. rewrite Hdnp in Hlt by auto. assumption.
           + destruct (H2 _ Hx) as [-> _]. rewrite Hs0 by auto. apply assign_bounds; [assumption|assumption|].
             destruct (in_dec ascii_dec l pout) as [|Hno]; [assumption|]. exfalso. apply Hx. apply in_map. apply HPs. split; [|assumption].
             rewrite Hpin, concat_app. simpl. rewrite !in_app_iff. auto. }
    rewrite (sumL_rename K k0 kadd ascii_dec ascii_dec mp (concat (fins parent)) (term (fins parent) (largs ++ a :: rargs)) dp dn Psum).
    - apply sumL_start with (concat (fins parent)).
      { intros s s' H. apply term_ext. assumption. }
      intros l Hl _. apply Hs0. apply in_or_app. auto.
    - intros s s' H. apply term_ext. assumption.
    - intros l l' Hl Hl' E. apply Hinj; auto. apply in_or_app. auto.
    - intros l Hl. apply Hdnp. auto.
  Qed.
End compose.
