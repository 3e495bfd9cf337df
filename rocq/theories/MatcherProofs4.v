(** API-level consequences. *)
From Verif Require Import MatcherSpec MatcherProofs MatcherProofs2 MatcherProofs3.
Open Scope list_scope.

(** ** errors raised by the matcher itself *)
Definition int_err (er : err) : Prop := er = TypeErr \/ er = Mutates.

Lemma gbind_list_err {A B} (f : A -> gen B) l t er :
  snd (gbind_list l t f) = Some er -> t = Some er \/ exists x, In x l /\ snd (f x) = Some er.
Proof.
  induction l as [|x l IH]; simpl; [auto|]. destruct (f x) as [ys [er'|]] eqn:Hf.
  - simpl. intros H. injection H as ->. right. exists x. rewrite Hf. auto.
  - destruct (gbind_list l t f) as [zs t'] eqn:Hg. simpl in *. intros H. destruct (IH H) as [?|(x' & ? & ?)]; eauto.
Qed.
Lemma gbind_err {A B} (g : gen A) (f : A -> gen B) er :
  snd (gbind g f) = Some er -> snd g = Some er \/ exists x, In x (fst g) /\ snd (f x) = Some er.
Proof. apply gbind_list_err. Qed.

Lemma fold_new_err acc m : forall b er, fold_new acc m b = inr er -> int_err er.
Proof.
  induction m as [|[k v] m IH]; simpl; intros b er H; [discriminate|].
  destruct (mem k acc); [|eauto]. destruct (accumulate_value b k v) as [nb|er'] eqn:E; [eauto|].
  injection H as ->. unfold accumulate_value in E. unfold int_err.
  destruct (dget b k) as [[| |[|] l| |]|]; try discriminate; injection E as <-; auto.
Qed.
Lemma am_err inner acc : (forall e b er, snd (inner e b) = Some er -> int_err er) -> forall es b k er,
  snd (accumulate_match inner acc es b k) = Some er -> int_err er \/ exists m, snd (k m) = Some er.
Proof.
  intros Hi es. induction es as [|e es IH]; simpl; intros b k er H; [eauto|].
  apply gbind_err in H as [H|(m & _ & H)]; [left; eauto|].
  destruct (fold_new acc m b) as [nb|er'] eqn:E; [eauto|]. simpl in H. injection H as ->. left. eapply fold_new_err; eauto.
Qed.
Lemma star_err inner n acc g pl sk es b k er : (forall e b er, snd (inner e b) = Some er -> int_err er) ->
  snd (star_match inner n acc g pl sk es b k) = Some er -> int_err er \/ exists b' rest, snd (k b' rest) = Some er.
Proof.
  intros Hi. unfold star_match. destruct (match n with Some x => dget b x | None => None end) as [bound|].
  - destruct (py_len bound); [|simpl; intros H; injection H as <-; left; left; reflexivity].
    destruct (py_eq bound _); [eauto|discriminate].
  - intros H. apply gbind_err in H as [H|(i & _ & H)]; [discriminate|].
    apply gbind_err in H as [H|(m & _ & H)]; [|eauto].
    apply am_err in H as [H|[m H]]; [auto|discriminate|exact Hi].
Qed.
Lemma choice_err runs er : snd (choice_match runs) = Some er -> exists r, In r runs /\ snd r = Some er.
Proof.
  induction runs as [|[[|y ys] [er'|]] rs IH]; simpl; intros H; try discriminate.
  - eexists. split; [left; reflexivity|]. exact H.
  - destruct (IH H) as (r & H1 & H2). eauto.
  - eexists. split; [left; reflexivity|]. exact H.
Qed.
Lemma pmatch_err p : forall e b k er, snd (pmatch p e b k) = Some er ->
  int_err er \/ exists b', snd (k b') = Some er.
Proof.
  assert (Hseq : forall ps, Forall (fun p => (forall e b k er, snd (pmatch p e b k) = Some er -> int_err er \/ exists b', snd (k b') = Some er) /\
     (forall e b k er, snd (pmatch (body p) e b k) = Some er -> int_err er \/ exists b', snd (k b') = Some er)) ps ->
     forall sk es b k er, snd (seqm sk ps es b k) = Some er -> int_err er \/ exists b', snd (k b') = Some er).
  { induction 1 as [|q ps [Hq Hq'] _ IH]; intros sk es b k er H.
    - destruct es; simpl in H; [eauto|discriminate].
    - destruct (is_star q) eqn:Hs.
      + destruct q; try discriminate. rewrite seqm_star in H. apply star_err in H as [H|(b' & rest & H)]; [auto|eauto|].
        intros e0 b0 er0 H0. simpl in Hq'. apply Hq' in H0 as [H0|[b' H0]]; [exact H0|discriminate].
      + rewrite seqm_nonstar in H by exact Hs. destruct es; [discriminate|].
        apply Hq in H as [H|[b' H]]; [auto|]. eauto. }
  induction p using pat_ind'; intros e b k0 er Her.
  - cbn [pmatch] in Her. destruct (py_eq e (VNum k z)); [eauto|discriminate].
  - cbn [pmatch] in Her. destruct e; try discriminate. destruct (str_match s s0); [eauto|discriminate].
  - rewrite pm_seq in Her. destruct (as_seq e) as [[sk es]|]; [|discriminate]. eapply Hseq; eauto.
  - rewrite pm_dict in Her. destruct e; try discriminate. destruct (list_eqb String.eqb ks0 ks); [|discriminate]. eapply Hseq; eauto.
  - cbn [pmatch] in Her. destruct e; try discriminate. destruct (String.eqb c c0); [|discriminate].
    apply IHp1 in Her as [H|[b' H]]; [auto|]. eauto.
  - cbn [pmatch] in Her. destruct (forallb (fun r0 => r0 e) r); [|discriminate]. destruct n as [x|]; [|eauto].
    destruct (dget b x); [|eauto]. destruct (py_eq v e); [eauto|discriminate].
  - cbn [pmatch] in Her. destruct (pmatch p e b gret) as [[|y ys] [er'|]] eqn:E; simpl in Her; try discriminate; [|eauto].
    injection Her as ->. assert (Hp : snd (pmatch p e b gret) = Some er) by (rewrite E; reflexivity).
    apply IHp in Hp as [H|[b' H]]; [auto|discriminate].
  - rewrite pm_choice in Her. apply choice_err in Her as (r & Hr & Her). apply in_map_iff in Hr as (q & <- & Hq).
    rewrite Forall_forall in H. eapply H; eauto.
  - cbn [pmatch] in Her. destruct (as_seq e) as [[sk es]|]; [|discriminate].
    apply star_err in Her as [H|(b' & rest & H)]; [auto|simpl in H; injection H as <-; left; left; reflexivity|].
    intros e0 b0 er0 H0. apply IHp in H0 as [H0|[b' H0]]; [exact H0|discriminate].
Qed.

Lemma match_agree p e : is_star p = false ->
  (forall b, match_ p e = inl b <-> exists rest er, match_all p e = (b :: rest, er)) /\
  (match_ p e = inr MatchErr <-> match_all p e = ([], None)) /\
  (is_match p e = inl true <-> fst (match_all p e) <> []) /\
  (is_match p e = inl false <-> match_all p e = ([], None)) /\
  (forall er, er <> MatchErr -> (match_ p e = inr er <-> match_all p e = ([], Some er)) /\
                                 (is_match p e = inr er <-> match_all p e = ([], Some er))).
Proof.
  intros Hs. unfold match_, match_all, is_match. rewrite Hs.
  assert (Hne : snd (pmatch p e [] gret) <> Some MatchErr).
  { intros H. apply pmatch_err in H as [[H|H]|[b' H]]; discriminate. }
  destruct (pmatch p e [] gret) as [[|y ys] [er0|]]; simpl in *;
    repeat split; try (intros; congruence); try (intros H; congruence);
    try (intros (? & ? & H); congruence); try (intros H; injection H as <-; eauto; fail); eauto.
Qed.
Lemma match_star_value_error p e : is_star p = true ->
  match_ p e = inr ValueErr /\ is_match p e = inr ValueErr /\ match_all p e = ([], Some ValueErr).
Proof. intros Hs. unfold match_, match_all, is_match. now rewrite Hs. Qed.

Lemma tame_not_star p : tame p -> is_star p = false.
Proof. destruct p; simpl; tauto. Qed.
Lemma nil_fresh l : fresh l []. Proof. intros x _. reflexivity. Qed.

Lemma match_sound p e b : tame p -> scoped false [] p -> In b (fst (match_all p e)) -> fits (dget b) p e.
Proof.
  intros Ht Hsc Hin. unfold match_all in Hin. rewrite (tame_not_star p Ht) in Hin. apply inner_origin in Hin.
  exact (proj1 (sound_complete p) Ht false [] e [] b Hsc (incl_nil_l _) (NoDup_nil _) (nil_fresh _) Hin).
Qed.
Lemma match_complete p e s : tame p -> scoped true [] p -> fits s p e ->
  snd (match_all p e) = None /\ (exists b, In b (fst (match_all p e))) /\
  (choice_free p -> exists b, In b (fst (match_all p e)) /\ below (dget b) s /\ incl (sure p) (keys b)).
Proof.
  intros Ht Hsc Hfit. unfold match_all. rewrite (tame_not_star p Ht).
  assert (Hnd : NoDup (keys (A:=val) [])) by constructor.
  assert (Hbel : below (dget []) s) by (intros x v Hx; discriminate).
  destruct (proj2 (sound_complete p) Ht [] s e [] Hsc (incl_nil_l _) Hnd (nil_fresh _) Hbel Hfit) as (b1 & HM & Hb1).
  split; [|split].
  - apply noerr; auto. apply nil_fresh.
  - eapply (succ p Ht [] Hsc); eauto; [apply nil_fresh|]. exists b1. simpl. auto.
  - intros Hcf. exists b1. split; [|split; [exact Hb1|apply (M_struct p e [] b1 Hnd HM)]].
    eapply (reach p Ht Hcf); eauto; [apply nil_fresh|]. simpl. auto.
Qed.
Lemma match_no_error p e : tame p -> snd (match_all p e) = None.
Proof.
  intros Ht. unfold match_all. rewrite (tame_not_star p Ht). apply noerr; auto; [constructor|apply nil_fresh].
Qed.

(** ** C04 *)
Lemma only_extended p e b k y : unnamed_choices p -> NoDup (keys b) -> In y (fst (pmatch p e b k)) ->
  exists b1, In y (fst (k b1)) /\ forall x v, dget b x = Some v -> dget b1 x = Some v.
Proof.
  intros Hu Hnd Hy. apply origin in Hy as (b1 & HM & Hy). exists b1. split; [exact Hy|].
  exact (M_ext p Hu e b b1 Hnd HM).
Qed.
Lemma fits_seq_nth s sk ps : Forall (fun p => is_star p = false) ps -> forall es i p,
  fits_seq s sk ps es -> nth_error ps i = Some p -> exists ei, nth_error es i = Some ei /\ fits s p ei.
Proof.
  induction 1 as [|q ps Hq _ IH]; intros es i p Hf Hn; [destruct i; discriminate|].
  rewrite fits_seq_nonstar in Hf by exact Hq. destruct Hf as (e1 & es' & -> & H1 & H2).
  destruct i as [|i]; simpl in Hn |- *; [injection Hn as ->; eauto|eauto].
Qed.
Lemma consistent k ps sk es b x i rs e :
  tame (PSeq k ps) -> scoped false [] (PSeq k ps) -> Forall (fun p => is_star p = false) ps ->
  as_seq e = Some (sk, es) -> In b (fst (match_all (PSeq k ps) e)) ->
  nth_error ps i = Some (PVar (Some x) rs) ->
  exists v ei, dget b x = Some v /\ nth_error es i = Some ei /\ same v ei.
Proof.
  intros Ht Hsc Hns He Hin Hn. apply match_sound in Hin; auto. rewrite fits_PSeq in Hin.
  destruct Hin as (sk' & es' & He' & Hf). rewrite He in He'. injection He' as <- <-.
  destruct (fits_seq_nth _ _ _ Hns _ _ _ Hf Hn) as (ei & H1 & [H2 (v & H3 & H4)]). eauto.
Qed.

(** ** C05 ground patterns *)
Fixpoint as_pat (v : val) : pat :=
  match v with
  | VNum k z => PNum k z
  | VStr s => PStr s
  | VSeq k l => PSeq k (map as_pat l)
  | VDict ks vs => PDict ks (map as_pat vs)
  | VNode c h k => PNode c (PSeq KTuple (map as_pat h)) (PSeq KTuple (map as_pat k))
  end.
(** equality that does not see the type of a sequence *)
Fixpoint loose (v e : val) {struct v} : Prop :=
  let go := (fix go (l : list val) (m : list val) : Prop :=
     match l, m with [], [] => True | x :: l', y :: m' => loose x y /\ go l' m' | _, _ => False end) in
  match v with
  | VNum k z => same e (VNum k z)
  | VStr s => e = VStr s
  | VSeq _ l => exists sk es, as_seq e = Some (sk, es) /\ go l es
  | VDict ks vs => exists vs', e = VDict ks vs' /\ go vs vs'
  | VNode c h k => exists h' k', e = VNode c h' k' /\ go h h' /\ go k k'
  end.
Lemma loose_go l m :
  (fix go (l : list val) (m : list val) : Prop :=
     match l, m with [], [] => True | x :: l', y :: m' => loose x y /\ go l' m' | _, _ => False end) l m
  <-> Forall2 loose l m.
Proof.
  revert m. induction l as [|x l IH]; intros [|y m]; split; intros H; try tauto; try (inversion H; fail); try constructor.
  - apply H.
  - apply IH, H.
  - inversion H; subst; assumption.
  - inversion H; subst. apply IH. assumption.
Qed.
Lemma as_pat_nonstar v : is_star (as_pat v) = false.
Proof. destruct v; reflexivity. Qed.

Definition ground_ok (v : val) : Prop := forall e b k,
  (loose v e /\ pmatch (as_pat v) e b k = k b) \/ (~ loose v e /\ pmatch (as_pat v) e b k = gnil).
Lemma seq_ground l : Forall ground_ok l -> forall sk es b k,
  (Forall2 loose l es /\ seqm sk (map as_pat l) es b k = k b) \/ (~ Forall2 loose l es /\ seqm sk (map as_pat l) es b k = gnil).
Proof.
  induction 1 as [|v l Hv _ IH]; intros sk es b k.
  - destruct es; simpl; [left; auto|right; split; [intros H; inversion H|reflexivity]].
  - cbn [map]. rewrite seqm_nonstar by apply as_pat_nonstar.
    destruct es as [|e1 es]; [right; split; [intros H; inversion H|reflexivity]|].
    destruct (Hv e1 b (fun b' => seqm sk (map as_pat l) es b' k)) as [[H1 H2]|[H1 H2]].
    + rewrite H2. destruct (IH sk es b k) as [[H3 H4]|[H3 H4]]; [left; auto|].
      right. split; [|exact H4]. intros H. inversion H; subst. tauto.
    + right. split; [|exact H2]. intros H. inversion H; subst. tauto.
Qed.
Lemma ground v : ground_ok v.
Proof.
  induction v using val_ind'; intros e b k0.
  - cbn [as_pat pmatch loose]. unfold same. destruct (py_eq e (VNum k z)); [left|right]; split; auto.
  - cbn [as_pat pmatch loose]. destruct e; try (right; split; [discriminate|reflexivity]).
    destruct (str_match s s0) eqn:E.
    + apply str_match_spec in E. subst. left. auto.
    + right. split; [|reflexivity]. intros H. injection H as ->. assert (str_match s s = true) by now apply str_match_spec. congruence.
  - cbn [as_pat loose]. rewrite pm_seq. destruct (as_seq e) as [[sk es]|] eqn:E.
    + destruct (seq_ground l H sk es b k0) as [[H1 H2]|[H1 H2]]; [left|right]; (split; [|exact H2]).
      * exists sk, es. split; [reflexivity|]. apply loose_go. exact H1.
      * intros (sk' & es' & HE & H3). injection HE as <- <-. apply loose_go in H3. tauto.
    + right. split; [|reflexivity]. intros (? & ? & HE & _). discriminate.
  - cbn [as_pat loose]. rewrite pm_dict. destruct e as [| | |ks' vs'|]; try (right; split; [intros (? & HE & _); discriminate|reflexivity]).
    destruct (list_eqb String.eqb ks' ks) eqn:E.
    + apply (list_eqb_spec String.eqb String.eqb_eq) in E. subst ks'.
      destruct (seq_ground vs H SlTuple vs' b k0) as [[H1 H2]|[H1 H2]]; [left|right]; (split; [|exact H2]).
      * exists vs'. split; [reflexivity|]. apply loose_go. exact H1.
      * intros (vs'' & HE & H3). injection HE as <-. apply loose_go in H3. tauto.
    + right. split; [|reflexivity]. intros (vs'' & HE & _). injection HE as -> ->.
      rewrite (list_eqb_refl _ String.eqb_refl) in E. discriminate.
  - cbn [as_pat loose]. destruct e as [| | | |c' h' k'];
      try (right; split; [intros (? & ? & HE & _); discriminate|reflexivity]).
    cbn [pmatch]. fold (pmatch). destruct (String.eqb_spec c c') as [<-|Hc].
    + destruct (seq_ground h H SlTuple h' b (fun b' => pmatch (PSeq KTuple (map as_pat k)) (VSeq KTuple k') b' k0)) as [[H1 H2]|[H1 H2]].
      * destruct (seq_ground k H0 SlTuple k' b k0) as [[H3 H4]|[H3 H4]].
        -- left. split; [|etransitivity; [exact H2|exact H4]].
           exists h', k'. split; [reflexivity|]. split; apply loose_go; assumption.
        -- right. split; [|etransitivity; [exact H2|exact H4]].
           intros (h'' & k'' & HE & _ & Hk). injection HE as <- <-. apply loose_go in Hk. tauto.
      * right. split; [|exact H2]. intros (h'' & k'' & HE & Hh & _). injection HE as <- <-. apply loose_go in Hh. tauto.
    + right. split; [|reflexivity]. intros (h'' & k'' & HE & _ & _). injection HE as E _ _. congruence.
Qed.

(** sequences have the same Python type in the two values *)
Fixpoint typed_alike (v e : val) {struct v} : Prop :=
  let go := (fix go (l : list val) (m : list val) : Prop :=
     match l, m with x :: l', y :: m' => typed_alike x y /\ go l' m' | _, _ => True end) in
  match v, e with
  | VSeq k l, VSeq k' l' => k = k' /\ go l l'
  | VSeq _ _, VStr _ => False
  | VDict _ vs, VDict _ vs' => go vs vs'
  | VNode _ h k, VNode _ h' k' => go h h' /\ go k k'
  | _, _ => True
  end.
Lemma equal_loose v : forall e, same v e -> loose v e.
Proof.
  assert (Hgo : forall l, Forall (fun v => forall e, same v e -> loose v e) l -> forall m, map canon l = map canon m -> Forall2 loose l m).
  { induction 1 as [|x l Hx _ IH]; intros [|y m] HE; simpl in HE; try discriminate; constructor.
    - apply Hx. apply py_eq_canon. congruence.
    - apply IH. congruence. }
  induction v using val_ind'; intros e He; apply py_eq_canon in He; cbn [loose].
  - apply same_sym, py_eq_canon. exact He.
  - destruct e; simpl in He; congruence.
  - destruct e as [| |k' l'| |]; simpl in He; try discriminate. injection He as -> He.
    exists (match k' with KTuple => SlTuple | KList => SlList end), l'. split; [destruct k'; reflexivity|].
    apply loose_go. apply Hgo; auto.
  - destruct e as [| | |ks' vs'|]; simpl in He; try discriminate. injection He as -> He.
    exists vs'. split; [reflexivity|]. apply loose_go. apply Hgo; auto.
  - destruct e as [| | | |c' h' k']; simpl in He; try discriminate. injection He as -> He1 He2.
    exists h', k'. split; [reflexivity|]. split; apply loose_go; apply Hgo; auto.
Qed.
Lemma loose_equal v : forall e, loose v e -> typed_alike v e -> same v e.
Proof.
  assert (Hgo : forall l, Forall (fun v => forall e, loose v e -> typed_alike v e -> same v e) l -> forall m,
     Forall2 loose l m -> (fix go (l : list val) (m : list val) : Prop :=
     match l, m with x :: l', y :: m' => typed_alike x y /\ go l' m' | _, _ => True end) l m -> map canon l = map canon m).
  { induction 1 as [|x l Hx _ IH]; intros m HF Ht; inversion HF; subst; simpl; [reflexivity|]. destruct Ht as [Ht1 Ht2].
    f_equal; [|apply IH; auto]. apply py_eq_canon. apply Hx; auto. }
  induction v using val_ind'; intros e Hl Ht; cbn [loose] in Hl.
  - now apply same_sym.
  - subst. apply same_refl.
  - destruct Hl as (sk & es & E & Hl). apply loose_go in Hl. destruct e as [|s|k' l'| |]; try discriminate; [destruct Ht|].
    simpl in Ht. destruct Ht as [-> Ht]. assert (es = l') by (destruct k'; injection E as <- <-; reflexivity). subst es.
    apply py_eq_canon. simpl. f_equal. apply Hgo; auto.
  - destruct Hl as (vs' & -> & Hl). apply loose_go in Hl. simpl in Ht. apply py_eq_canon. simpl. f_equal. apply Hgo; auto.
  - destruct Hl as (h' & k' & -> & Hl1 & Hl2). apply loose_go in Hl1, Hl2. simpl in Ht. destruct Ht as [Ht1 Ht2].
    apply py_eq_canon. simpl. f_equal; apply Hgo; auto.
Qed.

Lemma ground_match v e :
  (same v e -> match_all (as_pat v) e = ([[]], None)) /\
  (typed_alike v e -> match_all (as_pat v) e = ([[]], None) \/ match_all (as_pat v) e = ([], None)) /\
  (typed_alike v e -> match_all (as_pat v) e <> ([], None) -> same v e).
Proof.
  unfold match_all. rewrite as_pat_nonstar. destruct (ground v e [] gret) as [[H1 H2]|[H1 H2]]; rewrite H2.
  - split; [auto|]. split; [auto|]. intros Ht _. now apply loose_equal.
  - split; [intros H; apply equal_loose in H; tauto|]. split; [auto|]. intros _ H. exfalso. apply H. reflexivity.
Qed.

(** ** C06 *)
Lemma gbind_list_flat {A B} (f : A -> gen B) l t : snd (gbind_list l t f) = None ->
  fst (gbind_list l t f) = flat_map (fun x => fst (f x)) l.
Proof.
  induction l as [|x l IH]; simpl; [auto|]. destruct (f x) as [ys [er|]] eqn:Hf; [discriminate|].
  destruct (gbind_list l t f) as [zs t'] eqn:Hg. simpl in *. intros H. now rewrite (IH H).
Qed.
Lemma gbind_flat {A B} (g : gen A) (f : A -> gen B) : snd (gbind g f) = None ->
  fst (gbind g f) = flat_map (fun x => fst (f x)) (fst g).
Proof. apply gbind_list_flat. Qed.

Lemma star_order kd q x acc g pl ps e sk es :
  tame (PSeq kd (PStar q (Some x) acc g pl :: ps)) -> as_seq e = Some (sk, es) ->
  exists G : nat -> list bindings,
    fst (match_all (PSeq kd (PStar q (Some x) acc g pl :: ps)) e) =
      flat_map G ((if g then @rev nat else fun l => l)
                    (filter (fun i => negb pl || negb (Nat.eqb i 0)) (seq 0 (S (List.length es))))) /\
    forall i b, In b (G i) -> dget b x = Some (mk_slice sk (firstn i es)).
Proof.
  intros Ht He.
  assert (Hne := match_no_error _ e Ht).
  unfold match_all in *. cbn [is_star] in *. rewrite pm_seq, He, seqm_star in *.
  unfold star_match in *. cbn [dget] in *.
  apply gbind_flat in Hne. rewrite Hne. cbn [fst].
  eexists. split.
  - assert (Hidx : slice_indices pl g (List.length es) =
        (if g then @rev nat else fun l => l) (filter (fun i => negb pl || negb (Nat.eqb i 0)) (seq 0 (S (List.length es))))).
    { unfold slice_indices. 
      assert (Hf : (if pl then seq 1 (List.length es) else seq 0 (S (List.length es))) =
         filter (fun i => negb pl || negb (Nat.eqb i 0)) (seq 0 (S (List.length es)))).
      { assert (Hall : forall n m, filter (fun _ => true) (seq n m) = seq n m).
        { intros n m. revert n. induction m; simpl; intros; [reflexivity|]. now rewrite IHm. }
        destruct pl; simpl negb; cbv beta iota.
        - cbn [seq filter Nat.eqb orb negb]. assert (Hs : forall n m, 1 <= n -> filter (fun i => negb (Nat.eqb i 0)) (seq n m) = seq n m).
          { intros n m. revert n. induction m; simpl; intros n Hn; [reflexivity|].
            destruct n; [lia|]. simpl. rewrite IHm by lia. reflexivity. }
          symmetry. apply Hs. lia.
        - symmetry. apply Hall. }
      rewrite Hf. destruct g; reflexivity. }
    rewrite Hidx. reflexivity.
  - intros i b Hb. cbv beta in Hb. apply gbind_in in Hb as (m & Hm & Hb).
    change (In b (fst (seqm sk ps (skipn i es) (dmerge m (star_bind (Some x) [] (mk_slice sk (firstn i es)))) gret))) in Hb.
    assert (Hsplit := origin (PSeq KTuple ps)).
    assert (HMs : exists b1, Mseq sk ps (skipn i es) (dmerge m (star_bind (Some x) [] (mk_slice sk (firstn i es)))) b1 /\ In b (fst (gret b1))).
    { clear - Hb. revert Hb. generalize (dmerge m (star_bind (Some x) [] (mk_slice sk (firstn i es)))) as b0. generalize (skipn i es) as rest.
      intros rest b0 Hb. clear - Hb. revert rest b0 Hb. induction ps as [|q ps IH]; intros rest b0 Hb.
      - destruct rest; simpl in Hb; [|tauto]. destruct Hb as [<-|[]]. exists b0. split; [split; reflexivity|simpl; auto].
      - destruct (is_star q) eqn:Hs.
        + destruct q; try discriminate. rewrite seqm_star in Hb.
          apply star_origin with (R := M q) in Hb as (b2 & rest' & H1 & H2); [|apply inner_origin].
          apply IH in H2 as (b1 & H3 & H4). exists b1. split; [|exact H4]. cbn. eauto.
        + rewrite seqm_nonstar in Hb by exact Hs. destruct rest as [|e1 rest]; [simpl in Hb; tauto|].
          apply origin in Hb as (b2 & H1 & H2). apply IH in H2 as (b1 & H3 & H4). exists b1. split; [|exact H4].
          rewrite Mseq_nonstar by exact Hs. eauto 8. }
    destruct HMs as (b1 & HM & [<-|[]]).
    destruct Ht as ((Ht1 & Ht2 & Ht3) & Hd & Ht).
    apply am_origin with (R := M q) in Hm as (m' & HAM & Hm); [|apply inner_origin]. simpl in Hm. destruct Hm as [<-|[]].
    destruct (am_struct (M q) acc (names q) (struct_sm_hyp q) _ [] m' (NoDup_nil _) HAM) as (Hn1 & _ & Hs1).
    assert (Hd0 : forall y, dget (dmerge m' (star_bind (Some x) [] (mk_slice sk (firstn i es)))) y =
        if String.eqb y x then Some (mk_slice sk (firstn i es)) else dget m' y).
    { intros y. rewrite dget_dmerge by (now apply (NoDup_star_bind (Some x) []); constructor). rewrite dget_star_bind.
      destruct (String.eqb y x); reflexivity. }
    refine (mseq_ext_tame ps _ Ht sk (skipn i es) _ b1 _ _ HM x _ _).
    + apply Forall_forall. intros p _. apply M_ext_tame.
    + now apply NoDup_dmerge.
    + intros y Hy. rewrite Hd0. destruct (String.eqb_spec y x) as [->|Hyx].
      * exfalso. apply (Hd x Hy). cbn [names]. simpl. auto.
      * destruct (dget m' y) eqn:E; [|reflexivity]. exfalso.
        assert (Hy' : dget m' y <> None) by congruence. apply Hs1 in Hy' as [Hy'|Hy']; [simpl in Hy'; congruence|].
        apply (Hd y Hy). cbn [names]. rewrite !in_app_iff. auto.
    + rewrite Hd0, String.eqb_refl. reflexivity.
Qed.

Lemma gbind_list_ret {A B} (f : A -> B) l : gbind_list l None (fun x => gret (f x)) = (map f l, None).
Proof. induction l as [|x l IH]; simpl; [reflexivity|]. now rewrite IH. Qed.

Lemma am_dot_nil : forall es k, accumulate_match (fun e b => pmatch Dot e b gret) [] es [] k = k [].
Proof.
  intros es. induction es as [|e es IH]; intros k; [reflexivity|]. cbn [accumulate_match filter]. unfold gbind. simpl.
  rewrite IH. destruct (k []) as [ys [er|]]; [reflexivity|]. now rewrite app_nil_r.
Qed.
Lemma am_dot_one x v : forall es k, accumulate_match (fun e b => pmatch Dot e b gret) [] es [(x, v)] k = k [(x, v)].
Proof.
  intros es. induction es as [|e es IH]; intros k; [reflexivity|]. cbn [accumulate_match filter]. unfold gbind. simpl.
  rewrite String.eqb_refl, IH. destruct (k [(x, v)]) as [ys [er|]]; [reflexivity|]. now rewrite app_nil_r.
Qed.

Lemma gbind_list_ext {A B} (f g : A -> gen B) l t : (forall x, In x l -> f x = g x) -> gbind_list l t f = gbind_list l t g.
Proof.
  induction l as [|x l IH]; simpl; intros H; [reflexivity|]. rewrite H by auto. rewrite IH by auto. reflexivity.
Qed.

(** the rest of the sequence pattern after the first segment: exactly one result, the whole remainder *)
Lemma seg_last x y v es : x <> y ->
  seqm SlTuple [Segment (Some y)] es [(x, v)] gret = gret [(x, v); (y, VSeq KTuple es)].
Proof.
  intros Hxy. unfold Segment. rewrite seqm_star. unfold star_match. cbn [dget].
  destruct (String.eqb_spec y x) as [->|_]; [congruence|].
  unfold gbind at 1. cbn [fst snd]. rewrite (gbind_list_ext _ (fun i => if Nat.eqb i (List.length es) then gret [(x, v); (y, VSeq KTuple es)] else gnil)).
  2:{ intros i Hi. unfold slice_indices in Hi. apply in_seq in Hi.
      rewrite am_dot_one. unfold gbind, gret at 1. cbn [fst snd gbind_list].
      assert (Hd : dmerge [(x, v)] (star_bind (Some y) [(x, v)] (mk_slice SlTuple (firstn i es))) =
                   [(x, v); (y, VSeq KTuple (firstn i es))]).
      { cbn. destruct (String.eqb_spec y x) as [E|_]; [congruence|]. cbn.
        rewrite String.eqb_refl. cbn. destruct (String.eqb_spec y x) as [E|_]; [congruence|]. reflexivity. }
      rewrite Hd. cbn [seqm seqm']. unfold seqm. cbn [seqm'].
      destruct (Nat.eqb_spec i (List.length es)) as [->|Hn].
      - rewrite skipn_all, firstn_all. reflexivity.
      - destruct (skipn i es) eqn:E; [|reflexivity].
        assert (Hl : List.length (skipn i es) = 0) by (rewrite E; reflexivity). rewrite skipn_length in Hl. lia. }
  cbn [fst snd]. unfold slice_indices.
  assert (Hgen : forall n m, n + m = S (List.length es) ->
     gbind_list (seq n m) None (fun i => if Nat.eqb i (List.length es) then gret [(x, v); (y, VSeq KTuple es)] else gnil)
     = if Nat.eqb m 0 then gnil else gret [(x, v); (y, VSeq KTuple es)]).
  { intros n m. revert n. induction m as [|m IH]; intros n Hnm; [reflexivity|]. cbn [seq gbind_list].
    destruct (Nat.eqb_spec n (List.length es)) as [Hn|Hn].
    - assert (m = 0) by lia. subst m. reflexivity.
    - cbn [gnil]. rewrite IH by lia. destruct m; [lia|]. reflexivity. }
  rewrite Hgen by lia. reflexivity.
Qed.

Lemma two_segments x y es : x <> y ->
  match_all (PSeq KTuple [Segment (Some x); Segment (Some y)]) (VSeq KTuple es) =
  (map (fun i => [(x, VSeq KTuple (firstn i es)); (y, VSeq KTuple (skipn i es))]) (seq 0 (S (List.length es))), None).
Proof.
  intros Hxy. unfold match_all. cbn [is_star]. rewrite pm_seq. cbn [as_seq]. unfold Segment at 1. rewrite seqm_star.
  unfold star_match. cbn [dget].
  rewrite <- (gbind_list_ret (fun i => [(x, VSeq KTuple (firstn i es)); (y, VSeq KTuple (skipn i es))])).
  unfold gbind at 1. cbn [fst snd]. apply gbind_list_ext. intros i _. rewrite am_dot_nil.
  unfold gbind, gret at 1. cbn [fst snd gbind_list].
  assert (Hd : dmerge [] (star_bind (Some x) [] (mk_slice SlTuple (firstn i es))) = [(x, VSeq KTuple (firstn i es))]) by reflexivity.
  rewrite Hd, (seg_last x y _ _ Hxy). reflexivity.
Qed.

(** ** C07 *)
Lemma not_spec p e : tame p -> scoped true [] p ->
  ((forall s, ~ fits s p e) -> match_all (PNot p) e = ([[]], None)) /\
  ((exists s, fits s p e) -> match_all (PNot p) e = ([], None)).
Proof.
  intros Ht Hsc. unfold match_all. cbn [is_star]. cbn [pmatch].
  assert (Hpm : match_all p e = pmatch p e [] gret) by (unfold match_all; now rewrite (tame_not_star p Ht)).
  assert (Hne := match_no_error p e Ht). split.
  - intros Hno. destruct (pmatch p e [] gret) as [[|y ys] er] eqn:E.
    + rewrite Hpm in Hne. simpl in Hne. subst er. reflexivity.
    + exfalso. apply (Hno (dget y)). apply match_sound; auto.
      * apply scoped_up. exact Hsc.
      * rewrite Hpm. simpl. auto.
  - intros (s & Hfit). destruct (match_complete p e s Ht Hsc Hfit) as (_ & (b & Hb) & _). rewrite Hpm in Hb.
    destruct (pmatch p e [] gret) as [[|y ys] er]; [destruct Hb|reflexivity].
Qed.
Lemma not_exact p e b k :
  (pmatch p e b gret = ([], None) -> pmatch (PNot p) e b k = k b) /\
  (fst (pmatch p e b gret) <> [] -> pmatch (PNot p) e b k = ([], None)).
Proof. cbn [pmatch]. destruct (pmatch p e b gret) as [[|y ys] [er|]]; simpl; split; try congruence; try reflexivity. Qed.

(** ** C08 *)
Lemma choice_first runs i r : nth_error runs i = Some r -> snd r = None -> fst r <> [] ->
  (forall j r', j < i -> nth_error runs j = Some r' -> r' = ([], None)) -> choice_match runs = r.
Proof.
  revert i. induction runs as [|r0 rs IH]; intros i Hn Hs Hf Hj; [destruct i; discriminate|].
  destruct i as [|i].
  - injection Hn as ->. destruct r as [[|y ys] er]; simpl in *; subst; congruence || reflexivity.
  - assert (Hr0 := Hj 0 r0 ltac:(lia) eq_refl). subst r0. simpl. apply (IH i); auto.
    intros j r' Hlt Hr'. apply (Hj (S j) r'); [lia|exact Hr'].
Qed.
Lemma choice_none runs : (forall r, In r runs -> r = ([], None)) -> choice_match runs = ([], None).
Proof. induction runs as [|r rs IH]; intros H; [reflexivity|]. rewrite (H r (or_introl eq_refl)). simpl. apply IH. intros r' Hr'. apply H. right. exact Hr'. Qed.

Lemma choice_in_seq kd alts rest e : Forall (fun p => is_star p = false) alts ->
  (forall i p, nth_error alts i = Some p ->
     snd (match_all (PSeq kd (p :: rest)) e) = None -> fst (match_all (PSeq kd (p :: rest)) e) <> [] ->
     (forall j q, j < i -> nth_error alts j = Some q -> match_all (PSeq kd (q :: rest)) e = ([], None)) ->
     match_all (PSeq kd (PChoice alts None :: rest)) e = match_all (PSeq kd (p :: rest)) e) /\
  ((forall q, In q alts -> match_all (PSeq kd (q :: rest)) e = ([], None)) ->
     match_all (PSeq kd (PChoice alts None :: rest)) e = ([], None)).
Proof.
  intros Hns. unfold match_all. cbn [is_star]. rewrite !pm_seq.
  destruct (as_seq e) as [[sk es]|] eqn:He.
  2:{ split; intros; rewrite ?pm_seq, ?He; try reflexivity. }
  rewrite seqm_nonstar by reflexivity.
  assert (Hq : forall q, In q alts -> pmatch (PSeq kd (q :: rest)) e [] gret =
     match es with [] => gnil | e1 :: es' => pmatch q e1 [] (fun b' => seqm sk rest es' b' gret) end).
  { intros q Hin. rewrite pm_seq, He. apply seqm_nonstar. rewrite Forall_forall in Hns. auto. }
  split.
  - intros i p Hi Hs Hf Hj. rewrite Hq in * by (eapply nth_error_In; eauto).
    destruct es as [|e1 es']; [reflexivity|]. rewrite pm_choice. apply choice_first with (i := i); auto.
    + rewrite nth_error_map, Hi. reflexivity.
    + intros j r' Hlt Hr'. rewrite nth_error_map in Hr'. destruct (nth_error alts j) as [q|] eqn:E; [|discriminate].
      injection Hr' as <-. specialize (Hj j q Hlt E). rewrite Hq in Hj by (eapply nth_error_In; eauto). exact Hj.
  - intros Hall. destruct es as [|e1 es']; [reflexivity|]. rewrite pm_choice. apply choice_none.
    intros r Hr. apply in_map_iff in Hr as (q & <- & Hin). specialize (Hall q Hin). rewrite Hq in Hall by exact Hin. exact Hall.
Qed.
