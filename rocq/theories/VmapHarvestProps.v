(** C68: reap and plant of a vmapped function, and of the function on every example. *)
From Verif Require Export VmapHarvestSem.
Open Scope nat_scope.

Section vmap.
  Context {AR : Arrays}.
  Variable k : nat.
  Hypothesis kpos : 0 < k.

  (** ** shapes of batched values *)
  Lemma leading_of T : (forall i, i < k -> exists t, sl k false i T t) -> leading k T.
  Proof.
    induction T as [v|l IH|l _] using tree_ind'; intros H.
    - destruct (H 0 kpos) as (t & Ht). inversion Ht.
    - constructor. assert (G : forall i, i < k -> exists ls, Forall2 (fun e e' => fst e = fst e' /\ sl k false i (snd e) (snd e')) l ls) by (intros i Hi; destruct (H i Hi) as (t & Ht); inversion Ht; subst; eauto). clear H.
      induction l as [|[n T] l IHl]; constructor.
      + pose proof (Forall_inv IH) as IH1. cbn [snd] in *. apply IH1. intros i Hi. destruct (G i Hi) as (ls & F). apply F2_cons_inv in F as (e & r & -> & [_ Hs] & _). eauto.
      + apply IHl; [exact (Forall_inv_tail IH)|]. intros i Hi. destruct (G i Hi) as (ls & F). apply F2_cons_inv in F as (e & r & -> & _ & F). eauto.
    - assert (Hl : List.length l = k) by (destruct (H 0 kpos) as (t & Ht); inversion Ht; [assumption|discriminate]). constructor; [exact Hl|]. apply Forall_forall. intros t Ht. apply In_nth_error in Ht as (i & Ht).
      assert (Hi : i < k) by (rewrite <- Hl; apply nth_error_Some; congruence). destruct (H i Hi) as (u & Hu). inversion Hu; subst; [congruence|discriminate].
  Qed.
  Lemma sl_skel L i T t : sl k L i T t -> skel_of T = skel_of t.
  Proof.
    refine (sl_ind' k L i (fun T t => skel_of T = skel_of t) _ _ _ T t); [intros ts u Hl Hn Hd|intros Ls ls H|intros Ts ts HL H]; cbn [skel_of].
    - destruct u as [v|d|l]; [reflexivity|exfalso; eapply Hd; reflexivity|reflexivity].
    - f_equal. induction H as [|e e' Ls ls [E1 E2] _ IH]; cbn; [reflexivity|]. rewrite E1, E2, IH. reflexivity.
    - reflexivity.
  Qed.

  (** ** which programs are reaped *)
  Lemma mappable_vmap {A B} (p : prog A B) : mappable p -> mappable (vmapT k p).
  Proof. induction p as [A B f|A B C p IHp q IHq|A B C p IHp|t n m av|t n av|A B sc p IHp|A B p IHp|C X Y rv len p IHp|C c p IHp|A B p IHp q IHq]; cbn; intros H; try contradiction; try tauto; destruct H; auto. Qed.
  Lemma no_cond_once l : no_cond l -> no_cond (once l).
  Proof. intros H n m a Hin. apply (H n m a), once_incl, Hin. Qed.
  Lemma mappable_no_cond {A B} (p : prog A B) sP : mappable p -> forall s pd, no_cond (sites2 p sP s pd).
  Proof.
    induction p as [A B f|A B C p IHp q IHq|A B C p IHp|t n m av|t n av|A B sc p IHp|A B p IHp|C X Y rv len p IHp|C c p IHp|A B p IHp q IHq]; cbn [mappable sites2]; intros H s pd; try contradiction.
    - intros ? ? ? [].
    - intros n m a Hin. apply in_app_or in Hin as [Hin|Hin]; [eapply IHp|eapply IHq]; try exact Hin; apply H.
    - now apply IHp.
    - unfold site_here. destruct (_ && _)%bool; [intros ? ? ? [E|[]]|intros ? ? ? []]. injection E as <- <- <-. exact H.
    - unfold scope_site. destruct (sites2 p sP s (sub pd sc)); [intros ? ? ? []|]. destruct (passes s sc); [intros ? ? ? [E|[]]|intros ? ? ? []]. injection E as <- <- <-. reflexivity.
    - now apply no_cond_once, IHp.
    - intros n m a Hin. pose proof (no_cond_once _ (IHp H s (body_plants (once (sites2 p sP sP [])) pd))) as N. apply in_app_or in Hin as [Hin|Hin]; [apply filter_In in Hin as [Hin _]; eapply N, Hin|].
      unfold stack_meta in Hin. apply in_map_iff in Hin as ([n' [m' a']] & E & Hin). injection E as <- <- <-. apply filter_In in Hin as [Hin _]. eapply N, Hin.
  Qed.
  Lemma mappable_regular {A B} (p : prog A B) s : mappable p -> forall pd, regular s p pd.
  Proof.
    intros Hm pd. split; [|apply no_cond_no_mix, mappable_no_cond, Hm]. revert pd. induction p as [A B f|A B C p IHp q IHq|A B C p IHp|t n m av|t n av|A B sc p IHp|A B p IHp|C X Y rv len p IHp|C c p IHp|A B p IHp q IHq]; cbn [mappable tame2] in *; intros pd; try contradiction; auto.
    - destruct Hm. auto.
    - split; [auto|now apply mappable_no_cond].
    - split; [auto|apply no_cond_no_mix; now apply mappable_no_cond].
    - split; [auto|left; now apply mappable_no_cond].
  Qed.
  Lemma MR_In L M M' n m a' : MR k L M M' -> In (n, (m, a')) M' -> exists a, In (n, (m, a)) M.
  Proof.
    induction 1 as [|[n1 [m1 a1]] [n2 [m2 a2]] M M' He _ IH]; intros H; [destruct H|]. destruct H as [E|H]; [|destruct (IH H) as (a & Ha); exists a; right; exact Ha]. injection E as -> -> ->. destruct He as (E1 & E2 & _). cbn in E1, E2. subst. exists a1. left. reflexivity.
  Qed.
  Lemma MR_In' L M M' n m a : MR k L M M' -> In (n, (m, a)) M -> exists a', In (n, (m, a')) M'.
  Proof.
    induction 1 as [|[n1 [m1 a1]] [n2 [m2 a2]] M M' He _ IH]; intros H; [destruct H|]. destruct H as [E|H]; [|destruct (IH H) as (a' & Ha); exists a'; right; exact Ha]. injection E as -> -> ->. destruct He as (E1 & E2 & _). cbn in E1, E2. subst. exists a2. left. reflexivity.
  Qed.
  Lemma MR_split L M' l1 l2 e : forall M, MR k L M M' -> M' = l1 ++ e :: l2 -> exists q1 q2 x, M = q1 ++ x :: q2 /\ MR k L q1 l1 /\ mr k L x e.
  Proof.
    intros M H ->. apply Forall2_app_inv_r in H as (q1 & q2 & H1 & H2 & ->). inversion H2 as [|x y u v Hx Hu]; subst. eauto 8.
  Qed.
  Lemma MR_split' L M l1 l2 e : forall M', MR k L M M' -> M = l1 ++ e :: l2 -> exists q1 q2 x, M' = q1 ++ x :: q2 /\ MR k L l1 q1 /\ mr k L e x.
  Proof.
    intros M' H ->. apply Forall2_app_inv_l in H as (q1 & q2 & H1 & H2 & ->). inversion H2 as [|x y u v Hx Hu]; subst. eauto 8.
  Qed.
  Lemma MR_latest L M M' n : MR k L M M' -> match latest M n, latest M' n with Some x, Some x' => fst x = fst x' | None, None => True | _, _ => False end.
  Proof. intros H. unfold latest. pose proof (MR_dget k L _ _ n (MR_once k L _ _ H)) as G. destruct (dget (once M) n), (dget (once M') n); try contradiction; tauto. Qed.
  Lemma repeats_MR L M M' : MR k L M M' -> no_cond M -> repeats_ok M <-> repeats_ok M'.
  Proof.
    intros H N. assert (N' : no_cond M') by (intros n m a Hin; destruct (MR_In L M M' n m a H Hin) as (a0 & Ha); exact (N n m a0 Ha)). split; intros R l1 l2 n x y E Hl.
    - destruct (MR_split L M' l1 l2 (n, x) M H E) as (q1 & q2 & [n0 x0] & EM & H1 & He). destruct He as (E1 & E2 & _). cbn in E1, E2. subst n0. pose proof (MR_latest L q1 l1 n H1) as HL. rewrite Hl in HL. destruct (latest q1 n) as [y0|] eqn:El; [|contradiction].
      destruct (R q1 q2 n x0 y0 EM El) as (R1 & R2 & _). split; [now rewrite <- HL|]. split; [now rewrite <- E2|]. intros C. exfalso. destruct x as [m a]. cbn in C. rewrite (N' n m a) in C; [discriminate|]. rewrite E. apply in_or_app. right. left. reflexivity.
    - destruct (MR_split' L M l1 l2 (n, x) M' H E) as (q1 & q2 & [n0 x0] & EM & H1 & He). destruct He as (E1 & E2 & _). cbn in E1, E2. subst n0. pose proof (MR_latest L l1 q1 n H1) as HL. rewrite Hl in HL. destruct (latest q1 n) as [y0|] eqn:El; [|contradiction].
      destruct (R q1 q2 n x0 y0 EM El) as (R1 & R2 & _). split; [now rewrite HL|]. split; [now rewrite E2|]. intros C. exfalso. destruct x as [m a]. cbn in C. rewrite (N n m a) in C; [discriminate|]. rewrite E. apply in_or_app. right. left. reflexivity.
  Qed.
  Lemma PR_nil L i : PR k L i [] [].
  Proof. split; [constructor|auto]. Qed.
  Lemma sites_vmap0 {A B} (p : prog A B) sP s : mappable p -> MR k true (sites2 p sP s []) (sites2 (vmapT k p) sP s []).
  Proof. intros H. apply (sites_vmap k true sP p H (fun E => False_ind _ (Bool.diff_true_false E)) s [] [] 0), PR_nil. Qed.
  Lemma no_last_cond l : no_cond l -> is_cond (last_mode (once l)) = true -> False.
  Proof. intros N H. rewrite last_mode_no_cond in H; [discriminate|]. now apply no_cond_once. Qed.
  Lemma repeats_vmap {A B} (p : prog A B) s : mappable p -> repeats_ok (sites s p []) <-> repeats_ok (sites s (vmapT k p) []).
  Proof. intros H. apply (repeats_MR true); [now apply sites_vmap0|now apply mappable_no_cond]. Qed.
  Lemma strict_vmap {A B} (p : prog A B) s : mappable p -> (forall n m a, In (n, (m, a)) (sites s p []) -> m <> Strict) <-> (forall n m a, In (n, (m, a)) (sites s (vmapT k p) []) -> m <> Strict).
  Proof. intros H. pose proof (sites_vmap0 p s s H) as HM. split; intros G n m a Hin; [destruct (MR_In true _ _ n m a HM Hin) as (a0 & Ha)|destruct (MR_In' true _ _ n m a HM Hin) as (a0 & Ha)]; exact (G n m a0 Ha). Qed.
  Lemma legal_vmap {A B} (p : prog A B) s : mappable p -> legal s p <-> legal s (vmapT k p).
  Proof.
    induction p as [A B f|A B C p IHp q IHq|A B C p IHp|t n m av|t n av|A B sc p IHp|A B p IHp|C X Y rv len p IHp|C c p IHp|A B p IHp q IHq]; cbn [mappable vmapT legal sites2 app]; intros H; try contradiction.
    - tauto.
    - destruct H. rewrite IHp, IHq by assumption. tauto.
    - rewrite IHp by assumption. tauto.
    - tauto.
    - rewrite IHp, (repeats_vmap p s H) by assumption. tauto.
    - rewrite IHp, (repeats_vmap p s H) by assumption. tauto.
    - rewrite app_nil_r, IHp, (repeats_vmap p s H), (strict_vmap p s H) by assumption.
      assert (N1 : is_cond (last_mode (once (sites s p []))) = true -> False) by (apply no_last_cond, mappable_no_cond, H).
      assert (N2 : is_cond (last_mode (once (sites s (vmapT k p) []))) = true -> False) by (apply no_last_cond, mappable_no_cond, mappable_vmap, H). split; [intros (G1 & G2 & G3 & G4)|intros (_ & ((_ & G1 & _) & G2 & G3 & G4) & _)].
      + split; [exact I|]. split; [|exact I]. split; [tauto|]. split; [exact G2|]. split; [exact G3|]. intros Hc. destruct (N2 Hc).
      + split; [exact G1|]. split; [exact G2|]. split; [exact G3|]. intros Hc. destruct (N1 Hc).
  Qed.
  (** ** which programs are planted *)
  Lemma direct_vmap {A B} (p : prog A B) : mappable p -> direct (vmapT k p) = direct p.
  Proof.
    induction p as [A B f|A B C p IHp q IHq|A B C p IHp|t n m av|t n av|A B sc p IHp|A B p IHp|C X Y rv len p IHp|C c p IHp|A B p IHp q IHq]; cbn; intros H; try contradiction; try reflexivity.
    - destruct H. now rewrite IHp, IHq.
    - now rewrite app_nil_r, IHp.
  Qed.
  Lemma quiet_vmap {A B} (p : prog A B) s : mappable p -> quiet s (vmapT k p) = quiet s p.
  Proof.
    induction p as [A B f|A B C p IHp q IHq|A B C p IHp|t n m av|t n av|A B sc p IHp|A B p IHp|C X Y rv len p IHp|C c p IHp|A B p IHp q IHq]; cbn; intros H; try contradiction; try reflexivity.
    - destruct H. now rewrite IHp, IHq.
    - now rewrite Bool.andb_true_r, IHp.
    - apply Bool.andb_true_r.
    - auto.
  Qed.
  Lemma once_vmap {A B} (p : prog A B) s sk : mappable p -> planted_once s p sk <-> planted_once s (vmapT k p) sk.
  Proof. intros H. unfold planted_once. rewrite (direct_vmap p H). tauto. Qed.
  Lemma scan_skel_MR L M M' sk : MR k L M M' -> scan_skel M sk = scan_skel M' sk.
  Proof.
    intros H. unfold scan_skel. f_equal; [f_equal|]; apply filter_ext'; intros [n t]; cbn [fst]; pose proof (MR_dget k L M M' n H) as G; destruct (dget M n) as [[m a]|], (dget M' n) as [[m' a']|]; try contradiction; try reflexivity; destruct G as [E _]; cbn in E; now rewrite E.
  Qed.
  Lemma plantable_vmap {A B} (p : prog A B) s : mappable p -> forall sk, plantable s p sk <-> plantable s (vmapT k p) sk.
  Proof.
    induction p as [A B f|A B C p IHp q IHq|A B C p IHp|t n m av|t n av|A B sc p IHp|A B p IHp|C X Y rv len p IHp|C c p IHp|A B p IHp q IHq]; cbn [mappable vmapT plantable]; intros H sk; try contradiction.
    - tauto.
    - destruct H. rewrite IHp, IHq by assumption. tauto.
    - rewrite IHp by assumption. tauto.
    - tauto.
    - rewrite IHp, (quiet_vmap p s H), <- (once_vmap p s _ H) by assumption. tauto.
    - rewrite IHp, <- (once_vmap p s _ H) by assumption. tauto.
    - cbn [legal sites2 app plantable]. rewrite app_nil_r. rewrite (legal_vmap p s H), (repeats_vmap p s H), (strict_vmap p s H), IHp by assumption. rewrite (scan_skel_MR true _ _ sk (MR_once k true _ _ (sites_vmap0 p s s H))).
      rewrite (once_vmap p s _ H). unfold planted_once. cbn [direct app]. rewrite app_nil_r. tauto.
  Qed.
End vmap.
