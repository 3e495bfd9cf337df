(** C59: sample_chain (and optix.optimize) iterate the module they initialise. *)
From Verif Require Import Dict HarvestSpec HarvestProofs HarvestProofs2 HarvestProofs3 HarvestProofs4 HarvestProofs5 StateProps StateNestProofs StateNestProps.
From Verif Require Export LoopModel.
From Coq Require Import Lia.
Open Scope string_scope. Open Scope list_scope.

(** ** Specification: a module called repeatedly, its result fed back as the state *)
Section iterate.
  Context {AR : Arrays}.
  Fixpoint iterate {X S A} (fuel : nat) (arg : X -> S -> A) (m : fmodule A S) (s : S) (xs : list X) : res ((S * list S) * fmodule A S) :=
    match xs with
    | [] => inl ((s, []), m)
    | x :: xs' => rb (fm_call_and_update fuel m (arg x s)) (fun r => rb (iterate fuel arg (snd r) (fst r) xs') (fun q => inl ((fst (fst q), fst r :: snd (fst q)), snd q)))
    end.
End iterate.

Section loop.
  Context {AR : Arrays}.
  Variables (key0 : tree) (empty_sow : bool) (A' X S A B' : Type) (first : A' -> A) (prep : A' -> list X * S) (arg : X -> S -> A) (post : S * list S -> B') (n : nat).

  Lemma cau_same {C D} fuel ws (c0 : prog (plants * C) (D * plants)) nm x y m' : fm_call_and_update fuel (mk_fm ws c0 nm) x = inl (y, m') -> m' = mk_fm (fm_vars m') c0 nm.
  Proof. intros H. unfold fm_call_and_update in H. apply rb_inl in H as ([y' d] & _ & H). destruct (forallb _ _); [|discriminate]. injection H as _ <-. reflexivity. Qed.
  Lemma iterate_same fuel c0 nm : forall xs ws s r m', iterate (X := X) (S := S) (A := A) fuel arg (mk_fm ws c0 nm) s xs = inl (r, m') -> m' = mk_fm (fm_vars m') c0 nm.
  Proof.
    induction xs as [|x xs IH]; intros ws s r m' H; cbn [iterate] in H; [injection H as <- <-; reflexivity|].
    apply rb_inl in H as ([y m1] & H1 & H). apply rb_inl in H as ([q m2] & H2 & H). injection H as <- <-. cbn [fst snd] in *. apply cau_same in H1. rewrite H1 in H2. apply IH in H2. exact H2.
  Qed.
  Lemma loop_run (K : plants -> Prop) fuel nm (c0 c : prog (plants * A) (S * plants)) a ws : (forall ws x, K ws -> run fuel c (ws, x) = rb (fm_call_and_update fuel (mk_fm ws c0 nm) x) (fun r => inl (fst r, fm_vars (snd r)))) ->
    (forall ws x y m', K ws -> fm_call_and_update fuel (mk_fm ws c0 nm) x = inl (y, m') -> K (fm_vars m')) -> K ws -> List.length (fst (prep a)) = n ->
    run fuel (loop prep arg n c) (ws, a) = rb (iterate fuel arg (mk_fm ws c0 nm) (snd (prep a)) (fst (prep a))) (fun r => inl (fst r, fm_vars (snd r))).
  Proof.
    intros Hc HK Hw Hl. unfold loop. cbn [run rb fst snd]. unfold scan_sem. cbn [fst snd]. rewrite Hl, Nat.eqb_refl. cbn [rev_if]. clear Hl.
    generalize (fst (prep a)), (snd (prep a)). intros xs. revert ws Hw. induction xs as [|x xs IH]; intros ws Hw s; [reflexivity|]. cbn [scan_loop iterate fst snd rb].
    rewrite Hc, !rb_assoc by exact Hw. destruct (fm_call_and_update fuel (mk_fm ws c0 nm) (arg x s)) as [[y m']|e] eqn:E; [|reflexivity]. cbn [rb fst snd].
    pose proof (HK _ _ _ _ Hw E) as Hw'. apply cau_same in E. rewrite E in *. cbn [fm_vars] in *. specialize (IH (fm_vars m') Hw' y). destruct (scan_loop _ _ _) as [[q1 q2]|e]; cbn [rb fst snd] in *; destruct (iterate _ _ _ _ _) as [[[i1 i2] mi]|e']; cbn [rb fst snd] in *; congruence.
  Qed.

  (** the pieces of the program of a looped function *)
  Definition sow_run (b : bool) (M : meta) (vs : plants) : res plants := if b then (if has_aval (Dict vs) (AD (avals_of M)) then inl vs else inr TypeErr) else inl vs.
  Record lstage (nm : string) (u : ufun A S) (p : prog (tree * A') B') (M : meta) (c0 : prog (plants * A) (S * plants)) (iv : nat -> tree -> A -> res plants) : Prop := {
    ls_init : forall fuel k x, init_u key0 fuel u nm k x = rb (iv fuel k x) (fun vs => inl (mk_fm vs c0 (Some nm)));
    ls_typed : forall fuel k x vs, iv fuel k x = inl vs -> typed vs M;
    ls_run : forall fuel k a, List.length (fst (prep a)) = n -> run fuel p (k, a) =
      rb (iv fuel k (first a)) (fun vs0 => rb (sow_run (some_vars M) M vs0) (fun ws =>
        rb (iterate fuel arg (mk_fm ws c0 (Some nm)) (snd (prep a)) (fst (prep a))) (fun r => rb (sow_run (some_vars M || empty_sow) M (fm_vars (snd r))) (fun _ => inl (post (fst r))))));
    ls_sem : forall sP s, statef sP -> statef s -> forall fuel pd k a, List.length (fst (prep a)) = n -> sem2 sP s fuel p pd (k, a) =
      rb (iv fuel k (first a)) (fun vs0 => rb (sow_sem sP s pd VARIABLE nm (some_vars M) M vs0) (fun wo =>
        rb (iterate fuel arg (mk_fm (fst wo) c0 (Some nm)) (snd (prep a)) (fst (prep a))) (fun r =>
          rb (sow_sem sP s pd ASSIGN nm (some_vars M || empty_sow) M (fm_vars (snd r))) (fun ao => inl (post (fst r), snd wo ++ snd ao)))));
    ls_sites : forall sP s, statef sP -> statef s -> forall pd, sites2 p sP s pd =
      site_if (some_vars M) (site_here sP s pd VARIABLE nm (Strict, AD (avals_of M))) ++
      site_if (some_vars M || empty_sow) (site_here sP s pd ASSIGN nm (Clobber, AD (avals_of M)));
    ls_nocond : nocond asg p;
    ls_plain : strictp var_reap p /\ nonest p
  }.
  Lemma sow_module_run fuel t nm md M vs : is_cond md = false -> run fuel (sow_module t nm md M) vs = sow_run true M vs.
  Proof. intros H. unfold sow_module, sow_run. cbn [run rb]. rewrite H. unfold chk. destruct (has_aval _ _); reflexivity. Qed.
  Lemma dunder_run {C D} fuel nm M (c : prog (plants * C) (D * plants)) ws x :
    run fuel (dunder_call empty_sow nm M c) (ws, x) = rb (run fuel c (ws, x)) (fun r => rb (sow_run (some_vars M || empty_sow) M (snd r)) (fun _ => inl (fst r))).
  Proof.
    assert (K : run fuel (Seq c (assign_module nm M)) (ws, x) = rb (run fuel c (ws, x)) (fun r => rb (sow_run true M (snd r)) (fun _ => inl (fst r)))).
    { cbn [run]. apply rb_ext. intros [b d]. unfold assign_module. cbn [run rb fst snd]. rewrite <- (sow_module_run fuel ASSIGN nm Clobber M d eq_refl), !rb_assoc. reflexivity. }
    unfold dunder_call. destruct M as [|e M]; [|exact K]. cbn [some_vars orb]. destruct empty_sow; [exact K|]. cbn [run]. reflexivity.
  Qed.
  Lemma loop_mute s c : mute s c -> mute s (loop prep arg n c).
  Proof. unfold loop. cbn. tauto. Qed.
  Lemma loop_nonest c : nonest c -> nonest (loop prep arg n c).
  Proof. unfold loop. cbn. tauto. Qed.
  Theorem lstage_of nm (u : ufun A S) p : looped key0 empty_sow nm u first prep arg post n = inl p -> ufun_ok u -> exists M c0 iv, lstage nm u p M c0 iv.
  Proof.
    destruct u as [f|f]; cbn [looped ufun_ok]; intros H Hok.
    - apply rb_inl in H as ([M ri] & Hi & H). apply rb_inl in H as (c & Hc & H). injection H as <-. cbn [fst snd] in *.
      unfold init_in in Hi. apply rb_inl in Hi as ([M0 r0] & HM & Hi). cbn [fst snd] in Hi. apply rb_inl in Hi as (r & Hr & Hi). injection Hi as -> Hri.
      unfold cau_in in Hc. apply rb_inl in Hc as (c0 & Hc0 & Hc).
      destruct (cau_program_silent key0 f M r0 c0 Hok HM Hc0) as [Hnc Hmc]. destruct (reap_silent f r Hok Hr) as [Hnr Hmr].
      pose proof (init_typed f M r0 HM (proj1 Hok)) as Hty.
      assert (Ec : forall fuel ws x, run fuel c (ws, x) = rb (fm_call_and_update fuel (mk_fm ws c0 (Some nm)) x) (fun r => inl (fst r, fm_vars (snd r)))) by (intros; injection Hc as <-; apply cau_in_run).
      assert (Hmc' : forall s, statef s -> mute s (loop prep arg n c)) by (intros s Hs; apply loop_mute; injection Hc as <-; cbn; auto).
      assert (Hnc' : nonest (loop prep arg n c)) by (apply loop_nonest; injection Hc as <-; cbn; auto).
      clear Hc. exists M, c0, (fun fuel k x => init_vars fuel f k x). constructor.
      + intros fuel k x. cbn [init_u]. unfold init. destruct (init_vars fuel f k x) as [vs|e] eqn:Ev; [|reflexivity]. cbn [rb].
        rewrite (cau_program_skel key0 f vs (zero_vars M) (typed_skel _ _ (Hty _ _ _ _ Ev))), Hc0. reflexivity.
      + exact Hty.
      + intros fuel k a Hl. cbn [run rb fst snd].
        assert (Ei : run fuel ri (k, first a) = rb (init_vars fuel f k (first a)) (fun vs0 => sow_run (some_vars M) M vs0)).
        { rewrite <- Hri. cbn [run]. unfold init_vars. rewrite Hr. cbn [rb]. apply rb_ext. intros vs. destruct M as [|e M']; [reflexivity|]. rewrite sow_module_run by reflexivity. reflexivity. }
        rewrite Ei, ?rb_assoc. apply rb_ext. intros vs0. rewrite ?rb_assoc. apply rb_ext. intros ws. cbn [rb fst snd]. rewrite dunder_run, (loop_run (fun _ => True) fuel (Some nm) c0 c a ws (fun ws x _ => Ec fuel ws x) (fun _ _ _ _ _ _ => I) I Hl), ?rb_assoc.
        apply rb_ext. intros [q m']. cbn [rb fst snd]. rewrite ?rb_assoc. reflexivity.
      + intros sP s HsP Hs fuel pd k a Hl. cbn [sem2 rb fst snd app].
        assert (Ei : sem2 sP s fuel ri pd (k, first a) = rb (init_vars fuel f k (first a)) (fun vs0 => sow_sem sP s pd VARIABLE nm (some_vars M) M vs0)).
        { assert (Er : sem2 sP s fuel (Seq r (Pure (fun bd : S * plants => inl (snd bd)))) pd (k, first a) = rb (init_vars fuel f k (first a)) (fun vs => inl (vs, []))).
          { rewrite (silent2 sP s fuel _ pd (k, first a)); [|cbn; auto|cbn; auto]. unfold init_vars. rewrite Hr. reflexivity. }
          rewrite <- Hri. cbn [sem2 rb fst snd]. cbn [sem2 rb fst snd] in Er. rewrite Er, rb_assoc. apply rb_ext. intros vs. cbn [rb fst snd app].
          destruct M as [|e M']; [reflexivity|]. rewrite sow_module_sem by reflexivity. cbn [some_vars]. destruct (sow_sem _ _ _ _ _ _ _ _) as [[? ?]|?]; reflexivity. }
        rewrite Ei, ?rb_assoc. apply rb_ext. intros vs0. rewrite ?rb_assoc. apply rb_ext. intros [ws o]. cbn [rb fst snd].
        rewrite (dunder_sem empty_sow nm M (loop prep arg n c) sP s fuel pd ws a) by (apply silent2; auto).
        rewrite (loop_run (fun _ => True) fuel (Some nm) c0 c a ws (fun ws x _ => Ec fuel ws x) (fun _ _ _ _ _ _ => I) I Hl), ?rb_assoc. apply rb_ext. intros [q m']. cbn [rb fst snd]. rewrite ?rb_assoc. apply rb_ext. intros [w' o']. cbn [rb fst snd]. rewrite app_nil_r. reflexivity.
      + intros sP s HsP Hs pd. cbn [sites2 app]. rewrite app_nil_r. f_equal.
        * rewrite <- Hri. cbn [sites2 app]. rewrite (mute_sites sP s r (Hmr s)). cbn [app]. destruct M as [|e M']; [reflexivity|]. apply sow_module_sites.
        * apply dunder_sites. auto.
      + cbn [nocond]. split; [exact I|]. split; [|split; [apply dunder_misc; auto; apply Hmc'; unfold statef; auto|exact I]].
        rewrite <- Hri. cbn [nocond]. split; [split; [apply mute_nocond, Hmr|exact I]|]. destruct M as [|e M']; [exact I|]. unfold sow_module. cbn. repeat split; auto; discriminate.
      + destruct (dunder_misc empty_sow nm M (loop prep arg n c)) as (_ & K1 & K2); [apply Hmc'; unfold statef; auto..|exact Hnc'|].
        cbn [strictp nonest]. rewrite <- Hri. split; (split; [exact I|]); (split; [|split; [assumption|exact I]]); cbn [strictp nonest].
        * split; [split; [apply mute_strictp, Hmr|exact I]|]. destruct M as [|e M']; [exact I|]. unfold sow_module. cbn. repeat split; auto.
        * split; [auto|]. destruct M as [|e M']; [exact I|]. unfold sow_module. cbn. repeat split; auto.
    - destruct Hok as (Hn & Hv & Ha). assert (Hm : forall s, statef s -> mute s f).
      { intros s [-> | [-> | -> ]]; auto. eapply mute_seen; [|exact Hv]. reflexivity. }
      injection H as <-.
      assert (Hmc : forall s, statef s -> mute s (loop prep arg n (stateless_cau f))) by (intros s Hs; apply loop_mute; cbn; auto).
      assert (Hnc : nonest (loop prep arg n (stateless_cau f))) by (apply loop_nonest; cbn; auto).
      assert (Ec : forall fuel ws x, ws = [] -> run fuel (stateless_cau f) (ws, x) = rb (fm_call_and_update fuel (mk_fm ws (stateless_cau f) (Some nm)) x) (fun r => inl (fst r, fm_vars (snd r)))).
      { intros fuel ws x ->. unfold fm_call_and_update. cbn [fm_vars fm_cau]. unfold stateless_cau. cbn [run rb fst snd]. rewrite ?rb_assoc. apply rb_ext. intros b. reflexivity. }
      assert (EK : forall fuel ws x y m', ws = [] -> fm_call_and_update fuel (mk_fm ws (stateless_cau f) (Some nm)) x = inl (y, m') -> fm_vars m' = []).
      { intros fuel ws x y m' -> H. unfold fm_call_and_update in H. cbn [fm_vars fm_cau] in H. unfold stateless_cau in H. cbn [run rb fst snd] in H. apply rb_inl in H as ([b d] & H1 & H). apply rb_inl in H1 as (b1 & _ & E). injection E as <- <-. cbn in H. injection H as _ <-. reflexivity. }
      assert (El : forall fuel a, List.length (fst (prep a)) = n -> run fuel (loop prep arg n (stateless_cau f)) ([], a) = rb (iterate fuel arg (mk_fm [] (stateless_cau f) (Some nm)) (snd (prep a)) (fst (prep a))) (fun r => inl (fst r, fm_vars (snd r)))).
      { intros fuel a Hl. apply (loop_run (fun ws => ws = []) fuel (Some nm)); auto. apply EK. }
      exists [], (stateless_cau f), (fun _ _ _ => inl []). constructor.
      + reflexivity.
      + intros fuel k x vs E. injection E as <-. reflexivity.
      + intros fuel k a Hl. cbn [run rb fst snd]. pose proof (dunder_run fuel nm [] (loop prep arg n (stateless_cau f)) [] a) as Ed. unfold dunder_call in Ed. rewrite Ed, (El fuel a Hl), !rb_assoc. cbn [sow_run some_vars rb]. apply rb_ext. intros [q m']. cbn [rb fst snd]. rewrite ?rb_assoc. reflexivity.
      + intros sP s HsP Hs fuel pd k a Hl. cbn [sem2 rb fst snd app]. pose proof (dunder_sem empty_sow nm [] (loop prep arg n (stateless_cau f)) sP s fuel pd [] a) as Ed. unfold dunder_call in Ed. rewrite Ed by (apply silent2; auto). clear Ed.
        rewrite (El fuel a Hl), ?rb_assoc. cbn [sow_sem some_vars rb fst snd app]. apply rb_ext. intros [q m']. cbn [rb fst snd]. rewrite ?rb_assoc. apply rb_ext. intros [w' o']. cbn [rb fst snd]. rewrite app_nil_r. reflexivity.
      + intros sP s HsP Hs pd. cbn [sites2 app some_vars site_if]. rewrite app_nil_r. apply (dunder_sites empty_sow nm [] (loop prep arg n (stateless_cau f)) sP s pd). auto.
      + cbn [nocond]. split; [exact I|]. split; [|exact I]. apply (dunder_misc empty_sow nm [] (loop prep arg n (stateless_cau f))); [apply Hmc; unfold statef; auto..|exact Hnc].
      + destruct (dunder_misc empty_sow nm [] (loop prep arg n (stateless_cau f))) as (_ & K1 & K2); [apply Hmc; unfold statef; auto..|exact Hnc|]. cbn. auto.
  Qed.
  Section results.
    Variables (nm : string) (u : ufun A S) (p : prog (tree * A') B').
    Hypotheses (Hp : looped key0 empty_sow nm u first prep arg post n = inl p) (Hu : ufun_ok u).
    (** as an ordinary function *)
    Theorem looped_run fuel k a : List.length (fst (prep a)) = n ->
      (forall b, run fuel p (k, a) = inl b -> exists m q m', init_u key0 fuel u nm k (first a) = inl m /\ iterate fuel arg m (snd (prep a)) (fst (prep a)) = inl (q, m') /\ b = post q) /\
      (forall m q m', init_u key0 fuel u nm k (first a) = inl m -> iterate fuel arg m (snd (prep a)) (fst (prep a)) = inl (q, m') -> same_shapes (fm_vars m') (fm_vars m) -> run fuel p (k, a) = inl (post q)).
    Proof.
      intros Hl. destruct (lstage_of nm u p Hp Hu) as (M & c0 & iv & Hs). rewrite (ls_run _ _ _ _ _ _ Hs fuel k a Hl). split.
      - intros b H. apply rb_inl in H as (vs0 & H1 & H). apply rb_inl in H as (ws & H2 & H). apply rb_inl in H as ([q m'] & H3 & H). apply rb_inl in H as (w & _ & E). injection E as <-. cbn [fst snd] in *.
        assert (ws = vs0) as -> by (unfold sow_run in H2; destruct (some_vars M); [destruct (has_aval _ _)|]; congruence).
        exists (mk_fm vs0 c0 (Some nm)), q, m'. rewrite (ls_init _ _ _ _ _ _ Hs), H1. auto.
      - intros m q m' Hi Hit Hsh. rewrite (ls_init _ _ _ _ _ _ Hs) in Hi. apply rb_inl in Hi as (vs0 & Hv & E). injection E as <-. cbn [fm_vars] in Hsh. pose proof (ls_typed _ _ _ _ _ _ Hs _ _ _ _ Hv) as Ht.
        rewrite Hv. cbn [rb]. assert (Es : forall b vs, typed vs M -> sow_run b M vs = inl vs) by (intros b vs H; unfold sow_run; unfold typed in H; rewrite H; destruct b; reflexivity).
        rewrite (Es _ _ Ht). cbn [rb]. rewrite Hit. cbn [rb fst snd]. rewrite Es by (eapply typed_same; eassumption). reflexivity.
    Qed.
    (** as a function transformed by state.init: the module is a variable, and every call continues from its state *)
    Theorem looped_state fuel0 name key a0 m : List.length (fst (prep a0)) = n -> init fuel0 key0 p name key a0 = inl m ->
      exists mk, init_u key0 fuel0 u nm key (first a0) = inl mk /\ fm_vars m = (match fm_vars mk with [] => [] | vs => [(nm, Dict vs)] end) /\
      (fm_vars mk <> [] -> forall fuel vs a, same_shapes vs (fm_vars mk) -> List.length (fst (prep a)) = n ->
        (forall b m', fm_call_and_update fuel (fm_replace m [(nm, Dict vs)]) a = inl (b, m') ->
           exists q mk', iterate fuel arg (fm_replace mk vs) (snd (prep a)) (fst (prep a)) = inl (q, mk') /\ b = post q /\ m' = fm_replace m [(nm, Dict (fm_vars mk'))] /\ same_shapes (fm_vars mk') (fm_vars mk)) /\
        (forall q mk', (exists mi, init_u key0 fuel u nm key0 (first a) = inl mi) -> iterate fuel arg (fm_replace mk vs) (snd (prep a)) (fst (prep a)) = inl (q, mk') -> same_shapes (fm_vars mk') (fm_vars mk) ->
           fm_call_and_update fuel (fm_replace m [(nm, Dict vs)]) a = inl (post q, fm_replace m [(nm, Dict (fm_vars mk'))]))).
    Proof.
      intros Hl0 Hi. destruct (lstage_of nm u p Hp Hu) as (M & c0 & iv & Hs). destruct (ls_plain _ _ _ _ _ _ Hs) as [Hsp _].
      pose proof Hi as Hv. apply init_cau in Hv as (_ & _ & Hv). unfold init_vars in Hv. apply rb_inl in Hv as (r & Hr & Hv). apply rb_inl in Hv as ([b d] & Hd & Ed). cbn [snd] in Ed. injection Ed as ->.
      rewrite (call_and_reap_sem var_reap fuel0 p r (key, a0) Hr (strictp_regular _ p Hsp)) in Hd. apply rb_inl in Hd as ([b' o] & Ho & Ed). cbn [fst snd] in Ed. injection Ed as <- Ed.
      rewrite (ls_sem _ _ _ _ _ _ Hs) in Ho by (unfold statef; auto). apply rb_inl in Ho as (vs0 & Hv0 & Ho). apply rb_inl in Ho as ([ws o1] & Hw & Ho). apply rb_inl in Ho as ([q m'] & Hq & Ho). apply rb_inl in Ho as ([w2 o2] & Ha & E). injection E as <- <-. cbn [fst snd] in *.
      pose proof (ls_typed _ _ _ _ _ _ Hs _ _ _ _ Hv0) as Ht.
      exists (mk_fm vs0 c0 (Some nm)). split; [rewrite (ls_init _ _ _ _ _ _ Hs), Hv0; reflexivity|]. cbn [fm_vars].
      assert (Ea : o2 = []).
      { unfold sow_sem in Ha. destruct (some_vars M || empty_sow)%bool; [|injection Ha as <- <-; auto]. apply rb_inl in Ha as ([v o''] & Ha & E'). unfold at_sow in Ha. apply rb_inl in Ha as (v' & _ & Ha). cbn in Ha. injection Ha as <- <-. destruct v'; try discriminate. injection E' as _ <-. reflexivity. }
      subst o2. rewrite app_nil_r in Ed.
      assert (Esv : sites var_reap p [] = site_if (some_vars M) [(nm, (Strict, AD (avals_of M)))]).
      { rewrite (ls_sites _ _ _ _ _ _ Hs) by (unfold statef; auto). unfold site_here. cbn. destruct (some_vars M), empty_sow; reflexivity. }
      rewrite Esv in Ed. split.
      { rewrite <- Ed. unfold sow_sem in Hw. destruct M as [|e M]; cbn [some_vars site_if] in *.
        - injection Hw as <- <-. apply typed_nil in Ht as ->. reflexivity.
        - apply rb_inl in Hw as ([v o''] & Hw & E'). unfold at_sow, chk in Hw. unfold typed in Ht. rewrite Ht in Hw. cbn in Hw. injection Hw as <- <-. injection E' as <- <-.
          destruct vs0; [discriminate|]. cbn. unfold collect, once, last_eff. cbn. rewrite String.eqb_refl. reflexivity. }
      intros Hne fuel vs a Hsh Hl. destruct M as [|e M0]; [apply typed_nil in Ht; contradiction|]. set (M := e :: M0) in *.
      assert (Hm : fm_vars m = [(nm, Dict vs0)]).
      { rewrite <- Ed. unfold sow_sem in Hw. cbn [some_vars site_if M] in *. apply rb_inl in Hw as ([v o''] & Hw & E'). unfold at_sow, chk in Hw. unfold typed in Ht. rewrite Ht in Hw. cbn in Hw. injection Hw as <- <-. injection E' as <- <-.
        cbn. unfold collect, once, last_eff. cbn. rewrite String.eqb_refl. reflexivity. }
      pose proof (typed_same _ _ _ Hsh Ht) as Htv.
      assert (Hfit : fits (skels_of (fm_vars m)) [(nm, Dict vs)]).
      { rewrite Hm. replace (skels_of [(nm, Dict vs0)]) with (skels_of [(nm, Dict vs)]); [apply fits_skels_of|]. cbn. do 2 f_equal. pose proof (typed_skel _ _ Ht) as E1. pose proof (typed_skel _ _ Htv) as E2. unfold skels_of in E1, E2. rewrite E1, E2. reflexivity. }
      rewrite (C45_call_and_update_partial _ _ p key0 name key a0 fuel0 m Hi fuel [(nm, Dict vs)] a Hfit (ls_nocond _ _ _ _ _ _ Hs)).
      assert (Eas : assigned p [(nm, Dict vs)] = [(nm, (Clobber, AD (avals_of M)))]).
      { unfold assigned. rewrite (ls_sites _ _ _ _ _ _ Hs) by (unfold statef; auto). unfold site_here. cbn. rewrite ?String.eqb_refl. cbn. reflexivity. }
      rewrite Eas. cbn [dkeys map fst forallb mem]. unfold mem. cbn [existsb]. rewrite String.eqb_refl. cbn [orb andb].
      unfold exec. rewrite (ls_sem _ _ _ _ _ _ Hs) by (unfold statef; auto).
      assert (Ew : forall vs1, typed vs1 M -> sow_sem var_plant asg [(nm, Dict vs)] VARIABLE nm (some_vars M) M vs1 = inl (vs, [])).
      { intros vs1 H1. unfold sow_sem. cbn [some_vars M]. unfold at_sow, chk. unfold typed in H1. rewrite H1. cbn [rb]. change (seen var_plant VARIABLE nm) with true. unfold haskey, planted. cbn [dget]. rewrite String.eqb_refl. cbn [andb]. unfold chk. unfold typed in Htv. rewrite Htv. reflexivity. }
      assert (Ec : forall vs1, collect [(nm, (Clobber, AD (avals_of M)))] [(nm, (Dict vs1, true))] = [(nm, Dict vs1)]) by (intros; unfold collect, last_eff; cbn; rewrite String.eqb_refl; reflexivity).
      assert (Ed1 : forall vs1, dmerge [(nm, Dict vs)] [(nm, Dict vs1)] = [(nm, Dict vs1)]) by (intros; cbn; rewrite String.eqb_refl; reflexivity).
      split.
      - intros b0 m1 H. apply rb_inl in H as ([b1 o] & H & E). cbn [fst snd] in E. injection E as <- <-. apply rb_inl in H as (vs1 & Hv1 & H). rewrite (Ew vs1 (ls_typed _ _ _ _ _ _ Hs _ _ _ _ Hv1)) in H. cbn [rb fst snd] in H.
        apply rb_inl in H as ([q1 mk'] & Hit & H). apply rb_inl in H as ([w o3] & Has & E). cbn [fst snd app] in *. injection E as <- <-. exists q1, mk'. split; [exact Hit|]. split; [reflexivity|].
        unfold sow_sem in Has. cbn [some_vars M orb] in Has. apply rb_inl in Has as ([v o''] & Hw' & E'). unfold at_sow, chk in Hw'. destruct (has_aval _ _) eqn:Ev; [|discriminate]. cbn in Hw'. injection Hw' as <- <-. injection E' as <- <-.
        unfold last_eff. cbn. rewrite !String.eqb_refl. cbn. split; [reflexivity|]. eapply same_typed; [exact Ht|exact Ev].
      - intros q1 mk' [mi Hmi] Hit Hsh'. rewrite (ls_init _ _ _ _ _ _ Hs) in Hmi. apply rb_inl in Hmi as (vs1 & Hv1 & _). rewrite Hv1. cbn [rb]. rewrite (Ew vs1 (ls_typed _ _ _ _ _ _ Hs _ _ _ _ Hv1)). cbn [rb fst snd]. change (mk_fm vs c0 (Some nm)) with (fm_replace (mk_fm vs0 c0 (Some nm)) vs). rewrite Hit. cbn [rb fst snd].
        pose proof (typed_same _ _ _ Hsh' Ht) as Ht'. unfold sow_sem. cbn [some_vars M orb]. unfold at_sow, chk. unfold typed in Ht'. rewrite Ht'. cbn [rb fst snd app andb]. change (seen var_plant ASSIGN nm) with false. cbn [andb]. change (seen asg ASSIGN nm) with true. cbn [rb fst snd app]. rewrite Ec, Ed1. reflexivity.
    Qed.
  End results.
End loop.
