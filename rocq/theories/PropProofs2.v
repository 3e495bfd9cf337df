(** The work-list loop of propagate computes least stable environments. *)
From Verif Require Export PropProofs.

Definition perm (ord : oracle) : Prop := forall s l, Permutation l (ord s l).
Lemma memn_In n l : memn n l = true <-> In n l.
Proof. unfold memn. rewrite existsb_exists. split; [intros (m & Hm & E); apply Nat.eqb_eq in E; subst; exact Hm|]. intros H. exists n. split; [exact H|apply Nat.eqb_refl]. Qed.
Lemma memn_not n l : memn n l = false <-> ~ In n l.
Proof. rewrite <- memn_In. destruct (memn n l); split; try congruence; tauto. Qed.
Lemma Forall2_nth {X Y} (P : X -> Y -> Prop) l1 l2 : Forall2 P l1 l2 -> length l1 = length l2.
Proof. induction 1; cbn; auto. Qed.
Lemma NoDup_bound (l : list nat) n : NoDup l -> (forall i, In i l -> i < n) -> length l <= n.
Proof. intros H Hi. rewrite <- (seq_length n 0). apply NoDup_incl_length; [exact H|]. intros i H'. apply in_seq. specialize (Hi i H'). lia. Qed.

Section Loop.
  Context {Cell Aval Lit Prim St : Type}.
  Variable unknown : Aval -> Cell.
  Variable new : Lit -> Cell.
  Variable join : Cell -> Cell -> Cell.
  Variable lt : Cell -> Cell -> bool.
  Variable le : Cell -> Cell -> Prop.
  Hypothesis L : lattice unknown join lt le.
  Notation read := (read unknown new).
  Notation write := (write unknown new join).
  Notation writes := (writes unknown new join).
  Notation env := (env Cell).
  Notation atom := (atom Aval Lit).
  Notation node := (@node Cell Aval Lit Prim St).
  Notation le_env := (le_env unknown new le).
  Notation inside := (inside unknown new le).
  Notation stable := (stable unknown new le (Prim := Prim) (St := St)).
  Notation loop := (loop unknown new join lt (Prim := Prim) (St := St)).
  Notation monotone := (monotone le (Prim := Prim) (St := St) (Aval := Aval) (Lit := Lit)).
  Notation extensive := (extensive le (Prim := Prim) (St := St) (Aval := Aval) (Lit := Lit)).
  Notation idempotent := (@idempotent Cell Aval Lit Prim St).
  Notation total := (@total Cell Aval Lit Prim St).

  (** applying the rule of the equation twice in a row adds nothing the second time *)
  Definition step_idempotent (nd : node) : Prop := forall stamp e ic oc st e' ncs,
    n_rule nd stamp (map (read e) (n_ins nd)) (map (read e) (n_outs nd)) = Ok (ic, oc, st) ->
    writes e (n_atoms nd) (ic ++ oc) = Ok (e', ncs) -> stable e' nd.

  Lemma writes_linear (l : list atom) : forall e cs e' ncs, writes e l cs = Ok (e', ncs) -> NoDup (vars l) -> Forall2 le (map (read e) l) cs -> Forall2 (fun a c => le (read e' a) c) l cs.
  Proof.
    induction l as [|a l IH]; intros e cs e' ncs H Hd Hf; destruct cs as [|c cs]; cbn [PropModel.writes] in H; try discriminate; [constructor|].
    destruct (write e a c) as [e1 c1] eqn:Ew. destruct (writes e1 l cs) as [[e2 n2]| | |] eqn:E; try discriminate. cbn in H. injection H as <- <-.
    cbn [map] in Hf. inversion Hf as [|? ? ? ? Hac Hrest]; subst. destruct a as [n av|l0|av]; cbn in Ew; injection Ew as <- <-.
    - unfold vars in Hd. cbn [flat_map app] in Hd. inversion Hd as [|? ? Hn Hd']; subst. constructor.
      + cbn [PropModel.read]. rewrite (writes_other unknown new join _ _ _ _ _ n E Hn). unfold upd. rewrite Nat.eqb_refl. apply (l_lub _ _ _ _ L); [exact Hac|apply (l_refl _ _ _ _ L)].
      + eapply IH; [exact E|exact Hd'|].
        assert (K : forall b, In b l -> read (upd e n (Some (join (match e n with Some c => c | None => unknown av end) c))) b = read e b).
        { intros b Hb. destruct b as [m bv|?|?]; try reflexivity. cbn. unfold upd. destruct (Nat.eqb_spec m n) as [->|]; [|reflexivity]. exfalso. apply Hn. apply in_flat_map. exists (AVar n bv). split; [exact Hb|left; reflexivity]. }
        rewrite (map_ext_in _ (read e)); [exact Hrest|exact K].
    - constructor; [exact Hac|]. eapply IH; [exact E|exact Hd|exact Hrest].
    - constructor; [exact Hac|]. eapply IH; [exact E|exact Hd|exact Hrest].
  Qed.
  Lemma Forall2_split {X Y} (P : X -> Y -> Prop) l1 l2 m1 m2 : length l1 = length m1 -> Forall2 P (l1 ++ l2) (m1 ++ m2) -> Forall2 P l1 m1 /\ Forall2 P l2 m2.
  Proof.
    revert m1. induction l1 as [|x l1 IH]; intros m1 Hl H; destruct m1 as [|y m1]; try discriminate Hl; [split; [constructor|exact H]|].
    cbn in H. inversion H; subst. destruct (IH m1 ltac:(cbn in Hl; lia) ltac:(assumption)). split; [constructor|]; assumption.
  Qed.
  Lemma Forall2_map_l {X Y Z} (f : X -> Y) (P : Y -> Z -> Prop) l m : Forall2 P (map f l) m <-> Forall2 (fun x z => P (f x) z) l m.
  Proof.
    revert m. induction l as [|x l IH]; intros m; destruct m as [|z m]; split; intros H; inversion H; subst; try (constructor; fail); constructor; auto; apply IH; assumption.
  Qed.
  Lemma linear_step_idempotent nd : total nd -> monotone nd -> extensive nd -> idempotent nd -> linear nd -> step_idempotent nd.
  Proof.
    intros Ht Hm Hx Hi Hl stamp e ic oc st e' ncs Hr Hw stamp' jc pc st' Hr'.
    assert (Hll : length ic = length (n_ins nd) /\ length oc = length (n_outs nd)).
    { destruct (Ht stamp _ _ (map_length (read e) (n_ins nd)) (map_length (read e) (n_outs nd))) as (? & ? & ? & E & H1 & H2). rewrite Hr in E. injection E as <- <- _. rewrite !map_length in *. auto. }
    destruct Hll as [Hli Hlo].
    destruct (Hx _ _ _ _ _ _ (map_length _ _) (map_length _ _) Hr) as [X1 X2].
    assert (Hle : Forall2 (fun a c => le (read e' a) c) (n_atoms nd) (ic ++ oc)).
    { eapply writes_linear; [exact Hw|exact Hl|]. unfold n_atoms. rewrite map_app. apply Forall2_app; assumption. }
    unfold n_atoms in Hle. apply Forall2_split in Hle as [L1 L2]; [|congruence].
    destruct (Ht stamp ic oc Hli Hlo) as (ic2 & oc2 & st2 & Hr2 & _). destruct (Hi _ _ _ _ _ _ _ _ _ _ (map_length _ _) (map_length _ _) Hr Hr2) as [-> ->].
    assert (Hc : Forall2 le jc ic /\ Forall2 le pc oc).
    { refine (Hm _ _ _ _ _ _ _ _ _ _ _ _ _ _ _ _ Hr' Hr2); try apply map_length; apply Forall2_map_l; assumption. }
    destruct Hc as [C1 C2]. pose proof (writes_inside unknown new join lt le L _ _ _ _ _ Hw) as Hin.
    assert (Hc : Forall2 le (jc ++ pc) (ic ++ oc)) by (apply Forall2_app; assumption).
    clear -Hc Hin L. revert Hin. generalize (n_atoms nd). induction Hc as [|x y l m Hxy Hc IH]; intros at_ Hin; inversion Hin; subst; constructor; [|apply IH; assumption].
    destruct x0; cbn [PropProofs.inside] in *; auto. eapply (l_trans _ _ _ _ L); eassumption.
  Qed.

  (** ** the queue *)
  Variable nodes : list node.
  Notation N := (length nodes).
  Lemma neighbors_spec n av i : In i (neighbors nodes (AVar n av)) <-> exists nd, nth_error nodes i = Some nd /\ In n (vars (n_atoms nd)).
  Proof.
    unfold neighbors. rewrite filter_In, in_seq. split.
    - intros [Hi H]. destruct (nth_error nodes i) as [nd|]; [|discriminate]. exists nd. split; [reflexivity|]. unfold mentions in H. apply existsb_exists in H as (a & Ha & E). destruct a as [m bv|?|?]; try discriminate.
      apply Nat.eqb_eq in E as ->. apply in_flat_map. exists (AVar n bv). split; [exact Ha|left; reflexivity].
    - intros (nd & E & H). split; [split; [lia|]; apply nth_error_Some; congruence|]. rewrite E. unfold mentions. apply existsb_exists. apply in_flat_map in H as (a & Ha & H). exists a. split; [exact Ha|].
      destruct a as [m bv|?|?]; cbn in H; try contradiction. destruct H as [->|[]]. apply Nat.eqb_refl.
  Qed.
  Lemma neighbors_lt a i : In i (neighbors nodes a) -> i < N.
  Proof. destruct a as [n av|?|?]; try (cbn; contradiction). intros H. apply neighbors_spec in H as (nd & E & _). apply nth_error_Some. congruence. Qed.
  Lemma neighbors_nodup a : NoDup (neighbors nodes a).
  Proof. destruct a; cbn; try constructor. apply NoDup_filter, seq_NoDup. Qed.
  Lemma update_queue_spec ord stamp cur l : perm ord -> forall q, NoDup q -> (forall i, In i q -> i < N) ->
    let q' := update_queue lt ord stamp nodes cur q l in
    NoDup q' /\ (forall i, In i q' -> i < N) /\ incl q q' /\
    (forall a old nw i, In (a, (old, nw)) l -> lt old nw = true -> In i (neighbors nodes a) -> i <> cur -> In i q') /\
    ((forall a old nw, In (a, (old, nw)) l -> lt old nw = true -> neighbors nodes a = []) -> q' = q).
  Proof.
    intros Hp. induction l as [|[a [old nw]] l IH]; intros q Hd Hb; cbn [update_queue].
    - split; [exact Hd|]. split; [exact Hb|]. split; [apply incl_refl|]. split; [intros ? ? ? ? []|reflexivity].
    - set (q1 := if lt old nw then _ else q).
      set (f := filter (fun i => negb (memn i q) && negb (Nat.eqb i cur)) (neighbors nodes a)) in *.
      assert (H1 : NoDup q1 /\ (forall i, In i q1 -> i < N) /\ incl q q1 /\ (lt old nw = true -> forall i, In i (neighbors nodes a) -> i <> cur -> In i q1)).
      { subst q1. destruct (lt old nw); [|split; [exact Hd|]; split; [exact Hb|]; split; [apply incl_refl|discriminate]].
        pose proof (Hp (0 :: length ((a, (old, nw)) :: l) :: stamp) f) as Hf. set (f' := ord _ f) in *.
        assert (Hin : forall i, In i f' <-> In i (neighbors nodes a) /\ ~ In i q /\ i <> cur).
        { intros i. rewrite <- (Permutation_in' (eq_refl i) Hf). unfold f. rewrite filter_In, andb_true_iff, !negb_true_iff, memn_not, Nat.eqb_neq. tauto. }
        split.
        - assert (Hnd : NoDup f') by (eapply Permutation_NoDup; [exact Hf|]; apply NoDup_filter, neighbors_nodup).
          assert (Hdis : forall i, In i f' -> ~ In i q) by (intros i Hi; apply Hin in Hi; tauto). clear -Hnd Hd Hdis. induction f' as [|x f' IH]; [exact Hd|]. cbn. inversion Hnd; subst. constructor.
          + rewrite in_app_iff. intros [H|H]; [contradiction|]. exact (Hdis x (or_introl eq_refl) H).
          + apply IH; [assumption|]. intros i Hi. apply Hdis. right. exact Hi.
        - split; [|split].
          + intros i Hi. apply in_app_or in Hi as [Hi|Hi]; [|apply Hb, Hi]. apply Hin in Hi as [Hi _]. eapply neighbors_lt, Hi.
          + intros i Hi. apply in_or_app. right. exact Hi.
          + intros _ i Hi Hc. apply in_or_app. destruct (in_dec Nat.eq_dec i q) as [Hq|Hq]; [right; exact Hq|left]. apply Hin. auto. }
      destruct H1 as (A & B & C & D). destruct (IH q1 A B) as (A' & B' & C' & D' & E'). split; [exact A'|]. split; [exact B'|]. split; [eapply incl_tran; eassumption|]. split.
      + intros a0 o0 n0 i [Hi|Hi] Hlt Hn Hc; [|eapply D'; eassumption]. injection Hi as -> -> ->. apply C', D; assumption.
      + intros Hz. etransitivity; [apply E'|].
        * intros a0 o0 n0 Hi. apply (Hz a0 o0 n0). right. exact Hi.
        * subst q1. destruct (lt old nw) eqn:Elt; [|reflexivity]. pose proof (Hz a old nw (or_introl eq_refl) Elt) as Hz'. unfold f. rewrite Hz'. cbn.
          pose proof (Hp (0 :: S (length l) :: stamp) []) as Hf. apply Permutation_nil in Hf. rewrite Hf. reflexivity.
  Qed.

  (** ** one step *)
  Hypothesis Htotal : forall nd, In nd nodes -> total nd.
  Hypothesis Hmono : forall nd, In nd nodes -> monotone nd.
  Hypothesis Hidem : forall nd, In nd nodes -> step_idempotent nd.
  Definition Inv (e : env) (q : list nat) : Prop :=
    NoDup q /\ (forall i, In i q -> i < N) /\ (forall i nd, nth_error nodes i = Some nd -> ~ In i q -> stable e nd).
  Lemma vars_app (l1 l2 : list atom) : vars (l1 ++ l2) = vars l1 ++ vars l2.
  Proof. unfold vars. apply flat_map_app. Qed.
  Lemma stable_ext e e' nd : (forall a, In a (n_atoms nd) -> read e' a = read e a) -> stable e nd -> stable e' nd.
  Proof.
    intros He Hs stamp ic oc st Hr. unfold n_atoms in He.
    rewrite (map_ext_in (read e') (read e)) in Hr by (intros a Ha; apply He, in_or_app; auto). rewrite (map_ext_in (read e') (read e) (n_outs nd)) in Hr by (intros a Ha; apply He, in_or_app; auto).
    specialize (Hs _ _ _ _ Hr). unfold n_atoms in *. clear Hr. revert Hs He. generalize (n_ins nd ++ n_outs nd), (ic ++ oc). intros l cs. clear. revert cs. induction l as [|a l IH]; intros cs Hs He; inversion Hs; subst; constructor.
    - destruct a; cbn [PropProofs.inside] in *; auto. rewrite He; [assumption|left; reflexivity].
    - apply IH; [assumption|]. intros b Hb. apply He. right. exact Hb.
  Qed.
  Lemma combine_in2 {X Y Z} (l : list X) (f : X -> Y) (zs : list Z) a y z : In (a, (y, z)) (combine l (combine (map f l) zs)) <-> y = f a /\ In (a, z) (combine l zs).
  Proof.
    revert zs. induction l as [|x l IH]; intros zs; [cbn; tauto|]. destruct zs as [|w zs]; [cbn; tauto|]. cbn [map combine In]. rewrite IH. split.
    - intros [E|H]; [injection E as -> <- ->; auto|tauto].
    - intros [-> [E|H]]; [injection E as -> ->; auto|tauto].
  Qed.
  (** the potential of an environment *)
  Variables (H : nat) (h : Cell -> nat).
  Hypothesis Hh : finite_height le H h.
  Definition pot1 (e : env) (a : atom) : nat := match a with AVar _ _ => H - h (read e a) | _ => 0 end.
  Definition pot (e : env) (l : list atom) : nat := list_sum (map (pot1 e) l).
  Lemma h_le a b : le a b -> h a <= h b.
  Proof.
    intros Hab. pose proof (l_lt _ _ _ _ L a b Hab) as E. destruct (lt a b); [|subst; lia]. apply Nat.lt_le_incl, Hh; assumption.
  Qed.
  Lemma pot1_le e e' a : le_env e e' -> pot1 e' a <= pot1 e a.
  Proof. intros He. destruct a as [n av|?|?]; cbn; try lia. pose proof (h_le _ _ (He n av)). cbn in H0. lia. Qed.
  Lemma pot_le e e' l : le_env e e' -> pot e' l <= pot e l.
  Proof. intros He. unfold pot, list_sum. induction l as [|a l IH]; cbn; [lia|]. pose proof (pot1_le e e' a He). lia. Qed.
  Lemma pot_lt e e' l n av : le_env e e' -> In (AVar n av) l -> read e (AVar n av) <> read e' (AVar n av) -> pot e' l < pot e l.
  Proof.
    intros He Hi Hn. unfold pot, list_sum. induction l as [|a l IH]; [destruct Hi|]. cbn [map fold_right]. destruct Hi as [->|Hi].
    - pose proof (pot_le e e' l He) as K. unfold pot, list_sum in K. destruct Hh as [Hb Hs]. pose proof (Hs _ _ (He n av) Hn) as Hlt. pose proof (Hb (read e' (AVar n av))). change (pot1 e' (AVar n av)) with (H - h (read e' (AVar n av))). change (pot1 e (AVar n av)) with (H - h (read e (AVar n av))). lia.
    - pose proof (pot1_le e e' a He). specialize (IH Hi). lia.
  Qed.
  Lemma pot_bound e l : pot e l <= length l * H.
  Proof. unfold pot, list_sum. induction l as [|a l IH]; cbn; [lia|]. assert (pot1 e a <= H) by (destruct a; cbn; lia). lia. Qed.
  Lemma unknown_eq av av' : unknown av = unknown av'.
  Proof. apply (l_antisym _ _ _ _ L); apply (l_bot _ _ _ _ L). Qed.
  Lemma read_av e n av av' : read e (AVar n av) = read e (AVar n av').
  Proof. cbn. destruct (e n); [reflexivity|apply unknown_eq]. Qed.
  (** a change of the environment is noticed by the queue *)
  Lemma step_noticed e l cs e' ncs n av : writes e l cs = Ok (e', ncs) -> read e' (AVar n av) <> read e (AVar n av) ->
    exists av' c, In (AVar n av', c) (combine l ncs) /\ lt (read e (AVar n av')) c = true.
  Proof.
    intros Hw Hn. destruct (in_dec Nat.eq_dec n (vars l)) as [Hi|Hi].
    - destruct (writes_changed unknown new join _ _ _ _ _ n av Hw Hi) as (av' & c & Hc & ->). exists av', (read e' (AVar n av)). split; [exact Hc|].
      assert (K : le (read e (AVar n av')) (read e' (AVar n av))) by (exact (proj1 (writes_between unknown new join lt le L _ _ _ _ _ _ _ Hw Hc (ex_intro _ n (ex_intro _ av' eq_refl))))).
      pose proof (l_lt _ _ _ _ L _ _ K) as E. destruct (lt _ _); [reflexivity|]. exfalso. apply Hn. rewrite <- E. apply read_av.
    - exfalso. apply Hn. cbn. rewrite (writes_other unknown new join _ _ _ _ _ n Hw Hi). reflexivity.
  Qed.
  Lemma step_inv ord stamp stamp' e i q nd ic oc st e' ncs : perm ord -> Inv e (i :: q) -> nth_error nodes i = Some nd ->
    n_rule nd stamp' (map (read e) (n_ins nd)) (map (read e) (n_outs nd)) = Ok (ic, oc, st) -> writes e (n_atoms nd) (ic ++ oc) = Ok (e', ncs) ->
    let q' := update_queue lt ord stamp nodes i q (combine (n_atoms nd) (combine (map (read e) (n_atoms nd)) ncs)) in
    Inv e' q' /\ pot e' (flat_map n_atoms nodes) * S N + length q' < pot e (flat_map n_atoms nodes) * S N + length (i :: q).
  Proof.
    intros Hp (Hd & Hb & Hs) Hi Hr Hw q'. inversion Hd as [|? ? Hni Hd']; subst.
    assert (Hin : In nd nodes) by (eapply nth_error_In, Hi).
    destruct (update_queue_spec ord stamp i (combine (n_atoms nd) (combine (map (read e) (n_atoms nd)) ncs)) Hp q Hd' (fun j Hj => Hb j (or_intror Hj))) as (A & B & C & D & E).
    fold q' in A, B, C, D, E. pose proof (writes_le unknown new join lt le L _ _ _ _ _ Hw) as Hle. split.
    - split; [exact A|]. split; [exact B|]. intros j nd' Hj Hq'. destruct (Nat.eq_dec j i) as [->|Hji].
      + rewrite Hi in Hj. injection Hj as <-. eapply (Hidem nd Hin); eassumption.
      + apply (stable_ext e); [|apply (Hs j nd' Hj); intros [F|F]; [congruence|]; exact (Hq' (C j F))].
        intros a Ha. destruct a as [n av|?|?]; try reflexivity. pose proof (l_lt _ _ _ _ L _ _ (Hle n av)) as K. destruct (lt (read e (AVar n av)) (read e' (AVar n av))); [|symmetry; exact K].
        exfalso. apply Hq'. destruct (step_noticed _ _ _ _ _ n av Hw (fun F => K (eq_sym F))) as (av' & c & Hc & Hl). apply (D (AVar n av') (read e (AVar n av')) c j); [apply combine_in2; auto|exact Hl| |exact Hji].
        apply neighbors_spec. exists nd'. split; [exact Hj|]. apply in_flat_map. exists (AVar n av). split; [exact Ha|left; reflexivity].
    - assert (Hlen : length q' <= N) by (apply NoDup_bound; assumption).
      assert (Hcase : (exists n av, In (AVar n av) (n_atoms nd) /\ read e (AVar n av) <> read e' (AVar n av)) \/ q' = q).
      { destruct (existsb (fun a => match a with AVar n av => lt (read e a) (read e' a) | _ => false end) (n_atoms nd)) eqn:Ex.
        - left. apply existsb_exists in Ex as (a & Ha & Hl). destruct a as [n av|?|?]; try discriminate. exists n, av. split; [exact Ha|]. pose proof (l_lt _ _ _ _ L _ _ (Hle n av)) as K. rewrite Hl in K. exact K.
        - right. apply E. intros a old nw Hin' Hl. apply combine_in2 in Hin' as [-> Hc]. destruct a as [n av|?|?]; try reflexivity. exfalso.
          destruct (writes_between unknown new join lt le L _ _ _ _ _ _ _ Hw Hc) as [B1 B2]; [eauto|].
          assert (Ee : read e (AVar n av) = read e' (AVar n av)).
          { assert (Ha : In (AVar n av) (n_atoms nd)) by (eapply in_combine_l, Hc). pose proof (l_lt _ _ _ _ L _ _ (Hle n av)) as K.
            destruct (lt (read e (AVar n av)) (read e' (AVar n av))) eqn:El; [|exact K]. exfalso. assert (F : existsb (fun a => match a with AVar n av => lt (read e a) (read e' a) | _ => false end) (n_atoms nd) = true) by (apply existsb_exists; exists (AVar n av); auto). congruence. }
          rewrite <- Ee in B2. pose proof (l_lt _ _ _ _ L _ _ B1) as K. rewrite Hl in K. apply K. apply (l_antisym _ _ _ _ L); assumption. }
      destruct Hcase as [(n & av & Ha & Hn)|Hq].
      + assert (Hpot : pot e' (flat_map n_atoms nodes) < pot e (flat_map n_atoms nodes)). { eapply pot_lt; [exact Hle| |exact Hn]. apply in_flat_map. exists nd. auto. } cbn [length]. nia.
      + rewrite Hq. pose proof (pot_le e e' (flat_map n_atoms nodes) Hle). cbn [length]. nia.
  Qed.
  Lemma step_below e nd stamp ic oc st e' ncs e'' : In nd nodes ->
    n_rule nd stamp (map (read e) (n_ins nd)) (map (read e) (n_outs nd)) = Ok (ic, oc, st) -> writes e (n_atoms nd) (ic ++ oc) = Ok (e', ncs) ->
    le_env e e'' -> stable e'' nd -> le_env e' e''.
  Proof.
    intros Hin Hr Hw He Hs. eapply (writes_least unknown new join lt le L); [exact Hw|exact He|].
    destruct (Htotal nd Hin stamp _ _ (map_length (read e'') _) (map_length (read e'') _)) as (jc & pc & st2 & Hr2 & _). specialize (Hs _ _ _ _ Hr2).
    assert (K : Forall2 le ic jc /\ Forall2 le oc pc).
    { refine (Hmono nd Hin _ _ _ _ _ _ _ _ _ _ _ _ (map_length _ _) (map_length _ _) _ _ Hr Hr2); apply Forall2_map_l; clear -He L; [generalize (n_ins nd)|generalize (n_outs nd)]; intros l; induction l as [|a l IH]; cbn; constructor; auto; apply (read_le unknown new join lt le L), He. }
    destruct K as [K1 K2]. pose proof (Forall2_app K1 K2) as K. clear -K Hs L. revert Hs. generalize (n_atoms nd). induction K as [|x y l m Hxy K IH]; intros at_ Hs; inversion Hs; subst; constructor; [|apply IH; assumption].
    destruct x0; cbn [PropProofs.inside] in *; auto. eapply (l_trans _ _ _ _ L); eassumption.
  Qed.
  Definition least_stable (e0 e : env) : Prop :=
    le_env e0 e /\ (forall nd, In nd nodes -> stable e nd) /\ forall e', le_env e0 e' -> (forall nd, In nd nodes -> stable e' nd) -> le_env e e'.
  Lemma loop_ok ord : perm ord -> forall fuel stamp e ss q, Inv e q -> pot e (flat_map n_atoms nodes) * S N + length q < fuel ->
    exists e' ss', loop fuel ord stamp nodes e ss q = Ok (e', ss') /\ least_stable e e'.
  Proof.
    intros Hp. induction fuel as [|fuel IH]; intros stamp e ss q Hi Hf; [lia|]. destruct q as [|i q].
    - exists e, ss. split; [reflexivity|]. split; [apply (le_env_refl unknown new join lt le L)|]. split; [|auto]. intros nd Hnd. apply In_nth_error in Hnd as (j & Hj). destruct Hi as (_ & _ & Hs). apply (Hs j nd Hj). intros [].
    - assert (Hlt : i < N) by (apply Hi; left; reflexivity). destruct (nth_error nodes i) as [nd|] eqn:En; [|apply nth_error_None in En; lia]. assert (Hin : In nd nodes) by (eapply nth_error_In, En).
      cbn [PropModel.loop]. rewrite En.
      destruct (Htotal nd Hin (1 :: fuel :: stamp) _ _ (map_length (read e) _) (map_length (read e) _)) as (ic & oc & st & Hr & Hl1 & Hl2). rewrite !map_length in *. rewrite Hr. cbn [rbind].
      assert (Hlen : length (ic ++ oc) = length (n_atoms nd)) by (unfold n_atoms; rewrite !app_length; congruence).
      destruct (writes_ok unknown new join (n_atoms nd) e (ic ++ oc) Hlen) as (e' & ncs & Hw & _).
      pose proof Hw as Hw2. unfold n_atoms in Hw2. rewrite (writes_app unknown new join) in Hw2 by exact Hl1. destruct (writes e (n_ins nd) ic) as [[e1 nic]| | |]; try discriminate. cbn [rbind] in Hw2 |- *.
      destruct (writes e1 (n_outs nd) oc) as [[e2 noc]| | |]; try discriminate. cbn [rbind] in Hw2 |- *. injection Hw2 as -> ->.
      rewrite <- (map_app (read e) (n_ins nd) (n_outs nd)). fold (n_atoms nd).
      destruct (step_inv ord (fuel :: stamp) (1 :: fuel :: stamp) e i q nd ic oc st e' ncs Hp Hi En Hr Hw) as [Hi' Hm].
      destruct (IH stamp e' (upd ss i st) _ Hi' ltac:(lia)) as (e3 & ss3 & -> & A & B & C). exists e3, ss3. split; [reflexivity|].
      pose proof (writes_le unknown new join lt le L _ _ _ _ _ Hw) as Hle. split; [eapply (le_env_trans unknown new join lt le L); eassumption|]. split; [exact B|].
      intros e'' He Hs. apply C; [|exact Hs]. eapply step_below; [exact Hin|exact Hr|exact Hw|exact He|apply Hs, Hin].
  Qed.

  (** ** the whole propagation *)
  Notation frame := (frame Aval Lit).
  Definition frame_atoms (fr : frame) : list atom := f_out fr ++ f_in fr ++ f_const fr.
  (** the environment has at least the information of the given cells *)
  Definition above (e : env) (fr : frame) (cc ic oc : list Cell) : Prop := Forall2 (inside e) (f_const fr) cc /\ Forall2 (inside e) (f_in fr) ic /\ Forall2 (inside e) (f_out fr) oc.
  Definition lengths (fr : frame) (cc ic oc : list Cell) : Prop := length cc = length (f_const fr) /\ length ic = length (f_in fr) /\ length oc = length (f_out fr).
  Definition least_env (fr : frame) (cc ic oc : list Cell) (e : env) : Prop :=
    above e fr cc ic oc /\ (forall nd, In nd nodes -> stable e nd) /\
    forall e', above e' fr cc ic oc -> (forall nd, In nd nodes -> stable e' nd) -> le_env e e'.
  (** an equation that has a variable of the jaxpr's frame, or that does nothing as long as nothing is known *)
  Definition woken (fr : frame) (nd : node) : Prop := (exists n, In n (vars (frame_atoms fr)) /\ In n (vars (n_atoms nd))) \/ stable (fun _ => None) nd.

  Lemma init_unknown_fold (l : list atom) : forall e, le_env e (fold_left (fun e a => match a with AVar _ av => fst (write e a (unknown av)) | _ => e end) l e) /\
     le_env (fold_left (fun e a => match a with AVar _ av => fst (write e a (unknown av)) | _ => e end) l e) e.
  Proof.
    induction l as [|a l IH]; intros e; [split; apply (le_env_refl unknown new join lt le L)|]. cbn [fold_left]. destruct a as [n av|?|?]; try apply IH. destruct (IH (fst (write e (AVar n av) (unknown av)))) as [I1 I2]. split.
    - eapply (le_env_trans unknown new join lt le L); [|exact I1]. apply (write_le unknown new join lt le L).
    - eapply (le_env_trans unknown new join lt le L); [exact I2|]. apply (write_least unknown new join lt le L); [apply (le_env_refl unknown new join lt le L)|]. cbn [PropProofs.inside]. apply (l_bot _ _ _ _ L).
  Qed.
  Lemma empty_le e : le_env (fun _ => None) e.
  Proof. intros n av. apply (l_bot _ _ _ _ L). Qed.
  Lemma Forall2_inside_le e e' l cs : le_env e e' -> Forall2 (inside e) l cs -> Forall2 (inside e') l cs.
  Proof. intros He Hf. induction Hf; constructor; auto. eapply (inside_le unknown new join lt le L); eassumption. Qed.
  Lemma initial_ok fr cc ic oc : lengths fr cc ic oc -> exists e0, initial unknown new join fr nodes cc ic oc = Ok e0 /\ above e0 fr cc ic oc /\
    (forall e', above e' fr cc ic oc -> le_env e0 e') /\ forall n av, ~ In n (vars (frame_atoms fr)) -> read e0 (AVar n av) = unknown av.
  Proof.
    intros (L1 & L2 & L3). unfold initial.
    destruct (writes_ok unknown new join (f_const fr) (fun _ => None) cc L1) as (e1 & n1 & W1 & _). destruct (writes_ok unknown new join (f_in fr) e1 ic L2) as (e2 & n2 & W2 & _). destruct (writes_ok unknown new join (f_out fr) e2 oc L3) as (e3 & n3 & W3 & _).
    rewrite W1. cbn [rbind]. rewrite W2. cbn [rbind]. rewrite W3. cbn [rbind]. eexists. split; [reflexivity|]. unfold init_unknown. destruct (init_unknown_fold (flat_map n_atoms nodes) e3) as [I1 I2]. set (e4 := fold_left _ _ _) in *.
    pose proof (writes_le unknown new join lt le L _ _ _ _ _ W2) as M2. pose proof (writes_le unknown new join lt le L _ _ _ _ _ W3) as M3.
    split; [|split].
    - repeat split.
      + eapply Forall2_inside_le; [|eapply (writes_inside unknown new join lt le L), W1]. eapply (le_env_trans unknown new join lt le L); [|exact I1]. eapply (le_env_trans unknown new join lt le L); eassumption.
      + eapply Forall2_inside_le; [|eapply (writes_inside unknown new join lt le L), W2]. eapply (le_env_trans unknown new join lt le L); eassumption.
      + eapply Forall2_inside_le; [|eapply (writes_inside unknown new join lt le L), W3]. exact I1.
    - intros e' (A1 & A2 & A3). eapply (le_env_trans unknown new join lt le L); [exact I2|]. eapply (writes_least unknown new join lt le L); [exact W3| |exact A3]. eapply (writes_least unknown new join lt le L); [exact W2| |exact A2].
      eapply (writes_least unknown new join lt le L); [exact W1|apply empty_le|exact A1].
    - intros n av Hn. unfold frame_atoms in Hn. rewrite !vars_app, !in_app_iff in Hn. pose proof (l_antisym _ _ _ _ L _ _ (I1 n av) (I2 n av)) as E. rewrite <- E. cbn.
      rewrite (writes_other unknown new join _ _ _ _ _ n W3), (writes_other unknown new join _ _ _ _ _ n W2), (writes_other unknown new join _ _ _ _ _ n W1) by tauto. reflexivity.
  Qed.
  Lemma initial_queue_spec ord stamp fr : perm ord -> NoDup (initial_queue ord stamp fr nodes) /\ (forall i, In i (initial_queue ord stamp fr nodes) -> i < N) /\
    forall i nd, nth_error nodes i = Some nd -> ~ In i (initial_queue ord stamp fr nodes) -> forall n, In n (vars (frame_atoms fr)) -> ~ In n (vars (n_atoms nd)).
  Proof.
    intros Hp. unfold initial_queue. set (l := flat_map _ _). pose proof (Hp (2 :: stamp) (nodup Nat.eq_dec l)) as P. set (q := ord _ _) in *.
    assert (Hq : forall i, In i q <-> In i l). { intros i. rewrite <- (Permutation_in' (eq_refl i) P). apply nodup_In. }
    split; [eapply Permutation_NoDup; [exact P|apply NoDup_nodup]|]. split.
    - intros i Hi. apply Hq in Hi. unfold l in Hi. apply in_flat_map in Hi as (a & _ & Hi). eapply neighbors_lt, Hi.
    - intros i nd Hi Hn n Hf Hv. apply Hn, Hq. unfold l. unfold frame_atoms in Hf. unfold vars in Hf. apply in_flat_map in Hf as (a & Ha & Hf). apply in_flat_map. exists a. split; [exact Ha|].
      destruct a as [m av|?|?]; cbn in Hf; try contradiction. destruct Hf as [->|[]]. apply neighbors_spec. exists nd. auto.
  Qed.
  Variable reducer : env -> node -> St -> option St -> St.
  Variable initial_state : St.
  Definition fuel_bound : nat := length (flat_map n_atoms nodes) * H * S N + N.
  Lemma propagate_ok fr cc ic oc : lengths fr cc ic oc -> (forall nd, In nd nodes -> woken fr nd) ->
    forall fuel ord stamp, perm ord -> fuel_bound < fuel ->
    exists e s, propagate unknown new join lt reducer initial_state fuel ord stamp fr nodes cc ic oc = Ok (e, s) /\ least_env fr cc ic oc e.
  Proof.
    intros Hl Hwk fuel ord stamp Hp Hf. destruct (initial_ok fr cc ic oc Hl) as (e0 & Ei & Ha & Hmin & Hun). unfold propagate. rewrite Ei. cbn [rbind].
    destruct (initial_queue_spec ord stamp fr Hp) as (Q1 & Q2 & Q3).
    assert (Hinv : Inv e0 (initial_queue ord stamp fr nodes)).
    { split; [exact Q1|]. split; [exact Q2|]. intros i nd Hi Hq. specialize (Q3 i nd Hi Hq). destruct (Hwk nd (nth_error_In _ _ Hi)) as [(n & H1 & H2)|Hs]; [destruct (Q3 n H1 H2)|].
      eapply stable_ext; [|exact Hs]. intros a Hia. destruct a as [n av|?|?]; try reflexivity. rewrite Hun; [reflexivity|]. intros F. apply (Q3 n F). apply in_flat_map. exists (AVar n av). split; [exact Hia|left; reflexivity]. }
    destruct (loop_ok ord Hp fuel stamp e0 (fun _ => None) _ Hinv) as (e & ss & -> & A & B & C).
    { pose proof (pot_bound e0 (flat_map n_atoms nodes)). pose proof (NoDup_bound _ _ Q1 Q2). unfold fuel_bound in Hf. nia. }
    cbn [rbind]. eexists e, _. split; [reflexivity|]. split; [|split; [exact B|]].
    - destruct Ha as (A1 & A2 & A3). repeat split; eapply Forall2_inside_le; eassumption.
    - intros e' He' Hs. apply C; [apply Hmin, He'|exact Hs].
  Qed.
End Loop.
