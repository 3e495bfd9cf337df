(** C69: oryx/util/summary.py. *)
From Verif Require Export HarvestOther.
Open Scope string_scope. Open Scope list_scope. Open Scope nat_scope.

(** ** Model *)
Section model.
  Context {AR : Arrays}.
  (** SUMMARY: summary.py:20 *)
  Definition SUMMARY : string := "summary".
  (** summary: summary.py:23-33; [av] is the shape of the value *)
  Definition summary (name : string) (m : mode) (av : aval) : prog tree tree := Sow SUMMARY name m av.
  (** get_summaries: summary.py:36-44; harvest.harvest(f, tag=SUMMARY) with the plants {} *)
  Definition get_summaries {A B} (f : prog A B) : res (prog (A * plants) (B * plants)) := harvest (mk_settings SUMMARY [] None false) f [].
End model.

Section props.
  Context {AR : Arrays}.
  Notation s := (mk_settings SUMMARY [] None false).
  (** no sow_cond of the tag 'summary': what a program can do with [summary], which rejects the mode 'cond_clobber' *)
  Fixpoint by_summary {A B} (p : prog A B) : Prop :=
    match p with
    | Pure _ => True
    | Sow t _ m _ => t = SUMMARY -> m <> CondClobber
    | SowCond t _ _ => t <> SUMMARY
    | Seq p q | Cond p q => by_summary p /\ by_summary q
    | First _ p | Nest _ p | Call p | Scan _ _ p | While _ p => by_summary p
    end.
  Lemma no_cond_app l l' : no_cond l -> no_cond l' -> no_cond (l ++ l').
  Proof. intros H H' n m a K. apply in_app_or in K as [K|K]; [eapply H|eapply H']; exact K. Qed.
  Lemma no_cond_once l : no_cond l -> no_cond (once l).
  Proof. intros H n m a K. eapply H. apply once_incl, K. Qed.
  Lemma no_cond_no_mix l : no_cond l -> no_mix l.
  Proof. intros H n m1 a1 m2 a2 K1 K2. rewrite (H _ _ _ K1), (H _ _ _ K2). reflexivity. Qed.
  Lemma by_summary_no_cond {A B} (p : prog A B) : by_summary p -> forall pd, no_cond (sites s p pd).
  Proof.
    induction p as [A B f|A B C p IHp q IHq|A B C p IHp|t n m av|t n av|A B sc p IHp|A B p IHp|C X Y rv len p IHp|C c p IHp|A B p IHp q IHq]; cbn [by_summary sites2]; intros H pd.
    - intros n m a [].
    - apply no_cond_app; [apply IHp|apply IHq]; apply H.
    - apply IHp, H.
    - unfold site_here, seen. cbn [tag_of]. destruct (String.eqb_spec t SUMMARY) as [E|]; cbn [andb]; [|intros ? ? ? []]. destruct (passes s n && _)%bool; [|intros ? ? ? []]. intros n' m' a' [K|[]]. injection K as <- <- <-. destruct m; try reflexivity. exfalso. apply (H E). reflexivity.
    - unfold site_here, seen. cbn [tag_of]. destruct (String.eqb_spec t SUMMARY) as [E|]; [contradiction|]. intros ? ? ? [].
    - unfold scope_site. destruct (sites2 p s s (sub pd sc)); [intros ? ? ? []|]. destruct (passes s sc); [|intros ? ? ? []]. intros n' m' a' [K|[]]. injection K as <- <- <-. reflexivity.
    - apply no_cond_once, IHp, H.
    - apply no_cond_app; intros n m a K.
      + apply filter_In in K as [K _]. apply (no_cond_once _ (IHp H _)) in K. exact K.
      + apply in_map_iff in K as ([n' [m' a']] & E & K). injection E as <- <- <-. apply filter_In in K as [K _]. apply (no_cond_once _ (IHp H _)) in K. exact K.
    - apply no_cond_once, IHp, H.
    - apply no_cond_once, IHp, H.
  Qed.
  Lemma by_summary_tame {A B} (p : prog A B) : by_summary p -> forall pd, tame s p pd.
  Proof.
    induction p as [A B f|A B C p IHp q IHq|A B C p IHp|t n m av|t n av|A B sc p IHp|A B p IHp|C X Y rv len p IHp|C c p IHp|A B p IHp q IHq]; cbn [by_summary tame2]; intros H pd; auto.
    - split; [apply IHp|apply IHq]; apply H.
    - split; [apply IHp, H|apply by_summary_no_cond, H].
    - split; [apply IHp, H|apply no_cond_no_mix, by_summary_no_cond, H].
    - split; [apply IHp, H|left; apply by_summary_no_cond, H].
    - split; [apply IHp, H|apply no_cond_no_mix, by_summary_no_cond, H].
    - repeat split; [apply IHp, H|apply IHq, H|apply no_cond_no_mix, by_summary_no_cond, H|apply no_cond_no_mix, by_summary_no_cond, H].
  Qed.
  Lemma by_summary_regular {A B} (p : prog A B) pd : by_summary p -> regular s p pd.
  Proof. intros H. split; [apply by_summary_tame, H|apply no_cond_no_mix, by_summary_no_cond, H]. Qed.

  (** the value is unchanged *)
  Theorem C69_summary_identity fuel n m av v : m <> CondClobber -> has_aval v av = true -> run fuel (summary n m av) v = inl v.
  Proof. apply C23_sow_identity. Qed.

  (** nothing planted: every condition on plants is about sows in illegal places, which reaping rejects too *)
  Lemma planted_once_nil s' {A B} (p : prog A B) : planted_once s' p [].
  Proof. intros l1 l2 t n m m' _ _ _ H. discriminate. Qed.
  Lemma plantable_nil s' {A B} (p : prog A B) : legal s' p -> plantable s' p [].
  Proof.
    induction p as [A B f|A B C p IHp q IHq|A B C p IHp|t n m av|t n av|A B sc p IHp|A B p IHp|C X Y rv len p IHp|C c p IHp|A B p IHp q IHq]; cbn [legal plantable]; intros H; auto; try tauto.
    - split; [intros E; discriminate|]. split; [apply IHp, H|apply planted_once_nil].
    - split; [apply IHp, H|apply planted_once_nil].
    - destruct H as (H1 & H2 & H3 & H4). split; [exact H1|]. split; [exact H2|]. split; [exact H3|]. split; [apply IHp, H1|apply planted_once_nil].
    - destruct H as (H1 & H2 & H3). split; [exact H1|]. split; [exact H2|]. split; [exact H3|]. split; [apply IHp, H1|apply planted_once_nil].
    - destruct H as (H1 & H2 & H3 & H4 & H5). split; [exact H1|]. split; [exact H2|]. split; [exact H3|]. split; [exact H4|]. split; [exact H5|]. split; [apply IHp, H1|]. split; [apply planted_once_nil|]. split; [apply IHq, H2|apply planted_once_nil].
  Qed.
  Lemma legal_with_nil s' {A B} (p : prog A B) : legal_with s' p [] <-> legal s' p.
  Proof.
    induction p as [A B f|A B C p IHp q IHq|A B C p IHp|t n m av|t n av|A B sc p IHp|A B p IHp|C X Y rv len p IHp|C c p IHp|A B p IHp q IHq]; cbn [legal legal_with]; try tauto.
  Qed.
  (** harvest with nothing planted raises exactly when call_and_reap does *)
  Lemma harvest_nothing s' {A B} (p : prog A B) : (exists h, harvest s' p [] = inl h) <-> exists r, call_and_reap s' p = inl r.
  Proof.
    rewrite C33_harvest_succeeds_iff, C25_reap_succeeds_iff, legal_with_nil. split; [tauto|]. intros [H1 H2].
    split; [apply plantable_nil, H1|]. split; [apply planted_once_nil|]. auto.
  Qed.

  (** get_summaries(f) raises exactly when reaping f's summaries does, that is when a scope has two summaries of one name one
      of which is strict or append, or a summary has a mode that its loop or branch does not allow ([legal]) *)
  Theorem C69_raises_iff {A B} (f : prog A B) :
    ((exists h, get_summaries f = inl h) <-> exists r, call_and_reap s f = inl r) /\
    ((exists h, get_summaries f = inl h) <-> legal s f /\ repeats_ok (sites s f [])).
  Proof. split; [apply harvest_nothing|]. unfold get_summaries. rewrite harvest_nothing. apply C25_reap_succeeds_iff. Qed.

  (** get_summaries(f)(x): the output of f, or f's exception, and exactly the summaries f records, each with the value of its
      last effective occurrence (zeros if a loop around it has no iterations), stacked over iterations in mode 'append' *)
  Theorem C69_get_summaries {A B} (f : prog A B) h : by_summary f -> get_summaries f = inl h -> forall fuel x,
    match run fuel f x with
    | inr e => run fuel h (x, []) = inr e
    | inl y => exists o d, sem s fuel f [] x = inl (y, o) /\ run fuel h (x, []) = inl (y, d) /\ NoDup (dkeys d) /\
        (forall n, In n (dkeys d) <-> In n (dkeys (sites s f []))) /\
        (forall n m av, dget (once (sites s f [])) n = Some (m, av) -> dget d n = Some (match last_eff o n with Some v => v | None => zeros av end))
    end.
  Proof.
    intros Hb H fuel x. destruct (proj1 (harvest_nothing s f) (ex_intro _ h H)) as [r Hr]. pose proof (by_summary_regular f [] Hb) as Hreg.
    pose proof (C33_harvest_partial s f [] h H Hreg fuel x) as E. pose proof (call_and_reap_sem s fuel f r x Hr Hreg) as E'. pose proof (C23_reap_outputs s f r Hr fuel x) as O.
    assert (EE : run fuel h (x, []) = run fuel r x) by (rewrite E'; exact E). rewrite EE. destruct (run fuel f x) as [y|e].
    - destruct O as [d O]. destruct (C24_reap_exactly_partial s f r fuel x y d Hr Hreg O) as (o & S & N & K & L). exists o, d. auto.
    - exact O.
  Qed.
  (** ... and it is what call_and_reap returns *)
  Theorem C69_is_call_and_reap {A B} (f : prog A B) h r : by_summary f -> get_summaries f = inl h -> call_and_reap s f = inl r ->
    forall fuel x, run fuel h (x, []) = run fuel r x.
  Proof.
    intros Hb H Hr fuel x. pose proof (by_summary_regular f [] Hb) as Hreg. rewrite (C33_harvest_partial s f [] h H Hreg), (call_and_reap_sem s fuel f r x Hr Hreg). reflexivity.
  Qed.
  (** nothing tagged 'summary' is left for an outer get_summaries *)
  Theorem C69_nothing_left {A B} (f : prog A B) h : get_summaries f = inl h -> exists h', call_and_reap s h = inl h' /\ forall fuel x, run fuel h' x = rb (run fuel h x) (fun b => inl (b, [])).
  Proof. apply C33_nothing_left_to_reap. Qed.
  (** the sows of every other tag are left: an outer reap finds what it finds in f *)
  Theorem C69_other_tags s2 {A B} (f : prog A B) h r2 : tag_of s2 <> SUMMARY -> get_summaries f = inl h -> call_and_reap s2 f = inl r2 -> regular s2 f [] ->
    exists h2, call_and_reap s2 h = inl h2 /\ forall fuel x, run fuel h2 (x, []) = rb (run fuel h (x, [])) (fun yd => rb (run fuel r2 x) (fun z => inl (yd, snd z))).
  Proof. intros Ht. now apply C27_harvest_nothing. Qed.
End props.

(** Two summaries (one in a scope, one collected over a loop) and a value with another tag *)
Definition ex_sum : prog tree (tree * list tree) :=
  Seq (summary "h" Strict A1) (Seq (Sow "u" "h" Strict A1) (Seq (Nest "f" (Seq (step (fun x => x * 2)%Z) (summary "h" Strict A1)))
    (Seq (Pure (fun t => inl (t, [1; 2; 3]%Z)))
      (Scan false 3 (Seq (Pure (fun cx : tree * Z => inl (L (val (fst cx) + snd cx)%Z, tt))) (Seq (First unit (summary "c" Append A1)) (Pure (fun x => inl (fst x, fst x))))))))).
Theorem C69_example : by_summary ex_sum /\ match get_summaries ex_sum with inl h => run 10 h (L 4, []) | inr e => inr e end =
  inl ((L 14, [L 9; L 11; L 14]), [("h", L 4); ("f", Dict [("h", L 8)]); ("c", Stk [L 9; L 11; L 14])]).
Proof. split; [cbn; repeat split; try discriminate; intros E; discriminate|vm_compute; reflexivity]. Qed.
(** the value with the tag "u" is still there *)
Theorem C69_other_example : match get_summaries ex_sum with inl h => rb (call_and_reap (all "u") h) (fun r => rb (run 10 r (L 4, [])) (fun x => inl (snd x))) | inr e => inr e end = inl [("h", L 4)].
Proof. vm_compute. reflexivity. Qed.
(** the same name twice *)
Theorem C69_raises_example : get_summaries (Seq (summary "h" Strict A1) (summary "h" Strict A1)) = inr ValueErr.
Proof. vm_compute. reflexivity. Qed.
Print Assumptions C69_raises_iff.
Print Assumptions C69_get_summaries.
Print Assumptions C69_is_call_and_reap.
Print Assumptions C69_other_tags.
