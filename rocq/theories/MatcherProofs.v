(** Proofs about the matcher model. *)
From Verif Require Import MatcherSpec.
Open Scope list_scope.

Definition body (p : pat) : pat := match p with PStar q _ _ _ _ => q | _ => p end.

Section pat_ind.
  Variable P : pat -> Prop.
  Hypothesis Hnum : forall k z, P (PNum k z).
  Hypothesis Hstr : forall s, P (PStr s).
  Hypothesis Hseq : forall k l, Forall (fun p => P p /\ P (body p)) l -> P (PSeq k l).
  Hypothesis Hdict : forall ks l, Forall (fun p => P p /\ P (body p)) l -> P (PDict ks l).
  Hypothesis Hnode : forall c h k, P h -> P k -> P (PNode c h k).
  Hypothesis Hvar : forall n r, P (PVar n r).
  Hypothesis Hnot : forall p, P p -> P (PNot p).
  Hypothesis Hchoice : forall l n, Forall P l -> P (PChoice l n).
  Hypothesis Hstar : forall p n a g pl, P p -> P (PStar p n a g pl).
  Fixpoint pat_ind_aux (v : pat) : P v /\ P (body v).
  Proof.
    pose (fl := (fix go (l : list pat) : Forall (fun p => P p /\ P (body p)) l :=
             match l with [] => Forall_nil _ | x :: l' => Forall_cons _ (pat_ind_aux x) (go l') end)).
    destruct v as [k z|s|k l|ks l|c h k|n r|p|l n|p n a g pl]; simpl.
    - split; apply Hnum.
    - split; apply Hstr.
    - split; apply Hseq; apply fl.
    - split; apply Hdict; apply fl.
    - split; apply Hnode; apply pat_ind_aux.
    - split; apply Hvar.
    - split; apply Hnot; apply pat_ind_aux.
    - assert (Forall P l) by (eapply Forall_impl; [|apply fl]; simpl; tauto).
      split; apply Hchoice; assumption.
    - split; [apply Hstar|]; apply pat_ind_aux.
  Qed.
  Definition pat_ind' (v : pat) : P v := proj1 (pat_ind_aux v).
End pat_ind.

(** ** Unfolding lemmas *)
Lemma pm_seq kd ps e b k :
  pmatch (PSeq kd ps) e b k = match as_seq e with Some (sk, es) => seqm sk ps es b k | None => gnil end.
Proof. reflexivity. Qed.
Lemma pm_dict ks ps e b k :
  pmatch (PDict ks ps) e b k =
  match e with
  | VDict ks' vs => if list_eqb String.eqb ks' ks then seqm SlTuple ps vs b k else gnil
  | _ => gnil
  end.
Proof. reflexivity. Qed.
Lemma pm_choice ps name e b k :
  pmatch (PChoice ps name) e b k =
  choice_match (map (fun p => pmatch p e (match name with Some x => dset b x e | None => b end) k) ps).
Proof.
  cbn [pmatch]. f_equal.
Qed.
Lemma seqm_nonstar sk p ps es b k : is_star p = false ->
  seqm sk (p :: ps) es b k =
  match es with [] => gnil | e1 :: es' => pmatch p e1 b (fun b' => seqm sk ps es' b' k) end.
Proof. destruct p; simpl; congruence || reflexivity. Qed.
Lemma seqm_star sk q n a g pl ps es b k :
  seqm sk (PStar q n a g pl :: ps) es b k =
  star_match (fun e b => pmatch q e b gret) n a g pl sk es b (fun b' rest => seqm sk ps rest b' k).
Proof. reflexivity. Qed.

Definition fits_seq (s : env) :=
  fix fits_seq (sk : sliceof) (ps : list pat) (es : list val) : Prop :=
  match ps with
  | [] => es = []
  | p1 :: ps' =>
      match p1 with
      | PStar q name acc _ plus =>
          exists seg rest ss,
            es = seg ++ rest /\ (plus = true -> seg <> []) /\ named s name (mk_slice sk seg) /\
            Forall2 (fun si ei => (forall x, ~ In x acc -> si x = s x) /\ fits si q ei) ss seg /\
            (forall a, In a acc -> collect a ss <> [] -> named s (Some a) (VSeq KTuple (collect a ss))) /\
            fits_seq sk ps' rest
      | _ => exists e1 es', es = e1 :: es' /\ fits s p1 e1 /\ fits_seq sk ps' es'
      end
  end.
Lemma fits_PSeq s kd ps e :
  fits s (PSeq kd ps) e = exists sk es, as_seq e = Some (sk, es) /\ fits_seq s sk ps es.
Proof. reflexivity. Qed.
Lemma fits_PDict s ks ps e :
  fits s (PDict ks ps) e = exists vs, e = VDict ks vs /\ fits_seq s SlTuple ps vs.
Proof. reflexivity. Qed.
Lemma fits_seq_nonstar s sk p ps es : is_star p = false ->
  fits_seq s sk (p :: ps) es = exists e1 es', es = e1 :: es' /\ fits s p e1 /\ fits_seq s sk ps es'.
Proof. destruct p; simpl; congruence || reflexivity. Qed.
Lemma fits_PChoice s ps n e :
  fits s (PChoice ps n) e <-> named s n e /\ Exists (fun q => fits s q e) ps.
Proof.
  cbn [fits]. apply and_iff_compat_l. induction ps as [|q ps IH].
  - split; [tauto | intros H; inversion H].
  - rewrite Exists_cons, <- IH. reflexivity.
Qed.

Fixpoint tame_all (l : list pat) : Prop :=
  match l with
  | [] => True
  | q :: l' =>
      match q with
      | PStar r n acc _ _ => tame r /\ incl (specials r) acc /\ disjoint (onl n) (acc ++ names r)
      | _ => tame q
      end /\ disjoint (flat_map specials l') (names q) /\ tame_all l'
  end.
Lemma tame_PSeq k l : tame (PSeq k l) = tame_all l. Proof. reflexivity. Qed.
Lemma tame_PDict k l : tame (PDict k l) = tame_all l. Proof. reflexivity. Qed.
Lemma tame_all_nonstar q l : is_star q = false ->
  tame_all (q :: l) = (tame q /\ disjoint (flat_map specials l) (names q) /\ tame_all l).
Proof. destruct q; simpl; congruence || reflexivity. Qed.
Lemma tame_PChoice l n :
  tame (PChoice l n) <-> Forall (fun q => tame q /\ disjoint (specials q) (onl n)) l.
Proof.
  cbn [tame]. induction l as [|q l IH]; [split; constructor|].
  rewrite Forall_cons_iff, <- IH. tauto.
Qed.
Definition scoped_all (full : bool) :=
  fix scoped_all (B : list string) (l : list pat) : Prop :=
  match l with
  | [] => True
  | q :: l' =>
      match q with
      | PStar r n acc _ _ => scoped full B r /\ (full = true -> choice_free r /\ incl acc (sure r))
      | _ => scoped full B q
      end /\ scoped_all (B ++ sure q) l'
  end.
Lemma scoped_PSeq f B k l : scoped f B (PSeq k l) = scoped_all f B l. Proof. reflexivity. Qed.
Lemma scoped_PDict f B k l : scoped f B (PDict k l) = scoped_all f B l. Proof. reflexivity. Qed.
Lemma scoped_all_nonstar f B q l : is_star q = false ->
  scoped_all f B (q :: l) = (scoped f B q /\ scoped_all f (B ++ sure q) l).
Proof. destruct q; simpl; congruence || reflexivity. Qed.
Lemma scoped_PChoice f B l n :
  scoped f B (PChoice l n) <-> Forall (fun q => scoped f (B ++ onl n) q) l.
Proof.
  cbn [scoped]. induction l as [|q l IH]; [split; constructor|].
  rewrite Forall_cons_iff, <- IH. tauto.
Qed.

(** ** Big-step relation: [M p e b b1] - matching [p] against [e] under [b] can hand [b1] to the continuation *)
Section AM.
  Variable R : val -> bindings -> bindings -> Prop.
  Fixpoint AM (acc : list string) (es : list val) (b m : bindings) : Prop :=
    match es with
    | [] => m = b
    | e :: es' => exists m1 nb, R e (filter (fun kv => negb (mem (fst kv) acc)) b) m1 /\
                    fold_new acc m1 b = inl nb /\ AM acc es' nb m
    end.
  Definition SM (name : option string) (acc : list string) (plus : bool) (sk : sliceof) (es : list val)
      (b b1 : bindings) (rest : list val) : Prop :=
    match (match name with Some x => dget b x | None => None end) with
    | Some bound => exists n, py_len bound = Some n /\ py_eq bound (mk_slice sk (firstn n es)) = true /\
                      b1 = b /\ rest = skipn n es
    | None => exists i m, i <= List.length es /\ (plus = true -> 1 <= i) /\
                AM acc (firstn i es) b m /\
                b1 = dmerge m (star_bind name b (mk_slice sk (firstn i es))) /\ rest = skipn i es
    end.
End AM.

Fixpoint M (p : pat) (e : val) (b b1 : bindings) {struct p} : Prop :=
  let mseq := (fix mseq (sk : sliceof) (ps : list pat) (es : list val) (b : bindings) : Prop :=
     match ps with
     | [] => es = [] /\ b1 = b
     | p1 :: ps' =>
         match p1 with
         | PStar p name acc greedy plus =>
             exists b2 rest, SM (M p) name acc plus sk es b b2 rest /\ mseq sk ps' rest b2
         | _ => exists e1 es' b2, es = e1 :: es' /\ M p1 e1 b b2 /\ mseq sk ps' es' b2
         end
     end) in
  match p with
  | PNum kd z => py_eq e (VNum kd z) = true /\ b1 = b
  | PStr s => e = VStr s /\ b1 = b
  | PSeq _ ps => exists sk es, as_seq e = Some (sk, es) /\ mseq sk ps es b
  | PDict ks ps => exists vs, e = VDict ks vs /\ mseq SlTuple ps vs b
  | PNode c hp kp => exists h kids b2, e = VNode c h kids /\
                       M hp (VSeq KTuple h) b b2 /\ M kp (VSeq KTuple kids) b2 b1
  | PVar name restr =>
      forallb (fun r => r e) restr = true /\
      match name with
      | None => b1 = b
      | Some x => match dget b x with None => b1 = dset b x e | Some v => py_eq v e = true /\ b1 = b end
      end
  | PNot p => pmatch p e b gret = ([], None) /\ b1 = b
  | PChoice ps name =>
      (fix any (ps : list pat) : Prop :=
         match ps with
         | [] => False
         | q :: ps' => M q e (match name with Some x => dset b x e | None => b end) b1 \/ any ps'
         end) ps
  | PStar _ _ _ _ _ => False
  end.
Definition Mseq' (b1 : bindings) :=
  fix mseq (sk : sliceof) (ps : list pat) (es : list val) (b : bindings) : Prop :=
  match ps with
  | [] => es = [] /\ b1 = b
  | p1 :: ps' =>
      match p1 with
      | PStar p name acc greedy plus =>
          exists b2 rest, SM (M p) name acc plus sk es b b2 rest /\ mseq sk ps' rest b2
      | _ => exists e1 es' b2, es = e1 :: es' /\ M p1 e1 b b2 /\ mseq sk ps' es' b2
      end
  end.
Definition Mseq sk ps es b b1 := Mseq' b1 sk ps es b.
Lemma M_PSeq kd ps e b b1 :
  M (PSeq kd ps) e b b1 <-> exists sk es, as_seq e = Some (sk, es) /\ Mseq sk ps es b b1.
Proof. reflexivity. Qed.
Lemma M_PDict ks ps e b b1 :
  M (PDict ks ps) e b b1 <-> exists vs, e = VDict ks vs /\ Mseq SlTuple ps vs b b1.
Proof. reflexivity. Qed.
Lemma M_PChoice ps n e b b1 :
  M (PChoice ps n) e b b1 <-> Exists (fun q => M q e (match n with Some x => dset b x e | None => b end) b1) ps.
Proof.
  cbn [M]. induction ps as [|q ps IH]; [split; [tauto | intros H; inversion H]|].
  rewrite Exists_cons, <- IH. reflexivity.
Qed.
Lemma Mseq_nonstar sk p ps es b b1 : is_star p = false ->
  Mseq sk (p :: ps) es b b1 = exists e1 es' b2, es = e1 :: es' /\ M p e1 b b2 /\ Mseq sk ps es' b2 b1.
Proof. destruct p; simpl; congruence || reflexivity. Qed.

(** ** Generators *)
Lemma gbind_list_in {A B} (f : A -> gen B) l t y :
  In y (fst (gbind_list l t f)) -> exists x, In x l /\ In y (fst (f x)).
Proof.
  induction l as [|x l IH]; simpl; [tauto|].
  destruct (f x) as [ys [er|]] eqn:Hf.
  - simpl. intros H. exists x. rewrite Hf. auto.
  - destruct (gbind_list l t f) as [zs t'] eqn:Hg. simpl. rewrite in_app_iff. intros [H|H].
    + exists x. rewrite Hf. auto.
    + destruct IH as (x' & H1 & H2); [exact H|]. eauto.
Qed.
Lemma gbind_in {A B} (g : gen A) (f : A -> gen B) y :
  In y (fst (gbind g f)) -> exists x, In x (fst g) /\ In y (fst (f x)).
Proof. apply gbind_list_in. Qed.
Lemma gbind_list_noerr {A B} (f : A -> gen B) l t :
  t = None -> (forall x, In x l -> snd (f x) = None) ->
  snd (gbind_list l t f) = None /\
  (forall x y, In x l -> In y (fst (f x)) -> In y (fst (gbind_list l t f))).
Proof.
  intros Ht. induction l as [|x l IH]; simpl; intros Hf; [split; [exact Ht | tauto]|].
  assert (Hx := Hf x (or_introl eq_refl)). destruct (f x) as [ys er] eqn:Hfx. simpl in Hx. subst er.
  destruct IH as [IH1 IH2]; [auto|].
  destruct (gbind_list l t f) as [zs t'] eqn:Hg. simpl in *. split; [exact IH1|].
  intros x0 y [<-|Hin] Hy; apply in_app_iff.
  - left. now rewrite Hfx in Hy.
  - right. eauto.
Qed.
Lemma gbind_noerr {A B} (g : gen A) (f : A -> gen B) :
  snd g = None -> (forall x, In x (fst g) -> snd (f x) = None) ->
  snd (gbind g f) = None.
Proof. intros H1 H2. now apply gbind_list_noerr. Qed.
Lemma gbind_reach {A B} (g : gen A) (f : A -> gen B) x y :
  snd g = None -> (forall x, In x (fst g) -> snd (f x) = None) ->
  In x (fst g) -> In y (fst (f x)) -> In y (fst (gbind g f)).
Proof. intros H1 H2 H3 H4. eapply gbind_list_noerr; eauto. Qed.

Lemma choice_in runs y : In y (fst (choice_match runs)) -> exists r, In r runs /\ In y (fst r).
Proof.
  induction runs as [|[[|z zs] [er|]] rs IH]; simpl; try tauto.
  - intros H. destruct (IH H) as (r & ? & ?). eauto.
  - intros H. eexists. split; [left; reflexivity|]. exact H.
Qed.

Lemma in_slice_indices i plus greedy n :
  In i (slice_indices plus greedy n) <-> i <= n /\ (plus = true -> 1 <= i).
Proof.
  unfold slice_indices. destruct greedy, plus; rewrite <- ?in_rev, in_seq; simpl; split; intros; try lia;
  intuition; try lia.
Qed.

Lemma str_match_spec s : forall t, str_match s t = true <-> s = t.
Proof.
  assert (Hl := list_eqb_spec Ascii.eqb Ascii.eqb_eq).
  induction s as [|c s IH]; intros t; unfold str_match; fold str_match; destruct (Nat.eqb_spec (List.length t) 1) as [H1|H1].
  - apply Hl.
  - destruct t; split; congruence.
  - apply Hl.
  - destruct t as [|d t]; [split; congruence|].
    rewrite andb_true_iff, Ascii.eqb_eq, IH. split; [intros [? ?]; congruence | intros H; injection H; auto].
Qed.

(** ** (A) every result comes from the continuation applied to related bindings *)
Lemma am_origin (inner : val -> bindings -> gen bindings) (R : val -> bindings -> bindings -> Prop) acc :
  (forall e b y, In y (fst (inner e b)) -> R e b y) ->
  forall es b k y, In y (fst (accumulate_match inner acc es b k)) ->
  exists m, AM R acc es b m /\ In y (fst (k m)).
Proof.
  intros Hin es. induction es as [|e es IH]; intros b k y; simpl.
  - intros H. exists b. auto.
  - intros H. apply gbind_in in H as (m1 & Hm1 & Hy).
    destruct (fold_new acc m1 b) as [nb|er] eqn:Hf; [|simpl in Hy; tauto].
    apply IH in Hy as (m & HAM & Hy). exists m. split; [|exact Hy]. exists m1, nb. auto.
Qed.

Lemma star_origin (inner : val -> bindings -> gen bindings) (R : val -> bindings -> bindings -> Prop) n acc g pl sk es b k y :
  (forall e b y, In y (fst (inner e b)) -> R e b y) ->
  In y (fst (star_match inner n acc g pl sk es b k)) ->
  exists b2 rest, SM R n acc pl sk es b b2 rest /\ In y (fst (k b2 rest)).
Proof.
  intros Hin. unfold star_match, SM.
  destruct (match n with Some x => dget b x | None => None end) as [bound|].
  - destruct (py_len bound) as [len|]; [|simpl; tauto].
    destruct (py_eq bound _) eqn:He; [|simpl; tauto].
    intros H. eexists _, _. split; [|exact H]. eauto.
  - intros H. apply gbind_in in H as (i & Hi & H). simpl in Hi. apply in_slice_indices in Hi as [Hi1 Hi2].
    apply gbind_in in H as (m & Hm & H).
    apply am_origin with (R := R) in Hm as (m' & HAM & Hm); [|exact Hin].
    simpl in Hm. destruct Hm as [<-|[]].
    eexists _, _. split; [|exact H]. exists i, m'. auto.
Qed.

Lemma origin p : forall e b k y, In y (fst (pmatch p e b k)) -> exists b1, M p e b b1 /\ In y (fst (k b1)).
Proof.
  assert (Hseq : forall ps, Forall (fun p => (forall e b k y, In y (fst (pmatch p e b k)) -> exists b1, M p e b b1 /\ In y (fst (k b1)))
     /\ (forall e b k y, In y (fst (pmatch (body p) e b k)) -> exists b1, M (body p) e b b1 /\ In y (fst (k b1)))) ps ->
     forall sk es b k y, In y (fst (seqm sk ps es b k)) -> exists b1, Mseq sk ps es b b1 /\ In y (fst (k b1))).
  { induction 1 as [|q ps [Hq Hq'] _ IH]; intros sk es b k y.
    - simpl. destruct es; simpl; [|tauto]. eauto.
    - destruct (is_star q) eqn:Hs.
      + destruct q; try discriminate. rewrite seqm_star. intros H.
        apply star_origin with (R := M q) in H as (b2 & rest & H1 & H2).
        2:{ intros e0 b0 y0 Hy0. simpl in Hq'. apply Hq' in Hy0 as (b1 & Hb1 & Hb2). simpl in Hb2.
            destruct Hb2 as [<-|[]]; exact Hb1. }
        apply IH in H2 as (b1 & H3 & H4). exists b1. split; [|exact H4]. simpl. eauto.
      + rewrite seqm_nonstar by exact Hs.
        destruct es as [|e1 es]; [simpl; tauto|]. intros H.
        apply Hq in H as (b2 & H1 & H2). apply IH in H2 as (b1 & H3 & H4).
        exists b1. split; [|exact H4]. rewrite Mseq_nonstar by exact Hs. eauto 8. }
  induction p using pat_ind'; intros e b k0 y Hy.
  - cbn [pmatch M] in *. destruct (py_eq e (VNum k z)) eqn:He; [|simpl in Hy; tauto]. eauto.
  - cbn [pmatch M] in *. destruct e as [| t | | |]; try (simpl in Hy; tauto).
    destruct (str_match s t) eqn:He; [|simpl in Hy; tauto]. apply str_match_spec in He. subst. eauto.
  - rewrite pm_seq in Hy. destruct (as_seq e) as [[sk es]|] eqn:He; [|simpl in Hy; tauto].
    apply Hseq in Hy as (b1 & H1 & H2); [|assumption]. exists b1. split; [|exact H2]. apply M_PSeq. eauto.
  - rewrite pm_dict in Hy. destruct e as [| | | ks' vs |]; try (simpl in Hy; tauto).
    destruct (list_eqb String.eqb ks' ks) eqn:He; [|simpl in Hy; tauto].
    apply (list_eqb_spec String.eqb String.eqb_eq) in He. subst.
    apply Hseq in Hy as (b1 & H1 & H2); [|assumption]. exists b1. split; [|exact H2]. apply M_PDict. eauto.
  - cbn [pmatch] in Hy. destruct e as [| | | |c' h' kids]; try (simpl in Hy; tauto).
    destruct (String.eqb_spec c c') as [<-|]; [|simpl in Hy; tauto].
    apply IHp1 in Hy as (b2 & H1 & H2). apply IHp2 in H2 as (b1 & H3 & H4).
    exists b1. split; [|exact H4]. cbn [M]. eauto 8.
  - cbn [pmatch M] in *. destruct (forallb (fun r0 => r0 e) r) eqn:Hr; [|simpl in Hy; tauto].
    destruct n as [x|]; [|eauto]. destruct (dget b x) as [v|]; [|eauto].
    destruct (py_eq v e) eqn:He; [|simpl in Hy; tauto]. eauto.
  - cbn [pmatch M] in *. destruct (pmatch p e b gret) as [[|z zs] [er|]] eqn:Hp; simpl in Hy; try tauto. eauto.
  - rewrite pm_choice in Hy. apply choice_in in Hy as (r & Hr & Hy).
    apply in_map_iff in Hr as (q & <- & Hq). rewrite Forall_forall in H.
    apply (H q Hq) in Hy as (b1 & H1 & H2). exists b1. split; [|exact H2].
    apply M_PChoice. apply Exists_exists. eauto.
  - cbn [pmatch] in Hy. destruct (as_seq e) as [[sk es]|]; [|simpl in Hy; tauto].
    apply star_origin with (R := M p) in Hy as (b2 & rest & H1 & H2); [simpl in H2; tauto|].
    intros e0 b0 y0 Hy0. apply IHp in Hy0 as (b1 & Hb1 & Hb2). simpl in Hb2.
    destruct Hb2 as [<-|[]]; exact Hb1.
Qed.

(** ** Dictionaries *)
Definition keys {A} (b : list (string * A)) : list string := map fst b.
Lemma dget_None {A} (b : list (string * A)) x : dget b x = None <-> ~ In x (keys b).
Proof.
  induction b as [|[y v] b IH]; simpl; [tauto|].
  destruct (String.eqb_spec x y) as [->|Hn]; [split; [congruence | intros H; exfalso; apply H; auto]|].
  rewrite IH. split; intros H; [intros [H1|H1]; congruence || auto | intros H1; apply H; auto].
Qed.
Lemma dget_Some_In {A} (b : list (string * A)) x v : dget b x = Some v -> In x (keys b).
Proof.
  intros H. destruct (in_dec string_dec x (keys b)) as [Hi|Hi]; [exact Hi|].
  apply dget_None in Hi. congruence.
Qed.
Lemma In_dget {A} (b : list (string * A)) x : In x (keys b) -> exists v, dget b x = Some v.
Proof. intros H. destruct (dget b x) eqn:E; [eauto|]. apply dget_None in E. tauto. Qed.
Lemma keys_dset {A} (b : list (string * A)) x v y : In y (keys (dset b x v)) <-> y = x \/ In y (keys b).
Proof.
  destruct (in_dec string_dec y (keys (dset b x v))) as [H|H].
  - split; [intros _|tauto]. apply In_dget in H as [w Hw]. rewrite dget_dset in Hw.
    destruct (String.eqb_spec y x); [auto|]. right. eapply dget_Some_In; eauto.
  - split; [tauto|]. intros H1. exfalso. apply dget_None in H. rewrite dget_dset in H.
    destruct (String.eqb_spec y x); [congruence|]. apply dget_None in H. tauto.
Qed.
Lemma NoDup_dset {A} (b : list (string * A)) x v : NoDup (keys b) -> NoDup (keys (dset b x v)).
Proof.
  induction b as [|[y w] b IH]; simpl; intros H.
  - constructor; [simpl; tauto | constructor].
  - inversion H as [|? ? H1 H2]; subst. destruct (String.eqb_spec x y) as [->|Hn]; simpl.
    + constructor; assumption.
    + constructor; [|auto]. intros Hin. apply keys_dset in Hin as [->|Hin]; congruence || tauto.
Qed.
Lemma NoDup_keys_filter {A} (f : string * A -> bool) b : NoDup (keys b) -> NoDup (keys (filter f b)).
Proof.
  induction b as [|[y w] b IH]; simpl; intros H; [constructor|].
  inversion H as [|? ? H1 H2]; subst. destruct (f (y, w)); simpl; [|auto].
  constructor; [|auto]. intros Hin. apply H1. apply in_map_iff in Hin as ([y' w'] & Hy & Hin).
  apply filter_In in Hin as [Hin _]. simpl in Hy. subst. apply in_map_iff. exists (y, w'). auto.
Qed.
Lemma dget_filter {A} (f : string -> bool) (b : list (string * A)) x :
  dget (filter (fun kv => f (fst kv)) b) x = if f x then dget b x else None.
Proof.
  induction b as [|[y w] b IH]; simpl; [destruct (f x); reflexivity|].
  destruct (f y) eqn:Hy; simpl; rewrite IH; destruct (String.eqb_spec x y) as [->|]; rewrite ?Hy; reflexivity.
Qed.
Lemma dget_dmerge {A} (a b : list (string * A)) x :
  NoDup (keys b) -> dget (dmerge a b) x = match dget b x with Some v => Some v | None => dget a x end.
Proof.
  unfold dmerge. revert a. induction b as [|[y w] b IH]; simpl; intros a H; [reflexivity|].
  inversion H as [|? ? H1 H2]; subst. rewrite IH by assumption. rewrite dget_dset.
  destruct (String.eqb_spec x y) as [->|]; [|reflexivity].
  apply dget_None in H1. now rewrite H1.
Qed.
Lemma NoDup_dmerge {A} (a b : list (string * A)) : NoDup (keys a) -> NoDup (keys (dmerge a b)).
Proof.
  unfold dmerge. revert a. induction b as [|[y w] b IH]; simpl; intros a H; [exact H|].
  apply IH. now apply NoDup_dset.
Qed.
Lemma NoDup_star_bind n b v : NoDup (keys b) -> NoDup (keys (star_bind n b v)).
Proof. destruct n; simpl; [apply NoDup_dset | auto]. Qed.
Lemma dget_star_bind n b v x :
  dget (star_bind n b v) x = match n with Some y => if String.eqb x y then Some v else dget b x | None => dget b x end.
Proof. destruct n; simpl; [apply dget_dset | reflexivity]. Qed.

Definition ext (b b1 : bindings) : Prop := forall x v, dget b x = Some v -> dget b1 x = Some v.
Lemma ext_refl b : ext b b. Proof. intros x v; auto. Qed.
Lemma ext_trans a b c : ext a b -> ext b c -> ext a c. Proof. intros H1 H2 x v H. auto. Qed.

(** accumulate loop: effect on each name *)
Lemma fold_new_spec acc m : NoDup (keys m) -> forall nb nb',
  fold_new acc m nb = inl nb' ->
  (NoDup (keys nb) -> NoDup (keys nb')) /\
  forall x, dget nb' x =
    match dget m x with
    | None => dget nb x
    | Some v => if mem x acc
                then Some (VSeq KTuple (match dget nb x with Some (VSeq KTuple l) => l | _ => [] end ++ [v]))
                else Some v
    end.
Proof.
  induction m as [|[k v] m IH]; simpl; intros Hnd nb nb' H.
  - injection H as <-. auto.
  - inversion Hnd as [|? ? Hn1 Hn2]; subst. apply dget_None in Hn1.
    destruct (mem k acc) eqn:Hk.
    + destruct (accumulate_value nb k v) as [nb1|er] eqn:Ha; [|discriminate].
      apply IH in H as [H1 H2]; [|assumption].
      assert (Hnb1 : nb1 = dset nb k (VSeq KTuple (match dget nb k with Some (VSeq KTuple l) => l | _ => [] end ++ [v]))).
      { unfold accumulate_value in Ha. destruct (dget nb k) as [[| |[|] l| |]|]; try discriminate; injection Ha as <-; reflexivity. }
      split; [intros Hnb; apply H1; rewrite Hnb1; now apply NoDup_dset|].
      intros x. rewrite H2, Hnb1, dget_dset. destruct (String.eqb_spec x k) as [->|]; [|reflexivity].
      rewrite Hn1, Hk. reflexivity.
    + apply IH in H as [H1 H2]; [|assumption]. split; [intros Hnb; apply H1; now apply NoDup_dset|].
      intros x. rewrite H2, dget_dset. destruct (String.eqb_spec x k) as [->|]; [|reflexivity].
      rewrite Hn1, Hk. reflexivity.
Qed.

(** ** (F) structural facts about M: no duplicate keys, domains *)
Definition domle (b b1 : bindings) : Prop := forall x, dget b x <> None -> dget b1 x <> None.

Lemma am_struct (R : val -> bindings -> bindings -> Prop) acc (nm : list string) :
  (forall e b b1, NoDup (keys b) -> R e b b1 ->
     NoDup (keys b1) /\ domle b b1 /\ (forall x, dget b1 x <> None -> dget b x <> None \/ In x nm)) ->
  forall es b m, NoDup (keys b) -> AM R acc es b m ->
     NoDup (keys m) /\ domle b m /\ (forall x, dget m x <> None -> dget b x <> None \/ In x nm).
Proof.
  intros HR es. induction es as [|e es IH]; simpl; intros b m Hnd HAM.
  - subst. repeat split; auto. intros x; auto.
  - destruct HAM as (m1 & nb & Hm1 & Hf & HAM).
    apply HR in Hm1 as (Hn1 & Hd1 & Hs1); [|now apply NoDup_keys_filter].
    destruct (fold_new_spec acc m1 Hn1 b nb Hf) as [Hn2 Hg]. specialize (Hn2 Hnd).
    apply IH in HAM as (Hn3 & Hd3 & Hs3); [|assumption].
    split; [exact Hn3|]. split.
    + intros x Hx. apply Hd3. rewrite Hg. destruct (dget m1 x); [destruct (mem x acc); discriminate | exact Hx].
    + intros x Hx. apply Hs3 in Hx as [Hx|Hx]; [|auto]. rewrite Hg in Hx.
      destruct (dget m1 x) eqn:E; [|auto].
      assert (Hx1 : dget m1 x <> None) by congruence. apply Hs1 in Hx1 as [Hx1|Hx1]; [|auto].
      rewrite (dget_filter (fun k => negb (mem k acc))) in Hx1. destruct (negb (mem x acc)); [auto|congruence].
Qed.

Lemma sm_struct (R : val -> bindings -> bindings -> Prop) n acc pl sk es b b1 rest (nm : list string) :
  (forall e b b1, NoDup (keys b) -> R e b b1 ->
     NoDup (keys b1) /\ domle b b1 /\ (forall x, dget b1 x <> None -> dget b x <> None \/ In x nm)) ->
  NoDup (keys b) -> SM R n acc pl sk es b b1 rest ->
  NoDup (keys b1) /\ domle b b1 /\ (forall x, dget b1 x <> None -> dget b x <> None \/ In x (onl n ++ nm)) /\
  incl (onl n) (keys b1) /\ ext b b1.
Proof.
  intros HR Hnd. unfold SM.
  destruct (match n with Some x => dget b x | None => None end) as [bound|] eqn:Hb.
  - intros (len & _ & _ & -> & _). split; [exact Hnd|]. split; [intros x; auto|]. split; [auto|].
    split; [|apply ext_refl]. intros x Hx. destruct n as [y|]; simpl in Hx; [|tauto]. destruct Hx as [->|[]].
    eapply dget_Some_In; eauto.
  - intros (i & m & Hi & Hpl & HAM & -> & _).
    destruct (am_struct R acc nm HR _ _ _ Hnd HAM) as (Hn1 & Hd1 & Hs1).
    assert (Hsb := NoDup_star_bind n b (mk_slice sk (firstn i es)) Hnd).
    assert (Hext : ext b (dmerge m (star_bind n b (mk_slice sk (firstn i es))))).
    { intros x v Hx. rewrite dget_dmerge by assumption. rewrite dget_star_bind.
      destruct n as [y|]; [|now rewrite Hx]. destruct (String.eqb_spec x y) as [->|]; [congruence|]. now rewrite Hx. }
    split; [now apply NoDup_dmerge|]. split; [|split; [|split]].
    + intros x Hx. destruct (dget b x) as [v|] eqn:E; [|congruence]. now rewrite (Hext _ _ E).
    + intros x. rewrite dget_dmerge by assumption. rewrite dget_star_bind. intros Hx.
      destruct n as [y|]; simpl.
      * destruct (String.eqb_spec x y) as [Hxy|Hxy]; [right; left; congruence|]. destruct (dget b x) eqn:E; [left; congruence|].
        apply Hs1 in Hx as [Hx|Hx]; [congruence|auto].
      * destruct (dget b x) eqn:E; [left; congruence|]. apply Hs1 in Hx as [Hx|Hx]; [congruence|auto].
    + intros x Hx. destruct n as [y|]; simpl in Hx; [|tauto]. destruct Hx as [->|[]].
      apply dget_Some_In with (v := mk_slice sk (firstn i es)).
      rewrite dget_dmerge, dget_star_bind, String.eqb_refl by assumption. reflexivity.
    + exact Hext.
Qed.

Definition struct_ok (p : pat) : Prop := forall e b b1, NoDup (keys b) -> M p e b b1 ->
  (NoDup (keys b1) /\ domle b b1 /\ (forall x, dget b1 x <> None -> dget b x <> None \/ In x (names p)))
  /\ incl (sure p) (keys b1).

Lemma mseq_struct ps : Forall (fun p => struct_ok p /\ struct_ok (body p)) ps ->
  forall sk es b b1, NoDup (keys b) -> Mseq sk ps es b b1 ->
  (NoDup (keys b1) /\ domle b b1 /\ (forall x, dget b1 x <> None -> dget b x <> None \/ In x (flat_map names ps)))
  /\ incl (flat_map sure ps) (keys b1).
Proof.
  induction 1 as [|q ps [Hq Hq'] _ IH]; intros sk es b b1 Hnd HM.
  - destruct HM as [-> ->]. split; [split; [auto|split; [intros x; auto|auto]]|]. intros x [].
  - assert (Hstep : exists b2 rest es', Mseq sk ps es' b2 b1 /\ rest = es' /\ NoDup (keys b2) /\ domle b b2 /\
        (forall x, dget b2 x <> None -> dget b x <> None \/ In x (names q)) /\ incl (sure q) (keys b2)).
    { destruct (is_star q) eqn:Hs.
      - destruct q as [| | | | | | | |q n acc g pl]; try discriminate.
        destruct HM as (b2 & rest & HSM & HM). exists b2, rest, rest.
        destruct (sm_struct (M q) n acc pl sk es b b2 rest (names q)) as (H1 & H2 & H3 & H4 & _); auto.
        { intros e0 b0 b0' Hn0 HM0. simpl in Hq'. apply (Hq' e0 b0 b0' Hn0 HM0). }
        repeat split; auto. intros x Hx. apply H3 in Hx as [Hx|Hx]; [auto|]. right. simpl.
        apply in_app_iff in Hx as [Hx|Hx]; apply in_app_iff; [auto|]. right. apply in_app_iff. auto.
      - rewrite Mseq_nonstar in HM by exact Hs. destruct HM as (e1 & es' & b2 & -> & HM1 & HM2).
        exists b2, es', es'. destruct (Hq e1 b b2 Hnd HM1) as ((H1 & H2 & H3) & H4). repeat split; auto. }
    destruct Hstep as (b2 & rest & es' & HM2 & -> & Hn2 & Hd2 & Hs2 & Hu2).
    destruct (IH sk es' b2 b1 Hn2 HM2) as ((H1 & H2 & H3) & H4).
    split; [split; [exact H1|split]|].
    + intros x Hx. auto.
    + intros x Hx. simpl. rewrite in_app_iff. apply H3 in Hx as [Hx|Hx]; [|auto]. apply Hs2 in Hx as [Hx|Hx]; auto.
    + simpl. apply incl_app; [|exact H4]. intros x Hx. apply Hu2 in Hx. apply In_dget in Hx as [v Hv].
      assert (Hx : dget b1 x <> None) by (apply H2; congruence).
      destruct (dget b1 x) eqn:E; [|congruence]. eapply dget_Some_In; eauto.
Qed.

Lemma M_struct p : struct_ok p.
Proof.
  induction p using pat_ind'; intros e b b1 Hnd HM.
  - destruct HM as [_ ->]. split; [split; [auto|split; [intros x; auto|auto]]|intros x []].
  - destruct HM as [_ ->]. split; [split; [auto|split; [intros x; auto|auto]]|intros x []].
  - apply M_PSeq in HM as (sk & es & _ & HM). eapply mseq_struct; eauto.
  - apply M_PDict in HM as (vs & _ & HM). eapply mseq_struct; eauto.
  - destruct HM as (h & kids & b2 & _ & HM1 & HM2).
    destruct (IHp1 _ _ _ Hnd HM1) as ((H1 & H2 & H3) & H4).
    destruct (IHp2 _ _ _ H1 HM2) as ((H5 & H6 & H7) & H8).
    split; [split; [auto|split]|].
    + intros x Hx. auto.
    + intros x Hx. cbn [names]. rewrite in_app_iff. apply H7 in Hx as [Hx|Hx]; [|auto]. apply H3 in Hx as [Hx|Hx]; auto.
    + cbn [sure]. apply incl_app; [|exact H8]. intros x Hx. apply H4 in Hx. apply In_dget in Hx as [v Hv].
      assert (Hx : dget b1 x <> None) by (apply H6; congruence).
      destruct (dget b1 x) eqn:E; [|congruence]. eapply dget_Some_In; eauto.
  - cbn [M] in HM. destruct HM as [_ HM]. destruct n as [x|].
    + destruct (dget b x) as [v|] eqn:E.
      * destruct HM as [_ ->]. split; [split; [auto|split; [intros y; auto|auto]]|].
        intros y [<-|[]]. eapply dget_Some_In; eauto.
      * subst b1. split; [split; [now apply NoDup_dset|split]|].
        -- intros y Hy. rewrite dget_dset. destruct (String.eqb y x); [discriminate|auto].
        -- intros y Hy. rewrite dget_dset in Hy. destruct (String.eqb_spec y x); [subst; simpl; auto|auto].
        -- intros y [<-|[]]. apply keys_dset. auto.
    + subst. split; [split; [auto|split; [intros y; auto|auto]]|intros y []].
  - destruct HM as [_ ->]. split; [split; [auto|split; [intros x; auto|auto]]|intros x []].
  - apply M_PChoice in HM. apply Exists_exists in HM as (q & Hq & HM).
    rewrite Forall_forall in H. specialize (H q Hq).
    assert (Hnd' : NoDup (keys (match n with Some x => dset b x e | None => b end))).
    { destruct n; [now apply NoDup_dset|auto]. }
    destruct (H _ _ _ Hnd' HM) as ((H1 & H2 & H3) & H4).
    split; [split; [auto|split]|].
    + intros x Hx. apply H2. destruct n as [y|]; [|auto]. rewrite dget_dset. destruct (String.eqb x y); [discriminate|auto].
    + intros x Hx. cbn [names]. rewrite in_app_iff, in_flat_map. apply H3 in Hx as [Hx|Hx]; [|eauto].
      destruct n as [y|]; [|auto]. rewrite dget_dset in Hx. destruct (String.eqb_spec x y); [subst; simpl; auto|auto].
    + cbn [sure]. intros x Hx. destruct n as [y|]; simpl in Hx; [|tauto]. destruct Hx as [<-|[]].
      assert (Hx : dget b1 y <> None). { apply H2. rewrite dget_dset, String.eqb_refl. discriminate. }
      destruct (dget b1 y) eqn:E; [|congruence]. eapply dget_Some_In; eauto.
  - destruct HM.
Qed.

(** extension of bindings: without named Choices always, otherwise for fresh names *)
Fixpoint unnamed_choices (p : pat) : Prop :=
  let all := (fix all (l : list pat) : Prop := match l with [] => True | q :: l' => unnamed_choices q /\ all l' end) in
  match p with
  | PNum _ _ | PStr _ | PVar _ _ => True
  | PSeq _ ps | PDict _ ps => all ps
  | PNode _ a b => unnamed_choices a /\ unnamed_choices b
  | PNot q => True
  | PChoice ps n => n = None /\ all ps
  | PStar q _ _ _ _ => True
  end.
Lemma unnamed_all ps :
  (fix all (l : list pat) : Prop := match l with [] => True | q :: l' => unnamed_choices q /\ all l' end) ps
  <-> Forall unnamed_choices ps.
Proof. induction ps as [|q ps IH]; [split; constructor|]. rewrite Forall_cons_iff, <- IH. reflexivity. Qed.

Lemma struct_sm_hyp q : forall e b b1, NoDup (keys b) -> M q e b b1 ->
     NoDup (keys b1) /\ domle b b1 /\ (forall x, dget b1 x <> None -> dget b x <> None \/ In x (names q)).
Proof. intros e b b1 H1 H2. exact (proj1 (M_struct q e b b1 H1 H2)). Qed.

Lemma mseq_ext ps : 
  Forall (fun p => forall e b b1, NoDup (keys b) -> M p e b b1 -> ext b b1) ps ->
  forall sk es b b1, NoDup (keys b) -> Mseq sk ps es b b1 -> ext b b1.
Proof.
  induction 1 as [|q ps Hq _ IH]; intros sk es b b1 Hnd HM.
  - destruct HM as [_ ->]. apply ext_refl.
  - destruct (is_star q) eqn:Hs.
    + destruct q as [| | | | | | | |q n acc g pl]; try discriminate.
      destruct HM as (b2 & rest & HSM & HM).
      destruct (sm_struct (M q) n acc pl sk es b b2 rest (names q) (struct_sm_hyp q) Hnd HSM) as (H1 & _ & _ & _ & H5).
      eapply ext_trans; [exact H5|]. eapply IH; eauto.
    + rewrite Mseq_nonstar in HM by exact Hs. destruct HM as (e1 & es' & b2 & -> & HM1 & HM2).
      eapply ext_trans; [eapply Hq; eauto|]. eapply IH; [|eauto]. apply (M_struct q e1 b b2 Hnd HM1).
Qed.

Lemma M_ext p : unnamed_choices p -> forall e b b1, NoDup (keys b) -> M p e b b1 -> ext b b1.
Proof.
  induction p using pat_ind'; intros Hu e b b1 Hnd HM.
  - destruct HM as [_ ->]. apply ext_refl.
  - destruct HM as [_ ->]. apply ext_refl.
  - apply M_PSeq in HM as (sk & es & _ & HM). eapply mseq_ext; [|exact Hnd|exact HM].
    apply unnamed_all in Hu. rewrite Forall_forall in H, Hu |- *. intros q Hq. apply H; auto.
  - apply M_PDict in HM as (vs & _ & HM). eapply mseq_ext; [|exact Hnd|exact HM].
    apply unnamed_all in Hu. rewrite Forall_forall in H, Hu |- *. intros q Hq. apply H; auto.
  - destruct HM as (h & kids & b2 & _ & HM1 & HM2). destruct Hu as [Hu1 Hu2].
    eapply ext_trans; [eapply IHp1; eauto|]. eapply IHp2; eauto. apply (M_struct _ _ _ _ Hnd HM1).
  - cbn [M] in HM. destruct HM as [_ HM]. destruct n as [x|]; [|subst; apply ext_refl].
    destruct (dget b x) as [v|] eqn:E; [destruct HM as [_ ->]; apply ext_refl|]. subst b1.
    intros y w Hy. rewrite dget_dset. destruct (String.eqb_spec y x); [congruence|exact Hy].
  - destruct HM as [_ ->]. apply ext_refl.
  - destruct Hu as [-> Hu]. apply unnamed_all in Hu. apply M_PChoice in HM. apply Exists_exists in HM as (q & Hq & HM).
    rewrite Forall_forall in H, Hu. eapply H; eauto.
  - destruct HM.
Qed.

Definition fresh (l : list string) (b : bindings) : Prop := forall x, In x l -> dget b x = None.

Lemma fresh_after l b b1 nm : fresh l b -> disjoint l nm ->
  (forall x, dget b1 x <> None -> dget b x <> None \/ In x nm) -> fresh l b1.
Proof.
  intros Hf Hd Hs x Hx. destruct (dget b1 x) eqn:E; [|reflexivity].
  assert (Hn : dget b1 x <> None) by congruence. apply Hs in Hn as [Hn|Hn]; [|destruct (Hd x Hx Hn)].
  rewrite (Hf x Hx) in Hn. congruence.
Qed.

Lemma mseq_ext_tame ps :
  Forall (fun p => tame p -> forall e b b1, NoDup (keys b) -> fresh (specials p) b -> M p e b b1 -> ext b b1) ps ->
  tame_all ps ->
  forall sk es b b1, NoDup (keys b) -> fresh (flat_map specials ps) b -> Mseq sk ps es b b1 -> ext b b1.
Proof.
  induction 1 as [|q ps Hq _ IH]; intros Ht sk es b b1 Hnd Hf HM.
  - destruct HM as [_ ->]. apply ext_refl.
  - cbn [flat_map] in Hf. destruct (is_star q) eqn:Hs.
    + destruct q as [| | | | | | | |q n acc g pl]; try discriminate. destruct Ht as (_ & Hd & Ht).
      destruct HM as (b2 & rest & HSM & HM).
      destruct (sm_struct (M q) n acc pl sk es b b2 rest (names q) (struct_sm_hyp q) Hnd HSM) as (H1 & _ & H3 & _ & H5).
      eapply ext_trans; [exact H5|]. eapply IH; eauto. eapply fresh_after; [|exact Hd|].
      * intros x Hx. apply Hf. apply in_app_iff. auto.
      * intros x Hx. apply H3 in Hx as [Hx|Hx]; [auto|]. right. cbn [names]. 
        apply in_app_iff in Hx as [Hx|Hx]; apply in_app_iff; [auto|]. right. apply in_app_iff. auto.
    + rewrite Mseq_nonstar in HM by exact Hs. destruct HM as (e1 & es' & b2 & -> & HM1 & HM2).
      rewrite tame_all_nonstar in Ht by exact Hs. destruct Ht as (Ht1 & Hd & Ht).
      eapply ext_trans; [eapply Hq; eauto; intros x Hx; apply Hf, in_app_iff; auto|].
      destruct (M_struct q e1 b b2 Hnd HM1) as ((H1 & H2 & H3) & _).
      eapply IH; eauto. eapply fresh_after; [|exact Hd|exact H3]. intros x Hx. apply Hf, in_app_iff. auto.
Qed.

Lemma M_ext_tame p : tame p -> forall e b b1, NoDup (keys b) -> fresh (specials p) b -> M p e b b1 -> ext b b1.
Proof.
  induction p using pat_ind'; intros Ht e b b1 Hnd Hf HM.
  - destruct HM as [_ ->]. apply ext_refl.
  - destruct HM as [_ ->]. apply ext_refl.
  - apply M_PSeq in HM as (sk & es & _ & HM). refine (mseq_ext_tame l _ Ht _ _ b b1 Hnd Hf HM).
    eapply Forall_impl; [|exact H]. intros q Hq. apply Hq.
  - apply M_PDict in HM as (vs & _ & HM). refine (mseq_ext_tame l _ Ht _ _ b b1 Hnd Hf HM).
    eapply Forall_impl; [|exact H]. intros q Hq. apply Hq.
  - destruct HM as (h & kids & b2 & _ & HM1 & HM2). destruct Ht as (Ht1 & Ht2 & Hd).
    destruct (M_struct _ _ _ _ Hnd HM1) as ((H1 & H2 & H3) & _).
    eapply ext_trans; [eapply IHp1; eauto; intros x Hx; apply Hf, in_app_iff; auto|]. eapply IHp2; eauto.
    eapply fresh_after; [|exact Hd|exact H3]. intros x Hx. apply Hf, in_app_iff. auto.
  - cbn [M] in HM. destruct HM as [_ HM]. destruct n as [x|]; [|subst; apply ext_refl].
    destruct (dget b x) as [v|] eqn:E; [destruct HM as [_ ->]; apply ext_refl|]. subst b1.
    intros y w Hy. rewrite dget_dset. destruct (String.eqb_spec y x); [congruence|exact Hy].
  - destruct HM as [_ ->]. apply ext_refl.
  - apply tame_PChoice in Ht. apply M_PChoice in HM. apply Exists_exists in HM as (q & Hq & HM).
    rewrite Forall_forall in H, Ht. destruct (Ht q Hq) as [Htq Hdq].
    assert (Hfq : fresh (specials q) b).
    { intros x Hx. apply Hf. cbn [specials]. apply in_app_iff. right. apply in_flat_map. eauto. }
    destruct n as [y|].
    + eapply ext_trans; [|eapply H; [exact Hq|exact Htq| |  |exact HM]].
      * intros x v Hx. rewrite dget_dset. destruct (String.eqb_spec x y) as [->|]; [|exact Hx].
        rewrite Hf in Hx; [discriminate|]. simpl; auto.
      * now apply NoDup_dset.
      * intros x Hx. rewrite dget_dset. destruct (String.eqb_spec x y) as [->|]; [|auto].
        exfalso. apply (Hdq y Hx). simpl; auto.
    + eapply H; eauto.
  - destruct HM.
Qed.
