(** The matcher cannot tell Python-equal expressions apart: matching the erasure of an expression gives the erasures of the
    answers, in the same order, with the same exception, for patterns whose restrictions do not look at types. *)
From Verif Require Import MatcherSpec MatcherProofs RulesSpec.
Open Scope string_scope. Open Scope list_scope. Open Scope nat_scope.

(** [blind p]: none of the restrictions of the variables of [p] distinguishes expressions that compare equal *)
Fixpoint blind (p : pat) : Prop :=
  match p with
  | PNum _ _ | PStr _ => True
  | PSeq _ ps => (fix all l := match l with [] => True | q :: l' => blind q /\ all l' end) ps
  | PDict _ ps => (fix all l := match l with [] => True | q :: l' => blind q /\ all l' end) ps
  | PNode _ h k => blind h /\ blind k
  | PVar _ rs => forall r, In r rs -> forall a b, same a b -> r a = r b
  | PNot q => blind q
  | PChoice ps _ => (fix all l := match l with [] => True | q :: l' => blind q /\ all l' end) ps
  | PStar q _ _ _ _ => blind q
  end.
Lemma blind_all ps : (fix all l := match l with [] => True | q :: l' => blind q /\ all l' end) ps <-> Forall blind ps.
Proof. induction ps as [|q ps IH]; split; intros H; auto. - constructor; [apply H|apply IH, H]. - inversion H; subst. split; [assumption|apply IH; assumption]. Qed.

Definition cb : bindings -> bindings := map (fun kv => (fst kv, canon (snd kv))).
Definition gm (g : gen bindings) : gen bindings := (map cb (fst g), snd g).

Lemma canon_canon v : canon (canon v) = canon v.
Proof. induction v using val_ind'; simpl; auto; rewrite ?map_map; f_equal; apply map_ext_Forall; assumption. Qed.
Lemma same_canon v : same (canon v) v.
Proof. unfold same. apply py_eq_canon, canon_canon. Qed.
Lemma dget_cb b x : dget (cb b) x = option_map canon (dget b x).
Proof. induction b as [|[y v] b IH]; simpl; [reflexivity|]. destruct (String.eqb x y); [reflexivity|exact IH]. Qed.
Lemma dset_cb b x v : dset (cb b) x (canon v) = cb (dset b x v).
Proof. induction b as [|[y w] b IH]; simpl; [reflexivity|]. destruct (String.eqb x y); simpl; [reflexivity|]. f_equal. exact IH. Qed.
Lemma dmerge_cb b : forall a, dmerge (cb a) (cb b) = cb (dmerge a b).
Proof.
  unfold dmerge. induction b as [|[x v] b IH]; intros a; simpl; [reflexivity|].
  rewrite dset_cb. apply IH.
Qed.
Lemma filter_cb f b : filter (fun kv => f (fst kv)) (cb b) = cb (filter (fun kv : string * val => f (fst kv)) b).
Proof. induction b as [|[x v] b IH]; simpl; [reflexivity|]. destruct (f x); simpl; [f_equal|]; exact IH. Qed.
Lemma py_eq_cc a b : py_eq (canon a) (canon b) = py_eq a b.
Proof. apply eq_true_iff_eq. rewrite !py_eq_canon, !canon_canon. reflexivity. Qed.

Lemma gbind_gm {A} (g : gen A) (f f' : A -> gen bindings) : (forall x, f' x = gm (f x)) -> gbind g f' = gm (gbind g f).
Proof.
  intros H. destruct g as [l tl]. unfold gbind. cbn [fst snd]. induction l as [|x l IH]; cbn [gbind_list]; [reflexivity|].
  rewrite H. destruct (f x) as [ys [e|]]; [reflexivity|]. cbn [gm fst snd]. rewrite IH.
  destruct (gbind_list l tl f) as [zs t]. unfold gm. cbn [fst snd]. rewrite map_app. reflexivity.
Qed.
Lemma gbind_gm2 (g : gen bindings) (f f' : bindings -> gen bindings) : (forall x, f' (cb x) = gm (f x)) -> gbind (gm g) f' = gm (gbind g f).
Proof.
  intros H. destruct g as [l tl]. unfold gbind, gm at 1 2. cbn [fst snd]. induction l as [|x l IH]; cbn [gbind_list map]; [reflexivity|].
  rewrite H. destruct (f x) as [ys [e|]]; [reflexivity|]. cbn [gm fst snd]. rewrite IH.
  destruct (gbind_list l tl f) as [zs t]. unfold gm. cbn [fst snd]. rewrite map_app. reflexivity.
Qed.

Lemma as_seq_canon e : as_seq (canon e) = option_map (fun s => (fst s, map canon (snd s))) (as_seq e).
Proof.
  destruct e as [k z|s|[] l|ks vs|c h k]; simpl; try reflexivity. rewrite map_map. reflexivity.
Qed.
Lemma mk_slice_canon sk l : mk_slice sk (map canon l) = canon (mk_slice sk l).
Proof.
  destruct sk; simpl; try reflexivity. f_equal. induction l as [|v l IH]; simpl; [reflexivity|].
  rewrite IH. destruct v; reflexivity.
Qed.
Lemma py_len_canon v : py_len (canon v) = py_len v.
Proof. destruct v; simpl; try reflexivity; rewrite map_length; reflexivity. Qed.

Definition rcb (r : bindings + err) : bindings + err := match r with inl b => inl (cb b) | inr e => inr e end.
Lemma accumulate_cb b x v : accumulate_value (cb b) x (canon v) = rcb (accumulate_value b x v).
Proof.
  unfold accumulate_value. rewrite dget_cb. destruct (dget b x) as [w|]; cbn [option_map].
  - destruct w as [k z|s|[] l|ks vs|c h k]; cbn [canon rcb]; try reflexivity.
    rewrite <- dset_cb. cbn [canon]. rewrite map_app. reflexivity.
  - cbn [rcb]. rewrite <- dset_cb. reflexivity.
Qed.
Lemma fold_new_cb acc m : forall nb, fold_new acc (cb m) (cb nb) = rcb (fold_new acc m nb).
Proof.
  induction m as [|[x v] m IH]; intros nb; cbn [fold_new cb map fst snd]; [reflexivity|].
  fold (cb m). destruct (mem x acc).
  - rewrite accumulate_cb. destruct (accumulate_value nb x v) as [nb'|e]; cbn [rcb]; [apply IH|reflexivity].
  - rewrite dset_cb. apply IH.
Qed.

(** an erasing matcher: natural in the expression, the bindings and the continuation *)
Definition natural (p : pat) : Prop := forall e b k k', (forall b, k' (cb b) = gm (k b)) ->
  pmatch p (canon e) (cb b) k' = gm (pmatch p e b k).

Lemma gret_natural b : gret (cb b) = gm (gret b). Proof. reflexivity. Qed.
Lemma accumulate_match_cb q acc : natural q -> forall es b k k', (forall b, k' (cb b) = gm (k b)) ->
  accumulate_match (fun e b => pmatch q e b gret) acc (map canon es) (cb b) k' =
  gm (accumulate_match (fun e b => pmatch q e b gret) acc es b k).
Proof.
  intros Hq es. induction es as [|e es IH]; intros b k k' Hk; cbn [accumulate_match map]; [apply Hk|].
  rewrite (filter_cb (fun x => negb (mem x acc))). rewrite (Hq e _ gret gret gret_natural).
  apply gbind_gm2. intros m. rewrite fold_new_cb. destruct (fold_new acc m b) as [nb|er]; cbn [rcb]; [|reflexivity].
  apply IH, Hk.
Qed.
Lemma star_match_cb q name acc greedy plus sk : natural q -> forall es b k k',
  (forall b l, k' (cb b) (map canon l) = gm (k b l)) ->
  star_match (fun e b => pmatch q e b gret) name acc greedy plus sk (map canon es) (cb b) k' =
  gm (star_match (fun e b => pmatch q e b gret) name acc greedy plus sk es b k).
Proof.
  intros Hq es b k k' Hk. unfold star_match.
  replace (match name with Some x => dget (cb b) x | None => None end)
    with (option_map canon (match name with Some x => dget b x | None => None end)) by (destruct name; [symmetry; apply dget_cb|reflexivity]).
  destruct (match name with Some x => dget b x | None => None end) as [w|]; cbn [option_map].
  - rewrite py_len_canon. destruct (py_len w) as [n|]; [|reflexivity].
    rewrite firstn_map, skipn_map, mk_slice_canon, py_eq_cc. destruct (py_eq w _); [apply Hk|reflexivity].
  - rewrite map_length. apply gbind_gm. intros i. rewrite firstn_map, skipn_map.
    rewrite (accumulate_match_cb q acc Hq _ b gret gret gret_natural). apply gbind_gm2. intros m.
    rewrite mk_slice_canon. replace (star_bind name (cb b) (canon (mk_slice sk (firstn i es)))) with (cb (star_bind name b (mk_slice sk (firstn i es)))).
    + rewrite dmerge_cb. apply Hk.
    + destruct name; [symmetry; apply dset_cb|reflexivity].
Qed.
Lemma seqm_cb ps : Forall (fun p => natural p /\ natural (body p)) ps -> forall sk es b k k', (forall b, k' (cb b) = gm (k b)) ->
  seqm sk ps (map canon es) (cb b) k' = gm (seqm sk ps es b k).
Proof.
  induction 1 as [|p ps [Hp Hb] HF IH]; intros sk es b k k' Hk.
  - destruct es; [apply Hk|reflexivity].
  - destruct (is_star p) eqn:Hs.
    + destruct p as [| | | | | | | |q n a g pl]; try discriminate. rewrite !seqm_star.
      apply star_match_cb; [exact Hb|]. intros b' l. apply IH, Hk.
    + rewrite !seqm_nonstar by assumption. destruct es as [|e es]; cbn [map]; [reflexivity|].
      apply Hp. intros b'. apply IH, Hk.
Qed.
Lemma blind_natural p : blind p -> natural p.
Proof.
  induction p using pat_ind'; intros Hbl e b k0 k' Hk.
  - cbn [pmatch]. change (VNum k z) with (VNum k z). rewrite <- (py_eq_cc e (VNum k z)). cbn [canon].
    replace (py_eq (canon e) (VNum k z)) with (py_eq (canon e) (VNum KInt z)) by (destruct e; reflexivity).
    destruct (py_eq (canon e) (VNum KInt z)); [apply Hk|reflexivity].
  - cbn [pmatch]. destruct e as [k z|t|k l|ks vs|c h k]; cbn [canon]; try reflexivity. destruct (str_match s t); [apply Hk|reflexivity].
  - rewrite !pm_seq, as_seq_canon. destruct (as_seq e) as [[sk es]|]; cbn [option_map fst snd]; [|reflexivity].
    apply seqm_cb; [|exact Hk]. cbn [blind] in Hbl. apply blind_all in Hbl. rewrite Forall_forall in *. intros q Hq.
    destruct (H q Hq) as [H1 H2]. split; [apply H1, Hbl, Hq|apply H2]. specialize (Hbl q Hq). destruct q; exact Hbl.
  - rewrite !pm_dict. destruct e as [k z|t|k l0|ks' vs|c h k]; cbn [canon]; try reflexivity.
    destruct (list_eqb String.eqb ks' ks); [|reflexivity].
    apply seqm_cb; [|exact Hk]. cbn [blind] in Hbl. apply blind_all in Hbl. rewrite Forall_forall in *. intros q Hq.
    destruct (H q Hq) as [H1 H2]. split; [apply H1, Hbl, Hq|apply H2]. specialize (Hbl q Hq). destruct q; exact Hbl.
  - cbn [pmatch]. destruct e as [kd z|t|kd l0|ks' vs|c' h kk]; cbn [canon]; try reflexivity.
    destruct (String.eqb c c'); [|reflexivity]. destruct Hbl as [Hb1 Hb2].
    apply (IHp1 Hb1 (VSeq KTuple h)). intros b'. apply (IHp2 Hb2 (VSeq KTuple kk)). exact Hk.
  - cbn [pmatch]. cbn [blind] in Hbl.
    replace (forallb (fun r0 => r0 (canon e)) r) with (forallb (fun r0 => r0 e) r).
    2:{ induction r as [|r0 r IH]; cbn [forallb]; [reflexivity|]. rewrite (Hbl r0 (or_introl eq_refl) e (canon e)).
        - f_equal. apply IH. intros r1 H1. apply Hbl. right; exact H1.
        - unfold same. rewrite py_eq_sym. apply same_canon. }
    destruct (forallb (fun r0 => r0 e) r); [|reflexivity]. destruct n as [x|]; [|apply Hk].
    rewrite dget_cb. destruct (dget b x) as [v|]; cbn [option_map].
    + rewrite py_eq_cc. destruct (py_eq v e); [apply Hk|reflexivity].
    + rewrite dset_cb. apply Hk.
  - cbn [pmatch]. rewrite (IHp Hbl e b gret gret gret_natural). destruct (pmatch p e b gret) as [[|y ys] [er|]]; try reflexivity. apply Hk.
  - rewrite !pm_choice. cbn [blind] in Hbl. apply blind_all in Hbl.
    assert (G : forall b', choice_match (map (fun p => pmatch p (canon e) (cb b') k') l) = gm (choice_match (map (fun p => pmatch p e b' k0) l))).
    { intros b'. induction l as [|q l IH]; [reflexivity|]. inversion Hbl; subst. inversion H; subst. cbn [map choice_match].
      rewrite (H4 H2 e b' k0 k' Hk). destruct (pmatch q e b' k0) as [[|y ys] [er|]]; try reflexivity. cbn [gm fst snd map]. apply IH; assumption. }
    destruct n as [x|]; [rewrite dset_cb|]; apply G.
  - cbn [pmatch]. rewrite as_seq_canon. destruct (as_seq e) as [[sk es]|]; cbn [option_map fst snd]; [|reflexivity].
    apply star_match_cb; [apply IHp, Hbl|]. reflexivity.
Qed.
