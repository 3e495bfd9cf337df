(** Lemmas about Python dictionaries modelled as association lists (definitions in PyVal.v). *)
From Verif Require Export PyVal.
Open Scope string_scope.
Open Scope list_scope.

Lemma dmerge_app {A} (a b c : list (string * A)) : dmerge a (b ++ c) = dmerge (dmerge a b) c.
Proof. apply fold_left_app. Qed.
Lemma dget_dmerge_nil {A} (a b : list (string * A)) x :
  dget (dmerge a b) x = match dget (dmerge [] b) x with Some v => Some v | None => dget a x end.
Proof.
  induction b as [|[k v] b IH] using rev_ind; [reflexivity|].
  rewrite !dmerge_app. simpl. rewrite !dget_dset. destruct (String.eqb x k); [reflexivity|assumption].
Qed.
Definition dkeys {A} (b : list (string * A)) : list string := map fst b.
Lemma dget_None_iff {A} (b : list (string * A)) x : dget b x = None <-> ~ In x (dkeys b).
Proof.
  induction b as [|[k v] b IH]; simpl; [tauto|]. destruct (String.eqb_spec x k) as [e|n].
  - split; [discriminate|]. intros H. exfalso. apply H. auto.
  - rewrite IH. firstorder congruence.
Qed.
Lemma dkeys_dset {A} (b : list (string * A)) x v :
  dkeys (dset b x v) = if mem x (dkeys b) then dkeys b else dkeys b ++ [x].
Proof.
  induction b as [|[k w] b IH]; simpl; [reflexivity|]. destruct (String.eqb x k) eqn:E; simpl; [reflexivity|].
  rewrite IH. unfold mem. destruct (existsb (String.eqb x) (dkeys b)); reflexivity.
Qed.
Lemma NoDup_dkeys_dset {A} (b : list (string * A)) x v : NoDup (dkeys b) -> NoDup (dkeys (dset b x v)).
Proof.
  intros H. rewrite dkeys_dset. destruct (mem x (dkeys b)) eqn:E; [assumption|].
  apply mem_not_In in E.
  induction (dkeys b) as [|y l IH]; simpl; [repeat constructor; auto|]. inversion H; subst. constructor.
  - rewrite in_app_iff. simpl. intros [?|[?|[]]]; [contradiction|]. subst. apply E. simpl. auto.
  - apply IH; [assumption|]. intros ?. apply E. simpl. auto.
Qed.
Lemma NoDup_dkeys_dmerge {A} (a b : list (string * A)) : NoDup (dkeys a) -> NoDup (dkeys (dmerge a b)).
Proof. revert a. induction b as [|[k v] b IH]; intros a H; simpl; [assumption|]. apply IH, NoDup_dkeys_dset, H. Qed.
Lemma dget_dmerge_nodup {A} (a b : list (string * A)) x : NoDup (dkeys b) ->
  dget (dmerge a b) x = match dget b x with Some v => Some v | None => dget a x end.
Proof.
  revert a. induction b as [|[k v] b IH]; intros a H; [reflexivity|]. simpl in *. inversion H; subst. change (dmerge a ((k,v)::b)) with (dmerge (dset a k v) b).
  rewrite IH by assumption. rewrite dget_dset. destruct (String.eqb_spec x k) as [e|n]; [|reflexivity].
  subst. destruct (dget b k) eqn:E; [|reflexivity]. exfalso. apply H2. 
  destruct (in_dec string_dec k (dkeys b)); [assumption|]. apply dget_None_iff in n. congruence.
Qed.
Lemma dget_dmerge_dict {A} (a b : list (string * A)) x : dget (dmerge a (dmerge [] b)) x = dget (dmerge a b) x.
Proof.
  rewrite dget_dmerge_nodup by (apply NoDup_dkeys_dmerge; constructor). symmetry. apply dget_dmerge_nil.
Qed.
Lemma dget_In {A} (b : list (string * A)) x v : dget b x = Some v -> In (x, v) b.
Proof.
  induction b as [|[k w] b IH]; simpl; [discriminate|]. destruct (String.eqb_spec x k) as [e|n]; intros H.
  - injection H as <-. subst. auto.
  - auto.
Qed.
Lemma dget_In_keys {A} (b : list (string * A)) x v : dget b x = Some v -> In x (dkeys b).
Proof. intros H. apply dget_In in H. apply (in_map fst) in H. exact H. Qed.
Lemma In_dkeys_dget {A} (b : list (string * A)) x : In x (dkeys b) -> exists v, dget b x = Some v.
Proof. intros H. destruct (dget b x) eqn:E; [eauto|]. apply dget_None_iff in E. contradiction. Qed.
Lemma NoDup_In_dget {A} (b : list (string * A)) x v : NoDup (dkeys b) -> In (x, v) b -> dget b x = Some v.
Proof.
  induction b as [|[k w] b IH]; simpl; [tauto|]. intros H [E|Hin]; inversion H; subst.
  - injection E as -> ->. rewrite String.eqb_refl. reflexivity.
  - destruct (String.eqb_spec x k) as [e|n]; [|auto]. subst. exfalso. apply H2. apply (in_map fst) in Hin. exact Hin.
Qed.
