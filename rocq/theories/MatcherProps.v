(** Property theorems C01-C08 (oryx/experimental/matching/matcher.py). *)
From Verif Require Import MatcherSpec MatcherProofs MatcherProofs2 MatcherProofs3 MatcherProofs4.
Open Scope string_scope.
Open Scope list_scope.

Definition num (z : Z) : val := VNum KInt z.
Definition pnum (z : Z) : pat := PNum KInt z.
Definition tup (l : list val) : val := VSeq KTuple l.
Definition ptup (l : list pat) : pat := PSeq KTuple l.
Definition V (x : string) : pat := PVar (Some x) [].

(** C01 *)
Theorem C01_match_is_match_match_all_agree : forall p e, is_star p = false ->
  (forall b, match_ p e = inl b <-> exists rest er, match_all p e = (b :: rest, er)) /\
  (match_ p e = inr MatchErr <-> match_all p e = ([], None)) /\
  (is_match p e = inl true <-> fst (match_all p e) <> []) /\
  (is_match p e = inl false <-> match_all p e = ([], None)) /\
  (forall er, er <> MatchErr -> (match_ p e = inr er <-> match_all p e = ([], Some er)) /\
                                 (is_match p e = inr er <-> match_all p e = ([], Some er))).
Proof. exact match_agree. Qed.
Print Assumptions C01_match_is_match_match_all_agree.

Theorem C01_top_level_star_rejected : forall p e, is_star p = true ->
  match_ p e = inr ValueErr /\ is_match p e = inr ValueErr /\ match_all p e = ([], Some ValueErr).
Proof. exact match_star_value_error. Qed.
Print Assumptions C01_top_level_star_rejected.

Example C01_nontrivial :
  match_ (ptup [Segment (Some "a"); V "x"; Segment (Some "b")]) (tup [num 1; num 2]) =
  inl [("a", tup []); ("x", num 1); ("b", tup [num 2])].
Proof. reflexivity. Qed.

(** C02.  Full statement: without the hypotheses [tame] and [scoped false []].  It is false (next theorem). *)
Theorem C02_match_sound_partial : forall p e b,
  tame p -> scoped false [] p -> In b (fst (match_all p e)) -> fits (dget b) p e.
Proof. exact match_sound. Qed.
Print Assumptions C02_match_sound_partial.

(** a second Star of the same name does not check its element pattern:
    match((Star(1, name='x'), Star(2, name='x')), (1, 1)) succeeds with x = (1,) *)
Theorem C02_match_sound_refuted : exists p e b,
  In b (fst (match_all p e)) /\ ~ fits (dget b) p e.
Proof.
  exists (ptup [PStar (pnum 1) (Some "x") [] false false; PStar (pnum 2) (Some "x") [] false false]),
    (tup [num 1; num 1]), [("x", tup [num 1])].
  split; [vm_compute; auto|].
  cbn [ptup fits]. intros (sk & es & He & seg & rest & ss & H1 & _ & H3 & _ & _ & seg2 & rest2 & ss2 & H4 & _ & H6 & H7 & _ & H8).
  injection He as <- <-. destruct H6 as (v & Hv & Hs). vm_compute in Hv. injection Hv as <-.
  destruct seg2 as [|e2 seg2]; [vm_compute in Hs; discriminate|].
  inversion H7 as [|s2 e2' ss2' seg2' [_ H9] H10]; subst. cbn [fits] in H9.
  assert (Hin : In e2 [num 1; num 1]). { change (tup [num 1; num 1]) with (tup [num 1; num 1]) in *. rewrite H1. apply in_app_iff. right. simpl. auto. }
  simpl in Hin. destruct Hin as [<-|[<-|[]]]; vm_compute in H9; discriminate.
Qed.
Print Assumptions C02_match_sound_refuted.

Definition distributive : pat :=
  ptup [PStr [Ascii.Ascii true false false false false false true false];
        PStar (ptup [V "x"; V "y"]) (Some "s") ["y"] false false; PNot (pnum 3); V "x"].
Example C02_nontrivial : tame distributive /\ scoped false [] distributive /\ scoped true [] distributive.
Proof.
  cbn. unfold disjoint, incl. cbn. repeat split; try tauto; try (intros; intuition (subst; try discriminate)).
Qed.

(** C03.  Full statement: for every Choice-free pattern.  False because Not is evaluated with the names bound so
    far (next theorem); proved when Stars/Not use names as in [tame], [scoped true []] (a Not mentions only names
    bound to its left), for success also with Choice outside of Star. *)
Theorem C03_match_complete_partial : forall p e s, tame p -> scoped true [] p -> fits s p e ->
  snd (match_all p e) = None /\ (exists b, In b (fst (match_all p e))) /\
  (choice_free p -> exists b, In b (fst (match_all p e)) /\ below (dget b) s /\ incl (sure p) (keys b)).
Proof. exact match_complete. Qed.
Print Assumptions C03_match_complete_partial.

Theorem C03_match_complete_refuted : exists p e s,
  choice_free p /\ tame p /\ fits s p e /\ match_ p e = inr MatchErr.
Proof.
  exists (ptup [PNot (V "x"); V "x"]), (tup [num 1; num 2]), (fun x => if String.eqb x "x" then Some (num 2) else None).
  split; [cbn; tauto|]. split; [cbn; unfold disjoint; cbn; tauto|]. split; [|reflexivity].
  cbn [ptup fits]. exists SlTuple, [num 1; num 2]. split; [reflexivity|]. eexists _, _. split; [reflexivity|]. split.
  - intros s' Hs' [_ (v & Hv & Hsame)]. rewrite (Hs' "x" (num 2) eq_refl) in Hv. injection Hv as <-. discriminate.
  - eexists _, _. split; [reflexivity|]. split; [|reflexivity]. cbn [fits named V].
    split; [constructor|]. exists (num 2). split; reflexivity.
Qed.
Print Assumptions C03_match_complete_refuted.

Example C03_nontrivial :
  fits (fun x => if String.eqb x "x" then Some (num 1) else if String.eqb x "s" then Some (tup [tup [num 1; num 5]; tup [num 1; num 6]])
                 else if String.eqb x "y" then Some (tup [num 5; num 6]) else None)
       distributive (tup [VStr [Ascii.Ascii true false false false false false true false]; tup [num 1; num 5]; tup [num 1; num 6]; num 4; num 1]).
Proof.
  set (s := fun x => _). cbn [distributive ptup fits].
  eexists SlTuple, _. split; [reflexivity|]. eexists _, _. split; [reflexivity|]. split; [reflexivity|].
  exists [tup [num 1; num 5]; tup [num 1; num 6]], [num 4; num 1],
    [ (fun x => if String.eqb x "y" then Some (num 5) else s x); (fun x => if String.eqb x "y" then Some (num 6) else s x) ].
  split; [reflexivity|]. split; [discriminate|]. split; [eexists; split; reflexivity|]. split; [|split].
  - assert (Hx : forall z x, ~ In x ["y"] -> (if String.eqb x "y" then Some (num z) else s x) = s x).
    { intros z x Hx. destruct (String.eqb_spec x "y"); [subst; simpl in Hx; tauto|reflexivity]. }
    repeat constructor; try (apply Hx); cbn; eexists SlTuple, _; (split; [reflexivity|]);
      repeat (eexists _, _; split; [reflexivity|]; split; [split; [constructor|]; eexists; split; reflexivity|]); reflexivity.
  - intros a [<-|[]] _. eexists. split; reflexivity.
  - eexists _, _. split; [reflexivity|]. split; [cbn; intros s' _ H; discriminate|].
    eexists _, _. split; [reflexivity|]. split; [split; [constructor|eexists; split; reflexivity]|reflexivity].
Qed.

(** C04.  Full statement: for every pattern.  Named Choices overwrite (refuted); proved for all patterns whose
    Choices (outside of Not and Star) are unnamed, under arbitrary bindings and continuations. *)
Theorem C04_bindings_only_extended_partial : forall p e b k y,
  unnamed_choices p -> NoDup (keys b) -> In y (fst (pmatch p e b k)) ->
  exists b1, In y (fst (k b1)) /\ forall x v, dget b x = Some v -> dget b1 x = Some v.
Proof. exact only_extended. Qed.
Print Assumptions C04_bindings_only_extended_partial.

Theorem C04_same_name_same_value_partial : forall k ps sk es b x i rs e,
  tame (PSeq k ps) -> scoped false [] (PSeq k ps) -> Forall (fun p => is_star p = false) ps ->
  as_seq e = Some (sk, es) -> In b (fst (match_all (PSeq k ps) e)) ->
  nth_error ps i = Some (PVar (Some x) rs) ->
  exists v ei, dget b x = Some v /\ nth_error es i = Some ei /\ same v ei.
Proof. exact consistent. Qed.
Print Assumptions C04_same_name_same_value_partial.

Theorem C04_named_choice_refuted : exists p e b,
  match_ p e = inl b /\ exists x v, p = ptup [V x; PChoice [pnum 1; pnum 2] (Some x)] /\ dget b x = Some v /\
  forall e0 e1, e = tup [e0; e1] -> ~ same v e0.
Proof.
  exists (ptup [V "x"; PChoice [pnum 1; pnum 2] (Some "x")]), (tup [num 5; num 1]), [("x", num 1)].
  split; [reflexivity|]. exists "x", (num 1). split; [reflexivity|]. split; [reflexivity|].
  intros e0 e1 H. injection H as <- <-. discriminate.
Qed.
Print Assumptions C04_named_choice_refuted.

Example C04_nontrivial : match_ (ptup [V "x"; ptup [V "y"; V "x"]]) (tup [num 5; tup [num 1; num 5]]) = inl [("x", num 5); ("y", num 1)].
Proof. reflexivity. Qed.

(** C05.  [as_pat v] is the Python object [v] used as a pattern. *)
Theorem C05_ground_partial : forall v e,
  (same v e -> match_all (as_pat v) e = ([[]], None)) /\
  (typed_alike v e -> match_all (as_pat v) e = ([[]], None) \/ match_all (as_pat v) e = ([], None)) /\
  (typed_alike v e -> match_all (as_pat v) e <> ([], None) -> same v e).
Proof. exact ground_match. Qed.
Print Assumptions C05_ground_partial.
Theorem C05_ground_exact : forall v e b k,
  (loose v e /\ pmatch (as_pat v) e b k = k b) \/ (~ loose v e /\ pmatch (as_pat v) e b k = gnil).
Proof. exact ground. Qed.
Print Assumptions C05_ground_exact.
(** a tuple pattern matches the list, and even the string, with the same elements *)
Theorem C05_cross_type_refuted : exists v e w,
  ~ same v e /\ match_ (as_pat v) e = inl [] /\ ~ same v w /\ match_ (as_pat v) w = inl [] /\ e <> w.
Proof.
  pose (a := Ascii.Ascii true false false false false true true false).
  exists (tup [VStr [a]; VStr [a]]), (VStr [a; a]), (VSeq KList [VStr [a]; VStr [a]]).
  repeat split; try discriminate.
Qed.
Print Assumptions C05_cross_type_refuted.
Example C05_nontrivial : typed_alike (tup [num 1; tup [num 2]]) (tup [num 1; tup [num 2; num 3]]) /\ ~ same (tup [num 1; tup [num 2]]) (tup [num 1; tup [num 2; num 3]]).
Proof. split; [cbn; tauto|discriminate]. Qed.

(** C06 *)
Theorem C06_star_order_partial : forall kd q x acc g pl ps e sk es,
  tame (PSeq kd (PStar q (Some x) acc g pl :: ps)) -> as_seq e = Some (sk, es) ->
  exists G : nat -> list bindings,
    fst (match_all (PSeq kd (PStar q (Some x) acc g pl :: ps)) e) =
      flat_map G ((if g then @rev nat else fun l => l)
                    (filter (fun i => negb pl || negb (Nat.eqb i 0)) (seq 0 (S (List.length es))))) /\
    forall i b, In b (G i) -> dget b x = Some (mk_slice sk (firstn i es)).
Proof. exact star_order. Qed.
Print Assumptions C06_star_order_partial.
Theorem C06_two_segments : forall x y es, x <> y ->
  match_all (PSeq KTuple [Segment (Some x); Segment (Some y)]) (VSeq KTuple es) =
  (map (fun i => [(x, VSeq KTuple (firstn i es)); (y, VSeq KTuple (skipn i es))]) (seq 0 (S (List.length es))), None).
Proof. exact two_segments. Qed.
Print Assumptions C06_two_segments.
(** Plus matches an empty segment when its name is already bound to an empty one *)
Theorem C06_plus_empty_refuted : exists p e b,
  p = ptup [PStar (pnum 1) (Some "x") [] false false; Plus (pnum 1) (Some "x") [] false] /\
  match_ p e = inl b /\ dget b "x" = Some (tup []).
Proof. eexists _, (tup []), [("x", tup [])]. repeat split. Qed.
Print Assumptions C06_plus_empty_refuted.
Example C06_nontrivial : tame (ptup [PStar (V "y") (Some "x") [] true true; V "z"]).
Proof. cbn. unfold disjoint, incl. cbn. repeat split; try tauto; try (intros; intuition (subst; try discriminate)). Qed.

(** C07 *)
Theorem C07_not : forall p e b k,
  (pmatch p e b gret = ([], None) -> pmatch (PNot p) e b k = k b) /\
  (fst (pmatch p e b gret) <> [] -> pmatch (PNot p) e b k = ([], None)).
Proof. exact not_exact. Qed.
Print Assumptions C07_not.
Theorem C07_not_declarative : forall p e, tame p -> scoped true [] p ->
  ((forall s, ~ fits s p e) -> match_all (PNot p) e = ([[]], None)) /\
  ((exists s, fits s p e) -> match_all (PNot p) e = ([], None)).
Proof. exact not_spec. Qed.
Print Assumptions C07_not_declarative.
Example C07_nontrivial : match_ (PNot (pnum 1)) (num 2) = inl [] /\ match_ (PNot (ptup [V "x"; V "x"])) (tup [num 2; num 2]) = inr MatchErr.
Proof. split; reflexivity. Qed.

(** C08 *)
Theorem C08_choice_commits : forall kd alts rest e, Forall (fun p => is_star p = false) alts ->
  (forall i p, nth_error alts i = Some p ->
     snd (match_all (PSeq kd (p :: rest)) e) = None -> fst (match_all (PSeq kd (p :: rest)) e) <> [] ->
     (forall j q, j < i -> nth_error alts j = Some q -> match_all (PSeq kd (q :: rest)) e = ([], None)) ->
     match_all (PSeq kd (PChoice alts None :: rest)) e = match_all (PSeq kd (p :: rest)) e) /\
  ((forall q, In q alts -> match_all (PSeq kd (q :: rest)) e = ([], None)) ->
     match_all (PSeq kd (PChoice alts None :: rest)) e = ([], None)).
Proof. exact choice_in_seq. Qed.
Print Assumptions C08_choice_commits.
Example C08_nontrivial :
  match_all (ptup [PChoice [V "x"; Dot; V "y"] None; V "x"]) (tup [num 1; num 2]) = ([[("x", num 2)]], None).
Proof. reflexivity. Qed.
