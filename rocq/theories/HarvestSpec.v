(** Specification of harvesting, independent of the program transformations of HarvestModel.v: which names a program
    sows, and a direct execution that records every executed sow ("occurrence") and overrides planted ones. *)
From Verif Require Export HarvestModel.

Section spec.
  Context {AR : Arrays}.

  (** one entry per name; the last one wins, the first one determines the position *)
  Definition once (l : meta) : meta := dmerge [] l.
  Definition sub (pd : plants) (sc : string) : plants := match dget pd sc with Some (Dict l) => l | _ => [] end.
  (** the plants that reach the body of a scan whose sows are M *)
  Definition body_plants (M : meta) (pd : plants) : plants := app_plants M pd ++ clob_plants M pd.
  (** a sow of tag t and name n is seen by a harvest with settings s *)
  Definition seen (s : settings) (t n : string) : bool := (String.eqb t (tag_of s) && passes s n)%bool.

  (** The sows seen by [s] and not overridden by the plants [pd] of [sP], with mode and aval.  Calls and loops are
      inlined; a scan adds an axis to its append names; a nest is a strict sow of a dictionary (if it sows anything). *)
  Definition site_here (sP s : settings) (pd : plants) (t n : string) (x : mode * aval) : meta :=
    if (seen s t n && negb (seen sP t n && haskey pd n))%bool then [(n, x)] else [].
  Definition scope_site (s : settings) (sc : string) (l : meta) : meta :=
    match l with [] => [] | _ => if passes s sc then [(sc, (Strict, AD (map (fun e => (fst e, snd (snd e))) (once l))))] else [] end.
  Fixpoint sites2 {A B} (p : prog A B) (sP s : settings) (pd : plants) : meta :=
    match p with
    | Pure _ => []
    | Seq p q => sites2 p sP s pd ++ sites2 q sP s pd
    | First _ p => sites2 p sP s pd
    | Sow t n m av => site_here sP s pd t n (m, av)
    | SowCond t n av => site_here sP s pd t n (CondClobber, av)
    | Nest sc p => scope_site s sc (sites2 p sP s (sub pd sc))
    | Call p | While _ p | Cond p _ => once (sites2 p sP s pd)
    | Scan _ len p =>
        let M := once (sites2 p sP s (body_plants (once (sites2 p sP sP [])) pd)) in clobbers M ++ stack_meta len (appends M)
    end.

  (** Occurrences: name, value, and whether the sow takes effect (the predicate of sow_cond). *)
  Definition occ := (string * (tree * bool))%type.
  Definition last_eff (o : list occ) (n : string) : option tree :=
    fold_left (fun acc e => if (String.eqb (fst e) n && snd (snd e))%bool then Some (fst (snd e)) else acc) o None.
  (** the dictionary reaped from a list of occurrences: every name with the value of its last effective occurrence,
      zeros if there is none *)
  Definition collect (M : meta) (o : list occ) : list (string * tree) :=
    map (fun e => (fst e, match last_eff o (fst e) with Some v => v | None => zeros (snd (snd e)) end)) M.
  (** entering a loop resets the loop's clobber names to zeros *)
  Definition resets (M : meta) : list occ :=
    map (fun e => (fst e, (zeros (snd (snd e)), true))) (filter (fun e => (clobberish (fst (snd e)) && negb (is_cond (fst (snd e))))%bool) M).
  Definition in_names (M : meta) (e : occ) : bool := mem (fst e) (dkeys M).
  Definition occ_value (n : string) (o : list occ) : tree := match last_eff o n with Some v => v | None => Dict [] end.
  Definition stacks (M : meta) (os : list (list occ)) : list occ :=
    map (fun e => (fst e, (Stk (map (occ_value (fst e)) os), true))) (appends M).

  (** Execution with the plants [pd] of [sP], recording the sows seen by [s] *)
  Variables sP s : settings.
  Definition at_sow (pd : plants) (t n : string) (av : aval) (v : tree) (eff : bool) : res (tree * list occ) :=
    rb (chk av v) (fun v =>
      if (seen sP t n && haskey pd n)%bool then rb (planted av pd n) (fun w => inl (w, []))
      else inl (v, if seen s t n then [(n, (v, eff))] else [])).
  Fixpoint sem2 (fuel : nat) {A B} (p : prog A B) : plants -> A -> res (B * list occ) :=
    match p in prog A B return plants -> A -> res (B * list occ) with
    | Pure f => fun pd a => rb (f a) (fun b => inl (b, []))
    | Seq p q => fun pd a => rb (sem2 fuel p pd a) (fun r => rb (sem2 fuel q pd (fst r)) (fun r' => inl (fst r', snd r ++ snd r')))
    | First _ p => fun pd ac => rb (sem2 fuel p pd (fst ac)) (fun r => inl ((fst r, snd ac), snd r))
    | Sow t n m av => fun pd v => if is_cond m then inr ValueErr else at_sow pd t n av v true
    | SowCond t n av => fun pd vp => at_sow pd t n av (fst vp) (snd vp)
    | Nest sc p => fun pd a => rb (sem2 fuel p (sub pd sc) a) (fun r =>
        inl (fst r, map (fun e => (fst e, (Dict (collect (once (sites2 p sP s (sub pd sc))) (snd r)), true))) (scope_site s sc (sites2 p sP s (sub pd sc)))))
    | Call p => fun pd a => sem2 fuel p pd a
    | @Scan _ C X Y rv len p => fun pd cx =>
        if Nat.eqb (List.length (snd cx)) len then
          rb (scan_plants (once (sites2 p sP sP [])) len pd) (fun ps =>
            rb (scan_sem rv len (fun cxp : C * (X * plants) =>
                  rb (sem2 fuel p (snd (snd cxp)) (fst cxp, fst (snd cxp))) (fun r => inl (fst (fst r), (snd (fst r), snd r))))
                  (fst cx, combine (snd cx) ps)) (fun cy : C * list (Y * list occ) =>
              let os := map snd (snd cy) in
              let M := once (sites2 p sP s (body_plants (once (sites2 p sP sP [])) pd)) in
              inl ((fst cy, map fst (snd cy)),
                   resets M ++ filter (in_names (clobbers M)) (List.concat (rev_if rv os)) ++ stacks M os)))
        else inr TypeErr
    | While c p => fun pd a =>
        rb (while_loop fuel (fun co => c (fst co))
              (fun co => rb (sem2 fuel p pd (fst co)) (fun r => inl (fst r, snd co ++ snd r))) (a, [])) (fun co =>
          inl (fst co, resets (once (sites2 p sP s pd)) ++ snd co))
    | Cond p q => fun pd ba => if fst ba then sem2 fuel p pd (snd ba) else sem2 fuel q pd (snd ba)
    end.

End spec.
Notation sites s p pd := (sites2 p s s pd).
Notation sem s fuel p pd a := (sem2 s s fuel p pd a).

Section modes.
  Context {AR : Arrays}.
  (** ** Programs without the mixtures of modes that reap mishandles *)
  Definition no_mix (l : meta) : Prop :=
    forall n m1 a1 m2 a2, In (n, (m1, a1)) l -> In (n, (m2, a2)) l -> is_cond m1 = is_cond m2.
  Definition no_cond (l : meta) : Prop := forall n m a, In (n, (m, a)) l -> is_cond m = false.
  Definition all_cond (l : meta) : Prop := forall n m a, In (n, (m, a)) l -> is_cond m = true.
  Fixpoint tame2 {A B} (p : prog A B) (sP s : settings) (pd : plants) : Prop :=
    match p with
    | Pure _ | Sow _ _ _ _ | SowCond _ _ _ => True
    | Seq p q => tame2 p sP s pd /\ tame2 q sP s pd
    | First _ p => tame2 p sP s pd
    | Nest sc p => tame2 p sP s (sub pd sc) /\ no_cond (sites2 p sP s (sub pd sc))
    | Call p | While _ p => tame2 p sP s pd /\ no_mix (sites2 p sP s pd)
    | Cond p q => tame2 p sP s pd /\ tame2 q sP s pd /\ no_mix (sites2 p sP s pd) /\ no_mix (sites2 q sP s pd)
    | Scan _ _ p =>
        let pd' := body_plants (once (sites2 p sP sP [])) pd in
        tame2 p sP s pd' /\ (no_cond (sites2 p sP s pd') \/ all_cond (sites2 p sP s pd'))
    end.
  (** no name is sown both with sow_cond and with another mode in one scope; no sow_cond below a nest; in a scan body
      either all or none of the sows are sow_cond *)
  Definition regular2 {A B} (p : prog A B) (sP s : settings) (pd : plants) : Prop := tame2 p sP s pd /\ no_mix (sites2 p sP s pd).
End modes.
Notation tame s p pd := (tame2 p s s pd).
Notation regular s p pd := (regular2 p s s pd).
