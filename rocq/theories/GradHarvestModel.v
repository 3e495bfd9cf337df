(** Model of jax.jvp applied to reap(f), plant(f) and harvest(f): the transformations of oryx/core/interpreters/harvest.py
    run while the outer trace is a JVP trace, so the values that they store, select, stack, slice and hand out carry tangents.

    [reapD]/[plantD] are [reapT]/[plantT] of HarvestModel.v (same cited lines) on programs with derivatives: the primal parts
    are literally those of [reapT]/[plantT] (proved: [reapD_primal], [plantD_primal] in GradHarvestProofs.v), and the
    tangents move as JAX's rules for the primitives used by the implementation say: lax.cond on a predicate selects the
    tangent of the selected value, jnp.zeros has tangent zero, stacking and slicing act on the tangents, storing in a
    Python dictionary keeps value and tangent together.  Tangents of dictionaries carry the predicates of the values. *)
From Verif Require Export JvpHarvestModel.
Open Scope string_scope. Open Scope list_scope. Open Scope nat_scope.

Section grad.
  Context {AR : Arrays}.
  (** plumbing: a function that only moves values moves tangents in the same way *)
  Definition Move {A B} (f : A -> B) : dprog A B := DPure (fun a => inl (f a)) (fun _ da => inl (f da)).
  (** _sow_jvp for a sow that nobody handles, harvest.py:206-208 *)
  Definition Id_chk (av : aval) : dprog tree tree := DPure (chk av) (fun _ dv => inl dv).

  (** reap_function, harvest.py:647-662 *)
  Fixpoint reapD (s : settings) {A B} (p : dprog A B) : meta -> res (meta * dprog (A * dict) (B * dict)) :=
    match p in dprog A B return meta -> res (meta * dprog (A * dict) (B * dict)) with
    | DPure f df => fun M => inl (M, DFirst dict (DPure f df))
    | DSeq p q => fun M => rb (reapD s p M) (fun r => rb (reapD s q (fst r)) (fun r' => inl (fst r', DSeq (snd r) (snd r'))))
    | DFirst C p => fun M => rb (reapD s p M) (fun r => inl (fst r, DSeq (Move swap) (DSeq (DFirst C (snd r)) (Move swap))))
    | DSow t n m av => fun M => if is_cond m then inr ValueErr else                        (* 510-533 *)
        if String.eqb t (tag_of s) then
          if passes s n then rb (handle M n m av) (fun M' =>
            inl (M', DPure (fun vd => rb (chk av (fst vd)) (fun v => inl (v, store (snd vd) n v None)))
                           (fun _ dvd => inl (fst dvd, store (snd dvd) n (fst dvd) None))))
          else inl (M, DFirst dict (Id_chk av))
        else if exclusive s then inl (M, DFirst dict (Id_chk av))
        else inl (M, DFirst dict (DSow t n m av))
    | DSowCond t n av => fun M =>                                                          (* lax.cond, 524-531 *)
        if String.eqb t (tag_of s) then
          if passes s n then rb (handle M n CondClobber av) (fun M' =>
            inl (M', DPure (fun vd => rb (chk av (fst (fst vd))) (fun v => inl (v, store (snd vd) n v (Some (snd (fst vd))))))
                           (fun vd dvd => inl (fst (fst dvd), store (snd dvd) n (fst (fst dvd)) (Some (snd (fst vd)))))))
          else inl (M, DFirst dict (DPure (fun vp => chk av (fst vp)) (fun _ dvp => inl (fst dvp))))
        else if exclusive s then inl (M, DFirst dict (DPure (fun vp => chk av (fst vp)) (fun _ dvp => inl (fst dvp))))
        else inl (M, DFirst dict (DSowCond t n av))
    | @DNest _ A B sc p => fun M =>                                                        (* 558-567 *)
        rb (reapD s p []) (fun r =>
          rb (match fst r with [] => inl M
              | _ => resow_meta s M [(sc, (Strict, AD (map (fun e => (fst e, snd (snd e))) (fst r))))] end) (fun M' =>
            inl (M', DSeq (DFirst dict (DNest sc (DSeq (Move (fun a => (a, [] : dict))) (snd r))))
                          (Move (fun x : (B * dict) * dict => (fst (fst x),
                             match fst r with [] => snd x
                             | _ => resow s [sc] [(sc, (Dict (map (fun e => (fst e, fst (snd e))) (snd (fst x))), None))] (snd x) end))))))
    | @DCall _ A B p => fun M =>                                                           (* 569-584 *)
        rb (reapD s p []) (fun r => rb (resow_meta s M (fst r)) (fun M' =>
          inl (M', DSeq (DFirst dict (DCall (DSeq (Move (fun a => (a, [] : dict))) (snd r))))
                        (Move (fun x : (B * dict) * dict => (fst (fst x), resow s (dkeys (fst r)) (snd (fst x)) (snd x)))))))
    | @DScan _ C X Y rv len p => fun M =>                                                  (* 827-922 *)
        rb (reapD s p []) (fun r =>
          let Mb := fst r in
          if existsb (fun e => is_strict (fst (snd e))) Mb then inr ValueErr
          else if is_cond (last_mode Mb) && existsb (fun e => negb (is_cond (fst (snd e)))) (clobbers Mb) then inr TypeErr
          else rb (resow_meta s M (clobbers Mb ++ stack_meta len (appends Mb))) (fun M' =>
            let body : dprog ((C * dict) * X) ((C * dict) * (Y * dict)) :=
              DSeq (Move (fun x => (((fst (fst x), snd x), [] : dict), snd (fst x))))
                (DSeq (DFirst dict (snd r))
                  (Move (fun x : ((C * Y) * dict) * dict =>
                     ((fst (fst (fst x)), scan_carry Mb (snd (fst x)) (snd x)), (snd (fst (fst x)), snd (fst x)))))) in
            inl (M', DSeq (Move (fun x => (((fst (fst x), carry0 Mb), snd (fst x)), snd x)))
                       (DSeq (DFirst dict (DScan rv len body))
                         (Move (fun x : ((C * dict) * list (Y * dict)) * dict =>
                            ((fst (fst (fst x)), map fst (snd (fst x))),
                             resow s (dkeys (appends Mb)) (stacked Mb (map snd (snd (fst x))))
                               (resow s (dkeys (clobbers Mb)) (snd (fst (fst x))) (snd x)))))))))
    | @DWhile _ C c p => fun M =>                                                          (* 925-994 *)
        rb (reapD s p []) (fun r =>
          let Mb := fst r in
          if existsb (fun e => negb (clobberish (fst (snd e)))) Mb then inr ValueErr
          else rb (resow_meta s M Mb) (fun M' =>
            let body : dprog (C * dict) (C * dict) :=
              DSeq (Move (fun x => ((fst x, [] : dict), snd x)))
                (DSeq (DFirst dict (snd r))
                  (Move (fun x : (C * dict) * dict => (fst (fst x), while_carry Mb (snd (fst x)) (snd x))))) in
            inl (M', DSeq (Move (fun x => ((fst x, carry0 Mb), snd x)))
                       (DSeq (DFirst dict (DWhile (fun x => c (fst x)) body))
                         (Move (fun x : (C * dict) * dict => (fst (fst x), resow s (dkeys Mb) (snd (fst x)) (snd x))))))))
    | @DCond _ A B p q => fun M =>                                                         (* 1013-1054 *)
        rb (reapD s p []) (fun r => rb (reapD s q []) (fun r' => rb (check_branches (fst r) (fst r')) (fun _ =>
          rb (resow_meta s M (fst r)) (fun M' =>
            inl (M', DSeq (DFirst dict (DCond (DSeq (Move (fun a => (a, [] : dict))) (snd r)) (DSeq (Move (fun a => (a, [] : dict))) (snd r'))))
                          (Move (fun x : (B * dict) * dict => (fst (fst x), resow s (dkeys (fst r)) (snd (fst x)) (snd x)))))))))
    end.
  (** call_and_reap, harvest.py:685-752: the tangent of a name whose predicate is False is zero *)
  Definition call_and_reapD (s : settings) {A B} (p : dprog A B) : res (dprog A (B * list (string * tree))) :=
    rb (reapD s p []) (fun r => inl (DSeq (Move (fun a => (a, [] : dict))) (DSeq (snd r) (Move (fun x => (fst x, final (snd x))))))).

  (** plant_function, harvest.py:1264-1272: a planted value brings its own tangent *)
  Fixpoint plantD (s : settings) {A B} (p : dprog A B) : list (string * skel) -> list string -> res (list string * dprog (A * plants) B) :=
    match p in dprog A B return list (string * skel) -> list string -> res (list string * dprog (A * plants) B) with
    | DPure f df => fun sk dn => inl (dn, DPure (fun x => f (fst x)) (fun x dx => df (fst x) (fst dx)))
    | DSeq p q => fun sk dn => rb (plantD s p sk dn) (fun r => rb (plantD s q sk (fst r)) (fun r' =>
        inl (fst r', DSeq (Move (fun x => ((fst x, snd x), snd x))) (DSeq (DFirst plants (snd r)) (snd r')))))
    | DFirst C p => fun sk dn => rb (plantD s p sk dn) (fun r => inl (fst r, DSeq (Move swap) (DFirst C (snd r))))
    | DSow t n m av => fun sk dn => if is_cond m then inr ValueErr else
        if String.eqb t (tag_of s) then
          if passes s n then
            if mem n dn then inr ValueErr                                                  (* 1188-1199 *)
            else if haskey sk n then
              inl (if clobberish m then dn else n :: dn,
                   DPure (fun x => rb (chk av (fst x)) (fun _ => planted av (snd x) n)) (fun _ dx => planted av (snd dx) n))
            else inl (dn, DSeq (Move fst) (DSow t n m av))
          else inl (dn, DPure (fun x => chk av (fst x)) (fun _ dx => inl (fst dx)))
        else if exclusive s then inl (dn, DPure (fun x => chk av (fst x)) (fun _ dx => inl (fst dx)))
        else inl (dn, DSeq (Move fst) (DSow t n m av))
    | DSowCond t n av => fun sk dn =>
        if String.eqb t (tag_of s) then
          if passes s n then
            if mem n dn then inr ValueErr
            else if haskey sk n then inl (dn, DPure (fun x => rb (chk av (fst (fst x))) (fun _ => planted av (snd x) n)) (fun _ dx => planted av (snd dx) n))
            else inl (dn, DSeq (Move fst) (DSowCond t n av))
          else inl (dn, DPure (fun x => chk av (fst (fst x))) (fun _ dx => inl (fst (fst dx))))
        else if exclusive s then inl (dn, DPure (fun x => chk av (fst (fst x))) (fun _ dx => inl (fst (fst dx))))
        else inl (dn, DSeq (Move fst) (DSowCond t n av))
    | @DNest _ A B sc p => fun sk dn =>                                                    (* 1201-1225 *)
        rb (sub_skel (quiet s (primal p)) sk sc) (fun sk' => rb (plantD s p sk' []) (fun r =>
          inl (dn, DSeq (Move (fun x => (fst x, sub_plants sk (snd x) sc))) (DNest sc (snd r)))))
    | @DCall _ A B p => fun sk dn => rb (plantD s p sk []) (fun r => inl (dn, DCall (snd r)))
    | @DScan _ C X Y rv len p => fun sk dn =>                                              (* 1330-1407 *)
        rb (reapT s (primal p) []) (fun rm =>
          let Mb := fst rm in
          if existsb (fun e => is_strict (fst (snd e))) Mb then inr ValueErr
          else rb (plantD s p (scan_skel Mb sk) []) (fun r =>
            let split := fun x : (C * list X) * plants => if Nat.eqb (List.length (snd (fst x))) len then
                            rb (scan_plants Mb len (snd x)) (fun ps => inl (fst (fst x), combine (snd (fst x)) ps)) else inr TypeErr in
            inl (dn, DSeq (DPure split (fun _ dx => split dx))
                       (DScan rv len (DSeq (Move (fun x : C * (X * plants) => ((fst x, fst (snd x)), snd (snd x)))) (snd r))))))
    | @DWhile _ C c p => fun sk dn =>                                                      (* 1410-1454 *)
        rb (reapT s (primal p) []) (fun rm =>
          if existsb (fun e => negb (clobberish (fst (snd e)))) (fst rm) then inr ValueErr
          else rb (plantD s p sk []) (fun r =>
            inl (dn, DSeq (DWhile (fun x => c (fst x)) (DSeq (Move (fun x : C * plants => (x, snd x))) (DFirst plants (snd r))))
                          (Move (fun x : C * plants => fst x)))))
    | @DCond _ A B p q => fun sk dn =>                                                     (* 1457-1495 *)
        rb (reapT s (primal p) []) (fun m0 => rb (reapT s (primal q) []) (fun m1 => rb (check_branches (fst m0) (fst m1)) (fun _ =>
          rb (plantD s p sk []) (fun r => rb (plantD s q sk []) (fun r' =>
            inl (dn, DSeq (Move (fun x : (bool * A) * plants => (fst (fst x), (snd (fst x), snd x)))) (DCond (snd r) (snd r'))))))))
    end.
  Definition plant_D (s : settings) {A B} (p : dprog A B) (pd : plants) : res (dprog (A * plants) B) :=
    rb (plantD s p (skels_of pd) []) (fun r => inl (snd r)).
  (** harvest, harvest.py:1585-1595 *)
  Definition harvestD (s : settings) {A B} (p : dprog A B) (pd : plants) : res (dprog (A * plants) (B * list (string * tree))) :=
    rb (plant_D s p pd) (call_and_reapD s).
End grad.
