(** Model of jax.vjp (reverse mode, jax.grad) on programs with sows and nests, of functions with jax.custom_vjp rules under
    reap, and of jax.vjp applied to reap(f).

    What JAX does (jax.interpreters.ad and jax.custom_derivatives, not part of /repo): vjp(f) runs f forwards and keeps
    residuals; the pullback runs the transposed linear steps backwards.  For the primitives of /repo: the JVP of sow hands the
    tangents on (harvest.py:206-208) and its transposition hands the cotangents back (214-217), nest is transposed as a call
    of the same primitive with the same scope (harvest.py:329-333), and so are calls.  A custom_vjp function is represented by its
    [fwd] and [bwd]; the function itself is not called under vjp (CustomJvpModel.v has the undifferentiated case).
    A cond is differentiated branch by branch: the residuals are those of the branch taken (JAX: of both branches, the others
    zero), and they select the transposed branch.
    The transpose of a scan is a scan over residuals and cotangents that runs the other way; jax.vjp of a while loop raises.
    Simplifications: straight-line code, calls, nests, conds, scans and custom_vjp functions (no while and sow_cond); every
    argument is differentiated; residuals of an elementary step are its arguments. *)
From Verif Require Export GradHarvestModel.
Open Scope string_scope. Open Scope list_scope. Open Scope nat_scope.

(** Cotangents of arrays: arrays of the same aval with addition and a pairing with values in some commutative monoid K *)
Class Cotangents (AR : Arrays) := {
  K : Type; k0 : K; kadd : K -> K -> K;
  kadd_0 : forall a, kadd k0 a = a; kadd_comm : forall a b, kadd a b = kadd b a; kadd_assoc : forall a b c, kadd a (kadd b c) = kadd (kadd a b) c;
  addV : V -> V -> V; dotV : V -> V -> K;
  dotV_add : forall v c c', avalV c = avalV c' -> dotV v (addV c c') = kadd (dotV v c) (dotV v c');
  dotV_0 : forall a c, dotV (zeroV a) c = k0; dotV_0r : forall v a, dotV v (zeroV a) = k0 }.

Section rev.
  Context {AR : Arrays} {CT : Cotangents AR}.
  (** values (and tangents), cotangents, and the pairing of tangents with cotangents *)
  Record space := Sp { car : Type; co : Type; pairing : car -> co -> K }.

  (** a name that the cotangent of a dictionary lacks has cotangent zero (JAX: a symbolic zero) *)
  Definition without {X} (n : string) (m : list (string * X)) : list (string * X) := filter (fun e => negb (String.eqb n (fst e))) m.
  Fixpoint tdot (t c : tree) {struct t} : K :=
    match t with
    | Leaf v => match c with Leaf w => dotV v w | _ => k0 end
    | Dict l => match c with
        | Dict m => (fix go (l : list (string * tree)) (m : list (string * tree)) : K :=
            match l with
            | [] => k0
            | (n, v) :: l' => kadd (match dget m n with Some w => tdot v w | None => k0 end) (go l' (without n m))
            end) l m
        | _ => k0 end
    | Stk l => match c with
        | Stk m => (fix go (l m : list tree) : K := match l, m with v :: l', w :: m' => kadd (tdot v w) (go l' m') | _, _ => k0 end) l m
        | _ => k0 end
    end.
  Fixpoint ldot (l m : list (string * tree)) : K :=
    match l with [] => k0 | (n, v) :: l' => kadd (match dget m n with Some w => tdot v w | None => k0 end) (ldot l' (without n m)) end.
  (** sum of two cotangents of one value *)
  Fixpoint tadd (t c : tree) {struct t} : tree :=
    match t, c with
    | Leaf v, Leaf w => Leaf (addV v w)
    | Dict l, Dict m => Dict ((fix go (l m : list (string * tree)) : list (string * tree) :=
        match l, m with (n, v) :: l', (_, w) :: m' => (n, tadd v w) :: go l' m' | _, _ => [] end) l m)
    | Stk l, Stk m => Stk ((fix go (l m : list tree) : list tree := match l, m with v :: l', w :: m' => tadd v w :: go l' m' | _, _ => [] end) l m)
    | _, _ => t
    end.
  Definition strip (d : dict) : list (string * tree) := map (fun e => (fst e, fst (snd e))) d.
  Definition TreeS : space := Sp tree tree tdot.
  Definition ReapS : space := Sp (list (string * tree)) (list (string * tree)) ldot.
  Definition DictS : space := Sp dict (list (string * tree)) (fun d c => ldot (strip d) c).
  (** predicates have no cotangents *)
  Definition BoolS : space := Sp bool unit (fun _ _ => k0).
  Fixpoint pairings (X : space) (l : list (car X)) (m : list (co X)) : K :=
    match l, m with v :: l', w :: m' => kadd (pairing X v w) (pairings X l' m') | _, _ => k0 end.
  Definition ListS (X : space) : space := Sp (list (car X)) (list (co X)) (pairings X).
  Definition Prod (X C : space) : space := Sp (car X * car C) (co X * co C) (fun d c => kadd (pairing X (fst d) (fst c)) (pairing C (snd d) (snd c))).

  (** [RevPure f df ft]: a sow-free computation with its derivative and the transposed derivative, ft x ct *)
  Inductive vprog : space -> space -> Type :=
  | RevPure {X Y} (f : car X -> res (car Y)) (df : car X -> car X -> res (car Y)) (ft : car X -> co Y -> res (co X)) : vprog X Y
  | RevSeq {X Y Z} (p : vprog X Y) (q : vprog Y Z) : vprog X Z
  | RevFirst {X Y} (C : space) (p : vprog X Y) : vprog (Prod X C) (Prod Y C)
  | RevSow (tag name : string) (m : mode) (av : aval) : vprog TreeS TreeS
  | RevNest {X Y} (scope : string) (p : vprog X Y) : vprog X Y
  | RevCall {X Y} (p : vprog X Y) : vprog X Y
  | RevCond {X Y} (p q : vprog X Y) : vprog (Prod BoolS X) Y
  | RevScan {C X Y} (reverse : bool) (len : nat) (p : vprog (Prod C X) (Prod C Y)) : vprog (Prod C (ListS X)) (Prod C (ListS Y))
  | RevCustom {X Y} (R : Type) (fwd : prog (car X) (car Y * R)) (bwd : prog (R * co Y) (co X)) : vprog X Y.

  (** the same program as one to be differentiated forwards; jax.jvp of a custom_vjp function raises TypeError *)
  Fixpoint toD {X Y} (p : vprog X Y) : dprog (car X) (car Y) :=
    match p in vprog X Y return dprog (car X) (car Y) with
    | RevPure f df _ => DPure f df
    | RevSeq p q => DSeq (toD p) (toD q)
    | RevFirst C p => DFirst (car C) (toD p)
    | RevSow t n m av => DSow t n m av
    | RevNest sc p => DNest sc (toD p)
    | RevCall p => DCall (toD p)
    | RevCond p q => DCond (toD p) (toD q)
    | @RevScan C X Y rv len p => DScan rv len (toD p : dprog (car C * car X) (car C * car Y))
    | RevCustom _ _ _ => DPure (fun _ => inr TypeErr) (fun _ _ => inr TypeErr)
    end.

  (** ** jax.vjp *)
  Fixpoint resid {X Y} (p : vprog X Y) : Type :=
    match p with
    | @RevPure X _ _ _ _ => car X
    | RevSeq p q => (resid p * resid q)%type
    | RevFirst _ p | RevNest _ p | RevCall p => resid p
    | RevSow _ _ _ _ => unit
    | RevCond p q => (resid p + resid q)%type
    | RevScan _ _ p => list (resid p)
    | RevCustom R _ _ => R
    end.
  (** forwards *)
  Fixpoint fwdT {X Y} (p : vprog X Y) : prog (car X) (car Y * resid p) :=
    match p as p in vprog X Y return prog (car X) (car Y * resid p) with
    | RevPure f _ _ => Pure (fun x => rb (f x) (fun y => inl (y, x)))
    | @RevSeq X Y Z p q => Seq (fwdT p) (Seq (First (resid p) (fwdT q)) (Pure (fun z : (car Z * resid q) * resid p => inl (fst (fst z), (snd z, snd (fst z))))))
    | @RevFirst X Y C p => Seq (First (car C) (fwdT p)) (Pure (fun z : (car Y * resid p) * car C => inl ((fst (fst z), snd z), snd (fst z))))
    | RevSow t n m av => Seq (Sow t n m av) (Pure (fun v => inl (v, tt)))                   (* 206-208 *)
    | RevNest sc p => Nest sc (fwdT p)
    | RevCall p => Call (fwdT p)
    | @RevCond X Y p q => Cond (Seq (fwdT p) (Pure (fun z : car Y * resid p => inl (fst z, inl (snd z) : resid p + resid q))))
                            (Seq (fwdT q) (Pure (fun z : car Y * resid q => inl (fst z, inr (snd z) : resid p + resid q))))
    | @RevScan C X Y rv len p =>
        Seq (Scan rv len (Seq (fwdT p) (Pure (fun z : (car C * car Y) * resid p => inl (fst (fst z), (snd (fst z), snd z))))))
          (Pure (fun z : car C * list (car Y * resid p) => inl ((fst z, map fst (snd z)), map snd (snd z))))
    | RevCustom _ fwd _ => fwd
    end.
  (** backwards: residuals and the cotangent of the result to the cotangent of the argument *)
  Fixpoint bwdT {X Y} (p : vprog X Y) : prog (resid p * co Y) (co X) :=
    match p as p in vprog X Y return prog (resid p * co Y) (co X) with
    | RevPure _ _ ft => Pure (fun z => ft (fst z) (snd z))
    | @RevSeq X Y Z p q => Seq (Pure (fun z : (resid p * resid q) * co Z => inl ((snd (fst z), snd z), fst (fst z))))
        (Seq (First (resid p) (bwdT q)) (Seq (Pure (fun z : co Y * resid p => inl (snd z, fst z))) (bwdT p)))
    | @RevFirst X Y C p => Seq (Pure (fun z : resid p * (co Y * co C) => inl ((fst z, fst (snd z)), snd (snd z)))) (First (co C) (bwdT p))
    | RevSow _ _ _ _ => Pure (fun z : unit * tree => inl (snd z))                            (* _sow_transpose, 214-217 *)
    | RevNest sc p => Nest sc (bwdT p)                                                       (* _nest_transpose_rule, 329-333 *)
    | RevCall p => Call (bwdT p)
    | @RevCond X Y p q =>
        Seq (Pure (fun z : (resid p + resid q) * co Y => inl (match fst z with inl _ => true | inr _ => false end, z)))
          (Seq (Cond (Seq (Pure (fun z : (resid p + resid q) * co Y => match fst z with inl r => inl (r, snd z) | inr _ => inr TypeErr end)) (bwdT p))
                     (Seq (Pure (fun z : (resid p + resid q) * co Y => match fst z with inr r => inl (r, snd z) | inl _ => inr TypeErr end)) (bwdT q)))
            (Pure (fun g : co X => inl (tt, g))))
    | @RevScan C X Y rv len p =>
        Seq (Pure (fun z : list (resid p) * (co C * list (co Y)) => if Nat.eqb (List.length (fst z)) (List.length (snd (snd z)))
                     then inl (fst (snd z), combine (fst z) (snd (snd z))) else inr TypeErr))
          (Scan (negb rv) len (Seq (Pure (fun z : co C * (resid p * co Y) => inl (fst (snd z), (fst z, snd (snd z))))) (bwdT p)))
    | RevCustom _ _ bwd => bwd
    end.
  (** [y, pullback = jax.vjp(f, x); (y, pullback(ct))] *)
  Definition vjpV {X Y} (p : vprog X Y) : prog (car X * co Y) (car Y * co X) :=
    Seq (First (co Y) (fwdT p)) (Seq (Pure (fun z : (car Y * resid p) * co Y => inl ((snd (fst z), snd z), fst (fst z))))
      (Seq (First (car Y) (bwdT p)) (Pure (fun z : co X * car Y => inl (snd z, fst z))))).

  (** ** jax.vjp applied to reap(f): [reapV] is [reapD] (GradHarvestModel.v, same cited lines) with the transposed plumbing *)
  Definition VMove {X Y : space} (f : car X -> car Y) (b : co Y -> res (co X)) : vprog X Y := RevPure (fun a => inl (f a)) (fun _ da => inl (f da)) (fun _ c => b c).
  Definition VId_chk (av : aval) : vprog TreeS TreeS := RevPure (X := TreeS) (Y := TreeS) (chk av) (fun _ dv => inl dv) (fun _ c => inl c).
  (** a program entered with an empty dictionary *)
  Definition enter {X : space} : vprog X (Prod X DictS) := VMove (Y := Prod X DictS) (fun a => (a, [] : dict)) (fun c => inl (fst c)).
  (** storing a value: the cotangent of the reaped value is added to that of the sown one *)
  Definition VStore (n : string) (av : aval) : vprog (Prod TreeS DictS) (Prod TreeS DictS) :=
    RevPure (X := Prod TreeS DictS) (Y := Prod TreeS DictS)
      (fun vd => rb (chk av (fst vd)) (fun v => inl (v, store (snd vd) n v None)))
      (fun _ dvd => inl (fst dvd, store (snd dvd) n (fst dvd) None))
      (fun _ c => match dget (snd c) n with
                  | Some w => if has_aval (fst c) av && has_aval w av then inl (tadd (fst c) w, without n (snd c)) else inr TypeErr
                  | None => inl c
                  end).
  (** transposing [stacked]: the cotangents of the stacked values, iteration by iteration *)
  Definition onto (n : string) (ws : list tree) (us : list (list (string * tree))) : list (list (string * tree)) := map (fun wu => (n, fst wu) :: snd wu) (combine ws us).
  Fixpoint unstacked (len : nat) (c : list (string * tree)) : res (list (list (string * tree))) :=
    match c with
    | [] => inl (repeat [] len)
    | (n, Stk ws) :: c' => if Nat.eqb (List.length ws) len then rb (unstacked len c') (fun us => inl (onto n ws us)) else inr TypeErr
    | _ => inr TypeErr
    end.
  Definition pick (ns : list string) (c : list (string * tree)) : list (string * tree) := filter (fun e => mem (fst e) ns) c.
  Definition drop (ns : list string) (c : list (string * tree)) : list (string * tree) := filter (fun e => negb (mem (fst e) ns)) c.
  Definition resown (s : settings) (ns : list string) (n : string) : bool := mem n ns && passes s n.
  Fixpoint reapV (s : settings) {X Y} (p : vprog X Y) : meta -> res (meta * vprog (Prod X DictS) (Prod Y DictS)) :=
    match p in vprog X Y return meta -> res (meta * vprog (Prod X DictS) (Prod Y DictS)) with
    | RevPure f df ft => fun M => inl (M, RevFirst DictS (RevPure f df ft))
    | RevSeq p q => fun M => rb (reapV s p M) (fun r => rb (reapV s q (fst r)) (fun r' => inl (fst r', RevSeq (snd r) (snd r'))))
    | @RevFirst X Y C p => fun M => rb (reapV s p M) (fun r => inl (fst r,
        RevSeq (VMove (X := Prod (Prod X C) DictS) (Y := Prod (Prod X DictS) C) swap (fun c => inl (swap c)))
          (RevSeq (RevFirst C (snd r)) (VMove (X := Prod (Prod Y DictS) C) (Y := Prod (Prod Y C) DictS) swap (fun c => inl (swap c))))))
    | RevSow t n m av => fun M => if is_cond m then inr ValueErr else                        (* 510-533 *)
        if String.eqb t (tag_of s) then
          if passes s n then rb (handle M n m av) (fun M' => inl (M', VStore n av))
          else inl (M, RevFirst DictS (VId_chk av))
        else if exclusive s then inl (M, RevFirst DictS (VId_chk av))
        else inl (M, RevFirst DictS (RevSow t n m av))
    | @RevNest X Y sc p => fun M =>                                                          (* 558-567 *)
        rb (reapV s p []) (fun r =>
          rb (match fst r with [] => inl M
              | _ => resow_meta s M [(sc, (Strict, AD (map (fun e => (fst e, snd (snd e))) (fst r))))] end) (fun M' =>
            inl (M', RevSeq (RevFirst DictS (RevNest sc (RevSeq enter (snd r))))
                          (VMove (X := Prod (Prod Y DictS) DictS) (Y := Prod Y DictS) (fun x => (fst (fst x),
                             match fst r with [] => snd x
                             | _ => resow s [sc] [(sc, (Dict (map (fun e => (fst e, fst (snd e))) (snd (fst x))), None))] (snd x) end))
                           (fun c => match fst r with [] => inl ((fst c, []), snd c)
                              | _ => if passes s sc then match dget (snd c) sc with
                                                         | Some (Dict ci) => inl ((fst c, ci), without sc (snd c))
                                                         | Some _ => inr TypeErr
                                                         | None => inl ((fst c, []), snd c) end
                                     else inl ((fst c, []), snd c) end)))))
    | @RevCall X Y p => fun M =>                                                             (* 569-584 *)
        rb (reapV s p []) (fun r => rb (resow_meta s M (fst r)) (fun M' =>
          inl (M', RevSeq (RevFirst DictS (RevCall (RevSeq enter (snd r))))
                        (VMove (X := Prod (Prod Y DictS) DictS) (Y := Prod Y DictS) (fun x => (fst (fst x), resow s (dkeys (fst r)) (snd (fst x)) (snd x)))
                           (fun c => inl ((fst c, filter (fun e => resown s (dkeys (fst r)) (fst e)) (snd c)), filter (fun e => negb (resown s (dkeys (fst r)) (fst e))) (snd c)))))))
    | @RevCond X Y p q => fun M =>                                                           (* 1013-1054 *)
        rb (reapV s p []) (fun r => rb (reapV s q []) (fun r' => rb (check_branches (fst r) (fst r')) (fun _ =>
          rb (resow_meta s M (fst r)) (fun M' =>
            inl (M', RevSeq (RevFirst DictS (RevCond (RevSeq enter (snd r)) (RevSeq enter (snd r'))))
                          (VMove (X := Prod (Prod Y DictS) DictS) (Y := Prod Y DictS) (fun x => (fst (fst x), resow s (dkeys (fst r)) (snd (fst x)) (snd x)))
                             (fun c => inl ((fst c, filter (fun e => resown s (dkeys (fst r)) (fst e)) (snd c)), filter (fun e => negb (resown s (dkeys (fst r)) (fst e))) (snd c)))))))))
    (* 827-922; a fwd with sow_cond in a scan is not modelled (TypeErr) *)
    | @RevScan C X Y rv len p => fun M =>
        rb (reapV s p []) (fun r =>
          let Mb := fst r in
          if existsb (fun e => is_strict (fst (snd e))) Mb then inr ValueErr
          else if is_cond (last_mode Mb) && existsb (fun e => negb (is_cond (fst (snd e)))) (clobbers Mb) then inr TypeErr
          else if existsb (fun e => is_cond (fst (snd e))) Mb then inr TypeErr
          else rb (resow_meta s M (clobbers Mb ++ stack_meta len (appends Mb))) (fun M' =>
            let body : vprog (Prod (Prod C DictS) X) (Prod (Prod C DictS) (Prod Y DictS)) :=
              RevSeq (VMove (X := Prod (Prod C DictS) X) (Y := Prod (Prod (Prod C X) DictS) DictS) (fun x => (((fst (fst x), snd x), [] : dict), snd (fst x)))
                       (fun c => inl ((fst (fst (fst c)), snd c), snd (fst (fst c)))))
                (RevSeq (RevFirst DictS (snd r))
                  (VMove (X := Prod (Prod (Prod C Y) DictS) DictS) (Y := Prod (Prod C DictS) (Prod Y DictS))
                     (fun x => ((fst (fst (fst x)), scan_carry Mb (snd (fst x)) (snd x)), (snd (fst (fst x)), snd (fst x))))
                     (fun c => let cd := snd (fst c) in let cD := snd (snd c) in
                        if forallb (fun e => mem (fst e) (dkeys (appends Mb))) cD
                        then inl (((fst (fst c), fst (snd c)), pick (dkeys (clobbers Mb)) cd ++ cD), drop (dkeys (clobbers Mb)) cd) else inr TypeErr))) in
            inl (M', RevSeq (VMove (X := Prod (Prod C (ListS X)) DictS) (Y := Prod (Prod (Prod C DictS) (ListS X)) DictS)
                              (fun x => (((fst (fst x), carry0 Mb), snd (fst x)), snd x)) (fun c => inl ((fst (fst (fst c)), snd (fst c)), snd c)))
                       (RevSeq (RevFirst DictS (RevScan rv len body))
                         (VMove (X := Prod (Prod (Prod C DictS) (ListS (Prod Y DictS))) DictS) (Y := Prod (Prod C (ListS Y)) DictS)
                            (fun x => ((fst (fst (fst x)), map fst (snd (fst x))),
                               resow s (dkeys (appends Mb)) (stacked Mb (map snd (snd (fst x)))) (resow s (dkeys (clobbers Mb)) (snd (fst (fst x))) (snd x))))
                            (fun c => let outer := filter (fun e => negb (resown s (dkeys (appends Mb)) (fst e))) (snd c) in
                               if Nat.eqb (List.length (snd (fst c))) len then
                                 rb (unstacked len (filter (fun e => resown s (dkeys (appends Mb)) (fst e)) (snd c))) (fun us =>
                                   inl (((fst (fst c), filter (fun e => resown s (dkeys (clobbers Mb)) (fst e)) outer), combine (snd (fst c)) us),
                                        filter (fun e => negb (resown s (dkeys (clobbers Mb)) (fst e))) outer))
                               else inr TypeErr))))))
    (* 615-645: fwd runs in the *current* context (_fwd_subtrace), what it sows does not depend on the differentiated
       arguments as far as vjp is concerned; bwd is reaped in a context of its own and what it sows is dropped
       (reap_wrapper_drop_aux).  Simplification: a bwd that cannot be reaped raises here, not when the pullback is called. *)
    | @RevCustom X Y R fwd bwd => fun M =>
        rb (reapT s fwd []) (fun r0 => rb (reapT s fwd M) (fun r => rb (call_and_reap s bwd) (fun b =>
          inl (fst r, RevCustom (X := Prod X DictS) (Y := Prod Y DictS) R
            (Seq (snd r) (Pure (fun z : (car Y * R) * dict => inl ((fst (fst z), snd z), snd (fst z)))))
            (Seq (Pure (fun z : R * (co Y * list (string * tree)) => inl ((fst z, fst (snd z)), snd (snd z))))
              (Seq (First (list (string * tree)) b)
                (Pure (fun z : (co X * list (string * tree)) * list (string * tree) =>
                   inl (fst (fst z), filter (fun e => negb (mem (fst e) (dkeys (fst r0)))) (snd z)))))))))) 
    end.
  (** call_and_reap, harvest.py:685-752 *)
  Definition call_and_reapV (s : settings) {X Y} (p : vprog X Y) : res (vprog X (Prod Y ReapS)) :=
    rb (reapV s p []) (fun r => inl (RevSeq enter (RevSeq (snd r) (VMove (X := Prod Y DictS) (Y := Prod Y ReapS) (fun x => (fst x, final (snd x))) (fun c => inl c))))).
End rev.
