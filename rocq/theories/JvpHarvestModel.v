(** Model of jax.jvp on programs with sows and nests: the JVP rule of sow (harvest.py:206-211), of nest (a CallPrimitive, whose
    JVP in JAX binds the same primitive with the same parameters to the differentiated function, harvest.py:304-316), and of
    JAX's call, scan, while and cond (jax.interpreters.ad, not part of /repo: their documented effect).

    A program to be differentiated gives for every sow-free computation f : A -> B its derivative, df x dx: the tangent of the
    result at x in the direction dx.  Simplification: tangents have the type of the primal value (the tangent of a boolean is
    ignored). *)
From Verif Require Export HarvestModel.

Section jvp.
  Context {AR : Arrays}.
  Inductive dprog : Type -> Type -> Type :=
  | DPure {A B} (f : A -> res B) (df : A -> A -> res B) : dprog A B
  | DSeq {A B C} (p : dprog A B) (q : dprog B C) : dprog A C
  | DFirst {A B} (C : Type) (p : dprog A B) : dprog (A * C) (B * C)
  | DSow (tag name : string) (m : mode) (av : aval) : dprog tree tree
  | DSowCond (tag name : string) (av : aval) : dprog (tree * bool) tree
  | DNest {A B} (scope : string) (p : dprog A B) : dprog A B
  | DCall {A B} (p : dprog A B) : dprog A B
  | DScan {C X Y} (reverse : bool) (len : nat) (p : dprog (C * X) (C * Y)) : dprog (C * list X) (C * list Y)
  | DWhile {C} (c : C -> res bool) (p : dprog C C) : dprog C C
  | DCond {A B} (p q : dprog A B) : dprog (bool * A) B.

  (** the function itself *)
  Fixpoint primal {A B} (p : dprog A B) : prog A B :=
    match p in dprog A B return prog A B with
    | DPure f _ => Pure f
    | DSeq p q => Seq (primal p) (primal q)
    | DFirst C p => First C (primal p)
    | DSow t n m a => Sow t n m a
    | DSowCond t n a => SowCond t n a
    | DNest sc p => Nest sc (primal p)
    | DCall p => Call (primal p)
    | DScan rv len p => Scan rv len (primal p)
    | DWhile c p => While c (primal p)
    | DCond p q => Cond (primal p) (primal q)
    end.

  (** ((a, c), (a', c')) to ((a, a'), (c, c')) *)
  Definition across {A C A' C'} (x : (A * C) * (A' * C')) : (A * A') * (C * C') := ((fst (fst x), fst (snd x)), (snd (fst x), snd (snd x))).

  (** the program that jvp(f) traces to: primal and tangent in, primal and tangent out *)
  Fixpoint jvpT {A B} (p : dprog A B) : prog (A * A) (B * B) :=
    match p in dprog A B return prog (A * A) (B * B) with
    | DPure f df => Pure (fun x => rb (f (fst x)) (fun y => rb (df (fst x) (snd x)) (fun dy => inl (y, dy))))
    | DSeq p q => Seq (jvpT p) (jvpT q)
    | DFirst C p => Seq (Pure (fun x => inl (across x))) (Seq (First (C * C) (jvpT p)) (Pure (fun x => inl (across x))))
    (* _sow_jvp: harvest.py:206-208, sow_p is bound to the primals, the tangents are returned as they are *)
    | DSow t n m a => First tree (Sow t n m a)
    | DSowCond t n a => Seq (Pure (fun x : (tree * bool) * (tree * bool) => inl (fst x, fst (snd x)))) (First tree (SowCond t n a))
    | DNest sc p => Nest sc (jvpT p)
    | DCall p => Call (jvpT p)
    | @DScan C X Y rv len p =>
        Seq (Pure (fun x : (C * list X) * (C * list X) => if Nat.eqb (List.length (snd (fst x))) (List.length (snd (snd x)))
                     then inl ((fst (fst x), fst (snd x)), combine (snd (fst x)) (snd (snd x))) else inr TypeErr))
          (Seq (Scan rv len (Seq (Pure (fun x : (C * C) * (X * X) => inl (across x))) (Seq (jvpT p) (Pure (fun x : (C * Y) * (C * Y) => inl (across x))))))
            (Pure (fun x : (C * C) * list (Y * Y) => inl ((fst (fst x), map fst (snd x)), (snd (fst x), map snd (snd x))))))
    | DWhile c p => While (fun x => c (fst x)) (jvpT p)
    | @DCond A B p q => Seq (Pure (fun x : (bool * A) * (bool * A) => inl (fst (fst x), (snd (fst x), snd (snd x))))) (Cond (jvpT p) (jvpT q))
    end.
End jvp.
