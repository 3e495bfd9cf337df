(** Specification for C37 and C40: what it means for values to be consistent with a program. *)
From Verif Require Export InverseModel SliceProps.

(** two arrays are equal: the same shape and the same elements at all indices in range *)
Definition aeq {X} (a b : arr X) : Prop := a_shape a = a_shape b /\ forall i, inb (a_shape a) i -> a_get a i = a_get b i.

Section Spec.
  Variables V W : Type.
  Notation arrV := (arr V). Notation arrW := (arr W).
  Notation atom := (atom (list nat) arrV). Notation frame := (frame (list nat) arrV).
  Notation prim := (prim V W). Notation jx := (jx V W). Notation qn := (qn V W).

  (** the atom has the value v under the assignment ρ of values to variables *)
  Definition den (rho : nat -> arrV) (a : atom) (v : arrV) : Prop :=
    match a with AVar n av => aeq (rho n) v /\ av = a_shape v | ALit l => aeq l v | ADrop av => av = a_shape v end.
  Definition is_lit (a : atom) : Prop := match a with ALit _ => True | _ => False end.
  (** shapes that lax accepts for a binary elementwise operation *)
  Definition broadcastable (a b : arrV) : Prop := a_shape a = a_shape b \/ a_shape a = [] \/ a_shape b = [].
  Definition proper {Y} (R : Y -> Y -> Prop) (F : list arrV -> Y) : Prop := forall l l', Forall2 aeq l l' -> R (F l) (F l').
  Definition known_part (o : option arrV) (v : arrV) : Prop := match o with Some a => aeq a v | None => True end.

  (** y is the concatenation of the arrays along dimension d, from position lo on: each array is the next section of y *)
  Fixpoint concat_of (d lo : nat) (l : list arrV) (y : arrV) : Prop :=
    match l with
    | [] => lo = nth d (a_shape y) 0
    | x :: l' => let n := nth d (a_shape x) 0 in
                 a_shape x = set_at d n (a_shape y) /\ (forall i, inb (a_shape x) i -> a_get x i = a_get y (add_at d lo i)) /\ concat_of d (lo + n) l' y
    end.
  (** What each primitive computes (the first conjuncts), and that it is applied where its registered inverse is one: the
      inverse gives back every input that is a variable. *)
  Definition prim_holds (p : prim) (ia : list atom) (vi vo : list arrV) : Prop :=
    match p with
    | PElem _ _ e => exists a x y, ia = [a] /\ vi = [x] /\ vo = [y] /\ aeq y (map_arr (e_fwd V W e) x) /\
        (is_lit a \/ forall g, e_inv V W e = Some g -> forall i, inb (a_shape x) i -> g (e_fwd V W e (a_get x i)) = a_get x i)
    | PBin _ _ b => exists a1 a2 x1 x2 y, ia = [a1; a2] /\ vi = [x1; x2] /\ vo = [y] /\ broadcastable x1 x2 /\ aeq y (lift2 (b_fwd V W b) x1 x2) /\
        (is_lit a2 \/ forall i, inb (a_shape y) i -> b_left V W b (bget x1 i) (bget y i) = bget x2 i) /\
        (is_lit a1 \/ forall i, inb (a_shape y) i -> b_right V W b (bget x2 i) (bget y i) = bget x1 i)
    | PDefault _ _ F => Forall2 aeq (F vi) vo /\ proper (Forall2 aeq) F
    | PSlice _ _ sl => exists x y, vi = [x] /\ vo = [y] /\ box_in (a_shape x) sl /\ aeq y (slice_arr sl x)
    | PConcat _ _ d => exists y, vo = [y] /\ vi <> [] /\ d < length (a_shape y) /\ concat_of d 0 vi y
    | PReshape _ _ sh => exists x y, vi = [x] /\ vo = [y] /\ size sh = size (a_shape x) /\ aeq y (reshape_arr sh x)
    | PConvert _ _ cv back => exists a x y, ia = [a] /\ vi = [x] /\ vo = [y] /\ aeq y (map_arr cv x) /\ (is_lit a \/ forall i, inb (a_shape x) i -> back (cv (a_get x i)) = a_get x i)
    | PTie _ _ => Forall2 aeq vi vo
    | PSow _ _ => Forall2 aeq vi vo
    | PCustom _ _ nc F inv => Forall2 aeq (F (skipn nc vi)) vo /\ proper (Forall2 aeq) F /\
        (* the user's inverse is right: whatever it is told about the inputs, the values it gives are theirs *)
        forall l outs js r, Forall2 known_part l (skipn nc vi) -> Forall2 aeq outs vo -> inv l outs js = Ok (Some r) -> Forall2 (fun o v => match o with Some (x, _) => aeq x v | None => True end) r (skipn nc vi)
    | PBijector _ _ nc nb F G _ => exists x y, skipn nb (skipn nc vi) = [x] /\ nb <= length (skipn nc vi) /\ vo = [y] /\
        let bs := firstn nb (skipn nc vi) in
        aeq y (F bs x) /\ forall bs', Forall2 aeq bs' bs -> (forall x', aeq x' x -> aeq (F bs' x') y) /\ forall y', aeq y' y -> aeq (G bs' y') x
    end.

  (** An assignment ρ of values to the variables of a frame satisfies an equation.  Under [MLogProb] the values of samples
      are free (their densities are what is asked for); under [MInverse] a sample is the result of its sampling code. *)
  Definition all_of {X} (P : X -> Prop) : list X -> Prop := fix go l := match l with [] => True | x :: l' => P x /\ go l' end.
  Fixpoint eqn_holds (m : mode) (rho : nat -> arrV) (q : qn) {struct q} : Prop :=
    match q with
    | QPrim _ _ p i o => exists vi vo, Forall2 (den rho) i vi /\ Forall2 (den rho) o vo /\ prim_holds p i vi vo
    | QCall _ _ (Jx _ _ fr eqns) i o => exists vi vo, Forall2 (den rho) i vi /\ Forall2 (den rho) o vo /\
        exists rho', f_const fr = [] /\ Forall2 (den rho') (f_in fr) vi /\ Forall2 (den rho') (f_out fr) vo /\ all_of (eqn_holds m rho') eqns
    | QInitial _ _ (Jx _ _ fr eqns) i o => exists vc vi vo, Forall2 (den rho) i (vc ++ vi) /\ Forall2 (den rho) o vo /\
        exists rho', Forall2 (den rho') (f_const fr) vc /\ Forall2 (den rho') (f_in fr) vi /\ Forall2 (den rho') (f_out fr) vo /\ all_of (eqn_holds MInverse rho') eqns
    | QSample _ _ lp (Jx _ _ fr eqns) i o => exists vc vi vo, Forall2 (den rho) i (vc ++ vi) /\ Forall2 (den rho) o vo /\ length vc = length (f_const fr) /\
        match m with
        | MInverse => exists rho', Forall2 (den rho') (f_const fr) vc /\ Forall2 (den rho') (f_in fr) vi /\ Forall2 (den rho') (f_out fr) vo /\ all_of (eqn_holds MInverse rho') eqns
        | MLogProb => True
        end
    | QPlate _ _ _ (Jx _ _ fr eqns) i o => exists vi vo, Forall2 (den rho) i vi /\ Forall2 (den rho) o vo /\
        exists rho', f_const fr = [] /\ Forall2 (den rho') (f_in fr) vi /\ Forall2 (den rho') (f_out fr) vo /\ all_of (eqn_holds m rho') eqns
    end.
  (** The program maps the inputs xs to the outputs ys (with constants cs), every primitive being applied inside the domain of its
      inverse: some assignment satisfies all equations.  (A jaxpr assigns each variable once, so the inputs determine
      the assignment; the specification does not need this.) *)
  Definition maps (m : mode) (J : jx) (cs xs ys : list arrV) : Prop :=
    match J with Jx _ _ fr eqns => exists rho, Forall2 (den rho) (f_const fr) cs /\ Forall2 (den rho) (f_in fr) xs /\ Forall2 (den rho) (f_out fr) ys /\ all_of (eqn_holds m rho) eqns end.
End Spec.
