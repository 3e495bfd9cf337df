(** Specification for C39 and C40: the ILDJ of the variables of a program and the terms of its log-density. *)
From Verif Require Export InverseSpec.

Section LinSpec.
  Variables V W : Type.
  Variable w0 : W.
  Variable wplus : W -> W -> W.
  Notation arrV := (arr V). Notation arrW := (arr W).
  Notation atom := (atom (list nat) arrV). Notation frame := (frame (list nat) arrV).
  Notation prim := (prim V W). Notation jx := (jx V W). Notation qn := (qn V W).
  Notation asum := (asum W w0 wplus).

  (** the sum of terms, left to right *)
  Definition sumw (ts : list W) : W := fold_left wplus ts w0.
  (** no random variable is sampled in the equation *)
  Fixpoint no_samples (q : qn) : Prop :=
    match q with
    | QPrim _ _ _ _ _ => True
    | QCall _ _ (Jx _ _ _ eqns) _ _ => all_of no_samples eqns
    | QInitial _ _ (Jx _ _ _ eqns) _ _ => all_of no_samples eqns
    | QSample _ _ _ _ _ _ => False
    | QPlate _ _ _ _ _ _ => False
    end.
  (** Some variables, Z, are determined by the outputs: each is inverted through the one equation that uses it.  The others
      (the arguments that are given, constants, what is computed from them) may not depend on the variables in Z. *)
  Definition inz (Z : nat -> Prop) (a : atom) : Prop := match a with AVar n _ => Z n | _ => False end.
  Definition clear_of (Z : nat -> Prop) (l : list atom) : Prop := Forall (fun a => ~ inz Z a) l.
  (** the equation inverts the variable n *)
  Definition consumes (Z : nat -> Prop) (q : qn) (n : nat) : Prop := match q with QPrim _ _ _ i o => Z n /\ (exists av, In (AVar n av) i) /\ exists a, In a o /\ inz Z a | _ => False end.
  Definition linear (Z : nat -> Prop) (fr : frame) (eqns : list qn) : Prop :=
    (forall i j q q' n, nth_error eqns i = Some q -> nth_error eqns j = Some q' -> consumes Z q n -> consumes Z q' n -> i = j) /\
    (forall q n av, In q eqns -> consumes Z q n -> ~ In (AVar n av) (f_out fr)).
  Definition val_of (rho : nat -> arrV) (a : atom) : option arrV := match a with AVar n _ => Some (rho n) | ALit l => Some l | ADrop _ => None end.
  (** The ILDJ L of the variables of Z obeys the change-of-variables formula across an inverted equation: the ILDJ of the
      input is that of the output plus (or transformed by) the log-derivative of the inverse at the output's value. *)
  Definition step (rho : nat -> arrV) (L : nat -> arrW) (Z : nat -> Prop) (p : prim) (i o : list atom) : Prop :=
    exists x y sh, o = [AVar y sh] /\ Z y /\ Z x /\ x <> y /\ a_shape (L y) = sh /\
      ((exists e, p = PElem _ _ e /\ i = [AVar x sh] /\ aeq (L x) (lift2 wplus (L y) (map_arr (e_ldj V W e) (rho y)))) \/
       (exists b c vc, p = PBin _ _ b /\ i = [c; AVar x sh] /\ ~ inz Z c /\ val_of rho c = Some vc /\ aeq (L x) (lift2 (fun f j => f j) (lift2 (b_left_j V W b) vc (rho y)) (L y))) \/
       (exists b c vc, p = PBin _ _ b /\ i = [AVar x sh; c] /\ ~ inz Z c /\ val_of rho c = Some vc /\ aeq (L x) (lift2 (fun f j => f j) (lift2 (b_right_j V W b) vc (rho y)) (L y)))).
  (** Equations that pass the ILDJ on in other ways.
      [copies]: sow and tie_all give their inputs back; one of them is inverted.
      [custom]: a custom_inverse with def_inverse_unary adds the log-derivative the user gave, at the value of the output.
      [bijector]: a bijector adds its inverse log-determinant at the output (its parameters are known).  The code asks for the
      log-determinant of the whole array, a scalar, so this is for scalars (for longer arrays see C39_bijector_refuted).
      [drops], [concatenates]: reshape and convert_element_type start again from zero, and concatenate resets its output,
      so the ILDJ must be zero. *)
  Definition copies (L : nat -> arrW) (Z : nat -> Prop) (p : prim) (i o : list atom) : Prop :=
    (p = PTie _ _ \/ p = PSow _ _) /\ exists x y sh i1 i2 o1 o2, i = i1 ++ AVar x sh :: i2 /\ o = o1 ++ AVar y sh :: o2 /\ length i1 = length o1 /\
      clear_of Z i1 /\ clear_of Z i2 /\ clear_of Z o1 /\ clear_of Z o2 /\ Z x /\ Z y /\ aeq (L x) (L y).
  Definition custom (rho : nat -> arrV) (L : nat -> arrW) (Z : nat -> Prop) (p : prim) (i o : list atom) : Prop :=
    exists F f_inv f_ildj consts x shx y shy, p = PCustom _ _ (length consts) F (unary_inverse V W wplus f_inv f_ildj) /\ i = consts ++ [AVar x shx] /\ o = [AVar y shy] /\
      clear_of Z consts /\ Z x /\ Z y /\ (forall v, aeq v (rho y) -> aeq (f_ildj v) (f_ildj (rho y))) /\ a_shape (f_ildj (rho y)) = a_shape (L y) /\
      aeq (L x) (lift2 wplus (f_ildj (rho y)) (L y)).
  Definition bijector (rho : nat -> arrV) (L : nat -> arrW) (Z : nat -> Prop) (p : prim) (i o : list atom) : Prop :=
    exists F G J consts params vs x shx y shy, p = PBijector _ _ (length consts) (length params) F G J /\ i = consts ++ params ++ [AVar x shx] /\ o = [AVar y shy] /\
      clear_of Z consts /\ clear_of Z params /\ Z x /\ Z y /\ Forall2 (fun a v => val_of rho a = Some v) params vs /\
      (forall vs' v, Forall2 aeq vs' vs -> aeq v (rho y) -> aeq (J vs' v) (J vs (rho y))) /\ a_shape (J vs (rho y)) = a_shape (L y) /\
      aeq (L x) (lift2 wplus (L y) (J vs (rho y))).
  Definition drops (L : nat -> arrW) (Z : nat -> Prop) (p : prim) (i o : list atom) : Prop :=
    ((exists sh, p = PReshape _ _ sh) \/ exists cv back, p = PConvert _ _ cv back) /\ exists x shx y shy, i = [AVar x shx] /\ o = [AVar y shy] /\ Z x /\ Z y /\
      aeq (L y) (mk_arr shy (fun _ => w0)) /\ aeq (L x) (mk_arr shx (fun _ => w0)).
  Definition concatenates (L : nat -> arrW) (Z : nat -> Prop) (p : prim) (i o : list atom) : Prop :=
    exists d y sh, p = PConcat _ _ d /\ o = [AVar y sh] /\ Z y /\ (exists a, In a i /\ inz Z a) /\ aeq (L y) (mk_arr sh (fun _ => w0)) /\
      forall n av, In (AVar n av) i -> Z n -> aeq (L n) (mk_arr av (fun _ => w0)).
  Definition through (rho : nat -> arrV) (L : nat -> arrW) (Z : nat -> Prop) (p : prim) (i o : list atom) : Prop :=
    copies L Z p i o \/ custom rho L Z p i o \/ bijector rho L Z p i o \/ drops L Z p i o \/ concatenates L Z p i o.
  (** Equations that are only evaluated forward, from variables in Z that the outputs give directly (K): no inverse is
      registered, or the inverse rule leaves a known input alone *)
  Definition forward (Z K : nat -> Prop) (p : prim) (i o : list atom) : Prop :=
    clear_of Z o /\
    ((exists F, p = PDefault _ _ F) \/
     (exists e x sh, p = PElem _ _ e /\ i = [AVar x sh] /\ K x) \/
     (exists b x sh c, p = PBin _ _ b /\ i = [AVar x sh; c] /\ K x /\ ~ inz Z c)).
  Definition ildj_term (L : nat -> arrW) (o : list atom) : W := fold_left (fun s a => match a with AVar n _ => wplus s (asum (L n)) | _ => s end) o w0.
  (** a call uses a variable of the frame it is in (an argument, a constant or an output of it) *)
  Definition attached (fr : frame) (q : qn) : Prop :=
    match q with QCall _ _ _ i o => exists n av av', In (AVar n av) (f_const fr ++ f_in fr ++ f_out fr) /\ In (AVar n av') (i ++ o) | _ => True end.
  (** n is a sample, or what a call or a plate returns as one; and the variables computed from one by inverted equations *)
  Definition any_of {X} (P : X -> Prop) : list X -> Prop := fix go l := match l with [] => False | x :: l' => P x \/ go l' end.
  Fixpoint sampled (q : qn) (n : nat) {struct q} : Prop :=
    match q with
    | QSample _ _ _ _ _ o => exists av, In (AVar n av) o
    | QPlate _ _ _ _ _ o => exists av, In (AVar n av) o
    | QCall _ _ (Jx _ _ fr eqns) _ o => exists n' av' av, In (AVar n' av', AVar n av) (combine (f_out fr) o) /\ any_of (fun q' => sampled q' n') eqns
    | _ => False
    end.
  Inductive pinned (Z : nat -> Prop) (eqns : list qn) : nat -> Prop :=
  | pin_sample q n : In q eqns -> sampled q n -> pinned Z eqns n
  | pin_step p i o n n' av' : In (QPrim _ _ p i o) eqns -> consumes Z (QPrim _ _ p i o) n -> pinned Z eqns n -> In (AVar n' av') o -> Z n' -> pinned Z eqns n'.
  (** The values rho and the ILDJs L are those of an execution, and the equation contributes the terms ts to the log-density:
      a sample contributes the log-density of its value given its parameters, and its ILDJ; a call contributes the sum of the terms of
      its body; a plate contributes the sum over its axis (psum) of the sum of the terms of its body, and also the ILDJ of its outputs
      (although that of the samples in its body is already in the terms of the body: see C40_plate_refuted).  The outputs of a plate are
      to be samples, or computed from samples by inverted equations. *)
  Fixpoint lin (m : mode) (rho : nat -> arrV) (L : nat -> arrW) (Z K : nat -> Prop) (q : qn) (ts : list W) {struct q} : Prop :=
    eqn_holds V W m rho q /\
    match q with
    | QPrim _ _ p i o => ts = [] /\ (clear_of Z i /\ clear_of Z o \/ step rho L Z p i o \/ forward Z K p i o \/ through rho L Z p i o)
    | QInitial _ _ _ i o => ts = [] /\ no_samples q /\ clear_of Z i /\ clear_of Z o
    | QSample _ _ lp (Jx _ _ fr _) i o => m = MLogProb /\ Forall (inz Z) o /\ proper V (fun f g => forall l l', Forall2 aeq l l' -> f l = g l') lp /\
        exists vi vo, Forall2 (den V rho) i vi /\ Forall2 (den V rho) o vo /\ ts = [lp (skipn 1 (skipn (length (f_const fr)) vi)) vo; ildj_term L o]
    | QCall _ _ (Jx _ _ fr eqns) i o => clear_of Z i /\
        exists rho' L' Z' vi vo tss, Forall2 (den V rho) i vi /\ Forall2 (den V rho) o vo /\
          f_const fr = [] /\ Forall2 (den V rho') (f_in fr) vi /\ Forall2 (den V rho') (f_out fr) vo /\
          clear_of Z' (f_in fr) /\ NoDup (f_out fr) /\ linear Z' fr eqns /\ Forall (attached fr) eqns /\
          Forall2 (fun a b => match a with AVar n _ => inz Z b -> Z' n /\ exists n' av', b = AVar n' av' /\ L' n = L n' | _ => ~ inz Z b end) (f_out fr) o /\
          Forall (fun ab => inz Z' (fst ab) -> inz Z (snd ab)) (combine (f_out fr) o) /\
          (fix go (l : list qn) (tl : list (list W)) : Prop := match l, tl with [], [] => True | q' :: l', t :: tl' => lin m rho' L' Z' (fun _ => False) q' t /\ go l' tl' | _, _ => False end) eqns tss /\
          ts = [sumw (concat tss)]
    | QPlate _ _ psum (Jx _ _ fr eqns) i o => Forall (inz Z) o /\ clear_of Z i /\
        exists rho' L' Z' vi vo tss, Forall2 (den V rho) i vi /\ Forall2 (den V rho) o vo /\
          f_const fr = [] /\ Forall2 (den V rho') (f_in fr) vi /\ Forall2 (den V rho') (f_out fr) vo /\
          clear_of Z' (f_in fr) /\ NoDup (f_out fr) /\ linear Z' fr eqns /\ Forall (attached fr) eqns /\
          Forall2 (fun a b => match a with AVar n _ => inz Z b -> Z' n /\ exists n' av', b = AVar n' av' /\ L' n = L n' | _ => ~ inz Z b end) (f_out fr) o /\
          Forall (fun ab => inz Z' (fst ab) -> inz Z (snd ab)) (combine (f_out fr) o) /\
          (fix go (l : list qn) (tl : list (list W)) : Prop := match l, tl with [], [] => True | q' :: l', t :: tl' => lin m rho' L' Z' (fun _ => False) q' t /\ go l' tl' | _, _ => False end) eqns tss /\
          (forall n av, In (AVar n av) (f_out fr) -> pinned Z' eqns n) /\ ts = [psum (sumw (concat tss)); ildj_term L o]
    end.
  (** An execution of a whole program: the values xs of the inputs, of which those that are not known lie in Z *)
  Definition lin_run (m : mode) (fr : frame) (eqns : list qn) (cs xs ys : list arrV) (rho : nat -> arrV) (L : nat -> arrW) (Z : nat -> Prop) (tss : list (list W)) : Prop :=
    Forall2 (den V rho) (f_const fr) cs /\ Forall2 (den V rho) (f_in fr) xs /\ Forall2 (den V rho) (f_out fr) ys /\
    clear_of Z (f_const fr) /\ linear Z fr eqns /\ (forall n av, In (AVar n av) (f_out fr) -> Z n -> aeq (L n) (mk_arr av (fun _ => w0))) /\
    Forall2 (lin m rho L Z (fun n => Z n /\ exists av, In (AVar n av) (f_out fr))) eqns tss.
End LinSpec.
