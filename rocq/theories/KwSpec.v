(** Specification of keyword arguments of stateful functions (C74). *)
From Verif Require Export NnProps KwModel.

Section kw.
Context {PR : Prng}.

(** ** A call of the Python function itself, with keyword arguments: no tracing, no jaxprs *)
Section exec.
Variable pk : kwargs.     (* the values of the parameters *)
Fixpoint exec (s : stmt) (e : env) {struct s} : nres env :=
  let all := fix all (ss : list stmt) (e : env) : nres env := match ss with [] => inl e | s :: ss' => nb (exec s e) (all ss') end in
  match s with
  | SPrim f ins outs => nb (reads e ins) (fun vs => nb (f vs) (writes e outs))
  | SLayer l r args ps outs new =>
      nb (layer_in e l r args) (fun i => nb (call_and_update (fst (fst i)) (snd i) (snd (fst i)) (passed_kw pk ps)) (layer_out e outs new))
  | SCall bins body bouts ins outs =>
      nb (reads e ins) (fun vs => nb (nb (writes [] bins vs) (fun e0 => nb (all body e0) (fun e1 => reads e1 bouts))) (writes e outs))
  | SHigher h bins body bouts ins outs =>
      nb (reads e ins) (fun vs => nb (h (fun vs => nb (writes [] bins vs) (fun e0 => nb (all body e0) (fun e1 => reads e1 bouts))) vs) (writes e outs))
  | SIf n yes no => if truth (kget n pk) then all yes e else all no e
  end.
Fixpoint execs (ss : list stmt) (e : env) : nres env := match ss with [] => inl e | s :: ss' => nb (exec s e) (execs ss') end.
End exec.
Definition call_function (f : func) (vals : list jv) (kw : kwargs) : nres (list jv) :=
  nb (bind_params f kw) (fun pk => nb (writes [] (f_in f) vals) (fun e => nb (execs pk (f_body f) e) (fun e => reads e (f_out f)))).

(** the modules of a function initialised with the keyword arguments kw0: any values of its variables, any calls since *)
Inductive module_of (f : func) (kw0 : kwargs) : fmod -> Prop :=
| M_init vars m : function_module f vars kw0 = inl m -> module_of f kw0 m
| M_call m hj args kw outs m' : module_of f kw0 m -> fcau hj m args kw = inl (outs, m') -> module_of f kw0 m'.

Definition all_of {A} (P : A -> Prop) : list A -> Prop := fix all (l : list A) : Prop := match l with [] => True | x :: l' => P x /\ all l' end.

(** ** The keyword arguments [names] have no influence on a statement's equations *)
Section names.
Variable names : list string.
Fixpoint unaffected (s : stmt) : Prop :=
  match s with
  | SPrim _ _ _ => True
  | SLayer _ _ _ ps _ _ => forall a m, In (a, Param m) ps -> ~ In m names
  | SCall _ body _ _ _ | SHigher _ _ body _ _ _ => all_of unaffected body
  | SIf n yes no => ~ In n names /\ all_of unaffected yes /\ all_of unaffected no
  end.
Definition unaffected_all : list stmt -> Prop := all_of unaffected.
(** a layer whose class does not look at the keyword arguments [names] *)
Definition blind (c : lclass) : Prop := forall p args kw kw', (forall s, ~ In s names -> kget s kw = kget s kw') ->
  c_call c p args (filter_kwargs (c_sig c) kw) = c_call c p args (filter_kwargs (c_sig c) kw') /\
  c_update c p args (filter_kwargs (c_usig c) kw) = c_update c p args (filter_kwargs (c_usig c) kw').
Inductive blind_layer : layer -> Prop :=
| B_leaf c p n : blind c -> blind_layer (Leaf c p n)
| B_serial ls n : Forall blind_layer ls -> blind_layer (Serial ls n).
(** A statement hands the parameters [names] on to its layers: a layer call gets each of them under its own name, and nothing
    else under these names, or its layer is one of the variables [D] of layers that do not look at them; code inside jit, scan
    and so on, and Python's control flow, do not depend on them.  [D] is not reassigned. *)
Definition passes (ps : list (string * source)) : Prop :=
  (forall n, In n names -> In (n, Param n) ps) /\ (forall a s, In (a, s) ps -> In a names -> s = Param a) /\ (forall a m, In (a, Param m) ps -> In m names -> a = m).
Fixpoint hands_on (hj : bool) (D : list nat) (s : stmt) {struct s} : Prop :=
  match s with
  | SPrim _ _ outs => forall x, In x outs -> ~ In x D
  | SLayer l _ _ ps outs new =>
      (passes ps \/ In l D /\ forall a m, In (a, Param m) ps -> In m names -> In a names) /\
      (forall s, ~ In ("rng", s) ps) /\ (forall x, In x (outs ++ [new]) -> ~ In x D)
  | SCall _ body _ _ outs => hj = true /\ all_of (hands_on hj []) body /\ (forall x, In x outs -> ~ In x D)
  | SHigher _ _ body _ _ outs => unaffected_all body /\ (forall x, In x outs -> ~ In x D)
  | SIf n yes no => ~ In n names /\ all_of (hands_on hj D) yes /\
                    all_of (hands_on hj D) no
  end.
Definition hands_on_all (hj : bool) (D : list nat) : list stmt -> Prop := all_of (hands_on hj D).
End names.

(** what eval_jaxpr_with_kwargs is meant to do to a jaxpr: its layer equations, also those inside call primitives, get the keyword
    arguments kw on top of their own; those inside jit, scan, ... do not *)
Section override.
Variable kw : kwargs.
Fixpoint override (q : eqn) : eqn :=
  match q with
  | EPrim f ins outs => q
  | ELayer l r args kw0 outs new => ELayer l r args (kmerge kw0 kw) outs new
  | ECall bins body bouts ins outs => ECall bins (map override body) bouts ins outs
  | EHigher h bins body bouts ins outs => q
  end.
End override.
(** equations that can be evaluated with keyword arguments; layers have no keyword rng of their own (it is a parameter of
    call_and_update) *)
Fixpoint evaluable (hj : bool) (q : eqn) : Prop :=
  match q with
  | ELayer _ _ _ kw _ _ => kget "rng" kw = None
  | ECall _ body _ _ _ => hj = true /\ all_of (evaluable hj) body
  | _ => True
  end.
Definition evaluable_all (hj : bool) : list eqn -> Prop := all_of (evaluable hj).
End kw.
