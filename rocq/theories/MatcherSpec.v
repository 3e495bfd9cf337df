(** Declarative meaning of patterns (no continuations, no search, no order of evaluation).
    An assignment gives values to names; [fits s p e] says that reading the names of [p] as in [s] the value
    [e] is an instance of the pattern [p]. *)
From Verif Require Export MatcherModel.

Definition env := string -> option val.
Definition same (v w : val) : Prop := py_eq v w = true.          (* Python == *)
Definition extends (s s' : env) : Prop := forall x v, s x = Some v -> s' x = Some v.
(** [s'] assigns to every name of [s] an equal value *)
Definition below (s s' : env) : Prop := forall x v, s x = Some v -> exists w, s' x = Some w /\ same v w.

Definition named (s : env) (name : option string) (e : val) : Prop :=
  match name with None => True | Some x => exists v, s x = Some v /\ same v e end.
(** the values that the assignments [ss] give to [a], in order *)
Definition collect (a : string) (ss : list env) : list val :=
  flat_map (fun s => match s a with Some v => [v] | None => [] end) ss.

Fixpoint fits (s : env) (p : pat) (e : val) {struct p} : Prop :=
  let fseq := (fix fseq (sk : sliceof) (ps : list pat) (es : list val) : Prop :=
    match ps with
    | [] => es = []
    | p1 :: ps' =>
        match p1 with
        | PStar q name acc _ plus =>
            (* some segment, non-empty for Plus, equal to the value of [name], each of whose elements is an
               instance of [q] under the same values of all names, except the accumulated names, which may vary
               from element to element and whose values are collected in a tuple *)
            exists seg rest ss,
              es = seg ++ rest /\ (plus = true -> seg <> []) /\ named s name (mk_slice sk seg) /\
              Forall2 (fun si ei => (forall x, ~ In x acc -> si x = s x) /\ fits si q ei) ss seg /\
              (forall a, In a acc -> collect a ss <> [] -> named s (Some a) (VSeq KTuple (collect a ss))) /\
              fseq sk ps' rest
        | _ => exists e1 es', es = e1 :: es' /\ fits s p1 e1 /\ fseq sk ps' es'
        end
    end) in
  match p with
  | PNum k z => same e (VNum k z)
  | PStr t => e = VStr t
  | PSeq _ ps => exists sk es, as_seq e = Some (sk, es) /\ fseq sk ps es
  | PDict ks ps => exists vs, e = VDict ks vs /\ fseq SlTuple ps vs
  | PNode c hp kp => exists h kids, e = VNode c h kids /\
                       fits s hp (VSeq KTuple h) /\ fits s kp (VSeq KTuple kids)
  | PVar name restr => Forall (fun r => r e = true) restr /\ named s name e
  | PNot q => forall s', extends s s' -> ~ fits s' q e
  | PChoice ps name => named s name e /\
      (fix any (ps : list pat) : Prop := match ps with [] => False | q :: ps' => fits s q e \/ any ps' end) ps
  | PStar _ _ _ _ _ => False
  end.

(** ** Syntactic side conditions, as decidable predicates on patterns *)

Definition onl (o : option string) : list string := match o with Some x => [x] | None => [] end.
Definition disjoint (l m : list string) : Prop := forall x, In x l -> ~ In x m.

(** all names occurring in a pattern *)
Fixpoint names (p : pat) : list string :=
  match p with
  | PNum _ _ | PStr _ => []
  | PSeq _ ps | PDict _ ps => flat_map names ps
  | PNode _ a b => names a ++ names b
  | PVar n _ => onl n
  | PNot q => names q
  | PChoice ps n => onl n ++ flat_map names ps
  | PStar q n acc _ _ => onl n ++ acc ++ names q
  end.
(** names of Stars and Choices and accumulated names *)
Fixpoint specials (p : pat) : list string :=
  match p with
  | PNum _ _ | PStr _ | PVar _ _ => []
  | PSeq _ ps | PDict _ ps => flat_map specials ps
  | PNode _ a b => specials a ++ specials b
  | PNot q => specials q
  | PChoice ps n => onl n ++ flat_map specials ps
  | PStar q n acc _ _ => onl n ++ acc ++ specials q
  end.
(** names that every successful match binds *)
Fixpoint sure (p : pat) : list string :=
  match p with
  | PNum _ _ | PStr _ | PNot _ => []
  | PSeq _ ps | PDict _ ps => flat_map sure ps
  | PNode _ a b => sure a ++ sure b
  | PVar n _ => onl n
  | PChoice _ n => onl n
  | PStar _ n _ _ _ => onl n
  end.
Fixpoint choice_free (p : pat) : Prop :=
  match p with
  | PNum _ _ | PStr _ | PVar _ _ => True
  | PSeq _ ps | PDict _ ps => (fix all (l : list pat) := match l with [] => True | q :: l' => choice_free q /\ all l' end) ps
  | PNode _ a b => choice_free a /\ choice_free b
  | PNot q => choice_free q
  | PChoice _ _ => False
  | PStar q _ _ _ _ => choice_free q
  end.

(** [tame p]: Stars occur only as elements of sequences (or dict values); the name of a Star or Choice and an
    accumulated name is used nowhere to the left of its Star/Choice, and inside a Star only for accumulation. *)
Fixpoint tame (p : pat) : Prop :=
  let all := (fix all (l : list pat) : Prop :=
    match l with
    | [] => True
    | q :: l' =>
        match q with
        | PStar r n acc _ _ => tame r /\ incl (specials r) acc /\ disjoint (onl n) (acc ++ names r) 
        | _ => tame q
        end /\ disjoint (flat_map specials l') (names q) /\ all l'
    end) in
  match p with
  | PNum _ _ | PStr _ | PVar _ _ => True
  | PSeq _ ps | PDict _ ps => all ps
  | PNode _ a b => tame a /\ tame b /\ disjoint (specials b) (names a)
  | PNot q => tame q
  | PChoice ps n =>
      (fix alts (l : list pat) : Prop :=
         match l with [] => True | q :: l' => tame q /\ disjoint (specials q) (onl n) /\ alts l' end) ps
  | PStar _ _ _ _ _ => False
  end.

(** [scoped full B p]: conditions on Not, relative to a set [B] of names already bound to the left.
    With [full = true]: inside a Star there is no Choice and accumulated names are always bound by the element
    pattern, and a Not mentions only names of [B]; with [full = false] only patterns below a Not are
    restricted like that. *)
Fixpoint scoped (full : bool) (B : list string) (p : pat) : Prop :=
  let all := (fix all (B : list string) (l : list pat) : Prop :=
    match l with
    | [] => True
    | q :: l' =>
        match q with
        | PStar r n acc _ _ => scoped full B r /\ (full = true -> choice_free r /\ incl acc (sure r))
        | _ => scoped full B q
        end /\ all (B ++ sure q) l'
    end) in
  match p with
  | PNum _ _ | PStr _ | PVar _ _ => True
  | PSeq _ ps | PDict _ ps => all B ps
  | PNode _ a b => scoped full B a /\ scoped full (B ++ sure a) b
  | PNot q => scoped true B q /\ (full = true -> incl (names q) B)
  | PChoice ps n =>
      (fix alts (l : list pat) : Prop := match l with [] => True | q :: l' => scoped full (B ++ onl n) q /\ alts l' end) ps
  | PStar _ _ _ _ _ => True
  end.
