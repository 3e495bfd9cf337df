(** Python values used as expressions by oryx/experimental/matching.

    [VNum k z]: int / float / bool objects.  Simplification: only integral floats are represented
    (1, 1.0 and True are distinct objects that compare equal, which is what matters for matching and for
    the rule cache).  [VStr s]: str as a list of characters.  [VSeq k l]: tuple or list.
    [VDict ks vs]: dict; simplification: the items are kept in the order of the sorted keys, keys are
    strings (Python dict equality ignores the order and the matcher sorts the keys:
    matcher.py:695-706).
    [VNode c hdr kids]: an instance of an [Expression] subclass (rules.py:324-346) of class [c], whose
    non-child fields are [hdr] and whose children are [kids] (jax_rewrite.py Literal/JaxVar/Primitive/Part
    are of this shape). *)
From Coq Require Export List Arith ZArith Bool String Ascii Lia.
Export ListNotations.

Inductive numkind := KInt | KFloat | KBool.
Inductive seqkind := KTuple | KList.

Inductive val :=
| VNum (k : numkind) (z : Z)
| VStr (s : list ascii)
| VSeq (k : seqkind) (l : list val)
| VDict (ks : list string) (vs : list val)
| VNode (c : string) (hdr : list val) (kids : list val).

Definition seqkind_eqb (a b : seqkind) : bool :=
  match a, b with KTuple, KTuple => true | KList, KList => true | _, _ => false end.

Fixpoint list_eqb {A} (f : A -> A -> bool) (l m : list A) : bool :=
  match l, m with
  | [], [] => true
  | x :: l', y :: m' => f x y && list_eqb f l' m'
  | _, _ => false
  end.

(** Python [==].  Numbers compare by value whatever their type; a tuple never equals a list; dicts compare by
    items; dataclass expressions by class and fields. *)
Fixpoint py_eq (a b : val) {struct a} : bool :=
  match a, b with
  | VNum _ z, VNum _ z' => Z.eqb z z'
  | VStr s, VStr s' => list_eqb Ascii.eqb s s'
  | VSeq k l, VSeq k' l' =>
      seqkind_eqb k k' &&
      (fix go (l m : list val) : bool :=
         match l, m with [], [] => true | x :: l', y :: m' => py_eq x y && go l' m' | _, _ => false end) l l'
  | VDict ks vs, VDict ks' vs' =>
      list_eqb String.eqb ks ks' &&
      (fix go (l m : list val) : bool :=
         match l, m with [], [] => true | x :: l', y :: m' => py_eq x y && go l' m' | _, _ => false end) vs vs'
  | VNode c h k, VNode c' h' k' =>
      String.eqb c c' &&
      (fix go (l m : list val) : bool :=
         match l, m with [], [] => true | x :: l', y :: m' => py_eq x y && go l' m' | _, _ => false end) h h' &&
      (fix go (l m : list val) : bool :=
         match l, m with [], [] => true | x :: l', y :: m' => py_eq x y && go l' m' | _, _ => false end) k k'
  | _, _ => false
  end.

Section val_ind.
  Variable P : val -> Prop.
  Hypothesis Hnum : forall k z, P (VNum k z).
  Hypothesis Hstr : forall s, P (VStr s).
  Hypothesis Hseq : forall k l, Forall P l -> P (VSeq k l).
  Hypothesis Hdict : forall ks vs, Forall P vs -> P (VDict ks vs).
  Hypothesis Hnode : forall c h k, Forall P h -> Forall P k -> P (VNode c h k).
  Fixpoint val_ind' (v : val) : P v :=
    let fl := (fix go (l : list val) : Forall P l :=
                 match l with [] => Forall_nil _ | x :: l' => Forall_cons _ (val_ind' x) (go l') end) in
    match v with
    | VNum k z => Hnum k z
    | VStr s => Hstr s
    | VSeq k l => Hseq k l (fl l)
    | VDict ks vs => Hdict ks vs (fl vs)
    | VNode c h k => Hnode c h k (fl h) (fl k)
    end.
End val_ind.

(** Erasing the numeric types: two values are Python-equal iff their erasures are identical. *)
Fixpoint canon (v : val) : val :=
  match v with
  | VNum _ z => VNum KInt z
  | VStr s => VStr s
  | VSeq k l => VSeq k (map canon l)
  | VDict ks vs => VDict ks (map canon vs)
  | VNode c h k => VNode c (map canon h) (map canon k)
  end.

Lemma list_eqb_spec {A} (f : A -> A -> bool) :
  (forall x y, f x y = true <-> x = y) -> forall l m, list_eqb f l m = true <-> l = m.
Proof.
  intros Hf l. induction l as [|x l IH]; intros [|y m]; simpl; split; intros H; try congruence.
  - apply andb_true_iff in H as [H1 H2]. apply Hf in H1. apply IH in H2. congruence.
  - injection H as -> ->. apply andb_true_iff. split; [now apply Hf | now apply IH].
Qed.

Lemma list_eqb_refl {A} (f : A -> A -> bool) : (forall x, f x x = true) -> forall l, list_eqb f l l = true.
Proof. intros Hf l. induction l; simpl; auto. rewrite Hf; auto. Qed.

Lemma py_eq_go l : Forall (fun a => forall b, py_eq a b = true <-> canon a = canon b) l ->
  forall m,
  (fix go (l m : list val) : bool :=
     match l, m with [], [] => true | x :: l', y :: m' => py_eq x y && go l' m' | _, _ => false end) l m = true
  <-> map canon l = map canon m.
Proof.
  induction 1 as [|x l Hx Hl IH]; intros [|y m]; simpl; split; intros HH; try congruence.
  - apply andb_true_iff in HH as [H1 H2]. apply Hx in H1. apply IH in H2. congruence.
  - injection HH as H1 H2. apply andb_true_iff. split; [now apply Hx | now apply IH].
Qed.

Lemma py_eq_canon a : forall b, py_eq a b = true <-> canon a = canon b.
Proof.
  induction a using val_ind'; intros [k' z'|s'|k' l'|ks' vs'|c' h' kk']; simpl;
    try (split; intros HH; congruence).
  - rewrite Z.eqb_eq. split; congruence.
  - rewrite (list_eqb_spec Ascii.eqb Ascii.eqb_eq). split; congruence.
  - rewrite andb_true_iff, py_eq_go by assumption.
    destruct k, k'; simpl; split; try intros [? ?]; try intros HH; try congruence; split; congruence.
  - rewrite andb_true_iff, py_eq_go, (list_eqb_spec String.eqb String.eqb_eq) by assumption.
    split; [intros [? ?]; congruence | intros HH; split; congruence].
  - rewrite !andb_true_iff, !py_eq_go, String.eqb_eq by assumption.
    split; [intros [[? ?] ?]; congruence | intros HH; repeat split; congruence].
Qed.

Lemma py_eq_refl v : py_eq v v = true.
Proof. now apply py_eq_canon. Qed.
Lemma py_eq_sym a b : py_eq a b = py_eq b a.
Proof. apply eq_true_iff_eq. rewrite !py_eq_canon. split; congruence. Qed.
Lemma py_eq_trans a b c : py_eq a b = true -> py_eq b c = true -> py_eq a c = true.
Proof. rewrite !py_eq_canon. congruence. Qed.

(** Bindings dictionaries [Dict[str, Expr]]: association lists read left to right; assignment replaces. *)
Definition bindings := list (string * val).
Fixpoint dget {A} (b : list (string * A)) (x : string) : option A :=
  match b with
  | [] => None
  | (y, v) :: b' => if String.eqb x y then Some v else dget b' x
  end.
Fixpoint dset {A} (b : list (string * A)) (x : string) (v : A) : list (string * A) :=
  match b with
  | [] => [(x, v)]
  | (y, w) :: b' => if String.eqb x y then (y, v) :: b' else (y, w) :: dset b' x v
  end.
(** [dict(a, **b)]: entries of b override / extend a. *)
Definition dmerge {A} (a b : list (string * A)) : list (string * A) :=
  fold_left (fun acc kv => dset acc (fst kv) (snd kv)) b a.
Definition mem (x : string) (l : list string) : bool := existsb (String.eqb x) l.

Lemma dget_dset {A} (b : list (string * A)) x v y :
  dget (dset b x v) y = if String.eqb y x then Some v else dget b y.
Proof.
  induction b as [|[z w] b IH]; simpl; [reflexivity|].
  destruct (String.eqb_spec x z) as [->|Hxz]; simpl.
  - destruct (String.eqb_spec y z); reflexivity.
  - rewrite IH. destruct (String.eqb_spec y z) as [->|]; [|reflexivity].
    destruct (String.eqb_spec z x); congruence.
Qed.
Lemma mem_In x l : mem x l = true <-> In x l.
Proof.
  unfold mem. rewrite existsb_exists. split.
  - intros (y & Hy & He). apply String.eqb_eq in He. congruence.
  - intros H. exists x. split; [assumption | apply String.eqb_refl].
Qed.
Lemma mem_not_In x l : mem x l = false <-> ~ In x l.
Proof. rewrite <- mem_In. destruct (mem x l); split; congruence. Qed.
