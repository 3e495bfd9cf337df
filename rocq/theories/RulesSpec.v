(** Vocabulary for the properties of rule combinators: children, subexpressions, traversal orders. *)
From Verif Require Export MatcherSpec RulesModel.

(** direct children of an expression, and the same expression with other children *)
Definition kids (v : val) : list val :=
  match v with
  | VNum _ _ | VStr _ | VSeq KList _ => []
  | VSeq KTuple l => l
  | VDict _ vs => vs
  | VNode _ _ k => k
  end.
Definition with_kids (v : val) (l : list val) : val :=
  match v with
  | VNum _ _ | VStr _ | VSeq KList _ => v
  | VSeq KTuple _ => VSeq KTuple l
  | VDict ks _ => VDict ks l
  | VNode c h _ => VNode c h l
  end.
(** [within x v]: x is a subexpression of v (v itself, a child, a child of a child, ...) *)
Inductive within (x : val) : val -> Prop :=
| within_self : within x x
| within_kid : forall v k, In k (kids v) -> within x k -> within x v.
(** an expression made of registered containers only (no Python list as a node) *)
Fixpoint registered (v : val) : Prop :=
  match v with
  | VNum _ _ | VStr _ => True
  | VSeq KTuple l => (fix all l := match l with [] => True | x :: l' => registered x /\ all l' end) l
  | VSeq KList _ => False
  | VDict _ vs => (fix all l := match l with [] => True | x :: l' => registered x /\ all l' end) vs
  | VNode _ _ ks => (fix all l := match l with [] => True | x :: l' => registered x /\ all l' end) ks
  end.
(** an expression with a Python list or dict in it, at any depth, in the fields of a node too: hash(e) raises TypeError *)
Inductive has_mutable : val -> Prop :=
| HM_list : forall l, has_mutable (VSeq KList l)
| HM_dict : forall ks vs, has_mutable (VDict ks vs)
| HM_tuple : forall l x, In x l -> has_mutable x -> has_mutable (VSeq KTuple l)
| HM_field : forall c h k x, In x h -> has_mutable x -> has_mutable (VNode c h k)
| HM_child : forall c h k x, In x k -> has_mutable x -> has_mutable (VNode c h k).
(** nodes, children before parents / parents before children *)
Fixpoint postorder (v : val) : list val :=
  match v with
  | VNum _ _ | VStr _ | VSeq KList _ => [v]
  | VSeq KTuple l => flat_map postorder l ++ [v]
  | VDict _ l => flat_map postorder l ++ [v]
  | VNode _ _ l => flat_map postorder l ++ [v]
  end.
Fixpoint preorder (v : val) : list val :=
  match v with
  | VNum _ _ | VStr _ | VSeq KList _ => [v]
  | VSeq KTuple l => v :: flat_map preorder l
  | VDict _ l => v :: flat_map preorder l
  | VNode _ _ l => v :: flat_map preorder l
  end.

(** a stateless rule; a total one; one that records the expressions it is called on *)
Definition pure (f : val -> result val) : rule unit := fun _ e => (tt, f e).
Definition total (g : val -> val) : rule unit := fun _ e => (tt, inl (g e)).
Definition logging (g : val -> val) : rule (list val) := fun log e => (log ++ [e], inl (g e)).
Definition stateful {S} (r : rule S) (s : S) (e : val) : result val := snd (r s e).

(** the result of rewriting every node once, children first *)
Inductive rewritten_up (g : val -> val) : val -> val -> Prop :=
| rw_up : forall v ws, Forall2 (rewritten_up g) (kids v) ws -> rewritten_up g v (g (with_kids v ws)).
(** ... root first, then the children of its result *)
Inductive rewritten_down (g : val -> val) : val -> val -> Prop :=
| rw_down : forall v ws, Forall2 (rewritten_down g) (kids (g v)) ws -> rewritten_down g v (with_kids (g v) ws).

(** [steps f n e x]: x is obtained from e by n applications of f *)
Fixpoint steps (f : val -> result val) (n : nat) (e : val) (x : val) : Prop :=
  match n with
  | O => x = e
  | Datatypes.S m => exists y, f e = inl y /\ steps f m y x
  end.

(** sequence of calls of one rule object *)
Fixpoint calls {S} (r : rule S) (s : S) (es : list val) : S :=
  match es with [] => s | e :: es' => calls r (fst (r s e)) es' end.

(** a congruence: a relation between expressions that is closed under rewriting children *)
Definition compositional (R : val -> val -> Prop) : Prop :=
  (forall v, R v v) /\ (forall a b c, R a b -> R b c -> R a c) /\
  (forall v l, Forall2 R (kids v) l -> R v (with_kids v l)).

(** a size compatible with contexts: equal expressions have equal size; replacing children by children that are
    not larger, at least one strictly smaller, makes the expression strictly smaller *)
Definition size_like (mu : val -> nat) : Prop :=
  (forall a b, same a b -> mu a = mu b) /\
  (forall v l, Forall2 (fun w k => mu w <= mu k) l (kids v) ->
     mu (with_kids v l) <= mu v /\
     (Exists (fun wk => mu (fst wk) < mu (snd wk)) (combine l (kids v)) -> mu (with_kids v l) < mu v)).
