(** Model of oryx/experimental/matching/rules.py.
    A rule is a Python callable: it takes an expression and returns one or raises; a rule built by [make_rule]
    also has a mutable cache, so rules are state-passing functions over an arbitrary state [S]. *)
From Verif Require Export MatcherModel.

Definition rule (S : Type) : Type := S -> val -> S * result val.
Definition rret {S} (s : S) (v : val) : S * result val := (s, inl v).
Definition rbind {S A B} (x : S * result A) (f : S -> A -> S * result B) : S * result B :=
  match x with (s, inl v) => f s v | (s, inr e) => (s, inr e) end.

(** [tuple(map(fn, expr))], the values of [{k: fn(v) for k, v in expr.items()}] *)
Definition mapM {S} (f : rule S) : S -> list val -> S * result (list val) :=
  fix go (s : S) (l : list val) : S * result (list val) :=
    match l with
    | [] => (s, inl [])
    | x :: l' => rbind (f s x) (fun s1 y => rbind (go s1 l') (fun s2 ys => (s2, inl (y :: ys))))
    end.

(** tree_map, rules.py:277-346.  A [VNode]'s tree_map maps its children (jax_rewrite.py: Literal 308, JaxVar 368,
    Primitive 496, Part 557, BoundExpression 604, CallPrimitive 659).  Lists are not registered.
    Simplification: dict values are visited in sorted key order. *)
Definition tree_map {S} (v : val) (f : rule S) (s : S) : S * result val :=
  match v with
  | VNum _ _ | VStr _ => rret s v
  | VSeq KTuple l => rbind (mapM f s l) (fun s' l' => rret s' (VSeq KTuple l'))
  | VSeq KList _ => (s, inr NotImplErr)
  | VDict ks vs => rbind (mapM f s vs) (fun s' vs' => rret s' (VDict ks vs'))
  | VNode c h kids => rbind (mapM f s kids) (fun s' kids' => rret s' (VNode c h kids'))
  end.

(** hash(expr) succeeds *)
Fixpoint hashable (v : val) : bool :=
  match v with
  | VNum _ _ | VStr _ => true
  | VSeq KTuple l => forallb hashable l
  | VSeq KList _ | VDict _ _ => false
  | VNode _ h kids => forallb hashable h && forallb hashable kids
  end.

(** functools.lru_cache(None): the table, newest entry last; keys are compared with == except that an exact int or
    str argument is its own key and therefore never collides with an argument of another type. *)
Definition cache := list (val * val).
Definition fast_key (v : val) : bool :=
  match v with VNum KInt _ | VStr _ => true | _ => false end.
Definition key_eq (a b : val) : bool := Bool.eqb (fast_key a) (fast_key b) && py_eq a b.
Fixpoint lookup (c : cache) (v : val) : option val :=
  match c with [] => None | (k, w) :: c' => if key_eq k v then Some w else lookup c' v end.

Definition handler := bindings -> result val.

(** the body of the rule made by make_rule, rules.py:364-371; MatchErr raised by the handler is caught too *)
Definition rule_body (p : pat) (h : handler) (e : val) : result val :=
  match (match match_ p e with inl b => h b | inr er => inr er end) with
  | inl v => inl v
  | inr MatchErr => inl e
  | inr er => inr er
  end.

(** make_rule, rules.py:349-373.  Exceptions are not cached. *)
Definition make_rule (p : pat) (h : handler) : rule cache := fun c e =>
  if hashable e then
    match lookup c e with
    | Some v => (c, inl v)
    | None => match rule_body p h e with
              | inl v => (c ++ [(e, v)], inl v)
              | inr er => (c, inr er)
              end
    end
  else (c, inr TypeErr).

(** rule_list, rules.py:376-387 *)
Fixpoint rule_list {S} (rs : list (rule S)) : rule S := fun s e =>
  match rs with
  | [] => rret s e
  | r :: rs' => rbind (r s e) (fun s' e' => if negb (py_eq e' e) then rret s' e' else rule_list rs' s' e)
  end.

(** in_order, rules.py:390-398 *)
Fixpoint in_order {S} (rs : list (rule S)) : rule S := fun s e =>
  match rs with
  | [] => rret s e
  | r :: rs' => rbind (r s e) (fun s' e' => in_order rs' s' e')
  end.

(** iterated, rules.py:401-411; [None] = still running after [fuel] iterations *)
Fixpoint iterated {S} (r : rule S) (fuel : nat) (s : S) (e : val) : option (S * result val) :=
  match fuel with
  | O => None
  | Datatypes.S n =>
      match r s e with
      | (s', inl e') => if py_eq e e' then Some (s', inl e') else iterated r n s' e'
      | (s', inr er) => Some (s', inr er)
      end
  end.

(** rewrite_subexpressions, rules.py:414-420 *)
Definition rewrite_subexpressions {S} (r : rule S) : rule S := fun s e => tree_map e r s.

(** bottom_up, rules.py:423-429 (the recursion is on subexpressions, hence structural) *)
Fixpoint bottom_up {S} (r : rule S) (s : S) (e : val) {struct e} : S * result val :=
  rbind (match e with
         | VNum _ _ | VStr _ => rret s e
         | VSeq KTuple l => rbind (mapM (bottom_up r) s l) (fun s' l' => rret s' (VSeq KTuple l'))
         | VSeq KList _ => (s, inr NotImplErr)
         | VDict ks vs => rbind (mapM (bottom_up r) s vs) (fun s' vs' => rret s' (VDict ks vs'))
         | VNode c h kids => rbind (mapM (bottom_up r) s kids) (fun s' kids' => rret s' (VNode c h kids'))
         end) r.
Lemma bottom_up_eq {S} (r : rule S) s e :
  bottom_up r s e = rbind (rewrite_subexpressions (bottom_up r) s e) r.
Proof. destruct e as [| |[]| |]; reflexivity. Qed.

(** top_down, rules.py:432-438; recursion on the result of the rule, which may be larger: [fuel] bounds the depth,
    [None] = deeper *)
Definition omapM {S} (f : S -> val -> option (S * result val)) :=
  fix go (s : S) (l : list val) : option (S * result (list val)) :=
    match l with
    | [] => Some (s, inl [])
    | x :: l' =>
        match f s x with
        | None => None
        | Some (s1, inr er) => Some (s1, inr er)
        | Some (s1, inl y) =>
            match go s1 l' with
            | None => None
            | Some (s2, inr er) => Some (s2, inr er)
            | Some (s2, inl ys) => Some (s2, inl (y :: ys))
            end
        end
    end.
Fixpoint top_down {S} (r : rule S) (fuel : nat) (s : S) (e : val) {struct fuel} : option (S * result val) :=
  match fuel with
  | O => None
  | Datatypes.S n =>
      let re f (x : option (S * result (list val))) :=
        match x with
        | None => None
        | Some (s2, inr er) => Some (s2, inr er)
        | Some (s2, inl l) => Some (s2, inl (f l))
        end in
      match r s e with
      | (s1, inr er) => Some (s1, inr er)
      | (s1, inl e1) =>
          match e1 with
          | VNum _ _ | VStr _ => Some (s1, inl e1)
          | VSeq KTuple l => re (VSeq KTuple) (omapM (top_down r n) s1 l)
          | VSeq KList _ => Some (s1, inr NotImplErr)
          | VDict ks vs => re (VDict ks) (omapM (top_down r n) s1 vs)
          | VNode c h kids => re (VNode c h) (omapM (top_down r n) s1 kids)
          end
      end
  end.

(** term_rewriter, rules.py:441-443 *)
Definition term_rewriter {S} (rs : list (rule S)) : nat -> S -> val -> option (S * result val) :=
  iterated (bottom_up (rule_list rs)).
