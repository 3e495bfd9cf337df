(** Model of vmap on programs with sows: the batching rule of sow (harvest.py:223-228), of nest and other call primitives
    (nest_p is a jax_core.CallPrimitive, harvest.py:304-316; jax binds the same primitive to the batched function), and of
    scan, while and cond (jax.interpreters.batching, not part of /repo: their documented effect).

    [vmapT k p] is the program that jax.vmap(p) traces to with k examples: an environment of type A becomes the list of the k
    examples' environments.  Simplifications: every sown array depends on a mapped input and is mapped along its leading axis
    (sow's rule binds unmapped arrays as they are, so that their reaped values have no batch axis, and keeps the batch axis
    where it is: neither is modelled); [Pure], an arbitrary sow-free computation, is mapped over the examples. *)
From Verif Require Export HarvestModel.

Fixpoint mapM {A B} (f : A -> res B) (l : list A) : res (list B) :=
  match l with [] => inl [] | a :: l' => rb (f a) (fun b => rb (mapM f l') (fun bs => inl (b :: bs))) end.
(** the columns of a matrix given by rows of length m *)
Fixpoint transp {X} (m : nat) (l : list (list X)) : list (list X) :=
  match l with [] => repeat [] m | r :: l' => map (fun p => fst p :: snd p) (combine r (transp m l')) end.
Definition columns {X} (m : nat) (l : list (list X)) : res (list (list X)) :=
  if forallb (fun r => Nat.eqb (List.length r) m) l then inl (transp m l) else inr TypeErr.

Section vmap.
  Context {AR : Arrays}.
  Variable k : nat.   (* the number of examples *)

  (** the shapes of batched values: every array of the tree has a new leading axis *)
  Fixpoint batchA (a : aval) : aval :=
    match a with AL x => AS k (AL x) | AD l => AD (map (fun e => (fst e, batchA (snd e))) l) | AS n a => AS k (AS n a) end.
  (** the batched value of the trees ts of shape a: arrays are stacked, dictionaries entry by entry *)
  Definition head_item (r : list (string * tree)) : tree := match r with (_, t) :: _ => t | [] => Dict [] end.
  Definition items (t : tree) : list (string * tree) := match t with Dict l => l | _ => [] end.
  Fixpoint stackA (a : aval) (ts : list tree) {struct a} : tree :=
    match a with
    | AD l => Dict ((fix go (l : list (string * aval)) (rows : list (list (string * tree))) {struct l} : list (string * tree) :=
        match l with [] => [] | (n, b) :: l' => (n, stackA b (map head_item rows)) :: go l' (map (@tl _) rows) end) l (map items ts))
    | _ => Stk ts
    end.
  (** example i of a batched value: every array indexed at i *)
  Fixpoint take (i : nat) (T : tree) : option tree :=
    match T with
    | Leaf _ => None
    | Stk l => nth_error l i
    | Dict l => option_map Dict ((fix go (l : list (string * tree)) : option (list (string * tree)) :=
        match l with
        | [] => Some []
        | (n, t) :: l' => match take i t, go l' with Some u, Some r => Some ((n, u) :: r) | _, _ => None end
        end) l)
    end.
  Definition unstack (T : tree) : res (list tree) := mapM (fun i => match take i T with Some t => inl t | None => inr TypeErr end) (seq 0 k).

  Definition zip {A B} (x : list A * list B) : list (A * B) := combine (fst x) (snd x).
  Definition unzip {A B} (l : list (A * B)) : list A * list B := (map fst l, map snd l).
  (** lax.select with one predicate per example *)
  Definition select {A} (bs : list bool) (l l' : list A) : list A := map (fun x : bool * (A * A) => if fst x then fst (snd x) else snd (snd x)) (combine bs (combine l l')).

  Fixpoint vmapT {A B} (p : prog A B) : prog (list A) (list B) :=
    match p in prog A B return prog (list A) (list B) with
    | Pure f => Pure (mapM f)
    | Seq p q => Seq (vmapT p) (vmapT q)
    | @First _ A B C p => Seq (Pure (fun l : list (A * C) => inl (unzip l))) (Seq (First (list C) (vmapT p)) (Pure (fun x : list B * list C => inl (zip x))))
    (* _sow_batch_rule: harvest.py:223-228, sow_p is bound to the batched arrays with the same parameters *)
    | Sow t n m a => Seq (Pure (fun ts : list tree => rb (mapM (chk a) ts) (fun ts => inl (stackA a ts)))) (Seq (Sow t n m (batchA a)) (Pure unstack))
    (* not modelled: a batched predicate is no scalar, and lax.cond / lax.select (527-530, 722) reject it for most shapes *)
    | SowCond _ _ _ => Pure (fun _ => inr TypeErr)
    | Nest sc p => Nest sc (vmapT p)
    | Call p => Call (vmapT p)
    | @Scan _ C X Y rv len p =>
        Seq (Pure (fun l : list (C * list X) => rb (columns len (map snd l)) (fun cols => inl (map fst l, cols))))
          (Seq (Scan rv len (Seq (Pure (fun x : list C * list X => inl (zip x))) (Seq (vmapT p) (Pure (fun l : list (C * Y) => inl (unzip l))))))
            (Pure (fun x : list C * list (list Y) => inl (combine (fst x) (transp k (snd x))))))
    (* a predicate per example: the loop runs while some example goes on, and the others keep their values *)
    | @While _ C c p =>
        While (fun l => rb (mapM c l) (fun bs => inl (existsb (fun b => b) bs)))
          (Seq (Pure (fun l : list C => rb (mapM c l) (fun bs => inl (l, (bs, l)))))
            (Seq (First (list bool * list C) (vmapT p)) (Pure (fun x : list C * (list bool * list C) => inl (select (fst (snd x)) (fst x) (snd (snd x)))))))
    (* a predicate per example: both branches run, the one for False first (lax.cond passes the branches in this order) *)
    | @Cond _ A B p q =>
        Seq (Pure (fun l : list (bool * A) => inl (map snd l, (map fst l, map snd l))))
          (Seq (First (list bool * list A) (vmapT q))
            (Seq (Pure (fun x : list B * (list bool * list A) => inl (snd (snd x), (fst (snd x), fst x))))
              (Seq (First (list bool * list B) (vmapT p)) (Pure (fun x : list B * (list bool * list B) => inl (select (fst (snd x)) (fst x) (snd (snd x))))))))
    end.
End vmap.
