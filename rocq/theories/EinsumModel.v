(** Model of oryx/experimental/autoconj/einsum.py and of the linear primitives of canonicalize.py.

    Simplification: an einsum formula string 'ab,bc->ac' is represented by what split_einsum_formula
    (einsum.py:149-152) makes of it: the list of input index strings and the output index string. *)
From Coq Require Export String Ascii.
From Verif Require Export MatcherModel Tensor.

Definition rb' {A B} (x : result A) (f : A -> result B) : result B := match x with inl a => f a | inr e => inr e end.

Record formula := mk_formula { fins : list (list ascii); fout : list ascii }.

(** _EINSUM_RANGE, einsum.py:57 *)
Definition einsum_letters : list ascii :=
  list_ascii_of_string "abcdefghijklmnopqrstuvwxyzABCDEFGHIJKLMNOPQRSTUVWXYZ".

(** ** jnp.einsum (reference semantics) *)
Section einsum.
  Variables (K : Type) (k0 k1 : K) (kadd kmul : K -> K -> K).

  Definition pairs (ins : list (list ascii)) (ops : list (array K)) : list (ascii * nat) :=
    flat_map (fun io => combine (fst io) (shape (snd io))) (combine ins ops).
  Fixpoint dim_of (ps : list (ascii * nat)) (l : ascii) : nat :=
    match ps with [] => 0 | (x, n) :: ps' => if ascii_dec l x then n else dim_of ps' l end.
  Definition letters (ins : list (list ascii)) : list ascii := nodup ascii_dec (concat ins).
  Definition summed (ins : list (list ascii)) (out : list ascii) : list ascii :=
    filter (fun l => if in_dec ascii_dec l out then false else true) (letters ins).
  Definition nodupb (l : list ascii) : bool := if list_eq_dec ascii_dec (nodup ascii_dec l) l then true else false.
  (** ranks match, sizes are consistent, output letters are distinct and occur in the inputs *)
  Definition einsum_ok (ins : list (list ascii)) (out : list ascii) (ops : list (array K)) : bool :=
    Nat.eqb (List.length ins) (List.length ops) &&
    forallb (fun io => Nat.eqb (List.length (fst io)) (List.length (shape (snd io)))) (combine ins ops) &&
    forallb (fun ln => Nat.eqb (dim_of (pairs ins ops) (fst ln)) (snd ln)) (pairs ins ops) &&
    nodupb out && forallb (fun l => if in_dec ascii_dec l (concat ins) then true else false) out.
  Definition term (ins : list (list ascii)) (ops : list (array K)) (s : ascii -> nat) : K :=
    prod K k1 kmul (map (fun io => get k0 (snd io) (map s (fst io))) (combine ins ops)).
  (** out[ix] = sum over all values of the other letters of the product of the operands *)
  Definition einsum (f : formula) (ops : list (array K)) : result (array K) :=
    if einsum_ok (fins f) (fout f) ops then
      let d := dim_of (pairs (fins f) ops) in
      inl (tabulate (map d (fout f)) (fun ix =>
        sumL K k0 kadd ascii_dec (summed (fins f) (fout f)) d (assign ascii_dec (fout f) ix) (term (fins f) ops)))
    else inr ValueErr.
End einsum.

(** ** compose_einsums, einsum.py:162-238 *)

(** keys of subs_map: 'i' (parent) and 'i_child' *)
Inductive key := KP (l : ascii) | KC (l : ascii).
Definition key_dec (x y : key) : {x = y} + {x <> y}.
Proof. decide equality; apply ascii_dec. Defined.
Arguments key_dec _ _ : simpl never.
Definition smap := list (key * ascii).
Fixpoint mget (M : smap) (k : key) : option ascii :=
  match M with [] => None | (k', a) :: M' => if key_dec k k' then Some a else mget M' k end.
(** subs_map and the iterator of unused letters (einsum.py:210-213) *)
Definition sstate := (smap * list ascii)%type.
(** [subs_map[k]]: defaultdict access; next() on the exhausted iterator inside a generator raises RuntimeError *)
Definition access (k : key) (st : sstate) : result (ascii * sstate) :=
  match mget (fst st) k with
  | Some a => inl (a, st)
  | None => match snd st with [] => inr RuntimeErr | a :: rem => inl (a, ((k, a) :: fst st, rem)) end
  end.
(** [''.join(subs_map[..idx..] for idx in subs)] *)
Fixpoint access_all (mk : ascii -> key) (ls : list ascii) (st : sstate) : result (list ascii * sstate) :=
  match ls with
  | [] => inl ([], st)
  | l :: ls' => rb' (access (mk l) st) (fun r => rb' (access_all mk ls' (snd r)) (fun r' => inl (fst r :: fst r', snd r')))
  end.
Fixpoint access_alls (mk : ascii -> key) (lss : list (list ascii)) (st : sstate) : result (list (list ascii) * sstate) :=
  match lss with
  | [] => inl ([], st)
  | ls :: lss' => rb' (access_all mk ls st) (fun r => rb' (access_alls mk lss' (snd r)) (fun r' => inl (fst r :: fst r', snd r')))
  end.
(** [subs_map.update((pidx + '_child', subs_map[idx]) for pidx, idx in zip(child_out, old_in))], einsum.py:224-225 *)
Fixpoint link (cl : list (ascii * ascii)) (st : sstate) : result sstate :=
  match cl with
  | [] => inl st
  | (c, l) :: cl' => rb' (access (KP l) st) (fun r => link cl' ((KC c, fst r) :: fst (snd r), snd (snd r)))
  end.

Definition compose_formula (parent : formula) (num_left : nat) (child : formula) : result formula :=
  match nth_error (fins parent) num_left with
  | None => inr IndexErr
  | Some old_in =>
      if Nat.eqb (List.length (fout child)) (List.length old_in) then
        let pins := firstn num_left (fins parent) ++ skipn (S num_left) (fins parent) in      (* 212-213 *)
        rb' (access_alls KP pins ([], einsum_letters)) (fun r1 =>                               (* 215-217 *)
          rb' (access_all KP (fout parent) (snd r1)) (fun r2 =>                                 (* 218 *)
            rb' (link (combine (fout child) old_in) (snd r2)) (fun st3 =>                       (* 220-221 *)
              rb' (access_alls KC (fins child) st3) (fun r4 =>                                  (* 223-227 *)
                inl (mk_formula (firstn num_left (fst r1) ++ fst r4 ++ skipn num_left (fst r1)) (fst r2))))))
      else inr ValueErr
  end.

(** ** canonicalize.py handlers producing einsum formulas *)
Definition nth_letter (l : list ascii) (i : nat) : result ascii :=
  match nth_error l i with Some a => inl a | None => inr IndexErr end.
Fixpoint letters_at (l : list ascii) (is : list nat) : result (list ascii) :=
  match is with [] => inl [] | i :: is' => rb' (nth_letter l i) (fun a => rb' (letters_at l is') (fun r => inl (a :: r))) end.
Definition memn (i : nat) (l : list nat) : bool := existsb (Nat.eqb i) l.

(** transpose_as_einsum, canonicalize.py:85-91 *)
Definition transpose_formula (ndim : nat) (perm : list nat) : result formula :=
  let x := firstn ndim einsum_letters in rb' (letters_at x perm) (fun o => inl (mk_formula [x] o)).
(** squeeze_as_einsum, canonicalize.py:97-104, and reduce_sum_as_einsum, canonicalize.py:132-140: the output keeps
    the dimensions that are not listed *)
Definition drop_formula (ndim : nat) (dims : list nat) : result formula :=
  let x := firstn ndim einsum_letters in
  rb' (letters_at x (filter (fun i => negb (memn i dims)) (seq 0 ndim))) (fun o => inl (mk_formula [x] o)).
(** the loop [y_dims[y_dim] = x_dims[x_dim]], canonicalize.py:119-120 *)
Fixpoint set_nth (l : list ascii) (i : nat) (a : ascii) : result (list ascii) :=
  match l, i with
  | [], _ => inr IndexErr
  | _ :: l', O => inl (a :: l')
  | x :: l', S i' => rb' (set_nth l' i' a) (fun r => inl (x :: r))
  end.
Fixpoint share (x y : list ascii) (ds : list (nat * nat)) : result (list ascii) :=
  match ds with
  | [] => inl y
  | (i, j) :: ds' => rb' (nth_letter x i) (fun a => rb' (set_nth y j a) (fun y' => share x y' ds'))
  end.
Definition mema (a : ascii) (l : list ascii) : bool := if in_dec ascii_dec a l then true else false.
(** dot_as_einsum, canonicalize.py:110-126 *)
Definition dot_formula (nx ny : nat) (xc yc xb yb : list nat) : result formula :=
  let x := firstn nx einsum_letters in
  let y0 := firstn ny (skipn nx einsum_letters) in
  rb' (share x y0 (combine (xc ++ xb) (yc ++ yb))) (fun y =>
    rb' (letters_at x xb) (fun ob =>
      inl (mk_formula [x; y] (ob ++ filter (fun a => negb (mema a y)) x ++ filter (fun a => negb (mema a x)) y)))).

(** ** lax primitives (reference semantics).  Position-indexed versions of the same sums.  *)
Section lax.
  Variables (K : Type) (k0 k1 : K) (kadd kmul : K -> K -> K).
  Notation sumP := (sumL K k0 kadd Nat.eq_dec).
  Notation dimP := (fun (a : array K) (i : nat) => nth i (shape a) 0).
  Definition ndim (a : array K) : nat := List.length (shape a).

  (** lax.transpose: out[ix] = x[jx] where jx[perm[i]] = ix[i] *)
  Definition lax_transpose (perm : list nat) (x : array K) : array K :=
    tabulate (map (dimP x) perm) (fun ix => get k0 x (map (assign Nat.eq_dec perm ix) (seq 0 (ndim x)))).
  Definition kept (n : nat) (dims : list nat) : list nat := filter (fun i => negb (memn i dims)) (seq 0 n).
  (** lax.squeeze: the listed dimensions, of size 1, disappear; out[ix] = x[jx], jx = ix on the kept positions and 0 on
      the squeezed ones *)
  Definition lax_squeeze (dims : list nat) (x : array K) : array K :=
    tabulate (map (dimP x) (kept (ndim x) dims))
      (fun ix => get k0 x (map (assign Nat.eq_dec (kept (ndim x) dims) ix) (seq 0 (ndim x)))).
  (** lax.reduce_sum: out[ix] = sum of x[jx] over all values of the reduced positions *)
  Definition lax_reduce_sum (axes : list nat) (x : array K) : array K :=
    tabulate (map (dimP x) (kept (ndim x) axes))
      (fun ix => sumP (filter (fun i => memn i axes) (seq 0 (ndim x))) (dimP x) (assign Nat.eq_dec (kept (ndim x) axes) ix)
                   (fun s => get k0 x (map s (seq 0 (ndim x))))).
  (** lax.dot_general: out[b.. , i.., j..] = sum over c of x[b,i,c] * y[b,j,c]; batch dimensions first, then the free
      dimensions of x, then those of y.  [s] assigns values to the positions of x; the positions of y that are
      contracted or batched take the values of the corresponding positions of x. *)
  Definition free (n : nat) (used : list nat) : list nat := filter (fun i => negb (memn i used)) (seq 0 n).
  Fixpoint pos_of (j : nat) (js is : list nat) : option nat :=
    match js, is with
    | j' :: js', i :: is' => if Nat.eq_dec j j' then Some i else pos_of j js' is'
    | _, _ => None
    end.
  Definition lax_dot_general (xc yc xb yb : list nat) (x y : array K) : array K :=
    let fx := free (ndim x) (xc ++ xb) in
    let fy := free (ndim y) (yc ++ yb) in
    tabulate (map (dimP x) xb ++ map (dimP x) fx ++ map (dimP y) fy) (fun ix =>
      let nb := List.length xb in let nf := List.length fx in
      let s0 := assign Nat.eq_dec (xb ++ fx) (firstn (nb + nf) ix) in
      let t0 := assign Nat.eq_dec fy (skipn (nb + nf) ix) in
      sumP xc (dimP x) s0 (fun s =>
        kmul (get k0 x (map s (seq 0 (ndim x))))
             (get k0 y (map (fun j => match pos_of j (yc ++ yb) (xc ++ xb) with Some i => s i | None => t0 j end) (seq 0 (ndim y)))))).
End lax.
