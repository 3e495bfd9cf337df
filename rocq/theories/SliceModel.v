(** Model of oryx/core/interpreters/inverse/slice.py and of the cells of inverse/core.py. *)
From Verif Require Export PropModel.

(** ** Arrays: a shape and the element at every index.  Elements at indices out of range are meaningless. *)
Record arr (V : Type) := mk_arr { a_shape : list nat; a_get : list nat -> V }.
Arguments mk_arr {V}. Arguments a_shape {V}. Arguments a_get {V}.
(** i is an index of an array of shape sh *)
Definition inb (sh i : list nat) : Prop := Forall2 Peano.lt i sh.
Definition list_eqb {X} (eqb : X -> X -> bool) : list X -> list X -> bool :=
  fix go (a b : list X) : bool := match a, b with [], [] => true | x :: a', y :: b' => eqb x y && go a' b' | _, _ => false end.
Definition shape_eqb : list nat -> list nat -> bool := list_eqb Nat.eqb.
(** jnp.concatenate([a, b], axis=d); the check that the other dimensions agree is left out *)
Fixpoint add_at (d n : nat) (l : list nat) {struct l} : list nat := match l, d with [], _ => [] | x :: l', 0 => x + n :: l' | x :: l', S d' => x :: add_at d' n l' end.
Fixpoint sub_at (d n : nat) (l : list nat) {struct l} : list nat := match l, d with [], _ => [] | x :: l', 0 => x - n :: l' | x :: l', S d' => x :: sub_at d' n l' end.
Definition cat {V} (d : nat) (a b : arr V) : arr V :=
  let n := nth d (a_shape a) 0 in
  mk_arr (add_at d (nth d (a_shape b) 0) (a_shape a)) (fun i => if nth d i 0 <? n then a_get a i else a_get b (sub_at d n i)).

(** ** slice.py *)
(** Slice: slice.py:28-43.  Bounds are natural numbers (they come from lax.slice parameters and shapes). *)
Definition slice := (nat * nat)%type.
Definition start (s : slice) : nat := fst s.
Definition stop (s : slice) : nat := snd s.
Definition slice_lt (s o : slice) : bool := ((start o <? start s) && (stop s <=? stop o)) || ((start o <=? start s) && (stop s <? stop o)).
Definition slice_eqb (s o : slice) : bool := (start s =? start o) && (stop s =? stop o).

Section Slices.
  Variables V W : Type.   (* elements of values and of ILDJs *)
  (** NDSlice: slice.py:45-87 *)
  Record ndslice := mk_nd { nd_value : arr V; nd_ildj : arr W; nd_slices : list slice }.
  Definition nd_eqb (s o : ndslice) : bool := list_eqb slice_eqb (nd_slices s) (nd_slices o).
  (** NDSlice.__lt__: 89-111.  Comparing different numbers of dimensions raises; here it gives False. *)
  Fixpoint slices_lt (acc : bool) (l1 l2 : list slice) : bool :=
    match l1, l2 with
    | s1 :: l1', s2 :: l2' =>
        if slice_eqb s1 s2 then slices_lt acc l1' l2'
        else let acc' := acc || slice_lt s1 s2 in if slice_lt s2 s1 then false else slices_lt acc' l1' l2'
    | [], [] => acc
    | _, _ => false
    end.
  Definition nd_lt (s o : ndslice) : bool := slices_lt false (nd_slices s) (nd_slices o).
  (** NDSlice.can_concatenate: 113-141 *)
  Fixpoint slices_can (d : nat) (l1 l2 : list slice) {struct l1} : bool :=
    match l1, l2 with
    | [], [] => true
    | s1 :: l1', s2 :: l2' => match d with 0 => (stop s1 =? start s2) && list_eqb slice_eqb l1' l2' | S d' => slice_eqb s1 s2 && slices_can d' l1' l2' end
    | _, _ => false
    end.
  Definition can_concatenate (s o : ndslice) (d : nat) : bool := slices_can d (nd_slices s) (nd_slices o).
  (** NDSlice.concatenate: 143-176, when can_concatenate holds and d is a dimension *)
  Fixpoint slices_cat (d : nat) (l1 l2 : list slice) {struct l1} : list slice :=
    match l1, l2 with
    | s1 :: l1', s2 :: l2' => match d with 0 => (start s1, stop s2) :: l1' | S d' => s1 :: slices_cat d' l1' l2' end
    | _, _ => []
    end.
  Definition cat_nd (s o : ndslice) (d : nat) : ndslice :=
    mk_nd (cat d (nd_value s) (nd_value o)) (cat d (nd_ildj s) (nd_ildj o)) (slices_cat d (nd_slices s) (nd_slices o)).
  (** with its errors: ValueError when they cannot be concatenated, UnboundLocalError when d is not a dimension *)
  Definition concatenate (s o : ndslice) (d : nat) : res ndslice :=
    if can_concatenate s o d then if d <? length (nd_slices s) then Ok (cat_nd s o d) else Err else Err.
  (** NDSlice.new: 178-181 *)
  Definition nd_new (v : arr V) (j : arr W) : ndslice := mk_nd v j (map (fun n => (0, n)) (a_shape v)).

  (** ** InverseAndILDJ: inverse/core.py:47-153 *)
  (** aval: the shape (dtypes are not modelled).  The frozenset of slices is a list; no two have the same bounds. *)
  Record cell := mk_cell { c_aval : list nat; c_slices : list ndslice }.
  (** set.add, set union: an element equal to an old one is not added *)
  Definition set_add (l : list ndslice) (s : ndslice) : list ndslice := if existsb (nd_eqb s) l then l else l ++ [s].
  Definition set_union (l m : list ndslice) : list ndslice := fold_left set_add m l.
  Definition mk (av : list nat) (l : list ndslice) : cell := mk_cell av (set_union [] l).
  (** top: 70-77 *)
  Definition top (c : cell) : bool := match c_slices c with [s] => shape_eqb (a_shape (nd_value s)) (c_aval c) | _ => false end.
  (** bottom: 79-84 *)
  Definition bottom (c : cell) : bool := match c_slices c with [] => true | _ => false end.
  (** __lt__: 86-89 *)
  Definition cell_lt (c o : cell) : bool := if top c || bottom o then false else forallb (fun s1 => existsb (fun s2 => nd_lt s1 s2) (c_slices o)) (c_slices c).
  (** __eq__: 91-94; equality of sets *)
  Definition sub_set (l m : list ndslice) : bool := forallb (fun s => existsb (nd_eqb s) m) l.
  Definition cell_eqb (c o : cell) : bool := shape_eqb (c_aval c) (c_aval o) && sub_set (c_slices c) (c_slices o) && sub_set (c_slices o) (c_slices c).
  (** sorted(..., key=starts): a stable sort by the tuples of starts *)
  Fixpoint lex_leb (a b : list nat) : bool := match a, b with [], _ => true | _ :: _, [] => false | x :: a', y :: b' => if x =? y then lex_leb a' b' else x <? y end.
  Definition starts (s : ndslice) : list nat := map start (nd_slices s).
  Fixpoint insert (s : ndslice) (l : list ndslice) : list ndslice := match l with [] => [s] | t :: l' => if lex_leb (starts s) (starts t) then s :: l else t :: insert s l' end.
  Definition sort (l : list ndslice) : list ndslice := fold_right insert [] l.
  (** sets have no defined order: [ord] orders the union before it is sorted *)
  Variable ord : list ndslice -> list ndslice.
  (** the loop of join: 107-119; dims = range(len(aval.shape)) *)
  Definition find_dim (s o : ndslice) (ndim : nat) : option nat := find (fun d => can_concatenate s o d) (seq 0 ndim).
  Fixpoint merge (ndim : nat) (active : ndslice) (rest : list ndslice) (out : list ndslice) : list ndslice :=
    match rest with
    | [] => set_add out active
    | s :: rest' => match find_dim active s ndim with
                    | Some d => merge ndim (cat_nd active s d) rest' out
                    | None => merge ndim s rest' (set_add out active)
                    end
    end.
  (** join: 96-120 *)
  Definition join (c o : cell) : cell :=
    if top o then o
    else if bottom o then c
    else if cell_eqb c o then c
    else if cell_lt o c then c
    else if cell_lt c o then o
    else match sort (ord (set_union (c_slices c) (c_slices o))) with
         | [] => c
         | s :: rest => mk_cell (c_aval c) (merge (length (c_aval c)) s rest [])
         end.
  (** val, ildj: 122-134 *)
  Definition val (c : cell) : res (arr V) := if top c then match c_slices c with [s] => Ok (nd_value s) | _ => Err end else Err.
  Definition ildj (c : cell) : res (arr W) := if top c then match c_slices c with [s] => Ok (nd_ildj s) | _ => Err end else Err.
  (** unknown: 136-138 *)
  Definition unknown (av : list nat) : cell := mk_cell av [].
  (** new: 140-145; [zero] is the ILDJ 0 *)
  Definition new (zero : W) (v : arr V) : cell := mk_cell (a_shape v) [nd_new v (mk_arr (a_shape v) (fun _ => zero))].
End Slices.
Arguments mk_nd {V W}. Arguments nd_value {V W}. Arguments nd_ildj {V W}. Arguments nd_slices {V W}. Arguments mk_cell {V W}. Arguments c_aval {V W}. Arguments c_slices {V W}.
