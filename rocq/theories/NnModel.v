(** Model of oryx/experimental/nn: layers, templates and Serial (base.py, combinator.py), the concrete layers (core.py,
    reshape.py, pooling.py, convolution.py, normalization.py), and the list rules of oryx/core/state/registrations.py
    which Serial uses.

    Arrays have a shape and real elements: rounding and dtypes are not modelled.  The numpy/lax operations which the
    layers call are modelled by their documented meaning (windows: a window for every start that fits; convolution: the
    sum over the window), the shape formulas of lax that the [spec] methods call by their formulas.  Python exceptions
    are values of [nerr].  [lax.stop_gradient], [primitive.tie_in] and [state.variable]/[assign] (harvest.sow outside a
    harvest transformation, see HarvestModel) return their value and are left out. *)
From Coq Require Export Reals ZArith Lia Lra Bool.
From Verif Require Export UtilModel Tensor.
Open Scope string_scope.
Open Scope list_scope.
Open Scope nat_scope.

Inductive nerr := NValue | NType | NIndex | NFuel.
Definition nres (A : Type) : Type := (A + nerr)%type.
Definition nb {A B} (x : nres A) (f : A -> nres B) : nres B := match x with inl a => f a | inr e => inr e end.
Definition nmapM {A B} (f : A -> nres B) : list A -> nres (list B) :=
  fix go (l : list A) : nres (list B) := match l with [] => inl [] | a :: l' => nb (f a) (fun b => nb (go l') (fun bs => inl (b :: bs))) end.

(** ** Arrays *)
Record arr := mk_arr { sh : list nat; el : list nat -> R }.
Definition zshape (s : list nat) : list Z := map Z.of_nat s.
Definition prod (s : list nat) : nat := fold_right Nat.mul 1 s.
Definition rsum (l : list R) : R := fold_right Rplus 0%R l.
Definition emap (f : R -> R) (a : arr) : arr := mk_arr (sh a) (fun ix => f (el a ix)).

(** numpy broadcasting of two shapes, aligned at the right (the lists here are reversed) *)
Fixpoint bshape_rev (a b : list nat) {struct a} : option (list nat) :=
  match a, b with
  | [], b => Some b
  | a, [] => Some a
  | x :: a', y :: b' =>
      match bshape_rev a' b' with
      | None => None
      | Some r => if x =? y then Some (x :: r) else if x =? 1 then Some (y :: r) else if y =? 1 then Some (x :: r) else None
      end
  end.
Definition bshape (a b : list nat) : option (list nat) := option_map (@rev nat) (bshape_rev (rev a) (rev b)).
(** the index of an operand of shape s for the index ix of the result *)
Definition squash (s ix : list nat) : list nat := map (fun p => if fst p =? 1 then 0 else snd p) (combine s ix).
Definition bix (s ix : list nat) : list nat := squash s (skipn (List.length ix - List.length s) ix).
Definition zip_arr (f : R -> R -> R) (a b : arr) : nres arr :=
  match bshape (sh a) (sh b) with
  | None => inr NType
  | Some s => inl (mk_arr s (fun ix => f (el a (bix (sh a) ix)) (el b (bix (sh b) ix))))
  end.
(** a[0] and a[np.newaxis] *)
Definition index0 (a : arr) : nres arr := match sh a with S _ :: s => inl (mk_arr s (fun ix => el a (0 :: ix))) | _ => inr NIndex end.
Definition newaxis (a : arr) : arr := mk_arr (1 :: sh a) (fun ix => el a (tl ix)).
(** a[ed] for a tuple ed of None (true) and slice(None) (false); dimensions past the end of ed are kept *)
Fixpoint expand_shape (ed : list bool) (s : list nat) {struct ed} : option (list nat) :=
  match ed, s with
  | [], _ => Some s
  | true :: ed', _ => option_map (cons 1) (expand_shape ed' s)
  | false :: ed', d :: s' => option_map (cons d) (expand_shape ed' s')
  | false :: _, [] => None
  end.
Fixpoint expand_ix (ed : list bool) (ix : list nat) {struct ed} : list nat :=
  match ed, ix with [], _ => ix | true :: ed', _ :: ix' => expand_ix ed' ix' | false :: ed', i :: ix' => i :: expand_ix ed' ix' | _, [] => [] end.
Definition expand (ed : list bool) (a : arr) : nres arr :=
  match expand_shape ed (sh a) with None => inr NIndex | Some s => inl (mk_arr s (fun ix => el a (expand_ix ed ix))) end.
(** membership of an axis *)
Definition amem (i : nat) (ax : list nat) : bool := existsb (Nat.eqb i) ax.
(** np.mean(a, axis, keepdims=True); axes are non-negative, in range and distinct, otherwise ValueError.  An empty mean is NaN
    in the code; here it is 0/0, some real number. *)
Definition mapi {X Y} (f : nat -> X -> Y) : nat -> list X -> list Y :=
  fix go (i : nat) (l : list X) : list Y := match l with [] => [] | x :: l' => f i x :: go (S i) l' end.
Definition keep_shape (ax s : list nat) : list nat := mapi (fun i d => if amem i ax then 1 else d) 0 s.
Fixpoint agree (ax : list nat) (i : nat) (a b : list nat) {struct a} : bool :=
  match a, b with [], [] => true | x :: a', y :: b' => (amem i ax || (x =? y)) && agree ax (S i) a' b' | _, _ => false end.
Fixpoint distinct (ax : list nat) : bool := match ax with [] => true | i :: ax' => negb (amem i ax') && distinct ax' end.
Definition axes_ok (ax s : list nat) : bool := forallb (fun i => i <? List.length s) ax && distinct ax.
Definition mean_keep (ax : list nat) (a : arr) : nres arr :=
  if axes_ok ax (sh a) then
    inl (mk_arr (keep_shape ax (sh a)) (fun ix =>
      let l := filter (agree ax 0%nat ix) (indices (sh a)) in rsum (map (el a) l) / INR (prod (map (fun i => nth i (sh a) 0%nat) ax)))%R)
  else inr NValue.
(** jnp.dot(x, k) for a matrix k *)
Definition dot (x k : arr) : nres arr :=
  match sh k with
  | [d; o] =>
      match sh x with
      | [] => inl (mk_arr [d; o] (fun ix => el x [] * el k ix)%R)
      | sx => if last sx 0 =? d then inl (mk_arr (removelast sx ++ [o]) (fun ix => rsum (map (fun j => el x (removelast ix ++ [j]) * el k [j; last ix 0%nat])%R (seq 0 d))))
              else inr NType
      end
  | _ => inr NType
  end.
(** jnp.reshape in row-major order; one dimension may be -1 *)
Fixpoint ravel (s ix : list nat) {struct s} : nat := match s, ix with _ :: s', i :: ix' => i * prod s' + ravel s' ix' | _, _ => 0 end.
Fixpoint unravel (s : list nat) (n : nat) {struct s} : list nat := match s with [] => [] | _ :: s' => n / prod s' :: unravel s' (n mod prod s') end.
Definition infer (total : nat) (dims : list Z) : option (list nat) :=
  let known := fold_right Z.mul 1%Z (filter (fun d => negb (Z.eqb d (-1))) dims) in
  match List.length (filter (Z.eqb (-1)) dims) with
  | 0 => if forallb (Z.leb 0) dims && Z.eqb known (Z.of_nat total) then Some (map Z.to_nat dims) else None
  | 1 => if forallb (fun d => Z.leb 0 d || Z.eqb d (-1)) dims && Z.ltb 0 known && Z.eqb (Z.of_nat total mod known) 0
         then Some (map (fun d => if Z.eqb d (-1) then Z.to_nat (Z.of_nat total / known) else Z.to_nat d) dims) else None
  | _ => None
  end.
Definition reshape (x : arr) (dims : list Z) : nres arr :=
  match infer (prod (sh x)) dims with
  | None => inr NType
  | Some s => inl (mk_arr s (fun ix => el x (unravel (sh x) (ravel s ix))))
  end.

(** ** Windows *)
Inductive padding := VALID | SAME.
(** lax.padtype_to_pads for one dimension: input size, window, stride *)
Definition pad_dim (p : padding) (d w s : Z) : Z * Z :=
  match p with
  | VALID => (0, 0)%Z
  | SAME => let out := ((d + s - 1) / s)%Z in let t := Z.max ((out - 1) * s + w - d) 0 in ((t / 2)%Z, (t - t / 2)%Z)
  end.
Fixpoint padtype_to_pads (p : padding) (ds ws ss : list Z) {struct ds} : nres (list (Z * Z)) :=
  match ds, ws, ss with
  | [], [], [] => inl []
  | d :: ds', w :: ws', s :: ss' => nb (padtype_to_pads p ds' ws' ss') (fun r => inl (pad_dim p d w s :: r))
  | _, _, _ => inr NType
  end.
(** core.stride_dim of jax: the size of the output of a window of size w moving with stride s over d elements *)
Definition stride_dim (d w s : Z) : Z := Z.max 0 (1 + (d - w) / s).
(** lax.reduce_window_shape_tuple(operand_shape, window_dimensions, window_strides, padding) *)
Fixpoint reduce_window_shape (ds ws ss : list Z) (ps : list (Z * Z)) {struct ds} : nres (list Z) :=
  match ds, ws, ss, ps with
  | [], [], [], [] => inl []
  | d :: ds', w :: ws', s :: ss', (lo, hi) :: ps' => nb (reduce_window_shape ds' ws' ss' ps') (fun r => inl (stride_dim (d + lo + hi) w s :: r))
  | _, _, _, _ => inr NType
  end.
(** the windows that fit: the starts j*s (j = 0, 1, ...) with j*s + w <= d *)
Definition windows (d w s : nat) : list nat := filter (fun j => j * s + w <=? d) (seq 0 (S d)).
Definition nfit (d w s : nat) : nat := List.length (windows d w s).
(** one dimension of lax.reduce_window: the padded size must not be negative, window and stride must be positive *)
Definition window_dim (d w s : nat) (p : Z * Z) : nres nat :=
  let n := (Z.of_nat d + fst p + snd p)%Z in
  if ((w =? 0)%nat || (s =? 0)%nat || (n <? 0)%Z)%bool then inr NType else inl (nfit (Z.to_nat n) w s).
Fixpoint window_dims (ds ws ss : list nat) (ps : list (Z * Z)) {struct ds} : nres (list nat) :=
  match ds, ws, ss, ps with
  | [], [], [], [] => inl []
  | d :: ds', w :: ws', s :: ss', p :: ps' => nb (window_dim d w s p) (fun n => nb (window_dims ds' ws' ss' ps') (fun r => inl (n :: r)))
  | _, _, _, _ => inr NType
  end.
(** the positions of the operand which a window covers (padding is left out) *)
Fixpoint covered (ds ss : list nat) (ps : list (Z * Z)) (ix off : list nat) {struct ds} : option (list nat) :=
  match ds, ss, ps, ix, off with
  | [], [], [], [], [] => Some []
  | d :: ds', s :: ss', p :: ps', i :: ix', o :: off' =>
      let q := (Z.of_nat (i * s + o) - fst p)%Z in
      if ((0 <=? q)%Z && (q <? Z.of_nat d)%Z)%bool then option_map (cons (Z.to_nat q)) (covered ds' ss' ps' ix' off') else None
  | _, _, _, _, _ => None
  end.
Definition window_elems (x : arr) (ws ss : list nat) (ps : list (Z * Z)) (ix : list nat) : list R :=
  flat_map (fun off => match covered (sh x) ss ps ix off with Some p => [el x p] | None => [] end) (indices ws).
Definition zlist (l : list nat) : list Z := map Z.of_nat l.
(** lax.reduce_window(x, init, op, dims, strides, padding) where padding is a string; [red] reduces the elements which a
    window covers, from the initial value, which is neutral for op *)
Definition reduce_window (red : list R -> R) (x : arr) (ws ss : list nat) (p : padding) : nres arr :=
  nb (padtype_to_pads p (zlist (sh x)) (zlist ws) (zlist ss)) (fun ps =>
  nb (window_dims (sh x) ws ss ps) (fun s => inl (mk_arr s (fun ix => red (window_elems x ws ss ps ix))))).
(** the maximum; -inf for a window without elements, written 0 here (C61_windows_never_empty: there is none for the paddings modelled) *)
Definition rmax (l : list R) : R := match l with [] => 0%R | x :: l' => fold_right Rmax x l' end.

(** ** Pytrees *)
Inductive ptree := PLeaf (a : arr) | PNode (t : string) (l : list ptree).     (* None is a node without children *)
Inductive pdef := DLeaf | DNode (t : string) (l : list pdef).
Fixpoint p_leaves (t : ptree) : list arr := match t with PLeaf a => [a] | PNode _ l => flat_map p_leaves l end.
Fixpoint p_def (t : ptree) : pdef := match t with PLeaf _ => DLeaf | PNode s l => DNode s (map p_def l) end.
Fixpoint p_build (d : pdef) (xs : list arr) {struct d} : option (ptree * list arr) :=
  match d with
  | DLeaf => match xs with x :: xs' => Some (PLeaf x, xs') | [] => None end
  | DNode s l =>
      match (fix go (l : list pdef) (xs : list arr) {struct l} : option (list ptree * list arr) :=
               match l with
               | [] => Some ([], xs)
               | d :: l' => match p_build d xs with None => None | Some (t, xs') => match go l' xs' with None => None | Some (ts, r) => Some (t :: ts, r) end end
               end) l xs with
      | None => None
      | Some (ts, r) => Some (PNode s ts, r)
      end
  end.
Definition PNone : ptree := PNode "None" [].
Definition tuple (l : list ptree) : ptree := PNode "tuple" l.

(** ** Keys *)
Class Prng := {
  key : Type;
  split2 : key -> key * key;                                   (* random.split(rng) *)
  splitn : key -> nat -> list key;                             (* random.split(key, n) *)
  splitn_length : forall k n, List.length (splitn k n) = n;
  bernoulli : key -> R -> list nat -> bool;                    (* random.bernoulli(rng, p, shape): the element at an index *)
}.

Section nn.
Context {PR : Prng}.

(** keyword arguments *)
Inductive kval := KBool (b : bool) | KKey (k : key) | KOther (n : nat).
Definition kwargs := list (string * kval).
Fixpoint kget (s : string) (kw : kwargs) : option kval := match kw with [] => None | (t, v) :: kw' => if String.eqb s t then Some v else kget s kw' end.

(** the value a layer returns: an array or a tuple of arrays.  [as_args]: combinator.py:73-74 *)
Inductive pval := One (a : arr) | Tup (l : list arr).
Definition as_args (v : pval) : list arr := match v with One a => [a] | Tup l => l end.

(** specs: shapes only; Reshape may give -1 as a dimension *)
Definition spec := list Z.
Inductive specs := SOne (s : spec) | STup (l : list spec).
(** registrations.py:116-118, 141-142 *)
Definition as_specs (v : specs) : list spec := match v with SOne s => [s] | STup l => l end.

(** static information: the [info] of the LayerParams of the layers below; [IUser] for other classes *)
Record bninfo := mk_bn { bn_axis : list nat; bn_eps : R; bn_center : bool; bn_scale : bool; bn_decay : R; bn_shape : list nat }.
Record convinfo := mk_ci { ci_strides : nat * nat; ci_padding : padding; ci_bias : bool }.
Inductive info :=
| INone | IRate (r : R) | IShape (s : list nat) | IReshape (s : list nat) (d : list Z)
| IPool (window : list nat) (dims strides : list nat) (p : padding) | IConv (c : convinfo) | IBatchNorm (b : bninfo) | IUser (n : nat).

(** LayerParams, base.py:141-152 *)
Record lparams := mk_lp { l_params : ptree; l_state : ptree; l_info : info }.

(** A Layer class together with the arguments given to its Template.
    [c_call]/[c_update]: the methods _call and _update, with the signatures the keyword arguments are filtered by;
    _update returns a copy of the layer with new parameters.  [c_init]/[c_spec]: initialize and spec, given init_args;
    [c_bare_spec]: spec called on an instance, without init_args (base.py:489-495). *)
Record lclass := mk_class {
  c_sig : signature;
  c_call : lparams -> list arr -> kwargs -> nres pval;
  c_usig : signature;
  c_update : lparams -> list arr -> kwargs -> nres lparams;
  c_init : key -> list spec -> nres lparams;
  c_spec : list spec -> nres specs;
  c_bare_spec : list spec -> nres specs }.

(** Layers: base.py:155-302; Serial keeps its children as its params, combinator.py:27-104 *)
Inductive layer := Leaf (c : lclass) (p : lparams) (name : option string) | Serial (ls : list layer) (name : option string).
(** variables(): base.py:185-187; Serial.state: combinator.py:50-52 *)
Inductive lstate := StLeaf (t : ptree) | StTuple (l : list lstate).
Fixpoint state_of (l : layer) : lstate := match l with Leaf _ p _ => StLeaf (l_state p) | Serial ls _ => StTuple (map state_of ls) end.
Definition name_of (l : layer) : option string := match l with Leaf _ _ n => n | Serial _ n => n end.
Fixpoint depth (l : layer) : nat := match l with Leaf _ _ _ => 1 | Serial ls _ => S (fold_right Nat.max 0 (map depth ls)) end.

(** flatten/unflatten: base.py:282-294 and combinator.py:84-100 *)
Inductive cls := Cl (c : lclass) | CSerial.
Inductive ldata := DLay (i : info) (n : option string) | DSer (cs : list cls) (ds : list ldata) (n : option string).
Definition cls_of (l : layer) : cls := match l with Leaf c _ _ => Cl c | Serial _ _ => CSerial end.
(** zip of no rows cannot be unpacked into two: a Serial without layers raises ValueError (combinator.py:87) *)
Fixpoint flatten (l : layer) : nres (ptree * ldata) :=
  match l with
  | Leaf c p n => inl (tuple [l_params p; l_state p], DLay (l_info p) n)
  | Serial ls n =>
      nb (nmapM flatten ls) (fun xd =>
      match xd with [] => inr NValue | _ => inl (tuple (map fst xd), DSer (map cls_of ls) (map snd xd) n) end)
  end.
Fixpoint unflatten (c : cls) (d : ldata) (x : ptree) {struct d} : nres layer :=
  match c, d, x with
  | Cl c, DLay i n, PNode _ (p :: s :: _) => inl (Leaf c (mk_lp p s i) n)
  | CSerial, DSer cs ds n, PNode _ xs =>
      nb ((fix go (cs : list cls) (ds : list ldata) (xs : list ptree) {struct ds} : nres (list layer) :=
             match cs, ds, xs with
             | c :: cs', d :: ds', x :: xs' => nb (unflatten c d x) (fun l => nb (go cs' ds' xs') (fun ls => inl (l :: ls)))
             | _, _, _ => inl []
             end) cs ds xs) (fun ls => inl (Serial ls n))
  | _, _, _ => inr NType
  end.
(** jax.tree_util.tree_flatten / tree_unflatten of a module registered by pytree.Pytree *)
Definition treedef := (cls * ldata * pdef)%type.
Definition tree_flatten (l : layer) : nres (list arr * treedef) :=
  nb (flatten l) (fun xd => inl (p_leaves (fst xd), (cls_of l, snd xd, p_def (fst xd)))).
Definition tree_unflatten (t : treedef) (xs : list arr) : nres layer :=
  match p_build (snd t) xs with Some (x, []) => unflatten (fst (fst t)) (snd (fst t)) x | _ => inr NType end.
(** a layer that goes into or comes out of a function bound by initial_style_bind (primitive.py:193-215) *)
Definition through (l : layer) : nres layer := nb (tree_flatten l) (fun r => tree_unflatten (snd r) (fst r)).

(** call_and_update: base.py:244-266 for every layer, with Serial's _call, _update and _call_and_update
    (combinator.py:54-82).  [Layer._call_and_update] runs _call and _update; those of Serial both run the whole sequence.
    [rng] is None without an rng argument.  The fuel bounds the nesting of Serials. *)
Fixpoint cau (fuel : nat) (l : layer) (args : list arr) (rng : option key) (kw : kwargs) {struct fuel} : nres (pval * layer) :=
  match fuel with
  | 0 => inr NFuel
  | S fuel' =>
      nb (through l) (fun l1 =>
      nb (match l1 with
          | Leaf c p n =>
              let kw' := match rng with None => kw | Some k => kw ++ [("rng", KKey k)] end in
              nb (c_call c p args (filter_kwargs (c_sig c) kw')) (fun out =>
              nb (c_update c p args (filter_kwargs (c_usig c) kw')) (fun p' => inl (out, Leaf c p' n)))
          | Serial ls n =>
              let run := (fix go (ls : list layer) (v : pval) (rng : option key) : nres (pval * list layer) :=
                match ls with
                | [] => inl (v, [])
                | l :: ls' =>
                    nb (cau fuel' l (as_args v) (option_map (fun k => snd (split2 k)) rng) kw) (fun r =>
                    nb (go ls' (fst r) (option_map (fun k => fst (split2 k)) rng)) (fun r' => inl (fst r', snd r :: snd r')))
                end) ls (Tup args) rng in
              nb run (fun call => nb run (fun upd => inl (fst call, Serial (snd upd) n)))
          end) (fun r => nb (through (snd r)) (fun l2 => inl (fst r, l2))))
  end.
Definition call_and_update (l : layer) (args : list arr) (rng : option key) (kw : kwargs) : nres (pval * layer) := cau (depth l) l args rng kw.

(** ** Templates: base.py:305-367 *)
Inductive template := TLeaf (c : lclass) | TSerial (ts : list template).
(** compose and >>: base.py:362-367 *)
Definition compose (a b : template) : template := TSerial [a; b].
(** spec of a template (base.py:356-360, 524-531), of Serial (combinator.py:45-48) and of a list (registrations.py:135-144) *)
Fixpoint tspec (t : template) (ss : list spec) {struct t} : nres specs :=
  match t with
  | TLeaf c => c_spec c ss
  | TSerial ts =>
      (fix go (ts : list template) (v : specs) {struct ts} : nres specs :=
         match ts with [] => inl v | t :: ts' => nb (tspec t (as_specs v)) (go ts') end) ts (STup ss)
  end.
(** jnp.ones(x.shape, x.dtype) *)
Definition ones (ss : list spec) : nres (list spec) := if forallb (forallb (Z.leb 0)) ss then inl ss else inr NType.
(** decimal numerals of the names layers_0, layers_1, ... *)
Definition digit (n : nat) : string := String (Ascii.ascii_of_nat (48 + n mod 10)) EmptyString.
Fixpoint decimal (fuel n : nat) : string := match fuel with 0 => digit n | S f => if n <? 10 then digit n else String.append (decimal f (n / 10)) (digit n) end.
Definition child_name (i : nat) : string := String.append "layers_" (decimal i i).
(** Template.init: base.py:337-354, template_build: base.py:305-315, _template_build: base.py:511-513; Serial.initialize: combinator.py:30-43; list_init:
    registrations.py:101-120 with name='layers' *)
Fixpoint init (t : template) (name : option string) (k : option key) (ss : list spec) {struct t} : nres layer :=
  match k with
  | None => inr NValue
  | Some k =>
      nb (match t with
          | TLeaf c => nb (c_init c k ss) (fun p => inl (Leaf c p name))
          | TSerial ts =>
              nb (ones ss) (fun ss => nb ((fix go (ts : list template) (ks : list key) (i : nat) (ss : list spec) {struct ts} : nres (list layer) :=
                match ts, ks with
                | t :: ts', k :: ks' =>
                    nb (init t (Some (child_name i)) (Some k) ss) (fun l =>
                    nb (tspec t ss) (fun v => nb (ones (as_specs v)) (fun ss' => nb (go ts' ks' (S i) ss') (fun ls => inl (l :: ls)))))
                | _, _ => inl []
                end) ts (splitn k (List.length ts)) 0 ss) (fun ls => inl (Serial ls name)))
          end) through
  end.
(** calling a template: base.py:326-335 *)
Definition template_call (t : template) (k : option key) (args : list arr) (rng : option key) (kw : kwargs) : nres pval :=
  nb (init t None k (map (fun a => zshape (sh a)) args)) (fun l => nb (call_and_update l args rng kw) (fun r => inl (fst r))).
(** state.spec of a layer: base.py:489-495; Serial.spec given the input specs only takes the last one for the list of layers *)
Definition layer_spec (l : layer) (ss : list spec) : nres specs := match l with Leaf c _ _ => c_bare_spec c ss | Serial _ _ => inr NType end.

(** ** The layers *)
Definition no_kw : signature := mk_sig [mk_param "self" PosOrKw false; mk_param "x" PosOrKw false] false.
Definition with_training : signature := mk_sig [mk_param "self" PosOrKw false; mk_param "x" PosOrKw false; mk_param "training" PosOrKw true] false.
Definition with_training_rng : signature := mk_sig [mk_param "self" PosOrKw false; mk_param "x" PosOrKw false; mk_param "training" PosOrKw true; mk_param "rng" PosOrKw true] false.
(** Layer._update: base.py:229-242 *)
Definition any_kw : signature := mk_sig [mk_param "self" PosOrKw false] true.
Definition keep_update (p : lparams) (_ : list arr) (_ : kwargs) : nres lparams := inl p.
Definition on1 {A} (f : arr -> nres A) (args : list arr) : nres A := match args with [x] => f x | _ => inr NType end.
Definition spec1 {A} (f : spec -> nres A) (ss : list spec) : nres A := match ss with [s] => f s | _ => inr NType end.
(** an array of the given shape drawn by an initialiser; negative dimensions raise *)
Definition initialiser := key -> list nat -> list nat -> R.
Definition create (i : initialiser) (k : key) (s : spec) : nres arr :=
  if forallb (Z.leb 0) s then inl (mk_arr (map Z.to_nat s) (i k (map Z.to_nat s))) else inr NType.

(** Dense: core.py:43-97 *)
Definition dense_call (p : lparams) (args : list arr) (kw : kwargs) : nres pval :=
  on1 (fun x => match l_params p with
                | PNode _ [PLeaf kernel; PLeaf bias] => nb (dot x kernel) (fun y => nb (zip_arr Rplus y bias) (fun z => inl (One z)))
                | _ => inr NType end) args.
Definition dense_init (dim_out : Z) (ki bi : initialiser) (k : key) (ss : list spec) : nres lparams :=
  spec1 (fun s => match s with
                  | [] => inr NIndex
                  | _ => nb (create ki (fst (split2 k)) [last s 0%Z; dim_out]) (fun kernel =>
                         nb (create bi (snd (split2 k)) [dim_out]) (fun bias => inl (mk_lp (PNode "DenseParams" [PLeaf kernel; PLeaf bias]) (tuple []) INone)))
                  end) ss.
Definition dense_spec (dim_out : Z) (ss : list spec) : nres specs := spec1 (fun s => inl (SOne (removelast s ++ [dim_out]))) ss.
Definition Dense (dim_out : Z) (ki bi : initialiser) : lclass :=
  mk_class no_kw dense_call any_kw keep_update (dense_init dim_out ki bi) (dense_spec dim_out) (fun _ => inr NType).

(** Dropout: core.py:100-127 *)
Definition dropout_call (p : lparams) (args : list arr) (kw : kwargs) : nres pval :=
  on1 (fun x =>
    match l_info p with
    | IRate rate =>
        match (match kget "training" kw with Some (KBool b) => b | _ => true end) with
        | true => match kget "rng" kw with
                  | Some (KKey k) => inl (One (mk_arr (sh x) (fun ix => if bernoulli k rate ix then el x ix / rate else 0)%R))
                  | _ => inr NValue
                  end
        | false => inl (One x)
        end
    | _ => inr NType
    end) args.
Definition Dropout (rate : R) : lclass :=
  mk_class with_training_rng dropout_call any_kw keep_update (fun k ss => spec1 (fun _ => inl (mk_lp (tuple []) (tuple []) (IRate rate))) ss)
    (spec1 (fun s => inl (SOne s))) (fun _ => inr NType).

(** Activation: core.py:130-149, with the elementwise Relu, Tanh and Softplus (core.py:152-167) and the functions of the last
    axis LogSoftmax and Softmax (core.py:170-179); [act]: the new elements of an array, whose shape is kept *)
Definition Activation (act : arr -> list nat -> R) : lclass :=
  mk_class no_kw (fun p args kw => on1 (fun x => inl (One (mk_arr (sh x) (act x)))) args) any_kw keep_update
    (fun k ss => spec1 (fun _ => inl (mk_lp (tuple []) (tuple []) INone)) ss) (spec1 (fun s => inl (SOne s))) (spec1 (fun s => inl (SOne s))).
Definition Relu : lclass := Activation (fun x ix => Rmax (el x ix) 0).
Definition Tanh : lclass := Activation (fun x ix => tanh (el x ix)).
Definition Softplus : lclass := Activation (fun x ix => ln (1 + exp (el x ix))).
Definition last_axis (x : arr) (ix : list nat) : list R := map (fun j => el x (removelast ix ++ [j])) (seq 0 (last (sh x) 0)).
Definition Softmax : lclass := Activation (fun x ix => exp (el x ix) / rsum (map exp (last_axis x ix)))%R.
Definition LogSoftmax : lclass := Activation (fun x ix => el x ix - ln (rsum (map exp (last_axis x ix))))%R.

(** Flatten: reshape.py:29-61 *)
Definition flatten_spec (ss : list spec) : nres specs := spec1 (fun s => inl (SOne [fold_right Z.mul 1%Z s])) ss.
Definition flatten_call (p : lparams) (args : list arr) (kw : kwargs) : nres pval :=
  on1 (fun x => nb (flatten_spec [zshape (sh x)]) (fun v => match v with SOne s => nb (reshape x s) (fun y => inl (One y)) | _ => inr NType end)) args.
Definition Flatten : lclass :=
  mk_class no_kw flatten_call any_kw keep_update (fun k ss => spec1 (fun s => inl (mk_lp (tuple []) (tuple []) (IShape (map Z.to_nat s)))) ss) flatten_spec flatten_spec.

(** Reshape: reshape.py:64-100.  dim_out is a sequence (initialize raises TypeError on an int, reshape.py:79) *)
Definition reshape_spec (dim_out : list Z) (ss : list spec) : nres specs := spec1 (fun _ => inl (SOne dim_out)) ss.
Definition reshape_call (p : lparams) (args : list arr) (kw : kwargs) : nres pval :=
  on1 (fun x => match l_info p with
                | IReshape _ dim_out => nb (reshape_spec dim_out [zshape (sh x)]) (fun v => match v with SOne s => nb (reshape x s) (fun y => inl (One y)) | _ => inr NType end)
                | _ => inr NType end) args.
Definition Reshape (dim_out : list Z) : lclass :=
  mk_class no_kw reshape_call any_kw keep_update (fun k ss => spec1 (fun s => inl (mk_lp (tuple []) (tuple []) (IReshape (map Z.to_nat s) dim_out))) ss)
    (reshape_spec dim_out) (fun _ => inr NType).

(** Pooling: pooling.py:39-96.  [strides or (1,)*n]: None and () give the default *)
Definition or_ones {X} (strides : option (list nat)) (window : list X) : list nat :=
  match strides with Some (s :: ss) => s :: ss | _ => repeat 1 (List.length window) end.
(** window_shape[:i] + (1,) + window_shape[i:] *)
Definition insert1 {X} (one : X) (i : nat) (l : list X) : list X := firstn i l ++ one :: skipn i l.
Definition pool_spec (window : list nat) (strides : option (list nat)) (p : padding) (ss : list spec) : nres specs :=
  spec1 (fun s =>
    if 3 <? List.length s then inr NValue else
    let s := 1%Z :: s in
    let dims := 1%Z :: zlist window ++ [1%Z] in
    let str := zlist (or_ones strides window) in
    let w1 := insert1 1%Z 0 (zlist window) in let w2 := insert1 1%Z (List.length window + 1) w1 in
    let s1 := insert1 1%Z 0 str in let s2 := insert1 1%Z (List.length window + 1) s1 in
    nb (padtype_to_pads p s w2 s2) (fun pads =>
    nb (reduce_window_shape s dims s2 pads) (fun out => inl (SOne (tl out))))) ss.
Definition pool_init (window : list nat) (strides : option (list nat)) (p : padding) (k : key) (ss : list spec) : nres lparams :=
  spec1 (fun _ => inl (mk_lp (tuple []) (tuple []) (IPool window (1 :: window ++ [1]) (1 :: or_ones strides window ++ [1]) p))) ss.
Inductive pool_kind := MaxPool | SumPool | AvgPool.
(** _call_batched: pooling.py:99-128 *)
Definition pool_batched (k : pool_kind) (i : info) (x : arr) : nres arr :=
  match i with
  | IPool window dims strides p =>
      match k with
      | MaxPool => reduce_window rmax x dims strides p
      | SumPool => reduce_window rsum x dims strides p
      | AvgPool =>
          let one := mk_arr (removelast (tl (sh x))) (fun _ => 1%R) in
          nb (reduce_window rsum one window (removelast (tl strides)) p) (fun sizes =>
          nb (reduce_window rsum x dims strides p) (fun outputs =>
          zip_arr Rdiv outputs (mk_arr (sh sizes ++ [1]) (fun ix => el sizes (removelast ix)))))
      end
  | _ => inr NType
  end.
Definition pool_call (k : pool_kind) (p : lparams) (args : list arr) (kw : kwargs) : nres pval :=
  on1 (fun x => if 3 <? List.length (sh x) then inr NValue else
    nb (pool_batched k (l_info p) (newaxis x)) (fun r => nb (index0 r) (fun y => inl (One y)))) args.
Definition Pooling (kd : pool_kind) (window : list nat) (strides : option (list nat)) (p : padding) : lclass :=
  mk_class no_kw (pool_call kd) any_kw keep_update (pool_init window strides p) (pool_spec window strides p) (fun _ => inr NType).

(** Conv and Deconv: convolution.py:40-195, for two-element filter shapes and string paddings *)
Definition conv_strides (strides : option (nat * nat)) : nat * nat := match strides with Some s => s | None => (1, 1) end.
(** lax._conv_transpose_padding *)
Definition transpose_pads (k s : Z) (p : padding) : Z * Z :=
  match p with
  | SAME => let len := (k + s - 2)%Z in let a := if (s >? k - 1)%Z then (k - 1)%Z else (- (- len / 2))%Z in (a, len - a)%Z
  | VALID => let len := (k + s - 2 + Z.max (k - s) 0)%Z in (k - 1, len - (k - 1))%Z
  end.
(** conv_general_shape_tuple and conv_transpose_shape_tuple for NHWC/HWIO/NHWC, on (1, h, w, c) and (fh, fw, c, out_chan) *)
Definition conv_out (transpose : bool) (h w fh fw sh_ sw : Z) (p : padding) : Z * Z :=
  if transpose then
    let f d k s := let q := transpose_pads k s p in ((d - 1) * s - k + 2 + (fst q + snd q))%Z in (f h fh sh_, f w fw sw)
  else
    let f d k s := let q := pad_dim p d k s in stride_dim (d + (fst q + snd q)) k s in (f h fh sh_, f w fw sw).
Definition dropwhile1 (l : list Z) : list Z := (fix go (l : list Z) : list Z := match l with [] => [] | d :: l' => if Z.eqb d 1 then go l' else l end) l.
(** conv_info: the output, kernel and bias shapes *)
Definition conv_info (transpose : bool) (s : spec) (out_chan : Z) (fh fw : nat) (strides : option (nat * nat)) (p : padding) : nres (spec * spec * spec) :=
  match s with
  | [h; w; c] =>
      let (sh_, sw) := conv_strides strides in
      let o := conv_out transpose h w (Z.of_nat fh) (Z.of_nat fw) (Z.of_nat sh_) (Z.of_nat sw) p in
      inl ([fst o; snd o; out_chan], [Z.of_nat fh; Z.of_nat fw; c; out_chan], dropwhile1 [1; 1; 1; out_chan]%Z)
  | _ => inr NValue
  end.
Definition conv_init (transpose : bool) (out_chan : Z) (fh fw : nat) (strides : option (nat * nat)) (p : padding) (ki bi : initialiser) (use_bias : bool)
  (k : key) (ss : list spec) : nres lparams :=
  spec1 (fun s =>
    nb (conv_info transpose s out_chan fh fw strides p) (fun r =>
    nb (create ki (fst (split2 k)) (snd (fst r))) (fun kernel =>
    let info := IConv (mk_ci (conv_strides strides) p use_bias) in
    if use_bias then nb (create bi (snd (split2 k)) (snd r)) (fun bias => inl (mk_lp (PNode "ConvParams" [PLeaf kernel; PLeaf bias]) (tuple []) info))
    else inl (mk_lp (PNode "ConvParams" [PLeaf kernel; PNone]) (tuple []) info)))) ss.
Definition conv_spec (transpose : bool) (out_chan : Z) (fh fw : nat) (strides : option (nat * nat)) (p : padding) (ss : list spec) : nres specs :=
  spec1 (fun s => nb (conv_info transpose s out_chan fh fw strides p) (fun r => inl (SOne (fst (fst r))))) ss.
(** the size of a dimension dilated by s (lhs_dilation): s-1 holes between two elements *)
Definition dilate (d s : nat) : nat := match d with 0 => 0 | S d' => d' * s + 1 end.
(** lax.conv_general_dilated on an NHWC operand and an HWIO kernel, with the pads of the two spatial dimensions *)
Definition conv2d (x kernel : arr) (strides : nat * nat) (ph pw : Z * Z) (dil : nat * nat) : nres arr :=
  match sh x, sh kernel with
  | [n; h; w; c], [fh; fw; ci; co] =>
      if negb (c =? ci) || (fst dil =? 0) || (snd dil =? 0) then inr NType else
      nb (window_dim (dilate h (fst dil)) fh (fst strides) ph) (fun oh => nb (window_dim (dilate w (snd dil)) fw (snd strides) pw) (fun ow =>
      let at_ (i off s d dl : nat) (p : Z * Z) : option nat :=
        let q := (Z.of_nat (i * s + off) - fst p)%Z in
        if ((0 <=? q)%Z && (q mod Z.of_nat dl =? 0)%Z && (q / Z.of_nat dl <? Z.of_nat d)%Z)%bool then Some (Z.to_nat (q / Z.of_nat dl)) else None in
      inl (mk_arr [n; oh; ow; co] (fun ix =>
        match ix with
        | [b; i; j; o] => rsum (map (fun off => match off with
            | [u; v; c] => match at_ i u (fst strides) h (fst dil) ph, at_ j v (snd strides) w (snd dil) pw with
                           | Some y, Some z => el x [b; y; z; c] * el kernel [u; v; c; o] | _, _ => 0 end
            | _ => 0 end) (indices [fh; fw; c]))
        | _ => 0
        end)%R)))
  | _, _ => inr NType
  end.
(** _call_batched: convolution.py:116-124 and 181-188; lax.conv_transpose dilates the operand by the strides *)
Definition conv_batched (transpose : bool) (p : lparams) (x : arr) : nres arr :=
  match l_params p, l_info p with
  | PNode _ [PLeaf kernel; bias], IConv ci =>
      nb (match sh x, sh kernel with
          | [_; h; w; _], [fh; fw; _; _] =>
              let (s1, s2) := ci_strides ci in let z := Z.of_nat in
              if transpose then conv2d x kernel (1, 1) (transpose_pads (z fh) (z s1) (ci_padding ci)) (transpose_pads (z fw) (z s2) (ci_padding ci)) (s1, s2)
              else conv2d x kernel (s1, s2) (pad_dim (ci_padding ci) (z h) (z fh) (z s1)) (pad_dim (ci_padding ci) (z w) (z fw) (z s2)) (1, 1)
          | _, _ => inr NType
          end) (fun r =>
      if ci_bias ci then match bias with PLeaf b => zip_arr Rplus r b | _ => inr NType end else inl r)
  | _, _ => inr NType
  end.
(** _call: convolution.py:126-132, 190-195 *)
Definition conv_call (transpose : bool) (p : lparams) (args : list arr) (kw : kwargs) : nres pval :=
  on1 (fun x => if negb (List.length (sh x) =? 3) then inr NValue else
    nb (conv_batched transpose p (newaxis x)) (fun r => nb (index0 r) (fun y => inl (One y)))) args.
Definition ConvLayer (transpose : bool) (out_chan : Z) (fh fw : nat) (strides : option (nat * nat)) (p : padding) (ki bi : initialiser) (use_bias : bool) : lclass :=
  mk_class no_kw (conv_call transpose) any_kw keep_update (conv_init transpose out_chan fh fw strides p ki bi use_bias)
    (conv_spec transpose out_chan fh fw strides p) (fun _ => inr NType).
Definition Conv := ConvLayer false.
Definition Deconv := ConvLayer true.

(** BatchNorm: normalization.py:48-143 *)
Definition bn_init (axis : list nat) (momentum eps : R) (center scale : bool) (bi gi : initialiser) (k : key) (ss : list spec) : nres lparams :=
  spec1 (fun s =>
    nb (create (fun _ _ _ => 0%R) k s) (fun x0 =>
    let shape := map snd (filter (fun id => negb (amem (fst id) axis)) (combine (seq 0 (List.length (sh x0))) (sh x0))) in
    let moving := keep_shape axis (sh x0) in
    match splitn k 4 with
    | [k1; k2; _; _] =>
        let beta := if center then PLeaf (mk_arr shape (bi k1 shape)) else tuple [] in
        let gamma := if scale then PLeaf (mk_arr shape (gi k2 shape)) else tuple [] in
        inl (mk_lp (PNode "BatchNormParams" [beta; gamma])
                   (PNode "BatchNormState" [PLeaf (mk_arr moving (fun _ => 0%R)); PLeaf (mk_arr moving (fun _ => 1%R))])
                   (IBatchNorm (mk_bn axis eps center scale (1 - momentum) (sh x0))))
    | _ => inr NType
    end)) ss.
(** mean and variance: normalization.py:106-107, 133-134 *)
Definition mean_var (ax : list nat) (x : arr) : nres (arr * arr) :=
  nb (mean_keep ax x) (fun m => nb (mean_keep ax (emap (fun v => v * v)%R x)) (fun m2 => nb (zip_arr Rminus m2 (emap (fun v => v * v)%R m)) (fun v => inl (m, v)))).
(** _call_batched: normalization.py:95-119 *)
Definition bn_call_batched (p : lparams) (training : bool) (x : arr) : nres arr :=
  match l_params p, l_state p, l_info p with
  | PNode _ [beta; gamma], PNode _ [PLeaf mm; PLeaf mv], IBatchNorm i =>
      let axis := 0 :: map S (bn_axis i) in
      let ed := map (fun j => amem j axis) (seq 0 (List.length (sh x))) in
      nb (if bn_center i then match beta with PLeaf b => nb (expand ed b) (fun b => inl (Some b)) | _ => inr NType end else inl None) (fun beta =>
      nb (if bn_scale i then match gamma with PLeaf g => nb (expand ed g) (fun g => inl (Some g)) | _ => inr NType end else inl None) (fun gamma =>
      nb (if training then mean_var axis x else inl (mm, mv)) (fun r =>
      nb (zip_arr Rminus x (fst r)) (fun num => nb (zip_arr Rdiv num (emap (fun v => sqrt (v + bn_eps i)) (snd r))) (fun z =>
      match beta, gamma with
      | Some b, Some g => nb (zip_arr Rmult g z) (fun y => zip_arr Rplus y b)
      | Some b, None => zip_arr Rplus z b
      | None, Some g => zip_arr Rmult g z
      | None, None => inl z
      end)))))
  | _, _, _ => inr NType
  end.
Definition training_of (kw : kwargs) : bool := match kget "training" kw with Some (KBool b) => b | _ => true end.
(** _call: normalization.py:86-93 *)
Definition bn_call (p : lparams) (args : list arr) (kw : kwargs) : nres pval :=
  on1 (fun x => match l_info p with
    | IBatchNorm i =>
        if negb (List.length (sh x) =? List.length (bn_shape i)) then inr NValue else
        if training_of kw then inl (One x) else nb (bn_call_batched p false (newaxis x)) (fun r => nb (index0 r) (fun y => inl (One y)))
    | _ => inr NType end) args.
(** _update_axis: normalization.py:130-143 *)
Definition bn_update_axis (p : lparams) (x : arr) (axis : list nat) : nres lparams :=
  match l_state p, l_info p with
  | PNode t [PLeaf mm; PLeaf mv], IBatchNorm i =>
      nb (mean_var axis x) (fun r => nb (index0 (fst r)) (fun mean => nb (index0 (snd r)) (fun var =>
      let step (mv new : arr) : nres arr := nb (zip_arr Rminus mv new) (fun d => zip_arr Rminus mv (emap (fun v => v * bn_decay i)%R d)) in
      nb (step mm mean) (fun mm' => nb (step mv var) (fun mv' => inl (mk_lp (l_params p) (PNode t [PLeaf mm'; PLeaf mv']) (l_info p)))))))
  | _, _ => inr NType
  end.
(** _update: normalization.py:121-122; _update_batched: normalization.py:124-128 *)
Definition bn_update (p : lparams) (args : list arr) (kw : kwargs) : nres lparams :=
  on1 (fun x => match l_info p with IBatchNorm i => bn_update_axis p x (bn_axis i) | _ => inr NType end) args.
Definition bn_update_batched (p : lparams) (x : arr) : nres lparams :=
  match l_info p with
  | IBatchNorm i => let d := List.length (sh x) - List.length (bn_shape i) in bn_update_axis p x (seq 0 d ++ map (fun a => a + d) (bn_axis i))
  | _ => inr NType
  end.
(** _call_and_update_batched: normalization.py:76-84, reached under vmap by custom_layer_cau_batch (base.py:406-484) when the
    examples are mapped and the layer is not: the layer sees the whole batch, and the new layer is not batched *)
Definition bn_cau_batched (p : lparams) (x : arr) (kw : kwargs) : nres (arr * lparams) :=
  nb (bn_call_batched p (training_of (filter_kwargs with_training kw)) x) (fun out => nb (bn_update_batched p x) (fun p' => inl (out, p'))).
Definition BatchNorm (axis : list nat) (momentum eps : R) (center scale : bool) (bi gi : initialiser) : lclass :=
  mk_class with_training bn_call no_kw bn_update (bn_init axis momentum eps center scale bi gi) (spec1 (fun s => inl (SOne s))) (spec1 (fun s => inl (SOne s))).
End nn.
