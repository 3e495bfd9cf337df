(** Model of oryx/core/interpreters/inverse/core.py, rules.py, custom_inverse.py, bijector_extensions.py, of
    oryx/core/interpreters/log_prob.py and of the rules of oryx/distributions/distribution_extensions.py and
    oryx/core/ppl/plate_util.py: the inverse and log_prob interpreters, on top of propagate (PropModel) and of slices and cells
    (SliceModel). *)
From Verif Require Export SliceModel.

(** ** Array operations of JAX that the rules use *)
Definition map_arr {X Y} (f : X -> Y) (a : arr X) : arr Y := mk_arr (a_shape a) (fun i => f (a_get a i)).
(** binary elementwise operations: the shapes are equal, or one is a scalar (lax scalar promotion) *)
Definition bget {X} (a : arr X) (i : list nat) : X := match a_shape a with [] => a_get a [] | _ => a_get a i end.
Definition bshape {X Y} (a : arr X) (b : arr Y) : list nat := match a_shape a with [] => a_shape b | sh => sh end.
Definition lift2 {X Y Z} (f : X -> Y -> Z) (a : arr X) (b : arr Y) : arr Z := mk_arr (bshape a b) (fun i => f (bget a i) (bget b i)).
(** lax.slice without strides *)
Definition slice_arr {X} (sl : list slice) (a : arr X) : arr X :=
  mk_arr (map (fun s => stop s - start s) sl) (fun i => a_get a (map (fun p => start (fst p) + snd p) (combine sl i))).
(** lax.concatenate *)
Definition concat_arr {X} (d : nat) (l : list (arr X)) : res (arr X) := match l with [] => Err | a :: l' => Ok (fold_left (cat d) l' a) end.
(** np.split(a, sections, d) *)
Fixpoint set_at (d n : nat) (l : list nat) {struct l} : list nat := match l, d with [], _ => [] | _ :: l', 0 => n :: l' | x :: l', S d' => x :: set_at d' n l' end.
Definition piece {X} (d lo hi : nat) (a : arr X) : arr X := mk_arr (set_at d (hi - lo) (a_shape a)) (fun i => a_get a (add_at d lo i)).
Fixpoint split_arr {X} (d : nat) (secs : list nat) (lo : nat) (a : arr X) : list (arr X) :=
  match secs with [] => [piece d lo (nth d (a_shape a) 0) a] | s :: secs' => piece d lo s a :: split_arr d secs' s a end.
(** np.reshape, row-major *)
Definition size (sh : list nat) : nat := fold_right Nat.mul 1 sh.
Fixpoint ravel (sh i : list nat) {struct sh} : nat := match sh, i with n :: sh', x :: i' => x * size sh' + ravel sh' i' | _, _ => 0 end.
Fixpoint unravel (sh : list nat) (k : nat) : list nat := match sh with [] => [] | n :: sh' => (k / size sh') :: unravel sh' (k mod size sh') end.
Definition reshape_arr {X} (sh : list nat) (a : arr X) : arr X := mk_arr sh (fun i => a_get a (unravel (a_shape a) (ravel sh i))).
(** all indices of a shape, in row-major order *)
Fixpoint all_indices (sh : list nat) : list (list nat) := match sh with [] => [[]] | n :: sh' => flat_map (fun x => map (cons x) (all_indices sh')) (seq 0 n) end.

Section Inverse.
  Variables V W : Type.               (* the elements of values and the numbers of ILDJs and log-probabilities *)
  Variable w0 : W.
  Variable wplus : W -> W -> W.
  Variable cord : list (ndslice V W) -> list (ndslice V W).   (* the order of frozensets *)
  Notation cell := (cell V W). Notation ndslice := (ndslice V W).
  Notation top := (top V W). Notation bottom := (bottom V W). Notation unknown := (unknown V W). Notation new := (new V W w0). Notation nd_new := (nd_new V W).
  Notation join := (join V W cord). Notation cell_lt := (cell_lt V W).
  Notation arrV := (arr V). Notation arrW := (arr W).

  (** x.sum() *)
  Definition asum (a : arrW) : W := fold_left (fun s i => wplus s (a_get a i)) (all_indices (a_shape a)) w0.
  (** the value and the ILDJ of a top cell: InverseAndILDJ.val and .ildj *)
  Definition kn (c : cell) : option (arrV * arrW) := if top c then match c_slices c with [s] => Some (nd_value s, nd_ildj s) | _ => None end else None.
  (** the values of cells that are all top *)
  Fixpoint kn_all (l : list cell) : option (list (arrV * arrW)) := match l with [] => Some [] | c :: l' => match kn c, kn_all l' with Some x, Some xs => Some (x :: xs) | _, _ => None end end.
  Definition vals (l : list (arrV * arrW)) : list arrV := map fst l.

  (** *** Primitives *)
  (** register_elementwise: the primitive, the inverse function (None: it raises) and log|grad| of the inverse *)
  Record elem := mk_elem { e_fwd : V -> V; e_inv : option (V -> V); e_ldj : V -> W }.
  (** register_binary: the primitive, f_left and f_right (value and ILDJ) *)
  Record binop := mk_bin { b_fwd : V -> V -> V; b_left : V -> V -> V; b_left_j : V -> V -> W -> W; b_right : V -> V -> V; b_right_j : V -> V -> W -> W }.
  Inductive prim :=
  | PElem (e : elem)
  | PBin (b : binop)
  | PDefault (F : list arrV -> list arrV)       (* no registered inverse *)
  | PSlice (sl : list slice)
  | PConcat (d : nat)
  | PReshape (sh : list nat)
  | PConvert (cv back : V -> V)                 (* conversion to new_dtype and to the input's dtype *)
  | PTie
  | PSow
  | PCustom (nc : nat) (F : list arrV -> list arrV) (inv : list (option arrV) -> list arrV -> list arrW -> res (option (list (option (arrV * arrW)))))
  | PBijector (nc nb : nat) (F G : list arrV -> arrV -> arrV) (J : list arrV -> arrV -> arrW).

  Definition result := res (list cell * list cell * option (option W)).
  (** register_elementwise: core.py:244-262 *)
  Definition elem_rule (e : elem) (ic oc : list cell) : result :=
    match ic, oc with
    | [i], [o] =>
        match kn i, kn o with
        | None, Some (v, j) => match e_inv e with
                               | None => Err
                               | Some g => Ok ([mk_cell (c_aval o) [nd_new (map_arr g v) (lift2 wplus j (map_arr (e_ldj e) v))]], oc, None)
                               end
        | Some (v, _), None => Ok (ic, [new (map_arr (e_fwd e) v)], None)
        | _, _ => Ok (ic, oc, None)
        end
    | _, _ => Err
    end.
  (** register_binary: core.py:265-288 *)
  Definition bin_rule (b : binop) (ic oc : list cell) : result :=
    match ic, oc with
    | [l; r], [o] =>
        match kn o with
        | Some (v, j) =>
            match kn l, kn r with
            | Some (lv, _), _ => Ok ([l; mk_cell (c_aval r) [nd_new (lift2 (b_left b) lv v) (lift2 (fun f x => f x) (lift2 (fun x y => b_left_j b x y) lv v) j)]], oc, None)
            | None, Some (rv, _) => Ok ([mk_cell (c_aval l) [nd_new (lift2 (b_right b) rv v) (lift2 (fun f x => f x) (lift2 (fun x y => b_right_j b x y) rv v) j)]; r], oc, None)
            | None, None => Ok (ic, oc, None)
            end
        | None => match kn l, kn r with
                  | Some (lv, _), Some (rv, _) => Ok (ic, [new (lift2 (b_fwd b) lv rv)], None)
                  | _, _ => Ok (ic, oc, None)
                  end
        end
    | _, _ => Err
    end.
  (** default_rule: core.py:205-223 *)
  Definition default_rule (F : list arrV -> list arrV) (ic oc : list cell) : result :=
    if forallb bottom oc
    then match kn_all ic with Some l => Ok (ic, map new (F (vals l)), None) | None => Ok (ic, oc, None) end
    else if existsb bottom oc then Ok (ic, oc, None) else NotImpl.
  (** slice_ildj: rules.py:133-149; strides are not modelled *)
  Definition slice_rule (sl : list slice) (ic oc : list cell) : result :=
    match ic, oc with
    | [i], [o] =>
        match kn i, kn o with
        | None, Some (v, j) => Ok ([mk_cell (c_aval i) [mk_nd v j sl]], oc, None)
        | Some (v, _), None => Ok (ic, [new (slice_arr sl v)], None)
        | _, _ => Ok (ic, oc, None)
        end
    | _, _ => Err
    end.
  (** the sections of concatenate_ildj: rules.py:162-168 *)
  Fixpoint sections (d idx : nat) (l : list cell) : list nat :=
    match l with [] => [] | [_] => [] | c :: l' => let idx' := idx + nth d (c_aval c) 0 in idx' :: sections d idx' l' end.
  (** zip with strict=True *)
  Fixpoint zip3 {X Y Z} (l : list X) (m : list Y) (n : list Z) : res (list (X * (Y * Z))) :=
    match l, m, n with [], [], [] => Ok [] | x :: l', y :: m', z :: n' => rbind (zip3 l' m' n') (fun r => Ok ((x, (y, z)) :: r)) | _, _, _ => Err end.
  (** concatenate_ildj: rules.py:153-175 *)
  Definition concat_rule (d : nat) (ic oc : list cell) : result :=
    match oc with
    | [o] =>
        match kn_all ic with
        | Some l => rbind (concat_arr d (vals l)) (fun a => Ok (ic, [new a], None))
        | None => match kn o with
                  | Some (v, j) => let secs := sections d 0 ic in
                                   rbind (zip3 ic (split_arr d secs 0 v) (split_arr d secs 0 j)) (fun l =>
                                   Ok (map (fun p => mk_cell (c_aval (fst p)) [nd_new (fst (snd p)) (snd (snd p))]) l, oc, None))
                  | None => Ok (ic, oc, None)
                  end
        end
    | _ => Err
    end.
  (** tie_all_ildj: rules.py:179-185 *)
  Fixpoint tie_cells (l m : list cell) : res (list cell) :=
    match l, m with [], [] => Ok [] | x :: l', y :: m' => rbind (tie_cells l' m') (fun r => Ok (join x y :: r)) | _, _ => Err end.
  Definition tie_rule (ic oc : list cell) : result := rbind (tie_cells ic oc) (fun l => Ok (l, l, None)).
  (** sow_ildj: rules.py:191-201 *)
  Definition sow_rule (ic oc : list cell) : result :=
    match kn_all ic with
    | Some l => if forallb (fun o => negb (top o)) oc then Ok (ic, map new (vals l), None) else tie_rule ic oc
    | None => tie_rule ic oc
    end.
  (** reshape_ildj: rules.py:205-219.  The ILDJ of the output is dropped. *)
  Definition reshape_rule (sh : list nat) (ic oc : list cell) : result :=
    match ic, oc with
    | [i], [o] =>
        match kn i, kn o with
        | Some (v, _), None => Ok (ic, [new (reshape_arr sh v)], None)
        | None, Some (v, _) => Ok ([new (reshape_arr (c_aval i) v)], oc, None)
        | _, _ => Ok (ic, oc, None)
        end
    | _, _ => Err
    end.
  (** convert_element_type_ildj: rules.py:240-252.  The ILDJ of the output is dropped. *)
  Definition convert_rule (cv back : V -> V) (ic oc : list cell) : result :=
    match ic, oc with
    | [i], [o] =>
        match kn i, kn o with
        | Some (v, _), None => Ok (ic, [new (map_arr cv v)], None)
        | None, Some (v, _) => Ok ([new (map_arr back v)], oc, None)
        | _, _ => Ok (ic, oc, None)
        end
    | _, _ => Err
    end.
  (** def_inverse_and_ildj: custom_inverse.py:82-138.  A None in the result raises AttributeError: NDSlice.new is applied
      to the sentinel that replaces it. *)
  Fixpoint custom_cells (l : list cell) (r : list (option (arrV * arrW))) : res (list cell) :=
    match r, l with
    | None :: _, _ => Err
    | Some (v, j) :: r', c :: l' => rbind (custom_cells l' r') (fun m => Ok (mk_cell (c_aval c) [nd_new v j] :: m))
    | Some _ :: r', [] => custom_cells [] r'
    | [], _ => Ok []
    end.
  (** def_inverse_unary: custom_inverse.py:57-80, with f_inv_ and f_ildj_ given; one input and one output array *)
  Definition unary_inverse (f_inv : arrV -> arrV) (f_ildj : arrV -> arrW) (invals : list (option arrV)) (outvals : list arrV) (outildjs : list arrW) : res (option (list (option (arrV * arrW)))) :=
    match invals, outvals, outildjs with
    | [None], [v], [j] => Ok (Some [Some (f_inv v, lift2 wplus (f_ildj v) j)])
    | _, _, _ => Ok None
    end.
  Definition custom_rule (nc : nat) (F : list arrV -> list arrV) (inv : list (option arrV) -> list arrV -> list arrW -> res (option (list (option (arrV * arrW))))) (ic oc : list cell) : result :=
    let cc := firstn nc ic in let xc := skipn nc ic in
    match kn_all xc, kn_all oc with
    | None, Some lo => rbind (inv (map (fun c => option_map fst (kn c)) xc) (vals lo) (map snd lo)) (fun r =>
                       match r with
                       | None => Ok (cc ++ xc, oc, None)
                       | Some l => rbind (custom_cells xc l) (fun xc' => Ok (cc ++ xc', oc, None))
                       end)
    | Some lx, None => Ok (cc ++ xc, map new (F (vals lx)), None)
    | _, _ => Ok (cc ++ xc, oc, None)
    end.
  (** bijector_ildj_rule: bijector_extensions.py:36-70.  new_outcells is unbound in every case but two, and in the
      forward case the bijector's cells are returned twice.  One argument. *)
  Definition bijector_rule (nc nb : nat) (F G : list arrV -> arrV -> arrV) (J : list arrV -> arrV -> arrW) (ic oc : list cell) : result :=
    let cc := firstn nc ic in let fc := skipn nc ic in let bc := firstn nb fc in
    match kn_all bc with
    | None => Ok (cc ++ fc, oc, None)
    | Some lb =>
        match oc, rev fc with
        | [o], i :: _ =>
            if bottom i && negb (bottom o)
            then match kn o with
                 | Some (v, j) => Ok (cc ++ bc ++ [mk_cell (c_aval i) [nd_new (G (vals lb) v) (lift2 wplus j (J (vals lb) v))]], oc, None)
                 | None => Err
                 end
            else if bottom o && negb (bottom i)
            then match kn i with
                 | Some (v, _) => Ok (cc ++ bc ++ fc, [new (F (vals lb) v)], None)
                 | None => Err
                 end
            else Err
        | _, _ => Err
        end
    end.
  (** ildj_registry *)
  Definition rules (p : prim) (ic oc : list cell) : result :=
    match p with
    | PElem e => elem_rule e ic oc
    | PBin b => bin_rule b ic oc
    | PDefault F => default_rule F ic oc
    | PSlice sl => slice_rule sl ic oc
    | PConcat d => concat_rule d ic oc
    | PReshape sh => reshape_rule sh ic oc
    | PConvert cv back => convert_rule cv back ic oc
    | PTie => tie_rule ic oc
    | PSow => sow_rule ic oc
    | PCustom nc F inv => custom_rule nc F inv ic oc
    | PBijector nc nb F G J => bijector_rule nc nb F G J ic oc
    end.

  (** *** Jaxprs *)
  Notation atom := (atom (list nat) arrV). Notation frame := (frame (list nat) arrV).
  (** what the reducer of log_prob needs to know of a primitive *)
  Inductive tag := TSample | TPlate | TOther.
  Notation node := (node cell (list nat) arrV tag (option W)). Notation prule := (prule cell (option W)). Notation env := (env cell).
  (** Equations: primitives; calls (call_p, nest_p, pjit_p, other higher-order primitives); initial-style primitives
      without a rule of their own, whose first arguments are the constants of the body; random_variable_p, with the
      log-density of a sample given the distribution's parameters (summed over batch dimensions); plate_p *)
  Inductive jx := Jx (fr : frame) (eqns : list qn)
  with qn :=
  | QPrim (p : prim) (ins outs : list atom)
  | QCall (J : jx) (ins outs : list atom)
  | QInitial (J : jx) (ins outs : list atom)
  | QSample (lp : list arrV -> list arrV -> W) (J : jx) (ins outs : list atom)
  | QPlate (psum : W -> W) (J : jx) (ins outs : list atom).
  Inductive mode := MInverse | MLogProb.
  Definition is_registered (nd : node) : bool := match n_prim nd with Some TSample => true | Some TPlate => true | _ => false end.
  (** identity_reducer (propagate.py:235-237) and the reducer of log_prob_jaxpr (log_prob.py:95-113) *)
  Definition red (m : mode) (e : env) (nd : node) (cur : option W) (st : option (option W)) : option W :=
    match m with
    | MInverse => cur
    | MLogProb =>
        match cur, st with
        | None, _ => None
        | _, Some None => None
        | Some c, None => if is_registered nd then None else Some c
        | Some c, Some (Some n) =>
            if is_registered nd
            then Some (wplus (wplus c n) (fold_left (fun s a => match kn (read unknown new e a) with Some (_, j) => wplus s (asum j) | None => s end) (n_outs nd) w0))
            else Some (wplus c n)
        end
    end.
  (** make_default_rule: log_prob.py:132-143 *)
  Definition catch (m : mode) (r : result) (ic oc : list cell) : result := match m, r with MLogProb, NotImpl => Ok (ic, oc, None) | _, _ => r end.
  Definition prop (m : mode) := propagate unknown new join cell_lt (red m) (Some w0).
  (** initial_ildj: core.py:298-306 *)
  Definition initial_rule (fuel : nat) (ord : oracle) (fr : frame) (nodes : list node) : prule := fun stamp ic oc =>
    let n := length (f_const fr) in
    rbind (prop MInverse fuel ord stamp fr nodes (firstn n ic) (skipn n ic) oc) (fun '(e, _) =>
    Ok (firstn n ic ++ map (read unknown new e) (f_in fr), map (read unknown new e) (f_out fr), None)).
  (** call_rule: propagate.py:350-361 *)
  Definition icall_rule (m : mode) (fuel : nat) (ord : oracle) (fr : frame) (nodes : list node) : prule := fun stamp ic oc =>
    rbind (prop m fuel ord stamp fr nodes [] ic oc) (fun '(e, s) => Ok (map (read unknown new e) (f_in fr), map (read unknown new e) (f_out fr), Some s)).
  (** random_variable_log_prob_rule: distribution_extensions.py:40-54 *)
  Definition sample_rule (nc : nat) (lp : list arrV -> list arrV -> W) (ic oc : list cell) : result :=
    match kn_all (skipn 1 (skipn nc ic)), kn_all oc with
    | Some lx, Some lo => Ok (ic, oc, Some (Some (lp (vals lx) (vals lo))))
    | _, _ => Ok (ic, oc, None)
    end.
  (** plate_log_prob_rule: plate_util.py:49-52 *)
  Definition plate_rule (psum : W -> W) (r : result) : result :=
    rbind r (fun '(ic, oc, s) => Ok (ic, oc, match s with Some (Some w) => Some (Some (psum w)) | _ => s end)).
  Fixpoint node_of (m : mode) (fuel : nat) (ord : oracle) (q : qn) {struct q} : node :=
    match q with
    | QPrim p i o => mk_node (Some TOther) i o (fun _ ic oc => catch m (rules p ic oc) ic oc)
    | QCall (Jx fr eqns) i o => mk_node (Some TOther) i o (icall_rule m fuel ord fr (map (node_of m fuel ord) eqns))
    | QInitial (Jx fr eqns) i o => let nodes := map (node_of MInverse fuel ord) eqns in
        mk_node (Some TOther) i o (fun st ic oc => catch m (initial_rule fuel ord fr nodes st ic oc) ic oc)
    | QSample lp (Jx fr eqns) i o => let nodes := map (node_of MInverse fuel ord) eqns in
        match m with
        | MInverse => mk_node (Some TSample) i o (initial_rule fuel ord fr nodes)
        | MLogProb => mk_node (Some TSample) i o (fun _ => sample_rule (length (f_const fr)) lp)
        end
    | QPlate psum (Jx fr eqns) i o => let r := icall_rule m fuel ord fr (map (node_of m fuel ord) eqns) in
        mk_node (Some TPlate) i o (fun st ic oc => match m with MInverse => r st ic oc | MLogProb => plate_rule psum (r st ic oc) end)
    end.
  Definition run (m : mode) (fuel : nat) (ord : oracle) (J : jx) (cc ic oc : list cell) : res (env * option W) :=
    match J with Jx fr eqns => prop m fuel ord [] fr (map (node_of m fuel ord) eqns) cc ic oc end.

  Definition j_frame (J : jx) : frame := match J with Jx fr _ => fr end.
  Definition aval_of (a : atom) : list nat := match a with AVar _ av => av | ADrop av => av | ALit l => a_shape l end.
  (** inverse_and_ildj: core.py:156-188; the flattened values and, for each input, its ILDJ (reduce_ildj=False).  Tracing f
      to a jaxpr and the pytrees of arguments are not modelled. *)
  Definition inverse_and_ildj (fuel : nat) (ord : oracle) (J : jx) (consts y : list arrV) : res (list (arrV * arrW)) :=
    let ins := f_in (j_frame J) in
    rbind (run MInverse fuel ord J (map new consts) (map (fun a => unknown (aval_of a)) ins) (map new y)) (fun '(e, _) =>
    match kn_all (map (read unknown new e) ins) with Some l => Ok l | None => Err end).
  (** inverse and ildj (with reduce_ildj=True): core.py:191-202, 181-182 *)
  Definition inverse (fuel : nat) (ord : oracle) (J : jx) (consts y : list arrV) : res (list arrV) := rbind (inverse_and_ildj fuel ord J consts y) (fun l => Ok (map fst l)).
  Definition ildj_sum (l : list arrW) : W := fold_left (fun s j => wplus s (asum j)) l w0.
  Definition ildj_of (fuel : nat) (ord : oracle) (J : jx) (consts y : list arrV) : res W := rbind (inverse_and_ildj fuel ord J consts y) (fun l => Ok (ildj_sum (map snd l))).
  (** log_prob, log_prob_jaxpr: log_prob.py:56-129.  The first input of the jaxpr is the random key. *)
  Definition log_prob (fuel : nat) (ord : oracle) (J : jx) (consts sample args : list arrV) : res W :=
    match f_in (j_frame J) with
    | k :: _ => rbind (run MLogProb fuel ord J (map new consts) (unknown (aval_of k) :: map new args) (map new sample)) (fun '(_, s) => match s with Some w => Ok w | None => Err end)
    | [] => Err
    end.
End Inverse.
