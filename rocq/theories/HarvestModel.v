(** Model of oryx/core/interpreters/harvest.py: sow, nest, reap, plant, harvest.

    Programs.  The harvest transformations act on traced JAX programs.  A program is a term of [prog A B]: a function
    from an environment of (Coq) type A to one of type B built from arbitrary sow-free computations ([Pure], any number
    of primitive equations, possibly raising), composition, [First] (the other variables in scope), sow, nest, inlined
    calls (core.call, pjit, checkpoint, and under reap custom_jvp/vjp functions, see CustomJvpModel.v), scan, while and cond.  The transformations
    are program transformations, so they can be nested (harvest = reap of plant, an outer harvest of another tag, ...).

    Simplifications: cond has two branches; pmap/vmap/shard_map and derivative rules are not modelled; a sown value is a
    tree whose leaves are arrays; an array with a leading scan axis is represented by the list of its slices [Stk];
    dictionaries are association lists (JAX sorts their keys; only the late binding of [mode] in the scan rule can
    observe this, and it is modelled, see [last_mode]); a while loop that needs more than [fuel] iterations is [Timeout]. *)
From Verif Require Export Dict.

Inductive herr := ValueErr | TypeErr | KeyErr | Timeout | UserErr (n : nat).
Definition res (A : Type) : Type := (A + herr)%type.
Definition rb {A B} (x : res A) (f : A -> res B) : res B := match x with inl a => f a | inr e => inr e end.

(** Arrays: an abstract type with shapes/dtypes (avals) and zeros *)
Class Arrays := {
  V : Type; Av : Type;
  av_eqb : Av -> Av -> bool; av_eqb_spec : forall x y, av_eqb x y = true <-> x = y;
  avalV : V -> Av; zeroV : Av -> V; aval_zero : forall a, avalV (zeroV a) = a }.

Section harvest.
  Context {AR : Arrays}.

  (** sown values: pytrees of arrays *)
  Inductive tree := Leaf (v : V) | Dict (l : list (string * tree)) | Stk (l : list tree).
  Inductive aval := AL (a : Av) | AD (l : list (string * aval)) | AS (n : nat) (a : aval).
  Fixpoint zeros (a : aval) : tree :=
    match a with
    | AL x => Leaf (zeroV x)
    | AD l => Dict (map (fun ka => (fst ka, zeros (snd ka))) l)
    | AS n a => Stk (repeat (zeros a) n)
    end.
  Fixpoint zeros_like (t : tree) : tree :=
    match t with
    | Leaf v => Leaf (zeroV (avalV v))
    | Dict l => Dict (map (fun kt => (fst kt, zeros_like (snd kt))) l)
    | Stk l => Stk (map zeros_like l)
    end.
  Fixpoint has_aval (t : tree) (a : aval) {struct t} : bool :=
    match t, a with
    | Leaf v, AL x => av_eqb (avalV v) x
    | Dict l, AD m =>
        (fix go (l : list (string * tree)) (m : list (string * aval)) : bool :=
           match l, m with
           | [], [] => true
           | (k, t) :: l', (k', a) :: m' => String.eqb k k' && has_aval t a && go l' m'
           | _, _ => false
           end) l m
    | Stk l, AS n a => Nat.eqb (List.length l) n && forallb (fun t => has_aval t a) l
    | _, _ => false
    end.
  Fixpoint aval_eqb (a b : aval) {struct a} : bool :=
    match a, b with
    | AL x, AL y => av_eqb x y
    | AD l, AD m =>
        (fix go (l m : list (string * aval)) : bool :=
           match l, m with
           | [], [] => true
           | (k, a) :: l', (k', b) :: m' => String.eqb k k' && aval_eqb a b && go l' m'
           | _, _ => false
           end) l m
    | AS n a, AS k b => Nat.eqb n k && aval_eqb a b
    | _, _ => false
    end.
  (** avals of arrays (as opposed to dictionaries of arrays) *)
  Fixpoint is_array (a : aval) : bool := match a with AL _ => true | AD _ => false | AS _ a => is_array a end.

  (** sow modes, harvest.py:232-294 *)
  Inductive mode := Strict | Append | Clobber | CondClobber.
  Definition is_cond (m : mode) : bool := match m with CondClobber => true | _ => false end.
  Definition clobberish (m : mode) : bool := match m with Clobber | CondClobber => true | _ => false end.
  Definition is_strict (m : mode) : bool := match m with Strict => true | _ => false end.
  Definition is_append (m : mode) : bool := match m with Append => true | _ => false end.

  Inductive prog : Type -> Type -> Type :=
  | Pure {A B} (f : A -> res B) : prog A B
  | Seq {A B C} (p : prog A B) (q : prog B C) : prog A C
  | First {A B} (C : Type) (p : prog A B) : prog (A * C) (B * C)
  | Sow (tag name : string) (m : mode) (av : aval) : prog tree tree
  | SowCond (tag name : string) (av : aval) : prog (tree * bool) tree
  | Nest {A B} (scope : string) (p : prog A B) : prog A B
  | Call {A B} (p : prog A B) : prog A B
  | Scan {C X Y} (reverse : bool) (len : nat) (p : prog (C * X) (C * Y)) : prog (C * list X) (C * list Y)
  | While {C} (c : C -> res bool) (p : prog C C) : prog C C
  | Cond {A B} (p q : prog A B) : prog (bool * A) B.

  (** ** Execution without a harvest transformation: sow_p.def_impl (harvest.py:197-199) and nest_p's impl (311-316) are
      identities *)
  Definition chk (av : aval) (v : tree) : res tree := if has_aval v av then inl v else inr TypeErr.
  Fixpoint scan_loop {C X Y} (f : C * X -> res (C * Y)) (c : C) (xs : list X) : res (C * list Y) :=
    match xs with
    | [] => inl (c, [])
    | x :: xs' => rb (f (c, x)) (fun cy => rb (scan_loop f (fst cy) xs') (fun r => inl (fst r, snd cy :: snd r)))
    end.
  Definition rev_if {X} (r : bool) (l : list X) : list X := if r then rev l else l.
  (** lax.scan; with reverse=True the iterations run from the last index to the first *)
  Definition scan_sem {C X Y} (r : bool) (len : nat) (f : C * X -> res (C * Y)) (cx : C * list X) : res (C * list Y) :=
    if Nat.eqb (List.length (snd cx)) len then
      rb (scan_loop f (fst cx) (rev_if r (snd cx))) (fun cy => inl (fst cy, rev_if r (snd cy)))
    else inr TypeErr.
  Fixpoint while_loop {C} (fuel : nat) (c : C -> res bool) (f : C -> res C) (s : C) : res C :=
    rb (c s) (fun b => if b then match fuel with O => inr Timeout | S n => rb (f s) (while_loop n c f) end else inl s).
  Fixpoint run (fuel : nat) {A B} (p : prog A B) : A -> res B :=
    match p in prog A B return A -> res B with
    | Pure f => f
    | Seq p q => fun a => rb (run fuel p a) (run fuel q)
    | First _ p => fun ac => rb (run fuel p (fst ac)) (fun b => inl (b, snd ac))
    | Sow _ _ m av => fun v => if is_cond m then inr ValueErr else chk av v   (* 252-253: sow rejects 'cond_clobber' *)
    | SowCond _ _ av => fun vp => chk av (fst vp)
    | Nest _ p | Call p => run fuel p
    | Scan r n p => scan_sem r n (run fuel p)
    | While c p => while_loop fuel c (run fuel p)
    | Cond p q => fun ba => if fst ba then run fuel p (snd ba) else run fuel q (snd ba)
    end.

  (** ** HarvestSettings, harvest.py:439-446, and the filters of process_sow 453-466 *)
  Record settings := mk_settings { tag_of : string; blocklist : list string; allowlist : option (list string); exclusive : bool }.
  Definition passes (s : settings) (n : string) : bool :=
    match allowlist s with Some l => mem n l | None => true end && negb (mem n (blocklist s)).

  (** ** reap *)
  (** the static part of ReapContext.reaps: mode and aval per name; the dynamic part: value and predicate *)
  Definition meta := list (string * (mode * aval)).
  Definition dict := list (string * (tree * option bool)).
  (** ReapContext.handle_sow, harvest.py:511-533: the checks and the recorded metadata; lax.cond rejects different avals *)
  Definition handle (M : meta) (n : string) (m : mode) (av : aval) : res meta :=
    match dget M n with
    | Some (m0, av0) =>
        if clobberish m && clobberish m0
        then if is_cond m && negb (aval_eqb av av0) then inr TypeErr else inl (dset M n (m, av))
        else inr ValueErr
    | None => inl (dset M n (m, av))
    end.
  (** ... and the stored value (518-533); [pred = None] for the modes other than cond_clobber *)
  Definition store (d : dict) (n : string) (v : tree) (pred : option bool) : dict :=
    match pred with
    | None => dset d n (v, None)
    | Some pr =>
        match dget d n with
        | None => dset d n (v, Some pr)
        | Some (v0, None) => dset d n (if pr then v else v0, Some pr)
        | Some (v0, Some pr0) => dset d n (if pr then v else v0, Some (pr || pr0)%bool)
        end
    end.
  (** re-sowing the reaps of an inner program in the current context (harvest.py:535-556, 558-567, 569-584, 915-922, 989-994, 1048-1054):
      the names go through process_sow again *)
  Fixpoint resow_meta (s : settings) (M : meta) (l : meta) : res meta :=
    match l with
    | [] => inl M
    | (n, (m, av)) :: l' => rb (if passes s n then handle M n m av else inl M) (fun M' => resow_meta s M' l')
    end.
  Definition resow (s : settings) (ns : list string) (inner d : dict) : dict :=
    fold_left (fun d n => if passes s n then match dget inner n with Some (v, pr) => store d n v pr | None => d end else d) ns d.

  (** mode of the last entry in key order: the variable [mode] of _reap_scan_rule (harvest.py:827-866) as seen by the
      closure new_body (868-895), which is traced after the loop *)
  Definition last_entry (M : meta) : option (string * (mode * aval)) :=
    fold_left (fun acc e => match acc with None => Some e | Some f => if String.ltb (fst f) (fst e) then Some e else Some f end) M None.
  Definition last_mode (M : meta) : mode := match last_entry M with Some (_, (m, _)) => m | None => Strict end.
  Definition clobbers (M : meta) : meta := filter (fun e => clobberish (fst (snd e))) M.
  Definition appends (M : meta) : meta := filter (fun e => is_append (fst (snd e))) M.
  (** zeros carried into the loop, harvest.py:891-896, 966-972 *)
  Definition carry0 (M : meta) : dict :=
    map (fun e => (fst e, (zeros (snd (snd e)), if is_cond (fst (snd e)) then Some false else None))) (clobbers M).
  (** _update_clobber_carry, harvest.py:816-824 *)
  Definition update_carry (m : mode) (n : string) (D carry : dict) : dict :=
    match dget D n, dget carry n with
    | Some (v, pr), Some (v0, pr0) =>
        if is_cond m then (if match pr with Some b => b | None => false end then dset carry n (v, Some true) else carry)
        else dset carry n (v, pr0)
    | _, _ => carry
    end.
  Definition scan_carry (M : meta) (D carry : dict) : dict :=
    fold_left (fun c e => update_carry (last_mode M) (fst e) D c) (clobbers M) carry.
  Definition while_carry (M : meta) (D carry : dict) : dict :=
    fold_left (fun c e => update_carry (fst (snd e)) (fst e) D c) (clobbers M) carry.
  Definition value_of (D : dict) (n : string) : tree := match dget D n with Some (v, _) => v | None => Dict [] end.
  Definition stacked (M : meta) (Ds : list dict) : dict :=
    map (fun e => (fst e, (Stk (map (fun D => value_of D (fst e)) Ds), None))) (appends M).
  Definition stack_meta (len : nat) (M : meta) : meta := map (fun e => (fst e, (fst (snd e), AS len (snd (snd e))))) M.

  (** _check_branch_metadata, harvest.py:997-1010 (a tree-valued sow has no .shape: AttributeError), and cond's demand
      that the branches return equally many values (predicates) *)
  Fixpoint check_branch (M0 : meta) (M1 : meta) : res unit :=
    match M1 with
    | [] => inl tt
    | (n, (m, av)) :: M1' =>
        match dget M0 n with
        | None => inr ValueErr
        | Some (m0, av0) =>
            if is_array av && is_array av0 then
              if aval_eqb av av0 then
                if Bool.eqb (is_cond m) (is_cond m0) then check_branch M0 M1' else inr TypeErr
              else inr ValueErr
            else inr TypeErr
        end
    end.
  Definition check_branches (M0 M1 : meta) : res unit :=
    if Nat.eqb (List.length M1) (List.length M0) then check_branch M0 M1 else inr ValueErr.

  Definition swap {A C D} (x : (A * C) * D) : (A * D) * C := ((fst (fst x), snd x), snd (fst x)).

  (** reap_function, harvest.py:647-662, as a program transformation: [M] is the metadata of the context so far.  The
      metadata probe _get_harvest_metadata (794-813) is the same analysis with exclusive=True, which does not influence
      what is recorded for the own tag; it is not repeated here. *)
  Fixpoint reapT (s : settings) {A B} (p : prog A B) : meta -> res (meta * prog (A * dict) (B * dict)) :=
    match p in prog A B return meta -> res (meta * prog (A * dict) (B * dict)) with
    | Pure f => fun M => inl (M, First dict (Pure f))
    | Seq p q => fun M => rb (reapT s p M) (fun r => rb (reapT s q (fst r)) (fun r' => inl (fst r', Seq (snd r) (snd r'))))
    | First C p => fun M => rb (reapT s p M) (fun r => inl (fst r,
        Seq (Pure (fun x => inl (swap x))) (Seq (First C (snd r)) (Pure (fun x => inl (swap x))))))
    | Sow t n m av => fun M => if is_cond m then inr ValueErr else
        if String.eqb t (tag_of s) then
          if passes s n then rb (handle M n m av) (fun M' =>
            inl (M', Pure (fun vd => rb (chk av (fst vd)) (fun v => inl (v, store (snd vd) n v None)))))
          else inl (M, First dict (Pure (chk av)))
        else if exclusive s then inl (M, First dict (Pure (chk av)))
        else inl (M, First dict (Sow t n m av))
    | SowCond t n av => fun M =>
        if String.eqb t (tag_of s) then
          if passes s n then rb (handle M n CondClobber av) (fun M' =>
            inl (M', Pure (fun vd => rb (chk av (fst (fst vd))) (fun v => inl (v, store (snd vd) n v (Some (snd (fst vd))))))))
          else inl (M, First dict (Pure (fun vp => chk av (fst vp))))
        else if exclusive s then inl (M, First dict (Pure (fun vp => chk av (fst vp))))
        else inl (M, First dict (SowCond t n av))
    | @Nest A B sc p => fun M =>                                                        (* 558-567: predicates are dropped *)
        rb (reapT s p []) (fun r =>
          rb (match fst r with [] => inl M
              | _ => resow_meta s M [(sc, (Strict, AD (map (fun e => (fst e, snd (snd e))) (fst r))))] end) (fun M' =>
            inl (M', Seq (First dict (Nest sc (Seq (Pure (fun a => inl (a, [] : dict))) (snd r))))
                         (Pure (fun x : (B * dict) * dict => inl (fst (fst x),
                            match fst r with [] => snd x
                            | _ => resow s [sc] [(sc, (Dict (map (fun e => (fst e, fst (snd e))) (snd (fst x))), None))] (snd x) end))))))
    | @Call A B p => fun M =>                                                           (* 569-584, 1057-1088, 1113-1173 *)
        rb (reapT s p []) (fun r => rb (resow_meta s M (fst r)) (fun M' =>
          inl (M', Seq (First dict (Call (Seq (Pure (fun a => inl (a, [] : dict))) (snd r))))
                       (Pure (fun x : (B * dict) * dict => inl (fst (fst x), resow s (dkeys (fst r)) (snd (fst x)) (snd x)))))))
    | @Scan C X Y rv len p => fun M =>                                                  (* 827-922 *)
        rb (reapT s p []) (fun r =>
          let Mb := fst r in
          if existsb (fun e => is_strict (fst (snd e))) Mb then inr ValueErr             (* 849-850: strict sows in a scan *)
          else if is_cond (last_mode Mb) && existsb (fun e => negb (is_cond (fst (snd e)))) (clobbers Mb) then inr TypeErr
            (* lax.cond on the missing predicate of a clobber name *)
          else rb (resow_meta s M (clobbers Mb ++ stack_meta len (appends Mb))) (fun M' =>
            let body : prog ((C * dict) * X) ((C * dict) * (Y * dict)) :=
              Seq (Pure (fun x => inl (((fst (fst x), snd x), [] : dict), snd (fst x))))
                (Seq (First dict (snd r))
                  (Pure (fun x : ((C * Y) * dict) * dict =>
                     inl ((fst (fst (fst x)), scan_carry Mb (snd (fst x)) (snd x)), (snd (fst (fst x)), snd (fst x)))))) in
            inl (M', Seq (Pure (fun x => inl (((fst (fst x), carry0 Mb), snd (fst x)), snd x)))
                       (Seq (First dict (Scan rv len body))
                         (Pure (fun x : ((C * dict) * list (Y * dict)) * dict =>
                            inl ((fst (fst (fst x)), map fst (snd (fst x))),
                                 resow s (dkeys (appends Mb)) (stacked Mb (map snd (snd (fst x))))
                                   (resow s (dkeys (clobbers Mb)) (snd (fst (fst x))) (snd x)))))))))
    | @While C c p => fun M =>                                                          (* 925-994 *)
        rb (reapT s p []) (fun r =>
          let Mb := fst r in
          if existsb (fun e => negb (clobberish (fst (snd e)))) Mb then inr ValueErr     (* modes other than clobber *)
          else rb (resow_meta s M Mb) (fun M' =>
            let body : prog (C * dict) (C * dict) :=
              Seq (Pure (fun x => inl ((fst x, [] : dict), snd x)))
                (Seq (First dict (snd r))
                  (Pure (fun x : (C * dict) * dict => inl (fst (fst x), while_carry Mb (snd (fst x)) (snd x))))) in
            inl (M', Seq (Pure (fun x => inl ((fst x, carry0 Mb), snd x)))
                       (Seq (First dict (While (fun x => c (fst x)) body))
                         (Pure (fun x : (C * dict) * dict => inl (fst (fst x), resow s (dkeys Mb) (snd (fst x)) (snd x))))))))
    | @Cond A B p q => fun M =>                                                         (* 1013-1054 *)
        rb (reapT s p []) (fun r => rb (reapT s q []) (fun r' => rb (check_branches (fst r) (fst r')) (fun _ =>
          rb (resow_meta s M (fst r)) (fun M' =>
            inl (M', Seq (First dict (Cond (Seq (Pure (fun a => inl (a, [] : dict))) (snd r)) (Seq (Pure (fun a => inl (a, [] : dict))) (snd r'))))
                         (Pure (fun x : (B * dict) * dict => inl (fst (fst x), resow s (dkeys (fst r)) (snd (fst x)) (snd x)))))))))
    end.

  (** call_and_reap, harvest.py:685-752: names whose predicate is False become zeros *)
  Definition final (d : dict) : list (string * tree) :=
    map (fun e => (fst e, match snd (snd e) with Some false => zeros_like (fst (snd e)) | _ => fst (snd e) end)) d.
  Definition call_and_reap (s : settings) {A B} (p : prog A B) : res (prog A (B * list (string * tree))) :=
    rb (reapT s p []) (fun r => inl (Seq (Pure (fun a => inl (a, [] : dict))) (Seq (snd r) (Pure (fun x => inl (fst x, final (snd x))))))).

  (** ** plant *)
  (** the static structure of a plants dictionary *)
  Inductive skel := SLeaf | SDict (l : list (string * skel)).
  Fixpoint skel_of (t : tree) : skel :=
    match t with Dict l => SDict (map (fun kt => (fst kt, skel_of (snd kt))) l) | _ => SLeaf end.
  Definition skels_of (pd : list (string * tree)) : list (string * skel) := map (fun kt => (fst kt, skel_of (snd kt))) pd.
  Notation plants := (list (string * tree)).
  (** the planted program never looks into its plants: no sow reaches handle_sow ([name in self.plants], 1192), there is
      no nest ([plants.get], 1221) and no scan ([plants.items()], 1361).  Such a program also runs when the plants of its
      scope are an array instead of a dictionary (as happens in [intervene] of a function [random_variable]). *)
  Fixpoint quiet (s : settings) {A B} (p : prog A B) : bool :=
    match p with
    | Pure _ => true
    | Seq p q => quiet s p && quiet s q
    | First _ p => quiet s p
    | Sow t n _ _ | SowCond t n _ => negb (String.eqb t (tag_of s) && passes s n)
    | Nest _ _ | Scan _ _ _ => false
    | Call p => quiet s p
    | While _ p => quiet s p
    | Cond p q => quiet s p && quiet s q
    end.
  (** [plants.get(scope, {})], harvest.py:1201-1225 *)
  Definition sub_skel (q : bool) (sk : list (string * skel)) (sc : string) : res (list (string * skel)) :=
    match dget sk sc with None => inl [] | Some (SDict l) => inl l | Some SLeaf => if q then inl [] else inr TypeErr end.
  Definition sub_plants (sk : list (string * skel)) (pd : plants) (sc : string) : plants :=
    match dget sk sc, dget pd sc with Some (SDict _), Some (Dict l) => l | _, _ => [] end.
  (** a planted value; planting a value of another shape leaves the model (TypeErr) *)
  Definition planted (av : aval) (pd : plants) (n : string) : res tree :=
    match dget pd n with Some v => chk av v | None => inr TypeErr end.
  (** plants for iteration i of a scan, harvest.py:1330-1407: clobber plants unchanged, append plants sliced *)
  Definition clob_plants (M : meta) (pd : plants) : plants :=
    filter (fun kv => match dget M (fst kv) with Some (m, _) => clobberish m | None => false end) pd.
  Definition app_plants (M : meta) (pd : plants) : plants :=
    filter (fun kv => match dget M (fst kv) with Some (m, _) => is_append m | None => false end) pd.
  Fixpoint slices (len : nat) (pd : plants) : res (list plants) :=
    match pd with
    | [] => inl (repeat [] len)
    | (n, Stk l) :: pd' =>
        if Nat.eqb (List.length l) len
        then rb (slices len pd') (fun ps => inl (map (fun tp => (n, fst tp) :: snd tp) (combine l ps)))
        else inr TypeErr
    | _ => inr TypeErr
    end.
  Definition scan_plants (M : meta) (len : nat) (pd : plants) : res (list plants) :=
    rb (slices len (app_plants M pd)) (fun ps => inl (map (fun p => p ++ clob_plants M pd) ps)).
  Definition scan_skel (M : meta) (sk : list (string * skel)) : list (string * skel) :=
    map (fun kv => (fst kv, SLeaf)) (filter (fun kv => match dget M (fst kv) with Some (m, _) => is_append m | None => false end) sk) ++
    filter (fun kv => match dget M (fst kv) with Some (m, _) => clobberish m | None => false end) sk.
  Definition haskey {A} (l : list (string * A)) (n : string) : bool := match dget l n with Some _ => true | None => false end.

  (** plant_function, harvest.py:1264-1272: [sk] the structure of the plants, [done] the names already planted in this
      context (1176-1199) *)
  Fixpoint plantT (s : settings) {A B} (p : prog A B) : list (string * skel) -> list string -> res (list string * prog (A * plants) B) :=
    match p in prog A B return list (string * skel) -> list string -> res (list string * prog (A * plants) B) with
    | Pure f => fun sk dn => inl (dn, Pure (fun x => f (fst x)))
    | Seq p q => fun sk dn => rb (plantT s p sk dn) (fun r => rb (plantT s q sk (fst r)) (fun r' =>
        inl (fst r', Seq (Pure (fun x => inl ((fst x, snd x), snd x))) (Seq (First plants (snd r)) (snd r')))))
    | First C p => fun sk dn => rb (plantT s p sk dn) (fun r =>
        inl (fst r, Seq (Pure (fun x => inl (swap x))) (First C (snd r))))
    | Sow t n m av => fun sk dn => if is_cond m then inr ValueErr else
        if String.eqb t (tag_of s) then
          if passes s n then
            if mem n dn then inr ValueErr                                                 (* handle_sow 1188-1199 *)
            else if haskey sk n then
              inl (if clobberish m then dn else n :: dn, Pure (fun x => rb (chk av (fst x)) (fun _ => planted av (snd x) n)))
            else inl (dn, Seq (Pure (fun x => inl (fst x))) (Sow t n m av))
          else inl (dn, Pure (fun x => chk av (fst x)))
        else if exclusive s then inl (dn, Pure (fun x => chk av (fst x)))
        else inl (dn, Seq (Pure (fun x => inl (fst x))) (Sow t n m av))
    | SowCond t n av => fun sk dn =>
        if String.eqb t (tag_of s) then
          if passes s n then
            if mem n dn then inr ValueErr
            else if haskey sk n then inl (dn, Pure (fun x => rb (chk av (fst (fst x))) (fun _ => planted av (snd x) n)))
            else inl (dn, Seq (Pure (fun x => inl (fst x))) (SowCond t n av))
          else inl (dn, Pure (fun x => chk av (fst (fst x))))
        else if exclusive s then inl (dn, Pure (fun x => chk av (fst (fst x))))
        else inl (dn, Seq (Pure (fun x => inl (fst x))) (SowCond t n av))
    | @Nest A B sc p => fun sk dn =>                                                      (* 1201-1225 *)
        rb (sub_skel (quiet s p) sk sc) (fun sk' => rb (plantT s p sk' []) (fun r =>
          inl (dn, Seq (Pure (fun x => inl (fst x, sub_plants sk (snd x) sc))) (Nest sc (snd r)))))
    | @Call A B p => fun sk dn => rb (plantT s p sk []) (fun r => inl (dn, Call (snd r)))  (* 1205-1225, 1498-1582 *)
    | @Scan C X Y rv len p => fun sk dn =>                                                (* 1330-1407 *)
        rb (reapT s p []) (fun rm =>
          let Mb := fst rm in
          if existsb (fun e => is_strict (fst (snd e))) Mb then inr ValueErr
          else rb (plantT s p (scan_skel Mb sk) []) (fun r =>
            inl (dn, Seq (Pure (fun x : (C * list X) * plants => if Nat.eqb (List.length (snd (fst x))) len then
                            rb (scan_plants Mb len (snd x)) (fun ps => inl (fst (fst x), combine (snd (fst x)) ps)) else inr TypeErr))
                       (Scan rv len (Seq (Pure (fun x : C * (X * plants) => inl ((fst x, fst (snd x)), snd (snd x)))) (snd r))))))
    | @While C c p => fun sk dn =>                                                        (* 1410-1454 *)
        rb (reapT s p []) (fun rm =>
          if existsb (fun e => negb (clobberish (fst (snd e)))) (fst rm) then inr ValueErr
          else rb (plantT s p sk []) (fun r =>
            inl (dn, Seq (While (fun x => c (fst x))
                            (Seq (Pure (fun x : C * plants => inl (x, snd x))) (First plants (snd r))))
                         (Pure (fun x : C * plants => inl (fst x))))))
    | @Cond A B p q => fun sk dn =>                                                       (* 1457-1495 *)
        rb (reapT s p []) (fun m0 => rb (reapT s q []) (fun m1 => rb (check_branches (fst m0) (fst m1)) (fun _ =>
          rb (plantT s p sk []) (fun r => rb (plantT s q sk []) (fun r' =>
            inl (dn, Seq (Pure (fun x : (bool * A) * plants => inl (fst (fst x), (snd (fst x), snd x)))) (Cond (snd r) (snd r'))))))))
    end.
  Definition plant (s : settings) {A B} (p : prog A B) (pd : plants) : res (prog (A * plants) B) :=
    rb (plantT s p (skels_of pd) []) (fun r => inl (snd r)).
  (** harvest, harvest.py:1585-1595 *)
  Definition harvest (s : settings) {A B} (p : prog A B) (pd : plants) : res (prog (A * plants) (B * list (string * tree))) :=
    rb (plant s p pd) (call_and_reap s).
End harvest.
Notation plants := (list (string * tree)).
