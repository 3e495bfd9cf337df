(** Model of oryx/experimental/matching/matcher.py *)
From Verif Require Export PyVal.
Open Scope string_scope.
Open Scope list_scope.

(** Exceptions.  [TypeErr]: Python raises TypeError.  [Mutates]: the code would extend a list object of the
    input in place ([accum += (value,)] with [accum] a list, matcher.py:458-459); such runs leave the model. *)
Inductive err := TypeErr | ValueErr | MatchErr | NotImplErr | KeyErr | IndexErr | AssertErr | RuntimeErr | Mutates.

(** A generator: the values it yields, in order, then possibly an exception. *)
Definition gen (A : Type) : Type := (list A * option err)%type.
Definition gnil {A} : gen A := ([], None).
Definition gerr {A} (e : err) : gen A := ([], Some e).
Definition gret {A} (x : A) : gen A := ([x], None).     (* id_success, matcher.py:264 *)

(** [for x in g: yield from f(x)] *)
Fixpoint gbind_list {A B} (l : list A) (tl : option err) (f : A -> gen B) : gen B :=
  match l with
  | [] => ([], tl)
  | x :: r =>
      match f x with
      | (ys, Some e) => (ys, Some e)
      | (ys, None) => let (zs, t) := gbind_list r tl f in (ys ++ zs, t)
      end
  end.
Definition gbind {A B} (g : gen A) (f : A -> gen B) : gen B := gbind_list (fst g) (snd g) f.

(** Patterns.  A Python literal of numeric type is [PNum]; str, tuple/list and dict patterns are [PStr], [PSeq],
    [PDict] (items in sorted key order as for [VDict]); [PNode] is an [Expression] pattern (class, non-child
    fields, children); the others are the classes of matcher.py:338-602.  [PStar] covers Star, Plus
    ([plus = true], 551-573) and Segment ([p = PVar None []], 576-602). *)
Inductive pat :=
| PNum (k : numkind) (z : Z)
| PStr (s : list ascii)
| PSeq (k : seqkind) (ps : list pat)
| PDict (ks : list string) (ps : list pat)
| PNode (c : string) (hp kp : pat)
| PVar (name : option string) (restr : list (val -> bool))
| PNot (p : pat)
| PChoice (ps : list pat) (name : option string)
| PStar (p : pat) (name : option string) (acc : list string) (greedy plus : bool).

Definition Dot : pat := PVar None [].                                     (* matcher.py:394 *)
Definition Segment (name : option string) : pat := PStar Dot name [] false false.
Definition Plus (p : pat) (name : option string) (acc : list string) (greedy : bool) : pat :=
  PStar p name acc greedy true.

(** Sequence view of a value ([isinstance(expr, Sequence)]): its elements and the constructor of its slices
    (a slice of a str is a str, of a tuple a tuple, of a list a list). *)
Inductive sliceof := SlTuple | SlList | SlStr.
Definition as_seq (e : val) : option (sliceof * list val) :=
  match e with
  | VSeq KTuple l => Some (SlTuple, l)
  | VSeq KList l => Some (SlList, l)
  | VStr s => Some (SlStr, map (fun c => VStr [c]) s)
  | _ => None
  end.
Definition mk_slice (k : sliceof) (l : list val) : val :=
  match k with
  | SlTuple => VSeq KTuple l
  | SlList => VSeq KList l
  | SlStr => VStr (flat_map (fun v => match v with VStr s => s | _ => [] end) l)
  end.

(** [len(v)] *)
Definition py_len (v : val) : option nat :=
  match v with
  | VNum _ _ => None
  | VStr s => Some (List.length s)
  | VSeq _ l => Some (List.length l)
  | VDict ks _ => Some (List.length ks)
  | VNode _ _ _ => None
  end.

(** Star.bind, matcher.py:451-454 *)
Definition star_bind (name : option string) (b : bindings) (v : val) : bindings :=
  match name with Some x => dset b x v | None => b end.

(** Star.accumulate_value, matcher.py:456-460 *)
Definition accumulate_value (b : bindings) (x : string) (v : val) : bindings + err :=
  match dget b x with
  | None => inl (dset b x (VSeq KTuple [v]))
  | Some (VSeq KTuple l) => inl (dset b x (VSeq KTuple (l ++ [v])))
  | Some (VSeq KList _) => inr Mutates
  | Some _ => inr TypeErr
  end.

(** the loop over [m.items()], matcher.py:491-496 *)
Fixpoint fold_new (acc : list string) (m : bindings) (nb : bindings) : bindings + err :=
  match m with
  | [] => inl nb
  | (k, v) :: m' =>
      if mem k acc
      then match accumulate_value nb k v with inl nb' => fold_new acc m' nb' | inr e => inr e end
      else fold_new acc m' (dset nb k v)
  end.

(** Star.accumulate_match, matcher.py:462-497; [inner] is [matcher(self.pattern)(., ., id_success)] *)
Fixpoint accumulate_match (inner : val -> bindings -> gen bindings) (acc : list string)
    (es : list val) (b : bindings) (k : bindings -> gen bindings) : gen bindings :=
  match es with
  | [] => k b
  | e :: es' =>
      let non_acc := filter (fun kv => negb (mem (fst kv) acc)) b in
      gbind (inner e non_acc) (fun m =>
        match fold_new acc m b with
        | inr er => gerr er
        | inl nb => accumulate_match inner acc es' nb k
        end)
  end.

(** [range(int(plus), n+1)], reversed when greedy, matcher.py:528-530 *)
Definition slice_indices (plus greedy : bool) (n : nat) : list nat :=
  let l := if plus then seq 1 n else seq 0 (S n) in
  if greedy then rev l else l.

(** Star.match on a sequence, matcher.py:518-537 (the Sequence test of 518-519 is in the callers) *)
Definition star_match (inner : val -> bindings -> gen bindings) (name : option string) (acc : list string)
    (greedy plus : bool) (sk : sliceof) (es : list val) (b : bindings)
    (k : bindings -> list val -> gen bindings) : gen bindings :=
  match (match name with Some x => dget b x | None => None end) with
  | Some bound =>
      match py_len bound with
      | None => gerr TypeErr
      | Some n => if py_eq bound (mk_slice sk (firstn n es)) then k b (skipn n es) else gnil
      end
  | None =>
      gbind (slice_indices plus greedy (List.length es), None) (fun i =>
        gbind (accumulate_match inner acc (firstn i es) b gret) (fun m =>
          k (dmerge m (star_bind name b (mk_slice sk (firstn i es)))) (skipn i es)))
  end.

(** str_matcher, matcher.py:665-689 with sequence_matcher on the two strings.  The first element of a
    non-empty str pattern is a one-character str, matched by str_matcher again. *)
Fixpoint str_match (s t : list ascii) : bool :=
  if Nat.eqb (List.length t) 1 then list_eqb Ascii.eqb s t
  else match s, t with
       | [], [] => true
       | c :: s', d :: t' => Ascii.eqb c d && str_match s' t'
       | _, _ => false
       end.

(** Choice.match, matcher.py:404-412: [run] matches one alternative, [tuple(...)] forces it *)
Fixpoint choice_match (runs : list (gen bindings)) : gen bindings :=
  match runs with
  | [] => gnil
  | r :: rs =>
      match r with
      | (_, Some e) => gerr e
      | ([], None) => choice_match rs
      | (y :: ys, None) => (y :: ys, None)
      end
  end.

(** matcher(pattern)(expr, bindings, succeed) *)
Fixpoint pmatch (p : pat) (e : val) (b : bindings) (k : bindings -> gen bindings) {struct p} : gen bindings :=
  (* sequence_match, matcher.py:604-662 *)
  let seqm := (fix seqm (sk : sliceof) (ps : list pat) (es : list val) (b : bindings) : gen bindings :=
     match ps with
     | [] => match es with [] => k b | _ => gnil end
     | p1 :: ps' =>
         match p1 with
         | PStar p name acc greedy plus =>
             star_match (fun e b => pmatch p e b gret) name acc greedy plus sk es b
               (fun b' rest => seqm sk ps' rest b')
         | _ => match es with
                | [] => gnil
                | e1 :: es' => pmatch p1 e1 b (fun b' => seqm sk ps' es' b')
                end
         end
     end) in
  match p with
  | PNum kd z => if py_eq e (VNum kd z) then k b else gnil               (* default_match, 288-291 *)
  | PStr s => match e with VStr t => if str_match s t then k b else gnil | _ => gnil end
  | PSeq _ ps => match as_seq e with Some (sk, es) => seqm sk ps es b | None => gnil end
  | PDict ks ps =>                                                        (* dict_matcher, 692-708 *)
      match e with
      | VDict ks' vs => if list_eqb String.eqb ks' ks then seqm SlTuple ps vs b else gnil
      | _ => gnil
      end
  | PNode c hp kp =>                                                      (* Expression.match *)
      match e with
      | VNode c' h kids =>
          if String.eqb c c'
          then pmatch hp (VSeq KTuple h) b (fun b' => pmatch kp (VSeq KTuple kids) b' k)
          else gnil
      | _ => gnil
      end
  | PVar name restr =>                                                    (* Var.match, 370-386 *)
      if forallb (fun r => r e) restr then
        match name with
        | None => k b
        | Some x => match dget b x with
                    | None => k (dset b x e)
                    | Some v => if py_eq v e then k b else gnil
                    end
        end
      else gnil
  | PNot p =>                                                             (* Not.match, 343-347 *)
      match pmatch p e b gret with
      | (_ :: _, _) => gnil
      | ([], Some er) => gerr er
      | ([], None) => k b
      end
  | PChoice ps name =>                                                    (* Choice.match, 404-412 *)
      let b' := match name with Some x => dset b x e | None => b end in
      choice_match ((fix go (ps : list pat) : list (gen bindings) :=
                       match ps with [] => [] | p1 :: ps' => pmatch p1 e b' k :: go ps' end) ps)
  | PStar p name acc greedy plus =>                                       (* a Star outside of a sequence *)
      match as_seq e with
      | None => gnil
      | Some (sk, es) =>
          (* [succeed] takes one argument but gets two: TypeError *)
          star_match (fun e b => pmatch p e b gret) name acc greedy plus sk es b (fun _ _ => gerr TypeErr)
      end
  end.

Definition is_star (p : pat) : bool := match p with PStar _ _ _ _ _ => true | _ => false end.

(** results of ordinary calls *)
Definition result (A : Type) : Type := (A + err)%type.

(** match, is_match, match_all, matcher.py:300-322 *)
Definition match_all (p : pat) (e : val) : gen bindings :=
  if is_star p then gerr ValueErr else pmatch p e [] gret.
Definition match_ (p : pat) (e : val) : result bindings :=
  if is_star p then inr ValueErr
  else match pmatch p e [] gret with
       | (b :: _, _) => inl b
       | ([], Some er) => inr er
       | ([], None) => inr MatchErr
       end.
Definition is_match (p : pat) (e : val) : result bool :=
  if is_star p then inr ValueErr
  else match pmatch p e [] gret with
       | (_ :: _, _) => inl true
       | ([], Some er) => inr er
       | ([], None) => inl false
       end.

(** The sequence matcher as a top-level function (the local [seqm] of [pmatch]). *)
Definition seqm' (k : bindings -> gen bindings) :=
  fix seqm (sk : sliceof) (ps : list pat) (es : list val) (b : bindings) : gen bindings :=
  match ps with
  | [] => match es with [] => k b | _ => gnil end
  | p1 :: ps' =>
      match p1 with
      | PStar p name acc greedy plus =>
          star_match (fun e b => pmatch p e b gret) name acc greedy plus sk es b
            (fun b' rest => seqm sk ps' rest b')
      | _ => match es with
             | [] => gnil
             | e1 :: es' => pmatch p1 e1 b (fun b' => seqm sk ps' es' b')
             end
      end
  end.
Definition seqm sk ps es b k := seqm' k sk ps es b.
