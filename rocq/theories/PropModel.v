(** Model of oryx/core/interpreters/propagate.py: propagation of cells over the graph of a jaxpr. *)
From Coq Require Export List Arith Lia Permutation Bool.
Export ListNotations.
Open Scope list_scope.

(** A Python computation: a value, an exception (NotImplementedError is kept apart), or (in the model only) not enough fuel *)
Inductive res (X : Type) := Ok (x : X) | Err | NotImpl | Timeout.
Arguments Ok {X}. Arguments Err {X}. Arguments NotImpl {X}. Arguments Timeout {X}.
Definition rbind {X Y} (r : res X) (k : X -> res Y) : res Y := match r with Ok x => k x | Err => Err | NotImpl => NotImpl | Timeout => Timeout end.

(** Sets of equations have no defined iteration order: an oracle orders them.  Its first argument is a stamp that
    differs for every set that a run iterates over. *)
Definition oracle := list nat -> list nat -> list nat.

Section Propagate.
  (** cells, abstract values, literal values, primitives (with their parameters), and the states rules return *)
  Context {Cell Aval Lit Prim St : Type}.
  Variable unknown : Aval -> Cell.       (* cell_type.unknown *)
  Variable new : Lit -> Cell.            (* cell_type.new *)
  Variable join : Cell -> Cell -> Cell.  (* Cell.join *)
  Variable lt : Cell -> Cell -> bool.    (* Cell.__lt__ *)

  (** jaxpr variables, literals and DropVars *)
  Inductive atom := AVar (n : nat) (av : Aval) | ALit (l : Lit) | ADrop (av : Aval).
  (** A rule takes the cells of the equation's invars and outvars.  The stamp is used by the rules of calls, which
      propagate inside the called jaxpr. *)
  Definition prule := list nat -> list Cell -> list Cell -> res (list Cell * list Cell * option St).
  (** An equation together with the rule that propagate finds for it: Equation (propagate.py:117-150) and 291-325 *)
  Record node := mk_node { n_prim : option Prim; n_ins : list atom; n_outs : list atom; n_rule : prule }.
  Definition n_atoms (nd : node) : list atom := n_ins nd ++ n_outs nd.
  (** Environment.env, a dictionary: propagate.py:153-193 *)
  Definition env := nat -> option Cell.
  Definition states := nat -> option St.
  Definition upd {X} (f : nat -> option X) (n : nat) (x : option X) : nat -> option X := fun m => if Nat.eqb m n then x else f m.
  (** Environment.read: 162-166 *)
  Definition read (e : env) (a : atom) : Cell :=
    match a with
    | ALit l => new l
    | AVar n av => match e n with Some c => c | None => unknown av end
    | ADrop av => unknown av
    end.
  (** Environment.write: 168-175 *)
  Definition write (e : env) (a : atom) (c : Cell) : env * Cell :=
    match a with
    | ALit _ => (e, c)
    | ADrop _ => (e, read e a)
    | AVar n _ => let c' := join (read e a) c in (upd e n (Some c'), c')
    end.
  (** safe_map(env.write, vars, cells): an exception when the lengths differ *)
  Fixpoint writes (e : env) (l : list atom) (cs : list Cell) : res (env * list Cell) :=
    match l, cs with
    | [], [] => Ok (e, [])
    | a :: l', c :: cs' => let '(e1, c1) := write e a c in rbind (writes e1 l' cs') (fun r => Ok (fst r, c1 :: snd r))
    | _, _ => Err
    end.
  (** construct_graph_representation: 196-210.  A DropVar only neighbours its own equation. *)
  Definition mentions (n : nat) (nd : node) : bool := existsb (fun a => match a with AVar m _ => Nat.eqb m n | _ => false end) (n_atoms nd).
  Definition neighbors (nodes : list node) (a : atom) : list nat :=
    match a with
    | AVar n _ => filter (fun i => match nth_error nodes i with Some nd => mentions n nd | None => false end) (seq 0 (length nodes))
    | _ => []
    end.
  Definition memn (n : nat) (l : list nat) : bool := existsb (Nat.eqb n) l.
  (** update_queue_state: 213-229.  The neighbours that are not in the queue and not the current equation are put, in
      the order of the oracle, at the front of the queue. *)
  Fixpoint update_queue (ord : oracle) (stamp : list nat) (nodes : list node) (cur : nat) (q : list nat) (l : list (atom * (Cell * Cell))) : list nat :=
    match l with
    | [] => q
    | (a, (old, nw)) :: l' =>
        let q' := if lt old nw
                  then ord (0 :: length l :: stamp) (filter (fun i => negb (memn i q) && negb (Nat.eqb i cur)) (neighbors nodes a)) ++ q
                  else q in
        update_queue ord stamp nodes cur q' l'
    end.
  (** the main loop: 291-332 *)
  Fixpoint loop (fuel : nat) (ord : oracle) (stamp : list nat) (nodes : list node) (e : env) (ss : states) (q : list nat) : res (env * states) :=
    match fuel with
    | 0 => Timeout
    | S fuel =>
      match q with
      | [] => Ok (e, ss)
      | i :: q' =>
        match nth_error nodes i with
        | None => Err
        | Some nd =>
          let ic := map (read e) (n_ins nd) in
          let oc := map (read e) (n_outs nd) in
          rbind (n_rule nd (1 :: fuel :: stamp) ic oc) (fun '(ic', oc', st) =>
          rbind (writes e (n_ins nd) ic') (fun '(e1, nic) =>
          rbind (writes e1 (n_outs nd) oc') (fun '(e2, noc) =>
          loop fuel ord stamp nodes e2 (upd ss i st)
               (update_queue ord (fuel :: stamp) nodes i q' (combine (n_atoms nd) (combine (ic ++ oc) (nic ++ noc)))))))
        end
      end
    end.
  (** env.write(var, unknown(var.aval)) for all variables of all equations: 284-286 *)
  Definition init_unknown (e : env) (nodes : list node) : env :=
    fold_left (fun e a => match a with AVar _ av => fst (write e a (unknown av)) | _ => e end) (flat_map n_atoms nodes) e.
  (** the variables of the jaxpr *)
  Record frame := mk_frame { f_const : list atom; f_in : list atom; f_out : list atom }.
  (** the initial environment: 274-276, 284-286 *)
  Definition initial (fr : frame) (nodes : list node) (cc ic oc : list Cell) : res env :=
    rbind (writes (fun _ => None) (f_const fr) cc) (fun '(e1, _) =>
    rbind (writes e1 (f_in fr) ic) (fun '(e2, _) =>
    rbind (writes e2 (f_out fr) oc) (fun '(e3, _) => Ok (init_unknown e3 nodes)))).
  (** the initial queue: 283-290 *)
  Definition initial_queue (ord : oracle) (stamp : list nat) (fr : frame) (nodes : list node) : list nat :=
    ord (2 :: stamp) (nodup Nat.eq_dec (flat_map (neighbors nodes) (f_out fr ++ f_in fr ++ f_const fr))).
  (** folding the reducer over the equations: 333-336 *)
  Variable reducer : env -> node -> St -> option St -> St.
  Fixpoint reduce (e : env) (ss : states) (nodes : list node) (i : nat) (s : St) : St :=
    match nodes with [] => s | nd :: nodes' => reduce e ss nodes' (Datatypes.S i) (reducer e nd s (ss i)) end.
  Variable initial_state : St.
  (** propagate: 247-336 *)
  Definition propagate (fuel : nat) (ord : oracle) (stamp : list nat) (fr : frame) (nodes : list node) (cc ic oc : list Cell) : res (env * St) :=
    rbind (initial fr nodes cc ic oc) (fun e0 =>
    rbind (loop fuel ord stamp nodes e0 (fun _ => None) (initial_queue ord stamp fr nodes)) (fun '(e, ss) =>
    Ok (e, reduce e ss nodes 0 initial_state))).

  (** Jaxprs: equations are primitives or calls (call_p, nest_p, pjit_p and the like) of jaxprs *)
  Inductive jaxpr := Jaxpr (fr : frame) (eqns : list eqn)
  with eqn := EPrim (p : Prim) (ins outs : list atom) | ECall (J : jaxpr) (ins outs : list atom).
  Variable rules : Prim -> list Cell -> list Cell -> res (list Cell * list Cell * option St).
  (** The rule of a call (call_rule 350-361, flat_propagate 339-347, _pjit_propagate_rule 370-408): propagate inside with
      no constant cells, then read the cells of the inner jaxpr.  Flattening cells into arrays and back is not
      modelled. *)
  Definition call_rule (fuel : nat) (ord : oracle) (fr : frame) (nodes : list node) : prule := fun stamp ic oc =>
    rbind (propagate fuel ord stamp fr nodes [] ic oc) (fun '(e, s) => Ok (map (read e) (f_in fr), map (read e) (f_out fr), Some s)).
  Fixpoint node_of (fuel : nat) (ord : oracle) (eq : eqn) {struct eq} : node :=
    match eq with
    | EPrim p i o => mk_node (Some p) i o (fun _ => rules p)
    | ECall (Jaxpr fr eqns) i o => mk_node None i o (call_rule fuel ord fr (map (node_of fuel ord) eqns))
    end.
  Definition propagate_jaxpr (fuel : nat) (ord : oracle) (J : jaxpr) (cc ic oc : list Cell) : res (env * St) :=
    match J with Jaxpr fr eqns => propagate fuel ord [] fr (map (node_of fuel ord) eqns) cc ic oc end.
End Propagate.
Arguments atom : clear implicits. Arguments node : clear implicits. Arguments frame : clear implicits. Arguments jaxpr : clear implicits. Arguments eqn : clear implicits.
Arguments prule : clear implicits. Arguments env : clear implicits.
