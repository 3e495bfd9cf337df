(** C75: what "derivative" means, independently of jax.jvp: curves through a point and their velocities.

    A curve is a function of a real number t; [near] is "for all t close to 0".  [tan_arr c v dv]: the curve of arrays c is at
    v for t = 0 and its elements have the derivatives dv there (keys stay constant and have no tangent).  The other relations
    lift this to trees, pairs, lists and dictionaries, whose form stays the same near 0.
    A relation [tanrel A] also says where a curve may be, so that e.g. a branch on x < 0 is possible on {x | x <> 0}. *)
From Verif Require Export GradHarvestModel OptixModel.
From Coq Require Import Reals.
Open Scope R_scope. Open Scope string_scope. Open Scope list_scope. Open Scope nat_scope.
#[local] Existing Instance RealArrays.

Definition near (P : R -> Prop) : Prop := exists e : R, (0 < e)%R /\ forall t, (Rabs t < e)%R -> P t.
Definition tanrel (A : Type) : Type := (R -> A) -> A -> A -> Prop.
Definition subrel {A} (P Q : tanrel A) : Prop := forall c a da, P c a da -> Q c a da.

(** a curve with its point and its tangent *)
Definition tan3 (A : Type) : Type := ((R -> A) * (A * A))%type.
Definition cu {A} (x : tan3 A) : R -> A := fst x.
Definition pt {A} (x : tan3 A) : A := fst (snd x).
Definition ta {A} (x : tan3 A) : A := snd (snd x).
Definition holds {A} (P : tanrel A) (x : tan3 A) : Prop := P (cu x) (pt x) (ta x).

Definition tan_num (g : R -> R) (x dx : R) : Prop := g 0%R = x /\ derivable_pt_lim g 0 dx.
Definition tan_list {A} (P : tanrel A) : tanrel (list A) := fun c l dl =>
  exists ds, near (fun t => c t = map (fun x => cu x t) ds) /\ l = map pt ds /\ dl = map ta ds /\ Forall (holds P) ds.
Definition tan_arr : tanrel rv := fun c v dv =>
  match v, dv with
  | Num l, Num dl => exists g, near (fun t => c t = Num (g t)) /\ tan_list tan_num g l dl
  | Key k, Key dk => near (fun t => c t = Key k) /\ dk = 0%Z
  | _, _ => False
  end.
Definition at_keys {A B} (f : A -> B) (l : list (string * A)) : list (string * B) := map (fun e => (fst e, f (snd e))) l.
Inductive tan_tree : tanrel tree :=
| TanLeaf c g v dv : near (fun t => c t = Leaf (g t)) -> tan_arr g v dv -> tan_tree c (Leaf v) (Leaf dv)
| TanDict c (ds : list (string * tan3 tree)) : near (fun t => c t = Dict (at_keys (fun x => cu x t) ds)) ->
    Forall (fun e => tan_tree (cu (snd e)) (pt (snd e)) (ta (snd e))) ds -> tan_tree c (Dict (at_keys pt ds)) (Dict (at_keys ta ds))
| TanStk c (ds : list (tan3 tree)) : near (fun t => c t = Stk (map (fun x => cu x t) ds)) ->
    Forall (fun x => tan_tree (cu x) (pt x) (ta x)) ds -> tan_tree c (Stk (map pt ds)) (Stk (map ta ds)).
Definition tan_pair {A B} (P : tanrel A) (Q : tanrel B) : tanrel (A * B) := fun c a da =>
  exists c1 c2, near (fun t => c t = (c1 t, c2 t)) /\ P c1 (fst a) (fst da) /\ Q c2 (snd a) (snd da).
Definition tan_bool : tanrel bool := fun c b _ => near (fun t => c t = b).
(** dictionaries name -> tree: reaped values, plants *)
Definition tan_named : tanrel (list (string * tree)) := fun c l dl =>
  exists ds, near (fun t => c t = at_keys (fun x => cu x t) ds) /\ l = at_keys pt ds /\ dl = at_keys ta ds /\ Forall (fun e => holds tan_tree (snd e)) ds.

(** the function f has the derivative df where the curves of P are, and its values lie on curves of Q *)
Definition differentiable {A B} (f : A -> res B) (df : A -> A -> res B) (P : tanrel A) (Q : tanrel B) : Prop :=
  forall c a da b db, P c a da -> f a = inl b -> df a da = inl db -> exists c', near (fun t => f (c t) = inl (c' t)) /\ Q c' b db.
(** planted values: D n v says that the array v may be planted under the name n (for trees: in every leaf) *)
Fixpoint within (D : string -> rv -> Prop) (n : string) (t : tree) : Prop :=
  match t with
  | Leaf v => D n v
  | Dict l => (fix all (l : list (string * tree)) : Prop := match l with [] => True | (k, y) :: l' => within D k y /\ all l' end) l
  | Stk l => (fix all (l : list tree) : Prop := match l with [] => True | y :: l' => within D n y /\ all l' end) l
  end.
Definition tan_within (D : string -> rv -> Prop) (n : string) : tanrel tree := fun c v dv => tan_tree c v dv /\ within D n v.
(** the tangents of the plants: as [tan_named], and the planted values are admitted by D *)
Definition tan_plants (D : string -> rv -> Prop) : tanrel (list (string * tree)) := fun c l dl =>
  exists ds, near (fun t => c t = at_keys (fun x => cu x t) ds) /\ l = at_keys pt ds /\ dl = at_keys ta ds /\ Forall (fun e => holds (tan_within D (fst e)) (snd e)) ds.
(** a program whose parts are differentiable, with predicates that do not change near the points where they are evaluated.
    [W t n]: the values that a plant may put in place of the value sown with tag t and name n. *)
Fixpoint smooth (W : string -> string -> tanrel tree) {A B} (p : dprog A B) : tanrel A -> tanrel B -> Prop :=
  match p in dprog A B return tanrel A -> tanrel B -> Prop with
  | DPure f df => fun P Q => differentiable f df P Q
  | DSeq p q => fun P Q => exists M, smooth W p P M /\ smooth W q M Q
  | DFirst C p => fun P Q => exists P1 Q1 PC, subrel P (tan_pair P1 PC) /\ smooth W p P1 Q1 /\ subrel (tan_pair Q1 PC) Q
  | DSow t n _ _ => fun P Q => subrel P tan_tree /\ subrel P Q /\ subrel (W t n) Q
  | DSowCond t n _ => fun P Q => exists P1, subrel P (tan_pair P1 tan_bool) /\ subrel P1 tan_tree /\ subrel P1 Q /\ subrel (W t n) Q
  | DNest _ p | DCall p => smooth W p
  | DScan _ _ p => fun P Q => exists PC PX PY, subrel P (tan_pair PC (tan_list PX)) /\ smooth W p (tan_pair PC PX) (tan_pair PC PY) /\ subrel (tan_pair PC (tan_list PY)) Q
  | DWhile c p => fun P Q => exists I, subrel P I /\ (forall g a da b, I g a da -> c a = inl b -> near (fun t => c (g t) = inl b)) /\ smooth W p I I /\ subrel I Q
  | DCond p q => fun P Q => exists P1, subrel P (tan_pair tan_bool P1) /\ smooth W p P1 Q /\ smooth W q P1 Q
  end.
(** no plants / the plants of a harvest with settings s *)
Definition unplanted : string -> string -> tanrel tree := fun _ _ _ _ _ => False.
Definition planted_in (s : settings) (D : string -> rv -> Prop) : string -> string -> tanrel tree := fun t n c v dv =>
  t = tag_of s /\ passes s n = true /\ tan_within D n c v dv.
