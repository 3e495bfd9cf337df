(** Specification of Markov kernels for C56, C57: chances of events of a uniform number, transition probabilities of a
    step that uses a random transition key and a uniform number, detailed balance, stationarity. *)
From Verif Require Export McmcModel.
From Coq Require Import Reals.
From Coquelicot Require Import Coquelicot.
Open Scope R_scope. Open Scope list_scope.

(** the density that a log density stands for *)
Definition dens (l : flt) : R := match l with Fin r => exp r | _ => 0 end.
(** a log density is a number or -inf *)
Definition is_log (l : flt) : Prop := match l with Fin _ | MInf => True | _ => False end.

(** the chance that a number drawn uniformly from [0, 1) is in A: the integral of the indicator of A *)
Definition chance (A : R -> Prop) (p : R) : Prop :=
  exists g : R -> R, (forall u, 0 < u < 1 -> (A u -> g u = 1) /\ (~ A u -> g u = 0)) /\ is_RInt g 0 1 p.

(** trees of reals can be compared *)
Definition rv_dec (v w : rv) : {v = w} + {v <> w}.
Proof. decide equality; [apply (list_eq_dec Req_EM_T)|apply Z.eq_dec]. Defined.
Fixpoint tree_dec (t t' : tree) {struct t} : {t = t'} + {t <> t'}.
Proof.
  destruct t as [v|l|l], t' as [v'|l'|l']; try (right; discriminate).
  - destruct (rv_dec v v') as [E|E]; [left; f_equal; exact E|right; intros H; injection H; auto].
  - assert (D : {l = l'} + {l <> l'}).
    { revert l'. induction l as [|[k t] l IH]; intros [|[k' t'] l']; try (right; discriminate); [left; reflexivity|].
      destruct (string_dec k k') as [->|E]; [|right; congruence]. destruct (tree_dec t t') as [->|E]; [|right; congruence]. destruct (IH l') as [->|E]; [left; reflexivity|right; congruence]. }
    destruct D as [->|E]; [left; reflexivity|right; congruence].
  - assert (D : {l = l'} + {l <> l'}).
    { revert l'. induction l as [|t l IH]; intros [|t' l']; try (right; discriminate); [left; reflexivity|].
      destruct (tree_dec t t') as [->|E]; [|right; congruence]. destruct (IH l') as [->|E]; [left; reflexivity|right; congruence]. }
    destruct D as [->|E]; [left; reflexivity|right; congruence].
Defined.

Definition rsum {X} (f : X -> R) (l : list X) : R := fold_right (fun x s => f x + s) 0 l.
(** the distribution of the transition key: keys with their probabilities *)
Definition keys := list (R * tree).
(** the probability that the proposal [inner] goes from x to y *)
Definition proposes (W : keys) (inner : tree -> tree -> res tree) (x y : tree) : R :=
  rsum (fun wk => fst wk * (match inner (snd wk) x with inl z => if tree_dec z y then 1 else 0 | inr _ => 0 end)) W.
(** p is the probability that [step], given a random transition key and an independent uniform number, goes from x to y *)
Definition moves (W : keys) (step : tree -> R -> tree -> res tree) (x y : tree) (p : R) : Prop :=
  exists ps, Forall2 (fun wk q => chance (fun u => step (snd wk) u x = inl y) q) W ps /\ p = rsum (fun wq => fst (fst wq) * snd wq) (combine W ps).

Definition reversible (W : keys) (step : tree -> R -> tree -> res tree) (log_prob : tree -> flt) (x y : tree) : Prop :=
  exists p p', moves W step x y p /\ moves W step y x p' /\ dens (log_prob x) * p = dens (log_prob y) * p'.
(** pi is stationary on the state space S: for each y, the sum of pi(x) P(x,y) over S is pi(y).  The sum has finitely
    many terms that are not zero. *)
Definition stationary (W : keys) (step : tree -> R -> tree -> res tree) (log_prob : tree -> flt) (S : tree -> Prop) : Prop :=
  exists P : tree -> tree -> R, (forall x y, S x -> S y -> moves W step x y (P x y)) /\
    forall y, S y -> exists F, NoDup F /\ (forall x, In x F -> S x) /\ (forall x, S x -> ~ In x F -> dens (log_prob x) * P x y = 0) /\
      rsum (fun x => dens (log_prob x) * P x y) F = dens (log_prob y).
(** a proposal on the state space S: the keys have probabilities, and from each state of S it goes to a state of S *)
Definition proposal_on (W : keys) (inner : tree -> tree -> res tree) (S : tree -> Prop) : Prop :=
  rsum fst W = 1 /\ (forall w k, In (w, k) W -> 0 <= w) /\ forall x w k, S x -> In (w, k) W -> exists y, S y /\ inner k x = inl y.
