(** C67: random variables of distributions under vmap. *)
From Verif Require Import SliceModel.
From Coq Require Import List Arith Lia Reals Lra.
Import ListNotations.
Open Scope list_scope. Open Scope nat_scope.

(** ** Model *)
Section Model.
  (** the elements of arrays (numbers, and the words of keys) *)
  Variable V : Type.
  Notation arr := (arr V).
  (** *** jax.vmap: JAX's semantics, not part of the repository *)
  Fixpoint remove_at {X} (d : nat) (l : list X) : list X := match d, l with 0, _ :: l' => l' | S d', x :: l' => x :: remove_at d' l' | _, [] => [] end.
  Fixpoint insert_at {X} (d : nat) (x : X) (l : list X) : list X := match d, l with 0, _ => x :: l | S d', y :: l' => y :: insert_at d' x l' | S _, [] => [x] end.
  (** the i-th part of an argument that is mapped along dimension d, or not mapped *)
  Definition part (d : option nat) (i : nat) (a : arr) : arr := match d with None => a | Some d' => mk_arr (remove_at d' (a_shape a)) (fun ix => a_get a (insert_at d' i ix)) end.
  Fixpoint parts (dims : list (option nat)) (i : nat) (args : list arr) : list arr := match dims, args with d :: dims', a :: args' => part d i a :: parts dims' i args' | _, _ => [] end.
  (** vmap(f, in_axes=dims, out_axes=0) on axes of length n *)
  Definition vmap (dims : list (option nat)) (n : nat) (f : list arr -> arr) (args : list arr) : arr :=
    mk_arr (n :: a_shape (f (parts dims 0 args))) (fun ix => match ix with i :: r => a_get (f (parts dims i args)) r | [] => a_get (f (parts dims 0 args)) [] end).

  (** *** The primitive random_variable: its parameter batch_ndims, and the function of its jaxpr, on the key and the leaves of
      the distribution *)
  Record rv := mk_rv { batch_ndims : nat; run : list arr -> arr }.
  (** random_variable_batching_rule: oryx/distributions/distribution_extensions.py:59-80.  The new equation has the old
      arguments, which the rule does not move; the constants of the jaxpr are part of [run]. *)
  Definition batching_rule (dims : list (option nat)) (n : nat) (p : rv) : rv := mk_rv (S (batch_ndims p)) (vmap dims n (run p)).
  (** distribution_random_variable: lines 84-108, the primitive without vmap *)
  Definition random_variable (sample : list arr -> arr) : rv := mk_rv 0 sample.
  (** vmap(... vmap(random variable)): a list with the outermost vmap first; each vmap has a length and the mapped dimensions of
      the arguments (key first).  The batching rule of the innermost vmap is applied first. *)
  Definition nested (levels : list (nat * list (option nat))) (p : rv) : rv := fold_right (fun l q => batching_rule (snd l) (fst l) q) p levels.

  (** *** log_prob of a TFP distribution (not part of the repository): the leading dimensions of the parameters and of the value
      are batch dimensions, broadcast against each other from the right; the last [core] dimensions belong to one distribution.
      [None]: the shapes do not broadcast *)
  Definition lead (core : nat) (sh : list nat) : list nat := firstn (length sh - core) sh.
  Fixpoint bshape_rev (a b : list nat) {struct a} : option (list nat) :=
    match a, b with
    | [], b => Some b | a, [] => Some a
    | x :: a', y :: b' => match bshape_rev a' b' with None => None | Some r => if x =? y then Some (x :: r) else if x =? 1 then Some (y :: r) else if y =? 1 then Some (x :: r) else None end
    end.
  Definition bshape (a b : list nat) : option (list nat) := option_map (@rev nat) (bshape_rev (rev a) (rev b)).
  Fixpoint bshapes (l : list (list nat)) (b : list nat) : option (list nat) := match l with [] => Some b | a :: l' => match bshapes l' b with None => None | Some r => bshape a r end end.
  (** the index in an array with leading dimensions L that index b of the broadcast shape stands for *)
  Fixpoint bidx0 (L b : list nat) : list nat := match L, b with n :: L', i :: b' => (if n =? 1 then 0 else i) :: bidx0 L' b' | _, _ => [] end.
  Definition bidx (L b : list nat) : list nat := bidx0 L (skipn (length b - length L) b).
  Definition sub (a : arr) (pre : list nat) : arr := mk_arr (skipn (length pre) (a_shape a)) (fun ix => a_get a (pre ++ ix)).
  Variable lp : list arr -> arr -> R.
  Definition dist_log_prob (cores : list nat) (event : nat) (params : list arr) (x : arr) : option (SliceModel.arr R) :=
    match bshapes (map (fun cp => lead (fst cp) (a_shape (snd cp))) (combine cores params)) (lead event (a_shape x)) with
    | None => None
    | Some B => Some (mk_arr B (fun b => lp (map (fun cp => sub (snd cp) (bidx (lead (fst cp) (a_shape (snd cp))) b)) (combine cores params)) (sub x (bidx (lead event (a_shape x)) b))))
    end.
  Fixpoint indices (sh : list nat) : list (list nat) := match sh with [] => [[]] | n :: sh' => flat_map (fun i => map (cons i) (indices sh')) (seq 0 n) end.
  Definition rsum (l : list R) : R := fold_right Rplus 0%R l.
  (** a.sum(axis=list(range(k))); [None]: axis out of range *)
  Definition sum_axes (k : nat) (a : SliceModel.arr R) : option (SliceModel.arr R) :=
    if k <=? length (a_shape a) then Some (mk_arr (skipn k (a_shape a)) (fun ix => rsum (map (fun j => a_get a (j ++ ix)) (indices (firstn k (a_shape a)))))) else None.
  (** random_variable_log_prob_rule: lines 38-53, when the leaves of the distribution and the output are known: the arguments
      after the key, and the value *)
  Definition log_prob_rule (cores : list nat) (event : nat) (p : rv) (args : list arr) (x : arr) : option (SliceModel.arr R) :=
    match dist_log_prob cores event (tl args) x with None => None | Some l => sum_axes (batch_ndims p) l end.

  (** ** Specification *)
  (** the arguments of the instance at index [i :: is_] of the nested vmaps *)
  Fixpoint instance (levels : list (nat * list (option nat))) (ix : list nat) (args : list arr) : list arr :=
    match levels, ix with l :: levels', i :: ix' => instance levels' ix' (parts (snd l) i args) | _, _ => args end.
  Definition sizes (levels : list (nat * list (option nat))) : list nat := map fst levels.
  (** the log probability of independent draws: the sum over all instances *)
  Definition total_log_prob (levels : list (nat * list (option nat))) (args : list arr) (x : arr) : R :=
    rsum (map (fun ix => lp (tl (instance levels ix args)) (sub x ix)) (indices (sizes levels))).
End Model.
Arguments part {V}. Arguments parts {V}. Arguments vmap {V}. Arguments batching_rule {V}. Arguments nested {V}. Arguments run {V}. Arguments batch_ndims {V}. Arguments instance {V}. Arguments sub {V}. Arguments random_variable {V}.

(** ** Sampling: every nesting of vmaps, mapped dimensions and arguments *)
Theorem C67_sample {V} (sample : list (arr V) -> arr V) levels : forall args ix e, length ix = length levels ->
  a_get (run (nested levels (random_variable sample)) args) (ix ++ e) = a_get (sample (instance levels ix args)) e.
Proof.
  induction levels as [|[n dims] levels IH]; intros args ix e Hl; destruct ix as [|i ix]; try discriminate Hl; [reflexivity|].
  cbn [nested fold_right batching_rule run vmap app a_get instance snd fst]. injection Hl as Hl. exact (IH (parts dims i args) ix e Hl).
Qed.
(** what the batching rule makes of the parameter batch_ndims *)
Lemma nested_ndims {V} (p : rv V) levels : batch_ndims (nested levels p) = length levels + batch_ndims p.
Proof. induction levels as [|l levels IH]; [reflexivity|]. cbn. f_equal. exact IH. Qed.

(** ** log_prob *)
(** The j-th argument is mapped along its first dimension by every vmap inside some level k, and by none outside it: so its
    shape is the lengths of these vmaps followed by [c] dimensions of its own. *)
Definition inner_mapped {V} (levels : list (nat * list (option nat))) (j c : nat) (p : arr V) : Prop :=
  exists k core, length core = c /\ k <= length levels /\ a_shape p = skipn k (sizes levels) ++ core /\
    forall l n dims, nth_error levels l = Some (n, dims) -> nth_error dims j = Some (if l <? k then None else Some 0).
(** every level has a dimension for every argument *)
Definition levels_ok (levels : list (nat * list (option nat))) (nargs : nat) : Prop := Forall (fun l => length (snd l) = nargs) levels.

Lemma part0 {V} i (a : arr V) pre : sub (part (Some 0) i a) pre = sub a (i :: pre).
Proof. unfold sub, part. cbn [a_shape a_get insert_at app length]. f_equal. destruct (a_shape a) as [|n s]; cbn [remove_at skipn]; [|reflexivity]. rewrite skipn_nil. reflexivity. Qed.
Lemma sub_nil {V} (a : arr V) : sub a [] = a. Proof. destruct a. reflexivity. Qed.
Lemma parts_nth {V} dims : forall i (args : list (arr V)) j, length dims = length args -> nth_error (parts dims i args) j = match nth_error dims j, nth_error args j with Some d, Some a => Some (part d i a) | _, _ => None end.
Proof. induction dims as [|d dims IH]; intros i [|a args] j Hl; try discriminate Hl; [destruct j; reflexivity|]. injection Hl as Hl. destruct j as [|j]; [reflexivity|]. cbn [parts nth_error]. apply IH, Hl. Qed.
Lemma parts_length {V} dims : forall i (args : list (arr V)), length dims = length args -> length (parts dims i args) = length args.
Proof. induction dims as [|d dims IH]; intros i [|a args] Hl; try discriminate Hl; [reflexivity|]. cbn. f_equal. apply IH. injection Hl as Hl. exact Hl. Qed.
Lemma instance_length {V} levels : forall ix (args : list (arr V)), levels_ok levels (length args) -> length (instance levels ix args) = length args.
Proof.
  induction levels as [|[n dims] levels IH]; intros ix args H; [reflexivity|]. inversion H as [|? ? A B]; subst. cbn [snd] in A. destruct ix as [|i ix]; [reflexivity|]. cbn [instance snd]. rewrite IH; [apply parts_length, A|]. rewrite parts_length by exact A. exact B.
Qed.
Lemma instance_nth {V} levels : forall ix (args : list (arr V)) j a k, levels_ok levels (length args) -> length ix = length levels -> nth_error args j = Some a -> k <= length levels ->
  (forall l n dims, nth_error levels l = Some (n, dims) -> nth_error dims j = Some (if l <? k then None else Some 0)) ->
  nth_error (instance levels ix args) j = Some (sub a (skipn k ix)).
Proof.
  induction levels as [|[n dims] levels IH]; intros ix args j a k H Hl Ha Hk Hm; destruct ix as [|i ix]; try discriminate Hl.
  - cbn [instance]. rewrite skipn_nil, sub_nil. exact Ha.
  - inversion H as [|? ? A B]; subst. cbn [snd] in A. injection Hl as Hl. cbn [instance snd]. pose proof (Hm 0 n dims eq_refl) as M0. cbn [Nat.ltb Nat.leb] in M0. pose proof (parts_nth dims i args j A) as Pn. rewrite M0, Ha in Pn.
    assert (B' : levels_ok levels (length (parts dims i args))) by (rewrite parts_length by exact A; exact B). destruct k as [|k].
    + cbn in Pn. rewrite (IH ix _ j _ 0 B' Hl Pn ltac:(lia) (fun l m ds E => Hm (S l) m ds E)). cbn [skipn]. f_equal. apply part0.
    + cbn [Nat.ltb Nat.leb part] in Pn. rewrite (IH ix _ j _ k B' Hl Pn ltac:(cbn in Hk; lia) (fun l m ds E => Hm (S l) m ds E)). reflexivity.
Qed.
Lemma bshape_prefix S : forall P Q, S = P ++ Q -> bshape_rev P S = Some S.
Proof. induction S as [|x S IH]; intros [|y P] Q E; try reflexivity; [discriminate E|]. injection E as -> E. cbn [bshape_rev]. rewrite (IH P Q E), Nat.eqb_refl. reflexivity. Qed.
Lemma bshape_suffix k S : bshape (skipn k S) S = Some S.
Proof. unfold bshape. rewrite (bshape_prefix (rev S) (rev (skipn k S)) (rev (firstn k S))); [cbn; rewrite rev_involutive; reflexivity|]. rewrite <- rev_app_distr, firstn_skipn. reflexivity. Qed.
Lemma bshapes_suffix S ls : Forall (fun L => exists k, L = skipn k S) ls -> bshapes ls S = Some S.
Proof. induction 1 as [|L ls (k & ->) H IH]; [reflexivity|]. cbn [bshapes]. rewrite IH. apply bshape_suffix. Qed.
Lemma lead_app L core c : length core = c -> lead c (L ++ core) = L.
Proof. intros <-. unfold lead. rewrite app_length, Nat.add_sub, firstn_app, Nat.sub_diag, firstn_all. cbn. apply app_nil_r. Qed.
Lemma bidx0_in L : forall b, inb L b -> bidx0 L b = b.
Proof. induction L as [|n L IH]; intros b H; inversion H as [|i m b' L' Hi Hb]; subst; [reflexivity|]. cbn. rewrite IH by exact Hb. f_equal. destruct (Nat.eqb_spec n 1); [lia|reflexivity]. Qed.
Lemma inb_len L b : inb L b -> length b = length L. Proof. intros H. induction H; cbn; congruence. Qed.
Lemma inb_skipn k : forall L b, inb L b -> inb (skipn k L) (skipn k b).
Proof. induction k as [|k IH]; intros L b H; [exact H|]. inversion H; subst; [constructor|]. cbn. apply IH. assumption. Qed.
Lemma bidx_suffix k S b : inb S b -> k <= length S -> bidx (skipn k S) b = skipn k b.
Proof. intros H Hk. unfold bidx. rewrite (inb_len _ _ H), skipn_length. replace (length S - (length S - k)) with k by lia. apply bidx0_in, inb_skipn, H. Qed.
Lemma indices_in sh : forall i, In i (indices sh) -> inb sh i.
Proof.
  induction sh as [|n sh IH]; intros i H; cbn in H; [destruct H as [<-|[]]; constructor|]. apply in_flat_map in H. destruct H as (x & Hx & H). apply in_map_iff in H. destruct H as (r & <- & Hr). apply in_seq in Hx. constructor; [lia|apply IH, Hr].
Qed.
Lemma rsum_ext {X} (f g : X -> R) l : (forall x, In x l -> f x = g x) -> rsum (map f l) = rsum (map g l).
Proof. intros H. f_equal. apply map_ext_in, H. Qed.
Lemma sizes_len levels : length (sizes levels) = length levels. Proof. apply map_length. Qed.
Lemma nth_ext_error {X} (l : list X) : forall m, length l = length m -> (forall j, j < length l -> nth_error l j = nth_error m j) -> l = m.
Proof.
  induction l as [|x l IH]; intros [|y m] Hl H; try discriminate Hl; [reflexivity|]. pose proof (H 0 ltac:(cbn; lia)) as H0. injection H0 as ->. f_equal. apply IH; [injection Hl as Hl; exact Hl|]. intros j Hj. apply (H (S j)). cbn. lia.
Qed.
Lemma combine_nth {X Y} (l : list X) : forall (m : list Y) j, nth_error (combine l m) j = match nth_error l j, nth_error m j with Some x, Some y => Some (x, y) | _, _ => None end.
Proof. induction l as [|x l IH]; intros [|y m] [|j]; cbn [combine nth_error]; try reflexivity; [destruct (nth_error l j); reflexivity|apply IH]. Qed.

(** C67: for every nesting of vmaps in which each leaf of the distribution is mapped by all vmaps inside some level and by none
    outside it, along its first dimension: the log_prob of the random variable at x is the sum over all instances of the
    log-probability of the instance's distribution at the instance's part of x.  The key is mapped in any way. *)
Theorem C67_log_prob {V} (lp : list (arr V) -> arr V -> R) sample levels key params cores x ev :
  levels_ok levels (S (length params)) -> length cores = length params -> (forall j c p, nth_error cores j = Some c -> nth_error params j = Some p -> inner_mapped levels (S j) c p) ->
  a_shape x = sizes levels ++ ev ->
  exists l, log_prob_rule V lp cores (length ev) (nested levels (random_variable sample)) (key :: params) x = Some l /\ a_shape l = [] /\ a_get l [] = total_log_prob V lp levels (key :: params) x.
Proof.
  intros HL Hc Hp Hx. unfold log_prob_rule, dist_log_prob. cbn [tl]. rewrite Hx, lead_app by reflexivity. rewrite bshapes_suffix.
  - unfold sum_axes. cbn [a_shape]. rewrite nested_ndims. cbn [random_variable batch_ndims]. rewrite Nat.add_0_r, sizes_len, Nat.leb_refl. eexists. split; [reflexivity|]. cbn [a_shape a_get]. rewrite <- (sizes_len levels), skipn_all, firstn_all. split; [reflexivity|].
    unfold total_log_prob. apply rsum_ext. intros ix Hi. apply indices_in in Hi. rewrite app_nil_r. f_equal.
    + set (F := fun cp : nat * arr V => sub (snd cp) (bidx (lead (fst cp) (a_shape (snd cp))) ix)).
      assert (El : length (instance levels ix (key :: params)) = S (length params)) by (rewrite instance_length; [reflexivity|exact HL]).
      apply nth_ext_error; [rewrite map_length, combine_length, Hc, Nat.min_id; destruct (instance levels ix (key :: params)); [discriminate El|cbn [tl length] in *; lia]|].
      intros j Hj. rewrite map_length, combine_length, Hc, Nat.min_id in Hj. destruct (nth_error cores j) as [c|] eqn:Ec; [|apply nth_error_None in Ec; lia]. destruct (nth_error params j) as [p|] eqn:Ep; [|apply nth_error_None in Ep; lia].
      rewrite nth_error_map, combine_nth, Ec, Ep. cbn [option_map]. unfold F. cbn [fst snd]. destruct (Hp j c p Ec Ep) as (k & core & Hcore & Hk & Hs & Hm). rewrite Hs, lead_app by exact Hcore. rewrite bidx_suffix by (rewrite ?sizes_len; assumption).
      pose proof (instance_nth levels ix (key :: params) (S j) p k HL ltac:(rewrite (inb_len _ _ Hi), sizes_len; reflexivity) Ep Hk Hm) as En. destruct (instance levels ix (key :: params)); [discriminate En|]. symmetry. exact En.
    + f_equal. rewrite <- (bidx_suffix 0 (sizes levels) ix Hi) at 2 by lia. reflexivity.
  - apply Forall_forall. intros L HLi. apply in_map_iff in HLi. destruct HLi as ([c p] & <- & Hin). apply In_nth_error in Hin. destruct Hin as [j Ej]. rewrite combine_nth in Ej. destruct (nth_error cores j) as [c'|] eqn:Ec; [|discriminate Ej]. destruct (nth_error params j) as [p'|] eqn:Ep; [|discriminate Ej]. injection Ej as -> ->.
    destruct (Hp j c p Ec Ep) as (k & core & Hcore & Hk & Hs & Hm). exists k. cbn [fst snd]. rewrite Hs. apply lead_app, Hcore.
Qed.
Print Assumptions C67_log_prob.

(** Non-trivial: two nested vmaps of lengths 3 and 2, the location mapped by both, the scale by the inner one only: the
    hypotheses hold, and the result is the sum of the six log-probabilities. *)
Definition nlp (ps : list (arr R)) (x : arr R) : R := match ps with [m; s] => (a_get s [] * (a_get x [] - a_get m []))%R | _ => 0%R end.
Theorem C67_example (loc scale x key : list nat -> R) : exists l,
  log_prob_rule R nlp [0; 0] 0 (nested [(3, [Some 0; Some 0; None]); (2, [Some 0; Some 0; Some 0])] (random_variable (fun _ => mk_arr [] key))) [mk_arr [3; 2] key; mk_arr [3; 2] loc; mk_arr [2] scale] (mk_arr [3; 2] x) = Some l /\
  a_get l [] = rsum (map (fun ij => scale [snd ij] * (x [fst ij; snd ij] - loc [fst ij; snd ij]))%R [(0, 0); (0, 1); (1, 0); (1, 1); (2, 0); (2, 1)]).
Proof.
  destruct (C67_log_prob nlp (fun _ => mk_arr [] key) [(3, [Some 0; Some 0; None]); (2, [Some 0; Some 0; Some 0])] (mk_arr [3; 2] key) [mk_arr [3; 2] loc; mk_arr [2] scale] [0; 0] (mk_arr [3; 2] x) []) as (l & E & _ & El).
  - repeat constructor.
  - reflexivity.
  - intros [|[|j]] c p Ec Ep; cbn in Ec, Ep; try (destruct j; discriminate Ec); injection Ec as <-; injection Ep as <-; [exists 0|exists 1]; exists []; (split; [reflexivity|]); (split; [cbn; lia|]); (split; [reflexivity|]);
      intros [|[|l]] n dims E; cbn in E; try (destruct l; discriminate E); injection E as <- <-; reflexivity.
  - reflexivity.
  - exists l. split; [exact E|]. rewrite El. reflexivity.
Qed.

(** ** Where it fails *)
Definition qlp (ps : list (arr R)) (x : arr R) : R := match ps with [m] => (- ((a_get x [] - a_get m []) * (a_get x [] - a_get m [])))%R | _ => 0%R end.
(** A location that is mapped by the outer vmap only: with lengths m and n that differ, log_prob raises *)
Theorem C67_outer_only_raises {V} (lp : list (arr V) -> arr V -> R) sample m n key loc x : m <> n -> m <> 1 -> n <> 1 -> a_shape loc = [m] -> a_shape x = [m; n] ->
  log_prob_rule V lp [0] 0 (nested [(m, [Some 0; Some 0]); (n, [Some 0; None])] (random_variable sample)) [key; loc] x = None.
Proof.
  intros H1 H2 H3 Hl Hx. unfold log_prob_rule, dist_log_prob. cbn [tl combine map fst snd bshapes]. rewrite Hl, Hx. assert (E : bshape [m] [m; n] = None); [|cbn [lead length Nat.sub firstn]; rewrite E; reflexivity]. unfold bshape. cbn. destruct (Nat.eqb_spec m n); [contradiction|]. destruct (Nat.eqb_spec m 1); [contradiction|]. destruct (Nat.eqb_spec n 1); [contradiction|]. reflexivity.
Qed.
(** with equal lengths it returns a wrong number: here every instance is drawn at its own location, where its log-probability
    is 0, but the result is -2 *)
Theorem C67_outer_only_refuted : exists (loc x key : arr R) sample l,
  log_prob_rule R qlp [0] 0 (nested [(2, [Some 0; Some 0]); (2, [Some 0; None])] (random_variable sample)) [key; loc] x = Some l /\
  total_log_prob R qlp [(2, [Some 0; Some 0]); (2, [Some 0; None])] [key; loc] x = 0%R /\ a_get l [] = (-2)%R.
Proof.
  exists (mk_arr [2] (fun ix => INR (hd 0 ix))), (mk_arr [2; 2] (fun ix => INR (hd 0 ix))), (mk_arr [2; 2] (fun _ => 0%R)), (fun a => hd (mk_arr [] (fun _ => 0%R)) a). eexists. split; [reflexivity|]. split; cbn; ring.
Qed.
(** A location of one dimension mapped along its second dimension: the rule does not move the mapped dimension to the front *)
Definition vlp (ps : list (arr R)) (x : arr R) : R := match ps with [m] => rsum (map (fun i => - ((a_get x [i] - a_get m [i]) * (a_get x [i] - a_get m [i])))%R [0; 1]) | _ => 0%R end.
Theorem C67_in_axes_refuted : exists (loc x key : arr R) sample l,
  log_prob_rule R vlp [1] 1 (nested [(2, [Some 0; Some 1])] (random_variable sample)) [key; loc] x = Some l /\
  total_log_prob R vlp [(2, [Some 0; Some 1])] [key; loc] x = 0%R /\ a_get l [] = (-2)%R.
Proof.
  exists (mk_arr [2; 2] (fun ix => INR (hd 0 ix))), (mk_arr [2; 2] (fun ix => INR (hd 0 (tl ix)))), (mk_arr [2; 2] (fun _ => 0%R)), (fun a => hd (mk_arr [] (fun _ => 0%R)) a). eexists. split; [reflexivity|]. split; cbn; ring.
Qed.
