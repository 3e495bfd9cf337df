(** C75, proofs: reaping a differentiable program gives a differentiable program. *)
From Verif Require Export GradHarvestProofs.
From Coq Require Import Reals Lra.
Open Scope string_scope. Open Scope list_scope. Open Scope nat_scope.
#[local] Existing Instance RealArrays.

(** ** the operations on dictionaries of reaps, for any type of values *)
Definition gd (X : Type) : Type := list (string * (X * option bool)).
Definition vmap {X Y} (f : X -> Y) (d : gd X) : gd Y := map (fun e => (fst e, (f (fst (snd e)), snd (snd e)))) d.
Definition gstore {X} (d : gd X) (n : string) (v : X) (pred : option bool) : gd X :=
  match pred with
  | None => dset d n (v, None)
  | Some pr =>
      match dget d n with
      | None => dset d n (v, Some pr)
      | Some (v0, None) => dset d n (if pr then v else v0, Some pr)
      | Some (v0, Some pr0) => dset d n (if pr then v else v0, Some (pr || pr0)%bool)
      end
  end.
Definition gresow {X} (s : settings) (ns : list string) (inner d : gd X) : gd X :=
  fold_left (fun d n => if passes s n then match dget inner n with Some (v, pr) => gstore d n v pr | None => d end else d) ns d.
Definition gupdate {X} (m : mode) (n : string) (D carry : gd X) : gd X :=
  match dget D n, dget carry n with
  | Some (v, pr), Some (v0, pr0) =>
      if is_cond m then (if match pr with Some b => b | None => false end then dset carry n (v, Some true) else carry)
      else dset carry n (v, pr0)
  | _, _ => carry
  end.
Definition gcarry {X} (f : string * (mode * aval) -> mode) (l : meta) (D carry : gd X) : gd X := fold_left (fun c e => gupdate (f e) (fst e) D c) l carry.

Lemma dget_vmap {X Y} (f : X -> Y) d n : dget (vmap f d) n = option_map (fun x => (f (fst x), snd x)) (dget d n).
Proof. induction d as [|[k [v pr]] d IH]; cbn; [reflexivity|]. destruct (String.eqb n k); [reflexivity|exact IH]. Qed.
Lemma dset_vmap {X Y} (f : X -> Y) d n v pr : dset (vmap f d) n (f v, pr) = vmap f (dset d n (v, pr)).
Proof. induction d as [|[k [w pw]] d IH]; cbn; [reflexivity|]. destruct (String.eqb n k); cbn; [reflexivity|]. f_equal. exact IH. Qed.
Lemma gstore_vmap {X Y} (f : X -> Y) d n v pr : gstore (vmap f d) n (f v) pr = vmap f (gstore d n v pr).
Proof.
  unfold gstore. destruct pr as [pr|]; [|apply dset_vmap]. rewrite dget_vmap. destruct (dget d n) as [[v0 [pr0|]]|]; cbn [option_map fst snd]; [| |apply dset_vmap]; destruct pr; apply dset_vmap.
Qed.
Lemma gresow_vmap {X Y} (f : X -> Y) s ns : forall i d, gresow s ns (vmap f i) (vmap f d) = vmap f (gresow s ns i d).
Proof.
  unfold gresow. induction ns as [|n ns IH]; intros i d; [reflexivity|]. cbn [fold_left]. rewrite <- IH. f_equal. destruct (passes s n); [|reflexivity]. rewrite dget_vmap. destruct (dget i n) as [[v pr]|]; cbn [option_map fst snd]; [apply gstore_vmap|reflexivity].
Qed.
Lemma gupdate_vmap {X Y} (f : X -> Y) m n D c : gupdate m n (vmap f D) (vmap f c) = vmap f (gupdate m n D c).
Proof.
  unfold gupdate. rewrite !dget_vmap. destruct (dget D n) as [[v pr]|], (dget c n) as [[v0 pr0]|]; cbn [option_map fst snd]; try reflexivity. destruct (is_cond m); [|apply dset_vmap]. destruct (match pr with Some b => b | None => false end); [apply dset_vmap|reflexivity].
Qed.
Lemma gcarry_vmap {X Y} (f : X -> Y) g l : forall D c, gcarry g l (vmap f D) (vmap f c) = vmap f (gcarry g l D c).
Proof. unfold gcarry. induction l as [|e l IH]; intros D c; [reflexivity|]. cbn [fold_left]. rewrite <- IH, gupdate_vmap. reflexivity. Qed.

Definition all_v {X} (P : X -> Prop) (d : gd X) : Prop := Forall (fun e => P (fst (snd e))) d.
Lemma all_dget {X} (P : X -> Prop) (d : gd X) n v pr : all_v P d -> dget d n = Some (v, pr) -> P v.
Proof. intros H E. apply dget_In in E. unfold all_v in H. rewrite Forall_forall in H. exact (H _ E). Qed.
Lemma all_dset {X} (P : X -> Prop) (d : gd X) n v pr : all_v P d -> P v -> all_v P (dset d n (v, pr)).
Proof. unfold all_v. induction d as [|[k w] d IH]; intros H Hv; cbn; [repeat constructor; exact Hv|]. inversion H; subst. destruct (String.eqb n k); constructor; auto. Qed.
Lemma all_gstore {X} (P : X -> Prop) (d : gd X) n v pr : all_v P d -> P v -> all_v P (gstore d n v pr).
Proof.
  intros H Hv. unfold gstore. destruct pr as [pr|]; [|apply all_dset; assumption]. destruct (dget d n) as [[v0 [pr0|]]|] eqn:E; [| |apply all_dset; assumption]; apply all_dset; try assumption; destruct pr; try assumption; exact (all_dget P d n v0 _ H E).
Qed.
Lemma all_gresow {X} (P : X -> Prop) s ns : forall (i d : gd X), all_v P i -> all_v P d -> all_v P (gresow s ns i d).
Proof.
  unfold gresow. induction ns as [|n ns IH]; intros i d Hi Hd; cbn [fold_left]; [exact Hd|]. apply IH; [exact Hi|]. destruct (passes s n); [|exact Hd]. destruct (dget i n) as [[v pr]|] eqn:E; [|exact Hd]. apply all_gstore; [exact Hd|exact (all_dget P i n v pr Hi E)].
Qed.
Lemma all_gcarry {X} (P : X -> Prop) g l : forall (D c : gd X), all_v P D -> all_v P c -> all_v P (gcarry g l D c).
Proof.
  unfold gcarry. induction l as [|e l IH]; intros D c HD Hc; cbn [fold_left]; [exact Hc|]. apply IH; [exact HD|]. unfold gupdate. destruct (dget D (fst e)) as [[v pr]|] eqn:E1; [|exact Hc]. destruct (dget c (fst e)) as [[v0 pr0]|]; [|exact Hc].
  destruct (is_cond (g e)); [destruct (match pr with Some b => b | None => false end)|]; try exact Hc; (apply all_dset; [exact Hc|exact (all_dget P D _ v pr HD E1)]).
Qed.

(** ** tangents of dictionaries of reaps: the predicates are constant near the point, and carried by the tangent *)
Definition tan_dict : tanrel dict := fun c d dd =>
  exists ds : gd (tan3 tree), near (fun t => c t = vmap (fun x => cu x t) ds) /\ d = vmap pt ds /\ dd = vmap ta ds /\ all_v (holds tan_tree) ds.
Lemma tan_dict_nil : tan_dict (fun _ => []) [] [].
Proof. exists []. split; [apply near_all; reflexivity|]. split; [reflexivity|]. split; [reflexivity|]. constructor. Qed.
Lemma tan_dict_near c c' d dd : near (fun t => c t = c' t) -> tan_dict c' d dd -> tan_dict c d dd.
Proof. intros N (ds & E & H). exists ds. split; [|exact H]. eapply near2; [exact N|exact E|]. intros t A B. congruence. Qed.
Lemma tan_dict_store c d dd vc v dv n pr : tan_dict c d dd -> tan_tree vc v dv -> tan_dict (fun t => store (c t) n (vc t) pr) (store d n v pr) (store dd n dv pr).
Proof.
  intros (ds & E & -> & -> & H) Hv. pose (x := (vc, (v, dv)) : tan3 tree). exists (gstore ds n x pr).
  split; [eapply near_imp; [exact E|]; intros t A; cbn beta in *; rewrite A; change (vc t) with (cu x t); change (@store RealArrays) with (@gstore tree); rewrite <- gstore_vmap; reflexivity|].
  split; [rewrite <- gstore_vmap; reflexivity|]. split; [rewrite <- gstore_vmap; reflexivity|]. apply all_gstore; [exact H|exact Hv].
Qed.
Lemma tan_dict_resow s ns ci i di c d dd : tan_dict ci i di -> tan_dict c d dd -> tan_dict (fun t => resow s ns (ci t) (c t)) (resow s ns i d) (resow s ns di dd).
Proof.
  intros (is & E & -> & -> & H) (ds & E' & -> & -> & H'). exists (gresow s ns is ds).
  split; [eapply near2; [exact E|exact E'|]; intros t A B; cbn beta in *; rewrite A, B; rewrite <- gresow_vmap; reflexivity|].
  split; [rewrite <- gresow_vmap; reflexivity|]. split; [rewrite <- gresow_vmap; reflexivity|]. apply all_gresow; assumption.
Qed.
Lemma tan_dict_gcarry g l cD D dD c d dd : tan_dict cD D dD -> tan_dict c d dd -> tan_dict (fun t => gcarry g l (cD t) (c t)) (gcarry g l D d) (gcarry g l dD dd).
Proof.
  intros (is & E & -> & -> & H) (ds & E' & -> & -> & H'). exists (gcarry g l is ds).
  split; [eapply near2; [exact E|exact E'|]; intros t A B; cbn beta in *; rewrite A, B; rewrite <- gcarry_vmap; reflexivity|].
  split; [rewrite <- gcarry_vmap; reflexivity|]. split; [rewrite <- gcarry_vmap; reflexivity|]. apply all_gcarry; assumption.
Qed.
Lemma tan_dict_scan_carry M cD D dD c d dd : tan_dict cD D dD -> tan_dict c d dd -> tan_dict (fun t => scan_carry M (cD t) (c t)) (scan_carry M D d) (scan_carry M dD dd).
Proof. apply (tan_dict_gcarry (fun _ => last_mode M) (clobbers M)). Qed.
Lemma tan_dict_while_carry M cD D dD c d dd : tan_dict cD D dD -> tan_dict c d dd -> tan_dict (fun t => while_carry M (cD t) (c t)) (while_carry M D d) (while_carry M dD dd).
Proof. apply (tan_dict_gcarry (fun e => fst (snd e)) (clobbers M)). Qed.
Lemma tan_dict_carry0 M : tan_dict (fun _ => carry0 M) (carry0 M) (carry0 M).
Proof.
  unfold carry0. exists (map (fun e : string * (mode * aval) => (fst e, (((fun _ : R => zeros (snd (snd e))), (zeros (snd (snd e)), zeros (snd (snd e)))), if is_cond (fst (snd e)) then Some false else None))) (clobbers M)).
  unfold vmap. split; [apply near_all; intros t; rewrite map_map; reflexivity|]. split; [rewrite map_map; reflexivity|]. split; [rewrite map_map; reflexivity|]. apply Forall_map, Forall_forall. intros e _. apply tan_zeros.
Qed.
Lemma tan_dict_nest sc ci i di : tan_dict ci i di ->
  tan_dict (fun t => [(sc, (Dict (map (fun e => (fst e, fst (snd e))) (ci t)), None))]) [(sc, (Dict (map (fun e => (fst e, fst (snd e))) i), None))] [(sc, (Dict (map (fun e => (fst e, fst (snd e))) di), None))].
Proof.
  intros (ds & E & -> & -> & H).
  exists [(sc, (((fun t => Dict (map (fun e => (fst e, fst (snd e))) (ci t))), (Dict (map (fun e => (fst e, fst (snd e))) (vmap pt ds)), Dict (map (fun e => (fst e, fst (snd e))) (vmap ta ds)))), None))].
  split; [apply near_all; reflexivity|]. split; [reflexivity|]. split; [reflexivity|]. constructor; [|constructor]. unfold holds, cu, pt, ta. cbn [fst snd].
  pose (es := map (fun e : string * (tan3 tree * option bool) => (fst e, fst (snd e))) ds).
  apply (tan_tree_eq _ (Dict (at_keys pt es)) (Dict (at_keys ta es))); [|unfold es, at_keys, vmap; rewrite !map_map; reflexivity..].
  apply TanDict; [|unfold es; apply Forall_map; exact H]. eapply near_imp; [exact E|]. intros t A. cbn beta in *. rewrite A. unfold es, at_keys, vmap. rewrite !map_map. reflexivity.
Qed.
Lemma tan_list_dict c l dl : tan_list tan_dict c l dl -> exists DS : list (gd (tan3 tree)), near (fun t => c t = map (vmap (fun x => cu x t)) DS) /\ l = map (vmap pt) DS /\ dl = map (vmap ta) DS /\ Forall (all_v (holds tan_tree)) DS.
Proof.
  intros (xs & E & -> & -> & H). assert (G : exists DS : list (gd (tan3 tree)), near (fun t => map (fun x => cu x t) xs = map (vmap (fun x => cu x t)) DS) /\ map pt xs = map (vmap pt) DS /\ map ta xs = map (vmap ta) DS /\ Forall (all_v (holds tan_tree)) DS).
  { clear E. induction H as [|x xs (ds & N & E1 & E2 & Ha) _ (DS & N' & IH1 & IH2 & IH3)]; [exists []; split; [apply near_all; reflexivity|]; repeat split; constructor|].
    exists (ds :: DS). split; [eapply near2; [exact N|exact N'|]; intros t A B; cbn in *; rewrite A, B; reflexivity|]. split; [cbn; rewrite E1, IH1; reflexivity|]. split; [cbn; rewrite E2, IH2; reflexivity|]. constructor; assumption. }
  destruct G as (DS & N & H1 & H2 & H3). exists DS. split; [eapply near2; [exact E|exact N|]; intros t A B; congruence|]. auto.
Qed.
Lemma tan_list_map {A B} (P : tanrel A) (Q : tanrel B) f c l dl : (forall c a da, P c a da -> exists c', near (fun t => f (c t) = c' t) /\ Q c' (f a) (f da)) -> tan_list P c l dl -> tan_list Q (fun t => map f (c t)) (map f l) (map f dl).
Proof.
  intros Hf (xs & E & -> & -> & H). assert (G : exists ys : list (tan3 B), near (fun t => map f (map (fun x => cu x t) xs) = map (fun y => cu y t) ys) /\ map f (map pt xs) = map pt ys /\ map f (map ta xs) = map ta ys /\ Forall (holds Q) ys).
  { clear E. induction H as [|x xs H _ (ys & N' & IH1 & IH2 & IH3)]; [exists []; split; [apply near_all; reflexivity|]; repeat split; constructor|]. destruct (Hf _ _ _ H) as (c' & N & K).
    exists ((c', (f (pt x), f (ta x))) :: ys). split; [eapply near2; [exact N|exact N'|]; intros t A1 A2; cbn in *; rewrite A1, A2; reflexivity|]. split; [cbn; rewrite IH1; reflexivity|]. split; [cbn; rewrite IH2; reflexivity|]. constructor; assumption. }
  destruct G as (ys & N & H1 & H2 & H3). exists ys. split; [eapply near2; [exact E|exact N|]; intros t A1 A2; cbn beta in *; rewrite A1, A2; reflexivity|]. auto.
Qed.
Lemma vmap_map {E X Y} (f : X -> Y) (k : E -> string) (x : E -> X) (p : E -> option bool) l : vmap f (map (fun e => (k e, (x e, p e))) l) = map (fun e => (k e, (f (x e), p e))) l.
Proof. unfold vmap. rewrite map_map. reflexivity. Qed.
Definition gval (d : gd (tan3 tree)) (n : string) : tan3 tree := match dget d n with Some (x, _) => x | None => ((fun _ => Dict []), (Dict [], Dict [])) end.
Lemma value_of_vmap (f : tan3 tree -> tree) d n : f ((fun _ => Dict []), (Dict [], Dict [])) = Dict [] -> value_of (vmap f d) n = f (gval d n).
Proof. intros E. unfold value_of, gval. rewrite dget_vmap. destruct (dget d n) as [[x pr]|]; cbn; [reflexivity|]. rewrite E. reflexivity. Qed.
Lemma tan_gval d n : all_v (holds tan_tree) d -> holds tan_tree (gval d n).
Proof.
  intros H. unfold gval. destruct (dget d n) as [[x pr]|] eqn:E; [exact (all_dget _ d n x pr H E)|]. apply (TanDict (fun _ => Dict []) []); [apply near_all; reflexivity|constructor].
Qed.
Lemma tan_dict_stacked M c l dl : tan_list tan_dict c l dl -> tan_dict (fun t => stacked M (c t)) (stacked M l) (stacked M dl).
Proof.
  intros H. destruct (tan_list_dict _ _ _ H) as (DS & N & -> & -> & HA). clear H.
  exists (map (fun e : string * (mode * aval) => (fst e, (((fun t => Stk (map (fun D => cu (gval D (fst e)) t) DS)), (Stk (map (fun D => pt (gval D (fst e))) DS), Stk (map (fun D => ta (gval D (fst e))) DS))), None))) (appends M)).
  unfold stacked. rewrite !vmap_map. cbn [pt ta fst snd]. split; [|split; [|split]].
  - eapply near_imp; [exact N|]. intros t A. cbn beta in *. rewrite A, vmap_map. apply map_ext. intros e. rewrite map_map. do 2 f_equal. unfold cu at 2. cbn [fst snd]. f_equal. apply map_ext. intros D. rewrite value_of_vmap by reflexivity. reflexivity.
  - apply map_ext. intros e. rewrite map_map. do 3 f_equal. apply map_ext. intros D. rewrite value_of_vmap by reflexivity. reflexivity.
  - apply map_ext. intros e. rewrite map_map. do 3 f_equal. apply map_ext. intros D. rewrite value_of_vmap by reflexivity. reflexivity.
  - apply Forall_map, Forall_forall. intros e _. cbn [fst snd holds cu pt ta]. pose (xs := map (fun D => gval D (fst e)) DS). unfold holds, cu, pt, ta. cbn [fst snd].
    apply (tan_tree_eq _ (Stk (map pt xs)) (Stk (map ta xs))); [|unfold xs; rewrite map_map; reflexivity..]. apply TanStk; [apply near_all; intros t; unfold xs; rewrite map_map; reflexivity|].
    unfold xs. apply Forall_map. eapply Forall_impl; [|exact HA]. intros D HD. apply tan_gval, HD.
Qed.
Lemma tan_final c d dd : tan_dict c d dd -> tan_named (fun t => final (c t)) (final d) (final dd).
Proof.
  intros (ds & E & -> & -> & H).
  exists (map (fun e : string * (tan3 tree * option bool) => (fst e, match snd (snd e) with Some false => ((fun t => zeros_like (cu (fst (snd e)) t)), (zeros_like (pt (fst (snd e))), zeros_like (ta (fst (snd e))))) | _ => fst (snd e) end)) ds).
  unfold at_keys, final, vmap. rewrite !map_map. split; [|split; [|split]].
  - eapply near_imp; [exact E|]. intros t A. cbn beta in *. rewrite A. unfold vmap. rewrite !map_map. apply map_ext. intros [k [x [[]|]]]; reflexivity.
  - apply map_ext. intros [k [x [[]|]]]; reflexivity.
  - apply map_ext. intros [k [x [[]|]]]; reflexivity.
  - apply Forall_map. eapply Forall_impl; [|exact H]. intros [k [x [[]|]]] Hx; cbn [fst snd] in *; try exact Hx. apply tan_zeros_like, Hx.
Qed.

(** ** reaping keeps programs differentiable *)
Lemma smooth_move {W : string -> string -> tanrel tree} {A B} (f : A -> B) (P : tanrel A) (Q : tanrel B) : (forall c a da, P c a da -> Q (fun t => f (c t)) (f a) (f da)) -> smooth W (Move f) P Q.
Proof. intros H c a da b db Hc E E'. injection E as <-. injection E' as <-. exists (fun t => f (c t)). split; [apply near_all; reflexivity|apply H, Hc]. Qed.
Lemma smooth_id {W : string -> string -> tanrel tree} av P Q : subrel P tan_tree -> subrel P Q -> smooth W (Id_chk av) P Q.
Proof.
  intros H K c a da b db Hc E E'. injection E' as <-. unfold chk in E. destruct (has_aval a av) eqn:Ha; [|discriminate]. injection E as <-. exists c. split; [|apply K, Hc].
  eapply near_imp; [apply (has_aval_tan c a da av), H, Hc|]. intros t A. cbn beta in A. unfold chk. rewrite A, Ha. reflexivity.
Qed.
Lemma smooth_first {W : string -> string -> tanrel tree} {A B} C (p : dprog A B) P Q PC : smooth W p P Q -> smooth W (DFirst C p) (tan_pair P PC) (tan_pair Q PC).
Proof. intros H. exists P, Q, PC. split; [apply subrel_refl|]. split; [exact H|apply subrel_refl]. Qed.
Lemma smooth_start {W : string -> string -> tanrel tree} {A} (P : tanrel A) : smooth W (Move (fun a => (a, [] : dict))) P (tan_pair P tan_dict).
Proof. apply smooth_move. intros c a da H. apply (tan_pair_intro P tan_dict c (fun _ => [])); [exact H|apply tan_dict_nil]. Qed.
Lemma smooth_swap {W : string -> string -> tanrel tree} {A C D} (P : tanrel A) (Q : tanrel C) (S : tanrel D) : smooth W (Move (@swap A C D)) (tan_pair (tan_pair P Q) S) (tan_pair (tan_pair P S) Q).
Proof.
  apply smooth_move. intros c [[a x] d] [[da dx] dd] (c1 & c2 & E & (c3 & c4 & E' & H1 & H2) & H3). cbn [fst snd] in *. exists (fun t => (c3 t, c2 t)), c4.
  split; [|split; [apply (tan_pair_intro P S c3 c2); assumption|exact H2]]. eapply near2; [exact E|exact E'|]. intros t A1 A2. cbn beta in *. unfold swap. rewrite A1. cbn [fst snd]. rewrite A2. reflexivity.
Qed.
Lemma tan_pair_fst {A B} (P : tanrel A) (Q : tanrel B) c a da : tan_pair P Q c a da -> exists c1, near (fun t => fst (c t) = c1 t) /\ P c1 (fst a) (fst da).
Proof. intros (c1 & c2 & E & H1 & H2). exists c1. split; [|exact H1]. eapply near_imp; [exact E|]. intros t A0. rewrite A0. reflexivity. Qed.
Lemma tan_pair_snd {A B} (P : tanrel A) (Q : tanrel B) c a da : tan_pair P Q c a da -> exists c1, near (fun t => snd (c t) = c1 t) /\ Q c1 (snd a) (snd da).
Proof. intros (c1 & c2 & E & H1 & H2). exists c2. split; [|exact H2]. eapply near_imp; [exact E|]. intros t A0. rewrite A0. reflexivity. Qed.
Lemma tan_list_near {A} (P : tanrel A) c c' l dl : near (fun t => c t = c' t) -> tan_list P c' l dl -> tan_list P c l dl.
Proof. intros N (ds & E & H). exists ds. split; [|exact H]. eapply near2; [exact N|exact E|]. intros t A0 B0. congruence. Qed.
(** the end of a call: the dictionary of the call is merged into the current one by a function that respects tangents *)
Lemma smooth_merge {W : string -> string -> tanrel tree} {B} (Q : tanrel B) (f : dict -> dict -> dict) : (forall ci i di c d dd, tan_dict ci i di -> tan_dict c d dd -> tan_dict (fun t => f (ci t) (c t)) (f i d) (f di dd)) ->
  smooth W (Move (fun x : (B * dict) * dict => (fst (fst x), f (snd (fst x)) (snd x)))) (tan_pair (tan_pair Q tan_dict) tan_dict) (tan_pair Q tan_dict).
Proof.
  intros Hf. apply smooth_move. intros c [[b i] d] [[db di] dd] (c1 & c2 & E & (c3 & c4 & E' & H1 & H2) & H3). cbn [fst snd] in *.
  exists c3, (fun t => f (c4 t) (c2 t)). cbn [fst snd]. split; [|split; [exact H1|apply Hf; assumption]]. eapply near2; [exact E|exact E'|]. intros t A1 A2. cbn beta in *. rewrite A1. cbn [fst snd]. rewrite A2. reflexivity.
Qed.

Theorem reap_smooth {W : string -> string -> tanrel tree} s {A B} (p : dprog A B) : forall P Q, smooth W p P Q -> forall M r, reapD s p M = inl r -> smooth W (snd r) (tan_pair P tan_dict) (tan_pair Q tan_dict).
Proof.
  induction p as [A B f df|A B C p IHp q IHq|A B C p IHp|t n m av|t n av|A B sc p IHp|A B p IHp|C X Y rv len p IHp|C k p IHp|A B p IHp q IHq]; intros P Q S M r H; cbn [reapD] in H.
  - injection H as <-. apply smooth_first, S.
  - destruct S as (R1 & S1 & S2). apply rb_inl in H as (r1 & H1 & H). apply rb_inl in H as (r2 & H2 & H). injection H as <-. exists (tan_pair R1 tan_dict). split; [exact (IHp _ _ S1 _ _ H1)|exact (IHq _ _ S2 _ _ H2)].
  - destruct S as (P1 & Q1 & PC & S1 & S2 & S3). apply rb_inl in H as (r1 & H1 & H). injection H as <-. cbn [snd smooth]. exists (tan_pair (tan_pair P1 tan_dict) PC). split.
    + eapply (smooth_sub (Move swap)); [apply (tan_pair_sub P (tan_pair P1 PC) tan_dict tan_dict); [exact S1|apply subrel_refl]|apply subrel_refl|apply smooth_swap].
    + exists (tan_pair (tan_pair Q1 tan_dict) PC). split; [apply (smooth_first C (snd r1)), (IHp _ _ S2 _ _ H1)|].
      eapply (smooth_sub (Move swap)); [apply subrel_refl|apply (tan_pair_sub (tan_pair Q1 PC) Q tan_dict tan_dict); [exact S3|apply subrel_refl]|apply smooth_swap].
  - destruct S as (S1 & S2 & SW). destruct (is_cond m); [discriminate|]. destruct (String.eqb t (tag_of s)); [destruct (passes s n)|destruct (exclusive s)].
    + apply rb_inl in H as (M' & _ & H). injection H as <-. cbn [snd smooth]. intros c [a d] [da dd] b db (c1 & c2 & E & H1 & H2) F F'. cbn [fst snd] in *. injection F' as <-. unfold chk in F. destruct (has_aval a av) eqn:Ha; [|discriminate]. cbn [rb] in F. injection F as <-.
      exists (fun t => (c1 t, store (c2 t) n (c1 t) None)). split; [|apply tan_pair_intro; [apply S2, H1|exact (tan_dict_store c2 d dd c1 a da n None H2 (S1 _ _ _ H1))]].
      eapply near2; [exact E|apply (has_aval_tan c1 a da av), S1, H1|]. intros t' A1 A2. cbn beta in *. rewrite A1. cbn [fst snd]. unfold chk. rewrite A2, Ha. reflexivity.
    + injection H as <-. apply smooth_first. apply smooth_id; assumption.
    + injection H as <-. apply smooth_first. apply smooth_id; assumption.
    + injection H as <-. apply (smooth_first dict (DSow t n m av)). split; [assumption|split; assumption].
  - destruct S as (P1 & S0 & S1 & S2 & SW). assert (Hid : smooth W (DFirst dict (DPure (fun vp : tree * bool => chk av (fst vp)) (fun _ dvp => inl (fst dvp)))) (tan_pair P tan_dict) (tan_pair Q tan_dict)).
    { apply smooth_first. intros c a da b db Hc E E'. injection E' as <-. destruct (S0 _ _ _ Hc) as (c1 & c2 & N & H1 & _). unfold chk in E. destruct (has_aval (fst a) av) eqn:Ha; [|discriminate]. injection E as <-. exists c1. split; [|apply S2, H1].
      eapply near2; [exact N|apply (has_aval_tan c1 (fst a) (fst da) av), S1, H1|]. intros t' A1 A2. cbn beta in *. rewrite A1. cbn [fst]. unfold chk. rewrite A2, Ha. reflexivity. }
    destruct (String.eqb t (tag_of s)); [destruct (passes s n)|destruct (exclusive s)].
    + apply rb_inl in H as (M' & _ & H). injection H as <-. cbn [snd smooth]. intros c [a d] [da dd] b db (c1 & c2 & E & H1 & H2) F F'. cbn [fst snd] in *. injection F' as <-. destruct (S0 _ _ _ H1) as (c3 & c4 & N & H3 & H4).
      unfold chk in F. destruct (has_aval (fst a) av) eqn:Ha; [|discriminate]. cbn [rb] in F. injection F as <-. exists (fun t => (c3 t, store (c2 t) n (c3 t) (Some (snd a)))). split; [|apply tan_pair_intro; [apply S2, H3|exact (tan_dict_store c2 d dd c3 (fst a) (fst da) n (Some (snd a)) H2 (S1 _ _ _ H3))]].
      unfold tan_bool in H4. eapply (near3 _ _ (fun t => c4 t = snd a /\ has_aval (c3 t) av = has_aval (fst a) av)); [exact E|exact N|eapply near2; [exact H4|apply (has_aval_tan c3 (fst a) (fst da) av), S1, H3|auto]|]. intros t' A1 A2 [A3 A4]. cbn beta in *. rewrite A1. cbn [fst snd]. rewrite A2. cbn [fst snd]. unfold chk. rewrite A4, Ha, A3. reflexivity.
    + injection H as <-. exact Hid.
    + injection H as <-. exact Hid.
    + injection H as <-. apply (smooth_first dict (DSowCond t n av)). exists P1. auto.
  - apply rb_inl in H as (r1 & H1 & H). apply rb_inl in H as (M' & _ & H). injection H as <-. cbn [snd]. exists (tan_pair (tan_pair Q tan_dict) tan_dict). split.
    + apply (smooth_first dict (DNest sc _)). exists (tan_pair P tan_dict). split; [apply smooth_start|exact (IHp _ _ S _ _ H1)].
    + apply (smooth_merge Q (fun i d => match fst r1 with [] => d | _ => resow s [sc] [(sc, (Dict (map (fun e => (fst e, fst (snd e))) i), None))] d end)). intros ci i di c d dd Hi Hd. destruct (fst r1); [exact Hd|]. apply (tan_dict_resow s [sc] (fun t => [(sc, (Dict (map (fun e => (fst e, fst (snd e))) (ci t)), None))])); [apply tan_dict_nest, Hi|exact Hd].
  - apply rb_inl in H as (r1 & H1 & H). apply rb_inl in H as (M' & _ & H). injection H as <-. cbn [snd]. exists (tan_pair (tan_pair Q tan_dict) tan_dict). split.
    + apply (smooth_first dict (DCall _)). exists (tan_pair P tan_dict). split; [apply smooth_start|exact (IHp _ _ S _ _ H1)].
    + apply (smooth_merge Q (resow s (dkeys (fst r1)))). apply tan_dict_resow.
  - destruct S as (PC & PX & PY & S1 & S2 & S3). apply rb_inl in H as (r1 & H1 & H). cbv zeta in H. destruct (existsb _ (fst r1)) in H; [discriminate|]. destruct (is_cond _ && _)%bool in H; [discriminate|]. apply rb_inl in H as (M' & _ & H). injection H as <-. cbn [snd].
    exists (tan_pair (tan_pair (tan_pair PC tan_dict) (tan_list PX)) tan_dict). split; [|exists (tan_pair (tan_pair (tan_pair PC tan_dict) (tan_list (tan_pair PY tan_dict))) tan_dict); split].
    + apply smooth_move. intros c [[a xs] d] [[da dxs] dd] (c1 & c2 & E & H0 & H2). cbn [fst snd] in *. destruct (S1 _ _ _ H0) as (c3 & c4 & E' & H3 & H4). cbn [fst snd] in *.
      exists (fun t => ((c3 t, carry0 (fst r1)), c4 t)), c2. split; [|split; [|exact H2]].
      * eapply near2; [exact E|exact E'|]. intros t A1 A2. cbn beta in *. rewrite A1. cbn [fst snd]. rewrite A2. reflexivity.
      * apply (tan_pair_intro (tan_pair PC tan_dict) (tan_list PX) (fun t => (c3 t, carry0 (fst r1))) c4); [|exact H4]. apply (tan_pair_intro PC tan_dict c3 (fun _ => carry0 (fst r1))); [exact H3|apply tan_dict_carry0].
    + apply (smooth_first dict (DScan rv len _)). exists (tan_pair PC tan_dict), PX, (tan_pair PY tan_dict). split; [apply subrel_refl|]. split; [|apply subrel_refl].
      exists (tan_pair (tan_pair (tan_pair PC PX) tan_dict) tan_dict). split; [|exists (tan_pair (tan_pair (tan_pair PC PY) tan_dict) tan_dict); split; [apply smooth_first, (IHp _ _ S2 _ _ H1)|]].
      * apply smooth_move. intros c [[a d] x] [[da dd] dx] (c1 & c2 & E & (c3 & c4 & E' & H3 & H4) & H2). cbn [fst snd] in *. exists (fun t => ((c3 t, c2 t), [] : dict)), c4. split; [|split; [|exact H4]].
        -- eapply near2; [exact E|exact E'|]. intros t A1 A2. cbn beta in *. rewrite A1. cbn [fst snd]. rewrite A2. reflexivity.
        -- apply (tan_pair_intro (tan_pair PC PX) tan_dict (fun t => (c3 t, c2 t)) (fun _ => [])); [apply tan_pair_intro; assumption|apply tan_dict_nil].
      * apply smooth_move. intros c [[[a y] i] d] [[[da dy] di] dd] (c1 & c2 & E & (c3 & c4 & E' & (c5 & c6 & E'' & H5 & H6) & H4) & H2). cbn [fst snd] in *. exists (fun t => (c5 t, scan_carry (fst r1) (c4 t) (c2 t))), (fun t => (c6 t, c4 t)). cbn [fst snd]. split; [|split].
        -- eapply near3; [exact E|exact E'|exact E''|]. intros t A1 A2 A3. cbn beta in *. rewrite A1. cbn [fst snd]. rewrite A2. cbn [fst snd]. rewrite A3. reflexivity.
        -- apply (tan_pair_intro PC tan_dict c5); [exact H5|apply tan_dict_scan_carry; assumption].
        -- apply tan_pair_intro; assumption.
    + apply smooth_move. intros c [[[a i] ys] d] [[[da di] dys] dd] (c1 & c2 & E & (c3 & c4 & E' & (c5 & c6 & E'' & H5 & H6) & H4) & H2). cbn [fst snd] in *.
      assert (L1 : tan_list PY (fun t => map fst (c4 t)) (map fst ys) (map fst dys)) by (eapply tan_list_map; [|exact H4]; intros; eapply tan_pair_fst; eassumption).
      assert (L2 : tan_list tan_dict (fun t => map snd (c4 t)) (map snd ys) (map snd dys)) by (eapply tan_list_map; [|exact H4]; intros; eapply tan_pair_snd; eassumption).
      exists (fun t => (c5 t, map fst (c4 t))), (fun t => resow s (dkeys (appends (fst r1))) (stacked (fst r1) (map snd (c4 t))) (resow s (dkeys (clobbers (fst r1))) (c6 t) (c2 t))). cbn [fst snd]. split; [|split].
      * eapply near3; [exact E|exact E'|exact E''|]. intros t A1 A2 A3. cbn beta in *. rewrite A1. cbn [fst snd]. rewrite A2. cbn [fst snd]. rewrite A3. reflexivity.
      * apply S3. apply tan_pair_intro; assumption.
      * apply (tan_dict_resow s _ (fun t => stacked (fst r1) (map snd (c4 t)))); [apply (tan_dict_stacked _ (fun t => map snd (c4 t))), L2|]. apply tan_dict_resow; assumption.
  - destruct S as (I & S1 & S2 & S3 & S4). apply rb_inl in H as (r1 & H1 & H). cbv zeta in H. destruct (existsb _ (fst r1)) in H; [discriminate|]. apply rb_inl in H as (M' & _ & H). injection H as <-. cbn [snd].
    exists (tan_pair (tan_pair I tan_dict) tan_dict). split; [|exists (tan_pair (tan_pair I tan_dict) tan_dict); split].
    + apply smooth_move. intros c [a d] [da dd] (c1 & c2 & E & H0 & H2). cbn [fst snd] in *. exists (fun t => (c1 t, carry0 (fst r1))), c2. split; [|split; [|exact H2]].
      * eapply near_imp; [exact E|]. intros t A1. cbn beta in *. rewrite A1. reflexivity.
      * apply (tan_pair_intro I tan_dict c1 (fun _ => carry0 (fst r1))); [apply S1, H0|apply tan_dict_carry0].
    + apply (smooth_first dict (DWhile _ _)). exists (tan_pair I tan_dict). split; [apply subrel_refl|]. split; [|split; [|apply subrel_refl]].
      * intros g [a d] [da dd] b (c1 & c2 & E & H0 & H2) Hb. cbn [fst snd] in *. eapply near2; [exact E|exact (S2 _ _ _ _ H0 Hb)|]. intros t A1 A2. cbn beta in *. rewrite A1. exact A2.
      * exists (tan_pair (tan_pair I tan_dict) tan_dict). split; [|exists (tan_pair (tan_pair I tan_dict) tan_dict); split; [apply smooth_first, (IHp _ _ S3 _ _ H1)|]].
        -- apply smooth_move. intros c [a d] [da dd] (c1 & c2 & E & H0 & H2). cbn [fst snd] in *. exists (fun t => (c1 t, [])), c2. split; [|split; [|exact H2]].
           ++ eapply near_imp; [exact E|]. intros t A1. cbn beta in *. rewrite A1. reflexivity.
           ++ apply (tan_pair_intro I tan_dict c1 (fun _ => [])); [exact H0|apply tan_dict_nil].
        -- apply (smooth_merge I (while_carry (fst r1))). apply tan_dict_while_carry.
    + eapply (smooth_sub (Move _)); [apply subrel_refl|apply (tan_pair_sub I Q tan_dict tan_dict); [exact S4|apply subrel_refl]|]. apply (smooth_merge I (resow s (dkeys (fst r1)))). apply tan_dict_resow.
  - destruct S as (P1 & S1 & S2 & S3). apply rb_inl in H as (r1 & H1 & H). apply rb_inl in H as (r2 & H2 & H). apply rb_inl in H as (u & _ & H). apply rb_inl in H as (M' & _ & H). injection H as <-. cbn [snd]. exists (tan_pair (tan_pair Q tan_dict) tan_dict). split.
    + apply (smooth_first dict (DCond _ _)). exists P1. split; [exact S1|]. split; (exists (tan_pair P1 tan_dict); split; [apply smooth_start|]); [exact (IHp _ _ S2 _ _ H1)|exact (IHq _ _ S3 _ _ H2)].
    + apply (smooth_merge Q (resow s (dkeys (fst r1)))). apply tan_dict_resow.
Qed.
