(** Proofs about propagation (PropModel.v) over lattices. *)
From Verif Require Export PropModel.

(** ** Specification: the cells form a join-semilattice and [lt] is its strict order *)
Section Spec.
  Context {Cell Aval Lit Prim St : Type}.
  Variable unknown : Aval -> Cell.
  Variable new : Lit -> Cell.
  Variable join : Cell -> Cell -> Cell.
  Variable lt : Cell -> Cell -> bool.
  Variable le : Cell -> Cell -> Prop.
  Record lattice : Prop := {
    l_refl : forall a, le a a;
    l_trans : forall a b c, le a b -> le b c -> le a c;
    l_antisym : forall a b, le a b -> le b a -> a = b;
    l_join_l : forall a b, le a (join a b);
    l_join_r : forall a b, le b (join a b);
    l_lub : forall a b c, le a c -> le b c -> le (join a b) c;
    l_lt : forall a b, le a b -> if lt a b then a <> b else a = b;
    l_bot : forall av c, le (unknown av) c }.
  (** finite height *)
  Definition finite_height (H : nat) (h : Cell -> nat) : Prop := (forall a, h a <= H) /\ forall a b, le a b -> a <> b -> h a < h b.
  Notation read := (read unknown new).
  Notation env := (env Cell).
  Notation atom := (atom Aval Lit).
  Notation node := (@node Cell Aval Lit Prim St).
  (** [e] has at most the information of [e'] *)
  Definition le_env (e e' : env) : Prop := forall n av, le (read e (AVar n av)) (read e' (AVar n av)).
  (** the cell [c] written to [a] adds nothing to [e] *)
  Definition inside (e : env) (a : atom) (c : Cell) : Prop := match a with AVar _ _ => le c (read e a) | _ => True end.
  (** [e] is stable under the rule of an equation: the rule gives cells that add nothing *)
  Definition stable (e : env) (nd : node) : Prop := forall stamp ic oc st,
    n_rule nd stamp (map (read e) (n_ins nd)) (map (read e) (n_outs nd)) = Ok (ic, oc, st) -> Forall2 (inside e) (n_atoms nd) (ic ++ oc).
  (** a rule that terminates normally with cells of the right number *)
  Definition total (nd : node) : Prop := forall stamp ic oc, length ic = length (n_ins nd) -> length oc = length (n_outs nd) ->
    exists ic' oc' st, n_rule nd stamp ic oc = Ok (ic', oc', st) /\ length ic' = length ic /\ length oc' = length oc.
  Definition monotone (nd : node) : Prop := forall s1 s2 ic oc ic1 oc1 st1 jc pc jc1 pc1 st2,
    length ic = length (n_ins nd) -> length oc = length (n_outs nd) ->
    Forall2 le ic jc -> Forall2 le oc pc -> n_rule nd s1 ic oc = Ok (ic1, oc1, st1) -> n_rule nd s2 jc pc = Ok (jc1, pc1, st2) ->
    Forall2 le ic1 jc1 /\ Forall2 le oc1 pc1.
  Definition extensive (nd : node) : Prop := forall stamp ic oc ic1 oc1 st, length ic = length (n_ins nd) -> length oc = length (n_outs nd) ->
    n_rule nd stamp ic oc = Ok (ic1, oc1, st) -> Forall2 le ic ic1 /\ Forall2 le oc oc1.
  Definition idempotent (nd : node) : Prop := forall s1 s2 ic oc ic1 oc1 st1 ic2 oc2 st2, length ic = length (n_ins nd) -> length oc = length (n_outs nd) ->
    n_rule nd s1 ic oc = Ok (ic1, oc1, st1) -> n_rule nd s2 ic1 oc1 = Ok (ic2, oc2, st2) -> ic2 = ic1 /\ oc2 = oc1.
  Definition vars (l : list atom) : list nat := flat_map (fun a => match a with AVar n _ => [n] | _ => [] end) l.
  (** no variable occurs twice in the equation *)
  Definition linear (nd : node) : Prop := NoDup (vars (n_atoms nd)).
End Spec.

Section Proofs.
  Context {Cell Aval Lit Prim St : Type}.
  Variable unknown : Aval -> Cell.
  Variable new : Lit -> Cell.
  Variable join : Cell -> Cell -> Cell.
  Variable lt : Cell -> Cell -> bool.
  Variable le : Cell -> Cell -> Prop.
  Hypothesis L : lattice unknown join lt le.
  Notation read := (read unknown new).
  Notation write := (write unknown new join).
  Notation writes := (writes unknown new join).
  Notation env := (env Cell).
  Notation atom := (atom Aval Lit).
  Notation node := (@node Cell Aval Lit Prim St).
  Notation le_env := (le_env unknown new le).
  Notation inside := (inside unknown new le).
  Notation stable := (stable unknown new le (Prim := Prim) (St := St)).

  Lemma le_env_refl e : le_env e e. Proof. intros n av. apply (l_refl _ _ _ _ L). Qed.
  Lemma le_env_trans e1 e2 e3 : le_env e1 e2 -> le_env e2 e3 -> le_env e1 e3.
  Proof. intros H1 H2 n av. eapply (l_trans _ _ _ _ L); [apply H1|apply H2]. Qed.
  Lemma read_le e e' a : le_env e e' -> le (read e a) (read e' a).
  Proof. intros H. destruct a as [n av|l|av]; [apply H| |]; apply (l_refl _ _ _ _ L). Qed.
  Lemma inside_le e e' a c : le_env e e' -> inside e a c -> inside e' a c.
  Proof. intros H. destruct a; cbn [PropProofs.inside]; auto. intros Hc. eapply (l_trans _ _ _ _ L); [exact Hc|apply H]. Qed.

  Lemma write_read e n av c m av' : read (fst (write e (AVar n av) c)) (AVar m av') = if Nat.eqb m n then join (read e (AVar n av)) c else read e (AVar m av').
  Proof. cbn. unfold upd. destruct (Nat.eqb m n); reflexivity. Qed.
  Lemma write_le e a c : le_env e (fst (write e a c)).
  Proof.
    destruct a as [n av|l|av]; try apply le_env_refl. intros m av'. rewrite write_read. destruct (Nat.eqb_spec m n) as [->|]; [|apply (l_refl _ _ _ _ L)].
    cbn. destruct (e n); [apply (l_join_l _ _ _ _ L)|]. apply (l_bot _ _ _ _ L).
  Qed.
  Lemma write_inside e a c : inside (fst (write e a c)) a c.
  Proof. destruct a as [n av|l|av]; cbn [PropProofs.inside]; auto. rewrite write_read, Nat.eqb_refl. apply (l_join_r _ _ _ _ L). Qed.
  Lemma write_least e a c e' : le_env e e' -> inside e' a c -> le_env (fst (write e a c)) e'.
  Proof.
    intros H Hi. destruct a as [n av|l|av]; auto. intros m av'. rewrite write_read. destruct (Nat.eqb_spec m n) as [->|]; [|apply H]. cbn [PropProofs.inside] in Hi.
    pose proof (H n av) as H1. cbn in H1, Hi |- *. destruct (e' n) as [c0|].
    - apply (l_lub _ _ _ _ L); assumption.
    - apply (l_trans _ _ _ _ L) with (unknown av); [apply (l_lub _ _ _ _ L); assumption|apply (l_bot _ _ _ _ L)].
  Qed.

  Lemma writes_ok l : forall e cs, length cs = length l -> exists e' ncs, writes e l cs = Ok (e', ncs) /\ length ncs = length l.
  Proof.
    induction l as [|a l IH]; intros e cs Hl; destruct cs as [|c cs]; try discriminate Hl; [exists e, []; auto|]. injection Hl as Hl.
    cbn [PropModel.writes]. destruct (write e a c) as [e1 c1]. destruct (IH e1 cs Hl) as (e' & ncs & -> & Hn). exists e', (c1 :: ncs). cbn. auto.
  Qed.
  Lemma writes_length l : forall e cs e' ncs, writes e l cs = Ok (e', ncs) -> length cs = length l /\ length ncs = length l.
  Proof.
    induction l as [|a l IH]; intros e cs e' ncs H; destruct cs as [|c cs]; cbn [PropModel.writes] in H; try discriminate; [injection H as <- <-; auto|].
    destruct (write e a c) as [e1 c1]. destruct (writes e1 l cs) as [[e2 n2]| | |] eqn:E; try discriminate. cbn in H. injection H as <- <-. apply IH in E as [E1 E2]. cbn. auto.
  Qed.
  Lemma writes_app l1 l2 : forall e c1 c2, length c1 = length l1 ->
    writes e (l1 ++ l2) (c1 ++ c2) = rbind (writes e l1 c1) (fun '(e1, n1) => rbind (writes e1 l2 c2) (fun '(e2, n2) => Ok (e2, n1 ++ n2))).
  Proof.
    induction l1 as [|a l1 IH]; intros e c1 c2 Hl; destruct c1 as [|c c1]; try discriminate Hl.
    - cbn. destruct (writes e l2 c2) as [[]| | |]; reflexivity.
    - injection Hl as Hl. cbn [app PropModel.writes]. destruct (write e a c) as [e1 d1]. rewrite (IH e1 c1 c2 Hl). destruct (writes e1 l1 c1) as [[e2 d2]| | |]; [|reflexivity..].
      cbn [rbind fst snd]. destruct (writes e2 l2 c2) as [[]| | |]; reflexivity.
  Qed.
  Lemma writes_le l : forall e cs e' ncs, writes e l cs = Ok (e', ncs) -> le_env e e'.
  Proof.
    induction l as [|a l IH]; intros e cs e' ncs H; destruct cs as [|c cs]; cbn [PropModel.writes] in H; try discriminate; [injection H as <- <-; apply le_env_refl|].
    destruct (write e a c) as [e1 c1] eqn:Ew. destruct (writes e1 l cs) as [[e2 n2]| | |] eqn:E; try discriminate. cbn in H. injection H as <- <-. eapply le_env_trans; [|eapply IH, E].
    replace e1 with (fst (write e a c)) by (rewrite Ew; reflexivity). apply write_le.
  Qed.
  Lemma writes_inside l : forall e cs e' ncs, writes e l cs = Ok (e', ncs) -> Forall2 (inside e') l cs.
  Proof.
    induction l as [|a l IH]; intros e cs e' ncs H; destruct cs as [|c cs]; cbn [PropModel.writes] in H; try discriminate; [constructor|].
    destruct (write e a c) as [e1 c1] eqn:Ew. destruct (writes e1 l cs) as [[e2 n2]| | |] eqn:E; try discriminate. cbn in H. injection H as <- <-. constructor; [|eapply IH, E].
    eapply inside_le; [eapply writes_le, E|]. replace e1 with (fst (write e a c)) by (rewrite Ew; reflexivity). apply write_inside.
  Qed.
  Lemma writes_least l : forall e cs e' ncs e'', writes e l cs = Ok (e', ncs) -> le_env e e'' -> Forall2 (inside e'') l cs -> le_env e' e''.
  Proof.
    induction l as [|a l IH]; intros e cs e' ncs e'' H He Hf; destruct cs as [|c cs]; cbn [PropModel.writes] in H; try discriminate; [injection H as <- <-; exact He|].
    destruct (write e a c) as [e1 c1] eqn:Ew. destruct (writes e1 l cs) as [[e2 n2]| | |] eqn:E; try discriminate. cbn in H. injection H as <- <-. inversion Hf; subst. eapply IH; [exact E| |assumption].
    replace e1 with (fst (write e a c)) by (rewrite Ew; reflexivity). apply write_least; assumption.
  Qed.
  Lemma writes_other l : forall e cs e' ncs n, writes e l cs = Ok (e', ncs) -> ~ In n (vars l) -> e' n = e n.
  Proof.
    induction l as [|a l IH]; intros e cs e' ncs n H Hn; destruct cs as [|c cs]; cbn [PropModel.writes] in H; try discriminate; [injection H as <- <-; reflexivity|].
    destruct (write e a c) as [e1 c1] eqn:Ew. destruct (writes e1 l cs) as [[e2 n2]| | |] eqn:E; try discriminate. cbn in H. injection H as <- <-.
    unfold vars in Hn. cbn [flat_map] in Hn. rewrite in_app_iff in Hn. rewrite (IH _ _ _ _ n E) by tauto. destruct a as [m av|lt0|av]; cbn in Ew; injection Ew as <- <-; auto.
    unfold upd. destruct (Nat.eqb_spec n m) as [->|]; [|reflexivity]. exfalso. apply Hn. left. left. reflexivity.
  Qed.
  Lemma writes_dom l : forall e cs e' ncs n, writes e l cs = Ok (e', ncs) -> e n <> None \/ In n (vars l) -> e' n <> None.
  Proof.
    induction l as [|a l IH]; intros e cs e' ncs n H Hn; destruct cs as [|c cs]; cbn [PropModel.writes] in H; try discriminate; [injection H as <- <-; cbn in Hn; tauto|].
    destruct (write e a c) as [e1 c1] eqn:Ew. destruct (writes e1 l cs) as [[e2 n2]| | |] eqn:E; try discriminate. cbn in H. injection H as <- <-. eapply IH; [exact E|].
    unfold vars in Hn. cbn [flat_map] in Hn. rewrite in_app_iff in Hn. destruct a as [m av|lt0|av]; cbn in Ew, Hn; injection Ew as <- <-; try tauto.
    unfold upd. destruct (Nat.eqb_spec n m) as [->|]; [left; discriminate|]. destruct Hn as [Hn|[[Hn|[]]|Hn]]; auto.
  Qed.
  (** a changed variable is noticed: at its last occurrence the new cell is the cell of the new environment *)
  Lemma writes_changed l : forall e cs e' ncs n av, writes e l cs = Ok (e', ncs) -> In n (vars l) ->
    exists av' c, In (AVar n av', c) (combine l ncs) /\ c = read e' (AVar n av).
  Proof.
    induction l as [|a l IH]; intros e cs e' ncs n av H Hn; destruct cs as [|c cs]; cbn [PropModel.writes] in H; try discriminate; [destruct Hn|].
    destruct (write e a c) as [e1 c1] eqn:Ew. destruct (writes e1 l cs) as [[e2 n2]| | |] eqn:E; try discriminate. cbn in H. injection H as <- <-.
    destruct (in_dec Nat.eq_dec n (vars l)) as [Hi|Hi].
    - destruct (IH _ _ _ _ n av E Hi) as (av' & c' & H1 & H2). exists av', c'. split; [right; exact H1|exact H2].
    - unfold vars in Hn. cbn [flat_map] in Hn. apply in_app_or in Hn as [Hn|Hn]; [|contradiction]. destruct a as [m av0|lt0|av0]; cbn in Hn; try contradiction. destruct Hn as [->|[]].
      exists av0, c1. split; [left; reflexivity|]. cbn in Ew. injection Ew as <- <-. cbn. rewrite (writes_other _ _ _ _ _ n E Hi). unfold upd. rewrite Nat.eqb_refl. reflexivity.
  Qed.
  (** every new cell is between the old one and the final one *)
  Lemma writes_between l : forall e cs e' ncs a c, writes e l cs = Ok (e', ncs) -> In (a, c) (combine l ncs) -> (exists n av, a = AVar n av) -> le (read e a) c /\ le c (read e' a).
  Proof.
    induction l as [|a l IH]; intros e cs e' ncs b d H Hn Hv; destruct cs as [|c cs]; cbn [PropModel.writes] in H; try discriminate; [injection H as <- <-; destruct Hn|].
    destruct (write e a c) as [e1 c1] eqn:Ew. destruct (writes e1 l cs) as [[e2 n2]| | |] eqn:E; try discriminate. cbn in H. injection H as <- <-. destruct Hn as [Hn|Hn].
    - injection Hn as -> ->. destruct Hv as (n & av & ->). cbn [PropModel.write] in Ew. injection Ew as <- <-. split; [apply (l_join_l _ _ _ _ L)|].
      pose proof (writes_le _ _ _ _ _ E n av) as K. cbn in K |- *. unfold upd in K. rewrite Nat.eqb_refl in K. exact K.
    - destruct (IH _ _ _ _ _ _ E Hn Hv) as [H1 H2]. split; [|exact H2]. eapply (l_trans _ _ _ _ L); [|exact H1]. apply read_le. replace e1 with (fst (write e a c)) by (rewrite Ew; reflexivity). apply write_le.
  Qed.
End Proofs.
