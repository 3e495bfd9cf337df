(** C36: propagate computes the least stable environment, whatever the order of the work queue. *)
From Verif Require Export PropProofs2.

Section Nested.
  Context {Cell Aval Lit Prim St : Type}.
  Variable unknown : Aval -> Cell.
  Variable new : Lit -> Cell.
  Variable join : Cell -> Cell -> Cell.
  Variable lt : Cell -> Cell -> bool.
  Variable le : Cell -> Cell -> Prop.
  Variable rules : Prim -> list Cell -> list Cell -> res (list Cell * list Cell * option St).
  Notation read := (read unknown new).
  Notation env := (env Cell).
  Notation atom := (atom Aval Lit).
  Notation frame := (frame Aval Lit).
  Notation eqn := (eqn Aval Lit Prim).
  Notation jaxpr := (jaxpr Aval Lit Prim).
  Notation node := (@node Cell Aval Lit Prim St).
  Notation le_env := (le_env unknown new le).
  Notation inside := (inside unknown new le).
  Notation stable := (stable unknown new le (Prim := Prim) (St := St)).
  Notation monotone := (monotone le (Prim := Prim) (St := St) (Aval := Aval) (Lit := Lit)).
  Notation extensive := (extensive le (Prim := Prim) (St := St) (Aval := Aval) (Lit := Lit)).
  Notation idempotent := (@idempotent Cell Aval Lit Prim St).
  Notation total := (@total Cell Aval Lit Prim St).

  (** ** Specification: stability, without work queues *)
  Definition closure (nd : node) : Prop := total nd /\ monotone nd /\ extensive nd /\ idempotent nd.
  Definition prim_node (p : Prim) (i o : list atom) : node := mk_node (Some p) i o (fun _ => rules p).
  Definition agrees (e : env) (a : atom) (c : Cell) : Prop := match a with AVar _ _ => c = read e a | _ => le (read e a) c end.
  (** [e] satisfies an equation: the rule of a primitive adds nothing; a call has an inner environment which agrees with
      [e] and satisfies the inner equations *)
  Fixpoint sat (e : env) (q : eqn) {struct q} : Prop :=
    match q with
    | EPrim p i o => stable e (prim_node p i o)
    | ECall (Jaxpr fr es) i o => exists ei, Forall2 (agrees e) i (map (read ei) (f_in fr)) /\ Forall2 (agrees e) o (map (read ei) (f_out fr)) /\
        (fix all (l : list eqn) : Prop := match l with [] => True | q :: l' => sat ei q /\ all l' end) es
    end.
  Definition eqn_atoms (q : eqn) : list atom := match q with EPrim _ i o => i ++ o | ECall _ i o => i ++ o end.
  Definition is_var (a : atom) : Prop := match a with AVar _ _ => True | _ => False end.
  (** the equation has a variable of the frame, or adds nothing as long as nothing is known *)
  Definition awake (fr : frame) (q : eqn) : Prop := (exists n, In n (vars (frame_atoms fr)) /\ In n (vars (eqn_atoms q))) \/ sat (fun _ => None) q.
  (** well-formed equations: rules of primitives are closure operators, no variable occurs twice in one equation, calls
      have no constants, fit the called jaxpr, whose frame has variables only, and all equations are awake *)
  Fixpoint wf (q : eqn) {struct q} : Prop :=
    match q with
    | EPrim p i o => closure (prim_node p i o) /\ NoDup (vars (i ++ o))
    | ECall (Jaxpr fr es) i o => NoDup (vars (i ++ o)) /\ length i = length (f_in fr) /\ length o = length (f_out fr) /\ f_const fr = [] /\
        Forall is_var (f_in fr) /\ Forall is_var (f_out fr) /\ Forall (awake fr) es /\
        (fix all (l : list eqn) : Prop := match l with [] => True | q :: l' => wf q /\ all l' end) es
    end.
  (** the least environment above the given cells that satisfies all equations *)
  Definition least_sat (fr : frame) (es : list eqn) (cc ic oc : list Cell) (e : env) : Prop :=
    above unknown new le e fr cc ic oc /\ Forall (sat e) es /\ forall e', above unknown new le e' fr cc ic oc -> Forall (sat e') es -> le_env e e'.

  Lemma sat_all e es : (fix all (l : list eqn) : Prop := match l with [] => True | q :: l' => sat e q /\ all l' end) es <-> Forall (sat e) es.
  Proof. induction es as [|q es IH]; [split; auto|]. rewrite Forall_cons_iff, <- IH. reflexivity. Qed.
  Lemma wf_all es : (fix all (l : list eqn) : Prop := match l with [] => True | q :: l' => wf q /\ all l' end) es <-> Forall wf es.
  Proof. induction es as [|q es IH]; [split; auto|]. rewrite Forall_cons_iff, <- IH. reflexivity. Qed.
  Fixpoint eqn_ind' (P : eqn -> Prop) (Hp : forall p i o, P (EPrim p i o)) (Hc : forall fr es i o, Forall P es -> P (ECall (Jaxpr fr es) i o)) (q : eqn) : P q :=
    match q with
    | EPrim p i o => Hp p i o
    | ECall (Jaxpr fr es) i o => Hc fr es i o ((fix go (l : list eqn) : Forall P l := match l with [] => Forall_nil P | q :: l' => Forall_cons q (eqn_ind' P Hp Hc q) (go l') end) es)
    end.

  Hypothesis L : lattice unknown join lt le.
  Variables (H : nat) (h : Cell -> nat).
  Hypothesis Hh : finite_height le H h.
  Variable reducer : env -> node -> St -> option St -> St.
  Variable initial_state : St.
  Notation node_of := (node_of unknown new join lt reducer initial_state rules).
  Notation propagate := (propagate unknown new join lt reducer initial_state).
  Notation propagate_jaxpr := (propagate_jaxpr unknown new join lt reducer initial_state rules).

  Lemma node_atoms fuel ord q : n_atoms (node_of fuel ord q) = eqn_atoms q.
  Proof. destruct q as [p i o|[fr es] i o]; reflexivity. Qed.
  Lemma nodes_atoms fuel ord es : flat_map n_atoms (map (node_of fuel ord) es) = flat_map eqn_atoms es.
  Proof. induction es as [|q es IH]; [reflexivity|]. cbn [map flat_map]. rewrite IH, node_atoms. reflexivity. Qed.
  Lemma read_eq e e' a : le_env e e' -> le_env e' e -> read e a = read e' a.
  Proof. intros A B. destruct a as [n av|?|?]; try reflexivity. apply (l_antisym _ _ _ _ L); [apply A|apply B]. Qed.
  Lemma map_read_le e e' l : le_env e e' -> Forall2 le (map (read e) l) (map (read e') l).
  Proof. intros He. induction l as [|a l IH]; cbn; constructor; auto. apply (read_le unknown new join lt le L), He. Qed.
  Lemma inside_vars e l cs : Forall is_var l -> Forall2 (inside e) l cs -> Forall2 le cs (map (read e) l).
  Proof. intros Hv Hf. induction Hf as [|a c l cs Hac Hf IH]; cbn; constructor; [|apply IH; inversion Hv; assumption]. inversion Hv as [|? ? Ha ?]; subst. destruct a; cbn in Ha; try contradiction. exact Hac. Qed.
  Lemma inside_trans e l cs ds : Forall2 le cs ds -> Forall2 (inside e) l ds -> Forall2 (inside e) l cs.
  Proof.
    intros Hf. revert l. induction Hf as [|c d cs ds Hcd Hf IH]; intros l Hi; inversion Hi; subst; constructor; [|apply IH; assumption].
    destruct x; cbn [PropProofs.inside] in *; auto. eapply (l_trans _ _ _ _ L); eassumption.
  Qed.
  Lemma inside_read e l : Forall2 (inside e) l (map (read e) l).
  Proof. induction l as [|a l IH]; cbn; constructor; auto. destruct a; cbn [PropProofs.inside]; auto. apply (l_refl _ _ _ _ L). Qed.

  (** what holds of every well-formed equation, for all sufficient fuel and all orders *)
  Definition fine (q : eqn) (nd : node) : Prop := closure nd /\ linear nd /\ forall e, stable e nd <-> sat e q.

  Section Call.
    Variables (fr : frame) (es : list eqn) (fuel : nat) (ord : oracle).
    Notation nodes := (map (node_of fuel ord) es).
    Hypothesis Hp : perm ord.
    Hypothesis Hfine : Forall (fun q => fine q (node_of fuel ord q)) es.
    Hypothesis Hawake : Forall (awake fr) es.
    Hypothesis Hfuel : length (flat_map eqn_atoms es) * H * S (length es) + length es < fuel.
    Lemma nodes_fine nd : In nd nodes -> exists q, In q es /\ nd = node_of fuel ord q /\ fine q nd.
    Proof. intros Hin. apply in_map_iff in Hin as (q & <- & Hq). exists q. rewrite Forall_forall in Hfine. auto. Qed.
    Lemma sat_stable e : Forall (sat e) es <-> forall nd, In nd nodes -> stable e nd.
    Proof.
      rewrite Forall_forall. split.
      - intros Hs nd Hin. apply nodes_fine in Hin as (q & Hq & -> & _ & _ & Hst). apply Hst, Hs, Hq.
      - intros Hs q Hq. rewrite Forall_forall in Hfine. destruct (Hfine q Hq) as (_ & _ & Hst). apply Hst, Hs. apply in_map, Hq.
    Qed.
    Lemma nested_ok stamp cc ic oc : lengths fr cc ic oc -> exists e s, propagate fuel ord stamp fr nodes cc ic oc = Ok (e, s) /\ least_sat fr es cc ic oc e.
    Proof.
      intros Hl. destruct (propagate_ok unknown new join lt le L nodes) with (H := H) (h := h) (reducer := reducer) (initial_state := initial_state) (fr := fr) (cc := cc) (ic := ic) (oc := oc) (fuel := fuel) (ord := ord) (stamp := stamp) as (e & s & E & A & B & C); auto.
      - intros nd Hin. apply nodes_fine in Hin as (q & _ & _ & (Ht & _) & _). exact Ht.
      - intros nd Hin. apply nodes_fine in Hin as (q & _ & _ & (_ & Hm & _) & _). exact Hm.
      - intros nd Hin. apply nodes_fine in Hin as (q & _ & _ & (Ht & Hm & Hx & Hi) & Hlin & _). apply (linear_step_idempotent unknown new join lt le L); assumption.
      - intros nd Hin. apply nodes_fine in Hin as (q & Hq & -> & _ & _ & Hst). rewrite Forall_forall in Hawake. destruct (Hawake q Hq) as [(n & H1 & H2)|Hs]; [left|right; apply Hst, Hs]. exists n. rewrite node_atoms. auto.
      - unfold fuel_bound. rewrite nodes_atoms, map_length. exact Hfuel.
      - exists e, s. split; [exact E|]. split; [exact A|]. split; [apply sat_stable, B|]. intros e' Ha Hs. apply C; [exact Ha|]. apply sat_stable, Hs.
    Qed.
    Variables (i o : list atom).
    Hypothesis Hli : length i = length (f_in fr).
    Hypothesis Hlo : length o = length (f_out fr).
    Hypothesis Hc : f_const fr = [].
    Hypothesis Hvi : Forall is_var (f_in fr).
    Hypothesis Hvo : Forall is_var (f_out fr).
    Hypothesis Hnd : NoDup (vars (i ++ o)).
    Notation nd := (node_of fuel ord (ECall (Jaxpr fr es) i o)).
    Lemma call_result stamp ic oc : length ic = length i -> length oc = length o -> exists e s,
      n_rule nd stamp ic oc = Ok (map (read e) (f_in fr), map (read e) (f_out fr), Some s) /\ least_sat fr es [] ic oc e.
    Proof.
      intros H1 H2. destruct (nested_ok stamp [] ic oc) as (e & s & E & Hs); [repeat split; [rewrite Hc; reflexivity|congruence|congruence]|]. exists e, s. split; [|exact Hs].
      cbn [PropModel.node_of n_rule]. unfold call_rule. rewrite E. reflexivity.
    Qed.
    Lemma above_le e ic oc jc pc : Forall2 le ic jc -> Forall2 le oc pc -> above unknown new le e fr [] jc pc -> above unknown new le e fr [] ic oc.
    Proof. intros H1 H2 (A & B & C). split; [exact A|]. split; eapply inside_trans; eassumption. Qed.
    Lemma above_self e : above unknown new le e fr [] (map (read e) (f_in fr)) (map (read e) (f_out fr)).
    Proof. split; [rewrite Hc; constructor|]. split; apply inside_read. Qed.
    Lemma map_read_eq e e' l : le_env e e' -> le_env e' e -> map (read e) l = map (read e') l.
    Proof. intros A B. apply map_ext. intros a. apply read_eq; assumption. Qed.
    Lemma call_fine : fine (ECall (Jaxpr fr es) i o) nd.
    Proof.
      split; [|split; [exact Hnd|]].
      - split; [|split; [|split]].
        + intros stamp ic oc H1 H2. destruct (call_result stamp ic oc H1 H2) as (e & s & E & _). exists (map (read e) (f_in fr)), (map (read e) (f_out fr)), (Some s). split; [exact E|]. rewrite !map_length. cbn in H1, H2. split; congruence.
        + intros s1 s2 ic oc ic1 oc1 st1 jc pc jc1 pc1 st2 H1 H2 Hle1 Hle2 E1 E2.
          destruct (call_result s1 ic oc H1 H2) as (e & s & E & A & B & C). rewrite E in E1. injection E1 as <- <- _.
          pose proof (Forall2_nth _ _ _ Hle1). pose proof (Forall2_nth _ _ _ Hle2). cbn in H1, H2.
          destruct (call_result s2 jc pc ltac:(congruence) ltac:(congruence)) as (e' & s' & E' & A' & B' & C'). rewrite E' in E2. injection E2 as <- <- _.
          assert (Hee : le_env e e') by (apply C; [eapply above_le; eassumption|exact B']). split; apply map_read_le, Hee.
        + intros stamp ic oc ic1 oc1 st H1 H2 E1. destruct (call_result stamp ic oc H1 H2) as (e & s & E & A & B & C). rewrite E in E1. injection E1 as <- <- _. destruct A as (_ & A1 & A2). split; apply inside_vars; assumption.
        + intros s1 s2 ic oc ic1 oc1 st1 ic2 oc2 st2 H1 H2 E1 E2. destruct (call_result s1 ic oc H1 H2) as (e & s & E & A & B & C). rewrite E in E1. injection E1 as <- <- _.
          destruct (call_result s2 (map (read e) (f_in fr)) (map (read e) (f_out fr))) as (e' & s' & E' & A' & B' & C'); [rewrite map_length; auto|rewrite map_length; auto|]. rewrite E' in E2. injection E2 as <- <- _.
          assert (X1 : le_env e' e) by (apply C'; [apply above_self|exact B]).
          assert (X2 : le_env e e'). { apply C; [|exact B']. destruct A as (_ & A1 & A2). eapply above_le; [| |exact A']; apply inside_vars; assumption. }
          split; apply map_read_eq; assumption.
      - intros e. split.
        + intros Hs. destruct (call_result [] (map (read e) i) (map (read e) o) (map_length _ _) (map_length _ _)) as (ei & s & E & A & B & C). specialize (Hs [] _ _ _ E). unfold n_atoms in Hs. cbn [PropModel.node_of n_ins n_outs] in Hs.
          apply Forall2_split in Hs as [S1 S2]; [|rewrite map_length; exact Hli]. cbn [sat]. exists ei. destruct A as (_ & A1 & A2).
          assert (K : forall l fl, Forall is_var fl -> Forall2 (inside e) l (map (read ei) fl) -> Forall2 (inside ei) fl (map (read e) l) -> Forall2 (agrees e) l (map (read ei) fl)).
          { clear -L. induction l as [|a l IH]; intros fl Hv F1 F2; destruct fl as [|b fl]; inversion F1; subst; [constructor|]. cbn [map] in F2. inversion F2; subst. inversion Hv as [|? ? Hb Hv']; subst. constructor; [|apply IH; assumption].
            destruct b; cbn in Hb; try contradiction. destruct a; cbn [PropProofs.inside agrees] in *; auto. apply (l_antisym _ _ _ _ L); assumption. }
          split; [apply K; assumption|]. split; [apply K; assumption|]. apply sat_all, B.
        + cbn [sat]. intros (ei & G1 & G2 & Gs) stamp ic oc st E. apply sat_all in Gs.
          destruct (call_result stamp (map (read e) i) (map (read e) o) (map_length _ _) (map_length _ _)) as (e1 & s & E1 & A & B & C). change (n_ins nd) with i in E. change (n_outs nd) with o in E. rewrite E1 in E. injection E as <- <- <-.
          assert (Hle : le_env e1 ei).
          { apply C; [|exact Gs]. split; [rewrite Hc; constructor|].
            assert (K : forall l fl, Forall is_var fl -> Forall2 (agrees e) l (map (read ei) fl) -> Forall2 (inside ei) fl (map (read e) l)).
            { clear -L. induction l as [|a l IH]; intros fl Hv F1; destruct fl as [|b fl]; inversion F1; subst; [constructor|]. inversion Hv as [|? ? Hb Hv']; subst. constructor; [|apply IH; assumption]. destruct b; cbn in Hb; try contradiction. cbn [PropProofs.inside]. destruct a; cbn [agrees] in *; auto. rewrite H2. apply (l_refl _ _ _ _ L). }
            split; apply K; assumption. }
          unfold n_atoms. cbn [PropModel.node_of n_ins n_outs]. apply Forall2_app.
          * clear -G1 Hle L. revert G1. generalize (f_in fr). induction i as [|a l IH]; intros fl G; destruct fl as [|b fl]; inversion G; subst; constructor; [|apply IH; assumption]. destruct a; cbn [PropProofs.inside agrees] in *; auto. rewrite <- H2. apply (read_le unknown new join lt le L), Hle.
          * clear -G2 Hle L. revert G2. generalize (f_out fr). induction o as [|a l IH]; intros fl G; destruct fl as [|b fl]; inversion G; subst; constructor; [|apply IH; assumption]. destruct a; cbn [PropProofs.inside agrees] in *; auto. rewrite <- H2. apply (read_le unknown new join lt le L), Hle.
    Qed.
  End Call.
  Lemma wf_fine q : wf q -> exists B, forall fuel ord, B < fuel -> perm ord -> fine q (node_of fuel ord q).
  Proof.
    induction q as [p i o|fr es i o IH] using eqn_ind'.
    - cbn [wf]. intros [Hc Hd]. exists 0. intros fuel ord _ _. split; [exact Hc|]. split; [exact Hd|]. intros e. reflexivity.
    - cbn [wf]. intros (Hnd & Hli & Hlo & Hc & Hvi & Hvo & Haw & Hw). apply wf_all in Hw.
      assert (K : exists B, forall fuel ord, B < fuel -> perm ord -> Forall (fun q => fine q (node_of fuel ord q)) es).
      { clear -IH Hw. induction es as [|q es IHes]; [exists 0; auto|]. inversion IH as [|? ? I1 I2]; subst. inversion Hw as [|? ? W1 W2]; subst. destruct (IHes I2 W2) as [B1 HB1]. destruct (I1 W1) as [B2 HB2].
        exists (B1 + B2). intros fuel ord Hf Hp. constructor; [apply HB2; [lia|exact Hp]|apply HB1; [lia|exact Hp]]. }
      destruct K as [B HB]. exists (B + (length (flat_map eqn_atoms es) * H * S (length es) + length es)). intros fuel ord Hf Hp. apply call_fine; auto; [apply HB; [lia|exact Hp]|lia].
  Qed.
  (** C36: for every jaxpr with nested calls, there is a bound such that every order of the queues terminates within it
      and gives the least environment above the initial cells that satisfies all equations *)
  Theorem C36_least_partial fr es : Forall wf es -> Forall (awake fr) es ->
    exists B, forall fuel ord cc ic oc, B < fuel -> perm ord -> lengths fr cc ic oc ->
    exists e s, propagate_jaxpr fuel ord (Jaxpr fr es) cc ic oc = Ok (e, s) /\ least_sat fr es cc ic oc e.
  Proof.
    intros Hw Ha. assert (K : exists B, forall fuel ord, B < fuel -> perm ord -> Forall (fun q => fine q (node_of fuel ord q)) es).
    { clear -Hw Hh L. induction es as [|q es IHes]; [exists 0; auto|]. inversion Hw; subst. destruct (IHes ltac:(assumption)) as [B1 HB1]. destruct (wf_fine q ltac:(assumption)) as [B2 HB2].
      exists (B1 + B2). intros fuel ord Hf Hp. constructor; [apply HB2; [lia|exact Hp]|apply HB1; [lia|exact Hp]]. }
    destruct K as [B HB]. exists (B + (length (flat_map eqn_atoms es) * H * S (length es) + length es)). intros fuel ord cc ic oc Hf Hp Hl.
    apply nested_ok; auto; [apply HB; [lia|exact Hp]|lia].
  Qed.
  Theorem C36_order_irrelevant_partial fr es : Forall wf es -> Forall (awake fr) es ->
    exists B, forall cc ic oc, lengths fr cc ic oc -> forall fuel1 ord1 fuel2 ord2, B < fuel1 -> B < fuel2 -> perm ord1 -> perm ord2 ->
    exists e1 s1 e2 s2, propagate_jaxpr fuel1 ord1 (Jaxpr fr es) cc ic oc = Ok (e1, s1) /\ propagate_jaxpr fuel2 ord2 (Jaxpr fr es) cc ic oc = Ok (e2, s2) /\
      forall a, read e1 a = read e2 a.
  Proof.
    intros Hw Ha. destruct (C36_least_partial fr es Hw Ha) as [B HB]. exists B. intros cc ic oc Hl f1 o1 f2 o2 H1 H2 P1 P2.
    destruct (HB f1 o1 cc ic oc H1 P1 Hl) as (e1 & s1 & E1 & A1 & B1 & C1). destruct (HB f2 o2 cc ic oc H2 P2 Hl) as (e2 & s2 & E2 & A2 & B2 & C2). exists e1, s1, e2, s2. repeat split; auto.
    intros a. apply read_eq; [apply C1|apply C2]; assumption.
  Qed.
End Nested.

(** equations as they are, with repeated variables allowed: local idempotence is then required of the whole step *)
Theorem C36_nodes_least {Cell Aval Lit Prim St : Type} unknown new join lt le (L : @lattice Cell Aval unknown join lt le) (nodes : list (@node Cell Aval Lit Prim St)) H h :
  finite_height le H h ->
  (forall nd, In nd nodes -> total nd) -> (forall nd, In nd nodes -> monotone le nd) -> (forall nd, In nd nodes -> step_idempotent unknown new join le nd) ->
  forall reducer initial_state fr cc ic oc, lengths fr cc ic oc -> (forall nd, In nd nodes -> woken unknown new le fr nd) ->
  forall fuel ord stamp, perm ord -> fuel_bound nodes H < fuel ->
  exists e s, propagate unknown new join lt reducer initial_state fuel ord stamp fr nodes cc ic oc = Ok (e, s) /\ least_env unknown new le nodes fr cc ic oc e.
Proof. intros Hh Ht Hm Hi reducer initial_state fr cc ic oc Hl Hw fuel ord stamp Hp Hf. eapply (propagate_ok unknown new join lt le L); eassumption. Qed.

(** ** A concrete lattice: a chain of four cells *)
Inductive c4 := K0 | K1 | K2 | K3.
Definition rank (c : c4) : nat := match c with K0 => 0 | K1 => 1 | K2 => 2 | K3 => 3 end.
Definition jn (a b : c4) : c4 := if rank a <=? rank b then b else a.
Definition lt4 (a b : c4) : bool := rank a <? rank b.
Definition le4 (a b : c4) : Prop := rank a <= rank b.
Lemma c4_lattice : lattice (fun _ : unit => K0) jn lt4 le4.
Proof.
  constructor; unfold le4, jn, lt4.
  - intros a. lia.
  - intros a b c. lia.
  - intros a b. destruct a, b; cbn; intros; try reflexivity; lia.
  - intros a b. destruct a, b; cbn; lia.
  - intros a b. destruct a, b; cbn; lia.
  - intros a b c. destruct a, b; cbn; lia.
  - intros a b. destruct a, b; cbn; intros; try reflexivity; try discriminate; lia.
  - intros _ c. cbn. lia.
Qed.
Lemma c4_height : finite_height le4 3 rank.
Proof. split; [intros []; cbn; lia|]. unfold le4. intros a b. destruct a, b; cbn; intros; try lia; congruence. Qed.
(** rules: equality of input and output; the second input is more than the first; a source *)
Inductive prims := Same | Less | Source.
Definition suc (c : c4) : c4 := match c with K0 => K0 | K1 => K2 | _ => K3 end.
Definition rules4 (p : prims) (ic oc : list c4) : res (list c4 * list c4 * option unit) :=
  match p, ic, oc with
  | Same, [a], [b] => Ok ([jn a b], [jn a b], None)
  | Less, [a; b], [o] => Ok ([a; jn b (suc a)], [o], None)
  | Source, [], [o] => Ok ([], [K3], None)
  | _, _, _ => Err
  end.
Notation v n := (AVar n tt).
Definition eq_jaxpr : eqn unit c4 prims := EPrim Same [v 0] [v 1].
Definition fr01 : frame unit c4 := mk_frame [] [v 0] [v 1].
Definition idord : oracle := fun _ l => l.
Definition revord : oracle := fun _ l => rev l.
Lemma idord_perm : perm idord. Proof. intros s l. apply Permutation_refl. Qed.
Lemma revord_perm : perm revord. Proof. intros s l. apply Permutation_rev. Qed.
Definition sat4 := sat (fun _ : unit => K0) (fun c : c4 => c) le4 rules4.
Definition wf4 := wf (fun _ : unit => K0) (fun c : c4 => c) le4 rules4.
Definition run4 fuel ord fr es ic oc := propagate_jaxpr (fun _ : unit => K0) (fun c : c4 => c) jn lt4 (fun _ _ s _ => s) tt rules4 fuel ord (Jaxpr fr es) [] ic oc.
Ltac lists := repeat match goal with
  | H : length ?l = S _ |- _ => destruct l; [discriminate H|injection H as H]
  | H : length ?l = 0 |- _ => destruct l; [clear H|discriminate H]
  | H : Forall2 _ (_ :: _) _ |- _ => inversion H; clear H; subst
  | H : Forall2 _ [] _ |- _ => inversion H; clear H; subst
  | H : Ok _ = Ok _ |- _ => inversion H; clear H; subst
  end.
Lemma Same_closure a b : closure le4 (prim_node rules4 Same [a : atom unit c4] [b]).
Proof.
  unfold closure. split; [|split; [|split]].
  - intros st ic oc H1 H2. cbn in H1, H2. lists. cbn. do 3 eexists. split; [reflexivity|split; reflexivity].
  - intros s1 s2 ic oc ic1 oc1 st1 jc pc jc1 pc1 st2 H1 H2 F1 F2 E1 E2. cbn in H1, H2. lists. cbn in E1, E2. lists. destruct c, c0, y, y0; cbv in *; try lia; split; constructor; try constructor; lia.
  - intros s ic oc ic1 oc1 st H1 H2 E. cbn in H1, H2. lists. cbn in E. lists. destruct c, c0; split; constructor; try constructor; cbv; lia.
  - intros s1 s2 ic oc ic1 oc1 st1 ic2 oc2 st2 H1 H2 E1 E2. cbn in H1, H2. lists. cbn in E1. lists. cbn in E2. lists. split; f_equal; destruct c, c0; reflexivity.
Qed.
Lemma less_mono a b c d : le4 a c -> le4 b d -> le4 (jn b (suc a)) (jn d (suc c)).
Proof. unfold le4. destruct a, c; cbn; try lia; destruct b, d; cbn; lia. Qed.
Lemma Less_closure a b o : closure le4 (prim_node rules4 Less [a : atom unit c4; b] [o]).
Proof.
  unfold closure. split; [|split; [|split]].
  - intros st ic oc H1 H2. cbn in H1, H2. lists. cbn. do 3 eexists. split; [reflexivity|split; reflexivity].
  - intros s1 s2 ic oc ic1 oc1 st1 jc pc jc1 pc1 st2 H1 H2 F1 F2 E1 E2. cbn in H1, H2. lists. cbn in E1, E2. lists. match goal with |- Forall2 _ [?a; ?b] [?c; ?d] /\ Forall2 _ [?x] [?y] => assert (le4 b d); [|split; [constructor; [assumption|constructor; [assumption|constructor]]|constructor; [assumption|constructor]]] end. apply less_mono; assumption.
  - intros s ic oc ic1 oc1 st H1 H2 E. cbn in H1, H2. lists. cbn in E. lists. split; [constructor; [|constructor; [|constructor]]|constructor; [|constructor]]; try (apply le_n). apply (l_join_l _ _ _ _ c4_lattice).
  - intros s1 s2 ic oc ic1 oc1 st1 ic2 oc2 st2 H1 H2 E1 E2. cbn in H1, H2. lists. cbn in E1. lists. cbn in E2. lists. split; [|reflexivity]. f_equal. f_equal. repeat match goal with x : c4 |- _ => destruct x end; reflexivity.
Qed.
(** a jaxpr with a nested call meets the hypotheses, and information flows both ways *)
Definition es_ex : list (eqn unit c4 prims) := [ECall (Jaxpr fr01 [eq_jaxpr]) [v 0] [v 1]; EPrim Less [v 1; v 2] [v 3]; EPrim Same [v 2] [v 4]].
Definition fr_ex : frame unit c4 := mk_frame [] [v 0] [v 4].
Theorem C36_example : Forall wf4 es_ex /\ Forall (awake (fun _ : unit => K0) (fun c : c4 => c) le4 rules4 fr_ex) es_ex /\
  exists e s, run4 30 revord fr_ex es_ex [K1] [K0] = Ok (e, s) /\ map e [0; 1; 2; 3; 4] = [Some K1; Some K1; Some K2; Some K0; Some K2].
Proof.
  split; [|split].
  - assert (Hw0 : wf4 eq_jaxpr). { split; [apply Same_closure|]. cbn. repeat constructor; cbn; intuition discriminate. }
    constructor; [|constructor; [|constructor; [|constructor]]].
    + cbn. split; [repeat constructor; cbn; intuition discriminate|]. do 3 (split; [reflexivity|]). split; [repeat constructor|]. split; [repeat constructor|]. split; [|split; [exact Hw0|exact I]]. constructor; [|constructor]. left. exists 0. cbn. auto.
    + split; [apply Less_closure|]. cbn. repeat constructor; cbn; intuition discriminate.
    + split; [apply Same_closure|]. cbn. repeat constructor; cbn; intuition discriminate.
  - constructor; [left; exists 0; cbn; auto|]. constructor; [right|constructor; [left; exists 4; cbn; auto|constructor]].
    intros s ic oc st E. cbn in E. lists. cbn. repeat constructor.
  - eexists _, _. split; [vm_compute; reflexivity|]. reflexivity.
Qed.
(** False when a variable occurs twice in an equation, although the rule is a closure operator: the equation is not
    processed again after its own changes *)
Theorem C36_repeated_variable_refuted : closure le4 (prim_node rules4 Less [v 0 : atom unit c4; v 0] [v 1]) /\
  exists e s, run4 30 idord fr01 [EPrim Less [v 0; v 0] [v 1]] [K1] [K0] = Ok (e, s) /\ e 0 = Some K2 /\ ~ sat4 e (EPrim Less [v 0; v 0] [v 1]).
Proof.
  split; [apply Less_closure|]. eexists _, _. split; [vm_compute; reflexivity|]. split; [reflexivity|]. intros F. specialize (F [] _ _ _ eq_refl). vm_compute in F. inversion F; subst. inversion H4; subst. unfold le4 in H3. cbn in H3. lia.
Qed.
(** False when an equation without variables of the frame could act on its own (e.g. iota): it is never processed, and
    the information it has is not used *)
Definition es_src : list (eqn unit c4 prims) := [EPrim Source [] [v 1]; EPrim Same [v 1] [v 2]; EPrim Less [v 2; v 0] [v 3]].
Definition fr_src : frame unit c4 := mk_frame [] [v 0] [v 3].
Theorem C36_source_refuted : exists e s, run4 30 idord fr_src es_src [K0] [K0] = Ok (e, s) /\ e 0 = Some K0 /\
  ~ sat4 e (EPrim Source [] [v 1]) /\
  forall e', Forall (sat4 e') es_src -> read (fun _ => K0) (fun c => c) e' (v 0) = K3.
Proof.
  eexists _, _. split; [vm_compute; reflexivity|]. split; [reflexivity|]. split.
  - intros F. specialize (F [] _ _ _ eq_refl). vm_compute in F. inversion F; subst. unfold le4 in H2. cbn in H2. lia.
  - intros e' Hs. inversion Hs as [|? ? S1 Hs1]; subst. inversion Hs1 as [|? ? S2 Hs2]; subst. inversion Hs2 as [|? ? S3 _]; subst.
    specialize (S1 [] _ _ _ eq_refl). specialize (S2 [] _ _ _ eq_refl). specialize (S3 [] _ _ _ eq_refl).
    set (rd := read (fun _ : unit => K0) (fun c => c) e') in *.
    assert (A1 : le4 K3 (rd (v 1))) by (inversion S1; assumption).
    assert (A2 : le4 (jn (rd (v 1)) (rd (v 2))) (rd (v 2))) by (inversion S2 as [|? ? ? ? _ S2']; inversion S2'; assumption).
    assert (A3 : le4 (jn (rd (v 0)) (suc (rd (v 2)))) (rd (v 0))) by (inversion S3 as [|? ? ? ? _ S3']; inversion S3'; assumption).
    clearbody rd. clear -A1 A2 A3. revert A1 A2 A3. generalize (rd (v 0)), (rd (v 1)), (rd (v 2)). intros a b c. unfold le4. destruct b; cbn; try lia. destruct c; cbn; try lia. destruct a; cbn; try lia. reflexivity.
Qed.
Print Assumptions C36_least_partial.
Print Assumptions C36_order_irrelevant_partial.
