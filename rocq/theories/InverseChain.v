(** C37/C39: programs that are chains of elementwise operations and binary operations with constants are inverted successfully,
    under every schedule. *)
From Verif Require Export InverseLinProps.

Section Chain.
  Variables V W : Type.
  Variable w0 : W.
  Variable wplus : W -> W -> W.
  Variable cord : list (ndslice V W) -> list (ndslice V W).
  Notation arrV := (arr V). Notation arrW := (arr W).
  (** One operation of a chain: an elementwise primitive, a binary primitive with a constant left or right operand, a custom_inverse
      function F with def_inverse_unary(f_inv, f_ildj) *)
  Inductive link := LU (e : elem V W) | LL (b : binop V W) (c : arrV) | LR (b : binop V W) (c : arrV) | LC (F : list arrV -> list arrV) (f_inv : arrV -> arrV) (f_ildj : arrV -> arrW).
  (** the equation x_{i+1} = op(x_i) *)
  Definition link_eqn (sh : list nat) (i : nat) (l : link) : qn V W :=
    match l with
    | LU e => QPrim _ _ (PElem _ _ e) [AVar i sh] [AVar (S i) sh]
    | LL b c => QPrim _ _ (PBin _ _ b) [ALit c; AVar i sh] [AVar (S i) sh]
    | LR b c => QPrim _ _ (PBin _ _ b) [AVar i sh; ALit c] [AVar (S i) sh]
    | LC F f_inv f_ildj => QPrim _ _ (PCustom _ _ 0 F (unary_inverse V W wplus f_inv f_ildj)) [AVar i sh] [AVar (S i) sh]
    end.
  Fixpoint chain_eqns (sh : list nat) (i : nat) (ls : list link) : list (qn V W) := match ls with [] => [] | l :: ls' => link_eqn sh i l :: chain_eqns sh (S i) ls' end.
  Definition chain_frame (sh : list nat) (ls : list link) := mk_frame [] [AVar 0 sh : atom (list nat) arrV] [AVar (length ls) sh].
  Definition chain (sh : list nat) (ls : list link) : jx V W := Jx _ _ (chain_frame sh ls) (chain_eqns sh 0 ls).
  (** the operation has an inverse and accepts arrays of the shape *)
  Definition link_ok (sh : list nat) (l : link) : Prop := match l with LU e => e_inv V W e <> None | LL _ c => a_shape c = [] \/ a_shape c = sh | LR _ c => a_shape c = [] \/ a_shape c = sh | LC _ f_inv _ => forall v, a_shape v = sh -> a_shape (f_inv v) = sh end.

  Lemma chain_nth sh ls : forall k i, nth_error (chain_eqns sh k ls) i = option_map (link_eqn sh (k + i)) (nth_error ls i).
  Proof. induction ls as [|l ls IH]; intros k [|i]; cbn; try reflexivity; [rewrite Nat.add_0_r; reflexivity|]. rewrite IH. replace (S k + i) with (k + S i) by lia. reflexivity. Qed.
  Lemma chain_length sh ls : forall k, length (chain_eqns sh k ls) = length ls.
  Proof. induction ls; intros k; cbn; auto. Qed.

  Notation cell := (cell V W). Notation unknown := (unknown V W). Notation new := (new V W w0). Notation join := (join V W cord). Notation cell_lt := (cell_lt V W). Notation kn := (kn V W).
  Notation read := (read unknown new). Notation env := (env cell).
  Notation node_of := (InverseModel.node_of V W w0 wplus cord MInverse).
  Variable sh : list nat.
  Definition isk (c : cell) : Prop := exists v j, c = mk_cell sh [nd_new V W v j] /\ a_shape v = sh.
  Definition isu (c : cell) : Prop := c = unknown sh.
  Lemma kn_isk c : isk c -> exists v j, kn c = Some (v, j) /\ a_shape v = sh /\ c_aval c = sh.
  Proof using. clear w0 wplus cord. intros (v & j & -> & E). exists v, j. split; [apply kn_one, E|]. auto. Qed.
  Lemma isk_top c : isk c -> top V W c = true.
  Proof using. clear w0 wplus cord. intros H. destruct (kn_isk c H) as (v & j & E & _). apply kn_top. congruence. Qed.
  Lemma join_k c c' : isk c' -> join c c' = c'.
  Proof using. clear w0 wplus. intros H. unfold SliceModel.join. rewrite (isk_top c' H). reflexivity. Qed.
  Lemma join_u c c' : isu c' -> join c c' = c.
  Proof using. clear w0 wplus. intros ->. reflexivity. Qed.
  Lemma lt_top c c' : top V W c = true -> cell_lt c c' = false.
  Proof using. clear w0 wplus cord. intros H. unfold SliceModel.cell_lt. rewrite H. reflexivity. Qed.
  Lemma lt_uk c c' : isu c -> isk c' -> cell_lt c c' = true.
  Proof using. clear w0 wplus cord. intros -> (v & j & -> & _). reflexivity. Qed.
  Lemma lt_u c c' : isu c' -> cell_lt c c' = false.
  Proof using. clear w0 wplus cord. intros ->. unfold SliceModel.cell_lt. rewrite orb_true_r. reflexivity. Qed.
  Lemma top_new l : top V W (new l) = true.
  Proof using. clear wplus cord. apply kn_top. rewrite kn_new. discriminate. Qed.

  (** what the rule of a link does to the cells a of its input and b of its output *)
  Lemma bshape_lit (c v : arrV) : a_shape c = [] \/ a_shape c = sh -> a_shape v = sh -> bshape c v = sh.
  Proof using. clear w0 wplus cord. unfold bshape. intros [->| ->] H; [exact H|destruct sh; [exact H|reflexivity]]. Qed.
  Section Step.
    Variables (fuel : nat) (ord : oracle) (i : nat) (l : link) (e : env) (st : list nat).
    Hypothesis Hl : link_ok sh l.
    Notation a := (read e (AVar i sh)). Notation b := (read e (AVar (S i) sh)). Notation nd := (node_of fuel ord (link_eqn sh i l)).
    Notation ic := (map (read e) (n_ins nd)). Notation oc := (map (read e) (n_outs nd)).
    Notation writes := (writes unknown new join).
    Definition front (st' : list nat) (nodes : list (node cell (list nat) arrV tag (option W))) (q : list nat) : list nat :=
      ord st' (filter (fun k => negb (memn k q) && negb (Nat.eqb k i)) (neighbors nodes (AVar i sh))).
    Lemma rule_ok' : isu a /\ isu b \/ isu a /\ isk b \/ isk a /\ isk b ->
      exists a' x, n_rule nd st ic oc = Ok (match l with LU _ => [a'] | LL _ c => [new c; a'] | LR _ c => [a'; x] | LC _ _ _ => [a'] end, [b], None) /\ (isu b -> isu a') /\ (isk b -> isk a').
    Proof using Hl.
      intros H. remember a as ca eqn:Ea. remember b as cb eqn:Eb. destruct l as [f|f c|f c|f c c']; cbn [link_eqn InverseModel.node_of n_rule n_ins n_outs catch rules map elem_rule bin_rule]; rewrite <- ?Ea, <- ?Eb; try change (read e (ALit c)) with (new c); unfold elem_rule, bin_rule, custom_rule; cbn [firstn skipn app InverseModel.kn_all map]; rewrite ?kn_new.
      - destruct H as [[Ua Ub]|[[Ua Kb]|[Ka Kb]]].
        + rewrite Ua, Ub. exists (unknown sh), (unknown sh). split; [reflexivity|]. split; [reflexivity|auto].
        + destruct (kn_isk cb Kb) as (v & j & E & Sv & Sa). rewrite Ua, E, Sa. cbn in Hl. destruct (e_inv V W f) as [g|]; [|congruence]. eexists _, (unknown sh). split; [reflexivity|]. split; [intros U; rewrite U in E; discriminate|]. intros _. eexists _, _. split; [reflexivity|]. exact Sv.
        + destruct (kn_isk cb Kb) as (v & j & E & Sv & Sa). destruct (kn_isk ca Ka) as (v' & j' & E' & Sv' & Sa'). rewrite E, E'. exists ca, ca. split; [reflexivity|]. split; [intros U; rewrite U in E; discriminate|auto].
      - destruct H as [[Ua Ub]|[[Ua Kb]|[Ka Kb]]].
        + rewrite Ua, Ub. exists (unknown sh), (unknown sh). split; [reflexivity|]. split; [reflexivity|auto].
        + destruct (kn_isk cb Kb) as (v & j & E & Sv & Sa). rewrite E. eexists _, (unknown sh). split; [reflexivity|]. split; [intros U; rewrite U in E; discriminate|]. intros _. rewrite Ua. eexists _, _. split; [reflexivity|]. cbn. apply bshape_lit; assumption.
        + destruct (kn_isk cb Kb) as (v & j & E & Sv & Sa). destruct (kn_isk ca Ka) as (v' & j' & E' & Sv' & Sa'). rewrite E. eexists _, ca. split; [reflexivity|]. split; [intros U; rewrite U in E; discriminate|]. intros _. rewrite Sa'. eexists _, _. split; [reflexivity|]. cbn. apply bshape_lit; assumption.
      - destruct H as [[Ua Ub]|[[Ua Kb]|[Ka Kb]]].
        + rewrite Ua, Ub. exists (unknown sh), (new c). split; [reflexivity|]. split; [reflexivity|auto].
        + destruct (kn_isk cb Kb) as (v & j & E & Sv & Sa). rewrite E, Ua. eexists _, (new c). split; [reflexivity|]. split; [intros U; rewrite U in E; discriminate|]. intros _. eexists _, _. split; [reflexivity|]. cbn. apply bshape_lit; assumption.
        + destruct (kn_isk cb Kb) as (v & j & E & Sv & Sa). destruct (kn_isk ca Ka) as (v' & j' & E' & Sv' & Sa'). rewrite E, E'. eexists ca, _. split; [reflexivity|]. split; [intros U; rewrite U in E; discriminate|auto].
      - destruct H as [[Ua Ub]|[[Ua Kb]|[Ka Kb]]].
        + rewrite Ua, Ub. exists (unknown sh), (unknown sh). split; [reflexivity|]. split; [reflexivity|auto].
        + destruct (kn_isk cb Kb) as (v & j & E & Sv & Sa). rewrite Ua, E. eexists _, (unknown sh). split; [reflexivity|]. split; [intros U; rewrite U in E; discriminate|]. intros _. eexists _, _. split; [reflexivity|]. cbn in Hl. apply Hl, Sv.
        + destruct (kn_isk cb Kb) as (v & j & E & Sv & Sa). destruct (kn_isk ca Ka) as (v' & j' & E' & Sv' & Sa'). rewrite E, E'. exists ca, ca. split; [reflexivity|]. split; [intros U; rewrite U in E; discriminate|auto].
    Qed.
    (** the environment after the equation, and the queue *)
    Lemma step_ok : isu a /\ isu b \/ isu a /\ isk b \/ isk a /\ isk b ->
      exists ic' oc' e1 nic e2 noc, n_rule nd st ic oc = Ok (ic', oc', None) /\ writes e (n_ins nd) ic' = Ok (e1, nic) /\ writes e1 (n_outs nd) oc' = Ok (e2, noc) /\
        (forall j, j <> i -> read e2 (AVar j sh) = read e (AVar j sh)) /\ (isu b -> isu (read e2 (AVar i sh))) /\ (isk b -> isk (read e2 (AVar i sh))) /\
        forall st' nodes q, exists s, update_queue cell_lt ord st' nodes i q (combine (n_atoms nd) (combine (ic ++ oc) (nic ++ noc))) = if cell_lt a (read e2 (AVar i sh)) then front s nodes q ++ q else q.
    Proof using Hl.
      intros H. destruct (rule_ok' H) as (a' & x & E & U & K). 
      assert (Ja : join a a' = a') by (destruct H as [[Ha Hb]|[[Ha Hb]|[Ha Hb]]]; [rewrite (U Hb), Ha; reflexivity|apply join_k, K, Hb|apply join_k, K, Hb]).
      assert (Jb : join b b = b) by (destruct H as [[Ha Hb]|[[Ha Hb]|[Ha Hb]]]; [apply join_u, Hb|apply join_k, Hb|apply join_k, Hb]).
      assert (Lb : cell_lt b b = false) by (destruct H as [[Ha Hb]|[[Ha Hb]|[Ha Hb]]]; [apply lt_u, Hb|apply lt_top, isk_top, Hb|apply lt_top, isk_top, Hb]).
      set (e1 := upd e i (Some a')). set (e2 := upd e1 (S i) (Some b)).
      assert (R1 : read e1 (AVar (S i) sh) = b) by (unfold e1; cbn; unfold upd; replace (Nat.eqb (S i) i) with false by (symmetry; apply Nat.eqb_neq; lia); reflexivity).
      assert (R2 : read e2 (AVar i sh) = a') by (unfold e2, e1; cbn; unfold upd; replace (Nat.eqb i (S i)) with false by (symmetry; apply Nat.eqb_neq; lia); rewrite Nat.eqb_refl; reflexivity).
      exists (match l with LU _ => [a'] | LL _ c => [new c; a'] | LR _ c => [a'; x] | LC _ _ _ => [a'] end), [b], e1, (match l with LU _ => [a'] | LL _ c => [new c; a'] | LR _ c => [a'; x] | LC _ _ _ => [a'] end), e2, [b].
      split; [exact E|]. split; [|split; [|split; [|split; [|split]]]].
      - destruct l as [f|f c|f c|f c c']; cbn [link_eqn InverseModel.node_of n_ins PropModel.writes PropModel.write rbind fst snd]; rewrite Ja; reflexivity.
      - destruct l as [f|f c|f c|f c c']; cbn [link_eqn InverseModel.node_of n_outs PropModel.writes PropModel.write rbind fst snd]; rewrite R1, Jb; reflexivity.
      - intros j Hj. unfold e2, e1. cbn. unfold upd. destruct (Nat.eqb j (S i)) eqn:Ej; [apply Nat.eqb_eq in Ej; subst j; reflexivity|]. replace (Nat.eqb j i) with false by (symmetry; apply Nat.eqb_neq; exact Hj). reflexivity.
      - intros Hb. rewrite R2. apply U, Hb.
      - intros Hb. rewrite R2. apply K, Hb.
      - intros st' nodes q. rewrite R2. destruct l as [f|f c|f c|f c c']; cbn [link_eqn InverseModel.node_of n_atoms n_ins n_outs map app combine update_queue]; try change (read e (ALit c)) with (new c); rewrite ?(lt_top (new c) _ (top_new c)), Lb; eexists; destruct (cell_lt a a'); reflexivity.
    Qed.
  End Step.

  Section Loop.
    Variables (fuel0 : nat) (ord : oracle) (ls : list link).
    Hypothesis Hp : perm ord.
    Hypothesis Hls : Forall (link_ok sh) ls.
    Notation n := (length ls).
    Notation nodes := (map (node_of fuel0 ord) (chain_eqns sh 0 ls)).
    (** the variables from k on are known, those before are not *)
    Definition upto (e : env) (k : nat) : Prop := forall i, (k <= i <= n -> isk (read e (AVar i sh))) /\ (i < k -> isu (read e (AVar i sh))).
    Lemma nodes_nth i : nth_error nodes i = option_map (fun l => node_of fuel0 ord (link_eqn sh i l)) (nth_error ls i).
    Proof using. rewrite nth_error_map, chain_nth. destruct (nth_error ls i); reflexivity. Qed.
    Lemma nodes_length : length nodes = n.
    Proof using. rewrite map_length, chain_length. reflexivity. Qed.
    Lemma neighbors_length (at_ : atom (list nat) arrV) : length (neighbors nodes at_) <= n.
    Proof using. destruct at_ as [m av| |]; cbn; try lia. rewrite <- nodes_length. rewrite <- (seq_length (length nodes) 0) at 2. generalize (seq 0 (length nodes)). intros l. induction l as [|x l IH]; cbn; [lia|]. destruct (match nth_error nodes x with Some nd => mentions m nd | None => false end); cbn; lia. Qed.
    Lemma neighbors_in i : S i <= n -> In i (neighbors nodes (AVar (S i) sh)).
    Proof using. intros H. cbn [neighbors]. apply filter_In. rewrite nodes_length, nodes_nth. split; [apply in_seq; lia|]. destruct (nth_error ls i) as [l|] eqn:E; [|apply nth_error_None in E; lia]. cbn [option_map]. unfold mentions. apply existsb_exists. exists (AVar (S i) sh). split; [|apply Nat.eqb_refl]. unfold n_atoms. apply in_or_app. right. destruct l; left; reflexivity. Qed.
    Lemma neighbors_lt at_ i : In i (neighbors nodes at_) -> i < n.
    Proof using. destruct at_; cbn; try contradiction. intros H. apply filter_In in H as [H _]. apply in_seq in H. rewrite nodes_length in H. lia. Qed.
    Lemma loop_chain : forall fuel st e ss q k, k <= n -> upto e k -> (k = 0 \/ In (k - 1) q) -> Forall (fun i => i < n) q -> length q + n * k < fuel ->
      exists e' ss', loop unknown new join cell_lt fuel ord st nodes e ss q = Ok (e', ss') /\ upto e' 0.
    Proof using Hp Hls.
      induction fuel as [|fuel IH]; intros st e ss q k Hk He Hq Fq Hf; [lia|]. cbn [loop]. destruct q as [|i q]; [destruct Hq as [->|[]]; exists e, ss; split; [reflexivity|exact He]|].
      inversion Fq as [|? ? Hi Fq']; subst. rewrite nodes_nth. destruct (nth_error ls i) as [l|] eqn:El; [|apply nth_error_None in El; lia]. cbn [option_map].
      assert (Hl : link_ok sh l) by (eapply Forall_forall; [exact Hls|eapply nth_error_In; exact El]).
      assert (C : isu (read e (AVar i sh)) /\ isu (read e (AVar (S i) sh)) \/ isu (read e (AVar i sh)) /\ isk (read e (AVar (S i) sh)) \/ isk (read e (AVar i sh)) /\ isk (read e (AVar (S i) sh))).
      { destruct (lt_dec (S i) k); [left; split; apply He; lia|]. destruct (lt_dec i k); [right; left; split; apply He; lia|right; right; split; apply He; lia]. }
      destruct (step_ok fuel0 ord i l e (1 :: fuel :: st) Hl C) as (ic' & oc' & e1 & nic & e2 & noc & E1 & E2 & E3 & Hj & HU & HK & HQ). rewrite E1. cbn [rbind]. rewrite E2. cbn [rbind]. rewrite E3. cbn [rbind].
      destruct (HQ (fuel :: st) nodes q) as (s & EQ). rewrite EQ. clear EQ HQ E1 E2 E3. destruct (Nat.eq_dec (S i) k) as [Eik|Nik].
      - assert (U : isu (read e (AVar i sh))) by (apply He; lia). assert (K : isk (read e2 (AVar i sh))) by (apply HK, He; lia). rewrite (lt_uk _ _ U K).
        assert (FI : forall x, In x (front ord i s nodes q) <-> In x (neighbors nodes (AVar i sh)) /\ ~ In x q /\ x <> i).
        { intros x. unfold front. split; intros Hx.
          - eapply Permutation_in in Hx; [|apply Permutation_sym, Hp]. apply filter_In in Hx as [Hx1 Hx2]. apply andb_true_iff in Hx2 as [Hx2 Hx3]. split; [exact Hx1|]. split; [|apply negb_true_iff, Nat.eqb_neq in Hx3; exact Hx3]. intros Hin. apply negb_true_iff in Hx2. unfold memn in Hx2. assert (existsb (Nat.eqb x) q = true) by (apply existsb_exists; exists x; split; [exact Hin|apply Nat.eqb_refl]). congruence.
          - eapply Permutation_in; [apply Hp|]. apply filter_In. destruct Hx as (H1 & H2 & H3). split; [exact H1|]. apply andb_true_iff. split; [|apply negb_true_iff, Nat.eqb_neq; exact H3]. apply negb_true_iff. destruct (memn x q) eqn:M; [|reflexivity]. unfold memn in M. apply existsb_exists in M as (y & Hy & Exy). apply Nat.eqb_eq in Exy. subst y. contradiction. }
        assert (FL : length (front ord i s nodes q) <= n).
        { unfold front. rewrite <- (Permutation_length (Hp s _)). etransitivity; [|apply (neighbors_length (AVar i sh))]. generalize (neighbors nodes (AVar i sh)). intros L. clear. induction L as [|x L IH]; cbn; [lia|]. destruct (negb (memn x q) && negb (x =? i)); cbn; lia. }
        apply (IH _ _ _ _ i); [lia| | | |].
        + intros j. split; intros Hj1; [destruct (Nat.eq_dec j i) as [->|N]; [exact K|rewrite Hj by exact N; apply He; lia]|rewrite Hj by lia; apply He; lia].
        + destruct i as [|i]; [left; reflexivity|right]. replace (S i - 1) with i by lia. apply in_or_app. destruct (in_dec Nat.eq_dec i q) as [Y|N]; [right; exact Y|left]. apply FI. split; [apply neighbors_in; lia|]. split; [exact N|lia].
        + apply Forall_app. split; [|exact Fq']. apply Forall_forall. intros x Hx. apply FI in Hx as [Hx _]. eapply neighbors_lt, Hx.
        + rewrite app_length. cbn [length] in Hf. subst k. rewrite Nat.mul_succ_r in Hf. lia.
      - assert (NLT : cell_lt (read e (AVar i sh)) (read e2 (AVar i sh)) = false).
        { destruct C as [[Ha Hb]|[[Ha Hb]|[Ha Hb]]]; [apply lt_u, HU, Hb| |apply lt_top, isk_top, Ha]. exfalso. apply Nik. destruct (lt_dec (S i) k); [assert (isu (read e (AVar (S i) sh))) as X by (apply He; lia); rewrite X in Hb; destruct Hb as (? & ? & ? & _); discriminate|]. destruct (lt_dec i k); [lia|]. assert (isk (read e (AVar i sh))) as X by (apply He; lia). rewrite Ha in X. destruct X as (? & ? & ? & _); discriminate. }
        rewrite NLT. apply (IH _ _ _ _ k); [exact Hk| | |exact Fq'|cbn [length] in Hf; lia].
        + intros j. destruct (Nat.eq_dec j i) as [->|N]; [|rewrite Hj by exact N; apply He]. split; intros Hj1; [apply HK, He; lia|apply HU, He; lia].
        + destruct Hq as [->|[Hq|Hq]]; [left; reflexivity| |right; exact Hq]. subst i. destruct k; [left; reflexivity|exfalso; apply Nik; lia].
    Qed.
    Lemma atoms_sh i l : Forall (fun at_ => match at_ with AVar _ av => av = sh | _ => True end) (n_atoms (node_of fuel0 ord (link_eqn sh i l))).
    Proof using. destruct l; repeat constructor. Qed.
    Lemma init_read e i : read (init_unknown unknown new join e nodes) (AVar i sh) = read e (AVar i sh).
    Proof using.
      unfold init_unknown. assert (F : Forall (fun at_ : atom (list nat) arrV => match at_ with AVar _ av => av = sh | _ => True end) (flat_map n_atoms nodes)).
      { apply Forall_forall. intros x Hx. apply in_flat_map in Hx as (nd & Hn & Hx). apply In_nth_error in Hn as (k & Hk). rewrite nodes_nth in Hk. destruct (nth_error ls k) as [l|]; [|discriminate]. injection Hk as <-. pose proof (atoms_sh k l) as F. rewrite Forall_forall in F. apply F, Hx. }
      revert e F. generalize (flat_map n_atoms nodes). intros L. induction L as [|x L IH]; intros e F; [reflexivity|]. inversion F as [|? ? Hx F']; subst. cbn [fold_left]. rewrite IH by exact F'. destruct x as [m av|c|av]; try reflexivity. rewrite Hx. rewrite write_read. destruct (Nat.eqb i m) eqn:E; [|reflexivity]. apply Nat.eqb_eq in E. subst m. apply join_u. reflexivity.
    Qed.
    Notation inverse_and_ildj := (inverse_and_ildj V W w0 wplus cord).
    Theorem chain_returns' y : a_shape y = sh -> n + n * n < fuel0 -> exists v j, inverse_and_ildj fuel0 ord (chain sh ls) [] [y] = Ok [(v, j)] /\ a_shape v = sh.
    Proof using Hp Hls.
      intros Hy Hf. unfold InverseModel.inverse_and_ildj, run, chain, prop, propagate, chain_frame. cbn [j_frame f_in f_out f_const map aval_of].
      destruct (initial _ _ _ _ _ _ _ _) as [e0| | |] eqn:E0; unfold initial in E0; cbn [f_in f_out f_const PropModel.writes rbind PropModel.write fst snd] in E0; try discriminate. injection E0 as <-. cbn [rbind].
      set (e0 := upd _ _ _). assert (He : upto (init_unknown unknown new join e0 nodes) n).
      { assert (Kn : isk (new y)) by (exists y; eexists; split; [unfold SliceModel.new; rewrite Hy; reflexivity|exact Hy]).
        intros i. rewrite init_read. unfold e0. rewrite (join_k _ (new y)) by exact Kn. cbn. unfold upd. split; intros Hi; [assert (i = n) by lia; subst i; rewrite Nat.eqb_refl; exact Kn|]. replace (Nat.eqb i n) with false by (symmetry; apply Nat.eqb_neq; lia). destruct (Nat.eqb i 0); reflexivity. }
      set (q := initial_queue _ _ _ _). assert (Pq : Permutation (nodup Nat.eq_dec (flat_map (neighbors nodes) [AVar n sh; AVar 0 sh])) q) by apply Hp.
      assert (Fq : Forall (fun i => i < n) q). { apply Forall_forall. intros x Hx. eapply Permutation_in in Hx; [|apply Permutation_sym, Pq]. apply nodup_In, in_flat_map in Hx as (a & _ & Hx). eapply neighbors_lt, Hx. }
      destruct (loop_chain fuel0 [] _ (fun _ => None) q n (le_n _) He) as (e' & ss' & EL & Hu); [| exact Fq| |].
      - destruct (length ls) as [|m] eqn:En; [left; reflexivity|right]. eapply Permutation_in; [exact Pq|]. apply nodup_In, in_flat_map. exists (AVar (S m) sh). split; [left; reflexivity|]. replace (S m - 1) with m by lia. apply neighbors_in. lia.
      - assert (length q <= n); [|lia]. rewrite <- (seq_length n 0). apply NoDup_incl_length; [eapply Permutation_NoDup; [exact Pq|apply NoDup_nodup]|]. intros x Hx. apply in_seq. rewrite Forall_forall in Fq. specialize (Fq x Hx). lia.
      - rewrite EL. cbn [rbind]. destruct (Hu 0) as [K _]. specialize (K ltac:(lia)). destruct (kn_isk _ K) as (v & j & E & Ev & _). cbn [InverseModel.kn_all map]. rewrite E. eauto.
    Qed.
  End Loop.
End Chain.

(** A chain of elementwise operations with inverses, and of binary operations with constants, is inverted: inverse returns for
    every output of the right shape, under every schedule and set order *)
Theorem C37_chain_returns (V W : Type) (w0 : W) (wplus : W -> W -> W) cord sh (ls : list (link V W)) fuel ord (y : arr V) : perm ord -> Forall (link_ok V W sh) ls -> a_shape y = sh -> length ls + length ls * length ls < fuel ->
  exists v j, inverse_and_ildj V W w0 wplus cord fuel ord (chain V W wplus sh ls) [] [y] = Ok [(v, j)].
Proof. intros H1 H2 H3 H4. destruct (chain_returns' V W w0 wplus cord sh fuel ord ls H1 H2 y H3 H4) as (v & j & E & _). eauto. Qed.
