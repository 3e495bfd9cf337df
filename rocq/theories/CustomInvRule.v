(** C76: what the inverse interpreter does with a user's inverse rule (custom_inverse.def_inverse_and_ildj), whatever the rule is. *)
From Verif Require Export InverseChain.

Section Rule.
  Variables V W : Type.
  Variable w0 : W.
  Variable wplus : W -> W -> W.
  Variable cord : list (ndslice V W) -> list (ndslice V W).
  Notation arrV := (arr V). Notation arrW := (arr W).
  Variables (ls rs : list arrV) (sh osh : list nat) (F : list arrV -> list arrV) (inv : list (option arrV) -> list arrV -> list arrW -> res (option (list (option (arrV * arrW))))).
  (** the jaxpr of x |-> f(l_1, ..., l_n, x, r_1, ..., r_m), the other arguments constants: one equation (custom_inverse.py:53-55) *)
  Definition one_prim (p : prim V W) : jx V W := Jx _ _ (mk_frame [] [AVar 0 sh : atom (list nat) arrV] [AVar 1 osh]) [QPrim _ _ p (map (@ALit _ _) ls ++ AVar 0 sh :: map (@ALit _ _) rs) [AVar 1 osh]].
  Definition one : jx V W := one_prim (PCustom _ _ 0 F inv).
  Notation cell := (cell V W). Notation unknown := (unknown V W). Notation new := (new V W w0). Notation join := (join V W cord). Notation cell_lt := (cell_lt V W). Notation kn := (kn V W). Notation kn_all := (kn_all V W).
  Notation read := (read unknown new). Notation env := (env cell).
  Notation nd p fuel ord := (InverseModel.node_of V W w0 wplus cord MInverse fuel ord (QPrim _ _ p (map (@ALit _ _) ls ++ AVar 0 sh :: map (@ALit _ _) rs) [AVar 1 osh])).
  Lemma perm_nil ord s : perm ord -> ord s [] = [].
  Proof using. intros H. apply Permutation_nil, H. Qed.
  Lemma no_neighbors (n : node cell (list nat) arrV tag (option W)) a : filter (fun i => negb (memn i []) && negb (Nat.eqb i 0)) (neighbors [n] a) = [].
  Proof using. destruct a as [m av| |]; try reflexivity. cbn. destruct (mentions m n); reflexivity. Qed.
  Lemma queue_nil ord st (n : node cell (list nat) arrV tag (option W)) : perm ord -> forall l, update_queue cell_lt ord st [n] 0 [] l = [].
  Proof using.
    intros Hp l. induction l as [|[a [o w]] l IH]; [reflexivity|]. cbn [update_queue]. rewrite no_neighbors. rewrite (perm_nil ord _ Hp). cbn [app]. destruct (cell_lt o w); exact IH.
  Qed.
  Lemma reads_lit (e : env) l : map (read e) (map (@ALit _ _) l) = map new l.
  Proof using. induction l as [|x l IH]; [reflexivity|]. cbn [map]. f_equal. exact IH. Qed.
  Lemma kn_all_none (l : list cell) c m : kn c = None -> kn_all (l ++ c :: m) = None.
  Proof using. intros H. induction l as [|x l IH]; cbn [app InverseModel.kn_all]; [rewrite H; reflexivity|]. rewrite IH. destruct (kn x); reflexivity. Qed.
  Lemma told l : map (fun c => option_map fst (kn c)) (map new l) = map Some l.
  Proof using. induction l as [|x l IH]; [reflexivity|]. cbn [map]. rewrite kn_new, IH. reflexivity. Qed.
  (** what the user's rule is given: the constants, None for x, the output and the ILDJ 0 *)
  Notation asked y := (inv (map Some ls ++ None :: map Some rs) [y] [mk_arr osh (fun _ => w0)]).
  Variables (fuel : nat) (ord : oracle) (y : arrV).
  Hypothesis Hp : perm ord.
  Hypothesis Hy : a_shape y = osh.
  Definition e0 : env := fun n => match n with 0 => Some (unknown sh) | 1 => Some (new y) | _ => None end.
  Lemma join_unk c av : join c (unknown av) = c. Proof using. reflexivity. Qed.
  Lemma init_env e (l : list (atom (list nat) arrV)) : (forall n av, In (AVar n av) l -> e n = e0 n /\ (n = 0 \/ n = 1)) -> forall e', (forall n, e' n = e0 n) -> forall n, fold_left (fun e a => match a with AVar _ av => fst (write unknown new join e a (unknown av)) | _ => e end) l e' n = e0 n.
  Proof using.
    induction l as [|a l IH]; intros H e' He' n; [apply He'|]. cbn [fold_left]. apply IH; [intros m av Hm; apply (H m av); right; exact Hm|]. intros m. destruct a as [k av| |]; try apply He'. cbn [write fst]. rewrite join_unk. unfold upd. destruct (Nat.eqb m k) eqn:E; [|apply He']. apply Nat.eqb_eq in E. subst m. cbn [PropModel.read]. rewrite He'. destruct (H k av (or_introl eq_refl)) as [_ [->| ->]]; reflexivity.
  Qed.
  Lemma run_prim p : 1 < fuel -> exists e, (forall n, e n = e0 n) /\ inverse_and_ildj V W w0 wplus cord fuel ord (one_prim p) [] [y] =
    rbind (rbind (rules V W w0 wplus cord p (map new ls ++ unknown sh :: map new rs) [new y]) (fun '(ic', oc', st) => rbind (writes unknown new join e (n_ins (nd p fuel ord)) ic') (fun '(e1, _) => rbind (writes unknown new join e1 (n_outs (nd p fuel ord)) oc') (fun '(e2, _) => Ok e2))))
      (fun e2 => match kn_all [read e2 (AVar 0 sh)] with Some l => Ok l | None => Err end).
  Proof using Hp Hy.
    intros Hf. unfold inverse_and_ildj, run, one_prim, prop, propagate. cbn [j_frame f_in f_out f_const map aval_of]. unfold initial. cbn [f_in f_out f_const writes rbind write fst snd].
    set (e1 := upd _ 1 _). set (e := init_unknown _ _ _ e1 _). assert (He : forall n, e n = e0 n).
    { unfold e, init_unknown. apply (init_env e0).
      - intros n av Hin. split; [reflexivity|]. cbn [flat_map] in Hin. rewrite app_nil_r in Hin. unfold n_atoms in Hin. cbn [InverseModel.node_of n_ins n_outs] in Hin. apply in_app_or in Hin as [Hin|[Hin|[]]]; [|injection Hin; auto]. apply in_app_or in Hin as [Hin|[Hin|Hin]]; [apply in_map_iff in Hin as (? & ? & _); discriminate|injection Hin; auto|apply in_map_iff in Hin as (? & ? & _); discriminate].
      - intros [|[|n]]; unfold e1, upd; cbn; [reflexivity| |reflexivity]. f_equal. unfold SliceModel.join. assert (T : top V W (new y) = true) by (apply kn_top; rewrite kn_new; discriminate). rewrite T. reflexivity. }
    clearbody e. clear e1. exists e. split; [exact He|]. cbn [map rbind].
    assert (Q : initial_queue ord [] (mk_frame [] [AVar 0 sh] [AVar 1 osh]) [nd p fuel ord] = [0]).
    { unfold initial_queue. cbn [f_in f_out f_const app flat_map]. assert (M0 : mentions 0 (nd p fuel ord) = true) by (unfold mentions; apply existsb_exists; exists (AVar 0 sh); split; [|reflexivity]; unfold n_atoms; cbn [InverseModel.node_of n_ins n_outs]; apply in_or_app; left; apply in_or_app; right; left; reflexivity).
      assert (M1 : mentions 1 (nd p fuel ord) = true) by (unfold mentions; apply existsb_exists; exists (AVar 1 osh); split; [|reflexivity]; unfold n_atoms; cbn [InverseModel.node_of n_ins n_outs]; apply in_or_app; right; left; reflexivity).
      cbn [neighbors length seq filter nth_error]. rewrite M0, M1. cbn [app]. apply Permutation_length_1_inv, Hp. }
    rewrite Q. destruct fuel as [|fuel']; [lia|]. cbn [loop nth_error].
    assert (Ri : map (read e) (n_ins (nd p (S fuel') ord)) = map new ls ++ unknown sh :: map new rs).
    { cbn [InverseModel.node_of n_ins]. rewrite map_app. cbn [map]. rewrite !reads_lit. cbn [PropModel.read]. rewrite He. reflexivity. }
    assert (Ro : map (read e) (n_outs (nd p (S fuel') ord)) = [new y]) by (cbn [InverseModel.node_of n_outs map PropModel.read]; rewrite He; reflexivity).
    rewrite Ri, Ro. change (n_rule (nd p (S fuel') ord) (1 :: fuel' :: []) (map new ls ++ unknown sh :: map new rs) [new y]) with (catch V W MInverse (rules V W w0 wplus cord p (map new ls ++ unknown sh :: map new rs) [new y]) (map new ls ++ unknown sh :: map new rs) [new y]). change (catch V W MInverse (rules V W w0 wplus cord p (map new ls ++ unknown sh :: map new rs) [new y]) (map new ls ++ unknown sh :: map new rs) [new y]) with (rules V W w0 wplus cord p (map new ls ++ unknown sh :: map new rs) [new y]).
    destruct (rules _ _ _ _ _ _ _ _) as [[[ic' oc'] st]| | |]; try reflexivity. cbn [rbind]. destruct (writes _ _ _ e _ ic') as [[e2 nic]| | |]; try reflexivity. cbn [rbind]. destruct (writes _ _ _ e2 _ oc') as [[e3 noc]| | |]; try reflexivity. cbn [rbind].
    rewrite queue_nil by exact Hp. destruct fuel' as [|fuel'']; [lia|]. reflexivity.
  Qed.
  Lemma run_one : 1 < fuel -> exists e, (forall n, e n = e0 n) /\ inverse_and_ildj V W w0 wplus cord fuel ord one [] [y] =
    rbind (rbind (custom_rule V W w0 0 F inv (map new ls ++ unknown sh :: map new rs) [new y]) (fun '(ic', oc', st) => rbind (writes unknown new join e (n_ins (nd (PCustom _ _ 0 F inv) fuel ord)) ic') (fun '(e1, _) => rbind (writes unknown new join e1 (n_outs (nd (PCustom _ _ 0 F inv) fuel ord)) oc') (fun '(e2, _) => Ok e2))))
      (fun e2 => match kn_all [read e2 (AVar 0 sh)] with Some l => Ok l | None => Err end).
  Proof using Hp Hy. intros Hf. destruct (run_prim (PCustom _ _ 0 F inv) Hf) as (e & He & E). exists e. split; [exact He|exact E]. Qed.
  (** A primitive without a registered inverse raises NotImplementedError (core.py:223) *)
  Theorem C76_unregistered G : 1 < fuel -> inverse_and_ildj V W w0 wplus cord fuel ord (one_prim (PDefault _ _ G)) [] [y] = NotImpl.
  Proof using Hp Hy. intros Hf. destruct (run_prim (PDefault _ _ G) Hf) as (e & He & ->). reflexivity. Qed.
  Lemma rule_one : custom_rule V W w0 0 F inv (map new ls ++ unknown sh :: map new rs) [new y] =
    rbind (asked y) (fun r => match r with None => Ok (map new ls ++ unknown sh :: map new rs, [new y], None) | Some l => rbind (custom_cells V W (map new ls ++ unknown sh :: map new rs) l) (fun xc' => Ok (xc', [new y], None)) end).
  Proof using Hy.
    unfold custom_rule. cbn [firstn skipn app]. rewrite kn_all_none by reflexivity. cbn [InverseModel.kn_all]. rewrite kn_new. cbn [vals map fst snd]. rewrite map_app. cbn [map]. rewrite !told, Hy. reflexivity.
  Qed.
  Lemma writes_lits e l : forall cs k, length cs = length l -> writes unknown new join e (map (@ALit _ _) l ++ k) (cs ++ []) = writes unknown new join e (map (@ALit _ _) l ++ k) cs.
  Proof using. intros. rewrite app_nil_r. reflexivity. Qed.
  Lemma writes_skip l : forall e cs k ks, length cs = length l -> writes unknown new join e (map (@ALit _ _) l ++ k) (cs ++ ks) = rbind (writes unknown new join e k ks) (fun r => Ok (fst r, cs ++ snd r)).
  Proof using.
    induction l as [|x l IH]; intros e [|c cs] k ks HL; try discriminate; cbn [map app writes write].
    - destruct (writes _ _ _ e k ks) as [[]| | |]; reflexivity.
    - rewrite IH by (injection HL; auto). destruct (writes _ _ _ e k ks) as [[]| | |]; reflexivity.
  Qed.
  Lemma cells_of l : forall cs, length cs = length l -> custom_cells V W cs (map Some l) = Ok (map (fun p => mk_cell (c_aval (fst p)) [nd_new V W (fst (snd p)) (snd (snd p))]) (combine cs l)).
  Proof using. induction l as [|[v j] l IH]; intros [|c cs] HL; try discriminate; [reflexivity|]. cbn [map custom_cells combine]. rewrite IH by (injection HL; auto). reflexivity. Qed.
  Lemma combine_app {X Y} (a : list X) : forall (b : list Y) a' b', length a = length b -> combine (a ++ a') (b ++ b') = combine a b ++ combine a' b'.
  Proof using. clear. induction a as [|x a IH]; intros [|y b] a' b' H; try discriminate; [reflexivity|]. cbn. f_equal. apply IH. injection H. auto. Qed.
  Lemma writes_nil l : forall e cs, length cs = length l -> writes unknown new join e (map (@ALit _ _) l) cs = Ok (e, cs).
  Proof using. induction l as [|x l IH]; intros e [|c cs] HL; try discriminate; [reflexivity|]. cbn [map writes write]. rewrite IH by (injection HL; auto). reflexivity. Qed.

  (** The user's rule is called once, with the known arguments and None for the unknown one, the output and its ILDJ: what it
      returns for the unknown argument is the inverse and the ILDJ. *)
  Theorem C76_rule_used lv v j rv : 1 < fuel -> length lv = length ls -> length rv = length rs -> a_shape v = sh ->
    asked y = Ok (Some (map Some (lv ++ (v, j) :: rv))) ->
    inverse_and_ildj V W w0 wplus cord fuel ord one [] [y] = Ok [(v, j)].
  Proof using Hp Hy.
    intros Hf Hl Hr Hv Ha. destruct (run_one Hf) as (e & He & ->). rewrite rule_one, Ha. cbn [rbind].
    rewrite cells_of by (rewrite !app_length; cbn; rewrite !map_length; congruence). cbn [rbind]. rewrite combine_app by (rewrite map_length; congruence). cbn [combine]. rewrite map_app. cbn [map fst snd c_aval SliceModel.unknown].
    cbn [InverseModel.node_of n_ins n_outs]. rewrite writes_skip by (rewrite map_length, combine_length, map_length; lia). cbn [writes]. set (c := mk_cell _ [nd_new V W v j]). assert (Kc : kn c = Some (v, j)) by (apply kn_one, Hv).
    cbn [write rbind]. rewrite writes_nil by (rewrite map_length, combine_length, map_length; lia). cbn [rbind fst snd].
    cbn [InverseModel.kn_all PropModel.read]. unfold upd at 1. cbn [Nat.eqb]. unfold upd. cbn [Nat.eqb]. assert (J : join (match e 0 with Some c0 => c0 | None => unknown sh end) c = c) by (unfold SliceModel.join; assert (T : top V W c = true) by (apply kn_top; congruence); rewrite T; reflexivity). rewrite J, Kc. reflexivity.
  Qed.
  (** A rule that raises NonInvertibleError makes inverse raise (ValueError: Cannot invert function) *)
  Theorem C76_noninvertible : 1 < fuel -> asked y = Ok None -> inverse_and_ildj V W w0 wplus cord fuel ord one [] [y] = Err.
  Proof using Hp Hy.
    intros Hf Ha. destruct (run_one Hf) as (e & He & ->). rewrite rule_one, Ha. cbn [rbind]. cbn [InverseModel.node_of n_ins n_outs]. rewrite writes_skip by (rewrite map_length; reflexivity). cbn [writes write rbind]. rewrite writes_nil by (rewrite map_length; reflexivity). cbn [rbind fst snd].
    cbn [InverseModel.kn_all PropModel.read]. unfold upd. cbn [Nat.eqb]. rewrite join_unk, He. reflexivity.
  Qed.
  (** The documented way to say that an argument cannot be computed, None, makes inverse raise too *)
  Theorem C76_none_raises l : 1 < fuel -> length l = length ls + 1 + length rs -> In None l -> asked y = Ok (Some l) -> inverse_and_ildj V W w0 wplus cord fuel ord one [] [y] = Err.
  Proof using Hp Hy.
    intros Hf Hl Hn Ha. destruct (run_one Hf) as (e & He & ->). rewrite rule_one, Ha. cbn [rbind].
    assert (E : forall l cs, length l = length cs -> In None l -> custom_cells V W cs l = Err).
    { clear. induction l as [|[[v j]|] l IH]; intros [|c cs] HL Hn; try discriminate; try contradiction; try destruct Hn as [Hn|Hn]; try discriminate; try reflexivity. cbn [custom_cells]. rewrite (IH cs); [reflexivity|injection HL; auto|exact Hn]. }
    rewrite E; [reflexivity|rewrite app_length; cbn; rewrite !map_length; lia|exact Hn].
  Qed.
End Rule.
Print Assumptions C76_rule_used.
Print Assumptions C76_noninvertible.
Print Assumptions C76_none_raises.
Print Assumptions C76_unregistered.
