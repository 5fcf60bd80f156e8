(** * C59: the Forest-Ruth solver with TRUNCATE_EACH_LAYER, whose last two calls are made with Dmax = 0 *)
From Coq Require Import Reals Lra Bool List Arith ZArith Lia Ring Psatz.
From Verif Require Import SvdExist Scalar ScalarFacts RScal RealInst Tensor TensorFacts Spec MpsModel MpsFacts StateFacts HamModel HamFacts CanonSpec CanonModel TruncFacts CanonFacts CanonSweep
  SimplifySpec SimplifyModel SimplifyFacts BondBound TrotterSpec TrotterModel TrotterFacts TrotterApply TrotterRun TrotterLoop TrotterExec TrotterNorm TrotterExp TrotterObc
  Properties_Simplify Properties_Trotter Properties_TrotterObc.
Import ListNotations.

Section Call.
Notation CS := (@rs_scalar CC).
Notation T := (@tensor CS).
Notation state := (list T).
Variable expm : T -> T.
Hypothesis Hexpm : expm_contract expm.
Variable svd : T -> T * list R * T.
Hypothesis Hsvd : @svd_contract CC svd.
Variable flag : R.
Hypothesis H1 : (1 <= flag)%R.
Variable algorithm : bool.
Variable tolerance : R.
Notation simp := (@obc CC svd flag algorithm tolerance).
Variable H : @hamiltonian CS.
Variable dt : Cx.
Hypothesis HF : @full_terms CC H.
Notation ds := (h_dims H).
Variable l : list (nat * R).
Hypothesis Hl : Forall (fun x => (fst x <= 1)%nat) l.
Variable us : list (@unitary CC).
Hypothesis Hus : solver_new expm l H dt = Ok us.

Lemma flag_pos : flag <> 0%R.
Proof. intros E. rewrite E in H1. lra. Qed.

Lemma weight_ext (f g : list nat -> Cx) : (forall is, in_range ds is -> f is = g is) -> @weight CC ds f = @weight CC ds g.
Proof. intros E. unfold weight, inner. f_equal. apply (@sumcfg_ext CS). intros is Hi. rewrite E by exact Hi. reflexivity. Qed.

Lemma free_valid chi : @open_mps CS chi -> pdims chi = ds -> (2 <= length chi)%nat -> @weight CC ds (@amp CS chi) <> 0%R ->
  @valid_call CC flag algorithm chi [@k1 CS] [chi] ds 12 (Z.of_nat 0) (-1).
Proof.
  intros Ho Hp HL Hw. pose proof flag_pos as Hf.
  split; [discriminate|]. split; [reflexivity|]. split; [intros q [<-|[]]; split; [exact Ho|exact Hp]|]. split; [exact Ho|]. split; [exact Hp|]. split; [discriminate|].
  split; [|split; [right; exact HL|]].
  - destruct (@nonzero_weight_cfg CC ds (@amp CS chi) Hw) as (is & Hi & Hne). exists is. split; [exact Hi|]. rewrite (@combo_one CC). exact Hne.
  - left. unfold truncation, tolerance_used. destruct (one_site algorithm (Z.of_nat 0)); [exact Hf|]. destruct (Rlt_dec (-1) 0); [exact Hf|lra].
Qed.
Lemma free_no_truncation : no_truncation (truncation flag algorithm (Z.of_nat 0) (-1)).
Proof. right. unfold truncation, tolerance_used. destruct (one_site algorithm (Z.of_nat 0)); [exact H1|]. destruct (Rlt_dec (-1) 0); [exact H1|lra]. Qed.

(** apply_and_simplify() with Dmax = 0 *)
Lemma call_free_ok n t nrm psi s : (n < length l)%nat -> (1 <= eff_tol flag t)%R -> @open_mps CS psi -> pdims psi = ds -> (2 <= length psi)%nat ->
  @weight CC ds (@act CS ds (layer us l ds n) (@amp CS psi)) <> 0%R ->
  exists psi' s', @exec_call CC svd flag simp us (psi, s) (ApplySimplify n t 0 nrm) = Ok (psi', s', 0%R) /\ @open_mps CS psi' /\ pdims psi' = ds /\
    forall is, in_range ds is -> @amp CS psi' is =
      Cmul (mkC (if nrm then / sqrt (@weight CC ds (@act CS ds (layer us l ds n) (@amp CS psi))) else 1) 0) (@act CS ds (layer us l ds n) (@amp CS psi) is).
Proof.
  intros Hn Ht Ho Hp HN Hw. pose proof flag_pos as Hf. pose proof Ho as (Hne & HL). assert (Hlen : (0 < length psi)%nat) by lia.
  cbn [exec_call fst snd]. fold (@u_no CC us n).
  unfold u_apply_and_simplify. assert (Ht' : eff_tol flag t <> 0%R) by (intros X; rewrite X in Ht; lra).
  assert (Hu : @layer_ok CC (@u_no CC us n) (par l n) (pdims psi)) by (rewrite Hp; apply (layer_at expm Hexpm H dt HF l Hl us Hus); exact Hn).
  destruct (@apply_any CC svd flag Hsvd (@u_no CC us n) (par l n) psi 1 1 1%Z t 0 Hu HL ltac:(lia) Hlen (or_introl eq_refl) Ht') as (Q & e & E1 & A1 & A2 & A3 & A4 & A5 & _).
  assert (e = 0%R) by (apply A4; [exact Ht|reflexivity]). subst e. rewrite E1. cbn [bind].
  assert (HlQ : length Q = length psi) by (rewrite <- (length_pdims Q), A2; apply length_pdims).
  destruct (@canonical_form_at_ok CC svd flag Hsvd 1 1 Q 0 A1 ltac:(lia) (or_introl Hf) ltac:(lia)) as (chi & E2 & (S1 & S2 & S3 & S4 & S5) & I1 & I2).
  assert (E3 : @canonical_form CC svd flag Q (-1) = Ok chi) by exact E2. rewrite E3. cbn [bind].
  assert (Hlc : length chi = length psi) by (rewrite <- (length_pdims chi), S2, A2; apply length_pdims).
  assert (Hnil : chi <> []) by (intros X; rewrite X in Hlc; change (0 = length psi)%nat in Hlc; lia).
  assert (Hoc : @open_mps CS chi) by (split; [exact Hnil|exact S1]).
  assert (Hpc : pdims chi = ds) by congruence.
  assert (Hcc : @canonical_at CC 0 chi) by (split; [exact I1|intros j Hj; apply I2; lia]).
  assert (Ha : forall is, in_range ds is -> @amp CS chi is = @act CS ds (layer us l ds n) (@amp CS psi) is).
  { intros is Hi. rewrite <- Hp in Hi.
    pose proof (@amp_acted CC 1 psi Q (@u_op CC (@u_no CC us n) (par l n) (pdims psi)) HL A1 A2 Hne (A5 eq_refl (or_introl eq_refl)) is Hi) as X.
    rewrite Hp in X. transitivity (@amp CS Q is); [|exact X].
    assert (Hneq : Q <> []) by (intros X'; rewrite X' in HlQ; change (0 = length psi)%nat in HlQ; lia).
    unfold amp. rewrite (@left_bond_linked CC 1 chi 1 S1 Hnil), (@left_bond_linked CC 1 Q 1 A1 Hneq). apply (@sum_ext CS). intros a Ha'.
    apply S4; [right; exact H1|rewrite A2; exact Hi|exact Ha']. }
  destruct (@largest_bond_spec CS chi Hnil) as (Lb & _).
  pose proof (Lb 0%nat ltac:(rewrite Hlc; exact Hlen)) as L0. pose proof (@left_bond_linked CC 1 chi 1 S1 Hnil) as L1.
  replace (dim (site chi 0) 0) with 1%nat in L0 by (clear - L1 Hnil; destruct chi; [congruence|symmetry; exact L1]).
  destruct (Nat.ltb_spec 0 (@largest_bond_dimension CS chi)) as [_|Hge]; [|lia].
  pose proof (weight_ext _ _ Ha) as HW.
  assert (Hwc : @weight CC ds (@amp CS chi) <> 0%R) by (rewrite HW; exact Hw).
  pose proof (free_valid chi Hoc Hpc ltac:(rewrite Hlc; exact HN) Hwc) as Hv.
  destruct (C62_returns svd flag Hsvd algorithm tolerance chi [@k1 CS] [chi] ds (-1) 12 (Z.of_nat 0) (-1) Hv) as (P' & s' & e & m & Ec).
  destruct (C62_canonical svd flag Hsvd algorithm tolerance chi [@k1 CS] [chi] ds (-1) 12 (Z.of_nat 0) (-1) Hv P' s' e m Ec) as (O1 & D1 & _).
  destruct (C62_error svd flag Hsvd algorithm tolerance chi [@k1 CS] [chi] ds (-1) 12 (Z.of_nat 0) (-1) Hv P' s' e m Ec) as (W1 & _).
  destruct (C62_fixed_point svd flag Hsvd algorithm tolerance chi [@k1 CS] [chi] ds (-1) 12 (Z.of_nat 0) (-1) Hv P' s' e m Ec free_no_truncation ltac:(left; lia) Hcc) as (X & Xe).
  { intros is Hi. rewrite (@combo_one CC). reflexivity. }
  subst e.
  assert (Ha' : forall is, in_range ds is -> @amp CS P' is = @act CS ds (layer us l ds n) (@amp CS psi) is).
  { intros is Hi. rewrite (X is Hi), (@combo_one CC). apply Ha. exact Hi. }
  pose proof (weight_ext _ _ Ha') as HW'.
  assert (Em : m = @weight CC ds (@act CS ds (layer us l ds n) (@amp CS psi))) by (rewrite <- W1; exact HW').
  unfold obc, simplify_obc1. destruct nrm.
  - destruct (C62_normalize svd flag Hsvd algorithm tolerance chi [@k1 CS] [chi] ds (-1) 12 (Z.of_nat 0) (-1) Hv P' s' 0%R m Ec ltac:(rewrite Em; exact Hw)) as (P2 & E4 & F1 & F2 & _ & F4 & _).
    rewrite E4. cbn [bind]. eexists P2, _. split; [rewrite Rplus_0_l; reflexivity|]. split; [exact F1|]. split; [exact F2|].
    intros is Hi. rewrite (F4 is Hi), (Ha' is Hi), Em. reflexivity.
  - rewrite Ec. cbn [bind]. eexists P', _. split; [rewrite Rplus_0_l; reflexivity|]. split; [exact O1|]. split; [exact D1|].
    intros is Hi. rewrite (Ha' is Hi). match goal with |- ?x = _ => generalize x end. intros z. apply C_ext; cbn; ring.
Qed.
End Call.

Section C59.
Notation CS := (@rs_scalar CC).
Notation T := (@tensor CS).
Notation state := (list T).
Variable expm : T -> T.
Hypothesis Hexpm : expm_contract expm.
Variable svd : T -> T * list R * T.
Hypothesis Hsvd : @svd_contract CC svd.
Variable flag : R.
Hypothesis Hf : flag <> 0%R.
(** MPS_SIMPLIFY_ALGORITHM and MPS_SIMPLIFY_TOLERANCE *)
Variable algorithm : bool.
Variable tolerance : R.
Notation simp := (@obc CC svd flag algorithm tolerance).
Variable H : @hamiltonian CS.
Variable dt : Cx.
Hypothesis HF : @full_terms CC H.
Variable psi : state.
Hypothesis Ho : @open_mps CS psi.
Hypothesis Hp : pdims psi = h_dims H.
Notation units sol := (nth sol [trotter2_unitaries; trotter3_unitaries; forest_ruth_unitaries] []).

(** C59.  ForestRuthSolver passes Dmax = 0 to the last call of TRUNCATE_EACH_LAYER, which therefore always calls
    simplify_obc(): with normalize = true every state returned has norm 1. *)
Theorem C59_forest_ruth_layers_normalized us Dmax s psi' s' e : solver_new expm forest_ruth_unitaries H dt = Ok us ->
  @one_step CC svd flag simp forest_ruth_calls us TruncateEachLayer Dmax true (psi, s) = Ok (psi', s', e) ->
  @weight CC (h_dims H) (@amp CS psi') = 1%R.
Proof.
  intros E Ex. pose proof (units_fine 2) as Hl. change forest_ruth_unitaries with (units 2) in E.
  unfold one_step in Ex. destruct (Nat.eqb_spec Dmax 0) as [HD0|HD0]; [discriminate|]. cbn [andb] in Ex.
  destruct (@exec_calls CC svd flag simp us (map fst (forest_ruth_calls TruncateEachLayer Dmax true)) (psi, s)) as [[[P' z] es]|] eqn:Ee; [|discriminate]. cbn [bind] in Ex.
  apply Ok_inj' in Ex. injection Ex as -> -> _.
  assert (Ht : eff_tol flag MPS_DEFAULT_TOLERANCE <> 0%R) by (rewrite def_tol; exact Hf).
  set (t := MPS_DEFAULT_TOLERANCE) in *.
  set (cs := [ApplySimplify 0 t Dmax false; ApplySimplify 1 t Dmax false; ApplySimplify 2 t Dmax false; ApplySimplify 3 t Dmax false;
              ApplySimplify 2 t Dmax false; ApplySimplify 1 t 0 false]).
  assert (Ecs : map fst (forest_ruth_calls TruncateEachLayer Dmax true) = cs ++ [ApplySimplify 0 t 0 true]) by reflexivity.
  assert (Hc1 : Forall (call_fine flag (units 2)) cs).
  { unfold cs. repeat (constructor; [cbn; repeat split; try lia; assumption|]). constructor. }
  rewrite Ecs in Ee.
  destruct (exec_app svd flag simp us cs [ApplySimplify 0 t 0 true] (psi, s) _ Ee) as ((P1, s1) & es1 & es2 & E1 & E2). cbn [fst] in E2.
  destruct (calls_ok expm Hexpm svd Hsvd flag Hf algorithm tolerance H dt HF (units 2) Hl us E cs Hc1 psi s P1 s1 es1 Ho Hp E1) as (A1 & A2 & _).
  cbn [exec_calls exec_call fst snd] in E2. fold (@u_no CC us 0) in E2.
  destruct (@u_apply_and_simplify CC svd flag simp (@u_no CC us 0) P1 t 0 true) as [[[P2 s2] e2]|] eqn:E3; [|discriminate]. cbn [bind] in E2. apply Ok_inj' in E2. injection E2 as -> -> _.
  pose proof A1 as (Hne & HL). assert (Hlen : (0 < length P1)%nat) by (destruct P1; [congruence|cbn; lia]).
  unfold u_apply_and_simplify in E3.
  destruct (@apply_any CC svd flag Hsvd (@u_no CC us 0) (par (units 2) 0) P1 1 1 1 t 0) as (Q & e1 & E4 & B1 & B2 & _); try assumption;
    [rewrite A2; apply (layer_at expm Hexpm H dt HF (units 2) Hl us E); cbn; lia|lia|left; reflexivity|].
  match type of E4 with ?a = _ => match type of E3 with bind ?b _ = _ => change b with a in E3 end end. rewrite E4 in E3. cbn [bind] in E3.
  assert (HlQ : length Q = length P1) by (rewrite <- (length_pdims Q), B2; apply length_pdims).
  destruct (canonical_form_at_ok svd flag Hsvd 1 1 Q 0 B1 ltac:(lia) (or_introl Hf) ltac:(lia)) as (chi & E7 & (S1 & S2 & _) & _).
  assert (E8 : @canonical_form CC svd flag Q (-1) = Ok chi) by exact E7. rewrite E8 in E3. cbn [bind] in E3.
  assert (Hlc : length chi = length P1) by (rewrite <- HlQ, <- (@length_pdims CS chi), <- (@length_pdims CS Q); f_equal; exact S2).
  assert (Hnil : chi <> []) by (intros Hz; clear - Hz Hlc Hlen; rewrite Hz in Hlc; change (0 = length P1)%nat in Hlc; lia).
  assert (Hoc : @open_mps CS chi) by (split; [exact Hnil|exact S1]).
  assert (Hpc : pdims chi = h_dims H) by (rewrite S2, B2; exact A2).
  destruct (largest_bond_spec chi Hnil) as (Lb & _).
  pose proof (Lb 0%nat ltac:(rewrite Hlc; exact Hlen)) as L0. pose proof (left_bond_linked 1 chi 1 S1 Hnil) as L1. replace (dim (site chi 0) 0) with 1%nat in L0 by (clear - L1 Hnil; destruct chi; [congruence|symmetry; exact L1]).
  destruct (Nat.ltb_spec 0 (@largest_bond_dimension CS chi)) as [Hlt|Hge]; [|lia].
  destruct (simp chi 0%nat true) as [[P3 e3]|] eqn:E6; [|discriminate]. cbn [bind] in E3. apply Ok_inj' in E3. injection E3 as -> _ _.
  destruct (@obc_ok CC svd flag algorithm tolerance Hsvd chi 0%nat true _ e3 Hoc Hf E6) as (_ & _ & _ & _ & _ & B6 & _).
  rewrite <- Hpc. exact (B6 eq_refl).
Qed.


(** C59.  If Dmax is at least the dimension of the space of states and MPS_TRUNCATION_TOLERANCE at least 1, that step (two
    sites or more, Hermitian Hamiltonian, real time step, a state that is not zero) returns error zero and the product of
    the layers, divided by the norm of the state given if normalize = true. *)
Theorem C59_forest_ruth_layers_exact us Dmax nrm s : (1 <= flag)%R -> (fold_right Nat.mul 1%nat (h_dims H) <= Dmax)%nat -> (2 <= length psi)%nat ->
  hermitian_terms H -> Cim dt = 0%R -> @weight CC (h_dims H) (@amp CS psi) <> 0%R -> solver_new expm forest_ruth_unitaries H dt = Ok us ->
  exists psi' s', @one_step CC svd flag simp forest_ruth_calls us TruncateEachLayer Dmax nrm (psi, s) = Ok (psi', s', 0%R) /\
    @open_mps CS psi' /\ pdims psi' = h_dims H /\
    forall is, in_range (h_dims H) is -> @amp CS psi' is =
      Cmul (mkC (if nrm then / sqrt (@weight CC (h_dims H) (@amp CS psi)) else 1) 0)
        (evolved us forest_ruth_unitaries (h_dims H) [0; 1; 2; 3; 2; 1; 0]%nat (@amp CS psi) is).
Proof.
  intros H1 HD HN HH Hdt Hw E. pose proof (units_fine 2 : Forall (fun x => (fst x <= 1)%nat) forest_ruth_unitaries) as Hl.
  set (l := forest_ruth_unitaries) in *. set (ds := h_dims H) in *. set (t := MPS_DEFAULT_TOLERANCE).
  assert (Ht : (1 <= eff_tol flag t)%R) by (unfold t; rewrite def_tol; exact H1).
  assert (Hpos : Dmax <> 0%nat).
  { destruct HF as (_ & Hlo & _). assert (G : forall k, In k ds -> (0 < k)%nat).
    { intros k Hk. apply (In_nth _ _ 0%nat) in Hk. destruct Hk as (i & Hi & <-). unfold ds in Hi |- *. rewrite (@length_h_dims CC) in Hi. rewrite (@nth_h_dims CC) by exact Hi. apply (Hlo i Hi). }
    assert (0 < fold_right Nat.mul 1%nat ds)%nat; [|lia].
    revert G. clear. induction ds as [|d l0 IH]; intros G; cbn; [lia|]. pose proof (G d (or_introl eq_refl)). specialize (IH (fun k Hk => G k (or_intror Hk))). nia. }
  assert (Hall : forall ns f, Forall (fun n => (n < 4)%nat) ns -> @weight CC ds (evolved us l ds ns f) = @weight CC ds f).
  { intros ns f Hns. unfold weight. f_equal. apply evolved_inner. intros n Hn. apply (layers_unitary expm Hexpm l H dt us HF HH Hdt Hl E). rewrite Forall_forall in Hns. exact (Hns n Hn). }
  set (cs := [ApplySimplify 0 t Dmax false; ApplySimplify 1 t Dmax false; ApplySimplify 2 t Dmax false; ApplySimplify 3 t Dmax false; ApplySimplify 2 t Dmax false]).
  destruct (calls_large_ok expm Hexpm svd Hsvd flag Hf algorithm tolerance H dt HF l Hl us E cs H1) with (psi := psi) (s := s)
    as (P5 & s5 & es & E5 & Z5 & O5 & D5 & A5); [|exact Ho|exact Hp|].
  { unfold cs. repeat (constructor; [cbn [call_large]; repeat split; first [cbn; lia|exact Ht|exact HD]|]). constructor. }
  change (map call_no cs) with [0; 1; 2; 3; 2]%nat in A5.
  assert (HL5 : (2 <= length P5)%nat) by (rewrite <- (@length_pdims CS P5), D5; fold ds; rewrite <- Hp, (@length_pdims CS psi); exact HN).
  assert (X6 : forall is, in_range ds is -> @act CS ds (layer us l ds 1) (@amp CS P5) is = evolved us l ds [0; 1; 2; 3; 2; 1]%nat (@amp CS psi) is).
  { intros is Hi. change (evolved us l ds [0; 1; 2; 3; 2; 1]%nat (@amp CS psi)) with (@act CS ds (layer us l ds 1) (evolved us l ds [0; 1; 2; 3; 2]%nat (@amp CS psi))).
    apply (@TrotterExec.act_ext CC). exact A5. }
  assert (W6 : @weight CC ds (@act CS ds (layer us l ds 1) (@amp CS P5)) = @weight CC ds (@amp CS psi)).
  { etransitivity; [exact (weight_ext H _ _ X6)|]. apply Hall. repeat constructor; lia. }
  destruct (call_free_ok expm Hexpm svd Hsvd flag H1 algorithm tolerance H dt HF l Hl us E 1 t false P5 s5 ltac:(cbn; lia) Ht O5 D5 HL5 ltac:(fold ds; rewrite W6; exact Hw)) as (P6 & s6 & E6 & O6 & D6 & A6).
  fold ds in A6, D6. assert (HL6 : (2 <= length P6)%nat) by (rewrite <- (@length_pdims CS P6), D6, <- Hp, (@length_pdims CS psi); exact HN).
  assert (X7 : forall is, in_range ds is -> @act CS ds (layer us l ds 0) (@amp CS P6) is = evolved us l ds [0; 1; 2; 3; 2; 1; 0]%nat (@amp CS psi) is).
  { intros is Hi. change (evolved us l ds [0; 1; 2; 3; 2; 1; 0]%nat (@amp CS psi)) with (@act CS ds (layer us l ds 0) (evolved us l ds [0; 1; 2; 3; 2; 1]%nat (@amp CS psi))).
    apply (@TrotterExec.act_ext CC). intros js Hj. rewrite <- (X6 js Hj), (A6 js Hj). match goal with |- Cmul _ ?x = _ => generalize x end. intros z. apply C_ext; cbn; ring. }
  assert (W7 : @weight CC ds (@act CS ds (layer us l ds 0) (@amp CS P6)) = @weight CC ds (@amp CS psi)).
  { etransitivity; [exact (weight_ext H _ _ X7)|]. apply Hall. repeat constructor; lia. }
  destruct (call_free_ok expm Hexpm svd Hsvd flag H1 algorithm tolerance H dt HF l Hl us E 0 t nrm P6 s6 ltac:(cbn; lia) Ht O6 D6 HL6 ltac:(fold ds; rewrite W7; exact Hw)) as (P7 & s7 & E7 & O7 & D7 & A7).
  fold ds in A7, D7. exists P7, s7. split; [|split; [exact O7|split; [exact D7|]]].
  - unfold one_step. destruct (Nat.eqb_spec Dmax 0) as [|_]; [contradiction|]. cbn [andb].
    assert (EX : @exec_calls CC svd flag simp us (map fst (forest_ruth_calls TruncateEachLayer Dmax nrm)) (psi, s) = Ok (P7, s7, es ++ [0%R; 0%R])).
    { change (map fst (forest_ruth_calls TruncateEachLayer Dmax nrm)) with (cs ++ [ApplySimplify 1 t 0 false; ApplySimplify 0 t 0 nrm]).
      assert (G : forall cs' es' st, @exec_calls CC svd flag simp us cs' st = Ok (P5, s5, es') ->
        @exec_calls CC svd flag simp us (cs' ++ [ApplySimplify 1 t 0 false; ApplySimplify 0 t 0 nrm]) st = Ok (P7, s7, es' ++ [0%R; 0%R])).
      { clear - E6 E7. induction cs' as [|c cs' IH]; intros es' st E5.
        - cbn [exec_calls] in E5. apply Ok_inj' in E5. injection E5 as Ea Eb. subst st es'. cbn [app exec_calls]. match type of E6 with ?a = _ => match goal with |- bind ?x _ = _ => change x with a end end. rewrite E6. cbn [bind].
          match type of E7 with ?a = _ => match goal with |- bind (bind ?x _) _ = _ => change x with a end end. rewrite E7. reflexivity.
        - cbn [app exec_calls] in E5 |- *. destruct (@exec_call CC svd flag simp us st c) as [[st' e]|]; [|discriminate]. cbn [bind] in E5 |- *.
          destruct (@exec_calls CC svd flag simp us cs' st') as [[st'' es'']|] eqn:E8; [|discriminate]. cbn [bind] in E5. apply Ok_inj' in E5. injection E5 as E5a E5b.
          subst st'' es'. rewrite (IH es'' st' E8). reflexivity. }
      apply G. exact E5. }
    rewrite EX. cbn [bind]. f_equal. f_equal.
    assert (ZZ : Forall (fun e => e = 0%R) (es ++ [0%R; 0%R])) by (apply Forall_app; split; [exact Z5|repeat constructor]).
    change (forest_ruth_calls TruncateEachLayer Dmax nrm) with (counted (map fst (forest_ruth_calls TruncateEachLayer Dmax nrm))).
    clear - ZZ. revert ZZ. generalize (es ++ [0%R; 0%R]). generalize (map fst (forest_ruth_calls TruncateEachLayer Dmax nrm)). intros l0. induction l0 as [|c cs IH]; intros [|e es'] E2; try reflexivity.
    change (total_error (counted (c :: cs)) (e :: es')) with (e + total_error (counted cs) es')%R. pose proof (Forall_inv E2) as H0. cbn in H0. rewrite H0, IH by exact (Forall_inv_tail E2). ring.
  - intros is Hi. rewrite (A7 is Hi), W7, (X7 is Hi). reflexivity.
Qed.
End C59.

(** A case that meets the hypotheses: three spins in the state 2|000>, sigma_z sigma_z interaction and a field along x *)
Example C59_forest_ruth_layers_ex (algorithm : bool) (tolerance : R) : exists expm svd H us psi' s',
  expm_contract expm /\ @svd_contract CC svd /\ @ti_new (@rs_scalar CC) 3 zz4 sx2 false 2 [zz4] [zz4] = Ok H /\
  solver_new expm forest_ruth_unitaries H (mkC (1 / 10) 0) = Ok us /\
  @one_step CC svd 1 (@obc CC svd 1 algorithm tolerance) forest_ruth_calls us TruncateEachLayer 8 true (twice3, 0%Z) = Ok (psi', s', 0%R) /\
  @weight CC [2; 2; 2]%nat (@amp (@rs_scalar CC) twice3) = 4%R /\ @weight CC [2; 2; 2]%nat (@amp (@rs_scalar CC) psi') = 1%R.
Proof.
  destruct expm_contract_satisfiable as (expm & He). destruct (@svd_contract_satisfiable CC) as (svd & Hs).
  destruct (@ti_full CC 3 2 zz4 sx2 false [zz4] [zz4] zz_data ltac:(lia)) as (H & E & HF & HsN & Eds & _).
  assert (HH : hermitian_terms H).
  { pose proof E as E'. unfold ti_new in E'. cbn [is_empty zz4 sx2] in E'. apply Ok_inj' in E'. subst H. split; cbn [h_size h_dim h_local h_interaction].
    - intros k i j _. cbn. intros Hi Hj. destruct i as [|[|i]]; try lia; destruct j as [|[|j]]; try lia; apply C_ext; cbn; ring.
    - intros k i j _. cbn. intros Hi Hj. destruct i as [|[|[|[|i]]]]; try lia; destruct j as [|[|[|[|j]]]]; try lia; apply C_ext; cbn; ring. }
  destruct (solver_new_ok expm forest_ruth_unitaries H (mkC (1 / 10) 0) HF) as (us & Eu & _); [repeat constructor|].
  assert (HL : @linked (@rs_scalar CC) 1 twice3 1).
  { cbn. exists 2%nat, 1%nat. repeat split; try lia. exists 2%nat, 1%nat. repeat split; try lia. exists 2%nat, 1%nat. repeat split; lia. }
  assert (Ho : @open_mps (@rs_scalar CC) twice3) by (split; [discriminate|exact HL]).
  assert (Hp : pdims twice3 = h_dims H) by (rewrite Eds; reflexivity).
  assert (HW : @weight CC [2; 2; 2]%nat (@amp (@rs_scalar CC) twice3) = 4%R) by (unfold weight, inner, twice3; cbn; ring).
  cbn [repeat] in Eds.
  destruct (C59_forest_ruth_layers_exact expm He svd Hs 1 ltac:(lra) algorithm tolerance H (mkC (1 / 10) 0) HF twice3 Ho Hp us 8 true 0
    ltac:(lra) ltac:(rewrite Eds; cbn; lia) ltac:(cbn; lia) HH eq_refl ltac:(rewrite Eds, HW; lra) Eu) as (psi' & s' & E1 & _).
  pose proof (C59_forest_ruth_layers_normalized expm He svd Hs 1 ltac:(lra) algorithm tolerance H (mkC (1 / 10) 0) HF twice3 Ho Hp us 8 0 psi' s' 0%R Eu E1) as N.
  exists expm, svd, H, us, psi', s'. split; [exact He|]. split; [exact Hs|]. split; [exact E|]. split; [exact Eu|]. split; [exact E1|]. split; [exact HW|].
  rewrite Eds in N. exact N.
Qed.
