(** * C59: steps of the Trotter solvers that use simplify_obc *)
From Coq Require Import Reals Lra Bool List Arith ZArith Lia Ring.
From Verif Require Import SvdExist Scalar ScalarFacts RScal RealInst Tensor TensorFacts Spec MpsModel MpsFacts StateFacts HamModel HamFacts CanonSpec CanonModel TruncFacts CanonFacts CanonSweep
  SimplifySpec SimplifyModel SimplifyFacts BondBound TrotterSpec TrotterModel TrotterFacts TrotterApply TrotterRun TrotterLoop TrotterExec TrotterNorm TrotterExp TrotterObc Properties_Trotter.
Import ListNotations.

Section Steps.
Notation CS := (@rs_scalar CC).
Notation T := (@tensor CS).
Notation state := (list T).
Variable expm : T -> T.
Hypothesis Hexpm : expm_contract expm.
Variable svd : T -> T * list R * T.
Hypothesis Hsvd : @svd_contract CC svd.
Variable flag : R.
Hypothesis Hf : flag <> 0%R.
Variable algorithm : bool.
Variable tolerance : R.
Notation simp := (@obc CC svd flag algorithm tolerance).

Variable H : @hamiltonian CS.
Variable dt : Cx.
Hypothesis HF : @full_terms CC H.
Notation ds := (h_dims H).
Variable l : list (nat * R).
Hypothesis Hl : Forall (fun x => (fst x <= 1)%nat) l.
Variable us : list (@unitary CC).
Hypothesis Hus : solver_new expm l H dt = Ok us.

(** The calls that a step makes: layers that exist, tolerances that are not zero, no truncation in apply() *)
Definition call_fine (c : layer_call) : Prop :=
  match c with
  | Apply n t Dm nrm => (n < length l)%nat /\ eff_tol flag t <> 0%R /\ Dm = 0%nat /\ nrm = false
  | ApplySimplify n t Dm nrm => (n < length l)%nat /\ eff_tol flag t <> 0%R
  end.
Definition normalizes (c : layer_call) : bool := match c with Apply _ _ _ b | ApplySimplify _ _ _ b => b end.

Lemma layer_at n : (n < length l)%nat -> @layer_ok CC (@u_no CC us n) (par l n) ds.
Proof. apply (layers_ok expm Hexpm l H dt us HF Hl Hus). Qed.

Lemma call_ok c psi s psi' s' e : call_fine c -> @open_mps CS psi -> pdims psi = ds ->
  @exec_call CC svd flag simp us (psi, s) c = Ok (psi', s', e) ->
  @open_mps CS psi' /\ pdims psi' = ds /\ (0 <= e)%R /\
  (normalizes c = false -> (1 <= flag)%R -> e = 0%R -> forall is, in_range ds is -> @amp CS psi' is = @act CS ds (layer us l ds (call_no c)) (@amp CS psi) is).
Proof.
  intros Hc Ho Hp E. pose proof Ho as (Hne & HL). assert (Hlen : (0 < length psi)%nat) by (destruct psi; [congruence|cbn; lia]).
  destruct c as [n t Dm nrm|n t Dm nrm]; cbn [exec_call fst snd] in E; fold (@u_no CC us n) in E.
  - destruct Hc as (Hn & Ht & -> & ->).
    destruct (@apply_any CC svd flag Hsvd (@u_no CC us n) (par l n) psi 1 1 s t 0) as (P & e' & E1 & A1 & A2 & A3 & A4 & A5 & _); try assumption; [rewrite Hp; apply layer_at; exact Hn|lia|left; reflexivity|].
    rewrite E in E1. apply Ok_inj' in E1. injection E1 as <- _ <-.
    assert (HP : psi' <> []) by (intros ->; rewrite Hp in A2; destruct psi; [congruence|rewrite <- A2 in Hp; discriminate]).
    split; [split; [exact HP|exact A1]|]. split; [congruence|]. split; [exact A3|]. intros _ H1 H0 is Hi. cbn [call_no].
    pose proof (@amp_acted CC 1 psi psi' (@u_op CC (@u_no CC us n) (par l n) (pdims psi)) HL A1 A2 Hne (A5 H0 (or_introl eq_refl)) is) as X. rewrite Hp in X. apply X. exact Hi.
  - destruct Hc as (Hn & Ht).
    destruct (@simplified_ok CC svd flag algorithm tolerance Hsvd (@u_no CC us n) (par l n) psi t Dm nrm psi' s' e) as (A1 & A2 & A3 & _ & A5 & _); try assumption; [rewrite Hp; apply layer_at; exact Hn|].
    split; [exact A1|]. split; [congruence|]. split; [exact A3|]. cbn [normalizes call_no]. intros Hnn H1 H0 is Hi. rewrite Hp in A5. exact (A5 (or_introl Hnn) H1 H0 is Hi).
Qed.

Lemma calls_ok cs : Forall call_fine cs -> forall psi s psi' s' es, @open_mps CS psi -> pdims psi = ds ->
  @exec_calls CC svd flag simp us cs (psi, s) = Ok (psi', s', es) ->
  @open_mps CS psi' /\ pdims psi' = ds /\ length es = length cs /\ Forall (fun e => 0 <= e)%R es /\
  (forallb (fun c => negb (normalizes c)) cs = true -> (1 <= flag)%R -> Forall (fun e => e = 0%R) es ->
     forall is, in_range ds is -> @amp CS psi' is = evolved us l ds (map call_no cs) (@amp CS psi) is).
Proof.
  intros Hc. induction Hc as [|c cs Hc Hcs IH]; intros psi s psi' s' es Ho Hp E; cbn [exec_calls] in E.
  - apply Ok_inj' in E. injection E as <- <- <-. repeat (split; [first [assumption|reflexivity|constructor]|]). reflexivity.
  - destruct (@exec_call CC svd flag simp us (psi, s) c) as [[[P1 s1] e1]|] eqn:E1; [|discriminate]. cbn [bind] in E.
    destruct (@exec_calls CC svd flag simp us cs (P1, s1)) as [[[P2 s2] es2]|] eqn:E2; [|discriminate]. cbn [bind] in E. apply Ok_inj' in E. injection E as <- <- <-.
    destruct (call_ok c psi s P1 s1 e1 Hc Ho Hp E1) as (A1 & A2 & A3 & A4).
    destruct (IH P1 s1 P2 s2 es2 A1 A2 E2) as (B1 & B2 & B3 & B4 & B5).
    split; [exact B1|]. split; [exact B2|]. split; [cbn; congruence|]. split; [constructor; assumption|].
    cbn [forallb map]. intros Hn H1 H0 is Hi. apply andb_true_iff in Hn. destruct Hn as (Hn1 & Hn2). apply negb_true_iff in Hn1.
    rewrite (B5 Hn2 H1 (Forall_inv_tail H0) is Hi). unfold evolved. cbn [fold_left].
    transitivity (fold_left (fun f M => @act CS ds M f) (map (layer us l ds) (map call_no cs)) (@amp CS P1) is).
    { clear. revert is. generalize (@amp CS P1). induction (map call_no cs) as [|n ns IHn]; intros f is; [reflexivity|]. cbn. apply IHn. }
    rewrite (@acts_ext CC ds (map (layer us l ds) (map call_no cs)) (@amp CS P1) (@act CS ds (layer us l ds (call_no c)) (@amp CS psi)));
      [|intros js Hj; apply (A4 Hn1 H1 (Forall_inv H0) js Hj)|exact Hi].
    clear. revert is. generalize (@act CS ds (layer us l ds (call_no c)) (@amp CS psi)). induction (map call_no cs) as [|n ns IHn]; intros f is; [reflexivity|]. cbn. apply IHn.
Qed.

Lemma calls_bonds cs n t Dm nrm psi s psi' s' es : Forall call_fine (cs ++ [ApplySimplify n t Dm nrm]) -> (0 < Dm)%nat -> @open_mps CS psi -> pdims psi = ds ->
  @exec_calls CC svd flag simp us (cs ++ [ApplySimplify n t Dm nrm]) (psi, s) = Ok (psi', s', es) ->
  forall j, (0 < j < length psi')%nat -> (dim (site psi' j) 0 <= Dm)%nat.
Proof.
  intros Hc HD Ho Hp E. apply Forall_app in Hc. destruct Hc as (Hc1 & Hc2). apply Forall_inv in Hc2. destruct Hc2 as (Hn & Ht).
  destruct (exec_app svd flag simp us cs [ApplySimplify n t Dm nrm] (psi, s) _ E) as ((P1, s1) & es1 & es2 & E1 & E2). cbn [fst] in E2.
  destruct (calls_ok cs Hc1 psi s P1 s1 es1 Ho Hp E1) as (A1 & A2 & _).
  cbn [exec_calls exec_call fst snd] in E2. fold (@u_no CC us n) in E2.
  destruct (@u_apply_and_simplify CC svd flag simp (@u_no CC us n) P1 t Dm nrm) as [[[P2 s2] e2]|] eqn:E3; [|discriminate]. cbn [bind] in E2. apply Ok_inj' in E2. injection E2 as -> -> _.
  destruct (@simplified_ok CC svd flag algorithm tolerance Hsvd (@u_no CC us n) (par l n) P1 t Dm nrm psi' s' e2) as (_ & _ & _ & B & _); try assumption; [rewrite A2; apply layer_at; exact Hn|].
  exact (B HD).
Qed.

(** Calls with a bound that is not below the dimension of the space of states: simplify_obc is never needed. *)
Definition full_dim : nat := fold_right Nat.mul 1%nat ds.
Definition call_large (c : layer_call) : Prop :=
  match c with
  | Apply n t Dm nrm => (n < length l)%nat /\ (1 <= eff_tol flag t)%R /\ Dm = 0%nat /\ nrm = false
  | ApplySimplify n t Dm nrm => (n < length l)%nat /\ (1 <= eff_tol flag t)%R /\ (full_dim <= Dm)%nat
  end.
Lemma call_large_ok c psi s : (1 <= flag)%R -> call_large c -> @open_mps CS psi -> pdims psi = ds ->
  exists psi' s', @exec_call CC svd flag simp us (psi, s) c = Ok (psi', s', 0%R) /\ @open_mps CS psi' /\ pdims psi' = ds /\
    forall is, in_range ds is -> @amp CS psi' is = @act CS ds (layer us l ds (call_no c)) (@amp CS psi) is.
Proof.
  intros H1 Hc Ho Hp. pose proof Ho as (Hne & HL). assert (Hlen : (0 < length psi)%nat) by (destruct psi; [congruence|cbn; lia]).
  destruct c as [n t Dm nrm|n t Dm nrm]; cbn [exec_call fst snd call_no]; fold (@u_no CC us n).
  - destruct Hc as (Hn & Ht & -> & ->). assert (Ht' : eff_tol flag t <> 0%R) by (intros X; rewrite X in Ht; lra).
    destruct (@apply_any CC svd flag Hsvd (@u_no CC us n) (par l n) psi 1 1 s t 0) as (P & e & E1 & A1 & A2 & A3 & A4 & A5 & _); try assumption; [rewrite Hp; apply layer_at; exact Hn|lia|left; reflexivity|].
    assert (e = 0%R) by (apply A4; [exact Ht|reflexivity]). subst e. eexists P, _. split; [exact E1|].
    assert (HP : P <> []) by (intros ->; rewrite Hp in A2; destruct psi; [congruence|rewrite <- A2 in Hp; discriminate]).
    split; [split; [exact HP|exact A1]|]. split; [congruence|]. intros is Hi.
    pose proof (@amp_acted CC 1 psi P (@u_op CC (@u_no CC us n) (par l n) (pdims psi)) HL A1 A2 Hne (A5 eq_refl (or_introl eq_refl)) is) as X. rewrite Hp in X. apply X. exact Hi.
  - destruct Hc as (Hn & Ht & HD). unfold u_apply_and_simplify. assert (Ht' : eff_tol flag t <> 0%R) by (intros X; rewrite X in Ht; lra).
    assert (Hu : @layer_ok CC (@u_no CC us n) (par l n) (pdims psi)) by (rewrite Hp; apply layer_at; exact Hn).
    destruct (@apply_any CC svd flag Hsvd (@u_no CC us n) (par l n) psi 1 1 1%Z t 0 Hu HL ltac:(lia) Hlen (or_introl eq_refl) Ht') as (Q & e & E1 & A1 & A2 & A3 & A4 & A5 & _).
    assert (e = 0%R) by (apply A4; [exact Ht|reflexivity]). subst e. rewrite E1. cbn [bind].
    assert (HlQ : length Q = length psi) by (rewrite <- (length_pdims Q), A2; apply length_pdims).
    destruct (@canonical_form_at_ok CC svd flag Hsvd 1 1 Q 0 A1 ltac:(lia) (or_introl Hf) ltac:(lia)) as (chi & E2 & (S1 & S2 & S3 & S4 & S5) & I1 & I2).
    assert (E3 : @canonical_form CC svd flag Q (-1) = Ok chi) by exact E2. rewrite E3. cbn [bind].
    assert (Hlc : length chi = length psi) by (rewrite <- (length_pdims chi), S2, A2; apply length_pdims).
    assert (Hoc : @open_mps CS chi) by (split; [intros X; rewrite X in Hlc; unfold mps in *; cbn [length] in Hlc; clear -Hlc Hlen; lia|exact S1]).
    assert (Hpc : pdims chi = ds) by congruence.
    assert (Hcc : @canonical_at CC 0 chi) by (split; [exact I1|intros j Hj; apply I2; lia]).
    destruct (@largest_bond_spec CS chi (proj1 Hoc)) as (_ & jm & Hjm & Ejm).
    pose proof (@canonical_bonds_le CC chi Hoc Hcc jm Hjm) as Hb. rewrite Hpc in Hb.
    destruct (Nat.ltb_spec Dm (largest_bond_dimension chi)) as [HD'|_]; [unfold full_dim in HD; lia|]. cbn [bind].
    eexists chi, _. split; [rewrite Rplus_0_l; reflexivity|]. split; [exact Hoc|]. split; [exact Hpc|]. intros is Hi.
    rewrite <- Hp in Hi.
    pose proof (@amp_acted CC 1 psi Q (@u_op CC (@u_no CC us n) (par l n) (pdims psi)) HL A1 A2 Hne (A5 eq_refl (or_introl eq_refl)) is Hi) as X.
    rewrite Hp in X. transitivity (@amp CS Q is); [|exact X].
    assert (Hneq : Q <> []) by (intros Z0; rewrite Z0 in HlQ; unfold mps in *; cbn [length] in HlQ; clear -HlQ Hlen; lia).
    unfold amp. rewrite (@left_bond_linked CC 1 chi 1 S1 (proj1 Hoc)), (@left_bond_linked CC 1 Q 1 A1 Hneq). apply (@sum_ext CS). intros a Ha.
    apply S4; [right; exact H1|rewrite A2; exact Hi|exact Ha].
Qed.
Lemma calls_large_ok cs : (1 <= flag)%R -> Forall call_large cs -> forall psi s, @open_mps CS psi -> pdims psi = ds ->
  exists psi' s' es, @exec_calls CC svd flag simp us cs (psi, s) = Ok (psi', s', es) /\ Forall (fun e => e = 0%R) es /\ @open_mps CS psi' /\ pdims psi' = ds /\
    forall is, in_range ds is -> @amp CS psi' is = evolved us l ds (map call_no cs) (@amp CS psi) is.
Proof.
  intros H1 Hc. induction Hc as [|c cs Hc Hcs IH]; intros psi s Ho Hp; cbn [exec_calls].
  - exists psi, s, []. split; [reflexivity|]. split; [constructor|]. split; [exact Ho|]. split; [exact Hp|]. intros is _. reflexivity.
  - destruct (call_large_ok c psi s H1 Hc Ho Hp) as (P1 & s1 & E1 & A1 & A2 & A3). rewrite E1. cbn [bind].
    destruct (IH P1 s1 A1 A2) as (P2 & s2 & es & E2 & B1 & B2 & B3 & B4). rewrite E2. cbn [bind].
    exists P2, s2, (0%R :: es). split; [reflexivity|]. split; [constructor; [reflexivity|exact B1]|]. split; [exact B2|]. split; [exact B3|].
    intros is Hi. rewrite (B4 is Hi). cbn [map]. unfold evolved. cbn [fold_left].
    transitivity (fold_left (fun f M => @act CS ds M f) (map (layer us l ds) (map call_no cs)) (@amp CS P1) is).
    { clear. revert is. generalize (@amp CS P1). induction (map call_no cs) as [|n ns IHn]; intros f is; [reflexivity|]. cbn. apply IHn. }
    rewrite (@acts_ext CC ds (map (layer us l ds) (map call_no cs)) (@amp CS P1) (@act CS ds (layer us l ds (call_no c)) (@amp CS psi)));
      [|intros js Hj; apply (A3 js Hj)|exact Hi].
    clear. revert is. generalize (@act CS ds (layer us l ds (call_no c)) (@amp CS psi)). induction (map call_no cs) as [|n ns IHn]; intros f is; [reflexivity|]. cbn. apply IHn.
Qed.
End Steps.

Section C59.
Notation CS := (@rs_scalar CC).
Notation T := (@tensor CS).
Notation state := (list T).
Variable expm : T -> T.
Hypothesis Hexpm : expm_contract expm.
Variable svd : T -> T * list R * T.
Hypothesis Hsvd : @svd_contract CC svd.
Variable flag : R.
Hypothesis Hf : flag <> 0%R.
(** MPS_SIMPLIFY_ALGORITHM and MPS_SIMPLIFY_TOLERANCE *)
Variable algorithm : bool.
Variable tolerance : R.
Notation simp := (@obc CC svd flag algorithm tolerance).
Variable H : @hamiltonian CS.
Variable dt : Cx.
Hypothesis HF : @full_terms CC H.
Variable psi : state.
Hypothesis Ho : @open_mps CS psi.
Hypothesis Hp : pdims psi = h_dims H.
Notation units sol := (nth sol [trotter2_unitaries; trotter3_unitaries; forest_ruth_unitaries] []).
Notation steps sol := (nth sol [trotter2_calls; trotter3_calls; forest_ruth_calls] trotter2_calls).
(** The layers of a step, as numbers of unitaries *)
Notation layers sol := (nth sol [[0; 1]; [1; 0; 1]; [0; 1; 2; 3; 2; 1; 0]] [])%nat.

Lemma units_fine sol : Forall (fun x => (fst x <= 1)%nat) (units sol).
Proof. destruct sol as [|[|[|[|sol]]]]; cbn [nth]; repeat (constructor; [cbn; lia|]); constructor. Qed.

(** C59.  With TRUNCATE_GROUPS (the default) all bonds of the result are at most Dmax, for all three solvers; also with
    TRUNCATE_EACH_LAYER for Trotter2Solver and Trotter3Solver. *)
Theorem C59_simplified_bonds (sol : nat) us strat Dmax nrm s psi' s' e : (sol < 3)%nat ->
  (strat = TruncateGroups \/ strat = TruncateEachLayer /\ sol <> 2%nat) -> solver_new expm (units sol) H dt = Ok us ->
  @one_step CC svd flag simp (steps sol) us strat Dmax nrm (psi, s) = Ok (psi', s', e) ->
  @open_mps CS psi' /\ pdims psi' = h_dims H /\ forall j, (0 < j < length psi')%nat -> (dim (site psi' j) 0 <= Dmax)%nat.
Proof.
  intros Hsol Hst E Ex. pose proof (units_fine sol) as Hl.
  unfold one_step in Ex. destruct (Nat.eqb_spec Dmax 0) as [HD0|HD0]; [destruct Hst as [-> |(-> & _)]; discriminate|]. cbn [andb] in Ex.
  destruct (@exec_calls CC svd flag simp us (map fst (steps sol strat Dmax nrm)) (psi, s)) as [[[P' z] es]|] eqn:Ee; [|discriminate]. cbn [bind] in Ex.
  apply Ok_inj' in Ex. injection Ex as -> -> _.
  assert (Hdt : eff_tol flag MPS_DEFAULT_TOLERANCE <> 0%R) by (rewrite def_tol; exact Hf). pose proof (eps_ok flag) as Het.
  assert (Hs : exists cs n t, map fst (steps sol strat Dmax nrm) = cs ++ [ApplySimplify n t Dmax nrm] /\ Forall (call_fine flag (units sol)) (cs ++ [ApplySimplify n t Dmax nrm])).
  { assert (Hfin : forall cs c, Forall (call_fine flag (units sol)) cs -> call_fine flag (units sol) c -> Forall (call_fine flag (units sol)) (cs ++ [c])) by (intros; apply Forall_app; auto).
    destruct Hst as [-> |(-> & Hs2)]; destruct sol as [|[|[|sol]]]; try lia; cbn [nth].
    - exists [Apply 0 MPS_TRUNCATE_EPSILON 0 false], 1%nat, MPS_TRUNCATE_EPSILON. split; [reflexivity|]. repeat constructor; assumption.
    - exists [Apply 1 MPS_TRUNCATE_EPSILON 0 false; Apply 0 MPS_TRUNCATE_EPSILON 0 false], 1%nat, MPS_TRUNCATE_EPSILON. split; [reflexivity|]. repeat constructor; assumption.
    - set (t := MPS_DEFAULT_TOLERANCE) in *.
      exists [Apply 0 t 0 false; ApplySimplify 1 t Dmax false; Apply 2 t 0 false; Apply 3 t 0 false; ApplySimplify 2 t Dmax false; Apply 1 t 0 false], 0%nat, t. split; [reflexivity|].
      repeat (constructor; [cbn; repeat split; try lia; assumption|]). constructor.
    - exists [ApplySimplify 0 MPS_TRUNCATE_EPSILON Dmax false], 1%nat, MPS_TRUNCATE_EPSILON. split; [reflexivity|]. repeat constructor; assumption.
    - exists [ApplySimplify 1 MPS_TRUNCATE_EPSILON Dmax false; ApplySimplify 0 MPS_TRUNCATE_EPSILON Dmax false], 1%nat, MPS_TRUNCATE_EPSILON. split; [reflexivity|]. repeat constructor; assumption. }
  destruct Hs as (cs & n & t & Ecs & Hfine). rewrite Ecs in Ee.
  destruct (calls_ok expm Hexpm svd Hsvd flag Hf algorithm tolerance H dt HF (units sol) Hl us E _ Hfine psi s psi' s' es Ho Hp Ee) as (A1 & A2 & _).
  split; [exact A1|]. split; [exact A2|].
  exact (calls_bonds expm Hexpm svd Hsvd flag Hf algorithm tolerance H dt HF (units sol) Hl us E cs n t Dmax nrm psi s psi' s' es Hfine ltac:(lia) Ho Hp Ee).
Qed.

(** C59.  With normalize = true: the last layer is applied to the state P1 left by the previous calls, without bound on
    the bonds, and brought to canonical form, chi; if some bond of chi exceeds Dmax, the state returned has norm 1,
    otherwise it is chi. *)
Theorem C59_simplified_normalized (sol : nat) us strat Dmax s psi' s' e : (sol < 3)%nat ->
  (strat = TruncateGroups \/ strat = TruncateEachLayer /\ sol <> 2%nat) -> solver_new expm (units sol) H dt = Ok us ->
  @one_step CC svd flag simp (steps sol) us strat Dmax true (psi, s) = Ok (psi', s', e) ->
  exists n t P1 s1 es1 Q s2 e2 chi,
    @exec_calls CC svd flag simp us (removelast (map fst (steps sol strat Dmax true))) (psi, s) = Ok (P1, s1, es1) /\
    (n = if Nat.eqb sol 2 then 0 else 1)%nat /\
    @u_apply CC svd flag (@u_no CC us n) P1 1 t 0 false = Ok (Q, s2, e2) /\ @canonical_form CC svd flag Q (-1) = Ok chi /\
    ((@largest_bond_dimension CS chi <= Dmax)%nat /\ psi' = chi \/
     (Dmax < @largest_bond_dimension CS chi)%nat /\ @weight CC (h_dims H) (@amp CS psi') = 1%R).
Proof.
  intros Hsol Hst E Ex. pose proof (units_fine sol) as Hl.
  unfold one_step in Ex. destruct (Nat.eqb_spec Dmax 0) as [HD0|HD0]; [destruct Hst as [-> |(-> & _)]; discriminate|]. cbn [andb] in Ex.
  destruct (@exec_calls CC svd flag simp us (map fst (steps sol strat Dmax true)) (psi, s)) as [[[P' z] es]|] eqn:Ee; [|discriminate]. cbn [bind] in Ex.
  apply Ok_inj' in Ex. injection Ex as -> -> _.
  assert (Hdt : eff_tol flag MPS_DEFAULT_TOLERANCE <> 0%R) by (rewrite def_tol; exact Hf). pose proof (eps_ok flag) as Het.
  assert (Hs : exists cs t, map fst (steps sol strat Dmax true) = cs ++ [ApplySimplify (if Nat.eqb sol 2 then 0 else 1)%nat t Dmax true] /\
     Forall (call_fine flag (units sol)) (cs ++ [ApplySimplify (if Nat.eqb sol 2 then 0 else 1)%nat t Dmax true])).
  { destruct Hst as [-> |(-> & Hs2)]; destruct sol as [|[|[|sol]]]; try lia; cbn [nth Nat.eqb].
    - exists [Apply 0 MPS_TRUNCATE_EPSILON 0 false], MPS_TRUNCATE_EPSILON. split; [reflexivity|]. repeat constructor; assumption.
    - exists [Apply 1 MPS_TRUNCATE_EPSILON 0 false; Apply 0 MPS_TRUNCATE_EPSILON 0 false], MPS_TRUNCATE_EPSILON. split; [reflexivity|]. repeat constructor; assumption.
    - set (t := MPS_DEFAULT_TOLERANCE) in *.
      exists [Apply 0 t 0 false; ApplySimplify 1 t Dmax false; Apply 2 t 0 false; Apply 3 t 0 false; ApplySimplify 2 t Dmax false; Apply 1 t 0 false], t. split; [reflexivity|].
      repeat (constructor; [cbn; repeat split; try lia; assumption|]). constructor.
    - exists [ApplySimplify 0 MPS_TRUNCATE_EPSILON Dmax false], MPS_TRUNCATE_EPSILON. split; [reflexivity|]. repeat constructor; assumption.
    - exists [ApplySimplify 1 MPS_TRUNCATE_EPSILON Dmax false; ApplySimplify 0 MPS_TRUNCATE_EPSILON Dmax false], MPS_TRUNCATE_EPSILON. split; [reflexivity|]. repeat constructor; assumption. }
  destruct Hs as (cs & t & Ecs & Hfine). rewrite Ecs in *. set (n := (if Nat.eqb sol 2 then 0 else 1)%nat) in *.
  apply Forall_app in Hfine. destruct Hfine as (Hc1 & Hc2). apply Forall_inv in Hc2. destruct Hc2 as (Hn & Ht).
  destruct (exec_app svd flag simp us cs [ApplySimplify n t Dmax true] (psi, s) _ Ee) as ((P1, s1) & es1 & es2 & E1 & E2). cbn [fst] in E2.
  destruct (calls_ok expm Hexpm svd Hsvd flag Hf algorithm tolerance H dt HF (units sol) Hl us E cs Hc1 psi s P1 s1 es1 Ho Hp E1) as (A1 & A2 & _).
  cbn [exec_calls exec_call fst snd] in E2. fold (@u_no CC us n) in E2.
  destruct (@u_apply_and_simplify CC svd flag simp (@u_no CC us n) P1 t Dmax true) as [[[P2 s2] e2]|] eqn:E3; [|discriminate]. cbn [bind] in E2. apply Ok_inj' in E2. injection E2 as -> -> _.
  pose proof A1 as (Hne & HL). assert (Hlen : (0 < length P1)%nat) by (destruct P1; [congruence|cbn; lia]).
  unfold u_apply_and_simplify in E3.
  destruct (@apply_any CC svd flag Hsvd (@u_no CC us n) (par (units sol) n) P1 1 1 1 t 0) as (Q & e1 & E4 & B1 & B2 & _); try assumption; [rewrite A2; apply (layer_at expm Hexpm H dt HF (units sol) Hl us E); exact Hn|lia|left; reflexivity|].
  match type of E4 with ?a = _ => match type of E3 with bind ?b _ = _ => change b with a in E3 end end. rewrite E4 in E3. cbn [bind] in E3.
  destruct (@canonical_form CC svd flag Q (-1)) as [chi|] eqn:E5; [|discriminate]. cbn [bind] in E3.
  eexists n, t, P1, s1, es1, Q, _, e1, chi. rewrite removelast_last. split; [exact E1|]. split; [reflexivity|]. split; [exact E4|]. split; [exact E5|].
  destruct (Nat.ltb_spec Dmax (@largest_bond_dimension CS chi)) as [Hlt|Hge].
  - right. split; [exact Hlt|]. destruct (simp chi Dmax true) as [[P3 e3]|] eqn:E6; [|discriminate]. cbn [bind] in E3. apply Ok_inj' in E3. injection E3 as -> _ _.
    assert (HlQ : length Q = length P1) by (rewrite <- (length_pdims Q), B2; apply length_pdims).
    destruct (canonical_form_at_ok svd flag Hsvd 1 1 Q 0 B1 ltac:(lia) (or_introl Hf) ltac:(lia)) as (chi' & E7 & (S1 & S2 & _) & _).
    assert (E8 : @canonical_form CC svd flag Q (-1) = Ok chi') by exact E7.
    assert (Ec : chi' = chi) by (rewrite E5 in E8; apply Ok_inj' in E8; congruence). subst chi'.
    assert (Hlc : length chi = length P1) by (rewrite <- HlQ, <- (@length_pdims CS chi), <- (@length_pdims CS Q); f_equal; exact S2).
    assert (Hoc : @open_mps CS chi) by (split; [intros Hz; clear - Hz Hlc Hlen; rewrite Hz in Hlc; change (0 = length P1)%nat in Hlc; lia|exact S1]).
    assert (Hpc : pdims chi = h_dims H) by (rewrite S2, B2; exact A2).
    destruct (@obc_ok CC svd flag algorithm tolerance Hsvd chi Dmax true _ e3 Hoc Hf E6) as (_ & _ & _ & _ & _ & B6 & _).
    rewrite <- Hpc. exact (B6 eq_refl).
  - left. split; [exact Hge|]. apply Ok_inj' in E3. injection E3 as -> _ _. reflexivity.
Qed.

(** C59.  The steps that count the errors of all layers: if the returned error is zero and MPS_TRUNCATION_TOLERANCE is at
    least 1, the result is the product of the layers. *)
Theorem C59_simplified_exact (sol : nat) us strat Dmax s psi' s' : (sol < 3)%nat -> (1 <= flag)%R ->
  (strat = TruncateEachLayer \/ strat = TruncateGroups /\ sol = 2%nat) -> solver_new expm (units sol) H dt = Ok us ->
  @one_step CC svd flag simp (steps sol) us strat Dmax false (psi, s) = Ok (psi', s', 0%R) ->
  forall is, in_range (h_dims H) is -> @amp CS psi' is = evolved us (units sol) (h_dims H) (layers sol) (@amp CS psi) is.
Proof.
  intros Hsol H1 Hst E Ex. pose proof (units_fine sol) as Hl.
  unfold one_step in Ex. match type of Ex with (if ?b then _ else _) = _ => destruct b; [discriminate Ex|] end.
  destruct (@exec_calls CC svd flag simp us (map fst (steps sol strat Dmax false)) (psi, s)) as [[[P' z] es]|] eqn:Ee; [|discriminate]. cbn [bind] in Ex.
  apply Ok_inj' in Ex. pose proof (f_equal snd Ex) as Ee0. apply (f_equal fst) in Ex. cbn [fst snd] in Ex, Ee0. injection Ex as -> ->.
  assert (Hdt : eff_tol flag MPS_DEFAULT_TOLERANCE <> 0%R) by (rewrite def_tol; exact Hf). pose proof (eps_ok flag) as Het.
  assert (Hs : Forall (call_fine flag (units sol)) (map fst (steps sol strat Dmax false)) /\ map call_no (map fst (steps sol strat Dmax false)) = layers sol /\
     forallb (fun c => negb (normalizes c)) (map fst (steps sol strat Dmax false)) = true /\ steps sol strat Dmax false = counted (map fst (steps sol strat Dmax false))).
  { destruct Hst as [-> |(-> & Hs2)]; destruct sol as [|[|[|sol]]]; try lia; cbn [nth]; (split; [|split; [|split]]; [|reflexivity|reflexivity|reflexivity]);
      repeat (constructor; [cbn; repeat split; try lia; assumption|]); constructor. }
  destruct Hs as (Hfine & Hno & Hnn & Hct).
  destruct (calls_ok expm Hexpm svd Hsvd flag Hf algorithm tolerance H dt HF (units sol) Hl us E _ Hfine psi s psi' s' es Ho Hp Ee) as (_ & _ & A3 & A4 & A5).
  rewrite Hno in A5. apply A5; [exact Hnn|exact H1|]. rewrite Hct in Ee0. apply (proj2 (total_counted (map fst (steps sol strat Dmax false)) es A3 A4)); exact Ee0.
Qed.

(** C59.  If Dmax is at least the dimension of the space of states, a step of the Forest-Ruth solver with TRUNCATE_GROUPS
    returns the product of the layers and error zero (MPS_TRUNCATION_TOLERANCE at least 1): whatever normalize is. *)
Theorem C59_groups_exact us Dmax nrm s : (1 <= flag)%R -> (fold_right Nat.mul 1%nat (h_dims H) <= Dmax)%nat ->
  solver_new expm forest_ruth_unitaries H dt = Ok us ->
  exists psi' s', @one_step CC svd flag simp forest_ruth_calls us TruncateGroups Dmax nrm (psi, s) = Ok (psi', s', 0%R) /\
    @open_mps CS psi' /\ pdims psi' = h_dims H /\
    forall is, in_range (h_dims H) is -> @amp CS psi' is = evolved us forest_ruth_unitaries (h_dims H) [0; 1; 2; 3; 2; 1; 0]%nat (@amp CS psi) is.
Proof.
  intros H1 HD E.
  assert (Hpos : (0 < fold_right Nat.mul 1%nat (h_dims H))%nat).
  { destruct HF as (_ & Hl & _). assert (G : forall k, In k (h_dims H) -> (0 < k)%nat).
    { intros k Hk. apply (In_nth _ _ 0%nat) in Hk. destruct Hk as (i & Hi & <-). rewrite (@length_h_dims CC) in Hi. rewrite (@nth_h_dims CC) by exact Hi. apply (Hl i Hi). }
    revert G. clear. induction (h_dims H) as [|d l IH]; intros G; cbn; [lia|]. pose proof (G d (or_introl eq_refl)). specialize (IH (fun k Hk => G k (or_intror Hk))). nia. }
  destruct (calls_large_ok expm Hexpm svd Hsvd flag Hf algorithm tolerance H dt HF forest_ruth_unitaries (units_fine 2) us E (map fst (forest_ruth_calls TruncateGroups Dmax nrm)) H1) with (psi := psi) (s := s)
    as (psi' & s' & es & E1 & E2 & A1 & A2 & A3); [|exact Ho|exact Hp|].
  - assert (Hdt : (1 <= eff_tol flag MPS_DEFAULT_TOLERANCE)%R) by (rewrite def_tol; exact H1).
    cbn [map fst forest_ruth_calls counted]. repeat (constructor; [cbn [call_large]; repeat split; first [cbn; lia|exact Hdt|exact HD]|]). constructor.
  - exists psi', s'. split; [|split; [exact A1|split; [exact A2|exact A3]]].
    unfold one_step. destruct (Nat.eqb_spec Dmax 0); [lia|]. cbn [andb]. match type of E1 with ?a = _ => match goal with |- context [@exec_calls ?u1 ?u2 ?u3 ?u4 ?u5 ?u6 ?u7] => change (@exec_calls u1 u2 u3 u4 u5 u6 u7) with a end end. rewrite E1. cbn [bind]. f_equal. f_equal.
    change (forest_ruth_calls TruncateGroups Dmax nrm) with (counted (map fst (forest_ruth_calls TruncateGroups Dmax nrm))).
    clear - E2. revert es E2. generalize (map fst (forest_ruth_calls TruncateGroups Dmax nrm)). intros l0. induction l0 as [|c cs IH]; intros [|e es] E2; try reflexivity.
    change (total_error (counted (c :: cs)) (e :: es)) with (e + total_error (counted cs) es)%R. pose proof (Forall_inv E2) as H0. cbn in H0. rewrite H0, IH by exact (Forall_inv_tail E2). ring.
Qed.

(** C59.  In that case normalize is ignored: for every Hermitian Hamiltonian and real time step, the state returned has the
    norm of the state given. *)
Theorem C59_groups_norm_kept us Dmax s : (1 <= flag)%R -> (fold_right Nat.mul 1%nat (h_dims H) <= Dmax)%nat ->
  hermitian_terms H -> Cim dt = 0%R -> solver_new expm forest_ruth_unitaries H dt = Ok us ->
  exists psi' s', @one_step CC svd flag simp forest_ruth_calls us TruncateGroups Dmax true (psi, s) = Ok (psi', s', 0%R) /\
    @inner CS (h_dims H) (@amp CS psi') (@amp CS psi') = @inner CS (h_dims H) (@amp CS psi) (@amp CS psi).
Proof.
  intros H1 HD HH Hdt E. destruct (C59_groups_exact us Dmax true s H1 HD E) as (psi' & s' & E1 & _ & _ & A). exists psi', s'. split; [exact E1|].
  rewrite <- (C61_scalar_product expm Hexpm H dt HF 1 ltac:(lia) 2 us (@amp CS psi) (@amp CS psi) HH Hdt E). cbn [nth]. unfold inner. apply (@sumcfg_ext CS). intros is Hi. rewrite (A is Hi). reflexivity.
Qed.
End C59.

(** C59. DEFECT: with TRUNCATE_GROUPS (the default) and normalize = true the state returned need not have norm 1: here it
    has norm 2, because the bonds did not have to be reduced in the last call of apply_and_simplify. *)
Definition twice3 : list (@tensor (@rs_scalar CC)) :=
  @mk (@rs_scalar CC) [1; 2; 1]%nat (fun is => match is with [_; 0; _]%nat => mkC 2 0 | _ => mkC 0 0 end) ::
  repeat (@mk (@rs_scalar CC) [1; 2; 1]%nat (fun is => match is with [_; 0; _]%nat => mkC 1 0 | _ => mkC 0 0 end)) 2.
Theorem C59_groups_normalize_refuted (algorithm : bool) (tolerance : R) : exists expm svd H us psi' s',
  expm_contract expm /\ @svd_contract CC svd /\ @ti_new (@rs_scalar CC) 3 zz4 sx2 false 2 [zz4] [zz4] = Ok H /\ @full_terms CC H /\ hermitian_terms H /\
  solver_new expm forest_ruth_unitaries H (mkC (1 / 10) 0) = Ok us /\
  @one_step CC svd 1 (@obc CC svd 1 algorithm tolerance) forest_ruth_calls us TruncateGroups 8 true (twice3, 0%Z) = Ok (psi', s', 0%R) /\
  @inner (@rs_scalar CC) [2; 2; 2]%nat (@amp (@rs_scalar CC) psi') (@amp (@rs_scalar CC) psi') = mkC 4 0.
Proof.
  destruct expm_contract_satisfiable as (expm & He). destruct (@svd_contract_satisfiable CC) as (svd & Hs).
  destruct (@ti_full CC 3 2 zz4 sx2 false [zz4] [zz4] zz_data ltac:(lia)) as (H & E & HF & HsN & Eds & _).
  assert (HH : hermitian_terms H).
  { unfold ti_new in E. cbn [is_empty zz4 sx2] in E. apply Ok_inj' in E. subst H. split; cbn [h_size h_dim h_local h_interaction].
    - intros k i j _. cbn. intros Hi Hj. destruct i as [|[|i]]; try lia; destruct j as [|[|j]]; try lia; apply C_ext; cbn; ring.
    - intros k i j _. cbn. intros Hi Hj. destruct i as [|[|[|[|i]]]]; try lia; destruct j as [|[|[|[|j]]]]; try lia; apply C_ext; cbn; ring. }
  destruct (solver_new_ok expm forest_ruth_unitaries H (mkC (1 / 10) 0) HF) as (us & Eu & _); [repeat constructor|].
  assert (HL : @linked (@rs_scalar CC) 1 twice3 1).
  { cbn. exists 2%nat, 1%nat. repeat split; try lia. exists 2%nat, 1%nat. repeat split; try lia. exists 2%nat, 1%nat. repeat split; lia. }
  assert (Ho : @open_mps (@rs_scalar CC) twice3) by (split; [discriminate|exact HL]).
  assert (Hp : pdims twice3 = h_dims H) by (rewrite Eds; reflexivity).
  destruct (C59_groups_norm_kept expm He svd Hs 1 ltac:(lra) algorithm tolerance H (mkC (1 / 10) 0) HF twice3 Ho Hp us 8 0 ltac:(lra) ltac:(rewrite Eds; cbn; lia) HH eq_refl Eu) as (psi' & s' & E1 & N).
  exists expm, svd, H, us, psi', s'. split; [exact He|]. split; [exact Hs|]. split; [exact E|]. split; [exact HF|]. split; [exact HH|]. split; [exact Eu|]. split; [exact E1|].
  rewrite Eds in N. cbn [repeat] in N. rewrite N. unfold twice3, inner. cbn. apply C_ext; cbn; ring.
Qed.
