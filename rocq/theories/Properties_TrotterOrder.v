(** * C60: the order of the steps that truncate with simplify_obc, when nothing had to be dropped *)
From Coq Require Import Reals Lra Bool List Arith ZArith Lia Ring.
From Verif Require Import SvdExist Scalar ScalarFacts RScal RealInst Tensor TensorFacts Spec MpsModel MpsFacts StateFacts HamModel HamFacts CanonSpec CanonModel TruncFacts CanonFacts CanonSweep
  SimplifySpec SimplifyModel TrotterSpec TrotterModel TrotterFacts TrotterApply TrotterRun TrotterLoop TrotterExec TrotterNorm TrotterExp TrotterObc OpSpec OpAlgebra OpExp Properties_Trotter Properties_Trotter2 Properties_Trotter3 Properties_TrotterObc Properties_TrotterLayers.
Import ListNotations.
Local Open Scope R_scope.

Section Steps.
Notation CS := (@rs_scalar CC).
Notation T := (@tensor CS).
Notation ham := (@hamiltonian CS).
Notation state := (list T).
Variable expm : T -> T.
Hypothesis Hexpm : expm_contract expm.
Variable svd : T -> T * list R * T.
Hypothesis Hsvd : @svd_contract CC svd.
Variable flag : R.
Hypothesis H1 : 1 <= flag.
(** MPS_SIMPLIFY_ALGORITHM and MPS_SIMPLIFY_TOLERANCE *)
Variable algorithm : bool.
Variable tolerance : R.
Notation simp := (@obc CC svd flag algorithm tolerance).

(** C60.  With TRUNCATE_GROUPS (the default) or TRUNCATE_EACH_LAYER, a step of the Forest-Ruth solver that returns error zero
    is a fourth order approximation of exp(-i dt H), whatever the bound on the bonds. *)
Theorem C60_forest_ruth_simplified (H : ham) : @full_terms CC H -> exists C B, 0 <= C /\ 0 <= B /\
  forall dt us psi s strat Dmax psi' s', Cim dt = 0 -> C1 dt <= 1 -> solver_new expm forest_ruth_unitaries H dt = Ok us ->
    @open_mps CS psi -> pdims psi = h_dims H -> strat = TruncateGroups \/ strat = TruncateEachLayer ->
    @one_step CC svd flag simp forest_ruth_calls us strat Dmax false (psi, s) = Ok (psi', s', 0) ->
    near H dt psi psi' (C * C1 dt ^ 5 + 3 / 10 ^ 15 * B).
Proof.
  intros HF. destruct (C60_forest_ruth_error expm Hexpm H HF) as (C & B & HC & HB & HE). exists C, B. split; [exact HC|]. split; [exact HB|].
  intros dt us psi s strat Dmax psi' s' Hdt Hs Eu Ho Hp Hst E1 E is HEx Hi.
  rewrite (C59_simplified_exact expm Hexpm svd Hsvd flag ltac:(lra) algorithm tolerance H dt HF psi Ho Hp 2 us strat Dmax s psi' s' ltac:(lia) H1 ltac:(destruct Hst; auto) Eu E1 is Hi).
  apply HE; assumption.
Qed.
(** The other solvers count the errors of all layers only with TRUNCATE_EACH_LAYER. *)
Theorem C60_trotter2_simplified (H : ham) : @full_terms CC H -> exists C, 0 <= C /\
  forall dt us psi s Dmax psi' s', Cim dt <= 0 -> C1 dt <= 1 -> solver_new expm trotter2_unitaries H dt = Ok us ->
    @open_mps CS psi -> pdims psi = h_dims H ->
    @one_step CC svd flag simp trotter2_calls us TruncateEachLayer Dmax false (psi, s) = Ok (psi', s', 0) ->
    near H dt psi psi' (C * C1 dt ^ 2).
Proof.
  intros HF. destruct (C60_trotter2_error expm Hexpm H HF) as (C & B & HC & HB & HE). exists C. split; [exact HC|].
  intros dt us psi s Dmax psi' s' Hdt Hs Eu Ho Hp E1 E is HEx Hi.
  rewrite (C59_simplified_exact expm Hexpm svd Hsvd flag ltac:(lra) algorithm tolerance H dt HF psi Ho Hp 0 us TruncateEachLayer Dmax s psi' s' ltac:(lia) H1 ltac:(auto) Eu E1 is Hi).
  specialize (HE dt us E (@amp CS psi) is Hdt Hs Eu HEx Hi). rewrite Rmult_0_l, Rplus_0_r in HE. exact HE.
Qed.
Theorem C60_trotter3_simplified (H : ham) : @full_terms CC H -> exists C, 0 <= C /\
  forall dt us psi s Dmax psi' s', Cim dt <= 0 -> C1 dt <= 1 -> solver_new expm trotter3_unitaries H dt = Ok us ->
    @open_mps CS psi -> pdims psi = h_dims H ->
    @one_step CC svd flag simp trotter3_calls us TruncateEachLayer Dmax false (psi, s) = Ok (psi', s', 0) ->
    near H dt psi psi' (C * C1 dt ^ 3).
Proof.
  intros HF. destruct (C60_trotter3_error expm Hexpm H HF) as (C & B & HC & HB & HE). exists C. split; [exact HC|].
  intros dt us psi s Dmax psi' s' Hdt Hs Eu Ho Hp E1 E is HEx Hi.
  rewrite (C59_simplified_exact expm Hexpm svd Hsvd flag ltac:(lra) algorithm tolerance H dt HF psi Ho Hp 1 us TruncateEachLayer Dmax s psi' s' ltac:(lia) H1 ltac:(auto) Eu E1 is Hi).
  specialize (HE dt us E (@amp CS psi) is Hdt Hs Eu HEx Hi). rewrite Rmult_0_l, Rplus_0_r in HE. exact HE.
Qed.

(** C60.  If Dmax is at least the dimension of the space of states, the step with TRUNCATE_GROUPS always returns such a state. *)
Theorem C60_forest_ruth_groups (H : ham) : @full_terms CC H -> exists C B, 0 <= C /\ 0 <= B /\
  forall dt us psi s Dmax, Cim dt = 0 -> C1 dt <= 1 -> solver_new expm forest_ruth_unitaries H dt = Ok us ->
    @open_mps CS psi -> pdims psi = h_dims H -> (fold_right Nat.mul 1%nat (h_dims H) <= Dmax)%nat ->
    exists psi' s', @one_step CC svd flag simp forest_ruth_calls us TruncateGroups Dmax false (psi, s) = Ok (psi', s', 0) /\
      near H dt psi psi' (C * C1 dt ^ 5 + 3 / 10 ^ 15 * B).
Proof.
  intros HF. destruct (C60_forest_ruth_simplified H HF) as (C & B & HC & HB & HE). exists C, B. split; [exact HC|]. split; [exact HB|].
  intros dt us psi s Dmax Hdt Hs Eu Ho Hp HD.
  destruct (C59_groups_exact expm Hexpm svd Hsvd flag ltac:(lra) algorithm tolerance H dt HF psi Ho Hp us Dmax false s H1 HD Eu) as (psi' & s' & E1 & _).
  exists psi', s'. split; [exact E1|]. exact (HE dt us psi s TruncateGroups Dmax psi' s' Hdt Hs Eu Ho Hp (or_introl eq_refl) E1).
Qed.

(** k steps, one after the other: the states and senses *)
Fixpoint steps_in_turn (us : list (@unitary CC)) (Dmax k : nat) (st : state * Z) : result (state * Z) :=
  match k with
  | 0%nat => Ok st
  | S k => bind (steps_in_turn us Dmax k st) (fun st1 => bind (@one_step CC svd flag simp forest_ruth_calls us TruncateGroups Dmax false st1) (fun '(st2, _) => Ok st2))
  end.
(** C60.  k such steps for Hermitian terms approximate exp(-i k dt H) to fourth order, with an error proportional to k. *)
Theorem C60_forest_ruth_groups_long (H : ham) : @full_terms CC H -> hermitian_terms H -> exists C B, 0 <= C /\ 0 <= B /\
  forall dt us psi s Dmax k, Cim dt = 0 -> C1 dt <= 1 -> solver_new expm forest_ruth_unitaries H dt = Ok us ->
    @open_mps CS psi -> pdims psi = h_dims H -> (fold_right Nat.mul 1%nat (h_dims H) <= Dmax)%nat ->
    exists psi' s', steps_in_turn us Dmax k (psi, s) = Ok (psi', s') /\ @open_mps CS psi' /\ pdims psi' = h_dims H /\
      forall E is, is_op_exp (h_dims H) (fun is js => Cmul (minus_i (cscale (INR k) dt)) (total H is js)) E -> in_range (h_dims H) is ->
        C1 (Csub (@amp CS psi' is) (@act CS (h_dims H) E (@amp CS psi) is)) <=
          INR k * (C * C1 dt ^ 5 + 3 / 10 ^ 15 * B) * sqrt (sq (h_dims H) (@amp CS psi)).
Proof.
  intros HF HH. destruct (C60_forest_ruth_long expm Hexpm H HF HH) as (C & B & HC & HB & HE). exists C, B. split; [exact HC|]. split; [exact HB|].
  intros dt us psi s Dmax k Hdt Hs Eu Ho Hp HD.
  assert (G : exists psi' s', steps_in_turn us Dmax k (psi, s) = Ok (psi', s') /\ @open_mps CS psi' /\ pdims psi' = h_dims H /\
    forall is, in_range (h_dims H) is -> @amp CS psi' is = Nat.iter k (evolved us forest_ruth_unitaries (h_dims H) [0; 1; 2; 3; 2; 1; 0]%nat) (@amp CS psi) is).
  { clear HE. induction k as [|k IH]; [exists psi, s; split; [reflexivity|]; split; [exact Ho|]; split; [exact Hp|]; intros is _; reflexivity|].
    destruct IH as (P & z & E1 & O1 & D1 & A1). cbn [steps_in_turn]. rewrite E1. cbn [bind].
    destruct (C59_groups_exact expm Hexpm svd Hsvd flag ltac:(lra) algorithm tolerance H dt HF P O1 D1 us Dmax false z H1 HD Eu) as (P2 & z2 & E2 & O2 & D2 & A2).
    exists P2, z2. rewrite E2. split; [reflexivity|]. split; [exact O2|]. split; [exact D2|]. intros is Hi. rewrite (A2 is Hi).
    change (Nat.iter (S k) ?F ?x) with (F (Nat.iter k F x)). apply evolved_ext; assumption. }
  destruct G as (psi' & s' & E1 & O1 & D1 & A1). exists psi', s'. split; [exact E1|]. split; [exact O1|]. split; [exact D1|]. intros E is HEx Hi.
  rewrite (A1 is Hi). exact (HE dt us k E (@amp CS psi) is Hdt Hs Eu HEx Hi).
Qed.

(** C61.  With a real time step and Hermitian terms, k such steps keep the scalar product of any two states, and so the norm. *)
Theorem C61_groups_steps (H : ham) dt us psi phi s Dmax k : @full_terms CC H -> hermitian_terms H -> Cim dt = 0 ->
  solver_new expm forest_ruth_unitaries H dt = Ok us -> @open_mps CS psi -> pdims psi = h_dims H -> @open_mps CS phi -> pdims phi = h_dims H ->
  (fold_right Nat.mul 1%nat (h_dims H) <= Dmax)%nat ->
  exists psi' s1 phi' s2, steps_in_turn us Dmax k (psi, s) = Ok (psi', s1) /\ steps_in_turn us Dmax k (phi, s) = Ok (phi', s2) /\
    @inner CS (h_dims H) (@amp CS phi') (@amp CS psi') = @inner CS (h_dims H) (@amp CS phi) (@amp CS psi).
Proof.
  intros HF HH Hdt Eu Ho Hp Ho2 Hp2 HD.
  assert (G : exists psi' s1 phi' s2, steps_in_turn us Dmax k (psi, s) = Ok (psi', s1) /\ steps_in_turn us Dmax k (phi, s) = Ok (phi', s2) /\
    @open_mps CS psi' /\ pdims psi' = h_dims H /\ @open_mps CS phi' /\ pdims phi' = h_dims H /\
    @inner CS (h_dims H) (@amp CS phi') (@amp CS psi') = @inner CS (h_dims H) (@amp CS phi) (@amp CS psi)).
  { induction k as [|k IH]; [exists psi, s, phi, s; repeat (split; [first [reflexivity|assumption]|]); reflexivity|].
    destruct IH as (P & z & F & y & E1 & E2 & O1 & D1 & O2 & D2 & EI). cbn [steps_in_turn]. rewrite E1, E2. cbn [bind].
    destruct (C59_groups_exact expm Hexpm svd Hsvd flag ltac:(lra) algorithm tolerance H dt HF P O1 D1 us Dmax false z H1 HD Eu) as (P' & z' & E3 & O3 & D3 & A3).
    destruct (C59_groups_exact expm Hexpm svd Hsvd flag ltac:(lra) algorithm tolerance H dt HF F O2 D2 us Dmax false y H1 HD Eu) as (F' & y' & E4 & O4 & D4 & A4).
    exists P', z', F', y'. rewrite E3, E4. split; [reflexivity|]. split; [reflexivity|]. split; [exact O3|]. split; [exact D3|]. split; [exact O4|]. split; [exact D4|].
    rewrite <- EI. rewrite <- (C61_scalar_product expm Hexpm H dt HF 1 ltac:(lia) 2 us (@amp CS F) (@amp CS P) HH Hdt Eu). cbn [nth].
    unfold inner. apply (@sumcfg_ext CS). intros is Hi. rewrite (A3 is Hi), (A4 is Hi). reflexivity. }
  destruct G as (psi' & s1 & phi' & s2 & E1 & E2 & _ & _ & _ & _ & EI). exists psi', s1, phi', s2. auto.
Qed.
End Steps.

(** A case that meets the hypotheses: three spins in the state 2|000>, sigma_z sigma_z interaction and a field along x *)
Example C60_simplified_ex (algorithm : bool) (tolerance : R) : exists expm svd H us psi' s' E,
  expm_contract expm /\ @svd_contract CC svd /\ @full_terms CC H /\ hermitian_terms H /\ C1 (mkC (1 / 10) 0) <= 1 /\
  solver_new expm forest_ruth_unitaries H (mkC (1 / 10) 0) = Ok us /\ @open_mps (@rs_scalar CC) twice3 /\ pdims twice3 = h_dims H /\
  @one_step CC svd 1 (@obc CC svd 1 algorithm tolerance) forest_ruth_calls us TruncateGroups 8 false (twice3, 0%Z) = Ok (psi', s', 0%R) /\
  is_op_exp (h_dims H) (fun is js => Cmul (minus_i (mkC (1 / 10) 0)) (total H is js)) E.
Proof.
  destruct expm_contract_satisfiable as (expm & He). destruct (@svd_contract_satisfiable CC) as (svd & Hs).
  destruct (@ti_full CC 3 2 zz4 sx2 false [zz4] [zz4] zz_data ltac:(lia)) as (H & E & HF & HsN & Eds & _).
  assert (HH : hermitian_terms H).
  { pose proof E as E'. unfold ti_new in E'. cbn [is_empty zz4 sx2] in E'. apply Ok_inj' in E'. subst H. split; cbn [h_size h_dim h_local h_interaction].
    - intros k i j _. cbn. intros Hi Hj. destruct i as [|[|i]]; try lia; destruct j as [|[|j]]; try lia; apply C_ext; cbn; ring.
    - intros k i j _. cbn. intros Hi Hj. destruct i as [|[|[|[|i]]]]; try lia; destruct j as [|[|[|[|j]]]]; try lia; apply C_ext; cbn; ring. }
  destruct (solver_new_ok expm forest_ruth_unitaries H (mkC (1 / 10) 0) HF) as (us & Eu & _); [repeat constructor|].
  destruct (op_exp_exists (h_dims H) (fun is js => Cmul (minus_i (mkC (1 / 10) 0)) (total H is js))) as (X & HX).
  assert (HL : @linked (@rs_scalar CC) 1 twice3 1).
  { cbn. exists 2%nat, 1%nat. repeat split; try lia. exists 2%nat, 1%nat. repeat split; try lia. exists 2%nat, 1%nat. repeat split; lia. }
  assert (Ho : @open_mps (@rs_scalar CC) twice3) by (split; [discriminate|exact HL]).
  assert (Hp : pdims twice3 = h_dims H) by (rewrite Eds; reflexivity).
  destruct (C59_groups_exact expm He svd Hs 1 ltac:(lra) algorithm tolerance H (mkC (1 / 10) 0) HF twice3 Ho Hp us 8 false 0 ltac:(lra) ltac:(rewrite Eds; cbn; lia) Eu) as (psi' & s' & E1 & _).
  exists expm, svd, H, us, psi', s', X. split; [exact He|]. split; [exact Hs|]. split; [exact HF|]. split; [exact HH|]. split; [rewrite C1_real, Rabs_right; lra|].
  split; [exact Eu|]. split; [exact Ho|]. split; [exact Hp|]. split; [exact E1|exact HX].
Qed.
