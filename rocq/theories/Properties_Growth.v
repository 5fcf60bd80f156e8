(** * C49, C70: exactly when the sweeps of minimize and of DMRG::minimize end *)
From Coq Require Import Reals Lra Bool List Arith ZArith Lia.
From Verif Require Import Scalar ScalarFacts RScal Tensor TensorFacts Spec MpsModel MpoSpec CanonSpec CanonModel CanonFacts SimplifySpec SweepModel FormModel
  MinimizerModel MinimizeSpec MinLoop HamModel DmrgModel DmrgSpec GrowthSpec GrowthFacts RealInst Properties_Minimize Properties_Dmrg.
Import ListNotations.
Local Open Scope K_scope.

Section Minimize.
Context {RS : RScal}.
Variable svd : tensor -> tensor * list R * tensor.
Variable flag : R.
Variable eigs : (tensor -> result tensor) -> nat -> nat -> tensor -> result (list K * tensor * bool).

Lemma full_ends o m : ends_with_growth (fun n => full_sweep svd flag eigs (with_sweeps o (Z.of_nat n)) m) (fun P => P = [])
  (10 ^ 28)%R (o_tolerance o) (o_allow_E_growth o).
Proof.
  apply (gloop_spec (X := minimizer) mz_psi
    (fun m => bind (any_sweep svd flag eigs o m) (fun '(m, e) => Ok (if mz_converged m then inr (m, e) else inl [])))) with (x := m).
  - intros x a E. destruct (any_sweep svd flag eigs o x) as [(m1 & e)|]; [|discriminate]. cbn [bind] in E. destruct (mz_converged m1); congruence.
  - intros n. unfold full_sweep. rewrite loop_with. cbn [o_sweeps with_sweeps]. rewrite Nat2Z.id. generalize (10 ^ 28)%R. generalize 0%Z. generalize true. revert m.
    induction n as [|n IH]; intros m first failures E; [reflexivity|]. cbn [full_loop gloop].
    destruct (any_sweep svd flag eigs o m) as [(m1 & e)|]; [|reflexivity]. cbn [bind]. destruct (mz_converged m1); cbn [negb]; [|reflexivity].
    destruct first; [apply IH|]. destruct (Rltb _ _); [reflexivity|]. destruct (Rltb _ _); [|apply IH]. destruct (_ <=? _)%Z; [reflexivity|apply IH].
Qed.

(** minimize() with at most n sweeps, for all Hamiltonians, states and options: the sweeps end exactly when the energy changes by less
    than the tolerance, or grows after having grown allow_E_growth times; if the eigenvalue solver fails, *psi is emptied and the energy of
    the last complete sweep is returned (10^28 if there is none). *)
Theorem C49_ends H psi o : ends_with_growth (fun n => minimize svd flag eigs H psi (with_sweeps o (Z.of_nat n))) (fun P => P = [])
  (10 ^ 28)%R (o_tolerance o) (o_allow_E_growth o).
Proof.
  unfold minimize. destruct (minimizer_new svd flag H psi) as [m|]; [cbn [bind]; apply full_ends|intros n P E _ HE; discriminate].
Qed.

(** The same with a constraint and states to which psi is orthogonalised *)
Theorem C49_ends_with H psi o constraint value other :
  ends_with_growth (fun n => minimize_with svd flag eigs H psi (with_sweeps o (Z.of_nat n)) constraint value other) (fun P => P = [])
  (10 ^ 28)%R (o_tolerance o) (o_allow_E_growth o).
Proof.
  unfold minimize_with. destruct (minimizer_new svd flag H psi) as [m|]; [|intros n P E _ HE; discriminate]. cbn [bind].
  destruct (add_constraint m constraint value) as [m1|]; [|intros n P E _ HE; discriminate]. cbn [bind].
  destruct (match other with Some l => add_states m1 l | None => Ok m1 end) as [m2|]; [|intros n P E _ HE; discriminate]. cbn [bind]. apply full_ends.
Qed.
End Minimize.

Section Dmrg.
Context {RS : RScal}.
Variable svd : tensor -> tensor * list R * tensor.
Variable flag : R.
Variable eigs : tensor -> nat -> tensor -> list K * list K.
Variable arpack : (tensor -> tensor) -> nat -> nat -> tensor -> option (list K * list K).

Lemma one_site_done D dk ks : forall P B E P', dmrg_sites svd flag eigs arpack D 0 dk ks P B E <> Ok (P', None).
Proof.
  induction ks as [|k ks IH]; intros P B E P' HE; [discriminate|]. cbn [dmrg_sites Z.eqb] in HE.
  destruct (minimize_single_site svd flag eigs arpack D P B k dk) as [((P1 & B1) & e)|]; [|discriminate]. cbn [bind] in HE. exact (IH _ _ _ _ HE).
Qed.

(** DMRG::minimize() with at most n sweeps and two sites at a time (three or more sites) or one site at a time: the same; if the solver
    fails, which ends the call only with two sites at a time, the state is brought to canonical form. *)
Theorem C70_ends D psi Dmax E0 : (if (Dmax =? 0)%Z then 2 <= h_size (d_H D) else 3 <= h_size (d_H D))%nat ->
  ends_with_growth (fun n => dmrg_minimize svd flag eigs arpack (dmrg_with_sweeps D (Z.of_nat n)) psi Dmax E0)
    (fun P => Dmax <> 0%Z /\ exists P0, canonical_form svd flag P0 (-1) = Ok P) E0 (d_tolerance D) (d_allow_E_growth D).
Proof.
  intros HN. unfold dmrg_minimize. destruct (canonical_form svd flag psi (-1)) as [P|]; [|intros n Q E _ HE; discriminate]. cbn [bind].
  change (fun n => bind (init_matrices (dmrg_with_sweeps D (Z.of_nat n)) P) (fun B => dmrg_loop svd flag eigs arpack (dmrg_with_sweeps D (Z.of_nat n)) Dmax
     (Z.to_nat (d_sweeps (dmrg_with_sweeps D (Z.of_nat n)))) true true 0 P B E0))
  with (fun n => bind (init_matrices D P) (fun B => dmrg_loop svd flag eigs arpack (dmrg_with_sweeps D (Z.of_nat n)) Dmax
     (Z.to_nat (Z.of_nat n)) true true 0 P B E0)).
  destruct (init_matrices D P) as [B|]; [|intros n Q E _ HE; discriminate]. cbn [bind].
  apply (gloop_spec (X := mps * blocks * bool) (fun x => fst (fst x))
    (fun '(P, B, up) => bind (dmrg_sites svd flag eigs arpack D Dmax (if up then 1 else -1)%Z (dmrg_route D Dmax up) P B 0) (fun '(P, r) =>
       match r with None => bind (canonical_form svd flag P (-1)) (fun P => Ok (inl P)) | Some (B, e) => Ok (inr ((P, B, negb up), e)) end)))
   with (x := (P, B, true)).
  - intros ((P1 & B1) & r1) a E. destruct (dmrg_sites svd flag eigs arpack D Dmax _ _ P1 B1 0) as [(P2 & [(B2 & e)|])|] eqn:ES; [discriminate| |discriminate].
    cbn [bind] in E. split.
    + intros ->. exact (one_site_done _ _ _ _ _ _ _ ES).
    + exists P2. destruct (canonical_form svd flag P2 (-1)); [|discriminate]. cbn [bind] in E. injection E as <-. reflexivity.
  - intros n. rewrite Nat2Z.id. clear psi. revert P B.
    assert (HG : forall s n first up failures P B E, dmrg_loop svd flag eigs arpack (dmrg_with_sweeps D s) Dmax n first up failures P B E =
      gloop (X := mps * blocks * bool) (fun x => fst (fst x))
    (fun '(P, B, up) => bind (dmrg_sites svd flag eigs arpack D Dmax (if up then 1 else -1)%Z (dmrg_route D Dmax up) P B 0) (fun '(P, r) =>
       match r with None => bind (canonical_form svd flag P (-1)) (fun P => Ok (inl P)) | Some (B, e) => Ok (inr ((P, B, negb up), e)) end))
       (d_tolerance D) (d_allow_E_growth D) n first failures (P, B, up) E).
    { intros s. induction n0 as [|n0 IH]; intros first up failures P B E; [reflexivity|]. cbn [dmrg_loop gloop].
      change (dmrg_route (dmrg_with_sweeps D s) Dmax up) with (dmrg_route D Dmax up).
      destruct (dmrg_route D Dmax up) as [|k ks] eqn:ER.
      { exfalso. apply (f_equal (@length nat)) in ER. unfold dmrg_route in ER. destruct (Dmax =? 0)%Z, up.
        - rewrite seq_length in ER. cbn in ER. lia.
        - rewrite rev_length, seq_length in ER. cbn in ER. lia.
        - rewrite seq_length in ER. cbn in ER. lia.
        - destruct (Nat.ltb_spec (h_size (d_H D)) 3); [lia|]. rewrite rev_length, seq_length in ER. cbn in ER. lia. }
      replace (dmrg_sites svd flag eigs arpack (dmrg_with_sweeps D s) Dmax (if up then 1%Z else (-1)%Z) (k :: ks) P B 0)
        with (dmrg_sites svd flag eigs arpack D Dmax (if up then 1%Z else (-1)%Z) (k :: ks) P B 0).
      2:{ generalize (k :: ks). generalize 0%R. clear. intros E l. revert P B E. induction l as [|k l IH]; intros P B E; [reflexivity|]. cbn [dmrg_sites].
          change (minimize_single_site svd flag eigs arpack (dmrg_with_sweeps D s)) with (minimize_single_site svd flag eigs arpack D).
          change (minimize_two_sites svd flag eigs arpack (dmrg_with_sweeps D s)) with (minimize_two_sites svd flag eigs arpack D).
          destruct (if (Dmax =? 0)%Z then _ else _) as [[((P1 & B1) & e)|]|]; cbn [bind]; [apply IH|reflexivity|reflexivity]. }
      destruct (dmrg_sites svd flag eigs arpack D Dmax _ (k :: ks) P B 0) as [(P1 & [(B1 & e)|])|]; cbn [bind]; [| |reflexivity].
      - destruct first; [apply IH|]. change (d_tolerance (dmrg_with_sweeps D s)) with (d_tolerance D). change (d_allow_E_growth (dmrg_with_sweeps D s)) with (d_allow_E_growth D).
        destruct (Rltb _ _); [reflexivity|]. destruct (Rltb _ _); [|apply IH]. destruct (_ <=? _)%Z; [reflexivity|apply IH].
      - destruct (canonical_form svd flag P1 (-1)); reflexivity. }
    intros P B. apply HG.
Qed.
End Dmrg.

(** A case: calls that return for every number of sweeps *)
Example C49_ends_case : exists (svd : @tensor (@rs_scalar RR) -> _) eigs, svd_contract svd /\ eigs_contract eigs /\
  forall n, exists P E, minimize svd 1 eigs bell start00 (with_sweeps (mkOpt 5 (1 / 100) (-1) 1 1 false) (Z.of_nat n)) = Ok (P, E).
Proof.
  destruct C49_case as (svd & eigs & H1 & H2 & _). exists svd, eigs. split; [exact H1|]. split; [exact H2|]. intros n.
  destruct (C49_returns svd 1 H1 eigs H2 bell start00 [2; 2]%nat (with_sweeps (mkOpt 5 (1 / 100) (-1) 1 1 false) (Z.of_nat n))) as (P & E & HE); [|eauto].
  apply bell_valid. reflexivity.
Qed.
Example C70_ends_case : exists (svd : @tensor (@rs_scalar RR) -> _) eigs arpack, svd_contract svd /\ @dense_contract RR eigs /\ @arpack_contract RR arpack /\
  forall n, exists P E, dmrg_minimize svd 1 eigs arpack (dmrg_with_sweeps dmrg2 (Z.of_nat n)) start00 0 0 = Ok (P, E).
Proof.
  destruct C70_case as (svd & eigs & arpack & H1 & H2 & H3 & H4 & _ & H5 & _). exists svd, eigs, arpack. split; [exact H1|]. split; [exact H2|]. split; [exact H3|]. intros n.
  destruct (C70_returns svd 1 H1 eigs arpack H2 H3 (dmrg_with_sweeps dmrg2 (Z.of_nat n)) start00 0 H5 eq_refl H4) as (P & E & HE). eauto.
Qed.
