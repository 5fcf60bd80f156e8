(** * The Trotter solvers with simplify_obc: src/evolve/trotter_unitary.cc:179-202 with src/dmrg/simplify_obc.cc *)
From Coq Require Import Reals Lra Bool List Arith ZArith Lia Ring.
From Verif Require ITebdTotal.
From Verif Require Import Scalar ScalarFacts RScal Tensor TensorFacts Spec MpsModel MpsFacts StateFacts StateFacts2 CanonSpec CanonModel
  TruncFacts CanonFacts CanonSweep CanonProps SweepModel FormModel FormSpec LFormFacts LFormValue Properties_Form SimplifySpec SimplifyModel SimplifyFacts SimplifyStep SimplifyPair SimplifyDouble SimplifySweep SimplifyLoop Properties_Simplify
  TrotterSpec TrotterModel TrotterFacts TrotterApply TrotterRun TrotterLoop TrotterExec.
Import ListNotations.
Local Open Scope K_scope.

Section Obc.
Context {RS : RScal}.
Add Ring Kring : k_ring.
Variable svd : tensor -> tensor * list R * tensor.
Variable flag : R.
(** FLAGS.get(MPS_SIMPLIFY_ALGORITHM) == MPS_SINGLE_SITE_ALGORITHM and FLAGS.get(MPS_SIMPLIFY_TOLERANCE) *)
Variable algorithm : bool.
Variable tolerance : R.

(** trotter_unitary.cc:197-199: simplify_obc(psi, *psi, &simplify_sense, 12, normalize, Dmax) with simplify_sense = -1 and
    tol = -1 (include/mps/mps_algorithms.h:72-76).  Q is copied into a vector first (simplify_obc_z.cc:38), so that the two
    arguments being the same object has no effect. *)
Definition obc (P : mps) (Dmax : nat) (normalize : bool) : result (mps * R) :=
  bind (simplify_obc1 svd flag algorithm tolerance P P (-1) 12 normalize (Z.of_nat Dmax) (-1)) (fun '(P, _, err, _) => Ok (P, err)).

Hypothesis Hsvd : svd_contract svd.

Lemma nonzero_weight_cfg ds (f : list nat -> K) : weight ds f <> 0%R -> exists is, in_range ds is /\ f is <> 0.
Proof.
  intros Hn. destruct (ITebdTotal.cfg_dec ds f) as [H|H]; [|exact H]. exfalso. apply Hn. unfold weight, inner.
  rewrite (sumcfg_zero ds); [rewrite <- rinj_0; apply kre_rinj|]. intros is Hi. rewrite H by exact Hi. ring.
Qed.
Lemma tscale_site_dim (P : mps) k x j : dim (site (replace_nth k (tscale x (site P k)) P) j) 0 = dim (site P j) 0.
Proof.
  unfold site. destruct (Nat.eq_dec j k) as [->|Hjk]; [|rewrite nth_replace_nth_neq by congruence; reflexivity].
  destruct (Nat.lt_ge_cases k (length P)) as [H|H]; [rewrite nth_replace_nth_eq by exact H; reflexivity|].
  rewrite !nth_overflow by (rewrite ?length_replace_nth; lia). reflexivity.
Qed.

Lemma combo_one (P : mps) is : combo [1] [P] is = amp P is.
Proof. unfold combo. cbn [length sum nth]. ring. Qed.
Lemma good_one P : open_mps P -> good_bras [1] [P] (pdims P).
Proof. intros Ho. split; [discriminate|]. split; [reflexivity|]. intros q [<-|[]]. split; [exact Ho|reflexivity]. Qed.

(** The zero state is refused: its norm is a divisor. *)
Lemma obc_zero P sense sweeps normalize Dmax tol : open_mps P -> weight (pdims P) (amp P) = 0%R ->
  simplify_obc svd flag algorithm tolerance P [1] [P] sense sweeps normalize Dmax tol = Abort.
Proof.
  intros Ho HW. pose proof (good_one P Ho) as Hg.
  assert (HL0 : (0 < length P)%nat) by (destruct P; [destruct Ho; congruence|cbn; lia]).
  unfold simplify_obc. destruct (Nat.eqb_spec sweeps 0) as [|Hs]; [reflexivity|].
  destruct (new_sweeper (Z.of_nat (length P)) (- sense)) as [s|] eqn:Es; [|reflexivity]. cbn [bind].
  assert (Hst : exists start, sweeper_site s = Z.of_nat start).
  { unfold new_sweeper in Es. destruct (0 <? Z.of_nat (length P))%Z; [|discriminate]. destruct (0 <? - sense)%Z; apply Ok_inj' in Es; subst s; cbn; [exists 0%nat; reflexivity|exists (length P - 1)%nat; lia]. }
  destruct Hst as (start & ->).
  destruct (lform_new [1] [P] P (Z.of_nat start)) as [f|] eqn:Ef; [|reflexivity]. cbn [bind].
  pose proof (lfh_new [1] [P] (pdims P) P start f Ho eq_refl Ef) as Hh.
  destruct (history_linv [1] [P] (pdims P) Hg f _ _ Hh) as (((Hw & Hb & _) & _) & _). rewrite (lf_norm_value [1] [P] (pdims P) Hg f Hw Hb). cbn [bind].
  rewrite (norm_combo [1] [P] (pdims P)).
  assert (E0 : weight (pdims P) (combo [1] [P]) = 0%R).
  { rewrite <- HW. unfold weight, inner. f_equal. apply sumcfg_ext. intros is Hi. rewrite !combo_one. reflexivity. }
  rewrite E0, kabs_rinj, sqrt_0, Rmult_0_l by lra. destruct sweeps as [|n]; [congruence|]. cbn [obc_loop].
  destruct (obc_sweep svd flag ((Dmax =? 0)%Z && algorithm) Dmax tol s P f) as [[[s1 P1] f1]|]; [|reflexivity]. cbn [bind].
  destruct (site_at P1 (sweeper_site s1)) as [t|]; [|reflexivity]. cbn [bind]. destruct (Req_EM_T 0 0) as [_|H]; [reflexivity|contradiction].
Qed.

(** What the call gives if it returns *)
Lemma obc_ok P Dmax nrm P' e : open_mps P -> flag <> 0%R -> obc P Dmax nrm = Ok (P', e) ->
  open_mps P' /\ pdims P' = pdims P /\ ((0 < Dmax)%nat -> forall j, (0 < j < length P')%nat -> (dim (site P' j) 0 <= Dmax)%nat) /\
  (algorithm = true -> Dmax = 0%nat -> forall j, (dim (site P' j) 0 <= dim (site P j) 0)%nat) /\
  (0 <= e)%R /\ (nrm = true -> weight (pdims P) (amp P') = 1%R) /\
  (nrm = false -> (e * e = dist2 (pdims P) (amp P) (amp P') / weight (pdims P) (amp P))%R).
Proof.
  intros Ho Hf E. unfold obc, simplify_obc1 in E. set (ds := pdims P) in *.
  assert (Hnz : weight ds (amp P) <> 0%R). { intros H0. rewrite obc_zero in E by assumption. discriminate. }
  assert (Hlen : one_site algorithm (Z.of_nat Dmax) = true \/ (2 <= length P)%nat).
  { destruct (one_site algorithm (Z.of_nat Dmax)) eqn:E1; [left; reflexivity|right]. destruct (Nat.le_gt_cases 2 (length P)) as [H|H]; [exact H|exfalso].
    assert (HL : length P = 1%nat) by (destruct P as [|? [|? ?]]; [destruct Ho; congruence|reflexivity|cbn in H; lia]).
    pose proof (proj2 (C62_rejects svd flag algorithm tolerance P [1] [P] ds (-1) 12 nrm (Z.of_nat Dmax) (-1)) (good_one P Ho) Ho eq_refl HL E1) as X. rewrite X in E. discriminate. }
  assert (Hv : valid_call flag algorithm P [1] [P] ds 12 (Z.of_nat Dmax) (-1)).
  { split; [discriminate|]. split; [reflexivity|]. split; [intros q [<-|[]]; split; [exact Ho|reflexivity]|]. split; [exact Ho|]. split; [reflexivity|]. split; [discriminate|].
    split; [|split; [exact Hlen|]].
    - destruct (nonzero_weight_cfg ds (amp P) Hnz) as (is & Hi & Hne). exists is. split; [exact Hi|]. rewrite combo_one. exact Hne.
    - left. unfold truncation, tolerance_used. destruct (one_site algorithm (Z.of_nat Dmax)); [exact Hf|]. destruct (Rlt_dec (-1) 0); [exact Hf|lra]. }
  destruct (C62_returns svd flag Hsvd algorithm tolerance P [1] [P] ds (-1) 12 (Z.of_nat Dmax) (-1) Hv) as (P1 & s1 & e1 & n1 & E1).
  destruct (C62_canonical svd flag Hsvd algorithm tolerance P [1] [P] ds (-1) 12 (Z.of_nat Dmax) (-1) Hv P1 s1 e1 n1 E1) as (A1 & A2 & _).
  destruct (C62_error svd flag Hsvd algorithm tolerance P [1] [P] ds (-1) 12 (Z.of_nat Dmax) (-1) Hv P1 s1 e1 n1 E1) as (B1 & _ & _ & B4 & B5).
  destruct (C62_bonds svd flag Hsvd algorithm tolerance P [1] [P] ds (-1) 12 (Z.of_nat Dmax) (-1) Hv P1 s1 e1 n1 E1) as (C1 & C2).
  assert (Hb : (0 < Dmax)%nat -> forall j, (0 < j < length P1)%nat -> (dim (site P1 j) 0 <= Dmax)%nat).
  { intros H0 j Hj. specialize (C1 ltac:(lia) j Hj). lia. }
  assert (Hs : algorithm = true -> Dmax = 0%nat -> forall j, (dim (site P1 j) 0 <= dim (site P j) 0)%nat).
  { intros -> ->. apply C2. reflexivity. }
  destruct nrm.
  - destruct (outcome svd flag Hsvd algorithm tolerance P [1] [P] ds (-1) 12 (Z.of_nat Dmax) (-1) Hv P1 s1 e1 n1 E1) as (d & _ & _ & _ & _ & _ & _ & E2).
    rewrite E2 in E. destruct (Req_EM_T n1 0) as [|Hn1]; [discriminate|]. cbn [bind] in E. apply Ok_inj' in E. injection E as EP Ee. subst e.
    destruct (C62_normalize svd flag Hsvd algorithm tolerance P [1] [P] ds (-1) 12 (Z.of_nat Dmax) (-1) Hv P1 s1 e1 n1 E1 Hn1) as (P2 & E3 & D1 & D2 & _ & _ & D5).
    rewrite E2 in E3. apply Ok_inj' in E3. injection E3 as EP3. rewrite EP3 in EP. subst P2.
    assert (Hl : length P' = length P1) by (rewrite <- (length_pdims P'), <- (length_pdims P1); congruence).
    assert (Hdim : forall j, dim (site P' j) 0 = dim (site P1 j) 0).
    { intros j. rewrite <- EP3. apply tscale_site_dim. }
    split; [exact D1|]. split; [exact D2|]. split; [intros H0 j Hj; rewrite Hdim; apply Hb; [exact H0|lia]|]. split; [intros Ha H0 j; rewrite Hdim; apply Hs; assumption|].
    split; [exact B4|]. split; [intros _; exact D5|discriminate].
  - rewrite E1 in E. cbn [bind] in E. apply Ok_inj' in E. injection E as <- <-. split; [exact A1|]. split; [exact A2|]. split; [exact Hb|]. split; [exact Hs|].
    split; [exact B4|]. split; [discriminate|]. intros _. rewrite B5.
    assert (EW : weight ds (combo [1] [P]) = weight ds (amp P)) by (unfold weight, inner; f_equal; apply sumcfg_ext; intros is Hi; rewrite !combo_one; reflexivity).
    assert (ED : dist2 ds (combo [1] [P]) (amp P1) = dist2 ds (amp P) (amp P1)) by (unfold dist2, weight, inner; f_equal; apply sumcfg_ext; intros is Hi; rewrite !combo_one; reflexivity).
    rewrite EW, ED. reflexivity.
Qed.

(** One call of apply_and_simplify() on an open state; [u_op] is the layer. *)
Lemma simplified_ok u k psi tol Dmax nrm psi' s' e : layer_ok u k (pdims psi) -> open_mps psi -> flag <> 0%R -> eff_tol flag tol <> 0%R ->
  u_apply_and_simplify svd flag obc u psi tol Dmax nrm = Ok (psi', s', e) ->
  open_mps psi' /\ pdims psi' = pdims psi /\ (0 <= e)%R /\
  ((0 < Dmax)%nat -> forall j, (0 < j < length psi')%nat -> (dim (site psi' j) 0 <= Dmax)%nat) /\
  ((nrm = false \/ length psi = 1 /\ 0 < Dmax)%nat -> (1 <= flag)%R -> e = 0%R ->
     forall is, in_range (pdims psi) is -> amp psi' is = act (pdims psi) (u_op u k (pdims psi)) (amp psi) is) /\
  exists chi e1, open_mps chi /\ pdims chi = pdims psi /\ canonical_at 0 chi /\ (0 <= e1)%R /\ ((1 <= eff_tol flag tol)%R -> e1 = 0%R) /\
    ((1 <= flag)%R -> e1 = 0%R -> forall is, in_range (pdims psi) is -> amp chi is = act (pdims psi) (u_op u k (pdims psi)) (amp psi) is) /\
    ((forall j, (j < length chi)%nat -> (dim (site chi j) 0 <= Dmax)%nat) /\ psi' = chi /\ e = e1 \/
     (exists j, (j < length chi)%nat /\ (Dmax < dim (site chi j) 0)%nat) /\
     exists e2, obc chi Dmax nrm = Ok (psi', e2) /\ e = (e1 + e2)%R /\ (0 <= e2)%R /\
       (nrm = true -> weight (pdims psi) (amp psi') = 1%R) /\
       (nrm = false -> (e2 * e2 = dist2 (pdims psi) (amp chi) (amp psi') / weight (pdims psi) (amp chi))%R)).
Proof.
  intros Hu Ho Hf Ht E. pose proof Ho as (Hne & HL).
  assert (Hlen : (0 < length psi)%nat) by (destruct psi; [congruence|cbn; lia]).
  unfold u_apply_and_simplify in E.
  destruct (apply_any svd flag Hsvd u k psi 1 1 1 tol 0 Hu HL ltac:(lia) Hlen (or_introl eq_refl) Ht) as (Q & e1 & E1 & A1 & A2 & A3 & A4 & A5 & _).
  rewrite E1 in E. cbn [bind] in E.
  assert (HlQ : length Q = length psi) by (rewrite <- (length_pdims Q), A2; apply length_pdims).
  destruct (canonical_form_at_ok svd flag Hsvd 1 1 Q 0 A1 ltac:(lia) (or_introl Hf) ltac:(lia)) as (chi & E2 & (S1 & S2 & S3 & S4 & S5) & I1 & I2).
  assert (E3 : canonical_form svd flag Q (-1) = Ok chi) by exact E2. rewrite E3 in E. cbn [bind] in E.
  assert (Hlc : length chi = length psi) by (rewrite <- (length_pdims chi), S2, A2; apply length_pdims).
  assert (Hoc : open_mps chi) by (split; [intros ->; cbn in Hlc; lia|exact S1]).
  assert (Hpc : pdims chi = pdims psi) by congruence.
  assert (Hcc : canonical_at 0 chi) by (split; [exact I1|intros j Hj; apply I2; lia]).
  assert (Hneq : Q <> []) by (intros ->; cbn in HlQ; lia).
  assert (Hex : (1 <= flag)%R -> e1 = 0%R -> forall is, in_range (pdims psi) is -> amp chi is = act (pdims psi) (u_op u k (pdims psi)) (amp psi) is).
  { intros H1 H0 is Hi. rewrite <- (amp_acted 1 psi Q (u_op u k (pdims psi)) HL A1 A2 Hne (A5 H0 (or_introl eq_refl)) is Hi).
    unfold amp. rewrite (left_bond_linked 1 chi 1 S1 (proj1 Hoc)), (left_bond_linked 1 Q 1 A1 Hneq). apply sum_ext. intros a Ha.
    apply S4; [|rewrite A2; exact Hi|exact Ha]. right. exact H1. }
  destruct (largest_bond_spec chi (proj1 Hoc)) as (Lb & jm & Hjm & Ejm).
  destruct (Nat.ltb_spec Dmax (largest_bond_dimension chi)) as [HD|HD].
  - destruct (obc chi Dmax nrm) as [[P' e2]|] eqn:E4; [|discriminate]. cbn [bind] in E. apply Ok_inj' in E. injection E as <- <- <-.
    destruct (obc_ok chi Dmax nrm P' e2 Hoc Hf E4) as (B1 & B2 & B3 & B4 & B5 & B6 & B7). rewrite Hpc in *.
    split; [exact B1|]. split; [exact B2|]. split; [lra|]. split; [exact B3|].
    split.
    + intros Hn H1 H0 is Hi. assert (e1 = 0%R) as H01 by lra. assert (e2 = 0%R) as H02 by lra. rewrite <- (Hex H1 H01 is Hi).
      destruct Hn as [Hn|(Hn1 & Hn2)].
      * specialize (B7 Hn). rewrite H02, Rmult_0_l in B7.
        assert (HW : weight (pdims psi) (amp chi) <> 0%R). { intros HW. unfold obc, simplify_obc1 in E4. rewrite obc_zero in E4; [discriminate|exact Hoc|rewrite Hpc; exact HW]. }
        assert (HD0 : dist2 (pdims psi) (amp chi) (amp P') = 0%R). { unfold Rdiv in B7. symmetry in B7. apply Rmult_integral in B7. destruct B7 as [B7|B7]; [exact B7|]. exfalso. exact (Rinv_neq_0_compat _ HW B7). }
        pose proof (weight_zero _ _ HD0 is Hi) as Hz. cbn beta in Hz. transitivity (amp chi is - (amp chi is - amp P' is)); [ring|rewrite Hz; ring].
      * exfalso. rewrite <- Ejm in HD. assert (jm = 0%nat) by lia. subst jm. destruct chi as [|A r]; [cbn in Hlc; lia|]. destruct S1 as (d & c & Hd & _). cbn [site nth] in HD. unfold site, dim in HD. cbn [nth] in HD. rewrite Hd in HD. cbn in HD. lia.
    + exists chi, e1. split; [exact Hoc|]. split; [exact Hpc|]. split; [exact Hcc|]. split; [exact A3|]. split; [intros H; apply A4; [exact H|reflexivity]|]. split; [exact Hex|].
      right. split; [exists jm; split; [exact Hjm|lia]|]. exists e2. repeat (split; [first [exact E4|reflexivity|assumption]|]). exact B7.
  - cbn [bind] in E. apply Ok_inj' in E. injection E as <- <- <-.
    assert (Hall : forall j, (j < length chi)%nat -> (dim (site chi j) 0 <= Dmax)%nat) by (intros j Hj; specialize (Lb j Hj); lia).
    split; [exact Hoc|]. split; [exact Hpc|]. split; [lra|]. split; [intros _ j Hj; apply Hall; lia|].
    split; [intros _ H1 H0; apply Hex; [exact H1|lra]|].
    exists chi, e1. split; [exact Hoc|]. split; [exact Hpc|]. split; [exact Hcc|]. split; [exact A3|]. split; [intros H; apply A4; [exact H|reflexivity]|]. split; [exact Hex|].
    left. split; [exact Hall|]. split; [reflexivity|ring].
Qed.
End Obc.
