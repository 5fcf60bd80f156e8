(** * Exponentials of diagonal operators: the series of exp(i y) and of i y times a diagonal operator *)
From Coq Require Import Reals Lra List Arith ZArith Lia Ring.
From Verif Require Import Scalar ScalarFacts RScal RealInst Tensor TensorFacts Spec ExpectedFacts MpoSpec MpoFacts TrotterSpec TrotterExp OpSpec OpAlgebra OpExp.
Import ListNotations.

Notation CS := (@rs_scalar CC).
Lemma kpow_even y n : @kpow CS (mkC 0 y) (2 * n) = mkC ((-1) ^ n * (y * y) ^ n) 0.
Proof.
  induction n as [|n IH]; [apply C_ext; cbn; ring|]. replace (2 * S n)%nat with (S (S (2 * n))) by lia. cbn [kpow]. rewrite IH. apply C_ext; cbn; ring.
Qed.
Lemma kpow_odd y n : @kpow CS (mkC 0 y) (S (2 * n)) = mkC 0 ((-1) ^ n * (y * y) ^ n * y).
Proof. cbn [kpow]. rewrite kpow_even. apply C_ext; cbn; ring. Qed.

Definition eterm (y : R) (k : nat) : Cx := Cmul (mkC (/ INR (fact k)) 0) (@kpow CS (mkC 0 y) k).
Definition csum_cos (y : R) (n : nat) : R := sum_f_R0 (fun i => cos_n i * (y * y) ^ i)%R n.
Definition csum_sin (y : R) (n : nat) : R := (sum_f_R0 (fun i => sin_n i * (y * y) ^ i)%R n * y)%R.
Lemma csum_S n (f : nat -> Cx) : csum (S n) f = Cadd (csum n f) (f n).
Proof. reflexivity. Qed.
Lemma eterm_even y n : eterm y (2 * n) = mkC (cos_n n * (y * y) ^ n) 0.
Proof. unfold eterm. rewrite kpow_even. unfold cos_n. apply C_ext; cbn -[fact Nat.mul INR]; unfold Rdiv; ring. Qed.
Lemma eterm_odd y n : eterm y (S (2 * n)) = mkC 0 (sin_n n * (y * y) ^ n * y).
Proof. unfold eterm. rewrite kpow_odd. unfold sin_n. replace (2 * n + 1)%nat with (S (2 * n)) by lia. apply C_ext; cbn -[fact Nat.mul INR]; unfold Rdiv; ring. Qed.
Lemma epartial y n : csum (S (S (2 * n))) (eterm y) = mkC (csum_cos y n) (csum_sin y n).
Proof.
  induction n as [|n IH].
  - change (2 * 0)%nat with 0%nat. rewrite !csum_S. pose proof (eterm_even y 0) as E. pose proof (eterm_odd y 0) as O. change (2 * 0)%nat with 0%nat in *. rewrite E, O.
    unfold csum_cos, csum_sin. cbn [sum_f_R0]. apply C_ext; cbn; ring.
  - replace (2 * S n)%nat with (S (S (2 * n))) by lia. rewrite csum_S, (csum_S (S (S (2 * n)))), IH.
    replace (S (S (2 * n))) with (2 * S n)%nat by lia. rewrite eterm_even, eterm_odd.
    unfold csum_cos, csum_sin. cbn [sum_f_R0]. apply C_ext; cbn -[sum_f_R0 pow cos_n sin_n]; ring.
Qed.
Lemma epartial' y n : csum (S (2 * S n)) (eterm y) = mkC (csum_cos y (S n)) (csum_sin y n).
Proof.
  replace (2 * S n)%nat with (S (S (2 * n))) by lia. rewrite csum_S, epartial. replace (S (S (2 * n))) with (2 * S n)%nat by lia. rewrite eterm_even.
  unfold csum_cos. cbn [sum_f_R0]. apply C_ext; cbn -[sum_f_R0 pow cos_n sin_n]; ring.
Qed.
Lemma parts_cv y : Un_cv (csum_cos y) (cos y) /\ Un_cv (csum_sin y) (sin y).
Proof.
  split.
  - unfold cos. destruct (exist_cos (Rsqr y)) as (a & Ha). exact Ha.
  - unfold sin. destruct (exist_sin (Rsqr y)) as (a & Ha). change (Un_cv (fun n => sum_f_R0 (fun i => sin_n i * (y * y) ^ i)%R n * y)%R (y * a)%R).
    replace (y * a)%R with (a * y)%R by ring. apply (CV_mult (fun n => sum_f_R0 (fun i => sin_n i * (y * y) ^ i)%R n) (fun _ => y) a y); [exact Ha|apply Un_cv_const].
Qed.
(** exp(i y) = cos y + i sin y *)
Lemma Ccv_phase y : Ccv (fun N => csum (S N) (eterm y)) (mkC (cos y) (sin y)).
Proof.
  destruct (parts_cv y) as (Hc & Hs). split; cbn [Cre Cim].
  - intros e He. destruct (Hc e He) as (N & HN). exists (2 * S (S N))%nat. intros k Hk. destruct (Nat.Even_or_Odd k) as [(n & ->)|(n & ->)].
    + destruct n as [|n]; [lia|]. rewrite epartial'. cbn [Cre]. apply HN. lia.
    + replace (2 * n + 1)%nat with (S (2 * n)) by lia. rewrite epartial. cbn [Cre]. apply HN. lia.
  - intros e He. destruct (Hs e He) as (N & HN). exists (2 * S (S N))%nat. intros k Hk. destruct (Nat.Even_or_Odd k) as [(n & ->)|(n & ->)].
    + destruct n as [|n]; [lia|]. rewrite epartial'. cbn [Cim]. apply HN. lia.
    + replace (2 * n + 1)%nat with (S (2 * n)) by lia. rewrite epartial. cbn [Cim]. apply HN. lia.
Qed.

(** A diagonal operator i g: its powers and its exponential *)
Definition phase_op (g : list nat -> R) (is js : list nat) : Cx := Cmul (mkC 0 (g is)) (@id_op CS is js).
Lemma phase_pow ds g k is js : in_range ds is -> in_range ds js ->
  @op_pow CS ds (phase_op g) k is js = Cmul (@kpow CS (mkC 0 (g is)) k) (@id_op CS is js).
Proof.
  intros Hi Hj. revert is Hi. induction k as [|k IH]; intros is Hi; [apply C_ext; cbn; ring|]. cbn [op_pow kpow]. unfold op_mul.
  transitivity (Cmul (mkC 0 (g is)) (@op_mul CS ds (@id_op CS) (@op_pow CS ds (phase_op g) k) is js)).
  - unfold op_mul. change Cmul with (@kmul CS). rewrite (@sumcfg_mul_l CS). apply (@sumcfg_ext CS). intros ks Hks. unfold phase_op. apply C_ext; cbn; ring.
  - rewrite (@op_mul_id_l CS ds _ is js Hi Hj). rewrite (IH is Hi). apply C_ext; cbn; ring.
Qed.
Theorem phase_exp ds g E : is_op_exp ds (phase_op g) E -> forall is js, in_range ds is -> in_range ds js ->
  E is js = Cmul (mkC (cos (g is)) (sin (g is))) (@id_op CS is js).
Proof.
  intros H is js Hi Hj. eapply Ccv_unique; [exact (H is js Hi Hj)|].
  refine (Ccv_ext _ _ _ _ (Ccv_mul _ _ _ _ (Ccv_phase (g is)) (Ccv_const (@id_op CS is js)))).
  intros N. unfold op_exp_sum. change Cmul with (@kmul CS). change csum with (@sum CS). rewrite (@sum_mul_r CS). apply (@sum_ext CS). intros k Hk.
  rewrite (phase_pow ds g k is js Hi Hj). unfold eterm. apply C_ext; cbn; ring.
Qed.
