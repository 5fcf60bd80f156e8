(** * C54: evolve_itime() of infinite states returns *)
From Coq Require Import Reals Lra Bool List Arith ZArith Lia Ring.
From Verif Require ExpectedFacts SimplifyFacts Properties_Sparse.
From Verif Require Import Scalar ScalarFacts RScal Tensor TensorFacts Spec SparseSpec MpsModel MpsFacts CanonModel CanonSpec TruncFacts CanonFacts CanonSweep DecompModel SvdExist ToolsModel ITebdModel ITebdSpec ITebdSpec2 ITimeModel ITebdTotal Properties_ITebd Properties_ITebd6.
Import ListNotations.
Local Open Scope K_scope.

Section C54.
Context {RS : RScal}.
Add Ring Kring : k_ring.

Lemma delta_conj i j : kconj (delta i j) = delta j i.
Proof. unfold delta. rewrite (Nat.eqb_sym j i). destruct (Nat.eqb i j); [apply kconj_1|apply kconj_0]. Qed.
Lemma id_op_adj : forall is js, kconj (id_op js is) = id_op is js.
Proof.
  induction is as [|i is IH]; intros [|j js]; cbn [id_op]; try apply kconj_0; [apply kconj_1|]. rewrite kconj_mul, IH, delta_conj. reflexivity.
Qed.
Lemma pair_op_adj ds M : forall k is js, kconj (pair_op k ds M js is) = pair_op k ds (fun r c => kconj (M c r)) is js.
Proof.
  intros k. revert ds. induction k as [|k IH]; intros ds is js.
  - destruct ds as [|d ds], is as [|i [|i' is]], js as [|j [|j' js]]; cbn [pair_op]; try apply kconj_0. rewrite kconj_mul, id_op_adj. reflexivity.
  - destruct ds as [|d ds], is as [|i is], js as [|j js]; cbn [pair_op]; try apply kconj_0. rewrite kconj_mul, IH, delta_conj. reflexivity.
Qed.

(** A Hermitian operator has real mean values *)
Lemma melem_real ds f M : (forall is js, in_range ds is -> in_range ds js -> kconj (M js is) = M is js) -> kconj (melem ds f M f) = melem ds f M f.
Proof.
  intros HM. unfold melem. rewrite sumcfg_conj.
  transitivity (sumcfg ds (fun is => sumcfg ds (fun js => kconj (kconj (f is) * M is js * f js)))); [apply sumcfg_ext; intros is Hi; apply sumcfg_conj|].
  rewrite sumcfg_swap. apply sumcfg_ext. intros is Hi. apply sumcfg_ext. intros js Hj. rewrite !kconj_mul, kconj_inv, HM by assumption. ring.
Qed.

Variable svd : tensor -> tensor * list R * tensor.
Variable flag : R.
Variable eigs : (tensor -> tensor) -> nat -> tensor -> tensor.
Variable eig_sym : tensor -> list R * tensor.
Variable expm : tensor -> tensor.
Hypothesis Hsvd : svd_contract svd.
Hypothesis Hes : eig_sym_contract eig_sym.
Hypothesis Hei : eigs_sized eigs.

Lemma section_nonzero psi m : full psi -> (0 < m <= 2)%nat -> section_mean psi m id_op <> 0.
Proof.
  intros (Hw & _ & HnB & n & is & Hn & Hi & Hr) Hm. destruct (chain_part psi n m is Hw ltac:(lia) Hi Hr) as (a & b & js & Ha & Hb & Hj & Hne).
  set (D := length (ilB psi)) in *.
  assert (E : section_mean psi m id_op = rinj (rsum D (fun a => rsum D (fun b => weight (cell_dims psi m) (section psi m a b))))).
  { unfold section_mean. fold D. rewrite rinj_rsum. apply sum_ext. intros x Hx. rewrite rinj_rsum. apply sum_ext. intros y Hy. rewrite SimplifyFacts.rinj_weight.
    unfold melem, inner. apply sumcfg_ext. intros ks Hk.
    transitivity (sumcfg (cell_dims psi m) (fun ls => id_op ks ls * (kconj (section psi m x y ks) * section psi m x y ls))); [apply sumcfg_ext; intros; ring|].
    apply (ExpectedFacts.sumcfg_id_op _ ks (fun ls => kconj (section psi m x y ks) * section psi m x y ls)). exact Hk. }
  assert (HW : forall x y, (0 <= weight (cell_dims psi m) (section psi m x y))%R) by (intros; apply SimplifyFacts.weight_nonneg).
  rewrite E. intros E0. rewrite <- rinj_0 in E0. apply rinj_inj in E0.
  assert (Z1 : rsum D (fun b => weight (cell_dims psi m) (section psi m a b)) = 0%R).
  { apply (rsum_zero_inv D (fun a => rsum D (fun b => weight (cell_dims psi m) (section psi m a b)))); [intros; apply rsum_nonneg; intros; apply HW|exact E0|exact Ha]. }
  assert (Z2 : weight (cell_dims psi m) (section psi m a b) = 0%R).
  { apply (rsum_zero_inv D (fun b => weight (cell_dims psi m) (section psi m a b))); [intros; apply HW|exact Z1|exact Hb]. }
  pose proof (SimplifyFacts.weight_zero _ _ Z2 js Hj) as Z3. unfold section in Z3. apply Hne.
  assert (rinj (/ nth a (ilB psi) 0)%R * rinj (nth a (ilB psi) 0%R) = 1) as E2. { rewrite <- rinj_mul, Rinv_l, rinj_1 by (apply HnB; exact Ha). reflexivity. }
  transitivity (rinj (/ nth a (ilB psi) 0)%R * (rinj (nth a (ilB psi) 0%R) * chain (cells psi m) js a b)); [|rewrite Z3; ring].
  transitivity ((rinj (/ nth a (ilB psi) 0)%R * rinj (nth a (ilB psi) 0%R)) * chain (cells psi m) js a b); [rewrite E2; ring|ring].
Qed.

Definition hermitian_op (d : nat) (M : nat -> nat -> K) : Prop := forall i j, (i < d)%nat -> (j < d)%nat -> kconj (M j i) = M i j.

Lemma expected_real psi H12 site : full psi -> icanon psi = true ->
  is_matrix H12 (dim (iA psi) 1 * dim (iB psi) 1) (dim (iA psi) 1 * dim (iB psi) 1) -> hermitian_op (dim (iA psi) 1 * dim (iB psi) 1) (mat H12) ->
  dim (iA psi) 1 = dim (iB psi) 1 -> exists x, do_expected12 svd eigs eig_sym psi H12 site = Ok x /\ kconj x = x.
Proof.
  intros Hf Hc HH Hh Hd. pose proof (proj1 Hf) as Hw.
  destruct (C52_expected12_defined svd eigs eig_sym psi H12 site Hw Hc) as (x & Ex). { apply section_nonzero; [exact Hf|]. unfold par. destruct (Z.odd site); lia. }
  exists x. split; [exact Ex|].
  pose proof (C52_expected12 svd eigs eig_sym psi H12 site x 0 0 Hw Hc HH (or_introl eq_refl) (or_introl eq_refl) Ex) as [Hn Hx].
  set (N := (0 + (1 + par site) + 0)%nat) in *.
  assert (Hreal : forall M, (forall is js, in_range (cell_dims psi N) is -> in_range (cell_dims psi N) js -> kconj (M js is) = M is js) -> kconj (section_mean psi N M) = section_mean psi N M).
  { intros M HM. unfold section_mean. rewrite sum_conj. apply sum_ext. intros a Ha. rewrite sum_conj. apply sum_ext. intros b Hb. apply melem_real. exact HM. }
  assert (R1 : kconj (section_mean psi N id_op) = section_mean psi N id_op) by (apply Hreal; intros; apply id_op_adj).
  assert (R2 : kconj (section_mean psi N (pair_op (2 * 0 + par site) (cell_dims psi N) (mat H12))) = section_mean psi N (pair_op (2 * 0 + par site) (cell_dims psi N) (mat H12))).
  { apply Hreal. intros is js Hi Hj. rewrite pair_op_adj.
    assert (Hdims : forall k, (k < length (cell_dims psi N))%nat -> nth k (cell_dims psi N) 0%nat = dim (iA psi) 1).
    { unfold N, cell_dims, par. rewrite <- Hd. destruct (Z.odd site); cbn [repeat concat app Nat.add length]; intros k Hk; do 4 (destruct k as [|k]; [first [reflexivity|lia]|]); lia. }
    assert (Hlen : (S (2 * 0 + par site) < length (cell_dims psi N))%nat) by (unfold N, cell_dims, par; destruct (Z.odd site); cbn; lia).
    apply Properties_Sparse.pair_op_ext; [exact Hi|exact Hj|exact Hlen|].
    rewrite !Hdims by lia. intros i1 i2 j1 j2 H1 H2 H3 H4. apply Hh; rewrite <- Hd; nia. }
  set (S := section_mean psi N id_op) in *. set (T := section_mean psi N (pair_op (2 * 0 + par site) (cell_dims psi N) (mat H12))) in *.
  assert (E0 : (kconj x - x) * S = 0). { transitivity (kconj x * kconj S - x * S); [rewrite R1; ring|]. rewrite <- kconj_mul, Hx, R2. ring. }
  assert (E1 : kconj x - x = 0). { apply kmod2_zero. assert (Em : (kmod2 (kconj x - x)%K * kmod2 S = 0)%R) by (rewrite <- kmod2_mul, E0; apply kmod2_0).
    apply Rmult_integral in Em. destruct Em as [Em|Em]; [exact Em|]. exfalso. apply Hn, kmod2_zero. exact Em. }
  transitivity ((kconj x - x) + x); [ring|rewrite E1; ring].
Qed.

Variables (dt : R) (H12 : tensor) (tol : R) (Dmax : Z) (method d : nat).
Hypothesis Hdef : forall phi, full phi -> boundaries_definite eigs phi.
Hypothesis Ht : eff_tol flag tol = 0%R.
Hypothesis HD : (Dmax <= 0)%Z.
Hypothesis HH : is_matrix H12 (d * d) (d * d).
Hypothesis Hh : hermitian_op (d * d) (mat H12).
Hypothesis HU : forall c, is_matrix (expm (tscale (rinj (- dt * c)%R) H12)) (d * d) (d * d) /\ left_inverse (d * d) (mat (expm (tscale (rinj (- dt * c)%R) H12))).

(** both sites of the cell have dimension d *)
Definition cell_d (psi : itebd) : Prop := dim (iA psi) 1 = d /\ dim (iB psi) 1 = d.
Lemma cell_d_same psi phi : cell_d psi -> (forall n, cell_dims phi n = cell_dims psi n) -> cell_d phi.
Proof. intros [H1 H2] H. specialize (H 1%nat). unfold cell_dims in H. cbn [repeat concat app] in H. injection H as E1 E2. unfold cell_d. rewrite E1, E2. split; assumption. Qed.

Lemma layers_full l : forall psi, full psi -> cell_d psi -> exists psi', apply_layers svd flag eigs eig_sym expm dt H12 tol Dmax l psi = Ok psi' /\ full psi' /\ cell_d psi'.
Proof.
  induction l as [|[c site] l IH]; intros psi Hf Hc; cbn [apply_layers]; [exists psi; auto|].
  destruct (HU c) as [HU1 HU2]. pose proof Hc as [C1 C2].
  destruct (apply_full svd flag eigs eig_sym Hsvd Hes Hei Hdef psi (itime_gate expm dt H12 c) (Z.of_nat site) tol Dmax Hf) as (psi1 & E1 & F1 & D1); [congruence|rewrite C1, C2; exact HU1|rewrite C1, C2; exact HU2|exact Ht|exact HD|].
  rewrite E1. cbn [bind]. apply IH; [exact F1|]. apply (cell_d_same psi psi1 Hc D1).
Qed.
Lemma steps_full n : forall psi, full psi -> cell_d psi -> exists psi', itime_steps svd flag eigs eig_sym expm dt H12 tol Dmax method n psi = Ok psi' /\ full psi' /\ cell_d psi'.
Proof.
  induction n as [|n IH]; intros psi Hf Hc; cbn [itime_steps]; [exists psi; auto|].
  destruct (layers_full (itime_layers method) psi Hf Hc) as (psi1 & E1 & F1 & C1). rewrite E1. cbn [bind]. apply IH; assumption.
Qed.
Lemma measure_full psi Es Ss : full psi -> cell_d psi -> exists psi' Es' Ss', itime_measure svd eigs eig_sym H12 psi Es Ss = Ok (psi', Es', Ss') /\ full psi' /\ cell_d psi'.
Proof.
  intros Hf Hc. unfold itime_measure. destruct (canonical_full svd eigs eig_sym Hsvd Hes Hei psi Hf (Hdef psi Hf)) as (phi & E1 & F1 & Hcan & D1). rewrite E1. cbn [bind].
  pose proof (cell_d_same psi phi Hc D1) as C1. pose proof C1 as [C2 C3].
  assert (Hx : forall site, exists x, do_expected12 svd eigs eig_sym phi H12 site = Ok x /\ kconj x = x).
  { intros site. apply expected_real; try rewrite C2, C3; auto. }
  destruct (Hx 0%Z) as (x & Ex & Rx). destruct (Hx 1%Z) as (y & Ey & Ry).
  unfold energy_value, i_energy. rewrite Ex. cbn [bind]. rewrite Ey. cbn [bind].
  assert (Hz : (x + y - rinj (kre (x + y)))%K = 0). { rewrite kre_real by (rewrite kconj_add, Rx, Ry; reflexivity). ring. }
  rewrite Hz, kmod2_0, sqrt_0. destruct (Rltb 0 (1 / 10 ^ 10)) eqn:El; [|exfalso; apply Rltb_false in El; lra]. cbn [bind].
  unfold total_entropy, i_entropy. rewrite Hcan. cbn [bind]. eauto 10.
Qed.
Lemma phases_full m p : forall psi Es Ss, full psi -> cell_d psi ->
  exists r, itime_phases svd flag eigs eig_sym expm dt H12 tol Dmax method m p psi Es Ss = Ok r.
Proof.
  induction p as [|p IH]; intros psi Es Ss Hf Hc; cbn [itime_phases]; [eauto|].
  destruct (steps_full m psi Hf Hc) as (psi1 & E1 & F1 & C1). rewrite E1. cbn [bind].
  destruct (measure_full psi1 Es Ss F1 C1) as (psi2 & Es2 & Ss2 & E2 & F2 & C2). rewrite E2. cbn [bind]. apply IH; assumption.
Qed.

(** evolve_itime() without truncation returns, for a Hermitian H12 whose exponentials are invertible matrices: from any
    state without zero weights, if linalg::eigs gives definite matrices. *)
Theorem C54_returns psi nsteps deltan : full psi -> dim (iA psi) 1 = d -> dim (iB psi) 1 = d ->
  exists phi Es Ss, evolve_infinite svd flag eigs eig_sym expm psi H12 dt nsteps tol Dmax deltan method = Ok (phi, Es, Ss).
Proof.
  intros Hf C1 C2. unfold evolve_infinite. destruct (measure_full psi [] [] Hf (conj C1 C2)) as (psi1 & Es & Ss & E1 & F1 & D1). rewrite E1. cbn [bind]. cbv zeta.
  destruct (phases_full (if Nat.eqb deltan 0 then 1%nat else deltan) ((nsteps + (if Nat.eqb deltan 0 then 1%nat else deltan) - 1) / (if Nat.eqb deltan 0 then 1%nat else deltan)) psi1 Es Ss F1 D1) as ([[phi Es'] Ss'] & E).
  exists phi, Es', Ss'. exact E.
Qed.
End C54.
