(** * C63: canonical form of infinite states *)
From Coq Require Import Reals Lra Bool List Arith ZArith Lia Ring.
From Verif Require Import Scalar ScalarFacts RScal Tensor TensorFacts Spec SparseSpec MpsModel MpsFacts EnvFacts CanonModel CanonSpec CanonFacts CanonSweep SplitFacts SvdExist ITebdModel ITebdSpec ITebdFacts ITebdSlow ITebdSpec2 ITebdGauge ITebdCanon ITebdCanon2 ITebdEig Properties_ITebd.
Import ListNotations.
Local Open Scope K_scope.

Section C63.
Context {RS : RScal}.
Variable svd : tensor -> tensor * list R * tensor.
Variable eigs : (tensor -> tensor) -> nat -> tensor -> tensor.
Variable eig_sym : tensor -> list R * tensor.
Hypothesis Hsvd : svd_contract svd.
Hypothesis Hes : eig_sym_contract eig_sym.
Add Ring Kring : k_ring.

(** canonical_form: whatever eigs finds, the new state is the same state: the wave function of every ring of cells is
    the same.  The bond between the sites of a cell is not changed, the other one does not grow. *)
Theorem C63_canonical_ring psi psi' : wf_itebd psi -> eigs_sized eigs -> canonical_form svd eigs eig_sym psi = Ok psi' ->
  wf_itebd psi' /\ icanon psi' = true /\
  (forall n, cell_dims psi' n = cell_dims psi n) /\
  (forall n is, in_range (cell_dims psi n) is -> ring psi' n is = ring psi n is) /\
  ilA psi' = ilA psi /\ (length (ilB psi') <= length (ilB psi))%nat /\ (forall i, (0 <= nth i (ilB psi') 0)%R).
Proof.
  intros (D & E & dA & dB & HD & HE & HdA & HdB & HA & HAw & HB & HBw & HlA & HlB & HAl & HAlw & HBl & HBlw & HgA & HgB) Hs Hok.
  destruct (vr_sized psi D eigs HlB Hs) as [R1 R2]. destruct (vl_sized psi D eigs HlB Hs) as [L1 L2].
  destruct (canonical_gauge eig_sym Hes svd Hsvd eigs psi psi' D E dA dB) as (X & Xi & Y & Yi & l & W & Z & H & J & _ & _ & Hl & Hle & Hlen & HlA' & Hc & Hwf & Hpos & HA' & HB' & HAl' & HBl' & HG); auto.
  split; [exact Hwf|]. split; [exact Hc|].
  destruct Hwf as (D' & E' & dA' & dB' & _ & _ & _ & _ & _ & _ & _ & _ & _ & _ & _ & HAlw' & _ & HBlw' & _).
  split; [intros n; apply (cell_dims_same psi psi' D E dA dB l); assumption|].
  split; [intros n is; apply (gauge_ring psi psi' D E dA dB l W Z H J (mat X) (mat Y)); assumption|].
  split; [exact HlA'|]. split; [lia|exact Hpos].
Qed.

(** If moreover the state has a unique limit, the result is canonical: the states to the left and to the right of the
    bond between cells are orthonormal, up to a common factor. *)
Theorem C63_canonical_orthonormal psi psi' : wf_itebd psi -> eigs_largest eigs -> primitive psi -> canonical_form svd eigs eig_sym psi = Ok psi' ->
  left_ok psi' /\ right_ok psi'.
Proof.
  intros (D & E & dA & dB & HD & HE & HdA & HdB & HA & HAw & HB & HBw & HlA & HlB & HAl & HAlw & HBl & HBlw & HgA & HgB) Hs (eta & P & Q & Heta & HP & HQ & DP & DQ) Hok.
  rewrite HlB in HP, HQ, DP, DQ.
  destruct (vr_dominant psi D E dA dB eigs HD HE HdA HdB HA HB HlA HlB HAl HAlw HBl HBlw HgA HgB eta P Hs DP (proj1 HP)) as (R1 & R2 & c & Hc & R3).
  destruct (vl_dominant psi D E dA dB eigs HD HE HdA HdB HA HB HlA HlB HAl HgA eta Q Hs DQ (proj1 HQ)) as (L1 & L2 & d & Hd & L3).
  destruct (canonical_gauge eig_sym Hes svd Hsvd eigs psi psi' D E dA dB) as (X & Xi & Y & Yi & l & W & Z & H & J & EX & EY & Hl & Hle & Hlen & HlA' & Hcc & Hwf & Hpos & HA' & HB' & HAl' & HBl' & HG); auto.
  destruct Hwf as (D' & E' & dA' & dB' & _ & _ & _ & _ & _ & _ & _ & _ & _ & _ & _ & HAlw' & _ & HBlw' & _).
  destruct (ortho_basis_ok eig_sym Hes D _ X Xi HD R1 R2 EX) as (_ & _ & _ & _ & X5). destruct (ortho_basis_ok eig_sym Hes D _ Y Yi HD L1 L2 EY) as (_ & _ & _ & _ & Y5).
  specialize (X5 _ P R3 HP). specialize (Y5 _ (fun i j => Q j i) L3 (transpose_positive D Q HQ)).
  split; exists eta; (split; [exact Heta|]).
  - apply (gauge_left psi psi' D E dA dB l W Z H J (mat X) (mat Y)); auto. intros a a' Ha Ha'.
    assert (Eg : forall i j, (i < D)%nat -> (j < D)%nat -> gY D (mat Y) i j = rinj (Rabs (kre d)) * Q i j).
    { intros i j Hi Hj. rewrite <- (Y5 j i Hj Hi). unfold gY, mat. apply sum_ext. intros; ring. }
    rewrite (left_map_ext psi D HlB _ _ a a' Eg), left_map_scal, (Eg a a' Ha Ha'). destruct DQ as [[_ DQ] _]. rewrite DQ by assumption. ring.
  - apply (gauge_right psi psi' D E dA dB l W Z H J (mat X) (mat Y)); auto. intros a a' Ha Ha'.
    assert (Eg : forall i j, (i < D)%nat -> (j < D)%nat -> gX D (mat X) i j = rinj (Rabs (kre c)) * P i j).
    { intros i j Hi Hj. rewrite <- (X5 i j Hi Hj). reflexivity. }
    rewrite (right_map_ext psi D HlB _ _ a a' Eg), right_map_scal, (Eg a a' Ha Ha'). destruct DP as [[_ DP] _]. rewrite DP by assumption. ring.
Qed.

(** With real numbers canonical_form returns. *)
Theorem C63_canonical_defined_partial psi : (forall x : K, kconj x = x) ->
  wf_itebd psi -> eigs_largest eigs -> primitive psi -> exists psi', canonical_form svd eigs eig_sym psi = Ok psi'.
Proof.
  intros Hreal (D & E & dA & dB & HD & HE & HdA & HdB & HA & HAw & HB & HBw & HlA & HlB & HAl & HAlw & HBl & HBlw & HgA & HgB) Hs (eta & P & Q & Heta & HP & HQ & DP & DQ).
  rewrite HlB in HP, HQ, DP, DQ.
  destruct (vr_dominant psi D E dA dB eigs HD HE HdA HdB HA HB HlA HlB HAl HAlw HBl HBlw HgA HgB eta P Hs DP (proj1 HP)) as (R1 & R2 & c & Hc & R3).
  destruct (vl_dominant psi D E dA dB eigs HD HE HdA HdB HA HB HlA HlB HAl HgA eta Q Hs DQ (proj1 HQ)) as (L1 & L2 & d & Hd & L3).
  assert (Hre : forall x : K, x <> 0 -> kre x <> 0%R).
  { intros x Hx E0. apply Hx. rewrite <- (kre_real x (Hreal x)), E0. apply rinj_0. }
  apply (canonical_total eig_sym Hes svd Hsvd eigs psi D E dA dB); auto.
  - apply (ortho_basis_defined eig_sym Hes D _ (kre c) P); auto.
  - apply (ortho_basis_defined eig_sym Hes D _ (kre d) (fun i j => Q j i)); auto. apply transpose_positive. exact HQ.
Qed.

(** The expected values of C52 in a state that is not canonical: they are computed in an orthonormal form of the same
    state. *)
Definition same_state (psi psi' : itebd) : Prop :=
  (forall n, cell_dims psi' n = cell_dims psi n) /\ (forall n is, in_range (cell_dims psi n) is -> ring psi' n is = ring psi n is).

Lemma canonical_idem psi psi' : canonical_form svd eigs eig_sym psi = Ok psi' -> icanon psi = false -> icanon psi' = true ->
  ensure_canonical svd eigs eig_sym psi = ensure_canonical svd eigs eig_sym psi'.
Proof. intros H1 H2 H3. unfold ensure_canonical. rewrite H2, H3. exact H1. Qed.

Theorem C63_expected12 psi Op12 site x : wf_itebd psi -> icanon psi = false -> eigs_sized eigs -> eigs_largest eigs -> primitive psi ->
  is_matrix Op12 (site_dim psi 0 * site_dim psi 1) (site_dim psi 0 * site_dim psi 1) ->
  do_expected12 svd eigs eig_sym psi Op12 site = Ok x ->
  exists psi', same_state psi psi' /\ wf_itebd psi' /\ left_ok psi' /\ right_ok psi' /\
    forall m n, let N := (m + (1 + par site) + n)%nat in is_mean psi' N (pair_op (2 * m + par site) (cell_dims psi N) (mat Op12)) x.
Proof.
  intros Hwf Hc Hs Hl Hp Hop Hx.
  assert (Hpsi : exists psi', canonical_form svd eigs eig_sym psi = Ok psi').
  { unfold do_expected12, ensure_canonical in Hx. rewrite Hc in Hx. destruct (canonical_form svd eigs eig_sym psi) as [psi'|]; [eauto|discriminate]. }
  destruct Hpsi as (psi' & Hpsi'). destruct (C63_canonical_ring psi psi' Hwf Hs Hpsi') as (H1 & H2 & H3 & H4 & _).
  destruct (C63_canonical_orthonormal psi psi' Hwf Hl Hp Hpsi') as (H5 & H6).
  exists psi'. split; [split; assumption|]. split; [exact H1|]. split; [exact H5|]. split; [exact H6|].
  assert (Hd0 : site_dim psi' 0 = site_dim psi 0 /\ site_dim psi' 1 = site_dim psi 1).
  { specialize (H3 1%nat). unfold cell_dims in H3. cbn [repeat concat app] in H3. injection H3 as E1 E2. split; assumption. }
  destruct Hd0 as [Hd0 Hd1]. intros m n N. rewrite <- (H3 N). unfold N.
  assert (Hx' : do_expected12 svd eigs eig_sym psi' Op12 site = Ok x).
  { unfold do_expected12 in *. rewrite <- (canonical_idem psi psi' Hpsi' Hc H2). exact Hx. }
  apply (C52_expected12 svd eigs eig_sym psi' Op12 site x m n); auto. rewrite Hd0, Hd1. exact Hop.
Qed.

Theorem C63_string_order_many psi Opi Opm Opj N r k : wf_itebd psi -> icanon psi = false -> eigs_sized eigs -> eigs_largest eigs -> primitive psi ->
  (k < N)%nat ->
  (forall q, (0 <= q < Z.of_nat N)%Z -> op_fits Opm (site_dim psi q) /\ is_matrix Opj (site_dim psi q) (site_dim psi q)) ->
  is_matrix Opi (site_dim psi 0) (site_dim psi 0) ->
  do_string_order_many svd eigs eig_sym psi Opi Opm Opj N = Ok r ->
  length r = N /\ exists psi', same_state psi psi' /\ wf_itebd psi' /\ left_ok psi' /\ right_ok psi' /\
    forall m n, is_mean psi' (m + (k / 2 + 1) + n)
      (if Nat.eqb k 0 then site_op (2 * m) (fun a b => sum (site_dim psi 0) (fun c => mat Opi a c * mat Opj c b))
       else string_op (2 * m) (2 * m + k) (op_of Opi) (op_of Opm) (op_of Opj)) (nth k r 0).
Proof.
  intros Hwf Hc Hs Hl Hp Hk Hops Hi Hx.
  assert (Hpsi : exists psi', canonical_form svd eigs eig_sym psi = Ok psi').
  { unfold do_string_order_many, ensure_canonical in Hx. rewrite Hc in Hx. destruct (canonical_form svd eigs eig_sym psi) as [psi'|]; [eauto|discriminate]. }
  destruct Hpsi as (psi' & Hpsi'). destruct (C63_canonical_ring psi psi' Hwf Hs Hpsi') as (H1 & H2 & H3 & H4 & _).
  destruct (C63_canonical_orthonormal psi psi' Hwf Hl Hp Hpsi') as (H5 & H6).
  assert (Hd : forall q, site_dim psi' q = site_dim psi q).
  { specialize (H3 1%nat). unfold cell_dims in H3. cbn [repeat concat app] in H3. injection H3 as E1 E2. intros q. unfold site_dim, i_matrix. destruct (Z.odd q); assumption. }
  assert (Hx' : do_string_order_many svd eigs eig_sym psi' Opi Opm Opj N = Ok r).
  { unfold do_string_order_many in *. rewrite <- (canonical_idem psi psi' Hpsi' Hc H2). exact Hx. }
  assert (Hall : forall m n, length r = N /\ is_mean psi' (m + (k / 2 + 1) + n)
      (if Nat.eqb k 0 then site_op (2 * m) (fun a b => sum (site_dim psi 0) (fun c => mat Opi a c * mat Opj c b))
       else string_op (2 * m) (2 * m + k) (op_of Opi) (op_of Opm) (op_of Opj)) (nth k r 0)).
  { intros m n. rewrite <- (Hd 0%Z). apply (C52_string_order_many svd eigs eig_sym psi' Opi Opm Opj N r k m n); auto.
    - intros q Hq. rewrite Hd. apply Hops. exact Hq.
    - rewrite Hd. exact Hi. }
  split; [apply (Hall 0%nat 0%nat)|]. exists psi'. split; [split; assumption|]. split; [exact H1|]. split; [exact H5|]. split; [exact H6|].
  intros m n. apply Hall.
Qed.

End C63.
