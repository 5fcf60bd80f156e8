(** * C72: infinite states built from the tensor of a whole cell *)
From Coq Require Import Reals Lra Bool List Arith ZArith Lia Ring.
From Verif Require QFormFacts SparseFacts.
From Verif Require Import Scalar ScalarFacts RScal Tensor TensorFacts Spec MpsModel MpsFacts EnvFacts CanonModel CanonSpec TruncFacts CanonFacts CanonSweep CanonNorm SplitFacts DecompModel DecompFacts Properties_Decomp LFormFacts LFormValue SvdExist EckartYoung ITebdModel ITebdSpec ITebdFacts ITebdSlow ITebdSpec2 ITebdGauge ITebdCanon ITebdCanon2 ITebdEig ITebdApply ITebdApply2 ITebdTotal ITebdNewModel ITebdNewSpec ITebdNew ITebdNew2 ITebdNew3.
Import ListNotations.
Local Open Scope K_scope.

Section C72.
Context {RS : RScal}.
Variable svd : tensor -> tensor * list R * tensor.
Variable flag : R.
Variable eigs : (tensor -> tensor) -> nat -> tensor -> tensor.
Variable eig_sym : tensor -> list R * tensor.
Hypothesis Hsvd : svd_contract svd.
Hypothesis Hes : eig_sym_contract eig_sym.
Add Ring Kring : k_ring.

(** The state that is returned: the bond between cells is at most the one given, both bonds respect max_dim, all
    weights of the bond between cells are positive, those of the bond inside the cell are not negative, and both are
    normalised.  The state is not marked as canonical. *)
Theorem C72_form AB l dA dB tol Dmax psi : is_cell AB l dA dB -> eigs_sized eigs -> new_cell svd flag eigs eig_sym AB l tol Dmax = Ok psi ->
  wf_itebd psi /\ (forall n, cell_dims psi n = concat (repeat [dA; dB] n)) /\ icanon psi = false /\
  (length (ilB psi) <= length l)%nat /\ (length (ilA psi) <= length (ilB psi) * dA)%nat /\
  ((0 < Dmax)%Z -> (Z.of_nat (length (ilA psi)) <= Dmax)%Z /\ (Z.of_nat (length (ilB psi)) <= Dmax)%Z) /\
  (forall k, (k < length (ilB psi))%nat -> (0 < nth k (ilB psi) 0)%R) /\ (forall k, (k < length (ilA psi))%nat -> (0 <= nth k (ilA psi) 0)%R) /\
  tail_weight (ilA psi) 0 = 1%R /\ tail_weight (ilB psi) 0 = 1%R.
Proof.
  intros (HD & HdA & HdB & HAB & HABw) He Hok.
  destruct (new_cell_ok svd flag eigs eig_sym Hsvd Hes AB l (length l) dA dB HD HdA HdB HAB eq_refl tol Dmax psi He Hok)
    as (X & Xi & Y & Yi & W & J & H & Z & c & s & N1 & N2 & EX & EY & EdAB & Hc0 & HcD & HcM & Hls & HN1 & HN2 & Hsp & Hst & _ & ElB & (E & HE0 & HEm & HEM & DA & WA & DB & WB & LA & Hpos) & HtA & Hcan & Hw & _).
  split; [exact Hw|]. split. { intros n. unfold cell_dims, dim. rewrite DA, DB. reflexivity. }
  split; [exact Hcan|]. rewrite ElB, LA, Hls. split; [exact HcD|]. split; [exact HEm|]. split; [intros HM; split; auto|]. auto.
Qed.

(** Without truncation the state is the given one, up to a factor: the wave functions of all rings of cells. *)
Theorem C72_ring AB l dA dB tol Dmax psi : is_cell AB l dA dB -> eigs_sized eigs -> exact flag tol Dmax -> new_cell svd flag eigs eig_sym AB l tol Dmax = Ok psi ->
  exists N, (0 < N)%R /\ forall n is, (0 < n)%nat -> in_range (concat (repeat [dA; dB] n)) is ->
    cell_ring AB l n is = rinj (N ^ n)%R * ring psi n is.
Proof.
  intros (HD & HdA & HdB & HAB & HABw) He Hex Hok.
  destruct (new_cell_ok svd flag eigs eig_sym Hsvd Hes AB l (length l) dA dB HD HdA HdB HAB eq_refl tol Dmax psi He Hok)
    as (X & Xi & Y & Yi & W & J & H & Z & c & s & N1 & N2 & EX & EY & EdAB & Hc0 & HcD & HcM & Hls & HN1 & HN2 & Hsp & Hst & _ & ElB & (E & HE0 & HEm & HEM & DA & WA & DB & WB & LA & Hpos) & HtA & Hcan & Hw & Hx).
  destruct (Hx Hex) as [HG Hcell]. clear Hx.
  exists (N1 * N2)%R. split; [apply Rmult_lt_0_compat; assumption|]. intros n is Hn Hi.
  set (D := length l) in *. set (P := plain AB l D dA dB) in *. set (T := turned AB D dA dB c W J (map (Rmult N1) s)) in *.
  assert (HiP : in_range (cell_dims P n) is) by exact Hi.
  assert (HE : (0 < dB * D)%nat) by nia.
  rewrite <- (plain_ring AB l D dA dB HD HdA HdB HAB HABw eq_refl n is Hn HiP). fold P.
  transitivity (ring T n is).
  { symmetry. apply (gauge_ring P T D (dB * D) dA dB c W Z H J (mat X) (mat Y)); try assumption; try reflexivity; try (apply wf_mk); try (apply (cA_wf AB l D dA dB); auto).
    intros b i a Hb Hi' Ha. apply get_scale. apply in_range_3; assumption. }
  rewrite (ring_cells T c (dB * D) dA dB) by (first [assumption|reflexivity|apply wf_mk]).
  destruct Hw as (D' & E' & dA' & dB' & _ & _ & _ & _ & HA' & _ & HB' & _ & _ & _ & DAl & WAl & DBl & WBl & _ & HgB).
  assert (HD' : D' = c /\ dA' = dA /\ E' = E /\ dB' = dB).
  { rewrite DA in HA'. rewrite DB in HB'. split; [exact (f_equal (fun l => nth 0 l 0%nat) (eq_sym HA'))|]. split; [exact (f_equal (fun l => nth 1 l 0%nat) (eq_sym HA'))|]. split; [exact (f_equal (fun l => nth 2 l 0%nat) (eq_sym HA'))|exact (f_equal (fun l => nth 1 l 0%nat) (eq_sym HB'))]. }
  destruct HD' as (-> & -> & -> & ->).
  assert (HiQ : in_range (cell_dims psi n) is). { unfold cell_dims, dim. rewrite DA, DB. exact Hi. }
  rewrite (ring_cells psi c E dA dB) by (first [assumption|reflexivity]).
  rewrite sum_mul_l. apply sum_ext. intros a Ha.
  assert (Ep : rinj ((N1 * N2) ^ n)%R = kpow (rinj N1 * rinj N2) n).
  { clear. induction n as [|n IH]; [exact rinj_1|]. cbn [pow kpow]. rewrite rinj_mul, IH, rinj_mul. reflexivity. }
  rewrite Ep, <- cells_of_scale. apply (cells_of_ext_in c _ _ dA dB); [|exact Hi|exact Ha|exact Ha].
  intros i j x y Hi' Hj Hx Hy. specialize (Hcell i j x y Hi' Hj Hx Hy).
  rewrite (chain2 (iAlA T) (iBlB T) i j x y (dB * D) c) by (first [reflexivity|exact Hy]).
  transitivity (chain [iAlA T; iB T] [i; j] x y * rinj (nth y (map (Rmult N1) s) 0%R)).
  { rewrite (chain2 (iAlA T) (iB T) i j x y (dB * D) c) by (first [reflexivity|exact Hy]). rewrite sum_mul_r. apply sum_ext. intros e He'.
    cbn [iBlB iB iAlA T turned]. unfold T. cbn [iBlB iB iAlA turned]. rewrite get_scale by (apply in_range_3; assumption). cbn [nth]. ring. }
  assert (EL : rinj (nth y (map (Rmult N1) s) 0%R) = rinj N1 * rinj (nth y s 0%R)) by (rewrite nth_map_R by lia; apply rinj_mul).
  change (chain [iAlA T; iB T] [i; j] x y) with (chain [iAlA (turned AB D dA dB c W J s); iB (turned AB D dA dB c W J s)] [i; j] x y). rewrite Hcell, EL.
  transitivity (rinj N1 * rinj N2 * (chain [iAlA psi; iB psi] [i; j] x y * rinj (nth y s 0%R))); [ring|]. f_equal.
  rewrite (chain2 (iAlA psi) (iB psi) i j x y E c), (chain2 (iAlA psi) (iBlB psi) i j x y E c); try (unfold dim; rewrite ?DAl, ?DB, ?DBl; reflexivity); try exact Hy.
  rewrite sum_mul_r. apply sum_ext. intros e He'. rewrite HgB, ElB by assumption. ring.
Qed.

(** If moreover the given state has a unique limit far from the ends, the result is in canonical form, even though it is
    not marked so: the states to the left and to the right of the bond between cells are orthonormal. *)
Theorem C72_canonical AB l dA dB tol Dmax psi : is_cell AB l dA dB -> eigs_sized eigs -> eigs_largest eigs -> cell_primitive AB l dA dB -> exact flag tol Dmax ->
  new_cell svd flag eigs eig_sym AB l tol Dmax = Ok psi -> left_ok psi /\ right_ok psi.
Proof.
  intros (HD & HdA & HdB & HAB & HABw) He Hel (eta & P & Q & Heta & HP & HQ & DP & DQ) Hex Hok.
  destruct (new_cell_ok svd flag eigs eig_sym Hsvd Hes AB l (length l) dA dB HD HdA HdB HAB eq_refl tol Dmax psi He Hok)
    as (X & Xi & Y & Yi & W & J & H & Z & c & s & N1 & N2 & EX & EY & EdAB & Hc0 & HcD & HcM & Hls & HN1 & HN2 & Hsp & Hst & _ & ElB & (E & HE0 & HEm & HEM & DA & WA & DB & WB & LA & Hpos) & HtA & Hcan & Hw & Hx).
  destruct (Hx Hex) as [HG Hcell]. clear Hx.
  set (D := length l) in *. set (PL := plain AB l D dA dB) in *. set (T := turned AB D dA dB c W J (map (Rmult N1) s)) in *.
  destruct (vright_dominant AB l D dA dB eigs HD HdA HdB HAB eq_refl eta P Hel DP (proj1 HP)) as (R1 & R2 & zc & Hzc & R3).
  destruct (vleft_dominant AB l D dA dB eigs HD HdA HdB HAB eq_refl eta Q Hel DQ (proj1 HQ)) as (L1 & L2 & zd & Hzd & L3).
  destruct (ortho_basis_ok eig_sym Hes D _ X Xi HD R1 R2 EX) as (_ & _ & _ & _ & X5). destruct (ortho_basis_ok eig_sym Hes D _ Y Yi HD L1 L2 EY) as (_ & _ & _ & _ & Y5).
  specialize (X5 _ P R3 HP). specialize (Y5 _ (fun i j => Q j i) L3 (transpose_positive D Q HQ)).
  assert (HN : (0 < N1 * N2)%R) by (apply Rmult_lt_0_compat; assumption).
  assert (Hpos' : (0 < eta / ((N1 * N2) * (N1 * N2)))%R) by (apply Rdiv_lt_0_compat; [exact Heta|apply Rmult_lt_0_compat; exact HN]).
  assert (HlT : length (ilB T) = c) by (cbn [ilB turned T]; unfold T; cbn [ilB turned]; rewrite map_length; exact Hls).
  destruct Hw as (D' & E' & dA' & dB' & _ & _ & _ & _ & HA' & _ & HB' & _ & _ & _ & DAl & WAl & DBl & WBl & _ & HgB).
  assert (HD' : D' = c /\ dA' = dA /\ E' = E /\ dB' = dB).
  { rewrite DA in HA'. rewrite DB in HB'. split; [exact (f_equal (fun l => nth 0 l 0%nat) (eq_sym HA'))|]. split; [exact (f_equal (fun l => nth 1 l 0%nat) (eq_sym HA'))|]. split; [exact (f_equal (fun l => nth 2 l 0%nat) (eq_sym HA'))|exact (f_equal (fun l => nth 1 l 0%nat) (eq_sym HB'))]. }
  destruct HD' as (-> & -> & -> & ->).
  set (z := rinj (N1 * N2)%R). set (z' := rinj (/ (N1 * N2))%R).
  assert (Hzz : z * z' = 1) by (unfold z, z'; rewrite <- rinj_mul, Rinv_r by lra; apply rinj_1).
  assert (Hzc' : kconj z' = z') by apply rinj_conj.
  assert (Hz' : forall x y : K, x = z * y -> y = z' * x). { intros x y ->. transitivity ((z * z') * y); [rewrite Hzz; ring|ring]. }
  assert (EL : forall y, (y < c)%nat -> rinj (nth y (map (Rmult N1) s) 0%R) = rinj N1 * rinj (nth y s 0%R)) by (intros y Hy; rewrite nth_map_R by lia; apply rinj_mul).
  (* cells *)
  assert (C1 : forall i j x y, (i < dA)%nat -> (j < dB)%nat -> (x < c)%nat -> (y < c)%nat ->
    rinj (nth x (ilB psi) 0%R) * chain [iAlA psi; iB psi] [i; j] x y = z' * (rinj (nth x (ilB T) 0%R) * chain [iAlA T; iB T] [i; j] x y)).
  { intros i j x y Hi Hj Hx Hy. apply Hz'. change (ilB T) with (map (Rmult N1) s). rewrite EL by exact Hx.
    change (chain [iAlA T; iB T] [i; j] x y) with (chain [iAlA (turned AB D dA dB c W J s); iB (turned AB D dA dB c W J s)] [i; j] x y). rewrite (Hcell i j x y Hi Hj Hx Hy), ElB. unfold z. rewrite rinj_mul. ring. }
  assert (C2 : forall i j x y, (i < dA)%nat -> (j < dB)%nat -> (x < c)%nat -> (y < c)%nat ->
    chain (cells psi 1) [i; j] x y = z' * chain (cells T 1) [i; j] x y).
  { intros i j x y Hi Hj Hx Hy. apply Hz'. change (cells psi 1) with [iAlA psi; iBlB psi]. change (cells T 1) with [iAlA T; iBlB T].
    transitivity (chain [iAlA T; iB T] [i; j] x y * rinj (nth y (map (Rmult N1) s) 0%R)).
    { rewrite (chain2 (iAlA T) (iBlB T) i j x y (dB * D) c), (chain2 (iAlA T) (iB T) i j x y (dB * D) c) by (first [reflexivity|exact Hy]). rewrite sum_mul_r. apply sum_ext. intros e He'.
      unfold T. cbn [iBlB iB iAlA turned]. rewrite get_scale by (apply in_range_3; assumption). cbn [nth]. ring. }
    rewrite EL by exact Hy.
    change (chain [iAlA T; iB T] [i; j] x y) with (chain [iAlA (turned AB D dA dB c W J s); iB (turned AB D dA dB c W J s)] [i; j] x y). rewrite (Hcell i j x y Hi Hj Hx Hy).
    transitivity (rinj N1 * rinj N2 * (chain [iAlA psi; iB psi] [i; j] x y * rinj (nth y s 0%R))); [ring|]. unfold z. rewrite rinj_mul. f_equal.
    rewrite (chain2 (iAlA psi) (iB psi) i j x y E c), (chain2 (iAlA psi) (iBlB psi) i j x y E c); try (unfold dim; rewrite ?DAl, ?DB, ?DBl; reflexivity); try exact Hy.
    rewrite sum_mul_r. apply sum_ext. intros e He'. rewrite HgB, ElB by assumption. ring. }
  assert (Hcd : cell_dims psi 1 = [dA; dB]) by (unfold cell_dims, dim; rewrite DA, DB; reflexivity).
  assert (HcdT : cell_dims T 1 = [dA; dB]) by reflexivity.
  assert (Hfin : forall (x : K), z' * z' * (rinj eta * x) = rinj (eta / ((N1 * N2) * (N1 * N2)))%R * x).
  { intros x. unfold z'. rewrite <- rinj_mul. transitivity (rinj (/ (N1 * N2) * / (N1 * N2))%R * rinj eta * x); [ring|]. rewrite <- rinj_mul. do 2 f_equal. field. lra. }
  split; exists (eta / ((N1 * N2) * (N1 * N2)))%R; (split; [exact Hpos'|]).
  - assert (GL : left_orthonormal T eta).
    { apply (gauge_left PL T D (dB * D) dA dB c W Z H J (mat X) (mat Y)); auto. intros a a' Ha Ha'.
      assert (Eg : forall i j, (i < D)%nat -> (j < D)%nat -> gY D (mat Y) i j = rinj (Rabs (kre zd)) * Q i j).
      { intros i j Hi Hj. rewrite <- (Y5 j i Hj Hi). unfold gY, mat. apply sum_ext. intros; ring. }
      rewrite (left_map_ext PL D eq_refl _ _ a a' Eg), left_map_scal, (Eg a a' Ha Ha'). unfold PL. rewrite (plain_left AB l D dA dB) by auto. destruct DQ as [[_ DQ] _]. rewrite DQ by assumption. ring. }
    intros b b' Hb Hb'. rewrite ElB, Hls in Hb, Hb'. specialize (GL b b' ltac:(lia) ltac:(lia)). rewrite HlT, HcdT in GL. rewrite <- Hfin, <- GL. rewrite ElB at 1. rewrite Hls, Hcd.
    rewrite sum_mul_l. apply sum_ext. intros a Ha. rewrite sumcfg_mul_l. apply sumcfg_ext. intros is Hi. destruct (cell_in dA dB is Hi) as (i & j & -> & Hi1 & Hj1).
    rewrite !C1 by assumption. rewrite !kconj_mul, Hzc', rinj_conj. ring.
  - assert (GR : right_orthonormal T eta).
    { apply (gauge_right PL T D (dB * D) dA dB c W Z H J (mat X) (mat Y)); auto.
      { intros b i a Hb Hi' Ha. apply get_scale. apply in_range_3; assumption. }
      intros a a' Ha Ha'.
      assert (Eg : forall i j, (i < D)%nat -> (j < D)%nat -> gX D (mat X) i j = rinj (Rabs (kre zc)) * P i j).
      { intros i j Hi Hj. rewrite <- (X5 i j Hi Hj). reflexivity. }
      rewrite (right_map_ext PL D eq_refl _ _ a a' Eg), right_map_scal, (Eg a a' Ha Ha'). unfold PL. rewrite (plain_right AB l D dA dB) by auto. destruct DP as [[_ DP] _]. rewrite DP by assumption. ring. }
    intros b b' Hb Hb'. rewrite ElB, Hls in Hb, Hb'. specialize (GR b b' ltac:(lia) ltac:(lia)). rewrite HlT, HcdT in GR. rewrite <- Hfin, <- GR. rewrite ElB. rewrite Hls, Hcd.
    rewrite sum_mul_l. apply sum_ext. intros a Ha. rewrite sumcfg_mul_l. apply sumcfg_ext. intros is Hi. destruct (cell_in dA dB is Hi) as (i & j & -> & Hi1 & Hj1).
    rewrite !C2 by assumption. rewrite !kconj_mul, Hzc'. ring.
Qed.

(** The two sites must have the same dimension: the source reshapes the second tensor with the dimension of the first *)
Theorem C72_different_refuted AB l dA dB tol Dmax : is_cell AB l dA dB -> eigs_sized eigs -> dA <> dB -> new_cell svd flag eigs eig_sym AB l tol Dmax = Abort.
Proof.
  intros (HD & HdA & HdB & HAB & HABw) He Hne. destruct (new_cell svd flag eigs eig_sym AB l tol Dmax) as [psi|] eqn:Hok; [exfalso|reflexivity].
  destruct (new_cell_ok svd flag eigs eig_sym Hsvd Hes AB l (length l) dA dB HD HdA HdB HAB eq_refl tol Dmax psi He Hok)
    as (X & Xi & Y & Yi & W & J & H & Z & c & s & N1 & N2 & EX & EY & EdAB & _). contradiction.
Qed.
End C72.
