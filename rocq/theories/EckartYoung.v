(** The truncated singular value decomposition is the best approximation of bounded rank *)
From Coq Require Import Reals Lra Bool List Arith ZArith Lia Ring.
From Verif Require Import Scalar ScalarFacts RScal Tensor TensorFacts Spec CanonSpec CanonModel TruncFacts SplitFacts.
Import ListNotations.
Local Open Scope K_scope.

Section EY.
Context {RS : RScal}.
Add Ring Kring : k_ring.

(** Sum of the squared moduli of the elements of an m x n matrix *)
Definition mweight (m n : nat) (f : nat -> nat -> K) : R := rsum m (fun i => rsum n (fun j => kmod2 (f i j))).
Definition vweight (m : nat) (f : nat -> K) : R := rsum m (fun i => kmod2 (f i)).

Lemma rinj_vweight m f : rinj (vweight m f) = sum m (fun i => kconj (f i) * f i).
Proof. unfold vweight. rewrite rinj_rsum. apply sum_ext. intros i _. apply kmod2_spec. Qed.

Lemma rinj_mweight m n f : rinj (mweight m n f) = sum m (fun i => sum n (fun j => kconj (f i j) * f i j)).
Proof.
  unfold mweight. rewrite rinj_rsum. apply sum_ext. intros i _. rewrite rinj_rsum. apply sum_ext. intros j _. apply kmod2_spec.
Qed.

Lemma vweight_nonneg m f : (0 <= vweight m f)%R.
Proof. apply rsum_nonneg. intros. apply kmod2_nonneg. Qed.
Lemma mweight_nonneg m n f : (0 <= mweight m n f)%R.
Proof. apply rsum_nonneg. intros. apply rsum_nonneg. intros. apply kmod2_nonneg. Qed.

Lemma rsum_swap m n (f : nat -> nat -> R) : rsum m (fun i => rsum n (f i)) = rsum n (fun j => rsum m (fun i => f i j)).
Proof.
  induction m as [|m IH]; cbn; [symmetry; apply rsum_zero; reflexivity|].
  rewrite IH, <- rsum_add. reflexivity.
Qed.

Definition orthonormal (m l : nat) (E : nat -> nat -> K) : Prop :=
  forall x y, (x < l)%nat -> (y < l)%nat -> sum m (fun i => kconj (E i x) * E i y) = delta x y.

(** coefficients of a vector *)
Definition coef (m : nat) (E : nat -> nat -> K) (a : nat -> K) (x : nat) : K := sum m (fun i => kconj (E i x) * a i).

Lemma projection m l E a z : orthonormal m l E ->
  vweight m (fun i => a i - sum l (fun x => E i x * z x)) =
  (vweight m a - vweight l (coef m E a) + vweight l (fun x => (z x - coef m E a x)%K))%R.
Proof.
  intros HE. apply rinj_inj. rewrite rinj_add, rinj_sub, !rinj_vweight.
  set (c := coef m E a).
  assert (H2 : sum m (fun i => kconj (a i) * sum l (fun x => E i x * z x)) = sum l (fun x => kconj (c x) * z x)).
  { rewrite (sum_ext m _ (fun i => sum l (fun x => kconj (a i) * E i x * z x)))
      by (intros; rewrite sum_mul_l; apply sum_ext; intros; ring).
    rewrite sum_swap. apply sum_ext. intros x _. unfold c, coef. rewrite sum_conj, sum_mul_r. apply sum_ext. intros i _.
    rewrite kconj_mul, kconj_inv. ring. }
  assert (H3 : sum m (fun i => kconj (sum l (fun x => E i x * z x)) * a i) = sum l (fun x => kconj (z x) * c x)).
  { rewrite (sum_ext m _ (fun i => sum l (fun x => kconj (E i x * z x) * a i)))
      by (intros; rewrite sum_conj, sum_mul_r; reflexivity).
    rewrite sum_swap. apply sum_ext. intros x _. unfold c, coef. rewrite sum_mul_l. apply sum_ext. intros i _.
    rewrite kconj_mul. ring. }
  assert (H4 : sum m (fun i => kconj (sum l (fun x => E i x * z x)) * sum l (fun x => E i x * z x)) = sum l (fun x => kconj (z x) * z x)).
  { rewrite (sum_ext m _ (fun i => sum l (fun x => sum l (fun y => kconj (E i x * z x) * (E i y * z y))))).
    2:{ intros i _. rewrite sum_conj, sum_mul_r. apply sum_ext. intros x _. apply sum_mul_l. }
    rewrite sum_swap. apply sum_ext. intros x Hx. rewrite sum_swap.
    rewrite (sum_ext l _ (fun y => delta x y * (kconj (z x) * z y))).
    2:{ intros y Hy. rewrite <- HE by assumption. rewrite sum_mul_r. apply sum_ext. intros i _. rewrite kconj_mul. ring. }
    rewrite sum_delta_l' by exact Hx. reflexivity. }
  transitivity (sum m (fun i => kconj (a i) * a i) - sum l (fun x => kconj (c x) * z x) - sum l (fun x => kconj (z x) * c x)
                + sum l (fun x => kconj (z x) * z x)).
  - rewrite <- H2, <- H3, <- H4. rewrite <- !sum_sub, <- sum_add. apply sum_ext. intros i _. rewrite kconj_sub. ring.
  - rewrite (sum_ext l (fun x => kconj (z x - c x) * (z x - c x))
      (fun x => kconj (z x) * z x - kconj (c x) * z x - kconj (z x) * c x + kconj (c x) * c x)) by (intros; rewrite kconj_sub; ring).
    rewrite sum_add, !sum_sub. ring.
Qed.

Lemma bessel m l E a : orthonormal m l E -> (vweight l (coef m E a) <= vweight m a)%R.
Proof.
  intros HE. pose proof (projection m l E a (coef m E a) HE) as H.
  assert (H0 : vweight l (fun x => coef m E a x - coef m E a x) = 0%R).
  { apply rsum_zero. intros x _. replace (coef m E a x - coef m E a x) with 0 by ring. apply kmod2_0. }
  rewrite H0 in H. pose proof (vweight_nonneg m (fun i => a i - sum l (fun x => E i x * coef m E a x))). lra.
Qed.

(** weights at most one, with total at most D, against a decreasing sequence *)
Lemma rearrange n D (s w : nat -> R) : (D <= n)%nat ->
  (forall i j, (i <= j)%nat -> (j < n)%nat -> (s j <= s i)%R) -> (forall i, (i < n)%nat -> (0 <= s i)%R) ->
  (forall i, (i < n)%nat -> (0 <= w i <= 1)%R) -> (rsum n w <= INR D)%R ->
  (rsum n (fun i => s i * w i) <= rsum D s)%R.
Proof.
  intros HD Hdec Hs Hw Htot. replace n with (D + (n - D))%nat in * by lia. set (r := (n - D)%nat) in *. clearbody r.
  rewrite rsum_plus in *. destruct r as [|r].
  - cbn [rsum]. assert (rsum D (fun i => s i * w i)%R <= rsum D s)%R; [|lra]. apply rsum_le. intros i Hi.
    specialize (Hw i ltac:(lia)). specialize (Hs i ltac:(lia)). nra.
  - set (sD := s D) in *.
    assert (H1 : (rsum (S r) (fun i => s (D + i)%nat * w (D + i)%nat) <= sD * rsum (S r) (fun i => w (D + i)%nat))%R).
    { rewrite rsum_mul_l. apply rsum_le. intros i Hi. specialize (Hw (D + i)%nat ltac:(lia)).
      assert (s (D + i)%nat <= sD)%R by (apply Hdec; lia). nra. }
    assert (H2 : (rsum D s - rsum D (fun i => s i * w i) >= sD * (INR D - rsum D w))%R).
    { clear H1 Htot. assert (HsD : forall i, (i < D)%nat -> (sD <= s i)%R) by (intros; apply Hdec; lia).
      assert (Hw' : forall i, (i < D)%nat -> (0 <= w i <= 1)%R) by (intros; apply Hw; lia).
      clearbody sD. clear Hdec Hs Hw HD. induction D as [|D IH]; [cbn; lra|]. rewrite S_INR. cbn [rsum].
      specialize (IH ltac:(intros; apply HsD; lia) ltac:(intros; apply Hw'; lia)).
      pose proof (HsD D ltac:(lia)). pose proof (Hw' D ltac:(lia)). nra. }
    assert (0 <= sD)%R by (apply Hs; lia). nra.
Qed.

Lemma rsum_tail (s : list R) l : (l <= length s)%nat ->
  (rsum l (fun k => nth k s 0 * nth k s 0) = tail_weight s 0 - tail_weight s l)%R.
Proof.
  induction l as [|l IH]; intros Hl; [cbn; lra|]. cbn [rsum]. rewrite IH by lia. rewrite (tail_weight_S s l) by lia. lra.
Qed.

Lemma mweight_svd m n A U s V : is_svd m n A U s V -> mweight m n (fun i j => get A [i; j]) = tail_weight s 0.
Proof.
  intros (Hl & Hle & HU & HV & Hp & Hdec & HoU & HoV & Hrec). apply rinj_inj. rewrite rinj_mweight.
  rewrite (sum_ext m _ (fun i => sum n (fun j => sum (length s) (fun k => sum (length s) (fun k' =>
     (kconj (get U [i; k]) * get U [i; k']) * ((get V [k'; j]) * kconj (get V [k; j])) * (rinj (nth k s 0%R) * rinj (nth k' s 0%R))))))).
  2:{ intros i Hi. apply sum_ext. intros j Hj. rewrite !Hrec by assumption. rewrite sum_conj, sum_mul_r. apply sum_ext. intros k _.
      rewrite sum_mul_l. apply sum_ext. intros k' _. rewrite !kconj_mul, rinj_conj. ring. }
  rewrite (sum_ext m _ (fun i => sum (length s) (fun k => sum (length s) (fun k' => sum n (fun j =>
     (kconj (get U [i; k]) * get U [i; k']) * ((get V [k'; j]) * kconj (get V [k; j])) * (rinj (nth k s 0%R) * rinj (nth k' s 0%R))))))).
  2:{ intros i Hi. rewrite sum_swap. apply sum_ext. intros k _. apply sum_swap. }
  rewrite sum_swap.
  rewrite (sum_ext (length s) _ (fun k => rinj (nth k s 0 * nth k s 0)%R)).
  - rewrite <- rinj_rsum. f_equal. rewrite rsum_tail by lia. rewrite (tail_weight_past s (length s)) by lia. lra.
  - intros k Hk. rewrite sum_swap.
    rewrite (sum_ext _ _ (fun k' => delta k k' * (rinj (nth k s 0%R) * rinj (nth k' s 0%R)))).
    + rewrite sum_delta_l' by exact Hk. rewrite rinj_mul. reflexivity.
    + intros k' Hk'. rewrite (sum_ext m _ (fun i => (kconj (get U [i; k]) * get U [i; k']) * (delta k' k * (rinj (nth k s 0%R) * rinj (nth k' s 0%R))))).
      2:{ intros i _. rewrite <- HoV by assumption. rewrite sum_mul_r, sum_mul_l. apply sum_ext. intros j _. ring. }
      rewrite <- sum_mul_r, HoU by assumption. unfold delta. rewrite (Nat.eqb_sym k' k). destruct (Nat.eqb k k'); ring.
Qed.

Variable svd : tensor -> tensor * list R * tensor.
Hypothesis Hsvd : svd_contract svd.

(** Eckart-Young: no product X Y with inner dimension D is closer to A than the sum of the D largest
    terms of its singular value decomposition. *)
Lemma eckart_young m n A U s V D (X Y : nat -> nat -> K) : is_svd m n A U s V -> (0 < m)%nat -> (0 < D)%nat ->
  (tail_weight s D <= mweight m n (fun i j => get A [i; j] - sum D (fun c => X i c * Y c j))%K)%R.
Proof.
  intros HA Hm HD. pose proof HA as (Hl & Hle & HU & HV & Hp & Hdec & HoU & HoV & Hrec).
  (* orthonormal basis of the columns of X *)
  set (Xt := mk [m; D] (fun is => X (nth 0 is 0%nat) (nth 1 is 0%nat))).
  assert (HX : is_matrix Xt m D) by (split; [reflexivity|apply wf_mk]).
  pose proof (Hsvd m D Xt HX Hm HD) as HsX. destruct (svd Xt) as [[E t] W].
  destruct HsX as (Hl' & Hle' & HE & HW & _ & _ & HoE & _ & HrecX).
  set (l := length t) in *.
  set (Ef := fun i x => get E [i; x]).
  set (Z := fun x j => sum D (fun c => (rinj (nth x t 0%R) * get W [x; c]) * Y c j)).
  assert (HXY : forall i j, (i < m)%nat -> sum D (fun c => X i c * Y c j) = sum l (fun x => Ef i x * Z x j)).
  { intros i j Hi. rewrite (sum_ext D _ (fun c => sum l (fun x => Ef i x * ((rinj (nth x t 0%R) * get W [x; c]) * Y c j)))).
    - rewrite sum_swap. apply sum_ext. intros x _. unfold Z. rewrite sum_mul_l. reflexivity.
    - intros c Hc. assert (E1 : X i c = get Xt [i; c]) by (unfold Xt; rewrite get_mk by (apply in_range_2; assumption); reflexivity).
      rewrite E1, HrecX by assumption. rewrite sum_mul_r. apply sum_ext. intros x _. unfold Ef. ring. }
  assert (HoE' : orthonormal m l Ef) by (intros x y Hx Hy; apply HoE; assumption).
  assert (HoU' : orthonormal m (length s) (fun i x => get U [i; x])) by (intros x y Hx Hy; apply HoU; assumption).
  (* column by column *)
  set (cf := fun j => coef m Ef (fun i => get A [i; j])).
  assert (H1 : (tail_weight s 0 - mweight n l cf <= mweight m n (fun i j => get A [i; j] - sum D (fun c => X i c * Y c j))%K)%R).
  { rewrite <- (mweight_svd m n A U s V HA). unfold mweight. rewrite !(rsum_swap m n).
    assert (forall j, (j < n)%nat -> (rsum m (fun i => kmod2 (get A [i; j])) - rsum l (fun x => kmod2 (cf j x)) <=
       rsum m (fun i => kmod2 (get A [i; j] - sum D (fun c => X i c * Y c j))%K))%R).
    { intros j _. rewrite (rsum_ext m (fun i => kmod2 (get A [i; j] - sum D (fun c => X i c * Y c j))) (fun i => kmod2 (get A [i; j] - sum l (fun x => Ef i x * Z x j)))) by (intros i Hi; rewrite HXY by exact Hi; reflexivity).
      pose proof (projection m l Ef (fun i => get A [i; j]) (fun x => Z x j) HoE') as Hpr.
      pose proof (vweight_nonneg l (fun x => Z x j - coef m Ef (fun i => get A [i; j]) x)).
      unfold vweight in *. unfold cf. lra. }
    clear - H. induction n as [|n IH]; [cbn; lra|]. cbn [rsum]. pose proof (H n ltac:(lia)). specialize (IH ltac:(intros; apply H; lia)). lra. }
  (* the weights *)
  set (w := fun k => vweight l (fun x => coef m Ef (fun i => get U [i; k]) x)).
  assert (Hcf : mweight n l cf = rsum (length s) (fun k => (nth k s 0 * nth k s 0 * w k)%R)).
  { apply rinj_inj. rewrite rinj_mweight, rinj_rsum.
    assert (Hc : forall j x, (j < n)%nat -> cf j x = sum (length s) (fun k => coef m Ef (fun i => get U [i; k]) x * (rinj (nth k s 0%R) * get V [k; j]))).
    { intros j x Hj. unfold cf, coef. rewrite (sum_ext m _ (fun i => sum (length s) (fun k => kconj (Ef i x) * get U [i; k] * (rinj (nth k s 0%R) * get V [k; j])))).
      2:{ intros i Hi. rewrite Hrec by assumption. rewrite sum_mul_l. apply sum_ext. intros k _. ring. }
      rewrite sum_swap. apply sum_ext. intros k _. rewrite sum_mul_r. reflexivity. }
    set (g := fun k x => coef m Ef (fun i => get U [i; k]) x) in *.
    rewrite (sum_ext n _ (fun j => sum l (fun x => sum (length s) (fun k => sum (length s) (fun k' =>
        (kconj (g k x) * g k' x) * (get V [k'; j] * kconj (get V [k; j])) * (rinj (nth k s 0%R) * rinj (nth k' s 0%R))))))).
    2:{ intros j Hj. apply sum_ext. intros x _. rewrite !Hc by exact Hj. rewrite sum_conj, sum_mul_r. apply sum_ext. intros k _.
        rewrite sum_mul_l. apply sum_ext. intros k' _. unfold g. rewrite !kconj_mul, rinj_conj. ring. }
    rewrite sum_swap.
    rewrite (sum_ext l _ (fun x => sum (length s) (fun k => sum (length s) (fun k' => sum n (fun j =>
        (kconj (g k x) * g k' x) * (get V [k'; j] * kconj (get V [k; j])) * (rinj (nth k s 0%R) * rinj (nth k' s 0%R))))))).
    2:{ intros x _. rewrite sum_swap. apply sum_ext. intros k _. apply sum_swap. }
    rewrite sum_swap. apply sum_ext. intros k Hk. unfold w. rewrite !rinj_mul, rinj_vweight. fold (g k).
    rewrite sum_mul_l. apply sum_ext. intros x _.
    rewrite (sum_ext (length s) _ (fun k' => delta k k' * ((kconj (g k x) * g k' x) * (rinj (nth k s 0%R) * rinj (nth k' s 0%R))))).
    - rewrite sum_delta_l' by exact Hk. unfold g. ring.
    - intros k' Hk'. rewrite (sum_ext n _ (fun j => (get V [k'; j] * kconj (get V [k; j])) * ((kconj (g k x) * g k' x) * (rinj (nth k s 0%R) * rinj (nth k' s 0%R))))) by (intros; ring).
      rewrite <- sum_mul_r, HoV by assumption. unfold delta. rewrite (Nat.eqb_sym k' k). reflexivity. }
  assert (Hw : forall k, (k < length s)%nat -> (0 <= w k <= 1)%R).
  { intros k Hk. split; [apply vweight_nonneg|]. unfold w. apply (Rle_trans _ (vweight m (fun i => get U [i; k]))); [apply bessel; exact HoE'|].
    right. apply rinj_inj. rewrite rinj_vweight, HoU by assumption. unfold delta. rewrite Nat.eqb_refl, rinj_1. reflexivity. }
  assert (HlD : (l <= D)%nat) by lia.
  assert (Htot : (rsum (length s) w <= INR D)%R).
  { apply (Rle_trans _ (INR l)); [|apply le_INR; exact HlD]. unfold w, vweight. rewrite rsum_swap.
    assert (Hx : forall x, (x < l)%nat -> (rsum (length s) (fun k => kmod2 (coef m Ef (fun i => get U [i; k]) x)) <= 1)%R).
    { intros x Hx. pose proof (bessel m (length s) (fun i k => get U [i; k]) (fun i => Ef i x) HoU') as Hb.
      assert (vweight m (fun i => Ef i x) = 1%R).
      { apply rinj_inj. rewrite rinj_vweight, HoE' by assumption. unfold delta. rewrite Nat.eqb_refl, rinj_1. reflexivity. }
      rewrite H in Hb. refine (Rle_trans _ _ _ (Req_le _ _ _) Hb). apply rsum_ext. intros k _.
      apply rinj_inj. rewrite !kmod2_spec. unfold coef. rewrite !sum_conj.
      rewrite (sum_ext m (fun i => kconj (kconj (Ef i x) * get U [i; k])) (fun i => kconj (get U [i; k]) * Ef i x)) by (intros; rewrite kconj_mul, kconj_inv; ring).
      rewrite (sum_ext m (fun i => kconj (kconj (get U [i; k]) * Ef i x)) (fun i => kconj (Ef i x) * get U [i; k])) by (intros; rewrite kconj_mul, kconj_inv; ring).
      ring. }
    clear - Hx. induction l as [|l IH]; [cbn; lra|]. rewrite S_INR. cbn [rsum]. pose proof (Hx l ltac:(lia)). specialize (IH ltac:(intros; apply Hx; lia)). lra. }
  destruct (le_lt_dec D (length s)) as [HDs|HDs].
  - pose proof (rearrange (length s) D (fun k => nth k s 0 * nth k s 0)%R w HDs) as Hr.
    assert (Hsq : forall i j, (i <= j)%nat -> (j < length s)%nat -> (nth j s 0 * nth j s 0 <= nth i s 0 * nth i s 0)%R).
    { intros i j Hij Hj. pose proof (Hdec i j Hij Hj). pose proof (Hp j Hj). nra. }
    specialize (Hr Hsq (fun i Hi => Rle_0_sqr _) Hw Htot). cbn beta in Hr.
    rewrite rsum_tail in Hr by exact HDs. rewrite Hcf in H1. lra.
  - rewrite tail_weight_past by lia. apply mweight_nonneg.
Qed.

End EY.
