(** * Normal equations: solvability, and the minimum of x^+ M x - 2 Re(v x) *)
From Coq Require Import Reals Lra Bool List Arith ZArith Lia Ring.
From Verif Require Import Scalar ScalarFacts RScal Tensor TensorFacts Spec MpsModel MpsFacts MpoSpec CanonSpec MinimizeSpec SolveSpec SvdExist.
Import ListNotations.
Local Open Scope K_scope.

Section Alg.
Context {RS : RScal}.
Add Ring Kring : k_ring.

(** The pseudo-inverse of a singular value decomposition *)
Definition pinv_solve (svd : tensor -> tensor * list R * tensor) (A b : tensor) : tensor :=
  let '(U, s, V) := svd A in
  let n := dim b 0 in
  mk [n] (fun u => sum (length s) (fun k => kconj (get V [k; nth 0 u 0%nat]) *
    ((if Req_EM_T (nth k s 0%R) 0 then 0 else rinj (/ nth k s 0)%R) * sum n (fun i => kconj (get U [i; k]) * get b [i])))).

Section Pinv.
Variables (n : nat) (A : tensor) (U : tensor) (s : list R) (V : tensor).
Hypothesis Hs : is_svd n n A U s V.
Notation l := (length s).
Definition sinv (k : nat) : K := if Req_EM_T (nth k s 0%R) 0 then 0 else rinj (/ nth k s 0)%R.
Definition px (b : nat -> K) (j : nat) : K := sum l (fun k => kconj (get V [k; j]) * (sinv k * sum n (fun i => kconj (get U [i; k]) * b i))).

Lemma sinv_s k : rinj (nth k s 0%R) * sinv k * rinj (nth k s 0%R) = rinj (nth k s 0%R).
Proof.
  unfold sinv. destruct (Req_EM_T (nth k s 0%R) 0) as [->|Hn]; [rewrite rinj_0; ring|].
  rewrite <- !rinj_mul. f_equal. field. exact Hn.
Qed.

(** A p = U (s s^+) U^+ b *)
Lemma A_px b i : (i < n)%nat -> sum n (fun j => get A [i; j] * px b j) =
  sum l (fun k => get U [i; k] * (rinj (nth k s 0%R) * sinv k * sum n (fun i => kconj (get U [i; k]) * b i))).
Proof.
  destruct Hs as (_ & _ & _ & _ & _ & _ & HU & HV & HA). intros Hi.
  transitivity (sum n (fun j => sum l (fun k => sum l (fun k' => get U [i; k] * rinj (nth k s 0%R) * (sinv k' * sum n (fun i => kconj (get U [i; k']) * b i)) * (get V [k; j] * kconj (get V [k'; j])))))).
  { apply sum_ext. intros j Hj. rewrite (HA i j Hi Hj). unfold px. rewrite sum_mul_r. apply sum_ext. intros k Hk. rewrite sum_mul_l. apply sum_ext. intros k' Hk'. ring. }
  rewrite sum_swap. apply sum_ext. intros k Hk. rewrite sum_swap.
  transitivity (sum l (fun k' => delta k k' * (get U [i; k] * rinj (nth k s 0%R) * (sinv k' * sum n (fun i => kconj (get U [i; k']) * b i))))).
  - apply sum_ext. intros k' Hk'. rewrite <- sum_mul_l, (HV k k' Hk Hk'). ring.
  - rewrite sum_delta_l' by exact Hk. ring.
Qed.

(** It solves every equation that has a solution. *)
Lemma px_solves (b x : nat -> K) : (forall i, (i < n)%nat -> sum n (fun j => get A [i; j] * x j) = b i) ->
  forall i, (i < n)%nat -> sum n (fun j => get A [i; j] * px b j) = b i.
Proof.
  intros Hx i Hi. rewrite A_px by exact Hi. destruct Hs as (_ & _ & _ & _ & _ & _ & HU & HV & HA).
  assert (Hb : forall i, (i < n)%nat -> b i = sum l (fun k => get U [i; k] * (rinj (nth k s 0%R) * sum n (fun j => get V [k; j] * x j)))).
  { intros q Hq. rewrite <- Hx by exact Hq. rewrite (sum_ext n _ (fun j => sum l (fun k => get U [q; k] * rinj (nth k s 0%R) * get V [k; j] * x j))).
    - rewrite sum_swap. apply sum_ext. intros k Hk. rewrite !sum_mul_l. apply sum_ext. intros j Hj. ring.
    - intros j Hj. rewrite HA by assumption. apply sum_mul_r. }
  rewrite (Hb i Hi). apply sum_ext. intros k Hk. f_equal.
  assert (E : sum n (fun i => kconj (get U [i; k]) * b i) = rinj (nth k s 0%R) * sum n (fun j => get V [k; j] * x j)).
  { rewrite (sum_ext n _ (fun i => sum l (fun k' => kconj (get U [i; k]) * get U [i; k'] * (rinj (nth k' s 0%R) * sum n (fun j => get V [k'; j] * x j))))).
    - rewrite sum_swap. transitivity (sum l (fun k' => delta k k' * (rinj (nth k' s 0%R) * sum n (fun j => get V [k'; j] * x j)))).
      + apply sum_ext. intros k' Hk'. rewrite <- sum_mul_r, (HU k k' Hk Hk'). reflexivity.
      + rewrite sum_delta_l' by exact Hk. reflexivity.
    - intros q Hq. rewrite (Hb q Hq), sum_mul_l. apply sum_ext. intros k' Hk'. ring. }
  rewrite E. rewrite <- (sinv_s k) at 3. ring.
Qed.
End Pinv.

Theorem lsolve_contract_satisfiable : exists lsolve, lsolve_contract lsolve.
Proof.
  destruct svd_contract_satisfiable as (svd & Hsvd). exists (pinv_solve svd). intros n A b Hn HA Hd Hw (x & Hx).
  specialize (Hsvd n n A HA Hn Hn). unfold pinv_solve. destruct (svd A) as [[U s] V]. cbv zeta.
  assert (En : dim b 0 = n) by (unfold dim; rewrite Hd; reflexivity). rewrite En.
  split; [reflexivity|]. split; [apply wf_mk|]. intros i Hi.
  rewrite <- (px_solves n A U s V Hsvd (fun i => get b [i]) x Hx i Hi). apply sum_ext. intros j Hj. f_equal.
  rewrite get_mk by (apply in_range_1; exact Hj). reflexivity.
Qed.

(** ** Least squares *)
Definition qform_of (n : nat) (M : nat -> nat -> K) (x y : nat -> K) : K := sum n (fun r => sum n (fun c => kconj (x r) * M r c * y c)).
Definition lin (n : nat) (v x : nat -> K) : K := sum n (fun r => v r * x r).

Section Normal.
Variables (n : nat) (M : nat -> nat -> K) (v : nat -> K) (q : (nat -> K) -> R).
Hypothesis Hn : (0 < n)%nat.
Hypothesis Hherm : hermitian n M.
Hypothesis Hq : forall x, rinj (q x) = qform_of n M x x.
Hypothesis Hq0 : forall x, (0 <= q x)%R.
Hypothesis Hker : forall x, q x = 0%R -> lin n v x = 0.

Lemma normal_solvable : exists p, forall i, (i < n)%nat -> sum n (fun j => M i j * p j) = kconj (v i).
Proof.
  destruct svd_contract_satisfiable as (svd & Hsvd). set (A := mk [n; n] (fun u => M (nth 0 u 0%nat) (nth 1 u 0%nat))).
  assert (HA : is_matrix A n n) by (split; [reflexivity|apply wf_mk]).
  assert (gA : forall i j, (i < n)%nat -> (j < n)%nat -> get A [i; j] = M i j).
  { intros i j Hi Hj. unfold A. rewrite get_mk by (apply in_range_2; assumption). reflexivity. }
  specialize (Hsvd n n A HA Hn Hn). destruct (svd A) as [[U s] V].
  set (b := fun i => kconj (v i)). set (p := px n U s V b). exists p. set (l := length s) in *.
  set (Ub := fun (b : nat -> K) k => sum n (fun i => kconj (get U [i; k]) * b i)).
  set (r := fun i => b i - sum n (fun j => M i j * p j)).
  pose proof Hsvd as (_ & _ & _ & _ & _ & _ & HU & HV & HAe).
  assert (Er : forall i, (i < n)%nat -> r i = b i - sum l (fun k => get U [i; k] * (rinj (nth k s 0%R) * sinv s k * Ub b k))).
  { intros i Hi. unfold r, p, l, Ub. f_equal. rewrite <- (A_px n A U s V Hsvd b i Hi). apply sum_ext. intros j Hj. rewrite gA by assumption. reflexivity. }
  assert (EU : forall k, (k < l)%nat -> Ub r k = Ub b k - rinj (nth k s 0%R) * sinv s k * Ub b k).
  { intros k Hk. unfold Ub at 1.
    rewrite (sum_ext n _ (fun i => kconj (get U [i; k]) * b i + (0 - 1) * sum l (fun k' => kconj (get U [i; k]) * get U [i; k'] * (rinj (nth k' s 0%R) * sinv s k' * Ub b k')))).
    - rewrite sum_add, <- sum_mul_l, sum_swap. fold (Ub b k).
      rewrite (sum_ext l _ (fun k' => delta k k' * (rinj (nth k' s 0%R) * sinv s k' * Ub b k'))).
      + rewrite sum_delta_l' by exact Hk. ring.
      + intros k' Hk'. rewrite <- sum_mul_r, (HU k k' Hk Hk'). reflexivity.
    - intros i Hi. rewrite Er by exact Hi.
      replace (sum l (fun k' => kconj (get U [i; k]) * get U [i; k'] * (rinj (nth k' s 0%R) * sinv s k' * Ub b k'))) with (kconj (get U [i; k]) * sum l (fun k' => get U [i; k'] * (rinj (nth k' s 0%R) * sinv s k' * Ub b k'))); [ring|].
      rewrite sum_mul_l. apply sum_ext. intros k' Hk'. ring. }
  assert (EsU : forall k, (k < l)%nat -> rinj (nth k s 0%R) * Ub r k = 0).
  { intros k Hk. rewrite EU by exact Hk. transitivity ((rinj (nth k s 0%R) - rinj (nth k s 0%R) * sinv s k * rinj (nth k s 0%R)) * Ub b k); [ring|]. rewrite sinv_s. ring. }
  (* M r = 0 *)
  assert (EM : forall j, (j < n)%nat -> sum n (fun i => kconj (M i j) * r i) = 0).
  { intros j Hj. rewrite (sum_ext n _ (fun i => sum l (fun k => rinj (nth k s 0%R) * kconj (get V [k; j]) * (kconj (get U [i; k]) * r i)))).
    - rewrite sum_swap. apply sum_zero. intros k Hk. rewrite <- sum_mul_l. fold (Ub r k). transitivity (kconj (get V [k; j]) * (rinj (nth k s 0%R) * Ub r k)); [ring|]. rewrite EsU by exact Hk. ring.
    - intros i Hi. rewrite <- (gA i j Hi Hj), (HAe i j Hi Hj), sum_conj, sum_mul_r. apply sum_ext. intros k Hk. rewrite !kconj_mul, rinj_conj. ring. }
  assert (Eq : q r = 0%R).
  { apply rinj_inj. rewrite Hq, rinj_0. unfold qform_of. apply sum_zero. intros i Hi.
    rewrite (sum_ext n _ (fun c => kconj (r i) * (kconj (M c i) * r c))) by (intros c Hc; rewrite (Hherm i c Hi Hc); ring).
    rewrite <- sum_mul_l, EM by exact Hi. ring. }
  pose proof (Hker r Eq) as Hv.
  (* r^+ r = 0 *)
  assert (Err : sum n (fun i => kconj (r i) * r i) = 0).
  { rewrite (sum_ext n _ (fun i => v i * r i + (0 - 1) * sum l (fun k => kconj (rinj (nth k s 0%R) * sinv s k * Ub b k) * (kconj (get U [i; k]) * r i)))).
    - rewrite sum_add. fold (lin n v r). rewrite Hv, <- sum_mul_l, sum_swap. rewrite (sum_zero l); [ring|]. intros k Hk. rewrite <- sum_mul_l. fold (Ub r k).
      rewrite !kconj_mul, rinj_conj. transitivity (kconj (sinv s k) * kconj (Ub b k) * (rinj (nth k s 0%R) * Ub r k)); [ring|]. rewrite EsU by exact Hk. ring.
    - intros i Hi.
      assert (Ec : kconj (r i) = v i - sum l (fun k => kconj (get U [i; k] * (rinj (nth k s 0%R) * sinv s k * Ub b k)))).
      { rewrite (Er i Hi), kconj_sub, sum_conj. unfold b at 1. rewrite kconj_inv. reflexivity. }
      rewrite Ec.
      replace (sum l (fun k => kconj (rinj (nth k s 0%R) * sinv s k * Ub b k) * (kconj (get U [i; k]) * r i))) with (sum l (fun k => kconj (get U [i; k] * (rinj (nth k s 0%R) * sinv s k * Ub b k))) * r i); [ring|].
      rewrite sum_mul_r. apply sum_ext. intros k Hk. rewrite (kconj_mul (get U [i; k])). ring. }
  assert (Err' : rsum n (fun i => kmod2 (r i)) = 0%R).
  { apply rinj_inj. rewrite rinj_rsum, rinj_0, <- Err. apply sum_ext. intros i _. apply kmod2_spec. }
  intros i Hi. pose proof (kmod2_zero _ (rsum_zero_inv n (fun i => kmod2 (r i)) (fun _ _ => kmod2_nonneg _) Err' i Hi)) as E. unfold r in E.
  transitivity (b i - (b i - sum n (fun j => M i j * p j))); [ring|]. rewrite E. unfold b. ring.
Qed.

Variable p : nat -> K.
Hypothesis Hp : forall i, (i < n)%nat -> sum n (fun j => M i j * p j) = kconj (v i).

Lemma form_p x : qform_of n M x p = kconj (lin n v x).
Proof.
  unfold qform_of, lin. rewrite sum_conj. apply sum_ext. intros i Hi.
  rewrite (sum_ext n _ (fun c => kconj (x i) * (M i c * p c))) by (intros; ring). rewrite <- sum_mul_l, Hp by exact Hi. rewrite kconj_mul. ring.
Qed.

Lemma form_conj x y : kconj (qform_of n M x y) = qform_of n M y x.
Proof.
  unfold qform_of. rewrite sum_conj. rewrite (sum_ext n _ (fun r => sum n (fun c => kconj (y c) * M c r * x r))).
  - apply sum_swap.
  - intros r Hr. rewrite sum_conj. apply sum_ext. intros c Hc. rewrite !kconj_mul, kconj_inv, (Hherm c r Hc Hr). ring.
Qed.

Lemma lin_p : lin n v p = rinj (q p).
Proof. rewrite <- (kconj_inv (lin n v p)), <- form_p, <- Hq, rinj_conj. reflexivity. Qed.

Lemma normal_square x : (q x - 2 * kre (lin n v x) = q (fun i => x i - p i)%K - q p)%R.
Proof.
  assert (E : rinj (q (fun i => x i - p i)%K) = rinj (q x) - kconj (lin n v x) - lin n v x + rinj (q p)).
  { rewrite !Hq. replace (lin n v x) with (qform_of n M p x) at 2 by (rewrite <- form_conj, form_p; apply kconj_inv). rewrite <- form_p.
    unfold qform_of.
    rewrite (sum_ext n _ (fun r => sum n (fun c => kconj (x r) * M r c * x c) + ((0 - 1) * sum n (fun c => kconj (x r) * M r c * p c) + ((0 - 1) * sum n (fun c => kconj (p r) * M r c * x c) + sum n (fun c => kconj (p r) * M r c * p c))))).
    - rewrite !sum_add, <- !sum_mul_l. ring.
    - intros r Hr. rewrite !sum_mul_l, <- !sum_add. apply sum_ext. intros c Hc. rewrite kconj_sub. ring. }
  assert (E2 : (q (fun i => x i - p i)%K = q x - 2 * kre (lin n v x) + q p)%R).
  { apply (f_equal kre) in E. rewrite kre_rinj in E. rewrite E.
    replace (rinj (q x) - kconj (lin n v x) - lin n v x + rinj (q p)) with (rinj (q x) + (kopp (kconj (lin n v x)) + (kopp (lin n v x) + rinj (q p)))) by ring.
    rewrite !kre_add, !kre_rinj.
    assert (Ho : forall z, kre (kopp z) = (- kre z)%R).
    { intros z. pose proof (kre_add z (kopp z)) as Hz. replace (z + kopp z) with (rinj 0) in Hz by (rewrite rinj_0; ring). rewrite kre_rinj in Hz. lra. }
    rewrite !Ho, kre_conj. lra. }
  rewrite E2. lra.
Qed.

(** p is the minimum *)
Lemma normal_best x : (q p - 2 * kre (lin n v p) <= q x - 2 * kre (lin n v x))%R.
Proof. rewrite (normal_square x). rewrite lin_p, kre_rinj. pose proof (Hq0 (fun i => x i - p i)). lra. Qed.
End Normal.
End Alg.
