(** * Eigenvalue decompositions of hermitian matrices exist

    The contracts assumed of linalg::eig_sym and linalg::eigs in the theorems about infinite states can be met.  (Not a
    model of any code: it shows that the hypotheses are satisfiable.) *)
From Coq Require Import Reals Lra Bool List Arith Lia Ring Classical ClassicalEpsilon.
From Verif Require Import Scalar ScalarFacts RScal Tensor TensorFacts Spec CanonSpec SvdExist SvdEconomic MinimizeSpec EigsExist ITebdModel ITebdSpec2.
Import ListNotations.
Local Open Scope K_scope.

Section Spectral.
Context {RS : RScal}.
Add Ring Kring : k_ring.

(** n orthonormal vectors of size n are complete *)
Lemma square_complete n v : orthonormal n n v -> forall i j, (i < n)%nat -> (j < n)%nat -> sum n (fun x => v x i * kconj (v x j)) = delta i j.
Proof.
  intros Hv i j Hi Hj. set (r := fun j i => delta i j - sum n (fun x => kconj (v x j) * v x i)).
  assert (Horth : forall j y, (j < n)%nat -> (y < n)%nat -> sum n (fun i => kconj (v y i) * r j i) = 0).
  { intros j' y Hj' Hy. unfold r.
    rewrite (sum_ext n _ (fun i => kconj (v y i) * delta i j' - sum n (fun x => kconj (v x j') * (kconj (v y i) * v x i)))).
    2:{ intros i' _. transitivity (kconj (v y i') * delta i' j' - kconj (v y i') * sum n (fun x => kconj (v x j') * v x i')); [ring|].
        f_equal. rewrite sum_mul_l. apply sum_ext. intros x _. ring. }
    rewrite sum_sub, sum_delta_r by exact Hj'. rewrite sum_swap.
    rewrite (sum_ext n _ (fun x => kconj (v x j') * delta y x)).
    2:{ intros x Hx. rewrite <- sum_mul_l. rewrite (Hv y x Hy Hx). reflexivity. }
    rewrite sum_delta_r' by exact Hy. ring. }
  assert (E : r j i = 0).
  { destruct (keqb_spec (r j i) 0) as [E|Hne]; [exact E|]. exfalso.
    pose proof (vsq_pos n (r j) i Hi Hne) as Hp. set (w := fun i => rinj (/ sqrt (vsq n (r j)))%R * r j i).
    assert (W : orthonormal n (S n) (fun x => if Nat.eqb x n then w else v x)).
    { apply orthonormal_ext; [exact Hv| |].
      - unfold w. rewrite vsq_scale. rewrite <- Rinv_mult, sqrt_sqrt by lra. apply Rinv_l. lra.
      - intros x Hx. unfold w. rewrite (sum_ext n _ (fun i => rinj (/ sqrt (vsq n (r j)))%R * (kconj (v x i) * r j i))) by (intros; ring).
        rewrite <- sum_mul_l, Horth by assumption. ring. }
    pose proof (orthonormal_bound _ _ _ W). lia. }
  unfold r in E. transitivity (delta i j - (delta i j - sum n (fun x => kconj (v x j) * v x i))); [|rewrite E; ring].
  transitivity (sum n (fun x => kconj (v x j) * v x i)); [apply sum_ext; intros; ring|ring].
Qed.

(** The spectral theorem *)
Theorem spectral n M : (0 < n)%nat -> herm n M -> exists s Rm, length s = n /\ is_matrix Rm n n /\
    (forall i j, (i < n)%nat -> (j < n)%nat -> sum n (fun k => kconj (get Rm [k; i]) * get Rm [k; j]) = delta i j) /\
    (forall i j, (i < n)%nat -> (j < n)%nat -> sum n (fun k => get Rm [i; k] * kconj (get Rm [j; k])) = delta i j) /\
    (forall i j, (i < n)%nat -> (j < n)%nat -> M i j = sum n (fun k => get Rm [i; k] * rinj (nth k s 0%R) * kconj (get Rm [j; k]))).
Proof.
  intros Hn HM. destruct (qf_below n M HM) as (c & Hc & Hb). set (t := (c + 1)%R).
  set (B := fun i j => M i j + rinj t * delta i j).
  assert (HB : herm n B).
  { intros i j Hi Hj. unfold B. rewrite kconj_add, kconj_mul, rinj_conj, kconj_delta, (HM i j Hi Hj). unfold delta. rewrite Nat.eqb_sym. reflexivity. }
  assert (Bpos : forall v, (vsq n v <= kre (qf n B v))%R).
  { intros v. assert (E : qf n B v = qf n M v + rinj (t * vsq n v)%R).
    { rewrite rinj_mul, vsq_spec. unfold qf, B. rewrite sum_mul_l, <- sum_add. apply sum_ext. intros i Hi.
      transitivity (sum n (fun j => kconj (v i) * M i j * v j + delta i j * (kconj (v i) * rinj t * v j))); [apply sum_ext; intros; ring|].
      rewrite sum_add. f_equal. rewrite (sum_delta_l' n i (fun j => kconj (v i) * rinj t * v j)) by exact Hi. ring. }
    rewrite E, kre_add, kre_rinj. specialize (Hb v). unfold t. pose proof (vsq_nonneg n v). nra. }
  set (A := mk [n; n] (fun x => B (nth 0 x 0%nat) (nth 1 x 0%nat))).
  assert (HA : is_matrix A n n) by (split; [reflexivity|apply wf_mk]).
  assert (gA : forall i j, (i < n)%nat -> (j < n)%nat -> get A [i; j] = B i j).
  { intros i j Hi Hj. unfold A. rewrite get_mk by (apply in_range_2; assumption). reflexivity. }
  destruct (economic_exists n n A HA Hn Hn) as (U & s & V & (H0 & _ & HU & HV & Hp & _ & OU & OV & HE) & Hl). rewrite Nat.min_id in Hl. rewrite Hl in *.
  (* u_k and the conjugate of v_k are the same vector *)
  assert (Bw : forall k i, (k < n)%nat -> (i < n)%nat -> sum n (fun j => B i j * kconj (get V [k; j])) = rinj (nth k s 0%R) * get U [i; k]).
  { intros k i Hk Hi. transitivity (sum n (fun j => sum n (fun p => get U [i; p] * rinj (nth p s 0%R) * (get V [p; j] * kconj (get V [k; j]))))).
    { apply sum_ext. intros j Hj. rewrite <- gA, HE, sum_mul_r by assumption. apply sum_ext. intros; ring. }
    rewrite sum_swap. rewrite (sum_ext n _ (fun p => get U [i; p] * rinj (nth p s 0%R) * delta p k)).
    2:{ intros p Hp'. rewrite <- sum_mul_l, OV by assumption. reflexivity. }
    rewrite (sum_delta_r n k (fun p => get U [i; p] * rinj (nth p s 0%R))) by exact Hk. ring. }
  assert (Bu : forall k i, (k < n)%nat -> (i < n)%nat -> sum n (fun j => B i j * get U [j; k]) = rinj (nth k s 0%R) * kconj (get V [k; i])).
  { intros k i Hk Hi. transitivity (sum n (fun j => sum n (fun p => rinj (nth p s 0%R) * kconj (get V [p; i]) * (kconj (get U [j; p]) * get U [j; k])))).
    { apply sum_ext. intros j Hj. rewrite <- (HB j i Hj Hi), <- gA, HE, sum_conj, sum_mul_r by assumption. apply sum_ext. intros p _. rewrite !kconj_mul, rinj_conj. ring. }
    rewrite sum_swap. rewrite (sum_ext n _ (fun p => rinj (nth p s 0%R) * kconj (get V [p; i]) * delta p k)).
    2:{ intros p Hp'. rewrite <- sum_mul_l, OU by assumption. reflexivity. }
    rewrite (sum_delta_r n k (fun p => rinj (nth p s 0%R) * kconj (get V [p; i]))) by exact Hk. ring. }
  assert (Huv : forall k i, (k < n)%nat -> (i < n)%nat -> get V [k; i] = kconj (get U [i; k])).
  { intros k i Hk Hi. set (d := fun i => get U [i; k] - kconj (get V [k; i])).
    assert (Bd : qf n B d = - rinj (nth k s 0 * vsq n d)%R).
    { rewrite qf_mv, rinj_mul, vsq_spec. unfold mv. transitivity (sum n (fun i => - rinj (nth k s 0%R) * (kconj (d i) * d i))); [|rewrite <- sum_mul_l; ring].
      apply sum_ext. intros a Ha. assert (E : sum n (fun j => B a j * d j) = - rinj (nth k s 0%R) * d a).
      { transitivity (sum n (fun j => B a j * get U [j; k] - B a j * kconj (get V [k; j]))); [apply sum_ext; intros; unfold d; ring|].
        rewrite sum_sub, Bu, Bw by assumption. unfold d. ring. }
      rewrite E. ring. }
    specialize (Bpos d). rewrite Bd in Bpos. rewrite <- rinj_opp, kre_rinj in Bpos. pose proof (vsq_nonneg n d) as Hd. specialize (Hp k Hk).
    assert (Hz : vsq n d = 0%R) by nra. pose proof (vsq_zero n d Hz i Hi) as E. unfold d in E.
    rewrite <- (kconj_inv (get V [k; i])). f_equal. transitivity (get U [i; k] - (get U [i; k] - kconj (get V [k; i]))); [ring|]. rewrite E. ring. }
  assert (Hcomp : forall i j, (i < n)%nat -> (j < n)%nat -> sum n (fun k => get U [i; k] * kconj (get U [j; k])) = delta i j).
  { intros i j Hi Hj. apply (square_complete n (fun x i => get U [i; x]) OU i j Hi Hj). }
  exists (map (fun x => (x - t)%R) s), U. split; [rewrite map_length; exact Hl|]. split; [exact HU|]. split; [exact OU|]. split; [exact Hcomp|].
  intros i j Hi Hj. transitivity (B i j - rinj t * delta i j); [unfold B; ring|].
  rewrite <- gA, HE, <- (Hcomp i j Hi Hj), sum_mul_l, <- sum_sub by assumption. apply sum_ext. intros k Hk.
  rewrite (nth_indep (map (fun x => (x - t)%R) s) 0%R (0 - t)%R) by (rewrite map_length; lia). rewrite (map_nth (fun x => (x - t)%R)), rinj_sub, (Huv k j Hk Hj). ring.
Qed.

Theorem eig_sym_contract_satisfiable : exists eig_sym, eig_sym_contract eig_sym.
Proof.
  assert (H : forall V : tensor, exists r : list R * tensor, forall n, (0 < n)%nat -> is_matrix V n n -> (forall i j, (i < n)%nat -> (j < n)%nat -> kconj (get V [i; j]) = get V [j; i]) ->
    let '(s, Rm) := r in
    length s = n /\ is_matrix Rm n n /\
    (forall i j, (i < n)%nat -> (j < n)%nat -> sum n (fun k => kconj (get Rm [k; i]) * get Rm [k; j]) = delta i j) /\
    (forall i j, (i < n)%nat -> (j < n)%nat -> sum n (fun k => get Rm [i; k] * kconj (get Rm [j; k])) = delta i j) /\
    (forall i j, (i < n)%nat -> (j < n)%nat -> get V [i; j] = sum n (fun k => get Rm [i; k] * rinj (nth k s 0%R) * kconj (get Rm [j; k])))).
  { intros V. destruct (classic (exists n, (0 < n)%nat /\ is_matrix V n n /\ (forall i j, (i < n)%nat -> (j < n)%nat -> kconj (get V [i; j]) = get V [j; i]))) as [(n & Hn & HV & Hh)|N].
    - destruct (spectral n (fun i j => get V [i; j]) Hn Hh) as (s & Rm & H). exists (s, Rm). intros n' _ (HV' & _) _. destruct HV as (HV & _). rewrite HV in HV'. injection HV' as <-. exact H.
    - exists ([], V). intros n H1 H2 H3. destruct N. exists n. auto. }
  exists (fun V => proj1_sig (constructive_indefinite_description _ (H V))).
  intros n V Hn HV Hh. destruct (constructive_indefinite_description _ (H V)) as (r & Hr). cbn [proj1_sig]. apply Hr; assumption.
Qed.

(** An eigs which finds an eigenvector for an eigenvalue of largest modulus when there is one; among these, one of a
    set of preferred vectors if possible *)
Theorem eigs_largest_satisfiable (good : tensor -> Prop) : exists eigs, eigs_largest eigs /\ eigs_sized eigs /\
  forall f n v0, (exists v, largest_eigen n f v /\ good v) -> good (eigs f n v0).
Proof.
  assert (H : forall (f : tensor -> tensor) n, exists w, dims w = [n] /\ wf w /\ ((exists v, largest_eigen n f v) -> largest_eigen n f w) /\
    ((exists v, largest_eigen n f v /\ good v) -> good w)).
  { intros f n. destruct (classic (exists v, largest_eigen n f v /\ good v)) as [(v & Hv & Hg)|N].
    - exists v. pose proof Hv as (mu & (V1 & V2 & _) & _). auto.
    - destruct (classic (exists v, largest_eigen n f v)) as [(v & Hv)|N'].
      + exists v. pose proof Hv as (mu & (V1 & V2 & _) & _). repeat split; auto. intros Hg. contradiction.
      + exists (mk [n] (fun _ => 0)). split; [reflexivity|]. split; [apply wf_mk|]. split; [intros Hv; contradiction|intros Hg; contradiction]. }
  exists (fun f n v0 => proj1_sig (constructive_indefinite_description _ (H f n))).
  split; [|split].
  - intros f n v0 Hv. destruct (constructive_indefinite_description _ (H f n)) as (w & W1 & W2 & W3 & W4). cbn [proj1_sig]. apply W3. exact Hv.
  - intros f n v0. destruct (constructive_indefinite_description _ (H f n)) as (w & W1 & W2 & W3 & W4). cbn [proj1_sig]. auto.
  - intros f n v0 Hv. destruct (constructive_indefinite_description _ (H f n)) as (w & W1 & W2 & W3 & W4). cbn [proj1_sig]. apply W4. exact Hv.
Qed.

End Spectral.
