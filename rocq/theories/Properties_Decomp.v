(** * C43, C57: operators written as sums of products of local operators

    [get U [r1 + d*r2; c1 + d*c2]] is the element <r1 r2| U |c1 c2> of a two-site operator, first site
    fastest, as everywhere in /repo.  [frob2 U] is the sum of |element|^2. *)
From Coq Require Import Reals Lra Bool List Arith ZArith Lia Ring Psatz.
From Verif Require Import Scalar ScalarFacts RealInst RScal Tensor TensorFacts Spec MpsModel CanonSpec CanonModel
  TruncFacts SplitFacts CanonNorm HamModel DecompModel DecompFacts SvdExist.
Import ListNotations.
Local Open Scope K_scope.

Section Proj.
Context {RS : RScal}.
Add Ring Kring : k_ring.

Lemma orth_project m n A U s V k c (f : nat -> K) : is_svd m n A U s V -> (k < length s)%nat -> (c <= length s)%nat ->
  sum m (fun i => kconj (get U [i; k]) * sum c (fun q => get U [i; q] * f q)) = if Nat.ltb k c then f k else 0.
Proof.
  intros (_ & _ & _ & _ & _ & _ & HU & _) Hk Hc.
  transitivity (sum c (fun q => delta k q * f q)).
  - transitivity (sum m (fun i => sum c (fun q => kconj (get U [i; k]) * get U [i; q] * f q))).
    { apply sum_ext; intros i Hi. rewrite sum_mul_l. apply sum_ext; intros q Hq. ring. }
    rewrite sum_swap. apply sum_ext; intros q Hq. rewrite <- (HU k q) by lia. rewrite sum_mul_r. reflexivity.
  - destruct (Nat.ltb_spec k c) as [H|H].
    + rewrite (sum_single c k); [|exact H|].
      2:{ intros q Hq Hne. unfold delta. destruct (Nat.eqb_spec k q); [congruence|ring]. }
      unfold delta. rewrite Nat.eqb_refl. ring.
    + apply sum_zero. intros q Hq. unfold delta. destruct (Nat.eqb_spec k q); [lia|ring].
Qed.

Lemma project_svd m n A U s V k j : is_svd m n A U s V -> (k < length s)%nat -> (j < n)%nat ->
  sum m (fun i => kconj (get U [i; k]) * get A [i; j]) = rinj (nth k s 0%R) * get V [k; j].
Proof.
  intros Hs Hk Hj. pose proof Hs as (_ & _ & _ & _ & _ & _ & _ & _ & HA).
  transitivity (sum m (fun i => kconj (get U [i; k]) * sum (length s) (fun q => get U [i; q] * (rinj (nth q s 0%R) * get V [q; j])))).
  - apply sum_ext; intros i Hi. rewrite HA by assumption. f_equal. apply sum_ext; intros q Hq. ring.
  - rewrite (orth_project m n A U s V k (length s)) by (try assumption; lia).
    destruct (Nat.ltb_spec k (length s)); [reflexivity|lia].
Qed.

Lemma svd_row_norm m n A U s V k : is_svd m n A U s V -> (k < length s)%nat ->
  rsum n (fun j => kmod2 (get V [k; j])) = 1%R.
Proof.
  intros (_ & _ & _ & _ & _ & _ & _ & HV & _) Hk. apply rinj_inj. rewrite rinj_1, rinj_rsum.
  transitivity (sum n (fun j => get V [k; j] * kconj (get V [k; j]))).
  - apply sum_ext; intros. rewrite kmod2_spec. ring.
  - rewrite HV by assumption. unfold delta. rewrite Nat.eqb_refl. reflexivity.
Qed.

Lemma svd_row_nonzero m n A U s V k : is_svd m n A U s V -> (k < length s)%nat ->
  ~ (forall j, (j < n)%nat -> get V [k; j] = 0).
Proof.
  intros Hs Hk H. pose proof (svd_row_norm m n A U s V k Hs Hk) as H1.
  rewrite rsum_zero in H1 by (intros j Hj; rewrite H by exact Hj; apply kmod2_0). lra.
Qed.

(** If the kept pieces with rows [W k] reproduce the matrix, nothing was cut and each row is reproduced. *)
Lemma reproduce_rows m n A U s V c N (W : nat -> nat -> K) (z : K) : is_svd m n A U s V -> (c <= length s)%nat ->
  (forall i j, (i < m)%nat -> (j < n)%nat ->
     get A [i; j] = z * sum c (fun q => get U [i; q] * (rinj (nth q s 0 / N)%R * W q j))) ->
  forall k j, (k < length s)%nat -> (j < n)%nat ->
    rinj (nth k s 0%R) * get V [k; j] = if Nat.ltb k c then z * (rinj (nth k s 0 / N)%R * W k j) else 0.
Proof.
  intros Hs Hc H k j Hk Hj. rewrite <- (project_svd m n A U s V k j Hs Hk Hj).
  transitivity (z * sum m (fun i => kconj (get U [i; k]) * sum c (fun q => get U [i; q] * (rinj (nth q s 0 / N)%R * W q j)))).
  - rewrite sum_mul_l. apply sum_ext; intros i Hi. rewrite H by assumption. ring.
  - rewrite (orth_project m n A U s V k c) by assumption. destruct (Nat.ltb k c); ring.
Qed.

Lemma tail_zero s c : (forall k, (c <= k)%nat -> (k < length s)%nat -> nth k s 0%R = 0%R) -> tail_weight s c = 0%R.
Proof.
  intros H. remember (length s - c)%nat as n eqn:En. revert c H En. induction n as [|n IH]; intros c H En.
  - apply tail_weight_past. lia.
  - rewrite tail_weight_S by lia. rewrite H by lia. rewrite IH by (try lia; intros; apply H; lia). lra.
Qed.

(** A normalised decomposition reproduces only operators of norm one. *)
Lemma reproduce_norm m n A U s V c N (W : nat -> nat -> K) F : is_svd m n A U s V -> (0 < c <= length s)%nat -> (0 < N)%R ->
  (0 < nth 0 s 0)%R -> (N * N + tail_weight s c = F)%R ->
  (forall k j, (k < length s)%nat -> (j < n)%nat -> kmod2 (W k j) = kmod2 (get V [k; j])) ->
  (forall i j, (i < m)%nat -> (j < n)%nat ->
     get A [i; j] = sum c (fun q => get U [i; q] * (rinj (nth q s 0 / N)%R * W q j))) ->
  F = 1%R.
Proof.
  intros Hs Hc HN H0 HF HW H.
  assert (H' : forall i j, (i < m)%nat -> (j < n)%nat ->
     get A [i; j] = 1 * sum c (fun q => get U [i; q] * (rinj (nth q s 0 / N)%R * W q j))).
  { intros i j Hi Hj. rewrite H by assumption. ring. }
  pose proof (reproduce_rows m n A U s V c N W 1 Hs ltac:(lia) H') as HR.
  assert (Ht : tail_weight s c = 0%R).
  { apply tail_zero. intros k Hk1 Hk2. destruct (Req_EM_T (nth k s 0%R) 0%R) as [|E]; [assumption|exfalso].
    apply (svd_row_nonzero m n A U s V k Hs Hk2). intros j Hj. specialize (HR k j Hk2 Hj).
    destruct (Nat.ltb_spec k c); [lia|].
    transitivity (rinj (/ nth k s 0)%R * (rinj (nth k s 0%R) * get V [k; j])).
    - transitivity (rinj (/ nth k s 0 * nth k s 0)%R * get V [k; j]); [rewrite Rinv_l by exact E; rewrite rinj_1; ring|rewrite rinj_mul; ring].
    - rewrite HR. ring. }
  assert (HN1 : N = 1%R).
  { assert (E : rsum n (fun j => (nth 0 s 0 * nth 0 s 0) * kmod2 (get V [0%nat; j]))%R =
                rsum n (fun j => (nth 0 s 0 / N * (nth 0 s 0 / N)) * kmod2 (get V [0%nat; j]))%R).
    { apply rsum_ext. intros j Hj. specialize (HR 0%nat j ltac:(lia) Hj).
      destruct (Nat.ltb_spec 0 c) as [_|]; [|lia].
      rewrite <- (HW 0%nat j) at 2 by (try lia; assumption). rewrite <- !kmod2_rinj, <- !kmod2_mul, HR. f_equal. ring. }
    rewrite <- !rsum_mul_l in E. rewrite (svd_row_norm m n A U s V 0 Hs) in E by lia.
    set (x := nth 0 s 0%R) in *. rewrite !Rmult_1_r in E.
    assert (E2 : (x * x * (N * N) = x * x)%R) by (rewrite E at 1; field; lra).
    assert (E3 : (N * N = 1)%R) by (apply Rmult_eq_reg_l with (x * x)%R; [lra|nra]). nra. }
  rewrite <- HF, Ht, HN1. lra.
Qed.

End Proj.

Section Decompose.
Context {RS : RScal}.
Add Ring Kring : k_ring.
Variable svd : tensor -> tensor * list R * tensor.
Variable flag : R.
Hypothesis Hsvd : svd_contract svd.

Lemma wtt_exact0 s tol : (eff_tol flag tol = 0%R \/ (1 <= eff_tol flag tol)%R) ->
  forall k, (where_to_truncate flag s tol 0 <= k)%nat -> nth k s 0%R = 0%R.
Proof.
  intros H k Hk. destruct H as [H|H].
  - rewrite wtt_zeros in Hk by exact H. change (eff_max s 0) with (length s) in Hk.
    pose proof (last_nonzero_le s). apply last_nonzero_beyond. lia.
  - rewrite wtt_none in Hk by exact H. change (eff_max s 0) with (length s) in Hk. apply nth_overflow. lia.
Qed.

Lemma wtt_bound0 s tol : (0 < eff_tol flag tol)%R -> (eff_tol flag tol < 1)%R ->
  (tail_weight s (where_to_truncate flag s tol 0) <= Rmax (eff_tol flag tol) DBL_EPSILON * tail_weight s 0)%R.
Proof.
  intros H H1. destruct (le_lt_dec (eff_max s 0) (where_to_truncate flag s tol 0)) as [Hl|Hl].
  - rewrite (tail_weight_past s) by exact Hl. apply Rmult_le_pos; [|apply tail_weight_nonneg].
    pose proof eps_pos. pose proof (Rmax_r (eff_tol flag tol) DBL_EPSILON). lra.
  - apply wtt_weight; assumption.
Qed.

Lemma eff_default : eff_tol flag MPS_DEFAULT_TOLERANCE = flag.
Proof. unfold eff_tol, MPS_DEFAULT_TOLERANCE, Rltb. destruct (Rlt_dec (-4) 0); [reflexivity|lra]. Qed.

Lemma eff_13 : eff_tol flag (/ 10 ^ 13)%R = (/ 10 ^ 13)%R.
Proof.
  unfold eff_tol, Rltb. assert (0 < / 10 ^ 13)%R by (apply Rinv_0_lt_compat; simpl; lra).
  destruct (Rlt_dec (/ 10 ^ 13) 0); [lra|reflexivity].
Qed.

(** C43. decompose_operator, with a truncation tolerance that only drops zeros: the products sum to the
    operator divided by its norm.  MISSING: the norm, see the refutation below. *)
Theorem C43_decompose_partial U0 d : is_matrix U0 (d * d) (d * d) -> (0 < d)%nat -> nonzero_op U0 (d * d) ->
  exact_flag flag ->
  exists n O1 O2, decompose_operator svd flag U0 = Ok (O1, O2) /\
    (0 < n <= d * d)%nat /\ dims O1 = [d; d; n] /\ wf O1 /\ dims O2 = [d; d; n] /\ wf O2 /\
    forall r1 r2 c1 c2, (r1 < d)%nat -> (r2 < d)%nat -> (c1 < d)%nat -> (c2 < d)%nat ->
      get U0 [r1 + d * r2; c1 + d * c2]%nat =
        rinj (sqrt (frob2 U0)) * sum n (fun k => get O1 [r1; c1; k] * get O2 [r2; c2; k]).
Proof.
  intros HU Hd Hnz Hf. destruct (decompose_ok svd flag Hsvd U0 d HU Hd Hnz)
    as (Us & sv & Vs & Hs & N & O1 & O2 & Hc & HN & _ & HNN & Htot & E & H1 & H2 & H3 & H4 & H).
  pose proof (wtt_exact0 sv MPS_DEFAULT_TOLERANCE) as Hx. rewrite eff_default in Hx. specialize (Hx Hf).
  set (c := where_to_truncate flag sv MPS_DEFAULT_TOLERANCE 0) in *.
  rewrite (tail_zero sv c) in HNN by (intros; apply Hx; assumption).
  assert (EN : sqrt (frob2 U0) = N).
  { rewrite <- HNN, Rplus_0_r. apply sqrt_square. lra. }
  exists c, O1, O2. split; [exact E|]. split; [destruct Hs as (_ & Hs & _); lia|].
  do 4 (split; [assumption|]). intros. rewrite EN, H by assumption.
  rewrite (dropped_zero Us sv Vs c) by exact Hx. ring.
Qed.

(** An operator of norm one is reproduced. *)
Theorem C43_decompose_unit U0 d : is_matrix U0 (d * d) (d * d) -> (0 < d)%nat -> frob2 U0 = 1%R -> exact_flag flag ->
  exists n O1 O2, decompose_operator svd flag U0 = Ok (O1, O2) /\
    (0 < n <= d * d)%nat /\ dims O1 = [d; d; n] /\ wf O1 /\ dims O2 = [d; d; n] /\ wf O2 /\
    forall r1 r2 c1 c2, (r1 < d)%nat -> (r2 < d)%nat -> (c1 < d)%nat -> (c2 < d)%nat ->
      get U0 [r1 + d * r2; c1 + d * c2]%nat = sum n (fun k => get O1 [r1; c1; k] * get O2 [r2; c2; k]).
Proof.
  intros HU Hd HF Hf. assert (Hnz : nonzero_op U0 (d * d)).
  { pose proof HU as (HU1 & HU2). pose proof (frob2_rsum U0 _ _ HU1 HU2) as E. rewrite HF in E.
    destruct (forallb (fun i => forallb (fun j => keqb (get U0 [i; j]) 0) (seq 0 (d * d))) (seq 0 (d * d))) eqn:B.
    - exfalso. rewrite rsum_zero in E; [lra|]. intros i Hi. apply rsum_zero. intros j Hj.
      rewrite forallb_forall in B. specialize (B i). rewrite in_seq in B. specialize (B ltac:(lia)).
      rewrite forallb_forall in B. specialize (B j). rewrite in_seq in B. specialize (B ltac:(lia)).
      destruct (keqb_spec (get U0 [i; j]) 0) as [->|]; [apply kmod2_0|discriminate].
    - assert (G : ~ forall i j, (i < d * d)%nat -> (j < d * d)%nat -> get U0 [i; j] = 0).
      { intros G. rewrite (proj2 (forallb_forall _ _)) in B; [discriminate|]. intros i Hi. apply in_seq in Hi.
        apply forallb_forall. intros j Hj. apply in_seq in Hj. destruct (keqb_spec (get U0 [i; j]) 0) as [|Hne]; [reflexivity|].
        exfalso. apply Hne, G; lia. }
      clear -G. destruct (Classical_Prop.classic (nonzero_op U0 (d * d))) as [|Hn]; [assumption|].
      exfalso. apply G. intros i j Hi Hj. destruct (keqb_spec (get U0 [i; j]) 0) as [|Hne]; [assumption|].
      exfalso. apply Hn. exists i, j. auto. }
  destruct (C43_decompose_partial U0 d HU Hd Hnz Hf) as (n & O1 & O2 & E & H1 & H2 & H3 & H4 & H5 & H).
  exists n, O1, O2. do 6 (split; [assumption|]). intros. rewrite H by assumption. rewrite HF, sqrt_1, rinj_1. ring.
Qed.

(** With a tolerance below one (the default is DBL_EPSILON) the products, multiplied by a number [N],
    differ from the operator by at most the square root of the tolerance, relative to its norm. *)
Theorem C43_decompose_error_partial U0 d : is_matrix U0 (d * d) (d * d) -> (0 < d)%nat -> nonzero_op U0 (d * d) ->
  (0 < flag)%R -> (flag < 1)%R ->
  exists n O1 O2 N, decompose_operator svd flag U0 = Ok (O1, O2) /\
    (0 < n <= d * d)%nat /\ dims O1 = [d; d; n] /\ wf O1 /\ dims O2 = [d; d; n] /\ wf O2 /\
    (0 < N)%R /\ ((1 - Rmax flag DBL_EPSILON) * frob2 U0 <= N * N <= frob2 U0)%R /\
    (op_error d U0 (fun r1 r2 c1 c2 => rinj N * sum n (fun k => get O1 [r1; c1; k] * get O2 [r2; c2; k]))%K
     <= Rmax flag DBL_EPSILON * frob2 U0)%R.
Proof.
  intros HU Hd Hnz Hf Hf1. destruct (decompose_ok svd flag Hsvd U0 d HU Hd Hnz)
    as (Us & sv & Vs & Hs & N & O1 & O2 & Hc & HN & _ & HNN & Htot & E & H1 & H2 & H3 & H4 & H).
  pose proof (wtt_bound0 sv MPS_DEFAULT_TOLERANCE) as Hx. rewrite eff_default in Hx. specialize (Hx Hf Hf1).
  rewrite Htot in Hx.
  set (c := where_to_truncate flag sv MPS_DEFAULT_TOLERANCE 0) in *.
  exists c, O1, O2, N. split; [exact E|]. split; [destruct Hs as (_ & Hs & _); lia|].
  do 4 (split; [assumption|]). split; [exact HN|].
  pose proof (tail_weight_nonneg sv c). split; [lra|].
  rewrite (op_error_dropped d U0 _ Us sv Vs c Hd Hs) by first [lia | exact H]. exact Hx.
Qed.

(** REFUTED: whatever the tolerance, an operator whose norm is not one is never reproduced. *)
Theorem C43_decompose_norm_refuted U0 d O1 O2 : is_matrix U0 (d * d) (d * d) -> (0 < d)%nat ->
  nonzero_op U0 (d * d) -> frob2 U0 <> 1%R -> decompose_operator svd flag U0 = Ok (O1, O2) ->
  ~ (forall r1 r2 c1 c2, (r1 < d)%nat -> (r2 < d)%nat -> (c1 < d)%nat -> (c2 < d)%nat ->
      get U0 [r1 + d * r2; c1 + d * c2]%nat = sum (dim O1 2) (fun k => get O1 [r1; c1; k] * get O2 [r2; c2; k])).
Proof.
  intros HU Hd Hnz HF E0 Hall. destruct (decompose_ok svd flag Hsvd U0 d HU Hd Hnz)
    as (Us & sv & Vs & Hs & N & O1' & O2' & Hc & HN & H0 & HNN & Htot & E & H1 & H2 & H3 & H4 & H).
  rewrite E in E0. injection E0 as <- <-. unfold dim in Hall. rewrite H1 in Hall. cbn [nth] in Hall.
  set (c := where_to_truncate flag sv MPS_DEFAULT_TOLERANCE 0) in *.
  apply HF. apply (reproduce_norm (d * d) (d * d) (regroup U0 d d) Us sv Vs c N (fun k j => get Vs [k; j]) (frob2 U0) Hs Hc HN H0 HNN).
  { reflexivity. }
  intros i j Hi Hj. destruct (split_index d i Hi Hd) as (r1 & c1 & Hr1 & Hc1 & ->).
  destruct (split_index d j Hj Hd) as (r2 & c2 & Hr2 & Hc2 & ->).
  assert (HK : get U0 [r1 + d * r2; c1 + d * c2]%nat =
     rinj N * sum c (fun q => get Us [r1 + d * c1; q]%nat * (rinj (nth q sv 0 / N)%R * get Vs [q; r2 + d * c2]%nat)) +
     dropped Us sv Vs c (r1 + d * c1) (r2 + d * c2)).
  { rewrite <- (get_regroup U0 d) by assumption.
    rewrite (limited_sum (d * d) (d * d) _ Us sv Vs c N _ _ Hs) by (try exact HN; try nia).
    f_equal. f_equal. apply sum_ext. intros; ring. }
  rewrite get_regroup by assumption.
  pose proof (H r1 r2 c1 c2 Hr1 Hr2 Hc1 Hc2) as H'. rewrite HK in H'.
  rewrite Hall by assumption.
  assert (X : forall a b z, rinj N * a + z = rinj N * b + z -> b = a).
  { intros a b z Hab. assert (Hab' : rinj N * a = rinj N * b).
    { transitivity (rinj N * a + z - z); [ring|]. rewrite Hab. ring. }
    transitivity (rinj (/ N * N)%R * b); [rewrite Rinv_l by lra; rewrite rinj_1; ring|].
    rewrite rinj_mul. transitivity (rinj (/ N)%R * (rinj N * a)); [rewrite Hab'; ring|].
    transitivity (rinj (/ N * N)%R * a); [rewrite rinj_mul; ring|]. rewrite Rinv_l by lra. rewrite rinj_1. ring. }
  apply (X _ _ _ H').
Qed.

(** The zero operator is not decomposed at all (0/0). *)
Theorem C43_zero_refuted U0 d : is_matrix U0 (d * d) (d * d) -> (0 < d)%nat ->
  (forall i j, (i < d * d)%nat -> (j < d * d)%nat -> get U0 [i; j] = 0) -> decompose_operator svd flag U0 = Abort.
Proof.
  intros HU Hd Hz. unfold decompose_operator. pose proof HU as (Hd1 & _). unfold dim. rewrite Hd1. cbn [nth].
  rewrite Nat.sqrt_square, !Nat.eqb_refl. cbn [negb].
  rewrite (limited_svd_zero svd flag Hsvd (regroup U0 d d) (d * d) (d * d)); [reflexivity|apply regroup_matrix|nia|nia|].
  apply regroup_zero; assumption.
Qed.

(** Operators that are not square, or whose size is not a square, are rejected. *)
Theorem C43_rejected U0 m n : is_matrix U0 m n -> (m <> n \/ forall d, m <> d * d)%nat ->
  decompose_operator svd flag U0 = Abort.
Proof.
  intros (Hd & _) H. unfold decompose_operator, dim. rewrite Hd. cbn [nth].
  destruct (Nat.eqb_spec m n) as [E|]; cbn [negb]; [|reflexivity].
  destruct (Nat.eqb_spec (Nat.sqrt m * Nat.sqrt m) m) as [E'|]; cbn [negb]; [|reflexivity].
  destruct H as [H|H]; [contradiction|]. exfalso. apply (H (Nat.sqrt m)). lia.
Qed.

(** C43. split_interaction: the products of v1 with the conjugates of v2, times a number [N], give the
    interaction up to a relative squared error of 1e-13.
    MISSING: the norm and the conjugation, see the refutations. *)
Theorem C43_split_partial H12 d : is_matrix H12 (d * d) (d * d) -> (0 < d)%nat -> nonzero_op H12 (d * d) ->
  exists v1 v2 N, split_interaction svd flag H12 = Ok (v1, v2) /\
    length v2 = length v1 /\ (0 < length v1 <= d * d)%nat /\
    (forall k, (k < length v1)%nat -> is_matrix (nth k v1 empty) d d /\ is_matrix (nth k v2 empty) d d) /\
    (0 < N)%R /\ ((1 - / 10 ^ 13) * frob2 H12 <= N * N <= frob2 H12)%R /\
    (op_error d H12 (fun r1 r2 c1 c2 =>
        rinj N * sum (length v1) (fun k => mat (nth k v1 empty) r1 c1 * kconj (mat (nth k v2 empty) r2 c2)))%K
     <= / 10 ^ 13 * frob2 H12)%R.
Proof.
  intros HU Hd Hnz. destruct (split_interaction_ok svd flag Hsvd H12 d HU Hd Hnz)
    as (Us & sv & Vs & Hs & N & v1 & v2 & Hc & HN & _ & HNN & Htot & E & H1 & H2 & H3 & H).
  assert (Hpos : (0 < / 10 ^ 13)%R) by (apply Rinv_0_lt_compat; simpl; lra).
  assert (Hlt1 : (/ 10 ^ 13 < 1)%R).
  { rewrite <- Rinv_1. apply Rinv_lt_contravar; simpl; lra. }
  pose proof (wtt_bound0 sv (/ 10 ^ 13)%R) as Hx. rewrite eff_13 in Hx. specialize (Hx Hpos Hlt1). rewrite Htot in Hx.
  assert (Em : Rmax (/ 10 ^ 13) DBL_EPSILON = (/ 10 ^ 13)%R).
  { apply Rmax_left. unfold DBL_EPSILON. apply Rinv_le_contravar; simpl; lra. }
  rewrite Em in Hx.
  set (c := where_to_truncate flag sv (/ 10 ^ 13)%R 0) in *.
  exists v1, v2, N. rewrite H1, H2. split; [exact E|]. split; [reflexivity|].
  split; [destruct Hs as (_ & Hs & _); lia|]. split; [exact H3|]. split; [exact HN|].
  pose proof (tail_weight_nonneg sv c). split; [lra|].
  rewrite (op_error_dropped d H12 _ Us sv Vs c Hd Hs) by first [lia|
    intros r1 r2 c1 c2 Hr1 Hr2 Hc1 Hc2; rewrite <- (get_regroup H12 d) by assumption;
    rewrite (limited_sum (d * d) (d * d) _ Us sv Vs c N _ _ Hs) by (try exact HN; try nia);
    f_equal; f_equal; apply sum_ext; intros k Hk; unfold mat;
    destruct (H k r1 c1 Hk Hr1 Hc1) as (-> & _); destruct (H k r2 c2 Hk Hr2 Hc2) as (_ & ->);
    rewrite kconj_inv;
    assert (Hp : (0 <= nth k sv 0 / N)%R) by
      (pose proof Hs as (_ & _ & _ & _ & Hp & _); apply Rmult_le_pos; [apply Hp; lia|left; apply Rinv_0_lt_compat; exact HN]);
    rewrite <- (sqrt_sqrt_rinj _ Hp); ring].
  exact Hx.
Qed.

(** REFUTED: interactions whose norm is not one are never reproduced by sum_k v1_k x v2_k. *)
Theorem C43_split_norm_refuted H12 d v1 v2 : is_matrix H12 (d * d) (d * d) -> (0 < d)%nat ->
  nonzero_op H12 (d * d) -> frob2 H12 <> 1%R -> split_interaction svd flag H12 = Ok (v1, v2) ->
  ~ (forall r1 r2 c1 c2, (r1 < d)%nat -> (r2 < d)%nat -> (c1 < d)%nat -> (c2 < d)%nat ->
      get H12 [r1 + d * r2; c1 + d * c2]%nat =
      sum (length v1) (fun k => mat (nth k v1 empty) r1 c1 * mat (nth k v2 empty) r2 c2)).
Proof.
  intros HU Hd Hnz HF E0 Hall. destruct (split_interaction_ok svd flag Hsvd H12 d HU Hd Hnz)
    as (Us & sv & Vs & Hs & N & w1 & w2 & Hc & HN & H0 & HNN & Htot & E & H1 & H2 & H3 & H).
  rewrite E in E0. injection E0 as <- <-. rewrite H1 in Hall.
  set (c := where_to_truncate flag sv (/ 10 ^ 13)%R 0) in *.
  apply HF. apply (reproduce_norm (d * d) (d * d) (regroup H12 d d) Us sv Vs c N (fun k j => kconj (get Vs [k; j])) (frob2 H12) Hs Hc HN H0 HNN).
  { intros k j Hk Hj. apply rinj_inj. rewrite !kmod2_spec, kconj_inv. ring. }
  intros i j Hi Hj. destruct (split_index d i Hi Hd) as (r1 & c1 & Hr1 & Hc1 & ->).
  destruct (split_index d j Hj Hd) as (r2 & c2 & Hr2 & Hc2 & ->).
  rewrite get_regroup by assumption. rewrite Hall by assumption. apply sum_ext. intros k Hk. unfold mat.
  destruct (H k r1 c1 Hk Hr1 Hc1) as (-> & _). destruct (H k r2 c2 Hk Hr2 Hc2) as (_ & ->).
  rewrite kconj_mul, rinj_conj.
  assert (Hp : (0 <= nth k sv 0 / N)%R).
  { pose proof Hs as (_ & _ & _ & _ & Hp & _). apply Rmult_le_pos; [apply Hp; lia|left; apply Rinv_0_lt_compat; exact HN]. }
  rewrite <- (sqrt_sqrt_rinj _ Hp). ring.
Qed.

(** A TIHamiltonian built from such an interaction contradicts itself: interaction(k) is not the sum of
    interaction_left(k,n) x interaction_right(k,n) from which expected() and the MPO are computed. *)
Theorem C43_ti_hamiltonian_refuted L H12 H1 periodic d H : is_matrix H12 (d * d) (d * d) -> (0 < d)%nat ->
  nonzero_op H12 (d * d) -> frob2 H12 <> 1%R -> ti_hamiltonian svd flag L H12 H1 periodic = Ok H ->
  forall k, ~ (forall r1 r2 c1 c2, (r1 < d)%nat -> (r2 < d)%nat -> (c1 < d)%nat -> (c2 < d)%nat ->
      get (h_interaction H k) [r1 + d * r2; c1 + d * c2]%nat =
      sum (h_depth H k) (fun n => mat (h_left H k n) r1 c1 * mat (h_right H k n) r2 c2)).
Proof.
  intros HU Hd Hnz HF E k Hall. pose proof HU as (HU1 & HU2).
  assert (Ee : is_empty H12 = false) by (apply is_empty_wf; [exact HU2|rewrite HU1; cbn; nia]).
  assert (Ez : is_zero_tensor H12 = false).
  { destruct (is_zero_tensor H12) eqn:B; [|reflexivity]. exfalso.
    pose proof (proj1 (is_zero_tensor_spec _ HU2) B) as B'. destruct Hnz as (i & j & Hi & Hj & Hne). apply Hne. apply B'.
    rewrite HU1. apply in_range_2; assumption. }
  unfold ti_hamiltonian in E. rewrite Ee, Ez in E. cbn [orb] in E.
  destruct (split_interaction svd flag H12) as [[v1 v2]|] eqn:Es; [|discriminate]. cbn [bind] in E.
  unfold ti_new in E. rewrite Ee, Ez in E. rewrite andb_false_r in E. cbn [negb andb] in E.
  injection E as <-. cbn [h_interaction h_depth h_left h_right] in Hall.
  apply (C43_split_norm_refuted H12 d v1 v2 HU Hd Hnz HF Es Hall).
Qed.

(** ** C57: the methods inherited from class Hamiltonian *)

(** Slices of the decomposition.  MISSING: the norm (C43) and the number of slices (below). *)
Theorem C57_default_terms_partial U0 d : is_matrix U0 (d * d) (d * d) -> (1 < d)%nat -> nonzero_op U0 (d * d) ->
  exact_flag flag ->
  exists n l r, (0 < n <= d * d)%nat /\
    (forall k, (k < n)%nat -> default_left svd flag U0 k = Ok (l k) /\ is_matrix (l k) d d /\
                              default_right svd flag U0 k = Ok (r k) /\ is_matrix (r k) d d) /\
    (forall k, (n <= k)%nat -> default_left svd flag U0 k = Abort /\ default_right svd flag U0 k = Abort) /\
    forall r1 r2 c1 c2, (r1 < d)%nat -> (r2 < d)%nat -> (c1 < d)%nat -> (c2 < d)%nat ->
      get U0 [r1 + d * r2; c1 + d * c2]%nat =
        rinj (sqrt (frob2 U0)) * sum n (fun k => mat (l k) r1 c1 * mat (r k) r2 c2).
Proof.
  intros HU Hd Hnz Hf. destruct (C43_decompose_partial U0 d HU ltac:(lia) Hnz Hf) as (n & O1 & O2 & E & Hn & H1 & H2 & H3 & H4 & H).
  assert (Sl : forall O k, dims O = [d; d; n] -> (k < n)%nat -> 
    slice3 O k = Ok (mk [d; d; 1]%nat (fun is => get O [nth 0 is 0; nth 1 is 0; k]%nat))).
  { intros O k HO Hk. unfold slice3, dim. rewrite HO. cbn [nth]. destruct (Nat.ltb_spec k n); [reflexivity|lia]. }
  assert (Sq : forall O k, squeeze (mk [d; d; 1]%nat (fun is => get O [nth 0 is 0; nth 1 is 0; k]%nat)) =
     reshape (mk [d; d; 1]%nat (fun is => get O [nth 0 is 0; nth 1 is 0; k]%nat)) [d; d]).
  { intros O k. unfold squeeze. rewrite dims_mk. cbn [filter]. destruct (Nat.eqb_spec d 1); [lia|]. reflexivity. }
  assert (Gt : forall O k x y, (x < d)%nat -> (y < d)%nat -> 
     mat (reshape (mk [d; d; 1]%nat (fun is => get O [nth 0 is 0; nth 1 is 0; k]%nat)) [d; d]) x y = get O [x; y; k]).
  { intros O k x y Hx Hy. unfold mat. rewrite (get_reshape _ [d; d] _ [x; y; 0]%nat) by (cbn; lia).
    rewrite get_mk by (repeat constructor; assumption). reflexivity. }
  exists n, (fun k => reshape (mk [d; d; 1]%nat (fun is => get O1 [nth 0 is 0; nth 1 is 0; k]%nat)) [d; d]),
    (fun k => reshape (mk [d; d; 1]%nat (fun is => get O2 [nth 0 is 0; nth 1 is 0; k]%nat)) [d; d]).
  split; [exact Hn|]. split.
  { intros k Hk. unfold default_left, default_right. rewrite E. cbn [bind]. rewrite !Sl by assumption. cbn [bind].
    rewrite !Sq. repeat split; try reflexivity; apply wf_reshape; try apply wf_mk; cbn; lia. }
  split.
  { intros k Hk. unfold default_left, default_right, slice3, dim. rewrite E. cbn [bind]. rewrite H1, H3. cbn [nth].
    destruct (Nat.ltb_spec k n); [lia|]. split; reflexivity. }
  intros. rewrite H by assumption. f_equal. apply sum_ext. intros k Hk. rewrite !Gt by assumption. reflexivity.
Qed.

(** REFUTED: interaction_depth() asks for dimension number 3 of a tensor with three indices, so a class
    that relies on it cannot be used at all. *)
Theorem C57_default_depth_refuted U0 : default_depth svd flag U0 = Abort.
Proof.
  unfold default_depth, decompose_operator. destruct (negb (Nat.eqb (dim U0 0) (dim U0 1))); [reflexivity|].
  destruct (negb (Nat.eqb (Nat.sqrt (dim U0 0) * Nat.sqrt (dim U0 0)) (dim U0 0))); [reflexivity|].
  destruct (limited_svd _ _ _ _ _) as [[[U s] V]|]; reflexivity.
Qed.

End Decompose.

(** ** The conjugation in split_interaction *)

Local Notation CS := (@rs_scalar CC).

(** |0><0| x (1 + sigma_y)/2: a Hermitian projector of norm one, first site diagonal. *)
Definition proj_y : @tensor CS := @mk CS [4; 4]%nat (fun is =>
  match is with
  | [0; 0]%nat => mkC (/ 2) 0 | [0; 2]%nat => mkC 0 (- / 2)
  | [2; 0]%nat => mkC 0 (/ 2) | [2; 2]%nat => mkC (/ 2) 0
  | _ => mkC 0 0 end).

(** REFUTED for complex interactions: no multiple of sum_k v1_k x v2_k is the interaction, whatever
    decomposition the SVD returns. *)
Theorem C43_split_conj_refuted svd flag v1 v2 (z : Cx) : @svd_contract CC svd ->
  @split_interaction CC svd flag proj_y = Ok (v1, v2) ->
  ~ (forall r1 r2 c1 c2, (r1 < 2)%nat -> (r2 < 2)%nat -> (c1 < 2)%nat -> (c2 < 2)%nat ->
      @get CS proj_y [r1 + 2 * r2; c1 + 2 * c2]%nat =
      Cmul z (@sum CS (length v1) (fun k => Cmul (@mat CS (nth k v1 (@empty CS)) r1 c1) (@mat CS (nth k v2 (@empty CS)) r2 c2)))).
Proof.
  intros Hsvd E0 Hall.
  assert (HU : @is_matrix CS proj_y 4 4) by (split; [reflexivity|apply wf_mk]).
  assert (Hnz : @nonzero_op CC proj_y 4).
  { exists 0%nat, 0%nat. split; [lia|]. split; [lia|]. intros H. apply (f_equal Cre) in H. cbn in H. lra. }
  destruct (@split_interaction_ok CC svd flag Hsvd proj_y 2 HU ltac:(lia) Hnz)
    as (Us & sv & Vs & Hs & N & w1 & w2 & Hc & HN & H0 & HNN & Htot & E & H1 & H2 & H3 & H).
  rewrite E in E0. injection E0 as <- <-. rewrite H1 in Hall.
  set (c := where_to_truncate flag sv (/ 10 ^ 13)%R 0) in *.
  assert (HR := @reproduce_rows CC 4 4 (@regroup CC proj_y 2 2) Us sv Vs c N (fun k j => @kconj CS (@get CS Vs [k; j])) z Hs ltac:(lia)).
  assert (HP : forall i j, (i < 4)%nat -> (j < 4)%nat -> @get CS (@regroup CC proj_y 2 2) [i; j] =
     Cmul z (@sum CS c (fun q => Cmul (@get CS Us [i; q]) (Cmul (@rinj CC (nth q sv 0 / N)%R) (@kconj CS (@get CS Vs [q; j])))))).
  { intros i j Hi Hj. destruct (split_index 2 i Hi ltac:(lia)) as (r1 & c1 & Hr1 & Hc1 & ->).
    destruct (split_index 2 j Hj ltac:(lia)) as (r2 & c2 & Hr2 & Hc2 & ->).
    rewrite get_regroup by assumption. rewrite Hall by assumption. f_equal. apply sum_ext. intros k Hk. unfold mat.
    destruct (H k r1 c1 Hk Hr1 Hc1) as (-> & _). destruct (H k r2 c2 Hk Hr2 Hc2) as (_ & ->).
    rewrite kconj_mul, rinj_conj.
    assert (Hp : (0 <= nth k sv 0 / N)%R).
    { pose proof Hs as (_ & _ & _ & _ & Hp & _). apply Rmult_le_pos; [apply Hp; lia|left; apply Rinv_0_lt_compat; exact HN]. }
    rewrite <- (@sqrt_sqrt_rinj CC _ Hp). apply C_ext; cbn; ring. }
  specialize (HR HP).
  (* the first row of V is a multiple of (1, i, -i, 1)/2 *)
  set (w := @sum CS 4 (fun i => Cmul (Cconj (@get CS Us [i; 0%nat])) (@get CS (@regroup CC proj_y 2 2) [i; 0%nat]))).
  assert (Hrow : forall j, (j < 4)%nat -> Cmul (mkC (nth 0 sv 0%R) 0) (@get CS Vs [0%nat; j]) =
     Cmul w (nth j [mkC 1 0; mkC 0 1; mkC 0 (-1); mkC 1 0] (mkC 0 0))).
  { intros j Hj. pose proof (@project_svd CC 4 4 (@regroup CC proj_y 2 2) Us sv Vs 0 j Hs ltac:(lia) Hj) as Hp.
    etransitivity; [symmetry; exact Hp|]. unfold w.
    assert (Hcol : forall i, (i < 4)%nat -> @get CS (@regroup CC proj_y 2 2) [i; j] =
       Cmul (@get CS (@regroup CC proj_y 2 2) [i; 0%nat]) (nth j [mkC 1 0; mkC 0 1; mkC 0 (-1); mkC 1 0] (mkC 0 0))).
    { intros i Hi. destruct i as [|[|[|[|i]]]]; [| | | |lia]; destruct j as [|[|[|[|j]]]]; try lia; apply C_ext; cbn; lra. }
    cbn [sum]. rewrite !Hcol by lia. apply C_ext; cbn; ring. }
  set (s0 := nth 0 sv 0%R) in *.
  pose proof (Hrow 0%nat ltac:(lia)) as A0. pose proof (Hrow 1%nat ltac:(lia)) as A1.
  pose proof (HR 0%nat 0%nat ltac:(lia) ltac:(lia)) as B0. pose proof (HR 0%nat 1%nat ltac:(lia) ltac:(lia)) as B1.
  cbn [Nat.ltb Nat.leb] in B0, B1. destruct c as [|c']; [lia|]. cbn [Nat.leb] in B0, B1.
  fold s0 in B0, B1.
  (* V[0,1] = i V[0,0], so the conjugated row would need conj V[0,1] = i conj V[0,0] *)
  assert (HV0 : @get CS Vs [0%nat; 0%nat] <> mkC 0 0).
  { intros Hz. apply (@svd_row_nonzero CC 4 4 (@regroup CC proj_y 2 2) Us sv Vs 0 Hs ltac:(lia)).
    assert (Hw : w = mkC 0 0).
    { rewrite Hz in A0. apply (f_equal Cre) in A0 as X. apply (f_equal Cim) in A0 as Y. cbn in X, Y. apply C_ext; cbn; lra. }
    intros j Hj. specialize (Hrow j Hj). rewrite Hw in Hrow.
    apply (f_equal Cre) in Hrow as X. apply (f_equal Cim) in Hrow as Y.
    apply C_ext; cbn in *; apply Rmult_eq_reg_l with s0; lra. }
  assert (HV1 : @get CS Vs [0%nat; 1%nat] = Cmul (mkC 0 1) (@get CS Vs [0%nat; 0%nat])).
  { apply (f_equal Cre) in A0 as X0. apply (f_equal Cim) in A0 as Y0. apply (f_equal Cre) in A1 as X1. apply (f_equal Cim) in A1 as Y1.
    apply C_ext; cbn in *; apply Rmult_eq_reg_l with s0; lra. }
  rewrite HV1 in B1. set (v := @get CS Vs [0%nat; 0%nat]) in *. cbn in B0, B1.
  set (q := (s0 / N)%R) in *. destruct v as [x y], z as [a b]. unfold Cmul, Cconj in B0, B1. cbn in B0, B1.
  injection B0 as X0 Y0. injection B1 as X1 Y1. apply HV0. clear - X0 Y0 X1 Y1 H0.
  assert (s0 * x = 0)%R by lra. assert (s0 * y = 0)%R by lra.
  apply C_ext; cbn; apply Rmult_eq_reg_l with s0; lra.
Qed.

(** ** The hypotheses are met *)

(** sigma_x x sigma_x + 2 sigma_z x sigma_z, unnormalised *)
Definition xxzz {RS : RScal} : tensor := mk [4; 4]%nat (fun is => rinj
  (match is with
   | [0; 0]%nat | [3; 3]%nat => 2%R | [1; 1]%nat | [2; 2]%nat => (-2)%R
   | [0; 3]%nat | [3; 0]%nat | [1; 2]%nat | [2; 1]%nat => 1%R
   | _ => 0%R end)).

Example C43_case : is_matrix (@xxzz RR) 4 4 /\ nonzero_op (@xxzz RR) 4 /\ is_matrix (@xxzz CC) 4 4 /\ nonzero_op (@xxzz CC) 4 /\
  exact_flag 0 /\ (frob2 (@xxzz RR) <> 1)%R /\ (frob2 proj_y = 1)%R /\
  (exists svd, @svd_contract RR svd) /\ (exists svd, @svd_contract CC svd).
Proof.
  split; [split; [reflexivity|apply wf_mk]|]. split.
  { exists 0%nat, 0%nat. split; [lia|]. split; [lia|]. cbn. lra. }
  split; [split; [reflexivity|apply wf_mk]|]. split.
  { exists 0%nat, 0%nat. split; [lia|]. split; [lia|]. intros H. apply (f_equal Cre) in H. cbn in H. lra. }
  split; [left; reflexivity|]. split; [cbn; lra|]. split; [unfold frob2; cbn; unfold Cmod2; cbn; lra|].
  split; apply svd_contract_satisfiable.
Qed.

(** A TIHamiltonian with that interaction is built. *)
Example C43_ti_case svd flag : @svd_contract RR svd -> exists H, @ti_hamiltonian RR svd flag 4 xxzz empty false = Ok H.
Proof.
  intros Hsvd. unfold ti_hamiltonian.
  assert (Ee : is_empty (@xxzz RR) = false) by reflexivity.
  assert (Hm : is_matrix (@xxzz RR) 4 4) by apply C43_case.
  assert (Hnz : nonzero_op (@xxzz RR) 4) by apply C43_case.
  assert (Ez : is_zero_tensor (@xxzz RR) = false).
  { destruct (is_zero_tensor (@xxzz RR)) eqn:B; [|reflexivity]. pose proof (proj1 (is_zero_tensor_spec _ (proj2 Hm)) B) as B'.
    specialize (B' [0; 0]%nat ltac:(apply in_range_2; lia)). cbn in B'. lra. }
  rewrite Ee, Ez. cbn [orb].
  destruct (split_interaction_ok svd flag Hsvd xxzz 2 Hm ltac:(lia) Hnz)
    as (Us & sv & Vs & Hs & N & w1 & w2 & Hc & HN & H0 & HNN & Htot & E & _).
  rewrite E. cbn [bind]. unfold ti_new. rewrite Ee. cbn [andb is_empty empty data]. eexists. reflexivity.
Qed.
