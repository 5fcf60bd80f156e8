(** * Singular value decompositions exist

    The contract assumed of linalg::svd in the theorems about canonical forms can be met: a matrix
    over the reals or the complex numbers has a singular value decomposition.  (Not a model of any
    code: it shows that the hypothesis [svd_contract] is satisfiable.) *)
From Coq Require Import Reals Lra Bool List Arith Lia Classical ClassicalEpsilon.
From Verif Require Import Scalar ScalarFacts RScal Tensor TensorFacts Spec CanonSpec.
Import ListNotations.
Local Open Scope K_scope.

Section Exist.
Context {RS : RScal}.
Add Ring Kring : k_ring.

Definition vsq (n : nat) (v : nat -> K) : R := rsum n (fun i => kmod2 (v i)).
Definition qf (n : nat) (M : nat -> nat -> K) (v : nat -> K) : K :=
  sum n (fun i => sum n (fun j => kconj (v i) * M i j * v j)).
Definition herm (n : nat) (M : nat -> nat -> K) : Prop :=
  forall i j, (i < n)%nat -> (j < n)%nat -> kconj (M i j) = M j i.
Definition psd (n : nat) (M : nat -> nat -> K) : Prop := forall v, (0 <= kre (qf n M v))%R.

Lemma vsq_spec n v : rinj (vsq n v) = sum n (fun i => kconj (v i) * v i).
Proof. unfold vsq. rewrite rinj_rsum. apply sum_ext. intros i _. apply kmod2_spec. Qed.

Lemma vsq_nonneg n v : (0 <= vsq n v)%R.
Proof. apply rsum_nonneg. intros i _. apply kmod2_nonneg. Qed.

Lemma qf_real n M v : herm n M -> rinj (kre (qf n M v)) = qf n M v.
Proof.
  intros H. apply kre_real. unfold qf. rewrite sum_conj.
  transitivity (sum n (fun j => sum n (fun i => kconj (kconj (v i) * M i j * v j)))).
  { rewrite (sum_swap n n (fun j i => kconj (kconj (v i) * M i j * v j))). apply sum_ext. intros i Hi. apply sum_conj. }
  apply sum_ext. intros j Hj. apply sum_ext. intros i Hi.
  rewrite !kconj_mul, kconj_inv, H by assumption. ring.
Qed.

Lemma k1_neq_0 : 1 <> 0.
Proof. rewrite <- rinj_1, <- rinj_0. intros H. apply rinj_inj in H. lra. Qed.

Lemma rinj_inv c : (c <> 0)%R -> rinj c * rinj (/ c)%R = 1.
Proof. intros H. rewrite <- rinj_mul, Rinv_r, rinj_1 by exact H. reflexivity. Qed.

Lemma qf_S n M v : herm (S n) M ->
  let t := sum n (fun j => kconj (M j n) * v j) in
  qf (S n) M v = qf n M v + kconj t * v n + kconj (v n) * t + kconj (v n) * M n n * v n.
Proof.
  intros H t. unfold qf. cbn [sum].
  transitivity (sum n (fun i => sum n (fun j => kconj (v i) * M i j * v j)) + sum n (fun i => kconj (v i) * M i n * v n)
    + (sum n (fun j => kconj (v n) * M n j * v j) + kconj (v n) * M n n * v n)).
  { rewrite <- sum_add. reflexivity. }
  assert (E1 : sum n (fun i => kconj (v i) * M i n * v n) = kconj t * v n).
  { unfold t. rewrite sum_conj, sum_mul_r. apply sum_ext. intros i Hi. rewrite kconj_mul, kconj_inv. ring. }
  assert (E2 : sum n (fun j => kconj (v n) * M n j * v j) = kconj (v n) * t).
  { unfold t. rewrite sum_mul_l. apply sum_ext. intros i Hi. rewrite H by lia. ring. }
  rewrite E1, E2. ring.
Qed.

Lemma kmod2_add_le (x y : K) : (kmod2 (x - y)%K <= 2 * kmod2 x + 2 * kmod2 y)%R.
Proof.
  assert (E : (kmod2 (x - y)%K + kmod2 (x + y)%K = 2 * kmod2 x + 2 * kmod2 y)%R).
  { apply rinj_inj. rewrite !rinj_add, !rinj_mul, !kmod2_spec. rewrite kconj_sub, kconj_add.
    replace (rinj 2) with (1 + 1) by (rewrite <- rinj_1, <- rinj_add; f_equal; lra). ring. }
  pose proof (kmod2_nonneg (x + y)). lra.
Qed.

(** Crude Cauchy-Schwarz *)
Lemma kmod2_sum_le n (b : nat -> K) : exists c, (0 <= c)%R /\ forall v, (kmod2 (sum n (fun j => b j * v j)%K) <= c * vsq n v)%R.
Proof.
  induction n as [|n (c & Hc & IH)].
  - exists 0%R. split; [lra|]. intros v. cbn. rewrite kmod2_0. lra.
  - exists (2 * c + 2 * kmod2 (b n))%R. pose proof (kmod2_nonneg (b n)) as Hb. split; [lra|].
    intros v. cbn [sum]. replace (sum n (fun j => b j * v j) + b n * v n) with (sum n (fun j => b j * v j) - - (b n * v n)) by ring.
    eapply Rle_trans; [apply kmod2_add_le|].
    assert (E : kmod2 (- (b n * v n)) = (kmod2 (b n) * kmod2 (v n))%R).
    { rewrite <- kmod2_mul. apply rinj_inj. rewrite !kmod2_spec, kconj_opp. ring. }
    rewrite E. specialize (IH v). unfold vsq in *. cbn [rsum].
    pose proof (kmod2_nonneg (v n)). pose proof (vsq_nonneg n v) as Hv. unfold vsq in Hv.
    pose proof (Rmult_le_pos _ _ Hc H). pose proof (Rmult_le_pos _ _ Hb Hv). nra.
Qed.

Definition kernel (n : nat) (M : nat -> nat -> K) : Prop :=
  exists v, (exists i, (i < n)%nat /\ v i <> 0) /\ forall i, (i < n)%nat -> sum n (fun j => M i j * v j) = 0.

(** A positive semidefinite matrix is either singular or bounded below. *)
Lemma psd_dec n : forall M, herm n M -> psd n M ->
  kernel n M \/ exists e, (0 < e)%R /\ forall v, (e * vsq n v <= kre (qf n M v))%R.
Proof.
  induction n as [|n IH]; intros M HM HP.
  { right. exists 1%R. split; [lra|]. intros v. pose proof (HP v). unfold vsq. cbn [rsum]. lra. }
  set (c := kre (M n n)).
  assert (Hc : rinj c = M n n) by (apply kre_real; apply HM; lia).
  assert (Hc0 : (0 <= c)%R).
  { pose proof (HP (fun j => delta j n)) as H. 
    replace (qf (S n) M (fun j => delta j n)) with (rinj c) in H; [rewrite kre_rinj in H; exact H|].
    unfold qf. rewrite (sum_single (S n) n); [|lia|intros i Hi Hn; apply sum_zero; intros j Hj;
      rewrite (delta_neq i n) by exact Hn; rewrite kconj_0; ring].
    rewrite (sum_delta_r (S n) n (fun j => kconj (delta n n) * M n j)) by lia.
    unfold delta. rewrite Nat.eqb_refl, kconj_1, Hc. ring. }
  destruct (Req_dec c 0) as [E|E].
  - (* c = 0: the last column is zero *)
    left. set (b := vsq n (fun j => M j n)).
    assert (Hb : b = 0%R).
    { pose proof (vsq_nonneg n (fun j => M j n)) as Hb0. fold b in Hb0. destruct (Req_dec b 0) as [|Hb]; [assumption|exfalso].
      set (q := kre (qf n M (fun j => M j n))).
      set (s := ((q + 1) / (2 * b))%R).
      set (v := fun j => if Nat.eqb j n then rinj (- s) else M j n).
      assert (HMn : herm n M) by (intros i j Hi Hj; apply HM; lia).
      assert (Et : sum n (fun j => kconj (M j n) * v j) = rinj b).
      { unfold b. rewrite vsq_spec. apply sum_ext. intros j Hj. unfold v. destruct (Nat.eqb_spec j n); [lia|reflexivity]. }
      assert (Eq : qf n M v = rinj q).
      { unfold q. rewrite qf_real by exact HMn. unfold qf. apply sum_ext. intros i Hi. apply sum_ext. intros j Hj.
        unfold v. destruct (Nat.eqb_spec i n); [lia|]. destruct (Nat.eqb_spec j n); [lia|]. reflexivity. }
      pose proof (HP v) as Hv. rewrite qf_S in Hv by exact HM. cbv zeta in Hv. rewrite Et, Eq, <- Hc, E in Hv.
      assert (Ev : v n = rinj (- s)) by (unfold v; rewrite Nat.eqb_refl; reflexivity).
      rewrite Ev, !rinj_conj, <- !rinj_mul, <- !rinj_add, kre_rinj in Hv.
      assert (Es : (2 * (b * s) = q + 1)%R) by (unfold s; field; exact Hb). lra. }
    assert (Hz : forall j, (j < n)%nat -> M j n = 0).
    { intros j Hj. apply kmod2_zero. apply (rsum_zero_inv n (fun j => kmod2 (M j n))); auto. intros; apply kmod2_nonneg. }
    exists (fun j => delta j n). split.
    { exists n. split; [lia|]. unfold delta. rewrite Nat.eqb_refl. intros H. apply k1_neq_0; exact H. }
    intros i Hi. rewrite sum_delta_r by lia. destruct (Nat.eq_dec i n) as [->|Hin]; [|apply Hz; lia].
    rewrite <- Hc, E. apply rinj_0.
  - set (S' := fun i j => M i j - rinj (/ c)%R * (M i n * kconj (M j n))).
    assert (HMn : herm n M) by (intros i j Hi Hj; apply HM; lia).
    assert (HS : herm n S').
    { intros i j Hi Hj. unfold S'. rewrite kconj_sub, !kconj_mul, rinj_conj, kconj_inv, HM by lia. ring. }
    assert (EQ : forall v, let t := sum n (fun j => kconj (M j n) * v j) in
      qf n S' v = qf n M v - rinj (/ c)%R * (kconj t * t)).
    { intros v t. unfold qf, S'.
      transitivity (sum n (fun i => sum n (fun j => kconj (v i) * M i j * v j) - rinj (/ c)%R * (kconj (v i) * M i n) * t)).
      - apply sum_ext. intros i Hi. unfold t. rewrite sum_mul_l, <- sum_sub. apply sum_ext. intros j Hj. ring.
      - rewrite sum_sub. f_equal. rewrite <- sum_mul_r. unfold t at 2. rewrite sum_conj.
        transitivity (rinj (/ c)%R * sum n (fun i => kconj (v i) * M i n) * t); [rewrite sum_mul_l; reflexivity|].
        rewrite <- (Rmul_assoc k_ring). f_equal. f_equal. apply sum_ext. intros j Hj. rewrite kconj_mul, kconj_inv. ring. }
    assert (EQ2 : forall v, let y := v n + rinj (/ c)%R * sum n (fun j => kconj (M j n) * v j) in
      kre (qf (S n) M v) = (kre (qf n S' v) + c * kmod2 y)%R).
    { intros v y. apply rinj_inj. rewrite rinj_add, rinj_mul, !qf_real, kmod2_spec by assumption.
      rewrite qf_S, EQ by exact HM. cbv zeta. unfold y. set (t := sum n (fun j => kconj (M j n) * v j)).
      rewrite kconj_add, kconj_mul, rinj_conj, <- Hc.
      pose proof (rinj_inv c E) as Hi. set (d := rinj (/ c)%R) in *.
      replace (qf n M v - d * (kconj t * t) + rinj c * ((kconj (v n) + d * kconj t) * (v n + d * t)))
        with (qf n M v - d * (kconj t * t) + rinj c * (kconj (v n) * v n) + (rinj c * d) * (kconj t * v n + kconj (v n) * t + d * (kconj t * t))) by ring.
      rewrite Hi. ring. }
    assert (HSp : psd n S').
    { intros w. set (v := fun j => if Nat.eqb j n then - (rinj (/ c)%R * sum n (fun j => kconj (M j n) * w j)) else w j).
      pose proof (HP v) as H. rewrite EQ2 in H. cbv zeta in H.
      assert (Ew : forall j, (j < n)%nat -> v j = w j) by (intros j Hj; unfold v; destruct (Nat.eqb_spec j n); [lia|reflexivity]).
      assert (Eq : qf n S' v = qf n S' w).
      { unfold qf. apply sum_ext. intros i Hi. apply sum_ext. intros j Hj. rewrite !Ew by assumption. reflexivity. }
      rewrite Eq in H.
      assert (Et : sum n (fun j => kconj (M j n) * v j) = sum n (fun j => kconj (M j n) * w j)).
      { apply sum_ext. intros j Hj. rewrite Ew by assumption. reflexivity. }
      rewrite Et in H. unfold v in H at 1. rewrite Nat.eqb_refl in H.
      match type of H with context [kmod2 ?x] => replace x with 0 in H by ring end.
      rewrite kmod2_0 in H. lra. }
    destruct (IH S' HS HSp) as [(w & (i0 & Hi0 & Hw0) & Hw)|(e & He & Hw)].
    + left. set (t := sum n (fun j => kconj (M j n) * w j)).
      set (v := fun j => if Nat.eqb j n then - (rinj (/ c)%R * t) else w j).
      assert (Ew : forall j, (j < n)%nat -> v j = w j) by (intros j Hj; unfold v; destruct (Nat.eqb_spec j n); [lia|reflexivity]).
      assert (Ev : v n = - (rinj (/ c)%R * t)) by (unfold v; rewrite Nat.eqb_refl; reflexivity).
      exists v. split; [exists i0; split; [lia|rewrite Ew by lia; exact Hw0]|].
      intros i Hi. cbn [sum]. rewrite Ev.
      replace (sum n (fun j => M i j * v j)) with (sum n (fun j => M i j * w j)) by (apply sum_ext; intros j Hj; rewrite Ew by assumption; reflexivity).
      destruct (Nat.eq_dec i n) as [->|Hin].
      * replace (sum n (fun j => M n j * w j)) with t by (unfold t; apply sum_ext; intros j Hj; rewrite HM by lia; reflexivity).
        rewrite <- Hc. transitivity (t - (rinj c * rinj (/ c)%R) * t); [ring|]. rewrite rinj_inv by exact E. ring.
      * rewrite <- (Hw i) by lia. unfold S'.
        transitivity (sum n (fun j => M i j * w j) - rinj (/ c)%R * M i n * t); [ring|].
        unfold t. rewrite sum_mul_l, <- sum_sub. apply sum_ext. intros j Hj. ring.
    + right. destruct (kmod2_sum_le n (fun j => kconj (M j n))) as (B & HB & HBv).
      set (r := (Rmax (2 / c) ((1 + 2 * (/ c * / c) * B) / e))%R).
      assert (Hc1 : (0 < c)%R) by lra.
      assert (Hr1 : (2 <= r * c)%R).
      { apply Rle_trans with (2 / c * c)%R; [right; field; exact E|]. apply Rmult_le_compat_r; [lra|apply Rmax_l]. }
      assert (Hr2 : (1 + 2 * (/ c * / c) * B <= r * e)%R).
      { apply Rle_trans with ((1 + 2 * (/ c * / c) * B) / e * e)%R; [right; field; lra|]. apply Rmult_le_compat_r; [lra|apply Rmax_r]. }
      assert (Hr : (0 < r)%R) by nra.
      exists (/ r)%R. split; [apply Rinv_0_lt_compat; exact Hr|].
      intros v. rewrite EQ2. cbv zeta. set (t := sum n (fun j => kconj (M j n) * v j)). set (y := v n + rinj (/ c)%R * t).
      specialize (Hw v). specialize (HBv v). fold t in HBv.
      assert (Hx : (kmod2 (v n) <= 2 * kmod2 y + 2 * (/ c * / c) * kmod2 t)%R).
      { replace (v n) with (y - rinj (/ c)%R * t) by (unfold y; ring).
        eapply Rle_trans; [apply kmod2_add_le|]. rewrite kmod2_mul, kmod2_rinj. lra. }
      unfold vsq at 1. cbn [rsum]. fold (vsq n v). pose proof (vsq_nonneg n v) as Hv. pose proof (kmod2_nonneg y) as Hy.
      apply Rmult_le_reg_l with r; [exact Hr|]. rewrite <- Rmult_assoc, Rinv_r, Rmult_1_l by lra.
      assert (Hd : (0 <= / c * / c)%R) by (pose proof (Rinv_0_lt_compat c Hc1); nra).
      assert (H1 : (/ c * / c * kmod2 t <= / c * / c * (B * vsq n v))%R) by (apply Rmult_le_compat_l; assumption).
      assert (H2 : (r * (e * vsq n v) <= r * kre (qf n S' v))%R) by (apply Rmult_le_compat_l; lra).
      assert (H3 : ((1 + 2 * (/ c * / c) * B) * vsq n v <= r * e * vsq n v)%R) by (apply Rmult_le_compat_r; assumption).
      assert (H4 : (2 * kmod2 y <= r * c * kmod2 y)%R) by (apply Rmult_le_compat_r; assumption).
      nra.
Qed.

(** ** The largest singular value is attained *)
Definition mv (n : nat) (A : nat -> nat -> K) (v : nat -> K) (i : nat) : K := sum n (fun j => A i j * v j).

Lemma vsq_scale n r v : vsq n (fun i => rinj r * v i) = (r * r * vsq n v)%R.
Proof. unfold vsq. rewrite rsum_mul_l. apply rsum_ext. intros i _. rewrite kmod2_mul, kmod2_rinj. reflexivity. Qed.

Lemma mv_scale n A r v i : mv n A (fun j => rinj r * v j) i = rinj r * mv n A v i.
Proof. unfold mv. rewrite sum_mul_l. apply sum_ext. intros j _. ring. Qed.

Lemma vsq_ext n v w : (forall i, (i < n)%nat -> v i = w i) -> vsq n v = vsq n w.
Proof. intros H. apply rsum_ext. intros i Hi. rewrite H by exact Hi. reflexivity. Qed.

Lemma vsq_mv_scale m n A r v : vsq m (mv n A (fun j => rinj r * v j)) = (r * r * vsq m (mv n A v))%R.
Proof. rewrite <- vsq_scale. apply vsq_ext. intros i _. apply mv_scale. Qed.

Lemma vsq_zero n v : vsq n v = 0%R -> forall i, (i < n)%nat -> v i = 0.
Proof. intros H i Hi. apply kmod2_zero. apply (rsum_zero_inv n (fun i => kmod2 (v i))); auto. intros; apply kmod2_nonneg. Qed.

Lemma vsq_pos n v i : (i < n)%nat -> v i <> 0 -> (0 < vsq n v)%R.
Proof.
  intros Hi H. destruct (Req_dec (vsq n v) 0) as [E|E].
  - destruct H. apply (vsq_zero n v E i Hi).
  - pose proof (vsq_nonneg n v). lra.
Qed.

Lemma kmod2_1 : kmod2 1 = 1%R.
Proof. rewrite <- rinj_1, kmod2_rinj. lra. Qed.

Lemma vsq_delta n k : (k < n)%nat -> vsq n (fun i => delta i k) = 1%R.
Proof.
  intros H. apply rinj_inj. rewrite vsq_spec, (sum_delta_r n k (fun i => kconj (delta i k))) by exact H.
  unfold delta. rewrite Nat.eqb_refl, kconj_1, rinj_1. reflexivity.
Qed.

Lemma mv_bounded m n A : exists c, (0 <= c)%R /\ forall v, (vsq m (mv n A v) <= c * vsq n v)%R.
Proof.
  induction m as [|m (c & Hc & IH)].
  - exists 0%R. split; [lra|]. intros v. unfold vsq at 1. cbn. lra.
  - destruct (kmod2_sum_le n (A m)) as (d & Hd & H). exists (c + d)%R. split; [lra|].
    intros v. unfold vsq at 1. cbn [rsum]. fold (vsq m (mv n A v)). specialize (IH v). specialize (H v).
    unfold mv at 2. lra.
Qed.

(** Normalisation *)
Lemma normalise n v : (0 < vsq n v)%R -> exists r, (0 < r)%R /\ (r * r * vsq n v = 1)%R.
Proof.
  intros H. exists (/ sqrt (vsq n v))%R. pose proof (sqrt_lt_R0 _ H) as Hs. split; [apply Rinv_0_lt_compat; exact Hs|].
  rewrite <- (sqrt_sqrt (vsq n v)) at 3 by lra. field. lra.
Qed.

Lemma top_singular m n A : (exists i j, (i < m)%nat /\ (j < n)%nat /\ A i j <> 0) ->
  exists s u v, (0 < s)%R /\ vsq m u = 1%R /\ vsq n v = 1%R /\
    (forall i, (i < m)%nat -> mv n A v i = rinj s * u i) /\
    (forall j, (j < n)%nat -> sum m (fun i => kconj (A i j) * u i) = rinj s * v j) /\
    (forall w, (vsq m (mv n A w) <= s * s * vsq n w)%R).
Proof.
  intros (i0 & j0 & Hi0 & Hj0 & HA).
  destruct (mv_bounded m n A) as (c & Hc & Hb).
  destruct (completeness (fun r => exists v, vsq n v = 1%R /\ r = vsq m (mv n A v))) as (L & HL1 & HL2).
  { exists c. intros r (v & Hv & ->). specialize (Hb v). rewrite Hv in Hb. lra. }
  { exists (vsq m (mv n A (fun j => delta j j0))). exists (fun j => delta j j0). split; [apply vsq_delta; exact Hj0|reflexivity]. }
  assert (HLw : forall w, (vsq m (mv n A w) <= L * vsq n w)%R).
  { intros w. destruct (Req_dec (vsq n w) 0) as [E|E].
    - specialize (Hb w). rewrite E in *. lra.
    - pose proof (vsq_nonneg n w). destruct (normalise n w) as (r & Hr & Hrw); [lra|].
      assert (H1 : (vsq m (mv n A (fun j => rinj r * w j)%K) <= L)%R).
      { apply HL1. exists (fun j => rinj r * w j). split; [rewrite vsq_scale; exact Hrw|reflexivity]. }
      rewrite vsq_mv_scale in H1.
      apply Rmult_le_reg_l with (r * r)%R; [nra|]. replace (r * r * (L * vsq n w))%R with (L * (r * r * vsq n w))%R by ring.
      rewrite Hrw. lra. }
  assert (HL : (0 < L)%R).
  { specialize (HLw (fun j => delta j j0)). rewrite vsq_delta in HLw by exact Hj0.
    assert (0 < vsq m (mv n A (fun j => delta j j0)))%R; [|lra].
    apply (vsq_pos m _ i0 Hi0). unfold mv. rewrite sum_delta_r by exact Hj0. exact HA. }
  set (M := fun i j => rinj L * delta i j - sum m (fun k => kconj (A k i) * A k j)).
  assert (HM : herm n M).
  { intros i j Hi Hj. unfold M. rewrite kconj_sub, kconj_mul, rinj_conj, sum_conj. f_equal.
    - unfold delta. rewrite (Nat.eqb_sym j i). destruct (Nat.eqb i j); [rewrite kconj_1|rewrite kconj_0]; reflexivity.
    - apply sum_ext. intros k Hk. rewrite kconj_mul, kconj_inv. ring. }
  assert (HMv : forall v i, (i < n)%nat -> sum n (fun j => M i j * v j) = rinj L * v i - sum m (fun k => kconj (A k i) * mv n A v k)).
  { intros v i Hi. unfold M, mv.
    transitivity (sum n (fun j => rinj L * (delta i j * v j) - sum m (fun k => kconj (A k i) * (A k j * v j)))).
    { apply sum_ext. intros j Hj. replace (sum m (fun k => kconj (A k i) * (A k j * v j))) with (sum m (fun k => kconj (A k i) * A k j) * v j).
      - ring.
      - rewrite sum_mul_r. apply sum_ext. intros k Hk. ring. }
    rewrite sum_sub, <- sum_mul_l, sum_delta_l' by exact Hi. f_equal. rewrite sum_swap. apply sum_ext. intros k Hk. rewrite sum_mul_l. reflexivity. }
  assert (HQ : forall v, kre (qf n M v) = (L * vsq n v - vsq m (mv n A v))%R).
  { intros v. apply rinj_inj. rewrite qf_real, rinj_sub, rinj_mul, !vsq_spec by exact HM. unfold qf.
    transitivity (sum n (fun i => rinj L * (kconj (v i) * v i) - sum m (fun k => kconj (A k i * v i) * mv n A v k))).
    { apply sum_ext. intros i Hi.
      transitivity (kconj (v i) * sum n (fun j => M i j * v j)); [rewrite sum_mul_l; apply sum_ext; intros j Hj; ring|].
      rewrite HMv by exact Hi.
      replace (sum m (fun k => kconj (A k i * v i) * mv n A v k)) with (kconj (v i) * sum m (fun k => kconj (A k i) * mv n A v k)); [ring|].
      rewrite sum_mul_l. apply sum_ext. intros k Hk. rewrite kconj_mul. ring. }
    rewrite sum_sub, <- sum_mul_l. f_equal. rewrite sum_swap. apply sum_ext. intros k Hk. rewrite <- sum_mul_r, <- sum_conj. reflexivity. }
  assert (HP : psd n M).
  { intros v. rewrite HQ. specialize (HLw v). lra. }
  destruct (psd_dec n M HM HP) as [(w & (i1 & Hi1 & Hw1) & Hw)|(e & He & Hw)].
  2: { exfalso. assert (L <= L - e)%R; [|lra]. apply HL2. intros r (v & Hv & ->). specialize (Hw v). rewrite HQ, Hv in Hw. lra. }
  destruct (normalise n w (vsq_pos n w i1 Hi1 Hw1)) as (r & Hr & Hrw).
  set (v := fun j => rinj r * w j).
  assert (Hv : vsq n v = 1%R) by (unfold v; rewrite vsq_scale; exact Hrw).
  assert (Hk : forall i, (i < n)%nat -> sum n (fun j => M i j * v j) = 0).
  { intros i Hi. change (mv n M v i = 0). unfold v. rewrite mv_scale. unfold mv. rewrite Hw by exact Hi. ring. }
  assert (HAv : vsq m (mv n A v) = L).
  { assert (H : kre (qf n M v) = 0%R).
    { unfold qf. rewrite (sum_zero n); [rewrite <- rinj_0; apply kre_rinj|]. intros i Hi.
      transitivity (kconj (v i) * sum n (fun j => M i j * v j)); [rewrite sum_mul_l; apply sum_ext; intros j Hj; ring|].
      rewrite Hk by exact Hi. ring. }
    rewrite HQ, Hv in H. lra. }
  pose proof (sqrt_lt_R0 _ HL) as Hs. pose proof (sqrt_sqrt L ltac:(lra)) as Hss. set (s := sqrt L) in *.
  set (u := fun i => rinj (/ s)%R * mv n A v i).
  exists s, u, v. split; [exact Hs|]. split.
  { unfold u. rewrite vsq_scale, HAv, <- Hss. field. lra. }
  split; [exact Hv|]. split.
  { intros i Hi. unfold u. transitivity (rinj s * rinj (/ s)%R * mv n A v i); [rewrite rinj_inv by lra; ring|ring]. }
  split.
  { intros j Hj. specialize (Hk j Hj). rewrite HMv in Hk by exact Hj.
    transitivity (rinj (/ s)%R * sum m (fun k => kconj (A k j) * mv n A v k)).
    - rewrite sum_mul_l. apply sum_ext. intros k _. unfold u. ring.
    - transitivity (rinj (/ s)%R * (rinj L * v j - (rinj L * v j - sum m (fun k => kconj (A k j) * mv n A v k)))); [ring|].
      rewrite Hk, <- Hss, rinj_mul. transitivity (rinj s * rinj (/ s)%R * (rinj s * v j)); [ring|]. rewrite rinj_inv by lra. ring. }
  intros w0. rewrite Hss. apply HLw.
Qed.

(** ** Orthonormal families are no larger than the space *)
Definition orthonormal (n k : nat) (v : nat -> nat -> K) : Prop :=
  forall x y, (x < k)%nat -> (y < k)%nat -> sum n (fun i => kconj (v x i) * v y i) = delta x y.

Lemma kconj_delta i j : kconj (delta i j) = delta i j.
Proof. unfold delta. destruct (Nat.eqb i j); [apply kconj_1|apply kconj_0]. Qed.

Lemma bessel n k v j : orthonormal n k v -> (j < n)%nat -> (rsum k (fun x => kmod2 (v x j)) <= 1)%R.
Proof.
  intros Hv Hj. set (w := fun i => delta i j - sum k (fun x => kconj (v x j) * v x i)).
  assert (H0 : forall x, (x < k)%nat -> sum n (fun i => kconj (v x i) * w i) = 0).
  { intros x Hx. unfold w.
    transitivity (sum n (fun i => kconj (v x i) * delta i j - sum k (fun y => kconj (v y j) * (kconj (v x i) * v y i)))).
    { apply sum_ext. intros i Hi. replace (sum k (fun y => kconj (v y j) * (kconj (v x i) * v y i))) with (kconj (v x i) * sum k (fun y => kconj (v y j) * v y i)); [ring|].
      rewrite sum_mul_l. apply sum_ext. intros; ring. }
    rewrite sum_sub, sum_delta_r, sum_swap by exact Hj.
    rewrite (sum_ext k _ (fun y => kconj (v y j) * delta x y)); [rewrite sum_delta_r' by exact Hx; ring|].
    intros y Hy. rewrite <- sum_mul_l, Hv by assumption. reflexivity. }
  assert (H1 : vsq n w = (1 - rsum k (fun x => kmod2 (v x j)))%R).
  { apply rinj_inj. rewrite vsq_spec, rinj_sub, rinj_rsum, rinj_1.
    transitivity (sum n (fun i => delta i j * w i - sum k (fun x => v x j * (kconj (v x i) * w i)))).
    { apply sum_ext. intros i Hi. unfold w at 1. rewrite kconj_sub, kconj_delta, sum_conj.
      replace (sum k (fun x => v x j * (kconj (v x i) * w i))) with (sum k (fun x => kconj (kconj (v x j) * v x i)) * w i); [ring|].
      rewrite sum_mul_r. apply sum_ext. intros x Hx. rewrite kconj_mul, kconj_inv. ring. }
    rewrite sum_sub, sum_delta_l, sum_swap by exact Hj.
    rewrite (sum_zero k); [|intros x Hx; rewrite <- sum_mul_l, H0 by exact Hx; ring].
    unfold w. unfold delta. rewrite Nat.eqb_refl.
    rewrite (sum_ext k (fun x => rinj (kmod2 (v x j))) (fun x => kconj (v x j) * v x j)) by (intros; apply kmod2_spec). ring. }
  pose proof (vsq_nonneg n w). lra.
Qed.

Lemma rsum_1 n : rsum n (fun _ => 1%R) = INR n.
Proof. induction n as [|n IH]; [reflexivity|]. cbn [rsum]. rewrite IH, S_INR. reflexivity. Qed.

Lemma rsum_swap n m f : rsum n (fun i => rsum m (fun j => f i j)) = rsum m (fun j => rsum n (fun i => f i j)).
Proof.
  induction n as [|n IH]; cbn [rsum]; [symmetry; apply rsum_zero; reflexivity|].
  rewrite IH, <- rsum_add. reflexivity.
Qed.

Lemma orthonormal_bound n k v : orthonormal n k v -> (k <= n)%nat.
Proof.
  intros Hv. apply INR_le. pose proof (rsum_1 k) as Ek. pose proof (rsum_1 n) as En. rewrite <- Ek, <- En.
  rewrite (rsum_ext k _ (fun x => rsum n (fun j => kmod2 (v x j)))).
  - rewrite rsum_swap. apply rsum_le. intros j Hj. apply (bessel n k v); assumption.
  - intros x Hx. apply rinj_inj. change (rinj 1 = rinj (vsq n (v x))). rewrite vsq_spec, Hv by assumption.
    unfold delta. rewrite Nat.eqb_refl. apply rinj_1.
Qed.

(** ** Deflation *)
Record partial_svd (m n : nat) (A : nat -> nat -> K) (k : nat) (u v : nat -> nat -> K) (s : nat -> R) (B : nat -> nat -> K) : Prop := {
  ps_u : orthonormal m k u;
  ps_v : orthonormal n k v;
  ps_pos : forall x, (x < k)%nat -> (0 < s x)%R;
  ps_dec : forall x y, (x <= y)%nat -> (y < k)%nat -> (s y <= s x)%R;
  ps_eq : forall i j, (i < m)%nat -> (j < n)%nat -> A i j = sum k (fun x => u x i * rinj (s x) * kconj (v x j)) + B i j;
  ps_Bv : forall x i, (x < k)%nat -> (i < m)%nat -> mv n B (v x) i = 0;
  ps_Bu : forall x j, (x < k)%nat -> (j < n)%nat -> sum m (fun i => kconj (u x i) * B i j) = 0;
  ps_bound : forall x w, (x < k)%nat -> (vsq m (mv n B w) <= s x * s x * vsq n w)%R
}.

Lemma vsq_delta_1 n v : vsq n v = 1%R -> sum n (fun i => kconj (v i) * v i) = 1.
Proof. intros H. rewrite <- vsq_spec, H, rinj_1. reflexivity. Qed.

Lemma orthonormal_ext n k v w : orthonormal n k v -> vsq n w = 1%R ->
  (forall x, (x < k)%nat -> sum n (fun i => kconj (v x i) * w i) = 0) ->
  orthonormal n (S k) (fun x => if Nat.eqb x k then w else v x).
Proof.
  intros Hv Hw H0 x y Hx Hy. cbv beta.
  destruct (Nat.eqb_spec x k) as [->|Nx]; destruct (Nat.eqb_spec y k) as [->|Ny].
  - rewrite vsq_delta_1 by exact Hw. unfold delta. rewrite Nat.eqb_refl. reflexivity.
  - rewrite delta_neq by congruence. rewrite <- (kconj_inv (sum n _)), sum_conj.
    rewrite (sum_ext n _ (fun i => kconj (v y i) * w i)) by (intros; rewrite kconj_mul, kconj_inv; ring).
    rewrite H0 by lia. apply kconj_0.
  - rewrite delta_neq by congruence. apply H0. lia.
  - apply Hv; lia.
Qed.

Lemma deflate m n A k u v s B : partial_svd m n A k u v s B ->
  (exists i j, (i < m)%nat /\ (j < n)%nat /\ B i j <> 0) ->
  exists u' v' s' B', partial_svd m n A (S k) u' v' s' B'.
Proof.
  intros H HB. destruct (top_singular m n B HB) as (t & p & q & Ht & Hp & Hq & H1 & H2 & H3).
  assert (Hq0 : forall x, (x < k)%nat -> sum n (fun j => kconj (v x j) * q j) = 0).
  { intros x Hx. transitivity (rinj (/ t)%R * (rinj t * sum n (fun j => kconj (v x j) * q j))).
    { transitivity (rinj t * rinj (/ t)%R * sum n (fun j => kconj (v x j) * q j)); [rewrite rinj_inv by lra; ring|ring]. }
    rewrite sum_mul_l. rewrite (sum_ext n _ (fun j => sum m (fun i => kconj (B i j * v x j) * p i))).
    - rewrite sum_swap. rewrite (sum_zero m); [ring|]. intros i Hi. rewrite <- sum_mul_r, <- sum_conj.
      change (sum n (fun j => B i j * v x j)) with (mv n B (v x) i). rewrite (ps_Bv _ _ _ _ _ _ _ _ H) by assumption. rewrite kconj_0. ring.
    - intros j Hj. transitivity (kconj (v x j) * (rinj t * q j)); [ring|]. rewrite <- H2, sum_mul_l by exact Hj.
      apply sum_ext. intros i Hi. rewrite kconj_mul. ring. }
  assert (Hp0 : forall x, (x < k)%nat -> sum m (fun i => kconj (u x i) * p i) = 0).
  { intros x Hx. transitivity (rinj (/ t)%R * (rinj t * sum m (fun i => kconj (u x i) * p i))).
    { transitivity (rinj t * rinj (/ t)%R * sum m (fun i => kconj (u x i) * p i)); [rewrite rinj_inv by lra; ring|ring]. }
    rewrite sum_mul_l. rewrite (sum_ext m _ (fun i => sum n (fun j => kconj (u x i) * B i j * q j))).
    - rewrite sum_swap. rewrite (sum_zero n); [ring|]. intros j Hj. rewrite <- sum_mul_r.
      rewrite (ps_Bu _ _ _ _ _ _ _ _ H) by assumption. ring.
    - intros i Hi. transitivity (kconj (u x i) * (rinj t * p i)); [ring|]. rewrite <- H1 by exact Hi. unfold mv. rewrite sum_mul_l.
      apply sum_ext. intros j Hj. ring. }
  set (u' := fun x => if Nat.eqb x k then p else u x). set (v' := fun x => if Nat.eqb x k then q else v x).
  set (s' := fun x => if Nat.eqb x k then t else s x).
  set (B' := fun i j => B i j - p i * rinj t * kconj (q j)).
  assert (Huk : u' k = p) by (unfold u'; rewrite Nat.eqb_refl; reflexivity).
  assert (Hvk : v' k = q) by (unfold v'; rewrite Nat.eqb_refl; reflexivity).
  assert (Hsk : s' k = t) by (unfold s'; rewrite Nat.eqb_refl; reflexivity).
  assert (Hux : forall x, (x < k)%nat -> u' x = u x) by (intros x Hx; unfold u'; destruct (Nat.eqb_spec x k); [lia|reflexivity]).
  assert (Hvx : forall x, (x < k)%nat -> v' x = v x) by (intros x Hx; unfold v'; destruct (Nat.eqb_spec x k); [lia|reflexivity]).
  assert (Hsx : forall x, (x < k)%nat -> s' x = s x) by (intros x Hx; unfold s'; destruct (Nat.eqb_spec x k); [lia|reflexivity]).
  assert (Hts : forall x, (x < k)%nat -> (t <= s x)%R).
  { intros x Hx. pose proof (ps_bound _ _ _ _ _ _ _ _ H x q Hx) as Hb. rewrite Hq in Hb.
    rewrite (vsq_ext m _ (fun i => rinj t * p i)) in Hb by exact H1. rewrite vsq_scale, Hp in Hb.
    pose proof (ps_pos _ _ _ _ _ _ _ _ H x Hx). nra. }
  assert (HB'mv : forall w i, (i < m)%nat -> mv n B' w i = mv n B w i - p i * rinj t * sum n (fun j => kconj (q j) * w j)).
  { intros w i Hi. unfold mv, B'. rewrite sum_mul_l, <- sum_sub. apply sum_ext. intros j Hj. ring. }
  exists u', v', s', B'. split.
  - apply orthonormal_ext; [apply (ps_u _ _ _ _ _ _ _ _ H)|exact Hp|exact Hp0].
  - apply orthonormal_ext; [apply (ps_v _ _ _ _ _ _ _ _ H)|exact Hq|exact Hq0].
  - intros x Hx. destruct (Nat.eq_dec x k) as [->|N]; [rewrite Hsk; exact Ht|]. rewrite Hsx by lia. apply (ps_pos _ _ _ _ _ _ _ _ H). lia.
  - intros x y Hxy Hy. destruct (Nat.eq_dec y k) as [->|N].
    + rewrite Hsk. destruct (Nat.eq_dec x k) as [->|N]; [rewrite Hsk; lra|]. rewrite Hsx by lia. apply Hts. lia.
    + rewrite !Hsx by lia. apply (ps_dec _ _ _ _ _ _ _ _ H); lia.
  - intros i j Hi Hj. cbn [sum]. rewrite Huk, Hvk, Hsk, (ps_eq _ _ _ _ _ _ _ _ H) by assumption.
    rewrite (sum_ext k (fun x => u' x i * rinj (s' x) * kconj (v' x j)) (fun x => u x i * rinj (s x) * kconj (v x j))).
    + unfold B'. ring.
    + intros x Hx. rewrite Hux, Hvx, Hsx by exact Hx. reflexivity.
  - intros x i Hx Hi. rewrite HB'mv by exact Hi. destruct (Nat.eq_dec x k) as [->|N].
    + rewrite Hvk, vsq_delta_1, H1 by assumption. ring.
    + rewrite Hvx by lia. rewrite (ps_Bv _ _ _ _ _ _ _ _ H) by (try assumption; lia).
      rewrite (sum_ext n _ (fun j => kconj (kconj (v x j) * q j))) by (intros; rewrite kconj_mul, kconj_inv; ring).
      rewrite <- sum_conj, Hq0 by lia. rewrite kconj_0. ring.
  - intros x j Hx Hj. unfold B'.
    transitivity (sum m (fun i => kconj (u' x i) * B i j) - sum m (fun i => kconj (u' x i) * p i) * (rinj t * kconj (q j))).
    { rewrite sum_mul_r, <- sum_sub. apply sum_ext. intros i Hi. ring. }
    destruct (Nat.eq_dec x k) as [->|N].
    + rewrite Huk, vsq_delta_1 by exact Hp.
      rewrite (sum_ext m _ (fun i => kconj (kconj (B i j) * p i))) by (intros; rewrite kconj_mul, kconj_inv; ring).
      rewrite <- sum_conj, H2, kconj_mul, rinj_conj by exact Hj. ring.
    + rewrite Hux by lia. rewrite (ps_Bu _ _ _ _ _ _ _ _ H), Hp0 by (try assumption; lia). ring.
  - assert (Hw : forall w, (vsq m (mv n B' w) <= vsq m (mv n B w))%R).
    { intros w. set (z := sum n (fun j => kconj (q j) * w j)).
      assert (Hpz : sum m (fun i => kconj (p i) * mv n B w i) = rinj t * z).
      { unfold mv. rewrite (sum_ext m _ (fun i => sum n (fun j => kconj (p i) * B i j * w j))) by (intros; rewrite sum_mul_l; apply sum_ext; intros; ring).
        rewrite sum_swap. unfold z. rewrite sum_mul_l. apply sum_ext. intros j Hj. rewrite <- sum_mul_r.
        rewrite (sum_ext m _ (fun i => kconj (kconj (B i j) * p i))) by (intros; rewrite kconj_mul, kconj_inv; ring).
        rewrite <- sum_conj, H2, kconj_mul, rinj_conj by exact Hj. ring. }
      assert (E : (vsq m (mv n B w) = vsq m (mv n B' w) + t * t * kmod2 z)%R).
      { apply rinj_inj. rewrite rinj_add, !rinj_mul, !vsq_spec, kmod2_spec.
        rewrite (sum_ext m (fun i => kconj (mv n B' w i) * mv n B' w i)
          (fun i => kconj (mv n B w i) * mv n B w i - kconj (kconj (p i) * mv n B w i) * (rinj t * z)
             - (kconj (p i) * mv n B w i) * (rinj t * kconj z) + (kconj (p i) * p i) * (rinj t * rinj t * (kconj z * z)))).
        - rewrite sum_add, !sum_sub, <- !sum_mul_r, <- sum_conj, Hpz, (vsq_delta_1 m p) by exact Hp. rewrite kconj_mul, rinj_conj. ring.
        - intros i Hi. rewrite HB'mv by exact Hi. fold z. rewrite kconj_sub, !kconj_mul, rinj_conj, kconj_inv. ring. }
      pose proof (kmod2_nonneg z). nra. }
    intros x w Hx. eapply Rle_trans; [apply Hw|]. destruct (Nat.eq_dec x k) as [->|N].
    + rewrite Hsk. apply H3.
    + rewrite Hsx by lia. apply (ps_bound _ _ _ _ _ _ _ _ H). lia.
Qed.

Lemma deflation m n A k :
  (exists l u v s B, partial_svd m n A l u v s B /\ forall i j, (i < m)%nat -> (j < n)%nat -> B i j = 0) \/
  exists u v s B, partial_svd m n A k u v s B.
Proof.
  induction k as [|k [IH|(u & v & s & B & H)]]; [right|left; exact IH|].
  - exists (fun _ _ => 0), (fun _ _ => 0), (fun _ => 0%R), A. split; try (intros; lia); try (intros x y Hx; lia).
    intros i j Hi Hj. cbn [sum]. ring.
  - destruct (classic (exists i j, (i < m)%nat /\ (j < n)%nat /\ B i j <> 0)) as [Hn|Hn].
    + right. apply (deflate _ _ _ _ _ _ _ _ H Hn).
    + left. exists k, u, v, s, B. split; [exact H|]. intros i j Hi Hj. destruct (keqb_spec (B i j) 0) as [E|E]; [exact E|].
      destruct Hn. exists i, j. auto.
Qed.

Theorem svd_exists m n A : is_matrix A m n -> (0 < m)%nat -> (0 < n)%nat -> exists U s V, is_svd m n A U s V.
Proof.
  intros HA Hm Hn.
  destruct (deflation m n (fun i j => get A [i; j]) (S n)) as [(l & u & v & s & B & H & HB)|(u & v & s & B & H)].
  2: { pose proof (orthonormal_bound n (S n) v (ps_v _ _ _ _ _ _ _ _ H)). lia. }
  pose proof (orthonormal_bound _ _ _ (ps_u _ _ _ _ _ _ _ _ H)) as Hlm.
  pose proof (orthonormal_bound _ _ _ (ps_v _ _ _ _ _ _ _ _ H)) as Hln.
  assert (Hmat : forall a b f, is_matrix (mk [a; b] f) a b) by (intros; split; [reflexivity|apply wf_mk]).
  destruct (Nat.eq_dec l 0) as [->|Hl].
  - exists (mk [m; 1]%nat (fun i => delta (nth 0 i 0%nat) 0)), [0%R], (mk [1; n]%nat (fun i => delta (nth 1 i 0%nat) 0)).
    split; [cbn; lia|]. split; [cbn; lia|]. split; [apply Hmat|]. split; [apply Hmat|].
    cbn [length nth].
    split; [intros [|i] Hi; cbn; [lra|lia]|]. split; [intros [|i] [|j] Hij Hj; cbn; try lra; lia|].
    split.
    { intros x y Hx Hy. assert (x = 0%nat) as -> by lia. assert (y = 0%nat) as -> by lia.
      rewrite (sum_ext m _ (fun i => delta i 0 * delta i 0)).
      - rewrite sum_delta_l by exact Hm. reflexivity.
      - intros i Hi. rewrite get_mk by (apply in_range_2; lia). cbn [nth]. rewrite kconj_delta. reflexivity. }
    split.
    { intros x y Hx Hy. assert (x = 0%nat) as -> by lia. assert (y = 0%nat) as -> by lia.
      rewrite (sum_ext n _ (fun i => delta i 0 * delta i 0)).
      - rewrite sum_delta_l by exact Hn. reflexivity.
      - intros i Hi. rewrite get_mk by (apply in_range_2; lia). cbn [nth]. rewrite kconj_delta. reflexivity. }
    intros i j Hi Hj. rewrite sum_1. cbn [nth]. rewrite rinj_0. rewrite (ps_eq _ _ _ _ _ _ _ _ H i j Hi Hj), HB by assumption. cbn [sum]. ring.
  - exists (mk [m; l] (fun i => u (nth 1 i 0%nat) (nth 0 i 0%nat))), (map s (seq 0 l)), (mk [l; n] (fun i => kconj (v (nth 0 i 0%nat) (nth 1 i 0%nat)))).
    unfold is_svd. rewrite map_length, seq_length.
    assert (Hs : forall k, (k < l)%nat -> nth k (map s (seq 0 l)) 0%R = s k).
    { intros k Hk. rewrite (nth_indep _ 0%R (s 0%nat)) by (rewrite map_length, seq_length; exact Hk). rewrite map_nth, seq_nth by exact Hk. reflexivity. }
    split; [lia|]. split; [lia|]. split; [apply Hmat|]. split; [apply Hmat|].
    split; [intros i Hi; rewrite Hs by exact Hi; left; apply (ps_pos _ _ _ _ _ _ _ _ H); exact Hi|].
    split; [intros i j Hij Hj; rewrite !Hs by lia; apply (ps_dec _ _ _ _ _ _ _ _ H); assumption|].
    split.
    { intros x y Hx Hy. rewrite <- (ps_u _ _ _ _ _ _ _ _ H x y Hx Hy). apply sum_ext. intros i Hi.
      rewrite !get_mk by (apply in_range_2; lia). reflexivity. }
    split.
    { intros x y Hx Hy. rewrite <- (ps_v _ _ _ _ _ _ _ _ H x y Hx Hy). apply sum_ext. intros i Hi.
      rewrite !get_mk by (apply in_range_2; lia). cbn [nth]. rewrite kconj_inv. reflexivity. }
    intros i j Hi Hj. rewrite (ps_eq _ _ _ _ _ _ _ _ H i j Hi Hj), HB by assumption.
    transitivity (sum l (fun x => u x i * rinj (s x) * kconj (v x j))); [ring|].
    apply sum_ext. intros k Hk. rewrite !get_mk by (apply in_range_2; lia). rewrite Hs by exact Hk. reflexivity.
Qed.

(** A routine with the contract. *)
Theorem svd_contract_satisfiable : exists svd, svd_contract svd.
Proof.
  assert (H : forall A : tensor, exists r : tensor * list R * tensor, forall m n, is_matrix A m n -> (0 < m)%nat -> (0 < n)%nat ->
     let '(U, s, V) := r in is_svd m n A U s V).
  { intros A. destruct (classic (exists m n, is_matrix A m n /\ (0 < m)%nat /\ (0 < n)%nat)) as [(m & n & HA & Hm & Hn)|N].
    - destruct (svd_exists m n A HA Hm Hn) as (U & s & V & H). exists (U, s, V). intros m' n' (HA' & _) _ _.
      destruct HA as (HA & _). rewrite HA in HA'. injection HA' as <- <-. exact H.
    - exists (A, [], A). intros m n H1 H2 H3. destruct N. exists m, n. auto. }
  exists (fun A => proj1_sig (constructive_indefinite_description _ (H A))).
  intros m n A HA Hm Hn. destruct (constructive_indefinite_description _ (H A)) as (r & Hr). cbn [proj1_sig]. apply Hr; assumption.
Qed.
End Exist.
