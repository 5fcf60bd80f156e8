(** * The lowest eigenvector exists

    The contract assumed of linalg::eigs in the theorems about minimize() can be met, by a solver which always
    converges.  (Not a model of any code: it shows that the hypotheses [eigs_contract] and [eigs_converges] are
    satisfiable.) *)
From Coq Require Import Reals Lra Bool List Arith Lia Ring Classical ClassicalEpsilon.
From Verif Require Import Scalar ScalarFacts RScal Tensor TensorFacts Spec CanonSpec SvdExist MinimizerModel MinimizeSpec.
Import ListNotations.
Local Open Scope K_scope.

Section Exist.
Context {RS : RScal}.
Add Ring Kring : k_ring.

Lemma qf_mv n M v : qf n M v = sum n (fun i => kconj (v i) * mv n M v i).
Proof. unfold qf, mv. apply sum_ext. intros i _. rewrite sum_mul_l. apply sum_ext. intros j _. ring. Qed.

Lemma qf_below n M : herm n M -> exists c, (0 <= c)%R /\ forall v, (- c * vsq n v <= kre (qf n M v))%R.
Proof.
  intros HM. destruct (mv_bounded n n M) as (c & Hc & Hb). exists (1 + c)%R. split; [lra|]. intros v.
  assert (E : vsq n (fun i => v i + mv n M v i) = (vsq n v + 2 * kre (qf n M v) + vsq n (mv n M v))%R).
  { apply rinj_inj. rewrite !rinj_add, rinj_mul, qf_real, !vsq_spec by exact HM.
    assert (E2 : rinj 2 = 1 + 1) by (replace 2%R with (1 + 1)%R by ring; rewrite rinj_add, rinj_1; reflexivity). rewrite E2.
    assert (EC : sum n (fun i => kconj (mv n M v i) * v i) = qf n M v).
    { rewrite <- (qf_real n M v HM), <- (rinj_conj (kre _)), (qf_real n M v HM), qf_mv, sum_conj. apply sum_ext. intros i _. rewrite kconj_mul, kconj_inv. ring. }
    transitivity (sum n (fun i => kconj (v i) * v i) + sum n (fun i => kconj (v i) * mv n M v i) + (sum n (fun i => kconj (mv n M v i) * v i) + sum n (fun i => kconj (mv n M v i) * mv n M v i))).
    - rewrite <- !sum_add. apply sum_ext. intros i _. rewrite kconj_add. ring.
    - rewrite EC, <- qf_mv. ring. }
  pose proof (vsq_nonneg n (fun i => v i + mv n M v i)) as H1. rewrite E in H1. pose proof (Hb v). pose proof (vsq_nonneg n v). nra.
Qed.

Lemma qf_scale n M r v : qf n M (fun i => rinj r * v i) = rinj (r * r)%R * qf n M v.
Proof.
  unfold qf. rewrite sum_mul_l. apply sum_ext. intros i _. rewrite sum_mul_l. apply sum_ext. intros j _. rewrite kconj_mul, rinj_conj, rinj_mul. ring.
Qed.

Theorem lowest_exists n M : (0 < n)%nat -> hermitian n M -> exists e p, ground_state n M e p.
Proof.
  intros Hn HM0. assert (HM : herm n M) by (intros i j Hi Hj; rewrite (HM0 j i Hj Hi); reflexivity).
  destruct (qf_below n M HM) as (c & Hc & Hb).
  destruct (completeness (fun r => exists v, vsq n v = 1%R /\ r = (- kre (qf n M v))%R)) as (L & HL1 & HL2).
  { exists c. intros r (v & Hv & ->). specialize (Hb v). rewrite Hv in Hb. lra. }
  { exists (- kre (qf n M (fun j => delta j 0)))%R. exists (fun j => delta j 0%nat). split; [apply vsq_delta; exact Hn|reflexivity]. }
  set (e := (- L)%R).
  assert (Hlow : forall v, (e * vsq n v <= kre (qf n M v))%R).
  { intros v. destruct (Req_dec (vsq n v) 0) as [E|E].
    - specialize (Hb v). rewrite E in *. lra.
    - pose proof (vsq_nonneg n v). destruct (normalise n v) as (r & Hr & Hrw); [lra|].
      assert (H1 : (- kre (qf n M (fun j => rinj r * v j)%K) <= L)%R).
      { apply HL1. exists (fun j => rinj r * v j). split; [rewrite vsq_scale; exact Hrw|reflexivity]. }
      rewrite qf_scale in H1. rewrite <- (qf_real n M v HM), <- rinj_mul, kre_rinj in H1.
      apply Rmult_le_reg_l with (r * r)%R; [nra|]. unfold e. replace (r * r * (- L * vsq n v))%R with (- L * (r * r * vsq n v))%R by ring.
      rewrite Hrw. lra. }
  set (N := fun i j => M i j - rinj e * delta i j).
  assert (HN : herm n N).
  { intros i j Hi Hj. unfold N. rewrite kconj_sub, kconj_mul, rinj_conj, kconj_delta, (HM i j Hi Hj). unfold delta. rewrite (Nat.eqb_sym j i). reflexivity. }
  assert (HNv : forall v i, (i < n)%nat -> mv n N v i = mv n M v i - rinj e * v i).
  { intros v i Hi. unfold mv, N. transitivity (sum n (fun j => M i j * v j - rinj e * (delta i j * v j))); [apply sum_ext; intros; ring|].
    rewrite sum_sub, <- sum_mul_l, sum_delta_l' by exact Hi. reflexivity. }
  assert (HQ : forall v, kre (qf n N v) = (kre (qf n M v) - e * vsq n v)%R).
  { intros v. apply rinj_inj. rewrite qf_real, rinj_sub, qf_real, rinj_mul, vsq_spec by assumption. rewrite !qf_mv, sum_mul_l, <- sum_sub.
    apply sum_ext. intros i Hi. rewrite HNv by exact Hi. ring. }
  destruct (psd_dec n N HN) as [(w & (i1 & Hi1 & Hw1) & Hw)|(d & Hd & Hw)].
  { intros v. rewrite HQ. specialize (Hlow v). lra. }
  - destruct (normalise n w (vsq_pos n w i1 Hi1 Hw1)) as (r & Hr & Hrw).
    exists e, (fun j => rinj r * w j). split; [change (vsq n (fun j => rinj r * w j) = 1%R); rewrite vsq_scale; exact Hrw|]. split.
    + intros i Hi. change (mv n M (fun j => rinj r * w j) i = rinj e * (rinj r * w i)). rewrite mv_scale.
      pose proof (HNv w i Hi) as E. unfold mv at 1 in E. rewrite Hw in E by exact Hi.
      transitivity (rinj r * (mv n M w i - rinj e * w i + rinj e * w i)); [ring|]. rewrite <- E. ring.
    + intros v. apply Hlow.
  - exfalso. assert (L <= L - d)%R; [|lra]. apply HL2. intros r (v & Hv & ->). specialize (Hw v). rewrite HQ, Hv in Hw. unfold e in Hw. lra.
Qed.

Lemma acts_as_unique f n M M' : acts_as f n M -> acts_as f n M' -> forall i j, (i < n)%nat -> (j < n)%nat -> M i j = M' i j.
Proof.
  intros H H' i j Hi Hj. set (v := mk [n] (fun ix => delta (nth 0 ix 0%nat) j)).
  assert (Hw : wf v) by apply wf_mk. assert (Hd : dims v = [n]) by reflexivity.
  destruct (H v Hw Hd) as (w & E & _ & _ & HV). destruct (H' v Hw Hd) as (w' & E' & _ & _ & HV'). rewrite E in E'.
  assert (w' = w) by (injection E'; auto). subst w'.
  assert (G : forall q, (q < n)%nat -> get v [q] = delta q j) by (intros q Hq; unfold v; rewrite get_mk by (constructor; [exact Hq|constructor]); reflexivity).
  specialize (HV i Hi). specialize (HV' i Hi). rewrite HV in HV'.
  rewrite (sum_ext n _ (fun q => M i q * delta q j)) in HV' by (intros q Hq; rewrite G by exact Hq; reflexivity).
  rewrite (sum_ext n (fun q => M' i q * _) (fun q => M' i q * delta q j)) in HV' by (intros q Hq; rewrite G by exact Hq; reflexivity).
  rewrite !sum_delta_r in HV' by exact Hj. exact HV'.
Qed.

Lemma ground_state_ext n M M' e p p' : (forall i j, (i < n)%nat -> (j < n)%nat -> M i j = M' i j) -> (forall i, (i < n)%nat -> p i = p' i) ->
  ground_state n M e p -> ground_state n M' e p'.
Proof.
  intros HM Hp (G1 & G2 & G3). split; [|split].
  - rewrite <- G1. symmetry. apply rsum_ext. intros i Hi. rewrite Hp by exact Hi. reflexivity.
  - intros i Hi. rewrite <- Hp, <- G2 by exact Hi. apply sum_ext. intros j Hj. rewrite HM, Hp by assumption. reflexivity.
  - intros v. eapply Rle_trans; [apply G3|]. right. f_equal. apply sum_ext. intros i Hi. apply sum_ext. intros j Hj. rewrite HM by assumption. reflexivity.
Qed.

(** A solver: it returns the lowest eigenvector when one number is asked for. *)
Definition exact_eigs (f : tensor -> result tensor) (n neig : nat) (v0 : tensor) : result (list K * tensor * bool) :=
  let s := epsilon (inhabits (0%R, fun _ => 0)) (fun ep => exists M, acts_as f n M /\ ground_state n M (fst ep) (snd ep)) in
  if Nat.eqb neig 1 then Ok ([rinj (fst s)], mkT [n] (map (snd s) (seq 0 n)), true)
  else Ok (repeat 0 neig, mkT [n; neig] (repeat 0 (n * neig)), true).

Theorem eigs_contract_satisfiable : eigs_contract exact_eigs /\ eigs_converges exact_eigs.
Proof.
  split.
  - intros f n neig v0 M H1 H2 _ HA HM. unfold exact_eigs. set (s := epsilon _ _).
    assert (Hs : exists M', acts_as f n M' /\ ground_state n M' (fst s) (snd s)).
    { unfold s. apply epsilon_spec. destruct (lowest_exists n M ltac:(lia) HM) as (e & p & G). exists (e, p), M. auto. }
    clearbody s. destruct (Nat.eqb_spec neig 1) as [->|Hne].
    + exists [rinj (fst s)], (mkT [n] (map (snd s) (seq 0 n))), true. split; [reflexivity|]. split; [reflexivity|]. cbn [data].
      rewrite map_length, seq_length. split; [lia|]. intros _ _. exists (fst s). split; [reflexivity|].
      destruct Hs as (M' & HA' & HG). apply (ground_state_ext n M' M (fst s) (snd s)); [apply (acts_as_unique f); assumption| |exact HG].
      intros i Hi. rewrite (nth_map_seq (snd s)) by exact Hi. reflexivity.
    + exists (repeat 0 neig), (mkT [n; neig] (repeat 0 (n * neig))), true. split; [reflexivity|]. split; [apply repeat_length|]. cbn [data].
      split; [apply repeat_length|]. intros E. contradiction.
  - intros f n neig v0 E P b. unfold exact_eigs. destruct (Nat.eqb neig 1); intros H; injection H as _ _ <-; reflexivity.
Qed.
End Exist.
