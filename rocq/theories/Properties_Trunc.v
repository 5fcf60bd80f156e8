(** * where_to_truncate: the value it returns, in all cases (C16) *)
From Coq Require Import Reals Lra Bool List Arith ZArith Lia.
From Verif Require Import Scalar RScal Tensor Spec CanonSpec CanonModel TruncFacts Properties_Canon.
Import ListNotations.
Local Open Scope R_scope.

(** The largest number of values that may be kept *)
Definition most (s : list R) (max_dim : Z) : nat := if (max_dim <=? 0)%Z then length s else Nat.min (length s) (Z.to_nat max_dim).
Lemma most_eff s max_dim : eff_max s max_dim = most s max_dim.
Proof. unfold most, eff_max. destruct (Z.leb_spec max_dim 0); [reflexivity|]. destruct (Z.ltb_spec (Z.of_nat (length s)) max_dim); cbn [orb]; lia. Qed.

(** With a tolerance strictly between 0 and 1 the number returned is one more than the least number i of values such that the weight
    of the others is within the limit, or the largest number allowed if there is no such i below it. *)
Theorem C16_exact flag s tol max_dim :
  let t := if Rlt_dec tol 0 then flag else tol in
  let limit := Rmax t (/ 2 ^ 52) * tail_weight s 0 in
  let n := where_to_truncate flag s tol max_dim in
  0 < t < 1 ->
  (n = most s max_dim /\ forall i, (i < most s max_dim)%nat -> limit < tail_weight s i) \/
  exists i, n = S i /\ (i < most s max_dim)%nat /\ tail_weight s i <= limit /\ forall j, (j < i)%nat -> limit < tail_weight s j.
Proof.
  intros t limit n (Ht & Ht1). assert (Et : t = eff_tol flag tol) by (unfold t, eff_tol, Rltb; destruct (Rlt_dec tol 0); reflexivity). clearbody t.
  unfold n. rewrite wtt_unfold, <- Et. destruct (Rleb 1 t) eqn:E; [apply Rleb_true in E; lra|]. destruct (Req_EM_T t 0); [lra|].
  change DBL_EPSILON with (/ 2 ^ 52). fold limit. rewrite most_eff.
  destruct (first_below_spec (cumulated s) limit (most s max_dim)) as (H1 & H2 & H3); [rewrite length_cumulated, <- most_eff; apply eff_max_le|].
  set (r := first_below (cumulated s) limit (most s max_dim)) in *. destruct H3 as [(H3 & H4)|(H3 & H4)].
  - left. split; [exact H3|]. intros i Hi. rewrite <- nth_cumulated. apply H4. exact Hi.
  - right. exists (r - 1)%nat. split; [lia|]. split; [lia|]. split; [rewrite <- nth_cumulated; exact H4|]. intros j Hj. rewrite <- nth_cumulated. apply H2. lia.
Qed.

(** So, when the bound on the dimension does not bind, one value more than necessary is kept: the weight of the dropped values stays
    within the limit if the last of the values kept is dropped too. *)
Theorem C16_one_more flag s tol max_dim :
  let t := if Rlt_dec tol 0 then flag else tol in
  let n := where_to_truncate flag s tol max_dim in
  0 < t < 1 -> (n < most s max_dim)%nat -> (0 < n)%nat /\ tail_weight s (n - 1) <= Rmax t (/ 2 ^ 52) * tail_weight s 0.
Proof.
  intros t n Ht Hn. destruct (C16_exact flag s tol max_dim Ht) as [(E & _)|(i & E & _ & Hw & _)]; fold n in E; [lia|]. rewrite E. split; [lia|]. replace (S i - 1)%nat with i by lia. exact Hw.
Qed.

(** [s = (2, 1)], tolerance 1/4: dropping the second value would be within the limit (1 <= 5/4); both are kept.  With tolerance 1/10 both
    are needed. *)
Theorem C16_exact_case flag : where_to_truncate flag [2; 1] (1 / 4) 0 = 2%nat /\ tail_weight [2; 1] 1 <= Rmax (1 / 4) (/ 2 ^ 52) * tail_weight [2; 1] 0 /\
  where_to_truncate flag [10; 1; 1 / 10] (1 / 10) 0 = 2%nat.
Proof.
  assert (Q : / 2 ^ 52 <= 1 / 10).
  { replace (1 / 10) with (/ 10) by lra. apply Rinv_le_contravar; [lra|]. replace 52%nat with (4 + 48)%nat by reflexivity. rewrite pow_add. assert (1 <= 2 ^ 48) by (apply pow_R1_Rle; lra). assert (2 ^ 4 = 16) by ring. nra. }
  split; [|split].
  - destruct (C16_exact flag [2; 1] (1 / 4) 0) as [(E & _)|(i & E & Hi & Hw & Hj)]; [destruct (Rlt_dec (1 / 4) 0); lra|exact E|]. rewrite E. cbn in Hi. destruct i as [|[|i]]; [|reflexivity|lia].
    exfalso. revert Hw. destruct (Rlt_dec (1 / 4) 0); [lra|]. rewrite Rmax_left by lra. unfold tail_weight. cbn. lra.
  - rewrite Rmax_left by lra. unfold tail_weight. cbn. lra.
  - destruct (C16_exact flag [10; 1; 1 / 10] (1 / 10) 0) as [(E & Hall)|(i & E & Hi & Hw & Hj)]; [destruct (Rlt_dec (1 / 10) 0); lra| |].
    + exfalso. specialize (Hall 1%nat ltac:(cbn; lia)). revert Hall. destruct (Rlt_dec (1 / 10) 0); [lra|]. rewrite Rmax_left by lra. unfold tail_weight. cbn. lra.
    + rewrite E. cbn in Hi. destruct i as [|[|i]]; [|reflexivity|].
      * exfalso. revert Hw. destruct (Rlt_dec (1 / 10) 0); [lra|]. rewrite Rmax_left by lra. unfold tail_weight. cbn. lra.
      * exfalso. specialize (Hj 1%nat ltac:(lia)). revert Hj. destruct (Rlt_dec (1 / 10) 0); [lra|]. rewrite Rmax_left by lra. unfold tail_weight. cbn. lra.
Qed.
