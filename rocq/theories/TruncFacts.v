(** Proofs about where_to_truncate *)
From Coq Require Import Reals Lra Bool List Arith ZArith Lia.
From Verif Require Import Scalar RScal Tensor Spec MpsModel CanonSpec CanonModel.
Import ListNotations.

Lemma Rltb_true x y : Rltb x y = true <-> (x < y)%R.
Proof. unfold Rltb. destruct (Rlt_dec x y); split; intros; auto; discriminate. Qed.
Lemma Rltb_false x y : Rltb x y = false <-> (y <= x)%R.
Proof. unfold Rltb. destruct (Rlt_dec x y); split; intros; auto; try discriminate; lra. Qed.
Lemma Rleb_true x y : Rleb x y = true <-> (x <= y)%R.
Proof. unfold Rleb. destruct (Rle_dec x y); split; intros; auto; discriminate. Qed.
Lemma Rleb_false x y : Rleb x y = false <-> (y < x)%R.
Proof. unfold Rleb. destruct (Rle_dec x y); split; intros; auto; try discriminate; lra. Qed.

Lemma tail_weight_nonneg s k : (0 <= tail_weight s k)%R.
Proof.
  unfold tail_weight. induction (skipn k s) as [|x l IH]; cbn; [lra|]. nra.
Qed.

Lemma tail_weight_S s k : (k < length s)%nat ->
  tail_weight s k = (nth k s 0 * nth k s 0 + tail_weight s (S k))%R.
Proof.
  unfold tail_weight. revert k. induction s as [|x s IH]; intros k Hk; cbn in Hk; [lia|].
  destruct k as [|k]; [reflexivity|]. cbn [skipn nth]. apply IH. lia.
Qed.

Lemma tail_weight_le s j k : (j <= k)%nat -> (tail_weight s k <= tail_weight s j)%R.
Proof.
  induction 1 as [|k H IH]; [lra|].
  destruct (le_lt_dec (length s) k) as [Hl|Hl].
  - unfold tail_weight at 1. rewrite skipn_all2 by lia. apply tail_weight_nonneg.
  - rewrite (tail_weight_S s k Hl) in IH. nra.
Qed.

Lemma tail_weight_past s k : (length s <= k)%nat -> tail_weight s k = 0%R.
Proof. intros H. unfold tail_weight. rewrite skipn_all2 by lia. reflexivity. Qed.

Lemma length_cumulated s : length (cumulated s) = length s.
Proof. induction s as [|x s IH]; cbn; congruence. Qed.

Lemma cumulated_hd s : hd 0%R (cumulated s) = tail_weight s 0.
Proof.
  induction s as [|x s IH]; [reflexivity|]. cbn. unfold tail_weight in *. cbn in *.
  rewrite <- IH. destruct (cumulated s); cbn; lra.
Qed.

Lemma nth_cumulated s k : nth k (cumulated s) 0%R = tail_weight s k.
Proof.
  revert k. induction s as [|x s IH]; intros k; [destruct k; reflexivity|].
  destruct k as [|k].
  - pose proof (cumulated_hd (x :: s)) as H. cbn [cumulated hd] in *. exact H.
  - cbn [cumulated nth]. rewrite IH. reflexivity.
Qed.

Lemma first_below_spec c limit m : (m <= length c)%nat ->
  let r := first_below c limit m in
  (r <= m)%nat /\
  (forall i, (i + 1 < r)%nat -> (limit < nth i c 0)%R) /\
  ((r = m /\ forall i, (i < m)%nat -> (limit < nth i c 0)%R) \/
   (0 < r)%nat /\ (nth (r - 1) c 0 <= limit)%R).
Proof.
  revert m. induction c as [|x c IH]; intros m Hm; cbn in Hm.
  - assert (m = 0)%nat as -> by lia. cbn. split; [lia|split; [intros; lia|left; split; [reflexivity|intros; lia]]].
  - destruct m as [|m]; cbn; [split; [lia|split; [intros; lia|left; split; [reflexivity|intros; lia]]]|].
    destruct (Rleb x limit) eqn:E.
    + apply Rleb_true in E. split; [lia|]. split; [intros; lia|]. right. split; [lia|]. exact E.
    + apply Rleb_false in E. destruct (IH m ltac:(lia)) as (H1 & H2 & H3).
      split; [lia|]. split.
      * intros i Hi. destruct i as [|i]; [exact E|]. cbn. apply H2. lia.
      * destruct H3 as [(H3 & H4)|(H3 & H4)].
        -- left. split; [lia|]. intros i Hi. destruct i as [|i]; [exact E|]. cbn. apply H4. lia.
        -- right. split; [lia|]. destruct (first_below c limit m) as [|r]; [lia|].
           cbn in *. rewrite Nat.sub_0_r in H4. exact H4.
Qed.

Lemma last_nonzero_le s : (last_nonzero s <= length s)%nat.
Proof.
  induction s as [|x s IH]; cbn; [lia|].
  destruct (last_nonzero s) as [|n]; [destruct (Req_EM_T x 0); lia|lia].
Qed.

Lemma last_nonzero_beyond s k : (last_nonzero s <= k)%nat -> nth k s 0%R = 0%R.
Proof.
  revert k. induction s as [|x s IH]; intros k Hk; [destruct k; reflexivity|].
  cbn in Hk. destruct (last_nonzero s) as [|n].
  - destruct (Req_EM_T x 0) as [->|Hx].
    + destruct k as [|k]; [reflexivity|]. cbn. apply IH. lia.
    + destruct k as [|k]; [lia|]. cbn. apply IH. lia.
  - destruct k as [|k]; [lia|]. cbn. apply IH. lia.
Qed.

Lemma last_nonzero_last s n : last_nonzero s = S n -> nth n s 0%R <> 0%R.
Proof.
  revert n. induction s as [|x s IH]; intros n; cbn; [discriminate|].
  destruct (last_nonzero s) as [|m].
  - destruct (Req_EM_T x 0) as [E|E]; [discriminate|]. intros [= <-]. exact E.
  - intros [= <-]. cbn. apply IH. reflexivity.
Qed.

(** Effective limits *)
Definition eff_max (s : list R) (max_dim : Z) : nat :=
  if (max_dim <=? 0)%Z || (Z.of_nat (length s) <? max_dim)%Z then length s else Z.to_nat max_dim.
Definition eff_tol (flag tol : R) : R := if Rltb tol 0 then flag else tol.

Lemma eff_max_le s max_dim : (eff_max s max_dim <= length s)%nat.
Proof.
  unfold eff_max. destruct (Z.leb_spec max_dim 0), (Z.ltb_spec (Z.of_nat (length s)) max_dim); cbn; lia.
Qed.

Lemma eff_max_big s n : (length s <= n)%nat -> (0 < n)%nat -> eff_max s (Z.of_nat n) = length s.
Proof.
  intros H Hn. unfold eff_max.
  destruct (Z.leb_spec (Z.of_nat n) 0), (Z.ltb_spec (Z.of_nat (length s)) (Z.of_nat n)); cbn; lia.
Qed.

Lemma wtt_unfold flag s tol max_dim :
  where_to_truncate flag s tol max_dim =
    if Rleb 1 (eff_tol flag tol) then eff_max s max_dim
    else if Req_EM_T (eff_tol flag tol) 0 then Nat.min (last_nonzero s) (eff_max s max_dim)
    else first_below (cumulated s) (Rmax (eff_tol flag tol) DBL_EPSILON * tail_weight s 0) (eff_max s max_dim).
Proof. unfold where_to_truncate. rewrite cumulated_hd. reflexivity. Qed.

Lemma wtt_le flag s tol max_dim :
  (where_to_truncate flag s tol max_dim <= eff_max s max_dim)%nat.
Proof.
  rewrite wtt_unfold. destruct (Rleb 1 (eff_tol flag tol)); [lia|].
  destruct (Req_EM_T (eff_tol flag tol) 0); [lia|].
  apply first_below_spec. rewrite length_cumulated. apply eff_max_le.
Qed.

Lemma wtt_le_length flag s tol max_dim : (where_to_truncate flag s tol max_dim <= length s)%nat.
Proof. eapply Nat.le_trans; [apply wtt_le|apply eff_max_le]. Qed.

Lemma eps_pos : (0 < DBL_EPSILON < 1)%R.
Proof.
  unfold DBL_EPSILON. assert (H : (1 < 2 ^ 52)%R) by (rewrite <- (pow1 52); apply Rlt_pow_R1 || (simpl; lra)).
  split; [apply Rinv_0_lt_compat; lra|]. rewrite <- Rinv_1. apply Rinv_lt_contravar; lra.
Qed.

(** The weight discarded when max_dim does not bind. *)
Lemma wtt_weight flag s tol max_dim : (0 < eff_tol flag tol)%R -> 
  (where_to_truncate flag s tol max_dim < eff_max s max_dim)%nat ->
  (tail_weight s (where_to_truncate flag s tol max_dim)
   <= Rmax (eff_tol flag tol) DBL_EPSILON * tail_weight s 0)%R.
Proof.
  intros Ht. rewrite wtt_unfold. destruct (Rleb 1 (eff_tol flag tol)); [lia|].
  destruct (Req_EM_T (eff_tol flag tol) 0); [lra|].
  destruct (first_below_spec (cumulated s) (Rmax (eff_tol flag tol) DBL_EPSILON * tail_weight s 0) (eff_max s max_dim))
    as (H1 & H2 & H3); [rewrite length_cumulated; apply eff_max_le|].
  set (r := first_below _ _ _) in *. intros Hr. destruct H3 as [(H3 & _)|(H3 & H4)]; [lia|].
  rewrite nth_cumulated in H4. eapply Rle_trans; [|exact H4]. apply tail_weight_le. lia.
Qed.

Lemma wtt_zeros flag s tol max_dim : eff_tol flag tol = 0%R ->
  where_to_truncate flag s tol max_dim = Nat.min (last_nonzero s) (eff_max s max_dim).
Proof.
  intros Ht. rewrite wtt_unfold, Ht. destruct (Rleb 1 0) eqn:E; [apply Rleb_true in E; lra|].
  destruct (Req_EM_T 0 0); [reflexivity|lra].
Qed.

Lemma wtt_none flag s tol max_dim : (1 <= eff_tol flag tol)%R ->
  where_to_truncate flag s tol max_dim = eff_max s max_dim.
Proof.
  intros Ht. rewrite wtt_unfold. destruct (Rleb 1 (eff_tol flag tol)) eqn:E; [reflexivity|].
  apply Rleb_false in E. lra.
Qed.

(** At least one value is kept. *)
Lemma wtt_pos flag s tol max_dim : (0 < length s)%nat ->
  (eff_tol flag tol <> 0%R \/ exists k, nth k s 0%R <> 0%R) ->
  (0 < where_to_truncate flag s tol max_dim)%nat.
Proof.
  intros Hl Ht. assert (Hm : (0 < eff_max s max_dim)%nat).
  { unfold eff_max. destruct (Z.leb_spec max_dim 0), (Z.ltb_spec (Z.of_nat (length s)) max_dim); cbn; lia. }
  rewrite wtt_unfold. destruct (Rleb 1 (eff_tol flag tol)); [lia|].
  destruct (Req_EM_T (eff_tol flag tol) 0) as [E|E].
  - destruct Ht as [Ht|(k & Hk)]; [contradiction|].
    destruct (last_nonzero s) eqn:El; [|lia].
    exfalso. apply Hk. apply last_nonzero_beyond. lia.
  - destruct (eff_max s max_dim) as [|m]; [lia|]. destruct s as [|x s]; [cbn in Hl; lia|].
    cbn [cumulated first_below]. destruct (Rleb _ _); lia.
Qed.

(** Minimality, up to one extra value. *)
Lemma wtt_minimal flag s tol max_dim i : (0 < eff_tol flag tol)%R -> (eff_tol flag tol < 1)%R ->
  (i + 1 < where_to_truncate flag s tol max_dim)%nat ->
  (Rmax (eff_tol flag tol) DBL_EPSILON * tail_weight s 0 < tail_weight s i)%R.
Proof.
  intros Ht Ht1. rewrite wtt_unfold. destruct (Rleb 1 (eff_tol flag tol)) eqn:E; [apply Rleb_true in E; lra|].
  destruct (Req_EM_T (eff_tol flag tol) 0); [lra|].
  destruct (first_below_spec (cumulated s) (Rmax (eff_tol flag tol) DBL_EPSILON * tail_weight s 0) (eff_max s max_dim))
    as (H1 & H2 & H3); [rewrite length_cumulated; apply eff_max_le|].
  intros Hi. rewrite <- (nth_cumulated s i). apply H2. exact Hi.
Qed.

(** All values kept are kept, all dropped ones are zero: exactness. *)
Definition exact_flag (flag : R) : Prop := flag = 0%R \/ (1 <= flag)%R.

Lemma wtt_exact flag s tol n : (eff_tol flag tol = 0%R \/ (1 <= eff_tol flag tol)%R) ->
  (length s <= n)%nat -> (0 < n)%nat ->
  forall k, (where_to_truncate flag s tol (Z.of_nat n) <= k)%nat -> nth k s 0%R = 0%R.
Proof.
  intros Ht Hn Hp k Hk. destruct Ht as [Ht|Ht].
  - rewrite wtt_zeros, eff_max_big in Hk by assumption.
    apply last_nonzero_beyond. pose proof (last_nonzero_le s). lia.
  - rewrite wtt_none, eff_max_big in Hk by assumption. apply nth_overflow. exact Hk.
Qed.
