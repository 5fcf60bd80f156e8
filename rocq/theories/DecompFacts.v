(** Proofs about limited_svd, decompose_operator and split_interaction *)
From Coq Require Import Reals Lra Bool List Arith ZArith Lia Ring.
From Verif Require Import Scalar ScalarFacts RScal Tensor TensorFacts Spec MpsModel CanonSpec CanonModel
  TruncFacts SplitFacts CanonNorm HamModel DecompModel.
Import ListNotations.
Local Open Scope K_scope.

Section Facts.
Context {RS : RScal}.
Add Ring Kring : k_ring.

Lemma nth_map_R (f : R -> R) l k : (k < length l)%nat -> nth k (map f l) 0%R = f (nth k l 0%R).
Proof.
  intros H. rewrite (nth_indep _ 0%R (f 0%R)) by (rewrite map_length; exact H). apply map_nth.
Qed.

Lemma get_regroup U0 d r1 r2 c1 c2 : is_matrix U0 (d * d) (d * d) ->
  (r1 < d)%nat -> (r2 < d)%nat -> (c1 < d)%nat -> (c2 < d)%nat ->
  get (regroup U0 d d) [r1 + d * c1; r2 + d * c2]%nat = get U0 [r1 + d * r2; c1 + d * c2]%nat.
Proof.
  intros (Hd & Hw) H1 H2 H3 H4. unfold regroup.
  rewrite (get_reshape _ [d * d; d * d]%nat _ [r1; c1; r2; c2]) by (cbn; nia).
  unfold permute. rewrite get_mk by (cbn; repeat constructor; assumption).
  apply get_reshape. rewrite Hd. cbn. nia.
Qed.

Lemma regroup_matrix U0 d : is_matrix (regroup U0 d d) (d * d) (d * d).
Proof.
  split; [reflexivity|]. unfold regroup. apply wf_reshape; [apply wf_mk|].
  unfold permute. rewrite dims_mk. cbn. lia.
Qed.

(** Frobenius norm through real sums *)
Lemma frob2_rsum t a b : dims t = [a; b] -> wf t ->
  frob2 t = rsum a (fun x => rsum b (fun z => kmod2 (get t [x; z]))).
Proof.
  intros Hd Hw. apply rinj_inj. rewrite (frob2_2 t a b Hd Hw), rinj_rsum. apply sum_ext. intros x Hx.
  rewrite rinj_rsum. apply sum_ext. intros z Hz. rewrite kmod2_spec. reflexivity.
Qed.

Lemma rsum_merge a b f : rsum (a * b) f = rsum b (fun j => rsum a (fun i => f (i + a * j)%nat)).
Proof.
  apply rinj_inj. rewrite !rinj_rsum, sum_merge. apply sum_ext. intros j Hj. rewrite rinj_rsum. reflexivity.
Qed.

Lemma rsum_swap' n m f : rsum n (fun i => rsum m (fun j => f i j)) = rsum m (fun j => rsum n (fun i => f i j)).
Proof.
  apply rinj_inj. rewrite !rinj_rsum.
  transitivity (sum n (fun i => sum m (fun j => rinj (f i j)))).
  - apply sum_ext. intros. apply rinj_rsum.
  - rewrite sum_swap. apply sum_ext. intros. rewrite rinj_rsum. reflexivity.
Qed.

Lemma frob2_regroup U0 d : is_matrix U0 (d * d) (d * d) -> frob2 (regroup U0 d d) = frob2 U0.
Proof.
  intros H. destruct (regroup_matrix U0 d) as (Hd & Hw).
  rewrite (frob2_rsum _ _ _ Hd Hw). destruct H as (Hd' & Hw'). rewrite (frob2_rsum _ _ _ Hd' Hw').
  rewrite (rsum_merge d d). rewrite (rsum_merge d d).
  (* c1 r1 (r2 c2) vs r2 r1 (c1 c2) *)
  transitivity (rsum d (fun c1 => rsum d (fun r1 => rsum d (fun c2 => rsum d (fun r2 =>
     kmod2 (get U0 [r1 + d * r2; c1 + d * c2]%nat)))))).
  - apply rsum_ext. intros c1 Hc1. apply rsum_ext. intros r1 Hr1. rewrite rsum_merge.
    apply rsum_ext. intros c2 Hc2. apply rsum_ext. intros r2 Hr2.
    rewrite get_regroup by (try assumption; split; assumption). reflexivity.
  - transitivity (rsum d (fun r1 => rsum d (fun c2 => rsum d (fun r2 => rsum d (fun c1 => 
     kmod2 (get U0 [r1 + d * r2; c1 + d * c2]%nat)))))).
    + rewrite rsum_swap'. apply rsum_ext. intros r1 Hr1. rewrite rsum_swap'. apply rsum_ext. intros c2 Hc2.
      apply rsum_swap'.
    + symmetry. rewrite rsum_swap'. apply rsum_ext. intros r1 Hr1.
      transitivity (rsum d (fun r2 => rsum d (fun c2 => rsum d (fun c1 => kmod2 (get U0 [r1 + d * r2; c1 + d * c2]%nat))))).
      * apply rsum_ext. intros r2 Hr2. apply rsum_merge.
      * apply rsum_swap'.
Qed.

Lemma norm2_list_sq s : (norm2_list s * norm2_list s = tail_weight s 0)%R.
Proof.
  unfold norm2_list. rewrite sqrt_sqrt; [reflexivity|]. apply (tail_weight_nonneg s 0).
Qed.

Lemma norm2_list_nonneg s : (0 <= norm2_list s)%R.
Proof. apply sqrt_pos. Qed.

Lemma tail_weight_firstn s c : (tail_weight (firstn c s) 0 + tail_weight s c = tail_weight s 0)%R.
Proof.
  unfold tail_weight. cbn [skipn]. revert c. induction s as [|x s IH]; intros c.
  - destruct c; cbn; lra.
  - destruct c as [|c]; [cbn; lra|]. cbn. rewrite <- (IH c). cbn. lra.
Qed.

Variable svd : tensor -> tensor * list R * tensor.
Variable flag : R.
Hypothesis Hsvd : svd_contract svd.

(** What limited_svd returns, in terms of the full decomposition. *)
Lemma limited_svd_ok A m n tol max_dim : is_matrix A m n -> (0 < m)%nat -> (0 < n)%nat ->
  (exists i j, (i < m)%nat /\ (j < n)%nat /\ get A [i; j] <> 0) ->
  exists Us sv Vs, svd A = (Us, sv, Vs) /\ is_svd m n A Us sv Vs /\
  let c := where_to_truncate flag sv tol max_dim in
  let N := norm2_list (firstn c sv) in
  (0 < c <= length sv)%nat /\ (0 < N)%R /\ (0 < nth 0 sv 0)%R /\
  (N * N + tail_weight sv c = frob2 A)%R /\ tail_weight sv 0 = frob2 A /\
  exists U s V, limited_svd svd flag A tol max_dim = Ok (U, s, V) /\
    is_matrix U m c /\ is_matrix V c n /\ length s = c /\
    (forall k, (k < c)%nat -> nth k s 0%R = (nth k sv 0 / N)%R) /\
    (forall i k, (i < m)%nat -> (k < c)%nat -> get U [i; k] = get Us [i; k]) /\
    (forall k j, (k < c)%nat -> (j < n)%nat -> get V [k; j] = get Vs [k; j]).
Proof.
  intros HA Hm Hn Hnz. pose proof (Hsvd m n A HA Hm Hn) as Hs.
  destruct (svd A) as [[Us sv] Vs] eqn:E. exists Us, sv, Vs. split; [reflexivity|]. split; [exact Hs|].
  cbv zeta. set (c := where_to_truncate flag sv tol max_dim). set (N := norm2_list (firstn c sv)).
  assert (Hnzs : exists k, nth k sv 0%R <> 0%R).
  { destruct (Req_EM_T (nth 0 sv 0%R) 0%R) as [E0|E0]; [|exists 0%nat; exact E0].
    exfalso. destruct Hnz as (i & j & Hi & Hj & Hne). apply Hne.
    apply (svd_zero m n A Us sv Vs Hs); [|exact Hi|exact Hj].
    destruct Hs as (Hl & _ & _ & _ & Hp & Hd & _). intros k.
    destruct (le_lt_dec (length sv) k) as [Hk|Hk]; [apply nth_overflow; lia|].
    pose proof (Hp k Hk). pose proof (Hd 0%nat k ltac:(lia) Hk). lra. }
  assert (Hs0 : (0 < nth 0 sv 0)%R).
  { destruct Hs as (Hl & _ & _ & _ & Hp & Hd & _). destruct Hnzs as (k & Hk).
    destruct (le_lt_dec (length sv) k) as [Hk'|Hk']; [rewrite nth_overflow in Hk by lia; lra|].
    pose proof (Hp k Hk'). pose proof (Hd 0%nat k ltac:(lia) Hk'). lra. }
  assert (Hl0 : (0 < length sv)%nat) by (destruct Hs as (Hl & _); exact Hl).
  assert (Hc : (0 < c <= length sv)%nat).
  { split; [apply wtt_pos; [exact Hl0|right; exact Hnzs]|apply wtt_le_length]. }
  assert (HNpos : (0 < N)%R).
  { pose proof (norm2_list_nonneg (firstn c sv)) as H0. fold N in H0.
    destruct (Req_EM_T N 0%R) as [EN|EN]; [|lra]. exfalso.
    pose proof (norm2_list_sq (firstn c sv)) as Hsq. fold N in Hsq. rewrite EN in Hsq.
    assert (Hfl : (0 < length (firstn c sv))%nat) by (rewrite firstn_length; lia).
    rewrite (tail_weight_S (firstn c sv) 0 Hfl) in Hsq.
    pose proof (tail_weight_nonneg (firstn c sv) 1). rewrite nth_firstn_lt' in Hsq by lia. nra. }
  assert (Htot : tail_weight sv 0 = frob2 A).
  { apply rinj_inj. destruct HA as (HA1 & HA2). rewrite (frob2_2 A m n HA1 HA2). symmetry. apply (svd_total m n A Us sv Vs Hs). }
  assert (HNN : (N * N + tail_weight sv c = frob2 A)%R).
  { unfold N. rewrite norm2_list_sq, <- Htot. apply tail_weight_firstn. }
  split; [exact Hc|]. split; [exact HNpos|]. split; [exact Hs0|]. split; [exact HNN|]. split; [exact Htot|].
  exists (change_dimension Us 1 c), (map (fun x => (x / N)%R) (firstn c sv)), (change_dimension Vs 0 c).
  destruct Hs as (_ & _ & (HU1 & HU2) & (HV1 & HV2) & _).
  assert (E1 : replace_nth 1 c (dims Us) = [m; c]) by (rewrite HU1; reflexivity).
  assert (E2 : replace_nth 0 c (dims Vs) = [c; n]) by (rewrite HV1; reflexivity).
  split.
  { unfold limited_svd. destruct HA as (HA1 & HA2).
    rewrite (is_empty_wf A HA2) by (rewrite HA1; cbn; nia). rewrite E. fold c. fold N.
    destruct (Req_EM_T N 0%R); [lra|reflexivity]. }
  split; [split; [unfold change_dimension; rewrite dims_mk; exact E1|apply wf_mk]|].
  split; [split; [unfold change_dimension; rewrite dims_mk; exact E2|apply wf_mk]|].
  split; [rewrite map_length, firstn_length; lia|].
  split.
  { intros k Hk. rewrite nth_map_R by (rewrite firstn_length; lia). rewrite nth_firstn_lt' by exact Hk. reflexivity. }
  split; intros.
  - apply get_change_dim; [rewrite E1; apply in_range_2; assumption|]. cbn. unfold dim. rewrite HU1. cbn. lia.
  - apply get_change_dim; [rewrite E2; apply in_range_2; assumption|]. cbn. unfold dim. rewrite HV1. cbn. lia.
Qed.

Lemma limited_svd_zero A m n tol max_dim : is_matrix A m n -> (0 < m)%nat -> (0 < n)%nat ->
  (forall i j, (i < m)%nat -> (j < n)%nat -> get A [i; j] = 0) -> limited_svd svd flag A tol max_dim = Abort.
Proof.
  intros HA Hm Hn Hz. pose proof (Hsvd m n A HA Hm Hn) as Hs. unfold limited_svd.
  destruct (is_empty A); [reflexivity|]. destruct (svd A) as [[Us sv] Vs].
  cbv zeta. set (c := where_to_truncate flag sv tol max_dim).
  destruct (Req_EM_T (norm2_list (firstn c sv)) 0%R) as [|HN]; [reflexivity|]. exfalso. apply HN.
  assert (Ht : tail_weight sv 0 = 0%R).
  { apply rinj_inj. rewrite rinj_0, <- (svd_total m n A Us sv Vs Hs). apply sum_zero. intros i Hi.
    apply sum_zero. intros j Hj. rewrite Hz by assumption. ring. }
  pose proof (tail_weight_firstn sv c) as H1. pose proof (tail_weight_nonneg sv c).
  pose proof (tail_weight_nonneg (firstn c sv) 0).
  pose proof (norm2_list_sq (firstn c sv)) as H3. pose proof (norm2_list_nonneg (firstn c sv)).
  assert (norm2_list (firstn c sv) * norm2_list (firstn c sv) = 0)%R by lra.
  apply Rmult_integral in H4. tauto.
Qed.

(** The sum of products of the normalised pieces times the norm is the matrix up to what was cut. *)
Lemma limited_sum m n A Us sv Vs c N i j : is_svd m n A Us sv Vs -> (c <= length sv)%nat -> (0 < N)%R ->
  (i < m)%nat -> (j < n)%nat ->
  get A [i; j] = rinj N * sum c (fun k => get Us [i; k] * rinj (nth k sv 0 / N)%R * get Vs [k; j])
                 + dropped Us sv Vs c i j.
Proof.
  intros Hs Hc HN Hi Hj. rewrite (svd_split_sum m n A Us sv Vs c i j Hs Hc Hi Hj). f_equal.
  rewrite sum_mul_l. apply sum_ext. intros k Hk.
  transitivity (get Us [i; k] * rinj (N * (nth k sv 0 / N))%R * get Vs [k; j]).
  - replace (N * (nth k sv 0 / N))%R with (nth k sv 0%R) by (field; lra). ring.
  - rewrite rinj_mul. ring.
Qed.

Lemma sqrt_sqrt_rinj x : (0 <= x)%R -> rinj (sqrt x) * rinj (sqrt x) = rinj x.
Proof. intros H. rewrite <- rinj_mul, sqrt_sqrt by exact H. reflexivity. Qed.

(** Squared Frobenius norm of the difference of a two-site operator and an approximation. *)
Definition op_error (d : nat) (U0 : tensor) (f : nat -> nat -> nat -> nat -> K) : R :=
  rsum d (fun r1 => rsum d (fun r2 => rsum d (fun c1 => rsum d (fun c2 =>
    kmod2 (get U0 [r1 + d * r2; c1 + d * c2]%nat - f r1 r2 c1 c2))))).

Lemma kmod2_opp_sub x y z : x = y + z -> kmod2 (x - y) = kmod2 z.
Proof. intros ->. f_equal. ring. Qed.

Lemma op_error_dropped d U0 f Us sv Vs c : (0 < d)%nat ->
  is_svd (d * d) (d * d) (regroup U0 d d) Us sv Vs -> (c <= length sv)%nat ->
  (forall r1 r2 c1 c2, (r1 < d)%nat -> (r2 < d)%nat -> (c1 < d)%nat -> (c2 < d)%nat ->
     get U0 [r1 + d * r2; c1 + d * c2]%nat = f r1 r2 c1 c2 + dropped Us sv Vs c (r1 + d * c1) (r2 + d * c2)) ->
  op_error d U0 f = tail_weight sv c.
Proof.
  intros Hd Hs Hc H. apply rinj_inj. rewrite <- (dropped_weight _ _ _ _ _ _ c Hs Hc).
  transitivity (sum (d * d) (fun i => sum (d * d) (fun j => rinj (kmod2 (dropped Us sv Vs c i j))))).
  2:{ apply sum_ext; intros i Hi. apply sum_ext; intros j Hj. apply kmod2_spec. }
  transitivity (rinj (rsum (d * d) (fun i => rsum (d * d) (fun j => kmod2 (dropped Us sv Vs c i j))))).
  2:{ rewrite rinj_rsum. apply sum_ext. intros. apply rinj_rsum. }
  f_equal. unfold op_error. rewrite rsum_merge.
  transitivity (rsum d (fun c1 => rsum d (fun r1 => rsum d (fun c2 => rsum d (fun r2 =>
     kmod2 (dropped Us sv Vs c (r1 + d * c1) (r2 + d * c2))))))).
  2:{ apply rsum_ext; intros c1 Hc1. apply rsum_ext; intros r1 Hr1. rewrite rsum_merge. reflexivity. }
  symmetry. rewrite rsum_swap'. apply rsum_ext; intros r1 Hr1.
  transitivity (rsum d (fun c1 => rsum d (fun r2 => rsum d (fun c2 => 
     kmod2 (dropped Us sv Vs c (r1 + d * c1) (r2 + d * c2)))))).
  { apply rsum_ext; intros c1 Hc1. apply rsum_swap'. }
  rewrite rsum_swap'. apply rsum_ext; intros r2 Hr2. apply rsum_ext; intros c1 Hc1. apply rsum_ext; intros c2 Hc2.
  symmetry. apply kmod2_opp_sub. apply H; assumption.
Qed.

Definition nonzero_op (U0 : tensor) (n : nat) : Prop :=
  exists i j, (i < n)%nat /\ (j < n)%nat /\ get U0 [i; j] <> 0.

Lemma split_index d i : (i < d * d)%nat -> (0 < d)%nat -> exists a b, (a < d)%nat /\ (b < d)%nat /\ i = (a + d * b)%nat.
Proof.
  intros H Hd. exists (i mod d)%nat, (i / d)%nat. split; [apply Nat.mod_upper_bound; lia|].
  split; [apply Nat.div_lt_upper_bound; lia|]. pose proof (Nat.div_mod i d). lia.
Qed.

Lemma regroup_nonzero U0 d : is_matrix U0 (d * d) (d * d) -> (0 < d)%nat -> nonzero_op U0 (d * d) ->
  nonzero_op (regroup U0 d d) (d * d).
Proof.
  intros H Hd (i & j & Hi & Hj & Hne).
  destruct (split_index d i Hi Hd) as (r1 & r2 & H1 & H2 & ->).
  destruct (split_index d j Hj Hd) as (c1 & c2 & H3 & H4 & ->).
  exists (r1 + d * c1)%nat, (r2 + d * c2)%nat. split; [nia|]. split; [nia|].
  rewrite get_regroup by assumption. exact Hne.
Qed.

Lemma regroup_zero U0 d : is_matrix U0 (d * d) (d * d) -> (0 < d)%nat ->
  (forall i j, (i < d * d)%nat -> (j < d * d)%nat -> get U0 [i; j] = 0) ->
  forall i j, (i < d * d)%nat -> (j < d * d)%nat -> get (regroup U0 d d) [i; j] = 0.
Proof.
  intros H Hd Hz i j Hi Hj.
  destruct (split_index d i Hi Hd) as (r1 & c1 & H1 & H2 & ->).
  destruct (split_index d j Hj Hd) as (r2 & c2 & H3 & H4 & ->).
  rewrite get_regroup by assumption. apply Hz; nia.
Qed.

(** Main facts about decompose_operator *)
Lemma decompose_ok U0 d : is_matrix U0 (d * d) (d * d) -> (0 < d)%nat -> nonzero_op U0 (d * d) ->
  exists Us sv Vs, is_svd (d * d) (d * d) (regroup U0 d d) Us sv Vs /\
  let c := where_to_truncate flag sv MPS_DEFAULT_TOLERANCE 0 in
  exists N O1 O2, (0 < c <= length sv)%nat /\ (0 < N)%R /\ (0 < nth 0 sv 0)%R /\
  (N * N + tail_weight sv c = frob2 U0)%R /\ tail_weight sv 0 = frob2 U0 /\
  decompose_operator svd flag U0 = Ok (O1, O2) /\ dims O1 = [d; d; c] /\ wf O1 /\ dims O2 = [d; d; c] /\ wf O2 /\
  forall r1 r2 c1 c2, (r1 < d)%nat -> (r2 < d)%nat -> (c1 < d)%nat -> (c2 < d)%nat ->
     get U0 [r1 + d * r2; c1 + d * c2]%nat =
       rinj N * sum c (fun k => get O1 [r1; c1; k] * get O2 [r2; c2; k])
       + dropped Us sv Vs c (r1 + d * c1) (r2 + d * c2).
Proof.
  intros HU Hd Hnz.
  destruct (limited_svd_ok (regroup U0 d d) (d * d) (d * d) MPS_DEFAULT_TOLERANCE 0 (regroup_matrix U0 d)
     ltac:(nia) ltac:(nia) (regroup_nonzero U0 d HU Hd Hnz)) as (Us & sv & Vs & E & Hs & H).
  exists Us, sv, Vs. split; [exact Hs|]. cbv zeta in *.
  set (c := where_to_truncate flag sv MPS_DEFAULT_TOLERANCE 0) in *.
  set (N := norm2_list (firstn c sv)) in *.
  destruct H as (Hc & HN & H0 & HNN & Htot & U & s & V & El & (HU1 & HU2) & (HV1 & HV2) & Hls & Hns & HgU & HgV).
  rewrite frob2_regroup in HNN, Htot by exact HU.
  exists N, (reshape (scale U 1 (map sqrt s)) [d; d; c]), (reshape (transpose (scale V 0 (map sqrt s))) [d; d; c]).
  split; [exact Hc|]. split; [exact HN|]. split; [exact H0|]. split; [exact HNN|]. split; [exact Htot|].
  assert (HdV : dims (scale V 0 (map sqrt s)) = [c; d * d]%nat) by (unfold scale; rewrite dims_mk; exact HV1).
  split.
  { unfold decompose_operator. destruct HU as (Hd1 & _). unfold dim. rewrite Hd1. cbn [nth].
    rewrite Nat.sqrt_square, !Nat.eqb_refl. cbn [negb]. rewrite El. cbn [bind]. rewrite map_length, Hls. reflexivity. }
  split; [reflexivity|]. split; [apply wf_reshape; [apply wf_mk|unfold scale; rewrite dims_mk, HU1; cbn; lia]|].
  split; [reflexivity|]. split; [apply wf_reshape; [apply wf_mk|rewrite (dims_transpose _ _ _ HdV); cbn; lia]|].
  intros r1 r2 c1 c2 Hr1 Hr2 Hc1 Hc2.
  rewrite <- (get_regroup U0 d) by assumption.
  rewrite (limited_sum (d * d) (d * d) _ Us sv Vs c N _ _ Hs) by (try exact HN; try nia).
  f_equal. f_equal. apply sum_ext. intros k Hk.
  rewrite (get_reshape (scale U 1 (map sqrt s)) [d; d; c] _ [r1 + d * c1; k]%nat).
  2:{ unfold scale. rewrite dims_mk, HU1. cbn. nia. }
  rewrite (get_reshape (transpose (scale V 0 (map sqrt s))) [d; d; c] _ [r2 + d * c2; k]%nat).
  2:{ rewrite (dims_transpose _ _ _ HdV). cbn. nia. }
  rewrite (get_transpose _ c (d * d)) by (try exact HdV; try nia).
  rewrite !get_scale by first [rewrite HU1; apply in_range_2; nia | rewrite HV1; apply in_range_2; nia].
  cbn [nth]. rewrite HgU, HgV by nia. rewrite nth_map_R by lia. rewrite Hns by exact Hk.
  assert (Hp : (0 <= nth k sv 0 / N)%R).
  { destruct Hs as (_ & _ & _ & _ & Hp & _). apply Rmult_le_pos; [apply Hp; lia|].
    left. apply Rinv_0_lt_compat. exact HN. }
  rewrite <- (sqrt_sqrt_rinj _ Hp). ring.
Qed.

Lemma split_interaction_ok H12 d : is_matrix H12 (d * d) (d * d) -> (0 < d)%nat -> nonzero_op H12 (d * d) ->
  exists Us sv Vs, is_svd (d * d) (d * d) (regroup H12 d d) Us sv Vs /\
  let c := where_to_truncate flag sv (/ 10 ^ 13)%R 0 in
  exists N v1 v2, (0 < c <= length sv)%nat /\ (0 < N)%R /\ (0 < nth 0 sv 0)%R /\
  (N * N + tail_weight sv c = frob2 H12)%R /\ tail_weight sv 0 = frob2 H12 /\
  split_interaction svd flag H12 = Ok (v1, v2) /\ length v1 = c /\ length v2 = c /\
  (forall k, (k < c)%nat -> is_matrix (nth k v1 empty) d d /\ is_matrix (nth k v2 empty) d d) /\
  forall k x y, (k < c)%nat -> (x < d)%nat -> (y < d)%nat ->
     get (nth k v1 empty) [x; y] = rinj (sqrt (nth k sv 0 / N))%R * get Us [x + d * y; k]%nat /\
     get (nth k v2 empty) [x; y] = kconj (rinj (sqrt (nth k sv 0 / N))%R * get Vs [k; x + d * y]%nat).
Proof.
  intros HU Hd Hnz.
  destruct (limited_svd_ok (regroup H12 d d) (d * d) (d * d) (/ 10 ^ 13)%R 0 (regroup_matrix H12 d)
     ltac:(nia) ltac:(nia) (regroup_nonzero H12 d HU Hd Hnz)) as (Us & sv & Vs & E & Hs & H).
  exists Us, sv, Vs. split; [exact Hs|]. cbv zeta in *.
  set (c := where_to_truncate flag sv (/ 10 ^ 13)%R 0) in *.
  set (N := norm2_list (firstn c sv)) in *.
  destruct H as (Hc & HN & H0 & HNN & Htot & U & s & V & El & (HU1 & HU2) & (HV1 & HV2) & Hls & Hns & HgU & HgV).
  rewrite frob2_regroup in HNN, Htot by exact HU.
  exists N, (map (fun i => tscale (rinj (sqrt (nth i s 0%R))) (column_matrix U i d)) (seq 0 c)),
    (map (fun i => tconj (tscale (rinj (sqrt (nth i s 0%R))) (row_matrix V i d))) (seq 0 c)).
  split; [exact Hc|]. split; [exact HN|]. split; [exact H0|]. split; [exact HNN|]. split; [exact Htot|].
  split.
  { unfold split_interaction. destruct HU as (Hd1 & Hw1). rewrite Hw1. unfold dim. rewrite Hd1. cbn [nth length Nat.eqb negb].
    rewrite Nat.sqrt_square. cbn [nprod fold_right]. rewrite Nat.mul_1_r, Nat.eqb_refl. cbn [negb]. rewrite El. cbn [bind].
    rewrite Hls. reflexivity. }
  split; [rewrite map_length, seq_length; reflexivity|]. split; [rewrite map_length, seq_length; reflexivity|].
  split.
  { intros k Hk. rewrite !nth_map_seq by exact Hk. split; (split; [reflexivity|]).
    - apply wf_tscale, wf_mk.
    - apply wf_tconj, wf_tscale, wf_mk. }
  intros k x y Hk Hx Hy. rewrite !nth_map_seq by exact Hk. rewrite get_tconj.
  rewrite !get_tscale by first [apply wf_mk | apply in_range_2; assumption].
  unfold column_matrix, row_matrix. rewrite !get_mk by (apply in_range_2; assumption). cbn [nth].
  rewrite HgU, HgV by (try exact Hk; nia). rewrite Hns by exact Hk. split; reflexivity.
Qed.

End Facts.
