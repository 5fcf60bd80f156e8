(** * class DMRG: the matrices are the expected ones *)
From Coq Require Import Reals Lra Bool List Arith ZArith Lia Ring Setoid.
From Verif Require Import Scalar ScalarFacts RScal Tensor TensorFacts Spec MpsModel MpsFacts EnvFacts MpsProps ExpectedFacts CanonSpec CanonModel StateFacts StateFacts2 CanonNorm CanonSweep CanonProps SimplifySpec SimplifyFacts SimplifyStep QFormFacts SparseFacts
  HamSpec HamModel HamFacts HamConst TrotterRun MinimizeSpec MinLocal DmrgModel DmrgSplit DmrgBlocks.
Import ListNotations.
Local Open Scope K_scope.

Section Local.
Context {RS : RScal}.
Add Ring KringL : k_ring.
Variable D : dmrg.
Let H := d_H D.
Notation N := (h_size H).
Hypothesis HK : ham_ok H.
Hypothesis HL : locals_set H.
Hypothesis Hper : h_periodic H = false.
Hypothesis HN : (2 <= N)%nat.
Hypothesis Hherm1 : forall k i j, (k < N)%nat -> (i < h_dim H k)%nat -> (j < h_dim H k)%nat -> loc H k i j = kconj (loc H k j i).
Hypothesis Hherm2 : forall k i j p q, (S k < N)%nat -> (i < h_dim H k)%nat -> (j < h_dim H k)%nat -> (p < h_dim H (S k))%nat -> (q < h_dim H (S k))%nat ->
  sum (dep H k) (fun m => lft H k m i j * rgt H k m p q) = kconj (sum (dep H k) (fun m => lft H k m j i * rgt H k m q p)).
Hypothesis HP0 : d_P0 D = [].
Hypothesis HnQ : d_nQ D = 0%nat.
Notation segd s n := (map (h_dim H) (seq s n)).
Notation ds := (h_dims H).
Notation RP := (RP D).
Notation LP := (LP D).

Lemma segd_length s n : length (segd s n) = n.
Proof. rewrite map_length, seq_length. reflexivity. Qed.

Lemma app_inj_length {A} (u v x y : list A) : u ++ x = v ++ y -> length u = length v -> u = v /\ x = y.
Proof. revert v. induction u as [|a u IH]; intros [|b v] E Hl; cbn in *; try discriminate; [auto|]. injection E as -> E. destruct (IH v E ltac:(lia)) as (-> & ->). auto. Qed.

Lemma parts P k : open_mps P -> pdims P = ds -> (k < N)%nat -> exists a d c,
  linked 1 (firstn k P) a /\ linked c (skipn (S k) P) 1 /\ dims (site P k) = [a; d; c] /\ wf (site P k) /\ (0 < a)%nat /\ (0 < d)%nat /\ (0 < c)%nat /\
  d = h_dim H k /\ pdims (firstn k P) = segd 0 k /\ pdims (skipn (S k) P) = segd (S k) (N - S k) /\ length P = N.
Proof.
  intros Ho Hpd Hk.
  assert (Hl : length P = N) by (rewrite <- length_pdims, Hpd; apply h_dims_length).
  destruct (linked_split1' 1 P 1 k (proj2 Ho) ltac:(lia)) as (a & d & c & L1 & L2 & Hs & Hw & Hd & Hc).
  exists a, d, c. repeat (split; [assumption|]). split; [apply (linked_pos 1 (firstn k P) a); [exact L1|lia]|]. split; [exact Hd|]. split; [exact Hc|].
  assert (E : firstn k P ++ site P k :: skipn (S k) P = P) by (symmetry; apply (list_split_nth k P empty); lia).
  assert (E2 : pdims (firstn k P) ++ d :: pdims (skipn (S k) P) = segd 0 k ++ h_dim H k :: segd (S k) (N - S k)).
  { transitivity (pdims P).
    - rewrite <- E at 3. rewrite pdims_app. cbn [pdims map]. do 2 f_equal. unfold dim. rewrite Hs. reflexivity.
    - rewrite Hpd. unfold h_dims. replace N with (k + S (N - S k))%nat at 1 by lia. rewrite seq_app, map_app. reflexivity. }
  apply app_inj_length in E2; [|rewrite length_pdims, segd_length, firstn_length; lia]. destruct E2 as (E3 & E4). injection E4 as E4 E5.
  split; [exact E4|]. split; [exact E3|]. split; [exact E5|exact Hl].
Qed.

Definition Lblk (P : mps) (j : nat) (T : tensor) : Prop :=
  is_matrix T (dim (site P j) 2) (dim (site P j) 2) /\
  forall a a', (a < dim (site P j) 2)%nat -> (a' < dim (site P j) 2)%nat -> mat T a a' = Lc (firstn (S j) P) (hseg H 0) a a'.
Definition Rblk (P : mps) (j : nat) (T : tensor) : Prop :=
  is_matrix T (dim (site P j) 0) (dim (site P j) 0) /\
  forall b b', (b < dim (site P j) 0)%nat -> (b' < dim (site P j) 0)%nat -> mat T b b' = Rc (skipn j P) (skipn j P) (hseg H j) b b'.
Definition rights (P : mps) (k : nat) : Prop := forall j, (k < j < length P)%nat -> right_isometry (site P j).
Definition lefts (P : mps) (k : nat) : Prop := forall j, (j < k)%nat -> left_isometry (site P j).

Lemma site_skipn (P : mps) k j : site (skipn k P) j = site P (k + j).
Proof. unfold site. revert P. induction k as [|k IH]; intros P; [reflexivity|]. destruct P as [|A P]; [destruct j; reflexivity|]. cbn [skipn Nat.add nth]. apply IH. Qed.
Lemma site_firstn (P : mps) k j : (j < k)%nat -> site (firstn k P) j = site P j.
Proof. unfold site. revert P j. induction k as [|k IH]; intros P j Hj; [lia|]. destruct P as [|A P]; [reflexivity|]. destruct j as [|j]; [reflexivity|]. cbn [firstn nth]. apply IH. lia. Qed.

Lemma rest_iso P k c : linked c (skipn (S k) P) 1 -> rights P k -> forall z z', (z < c)%nat -> (z' < c)%nat -> Rc (skipn (S k) P) (skipn (S k) P) id_op z z' = delta z z'.
Proof.
  intros HLk Hr. apply Rc_iso; [exact HLk|]. intros j Hj. rewrite site_skipn. apply Hr. rewrite skipn_length in Hj. lia.
Qed.
Lemma first_iso P k a : linked 1 (firstn k P) a -> lefts P k -> (k <= length P)%nat -> forall z z', (z < a)%nat -> (z' < a)%nat -> Lc (firstn k P) id_op z z' = delta z z'.
Proof.
  intros HLk Hr Hk. apply Lc_iso; [exact HLk|]. intros j Hj. rewrite firstn_length in Hj. rewrite site_firstn by lia. apply Hr. lia.
Qed.

Lemma nth_map_seq' {A} (f : nat -> A) n k e : (k < n)%nat -> nth k (map f (seq 0 n)) e = f k.
Proof. intros Hk. rewrite (nth_indep _ e (f 0%nat)) by (rewrite map_length, seq_length; exact Hk). rewrite map_nth, seq_nth by exact Hk. reflexivity. Qed.

Lemma right_inter P k : open_mps P -> pdims P = ds -> (S k < N)%nat -> rights P (S k) -> let X := compute_interactions_right D P k in let c := dim (site P k) 2 in
  length X = dep H k /\ forall m, (m < dep H k)%nat -> is_matrix (nth m X empty) c c /\
    forall z z', (z < c)%nat -> (z' < c)%nat -> mat (nth m X empty) z z' = Rc (skipn (S k) P) (skipn (S k) P) (firstop H k m) z z'.
Proof.
  intros Ho Hpd Hk Hr X c. destruct (parts P k Ho Hpd ltac:(lia)) as (a & d & c0 & _ & L2 & Hs & Hw & Ha & Hd & Hc & Ed & _ & Eq & Hl).
  assert (Ec : c = c0) by (unfold c, dim; rewrite Hs; reflexivity). clearbody c. subst c0.
  destruct (parts P (S k) Ho Hpd Hk) as (a1 & d1 & c1 & _ & L2' & Hs1 & Hw1 & Ha1 & Hd1 & Hc1 & Ed1 & _ & Eq1 & _).
  assert (Ea : a1 = c).
  { rewrite (skipn_site (S k) P) in L2 by lia. cbn [linked] in L2. destruct L2 as (x & y & E & _). rewrite Hs1 in E. congruence. }
  subst a1. split; [unfold X, compute_interactions_right; rewrite map_length, seq_length; reflexivity|]. intros m Hm.
  unfold X, compute_interactions_right. rewrite nth_map_seq' by exact Hm. cbv zeta. replace (k + 1)%nat with (S k) by lia. fold H.
  destruct (terms_ok_nth H k _ _ m (hk_terms _ HK k Hk) Hm) as (_ & HR). rewrite <- Ed1 in HR.
  assert (HdF : dims (foldin (h_right H k m) (rank (h_right H k m) - 1) (site P (S k)) 1) = [c; d1; c1]) by (apply dims_foldin_mid; assumption).
  unfold dim. rewrite Hs1. cbn [nth].
  destruct (contract_right (site P (S k)) (foldin (h_right H k m) (rank (h_right H k m) - 1) (site P (S k)) 1) c c d1 c1 Hs1 HdF) as (M1 & M2).
  split; [exact M1|]. intros z z' Hz Hz'. rewrite M2 by assumption.
  rewrite (skipn_site (S k) P) by lia.
  rewrite (Rc_cons (site P (S k)) (site P (S k)) _ _ (firstop H k m) (rgt H k m) id_op c d1 c1 c d1 c1) by (try assumption; intros; reflexivity).
  rewrite sum_swap. apply sum_ext. intros i Hi.
  transitivity (sum d1 (fun j => sum c1 (fun y => kconj (get (site P (S k)) [z; i; y]) * (rgt H k m i j) * get (site P (S k)) [z'; j; y]))).
  - rewrite (sum_ext c1 _ (fun y => sum d1 (fun j => kconj (get (site P (S k)) [z; i; y]) * (rgt H k m i j) * get (site P (S k)) [z'; j; y]))); [apply sum_swap|].
    intros y Hy. rewrite (get_foldin_mid (h_right H k m) (site P (S k)) c d1 c1) by assumption. rewrite sum_mul_l. apply sum_ext. intros j Hj. unfold rgt. ring.
  - apply sum_ext. intros j Hj. apply sum_ext. intros y Hy.
    rewrite (sum_ext c1 _ (fun y' => delta y y' * (kconj (get (site P (S k)) [z; i; y]) * rgt H k m i j * get (site P (S k)) [z'; j; y']))).
    + rewrite (sum_delta_l' c1 y (fun y' => kconj (get (site P (S k)) [z; i; y]) * rgt H k m i j * get (site P (S k)) [z'; j; y'])) by exact Hy. reflexivity.
    + intros y' Hy'. rewrite (rest_iso P (S k) c1) by assumption. ring.
Qed.

Lemma left_inter P k : open_mps P -> pdims P = ds -> (S k < N)%nat -> lefts P k -> let X := compute_interactions_left D P (S k) in let c := dim (site P (S k)) 0 in
  length X = dep H k /\ forall m, (m < dep H k)%nat -> is_matrix (nth m X empty) c c /\
    forall z z', (z < c)%nat -> (z' < c)%nat -> mat (nth m X empty) z z' = Lc (firstn (S k) P) (lastop H 0 m) z z'.
Proof.
  intros Ho Hpd Hk Hr X c. destruct (parts P k Ho Hpd ltac:(lia)) as (a & d & c0 & L1 & L2 & Hs & Hw & Ha & Hd & Hc & Ed & Ep & Eq & Hl).
  assert (Ea : c0 = c).
  { rewrite (skipn_site (S k) P) in L2 by lia. cbn [linked] in L2. destruct L2 as (x & y & E & _). unfold c, dim. rewrite E. reflexivity. }
  clearbody c. subst c0. split; [unfold X, compute_interactions_left; rewrite map_length, seq_length; unfold dep; f_equal; lia|]. intros m Hm.
  unfold X, compute_interactions_left. fold H. replace (S k - 1)%nat with k by lia. rewrite nth_map_seq' by exact Hm. cbv zeta.
  destruct (terms_ok_nth H k _ _ m (hk_terms _ HK k Hk) Hm) as (HR & _). rewrite <- Ed in HR.
  assert (HdF : dims (foldin (h_left H k m) (rank (h_left H k m) - 1) (site P k) 1) = [a; d; c]) by (apply dims_foldin_mid; assumption).
  unfold dim. rewrite Hs. cbn [nth].
  destruct (contract_left (site P k) (foldin (h_left H k m) (rank (h_left H k m) - 1) (site P k) 1) a d c c Hs HdF) as (M1 & M2).
  split; [exact M1|]. intros z z' Hz Hz'. rewrite M2 by assumption.
  rewrite (firstn_S_site k P) by lia.
  rewrite (Lc_snoc (firstn k P) (site P k) (lastop H 0 m) (lft H k m) id_op a d c) by (try assumption; intros i j x y _ _ Hx Hy;
    rewrite lastop_snoc by (rewrite (in_range_length _ _ Hx), (in_range_length _ _ Hy); reflexivity);
    rewrite (in_range_length _ _ Hx), length_pdims, firstn_length, Nat.min_l by lia; reflexivity).
  apply sum_ext. intros i Hi.
  transitivity (sum d (fun j => sum a (fun y => kconj (get (site P k) [y; i; z]) * (lft H k m i j) * get (site P k) [y; j; z']))).
  - rewrite (sum_ext a _ (fun y => sum d (fun j => kconj (get (site P k) [y; i; z]) * (lft H k m i j) * get (site P k) [y; j; z']))); [apply sum_swap|].
    intros y Hy. rewrite (get_foldin_mid (h_left H k m) (site P k) a d c) by assumption. rewrite sum_mul_l. apply sum_ext. intros j Hj. unfold lft. ring.
  - apply sum_ext. intros j Hj. apply sum_ext. intros y Hy.
    rewrite (sum_ext a _ (fun y' => delta y y' * (kconj (get (site P k) [y; i; z]) * lft H k m i j * get (site P k) [y'; j; z']))).
    + rewrite (sum_delta_l' a y (fun y' => kconj (get (site P k) [y; i; z]) * lft H k m i j * get (site P k) [y'; j; z'])) by exact Hy. reflexivity.
    + intros y' Hy'. rewrite (first_iso P k a) by (assumption || lia). ring.
Qed.

Lemma split_index d c r : (r < d * c)%nat -> exists i z, r = (i + d * z)%nat /\ (i < d)%nat /\ (z < c)%nat.
Proof.
  intros Hr. assert (Hd : d <> 0%nat) by (intros ->; cbn in Hr; lia). exists (r mod d), (r / d).
  split; [rewrite Nat.add_comm; apply Nat.div_mod; exact Hd|]. split; [apply Nat.mod_upper_bound; exact Hd|]. apply Nat.div_lt_upper_bound; assumption.
Qed.

Lemma herm_index d c T (F : nat -> nat -> nat -> nat -> K) : 
  (forall i j z z', (i < d)%nat -> (j < d)%nat -> (z < c)%nat -> (z' < c)%nat -> mat T (i + d * z) (j + d * z') = F i j z z') ->
  (forall i j z z', (i < d)%nat -> (j < d)%nat -> (z < c)%nat -> (z' < c)%nat -> F i j z z' = kconj (F j i z' z)) ->
  forall r s, (r < d * c)%nat -> (s < d * c)%nat -> mat T r s = kconj (mat T s r).
Proof.
  intros HT HF r s Hr Hs. destruct (split_index d c r Hr) as (i & z & -> & Hi & Hz), (split_index d c s Hs) as (j & z' & -> & Hj & Hz').
  rewrite !HT by assumption. apply HF; assumption.
Qed.

Lemma block_right P blk k a d c : open_mps P -> pdims P = ds -> (k < N)%nat -> rights P k -> ((S k < N)%nat -> Rblk P (S k) (nth (S k) blk empty)) ->
  dims (site P k) = [a; d; c] ->
  let T := block_site_interaction_right D P blk k in
  is_matrix T (d * c) (d * c) /\ forall i j z z', (i < d)%nat -> (j < d)%nat -> (z < c)%nat -> (z' < c)%nat ->
    mat T (i + d * z) (j + d * z') = RP k (skipn (S k) P) i j z z'.
Proof.
  intros Ho Hpd Hk Hr HB Hs T. destruct (parts P k Ho Hpd Hk) as (a0 & d0 & c0 & L1 & L2 & Hs0 & Hw & Ha & Hd & Hc & Ed & Ep & Eq & Hl).
  rewrite Hs in Hs0. injection Hs0 as <- <- <-.
  set (X := if (k + 1 <? N)%nat then fold_left (fun Heff m => tadd Heff (kron2 (h_left H k m) (nth m (compute_interactions_right D P k) empty))) (seq 0 (length (compute_interactions_right D P k)))
         (kron2 (eye d) (nth (k + 1) blk empty)) else zeros [d * c; d * c]%nat).
  assert (HX : is_matrix X (d * c) (d * c) /\ forall i j z z', (i < d)%nat -> (j < d)%nat -> (z < c)%nat -> (z' < c)%nat ->
    mat X (i + d * z) (j + d * z') = RP k (skipn (S k) P) i j z z').
  { unfold X. destruct (Nat.ltb_spec (k + 1) N) as [Hlt|Hge].
    - replace (k + 1)%nat with (S k) in * by lia. specialize (HB Hlt). destruct HB as (B1 & B2).
      assert (Ec : dim (site P (S k)) 0 = c).
      { rewrite (skipn_site (S k) P) in L2 by lia. cbn [linked] in L2. destruct L2 as (x & y & E & _). unfold dim. rewrite E. reflexivity. }
      rewrite Ec in B1, B2.
      destruct (right_inter P k Ho Hpd Hlt) as (Hx & Hxm); [intros j Hj; apply Hr; lia|]. unfold dim in Hxm. rewrite Hs in Hxm. cbn [nth] in Hxm. rewrite Hx.
      destruct (fold_kron d c (h_left H k) (fun m => nth m (compute_interactions_right D P k) empty) (kron2 (eye d) (nth (S k) blk empty)) (dep H k)) as (Y1 & Y2).
      + apply is_matrix_kron2; [apply is_matrix_eye|exact B1].
      + intros m Hm. split; [|apply Hxm; exact Hm]. destruct (terms_ok_nth H k _ _ m (hk_terms _ HK k Hlt) Hm) as (X1 & _). rewrite <- Ed in X1. exact X1.
      + split; [exact Y1|]. intros i j z z' Hi Hj Hz Hz'. rewrite Y2 by assumption. rewrite (mat_kron2 _ _ d c) by (try assumption; apply is_matrix_eye).
        rewrite mat_eye, B2 by assumption. unfold DmrgBlocks.RP. f_equal. apply sum_ext. intros m Hm. unfold lft. f_equal. apply Hxm; assumption.
    - split; [apply is_matrix_zeros|]. intros i j z z' Hi Hj Hz Hz'. rewrite mat_zeros by nia.
      assert (E : skipn (S k) P = []) by (apply skipn_all2; lia). rewrite E in *. unfold DmrgBlocks.RP.
      assert (E0 : forall h, h [] [] = 0 -> Rc [] [] h z z' = 0) by (intros h Eh; unfold Rc; cbn; rewrite Eh; ring).
      rewrite E0 by reflexivity. rewrite sum_zero; [ring|]. intros m Hm. rewrite E0 by reflexivity. ring. }
  assert (ET : T = X).
  { unfold T, block_site_interaction_right. unfold dim. rewrite Hs. cbn [nth]. fold H. fold X.
    apply (ensure_id X (d * c)); [apply HX|]. apply (herm_index d c X (RP k (skipn (S k) P))); [apply HX|].
    intros i j z z' Hi Hj Hz Hz'. rewrite Ed in Hi, Hj. apply RP_herm; assumption. }
  rewrite ET. exact HX.
Qed.

Lemma block_left P blk k a d c : open_mps P -> pdims P = ds -> (k < N)%nat -> lefts P k -> ((0 < k)%nat -> Lblk P (k - 1) (nth (k - 1) blk empty)) ->
  dims (site P k) = [a; d; c] ->
  let T := block_site_interaction_left D P blk k in
  is_matrix T (a * d) (a * d) /\ forall i j z z', (i < d)%nat -> (j < d)%nat -> (z < a)%nat -> (z' < a)%nat ->
    mat T (z + a * i) (z' + a * j) = LP k (firstn k P) i j z z'.
Proof.
  intros Ho Hpd Hk Hr HB Hs T. destruct (parts P k Ho Hpd Hk) as (a0 & d0 & c0 & L1 & L2 & Hs0 & Hw & Ha & Hd & Hc & Ed & Ep & Eq & Hl).
  rewrite Hs in Hs0. injection Hs0 as <- <- <-.
  unfold T, block_site_interaction_left. unfold dim. rewrite Hs. cbn [nth]. fold H.
  destruct (Nat.ltb_spec 0 k) as [Hlt|Hge].
  - destruct k as [|k]; [lia|]. replace (S k - 1)%nat with k in * by lia. specialize (HB ltac:(lia)). destruct HB as (B1 & B2).
    destruct (parts P k Ho Hpd ltac:(lia)) as (a1 & d1 & c1 & _ & L2' & Hs1 & _ & _ & _ & _ & Ed1 & _).
    assert (Ec : c1 = a).
    { rewrite (skipn_site (S k) P) in L2' by lia. cbn [linked] in L2'. destruct L2' as (x & y & E & _). rewrite Hs in E. congruence. }
    subst c1. unfold dim in B1, B2. rewrite Hs1 in B1, B2. cbn [nth] in B1, B2.
    destruct (left_inter P k Ho Hpd Hk) as (Hx & Hxm); [intros j Hj; apply Hr; lia|]. unfold dim in Hxm. rewrite Hs in Hxm. cbn [nth] in Hxm. rewrite Hx.
    destruct (fold_kron a d (fun m => nth m (compute_interactions_left D P (S k)) empty) (h_right H k) (kron2 (nth k blk empty) (eye d)) (dep H k)) as (Y1 & Y2).
    + apply is_matrix_kron2; [exact B1|apply is_matrix_eye].
    + intros m Hm. split; [apply Hxm; exact Hm|]. destruct (terms_ok_nth H k _ _ m (hk_terms _ HK k Hk) Hm) as (_ & X1). rewrite <- Ed in X1. exact X1.
    + split; [exact Y1|]. intros i j z z' Hi Hj Hz Hz'. rewrite Y2 by assumption. rewrite (mat_kron2 _ _ a d) by (try assumption; apply is_matrix_eye).
      rewrite mat_eye, B2 by assumption. unfold DmrgBlocks.LP. replace (S k - 1)%nat with k by lia. f_equal. apply sum_ext. intros m Hm. unfold rgt. f_equal. apply Hxm; assumption.
  - split; [apply is_matrix_zeros|]. intros i j z z' Hi Hj Hz Hz'. rewrite mat_zeros by nia.
    assert (k = 0%nat) by lia. subst k. cbn [firstn]. unfold DmrgBlocks.LP.
    assert (E0 : forall h, h [] [] = 0 -> Lc [] h z z' = 0) by (intros h Eh; unfold Lc; cbn; rewrite Eh; ring).
    rewrite E0 by reflexivity. rewrite sum_zero; [ring|]. intros m Hm. rewrite E0 by reflexivity. ring.
Qed.

Lemma local_mat k d : (k < N)%nat -> d = h_dim H k -> local_term D k = Ok (h_local H k) /\ is_matrix (h_local H k) d d.
Proof.
  intros Hk ->. assert (HM : is_matrix (h_local H k) (h_dim H k) (h_dim H k)).
  { destruct (hk_local _ HK k Hk) as [HM|E]; [exact HM|]. exfalso. exact (HL k Hk E). }
  split; [|exact HM]. unfold local_term. fold H. rewrite (is_matrix_not_empty _ _ _ HM) by (apply (hk_pos _ HK); exact Hk). reflexivity.
Qed.

Lemma update_right P blk k : open_mps P -> pdims P = ds -> (k < N)%nat -> rights P k -> ((S k < N)%nat -> Rblk P (S k) (nth (S k) blk empty)) ->
  exists T, update_matrices_right D P (blk, []) k = Ok (replace_nth k T blk, []) /\ Rblk P k T.
Proof.
  intros Ho Hpd Hk Hr HB. destruct (parts P k Ho Hpd Hk) as (a & d & c & L1 & L2 & Hs & Hw & Ha & Hd & Hc & Ed & Ep & Eq & Hl).
  destruct (block_right P blk k a d c Ho Hpd Hk Hr HB Hs) as (T1 & T2). destruct (local_mat k d Hk Ed) as (Hlt & Hlm).
  unfold update_matrices_right. rewrite HP0, HnQ. cbn [update_proj bind Nat.ltb Nat.leb]. rewrite Hlt. cbn [bind]. unfold dim. rewrite Hs. cbn [nth].
  set (X := tadd (block_site_interaction_right D P blk k) (kron2 (h_local H k) (eye c))).
  pose proof (is_matrix_kron2 _ _ _ _ Hlm (is_matrix_eye c)) as HKm.
  assert (HX : is_matrix X (d * c) (d * c)) by (apply is_matrix_tadd; assumption).
  assert (HX2 : forall i j z z', (i < d)%nat -> (j < d)%nat -> (z < c)%nat -> (z' < c)%nat ->
    mat X (i + d * z) (j + d * z') = RP k (skipn (S k) P) i j z z' + loc H k i j * delta z z').
  { intros i j z z' Hi Hj Hz Hz'. unfold X. rewrite (mat_tadd _ _ (d * c) (d * c)) by (try assumption; nia). rewrite T2 by assumption.
    rewrite (mat_kron2 _ _ d c) by (try assumption; apply is_matrix_eye). rewrite mat_eye by assumption. reflexivity. }
  assert (EX : ensure_Hermitian X = X).
  { apply (ensure_id X (d * c) HX). apply (herm_index d c X _ HX2). intros i j z z' Hi Hj Hz Hz'. rewrite Ed in Hi, Hj.
    rewrite kconj_add, kconj_mul, delta_conj, (delta_sym z' z), <- Hherm1, <- RP_herm by assumption. reflexivity. }
  rewrite EX. eexists. split; [reflexivity|].
  destruct (sandwich_right (site P k) X a d c Hs HX) as (M1 & M2). unfold Rblk, dim. rewrite Hs. cbn [nth]. split; [exact M1|].
  intros b b' Hb Hb'. rewrite M2 by assumption. rewrite (skipn_site k P) by lia. rewrite (Rc_hseg D _ _ _ k a d c a c) by (try assumption; reflexivity).
  apply sum4_ext. intros i j z z' Hi Hj Hz Hz'. rewrite HX2, (rest_iso P k c) by assumption. reflexivity.
Qed.

Lemma update_left P blk k : open_mps P -> pdims P = ds -> (k < N)%nat -> lefts P k -> ((0 < k)%nat -> Lblk P (k - 1) (nth (k - 1) blk empty)) ->
  exists T, update_matrices_left D P (blk, []) k = Ok (replace_nth k T blk, []) /\ Lblk P k T.
Proof.
  intros Ho Hpd Hk Hr HB. destruct (parts P k Ho Hpd Hk) as (a & d & c & L1 & L2 & Hs & Hw & Ha & Hd & Hc & Ed & Ep & Eq & Hl).
  destruct (block_left P blk k a d c Ho Hpd Hk Hr HB Hs) as (T1 & T2). destruct (local_mat k d Hk Ed) as (Hlt & Hlm).
  unfold update_matrices_left. rewrite HP0, HnQ. cbn [update_proj bind Nat.ltb Nat.leb]. rewrite Hlt. cbn [bind]. unfold dim. rewrite Hs. cbn [nth].
  set (X := tadd (block_site_interaction_left D P blk k) (kron2 (eye a) (h_local H k))).
  pose proof (is_matrix_kron2 _ _ _ _ (is_matrix_eye a) Hlm) as HKm.
  assert (HX : is_matrix X (a * d) (a * d)) by (apply is_matrix_tadd; assumption).
  assert (HX2 : forall z z' i j, (z < a)%nat -> (z' < a)%nat -> (i < d)%nat -> (j < d)%nat ->
    mat X (z + a * i) (z' + a * j) = LP k (firstn k P) i j z z' + delta z z' * loc H k i j).
  { intros z z' i j Hz Hz' Hi Hj. unfold X. rewrite (mat_tadd _ _ (a * d) (a * d)) by (try assumption; nia). rewrite T2 by assumption.
    rewrite (mat_kron2 _ _ a d) by (try assumption; apply is_matrix_eye). rewrite mat_eye by assumption. reflexivity. }
  assert (EX : ensure_Hermitian X = X).
  { apply (ensure_id X (a * d) HX). apply (herm_index a d X _ HX2). intros z z' i j Hz Hz' Hi Hj. rewrite Ed in Hi, Hj.
    rewrite kconj_add, kconj_mul, delta_conj, (delta_sym z' z), <- Hherm1, <- LP_herm by assumption. reflexivity. }
  rewrite EX. eexists. split; [reflexivity|].
  destruct (sandwich_left (site P k) X a d c Hs HX) as (M1 & M2). unfold Lblk, dim. rewrite Hs. cbn [nth]. split; [exact M1|].
  intros b b' Hb Hb'. rewrite M2 by assumption. rewrite (firstn_S_site k P) by lia.
  rewrite (Lc_hseg D _ _ k a d c) by (try assumption; rewrite firstn_length; lia).
  apply sum4_ext. intros i j z z' Hi Hj Hz Hz'. rewrite HX2, (first_iso P k a) by (assumption || lia). reflexivity.
Qed.
End Local.
