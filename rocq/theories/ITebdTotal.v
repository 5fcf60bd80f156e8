(** * When canonical_form, apply_operator and energy of infinite states return *)
From Coq Require Import Reals Lra Bool List Arith ZArith Lia Ring.
From Verif Require ExpectedFacts QFormFacts SparseFacts.
From Verif Require Import Scalar ScalarFacts RScal Tensor TensorFacts Spec SparseSpec MpsModel MpsFacts CanonModel CanonSpec TruncFacts CanonFacts CanonSweep SplitFacts DecompModel DecompFacts SvdExist ITebdModel ITebdSpec ITebdFacts ITebdSlow ITebdSpec2 ITebdGauge ITebdCanon ITebdCanon2 ITebdEig ITebdApply ITebdApply2 Properties_ITebd Properties_ITebd4 Properties_ITebd6.
Import ListNotations.
Local Open Scope K_scope.

Section Total.
Context {RS : RScal}.
Add Ring Kring : k_ring.

(** No weight is zero, and neither is the wave function of some ring of at least two cells *)
Definition full (psi : itebd) : Prop :=
  wf_itebd psi /\ (forall k, (k < length (ilA psi))%nat -> nth k (ilA psi) 0%R <> 0%R) /\ (forall k, (k < length (ilB psi))%nat -> nth k (ilB psi) 0%R <> 0%R) /\
  exists n is, (2 <= n)%nat /\ in_range (cell_dims psi n) is /\ ring psi n is <> 0.

(** A positive or a negative definite matrix *)
Definition definite (n : nat) (V : tensor) : Prop :=
  exists c P, c <> 0%R /\ positive n P /\ forall i j, (i < n)%nat -> (j < n)%nat -> get V [i; j] = rinj c * P i j.

Lemma sum_nonzero n (f : nat -> K) : sum n f <> 0 -> exists i, (i < n)%nat /\ f i <> 0.
Proof. intros H. destruct (zero_dec n f) as [Hz|He]; [exfalso; apply H, sum_zero; exact Hz|exact He]. Qed.
Lemma cfg_dec ds : forall f : list nat -> K, (forall is, in_range ds is -> f is = 0) \/ exists is, in_range ds is /\ f is <> 0.
Proof.
  induction ds as [|d ds IH]; intros f.
  - destruct (keqb_spec (f []) 0) as [E|E]; [left; intros is Hi; apply in_range_nil_inv in Hi; subst; exact E|right; exists []; split; [constructor|exact E]].
  - assert (D : (forall i, (i < d)%nat -> forall is, in_range ds is -> f (i :: is) = 0) \/ exists i is, (i < d)%nat /\ in_range ds is /\ f (i :: is) <> 0).
    { induction d as [|d [ID|(i & is & Hi & H)]]; [left; intros; lia| |right; exists i, is; split; [lia|exact H]].
      destruct (IH (fun is => f (d :: is))) as [Hz|(is & H1 & H2)]; [|right; exists d, is; auto].
      left. intros i Hi. destruct (Nat.eq_dec i d) as [->|]; [exact Hz|apply ID; lia]. }
    destruct D as [Hz|(i & is & Hi & H1 & H2)].
    + left. intros is Hi. apply in_range_cons_inv in Hi. destruct Hi as (i & is' & -> & Hi & H). apply Hz; assumption.
    + right. exists (i :: is). split; [constructor; assumption|exact H2].
Qed.

(** Some amplitude of a part of the chain is not zero *)
Lemma chain_part psi n m is : wf_itebd psi -> (0 < m <= n)%nat -> in_range (cell_dims psi n) is -> ring psi n is <> 0 ->
  exists a b js, (a < length (ilB psi))%nat /\ (b < length (ilB psi))%nat /\ in_range (cell_dims psi m) js /\ chain (cells psi m) js a b <> 0.
Proof.
  intros (D & E & dA & dB & HD & HE & HdA & HdB & HA & HAw & HB & HBw & HlA & HlB & HAl & HAlw & HBl & HBlw & _) Hm Hi Hr.
  assert (L1 : linked D [iAlA psi; iBlB psi] D). { exists dA, E. repeat split; auto. exists dB, D. repeat split; auto. }
  assert (Hc : cells psi n = cells psi m ++ cells psi (n - m)). { unfold cells. rewrite <- concat_app, <- repeat_app. do 2 f_equal. lia. }
  assert (Hcd : cell_dims psi n = cell_dims psi m ++ cell_dims psi (n - m)). { unfold cell_dims. rewrite <- concat_app, <- repeat_app. do 2 f_equal. lia. }
  rewrite Hcd in Hi. destruct (SparseFacts.in_range_app _ _ _ Hi) as (i1 & i2 & -> & H1 & H2).
  unfold ring, amp in Hr. apply sum_nonzero in Hr. destruct Hr as (a & Ha & Hr).
  replace (left_bond (cells psi n)) with D in Ha. 2:{ destruct n as [|n]; [lia|]. unfold left_bond, cells. cbn [repeat concat app]. unfold dim. rewrite HAl. reflexivity. }
  rewrite Hc in Hr. rewrite (chain_app D _ D _ D) in Hr; [|apply linked_pow; exact L1|apply linked_pow; exact L1| |exact Ha].
  2:{ apply in_range_length in H1. rewrite H1. unfold cell_dims, cells. clear. induction m as [|m IH]; [reflexivity|]. cbn [repeat concat app length]. lia. }
  apply sum_nonzero in Hr. destruct Hr as (b & Hb & Hr). exists a, b, i1. rewrite HlB. split; [exact Ha|]. split; [exact Hb|]. split; [exact H1|].
  intros E0. apply Hr. rewrite E0. ring.
Qed.

(** The singular values of an invertible matrix *)
Lemma svd_weights D M U s V : is_svd D D M U s V ->
  (forall v : nat -> K, (forall i, (i < D)%nat -> sum D (fun j => get M [i; j] * v j) = 0) -> forall j, (j < D)%nat -> v j = 0) ->
  forall k, (k < length s)%nat -> nth k s 0%R <> 0%R.
Proof.
  intros (Hl0 & Hlm & HU & HV & Hpos & Hdec & OU & OV & HM) Hinj k Hk E0.
  assert (Hv : forall j, (j < D)%nat -> kconj (get V [k; j]) = 0).
  { apply Hinj. intros i Hi.
    transitivity (sum (length s) (fun x => get U [i; x] * rinj (nth x s 0%R) * delta x k)).
    - transitivity (sum D (fun j => sum (length s) (fun x => get U [i; x] * rinj (nth x s 0%R) * (get V [x; j] * kconj (get V [k; j]))))).
      { apply sum_ext. intros j Hj. rewrite HM, sum_mul_r by assumption. apply sum_ext. intros; ring. }
      rewrite sum_swap. apply sum_ext. intros x Hx. rewrite <- sum_mul_l, OV by assumption. reflexivity.
    - rewrite (sum_delta_r (length s) k (fun x => get U [i; x] * rinj (nth x s 0%R))) by exact Hk. rewrite E0, rinj_0. ring. }
  apply k1_neq_0. pose proof (OV k k Hk Hk) as O. rewrite delta_refl in O. rewrite <- O. apply sum_zero. intros j Hj. rewrite Hv by exact Hj. ring.
Qed.

Variable svd : tensor -> tensor * list R * tensor.
Variable flag : R.
Variable eigs : (tensor -> tensor) -> nat -> tensor -> tensor.
Variable eig_sym : tensor -> list R * tensor.
Hypothesis Hsvd : svd_contract svd.
Hypothesis Hes : eig_sym_contract eig_sym.
Hypothesis Hei : eigs_sized eigs.

(** What eigs finds is definite *)
Definition boundaries_definite (psi : itebd) : Prop :=
  forall sense, definite (length (ilB psi)) (itebd_power_eig eigs (iA psi) (ilA psi) (iB psi) (ilB psi) sense).

Lemma canonical_full psi : full psi -> boundaries_definite psi ->
  exists psi', canonical_form svd eigs eig_sym psi = Ok psi' /\ full psi' /\ icanon psi' = true /\ (forall n, cell_dims psi' n = cell_dims psi n).
Proof.
  intros (Hw & HnA & HnB & n & is & Hn & Hi & Hr) Hdef. pose proof Hw as (D & E & dA & dB & HD & HE & HdA & HdB & HA & HAw & HB & HBw & HlA & HlB & HAl & HAlw & HBl & HBlw & HgA & HgB).
  destruct (vr_sized psi D eigs HlB Hei) as [R1 R2]. destruct (vl_sized psi D eigs HlB Hei) as [L1 L2].
  destruct (Hdef (-1)%Z) as (c & P & Hc & HP & HcP). destruct (Hdef 1%Z) as (d & Q & Hd & HQ & HdQ). rewrite HlB in HP, HcP, HQ, HdQ.
  destruct (ortho_basis_defined eig_sym Hes D _ c P HD R1 R2 HcP HP Hc) as (X & Xi & EX).
  destruct (ortho_basis_defined eig_sym Hes D _ d Q HD L1 L2 HdQ HQ Hd) as (Y & Yi & EY).
  destruct (canonical_total eig_sym Hes svd Hsvd eigs psi D E dA dB) as (psi' & Ok'); auto; [exists X, Xi; exact EX|exists Y, Yi; exact EY|].
  destruct (C63_canonical_ring svd eigs eig_sym Hsvd Hes psi psi' Hw Hei Ok') as (Hw' & Hcan & Hcd & Hr' & ElA & _).
  exists psi'. split; [exact Ok'|]. split; [|split; [exact Hcan|exact Hcd]].
  split; [exact Hw'|]. split; [rewrite ElA; exact HnA|]. split.
  2:{ exists n, is. split; [exact Hn|]. split; [rewrite Hcd; exact Hi|]. rewrite Hr' by exact Hi. exact Hr. }
  clear Hr' Hcd Hw' Hcan ElA Hr Hi Hn.
  destruct (ortho_basis_ok eig_sym Hes D _ X Xi HD R1 R2 EX) as (HX & HXi & X1 & X2 & _).
  destruct (ortho_basis_ok eig_sym Hes D _ Y Yi HD L1 L2 EY) as (HY & HYi & Y1 & Y2 & _).
  unfold canonical_form in Ok'. rewrite EX in Ok'. cbn [bind] in Ok'. rewrite EY in Ok'. cbn [bind] in Ok'. cbv zeta in Ok'.
  set (a := fold Y 0 (scale X 0 (ilB psi)) 0) in Ok'.
  assert (Ha : is_matrix a D D /\ forall i j, (i < D)%nat -> (j < D)%nat -> get a [i; j] = sum D (fun k => get Y [k; i] * (rinj (nth k (ilB psi) 0%R) * get X [k; j]))).
  { destruct HX as (HX & _). destruct HY as (HY & _). split.
    - split; [unfold a, fold; rewrite dims_mk, HY; cbn [scale dims mk remove_nth]; rewrite HX; reflexivity|apply wf_mk].
    - intros i j Hi Hj. unfold a, fold. rewrite get_mk.
      + unfold rank, dim. rewrite HY. cbn [length nth firstn skipn insert_nth Nat.sub app]. apply sum_ext. intros k Hk.
        rewrite get_scale by (rewrite HX; apply in_range_2; assumption). cbn [nth]. ring.
      + rewrite HY. cbn [scale dims mk remove_nth]. rewrite HX. cbn. apply in_range_2; assumption. }
  destruct Ha as [Ham Hag]. clearbody a. pose proof (Hsvd D D a Ham HD HD) as Hs. destruct (svd a) as [[U lam] V].
  assert (Elam : ilB psi' = lam).
  { unfold new_itebd in Ok'. match type of Ok' with (if ?t then _ else _) = _ => destruct t; [|discriminate] end. apply Ok_inj' in Ok'. rewrite <- Ok'. reflexivity. }
  rewrite Elam. apply (svd_weights D a U lam V Hs).
  intros v Hv j Hj.
  (* X v = 0 *)
  assert (HXv : forall k, (k < D)%nat -> sum D (fun j => get X [k; j] * v j) = 0).
  { intros k Hk.
    assert (E1 : rinj (nth k (ilB psi) 0%R) * sum D (fun j => get X [k; j] * v j) = 0).
    { transitivity (sum D (fun i => get Yi [i; k] * sum D (fun j => get a [i; j] * v j))); [|apply sum_zero; intros i Hi; rewrite Hv by exact Hi; ring].
      symmetry. transitivity (sum D (fun i => sum D (fun k' => get Yi [i; k] * get Y [k'; i] * (rinj (nth k' (ilB psi) 0%R) * sum D (fun j => get X [k'; j] * v j))))).
      - apply sum_ext. intros i Hi. transitivity (get Yi [i; k] * sum D (fun k' => sum D (fun j => get Y [k'; i] * (rinj (nth k' (ilB psi) 0%R) * get X [k'; j]) * v j))).
        + f_equal. rewrite sum_swap. apply sum_ext. intros j' Hj'. rewrite Hag, sum_mul_r by assumption. reflexivity.
        + rewrite sum_mul_l. apply sum_ext. intros k' Hk'. rewrite !sum_mul_l. apply sum_ext. intros; ring.
      - rewrite sum_swap. transitivity (sum D (fun k' => delta k' k * (rinj (nth k' (ilB psi) 0%R) * sum D (fun j => get X [k'; j] * v j)))).
        + apply sum_ext. intros k' Hk'. rewrite <- sum_mul_r. f_equal. rewrite <- Y1 by assumption. unfold mm, mat. apply sum_ext. intros; ring.
        + rewrite (sum_ext D _ (fun k' => (rinj (nth k' (ilB psi) 0%R) * sum D (fun j => get X [k'; j] * v j)) * delta k' k)) by (intros; ring).
          apply (sum_delta_r D k (fun k' => rinj (nth k' (ilB psi) 0%R) * sum D (fun j => get X [k'; j] * v j))). exact Hk. }
    transitivity (rinj (/ nth k (ilB psi) 0)%R * (rinj (nth k (ilB psi) 0%R) * sum D (fun j => get X [k; j] * v j))); [|rewrite E1; ring].
    assert (rinj (/ nth k (ilB psi) 0)%R * rinj (nth k (ilB psi) 0%R) = 1) as E2. { rewrite <- rinj_mul, Rinv_l, rinj_1 by (apply HnB; lia). reflexivity. }
    transitivity ((rinj (/ nth k (ilB psi) 0)%R * rinj (nth k (ilB psi) 0%R)) * sum D (fun j => get X [k; j] * v j)); [rewrite E2; ring|ring]. }
  transitivity (sum D (fun k => get Xi [j; k] * sum D (fun j => get X [k; j] * v j))); [|apply sum_zero; intros k Hk; rewrite HXv by exact Hk; ring].
  symmetry. transitivity (sum D (fun j' => delta j j' * v j')); [|apply (sum_delta_l' D j v); exact Hj].
  transitivity (sum D (fun k => sum D (fun j' => get Xi [j; k] * get X [k; j'] * v j'))); [apply sum_ext; intros k Hk; rewrite sum_mul_l; apply sum_ext; intros; ring|].
  rewrite sum_swap. apply sum_ext. intros j' Hj'. rewrite <- sum_mul_r. f_equal. rewrite <- X2 by assumption. reflexivity.
Qed.

(** U with a left inverse, on all cells *)
Lemma cells_op_inv dA dB (W U : nat -> nat -> K) n : (0 < dA)%nat ->
  (forall p q, (p < dA * dB)%nat -> (q < dA * dB)%nat -> sum (dA * dB) (fun k => W p k * U k q) = delta p q) ->
  forall js ks, in_range (concat (repeat [dA; dB] n)) js -> in_range (concat (repeat [dA; dB] n)) ks ->
  sumcfg (concat (repeat [dA; dB] n)) (fun is => cells_op dA W js is * cells_op dA U is ks) = id_op js ks.
Proof.
  intros HdA HU. induction n as [|n IH]; intros js ks Hj Hk.
  - cbn [repeat concat] in *. apply in_range_nil_inv in Hj. apply in_range_nil_inv in Hk. subst. cbn. ring.
  - cbn [repeat concat app] in *. apply in_range_cons_inv in Hj. destruct Hj as (j1 & js1 & -> & Hj1 & Hj). apply in_range_cons_inv in Hj. destruct Hj as (j2 & js2 & -> & Hj2 & Hj).
    apply in_range_cons_inv in Hk. destruct Hk as (k1 & ks1 & -> & Hk1 & Hk). apply in_range_cons_inv in Hk. destruct Hk as (k2 & ks2 & -> & Hk2 & Hk).
    cbn [sumcfg cells_op id_op]. rewrite <- (IH js2 ks2 Hj Hk).
    set (S := sumcfg (concat (repeat [dA; dB] n)) (fun is => cells_op dA W js2 is * cells_op dA U is ks2)).
    transitivity (sum (dA * dB) (fun x => W (j1 + dA * j2)%nat x * U x (k1 + dA * k2)%nat) * S).
    + rewrite (sum_merge dA dB). rewrite (sum_swap dB dA). rewrite sum_mul_r. apply sum_ext. intros i Hi. rewrite sum_mul_r. apply sum_ext. intros i' Hi'.
      unfold S. rewrite sumcfg_mul_l. apply sumcfg_ext. intros is _. ring.
    + rewrite HU by nia. transitivity (delta j1 k1 * delta j2 k2 * S); [|ring]. f_equal. unfold delta.
      destruct (Nat.eqb_spec j1 k1) as [->|N1]; [destruct (Nat.eqb_spec j2 k2) as [->|N2]|].
      * rewrite Nat.eqb_refl. ring.
      * destruct (Nat.eqb_spec (k1 + dA * j2) (k1 + dA * k2)); [nia|ring].
      * destruct (Nat.eqb_spec (j1 + dA * j2) (k1 + dA * k2)) as [E|]; [|ring].
        exfalso. apply N1. apply (f_equal (fun x => x mod dA)%nat) in E. rewrite (Nat.mul_comm dA j2), (Nat.mul_comm dA k2), !Nat.mod_add, !Nat.mod_small in E by lia. exact E.
Qed.

Definition left_inverse (d : nat) (U : nat -> nat -> K) : Prop :=
  exists W : nat -> nat -> K, forall p q, (p < d)%nat -> (q < d)%nat -> sum d (fun k => W p k * U k q) = delta p q.

(** An invertible operator does not make a wave function zero *)
Lemma op_nonzero dA dB U n f js : (0 < dA)%nat -> left_inverse (dA * dB) U -> in_range (concat (repeat [dA; dB] n)) js -> f js <> 0 ->
  exists is, in_range (concat (repeat [dA; dB] n)) is /\ sumcfg (concat (repeat [dA; dB] n)) (fun js => cells_op dA U is js * f js) <> 0.
Proof.
  intros HdA (W & HW) Hj Hf. set (ds := concat (repeat [dA; dB] n)) in *.
  destruct (cfg_dec ds (fun is => sumcfg ds (fun js => cells_op dA U is js * f js))) as [Hz|H]; [exfalso|exact H].
  apply Hf. transitivity (sumcfg ds (fun ks => id_op js ks * f ks)); [symmetry; apply ExpectedFacts.sumcfg_id_op; exact Hj|].
  transitivity (sumcfg ds (fun is => cells_op dA W js is * sumcfg ds (fun ks => cells_op dA U is ks * f ks))).
  - transitivity (sumcfg ds (fun ks => sumcfg ds (fun is => cells_op dA W js is * cells_op dA U is ks * f ks))).
    + apply sumcfg_ext. intros ks Hk. rewrite <- sumcfg_mul_r. f_equal. symmetry. apply cells_op_inv; assumption.
    + rewrite sumcfg_swap. apply sumcfg_ext. intros is Hi. rewrite sumcfg_mul_l. apply sumcfg_ext. intros; ring.
  - apply sumcfg_zero. intros is Hi. rewrite Hz by exact Hi. ring.
Qed.

Lemma even_full psi U tol Dmax : full psi -> dim (iA psi) 1 = dim (iB psi) 1 ->
  is_matrix U (dim (iA psi) 1 * dim (iB psi) 1) (dim (iA psi) 1 * dim (iB psi) 1) -> left_inverse (dim (iA psi) 1 * dim (iB psi) 1) (mat U) ->
  eff_tol flag tol = 0%R -> (Dmax <= 0)%Z ->
  exists psi', apply_even svd flag psi U tol Dmax = Ok psi' /\ ilB psi' = ilB psi /\ (forall k, (k < length (ilA psi'))%nat -> nth k (ilA psi') 0%R <> 0%R).
Proof.
  intros (Hw & HnA & HnB & n & is & Hn & Hi & Hr) Hd HU HUi Ht HDm.
  destruct (chain_part psi n 1 is Hw ltac:(lia) Hi Hr) as (a & b & js & Ha & Hb & Hj & Hne).
  destruct Hw as (D & E & dA & dB & HD & HE & HdA & HdB & HA & HAw & HB & HBw & HlA & HlB & HAl & HAlw & HBl & HBlw & HgA & HgB).
  assert (HiA : dim (iA psi) 1 = dA) by (unfold dim; rewrite HA; reflexivity).
  assert (HiB : dim (iB psi) 1 = dB) by (unfold dim; rewrite HB; reflexivity).
  rewrite HiA, HiB in *. rewrite HlB in *.
  assert (Hcd : cell_dims psi 1 = concat (repeat [dA; dB] 1)) by (unfold cell_dims; rewrite HiA, HiB; reflexivity).
  destruct (op_nonzero dA dB (mat U) 1 (section psi 1 a b) js HdA HUi ltac:(rewrite <- Hcd; exact Hj)) as (ks & Hk & Hks).
  { unfold section. intros E0. apply Hne. assert (rinj (/ nth a (ilB psi) 0)%R * rinj (nth a (ilB psi) 0%R) = 1) as E2. { rewrite <- rinj_mul, Rinv_l, rinj_1 by (apply HnB; lia). reflexivity. }
    transitivity (rinj (/ nth a (ilB psi) 0)%R * (rinj (nth a (ilB psi) 0%R) * chain (cells psi 1) js a b)); [|rewrite E0; ring].
    transitivity ((rinj (/ nth a (ilB psi) 0)%R * rinj (nth a (ilB psi) 0%R)) * chain (cells psi 1) js a b); [rewrite E2; ring|ring]. }
  rewrite <- Hcd in Hks. cbn [repeat concat app] in Hk. destruct (QFormFacts.in_range_inv2 _ _ _ Hk) as (i & j & -> & Hi1 & Hj1).
  assert (Hne' : cell_after psi (mat U) a b [i; j] <> 0). { unfold cell_after. rewrite HiA. exact Hks. }
  rewrite (apply_even_theta svd flag psi D E dA dB HD HE HdA HdB HA HB HlB HAl HBl HgB U HU).
  destruct (theta_ok psi D E dA dB HD HE HdA HdB HA HB HlB HAl HBl HgB U HU) as (T1 & T2 & T3).
  set (M := reshape (theta psi D dA dB U) [(D * dA)%nat; (dB * D)%nat]).
  assert (HM : is_matrix M (D * dA) (dB * D)). { split; [reflexivity|]. apply wf_reshape; [exact T2|]. rewrite T1. cbn [nprod fold_right]. nia. }
  destruct (limited_svd_ok svd flag Hsvd M (D * dA) (dB * D) tol Dmax HM ltac:(nia) ltac:(nia)) as (Us & sv & Vs & Es & Hs & H).
  { exists (a + D * i)%nat, (j + dB * b)%nat. split; [nia|]. split; [nia|]. intros E0. apply Hne'. rewrite <- T3 by assumption. rewrite <- E0. symmetry. unfold M. apply get_reshape. rewrite T1. cbn [offset]. nia. }
  cbv zeta in H. set (c := where_to_truncate flag sv tol Dmax) in *.
  destruct H as ((Hc0 & Hc1) & HN & Hsv0 & HNN & Htot & pA & s & pB & El & HpA & HpB & Hls & Hsn & _).
  rewrite El. cbn [bind]. rewrite (proj2 HpB), (proj1 HpB), Hls. cbn [nprod fold_right]. rewrite Hd.
  replace (c * (dB * D * 1))%nat with (c * dB * D)%nat by nia. rewrite Nat.eqb_refl. cbn [negb].
  destruct (existsb _ (ilB psi)) eqn:Ex.
  { exfalso. apply existsb_exists in Ex. destruct Ex as (x & Hin & Hx). destruct (In_nth _ _ 0%R Hin) as (k & Hk' & <-). apply (HnB k); [lia|]. destruct (Req_EM_T _ 0); [assumption|discriminate]. }
  unfold new_itebd, rank, dim. cbn [dims scale mk reshape nth length]. rewrite HlB, Hls, !Nat.eqb_refl. cbn [andb]. eexists. split; [reflexivity|]. cbn [ilB ilA]. split; [reflexivity|].
  rewrite Hls. intros k Hk'. rewrite Hsn by exact Hk'.
  assert (Hcl : (c <= last_nonzero sv)%nat). { unfold c. rewrite wtt_unfold, Ht. destruct (Rleb 1 0) eqn:E1; [apply Rleb_true in E1; lra|]. destruct (Req_EM_T 0 0); [lia|lra]. }
  destruct (last_nonzero sv) as [|m] eqn:Em; [lia|]. pose proof (last_nonzero_last sv m Em) as Hm. pose proof (last_nonzero_le sv) as Hml. rewrite Em in Hml.
  destruct Hs as (_ & _ & _ & _ & Hp & Hdec & _). pose proof (Hp m ltac:(lia)). pose proof (Hdec k m ltac:(lia) ltac:(lia)).
  intros E1. assert (Hpos : (0 < nth k sv 0 / norm2_list (firstn c sv))%R). { apply Rdiv_lt_0_compat; [lra|exact HN]. } rewrite E1 in Hpos. lra.
Qed.

Lemma wf_matrix_pos psi : wf_itebd psi -> (0 < dim (iA psi) 1)%nat /\ (0 < dim (iB psi) 1)%nat.
Proof. intros (D & E & dA & dB & HD & HE & HdA & HdB & HA & HAw & HB & HBw & _). unfold dim. rewrite HA, HB. split; assumption. Qed.

(** The state with the two sites exchanged, as apply_operator makes it *)
Lemma swap_ok psi : wf_itebd psi -> new_itebd (iB psi) (ilB psi) (iA psi) (ilA psi) false = Ok (mkI (iB psi) (ilB psi) (iA psi) (ilA psi) (iBlB psi) (iAlA psi) false).
Proof.
  intros (D & E & dA & dB & HD & HE & HdA & HdB & HA & HAw & HB & HBw & HlA & HlB & HAl & HAlw & HBl & HBlw & HgA & HgB).
  unfold new_itebd, rank, dim. rewrite HA, HB, HlA, HlB. cbn [length nth Nat.sub]. rewrite !Nat.eqb_refl. cbn [andb]. do 2 f_equal.
  - apply (combined_scale _ _ _ E dB D); assumption.
  - apply (combined_scale _ _ _ D dA E); assumption.
Qed.
Lemma swap_full psi : full psi -> full (mkI (iB psi) (ilB psi) (iA psi) (ilA psi) (iBlB psi) (iAlA psi) false).
Proof.
  intros (Hw & HnA & HnB & n & is & Hn & Hi & Hr). split.
  { destruct Hw as (D & E & dA & dB & HD & HE & HdA & HdB & HA & HAw & HB & HBw & HlA & HlB & HAl & HAlw & HBl & HBlw & HgA & HgB). exists E, D, dB, dA. cbn [iA ilA iB ilB iAlA iBlB]. auto 20. }
  split; [exact HnB|]. split; [exact HnA|]. exists n, (rot is). split; [exact Hn|].
  change (ring (mkI (iB psi) (ilB psi) (iA psi) (ilA psi) (iBlB psi) (iAlA psi) false)) with (ring (shift psi)).
  change (cell_dims (mkI (iB psi) (ilB psi) (iA psi) (ilA psi) (iBlB psi) (iAlA psi) false)) with (cell_dims (shift psi)).
  split; [|rewrite ring_shift_rot by assumption; exact Hr].
  destruct (cell_dims psi n) as [|d ds] eqn:Ed; [destruct n; [lia|discriminate]|].
  rewrite (cell_dims_shift psi n d ds Ed). change (ds ++ [d]) with (rot (d :: ds)). apply in_range_rot. exact Hi.
Qed.

(** Also for the odd bonds *)
Lemma ring_op_nonzero psi site U n js : wf_itebd psi -> left_inverse (dim (iA psi) 1 * dim (iB psi) 1) U -> in_range (cell_dims psi n) js -> ring psi n js <> 0 ->
  exists is, in_range (cell_dims psi n) is /\ sumcfg (cell_dims psi n) (fun js => on_ring psi site U is js * ring psi n js) <> 0.
Proof.
  intros Hw HU Hj Hr. destruct (wf_matrix_pos psi Hw) as [PA PB]. unfold on_ring. destruct (Z.odd site).
  - assert (Hro : cell_dims (shift psi) n = rot (cell_dims psi n)).
    { destruct (cell_dims psi n) as [|d ds] eqn:Ed; [destruct n; [reflexivity|discriminate]|]. apply (cell_dims_shift psi n d ds Ed). }
    destruct (op_nonzero (dim (iB psi) 1) (dim (iA psi) 1) U n (ring (shift psi) n) (rot js) PB) as (is & Hi & His).
    + rewrite Nat.mul_comm. exact HU.
    + change (concat (repeat [dim (iB psi) 1; dim (iA psi) 1] n)) with (cell_dims (shift psi) n). rewrite Hro. apply in_range_rot. exact Hj.
    + rewrite ring_shift_rot by assumption. exact Hr.
    + change (concat (repeat [dim (iB psi) 1; dim (iA psi) 1] n)) with (cell_dims (shift psi) n) in Hi, His. rewrite Hro in Hi, His.
      assert (Hex : exists is', in_range (cell_dims psi n) is' /\ is = rot is').
      { destruct (cell_dims psi n) as [|d ds]; [apply in_range_nil_inv in Hi; subst; exists []; split; [constructor|reflexivity]|].
        cbn [rot] in Hi. destruct (SparseFacts.in_range_app _ _ _ Hi) as (i1 & i2 & -> & H1 & H2). apply in_range_cons_inv in H2. destruct H2 as (i & i0 & -> & Hi' & H0).
        apply in_range_nil_inv in H0. subst i0. exists (i :: i1). split; [constructor; assumption|reflexivity]. }
      destruct Hex as (is' & Hi' & ->). exists is'. split; [exact Hi'|]. rewrite sumcfg_rot in His.
      intros E0. apply His. rewrite <- E0. apply sumcfg_ext. intros ks Hk. rewrite ring_shift_rot by assumption. reflexivity.
  - exact (op_nonzero (dim (iA psi) 1) (dim (iB psi) 1) U n (ring psi n) js PA HU Hj Hr).
Qed.

Hypothesis Hdef : forall phi, full phi -> boundaries_definite phi.

Lemma apply_full psi U site tol Dmax : full psi -> dim (iA psi) 1 = dim (iB psi) 1 ->
  is_matrix U (dim (iA psi) 1 * dim (iB psi) 1) (dim (iA psi) 1 * dim (iB psi) 1) -> left_inverse (dim (iA psi) 1 * dim (iB psi) 1) (mat U) ->
  eff_tol flag tol = 0%R -> (Dmax <= 0)%Z ->
  exists psi', apply_operator svd flag eigs eig_sym psi U site tol Dmax = Ok psi' /\ full psi' /\ (forall n, cell_dims psi' n = cell_dims psi n).
Proof.
  intros Hf Hd HU HUi Ht HDm. pose proof Hf as (Hw & _).
  assert (Hex : exists psi', apply_operator svd flag eigs eig_sym psi U site tol Dmax = Ok psi' /\
     (forall k, (k < length (ilA psi'))%nat -> nth k (ilA psi') 0%R <> 0%R) /\ (forall k, (k < length (ilB psi'))%nat -> nth k (ilB psi') 0%R <> 0%R)).
  { assert (Heven : forall phi, full phi -> dim (iA phi) 1 = dim (iB psi) 1 -> dim (iB phi) 1 = dim (iB psi) 1 ->
       exists aux, apply_even svd flag phi U tol Dmax = Ok aux /\ (forall k, (k < length (ilA aux))%nat -> nth k (ilA aux) 0%R <> 0%R) /\ (forall k, (k < length (ilB aux))%nat -> nth k (ilB aux) 0%R <> 0%R) /\
         dims (iA aux) = [length (ilB aux); dim (iA phi) 1; length (ilA aux)] /\ dims (iB aux) = [length (ilA aux); dim (iB phi) 1; length (ilB aux)]).
    { intros phi Hp E1 E2. destruct (even_full phi U tol Dmax Hp) as (aux & Ea & El & Hn); [congruence|rewrite E1, E2, <- Hd; rewrite <- Hd in HU; exact HU|rewrite E1, E2, <- Hd; rewrite <- Hd in HUi; exact HUi|exact Ht|exact HDm|].
      exists aux. split; [exact Ea|]. split; [exact Hn|]. split; [rewrite El; apply Hp|].
      destruct Hp as ((D & E & dA & dB & HD & HE & HdA & HdB & HA & HAw & HB & HBw & HlA & HlB & HAl & HAlw & HBl & HBlw & HgA & HgB) & _).
      assert (Ed : dim (iA phi) 1 = dA /\ dim (iB phi) 1 = dB) by (unfold dim; rewrite HA, HB; split; reflexivity). destruct Ed as [Ed1 Ed2]. rewrite Ed1, Ed2 in *.
      destruct (apply_even_ok svd Hsvd flag phi D E dA dB HD HE HdA HdB HA HB HlB HAl HBl HgB U) with (tol := tol) (Dmax := Dmax) (psi' := aux) as (_ & c & N & _ & _ & _ & _ & A1 & _ & A3 & _ & A5 & A6 & _); [rewrite E1, E2; rewrite Hd in HU; exact HU|exact Ea|].
      rewrite A6, A5, HlB. split; assumption. }
    assert (Hcdim : forall phi phi', (forall n, cell_dims phi' n = cell_dims phi n) -> dim (iA phi') 1 = dim (iA phi) 1 /\ dim (iB phi') 1 = dim (iB phi) 1).
    { intros phi phi' H. specialize (H 1%nat). unfold cell_dims in H. cbn [repeat concat app] in H. injection H as -> ->. split; reflexivity. }
    unfold apply_operator. destruct (Z.odd site).
    - rewrite swap_ok by exact Hw. cbn [bind]. pose proof (swap_full psi Hf) as Hsf. set (aux0 := mkI (iB psi) (ilB psi) (iA psi) (ilA psi) (iBlB psi) (iAlA psi) false) in *.
      destruct (canonical_full aux0 Hsf (Hdef aux0 Hsf)) as (phi & Ec & Hfp & _ & Hcd). rewrite Ec. cbn [bind].
      destruct (Hcdim aux0 phi Hcd) as [C1 C2]. cbn [iA iB] in C1, C2.
      destruct (Heven phi Hfp) as (aux & Ea & Na & Nb & Da & Db); [rewrite C1; reflexivity|rewrite C2; exact Hd|]. rewrite Ea. cbn [bind].
      unfold new_itebd, rank, dim. rewrite Da, Db. cbn [length nth]. rewrite !Nat.eqb_refl. cbn [andb]. eexists. split; [reflexivity|]. cbn [ilA ilB]. split; assumption.
    - destruct (icanon psi); cbn [negb].
      + destruct (Heven psi Hf Hd eq_refl) as (aux & Ea & Na & Nb & _). exists aux. auto.
      + destruct (canonical_full psi Hf (Hdef psi Hf)) as (phi & Ec & Hfp & _ & Hcd). rewrite Ec. cbn [bind]. destruct (Hcdim psi phi Hcd) as [C1 C2].
        destruct (Heven phi Hfp) as (aux & Ea & Na & Nb & _); [congruence|congruence|]. exists aux. auto. }
  destruct Hex as (psi' & Ok' & NA & NB). exists psi'. split; [exact Ok'|].
  assert (HUw : wf U) by apply HU.
  destruct (C53_apply_form svd flag eigs eig_sym Hsvd Hes Hei psi U site tol Dmax psi' Hw HUw Ok') as (Hw' & _ & Hcd & _).
  split; [|exact Hcd]. split; [exact Hw'|]. split; [exact NA|]. split; [exact NB|].
  destruct (C53_apply_exact svd flag eigs eig_sym Hsvd Hes Hei psi U site tol Dmax psi' Hw HUw (or_introl Ht) HDm Ok') as (N & HN & Hr').
  destruct Hf as (_ & _ & _ & n & is & Hn & Hi & Hr).
  destruct (ring_op_nonzero psi site (mat U) n is Hw HUi Hi Hr) as (js & Hj & Hne). exists n, js. split; [exact Hn|]. split; [rewrite Hcd; exact Hj|].
  intros E0. apply Hne. rewrite <- Hr' by exact Hj. rewrite E0. ring.
Qed.
End Total.
