(** * C53: infinite product states *)
From Coq Require Import Reals Lra Bool List Arith ZArith Lia Ring.
From Verif Require Import Scalar ScalarFacts RScal Tensor TensorFacts Spec MpsModel MpsFacts CanonModel CanonSpec TruncFacts CanonFacts CanonSweep CanonNorm SplitFacts DecompModel DecompFacts SvdExist ExpectedFacts TrotterRun LFormValue ITebdModel ITebdSpec ITebdFacts ITebdSlow ITebdSpec2 ITebdGauge ITebdCanon ITebdCanon2 Properties_ITebd6.
Import ListNotations.
Local Open Scope K_scope.

(** The wave function of n cells in which the sites have the states f and g, one after the other *)
Fixpoint alternating {RS : RScal} (f g : nat -> K) (is : list nat) : K :=
  match is with i :: j :: r => f i * g j * alternating f g r | _ => 1 end.

Section Product.
Context {RS : RScal}.
Add Ring Kring : k_ring.

Lemma frob2_1 t a : dims t = [a] -> wf t -> rinj (frob2 t) = sum a (fun x => kconj (get t [x]) * get t [x]).
Proof.
  intros Hd Hw. unfold frob2. rewrite fold_right_rsum. rewrite Hw, Hd. cbn [nprod fold_right]. rewrite Nat.mul_1_r. apply sum_ext. intros x Hx.
  unfold get. rewrite Hd. cbn [offset]. replace (x + a * 0)%nat with x by lia. reflexivity.
Qed.

(** The vector divided by its norm *)
Definition unit_vec (A : tensor) (i : nat) : K := rinj (/ sqrt (frob2 A))%R * get A [i].

Lemma unit_vec_norm A d : dims A = [d] -> wf A -> frob2 A <> 0%R -> sum d (fun i => kconj (unit_vec A i) * unit_vec A i) = 1.
Proof.
  intros Hd Hw Hn. unfold unit_vec. rewrite (sum_ext d _ (fun i => (rinj (/ sqrt (frob2 A))%R * rinj (/ sqrt (frob2 A))%R) * (kconj (get A [i]) * get A [i]))).
  2:{ intros i _. rewrite kconj_mul, rinj_conj. ring. }
  rewrite <- sum_mul_l, <- (frob2_1 A d Hd Hw), <- !rinj_mul. rewrite <- rinj_1. f_equal.
  pose proof (frob2_nonneg A) as Hp. rewrite <- (sqrt_sqrt (frob2 A) Hp) at 3. field. intros H0. apply sqrt_eq_0 in H0; [contradiction|exact Hp].
Qed.

Lemma normalize1_ok A d : dims A = [d] -> wf A -> frob2 A <> 0%R -> exists A', normalize1 A = Ok A' /\
  dims (reshape A' [1; dim A 0; 1]%nat) = [1; d; 1]%nat /\ wf (reshape A' [1; dim A 0; 1]%nat) /\
  forall i, (i < d)%nat -> get (reshape A' [1; dim A 0; 1]%nat) [0; i; 0]%nat = unit_vec A i.
Proof.
  intros Hd Hw Hn. unfold normalize1. fold (frob2 A). destruct (Req_EM_T (sqrt (frob2 A)) 0) as [H0|H0].
  { exfalso. apply Hn. apply sqrt_eq_0; [apply frob2_nonneg|exact H0]. }
  exists (tscale (rinj (/ sqrt (frob2 A))%R) A). split; [reflexivity|]. replace (dim A 0) with d by (unfold dim; rewrite Hd; reflexivity). split; [reflexivity|].
  split. { apply wf_reshape; [apply wf_tscale; exact Hw|]. cbn [dims tscale]. rewrite Hd. cbn. lia. }
  intros i Hi. rewrite (get_reshape _ [1; d; 1]%nat [0; i; 0]%nat [i]).
  - rewrite get_tscale; [reflexivity|exact Hw|rewrite Hd; apply in_range_1; exact Hi].
  - cbn [dims tscale]. rewrite Hd. cbn [offset]. lia.
Qed.

(** iTEBD(A, B) is the product state of the two normalised wave functions on every ring, which has norm one, and its
    states to the left and right of every bond are orthonormal. *)
Theorem C53_product A B dA dB : dims A = [dA] -> wf A -> dims B = [dB] -> wf B -> (0 < dA)%nat -> (0 < dB)%nat ->
  frob2 A <> 0%R -> frob2 B <> 0%R ->
  exists psi, new_product2 A B = Ok psi /\ wf_itebd psi /\ icanon psi = true /\ ilA psi = [1%R] /\ ilB psi = [1%R] /\
    (forall n, cell_dims psi n = concat (repeat [dA; dB] n)) /\
    (forall n is, (0 < n)%nat -> in_range (cell_dims psi n) is -> ring psi n is = alternating (unit_vec A) (unit_vec B) is) /\
    (forall n, (0 < n)%nat -> ring_mean psi n id_op = 1) /\ left_ok psi /\ right_ok psi /\ inner_ok psi.
Proof.
  intros HA HAw HB HBw HdA HdB HnA HnB. destruct (normalize1_ok A dA HA HAw HnA) as (A1 & EA & A2 & A3 & A4). destruct (normalize1_ok B dB HB HBw HnB) as (B1 & EB & B2 & B3 & B4).
  unfold new_product2. unfold rank at 1 2. rewrite HA, HB. cbn [length Nat.eqb andb]. rewrite EA, EB. cbn [bind].
  set (A' := reshape A1 [1%nat; dim A 0; 1%nat]) in *. set (B' := reshape B1 [1%nat; dim B 0; 1%nat]) in *. clearbody A' B'.
  set (psi := mkI A' [1%R] B' [1%R] A' B' true). exists psi. split; [reflexivity|].
  assert (Hw : wf_itebd psi).
  { exists 1%nat, 1%nat, dA, dB. unfold psi. cbn [iA ilA iB ilB iAlA iBlB]. do 4 (split; [lia|]). do 4 (split; [assumption|]). do 2 (split; [reflexivity|]). do 4 (split; [assumption|]).
    split; intros a i b Ha Hi Hb; assert (b = 0)%nat by lia; subst b; cbn [nth]; rewrite rinj_1; ring. }
  split; [exact Hw|]. split; [reflexivity|]. split; [reflexivity|]. split; [reflexivity|].
  assert (Hcd : forall n, cell_dims psi n = concat (repeat [dA; dB] n)).
  { intros n. unfold cell_dims, psi. cbn [iA iB]. unfold dim. rewrite A2, B2. reflexivity. }
  split; [exact Hcd|].
  assert (Hc : forall n is, in_range (cell_dims psi n) is -> chain (cells psi n) is 0%nat 0%nat = alternating (unit_vec A) (unit_vec B) is).
  { induction n as [|n IH]; intros is Hi.
    - unfold cell_dims in Hi. cbn in Hi. apply in_range_nil_inv in Hi. subst is. reflexivity.
    - destruct (cells_range psi 1 1 dA dB A2 B2 n is Hi) as (i1 & i2 & -> & H1 & H2 & L).
      rewrite (chain_cells_S psi 1 1 dA dB) by (first [assumption|lia]). destruct (cell_in _ _ i1 H1) as (i & j & -> & Hi1 & Hj1).
      unfold mm. cbn [sum]. rewrite IH by exact H2. cbn [app alternating].
      rewrite (chain2 (iAlA psi) (iBlB psi) i j 0 0 1 1); [|unfold dim, psi; cbn [iAlA]; rewrite A2; reflexivity|unfold dim, psi; cbn [iBlB]; rewrite B2; reflexivity|lia].
      unfold psi. cbn [iAlA iBlB sum]. rewrite A4, B4 by assumption. ring. }
  assert (Hr : forall n is, (0 < n)%nat -> in_range (cell_dims psi n) is -> ring psi n is = alternating (unit_vec A) (unit_vec B) is).
  { intros n is Hn Hi. unfold ring, amp. destruct n as [|n]; [lia|]. replace (left_bond (cells psi (S n))) with 1%nat.
    - cbn [sum]. rewrite Hc by exact Hi. ring.
    - unfold left_bond, cells, psi. cbn [repeat concat app iAlA]. unfold dim. rewrite A2. reflexivity. }
  split; [exact Hr|].
  pose proof (unit_vec_norm A dA HA HAw HnA) as NA. pose proof (unit_vec_norm B dB HB HBw HnB) as NB.
  split.
  { intros n Hn. unfold ring_mean. rewrite melem_id. unfold inner.
    transitivity (sumcfg (cell_dims psi n) (fun is => kconj (alternating (unit_vec A) (unit_vec B) is) * alternating (unit_vec A) (unit_vec B) is)).
    { apply sumcfg_ext. intros is Hi. rewrite Hr by assumption. reflexivity. }
    rewrite Hcd. clear Hn Hc Hr. induction n as [|n IH].
    - cbn [repeat concat sumcfg alternating]. rewrite kconj_1. ring.
    - cbn [repeat concat app sumcfg alternating].
      transitivity (sum dA (fun i => kconj (unit_vec A i) * unit_vec A i) * sum dB (fun j => kconj (unit_vec B j) * unit_vec B j) *
        sumcfg (concat (repeat [dA; dB] n)) (fun is => kconj (alternating (unit_vec A) (unit_vec B) is) * alternating (unit_vec A) (unit_vec B) is)); [|rewrite IH, NA, NB; ring].
      rewrite !sum_mul_r. apply sum_ext. intros i _. rewrite sum_mul_l, sum_mul_r. apply sum_ext. intros j _. rewrite sumcfg_mul_l. apply sumcfg_ext. intros is _. rewrite !kconj_mul. ring. }
  assert (Hcell : forall i j, (i < dA)%nat -> (j < dB)%nat -> chain [iAlA psi; iBlB psi] [i; j] 0%nat 0%nat = unit_vec A i * unit_vec B j).
  { intros i j Hi Hj. rewrite (chain2 (iAlA psi) (iBlB psi) i j 0 0 1 1); [|unfold dim, psi; cbn [iAlA]; rewrite A2; reflexivity|unfold dim, psi; cbn [iBlB]; rewrite B2; reflexivity|lia].
    unfold psi. cbn [iAlA iBlB sum]. rewrite A4, B4 by assumption. ring. }
  assert (Hone : sumcfg [dA; dB] (fun is => kconj (chain [iAlA psi; iBlB psi] is 0%nat 0%nat) * chain [iAlA psi; iBlB psi] is 0%nat 0%nat) = 1).
  { transitivity (sum dA (fun i => kconj (unit_vec A i) * unit_vec A i) * sum dB (fun j => kconj (unit_vec B j) * unit_vec B j)); [|rewrite NA, NB; ring].
    cbn [sumcfg]. rewrite sum_mul_r. apply sum_ext. intros i Hi. rewrite sum_mul_l. apply sum_ext. intros j Hj. rewrite Hcell by assumption. rewrite kconj_mul. ring. }
  pose proof (cell_dims_1 psi 1 1 dA dB A2 B2) as Hcd1.
  split; [|split]; exists 1%R; (split; [lra|]).
  - intros b b' Hb Hb'. change (length (ilB psi)) with 1%nat in *. assert (b = 0 /\ b' = 0)%nat as [-> ->] by lia. rewrite Hcd1. cbn [sum]. rewrite rinj_1.
    transitivity (0 + sumcfg [dA; dB] (fun is => kconj (chain [iAlA psi; iBlB psi] is 0%nat 0%nat) * chain [iAlA psi; iBlB psi] is 0%nat 0%nat)); [|rewrite Hone, ?rinj_1; unfold delta; cbn [Nat.eqb]; ring].
    f_equal. apply sumcfg_ext. intros is _. change (iBlB psi) with (iB psi). change (nth 0 (ilB psi) 0%R) with 1%R. rewrite ?rinj_1, kconj_mul, kconj_1. ring.
  - intros b b' Hb Hb'. change (length (ilB psi)) with 1%nat in *. assert (b = 0 /\ b' = 0)%nat as [-> ->] by lia. rewrite Hcd1. cbn [sum]. rewrite rinj_1. change (cells psi 1) with [iAlA psi; iBlB psi].
    rewrite Hone. unfold delta. cbn. ring.
  - intros b b' Hb Hb'. change (length (ilB psi)) with 1%nat in *. change (length (ilA psi)) with 1%nat in *. assert (b = 0 /\ b' = 0)%nat as [-> ->] by lia.
    replace (dim (iB psi) 1) with dB by (unfold dim, psi; cbn [iB]; rewrite B2; reflexivity). cbn [sum]. rewrite rinj_1.
    transitivity (0 + sum dB (fun j => kconj (unit_vec B j) * unit_vec B j)); [|rewrite NB; unfold delta; cbn; ring]. f_equal. apply sum_ext. intros j Hj. unfold psi. cbn [iBlB]. rewrite B4 by exact Hj. reflexivity.
Qed.


Lemma section_ring psi is : wf_itebd psi -> ilB psi = [1%R] -> section psi 1 0 0 is = ring psi 1 is.
Proof.
  intros (D & E & dA & dB & HD & HE & HdA & HdB & HA & HAw & HB & HBw & HlA & HlB & HAl & HAlw & HBl & HBlw & _) H1. rewrite H1 in HlB. cbn in HlB. subst D.
  unfold section, ring, amp. rewrite H1. cbn [nth]. rewrite rinj_1. replace (left_bond (cells psi 1)) with 1%nat; [cbn [sum]; ring|].
  unfold left_bond, cells. cbn [repeat concat app]. unfold dim. rewrite HAl. reflexivity.
Qed.

Definition up : tensor := mk [2%nat] (fun is => if Nat.eqb (nth 0 is 0%nat) 0 then 1 else 0).
(** |00> + |11> from |00> *)
Definition bell : tensor := mk [4; 4]%nat (fun is => if Nat.eqb (nth 1 is 0%nat) 0 && (Nat.eqb (nth 0 is 0%nat) 0 || Nat.eqb (nth 0 is 0%nat) 3) then 1 else 0).

(** The hypotheses can be met: the operator [bell] applied to the product state of [up]. *)
Theorem C53_case svd flag eigs eig_sym : svd_contract svd ->
  exists psi psi', new_product1 up = Ok psi /\ wf_itebd psi /\ wf bell /\ eff_tol flag 2 = 2%R /\
    apply_operator svd flag eigs eig_sym psi bell 0 2 0 = Ok psi'.
Proof.
  intros Hsvd. assert (Hf : frob2 up = 1%R).
  { unfold frob2, up. cbn [data mk map seq nprod fold_right unravel nth Nat.eqb Nat.modulo Nat.divmod fst snd Nat.sub Nat.mul Nat.add]. cbn. rewrite <- rinj_1, kmod2_rinj, <- rinj_0, kmod2_rinj. ring. }
  destruct (C53_product up up 2 2 eq_refl (wf_mk _ _) eq_refl (wf_mk _ _) ltac:(lia) ltac:(lia) ltac:(rewrite Hf; lra) ltac:(rewrite Hf; lra))
    as (psi & E & Hw & Hcan & HlA & HlB & Hcd & Hr & _).
  assert (Hd : dim (iA psi) 1 = 2%nat /\ dim (iB psi) 1 = 2%nat).
  { specialize (Hcd 1%nat). unfold cell_dims in Hcd. cbn [repeat concat app] in Hcd. injection Hcd as -> ->. split; reflexivity. }
  destruct Hd as [Hd1 Hd2].
  destruct (C53_apply_defined svd flag eigs eig_sym Hsvd psi bell 0 2%R 0 Hw Hcan eq_refl) as (psi' & E').
  - rewrite Hd1, Hd2. reflexivity.
  - rewrite Hd1, Hd2. split; [reflexivity|apply wf_mk].
  - intros k Hk. rewrite HlB in *. cbn in Hk. assert (k = 0)%nat by lia. subst k. cbn. lra.
  - exists 0%nat, 0%nat, [0; 0]%nat. rewrite HlB. split; [cbn; lia|]. split; [cbn; lia|]. rewrite Hcd. split; [apply in_range_2; lia|].
    unfold cell_after. rewrite Hcd, Hd1. cbn [repeat concat app sumcfg].
    assert (Hs : forall p q, (p < 2)%nat -> (q < 2)%nat -> section psi 1 0 0 [p; q] = unit_vec up p * unit_vec up q).
    { intros p q Hp Hq. rewrite section_ring by assumption. rewrite Hr; [cbn [alternating]; ring|lia|]. rewrite Hcd. apply in_range_2; assumption. }
    cbn [sum cells_op]. rewrite !Hs by lia.
    assert (U0 : unit_vec up 0 = 1). { unfold unit_vec. rewrite Hf, sqrt_1, Rinv_1, rinj_1. unfold up. rewrite get_mk by (apply in_range_1; lia). cbn [nth Nat.eqb]. ring. }
    assert (U1 : unit_vec up 1 = 0). { unfold unit_vec, up. rewrite get_mk by (apply in_range_1; lia). cbn [nth Nat.eqb]. ring. }
    rewrite U0, U1. unfold mat. cbn [Nat.add Nat.mul]. replace (get bell [0; 0]%nat) with (1%K).
    + intros H. apply (k1_neq_0). rewrite <- H. ring.
    + unfold bell. rewrite get_mk by (apply in_range_2; lia). reflexivity.
  - exists psi, psi'. split; [exact E|]. split; [exact Hw|]. split; [apply wf_mk|]. split; [|exact E']. unfold eff_tol. destruct (Rltb 2 0) eqn:El; [apply Rltb_true in El; lra|reflexivity].
Qed.
End Product.
