(** Bonds of states in canonical form *)
From Coq Require Import Reals Lra Bool List Arith ZArith Lia Ring.
From Verif Require Import Scalar ScalarFacts RScal Tensor TensorFacts Spec MpsModel MpsFacts CanonSpec CanonModel TruncFacts SplitFacts EckartYoung SimplifySpec.
Import ListNotations.
Local Open Scope K_scope.

Section Bound.
Context {RS : RScal}.
Add Ring Kring : k_ring.

Lemma rsum_ones n : rsum n (fun _ => 1%R) = INR n.
Proof. induction n as [|n IH]; [reflexivity|]. cbn [rsum]. rewrite S_INR, IH. reflexivity. Qed.

(** There are at most m orthonormal vectors in dimension m. *)
Lemma orthonormal_le m l E : orthonormal m l E -> (l <= m)%nat.
Proof.
  intros HE. apply INR_le.
  assert (H1 : (rsum m (fun j => vweight l (coef m E (fun i => delta i j))) <= rsum m (fun j => vweight m (fun i => delta i j)))%R).
  { apply rsum_le. intros j Hj. apply bessel. exact HE. }
  assert (H2 : rsum m (fun j => vweight m (fun i => delta i j)) = INR m).
  { rewrite <- rsum_ones. apply rsum_ext. intros j Hj. apply rinj_inj. rewrite rinj_vweight, rinj_1.
    rewrite (sum_ext m _ (fun i => delta i j * kconj (delta i j))) by (intros; ring). rewrite sum_delta_l by exact Hj. unfold delta. rewrite Nat.eqb_refl. apply kconj_1. }
  assert (H3 : rsum m (fun j => vweight l (coef m E (fun i => delta i j))) = INR l).
  { transitivity (rsum m (fun j => rsum l (fun x => kmod2 (E j x)))).
    - apply rsum_ext. intros j Hj. unfold vweight. apply rsum_ext. intros x Hx. unfold coef.
      rewrite (sum_ext m _ (fun i => delta i j * kconj (E i x))) by (intros; ring). rewrite sum_delta_l by exact Hj. apply rinj_inj. rewrite !kmod2_spec, kconj_inv. ring.
    - rewrite rsum_swap, <- rsum_ones. apply rsum_ext. intros x Hx. apply rinj_inj. rewrite rinj_rsum, rinj_1.
      transitivity (delta x x); [|unfold delta; rewrite Nat.eqb_refl; reflexivity]. rewrite <- (HE x x Hx Hx). apply sum_ext. intros i Hi. apply kmod2_spec. }
  rewrite H2, H3 in H1. exact H1.
Qed.

(** The left bond of a right isometry is at most the product of the other two dimensions. *)
Lemma right_isometry_le A : (0 < dim A 1)%nat -> right_isometry A -> (dim A 0 <= dim A 1 * dim A 2)%nat.
Proof.
  intros H1 HA. apply (orthonormal_le (dim A 1 * dim A 2) (dim A 0) (fun k x => kconj (get A [x; (k mod dim A 1)%nat; (k / dim A 1)%nat]))).
  intros x y Hx Hy. cbv beta. rewrite <- (HA x y Hx Hy).
  rewrite (sum_merge (dim A 1) (dim A 2)).
  rewrite sum_swap. apply sum_ext. intros i Hi. apply sum_ext. intros b Hb.
  assert (E1 : ((i + dim A 1 * b) mod dim A 1 = i)%nat) by (rewrite Nat.mul_comm, Nat.mod_add, Nat.mod_small by lia; reflexivity).
  assert (E2 : ((i + dim A 1 * b) / dim A 1 = b)%nat) by (rewrite Nat.mul_comm, Nat.div_add, Nat.div_small by lia; reflexivity).
  rewrite E1, E2, kconj_inv. reflexivity.
Qed.

(** No bond of an open state in canonical form at the first site exceeds the dimension of the space of states. *)
Lemma linked_bonds_le D p m : linked D p m -> (forall j, (j < length p)%nat -> right_isometry (site p j)) ->
  (D <= fold_right Nat.mul 1 (pdims p) * m)%nat /\ forall j, (j < length p)%nat -> (dim (site p j) 0 <= fold_right Nat.mul 1 (pdims p) * m)%nat.
Proof.
  revert D. induction p as [|A p IH]; intros D HL HI.
  - cbn in HL. subst. cbn. split; [lia|intros j Hj; lia].
  - destruct HL as (d & c & Hd & Hw & Hd0 & Hc0 & HL). pose proof (HI 0%nat ltac:(cbn; lia)) as HA. unfold site in HA. cbn [nth] in HA.
    assert (D0 : dim A 0 = D) by (unfold dim; rewrite Hd; reflexivity). assert (D1 : dim A 1 = d) by (unfold dim; rewrite Hd; reflexivity).
    assert (D2 : dim A 2 = c) by (unfold dim; rewrite Hd; reflexivity).
    pose proof (right_isometry_le A ltac:(lia) HA) as Hle. rewrite D0, D1, D2 in Hle.
    destruct (IH c HL) as (I1 & I2); [intros j Hj; apply (HI (S j)); cbn; lia|].
    cbn [pdims map fold_right] in *. fold (pdims p). rewrite D1. set (F := fold_right Nat.mul 1%nat (pdims p)) in *.
    split; [nia|]. intros [|j] Hj; unfold site; cbn [nth]; [rewrite D0; nia|].
    specialize (I2 j ltac:(cbn in Hj; lia)). unfold site in I2. nia.
Qed.
Lemma canonical_bonds_le P : open_mps P -> canonical_at 0 P -> forall j, (j < length P)%nat -> (dim (site P j) 0 <= fold_right Nat.mul 1 (pdims P))%nat.
Proof.
  intros (Hne & HL) (_ & HR) j Hj. destruct P as [|A p]; [congruence|]. destruct HL as (d & c & Hd & Hw & Hd0 & Hc0 & HL).
  destruct (linked_bonds_le c p 1 HL) as (I1 & I2); [intros i Hi; apply (HR (S i)); cbn; lia|].
  assert (D1 : dim A 1 = d) by (unfold dim; rewrite Hd; reflexivity). assert (D0 : dim A 0 = 1%nat) by (unfold dim; rewrite Hd; reflexivity).
  cbn [pdims map fold_right] in *. fold (pdims p). rewrite D1. set (F := fold_right Nat.mul 1%nat (pdims p)) in *.
  destruct j as [|j]; unfold site; cbn [nth]; [rewrite D0; nia|]. specialize (I2 j ltac:(cbn in Hj; lia)). unfold site in I2. nia.
Qed.
End Bound.
