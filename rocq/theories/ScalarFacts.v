(** Lemmas about scalars, finite sums and sums over configurations (no model content). *)
From Coq Require Import List Arith Lia Ring ZArith Setoid Morphisms.
From Verif Require Import Scalar.
Import ListNotations.
Local Open Scope K_scope.

Section Facts.
Context {SC : Scalar}.
Add Ring Kring : k_ring.

Lemma kconj_0 : kconj 0 = 0.
Proof.
  assert (H : kconj 0 = kconj 0 + kconj 0) by (rewrite <- kconj_add; f_equal; ring).
  transitivity (kconj 0 + kconj 0 - kconj 0); [ring | rewrite <- H at 1; ring].
Qed.

Lemma kconj_1 : kconj 1 = 1.
Proof.
  transitivity (kconj (kconj 1 * 1)).
  - rewrite kconj_mul, kconj_inv. ring.
  - replace (kconj 1 * 1) with (kconj 1) by ring. apply kconj_inv.
Qed.

Lemma kconj_opp x : kconj (- x) = - kconj x.
Proof.
  assert (H : kconj x + kconj (- x) = 0)
    by (rewrite <- kconj_add; replace (x + - x) with 0 by ring; apply kconj_0).
  transitivity (kconj x + kconj (-x) - kconj x); [ring | rewrite H; ring].
Qed.

Lemma kconj_sub x y : kconj (x - y) = kconj x - kconj y.
Proof. replace (x - y) with (x + - y) by ring. rewrite kconj_add, kconj_opp. ring. Qed.

Lemma keqb_refl x : keqb x x = true.
Proof. destruct (keqb_spec x x); congruence. Qed.

Lemma keqb_eq x y : keqb x y = true <-> x = y.
Proof. destruct (keqb_spec x y); split; congruence. Qed.

(** ** sum *)
Lemma sum_ext n f g : (forall i, (i < n)%nat -> f i = g i) -> sum n f = sum n g.
Proof.
  induction n as [|n IH]; intros H; cbn; [reflexivity|].
  rewrite IH, H by (intros; auto with arith). reflexivity.
Qed.

Lemma sum_0 n : sum n (fun _ => 0) = 0.
Proof. induction n as [|n IH]; cbn; [reflexivity|rewrite IH; ring]. Qed.

Lemma sum_zero n f : (forall i, (i < n)%nat -> f i = 0) -> sum n f = 0.
Proof. intros H. rewrite (sum_ext n f (fun _ => 0)) by assumption. apply sum_0. Qed.

Lemma sum_add n f g : sum n (fun i => f i + g i) = sum n f + sum n g.
Proof. induction n as [|n IH]; cbn; [ring|rewrite IH; ring]. Qed.

Lemma sum_sub n f g : sum n (fun i => f i - g i) = sum n f - sum n g.
Proof. induction n as [|n IH]; cbn; [ring|rewrite IH; ring]. Qed.

Lemma sum_opp n f : sum n (fun i => - f i) = - sum n f.
Proof. induction n as [|n IH]; cbn; [ring|rewrite IH; ring]. Qed.

Lemma sum_mul_l n c f : c * sum n f = sum n (fun i => c * f i).
Proof. induction n as [|n IH]; cbn; [ring|rewrite <- IH; ring]. Qed.

Lemma sum_mul_r n c f : sum n f * c = sum n (fun i => f i * c).
Proof. induction n as [|n IH]; cbn; [ring|rewrite <- IH; ring]. Qed.

Lemma sum_swap n m f :
  sum n (fun i => sum m (fun j => f i j)) = sum m (fun j => sum n (fun i => f i j)).
Proof.
  induction n as [|n IH]; cbn.
  - symmetry. apply sum_0.
  - rewrite IH, <- sum_add. reflexivity.
Qed.

Lemma sum_conj n f : kconj (sum n f) = sum n (fun i => kconj (f i)).
Proof. induction n as [|n IH]; cbn; [apply kconj_0|rewrite kconj_add, IH; reflexivity]. Qed.

Lemma sum_S_l n f : sum (S n) f = f O + sum n (fun i => f (S i)).
Proof. induction n as [|n IH]; cbn in *; [ring|rewrite IH; ring]. Qed.

Lemma sum_1 f : sum 1 f = f O.
Proof. cbn. ring. Qed.

Lemma sum_plus n m f : sum (n + m) f = sum n f + sum m (fun i => f (n + i)%nat).
Proof.
  induction m as [|m IH]; cbn.
  - rewrite Nat.add_0_r. ring.
  - rewrite Nat.add_succ_r. cbn. rewrite IH. ring.
Qed.

(** A merged index [i + a*j] ranges over [a*b] values exactly once. *)
Lemma sum_merge a b f :
  sum (a * b) f = sum b (fun j => sum a (fun i => f (i + a * j)%nat)).
Proof.
  induction b as [|b IH]; cbn.
  - rewrite Nat.mul_0_r. reflexivity.
  - rewrite Nat.mul_succ_r, sum_plus, IH. f_equal.
    apply sum_ext. intros i Hi. f_equal. lia.
Qed.

Lemma sum_delta_l n k f : (k < n)%nat -> sum n (fun i => delta i k * f i) = f k.
Proof.
  induction n as [|n IH]; intros Hk; [lia|].
  cbn. destruct (Nat.eq_dec k n) as [->|Hne].
  - rewrite sum_zero.
    + unfold delta. rewrite Nat.eqb_refl. ring.
    + intros i Hi. unfold delta. destruct (Nat.eqb_spec i n); [lia|ring].
  - rewrite IH by lia. unfold delta.
    destruct (Nat.eqb_spec n k); [lia|ring].
Qed.

Lemma delta_sym i j : delta i j = delta j i.
Proof. unfold delta. rewrite Nat.eqb_sym. reflexivity. Qed.

Lemma delta_refl i : delta i i = 1.
Proof. unfold delta. rewrite Nat.eqb_refl. reflexivity. Qed.

Lemma delta_neq i j : i <> j -> delta i j = 0.
Proof. unfold delta. destruct (Nat.eqb_spec i j); congruence. Qed.

Lemma delta_conj i j : kconj (delta i j) = delta i j.
Proof. unfold delta. destruct (Nat.eqb i j); [apply kconj_1|apply kconj_0]. Qed.

Lemma sum_delta_l' n k f : (k < n)%nat -> sum n (fun i => delta k i * f i) = f k.
Proof.
  intros Hk. rewrite <- (sum_delta_l n k f Hk). apply sum_ext.
  intros i Hi. rewrite delta_sym. reflexivity.
Qed.

Lemma sum_delta_r n k f : (k < n)%nat -> sum n (fun i => f i * delta i k) = f k.
Proof.
  intros Hk. rewrite <- (sum_delta_l n k f Hk). apply sum_ext. intros i Hi. ring.
Qed.

Lemma sum_delta_r' n k f : (k < n)%nat -> sum n (fun i => f i * delta k i) = f k.
Proof.
  intros Hk. rewrite <- (sum_delta_l' n k f Hk). apply sum_ext. intros i Hi. ring.
Qed.

Lemma sum_single n k f : (k < n)%nat -> (forall i, (i < n)%nat -> i <> k -> f i = 0) ->
  sum n f = f k.
Proof.
  intros Hk H. rewrite <- (sum_delta_l n k f Hk). apply sum_ext. intros i Hi.
  destruct (Nat.eq_dec i k) as [->|Hne].
  - rewrite delta_refl. ring.
  - rewrite H by assumption. ring.
Qed.

(** ** sumcfg *)
Lemma sumcfg_ext ds f g :
  (forall is, in_range ds is -> f is = g is) -> sumcfg ds f = sumcfg ds g.
Proof.
  revert f g. induction ds as [|d ds IH]; intros f g H; cbn.
  - apply H. constructor.
  - apply sum_ext. intros i Hi. apply IH. intros is His. apply H. constructor; assumption.
Qed.

Lemma sumcfg_0 ds : sumcfg ds (fun _ => 0) = 0.
Proof.
  induction ds as [|d ds IH]; cbn; [reflexivity|].
  apply sum_zero. intros i Hi. exact IH.
Qed.

Lemma sumcfg_zero ds f : (forall is, in_range ds is -> f is = 0) -> sumcfg ds f = 0.
Proof. intros H. rewrite (sumcfg_ext ds f (fun _ => 0)) by assumption. apply sumcfg_0. Qed.

Lemma sumcfg_add ds f g : sumcfg ds (fun is => f is + g is) = sumcfg ds f + sumcfg ds g.
Proof.
  revert f g. induction ds as [|d ds IH]; intros f g; cbn; [reflexivity|].
  rewrite <- sum_add. apply sum_ext. intros i Hi. rewrite IH. reflexivity.
Qed.

Lemma sumcfg_sub ds f g : sumcfg ds (fun is => f is - g is) = sumcfg ds f - sumcfg ds g.
Proof.
  revert f g. induction ds as [|d ds IH]; intros f g; cbn; [reflexivity|].
  rewrite <- sum_sub. apply sum_ext. intros i Hi. rewrite IH. reflexivity.
Qed.

Lemma sumcfg_mul_l ds c f : c * sumcfg ds f = sumcfg ds (fun is => c * f is).
Proof.
  revert f. induction ds as [|d ds IH]; intros f; cbn; [reflexivity|].
  rewrite sum_mul_l. apply sum_ext. intros i Hi. apply IH.
Qed.

Lemma sumcfg_mul_r ds c f : sumcfg ds f * c = sumcfg ds (fun is => f is * c).
Proof.
  revert f. induction ds as [|d ds IH]; intros f; cbn; [reflexivity|].
  rewrite sum_mul_r. apply sum_ext. intros i Hi. apply IH.
Qed.

Lemma sumcfg_conj ds f : kconj (sumcfg ds f) = sumcfg ds (fun is => kconj (f is)).
Proof.
  revert f. induction ds as [|d ds IH]; intros f; cbn; [reflexivity|].
  rewrite sum_conj. apply sum_ext. intros i Hi. apply IH.
Qed.

Lemma sumcfg_sum_swap ds n f :
  sumcfg ds (fun is => sum n (fun i => f is i)) = sum n (fun i => sumcfg ds (fun is => f is i)).
Proof.
  revert f. induction ds as [|d ds IH]; intros f; cbn; [reflexivity|].
  rewrite sum_swap. apply sum_ext. intros i Hi. rewrite IH. reflexivity.
Qed.

Lemma sumcfg_swap ds es f :
  sumcfg ds (fun is => sumcfg es (fun js => f is js)) =
  sumcfg es (fun js => sumcfg ds (fun is => f is js)).
Proof.
  revert f. induction ds as [|d ds IH]; intros f; cbn.
  - reflexivity.
  - rewrite sumcfg_sum_swap. apply sum_ext. intros i Hi. rewrite IH. reflexivity.
Qed.

Lemma sumcfg_app ds es f :
  sumcfg (ds ++ es) f = sumcfg ds (fun is => sumcfg es (fun js => f (is ++ js))).
Proof.
  revert f. induction ds as [|d ds IH]; intros f; cbn; [reflexivity|].
  apply sum_ext. intros i Hi. rewrite IH. reflexivity.
Qed.

Lemma in_range_length ds is : in_range ds is -> length is = length ds.
Proof. intros H. induction H; cbn; congruence. Qed.

Lemma in_range_app ds es is js :
  in_range ds is -> in_range es js -> in_range (ds ++ es) (is ++ js).
Proof. intros H1 H2. unfold in_range. apply Forall2_app; assumption. Qed.

(** ** products, powers *)
Lemma kprod_app l m : kprod (l ++ m) = kprod l * kprod m.
Proof. induction l as [|x l IH]; cbn; [ring|rewrite IH; ring]. Qed.

Lemma kpow_add x n m : kpow x (n + m) = kpow x n * kpow x m.
Proof. induction n as [|n IH]; cbn; [ring|rewrite IH; ring]. Qed.

Lemma kpow_mul x y n : kpow (x * y) n = kpow x n * kpow y n.
Proof. induction n as [|n IH]; cbn; [ring|rewrite IH; ring]. Qed.

Lemma kofnat_add n m : kofnat (n + m) = kofnat n + kofnat m.
Proof. induction n as [|n IH]; cbn; [ring|rewrite IH; ring]. Qed.

Lemma kofnat_mul n m : kofnat (n * m) = kofnat n * kofnat m.
Proof. induction n as [|n IH]; cbn; [ring|rewrite kofnat_add, IH; ring]. Qed.

Lemma kofnat_conj n : kconj (kofnat n) = kofnat n.
Proof. induction n as [|n IH]; cbn; [apply kconj_0|rewrite kconj_add, kconj_1, IH; reflexivity]. Qed.

Lemma sum_const n c : sum n (fun _ => c) = kofnat n * c.
Proof.
  induction n as [|n IH]; cbn; [ring|rewrite IH; ring].
Qed.

End Facts.
