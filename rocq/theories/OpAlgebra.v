(** Algebra of operators of a chain of sites *)
From Coq Require Import Bool List Arith Lia Ring.
From Verif Require Import Scalar ScalarFacts Tensor Spec ExpectedFacts OpSpec.
Import ListNotations.
Local Open Scope K_scope.

Section Algebra.
Context {SC : Scalar}.
Add Ring Kring : k_ring.
Notation op := (list nat -> list nat -> K).

Definition oeq (ds : list nat) (A B : op) : Prop := forall is js, in_range ds is -> in_range ds js -> A is js = B is js.
Definition oadd (A B : op) : op := fun is js => A is js + B is js.
Definition osub (A B : op) : op := fun is js => A is js - B is js.
Definition oscl (c : K) (A : op) : op := fun is js => c * A is js.
Definition osum (n : nat) (f : nat -> op) : op := fun is js => sum n (fun k => f k is js).

Lemma oeq_refl ds A : oeq ds A A.
Proof. intros is js _ _. reflexivity. Qed.
Lemma oeq_sym ds A B : oeq ds A B -> oeq ds B A.
Proof. intros H is js Hi Hj. symmetry. apply H; assumption. Qed.
Lemma oeq_trans ds A B C : oeq ds A B -> oeq ds B C -> oeq ds A C.
Proof. intros H H' is js Hi Hj. rewrite H by assumption. apply H'; assumption. Qed.
Lemma oadd_eq ds A A' B B' : oeq ds A A' -> oeq ds B B' -> oeq ds (oadd A B) (oadd A' B').
Proof. intros H H' is js Hi Hj. unfold oadd. rewrite H, H' by assumption. reflexivity. Qed.
Lemma oscl_eq ds c A A' : oeq ds A A' -> oeq ds (oscl c A) (oscl c A').
Proof. intros H is js Hi Hj. unfold oscl. rewrite H by assumption. reflexivity. Qed.
Lemma osum_eq ds n f g : (forall k, (k < n)%nat -> oeq ds (f k) (g k)) -> oeq ds (osum n f) (osum n g).
Proof. intros H is js Hi Hj. apply sum_ext. intros k Hk. apply H; assumption. Qed.
Lemma op_mul_eq ds A A' B B' : oeq ds A A' -> oeq ds B B' -> oeq ds (op_mul ds A B) (op_mul ds A' B').
Proof. intros H H' is js Hi Hj. apply sumcfg_ext. intros ks Hk. rewrite H, H' by assumption. reflexivity. Qed.
Lemma op_mul_assoc ds A B C is js : op_mul ds (op_mul ds A B) C is js = op_mul ds A (op_mul ds B C) is js.
Proof.
  unfold op_mul. transitivity (sumcfg ds (fun ks => sumcfg ds (fun ms => A is ms * B ms ks * C ks js))).
  - apply sumcfg_ext. intros ks Hk. rewrite sumcfg_mul_r. reflexivity.
  - rewrite sumcfg_swap. apply sumcfg_ext. intros ms Hm. rewrite sumcfg_mul_l. apply sumcfg_ext. intros ks Hk. ring.
Qed.
Lemma op_mul_id_l ds A : oeq ds (op_mul ds id_op A) A.
Proof. intros is js Hi Hj. unfold op_mul. apply (sumcfg_id_op ds is (fun ks => A ks js) Hi). Qed.
Lemma id_op_comm : forall is js, id_op is js = id_op js is.
Proof. induction is as [|i is IH]; intros [|j js]; cbn; try reflexivity. rewrite IH, delta_sym. reflexivity. Qed.
Lemma op_mul_id_r ds A : oeq ds (op_mul ds A id_op) A.
Proof.
  intros is js Hi Hj. unfold op_mul. transitivity (sumcfg ds (fun ks => id_op js ks * A is ks)); [apply sumcfg_ext; intros ks Hk; rewrite id_op_comm; ring|].
  apply (sumcfg_id_op ds js (fun ks => A is ks) Hj).
Qed.
Lemma op_mul_add_l ds A A' B is js : op_mul ds (oadd A A') B is js = op_mul ds A B is js + op_mul ds A' B is js.
Proof. unfold op_mul, oadd. rewrite <- sumcfg_add. apply sumcfg_ext. intros. ring. Qed.
Lemma op_mul_add_r ds A B B' is js : op_mul ds A (oadd B B') is js = op_mul ds A B is js + op_mul ds A B' is js.
Proof. unfold op_mul, oadd. rewrite <- sumcfg_add. apply sumcfg_ext. intros. ring. Qed.
Lemma op_mul_scl_l ds c A B is js : op_mul ds (oscl c A) B is js = c * op_mul ds A B is js.
Proof. unfold op_mul, oscl. rewrite sumcfg_mul_l. apply sumcfg_ext. intros. ring. Qed.
Lemma op_mul_scl_r ds c A B is js : op_mul ds A (oscl c B) is js = c * op_mul ds A B is js.
Proof. unfold op_mul, oscl. rewrite sumcfg_mul_l. apply sumcfg_ext. intros. ring. Qed.
Lemma op_mul_sum_l ds n f B is js : op_mul ds (osum n f) B is js = sum n (fun k => op_mul ds (f k) B is js).
Proof. unfold op_mul, osum. rewrite <- sumcfg_sum_swap. apply sumcfg_ext. intros ks _. apply sum_mul_r. Qed.
Lemma op_mul_sum_r ds n A f is js : op_mul ds A (osum n f) is js = sum n (fun k => op_mul ds A (f k) is js).
Proof. unfold op_mul, osum. rewrite <- sumcfg_sum_swap. apply sumcfg_ext. intros ks _. apply sum_mul_l. Qed.

Lemma op_pow_eq ds A B k : oeq ds A B -> oeq ds (op_pow ds A k) (op_pow ds B k).
Proof. intros H. induction k as [|k IH]; cbn [op_pow]; [apply oeq_refl|]. apply op_mul_eq; assumption. Qed.
Lemma op_pow_scl ds c A k : oeq ds (op_pow ds (oscl c A) k) (oscl (kpow c k) (op_pow ds A k)).
Proof.
  induction k as [|k IH]; intros is js Hi Hj; cbn [op_pow kpow].
  - unfold oscl. ring.
  - rewrite (op_mul_eq ds _ _ _ _ (oeq_refl ds _) IH is js Hi Hj). rewrite op_mul_scl_l, op_mul_scl_r. unfold oscl. ring.
Qed.

(** commuting operators *)
Lemma op_pow_comm ds X Y : oeq ds (op_mul ds X Y) (op_mul ds Y X) -> forall k, oeq ds (op_mul ds (op_pow ds X k) Y) (op_mul ds Y (op_pow ds X k)).
Proof.
  intros H. induction k as [|k IH]; intros is js Hi Hj; cbn [op_pow].
  - rewrite op_mul_id_l, op_mul_id_r by assumption. reflexivity.
  - rewrite op_mul_assoc. rewrite (op_mul_eq ds _ _ _ _ (oeq_refl ds X) IH is js Hi Hj). rewrite <- op_mul_assoc.
    rewrite (op_mul_eq ds _ _ _ _ H (oeq_refl ds _) is js Hi Hj). rewrite op_mul_assoc. reflexivity.
Qed.

(** the binomial formula, with f k = 1/k! *)
Variable f c : nat -> K.
Hypothesis Hf0 : f 0%nat = 1.
Hypothesis HfS : forall k, f (S k) = c k * f k.
Hypothesis Hc : forall k, c k * kofnat (S k) = 1.
Definition term (ds : list nat) (X : op) (k : nat) : op := oscl (f k) (op_pow ds X k).

Lemma kofnat_f k : kofnat (S k) * f (S k) = f k.
Proof. rewrite HfS. transitivity (c k * kofnat (S k) * f k); [ring|]. rewrite Hc. ring. Qed.

Lemma op_binomial ds X Y : oeq ds (op_mul ds X Y) (op_mul ds Y X) -> forall m,
  oeq ds (osum (S m) (fun j => op_mul ds (term ds X j) (term ds Y (m - j)))) (term ds (oadd X Y) m).
Proof.
  intros H. induction m as [|m IH]; intros is js Hi Hj.
  - unfold osum. rewrite sum_1. cbn [Nat.sub]. unfold term. rewrite op_mul_scl_l, op_mul_scl_r. cbn [op_pow]. rewrite op_mul_id_l by assumption. unfold oscl. rewrite Hf0. ring.
  - set (E := osum (S m) (fun j => op_mul ds (term ds X j) (term ds Y (m - j)))) in *.
    assert (G : kofnat (S m) * osum (S (S m)) (fun j => op_mul ds (term ds X j) (term ds Y (S m - j))) is js = op_mul ds (oadd X Y) E is js).
    { unfold osum. rewrite sum_mul_l.
      transitivity (sum (S (S m)) (fun j => kofnat j * op_mul ds (term ds X j) (term ds Y (S m - j)) is js) +
                    sum (S (S m)) (fun j => kofnat (S m - j) * op_mul ds (term ds X j) (term ds Y (S m - j)) is js)).
      { rewrite <- sum_add. apply sum_ext. intros j Hjm. replace (kofnat (S m)) with (kofnat j + kofnat (S m - j)) by (rewrite <- kofnat_add; f_equal; lia). ring. }
      rewrite op_mul_add_l. unfold E. rewrite !op_mul_sum_r. f_equal.
      - rewrite sum_S_l. transitivity (sum (S m) (fun j => kofnat (S j) * op_mul ds (term ds X (S j)) (term ds Y (S m - S j)) is js)).
        { change (kofnat 0) with (0 : K). ring. }
        apply sum_ext. intros j Hjm. cbn [Nat.sub]. rewrite <- op_mul_assoc. unfold term. cbn [op_pow].
        rewrite !op_mul_scl_l, !op_mul_scl_r.
        transitivity (kofnat (S j) * f (S j) * (f (m - j)%nat * op_mul ds (op_mul ds X (op_pow ds X j)) (op_pow ds Y (m - j)) is js)); [ring|]. rewrite kofnat_f.
        assert (Z : op_mul ds (op_mul ds X (oscl (f j) (op_pow ds X j))) (op_pow ds Y (m - j)) is js = f j * op_mul ds (op_mul ds X (op_pow ds X j)) (op_pow ds Y (m - j)) is js).
        { rewrite !op_mul_assoc. rewrite <- op_mul_scl_r. apply op_mul_eq; [apply oeq_refl| |assumption|assumption]. intros a b Ha Hb. rewrite op_mul_scl_l. reflexivity. }
        rewrite Z. ring.
      - change (sum (S (S m)) ?F) with (sum (S m) F + F (S m)). cbv beta. rewrite Nat.sub_diag. change (kofnat 0) with (0 : K).
        match goal with |- ?a + _ = _ => transitivity a; [ring|] end.
        apply sum_ext. intros j Hjm. replace (S m - j)%nat with (S (m - j)) by lia. unfold term. cbn [op_pow]. rewrite !op_mul_scl_r, !op_mul_scl_l.
        transitivity (kofnat (S (m - j)) * f (S (m - j)) * (f j * op_mul ds (op_pow ds X j) (op_mul ds Y (op_pow ds Y (m - j))) is js)); [ring|]. rewrite kofnat_f.
        rewrite <- op_mul_assoc. rewrite (op_mul_eq ds _ _ _ _ (op_pow_comm ds X Y H j) (oeq_refl ds _) is js Hi Hj). rewrite op_mul_assoc.
        assert (Z : op_mul ds Y (op_mul ds (oscl (f j) (op_pow ds X j)) (oscl (f (m - j)%nat) (op_pow ds Y (m - j)))) is js = f j * f (m - j)%nat * op_mul ds Y (op_mul ds (op_pow ds X j) (op_pow ds Y (m - j))) is js).
        { rewrite <- op_mul_scl_r. apply op_mul_eq; [apply oeq_refl| |assumption|assumption]. intros a b Ha Hb. rewrite op_mul_scl_l, op_mul_scl_r. unfold oscl. ring. }
        rewrite Z. ring. }
    rewrite (op_mul_eq ds _ _ _ _ (oeq_refl ds (oadd X Y)) IH is js Hi Hj) in G. unfold term in G at 3. rewrite op_mul_scl_r in G.
    transitivity (c m * (kofnat (S m) * osum (S (S m)) (fun j => op_mul ds (term ds X j) (term ds Y (S m - j))) is js)).
    { transitivity (c m * kofnat (S m) * osum (S (S m)) (fun j => op_mul ds (term ds X j) (term ds Y (S m - j))) is js); [rewrite Hc; ring|ring]. }
    rewrite G. unfold term, oscl. rewrite HfS. cbn [op_pow]. ring.
Qed.
End Algebra.
