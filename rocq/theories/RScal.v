(** * Scalars with real numbers inside: what the SVD based routines need

    [RScal] collects the two element types of /repo ([double] and [std::complex<double>], exact
    arithmetic): a [Scalar] into which the reals embed and whose squared modulus is a real. *)
From Coq Require Import Reals Lra Lia Arith List Bool Ring.
From Verif Require Import Scalar ScalarFacts RealInst.
Local Open Scope R_scope.

Class RScal := {
  rs_scalar :> Scalar;
  rinj : R -> K;                      (* conversion double -> number *)
  kre : K -> R;                       (* real part *)
  kmod2 : K -> R;                     (* squared modulus *)
  rinj_0 : rinj 0 = k0;
  rinj_1 : rinj 1 = k1;
  rinj_add : forall x y, rinj (x + y) = kadd (rinj x) (rinj y);
  rinj_mul : forall x y, rinj (x * y) = kmul (rinj x) (rinj y);
  rinj_conj : forall x, kconj (rinj x) = rinj x;
  kre_rinj : forall x, kre (rinj x) = x;
  kre_add : forall x y, kre (kadd x y) = kre x + kre y;
  kmod2_spec : forall x, rinj (kmod2 x) = kmul (kconj x) x;
  kmod2_nonneg : forall x, 0 <= kmod2 x;
  kmod2_zero : forall x, kmod2 x = 0 -> x = k0;
  kre_real : forall x, kconj x = x -> rinj (kre x) = x;
  kre_conj : forall x, kre (kconj x) = kre x
}.

(** [double] *)
Definition RR : RScal.
Proof.
  refine {| rs_scalar := RScalar; rinj := fun x => x; kre := fun x => x;
            kmod2 := fun x => x * x |}; cbn; intros; try reflexivity; try lra.
  - nra.
  - nra.
Defined.

(** [std::complex<double>] *)
Definition CC : RScal.
Proof.
  refine {| rs_scalar := CScalar; rinj := fun x => mkC x 0; kre := Cre;
            kmod2 := Cmod2 |}; cbn; intros; try reflexivity.
  - apply C_ext; cbn; ring.
  - apply C_ext; cbn; ring.
  - apply C_ext; cbn; ring.
  - apply C_ext; unfold Cmod2; cbn; ring.
  - unfold Cmod2; nra.
  - unfold Cmod2 in *. apply C_ext; cbn; nra.
  - destruct x as [a b]. injection H as H. apply C_ext; cbn; lra.
Defined.

(** ** Real sums *)
Fixpoint rsum (n : nat) (f : nat -> R) : R :=
  match n with O => 0 | S m => rsum m f + f m end.

Section Facts.
Context {RS : RScal}.
Add Ring Kring : k_ring.

Lemma rinj_inj x y : rinj x = rinj y -> x = y.
Proof. intros H. rewrite <- (kre_rinj x), <- (kre_rinj y), H. reflexivity. Qed.

Lemma rinj_opp x : rinj (- x) = kopp (rinj x).
Proof.
  assert (H : kadd (rinj (- x)) (rinj x) = k0).
  { rewrite <- rinj_add. replace (- x + x) with 0 by lra. apply rinj_0. }
  transitivity (ksub (kadd (rinj (- x)) (rinj x)) (rinj x)); [ring|]. rewrite H. ring.
Qed.

Lemma rinj_sub x y : rinj (x - y) = ksub (rinj x) (rinj y).
Proof. unfold Rminus. rewrite rinj_add, rinj_opp. ring. Qed.

Lemma twice_re x : rinj (2 * kre x) = kadd x (kconj x).
Proof.
  rewrite <- (kre_real (kadd x (kconj x))); [f_equal; rewrite kre_add, kre_conj; ring|].
  rewrite kconj_add, kconj_inv. ring.
Qed.

Lemma rinj_rsum n f : rinj (rsum n f) = sum n (fun i => rinj (f i)).
Proof. induction n as [|n IH]; cbn; [apply rinj_0|]. rewrite rinj_add, IH. reflexivity. Qed.

Lemma kmod2_0 : kmod2 k0 = 0.
Proof. apply rinj_inj. rewrite kmod2_spec, rinj_0. ring. Qed.

Lemma kmod2_mul x y : kmod2 (kmul x y) = kmod2 x * kmod2 y.
Proof. apply rinj_inj. rewrite rinj_mul, !kmod2_spec, kconj_mul. ring. Qed.

Lemma kmod2_rinj x : kmod2 (rinj x) = x * x.
Proof. apply rinj_inj. rewrite rinj_mul, kmod2_spec, rinj_conj. reflexivity. Qed.

Lemma rsum_ext n f g : (forall i, (i < n)%nat -> f i = g i) -> rsum n f = rsum n g.
Proof.
  intros H. induction n as [|n IH]; cbn; [reflexivity|].
  rewrite IH, (H n); auto with arith.
Qed.

Lemma rsum_nonneg n f : (forall i, (i < n)%nat -> 0 <= f i) -> 0 <= rsum n f.
Proof.
  intros H. induction n as [|n IH]; cbn; [lra|].
  assert (0 <= f n) by auto with arith.
  assert (0 <= rsum n f) by auto with arith. lra.
Qed.

Lemma rsum_zero n f : (forall i, (i < n)%nat -> f i = 0) -> rsum n f = 0.
Proof. intros H. induction n as [|n IH]; cbn; [reflexivity|]. rewrite IH, (H n); auto with arith. lra. Qed.

Lemma rsum_zero_inv n f : (forall i, (i < n)%nat -> 0 <= f i) -> rsum n f = 0 ->
  forall i, (i < n)%nat -> f i = 0.
Proof.
  intros H. induction n as [|n IH]; cbn; intros H0 i Hi; [inversion Hi|].
  assert (0 <= f n) by auto with arith.
  assert (0 <= rsum n f) by (apply rsum_nonneg; auto with arith).
  destruct (Nat.eq_dec i n) as [->|Hn]; [lra|].
  apply IH; auto with arith; try lra; lia.
Qed.

Lemma rsum_le n f g : (forall i, (i < n)%nat -> f i <= g i) -> rsum n f <= rsum n g.
Proof.
  intros H. induction n as [|n IH]; cbn; [lra|].
  assert (f n <= g n) by auto with arith. assert (rsum n f <= rsum n g) by auto with arith. lra.
Qed.

Lemma rsum_mul_l n c f : c * rsum n f = rsum n (fun i => c * f i).
Proof. induction n as [|n IH]; cbn; [ring|]. rewrite <- IH. ring. Qed.

Lemma rsum_add n f g : rsum n (fun i => f i + g i) = rsum n f + rsum n g.
Proof. induction n as [|n IH]; cbn; [ring|]. rewrite IH. ring. Qed.

Lemma rsum_plus n m f : rsum (n + m) f = rsum n f + rsum m (fun i => f (n + i)%nat).
Proof.
  induction m as [|m IH]; cbn; [rewrite Nat.add_0_r; ring|].
  rewrite Nat.add_succ_r. cbn. rewrite IH. ring.
Qed.

End Facts.
