(** * Concrete scalars: integers (real code) and Gaussian integers (complex code). *)
From Coq Require Import Bool List Arith Lia Ring ZArith.
From Verif Require Import Scalar.

Lemma Z_reflect x y : reflect (x = y) (Z.eqb x y).
Proof. apply Z.eqb_spec. Qed.

Lemma Z_ring_th : ring_theory 0%Z 1%Z Z.add Z.mul Z.sub Z.opp eq.
Proof. constructor; intros; ring. Qed.

(** Real numbers of the witnesses are integers; conj is the identity as [tensor::conj] on RTensor. *)
Definition ZScalar : Scalar := {|
  K := Z; k0 := 0%Z; k1 := 1%Z; kadd := Z.add; kmul := Z.mul; ksub := Z.sub; kopp := Z.opp;
  kconj := fun x => x; keqb := Z.eqb;
  k_ring := Z_ring_th;
  kconj_add := fun _ _ => eq_refl; kconj_mul := fun _ _ => eq_refl;
  kconj_inv := fun _ => eq_refl; keqb_spec := Z_reflect |}.

(** Gaussian integers a + b i. *)
Record G := mkG { re : Z; im : Z }.
Definition Gadd x y := mkG (re x + re y) (im x + im y).
Definition Gsub x y := mkG (re x - re y) (im x - im y).
Definition Gopp x := mkG (- re x) (- im x).
Definition Gmul x y := mkG (re x * re y - im x * im y) (re x * im y + im x * re y).
Definition Gconj x := mkG (re x) (- im x).
Definition Geqb x y := (Z.eqb (re x) (re y) && Z.eqb (im x) (im y))%bool.

Lemma G_ext x y : re x = re y -> im x = im y -> x = y.
Proof. destruct x, y; cbn; congruence. Qed.

Lemma G_ring_th : ring_theory (mkG 0 0) (mkG 1 0) Gadd Gmul Gsub Gopp eq.
Proof. constructor; intros; apply G_ext; cbn [re im Gadd Gmul Gsub Gopp Gconj]; ring. Qed.

Lemma G_reflect x y : reflect (x = y) (Geqb x y).
Proof.
  destruct x as [a b], y as [c d]; unfold Geqb; cbn.
  destruct (Z.eqb_spec a c), (Z.eqb_spec b d); cbn; constructor; congruence.
Qed.

Lemma Gconj_add x y : Gconj (Gadd x y) = Gadd (Gconj x) (Gconj y).
Proof. apply G_ext; cbn [re im Gadd Gmul Gsub Gopp Gconj]; ring. Qed.
Lemma Gconj_mul x y : Gconj (Gmul x y) = Gmul (Gconj x) (Gconj y).
Proof. apply G_ext; cbn [re im Gadd Gmul Gsub Gopp Gconj]; ring. Qed.
Lemma Gconj_inv x : Gconj (Gconj x) = x.
Proof. apply G_ext; cbn [re im Gadd Gmul Gsub Gopp Gconj]; ring. Qed.

Definition GScalar : Scalar := {|
  K := G; k0 := mkG 0 0; k1 := mkG 1 0; kadd := Gadd; kmul := Gmul; ksub := Gsub; kopp := Gopp;
  kconj := Gconj; keqb := Geqb;
  k_ring := G_ring_th; kconj_add := Gconj_add; kconj_mul := Gconj_mul;
  kconj_inv := Gconj_inv; keqb_spec := G_reflect |}.
