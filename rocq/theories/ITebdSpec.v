(** * Specification of infinite states: rings and sections of the infinite chain *)
From Coq Require Import Reals Bool List Arith ZArith Lia.
From Verif Require Import Scalar RScal Tensor Spec MpsModel CanonModel DecompModel ITebdModel.
Import ListNotations.
Local Open Scope K_scope.

Section Spec.
Context {RS : RScal}.

(** The tensors of sites A and B fit together (bond lA between A and B, bond lB between B and the next A), and the
    combined matrices are the products of tensors and vectors. *)
Definition wf_itebd (psi : itebd) : Prop :=
  exists D E dA dB, (0 < D)%nat /\ (0 < E)%nat /\ (0 < dA)%nat /\ (0 < dB)%nat /\
    dims (iA psi) = [D; dA; E] /\ wf (iA psi) /\ dims (iB psi) = [E; dB; D] /\ wf (iB psi) /\
    length (ilA psi) = E /\ length (ilB psi) = D /\
    dims (iAlA psi) = [D; dA; E] /\ wf (iAlA psi) /\ dims (iBlB psi) = [E; dB; D] /\ wf (iBlB psi) /\
    (forall a i b, (a < D)%nat -> (i < dA)%nat -> (b < E)%nat -> get (iAlA psi) [a; i; b] = get (iA psi) [a; i; b] * rinj (nth b (ilA psi) 0%R)) /\
    (forall b i a, (b < E)%nat -> (i < dB)%nat -> (a < D)%nat -> get (iBlB psi) [b; i; a] = get (iB psi) [b; i; a] * rinj (nth a (ilB psi) 0%R)).

(** n unit cells A B A B ... *)
Definition cells (psi : itebd) (n : nat) : mps := concat (repeat [iAlA psi; iBlB psi] n).
Definition cell_dims (psi : itebd) (n : nat) : list nat := concat (repeat [dim (iA psi) 1; dim (iB psi) 1] n).

(** The wave function of n cells closed into a ring *)
Definition ring (psi : itebd) (n : nat) (is : list nat) : K := amp (cells psi n) is.
(** <ring| M |ring> *)
Definition ring_mean (psi : itebd) (n : nat) (M : list nat -> list nat -> K) : K :=
  melem (cell_dims psi n) (ring psi n) M (ring psi n).

(** The wave function of n consecutive cells of the infinite chain; a and b label the states to the left and right:
    lB(a) A lA B lB ... A lA B lB(b) *)
Definition section (psi : itebd) (n : nat) (a b : nat) (is : list nat) : K :=
  rinj (nth a (ilB psi) 0%R) * chain (cells psi n) is a b.
(** <section| M |section>, when the states to the left and right are orthonormal *)
Definition section_mean (psi : itebd) (n : nat) (M : list nat -> list nat -> K) : K :=
  sum (length (ilB psi)) (fun a => sum (length (ilB psi)) (fun b =>
    melem (cell_dims psi n) (section psi n a b) M (section psi n a b))).

(** An operator given as a tensor; an empty tensor is the identity *)
Definition op_of (t : tensor) : nat -> nat -> K := if is_empty t then delta else mat t.
Definition op_fits (t : tensor) (d : nat) : Prop := is_empty t = true \/ is_matrix t d d.

(** Orthonormality of the states to the left and to the right of a bond between cells, up to a factor eta: what
    canonical form means in arXiv:0711.3960 (the reference given in itebd.h). *)
Definition left_orthonormal (psi : itebd) (eta : R) : Prop :=
  forall b b', (b < length (ilB psi))%nat -> (b' < length (ilB psi))%nat ->
    sum (length (ilB psi)) (fun a => sumcfg (cell_dims psi 1) (fun is =>
      kconj (rinj (nth a (ilB psi) 0%R) * chain [iAlA psi; iB psi] is a b) * (rinj (nth a (ilB psi) 0%R) * chain [iAlA psi; iB psi] is a b'))) =
    rinj eta * delta b b'.
Definition right_orthonormal (psi : itebd) (eta : R) : Prop :=
  forall a a', (a < length (ilB psi))%nat -> (a' < length (ilB psi))%nat ->
    sum (length (ilB psi)) (fun b => sumcfg (cell_dims psi 1) (fun is =>
      kconj (chain (cells psi 1) is a b) * chain (cells psi 1) is a' b)) =
    rinj eta * delta a a'.
(** The same to the right of the bond between A and B. *)
Definition right_orthonormal_inner (psi : itebd) (eta : R) : Prop :=
  forall a a', (a < length (ilA psi))%nat -> (a' < length (ilA psi))%nat ->
    sum (length (ilB psi)) (fun b => sum (dim (iB psi) 1) (fun i =>
      kconj (get (iBlB psi) [a; i; b]) * get (iBlB psi) [a'; i; b])) = rinj eta * delta a a'.


(** [x] is the mean value of [M] in a section of [N] cells. *)
Definition is_mean (psi : itebd) (N : nat) (M : list nat -> list nat -> K) (x : K) : Prop :=
  section_mean psi N id_op <> 0 /\ x * section_mean psi N id_op = section_mean psi N M.

(** The states to the left (right) of a bond between cells are orthonormal up to a common factor. *)
Definition left_ok (psi : itebd) : Prop := exists eta, (0 < eta)%R /\ left_orthonormal psi eta.
Definition right_ok (psi : itebd) : Prop := exists eta, (0 < eta)%R /\ right_orthonormal psi eta.
Definition inner_ok (psi : itebd) : Prop := exists eta, (0 < eta)%R /\ right_orthonormal_inner psi eta.

(** [x] is the mean value of [M] in the ring of [N] cells. *)
Definition is_ring_mean (psi : itebd) (N : nat) (M : list nat -> list nat -> K) (x : K) : Prop :=
  ring_mean psi N id_op <> 0 /\ x * ring_mean psi N id_op = ring_mean psi N M.

(** The same state, with the cells starting at the other site *)
Definition shift (psi : itebd) : itebd := mkI (iB psi) (ilB psi) (iA psi) (ilA psi) (iBlB psi) (iAlA psi) (icanon psi).

(** Physical dimension of a site *)
Definition site_dim (psi : itebd) (k : Z) : nat := dim (i_matrix psi k) 1.
(** Position in its cell *)
Definition par (k : Z) : nat := if Z.odd k then 1%nat else 0%nat.

(** The direct method closes the chain into a ring with this many cells beside those of the operators. *)
Definition slow_cells : nat := 2 ^ 10.

End Spec.
