(** * Specification of the canonical form of infinite states and of the operators applied to them *)
From Coq Require Import Reals Bool List Arith ZArith Lia.
From Verif Require Import Scalar RScal Tensor Spec MpsModel ITebdModel ITebdSpec.
Import ListNotations.
Local Open Scope K_scope.

Section Spec.
Context {RS : RScal}.

(** Positive definite matrix *)
Definition positive (n : nat) (M : nat -> nat -> K) : Prop :=
  (forall i j, (i < n)%nat -> (j < n)%nat -> kconj (M i j) = M j i) /\
  forall v : nat -> K, (exists i, (i < n)%nat /\ v i <> 0) ->
    (0 < kre (sum n (fun i => sum n (fun j => kconj (v i) * M i j * v j)))%K)%R.

(** What a cell does to the overlaps of the states to its right, and to those of the states to its left *)
Definition right_map (psi : itebd) (P : nat -> nat -> K) (a a' : nat) : K :=
  sum (length (ilB psi)) (fun b => sum (length (ilB psi)) (fun b' =>
    sumcfg (cell_dims psi 1) (fun is => chain (cells psi 1) is a b * kconj (chain (cells psi 1) is a' b')) * P b b')).
Definition left_map (psi : itebd) (Q : nat -> nat -> K) (b b' : nat) : K :=
  sum (length (ilB psi)) (fun a => sum (length (ilB psi)) (fun a' =>
    sumcfg (cell_dims psi 1) (fun is =>
      kconj (rinj (nth a (ilB psi) 0%R) * chain [iAlA psi; iB psi] is a b) * (rinj (nth a' (ilB psi) 0%R) * chain [iAlA psi; iB psi] is a' b')) * Q a a')).

(** [M] is, up to a factor, the only eigenvector of [f] with an eigenvalue of largest modulus, which is [eta]. *)
Definition eigenvector (n : nat) (f : (nat -> nat -> K) -> nat -> nat -> K) (mu : K) (M : nat -> nat -> K) : Prop :=
  (exists i j, (i < n)%nat /\ (j < n)%nat /\ M i j <> 0) /\
  forall i j, (i < n)%nat -> (j < n)%nat -> f M i j = mu * M i j.
Definition dominates (n : nat) (f : (nat -> nat -> K) -> nat -> nat -> K) (eta : R) (P : nat -> nat -> K) : Prop :=
  eigenvector n f (rinj eta) P /\
  forall mu M, eigenvector n f mu M -> (eta * eta <= kmod2 mu)%R ->
    mu = rinj eta /\ exists c, forall i j, (i < n)%nat -> (j < n)%nat -> M i j = c * P i j.

(** The state has a unique limit far from the ends, in which every state of the bond appears. *)
Definition primitive (psi : itebd) : Prop :=
  exists eta P Q, (0 < eta)%R /\ positive (length (ilB psi)) P /\ positive (length (ilB psi)) Q /\
    dominates (length (ilB psi)) (right_map psi) eta P /\ dominates (length (ilB psi)) (left_map psi) eta Q.

(** Contract of linalg::eig_sym(V, &R) (external): eigenvalues and unitary matrix of eigenvectors *)
Definition eig_sym_contract (eig_sym : tensor -> list R * tensor) : Prop :=
  forall n V, (0 < n)%nat -> is_matrix V n n -> (forall i j, (i < n)%nat -> (j < n)%nat -> kconj (get V [i; j]) = get V [j; i]) ->
    let '(s, Rm) := eig_sym V in
    length s = n /\ is_matrix Rm n n /\
    (forall i j, (i < n)%nat -> (j < n)%nat -> sum n (fun k => kconj (get Rm [k; i]) * get Rm [k; j]) = delta i j) /\
    (forall i j, (i < n)%nat -> (j < n)%nat -> sum n (fun k => get Rm [i; k] * kconj (get Rm [j; k])) = delta i j) /\
    (forall i j, (i < n)%nat -> (j < n)%nat -> get V [i; j] = sum n (fun k => get Rm [i; k] * rinj (nth k s 0%R) * kconj (get Rm [j; k]))).

(** Contract of linalg::eigs(f, n, LargestMagnitude, 1, &v) (external): an eigenvector for an eigenvalue of largest
    modulus, whenever there is one. *)
Definition vec_eigen (n : nat) (f : tensor -> tensor) (mu : K) (v : tensor) : Prop :=
  dims v = [n] /\ wf v /\ (exists i, (i < n)%nat /\ get v [i] <> 0) /\
  forall i, (i < n)%nat -> get (f v) [i] = mu * get v [i].
Definition largest_eigen (n : nat) (f : tensor -> tensor) (v : tensor) : Prop :=
  exists mu, vec_eigen n f mu v /\ forall mu' v', vec_eigen n f mu' v' -> (kmod2 mu' <= kmod2 mu)%R.
Definition eigs_largest (eigs : (tensor -> tensor) -> nat -> tensor -> tensor) : Prop :=
  forall f n v0, (exists v, largest_eigen n f v) -> largest_eigen n f (eigs f n v0).

(** The least about eigs: it returns a vector of the size asked for. *)
Definition eigs_sized (eigs : (tensor -> tensor) -> nat -> tensor -> tensor) : Prop :=
  forall f n v0, dims (eigs f n v0) = [n] /\ wf (eigs f n v0).

(** One two-site operator on every cell, row index i_A + d_A i_B *)
Fixpoint cells_op (dA : nat) (U : nat -> nat -> K) (is js : list nat) : K :=
  match is, js with
  | i :: i' :: is', j :: j' :: js' => U (i + dA * i')%nat (j + dA * j')%nat * cells_op dA U is' js'
  | [], [] => 1
  | _, _ => 0
  end.

(** The cell of the chain after the operator [U] *)
Definition cell_after (psi : itebd) (U : nat -> nat -> K) (a b : nat) (is : list nat) : K :=
  sumcfg (cell_dims psi 1) (fun js => cells_op (dim (iA psi) 1) U is js * section psi 1 a b js).
(** Squared norm of a wave function of the cell and the states to its left and right *)
Definition cell_norm (psi : itebd) (f : nat -> nat -> list nat -> K) : R :=
  rsum (length (ilB psi)) (fun a => rsum (length (ilB psi)) (fun b => rsum (dim (iA psi) 1) (fun i => rsum (dim (iB psi) 1) (fun j => kmod2 (f a b [i; j]))))).

End Spec.
