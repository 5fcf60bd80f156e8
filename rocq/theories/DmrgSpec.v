(** * Specification of class DMRG: energies, the external eigenvalue solvers, valid calls *)
From Coq Require Import Reals Bool List Arith ZArith Lia.
From Verif Require Import Scalar RScal Tensor Spec MpsModel CanonSpec SimplifySpec MinimizeSpec HamSpec HamModel HamFacts DmrgModel.
Import ListNotations.
Local Open Scope K_scope.

Section Spec.
Context {RS : RScal}.

(** Re <f|H|f> for a wave function f and the operator of a Hamiltonian object (HamFacts.ham_op: the sum of its local terms and of
    its interactions), and for a state *)
Definition henergy_of (H : HamModel.hamiltonian) (ds : list nat) (f : list nat -> K) : R :=
  kre (sumcfg ds (fun is => sumcfg ds (fun js => kconj (f is) * ham_op H is js * f js))).
Definition henergy (H : HamModel.hamiltonian) (psi : mps) : R := henergy_of H (pdims psi) (amp psi).

(** e is a lower bound of the spectrum of H *)
Definition hlower_bound (H : HamModel.hamiltonian) (e : R) : Prop := forall f, (e * weight (h_dims H) f <= henergy_of H (h_dims H) f)%R.

(** Every local term and every interaction is Hermitian. *)
Definition hermitian_terms (H : HamModel.hamiltonian) : Prop :=
  (forall k i j, (k < h_size H)%nat -> (i < h_dim H k)%nat -> (j < h_dim H k)%nat -> mat (h_local H k) i j = kconj (mat (h_local H k) j i)) /\
  (forall k i j p q, (S k < h_size H)%nat -> (i < h_dim H k)%nat -> (j < h_dim H k)%nat -> (p < h_dim H (S k))%nat -> (q < h_dim H (S k))%nat ->
    sum (h_depth H k) (fun m => mat (h_left H k m) i j * mat (h_right H k m) p q) =
    kconj (sum (h_depth H k) (fun m => mat (h_left H k m) j i * mat (h_right H k m) q p))).

(** What linalg::eigs(A, SmallestAlgebraic, 1, &P) is assumed to do (external, LAPACK or ARPACK): for a Hermitian matrix, the lowest
    eigenvalue and an eigenvector of norm one.  Nothing is assumed for more eigenvalues. *)
Definition dense_contract (eigs : tensor -> nat -> tensor -> list K * list K) : Prop :=
  forall T n v, (0 < n)%nat -> is_matrix T n n -> hermitian n (mat T) -> length (data v) = n ->
    exists e V, eigs T 1%nat v = ([rinj e], V) /\ length V = n /\ ground_state n (mat T) e (fun i => nth i V 0).
(** The same for linalg::Arpack, which may also fail. *)
Definition arpack_contract (arpack : (tensor -> tensor) -> nat -> nat -> tensor -> option (list K * list K)) : Prop :=
  forall f n v M, (0 < n)%nat -> acts_as (fun x => Ok (f x)) n M -> hermitian n M -> length (data v) = n ->
    arpack f n 1%nat v = None \/
    exists e V, arpack f n 1%nat v = Some ([rinj e], V) /\ length V = n /\ ground_state n M e (fun i => nth i V 0).

(** A DMRG object the one-site algorithm supports: a Hamiltonian on two or more sites, without periodic boundary conditions, all
    local terms given, all terms Hermitian; one eigenvalue; no conserved quantities. *)
Definition valid_dmrg (D : dmrg) : Prop :=
  ham_ok (d_H D) /\ locals_set (d_H D) /\ hermitian_terms (d_H D) /\ (2 <= h_size (d_H D))%nat /\ h_periodic (d_H D) = false /\
  (d_neigenvalues D <= 1)%Z /\ d_nQ D = 0%nat.

(** A call D.minimize(&psi, Dmax, E): an open state of the same sites; if all zeros are truncated, psi is not zero. *)
Definition valid_call_dmrg (flag : R) (D : dmrg) (psi : mps) : Prop :=
  valid_dmrg D /\ open_mps psi /\ pdims psi = h_dims (d_H D) /\
  (flag <> 0%R \/ exists is, in_range (pdims psi) is /\ amp psi is <> 0).

(** linalg::Arpack always succeeds. *)
Definition arpack_succeeds (arpack : (tensor -> tensor) -> nat -> nat -> tensor -> option (list K * list K)) : Prop :=
  forall f n neig v, arpack f n neig v <> None.

(** The object with other values of sweeps, allow_E_growth. *)
Definition dmrg_with_sweeps (D : dmrg) (s : Z) : dmrg :=
  mkD (d_H D) s (d_tolerance D) (d_svd_tolerance D) (d_allow_E_growth D) (d_neigenvalues D) (d_nQ D) (d_P0 D).
Definition dmrg_with_growth (D : dmrg) (g : Z) : dmrg :=
  mkD (d_H D) (d_sweeps D) (d_tolerance D) (d_svd_tolerance D) g (d_neigenvalues D) (d_nQ D) (d_P0 D).

End Spec.
