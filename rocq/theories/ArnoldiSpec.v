(** * Specification of ArnoldiSolver *)
From Coq Require Import Reals Bool List Arith Lia.
From Verif Require Import Scalar RScal RealInst Tensor Spec MpoSpec TrotterExp.
Import ListNotations.
Local Open Scope K_scope.

Section Spec.
Context {RS : RScal}.

(** A Hermitian operator with open boundaries acting on sites of dimensions [ds] *)
Definition hermitian_mpo (H : mpo) (ds : list nat) : Prop :=
  open_mpo H /\ odims H = ds /\ idims H = ds /\
  forall is js, in_range ds is -> in_range ds js -> opelem H is js = kconj (opelem H js is).

(** What linalg::solve_with_svd(A, B) is assumed to do when B is a matrix (external library): if the equation A X = B
    with a square matrix A has a solution, it returns one. *)
Definition msolve_contract (msolve : tensor -> tensor -> tensor) : Prop :=
  forall n A B, is_matrix A n n -> is_matrix B n n ->
    (exists X : nat -> nat -> K, forall i j, (i < n)%nat -> (j < n)%nat -> sum n (fun k => mat A i k * X k j) = mat B i j) ->
    is_matrix (msolve A B) n n /\
    forall i j, (i < n)%nat -> (j < n)%nat -> sum n (fun k => mat A i k * mat (msolve A B) k j) = mat B i j.

(** The function [g] is a combination of the functions [f_0], ..., [f_(n-1)]. *)
Definition in_span (ds : list nat) (n : nat) (f : nat -> list nat -> K) (g : list nat -> K) : Prop :=
  exists x : nat -> K, forall is, in_range ds is -> g is = sum n (fun k => x k * f k is).

(** The vector from which the k-th vector of the basis is computed (k > 0):
    H v_(k-1) - <v_(k-1)|H|v_(k-1)> v_(k-1) - <v_(k-1)|H|v_(k-2)> v_(k-2), the last term only if k > 1 *)
Definition lanczos_target (ds : list nat) (H : mpo) (v : nat -> list nat -> K) (k : nat) (is : list nat) : K :=
  let Hv j := op_apply ds (opelem H) (v j) in
  Hv (k - 1)%nat is - inner ds (v (k - 1)%nat) (Hv (k - 1)%nat) * v (k - 1)%nat is
    - (if Nat.ltb 1 k then inner ds (v (k - 1)%nat) (Hv (k - 2)%nat) * v (k - 2)%nat is else 0).

End Spec.

(** The k-th power of the operator with the elements M applied to f, and the partial sums of exp(z M) f *)
Fixpoint power_apply (ds : list nat) (M : list nat -> list nat -> Cx) (k : nat) (f : list nat -> Cx) : list nat -> Cx :=
  match k with
  | O => f
  | S k => op_apply (SC := CS) ds M (power_apply ds M k f)
  end.
Definition exp_apply (ds : list nat) (M : list nat -> list nat -> Cx) (z : Cx) (f : list nat -> Cx) (N : nat) (is : list nat) : Cx :=
  csum (S N) (fun k => Cmul (Cmul (mkC (/ INR (fact k)) 0) (@kpow CS z k)) (power_apply ds M k f is)).
(** g = exp(z M) f *)
Definition is_evolved (ds : list nat) (M : list nat -> list nat -> Cx) (z : Cx) (f g : list nat -> Cx) : Prop :=
  forall is, in_range ds is -> Ccv (fun N => exp_apply ds M z f N is) (g is).
