(** * Specification of minimize() with a constraint: valid calls, admissible states, combinations of states *)
From Coq Require Import Reals Bool List Arith ZArith.
From Verif Require Import Scalar RScal Tensor Spec MpsModel MpoSpec CanonSpec FormSpec SimplifySpec SimplifyModel MinimizerModel MinimizeSpec.
Import ListNotations.
Local Open Scope K_scope.

Section Spec.
Context {RS : RScal}.

(** <phi|N|phi> is the value, up to 10^-6. *)
Definition admissible (N : mpo) (value : K) (phi : mps) : Prop := (kabs (sandwich phi N phi - value)%K < 1 / 10 ^ 6)%R.
(** The same for a configuration of the sites *)
Definition admissible_at (N : mpo) (value : K) (is : list nat) : Prop := (kabs (opelem N is is - value)%K < 1 / 10 ^ 6)%R.

(** The wave function sum_r x_r |e_r> *)
Definition combination (n : nat) (e : nat -> mps) (x : nat -> K) (is : list nat) : K := sum n (fun r => x r * amp (e r) is).

(** A call minimize(H, psi, opt, N, value) of the two-site algorithm, which does not compute the gap: H and N are
    Hermitian operators with open boundaries, not zero, on the sites of psi, which are at least two. *)
Definition valid_constrained (flag : R) (H N : mpo) (psi : mps) (ds : list nat) (o : options) : Prop :=
  hamiltonian H ds /\ hamiltonian N ds /\ open_mps psi /\ pdims psi = ds /\ (2 <= length psi)%nat /\ o_Dmax o <> 0%Z /\
  o_compute_gap o = false /\ (flag <> 0%R \/ exists is, in_range ds is /\ amp psi is <> 0).
End Spec.
