(** * Specification of minimize(): energies, the external eigenvalue solver, valid calls *)
From Coq Require Import Reals Bool List Arith ZArith Lia.
From Verif Require Import Scalar RScal Tensor Spec MpsModel MpoSpec CanonSpec FormSpec SimplifySpec MinimizerModel.
Import ListNotations.
Local Open Scope K_scope.

Section Spec.
Context {RS : RScal}.

(** Re <f|H|f> for a wave function f, and for a state *)
Definition energy_of (H : mpo) (ds : list nat) (f : list nat -> K) : R :=
  kre (sumcfg ds (fun is => sumcfg ds (fun js => kconj (f is) * opelem H is js * f js))).
Definition energy (H : mpo) (psi : mps) : R := energy_of H (pdims psi) (amp psi).

(** A Hamiltonian: a chain of operators with open boundaries acting on sites of dimensions [ds], Hermitian and
    not zero. *)
Definition hamiltonian (H : mpo) (ds : list nat) : Prop :=
  open_mpo H /\ odims H = ds /\ idims H = ds /\
  (forall is js, in_range ds is -> in_range ds js -> opelem H is js = kconj (opelem H js is)) /\
  exists is js, in_range ds is /\ in_range ds js /\ opelem H is js <> 0.

(** e is a lower bound of the spectrum of H; e is the smallest eigenvalue when some state reaches it. *)
Definition lower_bound (H : mpo) (ds : list nat) (e : R) : Prop := forall f, (e * weight ds f <= energy_of H ds f)%R.

(** The function f, on vectors of length n, is the product with the matrix M. *)
Definition acts_as (f : tensor -> result tensor) (n : nat) (M : nat -> nat -> K) : Prop :=
  forall v, wf v -> dims v = [n] ->
    exists w, f v = Ok w /\ wf w /\ dims w = [n] /\ forall i, (i < n)%nat -> get w [i] = sum n (fun j => M i j * get v [j]).
Definition hermitian (n : nat) (M : nat -> nat -> K) : Prop :=
  forall i j, (i < n)%nat -> (j < n)%nat -> M i j = kconj (M j i).

(** (e, p) is the lowest eigenvalue of M and an eigenvector of norm one. *)
Definition ground_state (n : nat) (M : nat -> nat -> K) (e : R) (p : nat -> K) : Prop :=
  rsum n (fun i => kmod2 (p i)) = 1%R /\
  (forall i, (i < n)%nat -> sum n (fun j => M i j * p j) = rinj e * p i) /\
  forall v, (e * rsum n (fun i => kmod2 (v i)) <= kre (sum n (fun i => sum n (fun j => kconj (v i) * M i j * v j)%K)))%R.

(** What linalg::eigs(f, n, SmallestAlgebraic, neig, &P, &converged) is assumed to do for a Hermitian matrix
    (external library, ARPACK): it returns neig numbers and as many vectors; when it reports convergence, a
    single eigenvalue asked for is the lowest one and comes with its eigenvector.  Nothing is assumed of the
    values when it does not converge or when more than one eigenvalue is asked for. *)
Definition eigs_contract (eigs : (tensor -> result tensor) -> nat -> nat -> tensor -> result (list K * tensor * bool)) : Prop :=
  forall f n neig v0 M, (0 < neig)%nat -> (neig <= n)%nat -> length (data v0) = n -> acts_as f n M -> hermitian n M ->
    exists E P b, eigs f n neig v0 = Ok (E, P, b) /\ length E = neig /\ length (data P) = (n * neig)%nat /\
      (neig = 1%nat -> b = true -> exists e, E = [rinj e] /\ ground_state n M e (fun i => nth i (data P) 0)).

(** Does it converge always? *)
Definition eigs_converges (eigs : (tensor -> result tensor) -> nat -> nat -> tensor -> result (list K * tensor * bool)) : Prop :=
  forall f n neig v0 E P b, eigs f n neig v0 = Ok (E, P, b) -> b = true.

(** A call minimize(H, psi, opt): at least two sites for the two-site algorithm; if all zeros are truncated,
    psi is not zero; where the gap is computed, a second eigenvalue exists, and for the one-site algorithm the
    solver never fails (its answer for the gap replaces the one for the lowest eigenvalue). *)
Definition valid_minimize (flag : R) (eigs : (tensor -> result tensor) -> nat -> nat -> tensor -> result (list K * tensor * bool))
  (H : mpo) (psi : mps) (ds : list nat) (o : options) : Prop :=
  hamiltonian H ds /\ open_mps psi /\ pdims psi = ds /\
  (o_Dmax o = 0%Z \/ (2 <= length psi)%nat) /\
  (flag <> 0%R \/ exists is, in_range ds is /\ amp psi is <> 0) /\
  (o_compute_gap o = false \/ (forall d, In d ds -> (2 <= d)%nat) /\ (o_Dmax o <> 0%Z \/ eigs_converges eigs)).

(** The states which differ from psi only at the site k, or only at the sites k and k+1. *)
Definition differs_at (psi phi : mps) (k : nat) : Prop := forall j, j <> k -> site phi j = site psi j.
Definition differs_at2 (psi phi : mps) (k : nat) : Prop := forall j, j <> k -> j <> S k -> site phi j = site psi j.

(** The same options with another number of sweeps, or another allow_E_growth. *)
Definition with_sweeps (o : options) (s : Z) : options :=
  mkOpt s (o_tolerance o) (o_svd_tolerance o) (o_allow_E_growth o) (o_Dmax o) (o_compute_gap o).
Definition with_growth (o : options) (g : Z) : options :=
  mkOpt (o_sweeps o) (o_tolerance o) (o_svd_tolerance o) g (o_Dmax o) (o_compute_gap o).

(** The two-site algorithm loses nothing: no bound on the bonds (a negative Dmax), and the tolerance keeps
    every singular value other than zero. *)
Definition keeps_all (flag : R) (o : options) : Prop :=
  (o_Dmax o <= 0)%Z /\ (o_Dmax o = 0%Z \/ no_truncation (tolerance_used flag (o_svd_tolerance o))).

End Spec.
