(** * Specification of solve(): residuals, the external solver of linear equations, valid calls *)
From Coq Require Import Reals Bool List Arith ZArith Lia.
From Verif Require Import Scalar RScal Tensor Spec MpsModel MpoSpec MpoModel CanonSpec CanonModel FormSpec SimplifySpec MinimizeSpec.
Import ListNotations.
Local Open Scope K_scope.

Section Spec.
Context {RS : RScal}.

(** |H f - q|^2 for wave functions f and q on sites of dimensions ds *)
Definition residual (H : mpo) (ds : list nat) (q f : list nat -> K) : R := dist2 ds (op_apply ds (opelem H) f) q.

(** What linalg::solve_with_svd(A, b) is assumed to do (external library): if the equation A x = b with a
    square matrix A has a solution, it returns one. *)
Definition lsolve_contract (lsolve : tensor -> tensor -> tensor) : Prop :=
  forall n A b, (0 < n)%nat -> is_matrix A n n -> dims b = [n] -> wf b ->
    (exists x, forall i, (i < n)%nat -> sum n (fun j => get A [i; j] * x j) = get b [i]) ->
    let x := lsolve A b in dims x = [n] /\ wf x /\ forall i, (i < n)%nat -> sum n (fun j => get A [i; j] * get x [j]) = get b [i].

(** f is the multiplication by the matrix M, for tensors of dimensions d whose elements are numbered as they are stored. *)
Definition acts_on (f : tensor -> result tensor) (d : list nat) (M : nat -> nat -> K) : Prop :=
  forall x, wf x -> dims x = d -> exists y, f x = Ok y /\ wf y /\ dims y = d /\
    forall r, (r < nprod d)%nat -> nth r (data y) 0 = sum (nprod d) (fun c => M r c * nth c (data x) 0).

(** What linalg::cgs(f, b, &x0, maxiter, tol) is assumed to do (external library): if f is the multiplication by
    a Hermitian matrix without negative eigenvalues, all tensors have the same dimensions, the equation has a
    solution and there are enough iterations, it returns a solution (a rounding error, or one below tol, is not
    represented). *)
Definition cgs_contract (cgs : (tensor -> result tensor) -> tensor -> tensor -> nat -> R -> result tensor) : Prop :=
  forall f d M b x0 maxiter tol, (0 < nprod d)%nat -> acts_on f d M -> hermitian (nprod d) M ->
    (forall x, (0 <= kre (sum (nprod d) (fun r => sum (nprod d) (fun c => kconj (x r) * M r c * x c))%K))%R) ->
    wf b -> dims b = d -> wf x0 -> dims x0 = d -> (nprod d <= maxiter)%nat ->
    (exists x, forall r, (r < nprod d)%nat -> sum (nprod d) (fun c => M r c * x c) = nth r (data b) 0) ->
    exists x, cgs f b x0 maxiter tol = Ok x /\ wf x /\ dims x = d /\
      forall r, (r < nprod d)%nat -> sum (nprod d) (fun c => M r c * nth c (data x) 0) = nth r (data b) 0.

(** canonical_form(psi, -1) loses nothing: no singular value other than zero is dropped.  It is so for every
    state when MPS_TRUNCATION_TOLERANCE is at least one (MPS_DO_NOT_TRUNCATE), and for those without tiny
    singular values otherwise. *)
Definition kept (svd : tensor -> tensor * list R * tensor) (flag : R) (psi : mps) : Prop :=
  forall psi', canonical_form svd flag psi (-1) = Ok psi' -> forall is, in_range (pdims psi) is -> amp psi' is = amp psi is.

(** The state from which solve(H, P, Q, ...) starts: P, or the canonical form of Q if P has no sites. *)
Definition starts_with (svd : tensor -> tensor * list R * tensor) (flag : R) (P Q P0 : mps) : Prop :=
  if Nat.eqb (length P) 0 then canonical_form svd flag Q (-1) = Ok P0 else P0 = P.

(** A call solve(H, P, Q, sense, sweeps, ...): H Hermitian, states of equal dimensions, at least one sweep, Q not
    too small, and the canonical forms of Q and H Q lose nothing.  If all zeros are truncated, P is not
    orthogonal to H Q. *)
Definition valid_solve (svd : tensor -> tensor * list R * tensor) (flag : R) (H : mpo) (P Q : mps) (ds : list nat) (sweeps : nat) : Prop :=
  hamiltonian H ds /\ open_mps Q /\ pdims Q = ds /\ (P = [] \/ open_mps P /\ pdims P = ds) /\ sweeps <> 0%nat /\
  (1 / 10 ^ 16 <= weight ds (amp Q))%R /\
  kept svd flag Q /\
  (forall Q' HQ, canonical_form svd flag Q (-1) = Ok Q' -> apply H Q' = Ok HQ -> kept svd flag HQ) /\
  (flag <> 0%R \/
   inner ds (op_apply ds (opelem H) (amp Q)) (amp (if Nat.eqb (length P) 0 then Q else P)) <> 0).

(** The first of the two sites that a sweep of the two-site algorithm in that direction treats last *)
Definition end_pair (L : nat) (sense : Z) : nat := if (sense <? 0)%Z then 0%nat else (L - 2)%nat.

(** A call of the two-site algorithm.  [tol] is the tolerance in use; on a chain of one site there is no pair. *)
Definition valid_solve2 (svd : tensor -> tensor * list R * tensor) (flag : R) (H : mpo) (P Q : mps) (ds : list nat) (sweeps : nat) (tol : R) : Prop :=
  valid_solve svd flag H P Q ds sweeps /\ (2 <= length ds)%nat /\ flag <> 0%R /\ (0 < tol)%R.

End Spec.
