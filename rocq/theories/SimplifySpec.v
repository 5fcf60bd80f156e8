(** * Specification of the simplification algorithms *)
From Coq Require Import Reals Bool List Arith ZArith Lia.
From Verif Require Import Scalar RScal Tensor Spec MpsModel CanonSpec.
Import ListNotations.
Local Open Scope K_scope.

Section Spec.
Context {RS : RScal}.

(** Amplitudes of sum_n w_n Q_n *)
Definition combo (ws : list K) (Q : list mps) (is : list nat) : K :=
  sum (length Q) (fun n => nth n ws 0 * amp (nth n Q []) is).

(** |f - g|^2, a sum over all configurations *)
Definition dist2 (ds : list nat) (f g : list nat -> K) : R := weight ds (fun is => f is - g is).

(** The state is in canonical form with respect to site k. *)
Definition canonical_at (k : nat) (P : mps) : Prop :=
  (forall j, (j < k)%nat -> left_isometry (site P j)) /\
  (forall j, (k < j < length P)%nat -> right_isometry (site P j)).

(** Where a sweep in the direction [sense] ends: the first site for negative sense, otherwise the last. *)
Definition sweep_end (L : nat) (sense : Z) : nat := if (sense <? 0)%Z then 0%nat else (L - 1)%nat.

(** All inner bond dimensions are at most D. *)
Definition bonds_le (D : Z) (P : mps) : Prop :=
  forall j, (0 < j < length P)%nat -> (Z.of_nat (dim (site P j) 0) <= D)%Z.

(** The truncation tolerance in use: the argument tol, or the flag if it is negative. *)
Definition tolerance_used (flag tol : R) : R := if Rlt_dec tol 0 then flag else tol.

(** No singular value other than zero is dropped because of the tolerance. *)
Definition no_truncation (e : R) : Prop := e = 0%R \/ (1 <= e)%R.

(** An economic decomposition of an m x n matrix returns min(m,n) singular values, zeros included (SVD_ECONOMIC
    of LAPACK; a block_svd that drops zero blocks need not). *)
Definition svd_economic (svd : tensor -> tensor * list R * tensor) : Prop :=
  forall m n A, is_matrix A m n -> (0 < m)%nat -> (0 < n)%nat -> let '(_, s, _) := svd A in length s = Nat.min m n.

(** The one-site algorithm is used if the flag MPS_SIMPLIFY_ALGORITHM asks for it and there is no bound
    on the bond dimension; it truncates with MPS_TRUNCATION_TOLERANCE. *)
Definition one_site (algorithm : bool) (Dmax : Z) : bool := algorithm && (Dmax =? 0)%Z.
Definition truncation (flag : R) (algorithm : bool) (Dmax : Z) (tol : R) : R :=
  if one_site algorithm Dmax then flag else tolerance_used flag tol.

(** A call simplify_obc(P, w, Q, sense, sweeps, normalize, Dmax, tol): states of equal dimensions, a
    combination that is not zero, at least one sweep, at least two sites for the two-site algorithm; if all
    zeros are truncated, P is not orthogonal to the combination. *)
Definition valid_call (flag : R) (algorithm : bool) (P : mps) (w : list K) (Q : list mps) (ds : list nat)
  (sweeps : nat) (Dmax : Z) (tol : R) : Prop :=
  Q <> [] /\ length w = length Q /\ (forall q, In q Q -> open_mps q /\ pdims q = ds) /\
  open_mps P /\ pdims P = ds /\ sweeps <> 0%nat /\
  (exists is, in_range ds is /\ combo w Q is <> 0) /\
  (one_site algorithm Dmax = true \/ (2 <= length P)%nat) /\
  (truncation flag algorithm Dmax tol <> 0%R \/ inner ds (combo w Q) (amp P) <> 0).

(** The two overloads of simplify(P, {Q_i}, w, ...): one site at a time, or two with a bound Dmax and a tolerance. *)
Inductive variant := by_one | by_two (Dmax : Z) (tol : R).

(** A call simplify(P, {Q_i}, w, ..., sense, sweeps, normalize): at least two sites, states of equal dimensions,
    P not orthogonal to the combination.  For two sites a positive tolerance is enough instead. *)
Definition valid_many (flag : R) (v : variant) (P : mps) (w : list K) (Q : list mps) (ds : list nat) (sense : Z) : Prop :=
  Q <> [] /\ length w = length Q /\ (forall q, In q Q -> open_mps q /\ pdims q = ds) /\
  open_mps P /\ pdims P = ds /\ (2 <= length P)%nat /\ sense <> 0%Z /\
  match v with
  | by_one => inner ds (combo w Q) (amp P) <> 0
  | by_two _ tol => (flag <> 0%R /\ tolerance_used flag tol <> 0%R) \/ inner ds (combo w Q) (amp P) <> 0
  end.

(** Bonds the result may have, and what is needed for the distance not to grow *)
Definition bonds_ok (v : variant) (P P' : mps) : Prop :=
  match v with
  | by_one => forall j, (dim (site P' j) 0 <= dim (site P j) 0)%nat
  | by_two Dmax _ => (0 < Dmax)%Z -> bonds_le Dmax P'
  end.
Definition loses_nothing (flag : R) (v : variant) (P : mps) : Prop :=
  match v with
  | by_one => True
  | by_two Dmax tol => no_truncation (tolerance_used flag tol) /\ ((Dmax <= 0)%Z \/ bonds_le Dmax P)
  end.

End Spec.
