(** * When the loops over the sweeps end *)
From Coq Require Import Reals List Arith ZArith Lia.
From Verif Require Import Scalar Tensor.

Section Spec.
Context {A : Type}.
(** [run n]: the state, the direction and the error that a call with at most n sweeps returns. *)
Variable run : nat -> result (A * Z * R).
(** The error that counts as the one before the first sweep, and the condition on two successive errors. *)
Variable e0 : R.
Variable ends : R -> R -> Prop.

Definition error_before (j : nat) (e : R) : Prop :=
  (j = 1%nat /\ e = e0) \/ ((1 < j)%nat /\ exists P s, run (j - 1)%nat = Ok (P, s, e)).

(** The condition is met after the sweep number j. *)
Definition met (j : nat) : Prop := exists P s e' e, error_before j e /\ run j = Ok (P, s, e') /\ ends e e'.

(** The sweeps end exactly when the condition is met: either it was met for the first time after the sweep number j, and then
    a larger number of sweeps changes nothing; or it was not met and all n sweeps were done.  The returned direction, which
    changes with every sweep, tells how many were done: [stopped j] in the first case, [all n] in the second. *)
Definition ends_exactly_when (stopped all : nat -> Z) : Prop := forall n P s e, (0 < n)%nat -> run n = Ok (P, s, e) ->
  (exists j, (0 < j <= n)%nat /\ met j /\ (forall i, (0 < i < j)%nat -> ~ met i) /\ s = stopped j /\
     forall m, (j <= m)%nat -> run m = Ok (P, s, e)) \/
  ((forall j, (0 < j <= n)%nat -> ~ met j) /\ s = all n).
End Spec.

(** The direction z after k changes of sign *)
Definition turned (k : nat) (z : Z) : Z := if Nat.even k then z else (- z)%Z.
