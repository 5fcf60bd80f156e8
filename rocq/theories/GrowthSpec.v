(** * When the loops of the minimizers over the sweeps end *)
From Coq Require Import Reals List Arith ZArith Lia.
From Verif Require Import Scalar Tensor.

Section Spec.
(** [e i]: the energy after the sweep number i, for i >= 1 *)
Variable e : nat -> R.
Variables (tolerance : R) (allow : Z).

(** The energy changed by less than the tolerance, or grew by more than 10^-14 of its size, in the sweep number i >= 2. *)
Definition small_change (i : nat) : Prop := (Rabs (e i - e (i - 1)%nat) < tolerance)%R.
Definition grew (i : nat) : Prop := (1 / 10 ^ 14 * Rabs (e i) < e i - e (i - 1)%nat)%R.
(** In how many of the sweeps 2, ..., j it grew *)
Inductive growths : nat -> nat -> Prop :=
| growths_1 j : (j <= 1)%nat -> growths j 0
| growths_yes j c : (1 <= j)%nat -> growths j c -> grew (S j) -> growths (S j) (S c)
| growths_no j c : (1 <= j)%nat -> growths j c -> ~ grew (S j) -> growths (S j) c.

(** The condition for the sweep number j to be the last one: the change was small, or the energy grew and had already grown
    in at least [allow] earlier sweeps. *)
Definition last_sweep (j : nat) : Prop := (2 <= j)%nat /\
  (small_change j \/ (grew j /\ exists c, growths (j - 1) c /\ (allow <= Z.of_nat c)%Z)).
End Spec.

Section Run.
Context {A : Type}.
(** [run n]: the state and the energy that a call with at most n sweeps returns; [failed]: the states it leaves if a sweep fails;
    [E0]: the energy returned if the first sweep fails. *)
Variable run : nat -> result (A * R).
Variable failed : A -> Prop.
Variables (E0 tolerance : R) (allow : Z).

(** There are energies after the sweeps 1, ..., k, those of the calls with as many sweeps, none of the sweeps before the k-th meets
    the condition, and: the k-th does, and a larger number of sweeps changes nothing; or it does not, but all n sweeps were
    done; or it does not, and the next one fails for any number of sweeps larger than k. *)
Definition ends_with_growth : Prop := forall n P E, (0 < n)%nat -> run n = Ok (P, E) ->
  exists (e : nat -> R) (k : nat), let Ek := if Nat.eqb k 0 then E0 else e k in
    (k <= n)%nat /\ E = Ek /\
    (forall i, (0 < i <= k)%nat -> exists Q, run i = Ok (Q, e i)) /\
    (forall i, (0 < i < k)%nat -> ~ last_sweep e tolerance allow i) /\
    ((last_sweep e tolerance allow k /\ forall m, (k <= m)%nat -> run m = Ok (P, E)) \/
     (~ last_sweep e tolerance allow k /\ k = n) \/
     (~ last_sweep e tolerance allow k /\ failed P /\ forall m, (k < m)%nat -> run m = Ok (P, E))).
End Run.
