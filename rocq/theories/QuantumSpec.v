(** * Specification of quantum operators: products and commutators of matrices *)
From Coq Require Import Reals List Arith.
From Verif Require Import Scalar RealInst RScal Tensor Spec.
Import ListNotations.

(** (A B)(i,j) *)
Definition rprod (d : nat) (A B : @tensor (@rs_scalar RR)) (i j : nat) : R :=
  rsum d (fun k => (@get (@rs_scalar RR) A [i; k] * @get (@rs_scalar RR) B [k; j])%R).
Definition cprod (d : nat) (A B : @tensor (@rs_scalar CC)) (i j : nat) : Cx :=
  @sum (@rs_scalar CC) d (fun k => Cmul (@get (@rs_scalar CC) A [i; k]) (@get (@rs_scalar CC) B [k; j])).

(** A B - B A = i C for matrices of dimension d *)
Definition commutator (d : nat) (A B C : @tensor (@rs_scalar CC)) : Prop :=
  forall i j, (i < d)%nat -> (j < d)%nat ->
    Csub (cprod d A B i j) (cprod d B A i j) = Cmul (mkC 0 1) (@get (@rs_scalar CC) C [i; j]).

Definition hermitian (d : nat) (A : @tensor (@rs_scalar CC)) : Prop :=
  forall i j, (i < d)%nat -> (j < d)%nat -> @get (@rs_scalar CC) A [i; j] = Cconj (@get (@rs_scalar CC) A [j; i]).

Definition kron_delta (i j : nat) : R := if Nat.eqb i j then 1%R else 0%R.

Fixpoint Cpow (z : Cx) (n : nat) : Cx := match n with O => mkC 1 0 | S n' => Cmul z (Cpow z n') end.
