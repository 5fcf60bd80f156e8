(** * Scalars: exact arithmetic standing for [double] and [std::complex<double>].

    The numeric templates of /repo are instantiated for real ([RTensor]) and complex
    ([CTensor]) elements.  The model is generic over a commutative ring with an involution
    [kconj] and a decidable equality.  SIMPLIFICATION: floating point rounding, overflow,
    infinities and NaN are not modelled. *)
From Coq Require Import Bool List Arith Lia Ring ZArith.
Import ListNotations.

Class Scalar := {
  K : Type;
  k0 : K; k1 : K;
  kadd : K -> K -> K; kmul : K -> K -> K; ksub : K -> K -> K; kopp : K -> K;
  kconj : K -> K;
  keqb : K -> K -> bool;
  k_ring : ring_theory k0 k1 kadd kmul ksub kopp eq;
  kconj_add : forall x y, kconj (kadd x y) = kadd (kconj x) (kconj y);
  kconj_mul : forall x y, kconj (kmul x y) = kmul (kconj x) (kconj y);
  kconj_inv : forall x, kconj (kconj x) = x;
  keqb_spec : forall x y, reflect (x = y) (keqb x y)
}.

Declare Scope K_scope.
Delimit Scope K_scope with K.
Infix "+" := kadd : K_scope.
Infix "*" := kmul : K_scope.
Infix "-" := ksub : K_scope.
Notation "- x" := (kopp x) : K_scope.
Notation "0" := k0 : K_scope.
Notation "1" := k1 : K_scope.

(** ** Finite sums, the only notion the specifications need *)
Fixpoint sum `{Scalar} (n : nat) (f : nat -> K) : K :=
  match n with
  | O => 0%K
  | S m => (sum m f + f m)%K
  end.

(** Kronecker delta *)
Definition delta `{Scalar} (i j : nat) : K := if Nat.eqb i j then 1%K else 0%K.

(** Sum over all configurations [is] with [is_k < ds_k]. *)
Fixpoint sumcfg `{Scalar} (ds : list nat) (f : list nat -> K) : K :=
  match ds with
  | [] => f []
  | d :: ds' => sum d (fun i => sumcfg ds' (fun is => f (i :: is)))
  end.

(** Product of a list of scalars *)
Fixpoint kprod `{Scalar} (l : list K) : K :=
  match l with [] => 1%K | x :: l' => (x * kprod l')%K end.

(** A configuration is in range of a dimension list. *)
Definition in_range (ds is : list nat) : Prop := Forall2 (fun d i => i < d) ds is.

(** Unsigned integer power, for statements such as 2^n inside the ring. *)
Fixpoint kpow `{Scalar} (x : K) (n : nat) : K :=
  match n with O => 1%K | S m => (x * kpow x m)%K end.

(** Embedding of naturals in the ring. *)
Fixpoint kofnat `{Scalar} (n : nat) : K :=
  match n with O => 0%K | S m => (1 + kofnat m)%K end.
