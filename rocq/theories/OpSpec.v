(** * Specification: operators of a chain of sites with dimensions [ds], their powers and exponentials *)
From Coq Require Import Reals List Arith.
From Verif Require Import Scalar RScal RealInst Tensor Spec TrotterExp.
Import ListNotations.
Local Open Scope K_scope.

Section Op.
Context {SC : Scalar}.
(** product and powers *)
Definition op_mul (ds : list nat) (A B : list nat -> list nat -> K) (is js : list nat) : K := sumcfg ds (fun ks => A is ks * B ks js).
Fixpoint op_pow (ds : list nat) (A : list nat -> list nat -> K) (k : nat) : list nat -> list nat -> K :=
  match k with O => id_op | S k => op_mul ds A (op_pow ds A k) end.
End Op.

(** partial sums of the exponential series of [A], and: [E] is the exponential of [A] *)
Definition op_exp_sum (ds : list nat) (A : list nat -> list nat -> Cx) (N : nat) (is js : list nat) : Cx :=
  @sum (@rs_scalar CC) (S N) (fun k => Cmul (mkC (/ INR (fact k)) 0) (@op_pow (@rs_scalar CC) ds A k is js)).
Definition is_op_exp (ds : list nat) (A E : list nat -> list nat -> Cx) : Prop :=
  forall is js, in_range ds is -> in_range ds js -> Ccv (fun N => op_exp_sum ds A N is js) (E is js).
