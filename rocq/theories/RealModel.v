(** * Routines whose result involves square roots, over Coq's reals *)
From Coq Require Import Reals.
From Verif Require Import Scalar RealInst Tensor Spec MpsModel.

(** src/mps/mps_norm_d.cc:25-28 and mps_expected1.cc:49-57: norm2(RMPS). *)
Definition norm2_d (a : @mps RScalar) : result R :=
  bind (norm2_squared a) (fun x => Ok (sqrt (Rabs x))).

(** src/mps/mps_norm_z.cc:25-28: norm2(CMPS) = sqrt(abs(real(.))). *)
Definition norm2_z (a : @mps CScalar) : result R :=
  bind (norm2_squared a) (fun x => Ok (sqrt (Rabs (Cre x)))).
