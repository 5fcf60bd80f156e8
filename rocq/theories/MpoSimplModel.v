(** * Model of simplify(mpo) and fidelity(mpo, mpo) *)
From Coq Require Import Reals Bool List Arith ZArith Lia.
From Verif Require Import Scalar RScal Tensor Spec MpsModel MpoSpec MpoModel CanonModel.
Import ListNotations.

Section Model.
Context {RS : RScal}.
Variable svd : tensor -> tensor * list R * tensor.
Variable flag : R.

(** src/mpo/mpo_simplify.cc:32-39, body of the loop: reshape(m2, m2.dimension(0), m1.dimension(1), m1.dimension(2),
    m2.dimension(2)), with m1 the old tensor of the operator and m2 the tensor of the state. *)
Definition regroup (m1 m2 : tensor) : tensor := reshape m2 [dim m2 0; dim m1 1; dim m1 2; dim m2 2].

(** The loop over the sites, mpo_simplify.cc:31-44. *)
Fixpoint regroup_all (O : mpo) (psi : mps) : mpo :=
  match O, psi with
  | m1 :: O', m2 :: psi' => regroup m1 m2 :: regroup_all O' psi'
  | _, _ => []
  end.

(** src/mpo/mpo_simplify.cc:26-46: simplify(old_mpo, sense, debug), include/mps/mpo.h:106-108 (default sense = +1).
    The debug output is not modelled. *)
Definition mpo_simplify (old_mpo : mpo) (sense : Z) : result mpo :=
  bind (canonical_form svd flag (mpo_to_mps old_mpo) sense) (fun psi => Ok (regroup_all old_mpo psi)).

(** src/mps/mps_expected1.cc:49-57, mps_norm_z.cc:25-28: norm2(psi) = sqrt(abs(real(.))). *)
Definition mps_norm2 (psi : mps) : result R := bind (norm2_squared psi) (fun x => Ok (sqrt (Rabs (kre x)))).

(** src/mpo/mpo_fidelity_z.cc:24-31: fidelity(Ua, Ub).
    SIMPLIFICATION: a zero norm (0/0 = NaN in C++) is [Abort]. *)
Definition fidelity (Ua Ub : mpo) : result R :=
  bind (canonical_form svd flag (mpo_to_mps Ua) (-1)) (fun psi1 =>
  bind (canonical_form svd flag (mpo_to_mps Ub) (-1)) (fun psi2 =>
  bind (mps_norm2 psi1) (fun n1 =>
  bind (mps_norm2 psi2) (fun n2 =>
  bind (scprod psi1 psi2 1) (fun x =>
    if Req_EM_T (n1 * n2)%R 0%R then Abort
    else Ok (sqrt (kmod2 (x * rinj (/ (n1 * n2))%R)%K))))))).
End Model.
