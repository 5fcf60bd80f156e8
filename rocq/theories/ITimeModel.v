(** * Model of evolve_itime() (src/iTEBD/itebd_itime.hpp) with the operations of ITebdModel *)
From Coq Require Import Reals Bool List Arith ZArith Lia.
From Verif Require Import Scalar RScal Tensor Spec MpsModel CanonModel DecompModel ITebdModel ToolsModel.
Import ListNotations.

Section Model.
Context {RS : RScal}.
(** As in ITebdModel *)
Variable svd : tensor -> tensor * list R * tensor.
Variable flag : R.
Variable eigs : (tensor -> tensor) -> nat -> tensor -> tensor.
Variable eig_sym : tensor -> list R * tensor.
(** linalg::expm (external).  An arbitrary function. *)
Variable expm : tensor -> tensor.

(** include/mps/itebd.h:79: entropy() = entropy(0) + entropy(1); None is not a number *)
Definition total_entropy (psi : itebd) : result (option R) :=
  bind (i_entropy svd eigs eig_sym entropy psi 0) (fun x => bind (i_entropy svd eigs eig_sym entropy psi 1) (fun y =>
    Ok (match x, y with Some x, Some y => Some (x + y)%R | _, _ => None end))).

(** itebd_energy_d.cc:24-27 and itebd_energy_z.cc:24-29: energy(psi, Op12), the real part of the sum, whose imaginary
    part is below 1e-10.  SIMPLIFICATION: the canonical method (MPS_ITEBD_EXPECTED_METHOD = 1, the default). *)
Definition energy_value (psi : itebd) (Op12 : tensor) : result R :=
  bind (i_energy svd eigs eig_sym psi Op12) (fun x =>
    if Rltb (sqrt (kmod2 (x - rinj (kre x))%K)) (1 / 10 ^ 10) then Ok (kre x) else Abort).

(** itebd_itime.hpp:39-53: eH12[k] of the layer with coefficient c is expm((-dt c) H12), where -dt/2 is written
    for c = 1/2 and -dt for c = 1 *)
Definition itime_gate (dt : R) (H12 : tensor) (c : R) : tensor := expm (tscale (rinj (- dt * c)%R) H12).

(** itebd_itime.hpp:81-100: the layers of one step, applied one after the other *)
Fixpoint apply_layers (dt : R) (H12 : tensor) (tolerance : R) (max_dim : Z) (l : list (R * nat)) (psi : itebd) : result itebd :=
  match l with
  | [] => Ok psi
  | (c, site) :: l => bind (apply_operator svd flag eigs eig_sym psi (itime_gate dt H12 c) (Z.of_nat site) tolerance max_dim)
                           (apply_layers dt H12 tolerance max_dim l)
  end.

(** itebd_itime.hpp:80-102: the inner loop *)
Fixpoint itime_steps (dt : R) (H12 : tensor) (tolerance : R) (max_dim : Z) (method n : nat) (psi : itebd) : result itebd :=
  match n with
  | O => Ok psi
  | S n => bind (apply_layers dt H12 tolerance max_dim (itime_layers method) psi) (itime_steps dt H12 tolerance max_dim method n)
  end.

(** itebd_itime.hpp:55-61 and 103-109: canonical form, then energy and entropy are measured and appended *)
Definition itime_measure (H12 : tensor) (psi : itebd) (Es : list R) (Ss : list (option R)) : result (itebd * list R * list (option R)) :=
  bind (canonical_form svd eigs eig_sym psi) (fun psi =>
  bind (energy_value psi H12) (fun E => bind (total_entropy psi) (fun S => Ok (psi, Es ++ [E], Ss ++ [S])))).

(** itebd_itime.hpp:79-119: the outer loop *)
Fixpoint itime_phases (dt : R) (H12 : tensor) (tolerance : R) (max_dim : Z) (method deltan phases : nat) (psi : itebd) (Es : list R) (Ss : list (option R))
  : result (itebd * list R * list (option R)) :=
  match phases with
  | O => Ok (psi, Es, Ss)
  | S n => bind (itime_steps dt H12 tolerance max_dim method deltan psi) (fun psi =>
           bind (itime_measure H12 psi Es Ss) (fun '(psi, Es, Ss) =>
             itime_phases dt H12 tolerance max_dim method deltan n psi Es Ss))
  end.

(** itebd_itime.hpp:27-121: evolve_itime(psi, H12, dt, nsteps, tolerance, max_dim, deltan, method, &energies, &entropies),
    for empty vectors energies and entropies.
    SIMPLIFICATION: negative nsteps or deltan, and the output to std::cout, are not represented. *)
Definition evolve_infinite (psi : itebd) (H12 : tensor) (dt : R) (nsteps : nat) (tolerance : R) (max_dim : Z) (deltan method : nat)
  : result (itebd * list R * list (option R)) :=
  bind (itime_measure H12 psi [] []) (fun '(psi, Es, Ss) =>
    let deltan := if Nat.eqb deltan 0 then 1%nat else deltan in
    itime_phases dt H12 tolerance max_dim method deltan ((nsteps + deltan - 1) / deltan) psi Es Ss).

End Model.
