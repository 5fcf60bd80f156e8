(** * Real states and complex operators: the conversion RMPS -> CMPS, and the overloads of expected()
    that take a real state and complex operators *)
From Coq Require Import Reals ZArith List Arith Bool.
From Verif Require Import Scalar RealInst Tensor Spec MpsModel HamModel.
Import ListNotations.

(** tensor::CTensor(const RTensor &): every element x becomes x + 0i. *)
Definition cnum (x : R) : Cx := mkC x 0.
Definition cten (t : @tensor RScalar) : @tensor CScalar := @mkT CScalar (dims t) (map cnum (data t)).

(** src/mps/cmps_from_rmps.cc:26-36: CMPS(const RMPS &). *)
Definition cmps_of_rmps (psi : @mps RScalar) : @mps CScalar := map cten psi.

(** src/mps/mps_expected1.cc:29-45 with MPS = RMPS and Tensor = CTensor (the line 'Tensor Pk = a[k]'
    converts the tensor); src/mps/mps_expected1_dz.cc:25-28. *)
Definition expected1_dz (a : @mps RScalar) (Op1 : @tensor CScalar) (k1 : Z) : result Cx :=
  bind (@normal_index RScalar a k1) (fun k1 =>
    @close_value CScalar
      (fold_left (fun M k => @prop_matrix CScalar M 1 (cten (site a k)) (cten (site a k))
                               (if Nat.eqb k k1 then Some Op1 else None))
                 (seq 0 (length a)) empty)).

(** src/mps/mps_expected1_dz.cc:30-37: the sum over the sites. *)
Definition expected_total_dz (a : @mps RScalar) (op : @tensor CScalar) : result Cx :=
  fold_left (fun out i => bind out (fun s =>
               bind (expected1_dz a op (Z.of_nat i)) (fun x => Ok (Cadd s x))))
            (seq 0 (length a)) (Ok (mkC 0 0)).

(** src/mps/mps_expected2.cc:29-53 with MPS = RMPS and Tensor = CTensor; src/mps/mps_expected2_dz.cc:27-31.
    With k1 == k2 the overload of mps_expected1_dz.cc is called. *)
Definition expected2_dz (a : @mps RScalar) (Op1 : @tensor CScalar) (k1 : Z) (Op2 : @tensor CScalar) (k2 : Z)
  : result Cx :=
  if (k1 =? k2)%Z then expected1_dz a (@mmult CScalar Op1 Op2) k1
  else
    bind (@normal_index RScalar a k1) (fun k1 => bind (@normal_index RScalar a k2) (fun k2 =>
      @close_value CScalar
        (fold_left (fun M k => @prop_matrix CScalar M 1 (cten (site a k)) (cten (site a k))
                     (if Nat.eqb k k1 then Some Op1 else if Nat.eqb k k2 then Some Op2 else None))
                   (seq 0 (length a)) empty))).

(** src/hamiltonian/hamiltonian_expected.cc:24-56 with MPS = RMPS (hamiltonian_expected_d.cc:25-28).  The
    terms of a Hamiltonian are complex, so that the calls of expected() resolve to the overloads above. *)
Definition h_expected_site_dz (psi : @mps RScalar) (H : @hamiltonian CScalar) (k k2 : nat) (E : Cx) : result Cx :=
  fold_left (fun r i => bind r (fun E =>
      bind (expected2_dz psi (h_left H k i) (Z.of_nat k) (h_right H k i) (Z.of_nat k2))
           (fun x => Ok (Cadd E x))))
    (seq 0 (h_depth H k)) (Ok E).

Definition h_expected_step_dz (psi : @mps RScalar) (H : @hamiltonian CScalar) (k : nat) (E : Cx) : result Cx :=
  let N := h_size H in
  bind (if is_empty (h_local H k) then Ok E
        else bind (expected1_dz psi (h_local H k) (Z.of_nat k)) (fun x => Ok (Cadd E x))) (fun E =>
  if Nat.eqb (S k) N then
    if Nat.eqb k 0 || negb (h_periodic H) then Ok E else h_expected_site_dz psi H k 0 E
  else h_expected_site_dz psi H k (S k) E).

(** The real part is taken at the end ('return real(E)'). *)
Definition h_expected_dz (psi : @mps RScalar) (H : @hamiltonian CScalar) : result R :=
  bind (fold_left (fun r k => bind r (h_expected_step_dz psi H k)) (seq 0 (h_size H)) (Ok (mkC 0 0)))
       (fun E => Ok (Cre E)).
