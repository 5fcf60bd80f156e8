(** * What the lattice properties C34-C38 talk about

    A configuration is a word: bit i says whether site i is occupied. *)
From Coq Require Import Bool List Arith ZArith Lia.
From Verif Require Import Scalar Tensor LatticeModel.
Import ListNotations.

(** Site i is occupied in configuration w. *)
Definition occ (w : Z) (i : nat) : bool := Z.testbit w (Z.of_nat i).

(** Number of occupied sites among the sites 0 .. n-1. *)
Definition ones (n : nat) (w : Z) : nat := length (filter (occ w) (seq 0 n)).

(** The list is strictly increasing. *)
Definition increasing (l : list Z) : Prop :=
  forall i j, (i < j < length l)%nat -> (nth i l 0 < nth j l 0)%Z.

(** Pascal's triangle. *)
Fixpoint binom (n k : nat) : nat :=
  match n, k with
  | _, O => 1
  | O, S _ => 0
  | S n, S k => binom n k + binom n (S k)
  end.

(** Number of particles strictly between two sites. *)
Definition between (a b : nat) (w : Z) : nat :=
  length (filter (fun k => Nat.ltb (Nat.min a b) k && occ w k) (seq 0 (Nat.max a b))).

(** The particle on site [from] can jump to site [to]: after removing it, [to] is empty. *)
Definition can_hop (to from : nat) (w : Z) : bool :=
  occ w from && negb (occ (Z.clearbit w (Z.of_nat from)) to).
(** The configuration after the jump. *)
Definition hopped (to from : nat) (w : Z) : Z :=
  Z.setbit (Z.clearbit w (Z.of_nat from)) (Z.of_nat to).

Section Spec.
Context {SC : Scalar}.
Local Open Scope K_scope.

(** The coefficient of the jump. *)
Definition hop_sign (knd : kind) (to from : nat) (w : Z) : K :=
  match knd with
  | HARD_CORE_BOSONS => 1
  | FERMIONS => if Nat.even (between to from w) then 1 else - (1)
  end.

(** <w'| a+_to a_from |w> *)
Definition hop_element (knd : kind) (to from : nat) (w' w : Z) : K :=
  if can_hop to from w && Z.eqb w' (hopped to from w) then hop_sign knd to from w else 0.

(** <w'| n_i n_j |w> *)
Definition int_element (i j : nat) (w' w : Z) : K :=
  if Z.eqb w' w && (occ w i && occ w j) then 1 else 0.

(** Element (r, c) of a sparse matrix. *)
Definition selem (A : sparse) (r c : nat) : K :=
  fold_right (fun e s => (if Nat.eqb (fst (fst e)) r && Nat.eqb (snd (fst e)) c then snd e else 0) + s)
             0 (sp_entries A).

(** The matrix has the given sides and all its entries are inside. *)
Definition sp_shape (A : sparse) (m n : nat) : Prop :=
  sp_rows A = m /\ sp_cols A = n /\
  Forall (fun e => (fst (fst e) < m)%nat /\ (snd (fst e) < n)%nat) (sp_entries A).

(** Configuration number r of the lattice. *)
Definition conf (L : lattice) (r : nat) : Z := nth r (configurations L) 0%Z.

(** <w'| sum_ij (J_ij - delta_ij mu) a+_i a_j + U_ij n_i n_j |w> *)
Definition ham_element (n m : nat) (J U : tensor) (mu : K) (knd : kind) (w' w : Z) : K :=
  sum n (fun i => sum m (fun j =>
    (get J [i; j] - (if Nat.eqb i j then mu else 0)) * hop_element knd i j w' w
    + get U [i; j] * int_element i j w' w)).
End Spec.
