(** * Specification of nearest-neighbour Hamiltonians on a chain *)
From Coq Require Import Bool List Arith Lia.
From Verif Require Import Scalar Tensor Spec.
Import ListNotations.
Local Open Scope K_scope.

Section Spec.
Context {SC : Scalar}.

(** [A] acting on site [k] and [B] on site [k'], the identity on all others. *)
Definition two_site (k k' : nat) (A B : nat -> nat -> K) : list nat -> list nat -> K :=
  product_op 0 (fun m => if Nat.eqb m k then A else if Nat.eqb m k' then B else delta).

(** The interaction of sites k and k': a sum of products. *)
Definition bond_op (k k' : nat) (terms : list (tensor * tensor)) (is js : list nat) : K :=
  fold_right (fun p x => two_site k k' (mat (fst p)) (mat (snd p)) is js + x) 0 terms.

(** sum_k local_k + sum_k interaction_{k,k+1} (+ interaction_{N-1,0}): the operator of a chain of [n]
    sites with local terms [loc] and interactions [terms k] of sites k and k+1. *)
Definition chain_op (n : nat) (periodic : bool) (loc : nat -> tensor)
  (terms : nat -> list (tensor * tensor)) (is js : list nat) : K :=
  sum n (fun k => site_op k (mat (loc k)) is js) +
  sum (n - 1) (fun k => bond_op k (S k) (terms k) is js) +
  (if periodic && Nat.ltb 1 n then bond_op (n - 1) 0 (terms (n - 1)%nat) is js else 0).

(** A local term is a matrix of the dimension of its site, or missing. *)
Definition local_ok (d : nat) (t : tensor) : Prop := is_matrix t d d \/ t = empty.

(** All terms of a bond are pairs of matrices of the dimensions of the two sites. *)
Definition terms_ok (d d' : nat) (l : list (tensor * tensor)) : Prop :=
  Forall (fun p => is_matrix (fst p) d d /\ is_matrix (snd p) d' d') l.

(** Histories of a ConstantHamiltonian: what it should remember. *)
Inductive ham_call : Type :=
| SetLocal (k : nat) (H1 : tensor)
| SetInt (k : nat) (H1 H2 : tensor)
| AddInt (k : nat) (H1 H2 : tensor).

(** The last local term set on site k *)
Definition hist_local (k : nat) (l : list ham_call) : tensor :=
  fold_left (fun t x => match x with SetLocal k' H => if Nat.eqb k' k then H else t | _ => t end) l empty.

(** The products of bond k: those added since the last set, which counts itself. *)
Definition hist_terms (k : nat) (l : list ham_call) : list (tensor * tensor) :=
  fold_left (fun t x => match x with
    | SetInt k' A B => if Nat.eqb k' k then [(A, B)] else t
    | AddInt k' A B => if Nat.eqb k' k then t ++ [(A, B)] else t
    | _ => t end) l [].

(** A call with existing sites and matrices of the dimensions [ds] of those sites *)
Definition call_ok (N : nat) (ds : nat -> nat) (x : ham_call) : Prop :=
  match x with
  | SetLocal k H => (k < N)%nat /\ is_matrix H (ds k) (ds k)
  | SetInt k A B | AddInt k A B => (S k < N)%nat /\ is_matrix A (ds k) (ds k) /\ is_matrix B (ds (S k)) (ds (S k))
  end.

(** Site k was mentioned in a call *)
Definition touches (k : nat) (x : ham_call) : bool :=
  match x with
  | SetLocal k' _ => Nat.eqb k' k
  | SetInt k' _ _ | AddInt k' _ _ => Nat.eqb k' k || Nat.eqb (S k') k
  end.

End Spec.
