(** * Specification of the state with a given cell: tensor AB(a,i,j,b) and vector l(b) of the bond between cells *)
From Coq Require Import Reals List Arith Lia.
From Verif Require Import Scalar RScal Tensor Spec ITebdSpec2.
Import ListNotations.
Local Open Scope K_scope.

Section Spec.
Context {RS : RScal}.

(** Product of the matrices f(i1,j1) f(i2,j2) ... of n cells, D the size of the bond between cells *)
Fixpoint cells_of (D : nat) (f : nat -> nat -> nat -> nat -> K) (n : nat) (is : list nat) (a b : nat) : K :=
  match n, is with
  | O, _ => delta a b
  | S n, i :: j :: is => sum D (fun c => f i j a c * cells_of D f n is c b)
  | _, _ => 0
  end.

(** AB(a,i,j,b) l(b) *)
Definition cell_entry (AB : tensor) (l : list R) (i j a b : nat) : K := get AB [a; i; j; b] * rinj (nth b l 0%R).
(** The wave function of n cells closed into a ring: tr (AB l)(i1,j1) ... (AB l)(in,jn) *)
Definition cell_ring (AB : tensor) (l : list R) (n : nat) (is : list nat) : K :=
  sum (length l) (fun a => cells_of (length l) (cell_entry AB l) n is a a).

(** A cell with sites of dimension dA and dB *)
Definition is_cell (AB : tensor) (l : list R) (dA dB : nat) : Prop :=
  (0 < length l)%nat /\ (0 < dA)%nat /\ (0 < dB)%nat /\ dims AB = [length l; dA; dB; length l] /\ wf AB.

(** What the cell does to the overlaps of the states to its right, and to those of the states to its left *)
Definition cell_right_map (AB : tensor) (l : list R) (dA dB : nat) (P : nat -> nat -> K) (a a' : nat) : K :=
  sum (length l) (fun b => sum (length l) (fun b' =>
    sum dA (fun i => sum dB (fun j => cell_entry AB l i j a b * kconj (cell_entry AB l i j a' b'))) * P b b')).
Definition cell_left_map (AB : tensor) (l : list R) (dA dB : nat) (Q : nat -> nat -> K) (b b' : nat) : K :=
  sum (length l) (fun a => sum (length l) (fun a' =>
    sum dA (fun i => sum dB (fun j => kconj (rinj (nth a l 0%R) * get AB [a; i; j; b]) * (rinj (nth a' l 0%R) * get AB [a'; i; j; b']))) * Q a a')).
(** The state has a unique limit far from the ends, in which every state of the bond appears. *)
Definition cell_primitive (AB : tensor) (l : list R) (dA dB : nat) : Prop :=
  exists eta P Q, (0 < eta)%R /\ positive (length l) P /\ positive (length l) Q /\
    dominates (length l) (cell_right_map AB l dA dB) eta P /\ dominates (length l) (cell_left_map AB l dA dB) eta Q.
End Spec.
