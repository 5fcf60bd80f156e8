(** * Specification: what matrix product states and operators mean.

    Nothing here refers to the contraction routines of the model.  Formula of
    include/mps/mps.h:36-44: the amplitude of |i_1..i_N> is the sum over all bond indices of
    A^{i_1}_{a_1 a_2} A^{i_2}_{a_2 a_3} ... A^{i_N}_{a_N a_1}. *)
From Coq Require Import Bool List Arith Lia.
From Verif Require Import Scalar Tensor.
Import ListNotations.
Local Open Scope K_scope.

Section Spec.
Context {SC : Scalar}.

Definition mps := list tensor.

(** Sum over the inner bond indices of a product of matrices, from bond value [a] to [b]. *)
Fixpoint chain (psi : mps) (is : list nat) (a b : nat) : K :=
  match psi, is with
  | [], [] => delta a b
  | A :: psi', i :: is' => sum (dim A 2) (fun c => get A [a; i; c] * chain psi' is' c b)
  | _, _ => 0
  end.

(** Left bond of the first site *)
Definition left_bond (psi : mps) : nat := match psi with [] => 0%nat | A :: _ => dim A 0 end.

(** Amplitude of a configuration; the outer bonds are traced. *)
Definition amp (psi : mps) (is : list nat) : K :=
  sum (left_bond psi) (fun a => chain psi is a a).

(** Physical dimensions *)
Definition pdims (psi : mps) : list nat := map (fun A => dim A 1) psi.

(** Tensors of rank three with non-zero dimensions and matching bonds, starting at bond [l]
    and ending at bond [r]. *)
Fixpoint linked (l : nat) (psi : mps) (r : nat) : Prop :=
  match psi with
  | [] => l = r
  | A :: psi' => exists d c, dims A = [l; d; c] /\ wf A /\ (0 < d)%nat /\ (0 < c)%nat /\
                             linked c psi' r
  end.

(** A well formed state: non-empty, matching bonds, outer bonds equal (one if open). *)
Definition wf_mps (psi : mps) : Prop :=
  psi <> [] /\ exists D, (0 < D)%nat /\ linked D psi D.

(** Open boundary conditions: outer bonds of dimension one. *)
Definition open_mps (psi : mps) : Prop := psi <> [] /\ linked 1 psi 1.

(** Inner product of two functions of the configuration. *)
Definition inner (ds : list nat) (f g : list nat -> K) : K :=
  sumcfg ds (fun is => kconj (f is) * g is).

(** Matrix element <f| M |g> of an operator given by its elements. *)
Definition melem (ds : list nat) (f : list nat -> K) (M : list nat -> list nat -> K)
  (g : list nat -> K) : K :=
  sumcfg ds (fun is => sumcfg ds (fun js => kconj (f is) * M is js * g js)).

(** The identity operator *)
Fixpoint id_op (is js : list nat) : K :=
  match is, js with
  | [], [] => 1
  | i :: is', j :: js' => delta i j * id_op is' js'
  | _, _ => 0
  end.

(** The operator [O] acting on site [k] and the identity on all others. *)
Fixpoint site_op (k : nat) (O : nat -> nat -> K) (is js : list nat) : K :=
  match k, is, js with
  | 0%nat, i :: is', j :: js' => O i j * id_op is' js'
  | S k', i :: is', j :: js' => delta i j * site_op k' O is' js'
  | _, _, _ => 0
  end.

(** Product of two operators given by their elements: (M N)(i,j) = sum_k M(i,k) N(k,j). *)
Definition op_mul (ds : list nat) (M N : list nat -> list nat -> K) (is js : list nat) : K :=
  sumcfg ds (fun ks => M is ks * N ks js).

(** Elements of a matrix given as a rank two tensor *)
Definition mat (O : tensor) (i j : nat) : K := get O [i; j].

(** A d x d matrix *)
Definition is_matrix (O : tensor) (m n : nat) : Prop := dims O = [m; n] /\ wf O.

End Spec.

Section SpecMore.
Context {SC : Scalar}.
Local Open Scope K_scope.

(** A product of site operators, [f k] acting on site [s+k]. *)
Fixpoint product_op (s : nat) (f : nat -> nat -> nat -> K) (is js : list nat) : K :=
  match is, js with
  | [], [] => 1
  | i :: is', j :: js' => f s i j * product_op (S s) f is' js'
  | _, _ => 0
  end.

(** A operator on site i, string S on the sites strictly between i and j, B on site j (i < j). *)
Definition string_op (i j : nat) (A S B : nat -> nat -> K) : list nat -> list nat -> K :=
  product_op 0 (fun k => if Nat.eqb k i then A else if Nat.eqb k j then B
                         else if Nat.ltb i k && Nat.ltb k j then S else delta).

(** Reduced density matrix of site k: sum over the other sites of psi(..i..) conj(psi(..j..)). *)
Definition reduced_dm (psi : mps) (k i j : nat) : K :=
  sumcfg (remove_nth k (pdims psi)) (fun rest =>
    amp psi (insert_nth k i rest) * kconj (amp psi (insert_nth k j rest))).

End SpecMore.

Section SpecStates.
Context {SC : Scalar}.
Local Open Scope K_scope.

(** GHZ state: [c] on the all-zeros and all-ones configurations, zero elsewhere. *)
Definition ghz_amp (c : K) (is : list nat) : K :=
  if forallb (Nat.eqb 0%nat) is || forallb (Nat.eqb 1%nat) is then c else 0.

(** Number of neighbouring pairs of ones. *)
Fixpoint pairs11 (is : list nat) : nat :=
  match is with
  | i :: ((j :: _) as is') =>
      ((if Nat.eqb i 1 && Nat.eqb j 1 then 1 else 0) + pairs11 is')%nat
  | _ => 0%nat
  end.

(** Cluster state: all configurations have amplitude +-v^L, the sign counts neighbouring 11 pairs. *)
Definition cluster_amp (v : K) (is : list nat) : K :=
  kpow v (length is) * (if Nat.even (pairs11 is) then 1 else kopp 1).

(** Product state amplitude *)
Definition product_amp (vs : list tensor) (is : list nat) : K :=
  kprod (map (fun p => get (fst p) [snd p]) (combine vs is)).

End SpecStates.
