(** * Specification of chain operators given by two-site matrices *)
From Coq Require Import Bool List Arith Lia.
From Verif Require Import Scalar Tensor Spec.
Import ListNotations.
Local Open Scope K_scope.

Section Spec.
Context {SC : Scalar}.

(** The two-site matrix [M] acting on sites k and k+1 (row index i_k + d_k i_{k+1}), the identity on all
    others. *)
Fixpoint pair_op (k : nat) (ds : list nat) (M : nat -> nat -> K) (is js : list nat) : K :=
  match k, ds, is, js with
  | 0%nat, d :: _, i :: i' :: is', j :: j' :: js' => M (i + d * i')%nat (j + d * j')%nat * id_op is' js'
  | S k', _ :: ds', i :: is', j :: js' => delta i j * pair_op k' ds' M is' js'
  | _, _, _, _ => 0
  end.

(** [M] acting on the first and the last site, row index i_first + d i_last. *)
Definition wrap_op (d : nat) (M : nat -> nat -> K) (is js : list nat) : K :=
  match is, js with
  | i :: is', j :: js' =>
      M (i + d * last is' 0)%nat (j + d * last js' 0)%nat * id_op (removelast is') (removelast js')
  | _, _ => 0
  end.

(** sum_k M_{k,k+1} + sum_k O_k on the sites of dimensions [ds]. *)
Definition pair_chain (ds : list nat) (M O : nat -> tensor) (is js : list nat) : K :=
  sum (length ds - 1) (fun k => pair_op k ds (mat (M k)) is js) +
  sum (length ds) (fun k => site_op k (mat (O k)) is js).

(** A matrix with the given dimensions or nothing *)
Definition matrix_or_empty (t : tensor) (n : nat) : Prop := is_matrix t n n \/ t = empty.

(** The lists of interactions and of local terms of a chain of sites of dimensions [ds], from which every
    dimension can be read: on each site there is a local term, or an interaction with a next site of the
    same dimension. *)
Definition guessable (ds : list nat) (H12 H1 : list tensor) : Prop :=
  forall k, (k < length ds)%nat ->
    is_matrix (nth k H1 empty) (nth k ds 0%nat) (nth k ds 0%nat) \/
    (nth k H1 empty = empty /\ is_matrix (nth k H12 empty) (nth k ds 0 * nth k ds 0)%nat (nth k ds 0 * nth k ds 0)%nat).

Definition chain_lists (ds : list nat) (H12 H1 : list tensor) : Prop :=
  (0 < length ds)%nat /\ (forall k, (k < length ds)%nat -> (0 < nth k ds 0)%nat) /\
  length H1 = length ds /\ (length ds - 1 <= length H12 <= length ds)%nat /\
  guessable ds H12 H1 /\
  (forall k, (S k < length ds)%nat -> matrix_or_empty (nth k H12 empty) (nth k ds 0 * nth (S k) ds 0)%nat).

(** The interaction and the local term of a translationally invariant chain; one of them may be missing. *)
Definition ti_data (d : nat) (H12 H1 : tensor) : Prop :=
  (0 < d)%nat /\ matrix_or_empty H12 (d * d)%nat /\ matrix_or_empty H1 d /\ ~ (H12 = empty /\ H1 = empty).

End Spec.
