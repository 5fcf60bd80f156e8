(** * Model of sparse_1d_hamiltonian and sparse_hamiltonian

    SIMPLIFICATION: a sparse matrix is the tensor of all its elements. *)
From Coq Require Import Bool List Arith ZArith Lia.
From Verif Require Import Scalar Tensor Spec HamModel.
Import ListNotations.

Section Model.
Context {SC : Scalar}.

(** Sum of two sparse matrices, which must have the same dimensions. *)
Definition sadd (a b : tensor) : result tensor :=
  if list_eq_dec Nat.eq_dec (dims a) (dims b) then Ok (tadd a b) else Abort.

(** decompose_operator (DecompModel.v) *)
Variable decomp : tensor -> result (tensor * tensor).

(** The loop over the terms of the decomposition, sparse_1d_hamiltonian.cc:53-58 and
    sparse_1d_hamiltonian_many.cc:75-80.  squeeze() of a slice d x d x 1 is taken to be d x d. *)
Definition slice (O : tensor) (i : nat) : tensor :=
  mk [dim O 0; dim O 1] (fun is => get O [nth 0 is 0; nth 1 is 0; i]).
Definition add_wrap (H : tensor) (aux : tensor) (output : tensor) : result tensor :=
  bind (decomp H) (fun '(O1, O2) =>
    fold_left (fun r i => bind r (fun output => sadd output (kron (slice O2 i) (kron aux (slice O1 i)))))
      (seq 0 (dim O1 2)) (Ok output)).

(** src/quantum/sparse_1d_hamiltonian.cc:30-69: do_pair_Hamiltonian(H12, H1, N, periodic).
    length() of a sparse matrix is the number of stored elements, zero for a zero matrix. *)
Definition sparse_length_pos (H : tensor) : bool := negb (is_empty H) && negb (is_zero_tensor H).

Definition pair_hamiltonian (H12 H1 : tensor) (N : nat) (periodic : bool) : result tensor :=
  if is_empty H12 && is_empty H1 then Abort else
  let d2 := dim H12 0 in
  let d := Nat.max (dim H1 0) (Nat.sqrt d2) in
  let D := d ^ N in
  let output := zeros [D; D] in
  bind (if sparse_length_pos H12 then
          bind (fold_left (fun r k => bind r (fun output =>
                  sadd output (kron (eye (d ^ (k - 1))) (kron H12 (eye (d ^ (N - k - 1)))))))
                (seq 1 (N - 1)) (Ok output)) (fun output =>
          if periodic && Nat.ltb 1 N then add_wrap H12 (eye (d ^ (N - 2))) output else Ok output)
        else Ok output) (fun output =>
  if sparse_length_pos H1 then
    fold_left (fun r k => bind r (fun output =>
        sadd output (kron (eye (d ^ k)) (kron H1 (eye (d ^ (N - k - 1)))))))
      (seq 0 N) (Ok output)
  else Ok output).

(** src/quantum/sparse_1d_hamiltonian_many.cc:36-49: the dimension of a site.  Reading past the end of a
    vector is a failure. *)
Definition elem (l : list tensor) (k : nat) : result tensor :=
  match nth_error l k with Some t => Ok t | None => Abort end.

Definition guess_dim (H12 H1 : list tensor) (k : nat) : result nat :=
  bind (elem H1 k) (fun h => if negb (is_empty h) then Ok (dim h 0)
    else bind (elem H12 k) (fun h => if negb (is_empty h) then Ok (Nat.sqrt (dim h 0)) else Abort)).

Definition guess_dims (H12 H1 : list tensor) (N : nat) : result (list nat) :=
  fold_left (fun r k => bind r (fun d => bind (guess_dim H12 H1 k) (fun x => Ok (d ++ [x])))) (seq 0 N) (Ok []).

(** lines 54-68: Dleft[k], Dright[k] *)
Definition Dleft (d : list nat) (k : nat) : nat := nprod (firstn k d).
Definition Dright (d : list nat) (k : nat) : nat := nprod (skipn (S k) d).

(** src/quantum/sparse_1d_hamiltonian_many.cc:24-89: do_sparse_1d_hamiltonian(H12[], H1[], periodic);
    Dleft.at(0) fails when there are no sites. *)
Definition sparse_1d_hamiltonian_many (H12 H1 : list tensor) (periodic : bool) : result tensor :=
  let N := Nat.max (length H12) (length H1) in
  if Nat.eqb N 0 then Abort else
  bind (guess_dims H12 H1 N) (fun d =>
  let D := nprod d in
  let output := zeros [D; D] in
  bind (fold_left (fun r k => bind r (fun output => bind (elem H12 (k - 1)) (fun H =>
          if negb (is_empty H) then sadd output (kron (eye (Dright d k)) (kron H (eye (Dleft d (k - 1)))))
          else Ok output)))
        (seq 1 (N - 1)) (Ok output)) (fun output =>
  bind (if periodic && Nat.ltb 1 N then
          bind (elem H12 (N - 1)) (fun H => add_wrap H (eye (Dleft d (N - 1) / nth 0 d 0)) output)
        else Ok output) (fun output =>
  fold_left (fun r k => bind r (fun output => bind (elem H1 k) (fun H =>
      if negb (is_empty H) then sadd output (kron (eye (Dright d k)) (kron H (eye (Dleft d k))))
      else Ok output)))
    (seq 0 N) (Ok output)))).

(** src/hamiltonian/sparse_hamiltonian.cc:25-39: sparse_hamiltonian(H, t) *)
Definition sparse_hamiltonian (H : hamiltonian) : result tensor :=
  let N := h_size H in
  let periodic := h_periodic H in
  let H1 := map (h_local H) (seq 0 N) in
  let H12 := map (fun k => if (Nat.ltb k (N - 1) || periodic) && negb (Nat.eqb (h_depth H k) 0)
                           then h_interaction H k else empty) (seq 0 N) in
  sparse_1d_hamiltonian_many H12 H1 periodic.

End Model.
