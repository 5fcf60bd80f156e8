(** * Model of limited_svd, decompose_operator, split_interaction and of their users *)
From Coq Require Import Reals Bool List Arith ZArith Lia.
From Verif Require Import Scalar RScal Tensor Spec CanonModel HamModel.
Import ListNotations.

Section Model.
Context {RS : RScal}.

(** tensor::norm2 of a real vector *)
Definition norm2_list (s : list R) : R := sqrt (fold_right (fun x r => (x * x + r)%R) 0%R s).

(** linalg::block_svd(A,&U,&V,SVD_ECONOMIC), external; contract in CanonSpec.v *)
Variable svd : tensor -> tensor * list R * tensor.
(** FLAGS.get(MPS_TRUNCATION_TOLERANCE) *)
Variable flag : R.

(** src/tools/limited_svd_d.cc:25-36 and limited_svd_z.cc (same text): returns U, s, V.
    SIMPLIFICATION: the division by a zero norm (a vector of NaN in C++) is [Abort]; this includes the
    case c = 0, and an empty matrix, on which LAPACK fails. *)
Definition limited_svd (A : tensor) (tolerance : R) (max_dim : Z) : result (tensor * list R * tensor) :=
  if is_empty A then Abort else
  let '(U, s, V) := svd A in
  let c := where_to_truncate flag s tolerance max_dim in
  let U := change_dimension U 1 c in
  let V := change_dimension V 0 c in
  let s := firstn c s in
  let n := norm2_list s in
  if Req_EM_T n 0%R then Abort else Ok (U, map (fun x => (x / n)%R) s, V).

(** decompose_operator.cc:53 and split_interaction.cc:43: row index (r1,r2) and column index (c1,c2) of
    the operator are regrouped into (r1,c1) and (r2,c2). *)
Definition regroup (U0 : tensor) (d1 d2 : nat) : tensor :=
  reshape (permute (reshape U0 [d1; d2; d1; d2]) 1 2) [d1 * d1; d2 * d2].

(** src/quantum/decompose_operator.cc:36-65: do_decompose_operator(U0, &O1, &O2); the reshape to
    d1,d2,d1,d2 fails an assertion when the number of rows is not a square.
    [Nat.sqrt] is (index)sqrt((double)rows), exact for every size that fits in memory. *)
Definition decompose_operator (U0 : tensor) : result (tensor * tensor) :=
  let d1 := Nat.sqrt (dim U0 0) in
  let d2 := d1 in
  if negb (Nat.eqb (dim U0 0) (dim U0 1)) then Abort
  else if negb (Nat.eqb (d1 * d2) (dim U0 0)) then Abort
  else
    bind (limited_svd (regroup U0 d1 d2) MPS_DEFAULT_TOLERANCE 0) (fun '(O1, s, O2) =>
      let s := map sqrt s in
      let O1 := scale O1 1 s in
      let O2 := scale O2 0 s in
      Ok (reshape O1 [d1; d1; length s], reshape (transpose O2) [d2; d2; length s])).

(** O(range(), range(i)) reshaped to a square matrix: column i. *)
Definition column_matrix (O : tensor) (i d : nat) : tensor :=
  mk [d; d] (fun is => get O [nth 0 is 0 + d * nth 1 is 0; i]).
(** O(range(i), range()) reshaped to a square matrix: row i. *)
Definition row_matrix (O : tensor) (i d : nat) : tensor :=
  mk [d; d] (fun is => get O [i; nth 0 is 0 + d * nth 1 is 0]).

(** src/hamiltonian/split_interaction.cc:30-56: split_interaction(H12, &v1, &v2); tolerance 1e-13 *)
Definition split_interaction (H12 : tensor) : result (list tensor * list tensor) :=
  let d1 := Nat.sqrt (dim H12 0) in
  let d2 := d1 in
  if negb (Nat.eqb (length (dims H12)) 2) then Abort
  else if negb (Nat.eqb (d1 * d2 * (d1 * d2)) (length (data H12))) then Abort
  else
    bind (limited_svd (regroup H12 d1 d2) (/ 10 ^ 13)%R 0) (fun '(O1, s, O2) =>
      let n_op := length s in
      Ok (map (fun i => tscale (rinj (sqrt (nth i s 0%R))) (column_matrix O1 i d1)) (seq 0 n_op),
          map (fun i => tconj (tscale (rinj (sqrt (nth i s 0%R))) (row_matrix O2 i d2))) (seq 0 n_op))).

(** src/hamiltonian/hamiltonian_ti.cc:30-52: the constructor TIHamiltonian(N, H12, H1, periodic);
    split_interaction() is only called for a non-zero H12. *)
Definition ti_hamiltonian (N : nat) (H12 H1 : tensor) (periodic : bool) : result hamiltonian :=
  if is_empty H12 || is_zero_tensor H12 then ti_new N H12 H1 periodic (Nat.sqrt (dim H12 0)) [] []
  else bind (split_interaction H12) (fun '(v1, v2) => ti_new N H12 H1 periodic (Nat.sqrt (dim H12 0)) v1 v2).

(** tensor::squeeze: removes the indices of dimension one (at least one index is kept). *)
Definition squeeze (t : tensor) : tensor :=
  let ds := filter (fun d => negb (Nat.eqb d 1)) (dims t) in
  reshape t (match ds with [] => [1] | _ => ds end).

(** O(range(), range(), range(ndx)): one slice of the last index, out of range fails an assertion. *)
Definition slice3 (O : tensor) (ndx : nat) : result tensor :=
  if Nat.ltb ndx (dim O 2) then
    Ok (mk [dim O 0; dim O 1; 1] (fun is => get O [nth 0 is 0; nth 1 is 0; ndx]))
  else Abort.

(** src/hamiltonian/hamiltonian.cc:46-52, 54-60, 62-68: the methods a class derived from Hamiltonian
    inherits when it defines only interaction(k,t).  A tensor of rank three has no dimension 3. *)
Definition dimension (t : tensor) (i : nat) : result nat :=
  if Nat.ltb i (rank t) then Ok (dim t i) else Abort.
Definition default_left (interaction : tensor) (ndx : nat) : result tensor :=
  bind (decompose_operator interaction) (fun '(O1, O2) => bind (slice3 O1 ndx) (fun t => Ok (squeeze t))).
Definition default_right (interaction : tensor) (ndx : nat) : result tensor :=
  bind (decompose_operator interaction) (fun '(O1, O2) => bind (slice3 O2 ndx) (fun t => Ok (squeeze t))).
Definition default_depth (interaction : tensor) : result nat :=
  bind (decompose_operator interaction) (fun '(O1, O2) => dimension O1 3).

End Model.
