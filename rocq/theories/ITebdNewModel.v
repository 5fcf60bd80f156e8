(** * Model of the constructor of infinite states from the tensor of a whole cell *)
From Coq Require Import Reals Bool List Arith ZArith Lia.
From Verif Require Import Scalar RScal Tensor Spec MpsModel CanonModel DecompModel ITebdModel.
Import ListNotations.

Section Model.
Context {RS : RScal}.
(** linalg::svd, FLAGS.get(MPS_TRUNCATION_TOLERANCE), linalg::eigs and linalg::eig_sym: see ITebdModel *)
Variable svd : tensor -> tensor * list R * tensor.
Variable flag : R.
Variable eigs : (tensor -> tensor) -> nat -> tensor -> tensor.
Variable eig_sym : tensor -> list R * tensor.

(** src/iTEBD/itebd_canonical.hpp:27-41: ensure_3_indices(G) *)
Definition ensure_3_indices (G : tensor) : result tensor :=
  if Nat.eqb (rank G) 3 then Ok G
  else if Nat.eqb (rank G) 4 then Ok (reshape G [dim G 0; dim G 1 * dim G 2; dim G 3])
  else Abort.

(** itebd_canonical.hpp:71-75: px(v, sense, G, a) *)
Definition px (v : tensor) (sense : Z) (G : tensor) (a : nat) : tensor :=
  reshape (prop_matrix (reshape v [a; a]) sense G G None) [a * a].

(** itebd_canonical.hpp:77-98: itebd_power_eig(G, sense); get_dimensions(&a, &i, &a) leaves the last dimension in a *)
Definition itebd_power_eig1 (G : tensor) (sense : Z) : tensor :=
  let a := dim G 2 in
  let v := tscale (rinj (/ INR a)%R) (reshape (eye a) [a * a]) in
  let v := eigs (fun v => px v sense G a) (a * a) v in
  let v := reshape v [a; a] in
  tscale (rinj (/ 2)%R) (tadd (transpose v) (tconj v)).

(** itebd_canonical.hpp:100-106: ortho_right(G, l, &X, &Xinv) *)
Definition ortho_right1 (G : tensor) (l : list R) : result (tensor * tensor) :=
  bind (ensure_3_indices G) (fun G => ortho_basis eig_sym (itebd_power_eig1 (scale G (rank G - 1) l) (-1))).

(** itebd_canonical.hpp:108-114: ortho_left(G, l, &Y, &Yinv) *)
Definition ortho_left1 (G : tensor) (l : list R) : result (tensor * tensor) :=
  bind (ensure_3_indices G) (fun G => ortho_basis eig_sym (itebd_power_eig1 (scale G 0 l) 1)).

(** itebd_canonical.hpp:116-144: canonical_form(G, l, &Gout, &lout, tolerance, max_dim) *)
Definition canonical_form1 (G : tensor) (l : list R) (tolerance : R) (max_dim : Z) : result (tensor * list R) :=
  bind (ortho_right1 G l) (fun '(X, Xinv) =>
  bind (ortho_left1 G l) (fun '(Y, Yinv) =>
  let G := fold G (rank G - 1) Yinv (rank Yinv - 1) in
  let G := fold Xinv (rank Xinv - 1) G 0 in
  let aux := fold Y 0 (scale X 0 l) 0 in
  bind (limited_svd svd flag aux tolerance max_dim) (fun '(U, lout, V) =>
  let G := fold V (rank V - 1) G 0 in
  Ok (fold G (rank G - 1) U 0, lout)))).

(** itebd_canonical.hpp:153-191: split_tensor(GAB, lAB, &A, &lA, &B, &lB, tolerance, max_dim, is_canonical), for a tensor
    of four indices (get_dimensions fails for others); the result is A, lA, B, lB.  A failed reshape and the division by
    zero are Abort. *)
Definition split_tensor_any (GAB : tensor) (lAB : list R) (tolerance : R) (max_dim : Z) (is_canonical : bool) : result (tensor * list R * tensor * list R) :=
  if negb (Nat.eqb (rank GAB) 4) then Abort else
  let a := dim GAB 0 in let i := dim GAB 1 in let j := dim GAB 2 in let b := dim GAB 3 in
  bind (if is_canonical then Ok (GAB, lAB) else canonical_form1 (reshape GAB [a; i * j; b]) lAB tolerance max_dim) (fun '(GAB, lAB) =>
  let a := length lAB in let b := a in
  let GAB := scale GAB 0 lAB in
  let GAB := scale GAB (rank GAB - 1) lAB in
  if negb (Nat.eqb (length (data GAB)) (a * i * (j * b))) then Abort else
  bind (limited_svd svd flag (reshape GAB [a * i; j * b]) tolerance max_dim) (fun '(pA, lA, pB) =>
    let pA := reshape pA [a; i; length lA] in
    if negb (Nat.eqb (length (data pB)) (length lA * i * b)) then Abort else
    let pB := reshape pB [length lA; i; b] in
    if existsb (fun x => if Req_EM_T x 0 then true else false) lAB then Abort else
    Ok (scale pA 0 (map Rinv lAB), lA, scale pB (rank pB - 1) (map Rinv lAB), lAB))).

(** itebd_canonical.hpp:193-201: iTEBD(AB, lAB, tolerance, max_dim) *)
Definition new_cell (AB : tensor) (lAB : list R) (tolerance : R) (max_dim : Z) : result itebd :=
  bind (split_tensor_any AB lAB tolerance max_dim false) (fun '(A, lA, B, lB) =>
  Ok (mkI A lA B lB (scale A (rank A - 1) lA) (scale B (rank B - 1) lB) false)).

(** apply_operator() calls the same function *)
Lemma split_tensor_same GAB lAB tolerance max_dim : rank GAB = 4 -> split_tensor_any GAB lAB tolerance max_dim true = split_tensor svd flag GAB lAB tolerance max_dim.
Proof. intros H. unfold split_tensor_any. rewrite H. reflexivity. Qed.
End Model.
