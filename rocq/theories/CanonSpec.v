(** * Specification of the decomposition routines: isometries, SVD, truncation *)
From Coq Require Import Reals Bool List Arith Lia.
From Verif Require Import Scalar RScal Tensor Spec.
Import ListNotations.
Local Open Scope K_scope.

Section Spec.
Context {RS : RScal}.

(** sum over a, i of conj(A(a,i,x)) A(a,i,y) = delta_xy *)
Definition left_isometry (A : tensor) : Prop :=
  forall x y, (x < dim A 2)%nat -> (y < dim A 2)%nat ->
    sum (dim A 0) (fun a => sum (dim A 1) (fun i => kconj (get A [a; i; x]) * get A [a; i; y]))
    = delta x y.

(** sum over i, b of A(x,i,b) conj(A(y,i,b)) = delta_xy *)
Definition right_isometry (A : tensor) : Prop :=
  forall x y, (x < dim A 0)%nat -> (y < dim A 0)%nat ->
    sum (dim A 1) (fun i => sum (dim A 2) (fun b => get A [x; i; b] * kconj (get A [y; i; b])))
    = delta x y.

(** A thin singular value decomposition A = U diag(s) V of an m x n matrix: orthonormal columns of
    U, orthonormal rows of V, non-negative singular values in decreasing order. *)
Definition is_svd (m n : nat) (A U : tensor) (s : list R) (V : tensor) : Prop :=
  let l := length s in
  (0 < l)%nat /\ (l <= Nat.min m n)%nat /\
  is_matrix U m l /\ is_matrix V l n /\
  (forall i, (i < l)%nat -> (0 <= nth i s 0)%R) /\
  (forall i j, (i <= j)%nat -> (j < l)%nat -> (nth j s 0 <= nth i s 0)%R) /\
  (forall x y, (x < l)%nat -> (y < l)%nat ->
     sum m (fun i => kconj (get U [i; x]) * get U [i; y]) = delta x y) /\
  (forall x y, (x < l)%nat -> (y < l)%nat ->
     sum n (fun j => get V [x; j] * kconj (get V [y; j])) = delta x y) /\
  (forall i j, (i < m)%nat -> (j < n)%nat ->
     get A [i; j] = sum l (fun k => get U [i; k] * rinj (nth k s 0%R) * get V [k; j])).

(** The contract assumed of linalg::svd / linalg::block_svd (external library). *)
Definition svd_contract (svd : tensor -> tensor * list R * tensor) : Prop :=
  forall m n A, is_matrix A m n -> (0 < m)%nat -> (0 < n)%nat ->
    let '(U, s, V) := svd A in is_svd m n A U s V.

(** Squared Frobenius norm of a tensor: sum of |element|^2. *)
Definition frob2 (t : tensor) : R := fold_right (fun x r => (kmod2 x + r)%R) 0%R (data t).

(** Sum of the squares of s[k], s[k+1], ... *)
Definition tail_weight (s : list R) (k : nat) : R :=
  fold_right (fun x r => (x * x + r)%R) 0%R (skipn k s).

(** Sum over configurations of |amplitude|^2 as a real number. *)
Definition weight (ds : list nat) (f : list nat -> K) : R := kre (inner ds f f).

(** Two site tensor a,i,j,b obtained by joining two neighbouring tensors. *)
Definition joined (A B : tensor) (a i j b : nat) : K :=
  sum (dim A 2) (fun c => get A [a; i; c] * get B [c; j; b]).

(** The amplitude of a state in which the two neighbouring sites after [p] are described by one
    tensor with elements [T a i j b]; [m] and [m'] are the bonds on its two sides. *)
Definition amp_two (p : mps) (m m' : nat) (T : nat -> nat -> nat -> nat -> K) (q : mps) (l : nat)
  (is : list nat) (i j : nat) (js : list nat) : K :=
  sum l (fun x => sum m (fun a => sum m' (fun b => chain p is x a * T a i j b * chain q js b x))).

End Spec.
