(** * Model of the external [tensor] library used by /repo (its source is not in the repository).

    Everything in this file is an ASSUMPTION about that library (see DESIGN.md, trusted base);
    the conventions are documented by their use in /repo, e.g. the index comments of
    src/mps/mps_prop_matrix.cc:23-106 and src/dmrg/qform.cc.
    A tensor is a list of dimensions and the flat list of its elements, first index fastest. *)
From Coq Require Import List Arith Lia.
From Verif Require Import Scalar.
Import ListNotations.

(** Outcome of code that may call [abort()], fail an [assert] or access out of range. *)
Inductive result (A : Type) : Type :=
| Ok : A -> result A
| Abort : result A.
Arguments Ok {A} _.
Arguments Abort {A}.

Definition bind {A B} (x : result A) (f : A -> result B) : result B :=
  match x with Ok a => f a | Abort => Abort end.

Section Tensor.
Context {SC : Scalar}.

(** tensor::Tensor<elt_t>: dimensions and column-major data. *)
Record tensor := mkT { dims : list nat; data : list K }.

(** Number of elements for given dimensions. *)
Definition nprod (ds : list nat) : nat := fold_right Nat.mul 1 ds.

(** Tensor::rank() *)
Definition rank (t : tensor) : nat := length (dims t).

(** Tensor::dimension(i) *)
Definition dim (t : tensor) (i : nat) : nat := nth i (dims t) 0.

(** Tensor::is_empty(): default constructed tensors have no elements. *)
Definition empty : tensor := mkT [] [].
Definition is_empty (t : tensor) : bool := match data t with [] => true | _ => false end.

(** Column-major position of a multi-index. *)
Fixpoint offset (ds is : list nat) : nat :=
  match ds, is with
  | d :: ds', i :: is' => i + d * offset ds' is'
  | _, _ => 0
  end.

(** Multi-index of a column-major position. *)
Fixpoint unravel (ds : list nat) (n : nat) : list nat :=
  match ds with
  | [] => []
  | d :: ds' => (n mod d) :: unravel ds' (n / d)
  end.

(** Element access t(i,j,...) *)
Definition get (t : tensor) (is : list nat) : K := nth (offset (dims t) is) (data t) 0%K.

(** Tabulation of a tensor from its elements. *)
Definition mk (ds : list nat) (f : list nat -> K) : tensor :=
  mkT ds (map (fun n => f (unravel ds n)) (seq 0 (nprod ds))).

(** reshape(t, ds): same data, new dimensions. *)
Definition reshape (t : tensor) (ds : list nat) : tensor := mkT ds (data t).

(** List helpers for indices *)
Fixpoint remove_nth {A} (k : nat) (l : list A) : list A :=
  match l, k with
  | [], _ => []
  | _ :: l', O => l'
  | x :: l', S k' => x :: remove_nth k' l'
  end.

Fixpoint insert_nth {A} (k : nat) (x : A) (l : list A) : list A :=
  match k, l with
  | O, _ => x :: l
  | S k', y :: l' => y :: insert_nth k' x l'
  | S k', [] => [x]
  end.

Fixpoint replace_nth {A} (k : nat) (x : A) (l : list A) : list A :=
  match l, k with
  | [], _ => []
  | _ :: l', O => x :: l'
  | y :: l', S k' => y :: replace_nth k' x l'
  end.

Definition swap_nth {A} (i j : nat) (d : A) (l : list A) : list A :=
  replace_nth i (nth j l d) (replace_nth j (nth i l d) l).

(** fold(a,i,b,j): contract index i of a with index j of b; remaining indices of a, then of b.
    A negative index counts from the end; in the model the caller passes the normalised one. *)
Definition fold (a : tensor) (i : nat) (b : tensor) (j : nat) : tensor :=
  mk (remove_nth i (dims a) ++ remove_nth j (dims b))
     (fun is =>
        let ra := rank a - 1 in
        sum (dim a i) (fun k =>
          (get a (insert_nth i k (firstn ra is)) * get b (insert_nth j k (skipn ra is)))%K)).

(** conj(t) *)
Definition tconj (t : tensor) : tensor := mkT (dims t) (map kconj (data t)).

(** foldc(a,i,b,j) = fold(conj(a),i,b,j) *)
Definition foldc (a : tensor) (i : nat) (b : tensor) (j : nat) : tensor := fold (tconj a) i b j.

(** foldin(a,i,b,j): contract index i of a with index j of b and put the remaining indices of a
    at the place of index j of b. *)
Definition foldin (a : tensor) (i : nat) (b : tensor) (j : nat) : tensor :=
  mk (firstn j (dims b) ++ remove_nth i (dims a) ++ skipn (S j) (dims b))
     (fun is =>
        let ra := rank a - 1 in
        let pre := firstn j is in
        let mid := firstn ra (skipn j is) in
        let post := skipn ra (skipn j is) in
        sum (dim a i) (fun k =>
          (get a (insert_nth i k mid) * get b (pre ++ k :: post))%K)).

(** permute(t,i,j): exchange two indices. *)
Definition permute (t : tensor) (i j : nat) : tensor :=
  mk (swap_nth i j 0 (dims t)) (fun is => get t (swap_nth i j 0 is)).

(** transpose of a matrix. *)
Definition transpose (t : tensor) : tensor := permute t 0 1.

(** adjoint of a matrix. *)
Definition adjoint (t : tensor) : tensor := tconj (transpose t).

(** trace(t,0,-1): sum over equal first and last index. *)
Definition trace_ends (t : tensor) : tensor :=
  mk (removelast (tl (dims t)))
     (fun is => sum (dim t 0) (fun a => get t (a :: is ++ [a]))).

(** mmult(a,b) = fold(a,-1,b,0) on matrices. *)
Definition mmult (a b : tensor) : tensor := fold a (rank a - 1) b 0.

(** Tensor::zeros(dims) *)
Definition zeros (ds : list nat) : tensor := mk ds (fun _ => 0%K).

(** Tensor::eye(n) *)
Definition eye (n : nat) : tensor :=
  mk [n; n] (fun is => delta (nth 0 is 0) (nth 1 is 0)).

(** Assignment of one element, t.at(i,j,..) = x *)
Definition set_elem (t : tensor) (is : list nat) (x : K) : tensor :=
  mkT (dims t) (replace_nth (offset (dims t) is) x (data t)).

(** Element-wise sum and scaling. *)
Definition tadd (a b : tensor) : tensor :=
  mkT (dims a) (map (fun p => (fst p + snd p)%K) (combine (data a) (data b))).
Definition tsub (a b : tensor) : tensor :=
  mkT (dims a) (map (fun p => (fst p - snd p)%K) (combine (data a) (data b))).
Definition tscale (c : K) (a : tensor) : tensor := mkT (dims a) (map (kmul c) (data a)).

(** kron(A,B): blocks A(i,j)*B, so the index of B is the fast one. *)
Definition kron (a b : tensor) : tensor :=
  mk [dim a 0 * dim b 0; dim a 1 * dim b 1]
     (fun is => let r := nth 0 is 0 in let c := nth 1 is 0 in
        (get a [r / dim b 0; c / dim b 1] * get b [r mod dim b 0; c mod dim b 1])%K).

(** kron2(A,B) = kron(B,A): the index of A is the fast one. *)
Definition kron2 (a b : tensor) : tensor := kron b a.

(** Well formed: as many elements as the dimensions say. *)
Definition wf (t : tensor) : Prop := length (data t) = nprod (dims t).

(** norm2(t) == 0, exact arithmetic: all elements vanish. *)
Definition is_zero_tensor (t : tensor) : bool := forallb (fun x => keqb x 0%K) (data t).

End Tensor.
