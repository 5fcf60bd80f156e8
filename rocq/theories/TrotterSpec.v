(** * Specification of the Trotter decomposition of a nearest-neighbour evolution *)
From Coq Require Import Reals Bool List Arith Lia.
From Verif Require Import Scalar Tensor Spec SparseSpec.
Import ListNotations.
Local Open Scope K_scope.

(** The blocks of a layer on sites p, ..., p+n-1: pairs (k,k+1), and single sites at the ends.  [b] says
    whether a pair starts at p.  The even layer is [blocks true 0 N], the odd one [blocks false 0 N].
    An element (k, true) is the pair (k,k+1), (k, false) the single site k. *)
Fixpoint blocks (b : bool) (p n : nat) : list (nat * bool) :=
  match n with
  | 0%nat => []
  | 1%nat => [(p, false)]
  | S ((S n'') as n') => if b then (p, true) :: blocks true (S (S p)) n'' else (p, false) :: blocks true (S p) n'
  end.

Section Spec.
Context {SC : Scalar}.

(** The matrix [M] acting on a block, the identity on the other sites. *)
Definition block_op (ds : list nat) (x : nat * bool) (M : nat -> nat -> K) : list nat -> list nat -> K :=
  if snd x then pair_op (fst x) ds M else site_op (fst x) M.

(** Sum over the blocks of a layer of the matrices [G x] *)
Definition layer_sum (b : bool) (ds : list nat) (G : nat * bool -> nat -> nat -> K) (is js : list nat) : K :=
  fold_right (fun x s => block_op ds x (G x) is js + s) 0 (blocks b 0 (length ds)).

(** Tensor product of the matrices [U k] of the blocks of a layer that starts at site p; the index of a pair is i_k + d_k i_{k+1}. *)
Fixpoint layer_op (b : bool) (p : nat) (ds : list nat) (U : nat -> nat -> nat -> K) (is js : list nat) : K :=
  match ds, is, js with
  | [], [], [] => 1
  | [_], [i], [j] => U p i j
  | d :: ((_ :: ds'') as ds'), i :: ((i' :: is'') as is'), j :: ((j' :: js'') as js') =>
      if b then U p (i + d * i')%nat (j + d * j')%nat * layer_op true (S (S p)) ds'' U is'' js''
      else U p i j * layer_op true (S p) ds' U is' js'
  | _, _, _ => 0
  end.

(** The dimension of the block that starts at site k *)
Definition block_dim (ds : list nat) (x : nat * bool) : nat :=
  if snd x then (nth (fst x) ds 0 * nth (S (fst x)) ds 0)%nat else nth (fst x) ds 0%nat.

(** An operator applied to a vector *)
Definition act (ds : list nat) (M : list nat -> list nat -> K) (f : list nat -> K) (is : list nat) : K :=
  sumcfg ds (fun js => M is js * f js).

End Spec.

(** ** Order of a product of exponentials.
    A product exp(c_1 X_1 t) ... exp(c_m X_m t), X_i one of A, B, is a list of pairs (c_i, X_i) with X_i = true
    for A.  Its expansion in powers of t is a sum over words in A and B; the coefficient of a word is the sum
    over all ways to cut the word into m pieces, the i-th one a power X_i^n with coefficient c_i^n/n!. *)
Local Open Scope R_scope.
(** [run x w]: the number of leading letters x of w *)
Fixpoint run (x : bool) (w : list bool) : nat :=
  match w with [] => 0%nat | y :: w' => if Bool.eqb x y then S (run x w') else 0%nat end.
Fixpoint word_coeff (l : list (R * bool)) (w : list bool) : R :=
  match l with
  | [] => match w with [] => 1 | _ => 0 end
  | (c, x) :: l' => fold_right (fun n s => c ^ n / INR (fact n) * word_coeff l' (skipn n w) + s) 0 (seq 0 (S (run x w)))
  end.
(** The product agrees with exp((A+B) t), in which every word of length n has coefficient 1/n!, for all words
    of length at most [m] up to [eps]. *)
Definition accurate (l : list (R * bool)) (m : nat) (eps : R) : Prop :=
  forall w, (length w <= m)%nat -> Rabs (word_coeff l w - / INR (fact (length w))) <= eps.
