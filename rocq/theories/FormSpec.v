(** * Specification of the linear and quadratic forms: what the environments must represent *)
From Coq Require Import Bool List Arith ZArith Lia.
From Verif Require Import Scalar Tensor Spec MpsModel MpoSpec FormModel.
Import ListNotations.
Local Open Scope K_scope.

Section Spec.
Context {SC : Scalar}.

(** <sum_n w_n bra_n | ket> *)
Definition overlap (ws : list K) (bras : list mps) (ket : mps) : K :=
  sum (length bras) (fun n => kconj (nth n ws 0) * inner (pdims ket) (amp (nth n bras [])) (amp ket)).

(** Bras a linear form can be made of: at least one, open, all with the same physical dimensions; one
    weight for each. *)
Definition good_bras (ws : list K) (bras : list mps) (ds : list nat) : Prop :=
  bras <> [] /\ length ws = length bras /\ forall b, In b bras -> open_mps b /\ pdims b = ds.

(** Every way of obtaining a linear form: constructor, then any sequence of propagate_right(T) and
    propagate_left(T).  [p] and [q] are the tensors of the ket on the left and on the right of the
    current site, as last given.  A tensor must fit the bond it is attached to and have the physical
    dimension of the site; the bond on its other side is free. *)
Inductive lf_history (ws : list K) (bras : list mps) (ds : list nat) : lform -> mps -> mps -> Prop :=
| lfh_new ket s f : open_mps ket -> pdims ket = ds -> lform_new ws bras ket (Z.of_nat s) = Ok f ->
    lf_history ws bras ds f (firstn s ket) (skipn (S s) ket)
| lfh_right f p B q T c : lf_history ws bras ds f p (B :: q) ->
    linked 1 (p ++ [T]) c -> dim T 1 = nth (length p) ds 0%nat ->
    lf_history ws bras ds (lf_propagate_right f T) (p ++ [T]) q
| lfh_right_end f p T : lf_history ws bras ds f p [] -> lf_history ws bras ds (lf_propagate_right f T) p []
| lfh_left f p B q T c : lf_history ws bras ds f (p ++ [B]) q ->
    (0 < c)%nat -> linked c (T :: q) 1 -> dim T 1 = nth (length p + 1) ds 0%nat ->
    lf_history ws bras ds (lf_propagate_left f T) p (T :: q)
| lfh_left_end f q T : lf_history ws bras ds f [] q -> lf_history ws bras ds (lf_propagate_left f T) [] q.

(** <bra| O |ket> *)
Definition sandwich (bra : mps) (O : mpo) (ket : mps) : K :=
  sumcfg (pdims bra) (fun is => sumcfg (pdims ket) (fun js =>
    kconj (amp bra is) * opelem O is js * amp ket js)).

(** Every way of obtaining a quadratic form; (p, q) and (p', q') are the tensors of bra and ket around
    the current site. *)
Inductive qf_history (O : mpo) : qform -> mps -> mps -> mps -> mps -> Prop :=
| qfh_new bra ket s f : open_mps bra -> open_mps ket -> pdims bra = odims O -> pdims ket = idims O ->
    qform_new O bra ket (Z.of_nat s) = Ok f ->
    qf_history O f (firstn s bra) (skipn (S s) bra) (firstn s ket) (skipn (S s) ket)
| qfh_right f p B q p' B' q' S T c c' : qf_history O f p (B :: q) p' (B' :: q') ->
    linked 1 (p ++ [S]) c -> linked 1 (p' ++ [T]) c' ->
    dim S 1 = nth (length p) (odims O) 0%nat -> dim T 1 = nth (length p) (idims O) 0%nat ->
    qf_history O (qf_propagate_right f S T) (p ++ [S]) q (p' ++ [T]) q'
| qfh_right_end f p p' S T : qf_history O f p [] p' [] -> qf_history O (qf_propagate_right f S T) p [] p' []
| qfh_left f p B q p' B' q' S T c c' : qf_history O f (p ++ [B]) q (p' ++ [B']) q' ->
    (0 < c)%nat -> (0 < c')%nat -> linked c (S :: q) 1 -> linked c' (T :: q') 1 ->
    dim S 1 = nth (length p + 1) (odims O) 0%nat -> dim T 1 = nth (length p + 1) (idims O) 0%nat ->
    qf_history O (qf_propagate_left f S T) p (S :: q) p' (T :: q')
| qfh_left_end f q q' S T : qf_history O f [] q [] q' -> qf_history O (qf_propagate_left f S T) [] q [] q'.

(** Elements of a tensor, where the empty tensor stands for zero. *)
Definition elem (t : tensor) (is : list nat) : K := if is_empty t then 0 else get t is.

(** conj(S)^T M T, with S and T taken as vectors of their elements (column major, as reshape() does) *)
Definition msandwich (S M T : tensor) : K :=
  sum (nprod (dims S)) (fun r => sum (nprod (dims T)) (fun c => kconj (nth r (data S) 0) * elem M [r; c] * nth c (data T) 0)).

End Spec.
