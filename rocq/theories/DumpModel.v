(** * Model of operator<< for operators (src/mpo/mpo_dump.cc) *)
From Coq Require Import List Arith Lia.
From Verif Require Import Scalar Tensor Spec MpsModel MpoSpec MpoModel.
Import ListNotations.

Section Model.
Context {SC : Scalar}.

(** One entry of the listing: the numbers n, i, j in the header "NAME[n](i,:,:,j)=" and the matrix printed after it.
    SIMPLIFICATION: the text of an entry (the name of the class, the layout of matrix_form, an external function) is not
    modelled. *)
Definition entry := (nat * nat * nat * tensor)%type.

(** mpo_dump.cc:35-37: reshape(P(range(i),range(),range(),range(j)), r, c) *)
Definition dump_block (P : tensor) (i j : nat) : tensor :=
  reshape (mk [1; dim P 1; dim P 2; 1] (fun x => get P [i; nth 1 x 0; nth 2 x 0; j])) [dim P 1; dim P 2].

(** mpo_dump.cc:30-40: one tensor.  dimension(3) and P(...) assert that there are four indices.
    SIMPLIFICATION: a tensor with more than four indices is rejected even if there is no block to print. *)
Definition dump_tensor (n : nat) (P : tensor) : result (list entry) :=
  if Nat.eqb (rank P) 4 then
    Ok (flat_map (fun i => map (fun j => (n, i, j, dump_block P i j)) (seq 0 (dim P 3))) (seq 0 (dim P 0)))
  else Abort.

(** mpo_dump.cc:26-43: all the tensors, from the n-th one on *)
Fixpoint dump_from (n : nat) (H : list tensor) : result (list entry) :=
  match H with
  | [] => Ok []
  | P :: H => bind (dump_tensor n P) (fun l => bind (dump_from (S n) H) (fun l' => Ok (l ++ l')))
  end.
Definition dump (H : mpo) : result (list entry) := dump_from 0 H.
End Model.
