(** * Model of src/mpo: construction and algebra of matrix product operators *)
From Coq Require Import Bool List Arith ZArith Lia.
From Verif Require Import Scalar Tensor Spec MpsModel MpoSpec.
Import ListNotations.

Section Model.
Context {SC : Scalar}.

(** tensor::change_dimension(t, axis, n): pad with zeros (or cut) one dimension.  External library. *)
Definition change_dimension (t : tensor) (axis n : nat) : tensor :=
  mk (replace_nth axis n (dims t))
     (fun is => if Nat.ltb (nth axis is 0) (dim t axis) then get t is else 0%K).

(** P.at(range(a),range(),range(),range(c)) = H.  SIMPLIFICATION: H is given as a matrix; the code
    reshapes it to (1,d,d,1) or relies on the assignment doing so. *)
Definition set_block (P : tensor) (a c : nat) (H : tensor) : tensor :=
  mk (dims P) (fun is =>
    if Nat.eqb (nth 0 is 0) a && Nat.eqb (nth 3 is 0) c then get H [nth 1 is 0; nth 2 is 0]
    else get P is).

(** P.at(a,:,:,c) = P(a,:,:,c) + H *)
Definition add_block (P : tensor) (a c : nat) (H : tensor) : tensor :=
  mk (dims P) (fun is =>
    if Nat.eqb (nth 0 is 0) a && Nat.eqb (nth 3 is 0) c
    then (get P is + get H [nth 1 is 0%nat; nth 2 is 0%nat])%K
    else get P is).

(** src/mpo/rmpo.cc:44-74, cmpo.cc: clear(); aborts when there are fewer than two sites. *)
Definition clear_site (n i d : nat) : tensor :=
  let Id := eye d in
  if Nat.eqb i 0 then set_block (zeros [1; d; d; 2]) 0 0 Id
  else if Nat.ltb (i + 1) n then set_block (set_block (zeros [2; d; d; 2]) 1 1 Id) 0 0 Id
  else set_block (zeros [2; d; d; 1]) 1 0 Id.

Definition new_mpo (ds : list nat) : result mpo :=
  let n := length ds in
  if Nat.ltb n 2 then Abort
  else Ok (map (fun i => clear_site n i (nth i ds 0)) (seq 0 n)).

(** rows() and columns() of a matrix argument; a non-matrix is rejected. *)
Definition is_square (H : tensor) : bool :=
  Nat.eqb (rank H) 2 && Nat.eqb (dim H 0) (dim H 1).

(** src/mpo/mpo_add_term.cc:41-77: do_add_local_term() *)
Definition add_local_term (O : mpo) (H : tensor) (i : Z) : result mpo :=
  if (i <? 0)%Z || (Z.of_nat (length O) <=? i)%Z then Abort
  else if negb (is_square H) then Abort
  else
    let i := Z.to_nat i in
    let Pi := site O i in
    if negb (Nat.eqb (dim Pi 1) (dim H 0)) then Abort
    else
      let Pi' := if Nat.eqb (dim Pi 0) 1 then add_block Pi 0 1 H
                 else if Nat.eqb (dim Pi 3) 1 then add_block Pi 0 0 H
                 else add_block Pi 0 1 H in
      Ok (replace_nth i Pi' O).

(** src/mpo/mpo_add_term.cc:79-128: do_add_interaction(), nearest neighbours *)
Definition add_interaction (O : mpo) (Hi : tensor) (i : Z) (Hj : tensor) : result mpo :=
  if (i <? 0)%Z then Abort
  else if (Z.of_nat (length O) <=? i + 1)%Z then Abort
  else if negb (is_square Hi) then Abort
  else if negb (is_square Hj) then Abort
  else
    let i := Z.to_nat i in
    let Pi := site O i in
    let Pj := site O (i + 1) in
    let b := dim Pi 3 + 1 in
    let Pi := change_dimension Pi 3 b in
    let Pj := change_dimension Pj 0 b in
    if negb (Nat.eqb (dim Pi 1) (dim Hi 0)) then Abort
    else if negb (Nat.eqb (dim Pj 1) (dim Hj 0)) then Abort
    else
      let Pi := set_block Pi 0 (b - 1) Hi in
      let Pj := if Nat.eqb (i + 2) (length O) then set_block Pj (b - 1) 0 Hj
                else set_block Pj (b - 1) 1 Hj in
      Ok (replace_nth (i + 1) Pj (replace_nth i Pi O)).

(** while (start < end && norm2(H[start]) == 0) ++start;  (mpo_add_long_range_term.cc:58-60);
    [p] is the skipping condition and [n] the number of remaining elements. *)
Fixpoint skip_up (p : nat -> bool) (start n : nat) : nat :=
  match n with
  | O => start
  | S n' => if p start then skip_up p (S start) n' else start
  end.

(** while (end && sum(abs(H[end-1])) == 0) --end;  (mpo_add_long_range_term.cc:61-64) *)
Fixpoint skip_down (p : nat -> bool) (e : nat) : nat :=
  match e with
  | O => O
  | S e' => if p e' then skip_down p e' else e
  end.

(** mpo_add_long_range_term.cc:65-93, one step of the loop over j *)
Definition long_range_site (O : mpo) (H : list tensor) (i : nat) (sign : option tensor)
  (start e last_closing j : nat) : tensor :=
  let Hj := nth j H empty in
  let P0 := site O j in
  let dl := dim P0 0 in
  let dr := dim P0 3 in
  let '(P1, closing) :=
    if Nat.ltb (j + 1) e then
      let P := change_dimension P0 3 (dr + 1) in
      (if Nat.leb j i then set_block P 0 dr Hj else P, 1)
    else (P0, last_closing) in
  if Nat.ltb start j then
    let P := change_dimension P1 0 (dl + 1) in
    let P := if Nat.leb i j then set_block P dl closing Hj else P in
    if negb (Nat.eqb i j) && Nat.ltb (j + 1) e
    then set_block P dl dr (match sign with Some s => s | None => eye (dim Hj 0) end)
    else P
  else P1.

(** Assigning a block of the wrong size fails inside the tensor library: every operator that is
    written must be a matrix of the dimension of its site. *)
Definition has_dim (t : tensor) (d : nat) : bool :=
  Nat.eqb (rank t) 2 && Nat.eqb (dim t 0) d && Nat.eqb (dim t 1) d.

(** src/mpo/mpo_add_long_range_term.cc:40-127: do_add_interaction(mpo, H, i, sign).
    SIMPLIFICATION: the size check of each assignment is made for all sites at the beginning
    (std::vector H shorter than the MPO would be an out-of-range access). *)
Definition add_long_range (O : mpo) (H : list tensor) (i : Z) (sign : option tensor) : result mpo :=
  let n := length O in
  if (i <? 0)%Z || (Z.of_nat n <=? i)%Z then Abort
  else if negb (Nat.eqb (length H) n &&
                forallb (fun k => has_dim (nth k H empty) (dim (site O k) 1) &&
                                  match sign with Some s => has_dim s (dim (site O k) 1) | None => true end)
                        (seq 0 n)) then Abort
  else
    let i := Z.to_nat i in
    let z := fun k => is_zero_tensor (nth k H empty) in
    if z i then Ok O
    else
      let start := skip_up z 0 n in
      let e := skip_down z n in
      let last_closing := if Nat.eqb e n then 0 else 1 in
      Ok (map (fun j => if Nat.leb start j && Nat.ltb j e
                        then long_range_site O H i sign start e last_closing j
                        else site O j) (seq 0 n)).

(** src/mpo/mpo_add_hopping_matrix.cc:25-50: do_add_hopping_matrix() *)
Definition add_hopping (O : mpo) (J ad a : tensor) (sign : tensor) : result mpo :=
  let L := length O in
  if Nat.eqb (rank J) 2 && Nat.eqb (dim J 0) (dim J 1) && Nat.eqb (dim J 0) L then
    fold_left (fun r j => bind r (fun O =>
      add_long_range O (map (fun i => if Nat.eqb i j then ad else tscale (get J [j; i]) a) (seq 0 L))
                     (Z.of_nat j) (Some sign)))
      (seq 0 L) (Ok O)
  else Abort.

(** mpo_add_hopping_matrix_d.cc:24-28: add_hopping_matrix() *)
Definition add_hopping_matrix (O : mpo) (J ad a : tensor) : result mpo :=
  add_hopping O J ad a (eye (dim a 0)).

(** mpo_add_hopping_matrix_d.cc:30-35: add_jordan_wigner_matrix() *)
Definition add_jordan_wigner_matrix (O : mpo) (J ad a sign : tensor) : result mpo :=
  add_hopping O J ad a sign.

(** mpo_add_product_term.cc:38-45: is_identity() *)
Definition tensor_eqb (a b : tensor) : bool :=
  (if list_eq_dec Nat.eq_dec (dims a) (dims b) then true else false) &&
  forallb (fun p => keqb (fst p) (snd p)) (combine (data a) (data b)) &&
  Nat.eqb (length (data a)) (length (data b)).
Definition is_identity (t : tensor) : bool :=
  Nat.eqb (rank t) 2 && Nat.eqb (dim t 0) (dim t 1) && tensor_eqb t (eye (dim t 0)).

(** mpo_add_product_term.cc:60-84, one step of the loop *)
Definition product_site (O : mpo) (H : list tensor) (start e closing j : nat) : tensor :=
  let Hj := nth j H empty in
  let P0 := site O j in
  let '(P1, dl) := if Nat.ltb start j then (change_dimension P0 0 (dim P0 0 + 1), dim P0 0) else (P0, 0) in
  let '(P2, dr) := if Nat.ltb (j + 1) e then (change_dimension P1 3 (dim P0 3 + 1), dim P0 3) else (P1, closing) in
  if Nat.eqb dl 0 && Nat.eqb dr closing then add_block P2 dl dr Hj else set_block P2 dl dr Hj.

(** src/mpo/mpo_add_product_term.cc:47-86: do_add_interaction(mpo, H).
    SIMPLIFICATION: sizes are checked at the beginning, as in [add_long_range]. *)
Definition add_product_term (O : mpo) (H : list tensor) : result mpo :=
  let n := length O in
  if negb (Nat.eqb (length H) n &&
           forallb (fun k => has_dim (nth k H empty) (dim (site O k) 1)) (seq 0 n)) then Abort
  else
    let p := fun k => is_identity (nth k H empty) in
    let start := skip_up p 0 n in
    let e := skip_down p n in
    let closing := if Nat.eqb e n then 0 else 1 in
    Ok (map (fun j => if Nat.leb start j && Nat.ltb j e then product_site O H start e closing j
                      else site O j) (seq 0 n)).

(** tensor(range(a),range(),range(),range()) and tensor(range(),range(),range(),range(c)) *)
Definition slice0 (P : tensor) (a : nat) : tensor :=
  mk [1; dim P 1; dim P 2; dim P 3] (fun is => get P [a; nth 1 is 0; nth 2 is 0; nth 3 is 0]).
Definition slice3 (P : tensor) (c : nat) : tensor :=
  mk [dim P 0; dim P 1; dim P 2; 1] (fun is => get P [nth 0 is 0; nth 1 is 0; nth 2 is 0; c]).

(** src/mpo/mpo_local_Hamiltonian.cc:38-62: local_Hamiltonian_mpo() *)
Definition local_H_site (n i : nat) (H : tensor) : tensor :=
  let d := dim H 0 in
  let aux := set_block (zeros [2; d; d; 2]) 0 1 H in
  let aux := set_block aux 1 1 (eye d) in
  let aux := set_block aux 0 0 (eye d) in
  let aux := if Nat.eqb i 0 then slice0 aux 0 else aux in
  if Nat.eqb (i + 1) n then slice3 aux 1 else aux.

Definition local_Hamiltonian_mpo (Hs : list tensor) : result mpo :=
  let n := length Hs in
  if Nat.ltb n 2 then Abort
  else if forallb is_square Hs
  then Ok (map (fun i => local_H_site n i (nth i Hs empty)) (seq 0 n))
  else Abort.

(** src/mpo/mpo_apply.cc:24-46: apply() *)
Definition apply_site (O A : tensor) : tensor :=
  let B := foldin O 2 A 1 in
  let a1 := dim B 0 in let c1 := dim B 1 in let j := dim B 2 in
  let c2 := dim B 3 in let a2 := dim B 4 in
  reshape (permute B 0 1) [c1 * a1; j; a2 * c2].

Definition apply (O : mpo) (psi : mps) : result mps :=
  if Nat.eqb (length O) (length psi)
  then Ok (map (fun i => apply_site (site O i) (site psi i)) (seq 0 (length O)))
  else Abort.

(** src/mpo/mpo_mmult.cc:24-48: mmult() *)
Definition mmult_site (A B : tensor) : tensor :=
  let C := foldin B 1 A 2 in
  let a1 := dim C 0 in let i := dim C 1 in let c1 := dim C 2 in
  let k := dim C 3 in let c2 := dim C 4 in let a2 := dim C 5 in
  reshape (permute (permute C 1 2) 4 5) [a1 * c1; i; k; a2 * c2].

Definition mpo_mmult (A B : mpo) : result mpo :=
  if Nat.eqb (length A) (length B)
  then Ok (map (fun n => mmult_site (site A n) (site B n)) (seq 0 (length A)))
  else Abort.

(** src/mpo/mpo_adjoint_z.cc:24-32: adjoint(CMPO) *)
Definition adjoint_z (O : mpo) : mpo := map (fun A => tconj (permute A 1 2)) O.

(** src/mpo/mpo_adjoint_d.cc:24-28: adjoint(RMPO) *)
Definition adjoint_d (O : mpo) : mpo := O.

(** src/mpo/mpo_to_matrix.cc:26-50: mpo_to_matrix(); B starts as a 1x1x1 tensor of ones. *)
Definition to_matrix_step (st : tensor * nat) (Ai : tensor) : tensor * nat :=
  let '(B, D) := st in
  let d := dim Ai 1 in let b := dim Ai 3 in
  let B := fold B 2 Ai 0 in
  (reshape (permute B 1 2) [D * d; D * d; b], D * d).

Definition mpo_to_matrix (A : mpo) : tensor :=
  let '(B, D) := fold_left to_matrix_step A (mk [1; 1; 1] (fun _ => 1%K), 1) in
  reshape B [D; D].

(** src/mpo/mpo_to_mps_d.cc:24-37: mpo_to_mps() *)
Definition mpo_to_mps (O : mpo) : mps :=
  map (fun m => reshape m [dim m 0; dim m 1 * dim m 2; dim m 3]) O.

(** src/mpo/mpo_expected_z.cc:24-27: expected(bra, op, ket) *)
Definition mpo_expected (bra : mps) (op : mpo) (ket : mps) : result K :=
  bind (apply op ket) (fun chi => scprod bra chi 1).

(** src/mpo/mpo_expected_z.cc:29-32: expected(psi, op) *)
Definition mpo_expected1 (psi : mps) (op : mpo) : result K := mpo_expected psi op psi.

End Model.
