(** * Model of src/hamiltonian and of the MPO constructors taking a Hamiltonian *)
From Coq Require Import Bool List Arith ZArith Lia.
From Verif Require Import Scalar Tensor Spec MpsModel MpoSpec MpoModel HamSpec.
Import ListNotations.

Section Model.
Context {SC : Scalar}.

(** include/mps/hamiltonian.h:33-58: the virtual interface of class Hamiltonian at a fixed time.
    [h_depth k] is interaction_depth(k), the others carry the name of the method. *)
Record hamiltonian := mkH {
  h_size : nat;
  h_periodic : bool;
  h_interaction : nat -> tensor;
  h_left : nat -> nat -> tensor;
  h_right : nat -> nat -> tensor;
  h_depth : nat -> nat;
  h_local : nat -> tensor;
  h_dim : nat -> nat
}.

(** src/hamiltonian/hamiltonian.cc:35-44: dimensions() *)
Definition h_dims (H : hamiltonian) : list nat := map (h_dim H) (seq 0 (h_size H)).

(** *** src/hamiltonian/hamiltonian_constant.cc: class ConstantHamiltonian *)
Record constH := mkCH {
  ch_H12 : list tensor;
  ch_left : list (list tensor);
  ch_right : list (list tensor);
  ch_H1 : list tensor;
  ch_dims : list nat;
  ch_periodic : bool
}.

(** lines 29-35: constructor *)
Definition ch_new (N : nat) (periodic : bool) : constH :=
  mkCH (repeat empty N) (repeat [] N) (repeat [] N) (repeat empty N) (repeat 0 N) periodic.

(** lines 98-104: set_local_term(); std::vector::at throws when k = size. *)
Definition ch_set_local_term (c : constH) (k : nat) (H1 : tensor) : result constH :=
  if Nat.ltb k (length (ch_H1 c)) then
    Ok (mkCH (ch_H12 c) (ch_left c) (ch_right c) (replace_nth k H1 (ch_H1 c))
             (replace_nth k (dim H1 0) (ch_dims c)) (ch_periodic c))
  else Abort.

(** lines 127-145: compute_interaction(); H = op for the first term, H = H + op for the others. *)
Definition ch_compute (l r : list tensor) (d : nat) : tensor :=
  let H := match combine l r with
           | [] => empty
           | p :: rest => fold_left (fun H p => tadd H (kron2 (fst p) (snd p))) rest (kron2 (fst p) (snd p))
           end in
  if is_empty H then zeros [d; d] else H.

(** lines 117-126: add_interaction() *)
Definition ch_add_interaction (c : constH) (k : nat) (H1 H2 : tensor) : result constH :=
  if Nat.ltb (k + 1) (length (ch_H12 c)) then
    let L := replace_nth k (nth k (ch_left c) [] ++ [H1]) (ch_left c) in
    let R := replace_nth k (nth k (ch_right c) [] ++ [H2]) (ch_right c) in
    let H := ch_compute (nth k L []) (nth k R []) (nth k (ch_dims c) 0 * nth (k + 1) (ch_dims c) 0) in
    Ok (mkCH (replace_nth k H (ch_H12 c)) L R (ch_H1 c)
             (replace_nth (k + 1) (dim H2 0) (replace_nth k (dim H1 0) (ch_dims c))) (ch_periodic c))
  else Abort.

(** lines 106-114: set_interaction().  The assert allows k = size, which then indexes out of range. *)
Definition ch_set_interaction (c : constH) (k : nat) (H1 H2 : tensor) : result constH :=
  if Nat.ltb k (length (ch_H12 c)) then
    ch_add_interaction (mkCH (ch_H12 c) (replace_nth k [] (ch_left c)) (replace_nth k [] (ch_right c))
                             (ch_H1 c) (ch_dims c) (ch_periodic c)) k H1 H2
  else Abort.

(** lines 43-96: the virtual methods.  interaction(k) is zero when nothing was set; for the last site
    dimension(k+1) is read out of range, which the model shows as 0. *)
Definition ch_view (c : constH) : hamiltonian :=
  mkH (length (ch_H12 c)) (ch_periodic c)
      (fun k => let H := nth k (ch_H12 c) empty in
                if is_empty H
                then let d := nth k (ch_dims c) 0 * nth (k + 1) (ch_dims c) 0 in zeros [d; d]
                else H)
      (fun k n => nth n (nth k (ch_left c) []) empty)
      (fun k n => nth n (nth k (ch_right c) []) empty)
      (fun k => length (nth k (ch_left c) []))
      (fun k => nth k (ch_H1 c) empty)
      (fun k => nth k (ch_dims c) 0).

(** A call of one of the three modifying methods. *)
Definition ch_exec (c : constH) (x : ham_call) : result constH :=
  match x with
  | SetLocal k H1 => ch_set_local_term c k H1
  | SetInt k H1 H2 => ch_set_interaction c k H1 H2
  | AddInt k H1 H2 => ch_add_interaction c k H1 H2
  end.

(** A sequence of calls on a new object *)
Definition ch_run (N : nat) (periodic : bool) (l : list ham_call) : result constH :=
  fold_left (fun r x => bind r (fun c => ch_exec c x)) l (Ok (ch_new N periodic)).

(** *** src/hamiltonian/hamiltonian_ti.cc: class TIHamiltonian.  [v1], [v2] are the vectors filled by
    split_interaction(H12) (see SplitModel); they stay empty when H12 is empty or zero (lines 45-50). *)
Definition ti_new (N : nat) (H12 H1 : tensor) (periodic : bool) (sqrt_rows : nat) (v1 v2 : list tensor)
  : result hamiltonian :=
  if is_empty H1 && is_empty H12 then Abort
  else
    let H1' := if is_empty H1 then zeros [sqrt_rows; sqrt_rows] else H1 in
    let d := dim H1' 0 in
    let H12' := if is_empty H12 then zeros [d * d; d * d] else H12 in
    let has := negb (is_empty H12) && negb (is_zero_tensor H12) in
    let l := if has then v1 else [] in
    let r := if has then v2 else [] in
    Ok (mkH N periodic (fun _ => H12') (fun _ n => nth n l empty) (fun _ n => nth n r empty)
            (fun _ => length l) (fun _ => H1') (fun _ => dim H1' 1)).

(** *** src/mpo/cmpo_from_hamiltonian.cc:26-43: CMPO(H) *)
Definition add_terms_at (H : hamiltonian) (i : nat) (O : mpo) : result mpo :=
  fold_left (fun r j => bind r (fun O =>
      let Hi := h_left H i j in
      if is_empty Hi then Ok O else add_interaction O Hi (Z.of_nat i) (h_right H i j)))
    (seq 0 (h_depth H i)) (Ok O).

Definition add_locals (H : hamiltonian) (O : mpo) : result mpo :=
  fold_left (fun r i => bind r (fun O => add_local_term O (h_local H i) (Z.of_nat i)))
    (seq 0 (h_size H)) (Ok O).

Definition cmpo_of_hamiltonian (H : hamiltonian) : result mpo :=
  bind (new_mpo (h_dims H)) (fun O =>
  bind (add_locals H O) (fun O =>
  fold_left (fun r i => bind r (add_terms_at H i)) (seq 0 (h_size H - 1)) (Ok O))).

(** src/mpo/rmpo_from_hamiltonian.cc:26-33: safe_real().  A number is real when it equals its conjugate;
    SIMPLIFICATION: the real tensor is kept in the same scalar type. *)
Definition safe_real (R : tensor) : result tensor :=
  if forallb (fun x => keqb (kconj x) x) (data R) then Ok R else Abort.

(** src/mpo/rmpo_from_hamiltonian.cc:35-51: RMPO(H) *)
Definition radd_terms_at (H : hamiltonian) (i : nat) (O : mpo) : result mpo :=
  fold_left (fun r j => bind r (fun O =>
      bind (safe_real (h_left H i j)) (fun Hi =>
      bind (safe_real (h_right H i j)) (fun Hj =>
      if is_empty Hi then Ok O else add_interaction O Hi (Z.of_nat i) Hj))))
    (seq 0 (h_depth H i)) (Ok O).

Definition radd_locals (H : hamiltonian) (O : mpo) : result mpo :=
  fold_left (fun r i => bind r (fun O => bind (safe_real (h_local H i)) (fun H1 =>
      add_local_term O H1 (Z.of_nat i)))) (seq 0 (h_size H)) (Ok O).

Definition rmpo_of_hamiltonian (H : hamiltonian) : result mpo :=
  bind (new_mpo (h_dims H)) (fun O =>
  bind (radd_locals H O) (fun O =>
  fold_left (fun r i => bind r (radd_terms_at H i)) (seq 0 (h_size H)) (Ok O))).

(** *** src/hamiltonian/hamiltonian_expected.cc:24-56: do_expected().
    The real part taken at the end is not part of the model's result. *)
Definition h_expected_site (psi : mps) (H : hamiltonian) (k k2 : nat) (E : K) : result K :=
  fold_left (fun r i => bind r (fun E =>
      bind (expected2 psi (h_left H k i) (Z.of_nat k) (h_right H k i) (Z.of_nat k2)) (fun x => Ok (E + x)%K)))
    (seq 0 (h_depth H k)) (Ok E).

Definition h_expected_step (psi : mps) (H : hamiltonian) (k : nat) (E : K) : result K :=
  let N := h_size H in
  bind (if is_empty (h_local H k) then Ok E
        else bind (expected1 psi (h_local H k) (Z.of_nat k)) (fun x => Ok (E + x)%K)) (fun E =>
  if Nat.eqb (S k) N then
    if Nat.eqb k 0 || negb (h_periodic H) then Ok E else h_expected_site psi H k 0 E
  else h_expected_site psi H k (S k) E).

Definition h_expected (psi : mps) (H : hamiltonian) : result K :=
  fold_left (fun r k => bind r (h_expected_step psi H k)) (seq 0 (h_size H)) (Ok 0%K).

End Model.
