(** * Model of src/mps: states, contractions and expectation values *)
From Coq Require Import Bool List Arith ZArith Lia.
From Verif Require Import Scalar Tensor Spec.
Import ListNotations.

Section Model.
Context {SC : Scalar}.

(** psi[k], include/mps/mp_base.h:60-63 (callers stay in range; checked access is [site_at]). *)
Definition site (psi : mps) (k : nat) : tensor := nth k psi empty.

(** include/mps/mp_base.h:60-67: operator[] and at() assert 0 <= n < size(). *)
Definition site_at (psi : mps) (n : Z) : result tensor :=
  if (0 <=? n)%Z && (n <? Z.of_nat (length psi))%Z then Ok (site psi (Z.to_nat n)) else Abort.

(** src/mps/rmps.cc:39-48, cmps.cc: normal_index(). *)
Definition normal_index (psi : mps) (k : Z) : result nat :=
  let n := Z.of_nat (length psi) in
  if (k <? 0)%Z then
    if (- n <=? k)%Z then Ok (Z.to_nat (k + n)) else Abort
  else if (k <? n)%Z then Ok (Z.to_nat k) else Abort.

(** src/mps/rmps.cc:28-37: is_periodic(). *)
Definition is_periodic (psi : mps) : bool :=
  match length psi with
  | O => false
  | S l => let d0 := dim (site psi 0) 0 in let dl := dim (site psi l) 2 in
           Nat.eqb d0 dl && Nat.ltb 1 d0
  end.

(** src/mps/mps_dimensions_d.cc:24-32: dimensions(). *)
Definition dimensions (psi : mps) : list nat :=
  map (fun i => dim (site psi i) 1) (seq 0 (length psi)).

(** src/tools/bond_dimension_d.cc:24-30: largest_bond_dimension(). *)
Definition largest_bond_dimension (psi : mps) : nat :=
  fold_left (fun i j => Nat.max i (dim (site psi j) 0)) (seq 0 (length psi)) 0.

(** src/mps/mps_presize.h:24-40.  Asserts bond_dimension > 0 and all physical dimensions > 0. *)
Definition presize_mps (physical : list nat) (bond : nat) (periodic : bool) : result mps :=
  let l := length physical in
  if Nat.ltb 0 bond && forallb (Nat.ltb 0) physical then
    Ok (map (fun i =>
          zeros [ if periodic || Nat.ltb 0 i then bond else 1;
                  nth i physical 0;
                  if periodic || Nat.ltb i (l - 1) then bond else 1 ])
        (seq 0 l))
  else Abort.

(** src/mps/rmps.cc:55-64: RMPS(length, physical_dimension, bond_dimension, periodic); with a zero
    physical dimension the tensors stay empty. *)
Definition new_mps (length physical bond : nat) (periodic : bool) : result mps :=
  if Nat.eqb physical 0 then Ok (repeat empty length)
  else presize_mps (repeat physical length) bond periodic.

(** src/mps/rmps.cc:66-71: RMPS(Indices, bond_dimension, periodic). *)
Definition new_mps_dims (physical : list nat) (bond : nat) (periodic : bool) : result mps :=
  presize_mps physical bond periodic.

(** src/mps/rmps_random.cc:25-29: randomize() keeps the dimensions and fills in arbitrary elements,
    here taken from an arbitrary stream [rnd] site element. *)
Definition randomize (rnd : nat -> nat -> K) (psi : mps) : mps :=
  map (fun p => mkT (dims (snd p)) (map (rnd (fst p)) (seq 0 (length (data (snd p))))))
      (combine (seq 0 (length psi)) psi).

(** src/mps/rmps_random.cc:31-37: random(length, d, D, periodic). *)
Definition random_mps (rnd : nat -> nat -> K) (length physical bond : nat) (periodic : bool)
  : result mps :=
  bind (new_mps length physical bond periodic) (fun psi => Ok (randomize rnd psi)).

(** src/mps/rmps_random.cc:39-45: random(Indices, D, periodic) calls
    RMPS(physical_dimensions.size(), bond_dimension, periodic), i.e. the constructor of
    rmps.cc:55 with physical_dimension := bond_dimension, bond_dimension := (index)periodic and the
    default periodic = false (include/mps/rmps.h). *)
Definition random_mps_dims (rnd : nat -> nat -> K) (physical : list nat) (bond : nat)
  (periodic : bool) : result mps :=
  bind (new_mps (length physical) bond (if periodic then 1 else 0) false)
       (fun psi => Ok (randomize rnd psi)).

(** src/mps/rmps_product_state.cc:27-37: product_state(length, v); asserts rank one, non-empty,
    positive length. *)
Definition product_state (length : nat) (v : tensor) : result mps :=
  if Nat.eqb (rank v) 1 && negb (is_empty v) && Nat.ltb 0 length then
    Ok (repeat (reshape v [1; dim v 0; 1]) length)
  else Abort.

(** src/mps/rmps_to_vector.cc:27-39: mps_to_vector(); asserts size() > 0. *)
Definition to_vector_step (d0 : nat) (out : tensor) (A : tensor) : tensor :=
  let out := fold out 2 A 0 in
  reshape out [d0; dim out 1 * dim out 2; dim out 3].

Definition mps_to_vector (psi : mps) : result tensor :=
  match length psi with
  | O => Abort
  | S _ =>
      let d0 := dim (site psi 0) 0 in
      Ok (trace_ends
            (fold_left (fun out i => to_vector_step d0 out (site psi i))
                       (seq 1 (length psi - 1)) (site psi 0)))
  end.

(** ** src/mps/mps_prop_matrix.cc *)

(** mps_prop_matrix.cc:23-32: do_prop_init().  A NULL operator is [None]. *)
Definition prop_init (Q P : tensor) (op : option tensor) : tensor :=
  let M := match op with
           | Some o => foldc Q 1 (fold o 1 P 1) 0
           | None => foldc Q 1 P 1
           end in
  permute M 1 2.

(** mps_prop_matrix.cc:34-40: do_prop_close(M). *)
Definition prop_close (M : tensor) : tensor :=
  trace_ends (reshape M [dim M 0 * dim M 1; dim M 2 * dim M 3]).

(** mps_prop_matrix.cc:42-56: do_prop_close(L,R).  Dimensions read from R replace those of L. *)
Definition prop_close2 (L R : tensor) : tensor :=
  if is_empty R then prop_close L
  else if is_empty L then prop_close R
  else
    let b1 := dim R 0 in let b2 := dim R 1 in let a1 := dim R 2 in let a2 := dim R 3 in
    mmult (reshape L [1; a1 * a2 * b1 * b2])
          (reshape (transpose (reshape R [b1 * b2; a1 * a2])) [a1 * a2 * b1 * b2; 1]).

(** mps_prop_matrix.cc:66-79, second part of do_prop_right(): M0 has rank 4. *)
Definition prop_right4 (M0 Q P : tensor) (op : option tensor) : tensor :=
  let a1 := dim M0 0 in let b1 := dim M0 1 in
  let b2 := dim P 0 in let i2 := dim P 1 in let b3 := dim P 2 in
  let a3 := dim Q 2 in
  let M := match op with
           | Some o => fold M0 2 (fold o 0 (tconj Q) 1) 1
           | None => fold M0 2 (tconj Q) 0
           end in
  fold (reshape M [a1; b1; b2 * i2; a3]) 2 (reshape P [b2 * i2; b3]) 0.

(** mps_prop_matrix.cc:58-65: do_prop_right(). *)
Definition prop_right (M0 Q P : tensor) (op : option tensor) : tensor :=
  if is_empty M0 then prop_init Q P op
  else if Nat.eqb (rank M0) 2 then prop_right4 (reshape M0 [1; 1; dim M0 0; dim M0 1]) Q P op
  else prop_right4 M0 Q P op.

(** mps_prop_matrix.cc:91-105, second part of do_prop_left(): M0 has rank 4. *)
Definition prop_left4 (M0 Q P : tensor) (op : option tensor) : tensor :=
  let a2 := dim M0 2 in let b2 := dim M0 3 in
  let a0 := dim Q 0 in let a1 := dim Q 2 in
  let b0 := dim P 0 in let i0 := dim P 1 in
  let M := match op with
           | Some o => fold (fold P 1 o (rank o - 1)) 1 M0 1
           | None => fold P 2 M0 1
           end in
  foldc (reshape Q [a0; i0 * a1]) 1 (reshape M [b0; i0 * a1; a2; b2]) 1.

(** mps_prop_matrix.cc:83-90: do_prop_left(). *)
Definition prop_left (M0 Q P : tensor) (op : option tensor) : tensor :=
  if is_empty M0 then prop_init Q P op
  else if Nat.eqb (rank M0) 2 then prop_left4 (reshape M0 [dim M0 0; dim M0 1; 1; 1]) Q P op
  else prop_left4 M0 Q P op.

(** src/mps/mps_prop_matrix_d.cc:35-46: prop_matrix(M0,sense,Q,P,op). *)
Definition prop_matrix (M0 : tensor) (sense : Z) (Q P : tensor) (op : option tensor) : tensor :=
  if is_empty M0 then prop_init Q P op
  else if (0 <? sense)%Z then prop_right M0 Q P op
  else prop_left M0 Q P op.

(** Element [0] of a tensor. *)
Definition elem0 (t : tensor) : K := nth 0 (data t) 0%K.

(** prop_matrix_close(M)[0] fails (get_dimensions wants rank 4) when no site was propagated. *)
Definition close_value (M : tensor) : result K :=
  if Nat.eqb (rank M) 4 then Ok (elem0 (prop_close M)) else Abort.

(** src/mps/mps_expected1.cc:61-77: scalar_product(). *)
Definition scprod (a b : mps) (sense : Z) : result K :=
  if Nat.eqb (length a) (length b) then
    close_value
      (if (0 <=? sense)%Z
       then fold_left (fun M k => prop_matrix M 1 (site a k) (site b k) None)
                      (seq 0 (length a)) empty
       else fold_left (fun M k => prop_matrix M (-1) (site a k) (site b k) None)
                      (rev (seq 0 (length a))) empty)
  else Abort.

(** src/mps/mps_expected1.cc:49-57: the argument of sqrt(abs(real(.))) in state_norm(). *)
Definition norm2_squared (a : mps) : result K :=
  close_value
    (fold_left (fun M k => prop_matrix M 1 (site a k) (site a k) None)
               (seq 0 (length a)) empty).

(** src/mps/mps_expected1.cc:29-45: single_site_expected(). *)
Definition expected1 (a : mps) (Op1 : tensor) (k1 : Z) : result K :=
  bind (normal_index a k1) (fun k1 =>
    close_value
      (fold_left (fun M k => prop_matrix M 1 (site a k) (site a k)
                               (if Nat.eqb k k1 then Some Op1 else None))
                 (seq 0 (length a)) empty)).

(** src/mps/mps_expected1_d.cc:32-39: expected(a,op), the sum over all sites. *)
Definition expected_total (a : mps) (op : tensor) : result K :=
  fold_left (fun out i => bind out (fun s => bind (expected1 a op (Z.of_nat i)) (fun x => Ok (s + x)%K)))
            (seq 0 (length a)) (Ok 0%K).

(** src/mps/mps_expected2.cc:29-53: two_sites_expected(); note that k1 == k2 is tested before the
    indices are normalised. *)
Definition expected2 (a : mps) (Op1 : tensor) (k1 : Z) (Op2 : tensor) (k2 : Z) : result K :=
  if (k1 =? k2)%Z then expected1 a (mmult Op1 Op2) k1
  else
    bind (normal_index a k1) (fun k1 => bind (normal_index a k2) (fun k2 =>
      close_value
        (fold_left (fun M k => prop_matrix M 1 (site a k) (site a k)
                     (if Nat.eqb k k1 then Some Op1 else if Nat.eqb k k2 then Some Op2 else None))
                   (seq 0 (length a)) empty))).

(** prop_matrix_close(L,R)[0] *)
Definition close2_value (L R : tensor) : K := elem0 (prop_close2 L R).

(** Left environments: auxLeft[i] = contraction of sites 0..i-1 (mps_expected1_all.cc:44-48,
    mps_expected2_all.cc:52-58); auxLeft[0] is empty. *)
Definition aux_left (a b : mps) (i : nat) : tensor :=
  fold_left (fun M k => prop_matrix M 1 (site a k) (site b k) None) (seq 0 i) empty.

(** Right environments: contraction of sites L-1 down to i+1 (mps_expected2_all.cc:59-64). *)
Definition aux_right (a b : mps) (i : nat) : tensor :=
  fold_left (fun M k => prop_matrix M (-1) (site a k) (site b k) None)
            (rev (seq (S i) (length a - S i))) empty.

(** src/mps/mps_expected1_all.cc:29-57: all_expected_vector_fast().  The loop over i runs downwards;
    the entry i only depends on auxLeft[i] and on the right environment of sites > i. *)
Definition expected_vector (a : mps) (op : list tensor) (b : mps) : result tensor :=
  let L := length a in
  if Nat.eqb (length b) L && Nat.eqb (length op) L then
    Ok (mkT [L] (map (fun i =>
          let left := prop_matrix (aux_left a b i) 1 (site a i) (site b i) (Some (nth i op empty)) in
          close2_value left (aux_right a b i)) (seq 0 L)))
  else Abort.

(** src/mps/mps_expected2_all.cc:66-81 and 84-92: for fixed i, the environment carried to the right
    over sites i+1..j-1 with the (optional) Jordan-Wigner operator. *)
Definition corr_row (a b : mps) (opi : tensor) (opj : list tensor) (jw : option tensor) (i j : nat)
  : K :=
  let aux := fold_left (fun M k => prop_matrix M 1 (site a k) (site b k) jw) (seq (S i) (j - S i))
               (prop_matrix (aux_left a b i) 1 (site a i) (site b i) (Some opi)) in
  let aux2 := prop_matrix aux 1 (site a j) (site b j) (Some (nth j opj empty)) in
  close2_value aux2 (aux_right a b j).

(** src/mps/mps_expected2_all.cc:29-95: all_correlations_fast(), element (i,j) of the output matrix.
    SIMPLIFICATION: the progress messages printed to std::cout are not modelled. *)
Definition corr_elem (a : mps) (op1 op2 : list tensor) (b : mps) (symmetric : bool)
  (jw : option tensor) (i j : nat) : K :=
  if Nat.eqb i j then
    let op12 := mmult (nth i op1 empty) (nth i op2 empty) in
    close2_value (prop_matrix (aux_left a b i) 1 (site a i) (site b i) (Some op12)) (aux_right a b i)
  else if Nat.ltb i j then corr_row a b (nth i op1 empty) op2 jw i j
  else if symmetric then kconj (corr_row a b (nth j op1 empty) op2 jw j i)
  else corr_row a b (nth j op2 empty) op1 jw j i.

Definition all_correlations (a : mps) (op1 op2 : list tensor) (b : mps) (symmetric : bool)
  (jw : option tensor) : result tensor :=
  let L := length a in
  if Nat.eqb (length b) L && Nat.eqb (length op1) L && Nat.eqb (length op2) L then
    Ok (mk [L; L] (fun is => corr_elem a op1 op2 b symmetric jw (nth 0 is 0) (nth 1 is 0)))
  else Abort.

(** src/mps/apply_local_operator_d.cc:26-31: apply_local_operator(); at() and [] assert the range. *)
Definition apply_local_operator (psi : mps) (op : tensor) (k : Z) : result mps :=
  bind (site_at psi k) (fun A =>
    Ok (replace_nth (Z.to_nat k) (foldin op (rank op - 1) A 1) psi)).

(** src/mps/mps_dty_matrix.cc:24-57: do_density_matrix(); get_dimensions() on the empty ML or MR
    (site 0 or last site) fails its rank check. *)
Definition density_matrix (psi : mps) (s : Z) : result tensor :=
  bind (site_at psi s) (fun A0 =>
    let s := Z.to_nat s in
    let ML := aux_left psi psi s in
    let MR := aux_right psi psi s in
    if Nat.eqb (rank ML) 4 && Nat.eqb (rank MR) 4 then
      let a2 := dim ML 2 in let b2 := dim ML 3 in
      let a3 := dim MR 0 in let b3 := dim MR 1 in
      let a1 := dim MR 2 in let b1 := dim MR 3 in
      let d := dim A0 1 in
      let E := foldin (reshape MR [a3; b3; a1 * b1]) 2 (reshape ML [a1 * b1; a2; b2]) 0 in
      let E := permute E 0 3 in
      let A := reshape (permute A0 0 1) [d; a2 * a3] in
      let E := foldc A 1 (reshape E [b2 * b3; a2 * a3]) 0 in
      let E := fold E 1 A 1 in
      Ok (transpose E)
    else Abort).

(** src/mps/rmps_ghz_state.cc:27-59: ghz_state(length, periodic).
    [v] stands for 1/sqrt(2) and [v4] for 1/sqrt(sqrt(2)). *)
Definition ghz_site (v v4 : K) (length : nat) (periodic : bool) (i : nat) (ds : list nat) : tensor :=
  let aux := zeros ds in
  if Nat.eqb length 1 then
    if periodic then set_elem (set_elem aux [0; 1; 0] v) [1; 1; 1] v
    else set_elem (set_elem aux [0; 0; 0] v) [0; 1; 0] v
  else if Nat.eqb i 0 then
    set_elem (set_elem aux [0; 0; 0] v4) [if periodic then 1 else 0; 1; 1] v4
  else if Nat.eqb i (length - 1) then
    set_elem (set_elem aux [0; 0; 0] v4) [1; 1; if periodic then 1 else 0] v4
  else set_elem (set_elem aux [0; 0; 0] 1%K) [1; 1; 1] 1%K.

Definition ghz_state (v v4 : K) (length : nat) (periodic : bool) : result mps :=
  bind (new_mps length 2 2 periodic) (fun out =>
    Ok (map (fun i => ghz_site v v4 length periodic i (dims (site out i))) (seq 0 length))).

(** src/mps/rmps_cluster_state.cc:27-56: cluster_state(length); shorter chains are GHZ states. *)
Definition cluster_site (v : K) (length i : nat) (ds : list nat) : tensor :=
  let P := zeros ds in
  if Nat.eqb i 0 then set_elem (set_elem P [0; 0; 0] v) [0; 1; 1] v
  else if Nat.eqb i (length - 1) then
    set_elem (set_elem (set_elem (set_elem P [0; 0; 0] v) [0; 1; 0] v) [1; 0; 0] v) [1; 1; 0] (- v)%K
  else set_elem (set_elem (set_elem (set_elem P [0; 0; 0] v) [1; 0; 0] v) [0; 1; 1] v) [1; 1; 1] (- v)%K.

Definition cluster_state (v v4 : K) (length : nat) : result mps :=
  if Nat.ltb length 3 then ghz_state v v4 length false
  else bind (new_mps length 2 2 false) (fun out =>
    Ok (map (fun i => cluster_site v length i (dims (site out i))) (seq 0 length))).

End Model.
