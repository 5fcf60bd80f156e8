(** * Model of class DMRG (src/dmrg/dmrg.cc, include/mps/dmrg.h) *)
From Coq Require Import Reals Bool List Arith ZArith Lia.
From Verif Require Import Scalar RScal Tensor Spec MpsModel CanonModel HamModel SimplifyModel MinimizerModel.
Import ListNotations.

Section Model.
Context {RS : RScal}.
(** linalg::svd or block_svd, see CanonModel *)
Variable svd : tensor -> tensor * list R * tensor.
(** FLAGS.get(MPS_TRUNCATION_TOLERANCE) *)
Variable flag : R.
(** linalg::eigs(A, SmallestAlgebraic, neig, &P): for a matrix, a number of eigenvalues and the previous contents of P, the
    eigenvalues and the elements of the eigenvectors, one after the other. *)
Variable eigs : tensor -> nat -> tensor -> list K * list K.
(** linalg::Arpack with a product given by a function, a size, a number of eigenvalues and a start vector: the same; None when it
    ends with an error. *)
Variable arpack : (tensor -> tensor) -> nat -> nat -> tensor -> option (list K * list K).

(** dmrg.h:34-50,66-76: the public variables that matter, and the private P0_.  display and debug only produce output.
    allow_E_growth is not initialised by the constructor: any number.  Of Q_values only the size is kept.
    SIMPLIFICATION: dmrg.cc:525-566, the terms of the Hamiltonian are given in the scalar type of the states; for real states the
    C++ code drops the imaginary parts. *)
Record dmrg := mkD { d_H : hamiltonian; d_sweeps : Z; d_tolerance : R; d_svd_tolerance : R; d_allow_E_growth : Z;
                     d_neigenvalues : Z; d_nQ : nat; d_P0 : list mps }.

(** dmrg.cc:59-81: the constructor with its default values. *)
Definition dmrg_new (H : hamiltonian) (allow_E_growth : Z) : result dmrg :=
  if (h_size H <? 2)%nat || h_periodic H then Abort
  else Ok (mkD H 32 (1 / 10 ^ 6) (1 / 10 ^ 8) allow_E_growth 1 0 []).

(** dmrg.cc:89-101: clear_orthogonality() and orthogonal_to(P). *)
Definition clear_orthogonality (D : dmrg) : dmrg :=
  mkD (d_H D) (d_sweeps D) (d_tolerance D) (d_svd_tolerance D) (d_allow_E_growth D) (d_neigenvalues D) (d_nQ D) [].
Definition orthogonal_to (D : dmrg) (P : mps) : dmrg :=
  mkD (d_H D) (d_sweeps D) (d_tolerance D) (d_svd_tolerance D) (d_allow_E_growth D) (d_neigenvalues D) (d_nQ D) (d_P0 D ++ [P]).

Variable D : dmrg.
Let H := d_H D.
Let N := h_size H.

(** dmrg.cc:107-112: ensure_Hermitian(A). *)
Definition ensure_Hermitian (A : tensor) : tensor := tscale (rinj (/ 2)%R) (tadd A (adjoint A)).

(** dmrg.cc:560-563: local_term(k).  An empty tensor fails the assertions of kron2 and of the sum. *)
Definition local_term (k : nat) : result tensor := let t := h_local H k in if is_empty t then Abort else Ok t.

(** dmrg.cc:599-617: compute_interactions_right(P, k). *)
Definition compute_interactions_right (P : mps) (k : nat) : list tensor :=
  let Pk := site P (k + 1) in
  let a1 := dim Pk 0 in let j1 := dim Pk 1 in let b1 := dim Pk 2 in
  map (fun m => let O := h_right H k m in
         foldc (reshape Pk [a1; j1 * b1]) 1 (reshape (foldin O (rank O - 1) Pk 1) [a1; j1 * b1]) 1)
    (seq 0 (h_depth H k)).

(** dmrg.cc:619-637: compute_interactions_left(P, k). *)
Definition compute_interactions_left (P : mps) (k : nat) : list tensor :=
  let Pk := site P (k - 1) in
  let a1 := dim Pk 0 in let j1 := dim Pk 1 in let b1 := dim Pk 2 in
  map (fun m => let O := h_left H (k - 1) m in
         foldc (reshape Pk [a1 * j1; b1]) 0 (reshape (foldin O (rank O - 1) Pk 1) [a1 * j1; b1]) 0)
    (seq 0 (h_depth H (k - 1))).

(** dmrg.cc:639-653: block_site_interaction_right(P, k).  [blk] is the vector Hl_, which Hr_ refers to as well (dmrg.cc:60). *)
Definition block_site_interaction_right (P : mps) (blk : list tensor) (k : nat) : tensor :=
  let i1 := dim (site P k) 1 in let a2 := dim (site P k) 2 in
  ensure_Hermitian
    (if (k + 1 <? N)%nat then
       let Heffir := compute_interactions_right P k in
       fold_left (fun Heff m => tadd Heff (kron2 (h_left H k m) (nth m Heffir empty))) (seq 0 (length Heffir))
         (kron2 (eye i1) (nth (k + 1) blk empty))
     else zeros [i1 * a2; i1 * a2]).

(** dmrg.cc:655-669: block_site_interaction_left(P, k). *)
Definition block_site_interaction_left (P : mps) (blk : list tensor) (k : nat) : tensor :=
  let a1 := dim (site P k) 0 in let i1 := dim (site P k) 1 in
  if (0 <? k)%nat then
    let Heffli := compute_interactions_left P k in
    fold_left (fun Heff m => tadd Heff (kron2 (nth m Heffli empty) (h_right H (k - 1) m))) (seq 0 (length Heffli))
      (kron2 (nth (k - 1) blk empty) (eye i1))
  else zeros [a1 * i1; a1 * i1].

(** A state of the algorithm: the blocks and, for each state of P0_, the matrices Proj_. *)
Definition blocks := (list tensor * list (list tensor))%type.

(** dmrg.cc:745-748 and 783-786: the matrices Proj_ at the site k. *)
Fixpoint update_proj (P0 : list mps) (Proj : list (list tensor)) (P : mps) (k : nat) (sense : Z) : result (list (list tensor)) :=
  match P0, Proj with
  | S0 :: P0, pr :: Proj =>
      bind (site_at S0 (Z.of_nat k)) (fun S0k =>
      let prev := if (0 <? sense)%Z then (if Nat.eqb k 0 then empty else nth (k - 1) pr empty)
                  else (if (k + 1 <? N)%nat then nth (k + 1) pr empty else empty) in
      bind (update_proj P0 Proj P k sense) (fun r => Ok (replace_nth k (prop_matrix prev sense S0k (site P k) None) pr :: r)))
  | _, _ => Ok []
  end.

(** dmrg.cc:733-768 and 770-807: update_matrices_right(P, k), update_matrices_left(P, k).  The conserved quantities are only
    allocated for the two-site algorithm (dmrg.cc:578-584), otherwise Qr_.at(n) and Ql_[n] are out of range. *)
Definition update_matrices_right (P : mps) (B : blocks) (k : nat) : result blocks :=
  let '(blk, Proj) := B in
  let Pk := site P k in
  let a1 := dim Pk 0 in let i1 := dim Pk 1 in let b1 := dim Pk 2 in
  bind (update_proj (d_P0 D) Proj P k (-1)) (fun Proj =>
  bind (local_term k) (fun Hk =>
    let Pk := reshape Pk [a1; i1 * b1] in
    let Hblock := ensure_Hermitian (tadd (block_site_interaction_right P blk k) (kron2 Hk (eye b1))) in
    let t := fold (foldc Pk 1 (reshape Hblock [i1 * b1; i1 * b1]) 0) 1 Pk 1 in
    if (0 <? d_nQ D)%nat then Abort else Ok (replace_nth k t blk, Proj))).
Definition update_matrices_left (P : mps) (B : blocks) (k : nat) : result blocks :=
  let '(blk, Proj) := B in
  let Pk := site P k in
  let b1 := dim Pk 0 in let i1 := dim Pk 1 in let a1 := dim Pk 2 in
  bind (update_proj (d_P0 D) Proj P k 1) (fun Proj =>
  bind (local_term k) (fun Hk =>
    let Pk := reshape Pk [b1 * i1; a1] in
    let Hblock := ensure_Hermitian (tadd (block_site_interaction_left P blk k) (kron2 (eye b1) Hk)) in
    let t := foldc Pk 0 (mmult (reshape Hblock [b1 * i1; b1 * i1]) Pk) 0 in
    if (0 <? d_nQ D)%nat then Abort else Ok (replace_nth k t blk, Proj))).

(** dmrg.cc:573-597: init_matrices(P, 0, also_Q): from the last site to the first.  Proj_ = P0_. *)
Definition init_matrices (P : mps) : result blocks :=
  fold_left (fun r k => bind r (fun B => update_matrices_right P B k)) (rev (seq 0 N)) (Ok (repeat empty N, d_P0 D)).

(** dmrg.cc:141-142,162: the first eigenvector, and the first eigenvalue. *)
Definition neig : nat := Z.to_nat (Z.max 1 (d_neigenvalues D)).
Definition first_vector (n : nat) (V : list K) : tensor := mkT [n] (firstn n V).

(** dmrg.cc:133-139: the two parts of the Hamiltonian. *)
Definition one_site_parts (P : mps) (blk : list tensor) (k : nat) (dk : Z) : result (tensor * tensor) :=
  let a1 := dim (site P k) 0 in let b1 := dim (site P k) 2 in
  let Opli := block_site_interaction_left P blk k in
  let Opir := block_site_interaction_right P blk k in
  bind (local_term k) (fun Hk =>
    Ok (if (0 <? dk)%Z then (tadd Opli (kron2 (eye a1) Hk), Opir) else (Opli, tadd Opir (kron2 Hk (eye b1))))).

(** dmrg.cc:146-149: the matrix for small sizes; dmrg.cc:155-158: the product otherwise. *)
Definition one_site_matrix (P : mps) (k : nat) (Op : tensor * tensor) : tensor :=
  tadd (kron2 (fst Op) (eye (dim (site P k) 2))) (kron2 (eye (dim (site P k) 0)) (snd Op)).
Definition one_site_product (P : mps) (k : nat) (Op : tensor * tensor) (x : tensor) : tensor :=
  let a1 := dim (site P k) 0 in let i1 := dim (site P k) 1 in let b1 := dim (site P k) 2 in
  let y := tadd (reshape (fold (reshape (fst Op) [a1 * i1; a1 * i1]) 1 (reshape x [a1 * i1; b1]) 0) [a1 * i1 * b1])
                (reshape (fold (reshape x [a1; i1 * b1]) 1 (reshape (snd Op) [i1 * b1; i1 * b1]) 1) [a1 * i1 * b1]) in y.

(** dmrg.cc:114-173: minimize_single_site(P, k, dk).  abort() when Arpack fails. *)
Definition minimize_single_site (P : mps) (B : blocks) (k : nat) (dk : Z) : result (mps * blocks * R) :=
  let Pk := site P k in
  let a1 := dim Pk 0 in let i1 := dim Pk 1 in let b1 := dim Pk 2 in
  let n := (a1 * i1 * b1)%nat in
  bind (one_site_parts P (fst B) k dk) (fun Op =>
  bind (if (n <=? 10)%nat then Ok (eigs (one_site_matrix P k Op) neig (reshape Pk [n]))
        else match arpack (one_site_product P k Op) n neig (reshape Pk [n]) with Some r => Ok r | None => Abort end) (fun '(E, V) =>
  bind (checked_reshape (first_vector n V) [a1; i1; b1]) (fun Pk =>
  bind (set_canonical svd flag P (Z.of_nat k) Pk dk true) (fun P =>
  bind (if (0 <? dk)%Z then update_matrices_left P B k else update_matrices_right P B k) (fun B =>
  bind (first_energy E) (fun e => Ok (P, B, e))))))).

(** ** Two sites *)

(** tensor::kron2_sum(A, B). *)
Definition kron2_sum (A B : tensor) : tensor := tadd (kron2 A (eye (dim B 0))) (kron2 (eye (dim A 0)) B).

(** Conversion of double to int. *)
Definition to_int (x : R) : Z := if Rltb x 0 then (- Int_part (- x))%Z else Int_part x.

(** dmrg.cc:284-304, 364-388: the product and the matrix of the two-site algorithm.  direct_sum(A, B) is an external function of the
    tensor library, taken to be kron2_sum(A, B); only C71_product_refuted depends on this. *)
Definition two_site_product (a1 i1 j1 c1 : nat) (Opli Opij Opjr x : tensor) : tensor :=
  let L1 := (a1 * i1)%nat in let L2 := (j1 * c1)%nat in
  let Pj := reshape x [L1; L2] in
  reshape (tadd (tadd (mmult Opli Pj) (mmult Pj Opjr))
    (reshape (foldin (reshape Opij [i1; j1; i1 * j1]) 2 (reshape Pj [a1; i1 * j1; c1]) 1) [L1; L2])) [L1 * L2].
Definition two_site_matrix (a1 c1 : nat) (Opli Opij Opjr : tensor) : tensor :=
  tadd (kron2 (eye a1) (kron2 Opij (eye c1))) (kron2_sum Opli Opjr).

(** dmrg.cc:265-412: minimize_two_sites(P, k, dk, Dmax), for Q_values empty and no states in P0_.  None is error = true.
    The arguments of set_canonical_2_sites (include/mps/mps.h:186-191: site, sense, Dmax, tol, canonicalize_both = true) are
    given as (k, svd_tolerance, Dmax, false). *)
Definition minimize_two_sites (P : mps) (B : blocks) (k : nat) (dk : Z) (Dmax : Z) : result (option (mps * blocks * R)) :=
  let Pi := site P k in let Pj := site P (k + 1) in
  let a1 := dim Pi 0 in let i1 := dim Pi 1 in let j1 := dim Pj 1 in let c1 := dim Pj 2 in
  let n := (a1 * i1 * (j1 * c1))%nat in
  let P12 := reshape (fold Pi (rank Pi - 1) Pj 0) [n] in
  let Opli := block_site_interaction_left P (fst B) k in
  let Opjr := block_site_interaction_right P (fst B) (k + 1) in
  bind (local_term k) (fun Hi => bind (local_term (k + 1)) (fun Hj =>
  let Opij := tadd (tadd (h_interaction H k) (kron2 (eye i1) Hj)) (kron2 Hi (eye j1)) in
  match (if (n <=? 10)%nat then Some (eigs (two_site_matrix a1 c1 Opli Opij Opjr) neig P12)
         else arpack (two_site_product a1 i1 j1 c1 Opli Opij Opjr) n neig P12) with
  | None => Ok None
  | Some (E, V) =>
      bind (set_canonical_2_sites svd flag P (first_vector n V) (Z.of_nat k) (to_int (d_svd_tolerance D)) Dmax 0 true) (fun P =>
      bind (if (0 <? dk)%Z then update_matrices_left P B k else update_matrices_right P B (k + 1)) (fun B =>
      bind (first_energy E) (fun e => Ok (Some (P, B, e)))))
  end)).

(** dmrg.cc:461-478: the inner loop over the sites; None: error, with the state at that moment. *)
Fixpoint dmrg_sites (Dmax : Z) (dk : Z) (ks : list nat) (P : mps) (B : blocks) (E : R) : result (mps * option (blocks * R)) :=
  match ks with
  | [] => Ok (P, Some (B, E))
  | k :: ks =>
      bind (if (Dmax =? 0)%Z then bind (minimize_single_site P B k dk) (fun r => Ok (Some r)) else minimize_two_sites P B k dk Dmax) (fun r =>
      match r with
      | None => Ok (P, None)
      | Some (P, B, e) => dmrg_sites Dmax dk ks P B e
      end)
  end.

(** dmrg.cc:447-460: the sites of a sweep. *)
Definition dmrg_route (Dmax : Z) (right : bool) : list nat :=
  if (Dmax =? 0)%Z then (if right then seq 0 N else rev (seq 1 (N - 1)))
  else if right then seq 0 (N - 1) else if (N <? 3)%nat then [] else rev (seq 0 (N - 1)).

(** dmrg.cc:441-515: the loop over the sweeps; [n] sweeps left, [first] is iter = 0.  An empty sweep is skipped (continue). *)
Fixpoint dmrg_loop (Dmax : Z) (n : nat) (first right : bool) (failures : Z) (P : mps) (B : blocks) (E : R) : result (mps * R) :=
  match n with
  | O => Ok (P, E)
  | S n =>
      match dmrg_route Dmax right with
      | [] => dmrg_loop Dmax n false (negb right) failures P B E
      | ks =>
          bind (dmrg_sites Dmax (if right then 1 else -1)%Z ks P B 0) (fun '(P, r) =>
          match r with
          | None => bind (canonical_form svd flag P (-1)) (fun P => Ok (P, E))
          | Some (B, newE) =>
              if first then dmrg_loop Dmax n false (negb right) failures P B newE
              else if Rltb (Rabs (newE - E)) (d_tolerance D) then Ok (P, newE)
              else if Rltb (1 / 10 ^ 14 * Rabs newE) (newE - E) then
                if (d_allow_E_growth D <=? failures)%Z then Ok (P, newE)
                else dmrg_loop Dmax n false (negb right) (failures + 1) P B newE
              else dmrg_loop Dmax n false (negb right) failures P B newE
          end)
      end
  end.

(** dmrg.cc:427-521: minimize(P, Dmax, E).  The result: the new *P and the returned energy. *)
Definition dmrg_minimize (P : mps) (Dmax : Z) (E : R) : result (mps * R) :=
  bind (canonical_form svd flag P (-1)) (fun P =>
  bind (init_matrices P) (fun B =>
    dmrg_loop Dmax (Z.to_nat (d_sweeps D)) true true 0 P B E)).

End Model.
