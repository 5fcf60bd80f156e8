(** * Model of mps::simplify (src/mps/mps_simplify.cc, src/mps/mps_simplify_many.cc) *)
From Coq Require Import Reals Bool List Arith ZArith Lia.
From Verif Require Import Scalar RScal Tensor Spec MpsModel MpoSpec CanonModel SimplifyModel.
Import ListNotations.

Section Model.
Context {RS : RScal}.

(** mps_simplify_many.cc:198-236, next_projector(Ml, Mr, Qk).  Dimensions are read in the order of the
    calls to get_dimensions(), a later one replaces an earlier one. *)
Definition next_projector (Ml Mr Qk : tensor) : tensor :=
  if is_empty Mr then
    if is_empty Ml then Qk
    else
      let a1 := dim Ml 0 in let a2 := dim Ml 2 in
      let b2 := dim Qk 0 in let i1 := dim Qk 1 in let b1 := dim Qk 2 in
      let Ml := reshape (permute Ml 0 3) [b2 * b1; a2; a1] in
      let Pk := reshape (permute Qk 1 2) [b2 * b1; i1] in
      permute (reshape (fold Ml 0 Pk 0) [a2; a1; i1]) 1 2
  else if is_empty Ml then
      let a1 := dim Mr 0 in let a2 := dim Mr 2 in
      let b2 := dim Qk 0 in let i1 := dim Qk 1 in let b1 := dim Qk 2 in
      let Mr := reshape (permute Mr 0 3) [b2 * b1; a2; a1] in
      let Pk := reshape (permute Qk 1 2) [b2 * b1; i1] in
      permute (reshape (fold Mr 0 Pk 0) [a2; a1; i1]) 1 2
  else
      let a2 := dim Ml 2 in let i1 := dim Qk 1 in
      let a3 := dim Mr 0 in let b3 := dim Mr 1 in let a1 := dim Mr 2 in let b1 := dim Mr 3 in
      let Pk := reshape (fold Qk 0 Ml 3) [i1; b3 * a1 * b1; a2] in
      let Mr := reshape (permute (permute Mr 2 3) 0 2) [b3 * a1 * b1; a3] in
      permute (reshape (fold Pk 1 Mr 0) [i1; a2; a3]) 0 1.

(** linalg::svd or block_svd, see CanonModel *)
Variable svd : tensor -> tensor * list R * tensor.
(** FLAGS.get(MPS_TRUNCATION_TOLERANCE) *)
Variable flag : R.
(** FLAGS.get(MPS_SIMPLIFY_TOLERANCE) *)
Variable tolerance : R.

(** ** mps_simplify_many.cc: MPSManySimplifier *)
Section Many.
(** The fields Q and weights of the simplifier.
    SIMPLIFICATION: all states have the same number of sites (operator[] of a state asserts the range). *)
Variable ws : list K.
Variable Q : list mps.

(** mps_simplify_many.cc:104: L, the size of the first vector *)
Definition many_L : nat := length (nth 0 Q []).

(** mps_simplify_many.cc:112, 128-130: A has L+2 rows and matrix(site,vector) is A[site+1][vector]; here the
    argument is the row, site+1. *)
Definition matrix (A : list (list tensor)) (row vector : nat) : tensor := nth vector (nth row A []) empty.

(** mps_simplify_many.cc:115-125: normQ2 *)
Definition many_normQ2 : result R :=
  bind (fold_left (fun x i =>
          fold_left (fun x j =>
            bind x (fun x =>
            bind (scprod (nth i Q []) (nth j Q []) 1) (fun s =>
              let y := (s * kconj (nth i ws 0%K) * nth j ws 0%K)%K in
              Ok (if Nat.eqb i j then (x + y)%K else (x + rinj (2 * kre y)%R)%K))))
            (seq i (length Q - i)) x)
          (seq 0 (length Q)) (Ok 0%K)) (fun x => Ok (kre x)).

(** mps_simplify_many.cc:145-157: update_matrices(site, Pk, sense) *)
Definition update_matrices (A : list (list tensor)) (k : nat) (Pk : tensor) (sense : Z) : list (list tensor) :=
  replace_nth (k + 1)
    (map (fun i => prop_matrix (matrix A (if (0 <? sense)%Z then k else k + 2) i) sense Pk (site (nth i Q []) k) None)
         (seq 0 (length Q))) A.

(** mps_simplify_many.cc:169-185: initialize_matrices(P, sense) *)
Definition initialize_matrices (P : mps) (sense : Z) : result (list (list tensor)) :=
  let A := repeat (repeat empty (length Q)) (many_L + 2) in
  if (0 <? sense)%Z then
    Ok (fold_left (fun A k => update_matrices A k (site P k) (-1)) (rev (seq 0 many_L)) A)
  else if (sense <? 0)%Z then
    Ok (fold_left (fun A k => update_matrices A k (site P k) 1) (seq 0 many_L) A)
  else Abort.

(** mps_simplify_many.cc:187-196: scalar_product(site) *)
Definition scalar_product (A : list (list tensor)) (k : nat) : K :=
  fold_left (fun M i => (M + elem0 (prop_close (matrix A (k + 1) i)) * nth i ws 0)%K) (seq 0 (length Q)) 0%K.

(** mps_simplify_many.cc:247-260: next_projector(site): output = sum of weights[i] * ... *)
Definition projector_sum (f : nat -> tensor) : tensor :=
  fold_left (fun out i => tadd out (tscale (nth i ws 0%K) (f i))) (seq 1 (length Q - 1)) (tscale (nth 0 ws 0%K) (f 0%nat)).
Definition next_projector_at (A : list (list tensor)) (k : nat) : tensor :=
  projector_sum (fun i => next_projector (matrix A k i) (matrix A (k + 2) i) (site (nth i Q []) k)).

(** mps_simplify_many.cc:306-309, 315-318: one step of the one-site algorithm *)
Definition many_step (sense : Z) (st : result (mps * list (list tensor) * tensor)) (k : nat)
  : result (mps * list (list tensor) * tensor) :=
  bind st (fun '(P, A, _) =>
  bind (set_canonical svd flag P (Z.of_nat k) (next_projector_at A k) sense false) (fun P =>
  bind (site_at P (Z.of_nat k)) (fun Pk => Ok (P, update_matrices A k Pk sense, Pk)))).

(** mps_simplify_many.cc:303-322: one sweep *)
Definition many_sweep (sense : Z) (P : mps) (A : list (list tensor)) : result (mps * list (list tensor) * tensor) :=
  fold_left (many_step (if (0 <? sense)%Z then 1 else -1)) (if (0 <? sense)%Z then seq 0 many_L else rev (seq 0 many_L)) (Ok (P, A, empty)).

(** mps_simplify_many.cc:345-363: next_projector_2_sites(site).  i1 and i2 are those of the last vector. *)
Definition next_projector_2_sites (A : list (list tensor)) (k : nat) : tensor :=
  let pair i := fold (site (nth i Q []) k) (rank (site (nth i Q []) k) - 1) (site (nth i Q []) (k + 1)) 0 in
  let out := projector_sum (fun i => next_projector (matrix A k i) (matrix A (k + 3) i)
                 (reshape (pair i) [dim (pair i) 0; dim (pair i) 1 * dim (pair i) 2; dim (pair i) 3])) in
  let last := pair (length Q - 1)%nat in
  reshape out [dim out 0; dim last 1; dim last 2; dim out 2].

(** mps_simplify_many.cc:411-413, 420-422: one step of the two-site algorithm; canonicalize_both is true by
    default (include/mps/mps.h:187) *)
Definition two_step (Dmax : Z) (tol : R) (sense : Z) (st : result (mps * list (list tensor))) (k : nat)
  : result (mps * list (list tensor)) :=
  bind st (fun '(P, A) =>
  let v := next_projector_2_sites A (if (0 <? sense)%Z then k else k - 1) in
  bind (set_canonical_2_sites svd flag P v (Z.of_nat k) sense Dmax tol true) (fun P =>
  bind (site_at P (Z.of_nat k)) (fun Pk => Ok (P, update_matrices A k Pk sense)))).

(** mps_simplify_many.cc:408-427: one sweep of the two-site algorithm *)
Definition two_sweep (Dmax : Z) (tol : R) (sense : Z) (P : mps) (A : list (list tensor))
  : result (mps * list (list tensor) * tensor) :=
  let last := (if (0 <? sense)%Z then many_L - 1 else 0)%nat in
  let sense := (if (0 <? sense)%Z then 1 else -1)%Z in
  bind (fold_left (two_step Dmax tol sense) (if (0 <? sense)%Z then seq 0 (many_L - 1) else rev (seq 1 (many_L - 1))) (Ok (P, A)))
    (fun '(P, A) => bind (site_at P (Z.of_nat last)) (fun Pk => Ok (P, update_matrices A last Pk sense, Pk))).

(** mps_simplify_many.cc:328-330, 433-435: the conditions that end the loop *)
Definition many_stop (normQ2 olderr err : R) : bool :=
  Rltb (Rabs (olderr - err)) (1 / 100000 * Rabs normQ2) || Rltb err (tolerance * normQ2) || Rltb err (1 / 100000000000000).

(** mps_simplify_many.cc:301-341, 406-446: the loop over the sweeps; the result is P, *sense and the error.
    SIMPLIFICATION: the division by sqrt(normP2) = 0 is Abort. *)
Fixpoint many_loop (sweep : Z -> mps -> list (list tensor) -> result (mps * list (list tensor) * tensor))
  (normQ2 : R) (normalize : bool) (sweeps : nat) (P : mps) (A : list (list tensor)) (sense : Z) (err : R)
  : result (mps * Z * R) :=
  match sweeps with
  | O => Ok (P, sense, err)
  | S n =>
      bind (sweep sense P A) (fun '(P, A, Pk) =>
        let last := (if (0 <? sense)%Z then many_L - 1 else 0)%nat in
        let scp := kre (scalar_product A last) in
        let normP2 := kre (tensor_scprod Pk Pk) in
        let olderr := err in
        let err := Rabs (normQ2 + normP2 - 2 * scp) in
        if many_stop normQ2 olderr err then
          if normalize then
            if Req_EM_T normP2 0 then Abort
            else Ok (replace_nth last (tscale (rinj (/ sqrt normP2)%R) Pk) P, (- sense)%Z, err)
          else Ok (P, sense, err)
        else many_loop sweep normQ2 normalize n P A (- sense)%Z err)
  end.

(** mps_simplify_many.cc:96-126, 282-342, 385-447 and mps_simplify_many_d.cc:27-32: the constructor (at least one
    vector, L <> 1) followed by simplify(P, sense, sweeps, normalize).  A null pointer sense stands for sense = 1. *)
Definition simplify_with (sweep : Z -> mps -> list (list tensor) -> result (mps * list (list tensor) * tensor))
  (P : mps) (sense : Z) (sweeps : nat) (normalize : bool) : result (mps * Z * R) :=
  if Nat.eqb (length Q) 0 then Abort else
  if Nat.eqb many_L 1 then Abort else
  bind many_normQ2 (fun normQ2 =>
  bind (initialize_matrices P sense) (fun A =>
    many_loop sweep normQ2 normalize (if Nat.ltb sweeps 1 then 1%nat else sweeps) P A sense (normQ2 * 10)%R)).

Definition simplify_many (P : mps) (sense : Z) (sweeps : nat) (normalize : bool) : result (mps * Z * R) :=
  simplify_with many_sweep P sense sweeps normalize.
(** mps_simplify_many2_d.cc:26-32 *)
Definition simplify_many2 (P : mps) (Dmax : Z) (tol : R) (sense : Z) (sweeps : nat) (normalize : bool) : result (mps * Z * R) :=
  simplify_with (two_sweep Dmax tol) P sense sweeps normalize.
End Many.

(** ** mps_simplify.cc: one state *)

(** mps_simplify.cc:63-79: normalize_this(Pk, sense) *)
Definition normalize_this (Pk : tensor) (sense : Z) : tensor :=
  let a1 := dim Pk 0 in let i1 := dim Pk 1 in let a2 := dim Pk 2 in
  if (0 <? sense)%Z then
    let '(U, _, _) := svd (reshape Pk [a1 * i1; a2]) in reshape U [a1; i1; Nat.min (a1 * i1) a2]
  else
    let '(_, _, V) := svd (reshape Pk [a1; i1 * a2]) in reshape V [Nat.min a1 (i1 * a2); i1; a2].

(** mps_simplify.cc:81-129: build_next_projector().  The three cases are those of next_projector above; both
    matrices empty makes get_dimensions() fail; a non-empty Nl or Nr aborts. *)
Definition build_next_projector (Ml Mr Nl Nr Qk : tensor) : result tensor :=
  if is_empty Mr && is_empty Ml then Abort
  else if negb (is_empty Nl) || negb (is_empty Nr) then Abort
  else Ok (next_projector Ml Mr Qk).

(** mps_simplify.cc:173-201: initial environments A (and B if periodicbc) *)
Definition simple_init (P Q : mps) (sense : Z) : mps :=
  if (0 <? sense)%Z then
    fold_left (fun A k => replace_nth k (prop_matrix (site A (k + 1)) (-1) (site P k) (site Q k) None) A)
      (rev (seq 0 (length P))) (repeat empty (length P))
  else
    fold_left (fun A k => replace_nth k (prop_matrix (if Nat.eqb k 0 then empty else site A (k - 1)) 1 (site P k) (site Q k) None) A)
      (seq 0 (length P)) (repeat empty (length P)).

(** P, A, B, the running matrices M (Ml or Mr) and N (Nl or Nr), and Pk *)
Definition simple_state : Type := (mps * mps * mps * tensor * tensor * tensor)%type.

(** mps_simplify.cc:212-225, 238-251: one site of a sweep *)
Definition simple_step (periodicbc : bool) (Q : mps) (sense : Z) (st : result simple_state) (k : nat) : result simple_state :=
  bind st (fun '(P, A, B, M, N, _) =>
    let right := (0 <? sense)%Z in
    let inside := if right then Nat.ltb k (length P - 1) else Nat.ltb 0 k in
    let next := if right then (k + 1)%nat else (k - 1)%nat in
    let M' := if inside then site A next else empty in
    let N' := if inside then site B next else empty in
    bind (if right then build_next_projector M M' N N' (site Q k) else build_next_projector M' M N' N (site Q k)) (fun Pk =>
    let Pk := if inside then normalize_this Pk sense else Pk in
    let M := prop_matrix M sense Pk (site Q k) None in
    let N := if periodicbc then prop_matrix N sense Pk Pk None else N in
    Ok (replace_nth k Pk P, replace_nth k M A, if periodicbc then replace_nth k N B else B, M, N, Pk))).

Definition simple_sweep (periodicbc : bool) (Q : mps) (sense : Z) (P A B : mps) : result simple_state :=
  fold_left (simple_step periodicbc Q (if (0 <? sense)%Z then 1 else -1))
    (if (0 <? sense)%Z then seq 0 (length P) else rev (seq 0 (length P))) (Ok (P, A, B, empty, empty, empty)).

(** mps_simplify.cc:202-277: the loop over the sweeps.  The value of prop_matrix_close(M) is discarded
    (lines 227, 253) and scp = real(M[0]).
    SIMPLIFICATION: a division by sqrt(normQ2*normP2) = 0 is Abort. *)
Fixpoint simple_loop (periodicbc : bool) (Q : mps) (normQ2 : R) (normalize : bool) (sweeps : nat)
  (P A B : mps) (sense : Z) (err : R) : result (mps * Z * R) :=
  match sweeps with
  | O => Ok (P, sense, err)
  | S n =>
      bind (simple_sweep periodicbc Q sense P A B) (fun '(P, A, B, M, N, Pk) =>
        let scp := kre (elem0 M) in
        let normP2 := if periodicbc then kre (elem0 N) else kre (tensor_scprod Pk Pk) in
        let olderr := err in
        if Req_EM_T (normQ2 * normP2) 0 then Abort else
        let err := (1 - scp / sqrt (normQ2 * normP2))%R in
        if obc_stop tolerance olderr err then
          if normalize then
            let last := (if (0 <? sense)%Z then length P - 1 else 0)%nat in
            Ok (replace_nth last (tscale (rinj (/ sqrt normP2)%R) Pk) P, (- sense)%Z, err)
          else Ok (P, sense, err)
        else simple_loop periodicbc Q normQ2 normalize n P A B (- sense)%Z err)
  end.

(** src/mps/mps_expected1.cc:49-57: the square of norm2(a) *)
Definition norm_squared (a : mps) : result R :=
  bind (norm2_squared a) (fun v => let n := sqrt (Rabs (kre v)) in Ok (n * n)%R).

(** mps_simplify.cc:152-278: do_simplify(P, Q, sense, periodicbc, sweeps, normalize): P, *sense, error *)
Definition simplify_one (P Q : mps) (sense : Z) (periodicbc : bool) (sweeps : nat) (normalize : bool)
  : result (mps * Z * R) :=
  bind (norm_squared Q) (fun normQ2 =>
  if Nat.eqb sweeps 0 then
    bind (norm_squared P) (fun normP2 => bind (scprod Q P 1) (fun s => Ok (P, sense, (normQ2 + normP2 - 2 * kre s)%R)))
  else if Nat.eqb (length Q) 1 then Abort
  else if (sense =? 0)%Z then Abort
  else
    let A := simple_init P Q sense in
    let B := if periodicbc then simple_init P P sense else repeat empty (length P) in
    simple_loop periodicbc Q normQ2 normalize sweeps P A B sense 1).

End Model.
