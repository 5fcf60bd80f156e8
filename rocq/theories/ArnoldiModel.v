(** * Model of ArnoldiSolver (src/evolve/arnoldi.cc) *)
From Coq Require Import Reals Bool List Arith ZArith Lia.
From Verif Require Import Scalar RScal Tensor Spec MpsModel MpoSpec MpoModel CanonModel SweepModel FormModel SimplifyModel.
Import ListNotations.

Section Model.
Context {RS : RScal}.
(** linalg::svd or block_svd, see CanonModel *)
Variable svd : tensor -> tensor * list R * tensor.
(** FLAGS.get(MPS_TRUNCATION_TOLERANCE), MPS_SIMPLIFY_ALGORITHM == MPS_SINGLE_SITE_ALGORITHM, MPS_SIMPLIFY_TOLERANCE *)
Variable flag : R.
Variable algorithm : bool.
Variable tolerance : R.
(** FLAGS.get(MPS_ARNOLDI_SIMPLIFY_INTERNAL_SWEEPS) and ..._FINAL_SWEEPS (2 and 4, src/tools/flags.cc:44-45) *)
Variables internal_sweeps final_sweeps : nat.
(** linalg::solve_with_svd(A, B) with a matrix B, linalg::expm, linalg::eig: external functions. *)
Variable msolve : tensor -> tensor -> tensor.
Variable expm : tensor -> tensor.
Variable eig : tensor -> list K * tensor.

(** arnoldi.cc:45-65: the constructors store the number of vectors and abort if it is out of range. *)
Definition arnoldi_new (nvectors : Z) : result nat :=
  if (nvectors <=? 0)%Z || (30 <=? nvectors)%Z then Abort else Ok (Z.to_nat nvectors).

(** The matrices N and Heff (arnoldi.cc:76-77) are kept as functions of two indices; the matrix passed on at the end has
    the size of the basis, both when the loop ran to its end and when it stopped earlier (arnoldi.cc:147-149). *)
Definition table := nat -> nat -> K.
Definition set (M : table) (i j : nat) (x : K) : table := fun a b => if Nat.eqb a i && Nat.eqb b j then x else M a b.

(** arnoldi.cc:107-122: vectors and coefficients of the new vector,
    H v[ndx-1] - Heff(ndx-1,ndx-1) v[ndx-1] - Heff(ndx-1,ndx-2) v[ndx-2]. *)
Definition new_vectors (Hcurrent : mps) (states : list mps) (ndx : nat) : list mps :=
  Hcurrent :: nth (ndx - 1) states [] :: (if Nat.ltb 1 ndx then [nth (ndx - 2) states []] else []).
Definition new_coeffs (Heff : table) (ndx : nat) : list K :=
  1%K :: (kopp (Heff (ndx - 1) (ndx - 1))) :: (if Nat.ltb 1 ndx then [kopp (Heff (ndx - 1) (ndx - 2))] else []).

(** The square of the norm of the combination, normQ2 of simplify_obc.cc:52. *)
Definition target_norm2 (w : list K) (Q : list mps) (P : mps) : result R :=
  bind (new_sweeper (Z.of_nat (length P)) 1) (fun s =>
  bind (lform_new w Q P (sweeper_site s)) (fun lf =>
  bind (lf_norm2_v lf) (fun v => Ok (sqrt (kabs v) * sqrt (kabs v))%R))).

(** arnoldi.cc:123-151: the new vector, normalized and brought to canonical form, with its error err/n; None when the
    loop stops because n < 1e-15.  tolerance_ is always zero (arnoldi.cc:46,57), so the second test never holds.
    SIMPLIFICATION: if the combination is the zero vector, or n = 0, the C++ code divides by zero, does not use the NaNs
    it gets, and stops because n = 0; the model stops directly. *)
Definition new_vector (Dmax : Z) (w : list K) (Q : list mps) (P : mps) : result (option (mps * R)) :=
  bind (target_norm2 w Q P) (fun normQ2 =>
  if Req_EM_T normQ2 0 then Ok None else
  bind (simplify_obc svd flag algorithm tolerance P w Q (-1) internal_sweeps false (2 * Dmax) MPS_DEFAULT_TOLERANCE) (fun '(_, _, _, n) =>
  if Rltb n (1 / 10 ^ 15) then Ok None else
  bind (simplify_obc svd flag algorithm tolerance P w Q (-1) internal_sweeps true (2 * Dmax) MPS_DEFAULT_TOLERANCE) (fun '(current, sense, err, n) =>
  bind (if (sense * -1 <? 0)%Z then canonical_form svd flag current (-1) else Ok current) (fun current =>
  Ok (Some (current, (err / n)%R)))))).

(** arnoldi.cc:161-168: the scalar products with the previous states. *)
Definition fill_pair (states : list mps) (current Hcurrent : mps) (ndx : nat) (r : result (table * table)) (n : nat) : result (table * table) :=
  bind r (fun '(N, Heff) =>
  bind (scprod (nth n states []) current (-1)) (fun a =>
  bind (scprod (nth n states []) Hcurrent (-1)) (fun b =>
    Ok (set (set N n ndx a) ndx n (kconj a), set (set Heff n ndx b) ndx n (kconj b))))).

(** arnoldi.cc:94-171: the loop over ndx.  [k] counts the iterations left.  The result: states, N, Heff, errors and the
    last vector. *)
Fixpoint arnoldi_loop (H : mpo) (Dmax : Z) (k ndx : nat) (states : list mps) (N Heff : table) (errors : list R) (current Hcurrent : mps)
  : result (list mps * table * table * list R * mps) :=
  match k with
  | O => Ok (states, N, Heff, errors, current)
  | S k =>
      bind (new_vector Dmax (new_coeffs Heff ndx) (new_vectors Hcurrent states ndx) Hcurrent) (fun o =>
      match o with
      | None => Ok (states, N, Heff, errors, Hcurrent)
      | Some (current, e) =>
          bind (apply_canonical svd flag H current (-1) true) (fun Hcurrent =>
          bind (fold_left (fill_pair states current Hcurrent ndx) (seq 0 ndx) (Ok (N, Heff))) (fun '(N, Heff) =>
          bind (scprod current Hcurrent (-1)) (fun x =>
            arnoldi_loop H Dmax k (S ndx) (states ++ [current]) (set N ndx ndx 1%K) (set Heff ndx ndx (rinj (kre x)))
              (errors ++ [e]) current Hcurrent)))
      end)
  end.

(** arnoldi.cc:76-171: the basis. *)
Definition arnoldi_basis (H : mpo) (max_states : nat) (psi : mps) (Dmax : Z) : result (list mps * table * table * list R * mps) :=
  bind (apply_canonical svd flag H psi (-1) true) (fun Hcurrent =>
  bind (normal_form svd flag psi (-1)) (fun v0 =>
  bind (scprod psi Hcurrent (-1)) (fun x =>
    arnoldi_loop H Dmax (max_states - 1) 1 [v0] (set (fun _ _ => 0%K) 0 0 1%K) (set (fun _ _ => 0%K) 0 0 (rinj (kre x))) [] psi Hcurrent))).

Definition to_matrix (n : nat) (M : table) : tensor := mk [n; n] (fun is => M (nth 0 is 0) (nth 1 is 0)).

(** arnoldi.cc:30-42: ground_state(Heff, N): the eigenvector whose eigenvalue has the smallest real part. *)
Fixpoint argmin (l : list R) : nat :=
  match l with
  | [] => 0
  | x :: r => match r with [] => 0 | _ => if Rltb (nth (argmin r) r 0%R) x then S (argmin r) else 0 end
  end.
Definition ground_state (Heff N : tensor) : list K :=
  let '(E, U) := eig (msolve N Heff) in
  map (fun i => get U [i; argmin (map kre E)]) (seq 0 (dim U 0)).

(** arnoldi.cc:178-186: the coefficients of the new state; [idt] is -i times the time step. *)
Definition arnoldi_coef (idt : K) (n : nat) (N Heff : table) : list K :=
  if keqb idt 0%K then ground_state (to_matrix n Heff) (to_matrix n N)
  else let U := expm (tscale idt (msolve (to_matrix n N) (to_matrix n Heff))) in map (fun i => get U [i; 0]) (seq 0 n).

(** arnoldi.cc:212: scprod(errors, square(abs(coef))).  errors has one element less than coef; the elements of coef beyond
    the size of errors are not read. *)
Fixpoint weighted (errors : list R) (coef : list K) : R :=
  match errors, coef with
  | e :: errors', c :: coef' => (e * kmod2 c + weighted errors' coef')%R
  | _, _ => 0%R
  end.

(** arnoldi.cc:67-217: one_step(psi, Dmax).  The result is the new state and the error.  arnoldi.cc:206-211 brings `current`,
    not psi, to canonical form and drops it. *)
Definition arnoldi_step (H : mpo) (max_states : nat) (idt : K) (psi : mps) (Dmax : Z) : result (mps * R) :=
  bind (arnoldi_basis H max_states psi Dmax) (fun '(states, N, Heff, errors, current) =>
  let coef := arnoldi_coef idt (length states) N Heff in
  bind (simplify_obc svd flag algorithm tolerance psi coef states (-1) final_sweeps true Dmax MPS_DEFAULT_TOLERANCE) (fun '(psi, sense, err, _) =>
  bind (if (sense * -1 <? 0)%Z then canonical_form svd flag current (-1) else Ok current) (fun _ =>
    Ok (psi, (err + weighted errors coef)%R)))).

End Model.
