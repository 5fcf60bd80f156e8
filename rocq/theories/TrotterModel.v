(** * Model of src/evolve/trotter_unitary.cc and src/evolve/solver_trotter{2,3,4}.cc *)
From Coq Require Import Reals Bool List Arith ZArith Lia.
From Verif Require Import Scalar RScal RealInst Tensor Spec MpsModel CanonModel HamModel SparseModel.
Import ListNotations.

(** flags.cc:32: MPS_TRUNCATE_EPSILON *)
Definition MPS_TRUNCATE_EPSILON : R := DBL_EPSILON.

(** include/mps/time_evolve.h:102-103: struct Unitary *)
Section Unitary.
Context {RS : RScal}.
Record unitary := mkU { u_k0 : nat; u_kN : nat; u_U : list tensor }.

(** linalg::expm (external) *)
Variable expm : tensor -> tensor.

(** trotter_unitary.cc:46-57: k0 and kN.  The differences of int are never negative where it matters:
    for H.size() = 0 both versions end with kN = k0. *)
Definition u_range (N k : nat) : nat * nat :=
  let k0 := k in
  let kN := if xorb (Nat.odd k) (Nat.odd N) then (N - 1)%nat else N in
  let kN := if Nat.ltb (kN - k0) 2 then k0 else kN in
  (k0, kN).

(** lines 66 and 70-74: the generator of a single site and of a pair.  0.5 * Hloc is exact. *)
Definition half : K := rinj (/ 2)%R.
Definition u_single (H : hamiltonian) (i : nat) : tensor := tscale half (h_local H i).
Definition u_pair (H : hamiltonian) (i : nat) : result tensor :=
  let i1 := eye (h_dim H i) in
  let i2 := eye (h_dim H (i + 1)) in
  bind (sadd (h_interaction H i) (kron2 (tscale half (h_local H i)) i2)) (fun Hi =>
    sadd Hi (kron2 i1 (tscale half (h_local H (i + 1))))).

(** line 78: expm(Hi * dt) needs a square matrix. *)
Definition u_exp (Hi : tensor) (dt : K) : result tensor :=
  if Nat.eqb (rank Hi) 2 && Nat.eqb (dim Hi 0) (dim Hi 1) then Ok (expm (tscale dt Hi)) else Abort.

(** lines 62-79: the loop over the sites; [fuel] bounds the number of iterations. *)
Fixpoint u_fill (H : hamiltonian) (dt : K) (k0 kN : nat) (fuel i : nat) (U : list tensor) : result (list tensor) :=
  match fuel with
  | O => Ok U
  | S fuel' =>
      if Nat.ltb i (h_size H) then
        if Nat.ltb i k0 || Nat.leb kN i then
          bind (u_exp (u_single H i) dt) (fun u => u_fill H dt k0 kN fuel' (i + 1) (replace_nth i u U))
        else
          bind (u_pair H i) (fun Hi => bind (u_exp Hi dt) (fun u => u_fill H dt k0 kN fuel' (i + 2) (replace_nth i u U)))
      else Ok U
  end.

(** lines 28-84: Unitary(H, k, dt), where [dt] is the number computed at line 61 (see [rotate]). *)
Definition unitary_new (H : hamiltonian) (k : nat) (dt : K) : result unitary :=
  if Nat.ltb 1 k then Abort else
  let '(k0, kN) := u_range (h_size H) k in
  bind (u_fill H dt k0 kN (h_size H) 0 (repeat empty (h_size H))) (fun U => Ok (mkU k0 kN U)).

Variable svd : tensor -> tensor * list R * tensor.
Variable flag : R.

(** lines 86-101: apply_onto_one_site(P, Uloc, k, dk, max_a2) *)
Definition apply_onto_one_site (P : mps) (Uloc : tensor) (k : nat) (dk : Z) (max_a2 : nat) : result mps :=
  bind (site_at P (Z.of_nat k)) (fun P1 =>
  let P1 := if is_empty Uloc then P1 else foldin Uloc (rank Uloc - 1) P1 1 in
  if Nat.eqb max_a2 0 then Ok (replace_nth k P1 P)
  else set_canonical svd flag P (Z.of_nat k) P1 dk true).

(** lines 103-177: apply_onto_two_sites(P, U12, k1, k1+1, dk, tolerance, max_a2).  Returns the state and the
    accumulated error; debug output is not modelled. *)
Definition apply_onto_two_sites (P : mps) (U12 : tensor) (k1 : nat) (dk : Z) (tol : R) (max_a2 : nat) : result (mps * R) :=
  let k2 := (k1 + 1)%nat in
  bind (site_at P (Z.of_nat k1)) (fun A => bind (site_at P (Z.of_nat k2)) (fun B =>
  let a1 := dim A 0 in let i1 := dim A 1 in
  let i2 := dim B 1 in let a3 := dim B 2 in
  let T := reshape (fold A (rank A - 1) B 0) [a1; i1 * i2; a3] in
  let T := if is_empty U12 then T else foldin U12 (rank U12 - 1) T 1 in
  let '(P1, s, P2) := svd (reshape T [a1 * i1; i2 * a3]) in
  let '(P1, P2) := if (0 <? dk)%Z then (P1, scale P2 0 s) else (scale P1 1 s, P2) in
  let a2 := length s in
  let new_a2 := where_to_truncate flag s tol (Z.of_nat (if Nat.eqb max_a2 0 then a2 else max_a2)) in
  let '(P1, P2) := if Nat.eqb new_a2 a2 then (P1, P2) else (change_dimension P1 1 new_a2, change_dimension P2 0 new_a2) in
  let err := fold_right (fun x r => (x * x + r)%R) 0%R (skipn new_a2 s) in
  let P1 := reshape P1 [a1; i1; new_a2] in
  let P2 := reshape P2 [new_a2; i2; a3] in
  if Nat.eqb max_a2 0 then Ok (replace_nth k2 P2 (replace_nth k1 P1 P), err)
  else if (0 <? dk)%Z then
    bind (set_canonical svd flag (replace_nth k1 P1 P) (Z.of_nat k2) P2 dk true) (fun P => Ok (P, err))
  else
    bind (set_canonical svd flag (replace_nth k2 P2 P) (Z.of_nat k1) P1 dk true) (fun P => Ok (P, err)))).

Definition u_at (u : unitary) (k : nat) : tensor := nth k (u_U u) empty.

(** lines 204-247: apply(psi, sense, tolerance, Dmax, normalize).  The vector U has one element per site of
    the Hamiltonian; reading past its end is a failure.  Returns the state, the new sense and the error. *)
Definition apply_singles (u : unitary) (ks : list nat) (sense : Z) (Dmax : nat) (r : result (mps * R)) : result (mps * R) :=
  fold_left (fun r k => bind r (fun '(P, e) => bind (apply_onto_one_site P (u_at u k) k sense Dmax) (fun P => Ok (P, e)))) ks r.
Definition apply_pairs (u : unitary) (ks : list nat) (sense : Z) (tol : R) (Dmax : nat) (r : result (mps * R)) : result (mps * R) :=
  fold_left (fun r k => bind r (fun '(P, e) =>
      bind (apply_onto_two_sites P (u_at u k) k sense tol Dmax) (fun '(P, e') => Ok (P, (e + e')%R)))) ks r.
(** k0, k0+2, ... below kN *)
Definition pair_starts (k0 kN : nat) : list nat := map (fun n => k0 + 2 * n)%nat (seq 0 ((kN - k0 + 1) / 2)).

Definition u_apply (u : unitary) (psi : mps) (sense : Z) (tol : R) (Dmax : nat) (normalize : bool) : result (mps * Z * R) :=
  if Nat.ltb (length (u_U u)) (length psi) then Abort else
  let sense := if Z.eqb sense 0 then 1%Z else sense in
  let L := length psi in
  let k0 := u_k0 u in let kN := u_kN u in
  let start := Ok (psi, 0%R) in
  bind (if (0 <? sense)%Z then
          let r := apply_singles u (seq 0 k0) sense Dmax start in
          let r := apply_pairs u (pair_starts k0 kN) sense tol Dmax r in
          apply_singles u (seq kN (L - kN)) sense Dmax r
        else
          let r := apply_singles u (rev (seq kN (L - kN))) sense Dmax start in
          let r := apply_pairs u (rev (pair_starts k0 kN)) sense tol Dmax r in
          apply_singles u (rev (seq 0 k0)) sense Dmax r) (fun '(psi, err) =>
  bind (if normalize then normal_form svd flag psi sense else Ok psi) (fun psi =>
  Ok (psi, (- sense)%Z, err))).

(** lines 179-202: apply_and_simplify(psi, sense, tolerance, Dmax, normalize); [simplify psi Dmax normalize]
    stands for simplify_obc(psi, *psi, -1, 12, normalize, Dmax), which changes the state and returns an error.
    Returns the state, the new sense and the error. *)
Variable simplify : mps -> nat -> bool -> result (mps * R).

Definition u_apply_and_simplify (u : unitary) (psi : mps) (tol : R) (Dmax : nat) (normalize : bool) : result (mps * Z * R) :=
  bind (u_apply u psi 1 tol 0 false) (fun '(psi, sense, err) =>
  bind (canonical_form svd flag psi (-1)) (fun psi =>
  bind (if Nat.ltb Dmax (largest_bond_dimension psi) then simplify psi Dmax normalize else Ok (psi, 0%R)) (fun '(psi, err') =>
  Ok (psi, sense, (err + err')%R)))).

(** time_evolve.h:56-61 *)
Inductive strategy := TruncateGroups | TruncateEachLayer | TruncateEachUnitary | DoNotTruncate.

(** One call inside one_step(): [Apply tol Dmax normalize] or [ApplySimplify tol Dmax normalize] of unitary number [n]. *)
Inductive layer_call := Apply (n : nat) (tol : R) (Dmax : nat) (normalize : bool)
                      | ApplySimplify (n : nat) (tol : R) (Dmax : nat) (normalize : bool).
Definition exec_call (us : list unitary) (st : mps * Z) (c : layer_call) : result (mps * Z * R) :=
  let u n := nth n us (mkU 0 0 []) in
  match c with
  | Apply n tol D nrm => u_apply (u n) (fst st) (snd st) tol D nrm
  | ApplySimplify n tol D nrm => u_apply_and_simplify (u n) (fst st) tol D nrm
  end.
(** The calls in order; the errors returned by them are collected. *)
Fixpoint exec_calls (us : list unitary) (l : list layer_call) (st : mps * Z) : result (mps * Z * list R) :=
  match l with
  | [] => Ok (st, [])
  | c :: l' => bind (exec_call us st c) (fun '(st', e) => bind (exec_calls us l' st') (fun '(st'', es) => Ok (st'', e :: es)))
  end.

(** The calls of one_step() and, for each, whether its error is added to the value returned. *)
Definition counted (l : list layer_call) : list (layer_call * bool) := map (fun c => (c, true)) l.
Definition ignored (l : list layer_call) : list (layer_call * bool) := map (fun c => (c, false)) l.

(** solver_trotter2.cc:37-88: the calls of Trotter2Solver::one_step(); unitary 0 is Ueven, 1 is Uodd. *)
Definition trotter2_calls (s : strategy) (Dmax : nat) (normalize : bool) : list (layer_call * bool) :=
  match s with
  | TruncateEachUnitary => counted [Apply 0 MPS_DEFAULT_TOLERANCE Dmax false; Apply 1 MPS_DEFAULT_TOLERANCE Dmax normalize]
  | TruncateEachLayer => counted [ApplySimplify 0 MPS_TRUNCATE_EPSILON Dmax false; ApplySimplify 1 MPS_TRUNCATE_EPSILON Dmax normalize]
  | DoNotTruncate => ignored [Apply 0 MPS_TRUNCATE_EPSILON 0 false; Apply 1 MPS_TRUNCATE_EPSILON 0 false]
  | TruncateGroups => ignored [Apply 0 MPS_TRUNCATE_EPSILON 0 false] ++ counted [ApplySimplify 1 MPS_TRUNCATE_EPSILON Dmax normalize]
  end.
(** solver_trotter3.cc:35-93: unitary 0 is U1 (odd), 1 is U2 (even). *)
Definition trotter3_calls (s : strategy) (Dmax : nat) (normalize : bool) : list (layer_call * bool) :=
  match s with
  | TruncateEachUnitary => counted [Apply 1 MPS_DEFAULT_TOLERANCE Dmax false; Apply 0 MPS_DEFAULT_TOLERANCE Dmax false; Apply 1 MPS_DEFAULT_TOLERANCE Dmax normalize]
  | TruncateEachLayer => counted [ApplySimplify 1 MPS_TRUNCATE_EPSILON Dmax false; ApplySimplify 0 MPS_TRUNCATE_EPSILON Dmax false; ApplySimplify 1 MPS_TRUNCATE_EPSILON Dmax normalize]
  | DoNotTruncate => ignored [Apply 1 MPS_TRUNCATE_EPSILON 0 false; Apply 0 MPS_TRUNCATE_EPSILON 0 false; Apply 1 MPS_TRUNCATE_EPSILON 0 normalize]
  | TruncateGroups => ignored [Apply 1 MPS_TRUNCATE_EPSILON 0 false; Apply 0 MPS_TRUNCATE_EPSILON 0 false] ++ counted [ApplySimplify 1 MPS_TRUNCATE_EPSILON Dmax normalize]
  end.
(** solver_trotter4.cc:44-130: unitaries 0..3 are U1..U4.  [normalize] is the member of ForestRuthSolver. *)
Definition forest_ruth_calls (s : strategy) (Dmax : nat) (normalize : bool) : list (layer_call * bool) :=
  let t := MPS_DEFAULT_TOLERANCE in
  counted match s with
  | TruncateEachUnitary => [Apply 0 t Dmax false; Apply 1 t Dmax false; Apply 2 t Dmax false; Apply 3 t Dmax false;
                            Apply 2 t Dmax false; Apply 1 t Dmax false; Apply 0 t Dmax normalize]
  | DoNotTruncate => [Apply 0 t 0 false; Apply 1 t 0 false; Apply 2 t 0 false; Apply 3 t 0 false;
                      Apply 2 t 0 false; Apply 1 t 0 false; Apply 0 t 0 normalize]
  | TruncateEachLayer => [ApplySimplify 0 t Dmax false; ApplySimplify 1 t Dmax false; ApplySimplify 2 t Dmax false; ApplySimplify 3 t Dmax false;
                          ApplySimplify 2 t Dmax false; ApplySimplify 1 t 0 false; ApplySimplify 0 t 0 normalize]
  | TruncateGroups => [Apply 0 t 0 false; ApplySimplify 1 t Dmax false; Apply 2 t 0 false; Apply 3 t 0 false;
                       ApplySimplify 2 t Dmax false; Apply 1 t 0 false; ApplySimplify 0 t Dmax normalize]
  end.

(** The sum of the errors that are counted *)
Definition total_error (cs : list (layer_call * bool)) (es : list R) : R :=
  fold_right (fun '(c, e) r => if snd (fst (c, e) : layer_call * bool) then (e + r)%R else r) 0%R (combine cs es).

(** The test at the beginning of each one_step(): Dmax = 0 is only accepted without truncation.  Returns the
    state, the sense kept for the next step, and the error. *)
Definition one_step (calls : strategy -> nat -> bool -> list (layer_call * bool)) (us : list unitary) (s : strategy)
  (Dmax : nat) (normalize : bool) (st : mps * Z) : result (mps * Z * R) :=
  if Nat.eqb Dmax 0 && negb (match s with DoNotTruncate => true | _ => false end) then Abort
  else bind (exec_calls us (map fst (calls s Dmax normalize)) st) (fun '(st', es) => Ok (st', total_error (calls s Dmax normalize) es)).
End Unitary.

(** ** Time steps, on complex numbers *)
(** trotter_unitary.cc:61: dt = to_complex(-abs(imag(dt)), -real(dt)) *)
Definition rotate (dt : Cx) : Cx := mkC (- Rabs (Cim dt)) (- Cre dt).
Definition cscale (c : R) (z : Cx) : Cx := mkC (c * Cre z) (c * Cim z).

(** solver_trotter4.cc:31-32 *)
Definition FR_param : list R :=
  [67560359597983 / 10 ^ 14; 135120719195966 / 10 ^ 14; - 17560359597983 / 10 ^ 14; - 170241438391932 / 10 ^ 14]%R.

(** The unitaries of the three solvers, in the order of the lists above: parity and factor of dt.
    solver_trotter2.cc:32, solver_trotter3.cc:30, solver_trotter4.cc:36-39 *)
Definition trotter2_unitaries : list (nat * R) := [(0%nat, 1%R); (1%nat, 1%R)].
Definition trotter3_unitaries : list (nat * R) := [(1%nat, 1%R); (0%nat, (1 / 2)%R)].
Definition forest_ruth_unitaries : list (nat * R) :=
  [(0%nat, nth 0 FR_param 0%R); (1%nat, nth 1 FR_param 0%R); (0%nat, nth 2 FR_param 0%R); (1%nat, nth 3 FR_param 0%R)].

(** The constructor of a solver *)
Definition solver_new (expm : @tensor (@rs_scalar CC) -> @tensor (@rs_scalar CC)) (l : list (nat * R)) (H : @hamiltonian (@rs_scalar CC)) (dt : Cx)
  : result (list (@unitary CC)) :=
  fold_left (fun r x => bind r (fun us => bind (@unitary_new CC expm H (fst x) (rotate (cscale (snd x) dt))) (fun u => Ok (us ++ [u])))) l (Ok []).
