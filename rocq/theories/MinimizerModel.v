(** * Model of minimize() (src/dmrg/minimizer.cc, minimizer_d.cc, minimizer_z.cc, include/mps/minimizer.h) *)
From Coq Require Import Reals Bool List Arith ZArith Lia.
From Verif Require Import Scalar RScal Tensor Spec MpsModel MpoSpec CanonModel FormModel SimplifyModel.
Import ListNotations.

Section Model.
Context {RS : RScal}.

(** include/mps/minimizer.h:29-48: MinimizerOptions, except display, debug (output only) and the results gap
    and constrained_gap, which minimize() stores in its own copy of the options, so that the caller never
    sees them. *)
Record options := mkOpt { o_sweeps : Z; o_tolerance : R; o_svd_tolerance : R; o_allow_E_growth : Z; o_Dmax : Z; o_compute_gap : bool }.
(** minimizer.h:31-35: default values *)
Definition default_options : options := mkOpt 32 (1 / 10 ^ 10) (1 / 10 ^ 11) 1 0 false.

(** linalg::svd or block_svd, see CanonModel *)
Variable svd : tensor -> tensor * list R * tensor.
(** FLAGS.get(MPS_TRUNCATION_TOLERANCE) *)
Variable flag : R.
(** linalg::eigs(f, size, SmallestAlgebraic, neig, &P, &converged): eigenvalues, new contents of P and
    converged, for a function f, a size, a number of eigenvalues and the previous contents of P.  An arbitrary
    function; the contract is in MinimizeSpec.v. *)
Variable eigs : (tensor -> result tensor) -> nat -> nat -> tensor -> result (list K * tensor * bool).

(** minimizer.cc:30-41: orthogonalize(Psi, ortho).  Tensors with the same number of elements are subtracted
    element by element, whatever their shape. *)
Definition orthogonalize (Psi : tensor) (ortho : list tensor) : tensor :=
  fold_left (fun Psi o => tsub Psi (tscale (tensor_scprod o Psi) o)) ortho Psi.

(** reshape() asserts that the number of elements does not change. *)
Definition checked_reshape (t : tensor) (d : list nat) : result tensor :=
  if Nat.eqb (length (data t)) (nprod d) then Ok (reshape t d) else Abort.

(** minimizer.cc:43-50: apply_qform1(P, d, qform, ortho). *)
Definition apply_qform1 (d : list nat) (f : qform) (ortho : list tensor) (P : tensor) : result tensor :=
  bind (checked_reshape P d) (fun v =>
  bind (apply_one_site_matrix f (orthogonalize v ortho)) (fun v =>
    checked_reshape (orthogonalize v ortho) [length (data P)])).

(** minimizer.cc:69-77: apply_qform2(P, sense, d, qform, ortho). *)
Definition apply_qform2 (sense : Z) (d : list nat) (f : qform) (ortho : list tensor) (P : tensor) : result tensor :=
  bind (checked_reshape P d) (fun v =>
  bind (apply_two_site_matrix f (orthogonalize v ortho) sense) (fun v =>
    Ok (orthogonalize (reshape v [length (data v)]) ortho))).

(** P12(range(subspace)) and P12.at(range(subspace)) = v, with P12 indexed by the position of its elements in
    memory; an index outside the tensor is an assertion. *)
Definition gather (t : tensor) (idx : list nat) : result tensor :=
  if forallb (fun i => Nat.ltb i (length (data t))) idx then
    Ok (mkT [length idx] (map (fun i => nth i (data t) 0%K) idx))
  else Abort.
Definition scatter (t : tensor) (idx : list nat) (v : tensor) : tensor :=
  mkT (dims t) (fold_left (fun l p => replace_nth (fst p) (snd p) l) (combine idx (data v)) (data t)).

(** minimizer.cc:52-67: apply_qform2_with_subspace(P, sense, P12, qform, subspace, ortho); [d] are the
    dimensions of the buffer P12, which is cleared first. *)
Definition apply_qform2_with_subspace (sense : Z) (d : list nat) (f : qform) (subspace : list nat)
  (ortho : list tensor) (P : tensor) : result tensor :=
  bind (apply_two_site_matrix f (orthogonalize (scatter (zeros d) subspace P) ortho) sense) (fun v =>
    gather (orthogonalize v ortho) subspace).

(** minimizer.cc:79-97: struct Minimizer, without the options and without the site, which is an argument of
    the functions below; Ntol = 1e-6.  OrthoMPS is never read. *)
Record minimizer := mkMin { mz_psi : mps; mz_H : qform; mz_N : option qform; mz_value : K; mz_ortho : list lform;
                            mz_step : Z; mz_converged : bool }.
Definition Ntol : R := (1 / 10 ^ 6)%R.

(** minimizer.cc:99-109: the constructor. *)
Definition minimizer_new (H : mpo) (state : mps) : result minimizer :=
  bind (canonical_form svd flag state (-1)) (fun psi =>
  bind (qform_new H psi psi 0) (fun f =>
    Ok (mkMin psi f None 0%K [] 1 true))).

(** minimizer.cc:124-132: add_states(psi_orthogonal), each state pushed at the front of the list. *)
Definition add_states (m : minimizer) (l : list mps) : result minimizer :=
  fold_left (fun m phi => bind m (fun m => bind (lform_new1 phi (mz_psi m) 0) (fun f =>
    Ok (mkMin (mz_psi m) (mz_H m) (mz_N m) (mz_value m) (f :: mz_ortho m) (mz_step m) (mz_converged m))))) l (Ok m).

(** minimizer.cc:167-172: add_constraint(constraint, value). *)
Definition add_constraint (m : minimizer) (N : mpo) (value : K) : result minimizer :=
  bind (qform_new N (mz_psi m) (mz_psi m) 0) (fun f =>
    Ok (mkMin (mz_psi m) (mz_H m) (Some f) value (mz_ortho m) (mz_step m) (mz_converged m))).

(** minimizer.cc:134-150: orthogonal_projectors(site, sense): abort() if a form is somewhere else; each vector
    divided by the square root of its norm and pushed at the front.
    SIMPLIFICATION: the division by zero (NaN) is Abort. *)
Definition orthogonal_projectors (m : minimizer) (k : nat) (sense : Z) : result (list tensor) :=
  fold_left (fun out f => bind out (fun out =>
    if Nat.eqb k (lf_here f) then
      bind (if (sense =? 0)%Z then single_site_vector f else two_site_vector f sense) (fun other =>
        let n := norm2_tensor other in
        if Req_EM_T n 0 then Abort else Ok (tscale (rinj (/ sqrt n)%R) other :: out))
    else Abort)) (mz_ortho m) (Ok []).

(** minimizer.cc:152-165: propagate(P, site, step); the tensor used is psi[site]. *)
Definition mz_propagate (m : minimizer) (psi : mps) (k : nat) (converged : bool) : minimizer :=
  let t := site psi k in
  mkMin psi (qf_propagate (mz_H m) t t (mz_step m))
    (option_map (fun N => qf_propagate N t t (mz_step m)) (mz_N m)) (mz_value m)
    (map (fun f => lf_propagate f t (mz_step m)) (mz_ortho m)) (mz_step m) converged.

(** the same state, only converged set *)
Definition mz_set_converged (m : minimizer) (b : bool) : minimizer :=
  mkMin (mz_psi m) (mz_H m) (mz_N m) (mz_value m) (mz_ortho m) (mz_step m) b.
Definition mz_set_step (m : minimizer) (s : Z) : minimizer :=
  mkMin (mz_psi m) (mz_H m) (mz_N m) (mz_value m) (mz_ortho m) s (mz_converged m).

(** real(E[0]) *)
Definition first_energy (E : list K) : result R := match E with e :: _ => Ok (kre e) | [] => Abort end.
(** E[1] - E[0] exists *)
Definition check_gap (E : list K) : result unit := match E with _ :: _ :: _ => Ok tt | _ => Abort end.

(** minimizer.cc:174-203: single_site_step() at the site k. *)
Definition single_site_step (o : options) (m : minimizer) (k : nat) : result (minimizer * R) :=
  bind (orthogonal_projectors m k 0) (fun ortho =>
  let P := site (mz_psi m) k in
  let d := dims P in
  let f := apply_qform1 d (mz_H m) ortho in
  bind (eigs f (length (data P)) 1 P) (fun '(E, P, converged) =>
  bind (if Nat.eqb k (length (mz_psi m) / 2) && o_compute_gap o then
          bind (eigs f (length (data P)) 2 P) (fun '(E2, _, converged) => bind (check_gap E2) (fun _ => Ok converged))
        else Ok converged) (fun converged =>
  bind (first_energy E) (fun e =>
    if converged then
      bind (checked_reshape P d) (fun t =>
      bind (set_canonical svd flag (mz_psi m) (Z.of_nat k) t (mz_step m) false) (fun psi =>
        Ok (mz_propagate m psi k true, e)))
    else Ok (mz_set_converged m false, e))))).

(** A loop over the sites [ks] that ends when converged is false; E is the value of the last step, if any. *)
Fixpoint site_loop (step : minimizer -> nat -> result (minimizer * R)) (ks : list nat) (m : minimizer) (E : option R)
  : result (minimizer * option R) :=
  match ks with
  | [] => Ok (m, E)
  | k :: ks => if mz_converged m then bind (step m k) (fun '(m, e) => site_loop step ks m (Some e)) else Ok (m, E)
  end.
(** A sweep that makes no step returns an uninitialized number: Abort. *)
Definition known (r : minimizer * option R) : result (minimizer * R) :=
  match r with (m, Some e) => Ok (m, e) | (_, None) => Abort end.

(** minimizer.cc:205-221: single_site_sweep(). *)
Definition single_site_sweep (o : options) (m : minimizer) : result (minimizer * R) :=
  let L := length (mz_psi m) in
  let right := (0 <? mz_step m)%Z in
  bind (bind (site_loop (single_site_step o) (if right then seq 0 L else rev (seq 0 L)) m None) known) (fun '(m, e) =>
    Ok (mz_set_step m (if right then -1 else 1), e)).

(** which(abs(aux - value) < Ntol): the positions where it holds *)
Definition constraint_subspace (aux : tensor) (value : K) : list nat :=
  filter (fun i => Rltb (kabs (nth i (data aux) 0 - value)%K) Ntol) (seq 0 (length (data aux))).

(** minimizer.cc:223-314: two_site_step() at the site k. *)
Definition two_site_step (o : options) (m : minimizer) (k : nat) : result (minimizer * R) :=
  let right := (0 <? mz_step m)%Z in
  let psi := mz_psi m in
  bind (site_at psi (Z.of_nat k)) (fun A =>
  bind (site_at psi (Z.of_nat k + (if right then 1 else -1))) (fun B =>
  let P12 := if right then fold A (rank A - 1) B 0 else fold B (rank B - 1) A 0 in
  let d := dims P12 in
  let n := length (data P12) in
  bind (orthogonal_projectors m k (mz_step m)) (fun ortho =>
  let gap := Nat.eqb k (length psi / 2) && o_compute_gap o in
  bind (if gap then bind (eigs (apply_qform2 (mz_step m) d (mz_H m) ortho) n 2 P12) (fun '(E, _, _) => check_gap E)
        else Ok tt) (fun _ =>
  match mz_N m with
  | None =>
      bind (eigs (apply_qform2 (mz_step m) d (mz_H m) ortho) n 1 P12) (fun '(E, P, converged) =>
      bind (checked_reshape P d) (fun P12 =>
      bind (if converged then set_canonical_2_sites svd flag psi P12 (Z.of_nat k) (mz_step m) (o_Dmax o) (o_svd_tolerance o) false
            else Ok psi) (fun psi =>
      bind (first_energy E) (fun e => Ok (mz_propagate m psi k converged, e)))))
  | Some N =>
      bind (take_two_site_matrix_diag N (mz_step m)) (fun aux =>
      let sub := constraint_subspace aux (mz_value m) in
      if Nat.eqb (length sub) 0 then Ok (mz_set_converged m false, 0%R)
      else
      bind (gather P12 sub) (fun subP =>
      let f := apply_qform2_with_subspace (mz_step m) d (mz_H m) sub ortho in
      bind (eigs f (length sub) 1 subP) (fun '(E, subP, converged) =>
      bind (if gap then bind (eigs f (length sub) 2 subP) (fun '(E2, _, converged) => bind (check_gap E2) (fun _ => Ok converged))
            else Ok converged) (fun converged =>
      let P12 := scatter (zeros d) sub subP in
      bind (if converged then set_canonical_2_sites svd flag psi P12 (Z.of_nat k) (mz_step m) (o_Dmax o) (o_svd_tolerance o) false
            else Ok psi) (fun psi =>
      bind (first_energy E) (fun e => Ok (mz_propagate m psi k converged, e)))))))
  end)))).

(** minimizer.cc:316-330: two_site_sweep(). *)
Definition two_site_sweep (o : options) (m : minimizer) : result (minimizer * R) :=
  let L := length (mz_psi m) in
  let right := (0 <? mz_step m)%Z in
  bind (bind (site_loop (two_site_step o) (if right then seq 0 (L - 1) else rev (seq 1 (L - 1))) m None) known) (fun '(m, e) =>
    Ok (mz_set_step m (if right then -1 else 1), e)).

(** minimizer.cc:332-334: single_site(). *)
Definition single_site (o : options) : bool := (o_Dmax o =? 0)%Z.
Definition any_sweep (o : options) (m : minimizer) : result (minimizer * R) :=
  if single_site o then single_site_sweep o m else two_site_sweep o m.

(** minimizer.cc:336-382: the loop of full_sweep(psi); [first] is i == 0, [n] the iterations that are left.
    The result is the new *psi and the returned energy. *)
Fixpoint full_loop (o : options) (n : nat) (first : bool) (failures : Z) (m : minimizer) (E : R) : result (mps * R) :=
  match n with
  | O => Ok (mz_psi m, E)
  | S n =>
      bind (any_sweep o m) (fun '(m, newE) =>
      if negb (mz_converged m) then Ok ([], E)
      else if first then full_loop o n false failures m newE
      else if Rltb (Rabs (newE - E)) (o_tolerance o) then Ok (mz_psi m, newE)
      else if Rltb (1 / 10 ^ 14 * Rabs newE) (newE - E) then
        if (o_allow_E_growth o <=? failures)%Z then Ok (mz_psi m, newE)
        else full_loop o n false (failures + 1) m newE
      else full_loop o n false failures m newE)
  end.
Definition full_sweep (o : options) (m : minimizer) : result (mps * R) :=
  full_loop o (Z.to_nat (o_sweeps o)) true 0 m (10 ^ 28).

(** minimizer_d.cc:37-41, minimizer_z.cc:37-41: minimize(H, psi, opt). *)
Definition minimize (H : mpo) (psi : mps) (o : options) : result (mps * R) :=
  bind (minimizer_new H psi) (full_sweep o).
(** minimizer_d.cc:43-46, minimizer_z.cc:43-46: minimize(H, psi). *)
Definition minimize_default (H : mpo) (psi : mps) : result (mps * R) := minimize H psi default_options.
(** minimizer_d.cc:25-35, minimizer_z.cc:25-35: minimize(H, psi, opt, constraint, value, other). *)
Definition minimize_with (H : mpo) (psi : mps) (o : options) (constraint : mpo) (value : K) (other : option (list mps))
  : result (mps * R) :=
  bind (minimizer_new H psi) (fun m =>
  bind (add_constraint m constraint value) (fun m =>
  bind (match other with Some l => add_states m l | None => Ok m end) (full_sweep o))).

End Model.
