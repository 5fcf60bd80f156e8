(** * Model of solve() (src/dmrg/inverse.cc, inverse_d.cc, inverse_z.cc) *)
From Coq Require Import Reals Bool List Arith ZArith Lia.
From Verif Require Import Scalar RScal Tensor Spec MpsModel MpoSpec MpoModel CanonModel SweepModel FormModel SimplifyModel MinimizerModel.
Import ListNotations.

Section Model.
Context {RS : RScal}.

(** linalg::svd or block_svd, see CanonModel *)
Variable svd : tensor -> tensor * list R * tensor.
(** FLAGS.get(MPS_TRUNCATION_TOLERANCE) *)
Variable flag : R.
(** linalg::solve_with_svd(A, b) (external).  An arbitrary function; the contract is in SolveSpec.v. *)
Variable lsolve : tensor -> tensor -> tensor.
(** linalg::cgs(f, b, &x0, maxiter, tol) (external): a function, the right-hand side, the initial guess, the
    number of iterations and the tolerance.  An arbitrary function. *)
Variable cgs : (tensor -> result tensor) -> tensor -> tensor -> nat -> R -> result tensor.
(** adjoint(H): adjoint_d for RMPO and adjoint_z for CMPO, see MpoModel *)
Variable adj : mpo -> mpo.

(** tensor library: flatten(t), the vector of all elements *)
Definition flatten (t : tensor) : tensor := reshape t [length (data t)].

(** What a sweep leaves in the variables Heff (a function here), vHQ and vP *)
Record local := mkLocal { l_vHQ : tensor; l_vP : tensor; l_Heff : tensor }.

(** inverse.cc:101-109: one step of the single-site algorithm.  set_canonical has truncate = true by default
    (include/mps/mps.h:149). *)
Definition solve_step1 (s : sweeper) (P : mps) (lf : lform) (qf : qform) : result (mps * lform * qform * local) :=
  bind (single_site_matrix qf) (fun Heff =>
  bind (single_site_vector lf) (fun v =>
    let vHQ := tconj v in
    let vP := lsolve Heff (flatten vHQ) in
    bind (checked_reshape vP (dims vHQ)) (fun X =>
    bind (set_canonical svd flag P (sweeper_site s) X (sweeper_sense s) true) (fun P =>
    bind (site_at P (sweeper_site s)) (fun t =>
      Ok (P, lf_propagate lf t (sweeper_sense s), qf_propagate qf t t (sweeper_sense s), mkLocal vHQ vP Heff)))))).

(** inverse.cc:96-110: do { ... } while (--s).  [fuel] bounds the number of iterations; running out of it is
    Abort, which C51 excludes. *)
Fixpoint solve_sweep1 (fuel : nat) (s : sweeper) (P : mps) (lf : lform) (qf : qform)
  : result (sweeper * mps * lform * qform * local) :=
  match fuel with
  | O => Abort
  | S n => bind (solve_step1 s P lf qf) (fun '(P, lf, qf, l) =>
             let '(more, s) := sweeper_dec s in
             if more then solve_sweep1 n s P lf qf else Ok (s, P, lf, qf, l))
  end.

(** inverse.cc:120-133: one step of the two-site algorithm.  set_canonical_2_sites has canonicalize_both = true
    by default (include/mps/mps.h:187). *)
Definition solve_step2 (Dmax : Z) (tol : R) (s : sweeper) (P : mps) (lf : lform) (qf : qform)
  : result (mps * lform * qform * local) :=
  bind (two_site_vector lf (sweeper_sense s)) (fun v =>
    let vHQ := tconj v in
    let k := sweeper_site s in
    let i := if (0 <? sweeper_sense s)%Z then k else (k - 1)%Z in
    bind (site_at P i) (fun A => bind (site_at P (i + 1)) (fun B =>
    let vP := fold A (rank A - 1) B 0 in
    bind (cgs (fun x => apply_two_site_matrix qf x (sweeper_sense s)) vHQ vP (2 * length (data vHQ)) tol) (fun vP =>
    bind (set_canonical_2_sites svd flag P vP k (sweeper_sense s) Dmax tol true) (fun P =>
    bind (site_at P k) (fun t =>
      Ok (P, lf_propagate lf t (sweeper_sense s), qf_propagate qf t t (sweeper_sense s), mkLocal vHQ vP empty))))))).

(** inverse.cc:114-135: do { ...; --s; } while (!s.is_last()). *)
Fixpoint solve_sweep2 (Dmax : Z) (tol : R) (fuel : nat) (s : sweeper) (P : mps) (lf : lform) (qf : qform)
  : result (sweeper * mps * lform * qform * local) :=
  match fuel with
  | O => Abort
  | S n => bind (solve_step2 Dmax tol s P lf qf) (fun '(P, lf, qf, l) =>
             let '(_, s) := sweeper_dec s in
             if sweeper_is_last s then Ok (s, P, lf, qf, l) else solve_sweep2 Dmax tol n s P lf qf)
  end.

(** inverse.cc:95-138: one sweep, s.flip() and normHP.  The result: sweeper, state, forms, scp's arguments
    and normHP. *)
Definition solve_sweep (single : bool) (Dmax : Z) (tol : R) (s : sweeper) (P : mps) (lf : lform) (qf : qform)
  : result (sweeper * mps * lform * qform * local * R) :=
  if single then
    bind (solve_sweep1 (length P) s P lf qf) (fun '(s, P, lf, qf, l) =>
      Ok (sweeper_flip s, P, lf, qf, l, kre (tensor_scprod (l_vP l) (mmult (l_Heff l) (l_vP l)))))
  else
    bind (solve_sweep2 Dmax tol (length P) s P lf qf) (fun '(s, P, lf, qf, l) =>
      let s := sweeper_flip s in
      bind (apply_two_site_matrix qf (l_vP l) (sweeper_sense s)) (fun w =>
        Ok (s, P, lf, qf, l, kre (tensor_scprod (l_vP l) w)))).

(** inverse.cc:148-152: the conditions that end the loop *)
Definition solve_stop (tolerance olderr err : R) : bool :=
  (if Req_EM_T olderr 0 then false else true) &&
  (Rltb (olderr - err) (1 / 100000 * Rabs olderr) || Rltb err tolerance).

(** inverse.cc:94-153: while (sweeps--) { ... }. *)
Fixpoint solve_loop (single : bool) (Dmax : Z) (tol tolerance normQ2 : R) (sweeps : nat)
  (s : sweeper) (P : mps) (lf : lform) (qf : qform) (err : R) : result (sweeper * mps * R) :=
  match sweeps with
  | O => Ok (s, P, err)
  | S n =>
      bind (solve_sweep single Dmax tol s P lf qf) (fun '(s, P, lf, qf, l, normHP) =>
        let olderr := err in
        let err := (normHP + normQ2 - 2 * kre (tensor_scprod (l_vHQ l) (l_vP l)))%R in
        if solve_stop tolerance olderr err then Ok (s, P, err)
        else solve_loop single Dmax tol tolerance normQ2 n s P lf qf err)
  end.

(** inverse.cc:46-159: do_solve(H, P, Q, sense, sweeps, normalize, Dmax, tol).  [algorithm] is
    FLAGS.get(MPS_SOLVE_ALGORITHM) == MPS_SINGLE_SITE_ALGORITHM, [tolerance] is FLAGS.get(MPS_SIMPLIFY_TOLERANCE)
    and [solvetol] is FLAGS.get(MPS_SOLVE_TOLERANCE).  The result is P, *sense and the returned error.
    SIMPLIFICATIONS: sense is not a null pointer; a negative number of sweeps, which fails the assertion, is
    not represented; the division by norm2 = 0 when normalizing is Abort; debug output is not modelled. *)
Definition solve (algorithm : bool) (tolerance solvetol : R) (H : mpo) (P : mps) (oQ : mps) (sense : Z) (sweeps : nat)
  (normalize : bool) (Dmax : Z) (tol : R) : result (mps * Z * R) :=
  let tol := if Rle_dec tol 0 then solvetol else tol in
  bind (canonical_form svd flag oQ (-1)) (fun Q =>
  let P := if Nat.eqb (length P) 0 then Q else P in
  if Nat.eqb sweeps 0 then Abort else
  bind (site_at Q 0) (fun Q0 =>
  let normQ2 := kabs (tensor_scprod Q0 Q0) in
  if Rltb normQ2 (1 / 10 ^ 16) then Abort else
  bind (new_sweeper (Z.of_nat (length P)) (- sense)) (fun s =>
  bind (apply H Q) (fun HQ =>
  bind (canonical_form svd flag HQ (-1)) (fun HQ =>
  bind (lform_new1 HQ P (sweeper_site s)) (fun lf =>
  bind (mpo_mmult (adj H) H) (fun HH =>
  bind (qform_new HH P P (sweeper_site s)) (fun qf =>
  bind (solve_loop algorithm Dmax tol tolerance normQ2 sweeps s P lf qf 0) (fun '(s, P, err) =>
  if normalize then
    bind (site_at P (sweeper_site s)) (fun t =>
      let n := norm2_tensor t in
      if Req_EM_T n 0 then Abort else
      Ok (replace_nth (Z.to_nat (sweeper_site s)) (tscale (rinj (/ n)%R) t) P, (- sweeper_sense s)%Z, err))
  else Ok (P, (- sweeper_sense s)%Z, err)))))))))).

End Model.
