(** * Model of simplify_obc (src/dmrg/simplify_obc.cc) *)
From Coq Require Import Reals Bool List Arith ZArith Lia.
From Verif Require Import Scalar RScal Tensor Spec MpsModel MpoSpec CanonModel SweepModel FormModel.
Import ListNotations.

Section Model.
Context {RS : RScal}.

(** tensor library: scprod(a,b) of two tensors, sum of conj(a) b over all elements *)
Definition tensor_scprod (a b : tensor) : K :=
  fold_right (fun p r => (kconj (fst p) * snd p + r)%K) 0%K (combine (data a) (data b)).
(** abs() of a number *)
Definition kabs (x : K) : R := sqrt (kmod2 x).

(** linalg::svd or block_svd, see CanonModel *)
Variable svd : tensor -> tensor * list R * tensor.
(** FLAGS.get(MPS_TRUNCATION_TOLERANCE) *)
Variable flag : R.

(** simplify_obc.cc:68-71: one step of the single-site algorithm.  set_canonical has truncate = true by
    default (include/mps/mps.h:149). *)
Definition single_step (s : sweeper) (P : mps) (lf : lform) : result (mps * lform) :=
  bind (single_site_vector lf) (fun v =>
  bind (set_canonical svd flag P (sweeper_site s) (tconj v) (sweeper_sense s) true) (fun P =>
  bind (site_at P (sweeper_site s)) (fun t =>
    Ok (P, lf_propagate lf t (sweeper_sense s))))).

(** simplify_obc.cc:67-71: do { ... } while (--s).  [fuel] bounds the number of iterations; running out of
    it is Abort, which C62 excludes. *)
Fixpoint single_sweep (fuel : nat) (s : sweeper) (P : mps) (lf : lform) : result (sweeper * mps * lform) :=
  match fuel with
  | O => Abort
  | S n => bind (single_step s P lf) (fun '(P, lf) =>
             let '(more, s) := sweeper_dec s in
             if more then single_sweep n s P lf else Ok (s, P, lf))
  end.

(** simplify_obc.cc:74-77: one step of the two-site algorithm. *)
Definition double_step (Dmax : Z) (tol : R) (s : sweeper) (P : mps) (lf : lform) : result (mps * lform) :=
  bind (two_site_vector lf (sweeper_sense s)) (fun v =>
  bind (set_canonical_2_sites svd flag P (tconj v) (sweeper_site s) (sweeper_sense s) Dmax tol false) (fun P =>
  bind (site_at P (sweeper_site s)) (fun t =>
    Ok (P, lf_propagate lf t (sweeper_sense s))))).

(** simplify_obc.cc:73-79: do { ...; --s; } while (!s.is_last()). *)
Fixpoint double_sweep (Dmax : Z) (tol : R) (fuel : nat) (s : sweeper) (P : mps) (lf : lform)
  : result (sweeper * mps * lform) :=
  match fuel with
  | O => Abort
  | S n => bind (double_step Dmax tol s P lf) (fun '(P, lf) =>
             let '(_, s) := sweeper_dec s in
             if sweeper_is_last s then Ok (s, P, lf) else double_sweep Dmax tol n s P lf)
  end.

(** simplify_obc.cc:66-80: one sweep *)
Definition obc_sweep (single : bool) (Dmax : Z) (tol : R) (s : sweeper) (P : mps) (lf : lform) :=
  if single then single_sweep (length P) s P lf else double_sweep Dmax tol (length P) s P lf.

(** simplify_obc.cc:81-90: the two conditions that end the loop *)
Definition obc_stop (tolerance olderr err : R) : bool :=
  Rltb (olderr - err) (1 / 100000 * Rabs olderr) || Rltb err tolerance.

(** simplify_obc.cc:65-91: while (sweeps--) { ... }.  Result: sweeper, state, err and normP2.
    SIMPLIFICATION: the division by normQ2 = 0 (which gives NaN or infinity) is Abort. *)
Fixpoint obc_loop (single : bool) (Dmax : Z) (tol tolerance normQ2 : R) (sweeps : nat)
  (s : sweeper) (P : mps) (lf : lform) (err normP2 : R) : result (sweeper * mps * R * R) :=
  match sweeps with
  | O => Ok (s, P, err, normP2)
  | S n =>
      bind (obc_sweep single Dmax tol s P lf) (fun '(s, P, lf) =>
      bind (site_at P (sweeper_site s)) (fun t =>
        let normP2 := kabs (tensor_scprod t t) in
        let olderr := err in
        if Req_EM_T normQ2 0 then Abort else
        let err := sqrt (Rabs (1 - normP2 / normQ2)) in
        let s := sweeper_flip s in
        if obc_stop tolerance olderr err then Ok (s, P, err, normP2)
        else obc_loop single Dmax tol tolerance normQ2 n s P lf err normP2))
  end.

(** simplify_obc.cc:31-100: do_simplify(P, w, Q, sense, sweeps, normalize, Dmax, tol, norm).
    [algorithm] is FLAGS.get(MPS_SIMPLIFY_ALGORITHM) == MPS_SINGLE_SITE_ALGORITHM and [tolerance] is
    FLAGS.get(MPS_SIMPLIFY_TOLERANCE).  The result is P, *sense, the returned error and *norm.
    SIMPLIFICATION: the division by sqrt(normP2) = 0 when normalizing is Abort.  Debug output is not
    modelled. *)
Definition simplify_obc (algorithm : bool) (tolerance : R) (P : mps) (w : list K) (Q : list mps) (sense : Z)
  (sweeps : nat) (normalize : bool) (Dmax : Z) (tol : R) : result (mps * Z * R * R) :=
  if Nat.eqb sweeps 0 then Abort else
  let single := (Dmax =? 0)%Z && algorithm in
  bind (new_sweeper (Z.of_nat (length P)) (- sense)) (fun s =>
  bind (lform_new w Q P (sweeper_site s)) (fun lf =>
  bind (lf_norm2_v lf) (fun v =>
    let n := sqrt (kabs v) in
    let normQ2 := (n * n)%R in
    bind (obc_loop single Dmax tol tolerance normQ2 sweeps s P lf 1 0) (fun '(s, P, err, normP2) =>
    if normalize then
      if Req_EM_T normP2 0 then Abort else
      bind (site_at P (sweeper_site s)) (fun t =>
        Ok (replace_nth (Z.to_nat (sweeper_site s)) (tscale (rinj (/ sqrt normP2)%R) t) P,
            (- sweeper_sense s)%Z, err, normP2))
    else Ok (P, (- sweeper_sense s)%Z, err, normP2))))).

(** simplify_obc_d.cc:33-41, simplify_obc_z.cc:33-41: a single state Q with weight one *)
Definition simplify_obc1 (algorithm : bool) (tolerance : R) (P Q : mps) (sense : Z) (sweeps : nat)
  (normalize : bool) (Dmax : Z) (tol : R) : result (mps * Z * R * R) :=
  simplify_obc algorithm tolerance P [1%K] [Q] sense sweeps normalize Dmax tol.

End Model.
