(** * Model of Sweeper and of truncate(Q,P,Dmax,...) *)
From Coq Require Import Bool List Arith ZArith Lia Relations.
From Verif Require Import Scalar RScal Tensor Spec MpsModel CanonModel.
Import ListNotations.

(** ** src/tools/sweeper.cc, include/mps/mp_base.h:30-42 *)

(** mp_base.h:40: the data members of class Sweeper. *)
Record sweeper := mkSweeper { sk : Z; sk0 : Z; skN : Z; sdk : Z }.

(** sweeper.cc:25-37: Sweeper::Sweeper(L, sense), with assert(L > 0). *)
Definition new_sweeper (L sense : Z) : result sweeper :=
  if (0 <? L)%Z then
    Ok (if (0 <? sense)%Z then mkSweeper 0 0 (L - 1) 1 else mkSweeper (L - 1) (L - 1) 0 (-1))
  else Abort.

(** sweeper.cc:39-47: Sweeper::operator--(). *)
Definition sweeper_dec (s : sweeper) : bool * sweeper :=
  if (sk s =? skN s)%Z then (false, s) else (true, mkSweeper (sk s + sdk s) (sk0 s) (skN s) (sdk s)).

(** sweeper.cc:49-54: Sweeper::flip(). *)
Definition sweeper_flip (s : sweeper) : sweeper := mkSweeper (skN s) (skN s) (sk0 s) (- sdk s).

(** mp_base.h:33,35,36,37: operator*(), is_last(), sense(), site(). *)
Definition sweeper_site (s : sweeper) : Z := sk s.
Definition sweeper_is_last (s : sweeper) : bool := (sk s =? skN s)%Z.
Definition sweeper_sense (s : sweeper) : Z := sdk s.

(** ** src/tools/truncate_mps.cc *)
Section Model.
Context {RS : RScal}.

(** truncate_mps.cc:26-49: expected_dimensions(P, Dmax, periodic). *)
Definition expected_dimensions (P : mps) (Dmax : nat) (periodic : bool) : list nat :=
  let l := length P in
  if periodic then repeat Dmax (l + 1)
  else
    let d := replace_nth l 1 (replace_nth 0 1 (repeat 0 (l + 1))) in
    let '(_, d) := fold_left (fun '(c, d) i =>
                     let c := c * dim (site P (i - 1)) 1 in
                     let c := if Dmax <? c then Dmax else c in
                     (c, replace_nth i c d)) (seq 1 (l - 1)) (1, d) in
    let '(_, d) := fold_left (fun '(c, d) i =>
                     let c := c * dim (site P i) 1 in
                     let c := if Dmax <? c then Dmax else c in
                     (c, if c <? nth i d 0 then replace_nth i c d else d)) (rev (seq 0 l)) (1, d) in
    d.

(** truncate_mps.cc:63-75: one of the two bonds [ndx] of a tensor; returns the tensor and whether it
    was truncated. *)
Definition resize_bond (increase : bool) (Qk : tensor) (ndx d : nat) : tensor * bool :=
  if d <? dim Qk ndx then (change_dimension Qk ndx d, true)
  else if increase && (dim Qk ndx <? d) then (change_dimension Qk ndx d, false)
  else (Qk, false).

(** truncate_mps.cc:51-80: truncate_inner(Q, P, Dmax, periodic, increase): the new state and the
    returned flag.  A negative Dmax ends in tensors of negative dimension (an assertion of the
    tensor library): Abort.  SIMPLIFICATION: Q and P are different objects. *)
Definition truncate (P : mps) (Dmax : Z) (periodic increase : bool) : result (mps * bool) :=
  if (Dmax =? 0)%Z then Ok (P, false)
  else if (Dmax <? 0)%Z then Abort
  else
    let d := expected_dimensions P (Z.to_nat Dmax) periodic in
    let site_k k :=
      let '(Qk, t1) := resize_bond increase (site P k) 0 (nth k d 0) in
      let '(Qk, t2) := resize_bond increase Qk 2 (nth (k + 1) d 0) in
      (Qk, t1 || t2) in
    let r := map site_k (seq 0 (length P)) in
    Ok (map fst r, existsb snd r).

End Model.
