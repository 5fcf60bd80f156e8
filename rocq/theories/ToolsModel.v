(** * Model of src/tools/entropy.cc, src/tools/flags.cc and the loops of src/iTEBD/itebd_itime.hpp *)
From Coq Require Import Reals Bool List Arith ZArith Lia.
From Verif Require Import Scalar RScal Tensor.
Import ListNotations.
Local Open Scope R_scope.

(** ** src/tools/entropy.cc:31-42: entropy() of a vector.
    [None] stands for NaN: 0 * log(0), or a division of zero by zero. *)
Definition plogp (p : R) : option R := if Req_EM_T p 0 then None else Some (p * ln p).
Definition entropy (l : list R) : option R :=
  let ltot := Rabs (fold_left Rplus l 0) in
  fold_left (fun s x => match s with
      | None => None
      | Some s => if Req_EM_T ltot 0 then None
                  else match plogp (Rabs x / ltot) with Some y => Some (s - y) | None => None end
      end) l (Some 0).

(** ** tensor::Flags (external): a growing vector of values; create_key() returns the index of the new
    value, reading or writing another index fails. *)
Definition flags := list R.
Definition create_key (f : flags) (v : R) : flags * nat := (f ++ [v], length f).
Definition flag_get (f : flags) (k : nat) : result R :=
  match nth_error f k with Some v => Ok v | None => Abort end.
Fixpoint replace_R (k : nat) (v : R) (f : flags) : flags :=
  match f, k with [], _ => [] | _ :: f', O => v :: f' | x :: f', S k' => x :: replace_R k' v f' end.
Definition flag_set (f : flags) (k : nat) (v : R) : result flags :=
  if Nat.ltb k (length f) then Ok (replace_R k v f) else Abort.

(** src/tools/flags.cc:33-68: the keys in the order in which they are created *)
Definition DBL_EPSILON : R := / 2 ^ 52.
Definition default_values : list R :=
  [1 (* USE_BLOCK_SVD *); 0 (* DEBUG_TRUNCATION *); DBL_EPSILON (* TRUNCATION_TOLERANCE *); 0 (* DEBUG_TROTTER *);
   0 (* DEBUG_ARNOLDI *); 2 (* ARNOLDI_SIMPLIFY_INTERNAL_SWEEPS *); 4 (* ARNOLDI_SIMPLIFY_FINAL_SWEEPS *);
   0 (* DEBUG_SIMPLIFY *); 12 (* SIMPLIFY_MAX_SWEEPS *); / 10 ^ 14 (* SIMPLIFY_TOLERANCE *);
   1 (* SIMPLIFY_ALGORITHM *); 0 (* DEBUG_SOLVE *); 1 (* SOLVE_ALGORITHM *); / 10 ^ 10 (* SOLVE_TOLERANCE *);
   1 (* ITEBD_EXPECTED_METHOD *)].
(** The static initialisers run one create_key() after the other; the result is the list of keys. *)
Definition init_flags : flags * list nat :=
  fold_left (fun '(f, ks) v => let '(f', k) := create_key f v in (f', ks ++ [k])) default_values ([], []).

Inductive flag_call : Type := CreateKey (v : R) | SetFlag (k : nat) (v : R).
Definition flag_exec (f : flags) (c : flag_call) : result flags :=
  match c with CreateKey v => Ok (fst (create_key f v)) | SetFlag k v => flag_set f k v end.
Definition flag_run (l : list flag_call) : result flags :=
  fold_left (fun r c => bind r (fun f => flag_exec f c)) l (Ok (fst init_flags)).

(** ** src/iTEBD/itebd_itime.hpp:37-112: evolve_itime(); [apply c site psi] is
    psi.apply_operator(expm(-c dt H12), site, tolerance, max_dim), [canonical] is canonical_form(),
    [energy] and [entr] the two quantities reported. *)
Section Itime.
Context {State : Type}.
Variable apply : R -> nat -> State -> State.
Variable canonical : State -> State.
Variable energy : State -> R.
Variable entr : State -> R.

(** lines 33-34 *)
Definition FR_param : list R := [67560359597983 / 10 ^ 14; 135120719195966 / 10 ^ 14; - 17560359597983 / 10 ^ 14; - 170241438391932 / 10 ^ 14].

(** lines 38-52 and 82-101: the layers (coefficient of -dt, site) of one step *)
Definition itime_layers (method : nat) : list (R * nat) :=
  let eH k := nth k FR_param 0 in
  match method with
  | O => [(1, 0%nat); (1, 1%nat)]
  | S O => [(1 / 2, 0%nat); (1, 1%nat); (1 / 2, 0%nat)]
  | _ => [(eH 0%nat, 0%nat); (eH 1%nat, 1%nat); (eH 2%nat, 0%nat); (eH 3%nat, 1%nat); (eH 2%nat, 0%nat); (eH 1%nat, 1%nat); (eH 0%nat, 0%nat)]
  end.
Definition itime_step (method : nat) (psi : State) : State :=
  fold_left (fun psi p => apply (fst p) (snd p) psi) (itime_layers method) psi.

(** lines 57-112: returns the state and the two lists *)
Definition evolve_itime (method nsteps deltan : nat) (psi : State) : State * list R * list R :=
  let psi := canonical psi in
  let deltan := if Nat.eqb deltan 0 then 1%nat else deltan in
  let phases := ((nsteps + deltan - 1) / deltan)%nat in
  Nat.iter phases (fun '(psi, E, T) =>
      let psi := Nat.iter deltan (itime_step method) psi in
      let psi := canonical psi in
      (psi, E ++ [energy psi], T ++ [entr psi]))
    (psi, [energy psi], [entr psi]).
End Itime.
