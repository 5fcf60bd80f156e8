(** * Specification of sweeps and of the bond dimensions after truncation *)
From Coq Require Import Bool List Arith ZArith Lia.
From Verif Require Import Scalar RScal Tensor Spec MpsModel SweepModel.
Import ListNotations.

(** The program  do { visit(s.site()) } while (--s)  started in [s] visits the sites [l], in this
    order, and leaves the sweeper in state [s']. *)
Inductive sweep_trace : sweeper -> list Z -> sweeper -> Prop :=
| trace_stop s s' : sweeper_dec s = (false, s') -> sweep_trace s [sweeper_site s] s'
| trace_step s s1 l s' : sweeper_dec s = (true, s1) -> sweep_trace s1 l s' ->
    sweep_trace s (sweeper_site s :: l) s'.

(** All states a program can reach with a sweeper of a chain of L sites. *)
Inductive sweeper_reachable (L sense : Z) : sweeper -> Prop :=
| reach_new s : new_sweeper L sense = Ok s -> sweeper_reachable L sense s
| reach_dec s : sweeper_reachable L sense s -> sweeper_reachable L sense (snd (sweeper_dec s))
| reach_flip s : sweeper_reachable L sense s -> sweeper_reachable L sense (sweeper_flip s).

(** 0, 1, ..., L-1 or the reverse *)
Definition upwards (L : Z) : list Z := map Z.of_nat (seq 0 (Z.to_nat L)).
Definition all_sites (L sense : Z) : list Z := if (0 <? sense)%Z then upwards L else rev (upwards L).

(** The largest useful dimension of bond [k]: product of the physical dimensions on either side. *)
Definition left_capacity (ds : list nat) (k : nat) : nat := nprod (firstn k ds).
Definition right_capacity (ds : list nat) (k : nat) : nat := nprod (skipn k ds).
Definition bond_cap (ds : list nat) (Dmax : nat) (periodic : bool) (k : nat) : nat :=
  if periodic then Dmax
  else Nat.min Dmax (Nat.min (left_capacity ds k) (right_capacity ds k)).

(** Dimension of bond [k] of an MPS: the bond on the left of site [k], or the last bond. *)
Definition bond {SC : Scalar} (psi : mps) (k : nat) : nat :=
  if Nat.ltb k (length psi) then dim (site psi k) 0 else dim (site psi (length psi - 1)) 2.
