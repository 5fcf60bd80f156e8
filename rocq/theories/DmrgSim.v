(** * class DMRG: runs with and without states to be orthogonal to, and runs that fail *)
From Coq Require Import Reals Lra Bool List Arith ZArith Lia.
From Verif Require Import Scalar RScal Tensor Spec MpsModel CanonModel HamModel SimplifyModel MinimizerModel DmrgModel.
Import ListNotations.

Section Sim.
Context {RS : RScal}.
Variable svd : tensor -> tensor * list R * tensor.
Variable flag : R.
Variable eigs : tensor -> nat -> tensor -> list K * list K.
Variable arpack : (tensor -> tensor) -> nat -> nat -> tensor -> option (list K * list K).
Variable D : dmrg.
Let D' := clear_orthogonality D.

Lemma bind_ok A B (r : result A) (f : A -> result B) y : bind r f = Ok y -> exists x, r = Ok x /\ f x = Ok y.
Proof. destruct r as [x|]; cbn; [|discriminate]. intros E. exists x. auto. Qed.

Lemma right_sim P blk Proj k blk' Proj' : update_matrices_right D P (blk, Proj) k = Ok (blk', Proj') -> update_matrices_right D' P (blk, []) k = Ok (blk', []).
Proof.
  unfold update_matrices_right. intros E. apply bind_ok in E. destruct E as (pr & _ & E). apply bind_ok in E. destruct E as (Hk & E1 & E).
  change (d_P0 D') with (@nil mps). cbn [update_proj bind]. change (local_term D' k) with (local_term D k). rewrite E1. cbn [bind]. cbv zeta in *.
  change (d_nQ D') with (d_nQ D). destruct (0 <? d_nQ D)%nat; [discriminate|]. injection E as <- _. reflexivity.
Qed.
Lemma left_sim P blk Proj k blk' Proj' : update_matrices_left D P (blk, Proj) k = Ok (blk', Proj') -> update_matrices_left D' P (blk, []) k = Ok (blk', []).
Proof.
  unfold update_matrices_left. intros E. apply bind_ok in E. destruct E as (pr & _ & E). apply bind_ok in E. destruct E as (Hk & E1 & E).
  change (d_P0 D') with (@nil mps). cbn [update_proj bind]. change (local_term D' k) with (local_term D k). rewrite E1. cbn [bind]. cbv zeta in *.
  change (d_nQ D') with (d_nQ D). destruct (0 <? d_nQ D)%nat; [discriminate|]. injection E as <- _. reflexivity.
Qed.

Lemma single_sim P blk Proj k dk P' blk' Proj' e : minimize_single_site svd flag eigs arpack D P (blk, Proj) k dk = Ok (P', (blk', Proj'), e) ->
  minimize_single_site svd flag eigs arpack D' P (blk, []) k dk = Ok (P', (blk', []), e).
Proof.
  unfold minimize_single_site. cbv zeta. cbn [fst]. intros E. change (one_site_parts D' P blk k dk) with (one_site_parts D P blk k dk). change (neig D') with (neig D).
  apply bind_ok in E. destruct E as (Op & E1 & E). rewrite E1. cbn [bind].
  apply bind_ok in E. destruct E as ((Ev & V) & E2 & E). rewrite E2. cbn [bind].
  apply bind_ok in E. destruct E as (Pk & E3 & E). rewrite E3. cbn [bind].
  apply bind_ok in E. destruct E as (P1 & E4 & E). rewrite E4. cbn [bind].
  apply bind_ok in E. destruct E as ((blk1 & Proj1) & E5 & E).
  apply bind_ok in E. destruct E as (e1 & E6 & E). injection E as <- <- _ <-.
  assert (E7 : (if (0 <? dk)%Z then update_matrices_left D' P1 (blk, []) k else update_matrices_right D' P1 (blk, []) k) = Ok (blk1, [])).
  { destruct (0 <? dk)%Z; [apply (left_sim _ _ _ _ _ _ E5)|apply (right_sim _ _ _ _ _ _ E5)]. }
  rewrite E7. cbn [bind]. rewrite E6. reflexivity.
Qed.

Lemma sites_sim dk ks : forall P blk Proj E P' r, dmrg_sites svd flag eigs arpack D 0 dk ks P (blk, Proj) E = Ok (P', r) ->
  exists blk' Proj' e, r = Some ((blk', Proj'), e) /\ dmrg_sites svd flag eigs arpack D' 0 dk ks P (blk, []) E = Ok (P', Some ((blk', []), e)).
Proof.
  induction ks as [|k ks IH]; intros P blk Proj E P' r HE; cbn [dmrg_sites] in *.
  - injection HE as <- <-. exists blk, Proj, E. auto.
  - cbn [Z.eqb] in *. apply bind_ok in HE. destruct HE as (r1 & E1 & HE). apply bind_ok in E1. destruct E1 as (((P1 & (blk1 & Proj1)) & e1) & E1 & E2). injection E2 as <-.
    rewrite (single_sim _ _ _ _ _ _ _ _ _ E1). cbn [bind]. apply (IH _ _ _ _ _ _ HE).
Qed.

Lemma loop_sim n : forall first right failures P blk Proj E r, dmrg_loop svd flag eigs arpack D 0 n first right failures P (blk, Proj) E = Ok r ->
  dmrg_loop svd flag eigs arpack D' 0 n first right failures P (blk, []) E = Ok r.
Proof.
  induction n as [|n IH]; intros first right failures P blk Proj E r HE; cbn [dmrg_loop] in *; [exact HE|].
  change (dmrg_route D' 0 right) with (dmrg_route D 0 right). destruct (dmrg_route D 0 right) as [|k ks]; [apply (IH _ _ _ _ _ _ _ _ HE)|].
  apply bind_ok in HE. destruct HE as ((P1 & r1) & E1 & HE). destruct (sites_sim _ _ _ _ _ _ _ _ E1) as (blk1 & Proj1 & e & -> & E2). rewrite E2. cbn [bind].
  change (d_tolerance D') with (d_tolerance D). change (d_allow_E_growth D') with (d_allow_E_growth D).
  destruct first; [apply (IH _ _ _ _ _ _ _ _ HE)|]. destruct (Rltb (Rabs (e - E)) (d_tolerance D)); [exact HE|].
  destruct (Rltb (1 / 10 ^ 14 * Rabs e) (e - E)); [|apply (IH _ _ _ _ _ _ _ _ HE)]. destruct (d_allow_E_growth D <=? failures)%Z; [exact HE|apply (IH _ _ _ _ _ _ _ _ HE)].
Qed.

Lemma fold_abort (f : blocks -> nat -> result blocks) ks : fold_left (fun r k => bind r (fun B => f B k)) ks Abort = Abort.
Proof. induction ks as [|k ks IH]; [reflexivity|exact IH]. Qed.

Lemma init_sim P B : init_matrices D P = Ok B -> init_matrices D' P = Ok (fst B, []).
Proof.
  unfold init_matrices. change (d_P0 D') with (@nil mps). change (h_size (d_H D')) with (h_size (d_H D)). generalize (repeat (@empty (@rs_scalar RS)) (h_size (d_H D))) (d_P0 D).
  induction (rev (seq 0 (h_size (d_H D)))) as [|k ks IH]; intros blk Proj HE; cbn [fold_left] in *; [injection HE as <-; reflexivity|].
  cbn [bind] in *. destruct (update_matrices_right D P (blk, Proj) k) as [(blk1 & Proj1)|] eqn:E.
  - transitivity (fold_left (fun r k => bind r (fun B => update_matrices_right D' P B k)) ks (Ok (blk1, []))); [|apply (IH _ _ HE)].
    apply (f_equal (fold_left _ ks)). exact (right_sim _ _ _ _ _ _ E).
  - rewrite (fold_abort (fun B k => update_matrices_right D P B k)) in HE. discriminate.
Qed.

Lemma minimize_sim P E r : dmrg_minimize svd flag eigs arpack D P 0 E = Ok r -> dmrg_minimize svd flag eigs arpack D' P 0 E = Ok r.
Proof.
  unfold dmrg_minimize. intros HE. apply bind_ok in HE. destruct HE as (P1 & E1 & HE). rewrite E1. cbn [bind].
  apply bind_ok in HE. destruct HE as ((blk & Proj) & E2 & HE). rewrite (init_sim _ _ E2). cbn [bind fst]. apply (loop_sim _ _ _ _ _ _ _ _ _ HE).
Qed.

(** ** Calls that abort *)
Lemma init_aborts P k : (k < h_size (d_H D))%nat -> (forall B, update_matrices_right D P B k = Abort) -> init_matrices D P = Abort.
Proof.
  intros Hk HA. unfold init_matrices. assert (Hin : In k (rev (seq 0 (h_size (d_H D))))) by (apply -> in_rev; apply in_seq; lia).
  generalize (Ok (repeat (@empty (@rs_scalar RS)) (h_size (d_H D)), d_P0 D)). induction (rev (seq 0 (h_size (d_H D)))) as [|q ks IH]; intros r; [destruct Hin|].
  cbn [fold_left]. destruct Hin as [->|Hin]; [|apply IH; exact Hin].
  transitivity (fold_left (fun r k => bind r (fun B => update_matrices_right D P B k)) ks Abort); [|exact (fold_abort (fun B k => update_matrices_right D P B k) ks)].
  apply (f_equal (fold_left _ ks)). destruct r; [exact (HA _)|reflexivity].
Qed.

Lemma minimize_aborts P Dmax E k : (k < h_size (d_H D))%nat -> (forall P B, update_matrices_right D P B k = Abort) -> dmrg_minimize svd flag eigs arpack D P Dmax E = Abort.
Proof.
  intros Hk HA. unfold dmrg_minimize. destruct (canonical_form svd flag P (-1)) as [P1|]; [|reflexivity]. cbn [bind]. rewrite (init_aborts P1 k Hk (HA P1)). reflexivity.
Qed.

(** ** The two-site algorithm *)
Lemma two_sites_never P B k dk Dmax r : minimize_two_sites svd flag eigs arpack D P B k dk Dmax = Ok r -> r = None.
Proof.
  unfold minimize_two_sites. cbv zeta. intros E. apply bind_ok in E. destruct E as (Hi & _ & E). apply bind_ok in E. destruct E as (Hj & _ & E).
  match type of E with context [match ?x with Some _ => _ | None => _ end] => destruct x as [(Ev & V)|] end; [|injection E as <-; reflexivity].
  discriminate E.
Qed.

Lemma two_site_run P Dmax E P' E' : Dmax <> 0%Z -> (0 < d_sweeps D)%Z -> (2 <= h_size (d_H D))%nat -> dmrg_minimize svd flag eigs arpack D P Dmax E = Ok (P', E') ->
  E' = E /\ exists P1, canonical_form svd flag P (-1) = Ok P1 /\ canonical_form svd flag P1 (-1) = Ok P'.
Proof.
  intros HD Hs HN HE. unfold dmrg_minimize in HE. apply bind_ok in HE. destruct HE as (P1 & E1 & HE). apply bind_ok in HE. destruct HE as (B & _ & HE).
  destruct (Z.to_nat (d_sweeps D)) as [|n] eqn:En; [lia|]. cbn [dmrg_loop] in HE. unfold dmrg_route in HE. destruct (Z.eqb_spec Dmax 0); [contradiction|].
  destruct (h_size (d_H D) - 1)%nat as [|m] eqn:Em; [lia|]. cbn [seq] in HE. apply bind_ok in HE. destruct HE as ((P2 & r2) & E2 & HE).
  cbn [dmrg_sites] in E2. apply bind_ok in E2. destruct E2 as (r1 & E3 & E2). destruct (Z.eqb_spec Dmax 0); [contradiction|].
  apply two_sites_never in E3. subst r1. injection E2 as <- <-. apply bind_ok in HE. destruct HE as (P3 & E4 & HE). injection HE as <- <-.
  split; [reflexivity|]. exists P1. auto.
Qed.

Lemma two_site_abort P Dmax E : Dmax <> 0%Z -> (0 < d_sweeps D)%Z -> (2 <= h_size (d_H D))%nat -> (forall f n k v, arpack f n k v <> None) ->
  dmrg_minimize svd flag eigs arpack D P Dmax E = Abort.
Proof.
  intros HD Hs HN Ha. unfold dmrg_minimize. destruct (canonical_form svd flag P (-1)) as [P1|]; [|reflexivity]. cbn [bind]. destruct (init_matrices D P1) as [B|]; [|reflexivity]. cbn [bind].
  destruct (Z.to_nat (d_sweeps D)) as [|n] eqn:En; [lia|]. cbn [dmrg_loop]. unfold dmrg_route. destruct (Z.eqb_spec Dmax 0); [contradiction|].
  destruct (h_size (d_H D) - 1)%nat as [|m] eqn:Em; [lia|]. cbn [seq dmrg_sites]. destruct (Z.eqb_spec Dmax 0); [contradiction|].
  unfold minimize_two_sites. cbv zeta. destruct (local_term D 0); [|reflexivity]. cbn [bind]. destruct (local_term D (0 + 1)); [|reflexivity]. cbn [bind].
  match goal with |- context [match ?x with Some _ => _ | None => _ end] => destruct x as [(Ev & V)|] eqn:Ex end; [reflexivity|].
  exfalso. match type of Ex with (if ?b then _ else _) = _ => destruct b end; [discriminate|]. apply (Ha _ _ _ _ Ex).
Qed.
End Sim.
