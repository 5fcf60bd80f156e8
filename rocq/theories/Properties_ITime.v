(** * C54: the values recorded by evolve_itime() *)
From Coq Require Import Reals Lra Bool List Arith ZArith Lia Ring.
From Verif Require Import Scalar ScalarFacts RScal Tensor TensorFacts Spec SparseSpec MpsModel CanonModel CanonSweep TruncFacts DecompModel ToolsModel Properties_Tools ITebdModel ITebdSpec ITimeModel Properties_ITebd Properties_ITebd8.
Import ListNotations.
Local Open Scope K_scope.

Section C54.
Context {RS : RScal}.
Add Ring Kring : k_ring.
Variable svd : tensor -> tensor * list R * tensor.
Variable eigs : (tensor -> tensor) -> nat -> tensor -> tensor.
Variable eig_sym : tensor -> list R * tensor.

(** energy(psi, H12) of a canonical state, if it returns: the sum of the mean values of H12 on a bond inside a cell and
    on a bond between two cells, in all sections that contain them.  Twice the energy per site. *)
Theorem C54_energy psi H12 E : wf_itebd psi -> icanon psi = true ->
  is_matrix H12 (site_dim psi 0 * site_dim psi 1) (site_dim psi 0 * site_dim psi 1) ->
  energy_value svd eigs eig_sym psi H12 = Ok E ->
  exists x y, E = kre (x + y)%K /\ (sqrt (kmod2 (x + y - rinj E)%K) < 1 / 10 ^ 10)%R /\
    forall m n, (m = 0%nat \/ left_ok psi) -> (n = 0%nat \/ right_ok psi) ->
      is_mean psi (m + 1 + n) (pair_op (2 * m) (cell_dims psi (m + 1 + n)) (mat H12)) x /\
      is_mean psi (m + 2 + n) (pair_op (2 * m + 1) (cell_dims psi (m + 2 + n)) (mat H12)) y.
Proof.
  intros Hw Hc HH HE. unfold energy_value, i_energy in HE.
  destruct (do_expected12 svd eigs eig_sym psi H12 0) as [x|] eqn:E0; [|discriminate]. cbn [bind] in HE.
  destruct (do_expected12 svd eigs eig_sym psi H12 1) as [y|] eqn:E1; [|discriminate]. cbn [bind] in HE.
  destruct (Rltb _ _) eqn:El; [|discriminate]. apply Ok_inj' in HE. subst E. apply Rltb_true in El.
  exists x, y. split; [reflexivity|]. split; [exact El|]. intros m n Hm Hn. split.
  - pose proof (C52_expected12 svd eigs eig_sym psi H12 0 x m n Hw Hc HH Hm Hn E0) as Hx. change (par 0) with 0%nat in Hx. cbv zeta in Hx.
    rewrite !Nat.add_0_r in Hx. exact Hx.
  - exact (C52_expected12 svd eigs eig_sym psi H12 1 y m n Hw Hc HH Hm Hn E1).
Qed.

(** entropy() of a canonical state without zero weights: twice the entropy of the bond inside the cell, because
    entropy(site) does not depend on the site (see C64_site_refuted). *)
Theorem C54_entropy psi S : icanon psi = true -> ilA psi <> [] -> (forall x, In x (ilA psi) -> x <> 0%R) ->
  total_entropy svd eigs eig_sym psi = Ok S -> S = Some (2 * shannon (squares (ilA psi)))%R.
Proof.
  intros Hc Hn Hp HS. unfold total_entropy in HS.
  destruct (C64_entropy_partial svd eigs eig_sym psi 0 Hc Hn Hp eq_refl) as (s & Es & Ev & _).
  assert (Es1 : i_entropy svd eigs eig_sym entropy psi 1 = Ok (Some s)). { rewrite <- Es. unfold i_entropy. rewrite Hc. reflexivity. }
  rewrite Es, Es1 in HS. cbn [bind] in HS. apply Ok_inj' in HS. subst S. f_equal. rewrite Ev. unfold right_vector. change (Z.odd 0) with false. cbv iota. ring.
Qed.
End C54.
