(** * Rings of cells after a two-site operator *)
From Coq Require Import Reals Lra Bool List Arith ZArith Lia Ring.
From Verif Require Import Scalar ScalarFacts RScal Tensor TensorFacts Spec MpsModel MpsFacts EnvFacts CanonModel CanonSpec TruncFacts CanonFacts CanonSweep CanonNorm SplitFacts DecompModel DecompFacts Properties_Decomp LFormFacts LFormValue SvdExist TrotterRun ITebdModel ITebdSpec ITebdFacts ITebdSlow ITebdSpec2 ITebdGauge ITebdCanon ITebdCanon2 ITebdApply.
Import ListNotations.
Local Open Scope K_scope.

Section Rings.
Context {RS : RScal}.
Add Ring Kring : k_ring.

Section Two.
Variables (psi psi' : itebd) (D E E' dA dB : nat) (U : nat -> nat -> K) (N : R).
Hypothesis HD : (0 < D)%nat.
Hypothesis HE : (0 < E)%nat.
Hypothesis HE' : (0 < E')%nat.
Hypothesis HdA : (0 < dA)%nat.
Hypothesis HdB : (0 < dB)%nat.
Hypothesis HA : dims (iA psi) = [D; dA; E].
Hypothesis HB : dims (iB psi) = [E; dB; D].
Hypothesis HAl : dims (iAlA psi) = [D; dA; E].
Hypothesis HBl : dims (iBlB psi) = [E; dB; D].
Hypothesis HAw : wf (iAlA psi).
Hypothesis HBw : wf (iBlB psi).
Hypothesis HAl' : dims (iAlA psi') = [D; dA; E'].
Hypothesis HBl' : dims (iBlB psi') = [E'; dB; D].
Hypothesis HAw' : wf (iAlA psi').
Hypothesis HBw' : wf (iBlB psi').
Hypothesis Hcell : forall a b i j, (a < D)%nat -> (b < D)%nat -> (i < dA)%nat -> (j < dB)%nat ->
  rinj N * chain (cells psi' 1) [i; j] a b = sumcfg (cell_dims psi 1) (fun js => cells_op dA U [i; j] js * chain (cells psi 1) js a b).

Lemma cells_after n : forall is a b, in_range (cell_dims psi n) is -> (a < D)%nat -> (b < D)%nat ->
  rinj (N ^ n)%R * chain (cells psi' n) is a b = sumcfg (cell_dims psi n) (fun js => cells_op dA U is js * chain (cells psi n) js a b).
Proof.
  induction n as [|n IH]; intros is a b Hi Ha Hb.
  - unfold cell_dims in *. cbn [repeat concat] in *. apply in_range_nil_inv in Hi. subst is. cbn [sumcfg pow cells repeat concat chain cells_op]. rewrite rinj_1. reflexivity.
  - destruct (cells_range psi D E dA dB HA HB n is Hi) as (i1 & i2 & -> & H1 & H2 & L).
    rewrite (chain_cells_S psi' D E' dA dB HD HE' HdA HdB HAl' HBl' HAw' HBw') by assumption.
    destruct (cell_in _ _ i1 H1) as (i & j & -> & Hi1 & Hj1).
    assert (Ec : cell_dims psi (S n) = [dA; dB] ++ cell_dims psi n). { unfold cell_dims. cbn [repeat concat app]. unfold dim. rewrite HA, HB. reflexivity. }
    rewrite Ec, sumcfg_app. unfold mm.
    transitivity (sum D (fun c => (rinj N * chain (cells psi' 1) [i; j] a c) * (rinj (N ^ n)%R * chain (cells psi' n) i2 c b))).
    { rewrite sum_mul_l. apply sum_ext. intros c Hc. change (cells psi' 1) with [iAlA psi'; iBlB psi']. cbn [pow]. rewrite rinj_mul. ring. }
    transitivity (sumcfg [dA; dB] (fun j1 => sum D (fun c => cells_op dA U [i; j] j1 * chain (cells psi 1) j1 a c * sumcfg (cell_dims psi n) (fun j2 => cells_op dA U i2 j2 * chain (cells psi n) j2 c b)))).
    { rewrite sumcfg_sum_swap. apply sum_ext. intros c Hc. rewrite Hcell by assumption. rewrite IH by assumption. rewrite (cell_dims_1 psi D E dA dB HA HB).
      rewrite sumcfg_mul_r. reflexivity. }
    apply sumcfg_ext. intros j1 Hj1'. destruct (cell_in _ _ j1 Hj1') as (p & q & -> & Hp & Hq).
    transitivity (sum D (fun c => sumcfg (cell_dims psi n) (fun j2 => cells_op dA U [i; j] [p; q] * chain (cells psi 1) [p; q] a c * (cells_op dA U i2 j2 * chain (cells psi n) j2 c b)))).
    { apply sum_ext. intros c Hc. apply sumcfg_mul_l. }
    rewrite <- sumcfg_sum_swap. apply sumcfg_ext. intros j2 Hj2.
    rewrite (chain_cells_S psi D E dA dB HD HE HdA HdB HAl HBl HAw HBw) by (first [reflexivity|assumption]). unfold mm. rewrite sum_mul_l. apply sum_ext. intros c Hc.
    change (cells psi 1) with [iAlA psi; iBlB psi]. cbn [app cells_op]. ring.
Qed.

Lemma ring_after n is : in_range (cell_dims psi n) is ->
  rinj (N ^ n)%R * ring psi' n is = sumcfg (cell_dims psi n) (fun js => cells_op dA U is js * ring psi n js).
Proof.
  intros Hi. unfold ring, amp. destruct n as [|n].
  { unfold cell_dims in *. cbn [repeat concat] in *. apply in_range_nil_inv in Hi. subst is. cbn [sumcfg pow cells repeat concat cells_op]. rewrite rinj_1. reflexivity. }
  assert (L1 : left_bond (cells psi (S n)) = D) by (unfold left_bond, cells; cbn [repeat concat app]; unfold dim; rewrite HAl; reflexivity).
  assert (L2 : left_bond (cells psi' (S n)) = D) by (unfold left_bond, cells; cbn [repeat concat app]; unfold dim; rewrite HAl'; reflexivity).
  rewrite L1, L2, sum_mul_l.
  transitivity (sum D (fun a => sumcfg (cell_dims psi (S n)) (fun js => cells_op dA U is js * chain (cells psi (S n)) js a a))).
  { apply sum_ext. intros a Ha. apply cells_after; assumption. }
  rewrite <- sumcfg_sum_swap. apply sumcfg_ext. intros js _. rewrite sum_mul_l. reflexivity.
Qed.
End Two.

Lemma alternate {X} (a b : X) n : a :: concat (repeat [b; a] n) = concat (repeat [a; b] n) ++ [a].
Proof. induction n as [|n IH]; [reflexivity|]. cbn [repeat concat app]. rewrite IH. reflexivity. Qed.

(** Rotation of a ring by one site *)
Lemma ring_shift psi n : wf_itebd psi -> forall i is, in_range (cell_dims psi n) (i :: is) -> ring (shift psi) n (is ++ [i]) = ring psi n (i :: is).
Proof.
  intros (D & E & dA & dB & HD & HE & HdA & HdB & HA & HAw & HB & HBw & HlA & HlB & HAl & HAlw & HBl & HBlw & _) i is Hi.
  destruct n as [|n]. { unfold cell_dims in Hi. cbn in Hi. apply in_range_nil_inv in Hi. discriminate. }
  set (p := cells (shift psi) n).
  assert (Ep : cells psi (S n) = [iAlA psi] ++ (p ++ [iBlB psi]) /\ cells (shift psi) (S n) = (p ++ [iBlB psi]) ++ [iAlA psi]).
  { unfold p, cells. cbn [shift iAlA iBlB]. split.
    - cbn [repeat concat app]. rewrite alternate. reflexivity.
    - cbn [repeat concat app]. rewrite alternate. rewrite app_comm_cons, alternate. reflexivity. }
  assert (Hp : linked E p E). { apply linked_pow. exists dB, D. repeat split; auto. exists dA, E. repeat split; auto. }
  assert (Hp1 : linked E (p ++ [iBlB psi]) D). { apply linked_app. exists E. split; [exact Hp|]. exists dB, D. repeat split; auto. }
  assert (HA1 : linked D [iAlA psi] E). { exists dA, E. repeat split; auto. }
  unfold ring, amp. destruct Ep as [-> ->].
  assert (L1 : left_bond ((p ++ [iBlB psi]) ++ [iAlA psi]) = E). { apply (linked_left_bond E _ E); [destruct p; discriminate|]. apply linked_app. exists D. split; assumption. }
  rewrite L1. change (left_bond ([iAlA psi] ++ p ++ [iBlB psi])) with (dim (iAlA psi) 0). unfold dim at 1. rewrite HAl. cbn [nth].
  assert (Ln : length is = length (p ++ [iBlB psi])).
  { apply ScalarFacts.in_range_length in Hi. cbn [length] in Hi. assert (H2 : length (cell_dims psi (S n)) = S (length (p ++ [iBlB psi]))).
    { unfold cell_dims, p, cells. rewrite app_length. cbn [shift iAlA iBlB length]. clear. cbn [repeat concat app length]. f_equal.
      induction n as [|n IH]; [reflexivity|]. cbn [repeat concat app length] in *. lia. }
    lia. }
  transitivity (sum E (fun b => sum D (fun a => chain (p ++ [iBlB psi]) is b a * chain [iAlA psi] [i] a b))).
  { apply sum_ext. intros b Hb. apply (chain_app E _ D _ E); assumption. }
  rewrite sum_swap. apply sum_ext. intros a Ha.
  change (i :: is) with ([i] ++ is). rewrite (chain_app D [iAlA psi] E (p ++ [iBlB psi]) D) by (first [assumption|reflexivity]).
  apply sum_ext. intros b Hb. ring.
Qed.

Lemma cell_dims_shift psi n : forall d ds, cell_dims psi n = d :: ds -> cell_dims (shift psi) n = ds ++ [d].
Proof.
  unfold cell_dims. cbn [shift iA iB]. induction n as [|n IH]; intros d ds E; [discriminate|]. cbn [repeat concat app] in E. injection E as <- <-.
  destruct n as [|n]; [reflexivity|]. cbn [repeat concat app] in *. rewrite (IH _ _ eq_refl). reflexivity.
Qed.
End Rings.
