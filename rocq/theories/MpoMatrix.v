(** mpo_to_matrix, and its agreement with mps_to_vector and apply *)
From Coq Require Import Bool List Arith ZArith Lia Ring.
From Verif Require Import Scalar ScalarFacts Tensor TensorFacts Spec MpsModel MpsFacts EnvFacts
  ExpectedFacts StateFacts MpoSpec MpoModel MpoFacts.
Import ListNotations.
Local Open Scope K_scope.

Section Facts.
Context {SC : Scalar}.
Add Ring Kring : k_ring.

Lemma mchain_snoc l p m A d e c is js i j a b :
  mlinked l p m -> dims A = [m; d; e; c] -> length is = length p -> length js = length p ->
  (b < c)%nat -> (a < l)%nat ->
  mchain (p ++ [A]) (is ++ [i]) (js ++ [j]) a b = sum m (fun x => mchain p is js a x * get A [x; i; j; b]).
Proof.
  intros Hp HA. revert l is js a Hp. induction p as [|P p IH]; intros l is js a Hp Li Lj Hb Ha.
  - destruct is; [|discriminate]. destruct js; [|discriminate]. cbn in Hp. subst m.
    cbn [app mchain]. unfold dim. rewrite HA. cbn [nth].
    rewrite sum_delta_r by exact Hb. rewrite sum_delta_l' by exact Ha. reflexivity.
  - destruct is as [|i0 is]; [discriminate|]. destruct js as [|j0 js]; [discriminate|].
    destruct Hp as (d0 & e0 & c0 & HP & HwP & _ & _ & _ & Hp). cbn in Li, Lj.
    cbn [app mchain]. unfold dim. rewrite HP. cbn [nth].
    transitivity (sum c0 (fun y => sum m (fun x => get P [a; i0; j0; y] * (mchain p is js y x * get A [x; i; j; b])))).
    + apply sum_ext. intros y Hy. rewrite (IH c0) by (assumption || lia). apply sum_mul_l.
    + rewrite sum_swap. apply sum_ext. intros x Hx. rewrite sum_mul_r. apply sum_ext. intros y Hy. ring.
Qed.

Definition mat_inv (p : mpo) (m : nat) (st : tensor * nat) : Prop :=
  snd st = nprod (odims p) /\ wf (fst st) /\ dims (fst st) = [nprod (odims p); nprod (odims p); m] /\
  forall is js c, in_range (odims p) is -> in_range (odims p) js -> (c < m)%nat ->
    get (fst st) [offset (odims p) is; offset (odims p) js; c] = mchain p is js 0 c.

Lemma to_matrix_step_inv p m A d c st :
  mlinked 1 p m -> dims A = [m; d; d; c] -> wf A -> mat_inv p m st -> mat_inv (p ++ [A]) c (to_matrix_step st A).
Proof.
  intros Hp HA HwA. destruct st as (B, D). intros (HD & Hw & HB & Hg). cbn [fst snd] in *.
  assert (Hod : odims (p ++ [A]) = odims p ++ [d])
    by (unfold odims; rewrite map_app; cbn; unfold dim; rewrite HA; reflexivity).
  assert (Hn : nprod (odims (p ++ [A])) = (D * d)%nat) by (rewrite Hod, nprod_app, <- HD; cbn; lia).
  assert (HF : dims (fold B 2 A 0) = [D; D; d; d; c])
    by (unfold fold, rank; rewrite HB, HA, <- HD; reflexivity).
  unfold to_matrix_step, dim. rewrite HA. cbn [nth]. unfold mat_inv. cbn [fst snd].
  split; [symmetry; exact Hn|]. split.
  { apply wf_reshape; [apply wf_mk|]. unfold permute, mk. cbn [dims]. rewrite HF. cbn. ring. }
  split; [rewrite Hn; reflexivity|].
  intros is js c' His Hjs Hc. rewrite Hod in *.
  assert (Hsn : forall is, in_range (odims p ++ [d]) is -> exists is0 i, is = is0 ++ [i] /\ in_range (odims p) is0 /\ (i < d)%nat).
  { intros l Hl. unfold in_range in Hl. apply Forall2_app_inv_l in Hl.
    destruct Hl as (l1 & l2 & H1 & H2 & ->).
    inversion H2 as [|? x ? ? Hx Hnil]; subst. inversion Hnil; subst. eauto. }
  destruct (Hsn is His) as (is0 & i & -> & His0 & Hi). destruct (Hsn js Hjs) as (js0 & j & -> & Hjs0 & Hj).
  rewrite !offset_snoc by assumption. rewrite <- HD.
  pose proof (offset_lt _ _ His0) as Ho. pose proof (offset_lt _ _ Hjs0) as Ho'. rewrite <- HD in Ho, Ho'.
  rewrite (get_reshape _ _ _ [offset (odims p) is0; i; offset (odims p) js0; j; c']).
  2:{ unfold permute, mk. cbn [dims]. rewrite HF. cbn. ring. }
  unfold permute. rewrite HF. cbn [swap_nth replace_nth nth].
  rewrite get_mk by (apply in_range_5; assumption). cbn [swap_nth replace_nth nth].
  unfold fold, rank, dim. rewrite HB, HA, <- HD. cbn [remove_nth app nth length].
  rewrite get_mk by (apply in_range_5; assumption).
  cbn [firstn skipn insert_nth Nat.sub].
  rewrite (mchain_snoc 1 p m A d d c); try assumption; try lia.
  - apply sum_ext. intros x Hx. rewrite Hg by assumption. reflexivity.
  - rewrite (in_range_length _ _ His0). apply length_odims.
  - rewrite (in_range_length _ _ Hjs0). apply length_odims.
Qed.

Lemma to_matrix_fold_inv p m q r st :
  mlinked 1 p m -> mlinked m q r -> odims q = idims q -> mat_inv p m st ->
  mat_inv (p ++ q) r (fold_left to_matrix_step q st).
Proof.
  revert p m st. induction q as [|A q IH]; intros p m st Hp Hq Hs HT; cbn in Hq.
  - subst m. rewrite app_nil_r. exact HT.
  - destruct Hq as (d & e & c & H1 & H2 & H3 & H4 & H5 & H6). injection Hs as Hs1 Hs2.
    assert (e = d) by (unfold dim in Hs1; rewrite H1 in Hs1; cbn in Hs1; congruence). subst e.
    replace (p ++ A :: q) with ((p ++ [A]) ++ q) by (rewrite <- app_assoc; reflexivity).
    cbn [fold_left]. apply (IH (p ++ [A]) c); try assumption.
    + apply mlinked_app. exists m. split; [exact Hp|]. cbn. exists d, d, c. auto 10.
    + eapply to_matrix_step_inv; eauto.
Qed.

Lemma mpo_to_matrix_correct O : open_mpo O -> odims O = idims O ->
  wf (mpo_to_matrix O) /\ dims (mpo_to_matrix O) = [nprod (odims O); nprod (odims O)] /\
  forall is js, in_range (odims O) is -> in_range (odims O) js ->
    get (mpo_to_matrix O) [offset (odims O) is; offset (odims O) js] = opelem O is js.
Proof.
  intros (Hne & HO) Hs. unfold mpo_to_matrix.
  assert (H0 : mat_inv [] 1 (mk [1; 1; 1]%nat (fun _ => 1), 1%nat)).
  { split; [reflexivity|]. split; [apply wf_mk|]. split; [reflexivity|].
    intros is js c His Hjs Hc. apply in_range_nil_inv in His, Hjs. subst.
    cbn [fst]; rewrite get_mk by (apply in_range_3; cbn; lia). replace c with 0%nat by lia. reflexivity. }
  pose proof (to_matrix_fold_inv [] 1 O 1 _ eq_refl HO Hs H0) as HI.
  destruct (fold_left to_matrix_step O _) as (B, D). destruct HI as (HD & Hw & HB & Hg). cbn [app fst snd] in *.
  subst D. split; [|split].
  - apply wf_reshape; [exact Hw|]. rewrite HB. cbn. ring.
  - reflexivity.
  - intros is js His Hjs. rewrite (get_reshape _ _ _ [offset (odims O) is; offset (odims O) js; 0%nat]).
    + rewrite Hg by (assumption || lia). unfold opelem. rewrite (mlinked_left _ _ _ Hne HO). symmetry.
      rewrite sum_1. reflexivity.
    + rewrite HB. cbn. ring.
Qed.

(** Sums over positions are sums over configurations *)
Lemma sum_nprod ds f : sum (nprod ds) f = sumcfg ds (fun is => f (offset ds is)).
Proof.
  revert f. induction ds as [|d ds IH]; intros f; [cbn; ring|].
  cbn [nprod fold_right sumcfg]. fold (nprod ds). rewrite sum_merge, IH, sumcfg_sum_swap.
  apply sum_ext. intros i Hi. reflexivity.
Qed.

Lemma to_matrix_vector O psi : open_mpo O -> wf_mps psi -> odims O = pdims psi -> idims O = pdims psi ->
  exists chi v w, apply O psi = Ok chi /\ mps_to_vector psi = Ok v /\ mps_to_vector chi = Ok w /\
    mmult (mpo_to_matrix O) v = w.
Proof.
  intros HO Hp Ho Hi.
  assert (HwO : wf_mpo O) by (destruct HO as (H1 & H2); split; [exact H1|exists 1%nat; split; [lia|exact H2]]).
  destruct (apply_correct O psi HwO Hp Hi) as (chi & E & Hwc & Hpc & _ & Hac).
  destruct (mps_to_vector_correct psi Hp) as (v & Ev & Hwv & Hdv & Hgv).
  destruct (mps_to_vector_correct chi Hwc) as (w & Ew & Hww & Hdw & Hgw).
  exists chi, v, w. repeat (split; [assumption|]).
  destruct (mpo_to_matrix_correct O HO ltac:(congruence)) as (M1 & M2 & M3).
  assert (Hdm : dims (mmult (mpo_to_matrix O) v) = [nprod (odims O)]).
  { unfold mmult, fold, rank. rewrite M2, Hdv. reflexivity. }
  apply tensor_ext; [apply wf_mk|exact Hww|rewrite Hdm, Hdw, Hpc; reflexivity|].
  intros ks Hks. rewrite Hdm in Hks. apply in_range_cons_inv in Hks. destruct Hks as (k & ks' & -> & Hk & Hks).
  apply in_range_nil_inv in Hks. subst ks'.
  pose proof (offset_unravel _ _ Hk) as Ek. pose proof (unravel_in_range _ _ Hk) as Hr.
  set (is := unravel (odims O) k) in *. rewrite <- Ek.
  transitivity (amp chi is).
  2:{ rewrite <- Hpc in Hr |- *. symmetry. apply Hgw. exact Hr. }
  rewrite Hac by exact Hr. unfold mmult, fold, rank, dim. rewrite M2, Hdv. cbn [length Nat.sub remove_nth app nth].
  rewrite get_mk by (apply in_range_1; rewrite Ek; exact Hk). cbn [firstn skipn insert_nth].
  rewrite sum_nprod. unfold op_apply. rewrite Ho in *. apply sumcfg_ext. intros js Hjs.
  rewrite M3 by assumption. rewrite Hgv by exact Hjs. reflexivity.
Qed.

End Facts.
