(** The error of many steps of a product of exponentials, for any operators and any direction of time *)
From Coq Require Import Reals Lra Bool List Arith Lia Ring.
From Verif Require Import Scalar ScalarFacts RScal RealInst Tensor TensorFacts Spec ExpectedFacts TrotterSpec TrotterExp OpSpec OpAlgebra OpExp TrotterError Properties_Trotter3.
Import ListNotations.
Local Open Scope R_scope.
Add Ring Cring : (@k_ring CS).
Notation idC := (@id_op CS).

Lemma nrm_osub_eq ds A B A' B' : oeqC ds A A' -> oeqC ds B B' -> nrm ds (@osub CS A B) = nrm ds (@osub CS A' B').
Proof. intros H H'. apply nrm_eq. intros is js Hi Hj. unfold osub. rewrite H, H' by assumption. reflexivity. Qed.

Lemma op_mul_sub_r ds A B C is js : Csub (omul ds A B is js) (omul ds A C is js) = omul ds A (@osub CS B C) is js.
Proof. unfold op_mul, osub. change Csub with (@ksub CS). rewrite <- (@sumcfg_sub CS). apply (@sumcfg_ext CS). intros. apply C_ext; cbn; ring. Qed.
Lemma op_mul_sub_l ds A B C is js : Csub (omul ds A C is js) (omul ds B C is js) = omul ds (@osub CS A B) C is js.
Proof. unfold op_mul, osub. change Csub with (@ksub CS). rewrite <- (@sumcfg_sub CS). apply (@sumcfg_ext CS). intros. apply C_ext; cbn; ring. Qed.

Lemma pow_growth ds A k : nrm ds (opow ds A k) <= nrm ds idC * (1 + nrm ds (@osub CS A idC)) ^ k.
Proof.
  induction k as [|k IH]; cbn [op_pow pow]; [lra|]. pose proof (nrm_pos ds (@osub CS A idC)) as Hp.
  rewrite (nrm_eq ds (omul ds A (opow ds A k)) (@oadd CS (opow ds A k) (omul ds (@osub CS A idC) (opow ds A k)))).
  - eapply Rle_trans; [apply nrm_add|]. pose proof (nrm_mul ds (@osub CS A idC) (opow ds A k)) as H. pose proof (nrm_pos ds (opow ds A k)).
    eapply Rle_trans; [apply Rplus_le_compat_l; exact H|].
    apply Rle_trans with ((1 + nrm ds (@osub CS A idC)) * nrm ds (opow ds A k)); [lra|].
    rewrite <- Rmult_assoc, (Rmult_comm (nrm ds idC)), Rmult_assoc. apply Rmult_le_compat_l; [lra|exact IH].
  - intros is js Hi Hj. unfold oadd. transitivity (Cadd (omul ds idC (opow ds A k) is js) (omul ds (@osub CS A idC) (opow ds A k) is js)).
    + unfold op_mul, osub. change Cadd with (@kadd CS). rewrite <- (@sumcfg_add CS). apply (@sumcfg_ext CS). intros ks _. apply C_ext; cbn; ring.
    + rewrite (@op_mul_id_l CS ds (opow ds A k) is js Hi Hj). reflexivity.
Qed.

Lemma pow_diff ds A B k M : 0 <= M -> (forall j, (j <= k)%nat -> nrm ds (opow ds A j) <= M) -> (forall j, (j <= k)%nat -> nrm ds (opow ds B j) <= M) ->
  nrm ds (@osub CS (opow ds A k) (opow ds B k)) <= INR k * (M * M * nrm ds (@osub CS A B)).
Proof.
  intros HM HA HB. set (e := nrm ds (@osub CS A B)). assert (He : 0 <= e) by apply nrm_pos.
  assert (G : forall j, (j <= k)%nat -> nrm ds (@osub CS (omul ds (opow ds A j) (opow ds B (k - j))) (opow ds B k)) <= INR j * (M * M * e)).
  { induction j as [|j IH]; intros Hj.
    - rewrite Nat.sub_0_r. rewrite (nrm_osub_eq ds _ _ (opow ds B k) (opow ds B k)); [|apply op_mul_id_l|apply oeq_refl].
      rewrite (nrm_eq ds _ ozero) by (intros is js _ _; unfold osub; apply C_ext; cbn; ring). rewrite nrm_ozero. cbn [INR]. lra.
    - eapply Rle_trans; [apply (nrm_tri ds _ (omul ds (opow ds A j) (opow ds B (k - j))))|]. specialize (IH ltac:(lia)).
      rewrite S_INR, Rmult_plus_distr_r, Rmult_1_l, Rplus_comm. apply Rplus_le_compat; [exact IH|].
      replace (k - j)%nat with (S (k - S j)) by lia.
      rewrite (nrm_eq ds _ (omul ds (opow ds A j) (omul ds (@osub CS A B) (opow ds B (k - S j))))).
      + eapply Rle_trans; [apply nrm_mul|]. eapply Rle_trans; [apply Rmult_le_compat_l; [apply nrm_pos|apply nrm_mul]|]. fold e.
        specialize (HA j ltac:(lia)). specialize (HB (k - S j)%nat ltac:(lia)). pose proof (nrm_pos ds (opow ds A j)). pose proof (nrm_pos ds (opow ds B (k - S j))).
        replace (M * M * e) with (M * (e * M)) by ring. apply Rmult_le_compat; [lra|apply Rmult_le_pos; lra|exact HA|apply Rmult_le_compat_l; lra].
      + intros is js Hi Hj'. unfold osub at 1.
        assert (E1 : omul ds (opow ds A (S j)) (opow ds B (k - S j)) is js = omul ds (opow ds A j) (omul ds A (opow ds B (k - S j))) is js).
        { exact (eq_trans (@op_mul_eq CS ds _ (omul ds (opow ds A j) A) _ (opow ds B (k - S j)) (op_pow_S_r ds A j) (oeq_refl ds _) is js Hi Hj') (@op_mul_assoc CS ds _ _ _ is js)). }
        rewrite E1. cbn [op_pow]. refine (eq_trans (op_mul_sub_r ds _ _ _ is js) _). apply (@op_mul_eq CS ds); [apply oeq_refl| |exact Hi|exact Hj'].
        intros x y _ _. apply (op_mul_sub_l ds). }
  specialize (G k (Nat.le_refl k)). rewrite Nat.sub_diag in G. cbn [op_pow] in G. rewrite (nrm_osub_eq ds _ _ (opow ds A k) (opow ds B k)) in G; [exact G|apply op_mul_id_r|apply oeq_refl].
Qed.

Lemma exp_ge x : 0 <= x -> 1 + x <= exp x.
Proof. intros [H|<-]; [left; apply exp_ineq1; lra|rewrite exp_0; lra]. Qed.
Lemma growth_exp c t k T : 0 <= c -> 0 <= t -> INR k * t <= T -> (1 + c * t) ^ k <= exp (c * T).
Proof.
  intros Hc Ht HT. assert (H : forall k, (1 + c * t) ^ k <= exp (INR k * (c * t))).
  { induction k0 as [|q IH]; [cbn; rewrite Rmult_0_l, exp_0; lra|]. rewrite S_INR, Rmult_plus_distr_r, Rmult_1_l, exp_plus. cbn [pow]. rewrite Rmult_comm.
    assert (0 <= c * t) by (apply Rmult_le_pos; assumption). apply Rmult_le_compat; [apply pow_le; lra|lra|exact IH|apply exp_ge; assumption]. }
  eapply Rle_trans; [apply H|]. destruct (Rle_lt_or_eq_dec (INR k * (c * t)) (c * T)) as [L|L]; [|left; apply exp_increasing; exact L|rewrite L; lra].
  replace (INR k * (c * t)) with (c * (INR k * t)) by ring. apply Rmult_le_compat_l; assumption.
Qed.

Lemma accurate_0 l : accurate l 0 0.
Proof.
  intros w Hw. destruct w; [|cbn in Hw; lia]. cbn [length fact INR]. replace (word_coeff l []) with 1.
  - rewrite Rinv_1, Rminus_diag_eq, Rabs_R0 by reflexivity. lra.
  - induction l as [|[c x] l IH]; [reflexivity|]. cbn [word_coeff run]. cbn [seq fold_right skipn]. rewrite <- IH. cbn [pow fact INR]. lra.
Qed.

(** k steps up to the time k|t| <= T *)
Theorem product_error_long ds X l m eps T : accurate l m eps -> exists C B, 0 <= C /\ 0 <= B /\
  forall t k Es F, C1 t <= 1 -> INR k * C1 t <= T -> exps ds X t l Es -> is_op_exp ds (@oscl CS (Cmul (mkC (INR k) 0) t) (@oadd CS (X true) (X false))) F ->
  nrm ds (@osub CS (opow ds (oprod ds Es) k) F) <= INR k * (C * C1 t ^ S m + eps * B).
Proof.
  intros HA. destruct (product_error ds X l m eps HA) as (C & B & HC & HB & HE).
  destruct (product_error ds X l 0 0 (accurate_0 l)) as (c1 & b1 & Hc1 & _ & H1).
  destruct (op_exp_tail ds (@oadd CS (X true) (X false)) 0) as (c2 & Hc2 & H2).
  set (c := c1 + c2). set (D := nrm ds idC). assert (HD : 0 <= D) by apply nrm_pos. set (M := D * exp (c * T)).
  assert (HM : 0 <= M) by (apply Rmult_le_pos; [exact HD|left; apply exp_pos]).
  exists (M * M * C), (M * M * B). split; [apply Rmult_le_pos; [apply Rmult_le_pos; exact HM|assumption]|]. split; [apply Rmult_le_pos; [apply Rmult_le_pos; exact HM|assumption]|].
  intros t k Es F Ht HT HEs HF. destruct (op_exp_exists ds (@oscl CS t (@oadd CS (X true) (X false)))) as (G & HG).
  assert (EF : oeqC ds F (opow ds G k)).
  { apply (op_exp_unique ds _ _ _ HF). refine (op_exp_eq ds _ _ _ _ _ (oeq_refl ds _) (op_exp_iter ds _ _ k HG)). intros a b _ _. unfold oscl. apply C_ext; cbn; ring. }
  rewrite (nrm_osub_eq ds _ _ (opow ds (oprod ds Es) k) (opow ds G k) (oeq_refl ds _) EF).
  specialize (HE t Es G Ht HEs HG). specialize (H1 t Es G Ht HEs HG). specialize (H2 t G Ht HG).
  pose proof (C1_pos t) as Htp.
  assert (N2 : nrm ds (@osub CS G idC) <= c2 * C1 t).
  { rewrite (nrm_osub_eq ds G idC G (@osum CS 1 (fun k => @oscl CS (@kpow CS t k) (trm ds (@oadd CS (X true) (X false)) k)))); [|apply oeq_refl|].
    - cbn [pow] in H2. rewrite Rmult_1_r in H2. exact H2.
    - intros is js _ _. unfold osum, oscl. cbn. apply C_ext; cbn; rewrite ?Rinv_1; ring. }
  assert (N1 : nrm ds (@osub CS (oprod ds Es) idC) <= c * C1 t).
  { eapply Rle_trans; [apply (nrm_tri ds _ G)|]. cbn [pow] in H1. unfold c. lra. }
  assert (Hgrow : forall A j, (j <= k)%nat -> nrm ds (@osub CS A idC) <= c * C1 t -> nrm ds (opow ds A j) <= M).
  { intros A j Hj HAj. eapply Rle_trans; [apply pow_growth|]. unfold M. fold D. apply Rmult_le_compat_l; [exact HD|].
    eapply Rle_trans; [|apply (growth_exp c (C1 t) j T); [unfold c; lra|exact Htp|]].
    - apply pow_incr. pose proof (nrm_pos ds (@osub CS A idC)). lra.
    - eapply Rle_trans; [|exact HT]. apply Rmult_le_compat_r; [exact Htp|]. apply le_INR. exact Hj. }
  eapply Rle_trans; [apply (pow_diff ds _ _ k M HM)|].
  - intros j Hj. apply Hgrow; assumption.
  - intros j Hj. apply Hgrow; [exact Hj|]. eapply Rle_trans; [exact N2|]. apply Rmult_le_compat_r; [exact Htp|]. unfold c; lra.
  - apply Rmult_le_compat_l; [apply pos_INR|]. replace (M * M * C * C1 t ^ S m + eps * (M * M * B)) with (M * M * (C * C1 t ^ S m + eps * B)) by ring.
    apply Rmult_le_compat_l; [apply Rmult_le_pos; exact HM|exact HE].
Qed.
