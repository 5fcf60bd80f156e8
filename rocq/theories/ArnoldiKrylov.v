(** The exact recurrence of Lanczos: orthonormal vectors, powers of the operator *)
From Coq Require Import Reals Lra Bool List Arith ZArith Lia Ring.
From Verif Require Import Scalar ScalarFacts RScal RealInst Tensor TensorFacts Spec MpsModel MpsFacts MpoSpec CanonSpec SimplifySpec SimplifyFacts
  OpSpec OpAlgebra TrotterExp OpExp ArnoldiSpec ArnoldiModel ArnoldiFacts ArnoldiStep.
Import ListNotations.
Local Open Scope K_scope.

Section Lanczos.
Context {RS : RScal}.
Add Ring Kring : k_ring.
Variables (H : mpo) (ds : list nat).
Hypothesis HH : hermitian_mpo H ds.
Variables (v : nat -> list nat -> K) (m : nat) (b : nat -> R).
Hypothesis Hnorm : forall k, (k < m)%nat -> inner ds (v k) (v k) = 1.
Hypothesis Hb : forall k, (0 < k < m)%nat -> (0 < b k)%R.
Hypothesis Hrec : forall k, (0 < k < m)%nat -> forall is, in_range ds is -> lanczos_target ds H v k is = rinj (b k) * v k is.
Notation Hop := (Hv H ds).
Notation inn := (inner ds).

Lemma inner_add_r f g h : inn f (fun is => g is + h is) = inn f g + inn f h.
Proof. unfold inner. rewrite <- sumcfg_add. apply sumcfg_ext. intros is _. ring. Qed.

(** H v_j *)
Lemma Hv_step j is : (S j < m)%nat -> in_range ds is -> Hop (v j) is = (rinj (b (S j)) * v (S j) is + inn (v j) (Hop (v j)) * v j is) +
  (if Nat.ltb 0 j then inn (v j) (Hop (v (j - 1)%nat)) else 0) * v (j - 1)%nat is.
Proof.
  intros Hj Hi. rewrite <- (Hrec (S j) ltac:(lia) is Hi). unfold lanczos_target. cbv zeta. unfold Hv. replace (S j - 1)%nat with j by lia. replace (S j - 2)%nat with (j - 1)%nat by lia.
  destruct j as [|j]; cbn [Nat.ltb Nat.leb]; ring.
Qed.

Lemma rinj_nz x : (0 < x)%R -> forall y, rinj x * y = 0 -> y = 0.
Proof. intros Hx y E. transitivity (rinj (/ x * x) * y); [rewrite Rinv_l by lra; rewrite rinj_1; ring|]. rewrite rinj_mul. transitivity (rinj (/ x) * (rinj x * y)); [ring|]. rewrite E. ring. Qed.

Definition ortho n := forall i j, (i < n)%nat -> (j < n)%nat -> inn (v i) (v j) = delta i j.

Lemma inner_Hv n a j : ortho n -> (n <= m)%nat -> (a < n)%nat -> (S j < n)%nat ->
  inn (v a) (Hop (v j)) = (rinj (b (S j)) * delta a (S j) + inn (v j) (Hop (v j)) * delta a j) + (if Nat.ltb 0 j then inn (v j) (Hop (v (j - 1)%nat)) else 0) * delta a (j - 1)%nat.
Proof.
  intros Ho Hn Ha Hj. rewrite (inner_ext ds (v a) (Hop (v j)) (v a) (fun is => (rinj (b (S j)) * v (S j) is + inn (v j) (Hop (v j)) * v j is) + (if Nat.ltb 0 j then inn (v j) (Hop (v (j - 1)%nat)) else 0) * v (j - 1)%nat is)); [|reflexivity|intros; apply Hv_step; [lia|assumption]].
  rewrite !inner_add_r, !inner_scale_r. rewrite !Ho by lia. reflexivity.
Qed.

Lemma lanczos_ortho : forall n, (n <= m)%nat -> ortho n.
Proof.
  induction n as [|n IH]; intros Hn; [intros i j Hi; lia|]. specialize (IH ltac:(lia)).
  assert (Z : forall i, (i < n)%nat -> inn (v i) (v n) = 0).
  { intros i Hi. apply (rinj_nz (b n) (Hb n ltac:(lia))). rewrite <- inner_scale_r.
    rewrite (inner_ext ds (v i) _ (v i) (lanczos_target ds H v n)); [|reflexivity|intros; symmetry; apply Hrec; [lia|assumption]].
    unfold lanczos_target. cbv zeta. rewrite !inner_sub_r, inner_scale_r. rewrite (IH i (n - 1)%nat) by lia.
    change (op_apply ds (opelem H) (v (n - 1)%nat)) with (Hop (v (n - 1)%nat)).
    assert (Er : inn (v i) (fun is => if Nat.ltb 1 n then inn (v (n - 1)%nat) (op_apply ds (opelem H) (v (n - 2)%nat)) * v (n - 2)%nat is else 0) = (if Nat.ltb 1 n then inn (v (n - 1)%nat) (Hop (v (n - 2)%nat)) else 0) * delta i (n - 2)%nat).
    { destruct (Nat.ltb_spec 1 n) as [Hl|Hl]; [rewrite inner_scale_r, IH by lia; reflexivity|]. unfold inner. rewrite sumcfg_zero by (intros; ring). ring. }
    rewrite Er. clear Er.
    destruct (Nat.eq_dec i (n - 1)) as [->|Hi1].
    - rewrite delta_refl. destruct (Nat.ltb_spec 1 n) as [Hl|Hl]; [|ring]. unfold delta at 1. destruct (Nat.eqb_spec (n - 1) (n - 2)); [lia|]. ring.
    - assert (Hl : (1 < n)%nat) by lia. destruct (Nat.ltb_spec 1 n) as [_|?]; [|lia].
      assert (D : delta i (n - 1) = 0) by (unfold delta; destruct (Nat.eqb_spec i (n - 1)); [contradiction|reflexivity]). rewrite D.
      rewrite (Hv_herm H ds HH), <- inner_conj. rewrite (inner_Hv n (n - 1) i IH ltac:(lia) ltac:(lia) ltac:(lia)).
      assert (D1 : delta (n - 1) i = 0) by (rewrite delta_sym; exact D). rewrite D1.
      assert (D2 : delta (n - 1) (i - 1) = 0) by (unfold delta; destruct (Nat.eqb_spec (n - 1) (i - 1)); [lia|reflexivity]). rewrite D2.
      destruct (Nat.eq_dec i (n - 2)) as [->|Hi2].
      + rewrite delta_refl. rewrite (inner_Hv n (n - 1) (n - 2) IH ltac:(lia) ltac:(lia) ltac:(lia)). rewrite D1, D2. replace (S (n - 2)) with (n - 1)%nat by lia. rewrite delta_refl.
        rewrite !kconj_add, !kconj_mul, kconj_0, kconj_1, rinj_conj. ring.
      + assert (D3 : delta (n - 1) (S i) = 0) by (unfold delta; destruct (Nat.eqb_spec (n - 1) (S i)); [lia|reflexivity]). rewrite D3.
        assert (D4 : delta i (n - 2) = 0) by (unfold delta; destruct (Nat.eqb_spec i (n - 2)); [contradiction|reflexivity]). rewrite D4.
        rewrite !kconj_add, !kconj_mul, kconj_0. ring. }
  intros i j Hi Hj. destruct (Nat.eq_dec i n) as [->|Hin], (Nat.eq_dec j n) as [->|Hjn].
  - rewrite delta_refl. apply Hnorm. lia.
  - rewrite <- inner_conj, Z by lia. rewrite kconj_0. unfold delta. destruct (Nat.eqb_spec n j); [lia|reflexivity].
  - rewrite Z by lia. unfold delta. destruct (Nat.eqb_spec i n); [lia|reflexivity].
  - apply IH; lia.
Qed.

(** H maps v_j to a combination of the vectors, with the coefficients <v_k|H|v_j>, none of them beyond v_(j+1) *)
Lemma Hv_expand j is : (S j < m)%nat -> in_range ds is -> Hop (v j) is = sum m (fun k => inn (v k) (Hop (v j)) * v k is).
Proof.
  intros Hj Hi. rewrite (Hv_step j is Hj Hi).
  rewrite (sum_ext m (fun k => inn (v k) (Hop (v j)) * v k is) (fun k => delta k (S j) * (rinj (b (S j)) * v k is) + delta k j * (inn (v j) (Hop (v j)) * v k is)
    + delta k (j - 1)%nat * ((if Nat.ltb 0 j then inn (v j) (Hop (v (j - 1)%nat)) else 0) * v k is))).
  2:{ intros k Hk. rewrite (inner_Hv m k j (lanczos_ortho m (le_n m)) (le_n m) Hk Hj). ring. }
  rewrite !sum_add. rewrite (sum_delta_l m (S j) (fun k => rinj (b (S j)) * v k is)) by lia. rewrite (sum_delta_l m j (fun k => inn (v j) (Hop (v j)) * v k is)) by lia.
  rewrite (sum_delta_l m (j - 1) (fun k => (if Nat.ltb 0 j then inn (v j) (Hop (v (j - 1)%nat)) else 0) * v k is)) by lia. reflexivity.
Qed.
Lemma Hv_zero k j : (k < m)%nat -> (S j < k)%nat -> inn (v k) (Hop (v j)) = 0.
Proof.
  intros Hk Hj. rewrite (inner_Hv m k j (lanczos_ortho m (le_n m)) (le_n m) Hk ltac:(lia)). unfold delta.
  destruct (Nat.eqb_spec k (S j)); [lia|]. destruct (Nat.eqb_spec k j); [lia|]. destruct (Nat.eqb_spec k (j - 1)); [lia|]. ring.
Qed.
End Lanczos.

(** ** Series *)
Local Open Scope R_scope.
Add Ring Cring : (@k_ring CS).
(** l is the sum of the z^k u_k / k! *)
Definition expsum (z : Cx) (u : nat -> Cx) (N : nat) : Cx := csum (S N) (fun k => Cmul (Cmul (mkC (/ INR (fact k)) 0) (@kpow CS z k)) (u k)).

Lemma expsum_tail z u l a B m : 0 <= a -> 0 <= B -> (forall k, C1 (u k) <= B * a ^ k) -> C1 z <= 1 -> Ccv (expsum z u) l ->
  C1 (Csub l (csum m (fun k => Cmul (Cmul (mkC (/ INR (fact k)) 0) (@kpow CS z k)) (u k)))) <= B * exp a * C1 z ^ m.
Proof.
  intros Ha HB Hu Hz Hl. refine (Ccv_bound _ _ _ _ m Hl _). intros n Hn. unfold expsum. replace (S n) with (m + (S n - m))%nat by lia. rewrite (@sum_plus CS).
  match goal with |- C1 (Csub (@kadd _ ?u ?v) ?w) <= _ => replace (Csub (@kadd CS u v) w) with v by (apply C_ext; cbn; ring) end.
  eapply Rle_trans; [apply C1_sum|].
  eapply Rle_trans; [apply (rsm_le (S n - m) _ (fun k => C1 z ^ m * B * (a ^ (m + k) / INR (fact (m + k)))))|].
  - intros k Hk. cbv beta. set (q := (m + k)%nat). eapply Rle_trans; [apply C1_mul|]. pose proof (C1_mul (mkC (/ INR (fact q)) 0) (@kpow CS z q)) as B1. rewrite C1_real, Rabs_right in B1 by (left; apply fact_pos).
    pose proof (C1_kpow z q) as B3. pose proof (C1_pos z) as Hz0. assert (B4 : C1 z ^ q <= C1 z ^ m).
    { unfold q. rewrite pow_add. pose proof (pow_le (C1 z) m Hz0). assert (C1 z ^ k <= 1) by (rewrite <- (pow1 k); apply pow_incr; lra). nra. }
    pose proof (fact_pos q) as Hf. pose proof (Hu q) as B5. pose proof (C1_pos (u q)) as B6. pose proof (C1_pos (Cmul (mkC (/ INR (fact q)) 0) (@kpow CS z q))) as B7.
    replace (C1 z ^ m * B * (a ^ q / INR (fact q))) with ((/ INR (fact q) * C1 z ^ m) * (B * a ^ q)) by (unfold Rdiv; ring).
    apply Rmult_le_compat; [exact B7|exact B6| |exact B5]. eapply Rle_trans; [exact B1|]. apply Rmult_le_compat_l; lra.
  - replace (rsm (S n - m) (fun k => C1 z ^ m * B * (a ^ (m + k) / INR (fact (m + k))))) with (C1 z ^ m * B * rsm (S n - m) (fun k => a ^ (m + k) / INR (fact (m + k))))
      by (exact (@sum_mul_l RSC (S n - m) (C1 z ^ m * B) (fun k => a ^ (m + k) / INR (fact (m + k))))).
    assert (Be : rsm (S n - m) (fun k => a ^ (m + k) / INR (fact (m + k))) <= exp a).
    { eapply Rle_trans; [|apply (eser_le a n Ha)]. unfold eser. replace (S n) with (m + (S n - m))%nat at 2 by lia. rewrite (@sum_plus RSC). change (@kadd RSC) with Rplus.
      assert (0 <= rsm m (fun k => a ^ k / INR (fact k))).
      { refine (Rle_trans _ _ _ (Req_le _ _ (eq_sym (@sum_0 RSC m))) _). apply rsm_le. intros k Hk. apply Rmult_le_pos; [apply pow_le; exact Ha|left; apply fact_pos]. }
      lra. }
    pose proof (pow_le (C1 z) m (C1_pos z)). replace (B * exp a * C1 z ^ m) with (C1 z ^ m * B * exp a) by ring. apply Rmult_le_compat_l; [apply Rmult_le_pos; assumption|exact Be].
Qed.

Lemma expsum_diff z u w l l' a B a' B' m : 0 <= a -> 0 <= B -> (forall k, C1 (u k) <= B * a ^ k) -> 0 <= a' -> 0 <= B' -> (forall k, C1 (w k) <= B' * a' ^ k) ->
  C1 z <= 1 -> (forall k, (k < m)%nat -> u k = w k) -> Ccv (expsum z u) l -> Ccv (expsum z w) l' -> C1 (Csub l l') <= (B * exp a + B' * exp a') * C1 z ^ m.
Proof.
  intros Ha HB Hu Ha' HB' Hw Hz E Hl Hl'. pose proof (expsum_tail z u l a B m Ha HB Hu Hz Hl) as T1. pose proof (expsum_tail z w l' a' B' m Ha' HB' Hw Hz Hl') as T2.
  set (s := csum m (fun k => Cmul (Cmul (mkC (/ INR (fact k)) 0) (@kpow CS z k)) (u k))) in *.
  assert (Es : csum m (fun k => Cmul (Cmul (mkC (/ INR (fact k)) 0) (@kpow CS z k)) (w k)) = s) by (apply (@sum_ext CS); intros k Hk; rewrite (E k Hk); reflexivity).
  rewrite Es in T2. replace (Csub l l') with (Cadd (Csub l s) (Csub s l')) by (apply C_ext; cbn; ring). eapply Rle_trans; [apply C1_add|].
  assert (Sy : C1 (Csub s l') = C1 (Csub l' s)) by (unfold C1; cbn; rewrite (Rabs_minus_sym (Cre s)), (Rabs_minus_sym (Cim s)); reflexivity). rewrite Sy. lra.
Qed.

Lemma power_bound ds M f : exists a B, 0 <= a /\ 0 <= B /\ forall k is, in_range ds is -> C1 (power_apply ds M k f is) <= B * a ^ k.
Proof.
  exists (nrm ds M), (rcfg ds (fun is => C1 (f is))). assert (HB : 0 <= rcfg ds (fun is => C1 (f is))) by (apply rcfg_nonneg; intros; apply C1_pos). pose proof (nrm_pos ds M) as Ha.
  split; [exact Ha|]. split; [exact HB|]. set (B := rcfg ds (fun is => C1 (f is))) in *.
  induction k as [|k IH]; intros is Hi; cbn [power_apply pow].
  - rewrite Rmult_1_r. apply (rcfg_entry ds (fun is => C1 (f is)) is); [intros; apply C1_pos|exact Hi].
  - unfold op_apply. eapply Rle_trans; [apply C1_cfg|].
    eapply Rle_trans; [apply (rcfg_le ds _ (fun js => C1 (M is js) * (B * nrm ds M ^ k)))|].
    + intros js Hj. eapply Rle_trans; [apply C1_mul|]. apply Rmult_le_compat_l; [apply C1_pos|apply IH; exact Hj].
    + rewrite <- rcfg_scl_r. replace (B * (nrm ds M * nrm ds M ^ k)) with (nrm ds M * (B * nrm ds M ^ k)) by ring. apply Rmult_le_compat_r; [apply Rmult_le_pos; [exact HB|apply pow_le; exact Ha]|].
      apply (rcfg_entry ds (fun is => rcfg ds (fun js => C1 (M is js))) is); [|exact Hi]. intros. apply rcfg_nonneg. intros. apply C1_pos.
Qed.

(** ** The coefficients when the vectors are orthonormal *)
Section Coef.
Variable msolve : tens -> tens -> tens.
Hypothesis Hmsolve : @msolve_contract CC msolve.
Variable expm : tens -> tens.
Hypothesis Hexpm : expm_contract expm.
Variable eig : tens -> list Cx * tens.
Variables (H : @mpo CS) (ds : list nat).
Hypothesis HH : @hermitian_mpo CC H ds.
Variables (states : list state) (N Heff : @table CC) (b : nat -> R).
Notation v := (fun k => @amp CS (nth k states [])).
Notation Hop := (@Hv CC H ds).
Notation inn := (@inner CS ds).
Let n := length states.
Hypothesis Hn : (0 < n)%nat.
Hypothesis HN : forall i j, (i < n)%nat -> (j < n)%nat -> N i j = inn (v i) (v j) /\ Heff i j = inn (v i) (Hop (v j)).
Hypothesis Hnorm : forall k, (k < n)%nat -> inn (v k) (v k) = mkC 1 0.
Hypothesis Hb : forall k, (0 < k < n)%nat -> 0 < b k.
Hypothesis Hrec : forall k, (0 < k < n)%nat -> forall is, in_range ds is -> @lanczos_target CC ds H v k is = Cmul (mkC (b k) 0) (v k is).

Lemma ortho_N i j : (i < n)%nat -> (j < n)%nat -> N i j = @delta CS i j.
Proof. intros Hi Hj. rewrite (proj1 (HN i j Hi Hj)). exact (@lanczos_ortho CC H ds HH v n b Hnorm Hb Hrec n (le_n n) i j Hi Hj). Qed.

Let X := msolve (@to_matrix CC n N) (@to_matrix CC n Heff).
Lemma X_Heff i j : (i < n)%nat -> (j < n)%nat -> @mat CS X i j = Heff i j.
Proof.
  intros Hi Hj. destruct (solve_ok msolve Hmsolve H ds states N Heff HN) as (_ & HX). fold n in HX. rewrite <- (HX i j Hi Hj).
  symmetry. refine (eq_trans (@sum_ext CS n _ (fun k => @kmul CS (@delta CS i k) (@mat CS X k j)) _) _); [intros k Hk; rewrite (ortho_N i k Hi Hk); reflexivity|].
  exact (@sum_delta_l' CS n i (fun k => @mat CS X k j) Hi).
Qed.

Lemma mpow_Heff k i j : (i < n)%nat -> (j < n)%nat -> mpow n (@mat CS X) k i j = mpow n Heff k i j.
Proof. revert i. induction k as [|k IH]; intros i Hi Hj; [reflexivity|]. cbn [mpow]. apply (@sum_ext CS). intros l Hl. rewrite (X_Heff i l Hi Hl), (IH l Hl Hj). reflexivity. Qed.

(** The combination of the vectors as a series *)
Definition wcoef (k : nat) (is : list nat) : Cx := csum n (fun i => Cmul (mpow n Heff k i 0%nat) (v i is)).
Lemma combo_series idt is : idt <> mkC 0 0 -> Ccv (expsum idt (fun k => wcoef k is)) (@combo CC (@arnoldi_coef CC msolve expm eig idt n N Heff) states is).
Proof.
  intros H0. refine (eq_ind_r (fun l => Ccv _ l) _ (combo_sum msolve expm eig idt H0 states N Heff is)). fold n. fold X.
  set (M := fun i j => Cmul idt (@mat CS X i j)). set (E := @mat CS (expm (@tscale CS idt X))).
  assert (HM : forall k i j, (i < n)%nat -> (j < n)%nat -> mpow n M k i j = Cmul (@kpow CS idt k) (mpow n (@mat CS X) k i j)).
  { induction k as [|k IH]; intros i j Hi Hj; [cbn [mpow kpow]; apply C_ext; cbn; ring|]. cbn [mpow kpow]. change Cmul with (@kmul CS). rewrite (@sum_mul_l CS). apply (@sum_ext CS). intros m Hm. rewrite (IH m j Hm Hj). unfold M. apply C_ext; cbn; ring. }
  apply (Ccv_ext (fun q => csum n (fun k => Cmul (epart n M q k 0%nat) (v k is)))).
  - intros q. unfold expsum, epart.
    transitivity (csum (S q) (fun k => csum n (fun i => Cmul (Cmul (mkC (/ INR (fact k)) 0) (mpow n M k i 0%nat)) (v i is)))).
    + rewrite (@sum_swap CS). apply (@sum_ext CS). intros i Hi'. change Cmul with (@kmul CS). rewrite (@sum_mul_r CS). reflexivity.
    + apply (@sum_ext CS). intros k Hk. unfold wcoef. change Cmul with (@kmul CS) at 3. rewrite (@sum_mul_l CS). apply (@sum_ext CS). intros i Hi'. rewrite (HM k i 0%nat Hi' Hn), (mpow_Heff k i 0%nat Hi' Hn). apply C_ext; cbn -[fact kpow mpow]; ring.
  - apply (Ccv_sum n (fun k q => Cmul (epart n M q k 0%nat) (v k is))). intros k Hk. apply (Ccv_mul _ (fun _ => v k is)); [|apply Ccv_const].
    exact (exp_ok msolve Hmsolve expm Hexpm H ds idt states N Heff HN k 0%nat Hk Hn).
Qed.
Lemma wcoef_bound is : exists a B, 0 <= a /\ 0 <= B /\ forall k, C1 (wcoef k is) <= B * a ^ k.
Proof.
  destruct (pow_bound n Heff) as (a & Ha & HP). exists a, (rsm n (fun i => C1 (v i is))).
  assert (HB : 0 <= rsm n (fun i => C1 (v i is))) by (refine (Rle_trans _ _ _ (Req_le _ _ (eq_sym (@sum_0 RSC n))) _); apply rsm_le; intros; apply C1_pos).
  split; [exact Ha|]. split; [exact HB|]. intros k. unfold wcoef. eapply Rle_trans; [apply C1_sum|]. rewrite Rmult_comm.
  refine (Rle_trans _ _ _ _ (Req_le _ _ (eq_sym (@sum_mul_l RSC n (a ^ k) (fun i => C1 (v i is)))))). apply rsm_le. intros i Hi. eapply Rle_trans; [apply C1_mul|].
  change (C1 (mpow n Heff k i 0) * C1 (v i is) <= a ^ k * C1 (v i is)). apply Rmult_le_compat_r; [apply C1_pos|apply HP; assumption].
Qed.

(** Up to order n its terms are those of the exact evolution. *)
Lemma mpow_zero k i : (i < n)%nat -> (k < i)%nat -> mpow n Heff k i 0%nat = mkC 0 0.
Proof.
  revert i. induction k as [|k IH]; intros i Hi Hk; cbn [mpow].
  - unfold delta. destruct (Nat.eqb_spec i 0); [lia|reflexivity].
  - apply (@sum_zero CS). intros l Hl. destruct (Nat.lt_ge_cases k l) as [Hkl|Hkl].
    + rewrite (IH l Hl Hkl). apply C_ext; cbn; ring.
    + rewrite (proj2 (HN i l Hi Hl)). rewrite (@Hv_zero CC H ds HH v n b Hnorm Hb Hrec i l Hi ltac:(lia)). apply C_ext; cbn; ring.
Qed.
Lemma wcoef_power k is : (k < n)%nat -> in_range ds is -> wcoef k is = power_apply ds (@opelem CS H) k (v 0%nat) is.
Proof.
  revert is. induction k as [|k IH]; intros is Hk Hi; [unfold wcoef; cbn [mpow power_apply]; exact (@sum_delta_l CS n 0%nat (fun i => v i is) Hn)|]. cbn [power_apply].
  transitivity (@op_apply CS ds (@opelem CS H) (wcoef k) is).
  2:{ unfold op_apply. apply (@sumcfg_ext CS). intros js Hj. rewrite (IH js ltac:(lia) Hj). reflexivity. }
  transitivity (csum n (fun i => Cmul (mpow n Heff k i 0%nat) (Hop (v i) is))).
  2:{ unfold Hv, op_apply, wcoef. symmetry. transitivity (@sumcfg CS ds (fun js => csum n (fun i => Cmul (mpow n Heff k i 0%nat) (Cmul (@opelem CS H is js) (v i js))))).
      - apply (@sumcfg_ext CS). intros js Hj. change (@kmul (@rs_scalar CC)) with (@kmul CS). rewrite (@sum_mul_l CS). apply (@sum_ext CS). intros i Hi'. apply C_ext; cbn -[mpow]; ring.
      - rewrite (@sumcfg_sum_swap CS). apply (@sum_ext CS). intros i Hi'. change Cmul with (@kmul CS). rewrite <- (@sumcfg_mul_l CS). reflexivity. }
  transitivity (csum n (fun i => csum n (fun m => Cmul (Cmul (Heff m i) (mpow n Heff k i 0%nat)) (v m is)))).
  2:{ apply (@sum_ext CS). intros i Hi'. destruct (Nat.lt_ge_cases k i) as [Hki|Hki].
      - rewrite (mpow_zero k i Hi' Hki). rewrite (@sum_zero CS) by (intros; apply C_ext; cbn; ring). apply C_ext; cbn; ring.
      - rewrite (@Hv_expand CC H ds HH v n b Hnorm Hb Hrec i is ltac:(lia) Hi). change Cmul with (@kmul CS). refine (eq_trans _ (eq_sym (@sum_mul_l CS n _ _))). apply (@sum_ext CS). intros m Hm. rewrite (proj2 (HN m i Hm Hi')). apply C_ext; cbn -[mpow]; ring. }
  unfold wcoef. rewrite (@sum_swap CS). apply (@sum_ext CS). intros m Hm. cbn [mpow]. change Cmul with (@kmul CS). rewrite (@sum_mul_r CS). reflexivity.
Qed.

Lemma krylov_order is : in_range ds is -> exists C, 0 <= C /\ forall idt psi g, idt <> mkC 0 0 -> C1 idt <= 1 -> (forall is, in_range ds is -> v 0%nat is = psi is) ->
  is_evolved ds (@opelem CS H) idt psi g -> C1 (Csub (@combo CC (@arnoldi_coef CC msolve expm eig idt n N Heff) states is) (g is)) <= C * C1 idt ^ n.
Proof.
  intros Hi. destruct (wcoef_bound is) as (a & B & Ha & HB & Hw). destruct (power_bound ds (@opelem CS H) (v 0%nat)) as (a' & B' & Ha' & HB' & Hp).
  exists (B * exp a + B' * exp a'). pose proof (exp_pos a). pose proof (exp_pos a'). split; [nra|]. intros idt psi g Hz Hz1 Hpsi Hg.
  assert (Hpw : forall k is, in_range ds is -> power_apply ds (@opelem CS H) k psi is = power_apply ds (@opelem CS H) k (v 0%nat) is).
  { induction k as [|k IH]; intros js Hj; cbn [power_apply]; [symmetry; apply Hpsi; exact Hj|]. unfold op_apply. apply (@sumcfg_ext CS). intros ks Hk. rewrite (IH ks Hk). reflexivity. }
  refine (expsum_diff idt (fun k => wcoef k is) (fun k => power_apply ds (@opelem CS H) k (v 0%nat) is) _ _ a B a' B' n Ha HB Hw Ha' HB' (fun k => Hp k is Hi) Hz1 _ (combo_series idt is Hz) _).
  - intros k Hk. apply wcoef_power; assumption.
  - refine (Ccv_ext (fun q => exp_apply ds (@opelem CS H) idt psi q is) _ _ _ (Hg is Hi)). intros q. unfold exp_apply, expsum. apply (@sum_ext CS). intros k Hk. rewrite (Hpw k is Hi). reflexivity.
Qed.
End Coef.
