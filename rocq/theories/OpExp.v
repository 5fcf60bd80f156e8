(** Exponentials of operators of a chain: commuting operators, truncated series *)
From Coq Require Import Reals Lra Bool List Arith Lia Ring.
From Verif Require Import Scalar ScalarFacts RScal RealInst Tensor Spec TensorFacts ExpectedFacts OpSpec OpAlgebra TrotterExp.
Import ListNotations.
Local Open Scope R_scope.

Add Ring Cring : (@k_ring CS).
Notation cop := (list nat -> list nat -> Cx).
Notation rcfg := (@sumcfg RSC).
Notation ccfg := (@sumcfg CS).
Notation omul := (@op_mul CS).
Notation opow := (@op_pow CS).
Notation oeqC := (@oeq CS).

Lemma rcfg_le ds : forall f g : list nat -> R, (forall is, in_range ds is -> f is <= g is) -> rcfg ds f <= rcfg ds g.
Proof.
  induction ds as [|d ds IH]; intros f g H; cbn [sumcfg]; [apply H; constructor|]. apply rsm_le. intros i Hi. apply IH. intros is His. apply H. constructor; assumption.
Qed.
Lemma rcfg_0 ds : rcfg ds (fun _ => 0) = 0.
Proof. exact (@sumcfg_0 RSC ds). Qed.
Lemma rcfg_nonneg ds (f : list nat -> R) : (forall is, in_range ds is -> 0 <= f is) -> 0 <= rcfg ds f.
Proof. intros H. rewrite <- (rcfg_0 ds). apply rcfg_le. exact H. Qed.
Lemma rsm_entry n (f : nat -> R) i : (forall k, (k < n)%nat -> 0 <= f k) -> (i < n)%nat -> f i <= rsm n f.
Proof.
  intros H Hi. rewrite <- (@sum_delta_l RSC n i f Hi). apply rsm_le. intros k Hk. specialize (H k Hk). unfold delta. destruct (Nat.eqb k i); cbn; lra.
Qed.
Lemma rcfg_entry ds : forall (f : list nat -> R) is, (forall is, in_range ds is -> 0 <= f is) -> in_range ds is -> f is <= rcfg ds f.
Proof.
  induction ds as [|d ds IH]; intros f is H Hi.
  - inversion Hi; subst. cbn. lra.
  - apply in_range_cons_inv in Hi. destruct Hi as (i & is' & -> & Hi & His). cbn [sumcfg].
    eapply Rle_trans; [apply (IH (fun is => f (i :: is)) is'); [|exact His]|].
    + intros js Hj. apply H. constructor; assumption.
    + apply (rsm_entry d (fun i => rcfg ds (fun is => f (i :: is))) i); [|exact Hi]. intros k Hk. apply rcfg_nonneg. intros js Hj. apply H. constructor; assumption.
Qed.
Lemma C1_cfg ds : forall f : list nat -> Cx, C1 (ccfg ds f) <= rcfg ds (fun is => C1 (f is)).
Proof.
  induction ds as [|d ds IH]; intros f; cbn [sumcfg]; [lra|]. eapply Rle_trans; [apply C1_sum|]. apply rsm_le. intros i Hi. apply IH.
Qed.
Lemma rcfg_scl_l ds c (f : list nat -> R) : c * rcfg ds f = rcfg ds (fun is => c * f is).
Proof. exact (@sumcfg_mul_l RSC ds c f). Qed.
Lemma rcfg_scl_r ds c (f : list nat -> R) : rcfg ds f * c = rcfg ds (fun is => f is * c).
Proof. exact (@sumcfg_mul_r RSC ds c f). Qed.
Lemma rcfg_plus ds (f g : list nat -> R) : rcfg ds (fun is => f is + g is) = rcfg ds f + rcfg ds g.
Proof. exact (@sumcfg_add RSC ds f g). Qed.

(** sum of the absolute values of the entries *)
Definition nrm (ds : list nat) (A : cop) : R := rcfg ds (fun is => rcfg ds (fun js => C1 (A is js))).

Section Norm.
Variable ds : list nat.
Lemma nrm_pos A : 0 <= nrm ds A.
Proof. apply rcfg_nonneg. intros. apply rcfg_nonneg. intros. apply C1_pos. Qed.
Lemma nrm_entry A is js : in_range ds is -> in_range ds js -> C1 (A is js) <= nrm ds A.
Proof.
  intros Hi Hj. eapply Rle_trans; [apply (rcfg_entry ds (fun js => C1 (A is js)) js); [intros; apply C1_pos|exact Hj]|].
  apply (rcfg_entry ds (fun is => rcfg ds (fun js => C1 (A is js))) is); [|exact Hi]. intros. apply rcfg_nonneg. intros. apply C1_pos.
Qed.
Lemma nrm_eq A B : oeqC ds A B -> nrm ds A = nrm ds B.
Proof. intros H. apply (@sumcfg_ext RSC). intros is Hi. apply (@sumcfg_ext RSC). intros js Hj. rewrite (H is js Hi Hj). reflexivity. Qed.
Lemma nrm_add A B : nrm ds (@oadd CS A B) <= nrm ds A + nrm ds B.
Proof.
  unfold nrm. rewrite <- rcfg_plus. apply rcfg_le. intros is Hi. rewrite <- rcfg_plus. apply rcfg_le. intros js Hj. apply C1_add.
Qed.
Lemma C1_sub x y : C1 (Csub x y) <= C1 x + C1 y.
Proof. unfold C1. cbn. pose proof (Rabs_triang (Cre x) (- Cre y)). pose proof (Rabs_triang (Cim x) (- Cim y)). rewrite !Rabs_Ropp in *. unfold Rminus. lra. Qed.
Lemma nrm_sub A B : nrm ds (@osub CS A B) <= nrm ds A + nrm ds B.
Proof.
  unfold nrm. rewrite <- rcfg_plus. apply rcfg_le. intros is Hi. rewrite <- rcfg_plus. apply rcfg_le. intros js Hj. apply C1_sub.
Qed.
Lemma nrm_scl c A : nrm ds (@oscl CS c A) <= C1 c * nrm ds A.
Proof.
  unfold nrm. rewrite rcfg_scl_l. apply rcfg_le. intros is Hi. rewrite rcfg_scl_l. apply rcfg_le. intros js Hj. apply C1_mul.
Qed.
Lemma nrm_mul A B : nrm ds (omul ds A B) <= nrm ds A * nrm ds B.
Proof.
  unfold nrm at 1. eapply Rle_trans; [apply (rcfg_le ds _ (fun is => rcfg ds (fun ks => C1 (A is ks) * nrm ds B)))|].
  - intros is Hi. eapply Rle_trans; [apply (rcfg_le ds _ (fun js => rcfg ds (fun ks => C1 (A is ks) * C1 (B ks js))))|].
    + intros js Hj. unfold op_mul. eapply Rle_trans; [apply C1_cfg|]. apply rcfg_le. intros ks Hk. apply C1_mul.
    + rewrite (@sumcfg_swap RSC ds ds (fun js ks => C1 (A is ks) * C1 (B ks js))). apply rcfg_le. intros ks Hk. rewrite <- rcfg_scl_l.
      apply Rmult_le_compat_l; [apply C1_pos|]. apply (rcfg_entry ds (fun ks => rcfg ds (fun js => C1 (B ks js))) ks); [|exact Hk]. intros. apply rcfg_nonneg. intros. apply C1_pos.
  - unfold nrm at 2. rewrite rcfg_scl_r. apply rcfg_le. intros is Hi. rewrite rcfg_scl_r. lra.
Qed.
Lemma nrm_sum n (f : nat -> cop) : nrm ds (@osum CS n f) <= rsm n (fun k => nrm ds (f k)).
Proof.
  induction n as [|n IH].
  - cbn [sum]. change (nrm ds (@osum CS 0 f) <= 0). unfold nrm. rewrite <- (rcfg_0 ds). apply rcfg_le. intros is _. rewrite <- (rcfg_0 ds). apply rcfg_le. intros js _. unfold osum, C1. cbn. rewrite Rabs_R0. lra.
  - change (rsm (S n) ?g) with (rsm n g + g n). cbv beta. eapply Rle_trans; [|apply Rplus_le_compat_r; exact IH]. apply (nrm_add (@osum CS n f) (f n)).
Qed.
Lemma nrm_pow A k : nrm ds (opow ds A k) <= nrm ds (@id_op CS) * nrm ds A ^ k.
Proof.
  induction k as [|k IH]; cbn [op_pow pow]; [lra|]. eapply Rle_trans; [apply nrm_mul|]. pose proof (nrm_pos A). nra.
Qed.
Lemma C1_kpow c k : C1 (@kpow CS c k) <= C1 c ^ k.
Proof.
  induction k as [|k IH]; cbn [kpow pow]; [unfold C1; cbn; rewrite Rabs_R1, Rabs_R0; lra|]. eapply Rle_trans; [apply C1_mul|]. pose proof (C1_pos c). nra.
Qed.

Definition fk (k : nat) : Cx := mkC (/ INR (fact k)) 0.
Definition ck (k : nat) : Cx := mkC (/ INR (S k)) 0.
Lemma fk0 : fk 0 = @k1 CS.
Proof. unfold fk. cbn. rewrite Rinv_1. reflexivity. Qed.
Lemma fkS k : fk (S k) = @kmul CS (ck k) (fk k).
Proof.
  unfold fk, ck. change (fact (S k)) with (S k * fact k)%nat. rewrite mult_INR. pose proof (INR_fact_neq_0 k). assert (INR (S k) <> 0) by (apply not_0_INR; lia).
  apply C_ext; cbn -[INR]; field; auto.
Qed.
Lemma kofnat_C n : @kofnat CS n = mkC (INR n) 0.
Proof. induction n as [|n IH]; [reflexivity|]. cbn [kofnat]. rewrite IH, S_INR. apply C_ext; cbn; ring. Qed.
Lemma ckS k : @kmul CS (ck k) (@kofnat CS (S k)) = @k1 CS.
Proof. rewrite kofnat_C. unfold ck. assert (INR (S k) <> 0) by (apply not_0_INR; lia). apply C_ext; cbn -[INR]; field; auto. Qed.
Lemma C1_fk k : C1 (fk k) = / INR (fact k).
Proof. unfold fk. rewrite C1_real. pose proof (fact_pos k). apply Rabs_right. lra. Qed.

Notation trm := (@term CS fk).
Lemma exp_sum_eq A N : oeqC ds (op_exp_sum ds A N) (@osum CS (S N) (trm ds A)).
Proof. intros is js _ _. reflexivity. Qed.
Lemma nrm_term A k : nrm ds (trm ds A k) <= nrm ds (@id_op CS) * (nrm ds A ^ k / INR (fact k)).
Proof.
  unfold term. eapply Rle_trans; [apply nrm_scl|]. rewrite C1_fk. pose proof (nrm_pow A k). pose proof (fact_pos k). unfold Rdiv. nra.
Qed.

Lemma Ccv_cfg : forall es (u : list nat -> nat -> Cx) (a : list nat -> Cx), (forall m, in_range es m -> Ccv (u m) (a m)) -> Ccv (fun N => ccfg es (fun m => u m N)) (ccfg es a).
Proof.
  induction es as [|e es IH]; intros u a H; cbn [sumcfg]; [apply H; constructor|].
  apply (Ccv_sum e (fun i N => ccfg es (fun m => u (i :: m) N))). intros i Hi. apply IH. intros m Hm. apply H. constructor; assumption.
Qed.

(** the exponential of the sum of commuting operators *)
Theorem op_exp_comm X Y E F : oeqC ds (omul ds X Y) (omul ds Y X) -> is_op_exp ds X E -> is_op_exp ds Y F -> is_op_exp ds (@oadd CS X Y) (omul ds E F).
Proof.
  intros H HE HF is js Hi Hj.
  assert (P : Ccv (fun N => omul ds (op_exp_sum ds X N) (op_exp_sum ds Y N) is js) (omul ds E F is js)).
  { unfold op_mul. apply (Ccv_cfg ds (fun ks N => Cmul (op_exp_sum ds X N is ks) (op_exp_sum ds Y N ks js))). intros ks Hk. apply Ccv_mul; [apply HE|apply HF]; assumption. }
  set (a := nrm ds X + nrm ds Y). pose proof (nrm_pos X) as PX. pose proof (nrm_pos Y) as PY. set (D := nrm ds (@id_op CS)). assert (HD : 0 <= D) by apply nrm_pos.
  assert (Q : Ccv (fun N => Csub (omul ds (op_exp_sum ds X N) (op_exp_sum ds Y N) is js) (op_exp_sum ds (@oadd CS X Y) N is js)) (mkC 0 0)).
  { apply (Ccv_small _ _ (fun N => D * D * rest a N)).
    2:{ replace 0 with (D * D * 0) by ring. apply (CV_mult (fun _ => D * D) (rest a) (D * D) 0); [apply Un_cv_const|apply rest_cv]. }
    intros N. set (g := fun j k => omul ds (trm ds X j) (trm ds Y k)).
    assert (S1 : omul ds (op_exp_sum ds X N) (op_exp_sum ds Y N) is js = csum (S N) (fun j => csum (S N) (fun k => g j k is js))).
    { rewrite (op_mul_eq ds _ _ _ _ (exp_sum_eq X N) (exp_sum_eq Y N) is js Hi Hj). rewrite op_mul_sum_l. apply (@sum_ext CS). intros j Hjn. apply op_mul_sum_r. }
    assert (S2 : op_exp_sum ds (@oadd CS X Y) N is js = csum (S N) (fun j => csum (S N) (fun k => if Nat.leb (j + k) N then g j k is js else mkC 0 0))).
    { rewrite (exp_sum_eq (@oadd CS X Y) N is js Hi Hj). refine (eq_trans _ (eq_sym (triangle (SC := CS) N (fun j k => g j k is js)))).
      unfold osum. apply (@sum_ext CS). intros m Hm. symmetry. exact (@op_binomial CS fk ck fk0 fkS ckS ds X Y H m is js Hi Hj). }
    rewrite S1, S2. replace (Csub (Csub _ _) _) with (Csub (csum (S N) (fun j => csum (S N) (fun k => g j k is js))) (csum (S N) (fun j => csum (S N) (fun k => if Nat.leb (j + k) N then g j k is js else mkC 0 0)))) by (apply C_ext; cbn; ring).
    change Csub with (@ksub CS). rewrite <- (@sum_sub CS). eapply Rle_trans; [apply C1_sum|]. unfold rest. change Rmult with (@kmul RSC) at 1. rewrite (@sum_mul_l RSC). apply rsm_le. intros j Hjn.
    rewrite <- (@sum_sub CS). eapply Rle_trans; [apply C1_sum|]. rewrite (@sum_mul_l RSC). apply rsm_le. intros k Hk. change (@kmul RSC) with Rmult. destruct (Nat.leb (j + k) N).
    - replace (@ksub CS (g j k is js) (g j k is js)) with (mkC 0 0) by (apply C_ext; cbn; ring). rewrite C1_real, Rabs_R0. change (0 <= D * D * 0). lra.
    - replace (@ksub CS (g j k is js) (mkC 0 0)) with (g j k is js) by (apply C_ext; cbn; ring). unfold g. eapply Rle_trans; [apply nrm_entry; assumption|]. eapply Rle_trans; [apply nrm_mul|].
      assert (B : forall Z q, 0 <= nrm ds Z <= a -> 0 <= nrm ds (trm ds Z q) <= D * (a ^ q / INR (fact q))).
      { intros Z q HZ. split; [apply nrm_pos|]. eapply Rle_trans; [apply nrm_term|]. apply Rmult_le_compat_l; [exact HD|]. unfold Rdiv. apply Rmult_le_compat_r; [left; apply fact_pos|]. apply pow_incr. exact HZ. }
      replace (D * D * (a ^ j / INR (fact j) * (a ^ k / INR (fact k)))) with ((D * (a ^ j / INR (fact j))) * (D * (a ^ k / INR (fact k)))) by ring.
      apply Rmult_le_compat; try apply nrm_pos; apply B; unfold a; lra. }
  pose proof (Ccv_add _ _ _ _ P (Ccv_mul _ _ _ _ (Ccv_const (mkC (-1) 0)) Q)) as G.
  replace (omul ds E F is js) with (Cadd (omul ds E F is js) (Cmul (mkC (-1) 0) (mkC 0 0))) by (apply C_ext; cbn; ring).
  refine (Ccv_ext _ _ _ _ G). intros n. apply C_ext; cbn; ring.
Qed.

Lemma op_exp_eq X Y E F : oeqC ds X Y -> oeqC ds E F -> is_op_exp ds X E -> is_op_exp ds Y F.
Proof.
  intros H H' HE is js Hi Hj. rewrite <- (H' is js Hi Hj). refine (Ccv_ext _ _ _ _ (HE is js Hi Hj)). intros N. unfold op_exp_sum. apply (@sum_ext CS). intros k Hk.
  rewrite (op_pow_eq ds X Y k H is js Hi Hj). reflexivity.
Qed.
Lemma op_exp_unique X E F : is_op_exp ds X E -> is_op_exp ds X F -> oeqC ds E F.
Proof. intros HE HF is js Hi Hj. exact (Ccv_unique _ _ _ (HE is js Hi Hj) (HF is js Hi Hj)). Qed.

(** the limit of a bounded sequence *)
Lemma Ccv_bound u l z B n0 : Ccv u l -> (forall n, (n0 <= n)%nat -> C1 (Csub (u n) z) <= B) -> C1 (Csub l z) <= B.
Proof.
  intros (H1 & H2) HB. destruct (Rle_or_lt (C1 (Csub l z)) B) as [|HL]; [assumption|exfalso].
  set (e := (C1 (Csub l z) - B) / 2). assert (He : 0 < e) by (unfold e; lra).
  destruct (H1 (e / 2) ltac:(lra)) as (N1 & A1). destruct (H2 (e / 2) ltac:(lra)) as (N2 & A2).
  set (n := (n0 + N1 + N2)%nat). specialize (A1 n ltac:(unfold n; lia)). specialize (A2 n ltac:(unfold n; lia)). specialize (HB n ltac:(unfold n; lia)).
  unfold R_dist in *. unfold C1 in *. cbn in *.
  pose proof (Rabs_triang (Cre (u n) - Cre z) (Cre l - Cre (u n))) as T1. pose proof (Rabs_triang (Cim (u n) - Cim z) (Cim l - Cim (u n))) as T2.
  replace (Cre (u n) - Cre z + (Cre l - Cre (u n))) with (Cre l - Cre z) in T1 by ring. replace (Cim (u n) - Cim z + (Cim l - Cim (u n))) with (Cim l - Cim z) in T2 by ring.
  rewrite (Rabs_minus_sym (Cre l) (Cre (u n))) in T1. rewrite (Rabs_minus_sym (Cim l) (Cim (u n))) in T2. unfold e in *. lra.
Qed.

Lemma eser_le a N : 0 <= a -> eser a N <= exp a.
Proof.
  intros Ha. pose proof (eser_cv a) as H. destruct (Rle_or_lt (eser a N) (exp a)) as [|HL]; [assumption|exfalso].
  destruct (H (eser a N - exp a) ltac:(lra)) as (M & HM). specialize (HM (M + N)%nat ltac:(lia)).
  assert (G : eser a N <= eser a (M + N)).
  { clear -Ha. induction M as [|M IH]; [cbn; lra|]. change (S M + N)%nat with (S (M + N)). unfold eser at 2. change (rsm (S (S (M + N))) ?f) with (rsm (S (M + N)) f + f (S (M + N))). cbv beta.
    fold (eser a (M + N)). assert (0 <= a ^ S (M + N) / INR (fact (S (M + N)))) by (apply Rmult_le_pos; [apply pow_le; exact Ha|left; apply fact_pos]). lra. }
  unfold R_dist in HM. rewrite Rabs_right in HM; lra.
Qed.

(** exp(t X) and its series up to order m *)
Lemma op_exp_tail X m : exists C, 0 <= C /\ forall t E, C1 t <= 1 -> is_op_exp ds (@oscl CS t X) E ->
  nrm ds (@osub CS E (@osum CS (S m) (fun k => @oscl CS (@kpow CS t k) (trm ds X k)))) <= C * C1 t ^ S m.
Proof.
  set (a := nrm ds X). set (D := nrm ds (@id_op CS)). assert (HD : 0 <= D) by apply nrm_pos. assert (Ha : 0 <= a) by apply nrm_pos.
  set (M := rcfg ds (fun _ => rcfg ds (fun _ => 1))).
  assert (HM : 0 <= M) by (apply rcfg_nonneg; intros; apply rcfg_nonneg; intros; lra). exists (M * (D * exp a)). pose proof (exp_pos a). split; [apply Rmult_le_pos; [exact HM|nra]|].
  intros t E Ht HE. unfold nrm at 1. unfold M. rewrite Rmult_assoc, rcfg_scl_r. apply rcfg_le. intros is Hi. rewrite rcfg_scl_r. apply rcfg_le. intros js Hj. rewrite Rmult_1_l.
  unfold osub. refine (Ccv_bound _ _ _ _ (S m) (HE is js Hi Hj) _). intros n Hn.
  assert (TE : forall N, op_exp_sum ds (@oscl CS t X) N is js = csum (S N) (fun k => @oscl CS (@kpow CS t k) (trm ds X k) is js)).
  { intros N. unfold op_exp_sum. apply (@sum_ext CS). intros k Hk. rewrite (@op_pow_scl CS ds t X k is js Hi Hj). unfold oscl, term. unfold fk. apply C_ext; cbn; unfold oscl; cbn; ring. }
  rewrite TE. unfold osum. replace (S n) with (S m + (n - m))%nat by lia. rewrite (@sum_plus CS).
  match goal with |- C1 (Csub (@kadd _ ?u ?v) ?w) <= _ => replace (Csub (@kadd CS u v) w) with v by (apply C_ext; cbn; ring) end.
  eapply Rle_trans; [apply C1_sum|].
  eapply Rle_trans; [apply (rsm_le (n - m) _ (fun k => C1 t ^ S m * D * (a ^ (S m + k) / INR (fact (S m + k)))))|].
  - intros k Hk. set (q := (S m + k)%nat). unfold oscl. eapply Rle_trans; [apply C1_mul|]. pose proof (nrm_entry (trm ds X q) is js Hi Hj) as B1. pose proof (nrm_term X q) as B2. fold a D in B2.
    pose proof (C1_kpow t q) as B3. pose proof (C1_pos t). assert (B4 : C1 t ^ q <= C1 t ^ S m).
    { unfold q. rewrite pow_add. pose proof (pow_le (C1 t) (S m) H0). assert (C1 t ^ k <= 1) by (rewrite <- (pow1 k); apply pow_incr; lra). nra. }
    rewrite Rmult_assoc. apply Rmult_le_compat; [apply C1_pos|apply C1_pos|lra|lra].
  - replace (rsm (n - m) (fun k => C1 t ^ S m * D * (a ^ (S m + k) / INR (fact (S m + k))))) with (C1 t ^ S m * D * rsm (n - m) (fun k => a ^ (S m + k) / INR (fact (S m + k))))
      by (exact (@sum_mul_l RSC (n - m) (C1 t ^ S m * D) (fun k => a ^ (S m + k) / INR (fact (S m + k))))).
    assert (B : rsm (n - m) (fun k => a ^ (S m + k) / INR (fact (S m + k))) <= exp a).
    { eapply Rle_trans; [|apply (eser_le a n Ha)]. unfold eser. replace (S n) with (S m + (n - m))%nat by lia. rewrite (@sum_plus RSC). change (@kadd RSC) with Rplus.
      assert (0 <= rsm (S m) (fun k => a ^ k / INR (fact k))).
      { refine (Rle_trans _ _ _ (Req_le _ _ (eq_sym (@sum_0 RSC (S m)))) _). apply rsm_le. intros k Hk. apply Rmult_le_pos; [apply pow_le; exact Ha|left; apply fact_pos]. }
      lra. }
    pose proof (pow_le (C1 t) (S m) (C1_pos t)). replace (D * exp a * C1 t ^ S m) with (C1 t ^ S m * D * exp a) by ring. apply Rmult_le_compat_l; [apply Rmult_le_pos; assumption|exact B].
Qed.
End Norm.
