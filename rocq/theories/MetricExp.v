(** Exponentials that preserve a metric; the exponential of an operator restricted to an invariant subspace *)
From Coq Require Import Reals Lra Bool List Arith Lia Ring.
From Verif Require Import Scalar ScalarFacts RScal RealInst Tensor TensorFacts Spec TrotterExp.
Import ListNotations.
Local Open Scope R_scope.

Add Ring Cring2 : (@k_ring CS).

Lemma csum_opp q (f : nat -> Cx) : csum q (fun k => Copp (f k)) = Copp (csum q f).
Proof. induction q as [|q IH]; cbn [sum]; [apply C_ext; cbn; ring|]. rewrite IH. apply C_ext; cbn; ring. Qed.

Section Metric.
Variables (n : nat) (M B : nat -> nat -> Cx).
Hypothesis HM : forall r c, (r < n)%nat -> (c < n)%nat ->
  csum n (fun m => Cmul (Cconj (M m r)) (B m c)) = Copp (csum n (fun m => Cmul (B r m) (M m c))).

Lemma mpow_metric : forall k r c, (r < n)%nat -> (c < n)%nat ->
  csum n (fun m => Cmul (Cconj (mpow n M k m r)) (B m c)) = Cmul (sgn k) (csum n (fun m => Cmul (B r m) (mpow n M k m c))).
Proof.
  induction k as [|k IH]; intros r c Hr Hc.
  - cbn [mpow]. transitivity (B r c).
    + rewrite <- (@sum_delta_l CS n r (fun m => B m c) Hr) at 1. apply (@sum_ext CS). intros m Hm. unfold delta. destruct (Nat.eqb m r); apply C_ext; cbn; ring.
    + pose proof (@sum_delta_r CS n c (fun m => B r m) Hc) as E. cbv beta in E. change (@kmul CS) with Cmul in E. rewrite E. apply C_ext; cbn; ring.
  - cbn [mpow].
    transitivity (csum n (fun p => Cmul (Cconj (mpow n M k p r)) (csum n (fun m => Cmul (Cconj (M m p)) (B m c))))).
    { transitivity (csum n (fun m => csum n (fun p => Cmul (Cconj (mpow n M k p r)) (Cmul (Cconj (M m p)) (B m c))))).
      - apply (@sum_ext CS). intros m Hm. change Cconj with (@kconj CS) at 1. rewrite (@sum_conj CS). change Cmul with (@kmul CS) at 1. rewrite (@sum_mul_r CS). apply (@sum_ext CS). intros p Hp. apply C_ext; cbn; ring.
      - rewrite (@sum_swap CS). apply (@sum_ext CS). intros p Hp. symmetry. apply (@sum_mul_l CS). }
    transitivity (Copp (csum n (fun q => Cmul (csum n (fun p => Cmul (Cconj (mpow n M k p r)) (B p q))) (M q c)))).
    { transitivity (csum n (fun p => csum n (fun q => Copp (Cmul (Cmul (Cconj (mpow n M k p r)) (B p q)) (M q c))))).
      - apply (@sum_ext CS). intros p Hp. rewrite (HM p c Hp Hc). transitivity (Copp (csum n (fun q => Cmul (Cmul (Cconj (mpow n M k p r)) (B p q)) (M q c)))).
        + transitivity (Copp (Cmul (Cconj (mpow n M k p r)) (csum n (fun m => Cmul (B p m) (M m c))))); [apply C_ext; cbn; ring|]. f_equal. rewrite (@sum_mul_l CS). apply (@sum_ext CS). intros q Hq. apply C_ext; cbn; ring.
        + symmetry. apply csum_opp.
      - rewrite (@sum_swap CS). transitivity (csum n (fun q => Copp (Cmul (csum n (fun p => Cmul (Cconj (mpow n M k p r)) (B p q))) (M q c)))).
        + apply (@sum_ext CS). intros q Hq. transitivity (Cmul (csum n (fun p => Cmul (Cconj (mpow n M k p r)) (B p q))) (Copp (M q c))); [|apply C_ext; cbn; ring].
          change Cmul with (@kmul CS) at 3. rewrite (@sum_mul_r CS). apply (@sum_ext CS). intros p Hp. apply C_ext; cbn; ring.
        + apply csum_opp. }
    transitivity (Copp (Cmul (sgn k) (csum n (fun q => Cmul (csum n (fun m => Cmul (B r m) (mpow n M k m q))) (M q c))))).
    { f_equal. rewrite (@sum_mul_l CS). apply (@sum_ext CS). intros q Hq. rewrite (IH r q Hr Hq). apply C_ext; cbn; ring. }
    transitivity (Cmul (sgn (S k)) (csum n (fun q => Cmul (csum n (fun m => Cmul (B r m) (mpow n M k m q))) (M q c)))); [unfold sgn; cbn [pow]; apply C_ext; cbn; ring|].
    f_equal.
    transitivity (csum n (fun m => csum n (fun q => Cmul (B r m) (Cmul (mpow n M k m q) (M q c))))).
    { rewrite (@sum_swap CS). apply (@sum_ext CS). intros q Hq. change Cmul with (@kmul CS) at 1. rewrite (@sum_mul_r CS). apply (@sum_ext CS). intros m Hm. apply C_ext; cbn; ring. }
    apply (@sum_ext CS). intros m Hm. transitivity (Cmul (B r m) (mpow n M (k + 1) m c)); [|replace (k + 1)%nat with (S k) by lia; reflexivity].
    rewrite (mpow_add n M k 1 m c Hm Hc). rewrite <- (@sum_mul_l CS). cbn [mpow]. apply (f_equal (Cmul (B r m))). apply (@sum_ext CS). intros q Hq. f_equal.
    symmetry. apply (@sum_delta_r CS n c (fun x => M q x) Hc).
Qed.

(** E^+ B E = B *)
Theorem exp_metric E : is_exp n M E -> forall r c, (r < n)%nat -> (c < n)%nat ->
  csum n (fun m => csum n (fun p => Cmul (Cmul (Cconj (E m r)) (B m p)) (E p c))) = B r c.
Proof.
  intros HE r c Hr Hc.
  apply (Ccv_unique (fun N => csum n (fun m => csum n (fun p => Cmul (Cmul (Cconj (epart n M N m r)) (B m p)) (epart n M N p c))))).
  { apply (Ccv_sum n (fun m N => csum n (fun p => Cmul (Cmul (Cconj (epart n M N m r)) (B m p)) (epart n M N p c)))). intros m Hm.
    apply (Ccv_sum n (fun p N => Cmul (Cmul (Cconj (epart n M N m r)) (B m p)) (epart n M N p c))). intros p Hp.
    apply Ccv_mul; [apply Ccv_mul; [apply Ccv_conj|apply Ccv_const]|]; apply HE; assumption. }
  destruct (pow_bound n M) as (a & Ha & HP).
  set (b := rsm n (fun m => C1 (B r m))).
  assert (Hb : 0 <= b) by (unfold b; clear; induction n as [|m IH]; [cbn; lra|]; change (0 <= rsm m (fun m => C1 (B r m)) + C1 (B r m)); pose proof (C1_pos (B r m)); lra).
  apply (Ccv_small _ _ (fun N => b * rest a N)).
  2:{ replace 0 with (b * 0) by ring. apply CV_mult; [apply Un_cv_const|apply rest_cv]. }
  intros N.
  set (h := fun k => csum n (fun m => Cmul (B r m) (mpow n M k m c))).
  assert (Hh : forall k, C1 (h k) <= b * a ^ k).
  { intros k. unfold h, b. eapply Rle_trans; [apply C1_sum|]. eapply Rle_trans; [apply (rsm_le n _ (fun m => C1 (B r m) * a ^ k))|].
    - intros m Hm. eapply Rle_trans; [apply C1_mul|]. apply Rmult_le_compat_l; [apply C1_pos|apply HP; assumption].
    - change Rmult with (@kmul RSC). rewrite (@sum_mul_r RSC). apply Req_le. reflexivity. }
  set (g := fun j k => Cmul (Cmul (mkC (/ INR (fact j)) 0) (mkC (/ INR (fact k)) 0)) (Cmul (sgn j) (h (j + k)%nat))).
  assert (X : csum n (fun m => csum n (fun p => Cmul (Cmul (Cconj (epart n M N m r)) (B m p)) (epart n M N p c))) = csum (S N) (fun j => csum (S N) (fun k => g j k))).
  { transitivity (csum (S N) (fun j => csum (S N) (fun k => csum n (fun p => csum n (fun m => Cmul (Cmul (mkC (/ INR (fact j)) 0) (mkC (/ INR (fact k)) 0)) (Cmul (Cmul (Cconj (mpow n M j m r)) (B m p)) (mpow n M k p c))))))).
    - transitivity (csum n (fun m => csum n (fun p => csum (S N) (fun j => csum (S N) (fun k => Cmul (Cmul (mkC (/ INR (fact j)) 0) (mkC (/ INR (fact k)) 0)) (Cmul (Cmul (Cconj (mpow n M j m r)) (B m p)) (mpow n M k p c))))))).
      + apply (@sum_ext CS). intros m Hm. apply (@sum_ext CS). intros p Hp. unfold epart. change Cconj with (@kconj CS) at 1. rewrite (@sum_conj CS).
        change Cmul with (@kmul CS) at 1 2. rewrite !(@sum_mul_r CS). apply (@sum_ext CS). intros j Hj. rewrite (@sum_mul_l CS). apply (@sum_ext CS). intros k Hk. apply C_ext; cbn -[fact]; ring.
      + transitivity (csum n (fun m => csum (S N) (fun j => csum n (fun p => csum (S N) (fun k => Cmul (Cmul (mkC (/ INR (fact j)) 0) (mkC (/ INR (fact k)) 0)) (Cmul (Cmul (Cconj (mpow n M j m r)) (B m p)) (mpow n M k p c))))))).
        { apply (@sum_ext CS). intros m Hm. apply (@sum_swap CS). }
        rewrite (@sum_swap CS). apply (@sum_ext CS). intros j Hj.
        transitivity (csum n (fun m => csum (S N) (fun k => csum n (fun p => Cmul (Cmul (mkC (/ INR (fact j)) 0) (mkC (/ INR (fact k)) 0)) (Cmul (Cmul (Cconj (mpow n M j m r)) (B m p)) (mpow n M k p c)))))).
        { apply (@sum_ext CS). intros m Hm. apply (@sum_swap CS). }
        rewrite (@sum_swap CS). apply (@sum_ext CS). intros k Hk. apply (@sum_swap CS).
    - apply (@sum_ext CS). intros j Hj. apply (@sum_ext CS). intros k Hk. unfold g.
      transitivity (csum n (fun p => Cmul (Cmul (Cmul (mkC (/ INR (fact j)) 0) (mkC (/ INR (fact k)) 0)) (mpow n M k p c)) (csum n (fun m => Cmul (Cconj (mpow n M j m r)) (B m p))))).
      { apply (@sum_ext CS). intros p Hp. change Cmul with (@kmul CS) at 7. rewrite (@sum_mul_l CS). apply (@sum_ext CS). intros m Hm. apply C_ext; cbn -[fact]; ring. }
      transitivity (csum n (fun p => Cmul (Cmul (Cmul (mkC (/ INR (fact j)) 0) (mkC (/ INR (fact k)) 0)) (sgn j)) (Cmul (csum n (fun m => Cmul (B r m) (mpow n M j m p))) (mpow n M k p c)))).
      { apply (@sum_ext CS). intros p Hp. rewrite (mpow_metric j r p Hr Hp). apply C_ext; cbn -[fact]; ring. }
      rewrite <- (@sum_mul_l CS). transitivity (Cmul (Cmul (Cmul (mkC (/ INR (fact j)) 0) (mkC (/ INR (fact k)) 0)) (sgn j)) (h (j + k)%nat)); [|apply C_ext; cbn -[fact]; ring].
      change (@kmul CS) with Cmul. f_equal. unfold h.
      transitivity (csum n (fun m => csum n (fun p => Cmul (B r m) (Cmul (mpow n M j m p) (mpow n M k p c))))).
      + rewrite (@sum_swap CS). apply (@sum_ext CS). intros p Hp. change Cmul with (@kmul CS) at 1. rewrite (@sum_mul_r CS). apply (@sum_ext CS). intros m Hm. apply C_ext; cbn; ring.
      + apply (@sum_ext CS). intros m Hm. rewrite (mpow_add n M j k m c Hm Hc). symmetry. apply (@sum_mul_l CS). }
  assert (T : csum (S N) (fun j => csum (S N) (fun k => if Nat.leb (j + k) N then g j k else mkC 0 0)) = B r c).
  { refine (eq_trans (triangle (SC := CS) N g) _). rewrite (@sum_S_l CS). rewrite (@sum_zero CS N).
    - cbn [sum Nat.sub]. unfold g, h. cbn [Nat.add mpow].
      pose proof (@sum_delta_r CS n c (fun m => B r m) Hc) as E'. cbv beta in E'. change (@kmul CS) with Cmul in E'. rewrite E'.
      apply C_ext; cbn; rewrite ?Rinv_1; lra.
    - intros m Hm. transitivity (Cmul (csum (S (S m)) (fun j => mkC ((-1) ^ j / INR (fact j) * (1 ^ (S m - j) / INR (fact (S m - j)))) 0)) (h (S m))).
      + change Cmul with (@kmul CS) at 1. rewrite (@sum_mul_r CS). apply (@sum_ext CS). intros j Hj. unfold g. replace (j + (S m - j))%nat with (S m) by lia. rewrite pow1. unfold sgn, Rdiv. apply C_ext; cbn -[fact]; ring.
      + assert (Z : forall q (f : nat -> R), csum q (fun j => mkC (f j) 0) = mkC (rsm q f) 0) by (clear; intros q f; induction q as [|q IH]; [reflexivity|]; cbn [sum]; rewrite IH; apply C_ext; cbn; ring).
        rewrite (Z _ (fun j => (-1) ^ j / INR (fact j) * (1 ^ (S m - j) / INR (fact (S m - j))))). rewrite binom_ser. replace (-1 + 1) with 0 by lra. cbn [pow]. apply C_ext; cbn -[fact]; unfold Rdiv; ring. }
  rewrite X. rewrite <- T. change Csub with (@ksub CS). rewrite <- (@sum_sub CS). eapply Rle_trans; [apply C1_sum|]. unfold rest. change Rmult with (@kmul RSC) at 1. rewrite (@sum_mul_l RSC). apply rsm_le. intros j Hj.
  rewrite <- (@sum_sub CS). eapply Rle_trans; [apply C1_sum|]. rewrite (@sum_mul_l RSC). apply rsm_le. intros k Hk. destruct (Nat.leb (j + k) N).
  - replace (@ksub CS (g j k) (g j k)) with (mkC 0 0) by (apply C_ext; cbn; ring). rewrite C1_real, Rabs_R0. cbn. lra.
  - replace (@ksub CS (g j k) (mkC 0 0)) with (g j k) by (apply C_ext; cbn; ring). unfold g.
    eapply Rle_trans; [apply C1_mul|]. pose proof (fact_pos j) as Fj. pose proof (fact_pos k) as Fk. change (@kmul RSC) with Rmult.
    replace (b * (a ^ j / INR (fact j) * (a ^ k / INR (fact k)))) with (/ INR (fact j) * / INR (fact k) * (b * a ^ (j + k))) by (rewrite pow_add; unfold Rdiv; ring).
    apply Rmult_le_compat; [apply C1_pos|apply C1_pos| |].
    + eapply Rle_trans; [apply C1_mul|]. rewrite !C1_real. rewrite !Rabs_right by lra. lra.
    + eapply Rle_trans; [apply C1_mul|]. unfold sgn. rewrite C1_real. rewrite <- RPow_abs. replace (Rabs (-1)) with 1 by (rewrite Rabs_left; lra). rewrite pow1. pose proof (Hh (j + k)%nat). lra.
Qed.
End Metric.
