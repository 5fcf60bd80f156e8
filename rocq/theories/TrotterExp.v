(** The matrix exponential: definition by its power series, existence, and unitarity for anti-Hermitian matrices *)
From Coq Require Import Reals Lra Bool List Arith Lia Ring Classical ClassicalChoice.
From Verif Require Import Scalar ScalarFacts RScal RealInst Tensor TensorFacts Spec.
Import ListNotations.
Local Open Scope R_scope.

Notation CS := (@rs_scalar CC).
Notation RSC := (@rs_scalar RR).
Notation csum := (@sum CS).
Notation rsm := (@sum RSC).

(** Limits of complex sequences *)
Definition Ccv (u : nat -> Cx) (l : Cx) : Prop := Un_cv (fun n => Cre (u n)) (Cre l) /\ Un_cv (fun n => Cim (u n)) (Cim l).

(** Powers of an n x n matrix, and the partial sums of the exponential series *)
Fixpoint mpow (n : nat) (M : nat -> nat -> Cx) (k : nat) : nat -> nat -> Cx :=
  match k with
  | O => @delta CS
  | S k' => fun i j => csum n (fun m => Cmul (M i m) (mpow n M k' m j))
  end.
Definition epart (n : nat) (M : nat -> nat -> Cx) (N : nat) (i j : nat) : Cx :=
  csum (S N) (fun k => Cmul (mkC (/ INR (fact k)) 0) (mpow n M k i j)).
(** E = exp(M) *)
Definition is_exp (n : nat) (M E : nat -> nat -> Cx) : Prop :=
  forall i j, (i < n)%nat -> (j < n)%nat -> Ccv (fun N => epart n M N i j) (E i j).

Add Ring Cring : (@k_ring CS).
Add Ring Rring : (@k_ring RSC).

Lemma Un_cv_ext u v l : (forall n, u n = v n) -> Un_cv u l -> Un_cv v l.
Proof. intros H Hu e He. destruct (Hu e He) as (N & HN). exists N. intros n Hn. rewrite <- H. apply HN. exact Hn. Qed.
Lemma Un_cv_const c : Un_cv (fun _ => c) c.
Proof. intros e He. exists 0%nat. intros n _. unfold R_dist. rewrite Rminus_diag_eq by reflexivity. rewrite Rabs_R0. exact He. Qed.

Lemma Ccv_ext u v l : (forall n, u n = v n) -> Ccv u l -> Ccv v l.
Proof. intros H (H1 & H2). split; [apply (Un_cv_ext (fun n => Cre (u n)))|apply (Un_cv_ext (fun n => Cim (u n)))]; try assumption; intros n; rewrite H; reflexivity. Qed.
Lemma Ccv_const c : Ccv (fun _ => c) c.
Proof. split; apply Un_cv_const. Qed.
Lemma Ccv_add u v a b : Ccv u a -> Ccv v b -> Ccv (fun n => Cadd (u n) (v n)) (Cadd a b).
Proof. intros (H1 & H2) (H3 & H4). split; cbn; [apply (CV_plus _ _ _ _ H1 H3)|apply (CV_plus _ _ _ _ H2 H4)]. Qed.
Lemma Ccv_mul u v a b : Ccv u a -> Ccv v b -> Ccv (fun n => Cmul (u n) (v n)) (Cmul a b).
Proof.
  intros (H1 & H2) (H3 & H4). split; cbn.
  - apply (CV_minus _ _ _ _ (CV_mult _ _ _ _ H1 H3) (CV_mult _ _ _ _ H2 H4)).
  - apply (CV_plus _ _ _ _ (CV_mult _ _ _ _ H1 H4) (CV_mult _ _ _ _ H2 H3)).
Qed.
Lemma Ccv_conj u a : Ccv u a -> Ccv (fun n => Cconj (u n)) (Cconj a).
Proof. intros (H1 & H2). split; cbn; [exact H1|apply (CV_opp _ _ H2)]. Qed.
Lemma Ccv_sum n : forall (u : nat -> nat -> Cx) (a : nat -> Cx), (forall m, (m < n)%nat -> Ccv (u m) (a m)) -> Ccv (fun N => csum n (fun m => u m N)) (csum n a).
Proof.
  induction n as [|n IH]; intros u a H; [cbn [sum]; apply (Ccv_const (mkC 0 0))|]. cbn [sum].
  apply (Ccv_add (fun N => csum n (fun m => u m N)) (u n)); [apply IH; intros m Hm; apply H; lia|apply H; lia].
Qed.
Lemma Ccv_unique u a b : Ccv u a -> Ccv u b -> a = b.
Proof. intros (H1 & H2) (H3 & H4). apply C_ext; eapply UL_sequence; eassumption. Qed.

(** |Re| + |Im| *)
Definition C1 (z : Cx) : R := Rabs (Cre z) + Rabs (Cim z).
Lemma C1_pos z : 0 <= C1 z.
Proof. unfold C1. pose proof (Rabs_pos (Cre z)). pose proof (Rabs_pos (Cim z)). lra. Qed.
Lemma C1_add x y : C1 (Cadd x y) <= C1 x + C1 y.
Proof. unfold C1. cbn. pose proof (Rabs_triang (Cre x) (Cre y)). pose proof (Rabs_triang (Cim x) (Cim y)). lra. Qed.
Lemma C1_mul x y : C1 (Cmul x y) <= C1 x * C1 y.
Proof.
  unfold C1. cbn. pose proof (Rabs_triang (Cre x * Cre y) (- (Cim x * Cim y))) as A. pose proof (Rabs_triang (Cre x * Cim y) (Cim x * Cre y)) as B.
  unfold Rminus. rewrite Rabs_Ropp in A. rewrite !Rabs_mult in A, B.
  pose proof (Rabs_pos (Cre x)). pose proof (Rabs_pos (Cim x)). pose proof (Rabs_pos (Cre y)). pose proof (Rabs_pos (Cim y)). nra.
Qed.
Lemma C1_sum n (f : nat -> Cx) : C1 (csum n f) <= rsm n (fun k => C1 (f k)).
Proof. induction n as [|n IH]; cbn [sum]; [unfold C1; cbn; rewrite Rabs_R0; lra|]. pose proof (C1_add (csum n f) (f n)). change (C1 (Cadd (csum n f) (f n)) <= rsm n (fun k => C1 (f k)) + C1 (f n)). lra. Qed.
Lemma rsm_le n (f g : nat -> R) : (forall k, (k < n)%nat -> f k <= g k) -> rsm n f <= rsm n g.
Proof. induction n as [|n IH]; intros H; cbn [sum]; [cbn; lra|]. change (rsm n f + f n <= rsm n g + g n). pose proof (H n ltac:(lia)). specialize (IH ltac:(intros k Hk; apply H; lia)). lra. Qed.
Lemma rsm_const n (c : R) : rsm n (fun _ => c) = INR n * c.
Proof. induction n as [|n IH]; [cbn; ring|]. cbn [sum]. rewrite IH, S_INR. cbn. ring. Qed.

(** A bound on all powers *)
Lemma entry_bound n (M : nat -> nat -> Cx) : exists b, 0 <= b /\ forall i j, (i < n)%nat -> (j < n)%nat -> C1 (M i j) <= b.
Proof.
  exists (rsm n (fun i => rsm n (fun j => C1 (M i j)))).
  assert (P : forall m (f : nat -> R), (forall k, 0 <= f k) -> 0 <= rsm m f /\ forall k, (k < m)%nat -> f k <= rsm m f).
  { induction m as [|m IH]; intros f Hf; [cbn; split; [lra|intros; lia]|]. change (rsm (S m) f) with (rsm m f + f m). destruct (IH f Hf) as (A & B). pose proof (Hf m). split; [lra|].
    intros k Hk. destruct (Nat.eq_dec k m) as [->|]; [lra|]. specialize (B k ltac:(lia)). lra. }
  assert (Q : forall i, 0 <= rsm n (fun j => C1 (M i j))) by (intros i; apply P; intros; apply C1_pos).
  split; [apply P; exact Q|]. intros i j Hi Hj.
  pose proof (proj2 (P n (fun j => C1 (M i j)) ltac:(intros; apply C1_pos)) j Hj). pose proof (proj2 (P n _ Q) i Hi). cbv beta in *. lra.
Qed.
Lemma pow_bound n M : exists a, 0 <= a /\ forall k i j, (i < n)%nat -> (j < n)%nat -> C1 (mpow n M k i j) <= a ^ k.
Proof.
  destruct (entry_bound n M) as (b & Hb & HM). exists (INR n * b). assert (Ha : 0 <= INR n * b) by (pose proof (pos_INR n); nra). split; [exact Ha|].
  induction k as [|k IH]; intros i j Hi Hj; cbn [mpow pow].
  - unfold delta. destruct (Nat.eqb i j); unfold C1; cbn; rewrite ?Rabs_R1, ?Rabs_R0; lra.
  - eapply Rle_trans; [apply C1_sum|]. eapply Rle_trans; [apply (rsm_le n _ (fun _ => b * (INR n * b) ^ k))|].
    + intros m Hm. eapply Rle_trans; [apply C1_mul|]. apply Rmult_le_compat; [apply C1_pos|apply C1_pos|apply HM; assumption|apply IH; assumption].
    + rewrite rsm_const. lra.
Qed.

(** Powers of powers *)
Lemma mpow_add n M j : forall k i l, (i < n)%nat -> (l < n)%nat -> mpow n M (j + k) i l = csum n (fun m => Cmul (mpow n M j i m) (mpow n M k m l)).
Proof.
  induction j as [|j IH]; intros k i l Hi Hl.
  - cbn [Nat.add mpow]. symmetry. apply (@sum_delta_l' CS n i (fun m => mpow n M k m l) Hi).
  - cbn [Nat.add mpow]. transitivity (csum n (fun m => csum n (fun p => Cmul (M i p) (Cmul (mpow n M j p m) (mpow n M k m l))))).
    + rewrite (@sum_swap CS). apply (@sum_ext CS). intros p Hp. rewrite (IH k p l Hp Hl). apply (@sum_mul_l CS).
    + apply (@sum_ext CS). intros m Hm. rewrite (@sum_mul_r CS). apply (@sum_ext CS). intros p Hp. cbn. apply C_ext; cbn; ring.
Qed.
Definition sgn (k : nat) : Cx := mkC ((-1) ^ k) 0.
Lemma mpow_conj n M : (forall i j, (i < n)%nat -> (j < n)%nat -> Cconj (M j i) = Copp (M i j)) ->
  forall k i j, (i < n)%nat -> (j < n)%nat -> Cconj (mpow n M k i j) = Cmul (sgn k) (mpow n M k j i).
Proof.
  intros HM. induction k as [|k IH]; intros i j Hi Hj.
  - cbn [mpow]. unfold delta. rewrite (Nat.eqb_sym j i). destruct (Nat.eqb i j); apply C_ext; cbn; ring.
  - replace (S k) with (k + 1)%nat at 3 by lia. rewrite (mpow_add n M k 1 j i Hj Hi). cbn [mpow].
    rewrite (@sum_mul_l CS). change Cconj with (@kconj CS). rewrite (@sum_conj CS). apply (@sum_ext CS). intros m Hm.
    rewrite (@kconj_mul CS). change (@kconj CS) with Cconj. rewrite (HM m i Hm Hi), (IH m j Hm Hj).
    replace (csum n (fun q => Cmul (M m q) (@delta CS q i))) with (M m i) by (symmetry; apply (@sum_delta_r CS n i (fun q => M m q) Hi)).
    unfold sgn. apply C_ext; cbn; ring.
Qed.

(** The triangle of a square *)
Lemma triangle {SC : Scalar} N (f : nat -> nat -> K) :
  sum (S N) (fun j => sum (S N) (fun k => if Nat.leb (j + k) N then f j k else 0%K)) = sum (S N) (fun m => sum (S m) (fun j => f j (m - j)%nat)).
Proof.
  transitivity (sum (S N) (fun m => sum (S N) (fun j => if Nat.leb j m then f j (m - j)%nat else 0%K))).
  - rewrite (sum_swap (S N) (S N) (fun m j => if Nat.leb j m then f j (m - j)%nat else 0%K)). apply sum_ext. intros j Hj.
    replace (S N) with ((S N - j) + j)%nat at 1 by lia. replace (S N) with (j + (S N - j))%nat at 2 by lia.
    rewrite !sum_plus. rewrite (sum_zero j (fun i => if Nat.leb (j + (S N - j + i)) N then f j (S N - j + i)%nat else 0%K)).
    2:{ intros i Hi. destruct (Nat.leb_spec (j + (S N - j + i)) N); [lia|reflexivity]. }
    rewrite (sum_zero j (fun i => if Nat.leb j i then f j (i - j)%nat else 0%K)).
    2:{ intros i Hi. destruct (Nat.leb_spec j i); [lia|reflexivity]. }
    rewrite (sum_ext (S N - j) (fun k => if Nat.leb (j + k) N then f j k else 0%K) (fun k => f j k)).
    2:{ intros k Hk. destruct (Nat.leb_spec (j + k) N); [reflexivity|lia]. }
    rewrite (sum_ext (S N - j) (fun i => if Nat.leb j (j + i) then f j (j + i - j)%nat else 0%K) (fun k => f j k)).
    2:{ intros k Hk. destruct (Nat.leb_spec j (j + k)); [|lia]. f_equal. lia. }
    rewrite (Radd_comm k_ring). reflexivity.
  - apply sum_ext. intros m Hm. replace (S N) with (S m + (N - m))%nat by lia. rewrite sum_plus.
    rewrite (sum_zero (N - m)).
    2:{ intros i Hi. destruct (Nat.leb_spec (S m + i) m); [lia|reflexivity]. }
    rewrite (Radd_comm k_ring), (Radd_0_l k_ring). apply sum_ext. intros j Hj. destruct (Nat.leb_spec j m); [reflexivity|lia].
Qed.

(** ** Real series *)
Lemma rsm_f n (f : nat -> R) : rsm (S n) f = sum_f_R0 f n.
Proof. induction n as [|n IH]; [cbn; ring|]. cbn [sum_f_R0]. rewrite <- IH. reflexivity. Qed.
Definition eser (a : R) (N : nat) : R := rsm (S N) (fun k => a ^ k / INR (fact k)).
Lemma eser_cv a : Un_cv (eser a) (exp a).
Proof.
  unfold exp. destruct (exist_exp a) as (l & Hl). cbn. unfold exp_in, infinite_sum in Hl. intros e He. destruct (Hl e He) as (N & HN). exists N. intros n Hn. specialize (HN n Hn).
  unfold eser. rewrite rsm_f. rewrite (sum_eq _ (fun i => / INR (fact i) * a ^ i) n); [exact HN|]. intros i _. unfold Rdiv. ring.
Qed.
Lemma binom_ser x y m : rsm (S m) (fun j => x ^ j / INR (fact j) * (y ^ (m - j) / INR (fact (m - j)))) = (x + y) ^ m / INR (fact m).
Proof.
  rewrite rsm_f, binomial. unfold Rdiv at 3. rewrite (Rmult_comm (sum_f_R0 _ _)), scal_sum. apply sum_eq. intros i Hi. unfold C.
  pose proof (INR_fact_neq_0 i). pose proof (INR_fact_neq_0 (m - i)). pose proof (INR_fact_neq_0 m). field. auto.
Qed.
(** The part of the square of the exponential series beyond the triangle *)
Definition rest (a : R) (N : nat) : R :=
  rsm (S N) (fun j => rsm (S N) (fun k => if Nat.leb (j + k) N then 0 else a ^ j / INR (fact j) * (a ^ k / INR (fact k)))).
Lemma rest_eq a N : rest a N = eser a N * eser a N - eser (a + a) N.
Proof.
  assert (T : eser (a + a) N = rsm (S N) (fun j => rsm (S N) (fun k => if Nat.leb (j + k) N then a ^ j / INR (fact j) * (a ^ k / INR (fact k)) else 0))).
  { refine (eq_trans _ (eq_sym (triangle (SC := RSC) N (fun j k => a ^ j / INR (fact j) * (a ^ k / INR (fact k)))))). unfold eser. apply (@sum_ext RSC). intros m Hm. symmetry. apply binom_ser. }
  assert (Q : eser a N * eser a N = rsm (S N) (fun j => rsm (S N) (fun k => a ^ j / INR (fact j) * (a ^ k / INR (fact k))))).
  { unfold eser at 1. change Rmult with (@kmul RSC). rewrite (@sum_mul_r RSC). apply (@sum_ext RSC). intros j Hj. unfold eser. apply (@sum_mul_l RSC). }
  rewrite T, Q. unfold rest. change Rminus with (@ksub RSC). rewrite <- (@sum_sub RSC). apply (@sum_ext RSC). intros j Hj. rewrite <- (@sum_sub RSC). apply (@sum_ext RSC). intros k Hk.
  destruct (Nat.leb (j + k) N); cbn; ring.
Qed.
Lemma rest_cv a : Un_cv (rest a) 0.
Proof.
  apply (Un_cv_ext (fun N => eser a N * eser a N - eser (a + a) N)); [intros n; symmetry; apply rest_eq|].
  replace 0 with (exp a * exp a - exp (a + a)) by (rewrite exp_plus; ring).
  apply CV_minus; [apply CV_mult; apply eser_cv|apply eser_cv].
Qed.

Lemma Ccv_small u l (r : nat -> R) : (forall n, C1 (Csub (u n) l) <= r n) -> Un_cv r 0 -> Ccv u l.
Proof.
  intros H Hr. split; intros e He; destruct (Hr e He) as (N & HN); exists N; intros n Hn; specialize (HN n Hn); specialize (H n); unfold R_dist in *; unfold C1 in H; cbn in H;
  pose proof (Rabs_pos (Cre (u n) - Cre l)); pose proof (Rabs_pos (Cim (u n) - Cim l)); rewrite Rminus_0_r in HN; pose proof (Rle_abs (r n)); lra.
Qed.

Lemma C1_real x : C1 (mkC x 0) = Rabs x.
Proof. unfold C1. cbn. rewrite Rabs_R0. ring. Qed.
Lemma fact_pos k : 0 < / INR (fact k).
Proof. apply Rinv_0_lt_compat. apply lt_0_INR. apply lt_O_fact. Qed.

(** exp(M) is unitary if M is anti-Hermitian *)
Theorem exp_unitary n M E : (forall i j, (i < n)%nat -> (j < n)%nat -> Cconj (M j i) = Copp (M i j)) -> is_exp n M E ->
  forall r c, (r < n)%nat -> (c < n)%nat -> csum n (fun m => Cmul (Cconj (E m r)) (E m c)) = @delta CS r c.
Proof.
  intros HM HE r c Hr Hc.
  apply (Ccv_unique (fun N => csum n (fun m => Cmul (Cconj (epart n M N m r)) (epart n M N m c)))).
  { apply (Ccv_sum n (fun m N => Cmul (Cconj (epart n M N m r)) (epart n M N m c))). intros m Hm.
    apply Ccv_mul; [apply Ccv_conj|]; apply HE; assumption. }
  destruct (pow_bound n M) as (a & Ha & HP). apply (Ccv_small _ _ (rest a)); [|apply rest_cv]. intros N.
  set (g := fun j k => Cmul (Cmul (mkC (/ INR (fact j)) 0) (mkC (/ INR (fact k)) 0)) (Cmul (sgn j) (mpow n M (j + k) r c))).
  assert (X : csum n (fun m => Cmul (Cconj (epart n M N m r)) (epart n M N m c)) = csum (S N) (fun j => csum (S N) (fun k => g j k))).
  { transitivity (csum n (fun m => csum (S N) (fun j => csum (S N) (fun k => Cmul (Cmul (mkC (/ INR (fact j)) 0) (mkC (/ INR (fact k)) 0)) (Cmul (sgn j) (Cmul (mpow n M j r m) (mpow n M k m c))))))).
    - apply (@sum_ext CS). intros m Hm. unfold epart. change Cconj with (@kconj CS). rewrite (@sum_conj CS). change Cmul with (@kmul CS) at 1. rewrite (@sum_mul_r CS). apply (@sum_ext CS). intros j Hj.
      rewrite (@sum_mul_l CS). apply (@sum_ext CS). intros k Hk. change (@kconj CS) with Cconj.
      replace (Cconj (Cmul (mkC (/ INR (fact j)) 0) (mpow n M j m r))) with (Cmul (mkC (/ INR (fact j)) 0) (Cconj (mpow n M j m r))) by (apply C_ext; cbn; ring).
      rewrite (mpow_conj n M HM j m r Hm Hr). apply C_ext; cbn; ring.
    - rewrite (@sum_swap CS). apply (@sum_ext CS). intros j Hj. rewrite (@sum_swap CS). apply (@sum_ext CS). intros k Hk. unfold g. rewrite (mpow_add n M j k r c Hr Hc).
      change Cmul with (@kmul CS). rewrite !(@sum_mul_l CS). reflexivity. }
  assert (T : csum (S N) (fun j => csum (S N) (fun k => if Nat.leb (j + k) N then g j k else mkC 0 0)) = @delta CS r c).
  { refine (eq_trans (triangle (SC := CS) N g) _). rewrite (@sum_S_l CS). rewrite (@sum_zero CS N).
    - cbn [sum Nat.sub]. unfold g. cbn [Nat.add mpow]. apply C_ext; cbn; rewrite ?Rinv_1; destruct (@delta CS r c) as [x y]; cbn; lra.
    - intros m Hm. transitivity (Cmul (csum (S (S m)) (fun j => mkC ((-1) ^ j / INR (fact j) * (1 ^ (S m - j) / INR (fact (S m - j)))) 0)) (mpow n M (S m) r c)).
      + change Cmul with (@kmul CS). rewrite (@sum_mul_r CS). apply (@sum_ext CS). intros j Hj. unfold g. replace (j + (S m - j))%nat with (S m) by lia. rewrite pow1. unfold sgn, Rdiv. apply C_ext; cbn; ring.
      + assert (Z : forall q (f : nat -> R), csum q (fun j => mkC (f j) 0) = mkC (rsm q f) 0) by (clear; intros q f; induction q as [|q IH]; [reflexivity|]; cbn [sum]; rewrite IH; apply C_ext; cbn; ring).
        rewrite (Z _ (fun j => (-1) ^ j / INR (fact j) * (1 ^ (S m - j) / INR (fact (S m - j))))). rewrite binom_ser. replace (-1 + 1) with 0 by lra. cbn [pow]. apply C_ext; cbn -[fact]; unfold Rdiv; ring. }
  rewrite X. rewrite <- T. change Csub with (@ksub CS). rewrite <- (@sum_sub CS). eapply Rle_trans; [apply C1_sum|]. unfold rest. apply rsm_le. intros j Hj.
  rewrite <- (@sum_sub CS). eapply Rle_trans; [apply C1_sum|]. apply rsm_le. intros k Hk. destruct (Nat.leb (j + k) N).
  - replace (@ksub CS (g j k) (g j k)) with (mkC 0 0) by (symmetry; apply (@Rsub_refl CS) || (apply C_ext; cbn; ring)). rewrite C1_real, Rabs_R0. lra.
  - replace (@ksub CS (g j k) (mkC 0 0)) with (g j k) by (apply C_ext; cbn; ring). unfold g.
    eapply Rle_trans; [apply C1_mul|]. pose proof (fact_pos j) as Fj. pose proof (fact_pos k) as Fk.
    replace (a ^ j / INR (fact j) * (a ^ k / INR (fact k))) with (/ INR (fact j) * / INR (fact k) * (a ^ (j + k))) by (rewrite pow_add; unfold Rdiv; ring).
    apply Rmult_le_compat; [apply C1_pos|apply C1_pos| |].
    + eapply Rle_trans; [apply C1_mul|]. rewrite !C1_real. rewrite !Rabs_right by lra. lra.
    + eapply Rle_trans; [apply C1_mul|]. unfold sgn. rewrite C1_real. rewrite <- RPow_abs. replace (Rabs (-1)) with 1 by (rewrite Rabs_left; lra). rewrite pow1. pose proof (HP (j + k)%nat r c Hr Hc). lra.
Qed.

(** ** Existence *)
Lemma series_cv (f : nat -> R) a : 0 <= a -> (forall k, Rabs (f k) <= a ^ k / INR (fact k)) -> exists l, Un_cv (fun N => rsm (S N) f) l.
Proof.
  intros Ha Hf.
  destruct (Rseries_CV_comp (fun k => Rabs (f k)) (fun k => a ^ k / INR (fact k))) as (l & Hl).
  - intros k. split; [apply Rabs_pos|apply Hf].
  - exists (exp a). apply (Un_cv_ext (eser a)); [intros n; unfold eser; apply rsm_f|apply eser_cv].
  - destruct (cv_cauchy_2 f) as (l' & Hl'); [apply cauchy_abs; apply cv_cauchy_1; exists l; exact Hl|]. exists l'. apply (Un_cv_ext (sum_f_R0 f)); [intros n; symmetry; apply rsm_f|exact Hl'].
Qed.
Lemma exp_exists n M : exists E, is_exp n M E.
Proof.
  destruct (pow_bound n M) as (a & Ha & HP).
  assert (X : forall i j, exists e, (i < n)%nat -> (j < n)%nat -> Ccv (fun N => epart n M N i j) e).
  { intros i j. destruct (lt_dec i n) as [Hi|]; [|exists (mkC 0 0); intros; lia]. destruct (lt_dec j n) as [Hj|]; [|exists (mkC 0 0); intros; lia].
    assert (B : forall k, C1 (Cmul (mkC (/ INR (fact k)) 0) (mpow n M k i j)) <= a ^ k / INR (fact k)).
    { intros k. eapply Rle_trans; [apply C1_mul|]. rewrite C1_real. pose proof (fact_pos k). rewrite Rabs_right by lra. pose proof (HP k i j Hi Hj). unfold Rdiv. nra. }
    assert (Re : forall q (f : nat -> Cx), Cre (csum q f) = rsm q (fun k => Cre (f k))) by (clear; intros q f; induction q as [|q IH]; [reflexivity|]; change (Cre (csum q f) + Cre (f q) = rsm q (fun k => Cre (f k)) + Cre (f q)); rewrite IH; reflexivity).
    assert (Im : forall q (f : nat -> Cx), Cim (csum q f) = rsm q (fun k => Cim (f k))) by (clear; intros q f; induction q as [|q IH]; [reflexivity|]; change (Cim (csum q f) + Cim (f q) = rsm q (fun k => Cim (f k)) + Cim (f q)); rewrite IH; reflexivity).
    destruct (series_cv (fun k => Cre (Cmul (mkC (/ INR (fact k)) 0) (mpow n M k i j))) a Ha) as (x & Hx).
    { intros k. specialize (B k). unfold C1 in B. pose proof (Rabs_pos (Cim (Cmul (mkC (/ INR (fact k)) 0) (mpow n M k i j)))). lra. }
    destruct (series_cv (fun k => Cim (Cmul (mkC (/ INR (fact k)) 0) (mpow n M k i j))) a Ha) as (y & Hy).
    { intros k. specialize (B k). unfold C1 in B. pose proof (Rabs_pos (Cre (Cmul (mkC (/ INR (fact k)) 0) (mpow n M k i j)))). lra. }
    exists (mkC x y). intros _ _. split; cbn [Cre Cim]; [apply (Un_cv_ext _ _ _ (fun N => eq_sym (Re (S N) _)) Hx)|apply (Un_cv_ext _ _ _ (fun N => eq_sym (Im (S N) _)) Hy)]. }
  destruct (choice (fun i (f : nat -> Cx) => forall j, (i < n)%nat -> (j < n)%nat -> Ccv (fun N => epart n M N i j) (f j))) as (E & HE).
  { intros i. destruct (choice _ (X i)) as (f & Hf). exists f. exact Hf. }
  exists E. intros i j Hi Hj. apply HE; assumption.
Qed.

(** What the model assumes of linalg::expm: the exponential of every square matrix. *)
Definition expm_contract (expm : @tensor CS -> @tensor CS) : Prop :=
  forall n M, @is_matrix CS M n n -> @is_matrix CS (expm M) n n /\ is_exp n (@mat CS M) (@mat CS (expm M)).

Theorem expm_contract_satisfiable : exists expm, expm_contract expm.
Proof.
  assert (X : forall M : @tensor CS, exists E, forall n, @is_matrix CS M n n -> @is_matrix CS E n n /\ is_exp n (@mat CS M) (@mat CS E)).
  { intros M. destruct (classic (exists n, @is_matrix CS M n n)) as [(n & HM)|N].
    - destruct (exp_exists n (@mat CS M)) as (E & HE). exists (@mk CS [n; n] (fun is => E (nth 0 is 0%nat) (nth 1 is 0%nat))).
      intros n' (HM' & _). destruct HM as (HM & _). assert (n' = n) by congruence. subst n'. split; [split; [reflexivity|apply wf_mk]|].
      intros i j Hi Hj. unfold mat at 2. rewrite get_mk by (apply in_range_2; assumption). apply HE; assumption.
    - exists M. intros n HM. destruct N. exists n. exact HM. }
  destruct (choice _ X) as (expm & H). exists expm. exact (fun n M => H M n).
Qed.
