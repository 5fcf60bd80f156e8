(** A layer of unitary matrices is unitary; order of products of exponentials *)
From Coq Require Import Reals Lra Bool List Arith ZArith QArith Qreals Lia Ring.
From Verif Require Import Scalar ScalarFacts Tensor TensorFacts Spec ExpectedFacts SparseSpec SparseFacts MpoFacts TrotterSpec TrotterFacts TrotterApply.
Import ListNotations.

Section Norm.
Context {SC : Scalar}.
Add Ring Kring : k_ring.
Local Open Scope K_scope.

(** U^dagger U = 1 *)
Definition unitary_mat (n : nat) (U : nat -> nat -> K) : Prop :=
  forall r c, (r < n)%nat -> (c < n)%nat -> sum n (fun m => kconj (U m r) * U m c) = delta r c.

Lemma layer_unitary b p ds : forall U is ks, in_range ds is -> in_range ds ks ->
  (forall x, In x (blocks b p (length ds)) -> unitary_mat (block_dim ds (rel p x)) (U (fst x))) ->
  sumcfg ds (fun js => kconj (layer_op b p ds U js is) * layer_op b p ds U js ks) = id_op is ks.
Proof.
  revert b p ds. apply (layer_ind (fun b p ds => forall U is ks, in_range ds is -> in_range ds ks ->
    (forall x, In x (blocks b p (length ds)) -> unitary_mat (block_dim ds (rel p x)) (U (fst x))) ->
    sumcfg ds (fun js => kconj (layer_op b p ds U js is) * layer_op b p ds U js ks) = id_op is ks)).
  - intros b p U is ks Hi Hk _. apply in_range_nil_inv in Hi, Hk. subst. cbn. rewrite kconj_1. ring.
  - intros b p d U is ks Hi Hk H. apply in_range_cons_inv in Hi, Hk. destruct Hi as (i & is' & -> & Hi & His). destruct Hk as (k & ks' & -> & Hk & Hks).
    apply in_range_nil_inv in His, Hks. subst. cbn [sumcfg layer_op id_op]. specialize (H (p, false) (or_introl eq_refl)).
    unfold block_dim, rel in H. cbn [fst snd] in H. rewrite Nat.sub_diag in H. cbn [nth] in H. rewrite (H i k Hi Hk). ring.
  - intros p d d' ds IH U is ks Hi Hk H. change (length (d :: d' :: ds)) with (S (S (length ds))) in H. rewrite blocks_true in H.
    apply in_range_cons_inv in Hi, Hk. destruct Hi as (i & is1 & -> & Hi & His). destruct Hk as (k & ks1 & -> & Hk & Hks).
    apply in_range_cons_inv in His, Hks. destruct His as (i' & is2 & -> & Hi' & His). destruct Hks as (k' & ks2 & -> & Hk' & Hks).
    pose proof (H (p, true) (or_introl eq_refl)) as H0. unfold block_dim, rel in H0. cbn [fst snd] in H0. rewrite Nat.sub_diag in H0. cbn [nth] in H0.
    assert (HT : sumcfg ds (fun js => kconj (layer_op true (S (S p)) ds U js is2) * layer_op true (S (S p)) ds U js ks2) = id_op is2 ks2).
    { apply IH; [assumption|assumption|]. intros x Hx. pose proof (blocks_range _ _ _ _ Hx). rewrite <- (block_dim_rel_pair p d d' ds x) by lia. apply H. right. exact Hx. }
    cbn [sumcfg id_op].
    transitivity (sum d (fun j => sum d' (fun j' => kconj (U p (j + d * j')%nat (i + d * i')%nat) * U p (j + d * j')%nat (k + d * k')%nat)) * id_op is2 ks2).
    + rewrite sum_mul_r. apply sum_ext. intros j Hj. rewrite sum_mul_r. apply sum_ext. intros j' Hj'. rewrite <- HT. rewrite sumcfg_mul_l. apply sumcfg_ext. intros js Hjs.
      rewrite !layer_pair. rewrite kconj_mul. ring.
    + rewrite sum_swap. rewrite <- (sum_merge d d' (fun m => kconj (U p m (i + d * i')%nat) * U p m (k + d * k')%nat)).
      rewrite (H0 (i + d * i')%nat (k + d * k')%nat) by nia. rewrite delta_pair by assumption. ring.
  - intros p d d' ds IH U is ks Hi Hk H. change (length (d :: d' :: ds)) with (S (length (d' :: ds))) in H. rewrite blocks_false in H.
    apply in_range_cons_inv in Hi, Hk. destruct Hi as (i & is1 & -> & Hi & His). destruct Hk as (k & ks1 & -> & Hk & Hks).
    remember (d' :: ds) as es eqn:Ees.
    pose proof (H (p, false) (or_introl eq_refl)) as H0. unfold block_dim, rel in H0. cbn [fst snd] in H0. rewrite Nat.sub_diag in H0. cbn [nth] in H0.
    assert (HT : sumcfg es (fun js => kconj (layer_op true (S p) es U js is1) * layer_op true (S p) es U js ks1) = id_op is1 ks1).
    { apply IH; [assumption|assumption|]. intros x Hx. pose proof (blocks_range _ _ _ _ Hx). rewrite <- (block_dim_rel_single p d es x) by lia. apply H. right. exact Hx. }
    cbn [sumcfg id_op].
    transitivity (sum d (fun j => kconj (U p j i) * U p j k) * id_op is1 ks1).
    + rewrite sum_mul_r. apply sum_ext. intros j Hj. rewrite <- HT. rewrite sumcfg_mul_l. apply sumcfg_ext. intros js Hjs.
      rewrite !layer_single by assumption. rewrite kconj_mul. ring.
    + rewrite (H0 i k Hi Hk). reflexivity.
Qed.

Lemma act_inner ds M f g : (forall is ks, in_range ds is -> in_range ds ks -> sumcfg ds (fun js => kconj (M js is) * M js ks) = id_op is ks) ->
  inner ds (act ds M f) (act ds M g) = inner ds f g.
Proof.
  intros HM. unfold inner, act.
  transitivity (sumcfg ds (fun js => sumcfg ds (fun is => sumcfg ds (fun ks => kconj (f is) * g ks * (kconj (M js is) * M js ks))))).
  { apply sumcfg_ext. intros js Hjs. rewrite sumcfg_conj. rewrite sumcfg_mul_r. apply sumcfg_ext. intros is His. rewrite sumcfg_mul_l. apply sumcfg_ext. intros ks Hks. rewrite kconj_mul. ring. }
  rewrite sumcfg_swap. apply sumcfg_ext. intros is His. rewrite sumcfg_swap.
  transitivity (sumcfg ds (fun ks => id_op is ks * (kconj (f is) * g ks))).
  { apply sumcfg_ext. intros ks Hks. rewrite <- (HM is ks His Hks). rewrite sumcfg_mul_r. apply sumcfg_ext. intros js Hjs. ring. }
  rewrite (sumcfg_id_op ds is (fun ks => kconj (f is) * g ks) His). reflexivity.
Qed.
End Norm.

(** ** Word coefficients, computed with rational numbers *)
Local Open Scope R_scope.
Fixpoint qpow (q : Q) (n : nat) : Q := match n with O => 1%Q | S n' => (q * qpow q n')%Q end.
Fixpoint word_coeff_q (l : list (Q * bool)) (w : list bool) : Q :=
  match l with
  | [] => match w with [] => 1%Q | _ => 0%Q end
  | (c, x) :: l' => fold_right (fun n s => Qred (qpow c n * / inject_Z (Z.of_nat (fact n)) * word_coeff_q l' (skipn n w) + s)%Q) 0%Q (seq 0 (S (run x w)))
  end.
Definition to_r (l : list (Q * bool)) : list (R * bool) := map (fun c => (Q2R (fst c), snd c)) l.

Lemma Q2R_pow q n : Q2R (qpow q n) = Q2R q ^ n.
Proof. induction n as [|n IH]; cbn [qpow pow]; [unfold Q2R; cbn; lra|]. rewrite Q2R_mult, IH. reflexivity. Qed.
Lemma Q2R_inject z : Q2R (inject_Z z) = IZR z.
Proof. unfold Q2R, inject_Z. cbn. lra. Qed.

Lemma word_coeff_q_ok l : forall w, word_coeff (to_r l) w = Q2R (word_coeff_q l w).
Proof.
  induction l as [|(c, x) l IH]; intros w.
  - cbn. destruct w; unfold Q2R; cbn; lra.
  - cbn [to_r map word_coeff word_coeff_q fst snd]. fold (to_r l). induction (seq 0 (S (run x w))) as [|n s IHs]; [cbn; unfold Q2R; cbn; lra|].
    cbn [fold_right]. rewrite (Qeq_eqR _ _ (Qred_correct _)). rewrite Q2R_plus, !Q2R_mult, IHs, IH, Q2R_pow, Q2R_inv, Q2R_inject, <- INR_IZR_INZ; [reflexivity|].
    intros H. assert (fact n = 0)%nat; [|pose proof (fact_neq_0 n); lia].
    unfold Qeq in H. cbn in H. lia.
Qed.

Definition all_words : nat -> list (list bool) := fix go n :=
  match n with O => [[]] | S n' => flat_map (fun w => [true :: w; false :: w]) (go n') end.
Lemma in_all_words w : In w (all_words (length w)).
Proof. induction w as [|b w IH]; [left; reflexivity|]. cbn. apply in_flat_map. exists w. split; [exact IH|]. destruct b; [left|right; left]; reflexivity. Qed.

Definition close_q (l : list (Q * bool)) (eps : Q) (w : list bool) : bool :=
  Qle_bool (word_coeff_q l w - / inject_Z (Z.of_nat (fact (length w)))) eps && Qle_bool (- eps) (word_coeff_q l w - / inject_Z (Z.of_nat (fact (length w)))).
Lemma close_q_iff l eps w : close_q l eps w = true <-> Rabs (word_coeff (to_r l) w - / INR (fact (length w))) <= Q2R eps.
Proof.
  unfold close_q. rewrite andb_true_iff, !Qle_bool_iff.
  assert (E : Q2R (word_coeff_q l w - / inject_Z (Z.of_nat (fact (length w)))) = word_coeff (to_r l) w - / INR (fact (length w))).
  { rewrite Q2R_minus, Q2R_inv, Q2R_inject, <- INR_IZR_INZ, word_coeff_q_ok; [reflexivity|].
    intros H. pose proof (fact_neq_0 (length w)). unfold Qeq in H. cbn in H. lia. }
  rewrite <- E. split.
  - intros (H1 & H2). apply Qle_Rle in H1, H2. rewrite Q2R_opp in H2. apply Rabs_le. lra.
  - intros H. unfold Rabs in H. destruct (Rcase_abs _) in H; split; apply Rle_Qle; rewrite ?Q2R_opp; lra.
Qed.
Lemma accurate_q l m eps : forallb (fun n => forallb (close_q l eps) (all_words n)) (seq 0 (S m)) = true -> accurate (to_r l) m (Q2R eps).
Proof.
  intros H w Hw. rewrite forallb_forall in H. specialize (H (length w)). rewrite forallb_forall in H. apply close_q_iff. apply H; [apply in_seq; lia|apply in_all_words].
Qed.
