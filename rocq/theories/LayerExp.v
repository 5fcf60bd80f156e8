(** A layer of exponentials is the exponential of the sum of its blocks *)
From Coq Require Import Reals Lra Bool List Arith Lia Ring.
From Verif Require Import Scalar ScalarFacts RScal RealInst Tensor TensorFacts Spec ExpectedFacts SparseSpec SparseFacts DmrgSplit MpoFacts TrotterSpec TrotterFacts TrotterApply OpSpec OpAlgebra TrotterExp OpExp.
Import ListNotations.
Local Open Scope K_scope.

Section Kron.
Context {SC : Scalar}.
Add Ring Kring : k_ring.
Notation op := (list nat -> list nat -> K).
(** tensor product of an operator on the first n sites and one on the others *)
Definition kr (n : nat) (A B : op) : op := fun is js => A (firstn n is) (firstn n js) * B (skipn n is) (skipn n js).
Lemma kr_app n A B i1 i2 j1 j2 : length i1 = n -> length j1 = n -> kr n A B (i1 ++ i2) (j1 ++ j2) = A i1 j1 * B i2 j2.
Proof.
  intros Hi Hj. unfold kr. rewrite !firstn_app, !skipn_app, Hi, Hj, Nat.sub_diag. cbn [firstn skipn].
  rewrite !app_nil_r. rewrite (firstn_all2 i1), (firstn_all2 j1), (skipn_all2 i1), (skipn_all2 j1) by lia. reflexivity.
Qed.
Variables ds es : list nat.
Let n := length ds.
Lemma kr_eq A A' B B' : oeq ds A A' -> oeq es B B' -> oeq (ds ++ es) (kr n A B) (kr n A' B').
Proof.
  intros H H' is js Hi Hj. apply SparseFacts.in_range_app in Hi, Hj. destruct Hi as (i1 & i2 & -> & Hi1 & Hi2). destruct Hj as (j1 & j2 & -> & Hj1 & Hj2).
  pose proof (in_range_length _ _ Hi1). pose proof (in_range_length _ _ Hj1). rewrite !kr_app by (unfold n; lia). rewrite H, H' by assumption. reflexivity.
Qed.
Lemma kr_id : oeq (ds ++ es) (kr n id_op id_op) id_op.
Proof.
  intros is js Hi Hj. apply SparseFacts.in_range_app in Hi, Hj. destruct Hi as (i1 & i2 & -> & Hi1 & Hi2). destruct Hj as (j1 & j2 & -> & Hj1 & Hj2).
  pose proof (in_range_length _ _ Hi1). pose proof (in_range_length _ _ Hj1). rewrite kr_app by (unfold n; lia). rewrite id_op_app' by lia. reflexivity.
Qed.
Lemma kr_mul A B C D : oeq (ds ++ es) (op_mul (ds ++ es) (kr n A B) (kr n C D)) (kr n (op_mul ds A C) (op_mul es B D)).
Proof.
  intros is js Hi Hj. apply SparseFacts.in_range_app in Hi, Hj. destruct Hi as (i1 & i2 & -> & Hi1 & Hi2). destruct Hj as (j1 & j2 & -> & Hj1 & Hj2).
  pose proof (in_range_length _ _ Hi1). pose proof (in_range_length _ _ Hj1). rewrite kr_app by (unfold n; lia). unfold op_mul. rewrite sumcfg_app. rewrite sumcfg_mul_r. apply sumcfg_ext. intros k1 Hk1.
  rewrite sumcfg_mul_l. apply sumcfg_ext. intros k2 Hk2. pose proof (in_range_length _ _ Hk1). rewrite !kr_app by (unfold n; lia). ring.
Qed.
Lemma kr_pow_l A k : oeq (ds ++ es) (op_pow (ds ++ es) (kr n A id_op) k) (kr n (op_pow ds A k) id_op).
Proof.
  induction k as [|k IH]; cbn [op_pow]; [apply oeq_sym; apply kr_id|]. eapply oeq_trans; [apply op_mul_eq; [apply oeq_refl|exact IH]|]. eapply oeq_trans; [apply kr_mul|].
  apply kr_eq; [apply oeq_refl|apply op_mul_id_l].
Qed.
Lemma kr_pow_r A k : oeq (ds ++ es) (op_pow (ds ++ es) (kr n id_op A) k) (kr n id_op (op_pow es A k)).
Proof.
  induction k as [|k IH]; cbn [op_pow]; [apply oeq_sym; apply kr_id|]. eapply oeq_trans; [apply op_mul_eq; [apply oeq_refl|exact IH]|]. eapply oeq_trans; [apply kr_mul|].
  apply kr_eq; [apply op_mul_id_l|apply oeq_refl].
Qed.
End Kron.

Section KronExp.
Variables ds es : list nat.
Let n := length ds.
Notation krC := (@kr CS).
Notation idC := (@id_op CS).
Add Ring Cring2 : (@k_ring CS).
Lemma in_range_split is : in_range (ds ++ es) is -> in_range ds (firstn n is) /\ in_range es (skipn n is).
Proof.
  intros Hi. apply SparseFacts.in_range_app in Hi. destruct Hi as (i1 & i2 & -> & Hi1 & Hi2). pose proof (in_range_length _ _ Hi1). unfold n.
  rewrite firstn_app, skipn_app, <- H, Nat.sub_diag. cbn [firstn skipn]. rewrite app_nil_r, firstn_all, skipn_all. auto.
Qed.
Lemma kr_exp_l X E : is_op_exp ds X E -> is_op_exp (ds ++ es) (krC n X idC) (krC n E idC).
Proof.
  intros H is js Hi Hj. destruct (in_range_split is Hi) as (A & B). destruct (in_range_split js Hj) as (A' & B').
  apply (Ccv_ext (fun N => Cmul (op_exp_sum ds X N (firstn n is) (firstn n js)) (idC (skipn n is) (skipn n js)))); [|apply Ccv_mul; [apply H; assumption|apply Ccv_const]].
  intros N. unfold op_exp_sum. change Cmul with (@kmul CS). rewrite (@sum_mul_r CS). apply (@sum_ext CS). intros k Hk. unfold n. rewrite (@kr_pow_l CS ds es X k is js Hi Hj). unfold kr. ring.
Qed.
Lemma kr_exp_r Y F : is_op_exp es Y F -> is_op_exp (ds ++ es) (krC n idC Y) (krC n idC F).
Proof.
  intros H is js Hi Hj. destruct (in_range_split is Hi) as (A & B). destruct (in_range_split js Hj) as (A' & B').
  apply (Ccv_ext (fun N => Cmul (idC (firstn n is) (firstn n js)) (op_exp_sum es Y N (skipn n is) (skipn n js)))); [|apply Ccv_mul; [apply Ccv_const|apply H; assumption]].
  intros N. unfold op_exp_sum. change Cmul with (@kmul CS). rewrite (@sum_mul_l CS). apply (@sum_ext CS). intros k Hk. unfold n. rewrite (@kr_pow_r CS ds es Y k is js Hi Hj). unfold kr. ring.
Qed.
Lemma kr_exp X Y E F : is_op_exp ds X E -> is_op_exp es Y F -> is_op_exp (ds ++ es) (@oadd CS (krC n X idC) (krC n idC Y)) (krC n E F).
Proof.
  intros HE HF. eapply op_exp_eq; [apply oeq_refl| |apply (op_exp_comm (ds ++ es) (krC n X idC) (krC n idC Y)); [|apply kr_exp_l; exact HE|apply kr_exp_r; exact HF]].
  - eapply oeq_trans; [apply kr_mul|]. apply kr_eq; [apply op_mul_id_r|apply op_mul_id_l].
  - eapply oeq_trans; [apply kr_mul|]. apply oeq_sym. eapply oeq_trans; [apply kr_mul|].
    apply kr_eq; [eapply oeq_trans; [apply op_mul_id_l|apply oeq_sym; apply op_mul_id_r]|eapply oeq_trans; [apply op_mul_id_r|apply oeq_sym; apply op_mul_id_l]].
Qed.
End KronExp.

(** blocks of one and of two sites *)
Definition one {SC : Scalar} (M : nat -> nat -> K) (is js : list nat) : K := M (nth 0 is 0%nat) (nth 0 js 0%nat).
Definition two {SC : Scalar} (d : nat) (M : nat -> nat -> K) (is js : list nat) : K := M (nth 0 is 0 + d * nth 1 is 0)%nat (nth 0 js 0 + d * nth 1 js 0)%nat.
Lemma one_exp d M E : is_exp d M E -> is_op_exp [d] (@one CS M) (@one CS E).
Proof.
  intros H is js Hi Hj. apply in_range_cons_inv in Hi, Hj. destruct Hi as (i & is' & -> & Hi & His). destruct Hj as (j & js' & -> & Hj & Hjs). apply in_range_nil_inv in His, Hjs. subst.
  refine (Ccv_ext _ _ _ _ (H i j Hi Hj)). intros N. unfold epart, op_exp_sum. apply (@sum_ext CS). intros k Hk. f_equal. clear Hk. revert i Hi.
  induction k as [|k IH]; intros i Hi; [cbn; apply C_ext; cbn; ring|]. cbn [mpow op_pow]. unfold op_mul. cbn [sumcfg]. apply (@sum_ext CS). intros m Hm. rewrite (IH m Hm). reflexivity.
Qed.
Lemma two_exp d d' M E : is_exp (d * d') M E -> is_op_exp [d; d'] (@two CS d M) (@two CS d E).
Proof.
  intros H is js Hi Hj. apply in_range_cons_inv in Hi, Hj. destruct Hi as (i & is1 & -> & Hi & His). destruct Hj as (j & js1 & -> & Hj & Hjs).
  apply in_range_cons_inv in His, Hjs. destruct His as (i' & is2 & -> & Hi' & His). destruct Hjs as (j' & js2 & -> & Hj' & Hjs). apply in_range_nil_inv in His, Hjs. subst.
  refine (Ccv_ext _ _ _ _ (H (i + d * i')%nat (j + d * j')%nat ltac:(nia) ltac:(nia))). intros N. unfold epart, op_exp_sum. apply (@sum_ext CS). intros k Hk. f_equal. clear Hk. revert i i' Hi Hi'.
  induction k as [|k IH]; intros i i' Hi Hi'.
  - cbn [mpow op_pow id_op]. rewrite (@delta_pair CS) by assumption. apply C_ext; cbn; ring.
  - cbn [mpow op_pow]. unfold op_mul. cbn [sumcfg]. rewrite (@sum_merge CS d d'). rewrite (@sum_swap CS). apply (@sum_ext CS). intros m Hm. apply (@sum_ext CS). intros m' Hm'. rewrite (IH m m' Hm Hm'). reflexivity.
Qed.

(** the sum of the blocks of a layer *)
Definition lsum {SC : Scalar} (b : bool) (p : nat) (ds : list nat) (G : nat * bool -> nat -> nat -> K) (is js : list nat) : K :=
  fold_right (fun x s => block_op ds (rel p x) (G x) is js + s) 0 (blocks b p (length ds)).
Section Lsum.
Context {SC : Scalar}.
Add Ring Kring : k_ring.
Lemma fold_mul (A : Type) (l : list A) (f g : A -> K) c : (forall x, In x l -> f x = c * g x) -> fold_right (fun x s => f x + s) 0 l = c * fold_right (fun x s => g x + s) 0 l.
Proof.
  induction l as [|x l IH]; intros H; cbn [fold_right]; [ring|]. rewrite IH by (intros y Hy; apply H; right; exact Hy). rewrite (H x (or_introl eq_refl)). ring.
Qed.
Lemma lsum_pair p d d' ds G : oeq (d :: d' :: ds) (lsum true p (d :: d' :: ds) G) (oadd (kr 2 (two d (G (p, true))) id_op) (kr 2 id_op (lsum true (S (S p)) ds G))).
Proof.
  intros is js Hi Hj. apply in_range_cons_inv in Hi, Hj. destruct Hi as (i & is1 & -> & Hi & His). destruct Hj as (j & js1 & -> & Hj & Hjs).
  apply in_range_cons_inv in His, Hjs. destruct His as (i' & is2 & -> & Hi' & His). destruct Hjs as (j' & js2 & -> & Hj' & Hjs).
  unfold lsum at 1. change (length (d :: d' :: ds)) with (S (S (length ds))). rewrite blocks_true. cbn [fold_right]. unfold oadd, kr. cbn [firstn skipn]. f_equal.
  - unfold block_op, rel. cbn [fst snd]. rewrite Nat.sub_diag. reflexivity.
  - unfold lsum. apply fold_mul. intros x Hx. pose proof (blocks_range _ _ _ _ Hx). unfold block_op, rel. cbn [fst snd]. replace (fst x - p)%nat with (S (S (fst x - S (S p)))) by lia.
    destruct (snd x); cbn [pair_op site_op id_op]; ring.
Qed.
Lemma lsum_single p d ds G : oeq (d :: ds) (lsum false p (d :: ds) G) (oadd (kr 1 (one (G (p, false))) id_op) (kr 1 id_op (lsum true (S p) ds G))).
Proof.
  intros is js Hi Hj. apply in_range_cons_inv in Hi, Hj. destruct Hi as (i & is1 & -> & Hi & His). destruct Hj as (j & js1 & -> & Hj & Hjs).
  unfold lsum at 1. change (length (d :: ds)) with (S (length ds)). rewrite blocks_false. cbn [fold_right]. unfold oadd, kr. cbn [firstn skipn]. f_equal.
  - unfold block_op, rel. cbn [fst snd]. rewrite Nat.sub_diag. cbn [site_op]. reflexivity.
  - unfold lsum. apply fold_mul. intros x Hx. pose proof (blocks_range _ _ _ _ Hx). unfold block_op, rel. cbn [fst snd]. replace (fst x - p)%nat with (S (fst x - S p)) by lia.
    destruct (snd x); cbn [pair_op site_op id_op]; ring.
Qed.
End Lsum.
Lemma layer_exp b p ds : forall G U, (forall x, In x (blocks b p (length ds)) -> is_exp (block_dim ds (rel p x)) (G x) (U (fst x))) ->
  is_op_exp ds (@lsum CS b p ds G) (@layer_op CS b p ds U).
Proof.
  revert b p ds. apply (layer_ind (fun b p ds => forall G U, (forall x, In x (blocks b p (length ds)) -> is_exp (block_dim ds (rel p x)) (G x) (U (fst x))) ->
    is_op_exp ds (@lsum CS b p ds G) (@layer_op CS b p ds U))).
  - intros b p G U _ is js Hi Hj. apply in_range_nil_inv in Hi, Hj. subst. apply (Ccv_ext (fun _ => mkC 1 0)); [|apply (Ccv_const (mkC 1 0))].
    intros N. unfold op_exp_sum. rewrite (@sum_S_l CS). rewrite (@sum_zero CS N).
    + cbn. apply C_ext; cbn; rewrite ?Rinv_1; ring.
    + intros k Hk. cbn [op_pow]. unfold op_mul. cbn. unfold lsum. cbn. apply C_ext; cbn; ring.
  - intros b p d G U H. assert (Hb : blocks b p 1 = [(p, false)]) by (destruct b; reflexivity). specialize (H (p, false)). cbn [length] in H. rewrite Hb in H. specialize (H (or_introl eq_refl)).
    unfold block_dim, rel in H. cbn [fst snd] in H. rewrite Nat.sub_diag in H. cbn [nth] in H. refine (op_exp_eq [d] _ _ _ _ _ _ (one_exp d _ _ H)).
    + intros is js Hi Hj. apply in_range_cons_inv in Hi, Hj. destruct Hi as (i & is' & -> & Hi & His). destruct Hj as (j & js' & -> & Hj & Hjs). apply in_range_nil_inv in His, Hjs. subst.
      unfold lsum. cbn [length]. rewrite Hb. cbn [fold_right]. unfold block_op, rel. cbn [fst snd]. rewrite Nat.sub_diag. cbn [site_op id_op]. unfold one. cbn [nth]. apply C_ext; cbn; ring.
    + intros is js Hi Hj. apply in_range_cons_inv in Hi, Hj. destruct Hi as (i & is' & -> & Hi & His). destruct Hj as (j & js' & -> & Hj & Hjs). apply in_range_nil_inv in His, Hjs. subst. reflexivity.
  - intros p d d' ds IH G U H. change (length (d :: d' :: ds)) with (S (S (length ds))) in H. rewrite blocks_true in H.
    pose proof (H (p, true) (or_introl eq_refl)) as H0. unfold block_dim, rel in H0. cbn [fst snd] in H0. rewrite Nat.sub_diag in H0. cbn [nth] in H0.
    assert (HT : is_op_exp ds (@lsum CS true (S (S p)) ds G) (@layer_op CS true (S (S p)) ds U)).
    { apply IH. intros x Hx. pose proof (blocks_range _ _ _ _ Hx). rewrite <- (block_dim_rel_pair p d d' ds x) by lia. apply H. right. exact Hx. }
    pose proof (kr_exp [d; d'] ds _ _ _ _ (two_exp d d' _ _ H0) HT) as K0. cbn [length app] in K0. refine (op_exp_eq (d :: d' :: ds) _ _ _ _ _ _ K0).
    + apply oeq_sym. apply lsum_pair.
    + intros is js Hi Hj. apply in_range_cons_inv in Hi, Hj. destruct Hi as (i & is1 & -> & Hi & His). destruct Hj as (j & js1 & -> & Hj & Hjs).
      apply in_range_cons_inv in His, Hjs. destruct His as (i' & is2 & -> & Hi' & His). destruct Hjs as (j' & js2 & -> & Hj' & Hjs). rewrite layer_pair. reflexivity.
  - intros p d d' ds IH G U H. change (length (d :: d' :: ds)) with (S (length (d' :: ds))) in H. rewrite blocks_false in H.
    pose proof (H (p, false) (or_introl eq_refl)) as H0. unfold block_dim, rel in H0. cbn [fst snd] in H0. rewrite Nat.sub_diag in H0. cbn [nth] in H0.
    assert (HT : is_op_exp (d' :: ds) (@lsum CS true (S p) (d' :: ds) G) (@layer_op CS true (S p) (d' :: ds) U)).
    { apply IH. intros x Hx. pose proof (blocks_range _ _ _ _ Hx). rewrite <- (block_dim_rel_single p d (d' :: ds) x) by lia. apply H. right. exact Hx. }
    pose proof (kr_exp [d] (d' :: ds) _ _ _ _ (one_exp d _ _ H0) HT) as K0. cbn [length app] in K0. refine (op_exp_eq (d :: d' :: ds) _ _ _ _ _ _ K0).
    + apply oeq_sym. apply lsum_single.
    + intros is js Hi Hj. apply in_range_cons_inv in Hi, Hj. destruct Hi as (i & is1 & -> & Hi & His). destruct Hj as (j & js1 & -> & Hj & Hjs). rewrite (@layer_single CS) by assumption. reflexivity.
Qed.
