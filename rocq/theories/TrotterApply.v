(** Proofs about the Trotter unitaries: application to a state *)
From Coq Require Import Reals Lra Bool List Arith ZArith Lia Ring.
From Verif Require Import Scalar ScalarFacts RScal Tensor TensorFacts Spec MpsModel MpsFacts EnvFacts ExpectedFacts
  StateFacts MpoFacts SparseSpec SparseFacts CanonSpec CanonModel TruncFacts SplitFacts CanonFacts CanonSweep CanonProps CanonTwo
  TrotterSpec TrotterModel TrotterFacts.
Import ListNotations.
Local Open Scope K_scope.

Section Layers.
Context {SC : Scalar}.
Add Ring Kring : k_ring.

Lemma blocks_true_in p n k f : In (k, f) (blocks true p n) <->
  exists j, (k = p + 2 * j)%nat /\ (if (f : bool) then k + 2 <= p + n else k + 1 = p + n)%nat.
Proof.
  revert p. assert (G : forall n, (forall p, In (k, f) (blocks true p n) <-> exists j, (k = p + 2 * j)%nat /\ (if (f : bool) then k + 2 <= p + n else k + 1 = p + n)%nat) /\
     (forall p, In (k, f) (blocks true p (S n)) <-> exists j, (k = p + 2 * j)%nat /\ (if (f : bool) then k + 2 <= p + S n else k + 1 = p + S n)%nat)).
  { clear n. induction n as [|n (IH1 & IH2)].
    - split; intros p.
      + cbn. split; [intros []|]. intros (j & -> & H). destruct f; lia.
      + cbn. split.
        * intros [[= <- <-]|[]]. exists 0%nat. lia.
        * intros (j & -> & H). destruct f; [lia|]. left. f_equal. lia.
    - split; [exact IH2|]. intros p. rewrite blocks_true. cbn [In]. rewrite IH1. split.
      + intros [[= <- <-]|(j & -> & H)]; [exists 0%nat; lia|]. exists (S j). destruct f; lia.
      + intros ([|j] & -> & H).
        * destruct f; [left; f_equal; lia|]. lia.
        * right. exists j. destruct f; lia. }
  apply G.
Qed.
Lemma blocks_false_in p n k f : In (k, f) (blocks false p (S n)) <-> (k, f) = (p, false) \/ In (k, f) (blocks true (S p) n).
Proof. rewrite blocks_false. cbn [In]. split; intros [H|H]; auto. Qed.

Lemma layer_pair p d d' ds U i i' is j j' js :
  layer_op true p (d :: d' :: ds) U (i :: i' :: is) (j :: j' :: js) =
  U p (i + d * i')%nat (j + d * j')%nat * layer_op true (S (S p)) ds U is js.
Proof. reflexivity. Qed.
Lemma layer_single p d ds U i is j js : in_range ds is -> in_range ds js ->
  layer_op false p (d :: ds) U (i :: is) (j :: js) = U p i j * layer_op true (S p) ds U is js.
Proof.
  intros H1 H2. destruct H1; inversion H2; subst; [cbn; ring|]. reflexivity.
Qed.

(** Induction over a layer *)
Lemma layer_ind (P : bool -> nat -> list nat -> Prop) :
  (forall b p, P b p []) -> (forall b p d, P b p [d]) ->
  (forall p d d' ds, P true (S (S p)) ds -> P true p (d :: d' :: ds)) ->
  (forall p d d' ds, P true (S p) (d' :: ds) -> P false p (d :: d' :: ds)) -> forall b p ds, P b p ds.
Proof.
  intros H0 H1 Ht Hf.
  assert (G : forall n ds, length ds = n -> forall p, P true p ds).
  { intros n. induction n as [n IH] using lt_wf_ind. intros [|d [|d' ds]] <- p; auto. apply Ht. eapply IH; [|reflexivity]. cbn. lia. }
  intros [|] p ds; [eapply G; reflexivity|]. destruct ds as [|d [|d' ds]]; auto. apply Hf. eapply G. reflexivity.
Qed.

(** Only the elements of the blocks matter. *)
Definition rel (p : nat) (x : nat * bool) : nat * bool := (fst x - p, snd x)%nat.
Lemma block_dim_rel_pair p d d' ds (x : nat * bool) : (S (S p) <= fst x)%nat -> block_dim (d :: d' :: ds) (rel p x) = block_dim ds (rel (S (S p)) x).
Proof. intros H. unfold block_dim, rel. cbn [fst snd]. replace (fst x - p)%nat with (S (S (fst x - S (S p)))) by lia. reflexivity. Qed.
Lemma block_dim_rel_single p d ds (x : nat * bool) : (S p <= fst x)%nat -> block_dim (d :: ds) (rel p x) = block_dim ds (rel (S p) x).
Proof. intros H. unfold block_dim, rel. cbn [fst snd]. replace (fst x - p)%nat with (S (fst x - S p)) by lia. reflexivity. Qed.

Lemma layer_op_ext b p ds U V : forall is js, in_range ds is -> in_range ds js ->
  (forall x, In x (blocks b p (length ds)) -> forall r c, (r < block_dim ds (rel p x))%nat -> (c < block_dim ds (rel p x))%nat -> U (fst x) r c = V (fst x) r c) ->
  layer_op b p ds U is js = layer_op b p ds V is js.
Proof.
  revert b p ds. apply (layer_ind (fun b p ds => forall is js, in_range ds is -> in_range ds js ->
    (forall x, In x (blocks b p (length ds)) -> forall r c, (r < block_dim ds (rel p x))%nat -> (c < block_dim ds (rel p x))%nat -> U (fst x) r c = V (fst x) r c) ->
    layer_op b p ds U is js = layer_op b p ds V is js)).
  - intros b p is js Hi Hj _. apply in_range_nil_inv in Hi, Hj. subst. reflexivity.
  - intros b p d is js Hi Hj H. apply in_range_cons_inv in Hi, Hj. destruct Hi as (i & is' & -> & Hi & His). destruct Hj as (j & js' & -> & Hj & Hjs).
    apply in_range_nil_inv in His, Hjs. subst. cbn. apply (H (p, false)); cbn; rewrite ?Nat.sub_diag; auto.
  - intros p d d' ds IH is js Hi Hj H. apply in_range_cons_inv in Hi, Hj. destruct Hi as (i & is1 & -> & Hi & His). destruct Hj as (j & js1 & -> & Hj & Hjs).
    apply in_range_cons_inv in His, Hjs. destruct His as (i' & is2 & -> & Hi' & His). destruct Hjs as (j' & js2 & -> & Hj' & Hjs).
    rewrite !layer_pair. change (length (d :: d' :: ds)) with (S (S (length ds))) in H. rewrite blocks_true in H. f_equal.
    + apply (H (p, true)); [left; reflexivity| |]; unfold block_dim, rel; cbn [fst snd]; rewrite Nat.sub_diag; cbn [nth]; nia.
    + apply IH; [assumption|assumption|]. intros x Hx r c Hr Hc. pose proof (blocks_range _ _ _ _ Hx) as Hb.
      apply H; [right; exact Hx| |]; rewrite block_dim_rel_pair by lia; assumption.
  - intros p d d' ds IH is js Hi Hj H. apply in_range_cons_inv in Hi, Hj. destruct Hi as (i & is1 & -> & Hi & His). destruct Hj as (j & js1 & -> & Hj & Hjs).
    rewrite !layer_single by assumption. change (length (d :: d' :: ds)) with (S (length (d' :: ds))) in H. rewrite blocks_false in H. f_equal.
    + apply (H (p, false)); [left; reflexivity| |]; unfold block_dim, rel; cbn [fst snd]; rewrite Nat.sub_diag; cbn [nth]; assumption.
    + apply IH; [assumption|assumption|]. intros x Hx r c Hr Hc. pose proof (blocks_range _ _ _ _ Hx) as Hb.
      apply H; [right; exact Hx| |]; rewrite block_dim_rel_single by lia; assumption.
Qed.

Lemma layer_id b p ds : forall is js, in_range ds is -> in_range ds js -> layer_op b p ds (fun _ => delta) is js = id_op is js.
Proof.
  revert b p ds. apply (layer_ind (fun b p ds => forall is js, in_range ds is -> in_range ds js -> layer_op b p ds (fun _ => delta) is js = id_op is js)).
  - intros b p is js Hi Hj. apply in_range_nil_inv in Hi, Hj. subst. reflexivity.
  - intros b p d is js Hi Hj. apply in_range_cons_inv in Hi, Hj. destruct Hi as (i & is' & -> & Hi & His). destruct Hj as (j & js' & -> & Hj & Hjs).
    apply in_range_nil_inv in His, Hjs. subst. cbn. ring.
  - intros p d d' ds IH is js Hi Hj. apply in_range_cons_inv in Hi, Hj. destruct Hi as (i & is1 & -> & Hi & His). destruct Hj as (j & js1 & -> & Hj & Hjs).
    apply in_range_cons_inv in His, Hjs. destruct His as (i' & is2 & -> & Hi' & His). destruct Hjs as (j' & js2 & -> & Hj' & Hjs).
    rewrite layer_pair. rewrite IH by assumption. cbn [id_op]. rewrite delta_pair by assumption. ring.
  - intros p d d' ds IH is js Hi Hj. apply in_range_cons_inv in Hi, Hj. destruct Hi as (i & is1 & -> & Hi & His). destruct Hj as (j & js1 & -> & Hj & Hjs).
    rewrite layer_single by assumption. rewrite IH by assumption. reflexivity.
Qed.

(** A block acting on a layer *)
Definition upd (x : nat * bool) (n : nat) (M : nat -> nat -> K) (V : nat -> nat -> nat -> K) (q r c : nat) : K :=
  if Nat.eqb q (fst x) then sum n (fun m => M r m * V q m c) else V q r c.

Lemma block_layer b p ds : forall (x : nat * bool) M V is ks, In x (blocks b p (length ds)) -> in_range ds is -> in_range ds ks ->
  sumcfg ds (fun js => block_op ds (rel p x) M is js * layer_op b p ds V js ks) =
  layer_op b p ds (upd x (block_dim ds (rel p x)) M V) is ks.
Proof.
  revert b p ds. apply (layer_ind (fun b p ds => forall (x : nat * bool) M V is ks, In x (blocks b p (length ds)) -> in_range ds is -> in_range ds ks ->
  sumcfg ds (fun js => block_op ds (rel p x) M is js * layer_op b p ds V js ks) =
  layer_op b p ds (upd x (block_dim ds (rel p x)) M V) is ks)).
  - intros b p x M V is ks [].
  - intros b p d x M V is ks [<-|[]] Hi Hk. apply in_range_cons_inv in Hi, Hk. destruct Hi as (i & is' & -> & Hi & His). destruct Hk as (k & ks' & -> & Hk & Hks).
    apply in_range_nil_inv in His, Hks. subst. unfold rel, upd, block_op, block_dim. cbn [fst snd]. rewrite Nat.sub_diag. cbn [nth layer_op]. cbn [sumcfg site_op layer_op id_op].
    rewrite Nat.eqb_refl. apply sum_ext. intros j Hj. ring.
  - intros p d d' ds IH x M V is ks Hx Hi Hk. change (length (d :: d' :: ds)) with (S (S (length ds))) in Hx. rewrite blocks_true in Hx.
    apply in_range_cons_inv in Hi, Hk. destruct Hi as (i & is1 & -> & Hi & His). destruct Hk as (k & ks1 & -> & Hk & Hks).
    apply in_range_cons_inv in His, Hks. destruct His as (i' & is2 & -> & Hi' & His). destruct Hks as (k' & ks2 & -> & Hk' & Hks).
    rewrite layer_pair. destruct Hx as [<-|Hx].
    + unfold rel, block_op, block_dim. cbn [fst snd]. rewrite Nat.sub_diag. cbn [nth sumcfg].
      unfold upd at 1. cbn [fst]. rewrite Nat.eqb_refl. rewrite sum_merge. rewrite sum_swap. rewrite sum_mul_r. apply sum_ext. intros j' Hj'.
      rewrite sum_mul_r. apply sum_ext. intros j Hj. cbn [pair_op].
      transitivity (sumcfg ds (fun js => id_op is2 js * (M (i + d * i')%nat (j + d * j')%nat * V p (j + d * j')%nat (k + d * k')%nat * layer_op true (S (S p)) ds V js ks2))).
      { apply sumcfg_ext. intros js Hjs. rewrite layer_pair. ring. }
      rewrite sumcfg_id_op by assumption. f_equal. apply layer_op_ext; [assumption|assumption|]. intros y Hy r c _ _.
      pose proof (blocks_range _ _ _ _ Hy). unfold upd. cbn [fst]. destruct (Nat.eqb_spec (fst y) p); [lia|reflexivity].
    + pose proof (blocks_range _ _ _ _ Hx) as Hb. rewrite block_dim_rel_pair by lia.
      unfold upd at 1. destruct (Nat.eqb_spec p (fst x)); [lia|].
      rewrite <- (IH x M V is2 ks2 Hx His Hks). cbn [sumcfg].
      transitivity (sum d (fun j => delta i j * sum d' (fun j' => delta i' j' * (V p (j + d * j')%nat (k + d * k')%nat * sumcfg ds (fun js => block_op ds (rel (S (S p)) x) M is2 js * layer_op true (S (S p)) ds V js ks2))))).
      { apply sum_ext. intros j Hj. rewrite sum_mul_l. apply sum_ext. intros j' Hj'. rewrite !sumcfg_mul_l. apply sumcfg_ext. intros js Hjs.
        rewrite layer_pair. replace (block_op (d :: d' :: ds) (rel p x) M (i :: i' :: is2) (j :: j' :: js)) with (delta i j * (delta i' j' * block_op ds (rel (S (S p)) x) M is2 js)); [ring|].
        unfold block_op, rel. cbn [fst snd]. replace (fst x - p)%nat with (S (S (fst x - S (S p)))) by lia. destruct (snd x); reflexivity. }
      rewrite sum_delta_l' by assumption. rewrite sum_delta_l' by assumption. reflexivity.
  - intros p d d' ds IH x M V is ks Hx Hi Hk. change (length (d :: d' :: ds)) with (S (length (d' :: ds))) in Hx. rewrite blocks_false in Hx.
    apply in_range_cons_inv in Hi, Hk. destruct Hi as (i & is1 & -> & Hi & His). destruct Hk as (k & ks1 & -> & Hk & Hks).
    rewrite layer_single by assumption. remember (d' :: ds) as es eqn:Ees. destruct Hx as [<-|Hx].
    + unfold rel, block_op, block_dim. cbn [fst snd]. rewrite Nat.sub_diag. cbn [nth sumcfg].
      unfold upd at 1. cbn [fst]. rewrite Nat.eqb_refl. rewrite sum_mul_r. apply sum_ext. intros j Hj.
      transitivity (sumcfg es (fun js => id_op is1 js * (M i j * V p j k * layer_op true (S p) es V js ks1))).
      { apply sumcfg_ext. intros js Hjs. rewrite layer_single by assumption. cbn [site_op]. ring. }
      rewrite sumcfg_id_op by assumption. f_equal. apply layer_op_ext; [assumption|assumption|]. intros y Hy r c _ _.
      pose proof (blocks_range _ _ _ _ Hy). unfold upd. cbn [fst]. destruct (Nat.eqb_spec (fst y) p); [lia|reflexivity].
    + pose proof (blocks_range _ _ _ _ Hx) as Hb. rewrite block_dim_rel_single by lia.
      unfold upd at 1. destruct (Nat.eqb_spec p (fst x)); [lia|].
      rewrite <- (IH x M V is1 ks1 Hx His Hks). cbn [sumcfg].
      transitivity (sum d (fun j => delta i j * (V p j k * sumcfg es (fun js => block_op es (rel (S p) x) M is1 js * layer_op true (S p) es V js ks1)))).
      { apply sum_ext. intros j Hj. rewrite !sumcfg_mul_l. apply sumcfg_ext. intros js Hjs.
        rewrite layer_single by assumption. replace (block_op (d :: es) (rel p x) M (i :: is1) (j :: js)) with (delta i j * block_op es (rel (S p) x) M is1 js); [ring|].
        unfold block_op, rel. cbn [fst snd]. replace (fst x - p)%nat with (S (fst x - S p)) by lia. destruct (snd x); reflexivity. }
      rewrite sum_delta_l' by assumption. reflexivity.
Qed.
End Layers.
