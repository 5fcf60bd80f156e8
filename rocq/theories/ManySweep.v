(** Sweeps of mps::simplify over several states *)
From Coq Require Import Reals Lra Bool List Arith ZArith Lia Ring.
From Verif Require Import Scalar ScalarFacts RScal Tensor TensorFacts Spec MpsModel MpsFacts StateFacts StateFacts2 EnvFacts ExpectedFacts MpoSpec CanonSpec CanonModel
  TruncFacts SplitFacts CanonFacts CanonSweep CanonNorm CanonProps CanonTwo SweepModel SweepSpec SweepFacts FormModel FormSpec LFormFacts LFormValue
  SimplifySpec SimplifyModel EckartYoung SimplifyFacts SimplifyStep SimplifyPair SimplifyDouble SimplifySweep SimplifyLoop SimplifyManyModel ManyFacts ManyEnv.
Import ListNotations.
Local Open Scope K_scope.

Section Sweep.
Context {RS : RScal}.
Add Ring Kring : k_ring.
Variable svd : tensor -> tensor * list R * tensor.
Variable flag : R.
Hypothesis Hsvd : svd_contract svd.
Variables (ws : list K) (bras : list mps) (ds : list nat).
Hypothesis Hg : good_bras ws bras ds.
Notation D2 P := (dist2 ds (combo ws bras) (amp P)).
Notation bra := (bra bras).
Notation nb := (length bras).
Notation fits := (fits ds).
Notation envs := (envs bras).

(** The sites visited from k on *)
Definition path (d : bool) (k n : nat) : list nat := if d then seq k (S n) else rev (seq 0 (S n)).

Lemma path_0 d k : remaining d (S k) k 0 \/ True -> path d k 0 = [if d then k else 0%nat].
Proof. intros _. destruct d; reflexivity. Qed.

Lemma path_S d L k n : remaining d L k (S n) -> path d k (S n) = k :: path d (if d then S k else (k - 1)%nat) n.
Proof.
  intros H. destruct d; cbn [path remaining] in *; [reflexivity|]. destruct H as (-> & _). rewrite seq_S, rev_app_distr. cbn [rev app Nat.add]. reflexivity.
Qed.

(** What a sweep in direction d leaves *)
Definition mswept (d : bool) (P P' : mps) (M' : nat -> nat -> tensor) : Prop :=
  let E := last_of d (length P) in
  fits P' /\ length P' = length P /\ canonical_at E P' /\ opt ws bras E P' /\ envs E P' M' /\
  forall i, (i < nb)%nat -> elem0 (prop_close (M' (S E) i)) = inner ds (amp P') (amp (bra i)) /\ elem0 (M' (S E) i) = inner ds (amp P') (amp (bra i)).

(** the local tensor *)
Definition local1 (M : nat -> nat -> tensor) (k : nat) : tensor :=
  projector_sum ws bras (fun i => next_projector (M k i) (M (k + 2)%nat i) (site (nth i bras []) k)).

Lemma local1_ok k P M : fits P -> (k < length P)%nat -> envs k P M ->
  let T := local1 M k in wf T /\ dims T = dims (site P k) /\ repr1 ws bras k P (tconj T).
Proof.
  intros (Ho & Hd) Hk (H1 & H2) T.
  assert (Ht : forall i, (i < nb)%nat -> let t := next_projector (M k i) (M (k + 2)%nat i) (site (nth i bras []) k) in
    wf t /\ dims t = dims (site P k) /\ forall X, wf X -> dims X = dims (site P k) ->
    inner ds (amp (replace_nth k X P)) (amp (bra i)) = sumcfg (dims X) (fun x => kconj (get X x) * get t x)).
  { intros i Hi. apply (site_term ws bras ds Hg k P i); auto. replace (k + 2)%nat with (S (S k)) by lia. apply H2; [exact Hi|lia]. }
  destruct (projector_sum_value ws nb (fun i => next_projector (M k i) (M (k + 2)%nat i) (site (nth i bras []) k)) (dims (site P k))) as (T1 & T2 & T3).
  - apply (bras_pos ws bras ds Hg).
  - intros i Hi. destruct (Ht i Hi) as (E1 & E2 & _). auto.
  - split; [exact T1|]. split; [exact T2|].
    apply (combine1 ws bras ds k P T (fun i => next_projector (M k i) (M (k + 2)%nat i) (site (nth i bras []) k)) Ho Hd Hk T3).
    intros i Hi. apply (Ht i Hi).
Qed.

(** ** The rows of MPSManySimplifier *)
Lemma many_L_ok : many_L bras = length ds.
Proof. unfold many_L. apply (bra_len ws bras ds Hg 0). apply (bras_pos ws bras ds Hg). Qed.

Lemma matrix_update A k Pk d : (S k < length A)%nat ->
  updated bras d k Pk (matrix A) (matrix (update_matrices bras A k Pk (sgn d))) /\ length (update_matrices bras A k Pk (sgn d)) = length A.
Proof.
  intros Hk. split; [|apply length_replace_nth]. intros r i Hi. unfold matrix at 1. unfold update_matrices.
  replace (k + 1)%nat with (S k) by lia. destruct (Nat.eqb_spec r (S k)) as [->|Hn].
  - rewrite nth_replace_nth_eq by exact Hk. rewrite nth_map_seq by exact Hi.
    destruct d; cbn [sgn Z.ltb Z.compare]; [reflexivity|]. replace (k + 2)%nat with (S (S k)) by lia. reflexivity.
  - rewrite nth_replace_nth_neq by exact Hn. reflexivity.
Qed.

Definition rows_ok (A : list (list tensor)) : Prop := length A = (length ds + 2)%nat.

(** ** The one-site algorithm *)
Lemma many_sweep_ok d n : forall k P A t0, fits P -> remaining d (length P) k n -> rows_ok A -> envs k P (matrix A) -> behind d k P -> overlap ws bras P <> 0 ->
  exists P' A', fold_left (many_step svd flag ws bras (sgn d)) (path d k n) (Ok (P, A, t0)) = Ok (P', A', site P' (last_of d (length P))) /\
    rows_ok A' /\ mswept d P P' (matrix A') /\ overlap ws bras P' <> 0 /\
    (forall j, (dim (site P' j) 0 <= dim (site P j) 0)%nat) /\
    (behind (negb d) k P -> (D2 P' <= D2 P)%R).
Proof.
  induction n as [|n IH]; intros k P A t0 Hf Hr HA HE Hb Hn.
  - assert (Hk : k = last_of d (length P)) by (destruct d; cbn in *; lia).
    assert (Hkl : (k < length P)%nat) by (destruct d; cbn in *; lia).
    destruct (local1_ok k P (matrix A) Hf Hkl HE) as (T1 & T2 & T3). set (T := local1 (matrix A) k) in *.
    pose proof Hf as (Ho & Hd).
    destruct (center_ok ws bras ds Hg k P (tconj T) Ho Hd Hkl (wf_tconj _ T1) T2 T3) as (O1 & D1 & Hop & Hnz & Hmono).
    rewrite tconj_tconj in *. set (P1 := replace_nth k T P) in *.
    assert (Hlen1 : length P1 = length P) by apply length_replace_nth.
    assert (Ep : path d k 0 = [k]) by (destruct d; cbn in *; [reflexivity|]; f_equal; lia). rewrite Ep. cbn [fold_left]. unfold many_step at 1. cbn [bind].
    change (next_projector_at ws bras A k) with T.
    rewrite (single_core_end svd flag false d k P T) by assumption. cbn [bind]. fold P1. rewrite site_at_nat by lia. cbn [bind].
    exists P1, (update_matrices bras A k (site P1 k) (sgn d)). rewrite <- Hk. split; [reflexivity|].
    assert (Hlk : length P = length ds) by (rewrite <- Hd; symmetry; apply length_pdims).
    destruct (matrix_update A k (site P1 k) d) as (U1 & U2); [unfold rows_ok in HA; lia|].
    split; [unfold rows_ok in *; congruence|].
    assert (Hs : forall j, j <> k -> site P1 j = site P j) by (intros j Hj; apply site_replace_neq; exact Hj).
    split; [|split; [apply Hnz; exact Hn|split]].
    + destruct (envs_end ws bras ds Hg d P P1 (matrix A) (matrix (update_matrices bras A k (site P1 k) (sgn d)))) as (E1 & E2); try rewrite <- Hk; try assumption; [split; assumption|].
      unfold mswept. rewrite <- Hk in *. split; [split; assumption|]. split; [exact Hlen1|]. split; [|split; [exact Hop|split; [exact E1|exact E2]]].
      rewrite Hk, <- Hlen1. apply behind_last. rewrite Hlen1, <- Hk. destruct d; cbn [behind] in *; intros j Hj; rewrite Hs by lia; apply Hb; lia.
    + intros j. destruct (Nat.eq_dec j k) as [->|Hj]; [|rewrite Hs by exact Hj; lia]. unfold P1. rewrite site_replace_eq by exact Hkl. unfold dim. rewrite T2. lia.
    + intros Hb2. apply Hmono. apply (behind_both d). split; assumption.
  - set (k' := if d then S k else (k - 1)%nat).
    assert (Hmv : moved d (length P) k k') by (unfold k'; destruct d; cbn in *; lia).
    assert (Hkl : (k < length P)%nat) by (destruct d; cbn in *; lia).
    destruct (local1_ok k P (matrix A) Hf Hkl HE) as (T1 & T2 & T3). set (T := local1 (matrix A) k) in *.
    pose proof Hf as (Ho & Hd).
    destruct (single_core svd flag Hsvd ws bras ds Hg false d k k' P (tconj T) Ho Hd Hkl (wf_tconj _ T1) T2 T3 Hmv (or_intror Hn)) as (P1 & E & Hst & _ & Hbd & Hmono & Hke).
    rewrite tconj_tconj in E. assert (Hex : exact flag false) by (left; reflexivity).
    pose proof Hst as (O1 & D1 & Hk1 & Hl1 & _ & Hoth & Hdim1).
    rewrite (path_S d (length P) k n Hr). fold k'. cbn [fold_left]. unfold many_step at 2. cbn [bind]. change (next_projector_at ws bras A k) with T. rewrite E. cbn [bind].
    rewrite site_at_nat by lia. cbn [bind].
    assert (Hlk : length P = length ds) by (rewrite <- Hd; symmetry; apply length_pdims).
    destruct (matrix_update A k (site P1 k) d) as (U1 & U2); [unfold rows_ok in HA; lia|].
    assert (Hf1 : fits P1) by (split; assumption).
    pose proof (envs_step ws bras ds Hg d k k' P P1 (matrix A) _ Hf1 Hl1 Hmv Hkl Hoth HE U1) as HE1.
    pose proof (cstepped_behind ds d k k' P P1 Hmv Hst Hb) as Hb1.
    destruct (IH k' P1 (update_matrices bras A k (site P1 k) (sgn d)) (site P1 k) Hf1) as (P' & A' & E' & HA' & Hsw & Hn' & Hdim & Hm');
      [rewrite Hl1; unfold k'; destruct d; cbn in *; lia|unfold rows_ok in *; congruence|exact HE1|exact Hb1|apply Hke; [exact Hex|exact Hn]|].
    exists P', A'. rewrite <- Hl1. split; [exact E'|]. split; [exact HA'|]. split; [unfold mswept in *; rewrite Hl1 in *; exact Hsw|]. split; [exact Hn'|]. split.
    + intros j. eapply Nat.le_trans; [apply Hdim|]. destruct (Nat.eq_dec j (S (Nat.min k k'))) as [->|Hj]; [exact Hbd|apply Hdim1; exact Hj].
    + intros Hb2. eapply Rle_trans; [apply Hm'; apply (cstepped_front ds d k k' P P1); assumption|]. apply Hmono; [exact Hex|]. apply (behind_both d). split; assumption.
Qed.
End Sweep.
