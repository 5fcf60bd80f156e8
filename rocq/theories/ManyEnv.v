(** The environments used by mps::simplify *)
From Coq Require Import Reals Lra Bool List Arith ZArith Lia Ring.
From Verif Require Import Scalar ScalarFacts RScal Tensor TensorFacts Spec MpsModel MpsFacts StateFacts StateFacts2 EnvFacts ExpectedFacts MpoSpec CanonSpec CanonModel
  TruncFacts SplitFacts CanonFacts CanonSweep CanonNorm CanonProps CanonTwo SweepModel SweepSpec SweepFacts FormModel FormSpec LFormFacts LFormValue
  SimplifySpec SimplifyModel EckartYoung SimplifyFacts SimplifyStep SimplifyPair SimplifyDouble SimplifySweep SimplifyLoop SimplifyManyModel ManyFacts.
Import ListNotations.
Local Open Scope K_scope.

Section Env.
Context {RS : RScal}.
Add Ring Kring : k_ring.
Variables (ws : list K) (bras : list mps) (ds : list nat).
Hypothesis Hg : good_bras ws bras ds.
Notation bra := (bra bras).
Notation nb := (length bras).

(** Row r of the environments M holds sites below r (left) or from r-1 on (right). *)
Definition lenvs (k : nat) (P : mps) (M : nat -> nat -> tensor) : Prop :=
  forall i r, (i < nb)%nat -> (r <= k)%nat -> lenv (firstn r P) (firstn r (bra i)) (M r i).
Definition renvs (k : nat) (P : mps) (M : nat -> nat -> tensor) : Prop :=
  forall i r, (i < nb)%nat -> (k <= r <= length P)%nat -> renv (skipn r P) (skipn r (bra i)) (M (S r) i).
Definition envs (k : nat) (P : mps) (M : nat -> nat -> tensor) : Prop := lenvs k P M /\ renvs (S k) P M.

Definition fits (P : mps) : Prop := open_mps P /\ pdims P = ds.

Lemma fits_len P i : fits P -> (i < nb)%nat -> length (bra i) = length P.
Proof. intros (_ & H) Hi. rewrite (bra_len ws bras ds Hg i Hi), <- H. apply length_pdims. Qed.

Lemma fits_dim P i k : fits P -> (i < nb)%nat -> (k < length P)%nat -> dim (site P k) 1 = dim (site (bra i) k) 1.
Proof.
  intros Hf Hi Hk. rewrite <- !nth_pdims; [|rewrite (fits_len P i Hf Hi); exact Hk|exact Hk].
  destruct Hf as (_ & ->). destruct (bra_ok ws bras ds Hg i Hi) as (_ & _ & ->). reflexivity.
Qed.

Lemma lenvs_ext k P P' M M' : length P' = length P -> (forall j, (j < k)%nat -> site P' j = site P j) -> (forall r i, (r <= k)%nat -> (i < nb)%nat -> M' r i = M r i) ->
  lenvs k P M -> lenvs k P' M'.
Proof.
  intros Hl Hs HM H i r Hi Hr. rewrite HM by assumption. replace (firstn r P') with (firstn r P); [apply H; assumption|].
  apply (firstn_ext empty); [lia|]. intros j Hj. symmetry. apply Hs. lia.
Qed.
Lemma renvs_ext k P P' M M' : length P' = length P -> (forall j, (k <= j)%nat -> site P' j = site P j) -> (forall r i, (k < r)%nat -> (i < nb)%nat -> M' r i = M r i) ->
  renvs k P M -> renvs k P' M'.
Proof.
  intros Hl Hs HM H i r Hi Hr. rewrite HM by (try assumption; lia). replace (skipn r P') with (skipn r P); [apply H; [exact Hi|lia]|].
  apply (skipn_ext empty); [lia|]. intros j Hj. symmetry. apply Hs. lia.
Qed.

Lemma lenvs_nil P M : (forall i, (i < nb)%nat -> is_empty (M 0%nat i) = true) -> lenvs 0 P M.
Proof. intros H i r Hi Hr. assert (r = 0%nat) as -> by lia. apply lenv_nil. apply H. exact Hi. Qed.

Lemma renvs_nil P M : fits P -> (forall i, (i < nb)%nat -> is_empty (M (S (length P)) i) = true) -> renvs (length P) P M.
Proof.
  intros Hf H i r Hi Hr. assert (r = length P) as -> by lia. rewrite !skipn_all2; [apply renv_nil, H, Hi|rewrite (fits_len P i Hf Hi); lia|lia].
Qed.

(** The effect of update_matrices: row k+1 changes. *)
Definition updated (d : bool) (k : nat) (Pk : tensor) (M M' : nat -> nat -> tensor) : Prop :=
  forall r i, (i < nb)%nat -> M' r i =
    if Nat.eqb r (S k) then prop_matrix (M (if d then k else S (S k)) i) (sgn d) Pk (site (bra i) k) None else M r i.

Lemma lenvs_step k P M M' : fits P -> (k < length P)%nat -> lenvs k P M -> updated true k (site P k) M M' -> lenvs (S k) P M'.
Proof.
  intros Hf Hk H HM i r Hi Hr. rewrite HM by exact Hi. destruct (Nat.eqb_spec r (S k)) as [->|Hn]; [|apply H; [exact Hi|lia]].
  pose proof (fits_len P i Hf Hi) as Hl. rewrite (firstn_S_site k P), (firstn_S_site k (bra i)) by lia.
  destruct (linked_firstn 1 P 1 (S k) (proj2 (proj1 Hf))) as (ra & Ra). destruct (bra_ok ws bras ds Hg i Hi) as (Hbl & _ & _).
  destruct (linked_firstn 1 (bra i) 1 (S k) Hbl) as (rb & Rb). rewrite firstn_S_site in Ra by lia. rewrite firstn_S_site in Rb by lia.
  apply (lenv_step _ _ _ _ _ ra rb); try assumption; [apply H; [exact Hi|lia]|apply fits_dim; assumption].
Qed.

Lemma renvs_step k P M M' : fits P -> (k < length P)%nat -> renvs (S k) P M -> updated false k (site P k) M M' -> renvs k P M'.
Proof.
  intros Hf Hk H HM i r Hi Hr. rewrite HM by exact Hi. destruct (Nat.eqb_spec (S r) (S k)) as [E|Hn]; [|apply H; [exact Hi|lia]].
  injection E as ->.
  pose proof (fits_len P i Hf Hi) as Hl. rewrite (skipn_site k P), (skipn_site k (bra i)) by lia.
  destruct (linked_skipn 1 P 1 k (proj2 (proj1 Hf))) as (la & La & La0). destruct (bra_ok ws bras ds Hg i Hi) as (Hbl & _ & _).
  destruct (linked_skipn 1 (bra i) 1 k Hbl) as (lb & Lb & Lb0). rewrite skipn_site in La by lia. rewrite skipn_site in Lb by lia.
  apply (renv_step _ _ _ _ _ la lb); try assumption; [apply H; [exact Hi|lia]|apply La0; lia|apply Lb0; lia|apply fits_dim; assumption].
Qed.

Lemma envs_step d k k' P P' M M' : fits P' -> length P' = length P -> moved d (length P) k k' -> (k < length P)%nat ->
  (forall j, j <> k -> j <> k' -> site P' j = site P j) ->
  envs k P M -> updated d k (site P' k) M M' -> envs k' P' M'.
Proof.
  intros Hf Hl Hm Hk Hs (H1 & H2) HM. destruct d; cbn [moved] in Hm.
  - destruct Hm as (-> & Hk'). split.
    + apply (lenvs_step k P' M M' Hf ltac:(lia)); [|exact HM]. apply (lenvs_ext k P P' M M Hl); auto. intros j Hj. apply Hs; lia.
    + apply (renvs_ext (S (S k)) P P' M M' Hl); [intros j Hj; apply Hs; lia| |intros i r Hi Hr; apply H2; [exact Hi|lia]].
      intros r i Hr Hi. rewrite HM by exact Hi. destruct (Nat.eqb_spec r (S k)); [lia|reflexivity].
  - subst k. split.
    + apply (lenvs_ext k' P P' M M' Hl); [intros j Hj; apply Hs; lia| |intros i r Hi Hr; apply H1; [exact Hi|lia]].
      intros r i Hr Hi. rewrite HM by exact Hi. destruct (Nat.eqb_spec r (S (S k'))); [lia|reflexivity].
    + apply (renvs_step (S k') P' M M' Hf ltac:(lia)); [|exact HM]. apply (renvs_ext (S (S k')) P P' M M Hl); auto. intros j Hj. apply Hs; lia.
Qed.

Lemma full_left P M i : fits P -> (i < nb)%nat -> lenv P (bra i) M ->
  elem0 (prop_close M) = inner ds (amp P) (amp (bra i)) /\ elem0 M = inner ds (amp P) (amp (bra i)).
Proof.
  intros ((Hn & HL) & Hd) Hi (Hpd & Hemp & ra & rb & L1 & L2 & HE). destruct (bra_ok ws bras ds Hg i Hi) as (Hbl & Hbn & Hbd).
  assert (ra = 1%nat) as -> by (eapply linked_right_unique; eauto). assert (rb = 1%nat) as -> by (eapply linked_right_unique; eauto).
  rewrite seg_nonempty in HE by (destruct (is_empty M) eqn:?; [exfalso; apply Hbn; apply Hemp; reflexivity|reflexivity]).
  assert (E0 : TM P (bra i) (nones (length (bra i))) 0 0 0 0 = inner ds (amp P) (amp (bra i))) by (rewrite TM_inner by assumption; rewrite Hbd; reflexivity).
  split.
  - rewrite (prop_close_value 1 1 P (bra i) (nones (length (bra i))) M HE), !sum_1. exact E0.
  - rewrite <- E0. destruct HE as (HwM & HdM & _ & _ & _ & _ & HgM). rewrite <- HgM by lia. unfold elem0, get. rewrite HdM. reflexivity.
Qed.

Lemma full_right P M i : fits P -> (i < nb)%nat -> renv P (bra i) M ->
  elem0 (prop_close M) = inner ds (amp P) (amp (bra i)) /\ elem0 M = inner ds (amp P) (amp (bra i)).
Proof.
  intros ((Hn & HL) & Hd) Hi (Hpd & Hemp & ra & rb & R1 & R2 & L1 & L2 & HE). destruct (bra_ok ws bras ds Hg i Hi) as (Hbl & Hbn & Hbd).
  assert (ra = 1%nat) as -> by (apply (linked_left_unique ra 1 P 1 Hn L1 HL)). assert (rb = 1%nat) as -> by (apply (linked_left_unique rb 1 (bra i) 1 Hbn L2 Hbl)).
  rewrite seg_nonempty in HE by (destruct (is_empty M) eqn:?; [exfalso; apply Hbn; apply Hemp; reflexivity|reflexivity]).
  assert (E0 : TM P (bra i) (nones (length (bra i))) 0 0 0 0 = inner ds (amp P) (amp (bra i))) by (rewrite TM_inner by assumption; rewrite Hbd; reflexivity).
  split.
  - rewrite (prop_close_value 1 1 P (bra i) (nones (length (bra i))) M HE), !sum_1. exact E0.
  - rewrite <- E0. destruct HE as (HwM & HdM & _ & _ & _ & _ & HgM). rewrite <- HgM by lia. unfold elem0, get. rewrite HdM. reflexivity.
Qed.

(** The last update of a sweep closes the scalar products. *)
Lemma envs_end d P P' M M' : let k := last_of d (length P) in
  fits P' -> length P' = length P -> (k < length P)%nat ->
  (forall j, j <> k -> site P' j = site P j) ->
  envs k P M -> updated d k (site P' k) M M' ->
  envs k P' M' /\ forall i, (i < nb)%nat ->
    elem0 (prop_close (M' (S k) i)) = inner ds (amp P') (amp (bra i)) /\ elem0 (M' (S k) i) = inner ds (amp P') (amp (bra i)).
Proof.
  intros k Hf Hl Hk Hs (H1 & H2) HM.
  assert (HE : envs k P' M').
  { split.
    - apply (lenvs_ext k P P' M M' Hl); [intros j Hj; apply Hs; lia| |exact H1]. intros r i Hr Hi. rewrite HM by exact Hi. destruct (Nat.eqb_spec r (S k)); [lia|reflexivity].
    - apply (renvs_ext (S k) P P' M M' Hl); [intros j Hj; apply Hs; lia| |exact H2]. intros r i Hr Hi. rewrite HM by exact Hi. destruct (Nat.eqb_spec r (S k)); [lia|reflexivity]. }
  split; [exact HE|]. intros i Hi. pose proof (fits_len P' i Hf Hi) as Hlb. destruct d; cbn [last_of] in k; subst k.
  - assert (HL : lenvs (S (length P - 1)) P' M').
    { apply (lenvs_step (length P - 1) P' M M' Hf ltac:(lia)); [|exact HM]. apply (lenvs_ext _ P P' M M Hl); auto. intros j Hj. apply Hs; lia. }
    apply full_left; try assumption. replace (S (length P - 1)) with (length P') in * by lia.
    specialize (HL i (length P') Hi (le_n _)). rewrite firstn_all, <- Hlb, firstn_all, Hlb in HL. exact HL.
  - assert (HR : renvs 0 P' M').
    { apply (renvs_step 0 P' M M' Hf ltac:(lia)); [|exact HM]. apply (renvs_ext 1 P P' M M Hl); auto. intros j Hj. apply Hs; lia. }
    apply full_right; try assumption. apply (HR i 0%nat Hi). lia.
Qed.

(** The first environments *)
Lemma init_right (st : Type) (rows : st -> nat -> nat -> tensor) (upd : st -> nat -> st) (good : st -> Prop) P :
  (forall s k, good s -> (k < length P)%nat -> updated false k (site P k) (rows s) (rows (upd s k)) /\ good (upd s k)) -> fits P ->
  forall j s, (j <= length P)%nat -> good s -> (forall i, (i < nb)%nat -> is_empty (rows s 0%nat i) = true) -> renvs j P (rows s) ->
  let s' := fold_left upd (rev (seq 0 j)) s in renvs 0 P (rows s') /\ good s' /\ (forall i, (i < nb)%nat -> is_empty (rows s' 0%nat i) = true).
Proof.
  intros Hupd Hf. induction j as [|j IH]; intros s Hj Hgd H0 HR; [cbn; auto|]. rewrite seq_S, rev_app_distr. cbn [rev app fold_left Nat.add].
  destruct (Hupd s j Hgd ltac:(lia)) as (Hu & Hgd'). apply IH; [lia|exact Hgd'| |].
  - intros i Hi. rewrite Hu by exact Hi. cbn [Nat.eqb]. apply H0. exact Hi.
  - apply (renvs_step j P (rows s) _ Hf); [lia|exact HR|exact Hu].
Qed.

Lemma init_left (st : Type) (rows : st -> nat -> nat -> tensor) (upd : st -> nat -> st) (good : st -> Prop) P :
  (forall s k, good s -> (k < length P)%nat -> updated true k (site P k) (rows s) (rows (upd s k)) /\ good (upd s k)) -> fits P ->
  forall j s, (j <= length P)%nat -> good s -> (forall i, (i < nb)%nat -> is_empty (rows s (S (length P)) i) = true) -> lenvs (length P - j) P (rows s) ->
  let s' := fold_left upd (seq (length P - j) j) s in lenvs (length P) P (rows s') /\ good s' /\ (forall i, (i < nb)%nat -> is_empty (rows s' (S (length P)) i) = true).
Proof.
  intros Hupd Hf. induction j as [|j IH]; intros s Hj Hgd H0 HR; [cbn; rewrite Nat.sub_0_r in HR; auto|]. cbn [seq fold_left].
  destruct (Hupd s (length P - S j)%nat Hgd ltac:(lia)) as (Hu & Hgd'). replace (S (length P - S j)) with (length P - j)%nat by lia. apply IH; [lia|exact Hgd'| |].
  - intros i Hi. rewrite Hu by exact Hi. destruct (Nat.eqb_spec (S (length P)) (S (length P - S j))); [lia|]. apply H0. exact Hi.
  - replace (length P - j)%nat with (S (length P - S j)) by lia. apply (lenvs_step (length P - S j) P (rows s) _ Hf); [lia|exact HR|exact Hu].
Qed.
End Env.
