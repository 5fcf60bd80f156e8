(** The sweeps of simplify_obc *)
From Coq Require Import Reals Lra Bool List Arith ZArith Lia Ring.
From Verif Require Import Scalar ScalarFacts RScal Tensor TensorFacts Spec MpsModel MpsFacts StateFacts StateFacts2 MpoSpec CanonSpec CanonModel
  TruncFacts SplitFacts CanonFacts CanonSweep CanonNorm CanonProps CanonTwo SweepModel SweepSpec SweepFacts FormModel FormSpec LFormFacts LFormValue
  SimplifySpec SimplifyModel EckartYoung SimplifyFacts SimplifyStep SimplifyPair SimplifyDouble.
Import ListNotations.
Local Open Scope K_scope.

Section Sweep.
Context {RS : RScal}.
Variable svd : tensor -> tensor * list R * tensor.
Variable flag : R.
Hypothesis Hsvd : svd_contract svd.
Variables (ws : list K) (bras : list mps) (ds : list nat).
Hypothesis Hg : good_bras ws bras ds.
Notation D2 P := (dist2 ds (combo ws bras) (amp P)).
Notation At := (At ws bras ds).

Definition last_of (d : bool) (L : nat) : nat := if d then (L - 1)%nat else 0%nat.

(** The sweeper is at site k of a chain of length L and moves in direction d. *)
Definition sw (d : bool) (L k : nat) (s : sweeper) : Prop :=
  sk s = Z.of_nat k /\ sk0 s = Z.of_nat (last_of (negb d) L) /\ skN s = Z.of_nat (last_of d L) /\ sdk s = sgn d.

Definition behind (d : bool) (k : nat) (P : mps) : Prop :=
  if d then forall j, (j < k)%nat -> left_isometry (site P j) else forall j, (k < j < length P)%nat -> right_isometry (site P j).

Lemma behind_last d P : behind d (last_of d (length P)) P -> canonical_at (last_of d (length P)) P.
Proof. intros H. destruct d; cbn in *; split; auto; intros j Hj; lia. Qed.

Lemma behind_both d k P : canonical_at k P <-> behind d k P /\ behind (negb d) k P.
Proof. unfold canonical_at. destruct d; cbn; tauto. Qed.

Definition remaining (d : bool) (L k n : nat) : Prop := if d then (k + n + 1 = L)%nat else (k = n /\ k < L)%nat.
Definition ahead (d : bool) (k j : nat) : Prop := if d then (k < j)%nat else (j <= k)%nat.

Lemma cstepped_behind d k k' P P' : moved d (length P) k k' -> cstepped ds d k k' P P' -> behind d k P -> behind d k' P'.
Proof.
  intros Hm (_ & _ & _ & Hl & Hi & Ho & _) Hb. destruct d; cbn [moved behind iso] in *.
  - destruct Hm as (-> & Hk'). intros j Hj. destruct (Nat.eq_dec j k) as [->|Hne]; [exact Hi|]. rewrite Ho by lia. apply Hb. lia.
  - subst k. intros j Hj. destruct (Nat.eq_dec j (S k')) as [->|Hne]; [exact Hi|]. rewrite Ho by lia. apply Hb. lia.
Qed.

Lemma cstepped_front d k k' P P' : moved d (length P) k k' -> cstepped ds d k k' P P' -> behind (negb d) k P -> behind (negb d) k' P'.
Proof.
  intros Hm (_ & _ & _ & Hl & Hi & Ho & _) Hb. destruct d; cbn [moved behind iso negb] in *.
  - destruct Hm as (-> & Hk'). intros j Hj. rewrite Ho by lia. apply Hb. lia.
  - subst k. intros j Hj. rewrite Ho by lia. apply Hb. lia.
Qed.

Lemma stepped_behind d k k' P P' f' : moved d (length P) k k' -> stepped ws bras ds d k k' P P' f' -> behind d k P -> behind d k' P'.
Proof. intros Hm H. apply cstepped_behind; [exact Hm|]. apply (stepped_c ws bras ds d k k' P P' f' H). Qed.

Lemma stepped_front d k k' P P' f' : moved d (length P) k k' -> stepped ws bras ds d k k' P P' f' -> behind (negb d) k P -> behind (negb d) k' P'.
Proof. intros Hm H. apply cstepped_front; [exact Hm|]. apply (stepped_c ws bras ds d k k' P P' f' H). Qed.

Lemma sw_step d L k k' s : sw d L k s -> moved d L k k' -> (k < L)%nat -> exists s', sweeper_dec s = (true, s') /\ sw d L k' s'.
Proof.
  intros (H1 & H2 & H3 & H4) Hm Hk. unfold sweeper_dec. rewrite H1, H3, H4.
  destruct (Z.eqb_spec (Z.of_nat k) (Z.of_nat (last_of d L))) as [E|E]; [destruct d; cbn in *; lia|].
  eexists. split; [reflexivity|]. unfold sw. cbn [sk sk0 skN sdk]. repeat split; auto. destruct d; cbn in *; lia.
Qed.

Lemma sw_stop d L k s : sw d L k s -> k = last_of d L -> sweeper_dec s = (false, s).
Proof. intros (H1 & H2 & H3 & H4) ->. unfold sweeper_dec. rewrite H1, H3, Z.eqb_refl. reflexivity. Qed.

Lemma sw_last d L k s : sw d L k s -> sweeper_is_last s = Nat.eqb k (last_of d L).
Proof.
  intros (H1 & H2 & H3 & H4). unfold sweeper_is_last. rewrite H1, H3.
  destruct (Nat.eqb_spec k (last_of d L)) as [->|Hn]; [apply Z.eqb_refl|apply Z.eqb_neq; lia].
Qed.

Lemma sw_flip d L k s : sw d L k s -> sw (negb d) L (last_of d L) (sweeper_flip s).
Proof. intros (H1 & H2 & H3 & H4). unfold sw, sweeper_flip. cbn [sk sk0 skN sdk]. rewrite negb_involutive. repeat split; auto. rewrite H4. destruct d; reflexivity. Qed.

(** What a whole sweep does, starting at site k. *)
Definition swept (d : bool) (k : nat) (e : R) (P : mps) (s' : sweeper) (P' : mps) (f' : lform) : Prop :=
  let E := last_of d (length P) in
  length P' = length P /\ sw d (length P) E s' /\ At E P' f' /\ canonical_at E P' /\ nz ws bras e P' /\ opt ws bras E P'.

Lemma single_sweep_ok d n : forall k P f s fuel, At k P f -> remaining d (length P) k n -> (n < fuel)%nat -> sw d (length P) k s ->
  behind d k P -> nz ws bras flag P ->
  exists s' P' f', single_sweep svd flag fuel s P f = Ok (s', P', f') /\ swept d k flag P s' P' f' /\
    (forall j, (dim (site P' j) 0 <= dim (site P j) 0)%nat) /\
    (exact_flag flag -> behind (negb d) k P -> (D2 P' <= D2 P)%R) /\
    (exact_flag flag -> overlap ws bras P <> 0 -> overlap ws bras P' <> 0).
Proof.
  induction n as [|n IH]; intros k P f s fuel HA Hr Hf Hs Hb Hn; destruct fuel as [|fuel]; try lia.
  - assert (Hk : k = last_of d (length P)) by (destruct d; cbn in *; lia).
    pose proof Hs as (S1 & S2 & S3 & S4).
    destruct (single_end_ok svd flag ws bras ds Hg d k P f s HA Hk S1 S4 Hn) as (P' & f' & E & HA' & Hl & Ho & Hd & Hn' & Hop & Hm & Hke).
    cbn [single_sweep]. rewrite E. cbn [bind]. rewrite (sw_stop d (length P) k s Hs Hk).
    exists s, P', f'. split; [reflexivity|].
    assert (Hb' : behind d k P').
    { destruct d; cbn [behind] in *; intros j Hj; rewrite Ho by lia; apply Hb; lia. }
    split; [|split; [|split; [|intros _; exact Hke]]].
    + unfold swept. rewrite <- Hk. repeat (split; [assumption|]). split; [|split; assumption].
      rewrite Hk, <- Hl. apply behind_last. rewrite Hl, <- Hk. exact Hb'.
    + intros j. rewrite Hd. lia.
    + intros _ Hb2. apply Hm. apply (behind_both d). split; assumption.
  - set (k' := if d then S k else (k - 1)%nat).
    assert (Hmv : moved d (length P) k k') by (unfold k'; destruct d; cbn in *; lia).
    assert (Hk : (k < length P)%nat) by (destruct d; cbn in *; lia).
    pose proof Hs as (S1 & S2 & S3 & S4).
    destruct (single_step_ok svd flag Hsvd ws bras ds Hg d k k' P f s HA Hmv S1 S4 Hn) as (P1 & f1 & E & Hst & Hn1 & Hbd & Hmono & Hke).
    pose proof Hst as (HA1 & Hl1 & _ & _ & Hdim1).
    destruct (sw_step d (length P) k k' s Hs Hmv Hk) as (s1 & Es1 & Hs1).
    pose proof (stepped_behind d k k' P P1 f1 Hmv Hst Hb) as Hb1.
    destruct (IH k' P1 f1 s1 fuel HA1) as (s' & P' & f' & E' & Hsw & Hdim & Hmono' & Hke'); [rewrite Hl1; unfold k'; destruct d; cbn in *; lia|lia|rewrite Hl1; exact Hs1|exact Hb1|exact Hn1|].
    cbn [single_sweep]. rewrite E. cbn [bind]. rewrite Es1, E'. exists s', P', f'. split; [reflexivity|]. split; [|split; [|split; [|intros He Hne; apply Hke'; [exact He|apply Hke; assumption]]]].
    + unfold swept in *. rewrite Hl1 in Hsw. exact Hsw.
    + intros j. eapply Nat.le_trans; [apply Hdim|]. destruct (Nat.eq_dec j (S (Nat.min k k'))) as [->|Hj]; [exact Hbd|apply Hdim1; exact Hj].
    + intros He Hb2. eapply Rle_trans; [apply Hmono'; [exact He|apply (stepped_front d k k' P P1 f1); assumption]|].
      apply Hmono; [exact He|]. apply (behind_both d). split; assumption.
Qed.

Lemma double_sweep_ok Dmax tol d n : forall k P f s fuel, At k P f -> remaining d (length P) k (S n) -> (n < fuel)%nat -> sw d (length P) k s ->
  behind d k P -> nz ws bras (eff_tol flag tol) P ->
  exists s' P' f', double_sweep svd flag Dmax tol fuel s P f = Ok (s', P', f') /\ swept d k (eff_tol flag tol) P s' P' f' /\
    (forall j, ~ ahead d k j -> (dim (site P' j) 0 <= dim (site P j) 0)%nat) /\
    ((0 < Dmax)%Z -> forall j, (0 < j < length P)%nat -> ahead d k j -> (Z.of_nat (dim (site P' j) 0) <= Dmax)%Z) /\
    (exact_tol flag tol -> (Dmax <= 0 \/ forall j, (0 < j < length P)%nat -> Z.of_nat (dim (site P j) 0) <= Dmax)%Z -> behind (negb d) k P -> (D2 P' <= D2 P)%R) /\
    (overlap ws bras P <> 0 -> overlap ws bras P' <> 0).
Proof.
  induction n as [|n IH]; intros k P f s fuel HA Hr Hf Hs Hb Hn; (destruct fuel as [|fuel]; [lia|]);
    set (k' := if d then S k else (k - 1)%nat);
    assert (Hmv : moved d (length P) k k') by (unfold k'; destruct d; cbn in *; lia);
    assert (Hk : (k < length P)%nat) by (destruct d; cbn in *; lia);
    pose proof Hs as (S1 & S2 & S3 & S4);
    destruct (double_step_ok svd flag Hsvd ws bras ds Hg Dmax tol d k k' P f s HA Hmv S1 S4 Hn) as (P1 & f1 & E & Hst & Hn1 & Hop1 & Hbd & Hmono & Hke);
    pose proof Hst as (HA1 & Hl1 & _ & _ & Hdim1);
    destruct (sw_step d (length P) k k' s Hs Hmv Hk) as (s1 & Es1 & Hs1);
    pose proof (stepped_behind d k k' P P1 f1 Hmv Hst Hb) as Hb1;
    assert (Hah : forall j, ahead d k j <-> j = S (Nat.min k k') \/ ahead d k' j) by (intros j; unfold k'; destruct d; cbn in *; lia);
    assert (Hmm : (0 < S (Nat.min k k') < length P)%nat) by (unfold k'; destruct d; cbn in *; lia);
    cbn [double_sweep]; rewrite E; cbn [bind]; rewrite Es1, (sw_last d (length P) k' s1 Hs1).
  - assert (Hk' : k' = last_of d (length P)) by (unfold k'; destruct d; cbn in *; lia). rewrite Hk', Nat.eqb_refl.
    exists s1, P1, f1. split; [reflexivity|]. split; [|split; [|split; [|split; [|exact Hke]]]].
    + unfold swept. rewrite <- Hk'. repeat (split; [assumption|]). split; [|split; assumption].
      rewrite Hk', <- Hl1. apply behind_last. rewrite Hl1, <- Hk'. exact Hb1.
    + intros j Hj. apply Hdim1. intros ->. apply Hj. apply Hah. left. reflexivity.
    + intros HD j Hj Haj. apply Hah in Haj. destruct Haj as [->|Haj]; [apply Hbd; exact HD|]. rewrite Hk' in Haj. destruct d; cbn in *; lia.
    + intros He HD Hb2. apply Hmono; [exact He| |apply (behind_both d); split; assumption].
      destruct HD as [HD|HD]; [left; exact HD|right; apply HD; exact Hmm].
  - destruct (Nat.eqb_spec k' (last_of d (length P))) as [E0|_]; [exfalso; unfold k' in E0; destruct d; cbn in *; lia|].
    destruct (IH k' P1 f1 s1 fuel HA1) as (s' & P' & f' & E' & Hsw & Hd1 & Hd2 & Hmono' & Hke'); [rewrite Hl1; unfold k'; destruct d; cbn in *; lia|lia|rewrite Hl1; exact Hs1|exact Hb1|exact Hn1|].
    exists s', P', f'. split; [exact E'|]. rewrite Hl1 in *. split; [|split; [|split; [|split; [|intros Hne; apply Hke', Hke, Hne]]]].
    + unfold swept in *. rewrite Hl1 in Hsw. exact Hsw.
    + intros j Hj. assert (Hj1 : ~ ahead d k' j) by (intros H; apply Hj; apply Hah; auto). assert (Hj2 : j <> S (Nat.min k k')) by (intros H; apply Hj; apply Hah; auto).
      eapply Nat.le_trans; [apply Hd1; exact Hj1|apply Hdim1; exact Hj2].
    + intros HD j Hj Haj. apply Hah in Haj. destruct Haj as [->|Haj]; [|apply Hd2; assumption].
      assert (Hna : ~ ahead d k' (S (Nat.min k k'))) by (unfold k'; destruct d; cbn in *; lia).
      pose proof (Hd1 _ Hna) as H1. pose proof (Hbd HD) as H2. lia.
    + intros He HD Hb2. eapply Rle_trans; [apply Hmono'; [exact He| |apply (stepped_front d k k' P P1 f1); assumption]|].
      * destruct HD as [HD|HD]; [left; exact HD|]. destruct (Z.leb_spec Dmax 0); [left; lia|right]. intros j Hj.
        destruct (Nat.eq_dec j (S (Nat.min k k'))) as [->|Hne]; [apply Hbd; lia|]. pose proof (Hdim1 j Hne). pose proof (HD j Hj). lia.
      * apply Hmono; [exact He| |apply (behind_both d); split; assumption].
        destruct HD as [HD|HD]; [left; exact HD|right; apply HD; exact Hmm].
Qed.

(** Either algorithm *)
Definition eff_of (single : bool) (tol : R) : R := if single then flag else eff_tol flag tol.
Definition small (Dmax : Z) (P : mps) : Prop := (Dmax <= 0)%Z \/ bonds_le Dmax P.

Lemma obc_sweep_ok single Dmax tol d P f s : (single = true \/ 2 <= length P)%nat -> (single = true -> Dmax = 0%Z) ->
  At (last_of (negb d) (length P)) P f -> sw d (length P) (last_of (negb d) (length P)) s ->
  nz ws bras (eff_of single tol) P ->
  exists s' P' f', obc_sweep svd flag single Dmax tol s P f = Ok (s', P', f') /\ swept d (last_of (negb d) (length P)) (eff_of single tol) P s' P' f' /\
    (single = true -> forall j, (dim (site P' j) 0 <= dim (site P j) 0)%nat) /\ ((0 < Dmax)%Z -> small Dmax P') /\
    (exact_flag (eff_of single tol) -> small Dmax P -> canonical_at (last_of (negb d) (length P)) P -> (D2 P' <= D2 P)%R) /\
    ((single = true -> exact_flag flag) -> overlap ws bras P <> 0 -> overlap ws bras P' <> 0).
Proof.
  intros HL HD HA Hs Hn. pose proof HA as (_ & _ & Hk & _). set (k := last_of (negb d) (length P)) in *.
  assert (Hb : behind d k P) by (unfold k; destruct d; cbn in *; intros j Hj; lia).
  unfold obc_sweep, eff_of in *. destruct single.
  - assert (Hr : remaining d (length P) k (length P - 1)) by (unfold k; destruct d; cbn in *; lia).
    destruct (single_sweep_ok d (length P - 1) k P f s (length P) HA Hr ltac:(lia) Hs Hb Hn) as (s' & P' & f' & E & H1 & H2 & H3 & H5).
    exists s', P', f'. split; [exact E|]. split; [exact H1|]. split; [intros _; exact H2|]. rewrite HD by reflexivity. split; [lia|]. split; [|intros He; apply H5, He; reflexivity].
    intros He _ Hc. apply H3; [exact He|]. apply (behind_both d) in Hc. apply Hc.
  - destruct HL as [HL|HL]; [discriminate|].
    assert (Hr : remaining d (length P) k (S (length P - 2))) by (unfold k; destruct d; cbn in *; lia).
    destruct (double_sweep_ok Dmax tol d (length P - 2) k P f s (length P) HA Hr ltac:(lia) Hs Hb Hn) as (s' & P' & f' & E & H1 & H2 & H3 & H4 & H5).
    exists s', P', f'. split; [exact E|]. split; [exact H1|]. split; [discriminate|]. split; [|split; [|intros _; exact H5]].
    + intros HD0. right. destruct H1 as (Hl & _). unfold bonds_le. rewrite Hl. intros j Hj. apply H3; [exact HD0|exact Hj|]. unfold k. destruct d; cbn in *; lia.
    + intros He Hsm Hc. apply H4; [exact He|exact Hsm|]. apply (behind_both d) in Hc. apply Hc.
Qed.
End Sweep.
