(** simplify_obc with two sites at a time: the last pair is the best one with a bond of at most Dmax *)
From Coq Require Import Reals Lra Bool List Arith ZArith Lia Ring.
From Verif Require Import Scalar ScalarFacts RScal Tensor TensorFacts Spec MpsModel MpsFacts StateFacts StateFacts2 MpoSpec CanonSpec CanonModel
  TruncFacts SplitFacts CanonFacts CanonSweep CanonNorm CanonProps CanonTwo SweepModel SweepSpec SweepFacts FormModel FormSpec LFormFacts LFormValue
  SimplifySpec SimplifyModel EckartYoung SimplifyFacts SimplifyStep SimplifyPair SimplifyDouble SimplifySweep SimplifyLoop MinLocal PairBest ManyPair.
Import ListNotations.
Local Open Scope K_scope.

Section Best.
Context {RS : RScal}.
Variable svd : tensor -> tensor * list R * tensor.
Variable flag : R.
Hypothesis Hsvd : svd_contract svd.
Variables (ws : list K) (bras : list mps) (ds : list nat).
Hypothesis Hg : good_bras ws bras ds.
Variables (Dmax : Z) (tol : R).
Hypothesis He : exact_tol flag tol.
Notation At := (At ws bras ds).
Notation pbest := (pbest ws bras ds Dmax).

Lemma double_step_best d k k' P f s P' f' : At k P f -> moved d (length P) k k' -> sk s = Z.of_nat k -> sdk s = sgn d ->
  nz ws bras (eff_tol flag tol) P -> double_step svd flag Dmax tol s P f = Ok (P', f') -> canonical_at k' P' -> pbest (Nat.min k k') P'.
Proof.
  intros HA Hm Hs Hd Hn E Hc. destruct (at_repr2 ws bras ds Hg d k k' P f HA Hm) as (v & a & i & m & j & c & Ev & Hr).
  pose proof HA as (Ho & Hpd & Hk & Hh).
  assert (Hr2 : repr2 ws bras (Nat.min k k') P v) by (exists a, i, m, j, c; exact Hr).
  unfold double_step, sweeper_site, sweeper_sense in E. rewrite Hd, Ev in E. cbn [bind] in E. rewrite Hs in E.
  destruct (set_canonical_2_sites svd flag P (tconj v) (Z.of_nat k) (sgn d) Dmax tol false) as [P1|] eqn:E1; [|discriminate E]. cbn [bind] in E.
  destruct (site_at P1 (Z.of_nat k)); [|discriminate E]. cbn [bind] in E. apply Ok_inj' in E. injection E as -> _.
  intros A B b Hb HD HwA HwB HdA HdB.
  exact (core_best svd flag Hsvd ws bras ds Hg Dmax tol d k k' P v P' Ho Hpd Hk Hm Hr2 Hn E1 Hc He A B b Hb HD HwA HwB HdA HdB).
Qed.

Lemma double_sweep_best d n : forall k P f s fuel s' P' f', At k P f -> remaining d (length P) k (S n) -> (n < fuel)%nat -> sw d (length P) k s ->
  behind d k P -> nz ws bras (eff_tol flag tol) P ->
  double_sweep svd flag Dmax tol fuel s P f = Ok (s', P', f') -> pbest (if d then (length P - 2)%nat else 0%nat) P'.
Proof.
  induction n as [|n IH]; intros k P f s fuel s' P' f' HA Hr Hf Hs Hb Hn; (destruct fuel as [|fuel]; [lia|]);
    set (k' := if d then S k else (k - 1)%nat);
    assert (Hmv : moved d (length P) k k') by (unfold k'; destruct d; cbn in *; lia);
    assert (Hk : (k < length P)%nat) by (destruct d; cbn in *; lia);
    pose proof Hs as (S1 & S2 & S3 & S4);
    destruct (double_step_ok svd flag Hsvd ws bras ds Hg Dmax tol d k k' P f s HA Hmv S1 S4 Hn) as (P1 & f1 & E & Hst & Hn1 & Hop1 & _);
    pose proof Hst as (HA1 & Hl1 & _ & _ & Hdim1);
    destruct (sw_step d (length P) k k' s Hs Hmv Hk) as (s1 & Es1 & Hs1);
    pose proof (stepped_behind ws bras ds d k k' P P1 f1 Hmv Hst Hb) as Hb1;
    cbn [double_sweep]; rewrite E; cbn [bind]; rewrite Es1, (sw_last d (length P) k' s1 Hs1).
  - assert (Hk' : k' = last_of d (length P)) by (unfold k'; destruct d; cbn in *; lia). rewrite Hk', Nat.eqb_refl.
    intros Ef. apply Ok_inj' in Ef. injection Ef as _ <- _.
    replace (if d then (length P - 2)%nat else 0%nat) with (Nat.min k k') by (unfold k'; destruct d; cbn in *; lia).
    apply (double_step_best d k k' P f s P1 f1); try assumption.
    rewrite Hk', <- Hl1. apply behind_last. rewrite Hl1, <- Hk'. exact Hb1.
  - destruct (Nat.eqb_spec k' (last_of d (length P))) as [E0|_]; [exfalso; unfold k' in E0; destruct d; cbn in *; lia|].
    intros Ef. rewrite <- Hl1. apply (IH k' P1 f1 s1 fuel s' P' f'); try assumption; [rewrite Hl1; unfold k'; destruct d; cbn in *; lia|lia|rewrite Hl1; exact Hs1].
Qed.

Lemma obc_loop_best tolerance n : W ws bras ds <> 0%R ->
  forall d P f s err np s' P' err' n', (2 <= length P)%nat ->
  At (last_of (negb d) (length P)) P f -> sw d (length P) (last_of (negb d) (length P)) s -> nz ws bras (eff_tol flag tol) P ->
  obc_loop svd flag false Dmax tol tolerance (W ws bras ds) (S n) s P f err np = Ok (s', P', err', n') ->
  exists kk, (kk = 0 \/ kk = length P - 2)%nat /\ pbest kk P'.
Proof.
  intros HW. induction n as [|n IH]; intros d P f s err np s' P' err' n' HL HA Hs Hn;
    destruct (obc_sweep_ok svd flag Hsvd ws bras ds Hg false Dmax tol d P f s (or_intror HL) ltac:(discriminate) HA Hs Hn) as (s1 & P1 & f1 & E & Hsw & _);
    destruct Hsw as (Hl1 & Hs1 & HA1 & Hc1 & Hn1 & Ho1);
    pose proof HA1 as (Hop1 & Hpd1 & Hk1 & _);
    assert (Hbest : pbest (if d then (length P - 2)%nat else 0%nat) P1);
    [ apply (double_sweep_best d (length P - 2) (last_of (negb d) (length P)) P f s (length P) s1 P1 f1); try assumption; [destruct d; cbn in *; lia|lia|destruct d; cbn in *; intros j Hj; lia]
    | | apply (double_sweep_best d (length P - 2) (last_of (negb d) (length P)) P f s (length P) s1 P1 f1); try assumption; [destruct d; cbn in *; lia|lia|destruct d; cbn in *; intros j Hj; lia] | ];
    pose proof (sw_flip d (length P) _ s1 Hs1) as Hfl;
    rewrite obc_loop_S, E; cbn [bind];
    replace (sweeper_site s1) with (Z.of_nat (last_of d (length P))) by (symmetry; apply Hs1);
    rewrite site_at_nat by lia; cbn [bind];
    (destruct (Req_EM_T (W ws bras ds) 0) as [E0|_]; [contradiction|]); intros Ef.
  - exists (if d then (length P - 2)%nat else 0%nat). split; [destruct d; auto|].
    destruct (obc_stop _ _ _); apply Ok_inj' in Ef; injection Ef as _ <- _ _; exact Hbest.
  - destruct (obc_stop _ _ _).
    + exists (if d then (length P - 2)%nat else 0%nat). split; [destruct d; auto|]. apply Ok_inj' in Ef; injection Ef as _ <- _ _; exact Hbest.
    + apply (IH (negb d) P1 f1) in Ef; rewrite ?negb_involutive, ?Hl1 in *; assumption.
Qed.

Lemma simplify_obc_best algorithm tolerance P sense sweeps P' s' err n :
  (Dmax =? 0)%Z && algorithm = false -> open_mps P -> pdims P = ds -> sweeps <> 0%nat -> W ws bras ds <> 0%R -> (2 <= length P)%nat -> nz ws bras (eff_tol flag tol) P ->
  simplify_obc svd flag algorithm tolerance P ws bras sense sweeps false Dmax tol = Ok (P', s', err, n) ->
  exists kk, (kk = 0 \/ kk = length P - 2)%nat /\ pbest kk P'.
Proof.
  intros Hsg Ho Hd Hsw HW HL Hn. set (start := sweep_end (length P) sense).
  set (d := (sense <? 0)%Z).
  assert (Hst : start = last_of (negb d) (length P)) by (unfold start, sweep_end, d; destruct (sense <? 0)%Z; reflexivity).
  unfold simplify_obc. destruct (Nat.eqb_spec sweeps 0) as [|_]; [contradiction|]. rewrite Hsg.
  assert (Ens : exists s, new_sweeper (Z.of_nat (length P)) (- sense) = Ok s /\ sw d (length P) start s).
  { unfold new_sweeper. destruct (Z.ltb_spec 0 (Z.of_nat (length P))); [|lia]. unfold sw, start, sweep_end, d, last_of.
    destruct (Z.ltb_spec 0 (- sense)), (Z.ltb_spec sense 0); try lia; eexists; (split; [reflexivity|]); cbn [sk sk0 skN sdk negb sgn]; lia. }
  destruct Ens as (s & Es & Hs). rewrite Es. cbn [bind]. replace (sweeper_site s) with (Z.of_nat start) by (symmetry; apply Hs).
  assert (Hstart : (start < length P)%nat) by (rewrite Hst; unfold last_of; destruct (negb d); lia).
  destruct (lform_new ws bras P (Z.of_nat start)) as [f|] eqn:Ef; [|discriminate].
  cbn [bind]. pose proof (lfh_new ws bras ds P start f Ho Hd Ef) as Hh.
  destruct (history_linv ws bras ds Hg f _ _ Hh) as (((Hw & Hb & _) & _) & _). rewrite (lf_norm_value ws bras ds Hg f Hw Hb). cbn [bind].
  rewrite (norm_combo ws bras ds). fold (W ws bras ds). pose proof (weight_nonneg ds (combo ws bras)) as HW0. fold (W ws bras ds) in HW0.
  rewrite kabs_rinj, sqrt_sqrt by exact HW0.
  destruct sweeps as [|sn]; [congruence|].
  rewrite Hst in Hs, Hh, Hstart.
  destruct (obc_loop svd flag false Dmax tol tolerance (W ws bras ds) (S sn) s P f 1 0) as [[[[s1 P1] e1] n1]|] eqn:E; [|discriminate].
  cbn [bind]. intros H. apply Ok_inj' in H. injection H as <- _ _ _.
  apply (obc_loop_best tolerance sn HW d P f s 1%R 0%R s1 P1 e1 n1 HL); try assumption. repeat split; auto; apply Ho.
Qed.
End Best.
