(** * C66: what canonical_form does to a state when it truncates *)
From Coq Require Import Reals Lra Bool List Arith ZArith Lia Ring.
From Verif Require Import Scalar ScalarFacts RealInst RScal Tensor TensorFacts Spec MpsModel MpsFacts CanonModel CanonSpec TruncFacts SplitFacts CanonFacts CanonSweep CanonNorm CanonProps SvdExist EckartYoung SimplifyModel SimplifySpec SimplifyFacts CanonError.
Import ListNotations.
Local Open Scope K_scope.

Section Projection.
Context {RS : RScal}.
Add Ring Kring : k_ring.
Variable svd : tensor -> tensor * list R * tensor.
Variable flag : R.
Hypothesis Hsvd : svd_contract svd.

Lemma amp_open1 psi is : open_mps psi -> amp psi is = chain psi is 0 0.
Proof. intros (Hne & HL). unfold amp. rewrite (linked_left_bond 1 psi 1) by assumption. cbn [sum]. ring. Qed.

(** Everything about canonical_form_at on an open state. *)
Lemma canonical_overlap psi s : open_mps psi -> (s < length psi)%nat -> okflag flag 1 psi ->
  exists psi', canonical_form_at svd flag psi (Z.of_nat s) = Ok psi' /\ open_mps psi' /\ pdims psi' = pdims psi /\
    inner (pdims psi) (amp psi') (amp psi) = rinj (frob2 (site psi' s)) /\
    inner (pdims psi) (amp psi') (amp psi') = rinj (frob2 (site psi' s)) /\
    ((0 < flag < 1)%R -> s = 0%nat -> (forall j, (S j < length psi)%nat -> left_isometry (site psi j)) -> ((1 - tau flag) ^ (length psi - 1) * frob2 (site psi (length psi - 1)) <= frob2 (site psi' s))%R) /\
    ((0 < flag < 1)%R -> s = (length psi - 1)%nat -> (forall j, (0 < j < length psi)%nat -> right_isometry (site psi j)) -> ((1 - tau flag) ^ (length psi - 1) * frob2 (site psi 0) <= frob2 (site psi' s))%R).
Proof.
  intros Ho Hs Hf. pose proof Ho as (Hne & HL).
  destruct (canonical_form_at_ok svd flag Hsvd 1 1 psi s HL ltac:(lia) Hf Hs) as (psi' & E & (S1 & S2 & S3 & S4 & S5) & HI & HR).
  assert (Hne' : psi' <> []) by (intros ->; destruct psi; [congruence|discriminate]).
  exists psi'. split; [exact E|]. split; [split; assumption|]. split; [exact S2|].
  assert (Hlen : length psi' = length psi) by (apply same_length; exact S2).
  assert (Hn' : inner (pdims psi) (amp psi') (amp psi') = rinj (frob2 (site psi' s))).
  { rewrite <- S2. apply canonical_norm; [split; assumption|lia|exact HI|rewrite Hlen; exact HR]. }
  set (n := length psi) in *.
  destruct (left_sweep_proj svd flag Hsvd 1 1 psi n (n - 1 - s) eq_refl HL ltac:(lia) Hf ltac:(lia)) as (p0 & A & R0 & C & q & Epsi & HR0 & Hq & E1 & HO1 & HW1).
  destruct (left_sweep svd flag Hsvd 1 1 psi n (n - 1 - s) eq_refl HL ltac:(lia) Hf ltac:(lia)) as (psi1 & E1' & (T1 & T2 & T3 & T4 & T5) & HI1 & _).
  rewrite E1 in E1'. apply Ok_inj' in E1'. subst psi1.
  assert (Hp0 : length p0 = s).
  { assert (Hx : n = length (p0 ++ A :: R0)) by (unfold n; rewrite Epsi; reflexivity). rewrite app_length in Hx. cbn in Hx. lia. }
  destruct (right_sweep_proj svd flag Hsvd 1 1 (p0 ++ C :: q) s T1 ltac:(lia) T5) as (L0 & A' & p & C' & q' & Epsi1 & HL0 & Hp & E2 & HO2 & HW2).
  { rewrite app_length. cbn. lia. }
  assert (EL : L0 = p0 /\ A' = C /\ q' = q).
  { assert (HF : firstn s (p0 ++ C :: q) = firstn s (L0 ++ A' :: q')) by (rewrite Epsi1; reflexivity). rewrite !firstn_app, Hp0, HL0, Nat.sub_diag in HF. cbn [firstn] in HF. rewrite !app_nil_r, <- Hp0 in HF at 1.
    rewrite firstn_all in HF. rewrite <- HL0 in HF at 1. rewrite firstn_all in HF. subst L0. apply app_inv_head in Epsi1. injection Epsi1 as -> ->. auto. }
  destruct EL as (-> & -> & ->). clear Epsi1 HL0.
  assert (Epsi' : psi' = p ++ C' :: q).
  { unfold canonical_form_at in E. cbv zeta in E. fold n in E. replace (Z.to_nat (Z.of_nat n - 1 - Z.of_nat s)) with (n - 1 - s)%nat in E by lia.
    assert (E3 : fold_left (canonicalize_site svd flag 1) (map Z.of_nat (seq 0 s)) (Ok (p0 ++ C :: q)) = Ok psi').
    { rewrite <- E1. rewrite <- E. rewrite Nat2Z.id. reflexivity. }
    pose proof (eq_trans (eq_sym E3) E2) as E4. apply Ok_inj' in E4. exact E4. }
  assert (EC : site psi' s = C') by (rewrite Epsi', <- Hp; apply site_len).
  split; [|split; [exact Hn'|]].
  - (* the overlap *)
    pose proof S1 as S1'. rewrite Epsi' in S1'. apply linked_app in S1'. destruct S1' as (m & Lp & d & c & HC' & HwC' & Hd & Hc & Lq).
    pose proof T1 as T1'. apply linked_app in T1'. destruct T1' as (m1 & Lp0 & d1 & c1 & HC & HwC & Hd1 & Hc1 & Lq1).
    pose proof HL as HL'. rewrite Epsi in HL'. apply linked_app in HL'. destruct HL' as (m2 & Lp2 & LA).
    assert (Em : m2 = m1 /\ c1 = c /\ d1 = d).
    { split; [|split].
      - clear - Lp0 Lp2. revert Lp0 Lp2. generalize 1%nat. induction p0 as [|X r IH]; intros D H1 H2; cbn in H1, H2; [congruence|].
        destruct H1 as (a & b & Ha & _ & _ & _ & H1), H2 as (a' & b' & Ha' & _ & _ & _ & H2). rewrite Ha in Ha'. injection Ha' as _ <-. apply (IH b H1 H2).
      - clear - Lq Lq1. revert Lq Lq1. destruct q as [|X r]; intros H1 H2; cbn in H1, H2; [congruence|].
        destruct H1 as (a & b & Ha & _), H2 as (a' & b' & Ha' & _). rewrite Ha in Ha'. injection Ha' as -> _ _. reflexivity.
      - assert (X : pdims (p ++ C' :: q) = pdims (p0 ++ C :: q)) by (rewrite <- Epsi', S2, T2; reflexivity).
        unfold pdims in X. rewrite !map_app in X. assert (Y : nth s (map (fun A => dim A 1) p ++ map (fun A => dim A 1) (C' :: q)) 0%nat = nth s (map (fun A => dim A 1) p0 ++ map (fun A => dim A 1) (C :: q)) 0%nat) by (rewrite X; reflexivity).
        rewrite !app_nth2 in Y by (rewrite map_length; lia). rewrite !map_length, Hp, Hp0, Nat.sub_diag in Y. cbn [map nth] in Y. unfold dim in Y. rewrite HC, HC' in Y. cbn in Y. congruence. }
    destruct Em as (-> & -> & ->).
    unfold overlap_left, dim in HO1. rewrite HC in HO1. unfold overlap_right, dim in HO2. rewrite HC' in HO2. cbn [nth] in HO1, HO2.
    assert (Epd : pdims psi = pdims p ++ d :: pdims q).
    { rewrite <- S2, Epsi'. unfold pdims. rewrite map_app. cbn [map]. unfold dim at 2. rewrite HC'. reflexivity. }
    rewrite EC. rewrite (frob2_3 C' m d c HC' HwC'). unfold inner. rewrite Epd, sumcfg_app.
    transitivity (sumcfg (pdims p) (fun is1 => sum d (fun i => sumcfg (pdims q) (fun is2 =>
      sum m (fun a => sum c (fun b => kconj (get C' [a; i; b]) * kconj (chain p is1 0 a) * (kconj (chain q is2 b 0) * sum m1 (fun x => chain p0 is1 0 x * chain (A :: R0) (i :: is2) x 0)))))))).
    + apply sumcfg_ext. intros is1 H1. cbn [sumcfg]. apply sum_ext. intros i Hi. apply sumcfg_ext. intros is2 H2.
      assert (Hl1 : length is1 = length p) by (rewrite (ScalarFacts.in_range_length _ _ H1); apply length_pdims).
      rewrite (amp_open1 psi' _ (conj Hne' S1)), (amp_open1 psi _ Ho). rewrite Epsi', Epsi.
      rewrite (sum_chain3 p C' q 1 m d c 1 is1 i is2 0 0) by (first [assumption|lia]).
      rewrite (chain_app 1 p0 m1 (A :: R0) 1) by (first [assumption|lia]).
      rewrite sum_conj, sum_mul_r. apply sum_ext. intros a Ha. rewrite sum_conj, sum_mul_r. apply sum_ext. intros b Hb. rewrite !kconj_mul. ring.
    + transitivity (sumcfg (pdims p) (fun is1 => sum d (fun i => sum m (fun a => sum c (fun b => kconj (get C' [a; i; b]) * kconj (chain p is1 0 a) * chain (p0 ++ [C]) (is1 ++ [i]) 0 b))))).
      * apply sumcfg_ext. intros is1 H1. apply sum_ext. intros i Hi. rewrite sumcfg_sum_swap. apply sum_ext. intros a Ha. rewrite sumcfg_sum_swap. apply sum_ext. intros b Hb.
        rewrite <- sumcfg_mul_l. f_equal.
        assert (Hl1 : length is1 = length p0) by (rewrite (ScalarFacts.in_range_length _ _ H1), length_pdims; lia).
        rewrite (chain_app 1 p0 m1 [C] c); [|exact Lp0|exists d, c; repeat split; auto|exact Hl1|lia].
        transitivity (sumcfg (pdims q) (fun is2 => sum m1 (fun x => chain p0 is1 0 x * (chain (A :: R0) (i :: is2) x 0 * kconj (chain q is2 b 0))))).
        { apply sumcfg_ext. intros is2 H2. rewrite sum_mul_l. apply sum_ext. intros x Hx. ring. }
        rewrite sumcfg_sum_swap. apply sum_ext. intros x Hx. rewrite <- sumcfg_mul_l. f_equal.
        rewrite (chain_last C i x b d m1 c HC Hb). rewrite <- (HO1 x i b) by assumption. apply sumcfg_ext. intros is2 H2. cbn [sum]. ring.
      * transitivity (sum d (fun i => sum m (fun a => sum c (fun b => kconj (get C' [a; i; b]) * get C' [a; i; b])))).
        -- rewrite sumcfg_sum_swap. apply sum_ext. intros i Hi. rewrite sumcfg_sum_swap. apply sum_ext. intros a Ha. rewrite sumcfg_sum_swap. apply sum_ext. intros b Hb.
           rewrite <- (HO2 a i b) at 2 by assumption. rewrite sumcfg_mul_l. apply sumcfg_ext. intros is1 H1. cbn [sum]. ring.
        -- apply sum_swap.
  - rewrite EC. split.
    + intros Hfl Hs0 Hiso. subst s. rewrite Hs0 in *. destruct p0; [|discriminate]. destruct p; [|discriminate]. cbn in E2. apply Ok_inj' in E2. injection E2 as <-.
      replace (n - 1 - 0)%nat with (n - 1)%nat in HW1 by lia. apply HW1; assumption.
    + intros Hfl Hs0 Hiso. assert (Hq0 : (n - 1 - s = 0)%nat) by lia. rewrite Hq0 in *. cbn [seq map fold_left] in E1. apply Ok_inj' in E1. rewrite <- E1 in HW2. rewrite Hs0 in HW2. apply HW2; assumption.
Qed.

(** canonical_form_at(psi, s) is the orthogonal projection of psi on a set of states, whatever is truncated: psi' and the
    difference are orthogonal, so the norm never grows and the lost weight is the squared error. *)
Theorem C66_projection psi s : open_mps psi -> (s < length psi)%nat ->
  (flag <> 0%R \/ exists is, in_range (pdims psi) is /\ amp psi is <> 0) ->
  exists psi', canonical_form_at svd flag psi (Z.of_nat s) = Ok psi' /\ open_mps psi' /\ pdims psi' = pdims psi /\
    inner (pdims psi) (amp psi') (fun is => amp psi is - amp psi' is) = 0 /\
    dist2 (pdims psi) (amp psi) (amp psi') = (weight (pdims psi) (amp psi) - weight (pdims psi) (amp psi'))%R.
Proof.
  intros Ho Hs Hz.
  assert (Hok : okflag flag 1 psi).
  { destruct Hz as [Hz|(is & Hi & Hz)]; [left; exact Hz|right]. apply (nonzero_amp 1 psi is); auto. apply (linked_left_bond 1 psi 1); apply Ho. }
  destruct (canonical_overlap psi s Ho Hs Hok) as (psi' & E & H1 & H2 & H3 & H4 & _). exists psi'. split; [exact E|]. split; [exact H1|]. split; [exact H2|]. split.
  - transitivity (inner (pdims psi) (amp psi') (amp psi) - inner (pdims psi) (amp psi') (amp psi')); [|rewrite H3, H4; ring].
    unfold inner. rewrite <- sumcfg_sub. apply sumcfg_ext. intros is _. ring.
  - apply rinj_inj. rewrite dist2_expand, rinj_sub, !rinj_weight, <- !(inner_conj (pdims psi) (amp psi') (amp psi)), H3, H4, !rinj_conj. ring.
Qed.

(** When the state is in canonical form with its centre at the other end, every truncation of canonical_form drops at
    most the tolerance of the weight. *)
Lemma bernoulli x n : (0 <= x <= 1)%R -> (1 - INR n * x <= (1 - x) ^ n)%R.
Proof.
  intros Hx. induction n as [|n IH]; [cbn; lra|]. rewrite S_INR. cbn [pow].
  apply Rle_trans with ((1 - x) * (1 - INR n * x))%R.
  - pose proof (pos_INR n). nra.
  - apply Rmult_le_compat_l; lra.
Qed.

Theorem C66_error psi sense : open_mps psi -> (0 < flag < 1)%R ->
  (if (sense <? 0)%Z then forall j, (S j < length psi)%nat -> left_isometry (site psi j) else forall j, (0 < j < length psi)%nat -> right_isometry (site psi j)) ->
  exists psi', canonical_form svd flag psi sense = Ok psi' /\
    (dist2 (pdims psi) (amp psi) (amp psi') <= INR (length psi - 1) * Rmax flag DBL_EPSILON * weight (pdims psi) (amp psi))%R.
Proof.
  intros Ho Hf Hiso. pose proof (open_length psi Ho) as Hn.
  assert (Htau : (0 <= tau flag <= 1)%R) by (unfold tau, Rmax; pose proof eps_pos; destruct (Rle_dec flag DBL_EPSILON); lra).
  assert (Hfin : forall psi' x, inner (pdims psi) (amp psi') (amp psi) = rinj (frob2 x) -> inner (pdims psi) (amp psi') (amp psi') = rinj (frob2 x) ->
    ((1 - tau flag) ^ (length psi - 1) * weight (pdims psi) (amp psi) <= frob2 x)%R ->
    (dist2 (pdims psi) (amp psi) (amp psi') <= INR (length psi - 1) * tau flag * weight (pdims psi) (amp psi))%R).
  { intros psi' x H3 H4 H5.
    assert (Ed : dist2 (pdims psi) (amp psi) (amp psi') = (weight (pdims psi) (amp psi) - frob2 x)%R).
    { apply rinj_inj. rewrite dist2_expand, rinj_sub, !rinj_weight, <- !(inner_conj (pdims psi) (amp psi') (amp psi)), H3, H4, !rinj_conj. ring. }
    rewrite Ed. pose proof (bernoulli (tau flag) (length psi - 1) Htau) as Hb.
    pose proof (Rmult_le_compat_r _ _ _ (weight_nonneg (pdims psi) (amp psi)) Hb). lra. }
  assert (Hfz : flag <> 0%R) by (intros Hfz; lra).
  unfold canonical_form. destruct (sense <? 0)%Z.
  - destruct (canonical_overlap psi 0 Ho Hn (or_introl Hfz)) as (psi' & E & H1 & H2 & H3 & H4 & H5 & _). exists psi'. split; [exact E|].
    apply (Hfin psi' _ H3 H4). specialize (H5 Hf eq_refl Hiso).
    assert (Ew : weight (pdims psi) (amp psi) = frob2 (site psi (length psi - 1))).
    { apply rinj_inj. rewrite rinj_weight. apply canonical_norm; [exact Ho|lia|intros j Hj; apply Hiso; lia|intros; lia]. }
    rewrite Ew. exact H5.
  - destruct (canonical_overlap psi (length psi - 1) Ho ltac:(lia) (or_introl Hfz)) as (psi' & E & H1 & H2 & H3 & H4 & _ & H5). exists psi'. split.
    + replace (Z.of_nat (length psi) - 1)%Z with (Z.of_nat (length psi - 1)) by lia. exact E.
    + apply (Hfin psi' _ H3 H4). specialize (H5 Hf eq_refl Hiso).
      assert (Ew : weight (pdims psi) (amp psi) = frob2 (site psi 0)).
      { apply rinj_inj. rewrite rinj_weight. apply canonical_norm; [exact Ho|lia|intros j Hj; lia|intros j Hj; apply Hiso; lia]. }
      rewrite Ew. exact H5.
Qed.

(** REFUTED: that the tolerance bounds the relative error of canonical_form for every state, even with the default
    tolerance.  Two sites: the second is diag(1, 2^-27, 2^-27), the first selects one of its rows; one of the three
    states loses at least a third of its weight. *)
Definition small : R := (/ 2 ^ 27)%R.
Definition dg (a : nat) : R := if Nat.eqb a 0 then 1%R else small.
Definition diag3 : tensor := mk [3; 3; 1]%nat (fun x => rinj (dg (nth 0 x 0%nat)) * delta (nth 0 x 0%nat) (nth 1 x 0%nat)).
Definition select (j : nat) : tensor := mk [1; 1; 3]%nat (fun x => delta (nth 2 x 0%nat) j).
Definition skew (j : nat) : mps := [select j; diag3].

Lemma skew_open j : open_mps (skew j).
Proof.
  split; [discriminate|]. exists 1%nat, 3%nat. split; [reflexivity|]. split; [apply wf_mk|]. split; [lia|]. split; [lia|].
  exists 3%nat, 1%nat. split; [reflexivity|]. split; [apply wf_mk|]. split; [lia|]. split; [lia|]. reflexivity.
Qed.

Lemma skew_amp j i : (j < 3)%nat -> (i < 3)%nat -> amp (skew j) [0; i]%nat = rinj (dg j) * delta j i.
Proof.
  intros Hj Hi. rewrite amp_open1 by apply skew_open. unfold skew. cbn [chain]. change (dim (select j) 2) with 3%nat. change (dim diag3 2) with 1%nat.
  transitivity (sum 3 (fun c => delta c j * (rinj (dg c) * delta c i))).
  - apply sum_ext. intros c Hc. unfold select at 1. rewrite get_mk by (apply in_range_3; lia). cbn [nth sum]. unfold diag3. rewrite get_mk by (apply in_range_3; lia). cbn [nth]. unfold delta at 3. cbn [Nat.eqb]. ring.
  - apply (sum_delta_l 3 j (fun c => rinj (dg c) * delta c i)). exact Hj.
Qed.

Lemma id_tail U s V : is_svd 3 3 (eye 3) U s V -> (1 <= tail_weight s 2)%R.
Proof.
  intros Hs. pose proof Hs as (Hl & Hle & HU & HV & Hp & Hdec & HoU & HoV & Hrec).
  assert (Hk : forall k, (k < length s)%nat -> (nth k s 0 * nth k s 0 = 1)%R).
  { intros k Hk.
    assert (Hv : forall i, (i < 3)%nat -> kconj (get V [k; i]) = get U [i; k] * rinj (nth k s 0%R)).
    { intros i Hi. transitivity (sum 3 (fun j => get (eye 3) [i; j] * kconj (get V [k; j]))).
      - transitivity (sum 3 (fun j => delta i j * kconj (get V [k; j]))).
        + symmetry. apply (sum_delta_l' 3 i (fun j => kconj (get V [k; j]))). exact Hi.
        + apply sum_ext. intros j Hj. rewrite get_eye by assumption. reflexivity.
      - transitivity (sum (length s) (fun c => get U [i; c] * rinj (nth c s 0%R) * sum 3 (fun j => get V [c; j] * kconj (get V [k; j])))).
        + transitivity (sum 3 (fun j => sum (length s) (fun c => get U [i; c] * rinj (nth c s 0%R) * (get V [c; j] * kconj (get V [k; j]))))).
          * apply sum_ext. intros j Hj. rewrite Hrec by assumption. rewrite sum_mul_r. apply sum_ext. intros c Hc. ring.
          * rewrite sum_swap. apply sum_ext. intros c Hc. rewrite sum_mul_l. reflexivity.
        + transitivity (sum (length s) (fun c => get U [i; c] * rinj (nth c s 0%R) * delta c k)).
          * apply sum_ext. intros c Hc. rewrite HoV by assumption. reflexivity.
          * apply (sum_delta_r (length s) k (fun c => get U [i; c] * rinj (nth c s 0%R))). exact Hk. }
    apply rinj_inj. rewrite rinj_mul, rinj_1.
    transitivity (sum 3 (fun j => get V [k; j] * kconj (get V [k; j]))); [|rewrite HoV by assumption; unfold delta; rewrite Nat.eqb_refl; reflexivity].
    transitivity (rinj (nth k s 0%R) * rinj (nth k s 0%R) * sum 3 (fun j => kconj (get U [j; k]) * get U [j; k])).
    - rewrite HoU by assumption. unfold delta. rewrite Nat.eqb_refl. ring.
    - rewrite sum_mul_l. apply sum_ext. intros j Hj. rewrite <- (kconj_inv (get V [k; j])) at 1. rewrite (Hv j Hj). rewrite kconj_mul, rinj_conj. ring. }
  assert (Ht : tail_weight s 0 = 3%R).
  { apply rinj_inj. rewrite <- (svd_total _ _ _ _ _ _ Hs). transitivity (1 + 1 + 1); [|rewrite <- rinj_1, <- !rinj_add; f_equal; lra].
    cbn [sum]. rewrite !get_eye by lia. unfold delta. cbn [Nat.eqb]. rewrite !kconj_1, !kconj_0. ring. }
  assert (H3 : (length s = 3)%nat).
  { pose proof (kept_weight 3 3 _ _ _ _ (length s) Hs (le_n _)) as Hkw. rewrite (tail_weight_past s (length s) (le_n _)), Ht in Hkw.
    assert (Hc : forall l, (l <= length s)%nat -> rsum l (fun c => (nth c s 0 * nth c s 0)%R) = INR l).
    { intros l. induction l as [|l IH]; intros Hll; [reflexivity|]. cbn [rsum]. rewrite IH, Hk by lia. rewrite S_INR. reflexivity. }
    rewrite Hc in Hkw by lia. apply INR_eq. rewrite Hkw. cbn. lra. }
  rewrite (tail_weight_S s 2) by lia. rewrite Hk by lia. pose proof (tail_weight_nonneg s 3). lra.
Qed.
(** Concrete case of the hypotheses of C66_error: the state sum_a dg(a) |a a> on two sites of dimension three, in
    canonical form with its centre on the last site. *)
Definition schmidt3 : mps := [mk [1; 3; 3]%nat (fun x => delta (nth 1 x 0%nat) (nth 2 x 0%nat)); diag3].
Example C66_case : open_mps schmidt3 /\ (forall j, (S j < length schmidt3)%nat -> left_isometry (site schmidt3 j)) /\
  amp schmidt3 [1; 1]%nat = rinj small.
Proof.
  assert (Ho : open_mps schmidt3).
  { split; [discriminate|]. exists 3%nat, 3%nat. split; [reflexivity|]. split; [apply wf_mk|]. split; [lia|]. split; [lia|].
    exists 3%nat, 1%nat. split; [reflexivity|]. split; [apply wf_mk|]. split; [lia|]. split; [lia|]. reflexivity. }
  split; [exact Ho|]. split.
  - intros j Hj. cbn in Hj. assert (j = 0)%nat by lia. subst j. change (left_isometry (mk [1; 3; 3]%nat (fun x => delta (nth 1 x 0%nat) (nth 2 x 0%nat)))).
    intros b b' Hb Hb'. change (b < 3)%nat in Hb. change (b' < 3)%nat in Hb'.
    change (sum 1 (fun a => sum 3 (fun i => kconj (get (mk [1; 3; 3]%nat (fun x => delta (nth 1 x 0%nat) (nth 2 x 0%nat))) [a; i; b]) * get (mk [1; 3; 3]%nat (fun x => delta (nth 1 x 0%nat) (nth 2 x 0%nat))) [a; i; b'])) = delta b b').
    cbn [sum].
    rewrite !get_mk by (apply in_range_3; lia). cbn [nth]. destruct b as [|[|[|b]]]; [..|lia]; destruct b' as [|[|[|b']]]; try lia; unfold delta; cbn [Nat.eqb]; rewrite ?kconj_1, ?kconj_0; ring.
  - rewrite amp_open1 by exact Ho. unfold schmidt3. cbn [chain]. change (dim (mk [1; 3; 3]%nat (fun x => delta (nth 1 x 0%nat) (nth 2 x 0%nat))) 2) with 3%nat. change (dim diag3 2) with 1%nat. cbn [sum]. unfold diag3. rewrite !get_mk by (apply in_range_3; lia). cbn [nth].
    change (dg 1) with small. unfold delta. cbn [Nat.eqb]. ring.
Qed.
End Projection.

Section Default.
Context {RS : RScal}.
Add Ring Kring2 : k_ring.
Variable svd : tensor -> tensor * list R * tensor.
Hypothesis Hsvd : svd_contract svd.

Lemma small_sq : (small * small = / 2 ^ 54)%R.
Proof. unfold small. rewrite <- Rinv_mult, <- pow_add. reflexivity. Qed.

Lemma diag3_get x y : (x < 3)%nat -> (y < 3)%nat -> get (reshape diag3 [3; 3 * 1]%nat) [x; y] = rinj (dg x) * delta x y.
Proof.
  intros Hx Hy. replace y with (y + 3 * 0)%nat at 1 by lia. rewrite (get_join_right diag3 3 3 1) by (try reflexivity; try apply wf_mk; lia).
  unfold diag3. rewrite get_mk by (apply in_range_3; lia). reflexivity.
Qed.

Lemma mweight_ext m n (f g : nat -> nat -> K) : (forall i j, (i < m)%nat -> (j < n)%nat -> f i j = g i j) -> mweight m n f = mweight m n g.
Proof. intros E. unfold mweight. apply rsum_ext. intros i Hi. apply rsum_ext. intros j Hj. rewrite E by assumption. reflexivity. Qed.

(** With the default tolerance one of the three columns is dropped. *)
Lemma skew_split : exists U V l, split svd DBL_EPSILON diag3 (-1) true = Ok (U, V) /\ dims U = [l; 3; 1]%nat /\ wf U /\ is_matrix V 3 l /\ (l <= 2)%nat.
Proof.
  destruct (split_left_ok svd DBL_EPSILON Hsvd diag3 3 3 1 true eq_refl (wf_mk _ _) ltac:(lia) ltac:(lia) ltac:(lia)) as (Us & sv & Vs & E1 & Hs & U & V & E2 & (HdU & HwU & HV & Hla & _) & _).
  cbv zeta in *. set (l := where_to_truncate DBL_EPSILON sv (split_tol true) (Z.of_nat (Nat.min 3 (3 * 1)))) in *.
  exists U, V, l. split; [exact E2|]. split; [exact HdU|]. split; [exact HwU|]. split; [exact HV|].
  destruct (le_lt_dec l 2) as [H|H]; [exact H|exfalso].
  assert (Ht : eff_tol DBL_EPSILON (split_tol true) = DBL_EPSILON) by apply eff_tol_split.
  destruct eps_pos as (He & He1).
  pose proof (wtt_minimal DBL_EPSILON sv (split_tol true) (Z.of_nat (Nat.min 3 (3 * 1))) 1) as Hm. rewrite Ht in Hm.
  specialize (Hm He He1 ltac:(fold l; lia)). rewrite Rmax_left in Hm by lra.
  pose proof (mweight_svd _ _ _ _ _ _ Hs) as H0.
  pose proof (eckart_young svd Hsvd _ _ _ _ _ _ 1 (fun i _ => delta i 0) (fun _ j => delta 0 j) Hs ltac:(lia) ltac:(lia)) as H1.
  assert (M0 : mweight 3 (3 * 1) (fun i j => get (reshape diag3 [3; 3 * 1]%nat) [i; j]) = (1 + 2 * / 2 ^ 54)%R).
  { rewrite (mweight_ext _ _ _ (fun i j => rinj (dg i * (if Nat.eqb i j then 1 else 0)))).
    - rewrite <- small_sq. cbv [mweight rsum Nat.mul Nat.add]. rewrite !kmod2_rinj. unfold dg. cbn [Nat.eqb]. ring.
    - intros i j Hi Hj. rewrite diag3_get by lia. rewrite rinj_mul. unfold delta. destruct (Nat.eqb i j); rewrite ?rinj_0, ?rinj_1; reflexivity. }
  assert (M1 : mweight 3 (3 * 1) (fun i j => get (reshape diag3 [3; 3 * 1]%nat) [i; j] - sum 1 (fun c => delta i 0 * delta 0 j)) = (2 * / 2 ^ 54)%R).
  { rewrite (mweight_ext _ _ _ (fun i j => rinj (dg i * (if Nat.eqb i j then 1 else 0) - (if Nat.eqb i 0 then 1 else 0) * (if Nat.eqb 0 j then 1 else 0)))).
    - rewrite <- small_sq. cbv [mweight rsum Nat.mul Nat.add]. rewrite !kmod2_rinj. unfold dg. cbn [Nat.eqb]. ring.
    - intros i j Hi Hj. rewrite diag3_get by lia. cbn [sum]. rewrite rinj_sub, !rinj_mul. unfold delta. destruct (Nat.eqb i j), (Nat.eqb i 0), (Nat.eqb 0 j); rewrite ?rinj_0, ?rinj_1; ring. }
  cbv beta in H1. rewrite M1 in H1. rewrite M0 in H0. rewrite <- H0 in Hm. unfold DBL_EPSILON in Hm.
  assert (X : (2 * / 2 ^ 54 < / 2 ^ 52)%R) by lra.
  assert (Y : (0 < / 2 ^ 52)%R) by lra. assert (Y' : (0 < / 2 ^ 54)%R) by lra.
  assert (X2 : (/ 2 ^ 52 * (1 + 2 * / 2 ^ 54) >= / 2 ^ 52)%R).
  { pose proof (Rmult_lt_0_compat _ _ Y Y'). lra. }
  lra.
Qed.

Lemma dg_pos j : (0 < dg j)%R.
Proof. unfold dg, small. destruct (Nat.eqb j 0); lra. Qed.

Theorem C66_default_refuted : exists j psi', (j < 3)%nat /\ open_mps (skew j) /\
  canonical_form svd DBL_EPSILON (skew j) (-1) = Ok psi' /\
  (0 < weight (pdims (skew j)) (amp (skew j)))%R /\
  (weight (pdims (skew j)) (amp (skew j)) <= 3 * dist2 (pdims (skew j)) (amp (skew j)) (amp psi'))%R.
Proof.
  destruct skew_split as (U & V & l & E & HdU & HwU & HV & Hl).
  set (phi := fun j => [fold (select j) (rank (select j) - 1) V 0; U]).
  assert (Ephi : forall j, canonical_form svd DBL_EPSILON (skew j) (-1) = Ok (phi j)).
  { intros j. unfold canonical_form. cbn [Z.ltb Z.compare]. unfold canonical_form_at. cbn [skew length Z.of_nat]. 
    change (Z.to_nat (Z.pos (Pos.of_succ_nat 1) - 1 - 0)) with 1%nat. cbn [seq map fold_left Z.to_nat].
    unfold canonicalize_site. cbn [bind]. unfold set_canonical.
    cbn [Z.ltb Z.compare]. change (Z.to_nat (Z.pos (Pos.of_succ_nat 1) - 1 - Z.of_nat 0)) with 1%nat. cbn [Nat.eqb]. unfold skew at 1. change (site_at [select j; diag3] (Z.pos (Pos.of_succ_nat 1) - 1 - Z.of_nat 0)) with (Ok diag3). cbn [bind].
    change ((0 <=? Z.pos (Pos.of_succ_nat 1) - 1 - Z.of_nat 0)%Z && (Z.pos (Pos.of_succ_nat 1) - 1 - Z.of_nat 0 <? Z.of_nat (length (skew j)))%Z) with true. cbn iota. rewrite E. cbn [bind]. reflexivity. }
  assert (Aphi : forall j i, (j < 3)%nat -> (i < 3)%nat -> amp (phi j) [0; i]%nat = sum l (fun c => get V [j; c] * get U [c; i; 0%nat])).
  { intros j i Hj Hi. unfold amp, phi. cbn [left_bond]. cbn [chain].
    pose proof (dims_fold_BV V (select j) l 3 1 1 HV eq_refl) as Hd. unfold dim. rewrite Hd, HdU. cbn [nth sum].
    transitivity (sum l (fun c => get (fold (select j) (rank (select j) - 1) V 0) [0; 0; c]%nat * get U [c; i; 0%nat])).
    - rewrite (Radd_0_l k_ring). apply sum_ext. intros c Hc. unfold delta. cbn [Nat.eqb]. ring.
    - apply sum_ext. intros c Hc. f_equal. rewrite (get_fold_BV V (select j) l 3 1 1) by (first [assumption|reflexivity|lia]).
      transitivity (sum 3 (fun z => delta z j * get V [z; c])).
      + apply sum_ext. intros z Hz. unfold select. rewrite get_mk by (apply in_range_3; lia). reflexivity.
      + apply (sum_delta_l 3 j (fun z => get V [z; c])). exact Hj. }
  assert (Hw : forall j f, weight (pdims (skew j)) f = rsum 3 (fun i => kmod2 (f [0; i]%nat))).
  { intros j f. apply rinj_inj. rewrite rinj_weight, rinj_rsum. unfold inner. change (pdims (skew j)) with [1; 3]%nat. cbn [sumcfg]. cbn [sum]. rewrite !kmod2_spec. ring. }
  assert (Hdist : forall j, (j < 3)%nat -> dist2 (pdims (skew j)) (amp (skew j)) (amp (phi j)) = rsum 3 (fun i => kmod2 (rinj (dg j) * delta j i - sum l (fun c => get V [j; c] * get U [c; i; 0%nat])))).
  { intros j Hj. unfold dist2. rewrite Hw. apply rsum_ext. intros i Hi. rewrite skew_amp, Aphi by assumption. reflexivity. }
  assert (Hwt : forall j, (j < 3)%nat -> weight (pdims (skew j)) (amp (skew j)) = (dg j * dg j)%R).
  { intros j Hj. rewrite Hw. transitivity (rsum 3 (fun i => dg j * dg j * (if Nat.eqb j i then 1 else 0))%R).
    - apply rsum_ext. intros i Hi. rewrite skew_amp by assumption. rewrite kmod2_mul, kmod2_rinj. unfold delta. destruct (Nat.eqb j i); [rewrite <- rinj_1, kmod2_rinj|rewrite kmod2_0]; ring.
    - destruct j as [|[|[|j]]]; [..|lia]; cbn [rsum Nat.eqb]; ring. }
  assert (Hsum : (1 <= rsum 3 (fun j => / dg j * / dg j * dist2 (pdims (skew j)) (amp (skew j)) (amp (phi j))))%R).
  { assert (HI : is_matrix (eye 3) 3 3) by (split; [reflexivity|apply wf_mk]).
    pose proof (Hsvd 3 3 (eye 3) HI ltac:(lia) ltac:(lia))%nat as Hs. destruct (svd (eye 3)) as [[Ue se] Ve].
    apply Rle_trans with (1 := id_tail _ _ _ Hs).
    apply Rle_trans with (1 := eckart_young svd Hsvd _ _ _ _ _ _ 2 (fun j c => if Nat.ltb c l then rinj (/ dg j) * get V [j; c] else 0) (fun c i => get U [c; i; 0%nat]) Hs ltac:(lia) ltac:(lia)).
    apply Req_le. unfold mweight. apply rsum_ext. intros j Hj. rewrite Hdist by assumption. rewrite rsum_mul_l. apply rsum_ext. intros i Hi.
    rewrite <- kmod2_rinj, <- kmod2_mul. f_equal. rewrite get_eye by assumption.
    assert (Ed : rinj (/ dg j) * rinj (dg j) = 1) by (rewrite <- rinj_mul, Rinv_l, rinj_1 by (pose proof (dg_pos j); lra); reflexivity).
    assert (Es : sum 2 (fun c => (if Nat.ltb c l then rinj (/ dg j) * get V [j; c] else 0) * get U [c; i; 0%nat]) = rinj (/ dg j) * sum l (fun c => get V [j; c] * get U [c; i; 0%nat])).
    { destruct l as [|[|[|l]]]; [..|lia]; cbn [sum Nat.ltb Nat.leb]; ring. }
    rewrite Es. transitivity (rinj (/ dg j) * rinj (dg j) * delta j i - rinj (/ dg j) * sum l (fun c => get V [j; c] * get U [c; i; 0%nat])); [rewrite Ed|]; ring. }
  assert (Hcase : forall j, (j < 3)%nat -> (weight (pdims (skew j)) (amp (skew j)) <= 3 * dist2 (pdims (skew j)) (amp (skew j)) (amp (phi j)))%R \/ (/ dg j * / dg j * dist2 (pdims (skew j)) (amp (skew j)) (amp (phi j)) < / 3)%R).
  { intros j Hj. destruct (Rle_lt_dec (weight (pdims (skew j)) (amp (skew j))) (3 * dist2 (pdims (skew j)) (amp (skew j)) (amp (phi j)))) as [H|H]; [left; exact H|right].
    rewrite Hwt in H by assumption. pose proof (dg_pos j) as Hp. pose proof (Rinv_0_lt_compat _ Hp) as Hi.
    apply (Rmult_lt_compat_l (/ dg j * / dg j)) in H; [|apply Rmult_lt_0_compat; assumption].
    replace (/ dg j * / dg j * (dg j * dg j))%R with 1%R in H by (field; lra). lra. }
  assert (Hall : forall j, (j < 3)%nat -> (weight (pdims (skew j)) (amp (skew j)) <= 3 * dist2 (pdims (skew j)) (amp (skew j)) (amp (phi j)))%R ->
    exists j psi', (j < 3)%nat /\ open_mps (skew j) /\ canonical_form svd DBL_EPSILON (skew j) (-1) = Ok psi' /\ (0 < weight (pdims (skew j)) (amp (skew j)))%R /\
    (weight (pdims (skew j)) (amp (skew j)) <= 3 * dist2 (pdims (skew j)) (amp (skew j)) (amp psi'))%R).
  { intros j Hj H. exists j, (phi j). split; [exact Hj|]. split; [apply skew_open|]. split; [apply Ephi|]. split; [|exact H].
    rewrite Hwt by assumption. pose proof (dg_pos j). apply Rmult_lt_0_compat; assumption. }
  destruct (Hcase 0%nat ltac:(lia)) as [H0|H0]; [apply (Hall 0%nat); [lia|exact H0]|].
  destruct (Hcase 1%nat ltac:(lia)) as [H1|H1]; [apply (Hall 1%nat); [lia|exact H1]|].
  destruct (Hcase 2%nat ltac:(lia)) as [H2|H2]; [apply (Hall 2%nat); [lia|exact H2]|].
  exfalso. cbn [rsum] in Hsum. lra.
Qed.
End Default.
