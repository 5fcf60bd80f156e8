(** * C67, C68: simplify and fidelity of matrix product operators *)
From Coq Require Import Reals Lra Bool List Arith ZArith Lia Ring.
From Verif Require Import Scalar ScalarFacts RealInst RScal Tensor TensorFacts Spec MpsModel MpsFacts MpoSpec MpoModel MpoFacts CanonModel CanonSpec TruncFacts SplitFacts CanonFacts CanonSweep CanonNorm CanonProps
  SimplifySpec SimplifyFacts ExpectedFacts Properties_Mpo Properties_Canon CanonError Properties_Canon2 SvdExist MpoSimplModel.
Import ListNotations.
Local Open Scope K_scope.

Section Properties.
Context {RS : RScal}.
Add Ring Kring : k_ring.
Variable svd : tensor -> tensor * list R * tensor.
Variable flag : R.
Hypothesis Hsvd : svd_contract svd.

(** The Hilbert-Schmidt weight tr(A^+ A) of an operator given by its elements. *)
Definition opweight (ds es : list nat) (A : list nat -> list nat -> K) : R := kre (hs_inner ds es A A).

(** The pair of configurations as one configuration of the joint index. *)
Definition fuse (ds is js : list nat) : list nat := map (fun p => (fst (fst p) + snd p * snd (fst p))%nat) (combine (combine is js) ds).
Definition fused_dims (O : mpo) : list nat := map (fun p => (fst p * snd p)%nat) (combine (odims O) (idims O)).

Lemma fuse_range ds es is js : in_range ds is -> in_range es js -> length ds = length es ->
  in_range (map (fun p => (fst p * snd p)%nat) (combine ds es)) (fuse ds is js).
Proof.
  revert es is js. induction ds as [|d ds IH]; intros [|e es] is js Hi Hj Hl; cbn in Hl; try discriminate.
  - apply in_range_nil_inv in Hi, Hj. subst. constructor.
  - apply in_range_cons_inv in Hi. destruct Hi as (i & is' & -> & Hi & His). apply in_range_cons_inv in Hj. destruct Hj as (j & js' & -> & Hj & Hjs).
    unfold fuse. cbn [combine map fst snd]. constructor; [nia|]. apply IH; [assumption|assumption|lia].
Qed.

Lemma sum_nonzero n f : sum n f <> 0 -> exists i, (i < n)%nat /\ f i <> 0.
Proof.
  induction n as [|n IH]; cbn [sum]; intros H; [congruence|]. destruct (keqb_spec (f n) 0) as [E|E].
  - rewrite E in H. destruct IH as (i & Hi & Hf); [intros E'; apply H; rewrite E'; ring|]. exists i. split; [lia|exact Hf].
  - exists n. split; [lia|exact E].
Qed.

Lemma regroup_ok O : forall psi l r l' r', mlinked l' O r' -> linked l psi r -> pdims psi = fused_dims O ->
  mlinked l (regroup_all O psi) r /\ odims (regroup_all O psi) = odims O /\ idims (regroup_all O psi) = idims O /\ mpo_to_mps (regroup_all O psi) = psi.
Proof.
  induction O as [|P O IH]; intros [|A psi] l r l' r' HO HL Hp; cbn in Hp; try discriminate.
  - cbn in *. auto.
  - destruct HO as (d & e & c & HP & HwP & Hd0 & He0 & Hc0 & HO). destruct HL as (x & y & HA & HwA & Hx & Hy & HL).
    injection Hp as Hp Hp'. destruct (IH psi y r c r' HO HL Hp') as (I1 & I2 & I3 & I4).
    unfold dim in Hp. rewrite HA, HP in Hp. cbn [nth] in Hp.
    cbn [regroup_all mlinked odims idims mpo_to_mps map]. unfold regroup, dim. rewrite HA, HP. cbn [nth reshape dims data].
    split; [|split; [|split]].
    + exists d, e, y. split; [reflexivity|]. split; [|auto]. apply wf_reshape; [exact HwA|rewrite HA, Hp; cbn; ring].
    + f_equal. exact I2.
    + f_equal. exact I3.
    + f_equal; [|exact I4]. unfold reshape. cbn [data]. rewrite <- Hp, <- HA. destruct A; reflexivity.
Qed.

Lemma nonzero_fused O : wf_mpo O ->
  (flag <> 0%R \/ exists is js, in_range (odims O) is /\ in_range (idims O) js /\ opelem O is js <> 0) ->
  flag <> 0%R \/ exists is, in_range (pdims (mpo_to_mps O)) is /\ amp (mpo_to_mps O) is <> 0.
Proof.
  intros HO [H|(is & js & Hi & Hj & H)]; [left; exact H|right]. destruct (C30_mpo_to_mps O HO) as (_ & H2 & H3).
  exists (fuse (odims O) is js). split; [rewrite H2; apply fuse_range; [assumption..|rewrite length_odims, length_idims; reflexivity]|].
  unfold fuse. rewrite H3 by assumption. exact H.
Qed.

(** Everything about canonical_form(mpo_to_mps(O), sense). *)
Lemma fused_form O sense : wf_mpo O ->
  (flag <> 0%R \/ exists is js, in_range (odims O) is /\ in_range (idims O) js /\ opelem O is js <> 0) ->
  exists psi, canonical_form svd flag (mpo_to_mps O) sense = Ok psi /\ wf_mps psi /\ (open_mpo O -> open_mps psi) /\ pdims psi = fused_dims O /\
    (forall j, (dim (site psi j) 0 <= dim (site O j) 0)%nat) /\
    ((flag = 0%R \/ (1 <= flag)%R) -> forall is, in_range (fused_dims O) is -> amp psi is = amp (mpo_to_mps O) is).
Proof.
  intros HO Hz. destruct (C30_mpo_to_mps O HO) as (H1 & H2 & H3).
  assert (Hn : (0 < length (mpo_to_mps O))%nat) by (unfold mpo_to_mps; rewrite map_length; destruct HO as (Hne & _); destruct O; [congruence|cbn; lia]).
  destruct (C14_canonical_form svd flag Hsvd (mpo_to_mps O) (if (sense <? 0)%Z then 0 else length (mpo_to_mps O) - 1) H1 ltac:(destruct (sense <? 0)%Z; lia) (nonzero_fused O HO Hz)) as (psi & E & W1 & W2 & W3 & W4 & _ & _ & W7).
  exists psi. split; [|split; [exact W1|split; [|split; [rewrite W3; exact H2|split]]]].
  - unfold canonical_form. rewrite <- E. f_equal. destruct (sense <? 0)%Z; lia.
  - intros (Hne & HL). apply W2. split; [destruct O; [congruence|discriminate]|apply to_mps_linked; exact HL].
  - intros j. specialize (W4 j). revert W4. unfold site, mpo_to_mps.
    destruct (le_lt_dec (length O) j) as [Hj|Hj].
    + rewrite (nth_overflow (map _ O)) by (rewrite map_length; exact Hj). rewrite (nth_overflow O) by exact Hj. auto.
    + rewrite (nth_indep (map (fun m => reshape m [dim m 0; dim m 1 * dim m 2; dim m 3]%nat) O) empty (reshape empty [dim empty 0; dim empty 1 * dim empty 2; dim empty 3]%nat)) by (rewrite map_length; exact Hj).
      rewrite (map_nth (fun m => reshape m [dim m 0; dim m 1 * dim m 2; dim m 3]%nat)). auto.
  - intros Hf is Hi. apply W7; [exact Hf|rewrite H2; exact Hi].
Qed.

(** C67. simplify(O, sense) never enlarges a bond, keeps the shape and the boundary conditions of the operator and, when
    nothing but exact zeros is truncated, all its elements. *)
Theorem C67_simplify O sense : wf_mpo O ->
  (flag <> 0%R \/ exists is js, in_range (odims O) is /\ in_range (idims O) js /\ opelem O is js <> 0) ->
  exists O', mpo_simplify svd flag O sense = Ok O' /\ wf_mpo O' /\ (open_mpo O -> open_mpo O') /\ odims O' = odims O /\ idims O' = idims O /\
    (forall j, (dim (site O' j) 0 <= dim (site O j) 0)%nat) /\
    ((flag = 0%R \/ (1 <= flag)%R) -> forall is js, in_range (odims O) is -> in_range (idims O) js -> opelem O' is js = opelem O is js).
Proof.
  intros HO Hz. destruct (fused_form O sense HO Hz) as (psi & E & W1 & W2 & W3 & W4 & W7).
  pose proof HO as (Hne & D & HD & HL). pose proof W1 as (Hne' & D' & HD' & HL').
  destruct (regroup_ok O psi D' D' D D HL HL' W3) as (R1 & R2 & R3 & R4).
  assert (HneR : regroup_all O psi <> []) by (intros E0; rewrite E0 in R4; cbn in R4; congruence).
  assert (HwR : wf_mpo (regroup_all O psi)) by (split; [exact HneR|exists D'; auto]).
  exists (regroup_all O psi). split; [unfold mpo_simplify; rewrite E; reflexivity|]. split; [exact HwR|].
  split; [|split; [exact R2|split; [exact R3|split]]].
  - intros Ho. split; [exact HneR|]. destruct (W2 Ho) as (_ & HL1). apply (regroup_ok O psi 1 1 D D HL HL1 W3).
  - intros j. apply Nat.le_trans with (2 := W4 j). clear. revert psi j. induction O as [|P O IH]; intros [|A psi] j; cbn [regroup_all]; try (destruct j; cbn; lia).
    destruct j as [|j]; [cbn; lia|]. apply (IH psi j).
  - intros Hf is js Hi Hj. destruct (C30_mpo_to_mps O HO) as (_ & _ & A3). destruct (C30_mpo_to_mps _ HwR) as (_ & _ & B3).
    rewrite <- A3 by assumption. rewrite <- B3 by (rewrite ?R2, ?R3; assumption). rewrite R4, R2. apply W7; [exact Hf|].
    apply fuse_range; [assumption..|rewrite length_odims, length_idims; reflexivity].
Qed.

Lemma hs_fused O f g : wf_mpo O -> hs_inner (odims O) (idims O) (fun is js => f (fuse (odims O) is js)) (fun is js => g (fuse (odims O) is js)) = inner (fused_dims O) f g.
Proof.
  intros HO. unfold hs_inner, inner, fused_dims. rewrite sumcfg_merge by (rewrite length_odims, length_idims; reflexivity). reflexivity.
Qed.

Lemma hs_ext ds es f f' g g' : (forall is js, in_range ds is -> in_range es js -> f is js = f' is js) -> (forall is js, in_range ds is -> in_range es js -> g is js = g' is js) ->
  hs_inner ds es f g = hs_inner ds es f' g'.
Proof. intros E1 E2. unfold hs_inner. apply sumcfg_ext. intros is Hi. apply sumcfg_ext. intros js Hj. rewrite E1, E2 by assumption. reflexivity. Qed.

(** With truncation, simplify is an orthogonal projection in the Hilbert-Schmidt product. *)
Theorem C67_projection O sense : open_mpo O ->
  (flag <> 0%R \/ exists is js, in_range (odims O) is /\ in_range (idims O) js /\ opelem O is js <> 0) ->
  exists O', mpo_simplify svd flag O sense = Ok O' /\
    hs_inner (odims O) (idims O) (opelem O') (fun is js => opelem O is js - opelem O' is js) = 0 /\
    opweight (odims O) (idims O) (fun is js => opelem O is js - opelem O' is js) =
      (opweight (odims O) (idims O) (opelem O) - opweight (odims O) (idims O) (opelem O'))%R.
Proof.
  intros Ho Hz. assert (HO : wf_mpo O) by (destruct Ho as (Hne & HL); split; [exact Hne|exists 1%nat; split; [lia|exact HL]]).
  destruct (C30_mpo_to_mps O HO) as (A1 & A2 & A3).
  assert (Hom : open_mps (mpo_to_mps O)) by (destruct Ho as (Hne & HL); split; [destruct O; [congruence|discriminate]|apply to_mps_linked; exact HL]).
  pose proof (open_length _ Hom) as Hn.
  destruct (C66_projection svd flag Hsvd (mpo_to_mps O) (if (sense <? 0)%Z then 0 else length (mpo_to_mps O) - 1) Hom ltac:(destruct (sense <? 0)%Z; lia) (nonzero_fused O HO Hz)) as (psi & E & P1 & P2 & P3 & P4).
  destruct HO as (Hne & D & HD & HL).
  destruct (regroup_ok O psi 1 1 D D HL (proj2 P1) (eq_trans P2 A2)) as (R1 & R2 & R3 & R4).
  assert (HneR : regroup_all O psi <> []) by (intros E0; rewrite E0 in R4; cbn in R4; destruct P1; congruence).
  assert (HwR : wf_mpo (regroup_all O psi)) by (split; [exact HneR|exists 1%nat; split; [lia|exact R1]]).
  assert (HO : wf_mpo O) by (split; [exact Hne|exists D; auto]).
  exists (regroup_all O psi). split.
  { unfold mpo_simplify, canonical_form. replace (if (sense <? 0)%Z then 0%Z else (Z.of_nat (length (mpo_to_mps O)) - 1)%Z) with (Z.of_nat (if (sense <? 0)%Z then 0 else length (mpo_to_mps O) - 1)) by (destruct (sense <? 0)%Z; lia).
    rewrite E. reflexivity. }
  destruct (C30_mpo_to_mps _ HwR) as (_ & _ & B3). rewrite R2, R3, R4 in B3.
  assert (EA : forall is js, in_range (odims O) is -> in_range (idims O) js -> opelem O is js = amp (mpo_to_mps O) (fuse (odims O) is js)) by (intros is js Hi Hj; symmetry; apply A3; assumption).
  assert (EB : forall is js, in_range (odims O) is -> in_range (idims O) js -> opelem (regroup_all O psi) is js = amp psi (fuse (odims O) is js)) by (intros is js Hi Hj; symmetry; apply B3; assumption).
  split.
  - rewrite (hs_ext _ _ _ (fun is js => amp psi (fuse (odims O) is js)) _ (fun is js => (fun c => amp (mpo_to_mps O) c - amp psi c) (fuse (odims O) is js))) by (intros; rewrite ?EA, ?EB by assumption; reflexivity).
    rewrite (hs_fused O (amp psi) (fun c => amp (mpo_to_mps O) c - amp psi c) HO). unfold fused_dims. rewrite <- A2. exact P3.
  - unfold opweight.
    rewrite (hs_ext _ _ _ (fun is js => (fun c => amp (mpo_to_mps O) c - amp psi c) (fuse (odims O) is js)) _ (fun is js => (fun c => amp (mpo_to_mps O) c - amp psi c) (fuse (odims O) is js))) by (intros; rewrite ?EA, ?EB by assumption; reflexivity).
    rewrite (hs_ext _ _ (opelem O) (fun is js => amp (mpo_to_mps O) (fuse (odims O) is js)) (opelem O) (fun is js => amp (mpo_to_mps O) (fuse (odims O) is js))) by (intros; apply EA; assumption).
    rewrite (hs_ext _ _ (opelem (regroup_all O psi)) (fun is js => amp psi (fuse (odims O) is js)) (opelem (regroup_all O psi)) (fun is js => amp psi (fuse (odims O) is js))) by (intros; apply EB; assumption).
    rewrite (hs_fused O (fun c => amp (mpo_to_mps O) c - amp psi c) (fun c => amp (mpo_to_mps O) c - amp psi c) HO), !(hs_fused O (amp _) (amp _) HO). unfold fused_dims. rewrite <- A2. exact P4.
Qed.

(** ** C68: fidelity *)

Lemma cauchy_schwarz ds f g : (kmod2 (inner ds f g) <= weight ds f * weight ds g)%R.
Proof.
  destruct (Req_dec (weight ds f) 0) as [E|E].
  - assert (E0 : inner ds f g = 0) by (apply sumcfg_zero; intros is Hi; rewrite (weight_zero ds f E is Hi), kconj_0; ring).
    rewrite E0, kmod2_0, E. lra.
  - pose proof (weight_nonneg ds f) as H0. set (w := weight ds f) in *. set (x := inner ds f g).
    assert (Hh : weight ds (fun is => rinj w * g is - x * f is) = (w * (w * weight ds g - kmod2 x))%R).
    { apply rinj_inj. rewrite rinj_weight, rinj_mul, rinj_sub, rinj_mul, kmod2_spec, rinj_weight.
      transitivity (rinj w * rinj w * inner ds g g - rinj w * x * inner ds g f - kconj x * rinj w * inner ds f g + kconj x * x * inner ds f f).
      - unfold inner. rewrite !sumcfg_mul_l. rewrite <- !sumcfg_sub, <- sumcfg_add. apply sumcfg_ext. intros is _. rewrite kconj_sub, !kconj_mul, rinj_conj. ring.
      - rewrite <- (inner_conj ds f g). fold x. rewrite <- (rinj_weight ds f). fold w. ring. }
    pose proof (weight_nonneg ds (fun is => rinj w * g is - x * f is)) as Hn. rewrite Hh in Hn.
    assert (0 < w)%R by lra. assert (~ (w * weight ds g - kmod2 x < 0))%R; [|lra]. intros Hneg. pose proof (Rmult_lt_0_compat w (- (w * weight ds g - kmod2 x)) ltac:(assumption) ltac:(lra)). lra.
Qed.

Lemma norm2_value psi : wf_mps psi -> mps_norm2 psi = Ok (sqrt (weight (pdims psi) (amp psi))).
Proof.
  intros H. unfold mps_norm2. rewrite norm2_squared_correct by exact H. cbn [bind]. rewrite <- rinj_weight, kre_rinj, Rabs_pos_eq by apply weight_nonneg. reflexivity.
Qed.

Definition ratio (x : K) (v w : R) : result R :=
  if Req_EM_T v 0 then Abort else if Req_EM_T w 0 then Abort else Ok (sqrt (kmod2 x) / (sqrt v * sqrt w))%R.

Lemma fidelity_value Ua Ub psi1 psi2 : canonical_form svd flag (mpo_to_mps Ua) (-1) = Ok psi1 -> canonical_form svd flag (mpo_to_mps Ub) (-1) = Ok psi2 ->
  wf_mps psi1 -> wf_mps psi2 -> pdims psi1 = pdims psi2 ->
  fidelity svd flag Ua Ub = ratio (inner (pdims psi1) (amp psi1) (amp psi2)) (weight (pdims psi1) (amp psi1)) (weight (pdims psi1) (amp psi2)).
Proof.
  intros E1 E2 W1 W2 Hp. unfold fidelity. rewrite E1. cbn [bind]. rewrite E2. cbn [bind]. rewrite !norm2_value by assumption. cbn [bind].
  rewrite scprod_correct by assumption. cbn [bind]. rewrite <- Hp. set (v := weight _ (amp psi1)). set (w := weight _ (amp psi2)). unfold ratio.
  pose proof (weight_nonneg (pdims psi1) (amp psi1)) as Hv. fold v in Hv. pose proof (weight_nonneg (pdims psi1) (amp psi2)) as Hw. fold w in Hw.
  destruct (Req_EM_T v 0) as [Ev|Ev]; [rewrite Ev, sqrt_0, Rmult_0_l; destruct (Req_EM_T 0 0); [reflexivity|lra]|].
  destruct (Req_EM_T w 0) as [Ew|Ew]; [rewrite Ew, sqrt_0, Rmult_0_r; destruct (Req_EM_T 0 0); [reflexivity|lra]|].
  assert (Hs : (0 < sqrt v * sqrt w)%R) by (apply Rmult_lt_0_compat; apply sqrt_lt_R0; lra).
  destruct (Req_EM_T (sqrt v * sqrt w) 0); [lra|]. f_equal. rewrite kmod2_mul, kmod2_rinj. unfold Rdiv.
  rewrite sqrt_mult; [|apply kmod2_nonneg|apply Rle_0_sqr]. f_equal. apply sqrt_square. apply Rlt_le, Rinv_0_lt_compat, Hs.
Qed.

Lemma ratio_range ds f g r : ratio (inner ds f g) (weight ds f) (weight ds g) = Ok r -> (0 <= r <= 1)%R.
Proof.
  unfold ratio. destruct (Req_EM_T _ 0) as [|Ev]; [discriminate|]. destruct (Req_EM_T _ 0) as [|Ew]; [discriminate|]. intros E. apply Ok_inj' in E. subst r.
  pose proof (weight_nonneg ds f). pose proof (weight_nonneg ds g).
  assert (Hs : (0 < sqrt (weight ds f) * sqrt (weight ds g))%R) by (apply Rmult_lt_0_compat; apply sqrt_lt_R0; lra). split.
  - apply Rmult_le_pos; [apply sqrt_pos|apply Rlt_le, Rinv_0_lt_compat, Hs].
  - apply Rmult_le_reg_r with (1 := Hs). unfold Rdiv. rewrite Rmult_assoc, Rinv_l by lra. rewrite Rmult_1_r, Rmult_1_l. rewrite <- sqrt_mult by assumption. apply sqrt_le_1_alt, cauchy_schwarz.
Qed.

Section Two.
Variables Ua Ub : mpo.
Hypothesis HUa : wf_mpo Ua.
Hypothesis HUb : wf_mpo Ub.
Hypothesis Hod : odims Ua = odims Ub.
Hypothesis Hid : idims Ua = idims Ub.

Lemma fused_same : fused_dims Ua = fused_dims Ub.
Proof. unfold fused_dims. rewrite Hod, Hid. reflexivity. Qed.

(** C68. The fidelity is |tr(Ua^+ Ub)| / (|Ua| |Ub|), as documented (include/mps/mpo.h:110), when nothing is truncated. *)
Theorem C68_fidelity : (flag = 0%R \/ (1 <= flag)%R) ->
  (exists is js, in_range (odims Ua) is /\ in_range (idims Ua) js /\ opelem Ua is js <> 0) ->
  (exists is js, in_range (odims Ub) is /\ in_range (idims Ub) js /\ opelem Ub is js <> 0) ->
  fidelity svd flag Ua Ub = Ok (sqrt (kmod2 (hs_inner (odims Ua) (idims Ua) (opelem Ua) (opelem Ub))) /
    (sqrt (opweight (odims Ua) (idims Ua) (opelem Ua)) * sqrt (opweight (odims Ua) (idims Ua) (opelem Ub))))%R.
Proof.
  intros Hf Ha Hb. destruct (fused_form Ua (-1) HUa (or_intror Ha)) as (p1 & E1 & W1 & _ & D1 & _ & X1).
  destruct (fused_form Ub (-1) HUb (or_intror Hb)) as (p2 & E2 & W2 & _ & D2 & _ & X2).
  rewrite (fidelity_value Ua Ub p1 p2 E1 E2 W1 W2) by (rewrite D1, D2; apply fused_same). rewrite D1.
  destruct (C30_mpo_to_mps Ua HUa) as (_ & _ & A3). destruct (C30_mpo_to_mps Ub HUb) as (_ & _ & B3).
  assert (EA : forall is js, in_range (odims Ua) is -> in_range (idims Ua) js -> amp p1 (fuse (odims Ua) is js) = opelem Ua is js).
  { intros is js Hi Hj. rewrite X1; [apply A3; assumption|exact Hf|]. apply fuse_range; [assumption..|rewrite length_odims, length_idims; reflexivity]. }
  assert (EB : forall is js, in_range (odims Ua) is -> in_range (idims Ua) js -> amp p2 (fuse (odims Ua) is js) = opelem Ub is js).
  { intros is js Hi Hj. rewrite X2; [rewrite Hod; apply B3; rewrite <- ?Hod, <- ?Hid; assumption|exact Hf|]. rewrite <- fused_same. apply fuse_range; [assumption..|rewrite length_odims, length_idims; reflexivity]. }
  assert (V1 : weight (fused_dims Ua) (amp p1) = opweight (odims Ua) (idims Ua) (opelem Ua)).
  { unfold weight, opweight. rewrite <- (hs_fused Ua (amp p1) (amp p1) HUa). f_equal. apply hs_ext; exact EA. }
  assert (V2 : weight (fused_dims Ua) (amp p2) = opweight (odims Ua) (idims Ua) (opelem Ub)).
  { unfold weight, opweight. rewrite <- (hs_fused Ua (amp p2) (amp p2) HUa). f_equal. apply hs_ext; exact EB. }
  rewrite V1, V2, <- (hs_fused Ua (amp p1) (amp p2) HUa), (hs_ext _ _ _ (opelem Ua) _ (opelem Ub) EA EB). unfold ratio.
  assert (N1 : opweight (odims Ua) (idims Ua) (opelem Ua) <> 0%R).
  { intros E0. rewrite <- V1 in E0. destruct Ha as (is & js & Hi & Hj & Hne). apply Hne. rewrite <- EA by assumption. apply (weight_zero _ _ E0). apply fuse_range; [assumption..|rewrite length_odims, length_idims; reflexivity]. }
  assert (N2 : opweight (odims Ua) (idims Ua) (opelem Ub) <> 0%R).
  { intros E0. rewrite <- V2 in E0. destruct Hb as (is & js & Hi & Hj & Hne). rewrite <- Hod in Hi. rewrite <- Hid in Hj. apply Hne. rewrite <- EB by assumption. apply (weight_zero _ _ E0). apply fuse_range; [assumption..|rewrite length_odims, length_idims; reflexivity]. }
  destruct (Req_EM_T _ 0); [contradiction|]. destruct (Req_EM_T _ 0); [contradiction|]. reflexivity.
Qed.

(** Whatever is truncated, a fidelity is a number between zero and one and does not depend on the order. *)
Theorem C68_range r : flag <> 0%R -> fidelity svd flag Ua Ub = Ok r -> (0 <= r <= 1)%R /\ fidelity svd flag Ub Ua = Ok r.
Proof.
  intros Hf. destruct (fused_form Ua (-1) HUa (or_introl Hf)) as (p1 & E1 & W1 & _ & D1 & _).
  destruct (fused_form Ub (-1) HUb (or_introl Hf)) as (p2 & E2 & W2 & _ & D2 & _).
  assert (D : pdims p1 = pdims p2) by (rewrite D1, D2; apply fused_same).
  rewrite (fidelity_value Ua Ub p1 p2 E1 E2 W1 W2 D). rewrite (fidelity_value Ub Ua p2 p1 E2 E1 W2 W1 (eq_sym D)). rewrite <- D.
  intros E. split; [apply (ratio_range _ _ _ _ E)|]. rewrite <- E. unfold ratio.
  destruct (Req_EM_T (weight (pdims p1) (amp p2)) 0), (Req_EM_T (weight (pdims p1) (amp p1)) 0); try reflexivity.
  f_equal. rewrite (Rmult_comm (sqrt (weight _ (amp p2)))). f_equal. f_equal. rewrite <- (inner_conj _ (amp p1) (amp p2)). apply rinj_inj. rewrite !kmod2_spec, kconj_inv. ring.
Qed.

(** The fidelity is one exactly for operators that agree up to a factor. *)
Theorem C68_one : (flag = 0%R \/ (1 <= flag)%R) ->
  (exists is js, in_range (odims Ua) is /\ in_range (idims Ua) js /\ opelem Ua is js <> 0) ->
  (exists is js, in_range (odims Ub) is /\ in_range (idims Ub) js /\ opelem Ub is js <> 0) ->
  (fidelity svd flag Ua Ub = Ok 1%R <->
   exists z, forall is js, in_range (odims Ua) is -> in_range (idims Ua) js -> opelem Ub is js = z * opelem Ua is js).
Proof.
  intros Hf Ha Hb. rewrite (C68_fidelity Hf Ha Hb).
  set (ds := odims Ua). set (es := idims Ua). set (x := hs_inner ds es (opelem Ua) (opelem Ub)). set (v := opweight ds es (opelem Ua)). set (w := opweight ds es (opelem Ub)).
  (* as sums over one configuration *)
  assert (Hc : forall f g, hs_inner ds es f g = inner (ds ++ es) (fun c => f (firstn (length ds) c) (skipn (length ds) c)) (fun c => g (firstn (length ds) c) (skipn (length ds) c))).
  { intros f g. unfold hs_inner, inner. rewrite sumcfg_app. apply sumcfg_ext. intros is Hi. apply sumcfg_ext. intros js Hj.
    pose proof (ScalarFacts.in_range_length _ _ Hi) as Hl. rewrite <- Hl, firstn_app, skipn_app, Nat.sub_diag, firstn_all, skipn_all. cbn [firstn skipn]. rewrite app_nil_r. reflexivity. }
  set (F := fun c => opelem Ua (firstn (length ds) c) (skipn (length ds) c)). set (G := fun c => opelem Ub (firstn (length ds) c) (skipn (length ds) c)).
  assert (Ex : x = inner (ds ++ es) F G) by apply Hc.
  assert (Ev : v = weight (ds ++ es) F) by (unfold v, opweight, weight; rewrite Hc; reflexivity).
  assert (Ew : w = weight (ds ++ es) G) by (unfold w, opweight, weight; rewrite Hc; reflexivity).
  assert (Hcfg : forall is js, in_range ds is -> in_range es js -> in_range (ds ++ es) (is ++ js) /\ firstn (length ds) (is ++ js) = is /\ skipn (length ds) (is ++ js) = js).
  { intros is js Hi Hj. pose proof (ScalarFacts.in_range_length _ _ Hi) as Hl. split; [apply ScalarFacts.in_range_app; assumption|].
    rewrite <- Hl, firstn_app, skipn_app, Nat.sub_diag, firstn_all, skipn_all. cbn [firstn skipn]. rewrite app_nil_r. auto. }
  assert (Nv : (0 < v)%R).
  { assert (v <> 0%R); [|rewrite Ev in *; pose proof (weight_nonneg (ds ++ es) F); lra]. intros E0. destruct Ha as (is & js & Hi & Hj & Hne). apply Hne. rewrite Ev in E0.
    destruct (Hcfg is js Hi Hj) as (C1 & C2 & C3). pose proof (weight_zero _ _ E0 _ C1) as Z. unfold F in Z. rewrite C2, C3 in Z. exact Z. }
  assert (Nw : (0 < w)%R).
  { assert (w <> 0%R); [|rewrite Ew in *; pose proof (weight_nonneg (ds ++ es) G); lra]. intros E0. destruct Hb as (is & js & Hi & Hj & Hne). rewrite <- Hod in Hi. rewrite <- Hid in Hj. apply Hne. rewrite Ew in E0.
    destruct (Hcfg is js Hi Hj) as (C1 & C2 & C3). pose proof (weight_zero _ _ E0 _ C1) as Z. unfold G in Z. rewrite C2, C3 in Z. exact Z. }
  assert (Hs : (0 < sqrt v * sqrt w)%R) by (apply Rmult_lt_0_compat; apply sqrt_lt_R0; lra).
  assert (Hone : (Ok (sqrt (kmod2 x) / (sqrt v * sqrt w))%R = Ok 1%R) <-> kmod2 x = (v * w)%R).
  { split.
    - intros E. apply Ok_inj' in E. assert (E2 : sqrt (kmod2 x) = (sqrt v * sqrt w)%R).
      { apply (Rmult_eq_compat_r (sqrt v * sqrt w)) in E. unfold Rdiv in E. rewrite Rmult_assoc, Rinv_l in E by lra. lra. }
      rewrite <- sqrt_mult in E2 by lra. apply sqrt_inj in E2; [exact E2|apply kmod2_nonneg|apply Rmult_le_pos; lra].
    - intros E. f_equal. rewrite E, sqrt_mult by lra. unfold Rdiv. apply Rinv_r. lra. }
  rewrite Hone. split.
  - intros E. exists (rinj (/ v) * x). intros is js Hi Hj. destruct (Hcfg is js Hi Hj) as (C1 & C2 & C3).
    assert (Hh : weight (ds ++ es) (fun c => rinj v * G c - x * F c) = 0%R).
    { apply rinj_inj. rewrite rinj_weight, rinj_0.
      transitivity (rinj v * rinj v * inner (ds ++ es) G G - rinj v * x * inner (ds ++ es) G F - kconj x * rinj v * inner (ds ++ es) F G + kconj x * x * inner (ds ++ es) F F).
      - unfold inner. rewrite !sumcfg_mul_l. rewrite <- !sumcfg_sub, <- sumcfg_add. apply sumcfg_ext. intros c _. rewrite kconj_sub, !kconj_mul, rinj_conj. ring.
      - rewrite <- (inner_conj _ F G), <- Ex, <- (rinj_weight _ F), <- (rinj_weight _ G), <- Ev, <- Ew.
        transitivity (rinj v * (rinj v * rinj w - kconj x * x)); [ring|]. rewrite <- kmod2_spec, E, rinj_mul. ring. }
    pose proof (weight_zero _ _ Hh _ C1) as Z. cbn beta in Z. unfold F, G in Z. rewrite C2, C3 in Z.
    assert (Ei : rinj (/ v) * rinj v = 1) by (rewrite <- rinj_mul, Rinv_l, rinj_1 by lra; reflexivity).
    transitivity (rinj (/ v) * rinj v * opelem Ub is js); [rewrite Ei; ring|].
    transitivity (rinj (/ v) * (rinj v * opelem Ub is js - x * opelem Ua is js) + rinj (/ v) * x * opelem Ua is js); [ring|]. rewrite Z. ring.
  - intros (z & Hz). assert (E1 : x = z * rinj v).
    { rewrite Ev, rinj_weight, Ex. unfold inner. rewrite sumcfg_mul_l. unfold F, G. rewrite !sumcfg_app. apply sumcfg_ext. intros is Hi. apply sumcfg_ext. intros js Hj.
      destruct (Hcfg is js Hi Hj) as (C1 & C2 & C3). rewrite C2, C3, Hz by assumption. ring. }
    assert (E2 : rinj w = kconj z * z * rinj v).
    { rewrite Ew, Ev, !rinj_weight. unfold inner. rewrite sumcfg_mul_l. unfold F, G. rewrite !sumcfg_app. apply sumcfg_ext. intros is Hi. apply sumcfg_ext. intros js Hj.
      destruct (Hcfg is js Hi Hj) as (C1 & C2 & C3). rewrite C2, C3, Hz by assumption. rewrite kconj_mul. ring. }
    apply rinj_inj. rewrite kmod2_spec, rinj_mul, E1, E2, kconj_mul, rinj_conj. ring.
Qed.
End Two.

(** The fidelity of the zero operator is not a number. *)
Theorem C68_zero Ua Ub : open_mpo Ua -> open_mpo Ub -> odims Ua = odims Ub -> idims Ua = idims Ub -> flag <> 0%R ->
  (forall is js, in_range (odims Ua) is -> in_range (idims Ua) js -> opelem Ua is js = 0) ->
  fidelity svd flag Ua Ub = Abort /\ fidelity svd flag Ub Ua = Abort.
Proof.
  intros Ha Hb Ho Hi Hf Hz.
  assert (HUa : wf_mpo Ua) by (destruct Ha as (Hne & HL); split; [exact Hne|exists 1%nat; split; [lia|exact HL]]).
  assert (HUb : wf_mpo Ub) by (destruct Hb as (Hne & HL); split; [exact Hne|exists 1%nat; split; [lia|exact HL]]).
  assert (Hom : open_mps (mpo_to_mps Ua)) by (destruct Ha as (Hne & HL); split; [destruct Ua; [congruence|discriminate]|apply to_mps_linked; exact HL]).
  destruct (C30_mpo_to_mps Ua HUa) as (A1 & A2 & A3).
  destruct (C66_projection svd flag Hsvd (mpo_to_mps Ua) 0 Hom (open_length _ Hom) (or_introl Hf)) as (p1 & E1 & P1 & P2 & _ & P4).
  destruct (fused_form Ub (-1) HUb (or_introl Hf)) as (p2 & E2 & W2 & _ & D2 & _).
  assert (W1 : wf_mps p1) by (destruct P1 as (Hne & HL); split; [exact Hne|exists 1%nat; split; [lia|exact HL]]).
  assert (E1' : canonical_form svd flag (mpo_to_mps Ua) (-1) = Ok p1) by exact E1.
  assert (D : pdims p1 = pdims p2) by (rewrite P2, D2, A2; unfold fused_dims; rewrite Ho, Hi; reflexivity).
  assert (Z0 : weight (pdims (mpo_to_mps Ua)) (amp (mpo_to_mps Ua)) = 0%R).
  { apply rinj_inj. rewrite rinj_weight, rinj_0, A2. fold (fused_dims Ua). rewrite <- (hs_fused Ua _ _ HUa). apply sumcfg_zero. intros is His. apply sumcfg_zero. intros js Hjs.
    unfold fuse. rewrite A3, Hz by assumption. ring. }
  assert (Z1 : weight (pdims p1) (amp p1) = 0%R).
  { rewrite P2. pose proof (weight_nonneg (pdims (mpo_to_mps Ua)) (amp p1)). pose proof (weight_nonneg (pdims (mpo_to_mps Ua)) (fun is => amp (mpo_to_mps Ua) is - amp p1 is)). unfold dist2 in P4. lra. }
  rewrite (fidelity_value Ua Ub p1 p2 E1' E2 W1 W2 D), (fidelity_value Ub Ua p2 p1 E2 E1' W2 W1 (eq_sym D)). rewrite <- D. unfold ratio. rewrite Z1.
  destruct (Req_EM_T 0 0); [|lra]. split; [reflexivity|]. destruct (Req_EM_T _ 0); reflexivity.
Qed.
End Properties.

(** REFUTED: that with the default tolerance simplify keeps the operator up to that tolerance, and that the fidelity of two
    representations of one operator is one.  The operators are column vectors (one column per site), the states of
    C66_default_refuted. *)
Section Default.
Context {RS : RScal}.
Add Ring Kring2 : k_ring.
Variable svd : tensor -> tensor * list R * tensor.
Hypothesis Hsvd : svd_contract svd.

Definition skewO (j : nat) : mpo := [reshape (select j) [1; 1; 1; 3]%nat; reshape diag3 [3; 3; 1; 1]%nat].
Definition single1 : tensor := mk [1; 1; 1]%nat (fun _ => 1).
Definition single2 (j : nat) : tensor := mk [1; 3; 1]%nat (fun x => rinj (dg j) * delta j (nth 1 x 0%nat)).
Definition single (j : nat) : mps := [single1; single2 j].
(** The same operator with bond dimension one. *)
Definition singleO (j : nat) : mpo := [reshape single1 [1; 1; 1; 1]%nat; reshape (single2 j) [1; 3; 1; 1]%nat].

Lemma skewO_open j : open_mpo (skewO j).
Proof.
  split; [discriminate|]. exists 1%nat, 1%nat, 3%nat. split; [reflexivity|]. split; [apply wf_reshape; [apply wf_mk|reflexivity]|]. split; [lia|]. split; [lia|]. split; [lia|].
  exists 3%nat, 1%nat, 1%nat. split; [reflexivity|]. split; [apply wf_reshape; [apply wf_mk|reflexivity]|]. split; [lia|]. split; [lia|]. split; [lia|]. reflexivity.
Qed.
Lemma singleO_open j : open_mpo (singleO j).
Proof.
  split; [discriminate|]. exists 1%nat, 1%nat, 1%nat. split; [reflexivity|]. split; [apply wf_reshape; [apply wf_mk|reflexivity]|]. split; [lia|]. split; [lia|]. split; [lia|].
  exists 3%nat, 1%nat, 1%nat. split; [reflexivity|]. split; [apply wf_reshape; [apply wf_mk|reflexivity]|]. split; [lia|]. split; [lia|]. split; [lia|]. reflexivity.
Qed.
Lemma single_open j : open_mps (single j).
Proof.
  split; [discriminate|]. exists 1%nat, 1%nat. split; [reflexivity|]. split; [apply wf_mk|]. split; [lia|]. split; [lia|].
  exists 3%nat, 1%nat. split; [reflexivity|]. split; [apply wf_mk|]. split; [lia|]. split; [lia|]. reflexivity.
Qed.
Lemma skewO_mps j : mpo_to_mps (skewO j) = skew j.
Proof. reflexivity. Qed.
Lemma singleO_mps j : mpo_to_mps (singleO j) = single j.
Proof. reflexivity. Qed.
Lemma skewO_wf j : wf_mpo (skewO j).
Proof. destruct (skewO_open j) as (Hne & HL). split; [exact Hne|exists 1%nat; split; [lia|exact HL]]. Qed.
Lemma singleO_wf j : wf_mpo (singleO j).
Proof. destruct (singleO_open j) as (Hne & HL). split; [exact Hne|exists 1%nat; split; [lia|exact HL]]. Qed.

Lemma single_amp j i : (i < 3)%nat -> amp (single j) [0; i]%nat = rinj (dg j) * delta j i.
Proof.
  intros Hi. rewrite amp_open1 by apply single_open. unfold single. cbn [chain]. change (dim single1 2) with 1%nat. change (dim (single2 j) 2) with 1%nat. cbn [sum].
  unfold single1, single2. rewrite !get_mk by (apply in_range_3; lia). cbn [nth]. unfold delta at 2. cbn [Nat.eqb]. ring.
Qed.

Lemma cfg13 is : in_range [1; 3]%nat is -> exists i, (i < 3)%nat /\ is = [0; i]%nat.
Proof.
  intros H. apply in_range_cons_inv in H. destruct H as (x & r & -> & Hx & H). apply in_range_cons_inv in H. destruct H as (y & r' & -> & Hy & H). apply in_range_nil_inv in H. subst.
  exists y. split; [exact Hy|]. f_equal. lia.
Qed.

Lemma single_canon j : exists p, canonical_form svd DBL_EPSILON (single j) (-1) = Ok p /\ wf_mps p /\ pdims p = [1; 3]%nat /\ forall is, in_range [1; 3]%nat is -> amp p is = amp (single j) is.
Proof.
  destruct eps_pos as (He & _).
  assert (Hwf : wf_mps (single j)) by (destruct (single_open j) as (Hne & HL); split; [exact Hne|exists 1%nat; split; [lia|exact HL]]).
  destruct (C14_canonical_form svd DBL_EPSILON Hsvd (single j) 0 Hwf ltac:(cbn; lia) (or_introl (Rgt_not_eq _ _ He))) as (p & E & W1 & _ & W3 & _).
  exists p. split; [exact E|]. split; [exact W1|]. split; [exact W3|].
  destruct (split_left_ok svd DBL_EPSILON Hsvd (single2 j) 1 3 1 true eq_refl (wf_mk _ _) ltac:(lia) ltac:(lia) ltac:(lia)) as (Us & sv & Vs & E1 & Hs & U & V & E2 & (HdU & HwU & HV & Hla & _ & Hrec) & _).
  cbv zeta in *. set (l := where_to_truncate DBL_EPSILON sv (split_tol true) (Z.of_nat (Nat.min 1 (3 * 1)))) in *.
  pose proof Hs as (Hs1 & Hs2 & _).
  assert (Hl : (0 < l)%nat) by (apply wtt_pos; [lia|left; intros E0; assert (Ht : eff_tol DBL_EPSILON (split_tol true) = DBL_EPSILON) by apply eff_tol_split; lra]).
  assert (El : l = 1%nat) by lia. clearbody l. subst l.
  assert (Ep : p = [fold single1 (rank single1 - 1) V 0; U]).
  { unfold canonical_form_at in E. cbn [single length Z.of_nat] in E. change (Z.to_nat (Z.pos (Pos.of_succ_nat 1) - 1 - 0)) with 1%nat in E. cbn [seq map fold_left Z.to_nat] in E.
    unfold canonicalize_site in E. cbn [bind] in E. unfold set_canonical in E. cbn [Z.ltb Z.compare] in E. change (Z.to_nat (Z.pos (Pos.of_succ_nat 1) - 1 - Z.of_nat 0)) with 1%nat in E. cbn [Nat.eqb] in E.
    unfold single in E at 1. change (site_at [single1; single2 j] (Z.pos (Pos.of_succ_nat 1) - 1 - Z.of_nat 0)) with (Ok (single2 j)) in E. cbn [bind] in E.
    change ((0 <=? Z.pos (Pos.of_succ_nat 1) - 1 - Z.of_nat 0)%Z && (Z.pos (Pos.of_succ_nat 1) - 1 - Z.of_nat 0 <? Z.of_nat (length (single j)))%Z) with true in E. cbn iota in E.
    rewrite E2 in E. cbn [bind] in E. apply Ok_inj' in E. symmetry. exact E. }
  intros is Hi. destruct (cfg13 is Hi) as (i & Hi3 & ->). rewrite single_amp by exact Hi3. rewrite Ep. unfold amp. cbn [left_bond chain].
  pose proof (dims_fold_BV V single1 1 1 1 1 HV eq_refl) as Hd. unfold dim. rewrite Hd, HdU. cbn [nth sum].
  rewrite (get_fold_BV V single1 1 1 1 1) by (first [assumption|reflexivity|lia]). cbn [sum].
  pose proof (Hrec 0%nat i 0%nat ltac:(lia) Hi3 ltac:(lia)) as Hr. cbv beta in Hr. rewrite dropped_zero in Hr by (intros k Hk; apply nth_overflow; lia).
  unfold single2 in Hr. rewrite get_mk in Hr by (apply in_range_3; lia). cbn [nth sum] in Hr. rewrite Hr.
  unfold single1. rewrite get_mk by (apply in_range_3; lia). unfold delta. cbn [Nat.eqb]. ring.
Qed.

Theorem C67_default_refuted : exists O O', open_mpo O /\ mpo_simplify svd DBL_EPSILON O (-1) = Ok O' /\
  (0 < opweight (odims O) (idims O) (opelem O))%R /\
  (opweight (odims O) (idims O) (opelem O) <= 3 * opweight (odims O) (idims O) (fun is js => opelem O is js - opelem O' is js)%K)%R.
Proof.
  destruct (C66_default_refuted svd Hsvd) as (j & psi' & Hj & Ho & E & Hw & Hd).
  destruct eps_pos as (He & _).
  destruct (C67_projection svd DBL_EPSILON Hsvd (skewO j) (-1) (skewO_open j) (or_introl (Rgt_not_eq _ _ He))) as (O' & E' & _).
  exists (skewO j), O'. split; [apply skewO_open|]. split; [exact E'|].
  unfold mpo_simplify in E'. rewrite skewO_mps, E in E'. cbn [bind] in E'. apply Ok_inj' in E'. subst O'.
  destruct (C30_mpo_to_mps (skewO j) (skewO_wf j)) as (A1 & A2 & A3). rewrite skewO_mps in A2, A3.
  assert (Hlen : pdims psi' = fused_dims (skewO j) /\ open_mps psi').
  { destruct (C66_projection svd DBL_EPSILON Hsvd (skew j) 0 Ho ltac:(cbn; lia) (or_introl (Rgt_not_eq _ _ He))) as (p & E1 & P1 & P2 & _).
    change (canonical_form svd DBL_EPSILON (skew j) (-1) = Ok p) in E1. rewrite E in E1. apply Ok_inj' in E1. subst p. split; [rewrite P2; exact A2|exact P1]. }
  destruct Hlen as (Hp & Hop).
  destruct (regroup_ok (skewO j) psi' 1 1 1 1 (proj2 (skewO_open j)) (proj2 Hop) Hp) as (R1 & R2 & R3 & R4).
  assert (HwR : wf_mpo (regroup_all (skewO j) psi')).
  { split; [intros E0; rewrite E0 in R4; cbn in R4; destruct Hop; congruence|exists 1%nat; split; [lia|exact R1]]. }
  destruct (C30_mpo_to_mps _ HwR) as (_ & _ & B3). rewrite R2, R3, R4 in B3.
  assert (V1 : weight (pdims (skew j)) (amp (skew j)) = opweight (odims (skewO j)) (idims (skewO j)) (opelem (skewO j))).
  { unfold weight, opweight. rewrite A2. fold (fused_dims (skewO j)). rewrite <- (hs_fused (skewO j) _ _ (skewO_wf j)). apply (f_equal kre). apply hs_ext; intros is js Hi Hj'; apply A3; assumption. }
  assert (V2 : dist2 (pdims (skew j)) (amp (skew j)) (amp psi') = opweight (odims (skewO j)) (idims (skewO j)) (fun is js => opelem (skewO j) is js - opelem (regroup_all (skewO j) psi') is js)).
  { unfold dist2, weight, opweight. rewrite A2. fold (fused_dims (skewO j)). rewrite <- (hs_fused (skewO j) _ _ (skewO_wf j)). apply (f_equal kre). apply hs_ext; intros is js Hi Hj'; unfold fuse; rewrite A3, B3 by assumption; reflexivity. }
  rewrite <- V1, <- V2. auto.
Qed.

Theorem C68_default_refuted : exists Ua Ub, open_mpo Ua /\ open_mpo Ub /\ odims Ua = odims Ub /\ idims Ua = idims Ub /\
  (forall is js, in_range (odims Ua) is -> in_range (idims Ua) js -> opelem Ua is js = opelem Ub is js) /\
  (0 < opweight (odims Ua) (idims Ua) (opelem Ua))%R /\
  forall r, fidelity svd DBL_EPSILON Ua Ub = Ok r -> (r * r <= 2 / 3)%R.
Proof.
  destruct (C66_default_refuted svd Hsvd) as (j & psi' & Hj & Ho & E & Hw & Hd).
  destruct eps_pos as (He & _).
  destruct (C66_projection svd DBL_EPSILON Hsvd (skew j) 0 Ho ltac:(cbn; lia) (or_introl (Rgt_not_eq _ _ He))) as (p & E1 & P1 & P2 & P3 & P4).
  change (canonical_form svd DBL_EPSILON (skew j) (-1) = Ok p) in E1. rewrite E in E1. apply Ok_inj' in E1. subst p.
  destruct (single_canon j) as (q & E2 & W2 & D2 & X2).
  assert (Hamp : forall is, in_range [1; 3]%nat is -> amp (single j) is = amp (skew j) is).
  { intros is Hi. destruct (cfg13 is Hi) as (i & Hi3 & ->). rewrite single_amp, skew_amp by assumption. reflexivity. }
  destruct (C30_mpo_to_mps (skewO j) (skewO_wf j)) as (A1 & A2 & A3). rewrite skewO_mps in A2, A3.
  destruct (C30_mpo_to_mps (singleO j) (singleO_wf j)) as (_ & _ & B3). rewrite singleO_mps in B3.
  exists (skewO j), (singleO j). split; [apply skewO_open|]. split; [apply singleO_open|]. split; [reflexivity|]. split; [reflexivity|]. split; [|split].
  - intros is js Hi Hj'. rewrite <- A3, <- B3 by assumption. symmetry. apply Hamp. apply (fuse_range [1; 3]%nat [1; 1]%nat); [exact Hi|exact Hj'|reflexivity].
  - replace (opweight _ _ _) with (weight (pdims (skew j)) (amp (skew j))); [exact Hw|].
    unfold weight, opweight. rewrite A2. fold (fused_dims (skewO j)). rewrite <- (hs_fused (skewO j) _ _ (skewO_wf j)). apply (f_equal kre). apply hs_ext; intros is js Hi Hj'; apply A3; assumption.
  - intros r Er. assert (W1 : wf_mps psi') by (destruct P1 as (Hne & HL); split; [exact Hne|exists 1%nat; split; [lia|exact HL]]).
    rewrite (fidelity_value svd DBL_EPSILON (skewO j) (singleO j) psi' q E E2 W1 W2) in Er by (rewrite P2, D2; reflexivity).
    change (pdims (skew j)) with [1; 3]%nat in *. rewrite P2 in Er.
    assert (Q1 : inner [1; 3]%nat (amp psi') (amp q) = rinj (weight [1; 3]%nat (amp psi'))).
    { rewrite rinj_weight. transitivity (inner [1; 3]%nat (amp psi') (fun is => amp (skew j) is - amp psi' is) + inner [1; 3]%nat (amp psi') (amp psi')); [|rewrite P3; ring].
      unfold inner. rewrite <- sumcfg_add. apply sumcfg_ext. intros is Hi. rewrite X2, Hamp by exact Hi. ring. }
    assert (Q2 : weight [1; 3]%nat (amp q) = weight [1; 3]%nat (amp (skew j))).
    { apply rinj_inj. rewrite !rinj_weight. unfold inner. apply sumcfg_ext. intros is Hi. rewrite X2, Hamp by exact Hi. reflexivity. }
    rewrite Q1, Q2 in Er. rewrite P4 in Hd. set (v := weight [1; 3]%nat (amp psi')) in *. set (w := weight [1; 3]%nat (amp (skew j))) in *.
    assert (Hv : (0 <= v)%R) by apply weight_nonneg. unfold ratio in Er. destruct (Req_EM_T v 0) as [|Nv]; [discriminate|]. destruct (Req_EM_T w 0) as [|Nw]; [discriminate|].
    apply Ok_inj' in Er. subst r. rewrite kmod2_rinj, sqrt_square by exact Hv.
    pose proof (sqrt_lt_R0 v ltac:(lra)) as Sv. pose proof (sqrt_lt_R0 w ltac:(lra)) as Sw.
    assert (Er : (v / (sqrt v * sqrt w) * (v / (sqrt v * sqrt w)) = v / w)%R).
    { replace (v / (sqrt v * sqrt w) * (v / (sqrt v * sqrt w)))%R with (v * v / ((sqrt v * sqrt v) * (sqrt w * sqrt w)))%R by (field; lra).
      rewrite !sqrt_sqrt by lra. field. lra. }
    rewrite Er. apply Rmult_le_reg_r with w; [lra|]. unfold Rdiv. rewrite Rmult_assoc, Rinv_l by lra. lra.
Qed.

(** Concrete case of the hypotheses of C67 and C68. *)
Example C67_case : wf_mpo (skewO 0) /\ wf_mpo (singleO 1) /\ odims (skewO 0) = odims (singleO 1) /\ idims (skewO 0) = idims (singleO 1) /\
  opelem (skewO 0) [0; 0]%nat [0; 0]%nat <> 0 /\ opelem (singleO 1) [0; 1]%nat [0; 0]%nat <> 0.
Proof.
  split; [apply skewO_wf|]. split; [apply singleO_wf|]. split; [reflexivity|]. split; [reflexivity|].
  destruct (C30_mpo_to_mps (skewO 0) (skewO_wf 0)) as (_ & _ & A3). destruct (C30_mpo_to_mps (singleO 1) (singleO_wf 1)) as (_ & _ & B3). split.
  - rewrite <- A3 by (apply in_range_2; cbn; lia). cbn [combine map fst snd odims skewO Nat.mul Nat.add]. rewrite skewO_mps.
    change (amp (skew 0) [0; 0]%nat <> 0). rewrite skew_amp by lia. unfold delta, dg. cbn [Nat.eqb]. rewrite rinj_1. intros E. apply k1_neq_0. rewrite <- E. ring.
  - rewrite <- B3 by (apply in_range_2; cbn; lia). rewrite singleO_mps. change (amp (single 1) [0; 1]%nat <> 0). rewrite single_amp by lia. unfold delta, dg. cbn [Nat.eqb].
    intros E. assert (X : rinj small = rinj 0) by (rewrite rinj_0, <- E; ring). apply rinj_inj in X. unfold small in X. lra.
Qed.
End Default.
