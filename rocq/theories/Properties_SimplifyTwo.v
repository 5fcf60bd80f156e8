(** * mps::simplify with two sites at a time (C48): the result is the best of its kind *)
From Coq Require Import Reals Lra Bool List Arith ZArith Lia Ring.
From Verif Require Import Scalar ScalarFacts RScal RealInst Tensor TensorFacts Spec MpsModel MpsFacts StateFacts StateFacts2 ExpectedFacts MpoSpec CanonSpec CanonModel
  TruncFacts SplitFacts CanonFacts CanonSweep CanonNorm CanonProps CanonTwo SvdExist SweepModel SweepSpec SweepFacts FormModel FormSpec LFormFacts LFormValue
  SimplifySpec SimplifyModel EckartYoung SimplifyFacts SimplifyStep SimplifyPair SimplifyDouble SimplifySweep SimplifyLoop
  SimplifyManyModel ManyFacts ManyEnv ManySweep MinLocal PairBest ManyPair ManyLoop Properties_SimplifyMany MinimizeSpec MinStep QFormFacts.
Import ListNotations.
Local Open Scope K_scope.

Section Two.
Context {RS : RScal}.
Add Ring Kring : k_ring.
Variable svd : tensor -> tensor * list R * tensor.
Variable flag tolerance : R.
Hypothesis Hsvd : svd_contract svd.
Variables (Dmax : Z) (tol : R) (P : mps) (w : list K) (Q : list mps) (ds : list nat) (sense : Z) (sweeps : nat).
Hypothesis Hv : valid_many flag (by_two Dmax tol) P w Q ds sense.
Hypothesis Ht : no_truncation (tolerance_used flag tol).
Notation dist P := (dist2 ds (combo w Q) (amp P)).
Variables (P' : mps) (sense' : Z) (err : R).
Hypothesis Hcall : simplify_many2 svd flag tolerance w Q P Dmax tol sense sweeps false = Ok (P', sense', err).

(** Only Dmax limits the bonds: among the states that differ from the result in the last pair of sites, and that have a
    bond of at most Dmax there, none is closer to sum_i w_i Q_i. *)
Theorem C48_two_best : exists k, (k = 0 \/ k = length P - 2)%nat /\
  forall phi, open_mps phi -> pdims phi = ds -> differs_at2 P' phi k -> (Dmax <= 0 \/ Z.of_nat (dim (site phi (S k)) 0) <= Dmax)%Z ->
    (err <= dist phi)%R.
Proof.
  pose proof Hv as (Hq & Hw & HQ & Ho & Hd & HL & Hs & Hvv).
  assert (Hg : good_bras w Q ds) by (repeat split; auto; apply HQ; assumption).
  assert (Hn : nz2 flag w Q tol P).
  { unfold nz2. rewrite (overlap_combo w Q ds) by exact Hd. destruct Hvv as [(H1 & H2)|H]; [left|right; exact H]. split; [exact H1|].
    unfold eff_tol, tolerance_used, Rltb in *. destruct (Rlt_dec tol 0); exact H2. }
  destruct (simplify_many2_ok svd flag Hsvd w Q ds Hg tolerance Dmax tol P sense sweeps ltac:(split; assumption) HL Hs Hn) as (P1 & n & z' & conv & H1 & E1 & E2 & H2 & H3 & (H4 & H4' & H4'') & H5).
  rewrite Hcall in E1. apply Ok_inj' in E1. injection E1 as <- _ ->.
  destruct H4'' as (kk & Hkk & Hb). { unfold exact_tol, exact_flag, eff_tol, tolerance_used, no_truncation, Rltb in *. destruct (Rlt_dec tol 0); exact Ht. }
  destruct H2 as ((O1 & D1) & HlP & _). rewrite HlP in Hkk. exists kk. split; [exact Hkk|].
  intros phi O2 D2 Df HD. assert (Hk2 : (S kk < length P')%nat) by lia.
  destruct (site2_dims kk P' O1 Hk2) as (a & i & m & j & c & S1 & S2 & _ & _ & Hpos).
  destruct (differ2 ds kk P' phi a i m j c O1 D1 Hk2 S1 S2 O2 D2 Df) as (A & B & q & -> & Hq0 & HwA & HdA & HwB & HdB).
  apply (Hb A B q Hq0); try assumption.
  - rewrite site_put2 in HD by exact Hk2. destruct (Nat.eqb_spec (S kk) kk); [lia|]. rewrite Nat.eqb_refl in HD. unfold dim in HD. rewrite HdB in HD. exact HD.
  - unfold dim. rewrite S1. exact HdA.
  - unfold dim. rewrite S2. exact HdB.
Qed.

(** Two sites: no state at all with a bond of at most Dmax is closer, *)
Theorem C48_two_sites_best phi : length P = 2%nat -> open_mps phi -> pdims phi = ds -> (Dmax <= 0 \/ Z.of_nat (dim (site phi 1) 0) <= Dmax)%Z ->
  (err <= dist phi)%R.
Proof.
  intros HL O1 D1 HD. destruct C48_two_best as (k & Hk & Hb). assert (k = 0%nat) as -> by lia. apply Hb; try assumption.
  pose proof Hv as (_ & _ & _ & Ho & Hd & _).
  assert (E1 : length phi = 2%nat) by (rewrite <- length_pdims, D1, <- Hd, length_pdims; exact HL).
  assert (E2 : length P' = 2%nat).
  { destruct (C48_many_canonical svd flag tolerance Hsvd (by_two Dmax tol) P w Q ds sense sweeps Hv P' sense' err Hcall) as (_ & D2 & _).
    rewrite <- length_pdims, D2, <- Hd, length_pdims. exact HL. }
  intros j H0 H1. unfold site. rewrite !nth_overflow by lia. reflexivity.
Qed.

(** and if Dmax does not limit the bond the result is the combination itself. *)
Theorem C48_two_sites_exact : length P = 2%nat -> (Dmax <= 0 \/ Z.of_nat (nth 0 ds 0%nat) <= Dmax)%Z ->
  err = 0%R /\ forall is, in_range ds is -> amp P' is = combo w Q is.
Proof.
  intros HL HD. pose proof Hv as (_ & _ & _ & Ho & Hd & _).
  destruct (site2_dims 0 P Ho ltac:(lia)) as (a & i & m & j & c & S1 & S2 & _ & _ & Hpos). pose proof Hpos as (Ha & Hi & Hm & Hj & Hc).
  destruct P as [|A0 [|B0 [|]]] eqn:EP; try discriminate HL. clear HL. unfold site in S1, S2. cbn [nth] in S1, S2.
  assert (Ea : a = 1%nat /\ c = 1%nat).
  { destruct Ho as (_ & Ho). cbn [linked] in Ho. destruct Ho as (i' & c' & HA & _ & _ & _ & j' & e & HB & _ & _ & _ & He). rewrite S1 in HA. injection HA as -> _ _. rewrite S2 in HB. injection HB as _ _ ->. split; [reflexivity|exact He]. }
  destruct Ea as (-> & ->).
  assert (Eds : ds = [i; j]) by (rewrite <- Hd; unfold pdims, dim; cbn [map]; rewrite S1, S2; reflexivity).
  set (x := fun r => combo w Q (unravel [i; j] r)).
  set (phi := put2 0 P (id3 1 i) (ten [1 * i; j; 1]%nat x)).
  assert (Hphi : phi = [id3 1 i; ten [1 * i; j; 1]%nat x]) by (unfold phi; rewrite EP; reflexivity).
  destruct (put2_fits ds 0 P (id3 1 i) (ten [1 * i; j; 1]%nat x) 1 i m j 1 (1 * i)%nat) as (O1 & D1); try (rewrite EP; assumption); try assumption; try reflexivity; try (apply wf_mk); try (apply wf_ten); try (rewrite EP; cbn; lia); try lia.
  fold phi in O1, D1.
  assert (Hamp : forall is, in_range ds is -> amp phi is = combo w Q is).
  { intros is His. rewrite Eds in His. apply in_range_inv2 in His. destruct His as (p & q & -> & Hp & Hq).
    rewrite Hphi. unfold amp, left_bond. cbn [chain]. change (dim (id3 1 i) 0) with 1%nat. change (dim (id3 1 i) 2) with (1 * i)%nat. change (dim (ten [1 * i; j; 1]%nat x) 2) with 1%nat. cbn [sum chain].
    rewrite (sum_ext _ _ (fun r => delta r p * combo w Q [p; q])).
    - rewrite (sum_delta_l (1 * i) p) by lia. ring.
    - intros r Hr. rewrite id3_get by lia. unfold delta. replace (0 + 1 * p)%nat with p by lia.
      destruct (Nat.eqb_spec p r) as [<-|Hne].
      + rewrite ?Nat.eqb_refl. rewrite get_ten by (apply in_range_3; lia). unfold x. replace (offset [1 * i; j; 1]%nat [p; q; 0%nat]) with (offset [i; j] [p; q]) by (cbn [offset]; lia).
        rewrite unravel_offset by (apply in_range_2; assumption). cbn [Nat.eqb]. rewrite ?Nat.eqb_refl. ring.
      + destruct (Nat.eqb_spec r p); [congruence|]. ring. }
  assert (E0 : dist phi = 0%R).
  { unfold dist2, weight, inner. rewrite <- (kre_rinj 0), rinj_0. f_equal. apply sumcfg_zero. intros is His. rewrite Hamp by exact His. ring. }
  assert (Hle : (err <= dist phi)%R).
  { rewrite <- EP in *. apply C48_two_sites_best; [rewrite EP; reflexivity|assumption|assumption|]. destruct HD as [HD|HD]; [left; exact HD|right].
    rewrite Hphi. unfold site, dim, ten. cbn [nth dims]. rewrite Eds in HD. cbn [nth] in HD. lia. }
  rewrite <- EP in *.
  destruct (C48_many_error svd flag tolerance Hsvd (by_two Dmax tol) P w Q ds sense sweeps Hv P' sense' err Hcall) as (He & _).
  rewrite E0, He in Hle. assert (Hz : dist P' = 0%R) by (apply Rle_antisym; [exact Hle|apply weight_nonneg]).
  split; [congruence|]. intros is His. pose proof (weight_zero ds _ Hz is His) as Hzz. cbn beta in Hzz. transitivity (combo w Q is - (combo w Q is - amp P' is)); [ring|rewrite Hzz; ring].
Qed.
End Two.

(** The closest product state to 2|00> + 2|11> is at the squared distance 4, and simplify finds one; with Dmax = 2, or
    without a limit, it finds the state itself. *)
Lemma product_far4 (P : @mps (@rs_scalar RR)) : open_mps P -> pdims P = [2; 2]%nat -> (dim (site P 1) 0 <= 1)%nat ->
  (4 <= @dist2 RR [2; 2]%nat (amp pairs) (amp P))%R.
Proof.
  intros H1 H2 H3. destruct (two_amp P H1 H2 H3) as (A & B & _ & _ & _ & Ha). unfold dist2. rewrite two_weight. rewrite !Ha.
  set (a := get A [0;0;0]%nat). set (b := get A [0;1;0]%nat). set (c := get B [0;0;0]%nat). set (d := get B [0;1;0]%nat).
  replace (amp pairs [0;0]%nat) with 2%R by (cbn; ring). replace (amp pairs [0;1]%nat) with 0%R by (cbn; ring).
  replace (amp pairs [1;0]%nat) with 0%R by (cbn; ring). replace (amp pairs [1;1]%nat) with 2%R by (cbn; ring).
  change (4 <= (2 - a * c) * (2 - a * c) + (0 - a * d) * (0 - a * d) + (0 - b * c) * (0 - b * c) + (2 - b * d) * (2 - b * d))%R.
  clearbody a b c d. clear. pose proof (Rle_0_sqr (a * d - b * c)) as Q1. pose proof (Rle_0_sqr (a * c + b * d - 2)) as Q2. unfold Rsqr in *. nra.
Qed.

Theorem C48_two_case : exists svd : @tensor (@rs_scalar RR) -> _, svd_contract svd /\
  valid_many 1 (by_two 1 2) one00 [1%R] [pairs] [2; 2]%nat 1 /\ no_truncation (@tolerance_used 1 2) /\
  (exists P' s', simplify_many2 svd 1 (1 / 10) [1%R] [pairs] one00 1 2 1 4 false = Ok (P', s', 4%R) /\ @dist2 RR [2; 2]%nat (amp pairs) (amp P') = 4%R) /\
  exists P' s', simplify_many2 svd 1 (1 / 10) [1%R] [pairs] one00 2 2 1 4 false = Ok (P', s', 0%R) /\ forall is, in_range [2; 2]%nat is -> amp P' is = amp pairs is.
Proof.
  destruct (@svd_contract_satisfiable RR) as (svd & Hsvd). exists svd. split; [exact Hsvd|].
  destruct two_open as (H1 & H2 & H3).
  assert (HV : forall D, valid_many 1 (by_two D 2) one00 [1%R] [pairs] [2; 2]%nat 1).
  { intros D. split; [discriminate|]. split; [reflexivity|]. split; [|split; [exact H2|]].
    - intros q [<-|[]]. split; [exact H3|reflexivity].
    - split; [reflexivity|]. split; [cbn; lia|]. split; [discriminate|]. right. cbn. lra. }
  assert (HT : no_truncation (tolerance_used 1 2)) by (right; unfold tolerance_used; destruct (Rlt_dec 2 0); lra).
  split; [apply HV|]. split; [exact HT|]. split.
  - destruct (C48_many_returns svd 1 (1 / 10) Hsvd (by_two 1 2) one00 [1%R] [pairs] [2; 2]%nat 1 4 (HV 1%Z)) as (P' & s' & err & E). cbn [simplify] in E.
    destruct (C48_many_canonical svd 1 (1 / 10) Hsvd (by_two 1 2) one00 [1%R] [pairs] [2; 2]%nat 1 4 (HV 1%Z) P' s' err E) as (O1 & D1 & _).
    pose proof (C48_many_bonds svd 1 (1 / 10) Hsvd (by_two 1 2) one00 [1%R] [pairs] [2; 2]%nat 1 4 (HV 1%Z) P' s' err E) as Hb. cbn [bonds_ok] in Hb.
    destruct (C48_many_error svd 1 (1 / 10) Hsvd (by_two 1 2) one00 [1%R] [pairs] [2; 2]%nat 1 4 (HV 1%Z) P' s' err E) as (He & _).
    assert (Hl : length P' = 2%nat) by (rewrite <- length_pdims, D1; reflexivity).
    assert (Hb1 : (dim (site P' 1) 0 <= 1)%nat) by (specialize (Hb ltac:(lia) 1%nat ltac:(lia)); lia).
    pose proof (product_far4 P' O1 D1 Hb1) as Hlow. rewrite dist_1 in He.
    pose proof (C48_two_sites_best svd 1 (1 / 10) Hsvd 1 2 one00 [1%R] [pairs] [2; 2]%nat 1 4 (HV 1%Z) HT P' s' err E two00 eq_refl H1 eq_refl ltac:(right; cbn; lia)) as Hup.
    rewrite dist_1 in Hup.
    assert (E4 : @dist2 RR [2; 2]%nat (amp pairs) (amp two00) = 4%R) by (unfold dist2; rewrite two_weight; cbn; ring).
    rewrite E4 in Hup. assert (err = 4%R) as -> by lra. exists P', s'. split; [exact E|]. symmetry. exact He.
  - destruct (C48_many_returns svd 1 (1 / 10) Hsvd (by_two 2 2) one00 [1%R] [pairs] [2; 2]%nat 1 4 (HV 2%Z)) as (P' & s' & err & E). cbn [simplify] in E.
    destruct (C48_two_sites_exact svd 1 (1 / 10) Hsvd 2 2 one00 [1%R] [pairs] [2; 2]%nat 1 4 (HV 2%Z) HT P' s' err E eq_refl ltac:(right; cbn; lia)) as (-> & Ha).
    exists P', s'. split; [exact E|]. intros is Hi. rewrite (Ha is Hi). apply combo_1.
Qed.
