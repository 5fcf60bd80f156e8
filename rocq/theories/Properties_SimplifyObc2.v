(** * simplify_obc with two sites at a time (C62): the result is the best of its kind *)
From Coq Require Import Reals Lra Bool List Arith ZArith Lia Ring.
From Verif Require Import Scalar ScalarFacts RScal RealInst Tensor TensorFacts Spec MpsModel MpsFacts StateFacts StateFacts2 ExpectedFacts MpoSpec CanonSpec CanonModel
  TruncFacts SplitFacts CanonFacts CanonSweep CanonNorm CanonProps CanonTwo SvdExist SweepModel SweepSpec SweepFacts FormModel FormSpec LFormFacts LFormValue
  SimplifySpec SimplifyModel EckartYoung SimplifyFacts SimplifyStep SimplifyPair SimplifyDouble SimplifySweep SimplifyLoop
  SimplifyManyModel ManyFacts ManyEnv ManySweep MinLocal PairBest ManyPair ManyLoop Properties_SimplifyMany Properties_Simplify Properties_SimplifyTwo ObcBest MinimizeSpec MinStep QFormFacts.
Import ListNotations.
Local Open Scope K_scope.

Section Two.
Context {RS : RScal}.
Add Ring Kring : k_ring.
Variable svd : tensor -> tensor * list R * tensor.
Variable flag : R.
Hypothesis Hsvd : svd_contract svd.
Variables (algorithm : bool) (tolerance : R) (P : mps) (w : list K) (Q : list mps) (ds : list nat)
  (sense : Z) (sweeps : nat) (Dmax : Z) (tol : R).
Hypothesis Hv : valid_call flag algorithm P w Q ds sweeps Dmax tol.
Hypothesis H2 : one_site algorithm Dmax = false.
Hypothesis Ht : no_truncation (truncation flag algorithm Dmax tol).
Notation dist P := (dist2 ds (combo w Q) (amp P)).
Variables (P' : mps) (sense' : Z) (err n : R).
Hypothesis Hcall : simplify_obc svd flag algorithm tolerance P w Q sense sweeps false Dmax tol = Ok (P', sense', err, n).

(** Only Dmax limits the bonds: among the states that differ from the result in the last pair of sites, and that have a
    bond of at most Dmax there, none is closer to sum_i w_i Q_i. *)
Theorem C62_two_best : exists k, (k = 0 \/ k = length P - 2)%nat /\
  forall phi, open_mps phi -> pdims phi = ds -> differs_at2 P' phi k -> (Dmax <= 0 \/ Z.of_nat (dim (site phi (S k)) 0) <= Dmax)%Z ->
    (dist P' <= dist phi)%R.
Proof.
  pose proof (Hgood flag algorithm P w Q ds sweeps Dmax tol Hv) as Hg. pose proof (W_pos flag algorithm P w Q ds sweeps Dmax tol Hv) as HW.
  destruct (C62_canonical svd flag Hsvd algorithm tolerance P w Q ds sense sweeps Dmax tol Hv P' sense' err n Hcall) as (O1 & D1 & _).
  pose proof Hv as (_ & _ & _ & Ho & Hd & Hs & _ & Hm & Hn).
  assert (Hm2 : (2 <= length P)%nat) by (destruct Hm as [Hm|Hm]; [congruence|exact Hm]).
  assert (Eff : truncation flag algorithm Dmax tol = eff_tol flag tol).
  { rewrite <- eff_eq. unfold eff_of, one_site in *. rewrite andb_comm, H2. reflexivity. }
  rewrite Eff in Hn, Ht.
  assert (HlP : length P' = length P) by (rewrite <- (length_pdims P'), D1, <- Hd, length_pdims; reflexivity).
  destruct (simplify_obc_best svd flag Hsvd w Q ds Hg Dmax tol) with (algorithm := algorithm) (tolerance := tolerance) (P := P) (sense := sense) (sweeps := sweeps) (P' := P') (s' := sense') (err := err) (n := n) as (kk & Hkk & Hb); try assumption.
  { unfold one_site in H2. rewrite andb_comm. exact H2. }
  { unfold nz. rewrite (overlap_combo w Q ds) by exact Hd. exact Hn. }
  exists kk. split; [exact Hkk|].
  intros phi O2 D2 Df HD. assert (Hk2 : (S kk < length P')%nat) by lia.
  destruct (site2_dims kk P' O1 Hk2) as (a & i & m & j & c & S1 & S2 & _ & _ & Hpos).
  destruct (differ2 ds kk P' phi a i m j c O1 D1 Hk2 S1 S2 O2 D2 Df) as (A & B & q & -> & Hq0 & HwA & HdA & HwB & HdB).
  apply (Hb A B q Hq0); try assumption.
  - rewrite site_put2 in HD by exact Hk2. destruct (Nat.eqb_spec (S kk) kk); [lia|]. rewrite Nat.eqb_refl in HD. unfold dim in HD. rewrite HdB in HD. exact HD.
  - unfold dim. rewrite S1. exact HdA.
  - unfold dim. rewrite S2. exact HdB.
Qed.

(** Two sites: no state at all with a bond of at most Dmax is closer, *)
Theorem C62_two_sites_best phi : length P = 2%nat -> open_mps phi -> pdims phi = ds -> (Dmax <= 0 \/ Z.of_nat (dim (site phi 1) 0) <= Dmax)%Z ->
  (dist P' <= dist phi)%R.
Proof.
  intros HL O1 D1 HD. destruct C62_two_best as (k & Hk & Hb). assert (k = 0%nat) as -> by lia. apply Hb; try assumption.
  pose proof Hv as (_ & _ & _ & Ho & Hd & _).
  assert (E1 : length phi = 2%nat) by (rewrite <- length_pdims, D1, <- Hd, length_pdims; exact HL).
  assert (E2 : length P' = 2%nat).
  { destruct (C62_canonical svd flag Hsvd algorithm tolerance P w Q ds sense sweeps Dmax tol Hv P' sense' err n Hcall) as (_ & D2 & _).
    rewrite <- length_pdims, D2, <- Hd, length_pdims. exact HL. }
  intros j H0 H1. unfold site. rewrite !nth_overflow by lia. reflexivity.
Qed.

(** and if Dmax does not limit the bond the result is the combination itself. *)
Theorem C62_two_sites_exact : length P = 2%nat -> (Dmax <= 0 \/ Z.of_nat (nth 0 ds 0%nat) <= Dmax)%Z ->
  err = 0%R /\ forall is, in_range ds is -> amp P' is = combo w Q is.
Proof.
  intros HL HD. pose proof Hv as (_ & _ & _ & Ho & Hd & _).
  destruct (site2_dims 0 P Ho ltac:(lia)) as (a & i & m & j & c & S1 & S2 & _ & _ & Hpos). pose proof Hpos as (Ha & Hi & Hm & Hj & Hc).
  destruct P as [|A0 [|B0 [|]]] eqn:EP; try discriminate HL. clear HL. unfold site in S1, S2. cbn [nth] in S1, S2.
  assert (Ea : a = 1%nat /\ c = 1%nat).
  { destruct Ho as (_ & Ho). cbn [linked] in Ho. destruct Ho as (i' & c' & HA & _ & _ & _ & j' & e & HB & _ & _ & _ & He). rewrite S1 in HA. injection HA as -> _ _. rewrite S2 in HB. injection HB as _ _ ->. split; [reflexivity|exact He]. }
  destruct Ea as (-> & ->).
  assert (Eds : ds = [i; j]) by (rewrite <- Hd; unfold pdims, dim; cbn [map]; rewrite S1, S2; reflexivity).
  set (x := fun r => combo w Q (unravel [i; j] r)).
  set (phi := put2 0 P (id3 1 i) (ten [1 * i; j; 1]%nat x)).
  assert (Hphi : phi = [id3 1 i; ten [1 * i; j; 1]%nat x]) by (unfold phi; rewrite EP; reflexivity).
  destruct (put2_fits ds 0 P (id3 1 i) (ten [1 * i; j; 1]%nat x) 1 i m j 1 (1 * i)%nat) as (O1 & D1); try (rewrite EP; assumption); try assumption; try reflexivity; try (apply wf_mk); try (apply wf_ten); try (rewrite EP; cbn; lia); try lia.
  fold phi in O1, D1.
  assert (Hamp : forall is, in_range ds is -> amp phi is = combo w Q is).
  { intros is His. rewrite Eds in His. apply in_range_inv2 in His. destruct His as (p & q & -> & Hp & Hq).
    rewrite Hphi. unfold amp, left_bond. cbn [chain]. change (dim (id3 1 i) 0) with 1%nat. change (dim (id3 1 i) 2) with (1 * i)%nat. change (dim (ten [1 * i; j; 1]%nat x) 2) with 1%nat. cbn [sum chain].
    rewrite (sum_ext _ _ (fun r => delta r p * combo w Q [p; q])).
    - rewrite (sum_delta_l (1 * i) p) by lia. ring.
    - intros r Hr. rewrite id3_get by lia. unfold delta. replace (0 + 1 * p)%nat with p by lia.
      destruct (Nat.eqb_spec p r) as [<-|Hne].
      + rewrite ?Nat.eqb_refl. rewrite get_ten by (apply in_range_3; lia). unfold x. replace (offset [1 * i; j; 1]%nat [p; q; 0%nat]) with (offset [i; j] [p; q]) by (cbn [offset]; lia).
        rewrite unravel_offset by (apply in_range_2; assumption). cbn [Nat.eqb]. rewrite ?Nat.eqb_refl. ring.
      + destruct (Nat.eqb_spec r p); [congruence|]. ring. }
  assert (E0 : dist phi = 0%R).
  { unfold dist2, weight, inner. rewrite <- (kre_rinj 0), rinj_0. f_equal. apply sumcfg_zero. intros is His. rewrite Hamp by exact His. ring. }
  assert (Hle : (dist P' <= dist phi)%R).
  { rewrite <- EP in *. apply C62_two_sites_best; [rewrite EP; reflexivity|assumption|assumption|]. destruct HD as [HD|HD]; [left; exact HD|right].
    rewrite Hphi. unfold site, dim, ten. cbn [nth dims]. rewrite Eds in HD. cbn [nth] in HD. lia. }
  rewrite <- EP in *.
  destruct (C62_error svd flag Hsvd algorithm tolerance P w Q ds sense sweeps Dmax tol Hv P' sense' err n Hcall) as (_ & _ & _ & _ & He).
  rewrite E0 in Hle. assert (Hz : dist P' = 0%R) by (apply Rle_antisym; [exact Hle|apply weight_nonneg]).
  split; [rewrite Hz in He; unfold Rdiv in He; rewrite Rmult_0_l in He; destruct (Rmult_integral _ _ He); assumption|].
  intros is His. pose proof (weight_zero ds _ Hz is His) as Hzz. cbn beta in Hzz. transitivity (combo w Q is - (combo w Q is - amp P' is)); [ring|rewrite Hzz; ring].
Qed.
End Two.

(** simplify_obc finds one of the closest product states to 2|00> + 2|11>, at the squared distance 4 (half of the squared
    norm); with Dmax = 2 it finds the state itself. *)
Theorem C62_two_case : exists svd : @tensor (@rs_scalar RR) -> _, svd_contract svd /\
  valid_call 1 true one00 [1%R] [pairs] [2; 2]%nat 4 1 2 /\ one_site true 1 = false /\ no_truncation (truncation 1 true 1 2) /\
  (exists P' s' err n, simplify_obc svd 1 true (1 / 10) one00 [1%R] [pairs] 1 4 false 1 2 = Ok (P', s', err, n) /\
     @dist2 RR [2; 2]%nat (amp pairs) (amp P') = 4%R /\ (err * err = 1 / 2)%R) /\
  exists P' s' n, simplify_obc svd 1 true (1 / 10) one00 [1%R] [pairs] 1 4 false 2 2 = Ok (P', s', 0%R, n) /\ forall is, in_range [2; 2]%nat is -> amp P' is = amp pairs is.
Proof.
  destruct (@svd_contract_satisfiable RR) as (svd & Hsvd). exists svd. split; [exact Hsvd|].
  destruct two_open as (H1 & H2 & H3).
  assert (HV : forall D, valid_call 1 true one00 [1%R] [pairs] [2; 2]%nat 4 D 2).
  { intros D. split; [discriminate|]. split; [reflexivity|]. split; [|split; [exact H2|]].
    - intros q [<-|[]]. split; [exact H3|reflexivity].
    - split; [reflexivity|]. split; [discriminate|]. split.
      + exists [0; 0]%nat. split; [apply in_range_2; lia|]. rewrite combo_1. cbn. lra.
      + split; [right; cbn; lia|]. left. unfold truncation, one_site, tolerance_used. destruct (true && (D =? 0)%Z); [lra|]. destruct (Rlt_dec 2 0); lra. }
  assert (HT : forall D, no_truncation (truncation 1 true D 2)).
  { intros D. right. unfold truncation, one_site, tolerance_used. destruct (true && (D =? 0)%Z); [lra|]. destruct (Rlt_dec 2 0); lra. }
  split; [apply HV|]. split; [reflexivity|]. split; [apply HT|]. split.
  - destruct (C62_returns svd 1 Hsvd true (1 / 10) one00 [1%R] [pairs] [2; 2]%nat 1 4 1 2 (HV 1%Z)) as (P' & s' & err & n & E).
    destruct (C62_canonical svd 1 Hsvd true (1 / 10) one00 [1%R] [pairs] [2; 2]%nat 1 4 1 2 (HV 1%Z) P' s' err n E) as (O1 & D1 & _).
    destruct (C62_bonds svd 1 Hsvd true (1 / 10) one00 [1%R] [pairs] [2; 2]%nat 1 4 1 2 (HV 1%Z) P' s' err n E) as (Hb & _).
    destruct (C62_error svd 1 Hsvd true (1 / 10) one00 [1%R] [pairs] [2; 2]%nat 1 4 1 2 (HV 1%Z) P' s' err n E) as (_ & _ & _ & _ & He).
    assert (Hl : length P' = 2%nat) by (rewrite <- length_pdims, D1; reflexivity).
    assert (Hb1 : (dim (site P' 1) 0 <= 1)%nat) by (specialize (Hb ltac:(lia) 1%nat ltac:(lia)); lia).
    pose proof (product_far4 P' O1 D1 Hb1) as Hlow. rewrite dist_1 in He.
    pose proof (C62_two_sites_best svd 1 Hsvd true (1 / 10) one00 [1%R] [pairs] [2; 2]%nat 1 4 1 2 (HV 1%Z) eq_refl (HT 1%Z) P' s' err n E two00 eq_refl H1 eq_refl ltac:(right; cbn; lia)) as Hup.
    rewrite !dist_1 in Hup.
    assert (E4 : @dist2 RR [2; 2]%nat (amp pairs) (amp two00) = 4%R) by (unfold dist2; rewrite two_weight; cbn; ring).
    rewrite E4 in Hup. assert (E5 : @dist2 RR [2; 2]%nat (amp pairs) (amp P') = 4%R) by lra.
    exists P', s', err, n. split; [exact E|]. split; [exact E5|]. rewrite He, E5.
    assert (E8 : @weight RR [2; 2]%nat (@combo RR [1%R] [pairs]) = 8%R) by (rewrite two_weight, !combo_1; cbn; ring). rewrite E8. lra.
  - destruct (C62_returns svd 1 Hsvd true (1 / 10) one00 [1%R] [pairs] [2; 2]%nat 1 4 2 2 (HV 2%Z)) as (P' & s' & err & n & E).
    destruct (C62_two_sites_exact svd 1 Hsvd true (1 / 10) one00 [1%R] [pairs] [2; 2]%nat 1 4 2 2 (HV 2%Z) eq_refl (HT 2%Z) P' s' err n E eq_refl ltac:(right; cbn; lia)) as (-> & Ha).
    exists P', s', n. split; [exact E|]. intros is Hi. rewrite (Ha is Hi). apply combo_1.
Qed.
