(** * C53: construction of infinite states and two-site operators applied to them *)
From Coq Require Import Reals Lra Bool List Arith ZArith Lia Ring.
From Verif Require Import Scalar ScalarFacts RScal Tensor TensorFacts Spec MpsModel MpsFacts CanonModel CanonSpec TruncFacts CanonFacts CanonSweep CanonNorm SplitFacts DecompModel DecompFacts SvdExist ExpectedFacts TrotterRun ITebdModel ITebdSpec ITebdFacts ITebdSlow ITebdSpec2 ITebdGauge ITebdCanon ITebdCanon2 ITebdApply ITebdApply2 Properties_ITebd2 Properties_ITebd4.
Import ListNotations.
Local Open Scope K_scope.

(** A ring turned by one site *)
Definition rot {X} (l : list X) : list X := match l with [] => [] | x :: r => r ++ [x] end.

Section C53.
Context {RS : RScal}.
Add Ring Kring : k_ring.

(** The matrix elements of the operator that acts with [U] on the pairs of sites (0,1), (2,3), ... of a ring of cells,
    for an even site, and on (1,2), (3,4), ..., (last,0) for an odd one. *)
Definition on_ring (psi : itebd) (site : Z) (U : nat -> nat -> K) (is js : list nat) : K :=
  if Z.odd site then cells_op (dim (iB psi) 1) U (rot is) (rot js) else cells_op (dim (iA psi) 1) U is js.

Variable svd : tensor -> tensor * list R * tensor.
Variable flag : R.
Variable eigs : (tensor -> tensor) -> nat -> tensor -> tensor.
Variable eig_sym : tensor -> list R * tensor.
Hypothesis Hsvd : svd_contract svd.
Hypothesis Hes : eig_sym_contract eig_sym.
Hypothesis Hei : eigs_sized eigs.

Lemma combined_scale t t' l a i b : dims t = [a; i; b] -> dims t' = [a; i; b] -> wf t' ->
  (forall x y z, (x < a)%nat -> (y < i)%nat -> (z < b)%nat -> get t' [x; y; z] = get t [x; y; z] * rinj (nth z l 0%R)) -> scale t 2 l = t'.
Proof.
  intros Hd Hd' Hw H. apply tensor_ext; [apply wf_mk|exact Hw|cbn; rewrite Hd, Hd'; reflexivity|].
  cbn [dims scale mk]. rewrite Hd. intros is Hi. destruct (in_range_inv3 _ _ _ _ Hi) as (x & y & z & -> & Hx & Hy & Hz).
  rewrite get_scale by (rewrite Hd; exact Hi). cbn [nth]. rewrite H by assumption. reflexivity.
Qed.

(** The constructor iTEBD(A, lA, B, lB) accepts exactly tensors that fit, and stores them. *)
Theorem C53_construct A lA B lB canonical D dA E dB : dims A = [D; dA; E] -> wf A -> dims B = [E; dB; D] -> wf B ->
  length lA = E -> length lB = D -> (0 < D)%nat -> (0 < E)%nat -> (0 < dA)%nat -> (0 < dB)%nat ->
  exists psi, new_itebd A lA B lB canonical = Ok psi /\ wf_itebd psi /\ icanon psi = canonical /\
    (forall k, i_matrix psi (2 * k) = A /\ i_matrix psi (2 * k + 1) = B /\ right_vector psi (2 * k) = lA /\ right_vector psi (2 * k + 1) = lB /\
       left_vector psi (2 * k) = lB /\ left_vector psi (2 * k + 1) = lA) /\
    (forall k i x y, (x < dim (i_matrix psi k) 0)%nat -> (i < dim (i_matrix psi k) 1)%nat -> (y < dim (i_matrix psi k) 2)%nat ->
       get (combined_matrix psi k) [x; i; y] = get (i_matrix psi k) [x; i; y] * rinj (nth y (right_vector psi k) 0%R)).
Proof.
  intros HA HAw HB HBw HlA HlB HD HE HdA HdB. unfold new_itebd, rank, dim. rewrite HA, HB, HlA, HlB. cbn [length nth]. rewrite !Nat.eqb_refl. cbn [andb].
  eexists. split; [reflexivity|]. cbn [Nat.sub].
  assert (GA : forall a i b, (a < D)%nat -> (i < dA)%nat -> (b < E)%nat -> get (scale A 2 lA) [a; i; b] = get A [a; i; b] * rinj (nth b lA 0%R)).
  { intros. apply get_scale. rewrite HA. apply in_range_3; assumption. }
  assert (GB : forall a i b, (a < E)%nat -> (i < dB)%nat -> (b < D)%nat -> get (scale B 2 lB) [a; i; b] = get B [a; i; b] * rinj (nth b lB 0%R)).
  { intros. apply get_scale. rewrite HB. apply in_range_3; assumption. }
  split. { exists D, E, dA, dB. cbn [iA ilA iB ilB iAlA iBlB]. do 4 (split; [assumption|]). split; [exact HA|]. split; [exact HAw|]. split; [exact HB|]. split; [exact HBw|].
    split; [exact HlA|]. split; [exact HlB|]. split; [exact HA|]. split; [apply wf_mk|]. split; [exact HB|]. split; [apply wf_mk|]. split; assumption. }
  split; [reflexivity|].
  split.
  - intros k. unfold i_matrix, right_vector, left_vector. cbn [iA ilA iB ilB].
    replace (Z.odd (2 * k)) with false by (rewrite Z.odd_mul; reflexivity).
    replace (Z.odd (2 * k + 1)) with true by (rewrite Z.odd_add, Z.odd_mul; reflexivity). repeat split; reflexivity.
  - intros k i x y. unfold i_matrix, combined_matrix, right_vector. cbn [iA ilA iB ilB iAlA iBlB]. destruct (Z.odd k); [rewrite HB|rewrite HA]; cbn [nth]; intros; auto.
Qed.

Theorem C53_construct_rejects A lA B lB canonical psi : new_itebd A lA B lB canonical = Ok psi ->
  length (dims A) = 3%nat /\ dim A 0 = length lB /\ dim A 2 = length lA /\ dim B 0 = length lA /\ dim B 2 = length lB.
Proof.
  unfold new_itebd, rank. destruct (Nat.eqb_spec (length (dims A)) 3), (Nat.eqb_spec (dim A 0) (length lB)), (Nat.eqb_spec (dim A 2) (length lA)),
    (Nat.eqb_spec (dim B 0) (length lA)), (Nat.eqb_spec (dim B 2) (length lB)); cbn [andb]; intros H; try discriminate. auto.
Qed.

(** The state that apply_operator decomposes: the same rings, turned by one site for an odd one. *)
Definition same_rings (psi : itebd) (site : Z) (phi : itebd) : Prop :=
  forall n, (forall is, in_range (cell_dims psi n) is -> ring phi n (if Z.odd site then rot is else is) = ring psi n is) /\
    cell_dims phi n = (if Z.odd site then rot (cell_dims psi n) else cell_dims psi n).

Lemma apply_core psi U site tol Dmax psi' : wf_itebd psi ->
  apply_operator svd flag eigs eig_sym psi U site tol Dmax = Ok psi' ->
  exists phi aux, wf_itebd phi /\ same_rings psi site phi /\ (length (ilB phi) <= length (left_vector psi site))%nat /\
    (dim (iA phi) 1 = dim (i_matrix psi site) 1)%nat /\ (dim (iB phi) 1 = dim (i_matrix psi (site + 1)) 1)%nat /\
    apply_even svd flag phi U tol Dmax = Ok aux /\
    (if Z.odd site then new_itebd (iB aux) (ilB aux) (iA aux) (ilA aux) false = Ok psi' else psi' = aux).
Proof.
  intros Hw. unfold apply_operator, left_vector, i_matrix, same_rings. rewrite Z.odd_add. change (Z.odd 1) with true. destruct (Z.odd site) eqn:Eo.
  - destruct (new_itebd (iB psi) (ilB psi) (iA psi) (ilA psi) false) as [aux0|] eqn:E0; [|discriminate]. cbn [bind].
    pose proof Hw as (D & E & dA & dB & HD & HE & HdA & HdB & HA & HAw & HB & HBw & HlA & HlB & HAl & HAlw & HBl & HBlw & HgA & HgB).
    assert (Es : aux0 = mkI (iB psi) (ilB psi) (iA psi) (ilA psi) (iBlB psi) (iAlA psi) false).
    { unfold new_itebd in E0. match type of E0 with (if ?t then _ else _) = _ => destruct t; [|discriminate] end. apply Ok_inj' in E0. rewrite <- E0.
      unfold rank. rewrite HA, HB. cbn [length Nat.sub]. f_equal.
      - apply (combined_scale _ _ _ E dB D); assumption.
      - apply (combined_scale _ _ _ D dA E); assumption. }
    assert (Hw0 : wf_itebd aux0). { rewrite Es. exists E, D, dB, dA. cbn [iA ilA iB ilB iAlA iBlB]. auto 20. }
    destruct (canonical_form svd eigs eig_sym aux0) as [phi|] eqn:Ec; [|discriminate]. cbn [bind].
    destruct (C63_canonical_ring svd eigs eig_sym Hsvd Hes aux0 phi Hw0 Hei Ec) as (Hwp & _ & Hcd & Hr & ElA & LlB & _).
    destruct (apply_even svd flag phi U tol Dmax) as [aux|] eqn:Ea; [|discriminate]. cbn [bind]. intros Hn.
    exists phi, aux. split; [exact Hwp|].
    assert (Hrot : forall n, cell_dims phi n = rot (cell_dims psi n)).
    { intros n. rewrite Hcd, Es. change (cell_dims (mkI (iB psi) (ilB psi) (iA psi) (ilA psi) (iBlB psi) (iAlA psi) false) n) with (cell_dims (shift psi) n).
      destruct (cell_dims psi n) as [|d ds] eqn:Ed; [|apply cell_dims_shift; exact Ed]. destruct n as [|n]; [reflexivity|discriminate]. }
    split. { intros n. split; [|apply Hrot]. intros is Hi. rewrite Hr.
        - rewrite Es. change (ring (mkI (iB psi) (ilB psi) (iA psi) (ilA psi) (iBlB psi) (iAlA psi) false)) with (ring (shift psi)).
          destruct is as [|i is]; [|apply ring_shift; assumption]. destruct n as [|n]; [reflexivity|]. unfold cell_dims in Hi. cbn in Hi. inversion Hi.
        - rewrite <- Hcd, Hrot. destruct is as [|i is].
          + destruct (cell_dims psi n); [constructor|inversion Hi].
          + destruct (cell_dims psi n) as [|d ds]; [inversion Hi|]. apply in_range_cons_inv in Hi. destruct Hi as (i' & is' & Ei & Hi1 & Hi2). injection Ei as -> ->. cbn [rot].
            apply ScalarFacts.in_range_app; [exact Hi2|apply in_range_1; exact Hi1]. }
    split. { rewrite Es in LlB. exact LlB. }
    specialize (Hcd 1%nat). rewrite Es in Hcd. unfold cell_dims in Hcd. cbn [repeat concat app iA iB] in Hcd. injection Hcd as Hc1 Hc2.
    split; [exact Hc1|]. split; [exact Hc2|]. split; [exact Ea|exact Hn].
  - destruct (icanon psi) eqn:Ei; cbn [negb].
    + intros Ea. exists psi, psi'. split; [exact Hw|]. split; [intros n; split; [intros; reflexivity|reflexivity]|]. repeat split; auto.
    + destruct (canonical_form svd eigs eig_sym psi) as [phi|] eqn:Ec; [|discriminate]. cbn [bind]. intros Ea.
      destruct (C63_canonical_ring svd eigs eig_sym Hsvd Hes psi phi Hw Hei Ec) as (Hwp & _ & Hcd & Hr & ElA & LlB & _).
      exists phi, psi'. split; [exact Hwp|]. split; [intros n; split; [apply Hr|apply Hcd]|]. split; [exact LlB|].
      specialize (Hcd 1%nat). unfold cell_dims in Hcd. cbn [repeat concat app iA iB] in Hcd. injection Hcd as Hc1 Hc2. repeat split; auto.
Qed.

Lemma apply_even_U phi U tol Dmax aux D E dA dB : dims (iAlA phi) = [D; dA; E] -> dims (iB phi) = [E; dB; D] -> wf U ->
  apply_even svd flag phi U tol Dmax = Ok aux -> is_matrix U (dA * dB) (dA * dB).
Proof.
  intros HA HB HU. unfold apply_even. cbv zeta. set (G := fold (iAlA phi) (rank (iAlA phi) - 1) (iB phi) 0).
  assert (Hd : dims G = [D; dA; dB; D]). { unfold G, fold, rank. rewrite HA, HB. reflexivity. }
  assert (E0 : dim G 1 = dA /\ dim G 2 = dB) by (unfold dim; rewrite Hd; split; reflexivity). destruct E0 as [-> ->].
  destruct (Nat.eqb_spec (rank U) 2) as [H1|]; [|discriminate]. destruct (Nat.eqb_spec (dim U 0) (dA * dB)) as [H2|]; [|discriminate]. destruct (Nat.eqb_spec (dim U 1) (dA * dB)) as [H3|]; [|discriminate].
  intros _. split; [|exact HU]. unfold rank, dim in *. destruct (dims U) as [|x [|y [|]]]; try discriminate. cbn in H2, H3. rewrite H2, H3. reflexivity.
Qed.

(** What apply_operator does, in one place; the theorems below are its parts. *)
Lemma apply_all psi U site tol Dmax psi' : wf_itebd psi -> wf U ->
  apply_operator svd flag eigs eig_sym psi U site tol Dmax = Ok psi' ->
  let res := if Z.odd site then shift psi' else psi' in
  exists phi N, wf_itebd phi /\ same_rings psi site phi /\ (0 < N)%R /\ wf_itebd psi' /\ icanon psi' = false /\
    (forall n, cell_dims psi' n = cell_dims psi n) /\
    (dim (i_matrix psi 0) 1 = dim (i_matrix psi 1) 1)%nat /\
    (dim (iA phi) 1 = dim (i_matrix psi site) 1)%nat /\ (dim (iB phi) 1 = dim (i_matrix psi (site + 1)) 1)%nat /\
    (length (left_vector psi' site) <= length (left_vector psi site))%nat /\ left_vector psi' site = ilB phi /\
    ((0 < Dmax)%Z -> (Z.of_nat (length (right_vector psi' site)) <= Dmax)%Z) /\
    (length (right_vector psi' site) <= length (left_vector psi' site) * dim (i_matrix psi 0) 1)%nat /\
    (forall k, (0 <= nth k (right_vector psi' site) 0)%R) /\ tail_weight (right_vector psi' site) 0 = 1%R /\
    (N * N + cell_norm phi (fun a b is => cell_after phi (mat U) a b is - rinj N * section res 1 a b is)%K = cell_norm phi (cell_after phi (mat U)))%R /\
    ((eff_tol flag tol = 0 \/ 1 <= eff_tol flag tol)%R -> (Dmax <= 0)%Z -> 
      cell_norm phi (fun a b is => cell_after phi (mat U) a b is - rinj N * section res 1 a b is)%K = 0%R /\
      forall n is, in_range (cell_dims phi n) is -> rinj (N ^ n)%R * ring res n is = sumcfg (cell_dims phi n) (fun js => cells_op (dim (iA phi) 1) (mat U) is js * ring phi n js)) /\
    ((0 < eff_tol flag tol < 1)%R -> (Dmax <= 0)%Z ->
      (cell_norm phi (fun a b is => cell_after phi (mat U) a b is - rinj N * section res 1 a b is)%K <= Rmax (eff_tol flag tol) DBL_EPSILON * cell_norm phi (cell_after phi (mat U)))%R) /\
    (forall X Y : nat -> nat -> nat -> K, (cell_norm phi (fun a b is => cell_after phi (mat U) a b is - rinj N * section res 1 a b is)%K <=
      cell_norm phi (fun a b is => cell_after phi (mat U) a b is - sum (length (right_vector psi' site)) (fun k => X a (nth 0 is 0%nat) k * Y k (nth 1 is 0%nat) b))%K)%R).
Proof.
  intros Hw HU Hok. cbv zeta. destruct (apply_core psi U site tol Dmax psi' Hw Hok) as (phi & aux & Hwp & Hsame & Hlen & HdA1 & HdB1 & Hev & Hres).
  pose proof Hwp as (D & E & dA & dB & HD & HE & HdA & HdB & HA & HAw & HB & HBw & HlA & HlB & HAl & HAlw & HBl & HBlw & HgA & HgB).
  pose proof (apply_even_U phi U tol Dmax aux D E dA dB HAl HB HU Hev) as HUm.
  destruct (apply_even_ok svd Hsvd flag phi D E dA dB HD HE HdA HdB HA HB HlB HAl HBl HgB U HUm tol Dmax aux Hev)
    as (Ed & c & N & Hc & Hc1 & HcD & HN & HA' & HAw' & HB' & HBw' & HlA' & HlB' & Hcan & EAl & EBl & Hpos & Hone & HlBn & HNN & Hex & Hbd & Hopt).
  set (res := if Z.odd site then shift psi' else psi').
  assert (Eres : iA res = iA aux /\ iB res = iB aux /\ ilA res = ilA aux /\ ilB res = ilB aux /\ iAlA res = iAlA aux /\ iBlB res = iBlB aux /\ icanon psi' = false).
  { unfold res. destruct (Z.odd site).
    - unfold new_itebd in Hres. match type of Hres with (if ?t then _ else _) = _ => destruct t; [|discriminate] end. apply Ok_inj' in Hres. rewrite <- Hres.
      cbn [shift iA iB ilA ilB iAlA iBlB icanon]. unfold rank. rewrite HA', HB'. cbn [length Nat.sub]. rewrite EAl, EBl. repeat split; reflexivity.
    - rewrite Hres. repeat split; try reflexivity. exact Hcan. }
  destruct Eres as (R1 & R2 & R3 & R4 & R5 & R6 & Hcan').
  assert (Hwr : wf_itebd res).
  { exists D, c, dA, dB. rewrite R1, R2, R3, R4, R5, R6. rewrite HlB', EAl, EBl. do 4 (split; [assumption|]). do 4 (split; [assumption|]). split; [exact HlA'|]. split; [exact HlB|].
    split; [exact HA'|]. split; [apply wf_mk|]. split; [exact HB'|]. split; [apply wf_mk|]. split.
    - intros. apply get_scale. rewrite HA'. apply in_range_3; assumption.
    - intros. rewrite HlB'. apply get_scale. rewrite HB'. apply in_range_3; assumption. }
  assert (Hsec : forall a b is, section res 1 a b is = section aux 1 a b is).
  { intros. unfold section, cells. rewrite R4, R5, R6. reflexivity. }
  assert (Hcn : forall f g, (forall a b is, f a b is = g a b is) -> cell_norm phi f = cell_norm phi g).
  { intros f g Hfg. unfold cell_norm. apply rsum_ext. intros a _. apply rsum_ext. intros b _. apply rsum_ext. intros i _. apply rsum_ext. intros j _. rewrite Hfg. reflexivity. }
  assert (Erest : cell_norm phi (fun a b is => cell_after phi (mat U) a b is - rinj N * section res 1 a b is) = cell_norm phi (rest phi U aux N)).
  { apply Hcn. intros. unfold rest. rewrite Hsec. reflexivity. }
  assert (Hwp' : wf_itebd psi').
  { unfold res in Hwr. destruct (Z.odd site); [|exact Hwr]. apply wf_shift in Hwr. destruct psi'; exact Hwr. }
  assert (Elv : left_vector psi' site = ilB phi /\ right_vector psi' site = ilA aux).
  { unfold left_vector, right_vector. rewrite <- HlB', <- R3, <- R4. unfold res. destruct (Z.odd site); split; reflexivity. }
  destruct Elv as [Elv Erv].
  assert (Hdim : dim (i_matrix psi site) 1 = dA /\ dim (i_matrix psi (site + 1)) 1 = dB).
  { rewrite <- HdA1, <- HdB1. unfold dim. rewrite HA, HB. split; reflexivity. }
  exists phi, N. split; [exact Hwp|]. split; [exact Hsame|]. split; [exact HN|]. split; [exact Hwp'|]. split; [exact Hcan'|].
  split. { assert (He : dim (iA psi') 1 = dim (iA psi) 1 /\ dim (iB psi') 1 = dim (iB psi) 1).
      { assert (He : dim (i_matrix psi' site) 1 = dA /\ dim (i_matrix psi' (site + 1)) 1 = dB).
        { unfold i_matrix. rewrite Z.odd_add. change (Z.odd 1) with true. unfold res in R1, R2. unfold dim. destruct (Z.odd site); cbn [xorb negb shift iA iB] in *; rewrite R1, R2, HA', HB'; split; reflexivity. }
        revert He Hdim. unfold i_matrix. rewrite Z.odd_add. change (Z.odd 1) with true. destruct (Z.odd site); cbn [xorb negb]; intros [? ?] [? ?]; split; congruence. }
      intros n. unfold cell_dims. destruct He as [-> ->]. reflexivity. }
  split. { revert Hdim. unfold i_matrix. rewrite Z.odd_add. change (Z.odd 1) with true. change (Z.odd 0) with false. destruct (Z.odd site); cbn [xorb negb]; intros [? ?]; congruence. }
  split; [exact HdA1|]. split; [exact HdB1|].
  rewrite Erv, Elv, HlA', HlB. split; [lia|]. split; [reflexivity|]. split; [exact HcD|].
  split. { replace (dim (i_matrix psi 0) 1) with dA; [lia|]. revert Hdim. unfold i_matrix. rewrite Z.odd_add. change (Z.odd 1) with true. change (Z.odd 0) with false. destruct (Z.odd site); cbn [xorb negb]; intros [? ?]; congruence. }
  split. { intros k. destruct (lt_dec k c) as [Hk|Hk]; [apply Hpos; exact Hk|]. rewrite nth_overflow by lia. lra. }
  split; [exact Hone|]. rewrite !Erest. split; [exact HNN|]. split; [|split; [exact Hbd|exact Hopt]].
  intros Ht HDm. destruct (Hex Ht HDm) as [Hz Hcell]. split; [exact Hz|].
  replace (dim (iA phi) 1) with dA by (unfold dim; rewrite HA; reflexivity).
  apply (ring_after phi res D E c dA dB (mat U) N HD HE Hc HdA HdB HA HB HAl HBl HAlw HBlw); try (rewrite ?R5, ?R6, ?EAl, ?EBl; first [exact HA'|exact HB'|apply wf_mk]).
  intros a b i j Ha Hb Hi Hj. specialize (Hcell a b i j Ha Hb Hi Hj). unfold rest in Hcell.
  assert (HlBne : rinj (nth a (ilB phi) 0%R) * rinj (/ nth a (ilB phi) 0)%R = 1) by (rewrite <- rinj_mul, Rinv_r by (apply HlBn; exact Ha); apply rinj_1).
  assert (E1 : rinj N * section aux 1 a b [i; j] = cell_after phi (mat U) a b [i; j]).
  { transitivity (cell_after phi (mat U) a b [i; j] - (cell_after phi (mat U) a b [i; j] - rinj N * section aux 1 a b [i; j])); [ring|rewrite Hcell; ring]. }
  unfold section in E1. rewrite HlB' in E1. unfold cell_after in E1. unfold dim in E1 at 1. rewrite HA in E1. cbn [nth] in E1.
  assert (Ecc : cells res 1 = cells aux 1) by (unfold cells; rewrite R5, R6; reflexivity). rewrite Ecc.
  transitivity (rinj (/ nth a (ilB phi) 0)%R * (rinj N * (rinj (nth a (ilB phi) 0%R) * chain (cells aux 1) [i; j] a b))).
  { transitivity ((rinj (nth a (ilB phi) 0%R) * rinj (/ nth a (ilB phi) 0)%R) * (rinj N * chain (cells aux 1) [i; j] a b)); [rewrite HlBne; ring|ring]. }
  rewrite E1, sumcfg_mul_l. apply sumcfg_ext. intros js Hjs. unfold section.
  transitivity ((rinj (nth a (ilB phi) 0%R) * rinj (/ nth a (ilB phi) 0)%R) * (cells_op dA (mat U) [i; j] js * chain (cells phi 1) js a b)); [ring|rewrite HlBne; ring].
Qed.

Lemma sumcfg_rot ds (f : list nat -> K) : sumcfg (rot ds) f = sumcfg ds (fun js => f (rot js)).
Proof.
  destruct ds as [|d ds]; [reflexivity|]. cbn [rot]. rewrite sumcfg_app. cbn [sumcfg]. rewrite sumcfg_sum_swap. apply sum_ext. intros i _. reflexivity.
Qed.

Lemma in_range_rot ds is : in_range ds is -> in_range (rot ds) (rot is).
Proof.
  intros Hi. destruct ds as [|d ds].
  - apply in_range_nil_inv in Hi. subst is. constructor.
  - apply in_range_cons_inv in Hi. destruct Hi as (i & is' & -> & Hi1 & Hi2). cbn [rot]. apply ScalarFacts.in_range_app; [exact Hi2|apply in_range_1; exact Hi1].
Qed.

Lemma ring_shift_rot psi n is : wf_itebd psi -> in_range (cell_dims psi n) is -> ring (shift psi) n (rot is) = ring psi n is.
Proof.
  intros Hw Hi. destruct is as [|i is]; [|apply ring_shift; assumption]. destruct n as [|n]; [reflexivity|]. unfold cell_dims in Hi. cbn in Hi. inversion Hi.
Qed.

(** apply_operator(U, site, tolerance, max_dim) returns a well-formed state with the same physical dimensions that is
    not marked canonical.  The bond inside the pair of sites is at most [Dmax]; its weights are normalised. *)
Theorem C53_apply_form psi U site tol Dmax psi' : wf_itebd psi -> wf U ->
  apply_operator svd flag eigs eig_sym psi U site tol Dmax = Ok psi' ->
  wf_itebd psi' /\ icanon psi' = false /\ (forall n, cell_dims psi' n = cell_dims psi n) /\
  ((0 < Dmax)%Z -> (Z.of_nat (length (right_vector psi' site)) <= Dmax)%Z) /\
  (length (right_vector psi' site) <= length (left_vector psi' site) * dim (i_matrix psi site) 1)%nat /\
  (length (left_vector psi' site) <= length (left_vector psi site))%nat /\
  (forall k, (0 <= nth k (right_vector psi' site) 0)%R) /\ tail_weight (right_vector psi' site) 0 = 1%R.
Proof.
  intros Hw HU Hok. destruct (apply_all psi U site tol Dmax psi' Hw HU Hok) as (phi & N & H1 & H2 & H3 & H4 & H5 & H6 & H7 & H8 & H9 & H10 & H11 & H12 & H13 & H14 & H15 & _).
  do 4 (split; [assumption|]). split; [|split; [assumption|split; assumption]].
  replace (dim (i_matrix psi site) 1) with (dim (i_matrix psi 0) 1); [exact H13|]. unfold i_matrix in *. change (Z.odd 0) with false in *. change (Z.odd 1) with true in *. destruct (Z.odd site); congruence.
Qed.

(** Without truncation the new state is the operator applied to the old one, on every ring and up to one factor per
    cell. *)
Theorem C53_apply_exact psi U site tol Dmax psi' : wf_itebd psi -> wf U ->
  (eff_tol flag tol = 0 \/ 1 <= eff_tol flag tol)%R -> (Dmax <= 0)%Z ->
  apply_operator svd flag eigs eig_sym psi U site tol Dmax = Ok psi' ->
  exists N, (0 < N)%R /\ forall n is, in_range (cell_dims psi n) is ->
    rinj (N ^ n)%R * ring psi' n is = sumcfg (cell_dims psi n) (fun js => on_ring psi site (mat U) is js * ring psi n js).
Proof.
  intros Hw HU Ht HDm Hok. destruct (apply_all psi U site tol Dmax psi' Hw HU Hok) as (phi & N & H1 & H2 & H3 & H4 & H5 & H6 & H7 & H8 & H9 & H10 & H11 & H12 & H13 & H14 & H15 & H16 & H17 & _).
  exists N. split; [exact H3|]. destruct (H17 Ht HDm) as [_ Hr]. intros n is Hi. destruct (H2 n) as [Hring Hdim].
  unfold on_ring. rewrite H8 in Hr. unfold i_matrix in Hr. destruct (Z.odd site).
  - specialize (Hr n (rot is)). rewrite Hdim in Hr. specialize (Hr (in_range_rot _ _ Hi)). rewrite sumcfg_rot in Hr.
    rewrite ring_shift_rot in Hr by (first [exact H4|rewrite H6; exact Hi]). rewrite Hr. apply sumcfg_ext. intros js Hjs. rewrite Hring by exact Hjs. reflexivity.
  - specialize (Hr n is). rewrite Hdim in Hr. rewrite (Hr Hi). apply sumcfg_ext. intros js Hjs. rewrite Hring by exact Hjs. reflexivity.
Qed.

(** With truncation: [phi] is the same state (in canonical form, its cells starting at [site]), and the cell of the new
    state is the cell of [phi] after the operator up to what was dropped: no pair of tensors with the same bond is
    closer to it, and with a tolerance alone the dropped weight is at most the tolerance. *)
Theorem C53_apply_error psi U site tol Dmax psi' : wf_itebd psi -> wf U ->
  apply_operator svd flag eigs eig_sym psi U site tol Dmax = Ok psi' ->
  exists phi N, wf_itebd phi /\ same_rings psi site phi /\ (0 < N)%R /\
    let target := cell_after phi (mat U) in
    let err := cell_norm phi (fun a b is => target a b is - rinj N * section (if Z.odd site then shift psi' else psi') 1 a b is) in
    (N * N + err = cell_norm phi target)%R /\
    ((0 < eff_tol flag tol < 1)%R -> (Dmax <= 0)%Z -> (err <= Rmax (eff_tol flag tol) DBL_EPSILON * cell_norm phi target)%R) /\
    (forall X Y : nat -> nat -> nat -> K,
      (err <= cell_norm phi (fun a b is => target a b is - sum (length (right_vector psi' site)) (fun k => X a (nth 0 is 0%nat) k * Y k (nth 1 is 0%nat) b))%K)%R).
Proof.
  intros Hw HU Hok. destruct (apply_all psi U site tol Dmax psi' Hw HU Hok) as (phi & N & H1 & H2 & H3 & H4 & H5 & H6 & H7 & H8 & H9 & H10 & H11 & H12 & H13 & H14 & H15 & H16 & H17 & H18 & H19).
  exists phi, N. split; [exact H1|]. split; [exact H2|]. split; [exact H3|]. cbv zeta. split; [exact H16|]. split; [exact H18|exact H19].
Qed.

(** It returns for a canonical state, an even site, equal physical dimensions, weights that are not zero and an
    operator that does not annihilate the cell. *)
Theorem C53_apply_defined psi U site tol Dmax : wf_itebd psi -> icanon psi = true -> Z.odd site = false ->
  dim (iA psi) 1 = dim (iB psi) 1 -> is_matrix U (dim (iA psi) 1 * dim (iB psi) 1) (dim (iA psi) 1 * dim (iB psi) 1) ->
  (forall k, (k < length (ilB psi))%nat -> nth k (ilB psi) 0%R <> 0%R) ->
  (exists a b is, (a < length (ilB psi))%nat /\ (b < length (ilB psi))%nat /\ in_range (cell_dims psi 1) is /\ cell_after psi (mat U) a b is <> 0) ->
  exists psi', apply_operator svd flag eigs eig_sym psi U site tol Dmax = Ok psi'.
Proof.
  intros (D & E & dA & dB & HD & HE & HdA & HdB & HA & HAw & HB & HBw & HlA & HlB & HAl & HAlw & HBl & HBlw & HgA & HgB) Hc Ho Hd HU Hnz (a & b & is & Ha & Hb & Hi & Hne).
  unfold apply_operator. rewrite Ho, Hc. cbn [negb]. unfold dim in Hd, HU. rewrite HA, HB in Hd, HU. cbn [nth] in Hd, HU. rewrite HlB in *.
  rewrite (cell_dims_1 psi D E dA dB HA HB) in Hi. destruct (cell_in _ _ is Hi) as (i & j & -> & Hi1 & Hj1).
  apply (apply_even_defined svd Hsvd flag psi D E dA dB HD HE HdA HdB HA HB HlB HAl HBl HgB U HU tol Dmax Hd HlA Hnz).
  exists a, b, i, j. auto.
Qed.

(** REFUTED: that operators can be applied to states whose two sites have different dimensions. *)
Theorem C53_dimensions_refuted psi U site tol Dmax : wf_itebd psi -> wf U -> dim (iA psi) 1 <> dim (iB psi) 1 ->
  apply_operator svd flag eigs eig_sym psi U site tol Dmax = Abort.
Proof.
  intros Hw HU Hd. destruct (apply_operator svd flag eigs eig_sym psi U site tol Dmax) as [psi'|] eqn:Ho; [|reflexivity].
  exfalso. destruct (apply_all psi U site tol Dmax psi' Hw HU Ho) as (phi & N & H1 & H2 & H3 & H4 & H5 & H6 & H7 & _). exact (Hd H7).
Qed.

Lemma cells_op_unitary dA dB (U : nat -> nat -> K) n : (0 < dA)%nat ->
  (forall p q, (p < dA * dB)%nat -> (q < dA * dB)%nat -> sum (dA * dB) (fun k => kconj (U k p) * U k q) = delta p q) ->
  forall js ks, in_range (concat (repeat [dA; dB] n)) js -> in_range (concat (repeat [dA; dB] n)) ks ->
  sumcfg (concat (repeat [dA; dB] n)) (fun is => kconj (cells_op dA U is js) * cells_op dA U is ks) = id_op js ks.
Proof.
  intros HdA HU. induction n as [|n IH]; intros js ks Hj Hk.
  - cbn [repeat concat] in *. apply in_range_nil_inv in Hj. apply in_range_nil_inv in Hk. subst. cbn. rewrite kconj_1. ring.
  - cbn [repeat concat app] in *. apply in_range_cons_inv in Hj. destruct Hj as (j1 & js1 & -> & Hj1 & Hj). apply in_range_cons_inv in Hj. destruct Hj as (j2 & js2 & -> & Hj2 & Hj).
    apply in_range_cons_inv in Hk. destruct Hk as (k1 & ks1 & -> & Hk1 & Hk). apply in_range_cons_inv in Hk. destruct Hk as (k2 & ks2 & -> & Hk2 & Hk).
    cbn [sumcfg cells_op id_op]. rewrite <- (IH js2 ks2 Hj Hk).
    set (S := sumcfg (concat (repeat [dA; dB] n)) (fun is => kconj (cells_op dA U is js2) * cells_op dA U is ks2)).
    transitivity (sum (dA * dB) (fun x => kconj (U x (j1 + dA * j2)%nat) * U x (k1 + dA * k2)%nat) * S).
    + rewrite (sum_merge dA dB). rewrite (sum_swap dB dA). rewrite sum_mul_r. apply sum_ext. intros i Hi. rewrite sum_mul_r. apply sum_ext. intros i' Hi'.
      unfold S. rewrite sumcfg_mul_l. apply sumcfg_ext. intros is _. rewrite kconj_mul. ring.
    + rewrite HU by nia. transitivity (delta j1 k1 * delta j2 k2 * S); [|ring]. f_equal. unfold delta.
      destruct (Nat.eqb_spec j1 k1) as [->|N1]; [destruct (Nat.eqb_spec j2 k2) as [->|N2]|].
      * rewrite Nat.eqb_refl. ring.
      * destruct (Nat.eqb_spec (k1 + dA * j2) (k1 + dA * k2)); [nia|ring].
      * destruct (Nat.eqb_spec (j1 + dA * j2) (k1 + dA * k2)) as [E|]; [|ring].
        exfalso. apply N1. apply (f_equal (fun x => x mod dA)%nat) in E. rewrite (Nat.mul_comm dA j2), (Nat.mul_comm dA k2), !Nat.mod_add, !Nat.mod_small in E by lia. exact E.
Qed.

(** A unitary operator applied without truncation does not change the norm of any ring, up to the factor per cell. *)
Theorem C53_unitary psi U site tol Dmax psi' : wf_itebd psi -> wf U ->
  (eff_tol flag tol = 0 \/ 1 <= eff_tol flag tol)%R -> (Dmax <= 0)%Z ->
  (let d := (dim (iA psi) 1 * dim (iB psi) 1)%nat in
   forall p q, (p < d)%nat -> (q < d)%nat -> sum d (fun k => kconj (mat U k p) * mat U k q) = delta p q) ->
  apply_operator svd flag eigs eig_sym psi U site tol Dmax = Ok psi' ->
  exists N, (0 < N)%R /\ forall n, rinj (N ^ n * N ^ n)%R * ring_mean psi' n id_op = ring_mean psi n id_op.
Proof.
  intros Hw HU Ht HDm Hun Hok. cbv zeta in Hun. pose proof (C53_apply_form psi U site tol Dmax psi' Hw HU Hok) as (_ & _ & Hcd & _).
  destruct (C53_apply_exact psi U site tol Dmax psi' Hw HU Ht HDm Hok) as (N & HN & Hr). exists N. split; [exact HN|]. intros n.
  assert (Hdp : (0 < dim (iA psi) 1 /\ 0 < dim (iB psi) 1)%nat).
  { destruct Hw as (D & E & dA & dB & HD & HE & HdA & HdB & HA & HAw & HB & HBw & _). unfold dim. rewrite HA, HB. cbn. lia. }
  set (dA := dim (iA psi) 1) in *. set (dB := dim (iB psi) 1) in *.
  assert (Hc : cell_dims psi n = concat (repeat [dA; dB] n)) by reflexivity.
  assert (Huo : forall js ks, in_range (cell_dims psi n) js -> in_range (cell_dims psi n) ks ->
    sumcfg (cell_dims psi n) (fun is => kconj (on_ring psi site (mat U) is js) * on_ring psi site (mat U) is ks) = id_op js ks).
  { intros js ks Hj Hk. unfold on_ring. fold dA dB. destruct (Z.odd site).
    - rewrite <- (sumcfg_rot (cell_dims psi n) (fun is => kconj (cells_op dB (mat U) is (rot js)) * cells_op dB (mat U) is (rot ks))).
      assert (Hro : rot (cell_dims psi n) = concat (repeat [dB; dA] n)). { rewrite Hc. destruct n as [|m]; [reflexivity|]. cbn [repeat concat app rot]. f_equal. symmetry. apply alternate. }
      pose proof (in_range_rot _ _ Hj) as Hj'. pose proof (in_range_rot _ _ Hk) as Hk'. rewrite Hro in *.
      rewrite (cells_op_unitary dB dA (mat U) n (proj2 Hdp)); try assumption.
      + destruct n as [|m]. { rewrite Hc in Hj, Hk. apply in_range_nil_inv in Hj. apply in_range_nil_inv in Hk. subst. reflexivity. }
        rewrite Hc in Hj, Hk. cbn [repeat concat app] in Hj, Hk. apply in_range_cons_inv in Hj. destruct Hj as (j1 & js1 & -> & Hj1 & Hj). apply in_range_cons_inv in Hk. destruct Hk as (k1 & ks1 & -> & Hk1 & Hk).
        cbn [rot]. rewrite id_op_app by (rewrite (ScalarFacts.in_range_length _ _ Hj), (ScalarFacts.in_range_length _ _ Hk); reflexivity). cbn [id_op]. ring.
      + rewrite (Nat.mul_comm dB dA). exact Hun.
    - rewrite Hc in *. apply cells_op_unitary; try assumption. exact (proj1 Hdp). }
  unfold ring_mean. rewrite !melem_id, Hcd. unfold inner.
  transitivity (sumcfg (cell_dims psi n) (fun is => kconj (rinj (N ^ n)%R * ring psi' n is) * (rinj (N ^ n)%R * ring psi' n is))).
  { rewrite sumcfg_mul_l. apply sumcfg_ext. intros is _. rewrite rinj_mul, kconj_mul, rinj_conj. ring. }
  transitivity (sumcfg (cell_dims psi n) (fun is => sumcfg (cell_dims psi n) (fun js => sumcfg (cell_dims psi n) (fun ks =>
     (kconj (ring psi n js) * ring psi n ks) * (kconj (on_ring psi site (mat U) is js) * on_ring psi site (mat U) is ks))))).
  { apply sumcfg_ext. intros is Hi. rewrite (Hr n is Hi). rewrite sumcfg_conj, sumcfg_mul_r. apply sumcfg_ext. intros js _. rewrite sumcfg_mul_l. apply sumcfg_ext. intros ks _. rewrite kconj_mul. ring. }
  rewrite sumcfg_swap. apply sumcfg_ext. intros js Hj. rewrite sumcfg_swap.
  transitivity (sumcfg (cell_dims psi n) (fun ks => id_op js ks * (kconj (ring psi n js) * ring psi n ks))).
  { apply sumcfg_ext. intros ks Hk. rewrite <- sumcfg_mul_l. rewrite Huo by assumption. ring. }
  apply (sumcfg_id_op (cell_dims psi n) js (fun ks => kconj (ring psi n js) * ring psi n ks) Hj).
Qed.
End C53.
