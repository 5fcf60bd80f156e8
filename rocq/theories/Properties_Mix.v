(** * C73: real states and complex operators *)
From Coq Require Import Reals ZArith List Arith Bool Lia Lra.
From Verif Require Import Scalar RealInst Tensor Spec MpsModel HamSpec HamModel HamFacts MixModel MixFacts
  ScalarFacts TensorFacts MpsFacts Properties_Mps Properties_Ham.
Import ListNotations.

(** The number x + 0i. *)
Definition as_complex (f : list nat -> R) : list nat -> Cx := fun is => mkC (f is) 0.

(** C73. CMPS(psi) is a state of the same chain with the same amplitudes. *)
Theorem C73_convert (psi : @mps RScalar) : wf_mps psi ->
  wf_mps (cmps_of_rmps psi) /\ length (cmps_of_rmps psi) = length psi /\
  pdims (cmps_of_rmps psi) = pdims psi /\
  (forall k i, dim (nth k (cmps_of_rmps psi) empty) i = dim (nth k psi empty) i) /\
  (forall is, amp (cmps_of_rmps psi) is = mkC (amp psi is) 0).
Proof.
  intros H. split; [exact (wf_mps_cten psi H)|]. split; [apply length_cten|]. split; [apply pdims_cten|].
  split; [|intros is; apply amp_cten].
  intros k i. rewrite <- (dim_cten (nth k psi empty)). f_equal. apply site_cten.
Qed.

(** Scalar products are kept by the conversion, and so are the vectors of the two states. *)
Theorem C73_scprod (a b : @mps RScalar) s : wf_mps a -> wf_mps b -> pdims a = pdims b ->
  exists x, @scprod RScalar a b s = Ok x /\
            @scprod CScalar (cmps_of_rmps a) (cmps_of_rmps b) s = Ok (mkC x 0).
Proof.
  intros Ha Hb Hd. eexists. split; [exact (@C02_scprod RScalar a b s Ha Hb Hd)|].
  rewrite (@C02_scprod CScalar _ _ s (wf_mps_cten a Ha) (wf_mps_cten b Hb));
    [|rewrite !pdims_cten; exact Hd].
  apply (f_equal (@Ok Cx)). rewrite pdims_cten. symmetry. etransitivity; [apply (cnum_sumcfg (pdims a))|].
  apply (@sumcfg_ext CScalar). intros is _. rewrite !amp_cten. apply C_ext; cbn; ring.
Qed.

Theorem C73_vector (psi : @mps RScalar) : wf_mps psi ->
  exists v w, @mps_to_vector RScalar psi = Ok v /\ @mps_to_vector CScalar (cmps_of_rmps psi) = Ok w /\
    dims w = dims v /\
    forall is, in_range (pdims psi) is ->
      get w [offset (pdims psi) is] = mkC (get v [offset (pdims psi) is]) 0.
Proof.
  intros H. destruct (@C01_mps_to_vector RScalar psi H) as (v & Hv & _ & Hd & Hg).
  destruct (@C01_mps_to_vector CScalar _ (wf_mps_cten psi H)) as (w & Hw & _ & Hd' & Hg').
  rewrite pdims_cten in Hd', Hg'.
  exists v, w. split; [exact Hv|]. split; [exact Hw|]. split; [rewrite Hd, Hd'; reflexivity|].
  intros is Hi. rewrite (Hg' is Hi), (Hg is Hi). apply amp_cten.
Qed.

(** expected(psi, O, k) with a real state and a complex matrix *)
Theorem C73_expected1 (psi : @mps RScalar) (O : @tensor CScalar) k n : wf_mps psi ->
  normal_index psi k = Ok n -> dims O = [nth n (pdims psi) 0; nth n (pdims psi) 0]%nat ->
  expected1_dz psi O k =
  Ok (@melem CScalar (pdims psi) (as_complex (amp psi)) (site_op n (mat O)) (as_complex (amp psi))).
Proof.
  intros H Hn HO. rewrite expected1_dz_cten.
  rewrite (@C04_expected1 CScalar _ O k n (wf_mps_cten psi H));
    [|rewrite normal_index_cten; exact Hn|rewrite pdims_cten; exact HO].
  apply (f_equal (@Ok Cx)). rewrite pdims_cten. apply (@melem_ext_fun CScalar); intros; try reflexivity; apply amp_cten.
Qed.

Theorem C73_expected_total (psi : @mps RScalar) (O : @tensor CScalar) d : wf_mps psi ->
  pdims psi = repeat d (length psi) -> dims O = [d; d] ->
  expected_total_dz psi O =
  Ok (@sum CScalar (length psi) (fun k =>
        @melem CScalar (pdims psi) (as_complex (amp psi)) (site_op k (mat O)) (as_complex (amp psi)))).
Proof.
  intros H Hd HO. rewrite expected_total_dz_cten.
  rewrite (@C06_expected_total CScalar _ O d (wf_mps_cten psi H));
    [|rewrite pdims_cten, length_cten; exact Hd|exact HO].
  apply (f_equal (@Ok Cx)). rewrite pdims_cten, length_cten. apply (@sum_ext CScalar). intros i _.
  apply (@melem_ext_fun CScalar); intros; try reflexivity; apply amp_cten.
Qed.

Theorem C73_expected2 (psi : @mps RScalar) (O1 O2 : @tensor CScalar) k1 n1 k2 n2 : wf_mps psi ->
  normal_index psi k1 = Ok n1 -> normal_index psi k2 = Ok n2 -> (k1 = k2 \/ n1 <> n2) ->
  dims O1 = [nth n1 (pdims psi) 0; nth n1 (pdims psi) 0]%nat ->
  dims O2 = [nth n2 (pdims psi) 0; nth n2 (pdims psi) 0]%nat ->
  expected2_dz psi O1 k1 O2 k2 =
  Ok (@melem CScalar (pdims psi) (as_complex (amp psi))
        (op_mul (pdims psi) (site_op n1 (mat O1)) (site_op n2 (mat O2))) (as_complex (amp psi))).
Proof.
  intros H Hn1 Hn2 Hk H1 H2. rewrite expected2_dz_cten.
  rewrite (@C05_expected2_partial CScalar _ O1 k1 n1 O2 k2 n2 (wf_mps_cten psi H));
    [|rewrite normal_index_cten; assumption|rewrite normal_index_cten; assumption|exact Hk
     |rewrite pdims_cten; assumption|rewrite pdims_cten; assumption].
  apply (f_equal (@Ok Cx)). rewrite pdims_cten. apply (@melem_ext_fun CScalar); intros; try reflexivity; apply amp_cten.
Qed.

(** A real matrix gives the number that the real overload returns. *)
Theorem C73_real_operator (psi : @mps RScalar) (O : @tensor RScalar) k n : wf_mps psi ->
  normal_index psi k = Ok n -> dims O = [nth n (pdims psi) 0; nth n (pdims psi) 0]%nat ->
  exists x, @expected1 RScalar psi O k = Ok x /\ expected1_dz psi (cten O) k = Ok (mkC x 0).
Proof.
  intros H Hn HO. eexists. split; [exact (@C04_expected1 RScalar psi O k n H Hn HO)|].
  rewrite (C73_expected1 psi (cten O) k n H Hn HO). apply (f_equal (@Ok Cx)).
  rewrite (melem_parts (pdims psi) (amp psi) (amp psi)).
  assert (S : forall n is js, @site_op CScalar n (mat (cten O)) is js = cnum (@site_op RScalar n (mat O) is js)).
  { assert (I : forall is js, @id_op CScalar is js = cnum (@id_op RScalar is js)).
    { induction is as [|i is IH]; intros [|j js]; cbn [id_op]; try reflexivity.
      rewrite IH, <- cnum_delta. symmetry. apply cnum_mul. }
    induction n0 as [|n0 IH]; intros [|i is] [|j js]; cbn [site_op]; try reflexivity.
    - rewrite I. unfold mat at 1. rewrite get_cten. symmetry. apply cnum_mul.
    - rewrite IH, <- cnum_delta. symmetry. apply cnum_mul. }
  apply C_ext; cbn [Cre Cim].
  - apply (@melem_ext_fun RScalar); intros; try reflexivity. rewrite S. reflexivity.
  - apply melem_antisym. intros is js _ _. rewrite !S. cbn. ring.
Qed.

(** A Hermitian matrix has a real expectation value in a real state, namely that of its real part:
    [re_op] is any real matrix with the real parts of [O]. *)
Theorem C73_hermitian (psi : @mps RScalar) (O : @tensor CScalar) (re_op : @tensor RScalar) k n d : wf_mps psi ->
  normal_index psi k = Ok n -> d = nth n (pdims psi) 0%nat -> dims O = [d; d] -> dims re_op = [d; d] ->
  (forall i j, (i < d)%nat -> (j < d)%nat -> get O [j; i] = Cconj (get O [i; j])) ->
  (forall i j, (i < d)%nat -> (j < d)%nat -> get re_op [i; j] = Cre (get O [i; j])) ->
  exists x, @expected1 RScalar psi re_op k = Ok x /\ expected1_dz psi O k = Ok (mkC x 0).
Proof.
  intros H Hn -> HO HR Hh Hr. set (d := nth n (pdims psi) 0%nat) in *.
  eexists. split; [exact (@C04_expected1 RScalar psi re_op k n H Hn HR)|].
  rewrite (C73_expected1 psi O k n H Hn HO). apply (f_equal (@Ok Cx)).
  rewrite (melem_parts (pdims psi) (amp psi) (amp psi)).
  assert (I : forall is js, @id_op CScalar is js = cnum (@id_op RScalar is js)).
  { induction is as [|i is IH]; intros [|j js]; cbn [id_op]; try reflexivity.
    rewrite IH, <- cnum_delta. symmetry. apply cnum_mul. }
  assert (Isym : forall is js, @id_op RScalar is js = @id_op RScalar js is).
  { induction is as [|i is IH]; intros [|j js]; cbn [id_op]; try reflexivity.
    rewrite IH, (delta_sym i j). reflexivity. }
  assert (S1 : forall ds m is js, in_range ds is -> in_range ds js -> nth m ds 0%nat = d ->
    Cre (@site_op CScalar m (mat O) is js) = @site_op RScalar m (mat re_op) is js).
  { intros ds m. revert ds. induction m as [|m IH]; intros [|e ds] is0 js0 Hi Hj Hm;
      [apply in_range_nil_inv in Hi, Hj; subst; reflexivity| |apply in_range_nil_inv in Hi, Hj; subst; reflexivity|];
      destruct (in_range_cons_inv _ _ _ Hi) as (i & is & -> & Hi1 & Hi2);
      destruct (in_range_cons_inv _ _ _ Hj) as (j & js' & -> & Hj1 & Hj2); cbn [site_op].
    - rewrite I. unfold mat. cbn [nth] in Hm. rewrite Hr by lia. cbn. ring.
    - cbn [nth] in Hm. rewrite <- (IH ds is js' Hi2 Hj2 Hm). rewrite <- cnum_delta. cbn. ring. }
  assert (S2 : forall ds m is js, in_range ds is -> in_range ds js -> nth m ds 0%nat = d ->
    Cim (@site_op CScalar m (mat O) js is) = (- Cim (@site_op CScalar m (mat O) is js))%R).
  { intros ds m. revert ds. induction m as [|m IH]; intros [|e ds] is0 js0 Hi Hj Hm;
      [apply in_range_nil_inv in Hi, Hj; subst; cbn; ring| |apply in_range_nil_inv in Hi, Hj; subst; cbn; ring|];
      destruct (in_range_cons_inv _ _ _ Hi) as (i & is & -> & Hi1 & Hi2);
      destruct (in_range_cons_inv _ _ _ Hj) as (j & js' & -> & Hj1 & Hj2); cbn [site_op].
    - rewrite !I. rewrite (Isym js' is). unfold mat. cbn [nth] in Hm. rewrite (Hh i j) by lia. cbn. ring.
    - cbn [nth] in Hm. rewrite <- !cnum_delta, (delta_sym j i). cbn [kmul CScalar Cmul Cim cnum Cre].
      rewrite (IH ds is js' Hi2 Hj2 Hm). ring. }
  apply C_ext; cbn [Cre Cim].
  - unfold melem. apply (@sumcfg_ext RScalar). intros is Hi. apply (@sumcfg_ext RScalar). intros js Hj.
    rewrite (S1 (pdims psi) n is js Hi Hj eq_refl). reflexivity.
  - apply melem_antisym. intros is js Hi Hj. exact (S2 (pdims psi) n is js Hi Hj eq_refl).
Qed.

(** expected(psi, H, t) with a real state: the real part of the matrix element of the whole Hamiltonian. *)
Theorem C73_hamiltonian (psi : @mps RScalar) (H : @hamiltonian CScalar) : wf_mps psi -> ham_ok H ->
  pdims psi = h_dims H ->
  h_expected_dz psi H = Ok (Cre (@melem CScalar (pdims psi) (as_complex (amp psi))
    (chain_op (h_size H) (h_periodic H) (h_local H) (h_terms H)) (as_complex (amp psi)))).
Proof.
  intros Hw HH Hd. rewrite h_expected_dz_cten.
  rewrite (@C40_expected_hamiltonian CScalar _ H (wf_mps_cten psi Hw) HH);
    [|rewrite pdims_cten; exact Hd].
  cbn [bind]. apply (f_equal (fun x : Cx => Ok (Cre x))). rewrite pdims_cten.
  apply (@melem_ext_fun CScalar); intros; try reflexivity; apply amp_cten.
Qed.

(** ** Concrete cases *)
(** The state (|00> + 2|01> + 3|10>) on two sites, as real tensors *)
Definition mix_psi : @mps RScalar :=
  [@mk RScalar [1;2;2] (fun is => match is with [_; i; c] => @delta RScalar i c | _ => 0%R end);
   @mk RScalar [2;2;1] (fun is => match is with
      | [0; 0; _] => 1%R | [0; 1; _] => 2%R | [1; 0; _] => 3%R | _ => 0%R end)]%nat.
(** [[1, -i], [i, 5]]: Hermitian; and i |0><0|: not. *)
Definition mix_op : @tensor CScalar := @mk CScalar [2;2] (fun is => match is with
   | [0; 0] => mkC 1 0 | [0; 1] => mkC 0 (-1) | [1; 0] => mkC 0 1 | _ => mkC 5 0 end)%nat.
Definition mix_re : @tensor RScalar := @mk RScalar [2;2] (fun is => match is with
   | [0; 0] => 1%R | [0; 1] => 0%R | [1; 0] => 0%R | _ => 5%R end)%nat.
Definition mix_up : @tensor CScalar := @mk CScalar [2;2] (fun is => match is with
   | [0; 0] => mkC 0 1 | _ => mkC 0 0 end)%nat.

Lemma mix_wf : wf_mps mix_psi.
Proof.
  split; [discriminate|]. exists 1%nat. split; [lia|]. exists 2%nat, 2%nat. split; [reflexivity|].
  split; [apply wf_mk|]. split; [lia|]. split; [lia|].
  exists 2%nat, 1%nat. split; [reflexivity|]. split; [apply wf_mk|]. split; [lia|]. split; [lia|]. reflexivity.
Qed.

Example C73_case : exists x : R, @expected1 RScalar mix_psi mix_re 0 = Ok x /\ expected1_dz mix_psi mix_op 0 = Ok (mkC x 0) /\ (x = 50)%R /\ expected1_dz mix_psi mix_up (-2) = Ok (mkC 0 5).
Proof.
  destruct (C73_hermitian mix_psi mix_op mix_re 0 0 2 mix_wf eq_refl eq_refl eq_refl eq_refl) as (x & E1 & E2).
  - intros [|[|i]] [|[|j]] Hi Hj; try lia; apply C_ext; cbn; ring.
  - intros [|[|i]] [|[|j]] Hi Hj; try lia; cbn; ring.
  - exists x. split; [exact E1|]. split; [exact E2|]. split.
    + pose proof (@C04_expected1 RScalar mix_psi mix_re 0 0 mix_wf eq_refl eq_refl) as E.
      rewrite E1 in E. injection E as ->. cbn. ring.
    + etransitivity; [exact (C73_expected1 mix_psi mix_up (-2) 0 mix_wf eq_refl eq_refl)|].
      apply (f_equal (@Ok Cx)). rewrite (melem_parts [2;2]%nat (amp mix_psi) (amp mix_psi)). apply C_ext; cbn; ring.
Qed.

(** The exception of C73_expected2: when a site is named once by its number and once by the negative
    index, the second operator is ignored. *)
Theorem C73_mixed_indices (psi : @mps RScalar) (O1 O2 : @tensor CScalar) k1 k2 n :
  normal_index psi k1 = Ok n -> normal_index psi k2 = Ok n -> k1 <> k2 ->
  expected2_dz psi O1 k1 O2 k2 = expected1_dz psi O1 k1.
Proof.
  intros H1 H2 Hk. unfold expected2_dz, expected1_dz. apply Z.eqb_neq in Hk. rewrite Hk, H1, H2. cbn [bind].
  f_equal. apply fold_left_ext_fun. intros M k. destruct (Nat.eqb k n); reflexivity.
Qed.

Theorem C73_mixed_indices_refuted : exists (psi : @mps RScalar) (O1 O2 : @tensor CScalar),
  wf_mps psi /\ normal_index psi 0 = Ok 0%nat /\ normal_index psi (-2) = Ok 0%nat /\
  dims O1 = [2; 2]%nat /\ dims O2 = [2; 2]%nat /\ pdims psi = [2; 2]%nat /\
  expected2_dz psi O1 (-2) O2 0 <>
  Ok (@melem CScalar (pdims psi) (as_complex (amp psi))
        (op_mul (pdims psi) (site_op 0 (mat O1)) (site_op 0 (mat O2))) (as_complex (amp psi))).
Proof.
  exists mix_psi, mix_up, (@mk CScalar [2;2]%nat (fun _ => mkC 0 0)).
  split; [exact mix_wf|]. repeat (split; [reflexivity|]). intros E.
  rewrite (C73_mixed_indices mix_psi mix_up _ (-2) 0 0 eq_refl eq_refl ltac:(discriminate)) in E.
  destruct C73_case as (x & _ & _ & _ & E'). rewrite E' in E. clear E'.
  apply (f_equal (fun r : result Cx => match r with Ok z => Cim z | Abort => 0%R end)) in E.
  change (pdims mix_psi) with [2;2]%nat in E.
  rewrite (melem_parts [2;2]%nat (amp mix_psi) (amp mix_psi)) in E. cbn [Cim] in E.
  assert (Z : forall is js, @op_mul CScalar [2;2]%nat (site_op 0 (mat mix_up))
             (site_op 0 (mat (@mk CScalar [2;2]%nat (fun _ => mkC 0 0)))) is js = mkC 0 0).
  { intros is js. unfold op_mul. apply (@sumcfg_zero CScalar). intros ks Hk.
    destruct ks as [|i ks]; [cbn; destruct is; cbn; apply C_ext; cbn; ring|].
    destruct js as [|j js]; [cbn; apply C_ext; cbn; ring|]. cbn [site_op].
    replace (mat (@mk CScalar [2;2]%nat (fun _ => mkC 0 0)) i j) with (mkC 0 0).
    - apply C_ext; cbn; ring.
    - unfold mat, get, mk. cbn [dims data]. symmetry. apply nth_repeat_map. }
  rewrite (@melem_ext_fun RScalar _ _ (amp mix_psi) _ (amp mix_psi) _ (fun _ _ => 0%R)) in E; auto.
  - rewrite melem_antisym in E by (intros; ring). lra.
  - intros is js. rewrite Z. reflexivity.
Qed.

Print Assumptions C73_convert.
Print Assumptions C73_scprod.
Print Assumptions C73_vector.
Print Assumptions C73_expected1.
Print Assumptions C73_expected_total.
Print Assumptions C73_expected2.
Print Assumptions C73_real_operator.
Print Assumptions C73_hermitian.
Print Assumptions C73_hamiltonian.
Print Assumptions C73_mixed_indices.
Print Assumptions C73_mixed_indices_refuted.
