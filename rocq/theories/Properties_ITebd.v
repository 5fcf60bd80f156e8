(** * C52: expected values in infinite states *)
From Coq Require Import Reals Lra Bool List Arith ZArith Lia Ring.
From Verif Require Import Scalar ScalarFacts RScal Tensor TensorFacts Spec SparseSpec MpsModel MpsFacts EnvFacts ExpectedFacts CanonModel CanonFacts CanonSweep DecompModel LFormFacts LFormValue TrotterRun ITebdModel ITebdSpec ITebdFacts.
Import ListNotations.
Local Open Scope K_scope.

Section C52.
Context {RS : RScal}.
Variable svd : tensor -> tensor * list R * tensor.
Variable eigs : (tensor -> tensor) -> nat -> tensor -> tensor.
Variable eig_sym : tensor -> list R * tensor.
Add Ring Kring : k_ring.

Lemma ensure_id psi : icanon psi = true -> ensure_canonical svd eigs eig_sym psi = Ok psi.
Proof. intros H. unfold ensure_canonical. rewrite H. reflexivity. Qed.

(** expected12(psi, Op12, site): the mean value of the two-site operator in every section of the infinite chain that
    contains the sites; sections longer than needed when the state is orthonormal.  The position of the operator in
    the section is 2m or 2m+1, according to the parity of [site]. *)
Theorem C52_expected12 psi Op12 site x m n :
  wf_itebd psi -> icanon psi = true -> is_matrix Op12 (site_dim psi 0 * site_dim psi 1) (site_dim psi 0 * site_dim psi 1) ->
  (m = 0%nat \/ left_ok psi) -> (n = 0%nat \/ right_ok psi) ->
  do_expected12 svd eigs eig_sym psi Op12 site = Ok x ->
  let N := (m + (1 + par site) + n)%nat in
  is_mean psi N (pair_op (2 * m + par site) (cell_dims psi N) (mat Op12)) x.
Proof.
  intros (D & E & dA & dB & HD & HE & HdA & HdB & HA & HAw & HB & HBw & HlA & HlB & HAl & HAlw & HBl & HBlw & HgA & HgB) Hc Hop HL HR Hx.
  assert (HiA : dim (iA psi) 1 = dA) by (unfold dim; rewrite HA; reflexivity).
  assert (HiB : dim (iB psi) 1 = dB) by (unfold dim; rewrite HB; reflexivity).
  unfold site_dim, i_matrix in Hop. cbn [Z.odd] in Hop. rewrite HiA, HiB in Hop.
  unfold do_expected12 in Hx. rewrite ensure_id in Hx by exact Hc. cbn [bind] in Hx. cbv zeta in Hx.
  change (combined_matrix psi 0) with (iAlA psi) in Hx. change (combined_matrix psi 1) with (iBlB psi) in Hx.
  destruct (extL_ortho psi m HL) as (eL & HeL & HL'). destruct (extR_ortho psi n HR) as (eR & HeR & HR').
  assert (Heq : forall t, is_matrix t (dA * dB) (dA * dB) -> op_of t = mat t).
  { intros t Ht. unfold op_of. rewrite (matrix_nonempty t (dA * dB) Ht) by nia. reflexivity. }
  assert (Hid : forall c k, (k + 1 < 2 * c)%nat -> section_mean psi c (pair_op k (cell_dims psi c) delta) = section_mean psi c id_op).
  { intros c k Hk. unfold section_mean. apply sum_ext. intros a Ha. apply sum_ext. intros b Hb. unfold melem.
    apply sumcfg_ext. intros is His. apply sumcfg_ext. intros js Hjs. rewrite pair_op_delta; auto.
    clear - Hk. unfold cell_dims. assert (L : length (concat (repeat [dim (iA psi) 1; dim (iB psi) 1] c)) = (2 * c)%nat).
    { clear. induction c as [|c IH]; [reflexivity|]. cbn [repeat concat app length]. rewrite IH. lia. }
    rewrite L. lia. }
  assert (Hfin : forall c k M, (k + 1 < 2 * c)%nat -> section_mean psi c (pair_op k (cell_dims psi c) delta) <> 0 ->
    x * section_mean psi c (pair_op k (cell_dims psi c) delta) = section_mean psi c (pair_op k (cell_dims psi c) M) ->
    is_mean psi (m + c + n) (pair_op (2 * m + k) (cell_dims psi (m + c + n)) M) x).
  { intros c k M Hk Hn0 Hx0. unfold is_mean. rewrite <- (Hid (m + c + n)%nat (2 * m + k)%nat) by lia.
    assert (Hext : forall M, section_mean psi (m + c + n) (pair_op (2 * m + k) (cell_dims psi (m + c + n)) M) =
      kpow (rinj eL) m * kpow (rinj eR) n * section_mean psi c (pair_op k (cell_dims psi c) M)).
    { intros M'. eapply (extend_pair psi D E dA dB); eauto. }
    rewrite !Hext. split.
    - apply kmul_nonzero; [|exact Hn0]. apply kmul_nonzero; apply kpow_nonzero; assumption.
    - rewrite <- Hx0. ring. }
  intros N. unfold N, par. clear N. destruct (Z.odd site).
  - assert (EJ : reshape (fold (iBlB psi) (rank (iBlB psi) - 1) (iAlA psi) 0) [dim (iBlB psi) 0; (dim (iBlB psi) 1 * dim (iAlA psi) 1)%nat; dim (iBlB psi) 0] = join2 (iBlB psi) (iAlA psi)).
    { unfold join2. unfold dim. rewrite HAl, HBl. reflexivity. }
    rewrite EJ in Hx. rewrite !(expected_odd psi D E dA dB) in Hx; auto.
    + apply kdiv_inv in Hx. destruct Hx as [Hn0 Hx0]. change (op_of empty) with (@delta rs_scalar) in *. rewrite (Heq _ Hop) in Hx0. apply (Hfin 2%nat 1%nat); [lia|exact Hn0|exact Hx0].
    + left. reflexivity.
    + right. rewrite Nat.mul_comm. exact Hop.
  - assert (EJ : reshape (fold (iAlA psi) (rank (iAlA psi) - 1) (iBlB psi) 0) [dim (iBlB psi) 2; (dim (iAlA psi) 1 * dim (iBlB psi) 1)%nat; dim (iBlB psi) 2] = join2 (iAlA psi) (iBlB psi)).
    { unfold join2. unfold dim. rewrite HAl, HBl. reflexivity. }
    rewrite EJ in Hx. rewrite !(expected_even psi D E dA dB) in Hx; auto.
    + apply kdiv_inv in Hx. destruct Hx as [Hn0 Hx0]. change (op_of empty) with (@delta rs_scalar) in *. rewrite (Heq _ Hop) in Hx0. apply (Hfin 1%nat 0%nat); [lia|exact Hn0|exact Hx0].
    + left. reflexivity.
    + right. exact Hop.
Qed.

(** string_order(psi, Opi, Opmiddle, Opj, N): element k is the mean value of Opi on a site 0, Opmiddle on sites
    1 .. k-1 and Opj on site k (of the product Opi Opj on site 0 if k = 0). *)
Theorem C52_string_order_many psi Opi Opm Opj N r k m n :
  wf_itebd psi -> icanon psi = true -> (k < N)%nat ->
  (forall q, (0 <= q < Z.of_nat N)%Z -> op_fits Opm (site_dim psi q) /\ is_matrix Opj (site_dim psi q) (site_dim psi q)) ->
  is_matrix Opi (site_dim psi 0) (site_dim psi 0) ->
  (m = 0%nat \/ left_ok psi) -> (n = 0%nat \/ right_ok psi) ->
  do_string_order_many svd eigs eig_sym psi Opi Opm Opj N = Ok r ->
  length r = N /\
  is_mean psi (m + (k / 2 + 1) + n)
    (if Nat.eqb k 0 then site_op (2 * m) (fun a b => sum (site_dim psi 0) (fun c => mat Opi a c * mat Opj c b))
     else string_op (2 * m) (2 * m + k) (op_of Opi) (op_of Opm) (op_of Opj)) (nth k r 0).
Proof.
  intros (D & E & dA & dB & HD & HE & HdA & HdB & HA & HAw & HB & HBw & HlA & HlB & HAl & HAlw & HBl & HBlw & HgA & HgB) Hc Hk Hop Hi HL HR Hr.
  assert (HiA : dim (iA psi) 1 = dA) by (unfold dim; rewrite HA; reflexivity).
  assert (HiB : dim (iB psi) 1 = dB) by (unfold dim; rewrite HB; reflexivity).
  assert (Hph : forall q, site_dim psi (Z.of_nat q) = phys dA dB q).
  { intros q. unfold site_dim, i_matrix, phys. rewrite odd_of_nat. destruct (Nat.odd q); assumption. }
  unfold do_string_order_many in Hr. rewrite ensure_id in Hr by exact Hc. cbn [bind] in Hr.
  destruct (Nat.eqb_spec N 0); [lia|]. destruct (mmult_op Opi Opj) as [OO|] eqn:EOO; [|discriminate]. cbn [bind] in Hr.
  assert (Em : many_loop N psi Opi Opm Opj OO (Z.of_nat 0) (vrun psi (left_boundary psi 0) 0 (pre Opi Opm 0)) (left_boundary psi 0) None = seqr (val psi Opi Opm Opj OO) 0 N).
  { apply (many_loop_ok psi D E dA dB); auto. cbn. auto. }
  cbn [Z.of_nat pre seq map vrun] in Em. rewrite Em in Hr. clear Em.
  destruct (seqr_ok _ _ _ _ Hr) as [Hl Hv]. split; [exact Hl|]. specialize (Hv k 0 Hk). cbn [Nat.add] in Hv.
  rewrite (Hph 0%nat : site_dim psi 0 = phys dA dB 0) in *.
  eapply (many_value psi D E dA dB); eauto.
  - intros q H1 H2. rewrite <- Hph. apply Hop. lia.
  - intros q H1 H2. rewrite <- Hph. apply Hop. lia.
  - rewrite <- Hph. apply Hop. lia.
Qed.

(** When they return: the norm of the covering section is not zero. *)
Theorem C52_expected12_defined psi Op12 site :
  wf_itebd psi -> icanon psi = true -> section_mean psi (1 + par site) id_op <> 0 ->
  exists x, do_expected12 svd eigs eig_sym psi Op12 site = Ok x.
Proof.
  intros (D & E & dA & dB & HD & HE & HdA & HdB & HA & HAw & HB & HBw & HlA & HlB & HAl & HAlw & HBl & HBlw & HgA & HgB) Hc Hn.
  assert (HiA : dim (iA psi) 1 = dA) by (unfold dim; rewrite HA; reflexivity).
  assert (HiB : dim (iB psi) 1 = dB) by (unfold dim; rewrite HB; reflexivity).
  unfold do_expected12. rewrite ensure_id by exact Hc. cbn [bind]. cbv zeta.
  change (combined_matrix psi 0) with (iAlA psi). change (combined_matrix psi 1) with (iBlB psi).
  assert (Hid : forall c k, (k + 1 < 2 * c)%nat -> section_mean psi c (pair_op k (cell_dims psi c) delta) = section_mean psi c id_op).
  { intros c k Hk. unfold section_mean. apply sum_ext. intros a Ha. apply sum_ext. intros b Hb. unfold melem.
    apply sumcfg_ext. intros is His. apply sumcfg_ext. intros js Hjs. rewrite pair_op_delta; auto.
    clear - Hk. unfold cell_dims. assert (L : length (concat (repeat [dim (iA psi) 1; dim (iB psi) 1] c)) = (2 * c)%nat).
    { clear. induction c as [|c IH]; [reflexivity|]. cbn [repeat concat app length]. rewrite IH. lia. }
    rewrite L. lia. }
  assert (EJ : reshape (fold (iBlB psi) (rank (iBlB psi) - 1) (iAlA psi) 0) [dim (iBlB psi) 0; (dim (iBlB psi) 1 * dim (iAlA psi) 1)%nat; dim (iBlB psi) 0] = join2 (iBlB psi) (iAlA psi)).
  { unfold join2. unfold dim. rewrite HAl, HBl. reflexivity. }
  assert (EJ' : reshape (fold (iAlA psi) (rank (iAlA psi) - 1) (iBlB psi) 0) [dim (iBlB psi) 2; (dim (iAlA psi) 1 * dim (iBlB psi) 1)%nat; dim (iBlB psi) 2] = join2 (iAlA psi) (iBlB psi)).
  { unfold join2. unfold dim. rewrite HAl, HBl. reflexivity. }
  rewrite EJ, EJ'. unfold par in Hn. destruct (Z.odd site); apply kdiv_ok.
  - rewrite (expected_odd psi D E dA dB); auto; [|left; reflexivity]. change (op_of empty) with (@delta rs_scalar). rewrite Hid by lia. exact Hn.
  - rewrite (expected_even psi D E dA dB); auto; [|left; reflexivity]. change (op_of empty) with (@delta rs_scalar). rewrite Hid by lia. exact Hn.
Qed.

Theorem C52_string_order_many_defined psi Opi Opm Opj N :
  wf_itebd psi -> icanon psi = true -> 
  (forall q, (0 <= q < Z.of_nat N)%Z -> op_fits Opm (site_dim psi q) /\ is_matrix Opj (site_dim psi q) (site_dim psi q)) ->
  is_matrix Opi (site_dim psi 0) (site_dim psi 0) ->
  (forall n, (2 * n < N + 2)%nat -> section_mean psi n id_op <> 0) ->
  exists r, do_string_order_many svd eigs eig_sym psi Opi Opm Opj N = Ok r.
Proof.
  intros (D & E & dA & dB & HD & HE & HdA & HdB & HA & HAw & HB & HBw & HlA & HlB & HAl & HAlw & HBl & HBlw & HgA & HgB) Hc Hop Hi Hn.
  assert (HiA : dim (iA psi) 1 = dA) by (unfold dim; rewrite HA; reflexivity).
  assert (HiB : dim (iB psi) 1 = dB) by (unfold dim; rewrite HB; reflexivity).
  assert (Hph : forall q, site_dim psi (Z.of_nat q) = phys dA dB q).
  { intros q. unfold site_dim, i_matrix, phys. rewrite odd_of_nat. destruct (Nat.odd q); assumption. }
  unfold do_string_order_many. rewrite ensure_id by exact Hc. cbn [bind].
  destruct (Nat.eqb_spec N 0) as [->|HN]; [cbn [bind many_loop]; eauto|].
  rewrite (Hph 0%nat : site_dim psi 0 = phys dA dB 0) in Hi.
  assert (Hd0 : (0 < phys dA dB 0)%nat) by exact HdA.
  assert (Hj0 : is_matrix Opj (phys dA dB 0) (phys dA dB 0)) by (rewrite <- Hph; apply Hop; lia).
  unfold mmult_op. rewrite (matrix_nonempty Opi _ Hi Hd0), (matrix_nonempty Opj _ Hj0 Hd0). cbn [orb bind].
  assert (Em : many_loop N psi Opi Opm Opj (mmult Opi Opj) (Z.of_nat 0) (vrun psi (left_boundary psi 0) 0 (pre Opi Opm 0)) (left_boundary psi 0) None = seqr (val psi Opi Opm Opj (mmult Opi Opj)) 0 N).
  { apply (many_loop_ok psi D E dA dB); auto. cbn. auto. }
  cbn [Z.of_nat pre seq map vrun] in Em. rewrite Em. apply seqr_total. intros k Hk. cbn [Nat.add]. unfold val. apply kdiv_ok.
  rewrite (mtrace_vrun psi D E dA dB); auto; [|apply fits_empty; auto]. rewrite repeat_length, oo_empty, <- double_half.
  rewrite <- (section_id psi D E dA dB); auto. apply Hn. rewrite Nat.mul_add_distr_l. pose proof (Nat.mul_div_le k 2). lia.
Qed.

(** ** do_string_order, canonical method *)
Lemma lt_value psi Opi i Opm Opj j x m n :
  wf_itebd psi -> icanon psi = true -> inner_ok psi -> (i < j)%Z ->
  op_fits Opi (site_dim psi i) -> op_fits Opj (site_dim psi j) -> (forall q, (i < q < j)%Z -> op_fits Opm (site_dim psi q)) ->
  (m = 0%nat \/ left_ok psi) -> right_ok psi ->
  string_order_lt svd eigs eig_sym psi Opi i Opm Opj j = Ok x ->
  (2 * m + par i + Z.to_nat (j - i) + 2 < 2 * n)%nat ->
  is_mean psi n (string_op (2 * m + par i) (2 * m + par i + Z.to_nat (j - i)) (op_of Opi) (op_of Opm) (op_of Opj)) x.
Proof.
  intros (D & E & dA & dB & HD & HE & HdA & HdB & HA & HAw & HB & HBw & HlA & HlB & HAl & HAlw & HBl & HBlw & HgA & HgB) Hc HI Hij Hi Hj Hm HL HR Hx Hn.
  assert (HiA : dim (iA psi) 1 = dA) by (unfold dim; rewrite HA; reflexivity).
  assert (HiB : dim (iB psi) 1 = dB) by (unfold dim; rewrite HB; reflexivity).
  assert (Hph : forall q, site_dim psi (i - Z.of_nat (par i) + Z.of_nat q)%Z = phys dA dB q).
  { intros q. unfold site_dim, i_matrix, phys. rewrite Z.odd_add, odd_of_nat, Z.odd_sub, odd_of_nat. unfold par.
    destruct (Z.odd i), (Nat.odd q); cbn [Nat.odd Nat.even negb xorb]; assumption. }
  set (J := (par i + Z.to_nat (j - i))%nat).
  assert (EJ : (j - i + (if Z.odd i then 1 else 0))%Z = Z.of_nat J) by (unfold J, par; destruct (Z.odd i); lia).
  assert (EI : (if Z.odd i then 1 else 0)%Z = Z.of_nat (par i)) by (unfold par; destruct (Z.odd i); reflexivity).
  unfold string_order_lt in Hx. rewrite ensure_id in Hx by exact Hc. cbn [bind] in Hx. cbv zeta in Hx. rewrite EJ, EI in Hx.
  assert (HJ : (J / 2 + 1 + (if Nat.odd J then 1 else 0) + m <= n)%nat).
  { pose proof (double_half J) as Hd. fold J in Hn. unfold J in *. revert Hd Hn. clear. destruct (Nat.odd (par i + Z.to_nat (j - i))); lia. }
  set (c := (J / 2 + 1 + (if Nat.odd J then 1 else 0))%nat) in *.
  replace n with (m + c + (n - m - c))%nat by lia.
  replace (2 * m + par i + Z.to_nat (j - i))%nat with (2 * m + J)%nat by (unfold J; lia).
  assert (Hfu : (nloop J <= Z.to_nat (Z.of_nat J + 2))%nat) by (clear; unfold nloop; destruct (Nat.odd J); lia).
  eapply (string_value psi D E dA dB); eauto.
  - right. exact HR.
  - unfold J. lia.
  - rewrite <- Hph. replace (i - Z.of_nat (par i) + Z.of_nat (par i))%Z with i by lia. exact Hi.
  - rewrite <- Hph. replace (i - Z.of_nat (par i) + Z.of_nat J)%Z with j by (unfold J; lia). exact Hj.
  - intros q Hq. rewrite <- Hph. apply Hm. unfold J in Hq. lia.
Qed.

(** string_order(psi, Opi, i, Opmiddle, Opj, j) with the canonical method, for a state whose both bonds are
    orthonormal. *)
Theorem C52_canonical_partial psi Opi i Opm Opj j x m n :
  wf_itebd psi -> icanon psi = true -> left_ok psi -> right_ok psi -> inner_ok psi -> (i < j)%Z ->
  op_fits Opi (site_dim psi i) -> op_fits Opj (site_dim psi j) -> (forall q, (i < q < j)%Z -> op_fits Opm (site_dim psi q)) ->
  do_string_order svd eigs eig_sym psi Opi i Opm Opj j = Ok x ->
  (2 * m + par i + Z.to_nat (j - i) + 2 < 2 * n)%nat ->
  is_mean psi n (string_op (2 * m + par i) (2 * m + par i + Z.to_nat (j - i)) (op_of Opi) (op_of Opm) (op_of Opj)) x.
Proof.
  intros Hwf Hc HL HR HI Hij Hi Hj Hm Hx Hn. unfold do_string_order in Hx.
  destruct (Z.eqb_spec i j); [lia|]. destruct (Z.ltb_spec j i); [lia|]. eapply lt_value; eauto.
Qed.

(** expected(psi, Op, site) with the canonical method, for a state whose both bonds are orthonormal. *)
Theorem C52_expected1_partial psi Op site x m n :
  wf_itebd psi -> icanon psi = true -> left_ok psi -> right_ok psi -> inner_ok psi ->
  is_matrix Op (site_dim psi site) (site_dim psi site) ->
  expected1 svd eigs eig_sym psi Op site = Ok x -> (m + 1 < n)%nat ->
  is_mean psi n (site_op (2 * m + par site) (mat Op)) x.
Proof.
  intros Hwf Hc HL HR HI Hop Hx Hn.
  assert (Hlen : forall is, in_range (cell_dims psi n) is -> length is = (2 * n)%nat).
  { intros is His. rewrite (in_range_length _ _ His). unfold cell_dims. clear. induction n as [|n IH]; [reflexivity|]. cbn [repeat concat app length]. rewrite IH. lia. }
  assert (Hd : (0 < site_dim psi site)%nat).
  { destruct Hwf as (D & E & dA & dB & HD & HE & HdA & HdB & HA & HAw & HB & _). unfold site_dim, i_matrix, dim. destruct (Z.odd site); rewrite ?HA, ?HB; assumption. }
  assert (Hne : op_of Op = mat Op) by (unfold op_of; rewrite (matrix_nonempty Op _ Hop) by exact Hd; reflexivity).
  assert (He : forall k, op_fits empty (site_dim psi k)) by (intros k; left; reflexivity).
  unfold expected1 in Hx. unfold par. destruct (Z.odd site) eqn:Es.
  - assert (H1 : op_fits Op (site_dim psi 1)) by (right; replace (site_dim psi 1) with (site_dim psi site) by (unfold site_dim, i_matrix; rewrite Es; reflexivity); exact Hop).
    pose proof (lt_value psi empty 0 empty Op 1 x m n Hwf Hc HI ltac:(lia) (He 0%Z) H1 ltac:(intros; apply He) (or_intror HL) HR Hx) as HM.
    change (par 0) with 0%nat in HM. change (Z.to_nat (1 - 0)) with 1%nat in HM. specialize (HM ltac:(lia)).
    refine (is_mean_ext psi n _ _ x _ HM). intros is js His Hjs. rewrite <- Hne. unfold string_op.
    rewrite <- (product_op_site 0 (2 * m + 1) (op_of Op) is js); [|rewrite (Hlen is His); lia|rewrite (Hlen is His), (Hlen js Hjs); reflexivity].
    apply product_op_ext. intros k a b _. change (op_of empty) with (@delta rs_scalar). cbn [Nat.add].
    destruct (Nat.eqb_spec k (2 * m + 0)), (Nat.eqb_spec k (2 * m + 1)); try lia; try reflexivity.
    + destruct (Nat.eqb_spec k (2 * m + 0 + 1)); [reflexivity|lia].
    + destruct (Nat.eqb_spec k (2 * m + 0 + 1)); [lia|]. destruct (Nat.ltb (2 * m + 0) k && Nat.ltb k (2 * m + 0 + 1))%bool; reflexivity.
  - assert (H1 : op_fits Op (site_dim psi 0)) by (right; replace (site_dim psi 0) with (site_dim psi site) by (unfold site_dim, i_matrix; rewrite Es; reflexivity); exact Hop).
    pose proof (lt_value psi Op 0 empty empty 1 x m n Hwf Hc HI ltac:(lia) H1 (He 1%Z) ltac:(intros; apply He) (or_intror HL) HR Hx) as HM.
    change (par 0) with 0%nat in HM. change (Z.to_nat (1 - 0)) with 1%nat in HM. specialize (HM ltac:(lia)).
    refine (is_mean_ext psi n _ _ x _ HM). intros is js His Hjs. rewrite <- Hne. unfold string_op.
    rewrite <- (product_op_site 0 (2 * m + 0) (op_of Op) is js); [|rewrite (Hlen is His); lia|rewrite (Hlen is His), (Hlen js Hjs); reflexivity].
    apply product_op_ext. intros k a b _. change (op_of empty) with (@delta rs_scalar). cbn [Nat.add].
    destruct (Nat.eqb k (2 * m + 0)); [reflexivity|]. destruct (Nat.eqb k (2 * m + 0 + 1)); [reflexivity|]. destruct (Nat.ltb (2 * m + 0) k && Nat.ltb k (2 * m + 0 + 1))%bool; reflexivity.
Qed.

(** Both operators on the same site *)
Theorem C52_same_site_partial psi Opi Opm Opj i x m n :
  wf_itebd psi -> icanon psi = true -> left_ok psi -> right_ok psi -> inner_ok psi ->
  is_matrix Opi (site_dim psi i) (site_dim psi i) -> is_matrix Opj (site_dim psi i) (site_dim psi i) ->
  do_string_order svd eigs eig_sym psi Opi i Opm Opj i = Ok x -> (m + 1 < n)%nat ->
  is_mean psi n (site_op (2 * m + par i) (fun a b => sum (site_dim psi i) (fun c => mat Opi a c * mat Opj c b))) x.
Proof.
  intros Hwf Hc HL HR HI Hi Hj Hx Hn. unfold do_string_order in Hx. rewrite Z.eqb_refl in Hx. unfold mmult_op in Hx.
  destruct (is_empty Opi || is_empty Opj)%bool; [discriminate|]. cbn [bind] in Hx.
  destruct Hi as [Hid Hiw], Hj as [Hjd Hjw].
  assert (Hm : is_matrix (mmult Opi Opj) (site_dim psi i) (site_dim psi i)).
  { split; [unfold mmult, fold, rank; rewrite Hid, Hjd; reflexivity|apply wf_mk]. }
  pose proof (C52_expected1_partial psi (mmult Opi Opj) i x m n Hwf Hc HL HR HI Hm Hx Hn) as HM.
  destruct Hwf as (D & E & dA & dB & HD & HE & HdA & HdB & HA & HAw & HB & HBw & HlA & HlB & HAl & HAlw & HBl & HBlw & HgA & HgB).
  refine (is_mean_ext psi n _ _ x _ HM). intros is js His Hjs.
  assert (Hr : nth (2 * m + par i) (cell_dims psi n) 0%nat = site_dim psi i).
  { assert (Hg : forall k n, (2 * k + par i < 2 * n)%nat -> nth (2 * k + par i) (cell_dims psi n) 0%nat = site_dim psi i).
    { clear. induction k as [|k IH]; intros [|n] H; try lia.
      - unfold cell_dims. cbn [repeat concat app Nat.mul Nat.add]. unfold par, site_dim, i_matrix in *. destruct (Z.odd i); reflexivity.
      - unfold cell_dims in *. replace (2 * S k + par i)%nat with (S (S (2 * k + par i))) by lia. cbn [repeat concat app nth]. apply IH. lia. }
    apply Hg. unfold par. destruct (Z.odd i); lia. }
  revert His Hjs Hr. generalize (2 * m + par i)%nat (cell_dims psi n). clear HM. intros q ds. revert q is js.
  induction ds as [|d ds IH]; intros q is js Hi Hj Hr.
  - apply in_range_nil_inv in Hi, Hj. subst. destruct q; reflexivity.
  - apply in_range_cons_inv in Hi. destruct Hi as (a & is1 & -> & Ha & His). apply in_range_cons_inv in Hj. destruct Hj as (b & js1 & -> & Hb & Hjs).
    destruct q as [|q]; cbn [site_op nth] in *.
    + subst d. unfold mat. rewrite (get_mmult Opi Opj _ _ _ a b Hid Hjd Ha Hb). reflexivity.
    + rewrite (IH q is1 js1) by assumption. reflexivity.
Qed.

(** The arguments can be given in any order. *)
Theorem C52_order psi Opi i Opm Opj j : (j <> i)%Z ->
  do_string_order svd eigs eig_sym psi Opi i Opm Opj j = do_string_order svd eigs eig_sym psi Opj j Opm Opi i.
Proof.
  intros H. unfold do_string_order. destruct (Z.eqb_spec i j); [lia|]. destruct (Z.eqb_spec j i); [lia|].
  destruct (Z.ltb_spec j i), (Z.ltb_spec i j); try lia; reflexivity.
Qed.
End C52.

Local Close Scope K_scope.
(** ** Concrete states: a product of pairs |00> + b |11> *)
Notation RT := (@tensor (@rs_scalar RR)).
Definition rt (d : list nat) (l : list R) : RT := @mkT (@rs_scalar RR) d l.
(** A(0,i,b) = delta(i,b), B(b,j,0) = delta(b,j) (1 or c) *)
Definition pairA : RT := rt [1; 2; 2] [1; 0; 0; 1]%R.
Definition pairB (c : R) : RT := rt [2; 2; 1] [1; 0; 0; c]%R.
Definition pair_state (c : R) : @itebd RR := @mkI RR pairA [1; 1]%R (pairB c) [1]%R pairA (pairB c) true.
Definition pz : RT := rt [2; 2] [1; 0; 0; -1]%R.

Lemma pair_wf c : wf_itebd (pair_state c).
Proof.
  exists 1%nat, 2%nat, 2%nat, 2%nat. repeat (split; [first [lia|reflexivity]|]). split.
  - intros a i b Ha Hi Hb. destruct a as [|]; [|lia]. destruct i as [|[|]]; [| |lia]; (destruct b as [|[|]]; [| |lia]); cbv -[Rplus Rmult Ropp IZR]; lra.
  - intros a i b Ha Hi Hb. destruct b as [|]; [|lia]. destruct i as [|[|]]; [| |lia]; (destruct a as [|[|]]; [| |lia]); cbv -[Rplus Rmult Ropp IZR]; lra.
Qed.

Lemma pair_left c : left_ok (pair_state c).
Proof.
  exists (1 + c * c)%R. split; [nra|]. intros b b' Hb Hb'. cbn in Hb, Hb'. destruct b; [|lia]. destruct b'; [|lia]. cbv -[Rplus Rmult Ropp IZR]. ring.
Qed.

Lemma pair_right c : right_ok (pair_state c).
Proof.
  exists (1 + c * c)%R. split; [nra|]. intros b b' Hb Hb'. cbn in Hb, Hb'. destruct b; [|lia]. destruct b'; [|lia]. cbv -[Rplus Rmult Ropp IZR]. ring.
Qed.

Lemma pair_inner : inner_ok (pair_state 1).
Proof.
  exists 1%R. split; [lra|]. intros b b' Hb Hb'. cbn in Hb, Hb'. destruct b as [|[|]]; [| |lia]; (destruct b' as [|[|]]; [| |lia]); cbv -[Rplus Rmult Ropp IZR]; ring.
Qed.

Lemma pz_matrix : is_matrix pz 2 2.
Proof. split; reflexivity. Qed.

Lemma kdiv_R (a b x : R) : b <> 0%R -> (x * b)%R = a -> @kdiv RR a b = Ok x.
Proof.
  intros Hb <-. unfold kdiv. destruct (@keqb_spec (@rs_scalar RR) b (@k0 (@rs_scalar RR))) as [E|_]; [exfalso; apply Hb; exact E|]. f_equal. cbn. field. exact Hb.
Qed.

(** With the canonical method, <Z_0 Z_2> comes out as 0 in a product of pairs |00> + 2|11>; it is 9/25, and this is
    what string_order with an argument N gives.  The states between cells are orthonormal; only those between A and B are not. *)
Theorem C52_canonical_refuted svd eigs eig_sym :
  wf_itebd (pair_state 2) /\ icanon (pair_state 2) = true /\ left_ok (pair_state 2) /\ right_ok (pair_state 2) /\
  do_string_order svd eigs eig_sym (pair_state 2) pz 0 empty pz 2 = Ok 0%R /\
  (exists r, do_string_order_many svd eigs eig_sym (pair_state 2) pz empty pz 3 = Ok r /\ nth 2 r 0%R = (9 / 25)%R) /\
  forall x, is_mean (pair_state 2) 2 (string_op 0 2 (op_of pz) (op_of empty) (op_of pz)) x -> x = (9 / 25)%R.
Proof.
  split; [apply pair_wf|]. split; [reflexivity|]. split; [apply pair_left|]. split; [apply pair_right|].
  destruct (pair_wf 2) as (D & E & dA & dB & HD & HE & HdA & HdB & HA & HAw & HB & HBw & HlA & HlB & HAl & HAlw & HBl & HBlw & HgA & HgB).
  injection HA as <- <- <-. injection HB as <-.
  split; [|split].
  - unfold do_string_order. cbn [Z.eqb Z.ltb Z.compare]. unfold string_order_lt. rewrite ensure_id by reflexivity. cbn [bind]. cbv zeta.
    change (Z.to_nat (2 - 0 + 0 + 2)) with 4%nat. cbn [Z.odd Z.sub Z.add Z.opp].
    etransitivity; [apply (string_loop_value (pair_state 2) 1 2 2 2 ltac:(lia) ltac:(lia) ltac:(lia) ltac:(lia) eq_refl eq_refl eq_refl eq_refl eq_refl eq_refl eq_refl eq_refl pz empty pz 0 2 4)|].
    + intros k Hk. destruct k as [|[|[|k]]]; [right|left|right|lia]; cbn; try apply pz_matrix. reflexivity.
    + cbn. lia.
    + lia.
    + apply kdiv_R; cbv -[Rplus Rmult Ropp IZR]; lra.
  - destruct (do_string_order_many svd eigs eig_sym (pair_state 2) pz empty pz 3) as [r|] eqn:Er.
    + exists r. split; [reflexivity|].
      destruct (C52_string_order_many svd eigs eig_sym (pair_state 2) pz empty pz 3 r 2 0 0 (pair_wf 2) eq_refl ltac:(lia)) as [_ Hm]; auto.
      * intros q Hq. split; [left; reflexivity|]. unfold site_dim, i_matrix. destruct (Z.odd q); apply pz_matrix.
      * apply pz_matrix.
      * destruct Hm as [_ Hm]. cbn [Nat.eqb Nat.mul Nat.add Nat.div Nat.divmod fst] in Hm. revert Hm. change (nth 2 r 0%R) with (nth 2 r (@k0 (@rs_scalar RR))). generalize (nth 2 r (@k0 (@rs_scalar RR))). intros x Hm.
        cbv -[Rplus Rmult Ropp IZR Rdiv Rinv] in Hm |- *. lra.
    + exfalso. destruct (C52_string_order_many_defined svd eigs eig_sym (pair_state 2) pz empty pz 3 (pair_wf 2) eq_refl) as [r Hr]; [| | |congruence].
      * intros q Hq. split; [left; reflexivity|]. unfold site_dim, i_matrix. destruct (Z.odd q); apply pz_matrix.
      * apply pz_matrix.
      * intros n Hn. destruct n as [|[|[|n]]]; [| | |lia]; intros H; cbv -[Rplus Rmult Ropp IZR Rdiv] in H; lra.
  - intros x [_ Hm]. cbv -[Rplus Rmult Ropp IZR Rdiv Rinv] in Hm |- *. lra.
Qed.

(** The hypotheses of the theorems above hold in a product of Bell pairs, and the result is not trivial. *)
Theorem C52_case svd eigs eig_sym :
  wf_itebd (pair_state 1) /\ icanon (pair_state 1) = true /\ left_ok (pair_state 1) /\ right_ok (pair_state 1) /\ inner_ok (pair_state 1) /\
  is_matrix pz (site_dim (pair_state 1) 0) (site_dim (pair_state 1) 0) /\
  do_string_order svd eigs eig_sym (pair_state 1) pz 0 empty pz 1 = Ok 1%R /\
  forall x, is_mean (pair_state 1) 2 (string_op 0 1 (op_of pz) (op_of empty) (op_of pz)) x -> x = 1%R.
Proof.
  split; [apply pair_wf|]. split; [reflexivity|]. split; [apply pair_left|]. split; [apply pair_right|]. split; [apply pair_inner|]. split; [apply pz_matrix|].
  destruct (pair_wf 1) as (D & E & dA & dB & HD & HE & HdA & HdB & HA & HAw & HB & HBw & HlA & HlB & HAl & HAlw & HBl & HBlw & HgA & HgB).
  injection HA as <- <- <-. injection HB as <-.
  split.
  - unfold do_string_order. cbn [Z.eqb Z.ltb Z.compare]. unfold string_order_lt. rewrite ensure_id by reflexivity. cbn [bind]. cbv zeta.
    change (Z.to_nat (1 - 0 + 0 + 2)) with 3%nat. cbn [Z.odd Z.sub Z.add Z.opp].
    etransitivity; [apply (string_loop_value (pair_state 1) 1 2 2 2 ltac:(lia) ltac:(lia) ltac:(lia) ltac:(lia) eq_refl eq_refl eq_refl eq_refl eq_refl eq_refl eq_refl eq_refl pz empty pz 0 1 3)|].
    + intros k Hk. destruct k as [|[|k]]; [right|right|lia]; cbn; apply pz_matrix.
    + cbn. lia.
    + lia.
    + apply kdiv_R; cbv -[Rplus Rmult Ropp IZR]; lra.
  - intros x [_ Hm]. cbv -[Rplus Rmult Ropp IZR Rdiv Rinv] in Hm |- *. lra.
Qed.
