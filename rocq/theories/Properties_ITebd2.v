(** * C52: expected values in infinite states, direct method *)
From Coq Require Import Reals Lra Bool List Arith ZArith Lia Ring.
From Verif Require Import Scalar ScalarFacts RScal Tensor TensorFacts Spec SparseSpec MpsModel MpsFacts EnvFacts ExpectedFacts CanonModel CanonFacts CanonSweep DecompModel SplitFacts QFormFacts LFormFacts LFormValue SimplifySpec SimplifyFacts TrotterRun ITebdModel ITebdSpec ITebdFacts ITebdSlow Properties_ITebd.
Import ListNotations.
Local Open Scope K_scope.

Opaque slow_cells infinite_power slow_loop build_E_matrix mtrace.

Section C52.
Context {RS : RScal}.
Add Ring Kring : k_ring.

Lemma scale_A psi : wf_itebd psi -> scale (iA psi) (rank (iA psi) - 1) (ilA psi) = iAlA psi /\ scale (iB psi) (rank (iB psi) - 1) (ilB psi) = iBlB psi.
Proof.
  intros (D & E & dA & dB & HD & HE & HdA & HdB & HA & HAw & HB & HBw & HlA & HlB & HAl & HAlw & HBl & HBlw & HgA & HgB).
  split; (apply tensor_ext; [apply wf_mk|assumption|unfold scale; cbn [dims mk]; congruence|]).
  - intros is His. unfold scale in His. cbn [dims mk] in His. rewrite get_scale by exact His. rewrite HA in His. unfold rank. rewrite HA.
    apply in_range_inv3 in His. destruct His as (a & i & b & -> & Ha & Hi & Hb). rewrite HgA by assumption. reflexivity.
  - intros is His. unfold scale in His. cbn [dims mk] in His. rewrite get_scale by exact His. rewrite HB in His. unfold rank. rewrite HB.
    apply in_range_inv3 in His. destruct His as (a & i & b & -> & Ha & Hi & Hb). rewrite HgB by assumption. reflexivity.
Qed.

Lemma ring_tot psi N M ops : dim (iA psi) 1 = dim (iAlA psi) 1 -> dim (iB psi) 1 = dim (iBlB psi) 1 ->
  (forall is js, in_range (cell_dims psi N) is -> in_range (cell_dims psi N) js -> M is js = prodop ops is js) ->
  ring_mean psi N M = tot (cells psi N) ops.
Proof.
  intros H1 H2 HM. assert (Ed : cell_dims psi N = pdims (cells psi N)).
  { clear HM. unfold cell_dims, cells, pdims. induction N as [|N IH]; [reflexivity|]. cbn [repeat concat app map]. rewrite IH, H1, H2. reflexivity. }
  unfold ring_mean, melem, tot, ring. rewrite Ed in *. apply sumcfg_ext. intros is His. apply sumcfg_ext. intros js Hjs. rewrite HM by assumption. reflexivity.
Qed.

Lemma length_cell_dims psi N : length (cell_dims psi N) = (2 * N)%nat.
Proof. unfold cell_dims. induction N as [|N IH]; [reflexivity|]. cbn [repeat concat app length]. rewrite IH. lia. Qed.

Lemma length_cells psi N : length (cells psi N) = (2 * N)%nat.
Proof. unfold cells. induction N as [|N IH]; [reflexivity|]. cbn [repeat concat app length]. rewrite IH. lia. Qed.

Lemma product_op_range f g ds : forall s is js, in_range ds is -> in_range ds js ->
  (forall k a b, (k < length ds)%nat -> (a < nth k ds 0)%nat -> (b < nth k ds 0)%nat -> f (s + k)%nat a b = g (s + k)%nat a b) ->
  product_op s f is js = product_op s g is js.
Proof.
  induction ds as [|d ds IH]; intros s is js Hi Hj H.
  - apply in_range_nil_inv in Hi, Hj. subst. reflexivity.
  - apply in_range_cons_inv in Hi. destruct Hi as (a & is1 & -> & Ha & His). apply in_range_cons_inv in Hj. destruct Hj as (b & js1 & -> & Hb & Hjs).
    cbn [product_op]. rewrite (IH (S s) is1 js1 His Hjs).
    + pose proof (H 0%nat a b ltac:(cbn; lia) Ha Hb) as H0. rewrite Nat.add_0_r in H0. rewrite H0. reflexivity.
    + intros k x y Hk Hx Hy. replace (S s + k)%nat with (s + S k)%nat by lia. apply H; [cbn; lia|exact Hx|exact Hy].
Qed.

(** From transfer matrices to mean values in a ring *)
Lemma ring_value psi Op1 i Opm Op2 j x N0 n : wf_itebd psi ->
  tot (cells psi N0 ++ sites psi 0 (2 * n)) (nn (length (cells psi N0) + 2 * n)) <> 0 /\
  x * tot (cells psi N0 ++ sites psi 0 (2 * n)) (nn (length (cells psi N0) + 2 * n)) =
  tot (cells psi N0 ++ sites psi 0 (2 * n)) (nn (length (cells psi N0)) ++ map (fun t => oo (opz Op1 i Opm Op2 j (i - Z.of_nat (par i) + Z.of_nat t))) (seq 0 (2 * n))) ->
  is_ring_mean psi (N0 + n)
    (product_op 0 (fun t => if Nat.ltb t (2 * N0) then delta else op_of (opz Op1 i Opm Op2 j (i - Z.of_nat (par i) + Z.of_nat (t - (2 * N0)))))) x.
Proof.
  intros (D & E & dA & dB & HD & HE & HdA & HdB & HA & HAw & HB & HBw & HlA & HlB & HAl & HAlw & HBl & HBlw & HgA & HgB) HR.
  assert (Ecells : cells psi N0 ++ sites psi 0 (2 * n) = cells psi (N0 + n)).
  { rewrite <- (cells_sites psi D E dA dB HD HE HdA HdB HlA HlB) by (unfold dim; rewrite ?HA, ?HB; reflexivity).
    unfold cells. rewrite repeat_app, concat_app. reflexivity. }
  rewrite Ecells, length_cells in HR.
  assert (Hd1 : dim (iA psi) 1 = dim (iAlA psi) 1) by (unfold dim; rewrite HA, HAl; reflexivity).
  assert (Hd2 : dim (iB psi) 1 = dim (iBlB psi) 1) by (unfold dim; rewrite HB, HBl; reflexivity).
  unfold is_ring_mean.
  rewrite (ring_tot psi (N0 + n) id_op (nn (2 * N0 + 2 * n)) Hd1 Hd2).
  2:{ intros is js His Hjs. symmetry. replace (2 * N0 + 2 * n)%nat with (length is) by (rewrite (in_range_length _ _ His), length_cell_dims; lia).
      apply prodop_nones. rewrite (in_range_length _ _ His), (in_range_length _ _ Hjs). reflexivity. }
  rewrite (ring_tot psi (N0 + n) _ (nn (2 * N0) ++ map (fun t => oo (opz Op1 i Opm Op2 j (i - Z.of_nat (par i) + Z.of_nat t))) (seq 0 (2 * n))) Hd1 Hd2); [exact HR|].
  intros is js His Hjs.
  set (g := fun t => if Nat.ltb t (2 * N0) then empty else opz Op1 i Opm Op2 j (i - Z.of_nat (par i) + Z.of_nat (t - (2 * N0)))).
  assert (Eg : nn (2 * N0) ++ map (fun t => oo (opz Op1 i Opm Op2 j (i - Z.of_nat (par i) + Z.of_nat t))) (seq 0 (2 * n)) = map (fun t => oo (g t)) (seq 0 (2 * (N0 + n)))).
  { replace (2 * (N0 + n))%nat with ((2 * N0) + 2 * n)%nat by lia. rewrite seq_app, map_app. f_equal.
    - transitivity (map (fun _ : nat => @None tensor) (seq 0 (2 * N0))); [symmetry; apply map_none|].
      apply map_ext_in. intros t Ht. apply in_seq in Ht. unfold g. destruct (Nat.ltb_spec t (2 * N0)); [reflexivity|lia].
    - cbn [Nat.add]. rewrite <- (map_sub (2 * N0)%nat 0%nat (2 * n)%nat) at 1. rewrite Nat.add_0_r. rewrite map_map. apply map_ext_in. intros t Ht. apply in_seq in Ht.
      unfold g. destruct (Nat.ltb_spec t (2 * N0)); [lia|reflexivity]. }
  rewrite Eg.
  rewrite (prodop_product_op (fun t => oo (g t)) 0 is js (2 * (N0 + n))); [|rewrite (in_range_length _ _ His); apply length_cell_dims|rewrite (in_range_length _ _ Hjs); apply length_cell_dims].
  apply product_op_ext. intros t a b _. rewrite opel_oo. unfold g. destruct (Nat.ltb t (2 * N0)); reflexivity.
Qed.

(** The main argument: i <= j, sites in the last cells of the ring *)
Lemma slow_value psi Op1 i Opm Op2 j x : wf_itebd psi -> (i <= j)%Z ->
  (forall z, op_fits (opz Op1 i Opm Op2 j z) (site_dim psi z)) ->
  slow_string_order_le Op1 i Opm Op2 j (iA psi) (ilA psi) (iB psi) (ilB psi) = Ok x ->
  let J := (par i + Z.to_nat (j - i))%nat in
  is_ring_mean psi (slow_cells + (J / 2 + 1))
    (product_op 0 (fun t => if Nat.ltb t (2 * slow_cells) then delta else op_of (opz Op1 i Opm Op2 j (i - Z.of_nat (par i) + Z.of_nat (t - (2 * slow_cells)))))) x.
Proof.
  intros Hwf Hij Hf Hx J. destruct (scale_A psi Hwf) as [SA SB].
  destruct Hwf as (D & E & dA & dB & HD & HE & HdA & HdB & HA & HAw & HB & HBw & HlA & HlB & HAl & HAlw & HBl & HBlw & HgA & HgB).
  unfold slow_string_order_le in Hx. cbv zeta in Hx. rewrite SA, SB in Hx.
  destruct (infinite_power (mmult (build_E_matrix (iAlA psi) (iAlA psi)) (build_E_matrix (iBlB psi) (iBlB psi)))) as [R0|] eqn:ER0; [|discriminate].
  cbn [bind] in Hx.
  assert (L1 : linked D [iAlA psi] E) by (exists dA, E; repeat split; auto).
  assert (L2 : linked E [iBlB psi] D) by (exists dB, D; repeat split; auto).
  assert (L : linked D [iAlA psi; iBlB psi] D) by (apply (linked_app D [iAlA psi] [iBlB psi] D); exists E; split; assumption).
  assert (E0 : emat (mmult (build_E_matrix (iAlA psi) (iAlA psi)) (build_E_matrix (iBlB psi) (iBlB psi))) D D [iAlA psi; iBlB psi] [None; None] (1 * 1)).
  { apply (emat_mmult _ _ D E D [iAlA psi] [None] [iBlB psi] [None]); auto; [split; [reflexivity|exact I]|apply emat_id with (d := dA); exact HAl|apply emat_id with (d := dB); exact HBl]. }
  destruct (infinite_ok _ D _ _ R0 L E0 ER0) as [c Hc]. pose proof slow_pos as HN0. revert Hc HN0. generalize slow_cells. intros N0 Hc HN0. change (concat (repeat [iAlA psi; iBlB psi] N0)) with (cells psi N0) in Hc.
  assert (EF : (if Z.odd i then (i - 1)%Z else i) = (i - Z.of_nat (par i))%Z) by (unfold par; destruct (Z.odd i); lia).
  assert (EJ : j = (i - Z.of_nat (par i) + Z.of_nat J)%Z) by (unfold J; lia).
  assert (OF : Z.odd (i - Z.of_nat (par i)) = false).
  { rewrite Z.odd_sub, odd_of_nat. unfold par. destruct (Z.odd i); reflexivity. }
  assert (OJ : Z.odd j = Nat.odd J) by (rewrite EJ, Z.odd_add, OF, odd_of_nat; destruct (Nat.odd J); reflexivity).
  assert (En : Z.to_nat ((if Z.odd j then j else (j + 1)%Z) - (i - Z.of_nat (par i)) + 1) = (2 * (J / 2 + 1))%nat).
  { rewrite double_half, OJ. clearbody J. destruct (Nat.odd J); lia. }
  rewrite EF, En in Hx. set (n := (J / 2 + 1)%nat) in *.
  assert (Hph : forall t, site_dim psi (i - Z.of_nat (par i) + Z.of_nat t)%Z = phys dA dB t).
  { intros t. unfold site_dim, i_matrix, phys, dim. rewrite Z.odd_add, OF, odd_of_nat. destruct (Nat.odd t); cbn [xorb]; rewrite ?HA, ?HB; reflexivity. }
  assert (Hb : bond D E (0 + 2 * n) = D) by (unfold bond; cbn [Nat.add]; rewrite Nat.odd_mul; reflexivity).
  assert (Hcne : cells psi N0 <> []) by (intros H0; apply (f_equal (@length _)) in H0; rewrite length_cells in H0; cbn [length] in H0; lia).
  clear HN0.
  assert (Hcl : linked D (cells psi N0) (bond D E 0)) by (apply (linked_pow D [iAlA psi; iBlB psi] L)).
  assert (Hco : ops_ok (cells psi N0) (cells psi N0) (nn (length (cells psi N0)))) by apply ops_ok_none.
  assert (Hfz : forall t, (t < 2 * n)%nat -> op_fits (opz Op1 i Opm Op2 j (i - Z.of_nat (par i) + Z.of_nat t)) (phys dA dB (0 + t))).
  { intros t _. cbn [Nat.add]. rewrite <- (Hph t). apply Hf. }
  assert (HR : tot (cells psi N0 ++ sites psi 0 (2 * n)) (nn (length (cells psi N0) + 2 * n)) <> 0 /\
    x * tot (cells psi N0 ++ sites psi 0 (2 * n)) (nn (length (cells psi N0) + 2 * n)) =
    tot (cells psi N0 ++ sites psi 0 (2 * n)) (nn (length (cells psi N0)) ++ map (fun t => oo (opz Op1 i Opm Op2 j (i - Z.of_nat (par i) + Z.of_nat t))) (seq 0 (2 * n)))).
  { eapply (slow_loop_ok psi D E dA dB) with (c := c) (R0 := R0) (R1 := R0); eauto. }
  apply ring_value; [|exact HR]. exists D, E, dA, dB. repeat (split; [assumption|]). assumption.
Qed.

Lemma is_ring_mean_ext psi N M M' x : (forall is js, in_range (cell_dims psi N) is -> in_range (cell_dims psi N) js -> M is js = M' is js) ->
  is_ring_mean psi N M x -> is_ring_mean psi N M' x.
Proof.
  intros H [H1 H2]. split; [exact H1|]. rewrite H2. unfold ring_mean, melem. apply sumcfg_ext. intros is His. apply sumcfg_ext. intros js Hjs. rewrite (H is js His Hjs). reflexivity.
Qed.

Lemma opz_out Op1 i Opm Op2 j z : (z < i \/ j < z)%Z -> opz Op1 i Opm Op2 j z = empty.
Proof. intros H. unfold opz, op_at. destruct (Z.ltb_spec z i), (Z.ltb_spec j z); try lia; reflexivity. Qed.
Lemma opz_i Op1 i Opm Op2 j : (i < j)%Z -> opz Op1 i Opm Op2 j i = Op1.
Proof. intros H. unfold opz, op_at. destruct (Z.ltb_spec i i), (Z.ltb_spec j i); try lia. cbn [orb]. rewrite Z.eqb_refl. destruct (Z.eqb_spec i j); [lia|reflexivity]. Qed.
Lemma opz_j Op1 i Opm Op2 j : (i < j)%Z -> opz Op1 i Opm Op2 j j = Op2.
Proof. intros H. unfold opz, op_at. destruct (Z.ltb_spec j i), (Z.ltb_spec j j); try lia. cbn [orb]. destruct (Z.eqb_spec j i); [lia|]. rewrite Z.eqb_refl. reflexivity. Qed.
Lemma opz_mid Op1 i Opm Op2 j z : (i < z < j)%Z -> opz Op1 i Opm Op2 j z = Opm.
Proof. intros H. unfold opz, op_at. destruct (Z.ltb_spec z i), (Z.ltb_spec j z); try lia. cbn [orb]. destruct (Z.eqb_spec z i); [lia|]. destruct (Z.eqb_spec z j); [lia|reflexivity]. Qed.

Lemma opz_fits psi Op1 i Opm Op2 j : (i < j)%Z ->
  op_fits Op1 (site_dim psi i) -> op_fits Op2 (site_dim psi j) -> (forall q, (i < q < j)%Z -> op_fits Opm (site_dim psi q)) ->
  forall z, op_fits (opz Op1 i Opm Op2 j z) (site_dim psi z).
Proof.
  intros Hij H1 H2 Hm z. destruct (Z.lt_total z i) as [H|[->|H]].
  - rewrite opz_out by lia. left. reflexivity.
  - rewrite opz_i by exact Hij. exact H1.
  - destruct (Z.lt_total z j) as [H'|[->|H']].
    + rewrite opz_mid by lia. apply Hm. lia.
    + rewrite opz_j by lia. exact H2.
    + rewrite opz_out by lia. left. reflexivity.
Qed.

Lemma opz_string psi Op1 i Opm Op2 j x N0 N : (i < j)%Z ->
  is_ring_mean psi N (product_op 0 (fun t => if Nat.ltb t (2 * N0) then delta else op_of (opz Op1 i Opm Op2 j (i - Z.of_nat (par i) + Z.of_nat (t - (2 * N0)))))) x ->
  is_ring_mean psi N (string_op (2 * N0 + par i) (2 * N0 + par i + Z.to_nat (j - i)) (op_of Op1) (op_of Opm) (op_of Op2)) x.
Proof.
  intros Hij HM.
  refine (is_ring_mean_ext psi _ _ _ x _ HM). intros is js His Hjs. unfold string_op. apply product_op_ext. intros k a b _.
  destruct (Nat.ltb_spec k (2 * N0)) as [Hk|Hk].
  - destruct (Nat.eqb_spec k (2 * N0 + par i)); [lia|]. destruct (Nat.eqb_spec k (2 * N0 + par i + Z.to_nat (j - i))); [lia|].
    destruct (Nat.ltb_spec (2 * N0 + par i) k); [lia|]. reflexivity.
  - set (z := (i - Z.of_nat (par i) + Z.of_nat (k - 2 * N0))%Z).
    destruct (Nat.eqb_spec k (2 * N0 + par i)) as [E|E].
    { replace z with i by (unfold z; lia). rewrite opz_i by exact Hij. reflexivity. }
    destruct (Nat.eqb_spec k (2 * N0 + par i + Z.to_nat (j - i))) as [E'|E'].
    { replace z with j by (unfold z; lia). rewrite opz_j by exact Hij. reflexivity. }
    destruct (Nat.ltb_spec (2 * N0 + par i) k); destruct (Nat.ltb_spec k (2 * N0 + par i + Z.to_nat (j - i))); cbn [andb].
    + rewrite opz_mid by (unfold z; lia). reflexivity.
    + rewrite opz_out by (unfold z; lia). reflexivity.
    + rewrite opz_out by (unfold z; lia). reflexivity.
    + rewrite opz_out by (unfold z; lia). reflexivity.
Qed.

(** The number of cells in the ring that the direct method closes around the sites of the operators *)
Lemma slow_lt psi Op1 i Opm Op2 j x : wf_itebd psi -> (i < j)%Z ->
  op_fits Op1 (site_dim psi i) -> op_fits Op2 (site_dim psi j) -> (forall q, (i < q < j)%Z -> op_fits Opm (site_dim psi q)) ->
  slow_string_order_le Op1 i Opm Op2 j (iA psi) (ilA psi) (iB psi) (ilB psi) = Ok x ->
  is_ring_mean psi (slow_cells + ((par i + Z.to_nat (j - i)) / 2 + 1))
    (string_op (2 * slow_cells + par i) (2 * slow_cells + par i + Z.to_nat (j - i)) (op_of Op1) (op_of Opm) (op_of Op2)) x.
Proof.
  intros Hwf Hij H1 H2 Hm Hx.
  apply opz_string; [exact Hij|]. apply slow_value; [exact Hwf|lia|apply opz_fits; assumption|exact Hx].
Qed.

(** string_order and expected with two operators, direct method (slow_expected.hpp): the value is the mean value of the
    string operator in a ring of the given cells that contains both sites, at an arbitrary distance i < j; no
    canonical form is needed. *)
Theorem C52_slow psi Op1 i Opm Op2 j x : wf_itebd psi -> (i < j)%Z ->
  op_fits Op1 (site_dim psi i) -> op_fits Op2 (site_dim psi j) -> (forall q, (i < q < j)%Z -> op_fits Opm (site_dim psi q)) ->
  slow_string_order psi Op1 i Opm Op2 j = Ok x ->
  is_ring_mean psi (slow_cells + ((par i + Z.to_nat (j - i)) / 2 + 1))
    (string_op (2 * slow_cells + par i) (2 * slow_cells + par i + Z.to_nat (j - i)) (op_of Op1) (op_of Opm) (op_of Op2)) x.
Proof.
  intros Hwf Hij H1 H2 Hm Hx. unfold slow_string_order in Hx. destruct (Z.ltb_spec j i); [lia|]. apply slow_lt; assumption.
Qed.

Theorem C52_slow_order psi Op1 i Opm Op2 j : (j <> i)%Z -> slow_string_order psi Op1 i Opm Op2 j = slow_string_order psi Op2 j Opm Op1 i.
Proof. intros H. unfold slow_string_order. destruct (Z.ltb_spec j i), (Z.ltb_spec i j); try lia; reflexivity. Qed.

Lemma nth_cell_dims psi i k : forall n, (2 * k + par i < 2 * n)%nat -> nth (2 * k + par i) (cell_dims psi n) 0%nat = site_dim psi i.
Proof.
  induction k as [|k IH]; intros [|n] H; try lia.
  - unfold cell_dims. cbn [repeat concat app Nat.mul Nat.add]. unfold par, site_dim, i_matrix in *. destruct (Z.odd i); reflexivity.
  - unfold cell_dims in *. replace (2 * S k + par i)%nat with (S (S (2 * k + par i))) by lia. cbn [repeat concat app nth]. apply IH. lia.
Qed.

(** Both operators on the same site: the product of the operators. *)
Theorem C52_slow_same psi Op1 i Opm Op2 x : wf_itebd psi ->
  is_matrix Op1 (site_dim psi i) (site_dim psi i) -> is_matrix Op2 (site_dim psi i) (site_dim psi i) ->
  slow_string_order psi Op1 i Opm Op2 i = Ok x ->
  is_ring_mean psi (slow_cells + 1)
    (site_op (2 * slow_cells + par i) (fun a b => sum (site_dim psi i) (fun c => mat Op1 a c * mat Op2 c b))) x.
Proof.
  intros Hwf H1 H2 Hx. unfold slow_string_order in Hx. rewrite Z.ltb_irrefl in Hx.
  assert (Hd : (0 < site_dim psi i)%nat).
  { destruct Hwf as (D & E & dA & dB & HD & HE & HdA & HdB & HA & HAw & HB & _). unfold site_dim, i_matrix, dim. destruct (Z.odd i); rewrite ?HA, ?HB; assumption. }
  assert (Hii : opz Op1 i Opm Op2 i i = mmult Op1 Op2).
  { unfold opz, op_at. rewrite Z.ltb_irrefl. cbn [orb]. rewrite Z.eqb_refl. unfold mmult_op.
    rewrite (matrix_nonempty Op1 _ H1 Hd), (matrix_nonempty Op2 _ H2 Hd). reflexivity. }
  destruct H1 as [D1 W1], H2 as [D2 W2].
  assert (Hf : forall z, op_fits (opz Op1 i Opm Op2 i z) (site_dim psi z)).
  { intros z. destruct (Z.eq_dec z i) as [->|Hz]; [|rewrite opz_out by lia; left; reflexivity].
    rewrite Hii. right. split; [unfold mmult, fold, rank; rewrite D1, D2; reflexivity|apply wf_mk]. }
  pose proof (slow_value psi Op1 i Opm Op2 i x Hwf ltac:(lia) Hf Hx) as HM. cbv zeta in HM.
  rewrite Z.sub_diag in HM. change (Z.to_nat 0) with 0%nat in HM. rewrite Nat.add_0_r in HM.
  replace (par i / 2 + 1)%nat with 1%nat in HM by (unfold par; destruct (Z.odd i); reflexivity).
  refine (is_ring_mean_ext psi _ _ _ x _ HM). intros is js His Hjs. revert His Hjs. clear Hx HM. generalize slow_cells. intros N0 His Hjs.
  pose proof (in_range_length _ _ His) as Li. pose proof (in_range_length _ _ Hjs) as Lj. rewrite length_cell_dims in Li, Lj.
  rewrite <- (product_op_site 0 (2 * N0 + par i) (fun a b => sum (site_dim psi i) (fun c => mat Op1 a c * mat Op2 c b)) is js);
    [|rewrite Li; unfold par; destruct (Z.odd i); lia|congruence].
  apply (product_op_range _ _ (cell_dims psi (N0 + 1))); [assumption|assumption|]. rewrite length_cell_dims.
  intros k a b Hk Ha Hb. cbn [Nat.add]. destruct (Nat.ltb_spec k (2 * N0)).
  { destruct (Nat.eqb_spec k (2 * N0 + par i)); [lia|reflexivity]. }
  destruct (Nat.eqb_spec k (2 * N0 + par i)) as [->|E].
  - rewrite nth_cell_dims in Ha, Hb by (unfold par; destruct (Z.odd i); lia).
    replace (i - Z.of_nat (par i) + Z.of_nat (2 * N0 + par i - 2 * N0))%Z with i by lia. rewrite Hii.
    unfold op_of. rewrite (matrix_nonempty (mmult Op1 Op2) (site_dim psi i)); [|split; [unfold mmult, fold, rank; rewrite D1, D2; reflexivity|apply wf_mk]|exact Hd].
    unfold mat. rewrite (get_mmult Op1 Op2 _ _ _ a b D1 D2 Ha Hb). reflexivity.
  - rewrite opz_out by lia. reflexivity.
Qed.

(** ** Two neighbouring sites *)
Lemma joined_emat A B D i E j : dims A = [D; i; E] -> dims B = [E; j; D] ->
  emat (build_E_matrix (join2 A B) (join2 A B)) D D [A; B] [None; None] 1.
Proof.
  intros HA HB. destruct (join2_ok A B D i E j D HA HB) as (Hd & Hw & Hg).
  destruct (emat_id _ _ _ _ Hd) as (D1 & W1 & G1). split; [exact D1|]. split; [exact W1|]. intros x y z w Hx Hy Hz Hw'.
  rewrite G1 by assumption. f_equal. rewrite (TM_single _ _ _ _ _ _ _ _ _ _ _ _ _ Hd Hd Hz Hw').
  change (@None tensor) with (oo empty). rewrite (E1_join A B D i E j D empty x y z w HA HB) by assumption.
  unfold TM. replace (pdims [A; B]) with [i; j] by (unfold pdims, dim; cbn [map]; rewrite HA, HB; reflexivity).
  apply sumcfg_ext. intros is His. apply sumcfg_ext. intros js Hjs. f_equal. f_equal.
  apply in_range_inv2 in His. destruct His as (p & q & -> & Hp & Hq). apply in_range_inv2 in Hjs. destruct Hjs as (p' & q' & -> & Hp' & Hq').
  pose proof (pair_op_delta 0 [i; j] [p; q] [p'; q'] ltac:(apply in_range_2; assumption) ltac:(apply in_range_2; assumption) ltac:(cbn; lia)) as HP.
  cbn [pair_op id_op] in HP. change (op_of empty) with (@delta rs_scalar). cbn [nth prodop oo is_empty]. change (oo empty) with (@None tensor). cbn [opel].
  transitivity (delta (p + i * q)%nat (p' + i * q')%nat * 1); [ring|]. rewrite HP. ring.
Qed.

Lemma chain_joined A B q D i E j r is p t a b : dims A = [D; i; E] -> dims B = [E; j; D] -> linked D q r ->
  wf A -> wf B -> (0 < i)%nat -> (0 < j)%nat -> (0 < D)%nat -> (0 < E)%nat -> (a < D)%nat -> (p < i)%nat -> (t < j)%nat ->
  chain (join2 A B :: q) ((p + i * t)%nat :: is) a b = chain (A :: B :: q) (p :: t :: is) a b.
Proof.
  intros HA HB Hq WA WB Hi Hj HD HE Ha Hp Ht. destruct (join2_ok A B D i E j D HA HB) as (Hd & Hw & Hg).
  change (A :: B :: q) with ([A; B] ++ q). change (p :: t :: is) with ([p; t] ++ is).
  rewrite (chain_app D [A; B] D q r [p; t] is a b); [|exists i, E; repeat split; auto; exists j, D; repeat split; auto|exact Hq|reflexivity|exact Ha].
  cbn [chain]. unfold dim at 1. rewrite Hd. cbn [nth]. apply sum_ext. intros c Hc. rewrite Hg by assumption. reflexivity.
Qed.

Lemma tot_joined A B q D i E j Op : dims A = [D; i; E] -> dims B = [E; j; D] -> linked D q D ->
  wf A -> wf B -> (0 < i)%nat -> (0 < j)%nat -> (0 < D)%nat -> (0 < E)%nat ->
  tot (join2 A B :: q) (oo Op :: nn (length q)) =
  sumcfg (i :: j :: pdims q) (fun is => sumcfg (i :: j :: pdims q) (fun js =>
    kconj (amp (A :: B :: q) is) * pair_op 0 (i :: j :: pdims q) (op_of Op) is js * amp (A :: B :: q) js)).
Proof.
  intros HA HB Hq WA WB Hi Hj HD HE. destruct (join2_ok A B D i E j D HA HB) as (Hd & Hw & Hg).
  assert (Ha : forall p t is, (p < i)%nat -> (t < j)%nat -> amp (join2 A B :: q) ((p + i * t)%nat :: is) = amp (A :: B :: q) (p :: t :: is)).
  { intros p t is Hp Ht. unfold amp. cbn [left_bond]. unfold dim. rewrite Hd, HA. cbn [nth]. apply sum_ext. intros a Ha.
    apply (chain_joined A B q D i E j D); assumption. }
  unfold tot. change (pdims (join2 A B :: q)) with (dim (join2 A B) 1 :: pdims q). unfold dim. rewrite Hd. cbn [nth sumcfg].
  rewrite sum_merge, sum_swap. apply sum_ext. intros p Hp. apply sum_ext. intros t Ht. apply sumcfg_ext. intros is His.
  rewrite sum_merge, sum_swap. apply sum_ext. intros p' Hp'. apply sum_ext. intros t' Ht'. apply sumcfg_ext. intros js Hjs.
  rewrite !Ha by assumption. cbn [prodop pair_op]. rewrite opel_oo.
  rewrite <- (prodop_nones is js) by (rewrite (in_range_length _ _ His), (in_range_length _ _ Hjs); reflexivity).
  replace (length is) with (length q) by (rewrite (in_range_length _ _ His); symmetry; apply length_pdims). reflexivity.
Qed.

(** slow_expected12 for the site A *)
Lemma slow12_value psi Op12 x : wf_itebd psi -> is_matrix Op12 (site_dim psi 0 * site_dim psi 1) (site_dim psi 0 * site_dim psi 1) ->
  (let AlA := scale (iA psi) (rank (iA psi) - 1) (ilA psi) in
   slow_expected Op12 (ensure_3_indices (fold AlA (rank AlA - 1) (iB psi) 0)) (ilB psi)) = Ok x ->
  is_ring_mean psi (1 + slow_cells) (pair_op 0 (cell_dims psi (1 + slow_cells)) (mat Op12)) x.
Proof.
  intros Hwf Hop Hx. destruct (scale_A psi Hwf) as [SA SB]. cbv zeta in Hx. rewrite SA in Hx.
  destruct Hwf as (D & E & dA & dB & HD & HE & HdA & HdB & HA & HAw & HB & HBw & HlA & HlB & HAl & HAlw & HBl & HBlw & HgA & HgB).
  assert (HiA : dim (iA psi) 1 = dA) by (unfold dim; rewrite HA; reflexivity).
  assert (HiB : dim (iB psi) 1 = dB) by (unfold dim; rewrite HB; reflexivity).
  unfold site_dim, i_matrix in Hop. cbn [Z.odd] in Hop. rewrite HiA, HiB in Hop.
  set (M := scale (ensure_3_indices (fold (iAlA psi) (rank (iAlA psi) - 1) (iB psi) 0))
     (rank (ensure_3_indices (fold (iAlA psi) (rank (iAlA psi) - 1) (iB psi) 0)) - 1) (ilB psi)).
  assert (EM : M = join2 (iAlA psi) (iBlB psi)).
  { destruct (join2_ok _ _ _ _ _ _ _ HAl HBl) as (Hd & Hw & Hg). destruct (join2_ok _ _ _ _ _ _ _ HAl HB) as (Hd' & Hw' & Hg').
    assert (E3 : ensure_3_indices (fold (iAlA psi) (rank (iAlA psi) - 1) (iB psi) 0) = join2 (iAlA psi) (iB psi)).
    { assert (Hf : dims (fold (iAlA psi) (rank (iAlA psi) - 1) (iB psi) 0) = [D; dA; dB; D]) by (unfold fold, rank; rewrite HAl, HB; reflexivity).
      assert (Hl : length (data (fold (iAlA psi) (rank (iAlA psi) - 1) (iB psi) 0)) = (dA * dB * (D * D))%nat).
      { transitivity (nprod (dims (fold (iAlA psi) (rank (iAlA psi) - 1) (iB psi) 0))); [apply wf_mk|]. rewrite Hf. cbn [nprod fold_right]. nia. }
      unfold ensure_3_indices, join2. rewrite Hl. cbv zeta. unfold dim at 1 2 3 4. rewrite !Hf. cbn [nth]. unfold rank at 2 4. rewrite Hf. cbn [length Nat.sub nth].
      rewrite Nat.div_mul by nia. unfold dim. rewrite HAl, HB. reflexivity. }
    unfold M. rewrite E3. unfold rank. rewrite Hd'. cbn [length Nat.sub].
    apply tensor_ext; [apply wf_mk|exact Hw|unfold scale; cbn [dims mk]; congruence|].
    intros is His. unfold scale in His. cbn [dims mk] in His. rewrite get_scale by exact His. rewrite Hd' in His.
    apply in_range_inv3 in His. destruct His as (a & I & b & -> & Ha & HI & Hb). cbn [nth].
    assert (EI : I = (I mod dA + dA * (I / dA))%nat) by (rewrite (Nat.div_mod_eq I dA) at 1; lia).
    assert (H1 : (I mod dA < dA)%nat) by (apply Nat.mod_upper_bound; lia).
    assert (H2 : (I / dA < dB)%nat) by (apply Nat.div_lt_upper_bound; [lia|exact HI]).
    rewrite EI. rewrite Hg', Hg by assumption. cbn [chain]. unfold dim. rewrite HAl, HB, HBl. cbn [nth]. rewrite sum_mul_r. apply sum_ext. intros c Hc.
    rewrite !sum_delta_r by exact Hb. rewrite HgB by assumption. ring. }
  unfold slow_expected in Hx. fold M in Hx. rewrite EM in Hx. clear M EM. set (M := join2 (iAlA psi) (iBlB psi)) in *.
  destruct (infinite_power (build_E_matrix M M)) as [Rm|] eqn:ER; [|discriminate]. cbn [bind] in Hx.
  destruct (join2_ok _ _ _ _ _ _ _ HAl HBl) as (Hd & Hw & Hg). fold M in Hd, Hw, Hg.
  assert (L : linked D [iAlA psi; iBlB psi] D) by (exists dA, E; repeat split; auto; exists dB, D; repeat split; auto).
  assert (LM : linked D [M] D) by (exists (dA * dB)%nat, D; repeat split; auto; nia).
  destruct (infinite_ok _ D _ _ Rm L (joined_emat _ _ _ _ _ _ HAl HBl) ER) as [c Hc].
  change (concat (repeat [iAlA psi; iBlB psi] slow_cells)) with (cells psi slow_cells) in Hc.
  assert (Hcl : linked D (cells psi slow_cells) D) by (apply (linked_pow D [iAlA psi; iBlB psi] L)).
  revert Hc Hcl. generalize slow_cells. intros N0 Hc Hcl.
  assert (LL : linked D (M :: cells psi N0) D) by (apply (linked_app D [M] (cells psi N0) D); exists D; split; assumption).
  assert (Hok : forall o, op_ok o (dA * dB)%nat (dA * dB)%nat -> ops_ok [M] [M] [o]).
  { intros o Ho. split; [|exact I]. unfold dim. rewrite Hd. exact Ho. }
  pose proof (emat_mmult _ _ D D D [M] [Some Op12] (cells psi N0) _ _ _ LM Hcl (Hok (Some Op12) (proj1 Hop)) (emat_op M Op12 D _ D Hd Hop) Hc) as E1'.
  pose proof (emat_mmult _ _ D D D [M] [None] (cells psi N0) _ _ _ LM Hcl (Hok None eq_refl) (emat_id M D _ D Hd) Hc) as E0'.
  cbn [app] in E0', E1'.
  rewrite (emat_trace _ _ _ _ _ E0' ltac:(discriminate) LL), (emat_trace _ _ _ _ _ E1' ltac:(discriminate) LL) in Hx.
  fold (tot (M :: cells psi N0) (None :: nn (length (cells psi N0)))) (tot (M :: cells psi N0) (Some Op12 :: nn (length (cells psi N0)))) in Hx.
  assert (Hne : is_empty Op12 = false) by (apply (matrix_nonempty Op12 _ Hop); nia).
  assert (HT : forall Op, tot (M :: cells psi N0) (oo Op :: nn (length (cells psi N0))) = ring_mean psi (1 + N0) (pair_op 0 (cell_dims psi (1 + N0)) (op_of Op))).
  { intros Op. unfold M. rewrite (tot_joined _ _ _ D dA E dB Op HAl HBl Hcl) by assumption.
    assert (Ed : cell_dims psi (1 + N0) = dA :: dB :: pdims (cells psi N0)).
    { unfold cell_dims. cbn [repeat concat app Nat.add]. rewrite HiA, HiB. f_equal. f_equal. clear -HiA HiB HAl HBl. unfold cells, pdims.
      induction N0 as [|n IH]; [reflexivity|]. cbn [repeat concat app map]. rewrite IH. unfold dim. rewrite HAl, HBl. reflexivity. }
    unfold ring_mean, melem. rewrite Ed. reflexivity. }
  assert (H0 : tot (M :: cells psi N0) (None :: nn (length (cells psi N0))) = ring_mean psi (1 + N0) id_op).
  { change (@None tensor) with (oo empty) at 1. rewrite HT. unfold ring_mean, melem. apply sumcfg_ext. intros is His. apply sumcfg_ext. intros js Hjs.
    change (op_of empty) with (@delta rs_scalar). rewrite pair_op_delta by (auto; rewrite length_cell_dims; lia). reflexivity. }
  assert (H1 : tot (M :: cells psi N0) (Some Op12 :: nn (length (cells psi N0))) = ring_mean psi (1 + N0) (pair_op 0 (cell_dims psi (1 + N0)) (mat Op12))).
  { replace (Some Op12) with (oo Op12) by (unfold oo; rewrite Hne; reflexivity). rewrite HT. unfold op_of. rewrite Hne. reflexivity. }
  rewrite H0, H1 in Hx. apply kdiv_inv in Hx. destruct Hx as [Hn Hx]. split.
  - intros H. apply Hn. rewrite H. ring.
  - assert (Hcn : 1 * c <> 0) by (intros H; apply Hn; rewrite H; ring).
    transitivity (kinv (1 * c) * (1 * c) * (x * ring_mean psi (1 + N0) id_op)); [rewrite kinv_l by exact Hcn; ring|].
    transitivity (kinv (1 * c) * (x * (1 * c * ring_mean psi (1 + N0) id_op))); [ring|]. rewrite Hx.
    transitivity (kinv (1 * c) * (1 * c) * ring_mean psi (1 + N0) (pair_op 0 (cell_dims psi (1 + N0)) (mat Op12))); [ring|]. rewrite kinv_l by exact Hcn. ring.
Qed.

Lemma wf_shift psi : wf_itebd psi -> wf_itebd (shift psi).
Proof.
  intros (D & E & dA & dB & HD & HE & HdA & HdB & HA & HAw & HB & HBw & HlA & HlB & HAl & HAlw & HBl & HBlw & HgA & HgB).
  exists E, D, dB, dA. unfold shift. cbn [iA ilA iB ilB iAlA iBlB]. repeat (split; [assumption|]). assumption.
Qed.

(** expected with an operator of two neighbouring sites, direct method: the mean value in a ring of [1 + slow_cells]
    cells that starts at the first of these sites. *)
Theorem C52_slow_expected12 psi Op12 site x : wf_itebd psi ->
  is_matrix Op12 (site_dim psi 0 * site_dim psi 1) (site_dim psi 0 * site_dim psi 1) ->
  slow_expected12 psi Op12 site = Ok x ->
  let psi' := if Z.odd site then shift psi else psi in
  is_ring_mean psi' (1 + slow_cells) (pair_op 0 (cell_dims psi' (1 + slow_cells)) (mat Op12)) x.
Proof.
  intros Hwf Hop Hx psi'. unfold psi'. clear psi'. unfold slow_expected12 in Hx. destruct (Z.odd site).
  - apply slow12_value; [apply wf_shift; exact Hwf| |exact Hx].
    change (site_dim (shift psi) 0) with (site_dim psi 1). change (site_dim (shift psi) 1) with (site_dim psi 0). rewrite Nat.mul_comm. exact Hop.
  - apply slow12_value; [exact Hwf|exact Hop|exact Hx].
Qed.

(** A ring with an amplitude different from zero has a nonzero norm. *)
Lemma ring_nonzero psi n is : in_range (cell_dims psi n) is -> ring psi n is <> 0 -> ring_mean psi n id_op <> 0.
Proof.
  intros His Hn H. apply Hn. unfold ring_mean in H. rewrite melem_id in H. unfold inner in H.
  apply kmod2_zero. apply (rsumcfg_zero (cell_dims psi n) (fun is => kmod2 (ring psi n is))); [intros; apply kmod2_nonneg| |exact His].
  apply rinj_inj. rewrite rinj_rsumcfg, rinj_0. rewrite <- H. apply sumcfg_ext. intros js Hjs. rewrite kmod2_spec. ring.
Qed.

(** The direct method returns a value whenever the ring is not zero, and both operators are given if they are on the
    same site. *)
Lemma slow_total psi Op1 i Opm Op2 j : wf_itebd psi -> (i <= j)%Z -> (i = j -> is_empty Op1 = false /\ is_empty Op2 = false) ->
  ring_mean psi (slow_cells + ((par i + Z.to_nat (j - i)) / 2 + 1)) id_op <> 0 ->
  exists x, slow_string_order_le Op1 i Opm Op2 j (iA psi) (ilA psi) (iB psi) (ilB psi) = Ok x.
Proof.
  intros Hwf Hij Hop Hr. destruct (scale_A psi Hwf) as [SA SB].
  destruct Hwf as (D & E & dA & dB & HD & HE & HdA & HdB & HA & HAw & HB & HBw & HlA & HlB & HAl & HAlw & HBl & HBlw & HgA & HgB).
  unfold slow_string_order_le. cbv zeta. rewrite SA, SB.
  assert (L1 : linked D [iAlA psi] E) by (exists dA, E; repeat split; auto).
  assert (L2 : linked E [iBlB psi] D) by (exists dB, D; repeat split; auto).
  assert (L : linked D [iAlA psi; iBlB psi] D) by (apply (linked_app D [iAlA psi] [iBlB psi] D); exists E; split; assumption).
  assert (E0 : emat (mmult (build_E_matrix (iAlA psi) (iAlA psi)) (build_E_matrix (iBlB psi) (iBlB psi))) D D [iAlA psi; iBlB psi] [None; None] (1 * 1)).
  { apply (emat_mmult _ _ D E D [iAlA psi] [None] [iBlB psi] [None]); auto; [split; [reflexivity|exact I]|apply emat_id with (d := dA); exact HAl|apply emat_id with (d := dB); exact HBl]. }
  set (J := (par i + Z.to_nat (j - i))%nat) in *. set (n := (J / 2 + 1)%nat) in *.
  assert (EF : (if Z.odd i then (i - 1)%Z else i) = (i - Z.of_nat (par i))%Z) by (unfold par; destruct (Z.odd i); lia).
  assert (EJ : j = (i - Z.of_nat (par i) + Z.of_nat J)%Z) by (unfold J; lia).
  assert (OF : Z.odd (i - Z.of_nat (par i)) = false).
  { rewrite Z.odd_sub, odd_of_nat. unfold par. destruct (Z.odd i); reflexivity. }
  assert (OJ : Z.odd j = Nat.odd J) by (rewrite EJ, Z.odd_add, OF, odd_of_nat; destruct (Nat.odd J); reflexivity).
  assert (En : Z.to_nat ((if Z.odd j then j else (j + 1)%Z) - (i - Z.of_nat (par i)) + 1) = (2 * n)%nat).
  { unfold n. rewrite double_half, OJ. clearbody J. destruct (Nat.odd J); lia. }
  rewrite EF, En. clearbody n. clear J EJ OJ En EF.
  assert (Hd1 : dim (iA psi) 1 = dim (iAlA psi) 1) by (unfold dim; rewrite HA, HAl; reflexivity).
  assert (Hd2 : dim (iB psi) 1 = dim (iBlB psi) 1) by (unfold dim; rewrite HB, HBl; reflexivity).
  assert (Ecs : forall n, cells psi n = sites psi 0 (2 * n)).
  { intros m. apply (cells_sites psi D E dA dB HD HE HdA HdB HlA HlB); unfold dim; rewrite ?HA, ?HB; reflexivity. }
  assert (Hls : forall n, linked D (cells psi n) D) by (intros m; apply (linked_pow D [iAlA psi; iBlB psi] L)).
  rewrite (ring_tot psi (slow_cells + n) id_op (nn (2 * slow_cells + 2 * n)) Hd1 Hd2) in Hr.
  2:{ intros is js His Hjs. symmetry. replace (2 * slow_cells + 2 * n)%nat with (length is) by (rewrite (in_range_length _ _ His), length_cell_dims; lia).
      apply prodop_nones. rewrite (in_range_length _ _ His), (in_range_length _ _ Hjs). reflexivity. }
  assert (Esp : cells psi (slow_cells + n) = cells psi slow_cells ++ cells psi n) by (unfold cells; rewrite repeat_app, concat_app; reflexivity).
  rewrite Esp in Hr.
  assert (H1n : 1 * 1 <> (0 : K)).
  { intros H. assert (H' : (1 : K) = 0) by (rewrite <- H; ring). rewrite <- rinj_1, <- rinj_0 in H'. apply rinj_inj in H'. lra. }
  destruct (infinite_total _ D _ (1 * 1) (cells psi n) L (Hls n) ltac:(discriminate) H1n E0) as (R0 & c & ER0 & Hc & Hcm).
  { change (concat (repeat [iAlA psi; iBlB psi] slow_cells)) with (cells psi slow_cells).
    rewrite !length_cells. exact Hr. }
  rewrite ER0. cbn [bind].
  change (concat (repeat [iAlA psi; iBlB psi] slow_cells)) with (cells psi slow_cells) in Hcm.
  assert (Hb : bond D E (0 + 2 * n) = D) by (unfold bond; cbn [Nat.add]; rewrite Nat.odd_mul; reflexivity).
  apply (slow_loop_total psi D E dA dB HD HE HdA HdB HAl HAlw HBl HBlw Op1 i Opm Op2 j (2 * n)%nat _ 0%nat (cells psi slow_cells) R0 R0 c).
  - exact OF.
  - exact Hb.
  - intros H0. apply (f_equal (@length _)) in H0. rewrite length_cells in H0. cbn [length] in H0. pose proof slow_pos. lia.
  - exact Hc.
  - exact (Hls slow_cells).
  - exact Hcm.
  - exact Hop.
  - rewrite length_cells, <- Ecs. exact Hr.
Qed.

Theorem C52_slow_defined psi Op1 i Opm Op2 j : wf_itebd psi -> (i = j -> is_empty Op1 = false /\ is_empty Op2 = false) ->
  (forall n, ring_mean psi (S n) id_op <> 0) -> exists x, slow_string_order psi Op1 i Opm Op2 j = Ok x.
Proof.
  intros Hwf Hop Hr. unfold slow_string_order. destruct (Z.ltb_spec j i).
  - apply slow_total; [exact Hwf|lia|lia|]. rewrite Nat.add_1_r, Nat.add_succ_r. apply Hr.
  - apply slow_total; [exact Hwf|lia|exact Hop|]. rewrite Nat.add_1_r, Nat.add_succ_r. apply Hr.
Qed.
End C52.

Local Close Scope K_scope.
(** ** A concrete case: the pairs |00> + 2 |11>, not even normalized *)
Lemma pair_chain0 c n : @chain (@rs_scalar RR) (cells (pair_state c) n) (repeat 0 (2 * n)) 0 0 = 1%R.
Proof.
  induction n as [|n IH]; [reflexivity|]. replace (2 * S n) with (S (S (2 * n))) by lia. unfold cells in *. cbn [repeat concat app chain].
  change (dim (iAlA (pair_state c)) 2) with 2. change (dim (iBlB (pair_state c)) 2) with 1. cbn [sum].
  set (r := @chain (@rs_scalar RR) (concat (repeat [iAlA (pair_state c); iBlB (pair_state c)] n)) (repeat 0 (2 * n)) 0 0) in *.
  change (@get (@rs_scalar RR) (iAlA (pair_state c)) [0; 0; 0]) with 1%R. change (@get (@rs_scalar RR) (iAlA (pair_state c)) [0; 0; 1]) with 0%R.
  change (@get (@rs_scalar RR) (iBlB (pair_state c)) [0; 0; 0]) with 1%R. change (@get (@rs_scalar RR) (iBlB (pair_state c)) [1; 0; 0]) with 0%R.
  change (@eq R (0 + 1 * (0 + 1 * r) + 0 * (0 + 0 * r)) 1)%R. change (@eq R r 1%R) in IH. rewrite IH. ring.
Qed.

Lemma pair_ring c n : ring_mean (pair_state c) (S n) id_op <> @k0 (@rs_scalar RR).
Proof.
  apply (ring_nonzero (pair_state c) (S n) (repeat 0 (2 * S n))).
  - unfold cell_dims. generalize (S n). clear. induction n as [|n IH]; [constructor|]. replace (2 * S n) with (S (S (2 * n))) by lia.
    cbn [repeat concat app]. change (dim (iA (pair_state c)) 1) with 2. change (dim (iB (pair_state c)) 1) with 2. constructor; [lia|]. constructor; [lia|]. exact IH.
  - unfold ring, amp. change (left_bond (cells (pair_state c) (S n))) with 1. cbn [sum]. rewrite pair_chain0. change ((0 + 1)%R <> 0%R). lra.
Qed.

(** The hypotheses hold for <Z_0 Z_2>, which the canonical method gets wrong (C52_canonical_refuted): the direct method
    returns the mean value in the ring. *)
Theorem C52_slow_case :
  exists x, slow_string_order (pair_state 2) pz 0 empty pz 2 = Ok x /\
    is_ring_mean (pair_state 2) (slow_cells + 2) (string_op (2 * slow_cells) (2 * slow_cells + 2) (op_of pz) (op_of empty) (op_of pz)) x.
Proof.
  destruct (C52_slow_defined (pair_state 2) pz 0 empty pz 2 (pair_wf 2)) as [x Hx]; [lia|intros n; apply pair_ring|].
  exists x. split; [exact Hx|].
  pose proof (C52_slow (pair_state 2) pz 0 empty pz 2 x (pair_wf 2) ltac:(lia)) as H.
  change (par 0) with 0 in H. change (Z.to_nat (2 - 0)) with 2 in H. rewrite Nat.add_0_r in H. apply H; [| | |exact Hx].
  - right. apply pz_matrix.
  - right. apply pz_matrix.
  - intros q _. left. reflexivity.
Qed.
