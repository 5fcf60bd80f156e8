(** The basis built by ArnoldiSolver *)
From Coq Require Import Reals Lra Bool List Arith ZArith Lia Ring.
From Verif Require Import Scalar ScalarFacts RScal RealInst Tensor TensorFacts Spec MpsModel MpsFacts ExpectedFacts MpoSpec CanonSpec CanonModel SweepModel FormModel FormSpec
  LFormFacts LFormValue Properties_Canon Properties_Form SimplifySpec SimplifyModel SimplifyFacts SimplifyLoop Properties_Simplify CanonProps CanonSweep ArnoldiSpec ArnoldiModel.
Import ListNotations.
Local Open Scope K_scope.

Section Facts.
Context {RS : RScal}.
Add Ring Kring : k_ring.

Lemma open_wf P : open_mps P -> wf_mps P.
Proof. intros (H1 & H2). split; [exact H1|]. exists 1%nat. split; [lia|exact H2]. Qed.
Lemma inner_ext ds f g f' g' : (forall is, in_range ds is -> f is = f' is) -> (forall is, in_range ds is -> g is = g' is) -> inner ds f g = inner ds f' g'.
Proof. intros H1 H2. unfold inner. apply sumcfg_ext. intros is Hi. rewrite H1, H2 by exact Hi. reflexivity. Qed.
Lemma weight_ext ds f g : (forall is, in_range ds is -> f is = g is) -> weight ds f = weight ds g.
Proof. intros H. apply rinj_inj. rewrite !rinj_weight. apply inner_ext; exact H. Qed.
Lemma weight_one ds f : weight ds f = 1%R -> inner ds f f = 1.
Proof. intros H. rewrite <- rinj_weight, H. apply rinj_1. Qed.
Lemma one_weight ds f : inner ds f f = 1 -> weight ds f = 1%R.
Proof. intros H. apply rinj_inj. rewrite rinj_weight, H. symmetry. apply rinj_1. Qed.
Lemma inner_sum_r ds f n (x : nat -> K) g : inner ds f (fun is => sum n (fun k => x k * g k is)) = sum n (fun k => x k * inner ds f (g k)).
Proof.
  unfold inner. rewrite (sum_ext n _ (fun k => sumcfg ds (fun is => x k * (kconj (f is) * g k is)))) by (intros; apply sumcfg_mul_l).
  rewrite <- sumcfg_sum_swap. apply sumcfg_ext. intros is _. rewrite sum_mul_l. apply sum_ext. intros k _. ring.
Qed.
Lemma inner_sum_l ds f n (x : nat -> K) g : inner ds (fun is => sum n (fun k => x k * g k is)) f = sum n (fun k => kconj (x k) * inner ds (g k) f).
Proof.
  rewrite <- inner_conj, inner_sum_r, sum_conj. apply sum_ext. intros k _. rewrite kconj_mul, inner_conj. reflexivity.
Qed.
Lemma inner_sub_r ds f g h : inner ds f (fun is => g is - h is) = inner ds f g - inner ds f h.
Proof. unfold inner. rewrite <- sumcfg_sub. apply sumcfg_ext. intros is _. ring. Qed.
Lemma inner_scale_r ds f c g : inner ds f (fun is => c * g is) = c * inner ds f g.
Proof. unfold inner. rewrite sumcfg_mul_l. apply sumcfg_ext. intros is _. ring. Qed.

Variable svd : tensor -> tensor * list R * tensor.
Hypothesis Hsvd : svd_contract svd.
Variable flag : R.
Hypothesis Hflag : (1 <= flag)%R.
Variable algorithm : bool.
Variable tolerance : R.
Variables internal_sweeps : nat.
Hypothesis Hint : internal_sweeps <> 0%nat.
Variables (H : mpo) (ds : list nat).
Hypothesis HH : hermitian_mpo H ds.
Variable Dmax : Z.
Hypothesis Hsize : one_site algorithm (2 * Dmax) = true \/ (2 <= length ds)%nat.

Definition Hv (f : list nat -> K) : list nat -> K := op_apply ds (opelem H) f.

Lemma apply_H psi : open_mps psi -> pdims psi = ds ->
  exists chi, apply_canonical svd flag H psi (-1) true = Ok chi /\ open_mps chi /\ pdims chi = ds /\ forall is, in_range ds is -> amp chi is = Hv (amp psi) is.
Proof.
  intros Ho Hd. destruct HH as (HO & H1 & H2 & _).
  destruct (C32_apply_canonical_partial svd flag Hsvd H psi (-1) true HO Ho ltac:(congruence)) as (chi & E & E1 & E2 & _ & E4); [left; split; [reflexivity|lra]|].
  exists chi. split; [exact E|]. split; [exact E1|]. split; [congruence|]. intros is Hi. rewrite (E4 ltac:(auto) is ltac:(rewrite H1; exact Hi)). rewrite Hd. reflexivity.
Qed.

Lemma Hv_herm f g : inner ds f (Hv g) = inner ds (Hv f) g.
Proof.
  unfold inner, Hv, op_apply. destruct HH as (_ & _ & _ & Hh).
  rewrite (sumcfg_ext ds _ (fun is => sumcfg ds (fun js => kconj (f is) * (opelem H is js * g js)))) by (intros; apply sumcfg_mul_l).
  rewrite sumcfg_swap. apply sumcfg_ext. intros js Hj. rewrite sumcfg_conj, sumcfg_mul_r. apply sumcfg_ext. intros is Hi.
  rewrite kconj_mul, <- (Hh is js) by assumption. ring.
Qed.
Lemma Hv_ext f g : (forall is, in_range ds is -> f is = g is) -> forall is, Hv f is = Hv g is.
Proof. intros E is. unfold Hv, op_apply. apply sumcfg_ext. intros js Hj. rewrite E by exact Hj. reflexivity. Qed.
Lemma Hv_diag f : rinj (kre (inner ds f (Hv f))) = inner ds f (Hv f).
Proof. apply kre_real. rewrite inner_conj, <- Hv_herm. reflexivity. Qed.

Lemma scprod_ds P Q sense : open_mps P -> open_mps Q -> pdims P = ds -> pdims Q = ds -> scprod P Q sense = Ok (inner ds (amp P) (amp Q)).
Proof. intros H1 H2 H3 H4. rewrite scprod_correct by (try apply open_wf; congruence). rewrite H3. reflexivity. Qed.

(** ** A new vector *)
Lemma target_value w Q P : good_bras w Q ds -> open_mps P -> pdims P = ds -> target_norm2 w Q P = Ok (weight ds (combo w Q)).
Proof.
  intros Hg Ho Hd. assert (HL : (0 < length P)%nat) by (destruct Ho as (Hn & _); destruct P; [congruence|cbn; lia]).
  unfold target_norm2, new_sweeper. destruct (Z.ltb_spec 0 (Z.of_nat (length P))); [|lia]. cbn [bind Z.ltb Z.compare sweeper_site sk].
  assert (HLd : length ds = length P) by (rewrite <- Hd; apply length_pdims).
  destruct (proj1 (C44_constructor w Q P ds 0 Hg) ltac:(lia)) as (f & Ef). rewrite Ef. cbn [bind].
  change 0%Z with (Z.of_nat 0) in Ef. rewrite (C44_norm2 w Q ds f _ _ Hg (lfh_new w Q ds P 0 f Ho Hd Ef)). cbn [bind]. rewrite (norm_combo w Q ds).
  rewrite kabs_rinj by apply weight_nonneg. rewrite sqrt_sqrt by apply weight_nonneg. reflexivity.
Qed.

Lemma new_vector_ok w Q P : good_bras w Q ds -> open_mps P -> pdims P = ds ->
  exists o, new_vector svd flag algorithm tolerance internal_sweeps Dmax w Q P = Ok o /\
    match o with
    | None => True
    | Some (c, e) => open_mps c /\ pdims c = ds /\ inner ds (amp c) (amp c) = 1 /\ (0 <= e)%R /\ ((0 < Dmax)%Z -> bonds_le (2 * Dmax) c) /\
        exists n, (0 < n)%R /\ (e * n * (e * n) * weight ds (combo w Q) = dist2 ds (combo w Q) (fun is => (rinj (sqrt n) * amp c is)%K))%R
    end.
Proof.
  intros Hg Ho Hd. unfold new_vector. rewrite (target_value w Q P Hg Ho Hd). cbn [bind].
  destruct (Req_EM_T (weight ds (combo w Q)) 0) as [E0|E0]; [exists None; auto|].
  assert (Hv : valid_call flag algorithm P w Q ds internal_sweeps (2 * Dmax) MPS_DEFAULT_TOLERANCE).
  { destruct Hg as (G1 & G2 & G3). split; [exact G1|]. split; [exact G2|]. split; [exact G3|]. split; [exact Ho|]. split; [exact Hd|]. split; [exact Hint|]. split.
    - destruct (Classical_Prop.classic (exists is, in_range ds is /\ combo w Q is <> 0)) as [X|X]; [exact X|]. exfalso. apply E0.
      apply rinj_inj. rewrite rinj_weight, rinj_0. unfold inner. apply sumcfg_zero. intros is Hi.
      assert (Z : combo w Q is = 0) by (destruct (keqb_spec (combo w Q is) 0) as [Z|Z]; [exact Z|]; destruct X; exists is; auto). rewrite Z. ring.
    - split; [destruct Hsize as [Hs|Hs]; [left; exact Hs|right; rewrite <- (length_pdims P), Hd; exact Hs]|].
      left. unfold truncation, tolerance_used, MPS_DEFAULT_TOLERANCE. destruct (one_site algorithm (2 * Dmax)); [lra|]. destruct (Rlt_dec (-4) 0); lra. }
  destruct (C62_returns svd flag Hsvd algorithm tolerance P w Q ds (-1) internal_sweeps (2 * Dmax) MPS_DEFAULT_TOLERANCE Hv) as (P' & s' & err & n & E).
  rewrite E. cbn [bind]. destruct (Rltb n (1 / 10 ^ 15)) eqn:En; [exists None; auto|].
  assert (Hn : (0 < n)%R).
  { unfold Rltb in En. destruct (Rlt_dec n (1 / 10 ^ 15)); [discriminate|]. assert (0 < 1 / 10 ^ 15)%R by (apply Rdiv_lt_0_compat; [lra|apply pow_lt; lra]). lra. }
  destruct (C62_normalize svd flag Hsvd algorithm tolerance P w Q ds (-1) internal_sweeps (2 * Dmax) MPS_DEFAULT_TOLERANCE Hv P' s' err n E ltac:(lra)) as (c & Ec & C1 & C2 & C3 & C4 & C5).
  destruct (C62_error svd flag Hsvd algorithm tolerance P w Q ds (-1) internal_sweeps (2 * Dmax) MPS_DEFAULT_TOLERANCE Hv P' s' err n E) as (E1 & E2 & E3 & E4 & E5).
  destruct (C62_bonds svd flag Hsvd algorithm tolerance P w Q ds (-1) internal_sweeps (2 * Dmax) MPS_DEFAULT_TOLERANCE Hv P' s' err n E) as (B1 & _).
  rewrite Ec. cbn [bind].
  assert (Bc : (0 < Dmax)%Z -> bonds_le (2 * Dmax) c).
  { destruct (C62_canonical svd flag Hsvd algorithm tolerance P w Q ds (-1) internal_sweeps (2 * Dmax) MPS_DEFAULT_TOLERANCE Hv P' s' err n E) as (F1 & F2 & F3 & _).
    intros HD. specialize (B1 ltac:(lia)). intros j Hj.
    assert (Ed : dim (site c j) 0 = dim (site P' j) 0).
    { destruct (outcome svd flag Hsvd algorithm tolerance P w Q ds (-1) internal_sweeps (2 * Dmax) MPS_DEFAULT_TOLERANCE Hv P' s' err n E) as (d & _ & _ & _ & _ & _ & _ & En').
      rewrite Ec in En'. destruct (Req_EM_T n 0) as [|_]; [lra|]. injection En' as ->.
      destruct (Nat.eq_dec j (sweep_end (length P) s')) as [->|Hne].
      - destruct (le_lt_dec (length P') (sweep_end (length P) s')) as [Hl|Hl].
        + exfalso. rewrite length_replace_nth in Hj. lia.
        + rewrite site_replace_eq by exact Hl. unfold tscale, dim. reflexivity.
      - rewrite site_replace_neq by exact Hne. reflexivity. }
    assert (HLc : length c = length P') by (rewrite <- (length_pdims c), <- (length_pdims P'); congruence).
    rewrite Ed. apply B1. lia. }
  assert (Ed : (err / n * n * (err / n * n) * weight ds (combo w Q) = dist2 ds (combo w Q) (fun is => (rinj (sqrt n) * amp c is)%K))%R).
  { replace (err / n * n)%R with err by (field; lra). rewrite E5. replace (dist2 ds (combo w Q) (fun is => rinj (sqrt n) * amp c is)) with (dist2 ds (combo w Q) (amp P')).
    - field. exact E0.
    - unfold dist2. apply weight_ext. intros is Hi. rewrite (C4 is Hi). f_equal. transitivity (rinj (sqrt n * / sqrt n)%R * amp P' is).
      + rewrite Rinv_r by (apply Rgt_not_eq; apply sqrt_lt_R0; exact Hn). rewrite rinj_1. ring.
      + rewrite rinj_mul. ring. }
  destruct (s' * -1 <? 0)%Z eqn:Es.
  - assert (Hlen : (0 < length c)%nat) by (destruct C1 as (Hn0 & _); destruct c; [congruence|cbn; lia]).
    destruct (C14_canonical_form svd flag Hsvd c 0 (open_wf c C1) Hlen ltac:(left; lra)) as (c' & Ec' & _ & W2 & W3 & W4 & _ & _ & W7).
    unfold canonical_form. cbn [Z.ltb Z.compare]. change 0%Z with (Z.of_nat 0). rewrite Ec'. cbn [bind]. eexists. split; [reflexivity|]. cbv beta iota.
    specialize (W7 ltac:(auto)). rewrite C2 in W7.
    split; [exact (W2 C1)|]. split; [congruence|]. split; [rewrite (inner_ext ds _ _ (amp c) (amp c)) by exact W7; apply weight_one; exact C5|].
    split; [apply Rmult_le_pos; [lra|left; apply Rinv_0_lt_compat; exact Hn]|]. split.
    + intros HD j Hj. assert (HLc : length c' = length c) by (rewrite <- (length_pdims c), <- (length_pdims c'); congruence). specialize (Bc HD j ltac:(lia)). specialize (W4 j). lia.
    + exists n. split; [exact Hn|]. rewrite Ed. unfold dist2. apply weight_ext. intros is Hi. rewrite W7 by exact Hi. reflexivity.
  - cbn [bind]. eexists. split; [reflexivity|]. cbv beta iota. split; [exact C1|]. split; [exact C2|]. split; [apply weight_one; exact C5|].
    split; [apply Rmult_le_pos; [lra|left; apply Rinv_0_lt_compat; exact Hn]|]. split; [exact Bc|]. exists n. split; [exact Hn|exact Ed].
Qed.

(** A combination which is the state the simplification starts from is found without error. *)
Lemma new_vector_exact w Q P : good_bras w Q ds -> open_mps P -> pdims P = ds -> (Dmax <= 0)%Z -> canonical_at 0 P ->
  (forall is, in_range ds is -> amp P is = combo w Q is) -> weight ds (combo w Q) = 1%R ->
  exists c, new_vector svd flag algorithm tolerance internal_sweeps Dmax w Q P = Ok (Some (c, 0%R)).
Proof.
  intros Hg Ho Hd HD Hcan Heq Hw1. unfold new_vector. rewrite (target_value w Q P Hg Ho Hd). cbn [bind].
  destruct (Req_EM_T (weight ds (combo w Q)) 0) as [E0|E0]; [lra|].
  assert (Hv : valid_call flag algorithm P w Q ds internal_sweeps (2 * Dmax) MPS_DEFAULT_TOLERANCE).
  { destruct Hg as (G1 & G2 & G3). split; [exact G1|]. split; [exact G2|]. split; [exact G3|]. split; [exact Ho|]. split; [exact Hd|]. split; [exact Hint|]. split.
    - destruct (Classical_Prop.classic (exists is, in_range ds is /\ combo w Q is <> 0)) as [X|X]; [exact X|]. exfalso. apply E0.
      apply rinj_inj. rewrite rinj_weight, rinj_0. unfold inner. apply sumcfg_zero. intros is Hi.
      assert (Z : combo w Q is = 0) by (destruct (keqb_spec (combo w Q is) 0) as [Z|Z]; [exact Z|]; destruct X; exists is; auto). rewrite Z. ring.
    - split; [destruct Hsize as [Hs|Hs]; [left; exact Hs|right; rewrite <- (length_pdims P), Hd; exact Hs]|].
      left. unfold truncation, tolerance_used, MPS_DEFAULT_TOLERANCE. destruct (one_site algorithm (2 * Dmax)); [lra|]. destruct (Rlt_dec (-4) 0); lra. }
  destruct (C62_returns svd flag Hsvd algorithm tolerance P w Q ds (-1) internal_sweeps (2 * Dmax) MPS_DEFAULT_TOLERANCE Hv) as (P' & s' & err & n & E).
  assert (Htr : no_truncation (truncation flag algorithm (2 * Dmax) MPS_DEFAULT_TOLERANCE)).
  { unfold truncation, tolerance_used, MPS_DEFAULT_TOLERANCE. destruct (one_site algorithm (2 * Dmax)); [right; lra|]. destruct (Rlt_dec (-4) 0); right; lra. }
  destruct (C62_fixed_point svd flag Hsvd algorithm tolerance P w Q ds (-1) internal_sweeps (2 * Dmax) MPS_DEFAULT_TOLERANCE Hv P' s' err n E Htr ltac:(left; lia) Hcan Heq) as (Fx & F0).
  rewrite E. cbn [bind]. destruct (C62_error svd flag Hsvd algorithm tolerance P w Q ds (-1) internal_sweeps (2 * Dmax) MPS_DEFAULT_TOLERANCE Hv P' s' err n E) as (E1 & _).
  assert (Hn : n = 1%R) by (rewrite <- E1, <- Hw1; apply weight_ext; exact Fx). clear E1. subst n err.
  assert (En : Rltb 1 (1 / 10 ^ 15) = false).
  { unfold Rltb. destruct (Rlt_dec 1 (1 / 10 ^ 15)) as [Q1|]; [|reflexivity]. exfalso. assert (1 <= 10 ^ 15)%R by (apply pow_R1_Rle; lra). assert (1 / 10 ^ 15 <= 1)%R; [|lra].
    unfold Rdiv. rewrite Rmult_1_l. rewrite <- Rinv_1. apply Rinv_le_contravar; lra. }
  rewrite En.
  destruct (C62_normalize svd flag Hsvd algorithm tolerance P w Q ds (-1) internal_sweeps (2 * Dmax) MPS_DEFAULT_TOLERANCE Hv P' s' 0 1 E ltac:(lra)) as (c & Ec & C1 & C2 & _).
  rewrite Ec. cbn [bind]. replace (0 / 1)%R with 0%R by field. destruct (s' * -1 <? 0)%Z.
  - assert (Hlen : (0 < length c)%nat) by (destruct C1 as (Hn0 & _); destruct c; [congruence|cbn; lia]).
    destruct (C14_canonical_form svd flag Hsvd c 0 (open_wf c C1) Hlen ltac:(left; lra)) as (c' & Ec' & _).
    unfold canonical_form. cbn [Z.ltb Z.compare]. change 0%Z with (Z.of_nat 0). rewrite Ec'. cbn [bind]. exists c'. reflexivity.
  - exists c. reflexivity.
Qed.

(** ** The loop *)
Notation st states i := (amp (nth i states [])).
Definition inv (states : list mps) (N Heff : table) (errors : list R) (Hcurrent : mps) : Prop :=
  states <> [] /\ (forall q, In q states -> open_mps q /\ pdims q = ds /\ inner ds (amp q) (amp q) = 1) /\
  (forall i j, (i < length states)%nat -> (j < length states)%nat ->
     N i j = inner ds (st states i) (st states j) /\ Heff i j = inner ds (st states i) (Hv (st states j))) /\
  open_mps Hcurrent /\ pdims Hcurrent = ds /\ (forall is, in_range ds is -> amp Hcurrent is = Hv (st states (length states - 1)) is) /\
  Forall (fun e => (0 <= e)%R) errors /\
  ((0 < Dmax)%Z -> forall k, (0 < k < length states)%nat -> bonds_le (2 * Dmax) (nth k states [])) /\
  (length errors + 1)%nat = length states /\
  (forall k, (0 < k < length states)%nat -> exists n, (0 < n)%R /\
     ((nth (k - 1) errors 0 * n) * (nth (k - 1) errors 0 * n) * weight ds (lanczos_target ds H (fun i => st states i) k) =
        dist2 ds (lanczos_target ds H (fun i => st states i) k) (fun is => (rinj (sqrt n) * st states k is)%K))%R).

Lemma dist2_ext' f g f' g' : (forall is, in_range ds is -> f is = f' is) -> (forall is, in_range ds is -> g is = g' is) -> dist2 ds f g = dist2 ds f' g'.
Proof. intros H1 H2. unfold dist2. apply weight_ext. intros is Hi. rewrite H1, H2 by exact Hi. reflexivity. Qed.

Lemma fill_ok states current Hcurrent ndx N Heff : (forall q, In q states -> open_mps q /\ pdims q = ds) ->
  open_mps current -> pdims current = ds -> open_mps Hcurrent -> pdims Hcurrent = ds -> forall k, (k <= length states)%nat -> (k <= ndx)%nat ->
  exists N' Heff', fold_left (fill_pair states current Hcurrent ndx) (seq 0 k) (Ok (N, Heff)) = Ok (N', Heff') /\
    (forall a b, N' a b = if (a =? ndx) && (b <? k) then kconj (inner ds (st states b) (amp current))
       else if (b =? ndx) && (a <? k) then inner ds (st states a) (amp current) else N a b) /\
    (forall a b, Heff' a b = if (a =? ndx) && (b <? k) then kconj (inner ds (st states b) (amp Hcurrent))
       else if (b =? ndx) && (a <? k) then inner ds (st states a) (amp Hcurrent) else Heff a b).
Proof.
  intros Hq Ho1 Hd1 Ho2 Hd2. induction k as [|k IH]; intros Hk Hk'.
  - exists N, Heff. split; [reflexivity|]. split; intros a b; rewrite !andb_false_r; reflexivity.
  - destruct (IH ltac:(lia) ltac:(lia)) as (N1 & H1 & E1 & E2 & E3). rewrite seq_S, fold_left_app, E1. cbn [Nat.add fold_left]. unfold fill_pair at 1. cbn [bind].
    destruct (Hq (nth k states []) ltac:(apply nth_In; lia)) as (Q1 & Q2).
    rewrite !scprod_ds by assumption. cbn [bind]. eexists _, _. split; [reflexivity|].
    split; intros a b; unfold set; rewrite ?E2, ?E3;
      destruct (Nat.eqb_spec a ndx), (Nat.eqb_spec b k), (Nat.eqb_spec b ndx), (Nat.eqb_spec a k), (Nat.ltb_spec b k), (Nat.ltb_spec a k), (Nat.ltb_spec b (S k)), (Nat.ltb_spec a (S k));
      cbn [andb]; subst; try lia; try reflexivity.
Qed.

Lemma lanczos_target_ext v v' k is : (0 < k)%nat -> (forall j, (j < k)%nat -> v j = v' j) -> lanczos_target ds H v k is = lanczos_target ds H v' k is.
Proof. intros Hk E. unfold lanczos_target. cbv zeta. rewrite (E (k - 1)%nat) by lia. destruct (Nat.ltb_spec 1 k); [rewrite (E (k - 2)%nat) by lia|]; reflexivity. Qed.
Lemma combo_target Heff states Hcurrent ndx : length states = ndx -> (0 < length states)%nat -> (forall is, in_range ds is -> amp Hcurrent is = Hv (st states (length states - 1)) is) ->
  (forall i j, (i < length states)%nat -> (j < length states)%nat -> Heff i j = inner ds (st states i) (Hv (st states j))) ->
  forall is, in_range ds is -> combo (new_coeffs Heff ndx) (new_vectors Hcurrent states ndx) is = lanczos_target ds H (fun i => st states i) ndx is.
Proof.
  intros Hn Hl H6 H3 is Hi. unfold lanczos_target, combo, new_coeffs, new_vectors. cbv zeta. destruct (Nat.ltb_spec 1 ndx); cbn [length sum nth].
  - rewrite (H6 is Hi), (H3 (ndx - 1)%nat (ndx - 1)%nat), (H3 (ndx - 1)%nat (ndx - 2)%nat), Hn by lia. unfold Hv, mps. ring.
  - rewrite (H6 is Hi), (H3 (ndx - 1)%nat (ndx - 1)%nat), Hn by lia. unfold Hv, mps. ring.
Qed.

Lemma loop_ok : forall k ndx states N Heff errors current Hcurrent, inv states N Heff errors Hcurrent -> length states = ndx -> open_mps current -> pdims current = ds ->
  exists states' N' Heff' errors' current' Hcurrent', arnoldi_loop svd flag algorithm tolerance internal_sweeps H Dmax k ndx states N Heff errors current Hcurrent = Ok (states', N', Heff', errors', current') /\
    inv states' N' Heff' errors' Hcurrent' /\ (length states <= length states' <= length states + k)%nat /\ (exists l, states' = states ++ l) /\
    open_mps current' /\ pdims current' = ds.
Proof.
  induction k as [|k IH]; intros ndx states N Heff errors current Hcurrent HI Hn Hoc Hdc; cbn [arnoldi_loop].
  - exists states, N, Heff, errors, current, Hcurrent. split; [reflexivity|]. split; [exact HI|]. split; [lia|]. split; [exists []; symmetry; apply app_nil_r|]. auto.
  - pose proof HI as (I1 & I2 & I3 & I4 & I5 & I6 & I7 & I8 & I9 & I10). assert (Hl : (0 < length states)%nat) by (destruct states; [congruence|cbn; lia]).
    destruct (new_vector_ok (new_coeffs Heff ndx) (new_vectors Hcurrent states ndx) Hcurrent) as (o & Eo & Ho); [|exact I4|exact I5|].
    { split; [unfold new_vectors; discriminate|]. split; [unfold new_coeffs, new_vectors; destruct (Nat.ltb 1 ndx); reflexivity|].
      assert (Hin : forall i, (i < length states)%nat -> open_mps (nth i states []) /\ pdims (nth i states []) = ds) by (intros i Hi; destruct (I2 (nth i states []) (nth_In _ _ Hi)) as (A & B & _); auto).
      intros b [<-|[<-|Hb]]; [split; assumption|apply Hin; lia|]. destruct (Nat.ltb_spec 1 ndx); [|contradiction]. destruct Hb as [<-|[]]. apply Hin. lia. }
    rewrite Eo. cbn [bind]. destruct o as [(c & e)|].
    2:{ exists states, N, Heff, errors, Hcurrent, Hcurrent. split; [reflexivity|]. split; [exact HI|]. split; [lia|]. split; [exists []; symmetry; apply app_nil_r|]. auto. }
    destruct Ho as (O1 & O2 & O3 & O4 & O5 & nn & O6 & O7). destruct (apply_H c O1 O2) as (Hc & Ec & H1 & H2 & H3). rewrite Ec. cbn [bind].
    destruct (fill_ok states c Hc ndx N Heff) with (k := ndx) as (N1 & F1 & Ef & HN & HF); try assumption; try lia.
    { intros q Hq. destruct (I2 q Hq) as (A & B & _). auto. }
    rewrite Ef. cbn [bind]. rewrite scprod_ds by assumption. cbn [bind].
    assert (Ex : inner ds (amp c) (amp Hc) = inner ds (amp c) (Hv (amp c))) by (apply inner_ext; auto).
    assert (nthl : forall i, (i < length states)%nat -> nth i (states ++ [c]) [] = nth i states []) by (intros i Hi; apply app_nth1; exact Hi).
    assert (nthr : nth (length states) (states ++ [c]) [] = c) by (rewrite app_nth2, Nat.sub_diag by lia; reflexivity).
    destruct (IH (S ndx) (states ++ [c]) (set N1 ndx ndx 1) (set F1 ndx ndx (rinj (kre (inner ds (amp c) (amp Hc))))) (errors ++ [e]) c Hc) as (s' & N' & F' & e' & c' & Hc' & E' & HI' & HL' & (l & El) & Hc1 & Hc2).
    + split; [destruct states; discriminate|]. split; [intros q Hq; apply in_app_or in Hq as [Hq|[<-|[]]]; [apply I2; exact Hq|auto]|].
      assert (I11 : inner ds (amp c) (Hv (amp c)) = rinj (kre (inner ds (amp c) (amp Hc)))) by (rewrite Ex; symmetry; apply Hv_diag).
      split; [|split; [exact H1|split; [exact H2|split; [|split; [apply Forall_app; split; [exact I7|constructor; [exact O4|constructor]]|split; [|split; [rewrite !app_length; cbn [length]; lia|]]]]]]].
      * intros i j. rewrite app_length. cbn [length]. intros Hi Hj. unfold set. rewrite HN, HF.
        destruct (Nat.eq_dec i ndx) as [Ei|Ei], (Nat.eq_dec j ndx) as [Ej|Ej].
        -- subst i j. rewrite Nat.eqb_refl. cbn [andb]. rewrite <- Hn, nthr. split; [symmetry; exact O3|symmetry; exact I11].
        -- subst i. rewrite Nat.eqb_refl. destruct (Nat.eqb_spec j ndx); [contradiction|]. destruct (Nat.ltb_spec j ndx); [|lia]. cbn [andb]. rewrite <- Hn, nthr, nthl by lia.
           split; [apply inner_conj|]. rewrite inner_conj. rewrite Hv_herm. apply inner_ext; auto.
        -- subst j. rewrite Nat.eqb_refl. destruct (Nat.eqb_spec i ndx); [contradiction|]. destruct (Nat.ltb_spec i ndx); [|lia]. cbn [andb]. rewrite <- Hn, nthr, nthl by lia.
           split; [reflexivity|]. apply inner_ext; auto.
        -- destruct (Nat.eqb_spec j ndx); [contradiction|]. destruct (Nat.eqb_spec i ndx); [contradiction|]. cbn [andb]. rewrite !nthl by lia. apply I3; lia.
      * intros is Hi. rewrite app_length. cbn [length]. replace (length states + 1 - 1)%nat with (length states) by lia. rewrite nthr. apply H3. exact Hi.
      * intros HD q Hq. rewrite app_length in Hq. cbn [length] in Hq. destruct (Nat.eq_dec q (length states)) as [->|]; [rewrite nthr; apply O5; exact HD|]. rewrite nthl by lia. apply I8; [exact HD|lia].
      * intros q Hq. rewrite app_length in Hq. cbn [length] in Hq. destruct (Nat.eq_dec q (length states)) as [->|Hne].
        -- exists nn. split; [exact O6|]. rewrite (app_nth2 errors) by lia. replace (length states - 1 - length errors)%nat with 0%nat by lia. cbn [nth].
           assert (Ht : forall is, in_range ds is -> lanczos_target ds H (fun i => st (states ++ [c]) i) (length states) is = combo (new_coeffs Heff ndx) (new_vectors Hcurrent states ndx) is).
           { intros is Hi. rewrite (combo_target Heff states Hcurrent ndx Hn Hl I6 (fun i j Hi Hj => proj2 (I3 i j Hi Hj)) is Hi). rewrite Hn.
             apply lanczos_target_ext; [lia|]. intros j Hj. refine (f_equal (fun q => amp q) (nthl j _)). lia. }
           rewrite (weight_ext ds _ _ Ht), O7. apply dist2_ext'; [intros; symmetry; apply Ht; assumption|]. intros is Hi. rewrite nthr. reflexivity.
        -- destruct (I10 q ltac:(lia)) as (n' & M1 & M2). exists n'. split; [exact M1|]. rewrite (app_nth1 errors) by lia.
           assert (Ht : forall is, in_range ds is -> lanczos_target ds H (fun i => st (states ++ [c]) i) q is = lanczos_target ds H (fun i => st states i) q is).
           { intros is Hi. apply lanczos_target_ext; [lia|]. intros j Hj. refine (f_equal (fun q => amp q) (nthl j _)). lia. }
           rewrite (weight_ext ds _ _ Ht), M2. apply dist2_ext'; [intros; symmetry; apply Ht; assumption|]. intros is Hi. rewrite nthl by lia. reflexivity.
    + rewrite app_length. cbn. lia.
    + exact O1.
    + exact O2.
    + exists s', N', F', e', c', Hc'. split; [exact E'|]. split; [exact HI'|]. rewrite app_length in HL'. cbn [length] in HL'. split; [lia|]. split; [|auto]. exists (c :: l). rewrite El, <- app_assoc. reflexivity.
Qed.

(** The beginning of arnoldi_basis, for a state of norm one *)
Lemma basis_start' psi max_states : open_mps psi -> pdims psi = ds -> inner ds (amp psi) (amp psi) = 1 ->
  exists v N Heff Hc, arnoldi_basis svd flag algorithm tolerance internal_sweeps H max_states psi Dmax =
      arnoldi_loop svd flag algorithm tolerance internal_sweeps H Dmax (max_states - 1) 1 [v] N Heff [] psi Hc /\
    inv [v] N Heff [] Hc /\ (forall is, in_range ds is -> amp v is = amp psi is) /\ apply_canonical svd flag H psi (-1) true = Ok Hc.
Proof.
  intros Ho Hd Hw. unfold arnoldi_basis. destruct (apply_H psi Ho Hd) as (Hc & Ec & H1 & H2 & H3). rewrite Ec. cbn [bind].
  assert (HL : (0 < length psi)%nat) by (destruct Ho as (Hn & _); destruct psi; [congruence|cbn; lia]).
  assert (Hz : exists is, in_range (pdims psi) is /\ amp psi is <> 0).
  { destruct (Classical_Prop.classic (exists is, in_range (pdims psi) is /\ amp psi is <> 0)) as [X|X]; [exact X|]. exfalso. apply SvdExist.k1_neq_0. rewrite <- Hw. unfold inner. apply sumcfg_zero. intros is Hi.
    assert (Z : amp psi is = 0) by (destruct (keqb_spec (amp psi is) 0) as [Z|Z]; [exact Z|]; destruct X; exists is; split; [rewrite Hd; exact Hi|exact Z]). rewrite Z. ring. }
  destruct (C14_normal_form_proportional svd flag Hsvd psi 0 Ho HL ltac:(auto) Hz) as (v & n & Ev & Hn & En & Ha).
  destruct (C14_normal_form_unit svd flag Hsvd psi 0 v Ho HL (or_intror Hz) Ev) as (V1 & V2 & _ & _ & V5).
  unfold normal_form. cbn [Z.ltb Z.compare]. change 0%Z with (Z.of_nat 0) at 1. rewrite Ev. cbn [bind]. rewrite scprod_ds by assumption. cbn [bind].
  assert (n1 : n = 1%R).
  { rewrite Hd, Hw, <- rinj_1 in En. apply rinj_inj in En. nra. }
  subst n. assert (Hav : forall is, in_range ds is -> amp v is = amp psi is).
  { intros is Hi. rewrite <- (Ha is) by (rewrite Hd; exact Hi). rewrite rinj_1. ring. }
  eexists v, _, _, Hc. split; [reflexivity|]. split; [|split; [exact Hav|first [exact Ec|reflexivity]]].
  split; [discriminate|]. split; [intros q [<-|[]]; split; [exact V1|]; split; [congruence|]; rewrite <- V5; rewrite V2, Hd; reflexivity|].
  split; [|split; [exact H1|split; [exact H2|split; [|split; [constructor|split; [intros HD q Hq; cbn in Hq; lia|split; [reflexivity|intros q Hq; cbn in Hq; lia]]]]]]].
  + intros i j Hi Hj. cbn in Hi, Hj. assert (i = 0%nat) as -> by lia. assert (j = 0%nat) as -> by lia. cbn [set Nat.eqb andb nth].
    split; [rewrite <- V5; rewrite V2, Hd; reflexivity|].
    transitivity (inner ds (amp psi) (Hv (amp psi))).
    * replace (inner ds (amp psi) (amp Hc)) with (inner ds (amp psi) (Hv (amp psi))) by (apply inner_ext; [reflexivity|intros; symmetry; auto]). apply Hv_diag.
    * apply inner_ext; [intros; symmetry; auto|]. intros is Hi'. apply Hv_ext. intros; symmetry; auto.
  + intros is Hi. cbn [length Nat.sub nth]. rewrite H3 by exact Hi. apply Hv_ext. intros; symmetry; auto.
Qed.

Lemma basis_start psi max_states : open_mps psi -> pdims psi = ds -> inner ds (amp psi) (amp psi) = 1 ->
  exists v N Heff Hc, arnoldi_basis svd flag algorithm tolerance internal_sweeps H max_states psi Dmax =
      arnoldi_loop svd flag algorithm tolerance internal_sweeps H Dmax (max_states - 1) 1 [v] N Heff [] psi Hc /\
    inv [v] N Heff [] Hc /\ forall is, in_range ds is -> amp v is = amp psi is.
Proof. intros H1 H2 H3. destruct (basis_start' psi max_states H1 H2 H3) as (v & N & F & Hc & A & B & C & _). exists v, N, F, Hc. auto. Qed.

Lemma basis_ok psi max_states : open_mps psi -> pdims psi = ds -> inner ds (amp psi) (amp psi) = 1 ->
  exists states N Heff errors current Hcurrent, arnoldi_basis svd flag algorithm tolerance internal_sweeps H max_states psi Dmax = Ok (states, N, Heff, errors, current) /\
    inv states N Heff errors Hcurrent /\ (length states <= 1 + (max_states - 1))%nat /\ (forall is, in_range ds is -> st states 0 is = amp psi is) /\
    open_mps current /\ pdims current = ds.
Proof.
  intros Ho Hd Hw. destruct (basis_start psi max_states Ho Hd Hw) as (v & N0 & F0 & Hc & Eb & HI & Hav). rewrite Eb.
  destruct (loop_ok (max_states - 1) 1 [v] N0 F0 [] psi Hc HI eq_refl Ho Hd) as (s' & N' & F' & e' & c' & Hc' & E' & HI' & HL' & (l & El) & Hc1 & Hc2).
  exists s', N', F', e', c', Hc'. split; [exact E'|]. split; [exact HI'|]. cbn [length] in HL'. split; [lia|]. split; [rewrite El; exact Hav|auto].
Qed.

(** For an eigenvector of H the loop stops at once. *)
Lemma basis_eigen psi lambda max_states : open_mps psi -> pdims psi = ds -> inner ds (amp psi) (amp psi) = 1 ->
  (forall is, in_range ds is -> Hv (amp psi) is = lambda * amp psi is) ->
  exists v N Heff current Hcurrent, arnoldi_basis svd flag algorithm tolerance internal_sweeps H max_states psi Dmax = Ok ([v], N, Heff, [], current) /\
    inv [v] N Heff [] Hcurrent /\ (forall is, in_range ds is -> amp v is = amp psi is) /\ open_mps current /\ pdims current = ds.
Proof.
  intros Ho Hd Hw Hl. destruct (basis_start psi max_states Ho Hd Hw) as (v & N0 & F0 & Hc & Eb & HI & Hav). rewrite Eb.
  destruct (max_states - 1)%nat as [|k]; cbn [arnoldi_loop].
  - exists v, N0, F0, psi, Hc. auto.
  - pose proof HI as (_ & I2 & I3 & I4 & I5 & I6 & _). destruct (I2 v (or_introl eq_refl)) as (V1 & V2 & V3).
    assert (Hlv : forall is, in_range ds is -> Hv (amp v) is = lambda * amp v is).
    { intros is Hi. rewrite (Hv_ext (amp v) (amp psi) Hav), Hl, Hav by exact Hi. reflexivity. }
    assert (En : new_vector svd flag algorithm tolerance internal_sweeps Dmax (new_coeffs F0 1) (new_vectors Hc [v] 1) Hc = Ok None).
    { unfold new_vector. rewrite target_value; [|split; [unfold new_vectors; discriminate|split; [reflexivity|intros b [<-|[<-|[]]]; auto]]|exact I4|exact I5].
      cbn [bind]. assert (Z : weight ds (combo (new_coeffs F0 1) (new_vectors Hc [v] 1)) = 0%R).
      { apply rinj_inj. rewrite rinj_weight, rinj_0. unfold inner. apply sumcfg_zero. intros is Hi.
        assert (Zc : combo (new_coeffs F0 1) (new_vectors Hc [v] 1) is = 0).
        { unfold combo, new_coeffs, new_vectors. cbn [Nat.ltb Nat.leb length sum nth Nat.sub]. destruct (I3 0%nat 0%nat ltac:(cbn; lia) ltac:(cbn; lia)) as (_ & I3'). cbn [nth] in I3'. rewrite I3'.
          rewrite (I6 is Hi). cbn [length Nat.sub nth]. rewrite (inner_ext ds (amp v) (Hv (amp v)) (amp v) (fun is => lambda * amp v is)) by (auto; exact Hlv).
          rewrite inner_scale_r, V3, (Hlv is Hi). ring. }
        rewrite Zc. ring. }
      destruct (Req_EM_T (weight ds (combo (new_coeffs F0 1) (new_vectors Hc [v] 1))) 0) as [_|Q]; [reflexivity|destruct (Q Z)]. }
    rewrite En. cbn [bind]. exists v, N0, F0, Hc, Hc. auto 8.
Qed.

End Facts.
