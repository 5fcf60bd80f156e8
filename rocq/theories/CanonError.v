(** * Truncation in canonical_form: the result is an orthogonal projection of the state *)
From Coq Require Import Reals Lra Bool List Arith ZArith Lia Ring.
From Verif Require Import Scalar ScalarFacts RScal Tensor TensorFacts Spec MpsModel MpsFacts CanonModel CanonSpec TruncFacts SplitFacts CanonFacts CanonSweep CanonNorm CanonProps.
Import ListNotations.
Local Open Scope K_scope.

Section Error.
Context {RS : RScal}.
Add Ring Kring : k_ring.
Variable svd : tensor -> tensor * list R * tensor.
Variable flag : R.
Hypothesis Hsvd : svd_contract svd.

(** The relative weight that one truncation may drop. *)
Definition tau : R := Rmax flag DBL_EPSILON.

Lemma kept_weight m n A U s V l : is_svd m n A U s V -> (l <= length s)%nat ->
  rsum l (fun c => (nth c s 0 * nth c s 0)%R) = (tail_weight s 0 - tail_weight s l)%R.
Proof.
  intros _ Hl. induction l as [|l IH]; [cbn; lra|]. cbn [rsum]. rewrite IH by lia. rewrite (tail_weight_S s l) by lia. lra.
Qed.

Lemma wtt_tail sv n : (length sv <= n)%nat -> (0 < n)%nat -> (0 < flag < 1)%R ->
  (tail_weight sv (where_to_truncate flag sv (split_tol true) (Z.of_nat n)) <= tau * tail_weight sv 0)%R.
Proof.
  intros Hn Hp Hf. set (l := where_to_truncate flag sv (split_tol true) (Z.of_nat n)).
  assert (Ht : eff_tol flag (split_tol true) = flag) by apply eff_tol_split.
  destruct (le_lt_dec (eff_max sv (Z.of_nat n)) l) as [H|H].
  - rewrite eff_max_big in H by assumption. rewrite (tail_weight_past sv l H). apply Rmult_le_pos; [|apply tail_weight_nonneg].
    unfold tau. pose proof (Rmax_l flag DBL_EPSILON). lra.
  - unfold tau. rewrite <- Ht. apply wtt_weight; [rewrite Ht; lra|exact H].
Qed.

(** split to the left keeps the projection on the rows of U. *)
Lemma split_left_proj t a i b : dims t = [a; i; b] -> wf t -> (0 < a)%nat -> (0 < i)%nat -> (0 < b)%nat -> (flag <> 0%R \/ nonzero3 t) ->
  exists U V l, split svd flag t (-1) true = Ok (U, V) /\ dims U = [l; i; b] /\ wf U /\ is_matrix V a l /\ (0 < l)%nat /\ right_isometry U /\
    (forall x c, (x < a)%nat -> (c < l)%nat -> get V [x; c] = sum i (fun y => sum b (fun z => get t [x; y; z] * kconj (get U [c; y; z])))) /\
    ((0 < flag < 1)%R -> ((1 - tau) * frob2 t <= frob2 V)%R).
Proof.
  intros Hd Hw Ha Hi Hb Hn.
  destruct (split_left_ok svd flag Hsvd t a i b true Hd Hw Ha Hi Hb) as (Us & sv & Vs & E1 & Hs & U & V & E2 & HS & HVs).
  destruct (split_left_final svd flag Hsvd t a i b true Hd Hw Ha Hi Hb Hn) as (U0 & V0 & l0 & e & E0 & HS0 & Hl0 & _).
  rewrite E2 in E0. apply Ok_inj' in E0. injection E0 as <- <-.
  set (l := where_to_truncate flag sv (split_tol true) (Z.of_nat (Nat.min a (i * b)))) in *. cbv zeta in E2, HS, HVs. fold l in HS, HVs.
  assert (Hll : l0 = l) by (destruct HS0 as (H1 & _), HS as (H2 & _); congruence). subst l0.
  assert (Hl : (l <= length sv)%nat) by apply wtt_le_length.
  pose proof HS as (HdU & HwU & HV & Hla & HI & _).
  (* U is the leading part of the right factor *)
  assert (HUV : forall c y z, (c < l)%nat -> (y < i)%nat -> (z < b)%nat -> get U [c; y; z] = get Vs [c; y + i * z]%nat).
  { pose proof (cut_spec _ _ _ _ _ _ l Hs Hl) as Hc.
    assert (Hspl : split svd flag t (-1) true = let '(U', s', V') := cut l Us sv Vs in Ok (reshape V' [l; i; b], scale U' 1 s')).
    { assert (Hsize : length (data t) = (i * b * a)%nat) by (rewrite Hw, Hd; cbn; lia).
      unfold split. rewrite (is_empty_wf t Hw) by (rewrite Hd; cbn; nia). rewrite Hd. cbn [Z.ltb Z.compare length Nat.sub nth].
      rewrite Hsize, Nat.div_mul by lia. rewrite E1. fold (split_tol true). fold l.
      unfold cut. destruct (Nat.eqb l (length sv)); reflexivity. }
    destruct (cut l Us sv Vs) as [[U' s'] V']. destruct Hc as (_ & (HV1 & _) & _ & _ & _ & HgV).
    rewrite E2 in Hspl. apply Ok_inj' in Hspl. injection Hspl as -> _. intros c y z Hc Hy Hz.
    rewrite (get_unjoin_right V' l i b) by assumption. apply HgV; [exact Hc|nia]. }
  pose proof Hs as (Hs1 & Hs2 & _ & _ & _ & _ & HoU & HoV & Hrec).
  exists U, V, l. split; [exact E2|]. split; [exact HdU|]. split; [exact HwU|]. split; [exact HV|]. split; [exact Hl0|]. split; [exact HI|]. split.
  - intros x c Hx Hc. rewrite HVs by assumption.
    transitivity (sum (i * b) (fun r => get (reshape t [a; i * b]%nat) [x; r] * kconj (get Vs [c; r]))).
    + transitivity (sum (length sv) (fun k => get Us [x; k] * rinj (nth k sv 0%R) * sum (i * b) (fun r => get Vs [k; r] * kconj (get Vs [c; r])))).
      * transitivity (sum (length sv) (fun k => get Us [x; k] * rinj (nth k sv 0%R) * delta k c)).
        -- rewrite (sum_delta_r (length sv) c (fun k => get Us [x; k] * rinj (nth k sv 0%R))) by lia. reflexivity.
        -- apply sum_ext. intros k Hk. rewrite HoV by lia. reflexivity.
      * transitivity (sum (length sv) (fun k => sum (i * b) (fun r => get Us [x; k] * rinj (nth k sv 0%R) * (get Vs [k; r] * kconj (get Vs [c; r]))))).
        { apply sum_ext. intros k Hk. apply sum_mul_l. }
        rewrite sum_swap. apply sum_ext. intros r Hr. rewrite Hrec by assumption. rewrite sum_mul_r. apply sum_ext. intros k Hk. ring.
    + rewrite sum_merge, sum_swap. apply sum_ext. intros y Hy. apply sum_ext. intros z Hz. rewrite (get_join_right t a i b) by assumption. rewrite HUV by assumption. reflexivity.
  - intros Hf. assert (E : frob2 t = tail_weight sv 0).
    { apply rinj_inj. rewrite <- (svd_total _ _ _ _ _ _ Hs). rewrite (frob2_3 t a i b Hd Hw). apply sum_ext. intros x Hx.
      rewrite sum_merge, sum_swap. apply sum_ext. intros y Hy. apply sum_ext. intros z Hz. rewrite (get_join_right t a i b) by assumption. reflexivity. }
    assert (E' : frob2 V = (tail_weight sv 0 - tail_weight sv l)%R).
    { apply rinj_inj. rewrite <- (kept_weight _ _ _ _ _ _ l Hs Hl). destruct HV as (HV1 & HV2). rewrite (frob2_2 V a l HV1 HV2). rewrite rinj_rsum. rewrite sum_swap. apply sum_ext. intros c Hc.
      transitivity (rinj (nth c sv 0 * nth c sv 0)%R * sum a (fun x => kconj (get Us [x; c]) * get Us [x; c])).
      - rewrite sum_mul_l. apply sum_ext. intros x Hx. rewrite HVs by assumption. rewrite kconj_mul, rinj_conj, rinj_mul. ring.
      - rewrite HoU by lia. unfold delta. rewrite Nat.eqb_refl. ring. }
    rewrite E, E'. pose proof (wtt_tail sv (Nat.min a (i * b)) Hs2 ltac:(lia) Hf). fold l in H. lra.
Qed.

Lemma split_right_proj t a i b : dims t = [a; i; b] -> wf t -> (0 < a)%nat -> (0 < i)%nat -> (0 < b)%nat -> (flag <> 0%R \/ nonzero3 t) ->
  exists U V l, split svd flag t 1 true = Ok (U, V) /\ dims U = [a; i; l] /\ wf U /\ is_matrix V l b /\ (0 < l)%nat /\ left_isometry U /\
    (forall c z, (c < l)%nat -> (z < b)%nat -> get V [c; z] = sum a (fun x => sum i (fun y => kconj (get U [x; y; c]) * get t [x; y; z]))) /\
    ((0 < flag < 1)%R -> ((1 - tau) * frob2 t <= frob2 V)%R).
Proof.
  intros Hd Hw Ha Hi Hb Hn.
  destruct (split_right_ok svd flag Hsvd t a i b true Hd Hw Ha Hi Hb) as (Us & sv & Vs & E1 & Hs & U & V & E2 & HS & HVs).
  destruct (split_right_final svd flag Hsvd t a i b true Hd Hw Ha Hi Hb Hn) as (U0 & V0 & l0 & e & E0 & HS0 & Hl0 & _).
  rewrite E2 in E0. apply Ok_inj' in E0. injection E0 as <- <-.
  set (l := where_to_truncate flag sv (split_tol true) (Z.of_nat (Nat.min (a * i) b))) in *. cbv zeta in E2, HS, HVs. fold l in HS, HVs.
  assert (Hll : l0 = l) by (destruct HS0 as (H1 & _), HS as (H2 & _); congruence). subst l0.
  assert (Hl : (l <= length sv)%nat) by apply wtt_le_length.
  pose proof HS as (HdU & HwU & HV & Hla & HI & _).
  assert (HUV : forall c y z, (c < l)%nat -> (y < a)%nat -> (z < i)%nat -> get U [y; z; c] = get Us [y + a * z; c]%nat).
  { pose proof (cut_spec _ _ _ _ _ _ l Hs Hl) as Hc.
    assert (Hspl : split svd flag t 1 true = let '(U', s', V') := cut l Us sv Vs in Ok (reshape U' [a; i; l], scale V' 0 s')).
    { assert (Hsize : length (data t) = (a * i * b)%nat) by (rewrite Hw, Hd; cbn; lia).
      unfold split. rewrite (is_empty_wf t Hw) by (rewrite Hd; cbn; nia). rewrite Hd. cbn [Z.ltb Z.compare length Nat.sub nth].
      rewrite Hsize, Nat.div_mul by lia. rewrite E1. fold (split_tol true). fold l.
      unfold cut. destruct (Nat.eqb l (length sv)); reflexivity. }
    destruct (cut l Us sv Vs) as [[U' s'] V']. destruct Hc as ((HU1 & _) & _ & _ & _ & HgU & _).
    rewrite E2 in Hspl. apply Ok_inj' in Hspl. injection Hspl as -> _. intros c y z Hc Hy Hz.
    rewrite (get_unjoin_left U' a i l) by assumption. apply HgU; [nia|exact Hc]. }
  pose proof Hs as (Hs1 & Hs2 & _ & _ & _ & _ & HoU & HoV & Hrec).
  exists U, V, l. split; [exact E2|]. split; [exact HdU|]. split; [exact HwU|]. split; [exact HV|]. split; [exact Hl0|]. split; [exact HI|]. split.
  - intros c z Hc Hz. rewrite HVs by assumption.
    transitivity (sum (a * i) (fun r => kconj (get Us [r; c]) * get (reshape t [a * i; b]%nat) [r; z])).
    + transitivity (sum (length sv) (fun k => sum (a * i) (fun r => kconj (get Us [r; c]) * get Us [r; k]) * (rinj (nth k sv 0%R) * get Vs [k; z]))).
      * transitivity (sum (length sv) (fun k => delta c k * (rinj (nth k sv 0%R) * get Vs [k; z]))).
        -- rewrite (sum_delta_l' (length sv) c (fun k => rinj (nth k sv 0%R) * get Vs [k; z])) by lia. reflexivity.
        -- apply sum_ext. intros k Hk. rewrite HoU by lia. reflexivity.
      * transitivity (sum (length sv) (fun k => sum (a * i) (fun r => kconj (get Us [r; c]) * get Us [r; k] * (rinj (nth k sv 0%R) * get Vs [k; z])))).
        { apply sum_ext. intros k Hk. apply sum_mul_r. }
        rewrite sum_swap. apply sum_ext. intros r Hr. rewrite Hrec by assumption. rewrite sum_mul_l. apply sum_ext. intros k Hk. ring.
    + rewrite sum_merge, sum_swap. apply sum_ext. intros y Hy. apply sum_ext. intros x Hx. rewrite (get_join_left t a i b) by assumption. rewrite HUV by assumption. reflexivity.
  - intros Hf. assert (E : frob2 t = tail_weight sv 0).
    { apply rinj_inj. rewrite <- (svd_total _ _ _ _ _ _ Hs). rewrite (frob2_3 t a i b Hd Hw). rewrite sum_merge, sum_swap. apply sum_ext. intros x Hx.
      apply sum_ext. intros y Hy. apply sum_ext. intros z Hz. rewrite (get_join_left t a i b) by assumption. reflexivity. }
    assert (E' : frob2 V = (tail_weight sv 0 - tail_weight sv l)%R).
    { apply rinj_inj. rewrite <- (kept_weight _ _ _ _ _ _ l Hs Hl). destruct HV as (HV1 & HV2). rewrite (frob2_2 V l b HV1 HV2). rewrite rinj_rsum. apply sum_ext. intros c Hc.
      transitivity (rinj (nth c sv 0 * nth c sv 0)%R * sum b (fun z => get Vs [c; z] * kconj (get Vs [c; z]))).
      - rewrite sum_mul_l. apply sum_ext. intros z Hz. rewrite HVs by assumption. rewrite kconj_mul, rinj_conj, rinj_mul. ring.
      - rewrite HoV by lia. unfold delta. rewrite Nat.eqb_refl. ring. }
    rewrite E, E'. pose proof (wtt_tail sv (Nat.min (a * i) b) Hs2 ltac:(lia) Hf). fold l in H. lra.
Qed.

Lemma step_left p B C q m d2 c d m' : dims C = [c; d; m'] -> wf C -> dims B = [m; d2; c] -> (0 < c)%nat -> (0 < d)%nat -> (0 < m')%nat -> (flag <> 0%R \/ nonzero3 C) ->
  exists U V l, set_canonical svd flag (p ++ B :: C :: q) (Z.of_nat (length p + 1)) C (-1) true = Ok (p ++ fold B (rank B - 1) V 0 :: U :: q) /\
    dims U = [l; d; m'] /\ wf U /\ is_matrix V c l /\ (0 < l)%nat /\ right_isometry U /\
    (forall x k, (x < c)%nat -> (k < l)%nat -> get V [x; k] = sum d (fun y => sum m' (fun z => get C [x; y; z] * kconj (get U [k; y; z])))) /\
    ((0 < flag < 1)%R -> ((1 - tau) * frob2 C <= frob2 V)%R).
Proof.
  intros HC HwC HB Hc Hd Hm Hn. destruct (split_left_proj C c d m' HC HwC Hc Hd Hm Hn) as (U & V & l & E & H1 & H2 & H3 & H4 & H5 & H6 & H7).
  exists U, V, l. split; [|auto 10]. unfold set_canonical. rewrite app_length. cbn [length].
  destruct (Z.leb_spec 0 (Z.of_nat (length p + 1))); [|lia]. destruct (Z.ltb_spec (Z.of_nat (length p + 1)) (Z.of_nat (length p + S (S (length q))))); [|lia].
  cbn [andb Z.ltb Z.compare]. rewrite Nat2Z.id. destruct (Nat.eqb_spec (length p + 1) 0); [lia|]. rewrite E. cbn [bind].
  replace (length p + 1 - 1)%nat with (length p) by lia. rewrite site_len, replace_nth_len1, replace_nth_len. reflexivity.
Qed.

Lemma step_right p C B q m d c d2 m' : dims C = [m; d; c] -> wf C -> dims B = [c; d2; m'] -> (0 < m)%nat -> (0 < d)%nat -> (0 < c)%nat -> (flag <> 0%R \/ nonzero3 C) ->
  exists U V l, set_canonical svd flag (p ++ C :: B :: q) (Z.of_nat (length p)) C 1 true = Ok (p ++ U :: fold V (rank V - 1) B 0 :: q) /\
    dims U = [m; d; l] /\ wf U /\ is_matrix V l c /\ (0 < l)%nat /\ left_isometry U /\
    (forall k z, (k < l)%nat -> (z < c)%nat -> get V [k; z] = sum m (fun x => sum d (fun y => kconj (get U [x; y; k]) * get C [x; y; z]))) /\
    ((0 < flag < 1)%R -> ((1 - tau) * frob2 C <= frob2 V)%R).
Proof.
  intros HC HwC HB Hc Hd Hm Hn. destruct (split_right_proj C m d c HC HwC Hc Hd Hm Hn) as (U & V & l & E & H1 & H2 & H3 & H4 & H5 & H6 & H7).
  exists U, V, l. split; [|auto 10]. unfold set_canonical. rewrite app_length. cbn [length].
  destruct (Z.leb_spec 0 (Z.of_nat (length p))); [|lia]. destruct (Z.ltb_spec (Z.of_nat (length p)) (Z.of_nat (length p + S (S (length q))))); [|lia].
  cbn [andb Z.ltb Z.compare]. rewrite Nat2Z.id. destruct (Nat.eqb_spec (length p + 1) (length p + S (S (length q)))); [lia|]. rewrite E. cbn [bind].
  rewrite site_len1, replace_nth_len, replace_nth_len1. reflexivity.
Qed.

(** The overlap of the tensors [R] with the orthonormal states of [q] is the tensor C. *)
Definition overlap_left (R q : mps) (D' : nat) (C : tensor) : Prop :=
  forall a i b, (a < dim C 0)%nat -> (i < dim C 1)%nat -> (b < dim C 2)%nat ->
    sumcfg (pdims q) (fun is => sum D' (fun e => chain R (i :: is) a e * kconj (chain q is b e))) = get C [a; i; b].
Definition overlap_right (L p : mps) (D : nat) (C : tensor) : Prop :=
  forall a i b, (a < dim C 0)%nat -> (i < dim C 1)%nat -> (b < dim C 2)%nat ->
    sumcfg (pdims p) (fun is => sum D (fun e => kconj (chain p is e a) * chain L (is ++ [i]) e b)) = get C [a; i; b].

Lemma frob_iso_left B V m d c l X : dims B = [m; d; c] -> is_matrix V c l -> left_isometry B -> dims X = [m; d; l] -> wf X ->
  (forall x j y, (x < m)%nat -> (j < d)%nat -> (y < l)%nat -> get X [x; j; y] = sum c (fun z => get B [x; j; z] * get V [z; y])) -> frob2 X = frob2 V.
Proof.
  intros HB (HV & HwV) HI HX HwX Hg. apply rinj_inj. rewrite (frob2_3 X m d l HX HwX), (frob2_2 V c l HV HwV).
  unfold left_isometry, dim in HI. rewrite HB in HI. cbn [nth] in HI.
  transitivity (sum l (fun y => sum c (fun z => sum c (fun w => kconj (get V [z; y]) * get V [w; y] * sum m (fun x => sum d (fun j => kconj (get B [x; j; z]) * get B [x; j; w])))))).
  - transitivity (sum m (fun x => sum d (fun j => sum l (fun y => sum c (fun z => sum c (fun w => kconj (get V [z; y]) * get V [w; y] * (kconj (get B [x; j; z]) * get B [x; j; w]))))))).
    + apply sum_ext. intros x Hx. apply sum_ext. intros j Hj. apply sum_ext. intros y Hy. rewrite Hg by assumption. rewrite sum_conj, sum_mul_r. apply sum_ext. intros z Hz. rewrite sum_mul_l. apply sum_ext. intros w Hw. rewrite kconj_mul. ring.
    + transitivity (sum m (fun x => sum l (fun y => sum d (fun j => sum c (fun z => sum c (fun w => kconj (get V [z; y]) * get V [w; y] * (kconj (get B [x; j; z]) * get B [x; j; w]))))))).
      { apply sum_ext. intros x Hx. apply sum_swap. }
      rewrite sum_swap. apply sum_ext. intros y Hy.
      transitivity (sum m (fun x => sum c (fun z => sum d (fun j => sum c (fun w => kconj (get V [z; y]) * get V [w; y] * (kconj (get B [x; j; z]) * get B [x; j; w])))))).
      { apply sum_ext. intros x Hx. apply sum_swap. }
      rewrite sum_swap. apply sum_ext. intros z Hz.
      transitivity (sum m (fun x => sum c (fun w => sum d (fun j => kconj (get V [z; y]) * get V [w; y] * (kconj (get B [x; j; z]) * get B [x; j; w]))))).
      { apply sum_ext. intros x Hx. apply sum_swap. }
      rewrite sum_swap. apply sum_ext. intros w Hw. rewrite sum_mul_l. apply sum_ext. intros x Hx. rewrite sum_mul_l. reflexivity.
  - rewrite sum_swap. apply sum_ext. intros z Hz. apply sum_ext. intros y Hy.
    transitivity (sum c (fun w => kconj (get V [z; y]) * get V [w; y] * delta z w)).
    + apply sum_ext. intros w Hw. rewrite HI by assumption. reflexivity.
    + apply (sum_delta_r' c z (fun w => kconj (get V [z; y]) * get V [w; y])). exact Hz.
Qed.

Lemma frob_iso_right B V m d c l X : dims B = [c; d; m] -> is_matrix V l c -> right_isometry B -> dims X = [l; d; m] -> wf X ->
  (forall x j y, (x < l)%nat -> (j < d)%nat -> (y < m)%nat -> get X [x; j; y] = sum c (fun z => get V [x; z] * get B [z; j; y])) -> frob2 X = frob2 V.
Proof.
  intros HB (HV & HwV) HI HX HwX Hg. apply rinj_inj. rewrite (frob2_3 X l d m HX HwX), (frob2_2 V l c HV HwV).
  unfold right_isometry, dim in HI. rewrite HB in HI. cbn [nth] in HI. apply sum_ext. intros x Hx.
  transitivity (sum c (fun z => sum c (fun w => kconj (get V [x; z]) * get V [x; w] * sum d (fun j => sum m (fun y => get B [w; j; y] * kconj (get B [z; j; y])))))).
  - transitivity (sum d (fun j => sum m (fun y => sum c (fun z => sum c (fun w => kconj (get V [x; z]) * get V [x; w] * (get B [w; j; y] * kconj (get B [z; j; y]))))))).
    + apply sum_ext. intros j Hj. apply sum_ext. intros y Hy. rewrite Hg by assumption. rewrite sum_conj, sum_mul_r. apply sum_ext. intros z Hz. rewrite sum_mul_l. apply sum_ext. intros w Hw. rewrite kconj_mul. ring.
    + transitivity (sum d (fun j => sum c (fun z => sum m (fun y => sum c (fun w => kconj (get V [x; z]) * get V [x; w] * (get B [w; j; y] * kconj (get B [z; j; y]))))))).
      { apply sum_ext. intros j Hj. apply sum_swap. }
      rewrite sum_swap. apply sum_ext. intros z Hz.
      transitivity (sum d (fun j => sum c (fun w => sum m (fun y => kconj (get V [x; z]) * get V [x; w] * (get B [w; j; y] * kconj (get B [z; j; y])))))).
      { apply sum_ext. intros j Hj. apply sum_swap. }
      rewrite sum_swap. apply sum_ext. intros w Hw. rewrite sum_mul_l. apply sum_ext. intros j Hj. rewrite sum_mul_l. reflexivity.
  - apply sum_ext. intros z Hz.
    transitivity (sum c (fun w => kconj (get V [x; z]) * get V [x; w] * delta w z)).
    + apply sum_ext. intros w Hw. rewrite HI by assumption. reflexivity.
    + apply (sum_delta_r c z (fun w => kconj (get V [x; z]) * get V [x; w])). exact Hz.
Qed.

Lemma left_sweep_proj D D' psi n c : length psi = n -> linked D psi D' -> (0 < D)%nat -> okflag flag D psi -> (c < n)%nat ->
  exists p A R0 C q, psi = p ++ A :: R0 /\ length R0 = c /\ length q = c /\
    fold_left (canonicalize_site svd flag (-1)) (map (fun j => Z.of_nat n - 1 - Z.of_nat j)%Z (seq 0 c)) (Ok psi) = Ok (p ++ C :: q) /\
    overlap_left (A :: R0) q D' C /\
    ((0 < flag < 1)%R -> (forall j, (S j < n)%nat -> left_isometry (site psi j)) -> ((1 - tau) ^ c * frob2 (site psi (n - 1)) <= frob2 C)%R).
Proof.
  intros Hlen HL HD Hf. induction c as [|c IH]; intros Hc.
  - destruct (exists_last (l := psi)) as (p & A & ->); [destruct psi; [cbn in Hlen; lia|discriminate]|].
    exists p, A, [], A, []. repeat split.
    + intros a i b Ha Hi Hb. apply linked_app in HL. destruct HL as (m & _ & d & c & HA & _ & _ & _ & HE). cbn in HE. subst c.
      unfold dim in Hb. rewrite HA in Hb. cbn [nth] in Hb. cbn [pdims map sumcfg].
      transitivity (sum D' (fun e => chain [A] [i] a e * delta b e)).
      { apply sum_ext. intros e He. cbn [chain]. rewrite delta_conj. reflexivity. }
      rewrite (sum_delta_r' D' b (fun e => chain [A] [i] a e)) by exact Hb. cbn [chain]. unfold dim. rewrite HA. cbn [nth].
      apply (sum_delta_r D' b (fun e => get A [a; i; e])). exact Hb.
    + intros _ _. rewrite app_length in Hlen. cbn in Hlen. replace (n - 1)%nat with (length p) by lia. rewrite site_len. cbn. lra.
  - destruct IH as (p & A & R0 & C & q & Epsi & HR & Hq & E & HO & HW); [lia|].
    destruct (left_sweep svd flag Hsvd D D' psi n c Hlen HL HD Hf) as (psi1 & E1 & HS & HI & _); [lia|].
    rewrite E in E1. apply Ok_inj' in E1. subst psi1. destruct HS as (S1 & S2 & S3 & S4 & S5).
    assert (Hnp : (n = length p + S c)%nat) by (rewrite Epsi, app_length in Hlen; cbn in Hlen; lia).
    destruct (exists_last (l := p)) as (p' & B & ->); [destruct p; [cbn in Hnp; lia|discriminate]|].
    rewrite app_length in Hnp. cbn [length] in Hnp. rewrite <- app_assoc in *. cbn [app] in *.
    pose proof S1 as S1'. apply linked_app in S1'. destruct S1' as (m & L1 & d2 & cc & HB & HwB & Hd2 & Hcc & d & m' & HC & HwC & Hd & Hm' & L2).
    destruct (step_left p' B C q m d2 cc d m' HC HwC HB Hcc Hd Hm') as (U & V & l & Es & HU & HwU & HV & Hl & HI' & HVg & Hw).
    { destruct S5 as [S5|S5]; [left; exact S5|right]. apply (nonzero_tensor D (p' ++ [B]) C q cc d m' D'); auto.
      - apply linked_app. exists m. split; [exact L1|]. exists d2, cc. repeat split; auto.
      - rewrite <- app_assoc. exact S5. }
    exists p', B, (A :: R0), (fold B (rank B - 1) V 0), (U :: q). split; [exact Epsi|]. split; [cbn; lia|]. split; [cbn; lia|]. split; [|split].
    + rewrite seq_S, map_app, fold_left_app, E. cbn [map fold_left plus canonicalize_site bind].
      replace (Z.of_nat n - 1 - Z.of_nat c)%Z with (Z.of_nat (length p' + 1)) by lia.
      rewrite site_at_nat by (rewrite app_length; cbn; lia). cbn [bind]. rewrite site_len1. exact Es.
    + intros x j y Hx Hj Hy. unfold dim in Hx, Hj, Hy. rewrite (dims_fold_BV V B l cc d2 m HV HB) in Hx, Hj, Hy. cbn [nth] in Hx, Hj, Hy.
      rewrite (get_fold_BV V B l cc d2 m) by assumption. cbn [pdims map sumcfg]. fold (pdims q). unfold dim at 1. rewrite HU. cbn [nth].
      unfold overlap_left, dim in HO. rewrite HC in HO. cbn [nth] in HO.
      transitivity (sum cc (fun z => get B [x; j; z] * sum d (fun i => sum m' (fun w => get C [z; i; w] * kconj (get U [y; i; w]))))).
      2: { apply sum_ext. intros z Hz. rewrite HVg by assumption. reflexivity. }
      transitivity (sum cc (fun z => sum d (fun i => sum m' (fun w => get B [x; j; z] * kconj (get U [y; i; w]) * sumcfg (pdims q) (fun is => sum D' (fun e => chain (A :: R0) (i :: is) z e * kconj (chain q is w e))))))).
      2: { apply sum_ext. intros z Hz. rewrite sum_mul_l. apply sum_ext. intros i Hi. rewrite sum_mul_l. apply sum_ext. intros w Hw'. rewrite HO by assumption. ring. }
      rewrite (sum_swap cc d). apply sum_ext. intros i Hi.
      transitivity (sumcfg (pdims q) (fun is => sum cc (fun z => sum m' (fun w => get B [x; j; z] * kconj (get U [y; i; w]) * sum D' (fun e => chain (A :: R0) (i :: is) z e * kconj (chain q is w e)))))).
      * apply sumcfg_ext. intros is His.
        transitivity (sum D' (fun e => sum cc (fun z => sum m' (fun w => get B [x; j; z] * kconj (get U [y; i; w]) * (chain (A :: R0) (i :: is) z e * kconj (chain q is w e)))))).
        -- apply sum_ext. intros e He.
           transitivity (sum cc (fun z => get B [x; j; z] * chain (A :: R0) (i :: is) z e) * kconj (sum m' (fun w => get U [y; i; w] * chain q is w e))).
           { f_equal; [|f_equal]; [change (chain (B :: A :: R0) (j :: i :: is) x e) with (sum (dim B 2) (fun z => get B [x; j; z] * chain (A :: R0) (i :: is) z e)); unfold dim; rewrite HB; reflexivity|cbn [chain]; unfold dim; rewrite HU; reflexivity]. }
           rewrite sum_mul_r. apply sum_ext. intros z Hz. rewrite sum_conj, sum_mul_l. apply sum_ext. intros w Hw'. rewrite kconj_mul. ring.
        -- rewrite (sum_swap D' cc). apply sum_ext. intros z Hz. rewrite (sum_swap D' m'). apply sum_ext. intros w Hw'. rewrite sum_mul_l. reflexivity.
      * rewrite sumcfg_sum_swap. apply sum_ext. intros z Hz. rewrite sumcfg_sum_swap. apply sum_ext. intros w Hw'. rewrite sumcfg_mul_l. reflexivity.
    + intros Hfl Hiso. specialize (HW Hfl Hiso). specialize (Hw Hfl).
      rewrite (frob_iso_left B V m d2 cc l (fold B (rank B - 1) V 0) HB HV); [|specialize (Hiso (length p') ltac:(lia)); rewrite Epsi, site_len in Hiso; exact Hiso|apply (dims_fold_BV V B l cc d2 m HV HB)|apply wf_mk|intros; apply (get_fold_BV V B l cc d2 m); assumption].
      eapply Rle_trans; [|exact Hw]. cbn [pow]. rewrite Rmult_assoc. apply Rmult_le_compat_l; [|exact HW].
      unfold tau, Rmax. pose proof eps_pos. destruct (Rle_dec flag DBL_EPSILON); lra.
Qed.

Lemma chain_last A i a b d m c : dims A = [m; d; c] -> (b < c)%nat -> chain [A] [i] a b = get A [a; i; b].
Proof. intros HA Hb. cbn [chain]. unfold dim. rewrite HA. cbn [nth]. apply (sum_delta_r c b (fun e => get A [a; i; e])). exact Hb. Qed.

Lemma right_sweep_proj D D' psi s : linked D psi D' -> (0 < D)%nat -> okflag flag D psi -> (s < length psi)%nat ->
  exists L0 A p C q, psi = L0 ++ A :: q /\ length L0 = s /\ length p = s /\
    fold_left (canonicalize_site svd flag 1) (map Z.of_nat (seq 0 s)) (Ok psi) = Ok (p ++ C :: q) /\
    overlap_right (L0 ++ [A]) p D C /\
    ((0 < flag < 1)%R -> (forall j, (0 < j < length psi)%nat -> right_isometry (site psi j)) -> ((1 - tau) ^ s * frob2 (site psi 0) <= frob2 C)%R).
Proof.
  intros HL HD Hf. induction s as [|s IH]; intros Hs.
  - destruct psi as [|A q]; [cbn in Hs; lia|]. exists [], A, [], A, q. repeat split.
    + intros a i b Ha Hi Hb. destruct HL as (d & c & HA & _ & _ & _ & _).
      unfold dim in Ha, Hb. rewrite HA in Ha, Hb. cbn [nth] in Ha, Hb. cbn [pdims map sumcfg app].
      transitivity (sum D (fun e => delta e a * get A [e; i; b])).
      { apply sum_ext. intros e He. rewrite (chain_last A i e b d D c HA Hb). cbn [chain]. rewrite delta_conj. reflexivity. }
      apply (sum_delta_l D a (fun e => get A [e; i; b])). exact Ha.
    + intros _ _. cbn. lra.
  - destruct IH as (L0 & A & p & C & q & Epsi & HR & Hp & E & HO & HW); [lia|].
    destruct (right_sweep svd flag Hsvd D D' psi s HL HD Hf) as (psi1 & E1 & HS & HI & _); [lia|].
    rewrite E in E1. apply Ok_inj' in E1. subst psi1. destruct HS as (S1 & S2 & S3 & S4 & S5).
    destruct q as [|B q]; [rewrite Epsi, app_length in Hs; cbn in Hs; lia|].
    pose proof S1 as S1'. apply linked_app in S1'. destruct S1' as (m & L1 & d & c & HC & HwC & Hd & Hc & d2 & m' & HB & HwB & Hd2 & Hm' & L2).
    assert (LA : linked D (L0 ++ [A]) c).
    { rewrite Epsi in HL. apply linked_app in HL. destruct HL as (m0 & HL1 & d0 & c0 & HA & HwA & Hd0 & Hc0 & HL2). pose proof HL2 as (d3 & c3 & HB3 & _). rewrite HB in HB3. injection HB3 as -> _ _.
      apply linked_app. exists m0. split; [exact HL1|]. exists d0, c0. repeat split; auto. }
    destruct (step_right p C B q m d c d2 m' HC HwC HB) as (U & V & l & Es & HU & HwU & HV & Hl & HI' & HVg & Hw); [|exact Hd|exact Hc| |].
    { clear - L1 HD. revert D HD L1. induction p as [|X p IH]; intros D HD H; cbn in H; [lia|]. destruct H as (? & c0 & ? & ? & ? & Hc0 & H). apply (IH c0 Hc0 H). }
    { destruct S5 as [S5|S5]; [left; exact S5|right]. apply (nonzero_tensor D p C (B :: q) m d c D'); auto. exists d2, m'. repeat split; auto. }
    exists (L0 ++ [A]), B, (p ++ [U]), (fold V (rank V - 1) B 0), q. split; [rewrite <- app_assoc; exact Epsi|]. split; [rewrite app_length; cbn; lia|]. split; [rewrite app_length; cbn; lia|]. split; [|split].
    + rewrite seq_S, map_app, fold_left_app, E. cbn [map fold_left plus canonicalize_site bind].
      rewrite <- Hp. rewrite site_at_nat by (rewrite app_length; cbn; lia). cbn [bind]. rewrite site_len. rewrite <- app_assoc. exact Es.
    + intros k j y Hk Hj Hy. unfold dim in Hk, Hj, Hy. rewrite (dims_fold_VB V B l c d2 m' HV HB) in Hk, Hj, Hy. cbn [nth] in Hk, Hj, Hy.
      rewrite (get_fold_VB V B l c d2 m') by assumption.
      unfold overlap_right, dim in HO. rewrite HC in HO. cbn [nth] in HO.
      transitivity (sum c (fun z => sum m (fun x => sum d (fun i => kconj (get U [x; i; k]) * get C [x; i; z])) * get B [z; j; y])).
      2: { apply sum_ext. intros z Hz. rewrite HVg by assumption. reflexivity. }
      transitivity (sum c (fun z => sum m (fun x => sum d (fun i => kconj (get U [x; i; k]) * get B [z; j; y] * sumcfg (pdims p) (fun is => sum D (fun e => kconj (chain p is e x) * chain (L0 ++ [A]) (is ++ [i]) e z)))))).
      2: { apply sum_ext. intros z Hz. rewrite sum_mul_r. apply sum_ext. intros x Hx. rewrite sum_mul_r. apply sum_ext. intros i Hi. rewrite HO by assumption. ring. }
      assert (EU : pdims (p ++ [U]) = pdims p ++ [d]) by (unfold pdims; rewrite map_app; cbn [map]; unfold dim; rewrite HU; reflexivity).
      rewrite EU, sumcfg_app.
      transitivity (sumcfg (pdims p) (fun is => sum d (fun i => sum c (fun z => sum m (fun x => kconj (get U [x; i; k]) * get B [z; j; y] * sum D (fun e => kconj (chain p is e x) * chain (L0 ++ [A]) (is ++ [i]) e z)))))).
      * apply sumcfg_ext. intros is His. cbn [sumcfg]. apply sum_ext. intros i Hi.
        transitivity (sum D (fun e => sum c (fun z => sum m (fun x => kconj (get U [x; i; k]) * get B [z; j; y] * (kconj (chain p is e x) * chain (L0 ++ [A]) (is ++ [i]) e z))))).
        -- apply sum_ext. intros e He.
           transitivity (kconj (sum m (fun x => chain p is e x * get U [x; i; k])) * sum c (fun z => chain (L0 ++ [A]) (is ++ [i]) e z * get B [z; j; y])).
           { f_equal; [f_equal|].
             - rewrite (chain_app D p m [U] l); [|exact L1|exists d, l; repeat split; auto|rewrite (ScalarFacts.in_range_length _ _ His); apply length_pdims|exact He].
               apply sum_ext. intros x Hx. rewrite (chain_last U i x k d m l HU Hk). reflexivity.
             - rewrite (chain_app D (L0 ++ [A]) c [B] m'); [|exact LA|exists d2, m'; repeat split; auto| |exact He].
               + apply sum_ext. intros z Hz. rewrite (chain_last B j z y d2 c m' HB Hy). reflexivity.
               + rewrite !app_length, (ScalarFacts.in_range_length _ _ His), length_pdims. cbn [length]. lia. }
           rewrite sum_mul_l. apply sum_ext. intros z Hz. rewrite sum_conj, sum_mul_r. apply sum_ext. intros x Hx. rewrite kconj_mul. ring.
        -- rewrite (sum_swap D c). apply sum_ext. intros z Hz. rewrite (sum_swap D m). apply sum_ext. intros x Hx. rewrite sum_mul_l. reflexivity.
      * transitivity (sumcfg (pdims p) (fun is => sum c (fun z => sum m (fun x => sum d (fun i => kconj (get U [x; i; k]) * get B [z; j; y] * sum D (fun e => kconj (chain p is e x) * chain (L0 ++ [A]) (is ++ [i]) e z)))))).
        { apply sumcfg_ext. intros is His. rewrite (sum_swap d c). apply sum_ext. intros z Hz. apply sum_swap. }
        rewrite sumcfg_sum_swap. apply sum_ext. intros z Hz. rewrite sumcfg_sum_swap. apply sum_ext. intros x Hx. rewrite sumcfg_sum_swap. apply sum_ext. intros i Hi. rewrite sumcfg_mul_l. reflexivity.
    + intros Hfl Hiso. specialize (HW Hfl Hiso). specialize (Hw Hfl).
      rewrite (frob_iso_right B V m' d2 c l (fold V (rank V - 1) B 0) HB HV); [| |apply (dims_fold_VB V B l c d2 m' HV HB)|apply wf_mk|intros; apply (get_fold_VB V B l c d2 m'); assumption].
      * eapply Rle_trans; [|exact Hw]. cbn [pow]. rewrite Rmult_assoc. apply Rmult_le_compat_l; [|exact HW].
        unfold tau, Rmax. pose proof eps_pos. destruct (Rle_dec flag DBL_EPSILON); lra.
      * specialize (Hiso (length L0 + 1)%nat). rewrite Epsi, site_len1 in Hiso. apply Hiso. rewrite app_length. cbn. lia.
Qed.
End Error.
