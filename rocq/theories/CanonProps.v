(** normal_form and set_canonical_2_sites *)
From Coq Require Import Reals Lra Bool List Arith ZArith Lia Ring.
From Verif Require Import Scalar ScalarFacts RScal Tensor TensorFacts Spec MpsModel MpsFacts EnvFacts ExpectedFacts
  StateFacts StateFacts2 CanonSpec CanonModel TruncFacts SplitFacts CanonFacts CanonSweep CanonNorm.
Import ListNotations.
Local Open Scope K_scope.

Section Facts.
Context {RS : RScal}.
Add Ring Kring : k_ring.
Variable svd : tensor -> tensor * list R * tensor.
Variable flag : R.
Hypothesis Hsvd : svd_contract svd.

Lemma linked_split1 D psi D' k : linked D psi D' -> (k < length psi)%nat ->
  exists m d c, linked D (firstn k psi) m /\ linked c (skipn (S k) psi) D' /\
    dims (site psi k) = [m; d; c] /\ wf (site psi k) /\ (0 < d)%nat /\ (0 < c)%nat.
Proof.
  intros HL Hk. rewrite (list_split_nth k psi empty Hk) in HL. apply linked_app in HL.
  destruct HL as (m & H1 & d & c & H2 & H3 & H4 & H5 & H6). exists m, d, c. auto 10.
Qed.

Lemma same_chain_amp D psi psi' D1 D2 is : linked D psi D1 -> linked D psi' D2 -> psi <> [] -> psi' <> [] ->
  same_chain D psi psi' -> in_range (pdims psi) is -> amp psi' is = amp psi is.
Proof.
  intros H1 H2 H3 H4 HS Hi. unfold amp.
  rewrite (linked_left_bond D psi D1) by assumption. rewrite (linked_left_bond D psi' D2) by assumption.
  apply sum_ext. intros a Ha. apply HS; assumption.
Qed.

(** Norm of a canonical form: weight of the tensor at the centre. *)
Lemma canonical_norm psi s : open_mps psi -> (s < length psi)%nat ->
  (forall j, (j < s)%nat -> left_isometry (site psi j)) ->
  (forall j, (s < j < length psi)%nat -> right_isometry (site psi j)) ->
  inner (pdims psi) (amp psi) (amp psi) = rinj (frob2 (site psi s)).
Proof.
  intros (_ & HL) Hs HI HR.
  destruct (linked_split1 1 psi 1 s HL Hs) as (m & d & c & H1 & H2 & H3 & H4 & H5 & H6).
  rewrite <- (center_norm (firstn s psi) (site psi s) (skipn (S s) psi) m d c); auto.
  - unfold site. rewrite <- (list_split_nth s psi empty Hs). reflexivity.
  - intros j Hj. rewrite firstn_length in Hj. unfold site. rewrite nth_firstn_lt by lia. apply HI. lia.
  - intros j Hj. rewrite skipn_length in Hj. unfold site. rewrite nth_skipn_add. apply HR. lia.
Qed.

Lemma frob2_tscale r t : frob2 (tscale (rinj r) t) = (r * r * frob2 t)%R.
Proof.
  unfold frob2, tscale. cbn [data]. induction (data t) as [|x l IH]; cbn; [ring|].
  rewrite IH, kmod2_mul, kmod2_rinj. ring.
Qed.

Lemma norm2_tensor_frob t : norm2_tensor t = sqrt (frob2 t).
Proof. reflexivity. Qed.

Lemma norm2_sq t : (norm2_tensor t * norm2_tensor t = frob2 t)%R.
Proof. rewrite norm2_tensor_frob. apply sqrt_sqrt. apply frob2_nonneg. Qed.

(** Scaling one tensor scales all amplitudes. *)
Lemma chain_tscale psi D D' k r is a b : linked D psi D' -> (k < length psi)%nat ->
  in_range (pdims psi) is -> (a < D)%nat ->
  chain (replace_nth k (tscale r (site psi k)) psi) is a b = r * chain psi is a b.
Proof.
  revert D k is a. induction psi as [|A psi IH]; intros D k is a HL Hk His Ha; cbn in Hk; [lia|].
  destruct HL as (d & c & H1 & H2 & H3 & H4 & H5).
  apply in_range_cons_inv in His. destruct His as (i & is' & -> & Hi & His).
  assert (Hd1 : dim A 1 = d) by (unfold dim; rewrite H1; reflexivity). rewrite Hd1 in Hi.
  destruct k as [|k].
  - cbn [replace_nth site nth chain]. unfold dim. unfold tscale at 1. cbn [dims]. rewrite H1. cbn [nth].
    rewrite sum_mul_l. apply sum_ext. intros x Hx.
    rewrite get_tscale by (try assumption; rewrite H1; apply in_range_3; assumption). ring.
  - cbn [replace_nth chain]. unfold site. cbn [nth]. fold (site psi k).
    rewrite sum_mul_l. apply sum_ext. intros x Hx. unfold dim in Hx. rewrite H1 in Hx. cbn in Hx.
    rewrite (IH c k is' x H5) by (auto; lia). ring.
Qed.

Lemma linked_tscale psi D D' k r : linked D psi D' -> (k < length psi)%nat ->
  linked D (replace_nth k (tscale r (site psi k)) psi) D'.
Proof.
  intros HL Hk. destruct (linked_split1 D psi D' k HL Hk) as (m & d & c & _ & _ & H3 & H4 & H5 & H6).
  apply (linked_replace D psi D' k _ d); auto.
  - unfold tscale, dim. cbn [dims]. rewrite H3. reflexivity.
  - apply wf_tscale. exact H4.
Qed.

Lemma pdims_tscale psi k r : pdims (replace_nth k (tscale r (site psi k)) psi) = pdims psi.
Proof.
  unfold pdims. revert k. induction psi as [|A psi IH]; intros [|k]; try reflexivity.
  cbn [replace_nth map]. f_equal. apply (IH k).
Qed.

Lemma open_length psi : open_mps psi -> (0 < length psi)%nat.
Proof. intros (H & _). destruct psi; [congruence|cbn; lia]. Qed.

Lemma normal_form_at_ok psi s : open_mps psi -> (s < length psi)%nat -> okflag flag 1 psi ->
  (forall psi', normal_form_at svd flag psi (Z.of_nat s) = Ok psi' ->
     open_mps psi' /\ pdims psi' = pdims psi /\
     (forall j, (j < s)%nat -> left_isometry (site psi' j)) /\
     (forall j, (s < j < length psi)%nat -> right_isometry (site psi' j)) /\
     inner (pdims psi') (amp psi') (amp psi') = 1) /\
  (exact flag true -> nonzero_chain 1 psi -> exists psi' n,
     normal_form_at svd flag psi (Z.of_nat s) = Ok psi' /\ (0 < n)%R /\
     rinj (n * n)%R = inner (pdims psi) (amp psi) (amp psi) /\
     forall is, in_range (pdims psi) is -> rinj n * amp psi' is = amp psi is).
Proof.
  intros (Hne & HL) Hs Hf. 
  destruct (canonical_form_at_ok svd flag Hsvd 1 1 psi s HL ltac:(lia) Hf Hs) as (psi1 & E & HS & HI & HR).
  pose proof HS as (S1 & S2 & S3 & S4 & S5). pose proof (same_length _ _ S2) as Hlen.
  assert (Hne1 : psi1 <> []) by (intros ->; cbn in Hlen; lia).
  assert (Hnf : normal_form_at svd flag psi (Z.of_nat s) =
    let t := site psi1 s in if Req_EM_T (norm2_tensor t) 0 then Abort
      else Ok (replace_nth s (tscale (rinj (/ norm2_tensor t)%R) t) psi1)).
  { unfold normal_form_at. rewrite E. cbn [bind].
    replace (Z.max 0 (Z.of_nat s)) with (Z.of_nat s) by lia.
    rewrite site_at_nat by lia. cbn [bind]. rewrite Nat2Z.id. reflexivity. }
  assert (Hnorm : inner (pdims psi1) (amp psi1) (amp psi1) = rinj (frob2 (site psi1 s))).
  { apply canonical_norm; [split; assumption|lia|exact HI|]. rewrite Hlen. exact HR. }
  split.
  - intros psi' Epsi. rewrite Hnf in Epsi. cbv zeta in Epsi.
    destruct (Req_EM_T (norm2_tensor (site psi1 s)) 0) as [En|En]; [discriminate|].
    apply Ok_inj' in Epsi. subst psi'. set (n := norm2_tensor (site psi1 s)) in *.
    assert (Lk : linked 1 (replace_nth s (tscale (rinj (/ n)%R) (site psi1 s)) psi1) 1) by (apply linked_tscale; [exact S1|lia]).
    assert (Hl' : length (replace_nth s (tscale (rinj (/ n)%R) (site psi1 s)) psi1) = length psi1) by apply length_replace_nth.
    split; [split; [intros E0; rewrite E0 in Hl'; cbn in Hl'; lia|exact Lk]|].
    split; [rewrite pdims_tscale; exact S2|].
    assert (HI' : forall j, (j < s)%nat -> left_isometry (site (replace_nth s (tscale (rinj (/ n)%R) (site psi1 s)) psi1) j)).
    { intros j Hj. unfold site at 1. rewrite nth_replace_nth_neq by lia. apply HI. lia. }
    assert (HR' : forall j, (s < j < length psi)%nat -> right_isometry (site (replace_nth s (tscale (rinj (/ n)%R) (site psi1 s)) psi1) j)).
    { intros j Hj. unfold site at 1. rewrite nth_replace_nth_neq by lia. apply HR. lia. }
    split; [exact HI'|]. split; [exact HR'|].
    rewrite (canonical_norm _ s).
    + unfold site at 1. rewrite nth_replace_nth_eq by lia. rewrite frob2_tscale, <- norm2_sq. fold n.
      replace (/ n * / n * (n * n))%R with 1%R by (field; exact En). apply rinj_1.
    + split; [intros E0; rewrite E0 in Hl'; cbn in Hl'; lia|exact Lk].
    + lia.
    + exact HI'.
    + rewrite Hl', Hlen. exact HR'.
  - intros He Hnz. set (n := norm2_tensor (site psi1 s)).
    assert (Hn : n <> 0%R).
    { intros En. assert (Hz : frob2 (site psi1 s) = 0%R) by (rewrite <- norm2_sq; fold n; rewrite En; ring).
      pose proof (frob2_zero _ Hz) as Hz'.
      pose proof (nonzero_same 1 psi psi1 S2 (S4 He) Hnz) as (is & a & b & Hi & Ha & Hc). apply Hc.
      destruct (linked_split1 1 psi1 1 s S1) as (m & d & c & H1 & H2 & H3 & H4 & H5 & H6); [lia|].
      rewrite (list_split_nth s psi1 empty) by lia.
      apply (chain_zero_tensor _ _ _ 1 m d c 1); auto.
      - intros x i y _ _ _. unfold get. apply Hz'.
      - unfold site in *. rewrite <- (list_split_nth s psi1 empty) by lia. exact Hi. }
    rewrite Hnf. cbv zeta. fold n. destruct (Req_EM_T n 0) as [En|En]; [contradiction|].
    eexists. exists n. split; [reflexivity|].
    assert (Hnn : (0 <= n)%R) by apply sqrt_pos.
    split; [lra|].
    split.
    + unfold n. rewrite norm2_sq, <- Hnorm, S2. unfold inner. apply sumcfg_ext. intros is His.
      rewrite (same_chain_amp 1 psi psi1 1 1 is HL S1 Hne Hne1 (S4 He) His). reflexivity.
    + intros is His. rewrite <- (same_chain_amp 1 psi psi1 1 1 is HL S1 Hne Hne1 (S4 He) His).
      unfold amp.
      assert (Lk : linked 1 (replace_nth s (tscale (rinj (/ n)%R) (site psi1 s)) psi1) 1) by (apply linked_tscale; [exact S1|lia]).
      rewrite (linked_left_bond 1 _ 1) by (try exact Lk; intros E0; apply (f_equal (@length _)) in E0; rewrite length_replace_nth in E0; cbn in E0; lia).
      rewrite (linked_left_bond 1 psi1 1) by assumption. rewrite !sum_1.
      rewrite (chain_tscale psi1 1 1) by (try assumption; try lia; rewrite S2; assumption).
      transitivity (rinj (n * / n)%R * chain psi1 is 0%nat 0%nat).
      * rewrite rinj_mul. ring.
      * rewrite Rinv_r by exact En. rewrite rinj_1. ring.
Qed.

(** ** Two sites *)
Lemma get_join4 t a i j c x y z w : dims t = [a; i; j; c] -> (x < a)%nat -> (y < i)%nat ->
  get (reshape t [a * i; j * c]%nat) [x + a * y; z + j * w]%nat = get t [x; y; z; w].
Proof.
  intros Hd Hx Hy. unfold get. cbn [dims reshape data]. rewrite Hd. cbn [offset]. f_equal. nia.
Qed.

Definition nonzero4 (t : tensor) : Prop :=
  exists x y z w, (x < dim t 0)%nat /\ (y < dim t 1)%nat /\ (z < dim t 2)%nat /\ (w < dim t 3)%nat /\ get t [x; y; z; w] <> 0.

(** The pair of tensors stored by set_canonical_2_sites before any further canonicalisation. *)
Definition pair_spec (Pij : tensor) (a i j c : nat) (left : bool) (Pi Pj : tensor) (b : nat) (e : nat -> nat -> nat -> nat -> K) : Prop :=
  dims Pi = [a; i; b] /\ wf Pi /\ dims Pj = [b; j; c] /\ wf Pj /\
  (if left then left_isometry Pi else right_isometry Pj) /\
  forall x y z w, (x < a)%nat -> (y < i)%nat -> (z < j)%nat -> (w < c)%nat ->
    get Pij [x; y; z; w] = joined Pi Pj x y z w + e x y z w.

Definition two_pair (Pij : tensor) (Dmax : Z) (tol : R) (left : bool) : tensor * tensor :=
  let a1 := dim Pij 0 in let i1 := dim Pij 1 in let j1 := dim Pij 2 in let c1 := dim Pij 3 in
  let '(Pi, s, Pj) := svd (reshape Pij [a1 * i1; j1 * c1]%nat) in
  let b1 := where_to_truncate flag s tol Dmax in
  let '(Pi, s, Pj) := cut b1 Pi s Pj in
  let Pi := reshape Pi [a1; i1; b1] in
  let Pj := reshape Pj [b1; j1; c1] in
  if left then (Pi, scale Pj 0 s) else (scale Pi 2 s, Pj).

Lemma two_pair_ok Pij a i j c Dmax tol left : dims Pij = [a; i; j; c] -> wf Pij ->
  (0 < a)%nat -> (0 < i)%nat -> (0 < j)%nat -> (0 < c)%nat ->
  exists Us sv Vs, svd (reshape Pij [a * i; j * c]%nat) = (Us, sv, Vs) /\
    is_svd (a * i) (j * c) (reshape Pij [a * i; j * c]%nat) Us sv Vs /\
    let b := where_to_truncate flag sv tol Dmax in
    let '(Pi, Pj) := two_pair Pij Dmax tol left in
    pair_spec Pij a i j c left Pi Pj b (fun x y z w => dropped Us sv Vs b (x + a * y)%nat (z + j * w)%nat).
Proof.
  intros Hd Hw Ha Hi Hj Hc.
  assert (HA : is_matrix (reshape Pij [a * i; j * c]%nat) (a * i) (j * c)).
  { split; [reflexivity|]. apply wf_reshape; [exact Hw|]. rewrite Hd. cbn. lia. }
  pose proof (Hsvd (a * i)%nat (j * c)%nat _ HA ltac:(lia) ltac:(lia)) as Hs.
  destruct (svd (reshape Pij [a * i; j * c]%nat)) as [[Us sv] Vs] eqn:Esvd.
  exists Us, sv, Vs. split; [reflexivity|]. split; [exact Hs|]. cbv zeta.
  unfold two_pair. unfold dim. rewrite Hd. cbn [nth]. rewrite Esvd.
  set (b := where_to_truncate flag sv tol Dmax).
  assert (Hl : (b <= length sv)%nat) by apply wtt_le_length.
  pose proof (cut_spec _ _ _ _ _ _ b Hs Hl) as Hcut.
  destruct (cut b Us sv Vs) as [[U' s'] V'].
  destruct Hcut as ((HU1 & HU2) & (HV1 & HV2) & Hs' & Hsv & HU & HV).
  assert (HwPi : wf (reshape U' [a; i; b])) by (apply wf_reshape; [exact HU2|rewrite HU1; cbn; lia]).
  assert (HwPj : wf (reshape V' [b; j; c])) by (apply wf_reshape; [exact HV2|rewrite HV1; cbn; lia]).
  destruct Hs as (Hs0 & Hs1 & HUm & HVm & Hs2 & Hs3 & HUU & HVV & Hrec).
  assert (Hsvd' : is_svd (a * i) (j * c) (reshape Pij [a * i; j * c]%nat) Us sv Vs)
    by (repeat split; auto; try apply HUm; try apply HVm).
  assert (HisoU : left_isometry (reshape U' [a; i; b])).
  { intros x y Hx Hy. unfold dim in *. cbn [dims reshape nth] in *. rewrite sum_swap.
    transitivity (sum (a * i) (fun r => kconj (get Us [r; x]) * get Us [r; y])).
    + rewrite sum_merge. apply sum_ext. intros q Hq. apply sum_ext. intros p Hp.
      rewrite !(get_unjoin_left U' a i b) by assumption.
      rewrite !HU by (try assumption; nia). reflexivity.
    + apply HUU; lia. }
  assert (HisoV : right_isometry (reshape V' [b; j; c])).
  { intros x y Hx Hy. unfold dim in *. cbn [dims reshape nth] in *. rewrite sum_swap.
    transitivity (sum (j * c) (fun r => get Vs [x; r] * kconj (get Vs [y; r]))).
    + rewrite sum_merge. apply sum_ext. intros q Hq. apply sum_ext. intros p Hp.
      rewrite !(get_unjoin_right V' b j c) by assumption.
      rewrite !HV by (try assumption; nia). reflexivity.
    + apply HVV; lia. }
  assert (Hsum : forall x y z w, (x < a)%nat -> (y < i)%nat -> (z < j)%nat -> (w < c)%nat ->
     get Pij [x; y; z; w] = sum b (fun k => get Us [(x + a * y)%nat; k] * (rinj (nth k sv 0%R) * get Vs [k; (z + j * w)%nat]))
       + dropped Us sv Vs b (x + a * y)%nat (z + j * w)%nat).
  { intros x y z w Hx Hy Hz Hww. rewrite <- (get_join4 Pij a i j c) by assumption.
    apply (svd_split_sum _ _ _ _ _ _ b _ _ Hsvd' Hl); nia. }
  destruct left.
  - split; [reflexivity|]. split; [exact HwPi|]. split; [reflexivity|]. split; [apply wf_mk|].
    split; [exact HisoU|].
    intros x y z w Hx Hy Hz Hww. rewrite Hsum by assumption. f_equal. unfold joined, dim. cbn [dims reshape nth].
    apply sum_ext. intros k Hk. rewrite (get_unjoin_left U' a i b) by assumption.
    rewrite get_scale by (apply in_range_3; assumption). cbn [nth].
    rewrite (get_unjoin_right V' b j c) by assumption.
    rewrite HU, HV, Hsv by (try assumption; nia). ring.
  - split; [reflexivity|]. split; [apply wf_mk|]. split; [reflexivity|]. split; [exact HwPj|].
    split; [exact HisoV|].
    intros x y z w Hx Hy Hz Hww. rewrite Hsum by assumption. f_equal. unfold joined, dim. cbn [dims reshape scale nth].
    unfold scale at 1. rewrite dims_mk. cbn [dims reshape nth].
    apply sum_ext. intros k Hk. 
    rewrite get_scale by (apply in_range_3; assumption). cbn [nth].
    rewrite (get_unjoin_left U' a i b) by assumption.
    rewrite (get_unjoin_right V' b j c) by assumption.
    rewrite HU, HV, Hsv by (try assumption; nia). ring.
Qed.

Lemma two_pos Pij a i j c Us sv Vs tol Dmax : dims Pij = [a; i; j; c] ->
  is_svd (a * i) (j * c) (reshape Pij [a * i; j * c]%nat) Us sv Vs ->
  (eff_tol flag tol <> 0%R \/ nonzero4 Pij) -> (0 < where_to_truncate flag sv tol Dmax)%nat.
Proof.
  intros Hd Hs Hn. apply wtt_pos; [apply Hs|]. destruct Hn as [Hn|Hn]; [left; exact Hn|right].
  destruct (last_nonzero sv) as [|n] eqn:El.
  - exfalso. destruct Hn as (x & y & z & w & Hx & Hy & Hz & Hw & Hne). unfold dim in *. rewrite Hd in *.
    cbn in Hx, Hy, Hz, Hw. apply Hne. rewrite <- (get_join4 Pij a i j c) by assumption.
    apply (svd_zero _ _ _ _ _ _ Hs); [intros k; apply last_nonzero_beyond; lia|nia|nia].
  - exists n. apply last_nonzero_last. exact El.
Qed.

Lemma s2s_unfold P Pij a i j c st sense Dmax tol both : dims Pij = [a; i; j; c] -> wf Pij ->
  (0 < a)%nat -> (0 < i)%nat -> (0 < j)%nat -> (0 < c)%nat ->
  set_canonical_2_sites svd flag P Pij st sense Dmax tol both =
  bind (site_at P st) (fun _ =>
    if (0 <? sense)%Z then
      let '(Pi, Pj) := two_pair Pij Dmax tol true in
      let P := replace_nth (Z.to_nat st) Pi P in
      if both then set_canonical svd flag P (st + 1) Pj sense true
      else bind (site_at P (st + 1)) (fun _ => Ok (replace_nth (Z.to_nat (st + 1)) Pj P))
    else
      let '(Pi, Pj) := two_pair Pij Dmax tol false in
      let P := replace_nth (Z.to_nat st) Pj P in
      if both then set_canonical svd flag P (st - 1) Pi sense true
      else bind (site_at P (st - 1)) (fun _ => Ok (replace_nth (Z.to_nat (st - 1)) Pi P))).
Proof.
  intros Hd Hw Ha Hi Hj Hc. unfold set_canonical_2_sites, two_pair.
  assert (He : is_empty Pij = false) by (apply is_empty_wf; [exact Hw|rewrite Hd; cbn; nia]).
  unfold rank, dim. rewrite Hd, He. cbn [length Nat.eqb negb orb nth]. fold (cut (RS := RS)).
  destruct (svd (reshape Pij [a * i; j * c]%nat)) as [[Us sv] Vs].
  unfold cut. destruct (Nat.eqb (where_to_truncate flag sv tol Dmax) (length sv)); destruct (0 <? sense)%Z; reflexivity.
Qed.

End Facts.
