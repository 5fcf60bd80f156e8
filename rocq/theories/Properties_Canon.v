(** * C14-C18, C32: canonical forms, truncation, sweeps *)
From Coq Require Import Reals Lra Bool List Arith ZArith Lia FinFun.
From Verif Require Import Scalar ScalarFacts RScal Tensor TensorFacts Spec MpsModel MpsFacts StateFacts MpoSpec MpoModel MpoFacts MpoMatrix
  CanonSpec CanonModel TruncFacts SplitFacts CanonFacts CanonSweep CanonNorm CanonProps CanonTwo ApplyCanon SweepModel SweepSpec SweepFacts SvdExist Witness RealInst.
Import ListNotations.
Local Open Scope K_scope.

Section Properties.
Context {RS : RScal}.
Add Ring Kring : k_ring.
(** Any factorisation routine with the contract of a singular value decomposition, and any value of
    the global flag MPS_TRUNCATION_TOLERANCE. *)
Variable svd : tensor -> tensor * list R * tensor.
Variable flag : R.
Hypothesis Hsvd : svd_contract svd.

Lemma okflag_amp psi D : psi <> [] -> linked D psi D ->
  (flag <> 0%R \/ exists is, in_range (pdims psi) is /\ amp psi is <> 0) -> okflag flag D psi.
Proof.
  intros Hne HL [H|(is & Hi & H)]; [left; exact H|right].
  apply (nonzero_amp D psi is); auto. apply (linked_left_bond D psi D); assumption.
Qed.

(** C14. canonical_form(psi, site): all tensors on the left of the site are left isometries, all on
    its right are right isometries, no bond grows, the physical dimensions and boundary conditions
    stay, and when the tolerance asks for no truncation (0: only exact zeros; 1 or more: nothing)
    every amplitude is unchanged.  With tolerance 0 the state must not be the zero vector. *)
Theorem C14_canonical_form psi s : wf_mps psi -> (s < length psi)%nat ->
  (flag <> 0%R \/ exists is, in_range (pdims psi) is /\ amp psi is <> 0) ->
  exists psi', canonical_form_at svd flag psi (Z.of_nat s) = Ok psi' /\
    wf_mps psi' /\ (open_mps psi -> open_mps psi') /\ pdims psi' = pdims psi /\
    (forall j, (dim (site psi' j) 0 <= dim (site psi j) 0)%nat) /\
    (forall j, (j < s)%nat -> left_isometry (site psi' j)) /\
    (forall j, (s < j < length psi)%nat -> right_isometry (site psi' j)) /\
    ((flag = 0%R \/ (1 <= flag)%R) -> forall is, in_range (pdims psi) is -> amp psi' is = amp psi is).
Proof.
  intros (Hne & D & HD & HL) Hs Hz. pose proof (okflag_amp psi D Hne HL Hz) as Hok.
  destruct (canonical_form_at_ok svd flag Hsvd D D psi s HL HD Hok Hs) as (psi' & E & (S1 & S2 & S3 & S4 & S5) & HI & HR).
  assert (Hne' : psi' <> []).
  { intros ->. cbn in S2. destruct psi; [congruence|discriminate]. }
  exists psi'. split; [exact E|]. split; [split; [exact Hne'|exists D; auto]|].
  split.
  { intros (_ & H1). split; [exact Hne'|].
    assert (D = 1%nat) by (rewrite <- (linked_left_bond D psi D), <- (linked_left_bond 1 psi 1); auto). subst D. exact S1. }
  split; [exact S2|]. split; [exact S3|]. split; [exact HI|]. split; [exact HR|].
  intros He is His. apply (same_chain_amp D psi psi' D D); auto.
Qed.

(** canonical_form(psi, sense): the last site is the first one if sense < 0 and the last otherwise. *)
Theorem C14_canonical_form_sense psi sense :
  canonical_form svd flag psi sense = canonical_form_at svd flag psi (if (sense <? 0)%Z then 0 else Z.of_nat (length psi) - 1)%Z /\
  normal_form svd flag psi sense = normal_form_at svd flag psi (if (sense <? 0)%Z then 0 else Z.of_nat (length psi) - 1)%Z.
Proof. split; reflexivity. Qed.

(** normal_form of a non-zero open state: norm one, still in canonical form, and (when nothing is
    truncated) the original divided by its norm. *)
Theorem C14_normal_form_unit psi s psi' : open_mps psi -> (s < length psi)%nat ->
  (flag <> 0%R \/ exists is, in_range (pdims psi) is /\ amp psi is <> 0) ->
  normal_form_at svd flag psi (Z.of_nat s) = Ok psi' ->
  open_mps psi' /\ pdims psi' = pdims psi /\
  (forall j, (j < s)%nat -> left_isometry (site psi' j)) /\
  (forall j, (s < j < length psi)%nat -> right_isometry (site psi' j)) /\
  inner (pdims psi') (amp psi') (amp psi') = 1.
Proof.
  intros Ho Hs Hz. destruct Ho as (Hne & HL). pose proof (okflag_amp psi 1 Hne HL Hz) as Hok.
  apply (normal_form_at_ok svd flag Hsvd psi s (conj Hne HL) Hs Hok).
Qed.

Theorem C14_normal_form_proportional psi s : open_mps psi -> (s < length psi)%nat ->
  (flag = 0%R \/ (1 <= flag)%R) -> (exists is, in_range (pdims psi) is /\ amp psi is <> 0) ->
  exists psi' n, normal_form_at svd flag psi (Z.of_nat s) = Ok psi' /\ (0 < n)%R /\
    rinj (n * n)%R = inner (pdims psi) (amp psi) (amp psi) /\
    forall is, in_range (pdims psi) is -> rinj n * amp psi' is = amp psi is.
Proof.
  intros (Hne & HL) Hs He Hz. pose proof (okflag_amp psi 1 Hne HL (or_intror Hz)) as Hok.
  destruct (normal_form_at_ok svd flag Hsvd psi s (conj Hne HL) Hs Hok) as (_ & Hnf). apply (Hnf He).
  destruct Hz as (is & Hi & H). apply (nonzero_amp 1 psi is); auto. apply (linked_left_bond 1 psi 1); assumption.
Qed.

(** set_canonical(psi, k, t, sense, truncate) for a tensor [t] that fits the bonds of site k: the
    result is the state with [t] at site k; only site k and its neighbour change. *)
Theorem C14_set_canonical_right D D' psi k t (truncate : bool) :
  linked D (replace_nth k t psi) D' -> (0 < D)%nat -> (S k < length psi)%nat ->
  ((truncate = true /\ flag <> 0%R) \/
   exists x i y, (x < dim t 0)%nat /\ (i < dim t 1)%nat /\ (y < dim t 2)%nat /\ get t [x; i; y] <> 0) ->
  exists psi', set_canonical svd flag psi (Z.of_nat k) t 1 truncate = Ok psi' /\
    linked D psi' D' /\ pdims psi' = pdims (replace_nth k t psi) /\
    (forall j, j <> k -> j <> S k -> site psi' j = site psi j) /\
    left_isometry (site psi' k) /\
    ((truncate = false \/ flag = 0%R \/ (1 <= flag)%R) -> forall is a b, in_range (pdims psi') is -> (a < D)%nat ->
       chain psi' is a b = chain (replace_nth k t psi) is a b).
Proof.
  intros HL HD Hk Hn.
  destruct (set_canonical_right_ok3 svd flag Hsvd D D' psi k t truncate HL HD Hk) as (psi' & E & (S1 & S2 & S3 & _ & S5) & HI).
  { destruct Hn as [(-> & Hn)|Hn]; [left; exact Hn|right; exact Hn]. }
  exists psi'. split; [exact E|]. split; [exact S1|]. split; [exact S2|]. split.
  { intros j H1 H2. rewrite S3 by assumption. apply nth_replace_nth_neq. exact H1. }
  split; [exact HI|]. intros He is a b Hi Ha. apply S5; auto; [|rewrite <- S2; exact Hi].
  unfold exact, eff. destruct truncate; destruct He as [He|He]; try discriminate; auto.
Qed.

Theorem C14_set_canonical_left D D' psi k t (truncate : bool) :
  linked D (replace_nth (S k) t psi) D' -> (0 < D)%nat -> (S k < length psi)%nat ->
  ((truncate = true /\ flag <> 0%R) \/
   exists x i y, (x < dim t 0)%nat /\ (i < dim t 1)%nat /\ (y < dim t 2)%nat /\ get t [x; i; y] <> 0) ->
  exists psi', set_canonical svd flag psi (Z.of_nat (S k)) t (-1) truncate = Ok psi' /\
    linked D psi' D' /\ pdims psi' = pdims (replace_nth (S k) t psi) /\
    (forall j, j <> k -> j <> S k -> site psi' j = site psi j) /\
    right_isometry (site psi' (S k)) /\
    ((truncate = false \/ flag = 0%R \/ (1 <= flag)%R) -> forall is a b, in_range (pdims psi') is -> (a < D)%nat ->
       chain psi' is a b = chain (replace_nth (S k) t psi) is a b).
Proof.
  intros HL HD Hk Hn.
  destruct (set_canonical_left_ok3 svd flag Hsvd D D' psi k t truncate HL HD Hk) as (psi' & E & (S1 & S2 & S3 & _ & S5) & HI).
  { destruct Hn as [(-> & Hn)|Hn]; [left; exact Hn|right; exact Hn]. }
  exists psi'. split; [exact E|]. split; [exact S1|]. split; [exact S2|]. split.
  { intros j H1 H2. rewrite S3 by assumption. apply nth_replace_nth_neq. exact H2. }
  split; [exact HI|]. intros He is a b Hi Ha. apply S5; auto; [|rewrite <- S2; exact Hi].
  unfold exact, eff. destruct truncate; destruct He as [He|He]; try discriminate; auto.
Qed.

(** At the end of the chain set_canonical just stores the tensor. *)
Theorem C14_set_canonical_end psi t truncate : psi <> [] ->
  set_canonical svd flag psi (Z.of_nat (length psi) - 1) t 1 truncate = Ok (replace_nth (length psi - 1) t psi) /\
  set_canonical svd flag psi 0 t (-1) truncate = Ok (replace_nth 0 t psi).
Proof.
  intros Hne. assert (Hl : (0 < length psi)%nat) by (destruct psi; [congruence|cbn; lia]). unfold set_canonical. split.
  - destruct (Z.leb_spec 0 (Z.of_nat (length psi) - 1)); [|lia].
    destruct (Z.ltb_spec (Z.of_nat (length psi) - 1) (Z.of_nat (length psi))); [|lia]. cbn [andb Z.ltb Z.compare].
    replace (Z.to_nat (Z.of_nat (length psi) - 1)) with (length psi - 1)%nat by lia.
    destruct (Nat.eqb_spec (length psi - 1 + 1) (length psi)); [reflexivity|lia].
  - destruct (Z.ltb_spec 0 (Z.of_nat (length psi))); [|lia]. cbn. reflexivity.
Qed.

(** C15. set_canonical_2_sites with canonicalize_both = false.  For sense > 0 the pair is stored at
    (site, site+1), otherwise at (site-1, site); [k] is the leftmost of the two.  [s] are the singular
    values of the two-site tensor seen as a matrix, [b] the number that where_to_truncate keeps (C16).
    The weight of the difference is the weight of the dropped singular values. *)
Theorem C15_two_sites P Pij a i j c k sense Dmax tol :
  (S k < length P)%nat -> dims Pij = [a; i; j; c] -> wf Pij ->
  (0 < a)%nat -> (0 < i)%nat -> (0 < j)%nat -> (0 < c)%nat ->
  exists P' U s V,
    set_canonical_2_sites svd flag P Pij (Z.of_nat (if (0 <? sense)%Z then k else S k)) sense Dmax tol false = Ok P' /\
    is_svd (a * i) (j * c) (reshape Pij [a * i; j * c]%nat) U s V /\
    let b := where_to_truncate flag s tol Dmax in
    length P' = length P /\
    (forall q, q <> k -> q <> S k -> site P' q = site P q) /\
    dims (site P' k) = [a; i; b] /\ wf (site P' k) /\ dims (site P' (S k)) = [b; j; c] /\ wf (site P' (S k)) /\
    (if (0 <? sense)%Z then left_isometry (site P' k) else right_isometry (site P' (S k))) /\
    (let err x y z w := get Pij [x; y; z; w] - joined (site P' k) (site P' (S k)) x y z w in
     sum a (fun x => sum i (fun y => sum j (fun z => sum c (fun w => kconj (err x y z w) * err x y z w))))
     = rinj (tail_weight s b)) /\
    sum a (fun x => sum i (fun y => sum j (fun z => sum c (fun w => kconj (get Pij [x; y; z; w]) * get Pij [x; y; z; w]))))
     = rinj (tail_weight s 0) /\
    ((tol = 0 \/ 1 <= tol \/ (tol < 0 /\ (flag = 0 \/ 1 <= flag)))%R ->
     (Dmax <= 0 \/ Z.of_nat (Nat.min (a * i) (j * c)) <= Dmax)%Z ->
     forall x y z w, (x < a)%nat -> (y < i)%nat -> (z < j)%nat -> (w < c)%nat ->
       joined (site P' k) (site P' (S k)) x y z w = get Pij [x; y; z; w]).
Proof.
  intros Hk Hd Hw Ha Hi Hj Hc.
  destruct (s2s_false svd flag Hsvd P Pij a i j c k sense Dmax tol Hk Hd Hw Ha Hi Hj Hc) as (Pi & Pj & U & s & V & _ & E & Hs & Hps).
  exists (firstn k P ++ Pi :: Pj :: skipn (S (S k)) P), U, s, V. split; [exact E|]. split; [exact Hs|]. cbv zeta in *.
  set (b := where_to_truncate flag s tol Dmax) in *.
  assert (H1 : site (firstn k P ++ Pi :: Pj :: skipn (S (S k)) P) k = Pi) by (rewrite site_two by exact Hk; rewrite Nat.eqb_refl; reflexivity).
  assert (H2 : site (firstn k P ++ Pi :: Pj :: skipn (S (S k)) P) (S k) = Pj).
  { rewrite site_two by exact Hk. destruct (Nat.eqb_spec (S k) k); [lia|]. rewrite Nat.eqb_refl. reflexivity. }
  rewrite H1, H2. split.
  { rewrite app_length. cbn [length]. rewrite firstn_length, skipn_length. lia. }
  split.
  { intros q Hq1 Hq2. rewrite site_two by exact Hk. destruct (Nat.eqb_spec q k); [congruence|]. destruct (Nat.eqb_spec q (S k)); [congruence|reflexivity]. }
  pose proof Hps as (HPi & HwPi & HPj & HwPj & HI & Hg).
  split; [exact HPi|]. split; [exact HwPi|]. split; [exact HPj|]. split; [exact HwPj|]. split; [exact HI|].
  destruct (pair_error Pij a i j c _ Pi Pj U s V b Hs Hd (wtt_le_length _ _ _ _) Hps) as (He1 & He2).
  split; [exact He1|]. split; [exact He2|].
  intros Ht HD x y z w Hx Hy Hz Hww. rewrite Hg by assumption.
  rewrite (tol_exact_drop flag tol Dmax _ _ _ _ _ _ _ _ Hs (conj Ht HD)).
  rewrite k_ring.(Radd_comm), k_ring.(Radd_0_l). reflexivity.
Qed.

(** The state after set_canonical_2_sites with canonicalize_both = true (without truncation): the
    amplitudes are those of the old chain with the two tensors replaced by the two-site tensor. *)
Theorem C15_two_sites_state P Pij a i j c k sense Dmax tol D :
  (S k < length P)%nat -> dims Pij = [a; i; j; c] -> wf Pij ->
  (0 < a)%nat -> (0 < i)%nat -> (0 < j)%nat -> (0 < c)%nat -> (0 < D)%nat ->
  linked D (firstn k P) a -> linked c (skipn (S (S k)) P) D ->
  (exists x y z w, (x < a)%nat /\ (y < i)%nat /\ (z < j)%nat /\ (w < c)%nat /\ get Pij [x; y; z; w] <> 0) ->
  exists P', set_canonical_2_sites svd flag P Pij (Z.of_nat (if (0 <? sense)%Z then k else S k)) sense Dmax tol true = Ok P' /\
    linked D P' D /\ pdims P' = pdims (firstn k P) ++ i :: j :: pdims (skipn (S (S k)) P) /\
    (if (0 <? sense)%Z then left_isometry (site P' k) /\ ((S (S k) < length P)%nat -> left_isometry (site P' (S k)))
     else right_isometry (site P' (S k)) /\ ((0 < k)%nat -> right_isometry (site P' k))) /\
    ((tol = 0 \/ 1 <= tol \/ (tol < 0 /\ (flag = 0 \/ 1 <= flag)))%R ->
     (Dmax <= 0 \/ Z.of_nat (Nat.min (a * i) (j * c)) <= Dmax)%Z ->
     (flag = 0%R \/ (1 <= flag)%R) ->
     forall is y z js, in_range (pdims (firstn k P)) is -> (y < i)%nat -> (z < j)%nat -> in_range (pdims (skipn (S (S k)) P)) js ->
       amp P' (is ++ y :: z :: js) =
       amp_two (firstn k P) a c (fun u y z w => get Pij [u; y; z; w]) (skipn (S (S k)) P) D is y z js).
Proof.
  intros Hk Hd Hw Ha Hi Hj Hc HD Hp Hq Hn.
  assert (Hn' : nonzero4 Pij).
  { destruct Hn as (x & y & z & w & H1 & H2 & H3 & H4 & H5). exists x, y, z, w. unfold dim. rewrite Hd. cbn. auto. }
  destruct (s2s_true svd flag Hsvd P Pij a i j c k sense Dmax tol D Hk Hd Hw Ha Hi Hj Hc HD Hp Hq (or_intror Hn') (or_intror Hn'))
    as (P' & E & H1 & H2 & H3 & H4).
  exists P'. split; [exact E|]. split; [exact H1|]. split; [exact H2|]. split; [exact H3|].
  intros Ht HDm Hf. apply H4; [split; assumption|exact Hf].
Qed.

(** C32. apply_canonical: same vector as the operator applied to the state, in canonical form.  With
    truncate = false the result must not be the zero vector (see C32_zero_refuted). *)
Theorem C32_apply_canonical_partial O psi sense (truncate : bool) : open_mpo O -> open_mps psi -> idims O = pdims psi ->
  ((truncate = true /\ flag <> 0%R) \/
   exists is, in_range (odims O) is /\ sumcfg (pdims psi) (fun js => opelem O is js * amp psi js) <> 0) ->
  exists chi, apply_canonical svd flag O psi sense truncate = Ok chi /\ open_mps chi /\ pdims chi = odims O /\
    (forall j, (j < length psi)%nat ->
       if (0 <? sense)%Z then (S j < length psi)%nat -> left_isometry (site chi j)
       else (0 < j)%nat -> right_isometry (site chi j)) /\
    ((truncate = false \/ flag = 0%R \/ (1 <= flag)%R) -> forall is, in_range (odims O) is ->
       amp chi is = sumcfg (pdims psi) (fun js => opelem O is js * amp psi js)).
Proof.
  intros HO Hp Hd Hn.
  destruct (apply_canonical_ok svd flag Hsvd truncate sense O psi HO Hp Hd) as (chi & E & H1 & H2 & H3 & H4).
  { destruct Hn as [(-> & Hn)|Hn]; [left; exact Hn|right; exact Hn]. }
  exists chi. split; [exact E|]. split; [exact H1|]. split; [exact H2|]. split; [exact H3|].
  intros He. apply H4. unfold exact, eff. destruct truncate; destruct He as [He|He]; try discriminate; auto.
Qed.

(** and it is the vector computed by apply *)
Theorem C32_same_as_apply_partial O psi sense chi chi0 : open_mpo O -> open_mps psi -> idims O = pdims psi ->
  (exists is, in_range (odims O) is /\ sumcfg (pdims psi) (fun js => opelem O is js * amp psi js) <> 0) ->
  apply_canonical svd flag O psi sense false = Ok chi -> apply O psi = Ok chi0 ->
  pdims chi = pdims chi0 /\ forall is, in_range (pdims chi0) is -> amp chi is = amp chi0 is.
Proof.
  intros HO Hp Hd Hn E E0.
  destruct (C32_apply_canonical_partial O psi sense false HO Hp Hd (or_intror Hn)) as (chi' & E' & _ & Hpd & _ & Ha).
  rewrite E in E'. apply Ok_inj' in E'. subst chi'.
  assert (HO' : wf_mpo O) by (destruct HO as (Hne & HL); split; [exact Hne|exists 1%nat; auto]).
  assert (Hp' : wf_mps psi) by (destruct Hp as (Hne & HL); split; [exact Hne|exists 1%nat; auto]).
  destruct (apply_correct O psi HO' Hp' Hd) as (chi1 & E1 & _ & Hpd1 & _ & Ha1).
  rewrite E0 in E1. apply Ok_inj' in E1. subst chi1.
  split; [congruence|]. intros is His. rewrite Hpd1 in His. rewrite Ha1 by exact His. apply Ha; auto.
Qed.

(** When the result is the zero vector, truncate = false delivers a bond of dimension zero, which is
    not a matrix product state. *)
Definition zero_mpo2 : mpo := [zeros [1; 1; 1; 1]; zeros [1; 1; 1; 1]]%nat.
Definition ones_mps2 : mps := [mk [1; 1; 1]%nat (fun _ => 1); mk [1; 1; 1]%nat (fun _ => 1)].

Lemma svd_of_zero m n A U s V : is_svd m n A U s V -> 
  (forall x y, (x < m)%nat -> (y < n)%nat -> get A [x; y] = 0) -> forall k, nth k s 0%R = 0%R.
Proof.
  intros Hs Hz k. assert (E : tail_weight s 0 = 0%R).
  { apply rinj_inj. rewrite <- (svd_total _ _ _ _ _ _ Hs), rinj_0. apply sum_zero. intros x Hx. apply sum_zero. intros y Hy.
    rewrite (Hz x y) by assumption. rewrite kconj_0. ring. }
  destruct (Nat.lt_ge_cases k (length s)) as [H|H]; [|apply nth_overflow; exact H].
  pose proof (tail_weight_le s 0 k ltac:(lia)) as H1. rewrite E, (tail_weight_S s k H) in H1.
  pose proof (tail_weight_nonneg s (S k)). nra.
Qed.

Theorem C32_zero_refuted : open_mpo zero_mpo2 /\ open_mps ones_mps2 /\ idims zero_mpo2 = pdims ones_mps2 /\
  exists chi, apply_canonical svd flag zero_mpo2 ones_mps2 1 false = Ok chi /\ dim (site chi 0) 2 = 0%nat /\ ~ open_mps chi.
Proof.
  split; [split; [discriminate|]; exists 1%nat, 1%nat, 1%nat; repeat split; auto; exists 1%nat, 1%nat, 1%nat; repeat split; auto|].
  split; [split; [discriminate|]; exists 1%nat, 1%nat; repeat split; auto; exists 1%nat, 1%nat; repeat split; auto|].
  split; [reflexivity|].
  unfold apply_canonical. cbn [length Nat.eqb zero_mpo2 ones_mps2 Z.ltb Z.compare apply_rightwards].
  set (P := zeros [1; 1; 1; 1]%nat). set (A := mk [1; 1; 1]%nat (fun _ => 1)).
  destruct (right_site_dims 1 ones111 P A 1 1 1 1 1 1 eq_refl eq_refl eq_refl) as (HC & HwC).
  assert (Hget : forall p j r, (p < 1)%nat -> (j < 1)%nat -> (r < 1)%nat -> get (apply_right_site 1 ones111 P A) [p; j; r] = 0).
  { intros p j r Hp Hj Hr. replace r with (0 + 1 * 0)%nat by lia.
    rewrite (right_site_get 1 ones111 P A 1 1 1 1 1 1) by (try reflexivity; lia). rewrite !sum_1.
    unfold P. rewrite get_zeros by (apply in_range_4; lia).
    ring. }
  set (C := apply_right_site 1 ones111 P A) in *. clearbody C.
  destruct (split_right_ok svd flag Hsvd C 1 1 1 false HC HwC ltac:(lia) ltac:(lia) ltac:(lia))
    as (Us & sv & Vs & _ & Hs & HH). cbv zeta in HH.
  set (l := where_to_truncate flag sv (split_tol false) (Z.of_nat (Nat.min (1 * 1) 1))) in *.
  destruct HH as (U & V & E & (HU & HwU & (HV & HwV) & _) & _).
  assert (Hl : l = 0%nat).
  { unfold l. rewrite wtt_zeros.
    - destruct (last_nonzero sv) as [|q] eqn:Eq; [reflexivity|]. exfalso.
      apply (last_nonzero_last sv q Eq). apply (svd_of_zero _ _ _ _ _ _ Hs).
      intros x y Hx Hy. replace x with (0 + 1 * 0)%nat by lia.
      replace (get (reshape C [1 * 1; 1]%nat) [(0 + 1 * 0)%nat; y]) with (get C [0; 0; y]%nat); [apply Hget; lia|].
      symmetry. apply get_reshape. rewrite HC. cbn. lia.
    - unfold eff_tol, split_tol, MPS_TRUNCATE_ZEROS. destruct (Rltb 0 0) eqn:Er; [apply Rltb_true in Er; lra|reflexivity]. }
  rewrite E. cbn [bind]. eexists. split; [reflexivity|]. 
  assert (Hd : dim U 2 = 0%nat) by (unfold dim; rewrite HU; cbn; exact Hl).
  split; [exact Hd|].
  intros (_ & d & c & H1 & _ & _ & H2 & _). unfold site in Hd. cbn [nth] in Hd. unfold dim in Hd. rewrite H1 in Hd. cbn in Hd. lia.
Qed.

(** C17. truncate(&Q, P, Dmax, periodic, increase) with Dmax > 0.  The cap of bond k is Dmax (periodic)
    or the smallest of Dmax and the products of the physical dimensions on either side (open).  Each
    bond ends at the smallest of its old dimension and its cap, or exactly at the cap if increase is
    set; the tensors keep their leading block (padded with zeros); the flag returned says whether some
    bond was larger than its cap; when none was, no amplitude changes. *)
Theorem C17_truncate (P : mps) (Dmax : Z) (periodic increase : bool) : wf_mps P -> (0 < Dmax)%Z ->
  let cap k := if periodic then Z.to_nat Dmax
               else Nat.min (Z.to_nat Dmax) (Nat.min (nprod (firstn k (pdims P))) (nprod (skipn k (pdims P)))) in
  exists Q f, truncate P Dmax periodic increase = Ok (Q, f) /\
    pdims Q = pdims P /\
    (if periodic then wf_mps Q else open_mps Q) /\
    (forall k, (k <= length P)%nat -> bond Q k = if increase then cap k else Nat.min (bond P k) (cap k)) /\
    (forall k a i b, (k < length P)%nat -> (a < bond Q k)%nat -> (i < nth k (pdims P) 0)%nat -> (b < bond Q (S k))%nat ->
       get (site Q k) [a; i; b] = if Nat.ltb a (bond P k) && Nat.ltb b (bond P (S k)) then get (site P k) [a; i; b] else 0) /\
    (f = true <-> exists k, (k <= length P)%nat /\ (cap k < bond P k)%nat) /\
    (f = false -> forall is, in_range (pdims P) is -> amp Q is = amp P is).
Proof.
  intros (Hne & D & HD & HL) Hm cap.
  destruct (truncate_spec P D D Dmax periodic increase HL HD Hne Hm) as (Q & f & E & Hl & Hp & Hlk & Hb & Hg & Hf & Ha).
  change (bond_cap (pdims P) (Z.to_nat Dmax) periodic) with cap in *.
  assert (HQne : Q <> []) by (intros ->; destruct P; [congruence|discriminate]).
  exists Q, f. split; [exact E|]. split; [exact Hp|]. split.
  { rewrite (bond_0 _ _ _ HL Hne), (bond_last _ _ _ HL Hne) in Hlk.
    destruct periodic.
    - split; [exact HQne|]. exists (nb increase D (cap 0%nat)). unfold nb, cap in *.
      split; [destruct increase; lia|exact Hlk].
    - assert (H1 : nb increase D (cap 0%nat) = 1%nat /\ nb increase D (cap (length P)) = 1%nat).
      { assert (Hr : forall k, (0 < nprod (skipn k (pdims P)) /\ 0 < nprod (firstn k (pdims P)))%nat).
        { intros k. pose proof (linked_pdims_pos _ _ _ HL) as Hpos. rewrite Forall_forall in Hpos.
          split; apply nprod_pos; apply Forall_forall; intros x Hx; apply Hpos;
          rewrite <- (firstn_skipn k (pdims P)); apply in_or_app; auto. }
        unfold cap. rewrite (skipn_all2 (n := length P)) by (unfold pdims; rewrite map_length; lia).
        pose proof (Hr 0%nat) as (Hr1 & Hr2). pose proof (Hr (length P)) as (Hr3 & Hr4).
        change (nprod (firstn 0 (pdims P))) with 1%nat. change (nprod []) with 1%nat.
        unfold nb. destruct increase; split; lia. }
      destruct H1 as (H1 & H2). rewrite H1, H2 in Hlk. split; assumption. }
  split; [exact Hb|]. split; [exact Hg|]. split; [exact Hf|].
  intros Hff is His. apply Ha; auto.
Qed.

(** Dmax = 0 means no limit; a negative one is an error. *)
Theorem C17_truncate_zero P periodic increase : truncate P 0 periodic increase = Ok (P, false).
Proof. reflexivity. Qed.

End Properties.

(** C16. where_to_truncate; [flag] replaces a negative tolerance. *)
Theorem C16_bounds flag s tol max_dim :
  (where_to_truncate flag s tol max_dim <= length s)%nat /\
  ((0 < max_dim)%Z -> (Z.of_nat (where_to_truncate flag s tol max_dim) <= max_dim)%Z).
Proof.
  split; [apply wtt_le_length|]. intros H. pose proof (wtt_le flag s tol max_dim) as H1. unfold eff_max in H1.
  destruct (Z.leb_spec max_dim 0); [lia|]. destruct (Z.ltb_spec (Z.of_nat (length s)) max_dim); cbn [orb] in H1; lia.
Qed.

(** Dropped weight: at most the tolerance (never taken below DBL_EPSILON = 2^-52) times the total,
    unless max_dim is what limits the result. *)
Theorem C16_weight flag s tol max_dim :
  let t := if Rlt_dec tol 0 then flag else tol in
  let n := where_to_truncate flag s tol max_dim in
  (0 < t)%R -> ((max_dim <= 0)%Z \/ (Z.of_nat (length s) <= max_dim)%Z \/ (Z.of_nat n < max_dim)%Z) ->
  (tail_weight s n <= Rmax t (/ 2 ^ 52) * tail_weight s 0)%R.
Proof.
  intros t n Ht Hb.
  assert (Et : t = eff_tol flag tol) by (unfold t, eff_tol, Rltb; destruct (Rlt_dec tol 0); reflexivity).
  rewrite Et in *. fold DBL_EPSILON.
  destruct (Nat.eq_dec n (length s)) as [En|En].
  - rewrite En, (tail_weight_past s (length s)) by lia. apply Rmult_le_pos; [|apply tail_weight_nonneg].
    eapply Rle_trans; [|apply Rmax_l]. lra.
  - pose proof (wtt_le_length flag s tol max_dim) as Hle. fold n in Hle.
    apply (wtt_weight flag s tol max_dim Ht). fold n. unfold eff_max.
    destruct (Z.leb_spec max_dim 0); destruct (Z.ltb_spec (Z.of_nat (length s)) max_dim); cbn [orb]; lia.
Qed.

(** It keeps at most one value more than needed: dropping one more than [n - 1] is too much. *)
Theorem C16_nearly_minimal flag s tol max_dim i :
  let t := if Rlt_dec tol 0 then flag else tol in
  (0 < t)%R -> (t < 1)%R -> (i + 1 < where_to_truncate flag s tol max_dim)%nat ->
  (Rmax t (/ 2 ^ 52) * tail_weight s 0 < tail_weight s i)%R.
Proof.
  intros t. assert (Et : t = eff_tol flag tol) by (unfold t, eff_tol, Rltb; destruct (Rlt_dec tol 0); reflexivity).
  rewrite Et. apply wtt_minimal.
Qed.

(** tol = 0: only trailing zeros go. *)
Theorem C16_zeros flag s max_dim : ((max_dim <= 0)%Z \/ (Z.of_nat (length s) <= max_dim)%Z) ->
  let n := where_to_truncate flag s 0 max_dim in
  (forall k, (n <= k)%nat -> nth k s 0%R = 0%R) /\ ((0 < n)%nat -> nth (n - 1) s 0%R <> 0%R).
Proof.
  intros Hb n. assert (Hn : n = last_nonzero s).
  { unfold n. rewrite wtt_zeros.
    - pose proof (last_nonzero_le s). unfold eff_max.
      destruct (Z.leb_spec max_dim 0); destruct (Z.ltb_spec (Z.of_nat (length s)) max_dim); cbn [orb]; lia.
    - unfold eff_tol. destruct (Rltb 0 0) eqn:Er; [apply Rltb_true in Er; lra|reflexivity]. }
  split.
  - intros k Hk. apply last_nonzero_beyond. lia.
  - intros H. apply last_nonzero_last. lia.
Qed.

(** tol >= 1: nothing is dropped but what max_dim demands. *)
Theorem C16_none flag s tol max_dim : (1 <= tol)%R ->
  where_to_truncate flag s tol max_dim =
  if (max_dim <=? 0)%Z then length s else Nat.min (length s) (Z.to_nat max_dim).
Proof.
  intros H. rewrite wtt_none.
  - unfold eff_max. destruct (Z.leb_spec max_dim 0); [reflexivity|]. 
    destruct (Z.ltb_spec (Z.of_nat (length s)) max_dim); cbn [orb]; lia.
  - unfold eff_tol. destruct (Rltb tol 0) eqn:E; [apply Rltb_true in E; lra|exact H].
Qed.

(** Something is kept unless the tolerance is 0 and all values are 0. *)
Theorem C16_not_empty flag s tol max_dim : s <> [] ->
  ((if Rlt_dec tol 0 then flag else tol) <> 0%R \/ exists k, nth k s 0%R <> 0%R) ->
  (0 < where_to_truncate flag s tol max_dim)%nat.
Proof.
  intros Hs H. apply wtt_pos; [destruct s; [congruence|cbn; lia]|].
  replace (eff_tol flag tol) with (if Rlt_dec tol 0 then flag else tol); [exact H|].
  unfold eff_tol, Rltb. destruct (Rlt_dec tol 0); reflexivity.
Qed.

(** C18. A new sweeper visits all sites, in the direction of [sense], and stops at the last. *)
Theorem C18_sweep L sense s : new_sweeper L sense = Ok s ->
  exists s', sweep_trace s (all_sites L sense) s' /\ sweeper_is_last s' = true /\
    forall l s2, sweep_trace s l s2 -> l = all_sites L sense /\ s2 = s'.
Proof.
  intros H. pose proof (reachable_inv L sense s (reach_new L sense s H)) as Hi.
  assert (Hd : sk s = sk0 s /\ all_sites L (sdk s) = all_sites L sense).
  { unfold new_sweeper in H. destruct (Z.ltb_spec 0 L); [|discriminate]. unfold all_sites.
    destruct (Z.ltb_spec 0 sense); injection H as <-; auto. }
  destruct Hd as (H0 & Hd). destruct (inv_trace L s Hi H0) as (s' & Ht & Hk & Hdk). rewrite Hd in Ht.
  exists s'. split; [exact Ht|]. split.
  - assert (HN : skN s' = skN s).
    { clear -Ht. induction Ht as [a b E|a b l' c E _ IH]; unfold sweeper_dec in E; destruct (sk a =? skN a)%Z; try discriminate;
      injection E as <-; [reflexivity|rewrite IH; reflexivity]. }
    unfold sweeper_is_last. rewrite HN, Hk. apply Z.eqb_refl.
  - intros l s2 H2. apply (trace_det _ _ _ Ht _ _ H2).
Qed.

(** After any history of steps and flips: the site is in range, the sense is +1 or -1, and flip()
    starts a full sweep in the other direction. *)
Theorem C18_history L sense s : sweeper_reachable L sense s ->
  (0 <= sweeper_site s < L)%Z /\ (sweeper_sense s = 1 \/ sweeper_sense s = -1)%Z /\
  sweeper_sense (sweeper_flip s) = (- sweeper_sense s)%Z /\
  exists s', sweep_trace (sweeper_flip s) (all_sites L (- sweeper_sense s)) s' /\
    forall l s2, sweep_trace (sweeper_flip s) l s2 -> l = all_sites L (- sweeper_sense s) /\ s2 = s'.
Proof.
  intros H. pose proof (reachable_inv L sense s H) as (HL & Hk & Hd).
  split; [exact Hk|]. split; [unfold sweeper_sense; lia|]. split; [reflexivity|].
  pose proof (reachable_inv L sense _ (reach_flip L sense s H)) as Hi.
  destruct (inv_trace L (sweeper_flip s) Hi eq_refl) as (s' & Ht & _). exists s'. split; [exact Ht|].
  intros l s2 H2. apply (trace_det _ _ _ Ht _ _ H2).
Qed.

(** All sites, each once, in order. *)
Theorem C18_all_sites L : (0 < L)%Z ->
  length (upwards L) = Z.to_nat L /\ (forall i, (i < Z.to_nat L)%nat -> nth i (upwards L) 0%Z = Z.of_nat i) /\
  (forall k, In k (upwards L) <-> (0 <= k < L)%Z) /\ NoDup (upwards L).
Proof.
  intros HL. unfold upwards. split; [rewrite map_length, seq_length; reflexivity|]. split.
  { intros i Hi. apply (nth_map_seq Z.of_nat). exact Hi. }
  split.
  { intros k. rewrite in_map_iff. split.
    - intros (i & <- & Hi). apply in_seq in Hi. lia.
    - intros Hk. exists (Z.to_nat k). split; [lia|]. apply in_seq. lia. }
  apply Injective_map_NoDup; [intros x y; lia|apply seq_NoDup].
Qed.

Theorem C18_rejects_empty L sense : (L <= 0)%Z -> new_sweeper L sense = Abort.
Proof. intros H. unfold new_sweeper. destruct (Z.ltb_spec 0 L); [lia|reflexivity]. Qed.

(** ** The hypotheses are met

    A decomposition routine with the contract exists over the reals and over the complex numbers
    (SvdExist.v); the states and operators below are concrete. *)

Section Cases.
Context {RS : RScal}.
(** unstructured elements 1, 2, 3, ... *)
Definition ct (ds : list nat) : tensor := mk ds (fun is => rinj (INR (fold_left (fun a i => 2 * a + i) is 1))%nat).
Definition copen : mps := [ct [1; 2; 2]; ct [2; 3; 2]; ct [2; 2; 1]]%nat.
Definition cper : mps := [ct [2; 2; 2]; ct [2; 3; 1]; ct [1; 2; 2]]%nat.
Definition cpair : tensor := ct [1; 2; 3; 2]%nat.
Definition cmpo : mpo := [ct [1; 2; 2; 2]; ct [2; 1; 3; 2]; ct [2; 3; 2; 1]]%nat.
Lemma copen_open : open_mps copen. Proof. split; [discriminate|solve_linked]. Qed.
Lemma cper_wf : wf_mps cper. Proof. split; [discriminate|exists 2%nat; split; [lia|solve_linked]]. Qed.
End Cases.

Example C14_C15_C32_svd : (exists svd, @svd_contract RR svd) /\ (exists svd, @svd_contract CC svd).
Proof. split; apply svd_contract_satisfiable. Qed.

Example C14_case_real : open_mps (@copen RR) /\ (2 < length (@copen RR))%nat /\
  exists is, in_range (pdims (@copen RR)) is /\ amp (@copen RR) is <> 0.
Proof.
  split; [apply copen_open|]. split; [cbn; lia|]. exists [0; 0; 0]%nat. split; [repeat constructor|].
  cbn. lra.
Qed.

Example C14_case_complex : wf_mps (@cper CC) /\ exists is, in_range (pdims (@cper CC)) is /\ amp (@cper CC) is <> 0.
Proof.
  split; [apply cper_wf|]. exists [1; 0; 1]%nat. split; [repeat constructor|].
  intros H. apply (f_equal Cre) in H. cbn in H. lra.
Qed.

(** C14_set_canonical: any non-zero tensor that fits. *)
Example C14_case_set : linked 2 (replace_nth 1 (ct [2; 2; 1]%nat) (@cper CC)) 2 /\ linked 1 (replace_nth 2 (ct [2; 3; 1]%nat) (@copen RR)) 1 /\
  get (ct [2; 2; 1]%nat) [0; 0; 0]%nat <> @k0 (@rs_scalar CC) /\ get (ct [2; 3; 1]%nat) [0; 0; 0]%nat <> @k0 (@rs_scalar RR).
Proof.
  split; [cbn [replace_nth cper]; solve_linked|]. split; [cbn [replace_nth copen]; solve_linked|]. split.
  - intros H. apply (f_equal Cre) in H. cbn in H. lra.
  - cbn. lra.
Qed.

(** C15: a two site tensor for the first two sites of the open chain. *)
Example C15_case : dims (@cpair CC) = [1; 2; 3; 2]%nat /\ wf (@cpair CC) /\ linked 1 (firstn 0 (@copen CC)) 1 /\
  linked 2 (skipn 2 (@copen CC)) 1 /\ get (@cpair CC) [0; 1; 2; 1]%nat <> 0.
Proof.
  split; [reflexivity|]. split; [apply wf_mk|]. split; [reflexivity|]. split; [cbn [skipn copen]; solve_linked|].
  intros H. apply (f_equal Cre) in H. cbn in H. lra.
Qed.

(** C16: four singular values; tolerance 0.2 of the total weight 30. *)
Example C16_case : let t := (2 / 10)%R in (0 < t)%R /\ (t < 1)%R /\ ((0 <= 0)%Z \/ False) /\
  tail_weight [4; 3; 2; 1]%R 0 = 30%R /\ tail_weight [4; 3; 2; 1]%R 2 = 5%R.
Proof. cbn. repeat split; try lra. left. lia. Qed.

(** C18 *)
Example C18_case : exists s, new_sweeper 3 (-1) = Ok s /\ sweeper_reachable 3 (-1) (sweeper_flip (snd (sweeper_dec s))).
Proof. eexists. split; [reflexivity|]. apply reach_flip, reach_dec, reach_new. reflexivity. Qed.

Example C32_case : open_mpo (@cmpo RR) /\ open_mps (@copen RR) /\ idims (@cmpo RR) = pdims (@copen RR) /\
  exists is, in_range (odims (@cmpo RR)) is /\ sumcfg (pdims (@copen RR)) (fun js => opelem (@cmpo RR) is js * amp (@copen RR) js) <> 0.
Proof.
  split; [split; [discriminate|]; cbn [cmpo]; do 3 (eexists; eexists; eexists; split; [reflexivity|]; split; [apply wf_mk|]; repeat (split; [lia|])); reflexivity|].
  split; [apply copen_open|]. split; [reflexivity|].
  exists [0; 0; 0]%nat. split; [repeat constructor|]. cbn. lra.
Qed.
