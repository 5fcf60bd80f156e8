(** normal_form of periodic states *)
From Coq Require Import Reals Lra Bool List Arith ZArith Lia Ring.
From Verif Require Import Scalar ScalarFacts RScal Tensor TensorFacts Spec MpsModel MpsFacts EnvFacts ExpectedFacts
  StateFacts StateFacts2 CanonSpec CanonModel TruncFacts SplitFacts CanonFacts CanonSweep CanonNorm CanonProps.
Import ListNotations.
Local Open Scope K_scope.

Section Facts.
Context {RS : RScal}.
Add Ring Kring : k_ring.

Lemma center_weight p A q D m d c : linked D p m -> dims A = [m; d; c] -> wf A -> (0 < d)%nat -> (0 < c)%nat ->
  linked c q D ->
  (forall j, (j < length p)%nat -> left_isometry (site p j)) ->
  (forall j, (j < length q)%nat -> right_isometry (site q j)) ->
  sumcfg (pdims (p ++ A :: q)) (fun is => sum D (fun a => sum D (fun b =>
    kconj (chain (p ++ A :: q) is a b) * chain (p ++ A :: q) is a b))) = rinj (frob2 A).
Proof.
  intros Hp HA HwA Hd Hc Hq HIp HIq. rewrite pdims_app. cbn [pdims map]. fold (pdims q).
  replace (dim A 1) with d by (unfold dim; rewrite HA; reflexivity).
  rewrite sumcfg_app. cbn [sumcfg].
  transitivity (sum d (fun i => sum m (fun x => sum c (fun y => kconj (get A [x; i; y]) * get A [x; i; y]))));
    [|rewrite (frob2_3 A m d c HA HwA); rewrite sum_swap; reflexivity].
  rewrite sumcfg_sum_swap. apply sum_ext. intros i Hi.
  pose (SI := fun f : list nat * nat -> K => sumcfg (pdims p) (fun is => sum D (fun a => f (is, a)))).
  pose (SJ := fun f : list nat * nat -> K => sumcfg (pdims q) (fun is => sum D (fun a => f (is, a)))).
  rewrite <- (sandwich SI SJ m c (fun ia x => chain p (fst ia) (snd ia) x)
       (fun x y => get A [x; i; y]) (fun jb y => chain q (fst jb) y (snd jb))).
  - unfold SI, SJ. cbn [fst snd]. apply sumcfg_ext. intros is1 H1. rewrite sumcfg_sum_swap.
    apply sum_ext. intros a Ha. apply sumcfg_ext. intros is2 H2. apply sum_ext. intros b Hb.
    rewrite (sum_chain3 p A q D m d c D is1 i is2 a b) by
        (try assumption; try lia; rewrite <- (length_pdims p); apply in_range_length; exact H1).
    reflexivity.
  - intros f g H. apply sumcfg_ext. intros is _. apply sum_ext. intros a _. apply H.
  - intros f g H. apply sumcfg_ext. intros is _. apply sum_ext. intros a _. apply H.
  - intros k f. unfold SI. rewrite <- sumcfg_sum_swap. apply sumcfg_ext. intros is _. apply sum_swap.
  - intros k f. unfold SJ. rewrite <- sumcfg_sum_swap. apply sumcfg_ext. intros is _. apply sum_swap.
  - intros e f. unfold SI. rewrite sumcfg_mul_l. apply sumcfg_ext. intros is _. symmetry. apply sum_mul_l.
  - intros e f. unfold SJ. rewrite sumcfg_mul_l. apply sumcfg_ext. intros is _. symmetry. apply sum_mul_l.
  - intros x y Hx Hy. exact (left_iso_gram p D m Hp HIp x y Hx Hy).
  - intros x y Hx Hy. exact (right_iso_gram q c D Hq Hc HIq x y Hx Hy).
Qed.

Lemma canonical_weight psi D s : linked D psi D -> (s < length psi)%nat ->
  (forall j, (j < s)%nat -> left_isometry (site psi j)) ->
  (forall j, (s < j < length psi)%nat -> right_isometry (site psi j)) ->
  sumcfg (pdims psi) (fun is => sum D (fun a => sum D (fun b => kconj (chain psi is a b) * chain psi is a b)))
  = rinj (frob2 (site psi s)).
Proof.
  intros HL Hs HI HR.
  destruct (linked_split1 D psi D s HL Hs) as (m & d & c & H1 & H2 & H3 & H4 & H5 & H6).
  rewrite <- (center_weight (firstn s psi) (site psi s) (skipn (S s) psi) D m d c); auto.
  - unfold site. rewrite <- (list_split_nth s psi empty Hs). reflexivity.
  - intros j Hj. rewrite firstn_length in Hj. unfold site. rewrite nth_firstn_lt by lia. apply HI. lia.
  - intros j Hj. rewrite skipn_length in Hj. unfold site. rewrite nth_skipn_add. apply HR. lia.
Qed.

Variable svd : tensor -> tensor * list R * tensor.
Variable flag : R.
Hypothesis Hsvd : svd_contract svd.

Lemma normal_form_weight psi D s : psi <> [] -> (0 < D)%nat -> linked D psi D -> (s < length psi)%nat ->
  exact flag true -> nonzero_chain D psi -> okflag flag D psi ->
  exists psi' n, normal_form_at svd flag psi (Z.of_nat s) = Ok psi' /\ (0 < n)%R /\
     psi' <> [] /\ linked D psi' D /\ pdims psi' = pdims psi /\
     rinj (n * n)%R = sumcfg (pdims psi) (fun is => sum D (fun a => sum D (fun b =>
        kconj (chain psi is a b) * chain psi is a b))) /\
     forall is, in_range (pdims psi) is -> rinj n * amp psi' is = amp psi is.
Proof.
  intros Hne HD HL Hs He Hnz Hf.
  destruct (canonical_form_at_ok svd flag Hsvd D D psi s HL ltac:(lia) Hf Hs) as (psi1 & E & HS & HI & HR).
  pose proof HS as (S1 & S2 & S3 & S4 & S5). pose proof (same_length _ _ S2) as Hlen.
  assert (Hne1 : psi1 <> []) by (intros ->; cbn in Hlen; lia).
  assert (Hnf : normal_form_at svd flag psi (Z.of_nat s) =
    let t := site psi1 s in if Req_EM_T (norm2_tensor t) 0 then Abort
      else Ok (replace_nth s (tscale (rinj (/ norm2_tensor t)%R) t) psi1)).
  { unfold normal_form_at. rewrite E. cbn [bind].
    replace (Z.max 0 (Z.of_nat s)) with (Z.of_nat s) by lia.
    rewrite site_at_nat by lia. cbn [bind]. rewrite Nat2Z.id. reflexivity. }
  pose proof (canonical_weight psi1 D s S1 ltac:(lia) HI ltac:(rewrite Hlen; exact HR)) as Hnorm.
  set (n := norm2_tensor (site psi1 s)) in *.
  assert (Hn : n <> 0%R).
  { intros En. assert (Hz : frob2 (site psi1 s) = 0%R) by (rewrite <- norm2_sq; fold n; rewrite En; ring).
    pose proof (frob2_zero _ Hz) as Hz'.
    pose proof (nonzero_same D psi psi1 S2 (S4 He) Hnz) as (is & a & b & Hi & Ha & Hc). apply Hc.
    destruct (linked_split1 D psi1 D s S1) as (m & d & c & H1 & H2 & H3 & H4 & H5 & H6); [lia|].
    rewrite (list_split_nth s psi1 empty) by lia.
    apply (chain_zero_tensor _ _ _ D m d c D); auto.
    - intros x i y _ _ _. unfold get. apply Hz'.
    - unfold site in *. rewrite <- (list_split_nth s psi1 empty) by lia. exact Hi. }
  rewrite Hnf. cbv zeta. fold n. destruct (Req_EM_T n 0) as [En|En]; [contradiction|].
  eexists. exists n. split; [reflexivity|].
  assert (Hnn : (0 <= n)%R) by apply sqrt_pos.
  split; [lra|].
  assert (Hl' : length (replace_nth s (tscale (rinj (/ n)%R) (site psi1 s)) psi1) = length psi1) by apply length_replace_nth.
  assert (Lk : linked D (replace_nth s (tscale (rinj (/ n)%R) (site psi1 s)) psi1) D) by (apply linked_tscale; [exact S1|lia]).
  assert (Hne2 : replace_nth s (tscale (rinj (/ n)%R) (site psi1 s)) psi1 <> [])
    by (intros E0; rewrite E0 in Hl'; cbn in Hl'; lia).
  split; [exact Hne2|]. split; [exact Lk|]. split; [rewrite pdims_tscale; exact S2|]. split.
  - unfold n. rewrite norm2_sq. rewrite <- Hnorm, S2. apply sumcfg_ext. intros is Hi. apply sum_ext. intros a Ha.
    apply sum_ext. intros b Hb. rewrite (S4 He is a b Hi Ha). reflexivity.
  - intros is His. rewrite <- (same_chain_amp D psi psi1 D D is HL S1 Hne Hne1 (S4 He) His). unfold amp.
    rewrite (linked_left_bond D _ D) by assumption. rewrite (linked_left_bond D psi1 D) by assumption.
    rewrite sum_mul_l. apply sum_ext. intros a Ha.
    rewrite (chain_tscale psi1 D D) by (try assumption; try lia; rewrite S2; assumption).
    transitivity (rinj (n * / n)%R * chain psi1 is a a).
    + rewrite rinj_mul. ring.
    + rewrite Rinv_r by exact En. rewrite rinj_1. ring.
Qed.

End Facts.
