(** * C14, periodic states: what normal_form divides by *)
From Coq Require Import Reals Lra Bool List Arith ZArith Lia Ring.
From Verif Require Import Scalar ScalarFacts RScal RealInst Tensor TensorFacts Spec MpsModel MpsFacts
  CanonSpec CanonModel TruncFacts SplitFacts CanonFacts CanonSweep CanonNorm CanonProps CanonPeriodic Properties_Canon SvdExist.
Import ListNotations.
Local Open Scope K_scope.

Section Properties.
Context {RS : RScal}.
Add Ring Kring : k_ring.
Variable svd : tensor -> tensor * list R * tensor.
Variable flag : R.
Hypothesis Hsvd : svd_contract svd.

(** The squared weight of the opened chain: the sum of the squared moduli of the matrices whose traces are the
    amplitudes. *)
Definition opened_weight (psi : mps) : K :=
  sumcfg (pdims psi) (fun is => sum (left_bond psi) (fun a => sum (left_bond psi) (fun b =>
    kconj (chain psi is a b) * chain psi is a b))).

(** normal_form divides a state, periodic or not, by the square root of that weight. *)
Theorem C14_normal_form_weight psi s : wf_mps psi -> (s < length psi)%nat -> (flag = 0%R \/ (1 <= flag)%R) ->
  (exists is, in_range (pdims psi) is /\ amp psi is <> 0) ->
  exists psi' n, normal_form_at svd flag psi (Z.of_nat s) = Ok psi' /\ (0 < n)%R /\ wf_mps psi' /\
    pdims psi' = pdims psi /\ rinj (n * n)%R = opened_weight psi /\
    forall is, in_range (pdims psi) is -> rinj n * amp psi' is = amp psi is.
Proof.
  intros (Hne & D & HD & HL) Hs He Hz. pose proof (okflag_amp flag psi D Hne HL (or_intror Hz)) as Hok.
  assert (Hb : left_bond psi = D) by (apply (linked_left_bond D psi D); assumption).
  destruct (normal_form_weight svd flag Hsvd psi D s Hne HD HL Hs) as (psi' & n & E & Hn & A & B & C & W & F).
  - destruct He as [He|He]; [left|right]; auto.
  - destruct Hz as (is & Hi & Ha). exact (nonzero_amp D psi is Hb Hi Ha).
  - exact Hok.
  - exists psi', n. split; [exact E|]. split; [exact Hn|]. split; [split; [exact A|exists D; auto]|].
    split; [exact C|]. split; [|exact F]. rewrite W. unfold opened_weight. rewrite Hb. reflexivity.
Qed.

End Properties.

(** ** The result is not a unit vector for periodic states *)
(** Three sites of dimension two and bond two, all matrices the identity: the amplitudes are all 2. *)
Definition per_id {SC : Scalar} : tensor :=
  mk [2; 2; 2]%nat (fun is => match is with [a; _; b] => delta a b | _ => 0 end).
Definition per_psi {SC : Scalar} : mps := [per_id; per_id; per_id].

Lemma per_wf {SC : Scalar} : wf_mps per_psi.
Proof.
  split; [discriminate|]. exists 2%nat. split; [lia|].
  assert (H : forall q r, linked 2 q r -> linked 2 (per_id :: q) r).
  { intros q r Hq. exists 2%nat, 2%nat. split; [reflexivity|]. split; [apply wf_mk|]. split; [lia|]. split; [lia|exact Hq]. }
  apply H, H, H. reflexivity.
Qed.

Section Per.
Context {SC : Scalar}.
Add Ring Kring2 : k_ring.

Lemma per_chain q is a b : (forall A, In A q -> A = per_id) -> in_range (pdims q) is -> (a < 2)%nat ->
  chain q is a b = delta a b.
Proof.
  revert is a. induction q as [|A q IH]; intros is a Hq Hi Ha; cbn [pdims map] in Hi.
  - apply in_range_nil_inv in Hi. subst is. reflexivity.
  - destruct (in_range_cons_inv _ _ _ Hi) as (i & is' & -> & Hi1 & Hi2). cbn [chain].
    rewrite (Hq A (or_introl eq_refl)) in *. change (dim per_id 2) with 2%nat. change (dim per_id 1) with 2%nat in Hi1.
    rewrite (sum_ext 2 _ (fun c => delta a c * delta c b)).
    + rewrite (sum_delta_l' 2 a (fun c => delta c b)) by exact Ha. reflexivity.
    + intros c Hc. rewrite IH by (auto; intros; apply Hq; right; assumption). unfold per_id.
      rewrite get_mk by (apply in_range_3; assumption). reflexivity.
Qed.

Lemma per_in A : In A per_psi -> A = per_id.
Proof. intros [<-|[<-|[<-|[]]]]; reflexivity. Qed.
End Per.

Theorem C14_normal_form_periodic_refuted : exists psi : @mps RScalar,
  wf_mps psi /\ (forall is, in_range (pdims psi) is -> @eq R (amp psi is) 2%R) /\
  forall svd flag s, @svd_contract RR svd -> (flag = 0%R \/ (1 <= flag)%R) -> (s < length psi)%nat ->
  exists psi', @normal_form_at RR svd flag psi (Z.of_nat s) = Ok psi' /\
    @eq R (@inner RScalar (pdims psi') (amp psi') (amp psi')) 2%R.
Proof.
  exists (@per_psi RScalar).
  assert (Ha : forall is, in_range (pdims (@per_psi RScalar)) is -> @eq R (@amp RScalar per_psi is) 2%R).
  { intros is Hi. unfold amp. change (left_bond per_psi) with 2%nat. cbn [sum].
    rewrite !(per_chain per_psi) by (auto using per_in). cbn. ring. }
  split; [exact per_wf|]. split; [exact Ha|]. intros svd flag s Hsvd Hf Hs.
  destruct (@C14_normal_form_weight RR svd flag Hsvd per_psi s per_wf Hs Hf) as (psi' & n & E & Hn & Hw & Hp & W & F).
  - exists [0;0;0]%nat. assert (Hi : in_range (pdims (@per_psi RScalar)) [0;0;0]%nat) by (change (in_range [2;2;2]%nat [0;0;0]%nat); apply in_range_3; lia).
    split; [exact Hi|]. intros H. pose proof (Ha _ Hi) as H2.
    assert (H3 : (2 = 0)%R) by (rewrite <- H2; exact H). lra.
  - exists psi'. split; [exact E|].
    assert (Hnn : (n * n = 16)%R).
    { transitivity (@opened_weight RR per_psi); [exact W|]. unfold opened_weight.
      change (left_bond per_psi) with 2%nat.
      transitivity (@sumcfg RScalar (pdims (@per_psi RScalar)) (fun _ => 2%R)).
      - apply (@sumcfg_ext RScalar). intros is Hi.
        transitivity (@sum RScalar 2 (fun a => @sum RScalar 2 (fun b => (@delta RScalar a b * @delta RScalar a b)%R))).
        + apply (@sum_ext RScalar). intros a Ha'. apply (@sum_ext RScalar). intros b Hb.
          change (@rs_scalar RR) with RScalar. rewrite (@per_chain RScalar per_psi is a b (fun A => @per_in RScalar A) Hi Ha'). reflexivity.
        + cbn. ring.
      - cbn. ring. }
    rewrite Hp. unfold inner.
    transitivity (@sumcfg RScalar (pdims (@per_psi RScalar)) (fun _ => (/ 4)%R)).
    + apply (@sumcfg_ext RScalar). intros is Hi.
      assert (Ep : @eq R (amp psi' is) (2 / n)%R).
      { pose proof (F is Hi) as E1. assert (E2 : (n * amp psi' is = 2)%R) by (rewrite <- (Ha is Hi); exact E1).
        apply (Rmult_eq_reg_l n); [|lra]. rewrite E2. field. lra. }
      rewrite Ep. change ((2 / n) * (2 / n) = / 4)%R. transitivity (4 / (n * n))%R; [field; lra|]. rewrite Hnn. field.
    + cbn. field.
Qed.

(** Such a decomposition exists, so that the theorem is not void. *)
Example C14_normal_form_periodic_case : exists svd, @svd_contract RR svd.
Proof. exact (@svd_contract_satisfiable RR). Qed.

Print Assumptions C14_normal_form_weight.
Print Assumptions C14_normal_form_periodic_refuted.
