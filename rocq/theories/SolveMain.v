(** * solve() with the one-site algorithm *)
From Coq Require Import Reals Lra Bool List Arith ZArith Lia Ring.
From Verif Require Import Scalar ScalarFacts RScal Tensor TensorFacts Spec MpsModel MpsFacts StateFacts StateFacts2 MpoSpec MpoModel MpoFacts CanonSpec CanonModel
  TruncFacts SplitFacts CanonFacts CanonSweep CanonNorm CanonProps CanonTwo SweepModel SweepFacts FormModel FormSpec LFormFacts QFormFacts SparseFacts QFormInv QFormValue QFormMain
  SimplifySpec SimplifyModel SimplifyFacts SimplifyStep SimplifySweep SimplifyLoop MinimizerModel MinLive MinimizeSpec MinLocal MinStep SolveModel SolveSpec SolveLive SolveAlg SolveStep
  Properties_Canon Properties_Form.
Import ListNotations.
Local Open Scope K_scope.

Section Main.
Context {RS : RScal}.
Add Ring Kring : k_ring.
Variables (H : mpo) (ds : list nat).
Hypothesis HH : hamiltonian H ds.
Notation Hop f := (op_apply ds (opelem H) f).

Lemma inner_H f h : inner ds (Hop f) h = inner ds f (Hop h).
Proof. symmetry. apply adjoint_moves. intros is js Hi Hj. destruct HH as (_ & _ & _ & Hh & _). apply Hh; assumption. Qed.

(** the product of the adjoint of H and H *)
Variable adj : mpo -> mpo.
Hypothesis Hadj : adj = adjoint_d \/ adj = adjoint_z.

Lemma adj_ok : open_mpo (adj H) /\ odims (adj H) = ds /\ idims (adj H) = ds /\
  forall is js, in_range ds is -> in_range ds js -> opelem (adj H) is js = kconj (opelem H js is).
Proof.
  pose proof HH as ((Hn & Hl) & Ho & Hi & Hh & _). destruct Hadj as [->| ->].
  - unfold adjoint_d. split; [split; assumption|]. split; [exact Ho|]. split; [exact Hi|exact Hh].
  - destruct (adjoint_linked 1 H 1 Hl) as (H1 & H2 & H3).
    destruct (adjoint_z_correct H (conj Hn (ex_intro _ 1%nat (conj (le_n 1) Hl)))) as ((Hne & _) & _ & _ & H4).
    split; [split; assumption|]. split; [congruence|]. split; [congruence|]. intros is js His Hjs. apply H4; congruence.
Qed.

Lemma square_ok : exists O, mpo_mmult (adj H) H = Ok O /\ hamiltonian O ds /\
  forall A B, pdims A = ds -> pdims B = ds -> sandwich A O B = inner ds (Hop (amp A)) (Hop (amp B)).
Proof.
  destruct adj_ok as ((An & Al) & Ao & Ai & Ae). pose proof HH as ((Hn & Hl) & Ho & Hi & Hh & Hnz).
  destruct (mmult_correct (adj H) H (conj An (ex_intro _ 1%nat (conj (le_n 1) Al))) (conj Hn (ex_intro _ 1%nat (conj (le_n 1) Hl))) ltac:(congruence))
    as (O & EO & (On & _) & Oo & Oi & Oe).
  rewrite Ao, Ai, Hi in *. exists O. split; [exact EO|].
  assert (Oe' : forall is ks, in_range ds is -> in_range ds ks -> opelem O is ks = sumcfg ds (fun js => kconj (opelem H js is) * opelem H js ks)).
  { intros is ks Hi' Hk. rewrite Oe by assumption. unfold op_mul. apply sumcfg_ext. intros js Hj. rewrite Ae by assumption. reflexivity. }
  split.
  - split; [|split; [exact Oo|split; [exact Oi|split]]].
    + split; [exact On|]. unfold mpo_mmult in EO. destruct (Nat.eqb_spec (length (adj H)) (length H)) as [El|]; [|discriminate].
      apply Ok_inj' in EO. rewrite <- EO. unfold site. rewrite (map_site_combine mmult_site empty empty (adj H) H El).
      destruct (mmult_linked 1 1 (adj H) H 1 1 Al Hl ltac:(congruence)) as (M1 & _). exact M1.
    + intros is ks Hi' Hk. rewrite !Oe' by assumption. rewrite sumcfg_conj. apply sumcfg_ext. intros js Hj. rewrite kconj_mul, kconj_inv. ring.
    + destruct Hnz as (i0 & j0 & Hi0 & Hj0 & Hne). exists j0, j0. split; [exact Hj0|]. split; [exact Hj0|]. rewrite Oe' by assumption.
      intros E. apply Hne. apply (weight_zero ds (fun js => opelem H js j0)); [|exact Hi0]. apply rinj_inj. rewrite rinj_weight, rinj_0. exact E.
  - intros A B HA HB. unfold sandwich. rewrite HA, HB. unfold inner, op_apply.
    transitivity (sumcfg ds (fun is => sumcfg ds (fun ks => sumcfg ds (fun js => kconj (opelem H js is * amp A is) * (opelem H js ks * amp B ks))))).
    + apply sumcfg_ext. intros is Hi'. apply sumcfg_ext. intros ks Hk. rewrite Oe' by assumption. rewrite sumcfg_mul_l, sumcfg_mul_r. apply sumcfg_ext. intros js Hj. rewrite kconj_mul. ring.
    + transitivity (sumcfg ds (fun is => sumcfg ds (fun js => sumcfg ds (fun ks => kconj (opelem H js is * amp A is) * (opelem H js ks * amp B ks))))).
      { apply sumcfg_ext. intros is Hi'. apply sumcfg_swap. }
      rewrite sumcfg_swap. apply sumcfg_ext. intros js Hj. rewrite sumcfg_conj, sumcfg_mul_r. apply sumcfg_ext. intros is Hi'.
      rewrite sumcfg_mul_l. reflexivity.
Qed.

Variable svd : tensor -> tensor * list R * tensor.
Variable flag : R.
Hypothesis Hsvd : svd_contract svd.

(** canonical forms *)
Lemma canon_ok psi : open_mps psi -> pdims psi = ds -> (flag <> 0%R \/ exists is, in_range ds is /\ amp psi is <> 0) -> kept svd flag psi ->
  exists psi', canonical_form svd flag psi (-1) = Ok psi' /\ open_mps psi' /\ pdims psi' = ds /\ length psi' = length psi /\
    canonical_at 0 psi' /\ (forall j, (dim (site psi' j) 0 <= dim (site psi j) 0)%nat) /\ forall is, in_range ds is -> amp psi' is = amp psi is.
Proof.
  intros Ho Hd Hz Hk. assert (Hw : wf_mps psi) by (destruct Ho as (H1 & H2); split; [exact H1|exists 1%nat; auto]).
  assert (Hl : (0 < length psi)%nat) by (destruct psi; [destruct Ho; congruence|cbn; lia]).
  rewrite <- Hd in Hz. destruct (C14_canonical_form svd flag Hsvd psi 0 Hw Hl Hz) as (psi' & E & C1 & C2 & C3 & C4 & C5 & C6 & C7).
  assert (E' : canonical_form svd flag psi (-1) = Ok psi') by (rewrite (proj1 (C14_canonical_form_sense svd flag psi (-1))); exact E).
  assert (Hl' : length psi' = length psi) by (rewrite <- !length_pdims; congruence).
  exists psi'. split; [exact E'|]. split; [apply C2; exact Ho|]. split; [congruence|]. split; [exact Hl'|].
  split; [split; [exact C5|rewrite Hl'; exact C6]|]. split; [exact C4|]. rewrite <- Hd. apply (Hk _ E').
Qed.

Lemma apply_open Q : open_mps Q -> pdims Q = ds -> exists HQ, apply H Q = Ok HQ /\ open_mps HQ /\ pdims HQ = ds /\
  forall is, in_range ds is -> amp HQ is = Hop (amp Q) is.
Proof.
  intros (Qn & Ql) Qd. pose proof HH as ((Hn & Hl) & Ho & Hi & Hh & Hnz).
  destruct (apply_correct H Q (conj Hn (ex_intro _ 1%nat (conj (le_n 1) Hl))) (conj Qn (ex_intro _ 1%nat (conj (le_n 1) Ql))) ltac:(congruence))
    as (HQ & E & (HQn & D & HD & HDl) & Hd & Hlb & Ha).
  exists HQ. split; [exact E|].
  rewrite (linked_left_bond _ _ _ HQn HDl), (mlinked_left _ _ _ Hn Hl), (linked_left_bond _ _ _ Qn Ql) in Hlb. cbn in Hlb. subst D.
  split; [split; assumption|]. split; [congruence|]. rewrite Ho, Qd in Ha. exact Ha.
Qed.

Definition gH (P : mps) : R := weight ds (Hop (amp P)).
Variables (lsolve : tensor -> tensor -> tensor) (cgs : (tensor -> result tensor) -> tensor -> tensor -> nat -> R -> result tensor).

Lemma inner_ext f f' h h' : (forall is, in_range ds is -> f is = f' is) -> (forall is, in_range ds is -> h is = h' is) -> inner ds f h = inner ds f' h'.
Proof. intros H1 H2. unfold inner. apply sumcfg_ext. intros is Hi. rewrite H1, H2 by exact Hi. reflexivity. Qed.
Lemma op_ext (f f' : list nat -> K) is : (forall js, in_range ds js -> f js = f' js) -> Hop f is = Hop f' is.
Proof. intros H1. unfold op_apply. apply sumcfg_ext. intros js Hj. rewrite H1 by exact Hj. reflexivity. Qed.

(** the end of do_solve *)
Definition finish (normalize : bool) (x : sweeper * mps * R) : result (mps * Z * R) :=
  let '(s, P, err) := x in
  if normalize then
    bind (site_at P (sweeper_site s)) (fun t =>
      let n := norm2_tensor t in
      if Req_EM_T n 0 then Abort else
      Ok (replace_nth (Z.to_nat (sweeper_site s)) (tscale (rinj (/ n)%R) t) P, (- sweeper_sense s)%Z, err))
  else Ok (P, (- sweeper_sense s)%Z, err).

Lemma solve_setup P Q sense n0 : valid_solve svd flag H P Q ds n0 ->
  let d := (sense <? 0)%Z in
  exists P0 HQ O b s lf qf, starts_with svd flag P Q P0 /\ (Nat.eqb (length P) 0 = true -> (forall is, in_range ds is -> amp P0 is = amp Q is) /\ forall j, (dim (site P0 j) 0 <= dim (site Q j) 0)%nat) /\
    hamiltonian O ds /\ path O b /\ good_bras [1] [HQ] ds /\
    (forall P, open_mps P -> pdims P = ds -> rinj (gH P) = sandwich P O P) /\
    (forall P, open_mps P -> pdims P = ds -> gH P = 0%R -> overlap [1] [HQ] P = 0 /\ forall P', open_mps P' -> pdims P' = ds -> sandwich P' O P = 0) /\
    (forall P, pdims P = ds -> overlap [1] [HQ] P = inner ds (amp Q) (Hop (amp P))) /\
    (forall P, pdims P = ds -> Rplus (Fn [1] [HQ] gH P) (weight ds (amp Q)) = residual H ds (amp Q) (amp P)) /\
    open_mps P0 /\ pdims P0 = ds /\
    At [1] [HQ] ds (last_of (negb d) (length P0)) P0 lf /\ QAt O ds b (last_of (negb d) (length P0)) P0 qf /\
    sw d (length P0) (last_of (negb d) (length P0)) s /\ nz [1] [HQ] flag P0 /\
    forall algorithm tolerance solvetol sweeps normalize Dmax tol, sweeps <> 0%nat ->
      solve svd flag lsolve cgs adj algorithm tolerance solvetol H P Q sense sweeps normalize Dmax tol =
      bind (solve_loop svd flag lsolve cgs algorithm Dmax (if Rle_dec tol 0 then solvetol else tol) tolerance (weight ds (amp Q)) sweeps s P0 lf qf 0) (finish normalize).
Proof.
  intros (_ & Qo & Qd & HP & _ & Hw & HkQ & HkH & Hnz) d.
  assert (Hw0 : (0 < 1 / 10 ^ 16)%R).
  { apply Rmult_lt_0_compat; [exact Rlt_0_1|]. apply Rinv_0_lt_compat. apply pow_lt. clear. lra. }
  assert (HQnz : exists is, in_range ds is /\ amp Q is <> 0).
  { assert (Hne : inner ds (amp Q) (amp Q) <> 0) by (rewrite <- rinj_weight, <- rinj_0; intros E; apply rinj_inj in E; lra).
    unfold inner in Hne. assert (Hgen : forall ns (F : list nat -> K), sumcfg ns F <> 0 -> exists x, in_range ns x /\ F x <> 0).
    { clear. induction ns as [|n ns IH]; intros F Hne.
      - exists []. split; [constructor|exact Hne].
      - cbn in Hne. apply sum_nonzero in Hne. destruct Hne as (i & Hi & Hne). destruct (IH _ Hne) as (x & Hx & Hn). exists (i :: x). split; [constructor; assumption|exact Hn]. }
    destruct (Hgen _ _ Hne) as (x & Hx & Hn). exists x. split; [exact Hx|]. intros E. apply Hn. rewrite E. ring. }
  destruct (canon_ok Q Qo Qd (or_intror HQnz) HkQ) as (Q' & EQ' & Qo' & Qd' & Ql' & Qc' & Qb' & Qa').
  destruct (apply_open Q' Qo' Qd') as (HQ0 & EH & Ho0 & Hd0 & Ha0).
  assert (Ha1 : forall is, in_range ds is -> amp HQ0 is = Hop (amp Q) is).
  { intros is Hi. rewrite Ha0 by exact Hi. apply op_ext. exact Qa'. }
  set (Pst := if Nat.eqb (length P) 0 then Q else P) in *.
  assert (HHnz : flag <> 0%R \/ exists is, in_range ds is /\ amp HQ0 is <> 0).
  { destruct Hnz as [Hnz|Hnz]; [left; exact Hnz|right].
    assert (Hgen : forall ns (F : list nat -> K), sumcfg ns F <> 0 -> exists x, in_range ns x /\ F x <> 0).
    { clear. induction ns as [|n ns IH]; intros F Hne.
      - exists []. split; [constructor|exact Hne].
      - cbn in Hne. apply sum_nonzero in Hne. destruct Hne as (i & Hi & Hne). destruct (IH _ Hne) as (x & Hx & Hn). exists (i :: x). split; [constructor; assumption|exact Hn]. }
    destruct (Hgen _ _ Hnz) as (x & Hx & Hn). exists x. split; [exact Hx|]. rewrite Ha1 by exact Hx. intros E. apply Hn. rewrite E, kconj_0. ring. }
  destruct (canon_ok HQ0 Ho0 Hd0 HHnz (HkH _ _ EQ' EH)) as (HQ & EHQ & Ho1 & Hd1 & Hl1 & Hc1 & _ & Ha2).
  assert (HaH : forall is, in_range ds is -> amp HQ is = Hop (amp Q) is).
  { intros is Hi. rewrite Ha2 by exact Hi. apply Ha1. exact Hi. }
  destruct square_ok as (O & EO & HO & HS). pose proof HO as (HOo & HOd & HOi & _ & (i0 & j0 & Hi0 & Hj0 & Hnz0)).
  rewrite <- HOd in Hi0. rewrite <- HOi in Hj0. destruct (path_exists O HOo (H_sq O ds HO) i0 j0 Hi0 Hj0 Hnz0) as (b & Hb).
  set (P0 := if Nat.eqb (length P) 0 then Q' else P).
  assert (HP0 : open_mps P0 /\ pdims P0 = ds).
  { unfold P0. destruct (Nat.eqb_spec (length P) 0); [auto|]. destruct HP as [->|HP]; [cbn in *; congruence|exact HP]. }
  destruct HP0 as (Po & Pd).
  assert (Hgb : good_bras [1] [HQ] ds) by (split; [discriminate|]; split; [reflexivity|]; intros x [<-|[]]; auto).
  assert (Hov : forall P, pdims P = ds -> overlap [1] [HQ] P = inner ds (amp Q) (Hop (amp P))).
  { intros P1 HP1. unfold overlap. cbn [length sum nth]. rewrite HP1, kconj_1. rewrite (inner_ext (amp HQ) (Hop (amp Q)) (amp P1) (amp P1) HaH (fun _ _ => eq_refl)), inner_H. ring. }
  set (L := length P0). assert (HL0 : (0 < L)%nat) by (unfold L; destruct P0; [destruct Po; congruence|cbn; lia]).
  set (st := last_of (negb d) L). assert (Hst : (st < L)%nat) by (unfold st, last_of; destruct (negb d); lia).
  assert (Ens : exists s, new_sweeper (Z.of_nat L) (- sense) = Ok s /\ sw d L st s).
  { unfold new_sweeper. destruct (Z.ltb_spec 0 (Z.of_nat L)); [|lia]. unfold sw, st, d, last_of.
    destruct (Z.ltb_spec 0 (- sense)), (Z.ltb_spec sense 0); try lia; eexists; (split; [reflexivity|]); cbn [sk sk0 skN sdk negb sgn]; lia. }
  destruct Ens as (s & Es & Hs).
  assert (Elds : L = length ds) by (unfold L; rewrite <- Pd; symmetry; apply length_pdims).
  destruct (proj1 (C44_constructor [1] [HQ] P0 ds (Z.of_nat st) Hgb)) as (lf & Elf); [lia|].
  assert (ElO : length O = L) by (rewrite <- HOd in Elds; rewrite Elds; symmetry; apply length_odims).
  destruct (proj1 (C45_constructor O P0 P0 (Z.of_nat st) HOo Po Po) ltac:(lia)) as (qf & Eqf).
  exists P0, HQ, O, b, s, lf, qf.
  split. { unfold starts_with, P0. destruct (Nat.eqb (length P) 0); [exact EQ'|reflexivity]. }
  split. { unfold P0. intros ->. split; [exact Qa'|exact Qb']. }
  split; [exact HO|]. split; [exact Hb|]. split; [exact Hgb|].
  split. { intros P1 O1 D1. unfold gH. rewrite rinj_weight. symmetry. apply HS; assumption. }
  split.
  { intros P1 O1 D1 Hz. unfold gH in Hz. pose proof (weight_zero _ _ Hz) as Hz'. split.
    - rewrite Hov by exact D1. transitivity (inner ds (amp Q) (fun _ => 0)); [apply inner_ext; [reflexivity|exact Hz']|]. unfold inner. apply sumcfg_zero. intros. ring.
    - intros P2 O2 D2. rewrite HS by assumption. transitivity (inner ds (Hop (amp P2)) (fun _ => 0)); [apply inner_ext; [reflexivity|exact Hz']|]. unfold inner. apply sumcfg_zero. intros. ring. }
  split; [exact Hov|].
  split.
  { intros P1 D1. unfold Fn, gH, residual. apply rinj_inj. rewrite dist2_expand, Hov by exact D1.
    replace (weight ds (Hop (amp P1)) - 2 * kre (inner ds (amp Q) (Hop (amp P1))) + weight ds (amp Q))%R
      with (weight ds (Hop (amp P1)) + (- (2 * kre (inner ds (amp Q) (Hop (amp P1)))) + weight ds (amp Q)))%R by ring.
    rewrite !rinj_add, rinj_opp, twice_re, !rinj_weight, !inner_conj. ring. }
  split; [exact Po|]. split; [exact Pd|].
  split. { split; [exact Po|]. split; [exact Pd|]. split; [exact Hst|]. apply lfh_new; assumption. }
  split.
  { split; [exact Po|]. split; [exact Pd|]. split; [exact Hst|]. split; [apply (qfh_new O P0 P0); try assumption; congruence|].
    apply (live_new_at O HOo (H_sq O ds HO) b Hb P0 P0 st); try assumption; congruence. }
  split; [exact Hs|].
  split.
  { destruct Hnz as [Hnz|Hnz]; [left; exact Hnz|right]. rewrite Hov by exact Pd. rewrite <- inner_H.
    unfold P0. unfold Pst in Hnz. destruct (Nat.eqb (length P) 0); [|exact Hnz].
    rewrite (inner_ext (Hop (amp Q)) (Hop (amp Q)) (amp Q') (amp Q) (fun _ _ => eq_refl) Qa'). exact Hnz. }
  intros algorithm tolerance solvetol sweeps normalize Dmax tol Hsw. unfold solve. cbv zeta. rewrite EQ'. cbn [bind]. fold P0.
  destruct (Nat.eqb_spec sweeps 0) as [|_]; [contradiction|].
  change (site_at Q' 0) with (site_at Q' (Z.of_nat 0)). rewrite site_at_nat by (destruct Q'; [destruct Qo'; congruence|cbn; lia]). cbn [bind].
  rewrite tensor_scprod_self, kabs_rinj by apply frob2_nonneg.
  assert (EW : frob2 (site Q' 0) = weight ds (amp Q)).
  { rewrite <- (canon_weight H ds HH 0 Q' Qo' Qd' ltac:(destruct Q'; [destruct Qo'; congruence|cbn; lia]) Qc'). unfold weight. f_equal. apply inner_ext; exact Qa'. }
  rewrite EW. unfold Rltb. destruct (Rlt_dec (weight ds (amp Q)) (1 / 10 ^ 16)); [lra|].
  fold L. rewrite Es. cbn [bind]. rewrite EH. cbn [bind]. rewrite EHQ. cbn [bind].
  replace (sweeper_site s) with (Z.of_nat st) by (symmetry; apply Hs). unfold lform_new1. rewrite Elf. cbn [bind]. rewrite EO. cbn [bind]. rewrite Eqf. cbn [bind].
  destruct (solve_loop _ _ _ _ _ _ _ _ _ _ _ _ _ _ _) as [[[s2 P2] e2]|]; reflexivity.
Qed.
End Main.
