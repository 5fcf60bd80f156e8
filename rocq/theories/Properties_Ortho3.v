(** * C50: minimize() with a state to be orthogonal to, two-site algorithm *)
From Coq Require Import Reals Lra Bool List Arith ZArith Lia Ring.
From Verif Require Import Scalar ScalarFacts RScal Tensor TensorFacts Spec MpsModel MpsFacts StateFacts StateFacts2 MpoSpec MpoFacts CanonSpec CanonModel
  CanonFacts CanonSweep CanonTwo FormModel FormSpec LFormFacts QFormFacts SimplifySpec SimplifyModel SimplifyFacts SimplifyStep SimplifyDouble SimplifyLoop MinimizerModel MinLive MinimizeSpec MinLocal MinStep MinSweep MinLoop
  QFormValue QFormMain MinOrtho MinOrthoRun MinConstrained MinConstrainedRun MinBoth MinBothRun ConstraintSpec Properties_Canon Properties_Form Properties_Minimize Properties_Constraint Properties_Ortho
  SvdExist EigsExist RealInst Witness SparseFacts.
Import ListNotations.
Local Open Scope K_scope.

Section Start.
Context {RS : RScal}.
Add Ring Kring : k_ring.
Variable svd : tensor -> tensor * list R * tensor.
Variable flag : R.
Hypothesis Hsvd : svd_contract svd.
Variable eigs : (tensor -> result tensor) -> nat -> nat -> tensor -> result (list K * tensor * bool).
Hypothesis Heigs : eigs_contract eigs.

Lemma both_starts H N psi ds o value phi : valid_constrained flag H N psi ds o -> open_mps phi -> pdims phi = ds ->
  exists b bN m, path H b /\ path N bN /\ minimize_with svd flag eigs H psi o N value (Some [phi]) = full_sweep svd flag eigs o m /\
    readyb H N ds b bN value phi (length psi) true m.
Proof.
  intros HV Hop Hpp. pose proof HV as (HH & HN & Ho & Hpd & HL & HD & Hg & Hz).
  destruct (minimizer_starts svd flag Hsvd eigs H psi ds o (valid_plain flag eigs _ _ _ _ _ HV)) as (P0 & b & m & E0 & Hb & ((HQ & Hc & Hort & HNn) & Hst & HLm & Hcv) & Ep & Hl & Hl0 & _ & _ & _ & _ & _).
  pose proof HN as (HOp & Hod & Hid & Hher & is & js & Hi & Hj & Hne).
  destruct (path_exists N HOp ltac:(congruence) is js ltac:(congruence) ltac:(congruence) Hne) as (bN & HbN).
  rewrite Ep in *. pose proof HQ as (HoP & HpP & Hk & _).
  assert (HlN : length N = length P0) by (rewrite <- length_odims, Hod, <- HpP; apply length_pdims).
  destruct (proj1 (C45_constructor N P0 P0 0 HOp HoP HoP) ltac:(lia)) as (fN & EfN).
  assert (Hgb : good_bras [1] [phi] ds) by (split; [discriminate|]; split; [reflexivity|]; intros c [<-|[]]; split; assumption).
  assert (Ef : exists f, lform_new1 phi P0 0 = Ok f).
  { unfold lform_new1. apply (proj1 (C44_constructor [1] [phi] P0 ds 0 Hgb)). rewrite <- HpP, length_pdims. lia. }
  destruct Ef as (f & Ef).
  exists b, bN, (mkMin P0 (mz_H m) (Some fN) value [f] (mz_step m) (mz_converged m)). split; [exact Hb|]. split; [exact HbN|]. split.
  - unfold minimize_with. rewrite E0. cbn [bind]. unfold add_constraint. rewrite Ep, EfN. cbn [bind]. unfold add_states. cbn [fold_left bind mz_psi mz_H mz_N mz_value mz_ortho mz_step mz_converged].
    rewrite Ef. cbn [bind]. rewrite Hort. reflexivity.
  - split; [|split; [exact Hst|split; [exact Hl|exact Hcv]]]. rewrite <- Hl. cbn [start].
    split; [exact HQ|]. split; [exact Hc|]. split.
    { exists f. split; [reflexivity|]. split; [exact HoP|]. split; [exact HpP|]. split; [exact Hk|]. unfold lform_new1 in Ef. change 0%Z with (Z.of_nat 0) in Ef. exact (lfh_new [1] [phi] ds P0 0%nat f HoP HpP Ef). }
    split; [reflexivity|]. exists fN. split; [reflexivity|].
    split; [exact HoP|]. split; [exact HpP|]. split; [exact Hk|]. cbn [mz_psi]. split.
    + exact (qfh_new N P0 P0 0 fN HoP HoP ltac:(congruence) ltac:(congruence) EfN).
    + apply (live_new N HOp ltac:(congruence) bN HbN P0 P0 fN HoP HoP); congruence.
Qed.

Lemma both_run H N psi ds o value phi : valid_constrained flag H N psi ds o -> (0 < o_sweeps o)%Z -> open_mps phi -> pdims phi = ds ->
  (minimize_with svd flag eigs H psi o N value (Some [phi]) = Abort /\ lost ds phi) \/
  exists b bN psi' E, minimize_with svd flag eigs H psi o N value (Some [phi]) = Ok (psi', E) /\
    (psi' <> [] -> exists d m, psi' = mz_psi m /\ postb flag H N ds b bN value phi o (length psi) d m E) /\
    (length psi = 2%nat -> eigs_converges eigs -> (forall P, open_mps P -> pdims P = ds -> exists r, (r < npair 0 P)%nat /\ admissible N value (emb2 0 P (delta r))) -> psi' <> []).
Proof.
  intros HV Hs Hop Hpp. pose proof HV as (HH & HN & Ho & Hpd & HL & HD & Hg & Hz). destruct (both_starts H N psi ds o value phi HV Hop Hpp) as (b & bN & m & Hb & HbN & E0 & HR).
  rewrite E0. destruct (bfull svd flag Hsvd eigs Heigs H N ds HH HN b bN Hb HbN value phi (conj Hop Hpp) o Hg HD (length psi) m HL HR Hs) as [?|(r & E & EL & A1 & A2 & _)]; [left; assumption|right].
  exists b, bN, r, E. auto.
Qed.
End Start.

(** ** The real version *)
Section Real.
Local Open Scope R_scope.
Notation RT := (@tensor (@rs_scalar RR)).
Notation SR := (@sum (@rs_scalar RR)).
Variable svd : RT -> RT * list R * RT.
Variable flag : R.
Hypothesis Hsvd : @svd_contract RR svd.
Variable eigs : (RT -> result RT) -> nat -> nat -> RT -> result (list R * RT * bool).
Hypothesis Heigs : @eigs_contract RR eigs.

Lemma same_vector n (v t : nat -> R) : rsum n (fun r => @kmod2 RR (v r)) = 1 -> rsum n (fun r => @kmod2 RR (t r)) = 1 -> SR n (fun r => v r * t r) = 1 ->
  forall r, (r < n)%nat -> v r = t r.
Proof.
  intros H1 H2 H3 r Hr.
  assert (E : rsum n (fun r => @kmod2 RR (v r - t r)) = rsum n (fun r => @kmod2 RR (v r)) - 2 * SR n (fun r => v r * t r) + rsum n (fun r => @kmod2 RR (t r))).
  { clear. induction n as [|n IH]; [cbn; lra|]. cbn [rsum sum]. change (@kmod2 RR (v n)) with (v n * v n). change (@kmod2 RR (t n)) with (t n * t n).
    change (@kmod2 RR (v n - t n)) with ((v n - t n) * (v n - t n)). change (@kadd (@rs_scalar RR)) with Rplus. rewrite IH. ring. }
  rewrite H1, H2, H3 in E. replace (1 - 2 * 1 + 1) with 0 in E by ring.
  pose proof (rsum_zero_inv n (fun r => @kmod2 RR (v r - t r)) (fun r _ => @kmod2_nonneg RR (v r - t r)) E r Hr) as E0.
  apply (@kmod2_zero RR) in E0. change (v r - t r = 0) in E0. lra.
Qed.

Section Local.
Variables (H N : @mpo (@rs_scalar RR)) (ds : list nat) (value : R) (phi : @mps (@rs_scalar RR)) (o : options).
Notation adm := (@admissible RR N value).
Notation IN P := (@inner (@rs_scalar RR) ds (amp phi) (amp P)).

Lemma both_last kk P e P' t : lastb flag H N ds value phi o kk P e P' -> @weight RR ds (amp phi) = 1 ->
  (forall is, in_range ds is -> amp phi is = amp (emb2 kk P t) is) -> (forall r, (r < npair kk P)%nat -> t r <> 0 -> adm (emb2 kk P (delta r))) ->
  (e <> 0 \/ exists x, (forall r, (r < npair kk P)%nat -> x r <> 0 -> adm (emb2 kk P (delta r))) /\ IN (emb2 kk P x) = 0 /\ energy H (emb2 kk P x) < 0) ->
  exists q, (forall r, (r < npair kk P)%nat -> q r <> 0 -> adm (emb2 kk P (delta r))) /\
    IN (emb2 kk P q) = 0 /\ weight ds (amp (emb2 kk P q)) = 1 /\ energy H (emb2 kk P q) = e /\
    (forall x, (forall r, (r < npair kk P)%nat -> x r <> 0 -> adm (emb2 kk P (delta r))) -> IN (emb2 kk P x) = 0 ->
       e * weight ds (amp (emb2 kk P x)) <= energy H (emb2 kk P x)) /\
    (exactly flag o -> forall is, in_range ds is -> amp P' is = amp (emb2 kk P q) is).
Proof.
  intros (HoP & HpP & Hkk & _ & _ & _ & M & v & sub & p & HF & Hv & Hnd & Hsub & Hgr & Hex) Hw Ht Htadm He.
  set (n := npair kk P) in *. cbv zeta in Hgr.
  assert (Hlt : forall s, In s sub -> (s < n)%nat) by (intros s Hs; apply Hsub; exact Hs).
  assert (Hun : rsum n (fun r => @kmod2 RR (v r)) = 1).
  { apply (unit_vector H ds n (emb2 kk P) M v t (amp phi) HF Hv Hw). intros is Hi. symmetry. apply Ht. exact Hi. }
  rewrite Hun, sqrt_1, sqrt_1, Rinv_1 in Hgr. destruct Hgr as (_ & Hgr).
  pose proof HF as (F1 & F2 & F3).
  assert (Evt : forall r, (r < n)%nat -> v r = t r).
  { apply same_vector; [exact Hun| |].
    - rewrite <- F2, <- Hw. unfold weight, inner. f_equal. apply sumcfg_ext. intros is Hi. rewrite Ht by exact Hi. reflexivity.
    - rewrite <- Hv, <- Hw. unfold weight, inner. change (@kre RR ?x) with x. apply sumcfg_ext. intros is Hi. rewrite <- Ht by exact Hi. reflexivity. }
  set (ov := fun r => @kmul (@rs_scalar RR) (@rinj RR 1) (v r)) in *.
  assert (Eov : forall r, ov r = v r) by (intros r; unfold ov; apply Rmult_1_l).
  assert (Hov : forall r, (r < n)%nat -> ov r <> 0 -> In r sub).
  { intros r Hr Hne. apply Hsub. split; [exact Hr|]. apply Htadm; [exact Hr|]. rewrite <- Evt, <- Eov by exact Hr. exact Hne. }
  set (L := length sub) in *. set (os := fun i => ov (nth i sub 0%nat)). set (Ms := fun i j => M (nth i sub 0%nat) (nth j sub 0%nat)).
  assert (Hgs : @ground_state RR L (@PMP RR L os Ms) e p).
  { refine (@ground_ext RR L _ _ e p _ Hgr). intros i j Hi Hj. symmetry. apply (@PMP_sub RR n sub ov M i j Hnd Hlt Hov Hi Hj). }
  assert (Hspo : forall r, (r < n)%nat -> @spread RR sub os r = ov r) by (apply (@spread_gather RR n sub ov Hnd Hov)).
  assert (Hou : rsum L (fun i => @kmod2 RR (os i)) = 1).
  { unfold L. rewrite <- (@spread_weight RR n sub os Hnd Hlt). rewrite <- Hun. apply rsum_ext. intros r Hr. rewrite Hspo, Eov by exact Hr. reflexivity. }
  assert (Hin : forall x : nat -> R, SR L (fun i => @kmul (@rs_scalar RR) (@kconj (@rs_scalar RR) (os i)) (x i)) = IN (emb2 kk P (@spread RR sub x))).
  { intros x. rewrite Hv. rewrite (@sum_ext (@rs_scalar RR) n _ (fun r => @kmul (@rs_scalar RR) (@spread RR sub x r) (ov r))).
    - rewrite (@spread_sum RR n sub x ov Hlt). apply sum_ext. intros i Hi. change (os i * x i = x i * os i). ring.
    - intros r Hr. rewrite Eov. change (v r * @spread RR sub x r = @spread RR sub x r * v r). ring. }
  assert (Een : forall x : nat -> R, IN (emb2 kk P (@spread RR sub x)) = 0 ->
     SR L (fun i => SR L (fun j => @kmul (@rs_scalar RR) (@kmul (@rs_scalar RR) (@kconj (@rs_scalar RR) (x i)) (@PMP RR L os Ms i j)) (x j))) = energy H (emb2 kk P (@spread RR sub x))).
  { intros x Hx. rewrite <- Hin in Hx. rewrite (@orthogonal_form RR L os Ms x x Hx Hx).
    transitivity (@sandwich (@rs_scalar RR) (emb2 kk P (@spread RR sub x)) H (emb2 kk P (@spread RR sub x))); [|reflexivity].
    rewrite F3. symmetry. apply (@spread_form RR n sub x x M Hlt). }
  destruct (site2_dims kk P HoP Hkk) as (a & i & mm & j & c & D1 & D2 & W1 & W2 & Hpos).
  assert (Enp : n = nprod [a; i; j; c]) by (unfold n, npair, dim; rewrite D1, D2; reflexivity).
  assert (Hgat : forall x : nat -> R, (forall r, (r < n)%nat -> x r <> 0 -> adm (emb2 kk P (delta r))) ->
     emb2 kk P x = emb2 kk P (@spread RR sub (fun s => x (nth s sub 0%nat)))).
  { intros x Hx. symmetry. apply (emb2_ext kk P _ _ a i mm j c D1 D2). rewrite <- Enp. apply (@spread_gather RR n sub x Hnd). intros r Hr Hne. apply Hsub. auto. }
  destruct Hgs as (G1 & G2 & G3).
  assert (Hmin : forall x, (forall r, (r < n)%nat -> x r <> 0 -> adm (emb2 kk P (delta r))) -> IN (emb2 kk P x) = 0 ->
       e * weight ds (amp (emb2 kk P x)) <= energy H (emb2 kk P x)).
  { intros x Hx Hz. rewrite (Hgat x Hx) in Hz |- *. rewrite F2, (@spread_weight RR n sub _ Hnd Hlt), <- (Een _ Hz). apply G3. }
  assert (He0 : e <> 0).
  { destruct He as [He|(x & X1 & X2 & X3)]; [exact He|]. intros ->. specialize (Hmin x X1 X2). rewrite Rmult_0_l in Hmin. lra. }
  pose proof (@ground_orthogonal RR L os Hou Ms e p (conj G1 (conj G2 G3)) He0) as Hort. rewrite Hin in Hort.
  exists (@spread RR sub p). split; [|split; [exact Hort|split; [|split; [|split; [exact Hmin|exact Hex]]]]].
  - intros r Hr Hne. destruct (in_dec Nat.eq_dec r sub) as [Hi|Hi]; [apply Hsub; exact Hi|]. exfalso. apply Hne. apply (@spread_out RR). exact Hi.
  - rewrite F2, (@spread_weight RR n sub _ Hnd Hlt). exact G1.
  - rewrite <- (Een p Hort).
    transitivity (e * rsum L (fun i => @kmod2 RR (p i))); [|rewrite G1; ring]. rewrite rsum_sum.
    change (e * SR L (fun i => @kmod2 RR (p i))) with (@kmul (@rs_scalar RR) e (SR L (fun i => @kmod2 RR (p i)))). rewrite sum_mul_l.
    refine (@sum_ext (@rs_scalar RR) L _ _ _). intros s Hs. specialize (G2 s Hs).
    transitivity (@kmul (@rs_scalar RR) (p s) (SR L (fun j => @kmul (@rs_scalar RR) (@PMP RR L os Ms s j) (p j)))).
    + rewrite sum_mul_l. apply sum_ext. intros u Hu. change (p s * @PMP RR L os Ms s u * p u = p s * (@PMP RR L os Ms s u * p u)). ring.
    + rewrite G2. change (p s * (e * p s) = e * (p s * p s)). ring.
Qed.
End Local.

(** The two-site algorithm with a state phi of norm one, on any chain.  There are states e_0, e_1, ..., orthonormal, which span
    all the states that differ from the result only at the two sites of the last step.  If phi is a combination of
    those of the e_r that satisfy the constraint, and E is not zero or some combination of them that is orthogonal to
    phi has a negative energy, then the step chose the combination of lowest energy that satisfies the constraint and
    is orthogonal to phi.  E is its energy, and it is the result if nothing is truncated. *)
Theorem C50_two_orthogonal H N psi ds o value phi psi' E : valid_constrained flag H N psi ds o -> (0 < o_sweeps o)%Z ->
  open_mps phi -> pdims phi = ds -> @weight RR ds (amp phi) = 1 ->
  minimize_with svd flag eigs H psi o N value (Some [phi]) = Ok (psi', E) -> psi' <> [] ->
  open_mps psi' /\ pdims psi' = ds /\ 0 < @weight RR ds (amp psi') <= 1 /\
  (exists k, (k = 0 \/ k = length psi - 1)%nat /\ canonical_at k psi') /\ ((0 < o_Dmax o)%Z -> bonds_le (o_Dmax o) psi') /\
  exists k n (e : nat -> @mps (@rs_scalar RR)), (k = 0 \/ k = length psi - 2)%nat /\
    (forall r, open_mps (e r) /\ pdims (e r) = ds /\ differs_at2 psi' (e r) k) /\
    (forall chi, open_mps chi -> pdims chi = ds -> differs_at2 psi' chi k -> exists x, forall is, in_range ds is -> amp chi is = combination n e x is) /\
    (forall x, weight ds (combination n e x) = rsum n (fun r => @kmod2 RR (x r))) /\
    let allowed (x : nat -> R) := (forall r, (r < n)%nat -> x r <> 0 -> admissible N value (e r)) in
    let overlap (x : nat -> R) := @inner (@rs_scalar RR) ds (amp phi) (combination n e x) in
    forall t, allowed t -> (forall is, in_range ds is -> amp phi is = combination n e t is) ->
      (E <> 0 \/ exists x, allowed x /\ overlap x = 0 /\ energy_of H ds (combination n e x) < 0) ->
      exists p, allowed p /\ overlap p = 0 /\ weight ds (combination n e p) = 1 /\ energy_of H ds (combination n e p) = E /\
        (forall x, allowed x -> overlap x = 0 -> E * weight ds (combination n e x) <= energy_of H ds (combination n e x)) /\
        (keeps_all flag o -> forall is, in_range ds is -> amp psi' is = combination n e p is).
Proof.
  intros HV Hs Hop Hpp Hw HR Hne. pose proof HV as (HH & HN & Ho & Hpd & HL & HD & Hg & Hz).
  destruct (both_run svd flag Hsvd eigs Heigs H N psi ds o value phi HV Hs Hop Hpp) as [(EA & _)|(b & bN & p0 & E0 & ER & HP & _)]; [rewrite HR in EA; discriminate EA|].
  rewrite HR in ER. apply Ok_inj' in ER. injection ER as <- <-.
  destruct (HP Hne) as (d & m & -> & ((HQ & Hc & _) & Hst & HLm & Hcv) & (P & HLs) & Hsm). pose proof HLs as (HoP & HpP & Hkk & (k0 & Hk0 & Hc0) & Hdf & HW & _).
  set (psi' := mz_psi m) in *. set (kk := (if d then 0 else length psi - 2)%nat) in *. pose proof HQ as (HoQ & HpQ & _).
  split; [exact HoQ|]. split; [exact HpQ|]. split; [exact HW|]. split; [exists (start d (length psi)); split; [destruct d; cbn [start]; lia|exact Hc]|].
  split; [intros HD1 j Hj; apply Hsm; [lia|exact HD1]|].
  destruct (site2_dims kk P HoP Hkk) as (a & i & mm & j & c & D1 & D2 & W1 & W2 & Hpos).
  assert (Enp : npair kk P = nprod [a; i; j; c]) by (unfold npair, dim; rewrite D1, D2; reflexivity).
  set (n := nprod [a; i; j; c]) in *. set (e := fun r => emb2 kk P (@delta (@rs_scalar RR) r)).
  assert (Hopn : forall x, open_mps (emb2 kk P x) /\ pdims (emb2 kk P x) = ds) by (intros x; apply (emb2_open ds kk P a i mm j c); assumption).
  assert (Hcomb : forall x is, in_range ds is -> amp (emb2 kk P x) is = combination n e x is).
  { intros x is Hi. apply (emb2_comb ds kk P a i mm j c); assumption. }
  assert (HEW : forall x, energy H (emb2 kk P x) = energy_of H ds (combination n e x) /\ weight ds (amp (emb2 kk P x)) = weight ds (combination n e x)).
  { intros x. unfold energy, energy_of, weight, inner. rewrite (proj2 (Hopn x)). split; f_equal.
    - apply sumcfg_ext. intros is Hi. apply sumcfg_ext. intros js Hj. rewrite !Hcomb by assumption. reflexivity.
    - apply sumcfg_ext. intros is Hi. rewrite !Hcomb by assumption. reflexivity. }
  assert (HIN : forall x, @inner (@rs_scalar RR) ds (amp phi) (amp (emb2 kk P x)) = @inner (@rs_scalar RR) ds (amp phi) (combination n e x)).
  { intros x. unfold inner. apply sumcfg_ext. intros is Hi. rewrite Hcomb by assumption. reflexivity. }
  exists kk, n, e. split; [unfold kk; destruct d; auto|]. split; [|split; [|split]].
  - intros r. split; [apply Hopn|]. split; [apply Hopn|]. intros q H1 H2. rewrite Hdf by assumption. unfold e. rewrite (emb2_eq kk P a i mm j c D1 D2), site_put2 by exact Hkk.
    destruct (Nat.eqb_spec q kk); [contradiction|]. destruct (Nat.eqb_spec q (S kk)); [contradiction|reflexivity].
  - intros chi O1 P1 Df.
    assert (Df' : differs_at2 P chi kk) by (intros q H1 H2; rewrite Df, Hdf by assumption; reflexivity).
    destruct (differ2 ds kk P chi a i mm j c HoP HpP Hkk D1 D2 O1 P1 Df') as (A & B' & q & -> & Hq & HwA & HdA & HwB & HdB).
    eexists. intros is Hi. rewrite (put2_emb ds kk P a i mm j c HoP HpP Hkk D1 D2 Hpos A B' q Hq HwA HdA HwB HdB is Hi). apply Hcomb. exact Hi.
  - intros x. rewrite <- (proj2 (HEW x)). apply (emb2_weight H ds HH kk P a i mm j c HoP HpP Hkk D1 D2 Hpos k0 x Hk0 Hc0).
  - cbv zeta. intros t Ht1 Ht2 HE.
    destruct (both_last H N ds value phi o kk P E psi' t HLs Hw) as (q & Q1 & Q2 & Q3 & Q4 & Q5 & Q6).
    + intros is Hi. rewrite Hcomb by exact Hi. apply Ht2. exact Hi.
    + rewrite Enp. exact Ht1.
    + destruct HE as [HE|(x & X1 & X2 & X3)]; [left; exact HE|right]. exists x. rewrite Enp, HIN, (proj1 (HEW x)). auto.
    + rewrite Enp in *. rewrite HIN in Q2. rewrite (proj2 (HEW q)) in Q3. rewrite (proj1 (HEW q)) in Q4. exists q. split; [exact Q1|]. split; [exact Q2|]. split; [exact Q3|]. split; [exact Q4|]. split.
      * intros x X1 X2. rewrite <- (proj1 (HEW x)), <- (proj2 (HEW x)). apply Q5; [exact X1|]. rewrite HIN. exact X2.
      * intros (K1 & K2) is Hi. rewrite <- Hcomb by exact Hi. apply Q6; [|exact Hi]. destruct K2 as [K2|K2]; [contradiction|]. split; [exact K1|]. apply exact_tol_iff. exact K2.
Qed.

(** With two sites: if phi, of norm one, has amplitudes only in configurations whose diagonal element of N is the value
    (up to 10^-6), the result is the state of lowest energy among those that have amplitudes only there and are
    orthogonal to phi, provided that E is not zero or one of them has a negative energy. *)
Theorem C50_two_sites H N psi ds o value phi psi' E : valid_constrained flag H N psi ds o -> length psi = 2%nat -> (0 < o_sweeps o)%Z ->
  open_mps phi -> pdims phi = ds -> @weight RR ds (amp phi) = 1 ->
  minimize_with svd flag eigs H psi o N value (Some [phi]) = Ok (psi', E) -> psi' <> [] ->
  let allowed (f : list nat -> R) := (forall is, in_range ds is -> f is <> 0 -> @admissible_at RR N value is) in
  let overlap (f : list nat -> R) := @inner (@rs_scalar RR) ds (amp phi) f in
  allowed (amp phi) -> (E <> 0 \/ exists f, allowed f /\ overlap f = 0 /\ @energy_of RR H ds f < 0) ->
  exists p, allowed p /\ overlap p = 0 /\ @weight RR ds p = 1 /\ @energy_of RR H ds p = E /\
    (forall f, allowed f -> overlap f = 0 -> E * @weight RR ds f <= @energy_of RR H ds f) /\
    (keeps_all flag o -> forall is, in_range ds is -> amp psi' is = p is).
Proof.
  intros HV HL2 Hs Hop Hpp Hw HR Hne allowed overlap Hal HE. pose proof HV as (HH & HN & Ho & Hpd & HL & HD & Hg & Hz).
  destruct (both_run svd flag Hsvd eigs Heigs H N psi ds o value phi HV Hs Hop Hpp) as [(EA & _)|(b & bN & p0 & E0 & ER & HP & _)]; [rewrite HR in EA; discriminate EA|].
  rewrite HR in ER. apply Ok_inj' in ER. injection ER as <- <-.
  destruct (HP Hne) as (d & m & -> & _ & (P & HLs) & Hsm). pose proof HLs as (HoP & HpP & Hkk & _).
  replace (if d then 0 else length psi - 2)%nat with 0%nat in * by (destruct d; lia).
  assert (Hl : length ds = 2%nat) by (rewrite <- Hpd, length_pdims; exact HL2).
  pose proof (two_npair P ds HoP HpP Hl) as Enp. pose proof (fun x is => @two_emb RR P ds x is HoP HpP Hl) as Hemb.
  destruct (two_pos2 P ds HoP HpP Hl) as (d0 & d1 & mm & Eds & HlP & D1 & D2 & Hpos).
  assert (Hopn : forall x, pdims (emb2 0 P x) = ds) by (intros x; apply (emb2_open ds 0 P 1 d0 mm d1 1 HoP HpP ltac:(rewrite HlP; lia) D1 D2 ltac:(lia))).
  assert (HEW : forall x (f : list nat -> R), (forall is, in_range ds is -> f is = x (offset ds is)) -> @energy RR H (emb2 0 P x) = @energy_of RR H ds f /\ @weight RR ds (amp (emb2 0 P x)) = @weight RR ds f /\
     @inner (@rs_scalar RR) ds (amp phi) (amp (emb2 0 P x)) = overlap f).
  { intros x f Hf. unfold energy, energy_of, weight, overlap, inner. rewrite (Hopn x). split; [|split]; [f_equal|f_equal|].
    - apply sumcfg_ext. intros is Hi. apply sumcfg_ext. intros js Hj. rewrite !Hemb, !Hf by assumption. reflexivity.
    - apply sumcfg_ext. intros is Hi. rewrite !Hemb, !Hf by assumption. reflexivity.
    - apply sumcfg_ext. intros is Hi. rewrite Hemb, Hf by assumption. reflexivity. }
  assert (Hal2 : forall x (f : list nat -> R), (forall is, in_range ds is -> f is = x (offset ds is)) ->
     (allowed f <-> (forall r, (r < nprod ds)%nat -> x r <> 0 -> @admissible RR N value (emb2 0 P (delta r))))).
  { intros x f Hf. split.
    - intros Ha r Hr Hx. apply (two_admissible N value P ds r HoP HpP Hl Hr). apply Ha; [apply unravel_in_range; exact Hr|].
      rewrite Hf by (apply unravel_in_range; exact Hr). rewrite offset_unravel by exact Hr. exact Hx.
    - intros Ha is Hi Hx. rewrite <- (unravel_offset ds is Hi). apply (two_admissible N value P ds _ HoP HpP Hl (offset_lt ds is Hi)). apply Ha; [apply offset_lt; exact Hi|].
      rewrite <- Hf by exact Hi. exact Hx. }
  assert (Hun : forall (f : list nat -> R) is, in_range ds is -> f is = (fun r => f (unravel ds r)) (offset ds is)) by (intros f is Hi; cbv beta; rewrite unravel_offset by exact Hi; reflexivity).
  destruct (both_last H N ds value phi o 0 P E (mz_psi m) (fun r => amp phi (unravel ds r)) HLs Hw) as (q & Q1 & Q2 & Q3 & Q4 & Q5 & Q6).
  - intros is Hi. rewrite Hemb by exact Hi. apply Hun. exact Hi.
  - rewrite Enp. apply (Hal2 _ (amp phi) (Hun (amp phi))). exact Hal.
  - destruct HE as [HE|(f & X1 & X2 & X3)]; [left; exact HE|right]. exists (fun r => f (unravel ds r)). destruct (HEW _ f (Hun f)) as (U1 & U2 & U3). rewrite Enp, U1, U3.
    split; [apply (Hal2 _ f (Hun f)); exact X1|]. split; assumption.
  - rewrite Enp in *. exists (fun is => q (offset ds is)).
    destruct (HEW q (fun is => q (offset ds is)) (fun is _ => eq_refl)) as (U1 & U2 & U3). rewrite U3 in Q2. rewrite U2 in Q3. rewrite U1 in Q4.
    split; [apply (Hal2 q (fun is => q (offset ds is)) (fun is _ => eq_refl)); exact Q1|]. split; [exact Q2|]. split; [exact Q3|]. split; [exact Q4|]. split.
    + intros f X1 X2. destruct (HEW _ f (Hun f)) as (V1 & V2 & V3). rewrite <- V1, <- V2. apply Q5; [apply (Hal2 _ f (Hun f)); exact X1|]. rewrite V3. exact X2.
    + intros (K1 & K2) is Hi. rewrite <- Hemb by exact Hi. apply Q6; [|exact Hi]. destruct K2 as [K2|K2]; [contradiction|]. split; [exact K1|]. apply exact_tol_iff. exact K2.
Qed.
End Real.

(** With two sites the call returns, unless phi is zero, and the state is not empty if some configuration satisfies the
    constraint.  On longer chains it fails only if phi has no overlap with the states that some step could choose. *)
Section Returns.
Context {RS : RScal}.
Add Ring Kring2 : k_ring.
Variable svd : tensor -> tensor * list R * tensor.
Variable flag : R.
Hypothesis Hsvd : svd_contract svd.
Variable eigs : (tensor -> result tensor) -> nat -> nat -> tensor -> result (list K * tensor * bool).
Hypothesis Heigs : eigs_contract eigs.

Theorem C50_two_returns H N psi ds o value phi is : valid_constrained flag H N psi ds o -> length psi = 2%nat -> (0 < o_sweeps o)%Z -> eigs_converges eigs ->
  open_mps phi -> pdims phi = ds -> (exists js, in_range ds js /\ amp phi js <> 0) -> in_range ds is -> admissible_at N value is ->
  exists psi' E, minimize_with svd flag eigs H psi o N value (Some [phi]) = Ok (psi', E) /\ psi' <> [].
Proof.
  intros HV HL2 Hs Hcc Hop Hpp (js & Hj & Hnz) Hi Ha. pose proof HV as (HH & HN & Ho & Hpd & HL & HD & Hg & Hz).
  assert (Hl : length ds = 2%nat) by (rewrite <- Hpd, length_pdims; exact HL2).
  destruct (both_run svd flag Hsvd eigs Heigs H N psi ds o value phi HV Hs Hop Hpp) as [(_ & P & kk & HoP & HpP & Hkk & Hlost)|(b & bN & psi' & E & ER & _ & HE)].
  - exfalso. assert (HlP : length P = 2%nat) by (rewrite <- length_pdims, HpP; exact Hl). assert (kk = 0%nat) as -> by lia.
    specialize (Hlost (delta (offset ds js))). apply Hnz. rewrite <- (kconj_inv (amp phi js)), <- kconj_0. f_equal. rewrite <- Hlost. unfold inner.
    rewrite (sumcfg_ext ds _ (fun ks => delta (offset ds js) (offset ds ks) * kconj (amp phi ks))).
    + rewrite (sumcfg_point ds (fun ks => kconj (amp phi ks)) _ (offset_lt ds js Hj)), unravel_offset by exact Hj. reflexivity.
    + intros ks Hk. rewrite (two_emb P ds) by assumption. ring.
  - exists psi', E. split; [exact ER|]. apply (HE HL2 Hcc). intros P HoP HpP. exists (offset ds is). rewrite (two_npair P ds HoP HpP Hl). pose proof (offset_lt ds is Hi) as Hr. split; [exact Hr|].
    apply (two_admissible N value P ds _ HoP HpP Hl Hr). rewrite unravel_offset by exact Hi. exact Ha.
Qed.
End Returns.

(** ** A case: H = - X x 1, every configuration allowed, phi = |+>|0>.  The result is the other ground state. *)
Section Case.
Local Open Scope R_scope.
Definition plus0 : @mps (@rs_scalar RR) :=
  [@mk (@rs_scalar RR) [1;2;1]%nat (fun _ => / sqrt 2); @mk (@rs_scalar RR) [1;2;1]%nat (fun is => match is with [_; 0; _]%nat => 1 | _ => 0 end)].
Lemma plus0_open : open_mps plus0 /\ pdims plus0 = [2; 2]%nat.
Proof.
  split; [|reflexivity]. split; [discriminate|]. unfold plus0. cbn [linked]. exists 2%nat, 1%nat. repeat split; try lia; try reflexivity.
  exists 2%nat, 1%nat. repeat split; try lia; try reflexivity.
Qed.
Lemma plus0_amp i j : (i < 2)%nat -> (j < 2)%nat -> amp plus0 [i; j] = (if Nat.eqb j 0 then / sqrt 2 else 0).
Proof. intros Hi Hj. destruct i as [|[|i]], j as [|[|j]]; try lia; cbn; ring. Qed.

Theorem C50_two_case : exists (svd : @tensor (@rs_scalar RR) -> _) eigs, svd_contract svd /\ eigs_contract eigs /\ eigs_converges eigs /\
  let H := x_first (-1) in let N := x_first 1 in
  valid_constrained 1 H N start00 [2; 2]%nat two_opt /\ @weight RR [2; 2]%nat (amp plus0) = 1 /\ energy H plus0 = -1 /\
  exists psi', minimize_with svd 1 eigs H start00 two_opt N 0 (Some [plus0]) = Ok (psi', -1) /\ psi' <> [] /\
    @weight RR [2; 2]%nat (amp psi') = 1 /\ energy H psi' = -1 /\ @inner (@rs_scalar RR) [2; 2]%nat (amp plus0) (amp psi') = 0.
Proof.
  destruct (@svd_contract_satisfiable RR) as (svd & Hsvd). exists svd, exact_eigs. destruct (@eigs_contract_satisfiable RR) as (E1 & E2).
  split; [exact Hsvd|]. split; [exact E1|]. split; [exact E2|]. intros H N.
  pose proof (x_first_hamiltonian (-1) ltac:(lra)) as HH. pose proof (x_first_hamiltonian 1 ltac:(lra)) as HN. fold H in HH. fold N in HN.
  pose proof (two_valid H N HH HN) as HV. split; [exact HV|].
  assert (Hen : forall s (f : list nat -> R), @energy_of RR (x_first s) [2; 2]%nat f = s * (2 * f [0;0]%nat * f [1;0]%nat + 2 * f [0;1]%nat * f [1;1]%nat)) by (intros s f; cbn; ring).
  assert (Hin : forall f g : list nat -> R, @inner (@rs_scalar RR) [2; 2]%nat f g = f [0;0]%nat * g [0;0]%nat + f [0;1]%nat * g [0;1]%nat + f [1;0]%nat * g [1;0]%nat + f [1;1]%nat * g [1;1]%nat) by (intros f g; cbn; ring).
  assert (Hs2 : / sqrt 2 * / sqrt 2 = / 2) by (rewrite <- Rinv_mult, sqrt_sqrt by lra; reflexivity).
  assert (Hs0 : / sqrt 2 <> 0) by (intros X; rewrite X in Hs2; lra).
  assert (Hw : @weight RR [2; 2]%nat (amp plus0) = 1) by (rewrite bell_weight, !plus0_amp by lia; cbn [Nat.eqb]; lra).
  split; [exact Hw|]. split; [unfold energy, H; rewrite (proj2 plus0_open), Hen, !plus0_amp by lia; cbn [Nat.eqb]; lra|].
  assert (Hmil : 0 < 1 / 10 ^ 6) by (apply Rdiv_lt_0_compat; [lra|apply pow_lt; lra]).
  assert (H0 : forall is, in_range [2; 2]%nat is -> @admissible_at RR N 0 is).
  { intros is Hi. unfold admissible_at, N. rewrite x_first_diag by exact Hi. rewrite kabs_real. change (@ksub (@rs_scalar RR) 0 0) with (0 - 0). rewrite Rminus_0_r, Rabs_R0. exact Hmil. }
  destruct plus0_open as (Po & Pd).
  destruct (C50_two_returns svd 1 Hsvd exact_eigs E1 H N start00 _ two_opt 0 plus0 [0;0]%nat HV eq_refl eq_refl E2 Po Pd) as (psi' & E & HR & Hne).
  { exists [0;0]%nat. split; [repeat constructor; lia|]. rewrite plus0_amp by lia. exact Hs0. }
  { repeat constructor; lia. }
  { apply H0. repeat constructor; lia. }
  set (f1 := fun is : list nat => if Nat.eqb (nth 1 is 0%nat) 0 then 0 else 1).
  destruct (C50_two_sites svd 1 Hsvd exact_eigs E1 H N start00 _ two_opt 0 plus0 psi' E HV eq_refl eq_refl Po Pd Hw HR Hne) as (p & P1 & P2 & P3 & P4 & P5 & P6).
  { intros is Hi _. apply H0. exact Hi. }
  { right. exists f1. split; [intros is Hi _; apply H0; exact Hi|]. unfold H. rewrite Hin, Hen, !plus0_amp by lia. cbn. split; lra. }
  specialize (P6 two_opt_keeps).
  specialize (P5 f1 (fun is Hi _ => H0 is Hi)). unfold H in P4, P5. rewrite Hin, Hen, bell_weight, !plus0_amp in P5 by lia. cbn in P5. specialize (P5 ltac:(ring)).
  rewrite Hen in P4. rewrite bell_weight in P3. rewrite Hin in P2.
  assert (E = -1) as ->.
  { pose proof (Rle_0_sqr (p [0; 0]%nat - p [1; 0]%nat)) as S1. pose proof (Rle_0_sqr (p [0; 1]%nat - p [1; 1]%nat)) as S2. unfold Rsqr in S1, S2. lra. }
  exists psi'. split; [exact HR|]. split; [exact Hne|].
  destruct (C50_two_orthogonal svd 1 Hsvd exact_eigs E1 H N start00 _ two_opt 0 plus0 psi' (-1) HV eq_refl Po Pd Hw HR Hne) as (_ & Hpd & _).
  split; [rewrite bell_weight, !P6 by (repeat constructor; lia); exact P3|]. split.
  - unfold energy, H. rewrite Hpd, Hen, !P6 by (repeat constructor; lia). exact P4.
  - rewrite Hin, !P6 by (repeat constructor; lia). exact P2.
Qed.
End Case.
