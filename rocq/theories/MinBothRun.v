(** * The runs of minimize() with a constraint and a state to be orthogonal to (two-site algorithm) *)
From Coq Require Import Reals Lra Bool List Arith ZArith Lia Ring.
From Verif Require Import Scalar ScalarFacts RScal Tensor TensorFacts Spec MpsModel MpsFacts StateFacts StateFacts2 MpoSpec MpoFacts CanonSpec CanonModel
  TruncFacts SplitFacts CanonFacts CanonSweep CanonNorm CanonProps CanonTwo SweepFacts FormModel FormSpec LFormFacts QFormFacts QFormInv QFormValue QFormMain
  SimplifySpec SimplifyModel SimplifyFacts SimplifyStep SimplifyPair SimplifyDouble MinimizerModel MinLive MinimizeSpec MinLocal MinStep MinSweep MinLoop MinOrtho MinOrthoRun MinConstrained MinConstrainedRun MinBoth ConstraintSpec.
Import ListNotations.
Local Open Scope K_scope.

Section Run.
Context {RS : RScal}.
Add Ring Kring : k_ring.
Variable svd : tensor -> tensor * list R * tensor.
Variable flag : R.
Hypothesis Hsvd : svd_contract svd.
Variable eigs : (tensor -> result tensor) -> nat -> nat -> tensor -> result (list K * tensor * bool).
Hypothesis Heigs : eigs_contract eigs.
Variables (H N : mpo) (ds : list nat).
Hypothesis HH : hamiltonian H ds.
Hypothesis HN : hamiltonian N ds.
Variables b bN : nat -> nat.
Hypothesis Hb : path H b.
Hypothesis HbN : path N bN.
Variable value : K.
Variable phi : mps.
Hypothesis Hphi : open_mps phi /\ pdims phi = ds.
Variable o : options.
Hypothesis Hgap : o_compute_gap o = false.
Notation W P := (weight ds (amp P)).
Notation En P := (energy H P).
Notation adm := (admissible N value).

Definition goodb (k : nat) (m : minimizer) : Prop :=
  QAt H ds b k (mz_psi m) (mz_H m) /\ canonical_at k (mz_psi m) /\ (exists fo, mz_ortho m = [fo] /\ At [1] [phi] ds k (mz_psi m) fo) /\ mz_value m = value /\
  exists fN, mz_N m = Some fN /\ QAt N ds bN k (mz_psi m) fN.

(** phi has no overlap with the states that can be chosen at some pair of sites: then the code divides by zero. *)
Definition lost : Prop := exists P kk, open_mps P /\ pdims P = ds /\ (S kk < length P)%nat /\ forall x, inner ds (amp phi) (amp (emb2 kk P x)) = 0.

(** What the step at the sites kk, kk+1 of P, which returns e and leaves P', has done: M is the local problem, v the
    gradient of the overlap with phi, sub the positions that satisfy the constraint, p the solution. *)
Definition lastb (kk : nat) (P : mps) (e : R) (P' : mps) : Prop :=
  let n := npair kk P in
  open_mps P /\ pdims P = ds /\ (S kk < length P)%nat /\ (exists k, (k = kk \/ k = S kk) /\ canonical_at k P) /\
  differs_at2 P P' kk /\ (0 < W P' <= 1)%R /\
  exists M v sub p, family H ds n (emb2 kk P) M /\
    (forall x, inner ds (amp phi) (amp (emb2 kk P x)) = sum n (fun r => v r * x r)) /\
    NoDup sub /\ (forall r, In r sub <-> (r < n)%nat /\ adm (emb2 kk P (delta r))) /\
    (let nv := sqrt (rsum n (fun r => kmod2 (v r))) in nv <> 0%R /\
     ground_state (length sub) (fun i j => PMP n (fun r => rinj (/ sqrt nv) * v r) M (nth i sub 0%nat) (nth j sub 0%nat)) e p) /\
    (exactly flag o -> forall is, in_range ds is -> amp P' is = amp (emb2 kk P (spread sub p)) is).

Lemma bstep d m k k' : goodb k m -> mz_step m = sgn d -> moved d (length (mz_psi m)) k k' ->
  let kk := Nat.min k k' in let P := mz_psi m in
  (two_site_step svd flag eigs o m k = Abort /\ lost) \/
  exists m' e, two_site_step svd flag eigs o m k = Ok (m', e) /\ mz_step m' = sgn d /\ length (mz_psi m') = length P /\
    ((forall r, (r < npair kk P)%nat -> ~ adm (emb2 kk P (delta r))) -> mz_converged m' = false) /\
    (eigs_converges eigs -> (exists r, (r < npair kk P)%nat /\ adm (emb2 kk P (delta r))) -> mz_converged m' = true) /\
    (mz_converged m' = true -> goodb k' m' /\ lastb kk P e (mz_psi m') /\
      ((0 < o_Dmax o)%Z -> (Z.of_nat (dim (site (mz_psi m') (S kk)) 0) <= o_Dmax o)%Z) /\
      forall j, j <> S kk -> (dim (site (mz_psi m') j) 0 <= dim (site P j) 0)%nat).
Proof.
  intros (HQ & Hc & (fo & Hort & HAo) & Hval & fN & EN & HQN) Hst Hm kk P. fold P in HQ, Hc, HQN, Hm, HAo. set (f := mz_H m) in *.
  pose proof HQ as (Ho & Hpd & Hk & Hh & Hlive).
  assert (Hkk : (S kk < length P)%nat) by (unfold kk; destruct d; cbn in Hm; lia).
  destruct (site2_dims kk P Ho Hkk) as (a & i & mm & j & c & D1 & D2 & W1 & W2 & Hpos).
  destruct (two_family H ds HH b Hb kk P a i mm j c Ho Hpd Hkk D1 D2 Hpos f k k' d HQ Hc Hm eq_refl) as (M & HF & HA).
  destruct (two_diag N ds HN bN HbN fN k k' d kk P a i mm j c Ho Hpd Hkk D1 D2 Hpos HQN Hm eq_refl) as (aux & Eaux & Hlaux & Hdiag).
  destruct (pair_vector phi ds d k k' P fo a i mm j c Hphi HAo Hm D1 D2) as (v & Ev & Hwv & Hdv & Hvec). fold kk in Hvec.
  assert (Enp : npair kk P = nprod [a; i; j; c]) by (unfold npair, dim; rewrite D1, D2; reflexivity). rewrite Enp in *.
  set (d4 := [a; i; j; c]) in *. set (n := nprod d4) in *.
  set (P12 := fold (site P kk) 2 (site P (S kk)) 0).
  assert (HP12 : dims P12 = d4) by (apply (dims_pair _ _ a i mm j c); assumption).
  assert (Hld : length (data P12) = n) by (unfold n; rewrite <- HP12; apply wf_mk).
  assert (Edir : (0 <? sgn d)%Z = d) by (destruct d; reflexivity).
  assert (EP : bind (site_at P (Z.of_nat k)) (fun A => bind (site_at P (Z.of_nat k + (if d then 1 else -1))) (fun B =>
      Ok (if d then fold A (rank A - 1) B 0 else fold B (rank B - 1) A 0))) = Ok P12).
  { rewrite site_at_nat by exact Hk. cbn [bind]. destruct d; cbn [moved] in Hm.
    - replace (Z.of_nat k + 1)%Z with (Z.of_nat (S k)) by lia. rewrite site_at_nat by lia. cbn [bind]. replace k with kk by (unfold kk; lia).
      unfold rank. rewrite D1. reflexivity.
    - replace (Z.of_nat k + -1)%Z with (Z.of_nat k') by lia. rewrite site_at_nat by lia. cbn [bind]. replace k with (S kk) by (unfold kk; lia).
      replace k' with kk by (unfold kk; lia). unfold rank. rewrite D1. reflexivity. }
  unfold two_site_step, orthogonal_projectors. cbv zeta. rewrite Hort. fold P f. rewrite Hst, Edir.
  rewrite site_at_nat in EP by exact Hk. cbn [bind] in EP.
  destruct (site_at P (Z.of_nat k + (if d then 1 else -1))) as [B|] eqn:EB; [|discriminate]. cbn [bind] in EP. apply Ok_inj' in EP.
  cbv zeta. rewrite site_at_nat by exact Hk. cbn [bind]. cbv zeta. rewrite EP, HP12, Hld. cbn [fold_left bind].
  assert (Hhere : lf_here fo = k).
  { pose proof HAo as (_ & _ & Hk0 & Hho). pose proof (history_linv [1] [phi] ds (phi_good ds phi Hphi) fo _ _ Hho) as ((_ & E & _) & _). rewrite E, firstn_length. lia. }
  rewrite Hhere, Nat.eqb_refl. replace (sgn d =? 0)%Z with false by (destruct d; reflexivity). cbv iota. rewrite Ev. cbn [bind].
  set (nv := norm2_tensor v) in *. assert (Enf : nv = sqrt (rsum n (fun r => kmod2 (vec v r)))).
  { unfold nv. rewrite norm2_tensor_frob, (frob2_vec v Hwv), Hdv. reflexivity. }
  destruct (Req_EM_T nv 0) as [En0|En0].
  { left. split; [reflexivity|]. exists P, kk. split; [exact Ho|]. split; [exact Hpd|]. split; [exact Hkk|]. intros x. rewrite Hvec. apply sum_zero. intros r Hr.
    rewrite Enf in En0. apply sqrt_eq_0 in En0; [|apply rsum_nonneg; intros; apply kmod2_nonneg].
    assert (Hz : vec v r = 0); [|rewrite Hz; ring]. apply kmod2_zero. apply (rsum_zero_inv n (fun r => kmod2 (vec v r))); [intros; apply kmod2_nonneg|exact En0|exact Hr]. }
  right. cbn [bind]. set (ot := tscale (rinj (/ sqrt nv)) v).
  assert (Hlo : length (data ot) = n).
  { unfold ot, tscale. cbn [data]. rewrite map_length. unfold wf in Hwv. rewrite Hwv, Hdv. reflexivity. }
  assert (Eo : forall r, (r < n)%nat -> vec ot r = rinj (/ sqrt nv) * vec v r).
  { intros r Hr. unfold ot, tscale, vec. cbn [data]. rewrite (nth_indep _ 0 (rinj (/ sqrt nv) * 0)) by (rewrite map_length; unfold wf in Hwv; rewrite Hwv, Hdv; exact Hr).
    apply (map_nth (kmul (rinj (/ sqrt nv)))). }
  rewrite Hgap, andb_false_r. cbn [bind]. rewrite EN, Eaux, Hval. cbn [bind].
  set (sub := constraint_subspace aux value).
  assert (Hsub : forall r, In r sub <-> (r < n)%nat /\ adm (emb2 kk P (delta r))).
  { intros r. unfold sub, constraint_subspace. rewrite filter_In, in_seq, Hlaux. fold n. split.
    - intros (Hr & Hl). assert (Hr' : (r < n)%nat) by lia. split; [exact Hr'|]. apply Rltb_true in Hl. rewrite Hdiag in Hl by exact Hr'. exact Hl.
    - intros (Hr & Hl). split; [lia|]. rewrite Hdiag by exact Hr. destruct (Rltb _ Ntol) eqn:E; [reflexivity|]. apply Rltb_false in E. unfold admissible in Hl. unfold Ntol in E. lra. }
  assert (Hnd : NoDup sub) by (apply NoDup_filter, seq_NoDup).
  assert (Hlt : forall s, In s sub -> (s < n)%nat) by (intros s Hs; apply Hsub; exact Hs).
  destruct (Nat.eqb_spec (length sub) 0) as [E0|E0].
  { exists (mz_set_converged m false), 0%R. split; [reflexivity|]. split; [exact Hst|]. split; [reflexivity|]. split; [reflexivity|]. split; [|intros E; discriminate E].
    intros _ (r & Hr & Ha). exfalso. assert (Hi : In r sub) by (apply Hsub; auto). destruct sub; [destruct Hi|discriminate E0]. }
  assert (Hsome : exists r, (r < n)%nat /\ adm (emb2 kk P (delta r))).
  { destruct sub as [|s sub'] eqn:Es; [contradiction|]. exists s. apply Hsub. left. reflexivity. }
  rewrite gather_ok by (intros s Hs; rewrite Hld; apply Hlt; exact Hs). cbn [bind].
  pose proof (proj_acts2 (sgn d) d4 f ot M Hlo HA) as HA1.
  pose proof (sub_acts_os d4 (sgn d) f _ sub [ot] Hnd Hlt ltac:(intros q [<-|[]]; exact Hlo) HA1) as HA'. fold n in HA'.
  assert (Hherm : hermitian (length sub) (fun i j => PMP n (vec ot) M (nth i sub 0%nat) (nth j sub 0%nat))).
  { intros r s Hr Hs. apply (PMP_hermitian n (vec ot) M (family_hermitian H ds HH _ _ _ HF)); apply Hlt, nth_In; assumption. }
  destruct (Heigs _ (length sub) 1%nat (mkT [length sub] (map (fun i => nth i (data P12) 0) sub)) _ ltac:(lia) ltac:(lia) ltac:(cbn [data]; apply map_length) HA' Hherm) as (E & X & cv & EE & HlE & HlX & HG).
  rewrite EE. cbn [bind]. rewrite Nat.mul_1_r in HlX.
  rewrite scatter_spread by assumption. set (p := fun t => nth t (data X) 0) in *. set (q := spread sub p).
  assert (HE0 : exists e0, first_energy E = Ok e0) by (destruct E as [|e0 E']; [discriminate|exists (kre e0); reflexivity]).
  destruct HE0 as (e & He). destruct cv.
  2:{ cbn [bind]. rewrite He. cbn [bind]. eexists; exists e. split; [reflexivity|]. split; [exact Hst|]. split; [reflexivity|]. cbn [mz_converged mz_propagate]. split; [reflexivity|]. split; [intros Hcc _; exact (Hcc _ _ _ _ _ _ _ EE)|]. intros E1. discriminate E1. }
  destruct (HG eq_refl eq_refl) as (e' & -> & Hgr). apply Ok_inj' in He. rewrite kre_rinj in He. subst e.
  assert (Hfr1 : frob2 (ten d4 q) = 1%R).
  { rewrite frob2_ten. unfold q. fold n. rewrite spread_weight by assumption. exact (proj1 Hgr). }
  assert (Hnz : frob2 (ten d4 q) <> 0%R) by (rewrite Hfr1; lra).
  destruct (two_core svd flag Hsvd H ds HH (o_Dmax o) (o_svd_tolerance o) d k k' P (ten d4 q) a i mm j c Ho Hpd Hk Hm D1 D2 Hpos (wf_ten _ _) eq_refl Hnz) as (P' & ES & HS & HD & HDf & HWt & Hex).
  rewrite ES. cbn [bind first_energy]. rewrite kre_rinj. eexists; exists e'; split; [reflexivity|]. cbn [mz_step mz_propagate mz_psi mz_converged]. split; [exact Hst|].
  assert (L' : length P' = length P) by apply HS. split; [exact L'|]. split; [intros Hno; exfalso; destruct Hsome as (r & Hr & Ha); exact (Hno r Hr Ha)|]. split; [reflexivity|]. intros _.
  fold kk in HD, HDf, Hex.
  split; [|split; [|split; [exact HD|intros r Hr; apply HS; exact Hr]]].
  - unfold goodb. cbn [mz_psi mz_H mz_N mz_value mz_ortho mz_propagate]. rewrite Hst, Hort, EN. split; [apply (q_moved H ds HH b Hb d k k' P P' f); assumption|].
    split; [apply (canon_moved ds d k k' P P'); assumption|]. split.
    { eexists. split; [reflexivity|]. exact (proj1 (at_moved [1] [phi] ds d k k' P P' fo HAo Hm HS)). }
    split; [exact Hval|]. cbn [option_map].
    eexists. split; [reflexivity|]. apply (q_moved N ds HN bN HbN d k k' P P' fN); assumption.
  - unfold lastb. rewrite Enp. fold d4. fold n. cbv zeta. split; [exact Ho|]. split; [exact Hpd|]. split; [exact Hkk|].
    split; [exists k; split; [unfold kk; destruct d; cbn in Hm; lia|exact Hc]|]. split; [exact HDf|]. split; [rewrite <- Hfr1; exact (HWt Hc)|].
    exists M, (vec v), sub, p. split; [exact HF|]. split; [exact Hvec|]. split; [exact Hnd|]. split; [exact Hsub|]. split.
    + rewrite <- Enf. split; [exact En0|]. refine (ground_ext _ _ _ e' p _ Hgr). intros r s Hr Hs.
      apply PMP_ext; [intros u Hu; symmetry; apply Eo; exact Hu|reflexivity|apply Hlt, nth_In; exact Hr|apply Hlt, nth_In; exact Hs].
    + intros (He1 & He2) is His. rewrite (Hex He1 He2 is His). f_equal. apply (emb2_ext kk P _ _ a i mm j c D1 D2). intros r Hr. apply nth_ten. exact Hr.
Qed.

(** A sweep *)
Notation stepc := (two_site_step svd flag eigs o).

Lemma bloop d L ks : forall k0 k kend m E0, route (nx d) (ks ++ [k]) k0 kend -> (forall q, In q (ks ++ [k]) -> if d then (S q < L)%nat else (0 < q < L)%nat) ->
  goodb k0 m -> mz_step m = sgn d -> length (mz_psi m) = L -> mz_converged m = true ->
  (site_loop stepc (ks ++ [k]) m E0 = Abort /\ lost) \/ exists m' e, site_loop stepc (ks ++ [k]) m E0 = Ok (m', Some e) /\ mz_step m' = sgn d /\ length (mz_psi m') = L /\
    (ks = [] -> (forall r, (r < npair (Nat.min k (nx d k)) (mz_psi m))%nat -> ~ adm (emb2 (Nat.min k (nx d k)) (mz_psi m) (delta r))) -> mz_converged m' = false) /\
    (ks = [] -> eigs_converges eigs -> (exists r, (r < npair (Nat.min k (nx d k)) (mz_psi m))%nat /\ adm (emb2 (Nat.min k (nx d k)) (mz_psi m) (delta r))) -> mz_converged m' = true) /\
    (mz_converged m' = true -> goodb kend m' /\ (exists P, lastb (Nat.min k (nx d k)) P e (mz_psi m')) /\
      forall j, small o j (mz_psi m) \/ (exists q, In q (ks ++ [k]) /\ j = S (Nat.min q (nx d q))) -> small o j (mz_psi m')).
Proof.
  induction ks as [|k1 ks IH]; intros k0 k kend m E0 HR HF Hg Hst HL Hcv; cbn [app route] in HR; destruct HR as (-> & HR).
  - subst kend. pose proof (HF k0 (or_introl eq_refl)) as Hq.
    destruct (bstep d m k0 (nx d k0) Hg Hst ltac:(rewrite HL; apply moved_nx; exact Hq)) as [(ES & Hlost)|(m' & e & ES & A1 & A2 & AN & AC & A3)]; cbv zeta in *;
      cbn [app site_loop]; rewrite Hcv, ES; cbn [bind site_loop]; [left; auto|right]. exists m', e. split; [reflexivity|]. split; [exact A1|]. split; [congruence|].
    split; [intros _; exact AN|]. split; [intros _; exact AC|]. intros Hc. destruct (A3 Hc) as (B1 & B2 & B3 & B4). split; [exact B1|]. split; [exists (mz_psi m); exact B2|].
    intros j Hj HD. destruct (Nat.eq_dec j (S (Nat.min k0 (nx d k0)))) as [->|Hne]; [apply B3; exact HD|].
    destruct Hj as [Hj|(q & [<-|[]] & Hj)]; [|contradiction]. specialize (Hj HD). specialize (B4 j Hne). lia.
  - pose proof (HF k0 (or_introl eq_refl)) as Hq.
    destruct (bstep d m k0 (nx d k0) Hg Hst ltac:(rewrite HL; apply moved_nx; exact Hq)) as [(ES & Hlost)|(m1 & e1 & ES & A1 & A2 & AN & AC & A3)]; cbv zeta in *;
      cbn [app site_loop]; rewrite Hcv, ES; cbn [bind]; [left; auto|]. destruct (mz_converged m1) eqn:Hc1.
    2:{ right. exists m1, e1. assert (E : site_loop stepc (ks ++ [k]) m1 (Some e1) = Ok (m1, Some e1)) by (destruct ks; cbn [app site_loop]; rewrite Hc1; reflexivity).
        split; [exact E|]. split; [exact A1|]. split; [congruence|]. split; [intros E2; discriminate E2|]. split; [intros E2; discriminate E2|]. intros E2. congruence. }
    destruct (A3 eq_refl) as (B1 & B2 & B3 & B4).
    destruct (IH (nx d k0) k kend m1 (Some e1) HR) as [?|(m' & e & EL & C1 & C2 & _ & _ & C3)]; auto; [intros q Hq'; apply HF; right; exact Hq'|congruence|].
    right. exists m', e. split; [exact EL|]. split; [exact C1|]. split; [exact C2|]. split; [intros E2; discriminate E2|]. split; [intros E2; discriminate E2|].
    intros Hc. destruct (C3 Hc) as (D1 & D2 & D3). split; [exact D1|]. split; [exact D2|]. intros j Hj.
    apply D3. destruct Hj as [Hj|(q & [<-|Hq'] & Ej)].
    + left. intros HD. destruct (Nat.eq_dec j (S (Nat.min k0 (nx d k0)))) as [->|Hne]; [apply B3; exact HD|]. specialize (Hj HD). specialize (B4 j Hne). lia.
    + left. intros HD. subst j. apply B3. exact HD.
    + right. exists q. auto.
Qed.

Definition readyb (L : nat) (d : bool) (m : minimizer) : Prop := goodb (start d L) m /\ mz_step m = sgn d /\ length (mz_psi m) = L /\ mz_converged m = true.
(** after a sweep; d is the direction of the next one *)
Definition postb (L : nat) (d : bool) (m : minimizer) (E : R) : Prop :=
  readyb L d m /\ (exists P, lastb (if d then 0 else L - 2)%nat P E (mz_psi m)) /\ (forall j, (0 < j < L)%nat -> small o j (mz_psi m)).

Lemma bsweep L d m : (2 <= L)%nat -> readyb L d m ->
  (two_site_sweep svd flag eigs o m = Abort /\ lost) \/ exists m' e, two_site_sweep svd flag eigs o m = Ok (m', e) /\
    (L = 2%nat -> (forall r, (r < npair 0 (mz_psi m))%nat -> ~ adm (emb2 0 (mz_psi m) (delta r))) -> mz_converged m' = false) /\
    (L = 2%nat -> eigs_converges eigs -> (exists r, (r < npair 0 (mz_psi m))%nat /\ adm (emb2 0 (mz_psi m) (delta r))) -> mz_converged m' = true) /\
    (mz_converged m' = true -> postb L (negb d) m' e).
Proof.
  intros HL0 (Hg & Hst & HL & Hcv). set (kl := if d then (L - 2)%nat else 1%nat).
  assert (HR : exists ks, (if d then seq 0 (L - 1) else rev (seq 1 (L - 1))) = ks ++ [kl] /\ route (nx d) (ks ++ [kl]) (start d L) (start (negb d) L) /\
     (forall q, In q (ks ++ [kl]) <-> (if d then (S q < L)%nat else (0 < q < L)%nat)) /\ (L = 2%nat -> ks = [])).
  { unfold kl. destruct d; cbn [start negb].
    - exists (seq 0 (L - 2)). assert (E : seq 0 (L - 1) = seq 0 (L - 2) ++ [(L - 2)%nat]).
      { replace (L - 1)%nat with (S (L - 2)) at 1 by lia. rewrite seq_S. reflexivity. }
      split; [exact E|]. rewrite <- E. split; [|split; [|intros ->; reflexivity]].
      + apply route_right; [|lia|]; unfold nx; intros; lia.
      + intros q. rewrite in_seq. lia.
    - destruct (seq_rev_last 1 (L - 1) ltac:(lia)) as (l & E & Hin). exists l. split; [exact E|]. rewrite <- E. split; [|split].
      + replace (L - 1)%nat with (1 + (L - 1) - 1)%nat at 2 by lia. apply route_left; [|lia|reflexivity]. intros k H1 H2. reflexivity.
      + intros q. rewrite Hin, in_seq. lia.
      + intros ->. cbn in E. destruct l as [|x l]; [reflexivity|]. apply (f_equal (@length nat)) in E. cbn in E. rewrite app_length in E. cbn in E. lia. }
  destruct HR as (ks & Eks & HR & Hin & H2).
  assert (Esw : two_site_sweep svd flag eigs o m = bind (bind (site_loop stepc (ks ++ [kl]) m None) known) (fun '(m, e) => Ok (mz_set_step m (sgn (negb d)), e))).
  { unfold two_site_sweep. cbv zeta. rewrite HL, Hst. replace (0 <? sgn d)%Z with d by (destruct d; reflexivity). rewrite Eks. destruct d; reflexivity. }
  destruct (bloop d L ks (start d L) kl (start (negb d) L) m None HR (fun q Hq => proj1 (Hin q) Hq) Hg Hst HL Hcv) as [(EL & Hlost)|(m' & e & EL & A1 & A2 & AN & AC & A3)].
  { left. rewrite Esw, EL. split; [reflexivity|exact Hlost]. }
  right.
  assert (Ek : Nat.min kl (nx d kl) = (if negb d then 0 else L - 2)%nat) by (unfold kl, nx; destruct d; cbn [negb]; lia). rewrite Ek in *.
  exists (mz_set_step m' (sgn (negb d))), e. split; [|split; [|split]].
  - rewrite Esw, EL. reflexivity.
  - intros E2. cbn [mz_converged mz_set_step]. specialize (AN (H2 E2)). replace (if negb d then 0 else L - 2)%nat with 0%nat in AN by (destruct d; cbn; lia). exact AN.
  - intros E2. cbn [mz_converged mz_set_step]. specialize (AC (H2 E2)). replace (if negb d then 0 else L - 2)%nat with 0%nat in AC by (destruct d; cbn; lia). exact AC.
  - cbn [mz_converged mz_set_step]. intros Hc. destruct (A3 Hc) as (B1 & B2 & B3).
    split; [split; [exact B1|split; [reflexivity|split; [exact A2|exact Hc]]]|]. split; [exact B2|]. intros j Hj. apply B3. right. destruct d.
    + exists (j - 1)%nat. split; [apply Hin; lia|]. unfold nx. lia.
    + exists j. split; [apply Hin; lia|]. unfold nx. lia.
Qed.

Hypothesis HD : o_Dmax o <> 0%Z.
Lemma post_nonemptyb L d m E : (2 <= L)%nat -> postb L d m E -> mz_psi m <> [].
Proof. intros HL ((_ & _ & E1 & _) & _) E0. rewrite E0 in E1. cbn in E1. lia. Qed.

(** With two sites the states that a step can choose are all of them, so that an admissible one exists at every step or at none. *)
Lemma bloops L n : (2 <= L)%nat -> forall failures d m E, postb L d m E -> (full_loop svd flag eigs o n false failures m E = Abort /\ lost) \/ exists r E', full_loop svd flag eigs o n false failures m E = Ok (r, E') /\
  (r <> [] -> exists d m, r = mz_psi m /\ postb L d m E') /\
  (L = 2%nat -> eigs_converges eigs -> (forall P, open_mps P -> pdims P = ds -> exists r, (r < npair 0 P)%nat /\ adm (emb2 0 P (delta r))) -> r <> []).
Proof.
  intros HL0. induction n as [|n IH]; intros failures d m E HP.
  - right. exists (mz_psi m), E. split; [reflexivity|]. split; [eauto|]. intros _ _ _. exact (post_nonemptyb L d m E HL0 HP).
  - rewrite full_loop_S, (cany svd flag eigs o HD). destruct (bsweep L d m HL0 (proj1 HP)) as [(ES & Hlost)|(m1 & e1 & ES & _ & AC & AP)]; rewrite ES; cbn [bind]; [left; auto|].
    destruct (mz_converged m1) eqn:Hc; cbn [negb].
    2:{ right. exists [], E. split; [reflexivity|]. split; [congruence|]. intros E2 Hcc Ha. destruct HP as ((((Hop & Hpd & _) & _) & _) & _).
        discriminate (AC E2 Hcc (Ha _ Hop Hpd)). }
    specialize (AP eq_refl).
    assert (Hret : (Ok (mz_psi m1, e1) = Abort /\ lost) \/ exists r E', Ok (mz_psi m1, e1) = Ok (r, E') /\ (r <> [] -> exists d m, r = mz_psi m /\ postb L d m E') /\
      (L = 2%nat -> eigs_converges eigs -> (forall P, open_mps P -> pdims P = ds -> exists r, (r < npair 0 P)%nat /\ adm (emb2 0 P (delta r))) -> r <> [])).
    { right. exists (mz_psi m1), e1. split; [reflexivity|]. split; [eauto|]. intros _ _ _. exact (post_nonemptyb L _ m1 e1 HL0 AP). }
    destruct (Rltb (Rabs (e1 - E)) (o_tolerance o)); [exact Hret|].
    destruct (Rltb (1 / 10 ^ 14 * Rabs e1) (e1 - E)); [|apply (IH _ _ _ _ AP)].
    destruct (o_allow_E_growth o <=? failures)%Z; [exact Hret|apply (IH _ _ _ _ AP)].
Qed.

Lemma bfull L m : (2 <= L)%nat -> readyb L true m -> (0 < o_sweeps o)%Z -> (full_sweep svd flag eigs o m = Abort /\ lost) \/ exists r E, full_sweep svd flag eigs o m = Ok (r, E) /\
  (r <> [] -> exists d m, r = mz_psi m /\ postb L d m E) /\
  (L = 2%nat -> eigs_converges eigs -> (forall P, open_mps P -> pdims P = ds -> exists r, (r < npair 0 P)%nat /\ adm (emb2 0 P (delta r))) -> r <> []) /\
  (L = 2%nat -> (forall r, (r < npair 0 (mz_psi m))%nat -> ~ adm (emb2 0 (mz_psi m) (delta r))) -> r = [] /\ E = (10 ^ 28)%R).
Proof.
  intros HL0 HR Hs. unfold full_sweep. destruct (Z.to_nat (o_sweeps o)) as [|n] eqn:En; [lia|].
  rewrite full_loop_S, (cany svd flag eigs o HD). destruct (bsweep L true m HL0 HR) as [(ES & Hlost)|(m1 & e1 & ES & AN & AC & AP)]; rewrite ES; cbn [bind]; [left; auto|].
  destruct (mz_converged m1) eqn:Hc; cbn [negb].
  - destruct (bloops L n HL0 0%Z _ _ _ (AP eq_refl)) as [?|(r & E' & EL & B1 & B2)]; [left; assumption|right]. exists r, E'. split; [exact EL|]. split; [exact B1|]. split; [exact B2|].
    intros E2 Hno. discriminate (AN E2 Hno).
  - right. exists [], (10 ^ 28)%R. split; [reflexivity|]. split; [congruence|]. split; [|auto]. intros E2 Hcc Ha. destruct HR as (((Hop & Hpd & _) & _) & _).
    discriminate (AC E2 Hcc (Ha _ Hop Hpd)).
Qed.
End Run.
