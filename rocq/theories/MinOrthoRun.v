(** * The runs of minimize() with a state that the result must be orthogonal to (one-site algorithm) *)
From Coq Require Import Reals Lra Bool List Arith ZArith Lia Ring.
From Verif Require Import Scalar ScalarFacts RScal Tensor TensorFacts Spec MpsModel MpsFacts StateFacts StateFacts2 MpoSpec MpoFacts CanonSpec CanonModel
  TruncFacts SplitFacts CanonFacts CanonSweep CanonNorm CanonProps CanonTwo SweepFacts FormModel FormSpec LFormFacts QFormFacts QFormInv QFormValue QFormMain
  SimplifySpec SimplifyModel SimplifyFacts SimplifyStep SimplifyPair SimplifyDouble MinimizerModel MinLive MinimizeSpec MinLocal MinStep MinSweep MinLoop MinOrtho.
Import ListNotations.
Local Open Scope K_scope.

Section Run.
Context {RS : RScal}.
Add Ring Kring : k_ring.
Variable svd : tensor -> tensor * list R * tensor.
Variable flag : R.
Hypothesis Hsvd : svd_contract svd.
Variable eigs : (tensor -> result tensor) -> nat -> nat -> tensor -> result (list K * tensor * bool).
Hypothesis Heigs : eigs_contract eigs.
Variables (H : mpo) (ds : list nat).
Hypothesis HH : hamiltonian H ds.
Variable b : nat -> nat.
Hypothesis Hb : path H b.
Variable phi : mps.
Hypothesis Hphi : open_mps phi /\ pdims phi = ds.
Variable o : options.
Hypothesis Hgap : o_compute_gap o = false \/ eigs_converges eigs.
Notation At1 := (At [1] [phi] ds).

Lemma phi_good : good_bras [1] [phi] ds.
Proof. split; [discriminate|]. split; [reflexivity|]. intros c [<-|[]]. exact Hphi. Qed.

Lemma overlap1 P : pdims P = ds -> overlap [1] [phi] P = inner ds (amp phi) (amp P).
Proof. intros HP. unfold overlap. cbn [length sum nth]. rewrite HP, kconj_1. ring. Qed.

Definition goodo (k : nat) (m : minimizer) : Prop :=
  QAt H ds b k (mz_psi m) (mz_H m) /\ canonical_at k (mz_psi m) /\ exists f, mz_ortho m = [f] /\ At1 k (mz_psi m) f.

(** What the step at the site k of P, which returns e and leaves P', has done: M is the local problem, v the
    gradient of the overlap with phi, p the solution. *)
Definition laststep (k : nat) (P : mps) (e : R) (P' : mps) : Prop :=
  let n := nprod (dims (site P k)) in
  exists M v p, open_mps P /\ pdims P = ds /\ (k < length P)%nat /\ canonical_at k P /\ family H ds n (emb1 k P) M /\
    (forall x, inner ds (amp phi) (amp (emb1 k P x)) = sum n (fun r => v r * x r)) /\
    (let nv := sqrt (rsum n (fun r => kmod2 (v r))) in
     nv <> 0%R /\ ground_state n (PMP n (fun r => rinj (/ sqrt nv) * v r) M) e p) /\
    (forall is, in_range ds is -> amp P' is = amp (emb1 k P p) is).

Lemma frob2_vec t : wf t -> frob2 t = rsum (nprod (dims t)) (fun r => kmod2 (vec t r)).
Proof. intros Hw. rewrite <- (ten_self t Hw) at 1. rewrite frob2_ten. reflexivity. Qed.

Lemma lf_store d k P f X P' : At1 k P f -> wf X -> dims X = dims (site P k) -> frob2 X <> 0%R ->
  set_canonical svd flag P (Z.of_nat k) X (sgn d) false = Ok P' -> At1 (nxt d (length P) k) P' (lf_propagate f (site P' k) (sgn d)).
Proof.
  intros HA HwX HdX Hnz ES. pose proof HA as (Ho & Hpd & Hk & Hh).
  destruct (nxt_cases d (length P) k Hk) as [Hm|(He & Ek)].
  - destruct (one_core svd flag Hsvd ds d k _ P X Ho Hpd Hk HwX HdX Hnz Hm) as (P2 & E & HS & _). rewrite ES in E. apply Ok_inj' in E. subst P2.
    exact (proj1 (at_moved [1] [phi] ds d k _ P P' f HA Hm HS)).
  - rewrite Ek. rewrite (single_core_end svd flag false d k P X) in ES by assumption. apply Ok_inj' in ES. subst P'. set (P1 := replace_nth k X P).
    destruct (open_replace P k X Ho Hk HwX HdX) as (O1 & D1). fold P1 in O1, D1. rewrite Hpd in D1.
    assert (Hl1 : length P1 = length P) by apply length_replace_nth.
    assert (E1 : firstn k P1 = firstn k P) by (apply (firstn_ext empty); [lia|]; intros j Hj; apply (site_replace_neq k _ P); lia).
    assert (E2 : skipn (S k) P1 = skipn (S k) P) by (apply (skipn_ext empty); [lia|]; intros j Hj; apply (site_replace_neq k _ P); lia).
    split; [exact O1|]. split; [exact D1|]. split; [lia|]. rewrite E1, E2. destruct d; cbn [sgn].
    + change (lf_propagate f (site P1 k) 1) with (lf_propagate_right f (site P1 k)). replace (skipn (S k) P) with (@nil tensor) in * by (symmetry; apply skipn_all2; lia).
      apply lfh_right_end. exact Hh.
    + change (lf_propagate f (site P1 k) (-1)) with (lf_propagate_left f (site P1 k)). subst k. cbn [firstn] in *. apply lfh_left_end. exact Hh.
Qed.

Lemma ostep d m k m' e : goodo k m -> mz_step m = sgn d -> single_site_step svd flag eigs o m k = Ok (m', e) -> mz_converged m' = true ->
  goodo (nxt d (length (mz_psi m)) k) m' /\ mz_step m' = sgn d /\ length (mz_psi m') = length (mz_psi m) /\ laststep k (mz_psi m) e (mz_psi m') /\
  (nxt d (length (mz_psi m)) k = k -> differs_at (mz_psi m) (mz_psi m') k).
Proof.
  intros (HQ & Hc & f & Ef & HA) Hst. set (P := mz_psi m) in *.
  pose proof HA as (Ho & Hpd & Hk & Hh).
  destruct (one_family H ds HH b Hb k P (mz_H m) HQ Hc) as (M & HF & HM). set (dd := dims (site P k)) in *. set (n := nprod dd) in *.
  pose proof (family_hermitian H ds HH n _ M HF) as Hherm.
  destruct (at_repr [1] [phi] ds phi_good k P f HA) as (v & Ev & Hwv & Hdv & Hrep).
  destruct (site_dims P k Ho Hk) as (a & i & c & Hs & Hws & Ha & Hi & Hc0).
  assert (Hn0 : (0 < n)%nat) by (unfold n, dd; rewrite Hs; cbn; nia).
  assert (Hld : length (data (site P k)) = n) by exact Hws.
  assert (Hhere : lf_here f = k).
  { pose proof (history_linv [1] [phi] ds phi_good f _ _ Hh) as ((_ & E & _) & _). rewrite E, firstn_length. lia. }
  unfold single_site_step, orthogonal_projectors. rewrite Ef. cbn [fold_left bind]. rewrite Hhere, Nat.eqb_refl. change (0 =? 0)%Z with true. cbv iota. rewrite Ev. cbn [bind].
  set (nv := norm2_tensor v) in *. destruct (Req_EM_T nv 0) as [En|En]; [discriminate|]. cbn [bind]. fold P. cbv zeta. rewrite Hld. fold dd.
  set (ot := tscale (rinj (/ sqrt nv)) v).
  assert (Hlo : length (data ot) = n).
  { unfold ot, tscale. cbn [data]. rewrite map_length. unfold wf in Hwv. rewrite Hwv, Hdv. reflexivity. }
  pose proof (proj_acts dd (mz_H m) ot M Hlo HM) as HM'. fold n in HM'.
  destruct (Heigs _ n 1%nat (site P k) _ ltac:(lia) ltac:(lia) Hld HM' (PMP_hermitian n _ M Hherm)) as (E & X & cv & EE & HlE & HlX & HG).
  rewrite EE. cbn [bind]. rewrite Nat.mul_1_r in HlX.
  assert (Hcv : forall cv', (if Nat.eqb k (length P / 2) && o_compute_gap o then
          bind (eigs (apply_qform1 dd (mz_H m) [ot]) (length (data X)) 2 X) (fun '(E2, _, converged) => bind (check_gap E2) (fun _ => Ok converged))
        else Ok cv) = Ok cv' -> cv' = true -> cv = true).
  { intros cv' E1 E2. destruct Hgap as [Hg|Hg]; [|exact (Hg _ _ _ _ _ _ _ EE)]. rewrite Hg, andb_false_r in E1. apply Ok_inj' in E1. congruence. }
  destruct (if Nat.eqb k (length P / 2) && o_compute_gap o then
          bind (eigs (apply_qform1 dd (mz_H m) [ot]) (length (data X)) 2 X) (fun '(E2, _, converged) => bind (check_gap E2) (fun _ => Ok converged))
        else Ok cv) as [cv'|]; [|intros E0; discriminate E0]. cbn [bind]. specialize (Hcv cv' eq_refl).
  destruct E as [|e0 [|e1 E]]; try discriminate HlE. cbn [first_energy bind].
  destruct cv'; [|intros E1 E2; apply Ok_inj' in E1; injection E1 as <- _; discriminate E2].
  destruct (HG eq_refl (Hcv eq_refl)) as (e' & Ee & Hgr). injection Ee as ->. rewrite kre_rinj. set (p := fun i => nth i (data X) 0) in *.
  assert (EX : checked_reshape X dd = Ok (ten dd p)).
  { unfold checked_reshape. fold n. rewrite HlX, Nat.eqb_refl. unfold reshape, ten. do 2 f_equal. fold n.
    apply (nth_ext _ _ 0 0); [rewrite map_length, seq_length; exact HlX|]. intros q Hq. rewrite (nth_map_seq p) by lia. reflexivity. }
  rewrite EX. cbn [bind]. rewrite Hst.
  assert (Hnz : frob2 (ten dd p) <> 0%R) by (rewrite frob2_ten; destruct Hgr as (Hg1 & _); fold n; rewrite Hg1; lra).
  destruct (one_store svd flag Hsvd H ds HH b Hb d k P (mz_H m) (ten dd p) HQ Hc (wf_ten _ _) eq_refl Hnz) as (P' & ES & Q' & C' & L' & A' & B' & D').
  rewrite ES. cbn [bind]. intros E1 _. apply Ok_inj' in E1. injection E1 as <- <-. cbn [mz_psi mz_propagate mz_step].
  split; [|split; [exact Hst|split; [exact L'|split; [|exact D']]]].
  - unfold goodo. cbn [mz_psi mz_H mz_ortho mz_propagate]. rewrite Hst, Ef. split; [exact Q'|]. split; [exact C'|]. exists (lf_propagate f (site P' k) (sgn d)). split; [reflexivity|].
    apply (lf_store d k P f (ten dd p)); auto. apply wf_ten.
  - unfold laststep. fold dd n. exists M, (vec v), p. split; [exact Ho|]. split; [exact Hpd|]. split; [exact Hk|]. split; [exact Hc|]. split; [exact HF|]. split; [|split; [|exact A']].
    + intros x. rewrite <- overlap1 by (apply (emb1_open ds k P x Ho Hpd Hk)). unfold emb1. fold dd. rewrite <- Hrep by (apply wf_ten || reflexivity).
      unfold dot. cbn [dims ten]. unfold n. rewrite sum_offset. apply sumcfg_ext. intros u Hu. rewrite get_ten by exact Hu. unfold get at 1. rewrite Hdv. reflexivity.
    + assert (Ev2 : sqrt (rsum n (fun r => kmod2 (vec v r))) = nv).
      { unfold nv. rewrite norm2_tensor_frob, (frob2_vec v Hwv), Hdv. reflexivity. }
      cbv zeta. rewrite Ev2. split; [exact En|].
      assert (Eo : forall r, (r < n)%nat -> vec ot r = rinj (/ sqrt nv) * vec v r).
      { intros r Hr. unfold ot, tscale, vec. cbn [data]. rewrite (nth_indep _ 0 (rinj (/ sqrt nv) * 0)) by (rewrite map_length; unfold wf in Hwv; rewrite Hwv, Hdv; exact Hr).
        apply (map_nth (kmul (rinj (/ sqrt nv)))). }
      assert (Epm : forall r s, (r < n)%nat -> (s < n)%nat -> PMP n (fun r => rinj (/ sqrt nv) * vec v r) M r s = PMP n (vec ot) M r s).
      { intros r s Hr Hs'. unfold PMP. apply sum_ext. intros t Ht. apply sum_ext. intros u Hu. unfold Pm. rewrite !Eo by assumption. reflexivity. }
      destruct Hgr as (G1 & G2 & G3). split; [exact G1|]. split.
      * intros r Hr. rewrite <- G2 by exact Hr. apply sum_ext. intros s Hs'. rewrite Epm by assumption. reflexivity.
      * intros y. specialize (G3 y). replace (sum n (fun i0 => sum n (fun j => kconj (y i0) * PMP n (fun r => rinj (/ sqrt nv) * vec v r) M i0 j * y j)))
          with (sum n (fun i0 => sum n (fun j => kconj (y i0) * PMP n (vec ot) M i0 j * y j))); [exact G3|].
        apply sum_ext. intros r Hr. apply sum_ext. intros s Hs'. rewrite Epm by assumption. reflexivity.
Qed.

(** A sweep *)
Lemma oloop d L ks : forall k0 k kend m E0 m' E1, route (nxt d L) (ks ++ [k]) k0 kend -> goodo k0 m -> mz_step m = sgn d -> length (mz_psi m) = L ->
  mz_converged m = true -> site_loop (single_site_step svd flag eigs o) (ks ++ [k]) m E0 = Ok (m', E1) -> mz_converged m' = true ->
  goodo kend m' /\ mz_step m' = sgn d /\ length (mz_psi m') = L /\
  exists P e, E1 = Some e /\ laststep k P e (mz_psi m') /\ (nxt d L k = k -> differs_at P (mz_psi m') k).
Proof.
  induction ks as [|k1 ks IH]; intros k0 k kend m E0 m' E1 HR Hg Hst HL Hcv EL Hc'; cbn [app route] in HR; destruct HR as (-> & HR).
  - subst kend. cbn [app site_loop] in EL. rewrite Hcv in EL. destruct (single_site_step svd flag eigs o m k0) as [[m1 e1]|] eqn:ES; [|discriminate EL].
    cbn [bind] in EL. apply Ok_inj' in EL. injection EL as -> <-. destruct (ostep d m k0 m' e1 Hg Hst ES Hc') as (A1 & A2 & A3 & A4 & A5).
    rewrite HL in *. split; [exact A1|]. split; [exact A2|]. split; [exact A3|]. exists (mz_psi m), e1. auto.
  - cbn [app site_loop] in EL. rewrite Hcv in EL. destruct (single_site_step svd flag eigs o m k0) as [[m1 e1]|] eqn:ES; [|discriminate EL]. cbn [bind] in EL.
    destruct (mz_converged m1) eqn:Hc1.
    + destruct (ostep d m k0 m1 e1 Hg Hst ES Hc1) as (A1 & A2 & A3 & _). rewrite HL in *. apply (IH _ _ _ _ _ _ _ HR A1 A2 A3 Hc1 EL Hc').
    + exfalso. assert (Em : m' = m1) by (destruct ks; cbn [app site_loop] in EL; rewrite Hc1 in EL; apply Ok_inj' in EL; congruence). congruence.
Qed.

Definition readyo (L : nat) (d : bool) (m : minimizer) : Prop := goodo (start d L) m /\ mz_step m = sgn d /\ length (mz_psi m) = L /\ mz_converged m = true.
Definition posto (L : nat) (d : bool) (m : minimizer) (E : R) : Prop :=
  readyo L d m /\ exists P, laststep (start d L) P E (mz_psi m) /\ differs_at P (mz_psi m) (start d L).

Lemma osweep L d m m' e : (0 < L)%nat -> readyo L d m -> single_site_sweep svd flag eigs o m = Ok (m', e) -> mz_converged m' = true -> posto L (negb d) m' e.
Proof.
  intros HL0 (Hg & Hst & HL & Hcv) ES Hc'.
  assert (HR : exists ks, (if d then seq 0 L else rev (seq 0 L)) = ks ++ [start (negb d) L] /\ route (nxt d L) (ks ++ [start (negb d) L]) (start d L) (start (negb d) L)).
  { destruct d; cbn [start negb].
    - exists (seq 0 (L - 1)). assert (E : seq 0 L = seq 0 (L - 1) ++ [(L - 1)%nat]).
      { replace L with (S (L - 1)) at 1 by lia. rewrite seq_S. reflexivity. }
      split; [exact E|]. rewrite <- E. apply route_right; [|exact HL0|].
      + intros k _ Hk. unfold nxt. destruct (Nat.eqb_spec (S k) L); lia.
      + unfold nxt. destruct (Nat.eqb_spec (S (0 + L - 1)) L); lia.
    - destruct (seq_rev_last 0 L HL0) as (l & E & _). exists l. split; [exact E|]. rewrite <- E. apply (route_left _ _ 0 L); [|exact HL0|reflexivity].
      intros k H1 H2. reflexivity. }
  destruct HR as (ks & Eks & HR). unfold single_site_sweep in ES. cbv zeta in ES. rewrite HL, Hst in ES.
  replace (0 <? sgn d)%Z with d in ES by (destruct d; reflexivity). rewrite Eks in ES.
  destruct (site_loop (single_site_step svd flag eigs o) (ks ++ [start (negb d) L]) m None) as [[m1 E1]|] eqn:EL; [|discriminate ES]. cbn [bind] in ES.
  destruct E1 as [e1|]; [|discriminate ES]. cbn [known bind] in ES. apply Ok_inj' in ES. injection ES as <- <-. cbn [mz_converged mz_set_step] in Hc'.
  destruct (oloop d L ks _ _ _ _ _ _ _ HR Hg Hst HL Hcv EL Hc') as (A1 & A2 & A3 & P & e & Ee & A4 & A5). injection Ee as ->.
  split; [split; [exact A1|split; [destruct d; reflexivity|split; [exact A3|exact Hc']]]|]. exists P. split; [exact A4|]. apply A5.
  unfold nxt. destruct d; cbn [start negb]; [|reflexivity]. destruct (Nat.eqb_spec (S (L - 1)) L); lia.
Qed.

Hypothesis HD : o_Dmax o = 0%Z.
Lemma oany m : any_sweep svd flag eigs o m = single_site_sweep svd flag eigs o m.
Proof. unfold any_sweep, single_site. rewrite HD. reflexivity. Qed.

Lemma oloops L n : (0 < L)%nat -> forall failures d m E r E', posto L d m E -> full_loop svd flag eigs o n false failures m E = Ok (r, E') -> r <> [] ->
  exists d m, r = mz_psi m /\ posto L d m E'.
Proof.
  intros HL0. induction n as [|n IH]; intros failures d m E r E' HP EL Hr.
  - cbn [full_loop] in EL. apply Ok_inj' in EL. injection EL as <- <-. eauto.
  - rewrite full_loop_S, oany in EL. destruct (single_site_sweep svd flag eigs o m) as [[m1 e1]|] eqn:ES; [|discriminate EL]. cbn [bind] in EL.
    destruct (mz_converged m1) eqn:Hc; cbn [negb] in EL; [|apply Ok_inj' in EL; congruence].
    pose proof (osweep L d m m1 e1 HL0 (proj1 HP) ES Hc) as HP1.
    assert (Hret : Ok (mz_psi m1, e1) = Ok (r, E') -> exists d m, r = mz_psi m /\ posto L d m E').
    { intros E1. apply Ok_inj' in E1. injection E1 as <- <-. eauto. }
    destruct (Rltb (Rabs (e1 - E)) (o_tolerance o)); [auto|].
    destruct (Rltb (1 / 10 ^ 14 * Rabs e1) (e1 - E)); [|exact (IH _ _ _ _ _ _ HP1 EL Hr)].
    destruct (o_allow_E_growth o <=? failures)%Z; [auto|exact (IH _ _ _ _ _ _ HP1 EL Hr)].
Qed.

Lemma ofull L m r E : (0 < L)%nat -> readyo L true m -> (0 < o_sweeps o)%Z -> full_sweep svd flag eigs o m = Ok (r, E) -> r <> [] ->
  exists d m, r = mz_psi m /\ posto L d m E.
Proof.
  intros HL0 HR Hs EL Hr. unfold full_sweep in EL. destruct (Z.to_nat (o_sweeps o)) as [|n] eqn:En; [lia|].
  rewrite full_loop_S, oany in EL. destruct (single_site_sweep svd flag eigs o m) as [[m1 e1]|] eqn:ES; [|discriminate EL]. cbn [bind] in EL.
  destruct (mz_converged m1) eqn:Hc; cbn [negb] in EL; [|apply Ok_inj' in EL; congruence].
  exact (oloops L n HL0 _ _ _ _ _ _ (osweep L true m m1 e1 HL0 HR ES Hc) EL Hr).
Qed.

(** The step returns unless the vector is zero, when it would divide by zero. *)
Lemma ostep_returns d m k x : goodo k m -> mz_step m = sgn d -> o_compute_gap o = false -> inner ds (amp phi) (amp (emb1 k (mz_psi m) x)) <> 0 ->
  exists m' e, single_site_step svd flag eigs o m k = Ok (m', e) /\ (eigs_converges eigs -> mz_converged m' = true).
Proof.
  intros (HQ & Hc & f & Ef & HA) Hst Hg Hx. set (P := mz_psi m) in *.
  pose proof HA as (Ho & Hpd & Hk & Hh).
  destruct (one_family H ds HH b Hb k P (mz_H m) HQ Hc) as (M & HF & HM). set (dd := dims (site P k)) in *. set (n := nprod dd) in *.
  pose proof (family_hermitian H ds HH n _ M HF) as Hherm.
  destruct (at_repr [1] [phi] ds phi_good k P f HA) as (v & Ev & Hwv & Hdv & Hrep).
  destruct (site_dims P k Ho Hk) as (a & i & c & Hs & Hws & Ha & Hi & Hc0).
  assert (Hn0 : (0 < n)%nat) by (unfold n, dd; rewrite Hs; cbn; nia).
  assert (Hld : length (data (site P k)) = n) by exact Hws.
  assert (Hhere : lf_here f = k).
  { pose proof (history_linv [1] [phi] ds phi_good f _ _ Hh) as ((_ & E & _) & _). rewrite E, firstn_length. lia. }
  unfold single_site_step, orthogonal_projectors. rewrite Ef. cbn [fold_left bind]. rewrite Hhere, Nat.eqb_refl. change (0 =? 0)%Z with true. cbv iota. rewrite Ev. cbn [bind].
  set (nv := norm2_tensor v) in *. destruct (Req_EM_T nv 0) as [En|En].
  { exfalso. apply Hx. rewrite <- overlap1 by (apply (emb1_open ds k P x Ho Hpd Hk)). unfold emb1. fold dd. rewrite <- Hrep by (apply wf_ten || reflexivity).
    unfold dot. cbn [dims ten]. transitivity (sumcfg dd (fun _ => 0)); [apply sumcfg_ext|apply sumcfg_zero; reflexivity]. intros u Hu.
    assert (Hz : vec v (offset dd u) = 0); [|unfold get at 1; rewrite Hdv; fold dd; unfold vec in Hz; rewrite Hz; ring].
    unfold nv in En. rewrite norm2_tensor_frob in En. apply sqrt_eq_0 in En; [|apply frob2_nonneg]. rewrite (frob2_vec v Hwv), Hdv in En. fold dd n in En.
    apply kmod2_zero. apply (rsum_zero_inv n (fun r => kmod2 (vec v r))); [intros; apply kmod2_nonneg|exact En|]. unfold n. apply offset_lt. exact Hu. }
  cbn [bind]. fold P. cbv zeta. rewrite Hld. fold dd.
  set (ot := tscale (rinj (/ sqrt nv)) v).
  assert (Hlo : length (data ot) = n).
  { unfold ot, tscale. cbn [data]. rewrite map_length. unfold wf in Hwv. rewrite Hwv, Hdv. reflexivity. }
  pose proof (proj_acts dd (mz_H m) ot M Hlo HM) as HM'. fold n in HM'.
  destruct (Heigs _ n 1%nat (site P k) _ ltac:(lia) ltac:(lia) Hld HM' (PMP_hermitian n _ M Hherm)) as (E & X & cv & EE & HlE & HlX & HG).
  rewrite EE. cbn [bind]. rewrite Nat.mul_1_r in HlX. rewrite Hg, andb_false_r. cbn [bind].
  destruct E as [|e0 [|e1 E]]; try discriminate HlE. cbn [first_energy bind].
  destruct cv; [|eexists; eexists; split; [reflexivity|]; intros Hcc; exact (Hcc _ _ _ _ _ _ _ EE)].
  destruct (HG eq_refl eq_refl) as (e' & Ee & Hgr). injection Ee as ->. rewrite kre_rinj. set (p := fun i => nth i (data X) 0) in *.
  assert (EX : checked_reshape X dd = Ok (ten dd p)).
  { unfold checked_reshape. fold n. rewrite HlX, Nat.eqb_refl. unfold reshape, ten. do 2 f_equal. fold n.
    apply (nth_ext _ _ 0 0); [rewrite map_length, seq_length; exact HlX|]. intros q Hq. rewrite (nth_map_seq p) by lia. reflexivity. }
  rewrite EX. cbn [bind]. rewrite Hst.
  assert (Hnz : frob2 (ten dd p) <> 0%R) by (rewrite frob2_ten; destruct Hgr as (Hg1 & _); fold n; rewrite Hg1; lra).
  destruct (one_store svd flag Hsvd H ds HH b Hb d k P (mz_H m) (ten dd p) HQ Hc (wf_ten _ _) eq_refl Hnz) as (P' & ES & _).
  rewrite ES. cbn [bind]. eexists; eexists; split; [reflexivity|]. intros _. reflexivity.
Qed.
End Run.

(** One site *)
Section Single.
Context {RS : RScal}.
Add Ring Kring2 : k_ring.

Lemma single_emb P d x : open_mps P -> pdims P = [d] -> dims (site P 0) = [1; d; 1]%nat /\ forall r, (r < d)%nat -> amp (emb1 0 P x) [r] = x r.
Proof.
  intros (Hn & HL) Hd. destruct P as [|A [|B P]]; try discriminate Hd. cbn [linked] in HL. destruct HL as (d' & c & HA & Hw & _ & _ & ->).
  cbn [pdims map] in Hd. injection Hd as Hd. unfold dim in Hd. rewrite HA in Hd. cbn [nth] in Hd. subst d'. cbn [site nth]. split; [exact HA|]. intros r Hr.
  unfold emb1. cbn [site nth replace_nth]. rewrite HA. unfold amp, left_bond. cbn [chain dim dims ten nth sum].
  rewrite get_ten by (repeat constructor; lia). cbn [offset]. rewrite Nat.mul_1_l, Nat.mul_0_r, Nat.add_0_r, Nat.add_0_l. unfold delta. cbn [Nat.eqb]. ring.
Qed.

Lemma ground_ext n M M' e p : (forall i j, (i < n)%nat -> (j < n)%nat -> M' i j = M i j) -> ground_state n M e p -> ground_state n M' e p.
Proof.
  intros HM (G1 & G2 & G3). split; [exact G1|]. split.
  - intros i Hi. rewrite <- G2 by exact Hi. apply sum_ext. intros j Hj. rewrite HM by assumption. reflexivity.
  - intros y. specialize (G3 y). replace (sum n (fun i => sum n (fun j => kconj (y i) * M' i j * y j))) with (sum n (fun i => sum n (fun j => kconj (y i) * M i j * y j))); [exact G3|].
    apply sum_ext. intros i Hi. apply sum_ext. intros j Hj. rewrite HM by assumption. reflexivity.
Qed.
Lemma PMP_ext n v v' M M' : (forall i, (i < n)%nat -> v' i = v i) -> (forall i j, (i < n)%nat -> (j < n)%nat -> M' i j = M i j) ->
  forall i j, (i < n)%nat -> (j < n)%nat -> PMP n v' M' i j = PMP n v M i j.
Proof.
  intros Hv HM i j Hi Hj. unfold PMP. apply sum_ext. intros s Hs. apply sum_ext. intros t Ht. unfold Pm. rewrite !Hv, HM by assumption. reflexivity.
Qed.

Lemma single_last H d phi P e P' : laststep H [d] phi 0 P e P' ->
  exists p, (forall r, (r < d)%nat -> amp P' [r] = p r) /\
    let nv := sqrt (rsum d (fun r => kmod2 (amp phi [r]))) in
    nv <> 0%R /\ ground_state d (PMP d (fun r => rinj (/ sqrt nv) * kconj (amp phi [r])) (fun r c => opelem H [r] [c])) e p.
Proof.
  intros (M & v & p & L1 & L2 & L3 & L4 & (F1 & F2 & F3) & Hv & Hgr & HA). exists p.
  destruct (single_emb P d p L1 L2) as (Hdim & _).
  assert (Hemb : forall x r, (r < d)%nat -> amp (emb1 0 P x) [r] = x r) by (intros x; apply (single_emb P d x L1 L2)).
  set (n := nprod (dims (site P 0))) in *. assert (Hn : n = d) by (unfold n; rewrite Hdim; cbn; lia). clearbody n. subst n.
  split.
  { intros r Hr. rewrite HA by (repeat constructor; exact Hr). apply Hemb. exact Hr. }
  assert (Ev : forall r, (r < d)%nat -> v r = kconj (amp phi [r])).
  { intros r Hr. specialize (Hv (delta r)). rewrite (sum_ext d _ (fun s => delta r s * v s)) in Hv by (intros; ring). rewrite sum_delta_l' in Hv by exact Hr.
    rewrite <- Hv. unfold inner. cbn [sumcfg]. rewrite (sum_ext d _ (fun s => delta r s * kconj (amp phi [s]))).
    - rewrite sum_delta_l' by exact Hr. reflexivity.
    - intros s Hs. rewrite Hemb by exact Hs. ring. }
  assert (EM : forall i j, (i < d)%nat -> (j < d)%nat -> M i j = opelem H [i] [j]).
  { intros i j Hi Hj. rewrite <- (sum_delta2 d M i j) by assumption. rewrite <- F3. unfold sandwich. rewrite (proj2 (F1 (delta i))), (proj2 (F1 (delta j))). cbn [sumcfg].
    rewrite <- (sum_delta2 d (fun i j => opelem H [i] [j]) i j) by assumption. apply sum_ext. intros r Hr. apply sum_ext. intros s Hs. rewrite !Hemb by assumption. reflexivity. }
  cbv zeta in *. replace (rsum d (fun r => kmod2 (amp phi [r]))) with (rsum d (fun r => kmod2 (v r))).
  2:{ apply rsum_ext. intros r Hr. rewrite Ev by exact Hr. apply rinj_inj. rewrite !kmod2_spec, kconj_inv. ring. }
  destruct Hgr as (G1 & G2). split; [exact G1|]. refine (ground_ext d _ _ e p _ G2). intros i j Hi Hj. apply PMP_ext; try assumption.
  - intros r Hr. rewrite Ev by exact Hr. reflexivity.
  - intros r c Hr Hc. rewrite EM by assumption. reflexivity.
Qed.

Variable svd : tensor -> tensor * list R * tensor.
Variable flag : R.
Hypothesis Hsvd : svd_contract svd.
Variable eigs : (tensor -> result tensor) -> nat -> nat -> tensor -> result (list K * tensor * bool).
Hypothesis Heigs : eigs_contract eigs.
Hypothesis Hcc : eigs_converges eigs.
Variables (H : mpo) (d0 : nat).
Hypothesis HH : hamiltonian H [d0].
Variable b : nat -> nat.
Hypothesis Hb : path H b.
Variable phi : mps.
Hypothesis Hphi : open_mps phi /\ pdims phi = [d0].
Hypothesis Hnz : exists r, (r < d0)%nat /\ amp phi [r] <> 0.
Variable o : options.
Hypothesis Hgap : o_compute_gap o = false.
Hypothesis HD : o_Dmax o = 0%Z.

Lemma single_sweep_returns d m : readyo H [d0] b phi 1 d m -> exists m' e, single_site_sweep svd flag eigs o m = Ok (m', e) /\ mz_converged m' = true.
Proof.
  intros (Hg & Hst & HL & Hcv). assert (Es : start d 1 = 0%nat) by (destruct d; reflexivity). rewrite Es in Hg.
  pose proof Hg as ((Ho & Hpd & _) & _). destruct Hnz as (r & Hr & Hne).
  destruct (ostep_returns svd flag Hsvd eigs Heigs H [d0] HH b Hb phi Hphi o d m 0 (delta r) Hg Hst Hgap) as (m' & e & E & Hc).
  { unfold inner. cbn [sumcfg]. rewrite (sum_ext d0 _ (fun s => delta r s * kconj (amp phi [s]))).
    - rewrite sum_delta_l' by exact Hr. intros E. apply Hne. rewrite <- (kconj_inv (amp phi [r])), E. apply kconj_0.
    - intros s Hs. rewrite (proj2 (single_emb _ d0 (delta r) Ho Hpd) s Hs). ring. }
  exists (mz_set_step m' (if (0 <? mz_step m)%Z then -1 else 1)), e. split; [|apply Hc; exact Hcc].
  unfold single_site_sweep. rewrite HL. destruct (0 <? mz_step m)%Z; cbn [seq rev app site_loop]; rewrite Hcv, E; reflexivity.
Qed.

Lemma single_loop_returns n : forall first failures d m E, readyo H [d0] b phi 1 d m ->
  exists r E', full_loop svd flag eigs o n first failures m E = Ok (r, E') /\ r <> [].
Proof.
  induction n as [|n IH]; intros first failures d m E HR.
  - exists (mz_psi m), E. split; [reflexivity|]. destruct HR as (_ & _ & HL & _). intros E0. rewrite E0 in HL. discriminate HL.
  - rewrite full_loop_S, (oany svd flag eigs o HD). destruct (single_sweep_returns d m HR) as (m' & e & ES & Hc). rewrite ES. cbn [bind]. rewrite Hc. cbn [negb].
    pose proof (proj1 (osweep svd flag Hsvd eigs Heigs H [d0] HH b Hb phi Hphi o (or_introl Hgap) 1 d m m' e ltac:(lia) HR ES Hc)) as HR'.
    assert (Hne : mz_psi m' <> []) by (destruct HR' as (_ & _ & HL & _); intros E0; rewrite E0 in HL; discriminate HL).
    destruct first; [apply (IH _ _ _ _ _ HR')|].
    destruct (Rltb (Rabs (e - E)) (o_tolerance o)); [eauto|].
    destruct (Rltb (1 / 10 ^ 14 * Rabs e) (e - E)); [|apply (IH _ _ _ _ _ HR')].
    destruct (o_allow_E_growth o <=? failures)%Z; [eauto|apply (IH _ _ _ _ _ HR')].
Qed.
End Single.
