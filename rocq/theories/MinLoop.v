(** * The loop of minimize() *)
From Coq Require Import Reals Lra Bool List Arith ZArith Lia Ring.
From Verif Require Import Scalar ScalarFacts RScal Tensor TensorFacts Spec MpsModel MpsFacts StateFacts StateFacts2 MpoSpec MpoFacts CanonSpec CanonModel
  TruncFacts SplitFacts CanonFacts CanonSweep CanonNorm CanonProps CanonTwo SweepFacts FormModel FormSpec LFormFacts QFormFacts QFormInv QFormValue QFormMain
  SimplifySpec SimplifyModel SimplifyFacts SimplifyStep SimplifyPair SimplifyDouble MinimizerModel MinLive MinimizeSpec MinLocal MinStep MinSweep.
Import ListNotations.
Local Open Scope K_scope.

Section Loop.
Context {RS : RScal}.
Add Ring Kring : k_ring.
Variable svd : tensor -> tensor * list R * tensor.
Variable flag : R.
Hypothesis Hsvd : svd_contract svd.
Variable eigs : (tensor -> result tensor) -> nat -> nat -> tensor -> result (list K * tensor * bool).
Hypothesis Heigs : eigs_contract eigs.
Variables (H : mpo) (ds : list nat).
Hypothesis HH : hamiltonian H ds.
Variable b : nat -> nat.
Hypothesis Hb : path H b.
Notation good := (good H ds b).
Notation W P := (weight ds (amp P)).
Notation En P := (energy H P).
Variable o : options.
Hypothesis Hgap : gap_ok eigs ds o.
Variable P0 : mps.
Notation L := (length P0).
Hypothesis HL : (0 < L)%nat.
Hypothesis HL2 : o_Dmax o = 0%Z \/ (2 <= L)%nat.

(** what the last step of a sweep that ends at the site k can change *)
Definition vary (k : nat) (P' phi : mps) : Prop :=
  if single_site o then differs_at P' phi k else differs_at2 P' phi (Nat.min k (L - 2)).
Definition bounded (P' : mps) : Prop :=
  if single_site o then forall j, (dim (site P' j) 0 <= dim (site P0 j) 0)%nat
  else (0 < o_Dmax o)%Z -> forall j, (0 < j < L)%nat -> (Z.of_nat (dim (site P' j) 0) <= o_Dmax o)%Z.

Definition ready (d : bool) (m : minimizer) : Prop :=
  good (start d L) m /\ mz_step m = sgn d /\ length (mz_psi m) = L /\ mz_converged m = true.
Definition post (d : bool) (m : minimizer) (E : R) : Prop :=
  ready d m /\ (forall lb, lower_bound H ds lb -> (lb <= E)%R) /\
  (0 < W (mz_psi m) <= 1)%R /\
  (keeps_all flag o -> W (mz_psi m) = 1%R /\ En (mz_psi m) = E /\ (E * W P0 <= En P0)%R) /\
  (forall phi, open_mps phi -> pdims phi = ds -> vary (start d L) (mz_psi m) phi -> (E * W phi <= En phi)%R) /\
  bounded (mz_psi m).

Lemma any_sweep_fine d m : ready d m -> (single_site o = true -> bounded (mz_psi m)) ->
  exists m' e, any_sweep svd flag eigs o m = Ok (m', e) /\ (eigs_converges eigs -> mz_converged m' = true) /\
    (mz_converged m' = true -> ready (negb d) m' /\ (forall lb, lower_bound H ds lb -> (lb <= e)%R) /\
     (0 < W (mz_psi m') <= 1)%R /\
     (keeps_all flag o -> W (mz_psi m') = 1%R /\ En (mz_psi m') = e /\ (e * W (mz_psi m) <= En (mz_psi m))%R) /\
     (forall phi, open_mps phi -> pdims phi = ds -> vary (start (negb d) L) (mz_psi m') phi -> (e * W phi <= En phi)%R) /\
     bounded (mz_psi m')).
Proof.
  intros (Hg & Hst & HLm & Hcv) Hbd. unfold any_sweep. destruct (single_site o) eqn:Es.
  - assert (HD : o_Dmax o = 0%Z) by (apply Z.eqb_eq; exact Es).
    destruct (one_sweep svd flag Hsvd eigs Heigs H ds HH b Hb o d m L (fun j => dim (site P0 j) 0) HD Hgap HL Hg Hst HLm Hcv) as (m' & e & E & A1 & A2 & AC & A3).
    exists m', e. split; [exact E|]. split; [exact AC|]. intros Hc. destruct (A3 Hc) as (B1 & B2 & BW & B3 & B4 & B5).
    split; [split; [exact B1|split; [exact A1|split; [exact A2|exact Hc]]]|]. split; [exact B2|]. split; [exact BW|]. split; [auto|]. split; [unfold vary; rewrite Es; exact B4|].
    specialize (Hbd eq_refl). unfold bounded in *. rewrite Es in *. intros j. apply B5. left. apply Hbd.
  - assert (HL3 : (2 <= L)%nat) by (destruct HL2 as [E|E]; [unfold single_site in Es; rewrite E in Es; discriminate|exact E]).
    destruct (two_sweep svd flag Hsvd eigs Heigs H ds HH b Hb o d m L Hgap HL3 Hg Hst HLm Hcv) as (m' & e & E & A1 & A2 & AC & A3).
    exists m', e. split; [exact E|]. split; [exact AC|]. intros Hc. destruct (A3 Hc) as (B1 & B2 & BW & B3 & B4 & B5).
    split; [split; [exact B1|split; [exact A1|split; [exact A2|exact Hc]]]|]. split; [exact B2|]. split; [exact BW|]. split; [|split].
    + intros (K1 & [K2|K2]); apply B3.
      * unfold single_site in Es. rewrite K2 in Es. discriminate.
      * split; [exact K1|]. apply exact_tol_iff. exact K2.
    + intros phi O1 D1 Hv. apply B4; try assumption. unfold vary in Hv. rewrite Es in Hv. destruct d; cbn [start negb] in Hv.
      * replace (Nat.min (L - 1) (L - 2)) with (L - 2)%nat in Hv by lia. exact Hv.
      * exact Hv.
    + unfold bounded. rewrite Es. intros HD j Hj. apply B5; [right; exact Hj|exact HD].
Qed.

Lemma any_sweep_post d m E : post d m E ->
  exists m' e, any_sweep svd flag eigs o m = Ok (m', e) /\ (eigs_converges eigs -> mz_converged m' = true) /\ (mz_converged m' = true -> post (negb d) m' e /\ (keeps_all flag o -> (e <= E)%R)).
Proof.
  intros (Hr & P1 & PW & P2 & P3 & P4). destruct (any_sweep_fine d m Hr (fun _ => P4)) as (m' & e & ES & HCC & HS). exists m', e. split; [exact ES|]. split; [exact HCC|].
  intros Hc. destruct (HS Hc) as (A1 & A2 & AW & A3 & A4 & A5).
  assert (Hle : keeps_all flag o -> (e <= E)%R).
  { intros Hk. destruct (A3 Hk) as (_ & _ & A). destruct (P2 Hk) as (-> & -> & _) in A. lra. }
  split; [|exact Hle]. split; [exact A1|]. split; [exact A2|]. split; [exact AW|]. split; [|split; assumption].
  intros Hk. destruct (A3 Hk) as (U1 & U2 & U3). split; [exact U1|]. split; [exact U2|]. destruct (P2 Hk) as (V1 & V2 & V3).
  specialize (Hle Hk). pose proof (weight_nonneg ds (amp P0)). nra.
Qed.

Lemma any_sweep_first m : ready true m -> mz_psi m = P0 ->
  exists m' e, any_sweep svd flag eigs o m = Ok (m', e) /\ (eigs_converges eigs -> mz_converged m' = true) /\ (mz_converged m' = true -> post false m' e).
Proof.
  intros Hr EP. assert (Hbd : single_site o = true -> bounded (mz_psi m)).
  { intros Es. unfold bounded. rewrite Es, EP. intros j. apply le_n. }
  destruct (any_sweep_fine true m Hr Hbd) as (m' & e & ES & HCC & HS). exists m', e. split; [exact ES|]. split; [exact HCC|]. intros Hc. destruct (HS Hc) as (A1 & A2 & AW & A3 & A4 & A5).
  split; [exact A1|]. split; [exact A2|]. split; [exact AW|]. split; [|split; assumption]. rewrite EP in A3. exact A3.
Qed.

Notation loop := (full_loop svd flag eigs o).
Definition settled (r : mps) (E : R) : Prop := r = [] \/ exists d m, r = mz_psi m /\ post d m E.

Lemma full_loop_S n first failures m E : loop (S n) first failures m E =
  bind (any_sweep svd flag eigs o m) (fun '(m, newE) =>
      if negb (mz_converged m) then Ok ([], E)
      else if first then loop n false failures m newE
      else if Rltb (Rabs (newE - E)) (o_tolerance o) then Ok (mz_psi m, newE)
      else if Rltb (1 / 10 ^ 14 * Rabs newE) (newE - E) then
        if (o_allow_E_growth o <=? failures)%Z then Ok (mz_psi m, newE)
        else loop n false (failures + 1) m newE
      else loop n false failures m newE).
Proof. reflexivity. Qed.

Lemma post_nonempty d m E : post d m E -> mz_psi m <> [].
Proof. intros (((((Hn & _) & _) & _) & _) & _). exact Hn. Qed.

Lemma loop_post n : forall failures d m E, post d m E ->
  exists r E', loop n false failures m E = Ok (r, E') /\ (eigs_converges eigs -> r <> []) /\ settled r E' /\ (keeps_all flag o -> (E' <= E)%R).
Proof.
  induction n as [|n IH]; intros failures d m E HP.
  - exists (mz_psi m), E. split; [reflexivity|]. split; [intros _; apply (post_nonempty d m E HP)|]. split; [right; exists d, m; auto|]. intros _. lra.
  - rewrite full_loop_S. destruct (any_sweep_post d m E HP) as (m' & e & ES & HCC & HS). rewrite ES. cbn [bind].
    destruct (mz_converged m') eqn:Hc; cbn [negb].
    2:{ exists [], E. split; [reflexivity|]. split; [intros Hcc; discriminate (HCC Hcc)|]. split; [left; reflexivity|]. intros _. lra. }
    destruct (HS eq_refl) as (HP' & Hle).
    assert (Hret : exists r E', Ok (mz_psi m', e) = Ok (r, E') /\ (eigs_converges eigs -> r <> []) /\ settled r E' /\ (keeps_all flag o -> (E' <= E)%R)).
    { exists (mz_psi m'), e. split; [reflexivity|]. split; [intros _; apply (post_nonempty (negb d) m' e HP')|]. split; [right; exists (negb d), m'; auto|exact Hle]. }
    assert (Hgo : forall f, exists r E', loop n false f m' e = Ok (r, E') /\ (eigs_converges eigs -> r <> []) /\ settled r E' /\ (keeps_all flag o -> (E' <= E)%R)).
    { intros f. destruct (IH f _ _ _ HP') as (r & E' & EL & HR & HS' & HE). exists r, E'. split; [exact EL|]. split; [exact HR|]. split; [exact HS'|]. intros Hk.
      specialize (HE Hk). specialize (Hle Hk). lra. }
    destruct (Rltb (Rabs (e - E)) (o_tolerance o)); [exact Hret|].
    destruct (Rltb (1 / 10 ^ 14 * Rabs e) (e - E)); [|apply Hgo].
    destruct (o_allow_E_growth o <=? failures)%Z; [exact Hret|apply Hgo].
Qed.

(** The energy never grows if nothing is lost. *)
Lemma no_growth e E : (e <= E)%R -> Rltb (1 / 10 ^ 14 * Rabs e) (e - E) = false.
Proof.
  intros Hle. destruct (Rltb (1 / 10 ^ 14 * Rabs e) (e - E)) eqn:Er; [|reflexivity]. apply Rltb_true in Er.
  pose proof (Rabs_pos e). assert (0 < 1 / 10 ^ 14)%R by (apply Rdiv_lt_0_compat; [lra|apply pow_lt; lra]). nra.
Qed.

Lemma loop_more n : forall k failures d m E r E' r2 E2, keeps_all flag o -> post d m E ->
  loop n false failures m E = Ok (r, E') -> loop (n + k) false failures m E = Ok (r2, E2) -> (E2 <= E')%R.
Proof.
  induction n as [|n IH]; intros k failures d m E r E' r2 E2 Hk HP.
  - cbn [full_loop]. intros Hr. apply Ok_inj' in Hr. injection Hr as _ <-. intros H2.
    destruct (loop_post k failures d m E HP) as (r3 & E3 & E4 & _ & _ & Hle). cbn [plus] in H2. rewrite H2 in E4. apply Ok_inj' in E4. injection E4 as <- <-. apply Hle, Hk.
  - cbn [plus]. rewrite !full_loop_S. destruct (any_sweep_post d m E HP) as (m' & e & ES & HCC & HS). rewrite ES. cbn [bind].
    destruct (mz_converged m') eqn:Hc; cbn [negb].
    2:{ intros H1 H2. apply Ok_inj' in H1, H2. injection H1 as _ <-. injection H2 as _ <-. lra. }
    destruct (HS eq_refl) as (HP' & Hle). rewrite (no_growth e E (Hle Hk)).
    destruct (Rltb (Rabs (e - E)) (o_tolerance o)).
    + intros H1 H2. apply Ok_inj' in H1, H2. injection H1 as _ <-. injection H2 as _ <-. lra.
    + apply (IH k failures (negb d) m' e r E' r2 E2 Hk HP').
Qed.

(** Once the energy has changed by less than the tolerance, further sweeps are not made. *)
Lemma loop_stops n : forall k failures d m E r E' r2 E2, keeps_all flag o -> post d m E ->
  loop n false failures m E = Ok (r, E') -> loop (S n) false failures m E = Ok (r2, E2) -> r2 <> [] -> (Rabs (E2 - E') < o_tolerance o)%R ->
  loop (S n + k) false failures m E = Ok (r2, E2).
Proof.
  induction n as [|n IH]; intros k failures d m E r E' r2 E2 Hk HP.
  - cbn [plus]. rewrite !full_loop_S. destruct (any_sweep_post d m E HP) as (m' & e & ES & HCC & HS). rewrite ES. cbn [bind]. intros Hr. apply Ok_inj' in Hr. injection Hr as <- <-.
    destruct (mz_converged m') eqn:Hc; cbn [negb].
    2:{ intros H2 Hne. apply Ok_inj' in H2. injection H2 as <- <-. congruence. }
    destruct (HS eq_refl) as (HP' & Hle). rewrite (no_growth e E (Hle Hk)).
    destruct (Rltb (Rabs (e - E)) (o_tolerance o)) eqn:Er; [intros ->; auto|]. intros H2 _ Hlt.
    cbn [full_loop] in H2. apply Ok_inj' in H2. injection H2 as <- <-. apply Rltb_false in Er. lra.
  - replace (S (S n) + k)%nat with (S (S n + k)) by lia. rewrite !(full_loop_S (S n)), !(full_loop_S n), (full_loop_S (S n + k)).
    destruct (any_sweep_post d m E HP) as (m' & e & ES & HCC & HS). rewrite ES. cbn [bind].
    destruct (mz_converged m') eqn:Hc; cbn [negb].
    2:{ intros _ H2 Hne. apply Ok_inj' in H2. injection H2 as <- <-. congruence. }
    destruct (HS eq_refl) as (HP' & Hle). rewrite (no_growth e E (Hle Hk)).
    destruct (Rltb (Rabs (e - E)) (o_tolerance o)) eqn:Er; [intros _ ->; auto|].
    apply (IH k failures (negb d) m' e r E' r2 E2 Hk HP').
Qed.
End Loop.

Section Growth.
Context {RS : RScal}.
Variable svd : tensor -> tensor * list R * tensor.
Variable flag : R.
Hypothesis Hsvd : svd_contract svd.
Variable eigs : (tensor -> result tensor) -> nat -> nat -> tensor -> result (list K * tensor * bool).
Hypothesis Heigs : eigs_contract eigs.
Variables (H : mpo) (ds : list nat).
Hypothesis HH : hamiltonian H ds.
Variable b : nat -> nat.
Hypothesis Hb : path H b.

Lemma loop_with o s n first failures m E :
  full_loop svd flag eigs (with_sweeps o s) n first failures m E = full_loop svd flag eigs o n first failures m E.
Proof.
  revert first failures m E. induction n as [|n IH]; intros first failures m E; [reflexivity|].
  rewrite !full_loop_S. change (any_sweep svd flag eigs (with_sweeps o s) m) with (any_sweep svd flag eigs o m).
  destruct (any_sweep svd flag eigs o m) as [[m' e]|]; cbn [bind]; [|reflexivity]. rewrite !IH. reflexivity.
Qed.
Lemma any_sweep_with o g m : any_sweep svd flag eigs (with_growth o g) m = any_sweep svd flag eigs o m.
Proof. reflexivity. Qed.

Lemma loop_growth o g P0 n : gap_ok eigs ds o -> (0 < length P0)%nat -> (o_Dmax o = 0%Z \/ (2 <= length P0)%nat) -> keeps_all flag o -> 
  forall f f' d m E, post flag H ds b o P0 d m E ->
  full_loop svd flag eigs o n false f m E = full_loop svd flag eigs (with_growth o g) n false f' m E.
Proof.
  intros Hgap HL HL2 Hk. induction n as [|n IH]; intros f f' d m E HP; [reflexivity|].
  rewrite !full_loop_S, any_sweep_with.
  destruct (any_sweep_post svd flag Hsvd eigs Heigs H ds HH b Hb o Hgap P0 HL HL2 d m E HP) as (m' & e & ES & HCC & HS). rewrite ES. cbn [bind].
  destruct (mz_converged m') eqn:Hc; cbn [negb]; [|reflexivity]. destruct (HS eq_refl) as (HP' & Hle). rewrite (no_growth e E (Hle Hk)).
  cbn [o_tolerance with_growth]. destruct (Rltb (Rabs (e - E)) (o_tolerance o)); [reflexivity|]. apply (IH f f' (negb d) m' e HP').
Qed.
End Growth.
