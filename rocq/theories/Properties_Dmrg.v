(** * C70, C71: class DMRG *)
From Coq Require Import Reals Lra Bool List Arith ZArith Lia Ring.
From Verif Require Import Scalar ScalarFacts RScal RealInst Tensor TensorFacts Spec MpsModel MpsFacts StateFacts CanonSpec CanonModel TruncFacts
  SimplifySpec SimplifyModel SimplifyFacts SimplifyStep CanonSweep HamSpec HamModel HamFacts MinimizerModel MinimizeSpec
  SvdExist EigsExist Properties_Canon Properties_Minimize DmrgExist DmrgModel DmrgSpec DmrgFamily DmrgStep DmrgSim.
Import ListNotations.
Local Open Scope K_scope.

Section Dmrg.
Context {RS : RScal}.
Variable svd : tensor -> tensor * list R * tensor.
Variable flag : R.
Hypothesis Hsvd : svd_contract svd.
Variable eigs : tensor -> nat -> tensor -> list K * list K.
Variable arpack : (tensor -> tensor) -> nat -> nat -> tensor -> option (list K * list K).
Hypothesis Heigs : dense_contract eigs.
Hypothesis Harp : arpack_contract arpack.
Notation minimize D psi Dmax E := (dmrg_minimize svd flag eigs arpack D psi Dmax E).

(** The constructor rejects Hamiltonians of less than two sites, and periodic ones. *)
Theorem C70_new H g : (h_size H < 2)%nat \/ h_periodic H = true <-> dmrg_new H g = Abort.
Proof.
  unfold dmrg_new. destruct (Nat.ltb_spec (h_size H) 2), (h_periodic H); cbn; split; try tauto; try discriminate; intros [H1|H1]; (lia || discriminate).
Qed.

Lemma dmrg_start D psi : valid_call_dmrg flag D psi -> d_P0 D = [] -> exists P blk, canonical_form svd flag psi (-1) = Ok P /\ init_matrices D P = Ok (blk, []) /\
  DAt D 0 P blk /\ (forall j, (dim (site P j) 0 <= dim (site psi j) 0)%nat) /\ (exact_flag flag -> forall is, in_range (h_dims (d_H D)) is -> amp P is = amp psi is).
Proof.
  intros (HV & Ho & Hpd & Hz) HP0. assert (Hw : wf_mps psi) by (destruct Ho as (H1 & H2); split; [exact H1|exists 1%nat; auto]).
  assert (Hl : (0 < length psi)%nat) by (destruct psi; [destruct Ho; congruence|cbn; lia]).
  destruct (C14_canonical_form svd flag Hsvd psi 0 Hw Hl Hz) as (P & E & C1 & C2 & C3 & C4 & C5 & C6 & C7).
  assert (E' : canonical_form svd flag psi (-1) = Ok P) by (rewrite (proj1 (C14_canonical_form_sense svd flag psi (-1))); exact E).
  assert (Hl' : length P = length psi) by (rewrite <- !length_pdims; congruence).
  destruct (init_ok D HV HP0 P (C2 Ho) ltac:(congruence)) as (blk & EI & HA).
  { split; [exact C5|rewrite Hl'; exact C6]. }
  exists P, blk. split; [exact E'|]. split; [exact EI|]. split; [exact HA|]. split; [exact C4|]. intros Hx. rewrite <- Hpd. exact (C7 Hx).
Qed.

Lemma dmrg_run D psi E0 : valid_call_dmrg flag D psi -> d_P0 D = [] -> (0 < d_sweeps D)%Z ->
  wp arpack (minimize D psi 0 E0) (fun '(psi', E) => exists d blk, settled flag D d psi' blk E /\
    (exact_flag flag -> (E * weight (h_dims (d_H D)) (amp psi) <= henergy (d_H D) psi)%R) /\ forall j, (dim (site psi' j) 0 <= dim (site psi j) 0)%nat).
Proof.
  intros HC HP0 Hs. pose proof HC as (HV & Ho & Hpd & _). destruct (dmrg_start D psi HC HP0) as (P & blk & E1 & E2 & HA & Hdim & Hamp).
  unfold dmrg_minimize. rewrite E1. cbn [bind]. rewrite E2. cbn [bind]. destruct (Z.to_nat (d_sweeps D)) as [|n] eqn:En; [lia|].
  apply (wp_impl arpack _ _ _ _ (loop_first svd flag Hsvd eigs arpack Heigs Harp D HV HP0 n P blk E0 HA)).
  intros (P' & E') (d & blk' & HS & Hbel & Hsm). exists d, blk'. split; [exact HS|]. split.
  - intros Hx. specialize (Hbel Hx). pose proof HA as (_ & HpP & _). destruct (En_ext D psi P Hpd HpP (Hamp Hx)) as (U1 & U2). rewrite U1, U2 in Hbel. exact Hbel.
  - intros j. eapply Nat.le_trans; [apply Hsm|apply Hdim].
Qed.

(** minimize() returns if Arpack never fails. *)
Theorem C70_returns D psi E0 : valid_call_dmrg flag D psi -> d_P0 D = [] -> arpack_succeeds arpack -> exists psi' E, minimize D psi 0 E0 = Ok (psi', E).
Proof.
  intros HC HP0 Ha. destruct (Z.ltb_spec 0 (d_sweeps D)) as [Hs|Hs].
  - pose proof (dmrg_run D psi E0 HC HP0 Hs) as HW. destruct (minimize D psi 0 E0) as [(psi' & E)|]; [exists psi', E; reflexivity|].
    destruct HW as (f & n & v & En). destruct (Ha _ _ _ _ En).
  - destruct (dmrg_start D psi HC HP0) as (P & blk & E1 & E2 & _). exists P, E0. unfold dmrg_minimize. rewrite E1. cbn [bind]. rewrite E2. cbn [bind].
    replace (Z.to_nat (d_sweeps D)) with 0%nat by lia. reflexivity.
Qed.

(** Found: the states given to orthogonal_to() are ignored by the one-site algorithm: whatever a call returns, it also returns
    with the list of these states cleared. *)
Theorem C70_orthogonal_refuted D psi E0 r : minimize D psi 0 E0 = Ok r -> minimize (clear_orthogonality D) psi 0 E0 = Ok r.
Proof. apply minimize_sim. Qed.

Section Run.
Variables (D : dmrg) (psi psi' : mps) (E0 E : R).
Notation H := (d_H D).
Notation ds := (h_dims H).
Hypothesis HC : valid_call_dmrg flag D psi.
Hypothesis Hs : (0 < d_sweeps D)%Z.
Hypothesis Hrun : minimize D psi 0 E0 = Ok (psi', E).

Lemma dmrg_settled : exists d blk, settled flag (clear_orthogonality D) d psi' blk E /\
    (exact_flag flag -> (E * weight ds (amp psi) <= henergy H psi)%R) /\ forall j, (dim (site psi' j) 0 <= dim (site psi j) 0)%nat.
Proof.
  pose proof (minimize_sim svd flag eigs arpack D psi E0 _ Hrun) as Hr.
  pose proof (dmrg_run (clear_orthogonality D) psi E0 HC eq_refl Hs) as HW. rewrite Hr in HW. exact HW.
Qed.

(** The result: an open state of the same sites, canonical around the first or the last one; no bond dimension grows. *)
Theorem C70_result : open_mps psi' /\ pdims psi' = ds /\ (canonical_at 0 psi' \/ canonical_at (h_size H - 1) psi') /\
  forall j, (dim (site psi' j) 0 <= dim (site psi j) 0)%nat.
Proof.
  destruct dmrg_settled as (d & blk & ((O1 & P1 & _ & C1 & _) & _) & _ & Hd). split; [exact O1|]. split; [exact P1|]. split; [|exact Hd].
  destruct d; [right|left]; exact C1.
Qed.

(** When nothing is truncated the returned state has norm one and the returned number is its energy. *)
Theorem C70_energy : no_truncation flag -> weight ds (amp psi') = 1%R /\ henergy H psi' = E.
Proof. intros Hx. destruct dmrg_settled as (d & blk & (_ & _ & HX & _) & _). exact (HX Hx). Qed.

(** The returned number is never below the spectrum of H. *)
Theorem C70_bound e : hlower_bound H e -> (e <= E)%R.
Proof. destruct dmrg_settled as (d & blk & (_ & HB & _) & _). apply HB. Qed.

(** It is not above the energy of the initial state. *)
Theorem C70_not_worse : no_truncation flag -> (E * weight ds (amp psi) <= henergy H psi)%R.
Proof. intros Hx. destruct dmrg_settled as (d & blk & _ & HB & _). exact (HB Hx). Qed.

(** In particular: starting from a ground state, the result is one. *)
Theorem C70_ground_state e : no_truncation flag -> hlower_bound H e -> weight ds (amp psi) <> 0%R -> henergy H psi = (e * weight ds (amp psi))%R ->
  E = e /\ henergy H psi' = (e * weight ds (amp psi'))%R.
Proof.
  intros Hx Hb Hw He. destruct (C70_energy Hx) as (W1 & E1). pose proof (C70_bound e Hb) as B1. pose proof (C70_not_worse Hx) as B2.
  pose proof (weight_nonneg ds (amp psi)). assert (E = e) by nra. subst e. split; [reflexivity|]. rewrite W1, E1. ring.
Qed.

(** The last step is optimal: the result has the amplitudes of a state (the result itself, after a sweep to the right) such that no
    state that differs from it only in the tensor which that step computed has less energy. *)
Theorem C70_optimal : no_truncation flag -> exists Q k, (k = 1 \/ k = h_size H - 1)%nat /\ open_mps Q /\ pdims Q = ds /\
  (forall is, in_range ds is -> amp Q is = amp psi' is) /\
  forall phi, open_mps phi -> pdims phi = ds -> differs_at Q phi k -> (E * weight ds (amp phi) <= henergy H phi)%R.
Proof.
  intros Hx. destruct dmrg_settled as (d & blk & (_ & _ & _ & Q & (O1 & P1 & HO) & HA & _) & _).
  exists Q, (if d then h_size H - 1 else 1)%nat. split; [destruct d; auto|]. split; [exact O1|]. split; [exact P1|]. split; [intros is Hi; symmetry; apply HA; assumption|].
  exact HO.
Qed.
End Run.

(** After the first sweep of a call that returns *)
Lemma dmrg_sweeps D psi : valid_call_dmrg flag D psi -> d_P0 D = [] -> 
  (forall s E0, (0 < s)%Z -> minimize (dmrg_with_sweeps D s) psi 0 E0 = Abort) \/
  exists P blk e, settled flag D true P blk e /\
    forall s E0, (0 < s)%Z -> minimize (dmrg_with_sweeps D s) psi 0 E0 = dmrg_loop svd flag eigs arpack D 0 (Z.to_nat s - 1) false false 0 P (blk, []) e.
Proof.
  intros HC HP0. pose proof HC as (HV & _). destruct (dmrg_start D psi HC HP0) as (P & blk & E1 & E2 & HA & _).
  assert (HM : forall s E0, (0 < s)%Z -> minimize (dmrg_with_sweeps D s) psi 0 E0 = dmrg_loop svd flag eigs arpack D 0 (S (Z.to_nat s - 1)) true true 0 P (blk, []) E0).
  { intros s E0 Hs. unfold dmrg_minimize. rewrite E1. cbn [bind]. change (init_matrices (dmrg_with_sweeps D s) P) with (init_matrices D P). rewrite E2. cbn [bind].
    change (d_sweeps (dmrg_with_sweeps D s)) with s. replace (Z.to_nat s) with (S (Z.to_nat s - 1)) at 1 by lia. reflexivity. }
  destruct (sweep_ok svd flag Hsvd eigs arpack Heigs Harp D HV HP0 true P blk 0%R HA) as (_ & HW).
  destruct (dmrg_sites svd flag eigs arpack D 0 1 (dmrg_route D 0 true) P (blk, []) 0) as [(P' & r)|] eqn:ES; cbn [wp] in HW.
  - right. destruct HW as (blk' & e & -> & HS & _). exists P', blk', e. split; [exact HS|]. intros s E0 Hs. rewrite (HM s E0 Hs).
    rewrite (loop_S svd flag Hsvd eigs arpack Heigs Harp D HV HP0 _ true true 0 P blk E0 HA), ES. reflexivity.
  - left. intros s E0 Hs. rewrite (HM s E0 Hs). rewrite (loop_S svd flag Hsvd eigs arpack Heigs Harp D HV HP0 _ true true 0 P blk E0 HA), ES. reflexivity.
Qed.

(** The following when nothing is truncated.  More sweeps never give a larger energy. *)
Theorem C70_more_sweeps D psi E0 E0' s s' p E p' E' : valid_call_dmrg flag D psi -> no_truncation flag -> (0 < s <= s')%Z ->
  minimize (dmrg_with_sweeps D s) psi 0 E0 = Ok (p, E) -> minimize (dmrg_with_sweeps D s') psi 0 E0' = Ok (p', E') -> (E' <= E)%R.
Proof.
  intros HC Hx Hs R1 R2. apply minimize_sim in R1, R2. pose proof HC as (HV & _).
  change (clear_orthogonality (dmrg_with_sweeps D s)) with (dmrg_with_sweeps (clear_orthogonality D) s) in R1.
  change (clear_orthogonality (dmrg_with_sweeps D s')) with (dmrg_with_sweeps (clear_orthogonality D) s') in R2.
  destruct (dmrg_sweeps (clear_orthogonality D) psi HC eq_refl) as [HA|(P & blk & e & HS & HM)].
  - rewrite HA in R1 by lia. discriminate.
  - rewrite HM in R1, R2 by lia. replace (Z.to_nat s' - 1)%nat with ((Z.to_nat s - 1) + (Z.to_nat s' - Z.to_nat s))%nat in R2 by lia.
    exact (loop_more svd flag Hsvd eigs arpack Heigs Harp (clear_orthogonality D) HV eq_refl _ _ _ true P blk e p E p' E' Hx HS R1 R2).
Qed.

(** Once a sweep has changed the energy by less than the tolerance, allowing for more sweeps changes nothing. *)
Theorem C70_stops D psi E0 s s' p E p' E' : valid_call_dmrg flag D psi -> no_truncation flag -> d_P0 D = [] -> (0 < s)%Z -> (s < s')%Z ->
  minimize (dmrg_with_sweeps D s) psi 0 E0 = Ok (p, E) -> minimize (dmrg_with_sweeps D (s + 1)) psi 0 E0 = Ok (p', E') -> (Rabs (E' - E) < d_tolerance D)%R ->
  minimize (dmrg_with_sweeps D s') psi 0 E0 = Ok (p', E').
Proof.
  intros HC Hx HP0 Hs Hss R1 R2 Ht. pose proof HC as (HV & _).
  destruct (dmrg_sweeps D psi HC HP0) as [HA|(P & blk & e & HS & HM)].
  - rewrite HA in R1 by lia. discriminate.
  - rewrite HM in * by lia. replace (Z.to_nat (s + 1) - 1)%nat with (S (Z.to_nat s - 1)) in R2 by lia.
    replace (Z.to_nat s' - 1)%nat with (S (Z.to_nat s - 1) + (Z.to_nat s' - Z.to_nat s - 1))%nat by lia.
    exact (loop_stops svd flag Hsvd eigs arpack Heigs Harp D HV HP0 _ _ _ true P blk e p E p' E' Hx HS R1 R2 Ht).
Qed.

(** allow_E_growth, which the constructor does not initialise, has no effect. *)
Theorem C70_growth D psi E0 g : valid_call_dmrg flag D psi -> no_truncation flag -> d_P0 D = [] ->
  minimize (dmrg_with_growth D g) psi 0 E0 = minimize D psi 0 E0.
Proof.
  intros HC Hx HP0. pose proof HC as (HV & _). destruct (dmrg_start D psi HC HP0) as (P & blk & E1 & E2 & HA & _).
  unfold dmrg_minimize. rewrite E1. cbn [bind]. change (init_matrices (dmrg_with_growth D g) P) with (init_matrices D P). rewrite E2. cbn [bind].
  change (d_sweeps (dmrg_with_growth D g)) with (d_sweeps D). destruct (Z.to_nat (d_sweeps D)) as [|n]; [reflexivity|].
  assert (HC' : valid_call_dmrg flag (dmrg_with_growth D g) psi) by exact HC. pose proof HC' as (HV' & _).
  rewrite (loop_S svd flag Hsvd eigs arpack Heigs Harp D HV HP0 n true true 0 P blk E0 HA).
  rewrite (loop_S svd flag Hsvd eigs arpack Heigs Harp (dmrg_with_growth D g) HV' HP0 n true true 0 P blk E0 HA).
  change (dmrg_route (dmrg_with_growth D g) 0 true) with (dmrg_route D 0 true). rewrite sites_growth.
  destruct (sweep_ok svd flag Hsvd eigs arpack Heigs Harp D HV HP0 true P blk 0%R HA) as (_ & HW).
  destruct (dmrg_sites svd flag eigs arpack D 0 1 (dmrg_route D 0 true) P (blk, []) 0) as [(P' & r)|] eqn:ES; cbn [wp bind] in *; [|reflexivity].
  destruct HW as (blk' & e & -> & HS & _).
  exact (loop_growth svd flag Hsvd eigs arpack Heigs Harp D HV HP0 g n Hx 0%Z 0%Z true P' blk' e HS).
Qed.

(** Found: with sweeps <= 0 the number returned is the one the caller gave. *)
Theorem C70_no_sweeps_refuted D psi E0 : valid_call_dmrg flag D psi -> d_P0 D = [] -> (d_sweeps D <= 0)%Z -> exists psi', minimize D psi 0 E0 = Ok (psi', E0).
Proof.
  intros HC HP0 Hs. destruct (dmrg_start D psi HC HP0) as (P & blk & E1 & E2 & _). exists P. unfold dmrg_minimize. rewrite E1. cbn [bind]. rewrite E2. cbn [bind].
  replace (Z.to_nat (d_sweeps D)) with 0%nat by lia. reflexivity.
Qed.

(** Found: a Hamiltonian with a local term that was never set, like one with interactions only, is not supported. *)
Theorem C70_local_term_refuted D psi Dmax E0 k : (k < h_size (d_H D))%nat -> h_local (d_H D) k = empty -> minimize D psi Dmax E0 = Abort.
Proof.
  intros Hk He. apply (minimize_aborts svd flag eigs arpack D psi Dmax E0 k Hk). intros P (blk & Proj). unfold update_matrices_right.
  destruct (update_proj D (d_P0 D) Proj P k (-1)); [|reflexivity]. cbn [bind]. unfold local_term. rewrite He. reflexivity.
Qed.

(** Found: conserved quantities make the one-site algorithm abort. *)
Theorem C70_conserved_refuted D psi E0 : (0 < h_size (d_H D))%nat -> (0 < d_nQ D)%nat -> minimize D psi 0 E0 = Abort.
Proof.
  intros Hk He. apply (minimize_aborts svd flag eigs arpack D psi 0 E0 0 Hk). intros P (blk & Proj). unfold update_matrices_right.
  destruct (update_proj D (d_P0 D) Proj P 0 (-1)); [|reflexivity]. cbn [bind]. destruct (local_term D 0); [|reflexivity]. cbn [bind].
  destruct (Nat.ltb_spec 0 (d_nQ D)); [reflexivity|lia].
Qed.

(** C71.  Found: the two-site algorithm never computes anything.  The vector of the eigenvalue solver is handed to
    set_canonical_2_sites() without giving it back its four indices, so that every call aborts unless Arpack fails in the very first
    step; then the state is the canonical form of the given one and the number returned is the one the caller gave. *)
Theorem C71_two_sites_refuted D psi Dmax E0 : Dmax <> 0%Z -> (0 < d_sweeps D)%Z -> (2 <= h_size (d_H D))%nat ->
  (arpack_succeeds arpack -> minimize D psi Dmax E0 = Abort) /\
  forall psi' E, minimize D psi Dmax E0 = Ok (psi', E) -> E = E0 /\ exists P, canonical_form svd flag psi (-1) = Ok P /\ canonical_form svd flag P (-1) = Ok psi'.
Proof.
  intros HD Hs HN. split; [intros Ha; apply two_site_abort; assumption|]. intros psi' E Hr. exact (two_site_run svd flag eigs arpack D psi Dmax E0 psi' E HD Hs HN Hr).
Qed.

(** Such a call changes nothing physical, when nothing is truncated. *)
Theorem C71_unchanged D psi Dmax E0 psi' E : valid_call_dmrg flag D psi -> no_truncation flag -> Dmax <> 0%Z -> (0 < d_sweeps D)%Z ->
  minimize D psi Dmax E0 = Ok (psi', E) -> open_mps psi' /\ pdims psi' = pdims psi /\ canonical_at 0 psi' /\ forall is, in_range (pdims psi) is -> amp psi' is = amp psi is.
Proof.
  intros HC Hx HD Hs Hr. pose proof HC as (HV & Ho & Hpd & Hz). assert (HN : (2 <= h_size (d_H D))%nat) by apply HV.
  destruct (two_site_run svd flag eigs arpack D psi Dmax E0 psi' E HD Hs HN Hr) as (_ & P & E1 & E2).
  assert (HC' : valid_call_dmrg flag (clear_orthogonality D) psi) by exact HC.
  destruct (dmrg_start (clear_orthogonality D) psi HC' eq_refl) as (P1 & blk & F1 & _ & (O1 & P1d & _) & _ & A1). rewrite F1 in E1. apply Ok_inj' in E1. subst P1.
  assert (HC2 : valid_call_dmrg flag (clear_orthogonality D) P).
  { split; [exact HV|]. split; [exact O1|]. split; [exact P1d|]. destruct Hz as [Hz|(is & Hi & Hne)]; [left; exact Hz|right]. exists is. rewrite P1d. rewrite Hpd in Hi.
    split; [exact Hi|]. rewrite (A1 Hx is Hi). exact Hne. }
  destruct (dmrg_start (clear_orthogonality D) P HC2 eq_refl) as (P2 & blk2 & F2 & _ & (O2 & P2d & _ & C2 & _) & _ & A2). rewrite F2 in E2. apply Ok_inj' in E2. subst P2.
  split; [exact O2|]. split; [rewrite Hpd; exact P2d|]. split; [exact C2|]. intros is Hi. rewrite Hpd in Hi. rewrite (A2 Hx is Hi). exact (A1 Hx is Hi).
Qed.
End Dmrg.

(** ** A case: - X X - Z Z + Z1 - Z2 on two sites *)
Notation RT := (@tensor (@rs_scalar RR)).
Notation CT := (@tensor (@rs_scalar CC)).
Definition m22 (a b c d : R) : RT := @mk (@rs_scalar RR) [2; 2]%nat (fun x => match x with
  | [0; 0]%nat => a | [0; 1]%nat => b | [1; 0]%nat => c | _ => d end).
Definition ham2 : @HamModel.hamiltonian (@rs_scalar RR) := @mkH (@rs_scalar RR) 2 false
  (fun _ => @mk (@rs_scalar RR) [4; 4]%nat (fun _ => 0%R))
  (fun _ m => match m with O => m22 0 (-1) (-1) 0 | _ => m22 (-1) 0 0 1 end)
  (fun _ m => match m with O => m22 0 1 1 0 | _ => m22 1 0 0 (-1) end)
  (fun _ => 2%nat) (fun k => match k with O => m22 1 0 0 (-1) | _ => m22 (-1) 0 0 1 end) (fun _ => 2%nat).
Definition dmrg2 : @dmrg RR := @mkD RR ham2 5 (1 / 100) (1 / 100) 0 1 0 [].

Lemma m22_matrix a b c d : is_matrix (m22 a b c d) 2 2.
Proof. split; [reflexivity|apply wf_mk]. Qed.
Lemma m22_full a b c d : m22 a b c d <> empty.
Proof. discriminate. Qed.

Lemma ham2_energy (f : list nat -> R) : @henergy_of RR ham2 [2; 2]%nat f =
  (- (2 * f [0;0]%nat * f [1;1]%nat + 2 * f [0;1]%nat * f [1;0]%nat + f [0;0]%nat * f [0;0]%nat + f [1;1]%nat * f [1;1]%nat
     - f [0;1]%nat * f [0;1]%nat - f [1;0]%nat * f [1;0]%nat) + 2 * f [0;1]%nat * f [0;1]%nat - 2 * f [1;0]%nat * f [1;0]%nat)%R.
Proof. cbn. ring. Qed.
Lemma ham2_valid : @valid_dmrg RR dmrg2.
Proof.
  split; [|split; [|split; [|split; [|split; [|split]]]]]; [| | |cbn; lia|reflexivity|cbn; lia|reflexivity].
  - constructor; [cbn; lia| | |discriminate].
    + intros [|[|k]] Hk; cbn in Hk; try lia; left; apply m22_matrix.
    + intros k Hk. repeat constructor; apply m22_matrix.
  - intros [|[|k]] Hk; cbn in Hk; try lia; apply m22_full.
  - split.
    + intros [|[|k]] i j Hk Hi Hj; cbn in Hk, Hi, Hj; try lia; destruct i as [|[|i]], j as [|[|j]]; try lia; cbn; ring.
    + intros [|k] i j p q Hk Hi Hj Hp Hq; cbn in Hk, Hi, Hj, Hp, Hq; try lia; destruct i as [|[|i]], j as [|[|j]], p as [|[|p]], q as [|[|q]]; try lia; cbn; ring.
Qed.

(** The hypotheses of the theorems above are met: the contracts of the external functions, an object, calls with an initial state
    and with a ground state, without truncation. *)
Theorem C70_case : exists (svd : RT -> _) eigs arpack, svd_contract svd /\ @dense_contract RR eigs /\ @arpack_contract RR arpack /\ @arpack_succeeds RR arpack /\
  no_truncation 1 /\ @valid_call_dmrg RR 1 dmrg2 start00 /\ @valid_call_dmrg RR 1 dmrg2 bell_state /\ @d_P0 RR dmrg2 = [] /\ (0 < d_sweeps dmrg2)%Z /\
  @hlower_bound RR ham2 (-2) /\ @henergy RR ham2 start00 = (-1)%R /\ weight [2; 2]%nat (amp bell_state) = 2%R /\
  @henergy RR ham2 bell_state = (-2 * weight [2; 2]%nat (amp bell_state))%R.
Proof.
  destruct (@svd_contract_satisfiable RR) as (svd & Hsvd). destruct (@dmrg_solvers_exist RR) as (E1 & E2 & E3). exists svd, exact_dense, exact_arpack.
  split; [exact Hsvd|]. split; [exact E1|]. split; [exact E2|]. split; [exact E3|]. split; [right; lra|]. destruct start_open as (O1 & O2 & D1 & D2).
  split; [split; [exact ham2_valid|]; split; [exact O1|]; split; [exact D1|]; left; lra|].
  split; [split; [exact ham2_valid|]; split; [exact O2|]; split; [exact D2|]; left; lra|].
  split; [reflexivity|]. split; [reflexivity|]. split.
  { intros f. change (h_dims ham2) with [2; 2]%nat. rewrite ham2_energy, bell_weight. pose proof (Rle_0_sqr (f [0;0]%nat - f [1;1]%nat)). pose proof (Rle_0_sqr (f [0;1]%nat - f [1;0]%nat)).
    pose proof (Rle_0_sqr (f [0;1]%nat)). pose proof (Rle_0_sqr (f [1;0]%nat)). unfold Rsqr in *. nra. }
  assert (EW : weight [2; 2]%nat (amp bell_state) = 2%R) by (rewrite bell_weight; cbn; ring).
  unfold henergy. rewrite D1, D2. split; [rewrite ham2_energy; cbn; ring|]. split; [exact EW|]. rewrite EW, ham2_energy. cbn; ring.
Qed.

(** Found: in the two-site algorithm, the product given to Arpack for large sizes is not the product with the matrix used for small
    sizes: the operator of the right block is transposed.  Here it is sigma_y, a Hermitian matrix. *)
Theorem C71_product_refuted : exists (Opli Opij Opjr x : CT),
  is_matrix Opli 1 1 /\ is_matrix Opij 1 1 /\ is_matrix Opjr 2 2 /\ @hermitian CC 2 (mat Opjr) /\ wf x /\ dims x = [2]%nat /\
  get (two_site_product 1 1 1 2 Opli Opij Opjr x) [1]%nat <> sum 2 (fun q => mat (two_site_matrix 1 2 Opli Opij Opjr) 1 q * get x [q]).
Proof.
  exists (@mk (@rs_scalar CC) [1; 1]%nat (fun _ => (mkC 0 0))), (@mk (@rs_scalar CC) [1; 1]%nat (fun _ => (mkC 0 0))),
    (@mk (@rs_scalar CC) [2; 2]%nat (fun i => match i with [0; 1]%nat => mkC 0 (-1) | [1; 0]%nat => mkC 0 1 | _ => (mkC 0 0) end)),
    (@mk (@rs_scalar CC) [2]%nat (fun i => match i with [0]%nat => mkC 1 0 | _ => (mkC 0 0) end)).
  split; [split; [reflexivity|apply wf_mk]|]. split; [split; [reflexivity|apply wf_mk]|]. split; [split; [reflexivity|apply wf_mk]|].
  split; [intros i j Hi Hj; destruct i as [|[|i]], j as [|[|j]]; try lia; apply C_ext; cbn; ring|].
  split; [apply wf_mk|]. split; [reflexivity|]. intros HE. apply (f_equal Cim) in HE. revert HE. cbv -[Rplus Rmult Ropp IZR Rminus]. lra.
Qed.
