(** * C49: minimize() *)
From Coq Require Import Reals Lra Bool List Arith ZArith Lia Ring.
From Verif Require Import Scalar ScalarFacts RScal Tensor TensorFacts Spec MpsModel MpsFacts StateFacts MpoSpec MpoFacts CanonSpec CanonModel
  CanonSweep FormModel FormSpec SimplifySpec SimplifyFacts SimplifyStep MinimizerModel MinLive MinimizeSpec MinLocal MinStep MinSweep MinLoop Properties_Canon Properties_Form SvdExist EigsExist RealInst Witness SparseFacts QFormFacts.
Import ListNotations.
Local Open Scope K_scope.

Section Minimize.
Context {RS : RScal}.
Variable svd : tensor -> tensor * list R * tensor.
Variable flag : R.
Hypothesis Hsvd : svd_contract svd.
Variable eigs : (tensor -> result tensor) -> nat -> nat -> tensor -> result (list K * tensor * bool).
Hypothesis Heigs : eigs_contract eigs.
Notation minimize := (minimize svd flag eigs).

Lemma minimizer_starts H psi ds o : valid_minimize flag eigs H psi ds o ->
  exists P0 b m, minimizer_new svd flag H psi = Ok m /\ path H b /\ ready H ds b P0 true m /\ mz_psi m = P0 /\
    length P0 = length psi /\ (0 < length P0)%nat /\ (o_Dmax o = 0%Z \/ (2 <= length P0)%nat) /\ gap_ok eigs ds o /\
    canonical_at 0 P0 /\ (forall j, (dim (site P0 j) 0 <= dim (site psi j) 0)%nat) /\
    (no_truncation flag -> energy H P0 = energy H psi /\ weight ds (amp P0) = weight ds (amp psi)).
Proof.
  intros (HH & Ho & Hpd & HL2 & Hz & Hgap). pose proof HH as (HOp & Hod & Hid & Hher & is & js & Hi & Hj & Hne).
  assert (Hlen : (0 < length psi)%nat) by (destruct Ho as (Hn & _); destruct psi; [congruence|cbn; lia]).
  assert (Hwf : wf_mps psi) by (split; [apply Ho|]; exists 1%nat; split; [lia|apply Ho]).
  rewrite <- Hpd in Hz.
  destruct (C14_canonical_form svd flag Hsvd psi 0 Hwf Hlen Hz) as (P0 & E & _ & F2 & F3 & F4 & F5 & F6 & F7).
  specialize (F2 Ho). rewrite Hpd in F3.
  assert (Hl0 : length P0 = length psi) by (rewrite <- !length_pdims; congruence).
  destruct (path_exists H HOp ltac:(congruence) is js ltac:(congruence) ltac:(congruence) Hne) as (b & Hb).
  assert (HlH : length H = length psi) by (rewrite <- length_odims, Hod, <- Hpd; apply length_pdims).
  destruct (proj1 (C45_constructor H P0 P0 0 HOp F2 F2) ltac:(lia)) as (f & Ef).
  assert (Hc0 : canonical_at 0 P0) by (split; intros j Hjj; [lia|apply F6; lia]).
  exists P0, b, (mkMin P0 f None 0 [] 1 true). split.
  { unfold minimizer_new. unfold canonical_form. change (-1 <? 0)%Z with true. cbv iota. change (canonical_form_at svd flag psi 0) with (canonical_form_at svd flag psi (Z.of_nat 0)). rewrite E. cbn [bind]. rewrite Ef. reflexivity. }
  split; [exact Hb|]. split.
  { split; [|split; [reflexivity|split; reflexivity]]. split; [|split; [exact Hc0|split; reflexivity]].
    split; [exact F2|]. split; [exact F3|]. split; [cbn [start mz_psi]; lia|]. cbn [mz_psi mz_H start]. split.
    - exact (qfh_new H P0 P0 0 f F2 F2 ltac:(congruence) ltac:(congruence) Ef).
    - apply (live_new H HOp ltac:(congruence) b Hb P0 P0 f F2 F2); congruence. }
  split; [reflexivity|]. split; [exact Hl0|]. split; [lia|]. split; [rewrite Hl0; exact HL2|]. split; [exact Hgap|].
  split; [exact Hc0|]. split; [exact F4|]. intros Hf. apply (energy_ext H ds psi P0 Hpd F3). rewrite <- Hpd. exact (F7 Hf).
Qed.

(** A run: the constructor, then the loop *)
Lemma minimize_run H psi ds o : valid_minimize flag eigs H psi ds o ->
  exists P0 b m, (forall o', minimize H psi o' = full_sweep svd flag eigs o' m) /\ path H b /\
    length P0 = length psi /\ (0 < length P0)%nat /\ (o_Dmax o = 0%Z \/ (2 <= length P0)%nat) /\ gap_ok eigs ds o /\
    (forall j, (dim (site P0 j) 0 <= dim (site psi j) 0)%nat) /\
    (no_truncation flag -> energy H P0 = energy H psi /\ weight ds (amp P0) = weight ds (amp psi)) /\
    exists m1 e, any_sweep svd flag eigs o m = Ok (m1, e) /\ (eigs_converges eigs -> mz_converged m1 = true) /\ (mz_converged m1 = true -> post flag H ds b o P0 false m1 e).
Proof.
  intros HV. destruct (minimizer_starts H psi ds o HV) as (P0 & b & m & E & Hb & Hr & Ep & Hl & Hl0 & HL2 & Hgap & Hc & Hbd & Hex).
  exists P0, b, m. split; [intros o'; unfold MinimizerModel.minimize; rewrite E; reflexivity|].
  split; [exact Hb|]. split; [exact Hl|]. split; [exact Hl0|]. split; [exact HL2|]. split; [exact Hgap|]. split; [exact Hbd|]. split; [exact Hex|].
  exact (any_sweep_first svd flag Hsvd eigs Heigs H ds (proj1 HV) b Hb o Hgap P0 Hl0 HL2 m Hr Ep).
Qed.

Lemma minimize_settles H psi ds o : valid_minimize flag eigs H psi ds o -> (0 < o_sweeps o)%Z ->
  exists P0 b psi' E, minimize H psi o = Ok (psi', E) /\ (eigs_converges eigs -> psi' <> []) /\ settled flag H ds b o P0 psi' E /\
    length P0 = length psi /\ (forall j, (dim (site P0 j) 0 <= dim (site psi j) 0)%nat) /\
    (no_truncation flag -> energy H P0 = energy H psi /\ weight ds (amp P0) = weight ds (amp psi)).
Proof.
  intros HV Hs. destruct (minimize_run H psi ds o HV) as (P0 & b & m & E & Hb & Hl & Hl0 & HL2 & Hgap & Hbd & Hex & m1 & e & ES & HCC & HP).
  exists P0, b. rewrite (E o). unfold full_sweep.
  destruct (Z.to_nat (o_sweeps o)) as [|n] eqn:En; [lia|]. rewrite full_loop_S, ES. cbn [bind].
  destruct (mz_converged m1); cbn [negb]; [|exists [], (10 ^ 28)%R; split; [reflexivity|split; [intros Hcc; discriminate (HCC Hcc)|split; [left; reflexivity|auto]]]].
  destruct (loop_post svd flag Hsvd eigs Heigs H ds (proj1 HV) b Hb o Hgap P0 Hl0 HL2 n 0 false m1 e (HP eq_refl)) as (r & E' & EL & HR & HS & _).
  exists r, E'. rewrite EL. auto 10.
Qed.

(** minimize() always returns; *psi is emptied when the eigenvalue solver fails. *)
Theorem C49_returns H psi ds o : valid_minimize flag eigs H psi ds o -> exists psi' E, minimize H psi o = Ok (psi', E).
Proof.
  intros HV. destruct (Z_lt_le_dec 0 (o_sweeps o)) as [Hs|Hs].
  - destruct (minimize_settles H psi ds o HV Hs) as (_ & _ & psi' & E & -> & _). eauto.
  - destruct (minimizer_starts H psi ds o HV) as (P0 & b & m & E & _). unfold MinimizerModel.minimize. rewrite E. cbn [bind]. unfold full_sweep.
    destruct (Z.to_nat (o_sweeps o)) eqn:En; [|lia]. cbn [full_loop]. eauto.
Qed.

(** It is not emptied if the eigenvalue solver never fails. *)
Theorem C49_converges H psi ds o psi' E : valid_minimize flag eigs H psi ds o -> (0 < o_sweeps o)%Z -> eigs_converges eigs ->
  minimize H psi o = Ok (psi', E) -> psi' <> [].
Proof.
  intros HV Hs Hc HR. destruct (minimize_settles H psi ds o HV Hs) as (P0 & b & p & e & ER & Hne & _). rewrite HR in ER. apply Ok_inj' in ER. injection ER as <- _. exact (Hne Hc).
Qed.

Section Converged.
Variables (H : mpo) (psi : mps) (ds : list nat) (o : options) (psi' : mps) (E : R).
Hypothesis HV : valid_minimize flag eigs H psi ds o.
Hypothesis Hs : (0 < o_sweeps o)%Z.
Hypothesis Hrun : minimize H psi o = Ok (psi', E).
Hypothesis Hconv : psi' <> [].

Lemma settled_run : exists P0 b d m, psi' = mz_psi m /\ post flag H ds b o P0 d m E /\
    length P0 = length psi /\ (forall j, (dim (site P0 j) 0 <= dim (site psi j) 0)%nat) /\
    (no_truncation flag -> energy H P0 = energy H psi /\ weight ds (amp P0) = weight ds (amp psi)).
Proof.
  destruct (minimize_settles H psi ds o HV Hs) as (P0 & b & p & e & ER & _ & HS & Hrest). rewrite Hrun in ER. apply Ok_inj' in ER. injection ER as <- <-.
  destruct HS as [HS|(d & m & Ep & HP)]; [contradiction|]. exists P0, b, d, m. auto.
Qed.

(** The result: an open state of the same sites, canonical around the first or the last one, of weight at most
    one; the bonds never grow in the one-site algorithm, and are at most Dmax in the two-site one. *)
Theorem C49_result :
  open_mps psi' /\ pdims psi' = ds /\ (0 < weight ds (amp psi') <= 1)%R /\
  (exists k, (k = 0 \/ k = length psi - 1)%nat /\ canonical_at k psi') /\
  (o_Dmax o = 0%Z -> forall j, (dim (site psi' j) 0 <= dim (site psi j) 0)%nat) /\
  ((0 < o_Dmax o)%Z -> bonds_le (o_Dmax o) psi').
Proof.
  destruct settled_run as (P0 & b & d & m & -> & (((HQ & Hc & _) & _ & HLm & _) & _ & HW & _ & _ & Hbd) & Hl & Hb0 & _).
  split; [apply HQ|]. split; [apply HQ|]. split; [exact HW|]. split; [|split].
  - exists (start d (length P0)). split; [destruct d; cbn [start]; lia|exact Hc].
  - intros HD j. unfold bounded, single_site in Hbd. rewrite HD in Hbd. cbn [Z.eqb] in Hbd. specialize (Hbd j). specialize (Hb0 j). lia.
  - intros HD j Hj. unfold bounded, single_site in Hbd. destruct (Z.eqb_spec (o_Dmax o) 0); [lia|]. apply Hbd; [exact HD|lia].
Qed.

(** When nothing is truncated the returned state has norm one and its energy is the returned number. *)
Theorem C49_energy : keeps_all flag o -> weight ds (amp psi') = 1%R /\ energy H psi' = E.
Proof.
  intros Hk. destruct settled_run as (P0 & b & d & m & -> & (_ & _ & _ & HE & _) & _). destruct (HE Hk) as (H1 & H2 & _). auto.
Qed.

(** The returned energy is never below the spectrum of H. *)
Theorem C49_bound e : lower_bound H ds e -> (e <= E)%R.
Proof. destruct settled_run as (P0 & b & d & m & _ & (_ & HB & _) & _). apply HB. Qed.

(** It is not above the energy of the initial state. *)
Theorem C49_not_worse : keeps_all flag o -> no_truncation flag -> (E * weight ds (amp psi) <= energy H psi)%R.
Proof.
  intros Hk Hf. destruct settled_run as (P0 & b & d & m & -> & (_ & _ & _ & HE & _) & Hl & _ & Hamp).
  destruct (HE Hk) as (_ & _ & H3). destruct (Hamp Hf) as (<- & <-). exact H3.
Qed.

(** In particular: starting from a ground state, the result is one. *)
Theorem C49_ground_state e : keeps_all flag o -> no_truncation flag ->
  lower_bound H ds e -> weight ds (amp psi) <> 0%R -> energy H psi = (e * weight ds (amp psi))%R ->
  E = e /\ energy H psi' = e /\ weight ds (amp psi') = 1%R.
Proof.
  intros Hk Hf Hlb Hw He. pose proof (C49_bound e Hlb) as H1. pose proof (C49_not_worse Hk Hf) as H2. destruct (C49_energy Hk) as (H3 & H4).
  rewrite He in H2. pose proof (weight_nonneg ds (amp psi)). assert (E = e) by nra. rewrite H4. auto.
Qed.

(** The last step is optimal: no state that differs from the result only in the tensors which that step
    changed has a smaller energy, E being compared with the energy of phi divided by its weight.  One-site
    algorithm: the first or the last tensor.  Two-site algorithm: the first or the last two tensors, with bonds of
    any size between them. *)
Theorem C49_optimal_one : o_Dmax o = 0%Z -> exists k, (k = 0 \/ k = length psi - 1)%nat /\ canonical_at k psi' /\
  forall phi, open_mps phi -> pdims phi = ds -> differs_at psi' phi k -> (energy H psi' * weight ds (amp phi) <= energy H phi)%R.
Proof.
  intros HD. destruct settled_run as (P0 & b & d & m & -> & (((HQ & Hc & _) & _ & HLm & _) & _ & HW & HE & Hopt & _) & Hl & Hb0 & _).
  destruct (HE ltac:(split; [lia|left; exact HD])) as (_ & -> & _).
  exists (start d (length P0)). split; [destruct d; cbn [start]; lia|]. split; [exact Hc|].
  intros phi O1 D1 Hd. apply Hopt; try assumption. unfold vary, single_site. rewrite HD. exact Hd.
Qed.
Theorem C49_optimal_two : o_Dmax o <> 0%Z -> exists k, (k = 0 \/ k = length psi - 2)%nat /\
  forall phi, open_mps phi -> pdims phi = ds -> differs_at2 psi' phi k -> (E * weight ds (amp phi) <= energy H phi)%R.
Proof.
  intros HD. destruct settled_run as (P0 & b & d & m & -> & (((HQ & Hc & _) & _ & HLm & _) & _ & HW & HE & Hopt & _) & Hl & Hb0 & _).
  exists (Nat.min (start d (length P0)) (length P0 - 2)). split; [destruct d; cbn [start]; lia|].
  intros phi O1 D1 Hd. apply Hopt; try assumption. unfold vary, single_site. destruct (Z.eqb_spec (o_Dmax o) 0); [contradiction|]. exact Hd.
Qed.

(** Even after a truncation the returned number is not above the energy of the result. *)
Theorem C49_truncated : (E * weight ds (amp psi') <= energy H psi')%R.
Proof.
  destruct C49_result as (Ho & Hd & _). destruct (Z.eq_dec (o_Dmax o) 0) as [HD|HD].
  - destruct (C49_energy ltac:(split; [lia|left; exact HD])) as (-> & ->). lra.
  - destruct (C49_optimal_two HD) as (k & _ & Hopt). apply Hopt; [exact Ho|exact Hd|intros j _ _; reflexivity].
Qed.
End Converged.

(** The following three when nothing is truncated.  More sweeps never give a larger energy. *)
Theorem C49_more_sweeps H psi ds o s s' p E p' E' : valid_minimize flag eigs H psi ds o -> keeps_all flag o -> (0 < s <= s')%Z ->
  minimize H psi (with_sweeps o s) = Ok (p, E) -> minimize H psi (with_sweeps o s') = Ok (p', E') -> (E' <= E)%R.
Proof.
  intros HV Hk Hs. destruct (minimize_run H psi ds o HV) as (P0 & b & m & EE & Hb & Hl & Hl0 & HL2 & Hgap & Hbd & Hex & m1 & e & ES & HCC & HP).
  rewrite (EE (with_sweeps o s)), (EE (with_sweeps o s')). unfold full_sweep. rewrite !loop_with. cbn [o_sweeps with_sweeps].
  destruct (Z.to_nat s) as [|n] eqn:En; [lia|]. destruct (Z.to_nat s') as [|n'] eqn:En'; [lia|].
  rewrite !full_loop_S, ES. cbn [bind]. destruct (mz_converged m1); cbn [negb].
  2:{ intros H1 H2. apply Ok_inj' in H1, H2. injection H1 as _ <-. injection H2 as _ <-. lra. }
  replace n' with (n + (n' - n))%nat by lia.
  apply (loop_more svd flag Hsvd eigs Heigs H ds (proj1 HV) b Hb o Hgap P0 Hl0 HL2 n (n' - n) 0 false m1 e p E p' E' Hk (HP eq_refl)).
Qed.

(** Once a sweep has changed the energy by less than the tolerance, allowing for more sweeps changes nothing. *)
Theorem C49_stops H psi ds o s s' p E p' E' : valid_minimize flag eigs H psi ds o -> keeps_all flag o -> (0 < s)%Z -> (s < s')%Z ->
  minimize H psi (with_sweeps o s) = Ok (p, E) -> minimize H psi (with_sweeps o (s + 1)) = Ok (p', E') -> p' <> [] ->
  (Rabs (E' - E) < o_tolerance o)%R -> minimize H psi (with_sweeps o s') = Ok (p', E').
Proof.
  intros HV Hk Hs Hs'. destruct (minimize_run H psi ds o HV) as (P0 & b & m & EE & Hb & Hl & Hl0 & HL2 & Hgap & Hbd & Hex & m1 & e & ES & HCC & HP).
  rewrite (EE (with_sweeps o s)), (EE (with_sweeps o s')), (EE (with_sweeps o (s + 1))). unfold full_sweep. rewrite !loop_with. cbn [o_sweeps with_sweeps].
  destruct (Z.to_nat s) as [|n] eqn:En; [lia|]. replace (Z.to_nat (s + 1)) with (S (S n)) by lia.
  replace (Z.to_nat s') with (S (S n + (Z.to_nat s' - S (S n))))%nat by lia.
  rewrite (full_loop_S _ _ _ _ n), (full_loop_S _ _ _ _ (S n)), (full_loop_S _ _ _ _ (S n + _)), ES. cbn [bind]. destruct (mz_converged m1); cbn [negb].
  2:{ intros _ H2 Hne. apply Ok_inj' in H2. injection H2 as <- <-. congruence. }
  apply (loop_stops svd flag Hsvd eigs Heigs H ds (proj1 HV) b Hb o Hgap P0 Hl0 HL2 n _ 0 false m1 e p E p' E' Hk (HP eq_refl)).
Qed.

(** allow_E_growth is irrelevant: the energy does not grow. *)
Theorem C49_growth H psi ds o g : valid_minimize flag eigs H psi ds o -> keeps_all flag o -> minimize H psi (with_growth o g) = minimize H psi o.
Proof.
  intros HV Hk. destruct (minimize_run H psi ds o HV) as (P0 & b & m & EE & Hb & Hl & Hl0 & HL2 & Hgap & Hbd & Hex & m1 & e & ES & HCC & HP).
  rewrite (EE o), (EE (with_growth o g)). unfold full_sweep. cbn [o_sweeps with_growth].
  destruct (Z.to_nat (o_sweeps o)) as [|n]; [reflexivity|].
  rewrite !full_loop_S, any_sweep_with, ES. cbn [bind]. destruct (mz_converged m1); cbn [negb]; [|reflexivity].
  symmetry. apply (loop_growth svd flag Hsvd eigs Heigs H ds (proj1 HV) b Hb o g P0 n Hgap Hl0 HL2 Hk 0 0 false m1 e (HP eq_refl)).
Qed.

(** Found: with sweeps <= 0 the state is only brought to canonical form, and the returned energy is 10^28. *)
Theorem C49_no_sweeps_refuted H psi ds o : valid_minimize flag eigs H psi ds o -> (o_sweeps o <= 0)%Z ->
  exists psi', minimize H psi o = Ok (psi', (10 ^ 28)%R) /\ canonical_at 0 psi' /\
    (no_truncation flag -> energy H psi' = energy H psi /\ weight ds (amp psi') = weight ds (amp psi)).
Proof.
  intros HV Hs. destruct (minimizer_starts H psi ds o HV) as (P0 & b & m & E & _ & _ & Ep & _ & _ & _ & _ & Hc & _ & Hex).
  exists P0. unfold MinimizerModel.minimize. rewrite E. cbn [bind]. unfold full_sweep. replace (Z.to_nat (o_sweeps o)) with 0%nat by lia. cbn [full_loop]. rewrite Ep. auto.
Qed.
End Minimize.

(** ** Cases *)
Notation RM := (@mps (@rs_scalar RR)).
Notation RO := (@mpo (@rs_scalar RR)).
(** X (m = 0) and Z (m = 1) *)
Definition xz (m i j : nat) : R :=
  if Nat.eqb m 0 then (if Nat.eqb i j then 0 else 1)%R else if Nat.eqb i j then (if Nat.eqb i 0 then 1 else -1)%R else 0%R.
(** H = - X X - Z Z *)
Definition bell : RO :=
  [@mk (@rs_scalar RR) [1; 2; 2; 2]%nat (fun x => Ropp (xz (nth 3 x 0) (nth 1 x 0) (nth 2 x 0)));
   @mk (@rs_scalar RR) [2; 2; 2; 1]%nat (fun x => xz (nth 0 x 0) (nth 1 x 0) (nth 2 x 0))]%nat.
Definition bvec (x y : R) : @tensor (@rs_scalar RR) := @mk (@rs_scalar RR) [1; 2; 1]%nat (fun i => if Nat.eqb (nth 1 i 0%nat) 0 then x else y).
Definition start00 : RM := [bvec 1 0; bvec 1 0].
(** |00> + |11> *)
Definition bell_state : RM :=
  [@mk (@rs_scalar RR) [1; 2; 2]%nat (fun x => if Nat.eqb (nth 1 x 0) (nth 2 x 0) then 1%R else 0%R);
   @mk (@rs_scalar RR) [2; 2; 1]%nat (fun x => if Nat.eqb (nth 0 x 0) (nth 1 x 0) then 1%R else 0%R)]%nat.

Lemma bell_energy (f : list nat -> R) : @energy_of RR bell [2; 2]%nat f =
  (- (2 * f [0;0]%nat * f [1;1]%nat + 2 * f [0;1]%nat * f [1;0]%nat + f [0;0]%nat * f [0;0]%nat + f [1;1]%nat * f [1;1]%nat
     - f [0;1]%nat * f [0;1]%nat - f [1;0]%nat * f [1;0]%nat))%R.
Proof. cbn. ring. Qed.
Lemma bell_weight (f : list nat -> R) : @weight RR [2; 2]%nat f =
  (f [0;0]%nat * f [0;0]%nat + f [0;1]%nat * f [0;1]%nat + f [1;0]%nat * f [1;0]%nat + f [1;1]%nat * f [1;1]%nat)%R.
Proof. cbn. ring. Qed.
Lemma bell_lower : @lower_bound RR bell [2; 2]%nat (-2)%R.
Proof.
  intros f. rewrite bell_energy, bell_weight. pose proof (Rle_0_sqr (f [0;0]%nat - f [1;1]%nat)). pose proof (Rle_0_sqr (f [0;1]%nat - f [1;0]%nat)).
  pose proof (Rle_0_sqr (f [0;1]%nat)). pose proof (Rle_0_sqr (f [1;0]%nat)). unfold Rsqr in *. nra.
Qed.
Lemma start_open : open_mps start00 /\ open_mps bell_state /\ pdims start00 = [2;2]%nat /\ pdims bell_state = [2;2]%nat.
Proof. repeat split; try discriminate; try reflexivity; solve_linked. Qed.
Lemma bell_hamiltonian : @hamiltonian RR bell [2; 2]%nat.
Proof.
  split; [|split; [reflexivity|split; [reflexivity|split]]].
  - split; [discriminate|]. unfold bell. cbn [mlinked].
    exists 2%nat, 2%nat, 2%nat. repeat split; try lia; try reflexivity. exists 2%nat, 2%nat, 1%nat. repeat split; try lia; reflexivity.
  - intros is js Hi Hj. apply in_range_inv2 in Hi, Hj. destruct Hi as (a & b & -> & Ha & Hb). destruct Hj as (c & d & -> & Hc & Hd).
    destruct a as [|[|a]], b as [|[|b]], c as [|[|c]], d as [|[|d]]; try lia; cbn; ring.
  - exists [0;0]%nat, [0;0]%nat. repeat split; try (repeat constructor; lia). cbn. lra.
Qed.

Lemma bell_valid flag eigs o : o_compute_gap o = false -> valid_minimize flag eigs bell start00 [2; 2]%nat o.
Proof.
  intros Hg. destruct start_open as (Ho & _ & Hd & _). split; [exact bell_hamiltonian|]. split; [exact Ho|]. split; [exact Hd|].
  split; [right; cbn; lia|]. split; [right; exists [0;0]%nat; split; [repeat constructor; lia|cbn; lra]|left; exact Hg].
Qed.

(** The hypotheses are met: the contracts of the two external functions, a Hamiltonian, an initial state, the
    one-site and the two-site algorithm without truncation, and a ground state. *)
Theorem C49_case : exists (svd : @tensor (@rs_scalar RR) -> _) eigs, svd_contract svd /\ eigs_contract eigs /\ eigs_converges eigs /\
  valid_minimize DBL_EPSILON eigs bell start00 [2; 2]%nat default_options /\ keeps_all DBL_EPSILON default_options /\
  (let o := mkOpt 5 (1 / 100) (-1) 1 (-1) false in valid_minimize 1 eigs bell start00 [2; 2]%nat o /\ keeps_all 1 o /\ no_truncation 1) /\
  lower_bound bell [2; 2]%nat (-2) /\ weight [2; 2]%nat (amp bell_state) = 2%R /\ energy bell bell_state = (-2 * weight [2; 2]%nat (amp bell_state))%R /\
  energy bell start00 = (-1)%R.
Proof.
  destruct (@svd_contract_satisfiable RR) as (svd & Hsvd). exists svd, exact_eigs. destruct (@eigs_contract_satisfiable RR) as (E1 & E2).
  split; [exact Hsvd|]. split; [exact E1|]. split; [exact E2|]. split; [apply bell_valid; reflexivity|]. split; [split; [cbn; lia|left; reflexivity]|].
  split; [split; [apply bell_valid; reflexivity|]; split; [|right; lra]; split; [cbn; lia|right]|].
  { unfold tolerance_used. cbn [o_svd_tolerance]. destruct (Rlt_dec (-1) 0); [right; lra|lra]. }
  split; [exact bell_lower|]. assert (EW : weight [2; 2]%nat (amp bell_state) = 2%R) by (rewrite bell_weight; cbn; ring). split; [exact EW|].
  destruct start_open as (_ & _ & D1 & D2).
  split; unfold energy; [rewrite D2, EW|rewrite D1]; rewrite bell_energy; cbn; ring.
Qed.

(** A product state of two sites *)
Lemma product_amp (P : RM) : open_mps P -> pdims P = [2; 2]%nat -> (dim (site P 1) 0 <= 1)%nat ->
  exists x y, forall i j, (i < 2)%nat -> (j < 2)%nat -> amp P [i; j] = (x i * y j)%R.
Proof.
  intros (Hn & HL) Hd Hb. destruct P as [|A [|B [|C P]]]; try discriminate Hd.
  cbn [linked] in HL. destruct HL as (d & c & HA & _ & _ & Hc & d' & c' & HB & _ & _ & _ & ->).
  cbn [site nth] in Hb. unfold dim in Hb. rewrite HB in Hb. cbn [nth] in Hb. assert (c = 1)%nat as -> by lia.
  exists (fun i => get A [0; i; 0]%nat), (fun j => get B [0; j; 0]%nat). intros i j Hi Hj. unfold amp. cbn [left_bond chain]. unfold dim. rewrite HA, HB. cbn [nth].
  cbn [sum]. unfold delta. cbn. ring.
Qed.

(** Found: after a truncation the returned number is not the energy of the returned state, nor that energy divided
    by the norm: the energy before the truncation is returned.  With Dmax = 1, H = - X X - Z Z returns -2 and a
    product state, whose energy is at least -1. *)
Theorem C49_truncated_energy_refuted (svd : @tensor (@rs_scalar RR) -> _) flag eigs o : svd_contract svd -> eigs_contract eigs -> eigs_converges eigs ->
  o_compute_gap o = false -> (0 < o_sweeps o)%Z -> o_Dmax o = 1%Z ->
  exists psi' E, minimize svd flag eigs bell start00 o = Ok (psi', E) /\ open_mps psi' /\ E = (-2)%R /\
    (0 < weight [2; 2]%nat (amp psi') <= 1)%R /\ (- weight [2; 2]%nat (amp psi') <= energy bell psi')%R /\
    energy bell psi' <> E /\ energy bell psi' <> (E * weight [2; 2]%nat (amp psi'))%R.
Proof.
  intros Hsvd Heigs Hcc Hg Hs HD. pose proof (bell_valid flag eigs o Hg) as HV.
  destruct (C49_returns svd flag Hsvd eigs Heigs bell start00 _ o HV) as (psi' & E & HR).
  pose proof (C49_converges svd flag Hsvd eigs Heigs bell start00 _ o psi' E HV Hs Hcc HR) as Hne.
  destruct (C49_result svd flag Hsvd eigs Heigs bell start00 _ o psi' E HV Hs HR Hne) as (Ho & Hd & HW & _ & _ & Hbd).
  pose proof (C49_bound svd flag Hsvd eigs Heigs bell start00 _ o psi' E HV Hs HR Hne _ bell_lower) as HE.
  destruct (C49_optimal_two svd flag Hsvd eigs Heigs bell start00 _ o psi' E HV Hs HR Hne ltac:(lia)) as (k & Hk & Hopt).
  destruct start_open as (_ & Ob & _ & Db). assert (Hl : length psi' = 2%nat) by (rewrite <- length_pdims, Hd; reflexivity).
  specialize (Hopt bell_state Ob Db).
  assert (EW : weight [2; 2]%nat (amp bell_state) = 2%R) by (rewrite bell_weight; cbn; ring).
  assert (EE : energy bell bell_state = (-4)%R) by (unfold energy; rewrite Db, bell_energy; cbn; ring).
  assert (E = (-2)%R) as ->.
  { rewrite EW, EE in Hopt. assert (Hdf : differs_at2 psi' bell_state k).
    { assert (k = 0%nat) as -> by (cbn in Hk; lia). intros j H1 H2. unfold site. rewrite !nth_overflow; [reflexivity|lia|cbn; lia]. }
    specialize (Hopt Hdf). lra. }
  destruct (product_amp psi' Ho Hd) as (x & y & Hxy).
  { rewrite HD in Hbd. specialize (Hbd ltac:(lia) 1%nat ltac:(lia)). lia. }
  assert (Hen : (- weight [2; 2]%nat (amp psi') <= energy bell psi')%R).
  { unfold energy. rewrite Hd, bell_energy, bell_weight, !Hxy by lia. pose proof (Rle_0_sqr (x 0%nat * y 1%nat - x 1%nat * y 0%nat)). unfold Rsqr in *. nra. }
  exists psi', (-2)%R. split; [exact HR|]. split; [exact Ho|]. split; [reflexivity|]. split; [exact HW|]. split; [exact Hen|]. split; lra.
Qed.

(** Found: in the one-site algorithm the computation of the gap overwrites the flag of convergence, so that with
    compute_gap a failure of the eigenvalue solver goes unnoticed at the middle site, and the vector it left
    is stored with its meaningless energy: here -100 for H = Z on one site, whose energies are -1 and 1. *)
Definition pauli_z : RO := [@mk (@rs_scalar RR) [1; 2; 2; 1]%nat (fun x => xz 1 (nth 1 x 0) (nth 2 x 0))]%nat.
Definition failing_eigs (f : @tensor (@rs_scalar RR) -> result (@tensor (@rs_scalar RR))) (n neig : nat) (v0 : @tensor (@rs_scalar RR)) : result (list R * @tensor (@rs_scalar RR) * bool) :=
  if Nat.eqb neig 1 then Ok ([(-100)%R], @mkT (@rs_scalar RR) [n] (repeat 1%R n), false) else Ok (repeat 0%R neig, @mkT (@rs_scalar RR) [n; neig] (repeat 0%R (n * neig)), true).
Definition single0 : RM := [bvec 1 0].

Lemma failing_contract : @eigs_contract RR failing_eigs.
Proof.
  intros f n neig v0 M H1 H2 _ _ _. unfold failing_eigs. destruct (Nat.eqb_spec neig 1) as [->|Hne].
  - exists [(-100)%R], (@mkT (@rs_scalar RR) [n] (repeat 1%R n)), false. repeat split; auto; [cbn [data]; rewrite repeat_length; lia|]. intros _ E. discriminate E.
  - exists (repeat 0%R neig), (@mkT (@rs_scalar RR) [n; neig] (repeat 0%R (n * neig))), true. split; [reflexivity|]. split; [apply repeat_length|]. split; [apply repeat_length|].
    intros E. contradiction.
Qed.

Theorem C49_gap_convergence_refuted (svd : @tensor (@rs_scalar RR) -> _) flag : svd_contract svd ->
  let o g := mkOpt 1 (1 / 10 ^ 10) (1 / 10 ^ 11) 1 0 g in
  eigs_contract failing_eigs /\ lower_bound pauli_z [2]%nat (-1) /\
  (exists E, minimize svd flag failing_eigs pauli_z single0 (o false) = Ok ([], E)) /\
  exists psi', minimize svd flag failing_eigs pauli_z single0 (o true) = Ok (psi', (-100)%R) /\ psi' <> [].
Proof.
  intros Hsvd o. split; [exact failing_contract|]. split.
  { intros f. unfold energy_of, weight, inner. cbn. pose proof (Rle_0_sqr (f [0]%nat)). unfold Rsqr in *. lra. }
  assert (HV : valid_minimize flag failing_eigs pauli_z single0 [2]%nat (o false)).
  { split; [|split; [|split; [reflexivity|split; [left; reflexivity|split; [|left; reflexivity]]]]].
    - split; [|split; [reflexivity|split; [reflexivity|split]]].
      + split; [discriminate|]. unfold pauli_z. cbn [mlinked]. exists 2%nat, 2%nat, 1%nat. repeat split; try lia; reflexivity.
      + intros is js Hi Hj. apply in_range_cons_inv in Hi, Hj. destruct Hi as (a & i & -> & Ha & Hi). destruct Hj as (c & j & -> & Hc & Hj).
        apply in_range_nil_inv in Hi, Hj. subst i j. destruct a as [|[|a]], c as [|[|c]]; try lia; cbn; ring.
      + exists [0]%nat, [0]%nat. repeat split; try (repeat constructor; lia). cbn. lra.
    - split; [discriminate|]. solve_linked.
    - right. exists [0]%nat. split; [repeat constructor; lia|cbn; lra]. }
  destruct (minimizer_starts svd flag Hsvd failing_eigs pauli_z single0 [2]%nat (o false) HV)
    as (P0 & b & m & E & Hb & ((HQ & Hc & Hort & HN) & Hst & HLm & Hcv) & Ep & Hl & Hl0 & _ & _ & _ & _ & _).
  pose proof HQ as (Ho & Hpd & _). rewrite Ep in *. cbn [length single0] in Hl.
  assert (Hrun : forall g, any_sweep svd flag failing_eigs (o g) m =
     bind (bind (bind (single_site_step svd flag failing_eigs (o g) m 0) (fun '(m, e) => Ok (m, Some e))) known) (fun '(m, e) => Ok (mz_set_step m (-1), e))).
  { intros g. unfold any_sweep, single_site_sweep. cbn [single_site o o_Dmax Z.eqb]. rewrite Ep, Hl, Hst. cbn [sgn]. change (0 <? 1)%Z with true. cbv iota. cbn [seq site_loop]. rewrite Hcv.
    destruct (single_site_step svd flag failing_eigs (o g) m 0) as [[m' e]|]; reflexivity. }
  assert (Hdd : length (data (site P0 0)) = nprod (dims (site P0 0))).
  { destruct (site_dims P0 0 Ho ltac:(lia)) as (a & i & c & Hs & Hw & _). exact Hw. }
  split.
  - exists (10 ^ 28)%R. unfold minimize. rewrite E. cbn [bind]. unfold full_sweep. change (Z.to_nat (o_sweeps (o false))) with 1%nat. rewrite full_loop_S, (Hrun false).
    unfold single_site_step, orthogonal_projectors. rewrite Hort, Ep. cbn [fold_left bind]. unfold failing_eigs at 1. cbn [Nat.eqb]. cbn [bind].
    cbn [o o_compute_gap]. rewrite andb_false_r. cbn [bind first_energy known mz_converged mz_set_step mz_set_converged negb]. reflexivity.
  - set (t := @mkT (@rs_scalar RR) (dims (site P0 0)) (repeat 1%R (nprod (dims (site P0 0)))) : @tensor (@rs_scalar RR)).
    assert (ES : set_canonical svd flag P0 (Z.of_nat 0) t 1 false = Ok (replace_nth 0 t P0)).
    { apply (single_core_end svd flag false true 0 P0 t); rewrite Hl; [reflexivity|lia]. }
    exists (replace_nth 0 t P0). split; [|destruct P0; [discriminate Hl|discriminate]].
    unfold minimize. rewrite E. cbn [bind]. unfold full_sweep. change (Z.to_nat (o_sweeps (o true))) with 1%nat. rewrite full_loop_S, (Hrun true).
    unfold single_site_step, orthogonal_projectors. rewrite Hort, Ep, Hl. cbn [fold_left bind]. unfold failing_eigs at 1. cbn [Nat.eqb]. cbn [bind].
    change (Nat.eqb 0 (1 / 2) && o_compute_gap (o true)) with true. cbv iota. unfold failing_eigs. cbn [Nat.eqb bind repeat check_gap first_energy].
    unfold checked_reshape. cbn [data]. rewrite repeat_length, Hdd, Nat.eqb_refl. cbn [bind]. rewrite Hst. cbn [sgn].
    unfold reshape. cbn [data]. fold t. rewrite ES. cbn [bind known mz_converged mz_set_step mz_propagate negb full_loop mz_psi]. reflexivity.
Qed.
