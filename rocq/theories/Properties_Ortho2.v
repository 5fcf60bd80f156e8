(** * C50: what minimize() with orthogonality or a constraint does not do *)
From Coq Require Import Reals Lra Bool List Arith ZArith Lia Ring.
From Verif Require Import Scalar ScalarFacts RScal Tensor TensorFacts Spec MpsModel MpsFacts StateFacts MpoSpec MpoFacts CanonSpec CanonModel
  CanonSweep FormModel FormSpec LFormFacts SimplifySpec SimplifyModel SimplifyFacts SimplifyStep SimplifyLoop MinimizerModel MinLive MinimizeSpec MinLocal MinStep MinSweep MinLoop
  MinOrtho MinOrthoRun Properties_Canon Properties_Form Properties_Minimize SvdExist EigsExist RealInst Witness SparseFacts QFormFacts Properties_Ortho.
Import ListNotations.
Local Open Scope K_scope.

(** ** The constraint is ignored by the one-site algorithm *)
Section Constraint.
Context {RS : RScal}.
Variable svd : tensor -> tensor * list R * tensor.
Variable flag : R.
Variable eigs : (tensor -> result tensor) -> nat -> nat -> tensor -> result (list K * tensor * bool).

Definition strip (m : minimizer) : minimizer := mkMin (mz_psi m) (mz_H m) None 0 (mz_ortho m) (mz_step m) (mz_converged m).
Definition strip1 {A} (r : result (minimizer * A)) : result (minimizer * A) := bind r (fun '(m, e) => Ok (strip m, e)).

Lemma step_strip o m k : single_site_step svd flag eigs o (strip m) k = strip1 (single_site_step svd flag eigs o m k).
Proof.
  unfold single_site_step, orthogonal_projectors. cbn [strip mz_ortho mz_psi mz_H mz_step].
  destruct (fold_left _ (mz_ortho m) (Ok [])) as [os|]; [|reflexivity]. cbn [bind]. cbv zeta.
  destruct (eigs _ _ 1 _) as [[[E X] cv]|]; [|reflexivity]. cbn [bind].
  destruct (if Nat.eqb k (length (mz_psi m) / 2) && o_compute_gap o then _ else _) as [cv'|]; [|reflexivity]. cbn [bind].
  destruct (first_energy E) as [e|]; [|reflexivity]. cbn [bind]. destruct cv'; [|reflexivity].
  destruct (checked_reshape X _) as [t|]; [|reflexivity]. cbn [bind].
  destruct (set_canonical _ _ _ _ _ _ _) as [psi|]; reflexivity.
Qed.
Lemma loop_strip o ks : forall m E, site_loop (single_site_step svd flag eigs o) ks (strip m) E = strip1 (site_loop (single_site_step svd flag eigs o) ks m E).
Proof.
  induction ks as [|k ks IH]; intros m E; [reflexivity|]. cbn [site_loop strip mz_converged]. destruct (mz_converged m); [|reflexivity].
  fold (strip m). rewrite step_strip. destruct (single_site_step svd flag eigs o m k) as [[m' e]|]; [|reflexivity]. cbn [strip1 bind]. apply IH.
Qed.
Lemma sweep_strip o m : single_site_sweep svd flag eigs o (strip m) = strip1 (single_site_sweep svd flag eigs o m).
Proof.
  unfold single_site_sweep. cbn [strip mz_psi mz_step]. fold (strip m). rewrite loop_strip.
  destruct (site_loop _ _ m None) as [[m' [e|]]|]; reflexivity.
Qed.
Lemma full_strip o n : o_Dmax o = 0%Z -> forall first fl m E, full_loop svd flag eigs o n first fl (strip m) E = full_loop svd flag eigs o n first fl m E.
Proof.
  intros HD. induction n as [|n IH]; intros first fl m E; [reflexivity|]. rewrite !full_loop_S.
  unfold any_sweep, single_site. rewrite HD. change (0 =? 0)%Z with true. cbv iota. rewrite sweep_strip.
  destruct (single_site_sweep svd flag eigs o m) as [[m' e]|]; [|reflexivity]. cbn [strip1 bind strip mz_converged mz_psi].
  destruct (negb (mz_converged m')); [reflexivity|]. fold (strip m'). rewrite !IH. reflexivity.
Qed.

(** For any Hamiltonian, constraint, value and states: if the call with the constraint gets as far as the sweeps,
    its result is the one of the call without. *)
Theorem C50_constraint_ignored H psi o N value m f : o_Dmax o = 0%Z -> minimizer_new svd flag H psi = Ok m -> qform_new N (mz_psi m) (mz_psi m) 0 = Ok f ->
  minimize_with svd flag eigs H psi o N value None = minimize svd flag eigs H psi o.
Proof.
  intros HD Em Ef. unfold minimize_with, minimize. rewrite Em. cbn [bind]. unfold add_constraint. rewrite Ef. cbn [bind].
  unfold full_sweep. rewrite <- (full_strip o _ HD _ _ (mkMin _ _ _ _ _ _ _)). rewrite <- (full_strip o _ HD _ _ m). reflexivity.
Qed.
End Constraint.

Section Real.
Local Open Scope R_scope.
Notation RT := (@tensor (@rs_scalar RR)).

(** diag(x, y) on one site *)
Definition diag1 (x y : R) : RO := [@mk (@rs_scalar RR) [1; 2; 2; 1]%nat (fun i => if Nat.eqb (nth 1 i 0%nat) (nth 2 i 0%nat) then (if Nat.eqb (nth 1 i 0%nat) 0 then x else y) else 0)].
Definition state1 (x y : R) : RM := [bvec x y].
Definition oneopt : options := mkOpt 3 (1 / 10 ^ 10) (1 / 10 ^ 11) 1 0 false.

Lemma state1_open x y : open_mps (state1 x y) /\ pdims (state1 x y) = [2]%nat.
Proof. split; [|reflexivity]. split; [discriminate|]. solve_linked. Qed.
Lemma diag1_open x y : open_mpo (diag1 x y) /\ length (diag1 x y) = 1%nat.
Proof. split; [|reflexivity]. split; [discriminate|]. unfold diag1. cbn [mlinked]. exists 2%nat, 2%nat, 1%nat. repeat split; try lia; reflexivity. Qed.
Lemma diag1_hamiltonian x y : x <> 0 \/ y <> 0 -> @hamiltonian RR (diag1 x y) [2]%nat.
Proof.
  intros Hxy. split; [apply diag1_open|split; [reflexivity|split; [reflexivity|split]]].
  - intros is js Hi Hj. apply in_range_cons_inv in Hi, Hj. destruct Hi as (a & i & -> & Ha & Hi). destruct Hj as (c & j & -> & Hc & Hj).
    apply in_range_nil_inv in Hi, Hj. subst i j. destruct a as [|[|a]], c as [|[|c]]; try lia; cbn; ring.
  - destruct Hxy as [Hx|Hy].
    + exists [0]%nat, [0]%nat. repeat split; try (repeat constructor; lia). cbn. lra.
    + exists [1]%nat, [1]%nat. repeat split; try (repeat constructor; lia). cbn. lra.
Qed.
Lemma state1_amp x y : amp (state1 x y) [0]%nat = x /\ amp (state1 x y) [1]%nat = y.
Proof. cbn. split; ring. Qed.
Lemma state1_inner x y (f : list nat -> R) : @inner (@rs_scalar RR) [2]%nat (amp (state1 x y)) f = x * f [0]%nat + y * f [1]%nat.
Proof. cbn. ring. Qed.
Lemma diag1_energy x y (f : list nat -> R) : @energy_of RR (diag1 x y) [2]%nat f = x * (f [0]%nat * f [0]%nat) + y * (f [1]%nat * f [1]%nat).
Proof. cbn. ring. Qed.
Lemma call1 flag hx hy nx ny x y : hx <> 0 \/ hy <> 0 -> x <> 0 \/ y <> 0 ->
  one_site_call flag (diag1 hx hy) (diag1 nx ny) (state1 1 0) (state1 x y) 2 oneopt.
Proof.
  intros Hh Hx. split; [apply diag1_hamiltonian; exact Hh|]. split; [apply diag1_open|]. split; [reflexivity|]. split; [apply state1_open|]. split; [reflexivity|]. split; [apply state1_open|]. split; [reflexivity|].
  split; [right; exists 0%nat; split; [lia|cbn; lra]|]. split; [|repeat split; reflexivity].
  destruct Hx as [Hx|Hx]; [exists 0%nat|exists 1%nat]; (split; [lia|]); cbn; lra.
Qed.

(** C50_one_site and C50_orthogonal: a case.  H = diag(-2, -1), phi = |0>: the result is |1> up to its sign, of energy -1,
    although the ground state is phi. *)
Theorem C50_case : exists svd eigs psi', @svd_contract RR svd /\ eigs_contract eigs /\ eigs_converges eigs /\
  valid_minimize DBL_EPSILON eigs (diag1 (-2) (-1)) (state1 1 0) [2]%nat oneopt /\
  minimize_with svd DBL_EPSILON eigs (diag1 (-2) (-1)) (state1 1 0) oneopt (diag1 1 1) 0 (Some [state1 1 0]) = Ok (psi', -1) /\
  open_mps psi' /\ pdims psi' = [2]%nat /\ amp psi' [0]%nat = 0 /\ (amp psi' [1]%nat = 1 \/ amp psi' [1]%nat = -1) /\
  differs_at psi' (state1 1 0) 0.
Proof.
  destruct (@svd_contract_satisfiable RR) as (svd & Hsvd). destruct (@eigs_contract_satisfiable RR) as (E1 & E2). exists svd, exact_eigs.
  pose proof (call1 DBL_EPSILON (-2) (-1) 1 1 1 0 ltac:(lra) ltac:(lra)) as Hcall.
  destruct (C50_one_site svd DBL_EPSILON exact_eigs _ _ _ _ _ _ 0 Hsvd E1 E2 Hcall) as (psi' & E & ER & Ho & Hp & Hz & Hw & HE & Hopt).
  { cbn. ring. }
  { exists (fun i => match i with [1%nat] => 1 | _ => 0 end). rewrite state1_inner, diag1_energy. lra. }
  rewrite state1_inner in Hz. set (a := amp psi' [0]%nat) in *. set (c := amp psi' [1]%nat) in *.
  change (0 + a * a + c * c = 1) in Hw. unfold energy in HE. rewrite Hp in HE. rewrite diag1_energy in HE. fold a c in HE.
  assert (Ha : a = 0) by lra. rewrite Ha in *. assert (Hc : c * c = 1) by lra. assert (EE : E = -1) by lra. rewrite EE in *. clear EE E.
  exists psi'. split; [exact Hsvd|]. split; [exact E1|]. split; [exact E2|]. split.
  { destruct Hcall as (A1 & A2 & A3 & A4 & A5 & A6 & A7 & A8 & A9 & A10 & A11 & A12). split; [exact A1|]. split; [exact A4|]. split; [exact A5|]. split; [left; exact A10|]. split; [|left; exact A11].
    left. unfold DBL_EPSILON. apply Rgt_not_eq, Rinv_0_lt_compat, pow_lt. lra. }
  split; [exact ER|]. split; [exact Ho|]. split; [exact Hp|]. split; [exact Ha|]. split.
  { assert ((c - 1) * (c + 1) = 0) as Hm by lra. apply Rmult_integral in Hm. destruct Hm as [Hm|Hm]; [left; change (c = 1)|right; change (c = -1)]; lra. }
  assert (Hl : length psi' = 1%nat) by (rewrite <- length_pdims, Hp; reflexivity).
  intros j Hj. unfold site. rewrite !nth_overflow; [reflexivity| |]; rewrite ?Hl; cbn [length state1]; clear -Hj; lia.
Qed.

(** Found: the vectors are divided by the square root of their norm, not by their norm, so that the orthogonality
    holds only if phi has norm one: for H = diag(-1, 0) and phi = |0>/4, the result is |0>, the very state it should be
    orthogonal to, although |1> is orthogonal to phi. *)
Theorem C50_norm_refuted (svd : RT -> RT * list R * RT) flag eigs N value : @svd_contract RR svd -> @eigs_contract RR eigs -> eigs_converges eigs ->
  open_mpo N -> length N = 1%nat ->
  exists psi' E, minimize_with svd flag eigs (diag1 (-1) 0) (state1 1 0) oneopt N value (Some [state1 (1 / 4) 0]) = Ok (psi', E) /\
    weight [2]%nat (amp psi') = 1 /\ amp psi' [1]%nat = 0 /\ inner [2]%nat (amp (state1 (1 / 4) 0)) (amp psi') <> 0.
Proof.
  intros Hsvd Heigs Hcc HN HlN.
  assert (Hcall : one_site_call flag (diag1 (-1) 0) N (state1 1 0) (state1 (1 / 4) 0) 2 oneopt).
  { destruct (call1 flag (-1) 0 1 1 (1 / 4) 0 ltac:(lra) ltac:(lra)) as (A1 & _ & _ & A2). split; [exact A1|]. split; [exact HN|]. split; [exact HlN|]. exact A2. }
  destruct (with_single svd flag Hsvd eigs Heigs _ _ _ _ _ _ value Hcall Hcc) as (psi' & E & p & ER & Hne & Ho & Hp & HA & Hnv & G1 & G2 & G3).
  destruct (state1_amp (1 / 4) 0) as (S0 & S1).
  assert (En : rsum 2 (fun r => @kmod2 RR (amp (state1 (1 / 4) 0) [r])) = (1 / 4) * (1 / 4)).
  { cbn [rsum]. change (@kmod2 RR (amp (state1 (1 / 4) 0) [0%nat])) with (amp (state1 (1 / 4) 0) [0%nat] * amp (state1 (1 / 4) 0) [0%nat]).
    change (@kmod2 RR (amp (state1 (1 / 4) 0) [1%nat])) with (amp (state1 (1 / 4) 0) [1%nat] * amp (state1 (1 / 4) 0) [1%nat]). rewrite S0, S1. ring. }
  rewrite En in *. rewrite (sqrt_square (1 / 4)) in * by lra. replace (1 / 4) with (1 / 2 * (1 / 2)) in * by lra. rewrite (sqrt_square (1 / 2)) in * by lra.
  exists psi', E. split; [exact ER|]. rewrite state1_inner. rewrite !HA by lia.
  assert (Hw : p 0%nat * p 0%nat + p 1%nat * p 1%nat = 1).
  { cbn [rsum] in G1. change (0 + p 0%nat * p 0%nat + p 1%nat * p 1%nat = 1) in G1. lra. }
  specialize (G3 (fun r => if Nat.eqb r 0 then 1 else 0)). pose proof (G2 0%nat ltac:(lia)) as G20. pose proof (G2 1%nat ltac:(lia)) as G21.
  set (ov := fun r : nat => @kmul (@rs_scalar RR) (@rinj RR (/ (1 / 2))) (@kconj (@rs_scalar RR) (amp (state1 (1 / 2 * (1 / 2)) 0) [r]))) in *.
  assert (O0 : ov 0%nat = 1 / 2) by (unfold ov; change (/ (1 / 2) * amp (state1 (1 / 2 * (1 / 2)) 0) [0%nat] = 1 / 2); destruct (state1_amp (1 / 2 * (1 / 2)) 0) as (-> & _); field).
  assert (O1 : ov 1%nat = 0) by (unfold ov; change (/ (1 / 2) * amp (state1 (1 / 2 * (1 / 2)) 0) [1%nat] = 0); destruct (state1_amp (1 / 2 * (1 / 2)) 0) as (_ & ->); field).
  set (MM := fun r c => opelem (diag1 (-1) 0) [r] [c]) in *.
  assert (M00 : MM 0%nat 0%nat = -1) by (cbn; ring). assert (M01 : MM 0%nat 1%nat = 0) by (cbn; ring). assert (M10 : MM 1%nat 0%nat = 0) by (cbn; ring). assert (M11 : MM 1%nat 1%nat = 0) by (cbn; ring).
  assert (P00 : @PMP RR 2 ov MM 0 0 = - (9 / 16)).
  { unfold PMP, Pm, delta. cbn [sum Nat.eqb]. rewrite O0, O1, M00, M01, M10, M11. cbn. field. }
  assert (P01 : @PMP RR 2 ov MM 0 1 = 0).
  { unfold PMP, Pm, delta. cbn [sum Nat.eqb]. rewrite O0, O1, M00, M01, M10, M11. cbn. field. }
  assert (P10 : @PMP RR 2 ov MM 1 0 = 0).
  { unfold PMP, Pm, delta. cbn [sum Nat.eqb]. rewrite O0, O1, M00, M01, M10, M11. cbn. field. }
  assert (P11 : @PMP RR 2 ov MM 1 1 = 0).
  { unfold PMP, Pm, delta. cbn [sum Nat.eqb]. rewrite O0, O1, M00, M01, M10, M11. cbn. field. }
  cbn [sum] in G20, G21, G3. rewrite ?P00, ?P01, ?P10, ?P11 in *. cbn in G20, G21, G3.
  assert (HE : E <= - (9 / 16)) by lra.
  assert (Hp1 : p 1%nat = 0).
  { assert (E * p 1%nat = 0) as Hm by lra. apply Rmult_integral in Hm. destruct Hm; lra. }
  rewrite Hp1 in *. split; [|split; [reflexivity|]].
  - change (0 + amp psi' [0%nat] * amp psi' [0%nat] + amp psi' [1%nat] * amp psi' [1%nat] = 1). rewrite !HA by lia. rewrite ?Hp1. lra.
  - intros Hz. assert (@eq R (p 0%nat) 0) as Hp0 by (clear -Hz; lra). rewrite Hp0 in Hw. lra.
Qed.

(** Found: the constraint is applied by projecting the Hamiltonian, H -> (1-P) H (1-P), which gives phi the energy zero.
    If no state orthogonal to phi has a negative energy, phi is the ground state of that, and is what is returned,
    with energy zero: H = diag(1, 2), phi = |0>, result |0>, energy 1, returned energy 0. *)
Theorem C50_positive_refuted (svd : RT -> RT * list R * RT) flag eigs N value : @svd_contract RR svd -> @eigs_contract RR eigs -> eigs_converges eigs ->
  open_mpo N -> length N = 1%nat ->
  exists psi', minimize_with svd flag eigs (diag1 1 2) (state1 1 0) oneopt N value (Some [state1 1 0]) = Ok (psi', 0) /\
    weight [2]%nat (amp psi') = 1 /\ amp psi' [1]%nat = 0 /\ energy (diag1 1 2) psi' = 1 /\ inner [2]%nat (amp (state1 1 0)) (amp psi') <> 0.
Proof.
  intros Hsvd Heigs Hcc HN HlN.
  assert (Hcall : one_site_call flag (diag1 1 2) N (state1 1 0) (state1 1 0) 2 oneopt).
  { destruct (call1 flag 1 2 1 1 1 0 ltac:(lra) ltac:(lra)) as (A1 & _ & _ & A2). split; [exact A1|]. split; [exact HN|]. split; [exact HlN|]. exact A2. }
  destruct (with_single svd flag Hsvd eigs Heigs _ _ _ _ _ _ value Hcall Hcc) as (psi' & E & p & ER & Hne & Ho & Hp & HA & Hnv & G1 & G2 & G3).
  destruct (state1_amp 1 0) as (S0 & S1).
  assert (En : rsum 2 (fun r => @kmod2 RR (amp (state1 1 0) [r])) = 1).
  { cbn [rsum]. change (@kmod2 RR (amp (state1 1 0) [0%nat])) with (amp (state1 1 0) [0%nat] * amp (state1 1 0) [0%nat]).
    change (@kmod2 RR (amp (state1 1 0) [1%nat])) with (amp (state1 1 0) [1%nat] * amp (state1 1 0) [1%nat]). rewrite S0, S1. ring. }
  rewrite En, sqrt_1, ?sqrt_1, ?Rinv_1 in *.
  exists psi'. unfold energy. rewrite Hp. rewrite state1_inner, diag1_energy. rewrite !HA by lia.
  assert (Hw : p 0%nat * p 0%nat + p 1%nat * p 1%nat = 1).
  { cbn [rsum] in G1. change (0 + p 0%nat * p 0%nat + p 1%nat * p 1%nat = 1) in G1. lra. }
  specialize (G3 (fun r => if Nat.eqb r 0 then 1 else 0)). pose proof (G2 0%nat ltac:(lia)) as G20. pose proof (G2 1%nat ltac:(lia)) as G21.
  set (ov := fun r : nat => @kmul (@rs_scalar RR) (@rinj RR 1) (@kconj (@rs_scalar RR) (amp (state1 1 0) [r]))) in *.
  assert (O0 : ov 0%nat = 1) by (unfold ov; change (1 * amp (state1 1 0) [0%nat] = 1); rewrite S0; ring).
  assert (O1 : ov 1%nat = 0) by (unfold ov; change (1 * amp (state1 1 0) [1%nat] = 0); rewrite S1; ring).
  set (MM := fun r c => opelem (diag1 1 2) [r] [c]) in *.
  assert (M00 : MM 0%nat 0%nat = 1) by (cbn; ring). assert (M01 : MM 0%nat 1%nat = 0) by (cbn; ring). assert (M10 : MM 1%nat 0%nat = 0) by (cbn; ring). assert (M11 : MM 1%nat 1%nat = 2) by (cbn; ring).
  assert (P00 : @PMP RR 2 ov MM 0 0 = 0).
  { unfold PMP, Pm, delta. cbn [sum Nat.eqb]. rewrite O0, O1, M00, M01, M10, M11. cbn. ring. }
  assert (P01 : @PMP RR 2 ov MM 0 1 = 0).
  { unfold PMP, Pm, delta. cbn [sum Nat.eqb]. rewrite O0, O1, M00, M01, M10, M11. cbn. ring. }
  assert (P10 : @PMP RR 2 ov MM 1 0 = 0).
  { unfold PMP, Pm, delta. cbn [sum Nat.eqb]. rewrite O0, O1, M00, M01, M10, M11. cbn. ring. }
  assert (P11 : @PMP RR 2 ov MM 1 1 = 2).
  { unfold PMP, Pm, delta. cbn [sum Nat.eqb]. rewrite O0, O1, M00, M01, M10, M11. cbn. ring. }
  cbn [sum] in G20, G21, G3. rewrite ?P00, ?P01, ?P10, ?P11 in *. cbn in G20, G21, G3.
  assert (HE : E <= 0) by lra.
  assert (Hp1 : p 1%nat = 0).
  { assert ((E - 2) * p 1%nat = 0) as Hm by lra. apply Rmult_integral in Hm. destruct Hm; lra. }
  assert (HE0 : E = 0).
  { assert (E * p 0%nat = 0) as Hm by lra. apply Rmult_integral in Hm. destruct Hm as [Hm|Hm]; [exact Hm|]. rewrite Hm, Hp1 in Hw. lra. }
  rewrite Hp1 in *. split; [rewrite HE0 in ER; exact ER|]. split; [|split; [reflexivity|split; [lra|]]].
  - change (0 + amp psi' [0%nat] * amp psi' [0%nat] + amp psi' [1%nat] * amp psi' [1%nat] = 1). rewrite !HA by lia. rewrite ?Hp1. lra.
  - intros Hz. assert (@eq R (p 0%nat) 0) as Hp0 by (clear -Hz; lra). rewrite Hp0 in Hw. lra.
Qed.

(** Found: two states that are not orthogonal to each other are subtracted one after the other; the second
    subtraction restores a component along the first. *)
Definition vec2 (x y : R) : RT := @mkT (@rs_scalar RR) [2%nat] [x; y].
Theorem C50_two_refuted : exists o1 o2 T : RT, frob2 o1 = 1 /\ frob2 o2 = 1 /\ length (data o1) = 2%nat /\ length (data o2) = 2%nat /\ length (data T) = 2%nat /\
  tensor_scprod o1 (orthogonalize T [o1; o2]) <> 0.
Proof.
  exists (vec2 1 0), (vec2 (3 / 5) (4 / 5)), (vec2 0 1). split; [cbn; field|]. split; [cbn; field|]. do 3 (split; [reflexivity|]). cbn. lra.
Qed.

(** Found: with the one-site algorithm the constraint is ignored.  H = N = diag(1, -1), <N> = 1 asked for: the result has <N> = -1. *)
Theorem C50_constraint_refuted (svd : RT -> RT * list R * RT) flag eigs : @svd_contract RR svd -> @eigs_contract RR eigs -> eigs_converges eigs ->
  exists psi', minimize_with svd flag eigs (diag1 1 (-1)) (state1 1 0) oneopt (diag1 1 (-1)) 1 None = Ok (psi', -1) /\ open_mps psi' /\ pdims psi' = [2]%nat /\
    weight [2]%nat (amp psi') = 1 /\ energy (diag1 1 (-1)) psi' = -1.
Proof.
  intros Hsvd Heigs Hcc. set (H := diag1 1 (-1)).
  assert (HV : valid_minimize flag eigs H (state1 1 0) [2]%nat oneopt).
  { split; [apply diag1_hamiltonian; lra|]. split; [apply state1_open|]. split; [reflexivity|]. split; [left; reflexivity|]. split; [|left; reflexivity].
    right. exists [0]%nat. split; [repeat constructor; lia|cbn; lra]. }
  destruct (minimizer_starts svd flag Hsvd eigs H (state1 1 0) [2]%nat oneopt HV) as (P0 & b & m & E0 & Hb & ((HQ & _ & _ & _) & _) & Ep & Hl & _).
  pose proof HQ as (HoP & HpP & _). rewrite Ep in *.
  destruct (proj1 (C45_constructor H P0 P0 0 (proj1 (diag1_open _ _)) HoP HoP) ltac:(assert (length H = 1%nat) by reflexivity; assert (length P0 = 1%nat) by exact Hl; lia)) as (fN & EfN).
  rewrite (C50_constraint_ignored svd flag eigs H (state1 1 0) oneopt H 1 m fN eq_refl E0) by (rewrite Ep; exact EfN).
  destruct (C49_returns svd flag Hsvd eigs Heigs H _ _ oneopt HV) as (psi' & E & HR).
  assert (Hs : (0 < o_sweeps oneopt)%Z) by reflexivity.
  pose proof (C49_converges svd flag Hsvd eigs Heigs H _ _ oneopt psi' E HV Hs Hcc HR) as Hne.
  destruct (C49_result svd flag Hsvd eigs Heigs H _ _ oneopt psi' E HV Hs HR Hne) as (Ho & Hd & _).
  destruct (C49_energy svd flag Hsvd eigs Heigs H _ _ oneopt psi' E HV Hs HR Hne ltac:(split; [cbn; lia|left; reflexivity])) as (Hw & HE).
  destruct (C49_optimal_one svd flag Hsvd eigs Heigs H _ _ oneopt psi' E HV Hs HR Hne eq_refl) as (k & Hk & Hc & Hopt).
  assert (k = 0%nat) as -> by (cbn in Hk; lia).
  assert (Hl1 : length psi' = 1%nat) by (rewrite <- length_pdims, Hd; reflexivity).
  specialize (Hopt (state1 0 1) (proj1 (state1_open 0 1)) eq_refl).
  rewrite HE in Hopt. change (energy H (state1 0 1)) with (@energy_of RR H [2]%nat (amp (state1 0 1))) in Hopt. unfold H in Hopt at 1. rewrite diag1_energy in Hopt.
  destruct (state1_amp 0 1) as (S0 & S1). change (@weight RR [2]%nat (amp (state1 0 1))) with (0 + amp (state1 0 1) [0%nat] * amp (state1 0 1) [0%nat] + amp (state1 0 1) [1%nat] * amp (state1 0 1) [1%nat]) in Hopt. rewrite S0, S1 in Hopt.
  assert (Hle : E * (0 + 0 * 0 + 1 * 1) <= 1 * (0 * 0) + -1 * (1 * 1)).
  { apply Hopt. intros j Hj. unfold site. rewrite !nth_overflow; [reflexivity| |]; rewrite ?Hl1; cbn [length state1]; clear -Hj; lia. }
  pose proof HE as HE2. unfold energy in HE2. rewrite Hd in HE2. unfold H in HE2 at 1. rewrite diag1_energy in HE2.
  change (0 + amp psi' [0%nat] * amp psi' [0%nat] + amp psi' [1%nat] * amp psi' [1%nat] = 1) in Hw.
  pose proof (Rle_0_sqr (amp psi' [0%nat])) as Hsq. unfold Rsqr in Hsq. assert (EE : E = -1) by lra.
  exists psi'. split; [rewrite EE in HR; exact HR|]. split; [exact Ho|]. split; [exact Hd|]. split; [exact Hw|]. rewrite HE. exact EE.
Qed.

(** Found: a state phi whose overlap with all the states of the first step vanishes makes the algorithm divide 0 by
    0 (NaN in the program, Abort in the model): the start |00> and phi = |11>, which are orthogonal. *)
Theorem C50_nan_refuted (svd : RT -> RT * list R * RT) flag eigs H N value o : @svd_contract RR svd -> no_truncation flag ->
  hamiltonian H [2; 2]%nat -> open_mpo N -> length N = 2%nat -> o_Dmax o = 0%Z -> o_compute_gap o = false -> (0 < o_sweeps o)%Z ->
  minimize_with svd flag eigs H start00 o N value (Some [[bvec 0 1; bvec 0 1]]) = Abort.
Proof.
  intros Hsvd Hfl HH HN HlN HD Hg Hs. set (phi := [bvec 0 1; bvec 0 1] : RM).
  assert (Hphi : open_mps phi /\ pdims phi = [2; 2]%nat) by (split; [split; [discriminate|solve_linked]|reflexivity]).
  destruct start_open as (O0 & _ & D0 & _).
  assert (HV : valid_minimize flag eigs H start00 [2; 2]%nat o).
  { split; [exact HH|]. split; [exact O0|]. split; [exact D0|]. split; [left; exact HD|]. split; [|left; exact Hg].
    right. exists [0; 0]%nat. split; [repeat constructor; lia|cbn; lra]. }
  assert (Hwf : wf_mps start00) by (split; [apply O0|]; exists 1%nat; split; [lia|apply O0]).
  destruct (C14_canonical_form svd flag Hsvd start00 0 Hwf ltac:(cbn; lia)) as (P0 & E0 & _ & F2 & F3 & F4 & _ & _ & F7).
  { right. exists [0; 0]%nat. split; [repeat constructor; lia|cbn; lra]. }
  specialize (F2 O0). specialize (F7 Hfl). rewrite D0 in F3.
  assert (Hl0 : length P0 = 2%nat) by (rewrite <- length_pdims, F3; reflexivity).
  assert (HlH : length H = 2%nat) by (destruct HH as (_ & Hod & _); rewrite <- length_odims, Hod; reflexivity).
  destruct (proj1 (C45_constructor H P0 P0 0 (proj1 HH) F2 F2) ltac:(lia)) as (fH & EfH).
  destruct (proj1 (C45_constructor N P0 P0 0 HN F2 F2) ltac:(lia)) as (fN & EfN).
  pose proof (phi_good [2; 2]%nat phi Hphi) as Hgb.
  destruct (proj1 (C44_constructor [@k1 (@rs_scalar RR)] [phi] P0 [2; 2]%nat 0 Hgb) ltac:(cbn; lia)) as (f & Ef).
  set (m1 := mkMin P0 fH (Some fN) value [f] 1 true).
  assert (ER : minimize_with svd flag eigs H start00 o N value (Some [phi]) = full_sweep svd flag eigs o m1).
  { unfold minimize_with, minimizer_new, canonical_form. change (-1 <? 0)%Z with true. cbv iota. change (canonical_form_at svd flag start00 0) with (canonical_form_at svd flag start00 (Z.of_nat 0)). rewrite E0. cbn [bind]. rewrite EfH. cbn [bind].
    unfold add_constraint. cbn [mz_psi]. rewrite EfN. cbn [bind]. unfold add_states. cbn [fold_left bind mz_psi mz_H mz_N mz_value mz_ortho mz_step mz_converged].
    unfold lform_new1. rewrite Ef. reflexivity. }
  refine (eq_trans ER _). unfold full_sweep. destruct (Z.to_nat (o_sweeps o)) as [|n] eqn:En; [lia|]. rewrite full_loop_S.
  unfold any_sweep, single_site. rewrite HD. change (0 =? 0)%Z with true. cbv iota. unfold single_site_sweep. cbn [mz_psi mz_step m1]. rewrite Hl0. change (0 <? 1)%Z with true. cbv iota. cbn [seq site_loop mz_converged m1].
  assert (Es : single_site_step svd flag eigs o m1 0 = Abort); [|change (mz_converged m1) with true; cbv iota; rewrite Es; reflexivity].
  assert (HA : At [@k1 (@rs_scalar RR)] [phi] [2; 2]%nat 0 P0 f).
  { split; [exact F2|]. split; [exact F3|]. split; [lia|]. change 0%Z with (Z.of_nat 0) in Ef. exact (lfh_new [@k1 (@rs_scalar RR)] [phi] [2; 2]%nat P0 0%nat f F2 F3 Ef). }
  destruct (at_repr [@k1 (@rs_scalar RR)] [phi] [2; 2]%nat Hgb 0 P0 f HA) as (v & Ev & Hwv & Hdv & Hrep).
  assert (Hhere : lf_here f = 0%nat).
  { destruct HA as (_ & _ & _ & Hh). pose proof (history_linv [@k1 (@rs_scalar RR)] [phi] [2; 2]%nat Hgb f _ _ Hh) as ((_ & E & _) & _). rewrite E, firstn_length. lia. }
  unfold single_site_step, orthogonal_projectors. cbn [mz_ortho m1 fold_left bind]. rewrite Hhere. cbn [Nat.eqb]. change (0 =? 0)%Z with true. cbv iota. rewrite Ev. cbn [bind].
  assert (Hz : norm2_tensor v = 0); [|destruct (Req_EM_T (norm2_tensor v) 0); [reflexivity|contradiction]].
  rewrite CanonProps.norm2_tensor_frob. replace (frob2 v) with 0; [apply sqrt_0|]. symmetry.
  destruct P0 as [|A [|B [|X P]]]; try discriminate Hl0. pose proof F2 as (_ & HL). cbn [linked] in HL. destruct HL as (d & c & HdA & HwA & _ & Hc & d' & c' & HdB & _ & _ & _ & ->).
  specialize (F4 1%nat). cbn [site nth] in F4. unfold dim in F4. rewrite HdB in F4. cbn in F4. assert (c = 1)%nat as -> by lia.
  cbn [pdims map] in F3. unfold dim in F3. rewrite HdA, HdB in F3. cbn [nth] in F3. injection F3 as -> ->.
  assert (Amp : forall T : RT, dims T = [1; 2; 1]%nat -> forall i j, (i < 2)%nat -> (j < 2)%nat -> amp [T; B] [i; j] = get T [0; i; 0]%nat * get B [0; j; 0]%nat).
  { intros T HT i j Hi Hj. unfold amp. cbn [left_bond chain]. unfold dim. rewrite HT, HdB. cbn [nth]. cbn [sum]. unfold delta. cbn. ring. }
  pose proof (F7 [0; 0]%nat ltac:(repeat constructor; cbn; lia)) as A00. pose proof (F7 [0; 1]%nat ltac:(repeat constructor; cbn; lia)) as A01.
  rewrite (Amp A HdA) in A00, A01 by lia. replace (amp start00 [0; 0]%nat) with 1 in A00 by (cbn; ring). replace (amp start00 [0; 1]%nat) with 0 in A01 by (cbn; ring).
  assert (HB : get B [0; 1; 0]%nat = 0).
  { apply Rmult_integral in A01. destruct A01 as [Hx|Hx]; [|exact Hx]. rewrite Hx in A00. lra. }
  cbn [site nth] in Hdv. rewrite HdA in Hdv.
  pose proof (dot_self v 1 2 1 Hdv Hwv) as HdS. change (@rinj RR (frob2 v)) with (frob2 v) in HdS. rewrite <- HdS.
  assert (Etc : tconj v = v).
  { destruct v as [dd ll]. unfold tconj. cbn [dims data]. f_equal. rewrite <- (map_id ll) at 2. apply map_ext. reflexivity. }
  rewrite Etc. rewrite Hrep; [|exact Hwv|cbn [site nth]; congruence]. cbn [replace_nth].
  rewrite (overlap1 [2; 2]%nat) by (cbn [pdims map]; unfold dim; rewrite Hdv, HdB; reflexivity).
  unfold inner. cbn [sumcfg sum]. rewrite !(Amp v Hdv) by lia. rewrite HB. cbn. ring.
Qed.
End Real.

(** Found: the complex version projects out the conjugate of the vector that it should.  phi = ((1+i)|0> + (1-i)|1>)/2 has norm one,
    H = - |phi><phi|; the states orthogonal to phi have energy zero, but the result is not orthogonal to phi: it is phi itself,
    of energy -1, since the conjugate of phi is orthogonal to phi. *)
Section Complex.
Local Open Scope R_scope.
Notation CT := (@tensor (@rs_scalar CC)).
Notation CM := (@mps (@rs_scalar CC)).
Notation CO := (@mpo (@rs_scalar CC)).
Definition cphi_elem (i : nat) : @K (@rs_scalar CC) := if Nat.eqb i 0 then mkC (1 / 2) (1 / 2) else mkC (1 / 2) (Ropp (1 / 2)).
Definition cphi : CM := [@mk (@rs_scalar CC) [1; 2; 1]%nat (fun x => cphi_elem (nth 1 x 0%nat))].
Definition cproj : CO := [@mk (@rs_scalar CC) [1; 2; 2; 1]%nat (fun x =>
  @kopp (@rs_scalar CC) (@kmul (@rs_scalar CC) (cphi_elem (nth 1 x 0%nat)) (@kconj (@rs_scalar CC) (cphi_elem (nth 2 x 0%nat)))))].

Theorem C50_complex_refuted (svd : CT -> CT * list R * CT) flag eigs N value : @svd_contract CC svd -> @eigs_contract CC eigs -> eigs_converges eigs ->
  open_mpo N -> length N = 1%nat ->
  weight [2]%nat (amp cphi) = 1 /\
  exists psi' E, minimize_with svd flag eigs cproj cphi oneopt N value (Some [cphi]) = Ok (psi', E) /\ open_mps psi' /\ pdims psi' = [2]%nat /\
    weight [2]%nat (amp psi') = 1 /\ E <= -1 /\ inner [2]%nat (amp cphi) (amp psi') <> @k0 (@rs_scalar CC).
Proof.
  intros Hsvd Heigs Hcc HN HlN.
  assert (Ho : open_mps cphi) by (split; [discriminate|solve_linked]).
  assert (Hph : forall r, (r < 2)%nat -> amp cphi [r] = cphi_elem r).
  { intros r Hr. destruct r as [|[|r]]; try lia; unfold amp; cbn; apply C_ext; cbn; field. }
  assert (HM : forall r c, (r < 2)%nat -> (c < 2)%nat -> opelem cproj [r] [c] = @kopp (@rs_scalar CC) (@kmul (@rs_scalar CC) (cphi_elem r) (@kconj (@rs_scalar CC) (cphi_elem c)))).
  { intros r c Hr Hc. destruct r as [|[|r]], c as [|[|c]]; try lia; cbn; apply C_ext; cbn; field. }
  assert (HH : @hamiltonian CC cproj [2]%nat).
  { split; [|split; [reflexivity|split; [reflexivity|split]]].
    - split; [discriminate|]. unfold cproj. cbn [mlinked]. exists 2%nat, 2%nat, 1%nat. repeat split; try lia; reflexivity.
    - intros is js Hi Hj. apply in_range_cons_inv in Hi, Hj. destruct Hi as (a & i & -> & Ha & Hi). destruct Hj as (c & j & -> & Hc & Hj).
      apply in_range_nil_inv in Hi, Hj. subst i j. rewrite !HM by assumption. destruct a as [|[|a]], c as [|[|c]]; try lia; apply C_ext; cbn; field.
    - exists [0]%nat, [0]%nat. split; [repeat constructor; lia|]. split; [repeat constructor; lia|]. rewrite HM by lia. intros Hz. apply (f_equal Cre) in Hz. cbn in Hz. lra. }
  assert (Hnz : exists r, (r < 2)%nat /\ amp cphi [r] <> @k0 (@rs_scalar CC)).
  { exists 0%nat. split; [lia|]. rewrite Hph by lia. intros Hz. apply (f_equal Cre) in Hz. cbn in Hz. lra. }
  assert (Hcall : one_site_call flag cproj N cphi cphi 2 oneopt).
  { split; [exact HH|]. split; [exact HN|]. split; [exact HlN|]. split; [exact Ho|]. split; [reflexivity|]. split; [exact Ho|]. split; [reflexivity|].
    split; [right; exact Hnz|]. split; [exact Hnz|]. repeat split; reflexivity. }
  destruct (with_single svd flag Hsvd eigs Heigs _ _ _ _ _ _ value Hcall Hcc) as (psi' & E & p & ER & Hne & Ho' & Hp & HA & Hnv & G1 & G2 & G3).
  assert (En : rsum 2 (fun r => @kmod2 CC (amp cphi [r])) = 1).
  { cbn [rsum]. rewrite !Hph by lia. cbn. unfold Cmod2. cbn. field. }
  rewrite En, sqrt_1, ?sqrt_1, ?Rinv_1 in *.
  split.
  { change (@weight CC [2]%nat (amp cphi)) with (Cre (@kadd (@rs_scalar CC) (@kadd (@rs_scalar CC) (@k0 (@rs_scalar CC)) (@kmul (@rs_scalar CC) (@kconj (@rs_scalar CC) (amp cphi [0%nat])) (amp cphi [0%nat]))) (@kmul (@rs_scalar CC) (@kconj (@rs_scalar CC) (amp cphi [1%nat])) (amp cphi [1%nat])))).
    rewrite !Hph by lia. cbn. field. }
  exists psi', E. split; [exact ER|]. split; [exact Ho'|]. split; [exact Hp|].
  set (ov := fun r : nat => @kmul (@rs_scalar CC) (@rinj CC 1) (@kconj (@rs_scalar CC) (amp cphi [r]))) in *.
  assert (O0 : ov 0%nat = mkC (1 / 2) (Ropp (1 / 2))) by (unfold ov; rewrite Hph by lia; apply C_ext; cbn; field).
  assert (O1 : ov 1%nat = mkC (1 / 2) (1 / 2)) by (unfold ov; rewrite Hph by lia; apply C_ext; cbn; field).
  set (MM := fun r c => opelem cproj [r] [c]) in *.
  assert (HP : forall r c, (r < 2)%nat -> (c < 2)%nat -> @PMP CC 2 ov MM r c = @kopp (@rs_scalar CC) (@kmul (@rs_scalar CC) (cphi_elem r) (@kconj (@rs_scalar CC) (cphi_elem c)))).
  { intros r c Hr Hc. destruct r as [|[|r]], c as [|[|c]]; try lia; unfold PMP, Pm, delta; cbn [sum Nat.eqb]; unfold MM; rewrite ?HM, ?O0, ?O1 by lia; apply C_ext; cbn; field. }
  assert (HE : E <= -1).
  { specialize (G3 cphi_elem). cbn [sum] in G3. rewrite !HP in G3 by lia. cbn in G3. unfold Cmod2 in G3. cbn in G3. lra. }
  assert (Hw : @weight CC [2]%nat (amp psi') = 1).
  { rewrite <- G1. change (@weight CC [2]%nat (amp psi')) with (Cre (@kadd (@rs_scalar CC) (@kadd (@rs_scalar CC) (@k0 (@rs_scalar CC)) (@kmul (@rs_scalar CC) (@kconj (@rs_scalar CC) (amp psi' [0%nat])) (amp psi' [0%nat]))) (@kmul (@rs_scalar CC) (@kconj (@rs_scalar CC) (amp psi' [1%nat])) (amp psi' [1%nat])))).
    rewrite !HA by lia. cbn. unfold Cmod2. ring. }
  split; [exact Hw|]. split; [exact HE|]. intros Hz.
  assert (Hz' : @kadd (@rs_scalar CC) (@kmul (@rs_scalar CC) (@kconj (@rs_scalar CC) (cphi_elem 0)) (p 0%nat)) (@kmul (@rs_scalar CC) (@kconj (@rs_scalar CC) (cphi_elem 1)) (p 1%nat)) = @k0 (@rs_scalar CC)).
  { rewrite <- Hz. unfold inner. cbn [sumcfg sum]. rewrite !Hph, !HA by lia. apply C_ext; cbn; ring. }
  assert (Hv : forall r, (r < 2)%nat -> @kmod2 CC (p r) = 0).
  { intros r Hr. specialize (G2 r Hr). cbn [sum] in G2. rewrite !HP in G2 by lia.
    assert (Hz2 : @kmul (@rs_scalar CC) (@rinj CC E) (p r) = @k0 (@rs_scalar CC)).
    { rewrite <- G2. transitivity (@kopp (@rs_scalar CC) (@kmul (@rs_scalar CC) (cphi_elem r) (@kadd (@rs_scalar CC) (@kmul (@rs_scalar CC) (@kconj (@rs_scalar CC) (cphi_elem 0)) (p 0%nat)) (@kmul (@rs_scalar CC) (@kconj (@rs_scalar CC) (cphi_elem 1)) (p 1%nat))))).
      - apply C_ext; cbn; ring.
      - rewrite Hz'. apply C_ext; cbn; ring. }
    pose proof (f_equal Cre Hz2) as Q1. pose proof (f_equal Cim Hz2) as Q2. cbn in Q1, Q2.
    assert (Cre (p r) = 0) as R1. { assert (E * Cre (p r) = 0) as Hm by lra. apply Rmult_integral in Hm. destruct Hm; lra. }
    assert (Cim (p r) = 0) as R2. { assert (E * Cim (p r) = 0) as Hm by lra. apply Rmult_integral in Hm. destruct Hm; lra. }
    change (Cmod2 (p r) = 0). unfold Cmod2. rewrite R1, R2. ring. }
  cbn [rsum] in G1. rewrite !Hv in G1 by lia. lra.
Qed.
End Complex.
