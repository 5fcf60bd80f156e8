(** * C51: solve(H, P, Q, sense, sweeps, normalize, Dmax, tol) for Hermitian H, one-site algorithm *)
From Coq Require Import Reals Lra Bool List Arith ZArith Lia Ring.
From Verif Require Import Scalar ScalarFacts RScal Tensor TensorFacts Spec MpsModel MpsFacts StateFacts StateFacts2 MpoSpec MpoModel MpoFacts CanonSpec CanonModel
  TruncFacts SplitFacts CanonFacts CanonSweep CanonNorm CanonProps CanonTwo SweepModel SweepFacts FormModel FormSpec LFormFacts QFormFacts SparseFacts QFormInv QFormValue QFormMain
  SimplifySpec SimplifyModel SimplifyFacts SimplifyStep SimplifySweep SimplifyLoop MinimizerModel MinLive MinimizeSpec MinLocal MinStep SolveModel SolveSpec SolveLive SolveAlg SolveStep SolveMain
  SvdExist RealInst Witness Properties_Canon Properties_Form Properties_Simplify Properties_Minimize Properties_Ortho2.
Import ListNotations.
Local Open Scope K_scope.

Section Props.
Context {RS : RScal}.
Add Ring Kring : k_ring.
Variable svd : tensor -> tensor * list R * tensor.
Variable flag : R.
Hypothesis Hsvd : svd_contract svd.
Variables (lsolve : tensor -> tensor -> tensor) (cgs : (tensor -> result tensor) -> tensor -> tensor -> nat -> R -> result tensor).
Hypothesis Hls : lsolve_contract lsolve.
Variable adj : mpo -> mpo.
Hypothesis Hadj : adj = adjoint_d \/ adj = adjoint_z.
Variables (tolerance solvetol : R) (H : mpo) (P Q : mps) (ds : list nat) (sense : Z) (Dmax : Z) (tol : R).
Notation call sweeps normalize := (solve svd flag lsolve cgs adj true tolerance solvetol H P Q sense sweeps normalize Dmax tol).
Notation err_of f := (residual H ds (amp Q) f).

Lemma solve_run sweeps : valid_solve svd flag H P Q ds sweeps ->
  exists P0 P' err d, starts_with svd flag P Q P0 /\ open_mps P0 /\ pdims P0 = ds /\
    (length P = 0%nat -> (forall is, in_range ds is -> amp P0 is = amp Q is) /\ forall j, (dim (site P0 j) 0 <= dim (site Q j) 0)%nat) /\
    call sweeps false = Ok (P', sgn d, err) /\
    call sweeps true = (let c := last_of d (length P') in let n := norm2_tensor (site P' c) in
      if Req_EM_T n 0 then Abort else Ok (replace_nth c (tscale (rinj (/ n)%R) (site P' c)) P', sgn d, err)) /\
    open_mps P' /\ pdims P' = ds /\ canonical_at (last_of d (length P')) P' /\
    (forall j, (dim (site P' j) 0 <= dim (site P0 j) 0)%nat) /\
    err = err_of (amp P') /\
    (forall phi, open_mps phi -> pdims phi = ds -> differs_at P' phi (last_of d (length P')) -> (err <= err_of (amp phi))%R) /\
    inner ds (amp Q) (op_apply ds (opelem H) (amp P')) = rinj (weight ds (op_apply ds (opelem H) (amp P'))) /\
    (flag <> 0%R \/ inner ds (amp Q) (op_apply ds (opelem H) (amp P')) <> 0) /\
    (exact_flag flag -> (err <= err_of (amp P0))%R) /\
    (forall m P2 s2 e2, exact_flag flag -> (sweeps <= m)%nat -> call m false = Ok (P2, s2, e2) -> (e2 <= err)%R).
Proof.
  intros HV. pose proof HV as (HH & _ & _ & _ & Hsw & _).
  destruct (solve_setup H ds HH adj Hadj svd flag Hsvd lsolve cgs P Q sense sweeps HV) as
    (P0 & HQ & O & b & s & lf & qf & HP0 & HPQ & HO & Hb & Hgb & Hg1 & Hgk & Hov & HF & Po & Pd & HA & HQA & Hs & Hn & Hcall).
  destruct sweeps as [|n]; [congruence|]. set (tl := if Rle_dec tol 0 then solvetol else tol) in *. set (W := weight ds (amp Q)) in *.
  assert (Hg0 : forall P, (0 <= gH H ds P)%R) by (intros; apply weight_nonneg).
  destruct (loop1_ok svd flag Hsvd lsolve Hls O ds HO b Hb [1] [HQ] Hgb (gH H ds) Hg1 Hg0 Hgk cgs Dmax tl tolerance W n (sense <? 0)%Z P0 lf qf s 0%R HA HQA Hs Hn)
    as (s' & P' & err & d & E & Hs' & (Fo & Fd & Fl & Fc & Fb & Fv & Fn0) & Ee & Hdim & Hmono).
  exists P0, P', err, d. rewrite Fl in *.
  split; [exact HP0|]. split; [exact Po|]. split; [exact Pd|]. split; [intros EP; apply HPQ; rewrite EP; reflexivity|].
  assert (Esn : (- sweeper_sense s')%Z = sgn d) by (unfold sweeper_sense; destruct Hs' as (_ & _ & _ & ->); destruct d; reflexivity).
  assert (Ek : sweeper_site s' = Z.of_nat (last_of d (length P0))) by apply Hs'.
  assert (HL : (0 < length P0)%nat) by (destruct P0; [destruct Po; congruence|cbn; lia]).
  split. { rewrite Hcall by discriminate. fold tl. rewrite E. cbn [bind finish]. rewrite Esn. reflexivity. }
  split.
  { rewrite Hcall by discriminate. fold tl. rewrite E. cbn [bind finish]. rewrite Esn, Ek. rewrite site_at_nat by (rewrite Fl; unfold last_of; destruct d; lia). cbn [bind]. rewrite Nat2Z.id. reflexivity. }
  assert (HR : forall X, pdims X = ds -> residual H ds (amp Q) (amp X) = Rplus (Fn [1] [HQ] (gH H ds) X) W) by (intros X HX; symmetry; apply HF; exact HX).
  split; [exact Fo|]. split; [exact Fd|]. split; [exact Fc|]. split; [exact Hdim|].
  split; [rewrite HR by exact Fd; exact Ee|].
  split. { intros phi H1 H2 H3. rewrite HR by exact H2. rewrite Ee. apply Rplus_le_compat_r. apply Fb; assumption. }
  rewrite <- Hov by exact Fd. split; [exact Fv|]. split; [destruct Fn0 as [F|F]; [left; exact F|right; exact F]|].
  split. { intros He. rewrite HR by exact Pd. rewrite Ee. apply Rplus_le_compat_r. apply Hmono. exact He. }
  intros m P2 s2 e2 He Hm E2. rewrite Hcall in E2 by lia. fold tl in E2. destruct m as [|m]; [lia|].
  destruct (solve_loop svd flag lsolve cgs true Dmax tl tolerance W (S m) s P0 lf qf 0) as [[[s3 P3] e3]|] eqn:E3; [|discriminate].
  cbn [bind finish] in E2. apply Ok_inj' in E2. injection E2 as <- <- <-.
  apply (loop1_more svd flag Hsvd lsolve Hls O ds HO b Hb [1] [HQ] Hgb (gH H ds) Hg1 Hg0 Hgk cgs Dmax tl tolerance W n m ltac:(lia) (sense <? 0)%Z P0 lf qf s 0%R _ _ _ _ _ _ He HA HQA Hs Hn E E3).
Qed.

(** A valid call returns a state on the same sites, in canonical form around the site where the last sweep ended
    (the one that the returned sense tells), and no bond grows. *)
Theorem C51_returns sweeps : valid_solve svd flag H P Q ds sweeps ->
  exists P' sense' err, call sweeps false = Ok (P', sense', err) /\
    open_mps P' /\ pdims P' = ds /\ (sense' = 1 \/ sense' = -1)%Z /\ canonical_at (sweep_end (length P') sense') P' /\
    forall P0, starts_with svd flag P Q P0 -> forall j, (dim (site P' j) 0 <= dim (site P0 j) 0)%nat.
Proof.
  intros HV. destruct (solve_run sweeps HV) as (P0 & P' & err & d & HP0 & Po & Pd & HPQ & E & _ & Fo & Fd & Fc & Hdim & _).
  exists P', (sgn d), err. split; [exact E|]. split; [exact Fo|]. split; [exact Fd|]. split; [destruct d; auto|]. split; [rewrite sgn_end; exact Fc|].
  intros P1 H1. replace P1 with P0; [exact Hdim|]. revert H1 HP0. unfold starts_with. destruct (Nat.eqb _ _); congruence.
Qed.

Section Call.
Variables (sweeps : nat) (P' : mps) (sense' : Z) (err : R).
Hypothesis HV : valid_solve svd flag H P Q ds sweeps.
Hypothesis HE : call sweeps false = Ok (P', sense', err).

Lemma call_result : exists P0 d, sense' = sgn d /\ starts_with svd flag P Q P0 /\ open_mps P0 /\ pdims P0 = ds /\
    (length P = 0%nat -> (forall is, in_range ds is -> amp P0 is = amp Q is) /\ forall j, (dim (site P0 j) 0 <= dim (site Q j) 0)%nat) /\
    call sweeps true = (let c := last_of d (length P') in let n := norm2_tensor (site P' c) in
      if Req_EM_T n 0 then Abort else Ok (replace_nth c (tscale (rinj (/ n)%R) (site P' c)) P', sgn d, err)) /\
    open_mps P' /\ pdims P' = ds /\ canonical_at (last_of d (length P')) P' /\
    (forall j, (dim (site P' j) 0 <= dim (site P0 j) 0)%nat) /\
    err = err_of (amp P') /\
    (forall phi, open_mps phi -> pdims phi = ds -> differs_at P' phi (last_of d (length P')) -> (err <= err_of (amp phi))%R) /\
    inner ds (amp Q) (op_apply ds (opelem H) (amp P')) = rinj (weight ds (op_apply ds (opelem H) (amp P'))) /\
    (flag <> 0%R \/ inner ds (amp Q) (op_apply ds (opelem H) (amp P')) <> 0) /\
    (exact_flag flag -> (err <= err_of (amp P0))%R) /\
    (forall m P2 s2 e2, exact_flag flag -> (sweeps <= m)%nat -> call m false = Ok (P2, s2, e2) -> (e2 <= err)%R).
Proof.
  destruct (solve_run sweeps HV) as (P0 & P1 & err1 & d & HP0 & Po & Pd & HPQ & E & R). rewrite HE in E. apply Ok_inj' in E. injection E as <- -> <-.
  exists P0, d. split; [reflexivity|]. split; [exact HP0|]. split; [exact Po|]. split; [exact Pd|]. split; [exact HPQ|]. exact R.
Qed.

(** The returned number is |H P' - Q|^2; since <Q|H P'> = |H P'|^2, it is |Q|^2 - |H P'|^2, never larger than |Q|^2. *)
Theorem C51_error : err = err_of (amp P') /\ err = (weight ds (amp Q) - weight ds (op_apply ds (opelem H) (amp P')))%R /\ (0 <= err <= weight ds (amp Q))%R.
Proof.
  destruct call_result as (P0 & d & _ & _ & _ & _ & _ & _ & Fo & Fd & _ & _ & Ee & _ & Hi & _). split; [exact Ee|].
  assert (E2 : err = (weight ds (amp Q) - weight ds (op_apply ds (opelem H) (amp P')))%R).
  { apply rinj_inj. rewrite Ee. unfold residual. rewrite dist2_expand, inner_conj, Hi, rinj_sub, <- !rinj_weight.
    rewrite <- inner_conj, Hi, rinj_conj. ring. }
  split; [exact E2|]. split; [rewrite Ee; apply weight_nonneg|]. pose proof (weight_nonneg ds (op_apply ds (opelem H) (amp P'))). lra.
Qed.

(** No state that differs from P' only at the site where the last sweep ended is closer to a solution. *)
Theorem C51_optimal phi : open_mps phi -> pdims phi = ds -> differs_at P' phi (sweep_end (length P') sense') ->
  (err_of (amp P') <= err_of (amp phi))%R.
Proof.
  destruct call_result as (P0 & d & -> & _ & _ & _ & _ & _ & Fo & Fd & _ & _ & Ee & Hb & _). rewrite sgn_end, <- Ee. apply Hb.
Qed.

(** For a chain of one site that is the least-squares solution; if there is a solution at all, P' is one. *)
Theorem C51_one_site phi : length ds = 1%nat -> open_mps phi -> pdims phi = ds -> (err <= err_of (amp phi))%R.
Proof.
  intros Hl Ho Hd. pose proof C51_error as (Ee & _). rewrite Ee. apply C51_optimal; auto.
  destruct call_result as (P0 & d & -> & _ & _ & _ & _ & _ & Fo & Fd & _).
  assert (L1 : length P' = 1%nat) by (rewrite <- length_pdims; congruence). assert (L2 : length phi = 1%nat) by (rewrite <- length_pdims; congruence).
  intros j Hj. rewrite sgn_end in Hj. unfold site. rewrite !nth_overflow; [reflexivity| |]; destruct d; cbn in Hj; lia.
Qed.

(** If no singular value is dropped, the result is not worse than the initial state, and more sweeps do not make it
    worse.  In particular an exact solution stays one. *)
Theorem C51_not_worse P0 : (flag = 0%R \/ (1 <= flag)%R) -> starts_with svd flag P Q P0 -> (err <= err_of (amp P0))%R.
Proof.
  destruct call_result as (P1 & d & _ & HP1 & _ & _ & _ & _ & _ & _ & _ & _ & _ & _ & _ & _ & Hm & _). intros He HP0.
  replace P0 with P1; [apply Hm; exact He|]. revert HP1 HP0. unfold starts_with. destruct (Nat.eqb _ _); congruence.
Qed.

Theorem C51_keeps_solution : (flag = 0%R \/ (1 <= flag)%R) -> P <> [] ->
  (forall is, in_range ds is -> op_apply ds (opelem H) (amp P) is = amp Q is) ->
  err = 0%R /\ forall is, in_range ds is -> op_apply ds (opelem H) (amp P') is = amp Q is.
Proof.
  intros He HP Hs. assert (H0 : starts_with svd flag P Q P) by (unfold starts_with; destruct P; [congruence|reflexivity]).
  pose proof (C51_not_worse P He H0) as Hle. destruct C51_error as (Ee & _ & (He0 & _)).
  assert (Ez : err_of (amp P) = 0%R).
  { unfold residual, dist2. apply rinj_inj. rewrite rinj_weight, rinj_0. unfold inner. apply sumcfg_zero. intros is Hi. rewrite Hs by exact Hi. replace (amp Q is - amp Q is) with 0 by ring. ring. }
  assert (E0 : err = 0%R) by lra. split; [exact E0|]. intros is Hi. rewrite E0 in Ee. symmetry in Ee. unfold residual, dist2 in Ee.
  pose proof (weight_zero _ _ Ee is Hi) as Hz. cbv beta in Hz. transitivity (op_apply ds (opelem H) (amp P') is - amp Q is + amp Q is); [ring|]. rewrite Hz. ring.
Qed.

Theorem C51_more_sweeps m P2 s2 e2 : (flag = 0%R \/ (1 <= flag)%R) -> (sweeps <= m)%nat -> call m false = Ok (P2, s2, e2) -> (e2 <= err)%R.
Proof.
  destruct call_result as (P1 & d & _ & _ & _ & _ & _ & _ & _ & _ & _ & _ & _ & _ & _ & _ & _ & Hm). apply Hm.
Qed.

(** With normalize, the state is divided by its norm; the returned number is still the one of the state before. *)
Theorem C51_normalize : weight ds (amp P') <> 0%R -> exists P'', call sweeps true = Ok (P'', sense', err) /\
  open_mps P'' /\ pdims P'' = ds /\ canonical_at (sweep_end (length P'') sense') P'' /\
  (forall is, in_range ds is -> amp P'' is = rinj (/ sqrt (weight ds (amp P')))%R * amp P' is) /\ weight ds (amp P'') = 1%R.
Proof.
  intros Hne0. destruct call_result as (P0 & d & -> & _ & Po & Pd & _ & E & Ho & Hp & Hc & _). cbv zeta in E.
  set (c := last_of d (length P')) in *.
  assert (HL : (0 < length P')%nat) by (destruct P'; [destruct Ho; congruence|cbn; lia]).
  assert (HcL : (c < length P')%nat) by (unfold c, last_of; destruct d; lia).
  assert (HH : hamiltonian H ds) by apply HV.
  pose proof (canon_weight H ds HH c P' Ho Hp HcL Hc) as Hwn. set (n := weight ds (amp P')) in *.
  rewrite norm2_tensor_frob, <- Hwn in E.
  assert (Hn0 : (0 < n)%R) by (pose proof (weight_nonneg ds (amp P')) as Hnn; fold n in Hnn; lra).
  destruct (Req_EM_T (sqrt n) 0) as [E0|_]; [apply sqrt_eq_0 in E0; [lra|lra]|].
  pose proof (canonical_replace c P' (tscale (rinj (/ sqrt n)%R) (site P' c)) Hc) as Hc'.
  exists (replace_nth c (tscale (rinj (/ sqrt n)%R) (site P' c)) P'). split; [exact E|].
  destruct Ho as (Hne & HLk).
  assert (HO : open_mps (replace_nth c (tscale (rinj (/ sqrt n)%R) (site P' c)) P')).
  { split; [destruct P', c; discriminate || congruence|]. apply linked_tscale; assumption. }
  split; [exact HO|]. split; [rewrite pdims_tscale; exact Hp|]. split; [rewrite length_replace_nth, sgn_end; exact Hc'|].
  assert (Ha : forall is, in_range ds is -> amp (replace_nth c (tscale (rinj (/ sqrt n)%R) (site P' c)) P') is = rinj (/ sqrt n)%R * amp P' is).
  { intros is Hi. unfold amp. rewrite (linked_left_bond 1 P' 1 Hne HLk). rewrite (linked_left_bond 1 _ 1 (proj1 HO) (proj2 HO)). cbn [sum].
    rewrite (chain_tscale P' 1 1 c) by (try assumption; try lia; rewrite Hp; exact Hi). ring. }
  split; [exact Ha|].
  apply rinj_inj. rewrite rinj_weight. unfold inner.
  rewrite (sumcfg_ext ds _ (fun is => rinj (/ n)%R * (kconj (amp P' is) * amp P' is))).
  - rewrite <- sumcfg_mul_l. change (sumcfg ds (fun is => kconj (amp P' is) * amp P' is)) with (inner ds (amp P') (amp P')).
    rewrite <- rinj_weight. fold n. rewrite <- rinj_mul. f_equal. field. lra.
  - intros is Hi. rewrite Ha by exact Hi. rewrite kconj_mul, rinj_conj.
    transitivity (rinj (/ sqrt n)%R * rinj (/ sqrt n)%R * (kconj (amp P' is) * amp P' is)); [ring|]. f_equal. rewrite <- rinj_mul. f_equal.
    rewrite <- Rinv_mult. rewrite sqrt_sqrt by lra. reflexivity.
Qed.
End Call.

(** Rejected calls: no sweeps, or |Q|^2 below 1e-16. *)
Theorem C51_rejects sweeps normalize algorithm : open_mps Q -> pdims Q = ds ->
  (sweeps = 0%nat \/ (flag <> 0%R \/ exists is, in_range ds is /\ amp Q is <> 0) /\ kept svd flag Q /\ (weight ds (amp Q) < 1 / 10 ^ 16)%R) ->
  solve svd flag lsolve cgs adj algorithm tolerance solvetol H P Q sense sweeps normalize Dmax tol = Abort.
Proof.
  intros Ho Hd Hr. unfold solve. cbv zeta. destruct (canonical_form svd flag Q (-1)) as [Q'|] eqn:EQ; [|reflexivity]. cbn [bind].
  destruct (Nat.eqb_spec sweeps 0) as [|Hs]; [reflexivity|]. destruct Hr as [->|(Hz & Hk & Hw)]; [congruence|].
  destruct (canon_ok ds svd flag Hsvd Q Ho Hd Hz Hk) as (Q1 & E1 & Qo & Qd & Ql & Qc & _ & Qa). rewrite EQ in E1. apply Ok_inj' in E1. subst Q1.
  assert (HL : (0 < length Q')%nat) by (destruct Q'; [destruct Qo; congruence|cbn; lia]).
  change (site_at Q' 0) with (site_at Q' (Z.of_nat 0)). rewrite site_at_nat by exact HL. cbn [bind].
  rewrite tensor_scprod_self, kabs_rinj by apply frob2_nonneg.
  assert (EW : frob2 (site Q' 0) = weight ds (amp Q)).
  { apply rinj_inj. rewrite <- (canonical_norm Q' 0 Qo HL (proj1 Qc) (proj2 Qc)), Qd, rinj_weight. apply inner_ext; exact Qa. }
  rewrite EW. unfold Rltb. destruct (Rlt_dec (weight ds (amp Q)) (1 / 10 ^ 16)); [reflexivity|lra].
Qed.

(** The canonical form of every state that is not zero loses nothing when nothing or only zeros are dropped. *)
Lemma kept_exact psi : open_mps psi -> (flag = 0%R \/ (1 <= flag)%R) -> (flag <> 0%R \/ exists is, in_range (pdims psi) is /\ amp psi is <> 0) -> kept svd flag psi.
Proof.
  intros (Hn & Hl) He Hz psi' E is Hi. assert (Hw : wf_mps psi) by (split; [exact Hn|exists 1%nat; auto]).
  assert (HL : (0 < length psi)%nat) by (destruct psi; [congruence|cbn; lia]).
  destruct (C14_canonical_form svd flag Hsvd psi 0 Hw HL Hz) as (psi2 & E2 & _ & _ & _ & _ & _ & _ & C7).
  rewrite (proj1 (C14_canonical_form_sense svd flag psi (-1))) in E. cbn [Z.ltb Z.compare] in E. change (Z.of_nat 0) with 0%Z in E2. rewrite E in E2. apply Ok_inj' in E2. subst psi2.
  apply C7; assumption.
Qed.
End Props.

(** The hypotheses are met: the contracts of the external functions; a Hermitian operator, an initial state and a
    right-hand side of which the initial state is not a solution although there is one. *)
Theorem C51_case : exists (svd : @tensor (@rs_scalar RR) -> _) (lsolve : @tensor (@rs_scalar RR) -> _), svd_contract svd /\ lsolve_contract lsolve /\
  valid_solve svd 2 bell start00 bell_state [2; 2]%nat 1 /\ valid_solve svd 0 bell start00 bell_state [2; 2]%nat 1 /\ valid_solve svd 2 bell ([] : RM) bell_state [2; 2]%nat 5 /\
  @residual RR bell [2; 2]%nat (amp bell_state) (amp start00) = 8%R /\
  @residual RR bell [2; 2]%nat (amp bell_state) (fun is => Rmult (-1 / 2) (amp bell_state is)) = 0%R.
Proof.
  destruct (@svd_contract_satisfiable RR) as (svd & Hsvd). destruct (@lsolve_contract_satisfiable RR) as (ls & Hls). exists svd, ls.
  split; [exact Hsvd|]. split; [exact Hls|]. destruct start_open as (O1 & O2 & D1 & D2).
  assert (EW : @weight RR [2; 2]%nat (amp bell_state) = 2%R) by (rewrite bell_weight; cbn; ring).
  assert (Hp : (1 / 10 ^ 16 <= 1)%R).
  { unfold Rdiv. rewrite Rmult_1_l. rewrite <- Rinv_1. apply Rinv_le_contravar; [lra|]. apply pow_R1_Rle. lra. }
  assert (HK : forall flag, (flag = 0%R \/ (1 <= flag)%R) -> kept svd flag bell_state /\
    forall Q' HQ, canonical_form svd flag bell_state (-1) = Ok Q' -> apply bell Q' = Ok HQ -> kept svd flag HQ).
  { intros flag Hf. assert (H1 : kept svd flag bell_state).
    { apply kept_exact; auto. right. exists [0; 0]%nat. split; [repeat constructor; lia|cbn; lra]. }
    split; [exact H1|]. intros Q' HQ E1 E2.
    destruct (canon_ok [2; 2]%nat svd flag Hsvd bell_state O2 D2) as (Q1 & F1 & Qo & Qd & _ & _ & _ & Qa); [right; exists [0; 0]%nat; split; [repeat constructor; lia|cbn; lra]|exact H1|].
    rewrite F1 in E1. apply Ok_inj' in E1. subst Q1.
    destruct (apply_open bell [2; 2]%nat bell_hamiltonian Q' Qo Qd) as (HQ1 & F2 & Ho & Hd & Ha). rewrite F2 in E2. apply Ok_inj' in E2. subst HQ1.
    apply kept_exact; auto. right. exists [0; 0]%nat. rewrite Hd. assert (Hr : in_range [2; 2]%nat [0; 0]%nat) by (repeat constructor; lia). split; [exact Hr|].
    rewrite Ha by exact Hr. rewrite (op_ext bell [2; 2]%nat (amp Q') (amp bell_state)) by exact Qa. cbn. lra. }
  assert (HV : forall flag P n, (flag = 0%R \/ (1 <= flag)%R) -> (P = [] \/ P = start00) -> n <> 0%nat -> valid_solve svd flag bell P bell_state [2; 2]%nat n).
  { intros flag P n Hf HP Hn. destruct (HK flag Hf) as (K1 & K2). split; [exact bell_hamiltonian|]. split; [exact O2|]. split; [exact D2|].
    split; [destruct HP as [->| ->]; auto|]. split; [exact Hn|]. split; [rewrite EW; lra|]. split; [exact K1|]. split; [exact K2|].
    right. destruct HP as [->| ->]; cbn; lra. }
  split; [apply HV; auto; right; lra|]. split; [apply HV; auto; right; lra|]. split; [apply HV; auto; right; lra|].
  split; unfold residual, dist2; rewrite bell_weight; cbn; field.
Qed.

Section NotHermitian.
Context {RS : RScal}.
Add Ring Kring2 : k_ring.
Variable svd : tensor -> tensor * list R * tensor.
Variable flag : R.
Hypothesis Hsvd : svd_contract svd.
Variables (lsolve : tensor -> tensor -> tensor) (cgs : (tensor -> result tensor) -> tensor -> tensor -> nat -> R -> result tensor).
Hypothesis Hls : lsolve_contract lsolve.
Variable adj : mpo -> mpo.
Variables (tolerance solvetol : R).

(** If adjoint(H) H is the identity, a chain of one site gets the state H Q. *)
Lemma solve_identity H P Q m sense sweeps Dmax tol O : (1 <= flag)%R -> (0 < m)%nat ->
  open_mpo H -> odims H = [m] -> idims H = [m] -> open_mps P -> pdims P = [m] -> open_mps Q -> pdims Q = [m] -> sweeps <> 0%nat ->
  (1 / 10 ^ 16 <= weight [m] (amp Q))%R ->
  mpo_mmult (adj H) H = Ok O -> hamiltonian O [m] -> (forall i j, (i < m)%nat -> (j < m)%nat -> opelem O [i] [j] = delta i j) ->
  exists P' s' err, solve svd flag lsolve cgs adj true tolerance solvetol H P Q sense sweeps false Dmax tol = Ok (P', s', err) /\
    open_mps P' /\ pdims P' = [m] /\ (forall is, in_range [m] is -> amp P' is = op_apply [m] (opelem H) (amp Q) is) /\
    err = (weight [m] (amp Q) - weight [m] (op_apply [m] (opelem H) (amp Q)))%R.
Proof.
  intros Hf Hm (Hn & Hl) Hod Hid Po Pd Qo Qd Hsw Hw EO HO HI. set (ds := [m]) in *.
  assert (Hw0 : (0 < 1 / 10 ^ 16)%R) by (apply Rmult_lt_0_compat; [exact Rlt_0_1|]; apply Rinv_0_lt_compat; apply pow_lt; clear; lra).
  assert (Hf0 : flag <> 0%R) by lra. assert (He : flag = 0%R \/ (1 <= flag)%R) by (right; exact Hf).
  destruct (canon_ok ds svd flag Hsvd Q Qo Qd (or_introl Hf0)) as (Q' & EQ' & Qo' & Qd' & Ql' & Qc' & _ & Qa'); [apply kept_exact; auto|].
  destruct (apply_correct H Q' (conj Hn (ex_intro _ 1%nat (conj (le_n 1) Hl))) (conj (proj1 Qo') (ex_intro _ 1%nat (conj (le_n 1) (proj2 Qo')))) ltac:(congruence))
    as (HQ0 & EH & (HQn & D & HD & HDl) & Hd0 & Hlb & Ha0).
  rewrite (linked_left_bond _ _ _ HQn HDl), (mlinked_left _ _ _ Hn Hl), (linked_left_bond _ _ _ (proj1 Qo') (proj2 Qo')) in Hlb. cbn in Hlb. subst D.
  assert (Ho0 : open_mps HQ0) by (split; assumption). rewrite Hod in *. rewrite Qd' in Ha0.
  destruct (canon_ok ds svd flag Hsvd HQ0 Ho0 Hd0 (or_introl Hf0)) as (HQ & EHQ & Ho1 & Hd1 & Hl1 & Hc1 & _ & Ha2); [apply kept_exact; auto|].
  set (v := op_apply ds (opelem H) (amp Q)).
  assert (HaH : forall is, in_range ds is -> amp HQ is = v is).
  { intros is Hi. rewrite Ha2, Ha0 by exact Hi. apply op_ext. exact Qa'. }
  pose proof HO as (HOo & HOd & HOi & _ & (i0 & j0 & Hi0 & Hj0 & Hnz0)).
  rewrite <- HOd in Hi0. rewrite <- HOi in Hj0. destruct (path_exists O HOo (H_sq O ds HO) i0 j0 Hi0 Hj0 Hnz0) as (b & Hb).
  assert (Hgb : good_bras [1] [HQ] ds) by (split; [discriminate|]; split; [reflexivity|]; intros x [<-|[]]; auto).
  assert (Hov : forall X, pdims X = ds -> overlap [1] [HQ] X = inner ds v (amp X)).
  { intros X HX. unfold overlap. cbn [length sum nth]. rewrite HX, kconj_1. rewrite (inner_ext ds (amp HQ) v (amp X) (amp X) HaH (fun _ _ => eq_refl)). ring. }
  assert (HS : forall A B, pdims A = ds -> pdims B = ds -> sandwich A O B = inner ds (amp A) (amp B)).
  { intros A B HA HB. unfold sandwich, inner. rewrite HA, HB. apply sumcfg_ext. intros is Hi. apply in_range_cons_inv in Hi. destruct Hi as (i & r & -> & Hi & Hr).
    apply in_range_nil_inv in Hr. subst r. unfold ds. cbn [sumcfg].
    rewrite (sum_ext m _ (fun j => delta i j * (kconj (amp A [i]) * amp B [j]))).
    - apply (sum_delta_l' m i (fun j => kconj (amp A [i]) * amp B [j])). exact Hi.
    - intros j Hj. rewrite HI by assumption. ring. }
  set (g := fun X : mps => weight ds (amp X)).
  assert (Hg1 : forall X, open_mps X -> pdims X = ds -> rinj (g X) = sandwich X O X) by (intros X _ HX; unfold g; rewrite rinj_weight; symmetry; apply HS; assumption).
  assert (Hg0 : forall X, (0 <= g X)%R) by (intros; apply weight_nonneg).
  assert (Hgk : forall X, open_mps X -> pdims X = ds -> g X = 0%R -> overlap [1] [HQ] X = 0 /\ forall X', open_mps X' -> pdims X' = ds -> sandwich X' O X = 0).
  { intros X _ HX Hz. pose proof (weight_zero _ _ Hz) as Hz'. split.
    - rewrite Hov by exact HX. unfold inner. apply sumcfg_zero. intros is Hi. rewrite Hz' by exact Hi. ring.
    - intros X2 _ H2. rewrite HS by assumption. unfold inner. apply sumcfg_zero. intros is Hi. rewrite Hz' by exact Hi. ring. }
  set (L := length P). assert (HL1 : L = 1%nat) by (unfold L; rewrite <- length_pdims, Pd; reflexivity).
  set (d := (sense <? 0)%Z). set (st := last_of (negb d) L). assert (Hst : (st < L)%nat) by (unfold st, last_of; destruct (negb d); lia).
  assert (Ens : exists s, new_sweeper (Z.of_nat L) (- sense) = Ok s /\ sw d L st s).
  { unfold new_sweeper. destruct (Z.ltb_spec 0 (Z.of_nat L)); [|lia]. unfold sw, st, d, last_of.
    destruct (Z.ltb_spec 0 (- sense)), (Z.ltb_spec sense 0); try lia; eexists; (split; [reflexivity|]); cbn [sk sk0 skN sdk negb sgn]; lia. }
  destruct Ens as (s & Es & Hs).
  destruct (proj1 (C44_constructor [1] [HQ] P ds (Z.of_nat st) Hgb)) as (lf & Elf); [cbn [length ds]; lia|].
  assert (ElO : length O = L) by (rewrite HL1, <- length_odims, HOd; reflexivity).
  destruct (proj1 (C45_constructor O P P (Z.of_nat st) HOo Po Po) ltac:(lia)) as (qf & Eqf).
  destruct sweeps as [|n]; [congruence|].
  assert (HA : At [1] [HQ] ds st P lf) by (split; [exact Po|]; split; [exact Pd|]; split; [exact Hst|]; apply lfh_new; assumption).
  assert (HQA : QAt O ds b st P qf).
  { split; [exact Po|]. split; [exact Pd|]. split; [exact Hst|]. split; [apply (qfh_new O P P); try assumption; congruence|].
    apply (live_new_at O HOo (H_sq O ds HO) b Hb P P st); try assumption; congruence. }
  set (tl := if Rle_dec tol 0 then solvetol else tol).
  destruct (loop1_ok svd flag Hsvd lsolve Hls O ds HO b Hb [1] [HQ] Hgb g Hg1 Hg0 Hgk cgs Dmax tl tolerance (weight ds (amp Q)) n d P lf qf s 0%R HA HQA Hs (or_introl Hf0))
    as (s' & P' & err & d' & E & Hs' & (Fo & Fd & Fl & Fc & Fb & Fv & Fn0) & Ee & _ & _).
  exists P', (- sweeper_sense s')%Z, err. split.
  { unfold solve. cbv zeta. rewrite EQ'. cbn [bind]. fold L tl. replace (Nat.eqb L 0) with false by (rewrite HL1; reflexivity). cbn [Nat.eqb]. fold L.
    change (site_at Q' 0) with (site_at Q' (Z.of_nat 0)). rewrite site_at_nat by (destruct Q'; [destruct Qo'; congruence|cbn; lia]). cbn [bind].
    rewrite tensor_scprod_self, kabs_rinj by apply frob2_nonneg.
    assert (EW : frob2 (site Q' 0) = weight ds (amp Q)).
    { apply rinj_inj. rewrite <- (canonical_norm Q' 0 Qo' ltac:(destruct Q'; [destruct Qo'; congruence|cbn; lia]) (proj1 Qc') (proj2 Qc')), Qd', rinj_weight. apply inner_ext; exact Qa'. }
    rewrite EW. unfold Rltb. destruct (Rlt_dec (weight ds (amp Q)) (1 / 10 ^ 16)); [lra|].
    rewrite Es. cbn [bind]. rewrite EH. cbn [bind]. rewrite EHQ. cbn [bind].
    replace (sweeper_site s) with (Z.of_nat st) by (symmetry; apply Hs). unfold lform_new1. rewrite Elf. cbn [bind]. rewrite EO. cbn [bind]. rewrite Eqf. cbn [bind].
    rewrite E. reflexivity. }
  split; [exact Fo|]. split; [exact Fd|].
  assert (HF : forall X, pdims X = ds -> Rplus (Fn [1] [HQ] g X) (weight ds v) = dist2 ds (amp X) v).
  { intros X HX. unfold Fn, g. apply rinj_inj. rewrite dist2_expand, Hov by exact HX.
    replace (weight ds (amp X) - 2 * kre (inner ds v (amp X)) + weight ds v)%R
      with (weight ds (amp X) + (- (2 * kre (inner ds v (amp X))) + weight ds v))%R by ring.
    rewrite !rinj_add, rinj_opp, twice_re, !rinj_weight, !inner_conj. ring. }
  assert (Hle : (dist2 ds (amp P') v <= 0)%R).
  { rewrite <- HF by exact Fd. assert (Hz : dist2 ds (amp HQ) v = 0%R).
    { unfold dist2. apply rinj_inj. rewrite rinj_weight, rinj_0. unfold inner. apply sumcfg_zero. intros is Hi. rewrite HaH by exact Hi. replace (v is - v is) with 0 by ring. ring. }
    rewrite <- Hz, <- HF by exact Hd1. apply Rplus_le_compat_r. apply Fb; [exact Ho1|exact Hd1|].
    intros j Hj. fold L in Hj. assert (Hj1 : j <> 0%nat) by (rewrite HL1 in Hj; unfold last_of in Hj; destruct d'; exact Hj).
    unfold site. rewrite !nth_overflow; [reflexivity| |]; [fold L in Fl; rewrite HL1 in Fl; lia|].
    assert (length HQ = 1%nat) by (rewrite <- length_pdims, Hd1; reflexivity). lia. }
  assert (Hz : dist2 ds (amp P') v = 0%R) by (pose proof (weight_nonneg ds (fun is => amp P' is - v is)); unfold dist2 in *; lra).
  assert (Ha : forall is, in_range ds is -> amp P' is = v is).
  { intros is Hi. pose proof (weight_zero _ _ Hz is Hi) as Hz'. cbv beta in Hz'. transitivity (amp P' is - v is + v is); [ring|]. rewrite Hz'. ring. }
  split; [exact Ha|]. rewrite Ee. pose proof (HF P' Fd) as HFz. rewrite Hz in HFz. lra.
Qed.

Lemma solve_unitary H P Q m sense sweeps Dmax tol : (1 <= flag)%R -> (0 < m)%nat ->
  open_mpo H -> odims H = [m] -> idims H = [m] -> open_mpo (adj H) -> odims (adj H) = [m] -> idims (adj H) = [m] ->
  open_mps P -> pdims P = [m] -> open_mps Q -> pdims Q = [m] -> sweeps <> 0%nat ->
  (1 / 10 ^ 16 <= weight [m] (amp Q))%R ->
  (forall i j, (i < m)%nat -> (j < m)%nat -> op_mul [m] (opelem (adj H)) (opelem H) [i] [j] = delta i j) ->
  exists P' s' err, solve svd flag lsolve cgs adj true tolerance solvetol H P Q sense sweeps false Dmax tol = Ok (P', s', err) /\
    open_mps P' /\ pdims P' = [m] /\ (forall is, in_range [m] is -> amp P' is = op_apply [m] (opelem H) (amp Q) is) /\
    err = (weight [m] (amp Q) - weight [m] (op_apply [m] (opelem H) (amp Q)))%R.
Proof.
  intros Hf Hm HHo Hod Hid HAo Aod Aid Po Pd Qo Qd Hsw Hw HI.
  assert (Hwf : forall X, open_mpo X -> wf_mpo X) by (intros X (H1 & H2); split; [exact H1|]; exists 1%nat; auto).
  destruct (mmult_correct (adj H) H (Hwf _ HAo) (Hwf _ HHo) ltac:(congruence)) as (O & EO & (On & _) & Oo & Oi & Oe).
  rewrite Aod, Aid, Hid in *.
  assert (HI' : forall i j, (i < m)%nat -> (j < m)%nat -> opelem O [i] [j] = delta i j).
  { intros i j Hi Hj. rewrite Oe by (apply in_range_1; assumption). apply HI; assumption. }
  apply (solve_identity H P Q m sense sweeps Dmax tol O); auto.
  split; [|split; [exact Oo|split; [exact Oi|split]]].
  - split; [exact On|]. unfold mpo_mmult in EO. destruct (Nat.eqb_spec (length (adj H)) (length H)) as [El|]; [|discriminate].
    apply Ok_inj' in EO. rewrite <- EO. unfold site. rewrite (map_site_combine mmult_site empty empty (adj H) H El).
    destruct (mmult_linked 1 1 (adj H) H 1 1 (proj2 HAo) (proj2 HHo) ltac:(congruence)) as (M1 & _). exact M1.
  - intros is js Hi Hj. apply in_range_cons_inv in Hi, Hj. destruct Hi as (i & r & -> & Hi & Hr). destruct Hj as (j & r' & -> & Hj & Hr').
    apply in_range_nil_inv in Hr, Hr'. subst r r'. rewrite !HI' by assumption. rewrite kconj_delta. apply delta_sym.
  - exists [0%nat], [0%nat]. split; [apply in_range_1; exact Hm|]. split; [apply in_range_1; exact Hm|]. rewrite HI' by assumption. cbn. rewrite <- rinj_1, <- rinj_0. intros E. apply rinj_inj in E. lra.
Qed.
End NotHermitian.

(** H = diag(i, 1), which is unitary, and Q = (1, 0): the solution of H P = Q is (-i, 0).  The call says that its
    result is a solution (error zero), but H P' = -Q. *)
Definition phase1 : @mpo (@rs_scalar CC) :=
  [@mk (@rs_scalar CC) [1; 2; 2; 1]%nat (fun i => if Nat.eqb (nth 1 i 0%nat) (nth 2 i 0%nat) then (if Nat.eqb (nth 1 i 0%nat) 0 then mkC 0 1 else mkC 1 0) else mkC 0 0)].
Definition cstate1 (x y : Cx) : @mps (@rs_scalar CC) := [@mk (@rs_scalar CC) [1; 2; 1]%nat (fun i => if Nat.eqb (nth 1 i 0%nat) 0 then x else y)].


Lemma small16 : (1 / 10 ^ 16 <= 1)%R.
Proof. unfold Rdiv. rewrite Rmult_1_l. rewrite <- Rinv_1. apply Rinv_le_contravar; [lra|]. apply pow_R1_Rle. lra. Qed.

Theorem C51_phase_refuted svd flag lsolve cgs tolerance solvetol sense Dmax tol : @svd_contract CC svd -> @lsolve_contract CC lsolve -> (1 <= flag)%R ->
  open_mpo phase1 /\ open_mps (cstate1 (mkC 1 0) (mkC 1 0)) /\ open_mps (cstate1 (mkC 1 0) (mkC 0 0)) /\
  @residual CC phase1 [2]%nat (amp (cstate1 (mkC 1 0) (mkC 0 0))) (amp (cstate1 (mkC 0 (-1)) (mkC 0 0))) = 0%R /\
  exists P' s', @solve CC svd flag lsolve cgs adjoint_z true tolerance solvetol phase1 (cstate1 (mkC 1 0) (mkC 1 0)) (cstate1 (mkC 1 0) (mkC 0 0)) sense 1 false Dmax tol = Ok (P', s', 0%R) /\
    @residual CC phase1 [2]%nat (amp (cstate1 (mkC 1 0) (mkC 0 0))) (amp P') = 4%R.
Proof.
  intros Hsvd Hls Hf.
  assert (Ho : open_mpo phase1) by (split; [discriminate|]; unfold phase1; cbn [mlinked]; exists 2%nat, 2%nat, 1%nat; repeat split; try lia; reflexivity).
  assert (HQ : forall x y, open_mps (cstate1 x y) /\ pdims (cstate1 x y) = [2]%nat) by (intros x y; split; [|reflexivity]; split; [discriminate|]; solve_linked).
  split; [exact Ho|]. split; [apply HQ|]. split; [apply HQ|]. split.
  { unfold residual, dist2. cbn. unfold Rdiv. ring. }
  assert (EW : @weight CC [2]%nat (amp (cstate1 (mkC 1 0) (mkC 0 0))) = 1%R) by (cbn; ring).
  destruct (@solve_unitary CC svd flag Hsvd lsolve cgs Hls adjoint_z tolerance solvetol phase1 (cstate1 (mkC 1 0) (mkC 1 0)) (cstate1 (mkC 1 0) (mkC 0 0)) 2 sense 1 Dmax tol Hf)
    as (P' & s' & err & E & Po & Pd & Pa & Ee); try apply HQ; try reflexivity; try lia; try exact Ho.
  { split; [discriminate|]. apply (adjoint_linked 1 phase1 1 (proj2 Ho)). }
  { rewrite EW. apply small16. }
  { intros i j Hi Hj. destruct i as [|[|i]], j as [|[|j]]; try lia; apply C_ext; cbn; ring. }
  exists P', s'. replace err with 0%R in E; [|rewrite Ee, EW; cbn; ring]. split; [exact E|].
  unfold residual, dist2.
  assert (Ex : forall f g : list nat -> Cx, (forall is, in_range [2]%nat is -> f is = g is) -> @weight CC [2]%nat f = @weight CC [2]%nat g).
  { intros f g Hfg. unfold weight. f_equal. apply inner_ext; exact Hfg. }
  transitivity (@weight CC [2]%nat (fun is => op_apply [2]%nat (opelem phase1) (op_apply [2]%nat (opelem phase1) (amp (cstate1 (mkC 1 0) (mkC 0 0)))) is - amp (cstate1 (mkC 1 0) (mkC 0 0)) is)).
  - apply Ex. intros is Hi. f_equal. apply op_ext. exact Pa.
  - cbn. ring.
Qed.

(** adjoint() of a real operator does not transpose it: for H = ((0, 2), (1/2, 0)) and Q = (0, 1) the result is the
    solution (2, 0), but the returned "distance" is -3. *)
Definition swap1 : RO :=
  [@mk (@rs_scalar RR) [1; 2; 2; 1]%nat (fun i => if Nat.eqb (nth 1 i 0%nat) (nth 2 i 0%nat) then 0%R else if Nat.eqb (nth 1 i 0%nat) 0 then 2%R else (1 / 2)%R)].

Theorem C51_real_refuted svd flag lsolve cgs tolerance solvetol sense Dmax tol : @svd_contract RR svd -> @lsolve_contract RR lsolve -> (1 <= flag)%R ->
  open_mpo swap1 /\ open_mps (state1 1 1) /\ open_mps (state1 0 1) /\
  exists P' s' err, @solve RR svd flag lsolve cgs adjoint_d true tolerance solvetol swap1 (state1 1 1) (state1 0 1) sense 1 false Dmax tol = Ok (P', s', err) /\
    err = (-3)%R /\ @residual RR swap1 [2]%nat (amp (state1 0 1)) (amp P') = 0%R.
Proof.
  intros Hsvd Hls Hf.
  assert (Ho : open_mpo swap1) by (split; [discriminate|]; unfold swap1; cbn [mlinked]; exists 2%nat, 2%nat, 1%nat; repeat split; try lia; reflexivity).
  split; [exact Ho|]. split; [apply state1_open|]. split; [apply state1_open|].
  assert (EW : @weight RR [2]%nat (amp (state1 0 1)) = 1%R) by (cbn; ring).
  destruct (@solve_unitary RR svd flag Hsvd lsolve cgs Hls adjoint_d tolerance solvetol swap1 (state1 1 1) (state1 0 1) 2 sense 1 Dmax tol Hf)
    as (P' & s' & err & E & Po & Pd & Pa & Ee); try apply state1_open; try reflexivity; try lia; try exact Ho.
  { rewrite EW. apply small16. }
  { intros i j Hi Hj. destruct i as [|[|i]], j as [|[|j]]; try lia; cbn; field. }
  exists P', s', err. split; [exact E|]. split; [rewrite Ee, EW; cbn; field|].
  unfold residual, dist2.
  assert (Ex : forall f g : list nat -> R, (forall is, in_range [2]%nat is -> f is = g is) -> @weight RR [2]%nat f = @weight RR [2]%nat g).
  { intros f g Hfg. unfold weight. f_equal. apply inner_ext; exact Hfg. }
  transitivity (@weight RR [2]%nat (fun is => Rminus (@op_apply (@rs_scalar RR) [2]%nat (opelem swap1) (op_apply [2]%nat (opelem swap1) (amp (state1 0 1))) is) (amp (state1 0 1) is))).
  - apply Ex. intros is Hi. refine (f_equal (fun x => Rminus x _) _). apply (@op_ext RR). exact Pa.
  - cbn. field.
Qed.
