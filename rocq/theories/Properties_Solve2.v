(** * C51: solve(H, P, Q, sense, sweeps, normalize, Dmax, tol) for Hermitian H, two-site algorithm *)
From Coq Require Import Reals Lra Bool List Arith ZArith Lia Ring.
From Verif Require Import Scalar ScalarFacts RScal Tensor TensorFacts Spec MpsModel MpsFacts StateFacts StateFacts2 MpoSpec MpoModel MpoFacts CanonSpec CanonModel
  TruncFacts SplitFacts CanonFacts CanonSweep CanonNorm CanonProps CanonTwo SweepModel SweepFacts FormModel FormSpec LFormFacts QFormFacts SparseFacts QFormInv QFormValue QFormMain
  SimplifyPair SimplifySpec SimplifyModel SimplifyFacts SimplifyStep SimplifySweep SimplifyLoop MinimizerModel MinLive MinimizeSpec MinLocal MinStep SolveModel SolveSpec SolveLive SolveAlg SolveStep SolveMain SolveTwo
  SvdExist RealInst Witness Properties_Canon Properties_Form Properties_Simplify Properties_Minimize Properties_Ortho2 Properties_Solve.
Import ListNotations.
Local Open Scope K_scope.


Section Props.
Context {RS : RScal}.
Add Ring Kring : k_ring.
Variable svd : tensor -> tensor * list R * tensor.
Variable flag : R.
Hypothesis Hsvd : svd_contract svd.
Variables (lsolve : tensor -> tensor -> tensor) (cgs : (tensor -> result tensor) -> tensor -> tensor -> nat -> R -> result tensor).
Hypothesis Hcgs : cgs_contract cgs.
Variable adj : mpo -> mpo.
Hypothesis Hadj : adj = adjoint_d \/ adj = adjoint_z.
Variables (tolerance solvetol : R) (H : mpo) (P Q : mps) (ds : list nat) (sense : Z) (Dmax : Z) (tol : R).
Notation call sweeps normalize := (solve svd flag lsolve cgs adj false tolerance solvetol H P Q sense sweeps normalize Dmax tol).
Notation err_of f := (residual H ds (amp Q) f).
Notation tl := (if Rle_dec tol 0 then solvetol else tol).

Lemma solve2_run sweeps : valid_solve2 svd flag H P Q ds sweeps tl ->
  exists P0 P' err d phi, starts_with svd flag P Q P0 /\ open_mps P0 /\ pdims P0 = ds /\
    call sweeps false = Ok (P', sgn d, err) /\
    call sweeps true = (let c := last_of d (length P') in let n := norm2_tensor (site P' c) in
      if Req_EM_T n 0 then Abort else Ok (replace_nth c (tscale (rinj (/ n)%R) (site P' c)) P', sgn d, err)) /\
    open_mps P' /\ pdims P' = ds /\ canonical_at (last_of d (length P')) P' /\
    ((0 < Dmax)%Z -> bonds_le Dmax P') /\
    open_mps phi /\ pdims phi = ds /\ differs_at2 P' phi (last_pair d (length P')) /\ err = err_of (amp phi) /\
    (forall psi, open_mps psi -> pdims psi = ds -> differs_at2 P' psi (last_pair d (length P')) -> (err <= err_of (amp psi))%R) /\
    inner ds (amp Q) (op_apply ds (opelem H) (amp phi)) = rinj (weight ds (op_apply ds (opelem H) (amp phi))) /\
    ((Dmax <= 0)%Z -> (1 <= tl)%R -> forall is, in_range ds is -> amp P' is = amp phi is) /\
    ((Dmax <= 0)%Z -> (dist2 ds (amp phi) (amp P') <= Rmax tl DBL_EPSILON * weight ds (amp phi))%R) /\
    ((Dmax <= 0)%Z -> (1 <= tl)%R -> (err <= err_of (amp P0))%R) /\
    (forall m P2 s2 e2, (Dmax <= 0)%Z -> (1 <= tl)%R -> (sweeps <= m)%nat -> call m false = Ok (P2, s2, e2) -> (e2 <= err)%R).
Proof.
  intros (HV & HL2 & Hf0 & Htl). pose proof HV as (HH & _ & _ & _ & Hsw & _).
  destruct (solve_setup H ds HH adj Hadj svd flag Hsvd lsolve cgs P Q sense sweeps HV) as
    (P0 & HQ & O & b & s & lf & qf & HP0 & HPQ & HO & Hb & Hgb & Hg1 & Hgk & Hov & HF & Po & Pd & HA & HQA & Hs & Hn & Hcall).
  destruct sweeps as [|n]; [congruence|]. set (t := tl) in *. set (W := weight ds (amp Q)) in *.
  assert (Et : eff_tol flag t = t) by (unfold eff_tol, Rltb; destruct (Rlt_dec t 0); [lra|reflexivity]).
  assert (Ht0 : eff_tol flag t <> 0%R) by (rewrite Et; lra).
  assert (Hex : (1 <= t)%R -> exact_tol flag t) by (intros H1; unfold exact_tol, exact_flag; rewrite Et; right; exact H1).
  assert (Hg0 : forall P, (0 <= gH H ds P)%R) by (intros; apply weight_nonneg).
  assert (HL : (2 <= length P0)%nat) by (rewrite <- length_pdims, Pd; exact HL2).
  destruct (loop2_ok O ds HO b Hb [1] [HQ] Hgb (gH H ds) Hg1 Hg0 Hgk svd flag Hsvd cgs Hcgs lsolve Dmax t tolerance W n Hf0 Ht0 (sense <? 0)%Z P0 lf qf s 0%R HL HA HQA Hs)
    as (s' & P' & err & d & phi & E & Hs' & Hfin & Ee & Hmono).
  pose proof (exact_value O ds [1] [HQ] (gH H ds) Hg1 flag Dmax t d (length P0) P' phi Hfin) as Hev.
  destruct Hfin as (Fo & Fd & Fl & Fc & (Op & Dp & Dif & Fb & Fv & Fe & Fw) & Fbd).
  exists P0, P', err, d, phi. rewrite Fl in *.
  split; [exact HP0|]. split; [exact Po|]. split; [exact Pd|].
  assert (Esn : (- sweeper_sense s')%Z = sgn d) by (unfold sweeper_sense; destruct Hs' as (_ & _ & _ & ->); destruct d; reflexivity).
  assert (Ek : sweeper_site s' = Z.of_nat (last_of d (length P0))) by apply Hs'.
  split. { rewrite Hcall by discriminate. fold t. rewrite E. cbn [bind finish]. rewrite Esn. reflexivity. }
  split.
  { rewrite Hcall by discriminate. fold t. rewrite E. cbn [bind finish]. rewrite Esn, Ek. rewrite site_at_nat by (rewrite Fl; unfold last_of; destruct d; lia). cbn [bind]. rewrite Nat2Z.id. reflexivity. }
  assert (HR : forall X, pdims X = ds -> residual H ds (amp Q) (amp X) = Rplus (Fn [1] [HQ] (gH H ds) X) W) by (intros X HX; symmetry; apply HF; exact HX).
  split; [exact Fo|]. split; [exact Fd|]. split; [exact Fc|]. split; [exact Fbd|]. split; [exact Op|]. split; [exact Dp|]. split; [exact Dif|].
  split; [rewrite HR by exact Dp; exact Ee|].
  split. { intros psi H1 H2 H3. rewrite HR by exact H2. rewrite Ee. apply Rplus_le_compat_r. apply Fb; assumption. }
  rewrite <- Hov by exact Dp. split; [exact Fv|].
  split. { intros HD H1. apply Fe; [exact HD|apply Hex; exact H1]. }
  split. { intros HD. rewrite Et in Fw. apply Fw; [exact HD|exact Htl|exact Fc]. }
  split. { intros HD H1. rewrite HR by exact Pd. rewrite Ee. apply Rplus_le_compat_r. rewrite <- (Hev HD (Hex H1)). apply Hmono; auto. }
  intros m P2 s2 e2 HD H1 Hm E2. rewrite Hcall in E2 by lia. fold t in E2. destruct m as [|m]; [lia|].
  destruct (solve_loop svd flag lsolve cgs false Dmax t tolerance W (S m) s P0 lf qf 0) as [[[s3 P3] e3]|] eqn:E3; [|discriminate].
  cbn [bind finish] in E2. apply Ok_inj' in E2. injection E2 as <- <- <-.
  apply (loop2_more O ds HO b Hb [1] [HQ] Hgb (gH H ds) Hg1 Hg0 Hgk svd flag Hsvd cgs Hcgs lsolve Dmax t tolerance W n Hf0 Ht0 HD (Hex H1) m ltac:(lia) (sense <? 0)%Z P0 lf qf s 0%R _ _ _ _ _ _ HL HA HQA Hs E E3).
Qed.

Lemma sgn_pair d L : end_pair L (sgn d) = last_pair d L.
Proof. unfold end_pair, last_pair. destruct d; reflexivity. Qed.

(** A valid call returns a state on the same sites, in canonical form around the site where the last sweep ended,
    whose bonds are at most Dmax if that is positive. *)
Theorem C51_two_returns sweeps : valid_solve2 svd flag H P Q ds sweeps tl ->
  exists P' sense' err, call sweeps false = Ok (P', sense', err) /\
    open_mps P' /\ pdims P' = ds /\ (sense' = 1 \/ sense' = -1)%Z /\ canonical_at (sweep_end (length P') sense') P' /\
    ((0 < Dmax)%Z -> bonds_le Dmax P').
Proof.
  intros HV. destruct (solve2_run sweeps HV) as (P0 & P' & err & d & phi & _ & _ & _ & E & _ & Fo & Fd & Fc & Fb & _).
  exists P', (sgn d), err. split; [exact E|]. split; [exact Fo|]. split; [exact Fd|]. split; [destruct d; auto|]. split; [rewrite sgn_end; exact Fc|exact Fb].
Qed.

(** A chain of one site has no pair: the call fails. *)
Theorem C51_two_one_site sweeps normalize : valid_solve svd flag H P Q ds sweeps -> length ds = 1%nat -> call sweeps normalize = Abort.
Proof.
  intros HV HL. pose proof HV as (HH & _ & _ & _ & Hsw & _).
  destruct (solve_setup H ds HH adj Hadj svd flag Hsvd lsolve cgs P Q sense sweeps HV) as
    (P0 & HQ & O & b & s & lf & qf & HP0 & HPQ & HO & Hb & Hgb & Hg1 & Hgk & Hov & HF & Po & Pd & HA & HQA & Hs & Hn & Hcall).
  rewrite Hcall by exact Hsw. destruct sweeps as [|n]; [congruence|]. cbn [solve_loop]. unfold solve_sweep.
  assert (L1 : length P0 = 1%nat) by (rewrite <- length_pdims, Pd; exact HL). rewrite L1. cbn [solve_sweep2]. unfold solve_step2.
  assert (Es : sweeper_sense s = sgn (sense <? 0)%Z) by apply Hs. destruct HA as (_ & _ & _ & HH0). rewrite L1 in HH0.
  destruct (C44_two_site_end [1] [HQ] ds lf _ _ Hgb HH0) as (A1 & A2).
  assert (Ev : two_site_vector lf (sweeper_sense s) = Abort).
  { rewrite Es. destruct (sense <? 0)%Z; cbn [sgn]; [apply A1|apply A2]; cbn [last_of negb]; rewrite ?firstn_all2, ?skipn_all2 by (rewrite L1; auto); reflexivity. }
  rewrite Ev. reflexivity.
Qed.

Section Call.
Variables (sweeps : nat) (P' : mps) (sense' : Z) (err : R).
Hypothesis HV : valid_solve2 svd flag H P Q ds sweeps tl.
Hypothesis HE : call sweeps false = Ok (P', sense', err).

Lemma call2_result : exists P0 d phi, sense' = sgn d /\ starts_with svd flag P Q P0 /\ open_mps P0 /\ pdims P0 = ds /\
    call sweeps true = (let c := last_of d (length P') in let n := norm2_tensor (site P' c) in
      if Req_EM_T n 0 then Abort else Ok (replace_nth c (tscale (rinj (/ n)%R) (site P' c)) P', sgn d, err)) /\
    open_mps P' /\ pdims P' = ds /\ canonical_at (last_of d (length P')) P' /\
    ((0 < Dmax)%Z -> bonds_le Dmax P') /\
    open_mps phi /\ pdims phi = ds /\ differs_at2 P' phi (last_pair d (length P')) /\ err = err_of (amp phi) /\
    (forall psi, open_mps psi -> pdims psi = ds -> differs_at2 P' psi (last_pair d (length P')) -> (err <= err_of (amp psi))%R) /\
    inner ds (amp Q) (op_apply ds (opelem H) (amp phi)) = rinj (weight ds (op_apply ds (opelem H) (amp phi))) /\
    ((Dmax <= 0)%Z -> (1 <= tl)%R -> forall is, in_range ds is -> amp P' is = amp phi is) /\
    ((Dmax <= 0)%Z -> (dist2 ds (amp phi) (amp P') <= Rmax tl DBL_EPSILON * weight ds (amp phi))%R) /\
    ((Dmax <= 0)%Z -> (1 <= tl)%R -> (err <= err_of (amp P0))%R) /\
    (forall m P2 s2 e2, (Dmax <= 0)%Z -> (1 <= tl)%R -> (sweeps <= m)%nat -> call m false = Ok (P2, s2, e2) -> (e2 <= err)%R).
Proof.
  destruct (solve2_run sweeps HV) as (P0 & P1 & err1 & d & phi & HP0 & Po & Pd & E & R). rewrite HE in E. apply Ok_inj' in E. injection E as <- -> <-.
  exists P0, d, phi. split; [reflexivity|]. split; [exact HP0|]. split; [exact Po|]. split; [exact Pd|]. exact R.
Qed.

(** The returned number is the residual of the state phi that the last local problem gave, before it was split in
    two tensors and truncated: |Q|^2 - |H phi|^2, at most the residual of the returned state; if Dmax does not
    truncate, phi is within the tolerance of the returned state. *)
Theorem C51_two_error : exists phi, open_mps phi /\ pdims phi = ds /\ differs_at2 P' phi (end_pair (length P') sense') /\
  err = err_of (amp phi) /\ err = (weight ds (amp Q) - weight ds (op_apply ds (opelem H) (amp phi)))%R /\ (0 <= err <= weight ds (amp Q))%R /\
  (err <= err_of (amp P'))%R /\
  ((Dmax <= 0)%Z -> (dist2 ds (amp phi) (amp P') <= Rmax tl DBL_EPSILON * weight ds (amp phi))%R).
Proof.
  destruct call2_result as (P0 & d & phi & -> & _ & _ & _ & _ & Fo & Fd & _ & _ & Op & Dp & Dif & Ee & Hb & Hi & _ & Hw & _).
  exists phi. split; [exact Op|]. split; [exact Dp|]. split; [rewrite sgn_pair; exact Dif|]. split; [exact Ee|].
  assert (E2 : err = (weight ds (amp Q) - weight ds (op_apply ds (opelem H) (amp phi)))%R).
  { apply rinj_inj. rewrite Ee. unfold residual. rewrite dist2_expand, inner_conj, Hi, rinj_sub, <- !rinj_weight.
    rewrite <- inner_conj, Hi, rinj_conj. ring. }
  split; [exact E2|]. split. { split; [rewrite Ee; apply weight_nonneg|]. pose proof (weight_nonneg ds (op_apply ds (opelem H) (amp phi))). lra. }
  split; [|exact Hw]. apply Hb; [exact Fo|exact Fd|]. intros j _ _. reflexivity.
Qed.

(** No state that differs from P' only at the last two sites treated has a smaller residual than the number returned. *)
Theorem C51_two_optimal psi : open_mps psi -> pdims psi = ds -> differs_at2 P' psi (end_pair (length P') sense') ->
  (err <= err_of (amp psi))%R.
Proof.
  destruct call2_result as (P0 & d & phi & -> & _ & _ & _ & _ & Fo & Fd & _ & _ & Op & Dp & Dif & Ee & Hb & _). rewrite sgn_pair. apply Hb.
Qed.

(** On two sites that is every state: the number returned is the smallest residual of all states. *)
Theorem C51_two_least psi : length ds = 2%nat -> open_mps psi -> pdims psi = ds -> (err <= err_of (amp psi))%R.
Proof.
  intros Hl Ho Hd. apply C51_two_optimal; auto.
  destruct call2_result as (P0 & d & phi & -> & _ & _ & _ & _ & Fo & Fd & _).
  assert (L1 : length P' = 2%nat) by (rewrite <- length_pdims; congruence). assert (L2 : length psi = 2%nat) by (rewrite <- length_pdims; congruence).
  intros j H1 H2. rewrite sgn_pair, L1 in *. unfold site. rewrite !nth_overflow; [reflexivity| |]; destruct d; cbn in *; lia.
Qed.

(** Without truncation the number returned is the residual of the returned state, the result is not worse than
    the initial state and more sweeps do not make it worse; an exact solution stays one. *)
Theorem C51_two_exact : (Dmax <= 0)%Z -> (1 <= tl)%R ->
  err = err_of (amp P') /\ err = (weight ds (amp Q) - weight ds (op_apply ds (opelem H) (amp P')))%R.
Proof.
  intros HD Ht. destruct call2_result as (P0 & d & phi & -> & _ & _ & _ & _ & Fo & Fd & _ & _ & Op & Dp & Dif & Ee & Hb & Hi & Ha & _).
  specialize (Ha HD Ht).
  assert (EH : forall is, in_range ds is -> op_apply ds (opelem H) (amp phi) is = op_apply ds (opelem H) (amp P') is).
  { intros is Hi'. apply op_ext. intros x Hx. symmetry. apply Ha. exact Hx. }
  assert (EW : forall f g, (forall is, in_range ds is -> f is = g is) -> weight ds f = weight ds g).
  { intros f g Hfg. unfold weight. f_equal. apply inner_ext; exact Hfg. }
  assert (E1 : err = err_of (amp P')). { rewrite Ee. unfold residual, dist2. apply EW. intros is Hi'. rewrite EH by exact Hi'. reflexivity. }
  split; [exact E1|]. rewrite <- (EW _ _ EH).
  apply rinj_inj. rewrite Ee. unfold residual. rewrite dist2_expand, inner_conj, Hi, rinj_sub, <- !rinj_weight.
  rewrite <- inner_conj, Hi, rinj_conj. ring.
Qed.

Theorem C51_two_not_worse P0 : (Dmax <= 0)%Z -> (1 <= tl)%R -> starts_with svd flag P Q P0 -> (err <= err_of (amp P0))%R.
Proof.
  intros HD Ht HP0. destruct call2_result as (P1 & d & phi & _ & HP1 & _ & _ & _ & _ & _ & _ & _ & _ & _ & _ & _ & _ & _ & _ & _ & Hm & _).
  replace P0 with P1; [apply Hm; assumption|]. revert HP1 HP0. unfold starts_with. destruct (Nat.eqb _ _); congruence.
Qed.

Theorem C51_two_keeps_solution : (Dmax <= 0)%Z -> (1 <= tl)%R -> P <> [] ->
  (forall is, in_range ds is -> op_apply ds (opelem H) (amp P) is = amp Q is) ->
  err = 0%R /\ forall is, in_range ds is -> op_apply ds (opelem H) (amp P') is = amp Q is.
Proof.
  intros HD Ht HP Hs. assert (H0 : starts_with svd flag P Q P) by (unfold starts_with; destruct P; [congruence|reflexivity]).
  pose proof (C51_two_not_worse P HD Ht H0) as Hle. destruct (C51_two_exact HD Ht) as (Ee & _). destruct C51_two_error as (_ & _ & _ & _ & _ & _ & (He0 & _) & _).
  assert (Ez : err_of (amp P) = 0%R).
  { unfold residual, dist2. apply rinj_inj. rewrite rinj_weight, rinj_0. unfold inner. apply sumcfg_zero. intros is Hi. rewrite Hs by exact Hi. replace (amp Q is - amp Q is) with 0 by ring. ring. }
  assert (E0 : err = 0%R) by lra. split; [exact E0|]. intros is Hi. rewrite E0 in Ee. symmetry in Ee. unfold residual, dist2 in Ee.
  pose proof (weight_zero _ _ Ee is Hi) as Hz. cbv beta in Hz. transitivity (op_apply ds (opelem H) (amp P') is - amp Q is + amp Q is); [ring|]. rewrite Hz. ring.
Qed.

Theorem C51_two_more_sweeps m P2 s2 e2 : (Dmax <= 0)%Z -> (1 <= tl)%R -> (sweeps <= m)%nat -> call m false = Ok (P2, s2, e2) -> (e2 <= err)%R.
Proof.
  destruct call2_result as (P1 & d & phi & _ & _ & _ & _ & _ & _ & _ & _ & _ & _ & _ & _ & _ & _ & _ & _ & _ & _ & Hm). apply Hm.
Qed.

(** With normalize, the state is divided by its norm; the returned number is still the one of the state before. *)
Theorem C51_two_normalize : weight ds (amp P') <> 0%R -> exists P'', call sweeps true = Ok (P'', sense', err) /\
  open_mps P'' /\ pdims P'' = ds /\ canonical_at (sweep_end (length P'') sense') P'' /\
  (forall is, in_range ds is -> amp P'' is = rinj (/ sqrt (weight ds (amp P')))%R * amp P' is) /\ weight ds (amp P'') = 1%R.
Proof.
  intros Hne0. destruct call2_result as (P0 & d & phi & -> & _ & Po & Pd & E & Ho & Hp & Hc & _). cbv zeta in E.
  set (c := last_of d (length P')) in *.
  assert (HL : (0 < length P')%nat) by (destruct P'; [destruct Ho; congruence|cbn; lia]).
  assert (HcL : (c < length P')%nat) by (unfold c, last_of; destruct d; lia).
  assert (HH : hamiltonian H ds) by apply (proj1 HV).
  pose proof (canon_weight H ds HH c P' Ho Hp HcL Hc) as Hwn. set (n := weight ds (amp P')) in *.
  rewrite norm2_tensor_frob, <- Hwn in E.
  assert (Hn0 : (0 < n)%R) by (pose proof (weight_nonneg ds (amp P')) as Hnn; fold n in Hnn; lra).
  destruct (Req_EM_T (sqrt n) 0) as [E0|_]; [apply sqrt_eq_0 in E0; [lra|lra]|].
  pose proof (canonical_replace c P' (tscale (rinj (/ sqrt n)%R) (site P' c)) Hc) as Hc'.
  exists (replace_nth c (tscale (rinj (/ sqrt n)%R) (site P' c)) P'). split; [exact E|].
  destruct Ho as (Hne & HLk).
  assert (HO : open_mps (replace_nth c (tscale (rinj (/ sqrt n)%R) (site P' c)) P')).
  { split; [destruct P', c; discriminate || congruence|]. apply linked_tscale; assumption. }
  split; [exact HO|]. split; [rewrite pdims_tscale; exact Hp|]. split; [rewrite length_replace_nth, sgn_end; exact Hc'|].
  assert (Ha : forall is, in_range ds is -> amp (replace_nth c (tscale (rinj (/ sqrt n)%R) (site P' c)) P') is = rinj (/ sqrt n)%R * amp P' is).
  { intros is Hi. unfold amp. rewrite (linked_left_bond 1 P' 1 Hne HLk). rewrite (linked_left_bond 1 _ 1 (proj1 HO) (proj2 HO)). cbn [sum].
    rewrite (chain_tscale P' 1 1 c) by (try assumption; try lia; rewrite Hp; exact Hi). ring. }
  split; [exact Ha|].
  apply rinj_inj. rewrite rinj_weight. unfold inner.
  rewrite (sumcfg_ext ds _ (fun is => rinj (/ n)%R * (kconj (amp P' is) * amp P' is))).
  - rewrite <- sumcfg_mul_l. change (sumcfg ds (fun is => kconj (amp P' is) * amp P' is)) with (inner ds (amp P') (amp P')).
    rewrite <- rinj_weight. fold n. rewrite <- rinj_mul. f_equal. field. lra.
  - intros is Hi. rewrite Ha by exact Hi. rewrite kconj_mul, rinj_conj.
    transitivity (rinj (/ sqrt n)%R * rinj (/ sqrt n)%R * (kconj (amp P' is) * amp P' is)); [ring|]. f_equal. rewrite <- rinj_mul. f_equal.
    rewrite <- Rinv_mult. rewrite sqrt_sqrt by lra. reflexivity.
Qed.
End Call.
End Props.

(** The contract of cgs can be met. *)
Section Exists.
Context {RS : RScal}.
Add Ring Kring2 : k_ring.

Definition unit_at (d : list nat) (c : nat) : tensor := mkT d (map (fun k => delta k c) (seq 0 (nprod d))).
Definition matrix_of (f : tensor -> result tensor) (d : list nat) : tensor :=
  mk [nprod d; nprod d] (fun i => match f (unit_at d (nth 1 i 0%nat)) with Ok y => nth (nth 0 i 0%nat) (data y) 0 | Abort => 0 end).
Definition dense_cgs (lsolve : tensor -> tensor -> tensor) (f : tensor -> result tensor) (b x0 : tensor) (maxiter : nat) (tol : R) : result tensor :=
  Ok (mkT (dims b) (data (lsolve (matrix_of f (dims b)) (mkT [nprod (dims b)] (data b))))).

Lemma cgs_contract_satisfiable : exists cgs, cgs_contract cgs.
Proof.
  destruct lsolve_contract_satisfiable as (lsolve & Hls). exists (dense_cgs lsolve).
  intros f d M b x0 maxiter tol Hn Hf _ _ Wb Db _ _ _ (x & Hx). set (n := nprod d) in *.
  assert (HA : forall r c, (r < n)%nat -> (c < n)%nat -> get (matrix_of f d) [r; c] = M r c).
  { intros r c Hr Hc. unfold matrix_of. rewrite get_mk by (apply in_range_2; assumption). cbn [nth].
    assert (Wu : wf (unit_at d c)) by (unfold wf, unit_at; cbn [data dims]; rewrite map_length, seq_length; reflexivity).
    destruct (Hf (unit_at d c) Wu eq_refl) as (y & -> & _ & _ & Hy). rewrite Hy by exact Hr. fold n.
    rewrite (sum_ext n _ (fun k => M r k * delta k c)).
    - apply (sum_delta_r n c (fun k => M r k)). exact Hc.
    - intros k Hk. f_equal. unfold unit_at. cbn [data]. fold n. apply (nth_map_seq (fun k => delta k c)). exact Hk. }
  assert (Wv : wf (mkT [n] (data b))) by (unfold wf in *; cbn [data dims nprod]; rewrite Wb, Db; fold n; cbn; lia).
  assert (Hgb : forall r, get (mkT [n] (data b)) [r] = nth r (data b) 0).
  { intros r. unfold get. cbn [dims data]. f_equal. cbn. lia. }
  destruct (Hls n (matrix_of f d) (mkT [n] (data b)) Hn) as (E1 & E2 & E3).
  { split; [reflexivity|apply wf_mk]. }
  { reflexivity. }
  { exact Wv. }
  { exists x. intros i Hi. rewrite Hgb, <- Hx by exact Hi. apply sum_ext. intros j Hj. rewrite HA by assumption. reflexivity. }
  unfold dense_cgs. rewrite Db. fold n. set (y := lsolve _ _) in *.
  exists (mkT d (data y)). split; [reflexivity|]. split; [unfold wf in *; cbn [data dims]; rewrite E2, E1; fold n; cbn; lia|]. split; [reflexivity|].
  intros r Hr. specialize (E3 r Hr). rewrite Hgb in E3. rewrite <- E3. apply sum_ext. intros c Hc. rewrite HA by assumption. f_equal. cbn [data].
  unfold get. rewrite E1. f_equal. cbn. lia.
Qed.
End Exists.

(** The identity on two sites *)
Definition id2 : RO :=
  [@mk (@rs_scalar RR) [1; 2; 2; 1]%nat (fun x => if Nat.eqb (nth 1 x 0) (nth 2 x 0) then 1%R else 0%R);
   @mk (@rs_scalar RR) [1; 2; 2; 1]%nat (fun x => if Nat.eqb (nth 1 x 0) (nth 2 x 0) then 1%R else 0%R)]%nat.

Lemma id2_hamiltonian : @hamiltonian RR id2 [2; 2]%nat.
Proof.
  split; [|split; [reflexivity|split; [reflexivity|split]]].
  - split; [discriminate|]. unfold id2. cbn [mlinked].
    exists 2%nat, 2%nat, 1%nat. repeat split; try lia; try reflexivity. exists 2%nat, 2%nat, 1%nat. repeat split; try lia; reflexivity.
  - intros is js Hi Hj. apply in_range_inv2 in Hi, Hj. destruct Hi as (a & b & -> & Ha & Hb). destruct Hj as (c & d & -> & Hc & Hd).
    destruct a as [|[|a]], b as [|[|b]], c as [|[|c]], d as [|[|d]]; try lia; cbn; ring.
  - exists [0;0]%nat, [0;0]%nat. repeat split; try (repeat constructor; lia). cbn. lra.
Qed.

Lemma solve2_valid svd flag (H : RO) P n tol : @svd_contract RR svd -> (1 <= flag)%R -> @hamiltonian RR H [2; 2]%nat -> (P = [] \/ P = start00) -> n <> 0%nat -> (0 < tol)%R ->
  @valid_solve2 RR svd flag H P bell_state [2; 2]%nat n tol.
Proof.
  intros Hsvd Hf HH HP Hn Ht. destruct start_open as (O1 & O2 & D1 & D2).
  assert (EW : @weight RR [2; 2]%nat (amp bell_state) = 2%R) by (rewrite bell_weight; cbn; ring).
  assert (Hf0 : flag <> 0%R) by lra.
  assert (H1 : kept svd flag bell_state) by (apply kept_exact; auto).
  split; [|split; [cbn; lia|split; [exact Hf0|exact Ht]]].
  split; [exact HH|]. split; [exact O2|]. split; [exact D2|]. split; [destruct HP as [->| ->]; auto|]. split; [exact Hn|].
  split; [rewrite EW; pose proof small16; lra|]. split; [exact H1|]. split; [|left; exact Hf0].
  intros Q' HQ E1 E2.
  destruct (canon_ok [2; 2]%nat svd flag Hsvd bell_state O2 D2 (or_introl Hf0) H1) as (Q1 & F1 & Qo & Qd & _ & _ & _ & Qa).
  rewrite F1 in E1. apply Ok_inj' in E1. subst Q1.
  destruct (apply_open H [2; 2]%nat HH Q' Qo Qd) as (HQ1 & F2 & Ho & Hd & Ha). rewrite F2 in E2. apply Ok_inj' in E2. subst HQ1.
  apply kept_exact; auto.
Qed.

(** Found: when Dmax truncates, the returned number is not the residual of the returned state.  The solution of
    P = Q for a maximally entangled Q and Dmax = 1 is reported with error 0, and the distance is at least 1. *)
Theorem C51_two_error_refuted svd flag lsolve cgs tolerance solvetol sense tol : @svd_contract RR svd -> @cgs_contract RR cgs -> (1 <= flag)%R -> (0 < tol)%R ->
  open_mpo id2 /\ open_mps start00 /\ open_mps bell_state /\
  exists P' s', @solve RR svd flag lsolve cgs adjoint_d false tolerance solvetol id2 start00 bell_state sense 1 false 1 tol = Ok (P', s', 0%R) /\
    open_mps P' /\ pdims P' = [2; 2]%nat /\ (1 <= @residual RR id2 [2; 2]%nat (amp bell_state) (amp P'))%R.
Proof.
  intros Hsvd Hcgs Hf Ht. destruct start_open as (O1 & O2 & D1 & D2). split; [apply id2_hamiltonian|]. split; [exact O1|]. split; [exact O2|].
  assert (Et : (if Rle_dec tol 0 then solvetol else tol) = tol) by (destruct (Rle_dec tol 0); [lra|reflexivity]).
  pose proof (solve2_valid svd flag id2 start00 1 tol Hsvd Hf id2_hamiltonian (or_intror eq_refl) ltac:(discriminate) Ht) as HV. rewrite <- Et in HV.
  destruct (C51_two_returns svd flag Hsvd lsolve cgs Hcgs adjoint_d (or_introl eq_refl) tolerance solvetol id2 start00 bell_state [2; 2]%nat sense 1%Z tol 1 HV)
    as (P' & s' & err & E & Po & Pd & _ & _ & Pb).
  destruct (C51_two_error svd flag Hsvd lsolve cgs Hcgs adjoint_d (or_introl eq_refl) tolerance solvetol id2 start00 bell_state [2; 2]%nat sense 1%Z tol 1 P' s' err HV E)
    as (phi & _ & _ & _ & _ & _ & (E0 & _) & _).
  pose proof (C51_two_least svd flag Hsvd lsolve cgs Hcgs adjoint_d (or_introl eq_refl) tolerance solvetol id2 start00 bell_state [2; 2]%nat sense 1%Z tol 1 P' s' err HV E bell_state eq_refl O2 D2) as Hle.
  assert (Ez : @residual RR id2 [2; 2]%nat (amp bell_state) (amp bell_state) = 0%R) by (unfold residual, dist2; rewrite bell_weight; cbn; ring).
  rewrite Ez in Hle. assert (err = 0%R) as -> by lra. exists P', s'. split; [exact E|]. split; [exact Po|]. split; [exact Pd|].
  destruct (product_amp P' Po Pd) as (x & y & Hxy).
  { specialize (Pb ltac:(lia) 1%nat). assert (length P' = 2%nat) by (rewrite <- length_pdims, Pd; reflexivity). specialize (Pb ltac:(lia)). lia. }
  assert (Er : @residual RR id2 [2; 2]%nat (amp bell_state) (amp P') =
    ((amp P' [0;0]%nat - 1) * (amp P' [0;0]%nat - 1) + amp P' [0;1]%nat * amp P' [0;1]%nat + amp P' [1;0]%nat * amp P' [1;0]%nat + (amp P' [1;1]%nat - 1) * (amp P' [1;1]%nat - 1))%R).
  { unfold residual, dist2. rewrite bell_weight. unfold op_apply. cbn [sumcfg sum]. set (f := amp P'). clearbody f. cbn. ring. }
  rewrite Er, !Hxy by lia. set (a := x 0%nat). set (b := x 1%nat). set (c := y 0%nat). set (d := y 1%nat).
  pose proof (Rle_0_sqr (a * c + b * d - 1)) as S1. pose proof (Rle_0_sqr (a * d - b * c)) as S2. unfold Rsqr in *.
  pose proof (Rle_0_sqr (a * c + b * d - 1)). nra.
Qed.

(** The hypotheses are met, also with the operator of C49. *)
Theorem C51_two_case : exists (svd : @tensor (@rs_scalar RR) -> _) cgs, @svd_contract RR svd /\ @cgs_contract RR cgs /\
  @valid_solve2 RR svd 2 bell start00 bell_state [2; 2]%nat 1 (1 / 10 ^ 10) /\ valid_solve2 svd 2 bell ([] : RM) bell_state [2; 2]%nat 5 1 /\
  valid_solve2 svd 2 id2 start00 bell_state [2; 2]%nat 3 (1 / 10 ^ 10) /\
  @residual RR bell [2; 2]%nat (amp bell_state) (amp start00) = 8%R.
Proof.
  destruct (@svd_contract_satisfiable RR) as (svd & Hsvd). destruct (@cgs_contract_satisfiable RR) as (cg & Hcg). exists svd, cg.
  split; [exact Hsvd|]. split; [exact Hcg|].
  assert (Ht : (0 < 1 / 10 ^ 10)%R) by (apply Rdiv_lt_0_compat; [lra|apply pow_lt; lra]).
  split; [apply solve2_valid; auto; [lra|exact bell_hamiltonian]|]. split; [apply solve2_valid; auto; try lra; exact bell_hamiltonian|].
  split; [apply solve2_valid; auto; [lra|exact id2_hamiltonian]|].
  unfold residual, dist2. rewrite bell_weight. cbn. field.
Qed.
