(** * Time evolution with ArnoldiSolver (C69) *)
From Coq Require Import Reals Lra Bool List Arith ZArith Lia Ring.
From Verif Require Import Scalar ScalarFacts RScal RealInst Tensor TensorFacts Spec MpsModel MpsFacts MpoSpec CanonSpec CanonModel CanonSweep SimplifySpec SimplifyModel SimplifyFacts
  Properties_Canon SvdExist TrotterExp MetricExp ArnoldiSpec ArnoldiModel ArnoldiFacts ArnoldiProj ArnoldiStep.
Import ListNotations.
Local Open Scope R_scope.

(** The constructors accept from 1 to 29 vectors ... *)
Theorem C69_nvectors nvectors :
  ((1 <= nvectors <= 29)%Z -> arnoldi_new nvectors = Ok (Z.to_nat nvectors)) /\ (~ (1 <= nvectors <= 29)%Z -> arnoldi_new nvectors = Abort).
Proof. unfold arnoldi_new. destruct (Z.leb_spec nvectors 0), (Z.leb_spec 30 nvectors); cbn [orb]; split; intros; try reflexivity; lia. Qed.
(** ... although the message of the one that aborts gives the limits [1,30]. *)
Theorem C69_limit_refuted : ~ forall nvectors, (1 <= nvectors <= 30)%Z -> arnoldi_new nvectors = Ok (Z.to_nat nvectors).
Proof. intros Q. specialize (Q 30%Z ltac:(lia)). discriminate. Qed.

(** C69.  The vectors of the basis are states of norm one, the first of them the given state; N and Heff are the scalar
    products and the matrix elements of H in this basis. *)
Theorem C69_basis {RS : RScal} svd flag algorithm tolerance internal_sweeps H ds Dmax psi max_states :
  svd_contract svd -> 1 <= flag -> internal_sweeps <> 0%nat -> hermitian_mpo H ds -> one_site algorithm Dmax = true \/ (2 <= length ds)%nat ->
  open_mps psi -> pdims psi = ds -> weight ds (amp psi) = 1 -> (0 < max_states)%nat ->
  exists states N Heff errors current, arnoldi_basis svd flag algorithm tolerance internal_sweeps H max_states psi Dmax = Ok (states, N, Heff, errors, current) /\
    (1 <= length states <= max_states)%nat /\
    (forall q, In q states -> open_mps q /\ pdims q = ds /\ weight ds (amp q) = 1) /\
    (forall is, in_range ds is -> amp (nth 0 states []) is = amp psi is) /\
    ((0 < Dmax)%Z -> forall k, (0 < k < length states)%nat -> bonds_le (2 * Dmax) (nth k states [])) /\
    forall i j, (i < length states)%nat -> (j < length states)%nat ->
      N i j = inner ds (amp (nth i states [])) (amp (nth j states [])) /\
      Heff i j = inner ds (amp (nth i states [])) (op_apply ds (opelem H) (amp (nth j states []))).
Proof.
  intros Hsvd Hf Hi HH Hs Ho Hd Hw Hm.
  assert (Hs2 : one_site algorithm (2 * Dmax) = true \/ (2 <= length ds)%nat).
  { destruct Hs as [E|E]; [left|right; exact E]. unfold one_site in *. apply andb_prop in E. destruct E as (-> & E). apply Z.eqb_eq in E. subst Dmax. reflexivity. }
  destruct (basis_ok svd Hsvd flag Hf algorithm tolerance internal_sweeps Hi H ds HH Dmax Hs2 psi max_states Ho Hd (weight_one ds _ Hw)) as (states & N & F & e & c & Hc & E & (I1 & I2 & I3 & _ & _ & _ & _ & I8 & _) & HL & H0 & _).
  exists states, N, F, e, c. split; [exact E|]. split; [destruct states; [congruence|cbn in *; lia]|].
  split; [intros q Hq; destruct (I2 q Hq) as (A & B & D); split; [exact A|split; [exact B|apply one_weight; exact D]]|].
  split; [exact H0|]. split; [exact I8|]. exact I3.
Qed.

(** The exponential of a number *)
Definition cexp_is (z e : Cx) : Prop := Ccv (fun N => csum (S N) (fun k => Cmul (mkC (/ INR (fact k)) 0) (@kpow CS z k))) e.

Section Step.
Variable svd : tens -> tens * list R * tens.
Hypothesis Hsvd : @svd_contract CC svd.
Variable flag : R.
Hypothesis Hflag : 1 <= flag.
Variable algorithm : bool.
Variable tolerance : R.
Variables internal_sweeps final_sweeps : nat.
Hypothesis Hint : internal_sweeps <> 0%nat.
Hypothesis Hfin : final_sweeps <> 0%nat.
Variable msolve : tens -> tens -> tens.
Hypothesis Hmsolve : @msolve_contract CC msolve.
Variable expm : tens -> tens.
Hypothesis Hexpm : expm_contract expm.
Variable eig : tens -> list Cx * tens.
Variables (H : @mpo CS) (ds : list nat).
Hypothesis HH : @hermitian_mpo CC H ds.
Variable Dmax : Z.
Hypothesis Hsize : one_site algorithm Dmax = true \/ (2 <= length ds)%nat.
(** A real time step, not zero *)
Variable dt : R.
Hypothesis Hdt : dt <> 0.
Variable max_states : nat.
Hypothesis Hmax : (0 < max_states)%nat.
Variable psi : state.
Hypothesis Hopen : open_mps psi.
Hypothesis Hdims : pdims psi = ds.

Notation amplitude := (@amp CS).
(** -i dt *)
Notation idt := (mkC 0 (- dt)).
Notation one_step := (@arnoldi_step CC svd flag algorithm tolerance internal_sweeps final_sweeps msolve expm eig H max_states idt psi Dmax).

Lemma idt_conj : Cconj idt = Copp idt.
Proof. apply C_ext; cbn; lra. Qed.
Lemma idt_nz : idt <> mkC 0 0.
Proof. intros E. injection E as E. apply Hdt. lra. Qed.

(** A linear combination of at most max_states states of norm one, psi the first of them, with norm one; it is
    exp(-i dt H) psi whenever H maps the span of the states into itself. *)
Definition approximation (target : list nat -> Cx) : Prop :=
  @weight CC ds target = 1 /\
  exists (states : list state) (c : list Cx), (1 <= length states <= max_states)%nat /\ length c = length states /\
    (forall q, In q states -> open_mps q /\ pdims q = ds /\ @weight CC ds (amplitude q) = 1) /\
    (forall is, in_range ds is -> amplitude (nth 0 states []) is = amplitude psi is) /\
    (forall is, in_range ds is -> target is = csum (length states) (fun k => Cmul (nth k c (mkC 0 0)) (amplitude (nth k states []) is))) /\
    ((forall k, (k < length states)%nat -> @in_span CC ds (length states) (fun i => amplitude (nth i states [])) (@op_apply CS ds (@opelem CS H) (amplitude (nth k states [])))) ->
     is_evolved ds (@opelem CS H) idt (amplitude psi) target).

Section Normalised.
Hypothesis Hnorm : @weight CC ds (amplitude psi) = 1.

Lemma step_all : exists target, approximation target /\
  ((exists psi' err, one_step = Ok (psi', err)) \/ @inner CS ds target (amplitude psi) = mkC 0 0) /\
  forall psi' err, one_step = Ok (psi', err) ->
    open_mps psi' /\ pdims psi' = ds /\ @weight CC ds (amplitude psi') = 1 /\ ((0 < Dmax)%Z -> bonds_le Dmax psi') /\
    exists a, 0 < a /\ @inner CS ds target (amplitude psi') = mkC a 0 /\ 0 <= err /\ 1 - err * err <= a * a.
Proof.
  destruct (basis_ok svd Hsvd flag Hflag algorithm tolerance internal_sweeps Hint H ds HH Dmax (size2 algorithm ds Dmax Hsize) psi max_states Hopen Hdims (@weight_one CC ds _ Hnorm)) as (states & N & F & e & c & Hc & E & (I1 & I2 & I3 & _ & _ & _ & I7 & I8 & _) & HL & H0 & Hc1 & Hc2).
  assert (Hn : (0 < length states)%nat) by (destruct states; [congruence|cbn; lia]).
  assert (HN0 : N 0%nat 0%nat = mkC 1 0).
  { rewrite (proj1 (I3 0%nat 0%nat Hn Hn)). apply (I2 (nth 0 states [])). apply nth_In. exact Hn. }
  pose proof (combo_norm msolve Hmsolve expm Hexpm eig H ds HH idt idt_conj idt_nz states N F Hn I3 HN0) as Hw.
  pose proof (coef_length msolve expm eig idt idt_nz states N F) as Hl.
  set (cf := @arnoldi_coef CC msolve expm eig idt (length states) N F) in *.
  exists (@combo CC cf states). split; [split; [exact Hw|]|].
  - exists states, cf. split; [lia|]. split; [exact Hl|]. split; [intros q Hq; destruct (I2 q Hq) as (A & B & D); split; [exact A|split; [exact B|apply (@one_weight CC); exact D]]|].
    split; [exact H0|]. split; [reflexivity|]. intros Hsp. exact (combo_exact msolve Hmsolve expm Hexpm eig H ds idt idt_nz states N F Hn I3 (amplitude psi) H0 Hsp).
  - exact (finish_ok svd Hsvd flag Hflag algorithm tolerance internal_sweeps final_sweeps Hint Hfin msolve expm eig H ds Dmax Hsize idt max_states psi states N F e c Hopen Hdims E I1
      ltac:(intros q Hq; destruct (I2 q Hq) as (A & B & _); auto) Hc1 I7 Hl Hw).
Qed.

(** C69.  one_step() turns a state of norm one into a state of norm one with the same dimensions and bonds of at most
    Dmax, whose fidelity with the Krylov approximation of exp(-i dt H) psi is at least 1 - err^2, phase included, where
    err is the returned error. *)
Theorem C69_step psi' err : one_step = Ok (psi', err) ->
  open_mps psi' /\ pdims psi' = ds /\ @weight CC ds (amplitude psi') = 1 /\ ((0 < Dmax)%Z -> bonds_le Dmax psi') /\
  exists target a, approximation target /\ 0 < a /\ @inner CS ds target (amplitude psi') = mkC a 0 /\ 0 <= err /\ 1 - err * err <= a * a.
Proof.
  intros E. destruct step_all as (t & Ht & _ & P). destruct (P psi' err E) as (P1 & P2 & P3 & P4 & a & P5 & P6 & P7 & P8).
  split; [exact P1|]. split; [exact P2|]. split; [exact P3|]. split; [exact P4|]. exists t, a. auto.
Qed.

(** It can fail to return a state only if the approximation is orthogonal to psi. *)
Theorem C69_returns : (exists psi' err, one_step = Ok (psi', err)) \/ exists target, approximation target /\ @inner CS ds target (amplitude psi) = mkC 0 0.
Proof. destruct step_all as (t & Ht & [P|P] & _); [left; exact P|right; exists t; auto]. Qed.
End Normalised.

(** ** Eigenvectors *)
Lemma power_eigen lambda f : (forall is, in_range ds is -> @op_apply CS ds (@opelem CS H) f is = Cmul lambda (f is)) ->
  forall k is, in_range ds is -> power_apply ds (@opelem CS H) k f is = Cmul (@kpow CS lambda k) (f is).
Proof.
  intros Hl. induction k as [|k IH]; intros is Hi; [cbn [power_apply kpow]; apply C_ext; cbn; ring|]. cbn [power_apply kpow].
  transitivity (@op_apply CS ds (@opelem CS H) (fun is => Cmul (@kpow CS lambda k) (f is)) is).
  { unfold op_apply. apply (@sumcfg_ext CS). intros js Hj. rewrite (IH js Hj). reflexivity. }
  transitivity (Cmul (@kpow CS lambda k) (@op_apply CS ds (@opelem CS H) f is)).
  { unfold op_apply. change Cmul with (@kmul CS). rewrite (@sumcfg_mul_l CS). apply (@sumcfg_ext CS). intros js Hj. apply C_ext; cbn; ring. }
  rewrite (Hl is Hi). apply C_ext; cbn; ring.
Qed.
Lemma evolved_eigen lambda z f g e : (forall is, in_range ds is -> @op_apply CS ds (@opelem CS H) f is = Cmul lambda (f is)) ->
  is_evolved ds (@opelem CS H) z f g -> cexp_is (Cmul z lambda) e -> forall is, in_range ds is -> g is = Cmul e (f is).
Proof.
  intros Hl Hg He is Hi. apply (Ccv_unique (fun N => exp_apply ds (@opelem CS H) z f N is)); [apply Hg; exact Hi|].
  apply (Ccv_ext (fun N => Cmul (csum (S N) (fun k => Cmul (mkC (/ INR (fact k)) 0) (@kpow CS (Cmul z lambda) k))) (f is))).
  - intros N. unfold exp_apply. change Cmul with (@kmul CS) at 1. rewrite (@sum_mul_r CS). apply (@sum_ext CS). intros k Hk. rewrite (power_eigen lambda f Hl k is Hi).
    rewrite (@kpow_mul CS). apply C_ext; cbn -[fact kpow]; ring.
  - apply Ccv_mul; [exact He|apply Ccv_const].
Qed.
End Step.

Lemma cexp_exists z : exists e, cexp_is z e.
Proof.
  destruct (exp_exists 1 (fun _ _ => z)) as (E & HE). exists (E 0%nat 0%nat). specialize (HE 0%nat 0%nat ltac:(lia) ltac:(lia)).
  assert (Hp : forall k, mpow 1 (fun _ _ => z) k 0%nat 0%nat = @kpow CS z k).
  { induction k as [|k IH]; [reflexivity|]. cbn [mpow sum kpow]. rewrite IH. apply C_ext; cbn; ring. }
  apply (Ccv_ext (fun N => epart 1 (fun _ _ => z) N 0%nat 0%nat)); [|exact HE]. intros N. unfold epart. apply (@sum_ext CS). intros k Hk. rewrite Hp. reflexivity.
Qed.

(** Near zero the exponential is 1 + z. *)
Lemma limit_bound u l c b : Un_cv u l -> (forall n, Rabs (u n - c) <= b) -> Rabs (l - c) <= b.
Proof.
  intros Hu Hb. apply Rnot_lt_le. intros Hl. destruct (Hu (Rabs (l - c) - b) ltac:(lra)) as (N & HN). specialize (HN N (le_n N)). unfold R_dist in HN. specialize (Hb N).
  pose proof (Rabs_triang (l - u N) (u N - c)) as T. replace (l - u N + (u N - c)) with (l - c) in T by ring. rewrite (Rabs_minus_sym l (u N)) in T. lra.
Qed.
Lemma C1_kpow z k : C1 (@kpow CS z k) <= C1 z ^ k.
Proof. induction k as [|k IH]; cbn [kpow pow]; [unfold C1; cbn; rewrite Rabs_R1, Rabs_R0; lra|]. eapply Rle_trans; [apply C1_mul|]. apply Rmult_le_compat_l; [apply C1_pos|exact IH]. Qed.
Lemma fact_pow2 k : (2 ^ k <= fact (S k))%nat.
Proof. induction k as [|k IH]; [cbn; lia|]. replace (fact (S (S k))) with ((S (S k)) * fact (S k))%nat by reflexivity. cbn [Nat.pow]. nia. Qed.
Lemma cexp_near z e : C1 z <= 1 -> cexp_is z e -> Rabs (Cre e - (1 + Cre z)) <= C1 z * C1 z /\ Rabs (Cim e - Cim z) <= C1 z * C1 z.
Proof.
  intros Hz He. set (u := fun N => csum (S N) (fun k => Cmul (mkC (/ INR (fact k)) 0) (@kpow CS z k))) in *.
  assert (B : forall N, C1 (Csub (u (S N)) (Cadd (mkC 1 0) z)) <= C1 z * C1 z * (1 - / 2 ^ N)).
  { induction N as [|N IH].
    - replace (Csub (u 1%nat) (Cadd (mkC 1 0) z)) with (mkC 0 0); [rewrite C1_real, Rabs_R0; cbn [pow]; rewrite Rinv_1; lra|]. unfold u. cbn [sum kpow]. destruct z as [x y]. apply C_ext; cbn; rewrite ?Rinv_1; ring.
    - replace (Csub (u (S (S N))) (Cadd (mkC 1 0) z)) with (Cadd (Csub (u (S N)) (Cadd (mkC 1 0) z)) (Cmul (mkC (/ INR (fact (S (S N)))) 0) (@kpow CS z (S (S N))))).
      2:{ change (u (S (S N))) with (Cadd (u (S N)) (Cmul (mkC (/ INR (fact (S (S N)))) 0) (@kpow CS z (S (S N))))). generalize (u (S N)), (Cmul (mkC (/ INR (fact (S (S N)))) 0) (@kpow CS z (S (S N)))). intros [a b] [c d]. apply C_ext; cbn; ring. }
      eapply Rle_trans; [apply C1_add|]. assert (C1 (Cmul (mkC (/ INR (fact (S (S N)))) 0) (@kpow CS z (S (S N)))) <= C1 z * C1 z * / 2 ^ S N); [|cbn [pow] in *; assert (Hp : 2 ^ N <> 0) by (apply pow_nonzero; lra); rewrite Rinv_mult in *; lra].
      eapply Rle_trans; [apply C1_mul|]. rewrite C1_real. pose proof (fact_pos (S (S N))) as Fp. rewrite Rabs_right by lra.
      assert (F : / INR (fact (S (S N))) <= / 2 ^ S N).
      { apply Rinv_le_contravar; [apply pow_lt; lra|]. replace (2 ^ S N) with (INR (2 ^ S N)) by (rewrite pow_INR; reflexivity). apply le_INR. apply fact_pow2. }
      assert (G : C1 (@kpow CS z (S (S N))) <= C1 z * C1 z).
      { eapply Rle_trans; [apply C1_kpow|]. cbn [pow]. pose proof (C1_pos z) as P. assert (C1 z ^ N <= 1) by (rewrite <- (pow1 N); apply pow_incr; lra). assert (0 <= C1 z ^ N) by (apply pow_le; exact P).
        rewrite <- Rmult_assoc. rewrite <- (Rmult_1_r (C1 z * C1 z)) at 2. apply Rmult_le_compat_l; [nra|assumption]. }
      pose proof (C1_pos (@kpow CS z (S (S N)))). rewrite Rmult_comm. apply Rmult_le_compat; lra. }
  assert (B' : forall N, C1 (Csub (u (S N)) (Cadd (mkC 1 0) z)) <= C1 z * C1 z).
  { intros N. eapply Rle_trans; [apply B|]. pose proof (C1_pos z). assert (0 < / 2 ^ N) by (apply Rinv_0_lt_compat, pow_lt; lra). assert (0 <= C1 z * C1 z) by nra. nra. }
  destruct He as (E1 & E2). split.
  - apply (limit_bound (fun N => Cre (u (S N)))).
    + intros q Hq. destruct (E1 q Hq) as (N & HN). exists N. intros n Hn. apply HN. lia.
    + intros N. specialize (B' N). unfold C1 in B' at 1. cbn -[u] in B'. pose proof (Rabs_pos (Cim (u (S N)) - (0 + Cim z))). lra.
  - apply (limit_bound (fun N => Cim (u (S N)))).
    + intros q Hq. destruct (E2 q Hq) as (N & HN). exists N. intros n Hn. apply HN. lia.
    + intros N. specialize (B' N). unfold C1 in B' at 1. cbn -[u] in B'. replace (Cim (u (S N)) - Cim z) with (Cim (u (S N)) - (0 + Cim z)) by ring. pose proof (Rabs_pos (Cre (u (S N)) - (1 + Cre z))). lra.
Qed.

(** ** Eigenvectors and examples *)
Section Eigen.
Variable svd : tens -> tens * list R * tens.
Hypothesis Hsvd : @svd_contract CC svd.
Variable flag : R.
Hypothesis Hflag : 1 <= flag.
Variable algorithm : bool.
Variable tolerance : R.
Variables internal_sweeps final_sweeps : nat.
Hypothesis Hint : internal_sweeps <> 0%nat.
Hypothesis Hfin : final_sweeps <> 0%nat.
Variable msolve : tens -> tens -> tens.
Hypothesis Hmsolve : @msolve_contract CC msolve.
Variable expm : tens -> tens.
Hypothesis Hexpm : expm_contract expm.
Variable eig : tens -> list Cx * tens.
Notation one_step H max_states idt psi Dmax := (@arnoldi_step CC svd flag algorithm tolerance internal_sweeps final_sweeps msolve expm eig H max_states idt psi Dmax).
Notation amplitude := (@amp CS).

(** An eigenvector of H with norm one gets the phase exp(-i dt lambda), for any number of vectors. *)
Theorem C69_eigenstate (H : @mpo CS) ds Dmax dt max_states (psi : state) lambda :
  @hermitian_mpo CC H ds -> one_site algorithm Dmax = true \/ (2 <= length ds)%nat -> dt <> 0 -> open_mps psi -> pdims psi = ds -> @weight CC ds (amplitude psi) = 1 ->
  (forall is, in_range ds is -> @op_apply CS ds (@opelem CS H) (amplitude psi) is = Cmul lambda (amplitude psi is)) ->
  exists psi' err e a, one_step H max_states (mkC 0 (- dt)) psi Dmax = Ok (psi', err) /\ open_mps psi' /\ pdims psi' = ds /\ @weight CC ds (amplitude psi') = 1 /\
    cexp_is (Cmul (mkC 0 (- dt)) lambda) e /\ 0 < a /\ @inner CS ds (fun is => Cmul e (amplitude psi is)) (amplitude psi') = mkC a 0 /\ 0 <= err /\ 1 - err * err <= a * a.
Proof.
  intros HH Hsize Hdt Ho Hd Hw Hl.
  destruct (basis_eigen svd Hsvd flag Hflag algorithm tolerance internal_sweeps Hint H ds HH Dmax (size2 algorithm ds Dmax Hsize) psi lambda max_states Ho Hd (@weight_one CC ds _ Hw) Hl) as (v & N & F & c & Hc & E & (I1 & I2 & I3 & _ & _ & _ & I7 & _) & Hav & Hc1 & Hc2).
  assert (Hn : (0 < length [v])%nat) by (cbn; lia).
  assert (HN0 : N 0%nat 0%nat = mkC 1 0) by (rewrite (proj1 (I3 0%nat 0%nat Hn Hn)); apply (I2 v); left; reflexivity).
  pose proof (combo_norm msolve Hmsolve expm Hexpm eig H ds HH _ (idt_conj dt) (idt_nz dt Hdt) [v] N F Hn I3 HN0) as Hcw.
  pose proof (coef_length msolve expm eig _ (idt_nz dt Hdt) [v] N F) as Hcl.
  assert (Hev : is_evolved ds (@opelem CS H) (mkC 0 (- dt)) (amplitude psi) (@combo CC (@arnoldi_coef CC msolve expm eig (mkC 0 (- dt)) (length [v]) N F) [v])).
  { refine (combo_exact msolve Hmsolve expm Hexpm eig H ds _ (idt_nz dt Hdt) [v] N F Hn I3 (amplitude psi) Hav _). intros k Hk. assert (k = 0%nat) as -> by (cbn in Hk; lia).
    exists (fun _ => lambda). intros is Hi. cbn [length sum nth]. rewrite (@Hv_ext CC H ds (amplitude v) (amplitude psi) Hav). unfold Hv. rewrite (Hl is Hi), (Hav is Hi). apply C_ext; cbn; ring. }
  destruct (cexp_exists (Cmul (mkC 0 (- dt)) lambda)) as (e & He).
  pose proof (evolved_eigen H ds lambda _ _ _ e Hl Hev He) as Het.
  destruct (finish_ok svd Hsvd flag Hflag algorithm tolerance internal_sweeps final_sweeps Hint Hfin msolve expm eig H ds Dmax Hsize _ max_states psi [v] N F [] c Ho Hd E I1 ltac:(intros q Hq; destruct (I2 q Hq) as (A & B & _); auto) Hc1 I7 Hcl Hcw) as ([(psi' & err & Es)|Z] & P).
  - destruct (P psi' err Es) as (P1 & P2 & P3 & P4 & a & P5 & P6 & P7 & P8). exists psi', err, e, a. split; [exact Es|]. repeat (split; [assumption|]). split; [|auto]. rewrite <- P6. apply (@inner_ext CC); [|reflexivity]. intros is Hi. symmetry. apply Het. exact Hi.
  - exfalso. assert (W1 : @inner CS ds (fun is => Cmul e (amplitude psi is)) (fun is => Cmul e (amplitude psi is)) = mkC 1 0).
    { change (mkC 1 0) with (@rinj CC 1). rewrite <- Hcw, (@rinj_weight CC). apply (@inner_ext CC); intros is Hi; symmetry; apply Het; exact Hi. }
    refine (_ (eq_trans (eq_sym W1) (@inner_scale_r CC ds (fun is => Cmul e (amplitude psi is)) e (amplitude psi)))).
    rewrite (@inner_ext CC ds (fun is => Cmul e (amplitude psi is)) (amplitude psi) (@combo CC (@arnoldi_coef CC msolve expm eig (mkC 0 (- dt)) (length [v]) N F) [v]) (amplitude psi)) by (auto; intros is Hi; symmetry; apply Het; exact Hi).
    rewrite Z. intros Q. apply (f_equal Cre) in Q. cbn in Q. lra.
Qed.

Lemma inner_scale_l ds (c : Cx) (f g : list nat -> Cx) : @inner CS ds (fun is => Cmul c (f is)) g = Cmul (Cconj c) (@inner CS ds f g).
Proof. unfold inner. change Cmul with (@kmul CS). rewrite (@sumcfg_mul_l CS). apply (@sumcfg_ext CS). intros is _. apply C_ext; cbn; ring. Qed.

(** The operator c Z x Z and the state c |00> *)
Definition zop (c : R) : tens := @mk CS [1; 2; 2; 1]%nat (fun x => if Nat.eqb (nth 1 x 0%nat) (nth 2 x 0%nat) then mkC (if Nat.eqb (nth 1 x 0%nat) 0 then c else - c) 0 else mkC 0 0).
Definition zz (c : R) : @mpo CS := [zop c; zop 1].
Definition up (c : R) : tens := @mk CS [1; 2; 1]%nat (fun x => mkC (if Nat.eqb (nth 1 x 0%nat) 0 then c else 0) 0).
Definition upup (c : R) : state := [up c; up 1].
Lemma zz_hermitian c : @hermitian_mpo CC (zz c) [2; 2]%nat.
Proof.
  split; [split; [discriminate|]|split; [reflexivity|split; [reflexivity|]]].
  - exists 2%nat, 2%nat, 1%nat. split; [reflexivity|]. split; [apply (@wf_mk CS)|]. repeat (split; [lia|]). exists 2%nat, 2%nat, 1%nat. split; [reflexivity|]. split; [apply (@wf_mk CS)|]. repeat (split; [lia|]). reflexivity.
  - intros is js Hi Hj. apply in_range_cons_inv in Hi as (i1 & r1 & -> & Hi1 & Hi). apply in_range_cons_inv in Hi as (i2 & r2 & -> & Hi2 & Hi). apply in_range_nil_inv in Hi. subst r2.
    apply in_range_cons_inv in Hj as (j1 & r1 & -> & Hj1 & Hj). apply in_range_cons_inv in Hj as (j2 & r2 & -> & Hj2 & Hj). apply in_range_nil_inv in Hj. subst r2.
    destruct i1 as [|[|]], i2 as [|[|]], j1 as [|[|]], j2 as [|[|]]; try lia; apply C_ext; cbv -[Rplus Rmult Ropp IZR Rminus]; lra.
Qed.
Lemma upup_open c : open_mps (upup c) /\ pdims (upup c) = [2; 2]%nat.
Proof.
  split; [split; [discriminate|]|reflexivity]. exists 2%nat, 1%nat. split; [reflexivity|]. split; [apply (@wf_mk CS)|]. repeat (split; [lia|]). exists 2%nat, 1%nat. split; [reflexivity|]. split; [apply (@wf_mk CS)|]. repeat (split; [lia|]). reflexivity.
Qed.
Lemma upup_eigen c d is : in_range [2; 2]%nat is -> @op_apply CS [2; 2]%nat (@opelem CS (zz c)) (amplitude (upup d)) is = Cmul (mkC c 0) (amplitude (upup d) is).
Proof.
  intros Hi. apply in_range_cons_inv in Hi as (i1 & r1 & -> & Hi1 & Hi). apply in_range_cons_inv in Hi as (i2 & r2 & -> & Hi2 & Hi). apply in_range_nil_inv in Hi. subst r2.
  destruct i1 as [|[|]], i2 as [|[|]]; try lia; apply C_ext; cbv -[Rplus Rmult Ropp IZR Rminus]; lra.
Qed.
Lemma upup_inner c : @inner CS [2; 2]%nat (amplitude (upup c)) (amplitude (upup c)) = mkC (c * c) 0.
Proof. apply C_ext; cbv -[Rplus Rmult Ropp IZR Rminus]; lra. Qed.

(** The hypotheses of C69_step, C69_returns and C69_eigenstate are met. *)
Theorem C69_case : @hermitian_mpo CC (zz 3) [2; 2]%nat /\ open_mps (upup 1) /\ pdims (upup 1) = [2; 2]%nat /\ @weight CC [2; 2]%nat (amplitude (upup 1)) = 1 /\
  exists psi' err, one_step (zz 3) 4 (mkC 0 (- (1 / 10))) (upup 1) 5%Z = Ok (psi', err).
Proof.
  destruct (upup_open 1) as (Ho & Hd).
  assert (Hw : @weight CC [2; 2]%nat (amplitude (upup 1)) = 1) by (apply (@one_weight CC); rewrite upup_inner; apply C_ext; cbn; lra).
  split; [apply zz_hermitian|]. split; [exact Ho|]. split; [exact Hd|]. split; [exact Hw|].
  destruct (C69_eigenstate (zz 3) [2; 2]%nat 5%Z (1 / 10) 4 (upup 1) (mkC 3 0) (zz_hermitian 3) (or_intror (le_n 2)) ltac:(lra) Ho Hd Hw (fun is Hi => upup_eigen 3 1 is Hi)) as (psi' & err & _ & _ & E & _).
  exists psi', err. exact E.
Qed.

(** A state whose norm is not one gets a wrong phase: Heff(0,0) is computed with the state as it is, although the first
    vector of the basis is normalized (arnoldi.cc:85-87).  The overlap of the returned state with exp(-i dt H) psi is not
    a positive number, not even a real one. *)
Theorem C69_unnormalised_refuted : exists psi' err, one_step (zz 1) 1 (mkC 0 (- (1 / 100))) (upup 2) 0%Z = Ok (psi', err) /\
  forall g, is_evolved [2; 2]%nat (@opelem CS (zz 1)) (mkC 0 (- (1 / 100))) (amplitude (upup 2)) g ->
    ~ exists a, @inner CS [2; 2]%nat g (amplitude psi') = mkC a 0.
Proof.
  set (ds := [2; 2]%nat). set (idt := mkC 0 (- (1 / 100))).
  destruct (upup_open 2) as (Ho & Hd). fold ds in Hd.
  assert (HH : @hermitian_mpo CC (zz 1) ds) by apply zz_hermitian. assert (HH4 : @hermitian_mpo CC (zz 4) ds) by apply zz_hermitian.
  destruct (apply_H svd Hsvd flag Hflag (zz 1) ds HH (upup 2) Ho Hd) as (Hc & Ec & C1' & C2 & C3).
  assert (Hz : exists is, in_range (pdims (upup 2)) is /\ amplitude (upup 2) is <> @k0 CS).
  { exists [0; 0]%nat. split; [repeat constructor|]. intros Q. apply (f_equal Cre) in Q. revert Q. cbv -[Rplus Rmult Ropp IZR Rminus]. lra. }
  destruct (C14_normal_form_proportional svd flag Hsvd (upup 2) 0 Ho ltac:(cbn; lia) ltac:(auto) Hz) as (v & n & Ev & Hn & En & Ha).
  destruct (C14_normal_form_unit svd flag Hsvd (upup 2) 0 v Ho ltac:(cbn; lia) (or_intror Hz) Ev) as (V1 & V2 & _ & _ & V5).
  rewrite V2, Hd in V5. rewrite Hd in Ha.
  assert (n2 : n = 2).
  { rewrite Hd in En. change ds with [2; 2]%nat in En. rewrite (upup_inner 2) in En. apply (f_equal Cre) in En. cbn in En. nra. }
  subst n.
  assert (Hv : forall is, in_range ds is -> amplitude v is = amplitude (upup 1) is).
  { intros is Hi. pose proof (Ha is Hi) as E. transitivity (Cmul (mkC (1 / 2) 0) (amplitude (upup 2) is)).
    - rewrite <- E. destruct (amplitude v is) as [x y]. apply C_ext; cbn; lra.
    - clear - Hi. apply in_range_cons_inv in Hi as (i1 & r1 & -> & Hi1 & Hi). apply in_range_cons_inv in Hi as (i2 & r2 & -> & Hi2 & Hi). apply in_range_nil_inv in Hi. subst r2.
      destruct i1 as [|[|]], i2 as [|[|]]; try lia; apply C_ext; cbv -[Rplus Rmult Ropp IZR Rminus Rdiv]; lra. }
  set (N := @set CC (fun _ _ => mkC 0 0) 0 0 (mkC 1 0)). set (F := @set CC (fun _ _ => mkC 0 0) 0 0 (mkC 4 0)).
  assert (Exh : @inner CS ds (amplitude (upup 2)) (amplitude Hc) = mkC 4 0).
  { rewrite (@inner_ext CC ds (amplitude (upup 2)) (amplitude Hc) (amplitude (upup 2)) (amplitude (upup 2))); [change ds with [2; 2]%nat; rewrite upup_inner; apply C_ext; cbn; lra|reflexivity|].
    intros is Hi. rewrite (C3 is Hi). unfold ArnoldiFacts.Hv. change ds with [2; 2]%nat. rewrite (upup_eigen 1 2 is Hi). destruct (amplitude (upup 2) is) as [x y]. apply C_ext; cbn; lra. }
  assert (Eb : @arnoldi_basis CC svd flag algorithm tolerance internal_sweeps (zz 1) 1 (upup 2) 0%Z = Ok ([v], N, F, [], upup 2)).
  { unfold arnoldi_basis. rewrite Ec. cbn [bind]. unfold normal_form. cbn [Z.ltb Z.compare]. change 0%Z with (Z.of_nat 0) at 1. rewrite Ev. cbn [bind].
    rewrite (@scprod_ds CC ds) by assumption. cbn [bind Nat.sub arnoldi_loop]. rewrite Exh. reflexivity. }
  assert (HI3 : forall i j, (i < length [v])%nat -> (j < length [v])%nat -> N i j = @inner CS ds (amplitude (nth i [v] [])) (amplitude (nth j [v] [])) /\ F i j = @inner CS ds (amplitude (nth i [v] [])) (@ArnoldiFacts.Hv CC (zz 4) ds (amplitude (nth j [v] [])))).
  { intros i j Hi Hj. cbn in Hi, Hj. assert (i = 0%nat) as -> by lia. assert (j = 0%nat) as -> by lia. cbn [nth]. unfold N, F, set. cbn [Nat.eqb andb]. split; [symmetry; exact V5|].
    rewrite (@inner_ext CC ds (amplitude v) (@ArnoldiFacts.Hv CC (zz 4) ds (amplitude v)) (amplitude v) (fun is => @kmul CS (mkC 4 0) (amplitude v is))); [|reflexivity|].
    - rewrite (@inner_scale_r CC). change (@inner (@rs_scalar CC)) with (@inner CS). rewrite V5. apply C_ext; cbn; lra.
    - intros is Hi'. rewrite (@Hv_ext CC (zz 4) ds (amplitude v) (amplitude (upup 1)) Hv). unfold ArnoldiFacts.Hv. change ds with [2; 2]%nat. rewrite (upup_eigen 4 1 is Hi'). rewrite (Hv is Hi'). reflexivity. }
  assert (Hlen : (0 < length [v])%nat) by (cbn; lia).
  assert (Hi1 : Cconj idt = Copp idt) by (apply C_ext; cbn; lra).
  assert (Hi2 : idt <> mkC 0 0) by (intros Q; injection Q as Q; lra).
  pose proof (combo_norm msolve Hmsolve expm Hexpm eig (zz 4) ds HH4 idt Hi1 Hi2 [v] N F Hlen HI3 eq_refl) as Hcw.
  pose proof (coef_length msolve expm eig idt Hi2 [v] N F) as Hcl.
  assert (Hev : is_evolved ds (@opelem CS (zz 4)) idt (amplitude (upup 1)) (@combo CC (@arnoldi_coef CC msolve expm eig idt (length [v]) N F) [v])).
  { refine (combo_exact msolve Hmsolve expm Hexpm eig (zz 4) ds idt Hi2 [v] N F Hlen HI3 (amplitude (upup 1)) Hv _). intros k Hk. assert (k = 0%nat) as -> by (cbn in Hk; lia).
    exists (fun _ => mkC 4 0). intros is Hi. cbn [length sum nth]. rewrite (@Hv_ext CC (zz 4) ds (amplitude v) (amplitude (upup 1)) Hv). unfold ArnoldiFacts.Hv. change ds with [2; 2]%nat. rewrite (upup_eigen 4 1 is Hi), (Hv is Hi). apply C_ext; cbn; ring. }
  destruct (cexp_exists (Cmul idt (mkC 4 0))) as (e4 & He4). destruct (cexp_exists (Cmul idt (mkC 1 0))) as (e1 & He1).
  pose proof (evolved_eigen (zz 4) ds (mkC 4 0) _ _ _ e4 (fun is Hi => upup_eigen 4 1 is Hi) Hev He4) as Het.
  set (T := @combo CC (@arnoldi_coef CC msolve expm eig idt (length [v]) N F) [v]) in *.
  assert (Hone : Cmul (Cconj e4) e4 = mkC 1 0).
  { assert (W1 : @inner CS ds T T = mkC 1 0) by (change (mkC 1 0) with (@rinj CC 1); rewrite <- Hcw; symmetry; apply (@rinj_weight CC)).
    rewrite <- W1. rewrite (@inner_ext CC ds T T (fun is => @kmul CS e4 (amplitude (upup 1) is)) (fun is => @kmul CS e4 (amplitude (upup 1) is))) by exact Het. rewrite (@inner_scale_r CC). rewrite <- (@inner_conj CC), (@inner_scale_r CC).
    change (@inner (@rs_scalar CC)) with (@inner CS). change ds with [2; 2]%nat. rewrite upup_inner. apply C_ext; cbn; ring. }
  destruct (finish_ok svd Hsvd flag Hflag algorithm tolerance internal_sweeps final_sweeps Hint Hfin msolve expm eig (zz 1) ds 0%Z (or_intror (le_n 2)) idt 1 (upup 2) [v] N F [] (upup 2) Ho Hd Eb ltac:(discriminate)
     ltac:(intros q [<-|[]]; split; [exact V1|congruence]) Ho (Forall_nil _) Hcl Hcw) as ([(psi' & err & Es)|Z] & P).
  2:{ exfalso. fold T in Z. rewrite (@inner_ext CC ds T (amplitude (upup 2)) (fun is => @kmul CS e4 (amplitude (upup 1) is)) (fun is => @kmul CS (mkC 2 0) (amplitude (upup 1) is))) in Z; [|exact Het|].
      - rewrite (@inner_scale_r CC), <- (@inner_conj CC), (@inner_scale_r CC) in Z. change (@inner (@rs_scalar CC)) with (@inner CS) in Z. change ds with [2; 2]%nat in Z. rewrite upup_inner in Z.
        assert (Ze : e4 = mkC 0 0) by (destruct e4 as [x y]; injection Z as Z1 Z2; apply C_ext; cbn in *; lra). rewrite Ze in Hone. injection Hone as Hone. cbn in Hone. lra.
      - intros is Hi. rewrite <- (Hv is Hi). symmetry. apply Ha. exact Hi. }
  exists psi', err. split; [exact Es|]. intros g Hg (b & Hb).
  destruct (P psi' err Es) as (_ & _ & _ & _ & a & Ha0 & Ha1 & _). fold T in Ha1.
  assert (Hge : forall is, in_range ds is -> g is = Cmul (Cmul e1 (mkC 2 0)) (amplitude (upup 1) is)).
  { intros is Hi. rewrite (evolved_eigen (zz 1) ds (mkC 1 0) idt (amplitude (upup 2)) g e1 (fun is Hi => upup_eigen 1 2 is Hi) Hg He1 is Hi). rewrite <- (Ha is Hi), (Hv is Hi). apply C_ext; cbn; ring. }
  set (w := @inner CS ds (amplitude (upup 1)) (amplitude psi')).
  assert (HwT : Cmul (Cconj e4) w = mkC a 0).
  { rewrite <- Ha1. rewrite (@inner_ext CC ds T (amplitude psi') (fun is => @kmul CS e4 (amplitude (upup 1) is)) (amplitude psi')) by (auto; exact Het). symmetry. apply inner_scale_l. }
  assert (Hwg : Cmul (Cconj (Cmul e1 (mkC 2 0))) w = mkC b 0).
  { rewrite <- Hb. rewrite (@inner_ext CC ds g (amplitude psi') (fun is => @kmul CS (Cmul e1 (mkC 2 0)) (amplitude (upup 1) is)) (amplitude psi')) by (auto; exact Hge). symmetry. apply inner_scale_l. }
  assert (Hw4 : w = Cmul (mkC a 0) e4).
  { rewrite <- HwT. transitivity (Cmul (Cmul (Cconj e4) e4) w); [rewrite Hone; destruct w as [x y]; apply C_ext; cbn; ring|apply C_ext; cbn; ring]. }
  rewrite Hw4 in Hwg.
  assert (S4 : C1 (Cmul idt (mkC 4 0)) = 4 / 100).
  { unfold C1, idt. cbn. replace (0 * 4 - - (1 / 100) * 0) with 0 by lra. replace (0 * 0 + - (1 / 100) * 4) with (- (4 / 100)) by lra. rewrite Rabs_R0, Rabs_Ropp, Rabs_right; lra. }
  assert (S1 : C1 (Cmul idt (mkC 1 0)) = 1 / 100).
  { unfold C1, idt. cbn. replace (0 * 1 - - (1 / 100) * 0) with 0 by lra. replace (0 * 0 + - (1 / 100) * 1) with (- (1 / 100)) by lra. rewrite Rabs_R0, Rabs_Ropp, Rabs_right; lra. }
  destruct (cexp_near _ e4 ltac:(rewrite S4; lra) He4) as (A1 & A2). destruct (cexp_near _ e1 ltac:(rewrite S1; lra) He1) as (B1 & B2).
  rewrite S4 in A1, A2. rewrite S1 in B1, B2. unfold idt in A1, A2, B1, B2. cbn in A1, A2, B1, B2.
  apply (f_equal Cim) in Hwg. cbn in Hwg. clear - Hwg A1 A2 B1 B2 Ha0.
  destruct e4 as [x4 y4], e1 as [x1 y1]. cbn in *.
  assert (Habs : forall x b, Rabs x <= b -> - b <= x <= b) by (intros x b Hx; unfold Rabs in Hx; destruct (Rcase_abs x); lra).
  apply Habs in A1, A2, B1, B2. clear Habs.
  assert (L1 : 99 / 100 <= x4 <= 101 / 100) by lra. assert (L2 : y4 <= - (38 / 1000)) by lra. assert (L3 : 99 / 100 <= x1 <= 101 / 100) by lra. assert (L4 : - (11 / 1000) <= y1 <= 0) by lra.
  assert (Q : a * (x1 * y4 - y1 * x4) = 0) by nra. assert (x1 * y4 - y1 * x4 < 0) by nra. nra.
Qed.
End Eigen.
