(** * ArnoldiSolver: the vectors of the basis, the order of the approximation, the value of the error (C69) *)
From Coq Require Import Reals Lra Bool List Arith ZArith Lia Ring.
From Verif Require Import Scalar ScalarFacts RScal RealInst Tensor TensorFacts Spec MpsModel MpsFacts MpoSpec CanonSpec CanonModel CanonSweep SweepModel FormModel FormSpec LFormFacts SimplifySpec SimplifyModel SimplifyFacts
  Properties_Canon Properties_Simplify SvdExist TrotterExp OpExp ArnoldiSpec ArnoldiModel ArnoldiFacts ArnoldiStep ArnoldiKrylov Properties_Arnoldi.
Import ListNotations.
Local Open Scope R_scope.

Lemma size_twice algorithm (ds : list nat) Dmax : one_site algorithm Dmax = true \/ (2 <= length ds)%nat -> one_site algorithm (2 * Dmax) = true \/ (2 <= length ds)%nat.
Proof. intros [E|E]; [left|right; exact E]. unfold one_site in *. apply andb_prop in E. destruct E as (-> & E). apply Z.eqb_eq in E. subst Dmax. reflexivity. Qed.

Section Basis.
Context {RS : RScal}.
Add Ring Kring : k_ring.
Variable svd : tensor -> tensor * list R * tensor.
Hypothesis Hsvd : svd_contract svd.
Variable flag : R.
Hypothesis Hflag : 1 <= flag.
Variable algorithm : bool.
Variable tolerance : R.
Variable internal_sweeps : nat.
Hypothesis Hint : internal_sweeps <> 0%nat.
Variables (H : mpo) (ds : list nat).
Hypothesis HH : hermitian_mpo H ds.
Variable Dmax : Z.
Hypothesis Hsize : one_site algorithm Dmax = true \/ (2 <= length ds)%nat.
Variables (psi : mps) (max_states : nat).
Hypothesis Hopen : open_mps psi.
Hypothesis Hdims : pdims psi = ds.
Hypothesis Hnorm : weight ds (amp psi) = 1.
Variables (states : list mps) (N Heff : table) (errors : list R) (current : mps).
Hypothesis Hbasis : arnoldi_basis svd flag algorithm tolerance internal_sweeps H max_states psi Dmax = Ok (states, N, Heff, errors, current).
Notation v := (fun k => amp (nth k states [])).

Lemma basis_inv : exists Hc, inv H ds Dmax states N Heff errors Hc.
Proof.
  destruct (basis_ok svd Hsvd flag Hflag algorithm tolerance internal_sweeps Hint H ds HH Dmax (size_twice _ _ _ Hsize) psi max_states Hopen Hdims (weight_one ds _ Hnorm)) as (s & N' & F & e & c & Hc & E & HI & _).
  rewrite Hbasis in E. apply Ok_inj' in E. injection E as <- <- <- <- <-. exists Hc. exact HI.
Qed.

(** Each vector but the first has norm one and is, up to a positive factor and an error which is recorded, the vector
    H v_(k-1) - <v_(k-1)|H|v_(k-1)> v_(k-1) - <v_(k-1)|H|v_(k-2)> v_(k-2).  The recorded error is the relative distance
    between the two, divided by n, the square of the norm of the vector before it is normalized. *)
Theorem C69_recurrence : (length errors + 1)%nat = length states /\
  forall k, (0 < k < length states)%nat -> exists n, 0 < n /\ 0 <= nth (k - 1) errors 0 /\
    dist2 ds (lanczos_target ds H v k) (fun is => rinj (sqrt n) * v k is)%K = (nth (k - 1) errors 0 * n) ^ 2 * weight ds (lanczos_target ds H v k).
Proof.
  destruct basis_inv as (Hc & (I1 & I2 & I3 & I4 & I5 & I6 & I7 & I8 & I9 & I10)). split; [exact I9|]. intros k Hk. destruct (I10 k Hk) as (n & Hn & E). exists n. split; [exact Hn|].
  split; [rewrite Forall_forall in I7; apply I7; apply nth_In; lia|]. rewrite <- E. ring.
Qed.

(** If the recorded errors are zero, the vectors are orthonormal, and H v_k is a combination of the vectors up to v_(k+1), except perhaps for the last one. *)
Hypothesis Hexact : forall e, In e errors -> e = 0.
Lemma exact_rec : exists b : nat -> R, (forall k, (0 < k < length states)%nat -> 0 < b k) /\
  forall k, (0 < k < length states)%nat -> forall is, in_range ds is -> lanczos_target ds H v k is = (rinj (b k) * v k is)%K.
Proof.
  destruct C69_recurrence as (HL & HR).
  assert (P : forall k, exists b, (0 < k < length states)%nat -> 0 < b /\ forall is, in_range ds is -> lanczos_target ds H v k is = (rinj b * v k is)%K).
  { intros k. destruct (le_lt_dec k 0) as [|K0]; [exists 0; lia|]. destruct (le_lt_dec (length states) k) as [|K1]; [exists 0; lia|].
    destruct (HR k ltac:(lia)) as (n & Hn & _ & E). exists (sqrt n). intros _. split; [apply sqrt_lt_R0; exact Hn|]. rewrite (Hexact (nth (k - 1) errors 0)) in E by (apply nth_In; lia).
    replace ((0 * n) ^ 2 * weight ds (lanczos_target ds H v k)) with 0 in E by ring. intros is Hi. pose proof (weight_zero ds _ E is Hi) as Z. cbv beta in Z.
    transitivity (lanczos_target ds H v k is - rinj (sqrt n) * v k is + rinj (sqrt n) * v k is)%K; [ring|]. rewrite Z. ring. }
  destruct (ClassicalChoice.choice _ P) as (b & Hb). exists b. split; intros k Hk; apply (Hb k Hk).
Qed.

Theorem C69_orthonormal : (forall i j, (i < length states)%nat -> (j < length states)%nat -> inner ds (v i) (v j) = delta i j /\ N i j = delta i j) /\
  forall k, (k + 1 < length states)%nat -> in_span ds (k + 2) v (op_apply ds (opelem H) (v k)).
Proof.
  destruct basis_inv as (Hc & (I1 & I2 & I3 & _)). destruct exact_rec as (b & Hb & HR).
  assert (Hn : forall k, (k < length states)%nat -> inner ds (v k) (v k) = 1%K) by (intros k Hk; apply (I2 (nth k states [])); apply nth_In; exact Hk).
  split.
  - intros i j Hi Hj. rewrite (proj1 (I3 i j Hi Hj)). pose proof (lanczos_ortho H ds HH v (length states) b Hn Hb HR (length states) (le_n _) i j Hi Hj) as E. split; exact E.
  - intros k Hk. exists (fun j => inner ds (v j) (op_apply ds (opelem H) (v k))). intros is Hi.
    refine (eq_trans (Hv_expand H ds HH v (length states) b Hn Hb HR k is ltac:(lia) Hi) _). replace (length states) with (k + 2 + (length states - (k + 2)))%nat at 1 by lia. rewrite sum_plus.
    rewrite (sum_zero (length states - (k + 2))); [unfold Hv; ring|]. intros j Hj. rewrite (Hv_zero H ds HH v (length states) b Hn Hb HR (k + 2 + j) k ltac:(lia) ltac:(lia)). ring.
Qed.
End Basis.

(** ** A step *)
Section Step.
Variable svd : tens -> tens * list R * tens.
Hypothesis Hsvd : @svd_contract CC svd.
Variable flag : R.
Hypothesis Hflag : 1 <= flag.
Variable algorithm : bool.
Variable tolerance : R.
Variables internal_sweeps final_sweeps : nat.
Hypothesis Hint : internal_sweeps <> 0%nat.
Hypothesis Hfin : final_sweeps <> 0%nat.
Variable msolve : tens -> tens -> tens.
Hypothesis Hmsolve : @msolve_contract CC msolve.
Variable expm : tens -> tens.
Hypothesis Hexpm : expm_contract expm.
Variable eig : tens -> list Cx * tens.
Variables (H : @mpo CS) (ds : list nat).
Hypothesis HH : @hermitian_mpo CC H ds.
Variable Dmax : Z.
Hypothesis Hsize : one_site algorithm Dmax = true \/ (2 <= length ds)%nat.
Variables (psi : state) (max_states : nat).
Hypothesis Hopen : open_mps psi.
Hypothesis Hdims : pdims psi = ds.
Hypothesis Hnorm : @weight CC ds (@amp CS psi) = 1.
Variables (states : list state) (N Heff : @table CC) (errors : list R) (current : state).
Hypothesis Hbasis : @arnoldi_basis CC svd flag algorithm tolerance internal_sweeps H max_states psi Dmax = Ok (states, N, Heff, errors, current).
Notation amplitude := (@amp CS).
Notation one_step dt := (@arnoldi_step CC svd flag algorithm tolerance internal_sweeps final_sweeps msolve expm eig H max_states (mkC 0 (- dt)) psi Dmax).

(** The combination of the states with the coefficients c *)
Definition combination (c : nat -> Cx) (is : list nat) : Cx := csum (length states) (fun k => Cmul (c k) (amplitude (nth k states []) is)).
(** c is the first column of exp(-i dt X), where X is a solution of N X = Heff. *)
Definition coefficients (dt : R) (c : nat -> Cx) : Prop := exists X E : nat -> nat -> Cx,
  (forall i j, (i < length states)%nat -> (j < length states)%nat -> csum (length states) (fun k => Cmul (N i k) (X k j)) = Heff i j) /\
  is_exp (length states) (fun i j => Cmul (mkC 0 (- dt)) (X i j)) E /\ forall k, (k < length states)%nat -> c k = E k 0%nat.

Lemma basis_facts : exists Hc, @inv CC H ds Dmax states N Heff errors Hc /\ (0 < length states)%nat /\ (forall is, in_range ds is -> amplitude (nth 0 states []) is = amplitude psi is) /\ open_mps current.
Proof.
  destruct (basis_ok svd Hsvd flag Hflag algorithm tolerance internal_sweeps Hint H ds HH Dmax (size_twice _ _ _ Hsize) psi max_states Hopen Hdims (@weight_one CC ds _ Hnorm)) as (s & N' & F & e & c & Hc & E & HI & _ & H0 & Hcc & _).
  rewrite Hbasis in E. apply Ok_inj' in E. injection E as <- <- <- <- <-. exists Hc. split; [exact HI|]. split; [destruct HI as (I1 & _); destruct states; [congruence|cbn; lia]|]. auto.
Qed.
Lemma dt_conj dt : Cconj (mkC 0 (- dt)) = Copp (mkC 0 (- dt)).
Proof. apply C_ext; cbn; lra. Qed.
Lemma dt_nz dt : dt <> 0 -> mkC 0 (- dt) <> mkC 0 0.
Proof. intros Hdt E. injection E as E. apply Hdt. lra. Qed.
Notation cf dt := (@arnoldi_coef CC msolve expm eig (mkC 0 (- dt)) (length states) N Heff).
Notation Hop := (@Hv CC H ds).

Lemma coef_is dt : dt <> 0 -> coefficients dt (fun k => nth k (cf dt) (mkC 0 0)).
Proof.
  intros Hdt. destruct basis_facts as (Hc & (I1 & I2 & I3 & _) & Hn & H0 & _). destruct (solve_ok msolve Hmsolve H ds states N Heff I3) as (_ & HX).
  eexists _, _. split; [exact HX|]. split; [exact (exp_ok msolve Hmsolve expm Hexpm H ds (mkC 0 (- dt)) states N Heff I3)|].
  intros k Hk. exact (coef_nth msolve expm eig (mkC 0 (- dt)) (dt_nz dt Hdt) states N Heff k Hk).
Qed.

Lemma kmod2_value (z : Cx) : @kmod2 CC z = Cre z ^ 2 + Cim z ^ 2.
Proof. apply (@rinj_inj CC). rewrite (@kmod2_spec CC). destruct z as [x y]. apply C_ext; cbn; ring. Qed.
Lemma rsm_zero_errors (es : list R) n (f : nat -> R) : (forall e, In e es -> e = 0) -> rsm n (fun k => nth k es 0 * f k) = 0.
Proof.
  intros Hz. apply (@sum_zero RSC). intros k Hk. destruct (le_lt_dec (length es) k) as [Hl|Hl]; [rewrite nth_overflow by exact Hl|rewrite (Hz (nth k es 0)) by (apply nth_In; exact Hl)]; cbn; ring.
Qed.
Lemma weighted_sum (es : list R) : forall (c : list Cx), (length es < length c)%nat -> @weighted CC es c = rsm (length es) (fun k => nth k es 0 * @kmod2 CC (nth k c (mkC 0 0))).
Proof.
  induction es as [|e es IH]; intros c Hc; [reflexivity|]. destruct c as [|x c]; [cbn in Hc; lia|]. cbn [weighted length]. rewrite (IH c) by (cbn in Hc; lia). symmetry.
  exact (@sum_S_l RSC (length es) (fun k => nth k (e :: es) 0 * @kmod2 CC (nth k (x :: c) (mkC 0 0)))).
Qed.

Lemma error_cf dt psi' err : dt <> 0 -> one_step dt = Ok (psi', err) ->
  let c := fun k => nth k (cf dt) (mkC 0 0) in exists a e0, 0 < a /\ @inner CS ds (combination c) (amplitude psi') = mkC a 0 /\ @weight CC ds (combination c) = 1 /\ @weight CC ds (amplitude psi') = 1 /\
    0 <= e0 /\ e0 ^ 2 = 1 - a ^ 2 /\ err = e0 + rsm (length states - 1) (fun k => nth k errors 0 * (Cre (c k) ^ 2 + Cim (c k) ^ 2)).
Proof.
  intros Hdt E. destruct basis_facts as (Hc & (I1 & I2 & I3 & _ & _ & _ & I7 & I8 & I9 & _) & Hn & H0 & Hcur).
  assert (HN0 : N 0%nat 0%nat = mkC 1 0) by (rewrite (proj1 (I3 0%nat 0%nat Hn Hn)); apply (I2 (nth 0 states [])); apply nth_In; exact Hn).
  pose proof (combo_norm msolve Hmsolve expm Hexpm eig H ds HH (mkC 0 (- dt)) (dt_conj dt) (dt_nz dt Hdt) states N Heff Hn I3 HN0) as Hw.
  pose proof (coef_length msolve expm eig (mkC 0 (- dt)) (dt_nz dt Hdt) states N Heff) as Hl.
  destruct (finish_value svd Hsvd flag Hflag algorithm tolerance internal_sweeps final_sweeps Hint Hfin msolve expm eig H ds Dmax Hsize (mkC 0 (- dt)) max_states psi states N Heff errors current Hopen Hdims Hbasis I1
    ltac:(intros q Hq; destruct (I2 q Hq) as (A & B & _); auto) Hcur I7 Hl Hw) as (_ & F). destruct (F psi' err E) as (_ & _ & F0 & _ & a & e0 & F1 & F2 & F3 & F4 & F5).
  intros c. exists a, e0. split; [exact F1|]. split; [exact F2|]. split; [exact Hw|]. split; [exact F0|]. split; [exact F3|]. split; [cbn [pow]; lra|].
  assert (Hlt : (length errors < length (cf dt))%nat) by (rewrite Hl; lia).
  rewrite F5. rewrite (weighted_sum errors (cf dt) Hlt). replace (length states - 1)%nat with (length errors) by lia. f_equal. apply (@sum_ext RSC). intros k Hk. f_equal. exact (kmod2_value (c k)).
Qed.

(** The value of the returned error: the distance between the combination of the states and the multiple of the new state closest to it, plus
    the recorded errors, the error of the vector v_(k+1) weighted with the square of the coefficient of v_k. *)
Theorem C69_error_value dt psi' err : dt <> 0 -> one_step dt = Ok (psi', err) ->
  exists c a e0, coefficients dt c /\ 0 < a /\ @inner CS ds (combination c) (amplitude psi') = mkC a 0 /\ @weight CC ds (combination c) = 1 /\
    0 <= e0 /\ e0 ^ 2 = 1 - a ^ 2 /\ err = e0 + rsm (length states - 1) (fun k => nth k errors 0 * (Cre (c k) ^ 2 + Cim (c k) ^ 2)).
Proof.
  intros Hdt E. destruct (error_cf dt psi' err Hdt E) as (a & e0 & F1 & F2 & F3 & _ & F4 & F5 & F6).
  exists (fun k => nth k (cf dt) (mkC 0 0)), a, e0. split; [exact (coef_is dt Hdt)|auto 8].
Qed.

(** If the recorded errors are zero: the combination of m states differs from the exact evolution by O(dt^m), and the new state differs from a
    multiple of the combination by no more than the returned error. *)
Theorem C69_order : (forall e, In e errors -> e = 0) ->
  exists C, 0 <= C /\ forall dt psi' err g, dt <> 0 -> Rabs dt <= 1 -> one_step dt = Ok (psi', err) -> is_evolved ds (@opelem CS H) (mkC 0 (- dt)) (amplitude psi) g ->
    exists c a, coefficients dt c /\ (forall is, in_range ds is -> C1 (Csub (combination c is) (g is)) <= C * Rabs dt ^ length states) /\
      0 < a /\ @inner CS ds (combination c) (amplitude psi') = mkC a 0 /\ @dist2 CC ds (combination c) (fun is => Cmul (mkC a 0) (amplitude psi' is)) = err ^ 2.
Proof.
  intros Hex. destruct basis_facts as (Hc & (I1 & I2 & I3 & _ & _ & _ & I7 & I8 & I9 & _) & Hn & H0 & Hcur).
  destruct (@exact_rec CC svd Hsvd flag Hflag algorithm tolerance internal_sweeps Hint H ds HH Dmax Hsize psi max_states Hopen Hdims Hnorm states N Heff errors current Hbasis Hex) as (b & Hb & HR).
  assert (Hnm : forall k, (k < length states)%nat -> @inner CS ds (amplitude (nth k states [])) (amplitude (nth k states [])) = mkC 1 0) by (intros k Hk; apply (I2 (nth k states [])); apply nth_In; exact Hk).
  assert (P : forall is, exists C, in_range ds is -> 0 <= C /\ forall idt psi g, idt <> mkC 0 0 -> C1 idt <= 1 -> (forall is, in_range ds is -> amplitude (nth 0 states []) is = psi is) ->
    is_evolved ds (@opelem CS H) idt psi g -> C1 (Csub (@combo CC (@arnoldi_coef CC msolve expm eig idt (length states) N Heff) states is) (g is)) <= C * C1 idt ^ length states).
  { intros is. destruct (Classical_Prop.classic (in_range ds is)) as [Hi|Hi]; [|exists 0; contradiction].
    destruct (krylov_order msolve Hmsolve expm Hexpm eig H ds HH states N Heff b Hn I3 Hnm Hb HR is Hi) as (C & HC & HK). exists C. intros _. split; [exact HC|exact HK]. }
  destruct (ClassicalChoice.choice _ P) as (C & HC). exists (rcfg ds (fun is => C is)). split; [apply rcfg_nonneg; intros is Hi; apply (HC is Hi)|].
  intros dt psi' err g Hdt Hd1 E Hg. destruct (error_cf dt psi' err Hdt E) as (a & e0 & V1 & V2 & V3 & V0 & V4 & V5 & V6).
  assert (Ha : C1 (mkC 0 (- dt)) = Rabs dt) by (unfold C1; cbn; rewrite Rabs_R0, Rabs_Ropp; ring).
  exists (fun k => nth k (cf dt) (mkC 0 0)), a. split; [exact (coef_is dt Hdt)|]. split.
  - intros is Hi. destruct (HC is Hi) as (HC0 & HC1). specialize (HC1 (mkC 0 (- dt)) (amplitude psi) g (dt_nz dt Hdt) ltac:(rewrite Ha; exact Hd1) H0 Hg). rewrite Ha in HC1.
    eapply Rle_trans; [exact HC1|]. apply Rmult_le_compat_r; [apply pow_le; apply Rabs_pos|]. apply (rcfg_entry ds C is); [intros js Hj; apply (HC js Hj)|exact Hi].
  - split; [exact V1|]. split; [exact V2|].
    rewrite (rsm_zero_errors errors) in V6 by exact Hex. rewrite Rplus_0_r in V6. rewrite V6, V5.
    set (t := combination (fun k => nth k (cf dt) (mkC 0 0))) in *.
    assert (Tt : @inner CS ds t t = mkC 1 0) by (exact (@weight_one CC ds t V3)). assert (Tp : @inner CS ds (amplitude psi') (amplitude psi') = mkC 1 0) by (exact (@weight_one CC ds (amplitude psi') V0)).
    apply (@rinj_inj CC). refine (eq_trans (@dist2_expand CC ds t (fun is => Cmul (mkC a 0) (amplitude psi' is))) _). change (@inner (@rs_scalar CC)) with (@inner CS).
    assert (T1 : @inner CS ds t (fun is => Cmul (mkC a 0) (amplitude psi' is)) = mkC (a * a) 0) by (refine (eq_trans (@inner_scale_r CC ds t (mkC a 0) (amplitude psi')) _); change (@inner (@rs_scalar CC)) with (@inner CS); rewrite V2; apply C_ext; cbn; ring).
    assert (T2 : @inner CS ds (fun is => Cmul (mkC a 0) (amplitude psi' is)) (fun is => Cmul (mkC a 0) (amplitude psi' is)) = mkC (a * a) 0).
    { rewrite inner_scale_l. refine (eq_trans (f_equal (Cmul (Cconj (mkC a 0))) (@inner_scale_r CC ds (amplitude psi') (mkC a 0) (amplitude psi'))) _). change (@inner (@rs_scalar CC)) with (@inner CS). rewrite Tp. apply C_ext; cbn; ring. }
    rewrite T1, T2, Tt. apply C_ext; cbn; ring.
Qed.

(** If moreover the vector that would come next is zero, the combination is the exact evolution. *)
Theorem C69_exact dt psi' err : (forall e, In e errors -> e = 0) ->
  (forall is, in_range ds is -> @lanczos_target CC ds H (fun k => amplitude (nth k states [])) (length states) is = mkC 0 0) ->
  dt <> 0 -> one_step dt = Ok (psi', err) ->
  exists g a, is_evolved ds (@opelem CS H) (mkC 0 (- dt)) (amplitude psi) g /\ 0 < a /\ @inner CS ds g (amplitude psi') = mkC a 0 /\ err ^ 2 = 1 - a ^ 2.
Proof.
  intros Hex Hlast Hdt E. destruct basis_facts as (Hc & (I1 & I2 & I3 & _ & _ & _ & I7 & I8 & I9 & _) & Hn & H0 & Hcur).
  destruct (error_cf dt psi' err Hdt E) as (a & e0 & V1 & V2 & V3 & V0 & V4 & V5 & V6). exists (combination (fun k => nth k (cf dt) (mkC 0 0))), a.
  destruct (@C69_orthonormal CC svd Hsvd flag Hflag algorithm tolerance internal_sweeps Hint H ds HH Dmax Hsize psi max_states Hopen Hdims Hnorm states N Heff errors current Hbasis Hex) as (_ & Hsp).
  split; [|split; [exact V1|split; [exact V2|]]].
  - refine (combo_exact msolve Hmsolve expm Hexpm eig H ds (mkC 0 (- dt)) (dt_nz dt Hdt) states N Heff Hn I3 (amplitude psi) H0 _). intros k Hk. destruct (Nat.eq_dec (k + 1) (length states)) as [Ek|Ek].
    + set (al := @inner CS ds (amplitude (nth k states [])) (Hop (amplitude (nth k states [])))).
      set (be := if Nat.ltb 1 (length states) then @inner CS ds (amplitude (nth k states [])) (Hop (amplitude (nth (k - 1) states []))) else mkC 0 0).
      exists (fun j => Cadd (Cmul (@delta CS j k) al) (Cmul (@delta CS j (k - 1)%nat) be)). intros is Hi. specialize (Hlast is Hi). unfold lanczos_target in Hlast. cbv zeta in Hlast.
      replace (length states - 1)%nat with k in Hlast by lia. replace (length states - 2)%nat with (k - 1)%nat in Hlast by lia.
      transitivity (Cadd (Cmul al (amplitude (nth k states []) is)) (Cmul be (amplitude (nth (k - 1) states []) is))).
      * unfold Hv, al, be. revert Hlast. change (@rs_scalar CC) with CS. destruct (Nat.ltb 1 (length states)).
        -- generalize (@op_apply CS ds (@opelem CS H) (amplitude (nth k states [])) is). unfold Hv. change (@rs_scalar CC) with CS.
           generalize (@inner CS ds (amplitude (nth k states [])) (@op_apply CS ds (@opelem CS H) (amplitude (nth k states [])))), (@inner CS ds (amplitude (nth k states [])) (@op_apply CS ds (@opelem CS H) (amplitude (nth (k - 1) states [])))).
           generalize (amplitude (nth k states []) is), (amplitude (nth (k - 1) states []) is). intros [p1 p2] [q1 q2] [r1 r2] [s1 s2] [t1 t2] Q. injection Q as Q1 Q2. cbn in Q1, Q2. apply C_ext; cbn; lra.
        -- generalize (@op_apply CS ds (@opelem CS H) (amplitude (nth k states [])) is). unfold Hv. change (@rs_scalar CC) with CS.
           generalize (@inner CS ds (amplitude (nth k states [])) (@op_apply CS ds (@opelem CS H) (amplitude (nth k states [])))).
           generalize (amplitude (nth k states []) is), (amplitude (nth (k - 1) states []) is). intros [p1 p2] [q1 q2] [r1 r2] [s1 s2] Q. injection Q as Q1 Q2. cbn in Q1, Q2. apply C_ext; cbn; lra.
      * symmetry. transitivity (Cadd (csum (length states) (fun j => Cmul (@delta CS j k) (Cmul al (amplitude (nth j states []) is)))) (csum (length states) (fun j => Cmul (@delta CS j (k - 1)%nat) (Cmul be (amplitude (nth j states []) is))))).
        -- symmetry. refine (eq_trans (eq_sym (@sum_add CS (length states) _ _)) _). apply (@sum_ext CS). intros j Hj. cbv beta. change (@kadd CS) with Cadd. apply C_ext; cbn; ring.
        -- f_equal; [exact (@sum_delta_l CS (length states) k (fun j => Cmul al (amplitude (nth j states []) is)) Hk)|exact (@sum_delta_l CS (length states) (k - 1) (fun j => Cmul be (amplitude (nth j states []) is)) ltac:(lia))].
    + destruct (Hsp k ltac:(lia)) as (x & Hx). exists (fun j => if Nat.ltb j (k + 2) then x j else mkC 0 0). intros is Hi. refine (eq_trans (Hx is Hi) _). symmetry. replace (length states) with (k + 2 + (length states - (k + 2)))%nat by lia.
      refine (eq_trans (@sum_plus CS (k + 2) (length states - (k + 2)) _) _). rewrite (@sum_zero CS (length states - (k + 2))).
      * rewrite (@sum_ext CS (k + 2) _ (fun j => @kmul CS (x j) (amplitude (nth j states []) is))); [apply C_ext; cbn; ring|]. intros j Hj. destruct (Nat.ltb_spec j (k + 2)); [reflexivity|lia].
      * intros j Hj. destruct (Nat.ltb_spec (k + 2 + j) (k + 2)); [lia|]. apply C_ext; cbn; ring.
  - rewrite (rsm_zero_errors errors) in V6 by exact Hex. rewrite V6, Rplus_0_r. exact V5.
Qed.
End Step.

(** ** A case: the operator X x X and the state |00> *)
Definition xop : tens := @mk CS [1; 2; 2; 1]%nat (fun x => if Nat.eqb (nth 1 x 0%nat) (nth 2 x 0%nat) then mkC 0 0 else mkC 1 0).
Definition xx : @mpo CS := [xop; xop].
Lemma xx_hermitian : @hermitian_mpo CC xx [2; 2]%nat.
Proof.
  split; [split; [discriminate|]|split; [reflexivity|split; [reflexivity|]]].
  - exists 2%nat, 2%nat, 1%nat. split; [reflexivity|]. split; [apply (@wf_mk CS)|]. repeat (split; [lia|]). exists 2%nat, 2%nat, 1%nat. split; [reflexivity|]. split; [apply (@wf_mk CS)|]. repeat (split; [lia|]). reflexivity.
  - intros is js Hi Hj. apply in_range_cons_inv in Hi as (i1 & r1 & -> & Hi1 & Hi). apply in_range_cons_inv in Hi as (i2 & r2 & -> & Hi2 & Hi). apply in_range_nil_inv in Hi. subst r2.
    apply in_range_cons_inv in Hj as (j1 & r1 & -> & Hj1 & Hj). apply in_range_cons_inv in Hj as (j2 & r2 & -> & Hj2 & Hj). apply in_range_nil_inv in Hj. subst r2.
    destruct i1 as [|[|]], i2 as [|[|]], j1 as [|[|]], j2 as [|[|]]; try lia; apply C_ext; cbv -[Rplus Rmult Ropp IZR Rminus]; lra.
Qed.
Lemma up_open : open_mps (upup 1) /\ pdims (upup 1) = [2; 2]%nat.
Proof.
  split; [split; [discriminate|]|reflexivity]. exists 2%nat, 1%nat. split; [reflexivity|]. split; [apply (@wf_mk CS)|]. repeat (split; [lia|]). exists 2%nat, 1%nat. split; [reflexivity|]. split; [apply (@wf_mk CS)|]. repeat (split; [lia|]). reflexivity.
Qed.
Lemma up_inner : @inner CS [2; 2]%nat (@amp CS (upup 1)) (@amp CS (upup 1)) = mkC 1 0.
Proof. apply C_ext; cbv -[Rplus Rmult Ropp IZR Rminus]; lra. Qed.
(** |11> *)
Definition downdown (is : list nat) : Cx := match is with [1%nat; 1%nat] => mkC 1 0 | _ => mkC 0 0 end.
Lemma xx_up is : in_range [2; 2]%nat is -> @op_apply CS [2; 2]%nat (@opelem CS xx) (@amp CS (upup 1)) is = downdown is.
Proof.
  intros Hi. apply in_range_cons_inv in Hi as (i1 & r1 & -> & Hi1 & Hi). apply in_range_cons_inv in Hi as (i2 & r2 & -> & Hi2 & Hi). apply in_range_nil_inv in Hi. subst r2.
  destruct i1 as [|[|]], i2 as [|[|]]; try lia; apply C_ext; cbv -[Rplus Rmult Ropp IZR Rminus]; lra.
Qed.
Lemma xx_down is : in_range [2; 2]%nat is -> @op_apply CS [2; 2]%nat (@opelem CS xx) downdown is = @amp CS (upup 1) is.
Proof.
  intros Hi. apply in_range_cons_inv in Hi as (i1 & r1 & -> & Hi1 & Hi). apply in_range_cons_inv in Hi as (i2 & r2 & -> & Hi2 & Hi). apply in_range_nil_inv in Hi. subst r2.
  destruct i1 as [|[|]], i2 as [|[|]]; try lia; apply C_ext; cbv -[Rplus Rmult Ropp IZR Rminus]; lra.
Qed.
Lemma down_inner : @inner CS [2; 2]%nat downdown downdown = mkC 1 0.
Proof. apply C_ext; cbv -[Rplus Rmult Ropp IZR Rminus]; lra. Qed.
Lemma up_down : @inner CS [2; 2]%nat (@amp CS (upup 1)) downdown = mkC 0 0.
Proof. apply C_ext; cbv -[Rplus Rmult Ropp IZR Rminus]; lra. Qed.
Lemma down_up : @inner CS [2; 2]%nat downdown (@amp CS (upup 1)) = mkC 0 0.
Proof. apply C_ext; cbv -[Rplus Rmult Ropp IZR Rminus]; lra. Qed.

(** With two vectors and without truncation: the basis is |00>, |11>, the recorded error is zero and the next vector is zero, so
    that the hypotheses of C69_recurrence, C69_orthonormal, C69_order and C69_exact are met. *)
Theorem C69_basis_case svd flag algorithm tolerance internal_sweeps : @svd_contract CC svd -> 1 <= flag -> internal_sweeps <> 0%nat ->
  exists states N Heff errors current, @arnoldi_basis CC svd flag algorithm tolerance internal_sweeps xx 2 (upup 1) 0%Z = Ok (states, N, Heff, errors, current) /\
    length states = 2%nat /\ (forall e, In e errors -> e = 0) /\
    (forall is, in_range [2; 2]%nat is -> @amp CS (nth 1 states []) is = downdown is) /\
    (forall is, in_range [2; 2]%nat is -> @lanczos_target CC [2; 2]%nat xx (fun k => @amp CS (nth k states [])) (length states) is = mkC 0 0).
Proof.
  intros Hsvd Hflag Hint. set (ds := [2; 2]%nat). pose proof xx_hermitian as HH. fold ds in HH. destruct up_open as (Ho & Hd). fold ds in Hd.
  assert (Hw1 : @inner CS ds (@amp CS (upup 1)) (@amp CS (upup 1)) = mkC 1 0) by exact up_inner.
  assert (Hsz : one_site algorithm 0 = true \/ (2 <= length ds)%nat) by (right; apply le_n).
  pose proof HH as (HO & Ho1 & Ho2 & Hh).
  destruct (C32_apply_canonical_partial svd flag Hsvd xx (upup 1) (-1) true HO Ho ltac:(congruence)) as (chi & Ec & C1 & C2 & C3 & C4); [left; split; [reflexivity|lra]|].
  assert (Hcd : pdims chi = ds) by congruence.
  assert (Hca : forall is, in_range ds is -> @amp CS chi is = downdown is).
  { intros is Hi. rewrite (C4 ltac:(auto) is ltac:(rewrite Ho1; exact Hi)). exact (xx_up is Hi). }
  destruct (@basis_start' CC svd Hsvd flag Hflag algorithm tolerance internal_sweeps Hint xx ds HH 0%Z (size_twice _ _ _ Hsz) (upup 1) 2 Ho Hd Hw1) as (v & N0 & F0 & Hc & Eb & HI & Hav & Ec').
  assert (Hc = chi) as -> by (rewrite Ec in Ec'; apply Ok_inj' in Ec'; auto).
  assert (HF : F0 0%nat 0%nat = mkC 0 0).
  { destruct HI as (_ & _ & I3 & _). rewrite (proj2 (I3 0%nat 0%nat ltac:(cbn; lia) ltac:(cbn; lia))). cbn [nth]. refine (eq_trans _ up_down). apply (@inner_ext CC ds); [exact Hav|]. intros is Hi.
    rewrite (@Hv_ext CC xx ds (@amp CS v) (@amp CS (upup 1)) Hav). exact (xx_up is Hi). }
  assert (Hcombo : forall is, in_range ds is -> @amp CS chi is = @combo CC (@new_coeffs CC F0 1) (@new_vectors CC chi [v] 1) is).
  { intros is Hi. unfold combo, new_coeffs, new_vectors. cbn [Nat.ltb Nat.leb length sum nth Nat.sub]. rewrite HF. change (@rs_scalar CC) with CS. destruct (@amp CS chi is) as [x y]. destruct (@amp CS v is) as [x' y']. apply C_ext; cbn; ring. }
  assert (Hwt : @weight CC ds (@combo CC (@new_coeffs CC F0 1) (@new_vectors CC chi [v] 1)) = 1).
  { apply (@one_weight CC). refine (eq_trans _ down_inner). apply (@inner_ext CC ds); intros is Hi; rewrite <- (Hcombo is Hi); apply Hca; exact Hi. }
  destruct HI as (I1 & I2 & I3 & I4 & I5 & I6 & I7 & I8 & I9 & I10) eqn:EI. clear EI.
  assert (Hg : good_bras (@new_coeffs CC F0 1) (@new_vectors CC chi [v] 1) ds).
  { split; [unfold new_vectors; discriminate|]. split; [reflexivity|]. destruct (I2 v (or_introl eq_refl)) as (A & B & _). intros q [<-|[<-|[]]]; auto. }
  assert (HLc : length chi = 2%nat) by (rewrite <- (length_pdims chi), Hcd; reflexivity).
  assert (Hcan : @canonical_at CC 0 chi).
  { split; [intros j Hj; lia|]. intros j Hj. exact (C3 j ltac:(rewrite HLc in Hj; cbn; lia) ltac:(lia)). }
  destruct (@new_vector_exact CC svd Hsvd flag Hflag algorithm tolerance internal_sweeps Hint ds 0%Z (size_twice _ _ _ Hsz) _ _ chi Hg C1 Hcd ltac:(lia) Hcan Hcombo Hwt) as (c & En).
  destruct (@basis_ok CC svd Hsvd flag Hflag algorithm tolerance internal_sweeps Hint xx ds HH 0%Z (size_twice _ _ _ Hsz) (upup 1) 2 Ho Hd Hw1) as (states & N & F & errors & current & Hcur & E & (J1 & J2 & J3 & J4 & J5 & J6 & J7 & J8 & J9 & J10) & HL & H0 & _).
  exists states, N, F, errors, current. split; [exact E|].
  assert (Hs : exists cc, states = [v; cc] /\ errors = [0]).
  { rewrite Eb in E. cbn [Nat.sub arnoldi_loop] in E. rewrite En in E. cbn [bind] in E. destruct (apply_canonical svd flag xx c (-1) true) as [Hcc|] eqn:Ea; cbn [bind] in E; [|discriminate].
    destruct (fold_left (fill_pair [v] c Hcc 1) (seq 0 1) (Ok (N0, F0))) as [[N1 F1]|]; cbn [bind] in E; [|discriminate]. destruct (scprod c Hcc (-1)) as [x|]; cbn [bind] in E; [|discriminate].
    apply Ok_inj' in E. injection E as <- <- <- <- <-. exists c. auto. }
  destruct Hs as (cc & -> & ->). split; [reflexivity|]. split; [intros e [<-|[]]; reflexivity|].
  assert (Hone : forall is, in_range ds is -> @amp CS cc is = downdown is).
  { destruct (J10 1%nat ltac:(cbn; lia)) as (n & Hn & Ed). cbn [nth Nat.sub] in Ed. replace (0 * n * (0 * n)) with 0 in Ed by ring. rewrite Rmult_0_l in Ed. symmetry in Ed.
    assert (Ht : forall is, in_range ds is -> @lanczos_target CC ds xx (fun i => @amp CS (nth i [v; cc] [])) 1 is = downdown is).
    { intros is Hi. rewrite <- (Hca is Hi), (Hcombo is Hi). symmetry. refine (eq_trans (@combo_target CC algorithm internal_sweeps Hint xx ds 0%Z (size_twice _ _ _ Hsz) F0 [v] chi 1 eq_refl ltac:(cbn; lia) I6 (fun i j Hi Hj => proj2 (I3 i j Hi Hj)) is Hi) _).
      apply (@lanczos_target_ext CC algorithm internal_sweeps Hint xx ds 0%Z (size_twice _ _ _ Hsz)); [lia|]. intros j Hj. assert (j = 0%nat) as -> by lia. reflexivity. }
    assert (Hb : forall is, in_range ds is -> downdown is = Cmul (mkC (sqrt n) 0) (@amp CS cc is)).
    { intros is Hi. pose proof (@weight_zero CC ds _ Ed is Hi) as Z. cbv beta in Z. pose proof (eq_trans (eq_sym (f_equal (fun x => Csub x (Cmul (mkC (sqrt n) 0) (@amp CS cc is))) (Ht is Hi))) Z) as Z'. clear Z. revert Z'. generalize (downdown is). change (@rinj CC (sqrt n)) with (mkC (sqrt n) 0). change (@rs_scalar CC) with CS. generalize (@amp CS cc is). intros [x y] [z w] Z. injection Z as Z1 Z2. cbn in Z1, Z2. apply C_ext; cbn; lra. }
    assert (Hs1 : sqrt n = 1).
    { assert (Q : @inner CS ds downdown downdown = mkC (sqrt n * sqrt n) 0).
      { rewrite (@inner_ext CC ds downdown downdown _ _ Hb Hb). rewrite inner_scale_l. refine (eq_trans (f_equal (Cmul (Cconj (mkC (sqrt n) 0))) (@inner_scale_r CC ds _ (mkC (sqrt n) 0) _)) _).
        change (@inner (@rs_scalar CC)) with (@inner CS). rewrite (proj2 (proj2 (J2 cc (or_intror (or_introl eq_refl))))). apply C_ext; cbn; ring. }
      change ds with [2; 2]%nat in Q. rewrite down_inner in Q. injection Q as Q. pose proof (sqrt_pos n). nra. }
    intros is Hi. rewrite (Hb is Hi), Hs1. change (@rs_scalar CC) with CS. generalize (@amp CS cc is). intros [x y]. apply C_ext; cbn; ring. }
  split; [exact Hone|]. cbn [length nth]. intros is Hi. unfold lanczos_target. cbv zeta. cbn [Nat.sub Nat.ltb Nat.leb nth]. change (@rs_scalar CC) with CS.
  assert (Hd1 : forall is, in_range ds is -> @op_apply CS ds (@opelem CS xx) (@amp CS cc) is = @amp CS (upup 1) is).
  { intros js Hj. rewrite <- (xx_down js Hj). exact (@Hv_ext CC xx ds (@amp CS cc) downdown Hone js). }
  assert (Hu1 : forall is, in_range ds is -> @op_apply CS ds (@opelem CS xx) (@amp CS v) is = downdown is).
  { intros js Hj. rewrite <- (xx_up js Hj). exact (@Hv_ext CC xx ds (@amp CS v) (@amp CS (upup 1)) Hav js). }
  assert (A1 : @inner CS ds (@amp CS cc) (@op_apply CS ds (@opelem CS xx) (@amp CS cc)) = mkC 0 0) by (refine (eq_trans (@inner_ext CC ds _ _ downdown (@amp CS (upup 1)) Hone Hd1) down_up)).
  assert (A2 : @inner CS ds (@amp CS cc) (@op_apply CS ds (@opelem CS xx) (@amp CS v)) = mkC 1 0) by (refine (eq_trans (@inner_ext CC ds _ _ downdown downdown Hone Hu1) down_inner)).
  pose proof (Hd1 is Hi) as A3. rewrite <- (Hav is Hi) in A3.
  transitivity (Csub (Csub (@amp CS v is) (Cmul (mkC 0 0) (@amp CS cc is))) (Cmul (mkC 1 0) (@amp CS v is))).
  - rewrite <- A3, <- A1, <- A2. reflexivity.
  - generalize (@amp CS v is), (@amp CS cc is). intros [x y] [z w]. apply C_ext; cbn; ring.
Qed.
