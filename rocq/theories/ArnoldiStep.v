(** One step of ArnoldiSolver *)
From Coq Require Import Reals Lra Bool List Arith ZArith Lia Ring.
From Verif Require Import Scalar ScalarFacts RScal RealInst Tensor TensorFacts Spec MpsModel MpsFacts MpoSpec CanonSpec CanonModel SweepModel FormModel FormSpec
  LFormFacts LFormValue Properties_Canon Properties_Form SimplifySpec SimplifyModel SimplifyFacts SimplifyLoop Properties_Simplify CanonProps CanonSweep
  TrotterExp MetricExp ArnoldiSpec ArnoldiModel ArnoldiFacts ArnoldiProj.
Import ListNotations.
Local Open Scope R_scope.

Notation tens := (@tensor CS).
Notation state := (@mps CS).

Section Step.
Variable svd : tens -> tens * list R * tens.
Hypothesis Hsvd : @svd_contract CC svd.
Variable flag : R.
Hypothesis Hflag : 1 <= flag.
Variable algorithm : bool.
Variable tolerance : R.
Variables internal_sweeps final_sweeps : nat.
Hypothesis Hint : internal_sweeps <> 0%nat.
Hypothesis Hfin : final_sweeps <> 0%nat.
Variable msolve : tens -> tens -> tens.
Hypothesis Hmsolve : @msolve_contract CC msolve.
Variable expm : tens -> tens.
Hypothesis Hexpm : expm_contract expm.
Variable eig : tens -> list Cx * tens.
Variables (H : @mpo CS) (ds : list nat).
Hypothesis HH : @hermitian_mpo CC H ds.
Variable Dmax : Z.
Hypothesis Hsize : one_site algorithm Dmax = true \/ (2 <= length ds)%nat.
(** -i times a real time step *)
Variable idt : Cx.
Hypothesis Hidt : Cconj idt = Copp idt.
Hypothesis Hidt0 : idt <> mkC 0 0.

Notation inn := (@inner CS ds).
Notation Hop := (@Hv CC H ds).
Notation am := (@amp CS).
Notation stt states i := (am (nth i states [])).

Section Coef.
Variables (states : list state) (N Heff : @table CC).
Let n := length states.
Hypothesis Hn : (0 < n)%nat.
Hypothesis HN : forall i j, (i < n)%nat -> (j < n)%nat -> N i j = inn (stt states i) (stt states j) /\ Heff i j = inn (stt states i) (Hop (stt states j)).
Hypothesis HN0 : N 0%nat 0%nat = mkC 1 0.
Notation coef := (@arnoldi_coef CC msolve expm eig idt n N Heff).
Let X := msolve (@to_matrix CC n N) (@to_matrix CC n Heff).

Lemma to_matrix_ok T : @is_matrix CS (@to_matrix CC n T) n n /\ forall i j, (i < n)%nat -> (j < n)%nat -> @mat CS (@to_matrix CC n T) i j = T i j.
Proof. split; [split; [reflexivity|apply (@wf_mk CS)]|]. intros i j Hi Hj. unfold mat, to_matrix. rewrite (@get_mk CS) by (apply in_range_2; assumption). reflexivity. Qed.

Lemma solve_ok : @is_matrix CS X n n /\ forall i j, (i < n)%nat -> (j < n)%nat -> csum n (fun k => Cmul (N i k) (@mat CS X k j)) = Heff i j.
Proof.
  destruct (to_matrix_ok N) as (A1 & A2). destruct (to_matrix_ok Heff) as (B1 & B2).
  destruct (Hmsolve n _ _ A1 B1) as (C1 & C2).
  - assert (P : forall j, exists x : nat -> Cx, forall i, (i < n)%nat -> csum n (fun k => Cmul (inn (stt states i) (stt states k)) (x k)) = inn (stt states i) (Hop (stt states j))).
    { intros j. apply (@projection CC ds (fun i => stt states i) n (Hop (stt states j))). }
    destruct (ClassicalChoice.choice _ P) as (Y & HY). exists (fun k j => Y j k). intros i j Hi Hj. rewrite (B2 i j Hi Hj), (proj2 (HN i j Hi Hj)). rewrite <- (HY j i Hi). apply (@sum_ext CS). intros k Hk.
    rewrite (A2 i k Hi Hk), (proj1 (HN i k Hi Hk)). reflexivity.
  - split; [exact C1|]. intros i j Hi Hj. rewrite <- (B2 i j Hi Hj), <- (C2 i j Hi Hj). apply (@sum_ext CS). intros k Hk. rewrite (A2 i k Hi Hk). reflexivity.
Qed.

Let M := fun i j => Cmul idt (@mat CS X i j).
Let E := @mat CS (expm (@tscale CS idt X)).

Lemma exp_ok : is_exp n M E.
Proof.
  destruct solve_ok as ((D1 & D2) & _). assert (HX : @is_matrix CS (@tscale CS idt X) n n) by (split; [exact D1|apply (@wf_tscale CS); exact D2]).
  destruct (Hexpm n _ HX) as (_ & HE). intros i j Hi Hj. specialize (HE i j Hi Hj).
  assert (Em : forall k i j, (i < n)%nat -> (j < n)%nat -> mpow n M k i j = mpow n (@mat CS (@tscale CS idt X)) k i j).
  { induction k as [|k IH]; intros a b Ha Hb; [reflexivity|]. cbn [mpow]. apply (@sum_ext CS). intros m Hm. rewrite (IH m b Hm Hb). f_equal. unfold M, mat. rewrite (@get_tscale CS); [reflexivity|exact D2|rewrite D1; apply in_range_2; assumption]. }
  apply (Ccv_ext (fun q => epart n (@mat CS (@tscale CS idt X)) q i j)); [|exact HE]. intros q. unfold epart. apply (@sum_ext CS). intros k Hk. rewrite (Em k i j Hi Hj). reflexivity.
Qed.

Lemma coef_length : length coef = n.
Proof. unfold arnoldi_coef. destruct (keqb_spec (idt : @K CS) (@k0 CS)) as [Z|_]; [destruct (Hidt0 Z)|]. cbv zeta. rewrite map_length, seq_length. reflexivity. Qed.
Lemma coef_nth i : (i < n)%nat -> nth i coef (mkC 0 0) = E i 0%nat.
Proof.
  intros Hi. unfold arnoldi_coef. destruct (keqb_spec (idt : @K CS) (@k0 CS)) as [Z|_]; [destruct (Hidt0 Z)|]. cbv zeta.
  set (f := fun i => @get CS (expm (@tscale CS idt X)) [i; 0%nat]). change (nth i (map f (seq 0 n)) (mkC 0 0) = f i).
  refine (eq_trans (nth_indep (map f (seq 0 n)) (mkC 0 0) (f 0%nat) _) _); [rewrite map_length, seq_length; exact Hi|].
  refine (eq_trans (map_nth f (seq 0 n) 0%nat i) _). rewrite seq_nth by exact Hi. reflexivity.
Qed.

Lemma combo_sum is : @combo CC coef states is = csum n (fun k => Cmul (E k 0%nat) (stt states k is)).
Proof. unfold combo. apply (@sum_ext CS). intros k Hk. change (@k0 CS) with (mkC 0 0). rewrite (coef_nth k Hk). reflexivity. Qed.

Lemma combo_norm : @weight CC ds (@combo CC coef states) = 1.
Proof.
  apply (@one_weight CC). destruct solve_ok as (_ & HX).
  assert (HM : forall r c, (r < n)%nat -> (c < n)%nat -> csum n (fun m => Cmul (Cconj (M m r)) (N m c)) = Copp (csum n (fun m => Cmul (N r m) (M m c)))).
  { intros r c Hr Hc.
    assert (herm : forall a b, (a < n)%nat -> (b < n)%nat -> N a b = Cconj (N b a)).
    { intros a b Ha Hb. rewrite (proj1 (HN a b Ha Hb)), (proj1 (HN b a Hb Ha)). symmetry. apply (@inner_conj CC). }
    assert (herm2 : Heff r c = Cconj (Heff c r)).
    { rewrite (proj2 (HN r c Hr Hc)), (proj2 (HN c r Hc Hr)). change Cconj with (@kconj CS). rewrite (@inner_conj CC). apply (@Hv_herm CC H ds HH). }
    transitivity (Cmul (Cconj idt) (Cconj (csum n (fun m => Cmul (N c m) (@mat CS X m r))))).
    - change Cconj with (@kconj CS). rewrite (@sum_conj CS). change Cmul with (@kmul CS). rewrite (@sum_mul_l CS). apply (@sum_ext CS). intros m Hm. rewrite (herm m c Hm Hc). unfold M. apply C_ext; cbn; ring.
    - rewrite (HX c r Hc Hr), <- herm2, Hidt. rewrite <- (HX r c Hr Hc). transitivity (Copp (Cmul idt (csum n (fun k => Cmul (N r k) (@mat CS X k c))))); [apply C_ext; cbn; ring|].
      f_equal. change Cmul with (@kmul CS). rewrite (@sum_mul_l CS). apply (@sum_ext CS). intros m Hm. unfold M. apply C_ext; cbn; ring. }
  pose proof (exp_metric n M N HM E exp_ok 0%nat 0%nat Hn Hn) as U. rewrite HN0 in U. change (@k1 CS) with (mkC 1 0). rewrite <- U.
  rewrite (@inner_ext CC ds _ _ (fun is => csum n (fun k => Cmul (E k 0%nat) (stt states k is))) (fun is => csum n (fun k => Cmul (E k 0%nat) (stt states k is)))) by (intros; apply combo_sum).
  refine (eq_trans (@inner_sum_l CC ds _ n (fun k => E k 0%nat) (fun k => stt states k)) _). apply (@sum_ext CS). intros m Hm.
  refine (eq_trans (f_equal (@kmul CS (@kconj CS (E m 0%nat))) (@inner_sum_r CC ds (stt states m) n (fun k => E k 0%nat) (fun k => stt states k))) _). rewrite (@sum_mul_l CS). apply (@sum_ext CS). intros p Hp. rewrite (proj1 (HN m p Hm Hp)). apply C_ext; cbn; ring.
Qed.

(** If H maps the span of the states into itself, the combination is exp(idt H) applied to the first state. *)
Lemma combo_exact psi : (forall is, in_range ds is -> stt states 0 is = psi is) ->
  (forall k, (k < n)%nat -> @in_span CC ds n (fun i => stt states i) (Hop (stt states k))) ->
  is_evolved ds (@opelem CS H) idt psi (@combo CC coef states).
Proof.
  intros H0 Hspan. destruct solve_ok as (_ & HX).
  assert (HS : forall j, (j < n)%nat -> forall is, in_range ds is -> Hop (stt states j) is = csum n (fun k => Cmul (@mat CS X k j) (stt states k is))).
  { intros j Hj. destruct (Hspan j Hj) as (x & Hx).
    assert (Z : forall is, in_range ds is -> csum n (fun k => Cmul (Csub (x k) (@mat CS X k j)) (stt states k is)) = mkC 0 0).
    { apply (@combination_zero CC ds (fun i => stt states i) n (fun k => Csub (x k) (@mat CS X k j))). intros i Hi.
      transitivity (Csub (inn (stt states i) (Hop (stt states j))) (Heff i j)).
      - rewrite <- (HX i j Hi Hj). rewrite (@inner_ext CC ds (stt states i) (Hop (stt states j)) (stt states i) (fun is => csum n (fun k => Cmul (x k) (stt states k is)))) by (auto; exact Hx).
        refine (eq_trans _ (eq_sym (f_equal (fun y => Csub y _) (@inner_sum_r CC ds (stt states i) n x (fun k => stt states k))))). change Csub with (@ksub CS). rewrite <- (@sum_sub CS). apply (@sum_ext CS). intros k Hk.
        rewrite (proj1 (HN i k Hi Hk)). apply C_ext; cbn; ring.
      - rewrite (proj2 (HN i j Hi Hj)). apply C_ext; cbn; ring. }
    intros is Hi. rewrite (Hx is Hi). specialize (Z is Hi).
    assert (Z2 : Csub (csum n (fun k => Cmul (x k) (stt states k is))) (csum n (fun k => Cmul (@mat CS X k j) (stt states k is))) = mkC 0 0).
    { rewrite <- Z. change Csub with (@ksub CS). rewrite <- (@sum_sub CS). apply (@sum_ext CS). intros k Hk. apply C_ext; cbn; ring. }
    change (@sum (@rs_scalar CC)) with csum. change (@kmul (@rs_scalar CC)) with Cmul.
    revert Z2. generalize (csum n (fun k => Cmul (x k) (stt states k is))), (csum n (fun k => Cmul (@mat CS X k j) (stt states k is))). intros [u1 u2] [v1 v2] Z2. injection Z2 as Z2 Z3. apply C_ext; cbn in *; lra. }
  assert (HP : forall k is, in_range ds is -> power_apply ds (@opelem CS H) k psi is = csum n (fun i => Cmul (mpow n (@mat CS X) k i 0%nat) (stt states i is))).
  { induction k as [|k IH]; intros is Hi.
    - cbn [power_apply mpow]. rewrite <- (H0 is Hi). symmetry. apply (@sum_delta_l CS n 0 (fun i => stt states i is) Hn).
    - cbn [power_apply].
      transitivity (Hop (fun is => csum n (fun i => Cmul (mpow n (@mat CS X) k i 0%nat) (stt states i is))) is).
      { refine (@Hv_ext CC H ds (power_apply ds (@opelem CS H) k psi) (fun is => csum n (fun i => Cmul (mpow n (@mat CS X) k i 0%nat) (stt states i is))) IH is). }
      transitivity (csum n (fun i => Cmul (mpow n (@mat CS X) k i 0%nat) (Hop (stt states i) is))).
      { unfold Hv, op_apply. transitivity (@sumcfg CS ds (fun js => csum n (fun i => Cmul (mpow n (@mat CS X) k i 0%nat) (Cmul (@opelem CS H is js) (stt states i js))))).
        - apply (@sumcfg_ext CS). intros js Hj. change (@kmul (@rs_scalar CC)) with (@kmul CS). rewrite (@sum_mul_l CS). apply (@sum_ext CS). intros i Hi'. apply C_ext; cbn; ring.
        - rewrite (@sumcfg_sum_swap CS). apply (@sum_ext CS). intros i Hi'. change Cmul with (@kmul CS). rewrite <- (@sumcfg_mul_l CS). reflexivity. }
      transitivity (csum n (fun i => csum n (fun m => Cmul (Cmul (@mat CS X m i) (mpow n (@mat CS X) k i 0%nat)) (stt states m is)))).
      { apply (@sum_ext CS). intros i Hi'. rewrite (HS i Hi' is Hi). change Cmul with (@kmul CS). rewrite (@sum_mul_l CS). apply (@sum_ext CS). intros m Hm. apply C_ext; cbn; ring. }
      rewrite (@sum_swap CS). apply (@sum_ext CS). intros m Hm. cbn [mpow]. change Cmul with (@kmul CS). rewrite (@sum_mul_r CS). reflexivity. }
  assert (HM : forall k i j, (i < n)%nat -> (j < n)%nat -> mpow n M k i j = Cmul (@kpow CS idt k) (mpow n (@mat CS X) k i j)).
  { induction k as [|k IH]; intros i j Hi Hj; [cbn [mpow kpow]; apply C_ext; cbn; ring|]. cbn [mpow kpow]. change Cmul with (@kmul CS). rewrite (@sum_mul_l CS). apply (@sum_ext CS). intros m Hm. rewrite (IH m j Hm Hj). unfold M. apply C_ext; cbn; ring. }
  intros is Hi. rewrite combo_sum.
  apply (Ccv_ext (fun q => csum n (fun k => Cmul (epart n M q k 0%nat) (stt states k is)))).
  - intros q. unfold exp_apply, epart.
    transitivity (csum (S q) (fun k => csum n (fun i => Cmul (Cmul (mkC (/ INR (fact k)) 0) (mpow n M k i 0%nat)) (stt states i is)))).
    + rewrite (@sum_swap CS). apply (@sum_ext CS). intros i Hi'. change Cmul with (@kmul CS). rewrite (@sum_mul_r CS). reflexivity.
    + apply (@sum_ext CS). intros k Hk. rewrite (HP k is Hi). change Cmul with (@kmul CS) at 3. rewrite (@sum_mul_l CS). apply (@sum_ext CS). intros i Hi'. rewrite (HM k i 0%nat Hi' Hn). apply C_ext; cbn -[fact kpow]; ring.
  - apply (Ccv_sum n (fun k q => Cmul (epart n M q k 0%nat) (stt states k is))). intros k Hk. apply (Ccv_mul _ (fun _ => stt states k is)); [apply exp_ok; assumption|apply Ccv_const].
Qed.
End Coef.

Lemma weighted_nonneg errors c : Forall (fun e => 0 <= e) errors -> 0 <= @weighted CC errors c.
Proof.
  intros He. revert c. induction He as [|e l He Hl IH]; intros [|c cs]; cbn [weighted]; try lra. specialize (IH cs). pose proof (@kmod2_nonneg CC c). nra.
Qed.

Lemma size2 : one_site algorithm (2 * Dmax) = true \/ (2 <= length ds)%nat.
Proof. destruct Hsize as [E|E]; [left|right; exact E]. unfold one_site in *. apply andb_prop in E. destruct E as (-> & E). apply Z.eqb_eq in E. subst Dmax. reflexivity. Qed.

(** What a step does once the basis is known *)
Lemma finish_value max_states psi states N Heff errors current : open_mps psi -> pdims psi = ds ->
  @arnoldi_basis CC svd flag algorithm tolerance internal_sweeps H max_states psi Dmax = Ok (states, N, Heff, errors, current) ->
  states <> [] -> (forall q, In q states -> open_mps q /\ pdims q = ds) -> open_mps current -> Forall (fun e => 0 <= e) errors ->
  let c := @arnoldi_coef CC msolve expm eig idt (length states) N Heff in length c = length states -> @weight CC ds (@combo CC c states) = 1 ->
  ((exists psi' err, @arnoldi_step CC svd flag algorithm tolerance internal_sweeps final_sweeps msolve expm eig H max_states idt psi Dmax = Ok (psi', err)) \/ inn (@combo CC c states) (am psi) = mkC 0 0) /\
  forall psi' err, @arnoldi_step CC svd flag algorithm tolerance internal_sweeps final_sweeps msolve expm eig H max_states idt psi Dmax = Ok (psi', err) ->
    open_mps psi' /\ pdims psi' = ds /\ @weight CC ds (am psi') = 1 /\ ((0 < Dmax)%Z -> bonds_le Dmax psi') /\
    exists a e0, 0 < a /\ inn (@combo CC c states) (am psi') = mkC a 0 /\ 0 <= e0 /\ e0 * e0 = 1 - a * a /\ err = e0 + @weighted CC errors c.
Proof.
  intros Ho Hd Eb Hne Hq Hoc He c Hc Hw.
  assert (Hval : @valid_call CC flag algorithm psi c states ds final_sweeps Dmax MPS_DEFAULT_TOLERANCE).
  { split; [exact Hne|]. split; [exact Hc|]. split; [exact Hq|]. split; [exact Ho|]. split; [exact Hd|]. split; [exact Hfin|]. split.
    - destruct (Classical_Prop.classic (exists is, in_range ds is /\ @combo CC c states is <> @k0 CS)) as [P|P]; [exact P|]. exfalso.
      assert (Z : @weight CC ds (@combo CC c states) = 0).
      { apply (@rinj_inj CC). rewrite (@rinj_weight CC), (@rinj_0 CC). unfold inner. apply (@sumcfg_zero CS). intros is Hi.
        assert (Z : @combo CC c states is = @k0 CS) by (destruct (@keqb_spec CS (@combo CC c states is) (@k0 CS)) as [Z|Z]; [exact Z|]; destruct P; exists is; auto). rewrite Z. apply C_ext; cbn; ring. }
      lra.
    - split; [destruct Hsize as [Hs|Hs]; [left; exact Hs|right; rewrite <- (length_pdims psi), Hd; exact Hs]|].
      left. unfold truncation, tolerance_used, MPS_DEFAULT_TOLERANCE. destruct (one_site algorithm Dmax); [lra|]. destruct (Rlt_dec (-4) 0); lra. }
  destruct (C62_returns svd flag Hsvd algorithm tolerance psi c states ds (-1) final_sweeps Dmax MPS_DEFAULT_TOLERANCE Hval) as (P' & s' & e & n & E1).
  pose proof (C62_error svd flag Hsvd algorithm tolerance psi c states ds (-1) final_sweeps Dmax MPS_DEFAULT_TOLERANCE Hval P' s' e n E1) as (F1 & F2 & F3 & F4 & F5).
  pose proof (C62_bonds svd flag Hsvd algorithm tolerance psi c states ds (-1) final_sweeps Dmax MPS_DEFAULT_TOLERANCE Hval P' s' e n E1) as (B1 & _).
  assert (Hcan : exists q, @canonical_form CC svd flag current (-1) = Ok q).
  { destruct (C14_canonical_form svd flag Hsvd current 0 (open_wf current Hoc)) as (q & Eq & _).
    - destruct Hoc as (Hn0 & _). destruct current; [congruence|cbn; lia].
    - left. lra.
    - exists q. exact Eq. }
  destruct Hcan as (q & Hcan).
  assert (Estep : @arnoldi_step CC svd flag algorithm tolerance internal_sweeps final_sweeps msolve expm eig H max_states idt psi Dmax =
    bind (simplify_obc svd flag algorithm tolerance psi c states (-1) final_sweeps true Dmax MPS_DEFAULT_TOLERANCE) (fun '(psi, sense, err, _) =>
      bind (if (sense * -1 <? 0)%Z then @canonical_form CC svd flag current (-1) else Ok current) (fun _ => Ok (psi, err + @weighted CC errors c)))).
  { unfold arnoldi_step. rewrite Eb. reflexivity. }
  destruct (Req_EM_T n 0) as [n0|n0].
  - assert (EA : simplify_obc svd flag algorithm tolerance psi c states (-1) final_sweeps true Dmax MPS_DEFAULT_TOLERANCE = Abort).
    { destruct (outcome svd flag Hsvd algorithm tolerance psi c states ds (-1) final_sweeps Dmax MPS_DEFAULT_TOLERANCE Hval P' s' e n E1) as (d & _ & _ & _ & _ & _ & _ & En). destruct (Req_EM_T n 0); [exact En|contradiction]. }
    rewrite EA in Estep. cbn [bind] in Estep. split.
    + right. destruct (@keqb_spec CS (inn (@combo CC c states) (am psi)) (@k0 CS)) as [Z|Z]; [exact Z|]. exfalso.
      refine (C62_overlap svd flag Hsvd algorithm tolerance psi c states ds (-1) final_sweeps Dmax MPS_DEFAULT_TOLERANCE Hval P' s' e n E1 _ Z n0). intros _. right. exact Hflag.
    + intros psi' err E2. rewrite Estep in E2. discriminate.
  - destruct (C62_normalize svd flag Hsvd algorithm tolerance psi c states ds (-1) final_sweeps Dmax MPS_DEFAULT_TOLERANCE Hval P' s' e n E1 n0) as (P2 & E2 & G1 & G2 & G3 & G4 & G5).
    rewrite E2 in Estep. cbn [bind] in Estep. destruct (bool_dec (s' * -1 <? 0)%Z true) as [Es|Es]; [rewrite Es, Hcan in Estep|apply not_true_is_false in Es; rewrite Es in Estep]; cbn [bind] in Estep; rewrite Estep.
    all: split; [left; eexists _, _; reflexivity|]; intros psi' err E3; apply Ok_inj' in E3; injection E3 as <- <-.
    all: split; [exact G1|]; split; [exact G2|]; split; [exact G5|]; split.
    1,3: intros HD j Hj; specialize (B1 HD);
      destruct (outcome svd flag Hsvd algorithm tolerance psi c states ds (-1) final_sweeps Dmax MPS_DEFAULT_TOLERANCE Hval P' s' e n E1) as (d & _ & Hdone & _ & _ & _ & _ & En);
      rewrite E2 in En; destruct (Req_EM_T n 0) as [|_]; [contradiction|]; injection En as ->; rewrite length_replace_nth in Hj;
      (destruct (Nat.eq_dec j (sweep_end (length psi) s')) as [Ej|Hnej]; [rewrite Ej in Hj |- *; rewrite (@site_replace_eq CC) by exact (proj2 Hj); change (dim (@tscale CS (@rinj CC (/ sqrt n)) (site P' (sweep_end (length psi) s'))) 0) with (dim (site P' (sweep_end (length psi) s')) 0); apply B1; exact Hj|rewrite (@site_replace_neq CC) by exact Hnej; apply B1; exact Hj]).
    all: assert (Hnp : 0 < n) by (pose proof (@weight_nonneg CC ds (am P')); lra).
    all: exists (sqrt n), e; split; [apply sqrt_lt_R0; exact Hnp|]; split.
    1,3: rewrite (@inner_ext CC ds _ _ (@combo CC c states) (fun is => @kmul CS (@rinj CC (/ sqrt n)) (am P' is))) by (auto; exact G4); rewrite (@inner_scale_r CC), F2; change (Cmul (mkC (/ sqrt n) 0) (mkC n 0) = mkC (sqrt n) 0);
      assert (Hs : sqrt n * sqrt n = n) by (apply sqrt_sqrt; lra); assert (Hs0 : 0 < sqrt n) by (apply sqrt_lt_R0; exact Hnp);
      apply C_ext; cbn; [rewrite <- Hs at 2; field; lra|ring].
    all: rewrite Hw in F5, F3; rewrite F3 in F5; rewrite sqrt_sqrt by lra; split; [lra|]; split; [lra|reflexivity].
Qed.
Lemma finish_ok max_states psi states N Heff errors current : open_mps psi -> pdims psi = ds ->
  @arnoldi_basis CC svd flag algorithm tolerance internal_sweeps H max_states psi Dmax = Ok (states, N, Heff, errors, current) ->
  states <> [] -> (forall q, In q states -> open_mps q /\ pdims q = ds) -> open_mps current -> Forall (fun e => 0 <= e) errors ->
  let c := @arnoldi_coef CC msolve expm eig idt (length states) N Heff in length c = length states -> @weight CC ds (@combo CC c states) = 1 ->
  ((exists psi' err, @arnoldi_step CC svd flag algorithm tolerance internal_sweeps final_sweeps msolve expm eig H max_states idt psi Dmax = Ok (psi', err)) \/ inn (@combo CC c states) (am psi) = mkC 0 0) /\
  forall psi' err, @arnoldi_step CC svd flag algorithm tolerance internal_sweeps final_sweeps msolve expm eig H max_states idt psi Dmax = Ok (psi', err) ->
    open_mps psi' /\ pdims psi' = ds /\ @weight CC ds (am psi') = 1 /\ ((0 < Dmax)%Z -> bonds_le Dmax psi') /\
    exists a, 0 < a /\ inn (@combo CC c states) (am psi') = mkC a 0 /\ 0 <= err /\ 1 - err * err <= a * a.
Proof.
  intros Ho Hd Eb Hne Hq Hoc He c Hc Hw. destruct (finish_value max_states psi states N Heff errors current Ho Hd Eb Hne Hq Hoc He Hc Hw) as (A & B). split; [exact A|]. intros psi' err E.
  destruct (B psi' err E) as (B1 & B2 & B3 & B4 & a & e0 & B5 & B6 & B7 & B8 & B9). split; [exact B1|]. split; [exact B2|]. split; [exact B3|]. split; [exact B4|]. exists a. split; [exact B5|]. split; [exact B6|].
  pose proof (weighted_nonneg errors c He) as Hwn. fold c in B9. rewrite B9. split; [lra|nra].
Qed.

End Step.
