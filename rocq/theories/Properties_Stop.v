(** * C48, C51: when the sweeps of simplify and solve end *)
From Coq Require Import Reals Lra Bool List Arith ZArith Lia.
From Verif Require Import Scalar ScalarFacts RScal Tensor TensorFacts Spec MpsModel MpoSpec MpoModel CanonSpec CanonModel SweepModel SweepFacts FormModel FormSpec
  SimplifySpec SimplifyModel SimplifyFacts SimplifyManyModel ManyFacts ManyEnv ManySweep ManyLoop SolveModel SolveSpec StopSpec StopFacts
  Properties_SimplifyMany RealInst CanonFacts CanonSweep SvdExist.
Import ListNotations.
Local Open Scope K_scope.

Section Many.
Context {RS : RScal}.
Variable svd : tensor -> tensor * list R * tensor.
Variable flag tolerance : R.
Variables (v : variant) (P : mps) (w : list K) (Q : list mps) (ds : list nat) (sense : Z).
Hypothesis Hv : valid_many flag v P w Q ds sense.

(** mps::simplify for several states, with at most n sweeps, without normalization: the sweeps end exactly when the error |P-Q|^2
    changes by less than 10^-5 |Q|^2, or is below tolerance*|Q|^2 or 10^-14; 10|Q|^2 counts as the error before the first one. *)
Theorem C48_many_ends : let W := weight ds (combo w Q) in
  ends_exactly_when (fun n => Properties_SimplifyMany.simplify svd flag tolerance v w Q P sense n false) (W * 10)%R
    (fun e e' => (Rabs (e - e') < 1 / 100000 * W)%R \/ (e' < tolerance * W)%R \/ (e' < 1 / 100000000000000)%R)
    (fun j => turned (j - 1) sense) (fun n => turned n sense).
Proof.
  intros W. pose proof (Hgood' flag v P w Q ds sense Hv) as Hg.
  set (sweep := match v with by_one => many_sweep svd flag w Q | by_two Dmax tol => two_sweep svd flag w Q Dmax tol end).
  set (run := fun n => _).
  assert (Hrun : forall n, run n = simplify_with tolerance w Q sweep P sense n false).
  { intros n. unfold run, Properties_SimplifyMany.simplify, sweep. destruct v; reflexivity. }
  unfold simplify_with in Hrun.
  destruct (Nat.eqb (length Q) 0). { intros n P' s e _ H. rewrite Hrun in H. discriminate. }
  destruct (Nat.eqb (many_L Q) 1). { intros n P' s e _ H. rewrite Hrun in H. discriminate. }
  assert (HrunW := Hrun). clear Hrun. rename HrunW into Hrun.
  destruct (initialize_matrices Q P sense) as [A|] eqn:EA.
  2:{ intros n P' s e _ H. rewrite Hrun, (normQ2_ok w Q ds Hg) in H. discriminate. }
  apply (loop_spec (X := mps * list (list tensor)) fst
    (fun x z => bind (sweep z (fst x) (snd x)) (fun '(P, A, Pk) =>
        Ok ((P, A), Rabs (W + kre (tensor_scprod Pk Pk) - 2 * kre (scalar_product w Q A (if (0 <? z)%Z then many_L Q - 1 else 0)%nat))%R)))
    (many_stop tolerance W)) with (b := false) (x := (P, A)).
  - intros a b. assert (HW : (0 <= W)%R) by apply weight_nonneg. unfold many_stop, Rltb. rewrite (Rabs_pos_eq W HW).
    destruct (Rlt_dec (Rabs (a - b)) (1 / 100000 * W)), (Rlt_dec b (tolerance * W)), (Rlt_dec b (1 / 100000000000000)); cbn; split; try tauto; try discriminate.
  - intros n Hn. rewrite Hrun, (normQ2_ok w Q ds Hg). cbn [bind]. destruct (Nat.ltb_spec n 1); [lia|]. clear Hrun Hn EA. change (SimplifyLoop.W w Q ds) with W.
    generalize (W * 10)%R. clearbody run. revert A. generalize P. generalize sense. clear. induction n as [|n IH]; intros z P A e; [reflexivity|].
    rewrite many_loop_S. cbn [loop fst snd]. destruct (sweep z P A) as [((P1 & A1) & Pk)|]; [|reflexivity]. cbn [bind]. cbv zeta.
    destruct (many_stop tolerance W e _); [reflexivity|]. apply IH.
Qed.
End Many.

Section One.
Context {RS : RScal}.
Variable svd : tensor -> tensor * list R * tensor.
Variable tolerance : R.
Variables (P Q : mps) (sense : Z) (periodicbc : bool).

(** mps::simplify for one state, with at most n sweeps, without normalization: the sweeps end exactly when the error
    1 - Re<P|Q>/(|P||Q|) falls by less than 10^-5 of the previous one, or below tolerance; 1 counts as the error before the first sweep. *)
Theorem C48_one_ends :
  ends_exactly_when (fun n => simplify_one svd tolerance P Q sense periodicbc n false) 1%R
    (fun e e' => (e - e' < 1 / 100000 * Rabs e)%R \/ (e' < tolerance)%R)
    (fun j => turned (j - 1) sense) (fun n => turned n sense).
Proof.
  set (run := fun n => _).
  assert (Hrun : forall n, run n = simplify_one svd tolerance P Q sense periodicbc n false) by reflexivity.
  unfold simplify_one in Hrun. clearbody run.
  destruct (norm_squared Q) as [W|]. 2:{ intros n P' s e _ H. rewrite Hrun in H. discriminate. }
  assert (Hr : forall n, (0 < n)%nat -> run n = if Nat.eqb (length Q) 1 then Abort else if (sense =? 0)%Z then Abort else
     simple_loop svd tolerance periodicbc Q W false n P (simple_init P Q sense) (if periodicbc then simple_init P P sense else repeat empty (length P)) sense 1).
  { intros n Hn. rewrite Hrun. cbn [bind]. destruct (Nat.eqb_spec n 0); [lia|]. reflexivity. }
  clear Hrun.
  destruct (Nat.eqb (length Q) 1). { intros n P' s e Hn H. rewrite Hr in H by exact Hn. discriminate. }
  destruct (sense =? 0)%Z. { intros n P' s e Hn H. rewrite Hr in H by exact Hn. discriminate. }
  apply (loop_spec (X := mps * mps * mps) (fun x => fst (fst x))
    (fun '(P, A, B) z => bind (simple_sweep svd periodicbc Q z P A B) (fun '(P, A, B, M, N, Pk) =>
        let normP2 := if periodicbc then kre (elem0 N) else kre (tensor_scprod Pk Pk) in
        if Req_EM_T (W * normP2) 0 then Abort else Ok ((P, A, B), (1 - kre (elem0 M) / sqrt (W * normP2))%R)))
    (obc_stop tolerance)) with (b := false) (x := (P, simple_init P Q sense, if periodicbc then simple_init P P sense else repeat empty (length P))).
  - intros a b. unfold obc_stop, Rltb. destruct (Rlt_dec (a - b) (1 / 100000 * Rabs a)), (Rlt_dec b tolerance); cbn; split; try tauto; try discriminate.
  - intros n Hn. rewrite Hr by exact Hn. clear Hr Hn. generalize (simple_init P Q sense). generalize (if periodicbc then simple_init P P sense else repeat empty (length P)).
    intros B A. match goal with |- _ = loop _ ?b _ _ _ _ _ _ => set (body := b) end. generalize 1%R. revert A B. generalize P. generalize sense. induction n as [|n IH]; intros z P0 A B e; [reflexivity|].
    cbn [loop simple_loop]. unfold body at 1. destruct (simple_sweep svd periodicbc Q z P0 A B) as [(((((P1 & A1) & B1) & M) & N) & Pk)|]; [|reflexivity]. cbn [bind]. cbv zeta.
    destruct (Req_EM_T _ 0); [reflexivity|]. cbn [bind]. destruct (obc_stop tolerance e _); [reflexivity|]. apply IH.
Qed.
End One.

Section Solve.
Context {RS : RScal}.
Variable svd : tensor -> tensor * list R * tensor.
Variable flag : R.
Variable lsolve : tensor -> tensor -> tensor.
Variable cgs : (tensor -> result tensor) -> tensor -> tensor -> nat -> R -> result tensor.
Variable adj : mpo -> mpo.
Variables (algorithm : bool) (tolerance solvetol : R) (H : mpo) (P oQ : mps) (sense Dmax : Z) (tol : R).

Lemma sweep1_sense fuel : forall s P lf qf s' P' lf' qf' l, solve_sweep1 svd flag lsolve fuel s P lf qf = Ok (s', P', lf', qf', l) -> sdk s' = sdk s.
Proof.
  induction fuel as [|fuel IH]; intros s P0 lf qf s' P' lf' qf' l E; [discriminate|]. cbn [solve_sweep1] in E.
  destruct (solve_step1 svd flag lsolve s P0 lf qf) as [(((P1 & lf1) & qf1) & l1)|]; [|discriminate]. cbn [bind] in E.
  unfold sweeper_dec in E. destruct (sk s =? skN s)%Z.
  - congruence.
  - rewrite (IH _ _ _ _ _ _ _ _ _ E). reflexivity.
Qed.
Lemma sweep2_sense tol1 fuel : forall s P lf qf s' P' lf' qf' l, solve_sweep2 svd flag cgs Dmax tol1 fuel s P lf qf = Ok (s', P', lf', qf', l) -> sdk s' = sdk s.
Proof.
  induction fuel as [|fuel IH]; intros s P0 lf qf s' P' lf' qf' l E; [discriminate|]. cbn [solve_sweep2] in E.
  destruct (solve_step2 svd flag cgs Dmax tol1 s P0 lf qf) as [(((P1 & lf1) & qf1) & l1)|]; [|discriminate]. cbn [bind] in E.
  assert (Hd : sdk (snd (sweeper_dec s)) = sdk s) by (unfold sweeper_dec; destruct (sk s =? skN s)%Z; reflexivity).
  destruct (sweeper_dec s) as (m & s1). cbn [snd] in Hd. destruct (sweeper_is_last s1).
  - congruence.
  - rewrite (IH _ _ _ _ _ _ _ _ _ E). exact Hd.
Qed.

(** solve(), with at most n sweeps, without normalization: the sweeps end exactly when an error different from zero falls by less than
    10^-5 of it, or below tolerance; 0 counts as the error before the first sweep, so that the first sweep is never the last one
    because of this condition. *)
Theorem C51_ends : ends_exactly_when (fun n => solve svd flag lsolve cgs adj algorithm tolerance solvetol H P oQ sense n false Dmax tol) 0%R
    (fun e e' => e <> 0%R /\ ((e - e' < 1 / 100000 * Rabs e)%R \/ (e' < tolerance)%R))
    (fun j => turned j (if (sense <? 0)%Z then -1 else 1)) (fun n => turned n (if (sense <? 0)%Z then -1 else 1)).
Proof.
  set (run := fun n => _).
  assert (Hrun : forall n, run n = solve svd flag lsolve cgs adj algorithm tolerance solvetol H P oQ sense n false Dmax tol) by reflexivity.
  unfold solve in Hrun. clearbody run. cbv zeta in Hrun.
  set (tol' := if Rle_dec tol 0 then solvetol else tol) in Hrun. clearbody tol'.
  destruct (canonical_form svd flag oQ (-1)) as [Q|]. 2:{ intros n P' s e _ E. rewrite Hrun in E. discriminate. }
  cbn [bind] in Hrun. set (P1 := if Nat.eqb (length P) 0 then Q else P) in Hrun. clearbody P1.
  assert (Hr : forall n, (0 < n)%nat -> run n = _) by (intros n Hn; rewrite Hrun; destruct (Nat.eqb_spec n 0); [lia|reflexivity]). clear Hrun.
  destruct (site_at Q 0) as [Q0|]. 2:{ intros n P' s e Hn E. rewrite Hr in E by exact Hn. discriminate. }
  cbn [bind] in Hr. destruct (Rltb (kabs (tensor_scprod Q0 Q0)) (1 / 10 ^ 16)). { intros n P' s e Hn E. rewrite Hr in E by exact Hn. discriminate. }
  destruct (new_sweeper (Z.of_nat (length P1)) (- sense)) as [s|] eqn:Es. 2:{ intros n P' s e Hn E. rewrite Hr in E by exact Hn. discriminate. }
  cbn [bind] in Hr. destruct (apply H Q) as [HQ|]. 2:{ intros n P' s' e Hn E. rewrite Hr in E by exact Hn. discriminate. }
  cbn [bind] in Hr. destruct (canonical_form svd flag HQ (-1)) as [HQ'|]. 2:{ intros n P' s' e Hn E. rewrite Hr in E by exact Hn. discriminate. }
  cbn [bind] in Hr. destruct (lform_new1 HQ' P1 (sweeper_site s)) as [lf|]. 2:{ intros n P' s' e Hn E. rewrite Hr in E by exact Hn. discriminate. }
  cbn [bind] in Hr. destruct (mpo_mmult (adj H) H) as [HH|]. 2:{ intros n P' s' e Hn E. rewrite Hr in E by exact Hn. discriminate. }
  cbn [bind] in Hr. destruct (qform_new HH P1 P1 (sweeper_site s)) as [qf|]. 2:{ intros n P' s' e Hn E. rewrite Hr in E by exact Hn. discriminate. }
  cbn [bind] in Hr. set (W := kabs (tensor_scprod Q0 Q0)) in Hr. clearbody W.
  assert (Hz : (if (sense <? 0)%Z then -1 else 1)%Z = (- sdk s)%Z).
  { unfold new_sweeper in Es. destruct (0 <? Z.of_nat (length P1))%Z; [|discriminate]. injection Es as <-.
    destruct (Z.ltb_spec sense 0), (Z.ltb_spec 0 (- sense)); cbn; lia. }
  rewrite Hz.
  apply (loop_spec (X := sweeper * mps * lform * qform) (fun x => snd (fst (fst x)))
    (fun '(s, P, lf, qf) _ => bind (solve_sweep svd flag lsolve cgs algorithm Dmax tol' s P lf qf) (fun '(s, P, lf, qf, l, normHP) =>
        Ok ((s, P, lf, qf), (normHP + W - 2 * kre (tensor_scprod (l_vHQ l) (l_vP l)))%R)))
    (solve_stop tolerance)) with (b := true) (x := (s, P1, lf, qf)).
  - intros a b. unfold solve_stop, Rltb. destruct (Req_EM_T a 0), (Rlt_dec (a - b) (1 / 100000 * Rabs a)), (Rlt_dec b tolerance); cbn; split; try tauto; try discriminate.
  - intros n Hn. rewrite Hr by exact Hn. clear Hr Hz Es Hn. match goal with |- _ = loop _ ?b _ _ _ _ _ _ => set (body := b) end. generalize 0%R. revert s P1 lf qf.
    induction n as [|n IH]; intros s P1 lf qf e; [reflexivity|].
    cbn [loop solve_loop]. unfold body at 1. destruct (solve_sweep svd flag lsolve cgs algorithm Dmax tol' s P1 lf qf) as [(((((s1 & P2) & lf2) & qf2) & l2) & nh)|] eqn:E; [|reflexivity].
    cbn [bind]. cbv zeta.
    assert (Hs : sdk s1 = (- sdk s)%Z).
    { unfold solve_sweep in E. destruct algorithm.
      - destruct (solve_sweep1 svd flag lsolve (length P1) s P1 lf qf) as [((((sa & Pa) & lfa) & qfa) & la)|] eqn:E1; [|discriminate].
        cbn [bind] in E. apply sweep1_sense in E1. injection E as <- _ _ _ _ _. cbn. congruence.
      - destruct (solve_sweep2 svd flag cgs Dmax tol' (length P1) s P1 lf qf) as [((((sa & Pa) & lfa) & qfa) & la)|] eqn:E1; [|discriminate].
        cbn [bind] in E. apply sweep2_sense in E1. destruct (apply_two_site_matrix _ _ _) as [w|]; [|discriminate]. cbn [bind] in E.
        injection E as <- _ _ _ _ _. cbn. congruence. }
    destruct (solve_stop tolerance e _); [cbn [bind snd fst]; unfold sweeper_sense; rewrite Hs; reflexivity|]. rewrite IH, Hs. reflexivity.
Qed.
End Solve.

(** A case: sweeping to 2|00> from itself, the condition is met after the first sweep, and the direction stays; to 2|00> + 2|11> from
    |00>, which has bonds of dimension one, it is not met after the first sweep. *)
Example C48_ends_case (svd : @tensor (@rs_scalar RR) -> @tensor (@rs_scalar RR) * list R * @tensor (@rs_scalar RR)) flag tolerance :
  svd_contract svd -> (tolerance <= 1 / 10)%R ->
  let ends (e e' : R) := (Rabs (e - e') < 1 / 100000 * 4)%R \/ (e' < tolerance * 4)%R \/ (e' < 1 / 100000000000000)%R in
  let ends8 (e e' : R) := (Rabs (e - e') < 1 / 100000 * 8)%R \/ (e' < tolerance * 8)%R \/ (e' < 1 / 100000000000000)%R in
  met (fun n => simplify svd flag tolerance by_one [1%R] [two00] two00 1 n false) 40%R ends 1 /\
  ~ met (fun n => simplify svd flag tolerance by_one [1%R] [pairs] one00 1 n false) 80%R ends8 1.
Proof.
  intros Hsvd Htol ends ends8. split.
  - destruct (C48_sense_refuted svd flag tolerance Hsvd) as (_ & P' & E & _). exists P', 1%Z, 0%R, 40%R. split; [left; split; reflexivity|].
    split; [exact E|]. right; right. lra.
  - intros (P0 & s0 & e' & e & [( _ & ->)|(C & _)] & E & He); [|lia].
    destruct (run' svd flag tolerance Hsvd by_one one00 [1%R] [pairs] [2; 2]%nat 1 1 (pairs_valid flag)) as (P' & n & l & conv & _ & E1 & _ & Hd & H1 & Hb & _ & Hw).
    rewrite E1 in E. apply Ok_inj' in E. assert (Ee : e' = @dist2 RR [2; 2]%nat (@combo RR [1%R] [pairs]) (amp P')) by (inversion E; reflexivity). clear E E1 H1.
    specialize (Hw I (proj2 two_canonical)). destruct Hd as ((Ho & Hp) & _). pose proof (product_far P' Ho Hp (Hb 1%nat)) as Hf. rewrite ?dist_1 in *.
    assert (E5 : @dist2 RR [2; 2]%nat (amp pairs) (amp one00) = 5%R) by (unfold dist2; rewrite two_weight; cbn; ring).
    rewrite <- Ee in *. clear - He Hf Hw E5 Htol. rewrite E5 in Hw. destruct He as [He|[He|He]]; [rewrite Rabs_pos_eq in He by lra; lra|lra|lra].
Qed.
