(** * Simplification of states: simplify_obc (C62), best truncation of a pair (C15) *)
From Coq Require Import Reals Lra Bool List Arith ZArith Lia Ring.
From Verif Require Import Scalar ScalarFacts RScal RealInst Tensor TensorFacts Spec MpsModel MpsFacts StateFacts StateFacts2 MpoSpec CanonSpec CanonModel
  TruncFacts SplitFacts CanonFacts CanonSweep CanonNorm CanonProps CanonTwo SvdExist SweepModel SweepSpec SweepFacts FormModel FormSpec LFormFacts LFormValue
  Properties_Canon Properties_Form
  Witness   SimplifySpec SimplifyModel EckartYoung SimplifyFacts SimplifyStep SimplifyPair SimplifyDouble SimplifySweep SimplifyLoop.
Import ListNotations.
Local Open Scope K_scope.

Section Properties.
Context {RS : RScal}.
Add Ring Kring : k_ring.
(** Any singular value decomposition with the contract, and any value of MPS_TRUNCATION_TOLERANCE. *)
Variable svd : tensor -> tensor * list R * tensor.
Variable flag : R.
Hypothesis Hsvd : svd_contract svd.

(** C15: no other pair of tensors with a bond of at most the same dimension is closer to the given tensor. *)
Theorem C15_best P Pij a i j c k sense Dmax tol P' :
  (S k < length P)%nat -> dims Pij = [a; i; j; c] -> wf Pij ->
  (0 < a)%nat -> (0 < i)%nat -> (0 < j)%nat -> (0 < c)%nat ->
  set_canonical_2_sites svd flag P Pij (Z.of_nat (if (0 <? sense)%Z then k else S k)) sense Dmax tol false = Ok P' ->
  exists e, rinj e = sum a (fun x => sum i (fun y => sum j (fun z => sum c (fun w =>
      let d := get Pij [x; y; z; w] - joined (site P' k) (site P' (S k)) x y z w in kconj d * d)))) /\
  forall A B D, (0 < D <= dim (site P' (S k)) 0)%nat -> dims A = [a; i; D] -> dims B = [D; j; c] ->
    exists r, (e <= r)%R /\ rinj r = sum a (fun x => sum i (fun y => sum j (fun z => sum c (fun w =>
      let d := get Pij [x; y; z; w] - joined A B x y z w in kconj d * d)))).
Proof.
  intros Hk Hd Hw Ha Hi Hj Hc E.
  destruct (s2s_false svd flag Hsvd P Pij a i j c k sense Dmax tol Hk Hd Hw Ha Hi Hj Hc) as (Pi & Pj & U & s & V & _ & E' & Hs & Hps).
  rewrite E' in E. apply Ok_inj' in E. subst P'.
  rewrite !site_two, !Nat.eqb_refl by exact Hk. destruct (Nat.eqb_spec (S k) k) as [|_]; [lia|].
  set (b := where_to_truncate flag s tol Dmax) in *. assert (Hb : (b <= length s)%nat) by apply wtt_le_length.
  exists (tail_weight s b). split.
  - destruct (pair_error Pij a i j c _ Pi Pj U s V b Hs Hd Hb Hps) as (H & _). symmetry. exact H.
  - intros A B D HD HA HB. destruct Hps as (_ & _ & HPj & _). unfold dim in HD. rewrite HPj in HD. cbn [nth] in HD.
    destruct (pair_best svd Hsvd Pij a i j c U s V D A B Hs Hd Ha Hi Hj ltac:(lia) HA HB) as (r & Hr & Er).
    exists r. split; [|exact Er]. eapply Rle_trans; [apply tail_weight_le|exact Hr]. lia.
Qed.

Section Call.
Variables (algorithm : bool) (tolerance : R) (P : mps) (w : list K) (Q : list mps) (ds : list nat)
  (sense : Z) (sweeps : nat) (Dmax : Z) (tol : R).
Hypothesis Hv : valid_call flag algorithm P w Q ds sweeps Dmax tol.

Lemma Hgood : good_bras w Q ds.
Proof. destruct Hv as (H1 & H2 & H3 & _). repeat split; auto; apply H3; assumption. Qed.

Lemma W_pos : W w Q ds <> 0%R.
Proof. destruct Hv as (_ & _ & _ & _ & _ & _ & (is & Hi & Hne) & _). intros E. apply Hne. apply (weight_zero ds _ E is Hi). Qed.

Lemma eff_eq : eff_of flag ((Dmax =? 0)%Z && algorithm) tol = truncation flag algorithm Dmax tol.
Proof.
  unfold eff_of, truncation, one_site. rewrite andb_comm. destruct (algorithm && (Dmax =? 0)%Z); [reflexivity|].
  unfold eff_tol, tolerance_used, Rltb. destruct (Rlt_dec tol 0); reflexivity.
Qed.

Lemma run : exists P' err n d,
    (simplify_obc svd flag algorithm tolerance P w Q sense sweeps false Dmax tol = Ok (P', sgn d, err, n) /\
     simplify_obc svd flag algorithm tolerance P w Q sense sweeps true Dmax tol =
      if Req_EM_T n 0 then Abort else
         Ok (replace_nth (last_of d (length P)) (tscale (rinj (/ sqrt n)%R) (site P' (last_of d (length P)))) P', sgn d, err, n)) /\
    done w Q ds d (length P) P' n err /\
    (one_site algorithm Dmax = true -> forall j, (dim (site P' j) 0 <= dim (site P j) 0)%nat) /\ ((0 < Dmax)%Z -> bonds_le Dmax P') /\
    (no_truncation (truncation flag algorithm Dmax tol) -> small Dmax P -> canonical_at (sweep_end (length P) sense) P ->
       (dist2 ds (combo w Q) (amp P') <= dist2 ds (combo w Q) (amp P))%R) /\
    ((one_site algorithm Dmax = true -> no_truncation flag) -> inner ds (combo w Q) (amp P) <> 0 -> inner ds (combo w Q) (amp P') <> 0).
Proof.
  pose proof Hgood as Hg. pose proof W_pos as HW. destruct Hv as (_ & _ & _ & Ho & Hd & Hs & _ & Hm & Hn).
  destruct (simplify_run svd flag Hsvd w Q ds Hg algorithm tolerance P sense sweeps Dmax tol Ho Hd Hs HW) as (P' & err & n & d & E & H2 & H3 & H4 & H5 & H6).
  - destruct Hm as [Hm|Hm]; [left|right; exact Hm]. unfold one_site in Hm. rewrite andb_comm. exact Hm.
  - rewrite eff_eq. unfold nz. rewrite (overlap_combo w Q ds) by exact Hd. exact Hn.
  - exists P', err, n, d. rewrite eff_eq in H5. split; [exact E|]. split; [exact H2|]. unfold one_site. rewrite (andb_comm algorithm).
    split; [exact H3|]. split; [exact H4|]. split; [exact H5|].
    rewrite <- !(overlap_combo w Q ds) by (try exact Hd; apply H2). exact H6.
Qed.

Lemma sgn_end d L : sweep_end L (sgn d) = last_of d L.
Proof. destruct d; reflexivity. Qed.

Lemma P_pos : (0 < length P)%nat.
Proof. destruct Hv as (_ & _ & _ & (Hne & _) & _). destruct P; [congruence|cbn; lia]. Qed.

(** C62.  The call returns. *)
Theorem C62_returns : exists P' sense' err n, simplify_obc svd flag algorithm tolerance P w Q sense sweeps false Dmax tol = Ok (P', sense', err, n).
Proof. destruct run as (P' & err & n & d & (E & _) & _). rewrite E. exists P', (sgn d), err, n. reflexivity. Qed.

(** Let P', sense', err and n = *norm be what a call without normalization returns. *)
Variables (P' : mps) (sense' : Z) (err n : R).
Hypothesis Hcall : simplify_obc svd flag algorithm tolerance P w Q sense sweeps false Dmax tol = Ok (P', sense', err, n).
Notation centre := (sweep_end (length P) sense').

Lemma outcome : exists d, sense' = sgn d /\ done w Q ds d (length P) P' n err /\
    (one_site algorithm Dmax = true -> forall j, (dim (site P' j) 0 <= dim (site P j) 0)%nat) /\ ((0 < Dmax)%Z -> bonds_le Dmax P') /\
    (no_truncation (truncation flag algorithm Dmax tol) -> small Dmax P -> canonical_at (sweep_end (length P) sense) P ->
       (dist2 ds (combo w Q) (amp P') <= dist2 ds (combo w Q) (amp P))%R) /\
    ((one_site algorithm Dmax = true -> no_truncation flag) -> inner ds (combo w Q) (amp P) <> 0 -> inner ds (combo w Q) (amp P') <> 0) /\
    simplify_obc svd flag algorithm tolerance P w Q sense sweeps true Dmax tol =
      (if Req_EM_T n 0 then Abort else Ok (replace_nth centre (tscale (rinj (/ sqrt n)%R) (site P' centre)) P', sense', err, n)).
Proof.
  destruct run as (P1 & e1 & n1 & d1 & (E1 & E2) & H2 & H3 & H4 & H5 & H6). rewrite Hcall in E1. injection E1 as EP Es Ee En. subst P1 sense' e1 n1.
  exists d1. rewrite sgn_end. repeat (split; [assumption || reflexivity|]). exact E2.
Qed.

(** It is an open state of the same dimensions in canonical form; sense' is the direction of the last sweep,
    and the norm of the state is in one tensor, at the end of that sweep. *)
Theorem C62_canonical : open_mps P' /\ pdims P' = ds /\ (sense' = 1 \/ sense' = -1)%Z /\
  canonical_at centre P' /\ weight ds (amp P') = frob2 (site P' centre).
Proof.
  destruct outcome as (d & -> & Hd & _). pose proof (done_facts w Q ds Hgood d (length P) P' n err W_pos P_pos Hd) as (Hw & _).
  destruct Hd as (H1 & H2 & H3 & H4 & H5 & H6 & H7). rewrite sgn_end. split; [exact H1|]. split; [exact H2|].
  split; [destruct d; cbn; lia|]. split; [exact H4|]. congruence.
Qed.

(** *norm is |P'|^2 and also <Q|P'>, where Q stands for sum_i w_i Q_i; the returned error is the relative
    distance between P' and Q: err^2 = |Q - P'|^2 / |Q|^2. *)
Theorem C62_error : weight ds (amp P') = n /\ inner ds (combo w Q) (amp P') = rinj n /\
  dist2 ds (combo w Q) (amp P') = (weight ds (combo w Q) - n)%R /\
  (0 <= err)%R /\ (err * err = dist2 ds (combo w Q) (amp P') / weight ds (combo w Q))%R.
Proof.
  destruct outcome as (d & -> & Hd & _). pose proof (done_facts w Q ds Hgood d (length P) P' n err W_pos P_pos Hd) as (H1 & H2 & H3 & H4 & H5).
  destruct Hd as (_ & Hpd & _). rewrite (overlap_combo w Q ds) in H2 by exact Hpd. repeat (split; [assumption|]).
  rewrite <- H5. pose proof W_pos. unfold W in *. field. assumption.
Qed.

(** No other tensor at the centre gives a state closer to Q. *)
Theorem C62_best_tensor T : wf T -> dims T = dims (site P' centre) ->
  (dist2 ds (combo w Q) (amp P') <= dist2 ds (combo w Q) (amp (replace_nth centre T P')))%R.
Proof. destruct outcome as (d & -> & Hd & _). rewrite sgn_end. apply (done_best w Q ds Hgood d (length P) P' n err T P_pos Hd). Qed.

(** Dmax is respected; the one-site algorithm does not enlarge any bond. *)
Theorem C62_bonds : ((0 < Dmax)%Z -> bonds_le Dmax P') /\
  (one_site algorithm Dmax = true -> forall j, (dim (site P' j) 0 <= dim (site P j) 0)%nat).
Proof. destruct outcome as (d & _ & _ & H1 & H2 & _). auto. Qed.

(** If P is in canonical form at the site where the first sweep starts, if its bonds obey Dmax and if the
    tolerance truncates nothing, then P' is at least as close to Q as P. *)
Theorem C62_never_worse : no_truncation (truncation flag algorithm Dmax tol) -> ((Dmax <= 0)%Z \/ bonds_le Dmax P) ->
  canonical_at (sweep_end (length P) sense) P ->
  (dist2 ds (combo w Q) (amp P') <= dist2 ds (combo w Q) (amp P))%R.
Proof. destruct outcome as (d & _ & _ & _ & _ & H & _). exact H. Qed.

(** In particular a state that already is Q is returned unchanged, with error zero. *)
Theorem C62_fixed_point : no_truncation (truncation flag algorithm Dmax tol) -> ((Dmax <= 0)%Z \/ bonds_le Dmax P) ->
  canonical_at (sweep_end (length P) sense) P -> (forall is, in_range ds is -> amp P is = combo w Q is) ->
  (forall is, in_range ds is -> amp P' is = combo w Q is) /\ err = 0%R.
Proof.
  intros H1 H2 H3 H4. pose proof (C62_never_worse H1 H2 H3) as H.
  assert (E : dist2 ds (combo w Q) (amp P) = 0%R).
  { unfold dist2, weight, inner. rewrite <- (kre_rinj 0), rinj_0. f_equal. apply sumcfg_zero. intros is Hi. rewrite H4 by exact Hi. ring. }
  assert (E' : dist2 ds (combo w Q) (amp P') = 0%R) by (apply Rle_antisym; [lra|apply weight_nonneg]).
  split.
  - intros is Hi. pose proof (weight_zero ds _ E' is Hi) as Hz. cbn beta in Hz. transitivity (combo w Q is - (combo w Q is - amp P' is)); [ring|rewrite Hz; ring].
  - destruct C62_error as (_ & _ & _ & _ & He). rewrite E' in He. unfold Rdiv in He. rewrite Rmult_0_l in He. destruct (Rmult_integral _ _ He); assumption.
Qed.

(** A state with an overlap with Q keeps one (one-site algorithm: if nothing but zeros is truncated). *)
Theorem C62_overlap : (one_site algorithm Dmax = true -> no_truncation flag) ->
  inner ds (combo w Q) (amp P) <> 0 -> n <> 0%R.
Proof.
  intros H1 H2. destruct outcome as (d & _ & _ & _ & _ & _ & H & _). specialize (H H1 H2). destruct C62_error as (_ & E & _).
  intros E0. apply H. rewrite E, E0. apply rinj_0.
Qed.

(** With normalize = true the same state is divided by its norm. *)
Theorem C62_normalize : n <> 0%R -> exists P'',
  simplify_obc svd flag algorithm tolerance P w Q sense sweeps true Dmax tol = Ok (P'', sense', err, n) /\
  open_mps P'' /\ pdims P'' = ds /\ canonical_at centre P'' /\
  (forall is, in_range ds is -> amp P'' is = rinj (/ sqrt n)%R * amp P' is) /\ weight ds (amp P'') = 1%R.
Proof.
  intros Hn. destruct outcome as (d & Es & Hd & _ & _ & _ & _ & E). destruct (Req_EM_T n 0) as [|_]; [contradiction|].
  destruct C62_canonical as (Ho & Hp & _ & Hc & Hw). destruct C62_error as (Hwn & _).
  set (c := sweep_end (length P) sense') in *.
  assert (HcL : (c < length P')%nat) by (destruct Hd as (_ & _ & -> & _); unfold c; rewrite Es, sgn_end; pose proof P_pos; unfold last_of; destruct d; lia).
  pose proof (canonical_replace c P' (tscale (rinj (/ sqrt n)%R) (site P' c)) Hc) as Hc'.
  exists (replace_nth c (tscale (rinj (/ sqrt n)%R) (site P' c)) P'). split; [exact E|].
  destruct Ho as (Hne & HL).
  assert (HO : open_mps (replace_nth c (tscale (rinj (/ sqrt n)%R) (site P' c)) P')).
  { split; [destruct P', c; discriminate || congruence|]. apply linked_tscale; assumption. }
  split; [exact HO|]. split; [rewrite pdims_tscale; exact Hp|]. split; [exact Hc'|].
  assert (Ha : forall is, in_range ds is -> amp (replace_nth c (tscale (rinj (/ sqrt n)%R) (site P' c)) P') is = rinj (/ sqrt n)%R * amp P' is).
  { intros is Hi. unfold amp. rewrite (linked_left_bond 1 P' 1 Hne HL). rewrite (linked_left_bond 1 _ 1 (proj1 HO) (proj2 HO)). cbn [sum].
    rewrite (chain_tscale P' 1 1 c) by (try assumption; try lia; rewrite Hp; exact Hi). ring. }
  split; [exact Ha|].
  assert (Hn0 : (0 < n)%R) by (pose proof (weight_nonneg ds (amp P')); lra).
  apply rinj_inj. rewrite rinj_weight. unfold inner.
  rewrite (sumcfg_ext ds _ (fun is => rinj (/ n)%R * (kconj (amp P' is) * amp P' is))).
  - rewrite <- sumcfg_mul_l. change (sumcfg ds (fun is => kconj (amp P' is) * amp P' is)) with (inner ds (amp P') (amp P')).
    rewrite <- rinj_weight, Hwn, <- rinj_mul. f_equal. field. lra.
  - intros is Hi. rewrite Ha by exact Hi. rewrite kconj_mul, rinj_conj.
    transitivity (rinj (/ sqrt n)%R * rinj (/ sqrt n)%R * (kconj (amp P' is) * amp P' is)); [ring|]. f_equal. rewrite <- rinj_mul. f_equal.
    rewrite <- Rinv_mult. rewrite sqrt_sqrt by lra. reflexivity.
Qed.
End Call.

(** The call is rejected without sweeps, and the two-site algorithm needs two sites. *)
Theorem C62_rejects algorithm tolerance P w Q ds sense sweeps normalize Dmax tol :
  (sweeps = 0%nat -> simplify_obc svd flag algorithm tolerance P w Q sense sweeps normalize Dmax tol = Abort) /\
  (good_bras w Q ds -> open_mps P -> pdims P = ds -> length P = 1%nat -> one_site algorithm Dmax = false ->
     simplify_obc svd flag algorithm tolerance P w Q sense sweeps normalize Dmax tol = Abort).
Proof.
  split; [intros ->; reflexivity|]. intros Hg Ho Hd HL H1. unfold simplify_obc. destruct (Nat.eqb_spec sweeps 0) as [|Hs]; [reflexivity|].
  unfold one_site in H1. rewrite andb_comm in H1. rewrite H1. rewrite HL.
  set (s := if (0 <? - sense)%Z then mkSweeper 0 0 0 1 else mkSweeper 0 0 0 (-1)).
  assert (Es : new_sweeper (Z.of_nat 1) (- sense) = Ok s) by (unfold new_sweeper, s; cbn; destruct (0 <? - sense)%Z; reflexivity).
  rewrite Es. cbn [bind]. replace (sweeper_site s) with (Z.of_nat 0) by (unfold s; destruct (0 <? - sense)%Z; reflexivity).
  destruct (lform_new w Q P (Z.of_nat 0)) as [f|] eqn:Ef; [|reflexivity]. cbn [bind].
  destruct (lf_norm2_v f) as [v|]; [|reflexivity]. cbn [bind]. destruct sweeps as [|m]; [congruence|]. cbn [obc_loop]. unfold obc_sweep. rewrite HL.
  assert (Ed : double_step svd flag Dmax tol s P f = Abort); [|cbn [double_sweep]; rewrite Ed; reflexivity].
  pose proof (lfh_new w Q ds P 0 f Ho Hd Ef) as Hh. destruct (C44_two_site_end w Q ds f _ _ Hg Hh) as (H2 & H3).
  unfold double_step. assert (Ev : two_site_vector f (sweeper_sense s) = Abort); [|rewrite Ev; reflexivity].
  unfold s. destruct (0 <? - sense)%Z; [apply H2|apply H3; reflexivity]. destruct P as [|t [|t' r]]; cbn in HL; try lia; reflexivity.
Qed.
End Properties.

(** ** The hypotheses are met *)
Definition cws : list (@K (@rs_scalar RR)) := [1%R; 2%R].
Definition cqs : list (@mps (@rs_scalar RR)) := [@copen RR; @copen RR].
Example C62_case : @valid_call RR DBL_EPSILON true (@copen RR) cws cqs (pdims (@copen RR)) 12 3 (-1) /\
  @valid_call RR 0 true (@copen RR) cws cqs (pdims (@copen RR)) 12 0 (-1) /\ bonds_le 3 (@copen RR).
Proof.
  assert (Hc : @combo RR cws cqs [0; 0; 0]%nat <> 0) by (cbn; lra).
  assert (Hir : in_range (pdims (@copen RR)) [0; 0; 0]%nat) by (repeat constructor).
  assert (Hc3 : forall is, @combo RR cws cqs is = @rinj RR 3 * amp (@copen RR) is).
  { intros is. unfold combo. cbn [length cqs sum nth cws]. change (0 + 1 * amp (@copen RR) is + 2 * amp (@copen RR) is = 3 * amp (@copen RR) is)%R. ring. }
  assert (Hq : forall q, In q cqs -> open_mps q /\ pdims q = pdims (@copen RR)).
  { intros q [<-|[<-|[]]]; split; try reflexivity; apply copen_open. }
  assert (Hcommon : forall e, (e = 0%R \/ True) -> (e <> 0%R \/ inner (pdims (@copen RR)) (@combo RR cws cqs) (amp (@copen RR)) <> 0)).
  { intros e _. right. intros E.
    assert (E1 : inner (pdims (@copen RR)) (@combo RR cws cqs) (amp (@copen RR)) = @rinj RR (3 * weight (pdims (@copen RR)) (amp (@copen RR)))).
    { rewrite rinj_mul, rinj_weight. unfold inner. rewrite sumcfg_mul_l. apply sumcfg_ext. intros is _. rewrite Hc3, kconj_mul, rinj_conj.
      symmetry. apply (Rmul_assoc k_ring). }
    rewrite E1, <- rinj_0 in E. apply rinj_inj in E.
    assert (E2 : weight (pdims (@copen RR)) (amp (@copen RR)) = 0%R) by lra.
    apply Hc. rewrite Hc3. rewrite (weight_zero _ _ E2 _ Hir). change (3 * 0 = 0)%R. ring. }
  split; [|split].
  - repeat split; auto; try (apply Hq; assumption); try discriminate; try (apply copen_open).
    + exists [0; 0; 0]%nat. auto.
    + right. cbn. lia.
  - repeat split; auto; try (apply Hq; assumption); try discriminate; try (apply copen_open).
    exists [0; 0; 0]%nat. auto.
  - intros j Hj. cbn in Hj. assert (j = 1 \/ j = 2)%nat as [-> | ->] by lia; cbn; lia.
Qed.

Definition czero : @tensor (@rs_scalar RR) := @mk (@rs_scalar RR) [1; 2; 1]%nat (fun x => if Nat.eqb (nth 1 x 0%nat) 0 then 1%R else 0%R).
Example C62_case_canonical : open_mps [czero; czero; czero] /\ canonical_at (sweep_end 3 (-1)) [czero; czero; czero] /\
  canonical_at (sweep_end 3 1) [czero; czero; czero] /\ bonds_le 1 [czero; czero; czero].
Proof.
  assert (HL : @left_isometry RR czero).
  { intros x y Hx Hy. cbn in Hx, Hy. assert (x = 0%nat) as -> by lia. assert (y = 0%nat) as -> by lia. cbn. ring. }
  assert (HR : @right_isometry RR czero).
  { intros x y Hx Hy. cbn in Hx, Hy. assert (x = 0%nat) as -> by lia. assert (y = 0%nat) as -> by lia. cbn. ring. }
  assert (Hs : forall j, (j < 3)%nat -> site [czero; czero; czero] j = czero).
  { intros j Hj. do 3 (destruct j as [|j]; [reflexivity|]). lia. }
  split; [split; [discriminate|solve_linked]|]. split; [|split].
  - split; intros j Hj; cbn in Hj; [lia|]. rewrite Hs by lia. exact HR.
  - split; intros j Hj; cbn in Hj; [|lia]. rewrite Hs by lia. exact HL.
  - intros j Hj. cbn in Hj. rewrite Hs by lia. cbn. lia.
Qed.
