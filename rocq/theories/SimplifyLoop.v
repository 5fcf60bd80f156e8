(** The loop of simplify_obc *)
From Coq Require Import Reals Lra Bool List Arith ZArith Lia Ring.
From Verif Require Import Scalar ScalarFacts RScal Tensor TensorFacts Spec MpsModel MpsFacts StateFacts StateFacts2 MpoSpec CanonSpec CanonModel
  TruncFacts SplitFacts CanonFacts CanonSweep CanonNorm CanonProps CanonTwo SweepModel SweepSpec SweepFacts FormModel FormSpec LFormFacts LFormValue
  SimplifySpec SimplifyModel EckartYoung SimplifyFacts SimplifyStep SimplifyPair SimplifyDouble SimplifySweep.
Import ListNotations.
Local Open Scope K_scope.

Section Loop.
Context {RS : RScal}.
Variable svd : tensor -> tensor * list R * tensor.
Variable flag : R.
Hypothesis Hsvd : svd_contract svd.
Variables (ws : list K) (bras : list mps) (ds : list nat).
Hypothesis Hg : good_bras ws bras ds.
Notation D2 P := (dist2 ds (combo ws bras) (amp P)).
Notation At := (At ws bras ds).

Lemma kabs_rinj x : (0 <= x)%R -> kabs (rinj x) = x.
Proof. intros H. unfold kabs. rewrite kmod2_rinj. apply sqrt_square. exact H. Qed.

Lemma tensor_scprod_self t : tensor_scprod t t = rinj (frob2 t).
Proof.
  unfold tensor_scprod, frob2. induction (data t) as [|x l IH]; cbn; [symmetry; apply rinj_0|].
  rewrite IH, rinj_add, kmod2_spec. reflexivity.
Qed.

Definition W : R := weight ds (combo ws bras).

(** What is known of the state after a sweep in direction d *)
Definition done (d : bool) (L : nat) (P' : mps) (n : R) (err : R) : Prop :=
  let E := last_of d L in
  open_mps P' /\ pdims P' = ds /\ length P' = L /\ canonical_at E P' /\ opt ws bras E P' /\
  n = frob2 (site P' E) /\ err = sqrt (Rabs (1 - n / W)).

Lemma obc_loop_S single Dmax tol tolerance normQ2 n s P lf err normP2 :
  obc_loop svd flag single Dmax tol tolerance normQ2 (S n) s P lf err normP2 =
      bind (obc_sweep svd flag single Dmax tol s P lf) (fun '(s, P, lf) =>
      bind (site_at P (sweeper_site s)) (fun t =>
        if Req_EM_T normQ2 0 then Abort else
        if obc_stop tolerance err (sqrt (Rabs (1 - kabs (tensor_scprod t t) / normQ2))) then Ok (sweeper_flip s, P, sqrt (Rabs (1 - kabs (tensor_scprod t t) / normQ2)), kabs (tensor_scprod t t))
        else obc_loop svd flag single Dmax tol tolerance normQ2 n (sweeper_flip s) P lf (sqrt (Rabs (1 - kabs (tensor_scprod t t) / normQ2))) (kabs (tensor_scprod t t)))).
Proof. reflexivity. Qed.

Lemma obc_loop_ok single Dmax tol tolerance n : W <> 0%R -> (single = true -> Dmax = 0%Z) ->
  forall d P f s err np, (single = true \/ 2 <= length P)%nat ->
  At (last_of (negb d) (length P)) P f -> sw d (length P) (last_of (negb d) (length P)) s -> nz ws bras (eff_of flag single tol) P ->
  exists s' P' err' n' d', obc_loop svd flag single Dmax tol tolerance W (S n) s P f err np = Ok (s', P', err', n') /\
    sw (negb d') (length P) (last_of d' (length P)) s' /\ done d' (length P) P' n' err' /\
    (single = true -> forall j, (dim (site P' j) 0 <= dim (site P j) 0)%nat) /\ ((0 < Dmax)%Z -> bonds_le Dmax P') /\
    (exact_flag (eff_of flag single tol) -> small Dmax P -> canonical_at (last_of (negb d) (length P)) P -> (D2 P' <= D2 P)%R) /\
    ((single = true -> exact_flag flag) -> overlap ws bras P <> 0 -> overlap ws bras P' <> 0).
Proof.
  intros HW HD. induction n as [|n IH]; intros d P f s err np HL HA Hs Hn;
    destruct (obc_sweep_ok svd flag Hsvd ws bras ds Hg single Dmax tol d P f s HL HD HA Hs Hn) as (s1 & P1 & f1 & E & Hsw & Hdim & Hbd & Hmono & Hke);
    destruct Hsw as (Hl1 & Hs1 & HA1 & Hc1 & Hn1 & Ho1);
    pose proof HA1 as (Hop1 & Hpd1 & Hk1 & _);
    set (nn := frob2 (site P1 (last_of d (length P))));
    assert (Hdone : done d (length P) P1 nn (sqrt (Rabs (1 - nn / W)))) by (repeat split; auto; apply Hop1 || apply Hc1);
    assert (Hbd' : (0 < Dmax)%Z -> bonds_le Dmax P1) by (intros H; destruct (Hbd H) as [H'|H']; [lia|exact H']);
    pose proof (sw_flip d (length P) _ s1 Hs1) as Hfl;
    rewrite obc_loop_S, E; cbn [bind];
    replace (sweeper_site s1) with (Z.of_nat (last_of d (length P))) by (symmetry; apply Hs1);
    rewrite site_at_nat by lia; cbn [bind]; rewrite tensor_scprod_self, kabs_rinj by apply frob2_nonneg;
    fold nn; (destruct (Req_EM_T W 0) as [E0|_]; [contradiction|]).
  - exists (sweeper_flip s1), P1, (sqrt (Rabs (1 - nn / W))), nn, d. split; [destruct (obc_stop _ _ _); reflexivity|].
    repeat (split; [assumption|]). exact Hke.
  - destruct (obc_stop tolerance err (sqrt (Rabs (1 - nn / W)))).
    + exists (sweeper_flip s1), P1, (sqrt (Rabs (1 - nn / W))), nn, d. split; [reflexivity|]. repeat (split; [assumption|]). exact Hke.
    + destruct (IH (negb d) P1 f1 (sweeper_flip s1) (sqrt (Rabs (1 - nn / W))) nn) as (s' & P' & err' & n' & d' & E' & H1 & H2 & H3 & H4 & H5 & H6);
        rewrite ?negb_involutive, ?Hl1 in *; try assumption.
      exists s', P', err', n', d'. split; [exact E'|]. repeat (split; [assumption|]). split; [|split; [exact H4|split]].
      * intros Hsg j. eapply Nat.le_trans; [apply H3; exact Hsg|apply Hdim; exact Hsg].
      * intros He Hsm Hc. eapply Rle_trans; [apply H5; [exact He| |exact Hc1]|apply Hmono; assumption].
        destruct (Z.leb_spec Dmax 0); [left; lia|right; apply Hbd'; lia].
      * intros He Hne. apply H6; [exact He|]. apply Hke; assumption.
Qed.

Lemma done_facts d L P' n err : W <> 0%R -> (0 < L)%nat -> done d L P' n err ->
  weight ds (amp P') = n /\ overlap ws bras P' = rinj n /\ D2 P' = (W - n)%R /\ (0 <= err)%R /\ (err * err * W = D2 P')%R.
Proof.
  intros HW HL (Ho & Hd & Hl & Hc & Hop & Hn & He). set (E := last_of d L) in *.
  assert (HE : (E < length P')%nat) by (rewrite Hl; unfold E, last_of; destruct d; lia).
  pose proof (canonical_weight ws bras ds Hg E P' Ho Hd HE Hc) as Hw. pose proof (opt_overlap ws bras E P' Ho HE Hop) as Hov.
  pose proof (opt_dist ws bras ds Hg E P' Ho Hd HE Hc Hop) as Hdd. rewrite <- Hn in *. fold W in Hdd.
  split; [exact Hw|]. split; [exact Hov|]. split; [exact Hdd|]. split; [subst err; apply sqrt_pos|].
  pose proof (weight_nonneg ds (combo ws bras)) as HW0. fold W in HW0.
  assert (Hnn : (0 <= W - n)%R) by (rewrite <- Hdd; apply weight_nonneg).
  rewrite Hdd. subst err. rewrite sqrt_sqrt by apply Rabs_pos.
  assert (E1 : (1 - n / W = (W - n) / W)%R) by (field; exact HW). rewrite E1, Rabs_pos_eq.
  - field. exact HW.
  - apply Rmult_le_pos; [exact Hnn|]. apply Rlt_le, Rinv_0_lt_compat. lra.
Qed.

Lemma done_best d L P' n err T : (0 < L)%nat -> done d L P' n err -> wf T -> dims T = dims (site P' (last_of d L)) ->
  (D2 P' <= D2 (replace_nth (last_of d L) T P'))%R.
Proof.
  intros HL (Ho & Hd & Hl & Hc & Hop & Hn & He) HwT HdT. set (E := last_of d L) in *.
  assert (HE : (E < length P')%nat) by (rewrite Hl; unfold E, last_of; destruct d; lia).
  destruct (site_dims P' E Ho HE) as (a & i & b & Hs & Hws & _).
  pose proof (opt_best ws bras ds Hg E P' (tconj (site P' E)) T Ho Hd HE Hc Hop (wf_tconj _ Hws) eq_refl HwT HdT) as H.
  rewrite tconj_tconj, replace_nth_site in H. rewrite H.
  pose proof (rsumcfg_nonneg (dims T) (fun x => kmod2 (get T x - kconj (get (tconj (site P' E)) x))%K) (fun _ => kmod2_nonneg _)). lra.
Qed.

Lemma simplify_run algorithm tolerance P sense sweeps Dmax tol :
  let single := (Dmax =? 0)%Z && algorithm in
  open_mps P -> pdims P = ds -> sweeps <> 0%nat -> W <> 0%R -> (single = true \/ 2 <= length P)%nat -> nz ws bras (eff_of flag single tol) P ->
  let start := sweep_end (length P) sense in
  exists P' err n d,
    (simplify_obc svd flag algorithm tolerance P ws bras sense sweeps false Dmax tol = Ok (P', sgn d, err, n) /\
     simplify_obc svd flag algorithm tolerance P ws bras sense sweeps true Dmax tol =
      if Req_EM_T n 0 then Abort else
         Ok (replace_nth (last_of d (length P)) (tscale (rinj (/ sqrt n)%R) (site P' (last_of d (length P)))) P', sgn d, err, n)) /\
    done d (length P) P' n err /\
    (single = true -> forall j, (dim (site P' j) 0 <= dim (site P j) 0)%nat) /\ ((0 < Dmax)%Z -> bonds_le Dmax P') /\
    (exact_flag (eff_of flag single tol) -> small Dmax P -> canonical_at start P -> (D2 P' <= D2 P)%R) /\
    ((single = true -> exact_flag flag) -> overlap ws bras P <> 0 -> overlap ws bras P' <> 0).
Proof.
  intros single Ho Hd Hsw HW HL Hn start.
  assert (HL0 : (0 < length P)%nat) by (destruct P; [destruct Ho; congruence|cbn; lia]).
  set (d := (sense <? 0)%Z).
  assert (Hst : start = last_of (negb d) (length P)) by (unfold start, sweep_end, d; destruct (sense <? 0)%Z; reflexivity).
  unfold simplify_obc. destruct (Nat.eqb_spec sweeps 0) as [|_]; [contradiction|]. fold single.
  assert (Ens : exists s, new_sweeper (Z.of_nat (length P)) (- sense) = Ok s /\ sw d (length P) start s).
  { unfold new_sweeper. destruct (Z.ltb_spec 0 (Z.of_nat (length P))); [|lia]. unfold sw, start, sweep_end, d, last_of.
    destruct (Z.ltb_spec 0 (- sense)), (Z.ltb_spec sense 0); try lia; eexists; (split; [reflexivity|]); cbn [sk sk0 skN sdk negb sgn]; lia. }
  destruct Ens as (s & Es & Hs). rewrite Es. cbn [bind]. replace (sweeper_site s) with (Z.of_nat start) by (symmetry; apply Hs).
  assert (Hstart : (start < length P)%nat) by (rewrite Hst; unfold last_of; destruct (negb d); lia).
  destruct (lform_new ws bras P (Z.of_nat start)) as [f|] eqn:Ef.
  2:{ exfalso. destruct Hg as (Hne & _ & Hb). destruct bras as [|b bb]; [congruence|]. destruct (Hb b (or_introl eq_refl)) as (_ & Hdb).
      unfold lform_new in Ef. cbn [length Nat.eqb nth] in Ef.
      assert (El : length b = length P) by (rewrite <- (length_pdims b), <- (length_pdims P); congruence). rewrite El in Ef.
      destruct (Z.ltb_spec (Z.of_nat start) 0); [lia|]. destruct (Z.leb_spec (Z.of_nat (length P)) (Z.of_nat start)); [lia|]. cbn [orb] in Ef. discriminate. }
  cbn [bind]. pose proof (lfh_new ws bras ds P start f Ho Hd Ef) as Hh.
  destruct (history_linv ws bras ds Hg f _ _ Hh) as (((Hw & Hb & _) & _) & _). rewrite (lf_norm_value ws bras ds Hg f Hw Hb). cbn [bind].
  rewrite (norm_combo ws bras ds). fold W. pose proof (weight_nonneg ds (combo ws bras)) as HW0. fold W in HW0.
  rewrite kabs_rinj, sqrt_sqrt by exact HW0.
  destruct sweeps as [|sn]; [congruence|].
  rewrite Hst in Hs, Hh, Hstart.
  destruct (obc_loop_ok single Dmax tol tolerance sn HW) with (d := d) (P := P) (f := f) (s := s) (err := 1%R) (np := 0%R)
    as (s' & P' & err & n' & d' & E & H1 & H2 & H3 & H4 & H5 & H6).
  { unfold single. intros H. apply andb_true_iff in H. apply Z.eqb_eq. apply H. }
  { exact HL. }
  { repeat split; auto; apply Ho. }
  { exact Hs. }
  { exact Hn. }
  rewrite E. cbn [bind]. exists P', err, n', d'. rewrite Hst. split; [|repeat (split; [assumption|]); exact H6].
  assert (Esn : (- sweeper_sense s')%Z = sgn d') by (unfold sweeper_sense; destruct H1 as (_ & _ & _ & ->); destruct d'; reflexivity). rewrite Esn.
  split; [reflexivity|]. destruct (Req_EM_T n' 0); [reflexivity|].
  replace (sweeper_site s') with (Z.of_nat (last_of d' (length P))) by (symmetry; apply H1).
  rewrite site_at_nat by (destruct H2 as (_ & _ & -> & _); unfold last_of; destruct d'; lia). cbn [bind]. rewrite Nat2Z.id. reflexivity.
Qed.
End Loop.
