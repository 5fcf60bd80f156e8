(** * C54: evolve_itime() with the operations of infinite states *)
From Coq Require Import Reals Lra Bool List Arith ZArith Lia Ring.
From Verif Require Import Scalar ScalarFacts RScal Tensor TensorFacts Spec MpsModel MpsFacts CanonModel CanonSpec TruncFacts CanonFacts CanonSweep DecompModel ToolsModel ITebdModel ITebdSpec ITebdSpec2 ITimeModel Properties_ITebd4 Properties_ITebd6.
Import ListNotations.
Local Open Scope K_scope.

Section C54.
Context {RS : RScal}.
Add Ring Kring : k_ring.
Variable svd : tensor -> tensor * list R * tensor.
Variable flag : R.
Variable eigs : (tensor -> tensor) -> nat -> tensor -> tensor.
Variable eig_sym : tensor -> list R * tensor.
Variable expm : tensor -> tensor.
Hypothesis Hsvd : svd_contract svd.
Hypothesis Hes : eig_sym_contract eig_sym.
Hypothesis Hei : eigs_sized eigs.

(** A wave function of the ring of [n] cells after one layer: exp(-c dt H12) on every pair of sites (0,1), (2,3), ...
    for site 0, on (1,2), ..., (last,0) for site 1; after the layers of one step, and after several steps *)
Definition layer (psi : itebd) (dt : R) (H12 : tensor) (n : nat) (p : R * nat) (f : list nat -> K) (is : list nat) : K :=
  sumcfg (cell_dims psi n) (fun js => on_ring psi (Z.of_nat (snd p)) (mat (expm (tscale (rinj (- dt * fst p)%R) H12))) is js * f js).
Definition layers (psi : itebd) (dt : R) (H12 : tensor) (n : nat) (l : list (R * nat)) (f : list nat -> K) : list nat -> K :=
  fold_left (fun f p => layer psi dt H12 n p f) l f.
Definition after_steps (psi : itebd) (dt : R) (H12 : tensor) (method n k : nat) : list nat -> K :=
  Nat.iter k (layers psi dt H12 n (itime_layers method)) (ring psi n).

(** [phi] is the state [psi] after k steps, up to one factor per cell: in every ring *)
Definition evolved (psi : itebd) (dt : R) (H12 : tensor) (method k : nat) (phi : itebd) : Prop :=
  wf_itebd phi /\ (forall n, cell_dims phi n = cell_dims psi n) /\
  exists N, (0 < N)%R /\ forall n is, in_range (cell_dims psi n) is -> rinj (N ^ n)%R * ring phi n is = after_steps psi dt H12 method n k is.

Variables (dt : R) (H12 : tensor) (tol : R) (Dmax : Z) (method : nat).
Hypothesis Ht : (eff_tol flag tol = 0 \/ 1 <= eff_tol flag tol)%R.
Hypothesis HD : (Dmax <= 0)%Z.
(** expm returns tensors *)
Hypothesis HU : forall c, wf (expm (tscale (rinj (- dt * c)%R) H12)).

Lemma layer_ext psi n p f g is : (forall js, in_range (cell_dims psi n) js -> f js = g js) -> layer psi dt H12 n p f is = layer psi dt H12 n p g is.
Proof. intros H. unfold layer. apply sumcfg_ext. intros js Hj. rewrite H by exact Hj. reflexivity. Qed.
Lemma layers_cons psi n p l f : layers psi dt H12 n (p :: l) f = layers psi dt H12 n l (layer psi dt H12 n p f).
Proof. reflexivity. Qed.
Lemma layers_ext psi n l : forall f g, (forall js, in_range (cell_dims psi n) js -> f js = g js) ->
  forall is, in_range (cell_dims psi n) is -> layers psi dt H12 n l f is = layers psi dt H12 n l g is.
Proof.
  induction l as [|p l IH]; intros f g H is Hi; [apply H; exact Hi|]. rewrite !layers_cons. apply IH; [|exact Hi]. intros js Hj. apply layer_ext; exact H.
Qed.
Lemma layer_scale psi n p c f is : layer psi dt H12 n p (fun js => c * f js) is = c * layer psi dt H12 n p f is.
Proof. unfold layer. rewrite sumcfg_mul_l. apply sumcfg_ext. intros. ring. Qed.
Lemma layers_scale psi n l c : forall f is, in_range (cell_dims psi n) is -> layers psi dt H12 n l (fun js => c * f js) is = c * layers psi dt H12 n l f is.
Proof.
  induction l as [|p l IH]; intros f is Hi; [reflexivity|]. rewrite !layers_cons.
  etransitivity; [|apply IH; exact Hi]. apply layers_ext; [|exact Hi]. intros js Hj. apply layer_scale.
Qed.
Lemma layer_dims psi phi n p f is : (forall n, cell_dims phi n = cell_dims psi n) -> layer phi dt H12 n p f is = layer psi dt H12 n p f is.
Proof.
  intros H. unfold layer. rewrite H. apply sumcfg_ext. intros js Hj. f_equal. unfold on_ring. pose proof (H 1%nat) as H1. unfold cell_dims in H1. cbn in H1. injection H1 as -> ->. reflexivity.
Qed.
Lemma layers_dims psi phi n l : (forall n, cell_dims phi n = cell_dims psi n) -> forall f is, in_range (cell_dims psi n) is -> layers phi dt H12 n l f is = layers psi dt H12 n l f is.
Proof.
  intros H. induction l as [|p l IH]; intros f is Hi; [reflexivity|]. rewrite !layers_cons.
  rewrite IH by exact Hi. apply layers_ext; [|exact Hi]. intros js Hj. apply layer_dims; exact H.
Qed.

(** The layers of a list *)
Lemma apply_layers_ok l : forall psi psi', wf_itebd psi -> apply_layers svd flag eigs eig_sym expm dt H12 tol Dmax l psi = Ok psi' ->
  wf_itebd psi' /\ (forall n, cell_dims psi' n = cell_dims psi n) /\
  exists N, (0 < N)%R /\ forall n is, in_range (cell_dims psi n) is -> rinj (N ^ n)%R * ring psi' n is = layers psi dt H12 n l (ring psi n) is.
Proof.
  induction l as [|[c site] l IH]; intros psi psi' Hw E; cbn [apply_layers] in E.
  - apply Ok_inj' in E. subst psi'. split; [exact Hw|]. split; [reflexivity|]. exists 1%R. split; [lra|]. intros n is Hi. rewrite pow1, rinj_1. cbn. ring.
  - destruct (apply_operator svd flag eigs eig_sym psi (itime_gate expm dt H12 c) (Z.of_nat site) tol Dmax) as [psi1|] eqn:E1; [|discriminate]. cbn [bind] in E.
    destruct (C53_apply_form svd flag eigs eig_sym Hsvd Hes Hei psi (itime_gate expm dt H12 c) (Z.of_nat site) tol Dmax psi1 Hw (HU c) E1) as (Hw1 & _ & Hd1 & _).
    destruct (C53_apply_exact svd flag eigs eig_sym Hsvd Hes Hei psi (itime_gate expm dt H12 c) (Z.of_nat site) tol Dmax psi1 Hw (HU c) Ht HD E1) as (N1 & HN1 & Hr1).
    destruct (IH psi1 psi' Hw1 E) as (Hw2 & Hd2 & N2 & HN2 & Hr2).
    split; [exact Hw2|]. split; [intros n; rewrite Hd2; apply Hd1|].
    exists (N1 * N2)%R. split; [apply Rmult_lt_0_compat; assumption|]. intros n is Hi.
    rewrite Rpow_mult_distr, rinj_mul. transitivity (rinj (N1 ^ n)%R * (rinj (N2 ^ n)%R * ring psi' n is)); [ring|].
    rewrite Hr2 by (rewrite Hd1; exact Hi). rewrite (layers_dims psi psi1 n l Hd1) by exact Hi.
    rewrite <- layers_scale by exact Hi. rewrite layers_cons. apply layers_ext; [|exact Hi].
    intros js Hj. rewrite Hr1 by exact Hj. reflexivity.
Qed.

(** Steps *)
Lemma steps_ok m : forall psi k phi phi', wf_itebd psi -> evolved psi dt H12 method k phi ->
  itime_steps svd flag eigs eig_sym expm dt H12 tol Dmax method m phi = Ok phi' -> evolved psi dt H12 method (m + k) phi'.
Proof.
  induction m as [|m IH]; intros psi k phi phi' Hw He E; cbn [itime_steps] in E.
  - apply Ok_inj' in E. subst phi'. exact He.
  - destruct (apply_layers svd flag eigs eig_sym expm dt H12 tol Dmax (itime_layers method) phi) as [phi1|] eqn:E1; [|discriminate]. cbn [bind] in E.
    replace (S m + k)%nat with (m + S k)%nat by lia. refine (IH psi (S k) phi1 phi' Hw _ E).
    destruct He as (Hwp & Hdp & N & HN & Hr). destruct (apply_layers_ok (itime_layers method) phi phi1 Hwp E1) as (Hw1 & Hd1 & N1 & HN1 & Hr1).
    split; [exact Hw1|]. split; [intros n; rewrite Hd1; apply Hdp|]. exists (N * N1)%R. split; [apply Rmult_lt_0_compat; assumption|].
    intros n is Hi. rewrite Rpow_mult_distr, rinj_mul. transitivity (rinj (N ^ n)%R * (rinj (N1 ^ n)%R * ring phi1 n is)); [ring|].
    rewrite Hr1 by (rewrite Hdp; exact Hi). rewrite (layers_dims psi phi n _ Hdp) by exact Hi. rewrite <- layers_scale by exact Hi.
    unfold after_steps. change (Nat.iter (S k) ?F ?x) with (F (Nat.iter k F x)). apply layers_ext; [|exact Hi]. intros js Hj. apply Hr. exact Hj.
Qed.

Lemma measure_ok psi k phi Es Ss phi' Es' Ss' : evolved psi dt H12 method k phi ->
  itime_measure svd eigs eig_sym H12 phi Es Ss = Ok (phi', Es', Ss') ->
  evolved psi dt H12 method k phi' /\ icanon phi' = true /\ exists E S, Es' = Es ++ [E] /\ Ss' = Ss ++ [S] /\
    energy_value svd eigs eig_sym phi' H12 = Ok E /\ total_entropy svd eigs eig_sym phi' = Ok S.
Proof.
  intros (Hw & Hd & N & HN & Hr) E. unfold itime_measure in E.
  destruct (canonical_form svd eigs eig_sym phi) as [phi1|] eqn:E1; [|discriminate]. cbn [bind] in E.
  destruct (energy_value svd eigs eig_sym phi1 H12) as [x|] eqn:E2; [|discriminate]. cbn [bind] in E.
  destruct (total_entropy svd eigs eig_sym phi1) as [y|] eqn:E3; [|discriminate]. cbn [bind] in E.
  apply Ok_inj' in E. injection E as <- <- <-.
  destruct (C63_canonical_ring svd eigs eig_sym Hsvd Hes phi phi1 Hw Hei E1) as (Hw1 & Hc1 & Hd1 & Hr1 & _).
  split; [|split; [exact Hc1|exists x, y; auto]].
  split; [exact Hw1|]. split; [intros n; rewrite Hd1; apply Hd|]. exists N. split; [exact HN|]. intros n is Hi. rewrite Hr1 by (rewrite Hd; exact Hi). apply Hr. exact Hi.
Qed.

(** [phis] are the states that were measured, one every [m] steps: what the lists contain *)
Definition record (psi : itebd) (m : nat) (Es : list R) (Ss : list (option R)) (phis : list itebd) : Prop :=
  length Es = length phis /\ length Ss = length phis /\
  forall j phi, nth_error phis j = Some phi -> evolved psi dt H12 method (j * m) phi /\ icanon phi = true /\
    exists E S, nth_error Es j = Some E /\ nth_error Ss j = Some S /\
      energy_value svd eigs eig_sym phi H12 = Ok E /\ total_entropy svd eigs eig_sym phi = Ok S.

Lemma record_app psi m Es Ss phis phi E S : record psi m Es Ss phis -> evolved psi dt H12 method (length phis * m) phi -> icanon phi = true ->
  energy_value svd eigs eig_sym phi H12 = Ok E -> total_entropy svd eigs eig_sym phi = Ok S -> record psi m (Es ++ [E]) (Ss ++ [S]) (phis ++ [phi]).
Proof.
  intros (H1 & H2 & H3) H4 H5 H6 H7. split; [rewrite !app_length; cbn; lia|]. split; [rewrite !app_length; cbn; lia|].
  intros j phi0 Hj. destruct (Nat.lt_ge_cases j (length phis)) as [Hl|Hl].
  - rewrite nth_error_app1 in Hj by exact Hl. destruct (H3 j phi0 Hj) as (A & B & E0 & S0 & C1 & C2 & C3 & C4). split; [exact A|]. split; [exact B|].
    exists E0, S0. rewrite !nth_error_app1 by lia. auto.
  - assert (j = length phis). { assert (nth_error (phis ++ [phi]) j <> None) as Hn by congruence. apply nth_error_Some in Hn. rewrite app_length in Hn. cbn in Hn. lia. }
    subst j. rewrite nth_error_app2, Nat.sub_diag in Hj by lia. injection Hj as <-. split; [exact H4|]. split; [exact H5|].
    exists E, S. rewrite !nth_error_app2 by lia. rewrite H1, H2, Nat.sub_diag. auto.
Qed.

Lemma phases_ok m phases : forall psi phis phi Es Ss phi' Es' Ss', wf_itebd psi -> record psi m Es Ss (phis ++ [phi]) ->
  itime_phases svd flag eigs eig_sym expm dt H12 tol Dmax method m phases phi Es Ss = Ok (phi', Es', Ss') ->
  exists phis', record psi m Es' Ss' (phis' ++ [phi']) /\ length phis' = (phases + length phis)%nat.
Proof.
  induction phases as [|n IH]; intros psi phis phi Es Ss phi' Es' Ss' Hw Hrec E; cbn [itime_phases] in E.
  - apply Ok_inj' in E. injection E as <- <- <-. exists phis. split; [exact Hrec|reflexivity].
  - destruct (itime_steps svd flag eigs eig_sym expm dt H12 tol Dmax method m phi) as [phi1|] eqn:E1; [|discriminate]. cbn [bind] in E.
    destruct (itime_measure svd eigs eig_sym H12 phi1 Es Ss) as [[[phi2 Es2] Ss2]|] eqn:E2; [|discriminate]. cbn [bind] in E.
    assert (He : evolved psi dt H12 method (length phis * m) phi).
    { destruct Hrec as (_ & _ & H3). apply (H3 (length phis) phi). rewrite nth_error_app2, Nat.sub_diag by lia. reflexivity. }
    pose proof (steps_ok m psi _ phi phi1 Hw He E1) as He1.
    destruct (measure_ok psi _ phi1 Es Ss phi2 Es2 Ss2 He1 E2) as (He2 & Hc2 & x & y & -> & -> & F1 & F2).
    destruct (IH psi (phis ++ [phi]) phi2 (Es ++ [x]) (Ss ++ [y]) phi' Es' Ss' Hw) as (phis' & R1 & R2).
    + apply record_app; try assumption. rewrite app_length. cbn [length]. replace ((length phis + 1) * m)%nat with (m + length phis * m)%nat by lia. exact He2.
    + exact E.
    + exists phis'. split; [exact R1|]. rewrite app_length in R2. cbn [length] in R2. lia.
Qed.

(** evolve_itime() without truncation: the measured states are the initial state after 0, m, 2m, ... steps of the
    Trotter formula, m being the interval deltan (one if it is zero), up to the first multiple of m that is
    not below nsteps; the last of them is returned, in canonical form.  The lists have the energy and the
    entropy of each. *)
Theorem C54_evolves psi nsteps deltan phi Es Ss : wf_itebd psi ->
  evolve_infinite svd flag eigs eig_sym expm psi H12 dt nsteps tol Dmax deltan method = Ok (phi, Es, Ss) ->
  let m := if Nat.eqb deltan 0 then 1%nat else deltan in
  exists phis p, record psi m Es Ss (phis ++ [phi]) /\ length phis = p /\ (nsteps <= p * m < nsteps + m)%nat.
Proof.
  intros Hw E m. unfold evolve_infinite in E.
  destruct (itime_measure svd eigs eig_sym H12 psi [] []) as [[[phi0 Es0] Ss0]|] eqn:E0; [|discriminate]. cbn [bind] in E. fold m in E. cbv zeta in E.
  assert (He0 : evolved psi dt H12 method 0 psi).
  { split; [exact Hw|]. split; [reflexivity|]. exists 1%R. split; [lra|]. intros n is Hi. rewrite pow1, rinj_1. unfold after_steps. cbn. ring. }
  destruct (measure_ok psi 0 psi [] [] phi0 Es0 Ss0 He0 E0) as (He & Hc & x & y & -> & -> & F1 & F2).
  destruct (phases_ok m ((nsteps + m - 1) / m) psi [] phi0 [x] [y] phi Es Ss Hw) as (phis & R1 & R2).
  - apply (record_app psi m [] [] [] phi0 x y); try assumption. split; [reflexivity|]. split; [reflexivity|]. intros j p Hj. destruct j; discriminate.
  - exact E.
  - exists phis, ((nsteps + m - 1) / m)%nat. split; [exact R1|]. split; [rewrite R2; cbn; lia|].
    assert (Hm : (0 < m)%nat) by (unfold m; destruct (Nat.eqb_spec deltan 0); lia).
    pose proof (Nat.div_mod (nsteps + m - 1) m ltac:(lia)) as D. pose proof (Nat.mod_upper_bound (nsteps + m - 1) m ltac:(lia)) as U. nia.
Qed.
End C54.
