(** * One step and one sweep of solve() with the one-site algorithm *)
From Coq Require Import Reals Lra Bool List Arith ZArith Lia Ring.
From Verif Require Import Scalar ScalarFacts RScal Tensor TensorFacts Spec MpsModel MpsFacts StateFacts StateFacts2 MpoSpec MpoFacts CanonSpec CanonModel
  TruncFacts SplitFacts CanonFacts CanonSweep CanonNorm CanonProps CanonTwo SweepModel SweepFacts FormModel FormSpec LFormFacts QFormFacts SparseFacts QFormInv QFormValue QFormMain
  SimplifySpec SimplifyModel SimplifyFacts SimplifyStep SimplifySweep MinimizerModel MinLive MinimizeSpec MinLocal MinStep SolveModel SolveSpec SolveLive SolveAlg.
Import ListNotations.
Local Open Scope K_scope.

Section Step.
Context {RS : RScal}.
Add Ring Kring : k_ring.
Variable svd : tensor -> tensor * list R * tensor.
Variable flag : R.
Hypothesis Hsvd : svd_contract svd.
Variable lsolve : tensor -> tensor -> tensor.
Hypothesis Hls : lsolve_contract lsolve.
Variables (O : mpo) (ds : list nat).
Hypothesis HO : hamiltonian O ds.
Variable b : nat -> nat.
Hypothesis Hb : path O b.
Variables (ws : list K) (bras : list mps).
Hypothesis Hg : good_bras ws bras ds.
(** the value of the quadratic form *)
Variable g : mps -> R.
Hypothesis Hg1 : forall P, open_mps P -> pdims P = ds -> rinj (g P) = sandwich P O P.
Hypothesis Hg0 : forall P, (0 <= g P)%R.
Hypothesis Hgk : forall P, open_mps P -> pdims P = ds -> g P = 0%R -> overlap ws bras P = 0 /\ forall P', open_mps P' -> pdims P' = ds -> sandwich P' O P = 0.
Notation QAt := (QAt O ds b).
Notation At := (At ws bras ds).
Notation ov P := (overlap ws bras P).
(** what is minimized, up to a constant *)
Definition Fn (P : mps) : R := (g P - 2 * kre (ov P))%R.

Lemma sandwich_ext A A' B B' : pdims A = ds -> pdims A' = ds -> pdims B = ds -> pdims B' = ds ->
  (forall is, in_range ds is -> amp A' is = amp A is) -> (forall is, in_range ds is -> amp B' is = amp B is) -> sandwich A' O B' = sandwich A O B.
Proof.
  intros H1 H2 H3 H4 EA EB. unfold sandwich. rewrite H1, H2, H3, H4. apply sumcfg_ext. intros is Hi. apply sumcfg_ext. intros js Hj.
  rewrite EA, EB by assumption. reflexivity.
Qed.

Lemma Fn_ext P P' : open_mps P -> open_mps P' -> pdims P = ds -> pdims P' = ds -> (forall is, in_range ds is -> amp P' is = amp P is) ->
  Fn P' = Fn P /\ ov P' = ov P.
Proof.
  intros O1 O2 H1 H2 He. destruct (overlap_ext ws bras ds P P' H1 H2 He) as (E1 & _). split; [|exact E1]. unfold Fn. rewrite E1. f_equal.
  apply rinj_inj. rewrite !Hg1 by assumption. apply sandwich_ext; assumption.
Qed.

Lemma matrix1_full f p q p' q' S T v : qinv O f p q p' q' -> live O b f ->
  linked 1 (p ++ S :: q) 1 -> linked 1 (p' ++ T :: q') 1 -> pdims (p ++ S :: q) = odims O -> pdims (p' ++ T :: q') = idims O ->
  single_site_matrix f = Ok v -> is_empty v = false /\ wf v.
Proof.
  intros Hi Hlive HS HT HdS HdT Hv.
  pose proof (live_matrix1 O (H_open O ds HO) (H_sq O ds HO) b Hb f p q p' q' S T v Hi Hlive HS HT HdS HdT Hv) as He. split; [exact He|].
  destruct (one_site_setup O (H_open O ds HO) (H_sq O ds HO) f p q p' q' S T Hi HS HT HdS HdT) as
    (ra & rb & ca & cb & d & S1 & T1 & _ & _ & Hpos & _ & _ & _ & _ & Ht & Hps & HL & HR & _).
  destruct (single_matrix_vten _ _ _ _ _ _ _ _ _ _ _ _ Ht Hpos HL HR) as (M & HM & HV).
  assert (Hh : qf_here f = length p) by apply Hi. unfold single_site_matrix in Hv. rewrite Hh, Hps in Hv.
  pose proof (eq_trans (eq_sym Hv) HM) as E. apply Ok_inj' in E. subst M. apply (vten_full _ _ _ HV He).
Qed.

(** The matrix of the local problem *)
Lemma local_matrix k P f : QAt k P f -> let d := dims (site P k) in let n := nprod d in
  exists M, single_site_matrix f = Ok M /\ is_matrix M n n /\
    forall x y, sandwich (emb1 k P x) O (emb1 k P y) = qform_of n (fun r c => get M [r; c]) x y.
Proof.
  intros HQ d n. pose proof HQ as (Ho & Hd & Hk & Hh & Hlive). pose proof (qat_qinv O ds HO b k P f HQ) as Hi.
  assert (Hsp : forall x, linked 1 (firstn k P ++ ten d x :: skipn (S k) P) 1 /\ pdims (firstn k P ++ ten d x :: skipn (S k) P) = ds /\ emb1 k P x = firstn k P ++ ten d x :: skipn (S k) P).
  { intros x. destruct (emb1_open ds k P x Ho Hd Hk) as ((_ & H1) & H2). unfold emb1 in *. fold d in H1, H2 |- *. rewrite (replace_split k _ P Hk) in H1, H2 |- *. auto. }
  destruct (Hsp (fun _ => 0)) as (L0 & D0 & _).
  pose proof (H_open O ds HO) as HOo. pose proof (H_sq O ds HO) as HOs. pose proof (H_o O ds HO) as Edo. pose proof (H_i O ds HO) as Edi.
  destruct (single_matrix_value O HOo HOs f _ _ _ _ _ _ Hi L0 L0 ltac:(congruence) ltac:(congruence)) as (Mt & EM & Hdm & _).
  destruct (matrix1_full f _ _ _ _ _ _ Mt Hi Hlive L0 L0 ltac:(congruence) ltac:(congruence) EM) as (He & Hw).
  exists Mt. split; [exact EM|]. split.
  { split; [|exact Hw]. destruct Hdm as [Hdm|Hdm]; [congruence|]. exact Hdm. }
  intros x y. destruct (Hsp x) as (Lx & Dx & ->). destruct (Hsp y) as (Ly & Dy & ->).
  destruct (single_matrix_value O HOo HOs f _ _ _ _ _ _ Hi Lx Ly ltac:(congruence) ltac:(congruence)) as (M' & EM' & _ & <-).
  rewrite EM in EM'. apply Ok_inj' in EM'. subst M'. unfold msandwich, qform_of. cbn [dims ten]. fold n. apply sum_ext. intros r Hr. apply sum_ext. intros c Hc'.
  rewrite !nth_ten by assumption. unfold elem. rewrite He. reflexivity.
Qed.

Lemma scprod_vec (a c : list K) n : length a = n -> length c = n ->
  fold_right (fun p r => kconj (fst p) * snd p + r) 0 (combine a c) = sum n (fun i => kconj (nth i a 0) * nth i c 0).
Proof.
  revert a c. induction n as [|n IH]; intros a c Ha Hc; destruct a as [|x a], c as [|y c]; try discriminate; [reflexivity|].
  rewrite sum_S_l. cbn [combine fold_right fst snd nth]. rewrite (IH a c) by (cbn in *; lia). reflexivity.
Qed.

Lemma get_flat t i : get (flatten t) [i] = nth i (data t) 0.
Proof. unfold flatten, get. cbn [reshape dims data offset]. rewrite Nat.mul_0_r, Nat.add_0_r. reflexivity. Qed.

(** What the local equation gives *)
Lemma local_solution k P lf qf : At k P lf -> QAt k P qf ->
  let d := dims (site P k) in let n := nprod d in
  exists v M X, single_site_vector lf = Ok v /\ single_site_matrix qf = Ok M /\ wf v /\ dims v = d /\
    let vP := lsolve M (flatten (tconj v)) in
    checked_reshape vP (dims (tconj v)) = Ok X /\ wf X /\ dims X = d /\
    let P1 := replace_nth k X P in
    open_mps P1 /\ pdims P1 = ds /\
    (kre (tensor_scprod vP (mmult M vP)) - 2 * kre (tensor_scprod (tconj v) vP) = Fn P1)%R /\
    (forall phi, open_mps phi -> pdims phi = ds -> differs_at P phi k -> (Fn P1 <= Fn phi)%R) /\
    (ov P <> 0 -> ov P1 <> 0 /\ nonzero3 X) /\ ov P1 = rinj (g P1).
Proof.
  intros HA HQ d n. pose proof HA as (Ho & Hpd & Hk & _).
  destruct (at_repr ws bras ds Hg k P lf HA) as (v & Ev & Hwv & Hdv & Hr). fold d in Hdv.
  destruct (local_matrix k P qf HQ) as (M & EM & HM & HMv). fold d in HM, HMv. fold n in HM, HMv.
  destruct (site_dims P k Ho Hk) as (a & i & c & Hs & Hws & Ha & Hi & Hc0).
  assert (Hn0 : (0 < n)%nat) by (unfold n, d; rewrite Hs; cbn; nia).
  assert (Hlv : length (data v) = n) by (unfold wf in Hwv; rewrite Hdv in Hwv; exact Hwv).
  assert (Hlc : length (data (tconj v)) = n) by (unfold tconj; cbn [data]; rewrite map_length; exact Hlv).
  set (vv := fun r => nth r (data v) 0).
  assert (Elin : forall x, ov (emb1 k P x) = lin n vv x).
  { intros x. unfold emb1. fold d. rewrite <- (Hr (ten d x) (wf_ten _ _) eq_refl). unfold dot, lin. cbn [dims ten]. fold (ten d x).
    unfold n. rewrite sum_offset. apply sumcfg_ext. intros u Hu. rewrite get_ten by exact Hu. unfold get. rewrite Hdv. reflexivity. }
  set (MM := fun r c => get M [r; c]) in *.
  assert (Hopen : forall x, open_mps (emb1 k P x) /\ pdims (emb1 k P x) = ds) by (intros x; apply emb1_open; assumption).
  assert (Hherm : hermitian n MM).
  { intros r s Hr' Hs'. rewrite <- (sum_delta2 n MM r s), <- (sum_delta2 n MM s r) by assumption.
    fold (qform_of n MM (delta r) (delta s)). fold (qform_of n MM (delta s) (delta r)). rewrite <- !HMv.
    rewrite (sandwich_conj O ds HO); [reflexivity|apply Hopen|apply Hopen]. }
  set (q := fun x => g (emb1 k P x)).
  assert (Hq : forall x, rinj (q x) = qform_of n MM x x) by (intros x; unfold q; rewrite Hg1 by apply Hopen; apply HMv).
  assert (Hq0 : forall x, (0 <= q x)%R) by (intros x; apply Hg0).
  assert (Hker : forall x, q x = 0%R -> lin n vv x = 0).
  { intros x Hx. rewrite <- Elin. destruct (Hopen x) as (H1 & H2). apply (Hgk _ H1 H2 Hx). }
  destruct (normal_solvable n MM vv q Hn0 Hherm Hq Hker) as (p0 & Hp0).
  set (bb := flatten (tconj v)).
  assert (Hbd : dims bb = [n]) by (unfold bb, flatten; cbn [reshape dims]; rewrite Hlc; reflexivity).
  assert (Hbw : wf bb) by (unfold wf; rewrite Hbd; unfold bb, flatten; cbn [reshape data nprod fold_right]; lia).
  assert (Hbg : forall j, (j < n)%nat -> get bb [j] = kconj (vv j)).
  { intros j Hj. unfold bb. rewrite get_flat. unfold tconj; cbn [data]. unfold vv.
    rewrite (nth_indep _ 0 (kconj 0)) by (rewrite map_length; lia). apply map_nth. }
  destruct (Hls n M bb Hn0 HM Hbd Hbw) as (Hxd & Hxw & Hx).
  { exists p0. intros j Hj. rewrite Hbg by exact Hj. apply Hp0. exact Hj. }
  set (vP := lsolve M bb) in *.
  assert (Hnd : nprod d = n) by reflexivity.
  destruct (checked_reshape_ok vP (dims (tconj v)) Hxw ltac:(change (dims (tconj v)) with (dims v); rewrite Hdv; exact Hxd)) as (E1 & E2).
  change (dims (tconj v)) with (dims v) in E1, E2. rewrite Hdv in E1, E2.
  set (p := fun r => get vP [r]) in *.
  assert (Hp : forall r, (r < n)%nat -> sum n (fun j => MM r j * p j) = kconj (vv r)) by (intros r Hr'; rewrite <- Hbg by exact Hr'; apply Hx; exact Hr').
  exists v, M, (reshape vP d). split; [exact Ev|]. split; [exact EM|]. split; [exact Hwv|]. split; [exact Hdv|]. fold bb. cbv zeta. fold vP.
  split; [change (dims (tconj v)) with (dims v); rewrite Hdv; exact E1|]. rewrite E2. split; [apply wf_ten|]. split; [reflexivity|].
  change (replace_nth k (ten d p) P) with (emb1 k P p). destruct (Hopen p) as (O1 & D1). split; [exact O1|]. split; [exact D1|].
  pose proof (lin_p n MM vv q Hq p Hp) as Hlp.
  assert (HlP : length (data vP) = n) by (unfold wf in Hxw; rewrite Hxd in Hxw; cbn [nprod fold_right] in Hxw; rewrite Nat.mul_1_r in Hxw; exact Hxw).
  assert (HnP : forall r, nth r (data vP) 0 = p r) by (intros r; unfold p, get; rewrite Hxd; cbn [offset]; rewrite Nat.mul_0_r, Nat.add_0_r; reflexivity).
  assert (Ev2 : tensor_scprod (tconj v) vP = lin n vv p).
  { unfold tensor_scprod. rewrite (scprod_vec _ _ n Hlc HlP). unfold lin. apply sum_ext. intros r Hr'. rewrite HnP. f_equal.
    rewrite <- get_flat. fold bb. rewrite Hbg by exact Hr'. apply kconj_inv. }
  assert (Em2 : tensor_scprod vP (mmult M vP) = qform_of n MM p p).
  { destruct HM as (HMd & HMw).
    assert (Hdm : dims (mmult M vP) = [n]) by (unfold mmult, fold, rank; rewrite HMd, Hxd; reflexivity).
    assert (Hwm : wf (mmult M vP)) by (unfold mmult, fold; apply wf_mk).
    assert (Hlm : length (data (mmult M vP)) = n) by (unfold wf in Hwm; rewrite Hdm in Hwm; cbn [nprod fold_right] in Hwm; rewrite Nat.mul_1_r in Hwm; exact Hwm).
    unfold tensor_scprod. rewrite (scprod_vec _ _ n HlP Hlm). unfold qform_of. apply sum_ext. intros r Hr'. rewrite HnP.
    transitivity (kconj (p r) * get (mmult M vP) [r]).
    - f_equal. unfold get. rewrite Hdm. cbn [offset]. rewrite Nat.mul_0_r, Nat.add_0_r. reflexivity.
    - rewrite (sum_ext n _ (fun c => kconj (p r) * (MM r c * p c))) by (intros; ring). rewrite <- sum_mul_l. f_equal.
      unfold mmult, fold, rank. rewrite HMd, Hxd. rewrite get_mk by (apply in_range_1; exact Hr').
      unfold dim. rewrite HMd. reflexivity. }
  assert (EF : forall x, Fn (emb1 k P x) = (q x - 2 * kre (lin n vv x))%R) by (intros x; unfold Fn; rewrite Elin; reflexivity).
  split.
  { rewrite Ev2, Em2, <- Hq, kre_rinj. symmetry. apply EF. }
  split.
  { intros phi Hpo Hpd' Hdf. rewrite (differ1 ds k P phi Ho Hpd Hk Hpo Hpd' Hdf). rewrite !EF. apply (normal_best n MM vv q Hherm Hq Hq0 p Hp). }
  split; [|rewrite Elin, Hlp; reflexivity].
  intros Hne. assert (H1 : ov (emb1 k P p) <> 0).
  { intros E. rewrite Elin, Hlp in E. rewrite <- rinj_0 in E. apply rinj_inj in E. destruct (Hgk _ O1 D1 E) as (_ & Hz).
    apply Hne. rewrite <- (replace_nth_site P k). pose proof (ten_self (site P k) Hws) as Et. fold d in Et.
    set (x := fun r => nth r (data (site P k)) 0) in Et. rewrite <- Et. change (replace_nth k (ten d x) P) with (emb1 k P x).
    rewrite Elin, <- (kconj_inv (lin n vv x)), <- (form_p n MM vv p Hp x), <- HMv, Hz by apply Hopen. apply kconj_0. }
  split; [exact H1|].
  rewrite Elin in H1. unfold lin in H1. apply sum_nonzero in H1. destruct H1 as (r & Hr' & H1).
  assert (Hpr : p r <> 0) by (intros E; apply H1; rewrite E; ring).
  pose proof (unravel_in_range d r ltac:(exact Hr')) as Hir. pose proof (offset_unravel d r ltac:(exact Hr')) as Eo. unfold d in Hir, Eo. rewrite Hs in Hir, Eo.
  pose proof Hir as Hir2. apply in_range_inv3 in Hir2. destruct Hir2 as (x & y & z & Eu & Hx' & Hy & Hz).
  exists x, y, z. unfold dim, ten. cbn [dims]. fold (ten d p). unfold d. rewrite Hs. cbn [nth]. repeat split; auto.
  rewrite get_ten by (apply in_range_3; assumption). rewrite <- Eu, Eo. exact Hpr.
Qed.

(** Storing the tensor and moving on *)
Lemma store_core d k k' P X : open_mps P -> pdims P = ds -> (k < length P)%nat -> wf X -> dims X = dims (site P k) ->
  (flag <> 0%R \/ nonzero3 X) -> moved d (length P) k k' ->
  exists P', set_canonical svd flag P (Z.of_nat k) X (sgn d) true = Ok P' /\ cstepped ds d k k' P P' /\
    (forall j, (dim (site P' j) 0 <= dim (site P j) 0)%nat) /\
    (exact_flag flag -> forall is, in_range ds is -> amp P' is = amp (replace_nth k X P) is).
Proof.
  intros Ho Hpd Hk HwX HdX Hnz Hm.
  destruct (open_replace P k X Ho Hk HwX HdX) as (O1 & D1). rewrite Hpd in D1.
  set (P1 := replace_nth k X P) in *.
  assert (Hlen1 : length P1 = length P) by apply length_replace_nth.
  assert (Hdim1 : forall j, dim (site P1 j) 0 = dim (site P j) 0).
  { intros j. destruct (Nat.eq_dec j k) as [->|Hj]; [|unfold P1; rewrite site_replace_neq by exact Hj; reflexivity].
    unfold P1. rewrite site_replace_eq by exact Hk. unfold dim. rewrite HdX. reflexivity. }
  assert (Hfin : forall P' kk, step_ok flag 1 1 P1 P' kk true ->
     open_mps P' /\ pdims P' = ds /\ length P' = length P /\ (exact_flag flag -> forall is, in_range ds is -> amp P' is = amp P1 is)).
  { intros P' kk (S1 & S2 & S3 & S4 & S5).
    assert (Hl : length P' = length P) by (rewrite (same_length _ _ S2); exact Hlen1).
    assert (HO' : open_mps P') by (split; [intros ->; cbn in Hl; lia|exact S1]).
    split; [exact HO'|]. split; [congruence|]. split; [exact Hl|]. intros He is Hi. destruct O1 as (N1 & L1). destruct HO' as (N' & L').
    apply (same_chain_amp 1 P1 P' 1 1); auto. rewrite D1. exact Hi. }
  destruct d; cbn [moved sgn] in *.
  - destruct Hm as (-> & Hk').
    destruct (set_canonical_right_ok3 svd flag Hsvd 1 1 P k X true (proj2 O1) ltac:(lia) Hk' Hnz) as (P' & E & HS & HI).
    destruct (Hfin P' k HS) as (F3 & F4 & F5 & F6). pose proof HS as (S1 & S2 & S3 & S4 & S5).
    exists P'. split; [exact E|]. split; [|split; [intros j; rewrite <- Hdim1; apply S4|exact F6]].
    split; [exact F3|]. split; [exact F4|]. split; [lia|]. split; [exact F5|split; [exact HI|split; [|intros j _; rewrite <- Hdim1; apply S4]]].
    intros j H1 H2. rewrite S3 by assumption. unfold P1. apply site_replace_neq. exact H1.
  - subst k.
    destruct (set_canonical_left_ok3 svd flag Hsvd 1 1 P k' X true (proj2 O1) ltac:(lia) Hk Hnz) as (P' & E & HS & HI).
    destruct (Hfin P' k' HS) as (F3 & F4 & F5 & F6). pose proof HS as (S1 & S2 & S3 & S4 & S5).
    exists P'. split; [exact E|]. split; [|split; [intros j; rewrite <- Hdim1; apply S4|exact F6]].
    split; [exact F3|]. split; [exact F4|]. split; [lia|]. split; [exact F5|split; [exact HI|split; [|intros j _; rewrite <- Hdim1; apply S4]]].
    intros j H1 H2. rewrite S3 by assumption. unfold P1. apply site_replace_neq. exact H1.
Qed.

Notation nz := (nz ws bras flag).

Lemma fn_self k P P1 : open_mps P -> pdims P = ds -> (forall phi, open_mps phi -> pdims phi = ds -> differs_at P phi k -> (Fn P1 <= Fn phi)%R) -> (Fn P1 <= Fn P)%R.
Proof. intros H1 H2 H. apply H; auto. intros j _. reflexivity. Qed.

Lemma step1_ok d k k' P lf qf s : At k P lf -> QAt k P qf -> moved d (length P) k k' -> sk s = Z.of_nat k -> sdk s = sgn d -> nz P ->
  exists P' lf' qf' l, solve_step1 svd flag lsolve s P lf qf = Ok (P', lf', qf', l) /\ stepped ws bras ds d k k' P P' lf' /\ QAt k' P' qf' /\ nz P' /\
    (forall j, (dim (site P' j) 0 <= dim (site P j) 0)%nat) /\ (exact_flag flag -> (Fn P' <= Fn P)%R).
Proof.
  intros HA HQ Hm Hs Hd Hn. pose proof HA as (Ho & Hpd & Hk & Hh).
  destruct (local_solution k P lf qf HA HQ) as (v & M & X & Ev & EM & Hwv & Hdv & ER & HwX & HdX & O1 & D1 & EF & Hbest & Hnz & Hov).
  assert (Hn' : flag <> 0%R \/ nonzero3 X) by (destruct Hn as [Hn|Hn]; [left; exact Hn|right; apply Hnz; exact Hn]).
  destruct (store_core d k k' P X Ho Hpd Hk HwX HdX Hn' Hm) as (P' & E & HS & Hdim & Hamp).
  pose proof HS as (Ho' & Hpd' & Hk' & Hl & _).
  unfold solve_step1. rewrite EM, Ev. cbn [bind]. cbv zeta. rewrite ER. cbn [bind]. unfold sweeper_site, sweeper_sense. rewrite Hs, Hd, E. cbn [bind].
  rewrite site_at_nat by lia. cbn [bind]. do 4 eexists. split; [reflexivity|].
  split; [apply at_moved; assumption|]. split; [apply (q_moved O ds HO b Hb d k k' P P' qf); assumption|].
  assert (Hex : exact_flag flag -> Fn P' = Fn (replace_nth k X P) /\ ov P' = ov (replace_nth k X P)).
  { intros He. apply Fn_ext; auto. }
  split; [|split; [exact Hdim|]].
  - destruct (Req_EM_T flag 0) as [E0|E0]; [right|left; exact E0]. destruct Hn as [Hn|Hn]; [contradiction|].
    destruct (Hex (or_introl E0)) as (_ & ->). apply Hnz. exact Hn.
  - intros He. destruct (Hex He) as (-> & _). apply (fn_self k); assumption.
Qed.

(** what the last local problem says of the state *)
Definition lastval (l : local) (P : mps) : Prop :=
  (kre (tensor_scprod (l_vP l) (mmult (l_Heff l) (l_vP l))) - 2 * kre (tensor_scprod (l_vHQ l) (l_vP l)) = Fn P)%R.

Lemma step1_end (d : bool) k P lf qf s : At k P lf -> QAt k P qf -> k = (if d then length P - 1 else 0)%nat -> sk s = Z.of_nat k -> sdk s = sgn d -> nz P ->
  exists P' lf' qf' l, solve_step1 svd flag lsolve s P lf qf = Ok (P', lf', qf', l) /\ At k P' lf' /\ QAt k P' qf' /\ length P' = length P /\
    (forall j, j <> k -> site P' j = site P j) /\ (forall j, dim (site P' j) 0 = dim (site P j) 0) /\ nz P' /\
    lastval l P' /\ (forall phi, open_mps phi -> pdims phi = ds -> differs_at P' phi k -> (Fn P' <= Fn phi)%R) /\ ov P' = rinj (g P').
Proof.
  intros HA HQ Hm Hs Hd Hn. pose proof HA as (Ho & Hpd & Hk & Hh).
  destruct (local_solution k P lf qf HA HQ) as (v & M & X & Ev & EM & Hwv & Hdv & ER & HwX & HdX & O1 & D1 & EF & Hbest & Hnz & Hov).
  set (P1 := replace_nth k X P) in *.
  assert (Hlen1 : length P1 = length P) by apply length_replace_nth.
  assert (Hdim1 : forall j, dim (site P1 j) 0 = dim (site P j) 0).
  { intros j. destruct (Nat.eq_dec j k) as [->|Hj]; [|unfold P1; rewrite site_replace_neq by exact Hj; reflexivity].
    unfold P1. rewrite site_replace_eq by exact Hk. unfold dim. rewrite HdX. reflexivity. }
  pose proof (single_core_end svd flag true d k P X Hm Hk) as E. fold P1 in E.
  unfold solve_step1. rewrite EM, Ev. cbn [bind]. cbv zeta. rewrite ER. cbn [bind]. unfold sweeper_site, sweeper_sense. rewrite Hs, Hd, E. cbn [bind].
  rewrite site_at_nat by lia. cbn [bind]. do 4 eexists. split; [reflexivity|].
  assert (E1 : firstn k P1 = firstn k P) by (apply (firstn_ext empty); [lia|]; intros j Hj; apply (site_replace_neq k _ P); lia).
  assert (E2 : skipn (S k) P1 = skipn (S k) P) by (apply (skipn_ext empty); [lia|]; intros j Hj; apply (site_replace_neq k _ P); lia).
  split.
  { split; [exact O1|]. split; [exact D1|]. split; [lia|]. rewrite E1, E2. destruct d; cbn [sgn lf_propagate Z.ltb Z.compare].
    - rewrite (skipn_all2 P) in * by lia. change (lf_history ws bras ds (lf_propagate_right lf (site P1 k)) (firstn k P) []). apply lfh_right_end. exact Hh.
    - subst k. change (lf_history ws bras ds (lf_propagate_left lf (site P1 0)) [] (skipn 1 P)). apply lfh_left_end. exact Hh. }
  split.
  { assert (Eq : qf_propagate qf (site P1 k) (site P1 k) (sgn d) = qf).
    { pose proof (qat_qinv O ds HO b k P qf HQ) as (I0 & Ih & _ & _ & Il & _). rewrite firstn_length, skipn_length in Il.
      rewrite firstn_length in Ih. pose proof I0 as (Isz & _). destruct d; unfold qf_propagate; cbn [sgn Z.ltb Z.compare].
      - unfold qf_propagate_right. rewrite Isz, Ih. destruct (Nat.eqb_spec (Nat.min k (length P) + 1) (length O)); [reflexivity|lia].
      - unfold qf_propagate_left. rewrite Ih. destruct (Nat.eqb_spec (Nat.min k (length P)) 0); [reflexivity|lia]. }
    rewrite Eq. destruct HQ as (_ & _ & _ & Hqh & Hql). split; [exact O1|]. split; [exact D1|]. split; [lia|]. rewrite E1, E2. split; assumption. }
  split; [exact Hlen1|]. split; [intros j Hj; apply site_replace_neq; exact Hj|]. split; [exact Hdim1|].
  split; [destruct Hn as [Hn|Hn]; [left; exact Hn|right; apply Hnz; exact Hn]|]. split; [exact EF|]. split; [|exact Hov].
  intros phi H1 H2 Hdf. apply Hbest; auto. intros j Hj. rewrite Hdf by exact Hj. apply site_replace_neq. exact Hj.
Qed.

(** One sweep *)
Definition swept1 (d : bool) (P : mps) (s' : sweeper) (P' : mps) (lf' : lform) (qf' : qform) (l : local) : Prop :=
  let E := last_of d (length P) in
  length P' = length P /\ sw d (length P) E s' /\ At E P' lf' /\ QAt E P' qf' /\ canonical_at E P' /\ nz P' /\ lastval l P' /\
  (forall phi, open_mps phi -> pdims phi = ds -> differs_at P' phi E -> (Fn P' <= Fn phi)%R) /\ ov P' = rinj (g P') /\
  (forall j, (dim (site P' j) 0 <= dim (site P j) 0)%nat) /\ (exact_flag flag -> (Fn P' <= Fn P)%R).

Lemma sweep1_ok d n : forall k P lf qf s fuel, At k P lf -> QAt k P qf -> remaining d (length P) k n -> (n < fuel)%nat -> sw d (length P) k s ->
  behind d k P -> nz P ->
  exists s' P' lf' qf' l, solve_sweep1 svd flag lsolve fuel s P lf qf = Ok (s', P', lf', qf', l) /\ swept1 d P s' P' lf' qf' l.
Proof.
  induction n as [|n IH]; intros k P lf qf s fuel HA HQ Hr Hf Hs Hbh Hn; destruct fuel as [|fuel]; try lia.
  - assert (Hk : k = last_of d (length P)) by (destruct d; cbn in *; lia).
    pose proof Hs as (S1 & S2 & S3 & S4).
    destruct (step1_end d k P lf qf s HA HQ Hk S1 S4 Hn) as (P' & lf' & qf' & l & E & HA' & HQ' & Hl & Ho & Hd & Hn' & Hlv & Hbest & Hov).
    cbn [solve_sweep1]. rewrite E. cbn [bind]. rewrite (sw_stop d (length P) k s Hs Hk).
    exists s, P', lf', qf', l. split; [reflexivity|].
    assert (Hbh' : behind d k P').
    { destruct d; cbn [behind] in *; intros j Hj; rewrite Ho by lia; apply Hbh; lia. }
    unfold swept1. rewrite <- Hk. split; [exact Hl|]. split; [exact Hs|]. split; [exact HA'|]. split; [exact HQ'|]. split; [rewrite Hk, <- Hl; apply behind_last; rewrite Hl, <- Hk; exact Hbh'|].
    split; [exact Hn'|]. split; [exact Hlv|]. split; [exact Hbest|]. split; [exact Hov|]. split; [intros j; rewrite Hd; lia|].
    intros _. destruct HA as (HoP & HdP & _). apply Hbest; auto. intros j Hj. symmetry. apply Ho. exact Hj.
  - set (k' := if d then S k else (k - 1)%nat).
    assert (Hmv : moved d (length P) k k') by (unfold k'; destruct d; cbn in *; lia).
    assert (Hk : (k < length P)%nat) by (destruct d; cbn in *; lia).
    pose proof Hs as (S1 & S2 & S3 & S4).
    destruct (step1_ok d k k' P lf qf s HA HQ Hmv S1 S4 Hn) as (P1 & lf1 & qf1 & l1 & E & Hst & HQ1 & Hn1 & Hdim1 & Hmono).
    pose proof Hst as (HA1 & Hl1 & _).
    destruct (sw_step d (length P) k k' s Hs Hmv Hk) as (s1 & Es1 & Hs1).
    pose proof (stepped_behind ws bras ds d k k' P P1 lf1 Hmv Hst Hbh) as Hb1.
    destruct (IH k' P1 lf1 qf1 s1 fuel HA1 HQ1) as (s' & P' & lf' & qf' & l & E' & Hsw); [rewrite Hl1; unfold k'; destruct d; cbn in *; lia|lia|rewrite Hl1; exact Hs1|exact Hb1|exact Hn1|].
    cbn [solve_sweep1]. rewrite E. cbn [bind]. rewrite Es1, E'. exists s', P', lf', qf', l. split; [reflexivity|].
    unfold swept1 in *. rewrite Hl1 in Hsw. destruct Hsw as (H1 & H2 & H3 & H4 & H5 & H6 & H7 & H8 & H9 & H10 & H11).
    repeat (split; [assumption|]). split.
    + intros j. eapply Nat.le_trans; [apply H10|apply Hdim1].
    + intros He. eapply Rle_trans; [apply H11; exact He|apply Hmono; exact He].
Qed.

(** The loop *)
Variable cgs : (tensor -> result tensor) -> tensor -> tensor -> nat -> R -> result tensor.
Definition fin (d : bool) (L : nat) (P' : mps) : Prop :=
  let E := last_of d L in open_mps P' /\ pdims P' = ds /\ length P' = L /\ canonical_at E P' /\
  (forall phi, open_mps phi -> pdims phi = ds -> differs_at P' phi E -> (Fn P' <= Fn phi)%R) /\ ov P' = rinj (g P') /\ nz P'.

Lemma loop_S Dmax tol tolerance nq n s P lf qf err :
  solve_loop svd flag lsolve cgs true Dmax tol tolerance nq (S n) s P lf qf err =
  bind (solve_sweep1 svd flag lsolve (length P) s P lf qf) (fun '(s, P, lf, qf, l) =>
    let e := (kre (tensor_scprod (l_vP l) (mmult (l_Heff l) (l_vP l))) + nq - 2 * kre (tensor_scprod (l_vHQ l) (l_vP l)))%R in
    if solve_stop tolerance err e then Ok (sweeper_flip s, P, e) else
    solve_loop svd flag lsolve cgs true Dmax tol tolerance nq n (sweeper_flip s) P lf qf e).
Proof.
  cbn [solve_loop]. unfold solve_sweep. destruct (solve_sweep1 svd flag lsolve (length P) s P lf qf) as [[[[[s1 P1] lf1] qf1] l]|]; reflexivity.
Qed.

Lemma sweep_full d P lf qf s : At (last_of (negb d) (length P)) P lf -> QAt (last_of (negb d) (length P)) P qf -> sw d (length P) (last_of (negb d) (length P)) s -> nz P ->
  exists s' P' lf' qf' l, solve_sweep1 svd flag lsolve (length P) s P lf qf = Ok (s', P', lf', qf', l) /\ swept1 d P s' P' lf' qf' l.
Proof.
  intros HA HQ Hs Hn. pose proof HA as (_ & _ & Hk & _).
  apply (sweep1_ok d (length P - 1) (last_of (negb d) (length P))); auto; try lia; destruct d; cbn in *; intros; lia.
Qed.

Lemma loop1_ok Dmax tol tolerance nq n : forall d P lf qf s err,
  At (last_of (negb d) (length P)) P lf -> QAt (last_of (negb d) (length P)) P qf -> sw d (length P) (last_of (negb d) (length P)) s -> nz P ->
  exists s' P' err' d', solve_loop svd flag lsolve cgs true Dmax tol tolerance nq (S n) s P lf qf err = Ok (s', P', err') /\
    sw (negb d') (length P) (last_of d' (length P)) s' /\ fin d' (length P) P' /\ err' = (Fn P' + nq)%R /\
    (forall j, (dim (site P' j) 0 <= dim (site P j) 0)%nat) /\ (exact_flag flag -> (Fn P' <= Fn P)%R).
Proof.
  induction n as [|n IH]; intros d P lf qf s err HA HQ Hs Hn; rewrite loop_S;
  destruct (sweep_full d P lf qf s HA HQ Hs Hn) as (s1 & P1 & lf1 & qf1 & l & E & H1 & H2 & H3 & H4 & H5 & H6 & H7 & H8 & H9 & H10 & H11);
  pose proof (sw_flip d (length P) _ s1 H2) as Hfl; pose proof H3 as (Ho1 & Hd1 & Hk1 & _);
  (assert (Hfin : fin d (length P) P1) by (unfold fin; auto 10));
  unfold lastval in H7; rewrite E; cbn [bind]; cbv zeta;
  set (e := (_ + nq - _)%R) in *; (assert (Ee : e = (Fn P1 + nq)%R) by (unfold e; rewrite <- H7; lra)).
  - exists (sweeper_flip s1), P1, e, d. split; [destruct (solve_stop _ _ _); reflexivity|]. auto.
  - destruct (solve_stop tolerance err e).
    + exists (sweeper_flip s1), P1, e, d. split; [reflexivity|]. auto 10.
    + destruct (IH (negb d) P1 lf1 qf1 (sweeper_flip s1) e) as (s' & P' & err' & d' & E' & I1 & I2 & I3 & I4 & I5); rewrite ?negb_involutive, ?H1; try assumption.
      rewrite H1 in *. exists s', P', err', d'. split; [exact E'|]. split; [exact I1|]. split; [exact I2|]. split; [exact I3|]. split.
      * intros j. eapply Nat.le_trans; [apply I4|apply H10].
      * intros He. eapply Rle_trans; [apply I5|apply H11]; exact He.
Qed.

Lemma loop1_more Dmax tol tolerance nq n : forall m, (n <= m)%nat -> forall d P lf qf s err s1 P1 e1 s2 P2 e2, exact_flag flag ->
  At (last_of (negb d) (length P)) P lf -> QAt (last_of (negb d) (length P)) P qf -> sw d (length P) (last_of (negb d) (length P)) s -> nz P ->
  solve_loop svd flag lsolve cgs true Dmax tol tolerance nq (S n) s P lf qf err = Ok (s1, P1, e1) ->
  solve_loop svd flag lsolve cgs true Dmax tol tolerance nq (S m) s P lf qf err = Ok (s2, P2, e2) -> (e2 <= e1)%R.
Proof.
  induction n as [|n IH]; intros m Hm d P lf qf s err s1 P1 e1 s2 P2 e2 He HA HQ Hs Hn; rewrite !loop_S;
  destruct (sweep_full d P lf qf s HA HQ Hs Hn) as (s0 & P0 & lf0 & qf0 & l & E & H1 & H2 & H3 & H4 & H5 & H6 & H7 & H8 & H9 & H10 & H11);
  pose proof (sw_flip d (length P) _ s0 H2) as Hfl;
  unfold lastval in H7; rewrite E; cbn [bind]; cbv zeta;
  set (e := (_ + nq - _)%R) in *; (assert (Ee : e = (Fn P0 + nq)%R) by (unfold e; rewrite <- H7; lra));
  destruct (solve_stop tolerance err e).
  - intros E1 E2. apply Ok_inj' in E1, E2. injection E1 as <- <- <-. injection E2 as <- <- <-. lra.
  - intros E1 E2. cbn [solve_loop] in E1. apply Ok_inj' in E1. injection E1 as <- <- <-. destruct m as [|m].
    + cbn [solve_loop] in E2. apply Ok_inj' in E2. injection E2 as <- <- <-. lra.
    + destruct (loop1_ok Dmax tol tolerance nq m (negb d) P0 lf0 qf0 (sweeper_flip s0) e) as (s' & P' & err' & d' & E' & I1 & I2 & I3 & I4 & I5); rewrite ?negb_involutive, ?H1; try assumption.
      rewrite E2 in E'. apply Ok_inj' in E'. injection E' as <- <- <-. rewrite I3, Ee. specialize (I5 He). lra.
  - intros E1 E2. apply Ok_inj' in E1, E2. injection E1 as <- <- <-. injection E2 as <- <- <-. lra.
  - destruct m as [|m]; [lia|]. apply (IH m ltac:(lia) (negb d)); rewrite ?negb_involutive, ?H1; assumption.
Qed.
End Step.
