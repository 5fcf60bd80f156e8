(** * One step and one sweep of solve() with the two-site algorithm *)
From Coq Require Import Reals Lra Bool List Arith ZArith Lia Ring.
From Verif Require Import Scalar ScalarFacts RScal Tensor TensorFacts Spec MpsModel MpsFacts StateFacts StateFacts2 MpoSpec MpoFacts CanonSpec CanonModel
  TruncFacts SplitFacts CanonFacts CanonSweep CanonNorm CanonProps CanonTwo SweepModel SweepFacts FormModel FormSpec LFormFacts QFormFacts SparseFacts QFormInv QFormValue QFormMain
  SimplifySpec SimplifyModel SimplifyFacts SimplifyStep SimplifyPair SimplifyDouble SimplifySweep ManyPair MinimizerModel MinLive MinimizeSpec MinLocal MinStep SolveModel SolveSpec SolveLive SolveAlg SolveStep.
Import ListNotations.
Local Open Scope K_scope.

Section Step.
Context {RS : RScal}.
Add Ring Kring : k_ring.
Variables (O : mpo) (ds : list nat).
Hypothesis HO : hamiltonian O ds.
Variable b : nat -> nat.
Hypothesis Hb : path O b.
Notation QAt := (QAt O ds b).

Section Pair.
Variables (kk : nat) (P : mps) (a i m j c : nat).
Hypotheses (Ho : open_mps P) (Hd : pdims P = ds) (Hkk : (S kk < length P)%nat)
  (D1 : dims (site P kk) = [a; i; m]) (D2 : dims (site P (S kk)) = [m; j; c]) (Hpos : (0 < a /\ 0 < i /\ 0 < m /\ 0 < j /\ 0 < c)%nat).

(** The matrix of the local problem, as MinLocal.two_family but for states that need not be canonical *)
Lemma pair_matrix f k k' (d : bool) : QAt k P f -> moved d (length P) k k' -> kk = Nat.min k k' ->
  exists M, (forall x y, sandwich (emb2 kk P x) O (emb2 kk P y) = qform_of (nprod [a; i; j; c]) M x y) /\
    acts_on (fun x => apply_two_site_matrix f x (sgn d)) [a; i; j; c] M.
Proof.
  intros HQ Hm Ekk. pose proof HQ as (_ & _ & Hk & Hh & Hlive). pose proof (qat_qinv O ds HO b k P f HQ) as Hi.
  pose proof (H_open O ds HO) as HOo. pose proof (H_sq O ds HO) as HOs. pose proof (H_o O ds HO) as HOd. pose proof (H_i O ds HO) as HOi.
  assert (Hkor : k = kk \/ k = S kk) by (destruct d; cbn [moved] in Hm; lia).
  set (p := firstn kk P) in *. set (q := skipn (S (S kk)) P) in *.
  assert (Elen : length p = kk) by (unfold p; rewrite firstn_length; lia).
  assert (HT : two_sites f (sgn d) = Ok (length p, length p + 1)%nat /\ qinv0 O f /\ length p = length p /\ length q = length q /\ (length p + 2 + length q = length O)%nat /\
  (forall m ra rb, (m < bond O (length p))%nat -> linked 1 p ra -> linked 1 p rb ->
     vten [1; 1; ra; rb]%nat (qf_left f (length p) m) (lenv_of (fun z w => QM p p (firstn (length p) O) 0 0 0 z w m))) /\
  (forall n ca cb, (n < bond O (length p + 2))%nat -> (0 < ca)%nat -> (0 < cb)%nat -> linked ca q 1 -> linked cb q 1 ->
     vten [ca; cb; 1; 1]%nat (qf_right f (length p + 1) n) (renv_of (fun z w => QM q q (skipn (length p + 2) O) z w n 0 0 0)))).
  { destruct d; cbn [moved sgn] in *.
    - destruct Hm as (-> & Hk'). assert (kk = k) by lia. unfold p, q. subst kk. replace (Nat.min k (S k)) with k in * by lia.
      rewrite (skipn_site (S k) P Hk') in Hi. apply (two_right_hyps O f _ _ _ _ _ _ Hi).
    - subst k. assert (kk = k') by lia. unfold p, q. subst kk. replace (Nat.min (S k') k') with k' in * by lia.
      rewrite (firstn_S_site k' P) in Hi by lia. apply (two_left_hyps O f _ _ _ _ _ _ Hi). }
  destruct HT as (T1 & T2 & T3 & T4 & T5 & T6 & T7).
  assert (Hsp : forall x, linked 1 (p ++ id3 a i :: ten [a * i; j; c]%nat x :: q) 1 /\ pdims (p ++ id3 a i :: ten [a * i; j; c]%nat x :: q) = ds /\
    emb2 kk P x = p ++ id3 a i :: ten [a * i; j; c]%nat x :: q).
  { intros x. destruct (emb2_open ds kk P a i m j c Ho Hd Hkk D1 D2 Hpos x) as ((_ & O1) & P1). rewrite (emb2_eq kk P a i m j c D1 D2) in *. auto. }
  set (n := nprod [a; i; j; c]). set (d4 := [a; i; j; c]) in *.
  destruct (Hsp (fun _ => 0)) as (L0 & D0 & _).
  destruct (two_matrix_value O HOo HOs f p q p q (sgn d) T1 T2 T3 T4 T5 T6 T7 _ _ _ _ L0 L0 ltac:(congruence) ltac:(congruence)) as (Mt & EM & _ & _).
  assert (HM : forall x y, sandwich (emb2 kk P x) O (emb2 kk P y) = qform_of n (fun r c => elem Mt [r; c]) x y).
  { intros x y. destruct (Hsp x) as (Lx & Dx & ->). destruct (Hsp y) as (Ly & Dy & ->).
    destruct (two_matrix_value O HOo HOs f p q p q (sgn d) T1 T2 T3 T4 T5 T6 T7 _ _ _ _ Lx Ly ltac:(congruence) ltac:(congruence)) as (M' & EM' & _ & HV).
    rewrite <- HV. rewrite EM in EM'. apply Ok_inj' in EM'. subst M'. rewrite !fold_id3. unfold msandwich, qform_of. cbn [dims ten]. apply sum_ext. intros r Hr. apply sum_ext. intros c' Hc'.
    rewrite !nth_ten by assumption. reflexivity. }
  exists (fun r c => elem Mt [r; c]). split; [exact HM|].
  intros v Hwv Hdv. rewrite <- (ten_self v Hwv). rewrite Hdv.
  set (x := fun r => nth r (data v) 0). destruct (Hsp x) as (Lx & Dx & Ex).
  assert (HS : forall y, exists w, apply_two_site_matrix f (ten d4 x) (sgn d) = Ok w /\ dims w = d4 /\ wf w /\ is_empty w = false /\
    sumcfg d4 (fun u => kconj (get (ten d4 y) u) * get w u) = sandwich (emb2 kk P y) O (emb2 kk P x)).
  { intros y. destruct (Hsp y) as (Ly & Dy & ->). rewrite Ex.
    destruct (apply_two_value O HOo HOs f p q p q (sgn d) T1 T2 T3 T4 T5 T6 T7 _ _ _ _ Ly Lx ltac:(congruence) ltac:(congruence)) as (w & Ew & Hdw & Hv).
    pose proof (live_apply2 O HOo HOs b Hb f p q p q (sgn d) _ _ _ _ w T1 T2 T3 T4 T5 T6 T7 Hlive Ly Lx ltac:(congruence) ltac:(congruence) Ew) as He.
    rewrite !fold_id3 in *. fold d4 in Ew, Hdw, Hv. change (dims (ten d4 y)) with d4 in Hdw, Hv.
    exists w. destruct Hdw as [Hdw|Hdw]; [congruence|]. split; [exact Ew|]. split; [exact Hdw|]. split; [|split; [exact He|]].
    - destruct (two_site_setup O HOo HOs f p q p q _ _ _ _ T2 T3 T4 T5 T6 T7 Ly Lx ltac:(congruence) ltac:(congruence)) as
        (ra & rb & ca & cb & d1 & d2 & _ & DT & Hpos' & _ & _ & _ & _ & Ht1 & Ht2 & Hp1 & Hp2 & HL' & HR' & _).
      rewrite fold_id3 in DT. fold d4 in DT.
      destruct (apply_two_vten _ _ _ _ _ _ _ _ _ _ _ _ _ _ _ Ht1 Ht2 Hpos' HL' HR' _ DT) as (w' & Ew' & HV).
      unfold apply_two_site_matrix in Ew. rewrite T1 in Ew. cbn [bind] in Ew. rewrite Hp1, Hp2 in Ew.
      pose proof (eq_trans (eq_sym Ew) Ew') as E. apply Ok_inj' in E. subst w'. apply (vten_full _ _ _ HV He).
    - rewrite <- Hv. apply sumcfg_ext. intros u Hu. unfold elem. rewrite He. reflexivity. }
  destruct (HS x) as (w & Ew & Hdw & Hww & Hew & _).
  exists w. split; [exact Ew|]. split; [exact Hww|]. split; [exact Hdw|]. fold n.
  intros r Hr. 
  destruct (HS (delta r)) as (w' & Ew' & _ & _ & _ & Hv). rewrite Ew in Ew'. apply Ok_inj' in Ew'. subst w'. rewrite HM in Hv.
  assert (Hl : sumcfg d4 (fun u => kconj (get (ten d4 (delta r)) u) * get w u) = nth r (data w) 0).
  { rewrite (sumcfg_ext d4 _ (fun u => kconj (delta r (offset d4 u)) * nth (offset d4 u) (data w) 0)).
    - rewrite <- (sum_offset d4 (fun q => kconj (delta r q) * nth q (data w) 0)).
      rewrite (sum_ext _ _ (fun q => delta r q * nth q (data w) 0)) by (intros q' _; unfold delta; destruct (Nat.eqb r q'); rewrite ?kconj_0, ?kconj_1; reflexivity).
      exact (sum_delta_l' n r (fun q => nth q (data w) 0) Hr).
    - intros u Hu. rewrite get_ten by exact Hu. unfold get. rewrite Hdw. reflexivity. }
  rewrite <- Hl, Hv. unfold qform_of.
  rewrite (sum_ext _ _ (fun q => delta r q * sum n (fun c => elem Mt [q; c] * x c))).
  + rewrite (sum_delta_l' n r (fun q => sum n (fun c => elem Mt [q; c] * x c)) Hr). apply sum_ext. intros c' Hc'.
    rewrite nth_ten by exact Hc'. reflexivity.
  + intros q' _. rewrite sum_mul_l. apply sum_ext. intros c' _. unfold delta. destruct (Nat.eqb r q'); rewrite ?kconj_0, ?kconj_1; ring.
Qed.
End Pair.

Variables (ws : list K) (bras : list mps).
Hypothesis Hg : good_bras ws bras ds.
Variable g : mps -> R.
Hypothesis Hg1 : forall P, open_mps P -> pdims P = ds -> rinj (g P) = sandwich P O P.
Hypothesis Hg0 : forall P, (0 <= g P)%R.
Hypothesis Hgk : forall P, open_mps P -> pdims P = ds -> g P = 0%R -> overlap ws bras P = 0 /\ forall P', open_mps P' -> pdims P' = ds -> sandwich P' O P = 0.
Notation At := (At ws bras ds).
Notation ov P := (overlap ws bras P).
Notation Fn := (Fn ws bras g).
Variable svd : tensor -> tensor * list R * tensor.
Variable flag : R.
Hypothesis Hsvd : svd_contract svd.
Variable cgs : (tensor -> result tensor) -> tensor -> tensor -> nat -> R -> result tensor.
Hypothesis Hcgs : cgs_contract cgs.

Definition elems (X : tensor) : nat -> K := fun r => nth r (data X) 0.

Lemma scprod_elems X Y d : wf X -> wf Y -> dims X = d -> dims Y = d ->
  tensor_scprod X Y = sum (nprod d) (fun r => kconj (elems X r) * elems Y r).
Proof.
  intros HX HY EX EY. unfold tensor_scprod. unfold wf in *. rewrite EX in HX. rewrite EY in HY. apply (scprod_vec _ _ (nprod d)); assumption.
Qed.

(** What the local equation gives *)
Lemma local_solution2 d k k' P lf qf X0 tl : At k P lf -> QAt k P qf -> moved d (length P) k k' ->
  let kk := Nat.min k k' in forall a i m j c, dims (site P kk) = [a; i; m] -> dims (site P (S kk)) = [m; j; c] -> (0 < a /\ 0 < i /\ 0 < m /\ 0 < j /\ 0 < c)%nat ->
  wf X0 -> dims X0 = [a; i; j; c] ->
  exists v X, two_site_vector lf (sgn d) = Ok v /\
    cgs (fun x => apply_two_site_matrix qf x (sgn d)) (tconj v) X0 (2 * length (data (tconj v))) tl = Ok X /\ wf X /\ dims X = [a; i; j; c] /\
    let phi := emb2 kk P (elems X) in
    open_mps phi /\ pdims phi = ds /\ tensor_scprod (tconj v) X = ov phi /\
    (forall psi, open_mps psi -> pdims psi = ds -> differs_at2 P psi kk -> (Fn phi <= Fn psi)%R) /\ ov phi = rinj (g phi).
Proof.
  intros HA HQ Hm kk a i m j c S1 S2 Hpos Hw0 Hd0. pose proof HA as (Ho & Hpd & Hk & _).
  assert (Hkk : (S kk < length P)%nat) by (unfold kk; destruct d; cbn in Hm; lia).
  destruct (at_repr2 ws bras ds Hg d k k' P lf HA Hm) as (v & a' & i' & m' & j' & c' & Ev & Hwv & Hdv & T1 & T2 & _ & _ & _ & _ & _ & _ & _ & Hr).
  fold kk in T1, T2, Hr. rewrite S1 in T1. injection T1 as <- <- <-. rewrite S2 in T2. injection T2 as <- <-.
  destruct (pair_matrix kk P a i m j c Ho Hpd Hkk S1 S2 Hpos qf k k' d HQ Hm eq_refl) as (MM & HMv & Hact).
  set (d4 := [a; i; j; c]) in *. set (n := nprod d4) in *.
  assert (Hn : n = (a * (i * (j * (c * 1))))%nat) by reflexivity.
  assert (Hn0 : (0 < n)%nat) by (rewrite Hn; destruct Hpos as (? & ? & ? & ? & ?); nia).
  set (vv := elems v).
  assert (Hopen : forall x, open_mps (emb2 kk P x) /\ pdims (emb2 kk P x) = ds) by (intros x; apply (emb2_open ds kk P a i m j c); assumption).
  assert (Elin : forall x, ov (emb2 kk P x) = lin n vv x).
  { intros x. destruct Hpos as (Ha & Hi & Hm0 & Hj & Hc). rewrite (emb2_eq kk P a i m j c S1 S2).
    rewrite <- (Hr (id3 a i) (ten [a * i; j; c]%nat x) (a * i)%nat) by (first [nia|apply wf_mk|apply wf_ten|reflexivity]).
    unfold lin. unfold n. rewrite (sum_offset d4 (fun r => vv r * x r)). unfold d4. cbn [sumcfg]. unfold sum4.
    apply sum_ext. intros x1 H1. apply sum_ext. intros x2 H2. apply sum_ext. intros x3 H3. apply sum_ext. intros x4 H4.
    rewrite join_id3 by assumption. f_equal. unfold get. rewrite Hdv. reflexivity. }
  assert (Hherm : hermitian n MM).
  { intros r s Hr' Hs'. rewrite <- (sum_delta2 n MM r s), <- (sum_delta2 n MM s r) by assumption.
    fold (qform_of n MM (delta r) (delta s)). fold (qform_of n MM (delta s) (delta r)). rewrite <- !HMv.
    rewrite (sandwich_conj O ds HO); [reflexivity|apply Hopen|apply Hopen]. }
  set (q := fun x => g (emb2 kk P x)).
  assert (Hq : forall x, rinj (q x) = qform_of n MM x x) by (intros x; unfold q; rewrite Hg1 by apply Hopen; apply HMv).
  assert (Hq0 : forall x, (0 <= q x)%R) by (intros x; apply Hg0).
  assert (Hker : forall x, q x = 0%R -> lin n vv x = 0).
  { intros x Hx. rewrite <- Elin. destruct (Hopen x) as (H1 & H2). apply (Hgk _ H1 H2 Hx). }
  destruct (normal_solvable n MM vv q Hn0 Hherm Hq Hker) as (p0 & Hp0).
  assert (Hlv : length (data v) = n) by (unfold wf in Hwv; rewrite Hdv in Hwv; exact Hwv).
  assert (Hlc : length (data (tconj v)) = n) by (unfold tconj; cbn [data]; rewrite map_length; exact Hlv).
  assert (Hbg : forall r, elems (tconj v) r = kconj (vv r)).
  { intros r. unfold elems, vv, elems, tconj. cbn [data]. rewrite <- (map_nth kconj (data v) 0 r), kconj_0. reflexivity. }
  destruct (Hcgs (fun x => apply_two_site_matrix qf x (sgn d)) d4 MM (tconj v) X0 (2 * length (data (tconj v)))%nat tl Hn0 Hact Hherm) as (X & EX & HwX & HdX & HX).
  { intros x. change (sum (nprod d4) _) with (qform_of n MM x x). rewrite <- Hq, kre_rinj. apply Hq0. }
  { unfold wf, tconj. cbn [data dims]. rewrite map_length. exact Hwv. }
  { exact Hdv. }
  { exact Hw0. }
  { exact Hd0. }
  { rewrite Hlc. fold n. lia. }
  { exists p0. intros r Hr'. fold (elems (tconj v) r). rewrite Hbg. apply Hp0. exact Hr'. }
  set (p := elems X) in *.
  assert (Hp : forall r, (r < n)%nat -> sum n (fun j => MM r j * p j) = kconj (vv r)) by (intros r Hr'; rewrite <- Hbg; apply HX; exact Hr').
  exists v, X. split; [exact Ev|]. split; [exact EX|]. split; [exact HwX|]. split; [exact HdX|]. cbv zeta. fold p.
  destruct (Hopen p) as (O1 & D1). split; [exact O1|]. split; [exact D1|].
  pose proof (lin_p n MM vv q Hq p Hp) as Hlp.
  assert (EF : forall x, Fn (emb2 kk P x) = (q x - 2 * kre (lin n vv x))%R) by (intros x; unfold SolveStep.Fn; rewrite Elin; reflexivity).
  split.
  { rewrite (scprod_elems (tconj v) X d4); [|unfold wf, tconj; cbn [data dims]; rewrite map_length; exact Hwv|exact HwX|exact Hdv|exact HdX].
    rewrite Elin. unfold lin. apply sum_ext. intros r Hr'. rewrite Hbg, kconj_inv. reflexivity. }
  split; [|rewrite Elin, Hlp; reflexivity].
  intros psi Hpo Hpd' Hdf. destruct (differ2 ds kk P psi a i m j c Ho Hpd Hkk S1 S2 Hpo Hpd' Hdf) as (A & B & q' & -> & Hq' & HwA & HdA & HwB & HdB).
  set (y := fun r => let u := unravel d4 r in joined A B (nth 0 u 0%nat) (nth 1 u 0%nat) (nth 2 u 0%nat) (nth 3 u 0%nat)).
  assert (Ey : Fn (put2 kk P A B) = Fn (emb2 kk P y)).
  { apply (Fn_ext O ds ws bras g Hg1); [apply Hopen|exact Hpo|apply Hopen|exact Hpd'|].
    apply (put2_emb ds kk P a i m j c Ho Hpd Hkk S1 S2 Hpos A B q' Hq' HwA HdA HwB HdB). }
  rewrite Ey, !EF. apply (normal_best n MM vv q Hherm Hq Hq0 p Hp).
Qed.

Lemma emb2_same kk P P' x a i m j c m' : length P' = length P -> (S kk < length P)%nat ->
  dims (site P kk) = [a; i; m] -> dims (site P (S kk)) = [m; j; c] -> dims (site P' kk) = [a; i; m'] -> dims (site P' (S kk)) = [m'; j; c] ->
  differs_at2 P P' kk -> emb2 kk P' x = emb2 kk P x.
Proof.
  intros Hl Hkk S1 S2 S1' S2' Hdf. rewrite (emb2_eq kk P a i m j c S1 S2), (emb2_eq kk P' a i m' j c S1' S2'). unfold put2. f_equal; [|do 2 f_equal].
  - apply (firstn_ext empty); [lia|]. intros q Hq. apply Hdf; lia.
  - apply (skipn_ext empty); [lia|]. intros q Hq. apply Hdf; lia.
Qed.

Lemma emb2_sub kk P a i m j c x y is : open_mps P -> pdims P = ds -> (S kk < length P)%nat ->
  dims (site P kk) = [a; i; m] -> dims (site P (S kk)) = [m; j; c] -> (0 < a /\ 0 < i /\ 0 < m /\ 0 < j /\ 0 < c)%nat -> in_range ds is ->
  amp (emb2 kk P (fun r => x r - y r)) is = amp (emb2 kk P x) is - amp (emb2 kk P y) is.
Proof.
  intros Ho Hd Hkk D1 D2 (Ha & Hi0 & Hm & Hj & Hc) Hi. rewrite !(emb2_eq kk P a i m j c D1 D2). unfold put2.
  destruct (linked_split2 1 P 1 kk (proj2 Ho) ltac:(lia) Hkk) as (a' & i' & m' & j' & c' & L1 & L2 & L3 & L4 & L5 & L6 & L7 & L8 & L9 & L10 & L11).
  rewrite D1 in L4. injection L4 as <- <- <-. rewrite D2 in L8. injection L8 as <- <-.
  rewrite <- Hd, <- (put2_self kk P Hkk) in Hi. unfold put2 in Hi. rewrite pdims_app in Hi. apply SparseFacts.in_range_app in Hi.
  destruct Hi as (i1 & i2 & -> & H1 & H2). cbn [pdims map] in H2. apply in_range_cons_inv in H2. destruct H2 as (y0 & i3 & -> & Hy & H2).
  apply in_range_cons_inv in H2. destruct H2 as (z & i4 & -> & Hz & H2). unfold dim in Hy, Hz. rewrite D1 in Hy. rewrite D2 in Hz. cbn [nth] in Hy, Hz.
  assert (E1 : length i1 = length (firstn kk P)) by (rewrite (ScalarFacts.in_range_length _ _ H1); apply length_pdims).
  rewrite !(amp_two_pair (firstn kk P) _ (id3 a i) _ 1 a i j c (a * i)%nat) by (try assumption; first [nia|apply wf_mk|apply wf_ten|reflexivity]).
  unfold amp_two. rewrite <- sum_sub. apply sum_ext. intros t Ht. rewrite <- sum_sub. apply sum_ext. intros u Hu. rewrite <- sum_sub. apply sum_ext. intros w Hw.
  rewrite !join_id3 by assumption. ring.
Qed.

Lemma sum4_offset a i j c (F : nat -> K) : sum4 a i j c (fun x y z w => F (offset [a; i; j; c] [x; y; z; w])) = sum (nprod [a; i; j; c]) F.
Proof. rewrite (sum_offset [a; i; j; c] F). reflexivity. Qed.

(** Storing the pair *)
Lemma two_store Dmax tol d k k' P X a i m j c : open_mps P -> pdims P = ds -> (k < length P)%nat -> moved d (length P) k k' ->
  let kk := Nat.min k k' in
  dims (site P kk) = [a; i; m] -> dims (site P (S kk)) = [m; j; c] -> (0 < a /\ 0 < i /\ 0 < m /\ 0 < j /\ 0 < c)%nat ->
  wf X -> dims X = [a; i; j; c] -> eff_tol flag tol <> 0%R ->
  exists P', set_canonical_2_sites svd flag P X (Z.of_nat k) (sgn d) Dmax tol false = Ok P' /\ cstepped ds d k k' P P' /\
    ((0 < Dmax)%Z -> (Z.of_nat (dim (site P' (S kk)) 0) <= Dmax)%Z) /\ differs_at2 P P' kk /\
    ((Dmax <= 0)%Z -> exact_tol flag tol -> forall is, in_range ds is -> amp P' is = amp (emb2 kk P (elems X)) is) /\
    (exists m', dims (site P' kk) = [a; i; m'] /\ dims (site P' (S kk)) = [m'; j; c] /\ (0 < m')%nat) /\
    ((Dmax <= 0)%Z -> (0 < eff_tol flag tol)%R -> canonical_at k' P' ->
      (dist2 ds (amp (emb2 kk P (elems X))) (amp P') <= Rmax (eff_tol flag tol) DBL_EPSILON * weight ds (amp (emb2 kk P (elems X))))%R).
Proof.
  intros Ho Hpd Hk Hm kk HP1 HP2 Hpos HwX HdX Hnz. pose proof Hpos as (Ha & Hi & Hm0 & Hj & Hc).
  assert (Hkk : (S kk < length P)%nat) by (unfold kk; destruct d; cbn in Hm; lia).
  destruct (s2s_false svd flag Hsvd P X a i j c kk (sgn d) Dmax tol Hkk HdX HwX Ha Hi Hj Hc) as (Pi & Pj & U & sv & V & Etp & E & HSvd & HPS).
  assert (Hdd : (0 <? sgn d)%Z = d) by (destruct d; reflexivity). rewrite Hdd in *. cbv zeta in *.
  assert (Hst : (if d then kk else S kk) = k) by (unfold kk; destruct d; cbn in Hm; lia). rewrite Hst in E. fold (put2 kk P Pi Pj) in E.
  set (q := where_to_truncate flag sv tol Dmax) in *.
  pose proof HPS as (HdPi & HwPi & HdPj & HwPj & Hiso & Hrec).
  assert (Hb0 : (0 < q)%nat) by (apply (two_pos flag X a i j c U sv V); auto).
  destruct (put2_fits ds kk P Pi Pj a i m j c q Ho Hpd Hkk HP1 HP2 Hb0 HwPi HdPi HwPj HdPj) as (O' & D').
  exists (put2 kk P Pi Pj). split; [exact E|].
  assert (HsPi : site (put2 kk P Pi Pj) kk = Pi) by (rewrite site_put2, Nat.eqb_refl by exact Hkk; reflexivity).
  assert (HsPj : site (put2 kk P Pi Pj) (S kk) = Pj).
  { rewrite site_put2 by exact Hkk. destruct (Nat.eqb_spec (S kk) kk); [lia|]. rewrite Nat.eqb_refl. reflexivity. }
  assert (Hoth : forall r, r <> kk -> r <> S kk -> site (put2 kk P Pi Pj) r = site P r).
  { intros r H1 H2. rewrite site_put2 by exact Hkk. destruct (Nat.eqb_spec r kk); [lia|]. destruct (Nat.eqb_spec r (S kk)); [lia|]. reflexivity. }
  pose proof (put2_length kk P Pi Pj Hkk) as Hlen.
  split; [split; [exact O'|split; [exact D'|split; [rewrite Hlen; destruct d; cbn in Hm; lia|split; [exact Hlen|split; [|split]]]]]|split; [|split; [|split; [|split]]]].
  - destruct d; cbn [moved iso] in *.
    + replace k with kk by (unfold kk; lia). rewrite HsPi. exact Hiso.
    + replace k with (S kk) by (unfold kk; lia). rewrite HsPj. exact Hiso.
  - intros r H1 H2. apply Hoth; unfold kk; destruct d; cbn in Hm; lia.
  - intros r Hr. destruct (Nat.eq_dec r kk) as [->|H1].
    + rewrite HsPi. unfold dim. rewrite HdPi, HP1. reflexivity.
    + rewrite Hoth by assumption. lia.
  - intros HD. rewrite HsPj. unfold dim. rewrite HdPj. cbn [nth].
    assert (Hbm : (q <= eff_max sv Dmax)%nat) by apply wtt_le. unfold eff_max in Hbm.
    destruct (Z.leb_spec Dmax 0); [lia|]. destruct (Z.ltb_spec (Z.of_nat (length sv)) Dmax); cbn [orb] in Hbm; lia.
  - exact Hoth.
  - intros HD He is His. rewrite (put2_emb ds kk P a i m j c Ho Hpd Hkk HP1 HP2 Hpos Pi Pj q Hb0 HwPi HdPi HwPj HdPj is His).
    rewrite !(emb2_eq kk P a i m j c HP1 HP2). apply (f_equal (fun x => amp (put2 kk P (id3 a i) x) is)).
    unfold ten. apply (f_equal (mkT _)). apply map_ext_in. intros r Hr. apply in_seq in Hr.
    assert (Hr' : (r < nprod [a; i; j; c])%nat) by (cbn in *; nia).
    pose proof (unravel_in_range [a; i; j; c] r Hr') as Hu. pose proof (offset_unravel [a; i; j; c] r Hr') as Eo. cbv zeta.
    set (u := unravel [a; i; j; c] r) in *. clearbody u. apply in_range_inv4 in Hu. destruct Hu as (x & y & z & w & -> & Hx & Hy & Hz & Hw). cbn [nth].
    rewrite <- Eo. specialize (Hrec x y z w Hx Hy Hz Hw). unfold get in Hrec. rewrite HdX in Hrec. unfold elems. rewrite Hrec.
    rewrite dropped_zero; [ring|]. intros t Ht. unfold exact_tol, exact_flag in He.
    apply (tol_exact_zero flag tol Dmax (length sv)); [|lia|exact Ht]. split; [|left; exact HD].
    unfold eff_tol in He. destruct (Rltb tol 0) eqn:Er; [apply Rltb_true in Er|]; [right; right; split; assumption|destruct He; auto].
  - exists q. rewrite HsPi, HsPj. auto.
  - intros HD Ht Hcan.
    set (y := fun r => let u := unravel [a; i; j; c] r in joined Pi Pj (nth 0 u 0%nat) (nth 1 u 0%nat) (nth 2 u 0%nat) (nth 3 u 0%nat)).
    assert (EP : forall x, emb2 kk (put2 kk P Pi Pj) x = emb2 kk P x).
    { intros x. apply (emb2_same kk P (put2 kk P Pi Pj) x a i m j c q); auto; congruence. }
    assert (Hkor : k' = kk \/ k' = S kk) by (unfold kk; destruct d; cbn in Hm; lia).
    assert (EWt : forall x, weight ds (amp (emb2 kk P x)) = rsum (nprod [a; i; j; c]) (fun r => kmod2 (x r))).
    { intros x. rewrite <- EP. apply (emb2_weight O ds HO kk (put2 kk P Pi Pj) a i q j c) with (k := k'); auto; congruence. }
    assert (Hdist : dist2 ds (amp (emb2 kk P (elems X))) (amp (put2 kk P Pi Pj)) = weight ds (amp (emb2 kk P (fun r => elems X r - y r)))).
    { unfold dist2, weight. f_equal. unfold inner. apply sumcfg_ext. intros is His. rewrite (emb2_sub kk P a i m j c _ _ is Ho Hpd Hkk HP1 HP2 Hpos His).
      rewrite (put2_emb ds kk P a i m j c Ho Hpd Hkk HP1 HP2 Hpos Pi Pj q Hb0 HwPi HdPi HwPj HdPj is His). reflexivity. }
    rewrite Hdist, !EWt. clear Hdist.
    destruct (pair_error X a i j c d Pi Pj U sv V q HSvd HdX (wtt_le_length _ _ _ _) HPS) as (He1 & He2).
    assert (R1 : rsum (nprod [a; i; j; c]) (fun r => kmod2 (elems X r - y r)) = tail_weight sv q).
    { apply rinj_inj. rewrite rinj_rsum, <- He1. rewrite (sum_ext _ _ (fun r => kconj (elems X r - y r) * (elems X r - y r))) by (intros; apply kmod2_spec).
      rewrite <- (sum4_offset a i j c (fun r => kconj (elems X r - y r) * (elems X r - y r))). unfold sum4.
      apply sum_ext. intros x1 H1. apply sum_ext. intros x2 H2. apply sum_ext. intros x3 H3. apply sum_ext. intros x4 H4.
      assert (Ey : y (offset [a; i; j; c] [x1; x2; x3; x4]) = joined Pi Pj x1 x2 x3 x4).
      { unfold y. cbv zeta. rewrite unravel_offset by (apply in_range_4; assumption). reflexivity. }
      rewrite Ey. unfold get, elems. rewrite HdX. reflexivity. }
    assert (R2 : rsum (nprod [a; i; j; c]) (fun r => kmod2 (elems X r)) = tail_weight sv 0).
    { apply rinj_inj. rewrite rinj_rsum, <- He2. rewrite (sum_ext _ _ (fun r => kconj (elems X r) * elems X r)) by (intros; apply kmod2_spec).
      rewrite <- (sum4_offset a i j c (fun r => kconj (elems X r) * elems X r)). unfold sum4.
      apply sum_ext. intros x1 H1. apply sum_ext. intros x2 H2. apply sum_ext. intros x3 H3. apply sum_ext. intros x4 H4.
      unfold get, elems. rewrite HdX. reflexivity. }
    rewrite R1, R2. pose proof (tail_weight_nonneg sv 0) as Hnn.
    assert (Hmx : (0 <= Rmax (eff_tol flag tol) DBL_EPSILON)%R) by (pose proof (Rmax_l (eff_tol flag tol) DBL_EPSILON); lra).
    destruct (Nat.lt_ge_cases q (eff_max sv Dmax)) as [Hlt|Hge]; [apply wtt_weight; assumption|].
    rewrite tail_weight_past; [apply Rmult_le_pos; assumption|]. revert Hge. unfold eff_max. destruct (Z.leb_spec Dmax 0); [cbn [orb]; auto|lia].
Qed.

(** ** One step *)
(** What the solution of the last local problem, the state phi, says of the state P that stores it *)
Definition from_local (Dmax : Z) (tol : R) (kk k' : nat) (P phi : mps) : Prop :=
  open_mps phi /\ pdims phi = ds /\ differs_at2 P phi kk /\
  (forall psi, open_mps psi -> pdims psi = ds -> differs_at2 P psi kk -> (Fn phi <= Fn psi)%R) /\ ov phi = rinj (g phi) /\
  ((Dmax <= 0)%Z -> exact_tol flag tol -> forall is, in_range ds is -> amp P is = amp phi is) /\
  ((Dmax <= 0)%Z -> (0 < eff_tol flag tol)%R -> canonical_at k' P ->
    (dist2 ds (amp phi) (amp P) <= Rmax (eff_tol flag tol) DBL_EPSILON * weight ds (amp phi))%R).

(** The numbers from which the error is computed *)
Definition lastval2 (d : bool) (qf : qform) (l : local) (phi : mps) : Prop :=
  tensor_scprod (l_vHQ l) (l_vP l) = ov phi /\
  exists w, apply_two_site_matrix qf (l_vP l) (sgn (negb d)) = Ok w /\ tensor_scprod (l_vP l) w = rinj (g phi).

Lemma step2_ok Dmax tol d k k' P Pv lf qf s : flag <> 0%R -> eff_tol flag tol <> 0%R ->
  At k Pv lf -> QAt k Pv qf -> open_mps P -> pdims P = ds -> agree2 (Nat.min k k') P Pv -> moved d (length Pv) k k' -> sk s = Z.of_nat k -> sdk s = sgn d ->
  exists P' Pv' lf' qf' l phi, solve_step2 svd flag cgs Dmax tol s P lf qf = Ok (P', lf', qf', l) /\
    cstepped ds d k k' Pv Pv' /\ At k' Pv' lf' /\ QAt k' Pv' qf' /\ open_mps P' /\ pdims P' = ds /\
    (if Nat.eqb k' (last_of d (length Pv)) then P' = Pv' else agree2 (if d then k' else (k' - 1)%nat) P' Pv') /\
    ((0 < Dmax)%Z -> (Z.of_nat (dim (site Pv' (S (Nat.min k k'))) 0) <= Dmax)%Z) /\ differs_at2 Pv Pv' (Nat.min k k') /\
    from_local Dmax tol (Nat.min k k') k' Pv' phi /\ lastval2 d qf' l phi.
Proof.
  intros Hf0 Ht0 HA HQ Po Pd Hag Hm Hs Hsd. pose proof HA as (Ho & Hpd & Hk & _). pose proof Hag as (Hl & Hags).
  set (kk := Nat.min k k') in *.
  assert (Hkk : (S kk < length Pv)%nat) by (unfold kk; destruct d; cbn in Hm; lia).
  destruct (site2_dims kk Pv Ho Hkk) as (a & i & m & j & c & D1 & D2 & W1 & W2 & Hpos).
  destruct (differ2 ds kk Pv P a i m j c Ho Hpd Hkk D1 D2 Po Pd) as (A & B & q & EP & Hq & HwA & HdA & HwB & HdB).
  { intros r H1 H2. apply Hags; assumption. }
  assert (SA : site P kk = A) by (rewrite EP, site_put2, Nat.eqb_refl by exact Hkk; reflexivity).
  assert (SB : site P (S kk) = B).
  { rewrite EP, site_put2 by exact Hkk. destruct (Nat.eqb_spec (S kk) kk); [lia|]. rewrite Nat.eqb_refl. reflexivity. }
  set (X0 := fold A 2 B 0).
  assert (HX0 : dims X0 = [a; i; j; c]) by (apply (dims_pair _ _ a i q j c); assumption).
  destruct (local_solution2 d k k' Pv lf qf X0 tol HA HQ Hm a i m j c D1 D2 Hpos (wf_mk _ _) HX0) as (v & X & Ev & EX & HwX & HdX & O1 & P1 & Esc & Hbest & Hov).
  fold kk in O1, P1, Esc, Hbest, Hov.
  destruct (two_store Dmax tol d k k' Pv X a i m j c Ho Hpd Hk Hm D1 D2 Hpos HwX HdX Ht0) as (Pv' & E & HS & HD & HDf & Hex & (m' & S1' & S2' & Hm') & Hdist).
  fold kk in HD, HDf, Hex, S1', S2', Hdist.
  set (phi := emb2 kk Pv (elems X)) in *.
  pose proof HS as (Ho' & Hpd' & Hk' & Hl' & _ & Hoth & Hdim).
  rewrite <- (two_agree svd flag P Pv) with (k' := k') in E; [|rewrite Hl; exact Hm|lia|exact Hag].
  apply two_false_true with (k' := k') in E; [|rewrite Hl; exact Hm|lia].
  assert (HP' : exists P', set_canonical svd flag Pv' (Z.of_nat k') (site Pv' k') (sgn d) true = Ok P' /\ open_mps P' /\ pdims P' = ds /\ site P' k = site Pv' k /\
     (if Nat.eqb k' (last_of d (length Pv)) then P' = Pv' else agree2 (if d then k' else (k' - 1)%nat) P' Pv')).
  { destruct (Nat.eqb_spec k' (last_of d (length Pv))) as [Ek|Ek].
    - rewrite (single_core_end svd flag true d k' Pv' (site Pv' k')) by (rewrite ?Hl'; assumption || lia). rewrite replace_nth_site. exists Pv'. auto.
    - assert (Hz : eff flag true <> 0%R \/ nonzero3 (site Pv' k')) by (left; exact Hf0).
      destruct d; cbn [moved last_of sgn] in *.
      + destruct Hm as (-> & Hm).
        destruct (set_canonical_right_ok3 svd flag Hsvd 1 1 Pv' (S k) (site Pv' (S k)) true) as (P' & EP' & (T1 & T2 & T3 & _) & _);
          [rewrite replace_nth_site; apply Ho'|lia|lia|exact Hz|]. rewrite replace_nth_site in *. pose proof (same_length _ _ T2) as T2'.
        exists P'. split; [exact EP'|]. split; [split; [intros ->; cbn in T2'; lia|exact T1]|]. split; [congruence|]. split; [apply T3; lia|]. split; [exact T2'|]. intros r Q1 Q2. apply T3; assumption.
      + destruct k' as [|k']; [congruence|].
        destruct (set_canonical_left_ok3 svd flag Hsvd 1 1 Pv' k' (site Pv' (S k')) true) as (P' & EP' & (T1 & T2 & T3 & _) & _);
          [rewrite replace_nth_site; apply Ho'|lia|lia|exact Hz|]. rewrite replace_nth_site in *. pose proof (same_length _ _ T2) as T2'.
        exists P'. split; [exact EP'|]. split; [split; [intros ->; cbn in T2'; lia|exact T1]|]. split; [congruence|]. split; [apply T3; lia|]. split; [exact T2'|]. intros r Q1 Q2. apply T3; lia. }
  destruct HP' as (P' & EP' & Oo & Od & Hsk & Hag').
  assert (Ll' : length P' = length Pv) by (rewrite <- !length_pdims; congruence).
  pose proof (q_moved O ds HO b Hb d k k' Pv Pv' qf HQ Hm HS) as HQ'.
  pose proof (at_moved ws bras ds d k k' Pv Pv' lf HA Hm HS) as (HA' & _).
  exists P', Pv', (lf_propagate lf (site P' k) (sgn d)), (qf_propagate qf (site P' k) (site P' k) (sgn d)), (mkLocal (tconj v) X empty), phi.
  split.
  { unfold solve_step2. unfold sweeper_sense, sweeper_site. rewrite Hs, Hsd, Ev. cbn [bind]. cbv zeta.
    replace (if (0 <? sgn d)%Z then Z.of_nat k else (Z.of_nat k - 1)%Z) with (Z.of_nat kk) by (unfold kk; destruct d; cbn in Hm |- *; lia).
    rewrite site_at_nat by lia. cbn [bind]. replace (Z.of_nat kk + 1)%Z with (Z.of_nat (S kk)) by lia. rewrite site_at_nat by lia. cbn [bind].
    rewrite SA, SB. unfold rank. rewrite HdA. change (fold A (length [a; i; q] - 1) B 0) with X0. rewrite EX. cbn [bind]. rewrite E, EP'. cbn [bind]. rewrite site_at_nat by lia. reflexivity. }
  rewrite Hsk. split; [exact HS|]. split; [exact HA'|]. split; [exact HQ'|]. split; [exact Oo|]. split; [exact Od|]. split; [exact Hag'|]. split; [exact HD|]. split; [exact HDf|].
  split.
  { split; [exact O1|]. split; [exact P1|].
    split. { intros r H1 H2. unfold phi. rewrite (emb2_eq kk Pv a i m j c D1 D2), site_put2 by exact Hkk. rewrite HDf by assumption.
      destruct (Nat.eqb_spec r kk); [lia|]. destruct (Nat.eqb_spec r (S kk)); [lia|]. reflexivity. }
    split. { intros psi Q1 Q2 Q3. apply Hbest; auto. intros r H1 H2. rewrite Q3 by assumption. apply HDf; assumption. }
    split; [exact Hov|]. split; [exact Hex|]. exact Hdist. }
  split; [exact Esc|]. cbn [l_vP].
  assert (Hm2 : moved (negb d) (length Pv') k' k) by (rewrite Hl'; destruct d; cbn in *; lia).
  assert (Ekk : kk = Nat.min k' k) by (unfold kk; apply Nat.min_comm).
  destruct Hpos as (Q1 & Q2 & Q3 & Q4 & Q5).
  destruct (pair_matrix kk Pv' a i m' j c Ho' Hpd' ltac:(lia) S1' S2' (conj Q1 (conj Q2 (conj Hm' (conj Q4 Q5)))) _ k' k (negb d) HQ' Hm2 Ekk) as (M' & HM' & Hact').
  destruct (Hact' X HwX HdX) as (w & Ew & Hww & Hdw & Hw). exists w. split; [exact Ew|].
  rewrite (scprod_elems X w [a; i; j; c] HwX Hww HdX Hdw). rewrite Hg1 by assumption.
  assert (Ephi : phi = emb2 kk Pv' (elems X)).
  { symmetry. apply (emb2_same kk Pv Pv' (elems X) a i m j c m'); auto. }
  rewrite Ephi, HM'. unfold qform_of. apply sum_ext. intros r Hr. unfold elems at 2. rewrite Hw by exact Hr. rewrite sum_mul_l. apply sum_ext. intros c' Hc'. unfold elems. ring.
Qed.

(** ** One sweep *)
Definition last_pair (d : bool) (L : nat) : nat := if d then (L - 2)%nat else 0%nat.
Definition swept2 (Dmax : Z) (tol : R) (d : bool) (P : mps) (s' : sweeper) (P' : mps) (lf' : lform) (qf' : qform) (l : local) : Prop :=
  let E := last_of d (length P) in
  length P' = length P /\ sw d (length P) E s' /\ At E P' lf' /\ QAt E P' qf' /\ canonical_at E P' /\
  (exists phi, from_local Dmax tol (last_pair d (length P)) E P' phi /\ lastval2 d qf' l phi) /\
  ((Dmax <= 0)%Z -> exact_tol flag tol -> (Fn P' <= Fn P)%R).

Lemma step2_mono Dmax tol kk k' P P' phi : open_mps P -> pdims P = ds -> open_mps P' -> pdims P' = ds -> differs_at2 P P' kk ->
  from_local Dmax tol kk k' P' phi -> (Dmax <= 0)%Z -> exact_tol flag tol -> (Fn P' <= Fn P)%R.
Proof.
  intros O1 D1 O2 D2 Hdf (Op & Dp & _ & Hbest & _ & Hex & _) HD He.
  destruct (Fn_ext O ds ws bras g Hg1 phi P' Op O2 Dp D2 (Hex HD He)) as (-> & _). apply Hbest; auto. intros r H1 H2. symmetry. apply Hdf; assumption.
Qed.

Lemma sweep2_ok Dmax tol (d : bool) n : flag <> 0%R -> eff_tol flag tol <> 0%R -> forall k P Pv lf qf s fuel,
  At k Pv lf -> QAt k Pv qf -> open_mps P -> pdims P = ds -> agree2 (if d then k else (k - 1)%nat) P Pv ->
  remaining d (length Pv) k (S n) -> (n < fuel)%nat -> sw d (length Pv) k s -> behind d k Pv ->
  exists s' P' lf' qf' l, solve_sweep2 svd flag cgs Dmax tol fuel s P lf qf = Ok (s', P', lf', qf', l) /\ swept2 Dmax tol d Pv s' P' lf' qf' l /\
    (forall j, ~ ahead d k j -> (dim (site P' j) 0 <= dim (site Pv j) 0)%nat) /\
    ((0 < Dmax)%Z -> forall j, (0 < j < length Pv)%nat -> ahead d k j -> (Z.of_nat (dim (site P' j) 0) <= Dmax)%Z).
Proof.
  intros Hf0 Ht0.
  induction n as [|n IH]; intros k P Pv lf qf s fuel HA HQ Po Pd Hag Hr Hf Hs Hbh; (destruct fuel as [|fuel]; [lia|]);
    set (k' := if d then S k else (k - 1)%nat);
    assert (Hmv : moved d (length Pv) k k') by (unfold k'; destruct d; cbn in *; lia);
    assert (Hk : (k < length Pv)%nat) by (destruct d; cbn in *; lia);
    assert (Hkk : Nat.min k k' = if d then k else (k - 1)%nat) by (unfold k'; destruct d; cbn in *; lia);
    rewrite <- Hkk in Hag; pose proof Hs as (S1 & S2 & S3 & S4);
    destruct (step2_ok Dmax tol d k k' P Pv lf qf s Hf0 Ht0 HA HQ Po Pd Hag Hmv S1 S4) as (P1 & Pv1 & lf1 & qf1 & l1 & phi & E & HS & HA1 & HQ1 & O1 & D1 & Hag1 & Hbd & Hdf & Hfl & Hlv);
    pose proof HS as (Ov & Dv & Hkv & Hlv1 & _ & Hoth & Hdim1); pose proof HA as (Ho & Hpd & _);
    destruct (sw_step d (length Pv) k k' s Hs Hmv Hk) as (s1 & Es1 & Hs1);
    pose proof (cstepped_behind ds d k k' Pv Pv1 Hmv HS Hbh) as Hb1;
    pose proof (step2_mono Dmax tol _ _ Pv Pv1 phi Ho Hpd Ov Dv Hdf Hfl) as Hmono;
    assert (Hah : forall j, ahead d k j <-> j = S (Nat.min k k') \/ ahead d k' j) by (intros j; unfold k'; destruct d; cbn in *; lia);
    assert (Hmm : (0 < S (Nat.min k k') < length Pv)%nat) by (unfold k'; destruct d; cbn in *; lia);
    cbn [solve_sweep2]; rewrite E; cbn [bind]; rewrite Es1, (sw_last d (length Pv) k' s1 Hs1).
  - assert (Hk' : k' = last_of d (length Pv)) by (unfold k'; destruct d; cbn in *; lia). rewrite Hk', Nat.eqb_refl in *. subst P1.
    exists s1, Pv1, lf1, qf1, l1. split; [reflexivity|]. split; [|split].
    + unfold swept2. repeat (split; [assumption|]). split; [rewrite <- Hlv1; apply behind_last; rewrite Hlv1; exact Hb1|]. split; [|exact Hmono].
      exists phi. split; [|exact Hlv]. replace (last_pair d (length Pv)) with (Nat.min k (last_of d (length Pv))) by (unfold last_pair, last_of; destruct d; cbn in *; lia). exact Hfl.
    + intros j Hj. apply Hdim1. intros ->. apply Hj. apply Hah. left. reflexivity.
    + intros HD j Hj Haj. apply Hah in Haj. destruct Haj as [->|Haj]; [apply Hbd; exact HD|]. destruct d; cbn in *; lia.
  - destruct (Nat.eqb_spec k' (last_of d (length Pv))) as [E0|_]; [exfalso; unfold k' in E0; destruct d; cbn in *; lia|].
    destruct (IH k' P1 Pv1 lf1 qf1 s1 fuel HA1 HQ1 O1 D1 Hag1) as (s' & P' & lf' & qf' & l & E' & Hsw & Hd1 & Hd2); [rewrite Hlv1; unfold k'; destruct d; cbn in *; lia|lia|rewrite Hlv1; exact Hs1|exact Hb1|].
    exists s', P', lf', qf', l. split; [exact E'|]. unfold swept2 in *. rewrite Hlv1 in *. split; [|split].
    + destruct Hsw as (H1 & H2 & H3 & H4 & H5 & H6 & H7). repeat (split; [assumption|]). intros HD He. eapply Rle_trans; [apply H7|apply Hmono]; assumption.
    + intros j Hj. assert (Hj1 : ~ ahead d k' j) by (intros H; apply Hj; apply Hah; auto). assert (Hj2 : j <> S (Nat.min k k')) by (intros H; apply Hj; apply Hah; auto).
      eapply Nat.le_trans; [apply Hd1; exact Hj1|apply Hdim1; exact Hj2].
    + intros HD j Hj Haj. apply Hah in Haj. destruct Haj as [->|Haj]; [|apply Hd2; assumption].
      assert (Hna : ~ ahead d k' (S (Nat.min k k'))) by (unfold k'; destruct d; cbn in *; lia).
      pose proof (Hd1 _ Hna) as H1. pose proof (Hbd HD) as H2. lia.
Qed.

Lemma sweep2_full Dmax tol d P lf qf s : flag <> 0%R -> eff_tol flag tol <> 0%R -> (2 <= length P)%nat ->
  At (last_of (negb d) (length P)) P lf -> QAt (last_of (negb d) (length P)) P qf -> sw d (length P) (last_of (negb d) (length P)) s ->
  exists s' P' lf' qf' l, solve_sweep2 svd flag cgs Dmax tol (length P) s P lf qf = Ok (s', P', lf', qf', l) /\ swept2 Dmax tol d P s' P' lf' qf' l /\
    ((0 < Dmax)%Z -> bonds_le Dmax P').
Proof.
  intros Hf0 Ht0 HL HA HQ Hs. pose proof HA as (Ho & Hpd & Hk & _).
  destruct (sweep2_ok Dmax tol d (length P - 2) Hf0 Ht0 (last_of (negb d) (length P)) P P lf qf s (length P) HA HQ Ho Hpd) as (s' & P' & lf' & qf' & l & E & Hsw & _ & HD);
    [split; [reflexivity|auto]|destruct d; cbn in *; lia|lia|exact Hs|destruct d; cbn in *; intros; lia|].
  exists s', P', lf', qf', l. split; [exact E|]. split; [exact Hsw|]. intros HD0 j Hj. destruct Hsw as (Hl & _). rewrite Hl in Hj. apply HD; [exact HD0|exact Hj|]. destruct d; cbn in *; lia.
Qed.

(** ** The loop *)
Variable lsolve : tensor -> tensor -> tensor.

Definition fin2 (Dmax : Z) (tol : R) (d : bool) (L : nat) (P phi : mps) : Prop :=
  let E := last_of d L in open_mps P /\ pdims P = ds /\ length P = L /\ canonical_at E P /\ from_local Dmax tol (last_pair d L) E P phi /\
  ((0 < Dmax)%Z -> bonds_le Dmax P).

Lemma loop2_S Dmax tol tolerance nq n s P lf qf err :
  solve_loop svd flag lsolve cgs false Dmax tol tolerance nq (S n) s P lf qf err =
  bind (solve_sweep svd flag lsolve cgs false Dmax tol s P lf qf) (fun '(s, P, lf, qf, l, normHP) =>
    let e := (normHP + nq - 2 * kre (tensor_scprod (l_vHQ l) (l_vP l)))%R in
    if solve_stop tolerance err e then Ok (s, P, e) else
    solve_loop svd flag lsolve cgs false Dmax tol tolerance nq n s P lf qf e).
Proof. reflexivity. Qed.

Lemma loop2_ok Dmax tol tolerance nq n : flag <> 0%R -> eff_tol flag tol <> 0%R -> forall d P lf qf s err, (2 <= length P)%nat ->
  At (last_of (negb d) (length P)) P lf -> QAt (last_of (negb d) (length P)) P qf -> sw d (length P) (last_of (negb d) (length P)) s ->
  exists s' P' err' d' phi, solve_loop svd flag lsolve cgs false Dmax tol tolerance nq (S n) s P lf qf err = Ok (s', P', err') /\
    sw (negb d') (length P) (last_of d' (length P)) s' /\ fin2 Dmax tol d' (length P) P' phi /\ err' = (Fn phi + nq)%R /\
    ((Dmax <= 0)%Z -> exact_tol flag tol -> (Fn P' <= Fn P)%R).
Proof.
  intros Hf0 Ht0.
  induction n as [|n IH]; intros d P lf qf s err HL HA HQ Hs; rewrite loop2_S; unfold solve_sweep;
  destruct (sweep2_full Dmax tol d P lf qf s Hf0 Ht0 HL HA HQ Hs) as (s1 & P1 & lf1 & qf1 & l & E & (H1 & H2 & H3 & H4 & H5 & (phi & H6 & H7 & w & H8 & H9) & H10) & H11);
  pose proof (sw_flip d (length P) _ s1 H2) as Hfl; pose proof H3 as (Ho1 & Hd1 & Hk1 & _);
  (assert (Hfin : fin2 Dmax tol d (length P) P1 phi) by (unfold fin2; auto 10));
  rewrite E; cbn [bind]; cbv zeta; unfold sweeper_sense; (replace (sdk (sweeper_flip s1)) with (sgn (negb d)) by (symmetry; apply Hfl)); rewrite H8; cbn [bind];
  set (e := (_ + nq - _)%R) in *; (assert (Ee : e = (Fn phi + nq)%R) by (unfold e, SolveStep.Fn; rewrite H7, H9, kre_rinj; lra)).
  - exists (sweeper_flip s1), P1, e, d, phi. split; [destruct (solve_stop _ _ _); reflexivity|]. auto.
  - destruct (solve_stop tolerance err e).
    + exists (sweeper_flip s1), P1, e, d, phi. split; [reflexivity|]. auto 10.
    + destruct (IH (negb d) P1 lf1 qf1 (sweeper_flip s1) e) as (s' & P' & err' & d' & phi' & E' & I1 & I2 & I3 & I4); rewrite ?negb_involutive, ?H1; try assumption.
      rewrite H1 in *. exists s', P', err', d', phi'. split; [exact E'|]. split; [exact I1|]. split; [exact I2|]. split; [exact I3|].
      intros HD He. eapply Rle_trans; [apply I4|apply H10]; assumption.
Qed.

Lemma exact_value Dmax tol d L P phi : fin2 Dmax tol d L P phi -> (Dmax <= 0)%Z -> exact_tol flag tol -> Fn P = Fn phi.
Proof.
  intros (Ho & Hd & _ & _ & (Op & Dp & _ & _ & _ & Hex & _) & _) HD He. apply (Fn_ext O ds ws bras g Hg1); auto.
Qed.

Lemma loop2_more Dmax tol tolerance nq n : flag <> 0%R -> eff_tol flag tol <> 0%R -> (Dmax <= 0)%Z -> exact_tol flag tol ->
  forall m, (n <= m)%nat -> forall d P lf qf s err s1 P1 e1 s2 P2 e2, (2 <= length P)%nat ->
  At (last_of (negb d) (length P)) P lf -> QAt (last_of (negb d) (length P)) P qf -> sw d (length P) (last_of (negb d) (length P)) s ->
  solve_loop svd flag lsolve cgs false Dmax tol tolerance nq (S n) s P lf qf err = Ok (s1, P1, e1) ->
  solve_loop svd flag lsolve cgs false Dmax tol tolerance nq (S m) s P lf qf err = Ok (s2, P2, e2) -> (e2 <= e1)%R.
Proof.
  intros Hf0 Ht0 HD He.
  induction n as [|n IH]; intros m Hm d P lf qf s err s1 P1 e1 s2 P2 e2 HL HA HQ Hs; rewrite !loop2_S; unfold solve_sweep;
  destruct (sweep2_full Dmax tol d P lf qf s Hf0 Ht0 HL HA HQ Hs) as (s0 & P0 & lf0 & qf0 & l & E & (H1 & H2 & H3 & H4 & H5 & (phi & H6 & H7 & w & H8 & H9) & H10) & H11);
  pose proof (sw_flip d (length P) _ s0 H2) as Hfl; pose proof H3 as (Ho1 & Hd1 & Hk1 & _);
  (assert (Hfin : fin2 Dmax tol d (length P) P0 phi) by (unfold fin2; auto 10)); pose proof (exact_value _ _ _ _ _ _ Hfin HD He) as Hex;
  rewrite E; cbn [bind]; cbv zeta; unfold sweeper_sense; (replace (sdk (sweeper_flip s0)) with (sgn (negb d)) by (symmetry; apply Hfl)); rewrite H8; cbn [bind];
  set (e := (_ + nq - _)%R) in *; (assert (Ee : e = (Fn P0 + nq)%R) by (rewrite Hex; unfold e, SolveStep.Fn; rewrite H7, H9, kre_rinj; lra));
  destruct (solve_stop tolerance err e).
  - intros E1 E2. apply Ok_inj' in E1, E2. injection E1 as <- <- <-. injection E2 as <- <- <-. lra.
  - intros E1 E2. cbn [solve_loop] in E1. apply Ok_inj' in E1. injection E1 as <- <- <-. destruct m as [|m].
    + cbn [solve_loop] in E2. apply Ok_inj' in E2. injection E2 as <- <- <-. lra.
    + destruct (loop2_ok Dmax tol tolerance nq m Hf0 Ht0 (negb d) P0 lf0 qf0 (sweeper_flip s0) e) as (s' & P' & err' & d' & phi' & E' & I1 & I2 & I3 & I4); rewrite ?negb_involutive, ?H1; try assumption.
      rewrite E2 in E'. apply Ok_inj' in E'. injection E' as <- <- <-. rewrite I3, Ee. specialize (I4 HD He). rewrite <- (exact_value _ _ _ _ _ _ I2 HD He). lra.
  - intros E1 E2. apply Ok_inj' in E1, E2. injection E1 as <- <- <-. injection E2 as <- <- <-. lra.
  - destruct m as [|m]; [lia|]. apply (IH m ltac:(lia) (negb d)); rewrite ?negb_involutive, ?H1; assumption.
Qed.
End Step.
