(** The two-site step of simplify_obc *)
From Coq Require Import Reals Lra Bool List Arith ZArith Lia Ring.
From Verif Require Import Scalar ScalarFacts RScal Tensor TensorFacts Spec MpsModel MpsFacts StateFacts StateFacts2 MpoSpec CanonSpec CanonModel
  TruncFacts SplitFacts CanonFacts CanonSweep CanonNorm CanonProps CanonTwo SweepModel SweepSpec SweepFacts FormModel FormSpec LFormFacts LFormValue
  SimplifySpec SimplifyModel EckartYoung SimplifyFacts SimplifyStep SimplifyPair.
Import ListNotations.
Local Open Scope K_scope.

Section Double.
Context {RS : RScal}.
Add Ring Kring : k_ring.
Variable svd : tensor -> tensor * list R * tensor.
Variable flag : R.
Hypothesis Hsvd : svd_contract svd.
Variables (ws : list K) (bras : list mps) (ds : list nat).
Hypothesis Hg : good_bras ws bras ds.
Notation D2 P := (dist2 ds (combo ws bras) (amp P)).

(** Two neighbouring tensors replaced *)
Definition put2 (k : nat) (P : mps) (A B : tensor) : mps := firstn k P ++ A :: B :: skipn (S (S k)) P.

Lemma put2_length k P A B : (S k < length P)%nat -> length (put2 k P A B) = length P.
Proof. intros H. unfold put2. rewrite app_length. cbn [length]. rewrite firstn_length, skipn_length. lia. Qed.

Lemma put2_self k P : (S k < length P)%nat -> put2 k P (site P k) (site P (S k)) = P.
Proof. intros H. unfold put2. rewrite <- (skipn_site (S k)) by lia. rewrite <- skipn_site by lia. apply firstn_skipn. Qed.

Lemma site_put2 k P A B q : (S k < length P)%nat ->
  site (put2 k P A B) q = if Nat.eqb q k then A else if Nat.eqb q (S k) then B else site P q.
Proof. apply site_two. Qed.

Lemma put2_fits k P A B a i m j c b : open_mps P -> pdims P = ds -> (S k < length P)%nat ->
  dims (site P k) = [a; i; m] -> dims (site P (S k)) = [m; j; c] -> (0 < b)%nat ->
  wf A -> dims A = [a; i; b] -> wf B -> dims B = [b; j; c] ->
  open_mps (put2 k P A B) /\ pdims (put2 k P A B) = ds.
Proof.
  intros (Hn & HL) Hd Hk HA HB Hb HwA HdA HwB HdB.
  destruct (linked_split2 1 P 1 k HL ltac:(lia) Hk) as (m0 & d1 & c0 & d2 & m' & L1 & L2 & L3 & L4 & L5 & L6 & L7 & L8 & L9 & L10 & L11).
  rewrite HA in L4. injection L4 as <- <- <-. rewrite HB in L8. injection L8 as <- <-.
  split; [split|].
  - unfold put2. destruct (firstn k P); discriminate.
  - unfold put2. apply linked_app. exists a. split; [exact L1|]. exists i, b. repeat split; auto. exists j, c. repeat split; auto.
  - rewrite <- Hd. rewrite <- (put2_self k P Hk) at 2. unfold put2, pdims. rewrite !map_app. cbn [map]. unfold dim. rewrite HdA, HdB, HA, HB. reflexivity.
Qed.

Lemma at_repr2 d k k' P f : At ws bras ds k P f -> moved d (length P) k k' ->
  let kk := Nat.min k k' in
  exists v a i m j c, two_site_vector f (sgn d) = Ok v /\ wf v /\ dims v = [a; i; j; c] /\
    dims (site P kk) = [a; i; m] /\ dims (site P (S kk)) = [m; j; c] /\ wf (site P kk) /\ wf (site P (S kk)) /\
    (0 < a)%nat /\ (0 < i)%nat /\ (0 < m)%nat /\ (0 < j)%nat /\ (0 < c)%nat /\
    forall A B b, (0 < b)%nat -> wf A -> dims A = [a; i; b] -> wf B -> dims B = [b; j; c] ->
      sum4 a i j c (fun x y z w => get v [x; y; z; w] * joined A B x y z w) = overlap ws bras (put2 kk P A B).
Proof.
  intros (Ho & Hd & Hk & Hh) Hm kk.
  assert (Hkk : (S kk < length P)%nat) by (unfold kk; destruct d; cbn in Hm; lia).
  destruct (linked_split2 1 P 1 kk (proj2 Ho) ltac:(lia) Hkk) as (a & i & m & j & c & L1 & L2 & L3 & L4 & L5 & L6 & L7 & L8 & L9 & L10 & L11).
  assert (HT : forall A B b, (0 < b)%nat -> wf A -> dims A = [a; i; b] -> wf B -> dims B = [b; j; c] ->
    exists v, two_site_vector f (sgn d) = Ok v /\ wf v /\ dims v = [a; i; j; c] /\
      sum4 a i j c (fun x y z w => get v [x; y; z; w] * joined A B x y z w) = overlap ws bras (put2 kk P A B)).
  { intros A B b Hb HwA HdA HwB HdB.
    destruct (put2_fits kk P A B a i m j c b Ho Hd Hkk L4 L8 Hb HwA HdA HwB HdB) as ((_ & F1) & F2).
    pose proof (history_linv ws bras ds Hg _ _ _ Hh) as (Hi & _).
    assert (E0 : dim A 0 = a) by (unfold dim; rewrite HdA; reflexivity). assert (E1 : dim A 1 = i) by (unfold dim; rewrite HdA; reflexivity).
    assert (E2 : dim B 1 = j) by (unfold dim; rewrite HdB; reflexivity). assert (E3 : dim B 2 = c) by (unfold dim; rewrite HdB; reflexivity).
    destruct d; cbn [moved sgn] in *.
    - destruct Hm as (-> & Hk'). replace kk with k in * by (unfold kk; lia). rewrite (skipn_site (S k) P Hk') in Hi.
      destruct (two_site_right ws bras ds Hg f _ _ _ A B Hi F1 F2) as (v & H1 & H2 & H3 & H4).
      rewrite E0, E1, E2, E3 in H3, H4. exists v. auto.
    - subst k. replace kk with k' in * by (unfold kk; lia). rewrite (firstn_S_site k' P) in Hi by lia.
      destruct (two_site_left ws bras ds Hg f _ _ _ A B Hi F1 F2) as (v & H1 & H2 & H3 & H4).
      rewrite E0, E1, E2, E3 in H3, H4. exists v. auto. }
  destruct (HT (site P kk) (site P (S kk)) m L7 L5 L4 L9 L8) as (v & Ev & Hwv & Hdv & _).
  exists v, a, i, m, j, c. repeat (split; [assumption|]).
  intros A B b Hb HwA HdA HwB HdB. destruct (HT A B b Hb HwA HdA HwB HdB) as (v' & Ev' & _ & _ & H). rewrite Ev in Ev'. apply Ok_inj' in Ev'. subst v'. exact H.
Qed.

Lemma sum4_nonzero a i j c F G : sum4 a i j c (fun x y z w => F x y z w * G x y z w) <> 0 ->
  exists x y z w, (x < a)%nat /\ (y < i)%nat /\ (z < j)%nat /\ (w < c)%nat /\ F x y z w <> 0.
Proof.
  assert (Hs : forall n H, sum n H <> 0 -> exists x, (x < n)%nat /\ H x <> 0).
  { induction n as [|n IH]; intros H Hn; cbn in Hn; [congruence|]. destruct (keqb_spec (H n) 0) as [E|E].
    - rewrite E in Hn. destruct (IH H) as (x & Hx & Hne); [intros E2; apply Hn; rewrite E2; ring|]. exists x. split; [lia|exact Hne].
    - exists n. split; [lia|exact E]. }
  intros H. unfold sum4 in H.
  apply Hs in H. destruct H as (x & Hx & H). apply Hs in H. destruct H as (y & Hy & H). apply Hs in H. destruct H as (z & Hz & H).
  apply Hs in H. destruct H as (w & Hw & H). exists x, y, z, w. repeat split; auto. intros E. apply H. rewrite E. ring.
Qed.

(** Distance after replacing a pair, one of whose members is an isometry of the right kind *)
Lemma pair_dist k P v A B a i m j c b : open_mps P -> pdims P = ds -> (S k < length P)%nat ->
  dims (site P k) = [a; i; m] -> dims (site P (S k)) = [m; j; c] -> (0 < b)%nat ->
  wf A -> dims A = [a; i; b] -> wf B -> dims B = [b; j; c] ->
  sum4 a i j c (fun x y z w => kconj (get v [x; y; z; w]) * joined A B x y z w) = overlap ws bras (put2 k P A B) ->
  (canonical_at k (put2 k P A B) \/ canonical_at (S k) (put2 k P A B)) ->
  rinj (D2 (put2 k P A B)) = rinj (weight ds (combo ws bras)) - sum4 a i j c (fun x y z w => kconj (get v [x; y; z; w]) * get v [x; y; z; w])
    + sum4 a i j c (fun x y z w => kconj (get v [x; y; z; w] - joined A B x y z w) * (get v [x; y; z; w] - joined A B x y z w)).
Proof.
  intros Ho Hd Hk HA HB Hb HwA HdA HwB HdB Hov Hcan.
  destruct (put2_fits k P A B a i m j c b Ho Hd Hk HA HB Hb HwA HdA HwB HdB) as (F1 & F2).
  assert (Hw : inner ds (amp (put2 k P A B)) (amp (put2 k P A B)) = sum4 a i j c (fun x y z w => kconj (joined A B x y z w) * joined A B x y z w)).
  { destruct Hcan as [Hc|Hc].
    - rewrite (canonical_inner ws bras ds Hg k _ F1 F2 ltac:(rewrite put2_length; lia) Hc). rewrite site_put2, Nat.eqb_refl by exact Hk.
      symmetry. apply (joined_right A B a i b j c); auto. destruct Hc as (_ & Hc). specialize (Hc (S k) ltac:(rewrite put2_length; lia)).
      rewrite site_put2 in Hc by exact Hk. destruct (Nat.eqb_spec (S k) k); [lia|]. rewrite Nat.eqb_refl in Hc. exact Hc.
    - rewrite (canonical_inner ws bras ds Hg (S k) _ F1 F2 ltac:(rewrite put2_length; lia) Hc). rewrite site_put2 by exact Hk.
      destruct (Nat.eqb_spec (S k) k); [lia|]. rewrite Nat.eqb_refl.
      symmetry. apply (joined_left A B a i b j c); auto. destruct Hc as (Hc & _). specialize (Hc k ltac:(lia)).
      rewrite site_put2, Nat.eqb_refl in Hc by exact Hk. exact Hc. }
  rewrite dist2_expand, <- (overlap_combo ws bras ds) by exact F2. rewrite rinj_weight, Hw, <- Hov, sum4_conj.
  set (WW := inner ds (combo ws bras) (combo ws bras)). clearbody WW. clear.
  assert (E : sum4 a i j c (fun x y z w => kconj (get v [x; y; z; w] - joined A B x y z w) * (get v [x; y; z; w] - joined A B x y z w)) =
    sum4 a i j c (fun x y z w => kconj (get v [x; y; z; w]) * get v [x; y; z; w])
    + (- (1)) * sum4 a i j c (fun x y z w => kconj (get v [x; y; z; w]) * joined A B x y z w)
    + (- (1)) * sum4 a i j c (fun x y z w => kconj (kconj (get v [x; y; z; w]) * joined A B x y z w))
    + sum4 a i j c (fun x y z w => kconj (joined A B x y z w) * joined A B x y z w)).
  { rewrite <- !sum4_mul_l, <- !sum4_add. apply sum4_ext. intros. rewrite kconj_sub, kconj_mul, kconj_inv. ring. }
  rewrite E. ring.
Qed.

Lemma put2_replace k P A B T : (S k < length P)%nat ->
  replace_nth k T (put2 k P A B) = put2 k P T B /\ replace_nth (S k) T (put2 k P A B) = put2 k P A T.
Proof.
  intros Hk. unfold put2. destruct (replace2 P k A B Hk) as (H1 & H2). split.
  - rewrite <- H2, replace_replace. apply replace2. exact Hk.
  - rewrite <- H1, replace_replace. apply replace2. exact Hk.
Qed.

(** [v] represents the scalar product as a function of the two tensors at kk, kk+1. *)
Definition repr2 (kk : nat) (P : mps) (v : tensor) : Prop :=
  exists a i m j c, wf v /\ dims v = [a; i; j; c] /\
    dims (site P kk) = [a; i; m] /\ dims (site P (S kk)) = [m; j; c] /\ wf (site P kk) /\ wf (site P (S kk)) /\
    (0 < a)%nat /\ (0 < i)%nat /\ (0 < m)%nat /\ (0 < j)%nat /\ (0 < c)%nat /\
    forall A B b, (0 < b)%nat -> wf A -> dims A = [a; i; b] -> wf B -> dims B = [b; j; c] ->
      sum4 a i j c (fun x y z w => get v [x; y; z; w] * joined A B x y z w) = overlap ws bras (put2 kk P A B).

(** What the two-site update does. *)
Lemma double_core Dmax tol d k k' P v : open_mps P -> pdims P = ds -> (k < length P)%nat -> moved d (length P) k k' ->
  repr2 (Nat.min k k') P v -> nz ws bras (eff_tol flag tol) P ->
  exists P', set_canonical_2_sites svd flag P (tconj v) (Z.of_nat k) (sgn d) Dmax tol false = Ok P' /\ cstepped ds d k k' P P' /\ nz ws bras (eff_tol flag tol) P' /\
    opt ws bras k' P' /\
    ((0 < Dmax)%Z -> (Z.of_nat (dim (site P' (S (Nat.min k k'))) 0) <= Dmax)%Z) /\
    (exact_tol flag tol -> (Dmax <= 0 \/ Z.of_nat (dim (site P (S (Nat.min k k'))) 0) <= Dmax)%Z -> canonical_at k P -> (D2 P' <= D2 P)%R) /\
    (overlap ws bras P <> 0 -> overlap ws bras P' <> 0).
Proof.
  intros Ho Hpd Hk Hm (a & i & m & j & c & Hwv & Hdv & HP1 & HP2 & HwP1 & HwP2 & Ha & Hi & Hm0 & Hj & Hc & Hov) Hn.
  set (kk := Nat.min k k') in *.
  assert (Hkk : (S kk < length P)%nat) by (unfold kk; destruct d; cbn in Hm; lia).
  assert (Hdc : dims (tconj v) = [a; i; j; c]) by exact Hdv. pose proof (wf_tconj v Hwv) as Hwc.
  destruct (s2s_false svd flag Hsvd P (tconj v) a i j c kk (sgn d) Dmax tol Hkk Hdc Hwc Ha Hi Hj Hc) as (Pi & Pj & U & sv & V & Etp & E & HSvd & HPS).
  assert (Hdd : (0 <? sgn d)%Z = d) by (destruct d; reflexivity). rewrite Hdd in *. cbv zeta in *.
  assert (Hst : (if d then kk else S kk) = k) by (unfold kk; destruct d; cbn in Hm; lia). rewrite Hst in E. fold (put2 kk P Pi Pj) in E.
  set (b := where_to_truncate flag sv tol Dmax) in *.
  assert (Hle : (b <= length sv)%nat) by apply wtt_le_length.
  pose proof HPS as (HdPi & HwPi & HdPj & HwPj & Hiso & Hrec).
  assert (Hov' : forall A B b, (0 < b)%nat -> wf A -> dims A = [a; i; b] -> wf B -> dims B = [b; j; c] ->
      sum4 a i j c (fun x y z w => kconj (get (tconj v) [x; y; z; w]) * joined A B x y z w) = overlap ws bras (put2 kk P A B)).
  { intros A B b0 H1 H2 H3 H4 H5. rewrite <- (Hov A B b0) by assumption. apply sum4_ext. intros. rewrite get_tconj, kconj_inv. reflexivity. }
  assert (Hnz4 : overlap ws bras P <> 0 -> nonzero4 (tconj v)).
  { intros Hne. rewrite <- (put2_self kk P Hkk) in Hne. rewrite <- (Hov (site P kk) (site P (S kk)) m) in Hne by assumption.
    apply sum4_nonzero in Hne. destruct Hne as (x & y & z & w & Hx & Hy & Hz & Hw & Hne).
    exists x, y, z, w. unfold dim. rewrite Hdc. cbn [nth]. repeat split; auto. rewrite get_tconj. intros E0. apply Hne.
    rewrite <- (kconj_inv (get v _)), E0. apply kconj_0. }
  assert (Hb : (0 < b)%nat).
  { apply (two_pos flag (tconj v) a i j c U sv V); auto. destruct Hn as [Hn|Hn]; [left; exact Hn|right; apply Hnz4; exact Hn]. }
  destruct (put2_fits kk P Pi Pj a i m j c b Ho Hpd Hkk HP1 HP2 Hb HwPi HdPi HwPj HdPj) as (O' & D').
  set (P' := put2 kk P Pi Pj) in *.
  assert (Hlen' : length P' = length P) by (apply put2_length; exact Hkk).
  assert (HsPi : site P' kk = Pi) by (unfold P'; rewrite site_put2, Nat.eqb_refl by exact Hkk; reflexivity).
  assert (HsPj : site P' (S kk) = Pj).
  { unfold P'; rewrite site_put2 by exact Hkk. destruct (Nat.eqb_spec (S kk) kk); [lia|]. rewrite Nat.eqb_refl. reflexivity. }
  assert (Hoth : forall q, q <> kk -> q <> S kk -> site P' q = site P q).
  { intros q H1 H2. unfold P'; rewrite site_put2 by exact Hkk. destruct (Nat.eqb_spec q kk); [lia|]. destruct (Nat.eqb_spec q (S kk)); [lia|]. reflexivity. }
  pose proof (two_pair_proj svd flag Hsvd (tconj v) a i j c Dmax tol d Pi Pj Hdc Hwc Ha Hi Hj Hc Etp) as Hproj.
  assert (Hopt : opt ws bras k' P').
  { intros T HwT HdT. unfold dot. destruct d; cbn [moved] in Hm.
    - destruct Hm as (-> & Hk'). assert (Ekk : kk = k) by (unfold kk; lia). clearbody kk. subst kk. rewrite HsPj in *. unfold P'.
      rewrite (proj2 (put2_replace k P Pi Pj T Hkk)). rewrite <- (Hov' Pi T b) by congruence. rewrite HdT, HdPj, sumcfg_3. unfold sum4.
      assert (E1 : dim Pj 0 = b) by (unfold dim; rewrite HdPj; reflexivity). rewrite E1 in Hproj.
      rewrite (sum_ext b _ (fun q => sum j (fun z => sum c (fun w => sum a (fun x => sum i (fun y => kconj (get (tconj v) [x; y; z; w]) * (get Pi [x; y; q] * get T [q; z; w]))))))).
      2:{ intros q Hq. apply sum_ext; intros z Hz. apply sum_ext; intros w Hw. rewrite get_tconj, <- Hproj by assumption. rewrite sum_conj, sum_mul_r.
          apply sum_ext; intros x _. rewrite sum_conj, sum_mul_r. apply sum_ext; intros y _. rewrite kconj_mul, kconj_inv. ring. }
      unfold joined. replace (dim Pi 2) with b by (unfold dim; rewrite HdPi; reflexivity).
      symmetry.
      rewrite (sum_ext a _ (fun x => sum b (fun q => sum i (fun y => sum j (fun z => sum c (fun w => kconj (get (tconj v) [x; y; z; w]) * (get Pi [x; y; q] * get T [q; z; w]))))))).
      2:{ intros x _. rewrite (sum_ext i _ (fun y => sum b (fun q => sum j (fun z => sum c (fun w => kconj (get (tconj v) [x; y; z; w]) * (get Pi [x; y; q] * get T [q; z; w])))))).
          - apply sum_swap.
          - intros y _. rewrite (sum_ext j _ (fun z => sum b (fun q => sum c (fun w => kconj (get (tconj v) [x; y; z; w]) * (get Pi [x; y; q] * get T [q; z; w]))))).
            + apply sum_swap.
            + intros z _. rewrite sum_swap. apply sum_ext; intros w _. apply sum_mul_l. }
      rewrite sum_swap. apply sum_ext; intros q _.
      rewrite (sum_ext a _ (fun x => sum j (fun z => sum i (fun y => sum c (fun w => kconj (get (tconj v) [x; y; z; w]) * (get Pi [x; y; q] * get T [q; z; w])))))) by (intros; apply sum_swap).
      rewrite sum_swap. apply sum_ext; intros z _.
      rewrite (sum_ext a _ (fun x => sum c (fun w => sum i (fun y => kconj (get (tconj v) [x; y; z; w]) * (get Pi [x; y; q] * get T [q; z; w]))))) by (intros; apply sum_swap).
      apply sum_swap.
    - subst k. assert (Ekk : kk = k') by (unfold kk; lia). clearbody kk. subst kk. rewrite HsPi in *. unfold P'.
      rewrite (proj1 (put2_replace k' P Pi Pj T Hkk)). rewrite HdT, HdPi. rewrite <- (Hov' T Pj b) by congruence. rewrite sumcfg_3. unfold sum4.
      assert (E1 : dim Pi 2 = b) by (unfold dim; rewrite HdPi; reflexivity). rewrite E1 in Hproj.
      apply sum_ext; intros x Hx. apply sum_ext; intros y Hy.
      rewrite (sum_ext b _ (fun q => sum j (fun z => sum c (fun w => kconj (get (tconj v) [x; y; z; w]) * (get T [x; y; q] * get Pj [q; z; w]))))).
      2:{ intros q Hq. rewrite get_tconj, <- Hproj by assumption. rewrite sum_conj, sum_mul_r.
          apply sum_ext; intros z _. rewrite sum_conj, sum_mul_r. apply sum_ext; intros w _. rewrite kconj_mul, kconj_inv. ring. }
      rewrite sum_swap. apply sum_ext; intros z _. rewrite sum_swap. apply sum_ext; intros w _. unfold joined.
      replace (dim T 2) with b by (unfold dim; rewrite HdT, HdPi; reflexivity). symmetry. apply sum_mul_l. }
  assert (Hmm : kk = k /\ S kk = k' \/ kk = k' /\ S kk = k) by (unfold kk; destruct d; cbn in Hm; lia).
  assert (Hnk' : (k' < length P)%nat) by (destruct d; cbn in Hm; lia).
  assert (Hkeep : overlap ws bras P <> 0 -> overlap ws bras P' <> 0).
  { intros Hne0.
    rewrite (opt_overlap ws bras k' P' O' ltac:(lia) Hopt).
    destruct (pair_nonzero (tconj v) a i j c d Pi Pj U sv V b HSvd Hdc Hb Hle HPS (Hnz4 Hne0)) as (N1 & N2).
    assert (Hnn : forall t x0 y0 z0, dims t = [x0; y0; z0] -> wf t -> nonzero3 t -> rinj (frob2 t) <> 0).
    { intros t x0 y0 z0 Hdt Hwt (x & y & z & Hx & Hy & Hz & Hne). unfold dim in *. rewrite Hdt in *. cbn [nth] in *.
      intros E0. rewrite <- rinj_0 in E0. apply rinj_inj in E0. revert E0. apply (frob2_pos t x0 y0 z0 [x; y; z]); auto. apply in_range_3; assumption. }
    destruct Hmm as [(M1 & M2)|(M1 & M2)].
    + rewrite <- M2, HsPj. apply (Hnn Pj b j c); assumption.
    + rewrite <- M1, HsPi. apply (Hnn Pi a i b); assumption. }
  exists P'. split; [exact E|].
  split; [split; [exact O'|split; [exact D'|split; [lia|split; [exact Hlen'|split; [|split]]]]]|split; [|split; [exact Hopt|split; [|split; [|exact Hkeep]]]]].
  - (* isometry *)
    destruct d; cbn [moved iso] in *.
    + replace k with kk by (unfold kk; lia). rewrite HsPi. exact Hiso.
    + replace k with (S kk) by (unfold kk; lia). rewrite HsPj. exact Hiso.
  - intros q H1 H2. apply Hoth; lia.
  - intros q Hq. destruct (Nat.eq_dec q kk) as [->|H1].
    + rewrite HsPi. unfold dim. rewrite HdPi, HP1. reflexivity.
    + rewrite Hoth by assumption. lia.
  - destruct Hn as [Hn|Hn]; [left; exact Hn|right; apply Hkeep; exact Hn].
  - intros HD. rewrite HsPj. unfold dim. rewrite HdPj. cbn [nth].
    assert (Hbm : (b <= eff_max sv Dmax)%nat) by apply wtt_le. unfold eff_max in Hbm.
    destruct (Z.leb_spec Dmax 0); [lia|]. destruct (Z.ltb_spec (Z.of_nat (length sv)) Dmax); cbn [orb] in Hbm; lia.
  - intros He HD Hcan. rewrite HP2 in HD || (unfold dim in HD; rewrite HP2 in HD). cbn [nth] in HD.
    destruct (pair_best svd Hsvd (tconj v) a i j c U sv V m (site P kk) (site P (S kk)) HSvd Hdc Ha Hi Hj Hm0 HP1 HP2) as (r & Hr1 & Hr2).
    assert (Hold := pair_dist kk P (tconj v) (site P kk) (site P (S kk)) a i m j c m Ho Hpd Hkk HP1 HP2 Hm0 HwP1 HP1 HwP2 HP2
       (Hov' _ _ m Hm0 HwP1 HP1 HwP2 HP2)).
    rewrite (put2_self kk P Hkk) in Hold.
    assert (Hold' := Hold ltac:(destruct d; cbn [moved] in Hm; [left; replace kk with k by lia|right; replace (S kk) with k by lia]; exact Hcan)).
    assert (Hcan' : canonical_at k' P').
    { destruct Hcan as (C1 & C2). split; intros q Hq.
      - destruct (Nat.eq_dec q k) as [->|Hne].
        + destruct d; cbn [moved] in Hm; [|lia]. replace k with kk by lia. rewrite HsPi. exact Hiso.
        + rewrite Hoth by lia. apply C1. destruct d; cbn [moved] in Hm; lia.
      - destruct (Nat.eq_dec q k) as [->|Hne].
        + destruct d; cbn [moved] in Hm; [lia|]. replace k with (S kk) by lia. rewrite HsPj. exact Hiso.
        + rewrite Hoth by lia. apply C2. destruct d; cbn [moved] in Hm; lia. }
    assert (Hnew := pair_dist kk P (tconj v) Pi Pj a i m j c b Ho Hpd Hkk HP1 HP2 Hb HwPi HdPi HwPj HdPj (Hov' _ _ b Hb HwPi HdPi HwPj HdPj)).
    fold P' in Hnew.
    assert (Hnew' := Hnew ltac:(destruct d; cbn [moved] in Hm; [right; replace (S kk) with k' by lia|left; replace kk with k' by lia]; exact Hcan')).
    destruct (pair_error (tconj v) a i j c d Pi Pj U sv V b HSvd Hdc Hle HPS) as (He1 & He2).
    fold (sum4 a i j c (fun x y z w => kconj (get (tconj v) [x; y; z; w] - joined Pi Pj x y z w) * (get (tconj v) [x; y; z; w] - joined Pi Pj x y z w))) in He1.
    fold (sum4 a i j c (fun x y z w => kconj (get (tconj v) [x; y; z; w]) * get (tconj v) [x; y; z; w])) in He2.
    rewrite He1, He2 in Hnew'. rewrite <- Hr2, He2 in Hold'.
    rewrite <- !rinj_sub, <- !rinj_add in Hnew', Hold'. apply rinj_inj in Hnew', Hold'.
    pose proof (wtt_tail flag sv tol Dmax m He HD) as Ht. fold b in Ht. lra.
Qed.

Lemma double_step_ok Dmax tol d k k' P f s : At ws bras ds k P f -> moved d (length P) k k' -> sk s = Z.of_nat k -> sdk s = sgn d ->
  nz ws bras (eff_tol flag tol) P ->
  exists P' f', double_step svd flag Dmax tol s P f = Ok (P', f') /\ stepped ws bras ds d k k' P P' f' /\ nz ws bras (eff_tol flag tol) P' /\
    opt ws bras k' P' /\
    ((0 < Dmax)%Z -> (Z.of_nat (dim (site P' (S (Nat.min k k'))) 0) <= Dmax)%Z) /\
    (exact_tol flag tol -> (Dmax <= 0 \/ Z.of_nat (dim (site P (S (Nat.min k k'))) 0) <= Dmax)%Z -> canonical_at k P -> (D2 P' <= D2 P)%R) /\
    (overlap ws bras P <> 0 -> overlap ws bras P' <> 0).
Proof.
  intros HA Hm Hs Hd Hn. destruct (at_repr2 d k k' P f HA Hm) as (v & a & i & m & j & c & Ev & Hr).
  pose proof HA as (Ho & Hpd & Hk & Hh).
  destruct (double_core Dmax tol d k k' P v Ho Hpd Hk Hm) as (P' & E & Hst & H); [exists a, i, m, j, c; exact Hr|exact Hn|].
  exists P', (lf_propagate f (site P' k) (sgn d)). split.
  - unfold double_step. unfold sweeper_site, sweeper_sense. rewrite Hd, Ev. cbn [bind]. rewrite Hs, E. cbn [bind].
    destruct Hst as (_ & _ & _ & Hl & _). rewrite site_at_nat by lia. reflexivity.
  - split; [apply at_moved; assumption|]. exact H.
Qed.
End Double.
