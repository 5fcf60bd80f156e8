(** * One step of minimize() *)
From Coq Require Import Reals Lra Bool List Arith ZArith Lia Ring.
From Verif Require Import Scalar ScalarFacts RScal Tensor TensorFacts Spec MpsModel MpsFacts StateFacts StateFacts2 MpoSpec MpoFacts CanonSpec CanonModel
  TruncFacts SplitFacts CanonFacts CanonSweep CanonNorm CanonProps CanonTwo SweepFacts FormModel FormSpec LFormFacts QFormFacts QFormInv QFormValue QFormMain
  SimplifySpec SimplifyModel SimplifyFacts SimplifyStep SimplifyPair SimplifyDouble MinimizerModel MinLive MinimizeSpec MinLocal.
Import ListNotations.
Local Open Scope K_scope.

Section Step.
Context {RS : RScal}.
Add Ring Kring : k_ring.
Variable svd : tensor -> tensor * list R * tensor.
Variable flag : R.
Hypothesis Hsvd : svd_contract svd.
Variable eigs : (tensor -> result tensor) -> nat -> nat -> tensor -> result (list K * tensor * bool).
Hypothesis Heigs : eigs_contract eigs.
Variables (H : mpo) (ds : list nat).
Hypothesis HH : hamiltonian H ds.
Variable b : nat -> nat.
Hypothesis Hb : path H b.
Notation QAt := (QAt H ds b).
Notation W P := (weight ds (amp P)).
Notation En P := (energy H P).

Lemma q_moved d k k' P P' f : QAt k P f -> moved d (length P) k k' -> cstepped ds d k k' P P' ->
  QAt k' P' (qf_propagate f (site P' k) (site P' k) (sgn d)).
Proof.
  intros HQ Hm (F3 & F4 & Hk' & F5 & HI & Hoth & Hdim). pose proof HQ as (Ho & Hpd & Hk & Hh & Hlive).
  pose proof (qat_qinv H ds HH b k P f HQ) as (I0 & Ih & _ & _ & Il & IL & IR).
  assert (HLen : length P = length H).
  { rewrite firstn_length, skipn_length in Il. lia. }
  split; [exact F3|]. split; [exact F4|]. split; [exact Hk'|].
  assert (Edo : odims H = ds) by apply HH. assert (Edi : idims H = ds) by apply HH.
  assert (Hsq : odims H = idims H) by congruence. assert (HO : open_mpo H) by apply HH.
  destruct d; cbn [moved sgn] in *.
  - destruct Hm as (-> & _).
    rewrite (firstn_S_site k P') by lia.
    assert (E1 : firstn k P' = firstn k P) by (apply (firstn_ext empty); [lia|]; intros j Hj; apply Hoth; lia).
    assert (E2 : skipn (S (S k)) P' = skipn (S (S k)) P) by (apply (skipn_ext empty); [lia|]; intros j Hj; apply Hoth; lia).
    rewrite E1, E2. change (qf_propagate f (site P' k) (site P' k) 1) with (qf_propagate_right f (site P' k) (site P' k)).
    destruct (linked_split1 1 P' 1 k (proj2 F3) ltac:(lia)) as (m & dd & c & L1 & L2 & L3 & L4 & L5 & L6).
    assert (HL : linked 1 (firstn k P ++ [site P' k]) c).
    { rewrite <- E1. apply linked_app. exists m. split; [exact L1|]. exists dd, c. repeat split; auto. }
    assert (HD : dim (site P' k) 1 = nth (length (firstn k P)) ds 0%nat).
    { rewrite firstn_length, Nat.min_l by lia. rewrite <- F4. rewrite nth_pdims by lia. reflexivity. }
    split.
    + rewrite (skipn_site (S k) P) in Hh by lia. apply (qfh_right H f _ _ _ _ _ _ _ _ c c Hh); auto; rewrite ?Edo, ?Edi; exact HD.
    + apply (live_right H HO Hsq b Hb f (firstn k P) (firstn k P) _ _ c c); auto; rewrite ?Edo, ?Edi; try exact HD.
      rewrite firstn_length. lia.
  - subst k.
    rewrite (skipn_site (S k') P') by lia.
    assert (E1 : firstn k' P' = firstn k' P) by (apply (firstn_ext empty); [lia|]; intros j Hj; apply Hoth; lia).
    assert (E2 : skipn (S (S k')) P' = skipn (S (S k')) P) by (apply (skipn_ext empty); [lia|]; intros j Hj; apply Hoth; lia).
    rewrite E1, E2. change (qf_propagate f (site P' (S k')) (site P' (S k')) (-1)) with (qf_propagate_left f (site P' (S k')) (site P' (S k'))).
    destruct (linked_split1 1 P' 1 (S k') (proj2 F3) ltac:(lia)) as (m & dd & c & L1 & L2 & L3 & L4 & L5 & L6).
    assert (Hm : (0 < m)%nat) by (apply (linked_pos 1 _ m L1); lia).
    assert (HL : linked m (site P' (S k') :: skipn (S (S k')) P) 1).
    { exists dd, c. repeat split; auto. rewrite <- E2. exact L2. }
    assert (HD : dim (site P' (S k')) 1 = nth (S k') ds 0%nat) by (rewrite <- F4; rewrite nth_pdims by lia; reflexivity).
    assert (HD' : dim (site P' (S k')) 1 = nth (length (firstn k' P) + 1) ds 0%nat).
    { rewrite firstn_length, Nat.min_l, Nat.add_1_r by lia. exact HD. }
    split.
    + rewrite (firstn_S_site k' P) in Hh by lia. apply (qfh_left H f _ _ _ _ _ _ _ _ m m Hh); auto; rewrite ?Edo, ?Edi; exact HD'.
    + assert (Ih' : qf_here f = S k') by (rewrite Ih, firstn_length; lia).
      replace (length (firstn (S k') P)) with (S k') in IR by (rewrite firstn_length; lia).
      intros q Hq. apply (live_left H HO Hsq b Hb f k' (skipn (S (S k')) P) (skipn (S (S k')) P) _ _ m m); auto; rewrite ?Edo, ?Edi; try exact HD.
      * rewrite skipn_length. lia.
      * apply Hlive. lia.
Qed.

Lemma canon_moved d k k' P P' : canonical_at k P -> moved d (length P) k k' -> cstepped ds d k k' P P' -> canonical_at k' P'.
Proof.
  intros (C1 & C2) Hm (F3 & F4 & Hk' & F5 & HI & Hoth & Hdim). split; intros q Hq.
  - destruct (Nat.eq_dec q k) as [->|Hne].
    + destruct d; cbn [moved iso] in *; [exact HI|lia].
    + rewrite Hoth by lia. apply C1. destruct d; cbn [moved] in Hm; lia.
  - destruct (Nat.eq_dec q k) as [->|Hne].
    + destruct d; cbn [moved iso] in *; [lia|exact HI].
    + rewrite Hoth by lia. apply C2. destruct d; cbn [moved] in Hm; lia.
Qed.

(** States that differ at one site or two *)
Lemma differ1 k P phi : open_mps P -> pdims P = ds -> (k < length P)%nat -> open_mps phi -> pdims phi = ds -> differs_at P phi k ->
  phi = emb1 k P (fun r => nth r (data (site phi k)) 0).
Proof.
  intros Ho Hd Hk Ho' Hd' Hdf.
  assert (El : length phi = length P) by (rewrite <- !length_pdims; congruence).
  assert (E1 : firstn k phi = firstn k P) by (apply (firstn_ext empty); [lia|]; intros j Hj; apply Hdf; lia).
  assert (E2 : skipn (S k) phi = skipn (S k) P) by (apply (skipn_ext empty); [lia|]; intros j Hj; apply Hdf; lia).
  destruct (linked_split1 1 P 1 k (proj2 Ho) Hk) as (m & d & c & L1 & L2 & L3 & L4 & L5 & L6).
  destruct (linked_split1 1 phi 1 k (proj2 Ho') ltac:(lia)) as (m' & d' & c' & L1' & L2' & L3' & L4' & L5' & L6').
  rewrite E1 in L1'. rewrite E2 in L2'. assert (m' = m) as -> by (apply (linked_right_unique 1 (firstn k P)); assumption).
  assert (c' = c) as ->.
  { destruct (skipn (S k) P) as [|t l] eqn:E; [cbn in *; congruence|]. apply (linked_left_unique c' c (t :: l) 1); [discriminate|assumption|assumption]. }
  assert (d' = d) as ->.
  { assert (E : dim (site phi k) 1 = dim (site P k) 1) by (rewrite <- !nth_pdims by lia; congruence). unfold dim in E. rewrite L3, L3' in E. exact E. }
  unfold emb1. rewrite L3, <- L3', ten_self by exact L4'.
  rewrite (replace_split k _ P Hk), <- E1, <- E2. rewrite <- (skipn_site k phi) by lia. symmetry. apply firstn_skipn.
Qed.

Lemma differ2 kk P phi a i m j c : open_mps P -> pdims P = ds -> (S kk < length P)%nat ->
  dims (site P kk) = [a; i; m] -> dims (site P (S kk)) = [m; j; c] ->
  open_mps phi -> pdims phi = ds -> differs_at2 P phi kk ->
  exists A B q, phi = put2 kk P A B /\ (0 < q)%nat /\ wf A /\ dims A = [a; i; q] /\ wf B /\ dims B = [q; j; c].
Proof.
  intros Ho Hd Hk D1 D2 Ho' Hd' Hdf.
  assert (El : length phi = length P) by (rewrite <- !length_pdims; congruence).
  assert (E1 : firstn kk phi = firstn kk P) by (apply (firstn_ext empty); [lia|]; intros q Hq; apply Hdf; lia).
  assert (E2 : skipn (S (S kk)) phi = skipn (S (S kk)) P) by (apply (skipn_ext empty); [lia|]; intros q Hq; apply Hdf; lia).
  destruct (linked_split2 1 P 1 kk (proj2 Ho) ltac:(lia) Hk) as (a0 & i0 & m0 & j0 & c0 & L1 & L2 & L3 & L4 & L5 & L6 & L7 & L8 & L9 & L10 & L11).
  rewrite D1 in L4. injection L4 as <- <- <-. rewrite D2 in L8. injection L8 as <- <-.
  destruct (linked_split2 1 phi 1 kk (proj2 Ho') ltac:(lia) ltac:(lia)) as (a' & i' & m' & j' & c' & L1' & L2' & L3' & L4' & L5' & L6' & L7' & L8' & L9' & L10' & L11').
  rewrite E1 in L1'. rewrite E2 in L2'. assert (a' = a) as -> by (apply (linked_right_unique 1 (firstn kk P)); assumption).
  assert (c' = c) as ->.
  { destruct (skipn (S (S kk)) P) as [|t l] eqn:E; [cbn in *; congruence|]. apply (linked_left_unique c' c (t :: l) 1); [discriminate|assumption|assumption]. }
  assert (i' = i) as ->.
  { assert (E : dim (site phi kk) 1 = dim (site P kk) 1) by (rewrite <- !nth_pdims by lia; congruence). unfold dim in E. rewrite D1, L4' in E. exact E. }
  assert (j' = j) as ->.
  { assert (E : dim (site phi (S kk)) 1 = dim (site P (S kk)) 1) by (rewrite <- !nth_pdims by lia; congruence). unfold dim in E. rewrite D2, L8' in E. exact E. }
  exists (site phi kk), (site phi (S kk)), m'. split; [|auto].
  unfold put2. rewrite <- E1, <- E2. fold (put2 kk phi (site phi kk) (site phi (S kk))). symmetry. apply put2_self. lia.
Qed.

(** What a ground state of the local problem gives *)
Lemma ground_bound (P : mps) n emb M e p : family H ds n emb M -> ground_state n M e p ->
  forall lb, lower_bound H ds lb -> (lb <= e)%R.
Proof.
  intros HF HG lb Hlb. destruct (family_ground H ds n emb M e p HF HG) as (G1 & G2 & _). specialize (Hlb (amp (emb p))).
  destruct HF as (F1 & _). rewrite G1 in Hlb. rewrite <- G2. unfold energy. rewrite (proj2 (F1 p)). lra.
Qed.

(** Storing a tensor at the site k *)
Lemma one_core d k k' P X : open_mps P -> pdims P = ds -> (k < length P)%nat -> wf X -> dims X = dims (site P k) ->
  frob2 X <> 0%R -> moved d (length P) k k' ->
  exists P', set_canonical svd flag P (Z.of_nat k) X (sgn d) false = Ok P' /\ cstepped ds d k k' P P' /\
    (forall j, (dim (site P' j) 0 <= dim (site P j) 0)%nat) /\
    forall is, in_range ds is -> amp P' is = amp (replace_nth k X P) is.
Proof.
  intros Ho Hpd Hk HwX HdX Hnz Hm.
  destruct (open_replace P k X Ho Hk HwX HdX) as (O1 & D1). rewrite Hpd in D1.
  set (P1 := replace_nth k X P) in *.
  assert (Hlen1 : length P1 = length P) by apply length_replace_nth.
  assert (Hdim1 : forall j, dim (site P1 j) 0 = dim (site P j) 0).
  { intros j. destruct (Nat.eq_dec j k) as [->|Hj]; [|unfold P1; rewrite site_replace_neq by exact Hj; reflexivity].
    unfold P1. rewrite site_replace_eq by exact Hk. unfold dim. rewrite HdX. reflexivity. }
  assert (Hn' : eff flag false <> 0%R \/ nonzero3 X).
  { right. destruct (site_dims P k Ho Hk) as (a & i & c & Hs & _). rewrite Hs in HdX.
    assert (He : rinj (frob2 X) <> 0) by (rewrite <- rinj_0; intros E; apply rinj_inj in E; contradiction).
    rewrite (frob2_3 X a i c HdX HwX) in He.
    apply sum_nonzero in He. destruct He as (x & Hx & He). apply sum_nonzero in He. destruct He as (y & Hy & He).
    apply sum_nonzero in He. destruct He as (z & Hz & He). exists x, y, z. unfold dim. rewrite HdX. cbn [nth]. repeat split; auto.
    intros E. apply He. rewrite E. ring. }
  assert (Hfin : forall P' kk, step_ok flag 1 1 P1 P' kk false ->
     open_mps P' /\ pdims P' = ds /\ length P' = length P /\ forall is, in_range ds is -> amp P' is = amp P1 is).
  { intros P' kk (S1 & S2 & S3 & S4 & S5).
    assert (Hl : length P' = length P) by (rewrite (same_length _ _ S2); exact Hlen1).
    assert (HO' : open_mps P') by (split; [intros ->; cbn in Hl; lia|exact S1]).
    split; [exact HO'|]. split; [congruence|]. split; [exact Hl|]. intros is Hi. destruct O1 as (N1 & L1). destruct HO' as (N' & L').
    apply (same_chain_amp 1 P1 P' 1 1); auto; [apply S5; left; reflexivity|]. rewrite D1. exact Hi. }
  destruct d; cbn [moved sgn] in *.
  - destruct Hm as (-> & Hk').
    destruct (set_canonical_right_ok3 svd flag Hsvd 1 1 P k X false (proj2 O1) ltac:(lia) Hk' Hn') as (P' & E & HS & HI).
    destruct (Hfin P' k HS) as (F3 & F4 & F5 & F6). pose proof HS as (S1 & S2 & S3 & S4 & S5).
    exists P'. split; [exact E|]. split; [|split; [intros j; rewrite <- Hdim1; apply S4|exact F6]].
    split; [exact F3|]. split; [exact F4|]. split; [lia|]. split; [exact F5|split; [exact HI|split; [|intros j _; rewrite <- Hdim1; apply S4]]].
    intros j H1 H2. rewrite S3 by assumption. unfold P1. apply site_replace_neq. exact H1.
  - subst k.
    destruct (set_canonical_left_ok3 svd flag Hsvd 1 1 P k' X false (proj2 O1) ltac:(lia) Hk Hn') as (P' & E & HS & HI).
    destruct (Hfin P' k' HS) as (F3 & F4 & F5 & F6). pose proof HS as (S1 & S2 & S3 & S4 & S5).
    exists P'. split; [exact E|]. split; [|split; [intros j; rewrite <- Hdim1; apply S4|exact F6]].
    split; [exact F3|]. split; [exact F4|]. split; [lia|]. split; [exact F5|split; [exact HI|split; [|intros j _; rewrite <- Hdim1; apply S4]]].
    intros j H1 H2. rewrite S3 by assumption. unfold P1. apply site_replace_neq. exact H1.
Qed.

Lemma nth_nonzero_frob X : frob2 X <> 0%R -> exists r, (r < length (data X))%nat /\ nth r (data X) 0 <> 0.
Proof.
  destruct X as [dd l]. unfold frob2. cbn [data]. clear. induction l as [|x l IH]; cbn [fold_right length]; [congruence|]. intros Hne.
  destruct (keqb_spec x 0) as [->|Hx].
  - rewrite kmod2_0, Rplus_0_l in Hne. destruct (IH Hne) as (r & Hr & Hn). exists (S r). split; [lia|exact Hn].
  - exists 0%nat. split; [lia|exact Hx].
Qed.

(** The state of the minimization *)
Definition good (k : nat) (m : minimizer) : Prop :=
  QAt k (mz_psi m) (mz_H m) /\ canonical_at k (mz_psi m) /\ mz_ortho m = [] /\ mz_N m = None.

(** What a step that converged does *)
Definition sout (exact : Prop) (vary : mps -> mps -> Prop) (m m' : minimizer) (k' : nat) (e : R) : Prop :=
  let P := mz_psi m in let P' := mz_psi m' in
  good k' m' /\ length P' = length P /\ (forall lb, lower_bound H ds lb -> (lb <= e)%R) /\
  (e * W P <= En P)%R /\ (0 < W P' <= 1)%R /\ (exact -> W P' = 1%R /\ En P' = e) /\
  forall phi, open_mps phi -> pdims phi = ds -> vary P' phi -> (e * W phi <= En phi)%R.

Definition nxt (d : bool) (L k : nat) : nat := if d then (if Nat.eqb (S k) L then k else S k) else pred k.
Definition gap_ok (o : options) : Prop :=
  o_compute_gap o = false \/ (forall d, In d ds -> (2 <= d)%nat) /\ (o_Dmax o <> 0%Z \/ eigs_converges eigs).

Lemma nxt_cases (d : bool) L k : (k < L)%nat -> moved d L k (nxt d L k) \/ (k = (if d then L - 1 else 0)%nat /\ nxt d L k = k).
Proof.
  intros Hk. unfold nxt. destruct d; cbn [moved].
  - destruct (Nat.eqb_spec (S k) L); [right|left]; lia.
  - destruct k as [|k]; [right|left]; cbn; lia.
Qed.

(** Storing the tensor and moving to the next site, or staying at the end *)
Lemma one_store d k P f X : QAt k P f -> canonical_at k P -> wf X -> dims X = dims (site P k) -> frob2 X <> 0%R ->
  let k' := nxt d (length P) k in
  exists P', set_canonical svd flag P (Z.of_nat k) X (sgn d) false = Ok P' /\
    QAt k' P' (qf_propagate f (site P' k) (site P' k) (sgn d)) /\ canonical_at k' P' /\ length P' = length P /\
    (forall is, in_range ds is -> amp P' is = amp (replace_nth k X P) is) /\
    (forall j, (dim (site P' j) 0 <= dim (site P j) 0)%nat) /\
    (k' = k -> differs_at P P' k).
Proof.
  intros HQ Hc HwX HdX Hnz k'. pose proof HQ as (Ho & Hpd & Hk & Hh & Hlive).
  destruct (nxt_cases d (length P) k Hk) as [Hm|(He & Ek)]; fold k' in Hm || fold k' in Ek.
  - destruct (one_core d k k' P X Ho Hpd Hk HwX HdX Hnz Hm) as (P' & E & HS & Hdim & Hamp).
    exists P'. split; [exact E|]. split; [apply (q_moved d k k' P P' f); assumption|]. split; [apply (canon_moved d k k' P P'); assumption|].
    split; [apply HS|]. split; [exact Hamp|]. split; [exact Hdim|]. intros Ek. exfalso. clearbody k'. subst k'. destruct d; cbn [moved] in Hm; lia.
  - rewrite Ek. clear Ek k'. set (P1 := replace_nth k X P).
    destruct (open_replace P k X Ho Hk HwX HdX) as (O1 & D1). fold P1 in O1, D1. rewrite Hpd in D1.
    assert (Hl1 : length P1 = length P) by apply length_replace_nth.
    assert (E1 : firstn k P1 = firstn k P) by (apply (firstn_ext empty); [lia|]; intros j Hj; apply (site_replace_neq k _ P); lia).
    assert (E2 : skipn (S k) P1 = skipn (S k) P) by (apply (skipn_ext empty); [lia|]; intros j Hj; apply (site_replace_neq k _ P); lia).
    exists P1. split; [apply single_core_end; assumption|]. split.
    + assert (Eq : qf_propagate f (site P1 k) (site P1 k) (sgn d) = f).
      { pose proof (qat_qinv H ds HH b k P f HQ) as (I0 & Ih & _ & _ & Il & _). rewrite firstn_length, skipn_length in Il.
        rewrite firstn_length in Ih. pose proof I0 as (Isz & _). destruct d; unfold qf_propagate; cbn [sgn Z.ltb Z.compare].
        - unfold qf_propagate_right. rewrite Isz, Ih. destruct (Nat.eqb_spec (Nat.min k (length P) + 1) (length H)); [reflexivity|lia].
        - unfold qf_propagate_left. rewrite Ih. destruct (Nat.eqb_spec (Nat.min k (length P)) 0); [reflexivity|lia]. }
      rewrite Eq. split; [exact O1|]. split; [exact D1|]. split; [lia|]. rewrite E1, E2. split; assumption.
    + split; [apply canonical_replace; exact Hc|]. split; [exact Hl1|]. split; [reflexivity|]. split.
      * intros j. destruct (Nat.eq_dec j k) as [->|Hj]; [|unfold P1; rewrite site_replace_neq by exact Hj; apply le_n].
        unfold P1. rewrite site_replace_eq by exact Hk. unfold dim. rewrite HdX. apply le_n.
      * intros _ j Hj. apply site_replace_neq. exact Hj.
Qed.

Lemma one_step o d m k : o_Dmax o = 0%Z -> gap_ok o -> good k m -> mz_step m = sgn d ->
  let L := length (mz_psi m) in
  exists m' e, single_site_step svd flag eigs o m k = Ok (m', e) /\ mz_step m' = sgn d /\ length (mz_psi m') = L /\ (eigs_converges eigs -> mz_converged m' = true) /\
    (mz_converged m' = true -> sout True (fun P' phi => nxt d L k = k /\ differs_at P' phi k) m m' (nxt d L k) e /\
      forall j, (dim (site (mz_psi m') j) 0 <= dim (site (mz_psi m) j) 0)%nat).
Proof.
  intros HD0 Hgap (HQ & Hc & Hort & HN) Hst L. set (P := mz_psi m) in *. set (f := mz_H m) in *.
  pose proof HQ as (Ho & Hpd & Hk & Hh & Hlive).
  destruct (one_family H ds HH b Hb k P f HQ Hc) as (M & HF & HA). set (dd := dims (site P k)) in *. set (n := nprod dd) in *.
  pose proof (family_hermitian H ds HH n _ M HF) as Hherm.
  destruct (site_dims P k Ho Hk) as (a & i & c & Hs & Hws & Ha & Hi & Hc0).
  assert (Hn : n = (a * (i * (c * 1)))%nat) by (unfold n, dd; rewrite Hs; reflexivity).
  assert (Hn0 : (0 < n)%nat) by (rewrite Hn; nia).
  assert (Hld : length (data (site P k)) = n) by exact Hws.
  destruct (Heigs _ n 1%nat (site P k) M ltac:(lia) ltac:(lia) Hld HA Hherm) as (E & X & cv & EE & HlE & HlX & HG).
  unfold single_site_step, orthogonal_projectors. rewrite Hort. cbn [fold_left bind]. fold P f. cbv zeta. rewrite Hld. fold dd. rewrite EE. cbn [bind].
  rewrite Nat.mul_1_r in HlX.
  assert (HE0 : exists e0, first_energy E = Ok e0) by (destruct E as [|e0 E0]; [discriminate|exists (kre e0); reflexivity]).
  destruct HE0 as (e & He).
  assert (Hcv : exists cv', (if Nat.eqb k (length P / 2) && o_compute_gap o then
          bind (eigs (apply_qform1 dd f []) (length (data X)) 2 X) (fun '(E2, _, converged) => bind (check_gap E2) (fun _ => Ok converged))
        else Ok cv) = Ok cv' /\ (cv' = true -> cv = true) /\ (eigs_converges eigs -> cv' = true)).
  { destruct (Nat.eqb k (length P / 2)) eqn:Ek; [|exists cv; split; [reflexivity|split; [auto|intros Hcc; exact (Hcc _ _ _ _ _ _ _ EE)]]]. destruct Hgap as [->|(Hg1 & Hg2)]; [exists cv; split; [rewrite andb_false_r; reflexivity|split; [auto|intros Hcc; exact (Hcc _ _ _ _ _ _ _ EE)]]|].
    destruct (o_compute_gap o); [|exists cv; split; [reflexivity|split; [auto|intros Hcc; exact (Hcc _ _ _ _ _ _ _ EE)]]]. cbn [andb]. rewrite HlX.
    assert (Hi2 : (2 <= i)%nat).
    { apply Hg1. rewrite <- Hpd. replace i with (dim (site P k) 1) by (unfold dim; rewrite Hs; reflexivity). rewrite <- nth_pdims by exact Hk.
      apply nth_In. rewrite length_pdims. exact Hk. }
    destruct (Heigs _ n 2%nat X M ltac:(lia) ltac:(rewrite Hn; nia) HlX HA Hherm) as (E2 & X2 & cv2 & EE2 & HlE2 & _). rewrite EE2. cbn [bind].
    destruct E2 as [|e1 [|e2 E2]]; try discriminate. cbn [check_gap bind]. exists cv2. split; [reflexivity|]. split; [|intros Hcc; exact (Hcc _ _ _ _ _ _ _ EE2)]. intros _.
    destruct Hg2 as [Hg2|Hg2]; [contradiction|]. apply (Hg2 _ _ _ _ _ _ _ EE). }
  destruct Hcv as (cv' & -> & Himp & Hcc). cbn [bind]. rewrite He. cbn [bind].
  destruct cv'.
  2:{ exists (mz_set_converged m false), e. split; [reflexivity|]. split; [exact Hst|]. split; [reflexivity|]. split; [exact Hcc|]. intros E0. discriminate E0. }
  destruct (HG eq_refl (Himp eq_refl)) as (e' & -> & Hgr). apply Ok_inj' in He. rewrite kre_rinj in He. subst e. set (p := fun i => nth i (data X) 0) in *.
  assert (EX : checked_reshape X dd = Ok (ten dd p)).
  { unfold checked_reshape. fold n. rewrite HlX, Nat.eqb_refl. unfold reshape, ten. do 2 f_equal. fold n.
    apply (nth_ext _ _ 0 0); [rewrite map_length, seq_length; exact HlX|]. intros q Hq. rewrite (nth_map_seq p) by lia. reflexivity. }
  rewrite EX. cbn [bind]. rewrite Hst.
  destruct (family_ground H ds n _ M e' p HF Hgr) as (G1 & G2 & G3).
  pose proof (ground_bound P n _ M e' p HF Hgr) as Hlb.
  assert (Hopt : forall phi, open_mps phi -> pdims phi = ds -> differs_at P phi k -> (e' * W phi <= En phi)%R).
  { intros phi O1 D1 Df. rewrite (differ1 k P phi Ho Hpd Hk O1 D1 Df). apply G3. }
  assert (Hself : (e' * W P <= En P)%R) by (apply Hopt; [assumption|assumption|intros j _; reflexivity]).
  unfold emb1 in G1, G2. fold dd in G1, G2.
  assert (Hnz : frob2 (ten dd p) <> 0%R).
  { rewrite frob2_ten. destruct Hgr as (Hg & _). fold n. rewrite Hg. lra. }
  destruct (one_store d k P f (ten dd p) HQ Hc (wf_ten _ _) eq_refl Hnz) as (P' & ES & Q' & C' & L' & A' & B' & D').
  rewrite ES. cbn [bind]. fold L in Q', C', D'.
  assert (Hpd1 : pdims (replace_nth k (ten dd p) P) = ds) by (rewrite (proj2 (open_replace P k (ten dd p) Ho Hk (wf_ten _ _) eq_refl)); exact Hpd).
  destruct (energy_ext H ds _ P' Hpd1 (proj1 (proj2 Q')) A') as (U1 & U2).
  eexists; exists e'; split; [reflexivity|]. cbn [mz_step mz_propagate mz_psi mz_converged]. split; [exact Hst|]. split; [exact L'|]. split; [reflexivity|]. intros _. split; [|exact B'].
  unfold sout. cbn [mz_psi mz_propagate]. fold P. split; [|split; [exact L'|split; [exact Hlb|split; [exact Hself|split; [rewrite U2, G1; lra|split]]]]].
  - split; [cbn [mz_psi mz_H mz_propagate]; rewrite Hst; exact Q'|]. split; [exact C'|]. cbn [mz_ortho mz_N mz_propagate]. rewrite Hort, HN. auto.
  - intros _. rewrite U1, U2. auto.
  - intros phi O1 D1 (Ek & Df). apply Hopt; try assumption. intros j Hj. rewrite Df by exact Hj. apply D'; assumption.
Qed.

Lemma frob2_4 t a i j c : dims t = [a; i; j; c] -> wf t ->
  rinj (frob2 t) = sum a (fun x => sum i (fun y => sum j (fun z => sum c (fun w => kconj (get t [x; y; z; w]) * get t [x; y; z; w])))).
Proof.
  intros Hd Hw. unfold frob2. rewrite fold_right_rsum. rewrite Hw, Hd. cbn [nprod fold_right].
  rewrite Nat.mul_1_r. rewrite sum_merge, sum_swap. apply sum_ext. intros x Hx.
  rewrite sum_merge, sum_swap. apply sum_ext. intros y Hy. rewrite sum_merge, sum_swap. apply sum_ext. intros z Hz. apply sum_ext. intros w Hww.
  unfold get. rewrite Hd. cbn [offset].
  replace (x + a * (y + i * (z + j * w)))%nat with (x + a * (y + i * (z + j * (w + c * 0))))%nat by lia. reflexivity.
Qed.

(** The weight that a truncated pair keeps *)
Lemma pair_kept Pij a i j c Dmax tol left Pi Pj U s V : dims Pij = [a; i; j; c] -> wf Pij ->
  (0 < a)%nat -> (0 < i)%nat -> (0 < j)%nat -> (0 < c)%nat -> two_pair svd flag Pij Dmax tol left = (Pi, Pj) ->
  let b0 := where_to_truncate flag s tol Dmax in
  is_svd (a * i) (j * c) (reshape Pij [a * i; j * c]%nat) U s V ->
  pair_spec Pij a i j c left Pi Pj b0 (fun x y z w => dropped U s V b0 (x + a * y)%nat (z + j * w)%nat) ->
  (frob2 (if left then Pj else Pi) <= frob2 Pij)%R.
Proof.
  intros Hd Hw Ha Hi Hj Hc Etp b0 HSvd HPS.
  pose proof (two_pair_proj svd flag Hsvd Pij a i j c Dmax tol left Pi Pj Hd Hw Ha Hi Hj Hc Etp) as Hproj.
  destruct (pair_error Pij a i j c left Pi Pj U s V b0 HSvd Hd (wtt_le_length _ _ _ _) HPS) as (He1 & He2).
  pose proof HPS as (HdPi & HwPi & HdPj & HwPj & Hiso & _).
  set (J := joined Pi Pj). set (X := fun x y z w => get Pij [x; y; z; w]).
  assert (HJJ : sum4 a i j c (fun x y z w => kconj (J x y z w) * J x y z w) = rinj (frob2 (if left then Pj else Pi))).
  { unfold J. destruct left; [apply (joined_left Pi Pj a i b0 j c)|apply (joined_right Pi Pj a i b0 j c)]; assumption. }
  assert (HJX : sum4 a i j c (fun x y z w => kconj (J x y z w) * X x y z w) = rinj (frob2 (if left then Pj else Pi))).
  { unfold sum4, J, X, joined. replace (dim Pi 2) with b0 by (unfold dim; rewrite HdPi; reflexivity). destruct left.
    - replace (dim Pj 0) with b0 in Hproj by (unfold dim; rewrite HdPj; reflexivity).
      rewrite (frob2_3 Pj b0 j c HdPj HwPj).
      transitivity (sum b0 (fun q => sum j (fun z => sum c (fun w => sum a (fun x => sum i (fun y => kconj (get Pj [q; z; w]) * (kconj (get Pi [x; y; q]) * get Pij [x; y; z; w]))))))).
      + rewrite (sum_ext a _ (fun x => sum b0 (fun q => sum j (fun z => sum c (fun w => sum i (fun y => kconj (get Pj [q; z; w]) * (kconj (get Pi [x; y; q]) * get Pij [x; y; z; w]))))))).
        * rewrite sum_swap. apply sum_ext; intros q _. rewrite sum_swap. apply sum_ext; intros z _. apply sum_swap.
        * intros x _. rewrite (sum_ext i _ (fun y => sum b0 (fun q => sum j (fun z => sum c (fun w => kconj (get Pj [q; z; w]) * (kconj (get Pi [x; y; q]) * get Pij [x; y; z; w])))))).
          -- rewrite sum_swap. apply sum_ext; intros q _. rewrite sum_swap. apply sum_ext; intros z _. apply sum_swap.
          -- intros y _. rewrite (sum_ext j _ (fun z => sum b0 (fun q => sum c (fun w => kconj (get Pj [q; z; w]) * (kconj (get Pi [x; y; q]) * get Pij [x; y; z; w]))))).
             ++ apply sum_swap.
             ++ intros z _. rewrite sum_swap. apply sum_ext; intros w _. rewrite sum_conj, sum_mul_r. apply sum_ext; intros q _. rewrite kconj_mul. ring.
      + apply sum_ext; intros q Hq. apply sum_ext; intros z Hz. apply sum_ext; intros w Hww. rewrite <- (Hproj q z w Hq Hz Hww) at 2. rewrite sum_mul_l. apply sum_ext; intros x _. rewrite sum_mul_l. reflexivity.
    - replace (dim Pi 2) with b0 in Hproj by (unfold dim; rewrite HdPi; reflexivity).
      rewrite (frob2_3 Pi a i b0 HdPi HwPi). apply sum_ext; intros x Hx. apply sum_ext; intros y Hy.
      transitivity (sum b0 (fun q => sum j (fun z => sum c (fun w => kconj (get Pi [x; y; q]) * (get Pij [x; y; z; w] * kconj (get Pj [q; z; w])))))).
      + rewrite (sum_ext j _ (fun z => sum b0 (fun q => sum c (fun w => kconj (get Pi [x; y; q]) * (get Pij [x; y; z; w] * kconj (get Pj [q; z; w])))))).
        * apply sum_swap.
        * intros z _. rewrite sum_swap. apply sum_ext; intros w _. rewrite sum_conj, sum_mul_r. apply sum_ext; intros q _. rewrite kconj_mul. ring.
      + apply sum_ext; intros q Hq. rewrite <- (Hproj x y q Hx Hy Hq) at 2. rewrite sum_mul_l. apply sum_ext; intros z _. rewrite sum_mul_l. reflexivity. }
  assert (HXJ : sum4 a i j c (fun x y z w => kconj (X x y z w) * J x y z w) = rinj (frob2 (if left then Pj else Pi))).
  { rewrite <- (rinj_conj (frob2 _)), <- HJX, sum4_conj. apply sum4_ext. intros x y z w _ _ _ _. rewrite kconj_mul, kconj_inv. ring. }
  assert (Hfr : frob2 Pij = tail_weight s 0).
  { apply rinj_inj. rewrite <- He2. apply (frob2_4 Pij a i j c); assumption. }
  rewrite Hfr. set (F := frob2 (if left then Pj else Pi)) in *.
  assert (Hx : rinj (tail_weight s b0) = rinj (tail_weight s 0 - F)%R).
  { rewrite <- He1. fold (sum4 a i j c (fun x y z w => kconj (get Pij [x; y; z; w] - joined Pi Pj x y z w) * (get Pij [x; y; z; w] - joined Pi Pj x y z w))).
    rewrite (sum4_ext a i j c _ (fun x y z w => kconj (X x y z w) * X x y z w + (0 - 1) * (kconj (X x y z w) * J x y z w) + ((0 - 1) * (kconj (J x y z w) * X x y z w) + kconj (J x y z w) * J x y z w))).
    - rewrite !sum4_add, !sum4_mul_l, HXJ, HJX, HJJ. unfold X. unfold sum4 at 1. rewrite He2. rewrite rinj_sub. ring.
    - intros x y z w _ _ _ _. fold (J x y z w). change (get Pij [x; y; z; w]) with (X x y z w). rewrite kconj_sub. ring. }
  apply rinj_inj in Hx. pose proof (tail_weight_nonneg s b0). lra.
Qed.

(** Storing a pair of tensors at the sites kk, kk+1 *)
Lemma two_core Dmax tol d k k' P X a i m j c : open_mps P -> pdims P = ds -> (k < length P)%nat -> moved d (length P) k k' ->
  let kk := Nat.min k k' in
  dims (site P kk) = [a; i; m] -> dims (site P (S kk)) = [m; j; c] -> (0 < a /\ 0 < i /\ 0 < m /\ 0 < j /\ 0 < c)%nat ->
  wf X -> dims X = [a; i; j; c] -> frob2 X <> 0%R ->
  exists P', set_canonical_2_sites svd flag P X (Z.of_nat k) (sgn d) Dmax tol false = Ok P' /\ cstepped ds d k k' P P' /\
    ((0 < Dmax)%Z -> (Z.of_nat (dim (site P' (S kk)) 0) <= Dmax)%Z) /\ differs_at2 P P' kk /\
    (canonical_at k P -> (0 < W P' <= frob2 X)%R) /\
    ((Dmax <= 0)%Z -> exact_tol flag tol -> forall is, in_range ds is -> amp P' is = amp (emb2 kk P (fun r => nth r (data X) 0)) is).
Proof.
  intros Ho Hpd Hk Hm kk HP1 HP2 Hpos HwX HdX Hnz. pose proof Hpos as (Ha & Hi & Hm0 & Hj & Hc).
  assert (Hkk : (S kk < length P)%nat) by (unfold kk; destruct d; cbn in Hm; lia).
  destruct (s2s_false svd flag Hsvd P X a i j c kk (sgn d) Dmax tol Hkk HdX HwX Ha Hi Hj Hc) as (Pi & Pj & U & sv & V & Etp & E & HSvd & HPS).
  assert (Hdd : (0 <? sgn d)%Z = d) by (destruct d; reflexivity). rewrite Hdd in *. cbv zeta in *.
  assert (Hst : (if d then kk else S kk) = k) by (unfold kk; destruct d; cbn in Hm; lia). rewrite Hst in E. fold (put2 kk P Pi Pj) in E.
  set (q := where_to_truncate flag sv tol Dmax) in *.
  pose proof HPS as (HdPi & HwPi & HdPj & HwPj & Hiso & Hrec).
  assert (Hx4 : nonzero4 X).
  { destruct (nth_nonzero_frob X) as (r & Hr & Hne); [exact Hnz|]. unfold wf in HwX. rewrite HwX in Hr. rewrite HdX in Hr.
    pose proof (unravel_in_range [a; i; j; c] r Hr) as Hu. pose proof (offset_unravel [a; i; j; c] r Hr) as Eo.
    set (u := unravel [a; i; j; c] r) in *. clearbody u. apply in_range_inv4 in Hu. destruct Hu as (x & y & z & w & -> & Hx & Hy & Hz & Hw).
    exists x, y, z, w. unfold dim. rewrite HdX. cbn [nth]. repeat split; auto. unfold get. rewrite HdX, Eo. exact Hne. }
  assert (Hb0 : (0 < q)%nat) by (apply (two_pos flag X a i j c U sv V); auto).
  destruct (put2_fits ds kk P Pi Pj a i m j c q Ho Hpd Hkk HP1 HP2 Hb0 HwPi HdPi HwPj HdPj) as (O' & D').
  exists (put2 kk P Pi Pj). split; [exact E|].
  assert (HsPi : site (put2 kk P Pi Pj) kk = Pi) by (rewrite site_put2, Nat.eqb_refl by exact Hkk; reflexivity).
  assert (HsPj : site (put2 kk P Pi Pj) (S kk) = Pj).
  { rewrite site_put2 by exact Hkk. destruct (Nat.eqb_spec (S kk) kk); [lia|]. rewrite Nat.eqb_refl. reflexivity. }
  assert (Hoth : forall r, r <> kk -> r <> S kk -> site (put2 kk P Pi Pj) r = site P r).
  { intros r H1 H2. rewrite site_put2 by exact Hkk. destruct (Nat.eqb_spec r kk); [lia|]. destruct (Nat.eqb_spec r (S kk)); [lia|]. reflexivity. }
  pose proof (put2_length kk P Pi Pj Hkk) as Hlen.
  assert (Hmm : kk = k /\ S kk = k' \/ kk = k' /\ S kk = k) by (unfold kk; destruct d; cbn in Hm; lia).
  split; [split; [exact O'|split; [exact D'|split; [rewrite Hlen; lia|split; [exact Hlen|split; [|split]]]]]|split; [|split; [|split]]].
  - destruct d; cbn [moved iso] in *.
    + replace k with kk by (unfold kk; lia). rewrite HsPi. exact Hiso.
    + replace k with (S kk) by (unfold kk; lia). rewrite HsPj. exact Hiso.
  - intros r H1 H2. apply Hoth; lia.
  - intros r Hr. destruct (Nat.eq_dec r kk) as [->|H1].
    + rewrite HsPi. unfold dim. rewrite HdPi, HP1. reflexivity.
    + rewrite Hoth by assumption. lia.
  - intros HD. rewrite HsPj. unfold dim. rewrite HdPj. cbn [nth].
    assert (Hbm : (q <= eff_max sv Dmax)%nat) by apply wtt_le. unfold eff_max in Hbm.
    destruct (Z.leb_spec Dmax 0); [lia|]. destruct (Z.ltb_spec (Z.of_nat (length sv)) Dmax); cbn [orb] in Hbm; lia.
  - exact Hoth.
  - intros Hcan. assert (Hstep : cstepped ds d k k' P (put2 kk P Pi Pj)).
    { split; [exact O'|split; [exact D'|split; [rewrite Hlen; lia|split; [exact Hlen|split; [|split]]]]].
      - destruct d; cbn [moved iso] in *.
        + replace k with kk by (unfold kk; lia). rewrite HsPi. exact Hiso.
        + replace k with (S kk) by (unfold kk; lia). rewrite HsPj. exact Hiso.
      - intros r H1 H2. apply Hoth; lia.
      - intros r Hr. destruct (Nat.eq_dec r kk) as [->|H1].
        + rewrite HsPi. unfold dim. rewrite HdPi, HP1. reflexivity.
        + rewrite Hoth by assumption. lia. }
    rewrite (canon_weight H ds HH k' _ O' D'); [|rewrite Hlen; lia|apply (canon_moved d k k' P); assumption].
    assert (Ec : site (put2 kk P Pi Pj) k' = (if d then Pj else Pi)).
    { destruct d; cbn [moved] in Hm; [replace k' with (S kk) by (unfold kk; lia)|replace k' with kk by (unfold kk; lia)]; assumption. }
    rewrite Ec. split; [|apply (pair_kept X a i j c Dmax tol d Pi Pj U sv V); assumption].
    destruct (pair_nonzero X a i j c d Pi Pj U sv V q HSvd HdX Hb0 (wtt_le_length _ _ _ _) HPS Hx4) as (N1 & N2).
    assert (Hnn : forall t x0 y0 z0, dims t = [x0; y0; z0] -> wf t -> nonzero3 t -> (0 < frob2 t)%R).
    { intros t x0 y0 z0 Hdt Hwt (x & y & z & Hx & Hy & Hz & Hne). unfold dim in *. rewrite Hdt in *. cbn [nth] in *.
      pose proof (frob2_nonneg t). assert (frob2 t <> 0%R) by (apply (frob2_pos t x0 y0 z0 [x; y; z]); auto; apply in_range_3; assumption). lra. }
    destruct d; [apply (Hnn Pj q j c)|apply (Hnn Pi a i q)]; assumption.
  - intros HD He is His. rewrite (put2_emb ds kk P a i m j c Ho Hpd Hkk HP1 HP2 Hpos Pi Pj q Hb0 HwPi HdPi HwPj HdPj is His).
    rewrite !(emb2_eq kk P a i m j c HP1 HP2). apply (f_equal (fun x => amp (put2 kk P (id3 a i) x) is)).
    unfold ten. apply (f_equal (mkT _)). apply map_ext_in. intros r Hr. apply in_seq in Hr.
    assert (Hr' : (r < nprod [a; i; j; c])%nat) by (cbn in *; nia).
    pose proof (unravel_in_range [a; i; j; c] r Hr') as Hu. pose proof (offset_unravel [a; i; j; c] r Hr') as Eo. cbv zeta.
    set (u := unravel [a; i; j; c] r) in *. clearbody u. apply in_range_inv4 in Hu. destruct Hu as (x & y & z & w & -> & Hx & Hy & Hz & Hw). cbn [nth].
    rewrite <- Eo. specialize (Hrec x y z w Hx Hy Hz Hw). unfold get in Hrec. rewrite HdX in Hrec. rewrite Hrec.
    rewrite dropped_zero; [ring|]. intros t Ht. unfold exact_tol, exact_flag in He.
    apply (tol_exact_zero flag tol Dmax (length sv)); [|lia|exact Ht]. split; [|left; exact HD].
    unfold eff_tol in He. destruct (Rltb tol 0) eqn:Er; [apply Rltb_true in Er|]; [right; right; split; assumption|destruct He; auto].
Qed.

Lemma two_step o d m k k' : gap_ok o -> good k m -> mz_step m = sgn d -> moved d (length (mz_psi m)) k k' ->
  let kk := Nat.min k k' in
  exists m' e, two_site_step svd flag eigs o m k = Ok (m', e) /\ mz_step m' = sgn d /\ length (mz_psi m') = length (mz_psi m) /\ (eigs_converges eigs -> mz_converged m' = true) /\
    (mz_converged m' = true -> sout ((o_Dmax o <= 0)%Z /\ exact_tol flag (o_svd_tolerance o)) (fun P' phi => differs_at2 P' phi kk) m m' k' e /\
      ((0 < o_Dmax o)%Z -> (Z.of_nat (dim (site (mz_psi m') (S kk)) 0) <= o_Dmax o)%Z) /\
      forall j, j <> S kk -> (dim (site (mz_psi m') j) 0 <= dim (site (mz_psi m) j) 0)%nat).
Proof.
  intros Hgap (HQ & Hc & Hort & HN) Hst Hm kk. set (P := mz_psi m) in *. set (f := mz_H m) in *.
  pose proof HQ as (Ho & Hpd & Hk & Hh & Hlive).
  assert (Hkk : (S kk < length P)%nat) by (unfold kk; destruct d; cbn in Hm; lia).
  destruct (site2_dims kk P Ho Hkk) as (a & i & mm & j & c & D1 & D2 & W1 & W2 & Hpos).
  destruct (two_family H ds HH b Hb kk P a i mm j c Ho Hpd Hkk D1 D2 Hpos f k k' d HQ Hc Hm eq_refl) as (M & HF & HA).
  set (d4 := [a; i; j; c]) in *. set (n := nprod d4) in *.
  pose proof (family_hermitian H ds HH n _ M HF) as Hherm.
  assert (Hn : n = (a * (i * (j * (c * 1))))%nat) by reflexivity.
  assert (Hn0 : (0 < n)%nat) by (rewrite Hn; nia).
  set (P12 := fold (site P kk) 2 (site P (S kk)) 0).
  assert (HP12 : dims P12 = d4) by (apply (dims_pair _ _ a i mm j c); assumption).
  assert (Hld : length (data P12) = n) by (unfold n; rewrite <- HP12; apply wf_mk).
  assert (Edir : (0 <? sgn d)%Z = d) by (destruct d; reflexivity).
  assert (EP : bind (site_at P (Z.of_nat k)) (fun A => bind (site_at P (Z.of_nat k + (if d then 1 else -1))) (fun B => 
      Ok (if d then fold A (rank A - 1) B 0 else fold B (rank B - 1) A 0))) = Ok P12).
  { rewrite site_at_nat by exact Hk. cbn [bind]. destruct d; cbn [moved] in Hm.
    - replace (Z.of_nat k + 1)%Z with (Z.of_nat (S k)) by lia. rewrite site_at_nat by lia. cbn [bind]. replace k with kk by (unfold kk; lia).
      unfold rank. rewrite D1. reflexivity.
    - replace (Z.of_nat k + -1)%Z with (Z.of_nat k') by lia. rewrite site_at_nat by lia. cbn [bind]. replace k with (S kk) by (unfold kk; lia).
      replace k' with kk by (unfold kk; lia). unfold rank. rewrite D1. reflexivity. }
  unfold two_site_step, orthogonal_projectors. cbv zeta. rewrite Hort. fold P f. rewrite Hst, Edir.
  rewrite site_at_nat in EP by exact Hk. cbn [bind] in EP.
  destruct (site_at P (Z.of_nat k + (if d then 1 else -1))) as [B|] eqn:EB; [|discriminate]. cbn [bind] in EP. apply Ok_inj' in EP.
  cbv zeta. rewrite site_at_nat by exact Hk. cbn [bind]. cbv zeta. rewrite EP, HP12, Hld. cbn [fold_left bind].
  assert (Hcv : (if Nat.eqb k (length P / 2) && o_compute_gap o then
          bind (eigs (apply_qform2 (sgn d) d4 f []) n 2 P12) (fun '(E, _, _) => check_gap E) else Ok tt) = Ok tt).
  { destruct (Nat.eqb k (length P / 2)) eqn:Ek; [|reflexivity]. destruct Hgap as [->|(Hg1 & Hg2)]; [reflexivity|].
    destruct (o_compute_gap o); [|reflexivity]. cbn [andb].
    assert (Hi2 : (2 <= i)%nat).
    { apply Hg1. rewrite <- Hpd. replace i with (dim (site P kk) 1) by (unfold dim; rewrite D1; reflexivity). rewrite <- nth_pdims by lia.
      apply nth_In. rewrite length_pdims. lia. }
    destruct (Heigs _ n 2%nat P12 M ltac:(lia) ltac:(rewrite Hn; nia) Hld HA Hherm) as (E2 & X2 & cv2 & -> & HlE2 & _). cbn [bind].
    destruct E2 as [|e1 [|e2 E2]]; try discriminate. reflexivity. }
  rewrite Hcv. cbn [bind]. rewrite HN.
  destruct (Heigs _ n 1%nat P12 M ltac:(lia) ltac:(lia) Hld HA Hherm) as (E & X & cv & EE & HlE & HlX & HG).
  rewrite EE. cbn [bind]. rewrite Nat.mul_1_r in HlX.
  assert (HE0 : exists e0, first_energy E = Ok e0) by (destruct E as [|e0 E0]; [discriminate|exists (kre e0); reflexivity]).
  destruct HE0 as (e & He). set (p := fun i => nth i (data X) 0) in *.
  assert (EX : checked_reshape X d4 = Ok (ten d4 p)).
  { unfold checked_reshape. fold n. rewrite HlX, Nat.eqb_refl. unfold reshape, ten. do 2 f_equal. fold n.
    apply (nth_ext _ _ 0 0); [rewrite map_length, seq_length; exact HlX|]. intros q Hq. rewrite (nth_map_seq p) by lia. reflexivity. }
  rewrite EX. cbn [bind]. destruct cv.
  2:{ cbn [bind]. rewrite He. cbn [bind]. eexists; exists e. split; [reflexivity|]. split; [exact Hst|]. split; [reflexivity|]. cbn [mz_converged mz_propagate]. split; [intros Hcc; exact (Hcc _ _ _ _ _ _ _ EE)|]. intros E0. discriminate E0. }
  destruct (HG eq_refl eq_refl) as (e' & -> & Hgr). apply Ok_inj' in He. rewrite kre_rinj in He. subst e.
  destruct (family_ground H ds n _ M e' p HF Hgr) as (G1 & G2 & G3).
  pose proof (ground_bound P n _ M e' p HF Hgr) as Hlb.
  assert (Hopt : forall phi, open_mps phi -> pdims phi = ds -> differs_at2 P phi kk -> (e' * W phi <= En phi)%R).
  { intros phi O1 P1 Df. destruct (differ2 kk P phi a i mm j c Ho Hpd Hkk D1 D2 O1 P1 Df) as (A & B' & q & -> & Hq & HwA & HdA & HwB & HdB).
    pose proof (put2_emb ds kk P a i mm j c Ho Hpd Hkk D1 D2 Hpos A B' q Hq HwA HdA HwB HdB) as Hamp.
    destruct HF as (F1 & _). destruct (energy_ext H ds _ _ (proj2 (F1 _)) P1 Hamp) as (-> & ->). apply G3. }
  assert (Hself : (e' * W P <= En P)%R) by (apply Hopt; [assumption|assumption|intros q _ _; reflexivity]).
  assert (Hfr1 : frob2 (ten d4 p) = 1%R) by (rewrite frob2_ten; exact (proj1 Hgr)).
  assert (Hnz : frob2 (ten d4 p) <> 0%R) by (rewrite Hfr1; lra).
  destruct (two_core (o_Dmax o) (o_svd_tolerance o) d k k' P (ten d4 p) a i mm j c Ho Hpd Hk Hm D1 D2 Hpos (wf_ten _ _) eq_refl Hnz) as (P' & ES & HS & HD & HDf & HWt & Hex).
  rewrite ES. cbn [bind first_energy]. rewrite kre_rinj. eexists; exists e'; split; [reflexivity|]. cbn [mz_step mz_propagate mz_psi mz_converged]. split; [exact Hst|].
  assert (L' : length P' = length P) by apply HS. split; [exact L'|]. split; [reflexivity|]. intros _. split.
  - unfold sout. cbn [mz_psi mz_propagate]. fold P. split; [|split; [exact L'|split; [exact Hlb|split; [exact Hself|split; [rewrite <- Hfr1; exact (HWt Hc)|split]]]]].
    + split; [cbn [mz_psi mz_H mz_propagate]; rewrite Hst; apply (q_moved d k k' P P' f); assumption|].
      split; [apply (canon_moved d k k' P P'); assumption|]. cbn [mz_ortho mz_N mz_propagate]. rewrite Hort, HN. auto.
    + intros (He1 & He2). specialize (Hex He1 He2).
      assert (Hpd' : pdims P' = ds) by apply HS. destruct HF as (F1 & _).
      assert (Ee : emb2 kk P (fun r => nth r (data (ten d4 p)) 0) = emb2 kk P p).
      { rewrite !(emb2_eq kk P a i mm j c D1 D2). apply (f_equal (put2 kk P (id3 a i))). unfold ten. apply (f_equal (mkT _)). apply map_ext_in. intros r Hr. apply in_seq in Hr. cbn [data].
        rewrite (nth_map_seq p); [reflexivity|]. cbn in *. nia. }
      fold kk in Hex. rewrite Ee in Hex.
      destruct (energy_ext H ds _ P' (proj2 (F1 p)) Hpd' Hex) as (U1 & U2). rewrite U1, U2. auto.
    + intros phi O1 P1 Df. apply Hopt; try assumption. intros q H1 H2. rewrite Df by assumption. apply HDf; assumption.
  - split; [exact HD|]. intros q Hq. apply HS. exact Hq.
Qed.

End Step.
