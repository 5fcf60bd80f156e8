(** * mps::simplify (C48) *)
From Coq Require Import Reals Lra Bool List Arith ZArith Lia Ring.
From Verif Require Import Scalar ScalarFacts RScal RealInst Tensor TensorFacts Spec MpsModel MpsFacts StateFacts StateFacts2 ExpectedFacts MpoSpec CanonSpec CanonModel
  TruncFacts SplitFacts CanonFacts CanonSweep CanonNorm CanonProps CanonTwo SvdExist SweepModel SweepSpec SweepFacts FormModel FormSpec LFormFacts LFormValue
  Properties_Canon Witness SimplifySpec SimplifyModel EckartYoung SimplifyFacts SimplifyStep SimplifyPair SimplifyDouble SimplifySweep SimplifyLoop Properties_Simplify
  SimplifyManyModel ManyFacts ManyEnv ManySweep ManyPair ManyLoop OneSweep SvdEconomic.
Import ListNotations.
Local Open Scope K_scope.

Section Properties.
Context {RS : RScal}.
Add Ring Kring : k_ring.
(** Any singular value decomposition with the contract, any values of MPS_TRUNCATION_TOLERANCE and MPS_SIMPLIFY_TOLERANCE. *)
Variable svd : tensor -> tensor * list R * tensor.
Variable flag tolerance : R.
Hypothesis Hsvd : svd_contract svd.

(** A state with its norm in one tensor is normalized by dividing that tensor. *)
Lemma normalized c P ds n : open_mps P -> pdims P = ds -> (c < length P)%nat -> canonical_at c P -> weight ds (amp P) = n -> n <> 0%R ->
  let P'' := replace_nth c (tscale (rinj (/ sqrt n)%R) (site P c)) P in
  open_mps P'' /\ pdims P'' = ds /\ canonical_at c P'' /\
  (forall is, in_range ds is -> amp P'' is = rinj (/ sqrt n)%R * amp P is) /\ weight ds (amp P'') = 1%R.
Proof.
  intros (Hne & HL) Hp HcL Hc Hwn Hn P''.
  pose proof (canonical_replace c P (tscale (rinj (/ sqrt n)%R) (site P c)) Hc) as Hc'.
  assert (HO : open_mps P'') by (split; [unfold P''; destruct P, c; discriminate || congruence|]; apply linked_tscale; assumption).
  split; [exact HO|]. split; [unfold P''; rewrite pdims_tscale; exact Hp|]. split; [exact Hc'|].
  assert (Ha : forall is, in_range ds is -> amp P'' is = rinj (/ sqrt n)%R * amp P is).
  { intros is Hi. unfold amp. rewrite (linked_left_bond 1 P 1 Hne HL). rewrite (linked_left_bond 1 _ 1 (proj1 HO) (proj2 HO)). cbn [sum]. unfold P''.
    rewrite (chain_tscale P 1 1 c) by (try assumption; try lia; rewrite Hp; exact Hi). ring. }
  split; [exact Ha|].
  assert (Hn0 : (0 < n)%R) by (pose proof (weight_nonneg ds (amp P)); lra).
  apply rinj_inj. rewrite rinj_weight. unfold inner.
  rewrite (sumcfg_ext ds _ (fun is => rinj (/ n)%R * (kconj (amp P is) * amp P is))).
  - rewrite <- sumcfg_mul_l. change (sumcfg ds (fun is => kconj (amp P is) * amp P is)) with (inner ds (amp P) (amp P)).
    rewrite <- rinj_weight, Hwn, <- rinj_mul. f_equal. field. lra.
  - intros is Hi. rewrite Ha by exact Hi. rewrite kconj_mul, rinj_conj.
    transitivity (rinj (/ sqrt n)%R * rinj (/ sqrt n)%R * (kconj (amp P is) * amp P is)); [ring|]. f_equal. rewrite <- rinj_mul. f_equal.
    rewrite <- Rinv_mult. rewrite sqrt_sqrt by lra. reflexivity.
Qed.

Lemma end_last L z : z <> 0%Z -> sweep_end L z = last_of (0 <? z)%Z L.
Proof. intros Hz. unfold sweep_end, last_of. destruct (Z.ltb_spec z 0), (Z.ltb_spec 0 z); (reflexivity || lia). Qed.
Lemma end_first L z : z <> 0%Z -> sweep_end L (- z) = last_of (negb (0 <? z)%Z) L.
Proof. intros Hz. unfold sweep_end, last_of. destruct (Z.ltb_spec (- z) 0), (Z.ltb_spec 0 z); (reflexivity || lia). Qed.

(** ** Several states *)
Definition simplify (v : variant) (w : list K) (Q : list mps) (P : mps) (sense : Z) (sweeps : nat) (normalize : bool) : result (mps * Z * R) :=
  match v with
  | by_one => simplify_many svd flag tolerance w Q P sense sweeps normalize
  | by_two Dmax tol => simplify_many2 svd flag tolerance w Q P Dmax tol sense sweeps normalize
  end.

Section Many.
Variables (v : variant) (P : mps) (w : list K) (Q : list mps) (ds : list nat) (sense : Z) (sweeps : nat).
Hypothesis Hv : valid_many flag v P w Q ds sense.
Notation dist P := (dist2 ds (combo w Q) (amp P)).

Lemma Hgood' : good_bras w Q ds.
Proof. destruct Hv as (H1 & H2 & H3 & _). repeat split; auto; apply H3; assumption. Qed.

Lemma run' : exists P' n last (conv : bool), (last = sense \/ last = - sense)%Z /\
    simplify v w Q P sense sweeps false = Ok (P', (if conv then last else - last)%Z, dist P') /\
    simplify v w Q P sense sweeps true =
      (if conv then if Req_EM_T n 0 then Abort else Ok (replace_nth (sweep_end (length P) last) (tscale (rinj (/ sqrt n)%R) (site P' (sweep_end (length P) last))) P', (- last)%Z, dist P')
       else Ok (P', (- last)%Z, dist P')) /\
    mdone w Q ds (0 <? last)%Z (length P) P' n /\
    (sweeps = 1%nat -> last = sense /\ conv = many_stop tolerance (weight ds (combo w Q)) (weight ds (combo w Q) * 10)%R (dist P')) /\
    bonds_ok v P P' /\ (inner ds (combo w Q) (amp P) <> 0 -> inner ds (combo w Q) (amp P') <> 0) /\
    (loses_nothing flag v P -> canonical_at (sweep_end (length P) (- sense)) P -> (dist P' <= dist P)%R).
Proof.
  pose proof Hgood' as Hg. destruct Hv as (_ & _ & _ & Ho & Hd & HL & Hs & Hvv).
  assert (Hf : fits ds P) by (split; assumption).
  destruct v as [|Dmax tol]; cbn [bonds_ok loses_nothing simplify] in *.
  - rewrite <- (overlap_combo w Q ds) in Hvv by exact Hd.
    destruct (simplify_many_ok svd flag Hsvd w Q ds Hg tolerance P sense sweeps Hf HL Hs Hvv) as (P' & n & z' & conv & H1 & E1 & E2 & H2 & H3 & H4 & H5 & H6).
    exists P', n, z', conv. rewrite (end_last _ z') by lia. rewrite end_first by exact Hs.
    split; [exact H1|]. split; [exact E1|]. split; [exact E2|]. split; [exact H2|]. split; [exact H3|]. split; [exact H5|]. split; [|auto].
    intros _. rewrite <- (overlap_combo w Q ds) by apply H2. exact H4.
  - assert (Hn : nz2 flag w Q tol P).
    { unfold nz2. rewrite (overlap_combo w Q ds) by exact Hd. destruct Hvv as [(H1 & H2)|H]; [left|right; exact H]. split; [exact H1|].
      unfold eff_tol, tolerance_used, Rltb in *. destruct (Rlt_dec tol 0); exact H2. }
    destruct (simplify_many2_ok svd flag Hsvd w Q ds Hg tolerance Dmax tol P sense sweeps Hf HL Hs Hn) as (P' & n & z' & conv & H1 & E1 & E2 & H2 & H3 & (H4 & H4' & H4'') & H5).
    exists P', n, z', conv. rewrite (end_last _ z') by lia. rewrite end_first by exact Hs.
    split; [exact H1|]. split; [exact E1|]. split; [exact E2|]. split; [exact H2|]. split; [exact H3|]. split; [exact H4|]. split.
    + rewrite <- !(overlap_combo w Q ds) by (try exact Hd; apply H2). exact H4'.
    + intros (Hx & Hy). apply H5; [|exact Hy]. unfold exact_tol, eff_tol, tolerance_used, Rltb in *. destruct (Rlt_dec tol 0); exact Hx.
Qed.

(** C48.  The call returns. *)
Theorem C48_many_returns : exists P' sense' err, simplify v w Q P sense sweeps false = Ok (P', sense', err).
Proof. destruct run' as (P' & n & l & conv & _ & E & _). rewrite E. exists P', (if conv then l else - l)%Z, (dist P'). reflexivity. Qed.

(** Let P', sense' and err be what a call without normalization returns. *)
Variables (P' : mps) (sense' : Z) (err : R).
Hypothesis Hcall : simplify v w Q P sense sweeps false = Ok (P', sense', err).

Lemma outcome' : exists n last (conv : bool), (last = sense \/ last = - sense)%Z /\ sense' = (if conv then last else - last)%Z /\ err = dist P' /\
    simplify v w Q P sense sweeps true =
      (if conv then if Req_EM_T n 0 then Abort else Ok (replace_nth (sweep_end (length P) last) (tscale (rinj (/ sqrt n)%R) (site P' (sweep_end (length P) last))) P', (- last)%Z, dist P')
       else Ok (P', (- last)%Z, dist P')) /\
    mdone w Q ds (0 <? last)%Z (length P) P' n /\
    (sweeps = 1%nat -> last = sense /\ conv = many_stop tolerance (weight ds (combo w Q)) (weight ds (combo w Q) * 10)%R (dist P')) /\
    bonds_ok v P P' /\ (inner ds (combo w Q) (amp P) <> 0 -> inner ds (combo w Q) (amp P') <> 0) /\
    (loses_nothing flag v P -> canonical_at (sweep_end (length P) (- sense)) P -> (dist P' <= dist P)%R).
Proof.
  destruct run' as (P1 & n & l & conv & H1 & E1 & E2 & H). rewrite Hcall in E1. injection E1 as EP Es Ee. subst P1.
  exists n, l, conv. split; [exact H1|]. split; [exact Es|]. split; [exact Ee|]. split; [exact E2|]. exact H.
Qed.

Lemma L_pos : (0 < length P)%nat.
Proof. destruct Hv as (_ & _ & _ & _ & _ & H & _). lia. Qed.

(** An open state of the same dimensions in canonical form with respect to the site where the last sweep ended;
    no other tensor at that site gives a state closer to sum_i w_i Q_i. *)
Theorem C48_many_canonical : open_mps P' /\ pdims P' = ds /\ (sense' = sense \/ sense' = - sense)%Z /\
  exists last, (last = sense \/ last = - sense)%Z /\ canonical_at (sweep_end (length P) last) P' /\
    weight ds (amp P') = frob2 (site P' (sweep_end (length P) last)) /\
    forall T, wf T -> dims T = dims (site P' (sweep_end (length P) last)) -> (dist P' <= dist (replace_nth (sweep_end (length P) last) T P'))%R.
Proof.
  destruct outcome' as (n & l & conv & Hl & -> & _ & _ & Hd & _). pose proof Hv as (_ & _ & _ & _ & _ & _ & Hs & _).
  pose proof (mdone_facts w Q ds Hgood' _ _ P' n L_pos Hd) as (Hw & _).
  pose proof (fun T => mdone_best w Q ds Hgood' _ _ P' n T L_pos Hd) as Hbest.
  destruct Hd as ((H1 & H2) & H3 & H4 & H5 & H6). split; [exact H1|]. split; [exact H2|]. split; [destruct conv; lia|].
  exists l. rewrite end_last by lia. split; [exact Hl|]. split; [exact H4|]. split; [congruence|exact Hbest].
Qed.

(** The returned error is |P' - Q|^2 where Q = sum_i w_i Q_i, and it equals |Q|^2 - |P'|^2. *)
Theorem C48_many_error : err = dist P' /\ inner ds (combo w Q) (amp P') = rinj (weight ds (amp P')) /\
  err = (weight ds (combo w Q) - weight ds (amp P'))%R.
Proof.
  destruct outcome' as (n & l & conv & Hl & _ & -> & _ & Hd & _). pose proof (mdone_facts w Q ds Hgood' _ _ P' n L_pos Hd) as (Hw & Ho & H1 & _).
  rewrite Hw. rewrite <- (overlap_combo w Q ds) by apply Hd. auto.
Qed.

(** Dmax is respected; the one-site algorithm does not enlarge any bond. *)
Theorem C48_many_bonds : bonds_ok v P P'.
Proof. destruct outcome' as (n & l & conv & _ & _ & _ & _ & _ & _ & H & _). exact H. Qed.

(** If P is orthogonal as the documentation asks, and nothing is truncated, P' is at least as close as P. *)
Theorem C48_many_never_worse : loses_nothing flag v P -> canonical_at (sweep_end (length P) (- sense)) P -> (dist P' <= dist P)%R.
Proof. destruct outcome' as (n & l & conv & _ & _ & _ & _ & _ & _ & _ & _ & H). exact H. Qed.

(** A state that already is the combination is returned, with error zero. *)
Theorem C48_many_fixed_point : loses_nothing flag v P -> canonical_at (sweep_end (length P) (- sense)) P ->
  (forall is, in_range ds is -> amp P is = combo w Q is) -> (forall is, in_range ds is -> amp P' is = combo w Q is) /\ err = 0%R.
Proof.
  intros H1 H2 H3. pose proof (C48_many_never_worse H1 H2) as H. destruct C48_many_error as (He & _).
  assert (E : dist P = 0%R).
  { unfold dist2, weight, inner. rewrite <- (kre_rinj 0), rinj_0. f_equal. apply sumcfg_zero. intros is Hi. rewrite H3 by exact Hi. ring. }
  assert (E' : dist P' = 0%R) by (apply Rle_antisym; [lra|apply weight_nonneg]). split; [|congruence].
  intros is Hi. pose proof (weight_zero ds _ E' is Hi) as Hz. cbn beta in Hz. transitivity (combo w Q is - (combo w Q is - amp P' is)); [ring|rewrite Hz; ring].
Qed.

(** normalize = true: the same error; sense'' is opposite to the direction of the last sweep, as documented, so
    that it can be given to the next call; the state is P' divided by its norm, or P' itself. *)
Theorem C48_many_normalize : inner ds (combo w Q) (amp P) <> 0 -> exists P'' sense'',
  simplify v w Q P sense sweeps true = Ok (P'', sense'', err) /\ open_mps P'' /\ pdims P'' = ds /\
  canonical_at (sweep_end (length P) (- sense'')) P'' /\
  (P'' = P' /\ sense'' = sense' \/
   sense'' = (- sense')%Z /\ weight ds (amp P'') = 1%R /\ (forall is, in_range ds is -> amp P'' is = rinj (/ sqrt (weight ds (amp P')))%R * amp P' is)).
Proof.
  intros Hn. pose proof C48_many_error as (Hee & Hie & _). destruct outcome' as (n & l & conv & Hl & Es & Ee & E & Hd & _ & _ & Hne & _).
  pose proof (mdone_facts w Q ds Hgood' _ _ P' n L_pos Hd) as (Hw & _). pose proof Hv as (_ & _ & _ & _ & _ & HL & Hs & _).
  destruct Hd as ((H1 & H2) & H3 & H4 & H5 & H6).
  rewrite E, <- Ee, Es. destruct conv.
  - assert (Hn0 : n <> 0%R) by (intros E0; apply (Hne Hn); rewrite Hie, Hw, E0; apply rinj_0).
    destruct (Req_EM_T n 0) as [|_]; [contradiction|]. rewrite end_last by lia. set (c := last_of (0 <? l)%Z (length P)) in *.
    destruct (normalized c P' ds n H1 H2) as (N1 & N2 & N3 & N4 & N5); [rewrite H3; unfold c, last_of; destruct (0 <? l)%Z; lia|exact H4|exact Hw|exact Hn0|].
    exists (replace_nth c (tscale (rinj (/ sqrt n)%R) (site P' c)) P'), (- l)%Z. split; [reflexivity|]. split; [exact N1|]. split; [exact N2|].
    rewrite Z.opp_involutive, end_last by lia. split; [exact N3|]. right. rewrite Hw. auto.
  - exists P', (- l)%Z. split; [reflexivity|]. split; [exact H1|]. split; [exact H2|]. rewrite Z.opp_involutive, end_last by lia. split; [exact H4|]. left. auto.
Qed.
End Many.

(** Calls that abort: no states, states with one site, sense = 0. *)
Theorem C48_many_rejects v w (Q : list mps) (P : mps) sense sweeps normalize : Q = [] \/ length (nth 0 Q []) = 1%nat \/ sense = 0%Z -> simplify v w Q P sense sweeps normalize = Abort.
Proof.
  intros H. assert (E : forall sweep, simplify_with tolerance w Q sweep P sense sweeps normalize = Abort).
  { intros sweep. unfold simplify_with. destruct (Nat.eqb_spec (length Q) 0) as [|H0]; [reflexivity|]. unfold many_L.
    destruct (Nat.eqb_spec (length (nth 0 Q [])) 1) as [|H1]; [reflexivity|]. destruct H as [H|[H|H]]; [subst Q; destruct H0; reflexivity|contradiction|subst sense].
    destruct (many_normQ2 w Q); reflexivity. }
  destruct v; apply E.
Qed.

(** ** One state *)
Section One.
Hypothesis Hecon : svd_economic svd.
Variables (P Q : mps) (ds : list nat) (sense : Z) (sweeps : nat).
Hypothesis HQ : open_mps Q.
Hypothesis HQd : pdims Q = ds.
Hypothesis HP : open_mps P.
Hypothesis HPd : pdims P = ds.

(** Without sweeps P is left alone and the distance is returned. *)
Theorem C48_one_no_sweeps periodicbc normalize : simplify_one svd tolerance P Q sense periodicbc 0 normalize = Ok (P, sense, dist2 ds (amp Q) (amp P)).
Proof.
  unfold simplify_one. rewrite !norm_squared_ok by assumption. cbn [bind Nat.eqb].
  destruct HP as (N1 & L1). destruct HQ as (N2 & L2).
  rewrite scprod_correct; [|split; [exact N2|exists 1%nat; split; [lia|exact L2]]|split; [exact N1|exists 1%nat; split; [lia|exact L1]]|congruence].
  cbn [bind]. rewrite HPd, HQd. do 2 f_equal. apply rinj_inj. rewrite dist2_expand. rewrite !rinj_sub, rinj_add, !rinj_weight.
  replace (2 * kre (inner ds (amp Q) (amp P)))%R with (2 * kre (inner ds (amp Q) (amp P)))%R by ring. rewrite twice_re. ring.
Qed.

Hypothesis HL : (2 <= length P)%nat.
Hypothesis Hs : sense <> 0%Z.
Hypothesis Hsw : sweeps <> 0%nat.
Hypothesis Hov : inner ds (amp Q) (amp P) <> 0.
Notation dist P := (dist2 ds (amp Q) (amp P)).
Notation cosine P' := (weight ds (amp P') / (sqrt (weight ds (amp Q)) * sqrt (weight ds (amp P'))))%R.

Lemma combo1 is : combo [1] [Q] is = amp Q is.
Proof. unfold combo. cbn [length sum nth]. ring. Qed.
Lemma dist1 P1 : dist2 ds (combo [1] [Q]) (amp P1) = dist P1.
Proof. unfold dist2, weight, inner. f_equal. apply sumcfg_ext. intros is _. rewrite combo1. reflexivity. Qed.
Lemma inner1 f : inner ds (combo [1] [Q]) f = inner ds (amp Q) f.
Proof. unfold inner. apply sumcfg_ext. intros is _. rewrite combo1. reflexivity. Qed.

Lemma Lpos1 : (0 < length P)%nat.
Proof. pose proof HL; lia. Qed.

Lemma run1 : exists P' n last (conv : bool), (last = sense \/ last = - sense)%Z /\ let c := sweep_end (length P) last in
    simplify_one svd tolerance P Q sense false sweeps false = Ok (P', (if conv then last else - last)%Z, (1 - cosine P')%R) /\
    simplify_one svd tolerance P Q sense false sweeps true =
      (if conv then Ok (replace_nth c (tscale (rinj (/ sqrt n)%R) (site P' c)) P', (- last)%Z, (1 - cosine P')%R) else Ok (P', (- last)%Z, (1 - cosine P')%R)) /\
    mdone [1] [Q] ds (0 <? last)%Z (length P) P' n /\
    (sweeps = 1%nat -> last = sense /\ conv = obc_stop tolerance 1 (1 - cosine P')) /\
    inner ds (amp Q) (amp P') <> 0 /\ (forall j, (dim (site P' j) 0 <= dim (site P j) 0)%nat) /\
    (canonical_at (sweep_end (length P) (- sense)) P -> (dist P' <= dist P)%R).
Proof.
  pose proof (Hg1 Q ds HQ HQd) as Hg. assert (Hf : fits ds P) by (split; assumption).
  rewrite <- inner1, <- (overlap_combo [1] [Q] ds) in Hov by exact HPd.
  destruct (simplify_one_ok svd Hsvd Hecon Q ds HQ HQd tolerance P sense sweeps Hf HL Hs Hsw Hov) as (P' & n & z' & conv & H1 & E1 & E2 & H2 & H3 & H4 & H5 & H6).
  assert (Ea : angle Q ds n = (1 - cosine P')%R).
  { unfold angle. rewrite W_one. pose proof (mdone_facts [1] [Q] ds Hg _ _ P' n Lpos1 H2) as (Hw & _). rewrite Hw. rewrite sqrt_mult_alt by apply weight_nonneg. reflexivity. }
  rewrite Ea in *. exists P', n, z', conv. split; [exact H1|]. cbv zeta. rewrite (end_last _ z') by lia. rewrite end_first by exact Hs. rewrite <- !dist1.
  split; [exact E1|]. split; [exact E2|]. split; [exact H2|]. split; [exact H3|]. split; [|auto].
  rewrite <- inner1, <- (overlap_combo [1] [Q] ds) by apply H2. exact H4.
Qed.

Theorem C48_one_returns : exists P' sense' err, simplify_one svd tolerance P Q sense false sweeps false = Ok (P', sense', err).
Proof. destruct run1 as (P' & n & l & conv & _ & E & _). rewrite E. exists P', (if conv then l else - l)%Z, (1 - cosine P')%R. reflexivity. Qed.

Variables (P' : mps) (sense' : Z) (err : R).
Hypothesis Hcall : simplify_one svd tolerance P Q sense false sweeps false = Ok (P', sense', err).

Lemma outcome1 : exists n last (conv : bool), (last = sense \/ last = - sense)%Z /\ let c := sweep_end (length P) last in
    sense' = (if conv then last else - last)%Z /\ err = (1 - cosine P')%R /\
    simplify_one svd tolerance P Q sense false sweeps true =
      (if conv then Ok (replace_nth c (tscale (rinj (/ sqrt n)%R) (site P' c)) P', (- last)%Z, (1 - cosine P')%R) else Ok (P', (- last)%Z, (1 - cosine P')%R)) /\
    mdone [1] [Q] ds (0 <? last)%Z (length P) P' n /\
    (sweeps = 1%nat -> last = sense /\ conv = obc_stop tolerance 1 (1 - cosine P')) /\
    inner ds (amp Q) (amp P') <> 0 /\ (forall j, (dim (site P' j) 0 <= dim (site P j) 0)%nat) /\
    (canonical_at (sweep_end (length P) (- sense)) P -> (dist P' <= dist P)%R).
Proof.
  destruct run1 as (P1 & n & l & conv & H1 & E1 & E2 & H). rewrite Hcall in E1. injection E1 as EP Es Ee. subst P1.
  exists n, l, conv. split; [exact H1|]. cbv zeta. split; [exact Es|]. split; [exact Ee|]. split; [exact E2|]. exact H.
Qed.

Lemma facts1 n last : mdone [1] [Q] ds (0 <? last)%Z (length P) P' n ->
  weight ds (amp P') = n /\ inner ds (amp Q) (amp P') = rinj n /\ dist P' = (weight ds (amp Q) - n)%R.
Proof.
  intros Hd. pose proof (mdone_facts [1] [Q] ds (Hg1 Q ds HQ HQd) _ _ P' n Lpos1 Hd) as (Hw & Ho & H1 & _).
  rewrite <- dist1, <- inner1, <- (overlap_combo [1] [Q] ds) by apply Hd. rewrite W_one in H1. auto.
Qed.

Theorem C48_one_canonical : open_mps P' /\ pdims P' = ds /\ (sense' = sense \/ sense' = - sense)%Z /\
  exists last, (last = sense \/ last = - sense)%Z /\ canonical_at (sweep_end (length P) last) P' /\
    weight ds (amp P') = frob2 (site P' (sweep_end (length P) last)) /\
    forall T, wf T -> dims T = dims (site P' (sweep_end (length P) last)) -> (dist P' <= dist (replace_nth (sweep_end (length P) last) T P'))%R.
Proof.
  destruct outcome1 as (n & l & conv & Hl & -> & _ & _ & Hd & _). destruct (facts1 n l Hd) as (Hw & _).
  pose proof (fun T => mdone_best [1] [Q] ds (Hg1 Q ds HQ HQd) _ _ P' n T Lpos1 Hd) as Hbest.
  destruct Hd as ((H1 & H2) & H3 & H4 & H5 & H6). split; [exact H1|]. split; [exact H2|]. split; [destruct conv; lia|].
  exists l. rewrite end_last by lia. split; [exact Hl|]. split; [exact H4|]. split; [congruence|].
  intros T HwT HdT. rewrite <- !dist1. apply Hbest; assumption.
Qed.

(** The returned error is 1 - <Q|P'>/(|Q| |P'|), one minus the cosine of the angle between P' and Q; the
    distance is |P' - Q|^2 = |Q|^2 - |P'|^2. *)
Theorem C48_one_error : exists o, inner ds (amp Q) (amp P') = rinj o /\
  err = (1 - o / (sqrt (weight ds (amp Q)) * sqrt (weight ds (amp P'))))%R /\ (0 <= err <= 1)%R /\
  dist P' = (weight ds (amp Q) * (1 - (1 - err) * (1 - err)))%R.
Proof.
  destruct outcome1 as (n & l & conv & Hl & _ & Ee & _ & Hd & _ & Hne & _). destruct (facts1 n l Hd) as (Hw & Ho & HD).
  exists n. split; [exact Ho|]. rewrite Hw in Ee. rewrite Hw. split; [exact Ee|].
  assert (Hn0 : n <> 0%R) by (intros E0; apply Hne; rewrite Ho, E0; apply rinj_0).
  assert (Hn : (0 < n)%R) by (pose proof (weight_nonneg ds (amp P')); lra).
  assert (HW : (n <= weight ds (amp Q))%R) by (assert (0 <= dist P')%R by apply weight_nonneg; lra).
  set (W := weight ds (amp Q)) in *. assert (HWp : (0 < W)%R) by lra.
  pose proof (sqrt_lt_R0 n Hn) as S1. pose proof (sqrt_lt_R0 W HWp) as S2. pose proof (sqrt_sqrt n ltac:(lra)) as S3. pose proof (sqrt_sqrt W ltac:(lra)) as S4.
  assert (Ec : (n / (sqrt W * sqrt n) = sqrt n / sqrt W)%R) by (rewrite <- S3 at 1; field; lra).
  assert (S5 : (sqrt n <= sqrt W)%R) by (apply sqrt_le_1; lra).
  assert (Hq : (0 < sqrt n / sqrt W <= 1)%R).
  { split; [apply Rdiv_lt_0_compat; assumption|]. apply (Rmult_le_reg_r (sqrt W)); [exact S2|]. unfold Rdiv. rewrite Rmult_assoc, Rinv_l by lra. lra. }
  rewrite Ec in Ee. split; [rewrite Ee; lra|]. rewrite HD, Ee.
  replace (W * (1 - (1 - (1 - sqrt n / sqrt W)) * (1 - (1 - sqrt n / sqrt W))))%R with (W - W * ((sqrt n * sqrt n) / (sqrt W * sqrt W)))%R by (field; lra).
  rewrite S3, S4. field. lra.
Qed.

(** Bonds do not grow, and the distance neither. *)
Theorem C48_one_bonds : forall j, (dim (site P' j) 0 <= dim (site P j) 0)%nat.
Proof. destruct outcome1 as (n & l & conv & _ & _ & _ & _ & _ & _ & _ & H & _). exact H. Qed.
Theorem C48_one_never_worse : canonical_at (sweep_end (length P) (- sense)) P -> (dist P' <= dist P)%R.
Proof. destruct outcome1 as (n & l & conv & _ & _ & _ & _ & _ & _ & _ & _ & H). exact H. Qed.

Theorem C48_one_normalize : exists P'' sense'',
  simplify_one svd tolerance P Q sense false sweeps true = Ok (P'', sense'', err) /\ open_mps P'' /\ pdims P'' = ds /\
  canonical_at (sweep_end (length P) (- sense'')) P'' /\
  (P'' = P' /\ sense'' = sense' \/
   sense'' = (- sense')%Z /\ weight ds (amp P'') = 1%R /\ (forall is, in_range ds is -> amp P'' is = rinj (/ sqrt (weight ds (amp P')))%R * amp P' is)).
Proof.
  destruct outcome1 as (n & l & conv & Hl & Es & Ee & E & Hd & _ & Hne & _). destruct (facts1 n l Hd) as (Hw & Ho & _).
  destruct Hd as ((H1 & H2) & H3 & H4 & H5 & H6).
  rewrite E, <- Ee, Es. destruct conv.
  - assert (Hn0 : n <> 0%R) by (intros E0; apply Hne; rewrite Ho, E0; apply rinj_0).
    rewrite end_last by lia. set (c := last_of (0 <? l)%Z (length P)) in *.
    destruct (normalized c P' ds n H1 H2) as (N1 & N2 & N3 & N4 & N5); [rewrite H3; unfold c, last_of; destruct (0 <? l)%Z; lia|exact H4|exact Hw|exact Hn0|].
    exists (replace_nth c (tscale (rinj (/ sqrt n)%R) (site P' c)) P'), (- l)%Z. split; [reflexivity|]. split; [exact N1|]. split; [exact N2|].
    rewrite Z.opp_involutive, end_last by lia. split; [exact N3|]. right. rewrite Hw. auto.
  - exists P', (- l)%Z. split; [reflexivity|]. split; [exact H1|]. split; [exact H2|]. rewrite Z.opp_involutive, end_last by lia. split; [exact H4|]. left. auto.
Qed.
End One.

(** Calls that abort: states with one site, sense = 0 ... *)
Theorem C48_one_rejects (P Q : mps) sense periodicbc sweeps normalize : length Q = 1%nat \/ sense = 0%Z -> sweeps <> 0%nat ->
  simplify_one svd tolerance P Q sense periodicbc sweeps normalize = Abort.
Proof.
  intros H Hsw. unfold simplify_one. destruct (norm_squared Q); [|reflexivity]. cbn [bind]. destruct (Nat.eqb_spec sweeps 0) as [|_]; [contradiction|].
  destruct (Nat.eqb_spec (length Q) 1) as [|HA]; [reflexivity|]. destruct (Z.eqb_spec sense 0) as [|HB]; [reflexivity|]. destruct H; contradiction.
Qed.

(** ... and every call with periodicbc = true, the flag meant for periodic states. *)
Theorem C48_periodic_refuted (P Q : mps) sense sweeps normalize : open_mps P -> (2 <= length P)%nat -> sweeps <> 0%nat ->
  simplify_one svd tolerance P Q sense true sweeps normalize = Abort.
Proof. apply simplify_one_periodic. Qed.
End Properties.

(** ** Where the code departs from the documentation, and cases that meet the hypotheses *)
Notation RT := (@tensor (@rs_scalar RR)).
Definition two_vec (x y : R) : RT := @mk (@rs_scalar RR) [1; 2; 1]%nat (fun i => if Nat.eqb (nth 1 i 0%nat) 0 then x else y).
(** 2|00>, with the norm at the first site; |00>; 2|00> + 2|11> *)
Definition two00 : @mps (@rs_scalar RR) := [two_vec 2 0; two_vec 1 0].
Definition one00 : @mps (@rs_scalar RR) := [two_vec 1 0; two_vec 1 0].
Definition pairs : @mps (@rs_scalar RR) :=
  [@mk (@rs_scalar RR) [1; 2; 2]%nat (fun i => if Nat.eqb (nth 1 i 0%nat) (nth 2 i 0%nat) then 2%R else 0%R);
   @mk (@rs_scalar RR) [2; 2; 1]%nat (fun i => if Nat.eqb (nth 1 i 0%nat) (nth 0 i 0%nat) then 1%R else 0%R)].

Lemma two_open : open_mps two00 /\ open_mps one00 /\ open_mps pairs.
Proof. repeat split; try discriminate; solve_linked. Qed.
Lemma two_vec_right x y : (x * x + y * y = 1)%R -> @right_isometry RR (two_vec x y).
Proof.
  intros H a b Ha Hb. cbn in Ha, Hb. assert (a = 0%nat) as -> by lia. assert (b = 0%nat) as -> by lia.
  change (0 + (0 + x * x) + (0 + y * y) = 1)%R. lra.
Qed.
Lemma two_canonical : canonical_at (sweep_end 2 (-1)) two00 /\ canonical_at (sweep_end 2 (-1)) one00.
Proof.
  assert (H : @right_isometry RR (two_vec 1 0)) by (apply two_vec_right; lra).
  split; (split; intros j Hj; cbn in Hj; [lia|]; assert (j = 1)%nat as -> by lia; exact H).
Qed.

(** Two sites of dimension two joined by a bond of dimension one *)
Lemma two_amp (P : @mps (@rs_scalar RR)) : open_mps P -> pdims P = [2; 2]%nat -> (dim (site P 1) 0 <= 1)%nat ->
  exists A B : RT, P = [A; B] /\ dims A = [1; 2; 1]%nat /\ dims B = [1; 2; 1]%nat /\
    forall i j, amp P [i; j] = (get A [0; i; 0]%nat * get B [0; j; 0]%nat)%R.
Proof.
  intros (_ & HL) Hp Hb. destruct P as [|A [|B [|C r]]]; try discriminate. exists A, B. split; [reflexivity|].
  cbn [linked] in HL. destruct HL as (i & c & HA & WA & Hi & Hc & j & e & HB & WB & Hj & He & ->).
  unfold site in Hb. cbn [nth] in Hb. unfold dim in Hb. rewrite HB in Hb. cbn [nth] in Hb. assert (c = 1%nat) as -> by lia.
  unfold pdims, dim in Hp. cbn [map] in Hp. rewrite HA, HB in Hp. cbn [nth] in Hp. injection Hp as -> ->. split; [exact HA|]. split; [exact HB|].
  intros a b. unfold amp, left_bond. cbn [chain]. unfold dim. rewrite HA, HB. cbn [nth sum chain].
  change (0 + (0 + get A [0; a; 0]%nat * (0 + get B [0; b; 0]%nat * 1)) = get A [0; a; 0]%nat * get B [0; b; 0]%nat)%R. ring.
Qed.
Lemma two_weight (f : list nat -> R) : @weight RR [2; 2]%nat f = (f [0;0]%nat * f [0;0]%nat + f [0;1]%nat * f [0;1]%nat + f [1;0]%nat * f [1;0]%nat + f [1;1]%nat * f [1;1]%nat)%R.
Proof.
  unfold weight. change (0 + (0 + f [0;0]%nat * f [0;0]%nat + f [0;1]%nat * f [0;1]%nat) + (0 + f [1;0]%nat * f [1;0]%nat + f [1;1]%nat * f [1;1]%nat) =
    f [0;0]%nat * f [0;0]%nat + f [0;1]%nat * f [0;1]%nat + f [1;0]%nat * f [1;0]%nat + f [1;1]%nat * f [1;1]%nat)%R. ring.
Qed.

Section Refuted.
Variable svd : RT -> RT * list R * RT.
Variable flag tolerance : R.
Hypothesis Hsvd : svd_contract svd.
Hypothesis Hecon : svd_economic svd.

Lemma two_valid : valid_many flag by_one two00 [1%R] [two00] [2; 2]%nat 1.
Proof.
  destruct two_open as (H1 & H2 & H3). split; [discriminate|]. split; [reflexivity|]. split; [|split; [exact H1|]].
  - intros q [<-|[]]. split; [exact H1|reflexivity].
  - split; [reflexivity|]. split; [cbn; lia|]. split; [discriminate|]. cbn. lra.
Qed.
Lemma pairs_valid : valid_many flag by_one one00 [1%R] [pairs] [2; 2]%nat 1.
Proof.
  destruct two_open as (H1 & H2 & H3). split; [discriminate|]. split; [reflexivity|]. split; [|split; [exact H2|]].
  - intros q [<-|[]]. split; [exact H3|reflexivity].
  - split; [reflexivity|]. split; [cbn; lia|]. split; [discriminate|]. cbn. lra.
Qed.

Lemma combo_1 (Q : @mps (@rs_scalar RR)) is : @combo RR [1%R] [Q] is = amp Q is.
Proof. unfold combo. cbn [length sum nth]. change (0 + 1 * amp Q is = amp Q is)%R. ring. Qed.
Lemma dist_1 (Q P : @mps (@rs_scalar RR)) ds : @dist2 RR ds (@combo RR [1%R] [Q]) (amp P) = @dist2 RR ds (amp Q) (amp P).
Proof. unfold dist2, weight, inner. f_equal. apply sumcfg_ext. intros is _. rewrite combo_1. reflexivity. Qed.

(** A product state stays at a distance from 2|00> + 2|11>. *)
Lemma product_far (P : @mps (@rs_scalar RR)) : open_mps P -> pdims P = [2; 2]%nat -> (dim (site P 1) 0 <= 1)%nat ->
  (1 <= @dist2 RR [2; 2]%nat (amp pairs) (amp P))%R.
Proof.
  intros H1 H2 H3. destruct (two_amp P H1 H2 H3) as (A & B & _ & _ & _ & Ha). unfold dist2. rewrite two_weight. rewrite !Ha.
  set (a := get A [0;0;0]%nat). set (b := get A [0;1;0]%nat). set (c := get B [0;0;0]%nat). set (d := get B [0;1;0]%nat).
  replace (amp pairs [0;0]%nat) with 2%R by (cbn; ring). replace (amp pairs [0;1]%nat) with 0%R by (cbn; ring).
  replace (amp pairs [1;0]%nat) with 0%R by (cbn; ring). replace (amp pairs [1;1]%nat) with 2%R by (cbn; ring).
  change (1 <= (2 - a * c) * (2 - a * c) + (0 - a * d) * (0 - a * d) + (0 - b * c) * (0 - b * c) + (2 - b * d) * (2 - b * d))%R.
  clearbody a b c d. clear. destruct (Rle_lt_dec 1 ((2 - a * c) * (2 - a * c) + (0 - a * d) * (0 - a * d) + (0 - b * c) * (0 - b * c) + (2 - b * d) * (2 - b * d))) as [H|H]; [exact H|].
  exfalso. assert (E : ((a * c) * (b * d) = (a * d) * (b * c))%R) by ring.
  set (x := (a * c)%R) in *. set (y := (b * d)%R) in *. set (u := (a * d)%R) in *. set (v := (b * c)%R) in *. clearbody x y u v.
  pose proof (Rle_0_sqr (2 - x)) as Q1. pose proof (Rle_0_sqr (2 - y)) as Q2. pose proof (Rle_0_sqr (0 - u)) as Q3. pose proof (Rle_0_sqr (0 - v)) as Q4. unfold Rsqr in *.
  assert (Hx : (1 < x)%R) by (apply Rnot_le_lt; intros C; assert (1 <= (2 - x) * (2 - x))%R by nra; lra).
  assert (Hy : (1 < y)%R) by (apply Rnot_le_lt; intros C; assert (1 <= (2 - y) * (2 - y))%R by nra; lra).
  assert (Hxy : (1 < u * v)%R) by nra. pose proof (Rle_0_sqr (u - v)) as Q5. unfold Rsqr in Q5. lra.
Qed.

(** The documentation: after a last sweep from left to right sense is -1 and P is orthogonal from the right.
    Without normalization, and if the iteration has converged, it is +1 after a sweep from left to right,
    also in this case, where P is not orthogonal from the right. *)
Theorem C48_sense_refuted : canonical_at (sweep_end 2 (-1)) two00 /\
  exists P', simplify svd flag tolerance by_one [1%R] [two00] two00 1 1 false = Ok (P', 1%Z, 0%R) /\
    canonical_at (sweep_end 2 1) P' /\ ~ canonical_at (sweep_end 2 (-1)) P'.
Proof.
  split; [apply two_canonical|].
  destruct (run' svd flag tolerance Hsvd by_one two00 [1%R] [two00] [2; 2]%nat 1 1 two_valid) as (P' & n & l & conv & _ & E & _ & Hd & H1 & Hb & _ & Hw).
  destruct (H1 eq_refl) as (-> & ->). specialize (Hw I (proj1 two_canonical)). rewrite ?dist_1 in *.
  assert (E0 : @dist2 RR [2; 2]%nat (amp two00) (amp two00) = 0%R) by (unfold dist2; rewrite two_weight; cbn; ring).
  assert (E1 : @dist2 RR [2; 2]%nat (amp two00) (amp P') = 0%R) by (apply Rle_antisym; [lra|apply weight_nonneg]).
  rewrite E1 in *. exists P'.
  assert (Hstop : many_stop tolerance (@weight RR [2; 2]%nat (@combo RR [1%R] [two00])) (@weight RR [2; 2]%nat (@combo RR [1%R] [two00]) * 10) 0 = true).
  { unfold many_stop. apply orb_true_iff. right. unfold Rltb. destruct (Rlt_dec 0 (1 / 100000000000000)) as [|C]; [reflexivity|lra]. }
  rewrite Hstop in E. split; [exact E|]. destruct Hd as ((Ho & Hp) & HL & Hc & _ & _). split; [exact Hc|]. intros Hc'.
  destruct (two_amp P' Ho Hp (Hb 1%nat)) as (A & B & -> & HA & HB & Ha).
  assert (WP : (@weight RR [2; 2]%nat (amp [A; B]) = 4)%R).
  { rewrite two_weight. assert (Hz : forall is, in_range [2;2]%nat is -> amp [A; B] is = amp two00 is).
    { intros is Hi. pose proof (weight_zero _ _ E1 is Hi) as Hz. cbn beta in Hz. change (amp two00 is - amp [A; B] is = 0)%R in Hz. apply Rminus_diag_uniq in Hz. symmetry. exact Hz. }
    rewrite !Hz by (repeat constructor). cbn. ring. }
  rewrite two_weight, !Ha in WP.
  assert (LA : @left_isometry RR A) by (apply (proj1 Hc 0%nat); cbn; lia). assert (LB : @right_isometry RR B) by (apply (proj2 Hc' 1%nat); cbn; lia).
  specialize (LA 0%nat 0%nat). specialize (LB 0%nat 0%nat). unfold dim in LA, LB. rewrite HA in LA. rewrite HB in LB.
  specialize (LA ltac:(cbn; lia) ltac:(cbn; lia)). specialize (LB ltac:(cbn; lia) ltac:(cbn; lia)).
  change (0 + (0 + get A [0;0;0]%nat * get A [0;0;0]%nat + get A [0;1;0]%nat * get A [0;1;0]%nat) = 1)%R in LA.
  change (0 + (0 + get B [0;0;0]%nat * get B [0;0;0]%nat) + (0 + get B [0;1;0]%nat * get B [0;1;0]%nat) = 1)%R in LB.
  set (a := get A [0;0;0]%nat) in *. set (b := get A [0;1;0]%nat) in *. set (c := get B [0;0;0]%nat) in *. set (d := get B [0;1;0]%nat) in *.
  change (a * c * (a * c) + a * d * (a * d) + b * c * (b * c) + b * d * (b * d) = 4)%R in WP.
  assert (E2 : ((a * a + b * b) * (c * c + d * d) = 4)%R) by (rewrite <- WP; ring).
  assert (Ea : (a * a + b * b = 1)%R) by (rewrite <- LA; ring). assert (Eb : (c * c + d * d = 1)%R) by (rewrite <- LB; ring).
  rewrite Ea, Eb in E2. lra.
Qed.

(** normalize = true does not give a state of norm one if the iteration has not converged. *)
Theorem C48_normalize_refuted : (tolerance <= 1 / 10)%R -> canonical_at (sweep_end 2 (-1)) one00 /\
  exists P' sense' err, simplify svd flag tolerance by_one [1%R] [pairs] one00 1 1 true = Ok (P', sense', err) /\
    (3 <= @weight RR [2; 2]%nat (amp P'))%R.
Proof.
  intros Htol. split; [apply two_canonical|].
  destruct (run' svd flag tolerance Hsvd by_one one00 [1%R] [pairs] [2; 2]%nat 1 1 pairs_valid) as (P' & n & l & conv & _ & _ & E & Hd & H1 & Hb & _ & Hw).
  destruct (H1 eq_refl) as (-> & ->). specialize (Hw I (proj2 two_canonical)).
  pose proof (mdone_facts _ _ _ (Hgood' flag _ _ _ _ _ _ pairs_valid) _ _ P' n Nat.lt_0_2 Hd) as (Hn & _ & HD & _).
  destruct Hd as ((Ho & Hp) & HL & Hc & _ & _).
  assert (EW : @weight RR [2; 2]%nat (@combo RR [1%R] [pairs]) = 8%R) by (rewrite two_weight; cbn; ring).
  change (@dist2 RR [2; 2]%nat (@combo RR [1%R] [pairs]) (amp P') = @weight RR [2; 2]%nat (@combo RR [1%R] [pairs]) - n)%R in HD.
  rewrite EW in *. pose proof (product_far P' Ho Hp (Hb 1%nat)) as Hf. rewrite ?dist_1 in *.
  assert (E5 : @dist2 RR [2; 2]%nat (amp pairs) (amp one00) = 5%R) by (unfold dist2; rewrite two_weight; cbn; ring).
  set (e := @dist2 RR [2; 2]%nat (amp pairs) (amp P')) in *.
  assert (Hstop : many_stop tolerance 8 (8 * 10) e = false).
  { unfold many_stop, Rltb. destruct (Rlt_dec (Rabs (8 * 10 - e)) _) as [C|_]; [exfalso|].
    - rewrite (Rabs_pos_eq 8) in C by lra. rewrite Rabs_pos_eq in C by lra. lra.
    - destruct (Rlt_dec e (tolerance * 8)); [lra|]. destruct (Rlt_dec e (1 / 100000000000000)); [lra|reflexivity]. }
  rewrite Hstop in E. exists P', (-1)%Z, e. split; [exact E|]. rewrite Hn. lra.
Qed.

(** The documentation: the function returns |P-Q|^2.  The overload for one state does not. *)
Theorem C48_error_refuted : canonical_at (sweep_end 2 (-1)) one00 /\
  exists P' sense' err, simplify_one svd tolerance one00 pairs 1 false 1 false = Ok (P', sense', err) /\
    err <> @dist2 RR [2; 2]%nat (amp pairs) (amp P').
Proof.
  split; [apply two_canonical|]. destruct two_open as (_ & Ho & Hq).
  assert (Hov : @inner (@rs_scalar RR) [2;2]%nat (amp pairs) (amp one00) <> k0) by (cbn; lra).
  destruct (C48_one_returns svd tolerance Hsvd Hecon one00 pairs [2;2]%nat 1 1 Hq eq_refl Ho eq_refl ltac:(cbn; lia) ltac:(lia) ltac:(lia) Hov) as (P' & s' & e & E).
  exists P', s', e. split; [exact E|].
  destruct (C48_one_error svd tolerance Hsvd Hecon one00 pairs [2;2]%nat 1 1 Hq eq_refl Ho eq_refl ltac:(cbn; lia) ltac:(lia) ltac:(lia) Hov P' s' e E) as (o & _ & _ & He & HD).
  destruct (C48_one_canonical svd tolerance Hsvd Hecon one00 pairs [2;2]%nat 1 1 Hq eq_refl Ho eq_refl ltac:(cbn; lia) ltac:(lia) ltac:(lia) Hov P' s' e E) as (Ho' & Hp' & _).
  pose proof (C48_one_bonds svd tolerance Hsvd Hecon one00 pairs [2;2]%nat 1 1 Hq eq_refl Ho eq_refl ltac:(cbn; lia) ltac:(lia) ltac:(lia) Hov P' s' e E 1%nat) as Hb.
  pose proof (product_far P' Ho' Hp' Hb) as Hf. assert (EW : @weight RR [2; 2]%nat (amp pairs) = 8%R) by (rewrite two_weight; cbn; ring).
  rewrite EW in HD. intros Ee. rewrite <- Ee in *. nra.
Qed.
End Refuted.

(** The hypotheses are met: decompositions exist, and so do calls with several sites, states and bonds. *)
Example C48_case : (exists svd : RT -> RT * list R * RT, svd_contract svd /\ svd_economic svd) /\
  valid_many DBL_EPSILON by_one (@copen RR) cws cqs (pdims (@copen RR)) 1 /\
  valid_many 0 (by_two 3 (-1)) (@copen RR) cws cqs (pdims (@copen RR)) (-1) /\
  valid_many 0 by_one one00 [1%R] [pairs] [2; 2]%nat 1 /\ loses_nothing 0 (by_two 1 (-1)) one00.
Proof.
  destruct C62_case as ((A1 & A2 & A3 & A4 & A5 & A6 & _) & (_ & _ & _ & _ & _ & _ & _ & _ & [B|B]) & A7).
  { exfalso. apply B. unfold truncation, one_site, tolerance_used. cbn. reflexivity. }
  split; [exact (svd_economic_satisfiable (RS := RR))|]. split; [|split; [|split; [apply pairs_valid|]]].
  - do 5 (split; [assumption|]). split; [cbn; lia|]. split; [discriminate|]. exact B.
  - do 5 (split; [assumption|]). split; [cbn; lia|]. split; [discriminate|]. right. exact B.
  - split; [left|right; intros j Hj; cbn in Hj; assert (j = 1)%nat as -> by lia; cbn; lia]. unfold tolerance_used. destruct (Rlt_dec (-1) 0); [reflexivity|lra].
Qed.
