(** The two-site sweeps of mps::simplify *)
From Coq Require Import Reals Lra Bool List Arith ZArith Lia Ring.
From Verif Require Import Scalar ScalarFacts RScal Tensor TensorFacts Spec MpsModel MpsFacts StateFacts StateFacts2 EnvFacts ExpectedFacts MpoSpec CanonSpec CanonModel
  TruncFacts SplitFacts CanonFacts CanonSweep CanonNorm CanonProps CanonTwo SweepModel SweepSpec SweepFacts FormModel FormSpec LFormFacts LFormValue
  SimplifySpec SimplifyModel EckartYoung SimplifyFacts SimplifyStep SimplifyPair SimplifyDouble SimplifySweep SimplifyLoop SimplifyManyModel ManyFacts ManyEnv ManySweep MinLocal PairBest.
Import ListNotations.
Local Open Scope K_scope.

Section Sweep.
Context {RS : RScal}.
Add Ring Kring : k_ring.
Variable svd : tensor -> tensor * list R * tensor.
Variable flag : R.
Hypothesis Hsvd : svd_contract svd.
Variables (ws : list K) (bras : list mps) (ds : list nat).
Hypothesis Hg : good_bras ws bras ds.
Notation D2 P := (dist2 ds (combo ws bras) (amp P)).
Notation bra := (bra bras).
Notation nb := (length bras).
Notation fits := (fits ds).
Notation envs := (envs bras).
Notation mswept := (mswept ws bras ds).

(** ** set_canonical and what it overwrites *)
Lemma set_canonical_replace P k t (d : bool) tr : set_canonical svd flag (replace_nth k t P) (Z.of_nat k) t (sgn d) tr = set_canonical svd flag P (Z.of_nat k) t (sgn d) tr.
Proof.
  unfold set_canonical. rewrite length_replace_nth, Nat2Z.id. destruct (_ && _)%bool; [|reflexivity].
  destruct d; cbn [sgn Z.ltb Z.compare].
  - destruct (Nat.eqb (k + 1) (length P)); [rewrite replace_replace; reflexivity|]. destruct (split svd flag t 1 tr) as [[U V]|]; [|reflexivity]. cbn [bind].
    rewrite replace_replace, site_replace_neq by lia. reflexivity.
  - destruct (Nat.eqb_spec k 0); [rewrite replace_replace; reflexivity|]. destruct (split svd flag t (-1) tr) as [[U V]|]; [|reflexivity]. cbn [bind].
    rewrite replace_replace, site_replace_neq by lia. reflexivity.
Qed.

Lemma two_false_true P T d k k' Dmax tol P1 : moved d (length P) k k' -> (k < length P)%nat ->
  set_canonical_2_sites svd flag P T (Z.of_nat k) (sgn d) Dmax tol false = Ok P1 ->
  set_canonical_2_sites svd flag P T (Z.of_nat k) (sgn d) Dmax tol true = set_canonical svd flag P1 (Z.of_nat k') (site P1 k') (sgn d) true.
Proof.
  intros Hm Hk. unfold set_canonical_2_sites. destruct (_ || _)%bool; [discriminate|].
  destruct (svd _) as [[U s] V]. destruct (if Nat.eqb _ _ then _ else _) as [[U' s'] V']. rewrite site_at_nat by exact Hk. cbn [bind].
  rewrite Nat2Z.id. destruct d; cbn [sgn Z.ltb Z.compare moved] in *.
  - destruct Hm as (-> & Hk'). replace (Z.of_nat k + 1)%Z with (Z.of_nat (S k)) by lia. rewrite site_at_nat by (rewrite length_replace_nth; lia). cbn [bind]. rewrite Nat2Z.id.
    intros H. apply Ok_inj' in H. subst P1. rewrite site_replace_eq by (rewrite length_replace_nth; lia). 
    rewrite (set_canonical_replace _ (S k) _ true). reflexivity.
  - subst k. replace (Z.of_nat (S k') - 1)%Z with (Z.of_nat k') by lia. rewrite site_at_nat by (rewrite length_replace_nth; lia). cbn [bind]. rewrite Nat2Z.id.
    intros H. apply Ok_inj' in H. subst P1. rewrite site_replace_eq by (rewrite length_replace_nth; lia).
    rewrite (set_canonical_replace _ k' _ false). reflexivity.
Qed.

(** P and P' agree except at the sites k and k+1. *)
Definition agree2 (k : nat) (P P' : mps) : Prop := length P = length P' /\ forall j, j <> k -> j <> S k -> site P j = site P' j.

Lemma replace_two_ext {A} (dflt : A) k k' x y (P P' : list A) : length P = length P' -> (k < length P)%nat -> (k' < length P)%nat ->
  (forall j, j <> k -> j <> k' -> nth j P dflt = nth j P' dflt) ->
  replace_nth k x (replace_nth k' y P) = replace_nth k x (replace_nth k' y P').
Proof.
  intros Hl Hk Hk' H. apply (nth_ext _ _ dflt dflt); [rewrite !length_replace_nth; exact Hl|]. intros j _.
  destruct (Nat.eq_dec j k) as [->|H1]; [rewrite !nth_replace_nth_eq by (rewrite length_replace_nth; lia); reflexivity|].
  rewrite !(nth_replace_nth_neq k) by exact H1.
  destruct (Nat.eq_dec j k') as [->|H2]; [rewrite !nth_replace_nth_eq by lia; reflexivity|].
  rewrite !(nth_replace_nth_neq k') by exact H2. apply H; assumption.
Qed.

Lemma two_agree P Pv T d k k' Dmax tol : moved d (length P) k k' -> (k < length P)%nat -> agree2 (Nat.min k k') P Pv ->
  set_canonical_2_sites svd flag P T (Z.of_nat k) (sgn d) Dmax tol false = set_canonical_2_sites svd flag Pv T (Z.of_nat k) (sgn d) Dmax tol false.
Proof.
  intros Hm Hk (Hl & Hs). unfold set_canonical_2_sites. destruct (_ || _)%bool; [reflexivity|].
  destruct (svd _) as [[U s] V]. destruct (if Nat.eqb _ _ then _ else _) as [[U' s'] V']. rewrite !site_at_nat by lia. cbn [bind].
  rewrite Nat2Z.id. destruct d; cbn [sgn Z.ltb Z.compare moved] in *.
  - destruct Hm as (-> & Hk'). replace (Z.of_nat k + 1)%Z with (Z.of_nat (S k)) by lia. rewrite !site_at_nat by (rewrite length_replace_nth; lia). cbn [bind]. rewrite Nat2Z.id.
    f_equal. apply (replace_two_ext empty); try lia. intros j H1 H2. apply Hs; lia.
  - subst k. replace (Z.of_nat (S k') - 1)%Z with (Z.of_nat k') by lia. rewrite !site_at_nat by (rewrite length_replace_nth; lia). cbn [bind]. rewrite Nat2Z.id.
    f_equal. apply (replace_two_ext empty); try lia. intros j H1 H2. apply Hs; lia.
Qed.

(** ** The local tensor *)
Definition pairq (i k : nat) : tensor := fold (site (nth i bras []) k) (rank (site (nth i bras []) k) - 1) (site (nth i bras []) (k + 1)) 0.
Definition local2 (M : nat -> nat -> tensor) (k : nat) : tensor :=
  let out := projector_sum ws bras (fun i => next_projector (M k i) (M (k + 3)%nat i)
                 (reshape (pairq i k) [dim (pairq i k) 0; (dim (pairq i k) 1 * dim (pairq i k) 2)%nat; dim (pairq i k) 3])) in
  reshape out [dim out 0; dim (pairq (nb - 1) k) 1; dim (pairq (nb - 1) k) 2; dim out 2].

Lemma local2_ok k P M : fits P -> (S k < length P)%nat -> lenvs bras k P M -> renvs bras (S (S k)) P M -> repr2 ws bras k P (tconj (local2 M k)).
Proof.
  intros (Ho & Hd) Hk H1 H2.
  destruct (linked_split2 1 P 1 k (proj2 Ho) ltac:(lia) Hk) as (a & i & m & j & c & L1 & L2 & L3 & L4 & L5 & L6 & L7 & L8 & L9 & L10 & L11).
  set (t := fun n => next_projector (M k n) (M (k + 3)%nat n) (reshape (pairq n k) [dim (pairq n k) 0; (dim (pairq n k) 1 * dim (pairq n k) 2)%nat; dim (pairq n k) 3])).
  assert (Ht : forall n, (n < nb)%nat -> dim (pairq n k) 1 = i /\ dim (pairq n k) 2 = j /\ wf (t n) /\ dims (t n) = [a; (i * j)%nat; c] /\
     forall A B b, (0 < b)%nat -> wf A -> dims A = [a; i; b] -> wf B -> dims B = [b; j; c] ->
    inner ds (amp (put2 k P A B)) (amp (bra n)) = sum4 a i j c (fun x y z w => kconj (joined A B x y z w) * get (t n) [x; (y + i * z)%nat; w])).
  { intros n Hn. unfold t, pairq. replace (k + 1)%nat with (S k) by lia. replace (k + 3)%nat with (S (S (S k))) by lia.
    apply (pair_term ws bras ds Hg k P n _ _ a i m j c); auto. }
  pose proof (bras_pos ws bras ds Hg) as Hnb.
  destruct (projector_sum_value ws nb t [a; (i * j)%nat; c] Hnb) as (T1 & T2 & T3).
  { intros n Hn. destruct (Ht n Hn) as (_ & _ & E1 & E2 & _). auto. }
  set (out := fold_left _ _ _) in *. destruct (Ht (nb - 1)%nat ltac:(lia)) as (E1 & E2 & _).
  assert (EL : local2 M k = reshape out [a; i; j; c]).
  { unfold local2. change (projector_sum ws bras _) with out. rewrite E1, E2. unfold dim. rewrite T2. reflexivity. }
  rewrite EL. apply (combine2 ws bras ds k P (reshape out [a; i; j; c]) t a i m j c Ho Hd Hk L4 L8).
  - apply wf_reshape; [exact T1|]. rewrite T2. unfold nprod. cbn [fold_right]. ring.
  - reflexivity.
  - intros x y z w Hx Hy Hz Hw. rewrite (get_reshape out _ _ [x; (y + i * z)%nat; w]) by (rewrite T2; cbn; ring).
    apply T3. apply in_range_3; try assumption. apply merge_lt; assumption.
  - intros n Hn. apply (Ht n Hn).
Qed.

(** ** One sweep *)
Definition path2 (d : bool) (k n : nat) : list nat := if d then seq k (S n) else rev (seq 1 (S n)).
Lemma path2_S d L k n : remaining d L k (S (S n)) -> path2 d k (S n) = k :: path2 d (if d then S k else (k - 1)%nat) n.
Proof.
  intros H. destruct d; cbn [path2 remaining] in *; [reflexivity|]. destruct H as (-> & _). rewrite seq_S, rev_app_distr. cbn [rev app Nat.add]. reflexivity.
Qed.

(** Both truncations of set_canonical_2_sites(canonicalize_both) keep something. *)
Definition nz2 (tol : R) (P : mps) : Prop := (flag <> 0%R /\ eff_tol flag tol <> 0%R) \/ overlap ws bras P <> 0.

Lemma opt_nonzero k P : fits P -> (k < length P)%nat -> opt ws bras k P -> overlap ws bras P <> 0 -> nonzero3 (site P k).
Proof.
  intros (Ho & _) Hk Hop Hn. destruct (site_dims P k Ho Hk) as (a & i & b & Hs & Hw & Ha & Hi & Hb).
  rewrite <- (replace_nth_site P k), <- (Hop (site P k) Hw eq_refl) in Hn. destruct (dot_nonzero _ _ Hn) as (x & Hx & Hne). rewrite Hs in Hx.
  apply in_range_cons_inv in Hx. destruct Hx as (x1 & l1 & -> & H1 & Hr1).
  apply in_range_cons_inv in Hr1. destruct Hr1 as (x2 & l2 & -> & H2 & Hr2).
  apply in_range_cons_inv in Hr2. destruct Hr2 as (x3 & l3 & -> & H3 & Hr3). apply in_range_nil_inv in Hr3. subst l3.
  exists x1, x2, x3. unfold dim. rewrite Hs. cbn [nth]. repeat split; auto. intros E. apply Hne. rewrite get_tconj, E. apply kconj_0.
Qed.

Lemma renvs_weaken k k' P M : (k <= k')%nat -> renvs bras k P M -> renvs bras k' P M.
Proof. intros H HR i r Hi Hr. apply HR; [exact Hi|lia]. Qed.
Lemma lenvs_weaken k k' P M : (k' <= k)%nat -> lenvs bras k P M -> lenvs bras k' P M.
Proof. intros H HR i r Hi Hr. apply HR; [exact Hi|lia]. Qed.

(** No other pair at kk, kk+1 with a bond of at most Dmax is closer. *)
Definition pbest (Dmax : Z) (kk : nat) (P : mps) : Prop :=
  forall A B b, (0 < b)%nat -> (Dmax <= 0 \/ Z.of_nat b <= Dmax)%Z -> wf A -> wf B ->
    dims A = [dim (site P kk) 0; dim (site P kk) 1; b] -> dims B = [b; dim (site P (S kk)) 1; dim (site P (S kk)) 2] ->
    (D2 P <= D2 (put2 kk P A B))%R.

Lemma two_step_ok Dmax tol d k k' P Pv A : fits Pv -> length P = length Pv -> agree2 (Nat.min k k') P Pv -> moved d (length Pv) k k' -> (k < length Pv)%nat ->
  rows_ok ds A -> envs k Pv (matrix A) -> nz2 tol Pv ->
  exists P' Pv' A', two_step svd flag ws bras Dmax tol (sgn d) (Ok (P, A)) k = Ok (P', A') /\
    cstepped ds d k k' Pv Pv' /\ length P' = length Pv' /\ site P' k = site Pv' k /\
    (if Nat.eqb k' (last_of d (length Pv)) then P' = Pv' else agree2 (if d then k' else (k' - 1)%nat) P' Pv') /\
    rows_ok ds A' /\ envs k' Pv' (matrix A') /\ nz2 tol Pv' /\ opt ws bras k' Pv' /\
    ((0 < Dmax)%Z -> (Z.of_nat (dim (site Pv' (S (Nat.min k k'))) 0) <= Dmax)%Z) /\
    (exact_tol flag tol -> (Dmax <= 0 \/ Z.of_nat (dim (site Pv (S (Nat.min k k'))) 0) <= Dmax)%Z -> canonical_at k Pv -> (D2 Pv' <= D2 Pv)%R) /\
    (overlap ws bras Pv <> 0 -> overlap ws bras Pv' <> 0) /\
    (exact_tol flag tol -> canonical_at k' Pv' -> pbest Dmax (Nat.min k k') Pv').
Proof.
  intros Hf Hl Hag Hm Hk HA HE Hn. pose proof Hf as (Ho & Hd). pose proof HE as (HE1 & HE2).
  set (kk := Nat.min k k') in *.
  assert (Hkk : (S kk < length Pv)%nat) by (unfold kk; destruct d; cbn in Hm; lia).
  assert (Hr : repr2 ws bras kk Pv (tconj (local2 (matrix A) kk))).
  { apply local2_ok; [exact Hf|exact Hkk|apply (lenvs_weaken k); [unfold kk; lia|exact HE1]|apply (renvs_weaken (S k)); [unfold kk; destruct d; cbn in Hm; lia|exact HE2]]. }
  assert (Hn1 : nz ws bras (eff_tol flag tol) Pv) by (destruct Hn as [(_ & Hn)|Hn]; [left|right]; exact Hn).
  destruct (double_core svd flag Hsvd ws bras ds Hg Dmax tol d k k' Pv (tconj (local2 (matrix A) kk)) Ho Hd Hk Hm Hr Hn1) as (Pv' & E & Hst & _ & Hop & Hbd & Hmono & Hke).
  assert (Hbest : exact_tol flag tol -> canonical_at k' Pv' -> pbest Dmax kk Pv').
  { intros He Hc A0 B0 b0 Hb HD HwA HwB HdA HdB. exact (core_best svd flag Hsvd ws bras ds Hg Dmax tol d k k' Pv _ Pv' Ho Hd Hk Hm Hr Hn1 E Hc He A0 B0 b0 Hb HD HwA HwB HdA HdB). }
  rewrite tconj_tconj in E. pose proof Hst as (O1 & D1 & Hk1 & Hl1 & _ & Hoth & Hdim1).
  assert (Hf1 : fits Pv') by (split; assumption).
  assert (Hn2 : nz2 tol Pv') by (destruct Hn as [Hn|Hn]; [left; exact Hn|right; apply Hke; exact Hn]).
  rewrite <- (two_agree P Pv) with (k' := k') in E; [|rewrite Hl; exact Hm|lia|exact Hag].
  apply two_false_true with (k' := k') in E; [|rewrite Hl; exact Hm|lia].
  assert (HP' : exists P', set_canonical svd flag Pv' (Z.of_nat k') (site Pv' k') (sgn d) true = Ok P' /\ length P' = length Pv' /\ site P' k = site Pv' k /\
     (if Nat.eqb k' (last_of d (length Pv)) then P' = Pv' else agree2 (if d then k' else (k' - 1)%nat) P' Pv')).
  { destruct (Nat.eqb_spec k' (last_of d (length Pv))) as [Ek|Ek].
    - rewrite (single_core_end svd flag true d k' Pv' (site Pv' k')) by (rewrite ?Hl1; assumption || lia). rewrite replace_nth_site. exists Pv'. auto.
    - assert (Hz : eff flag true <> 0%R \/ nonzero3 (site Pv' k')).
      { destruct Hn2 as [(Hz & _)|Hz]; [left; exact Hz|right; apply opt_nonzero; assumption]. }
      destruct d; cbn [moved last_of sgn] in *.
      + destruct Hm as (-> & Hm).
        destruct (set_canonical_right_ok3 svd flag Hsvd 1 1 Pv' (S k) (site Pv' (S k)) true) as (P' & EP & (_ & S2 & S3 & _) & _);
          [rewrite replace_nth_site; apply O1|lia|lia|exact Hz|]. rewrite replace_nth_site in *. pose proof (same_length _ _ S2) as S2'.
        exists P'. split; [exact EP|]. split; [exact S2'|]. split; [apply S3; lia|]. split; [exact S2'|]. intros q Q1 Q2. apply S3; assumption.
      + destruct k' as [|k']; [congruence|].
        destruct (set_canonical_left_ok3 svd flag Hsvd 1 1 Pv' k' (site Pv' (S k')) true) as (P' & EP & (_ & S2 & S3 & _) & _);
          [rewrite replace_nth_site; apply O1|lia|lia|exact Hz|]. rewrite replace_nth_site in *. pose proof (same_length _ _ S2) as S2'.
        exists P'. split; [exact EP|]. split; [exact S2'|]. split; [apply S3; lia|]. split; [exact S2'|]. intros q Q1 Q2. apply S3; lia. }
  destruct HP' as (P' & EP & Hl' & Hsk & Hag').
  destruct (matrix_update bras A k (site P' k) d) as (U1 & U2).
  { unfold rows_ok in HA. assert (length Pv = length ds) by (rewrite <- Hd; symmetry; apply length_pdims). lia. }
  exists P', Pv', (update_matrices bras A k (site P' k) (sgn d)). split; [|split; [exact Hst|split; [exact Hl'|split; [exact Hsk|split; [exact Hag'|split; [unfold rows_ok in *; congruence|split; [|split; [exact Hn2|split; [exact Hop|split; [exact Hbd|split; [exact Hmono|split; [exact Hke|exact Hbest]]]]]]]]]]]].
  - unfold two_step. cbn [bind]. replace (if (0 <? sgn d)%Z then k else (k - 1)%nat) with kk by (unfold kk; destruct d; cbn in Hm |- *; lia).
    change (next_projector_2_sites ws bras A kk) with (local2 (matrix A) kk). rewrite E, EP. cbn [bind]. rewrite site_at_nat by lia. reflexivity.
  - rewrite Hsk in U1 |- *. apply (envs_step ws bras ds Hg d k k' Pv Pv' (matrix A) _ Hf1 Hl1 Hm Hk Hoth HE U1).
Qed.

Lemma two_sweep_ok Dmax tol (d : bool) n : forall k P Pv A, fits Pv -> length P = length Pv -> agree2 (if d then k else (k - 1)%nat) P Pv ->
  remaining d (length Pv) k (S n) -> rows_ok ds A -> envs k Pv (matrix A) -> behind d k Pv -> nz2 tol Pv ->
  exists P' A', fold_left (two_step svd flag ws bras Dmax tol (sgn d)) (path2 d k n) (Ok (P, A)) = Ok (P', A') /\
    fits P' /\ length P' = length Pv /\ rows_ok ds A' /\ envs (last_of d (length Pv)) P' (matrix A') /\ canonical_at (last_of d (length Pv)) P' /\
    opt ws bras (last_of d (length Pv)) P' /\ nz2 tol P' /\
    (forall j, ~ ahead d k j -> (dim (site P' j) 0 <= dim (site Pv j) 0)%nat) /\
    ((0 < Dmax)%Z -> forall j, (0 < j < length Pv)%nat -> ahead d k j -> (Z.of_nat (dim (site P' j) 0) <= Dmax)%Z) /\
    (exact_tol flag tol -> (Dmax <= 0 \/ forall j, (0 < j < length Pv)%nat -> Z.of_nat (dim (site Pv j) 0) <= Dmax)%Z -> behind (negb d) k Pv -> (D2 P' <= D2 Pv)%R) /\
    (overlap ws bras Pv <> 0 -> overlap ws bras P' <> 0) /\
    (exact_tol flag tol -> pbest Dmax (if d then (length Pv - 2)%nat else 0%nat) P').
Proof.
  induction n as [|n IH]; intros k P Pv A Hf Hl Hag Hr HA HE Hb Hn;
    set (k' := if d then S k else (k - 1)%nat);
    assert (Hmv : moved d (length Pv) k k') by (unfold k'; destruct d; cbn in *; lia);
    assert (Hk : (k < length Pv)%nat) by (destruct d; cbn in *; lia);
    assert (Hkk : Nat.min k k' = if d then k else (k - 1)%nat) by (unfold k'; destruct d; cbn in *; lia);
    rewrite <- Hkk in Hag;
    destruct (two_step_ok Dmax tol d k k' P Pv A Hf Hl Hag Hmv Hk HA HE Hn) as (P1 & Pv1 & A1 & E & Hst & Hl1 & Hsk & Hag1 & HA1 & HE1 & Hn1 & Hop1 & Hbd & Hmono & Hke & Hbest);
    pose proof Hst as (O1 & D1 & Hk1 & Hlv & _ & Hoth & Hdim1);
    assert (Hf1 : fits Pv1) by (split; assumption);
    pose proof (cstepped_behind ds d k k' Pv Pv1 Hmv Hst Hb) as Hb1;
    assert (Hah : forall j, ahead d k j <-> j = S (Nat.min k k') \/ ahead d k' j) by (intros j; unfold k'; destruct d; cbn in *; lia);
    assert (Hmm : (0 < S (Nat.min k k') < length Pv)%nat) by (unfold k'; destruct d; cbn in *; lia).
  - assert (Hk' : k' = last_of d (length Pv)) by (unfold k'; destruct d; cbn in *; lia). rewrite Hk', Nat.eqb_refl in Hag1. subst P1.
    assert (Ep : path2 d k 0 = [k]) by (destruct d; cbn in *; [reflexivity|]; f_equal; lia). rewrite Ep. cbn [fold_left].
    exists Pv1, A1. split; [exact E|]. split; [exact Hf1|]. split; [exact Hlv|]. split; [exact HA1|]. rewrite <- Hk'. split; [exact HE1|].
    assert (Hcan1 : canonical_at k' Pv1) by (rewrite Hk', <- Hlv; apply behind_last; rewrite Hlv, <- Hk'; exact Hb1).
    split; [exact Hcan1|].
    split; [exact Hop1|]. split; [exact Hn1|]. split; [|split; [|split; [|split; [exact Hke|]]]].
    + intros j Hj. apply Hdim1. intros ->. apply Hj. apply Hah. left. reflexivity.
    + intros HD j Hj Haj. apply Hah in Haj. destruct Haj as [->|Haj]; [apply Hbd; exact HD|]. rewrite Hk' in Haj. destruct d; cbn in *; lia.
    + intros He HD Hb2. apply Hmono; [exact He| |apply (behind_both d); split; assumption].
      destruct HD as [HD|HD]; [left; exact HD|right; apply HD; exact Hmm].
    + intros He. replace (if d then (length Pv - 2)%nat else 0%nat) with (Nat.min k k') by (unfold k'; destruct d; cbn in *; lia). exact (Hbest He Hcan1).
  - destruct (Nat.eqb_spec k' (last_of d (length Pv))) as [E0|_]; [exfalso; unfold k' in E0; destruct d; cbn in *; lia|].
    rewrite (path2_S d (length Pv) k n Hr). fold k'. cbn [fold_left].
    destruct (IH k' P1 Pv1 A1 Hf1 Hl1) as (P' & A' & E' & Hf' & Hl' & HA' & HE' & Hc' & Hop' & Hn' & Hd1 & Hd2 & Hmono' & Hke' & Hbest');
      [exact Hag1|rewrite Hlv; unfold k'; destruct d; cbn in *; lia|exact HA1|exact HE1|exact Hb1|exact Hn1|].
    rewrite Hlv in *. exists P', A'. rewrite E. split; [exact E'|]. repeat (split; [assumption|]). split; [|split; [|split; [|split; [intros Hne; apply Hke', Hke, Hne|exact Hbest']]]].
    + intros j Hj. assert (Hj1 : ~ ahead d k' j) by (intros H; apply Hj; apply Hah; auto). assert (Hj2 : j <> S (Nat.min k k')) by (intros H; apply Hj; apply Hah; auto).
      eapply Nat.le_trans; [apply Hd1; exact Hj1|apply Hdim1; exact Hj2].
    + intros HD j Hj Haj. apply Hah in Haj. destruct Haj as [->|Haj]; [|apply Hd2; assumption].
      assert (Hna : ~ ahead d k' (S (Nat.min k k'))) by (unfold k'; destruct d; cbn in *; lia).
      pose proof (Hd1 _ Hna) as H1. pose proof (Hbd HD) as H2. lia.
    + intros He HD Hb2. eapply Rle_trans; [apply Hmono'; [exact He| |apply (cstepped_front ds d k k' Pv Pv1); assumption]|].
      * destruct HD as [HD|HD]; [left; exact HD|]. destruct (Z.leb_spec Dmax 0); [left; lia|right]. intros j Hj.
        destruct (Nat.eq_dec j (S (Nat.min k k'))) as [->|Hne]; [apply Hbd; lia|]. pose proof (Hdim1 j Hne). pose proof (HD j Hj). lia.
      * apply Hmono; [exact He| |apply (behind_both d); split; assumption].
        destruct HD as [HD|HD]; [left; exact HD|right; apply HD; exact Hmm].
Qed.
End Sweep.
