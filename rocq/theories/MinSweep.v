(** * The sweeps and the loop of minimize() *)
From Coq Require Import Reals Lra Bool List Arith ZArith Lia Ring.
From Verif Require Import Scalar ScalarFacts RScal Tensor TensorFacts Spec MpsModel MpsFacts StateFacts StateFacts2 MpoSpec MpoFacts CanonSpec CanonModel
  TruncFacts SplitFacts CanonFacts CanonSweep CanonNorm CanonProps CanonTwo SweepFacts FormModel FormSpec LFormFacts QFormFacts QFormInv QFormValue QFormMain
  SimplifySpec SimplifyModel SimplifyFacts SimplifyStep SimplifyPair SimplifyDouble MinimizerModel MinLive MinimizeSpec MinLocal MinStep.
Import ListNotations.
Local Open Scope K_scope.

Section Sweep.
Context {RS : RScal}.
Add Ring Kring : k_ring.
Variable svd : tensor -> tensor * list R * tensor.
Variable flag : R.
Hypothesis Hsvd : svd_contract svd.
Variable eigs : (tensor -> result tensor) -> nat -> nat -> tensor -> result (list K * tensor * bool).
Hypothesis Heigs : eigs_contract eigs.
Variables (H : mpo) (ds : list nat).
Hypothesis HH : hamiltonian H ds.
Variable b : nat -> nat.
Hypothesis Hb : path H b.
Notation good := (good H ds b).
Notation W P := (weight ds (amp P)).
Notation En P := (energy H P).
Notation bond m j := (dim (site (mz_psi m) j) 0).

(** What a sweep that converged does, [exact] if nothing is truncated, [B] a property of the bonds, [touch] those it sets. *)
Definition lout (exact : Prop) (vary : mps -> mps -> Prop) (touch : nat -> Prop) (B : nat -> mps -> Prop) (m m' : minimizer) (kend : nat) (e : R) : Prop :=
  good kend m' /\ (forall lb, lower_bound H ds lb -> (lb <= e)%R) /\
  (0 < W (mz_psi m') <= 1)%R /\ (exact -> W (mz_psi m') = 1%R /\ En (mz_psi m') = e /\ (e * W (mz_psi m) <= En (mz_psi m))%R) /\
  (forall phi, open_mps phi -> pdims phi = ds -> vary (mz_psi m') phi -> (e * W phi <= En phi)%R) /\
  forall j, B j (mz_psi m) \/ touch j -> B j (mz_psi m').

Section Loop.
Variable step : minimizer -> nat -> result (minimizer * R).
Variable nx : nat -> nat.
Variable exact : Prop.
Variable vary : nat -> mps -> mps -> Prop.
Variable touch : nat -> nat -> Prop.
Variable B : nat -> mps -> Prop.
Variables (d : bool) (L : nat).

Fixpoint route (ks : list nat) (k kend : nat) : Prop :=
  match ks with [] => k = kend | k1 :: ks => k1 = k /\ route ks (nx k) kend end.

Definition step_fine (k : nat) : Prop := forall m, good k m -> mz_step m = sgn d -> length (mz_psi m) = L ->
  exists m' e, step m k = Ok (m', e) /\ mz_step m' = sgn d /\ length (mz_psi m') = L /\ (eigs_converges eigs -> mz_converged m' = true) /\
    (mz_converged m' = true -> sout H ds b exact (vary k) m m' (nx k) e /\ forall j, B j (mz_psi m) \/ touch k j -> B j (mz_psi m')).

Lemma loop_fine ks : forall k0 k kend m E0, route (ks ++ [k]) k0 kend -> (forall q, In q (ks ++ [k]) -> step_fine q) ->
  good k0 m -> mz_step m = sgn d -> length (mz_psi m) = L -> mz_converged m = true ->
  exists m' e, site_loop step (ks ++ [k]) m E0 = Ok (m', Some e) /\ mz_step m' = sgn d /\ length (mz_psi m') = L /\ (eigs_converges eigs -> mz_converged m' = true) /\
    (mz_converged m' = true -> lout exact (vary k) (fun j => exists q, In q (ks ++ [k]) /\ touch q j) B m m' kend e).
Proof.
  induction ks as [|k1 ks IH]; intros k0 k kend m E0 HR HF Hg Hst HL Hcv.
  - cbn [app route] in HR. destruct HR as (-> & <-). destruct (HF k0 (or_introl eq_refl) m Hg Hst HL) as (m' & e & ES & Hst' & HL' & HCC & HS).
    cbn [app site_loop]. rewrite Hcv, ES. cbn [bind site_loop].
    exists m', e. split; [reflexivity|]. split; [exact Hst'|]. split; [exact HL'|]. split; [exact HCC|]. intros Hc. destruct (HS Hc) as ((S1 & S2 & S3 & S4 & SW & S5 & S6) & S7).
    split; [exact S1|]. split; [exact S3|]. split; [exact SW|]. split; [intros He; destruct (S5 He); auto|]. split; [exact S6|].
    intros j [Hj|(q & [<-|[]] & Hq)]; apply S7; auto.
  - cbn [app route] in HR. destruct HR as (-> & HR). destruct (HF k0 (or_introl eq_refl) m Hg Hst HL) as (m1 & e1 & ES & Hst' & HL' & HCC & HS).
    cbn [app site_loop]. rewrite Hcv, ES. cbn [bind].
    destruct (mz_converged m1) eqn:Hc1.
    2:{ exists m1, e1. assert (E : site_loop step (ks ++ [k]) m1 (Some e1) = Ok (m1, Some e1)) by (destruct ks; cbn [app site_loop]; rewrite Hc1; reflexivity).
        split; [exact E|]. split; [exact Hst'|]. split; [exact HL'|]. rewrite Hc1. split; [exact HCC|]. intros E0'. discriminate E0'. }
    destruct (HS eq_refl) as ((S1 & S2 & S3 & S4 & SW & S5 & S6) & S7).
    destruct (IH (nx k0) k kend m1 (Some e1) HR) as (m' & e & EL & A1 & A2 & AC & A3); auto.
    { intros q Hq. apply HF. right. exact Hq. }
    exists m', e. split; [exact EL|]. split; [exact A1|]. split; [exact A2|]. split; [exact AC|]. intros Hc. destruct (A3 Hc) as (B1 & B2 & BW & B3 & B4 & B5).
    split; [exact B1|]. split; [exact B2|]. split; [exact BW|]. split; [|split; [exact B4|]].
    + intros He. destruct (S5 He) as (U1 & U2). destruct (B3 He) as (V1 & V2 & V3). split; [exact V1|]. split; [exact V2|].
      rewrite U1, U2, Rmult_1_r in V3. pose proof (rinj_weight ds (amp (mz_psi m))).
      pose proof (weight_nonneg ds (amp (mz_psi m))). nra.
    + intros j [Hj|(q & [<-|Hq] & Ht)].
      * apply B5. left. apply S7. left. exact Hj.
      * apply B5. left. apply S7. right. exact Ht.
      * apply B5. right. exists q. auto.
Qed.
End Loop.

Lemma route_right (nx : nat -> nat) kend : forall n s, (forall k, (s <= k)%nat -> (S k < s + n)%nat -> nx k = S k) -> (0 < n)%nat -> nx (s + n - 1)%nat = kend -> route nx (seq s n) s kend.
Proof.
  induction n as [|n IH]; intros s Hnx Hn He; [lia|]. cbn [seq route]. split; [reflexivity|].
  destruct n as [|n]; [cbn [seq route]; rewrite <- He; f_equal; lia|].
  rewrite Hnx by lia. apply IH; [intros k H1 H2; apply Hnx; lia|lia|]. rewrite <- He. f_equal. lia.
Qed.
Lemma route_left (nx : nat -> nat) kend s : forall n, (forall k, (s < k)%nat -> (k < s + n)%nat -> nx k = pred k) -> (0 < n)%nat -> nx s = kend -> route nx (rev (seq s n)) (s + n - 1) kend.
Proof.
  induction n as [|n IH]; intros Hnx Hn He; [lia|]. rewrite seq_S, rev_app_distr. cbn [rev app route]. split; [lia|].
  destruct n as [|n]; [cbn [seq rev route]; rewrite <- He; f_equal; lia|].
  rewrite Hnx by lia. replace (pred (s + S (S n) - 1))%nat with (s + S n - 1)%nat by lia. apply IH; [intros k H1 H2; apply Hnx; lia|lia|exact He].
Qed.

(** The site where a sweep starts *)
Definition start (d : bool) (L : nat) : nat := if d then 0%nat else (L - 1)%nat.

Lemma exact_tol_iff tol : exact_tol flag tol <-> no_truncation (tolerance_used flag tol).
Proof.
  unfold exact_tol, exact_flag, no_truncation, tolerance_used, eff_tol. destruct (Rlt_dec tol 0) as [Hl|Hl].
  - destruct (Rltb tol 0) eqn:E; [reflexivity|]. apply Rltb_false in E. lra.
  - destruct (Rltb tol 0) eqn:E; [|reflexivity]. apply Rltb_true in E. lra.
Qed.

Lemma seq_rev_last s n : (0 < n)%nat -> exists l, rev (seq s n) = l ++ [s] /\ forall q, In q (rev (seq s n)) <-> In q (seq s n).
Proof.
  intros Hn. destruct n as [|n]; [lia|]. exists (rev (seq (S s) n)). split; [reflexivity|]. intros q. rewrite <- in_rev. reflexivity.
Qed.

Lemma one_sweep o d m L cap : o_Dmax o = 0%Z -> gap_ok eigs ds o -> (0 < L)%nat ->
  good (start d L) m -> mz_step m = sgn d -> length (mz_psi m) = L -> mz_converged m = true ->
  exists m' e, single_site_sweep svd flag eigs o m = Ok (m', e) /\ mz_step m' = sgn (negb d) /\ length (mz_psi m') = L /\ (eigs_converges eigs -> mz_converged m' = true) /\
    (mz_converged m' = true ->
     lout True (fun P' phi => differs_at P' phi (start (negb d) L)) (fun _ => False)
       (fun j P => (dim (site P j) 0 <= cap j)%nat) m m' (start (negb d) L) e).
Proof.
  intros HD Hgap HL0 Hg Hst HL Hcv.
  set (step := single_site_step svd flag eigs o).
  set (vary := fun k P' phi => nxt d L k = k /\ differs_at P' phi k).
  set (B := fun j P => (dim (site P j) 0 <= cap j)%nat).
  assert (HF : forall q, step_fine step (nxt d L) True vary (fun _ _ => False) B d L q).
  { intros q m0 G1 G2 G3. destruct (one_step svd flag Hsvd eigs Heigs H ds HH b Hb o d m0 q HD Hgap G1 G2) as (m1 & e & ES & F1 & F2 & FC & F3).
    cbv zeta in *. rewrite G3 in *. exists m1, e. split; [exact ES|]. split; [exact F1|]. split; [exact F2|]. split; [exact FC|]. intros Hc. destruct (F3 Hc) as (S1 & S2).
    split; [exact S1|]. intros j [Hj|[]]. unfold B in *. specialize (S2 j). lia. }
  assert (HR : exists ks, (if d then seq 0 L else rev (seq 0 L)) = ks ++ [start (negb d) L] /\ route (nxt d L) (ks ++ [start (negb d) L]) (start d L) (start (negb d) L)).
  { destruct d; cbn [start negb].
    - exists (seq 0 (L - 1)). assert (E : seq 0 L = seq 0 (L - 1) ++ [(L - 1)%nat]).
      { replace L with (S (L - 1)) at 1 by lia. rewrite seq_S. reflexivity. }
      split; [exact E|]. rewrite <- E. apply route_right; [|exact HL0|].
      + intros k _ Hk. unfold nxt. destruct (Nat.eqb_spec (S k) L); lia.
      + unfold nxt. destruct (Nat.eqb_spec (S (0 + L - 1)) L); lia.
    - destruct (seq_rev_last 0 L HL0) as (l & E & _). exists l. split; [exact E|]. rewrite <- E. apply (route_left _ _ 0 L); [|exact HL0|reflexivity].
      intros k H1 H2. reflexivity. }
  destruct HR as (ks & Eks & HR).
  destruct (loop_fine step (nxt d L) True vary (fun _ _ => False) B d L ks (start d L) (start (negb d) L) (start (negb d) L) m None HR (fun q _ => HF q) Hg Hst HL Hcv)
    as (m' & e & EL & A1 & A2 & AC & A3).
  exists (mz_set_step m' (sgn (negb d))), e. split.
  - unfold single_site_sweep. cbv zeta. rewrite HL, Hst. replace (0 <? sgn d)%Z with d by (destruct d; reflexivity). rewrite Eks. fold step. rewrite EL.
    cbn [bind known]. destruct d; reflexivity.
  - split; [reflexivity|]. split; [exact A2|]. cbn [mz_converged mz_set_step]. split; [exact AC|]. intros Hc. destruct (A3 Hc) as (B1 & B2 & BW & B3 & B4 & B5).
    split; [exact B1|]. split; [exact B2|]. split; [exact BW|]. split; [exact B3|]. split.
    + intros phi O1 D1 Hv. apply B4; try assumption. split; [|exact Hv]. unfold nxt. destruct d; cbn [start negb]; [|reflexivity].
      destruct (Nat.eqb_spec (S (L - 1)) L); lia.
    + intros j [Hj|[]]. apply B5. left. exact Hj.
Qed.

Lemma two_sweep o d m L : gap_ok eigs ds o -> (2 <= L)%nat ->
  good (start d L) m -> mz_step m = sgn d -> length (mz_psi m) = L -> mz_converged m = true ->
  exists m' e, two_site_sweep svd flag eigs o m = Ok (m', e) /\ mz_step m' = sgn (negb d) /\ length (mz_psi m') = L /\ (eigs_converges eigs -> mz_converged m' = true) /\
    (mz_converged m' = true ->
     lout ((o_Dmax o <= 0)%Z /\ exact_tol flag (o_svd_tolerance o)) (fun P' phi => differs_at2 P' phi (if d then L - 2 else 0)%nat) (fun j => 0 < j < L)%nat
       (fun j P => (0 < o_Dmax o)%Z -> (Z.of_nat (dim (site P j) 0) <= o_Dmax o)%Z) m m' (start (negb d) L) e).
Proof.
  intros Hgap HL0 Hg Hst HL Hcv.
  set (step := two_site_step svd flag eigs o).
  set (nx := fun k => if d then S k else pred k).
  set (vary := fun k P' phi => differs_at2 P' phi (Nat.min k (nx k))).
  set (B := fun j P => (0 < o_Dmax o)%Z -> (Z.of_nat (dim (site P j) 0) <= o_Dmax o)%Z).
  set (touch := fun k j => j = S (Nat.min k (nx k))).
  set (ex := (o_Dmax o <= 0)%Z /\ exact_tol flag (o_svd_tolerance o)).
  assert (HF : forall q, (if d then (S q < L)%nat else (0 < q < L)%nat) -> step_fine step nx ex vary touch B d L q).
  { intros q Hq m0 G1 G2 G3. assert (Hm : moved d (length (mz_psi m0)) q (nx q)) by (rewrite G3; unfold nx; destruct d; cbn [moved]; lia).
    destruct (two_step svd flag Hsvd eigs Heigs H ds HH b Hb o d m0 q (nx q) Hgap G1 G2 Hm) as (m1 & e & ES & F1 & F2 & FC & F3).
    cbv zeta in *. rewrite G3 in *. exists m1, e. split; [exact ES|]. split; [exact F1|]. split; [exact F2|]. split; [exact FC|]. intros Hc. destruct (F3 Hc) as (S1 & S2 & S3).
    split; [exact S1|]. intros j Hj. unfold B in *. intros HDm. destruct (Nat.eq_dec j (S (Nat.min q (nx q)))) as [->|Hne].
    - apply S2. exact HDm.
    - destruct Hj as [Hj|Hj]; [|unfold touch in Hj; contradiction]. specialize (Hj HDm). specialize (S3 j Hne). lia. }
  set (kl := if d then (L - 2)%nat else 1%nat).
  assert (HR : exists ks, (if d then seq 0 (L - 1) else rev (seq 1 (L - 1))) = ks ++ [kl] /\ route nx (ks ++ [kl]) (start d L) (start (negb d) L) /\
     forall q, In q (ks ++ [kl]) <-> (if d then (S q < L)%nat else (0 < q < L)%nat)).
  { unfold kl. destruct d; cbn [start negb].
    - exists (seq 0 (L - 2)). assert (E : seq 0 (L - 1) = seq 0 (L - 2) ++ [(L - 2)%nat]).
      { replace (L - 1)%nat with (S (L - 2)) at 1 by lia. rewrite seq_S. reflexivity. }
      split; [exact E|]. rewrite <- E. split.
      + apply route_right; [|lia|]; unfold nx; intros; lia.
      + intros q. rewrite in_seq. lia.
    - destruct (seq_rev_last 1 (L - 1) ltac:(lia)) as (l & E & Hin). exists l. split; [exact E|]. rewrite <- E. split.
      + replace (L - 1)%nat with (1 + (L - 1) - 1)%nat at 2 by lia. apply route_left; [|lia|reflexivity]. intros k H1 H2. reflexivity.
      + intros q. rewrite Hin, in_seq. lia. }
  destruct HR as (ks & Eks & HR & Hin).
  destruct (loop_fine step nx ex vary touch B d L ks (start d L) kl (start (negb d) L) m None HR (fun q Hq => HF q (proj1 (Hin q) Hq)) Hg Hst HL Hcv)
    as (m' & e & EL & A1 & A2 & AC & A3).
  exists (mz_set_step m' (sgn (negb d))), e. split.
  - unfold two_site_sweep. cbv zeta. rewrite HL, Hst. replace (0 <? sgn d)%Z with d by (destruct d; reflexivity). rewrite Eks. fold step. rewrite EL.
    cbn [bind known]. destruct d; reflexivity.
  - split; [reflexivity|]. split; [exact A2|]. cbn [mz_converged mz_set_step]. split; [exact AC|]. intros Hc. destruct (A3 Hc) as (B1 & B2 & BW & B3 & B4 & B5).
    split; [exact B1|]. split; [exact B2|]. split; [exact BW|]. split; [exact B3|]. split.
    + intros phi O1 D1 Hv. apply B4; try assumption. unfold vary, nx, kl. destruct d.
      * replace (Nat.min (L - 2) (S (L - 2))) with (L - 2)%nat by lia. exact Hv.
      * exact Hv.
    + intros j [Hj|Hj]; apply B5; [left; exact Hj|right]. destruct d.
      * exists (j - 1)%nat. split; [apply Hin; lia|]. unfold touch, nx. lia.
      * exists j. split; [apply Hin; lia|]. unfold touch, nx. lia.
Qed.
End Sweep.
