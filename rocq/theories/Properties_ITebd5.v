(** * C63: cases of the theorems about canonical forms, and where the canonical form fails *)
From Coq Require Import Reals Lra Bool List Arith ZArith Lia Ring Classical.
From Verif Require Import Scalar ScalarFacts RealInst RScal Tensor TensorFacts Spec SparseSpec MpsModel MpsFacts EnvFacts CanonModel CanonSpec CanonFacts CanonSweep SplitFacts SvdExist SvdEconomic SpectralExist ITebdModel ITebdSpec ITebdFacts ITebdSlow ITebdSpec2 ITebdGauge ITebdCanon ITebdCanon2 ITebdEig Properties_ITebd Properties_ITebd2 Properties_ITebd4.
Import ListNotations.

(** Neighbouring cells share a pair of particles in the state |00> + |11>, and the second particle of each pair goes
    through the matrix g = (p q; r s): A(a,i,0) = g(a,i), B(0,j,b) = delta(j,b) *)
Definition gpairA (p q r s : R) : RT := rt [2; 2; 1] [p; r; q; s]%R.
Definition gpairB : RT := rt [1; 2; 2] [1; 0; 0; 1]%R.
Definition gpair (p q r s : R) : @itebd RR := @mkI RR (gpairA p q r s) [1]%R gpairB [1; 1]%R (gpairA p q r s) gpairB false.
Definition gg (p q r s : R) (a b : nat) : R :=
  match a, b with 0, 0 => (p * p + q * q)%R | 1, 1 => (r * r + s * s)%R | _, _ => (p * r + q * s)%R end.

Lemma gpair_wf p q r s : wf_itebd (gpair p q r s).
Proof.
  exists 2%nat, 1%nat, 2%nat, 2%nat. repeat (split; [first [lia|reflexivity]|]). split.
  - intros a i b Ha Hi Hb. destruct b as [|]; [|lia]. destruct i as [|[|]]; [| |lia]; (destruct a as [|[|]]; [| |lia]); cbv -[Rplus Rmult Ropp IZR]; lra.
  - intros a i b Ha Hi Hb. destruct a as [|]; [|lia]. destruct i as [|[|]]; [| |lia]; (destruct b as [|[|]]; [| |lia]); cbv -[Rplus Rmult Ropp IZR]; lra.
Qed.

Lemma gpair_right p q r s M a b : (a < 2)%nat -> (b < 2)%nat -> @right_map RR (gpair p q r s) M a b = (gg p q r s a b * (M 0%nat 0%nat + M 1%nat 1%nat))%R.
Proof.
  intros Ha Hb. destruct a as [|[|]]; [| |lia]; (destruct b as [|[|]]; [| |lia]); cbv -[Rplus Rmult Ropp IZR]; ring.
Qed.
Lemma gpair_left p q r s M a b : (a < 2)%nat -> (b < 2)%nat -> @left_map RR (gpair p q r s) M a b =
  (if Nat.eqb a b then gg p q r s 0 0 * M 0%nat 0%nat + gg p q r s 0 1 * (M 0%nat 1%nat + M 1%nat 0%nat) + gg p q r s 1 1 * M 1%nat 1%nat else 0)%R.
Proof.
  intros Ha Hb. destruct a as [|[|]]; [| |lia]; (destruct b as [|[|]]; [| |lia]); cbv -[Rplus Rmult Ropp IZR]; ring.
Qed.

Lemma classic_nonzero n (G : nat -> nat -> R) : (exists i j, (i < n)%nat /\ (j < n)%nat /\ G i j <> 0%R) \/ forall i j, (i < n)%nat -> (j < n)%nat -> G i j = 0%R.
Proof.
  destruct (classic (exists i j, (i < n)%nat /\ (j < n)%nat /\ G i j <> 0%R)) as [H|N]; [left; exact H|right].
  intros i j Hi Hj. destruct (Req_dec (G i j) 0) as [E|E]; [exact E|destruct N; exists i, j; auto].
Qed.

(** A map of rank one has one eigenvalue that is not zero. *)
Lemma rank_one (n : nat) (F : (nat -> nat -> R) -> nat -> nat -> R) (G : nat -> nat -> R) (h : (nat -> nat -> R) -> R) eta :
  (forall M a b, (a < n)%nat -> (b < n)%nat -> F M a b = G a b * h M)%R -> (forall c M M', (forall a b, (a < n)%nat -> (b < n)%nat -> M a b = c * M' a b)%R -> h M = (c * h M')%R) ->
  (0 < eta)%R -> h G = eta -> @dominates RR n F eta G.
Proof.
  intros HF Hh He Hg. split.
  - split.
    + destruct (classic_nonzero n G) as [H|H]; [exact H|]. exfalso. assert (E : h G = (0 * h G)%R) by (apply Hh; intros a b Ha Hb; rewrite (H a b Ha Hb); ring). lra.
    + intros i j Hi Hj. rewrite HF by assumption. rewrite Hg. apply Rmult_comm.
  - intros mu M ((a & b & Ha & Hb & Hne) & HM) Hmu. cbn in mu, HM, Hmu.
    assert (Hmu0 : mu <> 0%R) by (intros ->; nra).
    assert (E : forall i j, (i < n)%nat -> (j < n)%nat -> M i j = ((h M / mu) * G i j)%R).
    { intros i j Hi Hj. specialize (HM i j Hi Hj). rewrite HF in HM by assumption. apply (Rmult_eq_reg_l mu); [|exact Hmu0]. rewrite <- HM. field. exact Hmu0. }
    pose proof (Hh _ _ _ E) as E2. rewrite Hg in E2.
    assert (HhM : h M <> 0%R). { intros H0. apply Hne. rewrite (E a b Ha Hb), H0. cbn. unfold Rdiv. ring. }
    split.
    + cbn. apply (Rmult_eq_reg_l (h M)); [|exact HhM]. rewrite E2 at 1. field. exact Hmu0.
    + exists (h M / mu)%R. exact E.
Qed.

Lemma gpair_dominates p q r s : (0 < gg p q r s 0 0 + gg p q r s 1 1)%R ->
  @dominates RR 2 (right_map (gpair p q r s)) (gg p q r s 0 0 + gg p q r s 1 1)%R (gg p q r s) /\
  @dominates RR 2 (left_map (gpair p q r s)) (gg p q r s 0 0 + gg p q r s 1 1)%R (fun a b => if Nat.eqb a b then 1%R else 0%R).
Proof.
  intros He. split.
  - apply (rank_one 2 _ _ (fun M => M 0%nat 0%nat + M 1%nat 1%nat)%R).
    + intros M a b Ha Hb. apply gpair_right; assumption.
    + intros c M M' H. rewrite !H by lia. ring.
    + exact He.
    + reflexivity.
  - apply (rank_one 2 _ _ (fun M => gg p q r s 0 0 * M 0%nat 0%nat + gg p q r s 0 1 * (M 0%nat 1%nat + M 1%nat 0%nat) + gg p q r s 1 1 * M 1%nat 1%nat)%R).
    + intros M a b Ha Hb. rewrite gpair_left by assumption. destruct (Nat.eqb a b); ring.
    + intros c M M' H. rewrite !H by lia. ring.
    + exact He.
    + cbn [Nat.eqb]. ring.
Qed.

Lemma gpair_primitive : primitive (gpair 1 1 0 1).
Proof.
  destruct (gpair_dominates 1 1 0 1) as [H1 H2]; [cbn; lra|].
  exists (gg 1 1 0 1 0 0 + gg 1 1 0 1 1 1)%R, (gg 1 1 0 1), (fun a b => if Nat.eqb a b then 1%R else 0%R).
  split; [cbn; lra|]. split; [|split; [|split; assumption]].
  - split.
    + intros i j Hi Hj. cbn in Hi, Hj. destruct i as [|[|]]; [| |lia]; (destruct j as [|[|]]; [| |lia]); reflexivity.
    + intros v (i & Hi & Hv). cbn in Hi. assert (H : (v 0%nat <> 0 \/ v 1%nat <> 0)%R) by (destruct i as [|[|]]; [left; exact Hv|right; exact Hv|lia]).
      generalize dependent v. intros v Hv H. cbv -[Rplus Rmult Ropp IZR Rlt]. set (x := v 0%nat) in *. set (y := v 1%nat) in *. cbn in x, y.
      assert (0 < x * x + (x + y) * (x + y))%R; [|nra].
      pose proof (Rle_0_sqr x) as Q1. pose proof (Rle_0_sqr (x + y)) as Q2. unfold Rsqr in Q1, Q2.
      destruct (Req_dec x 0) as [->|Hx]; [|pose proof (Rsqr_pos_lt x Hx) as Q3; unfold Rsqr in Q3; lra].
      assert (Hy : y <> 0%R) by (destruct H; [contradiction|assumption]). pose proof (Rsqr_pos_lt y Hy) as Q3; unfold Rsqr in Q3. lra.
  - split.
    + intros i j Hi Hj. cbn in Hi, Hj. destruct i as [|[|]]; [| |lia]; (destruct j as [|[|]]; [| |lia]); reflexivity.
    + intros v (i & Hi & Hv). cbn in Hi. assert (H : (v 0%nat <> 0 \/ v 1%nat <> 0)%R) by (destruct i as [|[|]]; [left; exact Hv|right; exact Hv|lia]).
      generalize dependent v. intros v Hv H. cbv -[Rplus Rmult Ropp IZR Rlt]. set (x := v 0%nat) in *. set (y := v 1%nat) in *. cbn in x, y.
      pose proof (Rle_0_sqr x) as Q1. pose proof (Rle_0_sqr y) as Q2. unfold Rsqr in Q1, Q2.
      destruct H as [H|H]; pose proof (Rsqr_pos_lt _ H) as Q3; unfold Rsqr in Q3; lra.
Qed.

(** The theorems of C63 apply to a state whose cell bonds are not orthonormal: canonical_form returns the same state
    with orthonormal bonds. *)
Theorem C63_case : exists (svd : RT -> RT * list R * RT) eigs eig_sym, svd_contract svd /\ eigs_largest eigs /\ eigs_sized eigs /\ eig_sym_contract eig_sym /\
  wf_itebd (gpair 1 1 0 1) /\ primitive (gpair 1 1 0 1) /\ ~ right_ok (gpair 1 1 0 1) /\
  exists psi', canonical_form svd eigs eig_sym (gpair 1 1 0 1) = Ok psi' /\ left_ok psi' /\ right_ok psi' /\ same_state (gpair 1 1 0 1) psi'.
Proof.
  destruct (@svd_contract_satisfiable RR) as (svd & Hsvd). destruct (@eig_sym_contract_satisfiable RR) as (eig_sym & Hes). destruct (@eigs_largest_satisfiable RR (fun _ => True)) as (eigs & He & Hz & _).
  exists svd, eigs, eig_sym. split; [exact Hsvd|]. split; [exact He|]. split; [exact Hz|]. split; [exact Hes|].
  split; [apply gpair_wf|]. split; [exact gpair_primitive|]. split.
  - intros (eta & _ & H). specialize (H 0%nat 1%nat ltac:(cbn; lia) ltac:(cbn; lia)). revert H. cbv -[Rplus Rmult Ropp IZR]. lra.
  - destruct (C63_canonical_defined_partial svd eigs eig_sym Hsvd Hes (gpair 1 1 0 1)) as (psi' & Hpsi); [reflexivity|apply gpair_wf|exact He|exact gpair_primitive|].
    exists psi'. split; [exact Hpsi|].
    destruct (C63_canonical_orthonormal svd eigs eig_sym Hsvd Hes _ psi' (gpair_wf 1 1 0 1) He gpair_primitive Hpsi) as [L O]. split; [exact L|]. split; [exact O|].
    destruct (C63_canonical_ring svd eigs eig_sym Hsvd Hes _ psi' (gpair_wf 1 1 0 1) Hz Hpsi) as (_ & _ & S1 & S2 & _). split; assumption.
Qed.

Lemma gpair_chain0 n : @chain (@rs_scalar RR) (cells (gpair 1 0 0 0) n) (repeat 0 (2 * n)) 0 0 = 1%R.
Proof.
  induction n as [|n IH]; [reflexivity|]. replace (2 * S n) with (S (S (2 * n))) by lia. unfold cells in *. cbn [repeat concat app chain].
  change (dim (iAlA (gpair 1 0 0 0)) 2) with 1. change (dim (iBlB (gpair 1 0 0 0)) 2) with 2. cbn [sum].
  set (r := @chain (@rs_scalar RR) (concat (repeat [iAlA (gpair 1 0 0 0); iBlB (gpair 1 0 0 0)] n)) (repeat 0 (2 * n)) 0 0) in *.
  set (r' := @chain (@rs_scalar RR) (concat (repeat [iAlA (gpair 1 0 0 0); iBlB (gpair 1 0 0 0)] n)) (repeat 0 (2 * n)) 1 0) in *.
  change (@get (@rs_scalar RR) (iAlA (gpair 1 0 0 0)) [0; 0; 0]) with 1%R. 
  change (@get (@rs_scalar RR) (iBlB (gpair 1 0 0 0)) [0; 0; 0]) with 1%R. change (@get (@rs_scalar RR) (iBlB (gpair 1 0 0 0)) [0; 0; 1]) with 0%R.
  change (@eq R (0 + 1 * (0 + 1 * r + 0 * r')) 1)%R. change (@eq R r 1%R) in IH. rewrite IH. ring.
Qed.
Lemma gpair_chain1 n : @chain (@rs_scalar RR) (cells (gpair 1 0 0 0) (S n)) (repeat 0 (2 * S n)) 1 1 = 0%R.
Proof.
  replace (2 * S n) with (S (S (2 * n))) by lia. unfold cells in *. cbn [repeat concat app chain].
  change (dim (iAlA (gpair 1 0 0 0)) 2) with 1. cbn [sum].
  change (@get (@rs_scalar RR) (iAlA (gpair 1 0 0 0)) [1; 0; 0]) with 0%R. 
  match goal with |- @kadd _ _ (@kmul _ _ ?x) = _ => set (y := x); change (@eq R (0 + 0 * y) 0)%R end. ring.
Qed.

(** A bond with a state that is never used, A(1,.,.) = 0: the rings have a wave function, and a unique limit, but
    canonical_form divides by zero. *)
Theorem C63_rank_refuted svd eigs eig_sym : eigs_largest eigs -> eig_sym_contract eig_sym ->
  wf_itebd (gpair 1 0 0 0) /\ (exists P, dominates 2 (right_map (gpair 1 0 0 0)) 1 P) /\
  (forall n, @ring_mean RR (gpair 1 0 0 0) (S n) id_op <> 0%R) /\
  canonical_form svd eigs eig_sym (gpair 1 0 0 0) = Abort.
Proof.
  intros He Hes. split; [apply gpair_wf|].
  destruct (gpair_dominates 1 0 0 0) as [H1 H2]; [cbn; lra|].
  replace (gg 1 0 0 0 0 0 + gg 1 0 0 0 1 1)%R with 1%R in * by (cbn; ring).
  split; [exists (gg 1 0 0 0); exact H1|]. split.
  - intros n. apply (ring_nonzero (gpair 1 0 0 0) (S n) (repeat 0 (2 * S n))).
    + unfold cell_dims. generalize (S n). clear. intros n. induction n as [|n IH]; [constructor|]. replace (2 * S n)%nat with (S (S (2 * n))) by lia. cbn [repeat concat app]. constructor; [cbn; lia|constructor; [cbn; lia|exact IH]].
    + unfold ring, amp. change (left_bond (cells (gpair 1 0 0 0) (S n))) with 2%nat. cbn [sum]. rewrite (gpair_chain0 (S n)), gpair_chain1. change ((0 + 1 + 0)%R <> 0%R). lra.
  - destruct (gpair_wf 1 0 0 0) as (D & E & dA & dB & HD & HE & HdA & HdB & HA & HAw & HB & HBw & HlA & HlB & HAl & HAlw & HBl & HBlw & HgA & HgB).
    assert (HD2 : D = 2%nat) by (rewrite <- HlB; reflexivity). rewrite HD2 in *.
    destruct (vr_dominant (gpair 1 0 0 0) 2 E dA dB eigs HD HE HdA HdB HA HB HlA HlB HAl HAlw HBl HBlw HgA HgB 1 (gg 1 0 0 0) He H1) as (R1 & R2 & c & _ & R3).
    { intros i j Hi Hj. destruct i as [|[|]]; [| |lia]; (destruct j as [|[|]]; [| |lia]); reflexivity. }
    unfold canonical_form. rewrite (ortho_basis_fails eig_sym Hes 2 _ 1 ltac:(lia) R1 R2); [reflexivity|].
    intros i Hi. rewrite R3 by lia. destruct i as [|[|]]; [| |lia]; cbn; ring.
Qed.

(** With complex numbers, canonical_form keeps only the real part of the eigenvector of eigs, whose phase is not
    determined: whatever the state, there is an eigs that does what it should for which the real part is zero and
    canonical_form divides by zero. *)
Theorem C63_phase_refuted svd eig_sym (psi : @itebd CC) : eig_sym_contract eig_sym -> wf_itebd psi -> primitive psi ->
  exists eigs, eigs_largest eigs /\ eigs_sized eigs /\ canonical_form svd eigs eig_sym psi = Abort.
Proof.
  intros Hes (D & E & dA & dB & HD & HE & HdA & HdB & HA & HAw & HB & HBw & HlA & HlB & HAl & HAlw & HBl & HBlw & HgA & HgB) (eta & P & Q & Heta & HP & HQ & DP & DQ).
  rewrite HlB in HP, HQ, DP, DQ.
  destruct (@eigs_largest_satisfiable CC (fun v => @kre CC (get v [0%nat]) = 0%R)) as (eigs & He & Hz & Hgood). exists eigs. split; [exact He|]. split; [exact Hz|].
  destruct (vr_dominant psi D E dA dB eigs HD HE HdA HdB HA HB HlA HlB HAl HAlw HBl HBlw HgA HgB eta P He DP (proj1 HP)) as (R1 & R2 & c & _ & R3).
  pose proof (vr_largest psi D E dA dB eigs HD HE HdA HdB HA HB HlA HlB HAl HAlw HBl HBlw HgA HgB eta P He DP) as Hlg. cbv zeta in Hlg.
  set (f := fun v => px4 v (-1) (scale (iB psi) (rank (iB psi) - 1) (ilB psi)) (scale (iA psi) (rank (iA psi) - 1) (ilA psi)) D) in *.
  set (v0 := reshape (@tscale (@rs_scalar CC) (@rinj CC (/ sqrt (INR D))%R) (@eye (@rs_scalar CC) D)) [(D * D)%nat]).
  destruct (Hlg v0) as (L & c' & Hc' & L'). set (v := eigs f (D * D)%nat v0) in *.
  assert (P00 : P 0%nat 0%nat <> @k0 (@rs_scalar CC)).
  { intros E0. destruct HP as [_ HP]. specialize (HP (fun i => @delta (@rs_scalar CC) i 0)). cbv beta in HP.
    assert (Ez : sum D (fun i => sum D (fun j => kmul (kmul (kconj (delta i 0)) (P i j)) (delta j 0))) = @k0 (@rs_scalar CC)).
    { transitivity (sum D (fun i => kmul (kconj (@delta (@rs_scalar CC) i 0)) (P i 0%nat))).
      - apply sum_ext. intros i Hi. apply (sum_delta_r D 0 (fun j => kmul (kconj (delta i 0)) (P i j))). exact HD.
      - transitivity (sum D (fun i => kmul (@delta (@rs_scalar CC) i 0) (P i 0%nat))).
        + apply sum_ext. intros i Hi. rewrite kconj_delta. reflexivity.
        + rewrite (sum_delta_l D 0 (fun i => P i 0%nat)) by exact HD. exact E0. }
    rewrite Ez in HP. change (@kre CC k0) with 0%R in HP. assert (0 < 0)%R; [|lra]. apply HP. exists 0%nat. split; [exact HD|]. exact (@k1_neq_0 CC). }
  assert (Hv00 : @kre CC (get v [0%nat]) = 0%R).
  { apply Hgood. set (z := @kmul (@rs_scalar CC) (mkC 0 1) (kconj (get v [0%nat]))).
    assert (Hv0 : get v [0%nat] <> @k0 (@rs_scalar CC)).
    { replace 0%nat with (0 + D * 0)%nat by lia. rewrite (L' 0%nat 0%nat HD HD). apply kmul_nonzero; assumption. }
    exists (tscale z v). split.
    - apply (right_phase psi D E dA dB HD HE HdA HdB HA HB HlA HlB HAl HAlw HBl HBlw HgA HgB); [|exact L].
      unfold z. apply kmul_nonzero.
      + intros E0. injection E0 as E0. lra.
      + intros E0. apply Hv0. rewrite <- (kconj_inv (get v [0%nat])), E0. apply kconj_0.
    - destruct L as (mu & (V1 & V2 & _) & _). rewrite get_tscale; [|exact V2|rewrite V1; apply in_range_1; nia].
      unfold z. destruct (get v [0%nat]) as [x y]. cbn. ring. }
  assert (Hc0 : @kre CC c = 0%R).
  { specialize (R3 0%nat 0%nat HD HD). destruct L as (mu & (V1 & V2 & _) & _).
    destruct (herm_part D v V1 V2) as (_ & _ & E3). specialize (E3 0%nat 0%nat HD HD).
    unfold itebd_power_eig in R3. rewrite HlB in R3. change (0 <? -1)%Z with false in R3. cbv iota in R3. fold f v0 v in R3. cbv zeta in R3. rewrite E3 in R3.
    replace (0 + D * 0)%nat with 0%nat in R3 by lia.
    assert (Ez : @kadd (@rs_scalar CC) (get v [0%nat]) (kconj (get v [0%nat])) = k0) by (rewrite <- (@twice_re CC), Hv00; cbn; apply C_ext; cbn; ring).
    rewrite Ez in R3. destruct (Req_dec (@kre CC c) 0) as [E0|E0]; [exact E0|exfalso]. apply P00.
    transitivity (kmul (@rinj CC (/ kre c)%R) (kmul (@rinj CC (kre c)) (P 0%nat 0%nat))).
    - transitivity (kmul (kmul (@rinj CC (kre c)) (@rinj CC (/ kre c)%R)) (P 0%nat 0%nat)); [rewrite (@rinj_inv CC) by exact E0|]; destruct (P 0%nat 0%nat) as [x y]; apply C_ext; cbn; ring.
    - rewrite <- R3. apply C_ext; cbn; ring. }
  unfold canonical_form. rewrite (ortho_basis_fails eig_sym Hes D _ 0 HD R1 R2); [reflexivity|].
  intros i Hi. rewrite (R3 i 0%nat Hi HD), Hc0. destruct (P i 0%nat) as [x y]. apply C_ext; cbn; ring.
Qed.
