(** * C60: the error after many steps, for Hermitian Hamiltonians in real time *)
From Coq Require Import Reals Lra Bool List Arith ZArith QArith Qreals Lia Ring.
From Verif Require Import Scalar ScalarFacts RScal RealInst Tensor TensorFacts Spec MpsModel MpsFacts ExpectedFacts
  HamSpec HamModel HamFacts SparseSpec SparseModel SparseFacts CanonSpec CanonModel TruncFacts CanonFacts CanonSweep
  TrotterSpec TrotterModel TrotterFacts TrotterApply TrotterRun TrotterLoop TrotterExec TrotterNorm TrotterExp OpSpec OpAlgebra OpExp LayerExp TrotterError Properties_Trotter Properties_Trotter2.
Import ListNotations.
Local Open Scope R_scope.
Add Ring Cring : (@k_ring CS).

(** existence of the exponential of an operator *)
Lemma op_pow_entry ds A k is js : in_range ds is -> in_range ds js -> C1 (opow ds A k is js) <= nrm ds A ^ k.
Proof.
  intros Hi Hj. destruct k as [|k].
  - cbn [op_pow pow]. clear. revert js. induction is as [|i is IH]; intros [|j js]; cbn [id_op]; try (unfold C1; cbn; rewrite ?Rabs_R1, ?Rabs_R0; lra).
    eapply Rle_trans; [apply C1_mul|]. specialize (IH js). assert (C1 (@delta CS i j) <= 1) by (unfold delta; destruct (Nat.eqb i j); unfold C1; cbn; rewrite ?Rabs_R1, ?Rabs_R0; lra).
    pose proof (C1_pos (@delta CS i j)). pose proof (C1_pos (@id_op CS is js)). nra.
  - eapply Rle_trans; [apply nrm_entry; eassumption|]. clear. induction k as [|k IH].
    + cbn [op_pow]. rewrite (nrm_eq ds _ A); [cbn; lra|]. apply op_mul_id_r.
    + change (opow ds A (S (S k))) with (omul ds A (opow ds A (S k))). eapply Rle_trans; [apply nrm_mul|]. change (nrm ds A ^ S (S k)) with (nrm ds A * nrm ds A ^ S k). apply Rmult_le_compat_l; [apply nrm_pos|exact IH].
Qed.
Lemma op_exp_exists ds A : exists E, is_op_exp ds A E.
Proof.
  pose proof (nrm_pos ds A) as Ha. set (a := nrm ds A) in *.
  assert (Re : forall q (f : nat -> Cx), Cre (csum q f) = rsm q (fun k => Cre (f k))) by (intros q f; induction q as [|q IH]; [reflexivity|]; change (Cre (csum q f) + Cre (f q) = rsm q (fun k => Cre (f k)) + Cre (f q)); rewrite IH; reflexivity).
  assert (Im : forall q (f : nat -> Cx), Cim (csum q f) = rsm q (fun k => Cim (f k))) by (intros q f; induction q as [|q IH]; [reflexivity|]; change (Cim (csum q f) + Cim (f q) = rsm q (fun k => Cim (f k)) + Cim (f q)); rewrite IH; reflexivity).
  assert (X : forall p : list nat * list nat, exists e, in_range ds (fst p) -> in_range ds (snd p) -> Ccv (fun N => op_exp_sum ds A N (fst p) (snd p)) e).
  { intros (is, js). cbn [fst snd].
    destruct (Classical_Prop.classic (in_range ds is)) as [Hi|N]; [|exists (mkC 0 0); intros; contradiction]. destruct (Classical_Prop.classic (in_range ds js)) as [Hj|N]; [|exists (mkC 0 0); intros; contradiction].
    assert (B : forall k, C1 (Cmul (mkC (/ INR (fact k)) 0) (opow ds A k is js)) <= a ^ k / INR (fact k)).
    { intros k. eapply Rle_trans; [apply C1_mul|]. rewrite C1_real. pose proof (fact_pos k). rewrite Rabs_right by lra. pose proof (op_pow_entry ds A k is js Hi Hj). unfold Rdiv. fold a in H0. nra. }
    destruct (series_cv (fun k => Cre (Cmul (mkC (/ INR (fact k)) 0) (opow ds A k is js))) a Ha) as (x & Hx).
    { intros k. specialize (B k). unfold C1 in B. pose proof (Rabs_pos (Cim (Cmul (mkC (/ INR (fact k)) 0) (opow ds A k is js)))). lra. }
    destruct (series_cv (fun k => Cim (Cmul (mkC (/ INR (fact k)) 0) (opow ds A k is js))) a Ha) as (y & Hy).
    { intros k. specialize (B k). unfold C1 in B. pose proof (Rabs_pos (Cre (Cmul (mkC (/ INR (fact k)) 0) (opow ds A k is js)))). lra. }
    exists (mkC x y). intros _ _. split; cbn [Cre Cim]; [apply (Un_cv_ext _ _ _ (fun N => eq_sym (Re (S N) _)) Hx)|apply (Un_cv_ext _ _ _ (fun N => eq_sym (Im (S N) _)) Hy)]. }
  destruct (ClassicalChoice.choice _ X) as (E & HE). exists (fun is js => E (is, js)). intros is js Hi Hj. apply (HE (is, js)); assumption.
Qed.

(** the adjoint *)
Definition oadj (A : cop) : cop := fun is js => Cconj (A js is).
Lemma oadj_mul ds A B is js : oadj (omul ds A B) is js = omul ds (oadj B) (oadj A) is js.
Proof. unfold oadj, op_mul. change Cconj with (@kconj CS). rewrite (@sumcfg_conj CS). apply (@sumcfg_ext CS). intros ks _. rewrite (@kconj_mul CS). apply (@Rmul_comm _ _ _ _ _ _ _ _ (@k_ring CS)). Qed.
Lemma op_pow_S_r ds A k : oeqC ds (opow ds A (S k)) (omul ds (opow ds A k) A).
Proof.
  intros is js Hi Hj. symmetry. apply (@op_pow_comm CS ds A A (oeq_refl ds _) k is js Hi Hj).
Qed.
Lemma id_op_conj : forall is js, Cconj (@id_op CS js is) = @id_op CS is js.
Proof.
  intros is js. rewrite (@id_op_comm CS). revert js. induction is as [|i is IH]; intros [|j js]; cbn [id_op]; try (apply C_ext; cbn; ring).
  change Cconj with (@kconj CS) in *. rewrite (@kconj_mul CS), IH. f_equal. unfold delta. destruct (Nat.eqb i j); apply C_ext; cbn; ring.
Qed.
Lemma oadj_pow ds A k : oeqC ds (oadj (opow ds A k)) (opow ds (oadj A) k).
Proof.
  induction k as [|k IH]; intros is js Hi Hj.
  - cbn [op_pow]. apply id_op_conj.
  - rewrite (op_pow_S_r ds (oadj A) k is js Hi Hj). cbn [op_pow]. rewrite oadj_mul. exact (@op_mul_eq CS ds _ _ _ _ IH (oeq_refl ds _) is js Hi Hj).
Qed.
Lemma op_exp_adj ds A E : is_op_exp ds A E -> is_op_exp ds (oadj A) (oadj E).
Proof.
  intros H is js Hi Hj. unfold oadj at 2. refine (Ccv_ext _ _ _ _ (Ccv_conj _ _ (H js is Hj Hi))). intros N. unfold op_exp_sum. change Cconj with (@kconj CS). rewrite (@sum_conj CS). apply (@sum_ext CS). intros k Hk.
  change Cmul with (@kmul CS). rewrite (@kconj_mul CS). rewrite <- (oadj_pow ds A k is js Hi Hj). unfold oadj. change (@kconj CS) with Cconj. f_equal. apply C_ext; cbn; ring.
Qed.
Lemma op_exp_zero ds A : (forall is js, in_range ds is -> in_range ds js -> A is js = mkC 0 0) -> is_op_exp ds A (@id_op CS).
Proof.
  intros HA is js Hi Hj. apply (Ccv_ext (fun _ => @id_op CS is js)); [|apply Ccv_const]. intros N. unfold op_exp_sum. rewrite (@sum_S_l CS). rewrite (@sum_zero CS N).
  - cbn [op_pow fact INR]. apply C_ext; cbn; rewrite Rinv_1; ring.
  - intros k Hk. cbn [op_pow]. unfold op_mul. rewrite (@sumcfg_zero CS); [apply C_ext; cbn; ring|]. intros ks Hks. rewrite (HA is ks Hi Hks). apply C_ext; cbn; ring.
Qed.
(** the exponential of an anti-Hermitian operator is unitary *)
Lemma op_exp_unitary ds A E : (forall is js, in_range ds is -> in_range ds js -> oadj A is js = Copp (A is js)) -> is_op_exp ds A E -> oeqC ds (omul ds (oadj E) E) (@id_op CS).
Proof.
  intros HA HE. apply (op_exp_unique ds (@oadd CS (oadj A) A)); [apply op_exp_comm; [|apply op_exp_adj; exact HE|exact HE]|].
  - intros is js Hi Hj. unfold op_mul. apply (@sumcfg_ext CS). intros ks Hk. rewrite !HA by assumption. apply C_ext; cbn; ring.
  - apply op_exp_zero. intros is js Hi Hj. unfold oadd. rewrite HA by assumption. apply C_ext; cbn; ring.
Qed.
Lemma op_exp_iter ds A E n : is_op_exp ds A E -> is_op_exp ds (@oscl CS (mkC (INR n) 0) A) (opow ds E n).
Proof.
  intros HE. induction n as [|n IH].
  - cbn [op_pow]. apply op_exp_zero. intros is js _ _. unfold oscl. apply C_ext; cbn; ring.
  - cbn [op_pow]. refine (op_exp_eq ds (@oadd CS A (@oscl CS (mkC (INR n) 0) A)) _ _ _ _ (oeq_refl ds _) _).
    + intros is js _ _. unfold oadd, oscl. rewrite S_INR. apply C_ext; cbn; ring.
    + apply op_exp_comm; [|exact HE|exact IH]. intros is js _ _. rewrite op_mul_scl_r, op_mul_scl_l. reflexivity.
Qed.

(** squared norm *)
Definition sq (ds : list nat) (f : list nat -> Cx) : R := rcfg ds (fun is => Cre (f is) * Cre (f is) + Cim (f is) * Cim (f is)).
Lemma cfg_real ds : forall g : list nat -> R, ccfg ds (fun is => mkC (g is) 0) = mkC (rcfg ds g) 0.
Proof.
  induction ds as [|d ds IH]; intros g; [reflexivity|]. cbn [sumcfg].
  rewrite (@sum_ext CS d _ (fun i => mkC (rcfg ds (fun is => g (i :: is))) 0)) by (intros i _; apply (IH (fun is => g (i :: is)))).
  assert (Q : forall (h : nat -> R) q, csum q (fun i => mkC (h i) 0) = mkC (rsm q h) 0).
  { clear. intros h q. induction q as [|q IH]; [reflexivity|]. cbn [sum]. rewrite IH. apply C_ext; cbn; ring. }
  apply (Q (fun i => rcfg ds (fun is => g (i :: is)))).
Qed.
Lemma sq_inner ds f : @inner CS ds f f = mkC (sq ds f) 0.
Proof.
  unfold inner, sq. rewrite <- cfg_real. apply (@sumcfg_ext CS). intros is _. apply C_ext; cbn; ring.
Qed.
Lemma sq_pos ds f : 0 <= sq ds f.
Proof. apply rcfg_nonneg. intros. nra. Qed.
Lemma sq_ext ds f g : (forall is, in_range ds is -> f is = g is) -> sq ds f = sq ds g.
Proof. intros H. apply (@sumcfg_ext RSC). intros is Hi. rewrite H by exact Hi. reflexivity. Qed.
Lemma C1_sq z : C1 z * C1 z <= 2 * (Cre z * Cre z + Cim z * Cim z) /\ Cre z * Cre z + Cim z * Cim z <= C1 z * C1 z.
Proof.
  unfold C1. assert (A : forall x, Rabs x * Rabs x = x * x) by (intros x; rewrite <- Rabs_mult; apply Rabs_right; nra).
  pose proof (A (Cre z)). pose proof (A (Cim z)). pose proof (Rabs_pos (Cre z)). pose proof (Rabs_pos (Cim z)).
  pose proof (Rle_0_sqr (Rabs (Cre z) - Rabs (Cim z))) as Q. unfold Rsqr in Q. pose proof (Rmult_le_pos _ _ H1 H2). set (x := Rabs (Cre z)) in *. set (y := Rabs (Cim z)) in *. rewrite <- H, <- H0. split; lra.
Qed.
Lemma entry_sq ds f is : in_range ds is -> C1 (f is) <= sqrt (2 * sq ds f).
Proof.
  intros Hi. rewrite <- (sqrt_square (C1 (f is))) by apply C1_pos. apply sqrt_le_1_alt. eapply Rle_trans; [apply C1_sq|].
  pose proof (rcfg_entry ds (fun is => Cre (f is) * Cre (f is) + Cim (f is) * Cim (f is)) is ltac:(intros; nra) Hi) as E. cbv beta in E. fold (sq ds f) in E. lra.
Qed.
Lemma rcfg_sq ds (x : list nat -> R) : (forall is, in_range ds is -> 0 <= x is) -> rcfg ds (fun is => x is * x is) <= rcfg ds x * rcfg ds x.
Proof.
  intros H. rewrite rcfg_scl_r. apply rcfg_le. intros is Hi. apply Rmult_le_compat_l; [apply H; exact Hi|]. apply (rcfg_entry ds x is H Hi).
Qed.
Lemma sq_l1 ds f : sq ds f <= rcfg ds (fun is => C1 (f is)) * rcfg ds (fun is => C1 (f is)).
Proof.
  eapply Rle_trans; [|apply (rcfg_sq ds (fun is => C1 (f is))); intros; apply C1_pos]. apply rcfg_le. intros is _. apply C1_sq.
Qed.
Lemma l1_act ds M f : rcfg ds (fun is => C1 (@act CS ds M f is)) <= nrm ds M * sqrt (2 * sq ds f).
Proof.
  unfold nrm. rewrite rcfg_scl_r. apply rcfg_le. intros is Hi. unfold act. eapply Rle_trans; [apply C1_cfg|]. rewrite rcfg_scl_r. apply rcfg_le. intros js Hj.
  eapply Rle_trans; [apply C1_mul|]. apply Rmult_le_compat_l; [apply C1_pos|]. apply entry_sq. exact Hj.
Qed.

(** Powers of two operators that preserve norms *)
Definition isom (ds : list nat) (A : cop) : Prop := forall f, sq ds (@act CS ds A f) = sq ds f.
Lemma isom_pow ds A k : isom ds A -> isom ds (opow ds A k).
Proof.
  intros H. induction k as [|k IH]; intros f; cbn [op_pow].
  - apply sq_ext. intros is Hi. apply (@act_id CS); exact Hi.
  - rewrite <- (IH f). rewrite <- (H (@act CS ds (opow ds A k) f)). apply sq_ext. intros is Hi. apply (@act_mul CS).
Qed.
Lemma oadj_isom ds E : oeqC ds (omul ds (oadj E) E) (@id_op CS) -> isom ds E.
Proof.
  intros H f. assert (I : @inner CS ds (@act CS ds E f) (@act CS ds E f) = @inner CS ds f f).
  { apply (@act_inner CS). intros is ks Hi Hk. exact (H is ks Hi Hk). }
  rewrite !sq_inner in I. injection I as I. exact I.
Qed.
Lemma power_error ds A B f is k : isom ds A -> isom ds B -> in_range ds is ->
  C1 (Csub (@act CS ds (opow ds A k) f is) (@act CS ds (opow ds B k) f is)) <= INR k * (2 * nrm ds (@osub CS A B) * sqrt (sq ds f)).
Proof.
  intros HA HB. revert f is. induction k as [|k IH]; intros f is Hi.
  - cbn [op_pow INR]. rewrite Rmult_0_l. unfold C1. cbn. rewrite !Rminus_diag_eq by reflexivity. rewrite Rabs_R0. lra.
  - assert (EA : @act CS ds (opow ds A (S k)) f is = @act CS ds (opow ds A k) (@act CS ds A f) is).
    { etransitivity; [|apply (@act_mul CS)]. unfold act. apply (@sumcfg_ext CS). intros js Hj. rewrite (op_pow_S_r ds A k is js Hi Hj). reflexivity. }
    assert (EB : @act CS ds (opow ds B (S k)) f is = @act CS ds (opow ds B k) (@act CS ds B f) is).
    { etransitivity; [|apply (@act_mul CS)]. unfold act. apply (@sumcfg_ext CS). intros js Hj. rewrite (op_pow_S_r ds B k is js Hi Hj). reflexivity. }
    rewrite EA, EB. set (g := @act CS ds (@osub CS A B) f).
    assert (EG : Csub (@act CS ds (opow ds A k) (@act CS ds A f) is) (@act CS ds (opow ds B k) (@act CS ds B f) is) =
      Cadd (@act CS ds (opow ds A k) g is) (Csub (@act CS ds (opow ds A k) (@act CS ds B f) is) (@act CS ds (opow ds B k) (@act CS ds B f) is))).
    { assert (E0 : @act CS ds (opow ds A k) (@act CS ds A f) is = Cadd (@act CS ds (opow ds A k) g is) (@act CS ds (opow ds A k) (@act CS ds B f) is)).
      { unfold act at 1 3 4. change Cadd with (@kadd CS). rewrite <- (@sumcfg_add CS). apply (@sumcfg_ext CS). intros js Hj.
        replace (@act CS ds A f js) with (@kadd CS (g js) (@act CS ds B f js)); [ring|]. unfold g, act. rewrite <- (@sumcfg_add CS). apply (@sumcfg_ext CS). intros ks _. unfold osub. ring. }
      rewrite E0. apply C_ext; cbn; ring. }
    rewrite EG. eapply Rle_trans; [apply C1_add|]. specialize (IH (@act CS ds B f) is Hi). rewrite (HB f) in IH. rewrite S_INR.
    assert (G : C1 (@act CS ds (opow ds A k) g is) <= 2 * nrm ds (@osub CS A B) * sqrt (sq ds f)); [|lra].
    eapply Rle_trans; [apply entry_sq; exact Hi|]. rewrite (isom_pow ds A k HA g).
    set (b := nrm ds (@osub CS A B) * sqrt (2 * sq ds f)). assert (Hb : 0 <= b) by (apply Rmult_le_pos; [apply nrm_pos|apply sqrt_pos]).
    assert (L : sq ds g <= b * b).
    { eapply Rle_trans; [apply sq_l1|]. assert (rcfg ds (fun is => C1 (g is)) <= b) by apply l1_act. assert (0 <= rcfg ds (fun is => C1 (g is))) by (apply rcfg_nonneg; intros; apply C1_pos). nra. }
    eapply Rle_trans; [apply sqrt_le_1_alt; apply Rmult_le_compat_l; [lra|exact L]|]. rewrite sqrt_mult_alt by lra. rewrite sqrt_square by exact Hb. unfold b. rewrite sqrt_mult_alt by lra.
    assert (Q : sqrt 2 * sqrt 2 = 2) by (apply sqrt_sqrt; lra). right. transitivity (sqrt 2 * sqrt 2 * (nrm ds (@osub CS A B) * sqrt (sq ds f))); [ring|rewrite Q; ring].
Qed.

Section Long.
Notation T := (@tensor CS).
Notation ham := (@hamiltonian CS).
Variable expm : T -> T.
Hypothesis Hexpm : expm_contract expm.

Lemma pair_op_adj ds M : forall k is js, Cconj (@pair_op CS k ds M js is) = @pair_op CS k ds (fun r c => Cconj (M c r)) is js.
Proof.
  assert (I : forall is js, Cconj (@id_op CS js is) = @id_op CS is js) by (intros is js; exact (id_op_conj is js)).
  assert (Dl : forall i j, Cconj (@delta CS j i) = @delta CS i j) by (intros i j; unfold delta; rewrite (Nat.eqb_sym j i); destruct (Nat.eqb i j); apply C_ext; cbn; ring).
  intros k. revert ds. induction k as [|k IH]; intros ds is js.
  - destruct ds as [|d ds], is as [|i [|i' is]], js as [|j [|j' js]]; cbn [pair_op]; try (apply C_ext; cbn; ring). change Cconj with (@kconj CS). rewrite (@kconj_mul CS). change (@kconj CS) with Cconj. rewrite I. reflexivity.
  - destruct ds as [|d ds], is as [|i is], js as [|j js]; cbn [pair_op]; try (apply C_ext; cbn; ring). change Cconj with (@kconj CS). rewrite (@kconj_mul CS). change (@kconj CS) with Cconj. rewrite IH, Dl. reflexivity.
Qed.
Lemma site_op_adj M : forall k is js, Cconj (@site_op CS k M js is) = @site_op CS k (fun r c => Cconj (M c r)) is js.
Proof.
  assert (I : forall is js, Cconj (@id_op CS js is) = @id_op CS is js) by (intros is js; exact (id_op_conj is js)).
  assert (Dl : forall i j, Cconj (@delta CS j i) = @delta CS i j) by (intros i j; unfold delta; rewrite (Nat.eqb_sym j i); destruct (Nat.eqb i j); apply C_ext; cbn; ring).
  intros k. induction k as [|k IH]; intros is js.
  - destruct is as [|i is], js as [|j js]; cbn [site_op]; try (apply C_ext; cbn; ring). change Cconj with (@kconj CS). rewrite (@kconj_mul CS). change (@kconj CS) with Cconj. rewrite I. reflexivity.
  - destruct is as [|i is], js as [|j js]; cbn [site_op]; try (apply C_ext; cbn; ring). change Cconj with (@kconj CS). rewrite (@kconj_mul CS). change (@kconj CS) with Cconj. rewrite IH, Dl. reflexivity.
Qed.
Lemma total_hermitian (H : ham) is js : @full_terms CC H -> hermitian_terms H -> in_range (h_dims H) is -> in_range (h_dims H) js -> Cconj (total H js is) = total H is js.
Proof.
  intros HF (Hl & Hi) Ri Rj. unfold total, pair_chain. rewrite (@length_h_dims CC). change Cconj with (@kconj CS). rewrite (@kconj_add CS), !(@sum_conj CS). f_equal; apply (@sum_ext CS); intros k Hk.
  - change (@kconj CS) with Cconj. rewrite pair_op_adj. apply (@Properties_Sparse.pair_op_ext CS); [exact Ri|exact Rj|rewrite (@length_h_dims CC); lia|].
    intros r r' c c' Hr Hr' Hc Hc'. rewrite !(@nth_h_dims CC) in * by lia. apply (Hi k); [lia|nia|nia].
  - change (@kconj CS) with Cconj. rewrite site_op_adj. apply (@site_op_ext CC (h_dims H)); [exact Ri|exact Rj|rewrite (@length_h_dims CC); lia|].
    intros r c Hr Hc. rewrite (@nth_h_dims CC) in * by lia. apply (Hl k); assumption.
Qed.

(** The state after k steps differs from exp(-i k dt H) f by at most k (C |dt|^(m+1) + eps B) |f|: order m in dt for a fixed
    total time k dt.  |f| is the Euclidean norm. *)
Definition long_error (l : list (nat * R)) (ns : list nat) (m : nat) (eps : R) : Prop :=
  forall H : ham, @full_terms CC H -> hermitian_terms H -> exists C B, 0 <= C /\ 0 <= B /\
  forall dt us k E f is, Cim dt = 0 -> C1 dt <= 1 -> solver_new expm l H dt = Ok us ->
    is_op_exp (h_dims H) (fun is js => Cmul (minus_i (cscale (INR k) dt)) (total H is js)) E -> in_range (h_dims H) is ->
    C1 (Csub (Nat.iter k (evolved us l (h_dims H) ns) f is) (@act CS (h_dims H) E f is)) <= INR k * (C * C1 dt ^ S m + eps * B) * sqrt (sq (h_dims H) f).

Lemma evolved_ext us l ds ns f g is : in_range ds is -> (forall js, in_range ds js -> f js = g js) -> evolved us l ds ns f is = evolved us l ds ns g is.
Proof. intros Hi H. rewrite !evolved_op by exact Hi. apply (@act_ext CS). exact H. Qed.
Lemma evolved_iter us l ds ns k f : forall is, in_range ds is -> Nat.iter k (evolved us l ds ns) f is = @act CS ds (opow ds (oprod ds (rev (map (layer us l ds) ns))) k) f is.
Proof.
  induction k as [|k IH]; intros is Hi; [symmetry; apply (@act_id CS); exact Hi|]. change (Nat.iter (S k) ?F ?x) with (F (Nat.iter k F x)). cbn [op_pow].
  rewrite evolved_op by exact Hi. etransitivity; [|symmetry; apply (@act_mul CS)]. apply (@act_ext CS). exact IH.
Qed.

Lemma layers_long (sol : nat) m eps :
  let l := nth sol [trotter2_unitaries; trotter3_unitaries; forest_ruth_unitaries] [] in
  let ns := nth sol [[0; 1]; [1; 0; 1]; [0; 1; 2; 3; 2; 1; 0]]%nat [] in
  Forall (fun x => (fst x <= 1)%nat) l -> (forall n, In n ns -> (n < length l)%nat) ->
  (forall dt n, Cim dt = 0 -> In n ns -> coef l dt n = Cmul (minus_i dt) (mkC (snd (nth n l (0%nat, 0))) 0)) ->
  accurate (product_formula l ns) m eps -> long_error l ns m eps.
Proof.
  intros l ns Hl Hns Hok HA H HF HH. set (ds := h_dims H).
  destruct (layers_norm expm Hexpm l ns (fun dt => Cim dt = 0) m eps H Hl Hns Hok HA HF) as (C & B & HC & HB & HE). exists (2 * C), (2 * B). split; [lra|]. split; [lra|].
  intros dt us k E f is Hdt H1 Eu HEx Hi. fold ds in HE, HEx, Hi |- *.
  destruct (op_exp_exists ds (fun is js => Cmul (minus_i dt) (total H is js))) as (E1 & HE1). specialize (HE dt us E1 Hdt H1 Eu HE1).
  set (S0 := oprod ds (rev (map (layer us l ds) ns))) in *.
  assert (I1 : isom ds E1).
  { apply oadj_isom. apply (op_exp_unitary ds (fun is js => Cmul (minus_i dt) (total H is js))); [|exact HE1]. intros a b Ha Hb. unfold oadj. change Cconj with (@kconj CS). change Cmul with (@kmul CS) at 1. rewrite (@kconj_mul CS).
    change (@kconj CS) with Cconj. rewrite (total_hermitian H a b HF HH Ha Hb). unfold minus_i. rewrite Hdt. apply C_ext; cbn; ring. }
  assert (I0 : isom ds S0).
  { intros g. assert (I : @inner CS ds (@act CS ds S0 g) (@act CS ds S0 g) = @inner CS ds g g).
    { etransitivity; [|exact (C61_scalar_product expm Hexpm H dt HF 1%nat Nat.lt_0_1 sol us g g HH Hdt Eu)]. fold ds l ns. unfold inner. apply (@sumcfg_ext CS). intros js Hj. rewrite !evolved_op by exact Hj. reflexivity. }
    rewrite !sq_inner in I. injection I as I. exact I. }
  assert (EE : @act CS ds E f is = @act CS ds (opow ds E1 k) f is).
  { unfold act. apply (@sumcfg_ext CS). intros js Hj. change (@kmul CS) with Cmul. f_equal. refine (op_exp_unique ds _ _ _ HEx _ is js Hi Hj).
    refine (op_exp_eq ds _ _ _ _ _ (oeq_refl ds _) (op_exp_iter ds _ _ k HE1)). intros a b _ _. unfold oscl, minus_i, cscale. apply C_ext; cbn; ring. }
  rewrite EE, evolved_iter by exact Hi. fold S0. eapply Rle_trans; [apply power_error; assumption|]. rewrite (Rmult_assoc (INR k)). apply Rmult_le_compat_l; [apply pos_INR|].
  apply Rmult_le_compat_r; [apply sqrt_pos|]. lra.
Qed.

(** C60.  Error after any number of steps in real time, with Hermitian terms: first order for Trotter2, second for Trotter3,
    fourth (up to the rounding of its constants) for Forest-Ruth *)
Theorem C60_trotter2_long : long_error trotter2_unitaries [0; 1]%nat 1 0.
Proof. apply (layers_long 0); [repeat constructor|cbn; intros n Hn; lia|intros dt n Hdt; apply coef_trotter2; lra|exact (proj1 (C60_trotter2_refuted DoNotTruncate 0 false))]. Qed.
Theorem C60_trotter3_long : long_error trotter3_unitaries [1; 0; 1]%nat 2 0.
Proof. apply (layers_long 1); [repeat constructor|cbn; intros n Hn; lia|intros dt n Hdt; apply coef_trotter3; lra|exact (proj1 (C60_trotter3 DoNotTruncate 0 false))]. Qed.
Theorem C60_forest_ruth_long : long_error forest_ruth_unitaries [0; 1; 2; 3; 2; 1; 0]%nat 4 (3 / 10 ^ 15).
Proof. apply (layers_long 2); [repeat constructor|cbn; intros n Hn; lia|exact coef_forest_ruth|exact (proj1 (C60_forest_ruth DoNotTruncate 0 false))]. Qed.
End Long.

(** ** Steps of the solvers *)
Section Steps.
Notation T := (@tensor CS).
Notation ham := (@hamiltonian CS).
Notation state := (list T).
Variable expm : T -> T.
Hypothesis Hexpm : expm_contract expm.
Variable svd : T -> T * list R * T.
Hypothesis Hsvd : @svd_contract CC svd.
Variable flag : R.
Variable simplify : state -> nat -> bool -> result (state * R).

(** The amplitudes of psi' and those of exp(-i dt H) psi differ by at most b sum |psi| *)
Definition near (H : ham) (dt : Cx) (psi psi' : state) (b : R) : Prop :=
  forall E is, is_op_exp (h_dims H) (fun is js => Cmul (minus_i dt) (total H is js)) E -> in_range (h_dims H) is ->
    C1 (Csub (@amp CS psi' is) (@act CS (h_dims H) E (@amp CS psi) is)) <= b * rcfg (h_dims H) (fun js => C1 (@amp CS psi js)).

(** C60.  One step of the solvers without truncation on a state with bond dimensions D at the ends, if no layer dropped anything *)
Theorem C60_forest_ruth_step (H : ham) : flag <> 0 -> @full_terms CC H -> exists C B, 0 <= C /\ 0 <= B /\
  forall dt us D psi s Dmax psi' s', Cim dt = 0 -> C1 dt <= 1 -> solver_new expm forest_ruth_unitaries H dt = Ok us ->
    (0 < D)%nat -> @linked CS D psi D -> pdims psi = h_dims H ->
    @one_step CC svd flag simplify forest_ruth_calls us DoNotTruncate Dmax false (psi, s) = Ok (psi', s', 0) ->
    near H dt psi psi' (C * C1 dt ^ 5 + 3 / 10 ^ 15 * B).
Proof.
  intros Hf HF. destruct (C60_forest_ruth_error expm Hexpm H HF) as (C & B & HC & HB & HE). exists C, B. split; [exact HC|]. split; [exact HB|].
  intros dt us D psi s Dmax psi' s' Hdt H1 Eu HD HL Hp E1 E is HEx Hi.
  destruct (C59_forest_ruth expm Hexpm svd Hsvd flag simplify H dt HF D HD psi HL Hp us Dmax s Hf Eu) as (psi2 & s2 & e & E2 & _ & _ & _ & _ & Ha).
  assert (X : Ok (psi', s', 0) = Ok (psi2, s2, e)) by (rewrite <- E1; exact E2). apply Ok_inj' in X. injection X as <- <- <-.
  rewrite (Ha eq_refl is Hi). apply HE; assumption.
Qed.
Theorem C60_trotter2_step (H : ham) : @full_terms CC H -> exists C, 0 <= C /\
  forall dt us D psi s Dmax nrm psi' s' es, Cim dt <= 0 -> C1 dt <= 1 -> solver_new expm trotter2_unitaries H dt = Ok us ->
    (0 < D)%nat -> @linked CS D psi D -> pdims psi = h_dims H ->
    @exec_calls CC svd flag simplify us (map fst (trotter2_calls DoNotTruncate Dmax nrm)) (psi, s) = Ok (psi', s', es) -> Forall (fun e => e = 0) es ->
    @one_step CC svd flag simplify trotter2_calls us DoNotTruncate Dmax nrm (psi, s) = Ok (psi', s', 0) /\ near H dt psi psi' (C * C1 dt ^ 2).
Proof.
  intros HF. destruct (C60_trotter2_error expm Hexpm H HF) as (C & B & HC & HB & HE). exists C. split; [exact HC|].
  intros dt us D psi s Dmax nrm psi' s' es Hdt H1 Eu HD HL Hp E1 Hes.
  destruct (C59_trotter2_partial expm Hexpm svd Hsvd flag simplify H dt HF D HD psi HL Hp us Dmax nrm s Eu) as (psi2 & s2 & es2 & E2 & E3 & _ & _ & _ & Ha).
  assert (X : Ok (psi', s', es) = Ok (psi2, s2, es2)) by (rewrite <- E1; exact E3). apply Ok_inj' in X. injection X as <- <- <-.
  split; [exact E2|]. intros E is HEx Hi. rewrite (Ha Hes is Hi). specialize (HE dt us E (@amp CS psi) is Hdt H1 Eu HEx Hi). rewrite Rmult_0_l, Rplus_0_r in HE. exact HE.
Qed.
Theorem C60_trotter3_step (H : ham) : @full_terms CC H -> exists C, 0 <= C /\
  forall dt us D psi s Dmax psi' s' es, Cim dt <= 0 -> C1 dt <= 1 -> solver_new expm trotter3_unitaries H dt = Ok us ->
    (0 < D)%nat -> @linked CS D psi D -> pdims psi = h_dims H ->
    @exec_calls CC svd flag simplify us (map fst (trotter3_calls DoNotTruncate Dmax false)) (psi, s) = Ok (psi', s', es) -> Forall (fun e => e = 0) es ->
    @one_step CC svd flag simplify trotter3_calls us DoNotTruncate Dmax false (psi, s) = Ok (psi', s', 0) /\ near H dt psi psi' (C * C1 dt ^ 3).
Proof.
  intros HF. destruct (C60_trotter3_error expm Hexpm H HF) as (C & B & HC & HB & HE). exists C. split; [exact HC|].
  intros dt us D psi s Dmax psi' s' es Hdt H1 Eu HD HL Hp E1 Hes.
  destruct (C59_trotter3_partial expm Hexpm svd Hsvd flag simplify H dt HF D HD psi HL Hp us Dmax s Eu) as (psi2 & s2 & es2 & E2 & E3 & _ & _ & _ & Ha).
  assert (X : Ok (psi', s', es) = Ok (psi2, s2, es2)) by (rewrite <- E1; exact E3). apply Ok_inj' in X. injection X as <- <- <-.
  split; [exact E2|]. intros E is HEx Hi. rewrite (Ha Hes is Hi). specialize (HE dt us E (@amp CS psi) is Hdt H1 Eu HEx Hi). rewrite Rmult_0_l, Rplus_0_r in HE. exact HE.
Qed.
End Steps.

(** The hypotheses hold for three spins with interaction |11><11| and local terms sigma_x (C61_instance), and the exponential exists *)
Example C60_instance : exists expm svd H us psi' s' E, expm_contract expm /\ @svd_contract CC svd /\ @full_terms CC H /\ hermitian_terms H /\
  solver_new expm forest_ruth_unitaries H (mkC (1 / 10) 0) = Ok us /\ C1 (mkC (1 / 10) 0) <= 1 /\ @linked CS 1 up3 1 /\ pdims up3 = h_dims H /\
  @one_step CC svd 1 (fun _ _ _ => Abort) forest_ruth_calls us DoNotTruncate 0 false (up3, 0%Z) = Ok (psi', s', 0) /\
  is_op_exp (h_dims H) (fun is js => Cmul (minus_i (mkC (1 / 10) 0)) (total H is js)) E.
Proof.
  destruct C61_instance as (expm & svd & H & us & psi' & s' & He & Hs & E & HF & HH & Eu & E1 & _).
  destruct (op_exp_exists (h_dims H) (fun is js => Cmul (minus_i (mkC (1 / 10) 0)) (total H is js))) as (X & HX).
  exists expm, svd, H, us, psi', s', X. split; [exact He|]. split; [exact Hs|]. split; [exact HF|]. split; [exact HH|]. split; [exact Eu|]. split; [rewrite C1_real, Rabs_right; lra|]. split.
  - cbn. exists 2%nat, 1%nat. repeat split; try lia. exists 2%nat, 1%nat. repeat split; try lia. exists 2%nat, 1%nat. repeat split; lia.
  - split; [|split; [exact E1|exact HX]]. destruct (@ti_full CC 3 2 zz4 sx2 false [zz4] [zz4] zz_data ltac:(lia)) as (H' & E' & _ & _ & Eds & _). rewrite E in E'. apply Ok_inj' in E'. subst H'. rewrite Eds. reflexivity.
Qed.
