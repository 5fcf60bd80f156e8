(** * C60: the error of one step of the Trotter solvers *)
From Coq Require Import Reals Lra Bool List Arith ZArith QArith Qreals Lia Ring.
From Verif Require Import Scalar ScalarFacts RScal RealInst Tensor TensorFacts Spec MpsModel MpsFacts ExpectedFacts
  HamSpec HamModel HamFacts SparseSpec SparseModel SparseFacts CanonSpec CanonModel TruncFacts CanonFacts CanonSweep
  TrotterSpec TrotterModel TrotterFacts TrotterApply TrotterRun TrotterLoop TrotterExec TrotterNorm TrotterExp OpSpec OpAlgebra OpExp LayerExp TrotterError Properties_Trotter.
Import ListNotations.
Local Open Scope R_scope.

(** act and products *)
Section Act.
Context {SC : Scalar}.
Add Ring Kring : k_ring.
Local Open Scope K_scope.
Lemma act_mul ds A B f is : act ds (op_mul ds A B) f is = act ds A (act ds B f) is.
Proof.
  unfold act, op_mul. transitivity (sumcfg ds (fun js => sumcfg ds (fun ks => A is ks * B ks js * f js))).
  - apply sumcfg_ext. intros js _. apply sumcfg_mul_r.
  - rewrite sumcfg_swap. apply sumcfg_ext. intros ks _. rewrite sumcfg_mul_l. apply sumcfg_ext. intros. ring.
Qed.
Lemma act_ext ds A f g is : (forall js, in_range ds js -> f js = g js) -> act ds A f is = act ds A g is.
Proof. intros H. apply sumcfg_ext. intros js Hj. rewrite H by exact Hj. reflexivity. Qed.
Lemma act_id ds f is : in_range ds is -> act ds id_op f is = f is.
Proof. intros H. apply (sumcfg_id_op ds is f H). Qed.
End Act.

Lemma oprod_app ds As A : oeqC ds (oprod ds (As ++ [A])) (omul ds (oprod ds As) A).
Proof.
  induction As as [|A' As IH]; cbn [app oprod].
  - eapply oeq_trans; [apply op_mul_id_r|apply oeq_sym; apply op_mul_id_l].
  - eapply oeq_trans; [apply op_mul_eq; [apply oeq_refl|exact IH]|]. intros is js _ _. symmetry. apply (@op_mul_assoc CS).
Qed.
Lemma fold_act ds : forall As f is, in_range ds is -> fold_left (fun f A => @act CS ds A f) As f is = @act CS ds (oprod ds (rev As)) f is.
Proof.
  induction As as [|A As IH]; intros f is Hi; cbn [fold_left rev].
  - symmetry. apply (@act_id CS); exact Hi.
  - rewrite IH by exact Hi. etransitivity; [symmetry; apply (@act_mul CS ds (oprod ds (rev As)) A f is)|]. unfold act. apply (@sumcfg_ext CS). intros js Hj. f_equal. symmetry. apply oprod_app; assumption.
Qed.

(** The difference of two operators applied to a vector *)
Lemma act_diff ds A B f is : in_range ds is -> C1 (Csub (@act CS ds A f is) (@act CS ds B f is)) <= nrm ds (@osub CS A B) * rcfg ds (fun js => C1 (f js)).
Proof.
  intros Hi. unfold act. change Csub with (@ksub CS). rewrite <- (@sumcfg_sub CS). eapply Rle_trans; [apply C1_cfg|]. rewrite rcfg_scl_l. apply rcfg_le. intros js Hj.
  replace (@ksub CS (@kmul CS (A is js) (f js)) (@kmul CS (B is js) (f js))) with (Cmul (@osub CS A B is js) (f js)) by (unfold osub; apply C_ext; cbn; ring).
  eapply Rle_trans; [apply C1_mul|]. apply Rmult_le_compat_r; [apply C1_pos|]. apply nrm_entry; assumption.
Qed.

Section Error.
Notation T := (@tensor CS).
Notation ham := (@hamiltonian CS).
Variable expm : T -> T.
(** expm() of a square matrix is its exponential: the sum of the series M^k/k! *)
Hypothesis Hexpm : expm_contract expm.

(** The Hamiltonian: the sum of all interactions and local terms *)
Definition total (H : ham) : list nat -> list nat -> Cx := @pair_chain CS (h_dims H) (h_interaction H) (h_local H).

(** The layers [ns] of the solver with unitaries [l], acting one after the other on [f], differ from the exact evolution
    exp(-i dt H) of [f] by at most (C |dt|^(m+1) + eps B) sum |f|, for all time steps |dt| <= 1 with [ok dt], where C and B
    depend on the Hamiltonian only.  |z| is |Re z| + |Im z|. *)
Definition step_error (l : list (nat * R)) (ns : list nat) (ok : Cx -> Prop) (m : nat) (eps : R) : Prop :=
  forall H : ham, @full_terms CC H -> exists C B, 0 <= C /\ 0 <= B /\
  forall dt us E f is, ok dt -> C1 dt <= 1 -> solver_new expm l H dt = Ok us ->
    is_op_exp (h_dims H) (fun is js => Cmul (minus_i dt) (total H is js)) E -> in_range (h_dims H) is ->
    C1 (Csub (evolved us l (h_dims H) ns f is) (@act CS (h_dims H) E f is)) <= (C * C1 dt ^ S m + eps * B) * rcfg (h_dims H) (fun js => C1 (f js)).

Definition product_formula (l : list (nat * R)) (ns : list nat) : list (R * bool) :=
  rev (map (fun n => (snd (nth n l (0%nat, 0)), Nat.eqb (par l n) 0)) ns).

Lemma block_op_scl ds (x : nat * bool) c G is js : @block_op CS ds x (fun i j => Cmul c (G i j)) is js = Cmul c (@block_op CS ds x G is js).
Proof.
  destruct x as (k, b). unfold block_op. cbn [fst snd]. destruct b.
  - revert ds is js. induction k as [|k IH]; intros ds is js.
    + destruct ds as [|d ds], is as [|i [|i' is]], js as [|j [|j' js]]; cbn [pair_op]; apply C_ext; cbn; ring.
    + destruct ds as [|d ds], is as [|i is], js as [|j js]; cbn [pair_op]; try (apply C_ext; cbn; ring). rewrite IH. apply C_ext; cbn; ring.
  - apply (@site_op_scale CC k c G is js).
Qed.
Lemma block_op_ext ds (x : nat * bool) A B is js : in_range ds is -> in_range ds js -> (fst x + (if snd x then 2 else 1) <= length ds)%nat ->
  (forall i j, (i < block_dim ds x)%nat -> (j < block_dim ds x)%nat -> A i j = B i j) -> @block_op CS ds x A is js = @block_op CS ds x B is js.
Proof.
  destruct x as (k, b). unfold block_op, block_dim. cbn [fst snd]. destruct b; intros Hi Hj Hx H.
  - apply (@Properties_Sparse.pair_op_ext CS ds k A B is js Hi Hj ltac:(lia)). intros r r' c c' Hr Hr' Hc Hc'. apply H; nia.
  - apply (@site_op_ext CC ds k A B is js Hi Hj ltac:(lia)). exact H.
Qed.

Lemma layer_is_exp l (H : ham) dt us n : @full_terms CC H -> Forall (fun x => (fst x <= 1)%nat) l -> solver_new expm l H dt = Ok us -> (n < length l)%nat ->
  is_op_exp (h_dims H) (@oscl CS (coef l dt n) (@layer_sum CS (Nat.eqb (par l n) 0) (h_dims H) (fun x => @mat CS (@TrotterFacts.gen CC H x)))) (layer us l (h_dims H) n).
Proof.
  intros HF Hl E Hn. set (b := Nat.eqb (par l n) 0). set (ds := h_dims H).
  assert (HL : length ds = h_size H) by apply (@length_h_dims CC).
  assert (GM : forall x, In x (blocks b 0 (length ds)) -> @is_matrix CS (@TrotterFacts.gen CC H x) (block_dim ds x) (block_dim ds x)).
  { intros x Hx. pose proof (blocks_range _ _ _ _ Hx) as Hr. rewrite HL in Hr.
    assert (Z : exists is, in_range ds is).
    { assert (P : forall d, In d ds -> (0 < d)%nat).
      { intros d Hd. unfold ds, h_dims in Hd. apply in_map_iff in Hd. destruct Hd as (k & <- & Hk). apply in_seq in Hk. destruct HF as (_ & HF2 & _). apply HF2. lia. }
      clear -P. induction ds as [|d ds IH]; [exists []; constructor|]. destruct IH as (is & His); [intros d' Hd; apply P; right; exact Hd|]. exists (0%nat :: is). constructor; [apply P; left; reflexivity|exact His]. }
    destruct Z as (is & His). destruct (@gen_ok CC H x is is HF His His ltac:(lia)) as (G & _). exact G. }
  destruct (solver_new_ok expm l H dt HF Hl) as (us' & E' & _ & Hu). rewrite E in E'. apply Ok_inj' in E'. subst us'.
  assert (Hp1 : (par l n <= 1)%nat) by (unfold par; rewrite Forall_forall in Hl; apply (Hl (nth n l (0%nat, 0))); apply nth_In; exact Hn).
  destruct (@unitary_new_ok CC expm H (par l n) (coef l dt n) HF Hp1) as (u & Eu & _ & _ & Hat). rewrite (Hu n Hn) in Eu. apply Ok_inj' in Eu. subst u.
  refine (op_exp_eq ds _ _ _ _ _ (oeq_refl ds _) (layer_exp b 0 ds (fun x => @mat CS (@tscale CS (coef l dt n) (@TrotterFacts.gen CC H x))) _ _)).
  - intros is js Hi Hj. unfold lsum, layer_sum, oscl.
    assert (G : forall q, (forall x, In x q -> In x (blocks b 0 (length ds))) ->
      fold_right (fun x s => @kadd CS (@block_op CS ds (rel 0 x) (@mat CS (@tscale CS (coef l dt n) (@TrotterFacts.gen CC H x))) is js) s) (@k0 CS) q =
      Cmul (coef l dt n) (fold_right (fun x s => @kadd CS (@block_op CS ds x (@mat CS (@TrotterFacts.gen CC H x)) is js) s) (@k0 CS) q)).
    { induction q as [|x q IH]; intros Hq; cbn [fold_right]; [apply C_ext; cbn; ring|]. rewrite IH by (intros y Hy; apply Hq; right; exact Hy).
      specialize (Hq x (or_introl eq_refl)). pose proof (blocks_range _ _ _ _ Hq) as Hr. replace (rel 0 x) with x by (destruct x; unfold rel; cbn; rewrite Nat.sub_0_r; reflexivity).
      rewrite (block_op_ext ds x _ (fun i j => Cmul (coef l dt n) (@mat CS (@TrotterFacts.gen CC H x) i j))).
      - rewrite block_op_scl. apply C_ext; cbn; ring.
      - exact Hi.
      - exact Hj.
      - lia.
      - intros i j Bi Bj. destruct (GM x Hq) as (G1 & G2). unfold mat. rewrite get_tscale; [reflexivity|exact G2|rewrite G1; apply in_range_2; assumption]. }
    apply G. auto.
  - intros x Hx. replace (rel 0 x) with x by (destruct x; unfold rel; cbn; rewrite Nat.sub_0_r; reflexivity).
    rewrite HL in Hx. unfold u_no in Hat. change Nat.eqb with Nat.eqb in Hat. rewrite (Hat x Hx). rewrite <- HL in Hx. apply Hexpm. destruct (GM x Hx) as (G1 & G2). split; [exact G1|apply wf_tscale; exact G2].
Qed.

Lemma layers_norm l ns (ok : Cx -> Prop) m eps (H : ham) : Forall (fun x => (fst x <= 1)%nat) l -> (forall n, In n ns -> (n < length l)%nat) ->
  (forall dt n, ok dt -> In n ns -> coef l dt n = Cmul (minus_i dt) (mkC (snd (nth n l (0%nat, 0))) 0)) ->
  accurate (product_formula l ns) m eps -> @full_terms CC H -> exists C B, 0 <= C /\ 0 <= B /\
  forall dt us E, ok dt -> C1 dt <= 1 -> solver_new expm l H dt = Ok us ->
    is_op_exp (h_dims H) (fun is js => Cmul (minus_i dt) (total H is js)) E ->
    nrm (h_dims H) (@osub CS (oprod (h_dims H) (rev (map (layer us l (h_dims H)) ns))) E) <= C * C1 dt ^ S m + eps * B.
Proof.
  intros Hl Hns Hok HA HF. set (ds := h_dims H). set (X := fun b : bool => @layer_sum CS b ds (fun x => @mat CS (@TrotterFacts.gen CC H x))).
  destruct (product_error ds X _ m eps HA) as (C & B & HC & HB & HE). exists C, B. split; [exact HC|]. split; [exact HB|].
  intros dt us E Hdt H1 Eu HEx.
  assert (Ht : C1 (minus_i dt) = C1 dt) by (unfold C1, minus_i; cbn; rewrite Rabs_Ropp; ring).
  specialize (HE (minus_i dt) (rev (map (layer us l ds) ns)) E). rewrite Ht in HE. specialize (HE H1).
  assert (E1 : exps ds X (minus_i dt) (product_formula l ns) (rev (map (layer us l ds) ns))).
  { unfold exps, product_formula. rewrite <- !map_rev. assert (Hr : forall n, In n (rev ns) -> In n ns) by (intros n Hn; apply in_rev; exact Hn).
    revert Hr. generalize (rev ns) as q. induction q as [|n q IH]; intros Hr; cbn [map]; constructor; [|apply IH; intros k Hk; apply Hr; right; exact Hk].
    specialize (Hr n (or_introl eq_refl)). refine (op_exp_eq ds _ _ _ _ _ (oeq_refl ds _) (layer_is_exp l H dt us n HF Hl Eu (Hns n Hr))).
    intros js ks _ _. unfold oscl, TrotterError.gen. cbn [fst snd]. unfold oscl. rewrite (Hok dt n Hdt Hr). unfold X. symmetry. apply (@Rmul_assoc _ _ _ _ _ _ _ _ (@k_ring CS)) || (apply C_ext; cbn; ring). }
  specialize (HE E1). apply HE.
  refine (op_exp_eq ds _ _ _ _ _ (oeq_refl ds _) HEx). intros js ks Hj Hk. unfold oscl, oadd, X, total. change (@kmul CS) with Cmul. f_equal. symmetry. unfold layer_sum. unfold ds. rewrite (@length_h_dims CC). apply (@both_layers CC H js ks HF Hj Hk).
Qed.
Lemma evolved_op us l ds ns f is : in_range ds is -> evolved us l ds ns f is = @act CS ds (oprod ds (rev (map (layer us l ds) ns))) f is.
Proof. intros Hi. rewrite <- fold_act by exact Hi. unfold evolved. clear. revert f. induction ns as [|n ns IH]; intros f; [reflexivity|]. cbn [map fold_left]. apply IH. Qed.

Lemma layers_error l ns (ok : Cx -> Prop) m eps : Forall (fun x => (fst x <= 1)%nat) l -> (forall n, In n ns -> (n < length l)%nat) ->
  (forall dt n, ok dt -> In n ns -> coef l dt n = Cmul (minus_i dt) (mkC (snd (nth n l (0%nat, 0))) 0)) ->
  accurate (product_formula l ns) m eps -> step_error l ns ok m eps.
Proof.
  intros Hl Hns Hok HA H HF. destruct (layers_norm l ns ok m eps H Hl Hns Hok HA HF) as (C & B & HC & HB & HE). exists C, B. split; [exact HC|]. split; [exact HB|].
  intros dt us E f is Hdt H1 Eu HEx Hi. rewrite evolved_op by exact Hi. eapply Rle_trans; [apply act_diff; exact Hi|]. apply Rmult_le_compat_r; [apply rcfg_nonneg; intros; apply C1_pos|apply HE; assumption].
Qed.

Lemma coef_trotter2 dt n : Cim dt <= 0 -> In n [0; 1]%nat -> coef trotter2_unitaries dt n = Cmul (minus_i dt) (mkC (snd (nth n trotter2_unitaries (0%nat, 0))) 0).
Proof. intros Hdt [<-|[<-|[]]]; unfold coef, rotate, cscale, minus_i; cbn; apply C_ext; cbn; rewrite ?Rabs_left1 by lra; ring. Qed.
Lemma coef_trotter3 dt n : Cim dt <= 0 -> In n [1; 0; 1]%nat -> coef trotter3_unitaries dt n = Cmul (minus_i dt) (mkC (snd (nth n trotter3_unitaries (0%nat, 0))) 0).
Proof. intros Hdt [<-|[<-|[<-|[]]]]; unfold coef, rotate, cscale, minus_i; cbn; apply C_ext; cbn; rewrite ?Rabs_left1 by lra; lra. Qed.
Lemma coef_forest_ruth dt n : Cim dt = 0 -> In n [0; 1; 2; 3; 2; 1; 0]%nat -> coef forest_ruth_unitaries dt n = Cmul (minus_i dt) (mkC (snd (nth n forest_ruth_unitaries (0%nat, 0))) 0).
Proof. intros Hdt Hn; cbn in Hn; repeat (destruct Hn as [<-|Hn]; [unfold coef, rotate, cscale, minus_i; cbn; rewrite !Hdt; apply C_ext; cbn; rewrite ?Rmult_0_r, ?Rabs_R0; ring|]); destruct Hn. Qed.

(** C60.  The error of one step of each solver.  Trotter2: order |dt|^2.  (real time, and imaginary time with Im dt <= 0) *)
Theorem C60_trotter2_error : step_error trotter2_unitaries [0; 1]%nat (fun dt => Cim dt <= 0) 1 0.
Proof. apply layers_error; [repeat constructor|cbn; intros n Hn; lia|exact coef_trotter2|exact (proj1 (C60_trotter2_refuted DoNotTruncate 0 false))]. Qed.
(** Trotter3: order |dt|^3 *)
Theorem C60_trotter3_error : step_error trotter3_unitaries [1; 0; 1]%nat (fun dt => Cim dt <= 0) 2 0.
Proof. apply layers_error; [repeat constructor|cbn; intros n Hn; lia|exact coef_trotter3|exact (proj1 (C60_trotter3 DoNotTruncate 0 false))]. Qed.
(** Forest-Ruth: order |dt|^5, up to the rounding of its constants; real time *)
Theorem C60_forest_ruth_error : step_error forest_ruth_unitaries [0; 1; 2; 3; 2; 1; 0]%nat (fun dt => Cim dt = 0) 4 (3 / 10 ^ 15).
Proof. apply layers_error; [repeat constructor|cbn; intros n Hn; lia|exact coef_forest_ruth|exact (proj1 (C60_forest_ruth DoNotTruncate 0 false))]. Qed.
End Error.
