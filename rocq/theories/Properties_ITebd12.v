(** * C54: the steps of evolve_itime() approximate exp(-dt H) on every ring *)
From Coq Require Import Reals Lra Bool List Arith ZArith QArith Qreals Lia Ring.
From Verif Require Import Scalar ScalarFacts RScal RealInst Tensor TensorFacts Spec MpsModel MpsFacts CanonModel CanonSpec CanonFacts CanonSweep ExpectedFacts
  SparseSpec SparseFacts DmrgSplit TrotterSpec TrotterFacts TrotterExp OpSpec OpAlgebra OpExp LayerExp TrotterError Properties_Trotter Properties_Trotter2 TrotterLong
  ToolsModel ITebdModel ITebdSpec ITebdSpec2 ITimeModel Properties_ITebd6 Properties_ITebd10 Properties_ITebd11.
Import ListNotations.
Local Open Scope R_scope.

(** [h] on the pairs (0,1), (2,3), ... of n cells; sites with the dimensions [ds] *)
Definition bonds (ds : list nat) (n : nat) (h : nat -> nat -> Cx) (is js : list nat) : Cx := @sum CS n (fun k => @pair_op CS (2 * k) ds h is js).
(** ... and on all pairs of neighbours of a ring of n cells: (0,1), (2,3), ... and (1,2), ..., (last,0) *)
Definition ring_sum (ds : list nat) (n : nat) (h : nat -> nat -> Cx) (is js : list nat) : Cx :=
  Cadd (bonds ds n h is js) (bonds (rot ds) n h (rot is) (rot js)).

Section Bonds.
Notation two := (@LayerExp.two CS).
Lemma bonds_S d d' ds n h : oeqC (d :: d' :: ds) (bonds (d :: d' :: ds) (S n) h) (@oadd CS (@kr CS 2 (two d h) (@id_op CS)) (@kr CS 2 (@id_op CS) (bonds ds n h))).
Proof.
  intros is js Hi Hj. apply in_range_cons_inv in Hi, Hj. destruct Hi as (i & is1 & -> & Hi & His). destruct Hj as (j & js1 & -> & Hj & Hjs).
  apply in_range_cons_inv in His, Hjs. destruct His as (i' & is2 & -> & Hi' & His). destruct Hjs as (j' & js2 & -> & Hj' & Hjs).
  unfold bonds. rewrite (@sum_S_l CS). unfold oadd, kr. cbn [firstn skipn]. f_equal.
  rewrite (@sum_mul_l CS). apply (@sum_ext CS). intros k _. replace (2 * S k)%nat with (S (S (2 * k))) by lia. cbn [pair_op id_op]. apply C_ext; cbn; ring.
Qed.
Lemma bonds_exp d d' h E n : is_exp (d * d') h E -> is_op_exp (concat (repeat [d; d'] n)) (bonds (concat (repeat [d; d'] n)) n h) (@cells_op CC d E).
Proof.
  intros H. induction n as [|n IH].
  - intros is js Hi Hj. cbn in Hi, Hj. apply in_range_nil_inv in Hi, Hj. subst. apply (Ccv_ext (fun _ => mkC 1 0)); [|apply (Ccv_const (mkC 1 0))].
    intros N. unfold op_exp_sum. rewrite (@sum_S_l CS). rewrite (@sum_zero CS N).
    + cbn. apply C_ext; cbn; rewrite ?Rinv_1; ring.
    + intros k Hk. cbn [op_pow]. unfold op_mul. cbn. apply C_ext; cbn; ring.
  - change (concat (repeat [d; d'] (S n))) with (d :: d' :: concat (repeat [d; d'] n)). set (ds := concat (repeat [d; d'] n)) in *.
    pose proof (kr_exp [d; d'] ds _ _ _ _ (two_exp d d' _ _ H) IH) as K0. cbn [length app] in K0. refine (op_exp_eq (d :: d' :: ds) _ _ _ _ _ _ K0).
    + apply oeq_sym. apply bonds_S.
    + intros is js Hi Hj. apply in_range_cons_inv in Hi, Hj. destruct Hi as (i & is1 & -> & Hi & His). destruct Hj as (j & js1 & -> & Hj & Hjs).
      apply in_range_cons_inv in His, Hjs. destruct His as (i' & is2 & -> & Hi' & His). destruct Hjs as (j' & js2 & -> & Hj' & Hjs). reflexivity.
Qed.

(** the same on a ring turned by one site *)
Lemma id_op_rot (is js : list nat) : length is = length js -> @id_op CS (rot is) (rot js) = @id_op CS is js.
Proof.
  destruct is as [|i is], js as [|j js]; intros H; try discriminate H; [reflexivity|]. cbn in H. cbn [rot]. rewrite (@id_op_app' CS) by lia. cbn [id_op]. apply C_ext; cbn; ring.
Qed.
Lemma op_pow_rot ds A k : oeqC ds (fun is js => opow (rot ds) A k (rot is) (rot js)) (opow ds (fun is js => A (rot is) (rot js)) k).
Proof.
  induction k as [|k IH]; intros is js Hi Hj; cbn [op_pow].
  - apply id_op_rot. apply in_range_length in Hi, Hj. congruence.
  - unfold op_mul. refine (eq_trans (@sumcfg_rot CC ds _) _). apply (@sumcfg_ext CS). intros ks Hk. f_equal. exact (IH ks js Hk Hj).
Qed.
Lemma exp_rot ds A E : is_op_exp (rot ds) A E -> is_op_exp ds (fun is js => A (rot is) (rot js)) (fun is js => E (rot is) (rot js)).
Proof.
  intros H is js Hi Hj. refine (Ccv_ext _ _ _ _ (H (rot is) (rot js) (in_range_rot ds is Hi) (in_range_rot ds js Hj))). intros N. unfold op_exp_sum. apply (@sum_ext CS). intros k _. f_equal.
  exact (op_pow_rot ds A k is js Hi Hj).
Qed.
Lemma rot_cells (d d' n : nat) : rot (concat (repeat [d; d'] n)) = concat (repeat [d'; d] n).
Proof.
  destruct n as [|n]; [reflexivity|]. cbn [repeat concat app rot]. 
  assert (G : forall n, concat (repeat [d; d'] n) ++ [d] = d :: concat (repeat [d'; d] n)).
  { induction n0 as [|q IH]; [reflexivity|]. cbn [repeat concat app]. rewrite IH. reflexivity. }
  rewrite G. reflexivity.
Qed.
Lemma pair_op_scl k ds c h is js : @pair_op CS k ds (fun i j => Cmul c (h i j)) is js = Cmul c (@pair_op CS k ds h is js).
Proof. apply (block_op_scl ds (k, true)). Qed.
Lemma bonds_scl ds n c h is js : bonds ds n (fun i j => Cmul c (h i j)) is js = Cmul c (bonds ds n h is js).
Proof. unfold bonds. change Cmul with (@kmul CS). rewrite (@sum_mul_l CS). apply (@sum_ext CS). intros k _. apply pair_op_scl. Qed.
Lemma is_exp_eq d A B E : (forall i j, (i < d)%nat -> (j < d)%nat -> A i j = B i j) -> is_exp d A E -> is_exp d B E.
Proof.
  intros H HE i j Hi Hj. refine (Ccv_ext _ _ _ _ (HE i j Hi Hj)). intros N. unfold epart. apply (@sum_ext CS). intros k _. f_equal. clear N. revert i Hi.
  induction k as [|k IH]; intros i Hi; [reflexivity|]. cbn [mpow]. apply (@sum_ext CS). intros r Hr. rewrite (IH r Hr), H by assumption. reflexivity.
Qed.
End Bonds.

Section C54.
Notation T := (@tensor CS).
Notation itebd := (@itebd CC).
Variable expm : T -> T.
(** expm() of a square matrix is its exponential: the sum of the series M^k/k! *)
Hypothesis Hexpm : expm_contract expm.

(** H on the ring of n cells of the state [psi] *)
Definition ring_h (psi : itebd) (n : nat) (H12 : T) : list nat -> list nat -> Cx := ring_sum (cell_dims psi n) n (@mat CS H12).

Variable psi : itebd.
Variable H12 : T.
Let d := (dim (iA psi) 1 * dim (iB psi) 1)%nat.
Hypothesis HH : @is_matrix CS H12 d d.

Definition half (n : nat) (b : bool) : list nat -> list nat -> Cx := fun is js =>
  if b then bonds (cell_dims psi n) n (@mat CS H12) is js else bonds (rot (cell_dims psi n)) n (@mat CS H12) (rot is) (rot js).

Lemma layer_op_exp n dt c site : (site = 0 \/ site = 1)%nat ->
  is_op_exp (cell_dims psi n) (@oscl CS (mkC (- dt) 0) (TrotterError.gen (half n) (c, Nat.eqb site 0)))
    (@on_ring CC psi (Z.of_nat site) (@mat CS (expm (@tscale CS (@rinj CC (- dt * c)) H12)))).
Proof.
  intros Hs. destruct HH as (H1 & H2).
  assert (E0 : is_exp d (fun i j => Cmul (mkC (- dt * c) 0) (@mat CS H12 i j)) (@mat CS (expm (@tscale CS (@rinj CC (- dt * c)) H12)))).
  { refine (is_exp_eq d _ _ _ _ (proj2 (Hexpm d (@tscale CS (@rinj CC (- dt * c)) H12) _))).
    - intros i j Hi Hj. unfold mat. rewrite (@get_tscale CS); [reflexivity|exact H2|rewrite H1; apply in_range_2; assumption].
    - split; [exact H1|apply wf_tscale; exact H2]. }
  set (U := @mat CS (expm (@tscale CS (@rinj CC (- dt * c)) H12))) in *. unfold cell_dims. set (dA := dim (iA psi) 1) in *. set (dB := dim (iB psi) 1) in *.
  destruct Hs as [-> | ->]; unfold on_ring; cbn [Z.of_nat Z.odd Nat.eqb Pos.of_succ_nat].
  - fold dA. refine (op_exp_eq _ _ _ _ _ _ (oeq_refl _ _) (bonds_exp dA dB _ U n E0)). intros is js _ _. rewrite bonds_scl. unfold oscl, TrotterError.gen, half, oscl, cell_dims. cbn [fst snd].
    fold dA dB. apply C_ext; cbn; ring.
  - fold dB. assert (E1 : is_exp (dB * dA) (fun i j => Cmul (mkC (- dt * c) 0) (@mat CS H12 i j)) U) by (rewrite Nat.mul_comm; exact E0).
    pose proof (bonds_exp dB dA _ U n E1) as E2. rewrite <- (rot_cells dA dB n) in E2. pose proof (exp_rot _ _ _ E2) as E3. refine (op_exp_eq _ _ _ _ _ _ (oeq_refl _ _) E3).
    intros is js _ _. rewrite bonds_scl. unfold oscl, TrotterError.gen, half, oscl, cell_dims. cbn [fst snd]. fold dA dB. apply C_ext; cbn; ring.
Qed.

Lemma layers_op n dt l f is : in_range (cell_dims psi n) is ->
  @layers CC expm psi dt H12 n l f is = @act CS (cell_dims psi n) (oprod (cell_dims psi n) (rev (map (fun p => @on_ring CC psi (Z.of_nat (snd p)) (@mat CS (expm (@tscale CS (@rinj CC (- dt * fst p)) H12)))) l))) f is.
Proof.
  intros Hi. rewrite <- fold_act by exact Hi. unfold layers. clear Hi. revert f is. induction l as [|p l IH]; intros f is; [reflexivity|]. cbn [map fold_left]. apply IH.
Qed.
Lemma steps_op n dt l k f is : in_range (cell_dims psi n) is ->
  Nat.iter k (@layers CC expm psi dt H12 n l) f is =
  @act CS (cell_dims psi n) (opow (cell_dims psi n) (oprod (cell_dims psi n) (rev (map (fun p => @on_ring CC psi (Z.of_nat (snd p)) (@mat CS (expm (@tscale CS (@rinj CC (- dt * fst p)) H12)))) l))) k) f is.
Proof.
  revert is. induction k as [|k IH]; intros is Hi; [symmetry; apply (@act_id CS); exact Hi|]. change (Nat.iter (S k) ?F ?x) with (F (Nat.iter k F x)). cbn [op_pow].
  rewrite layers_op by exact Hi. etransitivity; [|symmetry; apply (@act_mul CS)]. apply (@act_ext CS). exact IH.
Qed.

Lemma layers_exps n dt method : exps (cell_dims psi n) (half n) (mkC (- dt) 0) (step_formula method)
  (rev (map (fun p => @on_ring CC psi (Z.of_nat (snd p)) (@mat CS (expm (@tscale CS (@rinj CC (- dt * fst p)) H12)))) (itime_layers method))).
Proof.
  unfold exps, step_formula. rewrite <- !map_rev.
  assert (Hs : forall p, In p (rev (itime_layers method)) -> (snd p = 0 \/ snd p = 1)%nat).
  { intros p Hp. apply in_rev in Hp. destruct method as [|[|method]]; cbn in Hp; repeat (destruct Hp as [<-|Hp]; [cbn; auto|]); destruct Hp. }
  revert Hs. generalize (rev (itime_layers method)) as q. induction q as [|p q IH]; intros Hs; cbn [map]; constructor; [|apply IH; intros x Hx; apply Hs; right; exact Hx].
  apply layer_op_exp. apply Hs. left. reflexivity.
Qed.

(** Up to the time k|dt| <= t_max, k steps of a method of order m differ from exp(-k dt H) by at most k (C |dt|^(m+1) + eps B):
    on the ring of n cells, for every wave function [f]; |z| is |Re z| + |Im z| *)
Definition ring_error (method m : nat) (eps : R) : Prop := forall n t_max, exists C B, 0 <= C /\ 0 <= B /\
  forall dt k E f is, Rabs dt <= 1 -> INR k * Rabs dt <= t_max ->
    is_op_exp (cell_dims psi n) (fun is js => Cmul (mkC (- (INR k * dt)) 0) (ring_h psi n H12 is js)) E -> in_range (cell_dims psi n) is ->
    C1 (Csub (Nat.iter k (@layers CC expm psi dt H12 n (itime_layers method)) f is) (@act CS (cell_dims psi n) E f is))
      <= INR k * (C * Rabs dt ^ S m + eps * B) * rcfg (cell_dims psi n) (fun js => C1 (f js)).

Lemma formula_error method m eps : accurate (step_formula method) m eps -> ring_error method m eps.
Proof.
  intros HA n t_max. destruct (product_error_long (cell_dims psi n) (half n) _ m eps t_max HA) as (C & B & HC & HB & HE). exists C, B. split; [exact HC|]. split; [exact HB|].
  intros dt k E f is H1 Hk HEx Hi. assert (Ht : C1 (mkC (- dt) 0) = Rabs dt) by (rewrite C1_real, Rabs_Ropp; reflexivity).
  pose proof (HE (mkC (- dt) 0) k) as HE'. rewrite Ht in HE'. specialize (HE' _ E H1 Hk (layers_exps n dt method)).
  rewrite steps_op by exact Hi. eapply Rle_trans; [apply act_diff; exact Hi|]. apply Rmult_le_compat_r; [apply rcfg_nonneg; intros; apply C1_pos|]. apply HE'.
  refine (op_exp_eq _ _ _ _ _ _ (oeq_refl _ _) HEx). intros a b _ _. unfold oscl, oadd, half, ring_h, ring_sum. apply C_ext; cbn; ring.
Qed.

(** C54.  First order for method 0, second for method 1, fourth (up to the rounding of the constants) for the others *)
Theorem C54_error_simple : ring_error 0 1 0.
Proof. apply formula_error. exact (proj1 C54_order_simple). Qed.
Theorem C54_error_symmetric : ring_error 1 2 0.
Proof. apply formula_error. exact (proj1 C54_order_symmetric). Qed.
Theorem C54_error_forest_ruth method : (2 <= method)%nat -> ring_error method 4 (3 / 10 ^ 15).
Proof. intros H. apply formula_error. exact (proj1 (C54_order_forest_ruth method H)). Qed.

(** The whole function.  [phi], the state that evolve_itime(psi, H12, dt, nsteps, ...) returns without truncation, is, up to a factor N
    per cell, exp(-k dt H) psi on every ring up to the error of the method, where k is nsteps rounded up to a multiple of the
    reporting interval *)
Variable svd : T -> T * list R * T.
Variable eigs : (T -> T) -> nat -> T -> T.
Variable eig_sym : T -> list R * T.
Hypothesis Hsvd : @svd_contract CC svd.
Hypothesis Hes : @eig_sym_contract CC eig_sym.
Hypothesis Hei : @eigs_sized CC eigs.
Variable flag : R.
Definition approximates (method m : nat) (eps : R) : Prop := forall n t_max, exists C B, 0 <= C /\ 0 <= B /\
  forall dt nsteps tol Dmax deltan phi Es Ss, (TruncFacts.eff_tol flag tol = 0 \/ 1 <= TruncFacts.eff_tol flag tol) -> (Dmax <= 0)%Z -> Rabs dt <= 1 ->
    @evolve_infinite CC svd flag eigs eig_sym expm psi H12 dt nsteps tol Dmax deltan method = Ok (phi, Es, Ss) ->
    let interval := if Nat.eqb deltan 0 then 1%nat else deltan in
    exists k N, (nsteps <= k < nsteps + interval)%nat /\ Nat.divide interval k /\ 0 < N /\
    forall E is, INR k * Rabs dt <= t_max -> is_op_exp (cell_dims psi n) (fun is js => Cmul (mkC (- (INR k * dt)) 0) (ring_h psi n H12 is js)) E -> in_range (cell_dims psi n) is ->
      C1 (Csub (Cmul (mkC (N ^ n) 0) (@ring CC phi n is)) (@act CS (cell_dims psi n) E (@ring CC psi n) is))
        <= INR k * (C * Rabs dt ^ S m + eps * B) * rcfg (cell_dims psi n) (fun js => C1 (@ring CC psi n js)).
Lemma ring_error_evolves method m eps : @wf_itebd CC psi -> ring_error method m eps -> approximates method m eps.
Proof.
  intros Hw HR n t_max. destruct (HR n t_max) as (C & B & HC & HB & HE). exists C, B. split; [exact HC|]. split; [exact HB|].
  intros dt nsteps tol Dmax deltan phi Es Ss Ht HD H1 E interval.
  assert (HU : forall c, wf (expm (@tscale CS (@rinj CC (- dt * c)) H12))).
  { intros c. destruct HH as (A1 & A2). apply (Hexpm d). split; [exact A1|apply wf_tscale; exact A2]. }
  destruct (@C54_evolves CC svd flag eigs eig_sym expm Hsvd Hes Hei dt H12 tol Dmax method Ht HD HU psi nsteps deltan phi Es Ss Hw E) as (phis & p & HRec & HL & Hk). fold interval in HRec, Hk.
  destruct HRec as (_ & _ & HR3). destruct (HR3 p phi) as ((_ & _ & N & HN & Hr) & _).
  { rewrite nth_error_app2 by lia. rewrite HL, Nat.sub_diag. reflexivity. }
  exists (p * interval)%nat, N. split; [exact Hk|]. split; [exists p; reflexivity|]. split; [exact HN|].
  intros E0 is Hkt HE0 Hi. specialize (Hr n is Hi). change (@rinj CC (N ^ n)%R) with (mkC (N ^ n) 0) in Hr. change (@kmul CS) with Cmul in Hr. refine (Rle_trans _ _ _ (Req_le _ _ (f_equal (fun z => C1 (Csub z _)) Hr)) _). exact (HE dt (p * interval)%nat E0 (@ring CC psi n) is H1 Hkt HE0 Hi).
Qed.
Theorem C54_approximates : @wf_itebd CC psi -> approximates 0 1 0 /\ approximates 1 2 0 /\ forall method, (2 <= method)%nat -> approximates method 4 (3 / 10 ^ 15).
Proof.
  intros Hw. split; [|split]; [| |intros method Hm]; apply ring_error_evolves; try exact Hw; [exact C54_error_simple|exact C54_error_symmetric|exact (C54_error_forest_ruth method Hm)].
Qed.
End C54.
