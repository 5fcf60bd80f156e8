(** * C72: a case of the constructor of infinite states from a cell *)
From Coq Require Import Reals Lra Bool List Arith ZArith Lia Ring.
From Verif Require Import Scalar ScalarFacts RealInst RScal Tensor TensorFacts Spec MpsModel CanonModel CanonSpec TruncFacts SvdExist SvdEconomic SpectralExist ITebdModel ITebdSpec ITebdFacts ITebdSpec2 ITebdCanon ITebdEig ITebdTotal
  Properties_ITebd Properties_ITebd2 Properties_ITebd4 Properties_ITebd5 ITebdNewModel ITebdNewSpec ITebdNew ITebdNew2 ITebdNew3 Properties_ITebd15 Properties_ITebd16.
Import ListNotations.
Local Open Scope K_scope.

Section Real.
Context {RS : RScal}.
Variable svd : tensor -> tensor * list R * tensor.
Variable flag : R.
Variable eigs : (tensor -> tensor) -> nat -> tensor -> tensor.
Variable eig_sym : tensor -> list R * tensor.
Hypothesis Hsvd : svd_contract svd.
Hypothesis Hes : eig_sym_contract eig_sym.

(** With real numbers the constructor returns for every state with a unique limit (for complex numbers linalg::eigs may
    return a multiple of the eigenvector whose hermitian part is zero: see C63). *)
Theorem C72_returns_real AB l d tol Dmax n is : (forall x : K, kconj x = x) -> is_cell AB l d d -> eigs_sized eigs -> eigs_largest eigs -> cell_primitive AB l d d ->
  (2 <= n)%nat -> in_range (concat (repeat [d; d] n)) is -> cell_ring AB l n is <> 0 -> eff_tol flag tol = 0%R -> (Dmax <= 0)%Z ->
  exists psi, new_cell svd flag eigs eig_sym AB l tol Dmax = Ok psi.
Proof.
  intros Hreal Hcell He Hel (eta & P & Q & Heta & HP & HQ & DP & DQ) Hn Hi Hr Ht HDm.
  apply (C72_returns svd flag eigs eig_sym Hsvd Hes AB l d tol Dmax n is); try assumption.
  destruct Hcell as (HD & Hd & _ & HAB & HABw).
  assert (Hre : forall x : K, x <> 0 -> kre x <> 0%R).
  { intros x Hx E0. apply Hx. rewrite <- (kre_real x (Hreal x)), E0. apply rinj_0. }
  unfold cell_boundaries_definite, dim. rewrite HAB. cbn [nth]. split.
  - destruct (vright_dominant AB l (length l) d d eigs HD Hd Hd HAB eq_refl eta P Hel DP (proj1 HP)) as (_ & _ & c & Hc & H). exists (kre c), P. auto.
  - destruct (vleft_dominant AB l (length l) d d eigs HD Hd Hd HAB eq_refl eta Q Hel DQ (proj1 HQ)) as (_ & _ & c & Hc & H). exists (kre c), (fun i j => Q j i). split; [auto|]. split; [apply transpose_positive; exact HQ|exact H].
Qed.

Lemma dominates_ext n F F' eta P : (forall M a b, (a < n)%nat -> (b < n)%nat -> F M a b = F' M a b) -> dominates n F eta P -> dominates n F' eta P.
Proof.
  intros H [[H1 H2] H3]. split; [split; [exact H1|]|].
  - intros i j Hi Hj. rewrite <- H by assumption. apply H2; assumption.
  - intros mu M [E1 E2] Hmu. apply H3; [|exact Hmu]. split; [exact E1|]. intros i j Hi Hj. rewrite H by assumption. apply E2; assumption.
Qed.
End Real.

(** The cells of C63_case, each as one tensor: AB(a,i,j,b) = g(a,i) delta(j,b), with g = (1 1; 0 1) *)
Definition gcell : RT := rt [2; 2; 2; 2] [1; 0; 1; 1; 0; 0; 0; 0; 0; 0; 0; 0; 1; 0; 1; 1]%R.

Lemma gcell_right M a b : (a < 2)%nat -> (b < 2)%nat -> @right_map RR (gpair 1 1 0 1) M a b = @cell_right_map RR gcell [1; 1]%R 2 2 M a b.
Proof. intros Ha Hb. destruct a as [|[|]]; [| |lia]; (destruct b as [|[|]]; [| |lia]); cbv -[Rplus Rmult Ropp IZR]; ring. Qed.
Lemma gcell_left M a b : (a < 2)%nat -> (b < 2)%nat -> @left_map RR (gpair 1 1 0 1) M a b = @cell_left_map RR gcell [1; 1]%R 2 2 M a b.
Proof. intros Ha Hb. destruct a as [|[|]]; [| |lia]; (destruct b as [|[|]]; [| |lia]); cbv -[Rplus Rmult Ropp IZR]; ring. Qed.

Theorem C72_case : exists (svd : RT -> RT * list R * RT) eigs eig_sym, svd_contract svd /\ eigs_largest eigs /\ eigs_sized eigs /\ eig_sym_contract eig_sym /\
  @is_cell RR gcell [1; 1]%R 2 2 /\ @cell_primitive RR gcell [1; 1]%R 2 2 /\ @exact 0 0 0 /\
  exists psi, @new_cell RR svd 0 eigs eig_sym gcell [1; 1]%R 0 0 = Ok psi /\ wf_itebd psi /\ left_ok psi /\ right_ok psi /\
  exists N, (0 < N)%R /\ forall n is, (0 < n)%nat -> in_range (concat (repeat [2; 2]%nat n)) is -> @cell_ring RR gcell [1; 1]%R n is = (N ^ n * @ring RR psi n is)%R.
Proof.
  destruct (@svd_contract_satisfiable RR) as (svd & Hsvd). destruct (@eig_sym_contract_satisfiable RR) as (eig_sym & Hes). destruct (@eigs_largest_satisfiable RR (fun _ => True)) as (eigs & He & Hz & _).
  exists svd, eigs, eig_sym. split; [exact Hsvd|]. split; [exact He|]. split; [exact Hz|]. split; [exact Hes|].
  assert (Hc : @is_cell RR gcell [1; 1]%R 2 2) by (repeat split; cbn; lia). split; [exact Hc|].
  assert (Hp : @cell_primitive RR gcell [1; 1]%R 2 2).
  { destruct gpair_primitive as (eta & P & Q & H1 & H2 & H3 & H4 & H5). exists eta, P, Q. split; [exact H1|]. split; [exact H2|]. split; [exact H3|]. split.
    - apply (@dominates_ext RR 2 (right_map (gpair 1 1 0 1))); [apply gcell_right|exact H4].
    - apply (@dominates_ext RR 2 (left_map (gpair 1 1 0 1))); [apply gcell_left|exact H5]. }
  split; [exact Hp|].
  assert (Ht : eff_tol 0 0 = 0%R). { unfold eff_tol. destruct (Rltb 0 0); reflexivity. }
  assert (Hx : @exact 0 0 0) by (split; [left; exact Ht|lia]). split; [exact Hx|].
  destruct (@C72_returns_real RR svd 0 eigs eig_sym Hsvd Hes gcell [1; 1]%R 2 0 0 2 [0; 0; 0; 0]%nat) as (psi & Hpsi); try assumption; try lia; try reflexivity.
  { repeat constructor. }
  { cbv -[Rplus Rmult Ropp IZR]. intros H. cut (1 = 0)%R; [lra|]. etransitivity; [|exact H]. ring. }
  exists psi. split; [exact Hpsi|].
  destruct (C72_form svd 0 eigs eig_sym Hsvd Hes _ _ _ _ _ _ psi Hc Hz Hpsi) as (Hw & _).
  destruct (C72_canonical svd 0 eigs eig_sym Hsvd Hes _ _ _ _ _ _ psi Hc Hz He Hp Hx Hpsi) as (HL & HR).
  destruct (C72_ring svd 0 eigs eig_sym Hsvd Hes _ _ _ _ _ _ psi Hc Hz Hx Hpsi) as (N & HN & Hring).
  split; [exact Hw|]. split; [exact HL|]. split; [exact HR|]. exists N. split; [exact HN|]. intros n is Hn Hi. exact (Hring n is Hn Hi).
Qed.
