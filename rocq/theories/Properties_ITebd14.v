(** * C54: a case of evolve_itime() of infinite states *)
From Coq Require Import Reals Lra Bool List Arith ZArith Lia Ring.
From Verif Require Import Scalar ScalarFacts RScal RealInst Tensor TensorFacts Spec MpsModel MpsFacts CanonModel CanonSpec TruncFacts SpectralExist SvdExist TrotterExp OpSpec OpAlgebra OpExp LayerExp Properties_Trotter3
  ITebdModel ITebdSpec ITebdSpec2 ITebdCanon ITimeModel ITebdTotal Properties_ITebd7 Properties_ITebd13.
Import ListNotations.
Local Open Scope K_scope.

(** A matrix exponential is invertible *)
Lemma exp_invertible n A E : is_exp n A E -> @left_inverse CC n E.
Proof.
  intros HE. destruct (exp_exists n (fun i j => Cmul (mkC (-1) 0) (A i j))) as (F & HF). exists F. intros p q Hp Hq.
  assert (Z : is_op_exp [n] (@oadd CS (@one CS (fun i j => Cmul (mkC (-1) 0) (A i j))) (@one CS A)) (@op_mul CS [n] (@one CS F) (@one CS E))).
  { apply op_exp_comm; [|apply one_exp; exact HF|apply one_exp; exact HE].
    intros is js Hi Hj. unfold op_mul. apply (@sumcfg_ext CS). intros ks Hk. unfold one. change (@kmul CS) with Cmul. apply C_ext; cbn; ring. }
  assert (I : is_op_exp [n] (@oadd CS (@one CS (fun i j => Cmul (mkC (-1) 0) (A i j))) (@one CS A)) (@id_op CS)).
  { apply op_exp_zero. intros is js Hi Hj. unfold oadd, one. apply C_ext; cbn; ring. }
  pose proof (op_exp_unique [n] _ _ _ Z I [p] [q] ltac:(apply in_range_1; exact Hp) ltac:(apply in_range_1; exact Hq)) as U.
  unfold op_mul, one in U. cbn [sumcfg nth id_op] in U. refine (eq_trans U _). change (@kmul CS) with Cmul. change (@k1 CS) with (mkC 1 0). apply C_ext; cbn; ring.
Qed.

(** linalg::eigs that keeps its initial vector *)
Definition eigs_start {SC : Scalar} (f : tensor -> tensor) (n : nat) (v : tensor) : tensor := mk [n] (fun is => get v is).

Section Start.
Context {RS : RScal}.
Add Ring Kring : k_ring.
Lemma eigs_start_sized : eigs_sized eigs_start.
Proof. intros f n v. split; [reflexivity|apply wf_mk]. Qed.
Lemma eigs_start_definite phi : wf_itebd phi -> boundaries_definite eigs_start phi.
Proof.
  intros (D & E & dA & dB & HD & HE & HdA & HdB & HA & HAw & HB & HBw & HlA & HlB & _) sense. rewrite HlB.
  assert (HI : (0 < INR D)%R) by (apply lt_0_INR; exact HD). assert (Hs : (0 < / sqrt (INR D))%R) by (apply Rinv_0_lt_compat, sqrt_lt_R0; exact HI).
  exists (/ sqrt (INR D))%R, delta. split; [lra|]. split.
  { split; [intros i j _ _; apply delta_conj|]. intros v (i & Hi & Hv).
    rewrite (sum_ext D _ (fun i => rinj (kmod2 (v i)))). 2:{ intros x Hx. rewrite kmod2_spec. rewrite (sum_ext D _ (fun j => (kconj (v x) * v j) * delta x j)) by (intros; ring). apply (sum_delta_r' D x (fun j => kconj (v x) * v j)). exact Hx. }
    rewrite <- rinj_rsum, kre_rinj. destruct (Rle_lt_or_eq_dec 0 (rsum D (fun i => kmod2 (v i)))) as [H|H]; [apply rsum_nonneg; intros; apply kmod2_nonneg|exact H|].
    exfalso. apply Hv, kmod2_zero. apply (rsum_zero_inv D (fun i => kmod2 (v i))); [intros; apply kmod2_nonneg|symmetry; exact H|exact Hi]. }
  set (v0 := reshape (tscale (rinj (/ sqrt (INR D))%R) (eye D)) [(D * D)%nat]).
  assert (Hv0 : forall i j, (i < D)%nat -> (j < D)%nat -> get v0 [(i + D * j)%nat] = rinj (/ sqrt (INR D))%R * delta i j).
  { intros i j Hi Hj. unfold v0. transitivity (get (tscale (rinj (/ sqrt (INR D))%R) (eye D)) [i; j]); [apply get_reshape; cbn; lia|].
    rewrite get_tscale by (first [apply wf_mk|apply in_range_2; assumption]). rewrite get_eye by assumption. reflexivity. }
  assert (Hp : exists f, itebd_power_eig eigs_start (iA phi) (ilA phi) (iB phi) (ilB phi) sense =
     tscale (rinj (/ 2)%R) (tadd (transpose (reshape (eigs_start f (D * D) v0) [D; D])) (tconj (reshape (eigs_start f (D * D) v0) [D; D])))).
  { unfold itebd_power_eig. rewrite HlB. cbv zeta. fold v0. destruct (0 <? sense)%Z; eexists; reflexivity. }
  destruct Hp as (f & ->). intros i j Hi Hj.
  destruct (herm_part D (eigs_start f (D * D) v0) eq_refl (wf_mk _ _)) as (_ & _ & G). cbv zeta in G. rewrite G by assumption. clear G.
  unfold eigs_start. rewrite !get_mk by (apply in_range_1; nia). rewrite !Hv0 by assumption. rewrite kconj_mul, rinj_conj, delta_conj, (delta_sym j i).
  transitivity (rinj (/ 2)%R * (1 + 1) * (rinj (/ sqrt (INR D))%R * delta i j)); [ring|]. rewrite <- rinj_1, <- rinj_add, <- rinj_mul. replace (/ 2 * (1 + 1))%R with 1%R by field. rewrite rinj_1. ring.
Qed.
Lemma up_norm : frob2 (@up RS) = 1%R.
Proof. unfold frob2, up. cbn [data mk map seq nprod fold_right unravel nth Nat.eqb Nat.modulo Nat.divmod fst snd Nat.sub Nat.mul Nat.add]. cbn. rewrite <- rinj_1, kmod2_rinj, <- rinj_0, kmod2_rinj. ring. Qed.
End Start.

(** sigma_x sigma_x *)
Definition xx : @tensor CS := @mk CS [4; 4]%nat (fun is => if Nat.eqb (nth 0 is 0 + nth 1 is 0)%nat 3 then @k1 CS else @k0 CS).

Theorem C54_infinite_case : exists (svd : @tensor CS -> @tensor CS * list R * @tensor CS) eig_sym expm eigs,
  @svd_contract CC svd /\ @eig_sym_contract CC eig_sym /\ @eigs_sized CC eigs /\ expm_contract expm /\ (forall phi, @full CC phi -> @boundaries_definite CC eigs phi) /\
  exists psi, @new_product1 CC up = Ok psi /\ @wf_itebd CC psi /\ @full CC psi /\ eff_tol 0 0 = 0%R /\
  forall dt nsteps deltan method, exists phi Es Ss, @evolve_infinite CC svd 0 eigs eig_sym expm psi xx dt nsteps 0 0 deltan method = Ok (phi, Es, Ss).
Proof.
  destruct (@svd_contract_satisfiable CC) as (svd & Hsvd). destruct (@eig_sym_contract_satisfiable CC) as (eig_sym & Hes). destruct expm_contract_satisfiable as (expm & Hex).
  exists svd, eig_sym, expm, (@eigs_start CS). split; [exact Hsvd|]. split; [exact Hes|]. split; [exact (@eigs_start_sized CC)|]. split; [exact Hex|].
  assert (Hdef : forall phi, @full CC phi -> @boundaries_definite CC (@eigs_start CS) phi) by (intros phi Hf; apply (@eigs_start_definite CC); apply Hf).
  split; [exact Hdef|].
  pose proof (@up_norm CC) as Hf.
  destruct (@C53_product CC up up 2 2 eq_refl (wf_mk _ _) eq_refl (wf_mk _ _) ltac:(lia) ltac:(lia) ltac:(rewrite Hf; lra) ltac:(rewrite Hf; lra))
    as (psi & E & Hw & Hcan & HlA & HlB & Hcd & Hr & _).
  exists psi. split; [exact E|]. split; [exact Hw|].
  assert (Hfull : @full CC psi).
  { split; [exact Hw|]. rewrite HlA, HlB. split; [|split].
    1,2: intros k Hk; cbn in Hk; assert (k = 0)%nat by lia; subst k; cbn; lra.
    exists 2%nat, [0; 0; 0; 0]%nat. split; [lia|]. assert (Hi : in_range (cell_dims psi 2) [0; 0; 0; 0]%nat) by (rewrite Hcd; cbn; apply in_range_4; lia). split; [exact Hi|].
    rewrite Hr by (first [lia|exact Hi]).
    assert (U0 : @unit_vec CC up 0 = @k1 CS). { unfold unit_vec. rewrite Hf, sqrt_1, Rinv_1, rinj_1. unfold up. rewrite get_mk by (apply in_range_1; lia). cbn [nth Nat.eqb]. apply C_ext; cbn; ring. }
    cbn [alternating]. rewrite U0. intros H. apply (f_equal Cre) in H. cbn in H. lra. }
  split; [exact Hfull|]. split; [unfold eff_tol; destruct (Rltb 0 0) eqn:El; [apply Rltb_true in El; lra|reflexivity]|].
  assert (Hd : dim (iA psi) 1 = 2%nat /\ dim (iB psi) 1 = 2%nat).
  { specialize (Hcd 1%nat). unfold cell_dims in Hcd. cbn [repeat concat app] in Hcd. split; [exact (f_equal (fun l => nth 0 l 0%nat) Hcd)|exact (f_equal (fun l => nth 1 l 0%nat) Hcd)]. }
  assert (Hxx : @is_matrix CS xx 4 4) by (split; [reflexivity|apply wf_mk]).
  intros dt nsteps deltan method.
  apply (@C54_returns CC svd 0 (@eigs_start CS) eig_sym expm Hsvd Hes (@eigs_start_sized CC) dt xx 0 0 method 2 Hdef); try apply Hd; try exact Hfull; try lia.
  - unfold eff_tol. destruct (Rltb 0 0) eqn:El; [apply Rltb_true in El; lra|reflexivity].
  - exact Hxx.
  - intros i j Hi Hj. unfold mat, xx. rewrite !get_mk by (apply in_range_2; lia). cbn [nth]. rewrite (Nat.add_comm j i). destruct (Nat.eqb (i + j) 3); apply C_ext; cbn; ring.
  - intros c. destruct (Hex 4%nat (@tscale CS (@rinj CC (- dt * c)%R) xx)) as [H1 H2]; [split; [reflexivity|apply wf_tscale; apply Hxx]|].
    split; [exact H1|]. exact (exp_invertible 4 _ _ H2).
Qed.
