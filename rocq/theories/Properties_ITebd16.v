(** * C72: when the constructor of infinite states from a cell returns *)
From Coq Require Import Reals Lra Bool List Arith ZArith Lia Ring.
From Verif Require QFormFacts SparseFacts.
From Verif Require Import Scalar ScalarFacts RScal Tensor TensorFacts Spec MpsModel MpsFacts EnvFacts CanonModel CanonSpec TruncFacts CanonFacts CanonSweep CanonNorm SplitFacts DecompModel DecompFacts Properties_Decomp LFormFacts LFormValue SvdExist EckartYoung ITebdModel ITebdSpec ITebdFacts ITebdSlow ITebdSpec2 ITebdGauge ITebdCanon ITebdCanon2 ITebdEig ITebdApply ITebdApply2 ITebdTotal ITebdNewModel ITebdNewSpec ITebdNew ITebdNew2 ITebdNew3 Properties_ITebd15.
Import ListNotations.
Local Open Scope K_scope.

Section C72.
Context {RS : RScal}.
Variable svd : tensor -> tensor * list R * tensor.
Variable flag : R.
Variable eigs : (tensor -> tensor) -> nat -> tensor -> tensor.
Variable eig_sym : tensor -> list R * tensor.
Hypothesis Hsvd : svd_contract svd.
Hypothesis Hes : eig_sym_contract eig_sym.
Add Ring Kring : k_ring.

Lemma cells_of_zero D (f : nat -> nat -> nat -> nat -> K) n : (0 < n)%nat -> (forall i j a b, (b < D)%nat -> f i j a b = 0) -> forall is a b, cells_of D f n is a b = 0.
Proof.
  intros Hn H is a b. destruct n as [|n]; [lia|]. destruct is as [|i [|j is]]; [reflexivity|reflexivity|]. cbn [cells_of]. apply sum_zero. intros c Hc. rewrite H by exact Hc. ring.
Qed.

(** The matrices that the bases are made of *)
Definition cell_boundaries_definite (AB : tensor) (l : list R) : Prop :=
  let G := reshape AB [dim AB 0; (dim AB 1 * dim AB 2)%nat; dim AB 3] in
  definite (length l) (itebd_power_eig1 eigs (scale G 2 l) (-1)) /\ definite (length l) (itebd_power_eig1 eigs (scale G 0 l) 1).

(** Without truncation the constructor returns, if linalg::eigs gives definite matrices and the wave function of some
    ring of two or more cells is not zero. *)
Theorem C72_returns AB l d tol Dmax n is : is_cell AB l d d -> eigs_sized eigs -> cell_boundaries_definite AB l ->
  (2 <= n)%nat -> in_range (concat (repeat [d; d] n)) is -> cell_ring AB l n is <> 0 -> eff_tol flag tol = 0%R -> (Dmax <= 0)%Z ->
  exists psi, new_cell svd flag eigs eig_sym AB l tol Dmax = Ok psi.
Proof.
  intros (HD & Hd & _ & HAB & HABw) He Hdef Hn Hi Hr Ht HDm. unfold cell_boundaries_definite, dim in Hdef. rewrite HAB in Hdef. cbn [nth] in Hdef. destruct Hdef as [(c1 & P & Hc1 & HP & HcP) (c2 & Q & Hc2 & HQ & HcQ)].
  rewrite (new_cell_steps svd flag eigs eig_sym Hsvd Hes AB l (length l) d d HD Hd Hd HAB eq_refl tol Dmax He).
  set (D := length l) in *.
  destruct (bases_sized eigs AB l D d d He) as [[R1 R2] [L1 L2]].
  destruct (ortho_basis_defined eig_sym Hes D (vright eigs AB l D d d) c1 P HD R1 R2 HcP HP Hc1) as (X & Xi & EX).
  destruct (ortho_basis_defined eig_sym Hes D (vleft eigs AB l D d d) c2 Q HD L1 L2 HcQ HQ Hc2) as (Y & Yi & EY).
  rewrite EX, EY. cbn [bind].
  destruct (ortho_basis_ok eig_sym Hes D _ X Xi HD R1 R2 EX) as (HX & HXi & X1 & X2 & _).
  destruct (ortho_basis_ok eig_sym Hes D _ Y Yi HD L1 L2 EY) as (HY & HYi & Y1 & Y2 & _).
  destruct (overlap_ok l D X Y HX HY) as [Ho Hog].
  assert (Hnz : exists i j, (i < D)%nat /\ (j < D)%nat /\ get (overlap l X Y) [i; j] <> 0).
  { destruct (zero_dec (D * D) (fun x => get (overlap l X Y) [x mod D; x / D]%nat)) as [Hz|(x & Hx & Hz)].
    2:{ exists (x mod D)%nat, (x / D)%nat. split; [apply Nat.mod_upper_bound; lia|]. split; [apply Nat.div_lt_upper_bound; lia|exact Hz]. }
    exfalso. assert (Hz' : forall i j, (i < D)%nat -> (j < D)%nat -> gaux D (mat X) (mat Y) (fun k => nth k l 0%R) i j = 0).
    { intros i j Hi' Hj. specialize (Hz (i + D * j)%nat ltac:(nia)). cbv beta in Hz.
      rewrite (Nat.mul_comm D j), Nat.mod_add, Nat.div_add, Nat.mod_small, Nat.div_small in Hz by lia. rewrite <- Hog by assumption. exact Hz. }
    assert (Hl0 : forall k, (k < D)%nat -> rinj (nth k l 0%R) = 0).
    { intros k Hk.
      assert (Hyl : forall i, (i < D)%nat -> mat Y k i * rinj (nth k l 0%R) = 0).
      { intros i Hi'. transitivity (sum D (fun j => gaux D (mat X) (mat Y) (fun k => nth k l 0%R) i j * mat Xi j k)).
        2:{ apply sum_zero. intros j Hj. rewrite Hz' by assumption. ring. }
        unfold gaux. transitivity (mm D (tp (mat Y)) (mm D (glX (mat X) (fun k => nth k l 0%R)) (mat Xi)) i k).
        - unfold mm at 1. rewrite (sum_ext D _ (fun a => (mat Y a i * rinj (nth a l 0%R)) * delta a k)).
          + symmetry. apply (sum_delta_r D k (fun a => mat Y a i * rinj (nth a l 0%R))). exact Hk.
          + intros a Ha. rewrite <- (X1 a k Ha Hk). unfold mm, tp, glX. rewrite !sum_mul_l. apply sum_ext. intros; ring.
        - unfold mm. rewrite (sum_ext D _ (fun a => sum D (fun j => tp (mat Y) i a * glX (mat X) (fun k => nth k l 0%R) a j * mat Xi j k))).
          2:{ intros a Ha. rewrite sum_mul_l. apply sum_ext. intros; ring. }
          rewrite sum_swap. apply sum_ext. intros j Hj. rewrite sum_mul_r. reflexivity. }
      transitivity (mm D (mat Y) (mat Yi) k k * rinj (nth k l 0%R)); [rewrite Y1, delta_refl by exact Hk; ring|].
      unfold mm. rewrite sum_mul_r. apply sum_zero. intros i Hi'. transitivity ((mat Y k i * rinj (nth k l 0%R)) * mat Yi i k); [ring|rewrite Hyl by exact Hi'; ring]. }
    apply Hr. unfold cell_ring. fold D. apply sum_zero. intros a Ha. apply cells_of_zero; [lia|]. intros i j x y Hy. unfold cell_entry. rewrite Hl0 by exact Hy. ring. }
  destruct Hnz as (x & y & Hx & Hy & Hxy).
  destruct (limited_svd_ok svd flag Hsvd (overlap l X Y) D D tol Dmax Ho HD HD) as (Us & sv & Vs & Es & Hs & H).
  { exists x, y. auto. }
  cbv zeta in H. destruct H as ((Hc0 & Hc1') & HN & _ & HNN & Htot & U & s & V & Elim & HU & HV & Hls & Hs' & GU & GV).
  set (c := where_to_truncate flag sv tol Dmax) in *. set (N1 := norm2_list (firstn c sv)) in *.
  rewrite Elim. cbn [bind]. rewrite Hls. set (W := gW D (mat Xi) (mat V)). set (J := gJ D (mat Yi) (mat U)).
  assert (Hwt : wf_itebd (turned AB D d d c W J s)) by (apply (turned_wf AB l D d d); auto).
  assert (Hsn : forall k, (k < c)%nat -> nth k s 0%R <> 0%R).
  { intros k Hk'. rewrite Hs' by exact Hk'.
    assert (Hcl : (c <= last_nonzero sv)%nat). { unfold c. rewrite wtt_unfold, Ht. destruct (Rleb 1 0) eqn:E1; [apply Rleb_true in E1; lra|]. destruct (Req_EM_T 0 0); [lia|lra]. }
    destruct (last_nonzero sv) as [|m] eqn:Em; [lia|]. pose proof (last_nonzero_last sv m Em) as Hm. pose proof (last_nonzero_le sv) as Hml. rewrite Em in Hml.
    destruct Hs as (_ & _ & _ & _ & Hp & Hdec & _). pose proof (Hp m ltac:(lia)). pose proof (Hdec k m ltac:(lia) ltac:(lia)).
    intros E1. assert (Hpos : (0 < nth k sv 0 / N1)%R). { apply Rdiv_lt_0_compat; [lra|exact HN]. } rewrite E1 in Hpos. lra. }
  set (lam := map (Rmult N1) s).
  assert (HG : gauge_rel (plain AB l D d d) (turned AB D d d c W J lam) D (d * D) d d c W (gZ D (mat X) (mat V)) (gH D (mat Y) (mat U)) J (mat X) (mat Y)).
  { apply turned_gauge; try assumption.
    + unfold lam. rewrite map_length. exact Hls.
    + intros i j Hi' Hj. destruct Hs as (_ & _ & HUs & HVs & _ & _ & OU & OV & _). rewrite <- (OU i j) by lia. unfold mm, ad, mat. apply sum_ext. intros k Hk. rewrite !GU by assumption. reflexivity.
    + intros i j Hi' Hj. destruct Hs as (_ & _ & HUs & HVs & _ & _ & OU & OV & _). rewrite <- (OV i j) by lia. unfold mm, ad, mat. apply sum_ext. intros k Hk. rewrite !GV by assumption. reflexivity.
    + intros i j Hi' Hj. rewrite <- Hog by assumption. rewrite (limited_sum D D _ Us sv Vs c N1 i j Hs Hc1' HN Hi' Hj).
      rewrite dropped_zero.
      * rewrite sum_mul_l. transitivity (sum c (fun k => rinj N1 * (get Us [i; k] * rinj (nth k sv 0 / N1)%R * get Vs [k; j]))); [ring|]. apply sum_ext. intros k Hk. unfold mat. rewrite GU, GV by assumption.
        unfold lam. rewrite (nth_map_R (Rmult N1) s k) by lia. rewrite Hs' by exact Hk. rewrite rinj_mul. ring.
      * intros k Hk. apply (wtt_exact0 flag sv tol (or_introl Ht)). unfold c in Hk. rewrite wtt_unfold in Hk. rewrite wtt_unfold.
        replace (eff_max sv 0) with (eff_max sv Dmax); [exact Hk|]. unfold eff_max. destruct (Z.leb_spec Dmax 0); [reflexivity|lia]. }
  assert (HE : (0 < d * D)%nat) by nia.
  assert (Hrt : ring (turned AB D d d c W J s) n is <> 0).
  { intros E0. apply Hr. rewrite <- (plain_ring AB l D d d HD Hd Hd HAB HABw eq_refl n is ltac:(lia) Hi).
    rewrite <- (gauge_ring (plain AB l D d d) (turned AB D d d c W J lam) D (d * D) d d c W (gZ D (mat X) (mat V)) (gH D (mat Y) (mat U)) J (mat X) (mat Y)); try assumption; try reflexivity; try (apply wf_mk); try (apply (cA_wf AB l D d d); auto).
    2:{ intros b i a Hb Hi' Ha. apply get_scale. apply in_range_3; assumption. }
    rewrite (ring_cells _ c (d * D) d d) by (first [assumption|reflexivity|apply wf_mk|lia]).
    rewrite (ring_cells _ c (d * D) d d) in E0 by (first [assumption|reflexivity|apply wf_mk|lia]).
    transitivity (kpow (rinj N1) n * sum c (fun a => cells_of c (fun i j => chain [iAlA (turned AB D d d c W J s); iBlB (turned AB D d d c W J s)] [i; j]) n is a a)); [|rewrite E0; ring].
    rewrite sum_mul_l. apply sum_ext. intros a Ha. rewrite <- cells_of_scale. apply (cells_of_ext_in c _ _ d d); [|exact Hi|exact Ha|exact Ha].
    intros i j u w Hi' Hj Hu Hw. rewrite !(chain2 _ _ i j u w (d * D) c) by (first [reflexivity|exact Hw]). rewrite sum_mul_l. apply sum_ext. intros e He'. cbn [iBlB iAlA turned].
    rewrite !get_scale by (apply in_range_3; assumption). cbn [nth]. unfold lam. rewrite nth_map_R by lia. rewrite rinj_mul. ring. }
  destruct (even_full svd flag Hsvd (turned AB D d d c W J s) (eye (d * d)) tol Dmax) as (psi & Hpsi & _); try assumption; try reflexivity.
  - split; [exact Hwt|]. split.
    { cbn [ilA turned]. rewrite repeat_length. intros k Hk. rewrite (nth_ones l D d d HD Hd Hd eq_refl _ k Hk). lra. }
    split; [cbn [ilB turned]; rewrite Hls; exact Hsn|]. exists n, is. split; [exact Hn|]. split; [exact Hi|exact Hrt].
  - exact (eye_matrix (d * d)).
  - exists delta. intros p q Hp Hq. cbn in Hp, Hq. rewrite (sum_ext _ _ (fun k => delta p k * delta k q)).
    + apply (sum_delta_l' (d * d) p (fun k => delta k q)). exact Hp.
    + intros k Hk. cbn in Hk. unfold mat. rewrite get_eye by assumption. reflexivity.
  - exists psi. exact Hpsi.
Qed.
End C72.
