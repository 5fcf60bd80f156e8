(** * C64: entropies and Schmidt weights of infinite states *)
From Coq Require Import Reals Lra Bool List Arith ZArith Lia Ring.
From Verif Require Import Scalar ScalarFacts RealInst RScal Tensor TensorFacts Spec MpsModel CanonModel CanonSpec CanonSweep SvdExist SpectralExist ToolsModel Properties_Tools ITebdModel ITebdSpec ITebdSpec2 Properties_ITebd Properties_ITebd2 Properties_ITebd4 Properties_ITebd5.
Import ListNotations.

Definition squares (l : list R) : list R := map (fun x => (x * x)%R) l.

(** schmidt(site): the squares of the weights of the bond to the left of the site; the bond to its right is that of
    the next site. *)
Theorem C64_schmidt {RS : RScal} (psi : itebd) site : i_schmidt psi site = squares (left_vector psi site) /\
  left_vector psi (site + 1) = right_vector psi site /\ left_vector psi (site + 2) = left_vector psi site.
Proof.
  unfold i_schmidt, squares, left_vector, right_vector. rewrite !Z.odd_add. change (Z.odd 1) with true. change (Z.odd 2) with false.
  split; [|destruct (Z.odd site); split; reflexivity].
  apply map_ext. intros x. rewrite <- Rabs_mult. apply Rabs_right. pose proof (Rle_0_sqr x) as H. unfold Rsqr in H. lra.
Qed.

(** entropy(site) of a canonical state whose weights are not zero: the entropy of the weights of the bond between A and
    B, for any site; so it is the entropy of the bond to the right of an even site (to the left of an odd one). *)
Theorem C64_entropy_partial {RS : RScal} svd eigs eig_sym (psi : itebd) site : icanon psi = true -> ilA psi <> [] ->
  (forall x, In x (ilA psi) -> x <> 0%R) -> Z.odd site = false ->
  exists s, i_entropy svd eigs eig_sym entropy psi site = Ok (Some s) /\ s = shannon (squares (right_vector psi site)) /\
    (0 <= s <= ln (INR (length (right_vector psi site))))%R.
Proof.
  intros Hc Hn Hp Ho. unfold i_entropy, right_vector. rewrite Hc, Ho. unfold entropy_canonical.
  assert (E : map (fun x => Rabs (x * x)) (ilA psi) = squares (ilA psi)).
  { apply map_ext. intros x. apply Rabs_right. pose proof (Rle_0_sqr x) as H. unfold Rsqr in H. lra. }
  rewrite E. destruct (C55_entropy (squares (ilA psi))) as (s & E1 & E2 & E3 & _).
  - unfold squares. destruct (ilA psi); [contradiction|discriminate].
  - unfold squares. rewrite Forall_map, Forall_forall. intros x Hx. pose proof (Rsqr_pos_lt x (Hp x Hx)) as H. exact H.
  - exists s. rewrite E1. unfold squares in E3. rewrite map_length in E3. split; [reflexivity|split; [exact E2|exact E3]].
Qed.

Lemma shannon_even : shannon [1; 1]%R = ln 2.
Proof. unfold shannon, total. cbn [fold_right]. replace (1 / (1 + (1 + 0)))%R with (/ 2)%R by field. rewrite ln_Rinv by lra. field. Qed.

Lemma shannon_one : shannon [1]%R = 0%R.
Proof. unfold shannon, total. cbn [fold_right]. replace (1 / (1 + 0))%R with 1%R by field. rewrite ln_1. ring. Qed.

Lemma ln2_pos : (0 < ln 2)%R.
Proof. rewrite <- ln_1. apply ln_increasing; lra. Qed.

(** REFUTED: that entropy(site) depends on the site.  Neighbouring cells share a pair |00> + |11>; every bond is
    orthonormal.  Both entropies, and entropy(), are zero although the weights of the bond between cells are 1/2, 1/2. *)
Definition shared : @itebd RR := @mkI RR (gpairA 1 0 0 1) [1]%R gpairB [1; 1]%R (gpairA 1 0 0 1) gpairB true.
Theorem C64_site_refuted svd eigs eig_sym : wf_itebd shared /\ left_ok shared /\ right_ok shared /\ inner_ok shared /\
  (forall site, i_entropy svd eigs eig_sym entropy shared site = Ok (Some 0%R)) /\
  (forall site, Z.odd site = true -> shannon (squares (right_vector shared site)) = ln 2) /\ (0 < ln 2)%R.
Proof.
  split; [|split; [|split; [|split; [|split; [|split]]]]].
  - exists 2%nat, 1%nat, 2%nat, 2%nat. repeat (split; [first [lia|reflexivity]|]). split.
    + intros a i b Ha Hi Hb. destruct b as [|]; [|lia]. destruct i as [|[|]]; [| |lia]; (destruct a as [|[|]]; [| |lia]); cbv -[Rplus Rmult Ropp IZR]; lra.
    + intros a i b Ha Hi Hb. destruct a as [|]; [|lia]. destruct i as [|[|]]; [| |lia]; (destruct b as [|[|]]; [| |lia]); cbv -[Rplus Rmult Ropp IZR]; lra.
  - exists 2%R. split; [lra|]. intros b b' Hb Hb'. cbn in Hb, Hb'. destruct b as [|[|]]; [| |lia]; (destruct b' as [|[|]]; [| |lia]); cbv -[Rplus Rmult Ropp IZR]; lra.
  - exists 2%R. split; [lra|]. intros b b' Hb Hb'. cbn in Hb, Hb'. destruct b as [|[|]]; [| |lia]; (destruct b' as [|[|]]; [| |lia]); cbv -[Rplus Rmult Ropp IZR]; lra.
  - exists 2%R. split; [lra|]. intros b b' Hb Hb'. cbn in Hb, Hb'. destruct b as [|]; [|lia]; (destruct b' as [|]; [|lia]); cbv -[Rplus Rmult Ropp IZR]; lra.
  - intros site. unfold i_entropy. cbn [icanon shared]. unfold entropy_canonical. cbn [ilA shared map]. rewrite Rmult_1_r, Rabs_R1.
    rewrite entropy_pos_value; [|discriminate|repeat constructor; lra]. rewrite shannon_one. reflexivity.
  - intros site Ho. unfold right_vector. rewrite Ho. cbn [ilB shared squares map]. rewrite !Rmult_1_r. apply shannon_even.
  - exact ln2_pos.
Qed.

(** The two particles of a cell are in the state |00> + |11>, written with the weights (1, 1/y) of the bond. *)
Definition dimer (y : R) : @itebd RR :=
  @mkI RR (rt [1; 2; 2] [1; 0; 0; y]%R) [1; / y]%R (rt [2; 2; 1] [1; 0; 0; 1]%R) [1]%R (rt [1; 2; 2] [1; 0; 0; 1]%R) (rt [2; 2; 1] [1; 0; 0; 1]%R) false.

Lemma dimer_wf y : (y <> 0)%R -> wf_itebd (dimer y).
Proof.
  intros Hy. exists 1%nat, 2%nat, 2%nat, 2%nat. repeat (split; [first [lia|reflexivity]|]). split.
  - intros a i b Ha Hi Hb. destruct a as [|]; [|lia]. destruct i as [|[|]]; [| |lia]; (destruct b as [|[|]]; [| |lia]); cbv -[Rplus Rmult Ropp IZR Rinv]; try lra. field. exact Hy.
  - intros a i b Ha Hi Hb. destruct b as [|]; [|lia]. destruct i as [|[|]]; [| |lia]; (destruct a as [|[|]]; [| |lia]); cbv -[Rplus Rmult Ropp IZR Rinv]; lra.
Qed.

Lemma dimer_primitive y : (y <> 0)%R -> primitive (dimer y).
Proof.
  intros Hy. assert (HP : @positive RR (length (ilB (dimer y))) (fun _ _ : nat => 1%R)).
  { split; [reflexivity|]. intros v (i & Hi & Hv). cbn in Hi. assert (i = 0)%nat by lia. subst i.
    cbv -[Rplus Rmult Ropp IZR Rlt]. set (x := v 0%nat) in *. cbn in x. pose proof (Rsqr_pos_lt x Hv) as Q3; unfold Rsqr in Q3. nra. }
  exists 2%R, (fun _ _ => 1%R), (fun _ _ => 1%R). split; [lra|]. split; [exact HP|]. split; [exact HP|].
  split; apply (rank_one 1 _ _ (fun M => 2 * M 0%nat 0%nat)%R).
  - intros M a b Ha Hb. assert (a = 0 /\ b = 0)%nat as [-> ->] by lia. cbv -[Rplus Rmult Ropp IZR Rinv]. ring.
  - intros c M M' H. rewrite H by lia. ring.
  - lra.
  - ring.
  - intros M a b Ha Hb. assert (a = 0 /\ b = 0)%nat as [-> ->] by lia. cbv -[Rplus Rmult Ropp IZR Rinv]. ring.
  - intros c M M' H. rewrite H by lia. ring.
  - lra.
  - ring.
Qed.

(** REFUTED: that entropy(site) of a state that is not canonical is its entropy.  The states [dimer 1] and
    [dimer (1/2)] have the same wave function on every ring, but the first gives twice the entropy ln 2 of the bond
    inside the cell, and the second another value. *)
Theorem C64_noncanonical_refuted svd eigs eig_sym : svd_contract svd -> eig_sym_contract eig_sym -> eigs_largest eigs -> eigs_sized eigs ->
  wf_itebd (dimer 1) /\ wf_itebd (dimer (/ 2)) /\ (forall n is, ring (dimer (/ 2)) n is = ring (dimer 1) n is) /\
  (forall site, i_entropy svd eigs eig_sym entropy (dimer 1) site = Ok (Some (2 * ln 2)%R)) /\
  (forall site, exists s, i_entropy svd eigs eig_sym entropy (dimer (/ 2)) site = Ok (Some s) /\ (s < 2 * ln 2)%R).
Proof.
  intros Hsvd Hes He Hz. assert (H1 : (1 <> 0)%R) by lra. assert (H2 : (/ 2 <> 0)%R) by lra.
  split; [apply dimer_wf; exact H1|]. split; [apply dimer_wf; exact H2|]. split; [reflexivity|].
  assert (Hgen : forall y site, (0 < y)%R -> i_entropy svd eigs eig_sym entropy (dimer y) site =
    Ok (Some (shannon (squares [1; / y]%R) + shannon (squares [1; / y]%R))%R)).
  { intros y site Hy. assert (Hy0 : (y <> 0)%R) by lra. unfold i_entropy. cbn [icanon dimer].
    destruct (C63_canonical_defined_partial svd eigs eig_sym Hsvd Hes (dimer y)) as (psi' & Ep); [reflexivity|apply dimer_wf; exact Hy0|exact He|apply dimer_primitive; exact Hy0|].
    fold (dimer y). rewrite Ep. cbn [bind].
    destruct (C63_canonical_ring svd eigs eig_sym Hsvd Hes (dimer y) psi' (dimer_wf y Hy0) Hz Ep) as (_ & _ & _ & _ & ElA & _).
    unfold entropy_canonical. rewrite ElA. cbn [ilA dimer].
    assert (E : map (fun x => Rabs (x * x)) [1; / y]%R = squares [1; / y]%R).
    { apply map_ext. intros x. apply Rabs_right. pose proof (Rle_0_sqr x) as H. unfold Rsqr in H. lra. }
    rewrite E, entropy_pos_value; [reflexivity|discriminate|]. unfold squares. repeat constructor; cbn [map]; [lra|]. pose proof (Rinv_0_lt_compat y Hy). nra. }
  split.
  - intros site. rewrite (Hgen 1%R site) by lra. do 2 f_equal. unfold squares. cbn [map]. rewrite Rinv_1, Rmult_1_r, shannon_even. ring.
  - intros site. eexists. split; [apply Hgen; lra|]. unfold squares. cbn [map]. rewrite Rinv_involutive by lra.
    unfold shannon, total. cbn [fold_right]. replace (1 * 1 / (1 * 1 + (2 * 2 + 0)))%R with (/ 5)%R by field. replace (2 * 2 / (1 * 1 + (2 * 2 + 0)))%R with (4 * / 5)%R by field.
    rewrite ln_mult, ln_Rinv by lra. replace 4%R with (2 * 2)%R by ring. rewrite ln_mult by lra.
    assert (Hl : (5 * ln 5 < 13 * ln 2)%R).
    { replace (5 * ln 5)%R with (ln (5 ^ 5))%R by (rewrite ln_pow by lra; cbn [INR]; ring). replace (13 * ln 2)%R with (ln (2 ^ 13))%R by (rewrite ln_pow by lra; cbn [INR]; ring).
      apply ln_increasing; lra. }
    lra.
Qed.
