(** * C76: the different ways of computing the same quantity agree

    The energy of a state is available through expected(psi,H), through the operator CMPO(H), by applying
    that operator and taking a scalar product, and through the matrices of sparse_hamiltonian(H) and
    mpo_to_matrix().  Operators may be composed before or after they are applied. *)
From Coq Require Import Bool List Arith ZArith Lia Ring.
From Verif Require Import Scalar ScalarFacts Instances Tensor TensorFacts Spec MpsModel MpoSpec MpoModel Witness
  MpsFacts MpsProps MpoThread MpoProps MpoMatrix MpoAddFacts HamSpec HamModel HamFacts HamConst ExpectedFacts SparseSpec SparseModel
  Properties_Mps Properties_Mpo Properties_Ham Properties_Sparse.
Import ListNotations.
Local Open Scope K_scope.

Section Routes.
Context {SC : Scalar}.
Add Ring Kring : k_ring.

Lemma open_wf (O : mpo) : open_mpo O -> wf_mpo O.
Proof. intros (H1 & H2). split; [exact H1|]. exists 1%nat. split; [lia|exact H2]. Qed.

(** scprod of psi with O|psi> is the expectation value of O *)
Lemma scprod_apply O psi : wf_mpo O -> wf_mps psi -> idims O = pdims psi -> odims O = pdims psi ->
  exists chi, apply O psi = Ok chi /\ wf_mps chi /\ pdims chi = pdims psi /\
    forall sense, scprod psi chi sense = Ok (melem (pdims psi) (amp psi) (opelem O) (amp psi)).
Proof.
  intros HO Hp Hi Ho. destruct (C26_apply O psi HO Hp Hi) as (chi & E & W & P & _ & V).
  exists chi. split; [exact E|]. split; [exact W|]. split; [congruence|]. intros sense.
  rewrite (C02_scprod psi chi sense Hp W) by congruence. f_equal. unfold melem.
  apply sumcfg_ext. intros is His. rewrite V by (rewrite Ho; exact His).
  rewrite sumcfg_mul_l. apply sumcfg_ext. intros js _. ring.
Qed.

(** C76. expected(psi,H), expected(psi,CMPO(H)) and scprod(psi, apply(CMPO(H),psi)) are the same number. *)
Theorem C76_energies H psi : ham_ok H -> locals_set H -> h_periodic H = false -> (2 <= h_size H)%nat ->
  wf_mps psi -> pdims psi = h_dims H ->
  exists O chi e, cmpo_of_hamiltonian H = Ok O /\ apply O psi = Ok chi /\
    h_expected psi H = Ok e /\ mpo_expected1 psi O = Ok e /\ (forall sense, scprod psi chi sense = Ok e).
Proof.
  intros H1 H2 Hper H3 Hp Hd.
  destruct (C33_cmpo_of_hamiltonian_partial H H1 H2 H3) as (O & E & HO & Ho & Hi & HE).
  destruct (scprod_apply O psi (open_wf O HO) Hp ltac:(congruence) ltac:(congruence)) as (chi & Ea & _ & _ & Es).
  exists O, chi, (melem (pdims psi) (amp psi) (opelem O) (amp psi)).
  split; [exact E|]. split; [exact Ea|]. split; [|split; [|exact Es]].
  - rewrite (C40_expected_hamiltonian psi H Hp H1 Hd), Hper. f_equal. unfold melem.
    apply sumcfg_ext. intros is His. apply sumcfg_ext. intros js Hjs.
    rewrite Hd in His, Hjs. rewrite HE by assumption. reflexivity.
  - exact (C31_mpo_expected_same psi O Hp (open_wf O HO) ltac:(congruence) ltac:(congruence)).
Qed.

(** C76. The sum of psi^*(n) (M v)(n), with the matrix M of the operator and the vector v of the state, is
    the expectation value of the operator. *)
Theorem C76_matrix_vector O psi : open_mpo O -> wf_mps psi -> odims O = pdims psi -> idims O = pdims psi ->
  exists v e, mps_to_vector psi = Ok v /\ mpo_expected1 psi O = Ok e /\
    e = sum (nprod (pdims psi)) (fun n => kconj (get v [n]) * get (mmult (mpo_to_matrix O) v) [n]).
Proof.
  intros HO Hp Ho Hi.
  destruct (C29_matrix_vector O psi HO Hp Ho Hi) as (chi & v & w & Ea & Ev & Ew & Em).
  destruct (scprod_apply O psi (open_wf O HO) Hp Hi Ho) as (chi' & Ea' & W & P & Es).
  assert (chi' = chi) by congruence. subst chi'. clear Ea'.
  exists v, (melem (pdims psi) (amp psi) (opelem O) (amp psi)). split; [exact Ev|].
  split; [exact (C31_mpo_expected_same psi O Hp (open_wf O HO) Hi Ho)|].
  specialize (Es (-1)%Z). rewrite (C02_scprod psi chi (-1) Hp W) in Es by congruence.
  assert (Es' : melem (pdims psi) (amp psi) (opelem O) (amp psi) = sumcfg (pdims psi) (fun is => kconj (amp psi is) * amp chi is)) by congruence.
  rewrite Es', Em, sum_nprod. apply sumcfg_ext. intros is His.
  destruct (mps_to_vector_correct psi Hp) as (v' & Ev' & _ & _ & Hg).
  destruct (mps_to_vector_correct chi W) as (w' & Ew' & _ & _ & Hg').
  assert (v' = v) by congruence. assert (w' = w) by congruence. subst v' w'.
  rewrite P in Hg'. rewrite Hg, Hg' by exact His. reflexivity.
Qed.

(** C76. For a ConstantHamiltonian with an open chain, after any history of calls that gives every site a
    local term, sparse_hamiltonian(H) and mpo_to_matrix(CMPO(H)) are the same matrix, and all the energies
    agree.  [decomp] stands for decompose_operator(), which is only called for periodic chains. *)
Theorem C76_hamiltonians (decomp : tensor -> result (tensor * tensor)) N dim_of l psi :
  Forall (call_ok N dim_of) l -> (forall k, (0 < dim_of k)%nat) -> (2 <= N)%nat ->
  (forall k, (k < N)%nat -> hist_local k l <> empty) ->
  wf_mps psi -> pdims psi = map dim_of (seq 0 N) ->
  exists c O M chi v e, ch_run N false l = Ok c /\
    cmpo_of_hamiltonian (ch_view c) = Ok O /\ sparse_hamiltonian decomp (ch_view c) = Ok M /\
    mpo_to_matrix O = M /\
    h_expected psi (ch_view c) = Ok e /\ mpo_expected1 psi O = Ok e /\
    apply O psi = Ok chi /\ (forall sense, scprod psi chi sense = Ok e) /\
    mps_to_vector psi = Ok v /\ e = sum (nprod (pdims psi)) (fun n => kconj (get v [n]) * get (mmult M v) [n]).
Proof.
  intros Hl Hp HN Hloc Hpsi Hd.
  assert (Htouch : forall k, (k < N)%nat -> existsb (touches k) l = true).
  { intros k Hk. apply existsb_exists. destruct (hist_local_touched k l (Hloc k Hk)) as (x & Hx & Ht). exists x. auto. }
  destruct (C41_constant_hamiltonian decomp N dim_of l Hl Hp ltac:(lia) ltac:(intros k Hk; left; exact (Hloc k Hk)))
    as (c & M & E & EM & HM & HgM). cbv zeta in HM, HgM.
  destruct (C39_well_formed N false dim_of l Hl Hp Htouch) as (c1 & E1 & Hok & _).
  assert (c1 = c) by congruence. subst c1. clear E1.
  destruct (C39_constant_hamiltonian N false dim_of l Hl Hp) as (c2 & E2 & Hs & Hper & Hk).
  assert (c2 = c) by congruence. subst c2. clear E2.
  assert (Eds : h_dims (ch_view c) = map dim_of (seq 0 N)).
  { unfold h_dims. rewrite Hs. apply map_ext_in. intros k Hin. apply in_seq in Hin.
    destruct (Hk k ltac:(lia)) as (_ & _ & Hdk & _). rewrite Hdk, Htouch by lia. reflexivity. }
  assert (HL : locals_set (ch_view c)).
  { intros k Hk'. rewrite Hs in Hk'. destruct (Hk k Hk') as (Hlk & _). rewrite Hlk. exact (Hloc k Hk'). }
  destruct (C76_energies (ch_view c) psi Hok HL Hper ltac:(lia) Hpsi ltac:(congruence)) as (O & chi & e & EO & Ea & Ee & Eo & Es).
  destruct (C33_cmpo_of_hamiltonian_partial (ch_view c) Hok HL ltac:(lia)) as (O' & EO' & HO & Ho & Hi & HE).
  assert (O' = O) by congruence. subst O'. clear EO'.
  destruct (C76_matrix_vector O psi HO Hpsi ltac:(congruence) ltac:(congruence)) as (v & e' & Ev & Ee' & Hsum).
  assert (Q : e' = e) by congruence. rewrite Q in Hsum. clear Ee' Q.
  assert (HMO : mpo_to_matrix O = M).
  { destruct (C29_mpo_to_matrix O HO ltac:(congruence)) as (M1 & M2 & M3). destruct HM as (D & W).
    rewrite Ho, Eds in M2, M3. apply tensor_ext; [exact M1|exact W|congruence|].
    intros ks Hks. rewrite M2 in Hks.
    apply in_range_cons_inv in Hks. destruct Hks as (r & ks' & -> & Hr & Hks).
    apply in_range_cons_inv in Hks. destruct Hks as (s & ks'' & -> & Hs' & Hks). apply in_range_nil_inv in Hks. subst ks''.
    rewrite <- (offset_unravel _ _ Hr), <- (offset_unravel _ _ Hs').
    pose proof (unravel_in_range _ _ Hr) as R1. pose proof (unravel_in_range _ _ Hs') as R2.
    rewrite M3 by assumption. rewrite HgM by assumption. rewrite HE by (rewrite Eds; assumption). rewrite Hs.
    unfold chain_op. cbn [andb].
    match goal with |- ?a + ?b + ?z = ?a' + ?b' + ?z => assert (A : a = a'); [|assert (B : b = b'); [|rewrite A, B; reflexivity]] end.
    - apply sum_ext. intros k Hk'. destruct (Hk k Hk') as (Hlk & _). rewrite Hlk. reflexivity.
    - apply sum_ext. intros k Hk'. destruct (Hk k ltac:(lia)) as (_ & Htk & _). rewrite Htk. reflexivity. }
  exists c, O, M, chi, v, e. rewrite <- HMO.
  split; [exact E|]. split; [exact EO|]. split; [congruence|]. split; [reflexivity|].
  split; [exact Ee|]. split; [exact Eo|]. split; [exact Ea|]. split; [exact Es|]. split; [exact Ev|]. exact Hsum.
Qed.

(** C76. Applying the product of two operators is applying one after the other. *)
Theorem C76_product A B psi : wf_mpo A -> wf_mpo B -> wf_mps psi -> idims A = odims B -> idims B = pdims psi ->
  exists C b ab cb, mpo_mmult A B = Ok C /\ apply B psi = Ok b /\ apply A b = Ok ab /\ apply C psi = Ok cb /\
    pdims cb = pdims ab /\ forall is, in_range (odims A) is -> amp cb is = amp ab is.
Proof.
  intros HA HB Hp Hab Hb.
  destruct (C27_mmult A B HA HB Hab) as (C & EC & HC & Ho & Hi & HgC).
  destruct (C26_apply B psi HB Hp Hb) as (b & Eb & Wb & Pb & _ & Vb).
  destruct (C26_apply A b HA Wb ltac:(congruence)) as (ab & Eab & Wab & Pab & _ & Vab).
  destruct (C26_apply C psi HC Hp ltac:(congruence)) as (cb & Ecb & Wcb & Pcb & _ & Vcb).
  exists C, b, ab, cb. split; [exact EC|]. split; [exact Eb|]. split; [exact Eab|]. split; [exact Ecb|].
  split; [congruence|]. intros is Hi'. rewrite Vab by exact Hi'. rewrite Vcb by (rewrite Ho; exact Hi').
  transitivity (sumcfg (pdims psi) (fun ks => sumcfg (pdims b) (fun js => opelem A is js * opelem B js ks * amp psi ks))).
  - apply sumcfg_ext. intros ks Hk. rewrite HgC by (assumption || (rewrite Hb; exact Hk)).
    rewrite Hab, <- Pb, sumcfg_mul_r. reflexivity.
  - rewrite sumcfg_swap. apply sumcfg_ext. intros js Hj. rewrite Vb by (rewrite <- Pb; exact Hj).
    rewrite sumcfg_mul_l. apply sumcfg_ext. intros ks _. ring.
Qed.

(** C76. The expectation value of adjoint(O) O is the scalar product of O|psi> with itself. *)
Theorem C76_square O psi : wf_mpo O -> wf_mps psi -> idims O = pdims psi ->
  exists chi P e, apply O psi = Ok chi /\ mpo_mmult (adjoint_z O) O = Ok P /\
    mpo_expected1 psi P = Ok e /\ forall sense, scprod chi chi sense = Ok e.
Proof.
  intros HO Hp Hi. destruct (C28_adjoint_complex O HO) as (HZ & Zo & Zi & Zg).
  destruct (C27_mmult (adjoint_z O) O HZ HO Zi) as (P & EP & HP & Po & Pi & HgP).
  destruct (C26_apply O psi HO Hp Hi) as (chi & Ea & W & Pc & _ & V).
  exists chi, P, (melem (pdims psi) (amp psi) (opelem P) (amp psi)).
  split; [exact Ea|]. split; [exact EP|].
  split; [exact (C31_mpo_expected_same psi P Hp HP ltac:(congruence) ltac:(congruence))|].
  intros sense. rewrite (C02_scprod chi chi sense W W eq_refl). f_equal. rewrite Pc.
  transitivity (sumcfg (odims O) (fun ks => sumcfg (pdims psi) (fun is => sumcfg (pdims psi) (fun js =>
    kconj (amp psi is) * (kconj (opelem O ks is) * opelem O ks js) * amp psi js)))).
  - apply sumcfg_ext. intros ks Hk. rewrite V by exact Hk. rewrite sumcfg_conj, sumcfg_mul_r.
    apply sumcfg_ext. intros is _. rewrite sumcfg_mul_l. apply sumcfg_ext. intros js _. rewrite kconj_mul. ring.
  - unfold melem. rewrite sumcfg_swap. apply sumcfg_ext. intros is His.
    rewrite sumcfg_swap. apply sumcfg_ext. intros js Hjs.
    rewrite HgP by (rewrite ?Zo, Hi; assumption).
    rewrite Zi, sumcfg_mul_l, sumcfg_mul_r. apply sumcfg_ext. intros ks Hk.
    rewrite Zg by (assumption || (rewrite Hi; exact His)). reflexivity.
Qed.

(** C76. The energy of a Hermitian Hamiltonian is real, in any state. *)
Theorem C76_real H psi : ham_ok H -> wf_mps psi -> pdims psi = h_dims H ->
  (forall is js, in_range (h_dims H) is -> in_range (h_dims H) js ->
     chain_op (h_size H) (h_periodic H) (h_local H) (h_terms H) is js =
     kconj (chain_op (h_size H) (h_periodic H) (h_local H) (h_terms H) js is)) ->
  exists e, h_expected psi H = Ok e /\ kconj e = e.
Proof.
  intros H1 Hp Hd HH. eexists. split; [exact (C40_expected_hamiltonian psi H Hp H1 Hd)|].
  unfold melem. rewrite sumcfg_conj. transitivity (sumcfg (pdims psi) (fun is => sumcfg (pdims psi) (fun js =>
    kconj (amp psi js) * chain_op (h_size H) (h_periodic H) (h_local H) (h_terms H) js is * amp psi is))).
  - apply sumcfg_ext. intros is His. rewrite sumcfg_conj. apply sumcfg_ext. intros js Hjs.
    rewrite !kconj_mul, kconj_inv. rewrite (HH js is) by (rewrite <- Hd; assumption). ring.
  - apply sumcfg_swap.
Qed.

Lemma wf_pdims_pos psi : wf_mps psi -> Forall (fun d => (0 < d)%nat) (pdims psi).
Proof.
  intros (_ & D & _ & HL). assert (G : forall (q : mps) l r, linked l q r -> Forall (fun d => (0 < d)%nat) (pdims q)).
  { clear. induction q as [|A q IH]; intros l r H; cbn; [constructor|].
    destruct H as (d & c & HA & _ & Hd & _ & H). constructor; [unfold dim; rewrite HA; exact Hd|eapply IH; exact H]. }
  exact (G psi D D HL).
Qed.
Lemma replace_nth_same {X} k (x : X) l : replace_nth k (nth k l x) l = l.
Proof. revert k. induction l as [|y l IH]; intros [|k]; cbn; try reflexivity. rewrite IH. reflexivity. Qed.
Lemma map_repeat' {X Y} (f : X -> Y) x n : map f (repeat x n) = repeat (f x) n.
Proof. induction n as [|n IH]; cbn; [reflexivity|]. rewrite IH. reflexivity. Qed.

(** A local operator moved onto the state changes one index only. *)
Lemma site_op_apply ds is : in_range ds is -> forall k M f, (k < length ds)%nat ->
  sumcfg ds (fun js => site_op k M is js * f js) =
  sum (nth k ds 0%nat) (fun j => M (nth k is 0%nat) j * f (replace_nth k j is)).
Proof.
  induction 1 as [|d i ds is Hi H IH]; intros k M f Hk; cbn in Hk; [lia|]. destruct k as [|k]; cbn [sumcfg site_op nth replace_nth].
  - apply sum_ext. intros j Hj. transitivity (M i j * sumcfg ds (fun js => id_op is js * f (j :: js))).
    + rewrite sumcfg_mul_l. apply sumcfg_ext. intros js _. ring.
    + rewrite sumcfg_id_op by exact H. reflexivity.
  - transitivity (sum d (fun j => delta i j * sumcfg ds (fun js => site_op k M is js * f (j :: js)))).
    + apply sum_ext. intros j Hj. rewrite sumcfg_mul_l. apply sumcfg_ext. intros js _. ring.
    + rewrite sum_delta_l' by assumption. apply (IH k M (fun js => f (i :: js))). lia.
Qed.

(** C76. Three ways to the expectation value of a local operator: expected(psi,A,k), an MPO with this only
    term, and the scalar product with apply_local_operator(psi,A,k). *)
Theorem C76_local psi A k : wf_mps psi -> (2 <= length psi)%nat -> (k < length psi)%nat ->
  dims A = [nth k (pdims psi) 0; nth k (pdims psi) 0]%nat ->
  exists Z O phi e, new_mpo (pdims psi) = Ok Z /\ add_local_term Z A (Z.of_nat k) = Ok O /\
    expected1 psi A (Z.of_nat k) = Ok e /\ mpo_expected1 psi O = Ok e /\
    apply_local_operator psi A (Z.of_nat k) = Ok phi /\ forall sense, scprod psi phi sense = Ok e.
Proof.
  intros Hp HN Hk HA.
  assert (Hpos : Forall (fun d => (0 < d)%nat) (pdims psi)).
  { exact (wf_pdims_pos psi Hp). }
  assert (Hlen : length (pdims psi) = length psi) by apply length_pdims.
  assert (Hd : (0 < nth k (pdims psi) 0)%nat) by (rewrite Forall_forall in Hpos; apply Hpos, nth_In; lia).
  destruct (C19_fresh_mpo_is_zero (pdims psi) ltac:(lia) Hpos) as (Z & EZ & BZ & _ & _ & _ & ZZ).
  destruct (C20_add_local_term (pdims psi) Z A (Z.of_nat k) BZ) as (HT & _).
  destruct (HT ltac:(lia) ltac:(unfold sq; rewrite Nat2Z.id; exact HA)) as (O & EO & _ & (HO & Ho & Hi & HE) & _). rewrite Nat2Z.id in HE.
  destruct (C09_apply_local_operator psi A k (nth k (pdims psi) 0%nat) Hp Hk HA Hd) as (phi & Ep & Wp & Pp & _ & Vp).
  rewrite replace_nth_same in Pp.
  exists Z, O, phi, (melem (pdims psi) (amp psi) (site_op k (mat A)) (amp psi)).
  split; [exact EZ|]. split; [exact EO|].
  split; [exact (C04_expected1 psi A (Z.of_nat k) k Hp (normal_index_nat psi k Hk) HA)|]. split; [|split; [exact Ep|]].
  - rewrite (C31_mpo_expected_same psi O Hp (open_wf O HO) Hi Ho). f_equal. apply melem_ext. intros is js His Hjs.
    rewrite HE, ZZ by assumption. ring.
  - intros sense. rewrite (C02_scprod psi phi sense Hp Wp) by congruence. f_equal. unfold melem.
    apply sumcfg_ext. intros is His. rewrite Vp by (rewrite Pp; exact His).
    transitivity (kconj (amp psi is) * sumcfg (pdims psi) (fun js => site_op k (mat A) is js * amp psi js)).
    + rewrite (site_op_apply (pdims psi) is His k (mat A) (amp psi)) by lia. reflexivity.
    + rewrite sumcfg_mul_l. apply sumcfg_ext. intros js _. ring.
Qed.

(** C76. Two ways to the expectation value of a product on neighbouring sites: expected(psi,A,k,B,k+1) and an
    MPO with this only term. *)
Theorem C76_interaction psi A B k : wf_mps psi -> (S k < length psi)%nat ->
  dims A = [nth k (pdims psi) 0; nth k (pdims psi) 0]%nat ->
  dims B = [nth (S k) (pdims psi) 0; nth (S k) (pdims psi) 0]%nat ->
  exists Z O e, new_mpo (pdims psi) = Ok Z /\ add_interaction Z A (Z.of_nat k) B = Ok O /\
    expected2 psi A (Z.of_nat k) B (Z.of_nat (S k)) = Ok e /\ mpo_expected1 psi O = Ok e.
Proof.
  intros Hp Hk HA HB.
  assert (Hpos : Forall (fun d => (0 < d)%nat) (pdims psi)).
  { exact (wf_pdims_pos psi Hp). }
  assert (Hlen : length (pdims psi) = length psi) by apply length_pdims.
  destruct (C19_fresh_mpo_is_zero (pdims psi) ltac:(lia) Hpos) as (Z & EZ & BZ & _ & _ & _ & ZZ).
  destruct (C21_add_interaction (pdims psi) Z A (Z.of_nat k) B BZ) as (HT & _).
  destruct (HT ltac:(lia) ltac:(lia) ltac:(unfold sq; rewrite Nat2Z.id; exact HA) ltac:(unfold sq; rewrite Nat2Z.id; exact HB))
    as (O & EO & _ & (HO & Ho & Hi & HE)). rewrite Nat2Z.id in HE.
  exists Z, O, (melem (pdims psi) (amp psi) (op_mul (pdims psi) (site_op k (mat A)) (site_op (S k) (mat B))) (amp psi)).
  split; [exact EZ|]. split; [exact EO|]. split.
  - apply (C05_expected2_partial psi A (Z.of_nat k) k B (Z.of_nat (S k)) (S k) Hp); try assumption; try (apply normal_index_nat; lia).
    right. lia.
  - rewrite (C31_mpo_expected_same psi O Hp (open_wf O HO) Hi Ho). f_equal. apply melem_ext. intros is js His Hjs.
    rewrite HE, ZZ by assumption. rewrite op_mul_sites by (assumption || lia). unfold two_site. ring.
Qed.

(** C76. The sum of a local operator over all sites: expected(psi,A) and the operator
    local_Hamiltonian_mpo() of its copies; the entries of expected_vector add up to it. *)
Theorem C76_total psi A d : wf_mps psi -> (2 <= length psi)%nat -> pdims psi = repeat d (length psi) -> dims A = [d; d] ->
  exists O v e, local_Hamiltonian_mpo (repeat A (length psi)) = Ok O /\
    expected_total psi A = Ok e /\ mpo_expected1 psi O = Ok e /\
    expected_vector psi (repeat A (length psi)) psi = Ok v /\ e = sum (length psi) (fun k => get v [k]).
Proof.
  intros Hp HN Hd HA.
  assert (Hpos : Forall (fun d => (0 < d)%nat) (pdims psi)).
  { exact (wf_pdims_pos psi Hp). }
  assert (H0 : (0 < d)%nat).
  { rewrite Hd in Hpos. rewrite Forall_forall in Hpos. apply Hpos. destruct (length psi) as [|n]; [lia|]. left. reflexivity. }
  assert (Hrep : Forall (fun H : tensor => exists d, (0 < d)%nat /\ dims H = [d; d]) (repeat A (length psi))).
  { apply Forall_forall. intros x Hx. apply repeat_spec in Hx. subst x. exists d. auto. }
  destruct (C25_local_Hamiltonian_mpo (repeat A (length psi)) ltac:(rewrite repeat_length; lia) Hrep) as (O & EO & HO). cbv zeta in HO.
  assert (Eds : map (fun H : tensor => dim H 0) (repeat A (length psi)) = pdims psi).
  { rewrite Hd, map_repeat'. unfold dim. rewrite HA. reflexivity. }
  rewrite Eds in HO. destruct HO as (_ & HO & Ho & Hi & HE). rewrite repeat_length in HE.
  assert (Hnth : forall k, (k < length psi)%nat -> nth k (repeat A (length psi)) empty = A).
  { intros k Hk. rewrite (nth_indep _ empty A) by (rewrite repeat_length; exact Hk). apply nth_repeat. }
  destruct (C06_expected_vector psi psi (repeat A (length psi)) Hp Hp eq_refl ltac:(apply repeat_length)) as (v & Ev & _ & _ & Hv).
  { intros i Hi'. rewrite Hnth by exact Hi'. rewrite Hd. rewrite (nth_indep _ 0%nat d) by (rewrite repeat_length; exact Hi'). rewrite nth_repeat. exact HA. }
  exists O, v, (sum (length psi) (fun k => melem (pdims psi) (amp psi) (site_op k (mat A)) (amp psi))).
  split; [exact EO|]. split; [exact (C06_expected_total psi A d Hp Hd HA)|]. split; [|split; [exact Ev|]].
  - rewrite (C31_mpo_expected_same psi O Hp (open_wf O HO) Hi Ho). f_equal. rewrite <- melem_sum.
    apply melem_ext. intros is js His Hjs. rewrite HE by assumption. apply sum_ext. intros k Hk. rewrite Hnth by exact Hk. reflexivity.
  - apply sum_ext. intros k Hk. rewrite Hv by exact Hk. rewrite Hnth by exact Hk. reflexivity.
Qed.

End Routes.
Local Close Scope K_scope.

(** ** Concrete cases *)
Definition z_decomp (t : @tensor ZScalar) : result (@tensor ZScalar * @tensor ZScalar) := Abort.
Example C76_ex : Forall (call_ok 3 zds) zcalls /\ (forall k, k < 3 -> hist_local k zcalls <> empty) /\
  wf_mps zopen /\ pdims zopen = map zds (seq 0 3) /\
  exists c O M e, ch_run 3 false zcalls = Ok c /\ cmpo_of_hamiltonian (ch_view c) = Ok O /\
    sparse_hamiltonian z_decomp (ch_view c) = Ok M /\ mpo_to_matrix O = M /\ h_expected zopen (ch_view c) = Ok e /\ e <> 0%Z.
Proof.
  split; [exact zcalls_ok|].
  assert (HL : forall k, k < 3 -> @hist_local ZScalar k zcalls <> empty).
  { intros k Hk E. destruct k as [|[|[|k]]]; [| | |lia]; vm_compute in E; discriminate. }
  split; [exact HL|]. split; [exact zopen_wf|]. split; [vm_compute; reflexivity|].
  destruct (C76_hamiltonians z_decomp 3 zds zcalls zopen zcalls_ok zds_pos ltac:(lia) HL zopen_wf ltac:(vm_compute; reflexivity))
    as (c & O & M & chi & v & e & E1 & E2 & E3 & E4 & E5 & _).
  exists c, O, M, e. repeat (split; [assumption|]).
  destruct C40_ex as (_ & _ & _ & x & Ex & Hx). unfold zH in Ex. rewrite E1 in Ex. congruence.
Qed.

(** The operator of [zH] and the state [zopen] meet the hypotheses of the theorems about products. *)
Example C76_product_ex : exists O, cmpo_of_hamiltonian zH = Ok O /\ wf_mpo O /\ idims O = odims O /\ idims O = pdims zopen /\
  exists P e, mpo_mmult (adjoint_z O) O = Ok P /\ mpo_expected1 zopen P = Ok e /\ e <> 0%Z.
Proof.
  destruct C33_ex as (A & B & _ & C & _). destruct (C33_cmpo_of_hamiltonian_partial zH A B ltac:(rewrite C; lia)) as (O & E & HO & Ho & Hi & _).
  exists O. split; [exact E|]. split; [exact (open_wf O HO)|]. split; [congruence|].
  assert (Hz : idims O = pdims zopen) by (rewrite Hi; vm_compute; reflexivity). split; [exact Hz|].
  destruct (C76_square O zopen (open_wf O HO) zopen_wf Hz) as (chi & P & e & Ea & EP & Ee & Es).
  exists P, e. split; [exact EP|]. split; [exact Ee|].
  assert (Q : match cmpo_of_hamiltonian zH with Ok o => match apply o zopen with Ok c => match scprod c c 1%Z with Ok x => negb (Z.eqb x 0) | _ => false end | _ => false end | _ => false end = true)
    by (vm_compute; reflexivity).
  rewrite E, Ea, (Es 1%Z) in Q. destruct (Z.eqb_spec e 0) as [|Ne]; [discriminate Q|exact Ne].
Qed.

(** Two sites with a symmetric local term and a symmetric interaction *)
Definition sop (d c : nat) : @tensor ZScalar := @mk ZScalar [d; d] (fun is => Z.of_nat (c + nth 0 is 0 + nth 1 is 0)).
Definition sH : @hamiltonian ZScalar :=
  ch_view (match ch_run 2 false [SetLocal 0 (sop 2 1); SetLocal 1 (sop 2 2); SetInt 0 (sop 2 3) (sop 2 1); AddInt 0 (sop 2 0) (sop 2 4)]
           with Ok c => c | Abort => ch_new 0 false end).
Example C76_real_ex : ham_ok sH /\ h_size sH = 2 /\ h_dims sH = [2; 2] /\ length (h_terms sH 0) = 2 /\
  forall is js, in_range (h_dims sH) is -> in_range (h_dims sH) js ->
     chain_op (h_size sH) (h_periodic sH) (h_local sH) (h_terms sH) is js =
     kconj (chain_op (h_size sH) (h_periodic sH) (h_local sH) (h_terms sH) js is).
Proof.
  split.
  { destruct (C39_well_formed 2 false (fun _ => 2) [SetLocal 0 (sop 2 1); SetLocal 1 (sop 2 2); SetInt 0 (sop 2 3) (sop 2 1); AddInt 0 (sop 2 0) (sop 2 4)])
      as (c & E & H & _).
    - repeat constructor.
    - intros; lia.
    - intros [|[|k]] Hk; try reflexivity. lia.
    - unfold sH. rewrite E. exact H. }
  split; [vm_compute; reflexivity|]. split; [vm_compute; reflexivity|]. split; [vm_compute; reflexivity|].
  replace (h_dims sH) with [2; 2] by (vm_compute; reflexivity). intros is js Hi Hj.
  apply in_range_cons_inv in Hi. destruct Hi as (i & r & -> & Hi & Hr). apply in_range_cons_inv in Hr. destruct Hr as (i' & r' & -> & Hi' & Hr).
  apply in_range_nil_inv in Hr. subst r'.
  apply in_range_cons_inv in Hj. destruct Hj as (j & r & -> & Hj & Hr). apply in_range_cons_inv in Hr. destruct Hr as (j' & r' & -> & Hj' & Hr).
  apply in_range_nil_inv in Hr. subst r'.
  destruct i as [|[|i]]; [| |lia]; (destruct i' as [|[|i']]; [| |lia]); (destruct j as [|[|j]]; [| |lia]);
  (destruct j' as [|[|j']]; [| |lia]); vm_compute; reflexivity.
Qed.

(** Local operators in [zopen] *)
Example C76_local_ex : wf_mps zopen /\ length zopen = 3 /\ nth 1 (pdims zopen) 0 = 3 /\ nth 2 (pdims zopen) 0 = 2 /\
  dims (zop 3 2) = [3; 3] /\ dims (zop 2 1) = [2; 2] /\
  exists e e', expected1 zopen (zop 3 2) 1%Z = Ok e /\ expected2 zopen (zop 3 2) 1%Z (zop 2 1) 2%Z = Ok e' /\ e <> 0%Z /\ e' <> 0%Z.
Proof.
  split; [exact zopen_wf|]. repeat (split; [vm_compute; reflexivity|]).
  exists (match expected1 zopen (zop 3 2) 1%Z with Ok e => e | Abort => 0%Z end).
  exists (match expected2 zopen (zop 3 2) 1%Z (zop 2 1) 2%Z with Ok e => e | Abort => 0%Z end).
  split; [vm_compute; reflexivity|]. split; [vm_compute; reflexivity|]. split; vm_compute; discriminate.
Qed.
(** A chain of three sites with the same dimension *)
Definition zsame : @mps ZScalar := [zt [1;2;2] 0; zt [2;2;3] 1; zt [3;2;1] 2].
Example C76_total_ex : wf_mps zsame /\ pdims zsame = repeat 2 (length zsame) /\
  exists e, expected_total zsame (zop 2 1) = Ok e /\ e <> 0%Z.
Proof.
  split; [split; [discriminate|exists 1; split; [lia|solve_linked]]|]. split; [reflexivity|].
  exists (match expected_total zsame (zop 2 1) with Ok e => e | Abort => 0%Z end).
  split; [vm_compute; reflexivity|]. vm_compute. discriminate.
Qed.

Print Assumptions C76_energies.
Print Assumptions C76_matrix_vector.
Print Assumptions C76_hamiltonians.
Print Assumptions C76_product.
Print Assumptions C76_square.
Print Assumptions C76_real.
Print Assumptions C76_local.
Print Assumptions C76_interaction.
Print Assumptions C76_total.
