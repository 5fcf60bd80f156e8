(** * C33, C39, C40: Hamiltonians, their MPO and their expectation values *)
From Coq Require Import Bool List Arith ZArith Lia.
From Verif Require Import Scalar Instances Tensor Spec MpsModel MpoSpec MpoModel Witness
  MpsFacts MpoThread MpoAddFacts HamSpec HamModel HamFacts HamConst.
Import ListNotations.
Local Open Scope K_scope.

Section Properties.
Context {SC : Scalar}.

(** C33. The MPO of a Hamiltonian with all local terms present: local terms plus nearest-neighbour
    interactions.  The wrap-around interaction of a periodic Hamiltonian is missing (refuted below), and
    the real constructor stops when the last site has interaction terms (refuted below). *)
Theorem C33_cmpo_of_hamiltonian_partial H : ham_ok H -> locals_set H -> (2 <= h_size H)%nat ->
  exists O, cmpo_of_hamiltonian H = Ok O /\ open_mpo O /\ odims O = h_dims H /\ idims O = h_dims H /\
    forall is js, in_range (h_dims H) is -> in_range (h_dims H) js ->
      opelem O is js = chain_op (h_size H) false (h_local H) (h_terms H) is js.
Proof.
  intros H1 H2 H3. destruct (cmpo_correct H H1 H2 H3) as (O & b & E & HF & HO). exists O.
  split; [exact E|]. split; [exact (hform_open _ _ _ HF)|].
  split; [exact (proj1 (hform_odims _ _ _ HF))|]. split; [exact (proj2 (hform_odims _ _ _ HF))|exact HO].
Qed.

Theorem C33_rmpo_of_hamiltonian_partial H : ham_ok H -> locals_set H -> all_real H -> (2 <= h_size H)%nat ->
  h_depth H (h_size H - 1) = 0%nat ->
  exists O, rmpo_of_hamiltonian H = Ok O /\ open_mpo O /\ odims O = h_dims H /\ idims O = h_dims H /\
    forall is js, in_range (h_dims H) is -> in_range (h_dims H) js ->
      opelem O is js = chain_op (h_size H) false (h_local H) (h_terms H) is js.
Proof.
  intros H1 H2 H3 H4 H5. destruct (rmpo_correct H H1 H2 H3 H4 H5) as (O & b & E & HF & HO). exists O.
  split; [exact E|]. split; [exact (hform_open _ _ _ HF)|].
  split; [exact (proj1 (hform_odims _ _ _ HF))|]. split; [exact (proj2 (hform_odims _ _ _ HF))|exact HO].
Qed.

Theorem C33_rmpo_refuted H : ham_ok H -> (2 <= h_size H)%nat -> (0 < h_depth H (h_size H - 1))%nat ->
  is_empty (h_left H (h_size H - 1) 0) = false -> rmpo_of_hamiltonian H = Abort.
Proof. exact (rmpo_aborts H). Qed.

(** C39. Histories of ConstantHamiltonian: [hist_local] and [hist_terms] are what should be remembered. *)
Theorem C39_constant_hamiltonian N periodic ds l : Forall (call_ok N ds) l -> (forall k, (0 < ds k)%nat) ->
  exists c, ch_run N periodic l = Ok c /\ h_size (ch_view c) = N /\ h_periodic (ch_view c) = periodic /\
    forall k, (k < N)%nat ->
      h_local (ch_view c) k = hist_local k l /\ h_terms (ch_view c) k = hist_terms k l /\
      h_dim (ch_view c) k = (if existsb (touches k) l then ds k else 0%nat) /\
      ((S k < N)%nat -> existsb (touches k) l = true -> existsb (touches (S k)) l = true ->
       is_matrix (h_interaction (ch_view c) k) (ds k * ds (S k)) (ds k * ds (S k)) /\
       forall i1 i2 j1 j2, (i1 < ds k)%nat -> (i2 < ds (S k))%nat -> (j1 < ds k)%nat -> (j2 < ds (S k))%nat ->
         get (h_interaction (ch_view c) k) [i1 + ds k * i2; j1 + ds k * j2]%nat =
         fold_right (fun p x => mat (fst p) i1 j1 * mat (snd p) i2 j2 + x) 0 (hist_terms k l)).
Proof. exact (ch_correct N periodic ds l). Qed.

(** Sites that do not exist are rejected after any history; so is the bond from the last to the first
    site, also when the Hamiltonian is periodic. *)
Theorem C39_rejects N periodic ds l x : Forall (call_ok N ds) l ->
  match x with SetLocal k _ => (N <= k)%nat | SetInt k _ _ | AddInt k _ _ => (N <= S k)%nat end ->
  ch_run N periodic (l ++ [x]) = Abort.
Proof.
  intros Hl Hx. destruct (ch_run_inv N periodic ds l Hl) as (c & E & HI).
  unfold ch_run in *. rewrite fold_left_app, E. exact (ch_rejects N periodic ds l c x HI Hx).
Qed.

(** C39 to C40: a ConstantHamiltonian in which every site was mentioned is well formed, so that the
    theorems about Hamiltonians apply to it. *)
Theorem C39_well_formed N periodic ds l : Forall (call_ok N ds) l -> (forall k, (0 < ds k)%nat) ->
  (forall k, (k < N)%nat -> existsb (touches k) l = true) ->
  exists c, ch_run N periodic l = Ok c /\ ham_ok (ch_view c) /\ h_depth (ch_view c) (N - 1) = 0%nat.
Proof.
  intros Hl Hp Ht. destruct (ch_run_inv N periodic ds l Hl) as (c & E & HI). exists c. split; [exact E|].
  split; [exact (ch_ham_ok N periodic ds l c HI Hp Hl Ht)|].
  exact (ch_last_depth N periodic ds l c HI).
Qed.

(** C40. The expectation value (before the real part is taken) is the matrix element of the sum of all
    terms, including the wrap-around bond. *)
Theorem C40_expected_hamiltonian psi H : wf_mps psi -> ham_ok H -> pdims psi = h_dims H ->
  h_expected psi H = Ok (melem (pdims psi) (amp psi)
    (chain_op (h_size H) (h_periodic H) (h_local H) (h_terms H)) (amp psi)).
Proof. exact (h_expected_correct psi H). Qed.

End Properties.
Local Close Scope K_scope.

(** ** Concrete cases *)
Definition zcalls : list (@ham_call ZScalar) :=
  [SetLocal 1 (zop 3 0); AddInt 0 (zop 2 1) (zop 3 2); AddInt 1 (zop 3 1) (zop 2 3); SetLocal 0 (zop 2 3);
   SetInt 1 (zop 3 4) (zop 2 0); AddInt 1 (zop 3 3) (zop 2 2); SetLocal 1 (zop 3 2); AddInt 0 (zop 2 2) (zop 3 3);
   SetLocal 2 (zop 2 1)].
Definition zds (k : nat) : nat := match k with 1 => 3 | _ => 2 end.
Lemma zcalls_ok : Forall (call_ok 3 zds) zcalls.
Proof. repeat constructor. Qed.
Lemma zds_pos k : 0 < zds k.
Proof. destruct k as [|[|k]]; cbn; lia. Qed.
Definition zH : @hamiltonian ZScalar :=
  ch_view (match ch_run 3 false zcalls with Ok c => c | Abort => ch_new 0 false end).

Example C39_ex : exists c, ch_run 3 false zcalls = Ok c /\ length (hist_terms 1 zcalls) = 2 /\
  h_depth (ch_view c) 0 = 2 /\ h_dims (ch_view c) = [2;3;2].
Proof.
  exists (match ch_run 3 false zcalls with Ok c => c | Abort => ch_new 0 false end).
  split; [vm_compute; reflexivity|]. repeat split; vm_compute; reflexivity.
Qed.

Lemma zH_ok : ham_ok zH.
Proof.
  destruct (C39_well_formed 3 false zds zcalls zcalls_ok zds_pos) as (c & E & H & _).
  - intros [|[|[|k]]] Hk; try reflexivity. lia.
  - unfold zH. rewrite E. exact H.
Qed.

Example C33_ex : ham_ok zH /\ locals_set zH /\ all_real zH /\ h_size zH = 3 /\ h_depth zH 2 = 0.
Proof.
  split; [exact zH_ok|]. split; [|split; [|split; vm_compute; reflexivity]].
  - intros k Hk E. assert (Hk' : k < 3) by (vm_compute in Hk; exact Hk). destruct k as [|[|[|k]]]; [| | |lia]; vm_compute in E; discriminate.
  - intros k Hk. split; [|intros j Hj; split]; apply Forall_forall; intros; reflexivity.
Qed.

Example C40_ex : wf_mps zopen /\ ham_ok zH /\ pdims zopen = h_dims zH /\
  exists x, h_expected zopen zH = Ok x /\ x <> 0%Z.
Proof.
  split; [exact zopen_wf|]. split; [exact zH_ok|]. split; [vm_compute; reflexivity|].
  exists (match h_expected zopen zH with Ok x => x | Abort => 0%Z end). split; [vm_compute; reflexivity|].
  vm_compute. discriminate.
Qed.

(** A periodic chain of three sites with the same local term and interaction everywhere. *)
Definition zti : @hamiltonian ZScalar :=
  mkH 3 true (fun _ => kron2 (zop 2 1) (zop 2 2)) (fun _ _ => zop 2 1) (fun _ _ => zop 2 2) (fun _ => 1)
      (fun _ => zop 2 0) (fun _ => 2).
Lemma zti_ok : ham_ok zti.
Proof.
  constructor; cbn.
  - intros. lia.
  - intros. left. split; reflexivity.
  - intros. repeat constructor.
  - intros. repeat constructor.
Qed.
Lemma zti_locals : locals_set zti.
Proof. intros k Hk. discriminate. Qed.

(** CMPO(H) of a periodic Hamiltonian is not the operator whose expectation value expected(psi,H) is. *)
Theorem C33_cmpo_periodic_refuted : exists (H : @hamiltonian ZScalar) O is js,
  ham_ok H /\ locals_set H /\ h_size H = 3 /\ h_periodic H = true /\ cmpo_of_hamiltonian H = Ok O /\
  in_range (h_dims H) is /\ in_range (h_dims H) js /\
  opelem O is js <> chain_op (h_size H) (h_periodic H) (h_local H) (h_terms H) is js.
Proof.
  exists zti, (match cmpo_of_hamiltonian zti with Ok x => x | Abort => [] end), [1;0;1], [1;0;1].
  split; [exact zti_ok|]. split; [exact zti_locals|]. split; [reflexivity|]. split; [reflexivity|].
  split; [vm_compute; reflexivity|]. split; [repeat constructor|]. split; [repeat constructor|].
  vm_compute. discriminate.
Qed.

(** RMPO(H) of the same Hamiltonian stops with an error although everything is real. *)
Theorem C33_rmpo_ti_refuted : rmpo_of_hamiltonian zti = Abort.
Proof. apply C33_rmpo_refuted; [exact zti_ok|cbn; lia|cbn; lia|reflexivity]. Qed.

(** A Hamiltonian with interactions only (no local terms set) cannot be turned into an MPO. *)
Theorem C33_missing_local_term_refuted : exists (c : @constH ZScalar),
  ch_run 2 false [AddInt 0 (zop 2 1) (zop 2 2)] = Ok c /\ ham_ok (ch_view c) /\
  cmpo_of_hamiltonian (ch_view c) = Abort.
Proof.
  destruct (C39_well_formed 2 false (fun _ => 2) [AddInt 0 (zop 2 1) (zop 2 2)]) as (c & E & H & _).
  - repeat constructor.
  - intros. lia.
  - intros [|[|k]] Hk; try reflexivity. lia.
  - exists c. split; [exact E|]. split; [exact H|]. assert (Ec : c = match ch_run 2 false [AddInt 0 (zop 2 1) (zop 2 2)] with Ok c => c | Abort => ch_new 0 false end)
      by (rewrite E; reflexivity).
    rewrite Ec. vm_compute. reflexivity.
Qed.

Print Assumptions C33_cmpo_of_hamiltonian_partial.
Print Assumptions C33_rmpo_of_hamiltonian_partial.
Print Assumptions C33_rmpo_refuted.
Print Assumptions C39_constant_hamiltonian.
Print Assumptions C39_rejects.
Print Assumptions C39_well_formed.
Print Assumptions C40_expected_hamiltonian.
