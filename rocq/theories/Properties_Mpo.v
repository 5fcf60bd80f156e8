(** * C19-C31: matrix product operators *)
From Coq Require Import Bool List Arith ZArith Lia.
From Verif Require Import Scalar Instances Tensor Spec MpsModel MpoSpec MpoModel Witness
  MpsFacts MpoFacts MpoMatrix HamSpec MpoProps.
Import ListNotations.
Local Open Scope K_scope.

Section Properties.
Context {SC : Scalar}.

(** C19. A new MPO is the zero operator. *)
Theorem C19_fresh_mpo_is_zero ds : (2 <= length ds)%nat -> Forall (fun d => (0 < d)%nat) ds ->
  exists O, new_mpo ds = Ok O /\ built ds O /\ open_mpo O /\ odims O = ds /\ idims O = ds /\
    forall is js, in_range ds is -> in_range ds js -> opelem O is js = 0.
Proof. exact (fresh_correct ds). Qed.

Theorem C19_rejects_small ds : (length ds < 2)%nat -> new_mpo ds = Abort.
Proof. exact (fresh_rejects ds). Qed.

(** C20-C24: at any point of any history of calls ([built]), the call succeeds exactly for existing
    sites and matrices of the right dimensions, and then adds exactly its operator ([sum_of]). *)
Theorem C20_add_local_term ds O H k : built ds O ->
  ((0 <= k < Z.of_nat (length ds))%Z -> sq ds (Z.to_nat k) H ->
    exists O', add_local_term O H k = Ok O' /\ built ds O' /\ sum_of ds O O' (site_op (Z.to_nat k) (mat H)) /\
      forall j, j <> Z.to_nat k -> site O' j = site O j) /\
  (~ ((0 <= k < Z.of_nat (length ds))%Z /\ sq ds (Z.to_nat k) H) -> add_local_term O H k = Abort).
Proof. exact (local_correct ds O H k). Qed.

Theorem C21_add_interaction ds O Hi k Hj : built ds O ->
  ((0 <= k)%Z -> (k + 1 < Z.of_nat (length ds))%Z -> sq ds (Z.to_nat k) Hi -> sq ds (S (Z.to_nat k)) Hj ->
    exists O', add_interaction O Hi k Hj = Ok O' /\ built ds O' /\
      sum_of ds O O' (two_site (Z.to_nat k) (S (Z.to_nat k)) (mat Hi) (mat Hj))) /\
  (~ ((0 <= k)%Z /\ (k + 1 < Z.of_nat (length ds))%Z /\ sq ds (Z.to_nat k) Hi /\ sq ds (S (Z.to_nat k)) Hj) ->
   add_interaction O Hi k Hj = Abort).
Proof. exact (nn_correct ds O Hi k Hj). Qed.

Theorem C22_add_long_range ds O Hs k sign : built ds O ->
  ((0 <= k < Z.of_nat (length ds))%Z -> length Hs = length ds ->
   (forall j, (j < length ds)%nat -> sq ds j (nth j Hs empty) /\ match sign with Some s => sq ds j s | None => True end) ->
    exists O', add_long_range O Hs k sign = Ok O' /\ built ds O' /\
      sum_of ds O O' (star_op (length ds) (Z.to_nat k) (fun j => mat (nth j Hs empty)) (fun _ => string_of sign))) /\
  (~ ((0 <= k < Z.of_nat (length ds))%Z /\ length Hs = length ds /\
      forall j, (j < length ds)%nat -> sq ds j (nth j Hs empty) /\ match sign with Some s => sq ds j s | None => True end) ->
   add_long_range O Hs k sign = Abort).
Proof. exact (lr_correct ds O Hs k sign). Qed.

Theorem C23_add_hopping_matrix ds O J ad a : built ds O -> wf a -> dims J = [length ds; length ds] ->
  (forall k, (k < length ds)%nat -> sq ds k ad /\ sq ds k a) ->
  exists O', add_hopping_matrix O J ad a = Ok O' /\ built ds O' /\
    sum_of ds O O' (hopping_op (length ds) (mat J) (mat ad) (mat a) delta).
Proof. exact (hopping_correct ds O J ad a). Qed.

Theorem C23_add_jordan_wigner ds O J ad a sg : built ds O -> wf a -> dims J = [length ds; length ds] ->
  (forall k, (k < length ds)%nat -> sq ds k ad /\ sq ds k a /\ sq ds k sg) ->
  exists O', add_jordan_wigner_matrix O J ad a sg = Ok O' /\ built ds O' /\
    sum_of ds O O' (hopping_op (length ds) (mat J) (mat ad) (mat a) (mat sg)).
Proof. exact (jw_correct ds O J ad a sg). Qed.

Theorem C23_rejects_wrong_size O J ad a sg : ~ (dims J = [length O; length O]) ->
  add_jordan_wigner_matrix O J ad a sg = Abort /\ add_hopping_matrix O J ad a = Abort.
Proof. intros H. split; exact (hopping_rejects O J ad a _ H). Qed.

(** C24. Product terms, unless all operators are identities: then nothing is added (refuted below). *)
Theorem C24_add_product_term_partial ds O Hs : built ds O ->
  (length Hs = length ds -> (forall k, (k < length ds)%nat -> sq ds k (nth k Hs empty) /\ wf (nth k Hs empty)) ->
    ~ (forall k, (k < length ds)%nat -> is_id (nth k Hs empty)) ->
    exists O', add_product_term O Hs = Ok O' /\ built ds O' /\
      sum_of ds O O' (product_op 0 (fun k => mat (nth k Hs empty)))) /\
  (~ (length Hs = length ds /\ forall k, (k < length ds)%nat -> sq ds k (nth k Hs empty)) ->
   add_product_term O Hs = Abort).
Proof. intros HB. destruct (prod_correct ds O Hs HB) as (H1 & _ & H3). split; [exact H1|exact H3]. Qed.

Theorem C24_add_product_of_identities_refuted ds O Hs : built ds O -> length Hs = length ds ->
  (forall k, (k < length ds)%nat -> sq ds k (nth k Hs empty) /\ wf (nth k Hs empty)) ->
  (forall k, (k < length ds)%nat -> is_id (nth k Hs empty)) ->
  exists O', add_product_term O Hs = Ok O' /\ sum_of ds O O' (fun _ _ => 0).
Proof.
  intros HB Hl Hd Hi. destruct (prod_correct ds O Hs HB) as (_ & H2 & _).
  destruct (H2 Hl Hd Hi) as (O' & H & _ & HS). exists O'. split; [exact H|exact HS].
Qed.

(** C25. *)
Theorem C25_local_Hamiltonian_mpo Hs : (2 <= length Hs)%nat ->
  Forall (fun H => exists d, (0 < d)%nat /\ dims H = [d; d]) Hs ->
  exists O, local_Hamiltonian_mpo Hs = Ok O /\
    let ds := map (fun H => dim H 0) Hs in
    built ds O /\ open_mpo O /\ odims O = ds /\ idims O = ds /\
    forall is js, in_range ds is -> in_range ds js ->
      opelem O is js = sum (length Hs) (fun k => site_op k (mat (nth k Hs empty)) is js).
Proof. exact (local_H_correct Hs). Qed.

Theorem C25_rejects Hs : (length Hs < 2)%nat \/ (exists H, In H Hs /\ is_square H = false) ->
  local_Hamiltonian_mpo Hs = Abort.
Proof. exact (local_H_rejects Hs). Qed.

(** C26. Application to a state, open or periodic. *)
Theorem C26_apply O psi : wf_mpo O -> wf_mps psi -> idims O = pdims psi ->
  exists chi, apply O psi = Ok chi /\ wf_mps chi /\ pdims chi = odims O /\
    left_bond chi = (mleft O * left_bond psi)%nat /\
    (forall is, in_range (odims O) is ->
       amp chi is = sumcfg (pdims psi) (fun js => opelem O is js * amp psi js)).
Proof. exact (apply_correct O psi). Qed.

Theorem C26_rejects_other_length O psi : length O <> length psi -> apply O psi = Abort.
Proof. intros H. unfold apply. destruct (Nat.eqb_spec (length O) (length psi)); [contradiction|reflexivity]. Qed.

(** C27. Operator product. *)
Theorem C27_mmult A B : wf_mpo A -> wf_mpo B -> idims A = odims B ->
  exists C, mpo_mmult A B = Ok C /\ wf_mpo C /\ odims C = odims A /\ idims C = idims B /\
    (forall is ks, in_range (odims A) is -> in_range (idims B) ks ->
       opelem C is ks = sumcfg (idims A) (fun js => opelem A is js * opelem B js ks)).
Proof. exact (mmult_correct A B). Qed.

(** C28. Hermitian conjugate: complex MPO, and real MPO only when symmetric (the real version returns
    its argument; refuted below). *)
Theorem C28_adjoint_complex O : wf_mpo O ->
  wf_mpo (adjoint_z O) /\ odims (adjoint_z O) = idims O /\ idims (adjoint_z O) = odims O /\
  (forall is js, in_range (odims O) is -> in_range (idims O) js ->
    opelem (adjoint_z O) js is = kconj (opelem O is js)).
Proof. exact (adjoint_z_correct O). Qed.

Theorem C28_adjoint_moves_across O a b sense : wf_mpo O -> wf_mps a -> wf_mps b ->
  odims O = pdims a -> idims O = pdims b -> pdims a = pdims b ->
  exists ob oa x, apply O b = Ok ob /\ apply (adjoint_z O) a = Ok oa /\
    scprod a ob sense = Ok x /\ scprod oa b sense = Ok x.
Proof. exact (adjoint_across O a b sense). Qed.

Theorem C28_adjoint_real_partial O : (forall x : K, kconj x = x) ->
  (forall is js, in_range (odims O) is -> in_range (idims O) js -> opelem O js is = opelem O is js) ->
  forall is js, in_range (odims O) is -> in_range (idims O) js ->
    opelem (adjoint_d O) js is = kconj (opelem O is js).
Proof. intros HR HS is js Hi Hj. rewrite HR. exact (HS is js Hi Hj). Qed.

(** C29. *)
Theorem C29_mpo_to_matrix O : open_mpo O -> odims O = idims O ->
  wf (mpo_to_matrix O) /\ dims (mpo_to_matrix O) = [nprod (odims O); nprod (odims O)] /\
  forall is js, in_range (odims O) is -> in_range (odims O) js ->
    get (mpo_to_matrix O) [offset (odims O) is; offset (odims O) js] = opelem O is js.
Proof. exact (mpo_to_matrix_correct O). Qed.

Theorem C29_matrix_vector O psi : open_mpo O -> wf_mps psi -> odims O = pdims psi -> idims O = pdims psi ->
  exists chi v w, apply O psi = Ok chi /\ mps_to_vector psi = Ok v /\ mps_to_vector chi = Ok w /\
    mmult (mpo_to_matrix O) v = w.
Proof. exact (to_matrix_vector O psi). Qed.

(** C30. *)
Theorem C30_mpo_to_mps O : wf_mpo O ->
  wf_mps (mpo_to_mps O) /\
  pdims (mpo_to_mps O) = map (fun p => (fst p * snd p)%nat) (combine (odims O) (idims O)) /\
  forall is js, in_range (odims O) is -> in_range (idims O) js ->
    amp (mpo_to_mps O) (map (fun p => (fst (fst p) + snd p * snd (fst p))%nat) (combine (combine is js) (odims O)))
    = opelem O is js.
Proof. exact (mpo_to_mps_correct O). Qed.

Theorem C30_hilbert_schmidt A B sense : wf_mpo A -> wf_mpo B -> odims A = odims B -> idims A = idims B ->
  scprod (mpo_to_mps A) (mpo_to_mps B) sense =
  Ok (sumcfg (odims A) (fun is => sumcfg (idims A) (fun js => kconj (opelem A is js) * opelem B is js))).
Proof. exact (mpo_hs_product A B sense). Qed.

(** C31. *)
Theorem C31_mpo_expected bra O ket : wf_mps bra -> wf_mpo O -> wf_mps ket ->
  idims O = pdims ket -> odims O = pdims bra ->
  mpo_expected bra O ket =
  Ok (sumcfg (pdims bra) (fun is => sumcfg (pdims ket) (fun js =>
        kconj (amp bra is) * opelem O is js * amp ket js))).
Proof. exact (mpo_expected_correct bra O ket). Qed.

Theorem C31_mpo_expected_same psi O : wf_mps psi -> wf_mpo O -> idims O = pdims psi -> odims O = pdims psi ->
  mpo_expected1 psi O = Ok (melem (pdims psi) (amp psi) (opelem O) (amp psi)).
Proof. intros H1 H2 H3 H4. exact (mpo_expected_correct psi O psi H1 H2 H1 H3 H4). Qed.

End Properties.

(** ** Concrete cases *)
Local Close Scope K_scope.
(** The value of a successful computation *)
Definition get_ok (r : result (@mpo ZScalar)) : @mpo ZScalar := match r with Ok x => x | Abort => [] end.
Definition get_okg (r : result (@mpo GScalar)) : @mpo GScalar := match r with Ok x => x | Abort => [] end.

Definition ds232 : list nat := [2; 3; 2].
(** A history on three sites of dimensions 2,3,2 that uses every kind of call that allows different
    dimensions, in mixed order. *)
Definition zhist : result (@mpo ZScalar) :=
  bind (new_mpo ds232) (fun O => bind (add_interaction O (zop 2 1) 0 (zop 3 2)) (fun O =>
  bind (add_local_term O (zop 3 3) 1) (fun O => bind (add_interaction O (zop 3 4) 1 (zop 2 0)) (fun O =>
  bind (add_product_term O [zop 2 2; zop 3 1; eye 2]) (fun O =>
  bind (add_long_range O [zop 2 0; zop 3 1; zop 2 3] 1 None) (fun O =>
  add_local_term O (zop 2 4) 2)))))).
Definition zmpo : @mpo ZScalar := get_ok zhist.

Lemma zmpo_built : built ds232 zmpo.
Proof.
  assert (E : zhist = Ok zmpo) by (vm_compute; reflexivity). revert E. generalize zmpo. unfold zhist. intros Z.
  destruct (new_mpo ds232) as [O0|] eqn:E0; [|discriminate]. cbn [bind].
  assert (B0 : built ds232 O0) by (apply built_new; [repeat constructor; lia|exact E0]).
  destruct (add_interaction O0 _ _ _) as [O1|] eqn:E1; [|discriminate]. cbn [bind]. assert (B1 := built_nn _ _ _ _ _ _ B0 E1).
  destruct (add_local_term O1 _ _) as [O2|] eqn:E2; [|discriminate]. cbn [bind]. assert (B2 := built_local _ _ _ _ _ B1 E2).
  destruct (add_interaction O2 _ _ _) as [O3|] eqn:E3; [|discriminate]. cbn [bind]. assert (B3 := built_nn _ _ _ _ _ _ B2 E3).
  destruct (add_product_term O3 _) as [O4|] eqn:E4; [|discriminate]. cbn [bind]. assert (B4 := built_prod _ _ _ _ B3 E4).
  destruct (add_long_range O4 _ _ _) as [O5|] eqn:E5; [|discriminate]. cbn [bind]. assert (B5 := built_lr _ _ _ _ _ _ B4 E5).
  intros E6. exact (built_local _ _ _ _ _ B5 E6).
Qed.

Example C19_ex : built ds232 zmpo /\ length zmpo = 3 /\ map (fun A => dim A 3) zmpo = [5; 4; 1].
Proof. split; [exact zmpo_built|]. vm_compute. auto. Qed.

(** the operator is not trivial *)
Example C20_ex : exists O', add_local_term zmpo (zop 3 2) 1 = Ok O' /\
  opelem zmpo [1;1;0] [0;2;0] <> 0%Z /\ opelem O' [1;1;0] [1;2;0] <> opelem zmpo [1;1;0] [1;2;0].
Proof. exists (get_ok (add_local_term zmpo (zop 3 2) 1)). split; [vm_compute; reflexivity|]. split; vm_compute; discriminate. Qed.

Example C21_ex : exists O', add_interaction zmpo (zop 3 2) 1 (zop 2 0) = Ok O' /\ built ds232 O'.
Proof.
  destruct (C21_add_interaction ds232 zmpo (zop 3 2) 1 (zop 2 0) zmpo_built) as (H & _).
  destruct H as (O' & H1 & H2 & _); [lia|cbn [length ds232]; lia|reflexivity|reflexivity|]. exists O'. auto.
Qed.

Definition zfresh4 : @mpo ZScalar := get_ok (new_mpo [2;2;2;2]).
Lemma zfresh4_built : built [2;2;2;2] zfresh4.
Proof. apply built_new; [repeat constructor; lia|reflexivity]. Qed.

Example C22_ex : exists O', add_long_range zfresh4 [zeros [2;2]; zop 2 1; zop 2 2; zop 2 3] 2 (Some (zop 2 0)) = Ok O' /\
  opelem O' [0;1;0;1] [0;1;0;1] <> 0%Z.
Proof. exists (get_ok (add_long_range zfresh4 [zeros [2;2]; zop 2 1; zop 2 2; zop 2 3] 2 (Some (zop 2 0)))). split; [vm_compute; reflexivity|]. vm_compute. discriminate. Qed.

Example C23_ex : exists O', add_jordan_wigner_matrix zfresh4 (zt [4;4] 1) (zop 2 1) (zop 2 2) (zop 2 0) = Ok O' /\
  opelem O' [0;1;0;1] [0;0;1;0] = hopping_op 4 (mat (zt [4;4] 1)) (mat (zop 2 1)) (mat (zop 2 2)) (mat (zop 2 0)) [0;1;0;1] [0;0;1;0] /\
  opelem O' [0;1;0;1] [0;0;1;0] <> 0%Z.
Proof. exists (get_ok (add_jordan_wigner_matrix zfresh4 (zt [4;4] 1) (zop 2 1) (zop 2 2) (zop 2 0))). split; [vm_compute; reflexivity|]. split; [vm_compute; reflexivity|vm_compute; discriminate]. Qed.

Example C24_ex : exists O', add_product_term zmpo [eye 2; zop 3 1; zop 2 3] = Ok O' /\ built ds232 O'.
Proof.
  destruct (C24_add_product_term_partial ds232 zmpo [eye 2; zop 3 1; zop 2 3] zmpo_built) as (H & _).
  destruct H as (O' & H1 & H2 & _).
  - reflexivity.
  - intros [|[|[|k]]] Hk; try (split; reflexivity). cbn in Hk. lia.
  - intros H. assert (X := H 1 ltac:(cbn; lia) 0 1 ltac:(cbn; lia) ltac:(cbn; lia)). vm_compute in X. discriminate.
  - exists O'. auto.
Qed.

(** Two identities: the identity operator should be added, but the operator stays zero. *)
Theorem C24_add_product_term_refuted : exists (O O' : @mpo ZScalar),
  built [2; 2] O /\ add_product_term O [eye 2; eye 2] = Ok O' /\
  opelem O' [0; 0] [0; 0] <>
  kadd (opelem O [0; 0] [0; 0]) (product_op 0 (fun k => mat (nth k [eye 2; eye 2] empty)) [0; 0] [0; 0]).
Proof.
  exists (get_ok (new_mpo [2;2])), (get_ok (new_mpo [2;2])).
  split; [apply built_new; [repeat constructor; lia|reflexivity]|]. split; [vm_compute; reflexivity|]. vm_compute. discriminate.
Qed.

Example C25_ex : exists O, local_Hamiltonian_mpo [zop 2 1; zop 3 2; zop 2 0] = Ok O /\ opelem O [1;2;0] [1;1;0] <> 0%Z.
Proof. exists (get_ok (local_Hamiltonian_mpo [zop 2 1; zop 3 2; zop 2 0])). split; [vm_compute; reflexivity|]. vm_compute. discriminate. Qed.

(** Periodic MPO with rectangular sites *)
Definition zmper : @mpo ZScalar := [zt [2;2;2;3] 0; zt [3;2;3;2] 1; zt [2;3;2;2] 2].
Lemma zmper_wf : wf_mpo zmper.
Proof.
  split; [discriminate|]. exists 2. split; [lia|].
  do 3 (eexists; eexists; eexists; split; [reflexivity|]; split; [reflexivity|]; split; [lia|]; split; [lia|]; split; [lia|]).
  reflexivity.
Qed.
Definition gmper : @mpo GScalar := [gt [2;2;2;3] 0; gt [3;3;3;2] 1; gt [2;2;2;2] 2].
Lemma gmper_wf : wf_mpo gmper.
Proof.
  split; [discriminate|]. exists 2. split; [lia|].
  do 3 (eexists; eexists; eexists; split; [reflexivity|]; split; [reflexivity|]; split; [lia|]; split; [lia|]; split; [lia|]).
  reflexivity.
Qed.

Example C26_ex : wf_mpo zmper /\ wf_mps zper /\ idims zmper = pdims zper /\
  exists chi, apply zmper zper = Ok chi /\ amp chi [1;0;2] <> 0%Z.
Proof.
  split; [exact zmper_wf|]. split; [exact zper_wf|]. split; [reflexivity|]. exists (get_ok (apply zmper zper)). split; [vm_compute; reflexivity|].
  vm_compute. discriminate.
Qed.

Definition gm2 : @mpo GScalar := [gt [2;2;2;1] 0; gt [1;2;2;2] 1].
Lemma gm2_wf : wf_mpo gm2.
Proof.
  split; [discriminate|]. exists 2. split; [lia|].
  do 2 (eexists; eexists; eexists; split; [reflexivity|]; split; [reflexivity|]; split; [lia|]; split; [lia|]; split; [lia|]).
  reflexivity.
Qed.

Example C27_ex : wf_mpo gm2 /\ idims gm2 = odims gm2 /\
  exists C, mpo_mmult gm2 gm2 = Ok C /\ opelem C [1;0] [0;1] <> 0%K.
Proof.
  split; [exact gm2_wf|]. split; [reflexivity|]. exists (get_okg (mpo_mmult gm2 gm2)).
  split; [vm_compute; reflexivity|]. vm_compute. discriminate.
Qed.

Example C28_ex : opelem (adjoint_z gmper) [0;2;0] [1;0;1] = kconj (opelem gmper [1;0;1] [0;2;0]) /\
  opelem gmper [1;0;1] [0;2;0] <> kconj (opelem gmper [1;0;1] [0;2;0]).
Proof. split; [reflexivity|]. vm_compute. discriminate. Qed.

(** The adjoint of the real MPO of a non-symmetric operator is not its transpose. *)
Theorem C28_adjoint_real_refuted : exists (O : @mpo ZScalar) is js,
  built [2; 3; 2] O /\ in_range (odims O) is /\ in_range (idims O) js /\
  opelem (adjoint_d O) js is <> kconj (opelem O is js).
Proof.
  exists zmpo, [1;1;0], [0;2;0]. split; [exact zmpo_built|].
  destruct (built_shape _ _ zmpo_built) as (_ & E1 & E2). rewrite E1, E2.
  split; [repeat constructor|]. split; [repeat constructor|]. vm_compute. discriminate.
Qed.

Example C29_ex : open_mpo zmpo /\ odims zmpo = idims zmpo /\ odims zmpo = pdims zopen.
Proof.
  destruct (built_shape _ _ zmpo_built) as (E0 & E1 & E2). split; [exact E0|].
  rewrite E1, E2. split; reflexivity.
Qed.

Example C30_ex : exists x, scprod (mpo_to_mps gmper) (mpo_to_mps gmper) 1 = Ok x /\ x <> 0%K.
Proof. eexists. split; [vm_compute; reflexivity|]. discriminate. Qed.

Example C31_ex : idims gmper = pdims gopen /\ odims gmper = pdims gper /\
  exists x, mpo_expected gper gmper gopen = Ok x /\ x <> 0%K.
Proof. split; [reflexivity|]. split; [reflexivity|]. eexists. split; [vm_compute; reflexivity|]. discriminate. Qed.

Print Assumptions C19_fresh_mpo_is_zero.
Print Assumptions C20_add_local_term.
Print Assumptions C21_add_interaction.
Print Assumptions C22_add_long_range.
Print Assumptions C23_add_hopping_matrix.
Print Assumptions C23_add_jordan_wigner.
Print Assumptions C24_add_product_term_partial.
Print Assumptions C24_add_product_of_identities_refuted.
Print Assumptions C24_add_product_term_refuted.
Print Assumptions C25_local_Hamiltonian_mpo.
Print Assumptions C26_apply.
Print Assumptions C27_mmult.
Print Assumptions C28_adjoint_complex.
Print Assumptions C28_adjoint_moves_across.
Print Assumptions C28_adjoint_real_refuted.
Print Assumptions C29_mpo_to_matrix.
Print Assumptions C29_matrix_vector.
Print Assumptions C30_mpo_to_mps.
Print Assumptions C30_hilbert_schmidt.
Print Assumptions C31_mpo_expected.
