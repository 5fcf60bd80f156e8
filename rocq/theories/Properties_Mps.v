(** * C01-C13: matrix product states *)
From Coq Require Import Bool List Arith ZArith Reals Lia.
From Verif Require Import Scalar Instances RealInst Tensor Spec MpsModel RealModel Witness
  MpsFacts ExpectedFacts StateFacts StateFacts2 MpsProps.
Import ListNotations.
Local Open Scope K_scope.

Section Properties.
Context {SC : Scalar}.

(** C01. mps_to_vector: entry number i_0 + d_0 (i_1 + d_1 (...)) is the amplitude of (i_0,i_1,...). *)
Theorem C01_mps_to_vector psi : wf_mps psi ->
  exists v, mps_to_vector psi = Ok v /\ wf v /\ dims v = [nprod (pdims psi)] /\
    forall is, in_range (pdims psi) is -> get v [offset (pdims psi) is] = amp psi is.
Proof. exact (mps_to_vector_correct psi). Qed.

(** C02. scprod, both directions, open or periodic. *)
Theorem C02_scprod a b sense : wf_mps a -> wf_mps b -> pdims a = pdims b ->
  scprod a b sense = Ok (sumcfg (pdims a) (fun is => kconj (amp a is) * amp b is)).
Proof. exact (scprod_correct a b sense). Qed.

Theorem C02_scprod_rejects_other_length a b sense : length a <> length b -> scprod a b sense = Abort.
Proof. exact (scprod_mismatch a b sense). Qed.

(** C03. Conjugate symmetry; see below for norms. *)
Theorem C03_scprod_conj a b sense sense' : wf_mps a -> wf_mps b -> pdims a = pdims b ->
  exists x, scprod a b sense = Ok x /\ scprod b a sense' = Ok (kconj x).
Proof. exact (scprod_conj a b sense sense'). Qed.

(** C04. One-site expectation values; [n] is the site that the (possibly negative) index names. *)
Theorem C04_expected1 psi O k n : wf_mps psi -> normal_index psi k = Ok n ->
  dims O = [nth n (pdims psi) 0; nth n (pdims psi) 0]%nat ->
  expected1 psi O k = Ok (melem (pdims psi) (amp psi) (site_op n (mat O)) (amp psi)).
Proof. exact (expected1_correct psi O k n). Qed.

(** C05. Two-site expectation values, except when the same site is named by two different indices
    (one of them negative): that case is refuted below. *)
Theorem C05_expected2_partial psi O1 k1 n1 O2 k2 n2 :
  wf_mps psi -> normal_index psi k1 = Ok n1 -> normal_index psi k2 = Ok n2 ->
  (k1 = k2 \/ n1 <> n2) ->
  dims O1 = [nth n1 (pdims psi) 0; nth n1 (pdims psi) 0]%nat ->
  dims O2 = [nth n2 (pdims psi) 0; nth n2 (pdims psi) 0]%nat ->
  expected2 psi O1 k1 O2 k2 =
  Ok (melem (pdims psi) (amp psi)
        (op_mul (pdims psi) (site_op n1 (mat O1)) (site_op n2 (mat O2))) (amp psi)).
Proof. exact (expected2_correct psi O1 k1 n1 O2 k2 n2). Qed.

(** C06. Sum of the expectation values over all sites, and vector of expectation values. *)
Theorem C06_expected_total psi O d : wf_mps psi -> pdims psi = repeat d (length psi) -> dims O = [d; d] ->
  expected_total psi O =
  Ok (sum (length psi) (fun k => melem (pdims psi) (amp psi) (site_op k (mat O)) (amp psi))).
Proof. exact (expected_total_correct psi O d). Qed.

Theorem C06_expected_vector a b ops : wf_mps a -> wf_mps b -> pdims a = pdims b ->
  length ops = length a ->
  (forall i, (i < length a)%nat -> dims (nth i ops empty) = [nth i (pdims a) 0; nth i (pdims a) 0]%nat) ->
  exists v, expected_vector a ops b = Ok v /\ dims v = [length a] /\ wf v /\
    forall i, (i < length a)%nat ->
      get v [i] = melem (pdims a) (amp a) (site_op i (mat (nth i ops empty))) (amp b).
Proof. exact (expected_vector_correct a b ops). Qed.

(** C07. The correlation matrix. *)
Theorem C07_correlations a b op1 op2 : wf_mps a -> wf_mps b -> pdims a = pdims b ->
  ops_square (pdims a) op1 -> ops_square (pdims a) op2 ->
  exists C, all_correlations a op1 op2 b false None = Ok C /\ dims C = [length a; length a] /\ wf C /\
    forall i j, (i < length a)%nat -> (j < length a)%nat ->
      get C [i; j] = melem (pdims a) (amp a)
        (op_mul (pdims a) (site_op i (mat (nth i op1 empty))) (site_op j (mat (nth j op2 empty)))) (amp b).
Proof. exact (all_correlations_correct a b op1 op2). Qed.

(** C08. The reduced density matrix, for real states and inner sites only; both restrictions are
    necessary, see the refutations. *)
Theorem C08_density_matrix_partial psi (k : nat) : (forall x : K, kconj x = x) ->
  wf_mps psi -> (0 < k)%nat -> (S k < length psi)%nat ->
  exists rho, density_matrix psi (Z.of_nat k) = Ok rho /\
    dims rho = [nth k (pdims psi) 0; nth k (pdims psi) 0]%nat /\
    forall i j, (i < nth k (pdims psi) 0)%nat -> (j < nth k (pdims psi) 0)%nat ->
      get rho [i; j] = reduced_dm psi k i j.
Proof. exact (density_matrix_real psi k). Qed.

Theorem C08_density_matrix_edges_refuted psi (k : nat) :
  wf_mps psi -> (k = 0 \/ S k = length psi)%nat -> density_matrix psi (Z.of_nat k) = Abort.
Proof. exact (density_matrix_edge psi k). Qed.

(** What the reduced density matrix is good for (consequences of its definition, any scalars). *)
Theorem C08_reduced_dm_expected psi k O : (k < length psi)%nat ->
  melem (pdims psi) (amp psi) (site_op k O) (amp psi) =
  sum (nth k (pdims psi) 0%nat) (fun i => sum (nth k (pdims psi) 0%nat) (fun j =>
    O i j * reduced_dm psi k j i)).
Proof. exact (melem_reduced psi k O). Qed.

Theorem C08_reduced_dm_trace psi k : (k < length psi)%nat ->
  sum (nth k (pdims psi) 0%nat) (fun i => reduced_dm psi k i i) = inner (pdims psi) (amp psi) (amp psi).
Proof. exact (reduced_dm_trace psi k). Qed.

Theorem C08_reduced_dm_hermitian psi k i j : reduced_dm psi k j i = kconj (reduced_dm psi k i j).
Proof. exact (reduced_dm_hermitian psi k i j). Qed.

(** C09. Local operators, square or not. *)
Theorem C09_apply_local_operator psi O (k : nat) m :
  wf_mps psi -> (k < length psi)%nat -> dims O = [m; nth k (pdims psi) 0%nat] -> (0 < m)%nat ->
  exists phi, apply_local_operator psi O (Z.of_nat k) = Ok phi /\ wf_mps phi /\
    pdims phi = replace_nth k m (pdims psi) /\
    (forall j, j <> k -> site phi j = site psi j) /\
    (forall is, in_range (pdims phi) is ->
      amp phi is = sum (nth k (pdims psi) 0%nat) (fun j => get O [nth k is 0%nat; j] * amp psi (replace_nth k j is))).
Proof. exact (apply_local_operator_correct psi O k m). Qed.

(** C10. Product states. *)
Theorem C10_product_state L v d : (0 < L)%nat -> dims v = [d] -> wf v -> (0 < d)%nat ->
  exists psi, product_state L v = Ok psi /\ length psi = L /\ open_mps psi /\
    is_periodic psi = false /\ pdims psi = repeat d L /\
    forall is, length is = L -> amp psi is = product_amp (repeat v L) is.
Proof. exact (product_state_correct L v d). Qed.

Theorem C10_product_norm vs ds : Forall2 (fun v d => dims v = [d]) vs ds ->
  inner ds (product_amp vs) (product_amp vs) =
  kprod (map (fun p => sum (snd p) (fun i => kconj (get (fst p) [i]) * get (fst p) [i])) (combine vs ds)).
Proof. exact (product_amp_norm vs ds). Qed.

(** C11. GHZ states (periodic chains need at least two sites) and cluster states (at least three
    sites); [v] stands for 1/sqrt(2), [v4] for its square root. *)
Theorem C11_ghz_state_partial v v4 L periodic :
  (0 < L)%nat -> v4 * v4 = v -> (periodic = false \/ 2 <= L)%nat ->
  exists psi, ghz_state v v4 L periodic = Ok psi /\ wf_mps psi /\ pdims psi = repeat 2%nat L /\
    left_bond psi = (if periodic then 2 else 1)%nat /\
    forall is, in_range (pdims psi) is -> amp psi is = ghz_amp v is.
Proof. exact (ghz_correct v v4 L periodic). Qed.

Theorem C11_ghz_norm v L : (0 < L)%nat -> kconj v = v -> (1 + 1) * (v * v) = 1 ->
  inner (repeat 2%nat L) (ghz_amp v) (ghz_amp v) = 1.
Proof. exact (ghz_amp_norm v L). Qed.

Theorem C11_cluster_state_partial v v4 L : (3 <= L)%nat ->
  exists psi, cluster_state v v4 L = Ok psi /\ open_mps psi /\ pdims psi = repeat 2%nat L /\
    forall is, in_range (pdims psi) is -> amp psi is = cluster_amp v is.
Proof. exact (cluster_correct v v4 L). Qed.

Theorem C11_cluster_norm v L : kconj v = v -> (1 + 1) * (v * v) = 1 ->
  inner (repeat 2%nat L) (cluster_amp v) (cluster_amp v) = 1.
Proof. exact (cluster_amp_norm v L). Qed.

(** C12. Dimensions of constructed and random states. *)
Theorem C12_constructor L d bond periodic : (0 < L)%nat -> (0 < d)%nat -> (0 < bond)%nat ->
  exists psi, new_mps L d bond periodic = Ok psi /\ length psi = L /\ wf_mps psi /\
    pdims psi = repeat d L /\ left_bond psi = (if periodic then bond else 1%nat) /\
    (forall k, (k < length psi)%nat -> dim (site psi k) 0 <= bond /\ dim (site psi k) 2 <= bond)%nat /\
    (forall k, (0 < k < length psi)%nat -> dim (site psi k) 0 = bond).
Proof. exact (new_mps_correct L d bond periodic). Qed.

Theorem C12_constructor_dims ds bond periodic :
  ds <> [] -> Forall (fun d => 0 < d)%nat ds -> (0 < bond)%nat ->
  exists psi, new_mps_dims ds bond periodic = Ok psi /\ wf_mps psi /\
    pdims psi = ds /\ left_bond psi = (if periodic then bond else 1%nat) /\
    (forall k, (k < length psi)%nat -> dim (site psi k) 0 <= bond /\ dim (site psi k) 2 <= bond)%nat /\
    (forall k, (0 < k < length psi)%nat -> dim (site psi k) 0 = bond).
Proof. exact (new_mps_dims_correct ds bond periodic). Qed.

Theorem C12_constructor_rejects ds bond periodic :
  (bond = 0%nat \/ In 0%nat ds) -> new_mps_dims ds bond periodic = Abort.
Proof. exact (new_mps_dims_reject ds bond periodic). Qed.

Theorem C12_random_partial rnd L d bond periodic : (0 < L)%nat -> (0 < d)%nat -> (0 < bond)%nat ->
  exists psi, random_mps rnd L d bond periodic = Ok psi /\ length psi = L /\ wf_mps psi /\
    pdims psi = repeat d L /\ left_bond psi = (if periodic then bond else 1%nat) /\
    (forall k, (k < length psi)%nat -> dim (site psi k) 0 <= bond /\ dim (site psi k) 2 <= bond)%nat /\
    (forall k, (0 < k < length psi)%nat -> dim (site psi k) 0 = bond).
Proof. exact (random_mps_correct rnd L d bond periodic). Qed.

(** RMPS::random(dimensions, bond, periodic=false) fails for every list of dimensions. *)
Theorem C12_random_dims_refuted rnd ds bond : (0 < bond)%nat -> random_mps_dims rnd ds bond false = Abort.
Proof. exact (random_mps_dims_abort rnd ds bond). Qed.

(** C13. Indices and queries. *)
Theorem C13_normal_index psi k n : normal_index psi k = Ok n <->
  (n < length psi)%nat /\ (Z.of_nat n = k \/ Z.of_nat n = k + Z.of_nat (length psi))%Z /\
  (- Z.of_nat (length psi) <= k < Z.of_nat (length psi))%Z /\
  ((k < 0)%Z -> Z.of_nat n = (k + Z.of_nat (length psi))%Z) /\ ((0 <= k)%Z -> Z.of_nat n = k).
Proof. exact (normal_index_spec psi k n). Qed.

Theorem C13_site_access psi n A : site_at psi n = Ok A <->
  (0 <= n < Z.of_nat (length psi))%Z /\ nth_error psi (Z.to_nat n) = Some A.
Proof. exact (site_at_spec psi n A). Qed.

Theorem C13_dimensions psi : dimensions psi = pdims psi.
Proof. exact (dimensions_correct psi). Qed.

Theorem C13_largest_bond psi : psi <> [] ->
  (forall k, (k < length psi)%nat -> dim (site psi k) 0 <= largest_bond_dimension psi)%nat /\
  exists k, (k < length psi)%nat /\ dim (site psi k) 0 = largest_bond_dimension psi.
Proof. exact (largest_bond_spec psi). Qed.

Theorem C13_is_periodic psi : wf_mps psi ->
  (is_periodic psi = true <-> (1 < left_bond psi)%nat).
Proof. exact (is_periodic_correct psi). Qed.

End Properties.

(** C03 over the real and the complex numbers. *)
Theorem C03_norm2_real (a : @mps RScalar) : wf_mps a ->
  exists n x, norm2_d a = Ok n /\ scprod a a 1 = Ok x /\ (0 <= n)%R /\ (0 <= x)%R /\ (n * n = x)%R.
Proof. exact (norm2_real a). Qed.

Theorem C03_norm2_complex (a : @mps CScalar) : wf_mps a ->
  exists n x, norm2_z a = Ok n /\ scprod a a 1 = Ok x /\ (0 <= n)%R /\ Cim x = 0%R /\ (0 <= Cre x)%R /\
    (n * n = Cre x)%R.
Proof. exact (norm2_complex a). Qed.

(** ** Refutations by executed witnesses *)

(** C05: the last site named once as -1 and once as L-1: the second operator is dropped. *)
Theorem C05_mixed_indices_refuted :
  exists (psi : @mps ZScalar) O1 O2, wf_mps psi /\
    normal_index psi (-1) = Ok 2%nat /\ normal_index psi 2 = Ok 2%nat /\
    dims O1 = [2; 2]%nat /\ dims O2 = [2; 2]%nat /\ nth 2 (pdims psi) 0%nat = 2%nat /\
    expected2 psi O1 (-1) O2 2 <>
    Ok (melem (pdims psi) (amp psi) (op_mul (pdims psi) (site_op 2 (mat O1)) (site_op 2 (mat O2))) (amp psi)).
Proof.
  exists zopen, (zop 2 0), (zop 2 1). split; [exact zopen_wf|].
  repeat (split; [reflexivity|]). vm_compute. discriminate.
Qed.

(** C08: complex states, inner site: wrong result (already the trace-normalised diagonal). *)
Theorem C08_density_matrix_complex_refuted :
  exists (psi : @mps GScalar) rho, wf_mps psi /\ length psi = 3%nat /\ density_matrix psi 1 = Ok rho /\
    get rho [0; 0]%nat <> reduced_dm psi 1 0 0 /\ get rho [0; 1]%nat <> reduced_dm psi 1 0 1 /\
    get rho [0; 1]%nat <> reduced_dm psi 1 1 0.
Proof.
  exists gper. eexists. split; [exact gper_wf|]. split; [reflexivity|]. split; [vm_compute; reflexivity|].
  repeat split; vm_compute; discriminate.
Qed.

(** C11: the periodic one-site GHZ state is (0, 2v); the two-site cluster state is the GHZ state. *)
Theorem C11_ghz_periodic_one_site_refuted :
  exists psi, @ghz_state ZScalar 1%Z 1%Z 1 true = Ok psi /\ amp psi [0]%nat = 0%Z /\ amp psi [1]%nat = 2%Z.
Proof. eexists. split; [vm_compute; reflexivity|]. split; reflexivity. Qed.

Theorem C11_cluster_two_sites_refuted :
  exists psi, @cluster_state ZScalar 1%Z 1%Z 2 = Ok psi /\ amp psi [0; 1]%nat = 0%Z /\
    @cluster_amp ZScalar 1%Z [0; 1]%nat = 1%Z.
Proof. eexists. split; [vm_compute; reflexivity|]. split; reflexivity. Qed.

(** C12: with periodic=true random(dimensions,...) ignores the dimensions and the bond. *)
Theorem C12_random_dims_periodic_refuted :
  exists psi, @random_mps_dims ZScalar (fun _ _ => 1%Z) [2; 3; 2]%nat 4 true = Ok psi /\
    pdims psi = [4; 4; 4]%nat /\ left_bond psi = 1%nat.
Proof. eexists. split; [vm_compute; reflexivity|]. split; reflexivity. Qed.

(** ** The hypotheses are met by concrete, non-trivial states *)
Example C01_ex : wf_mps zper /\ mps_to_vector zper =
  Ok (@mkT ZScalar [12%nat] [2; -8; -6; 4; 6; -14; -1; 2; 1; 2; -2; 2]%Z).
Proof. split; [exact zper_wf|vm_compute; reflexivity]. Qed.

Example C02_ex : wf_mps zopen /\ wf_mps zper /\ pdims zopen = pdims zper /\
  scprod zopen zper (-1) = scprod zopen zper 1 /\ scprod zopen zopen' 1 = Ok 32%Z.
Proof. split; [exact zopen_wf|]. split; [exact zper_wf|]. repeat split; vm_compute; reflexivity. Qed.

Example C03_ex : wf_mps gopen /\ wf_mps gper /\ scprod gopen gper 1 = Ok (mkG 1084 (-816)) /\
  scprod gper gopen 1 = Ok (mkG 1084 816).
Proof. split; [exact gopen_wf|]. split; [exact gper_wf|]. repeat split; vm_compute; reflexivity. Qed.

Example C03_real_ex : @wf_mps RScalar [@mk RScalar [2;3;2]%nat (fun _ => 2%R)].
Proof.
  split; [discriminate|]. exists 2%nat. split; [lia|]. exists 3%nat, 2%nat.
  repeat split; lia.
Qed.

Example C04_ex : wf_mps zopen /\ normal_index zopen (-2) = Ok 1%nat /\
  dims (zop 3 0) = [3; 3]%nat /\ expected1 zopen (zop 3 0) (-2) = Ok 220%Z.
Proof. split; [exact zopen_wf|]. repeat split; vm_compute; reflexivity. Qed.

Example C05_ex : wf_mps gper /\ normal_index gper 1 = Ok 1%nat /\ normal_index gper 0 = Ok 0%nat /\
  expected2 gper (gop 3 0) 1 (gop 2 0) 0 = Ok (mkG 56132 3066).
Proof. split; [exact gper_wf|]. repeat split; vm_compute; reflexivity. Qed.

Example C06_ex : wf_mps zopen /\ wf_mps zopen' /\ pdims zopen = pdims zopen' /\
  expected_vector zopen [zop 2 0; zop 3 1; zop 2 2] zopen' = Ok (@mkT ZScalar [3%nat] [32; -76; -32]%Z).
Proof. split; [exact zopen_wf|]. split; [exact zopen'_wf|]. repeat split; vm_compute; reflexivity. Qed.

Example C06_total_ex : wf_mps [zt [2;2;1]%nat 0; zt [1;2;2]%nat 1] /\
  pdims [zt [2;2;1]%nat 0; zt [1;2;2]%nat 1] = repeat 2%nat 2 /\
  exists x, expected_total [zt [2;2;1]%nat 0; zt [1;2;2]%nat 1] (zop 2 0) = Ok x.
Proof.
  split; [split; [discriminate|exists 2%nat; split; [lia|solve_linked]]|].
  split; [reflexivity|]. eexists. vm_compute. reflexivity.
Qed.

Example C07_ex : ops_square (pdims zopen) [zop 2 0; zop 3 1; zop 2 2] /\
  ops_square (pdims zopen) [zop 2 3; zop 3 0; zop 2 4] /\
  all_correlations zopen [zop 2 0; zop 3 1; zop 2 2] [zop 2 3; zop 3 0; zop 2 4] zopen' false None =
  Ok (@mkT ZScalar [3; 3]%nat [32; -16; -16; -371; -350; 20; 184; 112; 0]%Z).
Proof.
  assert (H : forall f : nat -> Z, ops_square (pdims zopen) [zop 2 (f 0%nat); zop 3 (f 1%nat); zop 2 (f 2%nat)]).
  { intros f. split; [reflexivity|]. intros i Hi. destruct i as [|[|[|i]]]; try reflexivity. cbn in Hi. lia. }
  split; [exact (H (fun i => Z.of_nat i))|].
  split; [exact (H (fun i => match i with 0%nat => 3 | 1%nat => 0 | _ => 4 end)%Z)|]. vm_compute. reflexivity.
Qed.

Example C08_ex : (forall x : @K ZScalar, kconj x = x) /\ wf_mps zper /\
  density_matrix zper 1 = Ok (@mkT ZScalar [3; 3]%nat [73; -41; 130; -41; 57; -90; 130; -90; 240]%Z) /\
  density_matrix zper 0 = Abort.
Proof. split; [reflexivity|]. split; [exact zper_wf|]. split; vm_compute; reflexivity. Qed.

Example C09_ex : wf_mps zper /\ dims (zt [4;3]%nat 0) = [4; nth 1 (pdims zper) 0]%nat /\
  exists phi, apply_local_operator zper (zt [4;3]%nat 0) 1 = Ok phi /\ pdims phi = [2; 4; 2]%nat.
Proof. split; [exact zper_wf|]. split; [reflexivity|]. eexists. split; vm_compute; reflexivity. Qed.

Example C10_ex : exists psi, @product_state ZScalar 3 (zt [2]%nat 0) = Ok psi /\ amp psi [1; 0; 1]%nat = 4%Z.
Proof. eexists. split; [vm_compute; reflexivity|]. vm_compute. reflexivity. Qed.

(** In the complex field of the code v4*v4 = v and 2*v*v = 1 have solutions. *)
Example C11_ex : let v := (/ sqrt 2)%R in let v4 := sqrt v in
  @kmul RScalar v4 v4 = v /\ @kmul RScalar (@kadd RScalar 1%R 1%R) (@kmul RScalar v v) = 1%R.
Proof.
  cbn. split.
  - apply sqrt_sqrt. left. apply Rinv_0_lt_compat, Rlt_sqrt2_0.
  - rewrite <- Rinv_mult, sqrt_sqrt; [|left; exact Rlt_0_2]. rewrite Rinv_r; [reflexivity|]. apply Rgt_not_eq, Rlt_0_2.
Qed.

Example C11_ghz_ex : exists psi, @ghz_state ZScalar 9%Z 3%Z 4 true = Ok psi /\
  amp psi [1;1;1;1]%nat = 9%Z /\ amp psi [1;0;1;1]%nat = 0%Z.
Proof. eexists. split; [vm_compute; reflexivity|]. split; vm_compute; reflexivity. Qed.

Example C11_cluster_ex : exists psi, @cluster_state ZScalar 2%Z 1%Z 4 = Ok psi /\
  amp psi [1;1;0;1]%nat = (-16)%Z /\ amp psi [1;1;1;0]%nat = 16%Z.
Proof. eexists. split; [vm_compute; reflexivity|]. split; vm_compute; reflexivity. Qed.

Example C12_ex : exists psi, @new_mps_dims ZScalar [2;3;2]%nat 4 false = Ok psi /\
  map dims psi = [[1;2;4]; [4;3;4]; [4;2;1]]%nat.
Proof. eexists. split; [vm_compute; reflexivity|]. reflexivity. Qed.

Example C13_ex : is_periodic zper = true /\ is_periodic zopen = false /\ largest_bond_dimension zopen = 3%nat /\
  dimensions zopen = [2;3;2]%nat /\ normal_index zopen (-4) = Abort /\ site_at zopen 3 = Abort.
Proof. repeat split; vm_compute; reflexivity. Qed.

Print Assumptions C01_mps_to_vector.
Print Assumptions C02_scprod.
Print Assumptions C03_norm2_complex.
Print Assumptions C07_correlations.
Print Assumptions C08_density_matrix_partial.
