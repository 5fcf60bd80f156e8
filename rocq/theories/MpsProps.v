(** Consequences of the lemmas on states, in the form used by Properties_Mps.v *)
From Coq Require Import Bool List Arith ZArith Lia Ring Reals Lra.
From Verif Require Import Scalar ScalarFacts Instances RealInst Tensor TensorFacts Spec MpsModel RealModel MpsFacts EnvFacts
  ExpectedFacts StateFacts StateFacts2.
Import ListNotations.
Local Open Scope K_scope.

Section Facts.
Context {SC : Scalar}.
Add Ring Kring : k_ring.

Lemma fold_bind_sum {A} (f : A -> result K) (g : A -> K) l s :
  (forall i, In i l -> f i = Ok (g i)) ->
  fold_left (fun out i => bind out (fun s => bind (f i) (fun x => Ok (s + x)))) l (Ok s) =
  Ok (fold_left (fun s i => s + g i) l s).
Proof.
  revert s. induction l as [|i l IH]; intros s H; [reflexivity|]. cbn [fold_left].
  cbn [bind]. rewrite (H i) by (left; reflexivity). cbn [bind]. apply IH. intros j Hj. apply H. right. exact Hj.
Qed.

Lemma fold_left_sum n (g : nat -> K) s : fold_left (fun s i => s + g i) (seq 0 n) s = s + sum n g.
Proof.
  revert s. induction n as [|n IH]; intros s; [cbn; ring|].
  rewrite seq_S, fold_left_app. cbn [fold_left Nat.add sum]. rewrite IH. ring.
Qed.

Lemma normal_index_nat psi k : (k < length psi)%nat -> normal_index psi (Z.of_nat k) = Ok k.
Proof.
  intros H. unfold normal_index. destruct (Z.ltb_spec (Z.of_nat k) 0); [lia|].
  destruct (Z.ltb_spec (Z.of_nat k) (Z.of_nat (length psi))); [|lia]. rewrite Nat2Z.id. reflexivity.
Qed.

Lemma expected_total_correct psi O d : wf_mps psi -> pdims psi = repeat d (length psi) -> dims O = [d; d] ->
  expected_total psi O =
  Ok (sum (length psi) (fun k => melem (pdims psi) (amp psi) (site_op k (mat O)) (amp psi))).
Proof.
  intros Hw Hp HO. unfold expected_total.
  rewrite (fold_bind_sum _ (fun k => melem (pdims psi) (amp psi) (site_op k (mat O)) (amp psi))).
  - rewrite fold_left_sum. f_equal. ring.
  - intros k Hk. apply in_seq in Hk. apply expected1_correct; auto.
    + apply normal_index_nat. lia.
    + rewrite Hp. rewrite (nth_indep _ 0%nat d) by (rewrite repeat_length; lia). rewrite nth_repeat. exact HO.
Qed.

(** Reduced density matrices *)
Lemma site_op_units ds k O is js : in_range ds is -> in_range ds js -> (k < length ds)%nat ->
  site_op k O is js =
  sum (nth k ds 0%nat) (fun i => sum (nth k ds 0%nat) (fun j =>
    O i j * site_op k (fun x y => delta x i * delta y j) is js)).
Proof.
  intros His. revert k js. induction His as [|d i ds is Hi His IH]; intros k js Hjs Hk; cbn in Hk; [lia|].
  apply in_range_cons_inv in Hjs. destruct Hjs as (j & js' & -> & Hj & Hjs).
  destruct k as [|k]; cbn [site_op nth].
  - transitivity (sum d (fun x => delta i x * sum d (fun y => delta j y * (O x y * id_op is js')))).
    + rewrite sum_delta_l' by assumption. rewrite sum_delta_l' by assumption. reflexivity.
    + apply sum_ext. intros x Hx. rewrite sum_mul_l. apply sum_ext. intros y Hy. ring.
  - rewrite (IH k js') by (auto; lia). rewrite sum_mul_l. apply sum_ext. intros x Hx.
    rewrite sum_mul_l. apply sum_ext. intros y Hy. ring.
Qed.

Lemma melem_reduced psi k O : (k < length psi)%nat ->
  melem (pdims psi) (amp psi) (site_op k O) (amp psi) =
  sum (nth k (pdims psi) 0%nat) (fun i => sum (nth k (pdims psi) 0%nat) (fun j =>
    O i j * reduced_dm psi k j i)).
Proof.
  intros Hk. set (d := nth k (pdims psi) 0%nat).
  transitivity (sum d (fun i => sum d (fun j => O i j *
     melem (pdims psi) (amp psi) (site_op k (fun x y => delta x i * delta y j)) (amp psi)))).
  - unfold melem.
    transitivity (sumcfg (pdims psi) (fun is => sumcfg (pdims psi) (fun js => sum d (fun i => sum d (fun j =>
      O i j * (kconj (amp psi is) * site_op k (fun x y => delta x i * delta y j) is js * amp psi js)))))).
    { apply sumcfg_ext. intros is His. apply sumcfg_ext. intros js Hjs.
      rewrite (site_op_units (pdims psi) k O) by (rewrite ?length_pdims; auto).
      fold d. rewrite sum_mul_l, sum_mul_r. apply sum_ext. intros i Hi.
      rewrite sum_mul_l, sum_mul_r. apply sum_ext. intros j Hj. ring. }
    transitivity (sumcfg (pdims psi) (fun is => sum d (fun i => sum d (fun j => sumcfg (pdims psi) (fun js => 
      O i j * (kconj (amp psi is) * site_op k (fun x y => delta x i * delta y j) is js * amp psi js)))))).
    { apply sumcfg_ext. intros is His. rewrite sumcfg_sum_swap. apply sum_ext. intros i Hi.
      apply sumcfg_sum_swap. }
    rewrite sumcfg_sum_swap. apply sum_ext. intros i Hi. rewrite sumcfg_sum_swap. apply sum_ext. intros j Hj.
    rewrite sumcfg_mul_l. apply sumcfg_ext. intros is His. rewrite sumcfg_mul_l. reflexivity.
  - apply sum_ext. intros i Hi. apply sum_ext. intros j Hj. f_equal.
    rewrite melem_unit by (rewrite ?length_pdims; auto). unfold reduced_dm.
    apply sumcfg_ext. intros rest _. ring.
Qed.

Lemma reduced_dm_trace psi k : (k < length psi)%nat ->
  sum (nth k (pdims psi) 0%nat) (fun i => reduced_dm psi k i i) = inner (pdims psi) (amp psi) (amp psi).
Proof.
  intros Hk. rewrite <- melem_id.
  transitivity (melem (pdims psi) (amp psi) (site_op k delta) (amp psi)).
  - rewrite melem_reduced by assumption. apply sum_ext. intros i Hi. rewrite sum_delta_l' by assumption. reflexivity.
  - apply melem_ext. intros is js His Hjs. apply in_range_length in His, Hjs. rewrite length_pdims in *.
    rewrite <- (product_op_site 0 k) by lia. rewrite <- (product_op_id 0). apply product_op_ext.
    intros m x y Hm. destruct (Nat.eqb m (0 + k)); reflexivity.
Qed.

Lemma reduced_dm_hermitian psi k i j : reduced_dm psi k j i = kconj (reduced_dm psi k i j).
Proof.
  unfold reduced_dm. rewrite sumcfg_conj. apply sumcfg_ext. intros rest _.
  rewrite kconj_mul, kconj_inv. ring.
Qed.

Lemma new_mps_correct L d bond periodic : (0 < L)%nat -> (0 < d)%nat -> (0 < bond)%nat ->
  exists psi, new_mps L d bond periodic = Ok psi /\ length psi = L /\ wf_mps psi /\
    pdims psi = repeat d L /\ left_bond psi = (if periodic then bond else 1%nat) /\
    (forall k, (k < length psi)%nat -> dim (site psi k) 0 <= bond /\ dim (site psi k) 2 <= bond)%nat /\
    (forall k, (0 < k < length psi)%nat -> dim (site psi k) 0 = bond).
Proof.
  intros HL Hd Hb. unfold new_mps. destruct (Nat.eqb_spec d 0); [lia|].
  destruct (presize_correct (repeat d L) bond periodic) as (psi & H1 & H2 & H3 & H4 & H5 & H6 & _); auto.
  - destruct L; [lia|discriminate].
  - apply Forall_forall. intros x Hx. apply repeat_spec in Hx. lia.
  - exists psi. rewrite <- (length_pdims psi), H3, repeat_length in *. auto 10.
Qed.

Lemma new_mps_dims_correct ds bond periodic : ds <> [] -> Forall (fun d => 0 < d)%nat ds -> (0 < bond)%nat ->
  exists psi, new_mps_dims ds bond periodic = Ok psi /\ wf_mps psi /\
    pdims psi = ds /\ left_bond psi = (if periodic then bond else 1%nat) /\
    (forall k, (k < length psi)%nat -> dim (site psi k) 0 <= bond /\ dim (site psi k) 2 <= bond)%nat /\
    (forall k, (0 < k < length psi)%nat -> dim (site psi k) 0 = bond).
Proof.
  intros Hne Hd Hb. unfold new_mps_dims.
  destruct (presize_correct ds bond periodic) as (psi & H1 & H2 & H3 & H4 & H5 & H6 & _); auto.
  exists psi. auto 10.
Qed.

Lemma new_mps_dims_reject ds bond periodic : (bond = 0%nat \/ In 0%nat ds) -> new_mps_dims ds bond periodic = Abort.
Proof.
  intros H. unfold new_mps_dims, presize_mps. destruct H as [->|H]; [reflexivity|].
  replace (forallb (Nat.ltb 0) ds) with false; [rewrite andb_false_r; reflexivity|].
  symmetry. apply not_true_iff_false. intros E. rewrite forallb_forall in E. apply E in H. discriminate.
Qed.

Lemma site_randomize rnd psi k : dims (site (randomize rnd psi) k) = dims (site psi k).
Proof.
  destruct (randomize_dims rnd psi) as (H & _).
  destruct (Nat.lt_ge_cases k (length psi)) as [Hk|Hk].
  - unfold site. 
    pose proof (f_equal (fun l => nth k l []) H) as E. cbn beta in E.
    change (@nil nat) with (dims empty) in E. rewrite !map_nth in E. exact E.
  - assert (Hl : length (randomize rnd psi) = length psi).
    { rewrite <- (map_length dims), H, map_length. reflexivity. }
    unfold site. rewrite !nth_overflow by lia. reflexivity.
Qed.

Lemma random_mps_correct rnd L d bond periodic : (0 < L)%nat -> (0 < d)%nat -> (0 < bond)%nat ->
  exists psi, random_mps rnd L d bond periodic = Ok psi /\ length psi = L /\ wf_mps psi /\
    pdims psi = repeat d L /\ left_bond psi = (if periodic then bond else 1%nat) /\
    (forall k, (k < length psi)%nat -> dim (site psi k) 0 <= bond /\ dim (site psi k) 2 <= bond)%nat /\
    (forall k, (0 < k < length psi)%nat -> dim (site psi k) 0 = bond).
Proof.
  intros HL Hd Hb. destruct (new_mps_correct L d bond periodic HL Hd Hb)
    as (psi & H1 & H2 & H3 & H4 & H5 & H6 & H7).
  unfold random_mps. rewrite H1. cbn [bind]. exists (randomize rnd psi). split; [reflexivity|].
  destruct (wf_mps_randomize rnd psi H3) as (R1 & R2 & R3).
  assert (Hl : length (randomize rnd psi) = length psi).
  { rewrite <- length_pdims, R2, length_pdims. reflexivity. }
  rewrite Hl, R2, R3. split; [exact H2|]. split; [exact R1|]. split; [exact H4|]. split; [exact H5|].
  split; intros k Hk; unfold dim; rewrite site_randomize; [apply H6|apply H7]; assumption.
Qed.

(** random(Indices, ...) is broken, whatever the arguments *)
Lemma random_mps_dims_abort rnd ds bond : (0 < bond)%nat -> random_mps_dims rnd ds bond false = Abort.
Proof.
  intros Hb. unfold random_mps_dims, new_mps. destruct (Nat.eqb_spec bond 0); [lia|].
  unfold presize_mps. reflexivity.
Qed.

Lemma site_at_spec psi n A : site_at psi n = Ok A <->
  (0 <= n < Z.of_nat (length psi))%Z /\ nth_error psi (Z.to_nat n) = Some A.
Proof.
  unfold site_at. destruct (Z.leb_spec 0 n), (Z.ltb_spec n (Z.of_nat (length psi))); cbn [andb];
    try (split; [discriminate|intros (H1 & _); lia]).
  assert (Hn : (Z.to_nat n < length psi)%nat) by lia.
  unfold site. rewrite (nth_error_nth' psi empty Hn).
  split; [intros [= <-]; split; [lia|reflexivity]|intros (_ & [= <-]); reflexivity].
Qed.

Lemma scprod_conj a b sense sense' : wf_mps a -> wf_mps b -> pdims a = pdims b ->
  exists x, scprod a b sense = Ok x /\ scprod b a sense' = Ok (kconj x).
Proof.
  intros Ha Hb Hp. exists (inner (pdims a) (amp a) (amp b)). split.
  - apply scprod_correct; assumption.
  - rewrite scprod_correct by auto. f_equal. rewrite Hp. symmetry. apply inner_conj.
Qed.

Lemma scprod_mismatch a b sense : length a <> length b -> scprod a b sense = Abort.
Proof. intros H. unfold scprod. destruct (Nat.eqb_spec (length a) (length b)); [contradiction|reflexivity]. Qed.

End Facts.

(** norm2() over the reals and complex numbers *)
Lemma norm2_real (a : @mps RScalar) : wf_mps a ->
  exists n x, norm2_d a = Ok n /\ scprod a a 1 = Ok x /\ (0 <= n)%R /\ (0 <= x)%R /\ (n * n = x)%R.
Proof.
  intros Ha. set (x := inner (pdims a) (amp a) (amp a)).
  exists (sqrt (Rabs x)), x. unfold norm2_d. rewrite norm2_squared_correct by exact Ha.
  split; [reflexivity|].
  split; [apply scprod_correct; auto|].
  assert (H : (0 <= x)%R).
  { apply sumcfg_R_nonneg. intros is. cbn. apply Rle_0_sqr. }
  split; [apply sqrt_pos|]. split; [exact H|]. rewrite Rabs_right by lra. apply sqrt_sqrt. exact H.
Qed.

Lemma norm2_complex (a : @mps CScalar) : wf_mps a ->
  exists n x, norm2_z a = Ok n /\ scprod a a 1 = Ok x /\ (0 <= n)%R /\ Cim x = 0%R /\ (0 <= Cre x)%R /\
    (n * n = Cre x)%R.
Proof.
  intros Ha. set (x := inner (pdims a) (amp a) (amp a)).
  exists (sqrt (Rabs (Cre x))), x. unfold norm2_z. rewrite norm2_squared_correct by exact Ha.
  split; [reflexivity|].
  split; [apply scprod_correct; auto|].
  destruct (sumcfg_C_real (pdims a) (fun is => @kmul CScalar (@kconj CScalar (amp a is)) (amp a is))) as (H1 & H2).
  - intros is. cbn. ring.
  - intros is. cbn. pose proof (Rle_0_sqr (Cre (amp a is))). pose proof (Rle_0_sqr (Cim (amp a is))).
    unfold Rsqr in *. lra.
  - split; [apply sqrt_pos|]. split; [exact H1|]. split; [exact H2|].
    rewrite Rabs_right by (apply Rle_ge; exact H2). apply sqrt_sqrt. exact H2.
Qed.
