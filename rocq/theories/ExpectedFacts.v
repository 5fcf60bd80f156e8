(** Scalar products, expectation values, correlations and density matrices. *)
From Coq Require Import Bool List Arith ZArith Lia Ring.
From Verif Require Import Scalar ScalarFacts Tensor TensorFacts Spec MpsModel MpsFacts EnvFacts.
Import ListNotations.
Local Open Scope K_scope.

Section Facts.
Context {SC : Scalar}.
Add Ring Kring : k_ring.

(** ** Operators as products *)
Definition ops_fun_ok (ds : list nat) (s : nat) (op : nat -> option tensor) : Prop :=
  forall k, (k < length ds)%nat -> op_ok (op (s + k)%nat) (nth k ds 0%nat) (nth k ds 0%nat).

Lemma ops_ok_map a b op s :
  pdims a = pdims b -> ops_fun_ok (pdims a) s op ->
  ops_ok a b (map op (seq s (length a))).
Proof.
  revert b s. induction a as [|A a IH]; intros [|B b] s Hpd Hop; cbn in Hpd; try discriminate.
  - exact I.
  - injection Hpd as Hd Hpd. cbn [length seq map ops_ok]. split.
    + pose proof (Hop 0%nat ltac:(rewrite length_pdims; cbn; lia)) as H. cbn in H. rewrite Nat.add_0_r in H.
      rewrite <- Hd. exact H.
    + apply IH; [exact Hpd|]. intros k Hk. rewrite length_pdims in Hk.
      pose proof (Hop (S k) ltac:(rewrite length_pdims; cbn; lia)) as H. cbn [pdims map nth] in H.
      replace (S s + k)%nat with (s + S k)%nat by lia. exact H.
Qed.

Lemma prodop_product_op op s is js n : length is = n -> length js = n ->
  prodop (map op (seq s n)) is js = product_op s (fun k => opel (op k)) is js.
Proof.
  revert s is js. induction n as [|n IH]; intros s [|i is] [|j js] Hi Hj; cbn in *; try discriminate.
  - reflexivity.
  - rewrite IH by lia. reflexivity.
Qed.

Lemma product_op_ext s f g is js :
  (forall k i j, (s <= k < s + length is)%nat -> f k i j = g k i j) ->
  product_op s f is js = product_op s g is js.
Proof.
  revert s js. induction is as [|i is IH]; intros s [|j js] H; cbn; try reflexivity.
  rewrite H by (cbn; lia). rewrite (IH (S s)); [reflexivity|].
  intros k i' j' Hk. apply H. cbn. lia.
Qed.

Lemma product_op_id s is js : product_op s (fun _ => delta) is js = id_op is js.
Proof.
  revert s js. induction is as [|i is IH]; intros s [|j js]; cbn; try reflexivity.
  rewrite IH. reflexivity.
Qed.

Lemma product_op_site s k O is js : (k < length is)%nat -> length js = length is ->
  product_op s (fun m => if Nat.eqb m (s + k) then O else delta) is js = site_op k O is js.
Proof.
  revert s k js. induction is as [|i is IH]; intros s k [|j js] Hk Hl; cbn [length] in *; try lia; try discriminate.
  destruct k as [|k]; cbn [site_op product_op].
  - rewrite Nat.add_0_r, Nat.eqb_refl. f_equal.
    rewrite <- (product_op_id (S s)). apply product_op_ext. intros m i' j' Hm.
    destruct (Nat.eqb_spec m s); [lia|reflexivity].
  - destruct (Nat.eqb_spec s (s + S k)); [lia|]. f_equal.
    rewrite <- (IH (S s) k js) by lia. apply product_op_ext. intros m i' j' Hm.
    replace (S s + k)%nat with (s + S k)%nat by lia. reflexivity.
Qed.

Lemma product_op_mul ds s f g h is js :
  in_range ds is -> in_range ds js ->
  (forall k i j, (k < length ds)%nat -> (i < nth k ds 0)%nat -> (j < nth k ds 0)%nat ->
     sum (nth k ds 0%nat) (fun m => f (s + k)%nat i m * g (s + k)%nat m j) = h (s + k)%nat i j) ->
  op_mul ds (product_op s f) (product_op s g) is js = product_op s h is js.
Proof.
  unfold op_mul. intros His. revert s js.
  induction His as [|d i ds is Hi His IH]; intros s js Hjs H.
  - apply in_range_nil_inv in Hjs. subst js. cbn. ring.
  - apply in_range_cons_inv in Hjs. destruct Hjs as (j & js' & -> & Hj & Hjs).
    cbn [sumcfg product_op].
    transitivity (sum d (fun m => (f s i m * g s m j) *
       sumcfg ds (fun ks => product_op (S s) f is ks * product_op (S s) g ks js'))).
    + apply sum_ext. intros m Hm. rewrite sumcfg_mul_l. apply sumcfg_ext. intros ks Hks. ring.
    + rewrite <- sum_mul_r. rewrite (IH (S s) js' Hjs).
      * f_equal. specialize (H 0%nat i j). cbn [nth length] in H. rewrite Nat.add_0_r in H.
        apply H; lia || assumption.
      * intros k i' j' Hk Hi' Hj'. specialize (H (S k) i' j'). cbn [nth length] in H.
        replace (S s + k)%nat with (s + S k)%nat by lia. apply H; auto; lia.
Qed.

Lemma in_range_nth ds is k : in_range ds is -> (k < length ds)%nat -> (nth k is 0 < nth k ds 0)%nat.
Proof.
  intros H. revert k. induction H as [|d i ds is Hi H IH]; intros k Hk; cbn in Hk; [lia|].
  destruct k; cbn; [exact Hi|apply IH; lia].
Qed.

(** Product of two local operators on different sites *)
Lemma op_mul_sites ds k1 k2 O1 O2 is js :
  in_range ds is -> in_range ds js -> (k1 < length ds)%nat -> (k2 < length ds)%nat -> k1 <> k2 ->
  op_mul ds (site_op k1 O1) (site_op k2 O2) is js =
  product_op 0 (fun k => if Nat.eqb k k1 then O1 else if Nat.eqb k k2 then O2 else delta) is js.
Proof.
  intros His Hjs H1 H2 Hne.
  transitivity (op_mul ds (product_op 0 (fun m => if Nat.eqb m k1 then O1 else delta))
                          (product_op 0 (fun m => if Nat.eqb m k2 then O2 else delta)) is js).
  { unfold op_mul. apply sumcfg_ext. intros ks Hks.
    apply in_range_length in His, Hjs, Hks.
    rewrite <- (product_op_site 0 k1 O1 is ks) by lia.
    rewrite <- (product_op_site 0 k2 O2 ks js) by lia. reflexivity. }
  apply product_op_mul; auto. intros k i j Hk Hi Hj. cbn [Nat.add].
  destruct (Nat.eqb_spec k k1) as [->|N1].
  - destruct (Nat.eqb_spec k1 k2); [contradiction|]. rewrite sum_delta_r by assumption. reflexivity.
  - rewrite sum_delta_l' by assumption. reflexivity.
Qed.

Lemma op_mul_same_site ds k O1 O2 is js :
  in_range ds is -> in_range ds js -> (k < length ds)%nat ->
  op_mul ds (site_op k O1) (site_op k O2) is js =
  site_op k (fun i j => sum (nth k ds 0%nat) (fun m => O1 i m * O2 m j)) is js.
Proof.
  intros His Hjs Hk.
  transitivity (op_mul ds (product_op 0 (fun m => if Nat.eqb m k then O1 else delta))
                          (product_op 0 (fun m => if Nat.eqb m k then O2 else delta)) is js).
  { unfold op_mul. apply sumcfg_ext. intros ks Hks.
    apply in_range_length in His, Hjs, Hks.
    rewrite <- (product_op_site 0 k O1 is ks) by lia.
    rewrite <- (product_op_site 0 k O2 ks js) by lia. reflexivity. }
  pose proof (in_range_length _ _ His) as L1. pose proof (in_range_length _ _ Hjs) as L2.
  rewrite <- (product_op_site 0 k _ is js) by lia.
  apply product_op_mul; auto. intros m i j Hm Hi Hj. cbn [Nat.add].
  destruct (Nat.eqb_spec m k) as [->|N1]; [reflexivity|].
  rewrite sum_delta_l' by assumption. reflexivity.
Qed.

(** ** Matrix elements *)
Lemma melem_ext ds f M N g :
  (forall is js, in_range ds is -> in_range ds js -> M is js = N is js) ->
  melem ds f M g = melem ds f N g.
Proof.
  intros H. unfold melem. apply sumcfg_ext. intros is His. apply sumcfg_ext. intros js Hjs.
  rewrite H by assumption. reflexivity.
Qed.

Lemma sumcfg_id_op ds is f : in_range ds is ->
  sumcfg ds (fun js => id_op is js * f js) = f is.
Proof.
  intros H. revert f. induction H as [|d i ds is Hi H IH]; intros f; cbn [sumcfg id_op]; [ring|].
  transitivity (sum d (fun j => delta i j * sumcfg ds (fun js => id_op is js * f (j :: js)))).
  - apply sum_ext. intros j Hj. rewrite sumcfg_mul_l. apply sumcfg_ext. intros js Hjs. ring.
  - rewrite sum_delta_l' by assumption. apply IH.
Qed.

Lemma melem_id ds f g : melem ds f id_op g = inner ds f g.
Proof.
  unfold melem, inner. apply sumcfg_ext. intros is His.
  transitivity (sumcfg ds (fun js => id_op is js * (kconj (f is) * g js))).
  - apply sumcfg_ext. intros js Hjs. ring.
  - rewrite sumcfg_id_op by assumption. reflexivity.
Qed.

(** ** The generic loops *)
Lemma wf_mps_length psi : wf_mps psi -> (0 < length psi)%nat.
Proof. intros (H & _). destruct psi; [congruence|cbn; lia]. Qed.

Lemma same_pdims_length (a b : mps) : pdims a = pdims b -> length b = length a.
Proof. intros H. rewrite <- (length_pdims a), <- (length_pdims b), H. reflexivity. Qed.

Lemma env_full a b op (R : bool) : wf_mps a -> wf_mps b -> pdims a = pdims b ->
  ops_fun_ok (pdims a) 0 op ->
  close_value
    (if R
     then fold_left (fun M k => prop_matrix M 1 (site a k) (site b k) (op k)) (seq 0 (length a)) empty
     else fold_left (fun M k => prop_matrix M (-1) (site a k) (site b k) (op k)) (rev (seq 0 (length a))) empty)
  = Ok (melem (pdims a) (amp a) (product_op 0 (fun k => opel (op k))) (amp b)).
Proof.
  intros (Ha & D & HD & HLa) (Hb & E & HE & HLb) Hpd Hop.
  pose proof (same_pdims_length a b Hpd) as Hlen.
  pose proof (ops_ok_map a b op 0 Hpd Hop) as Hops.
  set (M := if R then _ else _).
  assert (HM : env_ok D E a b (map op (seq 0 (length a))) D E M).
  { unfold M. destruct R.
    - rewrite envR_seq by lia. cbn [skipn].
      replace (firstn (length a) b) with b by (rewrite <- Hlen, firstn_all; reflexivity).
      rewrite firstn_all. apply envR_ok; assumption.
    - rewrite envL_seq by lia. cbn [skipn].
      replace (firstn (length a) b) with b by (rewrite <- Hlen, firstn_all; reflexivity).
      rewrite firstn_all. apply envL_ok; assumption. }
  unfold close_value. destruct (env_ok_nonempty _ _ _ _ _ _ _ _ HM) as (_ & ->). cbn [Nat.eqb].
  f_equal. rewrite (prop_close_value D E a b _ M HM).
  rewrite trace_TM by assumption.
  unfold melem. rewrite <- Hpd. apply sumcfg_ext. intros is His. apply sumcfg_ext. intros js Hjs.
  rewrite prodop_product_op.
  - reflexivity.
  - apply in_range_length in His. rewrite length_pdims in His. exact His.
  - apply in_range_length in Hjs. rewrite length_pdims in Hjs. exact Hjs.
Qed.

Lemma scprod_correct a b sense : wf_mps a -> wf_mps b -> pdims a = pdims b ->
  scprod a b sense = Ok (inner (pdims a) (amp a) (amp b)).
Proof.
  intros Ha Hb Hpd. unfold scprod. rewrite (same_pdims_length a b Hpd), Nat.eqb_refl.
  rewrite (env_full a b (fun _ => None) (0 <=? sense)%Z) by (auto; intros k Hk; reflexivity).
  f_equal. rewrite <- melem_id. apply melem_ext. intros is js _ _. cbn [opel]. apply product_op_id.
Qed.

Lemma norm2_squared_correct a : wf_mps a ->
  norm2_squared a = Ok (inner (pdims a) (amp a) (amp a)).
Proof.
  intros Ha. unfold norm2_squared.
  rewrite (env_full a a (fun _ => None) true) by (auto; intros k Hk; reflexivity).
  f_equal. rewrite <- melem_id. apply melem_ext. intros is js _ _. cbn [opel]. apply product_op_id.
Qed.

Lemma inner_conj ds f g : kconj (inner ds f g) = inner ds g f.
Proof.
  unfold inner. rewrite sumcfg_conj. apply sumcfg_ext. intros is His.
  rewrite kconj_mul, kconj_inv. ring.
Qed.

(** ** Index normalisation *)
Lemma normal_index_spec psi k n : normal_index psi k = Ok n <->
  (n < length psi)%nat /\ (Z.of_nat n = k \/ Z.of_nat n = k + Z.of_nat (length psi))%Z /\
  (- Z.of_nat (length psi) <= k < Z.of_nat (length psi))%Z /\
  ((k < 0)%Z -> Z.of_nat n = (k + Z.of_nat (length psi))%Z) /\ ((0 <= k)%Z -> Z.of_nat n = k).
Proof.
  unfold normal_index.
  destruct (Z.ltb_spec k 0).
  - destruct (Z.leb_spec (- Z.of_nat (length psi)) k).
    + split; [intros [= <-]; lia|]. intros (H1 & _ & H3 & H4 & _). f_equal. lia.
    + split; [discriminate|lia].
  - destruct (Z.ltb_spec k (Z.of_nat (length psi))).
    + split; [intros [= <-]; lia|]. intros (H1 & _ & H3 & _ & H4). f_equal. lia.
    + split; [discriminate|lia].
Qed.

(** ** Single-site expectation values *)
Lemma expected1_correct psi O k n : wf_mps psi -> normal_index psi k = Ok n ->
  dims O = [nth n (pdims psi) 0; nth n (pdims psi) 0]%nat ->
  expected1 psi O k = Ok (melem (pdims psi) (amp psi) (site_op n (mat O)) (amp psi)).
Proof.
  intros Hw Hn HO. unfold expected1. rewrite Hn. cbn [bind].
  apply normal_index_spec in Hn. destruct Hn as (Hn & _).
  rewrite (env_full psi psi (fun k => if Nat.eqb k n then Some O else None) true); auto.
  - f_equal. apply melem_ext. intros is js His Hjs.
    apply in_range_length in His, Hjs. rewrite length_pdims in His, Hjs.
    rewrite <- (product_op_site 0 n (mat O) is js) by lia.
    apply product_op_ext. intros m i j Hm. cbn [Nat.add].
    destruct (Nat.eqb m n); reflexivity.
  - intros m Hm. cbn [Nat.add]. destruct (Nat.eqb_spec m n) as [->|]; [exact HO|reflexivity].
Qed.

(** ** Two-site expectation values *)
Lemma expected2_correct psi O1 k1 n1 O2 k2 n2 :
  wf_mps psi -> normal_index psi k1 = Ok n1 -> normal_index psi k2 = Ok n2 ->
  (k1 = k2 \/ n1 <> n2) ->
  dims O1 = [nth n1 (pdims psi) 0; nth n1 (pdims psi) 0]%nat ->
  dims O2 = [nth n2 (pdims psi) 0; nth n2 (pdims psi) 0]%nat ->
  expected2 psi O1 k1 O2 k2 =
  Ok (melem (pdims psi) (amp psi)
        (op_mul (pdims psi) (site_op n1 (mat O1)) (site_op n2 (mat O2))) (amp psi)).
Proof.
  intros Hw Hn1 Hn2 Hk HO1 HO2. unfold expected2.
  destruct (Z.eqb_spec k1 k2) as [->|Hne].
  - assert (n2 = n1) by congruence. subst n2.
    rewrite (expected1_correct psi (mmult O1 O2) k2 n1 Hw Hn1) by (eapply dims_mmult; eauto).
    f_equal. apply melem_ext. intros is js His Hjs.
    pose proof (proj1 (normal_index_spec _ _ _) Hn1) as (Hn & _).
    rewrite op_mul_same_site by (auto; rewrite length_pdims; exact Hn).
    pose proof (in_range_length _ _ His) as L1. pose proof (in_range_length _ _ Hjs) as L2.
    rewrite length_pdims in L1, L2.
    (* both are site operators with the same elements in range *)
    clear -His Hjs HO1 HO2 Hn.
    assert (Hn' : (n1 < length (pdims psi))%nat) by (rewrite length_pdims; exact Hn). clear Hn.
    set (ds := pdims psi) in *. clearbody ds. revert ds is js His Hjs HO1 HO2 Hn'.
    induction n1 as [|n IH]; intros ds is js His Hjs HO1 HO2 Hn.
    + destruct ds as [|d ds]; [cbn in Hn; lia|].
      apply in_range_cons_inv in His, Hjs.
      destruct His as (i & is' & -> & Hi & His). destruct Hjs as (j & js' & -> & Hj & Hjs).
      cbn [site_op nth] in *. f_equal. unfold mat. rewrite (get_mmult O1 O2 d d d) by assumption.
      reflexivity.
    + destruct ds as [|d ds]; [cbn in Hn; lia|].
      apply in_range_cons_inv in His, Hjs.
      destruct His as (i & is' & -> & Hi & His). destruct Hjs as (j & js' & -> & Hj & Hjs).
      cbn [site_op nth] in *. f_equal. apply IH; auto. cbn in Hn; lia.
  - destruct Hk as [Hk|Hk]; [contradiction|].
    rewrite Hn1, Hn2. cbn [bind].
    apply normal_index_spec in Hn1, Hn2. destruct Hn1 as (Hn1 & _), Hn2 as (Hn2 & _).
    rewrite (env_full psi psi (fun k => if Nat.eqb k n1 then Some O1 else if Nat.eqb k n2 then Some O2 else None) true); auto.
    + f_equal. apply melem_ext. intros is js His Hjs.
      rewrite op_mul_sites by (auto; rewrite length_pdims; assumption).
      apply product_op_ext. intros m i j Hm.
      destruct (Nat.eqb m n1); [reflexivity|]. destruct (Nat.eqb m n2); reflexivity.
    + intros m Hm. cbn [Nat.add]. destruct (Nat.eqb_spec m n1) as [->|]; [exact HO1|].
      destruct (Nat.eqb_spec m n2) as [->|]; [exact HO2|reflexivity].
Qed.

(** ** Two environments *)
Lemma linked_split l psi r n : linked l psi r -> (n <= length psi)%nat ->
  exists m, linked l (firstn n psi) m /\ linked m (skipn n psi) r.
Proof.
  intros H Hn. rewrite <- (firstn_skipn n psi) in H. apply linked_app in H. exact H.
Qed.

Lemma pdims_firstn n p : pdims (firstn n p) = firstn n (pdims p).
Proof. unfold pdims. symmetry. apply firstn_map. Qed.

Lemma pdims_skipn n p : pdims (skipn n p) = skipn n (pdims p).
Proof. unfold pdims. symmetry. apply skipn_map. Qed.

Lemma seq_split_at n L : (n <= L)%nat -> seq 0 L = seq 0 n ++ seq n (L - n).
Proof. intros H. replace L with (n + (L - n))%nat at 1 by lia. rewrite seq_app. reflexivity. Qed.

Lemma nth_firstn_lt {A} n k (l : list A) d : (k < n)%nat -> nth k (firstn n l) d = nth k l d.
Proof.
  revert k l. induction n as [|n IH]; intros k l H; [lia|].
  destruct l as [|x l]; [reflexivity|]. cbn. destruct k; [reflexivity|]. apply IH. lia.
Qed.

Lemma nth_skipn_add {A} n k (l : list A) d : nth k (skipn n l) d = nth (n + k) l d.
Proof.
  revert l. induction n as [|n IH]; intros l; [reflexivity|].
  destruct l as [|x l]; [destruct k; reflexivity|]. cbn. apply IH.
Qed.

Lemma close2_full a b op i : wf_mps a -> wf_mps b -> pdims a = pdims b ->
  ops_fun_ok (pdims a) 0 op -> (i < length a)%nat ->
  (forall k, (i < k)%nat -> op k = None) ->
  close2_value
    (fold_left (fun M k => prop_matrix M 1 (site a k) (site b k) (op k)) (seq 0 (S i)) empty)
    (aux_right a b i) =
  melem (pdims a) (amp a) (product_op 0 (fun k => opel (op k))) (amp b).
Proof.
  intros Hwa Hwb Hpd Hop Hi Hnone.
  pose proof (same_pdims_length a b Hpd) as Hlen.
  destruct (Nat.eq_dec (S i) (length a)) as [Hlast|Hmid].
  - (* no right environment *)
    unfold aux_right. rewrite <- Hlast, Nat.sub_diag. cbn [seq rev fold_left].
    unfold close2_value, prop_close2. rewrite is_empty_empty.
    pose proof (env_full a b op true Hwa Hwb Hpd Hop) as H.
    unfold close_value in H. rewrite <- Hlast in H. 
    destruct (Nat.eqb _ 4); [|discriminate]. injection H as H. exact H.
  - pose proof Hwa as (Ha & D & HD & HLa). pose proof Hwb as (Hb & E & HE & HLb).
    destruct (linked_split _ _ _ (S i) HLa ltac:(lia)) as (ma & Ha1 & Ha2).
    destruct (linked_split _ _ _ (S i) HLb ltac:(lia)) as (mb & Hb1 & Hb2).
    assert (Hma : (0 < ma)%nat) by (eapply linked_pos; eauto).
    assert (Hmb : (0 < mb)%nat) by (eapply linked_pos; eauto).
    set (o1 := map op (seq 0 (S i))).
    set (o2 := map op (seq (S i) (length a - S i))).
    assert (Ho1 : ops_ok (firstn (S i) a) (firstn (S i) b) o1).
    { unfold o1. replace (seq 0 (S i)) with (seq 0 (length (firstn (S i) a)))
        by (rewrite firstn_length_le by lia; reflexivity).
      apply ops_ok_map.
      - rewrite !pdims_firstn, Hpd. reflexivity.
      - intros k Hk. rewrite pdims_firstn in *. rewrite firstn_length_le in Hk by (rewrite length_pdims; lia).
        rewrite !nth_firstn_lt by assumption. apply Hop. rewrite length_pdims. lia. }
    assert (Ho2 : ops_ok (skipn (S i) a) (skipn (S i) b) o2).
    { unfold o2. replace (length a - S i)%nat with (length (skipn (S i) a)) by apply skipn_length.
      apply ops_ok_map.
      - rewrite !pdims_skipn, Hpd. reflexivity.
      - intros k Hk. rewrite pdims_skipn in *. rewrite skipn_length, length_pdims in Hk.
        rewrite !nth_skipn_add. apply Hop. rewrite length_pdims. lia. }
    assert (Hsk : skipn (S i) a <> []).
    { intros E0. apply (f_equal (@length _)) in E0. rewrite skipn_length in E0. cbn in E0. lia. }
    rewrite envR_seq by lia. change (skipn 0 a) with a. change (skipn 0 b) with b. fold o1.
    assert (HL : env_ok D E (firstn (S i) a) (firstn (S i) b) o1 ma mb
                   (envR (firstn (S i) a) (firstn (S i) b) o1 empty)).
    { apply envR_ok; auto. destruct a; [cbn in Hi; lia|cbn; congruence]. }
    assert (HR : env_ok ma mb (skipn (S i) a) (skipn (S i) b) o2 D E (aux_right a b i)).
    { unfold aux_right.
      rewrite (envL_seq a b (fun _ => None)) by lia.
      rewrite (firstn_all2 (n := (length a - S i)%nat)) by (rewrite skipn_length; lia).
      rewrite (firstn_all2 (n := (length a - S i)%nat)) by (rewrite skipn_length; lia).
      replace (map (fun _ => None) (seq (S i) (length a - S i))) with o2.
      - apply envL_ok; auto. rewrite !pdims_skipn, Hpd. reflexivity.
      - unfold o2. apply map_ext_in. intros k Hk. apply in_seq in Hk. apply Hnone. lia. }
    rewrite (prop_close2_value D E (firstn (S i) a) (firstn (S i) b) o1 ma mb (skipn (S i) a) (skipn (S i) b) o2
               _ _ Ha1 Hb1 Ha2 Hb2 Ho1 HL HR).
    rewrite !firstn_skipn. unfold o1, o2. rewrite <- map_app, <- seq_split_at by lia.
    rewrite trace_TM by assumption. rewrite <- Hpd.
    unfold melem. apply sumcfg_ext. intros is His. apply sumcfg_ext. intros js Hjs.
    apply in_range_length in His, Hjs. rewrite length_pdims in His, Hjs.
    rewrite prodop_product_op by assumption. reflexivity.
Qed.

Lemma fold_left_ext_in {A B} (f g : A -> B -> A) l : (forall x y, In y l -> f x y = g x y) ->
  forall a0, fold_left f l a0 = fold_left g l a0.
Proof.
  induction l as [|y l IH]; intros H a0; [reflexivity|]. cbn.
  rewrite H by (left; reflexivity). apply IH. intros x z Hz. apply H. right. exact Hz.
Qed.

Lemma aux_left_ext a b op i : (forall k, (k < i)%nat -> op k = None) ->
  aux_left a b i = fold_left (fun M k => prop_matrix M 1 (site a k) (site b k) (op k)) (seq 0 i) empty.
Proof.
  intros H. unfold aux_left. apply fold_left_ext_in. intros M k Hk. apply in_seq in Hk.
  rewrite H by lia. reflexivity.
Qed.

Lemma left_step a b O i op :
  (forall k, (k < i)%nat -> op k = None) -> op i = Some O ->
  prop_matrix (aux_left a b i) 1 (site a i) (site b i) (Some O) =
  fold_left (fun M k => prop_matrix M 1 (site a k) (site b k) (op k)) (seq 0 (S i)) empty.
Proof.
  intros H1 H2. rewrite seq_S, fold_left_app. cbn [fold_left Nat.add].
  rewrite (aux_left_ext a b op i H1), H2. reflexivity.
Qed.

Lemma expected_vector_elem a b ops i : wf_mps a -> wf_mps b -> pdims a = pdims b ->
  (i < length a)%nat -> dims (nth i ops empty) = [nth i (pdims a) 0; nth i (pdims a) 0]%nat ->
  close2_value (prop_matrix (aux_left a b i) 1 (site a i) (site b i) (Some (nth i ops empty)))
    (aux_right a b i) =
  melem (pdims a) (amp a) (site_op i (mat (nth i ops empty))) (amp b).
Proof.
  intros Ha Hb Hpd Hi HO.
  rewrite (left_step a b _ i (fun k => if Nat.eqb k i then Some (nth i ops empty) else None)).
  2:{ intros k Hk. destruct (Nat.eqb_spec k i); [lia|reflexivity]. }
  2:{ rewrite Nat.eqb_refl. reflexivity. }
  rewrite close2_full; auto.
  - apply melem_ext. intros is js His Hjs.
    apply in_range_length in His, Hjs. rewrite length_pdims in His, Hjs.
    rewrite <- (product_op_site 0 i _ is js) by lia.
    apply product_op_ext. intros m x y Hm. cbn [Nat.add]. destruct (Nat.eqb m i); reflexivity.
  - intros k Hk. cbn [Nat.add]. destruct (Nat.eqb_spec k i) as [->|]; [exact HO|reflexivity].
  - intros k Hk. destruct (Nat.eqb_spec k i); [lia|reflexivity].
Qed.

Lemma expected_vector_correct a b ops : wf_mps a -> wf_mps b -> pdims a = pdims b ->
  length ops = length a ->
  (forall i, (i < length a)%nat -> dims (nth i ops empty) = [nth i (pdims a) 0; nth i (pdims a) 0]%nat) ->
  exists v, expected_vector a ops b = Ok v /\ dims v = [length a] /\ wf v /\
    forall i, (i < length a)%nat ->
      get v [i] = melem (pdims a) (amp a) (site_op i (mat (nth i ops empty))) (amp b).
Proof.
  intros Ha Hb Hpd Hlen HO. unfold expected_vector.
  rewrite (same_pdims_length a b Hpd), Hlen, Nat.eqb_refl. cbn [andb].
  eexists. split; [reflexivity|]. cbn [dims]. split; [reflexivity|]. split.
  - unfold wf. cbn. rewrite map_length, seq_length. lia.
  - intros i Hi. unfold get. cbn [dims data offset]. rewrite Nat.mul_0_r, Nat.add_0_r.
    rewrite nth_map_seq by assumption. apply expected_vector_elem; auto.
Qed.

(** ** Correlation matrices *)
Definition jw_el (jw : option tensor) : nat -> nat -> K := opel jw.

Lemma corr_row_correct a b A Bs jw i j : wf_mps a -> wf_mps b -> pdims a = pdims b ->
  (i < j < length a)%nat ->
  dims A = [nth i (pdims a) 0; nth i (pdims a) 0]%nat ->
  dims (nth j Bs empty) = [nth j (pdims a) 0; nth j (pdims a) 0]%nat ->
  (forall k, (i < k < j)%nat -> op_ok jw (nth k (pdims a) 0)%nat (nth k (pdims a) 0)%nat) ->
  corr_row a b A Bs jw i j =
  melem (pdims a) (amp a) (string_op i j (mat A) (opel jw) (mat (nth j Bs empty))) (amp b).
Proof.
  intros Ha Hb Hpd Hij HA HB Hjw. unfold corr_row.
  set (B := nth j Bs empty) in *.
  set (op := fun k => if Nat.eqb k i then Some A else if Nat.eqb k j then Some B
                      else if Nat.ltb i k && Nat.ltb k j then jw else None).
  assert (Hpre : forall k, (k < i)%nat -> op k = None).
  { intros k Hk. unfold op. destruct (Nat.eqb_spec k i); [lia|]. destruct (Nat.eqb_spec k j); [lia|].
    destruct (Nat.ltb_spec i k); [lia|]. reflexivity. }
  assert (Hi : op i = Some A) by (unfold op; rewrite Nat.eqb_refl; reflexivity).
  rewrite (left_step a b A i op Hpre Hi).
  assert (Hmid : fold_left (fun M k => prop_matrix M 1 (site a k) (site b k) jw) (seq (S i) (j - S i))
     (fold_left (fun M k => prop_matrix M 1 (site a k) (site b k) (op k)) (seq 0 (S i)) empty) =
     fold_left (fun M k => prop_matrix M 1 (site a k) (site b k) (op k)) (seq 0 j) empty).
  { rewrite (seq_split_at (S i) j) by lia. rewrite fold_left_app.
    apply fold_left_ext_in. intros M k Hk. apply in_seq in Hk. f_equal. unfold op.
    destruct (Nat.eqb_spec k i); [lia|]. destruct (Nat.eqb_spec k j); [lia|].
    destruct (Nat.ltb_spec i k); [|lia]. destruct (Nat.ltb_spec k j); [reflexivity|lia]. }
  rewrite Hmid.
  assert (Hj : op j = Some B).
  { unfold op. destruct (Nat.eqb_spec j i); [lia|]. rewrite Nat.eqb_refl. reflexivity. }
  replace (prop_matrix _ 1 (site a j) (site b j) (Some B)) with
    (fold_left (fun M k => prop_matrix M 1 (site a k) (site b k) (op k)) (seq 0 (S j)) empty).
  2:{ rewrite seq_S, fold_left_app. cbn [fold_left Nat.add]. rewrite Hj. reflexivity. }
  rewrite close2_full; auto.
  - apply melem_ext. intros is js His Hjs. unfold string_op. apply product_op_ext.
    intros k x y Hk. unfold op. destruct (Nat.eqb k i); [reflexivity|].
    destruct (Nat.eqb k j); [reflexivity|]. destruct (Nat.ltb i k && Nat.ltb k j); reflexivity.
  - intros k Hk. cbn [Nat.add]. unfold op.
    destruct (Nat.eqb_spec k i) as [->|]; [exact HA|].
    destruct (Nat.eqb_spec k j) as [->|]; [exact HB|].
    destruct (Nat.ltb_spec i k); [|reflexivity]. destruct (Nat.ltb_spec k j); [|reflexivity].
    cbn [andb]. apply Hjw. lia.
  - lia.
  - intros k Hk. unfold op.
    destruct (Nat.eqb_spec k i); [lia|]. destruct (Nat.eqb_spec k j); [lia|].
    destruct (Nat.ltb_spec k j); [lia|]. rewrite andb_false_r. reflexivity.
Qed.

Lemma string_op_two_sites ds i j A B is js :
  in_range ds is -> in_range ds js -> (i < length ds)%nat -> (j < length ds)%nat -> (i < j)%nat ->
  string_op i j A delta B is js = op_mul ds (site_op i A) (site_op j B) is js.
Proof.
  intros His Hjs Hi Hj Hij. rewrite op_mul_sites by (auto; lia).
  unfold string_op. apply product_op_ext. intros k x y Hk.
  destruct (Nat.eqb k i); [reflexivity|]. destruct (Nat.eqb k j); [reflexivity|].
  destruct (Nat.ltb i k && Nat.ltb k j); reflexivity.
Qed.

Lemma op_mul_sites_comm ds k1 k2 O1 O2 is js :
  in_range ds is -> in_range ds js -> (k1 < length ds)%nat -> (k2 < length ds)%nat -> k1 <> k2 ->
  op_mul ds (site_op k1 O1) (site_op k2 O2) is js = op_mul ds (site_op k2 O2) (site_op k1 O1) is js.
Proof.
  intros His Hjs H1 H2 Hne. rewrite !op_mul_sites by (auto; lia).
  apply product_op_ext. intros k x y Hk.
  destruct (Nat.eqb_spec k k1) as [->|]; [|reflexivity].
  destruct (Nat.eqb_spec k1 k2); [contradiction|reflexivity].
Qed.

Definition ops_square (ds : list nat) (ops : list tensor) : Prop :=
  length ops = length ds /\
  forall i, (i < length ds)%nat -> dims (nth i ops empty) = [nth i ds 0; nth i ds 0]%nat.

Lemma site_op_ext ds k O O' is js : in_range ds is -> in_range ds js ->
  (forall i j, (i < nth k ds 0)%nat -> (j < nth k ds 0)%nat -> O i j = O' i j) ->
  site_op k O is js = site_op k O' is js.
Proof.
  intros His. revert k js. induction His as [|d i ds is Hi His IH]; intros k js Hjs H.
  - destruct k, js; reflexivity.
  - apply in_range_cons_inv in Hjs. destruct Hjs as (j & js' & -> & Hj & Hjs).
    destruct k as [|k]; cbn [site_op nth] in *.
    + rewrite H by assumption. reflexivity.
    + rewrite (IH k js' Hjs H). reflexivity.
Qed.

Lemma all_correlations_correct a b op1 op2 : wf_mps a -> wf_mps b -> pdims a = pdims b ->
  ops_square (pdims a) op1 -> ops_square (pdims a) op2 ->
  exists C, all_correlations a op1 op2 b false None = Ok C /\ dims C = [length a; length a] /\ wf C /\
    forall i j, (i < length a)%nat -> (j < length a)%nat ->
      get C [i; j] = melem (pdims a) (amp a)
        (op_mul (pdims a) (site_op i (mat (nth i op1 empty))) (site_op j (mat (nth j op2 empty)))) (amp b).
Proof.
  intros Ha Hb Hpd (Hl1 & H1) (Hl2 & H2). rewrite length_pdims in *.
  unfold all_correlations.
  rewrite (same_pdims_length a b Hpd), Hl1, Hl2, Nat.eqb_refl. cbn [andb].
  eexists. split; [reflexivity|]. split; [reflexivity|]. split; [apply wf_mk|].
  intros i j Hi Hj. rewrite get_mk by (apply in_range_2; assumption). cbn [nth].
  unfold corr_elem. destruct (Nat.eqb_spec i j) as [->|Hne].
  - pose proof (expected_vector_elem a b (repeat (mmult (nth j op1 empty) (nth j op2 empty)) (S j)) j) as H.
    assert (Hr : nth j (repeat (mmult (nth j op1 empty) (nth j op2 empty)) (S j)) empty =
                 mmult (nth j op1 empty) (nth j op2 empty)).
    { rewrite nth_indep with (d' := mmult (nth j op1 empty) (nth j op2 empty))
        by (rewrite repeat_length; lia). apply nth_repeat. }
    rewrite Hr in H. rewrite H; auto.
    2:{ eapply dims_mmult; auto. }
    apply melem_ext. intros is js His Hjs.
    rewrite op_mul_same_site by (auto; rewrite length_pdims; exact Hj).
    eapply site_op_ext; eauto. intros x y Hx Hy. unfold mat.
    rewrite (get_mmult _ _ (nth j (pdims a) 0)%nat (nth j (pdims a) 0)%nat (nth j (pdims a) 0)%nat); auto.
  - destruct (Nat.ltb_spec i j) as [Hlt|Hge].
    + rewrite corr_row_correct; auto; [|intros; reflexivity].
      apply melem_ext. intros is js His Hjs. cbn [opel].
      apply string_op_two_sites; auto; rewrite length_pdims; assumption.
    + rewrite corr_row_correct; auto; [|lia|intros; reflexivity].
      apply melem_ext. intros is js His Hjs. cbn [opel].
      change (opel None) with delta.
      rewrite (string_op_two_sites (pdims a)) by (auto; rewrite ?length_pdims; lia).
      apply op_mul_sites_comm; auto; rewrite ?length_pdims; lia.
Qed.

End Facts.
