(** Norms of canonical forms, weight lost by a truncated decomposition *)
From Coq Require Import Reals Lra Bool List Arith ZArith Lia Ring.
From Verif Require Import Scalar ScalarFacts RScal Tensor TensorFacts Spec MpsModel MpsFacts EnvFacts ExpectedFacts
  StateFacts StateFacts2 CanonSpec CanonModel TruncFacts SplitFacts CanonFacts CanonSweep.
Import ListNotations.
Local Open Scope K_scope.

Section Facts.
Context {RS : RScal}.
Add Ring Kring : k_ring.

Lemma fold_right_rsum (l : list K) :
  rinj (fold_right (fun x r => (kmod2 x + r)%R) 0%R l) = sum (length l) (fun k => kconj (nth k l 0) * nth k l 0).
Proof.
  induction l as [|x l IH]; [apply rinj_0|]. cbn [fold_right length]. rewrite sum_S_l. cbn [nth].
  rewrite rinj_add, IH, kmod2_spec. reflexivity.
Qed.

Lemma frob2_nonneg t : (0 <= frob2 t)%R.
Proof.
  unfold frob2. induction (data t) as [|x l IH]; cbn; [lra|]. pose proof (kmod2_nonneg x). lra.
Qed.

Lemma frob2_zero t : frob2 t = 0%R -> forall k, nth k (data t) 0 = 0.
Proof.
  unfold frob2. induction (data t) as [|x l IH]; cbn; intros H k; [destruct k; reflexivity|].
  pose proof (kmod2_nonneg x).
  assert (0 <= fold_right (fun x r => (kmod2 x + r)%R) 0%R l)%R.
  { clear. induction l as [|y l IH]; cbn; [lra|]. pose proof (kmod2_nonneg y). lra. }
  destruct k as [|k]; [apply kmod2_zero; lra|]. apply IH. lra.
Qed.

Lemma frob2_3 t a i b : dims t = [a; i; b] -> wf t ->
  rinj (frob2 t) = sum a (fun x => sum i (fun y => sum b (fun z => kconj (get t [x; y; z]) * get t [x; y; z]))).
Proof.
  intros Hd Hw. unfold frob2. rewrite fold_right_rsum. rewrite Hw, Hd. cbn [nprod fold_right].
  rewrite Nat.mul_1_r. rewrite sum_merge, sum_swap. apply sum_ext. intros x Hx.
  rewrite sum_merge, sum_swap. apply sum_ext. intros y Hy. apply sum_ext. intros z Hz.
  unfold get. rewrite Hd. cbn [offset].
  replace (x + a * (y + i * z))%nat with (x + a * (y + i * (z + b * 0)))%nat by lia. reflexivity.
Qed.

Lemma frob2_2 t a b : dims t = [a; b] -> wf t ->
  rinj (frob2 t) = sum a (fun x => sum b (fun z => kconj (get t [x; z]) * get t [x; z])).
Proof.
  intros Hd Hw. unfold frob2. rewrite fold_right_rsum. rewrite Hw, Hd. cbn [nprod fold_right].
  rewrite Nat.mul_1_r. rewrite sum_merge, sum_swap. apply sum_ext. intros x Hx.
  apply sum_ext. intros z Hz. unfold get. rewrite Hd. cbn [offset].
  replace (x + a * z)%nat with (x + a * (z + b * 0))%nat by lia. reflexivity.
Qed.

(** Products of factors with orthonormal sides *)
Lemma sandwich {I J} (SI : (I -> K) -> K) (SJ : (J -> K) -> K) m n (L : I -> nat -> K) (M : nat -> nat -> K)
  (Rr : J -> nat -> K) :
  (forall f g, (forall i, f i = g i) -> SI f = SI g) -> (forall f g, (forall j, f j = g j) -> SJ f = SJ g) ->
  (forall k (f : I -> nat -> K), SI (fun i => sum k (f i)) = sum k (fun x => SI (fun i => f i x))) ->
  (forall k (f : J -> nat -> K), SJ (fun i => sum k (f i)) = sum k (fun x => SJ (fun i => f i x))) ->
  (forall c f, SI (fun i => c * f i) = c * SI f) -> (forall c f, SJ (fun i => c * f i) = c * SJ f) ->
  (forall x y, (x < m)%nat -> (y < m)%nat -> SI (fun i => kconj (L i x) * L i y) = delta x y) ->
  (forall x y, (x < n)%nat -> (y < n)%nat -> SJ (fun j => Rr j x * kconj (Rr j y)) = delta x y) ->
  SI (fun i => SJ (fun j => kconj (sum m (fun x => sum n (fun y => L i x * M x y * Rr j y)))
                            * sum m (fun x => sum n (fun y => L i x * M x y * Rr j y))))
  = sum m (fun x => sum n (fun y => kconj (M x y) * M x y)).
Proof.
  intros eI eJ sI sJ cI cJ GL GR.
  transitivity (SI (fun i => sum m (fun x => sum m (fun x' => kconj (L i x) * L i x' *
     sum n (fun y => kconj (M x y) * M x' y))))).
  - apply eI. intros i.
    transitivity (SJ (fun j => sum m (fun x => sum m (fun x' => sum n (fun y => sum n (fun y' =>
       (kconj (L i x) * L i x' * (kconj (M x y) * M x' y')) * (Rr j y' * kconj (Rr j y)))))))).
    + apply eJ. intros j. rewrite sum_conj, sum_mul_r. apply sum_ext. intros x Hx.
      rewrite sum_mul_l. apply sum_ext. intros x' Hx'. rewrite sum_conj, sum_mul_r. apply sum_ext. intros y Hy.
      rewrite sum_mul_l. apply sum_ext. intros y' Hy'. rewrite !kconj_mul. ring.
    + rewrite sJ. apply sum_ext. intros x Hx. rewrite sJ. apply sum_ext. intros x' Hx'.
      rewrite sJ, sum_mul_l. apply sum_ext. intros y Hy. rewrite sJ.
      transitivity (sum n (fun y' => (kconj (L i x) * L i x' * (kconj (M x y) * M x' y')) * delta y' y)).
      * apply sum_ext. intros y' Hy'. rewrite cJ, GR by assumption. reflexivity.
      * rewrite (sum_delta_r n y) by assumption. reflexivity.
  - rewrite sI. apply sum_ext. intros x Hx. rewrite sI.
    transitivity (sum m (fun x' => sum n (fun y => kconj (M x y) * M x' y) * delta x x')).
    + apply sum_ext. intros x' Hx'.
      rewrite (eI _ (fun i => sum n (fun y => kconj (M x y) * M x' y) * (kconj (L i x) * L i x'))) by (intros; ring).
      rewrite cI, GL by assumption. reflexivity.
    + rewrite sum_delta_r' by assumption. reflexivity.
Qed.

Lemma sum_chain3 p A q D m d c D' is1 i is2 a b : linked D p m -> dims A = [m; d; c] -> wf A -> (0 < d)%nat -> (0 < c)%nat ->
  linked c q D' -> length is1 = length p -> (a < D)%nat ->
  chain (p ++ A :: q) (is1 ++ i :: is2) a b =
  sum m (fun x => sum c (fun y => chain p is1 a x * get A [x; i; y] * chain q is2 y b)).
Proof.
  intros Hp HA HwA Hd Hc Hq Hl Ha.
  assert (L1 : linked m (A :: q) D') by (exists d, c; repeat split; auto).
  rewrite (chain_app D p m _ D' is1 _ a b Hp L1 Hl Ha). apply sum_ext. intros x Hx.
  cbn [chain]. replace (dim A 2) with c by (unfold dim; rewrite HA; reflexivity).
  rewrite sum_mul_l. apply sum_ext. intros y Hy. ring.
Qed.

Lemma center_norm p A q m d c : linked 1 p m -> dims A = [m; d; c] -> wf A -> (0 < d)%nat -> (0 < c)%nat ->
  linked c q 1 ->
  (forall j, (j < length p)%nat -> left_isometry (site p j)) ->
  (forall j, (j < length q)%nat -> right_isometry (site q j)) ->
  inner (pdims (p ++ A :: q)) (amp (p ++ A :: q)) (amp (p ++ A :: q)) = rinj (frob2 A).
Proof.
  intros Hp HA HwA Hd Hc Hq HIp HIq.
  unfold inner. rewrite pdims_app. cbn [pdims map]. fold (pdims q).
  assert (Hlb : left_bond (p ++ A :: q) = 1%nat).
  { apply (linked_left_bond 1 _ 1); [destruct p; discriminate|]. apply linked_app. exists m. split; [exact Hp|].
    exists d, c. repeat split; auto. }
  replace (dim A 1) with d by (unfold dim; rewrite HA; reflexivity).
  rewrite sumcfg_app. cbn [sumcfg].
  transitivity (sum d (fun i => sum m (fun x => sum c (fun y => kconj (get A [x; i; y]) * get A [x; i; y])))).
  - transitivity (sum d (fun i => sumcfg (pdims p) (fun is1 => sumcfg (pdims q) (fun is2 =>
       kconj (amp (p ++ A :: q) (is1 ++ i :: is2)) * amp (p ++ A :: q) (is1 ++ i :: is2))))).
    { rewrite sumcfg_sum_swap. reflexivity. }
    apply sum_ext. intros i Hi.
    rewrite <- (sandwich (sumcfg (pdims p)) (sumcfg (pdims q)) m c (fun is1 x => chain p is1 0%nat x)
       (fun x y => get A [x; i; y]) (fun is2 y => chain q is2 y 0%nat)).
    + apply sumcfg_ext. intros is1 H1. apply sumcfg_ext. intros is2 H2. unfold amp. rewrite Hlb, !sum_1.
      rewrite (sum_chain3 p A q 1 m d c 1 is1 i is2 0%nat 0%nat) by
        (try assumption; try lia; rewrite <- (length_pdims p); apply in_range_length; exact H1).
      reflexivity.
    + intros f g H. apply sumcfg_ext. intros is _. apply H.
    + intros f g H. apply sumcfg_ext. intros is _. apply H.
    + intros k f. apply sumcfg_sum_swap.
    + intros k f. apply sumcfg_sum_swap.
    + intros e f. symmetry. apply sumcfg_mul_l.
    + intros e f. symmetry. apply sumcfg_mul_l.
    + intros x y Hx Hy. rewrite <- (left_iso_gram p 1 m Hp HIp x y Hx Hy).
      apply sumcfg_ext. intros is _. rewrite sum_1. reflexivity.
    + intros x y Hx Hy. rewrite <- (right_iso_gram q c 1 Hq Hc HIq x y Hx Hy).
      apply sumcfg_ext. intros is _. rewrite sum_1. reflexivity.
  - rewrite (frob2_3 A m d c HA HwA). rewrite sum_swap. reflexivity.
Qed.

(** The weight of what a truncated SVD drops. *)
Lemma dropped_weight mm nn A U s V l : is_svd mm nn A U s V -> (l <= length s)%nat ->
  sum mm (fun i => sum nn (fun j => kconj (dropped U s V l i j) * dropped U s V l i j)) = rinj (tail_weight s l).
Proof.
  intros (H1 & H2 & H3 & H4 & H5 & H6 & HU & HV & H7) Hl. unfold dropped.
  set (n := (length s - l)%nat).
  transitivity (sum mm (fun i => sum nn (fun j =>
     kconj (sum n (fun x => sum n (fun y => get U [i; (l + x)%nat] * (delta x y * rinj (nth (l + x) s 0%R)) * get V [(l + y)%nat; j])))
     * sum n (fun x => sum n (fun y => get U [i; (l + x)%nat] * (delta x y * rinj (nth (l + x) s 0%R)) * get V [(l + y)%nat; j]))))).
  { apply sum_ext. intros i Hi. apply sum_ext. intros j Hj.
    assert (E : sum n (fun k => get U [i; (l + k)%nat] * rinj (nth (l + k) s 0%R) * get V [(l + k)%nat; j]) =
      sum n (fun x => sum n (fun y => get U [i; (l + x)%nat] * (delta x y * rinj (nth (l + x) s 0%R)) * get V [(l + y)%nat; j]))).
    { apply sum_ext. intros x Hx.
      rewrite (sum_ext n _ (fun y => delta x y * (get U [i; (l + x)%nat] * rinj (nth (l + x) s 0%R) * get V [(l + y)%nat; j])))
        by (intros; ring).
      rewrite sum_delta_l' by assumption. reflexivity. }
    rewrite E. reflexivity. }
  rewrite (sandwich (sum mm) (sum nn) n n (fun i x => get U [i; (l + x)%nat])
     (fun x y => delta x y * rinj (nth (l + x) s 0%R)) (fun j y => get V [(l + y)%nat; j])).
  - transitivity (sum n (fun x => rinj (nth (l + x) s 0 * nth (l + x) s 0)%R)).
    + apply sum_ext. intros x Hx.
      rewrite (sum_ext n _ (fun y => delta x y * (delta x y * rinj (nth (l + x) s 0 * nth (l + x) s 0)%R))).
      * rewrite sum_delta_l' by assumption. rewrite delta_refl. ring.
      * intros y Hy. rewrite kconj_mul, delta_conj, rinj_conj, rinj_mul. ring.
    + unfold tail_weight. 
      assert (E : forall (r : list R), sum (length r) (fun x => rinj (nth x r 0 * nth x r 0)%R)
                 = rinj (fold_right (fun x r => (x * x + r)%R) 0%R r)).
      { induction r as [|x r IH]; [symmetry; apply rinj_0|]. cbn [length]. rewrite sum_S_l. cbn [nth fold_right].
        rewrite rinj_add, IH. reflexivity. }
      rewrite <- E. rewrite skipn_length. fold n. apply sum_ext. intros x Hx. rewrite nth_skipn_add. reflexivity.
  - intros f g H. apply sum_ext. auto.
  - intros f g H. apply sum_ext. auto.
  - intros k f. apply sum_swap.
  - intros k f. apply sum_swap.
  - intros e f. symmetry. apply sum_mul_l.
  - intros e f. symmetry. apply sum_mul_l.
  - intros x y Hx Hy. rewrite HU by (unfold n in *; lia). unfold delta.
    destruct (Nat.eqb_spec x y), (Nat.eqb_spec (l + x) (l + y)); try reflexivity; lia.
  - intros x y Hx Hy. rewrite HV by (unfold n in *; lia). unfold delta.
    destruct (Nat.eqb_spec x y), (Nat.eqb_spec (l + x) (l + y)); try reflexivity; lia.
Qed.

Lemma svd_total mm nn A U s V : is_svd mm nn A U s V ->
  sum mm (fun i => sum nn (fun j => kconj (get A [i; j]) * get A [i; j])) = rinj (tail_weight s 0).
Proof.
  intros H. rewrite <- (dropped_weight mm nn A U s V 0 H ltac:(lia)).
  apply sum_ext. intros i Hi. apply sum_ext. intros j Hj.
  rewrite (svd_split_sum mm nn A U s V 0 i j H ltac:(lia) Hi Hj). cbn [sum].
  replace (0 + dropped U s V 0 i j) with (dropped U s V 0 i j) by ring. reflexivity.
Qed.

End Facts.
