(** The two-site step of simplify_obc *)
From Coq Require Import Reals Lra Bool List Arith ZArith Lia Ring.
From Verif Require Import Scalar ScalarFacts RScal Tensor TensorFacts Spec MpsModel MpsFacts StateFacts StateFacts2 MpoSpec CanonSpec CanonModel
  ExpectedFacts TruncFacts SplitFacts CanonFacts CanonSweep CanonNorm CanonProps CanonTwo SweepModel SweepSpec SweepFacts FormModel FormSpec LFormFacts LFormValue
  SimplifySpec SimplifyModel EckartYoung SimplifyFacts SimplifyStep.
Import ListNotations.
Local Open Scope K_scope.

Definition exact_tol (flag tol : R) : Prop := exact_flag (eff_tol flag tol).

Lemma wtt_tail flag s tol Dmax D : exact_tol flag tol -> (Dmax <= 0 \/ Z.of_nat D <= Dmax)%Z ->
  (tail_weight s (where_to_truncate flag s tol Dmax) <= tail_weight s D)%R.
Proof.
  intros He HD.
  assert (Hm : (tail_weight s (eff_max s Dmax) <= tail_weight s D)%R).
  { unfold eff_max. destruct (Z.leb_spec Dmax 0).
    - cbn [orb]. rewrite (tail_weight_past s (length s)) by lia. apply tail_weight_nonneg.
    - destruct (Z.ltb_spec (Z.of_nat (length s)) Dmax); cbn [orb].
      + rewrite (tail_weight_past s (length s)) by lia. apply tail_weight_nonneg.
      + apply tail_weight_le. lia. }
  destruct He as [He|He].
  - rewrite wtt_zeros by exact He. destruct (Nat.min_spec (last_nonzero s) (eff_max s Dmax)) as [(_ & ->)|(_ & ->)]; [|exact Hm].
    assert (H0 : tail_weight s (last_nonzero s) = 0%R).
    { pose proof (last_nonzero_beyond s) as Hb. unfold tail_weight.
      assert (Hall : Forall (fun x => x = 0%R) (skipn (last_nonzero s) s)).
      { apply Forall_forall. intros x Hx. apply (In_nth _ _ 0%R) in Hx. destruct Hx as (n & Hn & <-). rewrite nth_skipn_add. apply Hb. lia. }
      induction Hall as [|x l Hx _ IH]; [reflexivity|]. cbn. rewrite IH, Hx. lra. }
    rewrite H0. apply tail_weight_nonneg.
  - rewrite wtt_none by exact He. exact Hm.
Qed.

Section Pair.
Context {RS : RScal}.
Add Ring Kring : k_ring.
Variable svd : tensor -> tensor * list R * tensor.
Variable flag : R.
Hypothesis Hsvd : svd_contract svd.

(** Projections of the two-site tensor on the stored tensors *)
Lemma two_pair_proj Pij a i j c Dmax tol left Pi Pj : dims Pij = [a; i; j; c] -> wf Pij ->
  (0 < a)%nat -> (0 < i)%nat -> (0 < j)%nat -> (0 < c)%nat -> two_pair svd flag Pij Dmax tol left = (Pi, Pj) ->
  if left then
    forall m z w, (m < dim Pj 0)%nat -> (z < j)%nat -> (w < c)%nat ->
      sum a (fun x => sum i (fun y => kconj (get Pi [x; y; m]) * get Pij [x; y; z; w])) = get Pj [m; z; w]
  else
    forall x y m, (x < a)%nat -> (y < i)%nat -> (m < dim Pi 2)%nat ->
      sum j (fun z => sum c (fun w => get Pij [x; y; z; w] * kconj (get Pj [m; z; w]))) = get Pi [x; y; m].
Proof.
  intros Hd Hw Ha Hi Hj Hc.
  assert (HA : is_matrix (reshape Pij [a * i; j * c]%nat) (a * i) (j * c)).
  { split; [reflexivity|]. apply wf_reshape; [exact Hw|]. rewrite Hd. cbn. lia. }
  pose proof (Hsvd (a * i)%nat (j * c)%nat _ HA ltac:(lia) ltac:(lia)) as Hs.
  assert (D0 : dim Pij 0 = a) by (unfold dim; rewrite Hd; reflexivity). assert (D1 : dim Pij 1 = i) by (unfold dim; rewrite Hd; reflexivity).
  assert (D2 : dim Pij 2 = j) by (unfold dim; rewrite Hd; reflexivity). assert (D3 : dim Pij 3 = c) by (unfold dim; rewrite Hd; reflexivity).
  unfold two_pair. rewrite D0, D1, D2, D3.
  destruct (svd (reshape Pij [a * i; j * c]%nat)) as [[Us sv] Vs] eqn:Esvd.
  set (b := where_to_truncate flag sv tol Dmax).
  assert (Hl : (b <= length sv)%nat) by apply wtt_le_length.
  pose proof (cut_spec _ _ _ _ _ _ b Hs Hl) as Hcut.
  destruct (cut b Us sv Vs) as [[U' s'] V'].
  destruct Hcut as ((HU1 & HU2) & (HV1 & HV2) & Hs' & Hsv & HU & HV).
  destruct Hs as (Hs0 & Hs1 & HUm & HVm & Hs2 & Hs3 & HUU & HVV & Hrec).
  assert (Hmi : (a * i)%nat = (i * a)%nat) by lia.
  destruct left.
  - intros E. injection E as <- <-. intros m z w Hm Hz Hww.
    change (m < b)%nat in Hm.
    rewrite get_scale by (apply in_range_3; assumption). cbn [nth].
    rewrite (get_unjoin_right V' b j c) by assumption. rewrite HV, Hsv by (try assumption; nia).
    rewrite sum_swap.
    rewrite (sum_ext i _ (fun y => sum a (fun x => kconj (get Us [(x + a * y)%nat; m]) * get (reshape Pij [a * i; j * c]%nat) [(x + a * y)%nat; (z + j * w)%nat]))).
    2:{ intros y Hy. apply sum_ext. intros x Hx. rewrite (get_unjoin_left U' a i b) by assumption. rewrite HU by (try assumption; nia).
        rewrite (get_join4 Pij a i j c) by assumption. reflexivity. }
    rewrite <- (sum_merge a i (fun r => kconj (get Us [r; m]) * get (reshape Pij [a * i; j * c]%nat) [r; (z + j * w)%nat])).
    rewrite (sum_ext (a * i) _ (fun r => sum (length sv) (fun k => kconj (get Us [r; m]) * get Us [r; k] * (rinj (nth k sv 0%R) * get Vs [k; (z + j * w)%nat])))).
    2:{ intros r Hr. rewrite Hrec by (try assumption; nia). rewrite sum_mul_l. apply sum_ext. intros k _. ring. }
    rewrite sum_swap.
    rewrite (sum_ext (length sv) _ (fun k => delta m k * (rinj (nth k sv 0%R) * get Vs [k; (z + j * w)%nat]))).
    2:{ intros k Hk. rewrite <- sum_mul_r. rewrite HUU by lia. reflexivity. }
    rewrite sum_delta_l' by lia. ring.
  - intros E. injection E as <- <-. intros x y m Hx Hy Hm.
    change (m < b)%nat in Hm.
    rewrite get_scale by (apply in_range_3; assumption). cbn [nth].
    rewrite (get_unjoin_left U' a i b) by assumption. rewrite HU, Hsv by (try assumption; nia).
    rewrite sum_swap.
    rewrite (sum_ext c _ (fun w => sum j (fun z => get (reshape Pij [a * i; j * c]%nat) [(x + a * y)%nat; (z + j * w)%nat] * kconj (get Vs [m; (z + j * w)%nat])))).
    2:{ intros w Hww. apply sum_ext. intros z Hz. rewrite (get_unjoin_right V' b j c) by assumption. rewrite HV by (try assumption; nia).
        rewrite (get_join4 Pij a i j c) by assumption. reflexivity. }
    rewrite <- (sum_merge j c (fun r => get (reshape Pij [a * i; j * c]%nat) [(x + a * y)%nat; r] * kconj (get Vs [m; r]))).
    rewrite (sum_ext (j * c) _ (fun r => sum (length sv) (fun k => (get Vs [k; r] * kconj (get Vs [m; r])) * (get Us [(x + a * y)%nat; k] * rinj (nth k sv 0%R))))).
    2:{ intros r Hr. rewrite Hrec by (try assumption; nia). rewrite sum_mul_r. apply sum_ext. intros k _. ring. }
    rewrite sum_swap.
    rewrite (sum_ext (length sv) _ (fun k => delta k m * (get Us [(x + a * y)%nat; k] * rinj (nth k sv 0%R)))).
    2:{ intros k Hk. rewrite <- sum_mul_r. rewrite HVV by lia. reflexivity. }
    rewrite sum_delta_l by lia. ring.
Qed.

(** Weight of a joined pair *)
Definition sum4 (a i j c : nat) (F : nat -> nat -> nat -> nat -> K) : K :=
  sum a (fun x => sum i (fun y => sum j (fun z => sum c (fun w => F x y z w)))).

Lemma sum4_ext a i j c F G : (forall x y z w, (x < a)%nat -> (y < i)%nat -> (z < j)%nat -> (w < c)%nat -> F x y z w = G x y z w) -> sum4 a i j c F = sum4 a i j c G.
Proof. intros H. unfold sum4. do 4 (apply sum_ext; intros ? ?). apply H; assumption. Qed.
Lemma sum4_add a i j c F G : sum4 a i j c (fun x y z w => F x y z w + G x y z w) = sum4 a i j c F + sum4 a i j c G.
Proof.
  unfold sum4. rewrite <- sum_add. apply sum_ext; intros x _. rewrite <- sum_add. apply sum_ext; intros y _. rewrite <- sum_add. apply sum_ext; intros z _.
  rewrite <- sum_add. reflexivity.
Qed.
Lemma sum4_mul_l a i j c k F : sum4 a i j c (fun x y z w => k * F x y z w) = k * sum4 a i j c F.
Proof.
  unfold sum4. rewrite sum_mul_l. apply sum_ext; intros x _. rewrite sum_mul_l. apply sum_ext; intros y _. rewrite sum_mul_l. apply sum_ext; intros z _.
  rewrite sum_mul_l. reflexivity.
Qed.
Lemma sum4_conj a i j c F : kconj (sum4 a i j c F) = sum4 a i j c (fun x y z w => kconj (F x y z w)).
Proof.
  unfold sum4. rewrite sum_conj. apply sum_ext; intros x _. rewrite sum_conj. apply sum_ext; intros y _. rewrite sum_conj. apply sum_ext; intros z _.
  apply sum_conj.
Qed.

Lemma sum4_merge a i j c (F : nat -> nat -> K) : sum (a * i) (fun r => sum (j * c) (fun q => F r q)) =
  sum4 a i j c (fun x y z w => F (x + a * y)%nat (z + j * w)%nat).
Proof.
  unfold sum4. rewrite sum_merge, sum_swap. apply sum_ext. intros x Hx. apply sum_ext. intros y Hy. rewrite sum_merge, sum_swap. reflexivity.
Qed.

Lemma joined_right A B a i m j c : dims A = [a; i; m] -> wf A -> dims B = [m; j; c] -> right_isometry B ->
  sum4 a i j c (fun x y z w => kconj (joined A B x y z w) * joined A B x y z w) = rinj (frob2 A).
Proof.
  intros HA HwA HB HI. rewrite (frob2_3 A a i m HA HwA). unfold sum4. apply sum_ext; intros x _. apply sum_ext; intros y _.
  unfold joined, dim. rewrite HA. cbn [nth]. unfold right_isometry, dim in HI. rewrite HB in HI. cbn [nth] in HI.
  rewrite (sum_ext j _ (fun z => sum m (fun p => sum m (fun q => sum c (fun w => kconj (get A [x; y; p]) * get A [x; y; q] * (get B [q; z; w] * kconj (get B [p; z; w]))))))).
  2:{ intros z _. rewrite (sum_ext c _ (fun w => sum m (fun p => sum m (fun q => kconj (get A [x; y; p]) * get A [x; y; q] * (get B [q; z; w] * kconj (get B [p; z; w])))))).
      - rewrite sum_swap. apply sum_ext; intros p _. apply sum_swap.
      - intros w _. rewrite sum_conj, sum_mul_r. apply sum_ext; intros p _. rewrite sum_mul_l. apply sum_ext; intros q _. rewrite kconj_mul. ring. }
  rewrite sum_swap. apply sum_ext; intros p Hp. rewrite sum_swap.
  rewrite (sum_ext m _ (fun q => delta q p * (kconj (get A [x; y; p]) * get A [x; y; q]))).
  - rewrite sum_delta_l by exact Hp. reflexivity.
  - intros q Hq. rewrite <- HI by assumption. rewrite sum_mul_r. apply sum_ext; intros z _. rewrite sum_mul_r. apply sum_ext; intros w _. ring.
Qed.

Lemma joined_left A B a i m j c : dims A = [a; i; m] -> dims B = [m; j; c] -> wf B -> left_isometry A ->
  sum4 a i j c (fun x y z w => kconj (joined A B x y z w) * joined A B x y z w) = rinj (frob2 B).
Proof.
  intros HA HB HwB HI. rewrite (frob2_3 B m j c HB HwB). unfold sum4, left_isometry, joined, dim in *. rewrite HA in *. cbn [nth] in *.
  rewrite (sum_ext a _ (fun x => sum i (fun y => sum m (fun p => sum m (fun q => (kconj (get A [x; y; p]) * get A [x; y; q]) * sum j (fun z => sum c (fun w => kconj (get B [p; z; w]) * get B [q; z; w]))))))).
  2:{ intros x _. apply sum_ext; intros y _.
      rewrite (sum_ext j _ (fun z => sum m (fun p => sum m (fun q => (kconj (get A [x; y; p]) * get A [x; y; q]) * sum c (fun w => kconj (get B [p; z; w]) * get B [q; z; w]))))).
      - rewrite sum_swap. apply sum_ext; intros p _. rewrite sum_swap. apply sum_ext; intros q _. rewrite <- sum_mul_l. reflexivity.
      - intros z _. rewrite (sum_ext c _ (fun w => sum m (fun p => sum m (fun q => (kconj (get A [x; y; p]) * get A [x; y; q]) * (kconj (get B [p; z; w]) * get B [q; z; w]))))).
        + rewrite sum_swap. apply sum_ext; intros p _. rewrite sum_swap. apply sum_ext; intros q _. rewrite <- sum_mul_l. reflexivity.
        + intros w _. rewrite sum_conj, sum_mul_r. apply sum_ext; intros p _. rewrite sum_mul_l. apply sum_ext; intros q _. rewrite kconj_mul. ring. }
  rewrite (sum_ext a _ (fun x => sum m (fun p => sum m (fun q => sum i (fun y => (kconj (get A [x; y; p]) * get A [x; y; q]) * sum j (fun z => sum c (fun w => kconj (get B [p; z; w]) * get B [q; z; w]))))))).
  2:{ intros x _. rewrite sum_swap. apply sum_ext; intros p _. apply sum_swap. }
  rewrite sum_swap. apply sum_ext; intros p Hp. rewrite sum_swap.
  rewrite (sum_ext m _ (fun q => delta p q * sum j (fun z => sum c (fun w => kconj (get B [p; z; w]) * get B [q; z; w])))).
  - rewrite sum_delta_l' by exact Hp. reflexivity.
  - intros q Hq. rewrite <- HI by assumption. rewrite sum_mul_r. apply sum_ext; intros x _. rewrite sum_mul_r. reflexivity.
Qed.

(** The truncated pair is the best of its bond dimension. *)
Lemma pair_best Pij a i j c U s V D A B : is_svd (a * i) (j * c) (reshape Pij [a * i; j * c]%nat) U s V -> dims Pij = [a; i; j; c] ->
  (0 < a)%nat -> (0 < i)%nat -> (0 < j)%nat -> (0 < D)%nat -> dims A = [a; i; D] -> dims B = [D; j; c] ->
  exists r, (tail_weight s D <= r)%R /\
    rinj r = sum4 a i j c (fun x y z w => kconj (get Pij [x; y; z; w] - joined A B x y z w) * (get Pij [x; y; z; w] - joined A B x y z w)).
Proof.
  intros Hs Hd Ha Hi Hj HD HA HB.
  exists (mweight (a * i) (j * c) (fun r q => get (reshape Pij [a * i; j * c]%nat) [r; q] - sum D (fun k => get A [(r mod a)%nat; (r / a)%nat; k] * get B [k; (q mod j)%nat; (q / j)%nat]))).
  split; [apply (eckart_young svd Hsvd (a * i) (j * c) (reshape Pij [a * i; j * c]%nat) U s V D (fun r k => get A [(r mod a)%nat; (r / a)%nat; k]) (fun k q => get B [k; (q mod j)%nat; (q / j)%nat])); [exact Hs|nia|exact HD]|].
  rewrite rinj_mweight, sum4_merge. apply sum4_ext. intros x y z w Hx Hy Hz Hw. rewrite (get_join4 Pij a i j c) by assumption.
  unfold joined, dim. rewrite HA. cbn [nth].
  replace (x + a * y)%nat with (x + y * a)%nat by lia. replace (z + j * w)%nat with (z + w * j)%nat by lia.
  rewrite !Nat.mod_add, !Nat.mod_small, !Nat.div_add, !Nat.div_small by lia. reflexivity.
Qed.
End Pair.
