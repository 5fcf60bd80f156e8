(** * The projector used by minimize() for the states the result must be orthogonal to *)
From Coq Require Import Reals Lra Bool List Arith ZArith Lia Ring.
From Verif Require Import Scalar ScalarFacts RScal Tensor TensorFacts Spec MpsModel MpsFacts StateFacts StateFacts2 MpoSpec MpoFacts CanonSpec CanonModel
  TruncFacts SplitFacts CanonFacts CanonSweep CanonNorm CanonProps CanonTwo SweepFacts FormModel FormSpec LFormFacts QFormFacts QFormInv QFormValue QFormMain
  SimplifySpec SimplifyModel SimplifyFacts SimplifyStep SimplifyPair SimplifyDouble MinimizerModel MinLive MinimizeSpec MinLocal MinStep.
Import ListNotations.
Local Open Scope K_scope.

Section Projector.
Context {RS : RScal}.
Add Ring Kring : k_ring.

Definition vec (t : tensor) (r : nat) : K := nth r (data t) 0.
Definition pr (n : nat) (o x : nat -> K) (r : nat) : K := x r - sum n (fun s => kconj (o s) * x s) * o r.
Definition Pm (o : nat -> K) (r s : nat) : K := delta r s - o r * kconj (o s).
Definition PMP (n : nat) (o : nat -> K) (M : nat -> nat -> K) (r c : nat) : K :=
  sum n (fun s => sum n (fun t => Pm o r s * M s t * Pm o t c)).

Lemma scprod_sum a b : length (data a) = length (data b) -> tensor_scprod a b = sum (length (data a)) (fun r => kconj (vec a r) * vec b r).
Proof.
  destruct a as [da la], b as [db lb]. unfold tensor_scprod, vec. cbn [data]. revert lb. induction la as [|x la IH]; intros [|y lb] Hl; try discriminate Hl; [reflexivity|].
  cbn [combine fold_right fst snd length]. rewrite sum_S_l. cbn [nth]. rewrite IH by (cbn in Hl; lia). reflexivity.
Qed.

Lemma ortho_data t o n : length (data t) = n -> length (data o) = n ->
  data (orthogonalize t [o]) = map (pr n (vec o) (vec t)) (seq 0 n) /\ dims (orthogonalize t [o]) = dims t.
Proof.
  intros Ht Hn. split; [|reflexivity]. cbn [orthogonalize fold_left]. unfold tsub, tscale. cbn [data].
  apply (nth_ext _ _ 0 0); [rewrite !map_length, combine_length, map_length, seq_length; lia|].
  intros r Hr. rewrite map_length, combine_length, map_length in Hr. rewrite (nth_map_seq (pr n (vec o) (vec t))) by lia.
  set (g := fun p : K * K => fst p - snd p). set (q := tensor_scprod o t).
  transitivity (nth r (map g (combine (data t) (map (kmul q) (data o)))) (g (0, q * 0))).
  { apply nth_indep. rewrite map_length, combine_length, map_length. lia. }
  rewrite map_nth, combine_nth by (rewrite map_length; lia). unfold g. cbn [fst snd].
  rewrite (map_nth (kmul q) (data o) 0 r). unfold pr, q. rewrite scprod_sum, Hn by lia. reflexivity.
Qed.

Lemma pr_mat n o x r : (r < n)%nat -> pr n o x r = sum n (fun s => Pm o r s * x s).
Proof.
  intros Hr. unfold pr, Pm. transitivity (sum n (fun s => delta r s * x s - (kconj (o s) * x s) * o r)); [|apply sum_ext; intros; ring].
  rewrite sum_sub, sum_delta_l' by exact Hr. rewrite <- sum_mul_r. reflexivity.
Qed.

Lemma pr_ext n o x y r : (forall s, (s < n)%nat -> x s = y s) -> (r < n)%nat -> pr n o x r = pr n o y r.
Proof. intros Hx Hr. unfold pr. rewrite Hx by exact Hr. f_equal. f_equal. apply sum_ext. intros s Hs. rewrite Hx by exact Hs. reflexivity. Qed.

Lemma Pm_conj o r s : kconj (Pm o r s) = Pm o s r.
Proof.
  unfold Pm. rewrite kconj_sub, kconj_mul, kconj_inv. replace (kconj (delta r s)) with (delta s r); [ring|].
  unfold delta. rewrite Nat.eqb_sym. destruct (Nat.eqb r s); rewrite ?kconj_0, ?kconj_1; reflexivity.
Qed.

Lemma PMP_hermitian n o M : hermitian n M -> hermitian n (PMP n o M).
Proof.
  intros HM i j Hi Hj. unfold PMP. rewrite sum_conj. rewrite (sum_ext n (fun s => kconj _) (fun s => sum n (fun t => Pm o s j * M t s * Pm o i t))).
  - rewrite sum_swap. apply sum_ext. intros s Hs. apply sum_ext. intros t Ht. ring.
  - intros s Hs. rewrite sum_conj. apply sum_ext. intros t Ht. rewrite !kconj_mul, !Pm_conj. rewrite <- (HM t s Ht Hs). reflexivity.
Qed.

Lemma nth_data_eq (w : tensor) n i : dims w = [n] -> get w [i] = vec w i.
Proof. intros Hd. unfold get, vec. rewrite Hd. cbn [offset]. f_equal. lia. Qed.

Lemma checked_len t n w : checked_reshape t [n] = Ok w -> length (data t) = n /\ data w = data t.
Proof.
  unfold checked_reshape. cbn [nprod fold_right]. rewrite Nat.mul_1_r. destruct (Nat.eqb_spec (length (data t)) n) as [E|E]; [|discriminate]. intros Hr. apply Ok_inj' in Hr. subst w. auto.
Qed.

(** The function given to the eigenvalue solver is the product with P M P. *)
Lemma proj_acts d f o M : length (data o) = nprod d -> acts_as (apply_qform1 d f []) (nprod d) M ->
  acts_as (apply_qform1 d f [o]) (nprod d) (PMP (nprod d) (vec o) M).
Proof.
  intros Ho HA v Hw Hd. set (n := nprod d) in *. destruct (checked_reshape_ok v d Hw Hd) as (E1 & E2).
  unfold apply_qform1. rewrite E1. cbn [bind]. rewrite E2. set (x := fun i => get v [i]).
  assert (Hlv : length (data v) = n) by (unfold wf in Hw; rewrite Hd in Hw; cbn in Hw; lia).
  set (v' := ten [n] (pr n (vec o) x)).
  assert (Eo : orthogonalize (ten d x) [o] = ten d (pr n (vec o) x)).
  { destruct (ortho_data (ten d x) o n ltac:(cbn [data ten]; rewrite map_length, seq_length; reflexivity) Ho) as (D1 & D2).
    destruct (orthogonalize (ten d x) [o]) as [dd ll]. cbn [data dims] in *. subst dd ll. unfold ten. cbn [dims]. fold n. f_equal.
    apply map_ext_in. intros r Hr. apply in_seq in Hr. apply pr_ext; [|lia]. intros s Hs. apply nth_ten. exact Hs. }
  rewrite Eo.
  destruct (HA v' (wf_ten _ _) eq_refl) as (w & Ew & Hww & Hdw & Hv). unfold apply_qform1 in Ew.
  destruct (checked_reshape_ok v' d (wf_ten _ _) eq_refl) as (E3 & E4). rewrite E3 in Ew. cbn [bind] in Ew. rewrite E4 in Ew.
  assert (E5 : ten d (fun i => get v' [i]) = ten d (pr n (vec o) x)).
  { unfold ten. fold n. f_equal. apply map_ext_in. intros r Hr. apply in_seq in Hr. rewrite (nth_data_eq v' n r eq_refl). apply (nth_ten [n]). cbn. lia. }
  rewrite E5 in Ew. change (orthogonalize (ten d (pr n (vec o) x)) []) with (ten d (pr n (vec o) x)) in Ew.
  destruct (apply_one_site_matrix f (ten d (pr n (vec o) x))) as [v0|]; [|discriminate Ew]. cbn [bind] in *.
  change (orthogonalize v0 []) with v0 in Ew. replace (length (data v')) with n in Ew by (cbn [data v' ten]; rewrite map_length, seq_length; cbn; lia).
  destruct (checked_len v0 n w Ew) as (Hl0 & Hd0).
  destruct (ortho_data v0 o n Hl0 Ho) as (D1 & D2). exists (mkT [n] (map (pr n (vec o) (vec v0)) (seq 0 n))).
  split.
  { unfold checked_reshape. rewrite D1, map_length, seq_length, Hlv. cbn [nprod fold_right]. rewrite Nat.mul_1_r, Nat.eqb_refl. unfold reshape. rewrite D1. reflexivity. }
  split; [unfold wf; cbn [data dims]; rewrite map_length, seq_length; cbn; lia|]. split; [reflexivity|]. intros i Hi.
  rewrite (nth_data_eq (mkT [n] (map (pr n (vec o) (vec v0)) (seq 0 n))) n i eq_refl). unfold vec at 1. cbn [data]. rewrite (nth_map_seq (pr n (vec o) (vec v0))) by exact Hi.
  rewrite pr_mat by exact Hi.
  rewrite (sum_ext n _ (fun s => sum n (fun t => sum n (fun c => Pm (vec o) i s * M s t * Pm (vec o) t c * x c)))).
  - unfold PMP. rewrite (sum_ext n (fun j => sum n _ * get v [j]) (fun j => sum n (fun s => sum n (fun t => Pm (vec o) i s * M s t * Pm (vec o) t j * x j)))).
    + rewrite (sum_swap n n (fun j s => sum n (fun t => Pm (vec o) i s * M s t * Pm (vec o) t j * x j))). apply sum_ext. intros s Hs. apply sum_swap.
    + intros j Hj. rewrite sum_mul_r. apply sum_ext. intros s Hs. rewrite sum_mul_r. reflexivity.
  - intros s Hs. replace (vec v0 s) with (get w [s]) by (rewrite (nth_data_eq w n s Hdw); unfold vec; rewrite Hd0; reflexivity).
    rewrite Hv by exact Hs. rewrite sum_mul_l. apply sum_ext. intros t Ht.
    rewrite (nth_data_eq v' n t eq_refl). unfold vec at 2, v'. rewrite nth_ten by (cbn; lia). rewrite pr_mat by exact Ht.
    rewrite !sum_mul_l. apply sum_ext. intros c Hc. ring.
Qed.

(** Vectors of norm one *)
Section Unit.
Variables (n : nat) (o : nat -> K).
Hypothesis Ho : rsum n (fun r => kmod2 (o r)) = 1%R.

Lemma unit_sum : sum n (fun r => kconj (o r) * o r) = 1.
Proof.
  rewrite (sum_ext n _ (fun r => rinj (kmod2 (o r)))) by (intros; rewrite kmod2_spec; ring).
  rewrite <- rinj_rsum, Ho. apply rinj_1.
Qed.

Lemma o_Pm c : (c < n)%nat -> sum n (fun r => kconj (o r) * Pm o r c) = 0.
Proof.
  intros Hc. unfold Pm. rewrite (sum_ext n _ (fun r => delta r c * kconj (o r) - (kconj (o r) * o r) * kconj (o c))) by (intros; ring).
  rewrite sum_sub, sum_delta_l by exact Hc. rewrite <- sum_mul_r, unit_sum. ring.
Qed.

Lemma ground_orthogonal M e p : ground_state n (PMP n o M) e p -> (e <> 0)%R -> sum n (fun r => kconj (o r) * p r) = 0.
Proof.
  intros (_ & G2 & _) He.
  assert (E : rinj e * sum n (fun r => kconj (o r) * p r) = 0).
  { rewrite sum_mul_l. rewrite (sum_ext n _ (fun r => kconj (o r) * sum n (fun j => PMP n o M r j * p j))) by (intros r Hr; rewrite G2 by exact Hr; ring).
    rewrite (sum_ext n _ (fun r => sum n (fun j => sum n (fun s => sum n (fun t => kconj (o r) * Pm o r s * (M s t * Pm o t j * p j)))))).
    - rewrite sum_swap. apply sum_zero. intros j Hj. rewrite sum_swap. apply sum_zero. intros s Hs. rewrite sum_swap. apply sum_zero. intros t Ht.
      rewrite <- sum_mul_r, o_Pm by exact Hs. ring.
    - intros r Hr. rewrite sum_mul_l. apply sum_ext. intros j Hj. unfold PMP. rewrite sum_mul_r, sum_mul_l. apply sum_ext. intros s Hs.
      rewrite sum_mul_r, sum_mul_l. apply sum_ext. intros t Ht. ring. }
  assert (Hinv : rinj (/ e) * rinj e = 1) by (rewrite <- rinj_mul, Rinv_l by exact He; apply rinj_1).
  transitivity (rinj (/ e) * rinj e * sum n (fun r => kconj (o r) * p r)); [rewrite Hinv; ring|]. transitivity (rinj (/ e) * (rinj e * sum n (fun r => kconj (o r) * p r))); [ring|]. rewrite E. ring.
Qed.

Lemma orthogonal_Pm y c : (c < n)%nat -> sum n (fun r => kconj (o r) * y r) = 0 -> sum n (fun r => Pm o c r * y r) = y c.
Proof. intros Hc Hy. rewrite <- pr_mat by exact Hc. unfold pr. rewrite Hy. ring. Qed.

Lemma orthogonal_form M x y : sum n (fun r => kconj (o r) * x r) = 0 -> sum n (fun r => kconj (o r) * y r) = 0 ->
  sum n (fun i => sum n (fun j => kconj (x i) * PMP n o M i j * y j)) = sum n (fun i => sum n (fun j => kconj (x i) * M i j * y j)).
Proof.
  intros Hx Hy.
  rewrite (sum_ext n _ (fun i => sum n (fun s => sum n (fun t => sum n (fun j => kconj (x i) * Pm o i s * M s t * (Pm o t j * y j)))))).
  - rewrite sum_swap. apply sum_ext. intros s Hs. rewrite sum_swap. apply sum_ext. intros t Ht.
    rewrite (sum_ext n _ (fun i => kconj (x i) * Pm o i s * (M s t * y t))).
    + rewrite <- sum_mul_r. assert (E : sum n (fun i => kconj (x i) * Pm o i s) = kconj (x s)).
      { rewrite <- (orthogonal_Pm x s Hs Hx), sum_conj. apply sum_ext. intros i Hi. rewrite kconj_mul, Pm_conj. ring. }
      rewrite E. ring.
    + intros i Hi. rewrite <- sum_mul_l, orthogonal_Pm by assumption. ring.
  - intros i Hi. rewrite (sum_ext n _ (fun j => sum n (fun s => sum n (fun t => kconj (x i) * Pm o i s * M s t * (Pm o t j * y j))))).
    + rewrite sum_swap. apply sum_ext. intros s Hs. apply sum_swap.
    + intros j Hj. unfold PMP. rewrite sum_mul_l, sum_mul_r. apply sum_ext. intros s Hs. rewrite sum_mul_l, sum_mul_r. apply sum_ext. intros t Ht. ring.
Qed.
End Unit.
End Projector.
