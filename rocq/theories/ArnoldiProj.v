(** Projections on a span, and the equations solved by ArnoldiSolver *)
From Coq Require Import Reals Lra Bool List Arith ZArith Lia Ring Classical ClassicalChoice.
From Verif Require Import Scalar ScalarFacts RScal RealInst Tensor TensorFacts Spec MpoSpec CanonSpec SimplifySpec SimplifyFacts ArnoldiSpec ArnoldiFacts.
Import ListNotations.
Local Open Scope K_scope.

Section Proj.
Context {RS : RScal}.
Add Ring Kring : k_ring.

(** Every function has a projection on the span of finitely many. *)
Lemma projection ds (s : nat -> list nat -> K) : forall n v, exists x : nat -> K, forall i, (i < n)%nat ->
  sum n (fun j => inner ds (s i) (s j) * x j) = inner ds (s i) v.
Proof.
  induction n as [|n IH]; intros v; [exists (fun _ => 0); intros; lia|].
  destruct (IH (s n)) as (y & Hy). destruct (IH v) as (x & Hx).
  set (p := fun is => sum n (fun k => y k * s k is)). set (r := fun is => s n is - p is).
  assert (Hor : forall i, (i < n)%nat -> inner ds (s i) r = 0).
  { intros i Hi. unfold r. rewrite inner_sub_r. unfold p. rewrite inner_sum_r. rewrite <- (Hy i Hi). rewrite (sum_ext n (fun k => y k * _) (fun j => inner ds (s i) (s j) * y j)) by (intros; ring). ring. }
  assert (Hor' : forall i, (i < n)%nat -> inner ds r (s i) = 0).
  { intros i Hi. rewrite <- inner_conj, (Hor i Hi). apply kconj_0. }
  assert (Hsn : forall g, inner ds (s n) g = inner ds r g + sum n (fun k => kconj (y k) * inner ds (s k) g)).
  { intros g. rewrite <- inner_sum_l. unfold r, p, inner. rewrite <- sumcfg_add. apply sumcfg_ext. intros is _. rewrite kconj_sub. ring. }
  destruct (Req_EM_T (weight ds r) 0) as [E0|E0].
  - assert (Hr0 : forall g, inner ds r g = 0).
    { intros g. unfold inner. apply sumcfg_zero. intros is Hi. rewrite (weight_zero ds r E0 is Hi), kconj_0. ring. }
    exists (fun j => if Nat.eqb j n then 0 else x j). intros i Hi.
    assert (Hfirst : forall i, (i < n)%nat -> sum (S n) (fun j => inner ds (s i) (s j) * (if Nat.eqb j n then 0 else x j)) = inner ds (s i) v).
    { intros q Hq. cbn [sum]. rewrite Nat.eqb_refl. rewrite (sum_ext n _ (fun j => inner ds (s q) (s j) * x j)).
      - rewrite (Hx q Hq). ring.
      - intros j Hj. destruct (Nat.eqb_spec j n); [lia|reflexivity]. }
    destruct (Nat.eq_dec i n) as [->|]; [|apply Hfirst; lia].
    rewrite (Hsn v), (Hr0 v).
    rewrite (sum_ext (S n) _ (fun j => sum n (fun k => kconj (y k) * (inner ds (s k) (s j) * (if Nat.eqb j n then 0 else x j))))).
    + rewrite (sum_swap (S n) n). rewrite (Radd_0_l k_ring). apply sum_ext. intros k Hk. rewrite <- sum_mul_l. rewrite (Hfirst k Hk). reflexivity.
    + intros j Hj. rewrite (Hsn (s j)), (Hr0 (s j)). rewrite (Radd_0_l k_ring), sum_mul_r. apply sum_ext. intros k Hk. ring.
  - set (c := rinj (/ weight ds r)%R * inner ds r v).
    assert (Hc : inner ds r r * c = inner ds r v).
    { unfold c. rewrite <- rinj_weight. transitivity (rinj (weight ds r * / weight ds r)%R * inner ds r v); [rewrite rinj_mul; ring|]. rewrite Rinv_r by exact E0. rewrite rinj_1. ring. }
    assert (Hrn : inner ds r (s n) = inner ds r r).
    { unfold r at 3. rewrite inner_sub_r. unfold p. rewrite inner_sum_r. rewrite (sum_zero n) by (intros k Hk; rewrite (Hor' k Hk); ring). ring. }
    exists (fun j => if Nat.eqb j n then c else x j - y j * c). intros i Hi.
    assert (Hfirst : forall i, (i < n)%nat -> sum (S n) (fun j => inner ds (s i) (s j) * (if Nat.eqb j n then c else x j - y j * c)) = inner ds (s i) v).
    { intros q Hq. cbn [sum]. rewrite Nat.eqb_refl. rewrite (sum_ext n _ (fun j => inner ds (s q) (s j) * x j - inner ds (s q) (s j) * y j * c)).
      - rewrite sum_sub, <- sum_mul_r, (Hx q Hq), (Hy q Hq). ring.
      - intros j Hj. destruct (Nat.eqb_spec j n); [lia|ring]. }
    destruct (Nat.eq_dec i n) as [->|]; [|apply Hfirst; lia].
    rewrite (Hsn v).
    rewrite (sum_ext (S n) _ (fun j => inner ds r (s j) * (if Nat.eqb j n then c else x j - y j * c) + sum n (fun k => kconj (y k) * (inner ds (s k) (s j) * (if Nat.eqb j n then c else x j - y j * c))))).
    + rewrite sum_add, (sum_swap (S n) n). f_equal.
      * cbn [sum]. rewrite Nat.eqb_refl. rewrite (sum_zero n) by (intros j Hj; rewrite (Hor' j Hj); ring). rewrite Hrn, Hc. ring.
      * apply sum_ext. intros k Hk. rewrite <- sum_mul_l. rewrite (Hfirst k Hk). reflexivity.
    + intros j Hj. rewrite (Hsn (s j)). rewrite (Rdistr_l k_ring), sum_mul_r. f_equal. apply sum_ext. intros k Hk. ring.
Qed.

(** A combination orthogonal to all the vectors is zero *)
Lemma combination_zero ds (s : nat -> list nat -> K) n (z : nat -> K) : (forall i, (i < n)%nat -> sum n (fun j => inner ds (s i) (s j) * z j) = 0) ->
  forall is, in_range ds is -> sum n (fun k => z k * s k is) = 0.
Proof.
  intros Hz. apply (weight_zero ds (fun is => sum n (fun k => z k * s k is))). apply rinj_inj. rewrite rinj_weight, rinj_0.
  rewrite inner_sum_l. apply sum_zero. intros i Hi. rewrite inner_sum_r. rewrite (sum_ext n _ (fun j => inner ds (s i) (s j) * z j)) by (intros; ring). rewrite (Hz i Hi). ring.
Qed.

(** The contract of the linear solver can be met. *)
Theorem msolve_contract_satisfiable : exists msolve, msolve_contract msolve.
Proof.
  assert (X : forall AB : tensor * tensor, exists Y, forall n, let '(A, B) := AB in is_matrix A n n -> is_matrix B n n ->
    (exists X : nat -> nat -> K, forall i j, (i < n)%nat -> (j < n)%nat -> sum n (fun k => mat A i k * X k j) = mat B i j) ->
    is_matrix Y n n /\ forall i j, (i < n)%nat -> (j < n)%nat -> sum n (fun k => mat A i k * mat Y k j) = mat B i j).
  { intros (A & B). destruct (classic (exists n, is_matrix A n n /\ exists X : nat -> nat -> K, forall i j, (i < n)%nat -> (j < n)%nat -> sum n (fun k => mat A i k * X k j) = mat B i j)) as [(n & HA & X & HX)|Hno].
    - exists (mk [n; n] (fun is => X (nth 0 is 0%nat) (nth 1 is 0%nat))). intros n' (HA' & _) _ _. destruct HA as (HA & _). assert (n' = n) by congruence. subst n'.
      split; [split; [reflexivity|apply wf_mk]|]. intros i j Hi Hj. rewrite <- (HX i j Hi Hj). apply sum_ext. intros k Hk. f_equal. unfold mat. rewrite get_mk by (apply in_range_2; assumption). reflexivity.
    - exists A. intros n HA _ HX. destruct Hno. exists n. auto. }
  destruct (choice _ X) as (f & Hf). exists (fun A B => f (A, B)). intros n A B. exact (Hf (A, B) n).
Qed.

End Proj.
