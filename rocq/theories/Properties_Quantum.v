(** * C42, C58: Fock and spin operators, coherent states *)
From Coq Require Import Reals Lra Bool List Arith ZArith Lia Ring Field Psatz Factorial.
From Verif Require Import Scalar ScalarFacts RealInst RScal Tensor TensorFacts Spec QuantumSpec QuantumModel.
Import ListNotations.
Local Open Scope R_scope.

Notation RS := (@rs_scalar RR).
Notation CS := (@rs_scalar CC).

(** ** Fock operators *)
Ltac toR := match goal with |- @eq _ ?a ?b => change (@eq R a b) end.
Lemma rsum_single n k f : (k < n)%nat -> (forall i, (i < n)%nat -> i <> k -> f i = 0) -> rsum n f = f k.
Proof.
  induction n as [|n IH]; intros Hk H; [lia|]. cbn [rsum]. destruct (Nat.eq_dec k n) as [->|Hn].
  - rewrite rsum_zero; [ring|]. intros i Hi. apply H; lia.
  - rewrite IH; [|lia|intros i Hi Hne; apply H; lia]. rewrite (H n) by lia. ring.
Qed.

Lemma nth_linspace a b n k : (k < n)%nat -> nth k (linspace a b n) 0 = a + INR k * (b - a) / INR (n - 1).
Proof. intros H. unfold linspace. rewrite nth_map_seq by exact H. reflexivity. Qed.

Lemma length_linspace a b n : length (linspace a b n) = n.
Proof. unfold linspace. rewrite map_length, seq_length. reflexivity. Qed.

Lemma get_sparse row col v d i j : (i < d)%nat -> (j < d)%nat ->
  @get RS (sparse_matrix row col v d) [i; j] =
  rsum (length v) (fun k => if Nat.eqb (nth k row 0%nat) i && Nat.eqb (nth k col 0%nat) j then nth k v 0 else 0).
Proof. intros Hi Hj. unfold sparse_matrix. rewrite (@get_mk RS) by (apply in_range_2; assumption). reflexivity. Qed.

(** C42. number_operator(nmax) is diagonal with elements 0, 1, ..., nmax *)
Theorem C42_number nmax i j : (i <= nmax)%nat -> (j <= nmax)%nat ->
  @get RS (number_operator nmax) [i; j] = if Nat.eqb i j then INR i else 0.
Proof.
  intros Hi Hj. toR. unfold number_operator. rewrite get_sparse by lia. rewrite length_linspace.
  rewrite (rsum_single _ i); [|lia|].
  - rewrite !seq_nth by lia. cbn [Nat.add]. rewrite Nat.eqb_refl. cbn [andb]. destruct (Nat.eqb_spec i j) as [->|]; [|reflexivity].
    rewrite nth_linspace by lia. replace (nmax + 1 - 1)%nat with nmax by lia.
    destruct (Nat.eq_dec nmax 0) as [->|Hn]; [replace j with 0%nat by lia; change (INR 0) with 0; unfold Rdiv; ring|].
    field. apply not_0_INR. exact Hn.
  - intros k Hk Hne. rewrite !seq_nth by lia. cbn [Nat.add]. destruct (Nat.eqb_spec k i); [contradiction|reflexivity].
Qed.

Lemma nth_sqrt_linspace nmax k : (k < nmax)%nat -> nth k (map sqrt (linspace 1 (INR nmax) nmax)) 0 = sqrt (INR (k + 1)).
Proof.
  intros Hk. rewrite (nth_indep _ 0 (sqrt 0)) by (rewrite map_length, length_linspace; lia).
  rewrite map_nth, nth_linspace by exact Hk. f_equal. rewrite plus_INR. destruct (Nat.eq_dec nmax 1) as [->|Hn].
  - replace k with 0%nat by lia. change (INR 0) with 0. change (INR 1) with 1. unfold Rdiv. ring.
  - rewrite minus_INR by lia. change (INR 1) with 1. field.
    assert (INR 1 < INR nmax) by (apply lt_INR; lia). change (INR 1) with 1 in H. lra.
Qed.

(** C42. destruction_operator(nmax): a|j> = sqrt(j) |j-1> *)
Theorem C42_destruction nmax i j : (i <= nmax)%nat -> (j <= nmax)%nat ->
  @get RS (destruction_operator nmax) [i; j] = if Nat.eqb j (i + 1) then sqrt (INR j) else 0.
Proof.
  intros Hi Hj. toR. unfold destruction_operator. rewrite get_sparse by lia. rewrite map_length, length_linspace.
  destruct (Nat.eqb_spec j (i + 1)) as [->|Hne].
  - rewrite (rsum_single _ i); [|lia|].
    + rewrite !seq_nth by lia. cbn [Nat.add]. rewrite Nat.eqb_refl. destruct (Nat.eqb_spec (S i) (i + 1)); [|lia]. cbn [andb].
      apply nth_sqrt_linspace. lia.
    + intros k Hk Hne. rewrite !seq_nth by lia. cbn [Nat.add]. destruct (Nat.eqb_spec k i); [contradiction|reflexivity].
  - apply rsum_zero. intros k Hk. rewrite !seq_nth by lia. cbn [Nat.add].
    destruct (Nat.eqb_spec k i); [|reflexivity]. destruct (Nat.eqb_spec (S k) j); [lia|reflexivity].
Qed.

(** C42. creation_operator(nmax) is its adjoint *)
Theorem C42_creation nmax i j : (i <= nmax)%nat -> (j <= nmax)%nat ->
  @get RS (creation_operator nmax) [i; j] = @get RS (destruction_operator nmax) [j; i].
Proof.
  intros Hi Hj. toR. rewrite C42_destruction by assumption. unfold creation_operator. rewrite get_sparse by lia. rewrite map_length, length_linspace.
  destruct (Nat.eqb_spec i (j + 1)) as [->|Hne].
  - rewrite (rsum_single _ j); [|lia|].
    + rewrite !seq_nth by lia. cbn [Nat.add]. rewrite Nat.eqb_refl. destruct (Nat.eqb_spec (S j) (j + 1)); [|lia]. cbn [andb].
      apply nth_sqrt_linspace. lia.
    + intros k Hk Hne. rewrite !seq_nth by lia. cbn [Nat.add]. destruct (Nat.eqb_spec k j); [contradiction|]. apply andb_false_r || (destruct (Nat.eqb (S k) (j+1)); reflexivity).
  - apply rsum_zero. intros k Hk. rewrite !seq_nth by lia. cbn [Nat.add].
    destruct (Nat.eqb_spec (S k) i); [|reflexivity]. destruct (Nat.eqb_spec k j); [lia|reflexivity].
Qed.

(** C42. number = creation * destruction; the canonical commutator holds below the cutoff *)
Theorem C42_number_product nmax i j : (i <= nmax)%nat -> (j <= nmax)%nat ->
  rprod (nmax + 1) (creation_operator nmax) (destruction_operator nmax) i j = @get RS (number_operator nmax) [i; j].
Proof.
  intros Hi Hj. rewrite C42_number by assumption. unfold rprod. destruct i as [|i].
  - rewrite rsum_zero.
    + destruct (Nat.eqb_spec 0 j); reflexivity.
    + intros k Hk. rewrite C42_creation, C42_destruction by lia. destruct (Nat.eqb_spec 0 (k + 1)); [lia|ring].
  - rewrite (rsum_single _ i); [|lia|].
    + rewrite C42_creation, !C42_destruction by lia. destruct (Nat.eqb_spec (S i) (i + 1)); [|lia].
      destruct (Nat.eqb_spec j (i + 1)) as [Ej|Ej], (Nat.eqb_spec (S i) j) as [Ei|Ei]; try lia; [|ring].
      rewrite Ei. apply sqrt_sqrt. apply pos_INR.
    + intros k Hk Hne. rewrite C42_creation, C42_destruction by lia. destruct (Nat.eqb_spec (S i) (k + 1)); [lia|ring].
Qed.

Theorem C42_canonical_commutator nmax i j : (i <= nmax)%nat -> (j <= nmax)%nat ->
  rprod (nmax + 1) (destruction_operator nmax) (creation_operator nmax) i j -
  rprod (nmax + 1) (creation_operator nmax) (destruction_operator nmax) i j =
  if Nat.eqb i j then (if Nat.eqb i nmax then - INR nmax else 1) else 0.
Proof.
  intros Hi Hj. rewrite C42_number_product, C42_number by assumption.
  assert (E : rprod (nmax + 1) (destruction_operator nmax) (creation_operator nmax) i j =
              if Nat.eqb i j then (if Nat.eqb i nmax then 0 else INR (i + 1)) else 0).
  { unfold rprod. destruct (Nat.eqb_spec i nmax) as [->|Hn].
    - rewrite rsum_zero; [destruct (Nat.eqb nmax j); reflexivity|]. intros k Hk. rewrite C42_destruction by lia.
      destruct (Nat.eqb_spec k (nmax + 1)); [lia|ring].
    - rewrite (rsum_single _ (i + 1)); [|lia|].
      + rewrite C42_creation, !C42_destruction by lia. rewrite Nat.eqb_refl.
        destruct (Nat.eqb_spec (i + 1) (j + 1)), (Nat.eqb_spec i j); try lia; [|ring]. apply sqrt_sqrt. apply pos_INR.
      + intros k Hk Hne. rewrite C42_destruction by lia. destruct (Nat.eqb_spec k (i + 1)); [contradiction|ring]. }
  rewrite E. destruct (Nat.eqb_spec i j); [|ring]. destruct (Nat.eqb_spec i nmax) as [->|]; [ring|].
  rewrite plus_INR. change (INR 1) with 1. ring.
Qed.

(** ** Coherent states *)
Lemma coherent_loop_nth alpha c i n k : (k < n)%nat ->
  nth k (coherent_loop alpha c i n) 0 = c * alpha ^ k * / sqrt (INR (fact (i + k))) * sqrt (INR (fact i)).
Proof.
  revert c i k. induction n as [|n IH]; intros c i k Hk; [lia|]. destruct k as [|k]; cbn [coherent_loop nth].
  - rewrite Nat.add_0_r. cbn [pow]. field. apply Rgt_not_eq, sqrt_lt_R0, INR_fact_lt_0.
  - rewrite IH by lia. replace (i + 1 + k)%nat with (i + S k)%nat by lia. cbn [pow].
    replace (fact (i + 1)) with ((i + 1) * fact i)%nat by (replace (i + 1)%nat with (S i) by lia; reflexivity).
    rewrite mult_INR. rewrite sqrt_mult by apply pos_INR.
    assert (0 < sqrt (INR (i + 1))) by (apply sqrt_lt_R0, lt_0_INR; lia).
    assert (0 < sqrt (INR (fact (i + S k)))) by (apply sqrt_lt_R0, INR_fact_lt_0).
    field. split; lra.
Qed.

(** C58. coherent_state(alpha, nmax) has the elements exp(-alpha^2/2) alpha^n / sqrt(n!) *)
Theorem C58_coherent_elements alpha nmax n : (n <= nmax)%nat ->
  length (coherent_state alpha nmax) = (nmax + 1)%nat /\
  nth n (coherent_state alpha nmax) 0 = exp (- (alpha * alpha) / 2) * alpha ^ n / sqrt (INR (fact n)).
Proof.
  intros Hn. unfold coherent_state. split.
  - generalize (nmax + 1)%nat. intros m. generalize (exp (- alpha * alpha / 2)). generalize 0%nat. induction m as [|m IH]; intros i c; cbn [coherent_loop length]; [reflexivity|]. rewrite IH. reflexivity.
  - rewrite coherent_loop_nth by lia. cbn [Nat.add fact]. change (INR 1) with 1. rewrite sqrt_1. unfold Rdiv at 2.
    rewrite Rmult_1_r. unfold Rdiv. f_equal. f_equal. f_equal. unfold Rdiv. f_equal. ring.
Qed.

(** C58. It is an eigenstate of the destruction operator up to the cutoff *)
Theorem C58_coherent_eigenstate alpha nmax i : (i < nmax)%nat ->
  rsum (nmax + 1) (fun j => @get RS (destruction_operator nmax) [i; j] * nth j (coherent_state alpha nmax) 0) =
  alpha * nth i (coherent_state alpha nmax) 0.
Proof.
  intros Hi. rewrite (rsum_single _ (i + 1)); [|lia|].
  - rewrite C42_destruction by lia. rewrite Nat.eqb_refl.
    destruct (C58_coherent_elements alpha nmax (i + 1) ltac:(lia)) as (_ & ->).
    destruct (C58_coherent_elements alpha nmax i ltac:(lia)) as (_ & ->).
    replace (fact (i + 1)) with ((i + 1) * fact i)%nat by (replace (i + 1)%nat with (S i) by lia; reflexivity).
    rewrite mult_INR, sqrt_mult by apply pos_INR. rewrite pow_add, pow_1.
    assert (0 < sqrt (INR (i + 1))) by (apply sqrt_lt_R0, lt_0_INR; lia).
    assert (0 < sqrt (INR (fact i))) by (apply sqrt_lt_R0, INR_fact_lt_0).
    field. split; lra.
  - intros j Hj Hne. rewrite C42_destruction by lia. destruct (Nat.eqb_spec j (i + 1)); [contradiction|ring].
Qed.

(** C58. Its norm is at most one *)
Theorem C58_coherent_norm alpha nmax :
  rsum (nmax + 1) (fun n => nth n (coherent_state alpha nmax) 0 * nth n (coherent_state alpha nmax) 0) <= 1.
Proof.
  set (x := alpha * alpha).
  assert (E : rsum (nmax + 1) (fun n => nth n (coherent_state alpha nmax) 0 * nth n (coherent_state alpha nmax) 0) =
              exp (- x) * rsum (nmax + 1) (fun n => / INR (fact n) * x ^ n)).
  { rewrite rsum_mul_l. apply rsum_ext. intros n Hn. destruct (C58_coherent_elements alpha nmax n ltac:(lia)) as (_ & ->). fold x.
    replace (exp (- x)) with (exp (- x / 2) * exp (- x / 2)) by (rewrite <- exp_plus; f_equal; field).
    replace (/ INR (fact n)) with (/ sqrt (INR (fact n)) * / sqrt (INR (fact n))).
    2:{ rewrite <- Rinv_mult, sqrt_sqrt by apply pos_INR. reflexivity. }
    replace (x ^ n) with (alpha ^ n * alpha ^ n) by (unfold x; rewrite Rpow_mult_distr; reflexivity). unfold Rdiv. ring. }
  rewrite E.
  assert (B : rsum (nmax + 1) (fun n => / INR (fact n) * x ^ n) <= exp x).
  { replace (rsum (nmax + 1) (fun n => / INR (fact n) * x ^ n)) with (sum_f_R0 (fun n => / INR (fact n) * x ^ n) nmax).
    - apply sum_incr.
      + unfold exp. destruct (exist_exp x) as (l & Hl). cbn [proj1_sig]. unfold exp_in, infinite_sum in Hl. exact Hl.
      + intros n. apply Rmult_le_pos; [left; apply Rinv_0_lt_compat, INR_fact_lt_0|]. apply pow_le. unfold x. nra.
    - clear E. replace (nmax + 1)%nat with (S nmax) by lia. induction nmax as [|m IH]; cbn [sum_f_R0 rsum]; [ring|].
      rewrite IH. cbn [rsum]. reflexivity. }
  assert (P : 0 < exp (- x)) by apply exp_pos.
  assert (M : exp (- x) * exp x = 1) by (rewrite <- exp_plus; replace (- x + x) with 0 by ring; apply exp_0).
  nra.
Qed.

Lemma Cmul_assoc a b c : Cmul a (Cmul b c) = Cmul (Cmul a b) c.
Proof. apply C_ext; cbn; ring. Qed.

Lemma ccoherent_loop_nth alpha c i n k : (k < n)%nat ->
  nth k (ccoherent_loop alpha c i n) (mkC 0 0) =
  Cmul (Cmul c (mkC (/ sqrt (INR (fact (i + k))) * sqrt (INR (fact i))) 0)) (Cpow alpha k).
Proof.
  revert c i k. induction n as [|n IH]; intros c i k Hk; [lia|]. destruct k as [|k]; cbn [ccoherent_loop nth].
  - rewrite Nat.add_0_r. cbn [Cpow]. rewrite Rinv_l by (apply Rgt_not_eq, sqrt_lt_R0, INR_fact_lt_0). apply C_ext; cbn; ring.
  - rewrite IH by lia. replace (i + 1 + k)%nat with (i + S k)%nat by lia. cbn [Cpow].
    replace (fact (i + 1)) with ((i + 1) * fact i)%nat by (replace (i + 1)%nat with (S i) by lia; reflexivity).
    rewrite mult_INR. rewrite sqrt_mult by apply pos_INR.
    assert (0 < sqrt (INR (i + 1))) by (apply sqrt_lt_R0, lt_0_INR; lia).
    set (a := sqrt (INR (i + 1))) in *. set (b := / sqrt (INR (fact (i + S k)))). set (e := sqrt (INR (fact i))).
    assert (E : b * e = / a * (b * (a * e))) by (field; lra).
    rewrite E. set (g := b * (a * e)). set (h := / a). set (p := Cpow alpha k). clearbody g h p. destruct alpha, c, p. apply C_ext; cbn; ring.
Qed.

(** C58. The complex version *)
Theorem C58_complex_coherent alpha nmax n : (n <= nmax)%nat ->
  length (ccoherent_state alpha nmax) = (nmax + 1)%nat /\
  nth n (ccoherent_state alpha nmax) (mkC 0 0) =
  Cmul (mkC (exp (- Cmod2 alpha / 2) / sqrt (INR (fact n))) 0) (Cpow alpha n).
Proof.
  intros Hn. unfold ccoherent_state. cbv zeta. split.
  - generalize (nmax + 1)%nat. intros m. generalize (mkC (exp (- sqrt (Cmod2 alpha) * sqrt (Cmod2 alpha) / 2)) 0). generalize 0%nat.
    induction m as [|m IH]; intros i c; cbn [ccoherent_loop length]; [reflexivity|]. rewrite IH. reflexivity.
  - rewrite ccoherent_loop_nth by lia. cbn [Nat.add fact]. change (INR 1) with 1. rewrite sqrt_1.
    replace (- sqrt (Cmod2 alpha) * sqrt (Cmod2 alpha)) with (- Cmod2 alpha).
    2:{ rewrite <- (sqrt_sqrt (Cmod2 alpha)) at 1; [ring|]. unfold Cmod2. nra. }
    f_equal. apply C_ext; cbn; [|ring]. unfold Rdiv. ring.
Qed.

(** ** Spin operators *)
Lemma sum_C n (f : nat -> Cx) : @sum CS n f = mkC (rsum n (fun k => Cre (f k))) (rsum n (fun k => Cim (f k))).
Proof. induction n as [|n IH]; cbn [sum rsum]; [reflexivity|]. rewrite IH. reflexivity. Qed.

Lemma rsum_lin n f g h a b c : (forall k, (k < n)%nat -> f k = a * g k + b * h k + c) ->
  rsum n f = a * rsum n g + b * rsum n h + INR n * c.
Proof.
  intros H. induction n as [|n IH]; cbn [rsum]; [change (INR 0) with 0; ring|].
  rewrite IH by (intros; apply H; lia). rewrite (H n) by lia. rewrite S_INR. ring.
Qed.

Section Spin.
Variable s : R.
Variable d : nat.
Hypothesis Hd : (0 < d)%nat.
Hypothesis Hs : 2 * s + 1 = INR d.

Definition lad (i : nat) : R := let m := s - INR i in sqrt (s * (s + 1) - (m - 1) * m).
Let P (i j : nat) : R := if Nat.eqb j (i + 1) then lad i else 0.
Let M (i j : nat) : R := if Nat.eqb i (j + 1) then lad j else 0.
Let Z (i j : nat) : R := if Nat.eqb i j then s - INR i else 0.

Lemma lad_sq i : (i < d)%nat -> lad i * lad i = s * (s + 1) - (s - INR i - 1) * (s - INR i).
Proof.
  intros Hi. unfold lad. cbv zeta. apply sqrt_sqrt. apply lt_INR in Hi as H1. apply le_INR in Hi as H2. rewrite S_INR in H2.
  pose proof (pos_INR i). rewrite <- Hs in *. nra.
Qed.

Lemma lad_last : lad (d - 1) = 0.
Proof.
  unfold lad. cbv zeta. rewrite minus_INR by lia. change (INR 1) with 1.
  match goal with |- sqrt ?x = 0 => replace x with 0 end; [apply sqrt_0|]. rewrite <- Hs. ring.
Qed.

Lemma PM_elem i j : (i < d)%nat -> (j < d)%nat -> rsum d (fun k => P i k * M k j) = if Nat.eqb i j then lad i * lad i else 0.
Proof.
  intros Hi Hj. unfold P, M. destruct (Nat.eq_dec i (d - 1)) as [E|E].
  - rewrite rsum_zero.
    + rewrite E, lad_last. destruct (Nat.eqb (d - 1) j); ring.
    + intros k Hk. destruct (Nat.eqb_spec k (i + 1)); [lia|ring].
  - rewrite (rsum_single d (i + 1)); [|lia|].
    + rewrite Nat.eqb_refl. destruct (Nat.eqb_spec (i + 1) (j + 1)), (Nat.eqb_spec i j); try lia; [subst; ring|ring].
    + intros k Hk Hne. destruct (Nat.eqb_spec k (i + 1)); [contradiction|ring].
Qed.

Lemma MP_elem i j : (i < d)%nat -> (j < d)%nat ->
  rsum d (fun k => M i k * P k j) = if Nat.eqb i j then s * (s + 1) - (s - INR i) * (s - INR i + 1) else 0.
Proof.
  intros Hi Hj. unfold P, M. destruct i as [|i].
  - rewrite rsum_zero.
    + change (INR 0) with 0. destruct (Nat.eqb 0 j); ring.
    + intros k Hk. destruct (Nat.eqb_spec 0 (k + 1)); [lia|ring].
  - rewrite (rsum_single d i); [|lia|].
    + destruct (Nat.eqb_spec (S i) (i + 1)); [|lia]. destruct (Nat.eqb_spec j (i + 1)), (Nat.eqb_spec (S i) j); try lia; [|ring].
      rewrite lad_sq by lia. rewrite S_INR. ring.
    + intros k Hk Hne. destruct (Nat.eqb_spec (S i) (k + 1)); [lia|ring].
Qed.

Lemma XZ_elem A i j : (i < d)%nat -> (j < d)%nat -> rsum d (fun k => A i k * Z k j) = A i j * (s - INR j).
Proof.
  intros Hi Hj. unfold Z. rewrite (rsum_single d j); [rewrite Nat.eqb_refl; reflexivity|exact Hj|].
  intros k Hk Hne. destruct (Nat.eqb_spec k j); [contradiction|ring].
Qed.
Lemma ZX_elem A i j : (i < d)%nat -> (j < d)%nat -> rsum d (fun k => Z i k * A k j) = (s - INR i) * A i j.
Proof.
  intros Hi Hj. unfold Z. rewrite (rsum_single d i); [rewrite Nat.eqb_refl; reflexivity|exact Hi|].
  intros k Hk Hne. destruct (Nat.eqb_spec i k); [congruence|ring].
Qed.

Lemma shift_P i j : P i j * (s - INR j) = (s - INR i) * P i j - P i j.
Proof. unfold P. destruct (Nat.eqb_spec j (i + 1)) as [->|]; [rewrite plus_INR; change (INR 1) with 1; ring|ring]. Qed.
Lemma shift_M i j : M i j * (s - INR j) = (s - INR i) * M i j + M i j.
Proof. unfold M. destruct (Nat.eqb_spec i (j + 1)) as [->|]; [rewrite plus_INR; change (INR 1) with 1; ring|ring]. Qed.

Let sx := cmatrix d (fun i j => mkC (1 / 2 * (P i j + M i j)) 0).
Let sy := cmatrix d (fun i j => Cmul (mkC 0 (1 / 2)) (mkC (M i j - P i j) 0)).
Let sz := cmatrix d (fun i j => mkC (Z i j) 0).

Lemma get_cmatrix f i j : (i < d)%nat -> (j < d)%nat -> @get CS (cmatrix d f) [i; j] = f i j.
Proof. intros Hi Hj. unfold cmatrix. rewrite (@get_mk CS) by (apply in_range_2; assumption). reflexivity. Qed.

Lemma cprod_c f g i j : (i < d)%nat -> (j < d)%nat ->
  cprod d (cmatrix d f) (cmatrix d g) i j = mkC (rsum d (fun k => Cre (Cmul (f i k) (g k j)))) (rsum d (fun k => Cim (Cmul (f i k) (g k j)))).
Proof.
  intros Hi Hj. unfold cprod. rewrite sum_C. apply C_ext; cbn [Cre Cim]; apply rsum_ext; intros k Hk;
    rewrite !get_cmatrix by assumption; reflexivity.
Qed.

Lemma rsum4 f a b c e n : (forall k, (k < n)%nat -> f k = a k + b k + c k + e k) ->
  rsum n f = rsum n a + rsum n b + rsum n c + rsum n e.
Proof. intros H. rewrite (rsum_ext n f (fun k => a k + b k + c k + e k)) by exact H. rewrite !rsum_add. reflexivity. Qed.

Lemma comm_xy : commutator d sx sy sz.
Proof.
  intros i j Hi Hj. unfold sx, sy, sz. rewrite !cprod_c, get_cmatrix by assumption.
  assert (E1 : rsum d (fun k => Cim (Cmul (mkC (1 / 2 * (P i k + M i k)) 0) (Cmul (mkC 0 (1 / 2)) (mkC (M k j - P k j) 0)))) =
     / 4 * (rsum d (fun k => P i k * M k j) - rsum d (fun k => P i k * P k j) + rsum d (fun k => M i k * M k j) - rsum d (fun k => M i k * P k j))).
  { rewrite (rsum4 _ (fun k => / 4 * (P i k * M k j)) (fun k => - / 4 * (P i k * P k j)) (fun k => / 4 * (M i k * M k j)) (fun k => - / 4 * (M i k * P k j))).
    - rewrite <- !rsum_mul_l. ring.
    - intros k Hk. cbn. field. }
  assert (E2 : rsum d (fun k => Cim (Cmul (Cmul (mkC 0 (1 / 2)) (mkC (M i k - P i k) 0)) (mkC (1 / 2 * (P k j + M k j)) 0))) =
     / 4 * (rsum d (fun k => M i k * P k j) + rsum d (fun k => M i k * M k j) - rsum d (fun k => P i k * P k j) - rsum d (fun k => P i k * M k j))).
  { rewrite (rsum4 _ (fun k => / 4 * (M i k * P k j)) (fun k => / 4 * (M i k * M k j)) (fun k => - / 4 * (P i k * P k j)) (fun k => - / 4 * (P i k * M k j))).
    - rewrite <- !rsum_mul_l. ring.
    - intros k Hk. cbn. field. }
  cbv beta. rewrite E1, E2. clear E1 E2.
  apply C_ext; unfold Csub; cbn [Cre Cim Cmul].
  - rewrite !rsum_zero; [unfold Z; ring| |]; intros k Hk; cbn; ring.
  - rewrite PM_elem, MP_elem by assumption. unfold Z. destruct (Nat.eqb_spec i j); [|field].
    rewrite lad_sq by exact Hi. field.
Qed.

Lemma comm_yz : commutator d sy sz sx.
Proof.
  intros i j Hi Hj. unfold sx, sy, sz. rewrite !cprod_c, get_cmatrix by assumption.
  assert (E1 : rsum d (fun k => Cim (Cmul (Cmul (mkC 0 (1 / 2)) (mkC (M i k - P i k) 0)) (mkC (Z k j) 0))) =
     / 2 * (M i j * (s - INR j)) - / 2 * (P i j * (s - INR j))).
  { rewrite (rsum4 _ (fun k => / 2 * (M i k * Z k j)) (fun k => - / 2 * (P i k * Z k j)) (fun _ => 0) (fun _ => 0)).
    - rewrite <- !rsum_mul_l, !XZ_elem by assumption. rewrite !(rsum_zero d (fun _ => 0)) by reflexivity. ring.
    - intros k Hk. cbn. field. }
  assert (E2 : rsum d (fun k => Cim (Cmul (mkC (Z i k) 0) (Cmul (mkC 0 (1 / 2)) (mkC (M k j - P k j) 0)))) =
     / 2 * ((s - INR i) * M i j) - / 2 * ((s - INR i) * P i j)).
  { rewrite (rsum4 _ (fun k => / 2 * (Z i k * M k j)) (fun k => - / 2 * (Z i k * P k j)) (fun _ => 0) (fun _ => 0)).
    - rewrite <- !rsum_mul_l, !ZX_elem by assumption. rewrite !(rsum_zero d (fun _ => 0)) by reflexivity. ring.
    - intros k Hk. cbn. field. }
  cbv beta. rewrite E1, E2. clear E1 E2.
  apply C_ext; unfold Csub; cbn [Cre Cim Cmul].
  - rewrite !rsum_zero; [ring| |]; intros k Hk; cbn; ring.
  - rewrite shift_P, shift_M. field.
Qed.

Lemma comm_zx : commutator d sz sx sy.
Proof.
  intros i j Hi Hj. unfold sx, sy, sz. rewrite !cprod_c, get_cmatrix by assumption.
  assert (E1 : rsum d (fun k => Cre (Cmul (mkC (1 / 2 * (P i k + M i k)) 0) (mkC (Z k j) 0))) =
     / 2 * (M i j * (s - INR j)) + / 2 * (P i j * (s - INR j))).
  { rewrite (rsum4 _ (fun k => / 2 * (M i k * Z k j)) (fun k => / 2 * (P i k * Z k j)) (fun _ => 0) (fun _ => 0)).
    - rewrite <- !rsum_mul_l, !XZ_elem by assumption. rewrite !(rsum_zero d (fun _ => 0)) by reflexivity. ring.
    - intros k Hk. cbn. field. }
  assert (E2 : rsum d (fun k => Cre (Cmul (mkC (Z i k) 0) (mkC (1 / 2 * (P k j + M k j)) 0))) =
     / 2 * ((s - INR i) * M i j) + / 2 * ((s - INR i) * P i j)).
  { rewrite (rsum4 _ (fun k => / 2 * (Z i k * M k j)) (fun k => / 2 * (Z i k * P k j)) (fun _ => 0) (fun _ => 0)).
    - rewrite <- !rsum_mul_l, !ZX_elem by assumption. rewrite !(rsum_zero d (fun _ => 0)) by reflexivity. ring.
    - intros k Hk. cbn. field. }
  cbv beta. rewrite E1, E2. clear E1 E2.
  apply C_ext; unfold Csub; cbn [Cre Cim Cmul].
  - rewrite shift_P, shift_M. field.
  - rewrite !rsum_zero; [ring| |]; intros k Hk; cbn; ring.
Qed.

Lemma total_spin i j : (i < d)%nat -> (j < d)%nat ->
  Cadd (Cadd (cprod d sx sx i j) (cprod d sy sy i j)) (cprod d sz sz i j) = mkC (s * (s + 1) * kron_delta i j) 0.
Proof.
  intros Hi Hj. unfold sx, sy, sz. rewrite !cprod_c by assumption.
  assert (E1 : rsum d (fun k => Cre (Cmul (mkC (1 / 2 * (P i k + M i k)) 0) (mkC (1 / 2 * (P k j + M k j)) 0))) =
     / 4 * (rsum d (fun k => P i k * P k j) + rsum d (fun k => P i k * M k j) + rsum d (fun k => M i k * P k j) + rsum d (fun k => M i k * M k j))).
  { rewrite (rsum4 _ (fun k => / 4 * (P i k * P k j)) (fun k => / 4 * (P i k * M k j)) (fun k => / 4 * (M i k * P k j)) (fun k => / 4 * (M i k * M k j))).
    - rewrite <- !rsum_mul_l. ring.
    - intros k Hk. cbn. field. }
  assert (E2 : rsum d (fun k => Cre (Cmul (Cmul (mkC 0 (1 / 2)) (mkC (M i k - P i k) 0)) (Cmul (mkC 0 (1 / 2)) (mkC (M k j - P k j) 0)))) =
     / 4 * (- rsum d (fun k => P i k * P k j) + rsum d (fun k => P i k * M k j) + rsum d (fun k => M i k * P k j) - rsum d (fun k => M i k * M k j))).
  { rewrite (rsum4 _ (fun k => - / 4 * (P i k * P k j)) (fun k => / 4 * (P i k * M k j)) (fun k => / 4 * (M i k * P k j)) (fun k => - / 4 * (M i k * M k j))).
    - rewrite <- !rsum_mul_l. ring.
    - intros k Hk. cbn. field. }
  assert (E3 : rsum d (fun k => Cre (Cmul (mkC (Z i k) 0) (mkC (Z k j) 0))) = Z i j * (s - INR j)).
  { rewrite <- (XZ_elem Z) by assumption. apply rsum_ext. intros k Hk. cbn. ring. }
  cbv beta. rewrite E1, E2, E3. clear E1 E2 E3. unfold Cadd. apply C_ext; cbn [Cre Cim].
  - rewrite PM_elem, MP_elem by assumption. unfold Z, kron_delta. destruct (Nat.eqb_spec i j) as [->|]; [|field].
    rewrite lad_sq by exact Hi. field.
  - rewrite !rsum_zero; [ring| | |]; intros k Hk; cbn; ring.
Qed.

Lemma herm_all : hermitian d sx /\ hermitian d sy /\ hermitian d sz.
Proof.
  assert (PMt : forall i j, M i j = P j i) by reflexivity.
  repeat split; intros i j Hi Hj; unfold sx, sy, sz; rewrite !get_cmatrix by assumption; apply C_ext; cbn; rewrite ?PMt;
    try (unfold P; ring); try (unfold P; field); unfold Z; destruct (Nat.eqb_spec i j), (Nat.eqb_spec j i); try congruence; subst; ring.
Qed.

End Spin.

Lemma mk_ext {SC : Scalar} ds f g : (forall is, in_range ds is -> f is = g is) -> mk ds f = mk ds g.
Proof.
  intros H. unfold mk. f_equal. apply map_ext_in. intros o Ho. apply in_seq in Ho. apply H. apply unravel_in_range. lia.
Qed.

Lemma cmatrix_ext d f g : (forall i j, (i < d)%nat -> (j < d)%nat -> f i j = g i j) -> cmatrix d f = cmatrix d g.
Proof.
  intros H. unfold cmatrix. apply mk_ext. intros is Hi. apply in_range_cons_inv in Hi. destruct Hi as (i & l & -> & Hi & Hl).
  apply in_range_cons_inv in Hl. destruct Hl as (j & l' & -> & Hj & _). cbn [nth]. apply H; assumption.
Qed.

Lemma nth_lad s d i : (i < d - 1)%nat ->
  nth i (map (fun i => let m := (s - INR i)%R in sqrt (s * (s + 1) - (m - 1) * m)) (seq 0 (d - 1))) 0 = lad s i.
Proof. intros H. rewrite nth_map_seq by exact H. reflexivity. Qed.

(** C42. spin_operators(s) for every half-integer spin it accepts: Hermitian matrices of dimension 2s+1
    with [sx,sy] = i sz and cyclic, sx^2 + sy^2 + sz^2 = s(s+1), and sz diagonal with s, s-1, ..., -s. *)
Theorem C42_spin s n : 2 * s = INR n -> 1 / 2 <= s <= 3 ->
  let d := (n + 1)%nat in
  exists sx sy sz, spin_operators s = Ok (sx, sy, sz) /\
    is_matrix sx d d /\ is_matrix sy d d /\ is_matrix sz d d /\
    hermitian d sx /\ hermitian d sy /\ hermitian d sz /\
    commutator d sx sy sz /\ commutator d sy sz sx /\ commutator d sz sx sy /\
    (forall i j, (i < d)%nat -> (j < d)%nat ->
      Cadd (Cadd (cprod d sx sx i j) (cprod d sy sy i j)) (cprod d sz sz i j) = mkC (s * (s + 1) * kron_delta i j) 0) /\
    (forall i j, (i < d)%nat -> (j < d)%nat -> @get CS sz [i; j] = mkC ((s - INR i) * kron_delta i j) 0).
Proof.
  intros Hn (Hs1 & Hs2) d.
  assert (Hd : 2 * s + 1 = INR d) by (unfold d; rewrite plus_INR, Hn; reflexivity).
  unfold spin_operators. destruct (Rlt_dec s (1 / 2)); [lra|]. destruct (Rlt_dec 3 s); [lra|]. cbv zeta.
  rewrite Hd, Int_part_INR, Nat2Z.id.
  set (P := fun i j => if Nat.eqb j (i + 1) then lad s i else 0).
  set (M := fun i j => if Nat.eqb i (j + 1) then lad s j else 0).
  set (Z := fun i j => if Nat.eqb i j then s - INR i else 0).
  exists (cmatrix d (fun i j => mkC (1 / 2 * (P i j + M i j)) 0)),
         (cmatrix d (fun i j => Cmul (mkC 0 (1 / 2)) (mkC (M i j - P i j) 0))), (cmatrix d (fun i j => mkC (Z i j) 0)).
  assert (Hup : forall i j, (i < d)%nat -> (j < d)%nat ->
    diag_up d (map (fun i => sqrt (s * (s + 1) - (s - INR i - 1) * (s - INR i))) (seq 0 (d - 1))) i j = P i j).
  { intros i j Hi Hj. unfold diag_up, P. destruct (Nat.eqb_spec j (i + 1)); [|reflexivity]. apply (nth_lad s d i). lia. }
  assert (Hdn : forall i j, (i < d)%nat -> (j < d)%nat ->
    diag_down d (map (fun i => sqrt (s * (s + 1) - (s - INR i - 1) * (s - INR i))) (seq 0 (d - 1))) i j = M i j).
  { intros i j Hi Hj. unfold diag_down, M. destruct (Nat.eqb_spec i (j + 1)); [|reflexivity]. apply (nth_lad s d j). lia. }
  split.
  { f_equal. f_equal; [f_equal|]; apply cmatrix_ext; intros i j Hi Hj.
    - rewrite Hup, Hdn by assumption. reflexivity.
    - rewrite Hup, Hdn by assumption. reflexivity.
    - unfold diag0, Z. destruct (Nat.eqb_spec i j); [|reflexivity]. rewrite nth_map_seq by exact Hi. reflexivity. }
  do 3 (split; [split; [reflexivity|apply wf_mk]|]).
  destruct (herm_all s d) as (A1 & A2 & A3).
  do 3 (split; [assumption|]). assert (Hp : (0 < d)%nat) by (unfold d; lia).
  split; [exact (comm_xy s d Hp Hd)|]. split; [exact (comm_yz s d)|]. split; [exact (comm_zx s d)|].
  split; [exact (total_spin s d Hp Hd)|].
  intros i j Hi Hj. rewrite (get_cmatrix d) by assumption. apply C_ext; cbn [Cre Cim]; [|reflexivity].
  unfold Z, kron_delta. destruct (Nat.eqb i j); ring.
Qed.

(** C42. Other values between 1/2 and 3 are accepted too, but then [sx,sy] = i sz does not hold. *)
Theorem C42_spin_other s : 1 / 2 <= s <= 3 -> (forall n, 2 * s <> INR n) ->
  exists d sx sy sz, spin_operators s = Ok (sx, sy, sz) /\ is_matrix sx d d /\ is_matrix sy d d /\ is_matrix sz d d /\
    (0 < d)%nat /\ ~ commutator d sx sy sz.
Proof.
  intros (Hs1 & Hs2) Hn. unfold spin_operators. destruct (Rlt_dec s (1 / 2)); [lra|]. destruct (Rlt_dec 3 s); [lra|].
  set (d := Z.to_nat (Int_part (2 * s + 1))). cbv zeta. fold d.
  match goal with |- exists _ _ _ _, Ok (?a, ?b, ?c) = _ /\ _ => exists d, a, b, c end.
  split; [reflexivity|]. do 3 (split; [split; [reflexivity|apply wf_mk]|]).
  assert (Hd : (0 < d)%nat).
  { unfold d. destruct (base_Int_part (2 * s + 1)) as (B1 & B2).
    assert (0 < Int_part (2 * s + 1))%Z; [|lia]. apply lt_IZR. lra. }
  split; [exact Hd|]. intros HC.
  match type of HC with commutator d (cmatrix d ?f) (cmatrix d ?g) (cmatrix d ?h) => set (F := f) in *; set (G := g) in *; set (H := h) in * end.
  assert (T : forall A B : nat -> nat -> Cx, rsum d (fun i => Cim (cprod d (cmatrix d A) (cmatrix d B) i i)) =
                      rsum d (fun i => rsum d (fun k => Cim (Cmul (A i k) (B k i))))).
  { intros A B. apply rsum_ext. intros i Hi. rewrite (cprod_c d) by assumption. reflexivity. }
  assert (Sw : forall n m (f : nat -> nat -> R), rsum n (fun i => rsum m (fun j => f i j)) = rsum m (fun j => rsum n (fun i => f i j))).
  { intros n1 m f. induction n1 as [|n' IH]; cbn [rsum]; [symmetry; apply rsum_zero; reflexivity|]. rewrite IH, <- rsum_add. reflexivity. }
  assert (E0 : rsum d (fun i => Cim (Csub (cprod d (cmatrix d F) (cmatrix d G) i i) (cprod d (cmatrix d G) (cmatrix d F) i i))) = 0).
  { rewrite (rsum_lin d _ (fun i => Cim (cprod d (cmatrix d F) (cmatrix d G) i i)) (fun i => Cim (cprod d (cmatrix d G) (cmatrix d F) i i)) 1 (-1) 0).
    2:{ intros k Hk. cbn [Csub Cim]. ring. }
    rewrite !T. rewrite (Sw d d (fun i k => Cim (Cmul (G i k) (F k i)))).
    assert (E : rsum d (fun i => rsum d (fun k => Cim (Cmul (F i k) (G k i)))) = rsum d (fun j => rsum d (fun i => Cim (Cmul (G i j) (F j i))))).
    { apply rsum_ext. intros i Hi. apply rsum_ext. intros k Hk. cbn [Cmul Cim]. ring. }
    rewrite E. ring. }
  assert (E1 : rsum d (fun i => Cim (Csub (cprod d (cmatrix d F) (cmatrix d G) i i) (cprod d (cmatrix d G) (cmatrix d F) i i))) =
               rsum d (fun i => s - INR i)).
  { apply rsum_ext. intros i Hi. rewrite (HC i i Hi Hi). rewrite (get_cmatrix d) by assumption. unfold H. cbn [Cmul Cim Cre].
    unfold diag0. rewrite Nat.eqb_refl. rewrite nth_map_seq by exact Hi. cbn [Nat.add]. ring. }
  assert (E2 : forall m, rsum m (fun i => s - INR i) * 2 = INR m * (2 * s + 1 - INR m)).
  { induction m as [|m IH]; cbn [rsum]; [change (INR 0) with 0; ring|]. rewrite Rmult_plus_distr_r, IH, S_INR. ring. }
  specialize (E2 d). rewrite <- E1, E0 in E2.
  assert (HdR : 0 < INR d) by (apply lt_0_INR; exact Hd).
  assert (E3 : 2 * s + 1 - INR d = 0) by (apply Rmult_eq_reg_l with (INR d); lra).
  apply (Hn (d - 1)%nat). rewrite minus_INR by lia. change (INR 1) with 1. lra.
Qed.

(** C42. Spins outside that range are rejected. *)
Theorem C42_spin_rejected s : s < 1 / 2 \/ 3 < s -> spin_operators s = Abort.
Proof.
  intros H. unfold spin_operators. destruct (Rlt_dec s (1 / 2)); [reflexivity|]. destruct (Rlt_dec 3 s); [reflexivity|lra].
Qed.

(** ** The hypotheses are met: spin 1/2, spin 1, spin 5/2 and a spin that is no half-integer *)
Example C42_case : 2 * (1 / 2) = INR 1 /\ 2 * 1 = INR 2 /\ 2 * (5 / 2) = INR 5 /\ 1 / 2 <= 5 / 2 <= 3 /\
  1 / 2 <= 3 / 4 <= 3 /\ (forall n, 2 * (3 / 4) <> INR n).
Proof.
  repeat split; try (cbn; lra). intros n H. rewrite INR_IZR_INZ in H.
  assert (E : (3 = 2 * Z.of_nat n)%Z) by (apply eq_IZR; rewrite mult_IZR; lra). lia.
Qed.
