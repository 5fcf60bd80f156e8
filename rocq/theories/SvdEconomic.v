(** * Economic singular value decompositions exist: the hypotheses about svd of mps::simplify can be met *)
From Coq Require Import Reals Lra Bool List Arith Lia Classical ClassicalEpsilon.
From Verif Require Import Scalar ScalarFacts RScal Tensor TensorFacts Spec CanonSpec SvdExist SimplifySpec.
Import ListNotations.
Local Open Scope K_scope.

Section Economic.
Context {RS : RScal}.
Add Ring Kring : k_ring.

Lemma complete n k v : orthonormal n k v -> (k < n)%nat ->
  exists w, vsq n w = 1%R /\ forall x, (x < k)%nat -> sum n (fun i => kconj (v x i) * w i) = 0.
Proof.
  intros Hv Hk. set (r := fun j i => delta i j - sum k (fun x => kconj (v x j) * v x i)).
  assert (Horth : forall j y, (j < n)%nat -> (y < k)%nat -> sum n (fun i => kconj (v y i) * r j i) = 0).
  { intros j y Hj Hy. unfold r.
    rewrite (sum_ext n _ (fun i => kconj (v y i) * delta i j - sum k (fun x => kconj (v x j) * (kconj (v y i) * v x i)))).
    2:{ intros i _. transitivity (kconj (v y i) * delta i j - kconj (v y i) * sum k (fun x => kconj (v x j) * v x i)); [ring|].
        f_equal. rewrite sum_mul_l. apply sum_ext. intros x _. ring. }
    rewrite sum_sub, sum_delta_r by exact Hj. rewrite sum_swap.
    rewrite (sum_ext k _ (fun x => kconj (v x j) * delta y x)).
    2:{ intros x Hx. rewrite <- sum_mul_l. rewrite (Hv y x Hy Hx). reflexivity. }
    rewrite sum_delta_r' by exact Hy. ring. }
  destruct (classic (exists j i, (j < n)%nat /\ (i < n)%nat /\ r j i <> 0)) as [(j & i & Hj & Hi & Hne)|N].
  - pose proof (vsq_pos n (r j) i Hi Hne) as Hp. exists (fun i => rinj (/ sqrt (vsq n (r j)))%R * r j i). split.
    + rewrite vsq_scale. rewrite <- Rinv_mult, sqrt_sqrt by lra. apply Rinv_l. lra.
    + intros x Hx. rewrite (sum_ext n _ (fun i => rinj (/ sqrt (vsq n (r j)))%R * (kconj (v x i) * r j i))) by (intros; ring).
      rewrite <- sum_mul_l, Horth by assumption. ring.
  - exfalso. assert (Hw : orthonormal k n (fun j x => v x j)).
    { intros j i Hj Hi. cbv beta. assert (E : r j i = 0) by (destruct (keqb_spec (r j i) 0) as [E|E]; [exact E|destruct N; exists j, i; auto]). unfold r in E.
      transitivity (delta i j - (delta i j - sum k (fun x => kconj (v x j) * v x i))); [ring|]. rewrite E. unfold delta. rewrite Nat.eqb_sym. ring. }
    pose proof (orthonormal_bound k n _ Hw). lia.
Qed.

Lemma extend n k v m : orthonormal n k v -> (k <= m <= n)%nat -> exists v', orthonormal n m v' /\ forall x i, (x < k)%nat -> v' x i = v x i.
Proof.
  intros Hv. induction m as [|m IH]; intros Hm.
  - exists v. assert (k = 0%nat) as -> by lia. auto.
  - destruct (Nat.eq_dec k (S m)) as [<-|Hk]; [exists v; auto|]. destruct IH as (v' & H1 & H2); [lia|].
    destruct (complete n m v' H1 ltac:(lia)) as (w & W1 & W2). exists (fun x => if Nat.eqb x m then w else v' x). split; [apply orthonormal_ext; assumption|].
    intros x i Hx. destruct (Nat.eqb_spec x m) as [|_]; [lia|apply H2; exact Hx].
Qed.

Lemma economic_exists m n A : is_matrix A m n -> (0 < m)%nat -> (0 < n)%nat -> exists U s V, is_svd m n A U s V /\ length s = Nat.min m n.
Proof.
  intros HA Hm Hn. destruct (svd_exists m n A HA Hm Hn) as (U & s & V & H0 & Hl & HU & HV & Hp & Hdec & OU & OV & HE).
  set (l := length s) in *. set (q := Nat.min m n) in *.
  destruct (extend m l (fun x i => get U [i; x]) q) as (u & u1 & u2); [exact OU|lia|].
  destruct (extend n l (fun x j => kconj (get V [x; j])) q) as (v & v1 & v2).
  { intros x y Hx Hy. rewrite <- (OV x y Hx Hy). apply sum_ext. intros j _. rewrite kconj_inv. reflexivity. }
  { lia. }
  exists (mk [m; q] (fun i => u (nth 1 i 0%nat) (nth 0 i 0%nat))), (s ++ repeat 0%R (q - l)), (mk [q; n] (fun i => kconj (v (nth 0 i 0%nat) (nth 1 i 0%nat)))).
  assert (Hlen : length (s ++ repeat 0%R (q - l)) = q) by (rewrite app_length, repeat_length; fold l; lia).
  split; [|exact Hlen]. unfold is_svd. rewrite Hlen.
  assert (Hs : forall x, (x < l)%nat -> nth x (s ++ repeat 0%R (q - l)) 0%R = nth x s 0%R) by (intros x Hx; apply app_nth1; exact Hx).
  assert (Hz : forall x, (l <= x)%nat -> nth x (s ++ repeat 0%R (q - l)) 0%R = 0%R) by (intros x Hx; rewrite app_nth2 by exact Hx; apply nth_repeat).
  assert (Hmat : forall a b f, is_matrix (mk [a; b] f) a b) by (intros; split; [reflexivity|apply wf_mk]).
  split; [lia|]. split; [lia|]. split; [apply Hmat|]. split; [apply Hmat|]. split; [|split; [|split; [|split]]].
  - intros x Hx. destruct (Nat.lt_ge_cases x l); [rewrite Hs by assumption; apply Hp; assumption|rewrite Hz by assumption; lra].
  - intros x y Hxy Hy. destruct (Nat.lt_ge_cases y l); [rewrite !Hs by lia; apply Hdec; assumption|]. rewrite (Hz y) by assumption.
    destruct (Nat.lt_ge_cases x l); [rewrite Hs by assumption; apply Hp; assumption|rewrite Hz by assumption; lra].
  - intros x y Hx Hy. rewrite <- (u1 x y Hx Hy). apply sum_ext. intros i Hi. rewrite !get_mk by (apply in_range_2; lia). reflexivity.
  - intros x y Hx Hy. rewrite <- (v1 x y Hx Hy). apply sum_ext. intros i Hi. rewrite !get_mk by (apply in_range_2; lia). cbn [nth]. rewrite kconj_inv. reflexivity.
  - intros i j Hi Hj. rewrite (HE i j Hi Hj). replace q with (l + (q - l))%nat by lia. rewrite sum_plus.
    rewrite (sum_zero (q - l)).
    + transitivity (sum l (fun k => get U [i; k] * rinj (nth k s 0%R) * get V [k; j]) + 0); [ring|]. f_equal. apply sum_ext. intros x Hx.
      replace (l + (q - l))%nat with q by lia. rewrite !get_mk by (apply in_range_2; lia). cbn [nth]. rewrite Hs by exact Hx. rewrite u2, v2, kconj_inv by exact Hx. reflexivity.
    + intros x Hx. replace (l + (q - l))%nat with q by lia. rewrite (Hz (l + x)%nat) by lia. rewrite rinj_0. ring.
Qed.

Theorem svd_economic_satisfiable : exists svd, svd_contract svd /\ svd_economic svd.
Proof.
  assert (H : forall A : tensor, exists r : tensor * list R * tensor, forall m n, is_matrix A m n -> (0 < m)%nat -> (0 < n)%nat ->
     let '(U, s, V) := r in is_svd m n A U s V /\ length s = Nat.min m n).
  { intros A. destruct (classic (exists m n, is_matrix A m n /\ (0 < m)%nat /\ (0 < n)%nat)) as [(m & n & HA & Hm & Hn)|N].
    - destruct (economic_exists m n A HA Hm Hn) as (U & s & V & H). exists (U, s, V). intros m' n' (HA' & _) _ _.
      destruct HA as (HA & _). rewrite HA in HA'. injection HA' as <- <-. exact H.
    - exists (A, [], A). intros m n H1 H2 H3. destruct N. exists m, n. auto. }
  exists (fun A => proj1_sig (constructive_indefinite_description _ (H A))).
  split; intros m n A HA Hm Hn; destruct (constructive_indefinite_description _ (H A)) as (r & Hr); cbn [proj1_sig]; specialize (Hr m n HA Hm Hn);
    destruct r as [[U s] V]; apply Hr.
Qed.
End Economic.
