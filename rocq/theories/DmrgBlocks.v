(** * The matrices that class DMRG keeps, and the matrix of the one-site problem *)
From Coq Require Import Reals Lra Bool List Arith ZArith Lia Ring Setoid.
From Verif Require Import Scalar ScalarFacts RScal Tensor TensorFacts Spec MpsModel MpsFacts ExpectedFacts CanonSpec CanonModel CanonProps SimplifySpec SimplifyFacts SimplifyStep QFormFacts SparseFacts
  HamSpec HamModel HamFacts HamConst TrotterRun DmrgModel DmrgSplit.
Import ListNotations.
Local Open Scope K_scope.

Section TensorLemmas.
Context {RS : RScal}.
Add Ring KringB : k_ring.

Lemma is_matrix_eye n : is_matrix (eye n) n n.
Proof. split; [reflexivity|apply wf_mk]. Qed.
Lemma mat_eye n i j : (i < n)%nat -> (j < n)%nat -> mat (eye n) i j = delta i j.
Proof. apply get_eye. Qed.
Lemma is_matrix_zeros n : is_matrix (zeros [n; n]) n n.
Proof. split; [reflexivity|apply wf_mk]. Qed.
Lemma mat_zeros n i j : (i < n)%nat -> (j < n)%nat -> mat (zeros [n; n]) i j = 0.
Proof. intros Hi Hj. apply get_zeros. apply in_range_2; assumption. Qed.
Lemma mat_tadd A B m n i j : is_matrix A m n -> is_matrix B m n -> (i < m)%nat -> (j < n)%nat -> mat (tadd A B) i j = mat A i j + mat B i j.
Proof. intros (A1 & A2) (B1 & B2) Hi Hj. unfold mat. apply get_tadd; [exact A2|exact B2|congruence|]. rewrite A1. apply in_range_2; assumption. Qed.
Lemma mat_kron2 A B d e i1 i2 j1 j2 : is_matrix A d d -> is_matrix B e e ->
  (i1 < d)%nat -> (i2 < e)%nat -> (j1 < d)%nat -> (j2 < e)%nat ->
  mat (kron2 A B) (i1 + d * i2) (j1 + d * j2) = mat A i1 j1 * mat B i2 j2.
Proof. intros HA HB H1 H2 H3 H4. unfold mat at 1. apply (get_kron2 A B d e); assumption. Qed.

Lemma ensure_id A n : is_matrix A n n -> (forall i j, (i < n)%nat -> (j < n)%nat -> mat A i j = kconj (mat A j i)) -> ensure_Hermitian A = A.
Proof.
  intros (A1 & A2) Hh. unfold ensure_Hermitian.
  assert (D1 : dims (adjoint A) = dims A) by (unfold adjoint, tconj; cbn [dims]; rewrite (dims_transpose A n n A1); symmetry; exact A1).
  assert (W1 : wf (adjoint A)) by (unfold wf, adjoint, tconj; cbn [dims data]; rewrite map_length; apply wf_mk).
  assert (D2 : dims (tadd A (adjoint A)) = dims A) by reflexivity.
  assert (W2 : wf (tadd A (adjoint A))) by (apply wf_tadd; congruence).
  apply tensor_ext; [apply wf_tscale; exact W2|exact A2|reflexivity|].
  intros u Hu. change (dims (tscale (rinj (/ 2)%R) (tadd A (adjoint A)))) with (dims A) in Hu.
  rewrite get_tscale by (try exact W2; rewrite D2; exact Hu). rewrite get_tadd by (try assumption; symmetry; assumption).
  rewrite A1 in Hu. apply in_range_inv2 in Hu. destruct Hu as (i & j & -> & Hi & Hj).
  unfold adjoint. rewrite get_tconj, (get_transpose A n n) by assumption. change (get A [j; i]) with (mat A j i). rewrite <- Hh by assumption.
  change (get A [i; j]) with (mat A i j).
  transitivity ((rinj (/ 2)%R * (1 + 1)) * mat A i j); [ring|]. rewrite <- rinj_1, <- rinj_add, <- rinj_mul.
  replace (/ 2 * (1 + 1))%R with 1%R by lra. rewrite rinj_1. ring.
Qed.

Lemma fold_kron d e (f g : nat -> tensor) X n : is_matrix X (d * e) (d * e) ->
  (forall m, (m < n)%nat -> is_matrix (f m) d d /\ is_matrix (g m) e e) ->
  let Y := fold_left (fun Z m => tadd Z (kron2 (f m) (g m))) (seq 0 n) X in
  is_matrix Y (d * e) (d * e) /\
  forall i1 i2 j1 j2, (i1 < d)%nat -> (i2 < e)%nat -> (j1 < d)%nat -> (j2 < e)%nat ->
    mat Y (i1 + d * i2) (j1 + d * j2) = mat X (i1 + d * i2) (j1 + d * j2) + sum n (fun m => mat (f m) i1 j1 * mat (g m) i2 j2).
Proof.
  intros HX. induction n as [|n IH]; intros Hm; cbv zeta.
  - cbn [seq fold_left sum]. split; [exact HX|]. intros. ring.
  - rewrite seq_S, fold_left_app. cbn [fold_left Nat.add]. destruct IH as (Y1 & Y2); [intros; apply Hm; lia|].
    destruct (Hm n ltac:(lia)) as (F & G). pose proof (is_matrix_kron2 _ _ _ _ F G) as HK.
    split; [apply is_matrix_tadd; assumption|]. intros i1 i2 j1 j2 H1 H2 H3 H4.
    rewrite (mat_tadd _ _ (d * e) (d * e)) by (try assumption; nia). rewrite Y2, (mat_kron2 _ _ d e) by assumption. cbn [sum]. ring.
Qed.

Lemma contract_right A B a a' d b : dims A = [a; d; b] -> dims B = [a'; d; b] ->
  let M := foldc (reshape A [a; d * b]%nat) 1 (reshape B [a'; d * b]%nat) 1 in
  is_matrix M a a' /\ forall x x', (x < a)%nat -> (x' < a')%nat ->
    mat M x x' = sum b (fun z => sum d (fun j => kconj (get A [x; j; z]) * get B [x'; j; z])).
Proof.
  intros HA HB. cbv zeta. split; [split; [reflexivity|apply wf_mk]|]. intros x x' Hx Hx'. unfold mat, foldc, fold.
  rewrite get_mk by (apply in_range_2; assumption). unfold rank, dim. cbn [tconj reshape dims length nth Nat.sub firstn skipn insert_nth app].
  rewrite sum_merge. apply sum_ext. intros z Hz. apply sum_ext. intros j Hj. rewrite get_tconj. f_equal; [f_equal|]; apply get_reshape; [rewrite HA|rewrite HB]; cbn [offset]; ring.
Qed.

Lemma contract_left A B a d b b' : dims A = [a; d; b] -> dims B = [a; d; b'] ->
  let M := foldc (reshape A [a * d; b]%nat) 0 (reshape B [a * d; b']%nat) 0 in
  is_matrix M b b' /\ forall z z', (z < b)%nat -> (z' < b')%nat ->
    mat M z z' = sum d (fun j => sum a (fun x => kconj (get A [x; j; z]) * get B [x; j; z'])).
Proof.
  intros HA HB. cbv zeta. split; [split; [reflexivity|apply wf_mk]|]. intros z z' Hz Hz'. unfold mat, foldc, fold.
  rewrite get_mk by (apply in_range_2; assumption). unfold rank, dim. cbn [tconj reshape dims length nth Nat.sub firstn skipn insert_nth app].
  rewrite sum_merge. apply sum_ext. intros j Hj. apply sum_ext. intros x Hx. rewrite get_tconj. f_equal; [f_equal|]; apply get_reshape; [rewrite HA|rewrite HB]; cbn [offset]; ring.
Qed.

Lemma sandwich_right A Hb a d b : dims A = [a; d; b] -> is_matrix Hb (d * b) (d * b) ->
  let M := fold (foldc (reshape A [a; d * b]%nat) 1 (reshape Hb [d * b; d * b]%nat) 0) 1 (reshape A [a; d * b]%nat) 1 in
  is_matrix M a a /\ forall x x', (x < a)%nat -> (x' < a)%nat ->
    mat M x x' = sum d (fun i => sum d (fun j => sum b (fun z => sum b (fun z' =>
      kconj (get A [x; i; z]) * mat Hb (i + d * z) (j + d * z') * get A [x'; j; z'])))).
Proof.
  intros HA (HH & _). cbv zeta. split; [split; [reflexivity|apply wf_mk]|]. intros x x' Hx Hx'. unfold mat at 1, fold at 1.
  rewrite get_mk by (apply in_range_2; assumption). unfold rank, dim, foldc, fold. cbn [tconj reshape dims mk length nth Nat.sub firstn skipn insert_nth remove_nth app].
  transitivity (sum b (fun z' => sum d (fun j => sum b (fun z => sum d (fun i => kconj (get A [x; i; z]) * mat Hb (i + d * z) (j + d * z') * get A [x'; j; z']))))).
  - rewrite sum_merge. apply sum_ext. intros z' Hz'. apply sum_ext. intros j Hj. rewrite get_mk by (apply in_range_2; [assumption|nia]).
    unfold rank, dim. cbn [tconj reshape dims length nth Nat.sub firstn skipn insert_nth app]. rewrite sum_merge, sum_mul_r. apply sum_ext. intros z Hz. rewrite sum_mul_r. apply sum_ext. intros i Hi.
    rewrite get_tconj. f_equal; [f_equal; [f_equal|]|]; apply get_reshape; [rewrite HA|rewrite HH|rewrite HA]; cbn [offset]; ring.
  - rewrite sum_swap. rewrite (sum_ext d _ (fun j => sum d (fun i => sum b (fun z => sum b (fun z' => kconj (get A [x; i; z]) * mat Hb (i + d * z) (j + d * z') * get A [x'; j; z']))))).
    + apply sum_swap.
    + intros j Hj. rewrite sum_swap. rewrite (sum_ext b _ (fun z => sum d (fun i => sum b (fun z' => kconj (get A [x; i; z]) * mat Hb (i + d * z) (j + d * z') * get A [x'; j; z'])))).
      * apply sum_swap.
      * intros z Hz. apply sum_swap.
Qed.

Lemma sandwich_left A Hb a d b : dims A = [a; d; b] -> is_matrix Hb (a * d) (a * d) ->
  let M := foldc (reshape A [a * d; b]%nat) 0 (mmult (reshape Hb [a * d; a * d]%nat) (reshape A [a * d; b]%nat)) 0 in
  is_matrix M b b /\ forall z z', (z < b)%nat -> (z' < b)%nat ->
    mat M z z' = sum d (fun i => sum d (fun j => sum a (fun x => sum a (fun x' =>
      kconj (get A [x; i; z]) * mat Hb (x + a * i) (x' + a * j) * get A [x'; j; z'])))).
Proof.
  intros HA (HH & _). cbv zeta. split; [split; [reflexivity|apply wf_mk]|]. intros z z' Hz Hz'. unfold mat at 1, foldc, fold.
  rewrite get_mk by (apply in_range_2; assumption). unfold rank, dim. cbn [tconj reshape dims length nth Nat.sub firstn skipn insert_nth app].
  rewrite sum_merge. apply sum_ext. intros i Hi.
  rewrite sum_swap. apply sum_ext. intros x Hx. rewrite get_tconj.
  rewrite (get_mmult _ _ (a * d) (a * d) b) by (try reflexivity; try assumption; nia). rewrite sum_merge, sum_mul_l. apply sum_ext. intros j Hj. rewrite sum_mul_l. apply sum_ext. intros x' Hx'.
  replace (get (reshape A [a * d; b]%nat) [x + a * i; z]%nat) with (get A [x; i; z]) by (symmetry; apply get_reshape; rewrite HA; cbn [offset]; ring).
  replace (get (reshape A [a * d; b]%nat) [x' + a * j; z']%nat) with (get A [x'; j; z']) by (symmetry; apply get_reshape; rewrite HA; cbn [offset]; ring).
  replace (get (reshape Hb [a * d; a * d]%nat) [x + a * i; x' + a * j]%nat) with (mat Hb (x + a * i) (x' + a * j)) by (symmetry; apply get_reshape; rewrite HH; cbn [offset]; ring). ring.
Qed.
End TensorLemmas.

Section Iso.
Context {RS : RScal}.
Add Ring KringB2 : k_ring.

Lemma Lc_iso : forall p m, linked 1 p m -> (forall j, (j < length p)%nat -> left_isometry (site p j)) ->
  forall a a', (a < m)%nat -> (a' < m)%nat -> Lc p id_op a a' = delta a a'.
Proof.
  induction p as [|A p IH] using rev_ind; intros m HL Hi a a' Ha Ha'.
  - cbn in HL. subst m. assert (a = 0%nat) as -> by lia. assert (a' = 0%nat) as -> by lia. unfold Lc. cbn. rewrite kconj_1. ring.
  - apply linked_app in HL. destruct HL as (m0 & HLp & HA). cbn [linked] in HA. destruct HA as (d & c & HA & HwA & Hd & Hc & E). cbn in E. subst c.
    rewrite (Lc_snoc p A id_op delta id_op m0 d m) by (try assumption; try lia; intros i j x y _ _ Hx Hy; rewrite id_op_app' by (rewrite (in_range_length _ _ Hx), (in_range_length _ _ Hy); reflexivity); cbn [id_op]; ring).
    assert (HIA : left_isometry A).
    { specialize (Hi (length p)). rewrite app_length in Hi. unfold site in Hi. rewrite app_nth2, Nat.sub_diag in Hi by lia. apply Hi. cbn; lia. }
    specialize (HIA a a'). unfold dim in HIA. rewrite HA in HIA. cbn [nth] in HIA. specialize (HIA Ha Ha'). rewrite <- HIA. rewrite (sum_swap m0 d).
    apply sum_ext. intros i Hi'.
    assert (IHp : forall z z', (z < m0)%nat -> (z' < m0)%nat -> Lc p id_op z z' = delta z z').
    { apply IH; [exact HLp|]. intros j Hj. specialize (Hi j). rewrite app_length in Hi. unfold site in *. rewrite app_nth1 in Hi by exact Hj. apply Hi. lia. }
    rewrite (sum_ext d _ (fun j => delta i j * sum m0 (fun z => kconj (get A [z; i; a]) * get A [z; j; a']))).
    + rewrite (sum_delta_l' d i (fun j => sum m0 (fun z => kconj (get A [z; i; a]) * get A [z; j; a']))) by exact Hi'. reflexivity.
    + intros j Hj. rewrite sum_mul_l. apply sum_ext. intros z Hz.
      rewrite (sum_ext m0 _ (fun z' => delta z z' * (delta i j * (kconj (get A [z; i; a]) * get A [z'; j; a'])))).
      * rewrite (sum_delta_l' m0 z (fun z' => delta i j * (kconj (get A [z; i; a]) * get A [z'; j; a']))) by exact Hz. reflexivity.
      * intros z' Hz'. rewrite IHp by assumption. ring.
Qed.

Lemma Rc_iso : forall q m, linked m q 1 -> (forall j, (j < length q)%nat -> right_isometry (site q j)) ->
  forall b b', (b < m)%nat -> (b' < m)%nat -> Rc q q id_op b b' = delta b b'.
Proof.
  induction q as [|A q IH]; intros m HL Hi b b' Hb Hb'.
  - cbn in HL. subst m. assert (b = 0%nat) as -> by lia. assert (b' = 0%nat) as -> by lia. unfold Rc. cbn. rewrite kconj_1. ring.
  - cbn [linked] in HL. destruct HL as (d & c & HA & HwA & Hd & Hc & HLq).
    rewrite (Rc_cons A A q q id_op delta id_op m d c m d c) by (try assumption; intros; reflexivity).
    pose proof (Hi 0%nat ltac:(cbn; lia) b' b) as HIA. unfold site, dim in HIA. cbn [nth] in HIA. rewrite HA in HIA. cbn [nth] in HIA. specialize (HIA Hb' Hb). rewrite delta_sym, <- HIA.
    apply sum_ext. intros i Hi'.
    assert (IHq : forall z z', (z < c)%nat -> (z' < c)%nat -> Rc q q id_op z z' = delta z z').
    { apply IH; [exact HLq|]. intros j Hj. exact (Hi (S j) ltac:(cbn; lia)). }
    rewrite (sum_ext d _ (fun j => delta i j * sum c (fun z => get A [b'; j; z] * kconj (get A [b; i; z])))).
    + rewrite (sum_delta_l' d i (fun j => sum c (fun z => get A [b'; j; z] * kconj (get A [b; i; z])))) by exact Hi'. reflexivity.
    + intros j Hj. rewrite sum_mul_l. apply sum_ext. intros z Hz.
      rewrite (sum_ext c _ (fun z' => delta z z' * (delta i j * (get A [b'; j; z'] * kconj (get A [b; i; z]))))).
      * rewrite (sum_delta_l' c z (fun z' => delta i j * (get A [b'; j; z'] * kconj (get A [b; i; z])))) by exact Hz. reflexivity.
      * intros z' Hz'. rewrite IHq by assumption. ring.
Qed.
End Iso.

Section Blocks.
Context {RS : RScal}.
Add Ring KringB3 : k_ring.
Variable D : dmrg.
Let H := d_H D.
Notation N := (h_size H).
Hypothesis HK : ham_ok H.
Hypothesis HL : locals_set H.
Hypothesis Hherm1 : forall k i j, (k < N)%nat -> (i < h_dim H k)%nat -> (j < h_dim H k)%nat -> loc H k i j = kconj (loc H k j i).
Hypothesis Hherm2 : forall k i j p q, (S k < N)%nat -> (i < h_dim H k)%nat -> (j < h_dim H k)%nat -> (p < h_dim H (S k))%nat -> (q < h_dim H (S k))%nat ->
  sum (dep H k) (fun m => lft H k m i j * rgt H k m p q) = kconj (sum (dep H k) (fun m => lft H k m j i * rgt H k m q p)).
Notation segd s n := (map (h_dim H) (seq s n)).

Lemma id_op_sym : forall x y, id_op x y = kconj (id_op y x).
Proof.
  induction x as [|i x IH]; intros [|j y]; cbn [id_op]; rewrite ?kconj_1, ?kconj_0; try reflexivity.
  rewrite IH, kconj_mul, (delta_sym i j). f_equal. unfold delta. destruct (Nat.eqb j i); rewrite ?kconj_1, ?kconj_0; reflexivity.
Qed.
Lemma delta_conj i j : kconj (delta i j) = delta i j.
Proof. unfold delta. destruct (Nat.eqb i j); rewrite ?kconj_1, ?kconj_0; reflexivity. Qed.

Lemma bondh_herm s n i j x y : (s + n < N)%nat -> (i < h_dim H s)%nat -> (j < h_dim H s)%nat -> in_range (segd (S s) n) x -> in_range (segd (S s) n) y ->
  bondh H s i j x y = kconj (bondh H s j i y x).
Proof.
  intros Hs Hi Hj Hx Hy. destruct n as [|n].
  - apply in_range_nil_inv in Hx, Hy. subst. cbn. rewrite kconj_0. reflexivity.
  - cbn [seq map] in Hx, Hy. apply in_range_cons_inv in Hx, Hy. destruct Hx as (p & x0 & -> & Hp & Hx), Hy as (q & y0 & -> & Hq & Hy).
    cbn [bondh]. rewrite kconj_mul, <- id_op_sym, <- Hherm2 by (assumption || lia). reflexivity.
Qed.

Lemma hseg_herm : forall n s x y, (s + n <= N)%nat -> in_range (segd s n) x -> in_range (segd s n) y -> hseg H s x y = kconj (hseg H s y x).
Proof.
  induction n as [|n IH]; intros s x y Hs Hx Hy.
  - apply in_range_nil_inv in Hx, Hy. subst. cbn. rewrite kconj_0. reflexivity.
  - cbn [seq map] in Hx, Hy. apply in_range_cons_inv in Hx, Hy. destruct Hx as (i & x0 & -> & Hi & Hx), Hy as (j & y0 & -> & Hj & Hy).
    cbn [hseg]. rewrite !kconj_add, !kconj_mul, <- id_op_sym, <- Hherm1, <- (bondh_herm s n), <- IH, delta_conj, (delta_sym j i) by (assumption || lia). reflexivity.
Qed.

Lemma cross_herm k i j x y : (S k < N)%nat -> (i < h_dim H (S k))%nat -> (j < h_dim H (S k))%nat -> in_range (segd 0 (S k)) x -> in_range (segd 0 (S k)) y ->
  sum (dep H k) (fun m => lastop H 0 m x y * rgt H k m i j) = kconj (sum (dep H k) (fun m => lastop H 0 m y x * rgt H k m j i)).
Proof.
  intros Hs Hi Hj Hx Hy. rewrite seq_S, map_app in Hx, Hy. cbn [map Nat.add] in Hx, Hy.
  assert (Hsp : forall x, in_range (segd 0 k ++ [h_dim H k]) x -> exists u p, x = u ++ [p] /\ (p < h_dim H k)%nat /\ length u = k).
  { clear. intros x Hx. apply SparseFacts.in_range_app in Hx. destruct Hx as (u & v & -> & Hu & Hv).
    apply in_range_cons_inv in Hv. destruct Hv as (p & r & -> & Hp & Hr). apply in_range_nil_inv in Hr. subst r. exists u, p.
    split; [reflexivity|]. split; [exact Hp|]. rewrite (in_range_length _ _ Hu), map_length, seq_length. reflexivity. }
  destruct (Hsp x Hx) as (u & p & -> & Hp & Hu), (Hsp y Hy) as (v & q & -> & Hq & Hv).
  rewrite (sum_ext _ _ (fun m => id_op u v * (lft H k m p q * rgt H k m i j))) by (intros; rewrite lastop_snoc by congruence; rewrite Hu; cbn [Nat.add]; ring).
  rewrite (sum_ext _ (fun m => lastop H 0 m (v ++ [q]) (u ++ [p]) * rgt H k m j i) (fun m => id_op v u * (lft H k m q p * rgt H k m j i))) by (intros; rewrite lastop_snoc by congruence; rewrite Hv; cbn [Nat.add]; ring).
  rewrite <- !sum_mul_l, kconj_mul, <- id_op_sym, <- Hherm2 by assumption. reflexivity.
Qed.

(** ** The pieces of a state *)
Lemma Rc_mul q q' c h b b' : Rc q q' (fun x y => c * h x y) b b' = c * Rc q q' h b b'.
Proof. unfold Rc. rewrite sumcfg_mul_l. apply sumcfg_ext. intros x Hx. rewrite sumcfg_mul_l. apply sumcfg_ext. intros y Hy. ring. Qed.
Lemma Lc_mul p c h b b' : Lc p (fun x y => h x y * c) b b' = Lc p h b b' * c.
Proof. unfold Lc. rewrite sumcfg_mul_r. apply sumcfg_ext. intros x Hx. rewrite sumcfg_mul_r. apply sumcfg_ext. intros y Hy. ring. Qed.

Lemma sum4_ext d d' c c' (f g : nat -> nat -> nat -> nat -> K) : (forall i j z z', (i < d)%nat -> (j < d')%nat -> (z < c)%nat -> (z' < c')%nat -> f i j z z' = g i j z z') ->
  sum d (fun i => sum d' (fun j => sum c (fun z => sum c' (fun z' => f i j z z')))) = sum d (fun i => sum d' (fun j => sum c (fun z => sum c' (fun z' => g i j z z')))).
Proof. intros E. apply sum_ext; intros i Hi. apply sum_ext; intros j Hj. apply sum_ext; intros z Hz. apply sum_ext; intros z' Hz'. apply E; assumption. Qed.
Lemma sum4_add d d' c c' (f g : nat -> nat -> nat -> nat -> K) :
  sum d (fun i => sum d' (fun j => sum c (fun z => sum c' (fun z' => f i j z z')))) + sum d (fun i => sum d' (fun j => sum c (fun z => sum c' (fun z' => g i j z z'))))
  = sum d (fun i => sum d' (fun j => sum c (fun z => sum c' (fun z' => f i j z z' + g i j z z')))).
Proof. rewrite <- sum_add. apply sum_ext; intros i Hi. rewrite <- sum_add. apply sum_ext; intros j Hj. rewrite <- sum_add. apply sum_ext; intros z Hz. rewrite <- sum_add. reflexivity. Qed.
Lemma sum4_sum n d d' c c' (f : nat -> nat -> nat -> nat -> nat -> K) :
  sum n (fun m => sum d (fun i => sum d' (fun j => sum c (fun z => sum c' (fun z' => f m i j z z'))))) =
  sum d (fun i => sum d' (fun j => sum c (fun z => sum c' (fun z' => sum n (fun m => f m i j z z'))))).
Proof.
  rewrite sum_swap. apply sum_ext; intros i Hi. rewrite sum_swap. apply sum_ext; intros j Hj. rewrite sum_swap. apply sum_ext; intros z Hz. apply sum_swap.
Qed.

(** what the rest to the right adds at the site k *)
Definition RP (k : nat) (q : mps) (i j z z' : nat) : K :=
  delta i j * Rc q q (hseg H (S k)) z z' + sum (dep H k) (fun m => lft H k m i j * Rc q q (firstop H k m) z z').
Definition LP (k : nat) (p : mps) (i j z z' : nat) : K :=
  Lc p (hseg H 0) z z' * delta i j + sum (dep H (k - 1)) (fun m => Lc p (lastop H 0 m) z z' * rgt H (k - 1) m i j).

Lemma bond_first k i j x y : length x = length y -> bondh H k i j x y = sum (dep H k) (fun m => lft H k m i j * firstop H k m x y).
Proof.
  intros Hl. destruct x as [|p x], y as [|q y]; try discriminate; cbn [bondh firstop].
  - rewrite sum_zero by (intros; ring). reflexivity.
  - rewrite sum_mul_r. apply sum_ext. intros. ring.
Qed.

Lemma RP_herm k q i j z z' : (k < N)%nat -> pdims q = segd (S k) (N - S k) -> (i < h_dim H k)%nat -> (j < h_dim H k)%nat ->
  RP k q i j z z' = kconj (RP k q j i z' z).
Proof.
  intros Hk Hq Hi Hj. unfold RP. rewrite kconj_add, kconj_mul, delta_conj, (delta_sym j i). f_equal.
  - f_equal. rewrite Rc_conj. apply Rc_ext. rewrite Hq. intros x y Hx Hy. apply (hseg_herm (N - S k)); [lia|assumption|assumption].
  - transitivity (Rc q q (bondh H k i j) z z').
    + rewrite (sum_ext _ _ (fun m => Rc q q (fun x y => lft H k m i j * firstop H k m x y) z z')) by (intros; rewrite Rc_mul; reflexivity).
      rewrite <- Rc_sum. apply Rc_ext. intros x y Hx Hy. symmetry. apply bond_first. rewrite (in_range_length _ _ Hx), (in_range_length _ _ Hy). reflexivity.
    + rewrite sum_conj.
      transitivity (kconj (Rc q q (bondh H k j i) z' z)).
      * rewrite Rc_conj. apply Rc_ext. rewrite Hq. intros x y Hx Hy. apply (bondh_herm k (N - S k)); try assumption. lia.
      * rewrite <- sum_conj. f_equal. rewrite (sum_ext _ (fun m => lft H k m j i * Rc q q (firstop H k m) z' z) (fun m => Rc q q (fun x y => lft H k m j i * firstop H k m x y) z' z)) by (intros; rewrite Rc_mul; reflexivity).
        rewrite <- Rc_sum. apply Rc_ext. intros x y Hx Hy. apply bond_first. rewrite (in_range_length _ _ Hx), (in_range_length _ _ Hy). reflexivity.
Qed.

Lemma LP_herm k p i j z z' : (k < N)%nat -> pdims p = segd 0 k -> (i < h_dim H k)%nat -> (j < h_dim H k)%nat ->
  LP k p i j z z' = kconj (LP k p j i z' z).
Proof.
  intros Hk Hp Hi Hj. unfold LP. rewrite kconj_add, kconj_mul, delta_conj, (delta_sym j i). f_equal.
  - f_equal. rewrite Lc_conj. apply Lc_ext. rewrite Hp. intros x y Hx Hy. apply (hseg_herm k); [lia|assumption|assumption].
  - transitivity (Lc p (fun x y => sum (dep H (k - 1)) (fun m => lastop H 0 m x y * rgt H (k - 1) m i j)) z z').
    + rewrite Lc_sum. apply sum_ext. intros m Hm. rewrite Lc_mul. reflexivity.
    + transitivity (kconj (Lc p (fun x y => sum (dep H (k - 1)) (fun m => lastop H 0 m x y * rgt H (k - 1) m j i)) z' z)).
      * rewrite Lc_conj. apply Lc_ext. rewrite Hp. intros x y Hx Hy. destruct k as [|k].
        -- apply in_range_nil_inv in Hx, Hy. subst. cbn [lastop]. rewrite !sum_zero by (intros; ring). rewrite kconj_0. reflexivity.
        -- replace (S k - 1)%nat with k by lia. apply cross_herm; assumption.
      * f_equal. rewrite Lc_sum. apply sum_ext. intros m Hm. rewrite Lc_mul. reflexivity.
Qed.

Lemma Rc_hseg A A' q k a d c a' c' b b' : dims A = [a; d; c] -> dims A' = [a'; d; c'] -> c' = c ->
  Rc (A :: q) (A' :: q) (hseg H k) b b' =
    sum d (fun i => sum d (fun j => sum c (fun z => sum c (fun z' =>
      kconj (get A [b; i; z]) * (RP k q i j z z' + loc H k i j * Rc q q id_op z z') * get A' [b'; j; z'])))).
Proof.
  intros HA HA' ->.
  rewrite (Rc_ext _ _ (hseg H k) (fun u v => match u, v with i :: x, j :: y => loc H k i j * id_op x y | _, _ => 0 end + (sum (dep H k) (fun m => match u, v with i :: x, j :: y => lft H k m i j * firstop H k m x y | _, _ => 0 end) + match u, v with i :: x, j :: y => delta i j * hseg H (S k) x y | _, _ => 0 end))).
  - rewrite Rc_add, Rc_add, Rc_sum.
    rewrite (Rc_cons A A' q q _ (loc H k) id_op a d c a' d c) by (try assumption; intros; reflexivity).
    rewrite (sum_ext (dep H k) _ (fun m => sum d (fun i => sum d (fun j => sum c (fun z => sum c (fun z' => kconj (get A [b; i; z]) * (lft H k m i j * Rc q q (firstop H k m) z z') * get A' [b'; j; z'])))))).
    2:{ intros m Hm. rewrite (Rc_cons A A' q q _ (lft H k m) (firstop H k m) a d c a' d c) by (try assumption; intros; reflexivity). reflexivity. }
    rewrite (Rc_cons A A' q q _ delta (hseg H (S k)) a d c a' d c) by (try assumption; intros; reflexivity).
    rewrite sum4_sum, !sum4_add. apply sum4_ext. intros i j z z' _ _ _ _. unfold RP. rewrite <- (sum_mul_r (dep H k)), <- sum_mul_l. ring.
  - intros u v Hu Hv. cbn [pdims map] in Hu, Hv. unfold dim in Hu, Hv. rewrite HA in Hu. rewrite HA' in Hv. cbn [nth] in Hu, Hv.
    apply in_range_cons_inv in Hu, Hv. destruct Hu as (i & x & -> & Hi & Hx), Hv as (j & y & -> & Hj & Hy). cbn [hseg].
    rewrite bond_first by (rewrite (in_range_length _ _ Hx), (in_range_length _ _ Hy); reflexivity). ring.
Qed.

Lemma Lc_hseg p A k m d c b b' : length p = k -> linked 1 p m -> dims A = [m; d; c] -> wf A -> (0 < d)%nat -> (0 < c)%nat -> (b < c)%nat -> (b' < c)%nat ->
  Lc (p ++ [A]) (hseg H 0) b b' =
    sum d (fun i => sum d (fun j => sum m (fun z => sum m (fun z' =>
      kconj (get A [z; i; b]) * (LP k p i j z z' + Lc p id_op z z' * loc H k i j) * get A [z'; j; b'])))).
Proof.
  intros Hp HLp HA HwA Hd Hc Hb Hb'.
  assert (Hsn : forall u, in_range (pdims (p ++ [A])) u -> exists x i, u = x ++ [i] /\ in_range (pdims p) x /\ (i < d)%nat /\ length x = k).
  { intros u Hu. rewrite pdims_app in Hu. cbn [pdims map] in Hu. unfold dim in Hu at 1. rewrite HA in Hu. cbn [nth] in Hu. apply SparseFacts.in_range_app in Hu.
    destruct Hu as (x & v & -> & Hx & Hv). apply in_range_cons_inv in Hv. destruct Hv as (i & r & -> & Hi & Hr). apply in_range_nil_inv in Hr. subst r.
    exists x, i. split; [reflexivity|]. split; [exact Hx|]. split; [exact Hi|]. rewrite (in_range_length _ _ Hx), length_pdims. exact Hp. }
  set (G := fun (h1 : list nat -> list nat -> K) (o : nat -> nat -> K) (u v : list nat) => h1 (removelast u) (removelast v) * o (last u 0%nat) (last v 0%nat)).
  assert (HG : forall h1 o i j x y, G h1 o (x ++ [i]) (y ++ [j]) = h1 x y * o i j) by (intros; unfold G; rewrite !removelast_last, !last_last; reflexivity).
  rewrite (Lc_ext _ (hseg H 0) (fun u v => G (hseg H 0) delta u v + (sum (dep H (k - 1)) (fun mm => G (lastop H 0 mm) (rgt H (k - 1) mm) u v) + G id_op (loc H k) u v))).
  - rewrite Lc_add, Lc_add, Lc_sum.
    rewrite (Lc_snoc p A _ delta (hseg H 0) m d c) by (try assumption; intros; apply HG).
    rewrite (sum_ext (dep H (k - 1)) _ (fun mm => sum d (fun i => sum d (fun j => sum m (fun z => sum m (fun z' => kconj (get A [z; i; b]) * (rgt H (k - 1) mm i j * Lc p (lastop H 0 mm) z z') * get A [z'; j; b'])))))).
    2:{ intros mm Hm. rewrite (Lc_snoc p A _ (rgt H (k - 1) mm) (lastop H 0 mm) m d c) by (try assumption; intros; apply HG). reflexivity. }
    rewrite (Lc_snoc p A _ (loc H k) id_op m d c) by (try assumption; intros; apply HG).
    rewrite sum4_sum, !sum4_add. apply sum4_ext. intros i j z z' _ _ _ _. unfold LP. rewrite <- (sum_mul_r (dep H (k - 1))), <- sum_mul_l.
    rewrite (sum_ext (dep H (k - 1)) (fun i0 => rgt H (k - 1) i0 i j * Lc p (lastop H 0 i0) z z') (fun m0 => Lc p (lastop H 0 m0) z z' * rgt H (k - 1) m0 i j)) by (intros; ring). ring.
  - intros u v Hu Hv. destruct (Hsn u Hu) as (x & i & -> & Hx & Hi & Lx), (Hsn v Hv) as (y & j & -> & Hy & Hj & Ly).
    rewrite (hseg_cut H i j [] [] eq_refl x y 0) by congruence. rewrite !HG, Lx. cbn [Nat.add id_op hseg].
    rewrite (sum_ext (dep H (k - 1)) (fun mm => G (lastop H 0 mm) (rgt H (k - 1) mm) (x ++ [i]) (y ++ [j])) (fun mm => lastop H 0 mm x y * rgt H (k - 1) mm i j)) by (intros; apply HG).
    rewrite (sum_zero (dep H k)) by (intros; cbn [firstop]; ring). ring.
Qed.
End Blocks.
