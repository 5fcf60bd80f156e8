(** Proofs about set_canonical, canonical_form, normal_form *)
From Coq Require Import Reals Lra Bool List Arith ZArith Lia Ring.
From Verif Require Import Scalar ScalarFacts RScal Tensor TensorFacts Spec MpsModel MpsFacts EnvFacts ExpectedFacts
  StateFacts StateFacts2 CanonSpec CanonModel TruncFacts SplitFacts.
Import ListNotations.
Local Open Scope K_scope.

Section Facts.
Context {RS : RScal}.
Add Ring Kring : k_ring.

(** ** Two neighbouring tensors *)
Lemma chain_pair A B q i j js a b :
  chain (A :: B :: q) (i :: j :: js) a b =
  sum (dim B 2) (fun e => joined A B a i j e * chain q js e b).
Proof.
  cbn [chain]. unfold joined.
  transitivity (sum (dim A 2) (fun c => sum (dim B 2) (fun e => get A [a; i; c] * (get B [c; j; e] * chain q js e b)))).
  - apply sum_ext. intros c Hc. apply sum_mul_l.
  - rewrite sum_swap. apply sum_ext. intros e He. rewrite sum_mul_r. apply sum_ext. intros; ring.
Qed.

(** Same chain when the joined tensors agree. *)
Lemma chain_pair_eq p q A B A' B' D D' m c c' d1 d2 m' is a b :
  linked D p m -> linked m' q D' ->
  dims A = [m; d1; c] -> wf A -> (0 < d1)%nat -> (0 < c)%nat ->
  dims B = [c; d2; m'] -> wf B -> (0 < d2)%nat -> (0 < m')%nat ->
  dims A' = [m; d1; c'] -> wf A' -> (0 < c')%nat -> dims B' = [c'; d2; m'] -> wf B' ->
  (forall x i j y, (x < m)%nat -> (i < d1)%nat -> (j < d2)%nat -> (y < m')%nat ->
     joined A' B' x i j y = joined A B x i j y) ->
  in_range (pdims (p ++ A :: B :: q)) is -> (a < D)%nat ->
  chain (p ++ A' :: B' :: q) is a b = chain (p ++ A :: B :: q) is a b.
Proof.
  intros Hp Hq HA HwA Hd1 Hc HB HwB Hd2 Hm' HA' HwA' Hc' HB' HwB' HJ His Ha.
  rewrite pdims_app in His. apply Forall2_app_inv_l in His. destruct His as (is1 & is2 & H1 & H2 & ->).
  cbn [pdims map] in H2.
  apply in_range_cons_inv in H2. destruct H2 as (i & is3 & -> & Hi & H2).
  apply in_range_cons_inv in H2. destruct H2 as (j & js & -> & Hj & H2).
  unfold dim in Hi, Hj. rewrite HA in Hi. rewrite HB in Hj. cbn [nth] in Hi, Hj.
  assert (Hl : length is1 = length p) by (rewrite <- (length_pdims p); apply in_range_length; exact H1).
  assert (L1 : linked m (A :: B :: q) D') by (exists d1, c; repeat split; auto; exists d2, m'; repeat split; auto).
  assert (L2 : linked m (A' :: B' :: q) D') by (exists d1, c'; repeat split; auto; exists d2, m'; repeat split; auto).
  rewrite (chain_app D p m _ D' is1 _ a b Hp L1 Hl Ha).
  rewrite (chain_app D p m _ D' is1 _ a b Hp L2 Hl Ha).
  apply sum_ext. intros x Hx. f_equal. rewrite !chain_pair.
  replace (dim B 2) with m' by (unfold dim; rewrite HB; reflexivity).
  replace (dim B' 2) with m' by (unfold dim; rewrite HB'; reflexivity).
  apply sum_ext. intros e He. rewrite HJ by assumption. reflexivity.
Qed.

(** A state with a non-zero amplitude has no zero tensor. *)
Lemma chain_zero_tensor p q A D m d c D' is a b :
  linked D p m -> dims A = [m; d; c] -> wf A -> (0 < d)%nat -> (0 < c)%nat -> linked c q D' ->
  (forall x i y, (x < m)%nat -> (i < d)%nat -> (y < c)%nat -> get A [x; i; y] = 0) ->
  in_range (pdims (p ++ A :: q)) is -> (a < D)%nat ->
  chain (p ++ A :: q) is a b = 0.
Proof.
  intros Hp HA HwA Hd Hc Hq HZ His Ha.
  rewrite pdims_app in His. apply Forall2_app_inv_l in His. destruct His as (is1 & is2 & H1 & H2 & ->).
  cbn [pdims map] in H2.
  apply in_range_cons_inv in H2. destruct H2 as (i & is3 & -> & Hi & H2).
  unfold dim in Hi. rewrite HA in Hi. cbn [nth] in Hi.
  assert (Hl : length is1 = length p) by (rewrite <- (length_pdims p); apply in_range_length; exact H1).
  assert (L1 : linked m (A :: q) D') by (exists d, c; repeat split; auto).
  rewrite (chain_app D p m _ D' is1 _ a b Hp L1 Hl Ha).
  apply sum_zero. intros x Hx. cbn [chain].
  rewrite (sum_zero (dim A 2)); [ring|]. intros y Hy. unfold dim in Hy. rewrite HA in Hy. cbn in Hy.
  rewrite HZ by assumption. ring.
Qed.

(** ** One step *)
Variable svd : tensor -> tensor * list R * tensor.
Variable flag : R.
Hypothesis Hsvd : svd_contract svd.

Definition eff (truncate : bool) : R := if truncate then flag else 0%R.
Definition exact (truncate : bool) : Prop := eff truncate = 0%R \/ (1 <= eff truncate)%R.

Lemma eff_tol_split truncate : eff_tol flag (split_tol truncate) = eff truncate.
Proof.
  unfold eff_tol, split_tol, eff, MPS_DEFAULT_TOLERANCE, MPS_TRUNCATE_ZEROS.
  destruct truncate.
  - destruct (Rltb (-4) 0) eqn:E; [reflexivity|]. apply Rltb_false in E. lra.
  - destruct (Rltb 0 0) eqn:E; [apply Rltb_true in E; lra|reflexivity].
Qed.

Definition nonzero3 (t : tensor) : Prop :=
  exists x i y, (x < dim t 0)%nat /\ (i < dim t 1)%nat /\ (y < dim t 2)%nat /\ get t [x; i; y] <> 0.

Lemma split_right_final t a i b truncate : dims t = [a; i; b]%nat -> wf t ->
  (0 < a)%nat -> (0 < i)%nat -> (0 < b)%nat -> (eff truncate <> 0%R \/ nonzero3 t) ->
  exists U V l e, split svd flag t 1 truncate = Ok (U, V) /\ split_right_spec t a i b U V l e /\
    (0 < l)%nat /\ (exact truncate -> forall x y z, e x y z = 0).
Proof.
  intros Hd Hw Ha Hi Hb Hn.
  destruct (split_right_ok svd flag Hsvd t a i b truncate Hd Hw Ha Hi Hb)
    as (Us & sv & Vs & E1 & Hs & U & V & E2 & HS & _).
  exists U, V. eexists. eexists. split; [exact E2|]. split; [exact HS|].
  assert (Hlen : (0 < length sv /\ length sv <= Nat.min (a * i) b)%nat) by (destruct Hs as (H1 & H2 & _); lia).
  split.
  - apply wtt_pos; [lia|]. rewrite eff_tol_split. destruct Hn as [Hn|Hn]; [left; exact Hn|right].
    destruct (last_nonzero sv) as [|n] eqn:El.
    + exfalso. destruct Hn as (x & y & z & Hx & Hy & Hz & Hne). unfold dim in *. rewrite Hd in *. cbn in Hx, Hy, Hz.
      apply Hne. rewrite <- (get_join_left t a i b) by assumption.
      apply (svd_zero _ _ _ _ _ _ Hs); [intros k; apply last_nonzero_beyond; lia|nia|assumption].
    + exists n. apply last_nonzero_last. exact El.
  - intros He x y z. apply dropped_zero. apply wtt_exact; [rewrite eff_tol_split; exact He|lia|lia].
Qed.

Lemma split_left_final t a i b truncate : dims t = [a; i; b]%nat -> wf t ->
  (0 < a)%nat -> (0 < i)%nat -> (0 < b)%nat -> (eff truncate <> 0%R \/ nonzero3 t) ->
  exists U V l e, split svd flag t (-1) truncate = Ok (U, V) /\ split_left_spec t a i b U V l e /\
    (0 < l)%nat /\ (exact truncate -> forall x y z, e x y z = 0).
Proof.
  intros Hd Hw Ha Hi Hb Hn.
  destruct (split_left_ok svd flag Hsvd t a i b truncate Hd Hw Ha Hi Hb)
    as (Us & sv & Vs & E1 & Hs & U & V & E2 & HS & _).
  exists U, V. eexists. eexists. split; [exact E2|]. split; [exact HS|].
  assert (Hlen : (0 < length sv /\ length sv <= Nat.min a (i * b))%nat) by (destruct Hs as (H1 & H2 & _); lia).
  split.
  - apply wtt_pos; [lia|]. rewrite eff_tol_split. destruct Hn as [Hn|Hn]; [left; exact Hn|right].
    destruct (last_nonzero sv) as [|n] eqn:El.
    + exfalso. destruct Hn as (x & y & z & Hx & Hy & Hz & Hne). unfold dim in *. rewrite Hd in *. cbn in Hx, Hy, Hz.
      apply Hne. rewrite <- (get_join_right t a i b) by assumption.
      apply (svd_zero _ _ _ _ _ _ Hs); [intros k; apply last_nonzero_beyond; lia|assumption|nia].
    + exists n. apply last_nonzero_last. exact El.
  - intros He x y z. apply dropped_zero. apply wtt_exact; [rewrite eff_tol_split; exact He|lia|lia].
Qed.

Lemma replace_nth_len {A} (p : list A) x y q : replace_nth (length p) x (p ++ y :: q) = p ++ x :: q.
Proof. induction p as [|z p IH]; cbn; [reflexivity|]. rewrite IH. reflexivity. Qed.

Lemma replace_nth_len1 {A} (p : list A) x y z q :
  replace_nth (length p + 1) x (p ++ y :: z :: q) = p ++ y :: x :: q.
Proof. induction p as [|w p IH]; cbn; [reflexivity|]. rewrite IH. reflexivity. Qed.

Lemma site_len (p : mps) x q : site (p ++ x :: q) (length p) = x.
Proof. unfold site. rewrite app_nth2 by lia. rewrite Nat.sub_diag. reflexivity. Qed.

Lemma site_len1 (p : mps) x y q : site (p ++ x :: y :: q) (length p + 1) = y.
Proof. unfold site. rewrite app_nth2 by lia. replace (length p + 1 - length p)%nat with 1%nat by lia. reflexivity. Qed.

Lemma get_fold_VB V B l c d2 m' x j y : is_matrix V l c -> dims B = [c; d2; m'] ->
  (x < l)%nat -> (j < d2)%nat -> (y < m')%nat ->
  get (fold V (rank V - 1) B 0) [x; j; y] = sum c (fun z => get V [x; z] * get B [z; j; y]).
Proof.
  intros (HV & _) HB Hx Hj Hy. unfold fold, rank, dim. rewrite HV, HB. cbn -[mk sum get].
  rewrite get_mk by (apply in_range_3; assumption). reflexivity.
Qed.

Lemma dims_fold_VB V B l c d2 m' : is_matrix V l c -> dims B = [c; d2; m'] ->
  dims (fold V (rank V - 1) B 0) = [l; d2; m'].
Proof. intros (HV & _) HB. unfold fold, rank. rewrite HV, HB. reflexivity. Qed.

Lemma get_fold_BV V B l c d2 m x j y : is_matrix V c l -> dims B = [m; d2; c] ->
  (x < m)%nat -> (j < d2)%nat -> (y < l)%nat ->
  get (fold B (rank B - 1) V 0) [x; j; y] = sum c (fun z => get B [x; j; z] * get V [z; y]).
Proof.
  intros (HV & _) HB Hx Hj Hy. unfold fold, rank, dim. rewrite HV, HB. cbn -[mk sum get].
  rewrite get_mk by (apply in_range_3; assumption). reflexivity.
Qed.

Lemma dims_fold_BV V B l c d2 m : is_matrix V c l -> dims B = [m; d2; c] ->
  dims (fold B (rank B - 1) V 0) = [m; d2; l].
Proof. intros (HV & _) HB. unfold fold, rank. rewrite HV, HB. reflexivity. Qed.

Lemma joined_right t U V B a i c d2 m' l x y j z :
  split_right_spec t a i c U V l (fun _ _ _ => 0) -> dims t = [a; i; c] -> dims B = [c; d2; m'] ->
  (x < a)%nat -> (y < i)%nat -> (j < d2)%nat -> (z < m')%nat ->
  joined U (fold V (rank V - 1) B 0) x y j z = joined t B x y j z.
Proof.
  intros (HU & HwU & HV & Hl & HI & He) Ht HB Hx Hy Hj Hz. unfold joined, dim. rewrite HU, Ht. cbn [nth].
  transitivity (sum l (fun p => sum c (fun q => get U [x; y; p] * (get V [p; q] * get B [q; j; z])))).
  - apply sum_ext. intros p Hp. rewrite (get_fold_VB V B l c d2 m') by assumption. apply sum_mul_l.
  - rewrite sum_swap. apply sum_ext. intros q Hq. rewrite He by assumption.
    transitivity (sum l (fun p => get U [x; y; p] * get V [p; q]) * get B [q; j; z]); [|ring].
    rewrite sum_mul_r. apply sum_ext. intros; ring.
Qed.

Lemma joined_left t U V B a i c d2 m l x y j z :
  split_left_spec t a i c U V l (fun _ _ _ => 0) -> dims t = [a; i; c] -> dims B = [m; d2; a] ->
  (x < m)%nat -> (j < d2)%nat -> (y < i)%nat -> (z < c)%nat ->
  joined (fold B (rank B - 1) V 0) U x j y z = joined B t x j y z.
Proof.
  intros (HU & HwU & HV & Hl & HI & He) Ht HB Hx Hj Hy Hz. unfold joined, dim.
  rewrite (dims_fold_BV V B l a d2 m HV HB), HB. cbn [nth].
  transitivity (sum l (fun p => sum a (fun q => get B [x; j; q] * (get V [q; p] * get U [p; y; z])))).
  - apply sum_ext. intros p Hp. rewrite (get_fold_BV V B l a d2 m) by assumption.
    rewrite sum_mul_r. apply sum_ext. intros; ring.
  - rewrite sum_swap. apply sum_ext. intros q Hq. rewrite He by assumption.
    transitivity (get B [x; j; q] * sum l (fun p => get V [q; p] * get U [p; y; z])); [|ring].
    rewrite sum_mul_l. reflexivity.
Qed.

Lemma set_canonical_right p A0 t B q m d c d2 m' truncate :
  dims t = [m; d; c] -> wf t -> dims B = [c; d2; m'] -> (0 < m)%nat -> (0 < d)%nat -> (0 < c)%nat ->
  (eff truncate <> 0%R \/ nonzero3 t) ->
  exists U B' l, set_canonical svd flag (p ++ A0 :: B :: q) (Z.of_nat (length p)) t 1 truncate
                   = Ok (p ++ U :: B' :: q) /\
    dims U = [m; d; l] /\ wf U /\ (0 < l <= c)%nat /\ left_isometry U /\
    dims B' = [l; d2; m'] /\ wf B' /\
    (exact truncate -> forall x i j y, (x < m)%nat -> (i < d)%nat -> (j < d2)%nat -> (y < m')%nat ->
       joined U B' x i j y = joined t B x i j y).
Proof.
  intros Ht Hwt HB Hm Hd Hc Hn.
  destruct (split_right_final t m d c truncate Ht Hwt Hm Hd Hc Hn) as (U & V & l & e & E & HS & Hl & He).
  exists U, (fold V (rank V - 1) B 0), l.
  split.
  { unfold set_canonical. rewrite app_length. cbn [length].
    replace ((0 <=? Z.of_nat (length p))%Z) with true by (symmetry; apply Z.leb_le; lia).
    replace ((Z.of_nat (length p) <? Z.of_nat (length p + S (S (length q))))%Z) with true
      by (symmetry; apply Z.ltb_lt; lia).
    cbn [andb Z.ltb Z.compare]. rewrite Nat2Z.id.
    destruct (Nat.eqb_spec (length p + 1) (length p + S (S (length q)))); [lia|].
    rewrite E. cbn [bind]. rewrite site_len1, replace_nth_len, replace_nth_len1. reflexivity. }
  destruct HS as (HU & HwU & HV & Hlc & HI & Hg).
  split; [exact HU|]. split; [exact HwU|]. split; [lia|]. split; [exact HI|].
  split; [apply (dims_fold_VB V B l c); assumption|]. split; [apply wf_mk|].
  intros Hex x i j y Hx Hi Hj Hy. apply (joined_right t U V B m d c d2 m' l); auto.
  repeat split; auto; try apply HV. intros x' y' z' Hx' Hy' Hz'. rewrite (Hg x' y' z') by assumption.
  rewrite He by exact Hex. ring.
Qed.

Lemma set_canonical_left p A0 t B q m d c d2 m' truncate :
  dims t = [c; d; m'] -> wf t -> dims B = [m; d2; c] -> (0 < c)%nat -> (0 < d)%nat -> (0 < m')%nat ->
  (eff truncate <> 0%R \/ nonzero3 t) ->
  exists U B' l, set_canonical svd flag (p ++ B :: A0 :: q) (Z.of_nat (length p) + 1) t (-1) truncate
                   = Ok (p ++ B' :: U :: q) /\
    dims U = [l; d; m'] /\ wf U /\ (0 < l <= c)%nat /\ right_isometry U /\
    dims B' = [m; d2; l] /\ wf B' /\
    (exact truncate -> forall x i j y, (x < m)%nat -> (i < d2)%nat -> (j < d)%nat -> (y < m')%nat ->
       joined B' U x i j y = joined B t x i j y).
Proof.
  intros Ht Hwt HB Hc Hd Hm' Hn.
  destruct (split_left_final t c d m' truncate Ht Hwt Hc Hd Hm' Hn) as (U & V & l & e & E & HS & Hl & He).
  exists U, (fold B (rank B - 1) V 0), l.
  split.
  { unfold set_canonical. rewrite app_length. cbn [length].
    replace ((0 <=? Z.of_nat (length p) + 1)%Z) with true by (symmetry; apply Z.leb_le; lia).
    replace ((Z.of_nat (length p) + 1 <? Z.of_nat (length p + S (S (length q))))%Z) with true
      by (symmetry; apply Z.ltb_lt; lia).
    cbn [andb Z.ltb Z.compare].
    replace (Z.to_nat (Z.of_nat (length p) + 1)) with (length p + 1)%nat by lia.
    destruct (Nat.eqb_spec (length p + 1) 0); [lia|].
    rewrite E. cbn [bind]. replace (length p + 1 - 1)%nat with (length p) by lia.
    rewrite site_len, replace_nth_len1, replace_nth_len. reflexivity. }
  destruct HS as (HU & HwU & HV & Hlc & HI & Hg).
  split; [exact HU|]. split; [exact HwU|]. split; [lia|]. split; [exact HI|].
  split; [apply (dims_fold_BV V B l c); assumption|]. split; [apply wf_mk|].
  intros Hex x i j y Hx Hi Hj Hy. apply (joined_left t U V B c d m' d2 m l); auto.
  repeat split; auto; try apply HV. intros x' y' z' Hx' Hy' Hz'. rewrite (Hg x' y' z') by assumption.
  rewrite He by exact Hex. ring.
Qed.

End Facts.
