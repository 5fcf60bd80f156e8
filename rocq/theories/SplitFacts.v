(** Proofs about split() *)
From Coq Require Import Reals Lra Bool List Arith ZArith Lia Ring.
From Verif Require Import Scalar ScalarFacts RScal Tensor TensorFacts Spec MpsModel CanonSpec CanonModel TruncFacts.
Import ListNotations.
Local Open Scope K_scope.

Section Facts.
Context {RS : RScal}.
Add Ring Kring : k_ring.

Lemma offset_merge2 a i x y : (x < a)%nat -> offset [a; i] [x; y] = (x + a * y)%nat.
Proof. cbn. lia. Qed.

(** Joining the first two indices of a rank three tensor. *)
Lemma get_join_left t a i b x y z : dims t = [a; i; b]%nat -> (x < a)%nat -> (y < i)%nat -> (z < b)%nat ->
  get (reshape t [a * i; b]%nat) [x + a * y; z]%nat = get t [x; y; z].
Proof.
  intros Hd Hx Hy Hz. unfold get. cbn [dims reshape data]. rewrite Hd. cbn [offset]. f_equal. nia.
Qed.

Lemma get_join_right t a i b x y z : dims t = [a; i; b]%nat -> (x < a)%nat -> (y < i)%nat -> (z < b)%nat ->
  get (reshape t [a; i * b]%nat) [x; y + i * z]%nat = get t [x; y; z].
Proof.
  intros Hd Hx Hy Hz. unfold get. cbn [dims reshape data]. rewrite Hd. cbn [offset]. f_equal. nia.
Qed.

Lemma get_unjoin_left U a i l x y z : dims U = [a * i; l]%nat -> (x < a)%nat -> (y < i)%nat ->
  get (reshape U [a; i; l]%nat) [x; y; z] = get U [x + a * y; z]%nat.
Proof.
  intros Hd Hx Hy. unfold get. cbn [dims reshape data]. rewrite Hd. cbn [offset]. f_equal. nia.
Qed.

Lemma get_unjoin_right U l i b x y z : dims U = [l; i * b]%nat -> (x < l)%nat -> (y < i)%nat ->
  get (reshape U [l; i; b]%nat) [x; y; z] = get U [x; y + i * z]%nat.
Proof.
  intros Hd Hx Hy. unfold get. cbn [dims reshape data]. rewrite Hd. cbn [offset]. f_equal. nia.
Qed.

Lemma get_change_dim t i n is : in_range (replace_nth i n (dims t)) is -> (nth i is 0 < dim t i)%nat ->
  get (change_dimension t i n) is = get t is.
Proof.
  intros H1 H2. unfold change_dimension. rewrite get_mk by exact H1.
  apply Nat.ltb_lt in H2. rewrite H2. reflexivity.
Qed.

Lemma get_scale t i s is : in_range (dims t) is ->
  get (scale t i s) is = get t is * rinj (nth (nth i is 0%nat) s 0%R).
Proof. intros H. unfold scale. rewrite get_mk by exact H. reflexivity. Qed.

Lemma nth_firstn_lt' {A} n k (l : list A) d : (k < n)%nat -> nth k (firstn n l) d = nth k l d.
Proof.
  revert k l. induction n as [|n IH]; intros k l Hk; [lia|].
  destruct l as [|x l]; [destruct k; reflexivity|]. destruct k as [|k]; [reflexivity|].
  cbn. apply IH. lia.
Qed.

(** The cut SVD, independent of whether the dimension changed. *)
Definition cut (l : nat) (U : tensor) (s : list R) (V : tensor) : tensor * list R * tensor :=
  if Nat.eqb l (length s) then (U, s, V)
  else (change_dimension U 1 l, firstn l s, change_dimension V 0 l).

Lemma cut_spec m n A U s V l : is_svd m n A U s V -> (l <= length s)%nat ->
  let '(U', s', V') := cut l U s V in
  is_matrix U' m l /\ is_matrix V' l n /\ length s' = l /\
  (forall k, (k < l)%nat -> nth k s' 0%R = nth k s 0%R) /\
  (forall i k, (i < m)%nat -> (k < l)%nat -> get U' [i; k] = get U [i; k]) /\
  (forall k j, (k < l)%nat -> (j < n)%nat -> get V' [k; j] = get V [k; j]).
Proof.
  intros (H1 & H2 & (HU1 & HU2) & (HV1 & HV2) & _) Hl. unfold cut.
  destruct (Nat.eqb_spec l (length s)) as [->|Hn].
  - repeat split; auto.
  - assert (E1 : replace_nth 1 l (dims U) = [m; l]) by (rewrite HU1; reflexivity).
    assert (E2 : replace_nth 0 l (dims V) = [l; n]) by (rewrite HV1; reflexivity).
    split; [split; [unfold change_dimension; rewrite dims_mk; exact E1|apply wf_mk]|].
    split; [split; [unfold change_dimension; rewrite dims_mk; exact E2|apply wf_mk]|].
    split; [rewrite firstn_length; lia|].
    split; [intros; apply nth_firstn_lt'; assumption|].
    split; intros.
    + apply get_change_dim; [rewrite E1; apply in_range_2; assumption|].
      cbn. unfold dim. rewrite HU1. cbn. lia.
    + apply get_change_dim; [rewrite E2; apply in_range_2; assumption|].
      cbn. unfold dim. rewrite HV1. cbn. lia.
Qed.

(** What is lost by keeping the first l singular triplets. *)
Definition dropped (U : tensor) (s : list R) (V : tensor) (l i j : nat) : K :=
  sum (length s - l) (fun k => get U [i; (l + k)%nat] * rinj (nth (l + k)%nat s 0%R) * get V [(l + k)%nat; j]).

Lemma svd_split_sum m n A U s V l i j : is_svd m n A U s V -> (l <= length s)%nat ->
  (i < m)%nat -> (j < n)%nat ->
  get A [i; j] = sum l (fun k => get U [i; k] * (rinj (nth k s 0%R) * get V [k; j])) + dropped U s V l i j.
Proof.
  intros (_ & _ & _ & _ & _ & _ & _ & _ & H) Hl Hi Hj. rewrite H by assumption.
  replace (length s) with (l + (length s - l))%nat at 1 by lia.
  rewrite sum_plus. unfold dropped. f_equal. apply sum_ext. intros k Hk. ring.
Qed.

Lemma dropped_zero U s V l i j : (forall k, (l <= k)%nat -> nth k s 0%R = 0%R) -> dropped U s V l i j = 0.
Proof.
  intros H. apply sum_zero. intros k Hk. rewrite H by lia. rewrite rinj_0. ring.
Qed.

Variable svd : tensor -> tensor * list R * tensor.
Variable flag : R.
Hypothesis Hsvd : svd_contract svd.

(** Outcome of split to the right *)
Definition split_right_spec (t : tensor) (a i b : nat) (U V : tensor) (l : nat) (e : nat -> nat -> nat -> K) : Prop :=
  dims U = [a; i; l] /\ wf U /\ is_matrix V l b /\ (l <= b)%nat /\ left_isometry U /\
  forall x y z, (x < a)%nat -> (y < i)%nat -> (z < b)%nat ->
    get t [x; y; z] = sum l (fun c => get U [x; y; c] * get V [c; z]) + e x y z.

Definition split_left_spec (t : tensor) (a i b : nat) (U V : tensor) (l : nat) (e : nat -> nat -> nat -> K) : Prop :=
  dims U = [l; i; b] /\ wf U /\ is_matrix V a l /\ (l <= a)%nat /\ right_isometry U /\
  forall x y z, (x < a)%nat -> (y < i)%nat -> (z < b)%nat ->
    get t [x; y; z] = sum l (fun c => get V [x; c] * get U [c; y; z]) + e x y z.

Definition sing_right (t : tensor) (a i b : nat) : list R := snd (fst (svd (reshape t [a * i; b]%nat))).
Definition sing_left (t : tensor) (a i b : nat) : list R := snd (fst (svd (reshape t [a; i * b]%nat))).
Definition split_tol (truncate : bool) : R := if truncate then MPS_DEFAULT_TOLERANCE else MPS_TRUNCATE_ZEROS.

(** All singular values are zero only for the zero matrix. *)
Lemma svd_zero m n A U s V : is_svd m n A U s V -> (forall k, nth k s 0%R = 0%R) ->
  forall i j, (i < m)%nat -> (j < n)%nat -> get A [i; j] = 0.
Proof.
  intros H Hz i j Hi Hj. destruct H as (_ & _ & _ & _ & _ & _ & _ & _ & H).
  rewrite H by assumption. apply sum_zero. intros k Hk. rewrite Hz, rinj_0. ring.
Qed.

Lemma split_right_ok t a i b truncate : dims t = [a; i; b]%nat -> wf t -> (0 < a)%nat -> (0 < i)%nat -> (0 < b)%nat ->
  exists Us sv Vs, svd (reshape t [a * i; b]%nat) = (Us, sv, Vs) /\ is_svd (a * i) b (reshape t [a * i; b]%nat) Us sv Vs /\
  let l := where_to_truncate flag sv (split_tol truncate) (Z.of_nat (Nat.min (a * i) b)) in
  exists U V, split svd flag t 1 truncate = Ok (U, V) /\
    split_right_spec t a i b U V l (fun x y z => dropped Us sv Vs l (x + a * y)%nat z) /\
    (forall c z, (c < l)%nat -> (z < b)%nat -> get V [c; z] = rinj (nth c sv 0%R) * get Vs [c; z]).
Proof.
  intros Hd Hw Ha Hi Hb.
  assert (HA : is_matrix (reshape t [a * i; b]%nat) (a * i) b).
  { split; [reflexivity|]. apply wf_reshape; [exact Hw|]. rewrite Hd. cbn. lia. }
  pose proof (Hsvd (a * i)%nat b _ HA ltac:(lia) Hb) as Hs.
  destruct (svd (reshape t [a * i; b]%nat)) as [[Us sv] Vs] eqn:Esvd.
  exists Us, sv, Vs. split; [reflexivity|]. split; [exact Hs|]. cbv zeta.
  set (l := where_to_truncate flag sv (split_tol truncate) (Z.of_nat (Nat.min (a * i) b))).
  assert (Hl : (l <= length sv)%nat) by apply wtt_le_length.
  pose proof (cut_spec _ _ _ _ _ _ l Hs Hl) as Hc.
  assert (Hsize : length (data t) = (a * i * b)%nat) by (rewrite Hw, Hd; cbn; lia).
  assert (He : is_empty t = false).
  { apply is_empty_wf; [exact Hw|]. rewrite Hd. cbn. nia. }
  assert (Hspl : split svd flag t 1 truncate =
    let '(U', s', V') := cut l Us sv Vs in Ok (reshape U' [a; i; l], scale V' 0 s')).
  { unfold split. rewrite He, Hd. cbn [Z.ltb Z.compare length Nat.sub nth].
    rewrite Hsize, Nat.div_mul by lia. rewrite Esvd. fold (split_tol truncate). fold l.
    unfold cut. destruct (Nat.eqb l (length sv)); reflexivity. }
  destruct (cut l Us sv Vs) as [[U' s'] V'].
  destruct Hc as ((HU1 & HU2) & (HV1 & HV2) & Hs' & Hsv & HU & HV).
  assert (HgV : forall c z, (c < l)%nat -> (z < b)%nat ->
            get (scale V' 0 s') [c; z] = rinj (nth c sv 0%R) * get Vs [c; z]).
  { intros c z Hcl Hz. rewrite get_scale by (rewrite HV1; apply in_range_2; assumption).
    cbn [nth]. rewrite Hsv, HV by assumption. ring. }
  exists (reshape U' [a; i; l]), (scale V' 0 s'). split; [exact Hspl|]. split; [|exact HgV].
  split; [reflexivity|].
  split; [apply wf_reshape; [exact HU2|rewrite HU1; cbn; lia]|].
  split; [split; [unfold scale; rewrite dims_mk; exact HV1|apply wf_mk]|].
  split.
  { destruct Hs as (_ & Hs & _). lia. }
  split.
  - intros x y Hx Hy. cbn [dim dims reshape nth] in *. unfold dim in *. cbn [dims reshape nth] in *.
    rewrite sum_swap.
    destruct Hs as (_ & _ & _ & _ & _ & _ & HUU & _ & _).
    transitivity (sum (a * i) (fun r => kconj (get Us [r; x]) * get Us [r; y])).
    + rewrite sum_merge. apply sum_ext. intros q Hq. apply sum_ext. intros p Hp.
      rewrite !(get_unjoin_left U' a i l) by assumption.
      rewrite !HU by (try assumption; nia). reflexivity.
    + apply HUU; lia.
  - intros x y z Hx Hy Hz. rewrite <- (get_join_left t a i b) by assumption.
    rewrite (svd_split_sum _ _ _ _ _ _ l (x + a * y)%nat z Hs Hl) by (try assumption; nia).
    f_equal. apply sum_ext. intros c Hcl. rewrite (get_unjoin_left U' a i l) by assumption.
    rewrite HgV by assumption. rewrite HU by (try assumption; nia). reflexivity.
Qed.

Lemma split_left_ok t a i b truncate : dims t = [a; i; b]%nat -> wf t -> (0 < a)%nat -> (0 < i)%nat -> (0 < b)%nat ->
  exists Us sv Vs, svd (reshape t [a; i * b]%nat) = (Us, sv, Vs) /\ is_svd a (i * b) (reshape t [a; i * b]%nat) Us sv Vs /\
  let l := where_to_truncate flag sv (split_tol truncate) (Z.of_nat (Nat.min a (i * b))) in
  exists U V, split svd flag t (-1) truncate = Ok (U, V) /\
    split_left_spec t a i b U V l (fun x y z => dropped Us sv Vs l x (y + i * z)%nat) /\
    (forall x c, (x < a)%nat -> (c < l)%nat -> get V [x; c] = get Us [x; c] * rinj (nth c sv 0%R)).
Proof.
  intros Hd Hw Ha Hi Hb.
  assert (HA : is_matrix (reshape t [a; i * b]%nat) a (i * b)).
  { split; [reflexivity|]. apply wf_reshape; [exact Hw|]. rewrite Hd. cbn. lia. }
  pose proof (Hsvd a (i * b)%nat _ HA Ha ltac:(lia)) as Hs.
  destruct (svd (reshape t [a; i * b]%nat)) as [[Us sv] Vs] eqn:Esvd.
  exists Us, sv, Vs. split; [reflexivity|]. split; [exact Hs|]. cbv zeta.
  set (l := where_to_truncate flag sv (split_tol truncate) (Z.of_nat (Nat.min a (i * b)))).
  assert (Hl : (l <= length sv)%nat) by apply wtt_le_length.
  pose proof (cut_spec _ _ _ _ _ _ l Hs Hl) as Hc.
  assert (Hsize : length (data t) = (i * b * a)%nat) by (rewrite Hw, Hd; cbn; lia).
  assert (He : is_empty t = false).
  { apply is_empty_wf; [exact Hw|]. rewrite Hd. cbn. nia. }
  assert (Hspl : split svd flag t (-1) truncate =
    let '(U', s', V') := cut l Us sv Vs in Ok (reshape V' [l; i; b], scale U' 1 s')).
  { unfold split. rewrite He, Hd. cbn [Z.ltb Z.compare length Nat.sub nth].
    rewrite Hsize, Nat.div_mul by lia. rewrite Esvd. fold (split_tol truncate). fold l.
    unfold cut. destruct (Nat.eqb l (length sv)); reflexivity. }
  destruct (cut l Us sv Vs) as [[U' s'] V'].
  destruct Hc as ((HU1 & HU2) & (HV1 & HV2) & Hs' & Hsv & HU & HV).
  assert (HgU : forall x c, (x < a)%nat -> (c < l)%nat ->
            get (scale U' 1 s') [x; c] = get Us [x; c] * rinj (nth c sv 0%R)).
  { intros x c Hx Hcl. rewrite get_scale by (rewrite HU1; apply in_range_2; assumption).
    cbn [nth]. rewrite Hsv, HU by assumption. ring. }
  exists (reshape V' [l; i; b]), (scale U' 1 s'). split; [exact Hspl|]. split; [|exact HgU].
  split; [reflexivity|].
  split; [apply wf_reshape; [exact HV2|rewrite HV1; cbn; lia]|].
  split; [split; [unfold scale; rewrite dims_mk; exact HU1|apply wf_mk]|].
  split.
  { destruct Hs as (_ & Hs & _). lia. }
  split.
  - intros x y Hx Hy. unfold dim in *. cbn [dims reshape nth] in *.
    rewrite sum_swap.
    destruct Hs as (_ & _ & _ & _ & _ & _ & _ & HVV & _).
    transitivity (sum (i * b) (fun r => get Vs [x; r] * kconj (get Vs [y; r]))).
    + rewrite sum_merge. apply sum_ext. intros q Hq. apply sum_ext. intros p Hp.
      rewrite !(get_unjoin_right V' l i b) by assumption.
      rewrite !HV by (try assumption; nia). reflexivity.
    + apply HVV; lia.
  - intros x y z Hx Hy Hz. rewrite <- (get_join_right t a i b) by assumption.
    rewrite (svd_split_sum _ _ _ _ _ _ l x (y + i * z)%nat Hs Hl) by (try assumption; nia).
    f_equal. apply sum_ext. intros c Hcl. rewrite (get_unjoin_right V' l i b) by assumption.
    rewrite HgU by assumption. rewrite HV by (try assumption; nia). ring.
Qed.

End Facts.
