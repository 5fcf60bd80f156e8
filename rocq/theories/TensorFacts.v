(** Lemmas about the tensor model. *)
From Coq Require Import Bool List Arith Lia Ring.
From Verif Require Import Scalar ScalarFacts Tensor.
Import ListNotations.

Section Facts.
Context {SC : Scalar}.
Add Ring Kring : k_ring.

Lemma nprod_app ds es : nprod (ds ++ es) = nprod ds * nprod es.
Proof. unfold nprod. induction ds as [|d ds IH]; cbn; [lia|rewrite IH; lia]. Qed.

Lemma offset_lt ds is : in_range ds is -> offset ds is < nprod ds.
Proof.
  intros H. induction H as [|d i ds is Hi H IH]; cbn; [lia|].
  fold (nprod ds). nia.
Qed.

Lemma unravel_offset ds is : in_range ds is -> unravel ds (offset ds is) = is.
Proof.
  intros H. induction H as [|d i ds is Hi H IH]; cbn; [reflexivity|].
  assert (Hd : d <> 0) by lia.
  rewrite (Nat.mul_comm d), Nat.mod_add, Nat.div_add by assumption.
  rewrite Nat.mod_small, Nat.div_small by assumption.
  rewrite Nat.add_0_l, IH. reflexivity.
Qed.

Lemma unravel_in_range ds n : n < nprod ds -> in_range ds (unravel ds n).
Proof.
  revert n. induction ds as [|d ds IH]; intros n Hn; cbn in *; constructor.
  - apply Nat.mod_upper_bound. intros ->. cbn in Hn. lia.
  - apply IH. fold (nprod ds) in Hn. apply Nat.div_lt_upper_bound; [intros ->; cbn in Hn; lia|lia].
Qed.

Lemma offset_unravel ds n : n < nprod ds -> offset ds (unravel ds n) = n.
Proof.
  revert n. induction ds as [|d ds IH]; intros n Hn; cbn in *; [lia|].
  fold (nprod ds) in Hn. assert (d <> 0) by (intros ->; cbn in Hn; lia).
  rewrite IH by (apply Nat.div_lt_upper_bound; lia).
  symmetry. rewrite Nat.add_comm. apply Nat.div_mod. assumption.
Qed.

Lemma dims_mk ds f : dims (mk ds f) = ds.
Proof. reflexivity. Qed.

Lemma wf_mk ds f : wf (mk ds f).
Proof. unfold wf, mk; cbn. rewrite map_length, seq_length. reflexivity. Qed.

Lemma nth_map_seq {A} (f : nat -> A) n k d : k < n -> nth k (map f (seq 0 n)) d = f k.
Proof.
  intros Hk. rewrite nth_indep with (d' := f 0) by (rewrite map_length, seq_length; exact Hk).
  rewrite map_nth, seq_nth by exact Hk. reflexivity.
Qed.

Lemma get_mk ds f is : in_range ds is -> get (mk ds f) is = f is.
Proof.
  intros H. unfold get, mk; cbn [dims data].
  rewrite nth_map_seq by (apply offset_lt; exact H).
  rewrite unravel_offset by exact H. reflexivity.
Qed.

Lemma get_reshape t ds is is' :
  offset ds is = offset (dims t) is' -> get (reshape t ds) is = get t is'.
Proof. intros H. unfold get, reshape; cbn [dims data]. rewrite H. reflexivity. Qed.

Lemma dims_reshape t ds : dims (reshape t ds) = ds.
Proof. reflexivity. Qed.

Lemma wf_reshape t ds : wf t -> nprod ds = nprod (dims t) -> wf (reshape t ds).
Proof. unfold wf, reshape; cbn [dims data]. intros -> ->. reflexivity. Qed.

Lemma wf_tconj t : wf t -> wf (tconj t).
Proof. unfold wf, tconj; cbn. rewrite map_length. auto. Qed.

Lemma get_tconj t is : get (tconj t) is = kconj (get t is).
Proof.
  unfold get, tconj; cbn [dims data].
  rewrite <- kconj_0 at 1. apply map_nth.
Qed.

(** Extensionality: a tensor is determined by its dimensions and in-range elements. *)
Lemma tensor_ext s t : wf s -> wf t -> dims s = dims t ->
  (forall is, in_range (dims s) is -> get s is = get t is) -> s = t.
Proof.
  destruct s as [ds l], t as [es m]. unfold wf, get; cbn. intros H1 H2 <- H.
  f_equal. apply (nth_ext _ _ 0%K 0%K); [congruence|].
  intros n Hn. rewrite H1 in Hn.
  specialize (H (unravel ds n) (unravel_in_range ds n Hn)).
  rewrite offset_unravel in H by exact Hn. exact H.
Qed.

Lemma in_range_1 a i : i < a -> in_range [a] [i].
Proof. repeat constructor; assumption. Qed.
Lemma in_range_2 a b i j : i < a -> j < b -> in_range [a;b] [i;j].
Proof. repeat constructor; assumption. Qed.
Lemma in_range_3 a b c i j k : i < a -> j < b -> k < c -> in_range [a;b;c] [i;j;k].
Proof. repeat constructor; assumption. Qed.
Lemma in_range_4 a b c d i j k l : i < a -> j < b -> k < c -> l < d ->
  in_range [a;b;c;d] [i;j;k;l].
Proof. repeat constructor; assumption. Qed.

Lemma in_range_cons_inv d ds is : in_range (d :: ds) is ->
  exists i is', is = i :: is' /\ i < d /\ in_range ds is'.
Proof. intros H. inversion H; subst. eauto. Qed.

Lemma in_range_nil_inv is : in_range [] is -> is = [].
Proof. intros H. inversion H; reflexivity. Qed.

(** Empty tensors *)
Lemma is_empty_wf t : wf t -> nprod (dims t) <> 0 -> is_empty t = false.
Proof.
  unfold wf, is_empty. intros H Hn. destruct (data t); [cbn in H; lia|reflexivity].
Qed.

Lemma is_empty_mk ds f : nprod ds <> 0 -> is_empty (mk ds f) = false.
Proof. intros H. apply is_empty_wf; [apply wf_mk|exact H]. Qed.

Lemma is_empty_empty : is_empty empty = true.
Proof. reflexivity. Qed.

(** Elements of sums and multiples *)
Lemma nth_map_combine (f : K -> K -> K) l m n : length l = length m -> n < length l ->
  nth n (map (fun p => f (fst p) (snd p)) (combine l m)) 0%K = f (nth n l 0%K) (nth n m 0%K).
Proof.
  revert m n. induction l as [|x l IH]; intros [|y m] n Hl Hn; cbn in *; try lia.
  destruct n as [|n]; cbn; [reflexivity|]. apply IH; lia.
Qed.

Lemma get_tadd a b is : wf a -> wf b -> dims a = dims b -> in_range (dims a) is ->
  get (tadd a b) is = (get a is + get b is)%K.
Proof.
  intros Ha Hb Hd His. unfold get, tadd; cbn [dims data].
  rewrite nth_map_combine with (f := kadd).
  - rewrite Hd. reflexivity.
  - unfold wf in *. congruence.
  - rewrite Ha. apply offset_lt. exact His.
Qed.

Lemma get_tsub a b is : wf a -> wf b -> dims a = dims b -> in_range (dims a) is ->
  get (tsub a b) is = (get a is - get b is)%K.
Proof.
  intros Ha Hb Hd His. unfold get, tsub; cbn [dims data].
  rewrite nth_map_combine with (f := ksub).
  - rewrite Hd. reflexivity.
  - unfold wf in *. congruence.
  - rewrite Ha. apply offset_lt. exact His.
Qed.

Lemma wf_tadd a b : wf a -> wf b -> dims a = dims b -> wf (tadd a b).
Proof.
  unfold wf, tadd; cbn. intros Ha Hb Hd. rewrite map_length, combine_length, Ha, Hb, Hd.
  apply Nat.min_id.
Qed.

Lemma wf_tsub a b : wf a -> wf b -> dims a = dims b -> wf (tsub a b).
Proof.
  unfold wf, tsub; cbn. intros Ha Hb Hd. rewrite map_length, combine_length, Ha, Hb, Hd.
  apply Nat.min_id.
Qed.

Lemma get_tscale c a is : wf a -> in_range (dims a) is -> get (tscale c a) is = (c * get a is)%K.
Proof.
  intros Ha His. unfold get, tscale; cbn [dims data].
  replace (c * nth (offset (dims a) is) (data a) 0)%K
    with (kmul c (nth (offset (dims a) is) (data a) 0%K)) by reflexivity.
  rewrite nth_indep with (d' := (c * 0)%K)
    by (rewrite map_length, Ha; apply offset_lt; exact His).
  apply map_nth.
Qed.

Lemma wf_tscale c a : wf a -> wf (tscale c a).
Proof. unfold wf, tscale; cbn. rewrite map_length. auto. Qed.

Lemma length_replace_nth {A} k (x : A) l : length (replace_nth k x l) = length l.
Proof. revert k; induction l as [|y l IH]; intros [|k]; cbn; auto. Qed.

Lemma nth_replace_nth_eq {A} k (x d : A) l : k < length l -> nth k (replace_nth k x l) d = x.
Proof. revert k; induction l as [|y l IH]; intros [|k] H; cbn in *; try lia; auto. apply IH; lia. Qed.

Lemma nth_replace_nth_neq {A} k n (x d : A) l : n <> k -> nth n (replace_nth k x l) d = nth n l d.
Proof.
  revert k n; induction l as [|y l IH]; intros [|k] [|n] H; cbn; try reflexivity; try lia.
  apply IH; lia.
Qed.

Lemma wf_set_elem t is x : wf t -> wf (set_elem t is x).
Proof. unfold wf, set_elem; cbn. rewrite length_replace_nth. auto. Qed.

Lemma get_set_elem_eq t is x : wf t -> in_range (dims t) is -> get (set_elem t is x) is = x.
Proof.
  intros H His. unfold get, set_elem; cbn [dims data].
  apply nth_replace_nth_eq. rewrite H. apply offset_lt. exact His.
Qed.

Lemma offset_inj ds is js : in_range ds is -> in_range ds js -> offset ds is = offset ds js -> is = js.
Proof.
  intros Hi Hj H. rewrite <- (unravel_offset ds is Hi), <- (unravel_offset ds js Hj), H. reflexivity.
Qed.

Lemma get_set_elem_neq t is js x : in_range (dims t) is -> in_range (dims t) js -> is <> js ->
  get (set_elem t is x) js = get t js.
Proof.
  intros Hi Hj Hne. unfold get, set_elem; cbn [dims data].
  apply nth_replace_nth_neq. intros E. apply Hne. symmetry. eapply offset_inj; eauto.
Qed.

Lemma is_zero_tensor_spec t : wf t ->
  (is_zero_tensor t = true <-> forall is, in_range (dims t) is -> get t is = 0%K).
Proof.
  intros Hw. unfold is_zero_tensor. rewrite forallb_forall. split.
  - intros H is His. unfold get. apply keqb_eq. apply H. apply nth_In.
    rewrite Hw. apply offset_lt. exact His.
  - intros H x Hx. apply keqb_eq. destruct (In_nth _ _ 0%K Hx) as (n & Hn & <-).
    rewrite Hw in Hn. rewrite <- (offset_unravel _ _ Hn). apply H. apply unravel_in_range. exact Hn.
Qed.

(** Elements of the standard contractions on matrices *)
Lemma get_eye n i j : i < n -> j < n -> get (eye n) [i;j] = delta i j.
Proof. intros Hi Hj. unfold eye. rewrite get_mk by (apply in_range_2; assumption). reflexivity. Qed.

Lemma get_zeros ds is : in_range ds is -> get (zeros ds) is = 0%K.
Proof. intros H. unfold zeros. rewrite get_mk by exact H. reflexivity. Qed.

Lemma get_mmult a b m n p i j : dims a = [m;n] -> dims b = [n;p] -> i < m -> j < p ->
  get (mmult a b) [i;j] = sum n (fun k => get a [i;k] * get b [k;j])%K.
Proof.
  intros Ha Hb Hi Hj. unfold mmult, fold, rank, dim. rewrite Ha, Hb; cbn -[mk sum get].
  rewrite get_mk by (apply in_range_2; assumption). reflexivity.
Qed.

Lemma dims_mmult a b m n p : dims a = [m;n] -> dims b = [n;p] -> dims (mmult a b) = [m;p].
Proof. intros Ha Hb. unfold mmult, fold, rank. rewrite Ha, Hb. reflexivity. Qed.

Lemma dims_transpose a m n : dims a = [m;n] -> dims (transpose a) = [n;m].
Proof. intros Ha. unfold transpose, permute. rewrite Ha. reflexivity. Qed.

Lemma get_transpose a m n i j : dims a = [m;n] -> i < m -> j < n ->
  get (transpose a) [j;i] = get a [i;j].
Proof.
  intros Ha Hi Hj. unfold transpose, permute. rewrite Ha. cbn -[mk get].
  rewrite get_mk by (apply in_range_2; assumption). reflexivity.
Qed.

Lemma get_kron a b m n p q i j k l : dims a = [m;n] -> dims b = [p;q] ->
  i < m -> j < n -> k < p -> l < q ->
  get (kron a b) [k + p * i; l + q * j] = (get a [i;j] * get b [k;l])%K.
Proof.
  intros Ha Hb Hi Hj Hk Hl. unfold kron, dim. rewrite Ha, Hb. cbn [nth].
  rewrite get_mk by (apply in_range_2; nia). cbn [nth].
  assert (Hp : p <> 0) by lia. assert (Hq : q <> 0) by lia.
  rewrite (Nat.mul_comm p i), (Nat.mul_comm q j).
  rewrite !Nat.mod_add, !Nat.div_add, !Nat.mod_small, !Nat.div_small by assumption.
  reflexivity.
Qed.

Lemma dims_kron a b m n p q : dims a = [m;n] -> dims b = [p;q] ->
  dims (kron a b) = [m*p; n*q].
Proof. intros Ha Hb. unfold kron, dim. rewrite Ha, Hb. reflexivity. Qed.

End Facts.
