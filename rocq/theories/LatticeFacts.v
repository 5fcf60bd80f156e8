(** * Facts about words and configurations (C34) *)
From Coq Require Import Bool List Arith ZArith Lia Permutation Sorted.
From Verif Require Import Scalar Tensor LatticeModel LatticeSpec.
Import ListNotations.

(** ** Counting bits *)
Lemma filter_map_swap {A B} (p : B -> bool) (f : A -> B) l :
  filter p (map f l) = map f (filter (fun x => p (f x)) l).
Proof. induction l as [|a l IH]; cbn; auto. destruct (p (f a)); cbn; rewrite IH; auto. Qed.

Lemma ones_add a b w : ones (a + b) w = ones a w + ones b (Z.shiftr w (Z.of_nat a)).
Proof.
  unfold ones. rewrite seq_app, filter_app, app_length. f_equal. rewrite Nat.add_0_l.
  replace (seq a b) with (map (Nat.add a) (seq 0 b)).
  - rewrite filter_map_swap, map_length. f_equal. apply filter_ext. intros k. unfold occ.
    rewrite Z.shiftr_spec by lia. f_equal. lia.
  - clear. induction b as [|b IH] in a |- *; auto. rewrite !seq_S, map_app, IH. cbn. reflexivity.
Qed.

Lemma ones_ext n v w : (forall k, k < n -> occ v k = occ w k) -> ones n v = ones n w.
Proof. intros H. unfold ones. f_equal. apply filter_ext_in. intros k Hk. apply in_seq in Hk. apply H; lia. Qed.

Lemma byte_table w : (0 <= w < 256)%Z -> byte_at w = ones 8 w.
Proof.
  intros H.
  assert (E : forallb (fun k => Nat.eqb (byte_at (Z.of_nat k)) (ones 8 (Z.of_nat k))) (seq 0 256) = true)
    by (vm_compute; reflexivity).
  rewrite forallb_forall in E. specialize (E (Z.to_nat w)).
  rewrite Z2Nat.id in E by lia. apply Nat.eqb_eq, E. apply in_seq. lia.
Qed.

Lemma byte_land w : byte_at (Z.land w 255) = ones 8 w.
Proof.
  change 255%Z with (Z.ones 8). rewrite byte_table.
  - apply ones_ext. intros k Hk. unfold occ. rewrite Z.land_spec, Z.ones_spec_low by lia. apply andb_true_r.
  - rewrite Z.land_ones by lia. apply Z.mod_pos_bound. lia.
Qed.

Lemma count_bits_ones w : count_bits w = ones 40 w.
Proof.
  unfold count_bits. rewrite !byte_land.
  change 40 with (8 + (8 + (8 + (8 + 8)))).
  rewrite !ones_add, !Z.shiftr_shiftr by lia. cbn [Z.of_nat Pos.of_succ_nat Z.add Pos.add Pos.succ Pos.add_carry].
  rewrite !Nat.add_assoc. reflexivity.
Qed.

Lemma small_bit n w k : (0 <= w < 2 ^ Z.of_nat n)%Z -> n <= k -> occ w k = false.
Proof.
  intros H Hk. unfold occ. destruct (Z.eq_dec w 0) as [->|N]; [apply Z.bits_0|].
  apply Z.bits_above_log2; [lia|]. apply Z.log2_lt_pow2; [lia|].
  eapply Z.lt_le_trans; [apply H|]. apply Z.pow_le_mono_r; lia.
Qed.

Lemma bits_small n w : (0 <= w)%Z -> (forall k, n <= k -> occ w k = false) -> (w < 2 ^ Z.of_nat n)%Z.
Proof.
  intros H0 H. destruct (Z.eq_dec w 0) as [->|N]; [apply Z.pow_pos_nonneg; lia|].
  apply Z.log2_lt_pow2; [lia|]. destruct (Z.lt_ge_cases (Z.log2 w) (Z.of_nat n)) as [|C]; auto.
  specialize (H (Z.to_nat (Z.log2 w))). unfold occ in H. rewrite Z2Nat.id in H by apply Z.log2_nonneg.
  rewrite Z.bit_log2 in H by lia. discriminate H. lia.
Qed.

Lemma ones_big n m w : (0 <= w < 2 ^ Z.of_nat n)%Z -> n <= m -> ones m w = ones n w.
Proof.
  intros H L. replace m with (n + (m - n)) by lia. unfold ones.
  rewrite seq_app, filter_app, app_length.
  enough (filter (occ w) (seq (0 + n) (m - n)) = []) as -> by (cbn; lia).
  assert (forall l, (forall k, In k l -> occ w k = false) -> filter (occ w) l = []) as F.
  { induction l as [|a l IH]; cbn; intros G; auto. rewrite (G a) by auto. apply IH. auto. }
  apply F. intros k Hk. apply in_seq in Hk. apply (small_bit n); auto; lia.
Qed.

Lemma count_ones n w : n <= 40 -> (0 <= w < 2 ^ Z.of_nat n)%Z -> count_bits w = ones n w.
Proof. intros. rewrite count_bits_ones. apply ones_big; auto. Qed.

Lemma ones_le n w : ones n w <= n.
Proof.
  unfold ones. rewrite <- (seq_length n 0) at 2. generalize (seq 0 n). intros l.
  induction l as [|a l IH]; cbn; auto. destruct (occ w a); cbn; lia.
Qed.

(** ** Increasing lists *)
Lemma words_in n w : In w (words n) <-> (0 <= w < 2 ^ Z.of_nat n)%Z.
Proof.
  unfold words. rewrite in_map_iff. split.
  - intros (k & <- & Hk). apply in_seq in Hk. change 2%Z with (Z.of_nat 2). rewrite <- Nat2Z.inj_pow. lia.
  - intros H. exists (Z.to_nat w). split; [apply Z2Nat.id; lia|]. apply in_seq.
    change 2%Z with (Z.of_nat 2) in H. rewrite <- Nat2Z.inj_pow in H. lia.
Qed.

Lemma increasing_nil : increasing [].
Proof. intros i j; cbn; lia. Qed.

Lemma increasing_cons a l : increasing (a :: l) <-> Forall (Z.lt a) l /\ increasing l.
Proof.
  split.
  - intros H. split.
    + apply Forall_forall. intros x Hx. apply (In_nth _ _ 0%Z) in Hx. destruct Hx as (k & Hk & <-).
      apply (H 0 (S k)). cbn; lia.
    + intros i j Hij. apply (H (S i) (S j)). cbn; lia.
  - intros (F & I) [|i] [|j]; cbn; intros Hij; try lia.
    + rewrite Forall_forall in F. apply F, nth_In. lia.
    + apply I. lia.
Qed.

Lemma increasing_filter p l : increasing l -> increasing (filter p l).
Proof.
  induction l as [|a l IH]; cbn; auto. rewrite increasing_cons. intros (F & I).
  destruct (p a); auto. apply increasing_cons. split; auto.
  rewrite Forall_forall in *. intros x Hx. apply filter_In in Hx. apply F, Hx.
Qed.

Lemma increasing_words n : increasing (words n).
Proof.
  unfold words. generalize (2 ^ n). intros m i j Hij. rewrite map_length, seq_length in Hij.
  change 0%Z with (Z.of_nat 0). rewrite !map_nth, !seq_nth by lia. lia.
Qed.

Lemma increasing_NoDup l : increasing l -> NoDup l.
Proof.
  induction l as [|a l IH]; [constructor|]. rewrite increasing_cons. intros (F & I). constructor; auto.
  intros H. rewrite Forall_forall in F. specialize (F a H). lia.
Qed.

(** ** The configurations of a lattice *)
Lemma lattice_new_ok sites N L : lattice_new sites N = Ok L ->
  sites <= 34 /\ (N <= Z.of_nat sites)%Z /\ number_of_sites L = sites /\ number_of_particles L = N /\
  configurations L = filter (fun c => Z.eqb (Z.of_nat (count_bits c)) N) (words sites).
Proof.
  unfold lattice_new, states_with_n_particles. destruct (Nat.ltb_spec 34 sites); [discriminate|].
  destruct (Z.ltb_spec (Z.of_nat sites) N); [discriminate|]. cbn [bind].
  intros E. injection E as <-. cbn. auto.
Qed.

Lemma conf_in sites N L w : lattice_new sites N = Ok L ->
  (In w (configurations L) <-> (0 <= w < 2 ^ Z.of_nat sites)%Z /\ Z.of_nat (ones sites w) = N).
Proof.
  intros H. apply lattice_new_ok in H as (H1 & H2 & _ & _ & ->).
  rewrite filter_In, words_in. split; intros (A & B); split; auto.
  - apply Z.eqb_eq in B. rewrite <- B. rewrite (count_ones sites); auto; lia.
  - apply Z.eqb_eq. rewrite (count_ones sites); auto; lia.
Qed.

Lemma conf_increasing sites N L : lattice_new sites N = Ok L -> increasing (configurations L).
Proof.
  intros H. apply lattice_new_ok in H as (_ & _ & _ & _ & ->). apply increasing_filter, increasing_words.
Qed.

(** ** The number of configurations *)
Lemma filter_length_ext_in {A} (p q : A -> bool) l :
  (forall x, In x l -> p x = q x) -> length (filter p l) = length (filter q l).
Proof. intros. f_equal. now apply filter_ext_in. Qed.

Lemma occ_top n w k : (0 <= w < 2 ^ Z.of_nat n)%Z ->
  occ (w + 2 ^ Z.of_nat n) k = if Nat.eqb k n then true else occ w k.
Proof.
  intros H. rewrite Z.add_nocarry_lxor.
  - unfold occ. rewrite Z.lxor_spec, Z.pow2_bits_eqb by lia. destruct (Nat.eqb_spec k n) as [->|N].
    + rewrite Z.eqb_refl. change (Z.testbit w (Z.of_nat n)) with (occ w n). rewrite (small_bit n); auto.
    + destruct (Z.eqb_spec (Z.of_nat n) (Z.of_nat k)); [lia|]. apply xorb_false_r.
  - apply Z.bits_inj'. intros m Hm. rewrite Z.land_spec, Z.pow2_bits_eqb, Z.bits_0 by lia.
    destruct (Z.eqb_spec (Z.of_nat n) m) as [<-|]; [|apply andb_false_r].
    change (Z.testbit w (Z.of_nat n)) with (occ w n). rewrite (small_bit n); auto.
Qed.

Lemma ones_S n w : ones (S n) w = ones n w + (if occ w n then 1 else 0).
Proof.
  unfold ones. rewrite seq_S, filter_app, app_length. cbn. destruct (occ w n); reflexivity.
Qed.

Lemma words_S n : words (S n) = words n ++ map (fun w => (w + 2 ^ Z.of_nat n)%Z) (words n).
Proof.
  unfold words. replace (2 ^ S n) with (2 ^ n + 2 ^ n) by (cbn; lia).
  rewrite seq_app, map_app, map_map. f_equal. cbn [Nat.add].
  change 2%Z with (Z.of_nat 2). rewrite <- Nat2Z.inj_pow. generalize (2 ^ n) at 1 3. intros a.
  generalize (2 ^ n). intros b. induction b as [|b IH] in a |- *; auto.
  rewrite !seq_S, !map_app, IH. cbn. f_equal. f_equal. lia.
Qed.

Lemma count_binom n k : length (filter (fun w => Nat.eqb (ones n w) k) (words n)) = binom n k.
Proof.
  induction n as [|n IH] in k |- *.
  - unfold words, ones. cbn. destruct k; reflexivity.
  - rewrite words_S, filter_app, app_length, filter_map_swap, map_length.
    rewrite (filter_length_ext_in _ (fun w => Nat.eqb (ones n w) k) (words n)).
    2:{ intros w Hw. apply words_in in Hw. rewrite ones_S, (small_bit n) by auto. f_equal. lia. }
    rewrite IH. destruct k as [|k].
    + rewrite (filter_length_ext_in _ (fun _ => false) (words n)).
      * replace (binom (S n) 0) with 1 by reflexivity.
        assert (forall l : list Z, filter (fun _ : Z => false) l = []) as -> by (induction l; auto).
        destruct n; cbn; lia.
      * intros w Hw. apply words_in in Hw. rewrite ones_S, occ_top, Nat.eqb_refl by auto.
        apply Nat.eqb_neq. lia.
    + rewrite (filter_length_ext_in _ (fun w => Nat.eqb (ones n w) k) (words n)).
      * rewrite IH. cbn [binom]. lia.
      * intros w Hw. apply words_in in Hw. rewrite ones_S, occ_top, Nat.eqb_refl by auto.
        rewrite (ones_ext n _ w).
        -- destruct (Nat.eqb_spec (ones n w) k); destruct (Nat.eqb_spec (ones n w + 1) (S k)); lia || auto.
        -- intros j Hj. rewrite occ_top by auto. destruct (Nat.eqb_spec j n); [lia|auto].
Qed.

Lemma dimension_binom sites k L : lattice_new sites (Z.of_nat k) = Ok L -> dimension L = binom sites k.
Proof.
  intros H. apply lattice_new_ok in H as (H1 & H2 & _ & _ & E). unfold dimension. rewrite E.
  rewrite <- count_binom. apply filter_length_ext_in. intros w Hw. apply words_in in Hw.
  rewrite (count_ones sites) by (auto; lia).
  destruct (Z.eqb_spec (Z.of_nat (ones sites w)) (Z.of_nat k)); destruct (Nat.eqb_spec (ones sites w) k); lia || auto.
Qed.

(** ** sort_indices *)
Lemma sorted_perm_eq (l l' : list Z) :
  StronglySorted Z.le l -> StronglySorted Z.le l' -> Permutation l l' -> l = l'.
Proof.
  induction l as [|a l IH] in l' |- *; intros S S' P.
  - apply Permutation_nil in P. auto.
  - destruct l' as [|b l']; [apply Permutation_sym, Permutation_nil in P; discriminate|].
    inversion S as [|? ? S1 F]; inversion S' as [|? ? S1' F']; subst.
    assert (a = b) as ->.
    { assert (In a (b :: l')) as Ha by (eapply Permutation_in; [apply P|left; auto]).
      assert (In b (a :: l)) as Hb by (eapply Permutation_in; [apply Permutation_sym, P|left; auto]).
      rewrite Forall_forall in F, F'. destruct Ha as [->|Ha]; auto. destruct Hb as [->|Hb]; auto.
      specialize (F _ Hb). specialize (F' _ Ha). lia. }
    f_equal. apply IH; auto. eapply Permutation_cons_inv; eauto.
Qed.

Lemma insert_key_perm p l : Permutation (insert_key p l) (p :: l).
Proof.
  induction l as [|q l IH]; cbn; auto. destruct (fst p <=? fst q)%Z; auto.
  eapply perm_trans; [apply perm_skip, IH|]. apply perm_swap.
Qed.

Lemma insert_key_sorted p l : StronglySorted Z.le (map fst l) -> StronglySorted Z.le (map fst (insert_key p l)).
Proof.
  induction l as [|q l IH]; cbn; intros H.
  - constructor; constructor.
  - inversion H as [|? ? S F]; subst. destruct (Z.leb_spec (fst p) (fst q)).
    + cbn. constructor; auto. constructor; auto. eapply Forall_impl; [|apply F]. intros; cbn; lia.
    + cbn. constructor; auto. apply (Permutation_Forall (x := map fst (p :: l))).
      * apply Permutation_map, Permutation_sym, insert_key_perm.
      * cbn. constructor; auto. lia.
Qed.

Lemma sort_perm l : Permutation (fold_right insert_key [] l) l.
Proof.
  induction l as [|p l IH]; cbn; auto. eapply perm_trans; [apply insert_key_perm|]. auto.
Qed.
Lemma sort_sorted l : StronglySorted Z.le (map fst (fold_right insert_key [] l)).
Proof. induction l as [|p l IH]; cbn; [constructor|]. now apply insert_key_sorted. Qed.

Lemma map_fst_combine {A B} (u : list A) (v : list B) : length u = length v -> map fst (combine u v) = u.
Proof. induction u as [|a u IH] in v |- *; destruct v; cbn; intros; try lia; f_equal; auto. Qed.

Lemma increasing_strong l : increasing l -> StronglySorted Z.le l.
Proof.
  induction l as [|a l IH]; [constructor|]. rewrite increasing_cons. intros (F & I). constructor; auto.
  eapply Forall_impl; [|apply F]. intros; cbn; lia.
Qed.

Lemma in_combine_seq {A} (v : list A) (d : A) a x k : In (x, k) (combine v (seq a (length v))) ->
  a <= k < a + length v /\ nth (k - a) v d = x.
Proof.
  induction v as [|y v IH] in a |- *; cbn; [tauto|]. intros [E|H].
  - injection E as -> ->. split; [lia|]. now rewrite Nat.sub_diag.
  - apply IH in H as (H1 & H2). split; [lia|]. replace (k - a) with (S (k - S a)) by lia. auto.
Qed.

(** Sorting a rearrangement of an increasing list. *)
Lemma sort_indices_spec v s : increasing s -> Permutation v s ->
  length (sort_indices v) = length s /\
  forall k, k < length s -> nth k (sort_indices v) 0 < length v /\ nth (nth k (sort_indices v) 0) v 0%Z = nth k s 0%Z.
Proof.
  intros I P. unfold sort_indices. set (l := combine v (seq 0 (length v))).
  assert (map fst (fold_right insert_key [] l) = s) as E.
  { apply sorted_perm_eq; [apply sort_sorted|now apply increasing_strong|].
    eapply perm_trans; [apply Permutation_map, sort_perm|]. unfold l. rewrite map_fst_combine; auto.
    now rewrite seq_length. }
  assert (Len : length (fold_right insert_key [] l) = length s) by (rewrite <- E; now rewrite map_length).
  split; [now rewrite map_length|].
  intros k Hk.
  assert (Hin : In (nth k (fold_right insert_key [] l) (0%Z, 0)) l).
  { eapply Permutation_in; [apply sort_perm|]. apply nth_In. lia. }
  rewrite <- E.
  rewrite (nth_indep (map snd _) 0 (snd (0%Z, 0))) by (rewrite map_length; lia).
  rewrite (nth_indep (map fst _) 0%Z (fst (0%Z, 0))) by (rewrite map_length; lia).
  rewrite !map_nth. destruct (nth k (fold_right insert_key [] l) (0%Z, 0)) as [x j]. cbn [fst snd].
  apply (in_combine_seq v 0%Z) in Hin as (H1 & H2). rewrite Nat.sub_0_r in H2. split; [lia|auto].
Qed.
