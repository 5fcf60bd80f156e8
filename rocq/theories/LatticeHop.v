(** * Facts about hopping, interaction and the lattice Hamiltonian (C35-C37) *)
From Coq Require Import Bool List Arith ZArith Lia Permutation Sorted.
From Verif Require Import Scalar ScalarFacts Tensor TensorFacts LatticeModel LatticeSpec LatticeFacts.
Import ListNotations.

(** ** Bits *)
Lemma occ_mask a k : occ (mask a) k = Nat.eqb k a.
Proof.
  unfold occ, mask. rewrite Z.shiftl_1_l, Z.pow2_bits_eqb by lia.
  destruct (Z.eqb_spec (Z.of_nat a) (Z.of_nat k)); destruct (Nat.eqb_spec k a); lia || auto.
Qed.
Lemma occ_land v w k : occ (Z.land v w) k = occ v k && occ w k.
Proof. apply Z.land_spec. Qed.
Lemma occ_lor v w k : occ (Z.lor v w) k = occ v k || occ w k.
Proof. apply Z.lor_spec. Qed.
Lemma occ_lxor v w k : occ (Z.lxor v w) k = xorb (occ v k) (occ w k).
Proof. apply Z.lxor_spec. Qed.
Lemma occ_clear w a k : occ (Z.clearbit w (Z.of_nat a)) k = occ w k && negb (Nat.eqb k a).
Proof.
  unfold occ. rewrite Z.clearbit_eqb by lia. f_equal. f_equal.
  destruct (Z.eqb_spec (Z.of_nat a) (Z.of_nat k)); destruct (Nat.eqb_spec k a); lia || auto.
Qed.
Lemma occ_set w a k : occ (Z.setbit w (Z.of_nat a)) k = Nat.eqb k a || occ w k.
Proof.
  unfold occ. rewrite Z.setbit_eqb by lia. f_equal.
  destruct (Z.eqb_spec (Z.of_nat a) (Z.of_nat k)); destruct (Nat.eqb_spec k a); lia || auto.
Qed.
Lemma occ_inj v w : (forall k, occ v k = occ w k) -> v = w.
Proof.
  intros H. apply Z.bits_inj'. intros n Hn. specialize (H (Z.to_nat n)). unfold occ in H.
  rewrite Z2Nat.id in H by lia. exact H.
Qed.
Lemma occ_low a k : occ (mask a - 1) k = Nat.ltb k a.
Proof.
  unfold mask, occ. rewrite Z.shiftl_1_l.
  replace (2 ^ Z.of_nat a - 1)%Z with (Z.ones (Z.of_nat a)) by (rewrite Z.ones_equiv; lia).
  rewrite Z.testbit_ones_nonneg by lia.
  destruct (Z.ltb_spec (Z.of_nat k) (Z.of_nat a)); destruct (Nat.ltb_spec k a); lia || auto.
Qed.
Lemma occ_lnot w k : occ (Z.lnot w) k = negb (occ w k).
Proof. unfold occ. apply Z.lnot_spec. lia. Qed.

(** ** The exchange of two sites *)
Definition flip (a b : nat) (w : Z) : Z :=
  if xorb (occ w a) (occ w b) then Z.lxor w (Z.lor (mask b) (mask a)) else w.

Lemma occ_flip a b w k : a <> b ->
  occ (flip a b w) k = if Nat.eqb k a then occ w b else if Nat.eqb k b then occ w a else occ w k.
Proof.
  intros N. unfold flip. destruct (xorb (occ w a) (occ w b)) eqn:E.
  - rewrite occ_lxor, occ_lor, !occ_mask. destruct (Nat.eqb_spec k a) as [->|].
    + rewrite orb_true_r. destruct (occ w a), (occ w b); cbn in *; congruence.
    + destruct (Nat.eqb_spec k b) as [->|]; cbn.
      * destruct (occ w a), (occ w b); cbn in *; congruence.
      * apply xorb_false_r.
  - destruct (Nat.eqb_spec k a) as [->|].
    + destruct (occ w a), (occ w b); cbn in *; congruence.
    + destruct (Nat.eqb_spec k b) as [->|]; auto. destruct (occ w a), (occ w b); cbn in *; congruence.
Qed.

Lemma flip_flip a b w : a <> b -> flip a b (flip a b w) = w.
Proof.
  intros N. apply occ_inj. intros k. rewrite !occ_flip by auto.
  rewrite Nat.eqb_refl. destruct (Nat.eqb_spec b a); [congruence|]. rewrite Nat.eqb_refl.
  destruct (Nat.eqb_spec k a) as [->|]; auto. destruct (Nat.eqb_spec k b) as [->|]; auto.
Qed.

Lemma flip_sym a b w : flip a b w = flip b a w.
Proof. unfold flip. now rewrite xorb_comm, Z.lor_comm. Qed.

Lemma flip_nonneg a b w : (0 <= w)%Z -> (0 <= flip a b w)%Z.
Proof.
  intros H. unfold flip. destruct (xorb _ _); auto. apply Z.lxor_nonneg. split; intros; auto.
  apply Z.lor_nonneg. unfold mask. rewrite !Z.shiftl_nonneg. lia.
Qed.

Lemma flip_small n a b w : a < n -> b < n -> a <> b -> (0 <= w < 2 ^ Z.of_nat n)%Z ->
  (0 <= flip a b w < 2 ^ Z.of_nat n)%Z.
Proof.
  intros Ha Hb N H. split; [apply flip_nonneg; lia|]. apply bits_small; [apply flip_nonneg; lia|].
  intros k Hk. rewrite occ_flip by auto. destruct (Nat.eqb_spec k a); [lia|]. destruct (Nat.eqb_spec k b); [lia|].
  apply (small_bit n); auto.
Qed.

Definition b2n (b : bool) : nat := if b then 1 else 0.
Fixpoint bsum (n : nat) (f : nat -> bool) : nat := match n with O => 0 | S n => bsum n f + b2n (f n) end.
Lemma filter_bsum n f : length (filter f (seq 0 n)) = bsum n f.
Proof.
  induction n as [|n IH]; auto. rewrite seq_S, filter_app, app_length, IH. cbn. destruct (f n); reflexivity.
Qed.
Lemma bsum_ext n f g : (forall k, k < n -> f k = g k) -> bsum n f = bsum n g.
Proof. induction n as [|n IH]; cbn; intros H; auto. rewrite IH, (H n) by auto. auto. Qed.

Lemma bsum_update n f a v : a < n ->
  bsum n (fun k => if Nat.eqb k a then v else f k) + b2n (f a) = bsum n f + b2n v.
Proof.
  induction n as [|n IH]; intros H; [lia|]. cbn. destruct (Nat.eq_dec a n) as [->|N].
  - rewrite Nat.eqb_refl. rewrite (bsum_ext n _ f); [lia|]. intros k Hk. destruct (Nat.eqb_spec k n); [lia|auto].
  - destruct (Nat.eqb_spec n a); [lia|]. specialize (IH ltac:(lia)). lia.
Qed.

Lemma ones_flip n a b w : a < n -> b < n -> a <> b -> ones n (flip a b w) = ones n w.
Proof.
  intros Ha Hb N. unfold ones. rewrite !filter_bsum.
  rewrite (bsum_ext n _ (fun k => if Nat.eqb k a then occ w b else if Nat.eqb k b then occ w a else occ w k))
    by (intros; now apply occ_flip).
  pose proof (bsum_update n (fun k => if Nat.eqb k b then occ w a else occ w k) a (occ w b) Ha) as H1.
  pose proof (bsum_update n (occ w) b (occ w a) Hb) as H2.
  cbn beta in H1. destruct (Nat.eqb_spec a b); [congruence|]. lia.
Qed.

Lemma flip_conf sites N L a b w : lattice_new sites N = Ok L -> a < sites -> b < sites -> a <> b ->
  In w (configurations L) -> In (flip a b w) (configurations L).
Proof.
  intros H Ha Hb NE. rewrite !(conf_in _ _ _ _ H). intros (H1 & H2). split.
  - now apply flip_small.
  - now rewrite ones_flip.
Qed.

Lemma flip_perm sites N L a b : lattice_new sites N = Ok L -> a < sites -> b < sites -> a <> b ->
  Permutation (map (flip a b) (configurations L)) (configurations L).
Proof.
  intros H Ha Hb NE. pose proof (increasing_NoDup _ (conf_increasing _ _ _ H)) as ND.
  apply NoDup_Permutation; auto.
  - apply FinFun.Injective_map_NoDup; auto. intros x y E. rewrite <- (flip_flip a b x), E; auto. now apply flip_flip.
  - intros w. split.
    + intros Hw. apply in_map_iff in Hw as (v & <- & Hv). now apply (flip_conf sites N).
    + intros Hw. apply in_map_iff. exists (flip a b w). split; [now apply flip_flip|]. now apply (flip_conf sites N).
Qed.

Lemma nth_map {A B} (f : A -> B) (da : A) (db : B) l k : k < length l -> nth k (map f l) db = f (nth k l da).
Proof. intros H. rewrite (nth_indep _ db (f da)) by (rewrite map_length; auto). apply map_nth. Qed.

(** Position of the exchanged configuration. *)
Lemma flip_sort sites N L a b : lattice_new sites N = Ok L -> a < sites -> b < sites -> a <> b ->
  let p := sort_indices (map (flip a b) (configurations L)) in
  length p = dimension L /\
  forall k, k < dimension L -> nth k p 0 < dimension L /\ conf L (nth k p 0) = flip a b (conf L k).
Proof.
  intros H Ha Hb NE p.
  destruct (sort_indices_spec (map (flip a b) (configurations L)) (configurations L)) as (Len & S).
  { eapply conf_increasing; eauto. } { eapply flip_perm; eauto. }
  split; auto. intros k Hk. fold p in S. specialize (S k Hk) as (S1 & S2). rewrite map_length in S1.
  split; auto. unfold conf. rewrite (nth_map _ 0%Z) in S2 by auto. rewrite <- S2. now rewrite flip_flip.
Qed.

Lemma conf_inj sites N L r c : lattice_new sites N = Ok L -> r < dimension L -> c < dimension L ->
  conf L r = conf L c -> r = c.
Proof.
  intros H Hr Hc. apply (NoDup_nth (configurations L) 0%Z); auto.
  eapply increasing_NoDup, conf_increasing; eauto.
Qed.

Lemma conf_eqb sites N L r c : lattice_new sites N = Ok L -> r < dimension L -> c < dimension L ->
  Z.eqb (conf L r) (conf L c) = Nat.eqb r c.
Proof.
  intros H Hr Hc. destruct (Nat.eqb_spec r c) as [->|N1]; [apply Z.eqb_refl|].
  apply Z.eqb_neq. intros E. apply N1. eapply conf_inj; eauto.
Qed.

(** ** One hop *)
Lemma land_two w a b : a <> b ->
  Z.eqb (Z.land w (Z.lor (mask a) (mask b))) (mask a) = occ w a && negb (occ w b).
Proof.
  intros N. destruct (Z.eqb_spec (Z.land w (Z.lor (mask a) (mask b))) (mask a)) as [E|E].
  - pose proof (f_equal (fun z => occ z a) E) as Ea. pose proof (f_equal (fun z => occ z b) E) as Eb. cbn beta in *.
    rewrite occ_land, occ_lor, !occ_mask, Nat.eqb_refl, andb_true_r in Ea.
    rewrite occ_land, occ_lor, !occ_mask, Nat.eqb_refl, orb_true_r, andb_true_r in Eb.
    destruct (Nat.eqb_spec b a); [congruence|]. now rewrite Ea, Eb.
  - symmetry. apply not_true_is_false. intros T. apply andb_true_iff in T as (Ta & Tb).
    apply negb_true_iff in Tb. apply E, occ_inj. intros k. rewrite occ_land, occ_lor, !occ_mask.
    destruct (Nat.eqb_spec k a) as [->|]; [now rewrite Ta|].
    destruct (Nat.eqb_spec k b) as [->|]; [now rewrite Tb|]. cbn. apply andb_false_r.
Qed.

Lemma can_hop_ne to from w : to <> from -> can_hop to from w = occ w from && negb (occ w to).
Proof.
  intros N. unfold can_hop. rewrite occ_clear. destruct (Nat.eqb_spec to from); [congruence|].
  now rewrite andb_true_r.
Qed.
Lemma can_hop_eq i w : can_hop i i w = occ w i.
Proof. unfold can_hop. rewrite occ_clear, Nat.eqb_refl. cbn. rewrite andb_false_r. apply andb_true_r. Qed.

Lemma hopped_flip to from w : to <> from -> can_hop to from w = true -> hopped to from w = flip to from w.
Proof.
  intros N H. rewrite can_hop_ne in H by auto. apply andb_true_iff in H as (H1 & H2). apply negb_true_iff in H2.
  apply occ_inj. intros k. rewrite occ_flip by auto. unfold hopped. rewrite occ_set, occ_clear.
  destruct (Nat.eqb_spec k to) as [->|]; [now rewrite H1|]. cbn.
  destruct (Nat.eqb_spec k from) as [->|]; cbn; [rewrite H2; apply andb_false_r|apply andb_true_r].
Qed.
Lemma hopped_eq i w : occ w i = true -> hopped i i w = w.
Proof.
  intros H. apply occ_inj. intros k. unfold hopped. rewrite occ_set, occ_clear.
  destruct (Nat.eqb_spec k i) as [->|]; [now rewrite H|]. apply andb_true_r.
Qed.

Lemma bsum_split n a f : a <= n -> (forall k, a <= k < n -> f k = false) -> bsum n f = bsum a f.
Proof.
  intros H. induction n as [|n IH]; intros F; [now replace a with 0 by lia|].
  destruct (Nat.eq_dec a (S n)) as [->|]; auto. cbn. rewrite (F n) by lia. rewrite IH; [cbn; lia|lia|].
  intros; apply F; lia.
Qed.

Lemma bsum_insert n f a : a < n -> f a = false ->
  bsum n (fun k => Nat.eqb k a || f k) = S (bsum n f).
Proof.
  intros H F. pose proof (bsum_update n f a true H) as E. rewrite F in E. cbn in E.
  rewrite (bsum_ext n _ (fun k => if Nat.eqb k a then true else f k)); [lia|].
  intros k _. destruct (Nat.eqb_spec k a); auto.
Qed.

(** The fermionic sign. *)
Lemma sign_bits to from w : to <> from -> to < 40 -> from < 40 ->
  occ w from = true -> occ w to = false ->
  Nat.eqb (count_bits (Z.land w (if Nat.ltb from to then Z.land (mask to - 1) (Z.lnot (mask from - 1))
                                else Z.land (mask from - 1) (Z.lnot (mask to - 1)))) mod 2)
          (if Nat.ltb from to then 0 else 1) = negb (Nat.even (between to from w)).
Proof.
  intros N Ht Hf Of Ot. rewrite count_bits_ones. unfold ones, between. rewrite !filter_bsum.
  assert (E2 : forall x, (x mod 2 =? 0) = Nat.even x).
  { intros x. destruct (Nat.even x) eqn:E.
    - apply Nat.even_spec in E as (y & ->). rewrite Nat.mul_comm, Nat.mod_mul by lia. reflexivity.
    - apply Nat.eqb_neq. intros M. apply Nat.mod_divides in M as (y & ->); [|lia].
      rewrite Nat.even_mul in E. discriminate. }
  assert (E3 : forall x, (x mod 2 =? 1) = negb (Nat.even x)).
  { intros x. rewrite <- E2. pose proof (Nat.mod_upper_bound x 2). destruct (x mod 2) as [|[|]]; auto. lia. }
  destruct (Nat.ltb_spec from to) as [L|L].
  - rewrite E2. rewrite (bsum_split 40 to); [|lia|].
    2:{ intros k Hk. rewrite !occ_land, occ_low. destruct (Nat.ltb_spec k to); [lia|]. cbn. apply andb_false_r. }
    replace (Nat.max to from) with to by lia. replace (Nat.min to from) with from by lia.
    rewrite (bsum_ext to _ (fun k => Nat.eqb k from || (Nat.ltb from k && occ w k))).
    + rewrite bsum_insert; [now rewrite Nat.even_succ, <- Nat.negb_even|lia|].
      destruct (Nat.ltb_spec from from); [lia|auto].
    + intros k Hk. rewrite !occ_land, occ_lnot, !occ_low. destruct (Nat.ltb_spec k to); [|lia].
      destruct (Nat.eqb_spec k from) as [->|].
      * rewrite Of. destruct (Nat.ltb_spec from from); [lia|auto].
      * destruct (Nat.ltb_spec k from); destruct (Nat.ltb_spec from k); first [lia | cbn; apply andb_false_r | cbn; apply andb_true_r].
  - rewrite E3. f_equal. f_equal. rewrite (bsum_split 40 from); [|lia|].
    2:{ intros k Hk. rewrite !occ_land, occ_low. destruct (Nat.ltb_spec k from); [lia|]. cbn. apply andb_false_r. }
    replace (Nat.max to from) with from by lia. replace (Nat.min to from) with to by lia.
    apply bsum_ext.
    intros k Hk. rewrite !occ_land, occ_lnot, !occ_low. destruct (Nat.ltb_spec k from); [|lia].
    destruct (Nat.eq_dec k to) as [->|].
    + rewrite Ot. now rewrite andb_false_r.
    + destruct (Nat.ltb_spec k to); destruct (Nat.ltb_spec to k); first [lia | cbn; apply andb_false_r | cbn; apply andb_true_r].
Qed.

Section Facts.
Context {SC : Scalar}.
Local Open Scope K_scope.
Add Ring Kring : k_ring.

Lemma hop_one_snd knd to from w : to <> from -> snd (hop_one knd to from w) = flip to from w.
Proof.
  intros N. unfold hop_one. rewrite land_two by auto. rewrite (Z.lor_comm (mask from)), (land_two w to from) by auto.
  unfold flip. rewrite (Z.lor_comm (mask from)).
  destruct (occ w from), (occ w to); cbn; auto.
Qed.

Lemma hop_one_fst knd to from w : to <> from -> (to < 40)%nat -> (from < 40)%nat ->
  fst (hop_one knd to from w) = if can_hop to from w then hop_sign knd to from w else 0.
Proof.
  intros N Ht Hf. rewrite can_hop_ne by auto. unfold hop_one. rewrite land_two by auto.
  rewrite (Z.lor_comm (mask from)), (land_two w to from) by auto.
  destruct (occ w from) eqn:Ef, (occ w to) eqn:Et; cbn [andb negb fst]; auto.
  unfold hop_sign. destruct knd; auto. rewrite sign_bits by auto. destruct (Nat.even (between to from w)); auto.
Qed.

(** ** Sparse matrices *)
Definition eterm (r c : nat) (e : nat * nat * K) : K :=
  if Nat.eqb (fst (fst e)) r && Nat.eqb (snd (fst e)) c then snd e else 0.

Lemma entries_seq rows values a r c : length values = length rows ->
  fold_right (fun e s => eterm r c e + s) 0 (combine (combine rows (seq a (length rows))) values) =
  if Nat.leb a c && Nat.ltb c (a + length rows) && Nat.eqb (nth (c - a) rows 0%nat) r then nth (c - a) values 0 else 0.
Proof.
  induction rows as [|x rows IH] in a, values |- *; destruct values as [|v values]; intros E; try discriminate.
  - cbn [length seq combine fold_right]. destruct (Nat.leb_spec a c), (Nat.ltb_spec c (a + 0)); cbn; auto. lia.
  - cbn [length seq combine fold_right]. rewrite IH by (cbn in E; lia). clear IH. unfold eterm. cbn [fst snd].
    destruct (Nat.eq_dec c a) as [->|N].
    + rewrite Nat.sub_diag, Nat.eqb_refl, andb_true_r. cbn [nth].
      destruct (Nat.leb_spec a a); [|lia]. destruct (Nat.ltb_spec a (a + S (length rows))); [|lia].
      destruct (Nat.leb_spec (S a) a); [lia|]. cbn [andb]. destruct (Nat.eqb x r); ring.
    + destruct (Nat.eqb_spec a c); [congruence|]. rewrite andb_false_r.
      destruct (Nat.leb_spec (S a) c) as [H1|H1]; destruct (Nat.leb_spec a c) as [H2|H2]; try lia; cbn [andb]; try ring.
      replace (S a + length rows)%nat with (a + S (length rows))%nat by lia.
      destruct (Nat.ltb_spec c (a + S (length rows))); cbn [andb]; try ring.
      replace (c - a)%nat with (S (c - S a)) by lia. cbn [nth]. destruct (Nat.eqb _ r); ring.
Qed.

Lemma selem_make rows values m n r c : length values = length rows -> (c < length rows)%nat ->
  selem (sp_make rows (seq 0 (length rows)) values m n) r c =
  if Nat.eqb (nth c rows 0%nat) r then nth c values 0 else 0.
Proof.
  intros E H. unfold selem, sp_make. cbn [sp_entries].
  change (fold_right _ 0 _) with (fold_right (fun e s => eterm r c e + s) 0 (combine (combine rows (seq 0 (length rows))) values)).
  rewrite entries_seq by auto. rewrite Nat.sub_0_r. cbn [Nat.leb Nat.add andb].
  destruct (Nat.ltb_spec c (length rows)); [|lia]. reflexivity.
Qed.

Lemma sp_make_shape rows cols (values : list K) m n :
  Forall (fun x => (x < m)%nat) rows -> Forall (fun x => (x < n)%nat) cols ->
  sp_shape (sp_make rows cols values m n) m n.
Proof.
  intros Hr Hc. unfold sp_shape, sp_make. cbn. repeat split. apply Forall_forall. intros ((x & y) & v) H. cbn.
  apply in_combine_l in H. rewrite Forall_forall in Hr, Hc. split.
  - apply Hr. eapply in_combine_l; eauto.
  - apply Hc. eapply in_combine_r; eauto.
Qed.

Lemma interaction_elem sites N L i j r c : lattice_new sites N = Ok L ->
  (r < dimension L)%nat -> (c < dimension L)%nat ->
  selem (interaction_operator L i j) r c = int_element i j (conf L r) (conf L c).
Proof.
  intros H Hr Hc. unfold interaction_operator.
  assert (Hl : length (seq 0 (dimension L)) = dimension L) by apply seq_length.
  rewrite <- Hl at 2. rewrite selem_make.
  - rewrite seq_nth by auto. cbn [Nat.add]. unfold interaction_inner. rewrite (nth_map _ 0%Z) by exact Hc.
    fold (conf L c). unfold int_element. rewrite (conf_eqb sites N) by auto. rewrite (Nat.eqb_sym r c).
    destruct (Nat.eqb c r); cbn [andb]; auto.
    assert (Z.eqb (Z.land (conf L c) (Z.lor (mask i) (mask j))) (Z.lor (mask i) (mask j)) = occ (conf L c) i && occ (conf L c) j) as ->; auto.
    destruct (Z.eqb_spec (Z.land (conf L c) (Z.lor (mask i) (mask j))) (Z.lor (mask i) (mask j))) as [E|E].
    + pose proof (f_equal (fun z => occ z i) E) as Ea. pose proof (f_equal (fun z => occ z j) E) as Eb. cbn beta in *.
      rewrite occ_land, occ_lor, !occ_mask, Nat.eqb_refl, andb_true_r in Ea.
      rewrite occ_land, occ_lor, !occ_mask, Nat.eqb_refl, orb_true_r, andb_true_r in Eb.
      now rewrite Ea, Eb.
    + symmetry. apply not_true_is_false. intros T. apply andb_true_iff in T as (Ta & Tb).
      apply E, occ_inj. intros k. rewrite occ_land, occ_lor, !occ_mask.
      destruct (Nat.eqb_spec k i) as [->|]; [now rewrite Ta|].
      destruct (Nat.eqb_spec k j) as [->|]; [now rewrite Tb|]. cbn. apply andb_false_r.
  - unfold interaction_inner. now rewrite map_length, seq_length.
  - now rewrite seq_length.
Qed.

Lemma interaction_shape L i j : sp_shape (interaction_operator L i j) (dimension L) (dimension L).
Proof.
  apply sp_make_shape; apply Forall_forall; intros x Hx; apply in_seq in Hx; lia.
Qed.

Lemma hop_element_eq knd i w' w : hop_element knd i i w' w = int_element i i w' w.
Proof.
  unfold hop_element, int_element. rewrite can_hop_eq. rewrite andb_diag.
  destruct (occ w i) eqn:E; cbn [andb].
  - rewrite hopped_eq by auto. rewrite andb_true_r. destruct (Z.eqb w' w); auto.
    unfold hop_sign. destruct knd; auto. unfold between.
    rewrite filter_bsum, (bsum_split _ 0%nat); [reflexivity|lia|].
    intros k Hk. destruct (Nat.ltb_spec (Nat.min i i) k); auto. lia.
  - now rewrite andb_false_r.
Qed.

Lemma inner_eq sites N L to from knd : lattice_new sites N = Ok L -> (to < sites)%nat -> (from < sites)%nat -> to <> from ->
  hopping_inner L to from knd =
  (map (fun w => if can_hop to from w then hop_sign knd to from w else 0) (configurations L),
   map (flip to from) (configurations L)).
Proof.
  intros H Ht Hf NE. pose proof (lattice_new_ok _ _ _ H) as (H34 & _).
  unfold hopping_inner. rewrite !map_map. f_equal; apply map_ext; intros w.
  - apply hop_one_fst; auto; lia.
  - apply hop_one_snd; auto.
Qed.

Lemma hopping_elem sites N L to from knd r c : lattice_new sites N = Ok L -> (to < sites)%nat -> (from < sites)%nat ->
  (r < dimension L)%nat -> (c < dimension L)%nat ->
  selem (hopping_operator L to from knd) r c = hop_element knd to from (conf L r) (conf L c).
Proof.
  intros H Ht Hf Hr Hc. unfold hopping_operator. destruct (Nat.eqb_spec to from) as [->|NE].
  - unfold number_operator. rewrite (interaction_elem sites N) by auto. symmetry. apply hop_element_eq.
  - rewrite (inner_eq sites N) by auto.
    destruct (flip_sort sites N L to from H Ht Hf NE) as (Len & S).
    set (p := sort_indices _) in *. destruct (S c Hc) as (S1 & S2).
    rewrite selem_make.
    + rewrite (nth_map _ 0%Z) by exact Hc. fold (conf L c). unfold hop_element.
      destruct (can_hop to from (conf L c)) eqn:E; cbn [andb].
      * rewrite hopped_flip by auto. rewrite <- S2. rewrite (conf_eqb sites N) by auto. now rewrite Nat.eqb_sym.
      * now destruct (Nat.eqb _ _).
    + rewrite map_length. now rewrite Len.
    + now rewrite Len.
Qed.

Lemma hopping_shape sites N L to from knd : lattice_new sites N = Ok L -> (to < sites)%nat -> (from < sites)%nat ->
  sp_shape (hopping_operator L to from knd) (dimension L) (dimension L).
Proof.
  intros H Ht Hf. unfold hopping_operator. destruct (Nat.eqb_spec to from) as [->|NE].
  - apply interaction_shape.
  - rewrite (inner_eq sites N) by auto.
    destruct (flip_sort sites N L to from H Ht Hf NE) as (Len & S).
    set (p := sort_indices _) in *. rewrite Len. apply sp_make_shape.
    + apply Forall_forall. intros x Hx. apply (In_nth _ _ 0%nat) in Hx as (k & Hk & <-). rewrite Len in Hk. now apply S.
    + apply Forall_forall; intros x Hx; apply in_seq in Hx; lia.
Qed.

(** ** The Hamiltonian *)
Lemma selem_add A B r c : selem (sp_add A B) r c = selem A r c + selem B r c.
Proof.
  unfold selem, sp_add. cbn [sp_entries]. induction (sp_entries A) as [|e l IH]; cbn; [ring|]. rewrite IH. ring.
Qed.
Lemma selem_scale x A r c : selem (sp_scale x A) r c = x * selem A r c.
Proof.
  unfold selem, sp_scale. cbn [sp_entries]. induction (sp_entries A) as [|e l IH]; cbn; [ring|]. rewrite IH.
  destruct (_ && _); ring.
Qed.
Definition mshape (n : nat) (A : sparse) : Prop := A = sp_empty \/ sp_shape A n n.

Lemma sp_add_shape n A B : sp_shape A n n -> sp_shape B n n -> sp_shape (sp_add A B) n n.
Proof. intros (? & ? & ?) (? & ? & ?). unfold sp_add, sp_shape. cbn. repeat split; auto. apply Forall_app; auto. Qed.
Lemma sp_scale_shape n x A : sp_shape A n n -> sp_shape (sp_scale x A) n n.
Proof.
  intros (? & ? & F). unfold sp_scale, sp_shape. cbn. repeat split; auto. apply Forall_map. cbn.
  eapply Forall_impl; [|apply F]. auto.
Qed.
Lemma maybe_shape n A B : mshape n A -> sp_shape B n n -> sp_shape (sp_maybe_add A B) n n.
Proof.
  intros HA HB. unfold sp_maybe_add. destruct (Nat.eqb_spec (sp_rows A) 0); auto.
  destruct HA as [->|HA]; [cbn in *; congruence|]. now apply sp_add_shape.
Qed.
Lemma maybe_elem n A B r c : mshape n A -> sp_shape B n n -> (r < n)%nat ->
  selem (sp_maybe_add A B) r c = selem A r c + selem B r c.
Proof.
  intros HA HB Hr. unfold sp_maybe_add. destruct (Nat.eqb_spec (sp_rows A) 0).
  - destruct HA as [->|(HA & _)]; [|lia]. cbn. ring.
  - apply selem_add.
Qed.

(** A loop that adds terms to a matrix. *)
Lemma loop_elem (n dm : nat) (body : sparse -> nat -> sparse) (f : nat -> K) r c H0 :
  (forall H i, (i < n)%nat -> mshape dm H -> mshape dm (body H i) /\ selem (body H i) r c = selem H r c + f i) ->
  mshape dm H0 ->
  mshape dm (fold_left body (seq 0 n) H0) /\ selem (fold_left body (seq 0 n) H0) r c = selem H0 r c + sum n f.
Proof.
  intros HB HM. induction n as [|n IH].
  - cbn. split; auto. ring.
  - rewrite seq_S, fold_left_app. cbn [fold_left Nat.add sum].
    destruct IH as (I1 & I2). { intros; apply HB; auto. }
    destruct (HB _ n ltac:(lia) I1) as (B1 & B2). split; auto. rewrite B2, I2. ring.
Qed.

Lemma keqb_true x y : keqb x y = true -> x = y.
Proof. destruct (keqb_spec x y); congruence. Qed.

Lemma ham_elem sites N L J U mu knd r c : lattice_new sites N = Ok L ->
  (dim J 0 <= sites)%nat -> (dim J 1 <= sites)%nat ->
  (r < dimension L)%nat -> (c < dimension L)%nat ->
  mshape (dimension L) (lat_Hamiltonian L J U mu knd) /\
  selem (lat_Hamiltonian L J U mu knd) r c = ham_element (dim J 0) (dim J 1) J U mu knd (conf L r) (conf L c).
Proof.
  intros H Hi Hj Hr Hc. unfold lat_Hamiltonian, ham_element.
  set (F := fun i => sum (dim J 1) (fun j => (get J [i; j] - (if Nat.eqb i j then mu else 0)) * hop_element knd i j (conf L r) (conf L c)
     + get U [i; j] * int_element i j (conf L r) (conf L c))).
  destruct (loop_elem (dim J 0) (dimension L)
    (fun H i => fold_left (fun H j =>
    let Jij := get J [i; j] - (if Nat.eqb i j then 1 else 0) * mu in
    let H := if keqb Jij 0 then H else sp_maybe_add H (sp_scale Jij (hopping_operator L i j knd)) in
    let Uij := get U [i; j] in
    if keqb Uij 0 then H else sp_maybe_add H (sp_scale Uij (interaction_operator L i j))) (seq 0 (dim J 1)) H) F r c sp_empty) as (A & B).
  - intros H1 i Hii M1. apply loop_elem; auto. intros H2 j Hjj M2. cbv zeta.
    set (x := get J [i; j] - (if Nat.eqb i j then 1 else 0) * mu).
    assert (Ex : get J [i; j] - (if Nat.eqb i j then mu else 0) = x) by (unfold x; destruct (Nat.eqb i j); ring).
    set (Hx := if keqb x 0 then H2 else sp_maybe_add H2 (sp_scale x (hopping_operator L i j knd))).
    pose proof (hopping_shape sites N L i j knd H ltac:(lia) ltac:(lia)) as SH.
    pose proof (interaction_shape L i j) as SI.
    assert (mshape (dimension L) Hx /\ selem Hx r c = selem H2 r c + x * hop_element knd i j (conf L r) (conf L c)) as (M3 & E3).
    { unfold Hx. destruct (keqb x 0) eqn:Q.
      - apply keqb_true in Q. rewrite Q. split; auto. ring.
      - split; [right; apply maybe_shape; auto; now apply sp_scale_shape|].
        rewrite (maybe_elem (dimension L)), selem_scale, (hopping_elem sites N); auto; try lia.
        now apply sp_scale_shape. }
    destruct (keqb (get U [i; j]) 0) eqn:Q.
    + apply keqb_true in Q. rewrite Q. split; auto. rewrite E3, Ex. ring.
    + split; [right; apply maybe_shape; auto; now apply sp_scale_shape|].
      rewrite (maybe_elem (dimension L)), selem_scale, (interaction_elem sites N); auto; try lia.
      * rewrite E3, Ex. ring.
      * now apply sp_scale_shape.
  - left; auto.
  - split; [exact A|]. etransitivity; [exact B|]. change (selem sp_empty r c) with 0. unfold F. ring.
Qed.

(** The sparse matrix keeps its shape even for a lattice without configurations. *)
Lemma ham_shape sites N L J U mu knd : lattice_new sites N = Ok L ->
  (dim J 0 <= sites)%nat -> (dim J 1 <= sites)%nat ->
  (exists i j, (i < dim J 0)%nat /\ (j < dim J 1)%nat /\
     (get J [i; j] - (if Nat.eqb i j then mu else 0) <> 0 \/ get U [i; j] <> 0)) ->
  sp_shape (lat_Hamiltonian L J U mu knd) (dimension L) (dimension L).
Proof.
  intros H Hi Hj (i0 & j0 & Hi0 & Hj0 & NZ). unfold lat_Hamiltonian.
  set (n := dimension L).
  assert (G : forall (A : Type) (body : sparse -> A -> sparse) (l : list A) H0,
     (forall H x, In x l -> mshape n H -> mshape n (body H x)) ->
     (forall H x, In x l -> sp_shape H n n -> sp_shape (body H x) n n) ->
     mshape n H0 ->
     mshape n (fold_left body l H0) /\
     ((sp_shape H0 n n \/ exists x, In x l /\ forall H, mshape n H -> sp_shape (body H x) n n) ->
       sp_shape (fold_left body l H0) n n)).
  { intros A body l. induction l as [|x l IH]; intros H0 B1 B2 M.
    - split; auto. intros [S|(x & [] & _)]; auto.
    - cbn [fold_left]. destruct (IH (body H0 x)) as (I1 & I2).
      + intros; apply B1; auto. right; auto. + intros; apply B2; auto; right; auto. + apply B1; auto. left; auto.
      + split; auto. intros [S|(y & [->|Hy] & S)]; apply I2.
        * left. apply B2; auto. left; auto. * left. apply S; auto. * right. exists y. auto. }
  set (body := fun (H : sparse) (i j : nat) =>
    let Jij := get J [i; j] - (if Nat.eqb i j then 1 else 0) * mu in
    let H := if keqb Jij 0 then H else sp_maybe_add H (sp_scale Jij (hopping_operator L i j knd)) in
    let Uij := get U [i; j] in
    if keqb Uij 0 then H else sp_maybe_add H (sp_scale Uij (interaction_operator L i j))).
  assert (BM : forall H2 i j, (i < dim J 0)%nat -> (j < dim J 1)%nat -> mshape n H2 ->
     mshape n (body H2 i j) /\ ((sp_shape H2 n n \/ (get J [i; j] - (if Nat.eqb i j then mu else 0) <> 0 \/ get U [i; j] <> 0)) ->
       sp_shape (body H2 i j) n n)).
  { intros H2 i j Li Lj M. unfold body. cbv zeta.
    set (x := get J [i; j] - (if Nat.eqb i j then 1 else 0) * mu).
    assert (Ex : get J [i; j] - (if Nat.eqb i j then mu else 0) = x) by (unfold x; destruct (Nat.eqb i j); ring).
    rewrite Ex. clearbody x.
    pose proof (hopping_shape sites N L i j knd H ltac:(lia) ltac:(lia)) as SH.
    pose proof (interaction_shape L i j) as SI. fold n in SH, SI.
    assert (S1 : forall A, mshape n A -> sp_shape (sp_maybe_add A (sp_scale x (hopping_operator L i j knd))) n n)
      by (intros; apply maybe_shape; auto; now apply sp_scale_shape).
    assert (S2 : forall A, mshape n A -> sp_shape (sp_maybe_add A (sp_scale (get U [i; j]) (interaction_operator L i j))) n n)
      by (intros; apply maybe_shape; auto; now apply sp_scale_shape).
    destruct (keqb_spec x 0) as [Zx|Nx]; destruct (keqb_spec (get U [i; j]) 0) as [Zu|Nu].
    - split; auto. intros [S|[C|C]]; auto; congruence.
    - split; [right|intros _]; auto.
    - split; [right|intros _]; auto.
    - split; [right|intros _]; apply S2; right; auto. }
  apply (G nat (fun H i => fold_left (fun H j => body H i j) (seq 0 (dim J 1)) H) (seq 0 (dim J 0)) sp_empty).
  - intros H2 i Hii M. apply in_seq in Hii. apply G; auto.
    + intros; apply BM; auto; [lia|]. rewrite in_seq in *; lia.
    + intros; apply BM; auto; [lia| |right; auto]. rewrite in_seq in *; lia.
  - intros H2 i Hii M. apply in_seq in Hii. apply G; auto.
    + intros; apply BM; auto; [lia|]. rewrite in_seq in *; lia.
    + intros; apply BM; auto; [lia| |right; auto]. rewrite in_seq in *; lia.
    + right; auto.
  - left; auto.
  - right. exists i0. split; [apply in_seq; lia|]. intros H2 M. apply G; auto.
    + intros; apply BM; auto. rewrite in_seq in *; lia.
    + intros; apply BM; auto; [|right; auto]. rewrite in_seq in *; lia.
    + right. exists j0. split; [apply in_seq; lia|]. intros H3 M3. apply BM; auto.
Qed.
End Facts.
