(** * Facts about apply_lattice() and bipartition() (C37, C38) *)
From Coq Require Import Bool List Arith ZArith Lia Permutation Sorted.
From Verif Require Import Scalar ScalarFacts Tensor TensorFacts LatticeModel LatticeSpec LatticeFacts LatticeHop.
Import ListNotations.

Lemma between_sym a b w : between a b w = between b a w.
Proof. unfold between. now rewrite Nat.min_comm, Nat.max_comm. Qed.

Lemma between_flip a b w : a <> b -> between a b (flip a b w) = between a b w.
Proof.
  intros N. unfold between. f_equal. apply filter_ext_in. intros k Hk. apply in_seq in Hk.
  destruct (Nat.ltb_spec (Nat.min a b) k); auto. cbn. rewrite occ_flip by auto.
  destruct (Nat.eqb_spec k a); [lia|]. destruct (Nat.eqb_spec k b); [lia|auto].
Qed.

Section Facts.
Context {SC : Scalar}.
Local Open Scope K_scope.
Add Ring Kring : k_ring.

Lemma hop_sign_flip knd i j w : i <> j -> hop_sign knd i j (flip i j w) = hop_sign knd j i w.
Proof. intros N. unfold hop_sign. destruct knd; auto. rewrite between_flip, between_sym by auto. reflexivity. Qed.

(** Exchanging the two sites transposes the operator. *)
Lemma hop_transpose knd i j v w : i <> j -> hop_element knd i j v w = hop_element knd j i w v.
Proof.
  intros N. assert (G : forall i j v w, i <> j -> can_hop i j w && Z.eqb v (hopped i j w) = true ->
                  hop_element knd i j v w = hop_element knd j i w v).
  { clear. intros i j v w N H. unfold hop_element. rewrite H. apply andb_true_iff in H as (H1 & H2).
    apply Z.eqb_eq in H2. rewrite hopped_flip in H2 by auto. subst v.
    assert (C : can_hop j i (flip i j w) = true).
    { rewrite can_hop_ne in * by auto. rewrite !occ_flip by auto. rewrite Nat.eqb_refl.
      destruct (Nat.eqb_spec j i); [congruence|]. rewrite Nat.eqb_refl. exact H1. }
    rewrite C. cbn [andb]. rewrite hopped_flip by auto. rewrite (flip_sym j i), flip_flip, Z.eqb_refl by auto.
    rewrite (flip_sym i j), hop_sign_flip by auto. reflexivity. }
  destruct (can_hop i j w && Z.eqb v (hopped i j w)) eqn:E.
  - now apply G.
  - destruct (can_hop j i v && Z.eqb w (hopped j i v)) eqn:E'.
    + symmetry. apply G; auto.
    + unfold hop_element. now rewrite E, E'.
Qed.

Lemma int_sym i j v w : int_element i j v w = int_element j i v w.
Proof. unfold int_element. now rewrite (andb_comm (occ w i)). Qed.

Lemma add_scaled_len out c values psi perm : length (add_scaled out c values psi perm) = length out.
Proof. unfold add_scaled. now rewrite map_length, seq_length. Qed.
Lemma add_scaled_nth out c values psi perm k : (k < length out)%nat ->
  nth k (add_scaled out c values psi perm) 0 = nth k out 0 + c * nth k values 0 * nth (nth k perm 0%nat) psi 0.
Proof.
  intros H. unfold add_scaled. rewrite (nth_map _ 0%nat) by (rewrite seq_length; auto).
  rewrite seq_nth by auto. reflexivity.
Qed.

Lemma loop_list (n len : nat) (body : list K -> nat -> list K) (f : nat -> K) k o0 :
  (forall o i, (i < n)%nat -> length o = len -> length (body o i) = len /\ nth k (body o i) 0 = nth k o 0 + f i) ->
  length o0 = len ->
  length (fold_left body (seq 0 n) o0) = len /\ nth k (fold_left body (seq 0 n) o0) 0 = nth k o0 0 + sum n f.
Proof.
  intros HB HM. induction n as [|n IH].
  - cbn. split; auto. ring.
  - rewrite seq_S, fold_left_app. cbn [fold_left Nat.add sum].
    destruct IH as (I1 & I2). { intros; apply HB; auto. }
    destruct (HB _ n ltac:(lia) I1) as (B1 & B2). split; auto. rewrite B2, I2. ring.
Qed.

(** <k| O |psi> for one term *)
Definition applied (L : lattice) (psi : list K) (k : nat) (f : Z -> Z -> K) : K :=
  sum (dimension L) (fun r => f (conf L k) (conf L r) * nth r psi 0).

Lemma applied_int sites N L psi k i j : lattice_new sites N = Ok L -> (k < dimension L)%nat ->
  applied L psi k (int_element i j) = nth k (interaction_inner L i j) 0 * nth k psi 0.
Proof.
  intros H Hk. unfold applied. rewrite (sum_single _ k); [|auto|].
  2:{ intros r Hr NE. unfold int_element. rewrite (conf_eqb sites N) by auto.
      destruct (Nat.eqb_spec k r); [congruence|cbn; ring]. }
  f_equal. rewrite <- (interaction_elem sites N) by auto. unfold interaction_operator.
  rewrite <- (seq_length (dimension L) 0) at 2. rewrite selem_make.
  - rewrite seq_nth by auto. now rewrite Nat.eqb_refl.
  - unfold interaction_inner. now rewrite map_length, seq_length.
  - now rewrite seq_length.
Qed.

Lemma applied_hop sites N L psi k i j knd : lattice_new sites N = Ok L -> (i < sites)%nat -> (j < sites)%nat -> i <> j ->
  (k < dimension L)%nat ->
  applied L psi k (hop_element knd j i) =
  nth k (fst (hopping_inner L i j knd)) 0 * nth (nth k (sort_indices (snd (hopping_inner L i j knd))) 0%nat) psi 0.
Proof.
  intros H Hi Hj NE Hk. rewrite (inner_eq sites N) by auto. cbn [fst snd].
  destruct (flip_sort sites N L i j H Hi Hj NE) as (Len & S). set (p := sort_indices _) in *.
  destruct (S k Hk) as (S1 & S2). unfold applied. rewrite (sum_single _ (nth k p 0%nat)); auto.
  - f_equal. rewrite (nth_map _ 0%Z) by exact Hk. fold (conf L k). rewrite hop_transpose by auto.
    unfold hop_element. destruct (can_hop i j (conf L k)) eqn:C; auto. rewrite S2, hopped_flip, Z.eqb_refl by auto. reflexivity.
  - intros r Hr NR. rewrite hop_transpose by auto. unfold hop_element.
    destruct (can_hop i j (conf L k)) eqn:C; [|cbn; ring]. rewrite hopped_flip, <- S2 by auto.
    rewrite (conf_eqb sites N) by auto. destruct (Nat.eqb_spec r (nth k p 0%nat)); [congruence|cbn; ring].
Qed.

Lemma apply_elem sites N L J U psi knd k : lattice_new sites N = Ok L -> (dim J 0 <= sites)%nat ->
  length psi = dimension L -> (k < dimension L)%nat ->
  (forall i, (i < dim J 0)%nat -> get J [i; i] = 0) ->
  length (apply_lattice psi L J U knd) = dimension L /\
  nth k (apply_lattice psi L J U knd) 0 =
  sum (dim J 0) (fun i => sum (dim J 0) (fun j =>
    get J [i; j] * applied L psi k (hop_element knd j i) +
    (if Nat.leb i j && negb (keqb (get U [i; j]) 0) then
      (get U [i; j] + get U [j; i]) * applied L psi k (int_element i j) else 0))).
Proof.
  intros H HJ Hp Hk Hd.
  set (F := fun i => sum (dim J 0) (fun j =>
    get J [i; j] * applied L psi k (hop_element knd j i) +
    (if Nat.leb i j && negb (keqb (get U [i; j]) 0) then
      (get U [i; j] + get U [j; i]) * applied L psi k (int_element i j) else 0))).
  destruct (loop_list (dim J 0) (dimension L) (fun out i => fold_left (fun out j =>
    let out := if keqb (get J [i; j]) 0%K then out
               else let '(values, ndx) := hopping_inner L i j knd in
                    add_scaled out (get J [i; j]) values psi (sort_indices ndx) in
    if Nat.leb i j && negb (keqb (get U [i; j]) 0%K) then
      add_scaled out (get U [i; j] + get U [j; i])%K (interaction_inner L i j) psi (seq 0 (length psi))
    else out)
  (seq 0 (dim J 0)) out) F k (repeat 0%K (length psi))) as (A & B).
  - intros o i Hi Ho. apply loop_list; auto. clear o Ho. intros o j Hj Ho. cbv zeta.
    set (o1 := if keqb (get J [i; j]) 0 then o else _).
    assert (length o1 = dimension L /\ nth k o1 0 = nth k o 0 + get J [i; j] * applied L psi k (hop_element knd j i)) as (L1 & E1).
    { unfold o1. destruct (keqb_spec (get J [i; j]) 0) as [Z|NZ].
      - rewrite Z. split; auto. ring.
      - assert (NE : i <> j) by (intros <-; apply NZ, Hd; auto).
        rewrite (applied_hop sites N) by (auto; lia). destruct (hopping_inner L i j knd) as [values ndx]. cbn [fst snd].
        rewrite add_scaled_len, add_scaled_nth by lia. split; auto. ring. }
    clearbody o1. destruct (Nat.leb i j && negb (keqb (get U [i; j]) 0)).
    + rewrite add_scaled_len, add_scaled_nth by lia. split; auto.
      rewrite (applied_int sites N) by auto. rewrite seq_nth by lia. rewrite E1. cbn [Nat.add]. ring.
    + split; auto. rewrite E1. ring.
  - now rewrite repeat_length.
  - split; [exact A|]. etransitivity; [exact B|].
    replace (nth k (repeat 0 (length psi)) 0) with (0 : K) by (symmetry; apply nth_repeat). unfold F. ring.
Qed.

(** Matrix times vector. *)
Definition ham_times (L : lattice) (J U : tensor) (mu : K) (knd : kind) (psi : list K) (k : nat) : K :=
  sum (dimension L) (fun r => selem (lat_Hamiltonian L J U mu knd) k r * nth r psi 0).

Lemma ham_times_eq sites N L J U mu knd psi k : lattice_new sites N = Ok L ->
  (dim J 0 <= sites)%nat -> (dim J 1 <= sites)%nat -> (k < dimension L)%nat ->
  ham_times L J U mu knd psi k =
  sum (dim J 0) (fun i => sum (dim J 1) (fun j =>
    (get J [i; j] - (if Nat.eqb i j then mu else 0)) * applied L psi k (hop_element knd i j)
    + get U [i; j] * applied L psi k (int_element i j))).
Proof.
  intros H Hi Hj Hk. unfold ham_times.
  rewrite (sum_ext _ _ (fun r => sum (dim J 0) (fun i => sum (dim J 1) (fun j =>
    (get J [i; j] - (if Nat.eqb i j then mu else 0)) * (hop_element knd i j (conf L k) (conf L r) * nth r psi 0)
    + get U [i; j] * (int_element i j (conf L k) (conf L r) * nth r psi 0))))).
  - rewrite sum_swap. apply sum_ext. intros i _. rewrite sum_swap. apply sum_ext. intros j _.
    unfold applied. rewrite !sum_mul_l, <- sum_add. reflexivity.
  - intros r Hr. destruct (ham_elem sites N L J U mu knd k r) as (_ & ->); auto. unfold ham_element.
    rewrite sum_mul_r. apply sum_ext. intros i _. rewrite sum_mul_r. apply sum_ext. intros j _. ring.
Qed.

Lemma upper_sum n (U : nat -> nat -> K) (f : nat -> nat -> K) :
  (forall i j, f i j = f j i) -> (forall i, (i < n)%nat -> U i i = 0) ->
  (forall i j, (i < j < n)%nat -> U i j = 0 -> U j i = 0) ->
  sum n (fun i => sum n (fun j => if Nat.leb i j && negb (keqb (U i j) 0) then (U i j + U j i) * f i j else 0)) =
  sum n (fun i => sum n (fun j => U i j * f i j)).
Proof.
  intros Hf Hd Hz.
  transitivity (sum n (fun i => sum n (fun j => if Nat.ltb i j then U i j * f i j else 0)) +
                sum n (fun i => sum n (fun j => if Nat.ltb i j then U j i * f i j else 0))).
  - rewrite <- sum_add. apply sum_ext. intros i Hi. rewrite <- sum_add. apply sum_ext. intros j Hj.
    destruct (Nat.leb_spec i j); destruct (Nat.ltb_spec i j); try lia; cbn [andb]; try ring.
    + destruct (keqb_spec (U i j) 0) as [E|E]; cbn [negb]; [|ring]. rewrite (Hz i j), E by (auto; lia). ring.
    + replace j with i by lia. destruct (keqb_spec (U i i) 0) as [E|E]; cbn [negb]; [ring|]. exfalso. apply E, Hd; lia.
  - rewrite (sum_swap n n (fun i j => if Nat.ltb i j then U j i * f i j else 0)). rewrite <- sum_add.
    apply sum_ext. intros i Hi. rewrite <- sum_add. apply sum_ext. intros j Hj.
    destruct (Nat.ltb_spec i j); destruct (Nat.ltb_spec j i); try lia; try ring.
    + rewrite (Hf j i). ring.
    + replace j with i by lia. rewrite Hd by lia. ring.
Qed.

(** apply_lattice multiplies by the Hamiltonian of the transposed J. *)
Lemma apply_is_transposed sites N L J Jt U psi knd k : lattice_new sites N = Ok L -> (dim J 0 <= sites)%nat ->
  dim Jt 0 = dim J 0 -> dim Jt 1 = dim J 0 ->
  (forall i j, (i < dim J 0)%nat -> (j < dim J 0)%nat -> get Jt [i; j] = get J [j; i]) ->
  (forall i, (i < dim J 0)%nat -> get J [i; i] = 0) ->
  (forall i, (i < dim J 0)%nat -> get U [i; i] = 0) ->
  (forall i j, (i < j < dim J 0)%nat -> get U [i; j] = 0 -> get U [j; i] = 0) ->
  length psi = dimension L -> (k < dimension L)%nat ->
  nth k (apply_lattice psi L J U knd) 0 = ham_times L Jt U 0 knd psi k.
Proof.
  intros H HJ D0 D1 Ht Hd Hu Hz Hp Hk.
  destruct (apply_elem sites N L J U psi knd k) as (_ & ->); auto.
  rewrite (ham_times_eq sites N) by (auto; lia). rewrite D0, D1.
  transitivity (sum (dim J 0) (fun i => sum (dim J 0) (fun j => get J [j; i] * applied L psi k (hop_element knd i j))) +
                sum (dim J 0) (fun i => sum (dim J 0) (fun j => get U [i; j] * applied L psi k (int_element i j)))).
  - rewrite (sum_swap (dim J 0) (dim J 0) (fun i j => get J [j; i] * applied L psi k (hop_element knd i j))).
    rewrite <- (upper_sum (dim J 0) (fun i j => get U [i; j]) (fun i j => applied L psi k (int_element i j))); auto.
    + rewrite <- sum_add. apply sum_ext. intros i Hi. rewrite <- sum_add. reflexivity.
    + intros i j. unfold applied. apply sum_ext. intros r _. now rewrite int_sym.
  - rewrite <- sum_add. apply sum_ext. intros i Hi. rewrite <- sum_add. apply sum_ext. intros j Hj.
    rewrite Ht by auto. destruct (Nat.eqb i j); ring.
Qed.
End Facts.

(** ** bipartition *)
Lemma range_ok n nmin nmax : n <= 34 -> exists l, states_in_particle_range n nmin nmax = Ok l /\ increasing l /\
  forall w, In w l <-> (0 <= w < 2 ^ Z.of_nat n)%Z /\ (nmin <= Z.of_nat (ones n w) <= nmax)%Z.
Proof.
  intros H. unfold states_in_particle_range. destruct (Nat.ltb_spec 34 n); [lia|]. eexists. split; [reflexivity|].
  split; [apply increasing_filter, increasing_words|]. intros w. rewrite filter_In, words_in. split.
  - intros (A & B). split; auto. rewrite (count_ones n) in B by (auto; lia). apply andb_true_iff in B as (B1 & B2).
    apply Z.leb_le in B1, B2. lia.
  - intros (A & B). split; auto. rewrite (count_ones n) by (auto; lia). apply andb_true_iff. rewrite !Z.leb_le. lia.
Qed.

Lemma find_loop_ok c w m : increasing c -> m < length c -> nth m c 0%Z = w ->
  forall fuel i j, i < m < j -> j < length c -> j - i <= fuel -> find_loop fuel w c i j = Some m.
Proof.
  intros I Hm E. induction fuel as [|fuel IH]; intros i j H1 H2 H3; [lia|]. cbn [find_loop].
  destruct (Nat.eqb_spec i j); [lia|].
  pose proof (Nat.div_mod_eq (i + j) 2) as D. pose proof (Nat.mod_upper_bound (i + j) 2).
  set (k := (i + j) / 2) in *. assert (i < k < j) by lia.
  assert (C : forall a b, a < b < length c -> (nth a c 0 < nth b c 0)%Z) by (intros; apply I; lia).
  destruct (Nat.lt_trichotomy m k) as [L|[->|L]].
  - pose proof (C m k ltac:(lia)). destruct (Z.ltb_spec w (nth k c 0%Z)); [|lia]. apply IH; lia.
  - rewrite E, Z.ltb_irrefl, Z.eqb_refl. reflexivity.
  - pose proof (C k m ltac:(lia)). destruct (Z.ltb_spec w (nth k c 0%Z)); [lia|].
    destruct (Z.eqb_spec (nth k c 0%Z) w); [lia|]. apply IH; lia.
Qed.

Lemma find_ok c w fuel : increasing c -> In w c -> length c <= fuel ->
  exists m, find_configuration fuel w c = Some m /\ m < length c /\ nth m c 0%Z = w.
Proof.
  intros I Hw Hf. apply (In_nth _ _ 0%Z) in Hw as (m & Hm & E). exists m. split; [|auto].
  unfold find_configuration.
  assert (C : forall a, a < length c -> w = nth a c 0%Z -> a = m).
  { intros a Ha Ea. destruct (Nat.lt_trichotomy a m) as [L|[L|L]]; auto.
    - pose proof (I a m ltac:(lia)). lia.
    - pose proof (I m a ltac:(lia)). lia. }
  destruct (Z.eqb_spec w (nth 0 c 0%Z)) as [Q|Q]; [f_equal; apply C; auto; lia|].
  destruct (Z.eqb_spec w (nth (length c - 1) c 0%Z)) as [Q'|Q']; [f_equal; apply C; auto; lia|].
  assert (m <> 0) by (intros ->; congruence). assert (m <> length c - 1) by (intros ->; congruence).
  apply find_loop_ok; auto; lia.
Qed.

(** A word above all the list is searched for ever. *)
Lemma find_loop_none c w fuel i j : (forall k, k < length c -> (nth k c 0 < w)%Z) -> i < j < length c ->
  find_loop fuel w c i j = None.
Proof.
  intros H. induction fuel as [|fuel IH] in i |- *; intros Hij; auto. cbn [find_loop].
  destruct (Nat.eqb_spec i j); [lia|].
  pose proof (Nat.div_mod_eq (i + j) 2) as D. pose proof (Nat.mod_upper_bound (i + j) 2).
  set (k := (i + j) / 2) in *. pose proof (H k ltac:(lia)).
  destruct (Z.ltb_spec w (nth k c 0%Z)); [lia|]. destruct (Z.eqb_spec (nth k c 0%Z) w); [lia|]. apply IH. lia.
Qed.

Lemma find_none c w fuel : 2 <= length c -> (forall x, In x c -> (x < w)%Z) -> find_configuration fuel w c = None.
Proof.
  intros L H. assert (G : forall k, k < length c -> (nth k c 0 < w)%Z) by (intros; apply H, nth_In; auto).
  unfold find_configuration. pose proof (G 0 ltac:(lia)). pose proof (G (length c - 1) ltac:(lia)).
  destruct (Z.eqb_spec w (nth 0 c 0%Z)); [lia|]. destruct (Z.eqb_spec w (nth (length c - 1) c 0%Z)); [lia|].
  apply find_loop_none; auto. lia.
Qed.

Lemma list_result_ok {A B} (f : A -> option B) l : (forall x, In x l -> exists y, f x = Some y) ->
  exists r, list_result (map f l) = Ok r /\ length r = length l /\
    forall i da db, i < length l -> f (nth i l da) = Some (nth i r db).
Proof.
  induction l as [|x l IH]; intros H.
  - exists []. cbn. repeat split; auto. intros; lia.
  - destruct IH as (r & E & Len & N). { intros; apply H; right; auto. }
    destruct (H x) as (y & Ey). { left; auto. }
    exists (y :: r). cbn [map list_result fold_right]. change (fold_right _ (Ok []) (map f l)) with (list_result (map f l)).
    rewrite E, Ey. cbn. repeat split; auto. intros [|i] da db Hi; auto. apply N. lia.
Qed.

Lemma list_result_abort {A B} (f : A -> option B) l x : In x l -> f x = None -> list_result (map f l) = Abort.
Proof.
  induction l as [|a l IH]; [intros []|]. intros [->|H] E.
  - cbn. rewrite E. destruct (fold_right _ _ _); reflexivity.
  - cbn [map list_result fold_right]. change (fold_right _ (Ok []) (map f l)) with (list_result (map f l)).
    rewrite IH; auto.
Qed.

Lemma to_int_small z : (- 2 ^ 31 <= z < 2 ^ 31)%Z -> to_int z = z.
Proof. intros H. unfold to_int. rewrite Z.mod_small; lia. Qed.

Lemma shift_split w sl sr : (0 <= w < 2 ^ Z.of_nat (sl + sr))%Z ->
  (0 <= Z.shiftr w (Z.of_nat sr) < 2 ^ Z.of_nat sl)%Z /\ (0 <= w mod 2 ^ Z.of_nat sr < 2 ^ Z.of_nat sr)%Z /\
  ones (sl + sr) w = ones sl (Z.shiftr w (Z.of_nat sr)) + ones sr (w mod 2 ^ Z.of_nat sr).
Proof.
  intros H. rewrite Nat2Z.inj_add, Z.pow_add_r in H by lia.
  pose proof (Z.pow_pos_nonneg 2 (Z.of_nat sr) ltac:(lia) ltac:(lia)) as P.
  repeat split.
  - apply Z.shiftr_nonneg. lia.
  - rewrite Z.shiftr_div_pow2 by lia. apply Z.div_lt_upper_bound; lia.
  - apply Z.mod_pos_bound; lia.
  - apply Z.mod_pos_bound; lia.
  - rewrite (Nat.add_comm sl), ones_add. rewrite Nat.add_comm. f_equal. apply ones_ext. intros k Hk. unfold occ.
    rewrite Z.mod_pow2_bits_low by lia. reflexivity.
Qed.

Lemma join_split x y sr : (0 <= x)%Z -> (0 <= y < 2 ^ Z.of_nat sr)%Z ->
  Z.shiftr (x * 2 ^ Z.of_nat sr + y) (Z.of_nat sr) = x /\ ((x * 2 ^ Z.of_nat sr + y) mod 2 ^ Z.of_nat sr = y)%Z.
Proof.
  intros Hx Hy. rewrite Z.shiftr_div_pow2 by lia. split.
  - rewrite Z.div_add_l by lia. rewrite Z.div_small; lia.
  - rewrite Z.add_comm, Z.mod_add by lia. apply Z.mod_small; lia.
Qed.

(** A word of n sites with b particles. *)
Lemma word_with n b : b <= n -> (0 <= Z.ones (Z.of_nat b) < 2 ^ Z.of_nat n)%Z /\ ones n (Z.ones (Z.of_nat b)) = b.
Proof.
  intros H. split.
  - rewrite Z.ones_equiv. pose proof (Z.pow_pos_nonneg 2 (Z.of_nat b) ltac:(lia) ltac:(lia)).
    pose proof (Z.pow_le_mono_r 2 (Z.of_nat b) (Z.of_nat n) ltac:(lia) ltac:(lia)). lia.
  - unfold ones. rewrite filter_bsum.
    rewrite (bsum_ext n _ (fun k => Nat.ltb k b)).
    + rewrite (bsum_split n b); auto.
      * rewrite (bsum_ext b _ (fun _ => true)).
        -- clear. induction b as [|b IH]; cbn; auto. rewrite IH. lia.
        -- intros k Hk. destruct (Nat.ltb_spec k b); auto; lia.
      * intros k Hk. destruct (Nat.ltb_spec k b); auto; lia.
    + intros k Hk. unfold occ. rewrite Z.testbit_ones_nonneg by lia.
      destruct (Z.ltb_spec (Z.of_nat k) (Z.of_nat b)); destruct (Nat.ltb_spec k b); lia || auto.
Qed.
