(** Proofs about Hamiltonians (C33, C39, C40). *)
From Coq Require Import Bool List Arith ZArith Lia Ring Setoid.
From Verif Require Import Scalar ScalarFacts Tensor TensorFacts Spec MpsModel MpsFacts EnvFacts ExpectedFacts
  MpsProps MpoSpec MpoModel MpoFacts MpoThread MpoAddFacts MpoAddFacts2 MpoAddFacts3 HamSpec HamModel.
Import ListNotations.
Local Open Scope K_scope.

Section Ham.
Context {SC : Scalar}.
Add Ring Kring : k_ring.

Definition h_terms (H : hamiltonian) (k : nat) : list (tensor * tensor) :=
  map (fun j => (h_left H k j, h_right H k j)) (seq 0 (h_depth H k)).

(** Operator of a Hamiltonian object, from its virtual methods. *)
Definition ham_op (H : hamiltonian) : list nat -> list nat -> K :=
  chain_op (h_size H) (h_periodic H) (h_local H) (h_terms H).

(** All terms have the dimensions the Hamiltonian reports. *)
Record ham_ok (H : hamiltonian) : Prop := {
  hk_pos : forall k, (k < h_size H)%nat -> (0 < h_dim H k)%nat;
  hk_local : forall k, (k < h_size H)%nat -> local_ok (h_dim H k) (h_local H k);
  hk_terms : forall k, (S k < h_size H)%nat -> terms_ok (h_dim H k) (h_dim H (S k)) (h_terms H k);
  hk_wrap : h_periodic H = true -> (1 < h_size H)%nat ->
            terms_ok (h_dim H (h_size H - 1)) (h_dim H 0) (h_terms H (h_size H - 1))
}.

Lemma terms_ok_nth H k d d' j : terms_ok d d' (h_terms H k) -> (j < h_depth H k)%nat ->
  is_matrix (h_left H k j) d d /\ is_matrix (h_right H k j) d' d'.
Proof.
  unfold terms_ok, h_terms. rewrite Forall_map, Forall_forall. intros HT Hj.
  apply (HT j). apply in_seq. lia.
Qed.

Lemma h_dims_nth H k : (k < h_size H)%nat -> nth k (h_dims H) 0%nat = h_dim H k.
Proof. intros Hk. unfold h_dims. apply nth_map_seq. exact Hk. Qed.

Lemma h_dims_length H : length (h_dims H) = h_size H.
Proof. unfold h_dims. rewrite map_length, seq_length. reflexivity. Qed.

Lemma is_matrix_not_empty t d d' : is_matrix t d d' -> (0 < d)%nat -> (0 < d')%nat -> is_empty t = false.
Proof. intros (H1 & H2) Hd Hd'. apply is_empty_wf; [exact H2|]. rewrite H1. cbn. nia. Qed.

Lemma mat_empty x y : mat empty x y = 0.
Proof. unfold mat, get. cbn [data dims empty]. destruct (offset _ _); reflexivity. Qed.

Lemma bond_op_seq k k' H (m n : nat) is js :
  bond_op k k' (map (fun j => (h_left H k j, h_right H k j)) (seq m n)) is js =
  sum n (fun j => two_site k k' (mat (h_left H k (m + j))) (mat (h_right H k (m + j))) is js).
Proof.
  revert m. induction n as [|n IH]; intros m; [reflexivity|].
  rewrite sum_S_l. cbn [seq map bond_op fold_right fst snd]. rewrite Nat.add_0_r. f_equal.
  etransitivity; [apply (IH (S m))|]. apply sum_ext. intros j Hj. rewrite Nat.add_succ_r. reflexivity.
Qed.

Lemma bond_op_sum k k' H is js : bond_op k k' (h_terms H k) is js =
  sum (h_depth H k) (fun j => two_site k k' (mat (h_left H k j)) (mat (h_right H k j)) is js).
Proof. unfold h_terms. rewrite bond_op_seq. reflexivity. Qed.

(** adding operators one after the other *)
Lemma adds_trans ds O1 O2 O3 M1 M2 : adds ds O1 O2 M1 -> adds ds O2 O3 M2 ->
  adds ds O1 O3 (fun is js => M1 is js + M2 is js).
Proof.
  intros (B1 & A1) (B2 & A2). split; [exact B2|]. intros is js Hi Hj.
  rewrite A2, A1 by assumption. ring.
Qed.

Lemma adds_ext ds O1 O2 M1 M2 : adds ds O1 O2 M1 ->
  (forall is js, in_range ds is -> in_range ds js -> M1 is js = M2 is js) -> adds ds O1 O2 M2.
Proof. intros (B1 & A1) HE. split; [exact B1|]. intros is js Hi Hj. rewrite A1, HE by assumption. reflexivity. Qed.

(** a loop of additions *)
Lemma fold_adds ds (f : mpo -> nat -> result mpo) (M : nat -> list nat -> list nat -> K) m n O b :
  hform ds b O ->
  (forall k b1 O1, (m <= k < m + n)%nat -> hform ds b1 O1 -> exists O2, f O1 k = Ok O2 /\ adds ds O1 O2 (M k)) ->
  exists O', fold_left (fun r k => bind r (fun O => f O k)) (seq m n) (Ok O) = Ok O' /\
    adds ds O O' (fun is js => sum n (fun k => M (m + k)%nat is js)).
Proof.
  revert m O b. induction n as [|n IH]; intros m O b HF Hf.
  - exists O. split; [reflexivity|]. split; [eauto|]. intros. cbn. ring.
  - destruct (Hf m b O ltac:(lia) HF) as (O2 & E2 & A2).
    destruct A2 as ((b2 & HF2) & A2).
    destruct (IH (S m) O2 b2 HF2) as (O3 & E3 & A3); [intros; eapply Hf; [lia|eassumption]|].
    exists O3. split; [cbn [seq fold_left bind]; rewrite E2; exact E3|].
    eapply adds_ext; [eapply adds_trans; [split; [eauto|exact A2]|exact A3]|].
    intros is js _ _. cbv beta. rewrite sum_S_l, Nat.add_0_r. f_equal. apply sum_ext. intros. 
    rewrite Nat.add_succ_r. reflexivity.
Qed.

Lemma new_mpo_hform ds O : Forall (fun d => (0 < d)%nat) ds -> new_mpo ds = Ok O ->
  hform ds (fresh_b (length ds)) O /\ forall is js, in_range ds is -> in_range ds js -> opelem O is js = 0.
Proof.
  intros Hp. unfold new_mpo. destruct (Nat.ltb_spec (length ds) 2); [discriminate|]. intros E. apply Ok_inj in E. subst O.
  split; [apply fresh_hform; assumption|]. intros is js Hi Hj. apply fresh_zero; assumption.
Qed.

Lemma h_dims_pos H : ham_ok H -> Forall (fun d => (0 < d)%nat) (h_dims H).
Proof.
  intros HK. unfold h_dims. apply Forall_map, Forall_forall. intros k Hk. apply in_seq in Hk.
  apply (hk_pos _ HK). lia.
Qed.

(** Every local term must be present. *)
Definition locals_set (H : hamiltonian) : Prop := forall k, (k < h_size H)%nat -> h_local H k <> empty.

Lemma add_locals_adds H O b : ham_ok H -> locals_set H -> hform (h_dims H) b O ->
  exists O', add_locals H O = Ok O' /\
    adds (h_dims H) O O' (fun is js => sum (h_size H) (fun k => site_op k (mat (h_local H k)) is js)).
Proof.
  intros HK HL HF. unfold add_locals.
  apply (fold_adds (h_dims H) (fun O i => add_local_term O (h_local H i) (Z.of_nat i))
           (fun k => site_op k (mat (h_local H k))) 0 (h_size H) O b HF).
  intros k b1 O1 Hk H1.
  assert (HD : dims (h_local H k) = [nth k (h_dims H) 0; nth k (h_dims H) 0]%nat).
  { rewrite h_dims_nth by lia. destruct (hk_local _ HK k ltac:(lia)) as [(X & _)|X]; [exact X|].
    exfalso. apply (HL k); [lia|exact X]. }
  destruct (add_local_ok (h_dims H) b1 O1 (h_local H k) (Z.of_nat k) H1) as (O2 & E2).
  - rewrite h_dims_length. lia.
  - rewrite Nat2Z.id. exact HD.
  - exists O2. split; [exact E2|]. destruct (add_local_adds _ _ _ _ _ _ H1 E2) as (_ & _ & A).
    rewrite Nat2Z.id in A. exact A.
Qed.

Lemma add_terms_adds H i O b : ham_ok H -> (S i < h_size H)%nat -> hform (h_dims H) b O ->
  exists O', add_terms_at H i O = Ok O' /\ adds (h_dims H) O O' (bond_op i (S i) (h_terms H i)).
Proof.
  intros HK Hi HF. unfold add_terms_at.
  destruct (fold_adds (h_dims H) (fun O j => if is_empty (h_left H i j) then Ok O
              else add_interaction O (h_left H i j) (Z.of_nat i) (h_right H i j))
           (fun j => two_site i (S i) (mat (h_left H i j)) (mat (h_right H i j))) 0 (h_depth H i) O b HF) as (O' & E & A).
  - intros j b1 O1 Hj H1.
    destruct (terms_ok_nth H i _ _ j (hk_terms _ HK i Hi) ltac:(lia)) as (L & R).
    rewrite (is_matrix_not_empty _ _ _ L) by (apply (hk_pos _ HK); lia).
    destruct (add_nn_ok (h_dims H) b1 O1 (h_left H i j) (Z.of_nat i) (h_right H i j) H1) as (O2 & E2).
    + lia.
    + rewrite h_dims_length. lia.
    + rewrite Nat2Z.id, h_dims_nth by lia. apply L.
    + rewrite Nat2Z.id, h_dims_nth by lia. apply R.
    + exists O2. split; [exact E2|]. destruct (add_nn_adds _ _ _ _ _ _ _ H1 E2) as (_ & _ & _ & _ & A).
      rewrite Nat2Z.id in A. exact A.
  - exists O'. split; [exact E|]. eapply adds_ext; [exact A|].
    intros is js _ _. cbv beta. rewrite bond_op_sum. reflexivity.
Qed.

Lemma cmpo_correct H : ham_ok H -> locals_set H -> (2 <= h_size H)%nat ->
  exists O b, cmpo_of_hamiltonian H = Ok O /\ hform (h_dims H) b O /\
    forall is js, in_range (h_dims H) is -> in_range (h_dims H) js ->
      opelem O is js = chain_op (h_size H) false (h_local H) (h_terms H) is js.
Proof.
  intros HK HL Hn. unfold cmpo_of_hamiltonian.
  assert (EN : exists O0, new_mpo (h_dims H) = Ok O0).
  { unfold new_mpo. rewrite h_dims_length. destruct (Nat.ltb_spec (h_size H) 2); [lia|]. eauto. }
  destruct EN as (O0 & EN). rewrite EN. cbn [bind].
  destruct (new_mpo_hform _ _ (h_dims_pos H HK) EN) as (HF0 & Z0).
  destruct (add_locals_adds H O0 _ HK HL HF0) as (O1 & E1 & (b1 & HF1) & A1). rewrite E1. cbn [bind].
  destruct (fold_adds (h_dims H) (fun O i => add_terms_at H i O) (fun i => bond_op i (S i) (h_terms H i)) 0 (h_size H - 1) O1 b1 HF1)
    as (O2 & E2 & (b2 & HF2) & A2).
  { intros k b' O' Hk HF'. apply (add_terms_adds H k O' b'); [exact HK|lia|exact HF']. }
  exists O2, b2. split; [exact E2|]. split; [exact HF2|].
  intros is js Hi Hj. rewrite A2, A1, Z0 by assumption. unfold chain_op. cbn [andb Nat.add]. ring.
Qed.

(** *** RMPO *)
Definition real_tensor (t : tensor) : Prop := Forall (fun x => kconj x = x) (data t).

Lemma safe_real_ok t : real_tensor t -> safe_real t = Ok t.
Proof.
  intros HR. unfold safe_real. replace (forallb _ _) with true; [reflexivity|].
  symmetry. apply forallb_forall. intros x Hx. apply keqb_eq. unfold real_tensor in HR.
  rewrite Forall_forall in HR. apply HR. exact Hx.
Qed.

Definition all_real (H : hamiltonian) : Prop := forall k, (k < h_size H)%nat -> real_tensor (h_local H k) /\
  forall j, (j < h_depth H k)%nat -> real_tensor (h_left H k j) /\ real_tensor (h_right H k j).

Lemma fold_bind_ext {A} (f g : A -> nat -> result A) l r : (forall a x, In x l -> f a x = g a x) ->
  fold_left (fun r k => bind r (fun a => f a k)) l r = fold_left (fun r k => bind r (fun a => g a k)) l r.
Proof.
  intros HE. apply fold_left_ext_in. intros x y Hy. destruct x; [cbn; apply HE; exact Hy|reflexivity].
Qed.

Lemma radd_locals_eq H O : all_real H -> radd_locals H O = add_locals H O.
Proof.
  intros HR. unfold radd_locals, add_locals.
  apply (fold_bind_ext (fun O i => bind (safe_real (h_local H i)) (fun H1 => add_local_term O H1 (Z.of_nat i)))
                       (fun O i => add_local_term O (h_local H i) (Z.of_nat i))).
  intros a x Hx. apply in_seq in Hx. rewrite safe_real_ok by (apply HR; lia). reflexivity.
Qed.

Lemma radd_terms_eq H i O : all_real H -> (i < h_size H)%nat -> radd_terms_at H i O = add_terms_at H i O.
Proof.
  intros HR Hi. unfold radd_terms_at, add_terms_at.
  apply (fold_bind_ext (fun O j => bind (safe_real (h_left H i j)) (fun Hi => bind (safe_real (h_right H i j)) (fun Hj =>
           if is_empty Hi then Ok O else add_interaction O Hi (Z.of_nat i) Hj)))
          (fun O j => if is_empty (h_left H i j) then Ok O else add_interaction O (h_left H i j) (Z.of_nat i) (h_right H i j))).
  intros a x Hx. apply in_seq in Hx. destruct (proj2 (HR i Hi) x ltac:(lia)) as (R1 & R2).
  rewrite !safe_real_ok by assumption. reflexivity.
Qed.

Lemma rmpo_correct H : ham_ok H -> locals_set H -> all_real H -> (2 <= h_size H)%nat ->
  h_depth H (h_size H - 1) = 0%nat ->
  exists O b, rmpo_of_hamiltonian H = Ok O /\ hform (h_dims H) b O /\
    forall is js, in_range (h_dims H) is -> in_range (h_dims H) js ->
      opelem O is js = chain_op (h_size H) false (h_local H) (h_terms H) is js.
Proof.
  intros HK HL HR Hn Hd. destruct (cmpo_correct H HK HL Hn) as (O & b & E & HF & HO).
  exists O, b. split; [|split; [exact HF|exact HO]].
  revert E. unfold rmpo_of_hamiltonian, cmpo_of_hamiltonian.
  destruct (new_mpo (h_dims H)) as [O0|]; cbn [bind]; [|discriminate].
  rewrite radd_locals_eq by exact HR. destruct (add_locals H O0) as [O1|]; cbn [bind]; [|discriminate].
  intros E. replace (seq 0 (h_size H)) with (seq 0 (h_size H - 1) ++ [h_size H - 1]%nat).
  2:{ pose proof (seq_S (h_size H - 1) 0) as SS. cbn [Nat.add] in SS. rewrite <- SS. f_equal. lia. }
  rewrite fold_left_app.
  replace (fold_left (fun r i => bind r (radd_terms_at H i)) (seq 0 (h_size H - 1)) (Ok O1))
     with (Ok O).
  - cbn [fold_left bind]. unfold radd_terms_at. rewrite Hd. reflexivity.
  - rewrite <- E. symmetry. apply (fold_bind_ext (fun O i => radd_terms_at H i O) (fun O i => add_terms_at H i O)).
    intros a x Hx. apply in_seq in Hx. apply radd_terms_eq; [exact HR|lia].
Qed.

(** With interactions on the last site (as in every TIHamiltonian) the real constructor stops. *)
Lemma rmpo_aborts H : ham_ok H -> (2 <= h_size H)%nat -> (0 < h_depth H (h_size H - 1))%nat ->
  is_empty (h_left H (h_size H - 1) 0) = false -> rmpo_of_hamiltonian H = Abort.
Proof.
  intros HK Hn Hd He.
  assert (LEN : forall (f : mpo -> nat -> result mpo) l O O', (forall O1 k O2, length O1 = h_size H -> f O1 k = Ok O2 -> length O2 = h_size H) ->
     length O = h_size H -> fold_left (fun r k => bind r (fun O => f O k)) l (Ok O) = Ok O' -> length O' = h_size H).
  { intros f l. induction l as [|x l IH]; intros O O' Hf HO; cbn [fold_left bind]; [intros E; apply Ok_inj in E; subst; exact HO|].
    destruct (f O x) as [O2|] eqn:E2; [|rewrite (fold_bind_abort f); discriminate].
    apply IH; [exact Hf|eapply Hf; eassumption]. }
  unfold rmpo_of_hamiltonian. destruct (new_mpo (h_dims H)) as [O0|] eqn:E0; cbn [bind]; [|reflexivity].
  assert (L0 : length O0 = h_size H).
  { unfold new_mpo in E0. destruct (Nat.ltb _ 2); [discriminate|]. apply Ok_inj in E0. subst O0.
    rewrite map_length, seq_length. apply h_dims_length. }
  destruct (radd_locals H O0) as [O1|] eqn:E1; cbn [bind]; [|reflexivity].
  assert (Lloc : forall O1 k O2 t, length O1 = h_size H -> add_local_term O1 t k = Ok O2 -> length O2 = h_size H).
  { intros P k P2 t HP. unfold add_local_term. repeat (match goal with |- context [if ?c then _ else _] => destruct c end; try discriminate);
    intros E; apply Ok_inj in E; subst P2; rewrite length_replace_nth; exact HP. }
  assert (L1 : length O1 = h_size H).
  { revert E1. unfold radd_locals. apply (LEN (fun O i => bind (safe_real (h_local H i)) (fun H1 => add_local_term O H1 (Z.of_nat i)))); [|exact L0].
    intros P k P2 HP. destruct (safe_real _); cbn [bind]; [|discriminate]. apply Lloc. exact HP. }
  replace (seq 0 (h_size H)) with (seq 0 (h_size H - 1) ++ [h_size H - 1]%nat).
  2:{ pose proof (seq_S (h_size H - 1) 0) as SS. cbn [Nat.add] in SS. rewrite <- SS. f_equal. lia. }
  rewrite fold_left_app. cbn [fold_left].
  destruct (fold_left _ (seq 0 (h_size H - 1)) (Ok O1)) as [O2|] eqn:E2; cbn [bind]; [|reflexivity].
  assert (Lint : forall O1 k O2 t t', length O1 = h_size H -> add_interaction O1 t k t' = Ok O2 -> length O2 = h_size H).
  { intros P k P2 t t' HP. unfold add_interaction. cbv zeta.
    repeat (match goal with |- context [if ?c then Abort else _] => destruct c end; try discriminate);
    intros E; apply Ok_inj in E; subst P2; rewrite !length_replace_nth; exact HP. }
  assert (Lat : forall O1 k O2, length O1 = h_size H -> radd_terms_at H k O1 = Ok O2 -> length O2 = h_size H).
  { intros P k P2 HP. unfold radd_terms_at. apply (LEN (fun O j => bind (safe_real (h_left H k j)) (fun Hi => bind (safe_real (h_right H k j)) (fun Hj =>
           if is_empty Hi then Ok O else add_interaction O Hi (Z.of_nat k) Hj)))); [|exact HP].
    intros Q j Q2 HQ. destruct (safe_real _); cbn [bind]; [|discriminate]. destruct (safe_real _); cbn [bind]; [|discriminate].
    match goal with |- (if ?c then _ else _) = _ -> _ => destruct c end; [intros E; apply Ok_inj in E; subst; exact HQ|]. apply Lint. exact HQ. }
  assert (L2 : length O2 = h_size H).
  { revert E2. apply (LEN (fun O i => radd_terms_at H i O)); [|exact L1]. intros P k P2. apply Lat. }
  unfold radd_terms_at. destruct (h_depth H (h_size H - 1)) as [|n]; [lia|]. cbn [seq fold_left bind].
  destruct (safe_real (h_left H (h_size H - 1) 0)) as [t|] eqn:Et; cbn [bind];
    [|apply (fold_bind_abort (fun O j => bind (safe_real (h_left H (h_size H - 1) j)) (fun Hi => bind (safe_real (h_right H (h_size H - 1) j)) (fun Hj =>
           if is_empty Hi then Ok O else add_interaction O Hi (Z.of_nat (h_size H - 1)) Hj))))].
  assert (t = h_left H (h_size H - 1) 0) by (unfold safe_real in Et; destruct (forallb _ _); [apply Ok_inj in Et; congruence|discriminate]).
  subst t. rewrite He.
  replace (bind (safe_real (h_right H (h_size H - 1) 0)) (fun Hj => add_interaction O2 (h_left H (h_size H - 1) 0) (Z.of_nat (h_size H - 1)) Hj)) with (@Abort mpo).
  - apply (fold_bind_abort (fun O j => bind (safe_real (h_left H (h_size H - 1) j)) (fun Hi => bind (safe_real (h_right H (h_size H - 1) j)) (fun Hj =>
           if is_empty Hi then Ok O else add_interaction O Hi (Z.of_nat (h_size H - 1)) Hj)))).
  - clear Et; destruct (safe_real (h_right H (h_size H - 1) 0)); [|reflexivity]. cbn [bind]. unfold add_interaction. rewrite L2.
    destruct (Z.ltb_spec (Z.of_nat (h_size H - 1)) 0); [reflexivity|].
    destruct (Z.leb_spec (Z.of_nat (h_size H)) (Z.of_nat (h_size H - 1) + 1)); [reflexivity|lia].
Qed.

(** *** C40: expectation values *)
Lemma melem_add ds f M N g : melem ds f (fun is js => M is js + N is js) g = melem ds f M g + melem ds f N g.
Proof.
  unfold melem. rewrite <- sumcfg_add. apply sumcfg_ext. intros is His. rewrite <- sumcfg_add.
  apply sumcfg_ext. intros js Hjs. ring.
Qed.

Lemma melem_zero ds f g : melem ds f (fun _ _ => 0) g = 0.
Proof. unfold melem. apply sumcfg_zero. intros is _. apply sumcfg_zero. intros js _. ring. Qed.

Lemma melem_sum ds f n M g : melem ds f (fun is js => sum n (fun k => M k is js)) g = sum n (fun k => melem ds f (M k) g).
Proof.
  induction n as [|n IH]; [apply melem_zero|]. cbn [sum]. rewrite <- IH.
  apply (melem_add ds f (fun is js => sum n (fun k => M k is js)) (M n)).
Qed.

Lemma h_expected_site_correct psi H k k2 E : wf_mps psi -> (k < length psi)%nat -> (k2 < length psi)%nat -> k <> k2 ->
  terms_ok (nth k (pdims psi) 0%nat) (nth k2 (pdims psi) 0%nat) (h_terms H k) ->
  h_expected_site psi H k k2 E = Ok (E + melem (pdims psi) (amp psi) (bond_op k k2 (h_terms H k)) (amp psi)).
Proof.
  intros Hw Hk Hk2 Hne HT. unfold h_expected_site.
  rewrite (melem_ext _ _ (bond_op k k2 (h_terms H k)) (fun is js => sum (h_depth H k) (fun j => two_site k k2 (mat (h_left H k j)) (mat (h_right H k j)) is js)))
    by (intros; apply bond_op_sum).
  rewrite melem_sum.
  rewrite <- fold_left_sum.
  assert (G : forall l s, (forall j, In j l -> (j < h_depth H k)%nat) ->
    fold_left (fun r i => bind r (fun E => bind (expected2 psi (h_left H k i) (Z.of_nat k) (h_right H k i) (Z.of_nat k2)) (fun x => Ok (E + x)))) l (Ok s)
    = Ok (fold_left (fun s i => s + melem (pdims psi) (amp psi) (two_site k k2 (mat (h_left H k i)) (mat (h_right H k i))) (amp psi)) l s)).
  { induction l as [|j l IH]; intros s Hl; [reflexivity|]. cbn [fold_left bind].
    destruct (terms_ok_nth H k _ _ j HT ltac:(apply Hl; left; reflexivity)) as (L & R).
    rewrite (expected2_correct psi _ _ k _ _ k2); [|exact Hw|apply normal_index_nat; assumption|apply normal_index_nat; assumption|right; exact Hne|apply L|apply R].
    cbn [bind]. rewrite IH by (intros; apply Hl; right; assumption). do 2 f_equal. f_equal.
    apply melem_ext. intros is js Hi Hj. unfold two_site. apply op_mul_sites; try assumption; rewrite length_pdims; assumption. }
  apply G. intros j Hj. apply in_seq in Hj. lia.
Qed.

Lemma h_expected_step_correct psi H k E : wf_mps psi -> ham_ok H -> length psi = h_size H -> pdims psi = h_dims H ->
  (k < h_size H)%nat ->
  h_expected_step psi H k E = Ok (E + melem (pdims psi) (amp psi) (site_op k (mat (h_local H k))) (amp psi) +
    (if Nat.ltb (S k) (h_size H) then melem (pdims psi) (amp psi) (bond_op k (S k) (h_terms H k)) (amp psi)
     else if h_periodic H && Nat.ltb 1 (h_size H) then melem (pdims psi) (amp psi) (bond_op k 0 (h_terms H k)) (amp psi) else 0)).
Proof.
  intros Hw HK Hlen Hd Hk. unfold h_expected_step.
  set (loc := melem (pdims psi) (amp psi) (site_op k (mat (h_local H k))) (amp psi)).
  replace (if is_empty (h_local H k) then Ok E else bind (expected1 psi (h_local H k) (Z.of_nat k)) (fun x => Ok (E + x)))
     with (Ok (E + loc)).
  2:{ destruct (hk_local _ HK k Hk) as [HM|HM].
      - rewrite (is_matrix_not_empty _ _ _ HM) by (apply (hk_pos _ HK); exact Hk).
        rewrite (expected1_correct psi _ _ k); [reflexivity|exact Hw|apply normal_index_nat; lia|].
        rewrite Hd, h_dims_nth by exact Hk. apply HM.
      - assert (El : loc = 0).
        { unfold loc. rewrite <- (melem_zero (pdims psi) (amp psi) (amp psi)). apply melem_ext. intros is js Hi Hj.
          rewrite (site_op_ext _ k _ (fun _ _ => 0) _ _ Hi Hj) by (intros; rewrite HM; apply mat_empty). apply site_op_zero. }
        rewrite El, HM. cbn. f_equal. ring. }
  cbn [bind].
  destruct (Nat.eqb_spec (S k) (h_size H)) as [Ek|Ek], (Nat.ltb_spec (S k) (h_size H)); try lia.
  - destruct (Nat.eqb_spec k 0) as [->|Hk0]; cbn [orb].
    + destruct (Nat.ltb_spec 1 (h_size H)); [lia|]. rewrite andb_false_r. f_equal. ring.
    + destruct (Nat.ltb_spec 1 (h_size H)); [|lia]. destruct (h_periodic H) eqn:Ep; cbn [negb andb]; [|f_equal; ring].
      assert (Ek' : k = (h_size H - 1)%nat) by lia.
      rewrite h_expected_site_correct; [reflexivity|exact Hw|lia|lia|exact Hk0|].
      rewrite Hd, !h_dims_nth by lia. rewrite Ek'. apply (hk_wrap _ HK); [exact Ep|lia].
  - rewrite h_expected_site_correct; [reflexivity|exact Hw|lia|lia|lia|].
    rewrite Hd, !h_dims_nth by lia. apply (hk_terms _ HK). lia.
Qed.

Lemma h_expected_correct psi H : wf_mps psi -> ham_ok H -> pdims psi = h_dims H ->
  h_expected psi H = Ok (melem (pdims psi) (amp psi) (ham_op H) (amp psi)).
Proof.
  intros Hw HK Hd.
  assert (Hlen : length psi = h_size H) by (rewrite <- (h_dims_length H), <- Hd; symmetry; apply length_pdims).
  assert (Hn : (0 < h_size H)%nat) by (rewrite <- Hlen; apply wf_mps_length; exact Hw).
  unfold h_expected.
  set (mm := fun M => melem (pdims psi) (amp psi) M (amp psi)).
  set (st := fun k => mm (site_op k (mat (h_local H k))) +
    (if Nat.ltb (S k) (h_size H) then mm (bond_op k (S k) (h_terms H k))
     else if h_periodic H && Nat.ltb 1 (h_size H) then mm (bond_op k 0 (h_terms H k)) else 0)).
  assert (G : forall l s, (forall j, In j l -> (j < h_size H)%nat) ->
    fold_left (fun r k => bind r (h_expected_step psi H k)) l (Ok s) = Ok (fold_left (fun s k => s + st k) l s)).
  { induction l as [|j l IH]; intros s Hl; [reflexivity|]. cbn [fold_left bind].
    rewrite h_expected_step_correct by (auto; apply Hl; left; reflexivity).
    rewrite IH by (intros; apply Hl; right; assumption). f_equal. f_equal. unfold st, mm. ring. }
  rewrite G by (intros j Hj; apply in_seq in Hj; lia). f_equal.
  rewrite fold_left_sum. unfold ham_op, chain_op.
  rewrite (melem_add _ _ (fun is js => sum (h_size H) (fun k => site_op k (mat (h_local H k)) is js) + sum (h_size H - 1) (fun k => bond_op k (S k) (h_terms H k) is js))).
  rewrite (melem_add _ _ (fun is js => sum (h_size H) (fun k => site_op k (mat (h_local H k)) is js))).
  rewrite !melem_sum. unfold st. rewrite sum_add.
  set (S1 := sum (h_size H) (fun k => mm (site_op k (mat (h_local H k))))).
  replace (sum (h_size H) (fun i => if Nat.ltb (S i) (h_size H) then mm (bond_op i (S i) (h_terms H i))
             else if h_periodic H && Nat.ltb 1 (h_size H) then mm (bond_op i 0 (h_terms H i)) else 0))
    with (sum (h_size H - 1) (fun k => mm (bond_op k (S k) (h_terms H k))) +
          (if h_periodic H && Nat.ltb 1 (h_size H) then mm (bond_op (h_size H - 1) 0 (h_terms H (h_size H - 1))) else 0)).
  2:{ match goal with |- _ = ?R => let f := match R with sum _ ?f => f end in
        transitivity (sum (S (h_size H - 1)) f); [|f_equal; lia] end. cbn [sum].
      f_equal.
      - apply sum_ext. intros k Hk. destruct (Nat.ltb_spec (S k) (h_size H)); [reflexivity|lia].
      - destruct (Nat.ltb_spec (S (h_size H - 1)) (h_size H)); [lia|reflexivity]. }
  transitivity (S1 + sum (h_size H - 1) (fun k => mm (bond_op k (S k) (h_terms H k))) +
     mm (fun is js => if h_periodic H && Nat.ltb 1 (h_size H) then bond_op (h_size H - 1) 0 (h_terms H (h_size H - 1)) is js else 0)); [|reflexivity].
  destruct (h_periodic H && Nat.ltb 1 (h_size H)).
  - change (mm (fun is js => bond_op (h_size H - 1) 0 (h_terms H (h_size H - 1)) is js)) with (mm (bond_op (h_size H - 1) 0 (h_terms H (h_size H - 1)))). ring.
  - unfold mm at 3. rewrite melem_zero. ring.
Qed.

End Ham.
