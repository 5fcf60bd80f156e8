(** * C34-C38: the lattice *)
From Coq Require Import Bool List Arith ZArith Lia.
From Verif Require Import Scalar Instances ScalarFacts Tensor TensorFacts LatticeModel LatticeSpec LatticeFacts LatticeHop LatticeApply.
Import ListNotations.

(** C34. The configurations are the words of [sites] bits with N ones, each once, in increasing order. *)
Theorem C34_configurations sites N L : lattice_new sites N = Ok L ->
  lat_size L = sites /\ particles L = N /\ increasing (configurations L) /\ NoDup (configurations L) /\
  forall w, In w (configurations L) <-> (0 <= w < 2 ^ Z.of_nat sites)%Z /\ Z.of_nat (ones sites w) = N.
Proof.
  intros H. pose proof (lattice_new_ok _ _ _ H) as (_ & _ & H1 & H2 & _). pose proof (conf_increasing _ _ _ H).
  repeat split; auto; try apply increasing_NoDup; auto; now apply (conf_in _ _ _ _ H).
Qed.

(** The constructor aborts exactly for more than 34 sites or more particles than sites. *)
Theorem C34_rejected sites N : lattice_new sites N = Abort <-> (34 < sites)%nat \/ (Z.of_nat sites < N)%Z.
Proof.
  unfold lattice_new, states_with_n_particles. destruct (Nat.ltb_spec 34 sites); [split; auto|].
  destruct (Z.ltb_spec (Z.of_nat sites) N); [split; auto|]. cbn [bind]. split; [discriminate|lia].
Qed.

(** The dimension is a binomial coefficient (and zero for a negative number of particles). *)
Theorem C34_dimension sites N L : lattice_new sites N = Ok L ->
  dimension L = if (N <? 0)%Z then 0 else binom sites (Z.to_nat N).
Proof.
  intros H. destruct (Z.ltb_spec N 0) as [Neg|P].
  - unfold dimension. destruct (configurations L) as [|w l] eqn:E; auto. exfalso.
    assert (In w (configurations L)) as I by (rewrite E; left; auto). apply (conf_in _ _ _ _ H) in I as (_ & I). lia.
  - apply dimension_binom. rewrite Z2Nat.id by auto. exact H.
Qed.

(** (n choose k) k! (n-k)! = n! *)
Theorem C34_binomial n k : (k <= n)%nat -> binom n k * (fact k * fact (n - k)) = fact n.
Proof.
  assert (B0 : forall n k, (n < k)%nat -> binom n k = 0%nat).
  { clear. induction n as [|n IH]; intros [|k] H; cbn; try lia. rewrite !IH by lia. lia. }
  induction n as [|n IH] in k |- *; intros H.
  - replace k with 0%nat by lia. reflexivity.
  - destruct k as [|k].
    + cbn [binom fact]. rewrite Nat.sub_0_r. cbn [fact]. lia.
    + cbn [binom]. rewrite Nat.sub_succ. specialize (IH k ltac:(lia)) as I1.
      destruct (Nat.eq_dec k n) as [->|NE].
      * rewrite (B0 n (S n)) by lia. rewrite Nat.sub_diag in *. cbn [fact] in *. nia.
      * specialize (IH (S k) ltac:(lia)) as I2. replace (n - k)%nat with (S (n - S k)) in * by lia.
        cbn [fact] in *. assert (n = (n - S k) + S k)%nat as En by lia. nia.
Qed.

Section Properties.
Context {SC : Scalar}.
Local Open Scope K_scope.

(** C35. Every matrix element of hopping_operator(to, from, kind). *)
Theorem C35_hopping sites N L to from knd r c : lattice_new sites N = Ok L -> (to < sites)%nat -> (from < sites)%nat ->
  (r < dimension L)%nat -> (c < dimension L)%nat ->
  selem (hopping_operator L to from knd) r c = hop_element knd to from (conf L r) (conf L c).
Proof. intros; now apply (hopping_elem sites N). Qed.

Theorem C35_shape sites N L to from knd : lattice_new sites N = Ok L -> (to < sites)%nat -> (from < sites)%nat ->
  sp_shape (hopping_operator L to from knd) (dimension L) (dimension L).
Proof. intros; now apply (hopping_shape sites N). Qed.

(** The jump stays in the lattice, so no part of a+_to a_from is lost: the moved configuration is one of
    the rows. *)
Theorem C35_closed sites N L to from w : lattice_new sites N = Ok L -> (to < sites)%nat -> (from < sites)%nat ->
  In w (configurations L) -> can_hop to from w = true -> In (hopped to from w) (configurations L).
Proof.
  intros H Ht Hf Hw Hc. destruct (Nat.eq_dec to from) as [->|NE].
  - rewrite can_hop_eq in Hc. now rewrite hopped_eq.
  - rewrite hopped_flip by auto. now apply (flip_conf sites N).
Qed.

(** For to = from it is the number operator. *)
Theorem C35_same_site L i knd : hopping_operator L i i knd = number_operator L i.
Proof. unfold hopping_operator. now rewrite Nat.eqb_refl. Qed.

(** C36. *)
Theorem C36_number sites N L i r c : lattice_new sites N = Ok L -> (r < dimension L)%nat -> (c < dimension L)%nat ->
  selem (number_operator L i) r c = if Nat.eqb r c && occ (conf L c) i then 1 else 0.
Proof.
  intros H Hr Hc. unfold number_operator. rewrite (interaction_elem sites N) by auto.
  unfold int_element. now rewrite (conf_eqb sites N), andb_diag by auto.
Qed.

Theorem C36_interaction sites N L i j r c : lattice_new sites N = Ok L -> (r < dimension L)%nat -> (c < dimension L)%nat ->
  selem (interaction_operator L i j) r c = if Nat.eqb r c && (occ (conf L c) i && occ (conf L c) j) then 1 else 0.
Proof.
  intros H Hr Hc. rewrite (interaction_elem sites N) by auto. unfold int_element. now rewrite (conf_eqb sites N) by auto.
Qed.

Theorem C36_hamiltonian sites N L J U mu knd r c : lattice_new sites N = Ok L ->
  (dim J 0 <= sites)%nat -> (dim J 1 <= sites)%nat -> (r < dimension L)%nat -> (c < dimension L)%nat ->
  selem (lat_Hamiltonian L J U mu knd) r c = ham_element (dim J 0) (dim J 1) J U mu knd (conf L r) (conf L c).
Proof. intros; now apply (ham_elem sites N). Qed.

(** The matrix has the dimension of the lattice as soon as one coefficient is not zero; with all of them
    zero the C++ returns the default 0 x 0 matrix (C36_no_terms). *)
Theorem C36_shape sites N L J U mu knd : lattice_new sites N = Ok L ->
  (dim J 0 <= sites)%nat -> (dim J 1 <= sites)%nat ->
  (exists i j, (i < dim J 0)%nat /\ (j < dim J 1)%nat /\
     (get J [i; j] - (if Nat.eqb i j then mu else 0) <> 0 \/ get U [i; j] <> 0)) ->
  sp_shape (lat_Hamiltonian L J U mu knd) (dimension L) (dimension L) /\
  sp_shape (number_operator L 0) (dimension L) (dimension L) /\
  forall i j, sp_shape (interaction_operator L i j) (dimension L) (dimension L).
Proof.
  intros. split; [now apply (ham_shape sites N)|]. split; intros; apply interaction_shape.
Qed.

(** C37, what holds: for matrices J without diagonal and interactions without diagonal that vanish in
    pairs, the vector computed by apply_lattice() (the operator that Lattice::eigs() diagonalises) is the
    Hamiltonian with J TRANSPOSED times psi. *)
Theorem C37_transposed_partial sites N L J Jt U psi knd k : lattice_new sites N = Ok L -> (dim J 0 <= sites)%nat ->
  dim Jt 0 = dim J 0 -> dim Jt 1 = dim J 0 ->
  (forall i j, (i < dim J 0)%nat -> (j < dim J 0)%nat -> get Jt [i; j] = get J [j; i]) ->
  (forall i, (i < dim J 0)%nat -> get J [i; i] = 0) ->
  (forall i, (i < dim J 0)%nat -> get U [i; i] = 0) ->
  (forall i j, (i < j < dim J 0)%nat -> get U [i; j] = 0 -> get U [j; i] = 0) ->
  length psi = dimension L -> (k < dimension L)%nat ->
  nth k (apply_lattice psi L J U knd) 0 =
  sum (dimension L) (fun r => selem (lat_Hamiltonian L Jt U 0 knd) k r * nth r psi 0).
Proof. intros. now apply (apply_is_transposed sites N). Qed.

(** In particular it is H psi for symmetric matrices without diagonal. *)
Theorem C37_symmetric_partial sites N L J U psi knd k : lattice_new sites N = Ok L -> (dim J 0 <= sites)%nat ->
  dim J 1 = dim J 0 ->
  (forall i j, (i < dim J 0)%nat -> (j < dim J 0)%nat -> get J [i; j] = get J [j; i] /\ get U [i; j] = get U [j; i]) ->
  (forall i, (i < dim J 0)%nat -> get J [i; i] = 0 /\ get U [i; i] = 0) ->
  length psi = dimension L -> (k < dimension L)%nat ->
  nth k (apply_lattice psi L J U knd) 0 =
  sum (dimension L) (fun r => selem (lat_Hamiltonian L J U 0 knd) k r * nth r psi 0).
Proof.
  intros H H1 H2 H3 H4 H5 H6. apply (C37_transposed_partial sites N); auto.
  - intros; now apply H3. - intros; now apply H4. - intros; now apply H4.
  - intros i j Hij E. destruct (H3 i j) as (_ & <-); auto; lia.
Qed.
End Properties.

(** C38, for at most 31 sites on the right. *)
Theorem C38_bipartition_partial sites N L sl sr fuel : lattice_new sites N = Ok L ->
  sites = (sl + sr)%nat -> (1 <= sl)%nat -> (1 <= sr <= 31)%nat ->
  exists left right,
    increasing left /\ increasing right /\
    (forall x, In x left <-> exists w, In w (configurations L) /\ x = Z.shiftr w (Z.of_nat sr)) /\
    (forall y, In y right <-> exists w, In w (configurations L) /\ y = (w mod 2 ^ Z.of_nat sr)%Z) /\
    ((length left <= fuel)%nat -> (length right <= fuel)%nat -> exists ndx,
      bipartition fuel L (Z.of_nat sl) = Ok (left, right, ndx) /\ length ndx = dimension L /\
      forall i, (i < dimension L)%nat -> exists il ir,
        (il < length left)%nat /\ (ir < length right)%nat /\ nth i ndx 0 = (ir + il * length right)%nat /\
        nth il left 0%Z = Z.shiftr (conf L i) (Z.of_nat sr) /\
        nth ir right 0%Z = (conf L i mod 2 ^ Z.of_nat sr)%Z /\
        conf L i = (nth il left 0 * 2 ^ Z.of_nat sr + nth ir right 0)%Z).
Proof.
  intros H -> Hl Hr. pose proof (lattice_new_ok _ _ _ H) as (H34 & HN & HS & HP & _).
  destruct (range_ok sl (Z.max 0 (N - Z.of_nat sr)) (Z.min (Z.of_nat sl) N) ltac:(lia)) as (left & EL & IL & ML).
  destruct (range_ok sr (Z.max 0 (N - Z.of_nat sl)) (Z.min (Z.of_nat sr) N) ltac:(lia)) as (right & ER & IR & MR).
  exists left, right.
  assert (Fwd : forall w, In w (configurations L) ->
     In (Z.shiftr w (Z.of_nat sr)) left /\ In (w mod 2 ^ Z.of_nat sr)%Z right).
  { intros w Hw. apply (conf_in _ _ _ _ H) in Hw as (Hw & Ew).
    destruct (shift_split w sl sr Hw) as (S1 & S2 & S3). rewrite S3 in Ew. split.
    - apply ML. split; auto. pose proof (ones_le sl (Z.shiftr w (Z.of_nat sr))).
      pose proof (ones_le sr (w mod 2 ^ Z.of_nat sr)). lia.
    - apply MR. split; auto. pose proof (ones_le sl (Z.shiftr w (Z.of_nat sr))).
      pose proof (ones_le sr (w mod 2 ^ Z.of_nat sr)). lia. }
  assert (Join : forall x y, (0 <= x < 2 ^ Z.of_nat sl)%Z -> (0 <= y < 2 ^ Z.of_nat sr)%Z ->
     Z.of_nat (ones sl x + ones sr y) = N -> In (x * 2 ^ Z.of_nat sr + y)%Z (configurations L)).
  { intros x y Hx Hy E. apply (conf_in _ _ _ _ H).
    assert (B : (0 <= x * 2 ^ Z.of_nat sr + y < 2 ^ Z.of_nat (sl + sr))%Z).
    { rewrite Nat2Z.inj_add, Z.pow_add_r by lia. nia. }
    split; auto. destruct (shift_split _ sl sr B) as (_ & _ & ->).
    destruct (join_split x y sr) as (-> & ->); auto. lia. }
  split; [auto|]. split; [auto|]. split; [|split].
  - intros x. split.
    + intros Hx. apply ML in Hx as (Hx & Bx).
      destruct (word_with sr (Z.to_nat N - ones sl x)) as (Wy & Oy); [lia|].
      eexists. split; [apply (Join x _ Hx Wy); rewrite Oy; lia|].
      symmetry. apply join_split; auto. lia.
    + intros (w & Hw & ->). now apply Fwd.
  - intros y. split.
    + intros Hy. apply MR in Hy as (Hy & By).
      destruct (word_with sl (Z.to_nat N - ones sr y)) as (Wx & Ox); [lia|].
      eexists. split; [apply (Join _ y Wx Hy); rewrite Ox; lia|].
      symmetry. apply join_split; auto. lia.
    + intros (w & Hw & ->). now apply Fwd.
  - intros F1 F2. unfold bipartition. unfold lat_size, particles. rewrite HS, HP.
    replace (Z.of_nat (sl + sr) - Z.of_nat sl)%Z with (Z.of_nat sr) by lia.
    destruct (Z.leb_spec (Z.of_nat sl) 0); [lia|]. destruct (Z.leb_spec (Z.of_nat sr) 0); [lia|]. cbn [orb]. cbv zeta.
    rewrite !Nat2Z.id, EL, ER. cbn [bind].
    assert (MK : to_int (Z.shiftl 1 (Z.of_nat sr) - 1) = Z.ones (Z.of_nat sr)).
    { rewrite Z.shiftl_1_l, Z.ones_equiv.
      pose proof (Z.pow_le_mono_r 2 (Z.of_nat sr) 31 ltac:(lia) ltac:(lia)).
      pose proof (Z.pow_pos_nonneg 2 (Z.of_nat sr) ltac:(lia) ltac:(lia)).
      rewrite to_int_small by (change (2 ^ 31)%Z with 2147483648%Z in *; lia). lia. }
    rewrite MK.
    destruct (list_result_ok (fun w => match find_configuration fuel (Z.shiftr w (Z.of_nat sr)) left,
        find_configuration fuel (Z.land w (Z.ones (Z.of_nat sr))) right with
        | Some il, Some ir => Some (ir + il * length right)%nat | _, _ => None end) (configurations L)) as (ndx & E & Len & Nd).
    { intros w Hw. destruct (Fwd w Hw) as (G1 & G2). rewrite Z.land_ones by lia.
      destruct (find_ok left _ fuel IL G1 F1) as (a & -> & _). destruct (find_ok right _ fuel IR G2 F2) as (b & -> & _).
      eauto. }
    exists ndx. rewrite E. cbn [bind]. split; [reflexivity|]. split; [exact Len|].
    intros i Hi. specialize (Nd i 0%Z 0%nat Hi). fold (conf L i) in Nd.
    assert (In (conf L i) (configurations L)) as Ci by (apply nth_In; exact Hi).
    destruct (Fwd _ Ci) as (G1 & G2). rewrite Z.land_ones in Nd by lia.
    destruct (find_ok left _ fuel IL G1 F1) as (a & Ea & La & Na). destruct (find_ok right _ fuel IR G2 F2) as (b & Eb & Lb & Nb).
    rewrite Ea, Eb in Nd. injection Nd as Nd. exists a, b. rewrite Na, Nb.
    repeat split; auto. rewrite Z.shiftr_div_pow2 by lia.
    rewrite Z.mul_comm. apply Z.div_mod. apply Z.pow_nonzero; lia.
Qed.

(** Cuts with an empty side are rejected. *)
Theorem C38_rejected L sl fuel : (sl <= 0 \/ Z.of_nat (lat_size L) <= sl)%Z -> bipartition fuel L sl = Abort.
Proof.
  intros H. unfold bipartition. destruct (Z.leb_spec sl 0); auto.
  destruct (Z.leb_spec (Z.of_nat (lat_size L) - sl) 0); auto. lia.
Qed.

(** C38 fails with 32 or more sites on the right: the mask, an int, becomes -1 and the search for the
    right part of the configuration with its particle on the left never ends. *)
Theorem C38_wide_right_refuted sl sr L : (1 <= sl)%nat -> (32 <= sr)%nat ->
  lattice_new (sl + sr) 1 = Ok L -> forall fuel, bipartition fuel L (Z.of_nat sl) = Abort.
Proof.
  intros Hl Hr H fuel. pose proof (lattice_new_ok _ _ _ H) as (H34 & HN & HS & HP & _).
  destruct (range_ok sl (Z.max 0 (1 - Z.of_nat sr)) (Z.min (Z.of_nat sl) 1) ltac:(lia)) as (left & EL & IL & ML).
  destruct (range_ok sr (Z.max 0 (1 - Z.of_nat sl)) (Z.min (Z.of_nat sr) 1) ltac:(lia)) as (right & ER & IR & MR).
  unfold bipartition, lat_size, particles. rewrite HS, HP.
  replace (Z.of_nat (sl + sr) - Z.of_nat sl)%Z with (Z.of_nat sr) by lia.
  destruct (Z.leb_spec (Z.of_nat sl) 0); [lia|]. destruct (Z.leb_spec (Z.of_nat sr) 0); [lia|]. cbn [orb]. cbv zeta.
  rewrite !Nat2Z.id, EL, ER. cbn [bind].
  assert (MK : to_int (Z.shiftl 1 (Z.of_nat sr) - 1) = (-1)%Z).
  { assert (sr = 32 \/ sr = 33)%nat as [-> | ->] by lia; vm_compute; reflexivity. }
  rewrite MK. pose proof (Z.pow_pos_nonneg 2 (Z.of_nat sr) ltac:(lia) ltac:(lia)) as P.
  assert (P2 : (2 <= 2 ^ Z.of_nat sr)%Z) by (apply (Z.pow_le_mono_r 2 1 (Z.of_nat sr)); lia).
  assert (O0 : forall n, ones n 0 = 0%nat).
  { intros n. unfold ones. induction (seq 0 n) as [|a l IH]; cbn; auto. unfold occ at 1. rewrite Z.bits_0. auto. }
  assert (O1 : ones sr 1 = 1%nat) by (apply (word_with sr 1); lia).
  rewrite (list_result_abort _ _ (2 ^ Z.of_nat sr)%Z); auto.
  - apply (conf_in _ _ _ _ H).
    assert (B : (0 <= 2 ^ Z.of_nat sr < 2 ^ Z.of_nat (sl + sr))%Z).
    { split; [lia|]. apply Z.pow_lt_mono_r; lia. }
    split; auto. destruct (shift_split _ sl sr B) as (_ & _ & ->).
    destruct (join_split 1 0 sr ltac:(lia) ltac:(lia)) as (E1 & E2). rewrite Z.mul_1_l, Z.add_0_r in E1, E2. rewrite E1, E2, O0.
    destruct (word_with sl 1) as (_ & E); [lia|]. change (Z.ones (Z.of_nat 1)) with 1%Z in E. rewrite E. reflexivity.
  - rewrite Z.land_m1_r. rewrite (find_none right).
    + now destruct (find_configuration fuel (Z.shiftr (2 ^ Z.of_nat sr) (Z.of_nat sr)) left).
    + assert (In 0%Z right) by (apply MR; rewrite O0; lia).
      assert (In 1%Z right) by (apply MR; rewrite O1; lia).
      destruct right as [|a [|b l]]; cbn in *; try lia; intuition lia.
    + intros x Hx. apply MR in Hx. lia.
Qed.

(** ** Concrete cases *)
Definition lat42 : lattice := Eval vm_compute in match lattice_new 4 2 with Ok L => L | Abort => mkLat 0 0 [] end.
Example C34_ex : lattice_new 4 2 = Ok lat42 /\ configurations lat42 = [3; 5; 6; 9; 10; 12]%Z.
Proof. split; vm_compute; reflexivity. Qed.
(** |1101> -> |0111> over one particle: sign -1 *)
Example C35_ex : exists L, lattice_new 4 3 = Ok L /\ conf L 2 = 13%Z /\ conf L 0 = 7%Z /\
  @selem ZScalar (hopping_operator L 1 3 FERMIONS) 0 2 = (-1)%Z.
Proof. exists (mkLat 4 3 [7; 11; 13; 14]%Z). repeat split; vm_compute; reflexivity. Qed.

(** Hopping 0->1 of strength 5, back 7; potential 3 on site 1; interaction 2. *)
Definition zJ : @tensor ZScalar := @mk ZScalar [2; 2] (fun x => nth (nth 0 x 0 + 2 * nth 1 x 0) [0; 5; 7; 3]%Z 0%Z).
Definition zU : @tensor ZScalar := @mk ZScalar [2; 2] (fun x => nth (nth 0 x 0 + 2 * nth 1 x 0) [0; 2; 0; 0]%Z 0%Z).
Example C36_ex : exists L, lattice_new 2 1 = Ok L /\
  map (fun rc => selem (lat_Hamiltonian L zJ zU 0%Z FERMIONS) (fst rc) (snd rc)) [(0,0); (1,0); (0,1); (1,1)] = [0; 5; 7; 3]%Z.
Proof. exists (mkLat 2 1 [1; 2]%Z). repeat split; vm_compute; reflexivity. Qed.
(** All coefficients zero: an empty matrix, not a zero one. *)
Example C36_no_terms : exists L, lattice_new 2 1 = Ok L /\ dimension L = 2 /\
  sp_rows (lat_Hamiltonian L (@mk ZScalar [2; 2] (fun _ => 0%Z)) (@mk ZScalar [2; 2] (fun _ => 0%Z)) 0%Z FERMIONS) = 0.
Proof. exists (mkLat 2 1 [1; 2]%Z). repeat split; vm_compute; reflexivity. Qed.

(** C37 fails. [bad J U psi]: on a lattice of 2 sites apply_lattice differs from H psi. *)
Definition zmat (l : list Z) : @tensor ZScalar := @mk ZScalar [2; 2] (fun x => nth (nth 0 x 0 + 2 * nth 1 x 0) l 0%Z).
Definition apply_differs (N : Z) (J U : @tensor ZScalar) (psi : list Z) : Prop :=
  exists L k, lattice_new 2 N = Ok L /\ length psi = dimension L /\ k < dimension L /\
    nth k (@apply_lattice ZScalar psi L J U FERMIONS) 0%Z <>
    @sum ZScalar (dimension L) (fun r => (@selem ZScalar (lat_Hamiltonian L J U 0%Z FERMIONS) k r * nth r psi 0)%Z).

(** Only J(0,1) is not zero: the hopping goes the wrong way. *)
Theorem C37_transpose_refuted : apply_differs 1 (zmat [0; 0; 1; 0]%Z) (zmat [0; 0; 0; 0]%Z) [1; 0]%Z.
Proof. exists (mkLat 2 1 [1; 2]%Z), 1. repeat split; first [vm_compute; reflexivity | cbn; lia | vm_compute; discriminate]. Qed.
(** A potential J(1,1) moves the particle. *)
Theorem C37_potential_refuted : apply_differs 1 (zmat [0; 0; 0; 1]%Z) (zmat [0; 0; 0; 0]%Z) [1; 0]%Z.
Proof. exists (mkLat 2 1 [1; 2]%Z), 1. repeat split; first [vm_compute; reflexivity | cbn; lia | vm_compute; discriminate]. Qed.
(** U(0,0) counts twice. *)
Theorem C37_diagonal_U_refuted : apply_differs 1 (zmat [0; 0; 0; 0]%Z) (zmat [1; 0; 0; 0]%Z) [1; 0]%Z.
Proof. exists (mkLat 2 1 [1; 2]%Z), 0. repeat split; first [vm_compute; reflexivity | cbn; lia | vm_compute; discriminate]. Qed.
(** U(1,0) is ignored if U(0,1) = 0. *)
Theorem C37_lower_U_refuted : apply_differs 2 (zmat [0; 0; 0; 0]%Z) (zmat [0; 1; 0; 0]%Z) [1]%Z.
Proof. exists (mkLat 2 2 [3]%Z), 0. repeat split; first [vm_compute; reflexivity | cbn; lia | vm_compute; discriminate]. Qed.

(** A case of the hypotheses of C37_symmetric_partial, with both sides computed. *)
Definition zmat3 (l : list Z) : @tensor ZScalar := @mk ZScalar [3; 3] (fun x => nth (nth 0 x 0 + 3 * nth 1 x 0) l 0%Z).
Example C37_ex : exists L, lattice_new 3 2 = Ok L /\
  (forall i j, i < 3 -> j < 3 -> get (zmat3 [0; 2; 5; 2; 0; 3; 5; 3; 0]%Z) [i; j] = get (zmat3 [0; 2; 5; 2; 0; 3; 5; 3; 0]%Z) [j; i]) /\
  @apply_lattice ZScalar [1; 10; 100]%Z L (zmat3 [0; 2; 5; 2; 0; 3; 5; 3; 0]%Z) (zmat3 [0; 1; 0; 1; 0; 4; 0; 4; 0]%Z) FERMIONS
    = [-468; 203; 815]%Z.
Proof.
  exists (mkLat 3 2 [3; 5; 6]%Z). split; [vm_compute; reflexivity|]. split.
  - intros [|[|[|i]]] [|[|[|j]]] Hi Hj; try lia; vm_compute; reflexivity.
  - vm_compute. reflexivity.
Qed.

Example C38_ex : exists left right ndx, bipartition 10 lat42 1 = Ok (left, right, ndx) /\
  left = [0; 1]%Z /\ right = [1; 2; 3; 4; 5; 6]%Z /\ ndx = [2; 4; 5; 6; 7; 9].
Proof. do 3 eexists. repeat split; vm_compute; reflexivity. Qed.
Example C38_wide_ex : (1 <= 1)%nat /\ (32 <= 32)%nat /\ lattice_new (1 + 32) 1 <> Abort.
Proof. repeat split; try lia. rewrite C34_rejected. lia. Qed.
